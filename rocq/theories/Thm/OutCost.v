(** C85: how much work writing takes, compared to the objects and bytes written. *)

From Coq Require Import List NArith ZArith Lia Bool Arith.
From Coq Require Import ZifyBool ZifyNat ZifyN.
From Verif Require Import Base.Bytes Model.Types Model.Machine Model.Varint Model.Out Model.OutCost
  Spec.Leb128 Spec.Wire Spec.Visits Proofs.VarintP Proofs.OutP Proofs.Script Thm.Demo Thm.Output Thm.Growth
  Proofs.AliasLen Proofs.OutCostP.
Import ListNotations.
Local Open Scope N_scope.

(** ** Vocabulary *)

Definition call := (list val * list ty)%type.

(** The objects the calls pass to serialize_one. *)
Definition call_visits (G : tenv) (c : cfg) (x : call) : N := sum_many (visits G c) (fst x) (snd x).
Definition all_visits (G : tenv) (c : cfg) (xs : list call) : N :=
  fold_right (fun x n => call_visits G c x + n) 0 xs.

(** ** Proofs *)

Lemma call_paid mv G c vs ts st :
  writing G c (VSeq vs) (TTuple ts) -> ost_ok st ->
  exists n, call_cost mv G c vs ts st <= call_visits G c (vs, ts) + n
    /\ (fst (ser_many (ser G c) vs ts st) = ROk -> call_cost mv G c vs ts st = call_visits G c (vs, ts) + n)
    /\ paid c st (snd (ser_many (ser G c) vs ts st)) n.
Proof.
  intros HW Hok. destruct (cost_paid mv G c _ _ st HW Hok) as (n & A & B & C). exists n.
  change (cost mv G c (VSeq vs) (TTuple ts) st) with (1 + call_cost mv G c vs ts st) in *.
  change (visits G c (VSeq vs) (TTuple ts)) with (1 + call_visits G c (vs, ts)) in *.
  change (ser G c (VSeq vs) (TTuple ts) st) with (ser_many (ser G c) vs ts st) in *.
  split; [lia|]. split; [|exact C]. intro H. specialize (B H). lia.
Qed.

Lemma out_call_mid G c vs ts st :
  ost_ok (snd (ser_many (ser G c) vs ts st)) ->
  opos (snd (out_call G c vs ts st)) = opos (snd (ser_many (ser G c) vs ts st))
  /\ (fst (out_call G c vs ts st) = ROk -> fst (ser_many (ser G c) vs ts st) = ROk)
  /\ (nofit c = true \/ growable c = false -> out_call G c vs ts st = ser_many (ser G c) vs ts st).
Proof.
  unfold out_call. destruct (ser_many (ser G c) vs ts st) as [r s1]. cbn [fst snd]. intros [H1 _].
  destruct (growable c && negb (nofit c) && negb (exact_enlarger c)) eqn:E; [|auto].
  split; [|split].
  - unfold fit_size, buf_resize. destruct (length (obuf st) <=? opos s1)%nat; [|now destruct r].
    destruct (N.leb_spec (N.of_nat (opos s1)) (N.of_nat (length (obuf s1)))); [|lia]. now destruct r.
  - unfold fit_size, buf_resize. destruct (length (obuf st) <=? opos s1)%nat; [|now destruct r].
    destruct (N.leb_spec (N.of_nat (opos s1)) (N.of_nat (length (obuf s1)))); [|lia]. now destruct r.
  - intros [K|K]; rewrite K in E; cbn in E; try discriminate. rewrite andb_false_r in E. discriminate.
Qed.

Lemma many_stretch G c vs ts st :
  writing G c (VSeq vs) (TTuple ts) -> growable c = true -> ost_ok st ->
  stretched c st (snd (ser_many (ser G c) vs ts st)).
Proof.
  intros HW Hg Hok. destruct (ser_many (ser G c) vs ts st) as [r s1] eqn:E.
  exact (ser_stretch G c _ _ st r s1 HW Hg Hok E).
Qed.

(** What the buffer of the default enlarger pays for. *)
Lemma paid_linear c st st' n :
  emul c = 3 -> ediv c = 2 -> paid c st st' n -> (growable c = true -> stretched c st st') ->
  n <= N.of_nat (opos st' - opos st) + (if growable c then 9 * (N.of_nat (opos st') + 10) else 0).
Proof.
  intros Hm Hd (P1 & P2 & P3 & P4 & P5 & P6) S. rewrite Hm, Hd in P4.
  destruct (growable c).
  - destruct (S eq_refl) as (_ & _ & _ & [S1|S1]).
    + rewrite (P5 S1). lia.
    + rewrite Hm, Hd in S1. unfold blen in *. lia.
  - rewrite (P5 (P6 eq_refl)). lia.
Qed.

(** Growth in the course of several calls that do not fit the buffer. *)
Lemma calls_paid mv G c xs :
  nofit c = true \/ growable c = false ->
  Forall (fun x : call => writing G c (VSeq (fst x)) (TTuple (snd x))) xs ->
  forall st, ost_ok st ->
  exists n, calls_cost mv G c xs st <= all_visits G c xs + n
    /\ (fst (out_calls G c xs st) = ROk -> calls_cost mv G c xs st = all_visits G c xs + n)
    /\ paid c st (snd (out_calls G c xs st)) n
    /\ (growable c = true -> stretched c st (snd (out_calls G c xs st))).
Proof.
  intros Hf. induction 1 as [|[vs ts] xs Hx _ IH]; intros st Hok.
  - exists 0. cbn [calls_cost out_calls all_visits fold_right]. unfold ret. cbn [fst snd].
    split; [lia|]. split; [lia|]. split; [now apply paid_refl|]. intros _. now apply stretched_refl.
  - cbn [fst snd] in Hx. destruct (call_paid mv G c vs ts st Hx Hok) as (n & A & B & C).
    pose proof (out_call_mid G c vs ts st (proj1 C)) as (_ & _ & M). specialize (M Hf).
    assert (T : growable c = true -> stretched c st (snd (ser_many (ser G c) vs ts st))).
    { intro Hg. now apply many_stretch. }
    cbn [calls_cost out_calls all_visits fold_right]. unfold also, after, seq. rewrite M.
    fold (all_visits G c xs).
    destruct (ser_many (ser G c) vs ts st) as [r s1]. cbn [fst snd] in *.
    destruct r; try (exists n; cbn [fst snd]; split; [lia|]; split; [intro; discriminate|]; split; [exact C|exact T]).
    destruct (IH s1 (proj1 C)) as (m & A' & B' & C' & T'). exists (n + m).
    split; [lia|]. split; [|split].
    + intro H. rewrite B by reflexivity. rewrite B' by exact H. lia.
    + eapply paid_trans; eauto.
    + intro Hg. eapply stretched_trans; eauto.
Qed.

(** ** One call *)

(** A call that does not enlarge the buffer - it is a fixed one, or ten bytes of it remain after
    the call - and succeeds takes exactly one step per object and one per byte. *)
Theorem out_work_exact mv G c vs ts st st' :
  writing G c (VSeq vs) (TTuple ts) -> ost_ok st ->
  growable c = false \/ (opos st' + 10 <= length (obuf st))%nat ->
  out_call G c vs ts st = (ROk, st') ->
  call_cost mv G c vs ts st = call_visits G c (vs, ts) + N.of_nat (opos st' - opos st).
Proof.
  intros HW Hok Hr E. destruct (call_paid mv G c vs ts st HW Hok) as (n & A & B & C).
  destruct (out_call_mid G c vs ts st (proj1 C)) as (M1 & M2 & _). rewrite E in M1, M2. cbn [fst snd] in M1, M2.
  specialize (M2 eq_refl). rewrite (B M2). f_equal. rewrite M1.
  destruct C as (C1 & C2 & C3 & C4 & C5 & C6). apply C5.
  destruct Hr as [Hr|Hr]; [now apply C6|]. rewrite M1 in Hr.
  destruct (ser_many (ser G c) vs ts st) as [r s1] eqn:Es. cbn [fst snd] in *. subst r.
  change (ser_many (ser G c) vs ts st) with (ser G c (VSeq vs) (TTuple ts) st) in Es. rewrite ser_scr in Es.
  destruct HW as [H1 H2 H3 H4 H5 H6 H7 H8].
  refine (run_roomy (fun _ _ => true) c _ H1 _ _ st s1 Hok Es Hr).
  - now apply scr_narrow.
  - rewrite writes_enc by assumption. exact H8.
Qed.

(** With the default enlarger and whatever the outcome: one step per object, one per byte and at
    most nine for every byte up to the position reached. *)
Theorem out_work_linear mv G c vs ts st r st' :
  writing G c (VSeq vs) (TTuple ts) -> ost_ok st -> emul c = 3 -> ediv c = 2 ->
  out_call G c vs ts st = (r, st') ->
  call_cost mv G c vs ts st
  <= call_visits G c (vs, ts) + N.of_nat (opos st' - opos st)
     + (if growable c then 9 * (N.of_nat (opos st') + 10) else 0).
Proof.
  intros HW Hok Hm Hd E. destruct (call_paid mv G c vs ts st HW Hok) as (n & A & B & C).
  destruct (out_call_mid G c vs ts st (proj1 C)) as (M1 & _ & _). rewrite E in M1. cbn [snd] in M1.
  rewrite M1. pose proof (paid_linear c st _ n Hm Hd C (fun Hg => many_stretch G c vs ts st HW Hg Hok)). lia.
Qed.

(** With any enlarger that grows by a factor (numerator greater than denominator). *)
Theorem out_work_any_factor mv G c vs ts st r st' :
  writing G c (VSeq vs) (TTuple ts) -> ost_ok st -> growable c = true -> ediv c < emul c ->
  out_call G c vs ts st = (r, st') ->
  (emul c - ediv c) * ediv c
    * (call_cost mv G c vs ts st - (call_visits G c (vs, ts) + N.of_nat (opos st' - opos st)))
  <= 2 * emul c * emul c * (N.of_nat (opos st') + 10).
Proof.
  intros HW Hok Hg Hf E. destruct (call_paid mv G c vs ts st HW Hok) as (n & A & B & C).
  destruct (out_call_mid G c vs ts st (proj1 C)) as (M1 & _ & _). rewrite E in M1. cbn [snd] in M1.
  rewrite M1. pose proof (many_stretch G c vs ts st HW Hg Hok) as S.
  set (s1 := snd (ser_many (ser G c) vs ts st)) in *. clearbody s1.
  destruct C as (P1 & P2 & P3 & P4 & P5 & P6). destruct S as (_ & _ & _ & S).
  set (w := call_cost mv G c vs ts st) in *. clearbody w. set (k := call_visits G c (vs, ts)) in *. clearbody k.
  assert (K : w - (k + N.of_nat (opos s1 - opos st)) <= n - N.of_nat (opos s1 - opos st)) by lia.
  set (d := N.of_nat (opos s1 - opos st)) in *. clearbody d.
  set (p := N.of_nat (opos s1) + 10) in *. clearbody p.
  destruct S as [S|S].
  - specialize (P5 S). replace (w - (k + d)) with 0 by lia. lia.
  - set (q := emul c - ediv c) in *.
    assert (Q : q * (n - d) <= emul c * blen s1).
    { rewrite N.mul_sub_distr_l. lia. }
    transitivity (q * ediv c * (n - d)); [apply N.mul_le_mono_l; exact K|].
    transitivity (ediv c * (emul c * blen s1)); [rewrite (N.mul_comm q), <- N.mul_assoc; now apply N.mul_le_mono_l|].
    rewrite N.mul_assoc, (N.mul_comm (ediv c) (emul c)), <- N.mul_assoc.
    transitivity (emul c * (emul c * (2 * p))); [now apply N.mul_le_mono_l|]. lia.
Qed.

(** Not more steps than objects in the value, for the calls of serialize_one: fewer where an
    array, a contiguous container or a class is copied at once. *)
Theorem visits_objects G c v : forall t, visits G c v t <= objects v.
Proof.
  assert (HM : forall l, Forall (fun x => forall t, visits G c x t <= objects x) l ->
    forall ms, sum_many (visits G c) l ms <= fold_right (fun x n => objects x + n) 0 l).
  { induction 1 as [|x l Hx _ IH]; intros [|m ms]; cbn [sum_many fold_right]; try lia.
    specialize (Hx m). specialize (IH ms). lia. }
  assert (HA : forall l, Forall (fun x => forall t, visits G c x t <= objects x) l ->
    forall t, sum_all (visits G c) l t <= fold_right (fun x n => objects x + n) 0 l).
  { induction 1 as [|x l Hx _ IH]; intro t; cbn [sum_all fold_right]; try lia.
    specialize (Hx t). specialize (IH t). lia. }
  induction v as [n|l IH| |v IH|i v IH| |l|l] using val_ind'; intro t;
    destruct t as [w isb| |w sg zz| |si ms|k|n' t'|ts|s cg t'|s k t'|dc t'|t'|t'|ik meta alts|n'|k|s t'];
    cbn [visits objects]; try lia;
    try (specialize (HM l IH)); try (specialize (HA l IH));
    try (match goal with |- context [if ?b then _ else _] => destruct b end);
    try (match goal with |- context [sum_many _ _ ?x] => specialize (HM x) end);
    try (match goal with |- context [sum_all _ _ ?x] => specialize (HA x) end);
    try lia; try (specialize (IH t'); lia).
  destruct (nth_error alts i) as [t'|]; [specialize (IH t')|]; lia.
Qed.

(** ** Several calls *)

(** Calls of an archive with no_fit_size (or over a fixed buffer): the work of all of them
    together is linear in the objects passed and the position reached in the end. *)
Theorem out_calls_linear mv G c xs st r st' :
  nofit c = true \/ growable c = false -> emul c = 3 -> ediv c = 2 ->
  Forall (fun x : call => writing G c (VSeq (fst x)) (TTuple (snd x))) xs -> ost_ok st ->
  out_calls G c xs st = (r, st') ->
  calls_cost mv G c xs st
  <= all_visits G c xs + N.of_nat (opos st' - opos st)
     + (if growable c then 9 * (N.of_nat (opos st') + 10) else 0).
Proof.
  intros Hf Hm Hd HX Hok E. destruct (calls_paid mv G c xs Hf HX st Hok) as (n & A & _ & C & T).
  rewrite E in C, T. cbn [snd] in C, T. pose proof (paid_linear c st st' n Hm Hd C T). lia.
Qed.

(** With the default options every call of an archive whose buffer is full enlarges it by half
    and then cuts it back: [k] calls that write one byte each initialise more than [k * k / 4]
    bytes, however the container manages its memory. *)
Definition no_env : tenv := mkTenv (fun _ => mkSinfo 1 false false (VSeq [])) (fun _ => []).
Definition byte_calls (k : nat) : list call := repeat ([VN 7], [TScalar 1 false]) k.

Lemma byte_call_step i :
  N.of_nat i < 2 ^ 60 ->
  exists n, enlarge_for vec_cfg 1 (mkO (repeat x07 i) i) = (ROk, mkO (repeat x07 i ++ zeros n) i)
    /\ n = ((i + 3) / 2)%nat.
Proof.
  intro Hi. assert (H60 : 2 ^ 60 = 1152921504606846976) by reflexivity. rewrite H60 in Hi.
  exists ((i + 3) / 2)%nat. split; [|reflexivity].
  unfold enlarge_for, vec_cfg. cbn [opos obuf noovf emul ediv negb andb alim alloc_ok growable].
  rewrite repeat_length. rewrite wsub_small by (rewrite ?two64_val; lia). rewrite N.sub_diag.
  change (0 <? 1) with true. cbv iota.
  unfold wadd, wmul. rewrite !two64_val.
  rewrite (N.mod_small (N.of_nat i + 1)) by lia.
  change (3 =? 1) with false. change (2 =? 1) with false. cbv iota.
  rewrite (N.mod_small ((N.of_nat i + 1) * 3)) by lia.
  destruct (N.ltb_spec (N.of_nat i + 1) (N.of_nat i)); [lia|].
  rewrite (N.div_mul (N.of_nat i + 1) 3) by lia. rewrite N.eqb_refl. cbn [negb andb].
  unfold within_limit, buf_resize, can_alloc. cbn [alim negb obuf opos alloc_ok]. rewrite repeat_length.
  assert (D : (N.of_nat i + 1) * 3 / 2 = N.of_nat (i + (i + 3) / 2)).
  { rewrite Nat2N.inj_add, Nat2N.inj_div, Nat2N.inj_add.
    replace ((N.of_nat i + 1) * 3) with (N.of_nat i + N.of_nat 3 + N.of_nat i * 2) by lia.
    rewrite N.div_add by lia. change (N.of_nat 2) with 2. lia. }
  rewrite D. assert (Hq : (1 <= (i + 3) / 2 <= i + 3)%nat).
  { split; [apply Nat.div_le_lower_bound; lia|]. apply Nat.div_le_upper_bound; lia. }
  destruct (N.leb_spec (N.of_nat (i + (i + 3) / 2)) (N.of_nat i)); [lia|].
  rewrite two63_val. destruct (N.ltb_spec (N.of_nat (i + (i + 3) / 2)) 9223372036854775808); [|lia].
  cbn [andb]. rewrite Nat2N.id. do 4 f_equal. lia.
Qed.

Lemma overwrite_one i n : (1 <= n)%nat ->
  firstn (S i) (overwrite (repeat x07 i ++ zeros n) i [x07]) = repeat x07 (S i).
Proof.
  intro Hn. unfold overwrite.
  replace (firstn i (repeat x07 i ++ zeros n)) with (repeat x07 i).
  2: { rewrite firstn_app, repeat_length, Nat.sub_diag, firstn_O, app_nil_r.
       rewrite firstn_all2; [reflexivity|rewrite repeat_length; lia]. }
  rewrite firstn_app, repeat_length.
  rewrite (firstn_all2 (repeat x07 i)) by (rewrite repeat_length; lia).
  replace (S i - i)%nat with 1%nat by lia. cbn [firstn app].
  now rewrite <- repeat_cons.
Qed.

Lemma byte_call mv i :
  N.of_nat i < 2 ^ 60 ->
  out_call no_env vec_cfg [VN 7] [TScalar 1 false] (mkO (repeat x07 i) i)
    = (ROk, mkO (repeat x07 (S i)) (S i))
  /\ N.of_nat i + 3 <= 2 * call_cost mv no_env vec_cfg [VN 7] [TScalar 1 false] (mkO (repeat x07 i) i).
Proof.
  intro Hi. destruct (byte_call_step i Hi) as (n & E & Hn).
  assert (Hq : (1 <= n)%nat) by (subst n; apply Nat.div_le_lower_bound; lia).
  assert (P : put vec_cfg [x07] (mkO (repeat x07 i) i)
    = (ROk, mkO (overwrite (repeat x07 i ++ zeros n) i [x07]) (S i))).
  { unfold put, seq, reserve. cbn [growable vec_cfg length]. change (N.of_nat 1) with 1.
    rewrite E. rewrite store_ok by (cbn [opos obuf length]; rewrite app_length, repeat_length, zeros_length; lia).
    cbn [opos obuf length]. now rewrite Nat.add_1_r. }
  assert (L : length (overwrite (repeat x07 i ++ zeros n) i [x07]) = (i + n)%nat).
  { rewrite overwrite_length by (cbn [length]; rewrite app_length, repeat_length, zeros_length; lia).
    now rewrite app_length, repeat_length, zeros_length. }
  split.
  - unfold out_call. cbn [growable vec_cfg nofit negb andb exact_enlarger emul ediv].
    change (exact_enlarger _) with false. cbn [negb]. cbv zeta.
    cbn [ser_many]. unfold seq.
    change (ser _ vec_cfg (VN 7) (TScalar 1 false)) with (put vec_cfg [x07]). fold vec_cfg.
    change (ser _ _ (VN 7) (TScalar 1 false)) with (put vec_cfg [x07]).
    rewrite P. unfold ret, fit_size. cbn [obuf opos]. rewrite repeat_length.
    destruct (Nat.leb_spec i (S i)); [|lia]. unfold buf_resize. cbn [obuf opos]. rewrite L.
    destruct (N.leb_spec (N.of_nat (S i)) (N.of_nat (i + n))); [|lia].
    rewrite Nat2N.id, overwrite_one by assumption. reflexivity.
  - unfold call_cost. cbn [cost_many]. unfold also.
    match goal with |- _ <= 2 * (?a + ?b) => enough (N.of_nat i + 3 <= 2 * a) by lia end.
    cbn [cost]. change (scalar_bytes vec_cfg 1 7) with [x07]. unfold spent, resized. rewrite P.
    cbn [snd obuf opos]. rewrite L, repeat_length.
    assert (Hd : (i + 2 <= 2 * n)%nat).
    { subst n. pose proof (Nat.div_mod (i + 3) 2 ltac:(lia)). pose proof (Nat.mod_upper_bound (i + 3) 2 ltac:(lia)). lia. }
    match goal with |- context [if ?b then N.of_nat i else 0] => destruct b end; lia.
Qed.

Lemma byte_calls_cost mv k :
  forall i, N.of_nat (i + k) < 2 ^ 60 ->
  out_calls no_env vec_cfg (byte_calls k) (mkO (repeat x07 i) i) = (ROk, mkO (repeat x07 (i + k)) (i + k))
  /\ N.of_nat (k * k) + 2 * N.of_nat (k * i) <= 4 * calls_cost mv no_env vec_cfg (byte_calls k) (mkO (repeat x07 i) i).
Proof.
  induction k as [|k IH]; intros i Hi.
  - rewrite Nat.add_0_r. split; [reflexivity|]. lia.
  - destruct (byte_call mv i ltac:(lia)) as [E C].
    destruct (IH (S i) ltac:(replace (S i + k)%nat with (i + S k)%nat by lia; exact Hi)) as [E' C'].
    cbn [byte_calls repeat out_calls calls_cost]. fold (byte_calls k). unfold seq, also, after. rewrite E. split.
    + rewrite E'. now replace (S i + k)%nat with (i + S k)%nat by lia.
    + set (a := call_cost _ _ _ _ _ _) in *. set (b := calls_cost _ _ _ _ _) in *. clearbody a b. nia.
Qed.

Theorem out_calls_quadratic mv k :
  N.of_nat k < 2 ^ 60 ->
  exists st', out_calls no_env vec_cfg (byte_calls k) (mkO [] 0) = (ROk, st')
    /\ opos st' = k
    /\ all_visits no_env vec_cfg (byte_calls k) = N.of_nat k
    /\ N.of_nat k * N.of_nat k <= 4 * calls_cost mv no_env vec_cfg (byte_calls k) (mkO [] 0).
Proof.
  intro Hk. destruct (byte_calls_cost mv k 0 Hk) as [E C]. cbn [repeat Nat.add] in E, C.
  eexists. split; [exact E|]. split; [reflexivity|]. split.
  - clear. induction k as [|k IH]; [reflexivity|].
    cbn [byte_calls repeat all_visits fold_right]. fold (byte_calls k). fold (all_visits no_env vec_cfg (byte_calls k)).
    rewrite IH. change (call_visits no_env vec_cfg ([VN 7], [TScalar 1 false])) with 1. lia.
  - lia.
Qed.

Lemma some_nat n : exists k, N.of_nat k = n.
Proof. exists (N.to_nat n). apply N2Nat.id. Qed.

(** So with the default options the work is not linear: no factor up to 2^50 does. *)
Theorem out_calls_linear_refuted :
  ~ (forall mv xs st r st', ost_ok st ->
       Forall (fun x : call => writing no_env vec_cfg (VSeq (fst x)) (TTuple (snd x))) xs ->
       out_calls no_env vec_cfg xs st = (r, st') ->
       calls_cost mv no_env vec_cfg xs st
       <= 2 ^ 50 * (all_visits no_env vec_cfg xs + N.of_nat (opos st') + 1)).
Proof.
  intro H. destruct (some_nat (2 ^ 54)) as [k Hk].
  destruct (out_calls_quadratic (fun _ _ => false) k) as (st' & E & P & V & C); [rewrite Hk; reflexivity|].
  specialize (H (fun _ _ => false) (byte_calls k) (mkO [] 0) ROk st').
  assert (W : writing no_env vec_cfg (VSeq [VN 7]) (TTuple [TScalar 1 false])).
  { constructor; try reflexivity.
    - intros _. cbn. lia.
    - intro k'. split; reflexivity.
    - intro k'. reflexivity. }
  specialize (H ltac:(split; [cbn; lia|reflexivity])).
  specialize (H ltac:(apply Forall_forall; intros x Hx; apply repeat_spec in Hx; subst x; exact W) E).
  rewrite V, P, Hk in H. rewrite Hk in C.
  change (2 ^ 54 * 2 ^ 54) with (2 ^ 108) in C.
  change (2 ^ 50 * (2 ^ 54 + 2 ^ 54 + 1)) with (2 ^ 105 + 2 ^ 50) in H.
  set (w := calls_cost _ _ _ _ _) in *. clearbody w. assert (2 ^ 108 <= 4 * (2 ^ 105 + 2 ^ 50)) by lia.
  now apply N.leb_le in H0.
Qed.

(** The work of one call is not linear in the bytes it writes either: an array of [n] objects
    that take no bytes is written in [n + 1] steps. *)
Definition idle (n : nat) : call := ([VSeq (repeat (VSeq []) n)], [TArray n (TTuple [])]).

Theorem out_work_in_bytes_refuted :
  ~ (exists K, forall mv vs ts st st', ost_ok st ->
       writing no_env vec_cfg (VSeq vs) (TTuple ts) ->
       out_call no_env vec_cfg vs ts st = (ROk, st') ->
       call_cost mv no_env vec_cfg vs ts st <= K * (N.of_nat (opos st') + 1)).
Proof.
  intros [K H]. destruct (some_nat (K + 1)) as [n Hn].
  assert (A : forall mv k st, cost_all (cost mv no_env vec_cfg) (ser no_env vec_cfg) (repeat (VSeq []) k) (TTuple []) st = N.of_nat k
    /\ ser_all (ser no_env vec_cfg) (repeat (VSeq []) k) (TTuple []) st = (ROk, st)).
  { intros mv k st. induction k as [|k [IH1 IH2]]; [split; reflexivity|].
    cbn [repeat cost_all ser_all]. unfold also, after, seq.
    change (cost mv no_env vec_cfg (VSeq []) (TTuple []) st) with 1.
    change (ser no_env vec_cfg (VSeq []) (TTuple []) st) with (ROk, st). cbv iota beta.
    rewrite IH1, IH2. split; [lia|reflexivity]. }
  specialize (H (fun _ _ => false) (fst (idle n)) (snd (idle n)) (mkO [] 0) (mkO [] 0)).
  destruct (A (fun _ _ => false) n (mkO [] 0)) as [A1 A2].
  assert (as_bytes vec_cfg (TTuple []) = false) as Hb by reflexivity.
  assert (C : call_cost (fun _ _ => false) no_env vec_cfg (fst (idle n)) (snd (idle n)) (mkO [] 0) = 1 + N.of_nat n).
  { unfold call_cost, idle. cbn [fst snd cost_many]. unfold also, after.
    cbn [cost ser]. rewrite Hb, A1, A2. lia. }
  rewrite C in H. cbn [opos] in H.
  enough (1 + N.of_nat n <= K * (N.of_nat 0 + 1)) by lia.
  apply H.
  - split; [cbn; lia|reflexivity].
  - assert (F : forall p k, p (VSeq []) = true -> forallb p (repeat (VSeq []) k) = true).
    { intros p k Hp. induction k as [|k IH]; [reflexivity|]. cbn [repeat forallb]. now rewrite Hp, IH. }
    assert (Z : forall k, enc_all (enc no_env (fmt_of vec_cfg)) (repeat (VSeq []) k) (TTuple []) = pnil).
    { induction k as [|k IH]; [reflexivity|]. cbn [repeat enc_all].
      change (enc no_env (fmt_of vec_cfg) (VSeq []) (TTuple [])) with pnil. now rewrite IH. }
    constructor; try reflexivity.
    + intros _. cbn. lia.
    + intro k'. split; reflexivity.
    + intro k'. reflexivity.
    + unfold idle. cbn [fst snd wt]. cbn. rewrite repeat_length, Nat.eqb_refl. cbn. rewrite F; reflexivity.
    + destruct n; [lia|reflexivity].
    + unfold idle, encode. cbn [fst snd enc enc_many]. rewrite Z. reflexivity.
  - unfold out_call, idle. cbn [fst snd]. cbn [ser_many]. unfold seq. cbn [ser]. rewrite Hb, A2. reflexivity.
Qed.

(** ** Examples *)

(** Everything at once, into an empty vector that moves its bytes whenever it grows. *)
Example demo_work :
  let st' := snd (out_call node_env vec_cfg [demo_val] [demo_ty] (mkO [] 0)) in
  call_cost (fun _ _ => true) node_env vec_cfg [demo_val] [demo_ty] (mkO [] 0) = 127
  /\ call_visits node_env vec_cfg ([demo_val], [demo_ty]) = 22
  /\ objects demo_val = 31
  /\ opos st' = 38%nat
  /\ 127 <= 22 + 38 + 9 * (38 + 10).
Proof. vm_compute. repeat split; discriminate. Qed.

Example demo_writing_call : writing node_env vec_cfg (VSeq [demo_val]) (TTuple [demo_ty]).
Proof.
  constructor; try (vm_compute; reflexivity).
  - intros _. repeat split; vm_compute; try reflexivity; discriminate.
  - apply demo_wf_env.
  - intros [|k]; reflexivity.
Qed.

(** Into a fixed buffer with room for it, and into a vector with plenty of it. *)
Example demo_work_fixed :
  let st := mkO (zeros 48) 0 in
  ost_ok st /\ fst (out_call node_env span_cfg [demo_val] [demo_ty] st) = ROk
  /\ call_cost (fun _ _ => true) node_env span_cfg [demo_val] [demo_ty] st = 22 + 38
  /\ (opos (snd (out_call node_env vec_cfg [demo_val] [demo_ty] st)) + 10 <= length (obuf st))%nat
  /\ call_cost (fun _ _ => true) node_env vec_cfg [demo_val] [demo_ty] st = 22 + 38.
Proof. cbv zeta. split; [split; vm_compute; [lia|reflexivity]|]. vm_compute. repeat split; lia. Qed.

(** A vector of a thousand 16 bit numbers is one object. *)
Example bulk_work :
  let x := ([VSeq (repeat (VN 5) 1000)], [TVec None true (TScalar 2 false)]) in
  call_visits no_env vec_cfg x = 1 /\ objects (VSeq (repeat (VN 5) 1000)) = 1001
  /\ call_cost (fun _ _ => true) no_env vec_cfg (fst x) (snd x) (mkO [] 0) = 5020.
Proof. vm_compute. auto. Qed.

(** A hundred calls for a byte each, without and with fitting (and a container that never moves
    anything in the latter case). *)
Example calls_work :
  let c := mkCfg true false (SzFix 4) None 3 2 false true true (fun _ => true) (fun _ => 8) in
  nofit c = true
  /\ calls_cost (fun _ _ => true) no_env c (byte_calls 100) (mkO [] 0) = 589
  /\ calls_cost (fun _ _ => false) no_env vec_cfg (byte_calls 100) (mkO [] 0) = 2800.
Proof. vm_compute. auto. Qed.

Print Assumptions out_work_exact.
Print Assumptions out_work_linear.
Print Assumptions out_work_any_factor.
Print Assumptions visits_objects.
Print Assumptions out_calls_linear.
Print Assumptions out_calls_quadratic.
Print Assumptions out_calls_linear_refuted.
Print Assumptions out_work_in_bytes_refuted.
