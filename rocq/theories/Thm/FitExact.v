(** C94: what is left behind the data when the buffer grows to exact sizes (C07 for the rest). *)

From Coq Require Import List NArith ZArith Lia Bool Arith.
From Coq Require Import ZifyBool ZifyNat ZifyN.
From Verif Require Import Base.Bytes Model.Types Model.Machine Model.Varint Model.Out
  Spec.Leb128 Spec.Wire Proofs.VarintP Proofs.OutP Proofs.InBase Proofs.InSafe Thm.Demo Thm.Output Thm.Growth.
Import ListNotations.
Local Open Scope N_scope.

(** ** Every other enlarger: the data end at the position *)

(** enlarger<Multiplier, Divisor> other than enlarger<1, 1>, in particular the default: a call that begins at the end of the data ends at their end. *)
Theorem enlarger_fits G c vs ts st r st' :
  writing G c (VSeq vs) (TTuple ts) -> bits_ok G (TTuple ts) st -> ost_ok st ->
  growable c = true -> nofit c = false -> ~ (emul c = 1 /\ ediv c = 1) ->
  opos st = length (obuf st) ->
  out_call G c vs ts st = (r, st') -> r <> RThrow ->
  length (obuf st') = opos st'.
Proof.
  intros HW Hb Ho Hg Hf He Hend H Hr. eapply out_call_fits; eauto.
  unfold exact_enlarger. destruct (N.eqb_spec (emul c) 1), (N.eqb_spec (ediv c) 1); auto. exfalso. auto.
Qed.

(** ** enlarger<1, 1> *)

(** Nothing in the type is a varint: neither an item nor the size of a container or view. *)
Definition fixed_size (c : cfg) (s : option sizety) : bool :=
  match sz_of c s with SzVar _ => false | _ => true end.
Definition no_varint (c : cfg) (t : ty) : bool :=
  match t with
  | TVarint _ _ _ => false
  | TVec s _ _ | TAssoc s _ _ | TSpan s _ | TView (VwSized s) => fixed_size c s
  | _ => true
  end.

(** At most [B] bytes behind the position. *)
Definition spare (B : nat) (st : ost) : Prop := ost_ok st /\ (length (obuf st) <= opos st + B)%nat.
Definition keeps (B : nat) (a : act) : Prop := forall st r st', spare B st -> a st = (r, st') -> r <> RUB -> spare B st'.

Definition width_ok (B : nat) (w : nat) : bool := wfw w && (18 <=? B)%nat.
Definition size_ok (c : cfg) (B : nat) (s : option sizety) : bool :=
  match sz_of c s with SzVar w => width_ok B w | _ => true end.
Definition varint_ok (c : cfg) (B : nat) (t : ty) : bool :=
  match t with
  | TVarint w _ _ => width_ok B w
  | TVec s _ _ | TAssoc s _ _ | TSpan s _ | TView (VwSized s) => size_ok c B s
  | _ => true
  end.

Section Exact.
  Variables (c : cfg) (B : nat).
  Hypothesis (Hg : growable c = true) (Hm : emul c = 1) (Hd : ediv c = 1) (Hno : noovf c = false).

  Lemma exact_enlarge add st r st' : ost_ok st -> enlarge_for c add st = (r, st') ->
    st' = st /\ (r = ROk -> add <= N.of_nat (length (obuf st) - opos st))
    \/ r = ROk /\ ost_ok st' /\ opos st' = opos st /\ N.of_nat (length (obuf st) - opos st) < add
       /\ (add < two64 -> N.of_nat (length (obuf st')) = N.of_nat (length (obuf st)) + add).
  Proof.
    intros [Hp Hs]. unfold enlarge_for. rewrite two63_val in Hs.
    rewrite wsub_small by (rewrite ?two64_val; lia).
    rewrite Hno, Hm, Hd. change (1 =? 1) with true. cbn [negb andb].
    replace (N.of_nat (length (obuf st)) - N.of_nat (opos st)) with (N.of_nat (length (obuf st) - opos st)) by lia.
    destruct (N.ltb_spec (N.of_nat (length (obuf st) - opos st)) add) as [La|La];
      [|intro E; injection E as <- <-; left; auto].
    destruct (N.ltb_spec (wadd (N.of_nat (length (obuf st))) add) (N.of_nat (length (obuf st)))) as [L|L];
      [intro E; injection E as <- <-; left; split; [reflexivity|discriminate]|].
    destruct (within_limit c _); cbn [negb]; [|intro E; injection E as <- <-; left; split; [reflexivity|discriminate]].
    assert (Hw : add < two64 -> N.of_nat (length (obuf st)) + add < two64 /\
      wadd (N.of_nat (length (obuf st))) add = N.of_nat (length (obuf st)) + add).
    { intro Ha. unfold wadd in L |- *. rewrite two64_val in *.
      destruct (N.lt_ge_cases (N.of_nat (length (obuf st)) + add) 18446744073709551616) as [K|K].
      - rewrite N.mod_small by exact K. auto.
      - exfalso. replace (N.of_nat (length (obuf st)) + add)
          with (N.of_nat (length (obuf st)) + add - 18446744073709551616 + 1 * 18446744073709551616) in L by lia.
        rewrite N.mod_add in L by discriminate. rewrite N.mod_small in L by lia. lia. }
    unfold buf_resize.
    destruct (N.leb_spec (wadd (N.of_nat (length (obuf st))) add) (N.of_nat (length (obuf st)))) as [L2|L2].
    - intro E. injection E as <- <-. right. cbn [obuf opos].
      assert (Eq : wadd (N.of_nat (length (obuf st))) add = N.of_nat (length (obuf st))) by lia.
      rewrite Eq, Nat2N.id, firstn_all. split; [reflexivity|].
      split; [split; [exact Hp|rewrite two63_val; exact Hs]|]. split; [reflexivity|]. split; [exact La|].
      intro Ha. destruct (Hw Ha). lia.
    - unfold can_alloc. destruct (N.ltb_spec (wadd (N.of_nat (length (obuf st))) add) (2 ^ 63)) as [L3|L3]; cbn [andb];
        [|intro E; injection E as <- <-; left; split; [reflexivity|discriminate]].
      destruct (alloc_ok c _); [|intro E; injection E as <- <-; left; split; [reflexivity|discriminate]].
      intro E. injection E as <- <-. right. cbn [obuf opos]. split; [reflexivity|].
      assert (K : (length (obuf st ++ zeros (N.to_nat (wadd (N.of_nat (length (obuf st))) add) - length (obuf st)))
                   = N.to_nat (wadd (N.of_nat (length (obuf st))) add))%nat)
        by (rewrite app_length, zeros_length; lia).
      split; [split; cbn [obuf opos]; rewrite K; [lia|rewrite two63_val in *; lia]|].
      split; [reflexivity|]. split; [exact La|]. intro Ha. rewrite K. destruct (Hw Ha) as [_ ->]. lia.
  Qed.

  (** Room for [add] bytes is made, then [n] of them are used. *)
  Lemma exact_write add n st r st1 r' st' (f : list byte -> list byte) :
    (forall l, length (f l) = length l) ->
    spare B st -> enlarge_for c add st = (r, st1) ->
    (N.of_nat n <= add) -> (N.of_nat n < add -> add <= 10 /\ (1 <= n)%nat /\ (18 <= B)%nat) ->
    (if match r with ROk => true | _ => false end
     then (if (opos st1 + n <=? length (obuf st1))%nat
           then (ROk, mkO (f (obuf st1)) (opos st1 + n)) else (RUB, st1))
     else (r, st1)) = (r', st') ->
    r' <> RUB -> spare B st'.
  Proof.
    intros Hf [Ho Hb] He Hn Ha E Hr. pose proof Ho as [Hp Hs].
    destruct (exact_enlarge _ _ _ _ Ho He) as [[-> Hk]|(-> & [O1 O2] & P1 & P2 & P3)].
    - destruct r; try (injection E as <- <-; split; assumption).
      destruct (Nat.leb_spec (opos st + n) (length (obuf st))); injection E as <- <-; [|congruence].
      split; [split|]; cbn [obuf opos]; rewrite Hf; [lia|exact Hs|lia].
    - destruct (Nat.leb_spec (opos st1 + n) (length (obuf st1))) as [L|L]; injection E as <- <-; [|congruence].
      assert (Hadd : add < two64).
      { destruct (N.eq_dec (N.of_nat n) add) as [Eq|Ne].
        - rewrite two63_val in O2. rewrite two64_val. lia.
        - rewrite two64_val. lia. }
      specialize (P3 Hadd).
      split; [split|]; cbn [obuf opos]; rewrite Hf; [lia|exact O2|].
      destruct (N.eq_dec (N.of_nat n) add) as [Eq|Ne]; lia.
  Qed.

  Lemma keeps_put e : keeps B (put c e).
  Proof.
    intros st r st' Hs E Hr. unfold put, seq, reserve in E. rewrite Hg in E.
    destruct (enlarge_for c (N.of_nat (length e)) st) as [r1 st1] eqn:E1.
    eapply (exact_write _ (length e) st r1 st1 r st' (fun l => if (opos st1 + length e <=? length l)%nat
      then overwrite l (opos st1) e else l)); eauto; [| lia | lia |].
    - intro l. destruct (Nat.leb_spec (opos st1 + length e) (length l)); [|reflexivity].
      now rewrite overwrite_length.
    - destruct r1; try exact E. cbv iota. unfold store in E.
      destruct (opos st1 + length e <=? length (obuf st1))%nat; exact E.
  Qed.

  Lemma keeps_ret : keeps B ret.
  Proof. intros st r st' Hs E Hr. injection E as <- <-. exact Hs. Qed.
  Lemma keeps_fail e : keeps B (fail e).
  Proof. intros st r st' Hs E Hr. injection E as <- <-. exact Hs. Qed.
  Lemma keeps_seq a b : keeps B a -> keeps B b -> keeps B (a ;; b).
  Proof.
    intros Ka Kb st r st' Hs E Hr. unfold seq in E. destruct (a st) as [r1 st1] eqn:E1.
    destruct r1; try (injection E as <- <-; eapply Ka; eauto; fail).
    eapply Kb; [|exact E|exact Hr]. eapply Ka; eauto. discriminate.
  Qed.
  Lemma keeps_put_bytes e : keeps B (put_bytes c e).
  Proof. destruct e; [apply keeps_ret|apply keeps_put]. Qed.

  Lemma vloop_length f v : (0 < f)%nat -> (1 <= length (vloop f v) <= f)%nat.
  Proof.
    revert v. induction f as [|f IH]; intros v Hf; [lia|]. cbn [vloop].
    destruct (v <? 128); cbn [length]; [lia|]. destruct f; [cbn; lia|]. specialize (IH (N.shiftr v 7) ltac:(lia)). lia.
  Qed.

  Lemma keeps_varint w sg zz n : width_ok B w = true -> keeps B (ser_varint c w sg zz n).
  Proof.
    intros Hw st r st' Hs E Hr. apply andb_true_iff in Hw as [Hw HB].
    unfold ser_varint, seq, varint_reserve in E. rewrite Hg in E.
    set (e := vloop (varint_max_size w) (wire_value w sg zz n)) in *.
    assert (Hl : (1 <= length e <= varint_max_size w)%nat) by (apply vloop_length, max_size_pos).
    assert (Hm10 : (varint_max_size w <= 10)%nat).
    { clear -Hw. unfold wfw in Hw. rewrite !orb_true_iff, !Nat.eqb_eq in Hw.
      destruct Hw as [[[->| ->]| ->]| ->]; vm_compute; lia. }
    destruct (enlarge_for c (N.of_nat (varint_max_size w)) st) as [r1 st1] eqn:E1.
    eapply (exact_write _ (length e) st r1 st1 r st' (fun l => if (opos st1 + length e <=? length l)%nat
      then overwrite l (opos st1) e else l)); eauto; [| lia | lia |].
    - intro l. destruct (Nat.leb_spec (opos st1 + length e) (length l)); [|reflexivity].
      now rewrite overwrite_length.
    - destruct r1; try exact E. cbv iota. unfold store in E.
      destruct (opos st1 + length e <=? length (obuf st1))%nat; exact E.
  Qed.

  Lemma keeps_size s n : size_ok c B s = true -> keeps B (ser_size c (sz_of c s) n).
  Proof.
    unfold size_ok. destruct (sz_of c s); intro H; cbn [ser_size].
    - apply keeps_ret.
    - apply keeps_put.
    - now apply keeps_varint.
  Qed.

  Lemma keeps_bitset n l : keeps B (ser_bitset c n l).
  Proof.
    intros st r st' Hs E Hr. unfold ser_bitset, seq, reserve in E. rewrite Hg in E.
    destruct (enlarge_for c (N.of_nat (bitset_bytes n)) st) as [r1 st1] eqn:E1.
    eapply (exact_write _ (bitset_bytes n) st r1 st1 r st' (fun b => or_bits b (opos st1) 0 l)); eauto; [| lia | lia |].
    - intro b. apply or_bits_length.
    - destruct r1; exact E.
  Qed.

  Lemma keeps_many f l ms :
    Forall (fun x => forall t, tall (varint_ok c B) t = true -> keeps B (f x t)) l ->
    forallb (tall (varint_ok c B)) ms = true -> keeps B (ser_many f l ms).
  Proof.
    intro H. revert ms. induction H as [|x l Hx Hl IH]; intros [|m ms] Hm0; cbn [ser_many];
      try apply keeps_ret; try apply keeps_fail.
    cbn [forallb] in Hm0. apply andb_true_iff in Hm0 as [H1 H2]. apply keeps_seq; auto.
  Qed.

  Lemma keeps_all f l t :
    Forall (fun x => forall t, tall (varint_ok c B) t = true -> keeps B (f x t)) l ->
    tall (varint_ok c B) t = true -> keeps B (ser_all f l t).
  Proof.
    intros H Ht. induction H as [|x l Hx Hl IH]; cbn [ser_all]; [apply keeps_ret|]. apply keeps_seq; auto.
  Qed.

  Lemma ser_keeps G : tall_env (varint_ok c B) G ->
    forall v t, tall (varint_ok c B) t = true -> keeps B (ser G c v t).
  Proof.
    intro HG. induction v as [n|l IH| |v IH|i v IH| |l|l] using val_ind'; intros t Ht;
      destruct t as [w isb| |w sg zz| |si ms|k|n' t'|ts|s cg t'|s k t'|dc t'|t'|t'|ik meta alts|n'|k|s t'];
      cbn [tall varint_ok] in Ht; try (apply andb_true_iff in Ht as [Ht1 Ht2]);
      cbn [ser]; try apply keeps_fail; try apply keeps_put; try (now apply keeps_varint);
      try (destruct k as [s|nv|]; apply keeps_fail);
      try (apply keeps_seq; [now apply keeps_size|]).
    - destruct l; [apply keeps_ret|apply keeps_fail].
    - destruct (_ && _); [apply keeps_ret|]. destruct (as_bytes c _); [apply keeps_put_bytes|now apply keeps_many].
    - apply keeps_many; auto.
    - destruct (as_bytes c _); [apply keeps_put_bytes|now apply keeps_all].
    - now apply keeps_many.
    - destruct (_ && _); [apply keeps_put_bytes|now apply keeps_all].
    - now apply keeps_all.
    - destruct (as_bytes c _); [apply keeps_put_bytes|now apply keeps_all].
    - apply keeps_seq; [apply keeps_put|now apply IH].
    - apply keeps_seq; [apply keeps_put|now apply IH].
    - now apply IH.
    - destruct (nth_error meta i) as [[id ?]|]; [|apply keeps_fail].
      destruct (nth_error alts i) as [t'|] eqn:Ea; [|apply keeps_fail].
      apply keeps_seq; [destruct ik; [apply keeps_put|apply keeps_put_bytes]|]. apply IH.
      rewrite forallb_forall in Ht2. apply Ht2. eapply nth_error_In; eauto.
    - apply keeps_bitset.
    - destruct k as [s|nv|]; [apply keeps_seq; [now apply keeps_size|]| |]; apply keeps_put_bytes.
  Qed.
End Exact.

Lemma fixed_ok c t : tall (no_varint c) t = true -> tall (varint_ok c 0) t = true.
Proof.
  apply tall_sub. intros t'. destruct t' as [| | | | | | | | | | | | | | |[]|]; cbn [no_varint varint_ok]; auto;
    try discriminate; unfold fixed_size, size_ok; destruct (sz_of c _); auto; discriminate.
Qed.

Lemma wf_ok G c t : szok c = true -> wf G t = true -> tall (varint_ok c 18) t = true.
Proof.
  intro Hd.
  assert (S : forall s, wfsz s = true -> size_ok c 18 s = true).
  { intros s Hs. unfold size_ok. apply (wfsz_sz_of c s Hd) in Hs. destruct (sz_of c s) as [|w|w]; auto.
    unfold width_ok. cbn [wfsz] in Hs. now rewrite Hs. }
  induction t using ty_ind'; cbn [wf tall varint_ok]; rewrite ?andb_true_iff; auto.
  - intro Hw. unfold width_ok. now rewrite Hw.
  - intros [[_ Hw] _]. split; [reflexivity|]. rewrite forallb_forall in *. rewrite Forall_forall in H. auto.
  - intros [_ Hw]. auto.
  - intro Hw. split; [reflexivity|]. rewrite forallb_forall in *. rewrite Forall_forall in H. auto.
  - intros [Hs Hw]. auto.
  - intros [Hs Hw]. auto.
  - intros [_ Hw]. split; [reflexivity|]. rewrite forallb_forall in *. rewrite Forall_forall in H. auto.
  - destruct k; auto.
  - intros [Hs Hw]. auto.
Qed.

(** Without varints: no call leaves anything behind the position, whether it succeeds, fails or
    throws; so nothing has to be cut off. *)
Theorem exact_enlarger_fits G c vs ts st r st' :
  writing G c (VSeq vs) (TTuple ts) -> bits_ok G (TTuple ts) st -> ost_ok st ->
  growable c = true -> emul c = 1 -> ediv c = 1 ->
  tall (no_varint c) (TTuple ts) = true -> tall_env (no_varint c) G ->
  opos st = length (obuf st) ->
  out_call G c vs ts st = (r, st') ->
  length (obuf st') = opos st'.
Proof.
  intros HW Hb Ho Hg Hm Hd Ht HtG Hend E.
  assert (Hx : out_call G c vs ts st = ser G c (VSeq vs) (TTuple ts) st).
  { unfold out_call, exact_enlarger. rewrite Hm, Hd. change (1 =? 1) with true. cbn [andb negb].
    rewrite andb_false_r. reflexivity. }
  destruct (w_cfg _ _ _ _ HW Hg) as (_ & _ & Hno). rewrite Hx in E.
  assert (Hr : r <> RUB) by (eapply out_frame; eauto).
  assert (K : spare 0 st').
  { eapply (ser_keeps c 0 Hg Hm Hd Hno G); [|apply fixed_ok; exact Ht| |exact E|exact Hr].
    - intro k. specialize (HtG k). rewrite forallb_forall in *. intros t Hin. apply fixed_ok. auto.
    - split; [exact Ho|lia]. }
  destruct K as [[K1 _] K2]. lia.
Qed.

(** With varints: at most 18 bytes, counted over all calls since the archive was at the end of
    its data. *)
Theorem exact_enlarger_spare G c vs ts st r st' :
  writing G c (VSeq vs) (TTuple ts) -> bits_ok G (TTuple ts) st -> ost_ok st ->
  growable c = true -> emul c = 1 -> ediv c = 1 ->
  (length (obuf st) <= opos st + 18)%nat ->
  out_call G c vs ts st = (r, st') ->
  (opos st' <= length (obuf st') <= opos st' + 18)%nat.
Proof.
  intros HW Hb Ho Hg Hm Hd Hend E.
  assert (Hx : out_call G c vs ts st = ser G c (VSeq vs) (TTuple ts) st).
  { unfold out_call, exact_enlarger. rewrite Hm, Hd. change (1 =? 1) with true. cbn [andb negb].
    rewrite andb_false_r. reflexivity. }
  destruct (w_cfg _ _ _ _ HW Hg) as (_ & _ & Hno). rewrite Hx in E.
  assert (Hr : r <> RUB) by (eapply out_frame; eauto).
  assert (K : spare 18 st').
  { eapply (ser_keeps c 18 Hg Hm Hd Hno G); [|apply (wf_ok G); [apply HW|apply HW]| |exact E|exact Hr].
    - intro k. destruct (w_env _ _ _ _ HW k) as [Hw _]. rewrite forallb_forall in *. intros t Hin.
      apply (wf_ok G); [apply HW|auto].
    - split; assumption. }
  destruct K as [[K1 _] K2]. lia.
Qed.

(** ** Examples *)

Definition exact_demo : cfg :=
  mkCfg true false (SzFix 4) None 1 1 false false true (fun _ => true) (fun _ => 8).

Example exact_fits_nontrivial :
  let ts := [TVec None true (TScalar 2 false); TOpt true (TScalar 8 false); TRec 0] in
  let vs := [VSeq [VN 5; VN 6; VN 65535]; VSome (VN 7); VSeq [VN 8; VSome (VSeq [VN 9; VNone])]] in
  (let '(r, st') := out_call node_env exact_demo vs ts (mkO [xaa; xbb] 2) in
   r = ROk /\ length (obuf st') = opos st' /\ (20 < opos st')%nat)
  /\ tall (no_varint exact_demo) (TTuple ts) = true /\ tall_env (no_varint exact_demo) node_env.
Proof.
  split; [vm_compute; repeat split; lia|]. split; [vm_compute; reflexivity|]. intros [|[|k]]; reflexivity.
Qed.

(** Two varints of one byte each: 18 more bytes stay behind them, and are sent by a program that
    sends its vector. *)
Theorem exact_enlarger_fits_refuted :
  exists vs ts st',
    writing node_env exact_demo (VSeq vs) (TTuple ts)
    /\ out_call node_env exact_demo vs ts (mkO [] 0) = (ROk, st')
    /\ opos st' = 2%nat /\ obuf st' = [x01; x02] ++ zeros 18.
Proof.
  exists [VN 1; VN 2], [TVarint 8 false false; TVarint 8 false false], (mkO ([x01; x02] ++ zeros 18) 2).
  split; [|split; [vm_compute; reflexivity|split; reflexivity]].
  split; try reflexivity.
  - intros _. split; [reflexivity|]. split; [discriminate|reflexivity].
  - intro k. destruct k as [|[|k]]; split; reflexivity.
  - intro k. destruct k as [|[|k]]; reflexivity.
Qed.

Print Assumptions enlarger_fits.
Print Assumptions exact_enlarger_fits.
Print Assumptions exact_enlarger_spare.
Print Assumptions exact_enlarger_fits_refuted.
