(** The central theorem about output archives: what [ser] does to the buffer, for every
    value, configuration and outcome. *)

From Coq Require Import List NArith ZArith Lia Bool Arith.
From Coq Require Import ZifyBool ZifyNat ZifyN.
From Verif Require Import Base.Bytes Model.Types Model.Machine Model.Varint Model.Out
  Spec.Leb128 Spec.Wire Proofs.VarintP.
Import ListNotations.
Local Open Scope N_scope.

Ltac Zify.zify_post_hook ::= Z.div_mod_to_equations.

(** The wire format an archive configuration stands for. *)
Definition fmt_of (c : cfg) : wfmt := mkWfmt (xorb (host_le c) (swap c)) (dsize c).

(** Enlarger options for which growth is meaningful: not shrinking, overflow checked. *)
Definition wf_out (c : cfg) : Prop :=
  growable c = true -> 0 < ediv c /\ ediv c <= emul c /\ noovf c = false.

(** A buffer that fits in memory, with the position inside it. *)
Definition ost_ok (st : ost) : Prop :=
  (opos st <= length (obuf st))%nat /\ N.of_nat (length (obuf st)) < 2 ^ 63.

(** All bytes from the position on are zero. *)
Definition clean (st : ost) : Prop :=
  skipn (opos st) (obuf st) = zeros (length (obuf st) - opos st).

(** The allocator and the limit allow everything needed to reach position [E]. *)
Definition rich (c : cfg) (E : nat) : Prop :=
  growable c = true /\
  emul c * (2 * (N.of_nat E + 10)) < two64 /\
  forall n, n <= emul c * (2 * (N.of_nat E + 10)) / ediv c ->
    can_alloc c n = true /\ within_limit c n = true.

Definition final (p : pout) : res := if snd p then ROk else RErr invalid_argument.

Definition outcome (c : cfg) (st : ost) (p : pout) (r : res) (st' : ost) : Prop :=
  exists e1 e2 k,
    fst p = e1 ++ e2 /\
    st' = mkO (overwrite (obuf st ++ zeros k) (opos st) e1) (opos st + length e1) /\
    (opos st + length e1 <= length (obuf st) + k)%nat /\
    (k = O \/ growable c = true
              /\ within_limit c (N.of_nat (length (obuf st) + k)) = true
              /\ can_alloc c (N.of_nat (length (obuf st) + k)) = true) /\
    match r with
    | ROk => e2 = [] /\ snd p = true
    | RErr invalid_argument => e2 = [] /\ snd p = false
    | RErr result_out_of_range =>
        growable c = false /\ (length (obuf st) - opos st < length (fst p))%nat
    | RErr no_buffer_space => growable c = true
    | RThrow => growable c = true
    | _ => False
    end.

Definition emits (c : cfg) (b : bool) (a : act) (p : pout) : Prop :=
  wf_out c -> N.of_nat (length (fst p)) < 2 ^ 63 ->
  forall st, ost_ok st -> (b = true -> clean st) ->
  let '(r, st') := a st in
  outcome c st p r st' /\
  (forall E, rich c E -> (opos st + length (fst p) <= E)%nat -> r = final p).

Lemma two64_val : two64 = 18446744073709551616.
Proof. reflexivity. Qed.
Lemma two63_val : 2 ^ 63 = 9223372036854775808.
Proof. reflexivity. Qed.

Lemma wsub_small a b : a < two64 -> b <= a -> wsub a b = a - b.
Proof.
  intros Ha Hb. unfold wsub. rewrite two64_val in *.
  rewrite (N.mod_small b) by lia.
  replace (a + (18446744073709551616 - b)) with (a - b + 1 * 18446744073709551616) by lia.
  rewrite N.mod_add by lia. apply N.mod_small. lia.
Qed.

Lemma st_eta st : st = mkO (overwrite (obuf st ++ zeros 0) (opos st) []) (opos st + length (@nil byte)).
Proof.
  destruct st as [buf pos]. cbn [obuf opos]. unfold zeros. cbn [repeat length].
  now rewrite app_nil_r, overwrite_nil, Nat.add_0_r.
Qed.

(** ** enlarge_for *)

Lemma enlarge_for_spec c add st :
  wf_out c -> growable c = true -> ost_ok st -> add < 2 ^ 63 ->
  let '(r, st') := enlarge_for c add st in
  (exists k, st' = mkO (obuf st ++ zeros k) (opos st) /\
     (k = O \/ within_limit c (N.of_nat (length (obuf st) + k)) = true
               /\ can_alloc c (N.of_nat (length (obuf st) + k)) = true) /\
     (r = ROk /\ N.of_nat (opos st) + add <= N.of_nat (length (obuf st) + k)
      \/ (r = RErr no_buffer_space \/ r = RThrow) /\ k = O)) /\
  (forall E, rich c E -> N.of_nat (opos st) + add <= N.of_nat E + 10 -> r = ROk).
Proof.
  intros Hwf Hg [Hpos Hsz] Hadd.
  destruct (Hwf Hg) as (Hd & Hmd & Hno).
  unfold enlarge_for. rewrite Hno. cbn [negb andb].
  set (size := N.of_nat (length (obuf st))) in *.
  rewrite two63_val in *.
  rewrite wsub_small by (rewrite ?two64_val; unfold size; lia).
  destruct (N.ltb_spec (size - N.of_nat (opos st)) add) as [Hlt|Hge].
  2:{ split; [|reflexivity]. exists O. rewrite Nat.add_0_r. unfold zeros. cbn [repeat].
      rewrite app_nil_r. destruct st; cbn. repeat split; auto.
      left. split; [reflexivity|]. unfold size in *. cbn in *. lia. }
  assert (Hreq : wadd size add = size + add).
  { unfold wadd. apply N.mod_small. rewrite two64_val. unfold size in *. lia. }
  rewrite Hreq.
  destruct (N.ltb_spec (size + add) size); [lia|].
  set (scaled := if emul c =? 1 then size + add else wmul (size + add) (emul c)).
  assert (Hsc : negb (emul c =? 1) && true && negb (scaled / emul c =? size + add) = false ->
                scaled = (size + add) * emul c).
  { unfold scaled. destruct (N.eqb_spec (emul c) 1) as [->|Hne]; [lia|].
    intro HH. cbn in HH. apply negb_false_iff, N.eqb_eq in HH.
    unfold wmul in *. rewrite two64_val in *.
    assert (size + add <> 0) by lia.
    destruct (N.ltb_spec ((size + add) * emul c) 18446744073709551616) as [Hl|Hl].
    - apply N.mod_small. exact Hl.
    - exfalso.
      assert (((size + add) * emul c) mod 18446744073709551616 < 18446744073709551616)
        by (apply N.mod_lt; lia).
      set (m := ((size + add) * emul c) mod 18446744073709551616) in *.
      assert (size + add <= m / emul c) by lia.
      assert (emul c * (m / emul c) <= m) by (apply N.mul_div_le; lia).
      nia. }
  assert (Hsc' : (size + add) * emul c < two64 ->
                 negb (emul c =? 1) && true && negb (scaled / emul c =? size + add) = false).
  { intro Hl. unfold scaled. destruct (N.eqb_spec (emul c) 1) as [->|Hne]; [reflexivity|].
    cbn. apply negb_false_iff, N.eqb_eq. unfold wmul. rewrite N.mod_small by exact Hl.
    apply N.div_mul. lia. }
  assert (Hrich : forall E, rich c E -> N.of_nat (opos st) + add <= N.of_nat E + 10 ->
            (size + add) * emul c <= emul c * (2 * (N.of_nat E + 10))).
  { intros E _ HE. assert (size + add <= 2 * (N.of_nat E + 10)) by lia. nia. }
  destruct (negb (emul c =? 1) && true && negb (scaled / emul c =? size + add)) eqn:Eov.
  { split.
    - exists O. unfold zeros. cbn [repeat]. rewrite app_nil_r. destruct st; cbn. auto 10.
    - intros E HR HE. exfalso.
      specialize (Hrich E HR HE). destruct HR as (_ & Hm & _).
      pose proof (Hsc' ltac:(lia)). congruence. }
  specialize (Hsc eq_refl).
  set (new := if ediv c =? 1 then scaled else scaled / ediv c).
  assert (Hnew : new = (size + add) * emul c / ediv c).
  { unfold new. rewrite Hsc. destruct (N.eqb_spec (ediv c) 1) as [->|]; [|reflexivity].
    now rewrite N.div_1_r. }
  assert (Hbig : size + add <= new).
  { rewrite Hnew. apply N.div_le_lower_bound; [lia|]. nia. }
  assert (HrichN : forall E, rich c E -> N.of_nat (opos st) + add <= N.of_nat E + 10 ->
            can_alloc c new = true /\ within_limit c new = true).
  { intros E HR HE. specialize (Hrich E HR HE). destruct HR as (_ & _ & Hn).
    apply Hn. rewrite Hnew. apply N.div_le_mono; lia. }
  destruct (within_limit c new) eqn:Elim; cbn [negb].
  2:{ split.
      - exists O. unfold zeros. cbn [repeat]. rewrite app_nil_r. destruct st; cbn. auto 10.
      - intros E HR HE. destruct (HrichN E HR HE). discriminate. }
  unfold buf_resize. fold size.
  destruct (N.leb_spec new size); [lia|].
  destruct (can_alloc c new) eqn:Eal.
  - split; [|reflexivity].
    exists (N.to_nat new - length (obuf st))%nat.
    assert (Hk : N.of_nat (length (obuf st) + (N.to_nat new - length (obuf st))) = new)
      by (unfold size in *; lia).
    split; [reflexivity|]. rewrite Hk. split; [auto|].
    left. split; [reflexivity|]. unfold size in *. lia.
  - split.
    + exists O. unfold zeros. cbn [repeat]. rewrite app_nil_r. destruct st; cbn. auto 10.
    + intros E HR HE. destruct (HrichN E HR HE). discriminate.
Qed.

(** ** Basic actions *)

Lemma emits_ret c b : emits c b ret pnil.
Proof.
  intros Hwf Hl st Hok Hcl. cbn. split; [|reflexivity].
  exists [], [], O. repeat split; auto.
  - apply st_eta.
  - destruct Hok. cbn. lia.
Qed.

Lemma emits_refuse c b : emits c b (fail (RErr invalid_argument)) ([], false).
Proof.
  intros Hwf Hl st Hok Hcl. cbn. split; [|reflexivity].
  exists [], [], O. repeat split; auto.
  - apply st_eta.
  - destruct Hok. cbn. lia.
Qed.

(** Reserve room for [n >= length e] bytes, then any update that stores [e]. *)
Lemma emits_reserve_gen c b n (chk : act) (upd : act) e :
  (forall st, growable c = true -> chk st = enlarge_for c n st) ->
  (forall st, growable c = false -> ost_ok st ->
     if (length (obuf st) - opos st <? length e)%nat then chk st = (RErr result_out_of_range, st)
     else chk st = (ROk, st)) ->
  N.of_nat (length e) <= n -> n <= N.of_nat (length e) + 10 -> n < 2 ^ 63 ->
  (forall st, ost_ok st -> (b = true -> clean st) -> (opos st + length e <= length (obuf st))%nat ->
     upd st = (ROk, mkO (overwrite (obuf st) (opos st) e) (opos st + length e))) ->
  emits c b (chk ;; upd) (pdone e).
Proof.
  intros Hg Hng Hn1 Hn2 Hn3 Hupd Hwf Hl st Hok Hcl. cbn [fst pdone] in *.
  unfold seq. destruct (growable c) eqn:Eg.
  - rewrite Hg by reflexivity.
    pose proof (enlarge_for_spec c n st Hwf Eg Hok Hn3) as H.
    destruct (enlarge_for c n st) as [r st'].
    destruct H as [(k & -> & Hk & Hr) Hrich].
    destruct Hr as [[-> Hroom]|[Hr ->]].
    + assert (Hok' : ost_ok (mkO (obuf st ++ zeros k) (opos st))).
      { destruct Hok as [H1 H2]. split; cbn [obuf opos]; rewrite app_length, zeros_length.
        - lia.
        - destruct Hk as [->|[_ Hc]]; [rewrite Nat.add_0_r; exact H2|].
          unfold can_alloc in Hc. apply andb_true_iff in Hc as [Hc _].
          now apply N.ltb_lt in Hc. }
      assert (Hcl' : b = true -> clean (mkO (obuf st ++ zeros k) (opos st))).
      { intro Hb. specialize (Hcl Hb). unfold clean in *. cbn [obuf opos].
        destruct Hok as [H1 _].
        rewrite skipn_app, app_length, zeros_length, Hcl.
        replace (opos st - length (obuf st))%nat with O by lia. cbn [skipn].
        replace (length (obuf st) + k - opos st)%nat
          with ((length (obuf st) - opos st) + k)%nat by lia.
        now rewrite zeros_app. }
      rewrite Hupd; [|exact Hok'|exact Hcl'|cbn [obuf opos]; rewrite app_length, zeros_length; lia].
      cbn [obuf opos]. split; [|reflexivity].
      exists e, [], k. rewrite app_nil_r. repeat split; auto; try lia.
      destruct Hk as [->|[H1 H2]]; auto.
    + assert (HE : outcome c st (e, true) r (mkO (obuf st ++ zeros 0) (opos st))).
      { exists [], e, O. split; [reflexivity|].
        unfold zeros. cbn [repeat]. rewrite app_nil_r, overwrite_nil.
        cbn [length]. rewrite Nat.add_0_r. repeat split; auto.
        - destruct Hok. lia.
        - destruct Hr as [-> | ->]; exact Eg. }
      assert (HF : r <> ROk) by (destruct Hr as [-> | ->]; discriminate).
      assert (HR : forall E, rich c E -> (opos st + length e <= E)%nat -> r = ROk).
      { intros E HE1 HE2. apply (Hrich E HE1). lia. }
      destruct r; try (now destruct HF); split; auto.
  - specialize (Hng st eq_refl Hok).
    destruct (Nat.ltb_spec (length (obuf st) - opos st) (length e)).
    + rewrite Hng. split.
      * exists [], e, O. split; [reflexivity|]. split; [apply st_eta|].
        destruct Hok. cbn [length fst]. repeat split; auto; lia.
      * intros E (HE & _). congruence.
    + rewrite Hng. rewrite Hupd; [|exact Hok|exact Hcl|destruct Hok; lia].
      split; [|reflexivity].
      exists e, [], O. rewrite app_nil_r. unfold zeros. cbn [repeat]. rewrite app_nil_r.
      repeat split; auto. destruct Hok. lia.
Qed.

Lemma reserve_fixed c st n :
  growable c = false -> ost_ok st ->
  if (length (obuf st) - opos st <? n)%nat
  then reserve c (N.of_nat n) st = (RErr result_out_of_range, st)
  else reserve c (N.of_nat n) st = (ROk, st).
Proof.
  intros Hg [H1 H2]. unfold reserve. rewrite Hg. rewrite two63_val in H2.
  rewrite wsub_small by (rewrite ?two64_val; lia).
  destruct (Nat.ltb_spec (length (obuf st) - opos st) n);
    destruct (N.ltb_spec (N.of_nat (length (obuf st)) - N.of_nat (opos st)) (N.of_nat n));
    try lia; reflexivity.
Qed.

Lemma store_ok e st : (opos st + length e <= length (obuf st))%nat ->
  store e st = (ROk, mkO (overwrite (obuf st) (opos st) e) (opos st + length e)).
Proof.
  intro H. unfold store. destruct (Nat.leb_spec (opos st + length e) (length (obuf st))); [|lia].
  reflexivity.
Qed.

Lemma emits_put c b e : emits c b (put c e) (pdone e).
Proof.
  intros Hwf Hl. cbn [fst pdone] in Hl. revert Hwf Hl.
  intros Hwf Hl. eapply (emits_reserve_gen c b (N.of_nat (length e))); eauto; try lia.
  - intros st Hg. unfold reserve. now rewrite Hg.
  - intros st Hg Hok. now apply reserve_fixed.
  - intros st _ _ H. now apply store_ok.
Qed.

Lemma emits_put_bytes c b e : emits c b (put_bytes c e) (pdone e).
Proof.
  destruct e as [|x e]; [apply emits_ret|]. apply emits_put.
Qed.

Lemma emits_varint c b w sg zz n :
  wfw w = true -> n < pow256 w ->
  emits c b (ser_varint c w sg zz n) (pdone (leb128 (varint_number w sg zz n))).
Proof.
  intros Hw Hn.
  unfold ser_varint. rewrite wire_value_number by assumption.
  pose proof (varint_number_lt w sg zz n Hw Hn) as Hlt.
  set (v := varint_number w sg zz n) in *.
  rewrite vloop_leb128 by assumption.
  pose proof (leb128_max w v Hw Hlt) as Hmax.
  pose proof (leb128_nonempty v) as Hne.
  pose proof (max_size_le10 w Hw) as H10.
  apply (emits_reserve_gen c b (N.of_nat (varint_max_size w))); try lia.
  - intros st Hg. unfold varint_reserve. now rewrite Hg.
  - intros st Hg [H1 H2]. unfold varint_reserve. rewrite Hg. rewrite two63_val in H2.
    rewrite wsub_small by (rewrite ?two64_val; lia).
    rewrite varint_size_length.
    destruct (Nat.ltb_spec (length (obuf st) - opos st) (length (leb128 v)));
      destruct (N.ltb_spec (N.of_nat (length (obuf st)) - N.of_nat (opos st)) (N.of_nat (varint_max_size w)));
      destruct (N.ltb_spec (N.of_nat (length (obuf st)) - N.of_nat (opos st)) (N.of_nat (length (leb128 v))));
      cbn [andb]; try lia; reflexivity.
  - intros st _ _ H. now apply store_ok.
Qed.

(** ** Bitsets *)

Lemma bits_number_app l b :
  bits_number (l ++ [b]) = bits_number l + (if b then 2 ^ N.of_nat (length l) else 0).
Proof.
  induction l as [|x l IH]; cbn [app bits_number length].
  - destruct b; reflexivity.
  - rewrite IH, Nat2N.inj_succ. destruct b; rewrite ?N.pow_succ_r'; lia.
Qed.

Lemma bits_number_lt l : bits_number l < 2 ^ N.of_nat (length l).
Proof.
  induction l as [|x l IH]; cbn [bits_number length]; [reflexivity|].
  rewrite Nat2N.inj_succ, N.pow_succ_r'. destruct x; lia.
Qed.

Lemma nth_error_le_bytes w n j :
  (j < w)%nat -> nth_error (le_bytes w n) j = Some (n2b (n / pow256 j)).
Proof.
  revert n j; induction w as [|w IH]; intros n j H; [lia|].
  cbn [le_bytes]. destruct j as [|j]; cbn [nth_error].
  - rewrite pow256_0, N.div_1_r. reflexivity.
  - rewrite IH by lia. rewrite pow256_S.
    pose proof (pow256_pos j). rewrite N.div_div by lia. reflexivity.
Qed.

Lemma overwrite_one {A} (l : list A) p x q :
  (p < length l)%nat ->
  nth_error (overwrite l p [x]) q = if (q =? p)%nat then Some x else nth_error l q.
Proof.
  intro H. unfold overwrite. cbn [length].
  destruct (Nat.eqb_spec q p) as [->|Hne].
  - rewrite nth_error_app2 by (rewrite firstn_length; lia).
    rewrite firstn_length. replace (p - Nat.min p (length l))%nat with O by lia. reflexivity.
  - destruct (Nat.lt_ge_cases q p).
    + rewrite nth_error_app1 by (rewrite firstn_length; lia).
      rewrite <- (firstn_skipn p l) at 2.
      now rewrite nth_error_app1 by (rewrite firstn_length; lia).
    + rewrite nth_error_app2 by (rewrite firstn_length; lia).
      rewrite firstn_length. replace (Nat.min p (length l)) with p by lia.
      destruct (q - p)%nat as [|d] eqn:E; [lia|]. cbn [app nth_error].
      rewrite <- (firstn_skipn (p + 1) l) at 2.
      rewrite nth_error_app2 by (rewrite firstn_length; lia).
      rewrite firstn_length. f_equal. lia.
Qed.

Lemma list_ext {A} (l m : list A) : (forall i, nth_error l i = nth_error m i) -> l = m.
Proof.
  revert m; induction l as [|x l IH]; intros [|y m] H; try reflexivity.
  - specialize (H O); discriminate.
  - specialize (H O); discriminate.
  - f_equal; [specialize (H O); now injection H|].
    apply IH. intro i. exact (H (S i)).
Qed.

Lemma nth_error_overwrite {A} (l e : list A) p q :
  (p + length e <= length l)%nat ->
  nth_error (overwrite l p e) q =
  if (p <=? q)%nat && (q <? p + length e)%nat then nth_error e (q - p) else nth_error l q.
Proof.
  intro H. unfold overwrite.
  destruct (Nat.leb_spec p q); destruct (Nat.ltb_spec q (p + length e)); cbn [andb].
  - rewrite nth_error_app2 by (rewrite firstn_length; lia).
    rewrite firstn_length. replace (Nat.min p (length l)) with p by lia.
    now rewrite nth_error_app1 by lia.
  - rewrite nth_error_app2 by (rewrite firstn_length; lia).
    rewrite firstn_length. replace (Nat.min p (length l)) with p by lia.
    rewrite nth_error_app2 by lia.
    rewrite <- (firstn_skipn (p + length e) l) at 2.
    rewrite nth_error_app2 by (rewrite firstn_length; lia).
    rewrite firstn_length. f_equal. lia.
  - rewrite nth_error_app1 by (rewrite firstn_length; lia).
    rewrite <- (firstn_skipn p l) at 2.
    now rewrite nth_error_app1 by (rewrite firstn_length; lia).
  - lia.
Qed.

(** OR-ing one more bit into a buffer holding the number of the previous bits. *)
Lemma or_bit_number buf p done b nb :
  (p + nb <= length buf)%nat -> (length done < 8 * nb)%nat ->
  or_bit (overwrite buf p (le_bytes nb (bits_number done))) p (length done) b
  = overwrite buf p (le_bytes nb (bits_number (done ++ [b]))).
Proof.
  intros Hb Hd. set (i := length done) in *.
  set (old := bits_number done).
  assert (Hold : old < 2 ^ N.of_nat i) by apply bits_number_lt.
  assert (Hq : (i / 8 < nb)%nat) by (apply Nat.div_lt_upper_bound; lia).
  assert (Hlen : length (overwrite buf p (le_bytes nb old)) = length buf)
    by (apply overwrite_length; rewrite le_bytes_length; lia).
  unfold or_bit.
  assert (E : nth_error (overwrite buf p (le_bytes nb old)) (p + i / 8)
              = Some (n2b (old / pow256 (i / 8)))).
  { rewrite nth_error_overwrite by (rewrite le_bytes_length; lia). rewrite le_bytes_length.
    destruct (Nat.leb_spec p (p + i / 8)); [|lia].
    destruct (Nat.ltb_spec (p + i / 8) (p + nb)); [|lia]. cbn [andb].
    replace (p + i / 8 - p)%nat with (i / 8)%nat by lia.
    now apply nth_error_le_bytes. }
  rewrite E. apply list_ext. intro q.
  rewrite overwrite_one by lia.
  rewrite !nth_error_overwrite by (rewrite le_bytes_length; lia). rewrite !le_bytes_length.
  rewrite bits_number_app. fold old. fold i.
  set (r := (i mod 8)%nat).
  assert (Hir : i = (8 * (i / 8) + r)%nat) by (unfold r; apply Nat.div_mod; lia).
  assert (Hr : (r < 8)%nat) by (apply Nat.mod_upper_bound; lia).
  assert (Hpow : 2 ^ N.of_nat i = pow256 (i / 8) * 2 ^ N.of_nat r).
  { rewrite Hir at 1. unfold pow256. change 256 with (2 ^ 8).
    rewrite <- N.pow_mul_r, <- N.pow_add_r. f_equal. lia. }
  pose proof (pow256_pos (i / 8)) as Hpp.
  assert (Hhi : old / pow256 (i / 8) < 2 ^ N.of_nat r).
  { apply N.div_lt_upper_bound; [lia|]. now rewrite <- Hpow. }
  assert (H256 : 2 ^ N.of_nat r <= 128).
  { change 128 with (2 ^ 7). apply N.pow_le_mono_r; lia. }
  destruct (Nat.eqb_spec q (p + i / 8)) as [->|Hne].
  - destruct (Nat.leb_spec p (p + i / 8)); [|lia].
    destruct (Nat.ltb_spec (p + i / 8) (p + nb)); [|lia]. cbn [andb].
    replace (p + i / 8 - p)%nat with (i / 8)%nat by lia.
    rewrite nth_error_le_bytes by exact Hq. f_equal. f_equal.
    rewrite b2n_n2b_small by lia.
    rewrite lor_disjoint by exact Hhi.
    destruct b.
    + rewrite Hpow. rewrite (N.mul_comm (pow256 (i / 8))), N.div_add by lia. lia.
    + rewrite N.mul_0_l, !N.add_0_r. reflexivity.
  - destruct (Nat.leb_spec p q); [|reflexivity].
    destruct (Nat.ltb_spec q (p + nb)); cbn [andb]; [|reflexivity].
    rewrite !nth_error_le_bytes by lia. f_equal.
    destruct b; [|now rewrite N.add_0_r].
    set (j := (q - p)%nat) in *. assert (j <> i / 8)%nat by (unfold j; lia).
    pose proof (pow256_pos j).
    apply b2n_inj. rewrite !b2n_n2b.
    destruct (Nat.lt_ge_cases j (i / 8)).
    + assert (exists z, 2 ^ N.of_nat i = z * 256 * pow256 j) as [z Hz].
      { exists (pow256 (i / 8 - j - 1) * 2 ^ N.of_nat r).
        rewrite Hpow.
        replace (i / 8)%nat with ((i / 8 - j - 1) + (1 + j))%nat at 1 by lia.
        rewrite !pow256_add. change (pow256 1) with 256. lia. }
      rewrite Hz, N.div_add by lia.
      now rewrite N.mod_add by lia.
    + rewrite !N.div_small; [reflexivity| |].
      * assert (2 * 2 ^ N.of_nat i <= pow256 j); [|lia].
        replace j with ((j - i / 8) + i / 8)%nat by lia. rewrite pow256_add, Hpow.
        assert (256 <= pow256 (j - i / 8)).
        { replace (j - i / 8)%nat with (1 + (j - i / 8 - 1))%nat by lia.
          rewrite pow256_add. change (pow256 1) with 256.
          pose proof (pow256_pos (j - i / 8 - 1)). lia. }
        nia.
      * assert (2 ^ N.of_nat i <= pow256 j); [|lia].
        replace j with ((j - i / 8) + i / 8)%nat by lia. rewrite pow256_add, Hpow.
        assert (256 <= pow256 (j - i / 8)).
        { replace (j - i / 8)%nat with (1 + (j - i / 8 - 1))%nat by lia.
          rewrite pow256_add. change (pow256 1) with 256.
          pose proof (pow256_pos (j - i / 8 - 1)). lia. }
        nia.
Qed.

Lemma or_bits_number buf p nb done l :
  (p + nb <= length buf)%nat -> (length done + length l <= 8 * nb)%nat ->
  or_bits (overwrite buf p (le_bytes nb (bits_number done))) p (length done) l
  = overwrite buf p (le_bytes nb (bits_number (done ++ l))).
Proof.
  intro Hb. revert done; induction l as [|b l IH]; intros done H; cbn [or_bits].
  - now rewrite app_nil_r.
  - cbn [length] in H. rewrite or_bit_number by lia.
    replace (S (length done)) with (length (done ++ [b])) by (rewrite app_length; cbn; lia).
    rewrite IH by (rewrite app_length; cbn; lia).
    now rewrite <- app_assoc.
Qed.

Lemma le_bytes_0 nb : le_bytes nb 0 = zeros nb.
Proof. induction nb; cbn [le_bytes]; [reflexivity|]. change (0 / 256) with 0. now rewrite IHnb. Qed.

Lemma clean_overwrite_zeros st nb :
  clean st -> (opos st + nb <= length (obuf st))%nat ->
  overwrite (obuf st) (opos st) (zeros nb) = obuf st.
Proof.
  intros Hc H. unfold clean in Hc. unfold overwrite. rewrite zeros_length.
  rewrite <- (firstn_skipn (opos st) (obuf st)) at 3. f_equal.
  replace (skipn (opos st + nb) (obuf st)) with (skipn nb (skipn (opos st) (obuf st)))
    by apply skipn_skipn.
  rewrite Hc.
  replace (length (obuf st) - opos st)%nat with (nb + (length (obuf st) - opos st - nb))%nat by lia.
  rewrite zeros_app, skipn_app, skipn_all2 by (rewrite zeros_length; lia).
  rewrite zeros_length, Nat.sub_diag. reflexivity.
Qed.

Lemma emits_bitset c n l :
  length l = n ->
  emits c true (ser_bitset c n l) (pdone (le_bytes ((n + 7) / 8) (bits_number l))).
Proof.
  intros Hl Hwf Hlen. cbn [fst pdone] in Hlen. revert Hwf.
  intro Hwf. rewrite le_bytes_length in Hlen.
  apply (emits_reserve_gen c true (N.of_nat (bitset_bytes n))); auto;
    rewrite ?le_bytes_length; unfold bitset_bytes in *; try lia.
  - intros st Hg. unfold reserve. now rewrite Hg.
  - intros st Hg Hok. now apply reserve_fixed.
  - intros st Hok Hc H. specialize (Hc eq_refl).
    destruct (Nat.leb_spec (opos st + (n + 7) / 8) (length (obuf st))); [|lia].
    f_equal. f_equal.
    pose proof (or_bits_number (obuf st) (opos st) ((n + 7) / 8) [] l H) as E.
    cbn [bits_number app length] in E. rewrite le_bytes_0 in E.
    rewrite clean_overwrite_zeros in E by assumption.
    apply E. cbn [length]. rewrite Hl.
    pose proof (Nat.div_mod (n + 7) 8 ltac:(lia)).
    pose proof (Nat.mod_upper_bound (n + 7) 8 ltac:(lia)). lia.
  - cbn [fst pdone]. now rewrite le_bytes_length.
Qed.

(** ** Sequencing *)

Lemma outcome_ok_state c st p r st' :
  ost_ok st -> outcome c st p r st' -> ost_ok st'.
Proof.
  intros [H1 H2] (e1 & e2 & k & _ & -> & H3 & H4 & _). split; cbn [obuf opos].
  - rewrite overwrite_length; rewrite app_length, zeros_length; lia.
  - rewrite overwrite_length by (rewrite app_length, zeros_length; lia).
    rewrite app_length, zeros_length.
    destruct H4 as [->|(_ & _ & Hc)]; [now rewrite Nat.add_0_r|].
    unfold can_alloc in Hc. apply andb_true_iff in Hc as [Hc _].
    now apply N.ltb_lt in Hc.
Qed.

Lemma outcome_clean c st p r st' :
  ost_ok st -> clean st -> outcome c st p r st' -> clean st'.
Proof.
  intros [H1 H2] Hc (e1 & e2 & k & _ & -> & H3 & H4 & _). unfold clean in *. cbn [obuf opos].
  rewrite overwrite_length by (rewrite app_length, zeros_length; lia).
  rewrite skipn_overwrite by (rewrite ?app_length, ?zeros_length; lia).
  rewrite app_length, zeros_length.
  replace (skipn (opos st + length e1) (obuf st ++ zeros k))
    with (skipn (length e1) (skipn (opos st) (obuf st ++ zeros k))) by apply skipn_skipn.
  rewrite skipn_app. replace (opos st - length (obuf st))%nat with O by lia.
  rewrite Hc. cbn [skipn]. rewrite <- zeros_app.
  replace (length (obuf st) - opos st + k)%nat
    with (length e1 + (length (obuf st) + k - (opos st + length e1)))%nat by lia.
  rewrite zeros_app, skipn_app, skipn_all2 by (rewrite zeros_length; lia).
  rewrite zeros_length, Nat.sub_diag. reflexivity.
Qed.

Lemma emits_seq c b a1 a2 p1 p2 :
  emits c b a1 p1 -> emits c b a2 p2 -> emits c b (a1 ;; a2) (pseq p1 p2).
Proof.
  intros H1 H2 Hwf Hl st Hok Hcl.
  assert (Hl1 : N.of_nat (length (fst p1)) < 2 ^ 63).
  { unfold pseq in Hl. destruct (snd p1); [|exact Hl]. cbn [fst] in Hl.
    rewrite app_length in Hl. lia. }
  specialize (H1 Hwf Hl1 st Hok Hcl).
  unfold seq. destruct (a1 st) as [r1 st1]. destruct H1 as [O1 R1].
  assert (Hok1 : ost_ok st1) by (eapply outcome_ok_state; eauto).
  assert (Hcl1 : b = true -> clean st1).
  { intro Hb. eapply outcome_clean; [exact Hok | exact (Hcl Hb) | exact O1]. }
  assert (Hfail : r1 <> ROk ->
    outcome c st (pseq p1 p2) r1 st1 /\
    (forall E, rich c E -> (opos st + length (fst (pseq p1 p2)) <= E)%nat -> r1 = final (pseq p1 p2))).
  { intro Hr. unfold pseq. destruct (snd p1) eqn:Es.
    - split.
      + destruct O1 as (e1 & e2 & k & F1 & F2 & F3 & F4 & F5).
        exists e1, (e2 ++ fst p2), k. cbn [fst snd]. rewrite F1, app_assoc. repeat split; auto.
        rewrite Es, F1 in F5. rewrite app_length.
        destruct r1 as [|[]| | |]; try tauto; try (destruct F5; discriminate).
        destruct F5. split; [assumption|]. lia.
      + intros E HE HE2. exfalso. apply Hr.
        unfold final in R1. rewrite Es in R1. apply (R1 E HE).
        cbn [fst] in HE2. rewrite app_length in HE2. lia.
    - split; [exact O1|]. intros E HE HE2. now apply (R1 E). }
  destruct r1 as [|er| | |]; try (apply Hfail; discriminate). clear Hfail.
  assert (Es : snd p1 = true).
  { destruct O1 as (e1 & e2 & k & F1 & F2 & F3 & F4 & F5). tauto. }
  unfold pseq in *. rewrite Es in *. cbn [fst snd] in Hl. rewrite app_length in Hl.
  specialize (H2 Hwf ltac:(lia) st1 Hok1 Hcl1).
  destruct (a2 st1) as [r2 st2]. destruct H2 as [O2 R2].
  destruct O1 as (e1 & e2 & k & F1 & F2 & F3 & F4 & F5 & _). subst e2.
  rewrite app_nil_r in F1.
  destruct O2 as (g1 & g2 & k2 & G1 & G2 & G3 & G4 & G5).
  subst st1. cbn [obuf opos] in *.
  assert (Hlen1 : length (overwrite (obuf st ++ zeros k) (opos st) e1) = (length (obuf st) + k)%nat)
    by (rewrite overwrite_length; rewrite app_length, zeros_length; lia).
  rewrite Hlen1 in *.
  split.
  - exists (e1 ++ g1), g2, (k + k2)%nat. cbn [fst snd].
    rewrite F1, G1, <- app_assoc. repeat split; auto.
    + rewrite G2. f_equal.
      * rewrite <- overwrite_app_r by (rewrite app_length, zeros_length; lia).
        rewrite <- app_assoc, <- zeros_app.
        rewrite overwrite_app by (rewrite app_length, zeros_length; lia).
        reflexivity.
      * rewrite app_length. lia.
    + rewrite app_length. lia.
    + destruct G4 as [-> | (Hg & Hw & Hc)].
      * rewrite Nat.add_0_r. destruct F4 as [->|F4]; [left; reflexivity | right; exact F4].
      * right. rewrite Nat.add_assoc. auto.
    + destruct r2 as [|[]| | |]; try tauto.
      destruct G5 as [Hg G5]. split; [exact Hg|].
      destruct F4 as [->|(F4 & _)]; [|congruence].
      rewrite G1 in G5. rewrite !app_length in *. lia.
  - intros E HE HE2. cbn [fst] in HE2. rewrite F1, app_length in HE2.
    unfold final in *. cbn [snd]. apply (R2 E HE). lia.
Qed.

Lemma emits_mono c b a p : emits c false a p -> emits c b a p.
Proof.
  intros H Hwf Hl st Hok _. apply H; auto. discriminate.
Qed.

(** ** Scalars and raw memory *)

Lemma scalar_bytes_wscalar c w n : scalar_bytes c w n = wscalar (fmt_of c) w n.
Proof.
  unfold scalar_bytes, wscalar, hostrep, fmt_of. cbn [little].
  destruct (host_le c), (swap c); cbn [xorb]; rewrite ?rev_involutive; reflexivity.
Qed.

Lemma wscalar_length o w n : length (wscalar o w n) = w.
Proof.
  unfold wscalar. destruct (little o); rewrite ?rev_length; apply le_bytes_length.
Qed.

(** Arrays and containers whose elements are empty classes are the one case where raw memory
    differs from the member-wise format. *)
Definition elem_ok (t : ty) : bool :=
  match t with
  | TArray _ t' | TVec _ _ t' | TSpan _ t' => negb (is_empty t')
  | _ => true
  end.
Definition plain (t : ty) : bool := tall elem_ok t.

Lemma wscalar_1 o n : wscalar o 1 n = [n2b n].
Proof. unfold wscalar. destruct (little o); reflexivity. Qed.

Lemma hostrep_1 c n : hostrep c 1 n = [n2b n].
Proof. unfold hostrep. destruct (host_le c); reflexivity. Qed.

Lemma enc_all_bytes G o c t l :
  Forall (fun x => enc G o x t = (objrep c x t, true)) l ->
  enc_all (enc G o) l t = (flat_map (fun x => objrep c x t) l, true).
Proof.
  induction 1 as [|x l Hx _ IH]; [reflexivity|].
  cbn [enc_all flat_map]. rewrite Hx, IH. reflexivity.
Qed.

Lemma forall2b_cons {A B} (f : A -> B -> bool) l m :
  forall2b f l m = true ->
  match l, m with
  | [], [] => True
  | x :: l', y :: m' => f x y = true /\ forall2b f l' m' = true
  | _, _ => False
  end.
Proof.
  destruct l, m; cbn [forall2b]; try discriminate; [trivial|].
  now rewrite andb_true_iff.
Qed.

Lemma objrep_enc G c v t :
  wt G v t = true -> wf G t = true -> plain t = true -> is_empty t = false ->
  as_bytes c t = true ->
  enc G (fmt_of c) v t = (objrep c v t, true).
Proof.
  revert t; induction v as [n|l IH| |v IH|i v IH| |l|l] using val_ind';
    intros t Hwt Hwf Hpl Hem Hab;
    destruct t; cbn [wt] in Hwt; try discriminate;
    try (unfold as_bytes in Hab; cbn [eibs bs] in Hab; rewrite ?andb_false_r in Hab; discriminate).
  - (* scalar *) cbn [enc objrep]. unfold pdone. f_equal.
    rewrite <- scalar_bytes_wscalar. unfold scalar_bytes.
    unfold as_bytes in Hab. cbn [eibs bs] in Hab.
    destruct (swap c); [|reflexivity].
    cbn in Hab. rewrite orb_false_r in Hab. subst isbyte.
    cbn [wf negb orb] in Hwf.
    apply andb_true_iff in Hwf as [_ Hw]. apply Nat.eqb_eq in Hw. subst w.
    now rewrite hostrep_1.
  - (* bool *) cbn [enc objrep]. now rewrite wscalar_1, hostrep_1.
  - (* struct *)
    unfold as_bytes in Hab. cbn [eibs orb] in Hab.
    apply andb_true_iff in Hab as [Hsw Hbs].
    cbn [bs] in Hbs. rewrite !andb_true_iff in Hbs.
    destruct Hbs as [[[[[_ Hex] Hall] _] Hne] _].
    apply negb_true_iff in Hne.
    unfold plain in Hpl. cbn [tall elem_ok andb] in Hpl. fold plain in Hpl.
    cbn [wf] in Hwf. rewrite !andb_true_iff in Hwf. destruct Hwf as [[_ Hwf] _].
    cbn [enc objrep]. clear Hem Hex.
    revert ms Hwt Hall Hne Hpl Hwf.
    induction IH as [|x l Hx _ IHl]; intros ms Hwt Hall Hne Hpl Hwf.
    + destruct ms; [reflexivity|]. discriminate.
    + destruct ms as [|m ms]; [discriminate|].
      cbn [forall2b forallb existsb] in *.
      rewrite andb_true_iff in Hwt, Hall, Hpl, Hwf. apply orb_false_iff in Hne.
      cbn [enc_many reps_many].
      rewrite (Hx m), IHl; try tauto.
      unfold as_bytes. rewrite Hsw. destruct Hall as [-> _]. now rewrite orb_true_r.
  - (* array *)
    cbn [enc objrep]. apply andb_true_iff in Hwt as [_ Hwt].
    apply enc_all_bytes.
    unfold plain in Hpl. cbn [tall elem_ok] in Hpl.
    apply andb_true_iff in Hpl as [He Hpl]. apply negb_true_iff in He.
    cbn [wf] in Hwf. apply andb_true_iff in Hwf as [_ Hwf].
    assert (Hab' : as_bytes c t = true).
    { unfold as_bytes in *. cbn [eibs bs] in Hab. exact Hab. }
    rewrite forallb_forall in Hwt.
    rewrite Forall_forall in *. intros x Hin. apply IH; auto.
Qed.

(** ** The main theorem *)

Definition not_bitset (t : ty) : bool := match t with TBitset _ => false | _ => true end.

Lemma emits_many G c b (IHf : val -> ty -> Prop) l ms :
  Forall (fun x => forall t, IHf x t -> emits c b (ser G c x t) (enc G (fmt_of c) x t)) l ->
  length l = length ms ->
  (forall x m, In (x, m) (combine l ms) -> IHf x m) ->
  emits c b (ser_many (ser G c) l ms) (enc_many (enc G (fmt_of c)) l ms).
Proof.
  intro H. revert ms; induction H as [|x l Hx _ IH]; intros ms Hlen Hin.
  - destruct ms; [apply emits_ret | discriminate].
  - destruct ms as [|m ms]; [discriminate|]. cbn [ser_many enc_many].
    apply emits_seq.
    + apply Hx, Hin. left; reflexivity.
    + apply IH; [now injection Hlen|]. intros y n Hy. apply Hin. right; exact Hy.
Qed.

Lemma emits_all G c b l t :
  Forall (fun x => emits c b (ser G c x t) (enc G (fmt_of c) x t)) l ->
  emits c b (ser_all (ser G c) l t) (enc_all (enc G (fmt_of c)) l t).
Proof.
  induction 1 as [|x l Hx _ IH]; [apply emits_ret|].
  cbn [ser_all enc_all]. now apply emits_seq.
Qed.

Lemma trunc_lt w n : trunc w n < pow256 w.
Proof. unfold trunc. apply N.mod_lt. pose proof (pow256_pos w). lia. Qed.

Definition szok (c : cfg) : bool := wfsz (Some (dsize c)).

Lemma emits_size c b s n :
  szok c = true -> wfsz s = true ->
  emits c b (ser_size c (sz_of c s) n) (pdone (wire_size (fmt_of c) s n)).
Proof.
  intros Hd Hs. unfold wire_size, sz_of.
  assert (Hs' : wfsz (Some (match s with Some s => s | None => dsize c end)) = true)
    by (destruct s; assumption).
  replace (match s with Some s0 => s0 | None => wsize (fmt_of c) end)
    with (match s with Some s0 => s0 | None => dsize c end) by reflexivity.
  destruct (match s with Some s0 => s0 | None => dsize c end) as [|w|w]; cbn [ser_size wfsz] in *.
  - apply emits_ret.
  - rewrite scalar_bytes_wscalar. apply emits_put.
  - pose proof (emits_varint c b w false false (trunc w n) Hs' (trunc_lt w n)) as H.
    exact H.
Qed.

Lemma forall2b_length {A B} (f : A -> B -> bool) l m :
  forall2b f l m = true -> length l = length m.
Proof.
  revert m; induction l as [|x l IH]; intros [|y m] H; cbn [forall2b] in H; try discriminate;
    [reflexivity|]. apply andb_true_iff in H as [_ H]. cbn. now rewrite (IH m).
Qed.

Lemma forall2b_in {A B} (f : A -> B -> bool) l m x y :
  forall2b f l m = true -> In (x, y) (combine l m) -> f x y = true.
Proof.
  revert m; induction l as [|a l IH]; intros [|z m] H Hin; cbn in *; try tauto.
  apply andb_true_iff in H as [H1 H2]. destruct Hin as [E|Hin].
  - now injection E as <- <-.
  - eapply IH; eauto.
Qed.

Lemma in_combine_forallb {A B} (g : B -> bool) (l : list A) m x y :
  forallb g m = true -> In (x, y) (combine l m) -> g y = true.
Proof.
  intros H Hin. apply in_combine_r in Hin. rewrite forallb_forall in H. auto.
Qed.

Theorem ser_emits G c b :
  szok c = true -> wf_env G -> tall_env elem_ok G ->
  (b = false -> tall_env not_bitset G) ->
  forall v t, wt G v t = true -> wf G t = true -> plain t = true ->
    (b = false -> tall not_bitset t = true) ->
    emits c b (ser G c v t) (enc G (fmt_of c) v t).
Proof.
  intros Hsz HwfG HplG HnbG.
  induction v as [n|l IH| |v IH|i v IH| |l|l] using val_ind';
    intros t Hwt Hwf Hpl Hnb;
    destruct t as [w isb| |w sg zz| |si ms|k|n' t'|ts|s cg t'|s k t'|dc t'|t'|t'|ik meta alts|n'|k|s t'];
    cbn [wt] in Hwt; try discriminate; try (destruct k as [s|nv|]; discriminate).
  - (* scalar *) cbn [ser enc]. rewrite scalar_bytes_wscalar. apply emits_put.
  - (* bool *) cbn [ser enc]. rewrite scalar_bytes_wscalar. apply emits_put.
  - (* varint *) cbn [ser enc]. cbn [wf] in Hwf. apply N.ltb_lt in Hwt.
    now apply emits_varint.
  - (* empty *) destruct l; [|discriminate]. apply emits_ret.
  - (* struct *)
    cbn [ser]. destruct (negb (s_expl si) && is_empty (TStruct si ms)) eqn:Eem.
    { apply andb_true_iff in Eem as [_ Eem]. destruct ms; [|discriminate].
      destruct l; [|discriminate]. apply emits_ret. }
    destruct (as_bytes c (TStruct si ms)) eqn:Eab.
    { rewrite (objrep_enc G c (VSeq l) (TStruct si ms)); auto.
      - apply emits_put_bytes.
      - destruct ms; [|reflexivity].
        unfold as_bytes in Eab. cbn in Eab. rewrite !andb_false_r in Eab. discriminate. }
    cbn [enc].
    apply (emits_many G c b (fun x t => wt G x t = true /\ wf G t = true /\ plain t = true
             /\ (b = false -> tall not_bitset t = true))).
    + eapply Forall_impl; [|exact IH]. cbn. intros ? ? ? (?&?&?&?); auto.
    + eapply forall2b_length; eauto.
    + cbn [wf] in Hwf. rewrite !andb_true_iff in Hwf. destruct Hwf as [[_ Hwf] _].
      unfold plain in Hpl. cbn [tall elem_ok andb] in Hpl. cbn [tall not_bitset andb] in Hnb.
      intros x m Hin; repeat split.
      * eapply (forall2b_in (fun x m => wt G x m)); eauto.
      * eapply in_combine_forallb; eauto.
      * eapply (in_combine_forallb (tall elem_ok)); eauto.
      * intro Hb; eapply (in_combine_forallb (tall not_bitset)); eauto.
  - (* named class *)
    cbn [ser enc].
    apply (emits_many G c b (fun x t => wt G x t = true /\ wf G t = true /\ plain t = true
             /\ (b = false -> tall not_bitset t = true))).
    + eapply Forall_impl; [|exact IH]. cbn. intros ? ? ? (?&?&?&?); auto.
    + eapply forall2b_length; eauto.
    + intros x m Hin; repeat split.
      * eapply (forall2b_in (fun x m => wt G x m)); eauto.
      * eapply in_combine_forallb; [apply (HwfG k)|eauto].
      * eapply (in_combine_forallb (tall elem_ok)); [apply (HplG k)|eauto].
      * intro Hb; eapply (in_combine_forallb (tall not_bitset)); [apply (HnbG Hb k)|eauto].
  - (* array *)
    cbn [ser].
    unfold plain in Hpl. cbn [tall elem_ok] in Hpl.
    apply andb_true_iff in Hpl as [He Hpl]. apply negb_true_iff in He.
    cbn [wf] in Hwf. apply andb_true_iff in Hwf as [Hn0 Hwf].
    apply andb_true_iff in Hwt as [Hlen Hwt]. rewrite forallb_forall in Hwt.
    cbn [tall not_bitset andb] in Hnb.
    rewrite Forall_forall in IH.
    destruct (as_bytes c t') eqn:Eab.
    + cbn [enc objrep]. rewrite (enc_all_bytes G (fmt_of c) c); [apply emits_put_bytes|].
      rewrite Forall_forall. intros x Hin. apply objrep_enc; auto.
    + cbn [enc]. apply emits_all. rewrite Forall_forall. intros x Hin. apply IH; auto.
  - (* tuple *)
    cbn [ser enc].
    apply (emits_many G c b (fun x t => wt G x t = true /\ wf G t = true /\ plain t = true
             /\ (b = false -> tall not_bitset t = true))).
    + eapply Forall_impl; [|exact IH]. cbn. intros ? ? ? (?&?&?&?); auto.
    + eapply forall2b_length; eauto.
    + cbn [wf] in Hwf.
      unfold plain in Hpl. cbn [tall elem_ok andb] in Hpl. cbn [tall not_bitset andb] in Hnb.
      intros x m Hin; repeat split.
      * eapply (forall2b_in (fun x m => wt G x m)); eauto.
      * eapply in_combine_forallb; eauto.
      * eapply (in_combine_forallb (tall elem_ok)); eauto.
      * intro Hb; eapply (in_combine_forallb (tall not_bitset)); eauto.
  - (* vector *)
    cbn [ser enc].
    unfold plain in Hpl. cbn [tall elem_ok] in Hpl.
    apply andb_true_iff in Hpl as [He Hpl]. apply negb_true_iff in He.
    cbn [wf] in Hwf. apply andb_true_iff in Hwf as [Hs Hwf].
    rewrite forallb_forall in Hwt. cbn [tall not_bitset andb] in Hnb.
    rewrite Forall_forall in IH.
    apply emits_seq; [now apply emits_size|].
    destruct (as_bytes c t') eqn:Eab; [destruct cg|]; cbn [andb].
    + rewrite (enc_all_bytes G (fmt_of c) c); [apply emits_put_bytes|].
      rewrite Forall_forall. intros x Hin. apply objrep_enc; auto.
    + apply emits_all. rewrite Forall_forall. intros x Hin. apply IH; auto.
    + apply emits_all. rewrite Forall_forall. intros x Hin. apply IH; auto.
  - (* associative *)
    cbn [ser enc].
    unfold plain in Hpl. cbn [tall elem_ok andb] in Hpl.
    cbn [wf] in Hwf. apply andb_true_iff in Hwf as [Hs Hwf].
    apply andb_true_iff in Hwt as [Hwt _].
    rewrite forallb_forall in Hwt. cbn [tall not_bitset andb] in Hnb.
    rewrite Forall_forall in IH.
    apply emits_seq; [now apply emits_size|].
    apply emits_all. rewrite Forall_forall. intros x Hin. apply IH; auto.
  - (* span *)
    cbn [ser enc].
    unfold plain in Hpl. cbn [tall elem_ok] in Hpl.
    apply andb_true_iff in Hpl as [He Hpl]. apply negb_true_iff in He.
    cbn [wf] in Hwf. apply andb_true_iff in Hwf as [Hs Hwf].
    rewrite forallb_forall in Hwt. cbn [tall not_bitset andb] in Hnb.
    rewrite Forall_forall in IH.
    apply emits_seq; [now apply emits_size|].
    destruct (as_bytes c t') eqn:Eab.
    + rewrite (enc_all_bytes G (fmt_of c) c); [apply emits_put_bytes|].
      rewrite Forall_forall. intros x Hin. apply objrep_enc; auto.
    + apply emits_all. rewrite Forall_forall. intros x Hin. apply IH; auto.
  - (* optional, empty *) cbn [ser enc]. unfold ser_flag.
    rewrite scalar_bytes_wscalar, wscalar_1. apply emits_put.
  - (* optional_ptr, null *) cbn [ser enc]. unfold ser_flag.
    rewrite scalar_bytes_wscalar, wscalar_1. apply emits_put.
  - (* null pointer *) apply emits_refuse.
  - (* optional *) cbn [ser enc]. apply emits_seq.
    + unfold ser_flag. rewrite scalar_bytes_wscalar, wscalar_1. apply emits_put.
    + apply IH; auto.
  - (* optional_ptr *) cbn [ser enc]. apply emits_seq.
    + unfold ser_flag. rewrite scalar_bytes_wscalar, wscalar_1. apply emits_put.
    + apply IH; auto.
  - (* pointer *) cbn [ser enc]. apply IH; auto.
  - (* variant *)
    cbn [ser enc]. destruct (nth_error alts i) as [t'|] eqn:Ei; [|discriminate].
    cbn [wf] in Hwf. rewrite !andb_true_iff in Hwf.
    destruct Hwf as [[[[_ Hlen] _] Hids] Hwf]. apply Nat.eqb_eq in Hlen.
    assert (Hi : (i < length meta)%nat).
    { rewrite Hlen. apply nth_error_Some. congruence. }
    destruct (nth_error meta i) as [[id dc]|] eqn:Em;
      [|apply nth_error_None in Em; lia].
    pose proof (nth_error_In _ _ Ei) as Hin.
    unfold plain in Hpl. cbn [tall elem_ok andb] in Hpl. cbn [tall not_bitset andb] in Hnb.
    rewrite forallb_forall in Hwf, Hpl.
    apply emits_seq.
    + unfold ser_id, wire_id. destruct ik as [w|n].
      * rewrite scalar_bytes_wscalar. apply emits_put.
      * apply emits_put_bytes.
    + apply IH; auto. intro Hb. specialize (Hnb Hb). rewrite forallb_forall in Hnb. auto.
  - (* valueless *) apply emits_refuse.
  - (* bitset *) cbn [ser enc]. apply Nat.eqb_eq in Hwt.
    destruct b; [now apply emits_bitset|]. now specialize (Hnb eq_refl).
  - (* views *)
    destruct k as [s|n|]; cbn [ser enc].
    + cbn [wf] in Hwf.
      change (pdone (wire_size (fmt_of c) s (N.of_nat (length l)) ++ l))
        with (pseq (pdone (wire_size (fmt_of c) s (N.of_nat (length l)))) (pdone l)).
      apply emits_seq; [now apply emits_size | apply emits_put_bytes].
    + apply emits_put_bytes.
    + apply emits_put_bytes.
Qed.
