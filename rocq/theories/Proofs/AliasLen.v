(** How long a vector gets while something is written, whatever the outcome. *)

From Coq Require Import List NArith ZArith Lia Bool Arith.
From Coq Require Import ZifyBool ZifyNat ZifyN.
From Verif Require Import Base.Bytes Model.Types Model.Machine Model.Varint Model.Out
  Spec.Leb128 Spec.Wire Proofs.VarintP Proofs.OutP Proofs.Script Thm.Output Thm.Growth.
Import ListNotations.
Local Open Scope N_scope.

(** From [st] to [st']: longer only as far as the enlarger goes for the position reached. *)
Definition stretched (c : cfg) (st st' : ost) : Prop :=
  ost_ok st' /\ (opos st <= opos st')%nat /\ (length (obuf st) <= length (obuf st'))%nat
  /\ (length (obuf st') = length (obuf st)
      \/ ediv c * blen st' <= emul c * (2 * (N.of_nat (opos st') + 10))).

Lemma stretched_refl c st : ost_ok st -> stretched c st st.
Proof. unfold stretched. intuition lia. Qed.

Lemma stretched_trans c a b d : stretched c a b -> stretched c b d -> stretched c a d.
Proof.
  intros (A1 & A2 & A3 & A4) (B1 & B2 & B3 & B4). repeat split; try apply B1; try lia.
  destruct B4 as [B4|B4]; [|now right]. destruct A4 as [A4|A4]; [left; lia|right].
  unfold blen in *. rewrite B4. etransitivity; [exact A4|]. apply N.mul_le_mono_l. lia.
Qed.

Lemma enlarge_stretch c n st r st1 :
  wf_out c -> growable c = true -> ost_ok st -> n < 2 ^ 63 -> enlarge_for c n st = (r, st1) ->
  ost_ok st1 /\ opos st1 = opos st /\ (length (obuf st) <= length (obuf st1))%nat
  /\ (length (obuf st1) = length (obuf st)
      \/ r = ROk /\ ediv c * blen st1 <= emul c * (2 * (N.of_nat (opos st) + n)))
  /\ (r = ROk -> N.of_nat (opos st) + n <= blen st1).
Proof.
  intros Hwf Hg Hok Hn E.
  pose proof (enlarge_for_spec c n st Hwf Hg Hok Hn) as S. rewrite E in S.
  destruct S as [(k & Hst & Hk & Hr) _].
  destruct (enlarge_asks c n st Hwf Hg Hok Hn) as (ns & r' & k' & [A B] & C & F).
  assert (Hal : with_alloc c (alloc_ok c) = c) by (now destruct c).
  specialize (A (alloc_ok c)). specialize (B (alloc_ok c)). rewrite Hal, E in A, B. cbn [fst] in B.
  assert (Hl : length (obuf st1) = (length (obuf st) + k)%nat)
    by (rewrite Hst; cbn [obuf]; rewrite app_length, zeros_length; reflexivity).
  unfold blen. rewrite Hl. split; [|split; [now rewrite Hst|split; [lia|split]]].
  - destruct Hok as [O1 O2]. split; rewrite Hl, ?Hst; cbn [opos]; [lia|].
    destruct Hk as [->|[_ Hk]]; [lia|]. unfold can_alloc in Hk. lia.
  - destruct Hr as [[-> Hr]|[_ ->]]; [|left; lia].
    destruct (forallb (alloc_ok c) ns); [|discriminate (B eq_refl)].
    specialize (A eq_refl). injection A as <- A.
    assert (k = k').
    { rewrite Hst in A. injection A as A. apply (f_equal (@length byte)) in A.
      rewrite !app_length, !zeros_length in A. lia. }
    subst k'. destruct F as [[_ ->]|(m & _ & _ & -> & _ & _ & F)]; [left; lia|right]. auto.
  - intros ->. destruct Hr as [[_ Hr]|[[Hr|Hr] _]]; [lia|discriminate|discriminate].
Qed.

(** Room for [n], then [m <= n] bytes written, [n] at most ten more. *)
Lemma write_stretch c n m (w : act) st r st' :
  wf_out c -> growable c = true -> ost_ok st -> N.of_nat m <= n -> n <= N.of_nat m + 10 -> n < 2 ^ 63 ->
  (forall s, (opos s + m <= length (obuf s))%nat ->
     exists s', w s = (ROk, s') /\ opos s' = (opos s + m)%nat /\ length (obuf s') = length (obuf s)) ->
  (enlarge_for c n ;; w) st = (r, st') -> stretched c st st'.
Proof.
  intros Hwf Hg Hok H1 H2 H3 Hw E. unfold seq in E.
  destruct (enlarge_for c n st) as [r1 st1] eqn:E1.
  destruct (enlarge_stretch _ _ _ _ _ Hwf Hg Hok H3 E1) as (A1 & A2 & A3 & A4 & A5).
  assert (N0 : r1 <> ROk -> stretched c st st1).
  { intro Hr. split; [exact A1|]. split; [lia|]. split; [lia|]. left. destruct A4 as [A4|[A4 _]]; [exact A4|contradiction]. }
  destruct r1; try (injection E as <- <-; apply N0; discriminate).
  specialize (A5 eq_refl). unfold blen in *.
  destruct (Hw st1 ltac:(lia)) as (s' & E2 & P & L). rewrite E2 in E. injection E as <- <-.
  destruct A1 as [O1 O2]. split; [split; lia|]. split; [lia|]. split; [lia|]. unfold blen. rewrite P, L.
  destruct A4 as [A4|[_ A4]]; [now left|right]. etransitivity; [exact A4|]. apply N.mul_le_mono_l. lia.
Qed.

Lemma run_stretch c s :
  wf_out c -> growable c = true -> narrow s = true -> N.of_nat (length (fst (writes s))) < 2 ^ 63 ->
  forall st r st', ost_ok st -> run c s st = (r, st') -> stretched c st st'.
Proof.
  intros Hwf Hg. induction s as [| |e|e|w v|n l|a IHa b IHb]; intros Hn Hl st r st' Hok E.
  - injection E as <- <-. now apply stretched_refl.
  - injection E as <- <-. now apply stretched_refl.
  - injection E as <- <-. now apply stretched_refl.
  - cbn [writes pdone fst] in Hl. rewrite run_growable_put in E by exact Hg.
    eapply (write_stretch c _ (length e)); [..|exact E]; auto; try lia.
    intros s H. exists (mkO (overwrite (obuf s) (opos s) e) (opos s + length e)).
    split; [now apply store_ok|]. split; [reflexivity|]. now apply overwrite_length.
  - cbn [narrow] in Hn. pose proof (max_size_le10 w Hn) as H10.
    pose proof (vloop_length (varint_max_size w) v) as HL.
    cbn [run] in E. unfold varint_reserve in E. rewrite Hg in E.
    set (e := vloop (varint_max_size w) v) in *.
    eapply (write_stretch c (N.of_nat (varint_max_size w)) (length e)); [..|exact E]; auto; try (rewrite ?two63_val; lia).
    intros s H. exists (mkO (overwrite (obuf s) (opos s) e) (opos s + length e)).
    split; [now apply store_ok|]. split; [reflexivity|]. now apply overwrite_length.
  - cbn [writes pdone fst] in Hl. rewrite le_bytes_length in Hl.
    cbn [run] in E. unfold ser_bitset, reserve in E. rewrite Hg in E.
    eapply (write_stretch c (N.of_nat (bitset_bytes n)) (bitset_bytes n)); [..|exact E]; auto; try lia.
    intros s H. cbv beta. destruct (Nat.leb_spec (opos s + bitset_bytes n) (length (obuf s))); [|lia].
    eexists. split; [reflexivity|]. cbn [opos obuf]. split; [reflexivity|apply or_bits_length].
  - cbn [narrow] in Hn. apply andb_true_iff in Hn as [Hna Hnb].
    cbn [writes] in Hl. unfold pseq in Hl. cbn [run] in E. unfold seq in E.
    destruct (run c a st) as [r1 s1] eqn:E1.
    assert (La : N.of_nat (length (fst (writes a))) < 2 ^ 63).
    { destruct (snd (writes a)); cbn [fst] in Hl; [rewrite app_length in Hl|]; lia. }
    pose proof (IHa Hna La _ _ _ Hok E1) as S1.
    destruct r1; try (injection E as <- <-; exact S1).
    rewrite (run_done _ _ _ _ E1) in Hl. cbn [fst] in Hl. rewrite app_length in Hl.
    eapply stretched_trans; [exact S1|]. eapply IHb; eauto; [lia|]. apply S1.
Qed.

Lemma ser_stretch G c v t st r st' :
  writing G c v t -> growable c = true -> ost_ok st -> ser G c v t st = (r, st') -> stretched c st st'.
Proof.
  intros [H1 H2 H3 H4 H5 H6 H7 H8] Hg Hok E. rewrite ser_scr in E.
  eapply run_stretch; [..|exact E]; auto.
  - now apply scr_narrow.
  - rewrite writes_enc by assumption. exact H8.
Qed.
