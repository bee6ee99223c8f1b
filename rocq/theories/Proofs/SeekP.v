(** Writing at any position of a buffer: how long it is afterwards. *)

From Coq Require Import List NArith ZArith Lia Bool Arith.
From Coq Require Import ZifyBool ZifyNat ZifyN.
From Verif Require Import Base.Bytes Model.Types Model.Machine Model.Varint Model.Out
  Spec.Leb128 Spec.Wire Proofs.VarintP Proofs.OutP Proofs.Script Thm.Output Thm.Growth.
Import ListNotations.
Local Open Scope N_scope.

(** Types whose output asks for no more room than it uses: no varints, neither as values nor as
    sizes. *)
Definition fixed_size (c : cfg) (s : option sizety) : bool :=
  match sz_of c s with SzVar _ => false | _ => true end.
Definition tight (c : cfg) (t : ty) : bool :=
  match t with
  | TVarint _ _ _ => false
  | TVec s _ _ => fixed_size c s
  | TAssoc s _ _ => fixed_size c s
  | TSpan s _ => fixed_size c s
  | TView (VwSized s) => fixed_size c s
  | _ => true
  end.

Fixpoint snug (s : script) : bool :=
  match s with SVar _ _ => false | SSeq a b => snug a && snug b | _ => true end.

(** From [st] to [st']: grown only if the position has reached the old end. *)
Definition edged (st st' : ost) : Prop :=
  ost_ok st' /\ (opos st <= opos st')%nat /\ (length (obuf st) <= length (obuf st'))%nat
  /\ (length (obuf st') = length (obuf st) \/ (length (obuf st) <= opos st')%nat).

Lemma edged_refl st : ost_ok st -> edged st st.
Proof. unfold edged. intuition lia. Qed.

Lemma edged_trans a b d : edged a b -> edged b d -> edged a d.
Proof. unfold edged. intuition lia. Qed.

Lemma enlarge_edge c n st r st1 :
  wf_out c -> growable c = true -> ost_ok st -> n < 2 ^ 63 -> enlarge_for c n st = (r, st1) ->
  ost_ok st1 /\ opos st1 = opos st /\ (length (obuf st) <= length (obuf st1))%nat
  /\ (r = ROk -> N.of_nat (opos st) + n <= N.of_nat (length (obuf st1)))
  /\ (length (obuf st1) = length (obuf st)
      \/ r = ROk /\ (N.of_nat (length (obuf st)) < N.of_nat (opos st) + n)).
Proof.
  intros Hwf Hg Hok Hn E.
  pose proof (enlarge_for_spec c n st Hwf Hg Hok Hn) as S. rewrite E in S.
  destruct S as [(k & Hst & Hk & Hr) _].
  assert (Hl : length (obuf st1) = (length (obuf st) + k)%nat)
    by (rewrite Hst; cbn [obuf]; rewrite app_length, zeros_length; reflexivity).
  rewrite Hl. destruct Hok as [O1 O2]. split; [|split; [now rewrite Hst|split; [lia|split]]].
  - split; rewrite Hl, ?Hst; cbn [opos]; [lia|].
    destruct Hk as [->|[_ Hk]]; [lia|]. unfold can_alloc in Hk. lia.
  - intros ->. destruct Hr as [[_ Hr]|[[Hr|Hr] _]]; [lia|discriminate|discriminate].
  - destruct Hr as [[-> Hr]|[_ ->]]; [|left; lia].
    destruct (N.ltb_spec (N.of_nat (length (obuf st))) (N.of_nat (opos st) + n)) as [L|L]; [right; auto|left].
    unfold enlarge_for in E. rewrite wsub_small in E by (rewrite ?two64_val; rewrite ?two63_val in *; lia).
    destruct (N.ltb_spec (N.of_nat (length (obuf st)) - N.of_nat (opos st)) n); [lia|].
    injection E as E. rewrite <- E in Hl. lia.
Qed.

Lemma put_edge c n m (w : act) st r st' :
  wf_out c -> growable c = true -> ost_ok st -> N.of_nat m = n -> n < 2 ^ 63 ->
  (forall s, (opos s + m <= length (obuf s))%nat ->
     exists s', w s = (ROk, s') /\ opos s' = (opos s + m)%nat /\ length (obuf s') = length (obuf s)) ->
  (enlarge_for c n ;; w) st = (r, st') -> edged st st'.
Proof.
  intros Hwf Hg Hok H1 H3 Hw E. unfold seq in E.
  destruct (enlarge_for c n st) as [r1 st1] eqn:E1.
  destruct (enlarge_edge _ _ _ _ _ Hwf Hg Hok H3 E1) as (A1 & A2 & A3 & A4 & A5).
  assert (N0 : r1 <> ROk -> edged st st1).
  { intro Hr. split; [exact A1|]. split; [lia|]. split; [lia|]. left. destruct A5 as [A5|[A5 _]]; [exact A5|contradiction]. }
  destruct r1; try (injection E as <- <-; apply N0; discriminate).
  specialize (A4 eq_refl).
  destruct (Hw st1 ltac:(lia)) as (s' & E2 & P & L). rewrite E2 in E. injection E as <- <-.
  destruct A1 as [O1 O2]. split; [split; lia|]. split; [lia|]. split; [lia|]. rewrite P, L.
  destruct A5 as [A5|[_ A5]]; [now left|right; lia].
Qed.

Lemma run_edge c s :
  wf_out c -> growable c = true -> snug s = true -> N.of_nat (length (fst (writes s))) < 2 ^ 63 ->
  forall st r st', ost_ok st -> run c s st = (r, st') -> edged st st'.
Proof.
  intros Hwf Hg. induction s as [| |e|e|w v|n l|a IHa b IHb]; intros Hn Hl st r st' Hok E.
  - injection E as <- <-. now apply edged_refl.
  - injection E as <- <-. now apply edged_refl.
  - injection E as <- <-. now apply edged_refl.
  - cbn [writes pdone fst] in Hl. rewrite run_growable_put in E by exact Hg.
    eapply (put_edge c _ (length e)); [..|exact E]; auto; try lia.
    intros s H. exists (mkO (overwrite (obuf s) (opos s) e) (opos s + length e)).
    split; [now apply store_ok|]. split; [reflexivity|]. now apply overwrite_length.
  - discriminate.
  - cbn [writes pdone fst] in Hl. rewrite le_bytes_length in Hl.
    cbn [run] in E. unfold ser_bitset, reserve in E. rewrite Hg in E.
    eapply (put_edge c (N.of_nat (bitset_bytes n)) (bitset_bytes n)); [..|exact E]; auto; try lia.
    intros s H. cbv beta. destruct (Nat.leb_spec (opos s + bitset_bytes n) (length (obuf s))); [|lia].
    eexists. split; [reflexivity|]. cbn [opos obuf]. split; [reflexivity|apply or_bits_length].
  - cbn [snug] in Hn. apply andb_true_iff in Hn as [Hna Hnb].
    cbn [writes] in Hl. unfold pseq in Hl. cbn [run] in E. unfold seq in E.
    destruct (run c a st) as [r1 s1] eqn:E1.
    assert (La : N.of_nat (length (fst (writes a))) < 2 ^ 63).
    { destruct (snd (writes a)); cbn [fst] in Hl; [rewrite app_length in Hl|]; lia. }
    pose proof (IHa Hna La _ _ _ Hok E1) as S1.
    destruct r1; try (injection E as <- <-; exact S1).
    rewrite (run_done _ _ _ _ E1) in Hl. cbn [fst] in Hl. rewrite app_length in Hl.
    eapply edged_trans; [exact S1|]. eapply IHb; eauto; [lia|]. apply S1.
Qed.

Lemma snug_bytes e : snug (scr_bytes e) = true.
Proof. now destruct e. Qed.
Lemma snug_size c s n : fixed_size c s = true -> snug (scr_size c (sz_of c s) n) = true.
Proof. unfold fixed_size. now destruct (sz_of c s). Qed.

Lemma scr_snug G c : tall_env (tight c) G ->
  forall v t, tall (tight c) t = true -> snug (scr G c v t) = true.
Proof.
  intros HG.
  assert (HM : forall l, Forall (fun v => forall t, tall (tight c) t = true -> snug (scr G c v t) = true) l ->
             forall ms, forallb (tall (tight c)) ms = true -> snug (scr_many (scr G c) l ms) = true).
  { intros l H. induction H as [|x l Hx _ IH]; intros [|m ms] Hm; try reflexivity.
    cbn [scr_many snug forallb] in *. apply andb_true_iff in Hm as [Hm1 Hm2].
    rewrite Hx, IH by assumption. reflexivity. }
  assert (HA : forall t l, tall (tight c) t = true ->
             Forall (fun v => forall t, tall (tight c) t = true -> snug (scr G c v t) = true) l ->
             snug (scr_all (scr G c) l t) = true).
  { intros t l Ht H. induction H as [|x l Hx _ IH]; [reflexivity|].
    cbn [scr_all snug]. now rewrite Hx, IH. }
  induction v as [n|l IH| |v IH|i v IH| |l|l] using val_ind'; intros t Hwf;
    destruct t as [w isb| |w sg zz| |si ms|k|n' t'|ts|s cg t'|s k t'|dc t'|t'|t'|ik meta alts|n'|k|s t'];
    try reflexivity; try (destruct k as [s|nv|]; reflexivity); cbn [scr tall tight andb] in *.
  - exact Hwf.
  - now destruct l.
  - destruct (negb (s_expl si) && is_empty (TStruct si ms)); [reflexivity|].
    destruct (as_bytes c (TStruct si ms)); [apply snug_bytes|]. now apply HM.
  - apply HM; [exact IH|]. apply HG.
  - destruct (as_bytes c t'); [apply snug_bytes|]. now apply HA.
  - now apply HM.
  - apply andb_true_iff in Hwf as [Hs Hwf]. cbn [snug]. rewrite snug_size by assumption.
    destruct (as_bytes c t' && cg); [apply snug_bytes|]. now apply HA.
  - apply andb_true_iff in Hwf as [Hs Hwf]. cbn [snug]. rewrite snug_size by assumption. now apply HA.
  - apply andb_true_iff in Hwf as [Hs Hwf]. cbn [snug]. rewrite snug_size by assumption.
    destruct (as_bytes c t'); [apply snug_bytes|]. now apply HA.
  - cbn [snug]. now apply IH.
  - cbn [snug]. now apply IH.
  - now apply IH.
  - destruct (nth_error meta i) as [[id dc]|]; [|reflexivity].
    destruct (nth_error alts i) as [t'|] eqn:E; [|reflexivity].
    cbn [snug].
    rewrite forallb_forall in Hwf. apply nth_error_In in E.
    rewrite IH by auto. destruct ik; cbn [scr_id]; [reflexivity|]. now rewrite snug_bytes.
  - destruct k as [s|n|]; cbn [snug]; rewrite ?snug_bytes; [|reflexivity|reflexivity].
    rewrite snug_size; [reflexivity|]. now rewrite andb_true_r in Hwf.
Qed.

Lemma ser_edge G c v t st r st' :
  writing G c v t -> growable c = true -> tall_env (tight c) G -> tall (tight c) t = true ->
  ost_ok st -> ser G c v t st = (r, st') -> edged st st'.
Proof.
  intros [H1 H2 H3 H4 H5 H6 H7 H8] Hg HtG Ht Hok E. rewrite ser_scr in E.
  eapply run_edge; [..|exact E]; auto.
  - now apply scr_snug.
  - rewrite writes_enc by assumption. exact H8.
Qed.
