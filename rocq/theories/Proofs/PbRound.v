(** A written message satisfies the reading specification, and so is read back. *)

From Coq Require Import List NArith ZArith Lia Bool Arith.
From Coq Require Import ZifyBool ZifyNat ZifyN.
From Verif Require Import Base.Bytes Model.Types Model.Machine Model.Varint Model.Out Model.In
  Model.Loops Model.Protocol Model.Pb
  Spec.Leb128 Spec.Wire Spec.PbWire Spec.PbMerge
  Proofs.VarintP Proofs.OutP Proofs.InBase Proofs.InSafe Proofs.InRound Proofs.InFuel Proofs.ProtoP
  Proofs.PbOut Proofs.PbParse Proofs.PbIn Proofs.PbRead.
Import ListNotations.
Local Open Scope N_scope.

Ltac Zify.zify_post_hook ::= Z.div_mod_to_equations.

Lemma set_nth_same {A} i (x : A) l : nth_error l i = Some x -> set_nth i x l = l.
Proof.
  revert i. induction l as [|y l IH]; intros [|i] H; cbn in *; try discriminate.
  - now injection H as ->.
  - now rewrite IH.
Qed.

Lemma set_nth_twice {A} i (x y : A) l : set_nth i x (set_nth i y l) = set_nth i x l.
Proof. revert i. induction l as [|z l IH]; intros [|i]; cbn; try reflexivity. now rewrite IH. Qed.

Lemma nth_set_nth {A} i (x y : A) l : nth_error l i = Some y -> nth_error (set_nth i x l) i = Some x.
Proof.
  revert i. induction l as [|z l IH]; intros [|i] H; cbn in *; try discriminate; [reflexivity|].
  now apply IH.
Qed.

Lemma nth_set_nth_ne {A} i j (x : A) l : i <> j -> nth_error (set_nth i x l) j = nth_error l j.
Proof.
  revert i j. induction l as [|z l IH]; intros [|i] [|j] H; cbn; try reflexivity; try congruence.
  apply IH. congruence.
Qed.

Lemma set_nth_app {A} (l1 : list A) x y l2 i :
  i = length l1 -> set_nth i x (l1 ++ y :: l2) = l1 ++ x :: l2.
Proof. intros ->. induction l1 as [|z l1 IH]; cbn; [reflexivity|]. now rewrite IH. Qed.

Lemma nth_app_at {A} (l1 : list A) y l2 i : i = length l1 -> nth_error (l1 ++ y :: l2) i = Some y.
Proof. intros ->. induction l1; cbn; auto. Qed.

Lemma fold_cinsert ck l acc :
  ckok ck (acc ++ l) = true -> fold_left (cinsert ck) l acc = acc ++ l.
Proof.
  revert acc. induction l as [|x l IH]; intros acc H; cbn [fold_left]; [now rewrite app_nil_r|].
  assert (E : cinsert ck acc x = acc ++ [x]).
  { destruct ck as [ct rv|k rv]; [reflexivity|]. cbn [ckok cinsert] in *.
    apply assoc_insert_append. clear IH. induction acc as [|y acc IH]; [reflexivity|].
    cbn [app pairwise forallb] in *. apply andb_true_iff in H as [H1 H2].
    rewrite IH by exact H2. rewrite forallb_forall in H1. rewrite (H1 x); [reflexivity|].
    apply in_or_app. right. now left. }
  rewrite E. rewrite IH; rewrite <- app_assoc; auto.
Qed.

Lemma fold_assoc_insert k l acc :
  pairwise (before k) (acc ++ l) = true -> fold_left (assoc_insert k) l acc = acc ++ l.
Proof. exact (fold_cinsert (CSet k None) l acc). Qed.

Lemma flat_map_one {A B} (f : A -> B) l : map f l = flat_map (fun x => [f x]) l.
Proof. induction l as [|x l IH]; cbn; [reflexivity|]. now rewrite IH. Qed.

Section Round.
  Variables (P : penv) (room : N -> bool).
  Hypothesis HP : wf_penv P.

  Lemma merges_one nums ts vals i num t prior p v rs vals' :
    nth_error nums i = Some num -> nth_error ts i = Some t -> nth_error vals i = Some prior ->
    merge P room t prior p v -> merges P room nums ts (set_nth i v vals) rs vals' ->
    merges P room nums ts vals ([(num, p)] ++ rs) vals'.
  Proof. intros. cbn [app]. eapply mgs_cons; eauto. Qed.

  Lemma merges_each nums ts i num t (f : val -> list record) ins (l : list val) :
    nth_error nums i = Some num -> nth_error ts i = Some t ->
    (forall x acc, In x l -> exists p, f x = [(num, p)] /\ merge P room t (VSeq acc) p (VSeq (ins acc x))) ->
    forall vals acc rs vals', nth_error vals i = Some (VSeq acc) ->
      merges P room nums ts (set_nth i (VSeq (fold_left ins l acc)) vals) rs vals' ->
      merges P room nums ts vals (flat_map f l ++ rs) vals'.
  Proof.
    intros Hn Ht. induction l as [|x l IH]; intros Hf vals acc rs vals' Hv H.
    - cbn [flat_map fold_left app] in *. now rewrite set_nth_same in H.
    - cbn [flat_map fold_left] in *. rewrite <- app_assoc.
      destruct (Hf x acc (or_introl eq_refl)) as (p & E & Hm). rewrite E.
      eapply merges_one; eauto.
      apply (IH (fun y a Hy => Hf y a (or_intror Hy)) _ (ins acc x)).
      + eapply nth_set_nth; eauto.
      + now rewrite set_nth_twice.
  Qed.

  (** Member [t] holding [p0] gets [v] from the records of [v]. *)
  Definition restores (v : val) : Prop :=
    forall t num p0, pwt P v t = true -> wfp t = true -> preadable P room v t = true ->
    pwt P p0 t = true -> (repeated t = true -> p0 = VSeq []) ->
    forall nums ts vals i rs vals',
      nth_error nums i = Some num -> nth_error ts i = Some t -> nth_error vals i = Some p0 ->
      merges P room nums ts (set_nth i v vals) rs vals' ->
      merges P room nums ts vals (member_records P num v t ++ rs) vals'.

  Lemma restores_members mp fs : forall idx l prior,
    Forall restores l ->
    forallb (fun fd => wfp (snd fd)) fs = true ->
    forall2b (fun x fd => pwt P x (snd fd)) l fs = true ->
    forall2b (fun x fd => preadable P room x (snd fd)) l fs = true ->
    forall2b (fun x fd => pwt P x (snd fd)) prior fs = true ->
    forall N1 T1 L1, length N1 = idx -> length T1 = idx -> length L1 = idx ->
    merges P room (N1 ++ spec_numbers mp idx fs) (T1 ++ map snd fs)
      (L1 ++ start (map snd fs) prior)
      (members_records
         (fun idx fd x => member_records P (spec_number mp (fst fd) idx) x (snd fd)) idx l fs)
      (L1 ++ l).
  Proof.
    induction fs as [|fd fs IH]; intros idx l prior Hl Hwf Hw Hr Hp N1 T1 L1 HN HT HL.
    - destruct l, prior; try discriminate. constructor.
    - destruct l as [|x l]; [discriminate|]. destruct prior as [|y prior]; [discriminate|].
      cbn [forallb forall2b map spec_numbers start members_records] in *.
      rewrite !andb_true_iff in *. destruct Hwf as [Hwf Hwf'], Hw as [Hw Hw'], Hr as [Hr Hr'], Hp as [Hp Hp'].
      pose proof (Forall_inv Hl) as Hx. pose proof (Forall_inv_tail Hl) as Hl'.
      apply (Hx (snd fd) _ (if repeated (snd fd) then VSeq [] else y) Hw Hwf Hr) with (i := idx).
      + apply (clear_member_wt P (snd fd)) in Hp. destruct (snd fd); exact Hp.
      + intro E. now rewrite E.
      + apply nth_app_at. symmetry. exact HN.
      + apply nth_app_at. symmetry. exact HT.
      + apply nth_app_at. symmetry. exact HL.
      + rewrite set_nth_app by (symmetry; exact HL).
        specialize (IH (S idx) l prior Hl' Hwf' Hw' Hr' Hp'
          (N1 ++ [spec_number mp (fst fd) idx]) (T1 ++ [snd fd]) (L1 ++ [x])).
        rewrite <- !app_assoc in IH. cbn [app] in IH. apply IH;
          rewrite app_length; cbn [length]; lia.
  Qed.

  Lemma restores_message k l prior :
    Forall restores l -> pwt P (VSeq l) (PMsg k) = true -> preadable P room (VSeq l) (PMsg k) = true ->
    pwt P (VSeq prior) (PMsg k) = true ->
    merges_message P room k prior (message_records P k l) l.
  Proof.
    intros Hl Hw Hr Hp. destruct (wf_pmsg_facts P k (HP k)) as (H1 & _).
    apply (restores_members (m_map (P k)) (m_fields (P k)) 0 l prior Hl H1 Hw Hr Hp [] [] []); reflexivity.
  Qed.

  Lemma zz_sg (zz sg : bool) : negb zz || sg = true -> zz = true -> sg = true.
  Proof. now destruct zz, sg. Qed.

  Lemma restores_all n v : (height v <= n)%nat -> restores v.
  Proof.
    revert v. induction n as [|n IH]; intros v Hh.
    { destruct v; cbn [height] in Hh; lia. }
    intros t num p0 Hw Hwf Hr Hp0 Hrep nums ts vals i rs vals' Hn Ht Hv Hm.
    destruct t as [w| | |w sg zz| |k|ck w|ck w sg zz|ck contig w|ck k|ak kt vt|m w];
      destruct v as [x|l| |v|j v| |l|l]; try discriminate;
      cbn [pwt wfp preadable repeated] in Hw, Hwf, Hr, Hrep; cbn [member_records].
    - (* fixed *) eapply merges_one; eauto. apply orb_true_iff in Hwf as [E|E]; apply Nat.eqb_eq in E; subst w;
        constructor; lia.
    - eapply merges_one; eauto. constructor. lia.
    - eapply merges_one; eauto. constructor. lia.
    - eapply merges_one; eauto. constructor; [lia|now apply zz_sg].
    - (* empty *) destruct l; [|discriminate]. destruct p0 as [|[|]| | | | | |]; try discriminate.
      now rewrite set_nth_same in Hm.
    - (* message *) destruct p0 as [|prior| | | | | |]; try discriminate.
      eapply merges_one; eauto. constructor. apply restores_message; auto.
      rewrite Forall_forall. intros x Hin. apply IH. pose proof (height_in l x Hin). lia.
    - (* fundamentals *) rewrite (Hrep eq_refl) in *.
      apply andb_true_iff in Hw as [Hl Hck].
      destruct l as [|y l']; [cbn [app]; now rewrite set_nth_same in Hm|].
      set (l := y :: l') in *. eapply merges_one; eauto.
      destruct ck as [ct rv|ak rv].
      + apply mg_fixes; auto. rewrite flat_le_length.
        apply orb_true_iff in Hr as [E|E]; [discriminate|exact E].
      + replace (VSeq l) with (VSeq (fold_left (cinsert (CSet ak rv)) l []))
          by (now rewrite fold_cinsert).
        apply mg_fixes_set; auto. rewrite flat_le_length.
        apply orb_true_iff in Hr as [E|E]; [discriminate|exact E].
    - (* varints *) rewrite (Hrep eq_refl) in *.
      apply andb_true_iff in Hw as [Hl Hck].
      destruct l as [|y l']; [cbn [app]; now rewrite set_nth_same in Hm|].
      set (l := y :: l') in *. eapply merges_one; eauto.
      apply orb_true_iff in Hr as [E|E]; [discriminate|]. apply andb_true_iff in E as [Hz E].
      replace (VSeq l) with (VSeq (fold_left (cinsert ck) l [])) by (now rewrite fold_cinsert).
      apply mg_vars; auto. now apply zz_sg.
    - (* strings *) rewrite (Hrep eq_refl) in *.
      apply andb_true_iff in Hw as [Hl Hck]. rewrite forallb_forall in Hl, Hr.
      rewrite flat_map_one.
      eapply (merges_each nums ts i num _ _ (cinsert ck) l Hn Ht); [|exact Hv|].
      + intros x acc Hin. specialize (Hl x Hin). specialize (Hr x Hin). cbn beta in *.
        destruct x as [|m| | | | | |]; try discriminate. cbn [as_seq] in *.
        eexists. split; [reflexivity|]. apply mg_strs; [exact Hl|]. now rewrite flat_le_length.
      + now rewrite fold_cinsert.
    - (* messages *) rewrite (Hrep eq_refl) in *.
      apply andb_true_iff in Hw as [Hl Hck]. rewrite forallb_forall in Hl, Hr.
      eapply (merges_each nums ts i num _ _ (cinsert ck) l Hn Ht); [|exact Hv|].
      + intros x acc Hin. specialize (Hl x Hin). specialize (Hr x Hin). cbn beta in *.
        destruct x as [|m| | | | | |]; try discriminate.
        eexists. split; [reflexivity|]. apply mg_msgs. apply restores_message; auto.
        * rewrite Forall_forall. intros y Hy. apply IH.
          pose proof (height_in l _ Hin). pose proof (height_in m y Hy). lia.
        * apply (pwt_pdflt P (PMsg k) HP).
      + now rewrite fold_cinsert.
    - (* maps *) rewrite (Hrep eq_refl) in *.
      apply andb_true_iff in Hw as [Hl Hck]. apply andb_true_iff in Hwf as [Hwk Hwv].
      rewrite forallb_forall in Hl, Hr.
      eapply (merges_each nums ts i num _ _ (assoc_insert ak) l Hn Ht); [|exact Hv|].
      + intros x acc Hin. specialize (Hl x Hin). specialize (Hr x Hin). cbn beta in *.
        destruct x as [|[|a [|b [|]]]| | | | | |]; try discriminate.
        apply andb_true_iff in Hl as [Ha Hb]. apply andb_true_iff in Hr as [Hra Hrb].
        pose proof (height_in l _ Hin) as H1.
        pose proof (height_in [a; b] a ltac:(cbn; auto)) as H2.
        pose proof (height_in [a; b] b ltac:(cbn; auto)) as H3.
        eexists. split; [reflexivity|]. apply mg_map.
        rewrite <- (app_nil_r (member_records P 1 a kt ++ member_records P 2 b vt)), <- app_assoc.
        pose proof (clear_member_wt P kt _ (pwt_pdflt P kt HP)) as Hdk.
        pose proof (clear_member_wt P vt _ (pwt_pdflt P vt HP)) as Hdv.
        eapply (IH a ltac:(lia) kt 1 (clear_member kt (pdflt P kt))); eauto.
        { destruct kt; try discriminate; reflexivity. }
        { instantiate (1 := 0%nat). reflexivity. }
        { reflexivity. }
        { cbn [start nth_error]. destruct kt; reflexivity. }
        eapply (IH b ltac:(lia) vt 2 (clear_member vt (pdflt P vt))); eauto.
        { destruct vt; try discriminate; reflexivity. }
        { instantiate (1 := 1%nat). reflexivity. }
        { reflexivity. }
        { cbn [start set_nth nth_error]. destruct vt; reflexivity. }
        cbn [start set_nth]. constructor.
      + now rewrite fold_assoc_insert.
    - (* C array *) destruct p0 as [|prior| | | | | |]; try discriminate.
      apply andb_true_iff in Hw as [Hl1 Hl2]. cbn [pwt] in Hp0. apply andb_true_iff in Hp0 as [Hp1 Hp2].
      apply Nat.eqb_eq in Hl1, Hp1. eapply merges_one; eauto. now constructor.
  Qed.

  Theorem message_restored k l prior :
    pwt P (VSeq l) (PMsg k) = true -> preadable P room (VSeq l) (PMsg k) = true ->
    pwt P (VSeq prior) (PMsg k) = true ->
    merges_message P room k prior (message_records P k l) l.
  Proof.
    intros. apply restores_message; auto. rewrite Forall_forall. intros x _.
    now apply (restores_all (height x)).
  Qed.
End Round.
