(** C51: what the compile-time checks on ids and field numbers guarantee. *)

From Coq Require Import List NArith ZArith Lia Bool Arith.
From Coq Require Import ZifyBool ZifyNat ZifyN.
From Verif Require Import Base.Bytes Model.Types Model.Machine Model.Out Model.In Model.Pb Model.Traits.
Import ListNotations.
Local Open Scope N_scope.

(** *** The double folds *)
Section Fold.
  Context {A : Type} (eqb : A -> A -> bool) (Heqb : forall a b, eqb a b = true <-> a = b).

  Definition numbered (k : nat) (l : list A) : list (nat * A) := combine (List.seq k (length l)) l.

  Lemma numbered_In k l i x : In (i, x) (numbered k l) <-> (k <= i)%nat /\ nth_error l (i - k) = Some x.
  Proof.
    unfold numbered. revert k. induction l as [|y l IH]; intro k; cbn.
    - split; [tauto|]. intros [_ H]. destruct (i - k)%nat; discriminate.
    - rewrite IH. split.
      + intros [[= -> ->]|[H1 H2]].
        * rewrite Nat.sub_diag. split; [lia|reflexivity].
        * split; [lia|]. replace (i - k)%nat with (S (i - S k)) by lia. exact H2.
      + intros [H1 H2]. destruct (Nat.eq_dec i k) as [->|D].
        * rewrite Nat.sub_diag in H2. injection H2 as ->. now left.
        * right. split; [lia|]. replace (i - k)%nat with (S (i - S k)) in H2 by lia. exact H2.
  Qed.

  Definition pairs_distinct (l : list A) : bool :=
    forallb (fun a => forallb (fun b => (fst a =? fst b)%nat || negb (eqb (snd a) (snd b)))
      (numbered 0 l)) (numbered 0 l).

  Lemma pairs_distinct_NoDup l : pairs_distinct l = true <-> NoDup l.
  Proof.
    clear -Heqb. unfold pairs_distinct. rewrite NoDup_nth_error, forallb_forall. split.
    - intros H i j Hi E. destruct (nth_error l i) as [x|] eqn:Ex.
      2:{ apply nth_error_None in Ex. lia. }
      assert (I1 : In (i, x) (numbered 0 l)).
      { apply numbered_In. split; [lia|]. rewrite Nat.sub_0_r. exact Ex. }
      assert (I2 : In (j, x) (numbered 0 l)).
      { apply numbered_In. split; [lia|]. rewrite Nat.sub_0_r. now rewrite <- E. }
      specialize (H _ I1). rewrite forallb_forall in H. specialize (H _ I2). cbn [fst snd] in H.
      apply orb_prop in H as [H|H]; [now apply Nat.eqb_eq|].
      rewrite (proj2 (Heqb x x) eq_refl) in H. discriminate.
    - intros H [i x] I1. apply forallb_forall. intros [j y] I2. cbn [fst snd].
      apply numbered_In in I1 as [_ I1]. apply numbered_In in I2 as [_ I2].
      rewrite Nat.sub_0_r in I1, I2.
      destruct (eqb x y) eqn:E; [|apply orb_true_r].
      apply Heqb in E. subst y. rewrite orb_false_r. apply Nat.eqb_eq. apply H; [|congruence].
      apply nth_error_Some. congruence.
  Qed.
End Fold.

Lemma ident_eqb_eq a b : ident_eqb a b = true <-> a = b.
Proof.
  destruct a as [t x], b as [u y]. unfold ident_eqb. cbn [fst snd].
  rewrite andb_true_iff, Nat.eqb_eq, N.eqb_eq. split; [now intros [-> ->]|now intros [= -> ->]].
Qed.

(** The assertions say what they are meant to say. *)
Theorem unique_ids_exact ids : unique_ids ids = true <-> NoDup ids.
Proof. exact (pairs_distinct_NoDup ident_eqb ident_eqb_eq ids). Qed.

Theorem unique_exact values : unique values = true <-> NoDup values.
Proof. exact (pairs_distinct_NoDup N.eqb N.eqb_eq values). Qed.

Theorem same_id_types_exact ids :
  same_id_types ids = true <-> forall a b, In a ids -> In b ids -> fst a = fst b.
Proof.
  unfold same_id_types. rewrite forallb_forall. split.
  - intros H a b Ha Hb. specialize (H a Ha). rewrite forallb_forall in H. now apply Nat.eqb_eq, H.
  - intros H a Ha. apply forallb_forall. intros b Hb. now apply Nat.eqb_eq, H.
Qed.

(** *** Ids *)

(** The id of an alternative: the one it declares, or its number as a std::byte. *)
Definition declared (types : list (option ident)) (i : nat) : option ident :=
  match nth_error types i with
  | None => None
  | Some (Some x) => Some x
  | Some None => if (i <? 256)%nat then Some (byte_type, N.of_nat i) else None
  end.

Lemma get_id_declared types index : forall cur, (cur <= index)%nat ->
  get_id index cur types =
  match nth_error types (index - cur) with
  | None => None
  | Some (Some x) => Some x
  | Some None => if (index <? 256)%nat then Some (byte_type, N.of_nat index) else None
  end.
Proof.
  induction types as [|t types IH]; intros cur H; cbn [get_id].
  - destruct (index - cur)%nat; reflexivity.
  - destruct (Nat.eqb_spec index cur) as [->|D].
    + rewrite Nat.sub_diag. cbn [nth_error]. destruct t; [reflexivity|].
      replace (N.of_nat cur <? 256) with (cur <? 256)%nat; [reflexivity|]. lia.
    + rewrite IH by lia. replace (index - cur)%nat with (S (index - S cur)) by lia. reflexivity.
Qed.

Lemma all_ids_spec types n ids :
  all_ids n types = Some ids <-> length ids = n /\ forall i, (i < n)%nat -> nth_error ids i = declared types i /\ declared types i <> None.
Proof.
  revert ids. induction n as [|n IH]; intro ids; cbn [all_ids].
  - split.
    + intros [= <-]. split; [reflexivity|]. intros i Hi. lia.
    + intros [H _]. now destruct ids.
  - assert (D : id_const types n = declared types n).
    { unfold id_const, declared. rewrite get_id_declared by lia. now rewrite Nat.sub_0_r. }
    split.
    + intro H. destruct (all_ids n types) as [l|] eqn:E; [|discriminate].
      destruct (IH l) as [F _]. specialize (F eq_refl). destruct F as [F1 F2]. rewrite D in H.
      destruct (declared types n) as [x|] eqn:Ex; [|discriminate]. injection H as <-.
      rewrite app_length. cbn. split; [lia|]. intros i Hi.
      destruct (Nat.eq_dec i n) as [->|Ne].
      * rewrite nth_error_app2, F1, Nat.sub_diag, Ex by lia. split; [reflexivity|discriminate].
      * rewrite nth_error_app1 by lia. apply F2. lia.
    + intros [L H].
      assert (Hl : exists l x, ids = l ++ [x] /\ length l = n).
      { destruct (exists_last (l := ids)) as (l & x & E); [intros ->; discriminate|].
        exists l, x. split; [exact E|]. subst ids. rewrite app_length in L. cbn in L. lia. }
      destruct Hl as (l & x & -> & Ln).
      assert (E : all_ids n types = Some l).
      { apply IH. split; [exact Ln|]. intros i Hi. destruct (H i) as [H1 H2]; [lia|].
        rewrite nth_error_app1 in H1 by lia. auto. }
      rewrite E, D. destruct (H n) as [H1 _]; [lia|]. rewrite nth_error_app2 in H1 by lia.
      rewrite Ln, Nat.sub_diag in H1. cbn in H1. now rewrite <- H1.
Qed.

Lemma nth_error_ext {A} (l m : list A) : (forall i, nth_error l i = nth_error m i) -> l = m.
Proof.
  revert m. induction l as [|x l IH]; intros [|y m] H.
  - reflexivity.
  - specialize (H O). discriminate.
  - specialize (H O). discriminate.
  - f_equal; [specialize (H O); cbn in H; congruence|]. apply IH. intro i. exact (H (S i)).
Qed.

(** Variants whose alternatives declare nothing: std::byte 0, 1, 2...; the header cannot be
    instantiated for more than 256 of them. *)
Theorem default_ids n :
  variant_ids (repeat None n)
  = if (n <=? 256)%nat then Some (map (fun i => (byte_type, N.of_nat i)) (List.seq 0 n)) else None.
Proof.
  unfold variant_ids. rewrite repeat_length.
  assert (D : forall i, (i < n)%nat -> declared (repeat None n) i = if (i <? 256)%nat then Some (byte_type, N.of_nat i) else None).
  { intros i Hi. unfold declared.
    assert (E : nth_error (repeat (@None ident) n) i = Some None).
    { assert (X : exists x, nth_error (repeat (@None ident) n) i = Some x).
      { destruct (nth_error (repeat (@None ident) n) i) eqn:Ex; [eauto|].
        apply nth_error_None in Ex. rewrite repeat_length in Ex. lia. }
      destruct X as [x X]. rewrite X. f_equal. apply nth_error_In in X. now apply repeat_spec in X. }
    now rewrite E. }
  destruct (Nat.leb_spec n 256) as [L|L].
  - apply all_ids_spec. rewrite map_length, seq_length. split; [reflexivity|].
    intros i Hi. rewrite D by exact Hi. destruct (Nat.ltb_spec i 256); [|lia].
    split; [|discriminate]. rewrite (map_nth_error _ i _ (d := i)); [reflexivity|].
    rewrite (nth_error_nth' _ O) by (rewrite seq_length; lia). now rewrite seq_nth.
  - destruct (all_ids n (repeat None n)) as [ids|] eqn:E; [|reflexivity].
    apply all_ids_spec in E as [_ E]. destruct (E 256%nat ltac:(lia)) as [_ E2].
    rewrite D in E2 by lia. change (256 <? 256)%nat with false in E2. congruence.
Qed.

(** id(index) and index(id) are inverse to each other; other ids are found nowhere. *)
Theorem id_of_index ids i : (i < length ids)%nat -> id_at ids i 0 = nth_error ids i.
Proof.
  assert (H : forall k, (k <= i)%nat -> (i < k + length ids)%nat -> id_at ids i k = nth_error ids (i - k)).
  { induction ids as [|x ids IH]; intros k H1 H2; cbn [length] in H2; [lia|].
    cbn [id_at]. destruct ids as [|y ids].
    - cbn [length] in H2. replace (i - k)%nat with O by lia. reflexivity.
    - destruct (Nat.eqb_spec i k) as [->|D]; [now rewrite Nat.sub_diag|].
      rewrite IH by lia. replace (i - k)%nat with (S (i - S k)) by lia. reflexivity. }
  intro Hi. rewrite H by lia. now rewrite Nat.sub_0_r.
Qed.

Lemma index_at_spec ids id : forall k,
  match index_at ids id k with
  | Some i => (k <= i)%nat /\ nth_error ids (i - k) = Some id
              /\ forall j, (j < i - k)%nat -> nth_error ids j <> Some id
  | None => ~ In id ids
  end.
Proof.
  induction ids as [|x ids IH]; intro k; cbn [index_at]; [now intros []|].
  destruct (ident_eqb x id) eqn:E.
  - apply ident_eqb_eq in E. subst x. rewrite Nat.sub_diag. repeat split; [lia|]. intros j Hj. lia.
  - assert (Ne : x <> id) by (intros ->; rewrite (proj2 (ident_eqb_eq id id) eq_refl) in E; discriminate).
    specialize (IH (S k)). destruct (index_at ids id (S k)) as [i|].
    + destruct IH as (I1 & I2 & I3). split; [lia|].
      replace (i - k)%nat with (S (i - S k)) by lia. split; [exact I2|].
      intros [|j] Hj; cbn; [congruence|]. apply I3. lia.
    + cbn. tauto.
Qed.

Theorem index_of_id ids i id :
  unique_ids ids = true -> nth_error ids i = Some id -> index_at ids id 0 = Some i.
Proof.
  intros U H. apply unique_ids_exact in U. pose proof (index_at_spec ids id 0) as S.
  destruct (index_at ids id 0) as [j|].
  - destruct S as (_ & S & _). rewrite Nat.sub_0_r in S. f_equal.
    apply (proj1 (NoDup_nth_error ids) U); [apply nth_error_Some; congruence|congruence].
  - exfalso. apply S. now apply nth_error_In in H.
Qed.

Theorem index_of_other ids id : index_at ids id 0 = None <-> ~ In id ids.
Proof.
  pose proof (index_at_spec ids id 0) as S. destruct (index_at ids id 0) as [j|].
  - split; [discriminate|]. intro H. destruct S as (_ & S & _). apply nth_error_In in S. tauto.
  - tauto.
Qed.

(** Dispatch on the index (reading): the loader of that alternative. *)
Theorem visit_exact n i : (i < n)%nat -> visited n 0 i = Some i.
Proof.
  assert (H : forall k, (k <= i)%nat -> (i < k + n)%nat -> visited n k i = Some i).
  { induction n as [|n IH]; intros k H1 H2; [lia|]. cbn [visited].
    destruct n as [|n]; [f_equal; lia|].
    destruct (Nat.eqb_spec k i) as [->|D]; [reflexivity|]. apply IH; lia. }
  intro Hi. apply H; lia.
Qed.

(** The position of a type, if no type occurs twice. *)
Theorem index_by_type_exact types i t :
  NoDup types -> nth_error types i = Some t -> index_by_type types t = i.
Proof.
  intros N H. unfold index_by_type.
  assert (Z : forall l k, ~ In t l ->
    fold_right Nat.add O (map (fun p => if (snd p =? t)%nat then fst p else O) (combine (List.seq k (length l)) l)) = O).
  { induction l as [|x l IH]; intros k Hn; [reflexivity|]. cbn.
    destruct (Nat.eqb_spec x t) as [->|D]; [exfalso; apply Hn; now left|].
    apply IH. intro K. apply Hn. now right. }
  assert (G : forall l j k, NoDup l -> nth_error l j = Some t ->
    fold_right Nat.add O (map (fun p => if (snd p =? t)%nat then fst p else O) (combine (List.seq k (length l)) l)) = (k + j)%nat).
  { induction l as [|x l IH]; intros j k Hn Hj; [destruct j; discriminate|].
    apply NoDup_cons_iff in Hn as [Hx Hl]. destruct j as [|j]; cbn in Hj; cbn [length List.seq combine map fold_right fst snd].
    - injection Hj as ->. rewrite Nat.eqb_refl, Z by exact Hx. lia.
    - destruct (Nat.eqb_spec x t) as [->|D]; [exfalso; apply Hx; now apply nth_error_In in Hj|].
      rewrite (IH j) by assumption. lia. }
  exact (G types i O N H).
Qed.

(** A type that occurs twice or not at all is given the position of another one. *)
Theorem index_by_type_refuted :
  index_by_type [5; 6; 6]%nat 6 = 3%nat /\ index_by_type [5; 6; 7]%nat 8 = 0%nat.
Proof. split; reflexivity. Qed.

(** *** A variant that compiles satisfies the hypotheses of the theorems on variants *)
Theorem variant_checked G K types dcs alts t :
  variant_of K types dcs alts = Some t ->
  length types = length alts -> length dcs = length alts -> K byte_type = IdInt 1 ->
  (forall ty v, In (Some (ty, v)) types -> v < pow256 (idwidth (K ty))) ->
  forallb (wf G) alts = true ->
  wf G t = true /\
  exists ik meta, t = TVariant ik meta alts /\
    (forall i, (i < length alts)%nat -> exists ty v, declared types i = Some (ty, v) /\ K ty = ik
       /\ nth_error meta i = option_map (pair v) (nth_error dcs i)).
Proof.
  unfold variant_of, variant_ids. intros H L1 L2 HK Hv Hwf.
  destruct (all_ids (length types) types) as [ids|] eqn:E; [|discriminate].
  apply all_ids_spec in E as [L E].
  destruct (unique_ids ids && same_id_types ids) eqn:C; [|discriminate].
  apply andb_prop in C as [U S]. apply unique_ids_exact in U.
  pose proof (proj1 (same_id_types_exact ids) S) as S'.
  assert (X : exists t0 v0, In (t0, v0) ids /\ t = TVariant (K t0) (combine (map snd ids) dcs) alts).
  { destruct ids as [|[t0 v0] ids0]; [discriminate|]. exists t0, v0. split; [now left|].
    symmetry. exact (f_equal (fun o => match o with Some x => x | None => t end) H). }
  clear H. destruct X as (t0 & v0 & Hhd & ->).
  assert (Hpos : (0 < length ids)%nat) by (destruct ids; [destruct Hhd|cbn; lia]).
  assert (T : forall i ty v, nth_error ids i = Some (ty, v) -> ty = t0).
  { intros i ty v Hi. apply (S' (ty, v) (t0, v0)); [now apply nth_error_In in Hi|exact Hhd]. }
  assert (V : forall v, In v (map snd ids) -> v < pow256 (idwidth (K t0))).
  { intros v Hin. apply in_map_iff in Hin as ([ty w] & <- & Hin). cbn [snd].
    destruct (In_nth_error _ _ Hin) as [i Hi]. pose proof (T _ _ _ Hi) as ->.
    assert (Hlt : (i < length types)%nat) by (rewrite <- L; apply nth_error_Some; congruence).
    destruct (E i Hlt) as [Ei _]. rewrite Hi in Ei. unfold declared in Ei.
    destruct (nth_error types i) as [[x|]|] eqn:En; try discriminate.
    - injection Ei as <-. apply (Hv t0 w). now apply nth_error_In in En.
    - destruct (Nat.ltb_spec i 256); [|discriminate]. injection Ei as -> ->. rewrite HK.
      cbn [idwidth]. rewrite pow256_S, pow256_0. lia. }
  assert (Lc : map fst (combine (map snd ids) dcs) = map snd ids).
  { assert (Q : length (map snd ids) = length dcs) by (rewrite map_length; lia). revert Q.
    generalize (map snd ids). clear. intro a. revert dcs. induction a as [|x a IH]; intros [|d dcs] Q; cbn in *; try lia; try reflexivity.
    f_equal. apply IH. lia. }
  assert (Nd : NoDup (map snd ids)).
  { apply NoDup_nth_error. intros i j Hi Hij. rewrite map_length in Hi.
    rewrite !nth_error_map in Hij.
    destruct (nth_error ids i) as [[ti vi]|] eqn:Ei; [|apply nth_error_None in Ei; lia].
    destruct (nth_error ids j) as [[tj vj]|] eqn:Ej; [|discriminate].
    cbn in Hij. injection Hij as ->. pose proof (T _ _ _ Ei) as ->. pose proof (T _ _ _ Ej) as ->.
    apply (proj1 (NoDup_nth_error ids) U); [exact Hi|congruence]. }
  assert (Di : forall l, NoDup l -> distinct l = true).
  { induction l as [|x l IH]; intro H; [reflexivity|]. apply NoDup_cons_iff in H as [Hx Hl].
    cbn [distinct]. rewrite IH by exact Hl. rewrite andb_true_r. apply negb_true_iff.
    apply not_true_iff_false. intro X. apply existsb_exists in X as (y & Hy & Exy).
    apply N.eqb_eq in Exy. now subst. }
  split.
  - cbn [wf]. rewrite Lc, Hwf, andb_true_r.
    assert (P : (0 <? length alts)%nat = true) by (rewrite <- L1, <- L; now apply Nat.ltb_lt).
    rewrite P, combine_length, map_length. cbn [andb].
    replace (Nat.min (length ids) (length dcs) =? length alts)%nat with true
      by (symmetry; apply Nat.eqb_eq; lia).
    rewrite (Di _ Nd). cbn [andb]. apply forallb_forall. intros v Hin. apply N.ltb_lt. now apply V.
  - exists (K t0), (combine (map snd ids) dcs). split; [reflexivity|].
    intros i Hi. destruct (E i ltac:(lia)) as [Ei Dn].
    destruct (declared types i) as [[ty v]|] eqn:Ed; [|congruence].
    exists ty, v. split; [reflexivity|]. split; [now rewrite (T _ _ _ Ei)|].
    assert (Ev : nth_error (map snd ids) i = Some v) by (rewrite nth_error_map, Ei; reflexivity).
    revert Ev. generalize (map snd ids). clear. intro a. revert dcs i.
    induction a as [|x a IH]; intros dcs i Ev; [destruct i; discriminate|].
    destruct dcs as [|d dcs]; [now destruct i|]. destruct i as [|i]; cbn in *; [congruence|]. now apply IH.
Qed.

(** It compiles exactly when the ids exist, are distinct and have one type. *)
Theorem variant_compiles_iff K types dcs alts :
  types <> [] ->
  ((exists t, variant_of K types dcs alts = Some t) <->
   (forall i, (i < length types)%nat -> declared types i <> None)
   /\ (forall i j x y, declared types i = Some x -> declared types j = Some y -> fst x = fst y)
   /\ (forall i j, (i < length types)%nat -> (j < length types)%nat ->
         declared types i = declared types j -> i = j)).
Proof.
  intro Hne. unfold variant_of, variant_ids.
  assert (Dlt : forall i, declared types i <> None -> (i < length types)%nat).
  { intros i H. unfold declared in H. destruct (nth_error types i) eqn:E; [|congruence].
    apply nth_error_Some. congruence. }
  destruct (all_ids (length types) types) as [ids|] eqn:E.
  - apply all_ids_spec in E as [L E]. split.
    + intros [t H]. destruct (unique_ids ids && same_id_types ids) eqn:C; [|discriminate].
      apply andb_prop in C as [U S]. apply unique_ids_exact in U.
      pose proof (proj1 (same_id_types_exact ids) S) as S'.
      split; [intros i Hi; now apply E|]. split.
      * intros i j x y Hx Hy. destruct (E i) as [Ei _]; [apply Dlt; congruence|].
        destruct (E j) as [Ej _]; [apply Dlt; congruence|].
        apply S'; [apply (nth_error_In ids i)|apply (nth_error_In ids j)]; congruence.
      * intros i j Hi Hj Hij. destruct (E i Hi) as [Ei _]. destruct (E j Hj) as [Ej _].
        apply (proj1 (NoDup_nth_error ids) U); [lia|congruence].
    + intros (H1 & H2 & H3).
      replace (unique_ids ids && same_id_types ids) with true.
      { destruct ids as [|i0 ids0]; [destruct types; [congruence|discriminate]|]. eauto. }
      symmetry. apply andb_true_intro. split.
      * apply unique_ids_exact, NoDup_nth_error. intros i j Hi Hij.
        assert (Hj : (j < length ids)%nat).
        { apply nth_error_Some. rewrite <- Hij. now apply nth_error_Some. }
        destruct (E i ltac:(lia)) as [Ei _]. destruct (E j ltac:(lia)) as [Ej _].
        apply H3; [lia|lia|congruence].
      * apply same_id_types_exact. intros a b Ha Hb.
        destruct (In_nth_error _ _ Ha) as [i Hi]. destruct (In_nth_error _ _ Hb) as [j Hj].
        assert (Li : (i < length ids)%nat) by (apply nth_error_Some; congruence).
        assert (Lj : (j < length ids)%nat) by (apply nth_error_Some; congruence).
        destruct (E i ltac:(lia)) as [Ei _]. destruct (E j ltac:(lia)) as [Ej _].
        apply (H2 i j); congruence.
  - split; [intros [t H]; discriminate|]. intros (H1 & _). exfalso.
    assert (X : exists ids, length ids = length types /\ forall i, (i < length types)%nat -> nth_error ids i = declared types i).
    { assert (Y : forall n, (n <= length types)%nat -> exists ids, length ids = n /\ forall i, (i < n)%nat -> nth_error ids i = declared types i).
      { induction n as [|n IH]; intro Hn; [exists []; split; [reflexivity|]; intros; lia|].
        destruct IH as (l & Ll & Hl); [lia|].
        destruct (declared types n) as [x|] eqn:Ex; [|exfalso; apply (H1 n); [lia|exact Ex]].
        exists (l ++ [x]). rewrite app_length. cbn. split; [lia|]. intros i Hi.
        destruct (Nat.eq_dec i n) as [->|Ne].
        - rewrite nth_error_app2, Ll, Nat.sub_diag by lia. now rewrite Ex.
        - rewrite nth_error_app1 by lia. apply Hl. lia. }
      apply Y. lia. }
    destruct X as (ids & L & X).
    assert (Z : all_ids (length types) types = Some ids).
    { apply all_ids_spec. split; [exact L|]. intros i Hi. split; [now apply X|now apply H1]. }
    congruence.
Qed.

Example variant_checked_nontrivial :
  let K t := match t with O => IdInt 1 | 1%nat => IdInt 4 | _ => IdBytes 5 end in
  variant_of K [Some (1%nat, 1337); Some (1%nat, 7)] [true; false] [TScalar 4 false; TBool]
  = Some (TVariant (IdInt 4) [(1337, true); (7, false)] [TScalar 4 false; TBool])
  /\ variant_of K [None; None; None] [true; true; true] [TBool; TEmpty; TScalar 2 false]
     = Some (TVariant (IdInt 1) [(0, true); (1, true); (2, true)] [TBool; TEmpty; TScalar 2 false])
  /\ variant_of K [None; Some (0%nat, 0)] [true; true] [TBool; TEmpty] = None
  /\ variant_of K [None; Some (1%nat, 1)] [true; true] [TBool; TEmpty] = None
  /\ id_at [(1%nat, 1337); (1%nat, 7)] 1 0 = Some (1%nat, 7)
  /\ index_at [(1%nat, 1337); (1%nat, 7)] (1%nat, 7) 0 = Some 1%nat.
Proof. repeat split. Qed.

(** *** Protobuf field numbers *)

(** The number of a member: the one given with pb_field, the one given by the pb_map option for
    its position, or its position counted from 1. *)
Inductive numbered_as (m : pmsg) (i : nat) (n : N) : Prop :=
| by_field t : nth_error (m_fields m) i = Some (Some n, t) -> numbered_as m i n
| by_map t : nth_error (m_fields m) i = Some (None, t) ->
    In (N.of_nat i + 1, n) (m_map m) -> numbered_as m i n
| by_position t : nth_error (m_fields m) i = Some (None, t) ->
    (forall k, ~ In (N.of_nat i + 1, k) (m_map m)) -> n = N.of_nat i + 1 -> numbered_as m i n.

Lemma numbers_from_nth mp fs : forall idx i,
  nth_error (numbers_from mp idx fs) i
  = option_map (fun fd => number_from_struct mp (fst fd) (idx + i)) (nth_error fs i).
Proof.
  induction fs as [|[e t] fs IH]; intros idx i; [now destruct i|].
  destruct i as [|i]; cbn [numbers_from nth_error option_map fst]; [now rewrite Nat.add_0_r|].
  rewrite IH. destruct (nth_error fs i) as [fd|]; [|reflexivity]. cbn. do 2 f_equal. lia.
Qed.

(** The assertions hold exactly if every member has one number, not 0, and no two members have
    the same one (and the options are usable). *)
Theorem pb_checks_numbers m :
  pb_checks m = true ->
  length (numbers m) = length (m_fields m) /\ NoDup (numbers m)
  /\ (forall i n, nth_error (numbers m) i = Some n -> n <> 0)
  /\ (forall i n, nth_error (numbers m) i = Some n <-> numbered_as m i n).
Proof.
  unfold pb_checks. intro H. apply andb_prop in H as [H U]. apply andb_prop in H as [H O1].
  apply andb_prop in H as [M X]. apply unique_exact in U.
  rewrite forallb_forall in M, X, O1.
  assert (Len : length (numbers m) = length (m_fields m)).
  { unfold numbers. generalize O. generalize (m_map m). clear. intro mp.
    induction (m_fields m) as [|[e t] fs IH]; intro k; [reflexivity|]. cbn. now rewrite IH. }
  assert (Map : forall i, (i < length (m_fields m))%nat ->
    (mapped (m_map m) i <> 0 /\ In (N.of_nat i + 1, mapped (m_map m) i) (m_map m)
     /\ forall k, In (N.of_nat i + 1, k) (m_map m) -> k = mapped (m_map m) i)
    \/ (mapped (m_map m) i = 0 /\ forall k, ~ In (N.of_nat i + 1, k) (m_map m))).
  { intros i Hi. specialize (O1 i ltac:(apply in_seq; lia)). revert M O1. unfold mapped.
    generalize (N.of_nat i + 1). clear. intros n M O1. revert M O1.
    induction (m_map m) as [|[a b] mp IH]; intros M O1.
    - right. split; [reflexivity|]. intros k [].
    - pose proof (M (a, b) (or_introl eq_refl)) as Mab. cbn [fst snd] in Mab.
      cbn [filter fst snd] in O1. cbn [fold_right fst snd].
      assert (Tl : forall z, In z mp -> negb (fst z =? 0) && negb (snd z =? 0) = true)
        by (intros z Hz; apply M; now right).
      destruct (N.eqb_spec n a) as [->|D]; cbn [andb] in O1.
      + replace (negb (b =? 0)) with true in O1 by lia. cbn [length] in O1.
        assert (F : filter (fun ft => (a =? fst ft) && negb (snd ft =? 0)) mp = []).
        { destruct (filter _ mp); [reflexivity|]. cbn [length] in O1. lia. }
        assert (Hn : forall k, ~ In (a, k) mp).
        { intros k Hk. assert (Hf : In (a, k) (filter (fun ft => (a =? fst ft) && negb (snd ft =? 0)) mp)).
          { apply filter_In. split; [exact Hk|]. pose proof (Tl _ Hk) as T. cbn in *. lia. }
          rewrite F in Hf. exact Hf. }
        assert (Z : fold_right (fun ft acc => (if a =? fst ft then snd ft else 0) + acc) 0 mp = 0).
        { clear -Hn. induction mp as [|[x y] mp IH]; [reflexivity|]. cbn [fold_right fst snd].
          destruct (N.eqb_spec a x) as [->|]; [exfalso; apply (Hn y); now left|].
          rewrite IH; [reflexivity|]. intros k Hk. apply (Hn k). now right. }
        rewrite Z, N.add_0_r. left. split; [lia|]. split; [now left|].
        intros k [[= ->]|Hk]; [reflexivity|]. now apply Hn in Hk.
      + cbn [N.add]. replace (0 + fold_right _ 0 mp) with (fold_right (fun ft acc => (if n =? fst ft then snd ft else 0) + acc) 0 mp) by lia.
        destruct (IH Tl O1) as [(I1 & I2 & I3)|(I1 & I2)].
        * left. split; [exact I1|]. split; [now right|]. intros k [[= -> _]|Hk]; [congruence|]. now apply I3.
        * right. split; [exact I1|]. intros k [[= -> _]|Hk]; [congruence|]. now apply (I2 k). }
  assert (Iff : forall i n, nth_error (numbers m) i = Some n <-> numbered_as m i n).
  { intros i n. unfold numbers. rewrite numbers_from_nth. cbn [Nat.add].
    destruct (nth_error (m_fields m) i) as [[e t]|] eqn:E; cbn [option_map fst].
    2:{ split; [discriminate|]. intros [t Ht|t Ht _|t Ht _ _]; congruence. }
    assert (Hi : (i < length (m_fields m))%nat) by (apply nth_error_Some; congruence).
    unfold number_from_struct, field_number. destruct e as [e|]; cbn [fst].
    - split; [intros [= ->]; now apply (by_field m i n t)|].
      intros [t' Ht|t' Ht _|t' Ht _ _]; rewrite E in Ht; congruence.
    - destruct (Map i Hi) as [(I1 & I2 & I3)|(I1 & I2)].
      + replace (mapped (m_map m) i =? 0) with false by lia. cbn [fst]. split.
        * intros [= <-]. now apply (by_map m i _ t).
        * intros [t' Ht|t' Ht Hk|t' Ht Hk _]; [congruence| |].
          -- f_equal. symmetry. now apply I3.
          -- exfalso. now apply (Hk (mapped (m_map m) i)).
      + rewrite I1. cbn [N.eqb fst]. split.
        * intros [= <-]. now apply (by_position m i _ t).
        * intros [t' Ht|t' Ht Hk|t' Ht Hk ->]; [congruence| |reflexivity].
          exfalso. now apply (I2 n). }
  split; [exact Len|]. split; [exact U|]. split; [|exact Iff].
  intros i n Hn. apply Iff in Hn as [t Ht|t Ht Hk|t Ht _ ->].
  - specialize (X _ (nth_error_In _ _ Ht)). cbn in X. lia.
  - specialize (M _ Hk). cbn in M. lia.
  - lia.
Qed.

Lemma NoDup_distinct l : NoDup l -> distinct l = true.
Proof.
  induction l as [|x l IH]; intro H; [reflexivity|]. apply NoDup_cons_iff in H as [Hx Hl].
  cbn [distinct]. rewrite IH by exact Hl. rewrite andb_true_r. apply negb_true_iff.
  apply not_true_iff_false. intro X. apply existsb_exists in X as (y & Hy & Exy).
  apply N.eqb_eq in Exy. now subst.
Qed.

(** Hence the hypothesis [wf_pmsg] of the protobuf theorems: the part which the compiler does not
    check is that numbers are below 2^29 and that no position is mapped twice. *)
Theorem checked_message_wf P k :
  pb_checks (P k) = true ->
  forallb (fun fd => wfp (snd fd)) (m_fields (P k)) = true ->
  (forall n, In n (numbers (P k)) -> n < 2 ^ 29) ->
  NoDup (map fst (m_map (P k))) ->
  pwt P (VSeq (m_dflt (P k))) (PMsg k) = true ->
  wf_pmsg P k = true.
Proof.
  intros H Hw Hn Hd Ht. pose proof (pb_checks_numbers _ H) as (_ & H1 & H2 & _).
  unfold wf_pmsg. rewrite Hw, Ht, (NoDup_distinct _ H1), (NoDup_distinct _ Hd), andb_true_r. cbn [andb].
  apply andb_true_intro. split.
  - rewrite andb_true_r. apply forallb_forall. intros n Hin. pose proof (Hn n Hin).
    destruct (In_nth_error _ _ Hin) as [i Hi]. specialize (H2 i n Hi). lia.
  - unfold pb_checks in H. apply andb_prop in H as [H _]. apply andb_prop in H as [H _].
    apply andb_prop in H as [H _]. rewrite forallb_forall in *. intros ft Hin.
    specialize (H ft Hin). lia.
Qed.

(** Field number 536870912 = 2^29 is accepted by the assertions; protobuf does not allow it. *)
Theorem number_bound_unchecked_refuted :
  exists m, pb_checks m = true /\ numbers m = [2 ^ 29].
Proof. exists (mkPmsg [(Some (2 ^ 29), PFix 4)] [] []). split; reflexivity. Qed.

Example pb_checks_nontrivial :
  pb_checks (mkPmsg [(Some 5, PFix 4); (None, PBool); (None, PVar 4 true true)] [(3, 9)] []) = true
  /\ numbers (mkPmsg [(Some 5, PFix 4); (None, PBool); (None, PVar 4 true true)] [(3, 9)] []) = [5; 2; 9]
  /\ pb_checks (mkPmsg [(Some 2, PFix 4); (None, PBool)] [] []) = false
  /\ pb_checks (mkPmsg [(None, PFix 4)] [(1, 4); (1, 6)] []) = false.
Proof. repeat split. Qed.
