(** C52, C53: overload selection and member lists. *)

From Coq Require Import List Bool Arith Lia.
From Verif Require Import Model.Dispatch.
Import ListNotations.

(** *** What a type looks like, independently of the concepts *)

Inductive shape := ShArray | ShVariant | ShOptional | ShContainer | ShAssociative | ShTuple
| ShOwner | ShBitset.

Definition shows (f : facts) (s : shape) : bool :=
  match s with
  | ShArray => is_arr f
  | ShVariant => q_variant f
  | ShOptional => q_optional f
  | ShContainer => q_container f && negb (q_key f)
  | ShAssociative => q_container f && q_key f
  | ShTuple => q_tuple f && negb (q_index f) && negb (q_container f)
  | ShOwner => is_owner f
  | ShBitset => q_bitset f
  end.

(** The overload meant for a shape, when writing ([false]) or reading ([true]). *)
Definition meant (input : bool) (s : shape) : overload :=
  match s with
  | ShArray => OArray
  | ShVariant => OVariant
  | ShOptional => OOptional
  | ShContainer => OContainer
  | ShAssociative => if input then OAssociative else OContainer
  | ShTuple => OTuple
  | ShOwner => OOwner
  | ShBitset => OBitset
  end.

Definition selected (input lv : bool) (f : facts) : option overload :=
  resolve (if input then in_viable lv f else out_viable lv f).

(** Some overload is always viable for an lvalue. *)
Theorem some_overload_viable (f : facts) (input : bool) : (if input then in_viable true f else out_viable true f) <> [].
Proof.
  unfold in_viable, out_viable, viable, c_unspecialized, c_array, c_associative.
  destruct input, (c_container f), (c_owner f), (c_tuple f), (c_variant f), (c_optional f), (c_bitset f), (is_arr f), (c_protocol f), (q_key f), (q_fixed f);
    cbn; discriminate.
Qed.

(** A serialize function is called whatever else the type offers (pointers and C arrays
    excepted: their overloads do not ask for one). *)
Theorem explicit_serialize_first f input lv :
  has_explicit f = true -> is_owner f = false -> is_arr f = false ->
  selected input lv f = Some OUnspecialized
  /\ forall fd b ab, unspecialized_branch f fd b ab = if e_static f then BStatic else BAdl.
Proof.
  unfold has_explicit. intros H Ho Ha. split.
  - unfold selected, in_viable, out_viable, viable, c_unspecialized, c_array, c_associative, c_variant, c_optional,
      c_container, c_tuple, c_bitset, c_owner, c_protocol, c_container, has_serialize, has_explicit.
    rewrite H, Ho, Ha, !orb_true_r, !andb_false_r. now destruct input.
  - intros fd b ab. unfold unspecialized_branch. destruct (e_static f); [reflexivity|].
    cbn in H. now rewrite H.
Qed.

(** A type declaring a protocol and no serialize function is written by the protocol. *)
Theorem protocol_selected f input lv :
  has_protocol f = true -> has_explicit f = false -> is_owner f = false -> is_arr f = false ->
  selected input lv f = Some OProtocol.
Proof.
  intros H He Ho Ha.
  assert (S : has_serialize f = true).
  { unfold has_serialize. unfold has_protocol in H. destruct (d_type f), (d_adl f); cbn in *; congruence. }
  unfold selected, in_viable, out_viable, viable, c_unspecialized, c_array, c_associative, c_variant, c_optional,
    c_container, c_tuple, c_bitset, c_owner, c_protocol.
  rewrite S, H, He, Ho, Ha. cbn. rewrite !andb_false_r. now destruct input.
Qed.

Ltac concepts :=
  unfold selected, in_viable, out_viable, c_unspecialized, c_array, c_associative, c_variant, c_tuple, c_bitset,
    c_owner, c_protocol, c_container, c_optional.

(** A type with exactly one shape and no serialize of any kind goes to the overload meant for it. *)
Theorem shape_selected f input s :
  has_serialize f = false -> shows f s = true -> (forall s', s' <> s -> shows f s' = false) ->
  selected input true f = Some (meant input s).
Proof.
  intros H Hs Hn.
  assert (Hp : has_protocol f = false).
  { unfold has_serialize in H. apply orb_false_iff in H as [H _]. apply orb_false_iff in H as [H1 H2].
    unfold has_protocol. destruct (d_type f); [|discriminate..]. destruct (d_adl f); [|discriminate..]. reflexivity. }
  assert (N : forall s', shows f s' = match s, s' with
    | ShArray, ShArray | ShVariant, ShVariant | ShOptional, ShOptional | ShContainer, ShContainer
    | ShAssociative, ShAssociative | ShTuple, ShTuple | ShOwner, ShOwner | ShBitset, ShBitset => true
    | _, _ => false end).
  { intro s'. destruct s, s'; try exact Hs; apply Hn; discriminate. }
  clear Hn Hs.
  pose proof (N ShArray) as N1. pose proof (N ShVariant) as N2. pose proof (N ShOptional) as N3.
  pose proof (N ShContainer) as N4. pose proof (N ShAssociative) as N5. pose proof (N ShTuple) as N6.
  pose proof (N ShOwner) as N7. pose proof (N ShBitset) as N8. clear N.
  unfold shows in *. concepts. rewrite H, Hp, N1, N2, N3, N7, N8. rewrite !andb_false_r. clear -N4 N5 N6.
  destruct (q_container f), (q_key f), (q_tuple f), (q_index f), s; try discriminate N4; try discriminate N5; try discriminate N6;
    destruct input; reflexivity.
Qed.

(** Nothing of the above: the members. *)
Theorem plain_selected f input lv :
  has_protocol f = false \/ has_explicit f = true -> (forall s, shows f s = false) ->
  selected input lv f = Some OUnspecialized.
Proof.
  intros Hp N.
  pose proof (N ShArray) as N1. pose proof (N ShVariant) as N2. pose proof (N ShOptional) as N3.
  pose proof (N ShContainer) as N4. pose proof (N ShAssociative) as N5. pose proof (N ShTuple) as N6.
  pose proof (N ShOwner) as N7. pose proof (N ShBitset) as N8. clear N.
  assert (P : has_protocol f && negb (has_explicit f) = false).
  { destruct Hp as [-> | -> ]; [reflexivity|apply andb_false_r]. }
  unfold shows in *. concepts. rewrite P, N1, N2, N3, N7, N8. clear -N4 N5 N6.
  assert (C : q_container f = false) by (destruct (q_container f), (q_key f); cbn in *; congruence).
  rewrite C in *. rewrite !andb_false_r.
  destruct (has_serialize f), (q_tuple f), (q_index f); try discriminate N6; destruct input; reflexivity.
Qed.

Lemma viable_In l o : In o (viable l) <-> In (o, true) l.
Proof.
  unfold viable. rewrite in_map_iff. split.
  - intros ([o' b] & <- & H). apply filter_In in H as [H1 H2]. cbn in *. now subst b.
  - intro H. exists (o, true). split; [reflexivity|]. now apply filter_In.
Qed.

Lemma resolve_In l o : resolve l = Some o -> In o l /\ (o = OContainer -> ~ In OAssociative l).
Proof.
  unfold resolve. intro H.
  set (p := fun o => negb (overload_eqb o OContainer && existsb (overload_eqb OAssociative) l)) in *.
  assert (I : In o (filter p l)).
  { destruct (filter p l) as [|x [|y r]]; try discriminate. injection H as ->. now left. }
  apply filter_In in I as [I1 I2]. split; [exact I1|]. intros -> I3. unfold p in I2.
  assert (X : existsb (overload_eqb OAssociative) l = true).
  { apply existsb_exists. exists OAssociative. now split. }
  rewrite X in I2. discriminate.
Qed.

(** A selected overload fits the type. *)
Theorem selected_fits f input lv o :
  selected input lv f = Some o ->
  match o with
  | OUnspecialized =>
      c_protocol f = false /\ is_arr f = false /\ (has_serialize f = false -> forall s, shows f s = false)
  | OArray => is_arr f = true \/ (lv = false /\ q_container f = true /\ q_fixed f = true)
  | OContainer => shows f ShContainer = true \/ (input = false /\ shows f ShAssociative = true)
  | OAssociative => shows f ShAssociative = true
  | OTuple => q_tuple f = true /\ q_index f = false
  | OOptional => q_optional f = true
  | OVariant => q_variant f = true
  | OOwner => is_owner f = true
  | OBitset => q_bitset f = true
  | OProtocol => has_protocol f = true /\ has_explicit f = false
  end.
Proof.
  intro H. unfold selected in H. apply resolve_In in H as [H A].
  assert (F : match o with
    | OUnspecialized => c_unspecialized f | OArray => c_array lv f | OContainer => c_container f
    | OAssociative => c_associative f | OTuple => c_tuple f | OOptional => c_optional f
    | OVariant => c_variant f | OOwner => c_owner f | OBitset => c_bitset f | OProtocol => c_protocol f
    end = true).
  { destruct input; unfold in_viable, out_viable in H; rewrite viable_In in H; cbn [In] in H;
      repeat (destruct H as [H|H]; [injection H as <- H; try exact H; now apply andb_prop in H|]); destruct H. }
  assert (A' : o = OContainer -> input = true -> c_associative f = false).
  { intros -> ->. specialize (A eq_refl). unfold in_viable in A. rewrite viable_In in A.
    apply not_true_iff_false. intro X. apply A. rewrite X. cbn. tauto. }
  clear H A. unfold c_array, c_associative, c_variant, c_bitset, c_protocol in *. destruct o.
  - unfold c_unspecialized in F. rewrite !andb_true_iff, !negb_true_iff in F.
    destruct F as (((((((F1 & F2) & F3) & F4) & F5) & F6) & F7) & F8).
    split; [exact F8|]. split; [exact F7|]. intros S s.
    unfold c_tuple, c_owner in *. rewrite F1 in F3. rewrite F5 in F2. unfold c_container in F1. rewrite F5 in F1.
    unfold c_optional, c_variant, c_bitset in *. rewrite S in *. cbn [negb andb] in *.
    destruct s; cbn [shows]; rewrite ?F1; try assumption; try reflexivity.
    rewrite andb_true_r. exact F3.
  - rewrite orb_true_iff, !andb_true_iff in F. destruct F as [F|(((F1 & F2) & F3) & F4)]; [now left|right].
    unfold c_container in F1. rewrite !andb_true_iff in F1. destruct lv; [discriminate|]. tauto.
  - cbn [shows]. destruct (q_key f) eqn:K.
    + right. destruct input; [specialize (A' eq_refl eq_refl); rewrite F in A'; discriminate|].
      unfold c_container in F. rewrite !andb_true_iff in F. destruct F as ((_ & _) & F). rewrite F. auto.
    + left. unfold c_container in F. rewrite !andb_true_iff in F. destruct F as ((_ & _) & F). now rewrite F.
  - cbn [shows]. unfold c_container in F. rewrite !andb_true_iff in F. destruct F as (((_ & _) & F) & G). now rewrite F, G.
  - unfold c_tuple in F. rewrite !andb_true_iff, !negb_true_iff in F. tauto.
  - unfold c_optional in F. now apply andb_prop in F.
  - now apply andb_prop in F.
  - unfold c_owner in F. now apply andb_prop in F.
  - now apply andb_prop in F.
  - apply andb_prop in F as [F1 F2]. now apply negb_true_iff in F2.
Qed.

(** *** Standard types: the answers to the questions, and the overload they select *)
Definition nothing : facts :=
  mkFacts NoDecl NoDecl false false false false false false false false false false false false false
    false false false 0 0 0 (fun _ => false).

Definition std_vector : facts :=
  mkFacts NoDecl NoDecl false false false false true false false false false false false false false
    true false false 0 0 0 (fun _ => false).
Definition std_map : facts :=
  mkFacts NoDecl NoDecl false false false false true true false false false false false false false
    true false false 0 0 0 (fun _ => false).
Definition std_array (n : nat) : facts :=
  mkFacts NoDecl NoDecl false false false false true false true false false true true false false
    true true false 0 n n (fun k => k <=? n).
Definition c_int_array (n : nat) : facts :=
  mkFacts NoDecl NoDecl false false false false false false false false false false false false true
    false true false n 0 0 (fun k => k <=? n).
Definition std_tuple (n : nat) : facts :=
  mkFacts NoDecl NoDecl false false false false false false true false false false false false false
    true false false 0 0 n (fun _ => false).
Definition std_variant : facts :=
  mkFacts NoDecl NoDecl false false true false false false false true false false false false false
    true false false 0 0 0 (fun _ => false).
Definition std_optional : facts :=
  mkFacts NoDecl NoDecl false false false true false false false false false false false false false
    true false false 0 0 0 (fun _ => false).
Definition std_unique_ptr : facts :=
  mkFacts NoDecl NoDecl false false false false false false false false false false false true false
    true false false 0 0 0 (fun _ => false).
Definition std_bitset : facts :=
  mkFacts NoDecl NoDecl false false false false false false false false true true false false false
    true false false 0 0 0 (fun _ => false).
Definition zpp_varint : facts := (* serialize found by argument dependent lookup, 1659-1663 *)
  mkFacts NoDecl NoDecl false true false false false false false false false false false false false
    true true false 0 0 0 (fun k => k <=? 1).

Theorem std_selected n :
  map (fun f => (selected false true f, selected true true f))
    [std_vector; std_map; std_array (S n); c_int_array (S n); std_tuple n; std_variant; std_optional;
     std_unique_ptr; std_bitset; zpp_varint]
  = [(Some OContainer, Some OContainer); (Some OContainer, Some OAssociative);
     (Some OContainer, Some OContainer); (Some OArray, Some OArray); (Some OTuple, Some OTuple);
     (Some OVariant, Some OVariant); (Some OOptional, Some OOptional); (Some OOwner, Some OOwner);
     (Some OBitset, Some OBitset); (Some OUnspecialized, Some OUnspecialized)].
Proof. reflexivity. Qed.

(** An rvalue std::array satisfies both [array] and [container]: no overload is selected. *)
Theorem rvalue_array_refuted n : selected false false (std_array n) = None.
Proof. reflexivity. Qed.

(** Nor for a type with two shapes; and a pointer type with a serialize function of its own found
    by argument dependent lookup is still taken for a pointer. *)
Theorem two_shapes_refuted :
  exists f, has_serialize f = false /\ shows f ShContainer = true /\ shows f ShBitset = true
    /\ selected false true f = None.
Proof.
  exists (mkFacts NoDecl NoDecl false false false false true false false false true false false false false
    true false false 0 0 0 (fun _ => false)). repeat split.
Qed.

Theorem pointer_serialize_refuted :
  exists f, e_adl f = true /\ selected false true f = Some OOwner.
Proof.
  exists (mkFacts NoDecl NoDecl false true false false false false false false false false false true false
    true false false 0 0 0 (fun _ => false)). split; reflexivity.
Qed.

(** *** Members *)

Lemma most_spec ok n :
  match most_initialisers ok n with
  | Some k => 1 <= k <= n /\ ok k = true /\ forall j, k < j <= n -> ok j = false
  | None => forall j, 1 <= j <= n -> ok j = false
  end.
Proof.
  induction n as [|n IH]; cbn [most_initialisers]; [intros; lia|].
  destruct (ok (S n)) eqn:E; [repeat split; try lia; exact E|].
  destruct (most_initialisers ok n) as [k|].
  - destruct IH as (I1 & I2 & I3). repeat split; try lia; try exact I2.
    intros j Hj. destruct (Nat.eq_dec j (S n)) as [->|]; [exact E|]. apply I3. lia.
  - intros j Hj. destruct (Nat.eq_dec j (S n)) as [->|]; [exact E|]. apply IH. lia.
Qed.

(** Neither an array, fixed container or tuple: taken apart into members. *)
Definition plain_class (f : facts) : bool :=
  is_class f && negb (is_arr f) && negb (c_container f && q_fixed f) && negb (c_tuple f).

(** The count a class declares, if any: its own before the one found by lookup, members before
    protocol. *)
Definition declared_count (f : facts) : option nat :=
  match d_type f, d_adl f with
  | Members (Some n), _ => Some n
  | _, Members (Some n) => Some n
  | Proto (Some n), _ => Some n
  | _, Proto (Some n) => Some n
  | _, _ => None
  end.

Lemma number_plain md f m : plain_class f = true ->
  number_of_members md f m =
  match declared_count f with
  | Some n => Some n
  | None =>
      match md with
      | Packs => if c_guarded f then None else Some m
      | Initialisers =>
          if is_aggregate f then
            match most_initialisers (accepts f) 50 with
            | Some n => Some n
            | None => if is_empty_class f then Some 0 else None
            end
          else None
      | Bindings => if (1 <=? m) && (m <=? 50) then Some m else None
      end
  end.
Proof.
  unfold plain_class, number_of_members, declared_count. rewrite !andb_true_iff, !negb_true_iff.
  intros (((-> & ->) & ->) & ->). cbn [negb].
  destruct (d_type f) as [|[?|]|[?|]], (d_adl f) as [|[?|]|[?|]]; reflexivity.
Qed.

(** No member is skipped and none is visited twice or out of order: if the code compiles, the
    visitor receives exactly the members - provided the class does not declare that it has none. *)
Theorem no_member_skipped {A} md f (members : list A) l :
  plain_class f = true -> declared_count f <> Some 0 ->
  (is_empty_class f = true -> members = []) ->
  visit_members md f members = Some l -> l = members.
Proof.
  intros Hp Hd He. unfold visit_members. rewrite (number_plain md f _ Hp).
  destruct (declared_count f) as [n|].
  - destruct md; [congruence| |]; (destruct n as [|n]; [congruence|]);
      (destruct ((S n <=? 50) && (S n =? length members)); congruence).
  - destruct md; [congruence| |].
    + destruct (is_aggregate f); [|discriminate].
      pose proof (most_spec (accepts f) 50) as M. destruct (most_initialisers (accepts f) 50) as [n|].
      * destruct n as [|n]; [lia|]. destruct ((S n <=? 50) && (S n =? length members)); congruence.
      * destruct (is_empty_class f); [|discriminate]. rewrite He by reflexivity. congruence.
    + destruct ((1 <=? length members) && (length members <=? 50)) eqn:E; [|discriminate].
      destruct (length members) as [|n] eqn:L; [discriminate|].
      destruct ((S n <=? 50) && (S n =? S n)); congruence.
Qed.

(** Classes whose count of initialisers is their number of members, up to 50, are detected. *)
Theorem members_detected {A} f (members : list A) :
  plain_class f = true -> declared_count f = None -> is_aggregate f = true ->
  1 <= length members <= 50 ->
  (forall k, 1 <= k <= 50 -> accepts f k = true -> k <= length members) ->
  accepts f (length members) = true ->
  visit_members Initialisers f members = Some members.
Proof.
  intros Hp Hd Ha Hl Hm Hk. unfold visit_members. rewrite (number_plain _ f _ Hp), Hd, Ha.
  pose proof (most_spec (accepts f) 50) as M. destruct (most_initialisers (accepts f) 50) as [n|].
  - destruct M as (M1 & M2 & M3).
    assert (n = length members).
    { destruct (Nat.lt_trichotomy n (length members)) as [L|[L|L]]; [|exact L|].
      - rewrite M3 in Hk by lia. discriminate.
      - specialize (Hm n ltac:(lia) M2). lia. }
    subst n. destruct (length members) as [|k] eqn:E; [lia|].
    replace (S k <=? 50) with true by (symmetry; apply Nat.leb_le; lia). now rewrite Nat.eqb_refl.
  - rewrite M in Hk by lia. discriminate.
Qed.

(** With more than 50 members the program does not compile (C++26 packs excepted). *)
Theorem too_many_members {A} md f (members : list A) :
  plain_class f = true -> declared_count f <> Some 0 -> is_empty_class f = false ->
  50 < length members -> md <> Packs -> visit_members md f members = None.
Proof.
  intros Hp Hd He Hl Hm. unfold visit_members. rewrite (number_plain md f _ Hp).
  assert (K : forall n, n <> 0 ->
    (if (n <=? 50) && (n =? length members) then Some members else None) = @None (list A)).
  { intros n _. destruct (Nat.leb_spec n 50); [|reflexivity].
    destruct (Nat.eqb_spec n (length members)); [lia|reflexivity]. }
  destruct (declared_count f) as [n|].
  - destruct md; [congruence| |]; (destruct n as [|n]; [congruence|]); apply K; lia.
  - destruct md; [congruence| |].
    + destruct (is_aggregate f); [|reflexivity].
      pose proof (most_spec (accepts f) 50) as M. destruct (most_initialisers (accepts f) 50) as [n|].
      * destruct n as [|n]; [lia|]. apply K. lia.
      * now rewrite He.
    + replace (length members <=? 50) with false by (symmetry; apply Nat.leb_gt; lia).
      now rewrite andb_false_r.
Qed.

(** A class that declares members<0> is written as nothing, whatever it contains (C++26 packs
    excepted). *)
Theorem declared_zero_refuted :
  exists f (members : list nat), plain_class f = true /\ declared_count f = Some 0
    /\ members <> [] /\ visit_members Initialisers f members = Some [].
Proof.
  exists (mkFacts (Members (Some 0)) NoDecl false false false false false false false false false false false
    false false true true false 0 0 0 (fun k => k <=? 2)), [1; 2]. repeat split. discriminate.
Qed.

Example members_nontrivial :
  let f := mkFacts NoDecl NoDecl false false false false false false false false false false false
    false false true true false 0 0 0 (fun k => k <=? 3) in
  plain_class f = true /\ visit_members Initialisers f [10; 20; 30] = Some [10; 20; 30]
  /\ visit_members Initialisers f [10; 20] = None.
Proof. repeat split. Qed.

Example selected_nontrivial :
  let f := mkFacts (Proto None) NoDecl false false false false true false false false false false false
    false false true true false 0 0 0 (fun k => k <=? 3) in
  has_protocol f = true /\ selected true true f = Some OProtocol.
Proof. split; reflexivity. Qed.

(** What is not a class has no members; a C array has its elements. *)
Theorem count_without_class md f m :
  is_class f = false -> number_of_members md f m = Some (if is_arr f then extent f else 0).
Proof. intro H. unfold number_of_members. now destruct (is_arr f); rewrite ?H. Qed.

(** With structured binding packs and nothing declared, the count is that of the members, except for
    classes that are serialized by what they hold: containers, owning pointers, variants, optionals and
    bitsets; no count is given for them. *)
Theorem count_with_packs f m :
  plain_class f = true -> has_serialize f = false ->
  number_of_members Packs f m =
  if q_container f && negb (q_optional f) || is_owner f || q_variant f || q_optional f || q_bitset f
  then None else Some m.
Proof.
  intros HP HS. rewrite number_plain by exact HP.
  assert (D : declared_count f = None).
  { unfold has_serialize in HS. apply orb_false_iff in HS as [HS _]. apply orb_false_iff in HS as [H1 H2].
    unfold declared_count. now destruct (d_type f), (d_adl f). }
  rewrite D. unfold c_guarded. unfold plain_class in HP. rewrite !andb_true_iff, !negb_true_iff in HP.
  destruct HP as (((HC & HA) & HF) & _).
  assert (A : c_container f && negb (c_array false f) = q_container f && negb (q_optional f)).
  { unfold c_array. rewrite HA. unfold c_container, c_optional in *. rewrite HS in *. cbn [negb andb orb] in *.
    destruct (q_container f), (q_optional f), (q_fixed f); cbn in *; try discriminate; reflexivity. }
  rewrite A. unfold c_owner, c_variant, c_optional, c_bitset. rewrite HS. cbn [negb andb].
  now destruct (q_container f), (q_optional f), (is_owner f), (q_variant f), (q_bitset f).
Qed.

Example count_with_packs_nontrivial n :
  map (fun f => number_of_members Packs f 7)
    [std_vector; std_map; std_array (S n); c_int_array n; std_tuple n; std_variant; std_optional;
     std_unique_ptr; std_bitset; nothing]
  = [None; None; Some (S n); Some n; Some n; None; None; None; None; Some 0].
Proof. reflexivity. Qed.
