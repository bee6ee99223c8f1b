(** C18, C19, C21-C27, C42: the individual kinds of items. *)

From Coq Require Import List NArith ZArith Lia Bool Arith Permutation.
From Coq Require Import ZifyBool ZifyNat ZifyN.
From Verif Require Import Base.Bytes Model.Types Model.Machine Model.Varint Model.Out Model.In
  Model.Options Spec.Leb128 Spec.Wire Proofs.VarintP Proofs.OutP Proofs.InBase Proofs.InSafe
  Proofs.InLocal Proofs.InPrior Proofs.InRound Proofs.InHost Proofs.InFuel Thm.Demo Thm.Output Thm.Input.
Import ListNotations.
Local Open Scope N_scope.

(** ** C18: byte order, reading side *)

(** With an explicit byte order, any input is read with the same result on every host. *)
Theorem in_host_independent G h1 h2 g1 g2 os a abi data t fuel prior pos v p :
  let c1 := config h1 g1 os a abi in
  let c2 := config h2 g2 os a abi in
  one_order os <> None -> reading G c1 data t -> plain t = true -> tall_env elem_ok G ->
  (pos <= length data)%nat -> wt G prior t = true ->
  (des G c1 data fuel t prior pos = (ROk, v, p) <-> des G c2 data fuel t prior pos = (ROk, v, p)).
Proof.
  intros c1 c2 Ho [H1 H2 H3 H4 H5 H6] Hpl HplG Hp Hw.
  assert (Hx : fmt_of c2 = fmt_of c1).
  { unfold fmt_of, c1, c2. cbn [host_le swap dsize config].
    destruct (one_order os) as [b|] eqn:E1; [|congruence].
    now rewrite (one_order_wire h1 os b E1), (one_order_wire h2 os b E1). }
  assert (S12 : same_side c1 c2) by (constructor; auto).
  assert (S21 : same_side c2 c1) by (constructor; auto).
  split; intro E.
  - exact (des_host G c1 c2 data H1 H2 H3 S12 H4 HplG fuel t H6 Hpl H5 prior pos Hp Hw v p E).
  - exact (des_host G c2 c1 data H1 H2 H3 S21 H4 HplG fuel t H6 Hpl H5 prior pos Hp Hw v p E).
Qed.

(** Written on one kind of host, read back on another. *)
Theorem cross_host_round_trip G h1 h2 g1 g2 os1 os2 a1 a2 abi1 abi2 v t st st' data pos fuel prior :
  let cw := config h1 g1 os1 a1 abi1 in
  let cr := config h2 g2 os2 a2 abi2 in
  one_order os1 = one_order os2 -> one_order os1 <> None ->
  default_size os1 = default_size os2 ->
  writing G cw v t -> bits_ok G t st -> ost_ok st ->
  ser G cw v t st = (ROk, st') ->
  tall (rt_ok cr) t = true -> tall_env (rt_ok cr) G ->
  readable G cr v t = true -> (height v <= fuel)%nat -> wt G prior t = true -> small data ->
  has_at data pos (window (obuf st') (opos st) (opos st' - opos st)) ->
  des G cr data fuel t prior pos = (ROk, v, (pos + (opos st' - opos st))%nat).
Proof.
  intros cw cr Ho Hn Hd W B O H. intros.
  eapply round_trip; eauto.
  unfold cw, cr. cbn [host_le swap config].
  destruct (one_order os1) as [b|] eqn:E1; [|congruence]. symmetry in Ho.
  now rewrite (one_order_wire h1 os1 b E1), (one_order_wire h2 os2 b Ho).
Qed.

Example cross_host_nontrivial :
  let w := snd (ser node_env (big_cfg true) demo_val demo_ty (mkO [] 0)) in
  des node_env (big_cfg false) (obuf w) 10 demo_ty demo_default 0 = (ROk, demo_val, opos w)
  /\ firstn 8 (obuf w) = [x01; x02; x03; x04; x00; x01; x00; x02].
Proof. split; vm_compute; reflexivity. Qed.

(** ** C19: raw memory copies *)

(** The memory copied for an object is the member-wise encoding (the specification [enc]
    concatenates the encodings of the members). *)
Theorem bulk_output_memberwise G c v t :
  wt G v t = true -> wf G t = true -> plain t = true -> is_empty t = false ->
  as_bytes c t = true ->
  objrep c v t = encode G (fmt_of c) v t.
Proof. intros. unfold encode. now rewrite objrep_enc. Qed.

Theorem bulk_array_memberwise G c n l t :
  wt G (VSeq l) (TArray n t) = true -> wf G t = true -> plain t = true -> is_empty t = false ->
  as_bytes c t = true ->
  flat_map (fun x => objrep c x t) l = concat (map (fun x => encode G (fmt_of c) x t) l).
Proof.
  intros Hl Hw Hp He Ha. cbn [wt] in Hl. apply andb_true_iff in Hl as [_ Hl].
  induction l as [|x l IH]; [reflexivity|]. cbn [forallb] in Hl. apply andb_true_iff in Hl as [Hx Hl].
  cbn [flat_map map concat]. rewrite IH by exact Hl. f_equal. now apply bulk_output_memberwise.
Qed.

(** Reading a class by copying its memory succeeds exactly when reading its members one after
    another does, with the same object and position. *)
Theorem bulk_input_memberwise G c data fuel si ms l pos v p :
  small data -> (pos <= length data)%nat ->
  bs (TStruct si ms) = true -> plain (TStruct si ms) = true -> wf G (TStruct si ms) = true ->
  wt G (VSeq l) (TStruct si ms) = true ->
  (des G c data fuel (TStruct si ms) (VSeq l) pos = (ROk, v, p)
   <-> seq_res (des_many (des G c data fuel) ms l pos) = (ROk, v, p)).
Proof.
  intros Hsm Hp Hb Hpl Hw Hwt.
  assert (Hf : flat (TStruct si ms)) by (repeat split; auto; now apply bs_not_empty_struct).
  pose proof (des_ty_flat G c data (des_rec G c data fuel) Hsm _ Hf Hw (VSeq l) pos Hp Hwt) as R1.
  assert (R2 : reads_as data (wparse (fmt_of c) (TStruct si ms)) (bsize (TStruct si ms)) pos
                 (seq_res (des_many (des G c data fuel) ms l pos))).
  { cbn [bsize]. rewrite <- (flat_sum _ _ Hf).
    apply (reads_as_seq data (parse_many (wparse (fmt_of c)) ms)).
    apply (des_many_flat G data (des_rec G c data fuel)); auto.
    cbn [wf] in Hw. rewrite !andb_true_iff in Hw. destruct Hw as [[_ Hw] _].
    rewrite forallb_forall in Hw. rewrite Forall_forall. intros m Hin prior q Hq Hwq.
    apply des_ty_flat; auto. eapply flat_member; eauto. }
  unfold des at 1. rewrite (R1 v p), (R2 v p). reflexivity.
Qed.

(** The same for the elements of arrays and contiguous containers. *)
Theorem bulk_elements_memberwise G c data fuel t l pos vs p :
  small data -> (pos <= length data)%nat ->
  bs t = true -> plain t = true -> is_empty t = false -> wf G t = true -> as_bytes c t = true ->
  forallb (fun x => wt G x t) l = true ->
  (des_bytes c data t (length l) l pos = (ROk, vs, p)
   <-> des_all (des G c data fuel t) l pos = (ROk, vs, p)).
Proof.
  intros Hsm Hp Hb Hpl He Hw Ha Hl.
  assert (Hf : flat t) by (repeat split; auto).
  rewrite (des_bytes_flat G c data (des_rec G c data fuel) Hsm t l pos Hf Hw Ha Hp vs p).
  pose proof (des_all_flat G data (des_rec G c data fuel) (des G c data fuel t) (wparse (fmt_of c) t) t) as A.
  specialize (A (fun prior q Hq Hwq => des_ty_flat G c data _ Hsm t Hf Hw prior q Hq Hwq) l pos Hp Hl vs p).
  rewrite A. reflexivity.
Qed.

Example bulk_nontrivial :
  bs point = true /\ as_bytes vec_cfg point = true /\ as_bytes (big_cfg true) point = false
  /\ des node_env vec_cfg [x01; x02; x03; x04; x05] 0 point (VSeq [VN 0; VN 0]) 1
     = (ROk, VSeq [VN 0x302; VN 0x504], 5%nat)
  /\ des node_env (big_cfg true) [x01; x02; x03; x04; x05] 0 point (VSeq [VN 0; VN 0]) 1
     = (ROk, VSeq [VN 0x203; VN 0x405], 5%nat).
Proof. repeat split; vm_compute; reflexivity. Qed.

(** Containers of empty classes: bulk copy writes sizeof = 1 byte per element, member-wise
    serialization writes nothing, so the same little endian format differs between a little
    endian host (bulk) and a big endian host (member-wise), and one cannot read the other. *)
Theorem bulk_empty_class_refuted :
  let t := TVec None true TEmpty in
  let v := VSeq [VSeq []; VSeq []] in
  let le := vec_cfg in
  let be := mkCfg false true (SzFix 4) None 3 2 false false true (fun _ => true) (fun _ => 8) in
  fmt_of le = fmt_of be
  /\ (exists s1 s2, ser node_env le v t (mkO [] 0) = (ROk, s1) /\ ser node_env be v t (mkO [] 0) = (ROk, s2)
        /\ opos s1 = 6%nat /\ opos s2 = 4%nat
        /\ rres (des node_env le (firstn 4 (obuf s2)) 0 t (VSeq []) 0) = RErr result_out_of_range).
Proof.
  split; [reflexivity|]. do 2 eexists. repeat split; vm_compute; reflexivity.
Qed.

(** ** C21: size prefixes *)

Lemma enc_all_app_gen f (t : ty) l1 l2 :
  snd (enc_all f (l1 ++ l2) t) = true ->
  snd (enc_all f l1 t) = true /\
  fst (enc_all f (l1 ++ l2) t) = fst (enc_all f l1 t) ++ fst (enc_all f l2 t).
Proof.
  induction l1 as [|x l1 IH]; intro H; [split; reflexivity|].
  cbn [app enc_all] in *. apply pseq_ok in H as (H1 & H2 & H3). rewrite H3.
  destruct (IH H2) as [I1 I2]. rewrite I2. unfold pseq. rewrite H1. cbn [fst snd].
  split; [exact I1|]. now rewrite app_assoc.
Qed.

(** The count written is the number of elements modulo 2^(8w); a reader therefore gets the
    first (count mod 2^(8w)) elements and stops before the others. *)
Theorem size_prefix_truncates G c s w contig t l data pos fuel prior :
  wf_env G -> szok c = true -> small data -> tall_env elem_ok G -> tall_env (rt_ok c) G ->
  wf G (TVec s contig t) = true -> plain (TVec s contig t) = true -> tall (rt_ok c) t = true ->
  sz_of c s = SzFix w \/ sz_of c s = SzVar w ->
  wt G (VSeq l) (TVec s contig t) = true -> wt G prior (TVec s contig t) = true ->
  writable G (fmt_of c) (VSeq l) (TVec s contig t) = true ->
  let m := N.to_nat (N.of_nat (length l) mod pow256 w) in
  readable G c (VSeq (firstn m l)) (TVec s contig t) = true ->
  (height (VSeq l) <= fuel)%nat ->
  has_at data pos (encode G (fmt_of c) (VSeq l) (TVec s contig t)) ->
  (exists p, des G c data fuel (TVec s contig t) prior pos = (ROk, VSeq (firstn m l), p)
     /\ (p + length (fst (enc_all (enc G (fmt_of c)) (skipn m l) t))
         = pos + length (encode G (fmt_of c) (VSeq l) (TVec s contig t)))%nat)
  /\ (firstn m l = l <-> N.of_nat (length l) < pow256 w).
Proof.
  intros HG Hsz Hsm HpG HrG Hw Hp Hrt Hs Hl Hpr Hwr m Hrd Hh Hat.
  pose proof (pow256_pos w) as Hpw.
  assert (Hm : (m <= length l)%nat).
  { unfold m. pose proof (N.mod_le (N.of_nat (length l)) (pow256 w) ltac:(lia)). lia. }
  assert (Hmm : N.of_nat m mod pow256 w = N.of_nat (length l) mod pow256 w).
  { unfold m. rewrite N2Nat.id, N.mod_mod; lia. }
  assert (Hlen : length (firstn m l) = m) by (rewrite firstn_length; lia).
  split.
  2:{ split; intro H.
      - assert (E : m = length l) by (rewrite <- H; lia). unfold m in E.
        pose proof (N.mod_lt (N.of_nat (length l)) (pow256 w) ltac:(lia)). lia.
      - rewrite firstn_all2; [reflexivity|]. unfold m. rewrite N.mod_small by exact H. lia. }
  unfold writable, encode in *. cbn [enc] in *.
  apply pseq_ok in Hwr as (_ & Hwr & E). rewrite E in *. cbn [pdone fst] in *.
  assert (Hws : wire_size (fmt_of c) s (N.of_nat (length l))
              = wire_size (fmt_of c) s (N.of_nat (length (firstn m l)))).
  { rewrite Hlen. unfold wire_size.
    change (match s with Some s0 => s0 | None => wsize (fmt_of c) end) with (sz_of c s).
    destruct Hs as [-> | ->]; now rewrite Hmm. }
  rewrite <- (firstn_skipn m l) in Hwr. apply enc_all_app_gen in Hwr as [Hwr Hsp].
  rewrite (firstn_skipn m l) in Hsp. rewrite Hsp in *. rewrite Hws in *.
  rewrite app_assoc in Hat. apply has_at_app in Hat as [Hat _].
  assert (HeM : encode G (fmt_of c) (VSeq (firstn m l)) (TVec s contig t)
     = wire_size (fmt_of c) s (N.of_nat (length (firstn m l))) ++ fst (enc_all (enc G (fmt_of c)) (firstn m l) t)).
  { unfold encode. cbn [enc]. unfold pseq. reflexivity. }
  eexists. split.
  - rewrite (des_round G c data HG Hsz Hsm HpG HrG (VSeq (firstn m l)) (TVec s contig t) fuel prior pos);
      auto.
    + cbn [tall]. rewrite Hrt, andb_true_r. unfold rt_ok. cbn [own_extent delimited].
      destruct Hs as [-> | ->]; reflexivity.
    + cbn [wt] in *. rewrite forallb_forall in *. intros x Hin. apply Hl.
      rewrite <- (firstn_skipn m l). apply in_or_app. now left.
    + cbn [height] in *. assert (F : forall k (l : list val),
        (fold_right Nat.max 0 (map height (firstn k l)) <= fold_right Nat.max 0 (map height l))%nat).
      { induction k as [|k IHk]; intros [|x l0]; cbn [firstn map fold_right]; try lia.
        specialize (IHk l0). lia. }
      specialize (F m l). lia.
  - rewrite HeM. rewrite !app_length. lia.
Qed.

Example size_prefix_truncates_nontrivial :
  let t := TVec (Some (SzFix 1)) true (TScalar 1 false) in
  let v := VSeq (repeat (VN 7) 258) in
  let w := snd (ser node_env vec_cfg v t (mkO [] 0)) in
  opos w = 259%nat
  /\ des node_env vec_cfg (obuf w) 0 t (VSeq []) 0 = (ROk, VSeq [VN 7; VN 7], 3%nat)
  /\ readable node_env vec_cfg (VSeq [VN 7; VN 7]) t = true.
Proof. repeat split; vm_compute; reflexivity. Qed.

(** ** C22: associative containers *)

Definition first_of_its_kind (eqv : val -> val -> bool) (xs : list val) (x : val) : Prop :=
  exists i, nth_error xs i = Some x /\
    forall j y, (j < i)%nat -> nth_error xs j = Some y -> eqv y x = false.

Lemma insert_sorted_perm lt key l x : Permutation (insert_sorted lt key l x) (x :: l).
Proof.
  induction l as [|y l IH]; cbn [insert_sorted]; [auto|].
  destruct (lt _ _); [auto|]. rewrite IH. apply perm_swap.
Qed.

Lemma assoc_insert_in k l x y :
  In y (assoc_insert k l x) <->
  In y l \/ (y = x /\ (a_multi k = true \/ existsb (fun z => equivalent k z x) l = false)).
Proof.
  unfold assoc_insert. destruct (negb (a_multi k) && existsb _ l) eqn:E.
  - apply andb_true_iff in E as [E1 E2]. apply negb_true_iff in E1.
    split; [auto|]. intros [H|[-> [H|H]]]; congruence.
  - assert (P : In y (match a_cmp k with AOrd lt => insert_sorted lt (akey k) l x | AHash _ => l ++ [x] end)
             <-> In y l \/ y = x).
    { destruct (a_cmp k).
      - rewrite insert_sorted_in. tauto.
      - rewrite in_app_iff. cbn [In]. intuition congruence. }
    rewrite P. apply andb_false_iff in E. rewrite negb_false_iff in E. tauto.
Qed.

Definition insert_all (k : akind) (xs : list val) : list val :=
  fold_left (assoc_insert k) xs [].

Lemma fold_insert_multi k xs acc :
  a_multi k = true -> Permutation (fold_left (assoc_insert k) xs acc) (rev xs ++ acc).
Proof.
  intro Hm. revert acc; induction xs as [|x xs IH]; intro acc; cbn [fold_left rev app]; [auto|].
  rewrite IH, <- app_assoc. apply Permutation_app_head. cbn [app].
  unfold assoc_insert. rewrite Hm. cbn [negb andb].
  destruct (a_cmp k); [apply insert_sorted_perm|].
  apply Permutation_sym, Permutation_cons_append.
Qed.

Lemma fold_insert_unique k (P : val -> Prop) xs acc x :
  a_multi k = false ->
  (forall a b c, P a -> P b -> P c ->
     equivalent k a b = true -> equivalent k b c = true -> equivalent k a c = true) ->
  Forall P xs -> Forall P acc -> P x ->
  (In x (fold_left (assoc_insert k) xs acc) <->
   In x acc \/ (existsb (fun z => equivalent k z x) acc = false /\ first_of_its_kind (equivalent k) xs x)).
Proof.
  intros Hm Htr Hxs Hacc Px. revert acc Hacc; induction Hxs as [|y xs Py Hxs IH]; intros acc Hacc; cbn [fold_left].
  - split; [auto|]. intros [H|[_ ([|i] & H & _)]]; [exact H|discriminate..].
  - rewrite Forall_forall in Hacc.
    rewrite IH, assoc_insert_in, Hm.
    2:{ rewrite Forall_forall. intros z Hz. apply assoc_insert_in in Hz as [Hz|[-> _]]; auto. }
    assert (EX : existsb (fun z => equivalent k z x) (assoc_insert k acc y)
               = existsb (fun z => equivalent k z x) acc || equivalent k y x).
    { apply eq_true_iff_eq. rewrite orb_true_iff, !existsb_exists. split.
      - intros (z & Hz & Ez). apply assoc_insert_in in Hz. destruct Hz as [Hz|[-> _]]; eauto.
      - intros [(z & Hz & Ez)|E].
        + exists z. split; [apply assoc_insert_in; auto|exact Ez].
        + destruct (existsb (fun z => equivalent k z y) acc) eqn:Ey.
          * apply existsb_exists in Ey as (z & Hz & Ez). exists z. split.
            -- apply assoc_insert_in. auto.
            -- apply (Htr z y x); auto.
          * exists y. split; [|exact E]. apply assoc_insert_in. auto. }
    rewrite EX, orb_false_iff.
    assert (FK : first_of_its_kind (equivalent k) (y :: xs) x <->
       x = y \/ (equivalent k y x = false /\ first_of_its_kind (equivalent k) xs x)).
    { split.
      - intros ([|i] & H1 & H2); cbn [nth_error] in H1.
        + left. congruence.
        + right. split; [apply (H2 O y); [lia|reflexivity]|].
          exists i. split; [exact H1|]. intros j z Hj Hz. apply (H2 (S j) z); [lia|exact Hz].
      - intros [->|[E (i & H1 & H2)]].
        + exists O. split; [reflexivity|]. intros; lia.
        + exists (S i). split; [exact H1|]. intros [|j] z Hj Hz; cbn [nth_error] in Hz.
          * now injection Hz as <-.
          * apply (H2 j z); [lia|exact Hz]. }
    rewrite FK. split.
    + intros [[H|[-> [H|H]]]|[[H1 H2] H3]]; auto; try discriminate.
    + intros [H|[H1 [->|[H2 H3]]]]; auto.
Qed.

Lemma des_assoc_elems (f : val -> nat -> dres) k d n acc pos l p :
  des_assoc f (assoc_insert k) d n acc pos = (ROk, l, p) <->
  exists xs, des_all f (repeat d n) pos = (ROk, xs, p) /\ l = fold_left (assoc_insert k) xs acc.
Proof.
  revert acc pos; induction n as [|n IH]; intros acc pos; cbn [des_assoc repeat des_all].
  - split.
    + intros [= <- <-]. exists []. auto.
    + intros (xs & [= <- <-] & ->). reflexivity.
  - destruct (f d pos) as [[r v] q]. destruct r.
    2-5: split; [discriminate|intros (xs & H & _); discriminate].
    rewrite IH. split.
    + intros (xs & H & ->). exists (v :: xs). rewrite H. auto.
    + intros (xs & H & ->). destruct (des_all f (repeat d n) q) as [[r1 l1] q1].
      injection H as -> <- ->. exists l1. auto.
Qed.

(** Reading an associative container succeeds exactly when reading that many fresh elements one
    after another does; it then holds the first element of every key (all elements if keys may
    repeat), and nothing of its previous contents. *)
Theorem assoc_read_first_wins G c data fuel s k t prior pos :
  reading G c data (TAssoc s k t) -> sz_of c s <> SzNone ->
  (forall x y z, wt G x t = true -> wt G y t = true -> wt G z t = true ->
     equivalent k x y = true -> equivalent k y z = true -> equivalent k x z = true) ->
  (pos <= length data)%nat -> wt G prior (TAssoc s k t) = true ->
  forall v p,
  des G c data fuel (TAssoc s k t) prior pos = (ROk, v, p) <->
  exists n p0 xs l,
    des_size c data (sz_of c s) pos = (ROk, n, p0)
    /\ des_all (des G c data fuel t) (repeat (dflt G t) (N.to_nat n)) p0 = (ROk, xs, p)
    /\ v = VSeq l
    /\ l = fold_left (assoc_insert k) xs []
    /\ pairwise (before k) l = true
    /\ (a_multi k = false -> forall x, In x l <-> first_of_its_kind (equivalent k) xs x)
    /\ (a_multi k = true -> Permutation l xs).
Proof.
  intros HR Hs Htr Hp Hw v p.
  assert (U : forall xs, forallb (fun x => wt G x t) xs = true -> a_multi k = false -> forall x,
            In x (fold_left (assoc_insert k) xs []) <-> first_of_its_kind (equivalent k) xs x).
  { intros xs Hxs Hm x. rewrite forallb_forall in Hxs. split; intro H.
    - assert (Hin : In x xs).
      { clear - H. assert (A : forall acc, In x (fold_left (assoc_insert k) xs acc) -> In x xs \/ In x acc).
        { clear H. induction xs as [|y xs IH]; intros acc H; cbn [fold_left] in H; [auto|].
          apply IH in H as [H|H]; [left; now right|]. apply assoc_insert_in in H as [H|[-> _]]; auto.
          left; now left. }
        apply A in H as [H|[]]. exact H. }
      apply (fold_insert_unique k (fun x => wt G x t = true)) in H; auto.
      + destruct H as [[]|[_ H]]. exact H.
      + now rewrite Forall_forall.
    - apply (fold_insert_unique k (fun x => wt G x t = true)); auto.
      + now rewrite Forall_forall.
      + destruct H as (i & H & _). apply Hxs. eapply nth_error_In; eauto. }
  assert (M : forall xs, a_multi k = true -> Permutation (fold_left (assoc_insert k) xs []) xs).
  { intros xs Hm. rewrite fold_insert_multi by assumption.
    rewrite app_nil_r. apply Permutation_sym, Permutation_rev. }
  split.
  - intro E.
    destruct (in_position_and_target_valid _ _ _ _ _ _ _ _ _ _ HR Hp Hw E) as [_ Hv].
    unfold des in E. cbn [des_ty] in E. fold (des G c data fuel t) in E.
    assert (E' : match des_size c data (sz_of c s) pos with
       | (ROk, n, pos') =>
            seq_res (des_assoc (des G c data fuel t) (assoc_insert k) (dflt G t) (N.to_nat n) [] pos')
       | (r, _, pos') => (r, prior, pos') end = (ROk, v, p)).
    { destruct (sz_of c s); [congruence|exact E..]. }
    destruct HR as [H1 H2 H3 H4 H5 H6]. cbn [tallP] in H5. destruct H5 as [_ H5].
    cbn [wf] in H6. apply andb_true_iff in H6 as [H6 H7].
    pose proof (des_size_safe c (sz_of c s) (wfsz_sz_of c s H2 H6) data pos H3 Hp) as S. cbn beta in S.
    destruct (des_size c data (sz_of c s) pos) as [[r n] p0]. destruct r; try discriminate.
    destruct (des_assoc _ _ _ _ _ _) as [[r1 l1] p1] eqn:Ea. injection E' as -> <- ->.
    apply des_assoc_elems in Ea as (xs & Ea & ->).
    assert (Hxs : forallb (fun x => wt G x t) xs = true).
    { pose proof (des_all_safe G data true true (des G c data fuel t) t
        (des_safe G c data true true H1 H2 H3 H4 (flagged_env_true G) fuel t H7 (flagged_true t) H5)
        (repeat (dflt G t) (N.to_nat n)) p0) as D.
      rewrite Ea in D. apply D; [destruct S; lia|].
      apply forallb_forall. intros x Hx. apply repeat_spec in Hx as ->. now apply wt_dflt. }
    exists n, p0, xs, (fold_left (assoc_insert k) xs []).
    split; [reflexivity|]. split; [exact Ea|]. split; [reflexivity|]. split; [reflexivity|].
    split; [|auto]. cbn [wt] in Hv. apply andb_true_iff in Hv. apply Hv.
  - intros (n & p0 & xs & l & E1 & E2 & -> & -> & _).
    unfold des. cbn [des_ty]. fold (des G c data fuel t).
    assert (A : des_assoc (des G c data fuel t) (assoc_insert k) (dflt G t) (N.to_nat n) [] p0
               = (ROk, fold_left (assoc_insert k) xs [], p)).
    { apply des_assoc_elems. exists xs. auto. }
    destruct (sz_of c s); [congruence|..]; rewrite E1, A; reflexivity.
Qed.

(** The comparison hypothesis holds for the demo map. *)
Example assoc_hypothesis_met x y z :
  let t := TTuple [TScalar 1 false; TBool] in
  wt node_env x t = true -> wt node_env y t = true -> wt node_env z t = true ->
  equivalent map_kind x y = true -> equivalent map_kind y z = true -> equivalent map_kind x z = true.
Proof.
  intros t. assert (K : forall x, wt node_env x t = true -> exists a l, x = VSeq (VN a :: l)).
  { intros w H. destruct w as [|l| | | | | |]; try discriminate.
    destruct l as [|[] l]; try discriminate. eauto. }
  intros Hx Hy Hz. destruct (K _ Hx) as (a & ? & ->), (K _ Hy) as (b & ? & ->), (K _ Hz) as (d & ? & ->).
  unfold equivalent, map_kind, akey. cbn [a_cmp a_map lt_n].
  destruct (N.ltb_spec a b), (N.ltb_spec b a), (N.ltb_spec b d), (N.ltb_spec d b),
    (N.ltb_spec a d), (N.ltb_spec d a); cbn; intros; try reflexivity; try discriminate; lia.
Qed.

(** A map with a repeated key on the wire: the first entry stays. *)
Example assoc_nontrivial :
  des node_env vec_cfg [x03; x00; x00; x00; x05; x01; x02; x00; x05; x00] 0
    (TAssoc None map_kind (TTuple [TScalar 1 false; TBool])) (VSeq [VSeq [VN 9; VN 1]]) 0
  = (ROk, VSeq [VSeq [VN 2; VN 0]; VSeq [VN 5; VN 1]], 10%nat).
Proof. vm_compute. reflexivity. Qed.

(** ** C23: optionals *)

(** What was written between two archive states. *)
Definition wrote (st st' : ost) (e : list byte) : Prop :=
  opos st' = (opos st + length e)%nat /\ window (obuf st') (opos st) (length e) = e.

Theorem optional_written G c dc t v st st' :
  writing G c v (TOpt dc t) -> bits_ok G (TOpt dc t) st -> ost_ok st ->
  ser G c v (TOpt dc t) st = (ROk, st') ->
  match v with
  | VNone => wrote st st' [x00]
  | VSome x => wrote st st' (x01 :: encode G (fmt_of c) x t)
  | _ => False
  end.
Proof.
  intros HW Hb Hok H. destruct (out_wire_format _ _ _ _ _ _ HW Hb Hok H) as (H1 & H2 & H3).
  pose proof (w_wt _ _ _ _ HW) as Hw.
  destruct v; try discriminate; split; assumption.
Qed.

Theorem optional_ptr_same_bytes G c dc t v st :
  wt G v (TOptPtr t) = true -> ser G c v (TOptPtr t) st = ser G c v (TOpt dc t) st.
Proof. destruct v; try discriminate; reflexivity. Qed.

Lemma flag_read c data pos b :
  small data -> nth_error data pos = Some b -> des_flag c data pos = (ROk, b2n b, S pos).
Proof.
  intros Hsm H. assert (L : (pos < length data)%nat) by (apply nth_error_Some; congruence).
  unfold des_flag. rewrite des_scalar_eq by (auto; lia).
  destruct (Nat.leb_spec (pos + 1) (length data)); [|lia].
  assert (W : window data pos 1 = [b]).
  { unfold window. apply nth_error_split in H as (l1 & l2 & -> & <-).
    rewrite skipn_app, skipn_all, Nat.sub_diag. reflexivity. }
  rewrite W, Nat.add_1_r. f_equal. f_equal.
  rewrite scalar_val_wval, wval_1 by reflexivity. cbn [le_val]. lia.
Qed.

(** A zero flag disengages whatever was there; any other flag byte engages, and the contents are
    read in the existing object or a fresh one. *)
Theorem optional_read G c data fuel dc t prior pos b :
  small data -> nth_error data pos = Some b ->
  (b = x00 -> des G c data fuel (TOpt dc t) prior pos = (ROk, VNone, S pos)
           /\ des G c data fuel (TOptPtr t) prior pos = (ROk, VNone, S pos)) /\
  (b <> x00 ->
     (forall v p, des G c data fuel (TOpt dc t) prior pos = (ROk, v, p) <->
        exists x, v = VSome x /\
          des G c data fuel t (match dc, prior with true, VSome y => y | _, _ => dflt G t end) (S pos) = (ROk, x, p))
     /\ (forall v p, des G c data fuel (TOptPtr t) prior pos = (ROk, v, p) <->
        exists x, v = VSome x /\ des G c data fuel t (dflt G t) (S pos) = (ROk, x, p))).
Proof.
  intros Hsm H. pose proof (flag_read c data pos b Hsm H) as F.
  unfold des. cbn [des_ty]. rewrite F. fold (des G c data fuel t).
  split; intro Hb.
  - subst b. split; reflexivity.
  - assert (E : b2n b <> 0).
    { intro E. apply Hb. rewrite <- (n2b_b2n b), E. reflexivity. }
    destruct (b2n b) as [|q]; [congruence|]. split; intros v p.
    + unfold des_inplace. destruct dc.
      * replace (match opt_cur prior with Some x => x | None => dflt G t end)
          with (match prior with VSome y => y | _ => dflt G t end) by (destruct prior; reflexivity).
        destruct (des G c data fuel t _ (S pos)) as [[r x] p']. split.
        -- intros [= -> <- ->]. eauto.
        -- intros (x' & -> & [= -> -> ->]). reflexivity.
      * destruct (des G c data fuel t _ (S pos)) as [[r x] p']. destruct r; split.
        all: try (intros (x' & -> & [=]); subst; reflexivity).
        all: intros [=]; subst; eauto.
    + unfold des_ptr. destruct (des G c data fuel t _ (S pos)) as [[r x] p']. destruct r; split.
      all: try (intros (x' & -> & [=]); subst; reflexivity).
      all: intros [=]; subst; eauto.
Qed.

Example optional_nontrivial :
  des node_env vec_cfg [x7f; x05; x06] 0 (TOpt true (TScalar 2 false)) VNone 0 = (ROk, VSome (VN 0x605), 3%nat)
  /\ des node_env vec_cfg [x00; x05] 0 (TOpt true (TScalar 2 false)) (VSome (VN 9)) 0 = (ROk, VNone, 1%nat)
  /\ fst (ser node_env vec_cfg (VSome (VN 9)) (TOpt true (TScalar 2 false)) (mkO [] 0)) = ROk.
Proof. repeat split; vm_compute; reflexivity. Qed.

(** ** C24: variants *)

Theorem variant_written G c ik meta alts i x id dc t st st' :
  writing G c (VAlt i x) (TVariant ik meta alts) -> bits_ok G (TVariant ik meta alts) st -> ost_ok st ->
  nth_error meta i = Some (id, dc) -> nth_error alts i = Some t ->
  ser G c (VAlt i x) (TVariant ik meta alts) st = (ROk, st') ->
  wrote st st' (wire_id (fmt_of c) ik id ++ encode G (fmt_of c) x t).
Proof.
  intros HW Hb Hok Hm Ha H. destruct (out_wire_format _ _ _ _ _ _ HW Hb Hok H) as (H1 & H2 & H3).
  unfold wrote. unfold encode in *. cbn [enc] in *. rewrite Hm, Ha in *. unfold pseq in *. cbn [pdone fst snd] in *.
  auto.
Qed.

Theorem variant_valueless_refused G c ik meta alts st :
  ser G c VValueless (TVariant ik meta alts) st = (RErr invalid_argument, st).
Proof. reflexivity. Qed.

Lemma nodup_ids (meta : list (N * bool)) i j id d1 d2 :
  distinct (map fst meta) = true ->
  nth_error meta i = Some (id, d1) -> nth_error meta j = Some (id, d2) -> i = j.
Proof.
  intros Hd H1 H2. pose proof (find_id_nth meta id d1 i Hd H1).
  pose proof (find_id_nth meta id d2 j Hd H2). congruence.
Qed.

Lemma wire_id_length o ik id : length (wire_id o ik id) = idwidth ik.
Proof. destruct ik; cbn [wire_id idwidth]; [apply wscalar_length|apply le_bytes_length]. Qed.

(** An id on the wire selects the one alternative that has it. *)
Theorem variant_read_selects G c data fuel ik meta alts prior pos i id dc t :
  wf G (TVariant ik meta alts) = true -> small data ->
  nth_error meta i = Some (id, dc) -> nth_error alts i = Some t ->
  has_at data pos (wire_id (fmt_of c) ik id) ->
  let q := (pos + idwidth ik)%nat in
  let cur := match prior with VAlt j y => if (j =? i)%nat && dc then y else dflt G t | _ => dflt G t end in
  (forall v p, des G c data fuel (TVariant ik meta alts) prior pos = (ROk, v, p) <->
     exists x, v = VAlt i x /\ des G c data fuel t cur q = (ROk, x, p)).
Proof.
  intros Hw Hsm Hm Ha Hat q cur.
  pose proof Hw as Hw'. cbn [wf] in Hw'. rewrite !andb_true_iff in Hw'.
  destruct Hw' as [[[[_ _] Hd] Hr] _].
  assert (Hid : id < pow256 (idwidth ik)).
  { rewrite forallb_forall in Hr. apply N.ltb_lt, Hr. apply (in_map (@fst N bool) meta (id, dc)).
    eapply nth_error_In; eauto. }
  assert (E : des_id c data ik pos = (ROk, id, q)).
  { unfold q. rewrite <- (wire_id_length (fmt_of c) ik id). now apply des_id_has. }
  intros v p. unfold des. rewrite des_variant_eq, E. cbn zeta.
  rewrite (find_id_nth meta id dc i Hd Hm), Ha, Hm. fold (des G c data fuel t).
  unfold des_inplace.
  assert (C : dc = true -> match active i prior with Some x => x | None => dflt G t end = cur).
  { intros ->. unfold cur, active. destruct prior; try reflexivity. rewrite andb_true_r, Nat.eqb_sym.
    now destruct (_ =? _)%nat. }
  destruct dc.
  - rewrite C by reflexivity. destruct (des G c data fuel t cur q) as [[r x] p']. split.
    + intros [= -> <- ->]. eauto.
    + intros (x' & -> & [= -> -> ->]). reflexivity.
  - assert (C' : cur = dflt G t).
    { unfold cur. destruct prior; try reflexivity. now rewrite andb_false_r. }
    rewrite C'. destruct (des G c data fuel t _ q) as [[r x] p']. destruct r; split.
    all: try (intros (x' & -> & [=]); subst; reflexivity).
    all: intros [=]; subst; eauto.
Qed.

(** An id of no alternative: bad_message, target as before. *)
Theorem variant_read_unknown G c data fuel ik meta alts prior pos id :
  small data -> id < pow256 (idwidth ik) -> ~ In id (map fst meta) ->
  has_at data pos (wire_id (fmt_of c) ik id) ->
  des G c data fuel (TVariant ik meta alts) prior pos
  = (RErr bad_message, prior, (pos + idwidth ik)%nat).
Proof.
  intros Hsm Hid Hn Hat. unfold des. rewrite des_variant_eq.
  rewrite (des_id_has c data Hsm ik id pos Hid Hat), wire_id_length.
  destruct (find_id meta id) as [i|] eqn:E; [|reflexivity].
  apply find_id_some in E as (dc & E). exfalso. apply Hn.
  apply (in_map (@fst N bool) meta (id, dc)). eapply nth_error_In; eauto.
Qed.

(** known_id: the alternative alone is written and read back. *)
Theorem known_id_round_trip G cw cr i x t alts st st' data pos fuel prior :
  nth_error alts i = Some t ->
  writing G cw x t -> bits_ok G t st -> ost_ok st ->
  ser_known G cw i alts (VAlt i x) st = (ROk, st') ->
  dsize cr = dsize cw -> xorb (host_le cr) (swap cr) = xorb (host_le cw) (swap cw) ->
  tall (rt_ok cr) t = true -> tall_env (rt_ok cr) G ->
  readable G cr x t = true -> (height x <= fuel)%nat ->
  (forall y, prior = VAlt i y -> wt G y t = true) ->
  small data ->
  has_at data pos (window (obuf st') (opos st) (opos st' - opos st)) ->
  wrote st st' (encode G (fmt_of cw) x t) /\
  des_known G cr data fuel i true alts prior pos = (ROk, VAlt i x, (pos + (opos st' - opos st))%nat).
Proof.
  intros Ha HW Hb Hok H Hd Ho Ht HtG Hr Hh Hpr Hsm Hat.
  unfold ser_known in H. rewrite Nat.eqb_refl, Ha in H.
  split.
  - destruct (out_wire_format _ _ _ _ _ _ HW Hb Hok H) as (H1 & H2 & H3). now split.
  - unfold des_known. rewrite Ha. unfold des_inplace.
    erewrite (round_trip G cw cr x t st st' data pos fuel); eauto.
    unfold active. destruct prior; try (apply wt_dflt; [apply (w_env _ _ _ _ HW)|apply (w_wf _ _ _ _ HW)]).
    destruct (Nat.eqb_spec i i0).
    + subst. now apply Hpr.
    + apply wt_dflt; [apply (w_env _ _ _ _ HW)|apply (w_wf _ _ _ _ HW)].
Qed.

(** Reading a known_id alternative that is not default constructible runs off the end of a
    function returning a value after every successful read (2989-3001); writing a known_id
    other than the active alternative dereferences a null pointer (2283-2288). *)
Theorem known_id_not_default_constructible_refuted G c data fuel i alts prior pos v p :
  des_known G c data fuel i true alts (VAlt (S i) (VN 0)) pos = (ROk, v, p) ->
  exists v', des_known G c data fuel i false alts prior pos = (RUB, v', p).
Proof.
  unfold des_known. destruct (nth_error alts i) as [t|]; [|discriminate].
  unfold des_inplace, active. replace (i =? S i)%nat with false by (symmetry; apply Nat.eqb_neq; lia).
  destruct (des G c data fuel t (dflt G t) pos) as [[r x] q]. destruct r; try discriminate.
  intros [= _ <-]. eauto.
Qed.

Theorem known_id_other_alternative_refuted G c i j x alts st :
  i <> j -> fst (ser_known G c i alts (VAlt j x) st) = RUB.
Proof. intro H. unfold ser_known. now destruct (Nat.eqb_spec i j). Qed.

Example variant_nontrivial :
  let t := TVariant (IdBytes 2) [(0x201, true); (0x403, false)] [TScalar 1 false; TScalar 2 false] in
  wf node_env t = true
  /\ des node_env (big_cfg true) [x03; x04; x05; x06] 0 t (VAlt 0 (VN 9)) 0 = (ROk, VAlt 1 (VN 0x506), 4%nat)
  /\ des node_env (big_cfg true) [x04; x03; x05; x06] 0 t (VAlt 0 (VN 9)) 0 = (RErr bad_message, VAlt 0 (VN 9), 2%nat)
  /\ firstn 4 (obuf (snd (ser node_env (big_cfg true) (VAlt 1 (VN 0x506)) t (mkO [] 0)))) = [x03; x04; x05; x06]
  /\ des_known node_env vec_cfg [x05; x06] 0 1 true [TScalar 1 false; TScalar 2 false] (VAlt 0 (VN 9)) 0
     = (ROk, VAlt 1 (VN 0x605), 2%nat).
Proof. repeat split; vm_compute; reflexivity. Qed.

(** ** C25: owning pointers *)

Theorem null_pointer_refused G c t st :
  ser G c VNone (TPtr t) st = (RErr invalid_argument, st).
Proof. reflexivity. Qed.

Theorem pointer_written_as_object G c t x st : ser G c (VSome x) (TPtr t) st = ser G c x t st.
Proof. reflexivity. Qed.

(** Success: non-null, the object read into a fresh one.  Otherwise the pointer is unchanged. *)
Theorem pointer_read G c data fuel t prior pos :
  forall r v p, des G c data fuel (TPtr t) prior pos = (r, v, p) ->
  (r = ROk /\ exists x, v = VSome x /\ des G c data fuel t (dflt G t) pos = (ROk, x, p))
  \/ (r <> ROk /\ v = prior).
Proof.
  intros r v p. unfold des. cbn [des_ty]. unfold des_ptr. fold (des G c data fuel t).
  destruct (des G c data fuel t (dflt G t) pos) as [[r' x] q].
  destruct r'; intros [= <- <- <-]; [left|right..]; eauto; split; auto; discriminate.
Qed.

Example pointer_nontrivial :
  des node_env vec_cfg [x05] 0 (TPtr (TScalar 2 false)) (VSome (VN 7)) 0
    = (RErr result_out_of_range, VSome (VN 7), 0%nat)
  /\ des node_env vec_cfg [x05; x01] 0 (TPtr (TScalar 2 false)) (VSome (VN 7)) 0
    = (ROk, VSome (VN 0x105), 2%nat).
Proof. split; vm_compute; reflexivity. Qed.

(** ** C26: bitsets *)

Definition byte_bit (b : byte) (i : nat) : bool := N.testbit (b2n b) (N.of_nat i).

Lemma byte_bit_get b i :
  negb (N.land (N.shiftr (b2n b) (N.of_nat i)) 1 =? 0) = byte_bit b i.
Proof.
  unfold byte_bit. change 1 with (N.ones 1) at 1. rewrite N.land_ones, N.pow_1_r.
  rewrite <- (N.bit0_mod (N.shiftr _ _)), N.shiftr_spec', N.add_0_l. now destruct (N.testbit _ _).
Qed.

(** Bit i of the bitset is bit (i mod 8) of byte (i / 8); padding bits are zero. *)
Theorem bitset_written G c n l st st' :
  writing G c (VBits l) (TBitset n) -> clean st -> ost_ok st ->
  ser G c (VBits l) (TBitset n) st = (ROk, st') ->
  opos st' = (opos st + (n + 7) / 8)%nat /\
  forall i, (i < 8 * ((n + 7) / 8))%nat ->
    exists b, nth_error (obuf st') (opos st + i / 8) = Some b
      /\ byte_bit b (i mod 8) = nth i l false.
Proof.
  intros HW Hc Hok H.
  destruct (out_wire_format _ _ _ _ _ _ HW (or_introl Hc) Hok H) as (_ & H2 & H3).
  unfold encode in *. cbn [enc pdone fst] in *. rewrite le_bytes_length in *.
  split; [exact H2|]. intros i Hi.
  assert (Hq : (i / 8 < (n + 7) / 8)%nat) by (apply Nat.div_lt_upper_bound; lia).
  assert (N1 : nth_error (obuf st') (opos st + i / 8)
             = nth_error (window (obuf st') (opos st) ((n + 7) / 8)) (i / 8)).
  { now rewrite nth_error_window by exact Hq. }
  rewrite N1, H3, nth_error_le_bytes by exact Hq.
  eexists. split; [reflexivity|].
  pose proof (get_bit_le_bytes ((n + 7) / 8) (bits_number l) i Hi) as B.
  rewrite testbit_bits_number in B. rewrite <- B. unfold get_bit.
  rewrite nth_error_le_bytes by exact Hq. symmetry. apply byte_bit_get.
Qed.

(** Reading looks at the bits of the bitset only: padding bits are ignored. *)
Theorem bitset_read G c data fuel n prior pos :
  small data -> (pos <= length data)%nat ->
  (pos + (n + 7) / 8 <= length data)%nat ->
  exists l, des G c data fuel (TBitset n) prior pos = (ROk, VBits l, (pos + (n + 7) / 8)%nat)
    /\ length l = n
    /\ forall i b, (i < n)%nat -> nth_error data (pos + i / 8) = Some b ->
         nth_error l i = Some (byte_bit b (i mod 8)).
Proof.
  intros Hsm Hp Hl. unfold des. cbn [des_ty]. unfold des_bitset, bitset_bytes.
  rewrite remaining_small by assumption.
  destruct (N.ltb_spec (N.of_nat (length data - pos)) (N.of_nat ((n + 7) / 8))); [lia|].
  rewrite load_some by exact Hl. eexists. split; [reflexivity|].
  assert (GB : forall e k i, length (get_bits e i k) = k /\
     forall j, (j < k)%nat -> nth_error (get_bits e i k) j = Some (get_bit e (i + j))).
  { intro e. induction k as [|k IH]; intro i; cbn [get_bits].
    - split; [reflexivity|]. intros; lia.
    - destruct (IH (S i)) as [I1 I2]. split; [cbn [length]; lia|].
      intros [|j] Hj; cbn [nth_error]; [now rewrite Nat.add_0_r|]. rewrite I2 by lia. do 2 f_equal. lia. }
  destruct (GB (window data pos ((n + 7) / 8)) n O) as [G1 G2].
  split; [exact G1|]. intros i b Hi Hb. rewrite G2 by exact Hi. cbn [Nat.add].
  unfold get_bit.
  assert (Hq : (i / 8 < (n + 7) / 8)%nat) by (apply Nat.div_lt_upper_bound; [lia|];
    pose proof (Nat.div_mod (n + 7) 8 ltac:(lia)); pose proof (Nat.mod_upper_bound (n + 7) 8 ltac:(lia)); lia).
  rewrite nth_error_window by exact Hq. rewrite Hb.
  f_equal. apply byte_bit_get.
Qed.

(** Into a buffer with old contents the bits are OR-ed. *)
Theorem bitset_dirty_buffer_refuted :
  exists st', ser node_env span_cfg (VBits [false; true]) (TBitset 2) (mkO [x01] 0) = (ROk, st')
    /\ obuf st' = [x03]
    /\ des node_env span_cfg (obuf st') 0 (TBitset 2) (VBits [false; false]) 0
       = (ROk, VBits [true; true], 1%nat).
Proof. eexists. repeat split; vm_compute; reflexivity. Qed.

Example bitset_nontrivial :
  clean (mkO [xaa] 1)
  /\ ser node_env vec_cfg demo_bits (TBitset 11) (mkO [xaa] 1) = (ROk, mkO [xaa; x8d; x05; x00] 3)
  /\ des node_env vec_cfg [x8d; xfd] 0 (TBitset 11) (VBits (repeat true 11)) 0 = (ROk, demo_bits, 2%nat).
Proof. repeat split; vm_compute; reflexivity. Qed.

(** ** C27: views *)

(** A sized view covers exactly the announced bytes, which lie inside the input. *)
Theorem sized_view_in_range G c data fuel s prior pos v p :
  small data -> wfsz (Some (dsize c)) = true -> wfsz s = true ->
  (pos <= length data)%nat -> sz_of c s <> SzNone ->
  (des G c data fuel (TView (VwSized s)) prior pos = (ROk, v, p) <->
   exists n q, des_size c data (sz_of c s) pos = (ROk, N.of_nat n, q)
     /\ (q + n <= length data)%nat /\ v = VBytes (window data q n) /\ p = (q + n)%nat).
Proof.
  intros Hsm Hd Hs Hp Hn. unfold des. cbn [des_ty].
  pose proof (des_size_safe c (sz_of c s) (wfsz_sz_of c s Hd Hs) data pos Hsm Hp) as S. cbn beta in S.
  destruct (des_size c data (sz_of c s) pos) as [[r n] q] eqn:E.
  destruct r; try (split; [discriminate|intros (? & ? & [=] & _)]).
  assert (Hq : (q <= length data)%nat) by (destruct S; lia).
  assert (X : (if remaining data q <? n then (RErr result_out_of_range, prior, q)
     else match load data q (N.to_nat n) with
          | Some e => (ROk, VBytes e, (q + N.to_nat n)%nat)
          | None => (RUB, prior, q) end) = (ROk, v, p) <->
     (q + N.to_nat n <= length data)%nat /\ v = VBytes (window data q (N.to_nat n)) /\ p = (q + N.to_nat n)%nat).
  { rewrite remaining_small by assumption.
    destruct (N.ltb_spec (N.of_nat (length data - q)) n).
    - split; [discriminate|]. lia.
    - rewrite load_some by lia. split; [intros [= <- <-]|intros (_ & -> & ->)]; auto.
      repeat split; auto. lia. }
  destruct (sz_of c s); [congruence|..]; (etransitivity; [exact X|]); split.
  all: try (intros (X1 & X2 & X3); exists (N.to_nat n), q; rewrite N2Nat.id; auto).
  all: intros (k & q' & [= -> ->] & X1 & X2 & X3); rewrite Nat2N.id; auto.
Qed.

Theorem fixed_view_exact G c data fuel n prior pos v p :
  small data -> (pos <= length data)%nat ->
  (des G c data fuel (TView (VwFixed n)) prior pos = (ROk, v, p) <->
   (pos + n <= length data)%nat /\ v = VBytes (window data pos n) /\ p = (pos + n)%nat).
Proof.
  intros Hsm Hp. unfold des. cbn [des_ty]. rewrite remaining_small by assumption.
  destruct (N.ltb_spec (N.of_nat (length data - pos)) (N.of_nat n)).
  - split; [discriminate|]. lia.
  - rewrite load_some by lia. split; [intros [= <- <-]|intros (_ & -> & ->)]; auto.
    repeat split; auto. lia.
Qed.

(** A mutable span: more elements than it has are refused and nothing is written; otherwise it
    has exactly the announced number of elements afterwards, also when reading them fails. *)
Theorem span_never_grows G c data fuel s t l pos r v p n q :
  reading G c data (TSpan s t) -> (pos <= length data)%nat ->
  wt G (VSeq l) (TSpan s t) = true -> sz_of c s <> SzNone ->
  des_size c data (sz_of c s) pos = (ROk, n, q) ->
  des G c data fuel (TSpan s t) (VSeq l) pos = (r, v, p) ->
  (N.of_nat (length l) < n /\ r = RErr result_out_of_range /\ v = VSeq l /\ p = q)
  \/ (n <= N.of_nat (length l) /\ exists l', v = VSeq l' /\ N.of_nat (length l') = n).
Proof.
  intros [H1 H2 H3 H4 H5 H6] Hp Hw Hs E D.
  cbn [tallP] in H5. destruct H5 as [_ H5]. cbn [wf] in H6. apply andb_true_iff in H6 as [H6 H7].
  pose proof (des_size_safe c (sz_of c s) (wfsz_sz_of c s H2 H6) data pos H3 Hp) as S. cbn beta in S. rewrite E in S.
  unfold des in D. cbn [des_ty as_seq] in D.
  assert (D' : (if N.of_nat (length l) <? n then (RErr result_out_of_range, VSeq l, q)
     else des_elems c data (as_bytes c t) (des_ty G c data (des_rec G c data fuel) t) t
            (firstn (N.to_nat n) l) q) = (r, v, p)).
  { destruct (sz_of c s); [congruence|..]; rewrite E in D; exact D. }
  clear D. destruct (N.ltb_spec (N.of_nat (length l)) n).
  - injection D' as <- <- <-. left. auto.
  - right. split; [assumption|].
    assert (Hwl : forallb (fun x => wt G x t) (firstn (N.to_nat n) l) = true).
    { cbn [wt] in Hw. rewrite forallb_forall in *. intros x Hx. apply Hw.
      rewrite <- (firstn_skipn (N.to_nat n) l). apply in_or_app. now left. }
    assert (Hq : (q <= length data)%nat) by (destruct S; lia).
    pose proof (des_elems_safe G c data true true H3 (as_bytes c t)
      (des_ty G c data (des_rec G c data fuel) t) t (firstn (N.to_nat n) l) q) as L.
    rewrite D' in L.
    specialize (L H7 (flagged_true t) (as_bytes_bs c t)
      (des_safe G c data true true H1 H2 H3 H4 (flagged_env_true G) fuel t H7 (flagged_true t) H5) Hq Hwl).
    destruct v; try contradiction. destruct L as (_ & L & _).
    exists l0. split; [reflexivity|]. rewrite L, firstn_length. lia.
Qed.

Example views_nontrivial :
  des node_env vec_cfg [x02; x00; x00; x00; x0a; x0b; x0c] 0 (TView (VwSized None)) (VBytes []) 0
    = (ROk, VBytes [x0a; x0b], 6%nat)
  /\ des node_env vec_cfg [x01; x0a; x0b] 0 (TSpan (Some (SzFix 1)) (TScalar 1 true)) (VSeq [VN 1; VN 2]) 0
    = (ROk, VSeq [VN 0xa], 2%nat)
  /\ des node_env vec_cfg [x03; x0a; x0b; x0c] 0 (TSpan (Some (SzFix 1)) (TScalar 1 true)) (VSeq [VN 1; VN 2]) 0
    = (RErr result_out_of_range, VSeq [VN 1; VN 2], 1%nat).
Proof. repeat split; vm_compute; reflexivity. Qed.

(** ** C42: recursive types *)

(** More stack never changes a result other than running out of it. *)
Theorem more_stack_same_result G c data f f' t x p :
  (f <= f')%nat -> rres (des G c data f t x p) <> RStack ->
  des G c data f' t x p = des G c data f t x p.
Proof. intros Hf Hr. destruct (des_fuel G c data f f' t x p Hf) as [H|H]; [contradiction|exact H]. Qed.

(** A chain of n+1 nodes, and its encoding of 2(n+1) bytes. *)
Fixpoint chain (n : nat) : val :=
  match n with O => VSeq [VN 7; VNone] | S n' => VSeq [VN 7; VSome (chain n')] end.
Fixpoint chain_bytes (n : nat) : list byte :=
  match n with O => [x07; x00] | S n' => x07 :: x01 :: chain_bytes n' end.

Lemma chain_bytes_length n : length (chain_bytes n) = (2 * n + 2)%nat.
Proof. induction n; cbn [chain_bytes length]; lia. Qed.

Lemma scalar1_read c data pos b x :
  small data -> nth_error data pos = Some b -> des_scalar c data 1 x pos = (ROk, b2n b, S pos).
Proof.
  intros Hsm H. pose proof (flag_read c data pos b Hsm H) as F. unfold des_flag in F.
  rewrite des_scalar_eq in * by (auto; assert (pos < length data)%nat by (apply nth_error_Some; congruence); lia).
  destruct (_ <=? _)%nat; [exact F|discriminate].
Qed.

Lemma chain_read n : forall fuel pre, small (pre ++ chain_bytes n) ->
  let x := des_rec node_env vec_cfg (pre ++ chain_bytes n) fuel 0 (VSeq [VN 0; VNone]) (length pre) in
  ((n < fuel)%nat -> x = (ROk, chain n, (length pre + (2 * n + 2))%nat))
  /\ ((fuel <= n)%nat -> rres x = RStack).
Proof.
  induction n as [|n IH]; intros fuel pre Hsm; cbv zeta.
  - destruct fuel as [|fuel]; [split; [lia|intros; reflexivity]|].
    split; [|lia]. intros _. cbn [des_rec node_env t_mems des_many as_seq tl].
    cbn [des_ty]. rewrite (scalar1_read _ _ _ x07) by (auto; rewrite nth_error_app2, Nat.sub_diag by lia; reflexivity).
    cbn [nres]. rewrite (flag_read _ _ _ x00)
      by (auto; rewrite nth_error_app2 by lia; replace (S (length pre) - length pre)%nat with 1%nat by lia; reflexivity).
    change (b2n x00) with 0. change (b2n x07) with 7. cbn [seq_res chain]. f_equal. lia.
  - destruct fuel as [|fuel]; [split; [lia|intros; reflexivity]|].
    assert (Eq : pre ++ chain_bytes (S n) = (pre ++ [x07; x01]) ++ chain_bytes n) by (now rewrite <- app_assoc).
    specialize (IH fuel (pre ++ [x07; x01])). rewrite <- Eq in IH. specialize (IH Hsm). cbv zeta in IH.
    assert (D : des_rec node_env vec_cfg (pre ++ chain_bytes (S n)) (S fuel) 0 (VSeq [VN 0; VNone]) (length pre)
      = match des_rec node_env vec_cfg (pre ++ chain_bytes (S n)) fuel 0 (VSeq [VN 0; VNone]) (length (pre ++ [x07; x01])) with
        | (ROk, x, p) => (ROk, VSeq [VN 7; VSome x], p)
        | (r, _, p) => (r, VSeq [VN 7; VNone], p) end).
    { cbn [des_rec node_env t_mems des_many as_seq tl].
      cbn [des_ty]. rewrite (scalar1_read _ _ _ x07) by (auto; rewrite nth_error_app2, Nat.sub_diag by lia; reflexivity).
      cbn [nres]. rewrite (flag_read _ _ _ x01)
        by (auto; rewrite nth_error_app2 by lia; replace (S (length pre) - length pre)%nat with 1%nat by lia; reflexivity).
      change (b2n x01) with 1. change (b2n x07) with 7. cbv iota. unfold des_ptr. cbn [dflt node_env t_info s_dflt].
      replace (length (pre ++ [x07; x01])) with (S (S (length pre))) by (rewrite app_length; cbn; lia).
      change (dflt node_env (TRec 0)) with (VSeq [VN 0; VNone]).
      generalize (des_rec node_env vec_cfg (pre ++ chain_bytes (S n)) fuel 0 (VSeq [VN 0; VNone]) (S (S (length pre)))).
      intros [[r x] p]. destruct r; reflexivity. }
    rewrite D. destruct IH as [I1 I2]. split; intro H.
    + rewrite I1 by lia. cbn [chain]. rewrite app_length. cbn [length]. f_equal. lia.
    + specialize (I2 ltac:(lia)). destruct (des_rec _ _ _ fuel _ _ _) as [[r x] p].
      cbn in I2. subst r. reflexivity.
Qed.

(** Reading has no depth limit: whatever the stack, an input of 2 (stack + 1) bytes exhausts
    it, although it is a correct encoding that is read given enough stack. *)
Theorem no_depth_limit depth :
  N.of_nat (2 * depth + 2) < 2 ^ 64 ->
  let data := chain_bytes depth in
  length data = (2 * depth + 2)%nat
  /\ (forall fuel, (fuel <= depth)%nat ->
       rres (des node_env vec_cfg data fuel (TRec 0) (VSeq [VN 0; VNone]) 0) = RStack)
  /\ (forall fuel, (depth < fuel)%nat ->
       des node_env vec_cfg data fuel (TRec 0) (VSeq [VN 0; VNone]) 0 = (ROk, chain depth, length data)).
Proof.
  intros Hs data. assert (Hsm : small data) by (unfold small, data; now rewrite chain_bytes_length).
  split; [apply chain_bytes_length|].
  split; intros fuel Hf; pose proof (chain_read depth fuel [] Hsm) as [C1 C2];
    cbv zeta in C1, C2; unfold des; cbn [des_ty app length] in *; fold data in C1, C2.
  - now apply C2.
  - specialize (C1 Hf). etransitivity; [exact C1|]. unfold data. now rewrite chain_bytes_length.
Qed.

(** Round trip at every depth: [round_trip] with fuel at least the height of the value. *)
Theorem recursive_round_trip G c k v st st' fuel prior :
  writing G c v (TRec k) -> bits_ok G (TRec k) st -> ost_ok st ->
  ser G c v (TRec k) st = (ROk, st') ->
  tall_env (rt_ok c) G -> readable G c v (TRec k) = true -> (height v <= fuel)%nat ->
  wt G prior (TRec k) = true -> small (obuf st') ->
  des G c (obuf st') fuel (TRec k) prior (opos st) = (ROk, v, opos st').
Proof. intros. eapply round_trip_same_buffer; eauto. Qed.

Example recursive_nontrivial :
  fst (ser node_env vec_cfg (chain 50) (TRec 0) (mkO [] 0)) = ROk
  /\ obuf (snd (ser node_env vec_cfg (chain 50) (TRec 0) (mkO [] 0))) <> []
  /\ readable node_env vec_cfg (chain 50) (TRec 0) = true
  /\ (height (chain 50) <= 200)%nat.
Proof.
  repeat match goal with |- _ /\ _ => split end; try (vm_compute; reflexivity).
  - vm_compute. discriminate.
  - apply Nat.leb_le. vm_compute. reflexivity.
Qed.
