(** The language accepted by input archives (C46), unambiguous encodings (C47) and types with
    a single representation for each value (C48). *)

From Coq Require Import List NArith ZArith Lia Bool Arith.
From Coq Require Import ZifyBool ZifyNat ZifyN.
From Verif Require Import Base.Bytes Model.Types Model.Machine Model.Varint Model.Out Model.In
  Spec.Leb128 Spec.Wire Spec.Grammar Proofs.VarintP Proofs.OutP Proofs.InBase Proofs.InSafe
  Proofs.InLocal Proofs.InPrior Proofs.InRound Proofs.InHost Proofs.InGrammar
  Thm.Demo Thm.Output Thm.Input.
Import ListNotations.
Local Open Scope N_scope.

Ltac Zify.zify_post_hook ::= Z.div_mod_to_equations.

(** What these theorems assume about the program and the input: well-formed types of their own
    extent (no unsized containers, spans or views of the rest) and less than 2^64 bytes. *)
Record self_describing (G : tenv) (c : cfg) (ts : list ty) : Prop := {
  sd_env : wf_env G;
  sd_size : wfsz (Some (dsize c)) = true;
  sd_wf : forallb (wf G) ts = true;
  sd_ext : forallb (tall (own_extent c)) ts = true;
  sd_extE : tall_env (own_extent c) G;
  sd_del : forallb (tall (delimited c)) ts = true;
  sd_delE : tall_env (delimited c) G;
  sd_plain : forallb plain ts = true;
  sd_plainE : tall_env elem_ok G
}.

Lemma sd_accepted G c data fuel ts priors pos :
  self_describing G c ts -> small data -> (pos <= length data)%nat ->
  wt G (VSeq priors) (TTuple ts) = true ->
  accepted data (sequence G (fmt_of c) ts) pos (in_call G c data fuel ts priors pos).
Proof. intros [? ? ? ? ? ? ? ? ?] Hs Hp Hw. apply in_call_accepted; auto. Qed.

(** ** C46 *)

(** Whatever a reader accepts is a representation of the values it produces, according to the
    grammar; exactly those bytes are consumed. *)
Theorem in_accepts_only_representations G c data fuel ts priors pos vs p :
  self_describing G c ts -> small data -> (pos <= length data)%nat ->
  wt G (VSeq priors) (TTuple ts) = true ->
  in_call G c data fuel ts priors pos = (ROk, vs, p) ->
  (pos <= p <= length data)%nat /\ sequence G (fmt_of c) ts (window data pos (p - pos)) vs.
Proof.
  intros HS Hs Hp Hw E. pose proof (sd_accepted G c data fuel ts priors pos HS Hs Hp Hw) as A.
  rewrite E in A. destruct A as (e & H1 & -> & D). pose proof (has_at_le _ _ _ H1).
  split; [lia|]. replace (pos + length e - pos)%nat with (length e) by lia.
  now rewrite (has_at_window _ _ _ H1).
Qed.

(** Every representation found at the position is accepted, whatever follows it and whatever
    the targets held, unless memory, stack or the allocation limit do not suffice. *)
Theorem in_accepts_every_representation G c data fuel ts priors pos e vs :
  self_describing G c ts -> small data -> (pos <= length data)%nat ->
  wt G (VSeq priors) (TTuple ts) = true ->
  has_at data pos e -> sequence G (fmt_of c) ts e vs ->
  in_call G c data fuel ts priors pos = (ROk, vs, (pos + length e)%nat)
  \/ (let r := fst (fst (in_call G c data fuel ts priors pos)) in
      r = RErr message_size \/ r = RThrow \/ r = RStack).
Proof.
  intros HS Hs Hp Hw He D. pose proof (sd_accepted G c data fuel ts priors pos HS Hs Hp Hw) as A.
  destruct (in_call G c data fuel ts priors pos) as [[r vs'] p]. cbn [fst].
  assert (K : r = ROk \/ r <> ROk) by (destruct r; auto; right; discriminate).
  destruct K as [->|Hr].
  - left. destruct A as (e' & H1 & -> & D').
    apply has_at_skipn in H1 as [x H1]. apply has_at_skipn in He as [x' He].
    destruct HS as [HG _ HW _ _ _ _ _ _].
    destruct (proj1 (proj2 (grammar_unique G (fmt_of c) HG)) ts e vs D HW x' e' x vs') as [-> ->]; auto.
    congruence.
  - right. assert (R : resource r \/ forall e v, has_at data pos e -> ~ sequence G (fmt_of c) ts e v)
      by (destruct r; auto; congruence).
    destruct R as [R|R]; [|exfalso; now apply (R e vs He)].
    destruct r as [|[]| | |]; cbn [resource] in R; tauto.
Qed.

(** Any other failure means that no representation starts at the position. *)
Theorem in_rejects_only_malformed G c data fuel ts priors pos r vs p :
  self_describing G c ts -> small data -> (pos <= length data)%nat ->
  wt G (VSeq priors) (TTuple ts) = true ->
  in_call G c data fuel ts priors pos = (r, vs, p) ->
  r <> ROk -> r <> RErr message_size -> r <> RThrow -> r <> RStack ->
  forall e vs', has_at data pos e -> ~ sequence G (fmt_of c) ts e vs'.
Proof.
  intros HS Hs Hp Hw E N1 N2 N3 N4 e vs' He D.
  destruct (in_accepts_every_representation G c data fuel ts priors pos e vs' HS Hs Hp Hw He D) as [A|A];
    rewrite E in A.
  - congruence.
  - cbn [fst] in A. tauto.
Qed.

Lemma demo_self_describing : self_describing node_env vec_cfg [demo_ty; TBitset 11].
Proof.
  constructor; try (vm_compute; reflexivity).
  - apply demo_wf_env.
  - intros [|k]; reflexivity.
  - intros [|k]; reflexivity.
  - intros [|k]; reflexivity.
Qed.

(** A representation no writer produces: flag byte 7 for an engaged optional, a varint with a
    superfluous zero digit, a map with unsorted and repeated keys, padding bits in a bitset. *)
Definition loose : list byte :=
  [x07; x85; x00;   x03; x09; x01; x04; x00; x09; x00;   xff; xff].
Definition loose_tys : list ty :=
  [TOpt true (TVarint 8 false false);
   TAssoc (Some (SzVar 8)) map_kind (TTuple [TScalar 1 false; TBool]); TBitset 11].
Definition loose_vals : list val :=
  [VSome (VN 5); VSeq [VSeq [VN 4; VN 0]; VSeq [VN 9; VN 1]]; VBits (repeat true 11)].

Example in_accepts_loose :
  in_call node_env vec_cfg loose 0 loose_tys
    [VNone; VSeq []; VBits (repeat false 11)] 0 = (ROk, loose_vals, length loose).
Proof. vm_compute. reflexivity. Qed.

Example loose_denotes : sequence node_env (fmt_of vec_cfg) loose_tys loose loose_vals.
Proof.
  assert (HS : self_describing node_env vec_cfg loose_tys).
  { constructor; try (vm_compute; reflexivity).
    - apply demo_wf_env.
    - intros [|k]; reflexivity.
    - intros [|k]; reflexivity.
    - intros [|k]; reflexivity. }
  refine (proj2 (in_accepts_only_representations _ _ loose 0 _ [VNone; VSeq []; VBits (repeat false 11)] 0 _ _
    HS _ _ _ in_accepts_loose)); [vm_compute; reflexivity|cbn; lia|vm_compute; reflexivity].
Qed.

(** An input that is not in the language: announced length beyond the data. *)
Example in_rejects_short e v :
  has_at [x03; x00; x00; x00; x01; x02] 0 e ->
  ~ sequence node_env (fmt_of vec_cfg) [TVec None true (TScalar 1 false)] e v.
Proof.
  assert (HS : self_describing node_env vec_cfg [TVec None true (TScalar 1 false)]).
  { constructor; try (vm_compute; reflexivity).
    - apply demo_wf_env.
    - intros [|k]; reflexivity.
    - intros [|k]; reflexivity.
    - intros [|k]; reflexivity. }
  intro He.
  refine (in_rejects_only_malformed _ vec_cfg [x03; x00; x00; x00; x01; x02] 0 _ [VSeq []] 0
    (RErr result_out_of_range) [VSeq [VN 0; VN 0; VN 0]] 4 HS _ _ _ _ _ _ _ _ _ _ He);
    try discriminate; try (vm_compute; reflexivity). cbn; lia.
Qed.

(** ** C47 *)

(** The grammar is unambiguous: the same bytes cannot be read in two ways, and no
    representation is a proper prefix of another one. *)
Theorem representation_unambiguous G o t e r v e' r' v' :
  wf_env G -> wf G t = true -> denotes G o t e v -> denotes G o t e' v' ->
  e ++ r = e' ++ r' -> e = e' /\ v = v' /\ r = r'.
Proof.
  intros HG Hw D D' H. destruct (denotes_unique G o HG t Hw e r v e' r' v' H D D') as [-> ->].
  apply app_inv_head in H. auto.
Qed.

(** What writers produce is in the language. *)
Theorem encoding_is_representation G c v t :
  self_describing G c [t] -> tall (rt_ok c) t = true -> tall_env (rt_ok c) G ->
  wt G v t = true -> writable G (fmt_of c) v t = true -> readable G c v t = true ->
  small (encode G (fmt_of c) v t) ->
  denotes G (fmt_of c) t (encode G (fmt_of c) v t) v.
Proof.
  intros [H1 H2 H3 H4 H5 H6 H7 H8 H9] Hrt HrtE Hv Hwr Hrd Hs.
  set (e := encode G (fmt_of c) v t) in *.
  cbn [forallb] in *. rewrite andb_true_r in *.
  assert (Hat : has_at e 0 e).
  { split; [lia|]. unfold window. cbn [skipn]. apply firstn_all. }
  pose proof (des_round G c e H1 ltac:(exact H2) Hs H9 HrtE v t (height v) v 0%nat H3 H8 Hrt Hv Hwr Hrd
    ltac:(lia) Hv Hat) as E.
  pose proof (des_accepted G c e H1 H2 Hs H5 H7 H9 (height v) t H3 H4 H6 H8 v 0%nat ltac:(lia) Hv) as A.
  rewrite E in A. destruct A as (e' & He' & L & D). fold e in L. cbn [Nat.add] in L.
  destruct He' as [_ He']. unfold window in He'. cbn [skipn] in He'.
  rewrite <- L, firstn_all in He'. rewrite He'. exact D.
Qed.

(** Different values have encodings neither of which is a prefix of the other; in particular
    a sequence of encoded values can be split in one way only. *)
Theorem encoding_prefix_free G c t v r v' r' :
  self_describing G c [t] -> tall (rt_ok c) t = true -> tall_env (rt_ok c) G ->
  wt G v t = true -> writable G (fmt_of c) v t = true -> readable G c v t = true ->
  wt G v' t = true -> writable G (fmt_of c) v' t = true -> readable G c v' t = true ->
  small (encode G (fmt_of c) v t) -> small (encode G (fmt_of c) v' t) ->
  encode G (fmt_of c) v t ++ r = encode G (fmt_of c) v' t ++ r' -> v = v' /\ r = r'.
Proof.
  intros HS Hrt HrtE A1 A2 A3 B1 B2 B3 S1 S2 E.
  pose proof (encoding_is_representation G c v t HS Hrt HrtE A1 A2 A3 S1) as D.
  pose proof (encoding_is_representation G c v' t HS Hrt HrtE B1 B2 B3 S2) as D'.
  destruct HS as [H1 _ H3 _ _ _ _ _ _]. cbn [forallb] in H3. rewrite andb_true_r in H3.
  destruct (representation_unambiguous _ _ _ _ _ _ _ _ _ H1 H3 D D' E) as (_ & ? & ?). auto.
Qed.

Example encoding_prefix_free_nontrivial :
  self_describing node_env vec_cfg [demo_ty] /\ tall (rt_ok vec_cfg) demo_ty = true
  /\ tall_env (rt_ok vec_cfg) node_env /\ wt node_env demo_val demo_ty = true
  /\ writable node_env (fmt_of vec_cfg) demo_val demo_ty = true
  /\ readable node_env vec_cfg demo_val demo_ty = true
  /\ small (encode node_env (fmt_of vec_cfg) demo_val demo_ty)
  /\ denotes node_env (fmt_of vec_cfg) demo_ty (encode node_env (fmt_of vec_cfg) demo_val demo_ty) demo_val.
Proof.
  assert (HS : self_describing node_env vec_cfg [demo_ty]).
  { constructor; try (vm_compute; reflexivity).
    - apply demo_wf_env.
    - intros [|k]; reflexivity.
    - intros [|k]; reflexivity.
    - intros [|k]; reflexivity. }
  assert (HE : tall_env (rt_ok vec_cfg) node_env) by (intros [|k]; reflexivity).
  repeat (split; [assumption || (vm_compute; reflexivity)|]).
  apply encoding_is_representation; auto; vm_compute; reflexivity.
Qed.

(** With a container without a size the bytes do not determine the values. *)
Theorem unsized_ambiguous_refuted :
  exists t v v' r r',
    wf node_env t = true /\ wt node_env v t = true /\ wt node_env v' t = true
    /\ encode node_env (fmt_of vec_cfg) v t ++ r = encode node_env (fmt_of vec_cfg) v' t ++ r' /\ v <> v'.
Proof.
  exists (TTuple [TVec (Some SzNone) true (TScalar 1 false); TVec (Some SzNone) true (TScalar 1 false)]),
    (VSeq [VSeq [VN 1]; VSeq []]), (VSeq [VSeq []; VSeq [VN 1]]), [], [].
  repeat split; try (vm_compute; reflexivity). discriminate.
Qed.

(** ** C48 *)

(** Types whose values have exactly one representation: no varints, no presence flags, no
    associative containers, no bitsets with unused bits. *)
Definition one_form (o : wfmt) (t : ty) : bool :=
  match t with
  | TVarint _ _ _ | TOpt _ _ | TOptPtr _ | TAssoc _ _ _ => false
  | TBitset n => (n mod 8 =? 0)%nat
  | TVec s _ _ | TView (VwSized s) =>
      match s with
      | Some (SzVar _) => false
      | None => match wsize o with SzVar _ => false | _ => true end
      | _ => true
      end
  | _ => true
  end.

Lemma wscalar_word o e : wscalar o (length e) (word o e) = e.
Proof.
  unfold wscalar, word. destruct (little o); [apply le_bytes_le_val|].
  rewrite <- rev_length at 1. rewrite le_bytes_le_val. apply rev_involutive.
Qed.

Lemma word_lt o e : word o e < pow256 (length e).
Proof.
  unfold word. destruct (little o); [apply le_val_lt|]. rewrite <- rev_length. apply le_val_lt.
Qed.

Lemma bits_number_testbits m n :
  bits_number (map (fun i => N.testbit m (N.of_nat i)) (List.seq 0 n)) = m mod 2 ^ N.of_nat n.
Proof.
  revert m. induction n as [|n IH]; intro m.
  - cbn [List.seq map bits_number]. change (2 ^ N.of_nat 0) with 1. now rewrite N.mod_1_r.
  - cbn [List.seq map bits_number]. rewrite <- seq_shift, map_map.
    rewrite (map_ext _ (fun i => N.testbit (N.div2 m) (N.of_nat i))).
    2:{ intro i. rewrite N.div2_spec, N.shiftr_spec by lia. f_equal. lia. }
    rewrite IH. rewrite Nat2N.inj_succ, N.pow_succ_r by lia.
    rewrite N.mod_mul_r by (try apply N.pow_nonzero; lia).
    rewrite <- N.bit0_mod. change (N.of_nat 0) with 0. rewrite N.div2_div.
    destruct (N.testbit m 0); cbn [N.b2n]; lia.
Qed.

Section OneForm.
  Variables (G : tenv) (o : wfmt).
  Hypothesis HE : tall_env (one_form o) G.

  Lemma one_form_size s e n :
    match s with
    | Some (SzVar _) => false
    | None => match wsize o with SzVar _ => false | _ => true end
    | _ => true
    end = true -> size_is o s e n -> wire_size o s n = e.
  Proof.
    intros H S. unfold size_is, wire_size in *.
    destruct (match s with Some s => s | None => wsize o end) as [|w|w] eqn:E.
    - destruct S.
    - destruct S as [<- <-]. rewrite N.mod_small by apply word_lt. apply wscalar_word.
    - exfalso. destruct s as [[| |]|]; try discriminate; rewrite ?E in H; discriminate.
  Qed.

  Lemma one_form_encode :
    (forall t e v, denotes G o t e v -> tall (one_form o) t = true -> enc G o v t = (e, true)) /\
    (forall ts e l, sequence G o ts e l -> forallb (tall (one_form o)) ts = true ->
       enc_many (enc G o) l ts = (e, true)) /\
    (forall t e l, elements G o t e l -> tall (one_form o) t = true -> enc_all (enc G o) l t = (e, true)).
  Proof.
    apply grammar_ind; cbn [tall one_form andb]; try discriminate.
    - intros w b e <- _. cbn [enc]. unfold pdone. now rewrite wscalar_word.
    - intros e L _ _. cbn [enc]. unfold pdone. rewrite <- L at 1. now rewrite wscalar_word.
    - reflexivity.
    - intros si ms e l _ IH H. cbn [enc]. auto.
    - intros k e l _ IH _. cbn [enc]. apply IH, HE.
    - intros ts e l _ IH H. cbn [enc]. auto.
    - intros t e l _ IH H. cbn [enc]. auto.
    - intros s cg t e1 e2 l HS _ IH H. apply andb_true_iff in H as [H1 H2].
      cbn [enc]. rewrite (IH H2), (one_form_size s e1 _ H1 HS). reflexivity.
    - intros t e x _ IH H. cbn [enc]. auto.
    - intros ik meta alts i id dc t e1 e2 x Hm Ha HI _ IH H. cbn [enc]. rewrite Hm, Ha.
      rewrite forallb_forall in H. rewrite (IH (H _ (nth_error_In _ _ Ha))).
      assert (E : wire_id o ik id = e1).
      { destruct ik; destruct HI as [<- <-]; cbn [wire_id]; [apply wscalar_word|apply le_bytes_le_val]. }
      rewrite E. reflexivity.
    - intros n e L H. rewrite andb_true_r in H. apply Nat.eqb_eq in H. cbn [enc].
      rewrite bits_number_testbits. rewrite N.mod_small.
      + unfold pdone. rewrite <- L at 1. now rewrite le_bytes_le_val.
      + pose proof (le_val_lt e) as B. unfold pow256 in B.
        replace (2 ^ N.of_nat n) with (256 ^ N.of_nat (length e)); [exact B|].
        change 256 with (2 ^ 8). rewrite <- N.pow_mul_r. f_equal. lia.
    - intros s e1 l HS H. rewrite andb_true_r in H. cbn [enc].
      rewrite (one_form_size s e1 _ H HS). reflexivity.
    - reflexivity.
    - reflexivity.
    - intros t ts e1 e2 x l _ IHt _ IH H. cbn [forallb enc_many] in *.
      apply andb_true_iff in H as [H1 H2]. now rewrite (IHt H1), (IH H2).
    - reflexivity.
    - intros t e1 e2 x l _ IHt _ IH H. cbn [enc_all]. now rewrite (IHt H), (IH H).
  Qed.
End OneForm.

(** Reading a value of such a type and encoding it again gives the bytes that were read: two
    different inputs cannot be accepted as the same value. *)
Theorem in_reencode_identity G c data fuel t prior pos v p :
  self_describing G c [t] -> tall (one_form (fmt_of c)) t = true -> tall_env (one_form (fmt_of c)) G ->
  small data -> (pos <= length data)%nat -> wt G prior t = true ->
  des G c data fuel t prior pos = (ROk, v, p) ->
  window data pos (p - pos) = encode G (fmt_of c) v t /\ writable G (fmt_of c) v t = true.
Proof.
  intros HS Ho HoE Hs Hp Hw E.
  destruct HS as [H1 H2 H3 H4 H5 H6 H7 H8 H9]. cbn [forallb] in *. rewrite andb_true_r in *.
  pose proof (des_accepted G c data H1 H2 Hs H5 H7 H9 fuel t H3 H4 H6 H8 prior pos Hp Hw) as A.
  rewrite E in A. destruct A as (e & He & -> & D).
  pose proof (proj1 (one_form_encode G (fmt_of c) HoE) t e v D Ho) as EE.
  unfold encode, writable. rewrite EE. cbn [fst snd]. split; [|reflexivity].
  replace (pos + length e - pos)%nat with (length e) by lia. now apply has_at_window.
Qed.

Definition fixed_form : ty :=
  TTuple [TScalar 4 false; TVec None true point; TVariant (IdInt 1) [(3, true); (7, true)] [TBool; TPtr TEmpty];
          TBitset 16; TView (VwSized None)].

Example in_reencode_identity_nontrivial :
  self_describing node_env vec_cfg [fixed_form] /\ tall (one_form (fmt_of vec_cfg)) fixed_form = true
  /\ des node_env vec_cfg
       ([x01; x00; x00; x00] ++ [x01; x00; x00; x00; x05; x00; x06; x00] ++ [x07] ++ [x80; x01]
        ++ [x02; x00; x00; x00; x61; x62] ++ [xff]) 0 fixed_form (dflt node_env fixed_form) 0
     = (ROk, VSeq [VN 1; VSeq [VSeq [VN 5; VN 6]]; VAlt 1 (VSome (VSeq []));
                   VBits [false;false;false;false;false;false;false;true;true;false;false;false;false;false;false;false];
                   VBytes [x61; x62]], 21%nat).
Proof.
  split; [|split; vm_compute; reflexivity].
  constructor; try (vm_compute; reflexivity).
  - apply demo_wf_env.
  - intros [|k]; reflexivity.
  - intros [|k]; reflexivity.
  - intros [|k]; reflexivity.
Qed.

(** Each excluded type has a value with two representations. *)
Theorem in_reencode_refuted :
  let twice t x y := exists v, x <> y
    /\ des node_env vec_cfg x 0 t (dflt node_env t) 0 = (ROk, v, length x)
    /\ des node_env vec_cfg y 0 t (dflt node_env t) 0 = (ROk, v, length y) in
  twice (TVarint 8 false false) [x05] [x85; x00]
  /\ twice (TOpt true TBool) [x01; x01] [x02; x01]
  /\ twice (TOptPtr TBool) [x01; x01] [xff; x01]
  /\ twice (TAssoc (Some (SzFix 1)) map_kind (TTuple [TScalar 1 false; TBool]))
       [x02; x01; x00; x02; x00] [x02; x02; x00; x01; x00]
  /\ twice (TBitset 3) [x01] [xf9]
  /\ twice (TVec (Some (SzVar 8)) true TBool) [x01; x01] [x81; x00; x01].
Proof.
  cbv zeta. repeat (apply conj); (eexists; split; [discriminate|split; vm_compute; reflexivity]).
Qed.
