(** C60: types with the same wire format may stand for each other. *)

From Coq Require Import List NArith ZArith Lia Bool Arith.
From Coq Require Import ZifyBool ZifyNat ZifyN.
From Verif Require Import Base.Bytes Model.Types Model.Machine Model.Varint Model.Out Model.In
  Spec.Leb128 Spec.Wire Spec.Grammar Spec.Compat Proofs.VarintP Proofs.OutP Proofs.InBase Proofs.InSafe
  Proofs.InLocal Proofs.InPrior Proofs.InRound Proofs.InHost Proofs.InGrammar
  Thm.Demo Thm.Output Thm.Input Thm.Grammar.
Import ListNotations.
Local Open Scope N_scope.

Ltac Zify.zify_post_hook ::= Z.div_mod_to_equations.

(** ** Proofs *)

Lemma word_wscalar o w n : n < pow256 w -> length (wscalar o w n) = w /\ word o (wscalar o w n) = n.
Proof.
  intro H. unfold word, wscalar. destruct (little o); rewrite ?rev_length, ?rev_involutive, ?le_bytes_length;
    (split; [reflexivity|now apply le_val_le_bytes_small]).
Qed.

Lemma base128_leb w n : wfw w = true -> n < pow256 w -> base128 w (leb128 n) n.
Proof.
  intros Hw Hn. exists n. split; [apply leb_value_leb, leb128_spec|]. split.
  - exact (leb128_max w n Hw Hn).
  - now rewrite N.mod_small.
Qed.

Lemma size_is_wire o s s' n : agreed (wsize o) s s' n ->
  size_is o s' (wire_size o s (N.of_nat n)) (N.of_nat n).
Proof.
  intros [E H]. unfold size_is, wire_size.
  change (match s with Some s => s | None => wsize o end) with (size_of (wsize o) s).
  change (match s' with Some s => s | None => wsize o end) with (size_of (wsize o) s').
  rewrite <- E. destruct (size_of (wsize o) s); cbn [announces] in H; [tauto| |].
  - rewrite N.mod_small by assumption. now apply word_wscalar.
  - destruct H as [Hw H]. rewrite N.mod_small by assumption. now apply base128_leb.
Qed.

Lemma enc_many_app f l1 l2 ms1 ms2 : length l1 = length ms1 ->
  enc_many f (l1 ++ l2) (ms1 ++ ms2) = pseq (enc_many f l1 ms1) (enc_many f l2 ms2).
Proof.
  revert ms1. induction l1 as [|x l1 IH]; intros [|m ms1] H; try discriminate.
  - cbn. unfold pseq, pnil. cbn. now destruct (enc_many f l2 ms2).
  - cbn [app enc_many]. rewrite IH by (now injection H).
    destruct (f x m) as [a []], (enc_many f l1 ms1) as [b []], (enc_many f l2 ms2) as [d r];
      unfold pseq; cbn [fst snd]; rewrite ?app_assoc; reflexivity.
Qed.

Lemma enc_all_many f l t : enc_all f l t = enc_many f l (repeat t (length l)).
Proof. induction l as [|x l IH]; [reflexivity|]. cbn. now rewrite IH. Qed.

Lemma group_enc G o t vs ts : group G t vs ts ->
  enc G o (VSeq vs) t = enc_many (enc G o) vs ts /\ length vs = length ts.
Proof.
  destruct 1; cbn [enc]; auto.
  subst n. rewrite repeat_length. split; [apply enc_all_many|reflexivity].
Qed.

Lemma sequence_repeat G o t n e vs : sequence G o (repeat t n) e vs -> elements G o t e vs /\ length vs = n.
Proof.
  revert e vs. induction n as [|n IH]; intros e vs H; inversion H; subst; [split; constructor|].
  destruct (IH _ _ H5) as [A B]. split; [now constructor|]. cbn. now rewrite B.
Qed.

Lemma sequence_app_inv G o ts1 ts2 e vs1 vs2 : length vs1 = length ts1 ->
  sequence G o (ts1 ++ ts2) e (vs1 ++ vs2) ->
  exists e1 e2, e = e1 ++ e2 /\ sequence G o ts1 e1 vs1 /\ sequence G o ts2 e2 vs2.
Proof.
  revert e vs1. induction ts1 as [|t ts1 IH]; intros e [|v vs1] HL H; try discriminate.
  - exists [], e. split; [reflexivity|]. split; [constructor|exact H].
  - cbn [app] in H. inversion H; subst.
    apply eq_add_S in HL. destruct (IH _ _ HL H6) as (a & b & -> & A & B).
    exists (e1 ++ a), b. split; [apply app_assoc|]. split; [now constructor|exact B].
Qed.

Lemma group_denotes G o t vs ts e : group G t vs ts -> sequence G o ts e vs -> denotes G o t e (VSeq vs).
Proof.
  destruct 1; intro D.
  - now constructor.
  - now constructor.
  - now constructor.
  - apply sequence_repeat in D as [D HL]. subst n. now constructor.
  - inversion D; subst. constructor.
Qed.

Lemma group_length G t vs ts : group G t vs ts -> length vs = length ts.
Proof. destruct 1; auto. subst. now rewrite repeat_length. Qed.

Lemma enc_all_numbers G o b l : (forall x, In x (numbers l) -> True) ->
  enc_all (enc G o) (numbers l) (TScalar 1 b) = (l, true).
Proof.
  intros _. induction l as [|x l IH]; [reflexivity|].
  unfold numbers in *. cbn [map enc_all]. rewrite IH. cbn [enc]. unfold pseq, pdone. cbn [snd fst].
  assert (wscalar o 1 (b2n x) = [x]) as ->; [|reflexivity].
  unfold wscalar. cbn [le_bytes]. rewrite n2b_b2n. now destruct (little o).
Qed.

Lemma elements_numbers G o b l : elements G o (TScalar 1 b) l (numbers l).
Proof.
  induction l as [|x l IH]; [constructor|].
  change (x :: l) with ([x] ++ l). unfold numbers. cbn [app map]. change (x :: l) with ([x] ++ l).
  constructor; [|exact IH].
  assert (E : word o [x] = b2n x).
  { unfold word. cbn [rev app le_val]. destruct (little o); lia. }
  rewrite <- E. now constructor.
Qed.

Lemma bits_back n l : length l = n ->
  VBits l = VBits (map (fun i => N.testbit (le_val (le_bytes ((n + 7) / 8) (bits_number l))) (N.of_nat i)) (List.seq 0 n)).
Proof.
  intro H. f_equal. apply nth_ext with (d := false) (d' := false).
  - rewrite map_length, seq_length. exact H.
  - intros i Hi. symmetry.
    set (f := fun i => N.testbit (le_val (le_bytes ((n + 7) / 8) (bits_number l))) (N.of_nat i)).
    rewrite (nth_indep (map f (List.seq 0 n)) false (f O)) by (rewrite map_length, seq_length; lia).
    rewrite map_nth, seq_nth by lia. cbn [Nat.add]. unfold f.
    rewrite le_val_le_bytes, pow256_2. rewrite N.mod_pow2_bits_low.
    + apply testbit_bits_number.
    + unfold bits. lia.
Qed.

Lemma container_enc G o t s e l : container t s e ->
  enc G o (VSeq l) t = pseq (pdone (wire_size o s (N.of_nat (length l)))) (enc_all (enc G o) l e).
Proof. now destruct 1. Qed.

Lemma conv_denotes G G' o :
  (forall t v t' v', conv G G' (wsize o) t v t' v' ->
     exists e, enc G o v t = (e, true) /\ denotes G' o t' e v')
  /\ (forall ts vs ts' vs', convs G G' (wsize o) ts vs ts' vs' ->
     exists e, enc_many (enc G o) vs ts = (e, true) /\ length vs = length ts /\ sequence G' o ts' e vs')
  /\ (forall t l t' l', conve G G' (wsize o) t l t' l' ->
     exists e, enc_all (enc G o) l t = (e, true) /\ length l = length l' /\ elements G' o t' e l').
Proof.
  apply conv_ind3.
  - (* scalar *) intros w b b' n Hn. destruct (word_wscalar o w n Hn) as [L W].
    exists (wscalar o w n). split; [reflexivity|]. rewrite <- W at 2. now constructor.
  - (* byte *)
    intros t t' n H1 H2. assert (Hn : n < pow256 1) by (change (pow256 1) with 256; destruct H1; lia).
    destruct (word_wscalar o 1 n Hn) as [L W]. exists (wscalar o 1 n).
    split; [now destruct H1|]. rewrite <- W at 2. destruct H2; constructor; auto. now rewrite W.
  - (* varint *) intros w sg w' sg' n Hw Hn. exists (leb128 n). split; [reflexivity|].
    constructor. now apply base128_leb.
  - (* zig-zag *)
    intros w w' n n' Hw Hw' Hn Hn' E. exists (leb128 (zigzag (to_signed w n))). split; [reflexivity|].
    rewrite <- (of_to_signed w' n' Hn'), <- E, <- (unzigzag_zigzag (to_signed w n)).
    constructor. rewrite unzigzag_zigzag. apply base128_leb; [exact Hw'|].
    rewrite E. exact (varint_number_lt w' true true n' Hw' Hn').
  - (* group *)
    intros t vs ts t' vs' ts' H1 H2 _ (e & E & _ & D). exists e.
    destruct (group_enc G o t vs ts H1) as [-> _]. split; [exact E|]. eapply group_denotes; eauto.
  - (* list *)
    intros t l s e s' cg' e' l' H1 H2 _ (b & E & HL & D).
    exists (wire_size o s (N.of_nat (length l)) ++ b).
    rewrite (container_enc _ _ _ _ _ _ H1), E. split; [reflexivity|]. constructor; [|exact D].
    rewrite <- HL. now apply size_is_wire.
  - (* set *)
    intros t l s e s' k' e' l' H1 H2 _ (b & E & HL & D).
    exists (wire_size o s (N.of_nat (length l)) ++ b).
    rewrite (container_enc _ _ _ _ _ _ H1), E. split; [reflexivity|]. constructor; [|exact D].
    rewrite <- HL. now apply size_is_wire.
  - (* view to list *)
    intros s s' cg b l H. exists (wire_size o s (N.of_nat (length l)) ++ l). split; [reflexivity|].
    constructor; [|apply elements_numbers]. unfold numbers. rewrite map_length. now apply size_is_wire.
  - (* list to view *)
    intros t s b s' l H1 H2. exists (wire_size o s (N.of_nat (length l)) ++ l).
    rewrite (container_enc _ _ _ _ _ _ H1), enc_all_numbers by auto. unfold numbers. rewrite map_length.
    split; [reflexivity|]. constructor. now apply size_is_wire.
  - intros s s' l H. exists (wire_size o s (N.of_nat (length l)) ++ l). split; [reflexivity|].
    constructor. now apply size_is_wire.
  - intros n l <-. exists l. split; [reflexivity|]. constructor.
  - intros t e t' e' H1 H2. exists [x00]. split; [now destruct H1|]. destruct H2; constructor.
  - intros t e t' e' x x' H1 H2 _ (b & E & D). exists (x01 :: b).
    split; [destruct H1; cbn [enc]; now rewrite E|]. destruct H2; constructor; auto; discriminate.
  - intros t x t' x' _ (b & E & D). exists b. split; [exact E|exact D].
  - intros t x t' x' _ (b & E & D). exists b. split; [exact E|now constructor].
  - (* variant *)
    intros ik meta alts meta' alts' i j id dc dc' t t' x x' H1 H2 H3 H4 Hid _ (b & E & D).
    exists (wire_id o ik id ++ b). cbn [enc]. rewrite H1, H2, E. split; [reflexivity|].
    econstructor; eauto. destruct ik; cbn [wire_id id_is idwidth] in *; [now apply word_wscalar|].
    split; [apply le_bytes_length|now apply le_val_le_bytes_small].
  - (* bit set *)
    intros n l H. exists (le_bytes ((n + 7) / 8) (bits_number l)). split; [reflexivity|].
    rewrite (bits_back n l H). constructor. apply le_bytes_length.
  - exists []. split; [reflexivity|]. split; [reflexivity|constructor].
  - intros t v t' v' ts vs ts' vs' _ (e1 & E1 & D1) _ (e2 & E2 & HL & D2).
    exists (e1 ++ e2). cbn [enc_many length]. rewrite E1, E2, HL. split; [reflexivity|].
    split; [reflexivity|now constructor].
  - intros t us us_ty ts vs ts' vs' H _ (e & E & HL & D). exists e.
    destruct (group_enc G o t us us_ty H) as [E1 L1].
    rewrite enc_many_app in E by exact L1. cbn [enc_many]. rewrite E1. split; [exact E|].
    rewrite !app_length in HL. cbn [length]. split; [lia|exact D].
  - intros t' us' us_ty' ts vs ts' vs' H _ (e & E & HL & D). exists e.
    split; [exact E|]. split; [exact HL|].
    apply sequence_app_inv in D as (e1 & e2 & -> & D1 & D2); [|eapply group_length; eauto].
    constructor; [|exact D2]. eapply group_denotes; eauto.
  - intros t t'. exists []. split; [reflexivity|]. split; [reflexivity|constructor].
  - intros t v t' v' l l' _ (e1 & E1 & D1) _ (e2 & E2 & HL & D2).
    exists (e1 ++ e2). cbn [enc_all length]. rewrite E1, E2, HL. split; [reflexivity|].
    split; [reflexivity|now constructor].
Qed.

(** ** Theorems *)

(** C60: values written as [ts] by one program and read as [ts'] by another become what the
    correspondence says, whatever else is in the input and in the targets, unless memory, stack
    or the allocation limit do not suffice. *)
Theorem interchangeable G G' cw cr ts vs ts' vs' st st' data pos fuel priors :
  convs G G' (dsize cw) ts vs ts' vs' ->
  writing G cw (VSeq vs) (TTuple ts) -> bits_ok G (TTuple ts) st -> ost_ok st ->
  out_call G cw vs ts st = (ROk, st') ->
  dsize cr = dsize cw -> xorb (host_le cr) (swap cr) = xorb (host_le cw) (swap cw) ->
  self_describing G' cr ts' -> wt G' (VSeq priors) (TTuple ts') = true -> small data ->
  has_at data pos (window (obuf st') (opos st) (opos st' - opos st)) ->
  in_call G' cr data fuel ts' priors pos = (ROk, vs', (pos + (opos st' - opos st))%nat)
  \/ (let r := fst (fst (in_call G' cr data fuel ts' priors pos)) in
      r = RErr message_size \/ r = RThrow \/ r = RStack).
Proof.
  intros HC HW Hb Hok H Hd Ho HS Hpr Hsm Hat.
  destruct (out_call_keeps_written _ _ _ _ _ _ _ HW Hb Hok H) as (st1 & E & P & Q & L).
  assert (E1 : ser G cw (VSeq vs) (TTuple ts) st = (ROk, st1)) by exact E.
  destruct (out_frame _ _ _ _ _ _ _ HW Hb Hok E1) as (_ & P1 & _).
  destruct (out_wire_format _ _ _ _ _ _ HW Hb Hok E1) as (_ & Hpos & Hwin).
  assert (Hf : fmt_of cw = fmt_of cr) by (unfold fmt_of; now rewrite Hd, Ho).
  destruct (proj1 (proj2 (conv_denotes G G' (fmt_of cw))) ts vs ts' vs' HC) as (e & Ee & _ & D).
  assert (He : encode G (fmt_of cw) (VSeq vs) (TTuple ts) = e) by (unfold encode; cbn [enc]; now rewrite Ee).
  rewrite He in *.
  assert (Hw : window (obuf st') (opos st) (opos st' - opos st) = e).
  { rewrite <- Hwin, P. unfold window. rewrite !firstn_skipn_comm.
    replace (opos st + (opos st1 - opos st))%nat with (opos st1) by lia.
    replace (opos st + length e)%nat with (opos st1) by lia. now rewrite Q. }
  rewrite Hw in Hat. replace (opos st' - opos st)%nat with (length e) by lia.
  rewrite Hf in D. apply in_accepts_every_representation; auto.
  destruct Hat as [Hat _]. lia.
Qed.

(** Widening a signed varint that is not zig-zag encoded changes negative numbers: -1 written as
    a 4 byte varint is read as 4294967295 by an 8 byte one. *)
Theorem varint_widening_refuted :
  exists w w' n n' e,
    wt node_env (VN n) (TVarint w true false) = true /\ (w < w')%nat
    /\ enc node_env (fmt_of vec_cfg) (VN n) (TVarint w true false) = (e, true)
    /\ des node_env vec_cfg e 0 (TVarint w' true false) (VN 0) 0 = (ROk, VN n', length e)
    /\ to_signed w n <> to_signed w' n'.
Proof.
  exists 4%nat, 8%nat, 0xffffffff, 0xffffffff, [xff; xff; xff; xff; x0f].
  split; [reflexivity|]. split; [lia|]. split; [reflexivity|]. split; [vm_compute; reflexivity|].
  vm_compute. discriminate.
Qed.

(** Non-vacuity: nested tuples read flat, a map read as a list of pairs, a pointer read as an
    object and an object as a pointer, a bool as a number, a string view as a vector, the
    alternatives of a variant extended and rearranged. *)
Definition written_tys : list ty :=
  [ TTuple [TScalar 2 false; TTuple [TBool; TPtr (TScalar 4 false)]];
    TAssoc None map_kind (TTuple [TScalar 1 false; TBool]);
    TVariant (IdInt 1) [(1, true); (2, true)] [TScalar 1 false; TView (VwSized None)];
    TVarint 4 true true ].
Definition written_vals : list val :=
  [ VSeq [VN 513; VSeq [VN 1; VSome (VN 7)]];
    VSeq [VSeq [VN 3; VN 1]; VSeq [VN 9; VN 0]];
    VAlt 1 (VBytes [x61; x62]);
    VN 0xfffffffb ].
Definition read_tys : list ty :=
  [ TPtr (TScalar 2 false); TScalar 1 true; TScalar 4 false;
    TVec (Some (SzFix 4)) false (TArray 2 (TScalar 1 false));
    TVariant (IdInt 1) [(5, true); (2, true); (9, true)] [TBool; TVec None true (TScalar 1 true); TScalar 8 false];
    TVarint 8 true true ].
Definition read_vals : list val :=
  [ VSome (VN 513); VN 1; VN 7;
    VSeq [VSeq [VN 3; VN 1]; VSeq [VN 9; VN 0]];
    VAlt 1 (VSeq [VN 0x61; VN 0x62]);
    VN 0xfffffffffffffffb ].

Example interchangeable_nontrivial :
  let st' := snd (out_call node_env vec_cfg written_vals written_tys (mkO [] 0)) in
  convs node_env node_env (dsize vec_cfg) written_tys written_vals read_tys read_vals
  /\ writing node_env vec_cfg (VSeq written_vals) (TTuple written_tys)
  /\ self_describing node_env vec_cfg read_tys
  /\ in_call node_env vec_cfg (obuf st') 0 read_tys
       [VNone; VN 0; VN 0; VSeq []; VAlt 0 (VN 0); VN 0] 0
     = (ROk, read_vals, opos st').
Proof.
  cbv zeta. split; [|split; [|split]].
  - eapply VS_open; [now apply g_tuple|]. cbn [app].
    apply VS_cons; [apply V_to_ptr; now apply V_scalar|].
    eapply VS_open; [now apply g_tuple|]. cbn [app].
    apply VS_cons; [apply V_byte; constructor; reflexivity|].
    apply VS_cons; [apply V_from_ptr; now apply V_scalar|].
    apply VS_cons.
    { eapply V_list; [constructor|split; [reflexivity|vm_compute; reflexivity]|].
      assert (P : forall a b, a < 256 -> b < 2 ->
        conv node_env node_env (dsize vec_cfg) (TTuple [TScalar 1 false; TBool]) (VSeq [VN a; VN b])
          (TArray 2 (TScalar 1 false)) (VSeq [VN a; VN b])).
      { intros a b Ha Hb. eapply V_group; [now apply g_tuple|now apply g_array|]. cbn [repeat].
        apply VS_cons; [now apply V_scalar|]. apply VS_cons; [|apply VS_nil].
        apply V_byte; constructor; lia. }
      repeat (apply VE_cons; [apply P; reflexivity|]). apply VE_nil. }
    apply VS_cons.
    { eapply V_alt; try reflexivity. apply (V_view_list _ _ _ None None true true [x61; x62]).
      split; [reflexivity|vm_compute; reflexivity]. }
    apply VS_cons; [|apply VS_nil]. apply V_zigzag; reflexivity.
  - split; try reflexivity.
    + intros _. split; [reflexivity|]. split; [discriminate|reflexivity].
    + apply demo_wf_env.
    + intros [|k]; reflexivity.
  - split; try reflexivity; [apply demo_wf_env|..]; intros [|k]; reflexivity.
  - vm_compute. reflexivity.
Qed.
