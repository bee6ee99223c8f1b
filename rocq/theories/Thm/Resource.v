(** C59: how much a read can make the program hold, compared to the bytes it consumes. *)

From Coq Require Import List NArith ZArith Lia Bool Arith.
From Coq Require Import ZifyBool ZifyNat ZifyN.
From Verif Require Import Base.Bytes Model.Types Model.Machine Model.Varint Model.Out Model.In
  Spec.Leb128 Spec.Wire Spec.Grammar Proofs.VarintP Proofs.OutP Proofs.InBase Proofs.InSafe
  Proofs.InLocal Proofs.InPrior Proofs.InRound Proofs.InAlloc Proofs.InHost Proofs.InGrammar
  Thm.Demo Thm.Output Thm.Input Thm.Grammar.
Import ListNotations.
Local Open Scope N_scope.

Ltac Zify.zify_post_hook ::= Z.div_mod_to_equations.

(** ** Statement *)

Section Sum2.
  Context {A B : Type} (f : A -> B -> nat).
  Fixpoint sum2 (l : list A) (m : list B) : nat :=
    match l, m with
    | x :: l', y :: m' => (f x y + sum2 l' m')%nat
    | _, _ => 0%nat
    end.
End Sum2.

(** The number of container elements (and viewed bytes) in a value, at all levels. *)
Fixpoint held (G : tenv) (v : val) (t : ty) {struct v} : nat :=
  match t, v with
  | TStruct _ ms, VSeq l => sum2 (fun x m => held G x m) l ms
  | TRec k, VSeq l => sum2 (fun x m => held G x m) l (t_mems G k)
  | TTuple ts, VSeq l => sum2 (fun x m => held G x m) l ts
  | TArray _ t', VSeq l => list_sum (map (fun x => held G x t') l)
  | TVec _ _ t', VSeq l | TAssoc _ _ t', VSeq l => list_sum (map (fun x => S (held G x t')) l)
  | TOpt _ t', VSome x | TOptPtr t', VSome x | TPtr t', VSome x => held G x t'
  | TVariant _ _ alts, VAlt i x =>
      match nth_error alts i with Some t' => held G x t' | None => 0 end
  | TView _, VBytes l => length l
  | _, _ => 0
  end%nat.

(** Bytes every value of a type takes at least; [r]: for named classes. *)
Fixpoint least (r : nat -> nat) (t : ty) : nat :=
  match t with
  | TScalar w _ => w
  | TBool | TVarint _ _ _ | TOpt _ _ | TOptPtr _ => 1
  | TStruct _ ms | TTuple ms => list_sum (map (least r) ms)
  | TRec k => r k
  | TArray n t' => n * least r t'
  | TVec _ _ _ | TAssoc _ _ _ => 1
  | TPtr t' => least r t'
  | TVariant ik _ _ => idwidth ik
  | TBitset n => (n + 7) / 8
  | TView (VwSized _) => 1
  | _ => 0
  end%nat.

Definition floor (G : tenv) (t : ty) : nat :=
  least (fun k => list_sum (map (least (fun _ => 0)) (t_mems G k)))%nat t.

(** The elements of containers take at least one byte each. *)
Definition weighty (G : tenv) (t : ty) : bool :=
  match t with
  | TVec _ _ t' | TAssoc _ _ t' => (1 <=? floor G t')%nat
  | _ => true
  end.

(** ** Proofs *)

Lemma size_is_pos o s e n : wfsz s = true -> wfsz (Some (wsize o)) = true -> size_is o s e n -> (1 <= length e)%nat.
Proof.
  intros H1 H2. unfold size_is.
  assert (H : wfsz (Some (match s with Some s => s | None => wsize o end)) = true) by (destruct s; auto).
  destruct (match s with Some s => s | None => wsize o end); cbn [wfsz] in H; [tauto| |].
  - intros [L _]. unfold wfw in H. lia.
  - intros (m & L & _). destruct e; [discriminate|cbn; lia].
Qed.

Lemma least_mono r r' t : (forall k, r k <= r' k)%nat -> (least r t <= least r' t)%nat.
Proof.
  intro H. induction t using ty_ind'; cbn [least]; auto; try lia.
  - unfold list_sum. induction H0; cbn [map fold_right]; lia.
  - apply Nat.mul_le_mono_l. auto.
  - unfold list_sum. induction H0; cbn [map fold_right]; lia.
Qed.

Lemma include_sum f k l x :
  (list_sum (map f (include k l x)) <= list_sum (map f l) + f x)%nat.
Proof.
  unfold include. destruct (_ && _); [lia|]. destruct (a_cmp k).
  - induction l as [|y l IH]; cbn [put_before]; [cbn; lia|].
    destruct (lt _ _); unfold list_sum in *; cbn [map fold_right] in *; lia.
  - rewrite map_app, list_sum_app. cbn. lia.
Qed.

Lemma includes_sum f k l acc :
  (list_sum (map f (fold_left (include k) l acc)) <= list_sum (map f acc) + list_sum (map f l))%nat.
Proof.
  revert acc. induction l as [|x l IH]; intro acc; [change (list_sum (map f [])) with 0%nat; cbn [fold_left]; lia|].
  cbn [fold_left]. specialize (IH (include k acc x)). pose proof (include_sum f k acc x).
  unfold list_sum in *. cbn [map fold_right] in *. lia.
Qed.

Section Bound.
  Variables (G : tenv) (o : wfmt).
  Hypothesis (HG : wf_env G) (Hsz : wfsz (Some (wsize o)) = true) (HE : tall_env (weighty G) G).

  Let r0 (k : nat) : nat := 0%nat.
  Let r1 (k : nat) : nat := list_sum (map (least r0) (t_mems G k)).

  Lemma grammar_bound :
    (forall t e v, denotes G o t e v -> wf G t = true -> tall (weighty G) t = true ->
       (least r1 t + held G v t <= length e)%nat)
    /\ (forall ts e l, sequence G o ts e l -> forallb (wf G) ts = true -> forallb (tall (weighty G)) ts = true ->
       (list_sum (map (least r1) ts) + sum2 (fun x m => held G x m) l ts <= length e)%nat)
    /\ (forall t e l, elements G o t e l -> wf G t = true -> tall (weighty G) t = true ->
       (length l * least r1 t + list_sum (map (fun x => held G x t) l) <= length e)%nat).
  Proof.
    assert (HS : forall f (l : list val), list_sum (map (fun x => S (f x)) l) = (length l + list_sum (map f l))%nat).
    { intros f. induction l as [|x l IH]; [reflexivity|].
      unfold list_sum in *. cbn [map length fold_right] in *. lia. }
    apply grammar_ind.
    all: intros; cbn [wf tall weighty] in *; rewrite ?andb_true_iff in *; cbn [least held]; cbn [length];
      rewrite ?app_length; try lia.
    - (* varint *) destruct H as (m & L & _). destruct e; [discriminate|cbn; lia].
    - destruct H as (m & L & _). destruct e; [discriminate|cbn; lia].
    - (* struct *) apply H0; tauto.
    - (* named *)
      destruct (HG k) as [Hk _].
      specialize (H0 Hk (HE k)). unfold r1 at 1.
      assert (list_sum (map (least r0) (t_mems G k)) <= list_sum (map (least r1) (t_mems G k)))%nat.
      { clear - r0 r1 o. induction (t_mems G k) as [|t l IH]; [cbn; lia|]. pose proof (least_mono r0 r1 t ltac:(unfold r0; lia)).
        unfold list_sum in *. cbn [map fold_right] in *. lia. }
      lia.
    - (* tuple *) apply H0; tauto.
    - (* array *) apply H0; tauto.
    - (* vector *)
      destruct H2 as [Hs Hw]. destruct H3 as [Ht Hw'].
      pose proof (size_is_pos _ _ _ _ Hs Hsz H). specialize (H1 Hw Hw').
      rewrite (HS (fun x => held G x t) l). unfold floor in Ht. fold r0 r1 in Ht. apply Nat.leb_le in Ht.
      change (least (fun k => list_sum (map (least (fun _ => 0%nat)) (t_mems G k))) t) with (least r1 t) in Ht.
      nia.
    - (* associative *)
      destruct H2 as [Hs Hw]. destruct H3 as [Ht Hw'].
      pose proof (size_is_pos _ _ _ _ Hs Hsz H). specialize (H1 Hw Hw').
      pose proof (includes_sum (fun x => S (held G x t)) k l []) as HI.
      change (list_sum (map (fun x => S (held G x t)) [])) with 0%nat in HI.
      rewrite (HS (fun x => held G x t) l) in HI.
      apply Nat.leb_le in Ht.
      change (floor G t) with (least r1 t) in Ht. nia.
    - specialize (H1 H2). destruct H3 as [_ H3]. specialize (H1 H3). lia.
    - specialize (H1 H2). destruct H3 as [_ H3]. specialize (H1 H3). lia.
    - apply H0; tauto.
    - (* variant *)
      assert (Hin : In t alts) by (eapply nth_error_In; eauto).
      assert (Hw : wf G t = true) by (assert (A : forallb (wf G) alts = true) by tauto; rewrite forallb_forall in A; auto).
      assert (Hy : tall (weighty G) t = true) by (destruct H5 as [_ A]; rewrite forallb_forall in A; auto).
      specialize (H3 Hw Hy). rewrite H0.
      assert (length e1 = idwidth ik) by (destruct ik; cbn [id_is idwidth] in *; tauto). lia.
    - (* sized view *) pose proof (size_is_pos _ _ _ _ H0 Hsz H). lia.
    - cbn. lia.
    - (* sequence *)
      cbn [map forallb sum2] in *. apply andb_true_iff in H3 as [A1 A2]. apply andb_true_iff in H4 as [B1 B2].
      specialize (H0 A1 B1). specialize (H2 A2 B2).
      unfold list_sum in *. cbn [fold_right]. lia.
    - cbn. lia.
    - (* elements *)
      specialize (H0 H3 H4). specialize (H2 H3 H4).
      cbn [map length] in *. unfold list_sum in *. cbn [fold_right]. lia.
  Qed.
End Bound.

(** ** Theorems *)

(** C59: the elements held by the values a successful call has read - at all levels of nesting
    together - are not more than the bytes it consumed, not even counting those that every
    value of the type takes. *)
Theorem in_elements_bounded G c data fuel ts priors pos vs p :
  self_describing G c ts -> small data -> (pos <= length data)%nat ->
  forallb (tall (weighty G)) ts = true -> tall_env (weighty G) G ->
  wt G (VSeq priors) (TTuple ts) = true ->
  in_call G c data fuel ts priors pos = (ROk, vs, p) ->
  (list_sum (map (floor G) ts) + held G (VSeq vs) (TTuple ts) <= p - pos)%nat.
Proof.
  intros HS Hs Hp Hw HwE Hv E.
  destruct (in_accepts_only_representations G c data fuel ts priors pos vs p HS Hs Hp Hv E) as [Hpp D].
  pose proof (proj1 (proj2 (grammar_bound G (fmt_of c) (sd_env _ _ _ HS) (sd_size _ _ _ HS) HwE))
                ts _ vs D (sd_wf _ _ _ HS) Hw) as B.
  unfold window in B. rewrite firstn_length, skipn_length in B.
  assert (B' : (list_sum (map (floor G) ts) + sum2 (fun x m => held G x m) vs ts <= p - pos)%nat)
    by (etransitivity; [exact B|lia]).
  exact B'.
Qed.

(** Without that condition there is no bound: four bytes can make the reader create any number
    of objects that take no bytes, e.g. owning pointers to empty classes. *)
Theorem in_elements_refuted :
  forall n, n < 2 ^ 32 ->
  exists data, length data = 4%nat /\
    des node_env vec_cfg data 0 (TVec None true (TPtr TEmpty)) (VSeq []) 0
    = (ROk, VSeq (repeat (VSome (VSeq [])) (N.to_nat n)), 4%nat).
Proof.
  intros n Hn. exists (le_bytes 4 n). split; [apply le_bytes_length|].
  unfold des. cbn [des_ty sz_of dsize]. change (dsize vec_cfg) with (SzFix 4). cbn iota. cbn [des_size].
  rewrite des_scalar_eq by (rewrite ?le_bytes_length; unfold small; rewrite ?le_bytes_length; lia).
  rewrite le_bytes_length. cbn [Nat.leb Nat.add].
  replace (scalar_val vec_cfg (window (le_bytes 4 n) 0 4)) with n.
  2:{ change (window (le_bytes 4 n) 0 4) with (firstn 4 (le_bytes 4 n)).
      rewrite firstn_all2 by (rewrite le_bytes_length; lia).
      change (scalar_val vec_cfg (le_bytes 4 n)) with (le_val (le_bytes 4 n)).
      now rewrite le_val_le_bytes_small. }
  assert (E : vec_resize node_env vec_cfg (TPtr TEmpty) n [] = (ROk, repeat VNone (N.to_nat n))).
  { unfold vec_resize. cbn [over_limit alim vec_cfg].
    assert (can_alloc vec_cfg (n * csizeof vec_cfg (TPtr TEmpty)) = true) as ->.
    { unfold can_alloc. cbn [alloc_ok vec_cfg]. change (csizeof vec_cfg (TPtr TEmpty)) with 8. lia. }
    rewrite orb_true_r. unfold vresize. cbn [length]. rewrite Nat.sub_0_r, firstn_nil. reflexivity. }
  cbn [as_seq]. rewrite E. unfold des_elems. change (as_bytes vec_cfg (TPtr TEmpty) && true) with false.
  cbn iota.
  assert (A : forall m, des_all (des_ty node_env vec_cfg (le_bytes 4 n) (des_rec node_env vec_cfg (le_bytes 4 n) 0) (TPtr TEmpty))
                (repeat VNone m) 4 = (ROk, repeat (VSome (VSeq [])) m, 4%nat)).
  { induction m as [|m IH]; [reflexivity|]. cbn [repeat des_all].
    cbn [des_ty des_ptr dflt] in *. unfold des_ptr in *. now rewrite IH. }
  now rewrite A.
Qed.

(** Before the elements are read memory is requested for all that are announced: without
    alloc_limit four bytes of input request up to 2^32 - 1 times the element size. *)
Theorem in_amplification_refuted :
  let greedy := with_alloc vec_cfg (fun n => n <? 2 ^ 35 - 8) in
  des node_env greedy [xff; xff; xff; xff] 0 (TVec None true (TScalar 8 false)) (VSeq []) 0
  = (RThrow, VSeq [], 4%nat).
Proof. vm_compute. reflexivity. Qed.

(** Non-vacuity. *)
Example in_elements_bounded_nontrivial :
  let ts := [demo_ty; TBitset 11] in
  self_describing node_env vec_cfg ts
  /\ forallb (tall (weighty node_env)) ts = true /\ tall_env (weighty node_env) node_env
  /\ (0 < held node_env (VSeq [demo_val; demo_bits]) (TTuple ts))%nat
  /\ (0 < list_sum (map (floor node_env) ts))%nat.
Proof.
  cbv zeta. split; [apply demo_self_describing|]. split; [vm_compute; reflexivity|].
  split; [intros [|k]; vm_compute; reflexivity|]. split; vm_compute; lia.
Qed.

(** The bound is attained: a vector of one-byte numbers with a one-byte size. *)
Example in_elements_attained :
  let t := TVec (Some (SzVar 4)) true (TScalar 1 false) in
  let '(r, v, p) := des node_env vec_cfg [x03; x07; x08; x09] 0 t (VSeq []) 0 in
  r = ROk /\ (floor node_env t + held node_env v t)%nat = p.
Proof. vm_compute. split; reflexivity. Qed.
