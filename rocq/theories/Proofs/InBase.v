(** Basic facts about the primitives of input archives. *)

From Coq Require Import List NArith ZArith Lia Bool Arith.
From Coq Require Import ZifyBool ZifyNat ZifyN.
From Verif Require Import Base.Bytes Model.Types Model.Machine Model.Varint Model.Out Model.In
  Spec.Leb128 Spec.Wire Proofs.VarintP Proofs.OutP.
Import ListNotations.
Local Open Scope N_scope.

Ltac Zify.zify_post_hook ::= Z.div_mod_to_equations.

(** Inputs fit in the address space. *)
Definition small (data : list byte) : Prop := N.of_nat (length data) < 2 ^ 64.

(** [agree d d' a b]: both inputs have the same bytes at positions a..b-1. *)
Definition agree (d d' : list byte) (a b : nat) : Prop :=
  forall i, (a <= i < b)%nat -> nth_error d i = nth_error d' i.

Lemma agree_sub d d' a b a' b' :
  agree d d' a b -> (a <= a')%nat -> (b' <= b)%nat -> agree d d' a' b'.
Proof. intros H H1 H2 i Hi. apply H. lia. Qed.

Lemma agree_window d d' a b p n :
  agree d d' a b -> (a <= p)%nat -> (p + n <= b)%nat ->
  (p + n <= length d)%nat -> (p + n <= length d')%nat ->
  window d p n = window d' p n.
Proof.
  intros H H1 H2 H3 H4. apply list_ext. intro i.
  destruct (Nat.lt_ge_cases i n).
  - rewrite !nth_error_window by assumption. apply H. lia.
  - rewrite !(proj2 (nth_error_None _ _)); [reflexivity| |]; rewrite window_length; lia.
Qed.

Lemma remaining_small data pos :
  small data -> (pos <= length data)%nat ->
  remaining data pos = N.of_nat (length data - pos).
Proof.
  unfold small, remaining. intros H1 H2. change (2 ^ 64) with two64 in H1.
  rewrite wsub_small; lia.
Qed.

Lemma load_some data pos n :
  (pos + n <= length data)%nat -> load data pos n = Some (window data pos n).
Proof. intro H. unfold load. destruct (Nat.leb_spec (pos + n) (length data)); [reflexivity|lia]. Qed.

Lemma hostval_lt c l : hostval c l < pow256 (length l).
Proof.
  unfold hostval. destruct (host_le c); [apply le_val_lt|].
  rewrite <- rev_length. apply le_val_lt.
Qed.

Lemma scalar_val_lt c l : scalar_val c l < pow256 (length l).
Proof.
  unfold scalar_val. destruct (swap c); [rewrite <- rev_length|]; apply hostval_lt.
Qed.

Lemma hostval_hostrep c w n : n < pow256 w -> hostval c (hostrep c w n) = n.
Proof.
  intro H. unfold hostval, hostrep. destruct (host_le c); rewrite ?rev_involutive;
    now apply le_val_le_bytes_small.
Qed.

Lemma hostrep_length c w n : length (hostrep c w n) = w.
Proof. unfold hostrep. destruct (host_le c); rewrite ?rev_length; apply le_bytes_length. Qed.

Lemma scalar_val_bytes c w n : n < pow256 w -> scalar_val c (scalar_bytes c w n) = n.
Proof.
  intro H. unfold scalar_val, scalar_bytes. destruct (swap c); rewrite ?rev_involutive;
    now apply hostval_hostrep.
Qed.

Lemma scalar_val_wscalar c w n : n < pow256 w -> scalar_val c (wscalar (fmt_of c) w n) = n.
Proof. intro H. rewrite <- scalar_bytes_wscalar. now apply scalar_val_bytes. Qed.

(** ** Number readers *)

(** A number reader behaves: ends with success or an error, stays in range, its value is
    below [B], and it depends only on the bytes it consumes. *)
Definition nread := list byte -> nat -> res * N * nat.

Definition nsafe (f : nread) (B : N) : Prop :=
  forall data pos, small data -> (pos <= length data)%nat ->
    match f data pos with
    | (ROk, n, p) => (pos <= p <= length data)%nat /\ n < B
    | (RErr _, _, p) => p = pos
    | _ => False
    end.

Definition nlocal (f : nread) : Prop :=
  forall data data' pos n p,
    small data -> small data' -> (pos <= length data)%nat -> (pos <= length data')%nat ->
    f data pos = (ROk, n, p) ->
    agree data data' pos (Nat.min p (length data')) ->
    if (p <=? length data')%nat then f data' pos = (ROk, n, p)
    else fst (fst (f data' pos)) = RErr result_out_of_range /\ snd (f data' pos) = pos.

Lemma des_scalar_eq c data w prior pos :
  small data -> (pos <= length data)%nat ->
  des_scalar c data w prior pos =
  if (pos + w <=? length data)%nat
  then (ROk, scalar_val c (window data pos w), (pos + w)%nat)
  else (RErr result_out_of_range, prior, pos).
Proof.
  intros H1 H2. unfold des_scalar. rewrite remaining_small by assumption.
  destruct (Nat.leb_spec (pos + w) (length data)).
  - destruct (N.ltb_spec (N.of_nat (length data - pos)) (N.of_nat w)); [lia|].
    now rewrite load_some by lia.
  - destruct (N.ltb_spec (N.of_nat (length data - pos)) (N.of_nat w)); [reflexivity|lia].
Qed.

Lemma des_scalar_safe c w prior : nsafe (fun data => des_scalar c data w prior) (pow256 w).
Proof.
  intros data pos H1 H2. rewrite des_scalar_eq by assumption.
  destruct (Nat.leb_spec (pos + w) (length data)); [|reflexivity].
  split; [lia|]. rewrite <- (window_length data pos w) at 2 by lia. apply scalar_val_lt.
Qed.

Lemma des_scalar_local c w prior : nlocal (fun data => des_scalar c data w prior).
Proof.
  intros data data' pos n p H1 H2 H3 H4 H Hag.
  rewrite des_scalar_eq in * by assumption.
  destruct (Nat.leb_spec (pos + w) (length data)); [|discriminate].
  injection H as <- <-.
  destruct (Nat.leb_spec (pos + w) (length data')); [|split; reflexivity].
  rewrite (agree_window data data' pos (pos + w) pos w); try lia; [reflexivity|].
  eapply agree_sub; eauto; lia.
Qed.

Lemma des_varint_eq w zz prior data pos :
  wfw w = true -> (pos <= length data)%nat ->
  des_varint w zz prior data pos =
  match leb_value (firstn (varint_max_size w) (skipn pos data)) with
  | Some (v, k) => (ROk, unwire_value w zz (v mod pow256 w), (pos + k)%nat)
  | None =>
      (RErr (if (length data - pos <? varint_max_size w)%nat
             then result_out_of_range else value_too_large), prior, pos)
  end.
Proof.
  intros Hw Hp. unfold des_varint, rest_of.
  destruct (Nat.leb_spec pos (length data)); [|lia].
  rewrite varint_in_spec by exact Hw. unfold dec_spec.
  destruct (leb_value (firstn (varint_max_size w) (skipn pos data))) as [[v k]|]; [reflexivity|].
  rewrite skipn_length. destruct (_ <? _)%nat; reflexivity.
Qed.

Lemma des_varint_safe w zz prior :
  wfw w = true -> nsafe (fun data => des_varint w zz prior data) (pow256 w).
Proof.
  intros Hw data pos H1 H2. rewrite des_varint_eq by assumption.
  destruct (leb_value _) as [[v k]|] eqn:E; [|reflexivity].
  apply leb_value_bounds in E. rewrite firstn_length, skipn_length in E. split; [lia|].
  apply unwire_lt; [exact Hw|]. apply N.mod_lt. pose proof (pow256_pos w). lia.
Qed.

Lemma leb_value_trunc l v k m :
  leb_value l = Some (v, k) -> (m < k)%nat -> leb_value (firstn m l) = None.
Proof.
  intros H Hm. destruct (leb_value (firstn m l)) as [[v' k']|] eqn:E; [|reflexivity].
  exfalso. pose proof (leb_value_bounds _ _ _ E) as B. rewrite firstn_length in B.
  apply leb_value_firstn_inv in E. rewrite H in E. injection E as _ <-. lia.
Qed.

Lemma des_varint_local w zz prior :
  wfw w = true -> nlocal (fun data => des_varint w zz prior data).
Proof.
  intros Hw data data' pos n p H1 H2 H3 H4 H Hag.
  rewrite des_varint_eq in * by assumption.
  destruct (leb_value (firstn (varint_max_size w) (skipn pos data))) as [[v k]|] eqn:E;
    [|discriminate].
  injection H as <- <-.
  pose proof (leb_value_bounds _ _ _ E) as B. rewrite firstn_length, skipn_length in B.
  apply leb_value_firstn_inv in E.
  assert (W : forall q, (q <= k)%nat -> (pos + q <= length data')%nat ->
            firstn q (skipn pos data) = firstn q (skipn pos data')).
  { intros q Hq1 Hq2. apply (agree_window data data' pos (pos + q) pos q); try lia.
    eapply agree_sub; eauto; lia. }
  destruct (Nat.leb_spec (pos + k) (length data')).
  - assert (E' : leb_value (skipn pos data') = Some (v, k)).
    { apply (leb_value_firstn_inv _ _ _ k). rewrite <- W by lia. now apply leb_value_firstn. }
    now rewrite (leb_value_firstn _ v k) by (assumption || lia).
  - assert (Hsh : (length data' - pos < varint_max_size w)%nat) by lia.
    rewrite firstn_all2 by (rewrite skipn_length; lia).
    assert (E' : leb_value (skipn pos data') = None).
    { rewrite <- (firstn_all (skipn pos data')), skipn_length.
      rewrite <- W by lia. eapply leb_value_trunc; eauto. lia. }
    rewrite E'. destruct (Nat.ltb_spec (length data' - pos) (varint_max_size w)); [auto|lia].
Qed.

Definition szw (s : sizety) : nat := match s with SzNone => 0 | SzFix w | SzVar w => w end.

Lemma des_size_safe c s :
  wfsz (Some s) = true -> nsafe (fun data => des_size c data s) (pow256 (szw s)).
Proof.
  intro Hs. destruct s as [|w|w]; cbn [des_size szw].
  - intros data pos H1 H2. rewrite pow256_0. split; lia.
  - apply des_scalar_safe.
  - now apply des_varint_safe.
Qed.

Lemma des_size_local c s :
  wfsz (Some s) = true -> nlocal (fun data => des_size c data s).
Proof.
  intro Hs. destruct s as [|w|w]; cbn [des_size].
  - intros data data' pos n p H1 H2 H3 H4 H Hag. injection H as <- <-.
    destruct (Nat.leb_spec pos (length data')); [reflexivity|lia].
  - apply des_scalar_local.
  - now apply des_varint_local.
Qed.

Lemma des_id_eq c data k pos :
  small data -> (pos <= length data)%nat ->
  des_id c data k pos =
  if (pos + idwidth k <=? length data)%nat
  then (ROk, match k with
             | IdInt w => scalar_val c (window data pos w)
             | IdBytes n => le_val (window data pos n) end, (pos + idwidth k)%nat)
  else (RErr result_out_of_range, 0, pos).
Proof.
  intros H1 H2. destruct k as [w|n]; cbn [des_id idwidth]; [now apply des_scalar_eq|].
  rewrite remaining_small by assumption.
  destruct (Nat.leb_spec (pos + n) (length data)).
  - destruct (N.ltb_spec (N.of_nat (length data - pos)) (N.of_nat n)); [lia|].
    now rewrite load_some by lia.
  - destruct (N.ltb_spec (N.of_nat (length data - pos)) (N.of_nat n)); [reflexivity|lia].
Qed.

Lemma des_id_safe c k : nsafe (fun data => des_id c data k) (pow256 (idwidth k)).
Proof.
  intros data pos H1 H2. rewrite des_id_eq by assumption.
  destruct (Nat.leb_spec (pos + idwidth k) (length data)); [|reflexivity].
  split; [lia|]. destruct k as [w|n]; cbn [idwidth] in *.
  - rewrite <- (window_length data pos w) at 2 by lia. apply scalar_val_lt.
  - rewrite <- (window_length data pos n) at 2 by lia. apply le_val_lt.
Qed.

Lemma des_id_local c k : nlocal (fun data => des_id c data k).
Proof.
  intros data data' pos n p H1 H2 H3 H4 H Hag.
  rewrite des_id_eq in * by assumption.
  destruct (Nat.leb_spec (pos + idwidth k) (length data)); [|discriminate].
  injection H as <- <-.
  destruct (Nat.leb_spec (pos + idwidth k) (length data')); [|split; reflexivity].
  assert (W : window data pos (idwidth k) = window data' pos (idwidth k)).
  { apply (agree_window data data' pos (pos + idwidth k)); try lia. eapply agree_sub; eauto; lia. }
  destruct k as [w|n]; cbn [idwidth] in *; now rewrite W.
Qed.

(** ** Variants *)

Lemma find_id_some meta id i :
  find_id meta id = Some i -> exists dc, nth_error meta i = Some (id, dc).
Proof.
  revert i; induction meta as [|[x dc] meta IH]; intros i H; cbn [find_id] in H; [discriminate|].
  destruct (N.eqb_spec x id) as [->|].
  - injection H as <-. now exists dc.
  - destruct (find_id meta id) as [j|]; [|discriminate]. injection H as <-. now apply IH.
Qed.

Lemma find_id_none meta id : find_id meta id = None -> ~ In id (map fst meta).
Proof.
  induction meta as [|[x dc] meta IH]; cbn [find_id map fst]; [auto|].
  intro H. destruct (N.eqb_spec x id) as [->|Hne]; [discriminate|].
  destruct (find_id meta id); [discriminate|]. intros [E|Hin]; [congruence|]. now apply IH.
Qed.

Lemma find_id_nth meta id dc i :
  distinct (map fst meta) = true -> nth_error meta i = Some (id, dc) -> find_id meta id = Some i.
Proof.
  revert i; induction meta as [|[x d] meta IH]; intros i Hd H; [destruct i; discriminate|].
  cbn [map fst distinct] in Hd. apply andb_true_iff in Hd as [Hx Hd]. cbn [find_id].
  destruct i as [|i]; cbn [nth_error] in H.
  - injection H as <- <-. now rewrite N.eqb_refl.
  - destruct (N.eqb_spec x id) as [->|Hne].
    + exfalso. apply negb_true_iff in Hx.
      assert (existsb (N.eqb id) (map fst meta) = true); [|congruence].
      apply existsb_exists. exists id. split; [|apply N.eqb_refl].
      apply nth_error_In in H. apply in_map_iff. now exists (id, dc).
    + now rewrite (IH i).
Qed.

(** The branch selection of variants, with the local loop replaced by a lookup. *)
Lemma des_variant_eq G c data rec ik meta alts prior pos :
  des_ty G c data rec (TVariant ik meta alts) prior pos =
  match des_id c data ik pos with
  | (ROk, id, pos') =>
      match find_id meta id with
      | None => (RErr bad_message, prior, pos')
      | Some i =>
          match nth_error alts i with
          | Some t' =>
              des_inplace (match nth_error meta i with Some (_, b) => b | None => true end)
                (des_ty G c data rec t') (VAlt i) (active i prior) (dflt G t') prior pos'
          | None => (RUB, prior, pos')
          end
      end
  | (r, _, pos') => (r, prior, pos')
  end.
Proof.
  cbn [des_ty]. destruct (des_id c data ik pos) as [[[] id] pos']; try reflexivity.
  destruct (find_id meta id) as [i|]; [|reflexivity].
  set (dc := match nth_error meta i with Some (_, b) => b | None => true end).
  assert (H : forall j,
    (fix pick (l : list ty) (j : nat) {struct l} : dres :=
                   match l, j with
                   | t' :: _, O =>
                       des_inplace dc (des_ty G c data rec t') (VAlt i) (active i prior) (dflt G t') prior pos'
                   | _ :: l', S j' => pick l' j'
                   | [], _ => (RUB, prior, pos')
                   end) alts j
    = match nth_error alts j with
      | Some t' => des_inplace dc (des_ty G c data rec t') (VAlt i) (active i prior) (dflt G t') prior pos'
      | None => (RUB, prior, pos')
      end).
  { induction alts as [|t0 alts IH]; intros [|j]; try reflexivity. cbn [nth_error]. apply IH. }
  apply H.
Qed.

(** ** Byte-serializable objects *)

Lemma bsize_pos G t : wf G t = true -> bs t = true -> is_empty t = false \/ t = TEmpty -> (0 < bsize t)%nat.
Proof.
  induction t using ty_ind'; intros Hw Hb He; cbn [bs] in Hb; try discriminate; cbn [bsize]; try lia.
  - cbn [wf] in Hw. apply andb_true_iff in Hw as [Hw _]. lia.
  - rewrite !andb_true_iff in Hb. destruct Hb as [[[[[_ _] Hall] Hsum] Hne] Hnn].
    apply Nat.eqb_eq in Hsum. rewrite <- Hsum.
    cbn [wf] in Hw. rewrite !andb_true_iff in Hw. destruct Hw as [[_ Hwf] _].
    apply negb_true_iff in Hne.
    destruct ms as [|m ms]; [discriminate|].
    cbn [map sum fold_right forallb existsb] in *.
    apply andb_true_iff in Hall as [Hm _]. apply andb_true_iff in Hwf as [Hwm _].
    apply orb_false_iff in Hne as [Hem _].
    inversion H as [|? ? Hpm _]; subst. specialize (Hpm Hwm Hm (or_introl Hem)). lia.
  - cbn [wf] in Hw. apply andb_true_iff in Hw as [Hn Hw].
    assert (0 < bsize t)%nat; [|lia].
    apply IHt; auto.
    destruct t; cbn [is_empty]; auto. destruct ms; [|auto].
    cbn in Hb. rewrite !andb_false_r in Hb. discriminate.
Qed.

Lemma eibs_bs t : eibs t = true -> bs t = true.
Proof. induction t using ty_ind'; cbn [eibs bs]; intro H'; auto; discriminate. Qed.

Lemma as_bytes_bs c t : as_bytes c t = true -> bs t = true.
Proof.
  unfold as_bytes. intro H. apply orb_true_iff in H as [H|H]; [now apply eibs_bs|].
  now apply andb_true_iff in H.
Qed.

Lemma bs_not_empty_struct si ms : bs (TStruct si ms) = true -> is_empty (TStruct si ms) = false.
Proof. cbn [bs]. rewrite !andb_true_iff. intros [_ H]. now apply negb_true_iff in H. Qed.

Lemma bs_bsize_pos G t : wf G t = true -> bs t = true -> (0 < bsize t)%nat.
Proof.
  intros Hw Hb. apply (bsize_pos G t Hw Hb).
  destruct t; cbn [is_empty]; auto. left. now apply bs_not_empty_struct in Hb.
Qed.

Lemma parse_all_forall f w n l vs (P : val -> Prop) :
  (forall l v, length l = w -> f l = Some v -> P v) ->
  length l = (n * w)%nat -> parse_all f w n l = Some vs -> length vs = n /\ Forall P vs.
Proof.
  intro Hf. revert l vs; induction n as [|n IH]; intros l vs Hl H; cbn [parse_all] in H.
  - injection H as <-. auto.
  - cbn [Nat.mul] in Hl. destruct (f (firstn w l)) as [v|] eqn:Ef; [|discriminate].
    destruct (parse_all f w n (skipn w l)) as [vs'|] eqn:Ep; [|discriminate].
    injection H as <-. destruct (IH (skipn w l) vs' ltac:(rewrite skipn_length; lia) Ep) as [H1 H2].
    split; [cbn; lia|]. constructor; [|exact H2].
    apply (Hf (firstn w l)); [rewrite firstn_length; lia|exact Ef].
Qed.

Lemma parse_many_wt G f ms l vs :
  Forall (fun m => forall l v, length l = bsize m -> f m l = Some v -> wt G v m = true) ms ->
  length l = sum (map bsize ms) -> parse_many f ms l = Some vs ->
  forall2b (fun x m => wt G x m) vs ms = true.
Proof.
  intro Hf. revert l vs; induction Hf as [|m ms Hm _ IH]; intros l vs Hl H; cbn [parse_many] in H.
  - injection H as <-. reflexivity.
  - cbn [map sum fold_right] in Hl. fold (sum (map bsize ms)) in Hl.
    destruct (f m (firstn (bsize m) l)) as [v|] eqn:Ef; [|discriminate].
    destruct (parse_many f ms (skipn (bsize m) l)) as [vs'|] eqn:Ep; [|discriminate].
    injection H as <-. cbn [forall2b]. apply andb_true_iff. split.
    + apply (Hm (firstn (bsize m) l)); [rewrite firstn_length; lia|exact Ef].
    + apply (IH (skipn (bsize m) l)); [rewrite skipn_length; lia|exact Ep].
Qed.

Lemma objparse_wt G c t l v :
  bs t = true -> length l = bsize t -> objparse c t l = Some v -> wt G v t = true.
Proof.
  revert l v; induction t using ty_ind'; intros l v Hb Hl H'; cbn [bs] in Hb; try discriminate;
    cbn [objparse bsize] in *.
  - injection H' as <-. cbn [wt]. apply N.ltb_lt. rewrite <- Hl. apply hostval_lt.
  - destruct (hostval c l <? 2) eqn:E; [|discriminate]. injection H' as <-. exact E.
  - injection H' as <-. reflexivity.
  - rewrite !andb_true_iff in Hb. destruct Hb as [[[[[_ _] Hall] Hsum] _] _].
    apply Nat.eqb_eq in Hsum.
    destruct (parse_many (objparse c) ms l) as [vs|] eqn:Ep; [|discriminate].
    injection H' as <-. cbn [wt]. eapply parse_many_wt; [|rewrite Hsum; exact Hl|exact Ep].
    rewrite forallb_forall in Hall. rewrite Forall_forall in *. intros m Hin l0 v0. now apply H; auto.
  - destruct (parse_all (objparse c t) (bsize t) n l) as [vs|] eqn:Ep; [|discriminate].
    injection H' as <-. cbn [wt].
    assert (Hv : length vs = n /\ Forall (fun v => wt G v t = true) vs).
    { eapply parse_all_forall; [|exact Hl|exact Ep]. intros l0 v0 Hl0 Hp. eapply IHt; eauto. }
    destruct Hv as [H1 H2].
    rewrite H1, Nat.eqb_refl. cbn [andb]. rewrite forallb_forall. now rewrite Forall_forall in H2.
Qed.

(** Without bool members every byte pattern is an object. *)
Definition not_bool (t : ty) : bool := match t with TBool => false | _ => true end.

Lemma parse_all_some f w n l :
  (forall l, length l = w -> f l <> None) -> length l = (n * w)%nat -> parse_all f w n l <> None.
Proof.
  intro Hf. revert l; induction n as [|n IH]; intros l Hl; cbn [parse_all]; [discriminate|].
  cbn [Nat.mul] in Hl.
  destruct (f (firstn w l)) eqn:E.
  2:{ exfalso. apply (Hf (firstn w l)); [rewrite firstn_length; lia|exact E]. }
  destruct (parse_all f w n (skipn w l)) eqn:E2; [discriminate|].
  exfalso. apply (IH (skipn w l)); [rewrite skipn_length; lia|exact E2].
Qed.

Lemma objparse_some c t l :
  bs t = true -> tall not_bool t = true -> length l = bsize t -> objparse c t l <> None.
Proof.
  revert l; induction t using ty_ind'; intros l Hb Hn Hl; cbn [bs] in Hb; try discriminate;
    cbn [objparse bsize tall not_bool andb] in *; try discriminate.
  - rewrite !andb_true_iff in Hb. destruct Hb as [[[[[_ _] Hall] Hsum] _] _].
    apply Nat.eqb_eq in Hsum. rewrite <- Hsum in Hl. clear Hsum.
    assert (P : parse_many (objparse c) ms l <> None); [|destruct (parse_many _ _ _); congruence].
    revert l Hl Hall Hn; induction H as [|m ms Hm _ IH]; intros l Hl Hall Hn; cbn [parse_many]; [discriminate|].
    cbn [map sum fold_right forallb] in *. fold (sum (map bsize ms)) in Hl.
    rewrite andb_true_iff in Hall, Hn.
    destruct (objparse c m (firstn (bsize m) l)) eqn:E.
    2:{ exfalso. apply (Hm (firstn (bsize m) l)); try tauto. rewrite firstn_length. lia. }
    destruct (parse_many (objparse c) ms (skipn (bsize m) l)) eqn:E2; [discriminate|].
    exfalso. apply (IH (skipn (bsize m) l)); try tauto. rewrite skipn_length. lia.
  - assert (P : parse_all (objparse c t) (bsize t) n l <> None); [|destruct (parse_all _ _ _ _); congruence].
    apply parse_all_some; auto.
Qed.

Lemma des_bytes_eq c data t n prior pos :
  small data -> (pos <= length data)%nat ->
  des_bytes c data t n prior pos =
  if (n * bsize t =? 0)%nat then (ROk, prior, pos)
  else if (pos + n * bsize t <=? length data)%nat then
    match parse_all (objparse c t) (bsize t) n (window data pos (n * bsize t)) with
    | Some vs => (ROk, vs, (pos + n * bsize t)%nat)
    | None => (RUB, prior, pos)
    end
  else (RErr result_out_of_range, prior, pos).
Proof.
  intros H1 H2. unfold des_bytes. rewrite remaining_small by assumption.
  rewrite <- Nat2N.inj_mul.
  destruct (N.eqb_spec (N.of_nat (n * bsize t)) 0); destruct (Nat.eqb_spec (n * bsize t) 0); try lia;
    [reflexivity|].
  destruct (Nat.leb_spec (pos + n * bsize t) (length data)).
  - destruct (N.ltb_spec (N.of_nat (length data - pos)) (N.of_nat (n * bsize t))); [lia|].
    now rewrite load_some by lia.
  - destruct (N.ltb_spec (N.of_nat (length data - pos)) (N.of_nat (n * bsize t))); [reflexivity|lia].
Qed.

(** ** Default values *)

Lemma wt_dflt G t : wf_env G -> wf G t = true -> wt G (dflt G t) t = true.
Proof.
  intro HG. induction t using ty_ind'; intro Hw; cbn [dflt wt wf] in *; try reflexivity.
  - apply N.ltb_lt, pow256_pos.
  - apply N.ltb_lt, pow256_pos.
  - now rewrite !andb_true_iff in Hw.
  - apply (HG k).
  - rewrite repeat_length, Nat.eqb_refl. cbn [andb]. apply andb_true_iff in Hw as [_ Hw].
    rewrite forallb_forall. intros x Hin. apply repeat_spec in Hin. subst x. auto.
  - induction H as [|t ts Ht _ IH]; [reflexivity|]. cbn [map forall2b forallb] in *.
    apply andb_true_iff in Hw as [Hw1 Hw2]. rewrite Ht by exact Hw1. now apply IH.
  - rewrite !andb_true_iff in Hw. destruct Hw as [[[[Hl _] _] _] Hw].
    destruct alts as [|t0 alts]; [discriminate|]. cbn [nth_error forallb] in *.
    inversion H; subst. apply andb_true_iff in Hw as [Hw _]. auto.
  - now rewrite repeat_length, Nat.eqb_refl.
  - destruct k; try reflexivity. cbn [wt]. now rewrite zeros_length, Nat.eqb_refl.
Qed.

Lemma vresize_length d n l : length (vresize d n l) = n.
Proof. unfold vresize. rewrite app_length, firstn_length, repeat_length. lia. Qed.

Lemma vresize_forall (P : val -> Prop) d n l : P d -> Forall P l -> Forall P (vresize d n l).
Proof.
  intros Hd Hl. unfold vresize. apply Forall_app. split.
  - rewrite Forall_forall in *. intros x Hin. apply Hl. rewrite <- (firstn_skipn n l). apply in_or_app. now left.
  - rewrite Forall_forall. intros x Hin. apply repeat_spec in Hin. now subst.
Qed.

(** ** Associative containers *)

(** The comparison of an ordered container is a strict order on the keys of valid
    elements (a requirement of std::set / std::map, not of the library). *)
Definition cmp_ok (G : tenv) (t : ty) : Prop :=
  match t with
  | TAssoc _ k t' =>
      match a_cmp k with
      | AOrd lt =>
          (forall x, wt G x t' = true -> lt (akey k x) (akey k x) = false) /\
          (forall x y z, wt G x t' = true -> wt G y t' = true -> wt G z t' = true ->
             lt (akey k x) (akey k y) = true -> lt (akey k y) (akey k z) = true ->
             lt (akey k x) (akey k z) = true)
      | AHash _ => True
      end
  | _ => True
  end.

Fixpoint tallP (P : ty -> Prop) (t : ty) : Prop :=
  P t /\
  match t with
  | TStruct _ ts | TTuple ts | TVariant _ _ ts =>
      (fix go (l : list ty) : Prop := match l with [] => True | x :: l' => tallP P x /\ go l' end) ts
  | TArray _ t' | TVec _ _ t' | TAssoc _ _ t' | TSpan _ t'
  | TOpt _ t' | TOptPtr t' | TPtr t' => tallP P t'
  | _ => True
  end.

Lemma tallP_list P ts :
  (fix go (l : list ty) : Prop := match l with [] => True | x :: l' => tallP P x /\ go l' end) ts
  <-> Forall (tallP P) ts.
Proof.
  induction ts as [|t ts IH]; [split; auto|]. split.
  - intros [H1 H2]. constructor; tauto.
  - intro H. inversion H; subst. tauto.
Qed.

Definition tallP_env (P : ty -> Prop) (G : tenv) : Prop := forall k, Forall (tallP P) (t_mems G k).

Lemma insert_sorted_in lt key l x y : In y (insert_sorted lt key l x) <-> y = x \/ In y l.
Proof.
  induction l as [|z l IH]; cbn [insert_sorted]; [cbn; intuition congruence|].
  destruct (lt (key x) (key z)); cbn [In] in *; rewrite ?IH; intuition congruence.
Qed.

(** The same for any set [Q] of elements. *)
Definition order_ok (Q : val -> bool) (k : akind) : Prop :=
  match a_cmp k with
  | AOrd lt =>
      (forall x, Q x = true -> lt (akey k x) (akey k x) = false) /\
      (forall x y z, Q x = true -> Q y = true -> Q z = true ->
         lt (akey k x) (akey k y) = true -> lt (akey k y) (akey k z) = true ->
         lt (akey k x) (akey k z) = true)
  | AHash _ => True
  end.

Lemma assoc_insert_ok Q k l x :
  order_ok Q k -> forallb Q l && pairwise (before k) l = true -> Q x = true ->
  forallb Q (assoc_insert k l x) && pairwise (before k) (assoc_insert k l x) = true.
Proof.
  unfold order_ok. intros Hc Hl Hx.
  apply andb_true_iff in Hl as [Hl Hp].
  unfold assoc_insert.
  destruct (negb (a_multi k) && existsb (fun y => equivalent k y x) l) eqn:Eu.
  { now rewrite Hl, Hp. }
  rewrite forallb_forall in Hl.
  assert (Hne : a_multi k = false -> forall y, In y l -> equivalent k y x = false).
  { intros Hm y Hin. rewrite Hm in Eu. cbn [negb andb] in Eu.
    destruct (equivalent k y x) eqn:E; [|reflexivity].
    assert (existsb (fun y => equivalent k y x) l = true); [|congruence].
    apply existsb_exists. eauto. }
  unfold equivalent in Hne. unfold before in *.
  destruct (a_cmp k) as [lt|eqv].
  - destruct Hc as [Hirr Htr].
    apply andb_true_iff. split.
    { rewrite forallb_forall. intros y Hin. apply insert_sorted_in in Hin as [->|Hin]; auto. }
    clear Eu. induction l as [|y l IH]; [reflexivity|].
    cbn [pairwise] in Hp. apply andb_true_iff in Hp as [Hy Hp]. rewrite forallb_forall in Hy.
    assert (Hwy : Q y = true) by (apply Hl; left; reflexivity).
    cbn [insert_sorted]. destruct (lt (akey k x) (akey k y)) eqn:E.
    + assert (Hyx : lt (akey k y) (akey k x) = false).
      { destruct (lt (akey k y) (akey k x)) eqn:E2; [|reflexivity].
        pose proof (Htr x y x Hx Hwy Hx E E2). rewrite Hirr in H by exact Hx. discriminate. }
      cbn [pairwise forallb]. rewrite !andb_true_iff. repeat split.
      * rewrite E, Hyx. now destruct (a_multi k).
      * rewrite forallb_forall. intros z Hin. specialize (Hy z Hin).
        assert (Hwz : Q z = true) by (apply Hl; right; exact Hin).
        destruct (a_multi k).
        -- apply negb_true_iff in Hy. apply negb_true_iff.
           destruct (lt (akey k z) (akey k x)) eqn:E2; [|reflexivity].
           rewrite (Htr z x y Hwz Hx Hwy E2 E) in Hy. discriminate.
        -- apply andb_true_iff in Hy as [Hy1 _].
           rewrite (Htr x y z Hx Hwy Hwz E Hy1). cbn [andb]. apply negb_true_iff.
           destruct (lt (akey k z) (akey k x)) eqn:E2; [|reflexivity].
           pose proof (Htr x y z Hx Hwy Hwz E Hy1) as E3.
           pose proof (Htr x z x Hx Hwz Hx E3 E2). rewrite Hirr in H by exact Hx. discriminate.
      * rewrite forallb_forall. exact Hy.
      * exact Hp.
    + cbn [pairwise]. rewrite andb_true_iff. split.
      * rewrite forallb_forall. intros z Hin. apply insert_sorted_in in Hin as [->|Hin]; [|auto].
        rewrite E. destruct (a_multi k) eqn:Em; [reflexivity|].
        specialize (Hne eq_refl y (or_introl eq_refl)).
        rewrite E in Hne. cbn [negb] in Hne. rewrite andb_true_r in *.
        now apply negb_false_iff in Hne.
      * apply IH; auto.
        -- intros z Hin. apply Hl. right; exact Hin.
        -- intros Hm z Hin. apply Hne; [exact Hm|right; exact Hin].
  - apply andb_true_iff. split.
    { rewrite forallb_app. cbn [forallb]. rewrite Hx. cbn [andb].
      rewrite andb_true_r, forallb_forall. exact Hl. }
    clear Eu Hc. induction l as [|y l IH]; [reflexivity|].
    cbn [pairwise app] in *. apply andb_true_iff in Hp as [Hy Hp].
    rewrite forallb_app, Hy. cbn [forallb andb].
    rewrite !andb_true_iff. repeat split.
    + destruct (a_multi k) eqn:Em; [reflexivity|].
      rewrite (Hne eq_refl y (or_introl eq_refl)). reflexivity.
    + apply IH; auto.
      * intros z Hin. apply Hl. right; exact Hin.
      * intros Hm z Hin. apply Hne; [exact Hm|right; exact Hin].
Qed.

Lemma assoc_insert_wt G s k t l x :
  cmp_ok G (TAssoc s k t) -> wt G (VSeq l) (TAssoc s k t) = true -> wt G x t = true ->
  wt G (VSeq (assoc_insert k l x)) (TAssoc s k t) = true.
Proof. intros Hc Hl Hx. cbn [wt]. now apply (assoc_insert_ok (fun x => wt G x t)). Qed.
