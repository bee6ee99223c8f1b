(** C76: how much stack reading nested protobuf messages takes.  The fuel of [des_fields] counts the
    levels of messages that are entered. *)

From Coq Require Import List NArith ZArith Lia Bool Arith.
From Coq Require Import ZifyBool ZifyNat ZifyN.
From Verif Require Import Base.Bytes Model.Types Model.Machine Model.Varint Model.Out Model.In
  Model.Loops Model.Protocol Model.Pb
  Spec.Leb128 Spec.Wire Proofs.VarintP Proofs.OutP Proofs.InBase Proofs.InSafe Proofs.InRound
  Proofs.ProtoP Proofs.PbOut Proofs.PbIn Proofs.PbParse Proofs.PbRead
  Thm.Demo Thm.Output Thm.Protocol Thm.Resource Thm.Pb Thm.PbInput Thm.PbHold.
Import ListNotations.
Local Open Scope N_scope.

Ltac Zify.zify_post_hook ::= Z.div_mod_to_equations.

(** ** Enough stack *)

Section Calm.
  Variables (P : penv) (c : cfg).
  Hypothesis (HP : wf_penv P) (Hds : dsize c = SzVar 8).

  (** The read did not run out of stack, and stayed inside the data. *)
  Definition calm {A} (n pos : nat) (x : res * A * nat) : Prop :=
    match x with (r, _, p) => r <> RStack /\ (pos <= p <= n)%nat end.

  Lemma loop_calm data nums fld :
    (forall i wt x pos, (0 < pos <= length data)%nat -> calm (length data) pos (fld i wt x pos)) ->
    forall n vals pos, (pos <= length data)%nat -> (length data < n + pos)%nat ->
      calm (length data) pos (field_loop data nums fld n vals pos).
  Proof.
    intro Hf. induction n as [|n IH]; intros vals pos Hp Hn; cbn [field_loop]; [lia|].
    destruct (pos <? length data)%nat eqn:E; [|split; [discriminate|lia]].
    pose proof (varint_prog 4 false 0 data eq_refl pos Hp) as HV.
    destruct (des_varint 4 false 0 data pos) as [[r tag] pos1].
    destruct r; try contradiction; [|split; [discriminate|lia]]. destruct HV as [HV _].
    assert (HI : forall vals q, (pos1 <= q <= length data)%nat -> calm (length data) pos (field_loop data nums fld n vals q)).
    { intros vals' q Hq. specialize (IH vals' q ltac:(lia) ltac:(lia)). unfold calm in *.
      destruct (field_loop _ _ _ _ _ _) as [[r vs] p]. split; [tauto|lia]. }
    cbv zeta. destruct (index_of nums (N.shiftr tag 3)) as [i|].
    - destruct (nth_error vals i) as [x|]; [|split; [discriminate|lia]].
      specialize (Hf i (N.land tag 7) x pos1 ltac:(lia)).
      destruct (fld i (N.land tag 7) x pos1) as [[r v] pos2]. destruct Hf as [F1 F2].
      destruct r; try (split; [discriminate|lia]); [apply HI; lia|congruence].
    - destruct (N.shiftr tag 3 =? 0); [split; [discriminate|lia]|apply HI; lia].
  Qed.

  Lemma packed_calm fetch ck stop N' M :
    nprog fetch N' M ->
    forall n acc pos, (pos <= N')%nat -> (N' < n + pos)%nat ->
      calm N' pos (packed_loop fetch (cinsert ck) stop n acc pos).
  Proof.
    intro Hf. induction n as [|n IH]; intros acc pos Hp Hn; cbn [packed_loop]; [lia|].
    destruct (N.of_nat pos <? stop); [|split; [discriminate|lia]].
    specialize (Hf pos Hp). destruct (fetch pos) as [[r x] p].
    destruct r; try contradiction; [|split; [discriminate|lia]]. destruct Hf as [H1 _].
    specialize (IH (cinsert ck acc (VN x)) p ltac:(lia) ltac:(lia)). unfold calm in *.
    destruct (packed_loop _ _ _ _ _ p) as [[r v] p']. split; [tauto|lia].
  Qed.

  Lemma elems_calm data (b : bool) rec w l pos :
    small data -> wfw w = true -> (pos <= length data)%nat ->
    calm (length data) pos (des_elems c data b (des_ty no_types c data rec (scalar_ty w)) (scalar_ty w) l pos).
  Proof.
    intros Hsm Hw Hp. pose proof (elems_within c data b rec w l pos Hsm Hw Hp) as S.
    assert (HS : fst (fst (des_elems c data b (des_ty no_types c data rec (scalar_ty w)) (scalar_ty w) l pos)) <> RStack).
    { clear S. unfold des_elems, seq_res. destruct b.
      - rewrite des_bytes_eq by assumption. destruct (_ =? _)%nat; [discriminate|].
        destruct (_ <=? _)%nat; [|discriminate]. destruct (parse_all _ _ _ _); discriminate.
      - revert pos Hp. induction l as [|x l IH]; intros pos Hp; cbn [des_all]; [discriminate|].
        assert (HE : exists r y, des_ty no_types c data rec (scalar_ty w) x pos
          = if (pos + w <=? length data)%nat then (ROk, y, (pos + w)%nat) else (RErr r, y, pos)).
        { unfold scalar_ty. cbn [des_ty]. rewrite des_scalar_eq by assumption.
          destruct (pos + w <=? length data)%nat; cbn [nres]; eauto. exists result_out_of_range. eauto. }
        destruct HE as (r0 & y & ->). destruct (pos + w <=? length data)%nat eqn:E; [|discriminate].
        specialize (IH (pos + w)%nat ltac:(lia)). destruct (des_all _ l (pos + w)) as [[r l'] p]. exact IH. }
    destruct (des_elems _ _ _ _ _ _ _) as [[r v] p]. destruct v; try contradiction. split; [exact HS|apply S].
  Qed.

  Lemma scalars_calm data ck w resize fetch wt prior pos :
    small data -> wfw w = true -> (resize = true -> exists ct rv, ck = CSeq ct rv) ->
    nprog fetch (length data) (pow256 w) -> (pos <= length data)%nat ->
    calm (length data) pos (des_scalars c data ck w resize fetch wt prior pos).
  Proof.
    intros Hsm Hw Hrs Hf Hp. unfold des_scalars. destruct (negb (wt =? 2)).
    - specialize (Hf pos Hp). destruct (fetch pos) as [[r x] p].
      destruct r; try contradiction; (split; [discriminate|lia]).
    - pose proof (varint_prog 8 false 0 data eq_refl pos Hp) as HV.
      destruct (des_varint 8 false 0 data pos) as [[r len] p].
      destruct r; try contradiction; [|split; [discriminate|lia]]. destruct HV as [HV _].
      destruct resize.
      + destruct (Hrs eq_refl) as (ct & rv & ->).
        destruct (match alim c with Some lim => lim <? len | None => false end); [split; [discriminate|lia]|].
        cbv zeta. destruct (_ || _); [|split; [discriminate|lia]]. cbn [unsized_ty des_ty sz_of as_seq].
        pose proof (elems_calm data (as_bytes c (scalar_ty w) && ct) (fun _ p pos => (RUB, p, pos)) w
          (vresize (VN 0) (N.to_nat (len / N.of_nat w)) (as_seq prior)) p Hsm Hw ltac:(lia)) as S.
        unfold calm in *. destruct (des_elems _ _ _ _ _ _ _) as [[r v] p']. split; [tauto|lia].
      + destruct (reserve_ok c ck len (as_seq prior)); [|split; [discriminate|lia]].
        pose proof (packed_calm fetch ck (wadd len (N.of_nat p)) (length data) (pow256 w)
          Hf (S (length data)) (as_seq prior) p ltac:(lia) ltac:(lia)) as S.
        unfold calm in *. destruct (packed_loop _ _ _ _ _ p) as [[r v] p']. split; [tauto|lia].
  Qed.

  (** A nested message; the tag took one byte, and the size takes at least one more. *)
  Lemma nested_calm data fields s prior pos m :
    small data -> wfsz (Some s) = true -> (pos <= length data)%nat ->
    (forall sub vals, (length sub + m <= length data - pos)%nat -> small sub ->
       calm (length sub) 0 (fields sub vals)) ->
    (s = SzNone -> m = O) ->
    (forall p n q, des_size c data s p = (ROk, n, q) -> (p <= length data -> p + m <= q)%nat) ->
    calm (length data) pos (des_protocol c data s (des_nested data fields) prior pos).
  Proof.
    intros Hsm Hs Hp Hf H0 Hm.
    assert (HN : forall size p, (pos + m <= p <= length data)%nat ->
      calm (length data) pos (des_nested data fields size prior p)).
    { intros size p Hpp. unfold des_nested, rest_of. replace (p <=? length data)%nat with true by lia.
      cbv zeta. set (n := match size with Some _ => _ | None => _ end).
      assert (Hl : (length (firstn n (skipn p data)) <= length data - p)%nat)
        by (rewrite firstn_length, skipn_length; lia).
      specialize (Hf (firstn n (skipn p data)) (as_seq prior) ltac:(lia) ltac:(unfold small in *; lia)).
      destruct (fields _ (as_seq prior)) as [[r vs] q]. destruct Hf as [F1 F2].
      destruct r; try (split; [discriminate|lia]). congruence. }
    unfold des_protocol. pose proof (des_size_le c data s pos Hs Hsm Hp) as HS.
    specialize (Hm pos).
    destruct s as [|w|w]; [rewrite (H0 eq_refl) in *; apply HN; lia| |];
      (destruct (des_size c data _ pos) as [[r n] p];
       destruct r; try contradiction;
       [apply HN; specialize (Hm n p eq_refl Hp); lia|split; [discriminate|lia]]).
  Qed.

  Lemma size_some data : forall p n q, des_size c data (SzVar 8) p = (ROk, n, q) -> (p <= length data -> p + 1 <= q)%nat.
  Proof.
    intros p n q E H. cbn [des_size] in E. pose proof (varint_prog 8 false 0 data eq_refl p H) as V.
    rewrite E in V. lia.
  Qed.

  Section Field.
    Variables (rec : nat -> list byte -> list val -> res * list val * nat) (L : nat).
    Hypothesis Hrec : forall k sub vals, (length sub + 2 <= L)%nat -> small sub ->
      calm (length sub) 0 (rec k sub vals).

    Lemma field_calm t : wfp t = true ->
      forall data, small data -> (length data <= L)%nat -> forall wt x pos, (0 < pos <= length data)%nat ->
      calm (length data) pos (des_field P c rec t data wt x pos).
    Proof.
      induction t as [w| | |w sg zz| |k|ck w|ck w sg zz|ck contig w|ck k|ak kt IHk vt IHv|m w];
        cbn [wfp]; intros Hwf data Hsm HL wt prior pos Hp; cbn [des_field].
      - pose proof (scalar_prog c w (vnum prior) data ltac:(lia) Hsm pos ltac:(lia)) as S.
        destruct (des_scalar c data w (vnum prior) pos) as [[r x] p]. cbn [nres].
        destruct r; try contradiction; (split; [discriminate|lia]).
      - pose proof (scalar_prog c 1 0 data ltac:(lia) Hsm pos ltac:(lia)) as S.
        destruct (des_scalar c data 1 0 pos) as [[r x] p].
        destruct r; try contradiction; [destruct (x <? 2)|]; (split; [discriminate|lia]).
      - pose proof (varint_prog 1 false (vnum prior) data eq_refl pos ltac:(lia)) as S.
        destruct (des_varint 1 false (vnum prior) data pos) as [[r x] p]. cbn [nres].
        destruct r; try contradiction; (split; [discriminate|lia]).
      - pose proof (varint_prog w zz (vnum prior) data Hwf pos ltac:(lia)) as S.
        destruct (des_varint w zz (vnum prior) data pos) as [[r x] p]. cbn [nres].
        destruct r; try contradiction; (split; [discriminate|lia]).
      - split; [discriminate|lia].
      - rewrite Hds. apply (nested_calm data (rec k) (SzVar 8) prior pos 1); auto; [lia| |discriminate|apply size_some].
        intros sub vals Hl. apply Hrec. lia.
      - apply scalars_calm; auto; [destruct ck; [eauto|discriminate]| |lia].
        apply scalar_prog; auto. pose proof (wfw_pos _ Hwf). lia.
      - apply scalars_calm; auto; [discriminate|now apply varint_prog|lia].
      - assert (S : calm (length data) pos
          (des_ty no_types c data (fun _ p pos => (RUB, p, pos)) (TVec None contig (scalar_ty w)) (VSeq []) pos)).
        { cbn [des_ty sz_of as_seq]. rewrite Hds.
          pose proof (des_size_le c data (SzVar 8) pos eq_refl Hsm ltac:(lia)) as HS.
          destruct (des_size c data _ pos) as [[r n] p]; destruct r; try contradiction;
            [|split; [discriminate|lia]].
          unfold vec_resize. destruct (over_limit _ _ _); [split; [discriminate|lia]|].
          destruct (_ || _); [|split; [discriminate|lia]].
          set (l1 := vresize _ _ _).
          pose proof (elems_calm data (as_bytes c (scalar_ty w) && contig) (fun _ p pos => (RUB, p, pos))
            w l1 p Hsm Hwf ltac:(lia)) as S.
          unfold calm in *. destruct (des_elems _ _ _ _ _ _ _) as [[r v] p']. split; [tauto|lia]. }
        unfold calm, add_object in *.
        destruct (des_ty _ _ _ _ _ _ _) as [[r v] p]. destruct r; try (split; [discriminate|tauto]). tauto.
      - rewrite Hds.
        pose proof (nested_calm data (rec k) (SzVar 8) (VSeq (m_dflt (P k))) pos 1 Hsm eq_refl ltac:(lia)
          ltac:(intros sub vals Hl; apply Hrec; lia) ltac:(discriminate) (size_some data)) as S.
        unfold calm, add_object in *. destruct (des_protocol _ _ _ _ _ _) as [[r v] p].
        destruct r; try (split; [discriminate|tauto]). tauto.
      - apply andb_true_iff in Hwf as [Hwk Hwv]. rewrite Hds.
        pose proof (nested_calm data
          (fun sub vals =>
             field_loop sub [1; 2]
               (fun i => match i with O => des_field P c rec kt sub | S _ => des_field P c rec vt sub end)
               (S (length sub)) (clear_members [kt; vt] vals) 0)
          (SzVar 8) (VSeq [pdflt P kt; pdflt P vt]) pos 1 Hsm eq_refl ltac:(lia)) as W.
        match type of W with ?A -> _ => assert (Hf : A) end.
        { intros sub vals Hl Hss. apply loop_calm; [|lia|lia].
          intros [|i] wt' x pos' Hp'; [apply IHk|apply IHv]; auto; lia. }
        specialize (W Hf ltac:(discriminate) (size_some data)).
        unfold calm, add_object in *. destruct (des_protocol _ _ _ _ _ _) as [[r v] p].
        destruct r; try (split; [discriminate|tauto]). tauto.
      - apply andb_true_iff in Hwf as [Hm Hw]. cbn [des_ty]. apply elems_calm; auto. lia.
    Qed.
  End Field.

  Lemma fields_calm fuel : forall k data vals, small data -> (length data < 2 * fuel)%nat ->
    calm (length data) 0 (des_fields P c fuel k data vals).
  Proof.
    induction fuel as [|f IH]; intros k data vals Hsm Hl; [lia|]. cbn [des_fields].
    apply loop_calm; [|lia|lia]. intros i wt x pos Hp.
    destruct (nth_error (m_fields (P k)) i) as [fd|] eqn:E; [|split; [discriminate|lia]].
    apply (field_calm (des_fields P c f) (length data)); auto.
    - intros k' sub vals' Hs' Hss. apply IH; [exact Hss|lia].
    - specialize (HP k). unfold wf_pmsg in HP. rewrite !andb_true_iff in HP.
      destruct HP as [[[[[H _] _] _] _] _]. rewrite forallb_forall in H. apply H. eapply nth_error_In, E.
  Qed.
End Calm.

(** C76: a message is entered at most once for every two bytes: half as many levels of stack as
    there are bytes, and one for the message itself, are enough. *)
Theorem pb_stack_sufficient P c data fuel s k prior pos r v p :
  wf_penv P -> wfsz (Some s) = true -> small data -> (pos <= length data)%nat ->
  (length data - pos < 2 * fuel)%nat ->
  des_pb_item P c data fuel s k prior pos = (r, v, p) -> r <> RStack.
Proof.
  intros HP Hs Hsm Hp Hl E.
  assert (W : calm (length data) pos (des_pb_item P c data fuel s k prior pos)).
  { unfold des_pb_item. apply (nested_calm c data (des_fields P (pb_icfg c) fuel k) s prior pos 0); auto.
    - intros sub vals Hs' Hss. apply fields_calm; auto. lia.
    - intros q n q' E' Hq. pose proof (des_size_le c data s q Hs Hsm Hq) as S. rewrite E' in S. lia. }
  rewrite E in W. apply W.
Qed.

(** ** More stack *)

Definition less {A} (x y : res * A * nat) : Prop := fst (fst x) = RStack \/ y = x.

Section More.
  Variables (P : penv) (c : cfg).

  Lemma loop_less data nums fld fld' :
    (forall i wt x pos, less (fld i wt x pos) (fld' i wt x pos)) ->
    forall n vals pos, less (field_loop data nums fld n vals pos) (field_loop data nums fld' n vals pos).
  Proof.
    intro Hf. induction n as [|n IH]; intros vals pos; cbn [field_loop];
      (destruct (pos <? length data)%nat; [|now right]); [now right|].
    destruct (des_varint 4 false 0 data pos) as [[r tag] pos1]. destruct r; try now right.
    cbv zeta. destruct (index_of nums (N.shiftr tag 3)) as [i|].
    - destruct (nth_error vals i) as [x|]; [|now right].
      destruct (Hf i (N.land tag 7) x pos1) as [H| ->].
      + destruct (fld i (N.land tag 7) x pos1) as [[r v] pos2]. cbn in H. subst r. now left.
      + destruct (fld i (N.land tag 7) x pos1) as [[r v] pos2]. destruct r; try now right. apply IH.
    - destruct (N.shiftr tag 3 =? 0); [now right|apply IH].
  Qed.

  Lemma nested_less data s fields fields' prior pos :
    (forall sub vals, less (fields sub vals) (fields' sub vals)) ->
    less (des_protocol c data s (des_nested data fields) prior pos)
      (des_protocol c data s (des_nested data fields') prior pos).
  Proof.
    intro Hf.
    assert (HN : forall size p, less (des_nested data fields size prior p) (des_nested data fields' size prior p)).
    { intros size p. unfold des_nested. destruct (rest_of data p) as [rest|]; [|now right]. cbv zeta.
      match goal with |- context [fields ?s ?v] => destruct (Hf s v) as [H| ->] end; [|now right].
      destruct (fields _ _) as [[r vs] q]. cbn in H. subst r. now left. }
    unfold des_protocol. destruct s; [apply HN| |];
      (destruct (des_size c data _ pos) as [[r n] p]; destruct r; try (now right); apply HN).
  Qed.

  Lemma add_less ins prior x y : less x y -> less (add_object ins prior x) (add_object ins prior y).
  Proof.
    intros [H| ->]; [|now right]. destruct x as [[r v] p]. cbn in H. subst r. now left.
  Qed.

  Lemma field_less rec rec' t :
    (forall k sub vals, less (rec k sub vals) (rec' k sub vals)) ->
    forall data wt x pos, less (des_field P c rec t data wt x pos) (des_field P c rec' t data wt x pos).
  Proof.
    intro Hr.
    induction t as [w| | |w sg zz| |k|ck w|ck w sg zz|ck contig w|ck k|ak kt IHk vt IHv|m w];
      intros data wt prior pos; cbn [des_field]; try now right.
    - apply nested_less. auto.
    - apply add_less, nested_less. auto.
    - apply add_less, nested_less. intros sub vals. apply loop_less. intros [|i] wt' x p; auto.
  Qed.

  Lemma fields_less f : forall f', (f <= f')%nat ->
    forall k data vals, less (des_fields P c f k data vals) (des_fields P c f' k data vals).
  Proof.
    induction f as [|f IH]; intros f' Hf k data vals; [now left|].
    destruct f' as [|f']; [lia|]. cbn [des_fields]. apply loop_less. intros i wt x pos.
    destruct (nth_error (m_fields (P k)) i) as [fd|]; [|now right].
    apply field_less. intros. apply IH. lia.
  Qed.
End More.

(** C76: more stack never changes a result other than running out of it. *)
Theorem pb_more_stack_same P c data f f' s k prior pos :
  (f <= f')%nat -> fst (fst (des_pb_item P c data f s k prior pos)) <> RStack ->
  des_pb_item P c data f' s k prior pos = des_pb_item P c data f s k prior pos.
Proof.
  intros Hf Hr.
  destruct (nested_less c data s (des_fields P (pb_icfg c) f k) (des_fields P (pb_icfg c) f' k) prior pos) as [H|H].
  - intros sub vals. now apply fields_less.
  - contradiction.
  - exact H.
Qed.

(** Hence the outcome does not depend on the stack, once there is half a level per byte. *)
Theorem pb_stack_immaterial P c data f f' s k prior pos :
  wf_penv P -> wfsz (Some s) = true -> small data -> (pos <= length data)%nat ->
  (length data - pos < 2 * f)%nat -> (length data - pos < 2 * f')%nat ->
  des_pb_item P c data f s k prior pos = des_pb_item P c data f' s k prior pos.
Proof.
  intros HP Hs Hsm Hp H1 H2. destruct (le_ge_dec f f') as [H|H]; [symmetry|];
    (apply pb_more_stack_same; [exact H|]);
    (destruct (des_pb_item _ _ _ _ _ _ _ _) as [[r v] p] eqn:E; apply (pb_stack_sufficient _ _ _ _ _ _ _ _ _ _ _ HP Hs Hsm Hp) in E; auto).
Qed.

(** ** No limit *)

(** message Tree { repeated Tree children = 1; }  -- struct tree { std::vector<tree> children; } *)
Definition tree_env : penv := fun _ => mkPmsg [(None, PMsgs (CSeq true None) 0)] [] [VSeq []].

(** A tree with one branch of n nodes below the root, and its encoding. *)
Fixpoint branch (n : nat) : val :=
  match n with O => VSeq [VSeq []] | S n' => VSeq [VSeq [branch n']] end.
Fixpoint branch_bytes (n : nat) : list byte :=
  match n with
  | O => []
  | S n' => let b := branch_bytes n' in x0a :: leb128 (N.of_nat (length b)) ++ b
  end.

Lemma branch_bytes_length n : N.of_nat (11 * n) < 2 ^ 64 -> (2 * n <= length (branch_bytes n) <= 11 * n)%nat.
Proof.
  induction n as [|n IH]; intro H; [cbn; lia|]. specialize (IH ltac:(lia)).
  cbn [branch_bytes length]. cbv zeta. cbn [length]. rewrite app_length.
  pose proof (leb128_nonempty (N.of_nat (length (branch_bytes n)))).
  pose proof (leb128_max 8 (N.of_nat (length (branch_bytes n))) eq_refl) as M.
  change (pow256 8) with (2 ^ 64) in M. change (varint_max_size 8) with 10%nat in M.
  specialize (M ltac:(lia)). lia.
Qed.

Lemma branch_read c n : forall fuel vals, dsize c = SzVar 8 -> length vals = 1%nat ->
  N.of_nat (11 * n) < 2 ^ 63 ->
  ((fuel <= n)%nat -> fst (fst (des_fields tree_env c fuel 0 (branch_bytes n) vals)) = RStack)
  /\ ((n < fuel)%nat -> des_fields tree_env c fuel 0 (branch_bytes n) vals
        = (ROk, as_seq (branch n), length (branch_bytes n))).
Proof.
  induction n as [|n IH]; intros fuel vals Hds Hv Hn.
  - split; intro Hf.
    + replace fuel with O by lia. reflexivity.
    + destruct fuel as [|f]; [lia|]. destruct vals as [|x [|]]; try discriminate. reflexivity.
  - destruct fuel as [|f]; [split; intro; [reflexivity|lia]|].
    pose proof (branch_bytes_length n ltac:(lia)) as HL.
    set (b := branch_bytes n) in *. set (len := leb128 (N.of_nat (length b))).
    assert (Eb : branch_bytes (S n) = x0a :: len ++ b) by reflexivity. rewrite Eb.
    set (data := x0a :: len ++ b).
    assert (EL : length data = S (length len + length b)) by (unfold data; cbn [length]; now rewrite app_length).
    destruct vals as [|x [|]]; try discriminate.
    cbn [des_fields]. cbn [tree_env m_fields map snd].
    change (clear_members [PMsgs (CSeq true None) 0] [x]) with [VSeq []].
    change (numbers _) with [1].
    assert (E1 : des_varint 4 false 0 data 0 = (ROk, 10, 1%nat)).
    { apply (varint4_has data 0 10 eq_refl). apply (has_at_mid [] [x0a] (len ++ b)). }
    assert (E2 : des_varint 8 false 0 data 1 = (ROk, N.of_nat (length b), S (length len))).
    { apply (varint8_has data 1 (N.of_nat (length b))).
      - change (pow256 8) with (2 ^ 64). lia.
      - apply (has_at_mid [x0a] len b). }
    rewrite EL. cbn [field_loop]. replace (0 <? length data)%nat with true by lia.
    rewrite E1. change (N.shiftr 10 3) with 1. change (N.land 10 7) with 2.
    change (index_of [1] 1) with (Some O). cbn [nth_error snd des_field].
    rewrite Hds. unfold des_protocol. cbn [des_size]. rewrite E2.
    unfold des_nested, rest_of. replace (S (length len) <=? length data)%nat with true by lia.
    assert (ES : skipn (S (length len)) data = b).
    { unfold data. cbn [skipn]. now rewrite skipn_app, skipn_all, Nat.sub_diag. }
    rewrite ES. rewrite N.min_id, Nat2N.id, firstn_all. cbv zeta.
    change (as_seq (VSeq (m_dflt (tree_env O)))) with [VSeq []].
    destruct (IH f [VSeq []] Hds eq_refl ltac:(lia)) as [I1 I2]. fold b in I1, I2.
    split; intro Hf.
    + specialize (I1 ltac:(lia)). destruct (des_fields tree_env c f 0 b [VSeq []]) as [[r vs] p].
      cbn in I1. subst r. reflexivity.
    + rewrite (I2 ltac:(lia)). unfold add_object, cinsert. cbn [as_seq app set_nth].
      replace (length len + length b)%nat with (S (length len + length b - 1))
        by (pose proof (leb128_nonempty (N.of_nat (length b))) as Q; fold len in Q; lia).
      assert (EX : VSeq (as_seq (branch n)) = branch n) by (destruct n; reflexivity).
      cbn [field_loop]. replace (S (length len) + length b <? length data)%nat with false by lia.
      rewrite EX. f_equal. pose proof (leb128_nonempty (N.of_nat (length b))) as Q. fold len in Q. lia.
Qed.

(** C76: the parser has no limit of the depth: whatever the stack, a message of at most eleven
    bytes per level exhausts it, although it is a correct encoding that is read given enough. *)
Theorem pb_no_depth_limit c depth :
  N.of_nat (11 * depth) < 2 ^ 63 ->
  let data := branch_bytes depth in
  (2 * depth <= length data <= 11 * depth)%nat
  /\ (forall fuel, (fuel <= depth)%nat ->
       fst (fst (des_pb_item tree_env c data fuel SzNone 0 (VSeq [VSeq []]) 0)) = RStack)
  /\ (forall fuel, (depth < fuel)%nat ->
       des_pb_item tree_env c data fuel SzNone 0 (VSeq [VSeq []]) 0 = (ROk, branch depth, length data)).
Proof.
  intros Hd data. split; [apply branch_bytes_length; lia|].
  assert (E : forall fuel, des_pb_item tree_env c data fuel SzNone 0 (VSeq [VSeq []]) 0
    = match des_fields tree_env (pb_icfg c) fuel 0 data [VSeq []] with
      | (RThrow, vs, _) => (RThrow, VSeq vs, O)
      | (r, vs, p) => (r, VSeq vs, p)
      end).
  { intro fuel. unfold des_pb_item, des_protocol, des_nested, rest_of. cbn [Nat.leb skipn]. cbv zeta.
    now rewrite firstn_all. }
  split; intros fuel Hf; rewrite E; destruct (branch_read (pb_icfg c) depth fuel [VSeq []] eq_refl eq_refl Hd) as [H1 H2].
  - specialize (H1 Hf). fold data in H1. destruct (des_fields _ _ _ _ _ _) as [[r vs] p]. cbn in H1. subst r. reflexivity.
  - specialize (H2 Hf). fold data in H2. rewrite H2. f_equal. f_equal. destruct depth; reflexivity.
Qed.

(** The library writes this message; shallow ones take two bytes per level, so that
    [pb_stack_sufficient] cannot be improved: of ten bytes, five levels of stack are too little,
    six are enough. *)
Example pb_stack_attained :
  wf_penv tree_env /\
  (exists st', ser_pb_item tree_env vec_cfg SzNone 0 (as_seq (branch 5)) (mkO [] 0) = (ROk, st')
               /\ firstn (opos st') (obuf st') = branch_bytes 5) /\
  branch_bytes 5 = [x0a; x08; x0a; x06; x0a; x04; x0a; x02; x0a; x00] /\
  (length (branch_bytes 5) < 2 * 6)%nat /\
  map (fun fuel => fst (fst (des_pb_item tree_env vec_cfg (branch_bytes 5) fuel SzNone 0 (VSeq [VSeq []]) 0)))
    [5%nat; 6%nat] = [RStack; ROk].
Proof.
  split; [intro k; vm_compute; reflexivity|].
  split; [eexists; split; vm_compute; reflexivity|].
  split; [vm_compute; reflexivity|]. split; [vm_compute; lia|]. vm_compute. reflexivity.
Qed.

(** A thousand levels, each with a size of two bytes once past 127. *)
Example pb_no_depth_limit_nontrivial :
  N.of_nat (11 * 1000) < 2 ^ 63 /\ length (branch_bytes 1000) = 2936%nat.
Proof. split; vm_compute; reflexivity. Qed.
