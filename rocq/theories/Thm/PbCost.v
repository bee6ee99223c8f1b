(** C75: the work of reading a protobuf message, compared to the bytes it consumes. *)

From Coq Require Import List NArith ZArith Lia Bool Arith.
From Coq Require Import ZifyBool ZifyNat ZifyN.
From Verif Require Import Base.Bytes Model.Types Model.Machine Model.Varint Model.Out Model.In
  Model.Loops Model.Protocol Model.Pb Model.Cost Model.PbCost
  Spec.Leb128 Spec.Wire Proofs.VarintP Proofs.OutP Proofs.InBase Proofs.InSafe Proofs.InRound
  Proofs.ProtoP Proofs.PbOut Proofs.PbIn Proofs.PbParse Proofs.PbRead
  Thm.Demo Thm.Output Thm.Protocol Thm.Resource Thm.Pb Thm.PbInput Thm.PbHold.
Import ListNotations.
Local Open Scope N_scope.

Ltac Zify.zify_post_hook ::= Z.div_mod_to_equations.

(** ** Statement *)

(** The schema is bounded by [B]: the number of members of a message, and the bytes of the objects
    created for a record.  Elements that reserve is asked for have a size. *)
Definition has_size (ck : ckind) : Prop :=
  match ck with CSeq _ (Some b) | CSet _ (Some b) => 0 < b | _ => True end.

Fixpoint modest (obj : pty -> N) (B : N) (t : pty) : Prop :=
  match t with
  | PFixes ck _ | PVars ck _ _ _ => has_size ck
  | PStrs _ _ _ => obj t <= B
  | PMsg k | PMsgs _ k => obj (PMsg k) <= B
  | PMap _ kt vt => obj kt + obj vt <= B /\ modest obj B kt /\ modest obj B vt
  | _ => True
  end.

Definition modest_env (P : penv) (obj : pty -> N) (B : N) : Prop :=
  forall k, N.of_nat (length (m_fields (P k))) <= B
    /\ forall fd, In fd (m_fields (P k)) -> modest obj B (snd fd).

(** ** Proofs *)

(** The numbers in a container of numbers: what a reserve that fails may have moved for nothing. *)
Definition stock (v : val) (t : pty) : nat :=
  match t with PFixes _ _ | PVars _ _ _ _ => length (as_seq v) | _ => O end.

Lemma stock_cleared ts vals : sum2 stock (clear_members ts vals) ts = O.
Proof.
  revert vals. induction ts as [|t ts IH]; intros [|v vals]; cbn [clear_members sum2]; auto.
  rewrite IH. destruct t; reflexivity.
Qed.

Lemma numbers_length mp fs : forall j, length (numbers_from mp j fs) = length fs.
Proof. induction fs as [|fd fs IH]; intro j; cbn [numbers_from length]; [reflexivity|]. now rewrite IH. Qed.

Section Bound.
  Variables (P : penv) (c : cfg) (obj : pty -> N) (B : N).
  Hypothesis (HP : wf_penv P) (HM : modest_env P obj B) (Hds : wfsz (Some (dsize c)) = true).
  Hypothesis (Hdv : dsize c <> SzNone).

  Notation C := (2 * B + 6).
  Variable R : N.
  Hypothesis HR : R = 3 * B + 9.

  Lemma rate x : 9 * x <= R * x.
  Proof. apply N.mul_le_mono_r. lia. Qed.

  Lemma rate_some x : 1 <= x -> 1 + B + C + x <= R * x.
  Proof. intro H. rewrite HR. nia. Qed.

  Lemma rate_split (a b d : nat) : (a <= b <= d)%nat -> R * N.of_nat (d - a) = R * N.of_nat (b - a) + R * N.of_nat (d - b).
  Proof. intro H. rewrite <- N.mul_add_distr_l. f_equal. lia. Qed.

  Definition brief (data : list byte) : Prop := N.of_nat (length data) < 2 ^ 63.

  Lemma brief_small data : brief data -> small data.
  Proof. unfold brief, small. change (2 ^ 64) with 18446744073709551616. change (2 ^ 63) with 9223372036854775808. lia. Qed.

  (** [w]: the work of a read from [pos] to [p] in [n] bytes with outcome [r]; [before] and [have]:
      the stock of the target. *)
  Definition cost (C : N) (n pos : nat) (before : nat) (w : N) (r : res) (have p : nat) : Prop :=
    (pos <= p <= n)%nat
    /\ (r = ROk -> w + N.of_nat have <= N.of_nat before + C + R * N.of_nat (p - pos))
    /\ (forall L, alim c = Some L -> w <= N.of_nat before + C + R * N.of_nat (n - pos) + L).

  Lemma cost_free k n pos before r have p w :
    (pos <= p <= n)%nat -> w <= k -> (r = ROk -> (have <= before)%nat) -> cost k n pos before w r have p.
  Proof.
    intros H1 H2 H3. pose proof (rate (N.of_nat (p - pos))). pose proof (rate (N.of_nat (n - pos))).
    split; [exact H1|]. split; [intro E; specialize (H3 E); lia|]. intros L _. lia.
  Qed.

  Lemma cost_leaf n pos r p : (pos <= p <= n)%nat -> cost C n pos 0 (1 + N.of_nat (p - pos)) r 0 p.
  Proof.
    intro H. pose proof (rate (N.of_nat (p - pos))). pose proof (rate_split pos p n H).
    pose proof (rate (N.of_nat (n - p))).
    split; [exact H|]. split; [intros _; lia|]. intros L _. lia.
  Qed.

  Lemma loop_cost data nums ts fld fldw :
    N.of_nat (length nums) <= B ->
    (forall i n, nth_error nums i = Some n -> nth_error ts i <> None) ->
    (forall i t wt x pos, nth_error ts i = Some t -> (0 < pos <= length data)%nat ->
       let '(r, v, p) := fld i wt x pos in
       cost C (length data) pos (stock x t) (fldw i wt x pos) r (stock v t) p) ->
    forall n vals pos, (pos <= length data)%nat ->
      let '(r, vs, p) := field_loop data nums fld n vals pos in
      cost 0 (length data) pos (sum2 stock vals ts) (loop_work data nums fld fldw n vals pos)
        r (sum2 stock vs ts) p.
  Proof.
    intros HB Hn Hf. induction n as [|n IH]; intros vals pos Hp; cbn [field_loop loop_work].
    { destruct (pos <? length data)%nat; apply cost_free; try lia; auto. }
    destruct (pos <? length data)%nat eqn:E; [|apply cost_free; try lia; auto].
    pose proof (varint_prog 4 false 0 data eq_refl pos Hp) as HV.
    destruct (des_varint 4 false 0 data pos) as [[r tag] pos1]. unfold past. cbn [snd].
    destruct r; try (exfalso; exact HV);
      [|subst pos1; split; [lia|]; split; [discriminate|]; intros L HL; pose proof (rate_some (N.of_nat (length data - pos)) ltac:(lia)); lia].
    destruct HV as [HV _]. cbv zeta.
    pose proof (rate_some (N.of_nat (pos1 - pos)) ltac:(lia)) as HT.
    pose proof (rate_split pos pos1 (length data) ltac:(lia)) as HS.
    pose proof (rate (N.of_nat (length data - pos1))) as HQ.
    destruct (index_of nums (N.shiftr tag 3)) as [i|] eqn:Ei.
    - apply index_of_lt in Ei. pose proof (Hn _ _ Ei) as Ht.
      assert (Hi : (i < length nums)%nat) by (apply nth_error_Some; congruence).
      destruct (nth_error ts i) as [t|] eqn:Et; [|congruence].
      destruct (nth_error vals i) as [x|] eqn:Ex.
      2:{ split; [lia|]. split; [discriminate|]. intros L HL. lia. }
      specialize (Hf i t (N.land tag 7) x pos1 Et ltac:(lia)).
      destruct (fld i (N.land tag 7) x pos1) as [[r v] pos2].
      destruct Hf as (F1 & F2 & F3).
      set (w := fldw i (N.land tag 7) x pos1) in *. clearbody w.
      pose proof (sum2_set stock vals ts i x t v Ex Et) as HX.
      destruct r;
        try (split; [lia|]; split; [intro; discriminate|intros L HL; specialize (F3 L HL)];
             assert (stock x t <= sum2 stock vals ts)%nat
               by (pose proof (sum2_set stock vals ts i x t (VSeq []) Ex Et);
                   assert (stock (VSeq []) t = 0)%nat by (destruct t; reflexivity); lia);
             lia).
      specialize (IH (set_nth i v vals) pos2 ltac:(lia)). specialize (F2 eq_refl).
      set (w' := loop_work _ _ _ _ _ _ _) in *. clearbody w'.
      destruct (field_loop _ _ _ _ _ _) as [[r' vs] p]. destruct IH as (I1 & I2 & I3).
      split; [lia|].
      split.
      + intro H. specialize (I2 H).
        rewrite (rate_split pos pos1 p), (rate_split pos1 pos2 p) by lia. lia.
      + intros L HL. specialize (I3 L HL).
        rewrite HS, (rate_split pos1 pos2 (length data)) by lia. lia.
    - destruct (N.shiftr tag 3 =? 0).
      { split; [lia|]. split; [discriminate|]. intros L HL. lia. }
      specialize (IH vals pos1 ltac:(lia)).
      set (w' := loop_work _ _ _ _ _ _ _) in *. clearbody w'.
      destruct (field_loop _ _ _ _ _ _) as [[r' vs] p]. destruct IH as (I1 & I2 & I3).
      split; [lia|]. split.
      + intro H. specialize (I2 H).
        rewrite (rate_split pos pos1 p) by lia. lia.
      + intros L HL. specialize (I3 L HL). rewrite HS. lia.
  Qed.

  Lemma no_wrap len b p n : 0 < b -> len * b < 2 ^ 63 -> p <= n -> n < 2 ^ 63 -> len + p < 2 ^ 64.
  Proof.
    change (2 ^ 64) with 18446744073709551616. change (2 ^ 63) with 9223372036854775808.
    intros H1 H2 H3 H4.
    assert (len <= len * b) by (rewrite <- (N.mul_1_r len) at 1; apply N.mul_le_mono_l; lia). lia.
  Qed.

  (** The elements of a packed record; [moved]: what reserve has moved. *)
  Lemma packed_cost fetch ck stop N' M :
    nprog fetch N' M -> stop < 2 ^ 64 ->
    forall n acc pos, (pos <= N')%nat -> (N' < n + pos)%nat ->
      match packed_loop fetch (cinsert ck) stop n acc pos with
      | (r, VSeq l, p) =>
          (pos <= p <= N')%nat
          /\ packed_work fetch stop n pos <= 1 + 3 * N.of_nat (p - pos)
          /\ (length l <= length acc + (p - pos))%nat
          /\ (r = ROk -> stop <= N.of_nat p)
      | _ => False
      end.
  Proof.
    intros Hf Hst. induction n as [|n IH]; intros acc pos Hp Hn; cbn [packed_loop packed_work]; [lia|].
    destruct (N.of_nat pos <? stop) eqn:E; [|repeat split; lia].
    specialize (Hf pos Hp). unfold past. destruct (fetch pos) as [[r x] p]. cbn [snd].
    destruct r; try (exfalso; exact Hf); [|subst p; repeat split; try lia; discriminate].
    destruct Hf as [H1 _].
    specialize (IH (cinsert ck acc (VN x)) p ltac:(lia) ltac:(lia)).
    pose proof (cinsert_length ck acc (VN x)) as HC.
    destruct (packed_loop _ _ _ _ _ p) as [[r v] p']. destruct v; try exact IH.
    destruct IH as (I1 & I2 & I3 & I4). repeat split; try lia.
  Qed.

  (** The elements of a container already sized. *)
  Lemma elems_cost data (b : bool) rec recw w l pos :
    small data -> wfw w = true -> (pos <= length data)%nat ->
    work_elems no_types c data rec b (work_ty no_types c data rec recw (scalar_ty w)) (scalar_ty w) l pos
    <= 1 + 2 * N.of_nat (snd (des_elems c data b (des_ty no_types c data rec (scalar_ty w)) (scalar_ty w) l pos) - pos).
  Proof.
    intros Hsm Hw Hp. unfold work_elems, des_elems. destruct b.
    - unfold past, seq_res. destruct (des_bytes _ _ _ _ _ _) as [[r l'] p]. cbn [snd]. lia.
    - unfold seq_res.
      assert (H : forall l pos, (pos <= length data)%nat ->
        work_all (work_ty no_types c data rec recw (scalar_ty w)) (des_ty no_types c data rec (scalar_ty w)) l pos
        <= 1 + 2 * N.of_nat (snd (des_all (des_ty no_types c data rec (scalar_ty w)) l pos) - pos)).
      2:{ specialize (H l pos Hp). destruct (des_all _ l pos) as [[r l'] p]. exact H. }
      clear l pos Hp. induction l as [|x l IH]; intros pos Hp; cbn [des_all work_all snd]; [lia|].
      change (work_ty no_types c data rec recw (scalar_ty w) x pos)
        with (1 + past pos (des_ty no_types c data rec (scalar_ty w) x pos)).
      assert (HE : exists r y, des_ty no_types c data rec (scalar_ty w) x pos
        = if (pos + w <=? length data)%nat then (ROk, y, (pos + w)%nat) else (RErr r, y, pos)).
      { unfold scalar_ty. cbn [des_ty]. rewrite des_scalar_eq by assumption.
        destruct (pos + w <=? length data)%nat; cbn [nres]; eauto. exists result_out_of_range. eauto. }
      destruct HE as (r0 & y & ->). unfold past.
      pose proof (wfw_pos _ Hw) as Hw0.
      destruct (pos + w <=? length data)%nat eqn:E; cbn [snd]; [|lia].
      specialize (IH (pos + w)%nat ltac:(lia)).
      pose proof (elems_within c data false rec w l (pos + w) Hsm Hw ltac:(lia)) as S.
      unfold des_elems, seq_res in S.
      destruct (des_all _ l (pos + w)) as [[r l'] p]. cbn [snd] in *. lia.
  Qed.

  Lemma scalars_cost data ck w resize fetch wt prior pos :
    brief data -> wfw w = true -> has_size ck ->
    (resize = true -> exists ct rv, ck = CSeq ct rv) ->
    nprog fetch (length data) (pow256 w) -> (pos <= length data)%nat ->
    match des_scalars c data ck w resize fetch wt prior pos with
    | (r, VSeq l, p) =>
        cost 4 (length data) pos (length (as_seq prior))
          (scalars_work c data ck w resize fetch wt prior pos) r (length l) p
    | _ => False
    end.
  Proof.
    intros Hbr Hw Hhs Hrs Hf Hp. pose proof (brief_small _ Hbr) as Hsm.
    unfold des_scalars, scalars_work. set (l := as_seq prior). destruct (negb (wt =? 2)).
    - specialize (Hf pos Hp). unfold past. destruct (fetch pos) as [[r x] p]. cbn [snd].
      destruct r; try (exfalso; exact Hf);
        [|subst p; apply cost_free; [lia|lia|discriminate]].
      destruct Hf as [F1 _].
      pose proof (cinsert_length ck l (VN x)) as HC.
      pose proof (rate (N.of_nat (p - pos))). pose proof (rate_split pos p (length data) ltac:(lia)).
      pose proof (rate (N.of_nat (length data - p))).
      split; [lia|]. split; [intros _; lia|]. intros L _. lia.
    - pose proof (varint_prog 8 false 0 data eq_refl pos Hp) as HV. unfold past.
      destruct (des_varint 8 false 0 data pos) as [[r len] p]. cbn [snd].
      destruct r; try (exfalso; exact HV); [|subst p; apply cost_free; [lia|lia|discriminate]].
      destruct HV as [HV HV2].
      pose proof (rate_split pos p (length data) ltac:(lia)) as HS.
      pose proof (rate (N.of_nat (p - pos))) as HQ. pose proof (rate (N.of_nat (length data - p))) as HQ'.
      destruct resize.
      + destruct (Hrs eq_refl) as (ct & rv & ->).
        destruct (match alim c with Some lim => lim <? len | None => false end) eqn:EL.
        { split; [lia|]. split; [discriminate|]. intros L _. lia. }
        cbv zeta.
        destruct ((_ <=? _) || _) eqn:ER; [|split; [lia|]; split; [discriminate|]; intros L _; lia].
        cbn [unsized_ty des_ty work_ty sz_of as_seq].
        set (l1 := vresize _ _ _).
        pose proof (elems_within c data (as_bytes c (scalar_ty w) && ct) (fun _ p pos => (RUB, p, pos))
          w l1 p Hsm Hw ltac:(lia)) as S.
        pose proof (elems_cost data (as_bytes c (scalar_ty w) && ct) (fun _ p pos => (RUB, p, pos))
          (fun _ _ _ => 0) w l1 p Hsm Hw ltac:(lia)) as Q.
        set (q := work_elems _ _ _ _ _ _ _ _ _) in *. clearbody q.
        destruct (des_elems _ _ _ _ _ _ _) as [[r v] p']. destruct v as [|l2| | | | | |]; try contradiction.
        cbn [snd] in Q. destruct S as (S1 & S2 & S3). rewrite S2.
        pose proof (wfw_pos _ Hw) as Hw0.
        pose proof (N.mul_div_le len (N.of_nat w) ltac:(lia)) as HD.
        set (n := len / N.of_nat w) in *. clearbody n.
        assert (HL1 : length l1 = N.to_nat n) by (unfold l1; apply vresize_length).
        split; [lia|]. split.
        * intro E. specialize (S3 E). rewrite HL1 in S3 |- *.
          assert (n * N.of_nat w = N.of_nat (p' - p)) by lia.
          rewrite (rate_split pos p p') by lia. pose proof (rate (N.of_nat (p' - p))).
          assert (n <= n * N.of_nat w) by nia.
          destruct (n <=? _); lia.
        * intros L HL. rewrite HL in EL.
          rewrite HS, (rate_split p p' (length data)) by lia. pose proof (rate (N.of_nat (p' - p))).
          pose proof (rate (N.of_nat (length data - p'))).
          destruct (n <=? _); lia.
      + destruct (reserve_ok c ck len l) eqn:ER;
          [|split; [lia|]; split; [discriminate|]; intros L _; lia].
        assert (HRW : reserve_work ck len l <= N.of_nat (length l)).
        { unfold reserve_work. destruct ck as [? [?|]|? [?|]]; try lia; destruct (_ <=? _); lia. }
        assert (HR2 : reserve_work ck len l = 0 \/ reserve_work ck len l <= len /\ len + N.of_nat p < 2 ^ 64).
        { revert ER. unfold reserve_work, reserve_ok, can_alloc.
          destruct ck as [? [b|]|? [b|]]; cbn [has_size] in Hhs; try (intros; now left);
            (destruct (N.leb_spec len (N.of_nat (length l))) as [E1|E1]; cbn [orb]; intro ER; [now left|right];
             apply andb_true_iff in ER as [ER _]; apply N.ltb_lt in ER;
             split; [clear Hf Hsm HS HQ HQ' HV2; lia|];
             apply (no_wrap len b (N.of_nat p) (N.of_nat (length data))); auto; clear Hf Hsm HS HQ HQ' HV2; lia). }
        assert (HW : wadd len (N.of_nat p) < 2 ^ 64).
        { unfold wadd, two64. apply N.mod_lt. discriminate. }
        pose proof (packed_cost fetch ck (wadd len (N.of_nat p)) (length data) (pow256 w)
          Hf HW (S (length data)) l p ltac:(lia) ltac:(lia)) as S.
        set (q := packed_work _ _ _ _) in *. clearbody q.
        set (m := reserve_work ck len l) in *. clearbody m.
        destruct (packed_loop _ _ _ _ _ p) as [[r v] p']. destruct v as [|l2| | | | | |]; try contradiction.
        destruct S as (S1 & S2 & S3 & S4). split; [lia|].
        split.
        * intro E. specialize (S4 E).
          assert (m <= N.of_nat (p' - p)).
          { destruct HR2 as [->|[H1 H2]]; [lia|]. revert S4. unfold wadd, two64.
            rewrite N.mod_small by exact H2. lia. }
          rewrite (rate_split pos p p') by lia. pose proof (rate (N.of_nat (p' - p))). lia.
        * intros L HL. rewrite HS, (rate_split p p' (length data)) by lia.
          pose proof (rate (N.of_nat (length data - p'))).
          pose proof (rate (N.of_nat (p' - p))). lia.
  Qed.

  Definition fields_cost (n : nat) (fields : list byte -> list val -> res * list val * nat)
    (fieldsw : list byte -> list val -> N) (K : N) : Prop :=
    forall sub vals, (length sub <= n)%nat -> brief sub ->
      let '(r, vs, p) := fields sub vals in
      (p <= length sub)%nat
      /\ (r = ROk -> fieldsw sub vals <= K + R * N.of_nat p)
      /\ (forall L, alim c = Some L -> fieldsw sub vals <= K + R * N.of_nat (length sub) + L).

  Lemma nested_cost data fields fieldsw K s prior pos :
    brief data -> wfsz (Some s) = true -> (pos <= length data)%nat ->
    fields_cost (length data - pos) fields fieldsw K ->
    let '(r, v, p) := des_protocol c data s (des_nested data fields) prior pos in
    cost K (length data) pos 0 (protocol_work c data s (nested_work data fieldsw) prior pos) r 0 p.
  Proof.
    intros Hbr Hs Hp Hf. pose proof (brief_small _ Hbr) as Hsm.
    assert (HN : forall size p, (pos <= p <= length data)%nat ->
      let '(r, v, p') := des_nested data fields size prior p in
      cost K (length data) pos 0 (N.of_nat (p - pos) + nested_work data fieldsw size prior p) r 0 p').
    { intros size p Hpp. unfold des_nested, nested_work, rest_of. replace (p <=? length data)%nat with true by lia.
      cbv zeta. set (n := match size with Some _ => _ | None => _ end).
      assert (Hl : (length (firstn n (skipn p data)) <= length data - p)%nat)
        by (rewrite firstn_length, skipn_length; lia).
      specialize (Hf (firstn n (skipn p data)) (as_seq prior) ltac:(lia) ltac:(unfold brief in *; lia)).
      set (q := fieldsw _ _) in *. clearbody q. set (m := length (firstn _ _)) in *. clearbody m.
      destruct (fields _ (as_seq prior)) as [[r vs] p']. destruct Hf as (F1 & F2 & F3).
      pose proof (rate_split pos p (length data) ltac:(lia)) as HS.
      pose proof (rate (N.of_nat (p - pos))) as HQ. pose proof (rate (N.of_nat (length data - p))) as HQ'.
      assert (HQ2 : R * N.of_nat m <= R * N.of_nat (length data - p)) by (apply N.mul_le_mono_l; lia).
      assert (F3' : forall L, alim c = Some L ->
        N.of_nat (p - pos) + q <= N.of_nat 0 + K + R * N.of_nat (length data - pos) + L)
        by (intros L HL; specialize (F3 L HL); rewrite HS; lia).
      destruct r; (split; [lia|]; split; [|exact F3']; try (intro; discriminate)).
      intros _. specialize (F2 eq_refl).
      rewrite (rate_split pos p (p + p')) by lia. replace (p + p' - p)%nat with p' by lia. lia. }
    unfold des_protocol, protocol_work. pose proof (des_size_le c data s pos Hs Hsm Hp) as HS.
    destruct s as [|w|w];
      [specialize (HN None pos ltac:(lia)); rewrite Nat.sub_diag in HN; exact HN| |];
      (unfold past; destruct (des_size c data _ pos) as [[r n] p]; cbn [snd];
       destruct r; try contradiction;
       [now apply HN|subst p; apply cost_free; [lia|lia|discriminate]]).
  Qed.

  Lemma loop_fields sub nums ts fld fldw n vals K :
    N.of_nat (length nums) <= B ->
    (forall i n, nth_error nums i = Some n -> nth_error ts i <> None) ->
    (forall i t wt x pos, nth_error ts i = Some t -> (0 < pos <= length sub)%nat ->
       let '(r, v, p) := fld i wt x pos in
       cost C (length sub) pos (stock x t) (fldw i wt x pos) r (stock v t) p) ->
    let '(r, vs, p) := field_loop sub nums fld n (clear_members ts vals) 0 in
    (p <= length sub)%nat
    /\ (r = ROk -> K + loop_work sub nums fld fldw n (clear_members ts vals) 0 <= K + R * N.of_nat p)
    /\ (forall L, alim c = Some L ->
         K + loop_work sub nums fld fldw n (clear_members ts vals) 0 <= K + R * N.of_nat (length sub) + L).
  Proof.
    intros H0 H1 H2.
    pose proof (loop_cost sub nums ts fld fldw H0 H1 H2 n (clear_members ts vals) 0 ltac:(lia)) as W.
    rewrite stock_cleared in W. set (q := loop_work _ _ _ _ _ _ _) in *. clearbody q.
    destruct (field_loop _ _ _ _ _ _) as [[r vs] p]. destruct W as (W1 & W2 & W3).
    rewrite Nat.sub_0_r in *. split; [lia|].
    split; [intro E; specialize (W2 E); lia|]. intros L HL. specialize (W3 L HL). lia.
  Qed.

  (** Something created, then a nested message, then an insertion. *)
  Lemma cost_more k K n pos before w w' r have p :
    cost k n pos before w r have p -> w' + k <= w + K -> w <= w' -> cost K n pos before w' r have p.
  Proof.
    intros (H1 & H2 & H3) H4 H5. split; [exact H1|].
    split; [intro E; specialize (H2 E); lia|]. intros L HL. specialize (H3 L HL). lia.
  Qed.

  Section Field.
    Variables (rec : nat -> list byte -> list val -> res * list val * nat).
    Variable recw : nat -> list byte -> list val -> N.
    Hypothesis Hrec : forall k n, fields_cost n (rec k) (recw k) B.

    Lemma field_cost t :
      wfp t = true -> modest obj B t -> 2 <= B ->
      forall data, brief data -> forall wt x pos, (pos <= length data)%nat ->
      let '(r, v, p) := des_field P c rec t data wt x pos in
      cost C (length data) pos (stock x t) (field_work P c obj rec recw t data wt x pos) r (stock v t) p.
    Proof.
      induction t as [w| | |w sg zz| |k|ck w|ck w sg zz|ck contig w|ck k|ak kt IHk vt IHv|m w];
        cbn [wfp modest]; intros Hwf Hmo HB data Hbr wt prior pos Hp; cbn [field_work];
        pose proof (brief_small _ Hbr) as Hsm;
        cbn [des_field stock]; unfold past.
      - pose proof (scalar_prog c w (vnum prior) data ltac:(lia) Hsm pos ltac:(lia)) as S.
        destruct (des_scalar c data w (vnum prior) pos) as [[r x] p]. cbn [nres snd].
        destruct r; try contradiction; (apply cost_leaf; lia).
      - pose proof (scalar_prog c 1 0 data ltac:(lia) Hsm pos ltac:(lia)) as S.
        destruct (des_scalar c data 1 0 pos) as [[r x] p].
        destruct r; try contradiction; [destruct (x <? 2)|]; cbn [snd]; (apply cost_leaf; lia).
      - pose proof (varint_prog 1 false (vnum prior) data eq_refl pos ltac:(lia)) as S.
        destruct (des_varint 1 false (vnum prior) data pos) as [[r x] p]. cbn [nres snd].
        destruct r; try contradiction; (apply cost_leaf; lia).
      - pose proof (varint_prog w zz (vnum prior) data Hwf pos ltac:(lia)) as S.
        destruct (des_varint w zz (vnum prior) data pos) as [[r x] p]. cbn [nres snd].
        destruct r; try contradiction; (apply cost_leaf; lia).
      - cbn [snd]. apply cost_leaf. lia.
      - pose proof (nested_cost data (rec k) (recw k) B (dsize c) prior pos Hbr Hds Hp (Hrec k _)) as S.
        destruct (des_protocol _ _ _ _ _ _) as [[r v] p].
        eapply cost_more; [exact S|lia|lia].
      - pose proof (scalars_cost data ck w (match ck with CSeq _ _ => true | CSet _ _ => false end)
          (des_scalar c data w 0) wt prior pos Hbr Hwf Hmo ltac:(destruct ck; [eauto|discriminate])
          (scalar_prog c w 0 data ltac:(pose proof (wfw_pos _ Hwf); lia) Hsm) Hp) as S.
        destruct (des_scalars _ _ _ _ _ _ _ _ _) as [[r v] p]. destruct v as [|l| | | | | |]; try contradiction.
        cbn [as_seq]. eapply cost_more; [exact S|lia|lia].
      - pose proof (scalars_cost data ck w false (des_varint w zz 0 data) wt prior pos Hbr Hwf Hmo
          ltac:(discriminate) (varint_prog w zz 0 data Hwf) Hp) as S.
        destruct (des_scalars _ _ _ _ _ _ _ _ _) as [[r v] p]. destruct v as [|l| | | | | |]; try contradiction.
        cbn [as_seq]. eapply cost_more; [exact S|lia|lia].
      - assert (S : match des_ty no_types c data (fun _ p pos => (RUB, p, pos)) (TVec None contig (scalar_ty w)) (VSeq []) pos with
                    | (r, v, p) =>
                        cost 2 (length data) pos 0
                          (work_ty no_types c data (fun _ p pos => (RUB, p, pos)) (fun _ _ _ => 0)
                             (TVec None contig (scalar_ty w)) (VSeq []) pos) r 0 p
                    end).
        { cbn [des_ty work_ty sz_of as_seq]. unfold past.
          pose proof (des_size_le c data (dsize c) pos Hds Hsm Hp) as HS.
          destruct (dsize c) as [|ws|ws]; [congruence| |];
            (destruct (des_size c data _ pos) as [[r n] p]; cbn [snd]; destruct r; try contradiction;
             [|subst p; apply cost_free; [lia|lia|reflexivity]];
             unfold work_resize, vec_resize; destruct (over_limit _ _ _) eqn:EO;
             [split; [lia|]; split; [discriminate|]; intros L _; pose proof (rate_split pos p (length data) ltac:(lia)); pose proof (rate (N.of_nat (p - pos)));
              pose proof (rate (N.of_nat (length data - p))); lia|];
             destruct (_ || _); [|split; [lia|]; split; [discriminate|]; intros L _; pose proof (rate_split pos p (length data) ltac:(lia)); pose proof (rate (N.of_nat (p - pos)));
              pose proof (rate (N.of_nat (length data - p))); lia];
             change (csizeof c (scalar_ty w)) with (N.of_nat w);
             set (l1 := vresize _ _ _);
             assert (HL1 : length l1 = N.to_nat n) by (unfold l1; apply vresize_length);
             pose proof (elems_within c data (as_bytes c (scalar_ty w) && contig) (fun _ p pos => (RUB, p, pos))
               w l1 p Hsm Hwf ltac:(lia)) as S;
             pose proof (elems_cost data (as_bytes c (scalar_ty w) && contig) (fun _ p pos => (RUB, p, pos))
               (fun _ _ _ => 0) w l1 p Hsm Hwf ltac:(lia)) as Q;
             set (q := work_elems _ _ _ _ _ _ _ _ _) in *; clearbody q;
             destruct (des_elems _ _ _ _ _ _ _) as [[r v] p']; destruct v as [|l2| | | | | |]; try contradiction;
             destruct S as (S1 & S2 & S3); cbn [snd] in Q; cbn [length]; split; [lia|];
             pose proof (rate (N.of_nat (p - pos))); pose proof (rate (N.of_nat (p' - p)));
             pose proof (rate (N.of_nat (length data - p')));
             split;
             [intro E; specialize (S3 E); rewrite HL1 in S3;
              assert (n * N.of_nat w = N.of_nat (p' - p)) by lia;
              rewrite (rate_split pos p p') by lia;
              destruct (n <=? _); lia
             |intros L HL; unfold over_limit in EO; rewrite HL in EO;
              change (csizeof c (scalar_ty w)) with (N.of_nat w) in EO;
              assert (n * N.of_nat w <= L)
                by (pose proof (wfw_pos _ Hwf) as Hw0;
                    pose proof (N.mul_div_le L (N.of_nat w) ltac:(lia)); nia);
              rewrite (rate_split pos p (length data)), (rate_split p p' (length data)) by lia;
              destruct (n <=? _); lia]). }
        destruct (des_ty _ _ _ _ _ _ _) as [[r v] p].
        unfold add_object. destruct r; cbn [stock]; (eapply cost_more; [exact S|lia|lia]).
      - pose proof (nested_cost data (rec k) (recw k) B (dsize c) (VSeq (m_dflt (P k))) pos Hbr Hds Hp (Hrec k _)) as S.
        destruct (des_protocol _ _ _ _ _ _) as [[r v] p].
        unfold add_object. destruct r; cbn [stock]; (eapply cost_more; [exact S|lia|lia]).
      - apply andb_true_iff in Hwf as [Hwk Hwv]. destruct Hmo as (Hmo & Hmk & Hmv).
        pose proof (nested_cost data
          (fun sub vals =>
             field_loop sub [1; 2]
               (fun i => match i with O => des_field P c rec kt sub | S _ => des_field P c rec vt sub end)
               (S (length sub)) (clear_members [kt; vt] vals) 0)
          (fun sub vals =>
             2 + loop_work sub [1; 2]
               (fun i => match i with O => des_field P c rec kt sub | S _ => des_field P c rec vt sub end)
               (fun i => match i with O => field_work P c obj rec recw kt sub | S _ => field_work P c obj rec recw vt sub end)
               (S (length sub)) (clear_members [kt; vt] vals) 0)
          2 (dsize c) (VSeq [pdflt P kt; pdflt P vt]) pos Hbr Hds Hp) as W.
        match type of W with ?A -> _ => assert (Hf : A) end.
        { intros sub vals Hl Hss. apply loop_fields; [cbn; lia| |].
          - intros [|[|[|i]]] n; cbn; congruence.
          - intros [|[|[|i]]] t wt' x pos' Ht Hp'; cbn in Ht; try discriminate;
              injection Ht as <-; [apply IHk|apply IHv]; auto; lia. }
        specialize (W Hf).
        destruct (des_protocol _ _ _ _ _ _) as [[r v] p].
        unfold add_object. destruct r; cbn [stock]; (eapply cost_more; [exact W|lia|lia]).
      - apply andb_true_iff in Hwf as [Hm Hw].
        cbn [des_ty work_ty].
        pose proof (elems_within c data (as_bytes c (scalar_ty w)) (fun _ p pos => (RUB, p, pos))
          w (as_seq prior) pos Hsm Hw Hp) as S.
        pose proof (elems_cost data (as_bytes c (scalar_ty w)) (fun _ p pos => (RUB, p, pos))
          (fun _ _ _ => 0) w (as_seq prior) pos Hsm Hw Hp) as Q.
        set (q := work_elems _ _ _ _ _ _ _ _ _) in *; clearbody q.
        destruct (des_elems _ _ _ _ _ _ _) as [[r v] p]. destruct v; try contradiction.
        destruct S as (S1 & _). cbn [snd] in Q. pose proof (rate (N.of_nat (p - pos))). pose proof (rate_split pos p (length data) S1).
        pose proof (rate (N.of_nat (length data - p))).
        split; [lia|]. split; [intros _; lia|]. intros L _. lia.
    Qed.
  End Field.

  Lemma fields_bounded fuel k n : 2 <= B ->
    fields_cost n (des_fields P c fuel k) (fields_work P c obj fuel k) B.
  Proof.
    intro HB. revert k n. induction fuel as [|f IH]; intros k n sub vals Hl Hs; cbn [des_fields fields_work].
    - split; [lia|]. split; [discriminate|]. intros. lia.
    - destruct (HM k) as [HM1 HM2].
      assert (HN : length (numbers (P k)) = length (m_fields (P k))).
      { apply numbers_length. }
      set (fldw := fun (i : nat) (wt : N) (prior : val) (pos : nat) =>
           match nth_error (m_fields (P k)) i with
           | Some fd =>
               field_work P c obj (des_fields P c f) (fields_work P c obj f) (snd fd) sub wt prior pos
           | None => 0
           end).
      pose proof (loop_fields sub (numbers (P k)) (map snd (m_fields (P k)))
        (fun i wt prior pos =>
           match nth_error (m_fields (P k)) i with
           | Some fd => des_field P c (des_fields P c f) (snd fd) sub wt prior pos
           | None => (RUB, prior, pos)
           end) fldw (S (length sub)) vals (N.of_nat (length (m_fields (P k))))) as W.
      assert (W' := W ltac:(rewrite HN; exact HM1)). clear W.
      match type of W' with ?A -> _ => assert (A1 : A) end.
      { intros i m Hn. apply numbers_from_nth in Hn as (fd & Hn & _).
        erewrite map_nth_error by eassumption. discriminate. }
      specialize (W' A1).
      match type of W' with ?A -> _ => assert (A2 : A) end.
      { intros i t wt x pos Ht Hp. unfold fldw. destruct (nth_error (m_fields (P k)) i) as [fd|] eqn:E.
        2:{ apply nth_error_None in E. exfalso. assert (X : nth_error (map snd (m_fields (P k))) i <> None) by congruence.
            apply nth_error_Some in X. rewrite map_length in X. exact (Nat.lt_irrefl _ (Nat.lt_le_trans _ _ _ X E)). }
        rewrite (map_nth_error snd _ _ E) in Ht. injection Ht as <-. pose proof (nth_error_In _ _ E) as Hin.
        apply field_cost; auto; [|lia].
        specialize (HP k). unfold wf_pmsg in HP. rewrite !andb_true_iff in HP.
        destruct HP as [[[[[H _] _] _] _] _]. rewrite forallb_forall in H. now apply H. }
      specialize (W' A2). clear A1 A2. fold fldw.
      set (q := loop_work _ _ _ _ _ _ _) in *. clearbody q.
      destruct (field_loop _ _ _ _ _ _) as [[r vs] p]. destruct W' as (W1 & W2 & W3).
      split; [exact W1|]. split; [intro E; specialize (W2 E); lia|].
      intros L HL. specialize (W3 L HL). lia.
  Qed.
End Bound.

(** ** Theorems *)

(** C75: reading a message successfully takes work linear in the bytes consumed; the constants are
    those of the schema. *)
Theorem pb_work_linear P c obj B data fuel s k prior pos v p :
  wf_penv P -> modest_env P obj B -> 2 <= B ->
  wfsz (Some s) = true -> N.of_nat (length data) < 2 ^ 63 -> (pos <= length data)%nat ->
  des_pb_item P c data fuel s k prior pos = (ROk, v, p) ->
  pb_item_work P c obj data fuel s k prior pos <= B + (3 * B + 9) * N.of_nat (p - pos).
Proof.
  intros HP HM HB Hs Hbr Hp E.
  pose proof (nested_cost c B (3 * B + 9) eq_refl data (des_fields P (pb_icfg c) fuel k) (fields_work P (pb_icfg c) obj fuel k)
    B s prior pos Hbr Hs Hp
    (fields_bounded P (pb_icfg c) obj B HP HM eq_refl ltac:(discriminate) (3 * B + 9) eq_refl fuel k _ HB)) as W.
  unfold des_pb_item in E. rewrite E in W. destruct W as (_ & W & _). specialize (W eq_refl).
  unfold pb_item_work. lia.
Qed.

(** With an alloc_limit of [L] bytes it is linear in the bytes there are however the read ends, up
    to [L] bytes that were announced and did not follow. *)
Theorem pb_work_limited P c obj B data fuel s k prior pos L :
  wf_penv P -> modest_env P obj B -> 2 <= B ->
  wfsz (Some s) = true -> N.of_nat (length data) < 2 ^ 63 -> (pos <= length data)%nat ->
  alim c = Some L ->
  pb_item_work P c obj data fuel s k prior pos
  <= B + (3 * B + 9) * N.of_nat (length data - pos) + L.
Proof.
  intros HP HM HB Hs Hbr Hp HL.
  pose proof (nested_cost c B (3 * B + 9) eq_refl data (des_fields P (pb_icfg c) fuel k) (fields_work P (pb_icfg c) obj fuel k)
    B s prior pos Hbr Hs Hp
    (fields_bounded P (pb_icfg c) obj B HP HM eq_refl ltac:(discriminate) (3 * B + 9) eq_refl fuel k _ HB)) as W.
  unfold pb_item_work. destruct (des_protocol _ _ _ _ _ _) as [[r v] p].
  destruct W as (_ & _ & W). specialize (W L HL). lia.
Qed.

(** Without a limit the announced size is created, whatever follows. *)
Theorem pb_work_announced_refuted n obj fuel : 0 < n < 2 ^ 62 ->
  let P : penv := fun _ => mkPmsg [(None, PFixes (CSeq true None) 1)] [] [VSeq []] in
  let data := [x0a] ++ leb128 n in
  wf_penv P /\ modest_env P obj 2 /\ (length data <= 11)%nat /\
  n <= pb_item_work P vec_cfg obj data (S fuel) SzNone 0 (VSeq [VSeq []]) 0.
Proof.
  intros [H0 Hn] P data.
  split; [intro; reflexivity|].
  split; [intro k; split; [cbn; lia|]; intros fd [<-|[]]; exact I|].
  assert (Hn8 : n < pow256 8).
  { change (pow256 8) with 18446744073709551616. change (2 ^ 62) with 4611686018427387904 in Hn. lia. }
  assert (HV : des_varint 4 false 0 data 0 = (ROk, 10, 1%nat)).
  { apply (varint4_has data 0 10); [reflexivity|]. exact (has_at_mid [] [x0a] (leb128 n)). }
  assert (HV8 : des_varint 8 false 0 data 1 = (ROk, n, length data)).
  { apply (varint8_has data 1 n Hn8). pose proof (has_at_mid [x0a] (leb128 n) []) as H.
    now rewrite app_nil_r in H. }
  pose proof (leb128_nonempty n) as HL0.
  pose proof (leb128_max 8 n) as HL.
  assert (HD : length data = S (length (leb128 n))) by reflexivity.
  specialize (HL eq_refl Hn8). change (varint_max_size 8) with 10%nat in HL.
  split; [lia|].
  set (ck := CSeq true None) in *.
  set (fetch := des_scalar (pb_icfg vec_cfg) data 1 0).
  assert (HE : n <= scalars_work (pb_icfg vec_cfg) data ck 1 true fetch 2 (VSeq []) 1).
  { unfold scalars_work. cbn [as_seq]. change (negb (2 =? 2)) with false. cbv iota.
    rewrite HV8. change (alim (pb_icfg vec_cfg)) with (@None N). cbv iota.
    change (N.of_nat 1) with 1. rewrite N.div_1_r, N.mul_1_r.
    assert (can_alloc (pb_icfg vec_cfg) n = true) as ->.
    { unfold can_alloc. change (alloc_ok (pb_icfg vec_cfg) n) with true. rewrite andb_true_r.
      change (2 ^ 63) with 9223372036854775808. change (2 ^ 62) with 4611686018427387904 in Hn. lia. }
    rewrite orb_true_r. cbv zeta.
    set (q := work_ty _ _ _ _ _ _ _ _). clearbody q.
    change (N.of_nat (length (@nil val))) with 0. replace (n <=? 0) with false by lia. lia. }
  unfold pb_item_work, protocol_work, nested_work, rest_of.
  change (0 <=? length data)%nat with true. cbv iota. rewrite skipn_O, firstn_all. cbn [as_seq].
  clearbody data. cbn [fields_work loop_work]. replace (0 <? length data)%nat with true by lia. rewrite HV.
  change (clear_members (map snd (m_fields (P 0%nat))) [VSeq []]) with [VSeq []].
  cbv zeta. change (index_of (numbers (P 0%nat)) (N.shiftr 10 3)) with (Some 0%nat). cbv iota.
  change (nth_error [VSeq []] 0) with (Some (VSeq [])). cbv iota.
  change (nth_error (m_fields (P 0%nat)) 0) with (Some (@None N, PFixes ck 1)). cbv iota.
  change (N.land 10 7) with 2. cbn [snd field_work].
  change (match ck with CSeq _ _ => true | CSet _ _ => false end) with true. fold fetch.
  lia.
Qed.

(** The message of the other examples: 94 bytes with strings, packed numbers, a map and messages. *)
Example pb_work_nontrivial :
  let w := snd (ser_pb_item pb_demo vec_cfg (SzFix 4) 0 pb_demo_val (mkO [] 0)) in
  let obj := fun _ : pty => 32 in
  modest_env pb_demo obj 64 /\
  des_pb_item pb_demo vec_cfg (obuf w) 200 (SzFix 4) 0 (VSeq pb_demo_val) 0
  = (ROk, VSeq pb_demo_val, opos w) /\
  pb_item_work pb_demo vec_cfg obj (obuf w) 200 (SzFix 4) 0 (VSeq pb_demo_val) 0 = 468.
Proof.
  cbv zeta. split.
  { intros [|[|k]]; (split; [vm_compute; discriminate|]); intros fd Hfd; cbn in Hfd;
      repeat (destruct Hfd as [<-|Hfd]; [cbn; repeat split; lia|]); destruct Hfd. }
  split; vm_compute; reflexivity.
Qed.

(** A record that repeats a packed member moves what is there, and pays for it by its own length. *)
Example pb_work_reserve :
  let P : penv := fun _ => mkPmsg [(None, PVars (CSeq true (Some 4)) 4 false false)] [] [VSeq []] in
  map (fun data => pb_item_work P vec_cfg (fun _ => 0) data 20 SzNone 0 (VSeq [VSeq []]) 0)
    [[x0a; x01; x01; x0a; x01; x02]; [x0a; x01; x01; x0a; x02; x02; x03]]
  = [17; 21].
Proof. vm_compute. reflexivity. Qed.

(** The limit is reached: two bytes announce a hundred, which are created. *)
Example pb_work_limit_attained :
  let c := mkCfg true false (SzFix 4) (Some 100) 3 2 false false true (fun _ => true) (fun _ => 1) in
  let P : penv := fun _ => mkPmsg [(None, PFixes (CSeq true None) 1)] [] [VSeq []] in
  map (fun data => pb_item_work P c (fun _ => 0) data 20 SzNone 0 (VSeq [VSeq []]) 0)
    [[x0a; x64]; [x0a; x65]]
  = [107; 6].
Proof. vm_compute. reflexivity. Qed.

(** ** What a packed record requests *)

Definition with_alloc (c : cfg) (f : N -> bool) : cfg :=
  mkCfg (host_le c) (swap c) (dsize c) (alim c) (emul c) (ediv c) (noovf c) (nofit c) (growable c) f (abi c).

(** A packed record of varints for a container with reserve: it requests room for as many elements
    as the record has bytes, and only if there are not as many elements already; when that is
    refused the exception leaves the member as it is, and otherwise the allocator does not matter
    (as everywhere here, push_back itself is taken to succeed). *)
Theorem pb_packed_request P c rec ck b w sg zz data prior pos len pos1 :
  ck = CSeq true (Some b) \/ (exists ak, ck = CSet ak (Some b)) ->
  des_varint 8 false 0 data pos = (ROk, len, pos1) ->
  let t := PVars ck w sg zz in
  let have := N.of_nat (length (as_seq prior)) in
  let refused := len * b >= 2 ^ 63 \/ alloc_ok c (len * b) = false in
  (have < len -> refused -> des_field P c rec t data 2 prior pos = (RThrow, VSeq (as_seq prior), pos1)) /\
  (len <= have -> forall f, des_field P (with_alloc c f) rec t data 2 prior pos = des_field P c rec t data 2 prior pos) /\
  (~ refused -> des_field P (with_alloc c (fun _ => true)) rec t data 2 prior pos = des_field P c rec t data 2 prior pos).
Proof.
  intros Hck HV t have refused.
  assert (HR : forall c' l, reserve_ok c' ck len l = (len <=? N.of_nat (length l)) || can_alloc c' (len * b)).
  { intros c' l. destruct Hck as [->|[ak ->]]; reflexivity. }
  assert (HD : forall c', des_field P c' rec t data 2 prior pos
    = if (len <=? have) || can_alloc c' (len * b)
      then packed_loop (des_varint w zz 0 data) (cinsert ck) (wadd len (N.of_nat pos1)) (S (length data)) (as_seq prior) pos1
      else (RThrow, VSeq (as_seq prior), pos1)).
  { intro c'. unfold t. cbn [des_field]. unfold des_scalars. cbn [negb N.eqb Pos.eqb]. rewrite HV. now rewrite HR. }
  rewrite (HD c). split; [|split].
  - intros Hl Hr. replace (len <=? have) with false by lia. unfold can_alloc.
    destruct Hr as [Hr|Hr]; [replace (_ <? _) with false by lia; reflexivity|].
    rewrite Hr, andb_false_r. reflexivity.
  - intros Hl f. rewrite HD. replace (len <=? have) with true by lia. reflexivity.
  - intro Hr. rewrite HD. unfold can_alloc. cbn [with_alloc alloc_ok].
    replace (len * b <? 2 ^ 63) with true by (unfold refused in Hr; lia).
    destruct (alloc_ok c (len * b)) eqn:E; [reflexivity|]. exfalso. apply Hr. now right.
Qed.

(** Two varints for a vector that has two (or one) elements, and no memory. *)
Example pb_packed_request_nontrivial :
  let c := with_alloc vec_cfg (fun _ => false) in
  let t := PVars (CSeq true (Some 4)) 4 false false in
  map (fun l => des_field pb_demo c (fun _ _ vs => (ROk, vs, O)) t [x02; x07; x08] 2 (VSeq l) 0)
    [[VN 1; VN 2]; [VN 1]]
  = [(ROk, VSeq [VN 1; VN 2; VN 7; VN 8], 3%nat); (RThrow, VSeq [VN 1], 1%nat)].
Proof. vm_compute. reflexivity. Qed.
