(** C74: how much reading a protobuf message can make the program hold, compared to the bytes
    it consumes. *)

From Coq Require Import List NArith ZArith Lia Bool Arith.
From Coq Require Import ZifyBool ZifyNat ZifyN.
From Verif Require Import Base.Bytes Model.Types Model.Machine Model.Varint Model.Out Model.In
  Model.Loops Model.Protocol Model.Pb
  Spec.Leb128 Spec.Wire Proofs.VarintP Proofs.OutP Proofs.InBase Proofs.InSafe Proofs.InRound
  Proofs.ProtoP Proofs.PbOut Proofs.PbIn Proofs.PbParse Proofs.PbRead
  Thm.Demo Thm.Output Thm.Protocol Thm.Resource Thm.Pb Thm.PbInput.
Import ListNotations.
Local Open Scope N_scope.

Ltac Zify.zify_post_hook ::= Z.div_mod_to_equations.

(** ** Statement *)

(** What the containers in an object hold, at all levels: the bytes of the fundamentals, and
    one for every varint, string, message and map entry. *)
Fixpoint contents (P : penv) (v : val) (t : pty) {struct v} : nat :=
  match t, v with
  | PMsg k, VSeq l => sum2 (fun x fd => contents P x (snd fd)) l (m_fields (P k))
  | PFixes _ w, VSeq l => length l * w
  | PVars _ _ _ _, VSeq l => length l
  | PStrs _ _ w, VSeq l => list_sum (map (fun x => S (length (as_seq x) * w)) l)
  | PMsgs _ k, VSeq l =>
      list_sum
        (map (fun x => S (match x with
                          | VSeq m => sum2 (fun x fd => contents P x (snd fd)) m (m_fields (P k))
                          | _ => 0
                          end)) l)
  | PMap _ kt vt, VSeq l =>
      list_sum
        (map (fun x => S (match x with
                          | VSeq [a; b] => contents P a kt + contents P b vt
                          | _ => 0
                          end)) l)
  | _, _ => 0
  end%nat.

(** What is there before a message is read and is not cleared: the contents of the message
    members. *)
Definition is_message (t : pty) : bool := match t with PMsg _ => true | _ => false end.

Definition kept (P : penv) (k : nat) (l : list val) : nat :=
  sum2 (fun x fd => if is_message (snd fd) then contents P x (snd fd) else O) l (m_fields (P k)).

(** Value-initialised messages have nothing in their containers. *)
Definition bare (P : penv) : Prop := forall k, contents P (VSeq (m_dflt (P k))) (PMsg k) = O.

(** ** Proofs *)

Lemma sum2_set {A B} (f : A -> B -> nat) l m i x y v :
  nth_error l i = Some x -> nth_error m i = Some y ->
  (sum2 f (set_nth i v l) m + f x y = sum2 f l m + f v y)%nat.
Proof.
  revert m i. induction l as [|a l IH]; intros [|b m] [|i]; cbn; try discriminate.
  - intros [= ->] [= ->]. lia.
  - intros H1 H2. specialize (IH m i H1 H2). lia.
Qed.

Lemma sum2_snd {A B C} (f : A -> C -> nat) l (m : list (B * C)) :
  sum2 (fun x fd => f x (snd fd)) l m = sum2 f l (map snd m).
Proof. revert m. induction l as [|a l IH]; intros [|b m]; cbn; auto. Qed.

Lemma assoc_sum f k l x :
  (list_sum (map f (assoc_insert k l x)) <= list_sum (map f l) + f x)%nat.
Proof.
  unfold assoc_insert. destruct (_ && _); [lia|]. destruct (a_cmp k).
  - induction l as [|y l IH]; cbn [insert_sorted]; [cbn; lia|].
    destruct (lt _ _); unfold list_sum in *; cbn [map fold_right] in *; lia.
  - rewrite map_app, list_sum_app. cbn. lia.
Qed.

Lemma cinsert_sum f ck l x :
  (list_sum (map f (cinsert ck l x)) <= list_sum (map f l) + f x)%nat.
Proof.
  destruct ck; cbn [cinsert]; [|apply assoc_sum]. rewrite map_app, list_sum_app. cbn. lia.
Qed.

Lemma length_sum {A} (l : list A) : length l = list_sum (map (fun _ => 1%nat) l).
Proof. unfold list_sum. induction l as [|x l IH]; cbn [length map fold_right]; [reflexivity|]. now rewrite IH. Qed.

Lemma cinsert_length ck l x : (length (cinsert ck l x) <= S (length l))%nat.
Proof.
  rewrite (length_sum l), (length_sum (cinsert ck l x)).
  pose proof (cinsert_sum (fun _ => 1%nat) ck l x) as H. cbn beta in H. lia.
Qed.

Lemma parse_all_count f w n : forall l vs, parse_all f w n l = Some vs -> length vs = n.
Proof.
  induction n as [|n IH]; intros l vs; cbn [parse_all]; [now intros [= <-]|].
  destruct (f _); [|discriminate].
  destruct (parse_all f w n (skipn w l)) as [vs'|] eqn:E; [|discriminate].
  intros [= <-]. cbn. f_equal. exact (IH _ _ E).
Qed.

Section Within.
  Variables (P : penv) (c : cfg).
  Hypothesis (HP : wf_penv P) (HB : bare P) (Hds : wfsz (Some (dsize c)) = true).
  Hypothesis (Hdv : dsize c <> SzNone).

  (** [free]: what may be added beyond the bytes from [pos] on. *)
  Definition within (free n pos : nat) (before : nat) (r : res) (have : nat) (p : nat) : Prop :=
    (pos <= p <= n)%nat
    /\ (r = ROk -> (have <= before + free + (p - pos))%nat)
    /\ (forall L, alim c = Some L -> (have <= before + free + (n - pos) + N.to_nat L)%nat).

  Lemma within_same free n pos before r p :
    (pos <= p <= n)%nat -> within free n pos before r before p.
  Proof. intro H. split; [exact H|]. split; intros; lia. Qed.

  Lemma within_ok free n pos before have p :
    (pos <= p <= n)%nat -> (have <= before + free + (p - pos))%nat ->
    within free n pos before ROk have p.
  Proof. intros H1 H2. split; [exact H1|]. split; intros; lia. Qed.

  (** Reads of single objects that consume at least as much as they hold. *)
  Lemma field_loop_within data nums ts fld :
    (forall i n, nth_error nums i = Some n -> nth_error ts i <> None) ->
    (forall i t wt x pos, nth_error ts i = Some t -> (0 < pos <= length data)%nat ->
       let '(r, v, p) := fld i wt x pos in
       within 1 (length data) pos (contents P x t) r (contents P v t) p) ->
    forall n vals pos, (pos <= length data)%nat ->
      let '(r, vs, p) := field_loop data nums fld n vals pos in
      within 0 (length data) pos (sum2 (contents P) vals ts) r (sum2 (contents P) vs ts) p.
  Proof.
    intros Hn Hf. induction n as [|n IH]; intros vals pos Hp; cbn [field_loop].
    { destruct (pos <? length data)%nat; apply within_same; lia. }
    destruct (pos <? length data)%nat eqn:E; [|apply within_same; lia].
    pose proof (varint_prog 4 false 0 data eq_refl pos Hp) as HV.
    destruct (des_varint 4 false 0 data pos) as [[r tag] pos1].
    destruct r; try (exfalso; exact HV); [|subst pos1; apply within_same; lia].
    destruct HV as [HV _].
    destruct (index_of nums (N.shiftr tag 3)) as [i|] eqn:Ei.
    - apply index_of_lt in Ei. pose proof (Hn _ _ Ei) as Ht.
      destruct (nth_error ts i) as [t|] eqn:Et; [|congruence].
      destruct (nth_error vals i) as [x|] eqn:Ex; [|apply within_same; lia].
      specialize (Hf i t (N.land tag 7) x pos1 Et ltac:(lia)).
      destruct (fld i (N.land tag 7) x pos1) as [[r v] pos2].
      destruct Hf as (F1 & F2 & F3).
      pose proof (sum2_set (contents P) vals ts i x t v Ex Et) as HS.
      destruct r;
        try (split; [lia|]; split; [intro; discriminate|intros L HL; specialize (F3 L HL); lia]).
      specialize (IH (set_nth i v vals) pos2 ltac:(lia)). specialize (F2 eq_refl).
      destruct (field_loop _ _ _ _ _ _) as [[r' vs] p]. destruct IH as (I1 & I2 & I3).
      split; [lia|]. split; [intro H; specialize (I2 H); lia|].
      intros L HL. specialize (I3 L HL). lia.
    - destruct (N.shiftr tag 3 =? 0); [apply within_same; lia|].
      specialize (IH vals pos1 ltac:(lia)).
      destruct (field_loop _ _ _ _ _ _) as [[r' vs] p]. destruct IH as (I1 & I2 & I3).
      split; [lia|]. split; [intro H; specialize (I2 H); lia|].
      intros L HL. specialize (I3 L HL). lia.
  Qed.

  Definition takes (fetch : nat -> res * N * nat) (u : nat) : Prop :=
    forall pos x p, fetch pos = (ROk, x, p) -> (pos + u <= p)%nat.

  Lemma packed_loop_within fetch ck stop N' B u :
    nprog fetch N' B -> takes fetch u ->
    forall n acc pos, (pos <= N')%nat ->
      match packed_loop fetch (cinsert ck) stop n acc pos with
      | (r, VSeq l, p) => within 0 N' pos (length acc * u) r (length l * u) p
      | _ => False
      end.
  Proof.
    intros Hf Hu. induction n as [|n IH]; intros acc pos Hp; cbn [packed_loop].
    { destruct (N.of_nat pos <? stop); apply within_same; lia. }
    destruct (N.of_nat pos <? stop); [|apply within_same; lia].
    specialize (Hf pos Hp). specialize (Hu pos). destruct (fetch pos) as [[r x] p].
    destruct r; try (exfalso; exact Hf); [|subst p; apply within_same; lia].
    destruct Hf as [H1 _]. specialize (Hu x p eq_refl).
    specialize (IH (cinsert ck acc (VN x)) p ltac:(lia)).
    pose proof (cinsert_length ck acc (VN x)) as HC.
    apply (Nat.mul_le_mono_r _ _ u) in HC. cbn [Nat.mul] in HC.
    destruct (packed_loop _ _ _ _ _ p) as [[r v] p']. destruct v; try exact IH.
    destruct IH as (I1 & I2 & I3). split; [lia|].
    split; [intro E; specialize (I2 E); lia|]. intros L HL. specialize (I3 L HL). lia.
  Qed.

  (** Elements of a container already sized: their number does not change, and success
      consumes all their bytes. *)
  Lemma elems_within data (b : bool) rec w l pos :
    small data -> wfw w = true -> (pos <= length data)%nat ->
    match des_elems c data b (des_ty no_types c data rec (scalar_ty w)) (scalar_ty w) l pos with
    | (r, VSeq l', p) =>
        (pos <= p <= length data)%nat /\ length l' = length l
        /\ (r = ROk -> p = (pos + length l * w)%nat)
    | _ => False
    end.
  Proof.
    intros Hsm Hw Hp. unfold des_elems. destruct b.
    - rewrite des_bytes_eq by assumption.
      change (bsize (scalar_ty w)) with w.
      destruct (Nat.eqb_spec (length l * w) 0); [cbn [seq_res]; repeat split; lia|].
      destruct (pos + length l * w <=? length data)%nat eqn:E;
        [|cbn [seq_res]; split; [lia|]; split; [reflexivity|discriminate]].
      destruct (parse_all _ _ _ _) as [vs|] eqn:EP; cbn [seq_res].
      + split; [lia|]. split; [|reflexivity].
        now apply parse_all_count in EP.
      + split; [lia|]. split; [reflexivity|discriminate].
    - assert (H : forall l pos, (pos <= length data)%nat ->
        match des_all (des_ty no_types c data rec (scalar_ty w)) l pos with
        | (r, l', p) => (pos <= p <= length data)%nat /\ length l' = length l
            /\ (r = ROk -> p = (pos + length l * w)%nat)
        end).
      2:{ specialize (H l pos Hp). destruct (des_all _ l pos) as [[r l'] p]. exact H. }
      clear l pos Hp. induction l as [|x l IH]; intros pos Hp; cbn [des_all]; [cbn; repeat split; lia|].
      unfold scalar_ty at 1. cbn [des_ty].
      rewrite des_scalar_eq by assumption.
      destruct (pos + w <=? length data)%nat eqn:E; cbn [nres].
      + specialize (IH (pos + w)%nat ltac:(lia)).
        destruct (des_all _ l (pos + w)) as [[r l'] p]. destruct IH as (I1 & I2 & I3).
        split; [lia|]. split; [cbn; now rewrite I2|]. intro Hr. specialize (I3 Hr). cbn [length Nat.mul]. lia.
      + split; [lia|]. split; [reflexivity|discriminate].
  Qed.

  Lemma scalar_takes data w prior : takes (des_scalar c data w prior) w.
  Proof.
    intros pos x p. unfold des_scalar. destruct (_ <? _); [discriminate|].
    destruct (load _ _ _); [|discriminate]. intros [= <- <-]. lia.
  Qed.

  Lemma varint_takes data w zz prior : wfw w = true -> takes (des_varint w zz prior data) 1.
  Proof.
    intros Hw pos x p E. destruct (Nat.leb_spec pos (length data)) as [L|L].
    - pose proof (varint_prog w zz prior data Hw pos L) as H. rewrite E in H. lia.
    - revert E. unfold des_varint, rest_of. replace (pos <=? length data)%nat with false by lia. discriminate.
  Qed.

  Lemma des_scalars_within data ck w u resize fetch wt prior pos :
    small data -> wfw w = true -> (resize = true -> (u = w) /\ exists ct rv, ck = CSeq ct rv) ->
    nprog fetch (length data) (pow256 w) -> takes fetch u -> (pos <= length data)%nat ->
    match des_scalars c data ck w resize fetch wt prior pos with
    | (r, VSeq l, p) => within 1 (length data) pos (length (as_seq prior) * u) r (length l * u) p
    | _ => False
    end.
  Proof.
    intros Hsm Hw Hrs Hf Hu Hp. unfold des_scalars. set (l := as_seq prior). destruct (negb (wt =? 2)).
    - specialize (Hf pos Hp). specialize (Hu pos). destruct (fetch pos) as [[r x] p].
      destruct r; try (exfalso; exact Hf); [|subst p; apply within_same; lia].
      destruct Hf as [F1 _]. specialize (Hu x p eq_refl). apply within_ok; [lia|].
      pose proof (cinsert_length ck l (VN x)) as HC.
      apply (Nat.mul_le_mono_r _ _ u) in HC. cbn [Nat.mul] in HC. lia.
    - pose proof (varint_prog 8 false 0 data eq_refl pos Hp) as HV.
      destruct (des_varint 8 false 0 data pos) as [[r len] p].
      destruct r; try (exfalso; exact HV); [|subst p; apply within_same; lia].
      destruct HV as [HV _].
      destruct resize.
      + destruct (Hrs eq_refl) as (-> & ct & rv & ->).
        destruct (match alim c with Some lim => lim <? len | None => false end) eqn:EL;
          [apply within_same; lia|].
        destruct ((_ <=? _) || _); [|apply within_same; lia].
        cbn [unsized_ty des_ty sz_of as_seq].
        set (l1 := vresize _ _ _).
        pose proof (elems_within data (as_bytes c (scalar_ty w) && ct) (fun _ p pos => (RUB, p, pos))
          w l1 p Hsm Hw ltac:(lia)) as S.
        destruct (des_elems _ _ _ _ _ _ _) as [[r v] p']. destruct v as [|l2| | | | | |]; try contradiction.
        destruct S as (S1 & S2 & S3). rewrite S2.
        split; [lia|]. split; [intro E; specialize (S3 E); lia|].
        intros L HL. rewrite HL in EL.
        unfold l1. rewrite vresize_length.
        pose proof (wfw_pos _ Hw) as Hw0.
        pose proof (N.mul_div_le len (N.of_nat w) ltac:(lia)). nia.
      + destruct (reserve_ok c ck len l); [|apply within_same; lia].
        pose proof (packed_loop_within fetch ck (wadd len (N.of_nat p)) (length data) (pow256 w) u
          Hf Hu (S (length data)) l p ltac:(lia)) as S.
        destruct (packed_loop _ _ _ _ _ p) as [[r v] p']. destruct v as [|l2| | | | | |]; try contradiction.
        destruct S as (S1 & S2 & S3). split; [lia|].
        split; [intro E; specialize (S2 E); lia|]. intros L HL. specialize (S3 L HL). lia.
  Qed.

  (** A nested message, whatever reads its fields; [K]: what it starts from. *)
  Definition fields_ok (K : list val -> nat) (ts : list pty) (n : nat)
    (fields : list byte -> list val -> res * list val * nat) : Prop :=
    forall sub vals, (length sub <= n)%nat -> small sub ->
      let '(r, vs, p) := fields sub vals in
      (p <= length sub)%nat
      /\ (r = ROk -> (sum2 (contents P) vs ts <= K vals + p)%nat)
      /\ (forall L, alim c = Some L ->
           (sum2 (contents P) vs ts <= sum2 (contents P) vals ts + length sub + N.to_nat L)%nat).

  Definition below (K : list val -> nat) (ts : list pty) : Prop :=
    forall vals, (K vals <= sum2 (contents P) vals ts)%nat.

  Lemma nested_within data fields K ts s prior pos :
    small data -> wfsz (Some s) = true -> (pos <= length data)%nat -> below K ts ->
    fields_ok K ts (length data - pos) fields ->
    let '(r, v, p) := des_protocol c data s (des_nested data fields) prior pos in
    (pos <= p <= length data)%nat
    /\ (r = ROk -> (sum2 (contents P) (as_seq v) ts <= K (as_seq prior) + (p - pos))%nat)
    /\ (forall L, alim c = Some L ->
         (sum2 (contents P) (as_seq v) ts
          <= sum2 (contents P) (as_seq prior) ts + (length data - pos) + N.to_nat L)%nat).
  Proof.
    intros Hsm Hs Hp HK Hf.
    assert (HN : forall size p, (pos <= p <= length data)%nat ->
      let '(r, v, p') := des_nested data fields size prior p in
      (pos <= p' <= length data)%nat
      /\ (r = ROk -> (sum2 (contents P) (as_seq v) ts <= K (as_seq prior) + (p' - pos))%nat)
      /\ (forall L, alim c = Some L ->
           (sum2 (contents P) (as_seq v) ts
            <= sum2 (contents P) (as_seq prior) ts + (length data - pos) + N.to_nat L)%nat)).
    { intros size p Hpp. unfold des_nested, rest_of. replace (p <=? length data)%nat with true by lia.
      set (n := match size with Some _ => _ | None => _ end).
      assert (Hl : (length (firstn n (skipn p data)) <= length data - p)%nat)
        by (rewrite firstn_length, skipn_length; lia).
      specialize (Hf (firstn n (skipn p data)) (as_seq prior) ltac:(lia) ltac:(unfold small in *; lia)).
      destruct (fields _ (as_seq prior)) as [[r vs] q]. destruct Hf as (F1 & F2 & F3).
      specialize (HK (as_seq prior)).
      destruct r; (split; [lia|]; split;
        [try (intro; discriminate); intros _; specialize (F2 eq_refl); cbn [as_seq]; lia
        |intros L HL; specialize (F3 L HL); cbn [as_seq]; lia]). }
    unfold des_protocol. pose proof (des_size_le c data s pos Hs Hsm Hp) as HS.
    destruct s as [|w|w]; [apply HN; lia| |];
      (destruct (des_size c data _ pos) as [[r n] p];
       destruct r; try contradiction;
       [now apply HN|subst p; split; [lia|]; split; [intro; discriminate|intros; lia]]).
  Qed.

  (** What message [k] starts from. *)
  Lemma clear_sum ts vals :
    (sum2 (contents P) (clear_members ts vals) ts
     = sum2 (fun x t => if is_message t then contents P x t else O) vals ts)%nat.
  Proof.
    revert vals. induction ts as [|t ts IH]; intros [|v vals]; cbn [clear_members sum2]; auto.
    rewrite IH. f_equal. destruct t; try reflexivity; destruct v; reflexivity.
  Qed.

  Lemma kept_below ts vals :
    (sum2 (fun x t => if is_message t then contents P x t else O) vals ts <= sum2 (contents P) vals ts)%nat.
  Proof.
    revert vals. induction ts as [|t ts IH]; intros [|v vals]; cbn [sum2]; auto.
    specialize (IH vals). destruct (is_message t); lia.
  Qed.

  Lemma loop_ok sub nums ts fld n vals :
    (forall i n, nth_error nums i = Some n -> nth_error ts i <> None) ->
    (forall i t wt x pos, nth_error ts i = Some t -> (0 < pos <= length sub)%nat ->
       let '(r, v, p) := fld i wt x pos in
       within 1 (length sub) pos (contents P x t) r (contents P v t) p) ->
    let '(r, vs, p) := field_loop sub nums fld n (clear_members ts vals) 0 in
    (p <= length sub)%nat
    /\ (r = ROk ->
        (sum2 (contents P) vs ts
         <= sum2 (fun x t => if is_message t then contents P x t else O) vals ts + p)%nat)
    /\ (forall L, alim c = Some L ->
         (sum2 (contents P) vs ts <= sum2 (contents P) vals ts + length sub + N.to_nat L)%nat).
  Proof.
    intros H1 H2. pose proof (field_loop_within sub nums ts fld H1 H2 n (clear_members ts vals) 0 ltac:(lia)) as W.
    rewrite clear_sum in W. pose proof (kept_below ts vals).
    destruct (field_loop _ _ _ _ _ _) as [[r vs] p]. destruct W as (W1 & W2 & W3).
    split; [lia|]. split; [intro E; specialize (W2 E); lia|].
    intros L HL. specialize (W3 L HL). lia.
  Qed.

  Lemma pdflt_bare t : contents P (pdflt P t) t = O.
  Proof. destruct t; try reflexivity. apply HB. Qed.

  Section Field.
    Variables (rec : nat -> list byte -> list val -> res * list val * nat).
    Hypothesis Hrec : forall k n, fields_ok (kept P k) (map snd (m_fields (P k))) n (rec k).

    Lemma kept_snd k vals :
      kept P k vals = sum2 (fun x t => if is_message t then contents P x t else O) vals (map snd (m_fields (P k))).
    Proof. unfold kept. now rewrite <- sum2_snd. Qed.

    Lemma message_below k : below (kept P k) (map snd (m_fields (P k))).
    Proof. intro vals. rewrite kept_snd. apply kept_below. Qed.

    Lemma contents_msg k v :
      contents P v (PMsg k) = sum2 (contents P) (as_seq v) (map snd (m_fields (P k))).
    Proof. destruct v; try reflexivity. cbn [contents as_seq]. apply sum2_snd. Qed.

    Definition flat (t : pty) : bool :=
      match t with PFix _ | PBool | PByte | PVar _ _ _ | PEmpty | PArr _ _ => true | _ => false end.

    Lemma contents_flat v t : flat t = true -> contents P v t = O.
    Proof. destruct t; try discriminate; destruct v; reflexivity. Qed.

    Lemma within_flat n t x r v pos p :
      flat t = true -> (pos <= p <= n)%nat -> within 1 n pos (contents P x t) r (contents P v t) p.
    Proof. intros H1 H2. rewrite !contents_flat by exact H1. now apply within_same. Qed.

    Lemma des_field_within t :
      wfp t = true ->
      forall data, small data -> forall wt x pos, (pos <= length data)%nat ->
      let '(r, v, p) := des_field P c rec t data wt x pos in
      within 1 (length data) pos (contents P x t) r (contents P v t) p.
    Proof.
      induction t as [w| | |w sg zz| |k|ck w|ck w sg zz|ck contig w|ck k|ak kt IHk vt IHv|m w];
        cbn [wfp]; intros Hwf data Hsm wt prior pos Hp; cbn [des_field].
      - pose proof (scalar_prog c w (vnum prior) data ltac:(lia) Hsm pos ltac:(lia)) as S.
        destruct (des_scalar c data w (vnum prior) pos) as [[r x] p]. cbn [nres].
        destruct r; try contradiction; (apply within_flat; [reflexivity|lia]).
      - pose proof (scalar_prog c 1 0 data ltac:(lia) Hsm pos ltac:(lia)) as S.
        destruct (des_scalar c data 1 0 pos) as [[r x] p].
        destruct r; try contradiction; [destruct (x <? 2)|]; (apply within_flat; [reflexivity|lia]).
      - pose proof (varint_prog 1 false (vnum prior) data eq_refl pos ltac:(lia)) as S.
        destruct (des_varint 1 false (vnum prior) data pos) as [[r x] p]. cbn [nres].
        destruct r; try contradiction; (apply within_flat; [reflexivity|lia]).
      - pose proof (varint_prog w zz (vnum prior) data Hwf pos ltac:(lia)) as S.
        destruct (des_varint w zz (vnum prior) data pos) as [[r x] p]. cbn [nres].
        destruct r; try contradiction; (apply within_flat; [reflexivity|lia]).
      - apply within_same. lia.
      - rewrite contents_msg.
        pose proof (nested_within data (rec k) (kept P k) (map snd (m_fields (P k))) (dsize c)
          prior pos Hsm Hds Hp (message_below k) (Hrec k _)) as S.
        destruct (des_protocol _ _ _ _ _ _) as [[r v] p]. rewrite contents_msg.
        destruct S as (S1 & S2 & S3). pose proof (message_below k (as_seq prior)).
        split; [exact S1|]. split; [intro E; specialize (S2 E); lia|].
        intros L HL. specialize (S3 L HL). lia.
      - pose proof (des_scalars_within data ck w w (match ck with CSeq _ _ => true | CSet _ _ => false end)
          (des_scalar c data w 0) wt prior pos Hsm Hwf) as S.
        assert (S' := S ltac:(destruct ck; [eauto|discriminate])
          (scalar_prog c w 0 data ltac:(pose proof (wfw_pos _ Hwf); lia) Hsm) (scalar_takes data w 0) Hp). clear S.
        destruct (des_scalars _ _ _ _ _ _ _ _ _) as [[r v] p]. destruct v as [|l| | | | | |]; try contradiction.
        replace (contents P prior (PFixes ck w)) with (length (as_seq prior) * w)%nat by (destruct prior; reflexivity).
        exact S'.
      - pose proof (des_scalars_within data ck w 1 false (des_varint w zz 0 data) wt prior pos Hsm Hwf
          ltac:(discriminate) (varint_prog w zz 0 data Hwf)) as S.
        assert (S' := S ltac:(apply varint_takes; exact Hwf) Hp). clear S.
        destruct (des_scalars _ _ _ _ _ _ _ _ _) as [[r v] p]. destruct v as [|l| | | | | |]; try contradiction.
        replace (contents P prior (PVars ck w sg zz)) with (length (as_seq prior) * 1)%nat
          by (destruct prior; cbn [as_seq contents]; cbn; lia).
        cbn [contents]. now rewrite !Nat.mul_1_r in *.
      - set (F := fun x => S (length (as_seq x) * w)).
        assert (HC : forall v, contents P v (PStrs ck contig w) = list_sum (map F (as_seq v)))
          by (destruct v; reflexivity).
        assert (S : match des_ty no_types c data (fun _ p pos => (RUB, p, pos)) (TVec None contig (scalar_ty w)) (VSeq []) pos with
                    | (r, v, p) => (pos <= p <= length data)%nat /\ (r = ROk -> (length (as_seq v) * w <= p - pos)%nat)
                    end).
        { cbn [des_ty sz_of as_seq].
          pose proof (des_size_le c data (dsize c) pos Hds Hsm Hp) as HS.
          destruct (dsize c) as [|ws|ws]; [congruence| |];
            (destruct (des_size c data _ pos) as [[r n] p]; destruct r; try contradiction;
             [|subst p; split; [lia|]; intro; discriminate];
             unfold vec_resize; destruct (over_limit _ _ _); [split; [lia|]; intro; discriminate|];
             destruct (_ || _); [|split; [lia|]; intro; discriminate];
             set (l1 := vresize _ _ _);
             pose proof (elems_within data (as_bytes c (scalar_ty w) && contig) (fun _ p pos => (RUB, p, pos))
               w l1 p Hsm Hwf ltac:(lia)) as S;
             destruct (des_elems _ _ _ _ _ _ _) as [[r v] p']; destruct v as [|l2| | | | | |]; try contradiction;
             destruct S as (S1 & S2 & S3); split; [lia|]; intro E; specialize (S3 E); cbn [as_seq]; rewrite S2; lia). }
        destruct (des_ty _ _ _ _ _ _ _) as [[r v] p]. destruct S as [S1 S2].
        unfold add_object. destruct r; try (apply within_same; lia).
        specialize (S2 eq_refl). rewrite !HC. cbn [as_seq]. apply within_ok; [lia|].
        pose proof (cinsert_sum F ck (as_seq prior) v) as HI. unfold F at 3 in HI. lia.
      - set (F := fun x => S (contents P x (PMsg k))).
        assert (HC : forall v, contents P v (PMsgs ck k) = list_sum (map F (as_seq v))).
        { destruct v; try reflexivity. cbn [contents as_seq]. f_equal. apply map_ext. intros []; reflexivity. }
        pose proof (nested_within data (rec k) (kept P k) (map snd (m_fields (P k))) (dsize c)
          (VSeq (m_dflt (P k))) pos Hsm Hds Hp (message_below k) (Hrec k _)) as S.
        destruct (des_protocol _ _ _ _ _ _) as [[r v] p]. destruct S as (S1 & S2 & _).
        unfold add_object. destruct r; try (apply within_same; lia).
        specialize (S2 eq_refl). rewrite !HC. cbn [as_seq]. apply within_ok; [lia|].
        pose proof (cinsert_sum F ck (as_seq prior) v) as HI. unfold F at 3 in HI. rewrite contents_msg in HI.
        pose proof (message_below k (m_dflt (P k))) as HK. pose proof (HB k) as H0. rewrite contents_msg in H0.
        cbn [as_seq] in *. lia.
      - apply andb_true_iff in Hwf as [Hwk Hwv].
        set (F := fun x => S (match x with VSeq [a; b] => contents P a kt + contents P b vt | _ => 0 end)%nat).
        assert (HC : forall v, contents P v (PMap ak kt vt) = list_sum (map F (as_seq v)))
          by (destruct v; reflexivity).
        pose proof (nested_within data
          (fun sub vals =>
             field_loop sub [1; 2]
               (fun i => match i with O => des_field P c rec kt sub | S _ => des_field P c rec vt sub end)
               (S (length sub)) (clear_members [kt; vt] vals) 0)
          (fun vals => sum2 (fun x t => if is_message t then contents P x t else O) vals [kt; vt])
          [kt; vt] (dsize c) (VSeq [pdflt P kt; pdflt P vt]) pos Hsm Hds Hp
          ltac:(intro; apply kept_below)) as W.
        assert (Hf : fields_ok (fun vals => sum2 (fun x t => if is_message t then contents P x t else O) vals [kt; vt])
          [kt; vt] (length data - pos)
          (fun sub vals =>
             field_loop sub [1; 2]
               (fun i => match i with O => des_field P c rec kt sub | S _ => des_field P c rec vt sub end)
               (S (length sub)) (clear_members [kt; vt] vals) 0)).
        { intros sub vals Hl Hss. apply loop_ok.
          - intros [|[|[|i]]] n; cbn; congruence.
          - intros [|[|[|i]]] t wt' x pos' Ht Hp'; cbn in Ht; try discriminate;
              injection Ht as <-; [apply IHk|apply IHv]; auto; lia. }
        specialize (W Hf).
        destruct (des_protocol _ _ _ _ _ _) as [[r v] p]. destruct W as (S1 & S2 & _).
        unfold add_object. destruct r; try (apply within_same; lia).
        specialize (S2 eq_refl). rewrite !HC. cbn [as_seq] in *. apply within_ok; [lia|].
        pose proof (assoc_sum F ak (as_seq prior) v) as HI.
        pose proof (kept_below [kt; vt] [pdflt P kt; pdflt P vt]) as HK.
        cbn [sum2] in HK, S2. rewrite !pdflt_bare in *.
        assert (HF : (F v <= S (sum2 (contents P) (as_seq v) [kt; vt]))%nat).
        { unfold F. destruct v as [|[|a [|b [|? ?]]]| | | | | |]; cbn [as_seq sum2]; lia. }
        lia.
      - apply andb_true_iff in Hwf as [Hm Hw].
        cbn [des_ty].
        pose proof (elems_within data (as_bytes c (scalar_ty w)) (fun _ p pos => (RUB, p, pos))
          w (as_seq prior) pos Hsm Hw Hp) as S.
        destruct (des_elems _ _ _ _ _ _ _) as [[r v] p]. apply within_flat; [reflexivity|].
        destruct v; try contradiction. apply S.
    Qed.
  End Field.

  Lemma des_fields_within fuel k n :
    fields_ok (kept P k) (map snd (m_fields (P k))) n (des_fields P c fuel k).
  Proof.
    revert k n. induction fuel as [|f IH]; intros k n sub vals Hl Hs; cbn [des_fields].
    - split; [lia|]. split; [discriminate|]. intros. lia.
    - rewrite kept_snd. apply loop_ok.
      + intros i m Hn. apply numbers_from_nth in Hn as (fd & Hn & _).
        erewrite map_nth_error by eassumption. discriminate.
      + intros i t wt x pos Ht Hp. destruct (nth_error (m_fields (P k)) i) as [fd|] eqn:E.
        2:{ apply within_same. lia. }
        rewrite (map_nth_error snd _ _ E) in Ht. injection Ht as <-. pose proof (nth_error_In _ _ E) as Hin.
        apply des_field_within; auto; [|lia].
        specialize (HP k). unfold wf_pmsg in HP. rewrite !andb_true_iff in HP.
        destruct HP as [[[[[H _] _] _] _] _]. rewrite forallb_forall in H. now apply H.
  Qed.
End Within.

(** ** Theorems *)

(** C74: the containers of a message read successfully hold, at all levels together, not more
    than was there before and the message does not replace, plus the bytes consumed.  This needs no
    alloc_limit. *)
Theorem pb_contents_bounded P c data fuel s k prior pos vs p :
  wf_penv P -> bare P -> wfsz (Some s) = true -> small data -> (pos <= length data)%nat ->
  des_pb_item P c data fuel s k (VSeq prior) pos = (ROk, VSeq vs, p) ->
  (contents P (VSeq vs) (PMsg k) <= kept P k prior + (p - pos))%nat.
Proof.
  intros HP HB Hs Hsm Hp E. rewrite contents_msg.
  pose proof (nested_within P c data (des_fields P (pb_icfg c) fuel k) (kept P k)
    (map snd (m_fields (P k))) s (VSeq prior) pos Hsm Hs Hp (message_below P c k)
    (des_fields_within P (pb_icfg c) HP HB eq_refl ltac:(discriminate) fuel k _)) as W.
  unfold des_pb_item in E. rewrite E in W. now apply W.
Qed.

(** With an alloc_limit of [L] bytes the same holds however the read ends, up to [L] bytes that were
    announced and did not follow. *)
Theorem pb_contents_limited P c data fuel s k prior pos L :
  wf_penv P -> bare P -> wfsz (Some s) = true -> small data -> (pos <= length data)%nat ->
  alim c = Some L ->
  let '(r, v, p) := des_pb_item P c data fuel s k (VSeq prior) pos in
  (contents P v (PMsg k)
   <= contents P (VSeq prior) (PMsg k) + (length data - pos) + N.to_nat L)%nat.
Proof.
  intros HP HB Hs Hsm Hp HL. rewrite contents_msg.
  pose proof (nested_within P c data (des_fields P (pb_icfg c) fuel k) (kept P k)
    (map snd (m_fields (P k))) s (VSeq prior) pos Hsm Hs Hp (message_below P c k)
    (des_fields_within P (pb_icfg c) HP HB eq_refl ltac:(discriminate) fuel k _)) as W.
  unfold des_pb_item. destruct (des_protocol _ _ _ _ _ _) as [[r v] p]. rewrite contents_msg.
  now apply W.
Qed.

(** Without a limit a failed read can leave any number of elements behind: those announced by a
    record that has ended before its content begins. *)
Theorem pb_announced_refuted n : n < 2 ^ 62 ->
  let P : penv := fun _ => mkPmsg [(None, PFixes (CSeq true None) 1)] [] [VSeq []] in
  let data := [x0a] ++ leb128 n in
  wf_penv P /\ bare P /\ (length data <= 11)%nat /\
  (0 < n -> des_pb_item P vec_cfg data 20 SzNone 0 (VSeq [VSeq []]) 0
            = (RErr result_out_of_range, VSeq [VSeq (repeat (VN 0) (N.to_nat n))], length data)).
Proof.
  intros Hn P data.
  split; [intro; reflexivity|]. split; [intro; reflexivity|].
  assert (Hn8 : n < pow256 8).
  { change (pow256 8) with 18446744073709551616. change (2 ^ 62) with 4611686018427387904 in Hn. lia. }
  assert (HV : des_varint 4 false 0 data 0 = (ROk, 10, 1%nat)).
  { apply (varint4_has data 0 10); [reflexivity|]. exact (has_at_mid [] [x0a] (leb128 n)). }
  assert (HV8 : des_varint 8 false 0 data 1 = (ROk, n, length data)).
  { apply (varint8_has data 1 n Hn8). pose proof (has_at_mid [x0a] (leb128 n) []) as H.
    now rewrite app_nil_r in H. }
  pose proof (leb128_nonempty n) as HL0.
  pose proof (leb128_max 8 n) as HL.
  assert (HD : length data = S (length (leb128 n))) by reflexivity.
  specialize (HL eq_refl Hn8). change (varint_max_size 8) with 10%nat in HL.
  split; [lia|]. intro H0.
  assert (HE :
    des_scalars (pb_icfg vec_cfg) data (CSeq true None) 1 true (des_scalar (pb_icfg vec_cfg) data 1 0) 2 (VSeq []) 1
    = (RErr result_out_of_range, VSeq (repeat (VN 0) (N.to_nat n)), length data)).
  { unfold des_scalars. cbn [as_seq]. change (negb (2 =? 2)) with false. cbv iota.
    rewrite HV8. change (alim (pb_icfg vec_cfg)) with (@None N). cbv iota.
    change (N.of_nat 1) with 1. rewrite N.div_1_r, N.mul_1_r.
    assert (can_alloc (pb_icfg vec_cfg) n = true) as ->.
    { unfold can_alloc. change (alloc_ok (pb_icfg vec_cfg) n) with true. rewrite andb_true_r.
      change (2 ^ 63) with 9223372036854775808. change (2 ^ 62) with 4611686018427387904 in Hn. lia. }
    rewrite orb_true_r. cbn [unsized_ty des_ty sz_of as_seq].
    replace (vresize (VN 0) (N.to_nat n) []) with (repeat (VN 0) (N.to_nat n))
      by (unfold vresize; cbn [length]; now rewrite firstn_nil, Nat.sub_0_r).
    change (as_bytes (pb_icfg vec_cfg) (scalar_ty 1) && true) with true.
    assert (Hs : small data).
    { unfold small. rewrite HD. change (2 ^ 64) with 18446744073709551616. lia. }
    unfold des_elems. rewrite (des_bytes_eq _ _ _ _ _ _ Hs (le_n _)). rewrite repeat_length.
    change (bsize (scalar_ty 1)) with 1%nat.
    replace (N.to_nat n * 1 =? 0)%nat with false by lia.
    replace (length data + N.to_nat n * 1 <=? length data)%nat with false by lia. reflexivity. }
  unfold des_pb_item, des_protocol, des_nested, rest_of.
  change (0 <=? length data)%nat with true. cbv iota. rewrite skipn_O, firstn_all. cbn [as_seq].
  clearbody data. 
  change (des_fields P (pb_icfg vec_cfg) 20 0 data [VSeq []]) with
    (field_loop data (numbers (P 0%nat))
        (fun i wt prior pos =>
           match nth_error (m_fields (P 0%nat)) i with
           | Some fd => des_field P (pb_icfg vec_cfg) (des_fields P (pb_icfg vec_cfg) 19) (snd fd) data wt prior pos
           | None => (RUB, prior, pos)
           end)
        (S (length data)) [VSeq []] 0).
  cbn [field_loop]. replace (0 <? length data)%nat with true by lia. rewrite HV.
  change (index_of (numbers (P 0%nat)) (N.shiftr 10 3)) with (Some 0%nat). cbv iota.
  change (nth_error (m_fields (P 0%nat)) 0) with (Some (@None N, PFixes (CSeq true None) 1)).
  cbn [nth_error snd des_field]. change (N.land 10 7) with 2. rewrite HE. reflexivity.
Qed.

(** Contents a value-initialised object has are not paid for. *)
Theorem pb_defaults_refuted n :
  let P : penv := fun k =>
    match k with
    | O => mkPmsg [(None, PMsgs (CSeq true None) 1)] [] [VSeq []]
    | 1%nat => mkPmsg [(None, PMsg 2)] [] [VSeq [VSeq (repeat (VN 0) n)]]
    | _ => mkPmsg [(None, PVars (CSeq true None) 4 false false)] [] [VSeq (repeat (VN 0) n)]
    end in
  wf_penv P /\
  let '(r, v, p) := des_pb_item P vec_cfg [x0a; x00] 20 SzNone 0 (VSeq [VSeq []]) 0 in
  r = ROk /\ p = 2%nat /\ contents P v (PMsg 0) = S n.
Proof.
  intros P. 
  assert (HR : forallb (numok 4) (repeat (VN 0) n) = true)
    by (apply forallb_forall; intros x Hx; apply repeat_spec in Hx; now subst x).
  split.
  - intros [|[|k]]; unfold wf_pmsg; cbn [P m_fields m_map m_dflt]; [reflexivity| |];
      unfold P; cbn [m_dflt m_fields pwt forall2b snd ckok]; rewrite HR; reflexivity.
  - split; [reflexivity|]. split; [reflexivity|].
    cbn. rewrite repeat_length. lia.
Qed.

(** Non-vacuity: a message with a string, messages, a map, packed numbers and a nested message,
    and members that a previous message has left. *)
Example pb_contents_nontrivial :
  wf_penv pb_demo /\ bare pb_demo /\
  let w := snd (ser_pb_item pb_demo vec_cfg (SzFix 4) 0 pb_demo_val (mkO [] 0)) in
  des_pb_item pb_demo vec_cfg (obuf w) 200 (SzFix 4) 0 (VSeq pb_demo_val) 0
  = (ROk, VSeq pb_demo_val, opos w) /\
  contents pb_demo (VSeq pb_demo_val) (PMsg 0) = 32%nat /\ kept pb_demo 0 pb_demo_val = 1%nat.
Proof.
  split; [exact pb_demo_wf|]. split; [intros [|[|k]]; reflexivity|].
  split; [vm_compute; reflexivity|]. split; vm_compute; reflexivity.
Qed.

(** The bound is attained up to the two bytes of the tag and the length: packed one-byte
    numbers; and what a message member holds stays when the message does not mention it. *)
Example pb_contents_attained :
  let P : penv := fun k =>
    match k with
    | O => mkPmsg [(None, PFixes (CSeq true None) 1); (None, PMsg 1)] [] [VSeq []; VSeq [VSeq []]]
    | _ => mkPmsg [(None, PVars (CSeq true None) 4 false false)] [] [VSeq []]
    end in
  wf_penv P /\ bare P /\
  let prior := [VSeq [VN 1; VN 2]; VSeq [VSeq [VN 7; VN 8; VN 9]]] in
  let '(r, v, p) := des_pb_item P vec_cfg [x0a; x04; x01; x02; x03; x04] 20 SzNone 0 (VSeq prior) 0 in
  r = ROk /\ p = 6%nat /\ kept P 0 prior = 3%nat /\ contents P v (PMsg 0) = 7%nat.
Proof.
  split; [intros [|k]; reflexivity|]. split; [intros [|k]; reflexivity|]. vm_compute. auto.
Qed.
