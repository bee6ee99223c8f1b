(** The protobuf reader accepts exactly the language of Spec/PbGrammar.v. *)

From Coq Require Import List NArith ZArith Lia Bool Arith.
From Coq Require Import ZifyBool ZifyNat ZifyN.
From Verif Require Import Base.Bytes Model.Types Model.Machine Model.Varint Model.Out Model.In
  Model.Loops Model.Protocol Model.Pb
  Spec.Leb128 Spec.Wire Spec.Grammar Spec.PbWire Spec.PbMerge Spec.PbBreak Spec.PbGrammar
  Proofs.VarintP Proofs.OutP Proofs.InBase Proofs.InSafe Proofs.InLocal Proofs.InPrior
  Proofs.InRound Proofs.InHost Proofs.InGrammar Proofs.InFuel Proofs.ProtoP
  Proofs.PbOut Proofs.PbParse Proofs.PbIn Proofs.PbRead.
Import ListNotations.
Local Open Scope N_scope.

Ltac Zify.zify_post_hook ::= Z.div_mod_to_equations.

(** ** Outcomes decided by a relation *)

Section Decides.
  Variable data : list byte.

  (** Success exactly when [D] relates something to what is left of [data]. *)
  Definition decides {A} (D : A -> list byte -> Prop) (pos : nat) (x : res * A * nat) : Prop :=
    match x with
    | (ROk, v, p) =>
        (pos <= p <= length data)%nat /\ D v (skipn p data) /\
        forall v' r, D v' r -> v' = v /\ r = skipn p data
    | (r, _, _) => resource r \/ forall v' r, ~ D v' r
    end.

  Lemma decides_cases {A} (D : A -> list byte -> Prop) pos r (v : A) p :
    decides D pos (r, v, p) ->
    (r = ROk /\ (pos <= p <= length data)%nat /\ D v (skipn p data) /\
     forall v' r, D v' r -> v' = v /\ r = skipn p data) \/
    (r <> ROk /\ (resource r \/ forall v' r, ~ D v' r)).
  Proof. destruct r; cbn [decides]; intro H; [left; auto|right; split; [discriminate|exact H]..]. Qed.

  Lemma decides_fail {A} (D : A -> list byte -> Prop) pos r (v : A) p :
    r <> ROk -> (resource r \/ forall v' r, ~ D v' r) -> decides D pos (r, v, p).
  Proof. intros H K. destruct r; cbn [decides]; auto. congruence. Qed.

  Lemma skipn_has_at pos e r :
    (pos <= length data)%nat -> skipn pos data = e ++ r ->
    has_at data pos e /\ r = skipn (pos + length e) data.
  Proof.
    intros Hp H. assert (HL : length (skipn pos data) = (length e + length r)%nat)
      by (rewrite H; apply app_length). rewrite skipn_length in HL. split.
    - split; [lia|]. unfold window. rewrite H, firstn_app, Nat.sub_diag, firstn_all. cbn [firstn].
      apply app_nil_r.
    - rewrite <- skipn_skipn, H, skipn_app, Nat.sub_diag, skipn_all. reflexivity.
  Qed.

  Lemma accepted_decides {A} (D : list byte -> A -> Prop) pos x :
    unique_prefix D -> (pos <= length data)%nat -> accepted data D pos x ->
    decides (fun v r => exists e, skipn pos data = e ++ r /\ D e v) pos x.
  Proof.
    intros U Hp H. destruct x as [[r v] p].
    assert (K : r = ROk \/ r <> ROk) by (destruct r; auto; right; discriminate).
    destruct K as [->|Hr].
    - destruct H as (e & H1 & -> & HD). pose proof (has_at_le _ _ _ H1).
      destruct (has_at_skipn _ _ _ H1) as [r0 E].
      destruct (skipn_has_at pos e r0 Hp E) as [_ ->].
      cbn [decides]. split; [lia|]. split; [eauto|].
      intros v' r' (e' & E' & HD'). rewrite E in E'.
      destruct (U _ _ _ _ _ _ E' HD HD') as [<- <-]. apply app_inv_head in E'. auto.
    - apply decides_fail; [exact Hr|].
      assert (K : resource r \/ forall e v, has_at data pos e -> ~ D e v) by (destruct r; auto; congruence).
      destruct K as [K|K]; [now left|]. right. intros v' r' (e & E & HD).
      apply (K e v'); [|exact HD]. now apply (skipn_has_at pos e r').
  Qed.

  (** The value is converted. *)
  Lemma decides_map {A B} (g : A -> B) (D : A -> list byte -> Prop) (D' : B -> list byte -> Prop)
    pos r a p b :
    (forall b r, D' b r <-> exists a, b = g a /\ D a r) -> (r = ROk -> b = g a) ->
    decides D pos (r, a, p) -> decides D' pos (r, b, p).
  Proof.
    intros HD Hb H. apply decides_cases in H as [(-> & H1 & H2 & H3)|(Hr & K)].
    - rewrite (Hb eq_refl). cbn [decides]. split; [exact H1|]. split; [apply HD; eauto|].
      intros v' r' Hv. apply HD in Hv as (a' & -> & Hv). apply H3 in Hv as [-> ->]. auto.
    - apply decides_fail; [exact Hr|]. destruct K as [K|K]; [now left|right].
      intros v' r' Hv. apply HD in Hv as (a' & _ & Hv). now apply K in Hv.
  Qed.

  Lemma decides_iff {A} (D D' : A -> list byte -> Prop) pos x :
    (forall v r, D v r <-> D' v r) -> decides D pos x -> decides D' pos x.
  Proof.
    intros HD H. destruct x as [[r v] p]. apply (decides_map (fun v => v) D D' pos r v p v); auto.
    intros b r'. split; [intro K; exists b; split; [reflexivity|now apply HD]|].
    intros (a & -> & K). now apply HD.
  Qed.

  (** One part after another. *)
  Lemma decides_first {A B} (D1 : A -> list byte -> Prop) (D2 : A -> list byte -> B -> list byte -> Prop)
    (D : B -> list byte -> Prop) pos r a p b p' :
    (forall b r, D b r -> exists a r1, D1 a r1 /\ D2 a r1 b r) ->
    r <> ROk -> decides D1 pos (r, a, p) -> decides D pos (r, b, p').
  Proof.
    intros HD Hr H. apply decides_cases in H as [(-> & _)|(_ & K)]; [congruence|].
    apply decides_fail; [exact Hr|]. destruct K as [K|K]; [now left|right].
    intros v' r' Hv. apply HD in Hv as (a' & r1 & Hv & _). now apply K in Hv.
  Qed.

  Lemma decides_then {A B} (D1 : A -> list byte -> Prop) (D2 : A -> list byte -> B -> list byte -> Prop)
    (D : B -> list byte -> Prop) pos a p y :
    (forall b r, D b r <-> exists a r1, D1 a r1 /\ D2 a r1 b r) ->
    decides D1 pos (ROk, a, p) -> decides (D2 a (skipn p data)) p y -> decides D pos y.
  Proof.
    intros HD (H1 & H2 & H3) H. destruct y as [[r b] q].
    apply decides_cases in H as [(-> & K1 & K2 & K3)|(Hr & K)].
    - cbn [decides]. split; [lia|]. split; [apply HD; eauto|].
      intros v' r' Hv. apply HD in Hv as (a' & r1 & Ha & Hv). apply H3 in Ha as [-> ->]. now apply K3.
    - apply decides_fail; [exact Hr|]. destruct K as [K|K]; [now left|right].
      intros v' r' Hv. apply HD in Hv as (a' & r1 & Ha & Hv). apply H3 in Ha as [-> ->]. now apply K in Hv.
  Qed.

  (** Readers of all that is left. *)
  Definition settles {A} (R : A -> Prop) (n : nat) (x : res * A * nat) : Prop :=
    match x with
    | (ROk, v, p) => p = n /\ R v /\ forall v', R v' -> v' = v
    | (r, _, _) => resource r \/ forall v', ~ R v'
    end.

  Lemma settles_cases {A} (R : A -> Prop) n r (v : A) p :
    settles R n (r, v, p) ->
    (r = ROk /\ p = n /\ R v /\ forall v', R v' -> v' = v) \/
    (r <> ROk /\ (resource r \/ forall v', ~ R v')).
  Proof. destruct r; cbn [settles]; intro H; [left; auto|right; split; [discriminate|exact H]..]. Qed.

  Lemma settles_fail {A} (R : A -> Prop) n r (v : A) p :
    r <> ROk -> (resource r \/ forall v', ~ R v') -> settles R n (r, v, p).
  Proof. intros H K. destruct r; cbn [settles]; auto. congruence. Qed.
End Decides.

(** ** Numbers *)

Lemma unwire_spec w zz n : wfw w = true -> n < pow256 w ->
  unwire_value w zz n = if zz then of_signed w (unzigzag n) else n.
Proof. intros Hw Hn. destruct zz; cbn [unwire_value]; [now apply zz_dec_spec|reflexivity]. Qed.

Lemma base128_lt w e n : base128 w e n -> n < pow256 w.
Proof. intros (m & _ & _ & ->). apply N.mod_upper_bound. pose proof (pow256_pos w). lia. Qed.

Lemma variable_unique w zz : unique_prefix (variable w zz).
Proof.
  intros e r n e' r' n' H (m & B & ->) (m' & B' & ->).
  destruct (base128_unique w _ _ _ _ _ _ H B B') as [-> ->]. auto.
Qed.

Lemma fixed_unique w : unique_prefix (fixed w).
Proof.
  intros e r n e' r' n' H (L & ->) (L' & ->).
  destruct (app_same_length e e' r r'); [congruence|exact H|]. subst. auto.
Qed.

Section Numbers.
  Variables (c : cfg) (data : list byte).
  Hypothesis (Hlo : little_out c) (Hsm : small data).

  Lemma varint_decides w zz prior pos :
    wfw w = true -> (pos <= length data)%nat ->
    decides data (fun n r => exists e, skipn pos data = e ++ r /\ variable w zz e n) pos
      (des_varint w zz prior data pos).
  Proof.
    intros Hw Hp. apply accepted_decides; [apply variable_unique|exact Hp|].
    eapply accepted_iff; [|apply base128_accepted; assumption].
    intros e n. unfold variable. split; intros (m & B & E); exists m;
      rewrite unwire_spec in * by (auto; eapply base128_lt; eauto); auto.
  Qed.

  Lemma length_decides pos :
    (pos <= length data)%nat ->
    decides data (fun n r => exists e, skipn pos data = e ++ r /\ base128 8 e n) pos
      (des_varint 8 false 0 data pos).
  Proof.
    intro Hp. eapply decides_iff; [|apply varint_decides; [reflexivity|exact Hp]].
    intros n r. unfold variable. split; intros (e & E & H); exists e; (split; [exact E|]).
    - now destruct H as (m & H & ->).
    - eauto.
  Qed.

  Lemma scalar_decides w prior pos :
    (pos <= length data)%nat ->
    decides data (fun n r => exists e, skipn pos data = e ++ r /\ fixed w e n) pos
      (des_scalar c data w prior pos).
  Proof.
    intro Hp. apply accepted_decides; [apply fixed_unique|exact Hp|].
    eapply accepted_iff; [|apply scalar_accepted; assumption].
    intros e n. unfold fixed, word, fmt_of. cbn [little]. rewrite Hlo. split; intros [H1 H2]; auto.
  Qed.

  (** Elements of a container of numbers. *)
  Lemma elements_scalars w l e :
    elements no_types (fmt_of c) (scalar_ty w) e l <->
    exists ns, l = map VN ns /\ e = flat_map (le_bytes w) ns /\ Forall (fun x => x < pow256 w) ns.
  Proof.
    assert (HW : forall e, word (fmt_of c) e = le_val e)
      by (intro; unfold word, fmt_of; cbn [little]; now rewrite Hlo).
    split.
    - intro H. remember (scalar_ty w) as t eqn:Et. revert Et.
      induction H as [t|t e1 e2 x l D H IH]; intros ->; [exists []; auto|].
      destruct (IH eq_refl) as (ns & -> & -> & F).
      unfold scalar_ty in D. inversion D; subst. exists (le_val e1 :: ns).
      cbn [map flat_map]. rewrite HW. split; [reflexivity|]. rewrite le_bytes_le_val. split; [reflexivity|].
      constructor; [apply le_val_lt|exact F].
    - intros (ns & -> & -> & F). induction F as [|n ns Hn F IH]; cbn [map flat_map]; [constructor|].
      constructor; [|exact IH]. unfold scalar_ty.
      replace n with (word (fmt_of c) (le_bytes w n)) at 2 by (rewrite HW; now apply le_val_le_bytes_small).
      constructor. apply le_bytes_length.
  Qed.
End Numbers.

(** ** Loops *)

Section Loops.
  Variables (c : cfg) (data : list byte).
  Hypothesis (Hlo : little_out c) (Hsm : small data).

  Lemma elems_decides rec contig w l pos :
    wfw w = true -> (pos <= length data)%nat -> forallb (numok w) l = true ->
    decides data
      (fun v r => exists ns, v = VSeq (map VN ns) /\ length ns = length l /\
         Forall (fun x => x < pow256 w) ns /\ skipn pos data = flat_map (le_bytes w) ns ++ r) pos
      (des_elems c data (as_bytes c (scalar_ty w) && contig) (des_ty no_types c data rec (scalar_ty w))
         (scalar_ty w) l pos).
  Proof.
    intros Hw Hp Hl.
    assert (Hacc : acc no_types c data (scalar_ty w) (des_ty no_types c data rec (scalar_ty w))).
    { intros prior q Hq Hpr. unfold scalar_ty. cbn [des_ty].
      pose proof (scalar_accepted data c Hsm w (match prior with VN n => n | _ => 0 end) q Hq) as A.
      eapply nres_accepted; [|exact A]. intros e v. split.
      - intro D; inversion D; subst. eauto.
      - intros (n & -> & L & <-). now constructor. }
    pose proof (des_elems_accepted no_types c data no_types_wf Hsm (as_bytes c (scalar_ty w) && contig)
      rec (scalar_ty w) l pos) as A.
    eapply decides_iff.
    2:{ apply accepted_decides; [|exact Hp|apply A; auto].
        - intros e r v e' r' v' E (l1 & -> & L1 & D1) (l2 & -> & L2 & D2).
          destruct (proj2 (proj2 (grammar_unique no_types (fmt_of c) no_types_wf)) _ _ _ D1
            (scalar_ty_wf w Hw) r e' r' l2) as [-> ->]; auto. congruence.
        - now apply scalar_ty_wf.
        - intro Hb. now apply andb_true_iff in Hb as [Hb _].
        - now rewrite forallb_numok. }
    intros v r. split.
    - intros (e & E & l' & -> & L & D). apply (elements_scalars c Hlo) in D as (ns & -> & -> & F).
      rewrite map_length in L. exists ns. auto.
    - intros (ns & -> & L & F & E). exists (flat_map (le_bytes w) ns). split; [exact E|].
      exists (map VN ns). split; [reflexivity|]. rewrite map_length. split; [exact L|].
      apply (elements_scalars c Hlo). eauto.
  Qed.

  Lemma run_decides fetch el ins stop B :
    nprog fetch (length data) B ->
    (forall pos, (pos <= length data)%nat ->
       decides data (fun n r => exists e, skipn pos data = e ++ r /\ el e n) pos (fetch pos)) ->
    forall n acc pos, (length data - pos < n)%nat -> (pos <= length data)%nat ->
      decides data (fun v r => exists l, v = VSeq l /\ run el ins stop pos acc (skipn pos data) l r) pos
        (packed_loop fetch ins stop n acc pos).
  Proof.
    intros Hpr Hf. induction n as [|n IH]; intros acc pos Hn Hp; [lia|].
    cbn [packed_loop]. destruct (N.ltb_spec (N.of_nat pos) stop) as [Hs|Hs].
    - pose proof (Hf pos Hp) as F.
      assert (Hg : forall x q, fetch pos = (ROk, x, q) -> (pos < q)%nat).
      { intros x q E. specialize (Hpr pos Hp). rewrite E in Hpr. lia. }
      set (D1 := fun n r => exists e, skipn pos data = e ++ r /\ el e n) in F.
      set (D2 := fun x r1 v r => exists l, v = VSeq l /\
                   run el ins stop (length data - length r1) (ins acc (VN x)) r1 l r).
      assert (HD : forall v r, (exists l, v = VSeq l /\ run el ins stop pos acc (skipn pos data) l r)
                    <-> exists x r1, D1 x r1 /\ D2 x r1 v r).
      { intros v r. split.
        - intros (l & -> & R). inversion R; subst; [lia|].
          match goal with E : _ ++ _ = skipn _ _ |- _ => symmetry in E; rename E into E0 end.
          destruct (skipn_has_at data pos _ _ Hp E0) as [K1 K2]. apply PbRead.has_at_le in K1.
          exists n0, b. split; [exists e; auto|]. exists l. split; [reflexivity|].
          replace (length data - length b)%nat with (pos + length e)%nat; [assumption|].
          rewrite K2, skipn_length. lia.
        - intros (x & r1 & (e & E0 & He) & l & -> & R). exists l. split; [reflexivity|].
          destruct (skipn_has_at data pos _ _ Hp E0) as [K1 K2]. apply PbRead.has_at_le in K1.
          rewrite E0. eapply run_more; eauto.
          replace (pos + length e)%nat with (length data - length r1)%nat; [assumption|].
          rewrite K2, skipn_length. lia. }
      destruct (fetch pos) as [[r x] q].
      assert (Kr : r = ROk \/ r <> ROk) by (destruct r; auto; right; discriminate).
      destruct Kr as [->|Hr].
      + eapply decides_then; [exact HD|exact F|].
        specialize (Hg x q eq_refl). destruct F as (F1 & _).
        specialize (IH (ins acc (VN x)) q ltac:(lia) ltac:(lia)).
        eapply decides_iff; [|exact IH]. intros v r. unfold D2.
        rewrite skipn_length. replace (length data - (length data - q))%nat with q by lia. reflexivity.
      + assert (G : decides data (fun v r => exists l, v = VSeq l /\
                      run el ins stop pos acc (skipn pos data) l r) pos (r, VSeq acc, q)).
        { eapply (decides_first data D1 D2); [intros b r0 K; now apply HD|exact Hr|exact F]. }
        destruct r; try exact G. congruence.
    - cbn [decides]. split; [lia|]. split; [exists acc; split; [reflexivity|now constructor]|].
      intros v r (l & -> & R). inversion R; subst; [auto|lia].
  Qed.

  (** A message inside the message. *)
  Lemma content_split n b sub rest :
    b = sub ++ rest ->
    content n sub rest <-> sub = firstn (N.to_nat (N.min n (N.of_nat (length b)))) b.
  Proof.
    intros ->. rewrite app_length. unfold content. split.
    - intros [H|[H ->]].
      + replace (N.to_nat _) with (length sub) by lia. rewrite firstn_app, Nat.sub_diag, firstn_all.
        cbn [firstn]. symmetry. apply app_nil_r.
      + cbn [length]. replace (N.to_nat _) with (length sub) by lia. rewrite firstn_app, Nat.sub_diag, firstn_all.
        cbn [firstn]. symmetry. apply app_nil_r.
    - intro H. apply (f_equal (@length byte)) in H. rename H into L.
      rewrite firstn_length, app_length in L. destruct rest as [|y rest].
      + cbn [length] in *. destruct (N.lt_ge_cases (N.of_nat (length sub)) n); [right; auto|left; lia].
      + left. cbn [length] in *. lia.
  Qed.

  Lemma nested_decides fields (R : list byte -> list val -> Prop) prior pos :
    (pos <= length data)%nat -> dsize c = SzVar 8 ->
    (forall sub, (length sub <= length data - pos)%nat ->
       settles (R sub) (length sub) (fields sub prior)) ->
    decides data
      (fun v r => exists e n sub vals, v = VSeq vals /\ skipn pos data = e ++ sub ++ r /\
         base128 8 e n /\ content n sub r /\ R sub vals) pos
      (des_protocol c data (dsize c) (des_nested data fields) (VSeq prior) pos).
  Proof.
    intros Hp Hd Hf. rewrite Hd. unfold des_protocol. cbn [des_size].
    pose proof (length_decides data pos Hp) as F.
    set (D1 := fun n r => exists e, skipn pos data = e ++ r /\ base128 8 e n) in F.
    set (D2 := fun n r1 v r => exists sub vals, v = VSeq vals /\ r1 = sub ++ r /\ content n sub r /\ R sub vals).
    match goal with |- decides _ ?D _ _ => assert (HD : forall v r, D v r <-> exists n r1, D1 n r1 /\ D2 n r1 v r) end.
    { intros v r. unfold D1, D2. split.
      - intros (e & n & sub & vals & -> & E & B & C & HR). exists n, (sub ++ r). split; [eauto|]. eauto 8.
      - intros (n & r1 & (e & E & B) & sub & vals & -> & -> & C & HR). exists e, n, sub, vals. auto. }
    destruct (des_varint 8 false 0 data pos) as [[r n] q].
    assert (Kr : r = ROk \/ r <> ROk) by (destruct r; auto; right; discriminate).
    destruct Kr as [->|Hr].
    2:{ pose proof (decides_first data D1 D2 _ pos r n q (VSeq prior) q (fun b r0 => proj1 (HD b r0)) Hr F) as G.
        destruct r; try exact G; congruence. }
    eapply decides_then; [exact HD|exact F|]. destruct F as (F1 & F2 & _).
    unfold des_nested, rest_of. replace (q <=? length data)%nat with true by lia. cbn [as_seq].
    set (b := skipn q data).
    set (sub := firstn (N.to_nat (N.min n (N.of_nat (length b)))) b).
    assert (HLs : length sub = N.to_nat (N.min n (N.of_nat (length b)))).
    { unfold sub. rewrite firstn_length. lia. }
    assert (HLb : length b = (length data - q)%nat) by (unfold b; apply skipn_length).
    specialize (Hf sub ltac:(lia)).
    assert (HS : forall v r, D2 n b v r <-> exists vals, v = VSeq vals /\ R sub vals /\ r = skipn (length sub) b).
    { intros v r. unfold D2. split.
      - intros (s & vals & -> & E & C & HR). apply (content_split n b s r E) in C. fold sub in C. subst s.
        exists vals. split; [reflexivity|]. split; [exact HR|].
        rewrite E, skipn_app, Nat.sub_diag, skipn_all. reflexivity.
      - intros (vals & -> & HR & ->). exists sub, vals. split; [reflexivity|].
        assert (E : b = sub ++ skipn (length sub) b).
        { rewrite HLs. unfold sub. symmetry. apply firstn_skipn. }
        split; [exact E|]. split; [|exact HR]. apply (content_split n b); [exact E|reflexivity]. }
    destruct (fields sub prior) as [[r vs] p].
    apply settles_cases in Hf as [(-> & -> & S2 & S3)|(Hr & K)].
    - cbn [decides]. split; [lia|]. rewrite <- skipn_skipn. fold b. split.
      + apply HS. eauto.
      + intros v r Hv. apply HS in Hv as (vals & -> & HR & ->). apply S3 in HR as ->. auto.
    - assert (G : forall v p', decides data (D2 n b) q (r, v, p')).
      { intros v p'. apply decides_fail; [exact Hr|]. destruct K as [K|K]; [now left|right].
        intros v' r' Hv. apply HS in Hv as (vals & _ & HR & _). now apply K in HR. }
      destruct r; try apply G.
  Qed.

  Variables (P : penv).
  Hypothesis HP : wf_penv P.

  Lemma fields_decides nums ts fld :
    distinct nums = true ->
    (forall i n, nth_error nums i = Some n -> nth_error ts i <> None) ->
    (forall i t wt prior pos, nth_error ts i = Some t -> pwt P prior t = true ->
       (0 < pos <= length data)%nat ->
       psafe P true t (length data) pos (fld i wt prior pos) /\
       decides data (takes P t wt pos prior (skipn pos data)) pos (fld i wt prior pos)) ->
    forall n vals pos, (length data - pos < n)%nat -> (pos <= length data)%nat ->
      forall2b (fun x t => pwt P x t) vals ts = true ->
      settles (takes_all P nums ts pos vals (skipn pos data)) (length data) (field_loop data nums fld n vals pos).
  Proof.
    intros Hdist Hn Hf. induction n as [|n IH]; intros vals pos Hlt Hp Hw; [lia|].
    cbn [field_loop]. destruct (pos <? length data)%nat eqn:E.
    2:{ assert (pos = length data) by lia. subst pos. rewrite skipn_all. cbn [settles].
        split; [reflexivity|]. split; [constructor|]. intros v' R. inversion R; subst; auto.
        - destruct e; [|discriminate]. exfalso.
          match goal with B : base128 4 [] _ |- _ => destruct B as (m & B & _) end. discriminate.
        - destruct e; [|discriminate]. exfalso.
          match goal with B : base128 4 [] _ |- _ => destruct B as (m & B & _) end. discriminate. }
    assert (Hne : skipn pos data <> []).
    { intro X. apply (f_equal (@length byte)) in X. rewrite skipn_length in X. cbn in X. lia. }
    pose proof (varint_prog 4 false 0 data eq_refl pos Hp) as HV.
    pose proof (varint_decides data 4 false 0 pos eq_refl Hp) as F.
    set (D1 := fun n r => exists e, skipn pos data = e ++ r /\ variable 4 false e n) in F.
    assert (HI : forall vals', takes_all P nums ts pos vals (skipn pos data) vals' ->
       exists tag r1, D1 tag r1 /\
         ((exists i t prior v r, nth_error nums i = Some (tag / 8) /\ nth_error ts i = Some t /\
             nth_error vals i = Some prior /\
             takes P t (tag mod 8) (length data - length r1) prior r1 v r /\
             takes_all P nums ts (length data - length r) (set_nth i v vals) r vals')
          \/ (~ In (tag / 8) nums /\ tag / 8 <> 0 /\ takes_all P nums ts (length data - length r1) vals r1 vals'))).
    { intros vals' R. inversion R; subst; [congruence| |];
        match goal with X : _ ++ _ = skipn _ _ |- _ => symmetry in X; rename X into E0 end;
        destruct (skipn_has_at data pos _ _ Hp E0) as [K1 K2]; apply PbRead.has_at_le in K1.
      - exists tag, (used ++ rest). split; [exists e; split; [exact E0|]; exists tag; auto|]. left.
        apply (f_equal (@length byte)) in K2. rewrite app_length, skipn_length in K2.
        exists i, t, prior, v, rest. rewrite app_length.
        replace (length data - (length used + length rest))%nat with (pos + length e)%nat by lia.
        replace (length data - length rest)%nat with (pos + length e + length used)%nat by lia. auto.
      - exists tag, rest. split; [exists e; split; [exact E0|]; exists tag; auto|]. right.
        apply (f_equal (@length byte)) in K2. rewrite skipn_length in K2.
        replace (length data - length rest)%nat with (pos + length e)%nat by lia. auto. }
    destruct (des_varint 4 false 0 data pos) as [[r tag] q].
    assert (Kr : r = ROk \/ r <> ROk) by (destruct r; auto; right; discriminate).
    destruct Kr as [->|Hr].
    2:{ assert (G : settles (takes_all P nums ts pos vals (skipn pos data)) (length data) (r, vals, q)).
        { apply settles_fail; [exact Hr|]. apply decides_cases in F as [(-> & _)|(_ & [K|K])]; [congruence|now left|].
          right. intros v' R. apply HI in R as (tag' & r1 & R & _). now apply K in R. }
        destruct r; try exact G. congruence. }
    destruct HV as [HV _]. destruct F as (_ & (e & E0 & B) & F3).
    assert (He : (q = pos + length e)%nat).
    { apply (f_equal (@length byte)) in E0. rewrite app_length, !skipn_length in E0. lia. }
    rewrite N.shiftr_div_pow2. change (2 ^ 3) with 8.
    replace (N.land tag 7) with (tag mod 8) by (symmetry; apply (N.land_ones tag 3)).
    assert (B' : base128 4 e tag) by (now destruct B as (m & B & ->)).
    destruct (index_of nums (tag / 8)) as [i|] eqn:Ei.
    - apply index_of_lt in Ei. pose proof (Hn _ _ Ei) as Ht.
      destruct (nth_error ts i) as [t|] eqn:Et; [|congruence].
      destruct (forall2b_nth_l _ _ _ _ _ Hw Et) as (x & Hx & Hwx). rewrite Hx.
      destruct (Hf i t (tag mod 8) x q Et Hwx ltac:(lia)) as [Hs Hd].
      destruct (fld i (tag mod 8) x q) as [[r v] p]. destruct Hs as (S1 & S2 & _).
      assert (HI2 : forall vals', takes_all P nums ts pos vals (skipn pos data) vals' ->
        exists v r, takes P t (tag mod 8) q x (skipn q data) v r /\
          takes_all P nums ts (length data - length r) (set_nth i v vals) r vals').
      { intros vals' R. apply HI in R as (tag' & r1 & R1 & R2). apply F3 in R1 as [-> ->].
        destruct R2 as [(i' & t' & x' & v' & r' & A1 & A2 & A3 & A4 & A5)|(A1 & _)].
        - assert (i' = i) as ->.
          { apply index_of_nth in A1; [|exact Hdist]. apply index_of_nth in Ei; [|exact Hdist]. congruence. }
          rewrite Et in A2. injection A2 as <-. rewrite Hx in A3. injection A3 as <-.
          rewrite skipn_length in A4. replace (length data - (length data - q))%nat with q in A4 by lia. eauto.
        - exfalso. apply A1. eapply nth_error_In; eauto. }
      apply decides_cases in Hd as [(-> & D1' & D2' & D3')|(Hr & K)].
      + assert (HT : forall vals', takes_all P nums ts p (set_nth i v vals) (skipn p data) vals' ->
                       takes_all P nums ts pos vals (skipn pos data) vals').
        { intros vals' R. rewrite E0.
          replace (skipn q data) with (firstn (p - q) (skipn q data) ++ skipn p data).
          2:{ rewrite <- (firstn_skipn (p - q) (skipn q data)) at 2. f_equal. rewrite skipn_skipn. f_equal. lia. }
          eapply rd_member; eauto.
          - rewrite <- He. replace (firstn (p - q) (skipn q data) ++ skipn p data) with (skipn q data); [exact D2'|].
            rewrite <- (firstn_skipn (p - q) (skipn q data)) at 1. f_equal. rewrite skipn_skipn. f_equal. lia.
          - rewrite firstn_length, skipn_length.
            replace (pos + length e + Nat.min (p - q) (length data - q))%nat with p by lia. exact R. }
        specialize (IH (set_nth i v vals) p ltac:(lia) ltac:(lia) ltac:(eapply forall2b_set; eauto)).
        destruct (field_loop data nums fld n (set_nth i v vals) p) as [[r vs] p'].
        assert (HI3 : forall vals', takes_all P nums ts pos vals (skipn pos data) vals' ->
           takes_all P nums ts p (set_nth i v vals) (skipn p data) vals').
        { intros vals' R. apply HI2 in R as (v' & r' & A & R). apply D3' in A as [-> ->].
          rewrite skipn_length in R. replace (length data - (length data - p))%nat with p in R by lia. exact R. }
        apply settles_cases in IH as [(-> & -> & I1 & I2)|(Hr & K)].
        * cbn [settles]. split; [reflexivity|]. split; [now apply HT|]. intros v' R. apply I2. now apply HI3.
        * apply settles_fail; [exact Hr|]. destruct K as [K|K]; [now left|right]. intros v' R.
          apply (K v'). now apply HI3.
      + assert (G : settles (takes_all P nums ts pos vals (skipn pos data)) (length data) (r, set_nth i v vals, p)).
        { apply settles_fail; [exact Hr|]. destruct K as [K|K]; [now left|right]. intros v' R.
          apply HI2 in R as (v1 & r1 & A & _). now apply K in A. }
        destruct r; try exact G. congruence.
    - assert (Hni : ~ In (tag / 8) nums).
      { intro Hin. apply In_nth_error in Hin as [i Hi]. apply index_of_nth in Hi; [congruence|exact Hdist]. }
      assert (HI2 : forall vals', takes_all P nums ts pos vals (skipn pos data) vals' ->
        tag / 8 <> 0 /\ takes_all P nums ts q vals (skipn q data) vals').
      { intros vals' R. apply HI in R as (tag' & r1 & R1 & R2). apply F3 in R1 as [-> ->].
        destruct R2 as [(i' & t' & x' & v' & r' & A1 & _)|(_ & A1 & A2)].
        - exfalso. apply Hni. eapply nth_error_In; eauto.
        - rewrite skipn_length in A2. replace (length data - (length data - q))%nat with q in A2 by lia. auto. }
      destruct (N.eqb_spec (tag / 8) 0) as [Ez|Ez].
      + cbn [settles]. right. intros v' R. apply HI2 in R as [R _]. congruence.
      + specialize (IH vals q ltac:(lia) ltac:(lia) Hw).
        destruct (field_loop data nums fld n vals q) as [[r vs] p'].
        apply settles_cases in IH as [(-> & -> & I1 & I2)|(Hr & K)].
        * cbn [settles]. split; [reflexivity|]. split.
          -- rewrite E0. eapply rd_unknown; eauto. now rewrite <- He.
          -- intros v' R. apply I2. now apply HI2.
        * apply settles_fail; [exact Hr|]. destruct K as [K|K]; [now left|right]. intros v' R.
          apply (K v'). now apply HI2.
  Qed.
End Loops.

(** ** Members *)

Section Members.
  Variables (P : penv) (c : cfg).
  Hypothesis (HP : wf_penv P) (Hcmp : pcmp_env P) (Hlo : little_out c) (Hd : dsize c = SzVar 8).

  Lemma block_decides data fetch el ck at_ w prior :
    small data -> (at_ <= length data)%nat -> nprog fetch (length data) (pow256 w) ->
    (forall pos, (pos <= length data)%nat ->
       decides data (fun n r => exists e, skipn pos data = e ++ r /\ el e n) pos (fetch pos)) ->
    decides data (fun v r => exists l, v = VSeq l /\ block el (cinsert ck) at_ prior (skipn at_ data) l r) at_
      (match des_varint 8 false 0 data at_ with
       | (ROk, len, pos') =>
           if reserve_ok c ck len prior
           then packed_loop fetch (cinsert ck) (wadd len (N.of_nat pos')) (S (length data)) prior pos'
           else (RThrow, VSeq prior, pos')
       | (r, _, pos') => (r, VSeq prior, pos')
       end).
  Proof.
    intros Hsm Hp Hpr Hf. pose proof (length_decides data at_ Hp) as F.
    set (D1 := fun n r => exists e, skipn at_ data = e ++ r /\ base128 8 e n) in F.
    set (D2 := fun n r1 v r => exists l, v = VSeq l /\
      run el (cinsert ck) ((n + N.of_nat (length data - length r1)) mod 2 ^ 64) (length data - length r1)
        prior r1 l r).
    match goal with |- decides _ ?D _ _ => assert (HD : forall v r, D v r <-> exists n r1, D1 n r1 /\ D2 n r1 v r) end.
    { intros v r. unfold D1, D2, block. split.
      - intros (l & -> & e & n & b' & E & B & R). exists n, b'. split; [eauto|]. exists l. split; [reflexivity|].
        apply (f_equal (@length byte)) in E. rewrite app_length, skipn_length in E.
        replace (length data - length b')%nat with (at_ + length e)%nat by lia. exact R.
      - intros (n & r1 & (e & E & B) & l & -> & R). exists l. split; [reflexivity|]. exists e, n, r1.
        split; [exact E|]. split; [exact B|].
        apply (f_equal (@length byte)) in E. rewrite app_length, skipn_length in E.
        replace (at_ + length e)%nat with (length data - length r1)%nat by lia. exact R. }
    destruct (des_varint 8 false 0 data at_) as [[r n] q].
    assert (Kr : r = ROk \/ r <> ROk) by (destruct r; auto; right; discriminate).
    destruct Kr as [->|Hr].
    2:{ pose proof (decides_first data D1 D2 _ at_ r n q (VSeq prior) q (fun b r0 => proj1 (HD b r0)) Hr F) as G.
        destruct r; try exact G; congruence. }
    destruct (reserve_ok c ck n prior); [|cbn [decides]; left; exact I].
    eapply decides_then; [exact HD|exact F|]. destruct F as (F1 & _).
    eapply decides_iff; [|eapply run_decides with (n := S (length data)) (pos := q); eauto; lia].
    intros v r. unfold D2, wadd. rewrite skipn_length.
    replace (length data - (length data - q))%nat with q by lia. reflexivity.
  Qed.

  Variables (rec : nat -> list byte -> list val -> res * list val * nat) (L : nat).
  Hypothesis Hrs : forall k sub vals, (length sub < L)%nat -> small sub ->
    pwt P (VSeq vals) (PMsg k) = true ->
    fsafe P true (map snd (m_fields (P k))) (length sub) (rec k sub vals).
  Hypothesis Hrec : forall k sub vals, (length sub < L)%nat -> small sub ->
    pwt P (VSeq vals) (PMsg k) = true ->
    settles (takes_all P (msg_numbers P k) (msg_types P k) 0 (start (msg_types P k) vals) sub) (length sub)
      (rec k sub vals).

  Lemma add_object_decides data (ins : list val -> val -> list val) D D' prior pos x :
    (forall v r, D' v r <-> exists a, v = VSeq (ins prior a) /\ D a r) ->
    decides data D pos x -> decides data D' pos (add_object ins (VSeq prior) x).
  Proof.
    intros HD H. destruct x as [[r v] p]. unfold add_object. cbn [as_seq].
    destruct r; (eapply (decides_map data (fun a => VSeq (ins prior a)) D D'); [exact HD| |exact H]);
      congruence.
  Qed.

  Lemma des_field_decides t :
    wfp t = true -> pcmp_ok P t ->
    forall data, (length data <= L)%nat -> small data ->
    forall wt prior pos, (0 < pos <= length data)%nat -> pwt P prior t = true ->
    decides data (takes P t wt pos prior (skipn pos data)) pos (des_field P c rec t data wt prior pos).
  Proof.
    induction t as [w| | |w sg zz| |k|ck w|ck w sg zz|ck contig w|ck k|ak kt IHk vt IHv|m w];
      cbn [wfp pcmp_ok]; intros Hwf Hc data HL Hsm wt prior pos Hp Hpr;
      destruct prior as [n|l| | | | | |]; try discriminate; cbn [des_field vnum].
    - (* fixed *)
      pose proof (scalar_decides c data Hlo Hsm w n pos ltac:(lia)) as A.
      destruct (des_scalar c data w n pos) as [[r x] p]. cbn [nres].
      eapply (decides_map data VN); [|reflexivity|exact A]. intros v r'. split.
      + intro T; inversion T; subst. exists n0. split; [reflexivity|]. eauto.
      + intros (x' & -> & e & -> & F). now constructor.
    - (* bool *)
      pose proof (scalar_decides c data Hlo Hsm 1 0 pos ltac:(lia)) as A.
      assert (HT : forall v r', takes P PBool wt pos (VN n) (skipn pos data) v r' <->
        exists x, v = VN x /\ x < 2 /\ exists e, skipn pos data = e ++ r' /\ fixed 1 e x).
      { intros v r'. split.
        - intro T; inversion T; subst. exists n0. split; [reflexivity|]. split; [assumption|]. eauto.
        - intros (x' & -> & Hx & e & -> & F). now constructor. }
      destruct (des_scalar c data 1 0 pos) as [[r x] p].
      apply decides_cases in A as [(-> & A1 & A2 & A3)|(Hr & K)].
      + destruct (N.ltb_spec x 2) as [Hx|Hx].
        * cbn [decides]. split; [exact A1|]. split; [apply HT; eauto|].
          intros v r' T. apply HT in T as (x' & -> & _ & T). apply A3 in T as [-> ->]. auto.
        * cbn [decides]. right. intros v r' T. apply HT in T as (x' & -> & Hx' & T).
          apply A3 in T as [-> _]. lia.
      + assert (G : decides data (takes P PBool wt pos (VN n) (skipn pos data)) pos (r, VN n, p)).
        { apply decides_fail; [exact Hr|]. destruct K as [K|K]; [now left|right].
          intros v r' T. apply HT in T as (x' & _ & _ & T). now apply K in T. }
        destruct r; try exact G. congruence.
    - (* byte *)
      pose proof (varint_decides data 1 false n pos eq_refl ltac:(lia)) as A.
      destruct (des_varint 1 false n data pos) as [[r x] p]. cbn [nres].
      eapply (decides_map data VN); [|reflexivity|exact A]. intros v r'. split.
      + intro T; inversion T; subst. exists n0. split; [reflexivity|]. eauto.
      + intros (x' & -> & e & -> & F). now constructor.
    - (* varint *)
      pose proof (varint_decides data w zz n pos Hwf ltac:(lia)) as A.
      destruct (des_varint w zz n data pos) as [[r x] p]. cbn [nres].
      eapply (decides_map data VN); [|reflexivity|exact A]. intros v r'. split.
      + intro T; inversion T; subst. exists n0. split; [reflexivity|]. eauto.
      + intros (x' & -> & e & -> & F). now constructor.
    - (* empty *)
      cbn [decides]. split; [lia|]. split; [constructor|]. intros v r T. inversion T; subst. auto.
    - (* message *)
      eapply decides_iff; [|eapply nested_decides with (R := takes_all P (msg_numbers P k) (msg_types P k) 0
        (start (msg_types P k) l)); [lia|exact Hd|]].
      + intros v r. split.
        * intros (e & n & sub & vals & -> & -> & B & C & T). econstructor; eauto.
        * intro T; inversion T; subst. exists e, n, sub, vals. auto.
      + intros sub Hs. apply Hrec; [lia|unfold small in *; lia|exact Hpr].
    - (* numbers of fixed width *)
      unfold des_scalars. cbn [as_seq]. destruct (N.eqb_spec wt 2) as [->|Hwt]; cbn [negb].
      + destruct ck as [ct rv|ak rv].
        * pose proof (length_decides data pos ltac:(lia)) as F.
          set (D1 := fun n r => exists e, skipn pos data = e ++ r /\ base128 8 e n) in F.
          set (D2 := fun n r1 v r => exists ns, v = VSeq (map VN ns) /\
            N.of_nat (length ns) = n / N.of_nat w /\ Forall (fun x => x < pow256 w) ns /\
            r1 = flat_map (le_bytes w) ns ++ r).
          assert (HD : forall v r, takes P (PFixes (CSeq ct rv) w) 2 pos (VSeq l) (skipn pos data) v r
                        <-> exists n r1, D1 n r1 /\ D2 n r1 v r).
          { intros v r. unfold D1, D2. split.
            - intro T; inversion T; subst; [congruence|].
              exists n, (flat_map (le_bytes w) ns ++ r). split; [eauto|]. exists ns. auto.
            - intros (n & r1 & (e & -> & B) & ns & -> & L1 & F1 & ->). econstructor; eauto. }
          destruct (des_varint 8 false 0 data pos) as [[r n] q].
          assert (Kr : r = ROk \/ r <> ROk) by (destruct r; auto; right; discriminate).
          destruct Kr as [->|Hr].
          2:{ pose proof (decides_first data D1 D2 _ pos r n q (VSeq l) q (fun b r0 => proj1 (HD b r0)) Hr F) as G.
              destruct r; try exact G; congruence. }
          destruct (match alim c with Some lim => lim <? n | None => false end);
            [cbn [decides]; left; exact I|].
          destruct ((_ <=? _) || _); [|cbn [decides]; left; exact I].
          eapply decides_then; [exact HD|exact F|]. destruct F as (F1 & _).
          cbn [unsized_ty des_ty sz_of as_seq].
          eapply decides_iff; [|apply (elems_decides c data Hlo Hsm); [exact Hwf|lia|]].
          -- intros v r. unfold D2. rewrite vresize_length. split.
             ++ intros (ns & -> & E & Hns & Hs). exists ns. split; [reflexivity|]. split; [lia|]. auto.
             ++ intros (ns & -> & E & Hns & Hs). exists ns. split; [reflexivity|]. split; [lia|]. auto.
          -- rewrite forallb_forall. apply Forall_forall. apply vresize_forall.
             ++ cbn. pose proof (pow256_pos w). lia.
             ++ cbn [pwt] in Hpr. apply andb_true_iff in Hpr as [Hpr _].
                now apply Forall_forall, forallb_forall.
        * pose proof (block_decides data (des_scalar c data w 0) (fixed w) (CSet ak rv) pos w l Hsm ltac:(lia)
            (scalar_prog c w 0 data ltac:(pose proof (wfw_pos _ Hwf); lia) Hsm)
            (fun p Hp => scalar_decides c data Hlo Hsm w 0 p Hp)) as A.
          eapply decides_iff; [|exact A]. intros v r. split.
          -- intros (l' & -> & B). now constructor.
          -- intro T; inversion T; subst; [congruence|]. eauto.
      + pose proof (scalar_decides c data Hlo Hsm w 0 pos ltac:(lia)) as A.
        assert (G : forall r x p v, (r = ROk -> v = VSeq (cinsert ck l (VN x))) ->
          decides data (fun n r => exists e, skipn pos data = e ++ r /\ fixed w e n) pos (r, x, p) ->
          decides data (takes P (PFixes ck w) wt pos (VSeq l) (skipn pos data)) pos (r, v, p)).
        { intros r x p v Hv. apply (decides_map data (fun x => VSeq (cinsert ck l (VN x)))); [|exact Hv].
          intros v' r'. split.
          - intro T; inversion T; subst; try congruence. exists n. split; [reflexivity|]. eauto.
          - intros (x' & -> & e & -> & F). now constructor. }
        destruct (des_scalar c data w 0 pos) as [[r x] p].
        destruct r; (apply (G _ x); [|exact A]); congruence.
    - (* variable length numbers *)
      unfold des_scalars. cbn [as_seq]. destruct (N.eqb_spec wt 2) as [->|Hwt]; cbn [negb].
      + pose proof (block_decides data (des_varint w zz 0 data) (variable w zz) ck pos w l Hsm ltac:(lia)
          (varint_prog w zz 0 data Hwf) (fun p Hp => varint_decides data w zz 0 p Hwf Hp)) as A.
        eapply decides_iff; [|exact A]. intros v r. split.
        * intros (l' & -> & B). now constructor.
        * intro T; inversion T; subst; [congruence|]. eauto.
      + pose proof (varint_decides data w zz 0 pos Hwf ltac:(lia)) as A.
        assert (G : forall r x p v, (r = ROk -> v = VSeq (cinsert ck l (VN x))) ->
          decides data (fun n r => exists e, skipn pos data = e ++ r /\ variable w zz e n) pos (r, x, p) ->
          decides data (takes P (PVars ck w sg zz) wt pos (VSeq l) (skipn pos data)) pos (r, v, p)).
        { intros r x p v Hv. apply (decides_map data (fun x => VSeq (cinsert ck l (VN x)))); [|exact Hv].
          intros v' r'. split.
          - intro T; inversion T; subst; try congruence. exists n. split; [reflexivity|]. eauto.
          - intros (x' & -> & e & -> & F). now constructor. }
        destruct (des_varint w zz 0 data pos) as [[r x] p].
        destruct r; (apply (G _ x); [|exact A]); congruence.
    - (* strings *)
      eapply add_object_decides with (D := fun a r => exists e ns, a = VSeq (map VN ns) /\
        skipn pos data = e ++ flat_map (le_bytes w) ns ++ r /\
        base128 8 e (N.of_nat (length ns)) /\ Forall (fun x => x < pow256 w) ns).
      { intros v r. split.
        - intro T; inversion T; subst. exists (VSeq (map VN ns)). split; [reflexivity|]. exists e, ns. auto.
        - intros (a & -> & e & ns & -> & -> & B & F). now constructor. }
      cbn [des_ty sz_of]. rewrite Hd. cbn [des_size].
      pose proof (length_decides data pos ltac:(lia)) as F.
      set (D1 := fun n r => exists e, skipn pos data = e ++ r /\ base128 8 e n) in F.
      set (D2 := fun n r1 v r => exists ns, v = VSeq (map VN ns) /\ N.of_nat (length ns) = n /\
        Forall (fun x => x < pow256 w) ns /\ r1 = flat_map (le_bytes w) ns ++ r).
      match goal with |- decides _ ?D _ _ => assert (HD : forall v r, D v r <-> exists n r1, D1 n r1 /\ D2 n r1 v r) end.
      { intros v r. unfold D1, D2. split.
        - intros (e & ns & -> & E & B & Hns). exists (N.of_nat (length ns)), (flat_map (le_bytes w) ns ++ r).
          split; [eauto|]. exists ns. auto.
        - intros (n & r1 & (e & E & B) & ns & -> & <- & Hns & ->). exists e, ns. auto. }
      destruct (des_varint 8 false 0 data pos) as [[r n] q].
      assert (Kr : r = ROk \/ r <> ROk) by (destruct r; auto; right; discriminate).
      destruct Kr as [->|Hr].
      2:{ pose proof (decides_first data D1 D2 _ pos r n q (VSeq []) q (fun b r0 => proj1 (HD b r0)) Hr F) as G.
          destruct r; try exact G; congruence. }
      unfold vec_resize. destruct (over_limit _ _ _); [cbn [decides]; left; exact I|].
      destruct ((_ <=? _) || _); [|cbn [decides]; left; exact I].
      eapply decides_then; [exact HD|exact F|]. destruct F as (F1 & _).
      eapply decides_iff; [|apply (elems_decides c data Hlo Hsm); [exact Hwf|lia|]].
      + intros v r. unfold D2. rewrite vresize_length. split.
        * intros (ns & -> & E & Hns & Hs). exists ns. split; [reflexivity|]. split; [lia|]. auto.
        * intros (ns & -> & E & Hns & Hs). exists ns. split; [reflexivity|]. split; [lia|]. auto.
      + rewrite forallb_forall. apply Forall_forall. apply vresize_forall; [|constructor].
        cbn. pose proof (pow256_pos w). lia.
    - (* messages *)
      eapply add_object_decides.
      2:{ eapply nested_decides with (R := takes_all P (msg_numbers P k) (msg_types P k) 0
            (start (msg_types P k) (m_dflt (P k)))); [lia|exact Hd|].
          intros sub Hs. apply Hrec; [lia|unfold small in *; lia|apply (pwt_pdflt P (PMsg k) HP)]. }
      intros v r. split.
      + intro T; inversion T; subst. exists (VSeq vals). split; [reflexivity|]. exists e, n, sub, vals. auto.
      + intros (a & -> & e & n & sub & vals & -> & -> & B & C & T). econstructor; eauto.
    - (* maps *)
      apply andb_true_iff in Hwf as [Hwk Hwv]. destruct Hc as (_ & Hck & Hcv).
      eapply add_object_decides.
      2:{ eapply nested_decides with (R := takes_all P [1; 2] [kt; vt] 0
            (start [kt; vt] [pdflt P kt; pdflt P vt])); [lia|exact Hd|].
          intros sub Hs.
          assert (Hss : small sub) by (unfold small in *; lia).
          rewrite start_clear.
          pose proof (fields_decides sub P [1; 2] [kt; vt]
            (fun i => match i with O => des_field P c rec kt sub | S _ => des_field P c rec vt sub end)
            eq_refl) as G.
          apply (G ltac:(intros [|[|[|i]]] n; cbn; congruence)); clear G; try lia.
          - intros [|[|[|i]]] t wt' prior pos' Ht Hw' Hp'; cbn in Ht; try discriminate; inversion Ht; subst t.
            + split; [apply (des_field_safe P true HP c) with (L := L)|apply IHk]; auto; try lia.
              rewrite Hd. reflexivity.
            + split; [apply (des_field_safe P true HP c) with (L := L)|apply IHv]; auto; try lia.
              rewrite Hd. reflexivity.
          - rewrite <- start_clear. apply clear_members_wt. cbn [forall2b]. now rewrite !pwt_pdflt. }
      intros v r. split.
      + intro T; inversion T; subst. exists (VSeq vals). split; [reflexivity|]. exists e, n, sub, vals. auto.
      + intros (a & -> & e & n & sub & vals & -> & -> & B & C & T). econstructor; eauto.
    - (* C array *)
      apply andb_true_iff in Hwf as [_ Hwf]. cbn [pwt] in Hpr. apply andb_true_iff in Hpr as [Hn Hpr].
      apply Nat.eqb_eq in Hn. cbn [des_ty as_seq].
      rewrite <- (andb_true_r (as_bytes c (scalar_ty w))).
      eapply decides_iff; [|apply (elems_decides c data Hlo Hsm); [exact Hwf|lia|exact Hpr]].
      intros v r. split.
      + intros (ns & -> & E & Hns & Hs). rewrite Hs. constructor; [lia|exact Hns].
      + intro T; inversion T; subst. exists ns. auto.
  Qed.
End Members.

Lemma des_fields_settles P c fuel :
  wf_penv P -> pcmp_env P -> little_out c -> dsize c = SzVar 8 ->
  forall k data vals, small data -> (length data < fuel)%nat -> pwt P (VSeq vals) (PMsg k) = true ->
  settles (message_takes P k vals data) (length data) (des_fields P c fuel k data vals).
Proof.
  intros HP Hcmp Hlo Hd. induction fuel as [|f IH]; intros k data vals Hsm Hlt Hw; [lia|].
  cbn [des_fields]. cbn [pwt] in Hw. rewrite forall2b_snd in Hw.
  destruct (message_facts P HP k) as (E & W1 & W2 & _).
  rewrite start_clear. fold (msg_types P k) in *. rewrite <- E.
  unfold message_takes. change data with (skipn 0 data) at 1.
  apply (fields_decides data P).
  - exact W2.
  - intros i n Hn. rewrite E in Hn. apply numbers_from_nth in Hn as (fd & Hn & _).
    unfold msg_types. erewrite map_nth_error by eassumption. discriminate.
  - intros i t wt prior pos Ht Hpr Hp. unfold msg_types in Ht.
    destruct (nth_error (m_fields (P k)) i) as [fd|] eqn:Ei.
    2:{ apply nth_error_None in Ei. assert (nth_error (map snd (m_fields (P k))) i <> None) as D
          by congruence. apply nth_error_Some in D. rewrite map_length in D.
        exfalso. exact (Nat.lt_irrefl _ (Nat.lt_le_trans _ _ _ D Ei)). }
    rewrite (map_nth_error snd _ _ Ei) in Ht. injection Ht as <-.
    pose proof (nth_error_In _ _ Ei) as Hin.
    assert (Hwf : wfp (snd fd) = true).
    { rewrite forallb_forall in W1. apply W1. unfold msg_types. now apply in_map. }
    assert (Hc : pcmp_ok P (snd fd)).
    { specialize (Hcmp k). rewrite Forall_forall in Hcmp. now apply Hcmp. }
    assert (Hsafe : forall k' sub vals', (length sub < length data)%nat -> small sub ->
      pwt P (VSeq vals') (PMsg k') = true ->
      fsafe P true (map snd (m_fields (P k'))) (length sub) (des_fields P c f k' sub vals')).
    { intros k' sub vals' Hl Hs Hv. apply des_fields_safe; auto; [now rewrite Hd| |lia].
      intro k0. apply forallb_forall. reflexivity. }
    split.
    + apply (des_field_safe P true HP c) with (L := length data); auto. now rewrite Hd.
    + apply des_field_decides with (L := length data); auto.
      intros k' sub vals' Hl Hs Hv. apply IH; auto. lia.
  - lia.
  - lia.
  - rewrite <- start_clear. now apply clear_members_wt.
Qed.
