(** C98: data with protobuf messages written again after memory or room ran out. *)

From Coq Require Import List NArith ZArith Lia Bool Arith.
From Coq Require Import ZifyBool ZifyNat ZifyN.
From Verif Require Import Base.Bytes Model.Types Model.Machine Model.Varint Model.Out Model.In Model.Protocol
  Model.Pb Model.PbNative Model.Mixed Model.OutAgain Model.MixedAgain Spec.Leb128 Spec.Wire Spec.PbWire Spec.PbMerge
  Spec.MixedWire Proofs.VarintP Proofs.OutP Proofs.InBase Proofs.ProtoP Proofs.PbOut Proofs.PbParse
  Proofs.PbIn Proofs.CustomP Proofs.MixedP Proofs.MixedRound Proofs.MixedNull Thm.Demo Thm.Pb Thm.Mixed Thm.MixedNull.
Import ListNotations.
Local Open Scope N_scope.

(** What attempts leave: only the bytes before the position matter. *)
Record kept (base : list byte) (p : nat) (s : ost) : Prop := {
  k_pos : opos s = p;
  k_ok : ost_ok s;
  k_base : firstn p (obuf s) = firstn p base
}.

Lemma firstn_overwrite (l e : list byte) p k : (p <= length l)%nat ->
  firstn p (overwrite (l ++ zeros k) p e) = firstn p l.
Proof.
  intro Hp. unfold overwrite. rewrite (firstn_app p l). replace (p - length l)%nat with O by lia.
  cbn [firstn]. rewrite app_nil_r, firstn_app, firstn_firstn, Nat.min_id, firstn_length.
  replace (p - Nat.min p (length l))%nat with O by lia. cbn [firstn]. now rewrite app_nil_r.
Qed.

Lemma window_firstn (l : list byte) p n m : (p + n <= m)%nat -> window (firstn m l) p n = window l p n.
Proof.
  intro H. unfold window. rewrite skipn_firstn_comm, firstn_firstn. f_equal. lia.
Qed.

(** The result for data that can be written, or that stops at a null pointer. *)
Definition fate (p : list byte * bool) : res := if snd p then ROk else RErr invalid_argument.

Section Attempts.
  Variables (G : tenv) (M : nat -> bool) (P : penv) (vs : list val) (ts : list ty).

  Lemma mixed_attempt c base p s r s' :
    mixed_trying G M P c (VSeq vs) (TTuple ts) -> kept base p s -> mout_call G M P vs ts c s = (r, s') ->
    let q := menc G M P c (VSeq vs) (TTuple ts) in
    kept base p (mkO (obuf s') p)
    /\ (out_of_room r = false -> r = fate q /\ ost_ok s' /\ opos s' = (p + length (fst q))%nat
          /\ window (obuf s') p (length (fst q)) = fst q)
    /\ (forall E, rich c E -> (p + length (fst q) <= E)%nat -> out_of_room r = false).
  Proof.
    intros W [K1 K2 K3] E q. unfold mout_call in E.
    change (ser_many (mser G M P c) vs ts s) with (mser G M P c (VSeq vs) (TTuple ts) s) in E.
    pose proof (mixed_null_stops _ _ _ _ _ _ W s K2) as H. fold q in H.
    destruct (mser G M P c (VSeq vs) (TTuple ts) s) as [r1 s1]. destruct H as [H R].
    pose proof K2 as [O1 O2].
    assert (A : ost_ok s1 /\ (p <= opos s1)%nat /\ firstn p (obuf s1) = firstn p base
      /\ (out_of_room r1 = false -> r1 = fate q /\ opos s1 = (p + length (fst q))%nat
            /\ window (obuf s1) p (length (fst q)) = fst q)).
    { assert (X : wrote_exactly c s (fst q) s1 -> ost_ok s1 /\ (p <= opos s1)%nat
        /\ firstn p (obuf s1) = firstn p base /\ opos s1 = (p + length (fst q))%nat
        /\ window (obuf s1) p (length (fst q)) = fst q).
      { intro Hw. split; [eapply wrote_ok; eauto|]. destruct Hw as (k & -> & Hk & _). cbn [obuf opos]. rewrite K1 in *.
        split; [lia|]. split; [rewrite firstn_overwrite by lia; exact K3|]. split; [reflexivity|].
        apply window_overwrite. rewrite app_length, zeros_length. lia. }
      assert (Y : framed c s s1 -> ost_ok s1 /\ (p <= opos s1)%nat /\ firstn p (obuf s1) = firstn p base).
      { intro Hf. split; [eapply framed_ok; eauto|]. destruct Hf as (k & junk & Hb & Hp & Hk & _). rewrite K1 in *.
        split; [lia|]. rewrite Hb, firstn_overwrite by lia. exact K3. }
      unfold fate. destruct r1 as [|[]| | |]; try contradiction; destruct H as [H1 H2].
      - destruct (X H2) as (X1 & X2 & X3 & X4 & X5). rewrite H1. auto 8.
      - destruct H2 as [H2 _]. destruct (Y H2) as (Y1 & Y2 & Y3). repeat split; auto; try discriminate; apply Y1.
      - destruct (Y H2) as (Y1 & Y2 & Y3). repeat split; auto; try discriminate; apply Y1.
      - destruct (X H2) as (X1 & X2 & X3 & X4 & X5). rewrite H1. auto 8.
      - destruct (Y H2) as (Y1 & Y2 & Y3). repeat split; auto; try discriminate; apply Y1. }
    destruct A as ([A1 A1'] & A2 & A3 & A4). rewrite K1 in R.
    assert (Hc : r = r1 /\ (s' = s1 \/ s' = mkO (firstn (opos s1) (obuf s1)) (opos s1))).
    { destruct (_ && _); [|injection E as <- <-; auto]. unfold fit_size, buf_resize in E.
      replace (N.of_nat (opos s1) <=? N.of_nat (length (obuf s1))) with true in E by lia.
      rewrite Nat2N.id in E. destruct r1; try (injection E as <- <-; auto); destruct (_ <=? _)%nat; injection E as <- <-; auto. }
    assert (Rf : forall E, rich c E -> (p + length (fst q) <= E)%nat -> out_of_room r1 = false).
    { intros m Hm HE. rewrite (R m Hm HE). destruct (snd q); reflexivity. }
    destruct Hc as [-> [->| ->]].
    - split; [split; [reflexivity|split; [exact (Nat.le_trans _ _ _ A2 A1)|exact A1']|exact A3]|]. split; [|exact Rf].
      intro Hr. destruct (A4 Hr) as (B1 & B2 & B3). split; [exact B1|]. split; [split; assumption|]. auto.
    - assert (L : length (firstn (opos s1) (obuf s1)) = opos s1) by (rewrite firstn_length; lia).
      split; [|split; [|exact Rf]].
      + split; [reflexivity|split; cbn [obuf opos]; rewrite L; [exact A2|lia]|].
        cbn [obuf]. rewrite firstn_firstn. now replace (Nat.min p (opos s1)) with p by lia.
      + intro Hr. destruct (A4 Hr) as (B1 & B2 & B3). split; [exact B1|].
        split; [split; cbn [obuf opos]; rewrite L; lia|]. cbn [obuf opos]. split; [exact B2|].
        rewrite window_firstn by lia. exact B3.
  Qed.

  (** The attempts of one program: the same encoding, whatever memory each of them finds. *)
  Definition mattempts (q : list byte * bool) (cs : list cfg) : Prop :=
    Forall (fun c => mixed_trying G M P c (VSeq vs) (TTuple ts) /\ menc G M P c (VSeq vs) (TTuple ts) = q) cs.

  Lemma mixed_again_kept q base p : forall cs c s r s',
    mattempts q (c :: cs) -> kept base p s -> mout_again G M P vs ts true c cs s = (r, s') ->
    kept base p (mkO (obuf s') p)
    /\ (out_of_room r = false -> r = fate q /\ ost_ok s' /\ opos s' = (p + length (fst q))%nat
          /\ window (obuf s') p (length (fst q)) = fst q)
    /\ (forall E, Exists (fun c => rich c E) (c :: cs) -> (p + length (fst q) <= E)%nat -> out_of_room r = false).
  Proof.
    induction cs as [|c' cs IH]; intros c s r s' HA T E; inversion HA as [|x l [W Hf] HA']; subst x l;
      cbn [mout_again] in E; destruct (mout_call G M P vs ts c s) as [r1 s1] eqn:E1;
      destruct (mixed_attempt _ _ _ _ _ _ W T E1) as (A1 & A2 & A3); rewrite Hf in A2, A3.
    - assert (X : (r1, s1) = (r, s')) by (destruct (out_of_room r1); exact E). injection X as <- <-.
      split; [exact A1|]. split; [exact A2|].
      intros m HM HE. apply Exists_cons in HM as [HM|HM]; [eauto|inversion HM].
    - destruct (out_of_room r1) eqn:Er.
      + rewrite (k_pos _ _ _ T) in E. destruct (IH c' _ _ _ HA' A1 E) as (B1 & B2 & B3).
        split; [exact B1|]. split; [exact B2|]. intros m HM HE. apply Exists_cons in HM as [HM|HM]; [|now apply (B3 m)].
        specialize (A3 m HM HE). discriminate.
      + injection E as <- <-. split; [exact A1|]. split; [intros _; now apply A2|]. intros _ _ _. exact Er.
  Qed.

  (** Whatever the buffer held from the position on, whatever failed attempts left there: if the
      program ends otherwise than for want of room, the items are there, up to the first null
      pointer, with the lengths of all their messages. *)
  Theorem mixed_again_written q c cs st r st' :
    mattempts q (c :: cs) -> ost_ok st ->
    mout_again G M P vs ts true c cs st = (r, st') -> out_of_room r = false ->
    r = (if snd q then ROk else RErr invalid_argument)
    /\ opos st' = (opos st + length (fst q))%nat
    /\ firstn (opos st) (obuf st') = firstn (opos st) (obuf st)
    /\ window (obuf st') (opos st) (length (fst q)) = fst q.
  Proof.
    intros HA Ho E Hr.
    destruct (mixed_again_kept q (obuf st) (opos st) _ _ _ _ _ HA (Build_kept _ _ _ eq_refl Ho eq_refl) E) as (A & B & _).
    destruct (B Hr) as (B1 & _ & B2 & B3). split; [exact B1|]. split; [exact B2|]. split; [apply A|exact B3].
  Qed.

  (** One attempt with enough memory is enough. *)
  Theorem mixed_again_ends q c cs st r st' E :
    mattempts q (c :: cs) -> ost_ok st ->
    mout_again G M P vs ts true c cs st = (r, st') ->
    Exists (fun c => rich c E) (c :: cs) -> (opos st + length (fst q) <= E)%nat ->
    r = if snd q then ROk else RErr invalid_argument.
  Proof.
    intros HA Ho H HE HL.
    destruct (mixed_again_kept q (obuf st) (opos st) _ _ _ _ _ HA (Build_kept _ _ _ eq_refl Ho eq_refl) H) as (_ & B & C).
    exact (proj1 (B (C E HE HL))).
  Qed.
End Attempts.

(** ** Examples *)

(** A vector that may have [k] bytes. *)
Definition mixed_mem (k : N) : cfg :=
  mkCfg true false (SzFix 4) None 3 2 false false true (fun n => n <=? k) (fun _ => 8).

Definition again_ts : list ty := [TScalar 1 false; TVec None true (TPtr (TRec 1))].
Definition again_vs : list val := [VN 7; VSeq [VSome (mx_phone 1); VSome (mx_phone 2)]].

Lemma mixed_attempts ks :
  mattempts mx_env_demo mx_msg pb_demo again_vs again_ts
    (menc mx_env_demo mx_msg pb_demo (mixed_mem 0) (VSeq again_vs) (TTuple again_ts)) (map mixed_mem ks).
Proof.
  apply Forall_forall. intros c Hin. apply in_map_iff in Hin as (k & <- & _). split; [|reflexivity].
  constructor; try exact mx_demo_mixed; try exact pb_demo_numbers; try (vm_compute; reflexivity).
  - intros _. split; [reflexivity|]. split; [discriminate|reflexivity].
  - intros [|[|[|j]]] H; try discriminate; reflexivity.
  - intros [|[|[|j]]] H; try discriminate; reflexivity.
Qed.

(** Two attempts run out of memory; the third writes over what they left. *)
Example mixed_again_nontrivial :
  let st := mkO [x55; xee; xee; xee; xee; xee; xee; xee; xee] 1 in
  let again := mout_again mx_env_demo mx_msg pb_demo again_vs again_ts true in
  fst (again (mixed_mem 12) [] st) = RThrow
  /\ fst (again (mixed_mem 12) [mixed_mem 19] st) = RThrow
  /\ exists st', again (mixed_mem 12) [mixed_mem 19; mixed_mem 200] st = (ROk, st')
     /\ firstn (opos st') (obuf st')
        = [x55; x07; x02; x00; x00; x00; x06; x00; x00; x00; x0a; x02; x30; x31; x10; x01;
           x06; x00; x00; x00; x0a; x02; x30; x31; x10; x02].
Proof.
  split; [vm_compute; reflexivity|]. split; [vm_compute; reflexivity|].
  eexists. split; [vm_compute; reflexivity|]. vm_compute. reflexivity.
Qed.

(** Called again without setting the position back. *)
Theorem mixed_again_position_refuted :
  exists G M P vs ts q c cs st st',
    mattempts G M P vs ts q (c :: cs) /\ ost_ok st
    /\ mout_again G M P vs ts false c cs st = (ROk, st')
    /\ window (obuf st') (opos st) (length (fst q)) <> fst q.
Proof.
  exists mx_env_demo, mx_msg, pb_demo, again_vs, again_ts. eexists.
  exists (mixed_mem 12), [mixed_mem 200], (mkO [] 0). eexists.
  split; [exact (mixed_attempts [12; 200])|]. split; [split; [cbn; lia|reflexivity]|].
  split; [vm_compute; reflexivity|]. vm_compute. discriminate.
Qed.

Print Assumptions mixed_again_written.
Print Assumptions mixed_again_ends.
Print Assumptions mixed_again_position_refuted.
