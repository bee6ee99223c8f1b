(** C97: objects written again after memory or room ran out. *)

From Coq Require Import List NArith ZArith Lia Bool Arith.
From Coq Require Import ZifyBool ZifyNat ZifyN.
From Verif Require Import Base.Bytes Model.Types Model.Machine Model.Varint Model.Out Model.OutAgain
  Spec.Leb128 Spec.Wire Proofs.VarintP Proofs.OutP Thm.Demo Thm.Output Thm.RetryBits.
Import ListNotations.
Local Open Scope N_scope.

(** What attempts leave: the bytes before the position are as ever, those from the position on are
    zero or bytes of the encoding. *)
Record tried (base : list byte) (p : nat) (e : list byte) (s : ost) : Prop := {
  r_pos : opos s = p;
  r_ok : ost_ok s;
  r_base : forall i, (i < p)%nat -> byte_at (obuf s) i = byte_at base i;
  r_part : forall i, (p <= i)%nat -> byte_at (obuf s) i = x00 \/ byte_at (obuf s) i = byte_at e (i - p)
}.

Lemma attempt G c v t base p s r s' :
  writing G c v t -> tried base p (encode G (fmt_of c) v t) s -> ser G c v t s = (r, s') ->
  r <> RUB /\ ost_ok s' /\ (p <= opos s')%nat
  /\ (forall i, (i < p)%nat -> byte_at (obuf s') i = byte_at base i)
  /\ (forall i, (p <= i)%nat -> byte_at (obuf s') i = x00
        \/ byte_at (obuf s') i = byte_at (encode G (fmt_of c) v t) (i - p))
  /\ (r = ROk -> opos s' = (p + length (encode G (fmt_of c) v t))%nat
        /\ (forall i, (p <= i)%nat -> byte_at (obuf s') i = byte_at (encode G (fmt_of c) v t) (i - p)))
  /\ (forall E, rich c E -> (p + length (encode G (fmt_of c) v t) <= E)%nat -> r = final (enc G (fmt_of c) v t))
  /\ (out_of_room r = false -> r = final (enc G (fmt_of c) v t)).
Proof.
  intros W [T1 T2 T3 T4] E. set (e := encode G (fmt_of c) v t) in *. destruct T2 as [O1 O2].
  set (q := mkO (firstn p (obuf s) ++ zeros (length (obuf s) - p)) p).
  assert (Lq : length (obuf q) = length (obuf s)).
  { cbn [q obuf]. rewrite app_length, firstn_length, zeros_length. lia. }
  assert (Ev : even s q) by (split; [exact T1|now rewrite Lq]).
  assert (Cq : clean q).
  { unfold clean. rewrite Lq. cbn [q obuf opos]. rewrite skipn_app, firstn_length.
    rewrite skipn_all2 by (rewrite firstn_length; lia). replace (p - Nat.min p (length (obuf s)))%nat with O by lia.
    reflexivity. }
  assert (Oq : ost_ok q) by (split; rewrite Lq; [cbn [q opos]; lia|exact O2]).
  assert (Bq : bits_ok G t q) by now left.
  destruct (ser_sim G c v t (w_wt _ _ _ _ W)) as [S1 S2 S3 _].
  destruct (S1 s q Ev) as [R1 R2]. rewrite E in R1, R2.
  destruct (ser G c v t q) as [rq q'] eqn:E3. cbn [fst snd] in R1, R2. subst rq.
  destruct (out_frame _ _ _ _ _ _ _ W Bq Oq E3) as (N & _).
  destruct (out_failure_prefix _ _ _ _ _ _ _ W Bq Oq E3) as (Oq' & e1 & e2 & D1 & D2 & D3 & D4).
  fold e in D1. change (opos q) with p in D2, D3.
  assert (HF : forall i, (p <= i < opos q')%nat -> byte_at (obuf q') i = byte_at e (i - p)).
  { intros i Hi. rewrite (byte_window _ _ _ D3) by lia. rewrite D1. unfold byte_at. rewrite app_nth1 by lia. reflexivity. }
  assert (St : stale (fun i => byte_at e (i - p)) s q).
  { split; [exact Ev| | |]; change (opos q) with p.
    - intros i Hi. cbn [q obuf]. rewrite byte_zeros, byte_firstn, firstn_length.
      replace (i <? Nat.min p (length (obuf s)))%nat with true by lia. reflexivity.
    - intros i Hi. apply (clean_byte q i Cq Hi).
    - exact T4. }
  destruct (S3 _ _ _ _ _ _ St E E3 N HF) as [[V1 V2] X1 X2 X3].
  destruct (S2 _ _ _ E N) as [Y1 Y2]. rewrite T1 in Y1, Y2.
  split; [exact N|]. split; [destruct Oq' as [Z1 Z2]; split; [lia|now rewrite V2]|].
  split; [exact Y1|]. split; [intros i Hi; rewrite Y2 by exact Hi; auto|]. split; [|split; [|split]].
  - intros i Hi. destruct (Nat.lt_ge_cases i (opos q')) as [L|L]; [|apply X3; lia].
    right. rewrite X1 by exact L. apply HF. lia.
  - intro Hr. rewrite (D4 Hr), app_nil_r in D1. split; [rewrite D1; lia|]. intros i Hi.
    destruct (Nat.lt_ge_cases i (opos q')) as [L|L]; [rewrite X1 by exact L; apply HF; lia|].
    assert (Z : byte_at e (i - p) = x00) by (apply byte_out; rewrite D1; lia).
    rewrite Z. destruct (X3 i L) as [->| ->]; auto.
  - intros M HM HE. pose proof (writing_emits _ _ _ _ _ W Bq Oq) as HO. rewrite E3 in HO.
    destruct HO as [_ HO]. apply (HO M HM). exact HE.
  - intro Hr. pose proof (writing_emits _ _ _ _ _ W Bq Oq) as HO. rewrite E3 in HO.
    destruct HO as [(? & ? & ? & _ & _ & _ & _ & F) _]. unfold final.
    destruct r as [|[]| | |]; try discriminate; try contradiction; destruct F as [_ ->]; reflexivity.
Qed.

(** ** operator() *)

Lemma call_attempt G c vs ts base p s r s' :
  writing G c (VSeq vs) (TTuple ts) -> tried base p (encode G (fmt_of c) (VSeq vs) (TTuple ts)) s ->
  out_call G c vs ts s = (r, s') ->
  r <> RUB /\ tried base p (encode G (fmt_of c) (VSeq vs) (TTuple ts)) (mkO (obuf s') p)
  /\ (r = ROk -> ost_ok s' /\ opos s' = (p + length (encode G (fmt_of c) (VSeq vs) (TTuple ts)))%nat
        /\ (forall i, (p <= i)%nat ->
              byte_at (obuf s') i = byte_at (encode G (fmt_of c) (VSeq vs) (TTuple ts)) (i - p)))
  /\ (forall E, rich c E -> (p + length (encode G (fmt_of c) (VSeq vs) (TTuple ts)) <= E)%nat ->
        r = final (enc G (fmt_of c) (VSeq vs) (TTuple ts)))
  /\ (out_of_room r = false -> r = final (enc G (fmt_of c) (VSeq vs) (TTuple ts))).
Proof.
  intros W T E. set (e := encode G (fmt_of c) (VSeq vs) (TTuple ts)) in *. unfold out_call in E.
  change (ser_many (ser G c) vs ts s) with (ser G c (VSeq vs) (TTuple ts) s) in E.
  destruct (ser G c (VSeq vs) (TTuple ts) s) as [r1 s1] eqn:E1.
  destruct (attempt _ _ _ _ _ _ _ _ _ W T E1) as (A1 & [A2 A2'] & A3 & A4 & A5 & A6 & A7 & A8). fold e in A5, A6, A7.
  assert (Hc : r = r1 /\ (s' = s1 \/ s' = mkO (firstn (opos s1) (obuf s1)) (opos s1))).
  { destruct (_ && _); [|injection E as <- <-; auto]. unfold fit_size, buf_resize in E.
    replace (N.of_nat (opos s1) <=? N.of_nat (length (obuf s1))) with true in E by lia.
    rewrite Nat2N.id in E. destruct r1; try (injection E as <- <-; auto); destruct (_ <=? _)%nat; injection E as <- <-; auto. }
  destruct Hc as [-> [->| ->]]; (split; [exact A1|]).
  - split; [|split; [|split; [exact A7|exact A8]]].
    + split; cbn [obuf opos]; auto. split; cbn [obuf opos]; [lia|exact A2'].
    + intro Hr. destruct (A6 Hr). split; [split; assumption|]. auto.
  - assert (L : length (firstn (opos s1) (obuf s1)) = opos s1) by (rewrite firstn_length; lia).
    assert (K : forall i, byte_at (firstn (opos s1) (obuf s1)) i = if (i <? opos s1)%nat then byte_at (obuf s1) i else x00)
      by (intro i; rewrite byte_firstn, L; reflexivity).
    split; [|split; [|split; [exact A7|exact A8]]].
    + split; cbn [obuf opos]; [reflexivity| | |].
      * split; cbn [obuf opos]; rewrite L; [exact A3|lia].
      * intros i Hi. rewrite K. replace (i <? opos s1)%nat with true by lia. auto.
      * intros i Hi. rewrite K. destruct (_ <? _)%nat; auto.
    + intro Hr. destruct (A6 Hr) as [B1 B2]. split; [split; cbn [obuf opos]; rewrite L; lia|].
      cbn [obuf opos]. split; [exact B1|]. intros i Hi. rewrite K.
      destruct (Nat.ltb_spec i (opos s1)); [auto|]. symmetry. apply byte_out. lia.
Qed.

(** The attempts of one program: one wire format, whatever memory each of them finds. *)
Definition attempts (G : tenv) (o : wfmt) (vs : list val) (ts : list ty) (cs : list cfg) : Prop :=
  Forall (fun c => writing G c (VSeq vs) (TTuple ts) /\ fmt_of c = o) cs.

Lemma out_again_tried G o vs ts base p : forall cs c s r s',
  attempts G o vs ts (c :: cs) -> tried base p (encode G o (VSeq vs) (TTuple ts)) s ->
  out_again G vs ts true c cs s = (r, s') ->
  r <> RUB /\ (r = ROk -> ost_ok s' /\ opos s' = (p + length (encode G o (VSeq vs) (TTuple ts)))%nat
        /\ (forall i, (i < p)%nat -> byte_at (obuf s') i = byte_at base i)
        /\ (forall i, (p <= i)%nat -> byte_at (obuf s') i = byte_at (encode G o (VSeq vs) (TTuple ts)) (i - p)))
  /\ (forall E, Exists (fun c => rich c E) (c :: cs) -> (p + length (encode G o (VSeq vs) (TTuple ts)) <= E)%nat ->
        out_of_room r = false)
  /\ (out_of_room r = false -> r = final (enc G o (VSeq vs) (TTuple ts))).
Proof.
  induction cs as [|c' cs IH]; intros c s r s' HA T E; inversion HA as [|x l [W Hf] HA']; subst x l;
    cbn [out_again] in E; destruct (out_call G c vs ts s) as [r1 s1] eqn:E1; subst o;
    destruct (call_attempt _ _ _ _ _ _ _ _ _ W T E1) as (A1 & A2 & A3 & A4 & A5).
  all: assert (Fin : out_of_room (final (enc G (fmt_of c) (VSeq vs) (TTuple ts))) = false)
    by (unfold final; destruct (snd _); reflexivity).
  - assert (X : (r1, s1) = (r, s')) by (destruct (out_of_room r1); exact E). injection X as <- <-.
    split; [exact A1|]. split; [|split; [|exact A5]].
    + intro Hr. destruct (A3 Hr) as (B1 & B2 & B3). split; [exact B1|]. split; [exact B2|]. split; [apply A2|exact B3].
    + intros M HM HE. apply Exists_cons in HM as [HM|HM]; [|inversion HM]. rewrite (A4 M HM HE). exact Fin.
  - destruct (out_of_room r1) eqn:Er.
    + rewrite (r_pos _ _ _ _ T) in E. destruct (IH c' _ _ _ HA' A2 E) as (B1 & B2 & B3 & B4).
      split; [exact B1|]. split; [exact B2|]. split; [|exact B4]. intros M HM HE. apply Exists_cons in HM as [HM|HM]; [|now apply (B3 M)].
      rewrite (A4 M HM HE), Fin in Er. discriminate.
    + injection E as <- <-. split; [exact A1|]. split; [|split; [|intros _; now apply A5]].
      * intro Hr. destruct (A3 Hr) as (B1 & B2 & B3). split; [exact B1|]. split; [exact B2|]. split; [apply A2|exact B3].
      * intros _ _ _. exact Er.
Qed.

Lemma tried_start e st : clean st -> ost_ok st -> tried (obuf st) (opos st) e st.
Proof.
  intros Hc Ho. split; auto. intros i Hi. left. now apply clean_byte.
Qed.

(** However many attempts ran out of memory or room, and wherever: if the program ends with
    success, the buffer holds what it held before, the encoding of the items, and zeros. *)
Theorem out_again_written G o vs ts c cs st st' :
  attempts G o vs ts (c :: cs) -> clean st -> ost_ok st ->
  out_again G vs ts true c cs st = (ROk, st') ->
  opos st' = (opos st + length (encode G o (VSeq vs) (TTuple ts)))%nat
  /\ (exists k, obuf st' = firstn (opos st) (obuf st) ++ encode G o (VSeq vs) (TTuple ts) ++ zeros k)
  /\ clean st'.
Proof.
  intros HA Hc Ho E. set (e := encode G o (VSeq vs) (TTuple ts)).
  destruct (out_again_tried _ _ _ _ _ _ _ _ _ _ _ HA (tried_start _ _ Hc Ho) E) as (_ & H & _).
  destruct (H eq_refl) as ([O1 O2] & P1 & P2 & P3). fold e in P1, P3. clear H. destruct Ho as [Q1 Q2].
  assert (X : obuf st' = firstn (opos st) (obuf st) ++ e ++ zeros (length (obuf st') - opos st')).
  { assert (Lf : length (firstn (opos st) (obuf st)) = opos st) by (rewrite firstn_length; lia).
    apply same_bytes; [rewrite !app_length, zeros_length, Lf; lia|]. intros i _.
    destruct (Nat.lt_ge_cases i (opos st)) as [L|L].
    - rewrite P2 by exact L. unfold byte_at at 2. rewrite app_nth1 by lia. fold (byte_at (firstn (opos st) (obuf st)) i).
      rewrite byte_firstn, Lf. replace (i <? opos st)%nat with true by lia. reflexivity.
    - rewrite P3 by exact L. unfold byte_at at 2. rewrite app_nth2 by lia. rewrite Lf.
      symmetry. apply byte_zeros. }
  split; [exact P1|]. split; [eauto|].
  unfold clean. rewrite X at 1. rewrite app_assoc, skipn_app.
  rewrite skipn_all2 by (rewrite app_length, firstn_length; lia).
  replace (opos st' - length (firstn (opos st) (obuf st) ++ e))%nat with O by (rewrite app_length, firstn_length; lia).
  reflexivity.
Qed.

(** One attempt with enough memory is enough: then the program ends with success, unless an
    item is a null pointer or a valueless variant. *)
Theorem out_again_ends G o vs ts c cs st r st' E :
  attempts G o vs ts (c :: cs) -> clean st -> ost_ok st ->
  out_again G vs ts true c cs st = (r, st') ->
  Exists (fun c => rich c E) (c :: cs) -> (opos st + length (encode G o (VSeq vs) (TTuple ts)) <= E)%nat ->
  r = if writable G o (VSeq vs) (TTuple ts) then ROk else RErr invalid_argument.
Proof.
  intros HA Hc Ho H HE HL.
  destruct (out_again_tried _ _ _ _ _ _ _ _ _ _ _ HA (tried_start _ _ Hc Ho) H) as (_ & _ & A & B).
  exact (B (A E HE HL)).
Qed.

(** ** Examples *)

(** A vector that may have [k] bytes. *)
Definition mem (k : N) : cfg :=
  mkCfg true false (SzFix 4) None 3 2 false false true (fun n => n <=? k) (fun _ => 8).

Definition room_ts : list ty := [TScalar 4 false; TBitset 12; TVec None true (TScalar 2 false); TOpt true (TBitset 3)].
Definition room_vs : list val :=
  [VN 7; VBits bits_demo; VSeq [VN 5; VN 6; VN 65535]; VSome (VBits [true; false; true])].

Lemma room_attempts ks : attempts node_env (fmt_of (mem 0)) room_vs room_ts (map mem ks).
Proof.
  apply Forall_forall. intros c Hin. apply in_map_iff in Hin as (k & <- & _). split; [|reflexivity].
  split; try reflexivity.
  - intros _. split; [reflexivity|]. split; [discriminate|reflexivity].
  - intro j. destruct j as [|[|j]]; split; reflexivity.
  - intro j. destruct j as [|[|j]]; reflexivity.
Qed.

Example out_again_program_nontrivial :
  let st := mkO [xee; xee] 2 in
  clean st /\ ost_ok st
  /\ fst (out_call node_env (mem 9) room_vs room_ts st) = RThrow
  /\ fst (out_again node_env room_vs room_ts true (mem 9) [mem 13; mem 20] st) = RThrow
  /\ (exists st', out_again node_env room_vs room_ts true (mem 9) [mem 13; mem 20; mem 200] st = (ROk, st')
      /\ obuf st' = [xee; xee; x07; x00; x00; x00; xcd; x0e; x03; x00; x00; x00; x05; x00; x06; x00; xff; xff; x01; x05])
  /\ rich (mem 200) 30.
Proof.
  split; [reflexivity|]. split; [split; [cbn; lia|reflexivity]|].
  split; [vm_compute; reflexivity|]. split; [vm_compute; reflexivity|].
  split; [eexists; split; vm_compute; reflexivity|].
  split; [reflexivity|]. split; [reflexivity|].
  change (emul (mem 200) * (2 * (N.of_nat 30 + 10)) / ediv (mem 200)) with 120. intros n Hn.
  unfold can_alloc. cbn [mem alloc_ok]. split; [|reflexivity].
  replace (n <? 2 ^ 63) with true; [replace (n <=? 200) with true by lia; reflexivity|].
  symmetry. apply N.ltb_lt. eapply N.le_lt_trans; [exact Hn|reflexivity].
Qed.

(** Called again without setting the position back: success, and the items already written are
    there twice. *)
Theorem out_again_position_refuted :
  exists G o vs ts c cs st st',
    attempts G o vs ts (c :: cs) /\ clean st /\ ost_ok st
    /\ out_again G vs ts false c cs st = (ROk, st')
    /\ window (obuf st') (opos st) (length (encode G o (VSeq vs) (TTuple ts))) <> encode G o (VSeq vs) (TTuple ts).
Proof.
  exists node_env, (fmt_of (mem 0)), room_vs, room_ts, (mem 9), [mem 200], (mkO [] 0). eexists.
  split; [exact (room_attempts [9; 200])|]. split; [reflexivity|]. split; [split; [cbn; lia|reflexivity]|].
  split; [vm_compute; reflexivity|]. vm_compute. discriminate.
Qed.
