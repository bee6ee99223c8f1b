(** C81: serialize functions that throw. *)

From Coq Require Import List NArith ZArith Lia Bool Arith.
From Coq Require Import ZifyBool ZifyNat ZifyN.
From Verif Require Import Base.Bytes Model.Types Model.Machine Model.Varint Model.Out Model.In Model.Pb
  Model.Custom Spec.Leb128 Spec.Wire Spec.CustomWire Proofs.VarintP Proofs.OutP Proofs.InBase
  Proofs.InSafe Proofs.InLocal Proofs.InRound Proofs.CustomP Proofs.CustomIn Proofs.CustomRound
  Proofs.CustomOrder Proofs.CustomThrow Thm.Demo Thm.Output Thm.Input Thm.Custom.
Import ListNotations.
Local Open Scope N_scope.

(** ** Exceptions and returned errors *)

(** Output: a function that throws leaves exactly the bytes and the position of the function
    that returns an error there. *)
Theorem custom_throw_out G F c e v t st :
  let '(r, st1) := cser G F c v t st in
  let '(r', st2) := cser G (fun k => returning e (F k)) c v t st in
  st2 = st1 /\ (r' = r \/ r = RThrow /\ r' = RErr e).
Proof.
  pose proof (cser_returning G F c e v t st) as [H1 H2].
  destruct (cser G F c v t st), (cser _ _ c v t st). auto.
Qed.

(** Input: and exactly its target and position. *)
Theorem custom_throw_in G F c data e fuel t prior pos :
  let '(r, v, p) := cdes G F c data fuel t prior pos in
  let '(r', v', p') := cdes G (fun k => returning e (F k)) c data fuel t prior pos in
  v' = v /\ p' = p /\ (r' = r \/ r = RThrow /\ r' = RErr e).
Proof.
  pose proof (cdes_told G c data e F fuel t prior pos) as H. unfold tdes, told in H.
  destruct (cdes G F c data fuel t prior pos) as [[r v] p].
  destruct (cdes _ _ c data fuel t prior pos) as [[r' v'] p']. tauto.
Qed.

(** In a fixed buffer the archive throws if and only if the function does before the room
    gives out: the archive has no exceptions of its own there. *)
Theorem custom_throw_fixed G F c v t st :
  cwriting G F c v t st -> growable c = false ->
  (fst (cser G F c v t st) = RThrow
   <-> (opos st + length (fst (xenc G F (fmt_of c) v t)) <= length (obuf st))%nat
       /\ snd (xenc G F (fmt_of c) v t) = Some Threw).
Proof.
  intros HW Hg. pose proof (custom_result_fixed G F c v t st HW Hg) as H.
  destruct (cser G F c v t st) as [r st']. cbn [fst]. destruct H as (_ & H1 & H2). unfold xresult in H1.
  destruct (Nat.le_gt_cases (opos st + length (fst (xenc G F (fmt_of c) v t))) (length (obuf st))) as [Hl|Hl].
  - destruct (H1 Hl) as [-> _]. destruct (snd _) as [[]|]; split; try discriminate; try tauto; intros [_ ?]; discriminate.
  - rewrite (H2 Hl). split; [discriminate|]. intros [? _]. lia.
Qed.

(** The archive can go on after an exception as after an error: every object that could have
    been written before can be written now, at the position reached; and at any other position
    if it has no bitsets. *)
Theorem custom_throw_usable G F c v t st r st' F2 v2 t2 :
  cwriting G F c v t st -> cser G F c v t st = (r, st') -> cwriting G F2 c v2 t2 st ->
  cwriting G F2 c v2 t2 st'
  /\ forall p, (p <= length (obuf st'))%nat ->
     tall_env not_bitset G -> tall not_bitset t2 = true ->
     (forall k, sound G (fun t => tall not_bitset t = true) (t_mems G k) (F2 k)) ->
     cwriting G F2 c v2 t2 (mkO (obuf st') p).
Proof.
  intros HW E HW2. pose proof (cwriting_emits _ _ _ _ _ _ HW) as H. rewrite E in H. destruct H as [H _].
  pose proof (xoutcome_ok_state _ _ _ _ _ (cw_st _ _ _ _ _ _ HW) H) as Hok.
  destruct HW2 as [A1 A2 A3 A4 A5 A6 A7 A8 A9 A10 A11]. split.
  - constructor; auto. destruct A9 as [A9|A9]; [left|now right].
    exact (xoutcome_clean _ _ _ _ _ (cw_st _ _ _ _ _ _ HW) A9 H).
  - intros p Hp B1 B2 B3. constructor; auto. destruct Hok. split; auto.
Qed.

(** A target left behind by an exception can be read into again. *)
Theorem custom_throw_reread G F F' F0 cw cr v t st st' data pos fuel prior data0 fuel0 pos0 r0 v0 p0 :
  cwriting G F cw v t st -> cser G F cw v t st = (ROk, st') ->
  dsize cr = dsize cw -> xorb (host_le cr) (swap cr) = xorb (host_le cw) (swap cw) ->
  cpair G F F' cr data ->
  tall (rt_ok cr) t = true -> xreadable G F F' cr v t -> (height v <= fuel)%nat ->
  has_at data pos (window (obuf st') (opos st) (opos st' - opos st)) ->
  creading G F0 cr data0 t -> (pos0 <= length data0)%nat -> wt G prior t = true ->
  cdes G F0 cr data0 fuel0 t prior pos0 = (r0, v0, p0) ->
  cdes G F' cr data fuel t v0 pos = (ROk, v, (pos + (opos st' - opos st))%nat).
Proof.
  intros HW E Hd Ho HP Ht Hr Hh Hat HR Hp0 Hw0 E0.
  pose proof (custom_read_safe G F0 cr data0 t fuel0 prior pos0 HR Hp0 Hw0) as S. rewrite E0 in S.
  destruct S as (_ & S & _). eapply custom_round_trip; eauto.
Qed.

(** ** The size of the buffer *)

Definition fits (c : cfg) : bool := growable c && negb (nofit c) && negb (exact_enlarger c).

(** A call that returns, with success or with an error, cuts the buffer at the position if it
    has reached the former end.  A call that an exception leaves does not: the buffer keeps the
    size it was enlarged to, zeros after the position. *)
Theorem custom_call_size G F c vs ts st :
  cwriting G F c (VSeq vs) (TTuple ts) st -> fits c = true ->
  let '(r, st') := cout_call G F c vs ts st in
  let '(r0, st0) := cser G F c (VSeq vs) (TTuple ts) st in
  r = r0 /\ opos st' = opos st0
  /\ (r <> RThrow ->
      length (obuf st') = (if (length (obuf st) <=? opos st')%nat then opos st' else length (obuf st0))
      /\ forall i, (i < length (obuf st'))%nat -> nth_error (obuf st') i = nth_error (obuf st0) i)
  /\ (r = RThrow ->
      st' = st0 /\ (Nat.max (length (obuf st)) (opos st') <= length (obuf st'))%nat
      /\ forall i, (length (obuf st) <= i < length (obuf st'))%nat -> (opos st' <= i)%nat ->
         nth_error (obuf st') i = Some x00).
Proof.
  intros HW Hf. pose proof (cwriting_emits _ _ _ _ _ _ HW) as H.
  unfold cout_call. unfold fits in Hf. rewrite Hf. cbn [cser] in *.
  destruct (ser_many (cser G F c) vs ts st) as [r0 st0]. destruct H as [H _].
  destruct H as (e1 & e2 & k & F1 & F2 & F3 & F4 & F5).
  assert (HL : (opos st + length e1 <= length (obuf st ++ zeros k))%nat)
    by (rewrite app_length, zeros_length; lia).
  assert (Hlen : length (obuf st0) = (length (obuf st) + k)%nat).
  { rewrite F2. cbn [obuf]. rewrite overwrite_length by exact HL. now rewrite app_length, zeros_length. }
  assert (Hpos : opos st0 = (opos st + length e1)%nat) by (rewrite F2; reflexivity).
  assert (Htail : forall i, (length (obuf st) <= i < length (obuf st0))%nat -> (opos st0 <= i)%nat ->
            nth_error (obuf st0) i = Some x00).
  { intros i Hi Hi'. rewrite F2. cbn [obuf]. rewrite nth_error_overwrite by exact HL.
    destruct (Nat.ltb_spec i (opos st + length e1)); [lia|]. rewrite andb_false_r.
    rewrite nth_error_app2 by lia. unfold zeros. apply nth_error_repeat. lia. }
  destruct (fit_size c (length (obuf st)) r0 st0) as [r st'] eqn:EF.
  unfold fit_size, buf_resize in EF.
  assert (K : r0 <> RThrow -> r0 <> RUB -> r0 <> RStack ->
    r = r0 /\ opos st' = opos st0 /\
    length (obuf st') = (if (length (obuf st) <=? opos st0)%nat then opos st0 else length (obuf st0))
    /\ forall i, (i < length (obuf st'))%nat -> nth_error (obuf st') i = nth_error (obuf st0) i).
  { intros K1 K2 K3.
    assert (EF' : (if (length (obuf st) <=? opos st0)%nat
      then (r0, mkO (firstn (opos st0) (obuf st0)) (opos st0)) else (r0, st0)) = (r, st')).
    { rewrite <- EF. destruct r0; try congruence; destruct (_ <=? _)%nat; try reflexivity;
        (destruct (N.leb_spec (N.of_nat (opos st0)) (N.of_nat (length (obuf st0)))); [|lia]);
        now rewrite Nat2N.id. }
    clear EF. destruct (Nat.leb_spec (length (obuf st)) (opos st0)) as [Hle|Hle]; injection EF' as <- <-; cbn [obuf opos].
    - repeat split; auto.
      + rewrite firstn_length. lia.
      + intros i Hi. rewrite firstn_length in Hi. rewrite <- (firstn_skipn (opos st0) (obuf st0)) at 2.
        rewrite nth_error_app1; [reflexivity|]. rewrite firstn_length. lia.
    - repeat split; auto. }
  destruct r0 as [|er| | |].
  - destruct K as (-> & E & K1 & K2); try discriminate. rewrite E. repeat split; auto; discriminate.
  - destruct K as (-> & E & K1 & K2); try discriminate. rewrite E. repeat split; auto; discriminate.
  - destruct F5.
  - injection EF as <- <-. split; [reflexivity|]. split; [reflexivity|]. split; [congruence|].
    intros _. split; [reflexivity|]. split; [lia|exact Htail].
  - destruct F5.
Qed.

(** The bytes kept by an exception stay: later calls do not cut them off before the position
    has reached them. *)
Theorem custom_throw_tail_stays G F c vs ts st st1 F2 us uts r st2 :
  cwriting G F c (VSeq vs) (TTuple ts) st -> fits c = true ->
  cout_call G F c vs ts st = (RThrow, st1) ->
  cwriting G F2 c (VSeq us) (TTuple uts) st1 ->
  cout_call G F2 c us uts st1 = (r, st2) ->
  (opos st2 < length (obuf st1))%nat -> (length (obuf st1) <= length (obuf st2))%nat.
Proof.
  intros HW Hf E HW2 E2 Hlt.
  pose proof (custom_call_size _ _ _ _ _ _ HW2 Hf) as H. rewrite E2 in H.
  pose proof (cwriting_emits _ _ _ _ _ _ HW2) as X.
  destruct (cser G F2 c (VSeq us) (TTuple uts) st1) as [r0 st0]. destruct H as (-> & Hp & H1 & H2).
  destruct X as [(e1 & e2 & k & F1' & F2' & F3' & F4' & F5') _].
  assert (Hlen : (length (obuf st1) <= length (obuf st0))%nat).
  { rewrite F2'. cbn [obuf]. rewrite overwrite_length by (rewrite app_length, zeros_length; lia).
    rewrite app_length. lia. }
  destruct (Nat.leb_spec (length (obuf st1)) (opos st2)); [lia|].
  destruct r0; try (destruct H1 as [H1 _]; [discriminate|]; lia).
  destruct (H2 eq_refl) as (_ & H3 & _). lia.
Qed.

(** ** Examples

    Class 0 as in Thm/Custom.v but with an exception instead of not_supported; the batch of
    class 1 contains it. *)
Definition throw_fun : prog :=
  PMem 0 u8 (fun self =>
    if 2 <? num 0 self then PThrow
    else PMem 1 u16 (fun self =>
      if num 0 self <? 2 then PSet (set_nth 2 (VSeq [])) PRet
      else PMem 2 u16s (fun _ => PRet))).
Definition throw_funs : funs := fun k => match k with O => throw_fun | _ => cls_funs k end.

Lemma throw_sound (Q : ty -> Prop) k :
  Q u8 -> Q u16 -> Q u16s -> Q (TVarint 8 false false) -> Q (TVec (Some SzNone) false (TRec 0)) -> Q TEmpty ->
  sound cls_env Q (t_mems cls_env k) (throw_funs k).
Proof.
  intros Q1 Q2 Q3 Q4 Q5 Q6. destruct k as [|k]; [|now apply (cls_sound Q (S k))].
  pose proof (cls_sound Q O Q1 Q2 Q3 Q4 Q5 Q6) as H. cbn [cls_funs throw_funs] in *.
  unfold throw_fun, record_fun in *. cbn [sound] in *. destruct H as (H1 & H2 & H3 & H4).
  split; [exact H1|]. split; [exact H2|]. split; [exact H3|]. intros self Ho. specialize (H4 self Ho).
  destruct (2 <? num 0 self); [exact I|exact H4].
Qed.

Definition batch_bad : val := VSeq [VSeq [rec_a; rec_bad; rec_b]].
Lemma batch_bad_writing c buf :
  wf_out c -> szok c = true -> fmt_of c = fmt_of vec_cfg -> N.of_nat (length buf) < 2 ^ 63 ->
  cwriting cls_env throw_funs c (VSeq [batch_bad]) (TTuple [TRec 1]) (mkO buf (length buf)).
Proof.
  intros H1 H2 H3 Hb. constructor.
  - exact H1.
  - exact H2.
  - apply cls_env_ok.
  - intros [|[|[|k]]]; reflexivity.
  - vm_compute; reflexivity.
  - vm_compute; reflexivity.
  - reflexivity.
  - intro k. apply throw_sound; reflexivity.
  - left. unfold clean. cbn [obuf opos]. now rewrite skipn_all, Nat.sub_diag.
  - rewrite H3. vm_compute. reflexivity.
  - split; auto.
Qed.

(** The exception, and the error in its place. *)
Example throw_out_nontrivial :
  cser cls_env throw_funs span_cfg batch_bad (TRec 1) (mkO (repeat xee 20) 1)
  = (RThrow, mkO ([xee] ++ [x03] ++ [x02; x02; x01; x02; x00; x00; x00; x07; x00; x08; x00]
                   ++ [x03] ++ repeat xee 6) 14)
  /\ cser cls_env (fun k => returning not_supported (throw_funs k)) span_cfg batch_bad (TRec 1) (mkO (repeat xee 20) 1)
  = (RErr not_supported, mkO ([xee] ++ [x03] ++ [x02; x02; x01; x02; x00; x00; x00; x07; x00; x08; x00]
                   ++ [x03] ++ repeat xee 6) 14)
  /\ cdes cls_env throw_funs vec_cfg [x01; x03; x01; x00] 5 (TRec 1) (VSeq [VSeq []]) 0
     = (RThrow, VSeq [VSeq [VSeq [VN 3; VN 0; VSeq []]]], 2%nat).
Proof. repeat split; vm_compute; reflexivity. Qed.

Example throw_fixed_nontrivial :
  cwriting cls_env throw_funs span_cfg (VSeq [batch_bad]) (TTuple [TRec 1]) (mkO (repeat xee 1) 1)
  /\ snd (xenc cls_env throw_funs (fmt_of span_cfg) (VSeq [batch_bad]) (TTuple [TRec 1])) = Some Threw
  /\ length (fst (xenc cls_env throw_funs (fmt_of span_cfg) (VSeq [batch_bad]) (TTuple [TRec 1]))) = 13%nat.
Proof.
  split; [|split; vm_compute; reflexivity].
  apply (batch_bad_writing span_cfg [xee]); try reflexivity. discriminate.
Qed.

(** One call that throws and one that succeeds afterwards. *)
Definition thrown : ost :=
  mkO [x03; x02; x02; x01; x02; x00; x00; x00; x07; x00; x08; x00; x03; x00; x00] 13.
Example throw_call_nontrivial :
  cwriting cls_env throw_funs vec_cfg (VSeq [batch_bad]) (TTuple [TRec 1]) (mkO [] 0)
  /\ fits vec_cfg = true
  /\ cout_call cls_env throw_funs vec_cfg [batch_bad] [TRec 1] (mkO [] 0) = (RThrow, thrown)
  /\ cwriting cls_env throw_funs vec_cfg (VSeq [VN 9]) (TTuple [u8]) thrown.
Proof.
  assert (W : cwriting cls_env throw_funs vec_cfg (VSeq [batch_bad]) (TTuple [TRec 1]) (mkO [] 0)).
  { apply (batch_bad_writing vec_cfg []); try (vm_compute; reflexivity).
    intros _. repeat split; vm_compute; try reflexivity; discriminate. }
  split; [exact W|]. split; [reflexivity|]. split; [vm_compute; reflexivity|].
  destruct W as [A1 A2 A3 A4 A5 A6 A7 A8 A9 A10 A11].
  constructor; auto; try (vm_compute; reflexivity).
  - left. vm_compute. reflexivity.
  - split; vm_compute; [|reflexivity]. lia.
Qed.

Example throw_reread_nontrivial :
  cdes cls_env throw_funs vec_cfg [x02; x02; x02; x01; x01; x00; x00; x00; x05; x00; x03] 5 (TRec 1) (VSeq [VSeq []]) 0
  = (RThrow, VSeq [VSeq [VSeq [VN 2; VN 0x102; VSeq [VN 5]]; VSeq [VN 3; VN 0; VSeq []]]], 11%nat)
  /\ cdes cls_env throw_funs vec_cfg batch_bytes 5 (TRec 1)
       (VSeq [VSeq [VSeq [VN 2; VN 0x102; VSeq [VN 5]]; VSeq [VN 3; VN 0; VSeq []]]]) 0
  = (ROk, batch, 15%nat).
Proof. split; vm_compute; reflexivity. Qed.

(** Not so: after a call that succeeds, a buffer that began empty holds what was written and
    nothing else.  An exception before it leaves bytes behind the position that are nobody's,
    and the successful call does not remove them; had the function returned an error, there
    would be none. *)
Theorem custom_throw_trim_refuted :
  exists F vs ts us uts st1 st2 st1' st2',
    cwriting cls_env F vec_cfg (VSeq vs) (TTuple ts) (mkO [] 0)
    /\ cout_call cls_env F vec_cfg vs ts (mkO [] 0) = (RThrow, st1)
    /\ cout_call cls_env F vec_cfg us uts st1 = (ROk, st2)
    /\ (opos st2 < length (obuf st2))%nat
    /\ cout_call cls_env (fun k => returning bad_message (F k)) vec_cfg vs ts (mkO [] 0) = (RErr bad_message, st1')
    /\ cout_call cls_env (fun k => returning bad_message (F k)) vec_cfg us uts st1' = (ROk, st2')
    /\ opos st2' = length (obuf st2') /\ opos st2' = opos st2.
Proof.
  exists throw_funs, [batch_bad], [TRec 1], [VN 9], [u8], thrown,
    (mkO [x03; x02; x02; x01; x02; x00; x00; x00; x07; x00; x08; x00; x03; x09; x00] 14),
    (mkO [x03; x02; x02; x01; x02; x00; x00; x00; x07; x00; x08; x00; x03] 13),
    (mkO [x03; x02; x02; x01; x02; x00; x00; x00; x07; x00; x08; x00; x03; x09] 14).
  split; [exact (proj1 throw_call_nontrivial)|].
  split; [vm_compute; reflexivity|]. split; [vm_compute; reflexivity|]. split; [cbn; lia|].
  split; [vm_compute; reflexivity|]. split; [vm_compute; reflexivity|]. split; reflexivity.
Qed.

Print Assumptions custom_throw_out.
Print Assumptions custom_throw_in.
Print Assumptions custom_throw_fixed.
Print Assumptions custom_throw_usable.
Print Assumptions custom_throw_reread.
Print Assumptions custom_call_size.
Print Assumptions custom_throw_tail_stays.
Print Assumptions custom_throw_trim_refuted.
