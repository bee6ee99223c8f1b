(** C83: serialize functions that move the position of the archive. *)

From Coq Require Import List NArith ZArith Lia Bool Arith.
From Coq Require Import ZifyBool ZifyNat ZifyN.
From Verif Require Import Base.Bytes Model.Types Model.Machine Model.Varint Model.Out Model.In Model.Pb
  Model.Custom Model.CustomSeek Spec.Leb128 Spec.Wire Spec.File Spec.CustomWire Spec.CustomFile
  Proofs.VarintP Proofs.OutP Proofs.InBase Proofs.InSafe Proofs.InLocal Proofs.InRound Proofs.CustomP
  Proofs.CustomIn Proofs.CustomRound Proofs.CustomSeekOut Proofs.CustomSeekTidy Proofs.CustomSeekIn
  Proofs.CustomSeekRound Thm.Demo Thm.Output Thm.Input Thm.Seek Thm.Custom.
Import ListNotations.
Local Open Scope N_scope.

(** ** Writing *)

(** The archive stands at [p] in the file [d]; the buffer may have room left after it.  All
    functions are sound, no item has a bitset (they are added to what is there, C26). *)
Record mwriting (G : tenv) (F : sfuns) (c : cfg) (v : val) (t : ty) (d : list byte) (room p : nat) : Prop := {
  mw_cfg : wf_out c;
  mw_size : szok c = true;
  mw_env : wf_env G;
  mw_envp : tall_env elem_ok G;
  mw_envb : tall_env not_bitset G;
  mw_wt : wt G v t = true;
  mw_wf : wf G t = true;
  mw_plain : plain t = true;
  mw_bits : tall not_bitset t = true;
  mw_funs : forall k, ssound G (fun t => plain t = true /\ tall not_bitset t = true) (t_mems G k) (F k);
  mw_st : ost_ok (mkO (d ++ zeros room) p);
  mw_pos : (p <= length d)%nat;
  mw_room : growable c = false -> room = O
}.

(** Where the functions go: never past the end of what has been written, below 2^63. *)
Definition stays (T : trace) (d : list byte) (p : nat) : Prop :=
  seated (fst (T p)) (mkF d p) /\ N.of_nat (length (f_data (play (fst (T p)) (mkF d p)))) < 2 ^ 63.

Lemma mwriting_leads G F c v t d room p :
  mwriting G F c v t d room p -> stays (tenc G F (fmt_of c) v t) d p ->
  let T := tenc G F (fmt_of c) v t in
  let '(r, st') := sser G F c v t (mkO (d ++ zeros room) p) in
  ost_ok st' /\
  (exists o1 o2 d' k',
    fst (T p) = o1 ++ o2 /\ play o1 (mkF d p) = mkF d' (opos st') /\ obuf st' = d' ++ zeros k'
    /\ (growable c = false -> k' = O /\ length d' = length d)
    /\ ends c d (fst (T p)) (snd (T p)) p o2 r) /\
  (forall E, rich c E -> (length (f_data (play (fst (T p)) (mkF d p))) <= E)%nat -> r = tresult (snd (T p))).
Proof.
  intros [H1 H2 H3 H4 H5 H6 H7 H8 H9 H10 H11 H12 H13] [HS HL].
  refine (sser_leads G F c H2 H3 H4 H5 _ v t H6 H7 _ H1 d room p H11 H12 H13 HS HL).
  - intro k. eapply ssound_weaken; [|apply H10]. intros t' [A B]. split; auto.
  - split; auto.
Qed.

(** The buffer is the file the operations make, however often the functions go back; when the
    call fails, it is the file after the operations done so far. *)
Theorem moving_output G F c v t d room p r st' :
  mwriting G F c v t d room p -> stays (tenc G F (fmt_of c) v t) d p ->
  sser G F c v t (mkO (d ++ zeros room) p) = (r, st') ->
  let T := tenc G F (fmt_of c) v t p in
  r <> RUB /\
  exists o1 o2 d' k',
    fst T = o1 ++ o2 /\ play o1 (mkF d p) = mkF d' (opos st') /\ obuf st' = d' ++ zeros k'
    /\ (opos st' <= length d')%nat /\ (growable c = false -> k' = O /\ length d' = length d)
    /\ (r = ROk -> o2 = [] /\ snd T = None).
Proof.
  intros HW HS E. pose proof (mwriting_leads _ _ _ _ _ _ _ _ HW HS) as H. rewrite E in H.
  destruct H as (_ & (o1 & o2 & d' & k' & X1 & X2 & X3 & X4 & X5) & _). split; [intros ->; exact X5|].
  exists o1, o2, d', k'. split; [exact X1|]. split; [exact X2|]. split; [exact X3|]. split; [|split; [exact X4|]].
  - destruct HS as [HS _]. rewrite X1 in HS. apply seated_app in HS as [HS _].
    pose proof (play_in o1 _ HS (mw_pos _ _ _ _ _ _ _ _ HW)) as [P _]. rewrite X2 in P. exact P.
  - intros ->. exact X5.
Qed.

(** Fixed buffers: the result is the functions' own if the file fits, result_out_of_range if not. *)
Theorem moving_fixed G F c v t d p :
  mwriting G F c v t d 0 p -> stays (tenc G F (fmt_of c) v t) d p -> growable c = false ->
  let '(r, st') := sser G F c v t (mkO d p) in
  let T := tenc G F (fmt_of c) v t p in
  let f := play (fst T) (mkF d p) in
  length (obuf st') = length d
  /\ (length (f_data f) = length d -> r = tresult (snd T) /\ obuf st' = f_data f /\ opos st' = f_pos f)
  /\ (length d < length (f_data f) -> r = RErr result_out_of_range)%nat.
Proof.
  intros HW HS Hg. pose proof (mwriting_leads _ _ _ _ _ _ _ _ HW HS) as H.
  cbn [zeros repeat] in H. rewrite app_nil_r in H.
  destruct (sser G F c v t (mkO d p)) as [r st'].
  destruct H as (_ & (o1 & o2 & d' & k' & X1 & X2 & X3 & X4 & X5) & _). cbv zeta in *.
  destruct (X4 Hg) as [-> HL]. cbn [zeros repeat] in X3. rewrite app_nil_r in X3.
  split; [now rewrite X3|].
  assert (K : o2 = [] -> f_data (play (fst (tenc G F (fmt_of c) v t p)) (mkF d p)) = d'
              /\ f_pos (play (fst (tenc G F (fmt_of c) v t p)) (mkF d p)) = opos st').
  { intros ->. rewrite X1, app_nil_r, X2. auto. }
  split; intro Hl.
  - assert (K2 : o2 = [] /\ r = tresult (snd (tenc G F (fmt_of c) v t p))).
    { unfold ends in X5. destruct r as [|er| | |]; try tauto.
      - destruct X5 as [-> ->]. auto.
      - destruct X5 as [[-> ->]|[(_ & _ & X5)|[_ X5]]]; [auto|lia|congruence].
      - destruct X5 as [[-> ->]|X5]; [auto|congruence]. }
    destruct K2 as [K2 ->]. destruct (K K2) as [K3 K4]. now rewrite K3, K4.
  - assert (K2 : o2 <> []) by (intro E; destruct (K E) as [K3 _]; rewrite K3 in Hl; lia).
    unfold ends in X5. destruct r as [|er| | |]; try tauto.
    + destruct X5 as [[X5 _]|[(-> & _)|[_ X5]]]; [tauto|reflexivity|congruence].
    + destruct X5 as [[X5 _]|X5]; [tauto|congruence].
Qed.

(** Growing buffers that can grow far enough: the result is the functions' own. *)
Theorem moving_growable G F c v t d room p :
  mwriting G F c v t d room p -> stays (tenc G F (fmt_of c) v t) d p -> growable c = true ->
  let T := tenc G F (fmt_of c) v t p in
  let r := fst (sser G F c v t (mkO (d ++ zeros room) p)) in
  (r = tresult (snd T) \/ r = RErr no_buffer_space \/ r = RThrow)
  /\ (forall E, rich c E -> (length (f_data (play (fst T) (mkF d p))) <= E)%nat -> r = tresult (snd T)).
Proof.
  intros HW HS Hg. pose proof (mwriting_leads _ _ _ _ _ _ _ _ HW HS) as H. cbv zeta in *.
  destruct (sser G F c v t _) as [r st']. cbn [fst].
  destruct H as (_ & (o1 & o2 & d' & k' & X1 & X2 & X3 & X4 & X5) & HR). split; [|exact HR].
  unfold ends in X5. unfold tresult. destruct r as [|er| | |]; try tauto.
  - destruct X5 as [_ ->]. auto.
  - destruct X5 as [[_ ->]|[(_ & X5 & _)|[-> _]]]; [auto|congruence|auto].
Qed.

(** Whole calls: a growable buffer is cut to wherever the functions leave the position. *)
Theorem moving_call G F c vs ts d room p st' :
  mwriting G F c (VSeq vs) (TTuple ts) d room p ->
  stays (tenc G F (fmt_of c) (VSeq vs) (TTuple ts)) d p ->
  sout_call G F c vs ts (mkO (d ++ zeros room) p) = (ROk, st') ->
  let T := tenc G F (fmt_of c) (VSeq vs) (TTuple ts) p in
  let f := play (fst T) (mkF d p) in
  snd T = None /\ opos st' = f_pos f
  /\ (if growable c && negb (nofit c) && negb (exact_enlarger c) && (length d + room <=? f_pos f)%nat
      then obuf st' = firstn (f_pos f) (f_data f)
      else exists k', obuf st' = f_data f ++ zeros k').
Proof.
  intros HW HS E. unfold sout_call in E. cbv zeta.
  change (ser_many (sser G F c) vs ts) with (sser G F c (VSeq vs) (TTuple ts)) in E.
  destruct (growable c && negb (nofit c) && negb (exact_enlarger c)) eqn:Ef; cbn [andb].
  - destruct (sser G F c (VSeq vs) (TTuple ts) (mkO (d ++ zeros room) p)) as [r st1] eqn:E1.
    pose proof (moving_output _ _ _ _ _ _ _ _ _ _ HW HS E1) as (_ & o1 & o2 & d' & k' & X1 & X2 & X3 & X4 & _ & X6).
    unfold fit_size in E. cbn [obuf] in E. rewrite app_length, zeros_length in E.
    assert (Hr : r = ROk).
    { destruct r; try discriminate; [reflexivity|].
      destruct (_ <=? _)%nat; [|discriminate]. destruct (buf_resize _ _ _) as [[] ?]; discriminate. }
    subst r. destruct (X6 eq_refl) as [-> X7]. rewrite app_nil_r in X1. cbv zeta in *.
    rewrite X1, X2. cbn [f_pos f_data]. split; [exact X7|].
    destruct (Nat.leb_spec (length d + room) (opos st1)).
    + unfold buf_resize in E. rewrite X3, app_length, zeros_length in E.
      destruct (N.leb_spec (N.of_nat (opos st1)) (N.of_nat (length d' + k'))); [|lia].
      injection E as <-. cbn [obuf opos]. split; [reflexivity|]. rewrite Nat2N.id, firstn_app.
      replace (opos st1 - length d')%nat with O by lia. cbn [firstn]. apply app_nil_r.
    + injection E as <-. split; [reflexivity|]. eauto.
  - pose proof (moving_output _ _ _ _ _ _ _ _ _ _ HW HS E) as (_ & o1 & o2 & d' & k' & X1 & X2 & X3 & X4 & _ & X6).
    destruct (X6 eq_refl) as [-> X7]. rewrite app_nil_r in X1. cbv zeta in *. rewrite X1, X2. cbn [f_pos f_data].
    split; [exact X7|]. split; [reflexivity|]. eauto.
Qed.

(** Functions that do not move are those of C70 and C81, in every respect. *)
Theorem moving_none G F c :
  (forall v t st, sser G (fun k => still (F k)) c v t st = cser G F c v t st)
  /\ (forall data fuel t prior pos,
      sdes G (fun k => still (F k)) c data fuel t prior pos = cdes G F c data fuel t prior pos).
Proof. split; intros; [apply sser_still|apply sdes_still]. Qed.

(** Functions that go back and forth and amount to [F0] in the end produce what [F0] produces,
    in one piece at the position, and stay in the file by themselves. *)
Theorem moving_tidy G F F0 c v t d room p :
  mwriting G F c v t d room p -> tidy G F F0 (fmt_of c) ->
  snd (xenc G F0 (fmt_of c) v t) = None ->
  let e := fst (xenc G F0 (fmt_of c) v t) in
  N.of_nat (Nat.max (length d) (p + length e)) < 2 ^ 63 ->
  let '(r, st') := sser G F c v t (mkO (d ++ zeros room) p) in
  (r = ROk -> opos st' = (p + length e)%nat /\ exists k', obuf st' = pwrite d p e ++ zeros k')
  /\ (growable c = false -> if (p + length e <=? length d)%nat then r = ROk else r = RErr result_out_of_range)
  /\ (forall E, rich c E -> (Nat.max (length d) (p + length e) <= E)%nat -> r = ROk).
Proof.
  intros HW HT Hs e Hl.
  destruct (tidy_nets G F F0 _ HT v t (mw_wt _ _ _ _ _ _ _ _ HW) d p (mw_pos _ _ _ _ _ _ _ _ HW)) as (N1 & N2 & N3).
  specialize (N3 Hs). rewrite Hs in N2. fold e in N3.
  assert (HL : length (pwrite d p e) = Nat.max (length d) (p + length e)).
  { rewrite pwrite_length; [reflexivity|]. apply (mw_pos _ _ _ _ _ _ _ _ HW). }
  assert (HS : stays (tenc G F (fmt_of c) v t) d p).
  { split; [exact N1|]. rewrite N3. cbn [f_data]. now rewrite HL. }
  pose proof (mwriting_leads _ _ _ _ _ _ _ _ HW HS) as H. cbv zeta in H.
  pose proof (moving_fixed G F c v t d p) as HF. rewrite N2, N3 in *. cbn [f_data f_pos tresult] in *.
  destruct (sser G F c v t (mkO (d ++ zeros room) p)) as [r st'] eqn:E.
  destruct H as (_ & (o1 & o2 & d' & k' & X1 & X2 & X3 & X4 & X5) & HR).
  split; [|split].
  - intros ->. destruct X5 as [-> _]. rewrite app_nil_r in X1. rewrite <- X1, N3 in X2.
    injection X2 as X2 X2'. rewrite X3, <- X2. split; [now rewrite <- X2'|eauto].
  - intro Hg. pose proof (mw_room _ _ _ _ _ _ _ _ HW Hg) as ->. specialize (HF HW HS Hg).
    cbn [zeros repeat] in E. rewrite app_nil_r in E. rewrite E in HF. cbv zeta in HF. rewrite N2, N3 in HF. cbn [f_data f_pos tresult] in HF.
    destruct HF as (_ & F1 & F2). rewrite HL in *. destruct (Nat.leb_spec (p + length e) (length d)); [apply F1; lia|apply F2; lia].
  - intros E0 HE HE2. apply (HR E0 HE). now rewrite HL.
Qed.

(** ** Frames: a length filled in afterwards *)

(** The length is written last, in the place left for it, and is that of what is in between;
    frames may be nested in any way. *)
Theorem moving_frame_tidy G o W B Q :
  (forall k, sound G Q (t_mems G k) (B k)) ->
  tidy G (frame_out W B) (frame_wire G o W B) o.
Proof. intro H. now apply frames_tidy with (Q := Q). Qed.

Theorem moving_frame_wire G o W B Q k w l :
  (forall k, sound G Q (t_mems G k) (B k)) -> W k = Some w ->
  wt G (VSeq l) (TRec k) = true ->
  let body := path G o (map (xenc G (frame_wire G o W B) o) l) l (B k) in
  snd body = None ->
  xenc G (frame_wire G o W B) o (VSeq l) (TRec k)
  = xdone (wscalar o w (N.of_nat (length (fst body)) mod pow256 w) ++ fst body).
Proof.
  intros HB Ew Hw body Hs. cbn [xenc]. unfold frame_wire at 2. rewrite Ew. cbn [path]. fold body.
  cbn [enc lift pdone fst snd]. unfold xseq. cbn [fst snd]. rewrite Hs.
  rewrite (frame_length G o W B Q HB k l Hw Hs). reflexivity.
Qed.

(** Round trip, the reader skipping by the length: into any target, from anywhere, as long as
    the lengths of the format suffice for the data. *)
Theorem moving_frame_round_trip G W B B' cw cr v t d room p st' data pos fuel prior :
  mwriting G (frame_out W B) cw v t d room p ->
  let F0 := frame_wire G (fmt_of cw) W B in
  snd (xenc G F0 (fmt_of cw) v t) = None ->
  N.of_nat (Nat.max (length d) (p + length (fst (xenc G F0 (fmt_of cw) v t)))) < 2 ^ 63 ->
  sser G (frame_out W B) cw v t (mkO (d ++ zeros room) p) = (ROk, st') ->
  dsize cr = dsize cw -> xorb (host_le cr) (swap cr) = xorb (host_le cw) (swap cw) ->
  wfsz (Some (dsize cr)) = true -> small data ->
  (forall k, sound G plain_item (t_mems G k) (B k)) -> (forall k, sound G plain_item (t_mems G k) (B' k)) ->
  (forall k w, W k = Some w -> (0 < w)%nat /\ N.of_nat (length data) < pow256 w) ->
  tall (rt_ok cr) t = true -> xreadable G F0 (frame_back W B') cr v t ->
  (height v <= fuel)%nat -> wt G prior t = true ->
  has_at data pos (window (obuf st') p (opos st' - p)) ->
  sdes G (frame_in W B') cr data fuel t prior pos = (ROk, v, (pos + (opos st' - p))%nat).
Proof.
  intros HW F0 Hs Hl E Hd Ho Hz Hsm HB HB' HWk Ht Hr Hh Hp Hat.
  pose proof (moving_tidy _ _ F0 _ _ _ _ _ _ HW (moving_frame_tidy _ _ _ _ _ HB) Hs Hl) as M.
  rewrite E in M. destruct M as (M & _ & _). destruct (M eq_refl) as [M1 [k' M2]].
  assert (Hf : fmt_of cw = fmt_of cr) by (unfold fmt_of; now rewrite Hd, Ho).
  unfold F0 in *. rewrite Hf in *.
  set (e := fst (xenc G (frame_wire G (fmt_of cr) W B) (fmt_of cr) v t)) in *.
  replace (opos st' - p)%nat with (length e) in * by lia.
  rewrite M2 in Hat. pose proof (mw_pos _ _ _ _ _ _ _ _ HW) as Hpos.
  assert (Hwin : window (pwrite d p e ++ zeros k') p (length e) = e).
  { unfold window, pwrite. rewrite <- !app_assoc, skipn_app, firstn_length, Nat.min_l by exact Hpos.
    rewrite skipn_all2 by (rewrite firstn_length; lia). rewrite Nat.sub_diag. cbn [app skipn].
    rewrite firstn_app, Nat.sub_diag, firstn_all. cbn [firstn]. apply app_nil_r. }
  rewrite Hwin in Hat. destruct HW as [_ _ W3 _ _ W6 W7 W8 _ _ _ _ _].
  now apply (frame_round G W B B' cr data W3 Hz Hsm HB HB' HWk).
Qed.

(** A reader that knows only the first part [P] of a frame gets that part and goes on after the
    frame. *)
Theorem moving_frame_skip G W B B' cr data k w P E l pl res fuel pos :
  wf_env G -> wfsz (Some (dsize cr)) = true -> small data ->
  (forall k, sound G plain_item (t_mems G k) (B k)) -> (forall k, sound G plain_item (t_mems G k) (B' k)) ->
  (forall k w, W k = Some w -> (0 < w)%nat /\ N.of_nat (length data) < pow256 w) ->
  W k = Some w -> B k = pthen P E -> sound G plain_item (t_mems G k) P ->
  wt G (VSeq l) (TRec k) = true -> wt G (VSeq pl) (TRec k) = true -> (height (VSeq l) <= fuel)%nat ->
  let F0 := frame_wire G (fmt_of cr) W B in
  let e := xenc G F0 (fmt_of cr) (VSeq l) (TRec k) in
  snd e = None -> has_at data pos (fst e) ->
  mirrors (loc_back G cr) (map (mem_back G F0 (frame_back W B') cr) l) l P (B' k) pl res ->
  sdes G (frame_in W B') cr data fuel (TRec k) (VSeq pl) pos
  = (ROk, VSeq res, (pos + length (fst e))%nat).
Proof.
  intros. eapply (frame_skip G W B B' cr data); eauto.
Qed.

(** ** Reading arbitrary bytes *)

Record mreading (G : tenv) (F : sfuns) (c : cfg) (data : list byte) (t : ty) : Prop := {
  mr_env : wf_env G;
  mr_size : wfsz (Some (dsize c)) = true;
  mr_small : small data;
  mr_cmp : tallP (cmp_ok G) t;
  mr_wf : wf G t = true;
  mr_funs : forall k, ssound G (tallP (cmp_ok G)) (t_mems G k) (F k)
}.

Lemma mreading_safe G F c data t ub fuel :
  mreading G F c data t ->
  (forall k pos, (pos <= length data)%nat -> within G (length data) (t_mems G k) pos (F k)) ->
  tall (flagged ub true) t = true ->
  (forall k, ssound G (fun t => tall (flagged ub true) t = true) (t_mems G k) (F k)) ->
  m_safe_f G data ub true t (sdes G F c data fuel t).
Proof.
  intros [H1 H2 H3 H4 H5 H6] HI Hf HF. apply sdes_safe; auto; [|split; auto].
  intro k. eapply ssound_weaken; [|apply (ssound_and _ _ _ _ _ (HF k) (H6 k))]. intros t' [A B]. split; auto.
Qed.

(** Whatever the bytes are: as long as the functions check where they go against what is left,
    there is no access outside the data, and the target is a valid object. *)
Theorem moving_read_safe G F c data t fuel prior pos :
  mreading G F c data t ->
  (forall k pos, (pos <= length data)%nat -> within G (length data) (t_mems G k) pos (F k)) ->
  (pos <= length data)%nat -> wt G prior t = true ->
  match sdes G F c data fuel t prior pos with (r, v, p) =>
    (p <= length data)%nat /\ wt G v t = true
    /\ (tall not_bool t = true -> (forall k, ssound G (fun t => tall not_bool t = true) (t_mems G k) (F k)) ->
        r <> RUB)
  end.
Proof.
  intros HR HI Hp Hw.
  assert (A : m_safe_f G data true true t (sdes G F c data fuel t)).
  { apply mreading_safe; auto using flagged_true.
    intro k. eapply ssound_weaken; [|apply (mr_funs _ _ _ _ _ HR)]. intros. apply flagged_true. }
  specialize (A prior pos Hp Hw).
  assert (B : tall not_bool t = true -> (forall k, ssound G (fun t => tall not_bool t = true) (t_mems G k) (F k)) ->
     rres (sdes G F c data fuel t prior pos) <> RUB).
  { intros Hb HbF. assert (S : m_safe_f G data false true t (sdes G F c data fuel t)).
    { apply mreading_safe; auto using flagged_no_bool.
      intro k. eapply ssound_weaken; [|apply HbF]. apply flagged_no_bool. }
    specialize (S prior pos Hp Hw). destruct (sdes G F c data fuel t prior pos) as [[r v] p].
    destruct S as (_ & _ & S & _). cbn. intros ->. specialize (S eq_refl). discriminate. }
  destruct (sdes G F c data fuel t prior pos) as [[r v] p]. cbn [rres fst] in B.
  destruct A as (A1 & A2 & _). auto.
Qed.

(** Frame readers check, whatever the functions for what is in the frames decide. *)
Theorem moving_frame_safe G W B c data t fuel prior pos :
  wf_env G -> wfsz (Some (dsize c)) = true -> small data -> tallP (cmp_ok G) t -> wf G t = true ->
  (forall k, sound G (tallP (cmp_ok G)) (t_mems G k) (B k)) -> (forall k w, W k = Some w -> (0 < w)%nat) ->
  (pos <= length data)%nat -> wt G prior t = true ->
  match sdes G (frame_in W B) c data fuel t prior pos with (r, v, p) =>
    (p <= length data)%nat /\ wt G v t = true
    /\ (tall not_bool t = true -> (forall k, sound G (fun t => tall not_bool t = true) (t_mems G k) (B k)) ->
        r <> RUB)
  end.
Proof.
  intros HG Hz Hsm Hc Hwf HB HW Hp Hw.
  assert (HR : mreading G (frame_in W B) c data t).
  { constructor; auto. apply frame_in_sound; auto. intros k w E. split; [eauto|]. cbn. auto. }
  pose proof (moving_read_safe G _ c data t fuel prior pos HR
    (fun k q Hq => frame_in_within G W B _ k q Hq) Hp Hw) as S.
  destruct (sdes _ _ _ _ _ _ _ _) as [[r v] p]. destruct S as (S1 & S2 & S3). split; [exact S1|]. split; [exact S2|].
  intros Hb HBb. apply S3; [exact Hb|]. apply frame_in_sound; auto. intros k w E. split; [eauto|reflexivity].
Qed.

(** ** Examples

    Class 0, a chunk with chunks in it, each with a length of two bytes in front, filled in
    afterwards:
      struct chunk { uint8_t tag; std::vector<chunk> inner; };
    Class 1 writes two bytes and goes back to the second:
      struct back { uint16_t x; }.
    Class 2 goes past the end. *)
Definition inner_ty : ty := TVec (Some (SzFix 1)) false (TRec 0).
Definition ch_env : tenv :=
  mkTenv (fun k => match k with
                   | O => mkSinfo 32 false true (VSeq [VN 0; VSeq []])
                   | _ => mkSinfo 2 false true (VSeq [VN 0])
                   end)
         (fun k => match k with O => [u8; inner_ty] | _ => [u16] end).
Definition ch_w (k : nat) : option nat := match k with O => Some 2%nat | _ => None end.
Definition tag_part : prog := PMem 0 u8 (fun _ => PRet).
Definition inner_part : prog := PMem 1 inner_ty (fun _ => PRet).
Definition ch_body (k : nat) : prog := match k with O => pthen tag_part inner_part | _ => PRet end.
(** The older reader knows the tag only. *)
Definition old_body (k : nat) : prog := match k with O => tag_part | _ => PRet end.
Definition leaf (n : N) : val := VSeq [VN n; VSeq []].
Definition tree : val := VSeq [VN 1; VSeq [leaf 2; VSeq [VN 3; VSeq [leaf 4]]]].
Definition back_funs : sfuns := fun k =>
  match k with
  | 1%nat => MPos (fun a => MMem 0 u16 (fun _ => MMove (a + 1) MRet))
  | 2%nat => MPos (fun a => MMove (a + 9) (MMem 0 u16 (fun _ => MRet)))
  | _ => MRet
  end.

Lemma ch_env_ok : wf_env ch_env.
Proof. intros [|k]; split; reflexivity. Qed.
Lemma ch_envp p : (forall t, p t = true) -> tall_env p ch_env.
Proof. intros H [|k]; cbn; rewrite ?H; reflexivity. Qed.
Lemma ch_sound (Q : ty -> Prop) k : Q u8 -> Q inner_ty -> sound ch_env Q (t_mems ch_env k) (ch_body k).
Proof.
  intros Q1 Q2. destruct k; [|exact I]. cbn. split; [exists u8; auto|]. split; [reflexivity|]. split; [exact Q1|].
  intros _ _. split; [exists inner_ty; auto|]. split; [reflexivity|]. split; auto.
Qed.
Lemma tag_sound (Q : ty -> Prop) : Q u8 -> sound ch_env Q (t_mems ch_env O) tag_part.
Proof. intro H. cbn. split; [exists u8; auto|]. split; [reflexivity|]. split; auto. Qed.

Example tree_writing c : c = vec_cfg \/ c = span_cfg ->
  mwriting ch_env (frame_out ch_w ch_body) c tree (TRec 0) (repeat xaa 30) 0 3.
Proof.
  intro Hc.
  assert (HF : forall k, ssound ch_env (fun t => plain t = true /\ tall not_bitset t = true)
                 (t_mems ch_env k) (frame_out ch_w ch_body k)).
  { apply frame_out_sound.
    - intro k. apply ch_sound; split; reflexivity.
    - intros [|k] w E; [|discriminate]. injection E as <-. split; [lia|]. split; reflexivity. }
  destruct Hc as [-> | ->]; constructor; auto using ch_env_ok; try reflexivity;
    try (intros [|k]; reflexivity); try (cbn; lia); try (split; vm_compute; auto; fail);
    try discriminate; repeat constructor; vm_compute; discriminate.
Qed.

(** The frames: lengths 14, 2 and 6, with 2 inside. *)
Example tree_file :
  let T := tenc ch_env (frame_out ch_w ch_body) (fmt_of vec_cfg) tree (TRec 0) in
  snd (T 3%nat) = None
  /\ stays T (repeat xaa 30) 3
  /\ f_data (play (fst (T 3%nat)) (mkF (repeat xaa 30) 3))
     = repeat xaa 3 ++ [x0e; x00; x01; x02; x02; x00; x02; x00; x06; x00; x03; x01; x02; x00; x04; x00] ++ repeat xaa 11
  /\ length (filter (fun o => match o with FSeek _ => true | _ => false end) (fst (T 3%nat))) = 8%nat.
Proof.
  split; [vm_compute; reflexivity|]. split; [split; [vm_compute; repeat split; lia|vm_compute; reflexivity]|].
  split; vm_compute; reflexivity.
Qed.

Definition tree_bytes : list byte :=
  [x0e; x00; x01; x02; x02; x00; x02; x00; x06; x00; x03; x01; x02; x00; x04; x00].

Example tree_written :
  sser ch_env (frame_out ch_w ch_body) span_cfg tree (TRec 0) (mkO (repeat xaa 30) 3)
  = (ROk, mkO (repeat xaa 3 ++ tree_bytes ++ repeat xaa 11) 19)
  /\ fst (sser ch_env (frame_out ch_w ch_body) span_cfg tree (TRec 0) (mkO (repeat xaa 18) 3)) = RErr result_out_of_range
  /\ sout_call ch_env (frame_out ch_w ch_body) vec_cfg [tree] [TRec 0] (mkO [xaa] 1)
  = (ROk, mkO (xaa :: tree_bytes) 17).
Proof. repeat split; vm_compute; reflexivity. Qed.

Lemma ch_object cur : object ch_env cur (t_mems ch_env O) -> exists a l, cur = [a; VSeq l].
Proof.
  unfold object. cbn [ch_env t_mems]. intro H. destruct cur as [|a [|b [|z cur]]]; cbn [forall2b] in H;
    rewrite ?andb_false_r in H; try discriminate. destruct b; try (rewrite andb_false_r in H; discriminate). eauto.
Qed.

Lemma ch_readable W w o n kids :
  W O = Some w ->
  count_ok vec_cfg (Some (SzFix 1)) (length kids) && negb (over_limit vec_cfg (TRec 0) (N.of_nat (length kids)))
    && can_alloc vec_cfg (N.of_nat (length kids) * csizeof vec_cfg (TRec 0)) = true ->
  forallP (fun x => xreadable ch_env (frame_wire ch_env o W ch_body) (frame_back W ch_body) vec_cfg x (TRec 0)) kids ->
  xreadable ch_env (frame_wire ch_env o W ch_body) (frame_back W ch_body) vec_cfg (VSeq [VN n; VSeq kids]) (TRec 0).
Proof.
  intros Ew H1 H2. cbn [xreadable]. intros cur Hc. destruct (ch_object cur Hc) as (a & l & ->).
  assert (E1 : frame_wire ch_env o W ch_body O = PLoc (TScalar w false)
    (fun self => VN (N.of_nat (body_len ch_env o W ch_body O self) mod pow256 w)) (fun _ _ => ch_body O)).
  { unfold frame_wire at 1. now rewrite Ew. }
  assert (E2 : frame_back W ch_body O = PLoc (TScalar w false) (fun _ => VN 0) (fun _ _ => ch_body O)).
  { unfold frame_back. now rewrite Ew. }
  rewrite E1, E2. apply mi_loc; [split; reflexivity|]. cbn [ch_body tag_part inner_part pthen].
  eapply mi_mem; [reflexivity|reflexivity|reflexivity|split; [left; reflexivity|exact I]|]. cbn [set_nth].
  eapply mi_mem; [reflexivity|reflexivity|reflexivity| |apply mi_ret].
  split; [left; reflexivity|]. cbn [xreadable inner_ty]. split; [intros _; exact H1|exact H2].
Qed.

Example tree_readable o :
  xreadable ch_env (frame_wire ch_env o ch_w ch_body) (frame_back ch_w ch_body) vec_cfg tree (TRec 0).
Proof.
  apply ch_readable with (w := 2%nat); try reflexivity. cbn [forallP].
  repeat split; apply ch_readable with (w := 2%nat); try reflexivity; cbn [forallP]; auto.
  split; [|exact I]. now apply ch_readable with (w := 2%nat).
Qed.

(** Into a target with other things in it, with bytes before and after. *)
Example tree_read_back :
  sdes ch_env (frame_in ch_w ch_body) vec_cfg ([xee] ++ tree_bytes ++ [xff; xff]) 9 (TRec 0) (leaf 77) 1
  = (ROk, tree, 17%nat).
Proof. vm_compute. reflexivity. Qed.

(** The older reader: tags only, and on to what comes after. *)
Example old_mirror F0 F' a l :
  mirrors (loc_back ch_env vec_cfg)
    (map (mem_back ch_env F0 F' vec_cfg) [VN 1; VSeq [leaf 2]]) [VN 1; VSeq [leaf 2]]
    tag_part (old_body O) [a; VSeq l] [VN 1; VSeq l].
Proof.
  cbn [old_body tag_part].
  eapply mi_mem; [reflexivity|reflexivity|reflexivity|split; [left; reflexivity|exact I]|]. apply mi_ret.
Qed.
Example old_reads :
  sdes ch_env (frame_in ch_w old_body) vec_cfg (tree_bytes ++ [x55]) 9 (TTuple [TRec 0; u8])
    (VSeq [leaf 77; VN 0]) 0
  = (ROk, VSeq [leaf 1; VN 0x55], 17%nat).
Proof. vm_compute. reflexivity. Qed.

Example frame_reading data :
  small data ->
  mreading ch_env (frame_in ch_w ch_body) vec_cfg data (TRec 0).
Proof.
  intro H. constructor; auto using ch_env_ok; try reflexivity; try (cbn; auto; fail).
  apply frame_in_sound.
  - intro k. apply ch_sound; cbn; auto.
  - intros [|k] w E; [|discriminate]. injection E as <-. split; [lia|]. cbn. auto.
Qed.
(** A length that lies is an error. *)
Example frame_lies :
  fst (fst (sdes ch_env (frame_in ch_w ch_body) vec_cfg [xff; xff; x01; x00] 9 (TRec 0) (leaf 77) 0))
  = RErr result_out_of_range.
Proof. vm_compute. reflexivity. Qed.

(** ** What does not hold *)

Lemma back_sound k :
  ssound ch_env (fun t => plain t = true /\ tall not_bitset t = true) (t_mems ch_env k) (back_funs k).
Proof.
  destruct k as [|[|[|k]]]; cbn; auto; intros _.
  - split; [exists u16; auto|]. split; [reflexivity|]. split; auto.
  - split; [exists u16; auto|]. split; [reflexivity|]. split; auto.
Qed.

(** Not everything put into a buffer by a successful call is in it afterwards: what lies after
    the place where the functions leave the position is cut off. *)
Theorem moving_keeps_everything_refuted :
  exists vs ts st', mwriting ch_env back_funs vec_cfg (VSeq vs) (TTuple ts) [] 0 0
    /\ stays (tenc ch_env back_funs (fmt_of vec_cfg) (VSeq vs) (TTuple ts)) [] 0
    /\ sout_call ch_env back_funs vec_cfg vs ts (mkO [] 0) = (ROk, st')
    /\ f_data (play (fst (tenc ch_env back_funs (fmt_of vec_cfg) (VSeq vs) (TTuple ts) O)) (mkF [] 0)) = [x02; x01]
    /\ obuf st' = [x02].
Proof.
  exists [VSeq [VN 0x102]], [TRec 1], (mkO [x02] 1).
  pose proof (tree_writing vec_cfg (or_introl eq_refl)) as [T1 T2 T3 T4 T5 _ _ _ _ _ _ _ _].
  split; [|split; [split; [vm_compute; repeat split; lia|vm_compute; reflexivity]|repeat split; vm_compute; reflexivity]].
  constructor; auto using back_sound; try reflexivity; try (cbn; lia); split; vm_compute; auto.
Qed.

(** Nothing stops a function from going past the end and writing there. *)
Theorem moving_past_end_refuted :
  exists v t st', mwriting ch_env back_funs vec_cfg v t [] 0 0
    /\ sser ch_env back_funs vec_cfg v t (mkO [] 0) = (RUB, st').
Proof.
  exists (VSeq [VN 0x102]), (TRec 2), (mkO [] 9).
  pose proof (tree_writing vec_cfg (or_introl eq_refl)) as [T1 T2 T3 T4 T5 _ _ _ _ _ _ _ _].
  split; [|vm_compute; reflexivity].
  constructor; auto using back_sound; try reflexivity; try (cbn; lia); split; vm_compute; auto.
Qed.

(** A reader that goes where the data tells it to, without looking at what is left, is sound in
    every other respect; the archive does not check either. *)
Theorem moving_unchecked_length_refuted :
  exists data prior t,
    mreading ch_env (fun k => trusting 2 (still (ch_body k))) vec_cfg data t
    /\ wt ch_env prior t = true /\ tall not_bool t = true
    /\ fst (fst (sdes ch_env (fun k => trusting 2 (still (ch_body k))) vec_cfg data 9 t prior 0)) = RUB.
Proof.
  exists [xff; xff; x01; x00], (VSeq [leaf 77; VN 0]), (TTuple [TRec 0; u8]).
  split; [|repeat split; vm_compute; reflexivity].
  constructor; auto using ch_env_ok; try reflexivity; try (cbn; auto; fail).
  intro k. unfold trusting. cbn [ssound].
  split; [reflexivity|]. split; [reflexivity|]. split; [cbn; auto|]. split; [reflexivity|].
  intros x self Hx Ho n. apply ssound_andthen; [exact I|]. apply ssound_still. apply ch_sound; cbn; auto.
Qed.

(** Lengths too short for the data: written without an error, and not read back. *)
Definition thin_w (k : nat) : option nat := match k with O => Some 1%nat | _ => None end.
Definition wide : val := VSeq [VN 1; VSeq (repeat (leaf 2) 90)].
Theorem moving_frame_short_length_refuted :
  exists st', sout_call ch_env (frame_out thin_w ch_body) vec_cfg [wide; VN 7] [TRec 0; u8] (mkO [] 0) = (ROk, st')
    /\ xreadable ch_env (frame_wire ch_env (fmt_of vec_cfg) thin_w ch_body) (frame_back thin_w ch_body) vec_cfg wide (TRec 0)
    /\ sdes ch_env (frame_in thin_w ch_body) vec_cfg (obuf st') 9 (TTuple [TRec 0; u8]) (VSeq [leaf 0; VN 0]) 0
       = (ROk, VSeq [wide; VN 0], 18%nat).
Proof.
  exists (mkO ([x10; x01; x5a] ++ concat (repeat [x02; x02; x00] 90) ++ [x07]) 274).
  split; [vm_compute; reflexivity|]. split; [|vm_compute; reflexivity].
  apply ch_readable with (w := 1%nat); try reflexivity.
  apply forallP_intro. intros x Hx. apply repeat_spec in Hx. subst x.
  now apply ch_readable with (w := 1%nat).
Qed.

Print Assumptions moving_output.
Print Assumptions moving_fixed.
Print Assumptions moving_growable.
Print Assumptions moving_call.
Print Assumptions moving_none.
Print Assumptions moving_tidy.
Print Assumptions moving_frame_tidy.
Print Assumptions moving_frame_wire.
Print Assumptions moving_frame_round_trip.
Print Assumptions moving_frame_skip.
Print Assumptions moving_read_safe.
Print Assumptions moving_frame_safe.
Print Assumptions moving_keeps_everything_refuted.
Print Assumptions moving_past_end_refuted.
Print Assumptions moving_unchecked_length_refuted.
Print Assumptions moving_frame_short_length_refuted.
