(** C82: protobuf messages inside ordinary data. *)

From Coq Require Import List NArith ZArith Lia Bool Arith.
From Coq Require Import ZifyBool ZifyNat ZifyN.
From Verif Require Import Base.Bytes Model.Types Model.Machine Model.Varint Model.Out Model.In Model.Protocol
  Model.Pb Model.PbNative Model.Mixed Spec.Leb128 Spec.Wire Spec.PbWire Spec.PbMerge Spec.MixedWire
  Proofs.VarintP Proofs.OutP Proofs.InBase Proofs.InSafe Proofs.InLocal Proofs.InRound Proofs.ProtoP Proofs.PbOut Proofs.PbParse
  Proofs.PbIn Proofs.CustomP Proofs.CustomOrder Proofs.MixedP Proofs.MixedRound Thm.Demo Thm.Pb Thm.PbInput Thm.Input.
Import ListNotations.
Local Open Scope N_scope.

Ltac Zify.zify_post_hook ::= Z.div_mod_to_equations.

(** ** Output *)

(** What writing [v] requires. *)
Record mixed_writing (G : tenv) (M : nat -> bool) (P : penv) (c : cfg) (v : val) (t : ty) : Prop := {
  mw_env : mixed G M P;
  mw_numbers : rep_numbers P;
  mw_cfg : wf_out c;
  mw_size : wfsz (Some (dsize c)) = true;
  mw_sizes : szok c = true;
  mw_order : pb_order_ok c = true;
  (* no containers of empty elements, no bitsets *)
  mw_plain_env : native elem_ok G M;
  mw_bits_env : native not_bitset G M;
  mw_wf : wf G t = true;
  mw_plain : plain t = true;
  mw_bits : tall not_bitset t = true;
  mw_wt : wt G v t = true;
  (* no null pointers and no valueless variants *)
  mw_whole : snd (menc G M P c v t) = true;
  mw_fits : messages (message_fits P c) G M v t = true;
  mw_small : N.of_nat (length (fst (menc G M P c v t))) < 2 ^ 63
}.

(** Data with messages is written as ordinary data is, with the length and the records of the
    message wherever there is one. *)
Theorem mixed_output G M P c v t :
  mixed_writing G M P c v t ->
  forall st, ost_ok st ->
  let e := fst (menc G M P c v t) in
  let '(r, st') := mser G M P c v t st in
  match r with
  | ROk => wrote_exactly c st e st'
  | RErr result_out_of_range =>
      growable c = false /\ framed c st st' /\ (length (obuf st) - opos st < length e)%nat
  | RErr no_buffer_space | RThrow => growable c = true /\ framed c st st'
  | _ => False
  end /\
  (forall E, rich c E -> (opos st + length e <= E)%nat -> r = ROk).
Proof.
  intros [W1 W2 W3 W4 W5 W6 W7 W8 W9 W10 W11 W12 W13 W14 W15] st Hok.
  exact (mser_pemits G M P c W1 W2 W4 (pb_order_little c W6) W5 W7 W8 v t W12 W9 W10 W11 W14 W13 W3 W15 st Hok).
Qed.

Lemma mixed_written G M P c v t st st' :
  mixed_writing G M P c v t -> ost_ok st -> mser G M P c v t st = (ROk, st') ->
  let e := fst (menc G M P c v t) in
  opos st' = (opos st + length e)%nat /\ has_at (obuf st') (opos st) e /\ ost_ok st'.
Proof.
  intros W Hok E e. pose proof (mixed_output _ _ _ _ _ _ W st Hok) as H. rewrite E in H.
  destruct H as [H _]. pose proof (wrote_ok _ _ _ _ Hok H) as Hok'.
  destruct H as (k & -> & H2 & H3). fold e in H2 |- *. cbn [obuf opos] in *. split; [reflexivity|].
  split; [|exact Hok']. destruct Hok as [Hok _]. split.
  - rewrite overwrite_length by (rewrite app_length, zeros_length; lia).
    rewrite app_length, zeros_length. lia.
  - apply window_overwrite; rewrite app_length, zeros_length; lia.
Qed.

(** Programs without messages: the model is that of Model/Out.v and Model/In.v. *)
Theorem mixed_none_out G P c v : forall t,
  mser G (fun _ => false) P c v t = ser G c v t.
Proof.
  assert (many : forall l ms, Forall (fun x => forall t, mser G (fun _ => false) P c x t = ser G c x t) l ->
    ser_many (mser G (fun _ => false) P c) l ms = ser_many (ser G c) l ms).
  { intros l ms H. revert ms. induction H as [|x l Hx _ IH]; intros [|m ms]; try reflexivity.
    cbn [ser_many]. now rewrite Hx, IH. }
  assert (all : forall l t, Forall (fun x => forall t, mser G (fun _ => false) P c x t = ser G c x t) l ->
    ser_all (mser G (fun _ => false) P c) l t = ser_all (ser G c) l t).
  { intros l t H. induction H as [|x l Hx _ IH]; try reflexivity. cbn [ser_all]. now rewrite Hx, IH. }
  induction v as [n|l IH| |v IH|i v IH| |l|l] using val_ind'; intro t; destruct t; try reflexivity;
    cbn [mser ser]; rewrite ?many, ?all, ?IH by assumption; try reflexivity.
  destruct (nth_error meta i) as [[id dc]|]; [|reflexivity].
  destruct (nth_error alts i); [|reflexivity]. now rewrite IH.
Qed.

Theorem mixed_none_in G P c data pf fuel t prior pos :
  wf_env G -> wf G t = true -> wt G prior t = true ->
  mdes G (fun _ => false) P c data pf fuel t prior pos = des G c data fuel t prior pos.
Proof.
  intros HG Hw Hp. unfold mdes, des. revert prior pos Hp.
  apply (des_ty_eq G c data HG); auto. clear t Hw.
  induction fuel as [|f IH]; intros k prior pos Hp; cbn [mdes_rec des_rec]; [reflexivity|].
  destruct prior as [|l| | | | | |]; try discriminate. cbn [as_seq wt] in *.
  f_equal. apply (des_many_eq G); auto. rewrite Forall_forall. intros m Hin.
  apply (des_ty_eq G c data HG); auto. destruct (HG k) as [Hk _]. rewrite forallb_forall in Hk. auto.
Qed.

(** ** Reading *)

Record mixed_reading (G : tenv) (M : nat -> bool) (P : penv) (c : cfg) (data : list byte) (t : ty) : Prop := {
  mr_env : mixed G M P;
  mr_size : wfsz (Some (dsize c)) = true;
  mr_small : small data;
  mr_pcmp : pcmp_env P;
  mr_cmpE : forall k, M k = false -> Forall (tallP (cmp_ok G)) (t_mems G k);
  mr_cmp : tallP (cmp_ok G) t;
  mr_wf : wf G t = true
}.

(** From arbitrary bytes: the position stays inside the data, the target remains an object of
    its type, and nothing is undefined unless a bool is read; [length data] levels of messages
    are enough, so the stack can only be exhausted by ordinary recursive classes. *)
Theorem mixed_safe G M P c data t pf fuel prior pos :
  mixed_reading G M P c data t -> (length data < pf)%nat -> (pos <= length data)%nat -> wt G prior t = true ->
  let '(r, v, p) := mdes G M P c data pf fuel t prior pos in
  (pos <= p <= length data)%nat /\ wt G v t = true /\
  (tall not_bool t = true -> native not_bool G M ->
   (forall k, forallb (fun fd => no_bool (snd fd)) (m_fields (P k)) = true) -> r <> RUB).
Proof.
  intros [R1 R2 R3 R4 R5 R6 R7] Hf Hp Hw.
  assert (all : forall t, tall (flagged true true) t = true) by (intro; apply tall_true; reflexivity).
  pose proof (mdes_safe G M P c data pf true R1 R2 R3 Hf R4
    ltac:(intro; apply forallb_forall; reflexivity) R5
    ltac:(intros k _; apply forallb_forall; auto) fuel t R7 (all t) R6 prior pos Hp Hw) as S.
  destruct (mdes G M P c data pf fuel t prior pos) as [[r v] p] eqn:E. cbn [safe_out] in S.
  destruct S as (S1 & S2 & _). split; [exact S1|]. split; [exact S2|]. intros Hb HbG HbP.
  pose proof (mdes_safe G M P c data pf false R1 R2 R3 Hf R4 HbP R5) as S'.
  specialize (S' ltac:(intros k Em; specialize (HbG k Em); rewrite forallb_forall in *; intros x Hx;
    apply flagged_no_bool; auto) fuel t R7 (flagged_no_bool _ Hb) R6 prior pos Hp Hw).
  rewrite E in S'. destruct S' as (_ & _ & S' & _). intro Er. specialize (S' Er). discriminate.
Qed.

Lemma field_loop_end data nums fld n : forall vals pos vs p,
  field_loop data nums fld n vals pos = (ROk, vs, p) -> (length data <= p)%nat.
Proof.
  induction n as [|n IH]; intros vals pos vs p E; cbn [field_loop] in E;
    destruct (Nat.ltb_spec pos (length data)); try discriminate;
    try (injection E as _ <-; lia).
  destruct (des_varint 4 false 0 data pos) as [[[| | | |] tag] p1]; try discriminate.
  destruct (index_of nums (N.shiftr tag 3)) as [i|].
  - destruct (nth_error vals i) as [x|]; [|discriminate].
    destruct (fld i (N.land tag 7) x p1) as [[[| | | |] v] p2]; try discriminate. eauto.
  - destruct (_ =? 0); [discriminate|eauto].
Qed.

(** Reading a message never disturbs what follows: if it succeeds, exactly the announced number
    of bytes has been taken (or everything, if there is less), whatever they are. *)
Theorem mixed_message_extent G M P c data pf fuel k prior pos n p1 v p :
  mixed_reading G M P c data (TRec k) -> M k = true -> (length data < pf)%nat ->
  (pos <= length data)%nat -> wt G prior (TRec k) = true -> dsize c <> SzNone ->
  des_size c data (dsize c) pos = (ROk, n, p1) ->
  mdes G M P c data pf fuel (TRec k) prior pos = (ROk, v, p) ->
  p = Nat.min (length data) (p1 + N.to_nat n).
Proof.
  intros R Em Hf Hp Hw Hne Es E.
  pose proof (mixed_safe G M P c data (TRec k) pf fuel prior pos R Hf Hp Hw) as Sf. rewrite E in Sf.
  destruct Sf as (Sf & _). destruct R as [R1 R2 R3 R4 R5 R6 R7].
  assert (Ed : des_pb_item P c data pf (dsize c) k prior pos = (ROk, v, p)).
  { rewrite <- E. unfold mdes. cbn [des_ty]. destruct fuel; cbn [mdes_rec]; now rewrite Em. }
  clear E. unfold des_pb_item, des_protocol in Ed.
  assert (En : des_nested data (des_fields P (pb_icfg c) pf k) (Some n) prior p1 = (ROk, v, p)).
  { rewrite <- Ed. destruct (dsize c); [congruence|..]; now rewrite Es. }
  clear Ed. unfold des_nested, rest_of in En.
  destruct (Nat.leb_spec p1 (length data)) as [L|L]; [|discriminate].
  rewrite skipn_length in En.
  set (sub := firstn _ (skipn p1 data)) in En.
  assert (Ls : length sub = Nat.min (length data - p1) (N.to_nat n)).
  { unfold sub. rewrite firstn_length, skipn_length. lia. }
  rewrite (mx_same _ _ _ R1 k Em) in Hw. destruct prior as [|l| | | | | |]; try discriminate. cbn [as_seq] in En.
  destruct (des_fields P (pb_icfg c) pf k sub l) as [[r vs] q] eqn:Ef.
  assert (Hq : (q <= length sub)%nat).
  { pose proof (des_fields_safe P true (mx_msgs _ _ _ R1) (pb_icfg c) ltac:(reflexivity)
      ltac:(intro; apply forallb_forall; reflexivity) R4 pf k sub l) as SF.
    rewrite Ef in SF. apply SF; auto; unfold small in *; lia. }
  destruct r; try discriminate. injection En as _ <-.
  destruct pf as [|pf']; [lia|]. cbn [des_fields] in Ef. apply field_loop_end in Ef. lia.
Qed.

(** ** Round trip *)

(** What the reader needs to rebuild [v]. *)
Record mixed_readable (G : tenv) (M : nat -> bool) (P : penv) (c : cfg) (v : val) (t : ty) : Prop := {
  mb_types : tall (rt_ok c) t = true;
  mb_env : native (rt_ok c) G M;
  mb_value : mreadable G M P c v t = true
}.

Lemma menc_same G M P c c' v : fmt_of c' = fmt_of c -> dsize c' = dsize c -> host_le c' = host_le c ->
  forall t, menc G M P c' v t = menc G M P c v t.
Proof.
  intros Ef Ed Eh.
  assert (Ei : forall k l, message_item P c' k l = message_item P c k l).
  { intros k l. unfold message_item, proto_prefix, hostrep. now rewrite Ed, Eh. }
  induction v as [n|l IH| |v IH|i v IH| |l|l] using val_ind'; intro t;
    destruct t as [w isb| |w sg zz| |si ms|k|n' t'|ts|s cg t'|s k t'|dc t'|t'|t'|ik meta alts|n'|k|s t'];
    cbn [menc]; rewrite ?Ef, ?Ei; try reflexivity; try rewrite Forall_forall in IH;
    try (apply menc_many_ext; intros x m Hin; apply IH; eapply in_combine_l; eassumption);
    try (apply menc_all_ext; auto; fail); try (f_equal; apply menc_all_ext; auto; fail);
    try (rewrite IH; reflexivity).
  - destruct (M k); [reflexivity|]. apply menc_many_ext; intros x m Hin; apply IH; eapply in_combine_l; eassumption.
  - destruct (nth_error meta i) as [[id dc]|]; [|reflexivity]. destruct (nth_error alts i); [|reflexivity].
    now rewrite IH.
Qed.

(** What is written is read back into any target, by any archive on a host of the same byte
    order with the same options. *)
Theorem mixed_round_trip G M P cw cr v t st st' data pos pf fuel prior :
  mixed_writing G M P cw v t -> ost_ok st -> mser G M P cw v t st = (ROk, st') ->
  dsize cr = dsize cw -> swap cr = swap cw -> host_le cr = host_le cw ->
  mixed_readable G M P cr v t -> wt G prior t = true ->
  N.of_nat (length data) < 2 ^ 63 -> (length data < pf)%nat -> (height v <= fuel)%nat ->
  has_at data pos (window (obuf st') (opos st) (opos st' - opos st)) ->
  mdes G M P cr data pf fuel t prior pos = (ROk, v, (pos + (opos st' - opos st))%nat).
Proof.
  intros W Hok E Ed Es Eh [B1 B2 B3] Hp Hd Hpf Hh Hat.
  destruct (mixed_written _ _ _ _ _ _ _ _ W Hok E) as (Hpos & Hw & _).
  replace (opos st' - opos st)%nat with (length (fst (menc G M P cw v t))) in * by lia.
  rewrite (proj2 Hw) in Hat.
  assert (Ef : fmt_of cr = fmt_of cw) by (unfold fmt_of; now rewrite Ed, Es, Eh).
  rewrite <- (menc_same G M P cw cr v Ef Ed Eh) in *.
  destruct W. apply mdes_round; auto.
  - now rewrite Ed.
  - unfold small. change (2 ^ 64) with (2 * 2 ^ 63). lia.
  - now rewrite (menc_same G M P cw cr v Ef Ed Eh).
Qed.

(** *** The demonstration: messages 0 and 1 of Thm/Pb.v and a recursive ordinary class *)

(** class 2 { uint8_t; std::vector<message 1>; std::optional<message 0>;
      std::map<uint8_t, message 1>; std::variant<uint16_t, message 1>; optional_ptr<class 2> } *)
Definition mx_msg (k : nat) : bool := (k <? 2)%nat.
Definition mx_key : ty := TScalar 1 false.
Definition mx_native : tenv :=
  mkTenv (fun k => match k with
                   | 2%nat => mkSinfo 160 false false
                       (VSeq [VN 0; VSeq []; VNone; VSeq []; VAlt 0 (VN 0); VNone])
                   | _ => mkSinfo 1 false false (VSeq [])
                   end)
         (fun k => match k with
                   | 2%nat => [TScalar 1 false; TVec None true (TRec 1); TOpt true (TRec 0);
                               TAssoc None map_kind (TTuple [mx_key; TRec 1]);
                               TVariant (IdInt 1) [(0, true); (1, true)] [TScalar 2 false; TRec 1];
                               TOptPtr (TRec 2)]
                   | _ => []
                   end).
Definition mx_env_demo : tenv := classes mx_native mx_msg pb_demo.

Definition mx_phone (n : N) : val := VSeq [pb_text [48; 49]; VN n].
Definition mx_inner : val :=
  VSeq [VN 9; VSeq []; VNone; VSeq []; VAlt 0 (VN 513); VNone].
Definition mx_val : val :=
  VSeq [VN 7; VSeq [mx_phone 1; mx_phone 300]; VSome (VSeq pb_demo_val);
        VSeq [VSeq [VN 3; mx_phone 2]; VSeq [VN 8; mx_phone 0]]; VAlt 1 (mx_phone 5); VSome mx_inner].

Lemma mx_demo_mixed : mixed mx_env_demo mx_msg pb_demo.
Proof.
  apply classes_mixed.
  - intros [|[|k]] H; [reflexivity|reflexivity|discriminate].
  - intros [|[|[|k]]] H; try discriminate; split; vm_compute; reflexivity.
  - exact pb_demo_wf.
  - intros [|[|k]] H; [reflexivity|reflexivity|discriminate].
Qed.

Lemma mx_native_all p : (forall t, p t = true) -> native p mx_env_demo mx_msg.
Proof. intros H k _. apply forallb_forall. intros t _. now apply tall_true. Qed.

Example mixed_output_nontrivial :
  mixed_writing mx_env_demo mx_msg pb_demo vec_cfg mx_val (TRec 2) /\
  let st' := snd (mser mx_env_demo mx_msg pb_demo vec_cfg mx_val (TRec 2) (mkO [x55] 1)) in
  fst (mser mx_env_demo mx_msg pb_demo vec_cfg mx_val (TRec 2) (mkO [x55] 1)) = ROk /\
  firstn 16 (skipn 1 (obuf st'))
  = [x07; x02; x00; x00; x00; x06; x00; x00; x00; x0a; x02; x30; x31; x10; x01; x07] /\
  (length (message_item pb_demo vec_cfg 0 pb_demo_val) < opos st')%nat.
Proof.
  split; [|vm_compute; repeat split; auto; lia].
  constructor; try exact mx_demo_mixed; try exact pb_demo_numbers; try (vm_compute; reflexivity).
  - vm_compute. intros _. repeat split; discriminate.
  - intros [|[|[|k]]] H; try discriminate; reflexivity.
  - intros [|[|[|k]]] H; try discriminate; reflexivity.
Qed.

(** Into a target that held something else, between other data. *)
Example mixed_round_trip_nontrivial :
  mixed_writing mx_env_demo mx_msg pb_demo vec_cfg mx_val (TRec 2) /\
  mixed_readable mx_env_demo mx_msg pb_demo vec_cfg mx_val (TRec 2) /\
  wt mx_env_demo mx_inner (TRec 2) = true /\
  let w := snd (mser mx_env_demo mx_msg pb_demo vec_cfg mx_val (TRec 2) (mkO [x55] 1)) in
  let data := firstn (opos w) (obuf w) ++ [x77; x78] in
  mdes mx_env_demo mx_msg pb_demo vec_cfg data (S (length data)) (height mx_val) (TRec 2) mx_inner 1
  = (ROk, mx_val, opos w).
Proof.
  split; [exact (proj1 mixed_output_nontrivial)|]. split.
  { constructor; try (vm_compute; reflexivity).
    intros [|[|[|k]]] H; try discriminate; reflexivity. }
  split; vm_compute; reflexivity.
Qed.

Lemma pb_demo_cmp : pcmp_env pb_demo.
Proof.
  intros [|[|k]]; cbn [pb_demo m_fields]; repeat (apply Forall_cons); try apply Forall_nil;
    cbn [snd pcmp_ok str ck_laws]; try exact I; try (now apply lt_n_order).
  split; [now apply lt_n_order|]. split; exact I.
Qed.

Lemma mx_key_cmp s : cmp_ok mx_env_demo (TAssoc s map_kind (TTuple [mx_key; TRec 1])).
Proof.
  cbn [cmp_ok map_kind a_cmp]. unfold akey. cbn [a_map].
  assert (K : forall x, wt mx_env_demo x (TTuple [mx_key; TRec 1]) = true -> exists a b, x = VSeq [VN a; b]).
  { intros x H. destruct x as [|l| | | | | |]; try discriminate.
    destruct l as [|x [|y [|z l]]]; try discriminate; unfold mx_key in H; cbn [wt forall2b] in H.
    - destruct x; cbn in H; try discriminate; rewrite andb_false_r in H; discriminate.
    - destruct x; try discriminate. eauto.
    - rewrite !andb_false_r in H. discriminate. }
  split.
  - intros x Hx. destruct (K x Hx) as (a & b & ->). cbn. apply N.ltb_irrefl.
  - intros x y z Hx Hy Hz. destruct (K x Hx) as (a & b & ->), (K y Hy) as (a' & b' & ->),
      (K z Hz) as (a'' & b'' & ->). cbn. rewrite !N.ltb_lt. lia.
Qed.

Example mixed_demo_reading data k :
  small data -> mixed_reading mx_env_demo mx_msg pb_demo vec_cfg data (TRec k).
Proof.
  intro H. constructor; auto; try exact mx_demo_mixed; try exact pb_demo_cmp; try exact I; try reflexivity.
  - intros [|[|[|k']]] E; try discriminate; [|constructor].
    change (t_mems mx_env_demo 2) with (t_mems mx_native 2). cbn [mx_native t_mems].
    Opaque cmp_ok. repeat (apply Forall_cons); try apply Forall_nil; cbn [tallP]. Transparent cmp_ok.
    all: repeat match goal with |- _ /\ _ => split end; try exact I.
    + apply mx_key_cmp.
    + now split.
  - now split.
Qed.

(** Hostile bytes: an element count of 2 with one message behind it, whose announced length is
    2^32-1 and whose text claims to be longer than what is left. *)
Example mixed_safe_nontrivial :
  let data := [x07; x02; x00; x00; x00; xff; xff; xff; xff; x0a; x03; x30] in
  small data /\ wt mx_env_demo mx_inner (TRec 2) = true /\
  mdes mx_env_demo mx_msg pb_demo vec_cfg data 13 5 (TRec 2) mx_inner 0
  = (RErr result_out_of_range,
     VSeq [VN 7; VSeq [VSeq [VSeq [VN 0; VN 0; VN 0]; VN 0]; VSeq [VSeq []; VN 0]]; VNone; VSeq []; VAlt 0 (VN 513); VNone],
     11%nat).
Proof. cbv zeta. split; [vm_compute; reflexivity|]. split; vm_compute; reflexivity. Qed.

(** A message with an unknown field and a text: the ordinary member after it is found. *)
Definition mx_pair : ty := TTuple [TRec 1; TScalar 1 false].
Definition mx_pair0 : val := VSeq [VSeq [VSeq []; VN 0]; VN 0].
Example mixed_message_extent_nontrivial :
  let data := [x05; x00; x00; x00; x38; x10; x02; x0a; x00; x2a] in
  mixed_reading mx_env_demo mx_msg pb_demo vec_cfg data (TRec 1) /\
  des_size vec_cfg data (dsize vec_cfg) 0 = (ROk, 5, 4%nat) /\
  mdes mx_env_demo mx_msg pb_demo vec_cfg data 20 5 (TRec 1) (VSeq [VSeq []; VN 0]) 0
  = (ROk, VSeq [VSeq []; VN 2], 9%nat) /\
  mdes mx_env_demo mx_msg pb_demo vec_cfg data 20 5 mx_pair mx_pair0 0
  = (ROk, VSeq [VSeq [VSeq []; VN 2]; VN 42], 10%nat).
Proof.
  cbv zeta. split; [apply mixed_demo_reading; vm_compute; reflexivity|].
  split; [vm_compute; reflexivity|]. split; vm_compute; reflexivity.
Qed.

(** ** Where it does not work *)

(** An archive of the other byte order (endian::big on a little endian host): the lengths of
    messages are written in the order of the host but read in the order of the archive, so a
    message that is followed by anything need not be read back. *)
Definition mx_big_cfg : cfg :=
  mkCfg true true (SzFix 4) None 3 2 false false true (fun _ => true) (fun _ => 8).
Theorem mixed_big_endian_refuted :
  exists G M P c v t prior st', mixed_writing G M P c v t /\ wt G prior t = true /\
    tall (rt_ok c) t = true /\
    mser G M P c v t (mkO [] 0) = (ROk, st') /\
    mdes G M P c (firstn (opos st') (obuf st')) 20 5 t prior 0
    = (RErr result_out_of_range, VSeq [nth 0 (as_seq v) VNone; VN 0], opos st').
Proof.
  exists mx_env_demo, mx_msg, pb_demo, mx_big_cfg, (VSeq [mx_phone 5; VN 9]), mx_pair, mx_pair0,
    (snd (mser mx_env_demo mx_msg pb_demo mx_big_cfg (VSeq [mx_phone 5; VN 9]) mx_pair (mkO [] 0))). split.
  { constructor; try exact mx_demo_mixed; try exact pb_demo_numbers; try (vm_compute; reflexivity).
    - vm_compute. intros _. repeat split; discriminate.
    - intros [|[|[|k]]] H; try discriminate; reflexivity.
    - intros [|[|[|k]]] H; try discriminate; reflexivity. }
  split; [vm_compute; reflexivity|]. split; [vm_compute; reflexivity|].
  split; vm_compute; reflexivity.
Qed.

(** An archive without sizes: a message takes everything that follows it. *)
Definition mx_no_size_cfg : cfg :=
  mkCfg true false SzNone None 3 2 false false true (fun _ => true) (fun _ => 8).
Theorem mixed_no_size_refuted :
  exists G M P c v t prior st', mixed_writing G M P c v t /\ wt G prior t = true /\
    tall (rt_ok c) t = true /\
    mser G M P c v t (mkO [] 0) = (ROk, st') /\
    mdes G M P c (firstn (opos st') (obuf st')) 20 5 t prior 0
    = (RErr result_out_of_range, VSeq [nth 0 (as_seq v) VNone; VN 0], opos st').
Proof.
  exists mx_env_demo, mx_msg, pb_demo, mx_no_size_cfg, (VSeq [mx_phone 5; VN 9]), mx_pair, mx_pair0,
    (snd (mser mx_env_demo mx_msg pb_demo mx_no_size_cfg (VSeq [mx_phone 5; VN 9]) mx_pair (mkO [] 0))). split.
  { constructor; try exact mx_demo_mixed; try exact pb_demo_numbers; try (vm_compute; reflexivity).
    - vm_compute. intros _. repeat split; discriminate.
    - intros [|[|[|k]]] H; try discriminate; reflexivity.
    - intros [|[|[|k]]] H; try discriminate; reflexivity. }
  split; [vm_compute; reflexivity|]. split; [vm_compute; reflexivity|].
  split; vm_compute; reflexivity.
Qed.

(** Ordinary data cut short is always refused; not so when it ends in a message. *)
Theorem mixed_truncation_detected_refuted :
  exists G M P c v t prior st' v', mixed_writing G M P c v t /\ mixed_readable G M P c v t /\
    wt G prior t = true /\ mser G M P c v t (mkO [] 0) = (ROk, st') /\
    mdes G M P c (firstn (opos st' - 2) (obuf st')) 20 5 t prior 0 = (ROk, v', (opos st' - 2)%nat) /\
    v' <> v.
Proof.
  exists mx_env_demo, mx_msg, pb_demo, vec_cfg, (VSeq [VN 9; mx_phone 5]), (TTuple [TScalar 1 false; TRec 1]),
    (VSeq [VN 0; VSeq [VSeq []; VN 0]]),
    (snd (mser mx_env_demo mx_msg pb_demo vec_cfg (VSeq [VN 9; mx_phone 5]) (TTuple [TScalar 1 false; TRec 1])
       (mkO [] 0))), (VSeq [VN 9; mx_phone 0]). split.
  { constructor; try exact mx_demo_mixed; try exact pb_demo_numbers; try (vm_compute; reflexivity).
    - vm_compute. intros _. repeat split; discriminate.
    - intros [|[|[|k]]] H; try discriminate; reflexivity.
    - intros [|[|[|k]]] H; try discriminate; reflexivity. }
  split.
  { constructor; try (vm_compute; reflexivity). intros [|[|[|k]]] H; try discriminate; reflexivity. }
  split; [vm_compute; reflexivity|]. split; [vm_compute; reflexivity|].
  split; [vm_compute; reflexivity|discriminate].
Qed.
