(** C82: null pointers and valueless variants around protobuf messages. *)

From Coq Require Import List NArith ZArith Lia Bool Arith.
From Coq Require Import ZifyBool ZifyNat ZifyN.
From Verif Require Import Base.Bytes Model.Types Model.Machine Model.Varint Model.Out Model.In Model.Protocol
  Model.Pb Model.PbNative Model.Mixed Spec.Leb128 Spec.Wire Spec.PbWire Spec.PbMerge Spec.MixedWire
  Proofs.VarintP Proofs.OutP Proofs.InBase Proofs.InSafe Proofs.InLocal Proofs.InRound Proofs.ProtoP Proofs.PbOut Proofs.PbParse
  Proofs.PbIn Proofs.CustomP Proofs.MixedP Proofs.MixedRound Proofs.MixedNull Thm.Demo Thm.Pb Thm.Mixed.
Import ListNotations.
Local Open Scope N_scope.

(** [mixed_writing] without the demand that there are none. *)
Record mixed_trying (G : tenv) (M : nat -> bool) (P : penv) (c : cfg) (v : val) (t : ty) : Prop := {
  my_env : mixed G M P;
  my_numbers : rep_numbers P;
  my_cfg : wf_out c;
  my_size : wfsz (Some (dsize c)) = true;
  my_sizes : szok c = true;
  my_order : pb_order_ok c = true;
  my_plain_env : native elem_ok G M;
  my_bits_env : native not_bitset G M;
  my_wf : wf G t = true;
  my_plain : plain t = true;
  my_bits : tall not_bitset t = true;
  my_wt : wt G v t = true;
  my_fits : messages (message_fits P c) G M v t = true;
  my_small : N.of_nat (length (fst (menc G M P c v t))) < 2 ^ 63
}.

(** Writing stops with invalid_argument at the first null pointer or valueless variant, with
    everything before it, messages included, completely written; and only there. *)
Theorem mixed_null_stops G M P c v t :
  mixed_trying G M P c v t ->
  forall st, ost_ok st ->
  let p := menc G M P c v t in
  let '(r, st') := mser G M P c v t st in
  match r with
  | ROk => snd p = true /\ wrote_exactly c st (fst p) st'
  | RErr invalid_argument => snd p = false /\ wrote_exactly c st (fst p) st'
  | RErr result_out_of_range =>
      growable c = false /\ framed c st st' /\ (length (obuf st) - opos st < length (fst p))%nat
  | RErr no_buffer_space | RThrow => growable c = true /\ framed c st st'
  | _ => False
  end /\
  (forall E, rich c E -> (opos st + length (fst p) <= E)%nat ->
     r = if snd p then ROk else RErr invalid_argument).
Proof.
  intros [W1 W2 W3 W4 W5 W6 W7 W8 W9 W10 W11 W12 W14 W15] st Hok.
  exact (mser_pstops G M P c W1 W2 W4 (pb_order_little c W6) W5 W7 W8 v t W12 W9 W10 W11 W14 W3 W15 st Hok).
Qed.

(** struct { uint8_t; std::vector<std::unique_ptr<message 1>> }, the second pointer null. *)
Definition mx_ptrs : ty := TTuple [TScalar 1 false; TVec None true (TPtr (TRec 1))].
Definition mx_null : val := VSeq [VN 7; VSeq [VSome (mx_phone 1); VNone; VSome (mx_phone 2)]].
Example mixed_null_nontrivial :
  mixed_trying mx_env_demo mx_msg pb_demo vec_cfg mx_null mx_ptrs /\
  menc mx_env_demo mx_msg pb_demo vec_cfg mx_null mx_ptrs
  = ([x07; x03; x00; x00; x00; x06; x00; x00; x00; x0a; x02; x30; x31; x10; x01], false) /\
  let '(r, st') := mser mx_env_demo mx_msg pb_demo vec_cfg mx_null mx_ptrs (mkO [x55] 1) in
  r = RErr invalid_argument /\ opos st' = 16%nat /\
  firstn 16 (obuf st')
  = [x55; x07; x03; x00; x00; x00; x06; x00; x00; x00; x0a; x02; x30; x31; x10; x01].
Proof.
  split; [|split; [vm_compute; reflexivity|vm_compute; repeat split; reflexivity]].
  constructor; try exact mx_demo_mixed; try exact pb_demo_numbers; try (vm_compute; reflexivity).
  - vm_compute. intros _. repeat split; discriminate.
  - intros [|[|[|k]]] H; try discriminate; reflexivity.
  - intros [|[|[|k]]] H; try discriminate; reflexivity.
Qed.

Print Assumptions mixed_null_stops.
