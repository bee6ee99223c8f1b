(** C93: objects of classes with a serialize function that arrive in pieces. *)

From Coq Require Import List NArith ZArith Lia Bool Arith.
From Coq Require Import ZifyBool ZifyNat ZifyN.
From Verif Require Import Base.Bytes Model.Types Model.Machine Model.Varint Model.Out Model.In Model.Pb
  Model.Custom Model.CustomPieces Spec.Wire Spec.CustomWire Proofs.OutP Proofs.InBase Proofs.InSafe
  Proofs.InLocal Proofs.InRound Proofs.InStable Proofs.PbIn Proofs.CustomP Proofs.CustomIn Proofs.CustomRound
  Proofs.CustomStable Thm.Demo Thm.Output Thm.Input Thm.Custom Thm.Pieces.
Import ListNotations.
Local Open Scope N_scope.

(** Every item, and every item a function hands to the archive, says itself where it ends. *)
Definition own_ends (G : tenv) (F : funs) (c : cfg) (t : ty) : Prop :=
  tall (delimited c) t = true /\ forall k, sound G (fun t => tall (delimited c) t = true) (t_mems G k) (F k).

Lemma creading_prefix G F c data more t : creading G F c (data ++ more) t -> creading G F c data t.
Proof.
  intros [H1 H2 H3 H4 H5 H6]. constructor; auto. unfold small in *. rewrite app_length in H3. lia.
Qed.

(** ** Every answer but result_out_of_range is final *)

(** Whatever the functions do with the object and decide on what they have read, and whichever
    answer they give themselves: an answer other than result_out_of_range is the answer for any
    continuation of the data, with the same contents of the object and the same position. *)
Theorem custom_answer_final G F c data more fuel t prior pos r v p :
  creading G F c (data ++ more) t -> own_ends G F c t ->
  (pos <= length data)%nat -> wt G prior t = true ->
  cdes G F c data fuel t prior pos = (r, v, p) -> r <> too_short ->
  cdes G F c (data ++ more) fuel t prior pos = (r, v, p).
Proof.
  intros HR [Hd HdF] Hp Hw E Hr. pose proof (creading_prefix _ _ _ _ _ _ HR) as HR'.
  destruct HR as [H1 H2 H3 H4 H5 H6].
  assert (HF : forall k, sound G (part_ok G c) (t_mems G k) (F k)).
  { intro k. eapply sound_weaken; [|apply (sound_and _ _ _ _ _ (HdF k) (H6 k))]. intros t' [A B]. split; auto. }
  pose proof (cdes_stable G F c data more H1 H2 (cr_small _ _ _ _ _ HR') H3 HF fuel t H5 (conj Hd H4) prior pos Hp Hw) as S.
  rewrite E in S. destruct S as [S|S]; [contradiction|exact S].
Qed.

(** And result_out_of_range means that an object that is read later has its end later. *)
Theorem custom_too_short_means_more G F c data more fuel t prior pos v' p' v p :
  creading G F c (data ++ more) t -> own_ends G F c t ->
  (pos <= length data)%nat -> wt G prior t = true ->
  cdes G F c data fuel t prior pos = (too_short, v', p') ->
  cdes G F c (data ++ more) fuel t prior pos = (ROk, v, p) ->
  (length data < p)%nat.
Proof.
  intros HR [Hd HdF] Hp Hw E1 E2. destruct (Nat.le_gt_cases p (length data)) as [L|L]; [exfalso|exact L].
  pose proof (custom_consumed_only G F c (data ++ more) data t fuel prior pos v p HR
    (cr_small _ _ _ _ _ (creading_prefix _ _ _ _ _ _ HR)) Hd HdF ltac:(rewrite app_length; lia) Hp Hw E2) as D.
  destruct (Nat.leb_spec p (length data)); [|lia].
  rewrite D in E1; [discriminate|]. intros i Hi. symmetry. apply nth_error_app1. lia.
Qed.

(** ** The loop *)

(** Whatever the functions are: the loop ends as one read of all of the data does, into an object
    of the class; no data are lost. *)
Theorem custom_pieces_one_read G F c fuel t pos have todo item :
  creading G F c (have ++ concat todo) t -> own_ends G F c t ->
  (pos <= length have)%nat -> wt G item t = true ->
  let '(o, have', rest) := creceive G F c fuel t pos have todo item in
  have' ++ concat rest = have ++ concat todo
  /\ exists item', wt G item' t = true /\ cdes G F c (have ++ concat todo) fuel t item' pos = o.
Proof.
  intros HR He. revert have item HR. induction todo as [|x todo IH]; intros have item HR Hp Hw; cbn [creceive].
  { cbn [concat] in *. rewrite app_nil_r in *.
    destruct (cdes G F c have fuel t item pos) as [[r v] p] eqn:E.
    destruct r as [|[]| | |]; cbn [concat]; rewrite ?app_nil_r; eauto. }
  destruct (cdes G F c have fuel t item pos) as [[r v] p] eqn:E.
  assert (A : r <> too_short -> have ++ concat (x :: todo) = have ++ concat (x :: todo)
    /\ exists item', wt G item' t = true /\ cdes G F c (have ++ concat (x :: todo)) fuel t item' pos = (r, v, p)).
  { intro N. split; [reflexivity|]. exists item. split; [exact Hw|]. eapply custom_answer_final; eauto. }
  assert (K : let '(o, have', rest) := creceive G F c fuel t pos (have ++ x) todo v in
    have' ++ concat rest = have ++ concat (x :: todo)
    /\ exists item', wt G item' t = true /\ cdes G F c (have ++ concat (x :: todo)) fuel t item' pos = o).
  { pose proof (custom_read_safe G F c have t fuel item pos (creading_prefix _ _ _ _ _ _ HR) Hp Hw) as S.
    rewrite E in S. destruct S as (_ & S & _).
    cbn [concat] in *. rewrite app_assoc in *. apply IH; auto. rewrite app_length. lia. }
  destruct r as [|[]| | |]; try exact K; apply A; discriminate.
Qed.

(** If what is read does not depend on what the object held, the loop stops with the first piece
    that completes the object. *)
Theorem custom_pieces_stop G F c fuel t pos have todo item v p :
  creading G F c (have ++ concat todo) t -> own_ends G F c t ->
  (pos <= length have)%nat -> wt G item t = true ->
  (forall item', wt G item' t = true -> cdes G F c (have ++ concat todo) fuel t item' pos = (ROk, v, p)) ->
  exists got rest,
    todo = got ++ rest
    /\ creceive G F c fuel t pos have todo item = ((ROk, v, p), have ++ concat got, rest)
    /\ (p <= length (have ++ concat got))%nat
    /\ (forall got' x more, got = got' ++ x :: more -> (length (have ++ concat got') < p)%nat).
Proof.
  intros HR He Hp Hw E. revert have HR item Hp Hw E.
  induction todo as [|x todo IH]; intros have HR item Hp Hw E; cbn [creceive].
  { cbn [concat] in *. rewrite app_nil_r in *. exists [], []. cbn [concat app]. rewrite app_nil_r.
    pose proof (E item Hw) as E1.
    pose proof (custom_read_safe G F c have t fuel item pos HR Hp Hw) as S. rewrite E1 in S.
    rewrite E1. repeat split; auto; [apply S|]. intros [|? ?]; discriminate. }
  destruct (cdes G F c have fuel t item pos) as [[r1 v1] p1] eqn:E1.
  pose proof (custom_read_safe G F c have t fuel item pos (creading_prefix _ _ _ _ _ _ HR) Hp Hw) as S.
  rewrite E1 in S. destruct S as (P1 & W & _).
  assert (D : r1 = too_short \/ (r1, v1, p1) = (ROk, v, p)).
  { assert (Dec : r1 = too_short \/ r1 <> too_short)
      by (destruct r1 as [|[]| | |]; (now left) || (right; discriminate)).
    destruct Dec as [N|N]; [now left|]. right.
    rewrite <- (custom_answer_final _ _ _ _ _ _ _ _ _ _ _ _ HR He Hp Hw E1 N). auto. }
  destruct D as [->|D].
  - unfold too_short. pose proof (custom_too_short_means_more _ _ _ _ _ _ _ _ _ _ _ _ _ HR He Hp Hw E1 (E _ Hw)) as M.
    cbn [concat] in *. rewrite app_assoc in HR, E.
    destruct (IH (have ++ x) HR v1 ltac:(rewrite app_length; lia) W E) as (got & rest & I1 & I2 & I3 & I4).
    exists (x :: got), rest. cbn [concat]. rewrite app_assoc. repeat split; auto.
    + now rewrite I1.
    + intros [|y got'] z more Eq; cbn [app] in Eq; injection Eq as -> ->; cbn [concat].
      * now rewrite app_nil_r.
      * rewrite app_assoc. eapply I4. reflexivity.
  - injection D as -> -> ->. exists [], (x :: todo). cbn [concat app]. rewrite app_nil_r. repeat split; auto.
    + apply P1.
    + intros [|? ?]; discriminate.
Qed.

(** An object that can be read back at all (C70) can be read back from pieces: what one call of
    the writer appended, cut anywhere, is received as it was, whatever the object held, with the
    piece that completes it. *)
Theorem custom_pieces_round_trip G F F' cw cr v t st st' have todo pos fuel item :
  cwriting G F cw v t st -> cser G F cw v t st = (ROk, st') ->
  dsize cr = dsize cw -> xorb (host_le cr) (swap cr) = xorb (host_le cw) (swap cw) ->
  cpair G F F' cr (have ++ concat todo) ->
  tall (rt_ok cr) t = true -> xreadable G F F' cr v t -> (height v <= fuel)%nat ->
  creading G F' cr (have ++ concat todo) t -> own_ends G F' cr t ->
  (pos <= length have)%nat -> wt G item t = true ->
  let e := window (obuf st') (opos st) (opos st' - opos st) in
  let p := (pos + (opos st' - opos st))%nat in
  has_at (have ++ concat todo) pos e ->
  exists got rest,
    todo = got ++ rest
    /\ creceive G F' cr fuel t pos have todo item = ((ROk, v, p), have ++ concat got, rest)
    /\ (p <= length (have ++ concat got))%nat
    /\ (forall got' x more, got = got' ++ x :: more -> (length (have ++ concat got') < p)%nat).
Proof.
  intros HW E Hd Ho HP Ht Hr Hh HR He Hp Hw e p Hat. apply custom_pieces_stop; auto.
  intros item' Hw'. apply (custom_round_trip G F F' cw cr v t st st'); auto.
Qed.

(** ** Examples *)

(** The batch of records of C70 in four pieces, with something behind it, into a batch that held
    something else. *)
Definition batch_pieces : list (list byte) :=
  [[x02; x02; x01]; [x02; x00; x00; x00; x07]; [x00; x08; x00; x01; x04]; [x03; x99]; [x98]].

Example custom_pieces_nontrivial :
  creceive cls_env cls_funs vec_cfg 5 (TRec 1) 1 [xaa; x02] batch_pieces (VSeq [VSeq [rec_bad; rec_a; rec_a]])
  = ((ROk, batch, 16%nat), [xaa; x02] ++ concat (firstn 4 batch_pieces), [[x98]])
  /\ creading cls_env cls_funs vec_cfg ([xaa; x02] ++ concat batch_pieces) (TRec 1)
  /\ own_ends cls_env cls_funs vec_cfg (TRec 1)
  /\ cpair cls_env cls_funs cls_funs vec_cfg ([xaa; x02] ++ concat batch_pieces)
  /\ wt cls_env (VSeq [VSeq [rec_bad; rec_a; rec_a]]) (TRec 1) = true
  /\ has_at ([xaa; x02] ++ concat batch_pieces) 1 batch_bytes.
Proof.
  split; [vm_compute; reflexivity|]. split; [apply cls_reading; vm_compute; reflexivity|].
  split; [split; [reflexivity|apply cls_delimited]|]. split; [apply cls_pair; vm_compute; reflexivity|].
  split; [vm_compute; reflexivity|]. split; [vm_compute; lia|vm_compute; reflexivity].
Qed.

(** A bad version is known as soon as it is there. *)
Example custom_pieces_error_nontrivial :
  creceive cls_env cls_funs vec_cfg 5 (TRec 1) 0 [x01] [[x03]; [x01; x00]] (VSeq [VSeq []])
  = ((RErr not_supported, VSeq [VSeq [VSeq [VN 3; VN 0; VSeq []]]], 2%nat), [x01; x03], [[x01; x00]]).
Proof. vm_compute. reflexivity. Qed.

(** ** What trying again does not give *)

(** Class 0 counts how often it has been read:
      struct counted { uint8_t reads; uint16_t x;
        static auto serialize(auto & archive, auto & self) {
          if (in) ++self.reads;
          return archive(self.x); } };
    Class 1 says so when a number is out of its range:
      struct percentage { uint8_t n;
        static auto serialize(auto & archive, auto & self) {
          if (auto r = archive(self.n); failure(r)) return r;
          if (self.n > 100) return errc{std::errc::result_out_of_range};
          return errc{}; } }; *)
Definition odd_env : tenv :=
  mkTenv (fun k => match k with
                   | O => mkSinfo 4 false true (VSeq [VN 0; VN 0])
                   | 1%nat => mkSinfo 1 false true (VSeq [VN 0])
                   | _ => mkSinfo 1 false true (VSeq [])
                   end)
         (fun k => match k with O => [u8; u16] | 1%nat => [u8] | _ => [] end).

Definition counted_fun : prog :=
  PSet (fun self => set_nth 0 (VN ((num 0 self + 1) mod 256)) self) (PMem 1 u16 (fun _ => PRet)).
Definition percentage_fun : prog :=
  PMem 0 u8 (fun self => if 100 <? num 0 self then PFail result_out_of_range else PRet).
Definition odd_funs : funs := fun k => match k with O => counted_fun | 1%nat => percentage_fun | _ => PRet end.

Lemma odd_sound (Q : ty -> Prop) k : Q u8 -> Q u16 -> sound odd_env Q (t_mems odd_env k) (odd_funs k).
Proof.
  intros Q1 Q2. destruct k as [|[|k]]; cbn [odd_funs t_mems odd_env]; [| |exact I].
  - unfold counted_fun. cbn [sound]. split.
    + intros self Ho. apply (forall2b_set _ _ _ O _ u8 Ho eq_refl). cbn [wt u8]. apply N.ltb_lt.
      apply N.mod_lt. discriminate.
    + split; [exists u16; auto|]. split; [reflexivity|]. split; [exact Q2|]. auto.
  - unfold percentage_fun. cbn [sound]. split; [exists u8; auto|]. split; [reflexivity|]. split; [exact Q1|].
    intros self _. destruct (100 <? num 0 self); exact I.
Qed.

Lemma odd_reading data k : small data -> creading odd_env odd_funs vec_cfg data (TRec k).
Proof.
  intro H. constructor; auto.
  - intros [|[|k0]]; split; reflexivity.
  - exact (conj I I).
  - intro k0. apply odd_sound; cbn; auto.
Qed.
Lemma odd_ends k : own_ends odd_env odd_funs vec_cfg (TRec k).
Proof. split; [reflexivity|]. intro k0. apply odd_sound; reflexivity. Qed.

(** A function that goes by what the object held sees what the attempts before left there: the
    object received in pieces is not the one received at once. *)
Theorem custom_pieces_same_object_refuted :
  exists have todo item v v' p,
    creading odd_env odd_funs vec_cfg (have ++ concat todo) (TRec 0) /\ own_ends odd_env odd_funs vec_cfg (TRec 0)
    /\ wt odd_env item (TRec 0) = true
    /\ cdes odd_env odd_funs vec_cfg (have ++ concat todo) 5 (TRec 0) item 0 = (ROk, v, p)
    /\ fst (fst (creceive odd_env odd_funs vec_cfg 5 (TRec 0) 0 have todo item)) = (ROk, v', p)
    /\ v' <> v.
Proof.
  exists [x01], [[x02]], (VSeq [VN 0; VN 0]), (VSeq [VN 1; VN 0x201]), (VSeq [VN 2; VN 0x201]), 2%nat.
  split; [apply odd_reading; vm_compute; reflexivity|]. split; [apply odd_ends|].
  repeat split; try (vm_compute; reflexivity). discriminate.
Qed.

(** A function that answers result_out_of_range for a value of its own keeps the program waiting:
    all of the byte stream is swallowed, although the object was there with its first byte. *)
Theorem custom_pieces_own_code_refuted :
  exists have item p, (p <= length have)%nat /\ own_ends odd_env odd_funs vec_cfg (TRec 1)
    /\ wt odd_env item (TRec 1) = true
    /\ forall todo, small (have ++ concat todo) ->
         creceive odd_env odd_funs vec_cfg 5 (TRec 1) 0 have todo item
         = ((too_short, VSeq [VN 101], p), have ++ concat todo, []).
Proof.
  exists [x65], (VSeq [VN 0]), 1%nat. split; [reflexivity|]. split; [apply odd_ends|]. split; [reflexivity|].
  assert (R : forall rest n, small ([x65] ++ rest) ->
    cdes odd_env odd_funs vec_cfg ([x65] ++ rest) 5 (TRec 1) (VSeq [VN n]) 0
    = (too_short, VSeq [VN 101], 1%nat)).
  { intros rest n Hs. unfold cdes. cbn [des_ty cdes_rec as_seq odd_funs].
    unfold percentage_fun, u8. cbn [run_in nth_error des_ty].
    assert (D : des_scalar vec_cfg ([x65] ++ rest) 1 n 0 = (ROk, 101, 1%nat)).
    { rewrite (des_scalar_eq vec_cfg ([x65] ++ rest)); [|exact Hs|apply Nat.le_0_l].
      rewrite app_length. reflexivity. }
    rewrite D. reflexivity. }
  assert (K : forall todo rest n, small (([x65] ++ rest) ++ concat todo) ->
    creceive odd_env odd_funs vec_cfg 5 (TRec 1) 0 ([x65] ++ rest) todo (VSeq [VN n])
    = ((too_short, VSeq [VN 101], 1%nat), ([x65] ++ rest) ++ concat todo, [])).
  { induction todo as [|x todo IH]; intros rest n Hs; cbn [creceive].
    - cbn [concat] in *. rewrite app_nil_r in *. rewrite R by exact Hs. reflexivity.
    - assert (Hs' : small ([x65] ++ rest)).
      { clear -Hs. unfold small in Hs |- *. rewrite app_length in Hs. lia. }
      rewrite R by exact Hs'. unfold too_short. cbn [concat] in *.
      assert (E : ([x65] ++ rest) ++ x = [x65] ++ (rest ++ x)) by (symmetry; apply app_assoc).
      rewrite app_assoc, E in Hs |- *. apply IH. exact Hs. }
  intro todo. specialize (K todo [] 0). rewrite app_nil_r in K. exact K.
Qed.

Print Assumptions custom_answer_final.
Print Assumptions custom_too_short_means_more.
Print Assumptions custom_pieces_one_read.
Print Assumptions custom_pieces_stop.
Print Assumptions custom_pieces_round_trip.
Print Assumptions custom_pieces_same_object_refuted.
Print Assumptions custom_pieces_own_code_refuted.
