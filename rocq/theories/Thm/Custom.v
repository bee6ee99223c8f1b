(** C70: classes with a serialize function written by the user. *)

From Coq Require Import List NArith ZArith Lia Bool Arith.
From Coq Require Import ZifyBool ZifyNat ZifyN.
From Verif Require Import Base.Bytes Model.Types Model.Machine Model.Varint Model.Out Model.In Model.Pb
  Model.Custom Spec.Leb128 Spec.Wire Spec.CustomWire Proofs.VarintP Proofs.OutP Proofs.InBase
  Proofs.InSafe Proofs.InLocal Proofs.InRound Proofs.CustomP Proofs.CustomIn Proofs.CustomRound
  Proofs.CustomOrder Thm.Demo Thm.Output Thm.Input.
Import ListNotations.
Local Open Scope N_scope.

(** ** Writing *)

(** The situations: [v] is an object of a well-formed type, all functions are sound; the buffer
    is zero from the position on unless no item has a bitset. *)
Record cwriting (G : tenv) (F : funs) (c : cfg) (v : val) (t : ty) (st : ost) : Prop := {
  cw_cfg : wf_out c;
  cw_size : szok c = true;
  cw_env : wf_env G;
  cw_envp : tall_env elem_ok G;
  cw_wt : wt G v t = true;
  cw_wf : wf G t = true;
  cw_plain : plain t = true;
  cw_funs : forall k, sound G plain_item (t_mems G k) (F k);
  cw_bits : clean st \/ (tall_env not_bitset G /\ tall not_bitset t = true
            /\ forall k, sound G (fun t => tall not_bitset t = true) (t_mems G k) (F k));
  cw_small : N.of_nat (length (fst (xenc G F (fmt_of c) v t))) < 2 ^ 63;
  cw_st : ost_ok st
}.

Lemma sound_and G Q Q' ts p : sound G Q ts p -> sound G Q' ts p -> sound G (fun t => Q t /\ Q' t) ts p.
Proof.
  induction p as [|e| |i t k IH|t f k IH|f k IH]; cbn [sound]; auto.
  - intros (H1 & H2 & H3 & H4) (_ & _ & H5 & H6). repeat split; auto.
  - intros (H1 & H2 & H3 & H4 & H5) (_ & _ & H6 & _ & H7). repeat split; auto.
  - intros [H1 H2] [_ H3]. split; auto.
Qed.

Lemma cwriting_emits G F c v t st :
  cwriting G F c v t st ->
  let '(r, st') := cser G F c v t st in
  let e := xenc G F (fmt_of c) v t in
  xoutcome c st e r st' /\
  (forall E, rich c E -> (opos st + length (fst e) <= E)%nat -> r = xresult e).
Proof.
  intros [H1 H2 H3 H4 H5 H6 H7 H8 H9 H10 H11]. destruct H9 as [Hc|(B1 & B2 & B3)].
  - refine (cser_emits G F c true H2 H3 H4 _ _ v t H5 H6 _ H1 H10 st H11 (fun _ => Hc)).
    + discriminate.
    + intro k. eapply sound_weaken; [|apply H8]. intros t' Ht. split; [exact Ht|discriminate].
    + split; [exact H7|discriminate].
  - refine (cser_emits G F c false H2 H3 H4 _ _ v t H5 H6 _ H1 H10 st H11 _).
    + auto.
    + intro k. eapply sound_weaken; [|apply (sound_and _ _ _ _ _ (H8 k) (B3 k))].
      intros t' [Ht Ht']. split; auto.
    + split; auto.
    + discriminate.
Qed.

(** What is on the wire: the items the function transfers, one after the other; no sizes,
    padding or markers of its own. *)
Theorem custom_wire_format G F c v t st st' :
  cwriting G F c v t st -> cser G F c v t st = (ROk, st') ->
  let e := xenc G F (fmt_of c) v t in
  snd e = None
  /\ opos st' = (opos st + length (fst e))%nat
  /\ window (obuf st') (opos st) (length (fst e)) = fst e.
Proof.
  intros HW E. pose proof (cwriting_emits _ _ _ _ _ _ HW) as H. rewrite E in H.
  destruct H as [(e1 & e2 & k & F1 & F2 & F3 & F4 & F5 & F6) _]. subst e2.
  rewrite app_nil_r in F1. cbv zeta. rewrite F1. subst st'. cbn [obuf opos].
  repeat split; [exact F6|]. apply window_overwrite. destruct (cw_st _ _ _ _ _ _ HW). rewrite app_length. lia.
Qed.

(** With room in a fixed buffer the result is the function's own; without, it is
    result_out_of_range unless the function gives up before the room does. *)
Theorem custom_result_fixed G F c v t st :
  cwriting G F c v t st -> growable c = false ->
  let '(r, st') := cser G F c v t st in
  let e := xenc G F (fmt_of c) v t in
  length (obuf st') = length (obuf st)
  /\ ((opos st + length (fst e) <= length (obuf st))%nat ->
      r = xresult e
      /\ window (obuf st') (opos st) (length (fst e)) = fst e)
  /\ ((length (obuf st) < opos st + length (fst e))%nat -> r = RErr result_out_of_range).
Proof.
  intros HW Hg. pose proof (cwriting_emits _ _ _ _ _ _ HW) as H.
  destruct (cser G F c v t st) as [r st'].
  destruct H as [(e1 & e2 & k & F1 & F2 & F3 & F4 & F5) _].
  destruct F4 as [->|(F4 & _)]; [|congruence].
  assert (HL : (opos st + length e1 <= length (obuf st ++ zeros 0))%nat)
    by (rewrite app_length, zeros_length; lia).
  subst st'. cbn [obuf opos]. cbv zeta. rewrite overwrite_length by exact HL.
  rewrite app_length, zeros_length. split; [lia|]. rewrite F1 in *. rewrite app_length in *.
  split; intro Hl.
  - assert (K : e2 = [] /\ r = xresult (xenc G F (fmt_of c) v t)).
    { unfold xresult. destruct r as [|er| | |]; try tauto.
      - destruct F5 as [-> ->]. auto.
      - destruct F5 as [[-> ->]|[(_ & _ & F5)|[_ F5]]]; [auto|lia|congruence].
      - destruct F5 as [[-> ->]|F5]; [auto|congruence]. }
    destruct K as [-> ->]. cbn [length]. rewrite (app_nil_r e1), Nat.add_0_r. split; [reflexivity|].
    apply window_overwrite. rewrite app_length, zeros_length. lia.
  - destruct r as [|er| | |]; try tauto; try congruence.
    + destruct F5 as [-> _]. cbn [length] in *. lia.
    + destruct F5 as [[-> _]|[(-> & _)|[_ F5]]]; [cbn [length] in *; lia|reflexivity|congruence].
    + destruct F5 as [[-> _]|F5]; [cbn [length] in *; lia|congruence].
Qed.

(** A growing buffer that can grow far enough: the result is the function's own. *)
Theorem custom_result_growable G F c v t st :
  cwriting G F c v t st -> growable c = true ->
  let r := fst (cser G F c v t st) in
  let e := xenc G F (fmt_of c) v t in
  (r = xresult e \/ r = RErr no_buffer_space \/ r = RThrow)
  /\ (forall E, rich c E -> (opos st + length (fst e) <= E)%nat ->
      r = xresult e).
Proof.
  intros HW Hg. pose proof (cwriting_emits _ _ _ _ _ _ HW) as H.
  destruct (cser G F c v t st) as [r st']. cbn [fst].
  destruct H as [(e1 & e2 & k & F1 & F2 & F3 & F4 & F5) HR]. split; [|exact HR].
  unfold xresult. destruct r as [|er| | |]; try tauto.
  - destruct F5 as [_ ->]. auto.
  - destruct F5 as [[_ ->]|[(_ & F5 & _)|[-> _]]]; [auto|congruence|auto].
Qed.

(** Whatever a function does, nothing outside the window written is touched, also when it
    returns an error in the middle. *)
Theorem custom_out_frame G F c v t st r st' :
  cwriting G F c v t st -> cser G F c v t st = (r, st') ->
  r <> RUB
  /\ (opos st <= opos st' <= length (obuf st'))%nat
  /\ firstn (opos st) (obuf st') = firstn (opos st) (obuf st)
  /\ (forall i, (opos st' <= i < length (obuf st))%nat ->
        nth_error (obuf st') i = nth_error (obuf st) i)
  /\ exists rest, window (obuf st') (opos st) (opos st' - opos st) ++ rest
                  = fst (xenc G F (fmt_of c) v t).
Proof.
  intros HW E. pose proof (cwriting_emits _ _ _ _ _ _ HW) as H. rewrite E in H.
  destruct H as [(e1 & e2 & k & F1 & F2 & F3 & F4 & F5) _].
  destruct (cw_st _ _ _ _ _ _ HW) as [Hp _]. subst st'. cbn [obuf opos].
  assert (HL : (opos st + length e1 <= length (obuf st ++ zeros k))%nat)
    by (rewrite app_length, zeros_length; lia).
  rewrite overwrite_length by exact HL. rewrite app_length, zeros_length.
  split; [intros ->; exact F5|]. split; [lia|]. split; [|split].
  - rewrite firstn_overwrite by lia.
    rewrite firstn_app. replace (opos st - length (obuf st))%nat with O by lia.
    cbn [firstn]. now rewrite app_nil_r.
  - intros i Hi. rewrite nth_error_overwrite by exact HL.
    destruct (Nat.ltb_spec i (opos st + length e1)); [lia|]. rewrite andb_false_r.
    now rewrite nth_error_app1 by lia.
  - exists e2. replace (opos st + length e1 - opos st)%nat with (length e1) by lia.
    rewrite window_overwrite by (rewrite app_length in *; lia). now rewrite F1.
Qed.

(** ** Reading arbitrary bytes *)

Record creading (G : tenv) (F : funs) (c : cfg) (data : list byte) (t : ty) : Prop := {
  cr_env : wf_env G;
  cr_size : wfsz (Some (dsize c)) = true;
  cr_small : small data;
  cr_cmp : tallP (cmp_ok G) t;
  cr_wf : wf G t = true;
  cr_funs : forall k, sound G (tallP (cmp_ok G)) (t_mems G k) (F k)
}.

Lemma creading_safe G F c data t ub fuel :
  creading G F c data t -> tall (flagged ub true) t = true ->
  (forall k, sound G (fun t => tall (flagged ub true) t = true) (t_mems G k) (F k)) ->
  safe_f G data ub true t (cdes G F c data fuel t).
Proof.
  intros [H1 H2 H3 H4 H5 H6] Hf HF. apply cdes_safe; auto; [|split; auto].
  intro k. eapply sound_weaken; [|apply (sound_and _ _ _ _ _ (HF k) (H6 k))]. intros t' [A B]. split; auto.
Qed.

Lemma sound_any G Q (Q' : ty -> Prop) ts p : (forall t, Q' t) -> sound G Q ts p -> sound G Q' ts p.
Proof. intro H. apply sound_weaken. auto. Qed.

(** Whatever the bytes are and whatever the functions decide on them: no access outside the
    data, and in the end the position is inside the data and the target is a valid object. *)
Theorem custom_read_safe G F c data t fuel prior pos :
  creading G F c data t -> (pos <= length data)%nat -> wt G prior t = true ->
  match cdes G F c data fuel t prior pos with (r, v, p) =>
    (pos <= p <= length data)%nat /\ wt G v t = true
    /\ (tall not_bool t = true -> (forall k, sound G (fun t => tall not_bool t = true) (t_mems G k) (F k)) ->
        r <> RUB)
  end.
Proof.
  intros HR Hp Hw.
  assert (A : safe_f G data true true t (cdes G F c data fuel t)).
  { apply creading_safe; auto using flagged_true.
    intro k. eapply sound_any; [apply flagged_true|]. apply (cr_funs _ _ _ _ _ HR). }
  specialize (A prior pos Hp Hw).
  assert (B : tall not_bool t = true -> (forall k, sound G (fun t => tall not_bool t = true) (t_mems G k) (F k)) ->
     rres (cdes G F c data fuel t prior pos) <> RUB).
  { intros Hb HbF. assert (S : safe_f G data false true t (cdes G F c data fuel t)).
    { apply creading_safe; auto using flagged_no_bool.
      intro k. eapply sound_weaken; [|apply HbF]. apply flagged_no_bool. }
    specialize (S prior pos Hp Hw). destruct (cdes G F c data fuel t prior pos) as [[r v] p].
    destruct S as (_ & _ & S & _). cbn. intros ->. specialize (S eq_refl). discriminate. }
  destruct (cdes G F c data fuel t prior pos) as [[r v] p]. cbn [rres fst] in B.
  destruct A as (A1 & A2 & _). auto.
Qed.

(** Only the bytes consumed matter. *)
Theorem custom_consumed_only G F c data data' t fuel prior pos v p :
  creading G F c data t -> small data' ->
  tall (delimited c) t = true -> (forall k, sound G (fun t => tall (delimited c) t = true) (t_mems G k) (F k)) ->
  (pos <= length data)%nat -> (pos <= length data')%nat -> wt G prior t = true ->
  cdes G F c data fuel t prior pos = (ROk, v, p) ->
  (forall i, (pos <= i < Nat.min p (length data'))%nat -> nth_error data' i = nth_error data i) ->
  if (p <=? length data')%nat
  then cdes G F c data' fuel t prior pos = (ROk, v, p)
  else rres (cdes G F c data' fuel t prior pos) = RErr result_out_of_range.
Proof.
  intros [H1 H2 H3 H4 H5 H6] Hs' Hd HdF Hp Hp' Hw E Ha.
  assert (HF : forall k, sound G (part_ok G c) (t_mems G k) (F k)).
  { intro k. eapply sound_weaken; [|apply (sound_and _ _ _ _ _ (HdF k) (H6 k))]. intros t' [A B]. split; auto. }
  apply (cdes_local G F c data data' H1 H2 H3 Hs' HF fuel t H5 (conj Hd H4) prior pos v p Hp Hp' Hw E).
  intros i Hi. symmetry. now apply Ha.
Qed.

(** In particular a message that ends early is an error, never half an object with success. *)
Theorem custom_truncated_rejected G F c data t fuel prior pos v p k :
  creading G F c data t ->
  tall (delimited c) t = true -> (forall k, sound G (fun t => tall (delimited c) t = true) (t_mems G k) (F k)) ->
  (pos <= k)%nat -> (pos <= length data)%nat -> wt G prior t = true ->
  cdes G F c data fuel t prior pos = (ROk, v, p) -> (k < p)%nat ->
  rres (cdes G F c (firstn k data) fuel t prior pos) = RErr result_out_of_range.
Proof.
  intros HR Hd HdF Hk Hp Hw E Hkp.
  pose proof (custom_read_safe G F c data t fuel prior pos HR Hp Hw) as S. rewrite E in S.
  destruct S as (S & _ & _).
  assert (Hl : length (firstn k data) = k) by (rewrite firstn_length; lia).
  assert (Hs' : small (firstn k data)).
  { pose proof (cr_small _ _ _ _ _ HR) as Hs. unfold small in *. rewrite Hl. lia. }
  pose proof (custom_consumed_only G F c data (firstn k data) t fuel prior pos v p HR Hs' Hd HdF Hp
    ltac:(lia) Hw E) as L.
  rewrite Hl in L. destruct (Nat.leb_spec p k); [lia|]. apply L.
  intros i Hi. rewrite <- (firstn_skipn k data) at 2. symmetry. apply nth_error_app1. lia.
Qed.

(** ** Round trip *)

Record cpair (G : tenv) (F F' : funs) (cr : cfg) (data : list byte) : Prop := {
  cp_size : wfsz (Some (dsize cr)) = true;
  cp_small : small data;
  cp_funs : forall k, sound G plain_item (t_mems G k) (F k);
  cp_funs' : forall k, sound G plain_item (t_mems G k) (F' k)
}.

(** The writer's functions are [F], the reader's [F']. *)
Theorem custom_round_trip G F F' cw cr v t st st' data pos fuel prior :
  cwriting G F cw v t st -> cser G F cw v t st = (ROk, st') ->
  dsize cr = dsize cw -> xorb (host_le cr) (swap cr) = xorb (host_le cw) (swap cw) ->
  cpair G F F' cr data ->
  tall (rt_ok cr) t = true -> xreadable G F F' cr v t -> (height v <= fuel)%nat -> wt G prior t = true ->
  has_at data pos (window (obuf st') (opos st) (opos st' - opos st)) ->
  cdes G F' cr data fuel t prior pos = (ROk, v, (pos + (opos st' - opos st))%nat).
Proof.
  intros HW E Hd Ho [P1 P2 P3 P4] Ht Hr Hh Hp Hat.
  destruct (custom_wire_format _ _ _ _ _ _ _ HW E) as (W1 & W2 & W3).
  assert (Hf : fmt_of cw = fmt_of cr) by (unfold fmt_of; now rewrite Hd, Ho).
  rewrite Hf in *. cbv zeta in *.
  replace (opos st' - opos st)%nat with (length (fst (xenc G F (fmt_of cr) v t))) in * by lia.
  rewrite W3 in Hat. destruct HW as [_ W4 W5 W6 W7 W8 W9 _ _ _ _].
  apply cdes_round; auto.
Qed.

(** One object, the two functions possibly of different versions: what the reader ends up with
    is what its function makes of the items written. *)
Theorem custom_mirror G F F' cw cr k l pl res st st' data pos fuel :
  cwriting G F cw (VSeq l) (TRec k) st -> cser G F cw (VSeq l) (TRec k) st = (ROk, st') ->
  dsize cr = dsize cw -> xorb (host_le cr) (swap cr) = xorb (host_le cw) (swap cw) ->
  cpair G F F' cr data ->
  mirrors (loc_back G cr) (map (mem_back G F F' cr) l) l (F k) (F' k) pl res ->
  (height (VSeq l) <= fuel)%nat -> wt G (VSeq pl) (TRec k) = true ->
  has_at data pos (window (obuf st') (opos st) (opos st' - opos st)) ->
  cdes G F' cr data fuel (TRec k) (VSeq pl) pos = (ROk, VSeq res, (pos + (opos st' - opos st))%nat).
Proof.
  intros HW E Hd Ho [P1 P2 P3 P4] M Hh Hp Hat.
  destruct (custom_wire_format _ _ _ _ _ _ _ HW E) as (W1 & W2 & W3).
  assert (Hf : fmt_of cw = fmt_of cr) by (unfold fmt_of; now rewrite Hd, Ho).
  rewrite Hf in *. cbv zeta in *.
  replace (opos st' - opos st)%nat with (length (fst (xenc G F (fmt_of cr) (VSeq l) (TRec k)))) in * by lia.
  rewrite W3 in Hat. destruct HW as [_ W4 W5 W6 W7 W8 W9 _ _ _ _].
  apply cdes_mirror; auto.
Qed.

(** The rule for authors: if the functions decide knowing only what they have transferred so
    far, and transfer all members, then every object reads back, into any target. *)
Theorem custom_causal_readable G F c k l :
  (forall k, sound G plain_item (t_mems G k) (F k)) ->
  wt G (VSeq l) (TRec k) = true -> causal [] (F k) ->
  complete (loc_back G c) (fun x t => tall (rt_ok c) t = true /\ xreadable G F F c x t) l [] (F k) ->
  xreadable G F F c (VSeq l) (TRec k).
Proof.
  intros HF Hw HC HK. cbn [xreadable]. intros cur Hcur.
  refine (causal_mirrors G plain_item (t_mems G k) _ _ _ l Hw _ (F k) [] cur (HF k) HC HK Hcur _).
  - intros x t y [H1 H2]. split; [left; exact H1|exact H2].
  - intros i [].
Qed.

(** Functions that transfer all members in order do what the library does by itself for
    classes without a function. *)
Theorem custom_in_order_is_default G F c :
  wf_env G -> (forall k, F k = in_order 0 (t_mems G k)) ->
  (forall v t st, wt G v t = true -> cser G F c v t st = ser G c v t st)
  /\ (forall data fuel t prior pos, wf G t = true -> wt G prior t = true ->
      cdes G F c data fuel t prior pos = des G c data fuel t prior pos).
Proof.
  intros HG HF. split.
  - intros. now apply cser_in_order.
  - intros. now apply cdes_in_order.
Qed.

(** ** Examples

    Class 0, a record with a version (README "Explicit Serialization"):
      struct record { uint8_t version; uint16_t a; std::vector<uint16_t> extra;
        static auto serialize(auto & archive, auto & self) {
          if (auto r = archive(self.version); failure(r)) return r;
          if (self.version > 2) return errc{std::errc::not_supported};
          if (auto r = archive(self.a); failure(r)) return r;
          if (self.version < 2) { if (in) self.extra.clear(); return errc{}; }
          return archive(self.extra); } };
    Class 1, a container written by hand:
      struct batch { std::vector<record> items;
        static auto serialize(auto & archive, auto & self) {
          vuint64_t n = self.items.size();
          if (auto r = archive(n); failure(r)) return r;
          if (in) self.items.resize(n);
          return archive(unsized(self.items)); } };
    Class 2 decides on a member it never transfers:
      struct blind { uint8_t has; uint8_t x;
        static auto serialize(auto & archive, auto & self) {
          if (!self.has) return errc{};
          return archive(self.x); } }; *)
Definition u8 : ty := TScalar 1 false.
Definition u16 : ty := TScalar 2 false.
Definition u16s : ty := TVec None true u16.

Definition cls_env : tenv :=
  mkTenv (fun k => match k with
                   | O => mkSinfo 32 false true (VSeq [VN 0; VN 0; VSeq []])
                   | 1%nat => mkSinfo 24 false true (VSeq [VSeq []])
                   | 2%nat => mkSinfo 2 false true (VSeq [VN 0; VN 0])
                   | _ => mkSinfo 1 false true (VSeq [])
                   end)
         (fun k => match k with
                   | O => [u8; u16; u16s]
                   | 1%nat => [TVec None false (TRec 0)]
                   | 2%nat => [u8; u8]
                   | _ => []
                   end).

Definition num (i : nat) (self : list val) : N := match nth_error self i with Some (VN n) => n | _ => 0 end.
Definition items (i : nat) (self : list val) : list val :=
  match nth_error self i with Some (VSeq l) => l | _ => [] end.

Definition record_fun : prog :=
  PMem 0 u8 (fun self =>
    if 2 <? num 0 self then PFail not_supported
    else PMem 1 u16 (fun self =>
      if num 0 self <? 2 then PSet (set_nth 2 (VSeq [])) PRet
      else PMem 2 u16s (fun _ => PRet))).
Definition batch_fun : prog :=
  PLoc (TVarint 8 false false) (fun self => VN (N.of_nat (length (items 0 self)) mod 2 ^ 64)) (fun x _ =>
    PSet (fun self => set_nth 0 (VSeq (vresize (VSeq [VN 0; VN 0; VSeq []])
                                         (match x with VN n => N.to_nat n | _ => O end) (items 0 self))) self)
      (PMem 0 (TVec (Some SzNone) false (TRec 0)) (fun _ => PRet))).
Definition blind_fun : prog :=
  PSet (fun self => self) (PLoc TEmpty (fun _ => VSeq []) (fun _ self =>
    if num 0 self =? 0 then PRet else PMem 1 u8 (fun _ => PRet))).

Definition cls_funs : funs := fun k =>
  match k with O => record_fun | 1%nat => batch_fun | 2%nat => blind_fun | _ => PRet end.

Definition rec_a : val := VSeq [VN 2; VN 0x102; VSeq [VN 7; VN 8]].
Definition rec_b : val := VSeq [VN 1; VN 0x304; VSeq []].
Definition rec_bad : val := VSeq [VN 3; VN 5; VSeq []].
Definition batch : val := VSeq [VSeq [rec_a; rec_b]].

Lemma cls_env_ok : wf_env cls_env.
Proof. intros [|[|[|k]]]; split; reflexivity. Qed.
Lemma cls_envp p : (forall t, p t = true) -> tall_env p cls_env.
Proof. intros H [|[|[|k]]]; cbn; rewrite ?H; reflexivity. Qed.

Lemma cls_items self : object cls_env self (t_mems cls_env 1) -> forallb (fun x => wt cls_env x (TRec 0)) (items 0 self) = true.
Proof.
  unfold object, items. cbn [cls_env t_mems forall2b]. destruct self as [|x self]; [discriminate|].
  cbn [forall2b nth_error]. intro H. apply andb_true_iff in H as [H _]. destruct x; try discriminate. exact H.
Qed.

Lemma cls_sound (Q : ty -> Prop) k :
  Q u8 -> Q u16 -> Q u16s -> Q (TVarint 8 false false) -> Q (TVec (Some SzNone) false (TRec 0)) -> Q TEmpty ->
  sound cls_env Q (t_mems cls_env k) (cls_funs k).
Proof.
  intros Q1 Q2 Q3 Q4 Q5 Q6. destruct k as [|[|[|k]]]; cbn [cls_funs t_mems cls_env]; [| | |exact I].
  - unfold record_fun. cbn [sound]. split; [exists u8; auto|]. split; [reflexivity|]. split; [exact Q1|].
    intros self _. destruct (2 <? num 0 self); [exact I|].
    cbn [sound]. split; [exists u16; auto|]. split; [reflexivity|]. split; [exact Q2|].
    intros s _. destruct (num 0 s <? 2); cbn [sound].
    + split; [|exact I]. unfold object. intros [|a [|b [|d [|]]]] H; cbn [forall2b set_nth] in *;
        try discriminate; rewrite ?andb_false_r in H; try discriminate.
      rewrite !andb_true_iff in *. tauto.
    + split; [exists u16s; auto|]. split; [reflexivity|]. split; [exact Q3|]. auto.
  - unfold batch_fun. cbn [sound]. split; [reflexivity|]. split; [reflexivity|]. split; [exact Q4|].
    split.
    { intros self _. cbn [wt]. apply N.ltb_lt. apply N.mod_lt. discriminate. }
    intros x s _ _. split.
    + intros self Ho. pose proof (cls_items self Ho) as Hi.
      apply (PbIn.forall2b_set _ _ _ O _ (TVec None false (TRec 0)) Ho eq_refl). cbn [wt].
      rewrite forallb_forall in *. intros y Hy.
      pose proof (vresize_forall (fun x => wt cls_env x (TRec 0) = true)
        (VSeq [VN 0; VN 0; VSeq []]) (match x with VN n => N.to_nat n | _ => O end) (items 0 self)) as V.
      rewrite !Forall_forall in V. apply V; auto.
    + split; [exists (TVec None false (TRec 0)); split; [reflexivity|intros []; reflexivity]|]. split; [reflexivity|]. split; [exact Q5|]. auto.
  - unfold blind_fun. cbn [sound]. split; [auto|]. split; [reflexivity|]. split; [reflexivity|]. split; [exact Q6|].
    split; [reflexivity|]. intros x self _ _. destruct (num 0 self =? 0); [exact I|].
    cbn [sound]. split; [exists u8; auto|]. split; [reflexivity|]. split; [exact Q1|]. auto.
Qed.

Example batch_writing : cwriting cls_env cls_funs vec_cfg batch (TRec 1) (mkO [xaa] 1).
Proof.
  constructor; try (vm_compute; reflexivity).
  - intros _. repeat split; vm_compute; try reflexivity; discriminate.
  - apply cls_env_ok.
  - intros [|[|[|k]]]; reflexivity.
  - intro k. apply cls_sound; reflexivity.
  - left. reflexivity.
  - split; vm_compute; auto.
Qed.

(** The hand-written size, then the records: the version decides what follows. *)
Example batch_out :
  cser cls_env cls_funs vec_cfg batch (TRec 1) (mkO [xaa] 1)
  = (ROk, mkO ([xaa] ++ [x02] ++ [x02; x02; x01; x02; x00; x00; x00; x07; x00; x08; x00]
               ++ [x01; x04; x03]) 16)
  /\ fst (xenc cls_env cls_funs (fmt_of vec_cfg) batch (TRec 1))
     = [x02; x02; x02; x01; x02; x00; x00; x00; x07; x00; x08; x00; x01; x04; x03].
Proof. split; vm_compute; reflexivity. Qed.

(** An error of the function is the result; what was written before stays. *)
Example bad_version_out :
  cser cls_env cls_funs span_cfg (VSeq [VSeq [rec_a; rec_bad; rec_b]]) (TRec 1) (mkO (repeat xee 20) 1)
  = (RErr not_supported, mkO ([xee] ++ [x03] ++ [x02; x02; x01; x02; x00; x00; x00; x07; x00; x08; x00]
                               ++ [x03] ++ repeat xee 6) 14).
Proof. vm_compute. reflexivity. Qed.

Example cls_reading data : small data -> creading cls_env cls_funs vec_cfg data (TRec 1).
Proof.
  intro H. constructor; auto.
  - apply cls_env_ok.
  - exact (conj I I).
  - intro k. apply cls_sound; cbn; auto.
Qed.

Example cls_no_bool k : sound cls_env (fun t => tall not_bool t = true) (t_mems cls_env k) (cls_funs k).
Proof. apply cls_sound; reflexivity. Qed.
Example cls_delimited k : sound cls_env (fun t => tall (delimited vec_cfg) t = true) (t_mems cls_env k) (cls_funs k).
Proof. apply cls_sound; reflexivity. Qed.

(** Reading: into a batch that held something else; cut short; with a bad version. *)
Definition batch_bytes : list byte :=
  [x02; x02; x02; x01; x02; x00; x00; x00; x07; x00; x08; x00; x01; x04; x03].
Example batch_in :
  cdes cls_env cls_funs vec_cfg (batch_bytes ++ [x99]) 5 (TRec 1) (VSeq [VSeq [rec_bad; rec_a; rec_a]]) 0
  = (ROk, batch, 15%nat)
  /\ cdes cls_env cls_funs vec_cfg (firstn 14 batch_bytes) 5 (TRec 1) (VSeq [VSeq []]) 0
     = (RErr result_out_of_range, VSeq [VSeq [rec_a; VSeq [VN 1; VN 0; VSeq []]]], 13%nat)
  /\ cdes cls_env cls_funs vec_cfg [x01; x03; x01; x00] 5 (TRec 1) (VSeq [VSeq []]) 0
     = (RErr not_supported, VSeq [VSeq [VSeq [VN 3; VN 0; VSeq []]]], 2%nat).
Proof. repeat split; vm_compute; reflexivity. Qed.

Example cls_pair data : small data -> cpair cls_env cls_funs cls_funs vec_cfg data.
Proof. intro H. constructor; auto; intro k; apply cls_sound; reflexivity. Qed.

Lemma object3 self : object cls_env self (t_mems cls_env 0) -> exists a b d, self = [a; b; d].
Proof.
  unfold object. cbn [cls_env t_mems]. destruct self as [|a [|b [|d [|]]]]; cbn [forall2b];
    rewrite ?andb_false_r; try discriminate. eauto.
Qed.

Example rec_a_readable : xreadable cls_env cls_funs cls_funs vec_cfg rec_a (TRec 0).
Proof.
  cbn [rec_a xreadable]. intros cur Hc. destruct (object3 cur Hc) as (a & b & d & ->).
  cbn [cls_funs]. unfold record_fun.
  eapply mi_mem; [reflexivity|reflexivity|reflexivity|split; [left; reflexivity|exact I]|].
  cbn [set_nth]. cbn [num nth_error N.ltb N.compare Pos.compare Pos.compare_cont].
  eapply mi_mem; [reflexivity|reflexivity|reflexivity|split; [left; reflexivity|exact I]|].
  cbn [set_nth num nth_error N.ltb N.compare Pos.compare Pos.compare_cont].
  eapply mi_mem; [reflexivity|reflexivity|reflexivity| |apply mi_ret].
  split; [left; reflexivity|]. cbn. auto.
Qed.

Example rec_b_readable : xreadable cls_env cls_funs cls_funs vec_cfg rec_b (TRec 0).
Proof.
  cbn [rec_b xreadable]. intros cur Hc. destruct (object3 cur Hc) as (a & b & d & ->).
  cbn [cls_funs]. unfold record_fun.
  eapply mi_mem; [reflexivity|reflexivity|reflexivity|split; [left; reflexivity|exact I]|].
  cbn [set_nth]. cbn [num nth_error N.ltb N.compare Pos.compare Pos.compare_cont].
  eapply mi_mem; [reflexivity|reflexivity|reflexivity|split; [left; reflexivity|exact I]|].
  cbn [set_nth num nth_error N.ltb N.compare Pos.compare Pos.compare_cont].
  apply mi_write_set, mi_read_set. cbn [set_nth]. apply mi_ret.
Qed.

(** The whole batch, with the hand-written size and the container without a size. *)
Example batch_readable : xreadable cls_env cls_funs cls_funs vec_cfg batch (TRec 1).
Proof.
  cbn [batch xreadable]. intros cur Hc.
  assert (E : exists l, cur = [VSeq l]).
  { unfold object in Hc. cbn [cls_env t_mems] in Hc. destruct cur as [|a [|b cur]]; cbn [forall2b] in Hc;
      rewrite ?andb_false_r in Hc; try discriminate. destruct a; try discriminate. eauto. }
  destruct E as [l ->]. cbn [cls_funs]. unfold batch_fun.
  apply mi_loc; [split; reflexivity|]. apply mi_write_set, mi_read_set.
  eapply mi_mem; [reflexivity|reflexivity|reflexivity| |apply mi_ret].
  split.
  - right. exists (Some SzNone), false, (TRec 0). repeat split. cbn [as_seq]. apply vresize_length.
  - cbn [xreadable forallP]. split; [intro H; exfalso; now apply H|].
    split; [apply rec_a_readable|]. split; [apply rec_b_readable|exact I].
Qed.

(** Version 1 of the record in a newer reader: it has learned a default for what is missing. *)
Definition new_funs : funs := fun k =>
  match k with
  | O => PMem 0 u8 (fun self =>
      PMem 1 u16 (fun self =>
        if num 0 self <? 2 then PSet (fun s => set_nth 0 (VN 2) (set_nth 2 (VSeq [VN 1]) s)) PRet
        else PMem 2 u16s (fun _ => PRet)))
  | _ => cls_funs k
  end.
Example rec_b_mirror a b d :
  mirrors (loc_back cls_env vec_cfg) (map (mem_back cls_env cls_funs new_funs vec_cfg) [VN 1; VN 0x304; VSeq []])
    [VN 1; VN 0x304; VSeq []] (cls_funs O) (new_funs O) [a; b; d] [VN 2; VN 0x304; VSeq [VN 1]].
Proof.
  cbn [cls_funs new_funs]. unfold record_fun.
  eapply mi_mem; [reflexivity|reflexivity|reflexivity|split; [left; reflexivity|exact I]|].
  cbn [set_nth]. cbn [num nth_error N.ltb N.compare Pos.compare Pos.compare_cont].
  eapply mi_mem; [reflexivity|reflexivity|reflexivity|split; [left; reflexivity|exact I]|].
  cbn [set_nth num nth_error N.ltb N.compare Pos.compare Pos.compare_cont].
  apply mi_write_set, mi_read_set. cbn [set_nth]. apply mi_ret.
Qed.
Example rec_b_mirror_nontrivial :
  cdes cls_env new_funs vec_cfg [x01; x04; x03] 5 (TRec 0) rec_bad 0
  = (ROk, VSeq [VN 2; VN 0x304; VSeq [VN 1]], 3%nat).
Proof. vm_compute. reflexivity. Qed.

(** The record decides on the version only after it has transferred it. *)
Example record_causal : causal [] record_fun.
Proof.
  assert (K : forall (s s' : list val) D, In O D -> agree_on D s s' -> num 0 s = num 0 s').
  { intros s s' D H A. unfold num. now rewrite (A O H). }
  cbn [record_fun causal]. split.
  - intros s s' A. rewrite (K s s' [O]); [reflexivity|now left|exact A].
  - intro s. destruct (2 <? num 0 s); [exact I|]. cbn [causal]. split.
    + intros s1 s2 A. rewrite (K s1 s2 [1%nat; O]); [reflexivity|right; now left|exact A].
    + intro s1. destruct (num 0 s1 <? 2); cbn [causal]; [split; [|exact I]|auto].
      intros s2 j [<-|[<-|[]]]; destruct s2 as [|x [|y s2]]; reflexivity.
Qed.
Example record_complete :
  complete (loc_back cls_env vec_cfg)
    (fun x t => tall (rt_ok vec_cfg) t = true /\ xreadable cls_env cls_funs cls_funs vec_cfg x t)
    [VN 2; VN 0x102; VSeq [VN 7; VN 8]] [] record_fun.
Proof.
  cbn [record_fun complete]. split; [exists (VN 2); repeat split|].
  cbn [num nth_error N.ltb N.compare Pos.compare Pos.compare_cont complete].
  split; [exists (VN 0x102); repeat split|].
  cbn [num nth_error N.ltb N.compare Pos.compare Pos.compare_cont complete].
  split; [exists (VSeq [VN 7; VN 8]); repeat split|].
  cbn [length]. intros i Hi. destruct i as [|[|[|i]]]; cbn in *; auto; lia.
Qed.

Example in_order_nontrivial :
  cser node_env (fun k => in_order 0 (t_mems node_env k)) vec_cfg demo_val demo_ty (mkO [xaa; xbb] 2)
  = ser node_env vec_cfg demo_val demo_ty (mkO [xaa; xbb] 2)
  /\ fst (ser node_env vec_cfg demo_val demo_ty (mkO [xaa; xbb] 2)) = ROk.
Proof. split; vm_compute; reflexivity. Qed.

(** A function that decides on something it does not transfer is sound, writes and reads
    without errors, and loses the object. *)
Theorem custom_round_trip_any_function_refuted :
  exists l pl st', cwriting cls_env cls_funs vec_cfg (VSeq l) (TRec 2) (mkO [] 0)
    /\ cser cls_env cls_funs vec_cfg (VSeq l) (TRec 2) (mkO [] 0) = (ROk, st')
    /\ wt cls_env (VSeq pl) (TRec 2) = true
    /\ cdes cls_env cls_funs vec_cfg (obuf st') 5 (TRec 2) (VSeq pl) 0 = (ROk, VSeq pl, O)
    /\ pl <> l.
Proof.
  exists [VN 1; VN 9], [VN 0; VN 0], (mkO [x09] 1).
  assert (T := batch_writing). destruct T as [T1 T2 T3 T4 _ _ _ T8 _ _ _].
  split; [constructor; auto; try (vm_compute; reflexivity); [left; reflexivity|split; vm_compute; auto]|].
  repeat split; try (vm_compute; reflexivity). discriminate.
Qed.

(** Errors of a function do not undo what it has done to the target or to the buffer. *)
Theorem custom_failure_atomic_refuted :
  exists v st', fst (cdes cls_env cls_funs vec_cfg [x03] 5 (TRec 0) rec_b 0) = (RErr not_supported, v)
    /\ v <> rec_b
    /\ cser cls_env cls_funs span_cfg rec_bad (TRec 0) (mkO [xee] 0) = (RErr not_supported, st')
    /\ obuf st' <> [xee].
Proof.
  exists (VSeq [VN 3; VN 0x304; VSeq []]), (mkO [x03] 1).
  repeat split; try (vm_compute; reflexivity); discriminate.
Qed.

Print Assumptions custom_wire_format.
Print Assumptions custom_result_fixed.
Print Assumptions custom_result_growable.
Print Assumptions custom_out_frame.
Print Assumptions custom_read_safe.
Print Assumptions custom_consumed_only.
Print Assumptions custom_truncated_rejected.
Print Assumptions custom_round_trip.
Print Assumptions custom_mirror.
Print Assumptions custom_causal_readable.
Print Assumptions custom_in_order_is_default.
Print Assumptions custom_round_trip_any_function_refuted.
Print Assumptions custom_failure_atomic_refuted.
