(** C84: serialize functions that go through objects of other classes. *)

From Coq Require Import List NArith ZArith Lia Bool Arith.
From Coq Require Import ZifyBool ZifyNat ZifyN.
From Verif Require Import Base.Bytes Model.Types Model.Machine Model.Varint Model.Out Model.In Model.Pb
  Model.Custom Model.Surrogate Spec.Leb128 Spec.Wire Spec.CustomWire Spec.SurrogateWire
  Proofs.VarintP Proofs.OutP Proofs.InBase Proofs.InSafe Proofs.InLocal Proofs.InRound Proofs.InFuel
  Proofs.CustomP Proofs.CustomIn Proofs.CustomRound Proofs.SurrogateP Proofs.SurrogateIn
  Proofs.SurrogateRound Proofs.SurrogateFuel Thm.Demo Thm.Output Thm.Input Thm.Custom.
Import ListNotations.
Local Open Scope N_scope.

(** ** Writing *)

(** The situations, as in C70; locals may be of any type. *)
Record swriting (G : tenv) (F : funs) (c : cfg) (v : val) (t : ty) (st : ost) : Prop := {
  sw_cfg : wf_out c;
  sw_size : szok c = true;
  sw_env : wf_env G;
  sw_envp : tall_env elem_ok G;
  sw_wt : wt G v t = true;
  sw_wf : wf G t = true;
  sw_plain : plain t = true;
  sw_funs : forall k, psound G plain_item (t_mems G k) (F k);
  sw_bits : clean st \/ (tall_env not_bitset G /\ tall not_bitset t = true
            /\ forall k, psound G (fun t => tall not_bitset t = true) (t_mems G k) (F k));
  sw_small : forall e, spells G F (fmt_of c) v t e -> N.of_nat (length (fst e)) < 2 ^ 63;
  sw_st : ost_ok st
}.

Lemma psound_and G Q Q' ts p : psound G Q ts p -> psound G Q' ts p -> psound G (fun t => Q t /\ Q' t) ts p.
Proof.
  induction p as [|e| |i t k IH|t f k IH|f k IH]; cbn [psound]; auto.
  - intros (H1 & H2 & H3 & H4) (_ & _ & H5 & H6). repeat split; auto.
  - intros (H1 & H2 & H3 & H4) (_ & H6 & _ & H7). repeat split; auto.
  - intros [H1 H2] [_ H3]. split; auto.
Qed.

Lemma swriting_emits G F c v t st fuel e :
  swriting G F c v t st -> penc G F (fmt_of c) fuel v t = Some e ->
  let '(r, st') := pser F c fuel v t st in
  xoutcome c st e r st' /\
  (forall E, rich c E -> (opos st + length (fst e) <= E)%nat -> r = xresult e).
Proof.
  intros [H1 H2 H3 H4 H5 H6 H7 H8 H9 H10 H11] He.
  assert (Hl : N.of_nat (length (fst e)) < 2 ^ 63) by (apply H10; exists fuel; exact He).
  destruct H9 as [Hc|(B1 & B2 & B3)].
  - refine (pser_emits G F c true H2 H3 H4 _ _ fuel v t H5 H6 _ e He H1 Hl st H11 (fun _ => Hc)).
    + discriminate.
    + intro k. eapply psound_weaken; [|apply H8]. intros t' Ht. split; [exact Ht|discriminate].
    + split; [exact H7|discriminate].
  - refine (pser_emits G F c false H2 H3 H4 _ _ fuel v t H5 H6 _ e He H1 Hl st H11 _).
    + auto.
    + intro k. eapply psound_weaken; [|apply (psound_and _ _ _ _ _ (H8 k) (B3 k))].
      intros t' [Ht Ht']. split; auto.
    + split; auto.
    + discriminate.
Qed.

(** If writing succeeds then the functions have come to an end, and what is on the wire are the
    items they transfer, one after the other, those of the objects they go through in place. *)
Theorem surrogate_wire_format G F c v t st st' fuel :
  swriting G F c v t st -> pser F c fuel v t st = (ROk, st') ->
  exists e, penc G F (fmt_of c) fuel v t = Some (e, None)
  /\ opos st' = (opos st + length e)%nat
  /\ window (obuf st') (opos st) (length e) = e.
Proof.
  intros HW E.
  pose proof (pser_tells G F plain_item (fmt_of c) c fuel v t (sw_funs _ _ _ _ _ _ HW) (sw_wt _ _ _ _ _ _ HW) st) as T.
  rewrite E in T. specialize (T eq_refl).
  destruct (penc G F (fmt_of c) fuel v t) as [e|] eqn:Ee; [|congruence].
  pose proof (swriting_emits _ _ _ _ _ _ _ _ HW Ee) as H. rewrite E in H.
  destruct H as [(e1 & e2 & k & F1 & F2 & F3 & F4 & F5 & F6) _]. subst e2.
  rewrite app_nil_r in F1. destruct e as [e s]. cbn [fst snd] in *. subst s e1 st'. cbn [obuf opos].
  exists e. split; [reflexivity|]. split; [reflexivity|]. apply window_overwrite.
  destruct (sw_st _ _ _ _ _ _ HW). rewrite app_length. lia.
Qed.

(** With a stack that suffices for the functions, and room in a fixed buffer, the result is the
    functions' own; without the room it is result_out_of_range. *)
Theorem surrogate_fixed G F c v t st fuel e :
  swriting G F c v t st -> growable c = false -> penc G F (fmt_of c) fuel v t = Some e ->
  let '(r, st') := pser F c fuel v t st in
  length (obuf st') = length (obuf st)
  /\ ((opos st + length (fst e) <= length (obuf st))%nat ->
      r = xresult e
      /\ window (obuf st') (opos st) (length (fst e)) = fst e)
  /\ ((length (obuf st) < opos st + length (fst e))%nat -> r = RErr result_out_of_range).
Proof.
  intros HW Hg He. pose proof (swriting_emits _ _ _ _ _ _ _ _ HW He) as H.
  destruct (pser F c fuel v t st) as [r st'].
  destruct H as [(e1 & e2 & k & F1 & F2 & F3 & F4 & F5) _].
  destruct F4 as [->|(F4 & _)]; [|congruence].
  assert (HL : (opos st + length e1 <= length (obuf st ++ zeros 0))%nat)
    by (rewrite app_length, zeros_length; lia).
  subst st'. cbn [obuf opos]. rewrite overwrite_length by exact HL.
  rewrite app_length, zeros_length. split; [lia|]. rewrite F1 in *. rewrite app_length in *.
  split; intro Hl.
  - assert (K : e2 = [] /\ r = xresult e).
    { unfold xresult. destruct r as [|er| | |]; try tauto.
      - destruct F5 as [-> ->]. auto.
      - destruct F5 as [[-> ->]|[(_ & _ & F5)|[_ F5]]]; [auto|lia|congruence].
      - destruct F5 as [[-> ->]|F5]; [auto|congruence]. }
    destruct K as [-> ->]. cbn [length]. rewrite (app_nil_r e1), Nat.add_0_r. split; [reflexivity|].
    apply window_overwrite. rewrite app_length, zeros_length. lia.
  - destruct r as [|er| | |]; try tauto; try congruence.
    + destruct F5 as [-> _]. cbn [length] in *. lia.
    + destruct F5 as [[-> _]|[(-> & _)|[_ F5]]]; [cbn [length] in *; lia|reflexivity|congruence].
    + destruct F5 as [[-> _]|F5]; [cbn [length] in *; lia|congruence].
Qed.

(** A growing buffer that can grow far enough: the result is the functions' own. *)
Theorem surrogate_growable G F c v t st fuel e :
  swriting G F c v t st -> growable c = true -> penc G F (fmt_of c) fuel v t = Some e ->
  let r := fst (pser F c fuel v t st) in
  (r = xresult e \/ r = RErr no_buffer_space \/ r = RThrow)
  /\ (forall E, rich c E -> (opos st + length (fst e) <= E)%nat -> r = xresult e).
Proof.
  intros HW Hg He. pose proof (swriting_emits _ _ _ _ _ _ _ _ HW He) as H.
  destruct (pser F c fuel v t st) as [r st']. cbn [fst].
  destruct H as [(e1 & e2 & k & F1 & F2 & F3 & F4 & F5) HR]. split; [|exact HR].
  unfold xresult. destruct r as [|er| | |]; try tauto.
  - destruct F5 as [_ ->]. auto.
  - destruct F5 as [[_ ->]|[(_ & F5 & _)|[-> _]]]; [auto|congruence|auto].
Qed.

(** Nothing outside the window written is touched, also when a function gives up. *)
Theorem surrogate_frame G F c v t st fuel e r st' :
  swriting G F c v t st -> penc G F (fmt_of c) fuel v t = Some e -> pser F c fuel v t st = (r, st') ->
  r <> RUB /\ r <> RStack
  /\ (opos st <= opos st' <= length (obuf st'))%nat
  /\ firstn (opos st) (obuf st') = firstn (opos st) (obuf st)
  /\ (forall i, (opos st' <= i < length (obuf st))%nat ->
        nth_error (obuf st') i = nth_error (obuf st) i)
  /\ exists rest, window (obuf st') (opos st) (opos st' - opos st) ++ rest = fst e.
Proof.
  intros HW He E. pose proof (swriting_emits _ _ _ _ _ _ _ _ HW He) as H. rewrite E in H.
  destruct H as [(e1 & e2 & k & F1 & F2 & F3 & F4 & F5) _].
  destruct (sw_st _ _ _ _ _ _ HW) as [Hp _]. subst st'. cbn [obuf opos].
  assert (HL : (opos st + length e1 <= length (obuf st ++ zeros k))%nat)
    by (rewrite app_length, zeros_length; lia).
  rewrite overwrite_length by exact HL. rewrite app_length, zeros_length.
  split; [intros ->; exact F5|]. split; [intros ->; exact F5|]. split; [lia|]. split; [|split].
  - rewrite firstn_overwrite by lia.
    rewrite firstn_app. replace (opos st - length (obuf st))%nat with O by lia.
    cbn [firstn]. now rewrite app_nil_r.
  - intros i Hi. rewrite nth_error_overwrite by exact HL.
    destruct (Nat.ltb_spec i (opos st + length e1)); [lia|]. rewrite andb_false_r.
    now rewrite nth_error_app1 by lia.
  - exists e2. replace (opos st + length e1 - opos st)%nat with (length e1) by lia.
    rewrite window_overwrite by (rewrite app_length in *; lia). now rewrite F1.
Qed.

(** The stack decides only whether there is a result: with more of it writing and reading do the
    same, and what is written for an object is determined by the object. *)
Theorem surrogate_stack G F c f f' :
  (f <= f')%nat ->
  (forall v t st, fst (pser F c f v t st) <> RStack -> pser F c f' v t st = pser F c f v t st)
  /\ (forall data t prior pos, rres (pdes G F c data f t prior pos) <> RStack ->
        pdes G F c data f' t prior pos = pdes G F c data f t prior pos)
  /\ (forall o v t e, penc G F o f v t = Some e -> penc G F o f' v t = Some e)
  /\ (forall o v t e e', spells G F o v t e -> spells G F o v t e' -> e = e').
Proof.
  intro Hf. split; [|split; [|split]].
  - intros v t st H. destruct (pser_am F c f f' v t Hf st) as [E|E]; [contradiction|exact E].
  - intros data t prior pos H. destruct (pdes_fuel G F c data f f' t prior pos Hf) as [E|E]; [contradiction|exact E].
  - intros o v t e. now apply penc_mono.
  - intros o v t e e'. apply spells_unique.
Qed.

(** Functions without such locals: the model of C70. *)
Theorem surrogate_none G F c :
  (forall k, lone (F k)) ->
  (forall v t fuel st, (height v <= fuel)%nat -> pser F c fuel v t st = cser G F c v t st)
  /\ (forall data fuel t prior pos, pdes G F c data fuel t prior pos = cdes G F c data fuel t prior pos).
Proof. intro H. split; intros; [now apply pser_lone|now apply pdes_lone]. Qed.

(** ** Reading arbitrary bytes *)

Record sreading (G : tenv) (F : funs) (c : cfg) (data : list byte) (t : ty) : Prop := {
  sr_env : wf_env G;
  sr_size : wfsz (Some (dsize c)) = true;
  sr_small : small data;
  sr_cmp : tallP (cmp_ok G) t;
  sr_wf : wf G t = true;
  sr_funs : forall k, psound G (tallP (cmp_ok G)) (t_mems G k) (F k)
}.

Lemma sreading_safe G F c data t ub fuel :
  sreading G F c data t -> tall (flagged ub true) t = true ->
  (forall k, psound G (fun t => tall (flagged ub true) t = true) (t_mems G k) (F k)) ->
  safe_f G data ub true t (pdes G F c data fuel t).
Proof.
  intros [H1 H2 H3 H4 H5 H6] Hf HF. apply pdes_safe; auto; [|split; auto].
  intro k. eapply psound_weaken; [|apply (psound_and _ _ _ _ _ (HF k) (H6 k))]. intros t' [A B]. split; auto.
Qed.

(** No access outside the data, and the target is a valid object in the end; so is whatever
    object a function goes through. *)
Theorem surrogate_read_safe G F c data t fuel prior pos :
  sreading G F c data t -> (pos <= length data)%nat -> wt G prior t = true ->
  match pdes G F c data fuel t prior pos with (r, v, p) =>
    (pos <= p <= length data)%nat /\ wt G v t = true
    /\ (tall not_bool t = true -> (forall k, psound G (fun t => tall not_bool t = true) (t_mems G k) (F k)) ->
        r <> RUB)
  end.
Proof.
  intros HR Hp Hw.
  assert (A : safe_f G data true true t (pdes G F c data fuel t)).
  { apply sreading_safe; auto using flagged_true.
    intro k. eapply psound_weaken; [|apply (sr_funs _ _ _ _ _ HR)]. intros t' _. apply flagged_true. }
  specialize (A prior pos Hp Hw).
  assert (B : tall not_bool t = true -> (forall k, psound G (fun t => tall not_bool t = true) (t_mems G k) (F k)) ->
     rres (pdes G F c data fuel t prior pos) <> RUB).
  { intros Hb HbF. assert (S : safe_f G data false true t (pdes G F c data fuel t)).
    { apply sreading_safe; auto using flagged_no_bool.
      intro k. eapply psound_weaken; [|apply HbF]. apply flagged_no_bool. }
    specialize (S prior pos Hp Hw). destruct (pdes G F c data fuel t prior pos) as [[r v] p].
    destruct S as (_ & _ & S & _). cbn. intros ->. specialize (S eq_refl). discriminate. }
  destruct (pdes G F c data fuel t prior pos) as [[r v] p]. cbn [rres fst] in B.
  destruct A as (A1 & A2 & _). auto.
Qed.

(** Only the bytes consumed matter; a message that ends early is an error. *)
Theorem surrogate_consumed_only G F c data data' t fuel prior pos v p :
  sreading G F c data t -> small data' ->
  tall (delimited c) t = true -> (forall k, psound G (fun t => tall (delimited c) t = true) (t_mems G k) (F k)) ->
  (pos <= length data)%nat -> (pos <= length data')%nat -> wt G prior t = true ->
  pdes G F c data fuel t prior pos = (ROk, v, p) ->
  (forall i, (pos <= i < Nat.min p (length data'))%nat -> nth_error data' i = nth_error data i) ->
  if (p <=? length data')%nat
  then pdes G F c data' fuel t prior pos = (ROk, v, p)
  else rres (pdes G F c data' fuel t prior pos) = RErr result_out_of_range.
Proof.
  intros [H1 H2 H3 H4 H5 H6] Hs' Hd HdF Hp Hp' Hw E Ha.
  assert (HF : forall k, psound G (part_ok G c) (t_mems G k) (F k)).
  { intro k. eapply psound_weaken; [|apply (psound_and _ _ _ _ _ (HdF k) (H6 k))]. intros t' [A B]. split; auto. }
  apply (pdes_local G F c data data' H1 H2 H3 Hs' HF fuel t H5 (conj Hd H4) prior pos v p Hp Hp' Hw E).
  intros i Hi. symmetry. now apply Ha.
Qed.

(** ** Round trip *)

Record spair (G : tenv) (F F' : funs) (cr : cfg) (data : list byte) : Prop := {
  sp_size : wfsz (Some (dsize cr)) = true;
  sp_small : small data;
  sp_funs : forall k, psound G plain_item (t_mems G k) (F k);
  sp_funs' : forall k, psound G plain_item (t_mems G k) (F' k)
}.

(** The writer's functions are [F], the reader's [F'], which mirror them; the reader has as
    much stack. *)
Theorem surrogate_round_trip G F F' cw cr v t st st' data pos fuel fuel' prior :
  swriting G F cw v t st -> pser F cw fuel v t st = (ROk, st') ->
  dsize cr = dsize cw -> xorb (host_le cr) (swap cr) = xorb (host_le cw) (swap cw) ->
  spair G F F' cr data ->
  tall (rt_ok cr) t = true -> preadable G F F' cr fuel v t -> (fuel <= fuel')%nat -> wt G prior t = true ->
  has_at data pos (window (obuf st') (opos st) (opos st' - opos st)) ->
  pdes G F' cr data fuel' t prior pos = (ROk, v, (pos + (opos st' - opos st))%nat).
Proof.
  intros HW E Hd Ho [P1 P2 P3 P4] Ht Hr Hf Hp Hat.
  destruct (surrogate_wire_format _ _ _ _ _ _ _ _ HW E) as (e & W1 & W2 & W3).
  assert (Hfm : fmt_of cw = fmt_of cr) by (unfold fmt_of; now rewrite Hd, Ho).
  rewrite Hfm in W1.
  replace (opos st' - opos st)%nat with (length e) in * by lia.
  rewrite W3 in Hat. destruct HW as [_ W4 W5 W6 W7 W8 W9 _ _ _ _].
  pose proof (pdes_round G F F' cr data W5 P1 P2 P3 P4 fuel v t fuel' prior pos) as R.
  rewrite W1 in R. cbn [ybytes] in R. apply R; auto. reflexivity.
Qed.

(** ** Conversions *)

Lemma yseq_nil p : yseq p ynil = p.
Proof. destruct p as [[e [s|]]|]; cbn; try reflexivity. now rewrite app_nil_r. Qed.

(** An object of class [k] serialized as one of class [k'] puts on the wire what the object of
    class [k'] does, no byte more. *)
Theorem surrogate_conversion_wire G F o k k' to from n l :
  F k = through k' to from ->
  penc G F o (S n) (VSeq l) (TRec k) = penc G F o n (VSeq (to l)) (TRec k').
Proof.
  intro E. unfold penc. cbn [yenc penc_rec]. rewrite E. unfold through. cbn [ypath yenc]. apply yseq_nil.
Qed.

Lemma through_readable G F F' c k k' to from to' from' n l :
  F k = through k' to from -> F' k = through k' to' from' -> from' (VSeq (to l)) = l ->
  preadable G F F' c n (VSeq (to l)) (TRec k') -> preadable G F F' c (S n) (VSeq l) (TRec k).
Proof.
  intros E E' Hc Hr. unfold preadable in *. cbn [yreadable preadable_rec] in *. intros cur Hcur.
  rewrite E, E'. unfold through. apply mi_loc.
  - split; [reflexivity|exact Hr].
  - apply mi_write_set, mi_read_set. rewrite Hc. constructor.
Qed.

(** It is read back if the reader's conversion undoes the writer's and the object of class [k']
    is read back; and who knows class [k'] only reads that. *)
Theorem surrogate_conversion_round_trip G F F' cw cr k k' to from to' from' l st st' data pos fuel fuel' prior :
  F k = through k' to from -> F' k = through k' to' from' -> from' (VSeq (to l)) = l ->
  swriting G F cw (VSeq l) (TRec k) st -> pser F cw (S fuel) (VSeq l) (TRec k) st = (ROk, st') ->
  dsize cr = dsize cw -> xorb (host_le cr) (swap cr) = xorb (host_le cw) (swap cw) ->
  spair G F F' cr data ->
  preadable G F F' cr fuel (VSeq (to l)) (TRec k') -> (fuel <= fuel')%nat ->
  has_at data pos (window (obuf st') (opos st) (opos st' - opos st)) ->
  (wt G prior (TRec k) = true ->
   pdes G F' cr data (S fuel') (TRec k) prior pos = (ROk, VSeq l, (pos + (opos st' - opos st))%nat))
  /\ (wt G prior (TRec k') = true ->
   pdes G F' cr data fuel' (TRec k') prior pos = (ROk, VSeq (to l), (pos + (opos st' - opos st))%nat)).
Proof.
  intros E E' Hc HW HS Hd Ho HP Hr Hf Hat. split; intro Hp.
  - refine (surrogate_round_trip _ _ _ _ _ _ _ _ _ _ _ _ _ _ HW HS Hd Ho HP _ _ _ Hp Hat); [reflexivity| |lia].
    exact (through_readable _ _ _ _ _ _ _ _ _ _ _ _ E E' Hc Hr).
  - destruct (surrogate_wire_format _ _ _ _ _ _ _ _ HW HS) as (e & W1 & W2 & W3).
    assert (Hfm : fmt_of cw = fmt_of cr) by (unfold fmt_of; now rewrite Hd, Ho).
    rewrite Hfm, (surrogate_conversion_wire G F (fmt_of cr) k k' to from fuel l E) in W1.
    replace (opos st' - opos st)%nat with (length e) in * by lia.
    rewrite W3 in Hat. destruct HP as [P1 P2 P3 P4]. pose proof (sw_env _ _ _ _ _ _ HW) as HG.
    assert (Hto : object G (to l) (t_mems G k')).
    { pose proof (P3 k) as S. rewrite E in S. unfold through in S. cbn [psound] in S.
      destruct S as (_ & _ & S & _). apply (S l). exact (sw_wt _ _ _ _ _ _ HW). }
    pose proof (pdes_round G F F' cr data HG P1 P2 P3 P4 fuel (VSeq (to l)) (TRec k') fuel' prior pos) as R.
    rewrite W1 in R. cbn [ybytes] in R. apply R; auto; try reflexivity.
Qed.

(** Reading such an object either replaces all of it or leaves it alone, unlike reading member by
    member (C70). *)
Theorem surrogate_conversion_all_or_nothing G F c data k k' to from fuel l pos r v p :
  F k = through k' to from -> pdes G F c data fuel (TRec k) (VSeq l) pos = (r, v, p) ->
  (r <> ROk -> v = VSeq l) /\
  (r = ROk -> exists f x, fuel = S f /\ v = VSeq (from x)
     /\ pdes G F c data f (TRec k') (VSeq (to l)) pos = (ROk, x, p)).
Proof.
  intros E H. unfold pdes in *. cbn [des_ty] in *. destruct fuel as [|f]; cbn [pdes_rec] in H.
  - injection H as <- <- <-. split; [reflexivity|discriminate].
  - rewrite E in H. unfold through in H. cbn [as_seq run_in des_ty] in H.
    destruct (pdes_rec G F c data f k' (VSeq (to l)) pos) as [[r' x] q] eqn:Ex.
    destruct r'; cbn in H; injection H as <- <- <-; (split; [try congruence; reflexivity|]); intro Hr; try discriminate.
    exists f, x. auto.
Qed.

(** ** Examples

    Classes 0 and 1, first and last number kept, first and length sent:
      struct span { uint16_t first; vuint32_t len; };    (class 1, members in order)
      struct interval { uint16_t first, last;            (class 0)
        static auto serialize(auto & archive, auto & self) {
          span x{self.first, uint16_t(self.last - self.first)};
          if (auto r = archive(x); failure(r)) return r;
          if constexpr (in) self = interval{x.first, uint16_t(x.first + x.len)};
          return errc{}; } };
    Classes 2 and 3, a class sent in another order, with intervals:
      struct packed { std::vector<interval> busy; uint8_t id; };
      struct schedule { uint8_t id; std::vector<interval> busy; ... archive(packed{...}) ... };
    Class 4 goes through a copy of itself.
    Classes 5 and 6, a number sent in too few bytes:
      struct narrow { uint8_t x; };
      struct wide { uint16_t x; ... archive(narrow{uint8_t(self.x)}) ... }; *)
Definition sv_env : tenv :=
  mkTenv (fun k => match k with
                   | O => mkSinfo 4 true true (VSeq [VN 0; VN 0])
                   | 1%nat => mkSinfo 8 false true (VSeq [VN 0; VN 0])
                   | 2%nat => mkSinfo 32 false true (VSeq [VN 0; VSeq []])
                   | 3%nat => mkSinfo 32 false true (VSeq [VSeq []; VN 0])
                   | 4%nat | 6%nat => mkSinfo 1 true true (VSeq [VN 0])
                   | 5%nat => mkSinfo 2 true true (VSeq [VN 0])
                   | _ => mkSinfo 1 false true (VSeq [])
                   end)
         (fun k => match k with
                   | O => [u16; u16]
                   | 1%nat => [u16; TVarint 4 false false]
                   | 2%nat => [u8; TVec None true (TRec 0)]
                   | 3%nat => [TVec None true (TRec 0); u8]
                   | 4%nat | 6%nat => [u8]
                   | 5%nat => [u16]
                   | _ => []
                   end).

Definition to_span (l : list val) : list val :=
  [VN (num 0 l mod 2 ^ 16); VN ((num 1 l + 2 ^ 16 - num 0 l) mod 2 ^ 16)].
Definition of_span (x : val) : list val :=
  [VN (num 0 (as_seq x) mod 2 ^ 16); VN ((num 0 (as_seq x) + num 1 (as_seq x)) mod 2 ^ 16)].
Definition swapped (l : list val) : list val := match l with [a; b] => [b; a] | _ => l end.

Definition sv_funs : funs := fun k =>
  match k with
  | O => through 1 to_span of_span
  | 1%nat => in_order 0 [u16; TVarint 4 false false]
  | 2%nat => through 3 swapped (fun x => swapped (as_seq x))
  | 3%nat => in_order 0 [TVec None true (TRec 0); u8]
  | 4%nat => through 4 (fun l => l) as_seq
  | 5%nat => through 6 (fun l => [VN (num 0 l mod 2 ^ 8)]) (fun x => [VN (num 0 (as_seq x) mod 2 ^ 16)])
  | 6%nat => in_order 0 [u8]
  | _ => PRet
  end.

Definition day : val := VSeq [VN 9; VSeq [VSeq [VN 0x100; VN 0x102]; VSeq [VN 0x300; VN 0x4ff]]].

Lemma sv_env_ok : wf_env sv_env.
Proof. intros [|[|[|[|[|[|[|k]]]]]]]; split; reflexivity. Qed.

Lemma object2 G a b l : object G l [a; b] -> exists x y, l = [x; y] /\ wt G x a = true /\ wt G y b = true.
Proof.
  unfold object. destruct l as [|x [|y [|z l]]]; cbn [forall2b]; rewrite ?andb_false_r; try discriminate.
  rewrite andb_true_r, andb_true_iff. intros [A B]. eauto.
Qed.
Lemma wt_rec G x k : wt G x (TRec k) = true -> exists l, x = VSeq l /\ object G l (t_mems G k).
Proof. destruct x; try discriminate. intro H. eauto. Qed.

Lemma object_num16 G a : object G [VN (a mod 2 ^ 16)] [u16].
Proof.
  unfold object. cbn [forall2b u16 wt]. rewrite andb_true_r. apply N.ltb_lt. now apply N.mod_lt.
Qed.

Lemma object_num16_2 G a b : object G [VN (a mod 2 ^ 16); VN (b mod 2 ^ 16)] [u16; u16].
Proof.
  unfold object. cbn [forall2b u16 wt]. rewrite andb_true_r, andb_true_iff.
  split; apply N.ltb_lt; now apply N.mod_lt.
Qed.

Lemma sv_sound (Q : ty -> Prop) k :
  Q u8 -> Q u16 -> Q (TVarint 4 false false) -> Q (TVec None true (TRec 0)) ->
  Q (TRec 1) -> Q (TRec 3) -> Q (TRec 4) -> Q (TRec 6) ->
  psound sv_env Q (t_mems sv_env k) (sv_funs k).
Proof.
  intros Q1 Q2 Q3 Q4 Q5 Q6 Q7 Q8.
  destruct k as [|[|[|[|[|[|[|k]]]]]]]; cbn [sv_funs t_mems sv_env]; [| | | | | | |exact I].
  - unfold through. cbn [psound]. split; [reflexivity|]. split; [assumption|]. split.
    + intros l H. destruct (object2 _ _ _ _ H) as (x & y & -> & Hx & Hy). cbn [wt t_mems sv_env].
      unfold to_span. cbn [forall2b u16 wt]. rewrite andb_true_r, andb_true_iff.
      split; apply N.ltb_lt; [now apply N.mod_lt|].
      eapply N.lt_trans; [now apply N.mod_lt|reflexivity].
    + intros x s _ _. split; [|exact I]. intros self _. apply object_num16_2.
  - cbn [in_order psound]. repeat split; auto; eexists; split; reflexivity.
  - unfold through. cbn [psound]. split; [reflexivity|]. split; [assumption|]. split.
    + intros l H. destruct (object2 _ _ _ _ H) as (x & y & -> & Hx & Hy). cbn [wt t_mems sv_env swapped].
      cbn [forall2b]. now rewrite Hx, Hy.
    + intros x s H _. split; [|exact I]. intros self Ho. destruct (wt_rec _ _ _ H) as (l & -> & Hl).
      destruct (object2 _ _ _ _ Hl) as (a & b & -> & Ha & Hb). unfold object. cbn [as_seq swapped forall2b].
      now rewrite Ha, Hb.
  - cbn [in_order psound]. repeat split; auto; eexists; split; reflexivity.
  - unfold through. cbn [psound]. split; [reflexivity|]. split; [assumption|]. split; [auto|].
    intros x s H _. split; [|exact I]. intros self Ho. destruct (wt_rec _ _ _ H) as (l & -> & Hl). exact Hl.
  - unfold through. cbn [psound]. split; [reflexivity|]. split; [assumption|]. split.
    + intros l H. cbn [wt t_mems sv_env forall2b u8]. rewrite andb_true_r. apply N.ltb_lt. now apply N.mod_lt.
    + intros x s _ _. split; [|exact I]. intros self _. apply object_num16.
  - cbn [in_order psound]. repeat split; auto; eexists; split; reflexivity.
Qed.

Definition day_bytes : list byte := [x02; x00; x00; x00; x00; x01; x02; x00; x03; xff; x03; x09].

(** Two conversions inside of one another: the schedule in the other order, its intervals with
    lengths. *)
Example day_out :
  pser sv_funs vec_cfg 4 day (TRec 2) (mkO [xaa] 1) = (ROk, mkO (xaa :: day_bytes ++ repeat x00 5) 13)
  /\ penc sv_env sv_funs (fmt_of vec_cfg) 4 day (TRec 2) = Some (day_bytes, None)
  /\ fst (pser sv_funs vec_cfg 3 day (TRec 2) (mkO [xaa] 1)) = RStack
  /\ penc sv_env sv_funs (fmt_of vec_cfg) 3 day (TRec 2) = None.
Proof. repeat split; vm_compute; reflexivity. Qed.

Example day_writing : swriting sv_env sv_funs vec_cfg day (TRec 2) (mkO [xaa] 1).
Proof.
  constructor.
  - intros _. repeat split; vm_compute; try reflexivity; discriminate.
  - reflexivity.
  - apply sv_env_ok.
  - intros [|[|[|[|[|[|[|k]]]]]]]; reflexivity.
  - vm_compute. reflexivity.
  - reflexivity.
  - reflexivity.
  - intro k. apply sv_sound; reflexivity.
  - left. reflexivity.
  - intros e He. rewrite (spells_unique _ _ _ _ _ e (day_bytes, None) He) by (exists 4%nat; vm_compute; reflexivity).
    reflexivity.
  - split; vm_compute; auto.
Qed.

Example day_short :
  pser sv_funs span_cfg 4 day (TRec 2) (mkO (repeat xee 10) 1)
  = (RErr result_out_of_range, mkO (xee :: firstn 9 day_bytes) 10).
Proof. vm_compute. reflexivity. Qed.

Example sv_reading data : small data -> sreading sv_env sv_funs vec_cfg data (TRec 2).
Proof.
  intro H. constructor; auto.
  - apply sv_env_ok.
  - exact (conj I I).
  - intro k. apply sv_sound; cbn; auto.
Qed.
Example sv_no_bool k : psound sv_env (fun t => tall not_bool t = true) (t_mems sv_env k) (sv_funs k).
Proof. apply sv_sound; reflexivity. Qed.
Example sv_delimited k : psound sv_env (fun t => tall (delimited vec_cfg) t = true) (t_mems sv_env k) (sv_funs k).
Proof. apply sv_sound; reflexivity. Qed.
Example sv_pair data : small data -> spair sv_env sv_funs sv_funs vec_cfg data.
Proof. intro H. constructor; auto; intro k; apply sv_sound; reflexivity. Qed.

(** Read back into an object that held something else; the bytes cut short: the target stays as
    it was, what had been read of the object of the other class is gone. *)
Example day_in :
  pdes sv_env sv_funs vec_cfg (day_bytes ++ [x77]) 4 (TRec 2) (VSeq [VN 1; VSeq [VSeq [VN 5; VN 6]]]) 0
  = (ROk, day, 12%nat)
  /\ pdes sv_env sv_funs vec_cfg (firstn 11 day_bytes) 4 (TRec 2) (VSeq [VN 1; VSeq [VSeq [VN 5; VN 6]]]) 0
     = (RErr result_out_of_range, VSeq [VN 1; VSeq [VSeq [VN 5; VN 6]]], 11%nat).
Proof. split; vm_compute; reflexivity. Qed.

Lemma span_readable n a b cr :
  preadable sv_env sv_funs sv_funs cr (S n) (VSeq [VN a; VN b]) (TRec 1).
Proof.
  unfold preadable. cbn [yreadable preadable_rec]. intros cur Hc.
  destruct (object2 _ _ _ _ Hc) as (x & y & -> & _ & _). cbn [sv_funs in_order].
  eapply mi_mem; [reflexivity|reflexivity|reflexivity|split; [left; reflexivity|exact I]|].
  cbn [set_nth].
  eapply mi_mem; [reflexivity|reflexivity|reflexivity|split; [left; reflexivity|exact I]|].
  cbn [set_nth]. apply mi_ret.
Qed.

Lemma span_back a b :
  a < 2 ^ 16 -> b < 2 ^ 16 -> of_span (VSeq (to_span [VN a; VN b])) = [VN a; VN b].
Proof.
  intros Ha Hb. unfold of_span, to_span. cbn [as_seq num nth_error].
  rewrite N.mod_mod by discriminate. rewrite (N.mod_small a) by exact Ha.
  rewrite N.add_mod_idemp_r by discriminate.
  replace (a + (b + 2 ^ 16 - a)) with (b + 1 * 2 ^ 16) by lia.
  rewrite N.mod_add by discriminate. rewrite (N.mod_small b) by exact Hb. reflexivity.
Qed.

Lemma interval_readable n a b cr :
  a < 2 ^ 16 -> b < 2 ^ 16 -> preadable sv_env sv_funs sv_funs cr (S (S n)) (VSeq [VN a; VN b]) (TRec 0).
Proof.
  intros Ha Hb. refine (through_readable sv_env sv_funs sv_funs cr O 1 to_span of_span to_span of_span (S n) _ eq_refl eq_refl (span_back a b Ha Hb) _).
  apply span_readable.
Qed.

Example day_readable : preadable sv_env sv_funs sv_funs vec_cfg 4 day (TRec 2).
Proof.
  unfold day.
  refine (through_readable sv_env sv_funs sv_funs vec_cfg 2 3 swapped (fun x => swapped (as_seq x))
    swapped (fun x => swapped (as_seq x)) 3 _ eq_refl eq_refl eq_refl _).
  unfold preadable. cbn [swapped yreadable preadable_rec]. intros cur Hc.
  destruct (object2 _ _ _ _ Hc) as (x & y & -> & _ & _). cbn [sv_funs in_order].
  eapply mi_mem; [reflexivity|reflexivity|reflexivity| |].
  - split; [left; reflexivity|]. cbn [yreadable forallP]. split; [intros _; cbn; reflexivity|].
    split; [exact (interval_readable O 0x100 0x102 vec_cfg eq_refl eq_refl)|].
    split; [exact (interval_readable O 0x300 0x4ff vec_cfg eq_refl eq_refl)|exact I].
  - cbn [set_nth].
    eapply mi_mem; [reflexivity|reflexivity|reflexivity|split; [left; reflexivity|exact I]|].
    cbn [set_nth]. apply mi_ret.
Qed.

Example day_conversion :
  sv_funs 2%nat = through 3 swapped (fun x => swapped (as_seq x))
  /\ swapped (as_seq (VSeq (swapped (as_seq day)))) = as_seq day
  /\ penc sv_env sv_funs (fmt_of vec_cfg) 3 (VSeq (swapped (as_seq day))) (TRec 3) = Some (day_bytes, None)
  /\ pdes sv_env sv_funs vec_cfg day_bytes 3 (TRec 3) (VSeq [VSeq []; VN 0]) 0
     = (ROk, VSeq (swapped (as_seq day)), 12%nat).
Proof. repeat split; vm_compute; reflexivity. Qed.

Example record_lone k : lone (cls_funs k).
Proof.
  destruct k as [|[|[|k]]]; cbn [cls_funs]; [| | |exact I].
  - intro s. destruct (2 <? num 0 s); [exact I|]. intro s'. destruct (num 0 s' <? 2); [exact I|]. intro. exact I.
  - split; [reflexivity|]. intros x s. cbn. auto.
  - split; [reflexivity|]. intros x s. destruct (num 0 s =? 0); [exact I|]. intro. exact I.
Qed.
Example record_same :
  pser cls_funs vec_cfg (height batch) batch (TRec 1) (mkO [xaa] 1)
  = cser cls_env cls_funs vec_cfg batch (TRec 1) (mkO [xaa] 1).
Proof. vm_compute. reflexivity. Qed.

(** ** What does not hold *)

(** A class that goes through its own class never comes to an end; there is nothing in the
    library against it, and no amount of stack suffices. *)
Theorem surrogate_terminates_refuted :
  swriting sv_env sv_funs vec_cfg (VSeq [VN 7]) (TRec 4) (mkO [] 0)
  /\ (forall fuel, fst (pser sv_funs vec_cfg fuel (VSeq [VN 7]) (TRec 4) (mkO [] 0)) = RStack)
  /\ (forall data fuel prior, rres (pdes sv_env sv_funs vec_cfg data fuel (TRec 4) prior 0) = RStack)
  /\ (forall e, ~ spells sv_env sv_funs (fmt_of vec_cfg) (VSeq [VN 7]) (TRec 4) e).
Proof.
  assert (N : forall e, ~ spells sv_env sv_funs (fmt_of vec_cfg) (VSeq [VN 7]) (TRec 4) e).
  { intros e [n He]. induction n as [|n IH]; [discriminate|].
    rewrite (surrogate_conversion_wire sv_env sv_funs _ 4 4 (fun l => l) as_seq n [VN 7] eq_refl) in He. auto. }
  split; [|split; [|split; [|exact N]]].
  - constructor.
    + intros _. repeat split; vm_compute; try reflexivity; discriminate.
    + reflexivity.
    + apply sv_env_ok.
    + intros [|[|[|[|[|[|[|k]]]]]]]; reflexivity.
    + vm_compute. reflexivity.
    + reflexivity.
    + reflexivity.
    + intro k. apply sv_sound; reflexivity.
    + left. reflexivity.
    + intros e He. exfalso. exact (N e He).
    + split; vm_compute; auto.
  - induction fuel as [|f IH]; [reflexivity|]. unfold pser in *.
    cbn [wser pser_rec sv_funs through run_w] in *. unfold seq. cbn [wser].
    destruct (pser_rec sv_funs vec_cfg f 4 [VN 7] (mkO [] 0)) as [r s] eqn:E. cbn [fst] in IH. subst r. reflexivity.
  - induction fuel as [|f IH]; intro prior; [reflexivity|]. unfold pdes in *.
    cbn [des_ty pdes_rec sv_funs through run_in] in *.
    match goal with |- context [pdes_rec _ _ _ _ f 4 ?p 0] =>
      specialize (IH p); destruct (pdes_rec sv_env sv_funs vec_cfg data f 4 p 0) as [[r v] q] end.
    cbn [rres fst] in IH. subst r. reflexivity.
Qed.

(** A conversion that loses something is not noticed: written and read without an error, the
    object is another one. *)
Theorem surrogate_lossy_refuted :
  let v := VSeq [VN 0x102] in
  pser sv_funs vec_cfg 2 v (TRec 5) (mkO [] 0) = (ROk, mkO [x02] 1)
  /\ pdes sv_env sv_funs vec_cfg [x02] 2 (TRec 5) (VSeq [VN 0]) 0 = (ROk, VSeq [VN 2], 1%nat)
  /\ wt sv_env v (TRec 5) = true /\ v <> VSeq [VN 2].
Proof. repeat split; try (vm_compute; reflexivity). discriminate. Qed.

Print Assumptions surrogate_wire_format.
Print Assumptions surrogate_fixed.
Print Assumptions surrogate_growable.
Print Assumptions surrogate_frame.
Print Assumptions surrogate_stack.
Print Assumptions surrogate_none.
Print Assumptions surrogate_read_safe.
Print Assumptions surrogate_consumed_only.
Print Assumptions surrogate_round_trip.
Print Assumptions surrogate_conversion_wire.
Print Assumptions surrogate_conversion_round_trip.
Print Assumptions surrogate_conversion_all_or_nothing.
Print Assumptions surrogate_terminates_refuted.
Print Assumptions surrogate_lossy_refuted.
