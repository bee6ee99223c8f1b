(** Carrying calls over archives. *)

From Coq Require Import List NArith ZArith Lia Bool Arith.
From Coq Require Import ZifyBool ZifyNat ZifyN.
From Verif Require Import Base.Bytes Model.Types Model.Machine Model.Varint Model.Out Model.In
  Model.Rpc Spec.Leb128 Spec.Wire Proofs.VarintP Proofs.OutP Proofs.InBase Proofs.InSafe
  Proofs.InLocal Proofs.InPrior Proofs.InRound Thm.Output Thm.Input.
Import ListNotations.
Local Open Scope N_scope.

(** Values of types [ts] that a [cw] archive writes and a [cr] archive of the same byte order
    and default size type reads back ([readable]: sizes and allocations within the limits). *)
Record sendable (G : tenv) (cw cr : cfg) (fuel : nat) (vs : list val) (ts : list ty) : Prop := {
  sd_writing : writing G cw (VSeq vs) (TTuple ts);
  sd_size : dsize cr = dsize cw;
  sd_order : xorb (host_le cr) (swap cr) = xorb (host_le cw) (swap cw);
  sd_types : tall (rt_ok cr) (TTuple ts) = true;
  sd_env : tall_env (rt_ok cr) G;
  sd_readable : readable G cr (VSeq vs) (TTuple ts) = true;
  sd_stack : (height (VSeq vs) <= fuel)%nat
}.

Definition wire (G : tenv) (c : cfg) (vs : list val) (ts : list ty) : list byte :=
  encode G (fmt_of c) (VSeq vs) (TTuple ts).

Lemma out_call_sent G c vs ts st st' :
  writing G c (VSeq vs) (TTuple ts) -> bits_ok G (TTuple ts) st -> ost_ok st ->
  out_call G c vs ts st = (ROk, st') ->
  writable G (fmt_of c) (VSeq vs) (TTuple ts) = true
  /\ opos st' = (opos st + length (wire G c vs ts))%nat
  /\ has_at (obuf st') (opos st) (wire G c vs ts)
  /\ firstn (opos st) (obuf st') = firstn (opos st) (obuf st)
  /\ ost_ok st' /\ (clean st -> clean st').
Proof.
  intros HW Hb Hok H.
  pose proof (writing_emits _ _ _ _ _ HW Hb Hok) as HO. cbn [ser] in HO.
  destruct (out_call_keeps_written _ _ _ _ _ _ _ HW Hb Hok H) as (st1 & E & P & Q & L).
  assert (E1 : ser G c (VSeq vs) (TTuple ts) st = (ROk, st1)) by exact E.
  rewrite E in HO. destruct HO as [HO _].
  destruct (out_wire_format _ _ _ _ _ _ HW Hb Hok E1) as (W1 & W2 & W3).
  destruct (out_frame _ _ _ _ _ _ _ HW Hb Hok E1) as (_ & F1 & _ & F2 & _).
  pose proof (outcome_ok_state _ _ _ _ _ Hok HO) as [K1 K2].
  assert (Hst : (obuf st' = obuf st1 \/ obuf st' = firstn (opos st1) (obuf st1))).
  { unfold out_call in H. rewrite E in H. destruct (_ && _); [|injection H as <-; now left].
    unfold fit_size, buf_resize in H. destruct (_ <=? _)%nat; [|injection H as <-; now left].
    destruct (N.leb_spec (N.of_nat (opos st1)) (N.of_nat (length (obuf st1)))); [|lia].
    injection H as <-. cbn [obuf]. rewrite Nat2N.id. now right. }
  fold (wire G c vs ts) in W2, W3.
  assert (Hpre : firstn (opos st) (obuf st') = firstn (opos st) (obuf st1)).
  { destruct Hst as [->| ->]; [reflexivity|]. rewrite firstn_firstn. f_equal. lia. }
  split; [exact W1|]. split; [now rewrite P|]. split.
  - assert (B : has_at (obuf st1) (opos st) (wire G c vs ts)) by (split; [lia|exact W3]).
    destruct Hst as [->| ->]; [exact B|]. split.
    + rewrite firstn_length. lia.
    + unfold window in *. rewrite skipn_firstn_comm, firstn_firstn. rewrite <- W3 at 2. f_equal. lia.
  - split; [now rewrite Hpre|]. split.
    + split; [lia|]. destruct Hst as [->| ->]; [exact K2|]. rewrite firstn_length. lia.
    + intro Hc. pose proof (outcome_clean _ _ _ _ _ Hok Hc HO) as C.
      destruct Hst as [B|B]; unfold clean in *; rewrite P, B; [exact C|].
      rewrite skipn_all2 by (rewrite firstn_length; lia). rewrite firstn_length.
      replace (_ - _)%nat with O by lia. reflexivity.
Qed.

Lemma in_call_received G cw cr fuel vs ts data pos :
  sendable G cw cr fuel vs ts -> writable G (fmt_of cw) (VSeq vs) (TTuple ts) = true ->
  small data -> has_at data pos (wire G cw vs ts) ->
  in_call G cr data fuel ts (map (dflt G) ts) pos = (ROk, vs, (pos + length (wire G cw vs ts))%nat).
Proof.
  intros [W Hd Ho Ht HtG Hr Hh] Hw Hsm Hat. unfold wire in *.
  assert (Hf : fmt_of cw = fmt_of cr) by (unfold fmt_of; now rewrite Hd, Ho).
  rewrite Hf in *. destruct W as [_ W2 W3 W4 W5 W6 W7 _].
  assert (Hp : wt G (VSeq (map (dflt G) ts)) (TTuple ts) = true)
    by exact (wt_dflt G (TTuple ts) W3 W6).
  assert (R : des G cr data fuel (TTuple ts) (VSeq (map (dflt G) ts)) pos
              = (ROk, VSeq vs, (pos + length (encode G (fmt_of cr) (VSeq vs) (TTuple ts)))%nat)).
  { apply des_round; auto. unfold szok in W2. now rewrite Hd. }
  unfold des in R. cbn [des_ty as_seq] in R. fold (des G cr data fuel) in R. unfold in_call.
  destruct (des_many (des G cr data fuel) ts (map (dflt G) ts) pos) as [[r l] p].
  cbn [seq_res] in R. congruence.
Qed.

(** Reading the items of a call in two calls: one item, then a tuple of the others. *)
Lemma in_call_tuple G c data fuel ts ps pos :
  in_call G c data fuel [TTuple ts] [VSeq ps] pos
  = match in_call G c data fuel ts ps pos with
    | (r, l, p) => (r, [VSeq l], p)
    end.
Proof.
  unfold in_call. cbn [des_many tl]. unfold des at 1. cbn [des_ty as_seq].
  fold (des G c data fuel). destruct (des_many _ ts ps pos) as [[r l] p]. cbn [seq_res].
  destruct r; reflexivity.
Qed.

Lemma in_call_first G c data fuel t ts p ps pos v vs pos' :
  in_call G c data fuel (t :: ts) (p :: ps) pos = (ROk, v :: vs, pos') ->
  exists q, in_call G c data fuel [t] [p] pos = (ROk, [v], q)
    /\ in_call G c data fuel ts ps q = (ROk, vs, pos').
Proof.
  unfold in_call. cbn [des_many tl]. intro H.
  destruct (des G c data fuel t p pos) as [[r x] q]. destruct r; try discriminate.
  destruct (des_many _ ts ps q) as [[r l] z] eqn:E. injection H as -> -> -> ->.
  exists q. split; [reflexivity|exact E].
Qed.

(** ** Ids *)

Lemma ids_eqb_eq n l m :
  forallb (fun x => wt {| t_info := fun _ => mkSinfo 0 false false VNone; t_mems := fun _ => [] |} x (TScalar n true)) l = true ->
  ids_eqb l m = true <-> l = m.
Proof.
  revert m. induction l as [|x l IH]; intros [|y m] H; cbn [ids_eqb forallb] in *;
    try (split; congruence).
  - destruct x; split; congruence.
  - apply andb_true_iff in H as [H1 H2]. destruct x; try discriminate.
    destruct y; try (split; congruence). rewrite andb_true_iff, N.eqb_eq, IH by exact H2.
    split; [intros [-> ->]; reflexivity|intro E; now injection E as -> ->].
Qed.

Lemma id_eqb_eq G t a b :
  id_type t = true -> wt G a t = true -> id_eqb a b = true <-> a = b.
Proof.
  intros Ht Ha. destruct t; try discriminate.
  - destruct a; try discriminate. destruct b; cbn [id_eqb]; try (split; congruence).
    rewrite N.eqb_eq. split; congruence.
  - destruct t; try discriminate. destruct a as [|l| | | | | |]; try discriminate.
    cbn [wt] in Ha. apply andb_true_iff in Ha as [_ Ha].
    destruct b as [|m| | | | | |]; cbn [id_eqb]; try (split; congruence).
    rewrite (ids_eqb_eq w).
    + split; congruence.
    + rewrite forallb_forall in *. intros x Hx. specialize (Ha x Hx). destruct x; try discriminate.
      exact Ha.
Qed.

(** ** Calling *)

Section Call.
  Context {S : Type} (G : tenv) (bs : list (binding S)) (idt : ty).
  Hypothesis (Hidt : id_type idt = true)
    (Hids : forall b, In b bs -> wt G (b_id b) idt = true)
    (Hnd : NoDup (map b_id bs)).

  Lemma call_binding_found ci co data fuel id s pos so l : forall i b,
    (forall b, In b l -> wt G (b_id b) idt = true) -> NoDup (map b_id l) ->
    nth_error l i = Some b -> b_id b = id -> forall k,
    call_binding S G ci co data fuel k l id s pos so
    = call_one S G ci co data fuel (k + i) b s pos so.
  Proof using Hidt.
    clear Hids Hnd. induction l as [|b0 l IH]; intros i b Hids Hnd Hn E k; [destruct i; discriminate|].
    cbn [call_binding]. inversion Hnd as [|x y Hni Hnd']; subst x y.
    destruct (id_eqb (b_id b0) id) eqn:Ei.
    - apply (id_eqb_eq G idt) in Ei; auto; [|apply Hids; now left].
      destruct i as [|i]; [injection Hn as ->; now rewrite Nat.add_0_r|].
      exfalso. apply Hni. rewrite Ei, <- E. apply in_map. eapply nth_error_In, Hn.
    - destruct i as [|i].
      + injection Hn as ->. exfalso.
        assert (id_eqb (b_id b) id = true); [|congruence].
        apply (id_eqb_eq G idt); auto. apply Hids. now left.
      + rewrite (IH i b) by (auto; intros b' Hb'; apply Hids; now right).
        f_equal. lia.
  Qed.

  Lemma call_binding_unknown ci co data fuel id s pos so k l :
    (forall b, In b l -> wt G (b_id b) idt = true) -> ~ In id (map b_id l) ->
    call_binding S G ci co data fuel k l id s pos so
    = mkServed (inl (RErr not_supported)) s pos so [].
  Proof using Hidt.
    clear Hids Hnd. revert k. induction l as [|b l IH]; intros k Hids Hni; [reflexivity|].
    cbn [call_binding]. destruct (id_eqb (b_id b) id) eqn:Ei.
    - apply (id_eqb_eq G idt) in Ei; auto; [|apply Hids; now left].
      exfalso. apply Hni. rewrite <- Ei. now left.
    - apply IH; [intros b' Hb'; apply Hids; now right|]. intro. apply Hni. now right.
  Qed.
End Call.
