(** C71: views into a vector that is written to as well. *)

From Coq Require Import List NArith ZArith Lia Bool Arith.
From Coq Require Import ZifyBool ZifyNat ZifyN.
From Verif Require Import Base.Bytes Model.Types Model.Machine Model.Varint Model.Out Model.In
  Model.Duplex Model.Alias Spec.Leb128 Spec.Wire Spec.Copies Proofs.VarintP Proofs.OutP Proofs.InBase
  Proofs.InSafe Proofs.AliasP Proofs.AliasLen Thm.Demo Thm.Output Thm.Input Thm.Growth.
Import ListNotations.
Local Open Scope N_scope.

(** ** Vocabulary *)

(** The archives: a growable buffer, fitted after each call. *)
Record fitted (c : cfg) : Prop := {
  f_grow : growable c = true;
  f_fit : nofit c = false;
  f_enl : exact_enlarger c = false
}.

(** The two machines are at the same point: same bytes, same positions; the vector ends at the
    position of the output; the views show the copies; none is from the future. *)
Record ready (s : astate) (q : cstate) : Prop := {
  y_buf : a_st (s_buf s) = mkO (p_data (c_pipe q)) (p_out (c_pipe q));
  y_in : s_in s = p_in (c_pipe q);
  y_end : p_out (c_pipe q) = length (p_data (c_pipe q));
  y_pos : (p_in (c_pipe q) <= length (p_data (c_pipe q)))%nat;
  y_small : N.of_nat (length (p_data (c_pipe q))) < 2 ^ 63;
  y_cap : (length (p_data (c_pipe q)) <= a_cap (s_buf s))%nat;
  y_vars : Forall2 (shows (p_data (c_pipe q))) (s_vars s) (c_vars q);
  y_past : Forall (fun w => (v_blk w <= a_blk (s_buf s))%nat) (s_vars s)
}.

(** The same archives. *)
Definition same_archives (s : astate) (q : cstate) : Prop :=
  a_st (s_buf s) = mkO (p_data (c_pipe q)) (p_out (c_pipe q)) /\ s_in s = p_in (c_pipe q).

(** A program that is in order for copies: it uses variables that exist, writes valid objects,
    reads into valid targets. *)
Fixpoint proper (G : tenv) (co ci : cfg) (fuel : nat) (os : list aop) (q : cstate) : Prop :=
  match os with
  | [] => True
  | AWrite l :: os' =>
      forallb (w_known (length (c_vars q))) l = true
      /\ Forall (fun i => writing G co (w_val (c_vars q) i) (w_ty i)) l
      /\ writing G co (VSeq (map (w_val (c_vars q)) l)) (TTuple (map w_ty l))
      /\ forall p', pipe_write G co (map (w_val (c_vars q)) l) (map w_ty l) (c_pipe q) = (ROk, p') ->
         proper G co ci fuel os' (mkC p' (c_vars q))
  | ARead l :: os' =>
      Forall (fun i => reading G ci (p_data (c_pipe q)) (r_ty i) /\ wt G (r_prior i) (r_ty i) = true) l
      /\ forall vs p', pipe_read G ci fuel (map r_ty l) (map r_prior l) (c_pipe q) = (ROk, vs, p') ->
         proper G co ci fuel os' (mkC p' (c_vars q ++ r_views l vs))
  | AUse i :: os' => (i < length (c_vars q))%nat /\ proper G co ci fuel os' q
  end.

(** A view in a variable is into a block the vector has left. *)
Definition left_behind (s : astate) : Prop :=
  exists w, In w (s_vars s) /\ (v_blk w < a_blk (s_buf s))%nat.

(** ** Proofs *)

Lemma forall2_length {A B} (P : A -> B -> Prop) l m : Forall2 P l m -> length l = length m.
Proof. induction 1; cbn; congruence. Qed.

Lemma ready_holding s q : ready s q -> holding (p_data (c_pipe q)) (a_st (s_buf s)).
Proof.
  intros [H1 H2 H3 H4 H5 H6 H7 H8]. rewrite H1. split; cbn [obuf opos].
  - split; cbn [obuf opos]; [lia|exact H5].
  - unfold clean. cbn [obuf opos]. rewrite H3, skipn_all, Nat.sub_diag. reflexivity.
  - lia.
  - apply firstn_all.
Qed.

Lemma ready_capok s q : ready s q -> capok (s_buf s).
Proof. intros [H1 H2 H3 H4 H5 H6 H7 H8]. unfold capok. rewrite H1. exact H6. Qed.

(** After a successful call on copies the vector ends at the position and starts as before. *)
Lemma pipe_write_data G c vs ts p p' :
  fitted c -> writing G c (VSeq vs) (TTuple ts) ->
  p_out p = length (p_data p) -> N.of_nat (length (p_data p)) < 2 ^ 63 ->
  pipe_write G c vs ts p = (ROk, p') ->
  p_out p' = length (p_data p') /\ (length (p_data p) <= length (p_data p'))%nat
  /\ firstn (length (p_data p)) (p_data p') = p_data p /\ N.of_nat (length (p_data p')) < 2 ^ 63
  /\ p_in p' = p_in p.
Proof.
  intros [F1 F2 F3] HW He Hs E. unfold pipe_write in E.
  destruct (out_call G c vs ts (mkO (p_data p) (p_out p))) as [r st'] eqn:EO. injection E as -> <-.
  set (st := mkO (p_data p) (p_out p)) in *.
  assert (Hok : ost_ok st) by (split; cbn; [lia|exact Hs]).
  assert (Hb : bits_ok G (TTuple ts) st).
  { left. unfold clean. cbn [obuf opos st]. rewrite He, skipn_all, Nat.sub_diag. reflexivity. }
  pose proof (out_call_fits _ _ _ _ _ _ _ HW Hb Hok F1 F2 F3 He EO ltac:(discriminate)) as Hfit.
  destruct (out_call_keeps_written _ _ _ _ _ _ _ HW Hb Hok EO) as (st1 & E1 & P1 & Q1 & L1).
  destruct (out_frame _ _ _ _ _ _ _ HW Hb Hok E1) as (_ & F & _ & F4 & _).
  pose proof (writing_emits _ _ _ _ _ HW Hb Hok) as HO. cbn [ser] in HO. rewrite E1 in HO. destruct HO as [HO _].
  pose proof (outcome_ok_state _ _ _ _ _ Hok HO) as [O1 O2].
  cbn [p_out p_data p_in]. cbn [opos obuf st] in *.
  split; [lia|]. split; [lia|]. split; [|split; [lia|reflexivity]].
  transitivity (firstn (length (p_data p)) (firstn (opos st1) (obuf st'))).
  { rewrite firstn_firstn. f_equal. lia. }
  rewrite Q1, firstn_firstn. replace (Nat.min (length (p_data p)) (opos st1)) with (p_out p) by lia.
  rewrite F4, He. apply firstn_all.
Qed.

Lemma shows_longer D D' w e : firstn (length D) D' = D -> (length D <= length D')%nat -> shows D w e -> shows D' w e.
Proof.
  intros H HL (S1 & S2 & S3). split; [exact S1|]. split; [lia|]. rewrite <- S3, <- H. symmetry. now apply window_firstn.
Qed.

Lemma write_ready G c s q l a' p' :
  fitted c -> ready s q ->
  writing G c (VSeq (map (w_val (c_vars q)) l)) (TTuple (map w_ty l)) ->
  pipe_write G c (map (w_val (c_vars q)) l) (map w_ty l) (c_pipe q) = (ROk, p') ->
  (a_blk (s_buf s) <= a_blk a')%nat -> capok a' -> a_st a' = mkO (p_data p') (p_out p') ->
  ready (mkS a' (s_in s) (s_vars s)) (mkC p' (c_vars q)).
Proof.
  intros HF HR HW E Hb Hc Ha. pose proof HR as [H1 H2 H3 H4 H5 H6 H7 H8].
  destruct (pipe_write_data _ _ _ _ _ _ HF HW H3 H5 E) as (W1 & W2 & W3 & W4 & W5).
  split; cbn [s_buf s_in s_vars c_pipe c_vars]; auto; try congruence; try lia.
  - unfold capok in Hc. now rewrite Ha in Hc.
  - clear -H7 W2 W3. induction H7; constructor; auto. eapply shows_longer; eauto.
  - eapply Forall_impl; [|exact H8]. cbn. intros w Hw. lia.
Qed.

Section Program.
  Variable room : nat -> nat -> nat.
  Hypothesis Hroom : forall cap n, (n <= room cap n)%nat.
  Variables (G : tenv) (co ci : cfg) (fuel : nat).
  Hypothesis HF : fitted co.

  Lemma vars_length s q : ready s q -> length (s_vars s) = length (c_vars q).
  Proof. intros [H1 H2 H3 H4 H5 H6 H7 H8]. eapply forall2_length; eauto. Qed.

  (** A write on both machines. *)
  Lemma write_both s q l :
    ready s q -> forallb (w_known (length (c_vars q))) l = true ->
    Forall (fun i => writing G co (w_val (c_vars q) i) (w_ty i)) l ->
    let '(r, a') := aout_call room G co (s_vars s) l (s_buf s) in
    (a_blk (s_buf s) <= a_blk a')%nat /\ capok a'
    /\ ((exists p', pipe_write G co (map (w_val (c_vars q)) l) (map w_ty l) (c_pipe q) = (r, p')
           /\ a_st a' = mkO (p_data p') (p_out p') /\ p_in p' = p_in (c_pipe q))
        \/ r = RUB /\ exists w, In w (s_vars s) /\ (v_blk w < a_blk a')%nat).
  Proof.
    intros HR Hk HW. pose proof HR as [H1 H2 H3 H4 H5 H6 H7 H8].
    pose proof (aout_call_like room Hroom G co (p_data (c_pipe q)) (f_grow _ HF) (s_vars s) (c_vars q) H7 l (s_buf s)
      (ready_capok _ _ HR) (ready_holding _ _ HR)) as L.
    rewrite (vars_length _ _ HR) in L. specialize (L Hk HW).
    destruct (aout_call room G co (s_vars s) l (s_buf s)) as [r a']. destruct L as (L1 & L2 & L3).
    split; [exact L1|]. split; [exact L2|]. destruct L3 as [L3|[L3 (w & Hw & L4)]]; [left|right].
    - unfold pipe_write. rewrite <- H1, L3. eexists. split; [reflexivity|]. cbn [p_data p_out p_in].
      split; [now destruct (a_st a')|reflexivity].
    - split; [exact L3|]. exists w. split; [exact Hw|]. rewrite Forall_forall in H8. specialize (H8 w Hw). cbn in H8. lia.
  Qed.

  (** A read on both machines. *)
  Lemma read_both s q l :
    ready s q -> Forall (fun i => reading G ci (p_data (c_pipe q)) (r_ty i) /\ wt G (r_prior i) (r_ty i) = true) l ->
    let '(r, vs, ws, pos) := rd_items G ci fuel (a_blk (s_buf s)) (obuf (a_st (s_buf s))) l (s_in s) in
    exists xs p', pipe_read G ci fuel (map r_ty l) (map r_prior l) (c_pipe q) = (r, xs, p')
      /\ pos = p_in p' /\ p_data p' = p_data (c_pipe q) /\ p_out p' = p_out (c_pipe q)
      /\ (r = ROk -> vs = r_vals l xs /\ ready (mkS (s_buf s) pos (s_vars s ++ ws)) (mkC p' (c_vars q ++ r_views l xs))).
  Proof.
    intros HR HW. pose proof HR as [H1 H2 H3 H4 H5 H6 H7 H8].
    assert (Hsm : small (p_data (c_pipe q)))
      by (unfold small; rewrite two63_val in *; change (2 ^ 64) with 18446744073709551616; lia).
    rewrite H1, H2. cbn [obuf].
    pose proof (rd_items_des G ci fuel (a_blk (s_buf s)) (p_data (c_pipe q)) l (p_in (c_pipe q)) Hsm H4 HW) as L.
    destruct (rd_items G ci fuel (a_blk (s_buf s)) (p_data (c_pipe q)) l (p_in (c_pipe q))) as [[[r vs] ws] pos].
    destruct L as (xs & E & L). unfold pipe_read. rewrite E. exists xs. eexists. split; [reflexivity|].
    cbn [p_in p_data p_out]. repeat split; auto; destruct (L H) as (L1 & L2 & L3 & L4); auto;
      cbn [s_buf s_in s_vars c_pipe c_vars p_in p_data p_out]; auto; try lia.
    - apply Forall2_app; auto.
    - apply Forall_app. split; [exact H8|]. eapply Forall_impl; [|exact L3]. cbn. intros w ->. lia.
  Qed.

  (** C71: a program over one vector does exactly what it would do with copies in place of
      views, unless it dereferences a view into a block the vector has left; and then
      everything it saw before was right. *)
  Theorem views_like_copies os : forall s q,
    ready s q -> proper G co ci fuel os q ->
    let '(r, seen, s') := arun room G co ci fuel os s in
    let '(rc, seenc, q') := crun G co ci fuel os q in
    (r = rc /\ seen = seenc /\ same_archives s' q')
    \/ (r = RUB /\ left_behind s' /\ exists rest, seenc = seen ++ rest).
  Proof.
    induction os as [|o os IH]; intros s q HR HP; cbn [arun crun].
    - left. destruct HR. repeat split; auto.
    - destruct o as [l|l|i]; cbn [proper] in HP.
      + destruct HP as (P1 & P2 & P3 & P4). pose proof (write_both s q l HR P1 P2) as W.
        destruct (aout_call room G co (s_vars s) l (s_buf s)) as [r a'].
        destruct W as (W1 & W2 & [(p' & E & W3 & W4)|[-> W3]]).
        * rewrite E. destruct r; try (left; repeat split; [exact W3|cbn [s_in c_pipe]; rewrite W4; apply HR]).
          apply IH; [eapply write_ready; eauto|auto].
        * assert (LB : left_behind (mkS a' (s_in s) (s_vars s))) by exact W3.
          destruct (pipe_write G co (map (w_val (c_vars q)) l) (map w_ty l) (c_pipe q)) as [rc p'].
          destruct rc; try (right; split; [reflexivity|split; [exact LB|exists []; reflexivity]]).
          destruct (crun G co ci fuel os (mkC p' (c_vars q))) as [[rc seenc] q'].
          right. split; [reflexivity|]. split; [exact LB|]. now exists seenc.
      + destruct HP as (P1 & P2). pose proof (read_both s q l HR P1) as W.
        destruct (rd_items G ci fuel (a_blk (s_buf s)) (obuf (a_st (s_buf s))) l (s_in s)) as [[[r vs] ws] pos].
        destruct W as (xs & p' & E & W1 & W2 & W3 & W4). rewrite E.
        destruct r; try (left; repeat split; [cbn [s_buf c_pipe]; rewrite W2, W3; apply HR|exact W1]).
        destruct (W4 eq_refl) as [-> HR']. specialize (IH _ _ HR' (P2 _ _ E)).
        destruct (arun room G co ci fuel os (mkS (s_buf s) pos (s_vars s ++ ws))) as [[r seen] s'].
        destruct (crun G co ci fuel os (mkC p' (c_vars q ++ r_views l xs))) as [[rc seenc] q'].
        destruct IH as [(-> & -> & I)|(-> & I & rest & ->)]; [left; auto|right].
        split; [reflexivity|]. split; [exact I|]. exists rest. apply app_assoc.
      + destruct HP as (P1 & P2). rewrite <- (vars_length _ _ HR) in P1.
        destruct (nth_error (s_vars s) i) as [w|] eqn:Ew; [|apply nth_error_None in Ew; lia].
        pose proof (forall2_nth _ _ _ _ _ (y_vars _ _ HR) Ew) as Hs.
        pose proof (deref_shows co _ _ _ (s_buf s) (ready_holding _ _ HR) Hs) as Hd.
        specialize (IH s q HR P2).
        destruct (deref w (s_buf s)) as [e|].
        * subst e. destruct (arun room G co ci fuel os s) as [[r seen] s'].
          destruct (crun G co ci fuel os q) as [[rc seenc] q'].
          destruct IH as [(-> & -> & I)|(-> & I & rest & ->)]; [left; auto|right].
          split; [reflexivity|]. split; [exact I|]. now exists rest.
        * destruct (crun G co ci fuel os q) as [[rc seenc] q'].
          right. split; [reflexivity|]. split.
          { exists w. apply nth_error_In in Ew. split; [exact Ew|].
            pose proof (y_past _ _ HR) as HB. rewrite Forall_forall in HB. specialize (HB w Ew). cbn in HB. lia. }
          eexists. reflexivity.
  Qed.

  (** The position of the output only advances. *)
  Lemma crun_out os : forall q,
    p_out (c_pipe q) = length (p_data (c_pipe q)) -> N.of_nat (length (p_data (c_pipe q))) < 2 ^ 63 ->
    (p_in (c_pipe q) <= length (p_data (c_pipe q)))%nat -> proper G co ci fuel os q ->
    (p_out (c_pipe q) <= p_out (c_pipe (snd (crun G co ci fuel os q))))%nat.
  Proof.
    induction os as [|o os IH]; intros q He Hs Hp HP; cbn [crun snd]; [lia|].
    destruct o as [l|l|i]; cbn [proper] in HP.
    - destruct HP as (P1 & P2 & P3 & P4).
      destruct (pipe_write G co (map (w_val (c_vars q)) l) (map w_ty l) (c_pipe q)) as [r p'] eqn:E.
      assert (Hd : r = ROk \/ r <> ROk) by (destruct r; auto; right; discriminate).
      destruct Hd as [->|Hr].
      + destruct (pipe_write_data _ _ _ _ _ _ HF P3 He Hs E) as (W1 & W2 & W3 & W4 & W5).
        specialize (IH (mkC p' (c_vars q))). cbn [c_pipe c_vars] in IH.
        specialize (IH W1 W4 ltac:(lia) (P4 _ eq_refl)). lia.
      + assert (p_out (c_pipe q) <= p_out p')%nat.
        { unfold pipe_write in E. destruct (out_call _ _ _ _ _) as [r0 st'] eqn:EO. injection E as -> <-.
          cbn [p_out]. set (st := mkO (p_data (c_pipe q)) (p_out (c_pipe q))) in *.
          assert (Hok : ost_ok st) by (split; cbn; [lia|exact Hs]).
          assert (Hb : bits_ok G (TTuple (map w_ty l)) st).
          { left. unfold clean. cbn [obuf opos st]. rewrite He, skipn_all, Nat.sub_diag. reflexivity. }
          destruct (out_call_keeps_written _ _ _ _ _ _ _ P3 Hb Hok EO) as (st1 & E1 & Q1 & _).
          destruct (out_frame _ _ _ _ _ _ _ P3 Hb Hok E1) as (_ & F & _). cbn [opos st] in F. lia. }
        destruct r; try (exact H). congruence.
    - destruct HP as (P1 & P2). unfold pipe_read in *.
      destruct (in_call G ci (p_data (c_pipe q)) fuel (map r_ty l) (map r_prior l) (p_in (c_pipe q))) as [[r xs] pos] eqn:E.
      destruct r; try (cbn; lia).
      specialize (IH (mkC (mkPipe (p_data (c_pipe q)) pos (p_out (c_pipe q))) (c_vars q ++ r_views l xs))).
      cbn [c_pipe p_out p_data p_in] in IH.
      assert (Hsm : small (p_data (c_pipe q)))
        by (unfold small; rewrite two63_val in *; change (2 ^ 64) with 18446744073709551616; lia).
      pose proof (rd_items_des G ci fuel 0 (p_data (c_pipe q)) l (p_in (c_pipe q)) Hsm Hp P1) as L.
      destruct (rd_items G ci fuel 0 (p_data (c_pipe q)) l (p_in (c_pipe q))) as [[[r vs] ws] pos'].
      destruct L as (xs' & E' & L). rewrite E in E'. injection E' as <- <- <-.
      destruct (L eq_refl) as (_ & _ & _ & L4).
      specialize (IH He Hs ltac:(lia) (P2 _ _ eq_refl)).
      destruct (crun G co ci fuel os _) as [[r0 seen0] s0] in IH |- *. exact IH.
    - destruct HP as (P1 & P2). specialize (IH q He Hs Hp P2).
      destruct (crun G co ci fuel os q) as [[r0 seen0] s0]. exact IH.
  Qed.

  (** With capacity for everything the program writes, and what the enlarger adds, no view is
      ever left behind: the program does exactly what it would do with copies. *)
  Theorem views_survive_reserved os : forall s q,
    ready s q -> proper G co ci fuel os q ->
    Forall (fun w => v_blk w = a_blk (s_buf s)) (s_vars s) ->
    emul co * (2 * (N.of_nat (p_out (c_pipe (snd (crun G co ci fuel os q)))) + 10))
      <= ediv co * N.of_nat (a_cap (s_buf s)) ->
    let '(r, seen, s') := arun room G co ci fuel os s in
    let '(rc, seenc, q') := crun G co ci fuel os q in
    r = rc /\ seen = seenc /\ same_archives s' q' /\ a_blk (s_buf s') = a_blk (s_buf s).
  Proof.
    induction os as [|o os IH]; intros s q HR HP HB HC; cbn [arun crun].
    - destruct HR. repeat split; auto.
    - pose proof HR as [H1 H2 H3 H4 H5 H6 H7 H8].
      pose proof (crun_out (o :: os) q H3 H5 H4 HP) as HO.
      destruct o as [l|l|i]; cbn [proper crun] in *.
      + destruct HP as (P1 & P2 & P3 & P4).
        assert (HS : (length (obuf (snd (ser_many (ser G co) (map (w_val (c_vars q)) l) (map w_ty l) (a_st (s_buf s))))) <= a_cap (s_buf s))%nat).
        { assert (Hok : ost_ok (a_st (s_buf s))) by apply (ready_holding _ _ HR).
          destruct (ser_many (ser G co) (map (w_val (c_vars q)) l) (map w_ty l) (a_st (s_buf s))) as [r st1] eqn:E1.
          destruct (ser_stretch G co _ _ _ _ _ P3 (f_grow _ HF) Hok E1) as (S1 & S2 & S3 & S4). cbn [snd].
          destruct S4 as [->|S4]; [rewrite H1; exact H6|].
          assert (Hpos : (opos st1 <= p_out (c_pipe (snd (crun G co ci fuel (AWrite l :: os) q))))%nat).
          { cbn [crun]. unfold pipe_write. rewrite <- H1.
            assert (Hb : bits_ok G (TTuple (map w_ty l)) (a_st (s_buf s)))
              by (left; apply (ready_holding _ _ HR)).
            destruct (out_call G co (map (w_val (c_vars q)) l) (map w_ty l) (a_st (s_buf s))) as [r' st'] eqn:EO.
            destruct (out_call_keeps_written _ _ _ _ _ _ _ P3 Hb Hok EO) as (st2 & E2 & Q1 & _).
            rewrite E1 in E2. injection E2 as <- <-.
            destruct r; try (cbn; lia).
            assert (EP : pipe_write G co (map (w_val (c_vars q)) l) (map w_ty l) (c_pipe q)
                         = (ROk, mkPipe (obuf st') (p_in (c_pipe q)) (opos st'))).
            { unfold pipe_write. rewrite <- H1, EO. reflexivity. }
            destruct (pipe_write_data _ _ _ _ _ _ HF P3 H3 H5 EP) as (W1 & W2 & W3 & W4 & W5).
            rewrite <- Q1. change (opos st') with (p_out (c_pipe (mkC (mkPipe (obuf st') (p_in (c_pipe q)) (opos st')) (c_vars q)))).
            cbn [p_out p_data p_in] in W1, W2, W4.
            apply crun_out; cbn [c_pipe p_out p_data p_in]; [exact W1|exact W4|lia|exact (P4 _ EP)]. }
          cbn [crun] in Hpos. unfold blen in S4.
          assert (A : ediv co * N.of_nat (length (obuf st1)) <= ediv co * N.of_nat (a_cap (s_buf s))).
          { etransitivity; [exact S4|]. etransitivity; [|exact HC]. apply N.mul_le_mono_l. lia. }
          destruct (w_cfg _ _ _ _ P3 (f_grow _ HF)) as (Hd & _ & _).
          apply N.mul_le_mono_pos_l in A; lia. }
        pose proof (aout_call_stay room Hroom G co (p_data (c_pipe q)) (f_grow _ HF) (s_vars s) (c_vars q) H7 l (s_buf s)
          (ready_capok _ _ HR) (ready_holding _ _ HR)) as L.
        rewrite (vars_length _ _ HR) in L. specialize (L P1 P2 HB HS). rewrite L.
        unfold pipe_write in *. rewrite <- H1 in *.
        destruct (out_call G co (map (w_val (c_vars q)) l) (map w_ty l) (a_st (s_buf s))) as [r st'] eqn:EO.
        cbn [fst snd] in *.
        destruct r; try (cbn; repeat split; auto; try (now destruct st'); try congruence; fail).
        specialize (IH (mkS (mkA (a_blk (s_buf s)) (a_cap (s_buf s)) st') (s_in s) (s_vars s))
          (mkC (mkPipe (obuf st') (p_in (c_pipe q)) (opos st')) (c_vars q))).
        cbn [s_buf a_blk a_cap s_vars] in IH. apply IH; auto.
        assert (EP : pipe_write G co (map (w_val (c_vars q)) l) (map w_ty l) (c_pipe q)
                     = (ROk, mkPipe (obuf st') (p_in (c_pipe q)) (opos st'))).
        { unfold pipe_write. rewrite <- H1, EO. reflexivity. }
        eapply write_ready; [exact HF|exact HR|exact P3|exact EP|cbn; lia| |cbn; now destruct st'].
        unfold capok. cbn [a_st a_cap].
        pose proof (aout_call_like room Hroom G co (p_data (c_pipe q)) (f_grow _ HF) (s_vars s) (c_vars q) H7 l (s_buf s)
          (ready_capok _ _ HR) (ready_holding _ _ HR)) as LL.
        rewrite (vars_length _ _ HR), L in LL. specialize (LL P1 P2). cbn in LL. apply LL.
      + destruct HP as (P1 & P2). pose proof (read_both s q l HR P1) as W.
        destruct (rd_items G ci fuel (a_blk (s_buf s)) (obuf (a_st (s_buf s))) l (s_in s)) as [[[r vs] ws] pos] eqn:ER.
        destruct W as (xs & p' & E & W1 & W2 & W3 & W4). rewrite E in *.
        destruct r; try (repeat split; [cbn [s_buf c_pipe]; rewrite W2, W3; apply HR|exact W1]).
        destruct (W4 eq_refl) as [-> HR']. specialize (IH _ _ HR' (P2 _ _ eq_refl)).
        cbn [s_buf s_vars] in IH.
        destruct (arun room G co ci fuel os (mkS (s_buf s) pos (s_vars s ++ ws))) as [[r seen] s'].
        destruct (crun G co ci fuel os (mkC p' (c_vars q ++ r_views l xs))) as [[rc seenc] q'].
        assert (Hws : Forall (fun w => v_blk w = a_blk (s_buf s)) ws).
        { assert (Hsm : small (p_data (c_pipe q)))
            by (unfold small; rewrite two63_val in *; change (2 ^ 64) with 18446744073709551616; lia).
          rewrite H1, H2 in ER. cbn [obuf] in ER.
          pose proof (rd_items_des G ci fuel (a_blk (s_buf s)) (p_data (c_pipe q)) l (p_in (c_pipe q)) Hsm H4 P1) as L.
          rewrite ER in L. destruct L as (xs' & _ & L). apply L. reflexivity. }
        destruct IH as (-> & -> & I); [now apply Forall_app|exact HC|]. auto.
      + destruct HP as (P1 & P2). rewrite <- (vars_length _ _ HR) in P1.
        destruct (nth_error (s_vars s) i) as [w|] eqn:Ew; [|apply nth_error_None in Ew; lia].
        pose proof (forall2_nth _ _ _ _ _ (y_vars _ _ HR) Ew) as Hs.
        pose proof (deref_shows co _ _ _ (s_buf s) (ready_holding _ _ HR) Hs) as Hd.
        specialize (IH s q HR P2 HB). apply nth_error_In in Ew.
        destruct (deref w (s_buf s)) as [e|].
        * subst e. destruct (arun room G co ci fuel os s) as [[r seen] s'].
          destruct (crun G co ci fuel os q) as [[rc seenc] q'].
          destruct (IH HC) as (-> & -> & I). auto.
        * rewrite Forall_forall in HB. specialize (HB w Ew). cbn in HB. tauto.
  Qed.
End Program.

(** ** Unless the vector moves *)

Lemma settle_blk room a st : (a_blk a <= a_blk (settle room a st))%nat.
Proof. unfold settle. destruct (_ <=? _)%nat; cbn; lia. Qed.

Lemma on_blk room f a : (a_blk a <= a_blk (snd (on room f a)))%nat.
Proof. unfold on. destruct (f (a_st a)) as [r st']. apply settle_blk. Qed.

Lemma aseq_blk (f g : aact) a :
  (a_blk a <= a_blk (snd (f a)))%nat -> (forall b, a_blk b <= a_blk (snd (g b)))%nat ->
  (a_blk a <= a_blk (snd (aseq f g a)))%nat.
Proof. intros H1 H2. unfold aseq. destruct (f a) as [r b]. cbn in H1. specialize (H2 b). destruct r; cbn; lia. Qed.

Lemma wr_items_blk room G c vars l : forall a, (a_blk a <= a_blk (snd (wr_items room G c vars l a)))%nat.
Proof.
  induction l as [|i l IH]; intro a; cbn [wr_items]; [cbn; lia|]. apply aseq_blk; [|exact IH].
  destruct i as [v t|s j]; cbn [wr_item]; [apply on_blk|].
  destruct (nth_error vars j) as [w|]; [|cbn; lia]. apply aseq_blk; [apply on_blk|].
  intro b. unfold put_view. destruct (_ =? _)%nat; [cbn; lia|]. apply aseq_blk; [apply on_blk|].
  intro d. unfold copy_view. destruct (deref w d); [|cbn; lia]. destruct (_ || _); [apply on_blk|cbn; lia].
Qed.

Lemma aout_call_blk room G c vars l a : (a_blk a <= a_blk (snd (aout_call room G c vars l a)))%nat.
Proof.
  unfold aout_call. pose proof (wr_items_blk room G c vars l a) as H. destruct (_ && _); [|exact H].
  destruct (wr_items room G c vars l a) as [r b]. cbn in H.
  destruct (fit_size c _ r (a_st b)) as [r' st']. pose proof (settle_blk room b st'). cbn. lia.
Qed.

Lemma rd_items_blk G c fuel blk data l : forall pos,
  let '(_, _, ws, _) := rd_items G c fuel blk data l pos in Forall (fun w => v_blk w = blk) ws.
Proof.
  induction l as [|i l IH]; intro pos; cbn [rd_items]; [constructor|].
  destruct i as [t x|s].
  - destruct (des G c data fuel t x pos) as [[r v] pos']. destruct r; try constructor.
    specialize (IH pos'). destruct (rd_items G c fuel blk data l pos') as [[[r vs] ws] p]. exact IH.
  - assert (H : v_blk (snd (fst (rd_view c blk data s pos))) = blk).
    { unfold rd_view. destruct (des_size c data (sz_of c s) pos) as [[r n] pos'].
      destruct r; try reflexivity. destruct (sz_of c s); try reflexivity; destruct (_ <? _); reflexivity. }
    destruct (rd_view c blk data s pos) as [[r w] pos']. cbn in H. destruct r; try constructor.
    specialize (IH pos'). destruct (rd_items G c fuel blk data l pos') as [[[r vs] ws] p]. constructor; assumption.
Qed.

Lemma arun_blk room G co ci fuel k os : forall s,
  Forall (fun w => (k <= v_blk w)%nat) (s_vars s) -> (k <= a_blk (s_buf s))%nat ->
  let '(_, _, s') := arun room G co ci fuel os s in
  Forall (fun w => (k <= v_blk w)%nat) (s_vars s') /\ (a_blk (s_buf s) <= a_blk (s_buf s'))%nat.
Proof.
  induction os as [|o os IH]; intros s HV HK; cbn [arun]; [auto|].
  destruct o as [l|l|i].
  - pose proof (aout_call_blk room G co (s_vars s) l (s_buf s)) as H.
    destruct (aout_call room G co (s_vars s) l (s_buf s)) as [r a']. cbn in H.
    destruct r; try (cbn; auto; fail).
    specialize (IH (mkS a' (s_in s) (s_vars s)) HV ltac:(cbn; lia)). cbn [s_buf] in IH.
    destruct (arun room G co ci fuel os _) as [[r seen] s']. destruct IH as [I1 I2]. split; [exact I1|lia].
  - pose proof (rd_items_blk G ci fuel (a_blk (s_buf s)) (obuf (a_st (s_buf s))) l (s_in s)) as H.
    destruct (rd_items G ci fuel (a_blk (s_buf s)) (obuf (a_st (s_buf s))) l (s_in s)) as [[[r vs] ws] pos].
    destruct r; try (cbn; auto; fail).
    specialize (IH (mkS (s_buf s) pos (s_vars s ++ ws))). cbn [s_buf s_vars] in IH.
    destruct (arun room G co ci fuel os _) as [[r seen] s']. apply IH; [|exact HK].
    apply Forall_app. split; [exact HV|]. eapply Forall_impl; [|exact H]. cbn. intros w ->. exact HK.
  - destruct (nth_error (s_vars s) i) as [w|]; [|cbn; auto]. destruct (deref w (s_buf s)); [|cbn; auto].
    specialize (IH s HV HK). destruct (arun room G co ci fuel os s) as [[r seen] s']. exact IH.
Qed.

(** If the vector is where it was when the program ends, views were as good as copies. *)
Theorem views_unmoved room G co ci fuel os s q :
  (forall cap n, (n <= room cap n)%nat) -> fitted co ->
  ready s q -> proper G co ci fuel os q -> Forall (fun w => v_blk w = a_blk (s_buf s)) (s_vars s) ->
  let '(r, seen, s') := arun room G co ci fuel os s in
  let '(rc, seenc, q') := crun G co ci fuel os q in
  a_blk (s_buf s') = a_blk (s_buf s) -> r = rc /\ seen = seenc /\ same_archives s' q'.
Proof.
  intros Hroom HF HR HP HB. pose proof (views_like_copies room Hroom G co ci fuel HF os s q HR HP) as T.
  assert (HV : Forall (fun w => (a_blk (s_buf s) <= v_blk w)%nat) (s_vars s))
    by (eapply Forall_impl; [|exact HB]; cbn; lia).
  pose proof (arun_blk room G co ci fuel _ os s HV (le_n _)) as B.
  destruct (arun room G co ci fuel os s) as [[r seen] s'].
  destruct (crun G co ci fuel os q) as [[rc seenc] q']. intro E. destruct B as [B1 B2].
  destruct T as [T|(_ & (w & Hw & T) & _)]; [exact T|exfalso].
  rewrite Forall_forall in B1. specialize (B1 w Hw). cbn in B1. lia.
Qed.

(** Reading and looking never moves the vector: until the next write every view is good. *)
Definition writes_not (o : aop) : bool := match o with AWrite _ => false | _ => true end.

Lemma reads_stay room G co ci fuel os : forall s,
  forallb writes_not os = true -> a_blk (s_buf (snd (arun room G co ci fuel os s))) = a_blk (s_buf s).
Proof.
  induction os as [|o os IH]; intros s H; cbn [arun]; [reflexivity|].
  cbn [forallb] in H. apply andb_true_iff in H as [H1 H2].
  destruct o as [l|l|i]; [discriminate| |].
  - destruct (rd_items G ci fuel (a_blk (s_buf s)) (obuf (a_st (s_buf s))) l (s_in s)) as [[[r vs] ws] pos].
    destruct r; try reflexivity. specialize (IH (mkS (s_buf s) pos (s_vars s ++ ws)) H2).
    destruct (arun room G co ci fuel os _) as [[r seen] s']. exact IH.
  - destruct (nth_error (s_vars s) i) as [w|]; [|reflexivity]. destruct (deref w (s_buf s)); [|reflexivity].
    specialize (IH s H2). destruct (arun room G co ci fuel os s) as [[r seen] s']. exact IH.
Qed.

Theorem views_until_write room G co ci fuel os s q :
  (forall cap n, (n <= room cap n)%nat) -> fitted co ->
  ready s q -> proper G co ci fuel os q -> Forall (fun w => v_blk w = a_blk (s_buf s)) (s_vars s) ->
  forallb writes_not os = true ->
  let '(r, seen, s') := arun room G co ci fuel os s in
  let '(rc, seenc, q') := crun G co ci fuel os q in
  r = rc /\ seen = seenc /\ same_archives s' q'.
Proof.
  intros Hroom HF HR HP HB HN. pose proof (views_unmoved room G co ci fuel os s q Hroom HF HR HP HB) as T.
  pose proof (reads_stay room G co ci fuel os s HN) as B.
  destruct (arun room G co ci fuel os s) as [[r seen] s'].
  destruct (crun G co ci fuel os q) as [[rc seenc] q']. auto.
Qed.

(** ** Refutations *)

(** What the usual standard libraries allocate: twice the capacity, or what is needed. *)
Definition doubling (cap n : nat) : nat := Nat.max (2 * cap) n.

Definition bs (l : list N) : list byte := map n2b l.

(** A server echoes a view from its request into the vector of data_in_out: undefined
    behaviour, where a copy is echoed. *)
Definition request : list aop :=
  [ AWrite [WOwn (VN 7) (TScalar 2 false); WOwn (VBytes (bs [104; 105])) (TView (VwSized None))];
    ARead [ROwn (TScalar 2 false) (VN 0); RView None];
    AUse 0 ].
Definition echo : list aop := request ++ [AWrite [WOwn (VN 8) (TScalar 2 false); WView None 0]].

Theorem view_echo_refuted :
  (exists s', arun doubling node_env vec_cfg vec_cfg 0 echo fresh
     = (RUB, [VN 7; VBytes (bs [104; 105])], s') /\ left_behind s')
  /\ (exists q', crun node_env vec_cfg vec_cfg 0 echo (mkC data_in_out [])
        = (ROk, [VN 7; VBytes (bs [104; 105])], q')
      /\ p_data (c_pipe q') = bs [7; 0; 2; 0; 0; 0; 104; 105; 8; 0; 2; 0; 0; 0; 104; 105]).
Proof.
  split; eexists; (split; [vm_compute; reflexivity|]).
  - eexists. split; [left; reflexivity|]. vm_compute. lia.
  - reflexivity.
Qed.

(** Without fitting, the vector has spare bytes behind what was written; an unsized view read
    shows them too, and what it shows changes when they are written. *)
Definition spare_cfg : cfg := 
  mkCfg true false (SzFix 4) None 3 2 false true true (fun _ => true) (fun _ => 8).

Definition spare : list aop :=
  [ AWrite [WOwn (VN 7) (TScalar 2 false)]; ARead [RView (Some SzNone)]; AUse 0;
    AWrite [WOwn (VN 9) (TScalar 1 false)]; AUse 0 ].

Theorem view_spare_refuted :
  let s := mkS (mkA 0 64 (mkO [] 0)) 0 [] in
  (exists s' a b, arun doubling node_env spare_cfg spare_cfg 0 spare s = (ROk, [a; b], s') /\ a <> b
                  /\ a_blk (s_buf s') = 0%nat)
  /\ (exists q' a, crun node_env spare_cfg spare_cfg 0 spare (mkC data_in_out []) = (ROk, [a; a], q')).
Proof.
  split.
  - do 3 eexists. split; [vm_compute; reflexivity|]. split; [discriminate|reflexivity].
  - do 2 eexists. vm_compute; reflexivity.
Qed.

(** After the position of the output is set back, a view may overlap the bytes it is copied to. *)
Theorem view_overlap_refuted :
  let s := mkS (mkA 0 64 (mkO (bs [1; 0; 0; 0; 65; 66; 67; 68]) 0)) 8 [mkV 0 4 4] in
  let q := mkC (mkPipe (bs [1; 0; 0; 0; 65; 66; 67; 68]) 8 0) [bs [65; 66; 67; 68]] in
  let os := [AWrite [WOwn (VN 5) (TScalar 1 false); WView (Some SzNone) 0]] in
  (exists s', arun doubling node_env vec_cfg vec_cfg 0 os s = (RUB, [], s') /\ a_blk (s_buf s') = 0%nat)
  /\ (exists q', crun node_env vec_cfg vec_cfg 0 os q = (ROk, [], q')).
Proof. split; eexists; [split|]; vm_compute; reflexivity. Qed.

(** ** Writing one view, exactly *)

(** Memory positions that are in both of two stretches of [n] bytes. *)
Definition overlapping (a b n : nat) : Prop := exists k, (a <= k < a + n)%nat /\ (b <= k < b + n)%nat.

(** With room at the position, writing the bytes of a view (no size in front) is copying them
    if the vector still has them and none is at a place that is written to; otherwise it is
    undefined behaviour. *)
Theorem view_write_exact room G c vars j w a :
  nth_error vars j = Some w -> (0 < v_len w)%nat ->
  (opos (a_st a) + v_len w <= length (obuf (a_st a)))%nat ->
  (length (obuf (a_st a)) <= a_cap a)%nat -> N.of_nat (length (obuf (a_st a))) < 2 ^ 63 ->
  let good := v_blk w = a_blk a /\ (v_off w + v_len w <= length (obuf (a_st a)))%nat
              /\ ~ overlapping (v_off w) (opos (a_st a)) (v_len w) in
  let '(r, a') := wr_item room G c vars (WView (Some SzNone) j) a in
  (good ->
     r = ROk /\ a_blk a' = a_blk a
     /\ a_st a' = mkO (firstn (opos (a_st a)) (obuf (a_st a))
                       ++ firstn (v_len w) (skipn (v_off w) (obuf (a_st a)))
                       ++ skipn (opos (a_st a) + v_len w) (obuf (a_st a)))
                      (opos (a_st a) + v_len w))
  /\ (~ good -> r = RUB).
Proof.
  intros Hj Hl Hfit Hcap H63. cbv zeta. cbn [wr_item]. rewrite Hj. cbn [sz_of ser_size].
  assert (E0 : settle room a (a_st a) = a).
  { unfold settle. destruct (Nat.leb_spec (length (obuf (a_st a))) (a_cap a)); [now destruct a|lia]. }
  assert (ER : reserve c (N.of_nat (v_len w)) (a_st a) = (ROk, a_st a)).
  { unfold reserve, enlarge_for. rewrite two63_val in H63.
    rewrite wsub_small by (rewrite ?two64_val; lia).
    destruct (N.ltb_spec (N.of_nat (length (obuf (a_st a))) - N.of_nat (opos (a_st a))) (N.of_nat (v_len w)));
      [lia|]. now destruct (growable c). }
  unfold aseq at 1. unfold on at 1. unfold ret. cbn [fst snd]. rewrite E0.
  unfold put_view. destruct (Nat.eqb_spec (v_len w) 0); [lia|].
  unfold aseq, on at 1. rewrite ER, E0. unfold copy_view, deref.
  destruct (Nat.eqb_spec (v_len w) 0); [lia|].
  destruct (Nat.eqb_spec (v_blk w) (a_blk a)) as [Eb|Eb];
    [|cbn [andb]; split; [intros [? _]; lia|reflexivity]].
  destruct (Nat.leb_spec (v_off w + v_len w) (length (obuf (a_st a)))) as [El|El];
    [|cbn [andb]; split; [intros (_ & ? & _); lia|reflexivity]].
  cbn [andb].
  assert (EO : overlapping (v_off w) (opos (a_st a)) (v_len w)
               <-> ~ ((v_off w + v_len w <= opos (a_st a))%nat \/ (opos (a_st a) + v_len w <= v_off w)%nat)).
  { split.
    - intros (k & H1 & H2). lia.
    - intro H. exists (Nat.max (v_off w) (opos (a_st a))). lia. }
  assert (Lw : length (window (obuf (a_st a)) (v_off w) (v_len w)) = v_len w)
    by (unfold window; rewrite firstn_length, skipn_length; lia).
  assert (ES : on room (store (window (obuf (a_st a)) (v_off w) (v_len w))) a
               = (ROk, mkA (a_blk a) (a_cap a)
                    (mkO (firstn (opos (a_st a)) (obuf (a_st a))
                          ++ firstn (v_len w) (skipn (v_off w) (obuf (a_st a)))
                          ++ skipn (opos (a_st a) + v_len w) (obuf (a_st a)))
                         (opos (a_st a) + v_len w)))).
  { unfold on. rewrite store_ok by (rewrite Lw; lia). unfold settle. cbn [obuf].
    rewrite overwrite_length by (rewrite Lw; lia).
    destruct (Nat.leb_spec (length (obuf (a_st a))) (a_cap a)); [|lia].
    unfold overwrite. rewrite Lw. reflexivity. }
  destruct (Nat.leb_spec (v_off w + v_len w) (opos (a_st a))) as [E1|E1];
    destruct (Nat.leb_spec (opos (a_st a) + v_len w) (v_off w)) as [E2|E2]; cbn [orb]; rewrite ?ES;
    try (split; [intros (_ & _ & H); exfalso; apply H, EO; lia|reflexivity]);
    (split; [intros _; repeat split|
             intro H; exfalso; apply H; split; [exact Eb|]; split; [exact El|rewrite EO; lia]]).
Qed.

(** The view ends where the bytes go and the other way around; one byte of overlap; a view of
    an earlier block. *)
Example view_write_nontrivial :
  let a o := mkA 3 8 (mkO (bs [1; 2; 3; 4; 5; 6]) o) in
  let wr w o := wr_item doubling node_env vec_cfg [w] (WView (Some SzNone) 0) (a o) in
  wr (mkV 3 0 2) 2%nat = (ROk, mkA 3 8 (mkO (bs [1; 2; 1; 2; 5; 6]) 4))
  /\ wr (mkV 3 4 2) 2%nat = (ROk, mkA 3 8 (mkO (bs [1; 2; 5; 6; 5; 6]) 4))
  /\ fst (wr (mkV 3 3 2) 2%nat) = RUB /\ fst (wr (mkV 3 1 2) 2%nat) = RUB
  /\ fst (wr (mkV 2 0 2) 2%nat) = RUB.
Proof. repeat split; vm_compute; reflexivity. Qed.

(** ** Non-vacuity *)

Lemma demo_fitted : fitted vec_cfg.
Proof. split; reflexivity. Qed.

Lemma fresh_ready cap : ready (mkS (mkA 0 cap (mkO [] 0)) 0 []) (mkC data_in_out []).
Proof. split; cbn; try reflexivity; try lia; constructor. Qed.

Lemma doubling_room cap n : (n <= doubling cap n)%nat.
Proof. unfold doubling. lia. Qed.

Lemma echo_proper : proper node_env vec_cfg vec_cfg 0 echo (mkC data_in_out []).
Proof.
  assert (W : forall v t, wt node_env v t = true -> wf node_env t = true -> plain t = true ->
            N.of_nat (length (encode node_env (fmt_of vec_cfg) v t)) < 2 ^ 63 ->
            writing node_env vec_cfg v t).
  { intros v t H1 H2 H3 H4. split; auto; try reflexivity.
    - intros _. split; [reflexivity|]. split; [discriminate|reflexivity].
    - apply demo_wf_env.
    - intros [|k]; reflexivity. }
  assert (R : forall data t, small data -> wf node_env t = true -> tallP (cmp_ok node_env) t ->
            reading node_env vec_cfg data t).
  { intros data t H1 H2 H3. split; auto; try apply demo_wf_env; try apply demo_cmp_env; reflexivity. }
  unfold echo, request. cbn [app proper].
  split; [reflexivity|]. split; [repeat (apply Forall_cons; [apply W; vm_compute; reflexivity|]); apply Forall_nil|].
  split; [apply W; vm_compute; reflexivity|]. intros p' E. vm_compute in E. injection E as <-.
  split.
  { repeat (apply Forall_cons; [split; [apply R; [vm_compute; reflexivity|reflexivity|repeat constructor]|reflexivity]|]).
    apply Forall_nil. }
  intros vs p' E. vm_compute in E. injection E as <- <-. split; [cbn; lia|].
  split; [reflexivity|]. split; [repeat (apply Forall_cons; [apply W; vm_compute; reflexivity|]); apply Forall_nil|].
  split; [apply W; vm_compute; reflexivity|]. intros p' E. exact I.
Qed.

Example views_nontrivial :
  let s := mkS (mkA 0 100 (mkO [] 0)) 0 [] in
  fitted vec_cfg /\ ready s (mkC data_in_out []) /\ proper node_env vec_cfg vec_cfg 0 echo (mkC data_in_out [])
  /\ emul vec_cfg * (2 * (N.of_nat (p_out (c_pipe (snd (crun node_env vec_cfg vec_cfg 0 echo (mkC data_in_out []))))) + 10))
     <= ediv vec_cfg * N.of_nat (a_cap (s_buf s))
  /\ exists s', arun doubling node_env vec_cfg vec_cfg 0 echo s = (ROk, [VN 7; VBytes (bs [104; 105])], s')
     /\ obuf (a_st (s_buf s')) = bs [7; 0; 2; 0; 0; 0; 104; 105; 8; 0; 2; 0; 0; 0; 104; 105].
Proof.
  cbv zeta. split; [apply demo_fitted|]. split; [apply fresh_ready|]. split; [apply echo_proper|].
  split; [vm_compute; discriminate|]. eexists. split; vm_compute; reflexivity.
Qed.

(** The request part of the program on a vector that did not move since. *)
Example views_until_write_nontrivial :
  exists s q, ready s q /\ Forall (fun w => v_blk w = a_blk (s_buf s)) (s_vars s)
    /\ s_vars s <> [] /\ proper node_env vec_cfg vec_cfg 0 [AUse 0; ARead [RView (Some SzNone)]; AUse 1] q
    /\ arun doubling node_env vec_cfg vec_cfg 0 [AUse 0; ARead [RView (Some SzNone)]; AUse 1] s
       = (ROk, [VBytes (bs [104; 105]); VBytes (bs [1])], mkS (s_buf s) 7 (s_vars s ++ [mkV 3 6 1])).
Proof.
  exists (mkS (mkA 3 8 (mkO (bs [2; 0; 0; 0; 104; 105; 1]) 7)) 6 [mkV 3 4 2]),
    (mkC (mkPipe (bs [2; 0; 0; 0; 104; 105; 1]) 6 7) [bs [104; 105]]).
  split.
  { split; cbn [s_buf s_in s_vars a_st a_cap a_blk c_pipe c_vars p_data p_in p_out]; try reflexivity;
      try (cbn; lia); repeat constructor; cbn; lia. }
  split; [repeat constructor|]. split; [discriminate|]. split; [|vm_compute; reflexivity].
  cbn [proper]. split; [cbn; lia|]. split.
  { repeat constructor; try apply demo_wf_env; try apply demo_cmp_env; try (vm_compute; reflexivity). }
  intros vs p' E. vm_compute in E. injection E as <- <-. split; [cbn; lia|exact I].
Qed.

Print Assumptions views_like_copies.
Print Assumptions views_survive_reserved.
Print Assumptions views_unmoved.
Print Assumptions views_until_write.
Print Assumptions view_write_exact.
Print Assumptions view_echo_refuted.
Print Assumptions view_spare_refuted.
Print Assumptions view_overlap_refuted.
