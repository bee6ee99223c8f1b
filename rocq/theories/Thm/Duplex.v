(** C57: an input and an output archive over one vector are a queue of values. *)

From Coq Require Import List NArith ZArith Lia Bool Arith.
From Coq Require Import ZifyBool ZifyNat ZifyN.
From Verif Require Import Base.Bytes Model.Types Model.Machine Model.Varint Model.Out Model.In
  Model.Duplex Spec.Leb128 Spec.Wire Spec.Fifo Proofs.VarintP Proofs.OutP Proofs.InBase Proofs.InSafe
  Proofs.InLocal Proofs.InRound Thm.Demo Thm.Output Thm.Input.
Import ListNotations.
Local Open Scope N_scope.

(** ** Statement *)

(** A value the reader can take: its type delimits itself, it respects the limits of the reader
    and is not deeper than the reader's stack. *)
Record takeable (G : tenv) (c : cfg) (fuel : nat) (i : val * ty) : Prop := {
  k_wf : wf G (snd i) = true;
  k_plain : plain (snd i) = true;
  k_rt : tall (rt_ok c) (snd i) = true;
  k_wt : wt G (fst i) (snd i) = true;
  k_writable : writable G (fmt_of c) (fst i) (snd i) = true;
  k_readable : readable G c (fst i) (snd i) = true;
  k_height : (height (fst i) <= fuel)%nat
}.

(** What a program may do: write takeable values; read into targets of the type read. *)
Definition good_op (G : tenv) (co ci : cfg) (fuel : nat) (o : pop) : Prop :=
  match o with
  | PWrite vs ts => writing G co (VSeq vs) (TTuple ts) /\ Forall (takeable G ci fuel) (combine vs ts)
  | PRead ts targets => wt G (VSeq targets) (TTuple ts) = true
  end.

(** The archives: a growable buffer fitted to its contents, both sides using the same byte order
    and size type. *)
Record duplex (G : tenv) (co ci : cfg) : Prop := {
  x_env : wf_env G;
  x_plain : tall_env elem_ok G;
  x_rt : tall_env (rt_ok ci) G;
  x_size : szok ci = true;
  x_dsize : dsize ci = dsize co;
  x_order : xorb (host_le ci) (swap ci) = xorb (host_le co) (swap co);
  x_grow : growable co = true;
  x_fit : nofit co = false;
  x_enl : exact_enlarger co = false
}.

(** The trace of a program whose reads gave [outs]. *)
Fixpoint events (os : list pop) (outs : list (list val)) : list event :=
  match os with
  | [] => []
  | PWrite vs ts :: os' => Wrote (combine vs ts) :: events os' outs
  | PRead ts _ :: os' =>
      match outs with
      | vs :: outs' => Took (combine vs ts) :: events os' outs'
      | [] => []
      end
  end.

(** One list of values per read, one value per item. *)
Fixpoint shaped (os : list pop) (outs : list (list val)) : Prop :=
  match os with
  | [] => outs = []
  | PWrite _ _ :: os' => shaped os' outs
  | PRead ts _ :: os' =>
      match outs with
      | vs :: outs' => length vs = length ts /\ shaped os' outs'
      | [] => False
      end
  end.

(** The bytes waiting to be read are the encodings of the queue, and nothing follows them. *)
Definition holds (G : tenv) (o : wfmt) (p : pipe) (q : list (val * ty)) : Prop :=
  (p_in p <= length (p_data p))%nat /\ p_out p = length (p_data p)
  /\ N.of_nat (length (p_data p)) < 2 ^ 63
  /\ skipn (p_in p) (p_data p) = concat (map (fun i => encode G o (fst i) (snd i)) q).

(** The bytes a program writes. *)
Fixpoint written (G : tenv) (o : wfmt) (os : list pop) : nat :=
  match os with
  | [] => 0
  | PWrite vs ts :: os' => length (encode G o (VSeq vs) (TTuple ts)) + written G o os'
  | PRead _ _ :: os' => written G o os'
  end.

(** Enough memory for a buffer of [n] bytes, with what the enlarger adds. *)
Definition memory_for (c : cfg) (n : nat) : Prop :=
  let bound := emul c * (2 * (N.of_nat n + 10)) in
  bound < 2 ^ 64 /\ (forall m, m <= bound / ediv c -> m < 2 ^ 63 /\ alloc_ok c m = true)
  /\ match alim c with None => True | Some l => bound / ediv c <= l end.

(** ** Proofs *)

Lemma memory_for_le c n m : wf_out c -> growable c = true -> (n <= m)%nat -> memory_for c m -> memory_for c n.
Proof.
  intros Hwf Hg Hnm (H1 & H2 & H3). destruct (Hwf Hg) as (Hd & _ & _).
  assert (A : emul c * (2 * (N.of_nat n + 10)) <= emul c * (2 * (N.of_nat m + 10)))
    by (apply N.mul_le_mono_l; lia).
  assert (B : emul c * (2 * (N.of_nat n + 10)) / ediv c <= emul c * (2 * (N.of_nat m + 10)) / ediv c)
    by (apply N.div_le_mono; lia).
  split; [lia|]. split; [intros k Hk; apply H2; lia|]. destruct (alim c); [lia|exact I].
Qed.

Lemma combine_fst {A B} (l : list A) (m : list B) : length l = length m -> map fst (combine l m) = l.
Proof.
  revert m; induction l as [|x l IH]; intros [|y m] H; try discriminate; [reflexivity|].
  cbn. f_equal. apply IH. now injection H.
Qed.

Lemma combine_snd {A B} (l : list A) (m : list B) : length l = length m -> map snd (combine l m) = m.
Proof.
  revert m; induction l as [|x l IH]; intros [|y m] H; try discriminate; [reflexivity|].
  cbn. f_equal. apply IH. now injection H.
Qed.

Lemma read_items G co ci fuel data items : duplex G co ci -> small data -> Forall (takeable G ci fuel) items ->
  forall targets pos,
  forall2b (fun x m => wt G x m) targets (map snd items) = true ->
  has_at data pos (concat (map (fun i => encode G (fmt_of ci) (fst i) (snd i)) items)) ->
  in_call G ci data fuel (map snd items) targets pos
  = (ROk, map fst items, (pos + length (concat (map (fun i => encode G (fmt_of ci) (fst i) (snd i)) items)))%nat).
Proof.
  intros HX Hsm. induction 1 as [|i items Hi _ IH]; intros targets pos Hw Hat.
  - cbn. now rewrite Nat.add_0_r.
  - destruct targets as [|x targets]; [discriminate|].
    cbn [map forall2b] in Hw. apply andb_true_iff in Hw as [Hw1 Hw2].
    cbn [map concat] in *. apply has_at_app in Hat as [H1 H2].
    unfold in_call in *. cbn [des_many].
    destruct Hi as [K1 K2 K3 K4 K5 K6 K7].
    rewrite (des_round G ci data (x_env _ _ _ HX) (x_size _ _ _ HX) Hsm (x_plain _ _ _ HX) (x_rt _ _ _ HX)
               (fst i) (snd i) fuel x pos); auto.
    cbn [tl]. rewrite IH by auto. rewrite app_length, Nat.add_assoc. reflexivity.
Qed.

Lemma pipe_write_spec G co ci fuel vs ts p q :
  duplex G co ci -> good_op G co ci fuel (PWrite vs ts) -> holds G (fmt_of co) p q ->
  let '(r, p') := pipe_write G co vs ts p in
  ((r = ROk /\ holds G (fmt_of co) p' (q ++ combine vs ts)
    /\ p_out p' = (p_out p + length (encode G (fmt_of co) (VSeq vs) (TTuple ts)))%nat)
   \/ r = RErr no_buffer_space \/ r = RThrow)
  /\ (memory_for co (p_out p + length (encode G (fmt_of co) (VSeq vs) (TTuple ts))) -> r = ROk).
Proof.
  intros HX [HW HT] (Hin & Hout & H63 & Hq).
  unfold pipe_write. set (st := mkO (p_data p) (p_out p)).
  assert (Hok : ost_ok st) by (split; cbn; [lia|exact H63]).
  assert (Hend : opos st = length (obuf st)) by exact Hout.
  assert (Hb : bits_ok G (TTuple ts) st).
  { left. unfold clean. rewrite Hend, skipn_all, Nat.sub_diag. reflexivity. }
  assert (Hlen : length vs = length ts).
  { pose proof (w_wt _ _ _ _ HW) as E. cbn [wt] in E. now apply forall2b_length in E. }
  assert (Hf : fmt_of co = fmt_of ci)
    by (unfold fmt_of; now rewrite (x_dsize _ _ _ HX), (x_order _ _ _ HX)).
  assert (Hwr : writable G (fmt_of co) (VSeq vs) (TTuple ts) = true).
  { unfold writable. cbn [enc]. clear -HT Hlen Hf. revert ts HT Hlen.
    induction vs as [|v vs IH]; intros [|t ts] HT Hlen; try discriminate; [reflexivity|].
    cbn [combine enc_many] in *. inversion HT as [|? ? H1 H2]; subst.
    pose proof (k_writable _ _ _ _ H1) as E. unfold writable in E. cbn [fst snd] in E. rewrite <- Hf in E.
    unfold pseq. rewrite E. cbn [snd]. apply IH; auto. }
  destruct (out_call G co vs ts st) as [r st'] eqn:E.
  destruct (out_call_keeps_written _ _ _ _ _ _ _ HW Hb Hok E) as (st1 & E1 & P1 & Q1 & L1).
  assert (E2 : ser G co (VSeq vs) (TTuple ts) st = (r, st1)) by exact E1.
  pose proof (out_growable_outcomes G co (VSeq vs) (TTuple ts) st HW Hb Hok (x_grow _ _ _ HX) Hwr) as [Hr Hm].
  rewrite E2 in Hr, Hm. cbn [fst] in Hr, Hm.
  split; [|intros (M1 & M2 & M3); now apply Hm].
  destruct Hr as [-> | Hr]; [|now right]. left. split; [reflexivity|].
  pose proof (out_call_fits _ _ _ _ _ _ _ HW Hb Hok (x_grow _ _ _ HX) (x_fit _ _ _ HX) (x_enl _ _ _ HX)
                Hend E ltac:(discriminate)) as Hfit.
  destruct (out_wire_format _ _ _ _ _ _ HW Hb Hok E2) as (_ & P2 & W2).
  destruct (out_frame _ _ _ _ _ _ _ HW Hb Hok E2) as (_ & F2 & _ & F3 & _).
  pose proof (writing_emits _ _ _ _ _ HW Hb Hok) as HO. rewrite E2 in HO. destruct HO as [HO _].
  pose proof (outcome_ok_state _ _ _ _ _ Hok HO) as [_ HL1].
  set (e := encode G (fmt_of co) (VSeq vs) (TTuple ts)) in *.
  assert (D : obuf st' = p_data p ++ e).
  { assert (A : obuf st' = firstn (opos st1) (obuf st1)).
    { rewrite <- Q1, <- P1, <- Hfit. now rewrite firstn_all. }
    rewrite A, P2. rewrite <- (firstn_skipn (opos st) (firstn (opos st + length e) (obuf st1))).
    rewrite firstn_firstn, Nat.min_l by lia. rewrite F3, Hend. f_equal.
    - rewrite firstn_all. reflexivity.
    - rewrite <- W2 at 2. unfold window. rewrite Hend, firstn_skipn_comm. reflexivity. }
  split; [|cbn [p_out]; now rewrite P1, P2].
  unfold holds. cbn [p_data p_in p_out]. rewrite <- Hfit.
  split; [rewrite D, app_length; lia|]. split; [reflexivity|].
  split.
  { rewrite Hfit, P1. destruct HO as (e1 & e2 & k & _ & HH & HH2 & _). lia. }
  rewrite D, skipn_app, Hq. replace (p_in p - length (p_data p))%nat with 0%nat by lia.
  rewrite skipn_O, map_app, concat_app. f_equal.
  unfold e. apply encode_members_concat; [exact Hwr|exact Hlen].
Qed.

(** C57: for every program and every run of the abstract queue that fits it, the archives
    deliver the values of that run, in that order - unless memory runs out, and then what was
    delivered before is still right. *)
Theorem duplex_fifo G co ci fuel os outs p q q' :
  duplex G co ci -> Forall (good_op G co ci fuel) os -> shaped os outs ->
  Forall (takeable G ci fuel) q ->
  holds G (fmt_of co) p q -> fifo q (events os outs) q' ->
  let '(r, outs', p') := pipe_run G co ci fuel os p in
  ((r = ROk /\ outs' = outs /\ holds G (fmt_of co) p' q')
   \/ ((r = RErr no_buffer_space \/ r = RThrow) /\ exists rest, outs = outs' ++ rest))
  /\ (memory_for co (p_out p + written G (fmt_of co) os) -> r = ROk).
Proof.
  intros HX HO. revert outs p q. induction HO as [|o os Ho _ IH]; intros outs p q Hsh Hq Hh HF.
  - cbn in *. subst outs. inversion HF; subst. auto.
  - destruct o as [vs ts|ts targets]; cbn [pipe_run events shaped written] in *.
    + pose proof (pipe_write_spec G co ci fuel vs ts p q HX Ho Hh) as HW.
      destruct (pipe_write G co vs ts p) as [r p1].
      assert (HM : memory_for co (p_out p + (length (encode G (fmt_of co) (VSeq vs) (TTuple ts)) + written G (fmt_of co) os)) ->
              memory_for co (p_out p + length (encode G (fmt_of co) (VSeq vs) (TTuple ts)))).
      { apply memory_for_le; [apply (w_cfg _ _ _ _ (proj1 Ho))|apply (x_grow _ _ _ HX)|lia]. }
      destruct HW as [HW1 HW2].
      destruct HW1 as [(-> & Hh1 & Hp1)|Hr].
      * inversion HF; subst.
        specialize (IH outs p1 (q ++ combine vs ts) Hsh).
        rewrite Hp1, <- Nat.add_assoc in IH. apply IH; auto.
        apply Forall_app. split; [exact Hq|]. apply Ho.
      * destruct Hr as [-> | ->]; (split; [right; split; [auto|]; exists outs; reflexivity|auto]).
    + destruct outs as [|vs outs]; [contradiction|]. destruct Hsh as [Hlen Hsh].
      inversion HF as [| |q0 items tr q'' HF' E1 E2 E3]; subst.
      apply Forall_app in Hq as [Hq1 Hq2].
      destruct Hh as (Hin & Hout & H63 & Hsk).
      assert (Hf : fmt_of co = fmt_of ci)
        by (unfold fmt_of; now rewrite (x_dsize _ _ _ HX), (x_order _ _ _ HX)).
      rewrite Hf in Hsk. rewrite map_app, concat_app in Hsk.
      set (e := concat (map (fun i => encode G (fmt_of ci) (fst i) (snd i)) (combine vs ts))) in *.
      assert (Hsm : small (p_data p)) by (unfold small; rewrite two63_val in *; change (2 ^ 64) with 18446744073709551616; lia).
      assert (Hat : has_at (p_data p) (p_in p) e).
      { assert (HL : (p_in p + length e <= length (p_data p))%nat).
        { assert (L : length (skipn (p_in p) (p_data p)) = (length (p_data p) - p_in p)%nat) by apply skipn_length.
          rewrite Hsk, app_length in L. lia. }
        split; [exact HL|]. unfold window. rewrite Hsk, firstn_app, Nat.sub_diag, firstn_all, firstn_O.
        apply app_nil_r. }
      unfold pipe_read.
      pose proof (read_items G co ci fuel (p_data p) (combine vs ts) HX Hsm Hq1 targets (p_in p)) as HR.
      rewrite combine_snd, combine_fst in HR by exact Hlen. cbn [good_op wt] in Ho.
      rewrite HR by (auto; exact Hat). fold e.
      specialize (IH outs (mkPipe (p_data p) (p_in p + length e) (p_out p)) q0 Hsh Hq2).
      destruct Hat as [HL _].
      assert (Hh' : holds G (fmt_of co) (mkPipe (p_data p) (p_in p + length e) (p_out p)) q0).
      { split; [exact HL|]. split; [exact Hout|]. split; [exact H63|]. cbn [p_in p_data].
        rewrite <- skipn_skipn, Hsk, skipn_app, skipn_all, Nat.sub_diag, Hf. reflexivity. }
      specialize (IH Hh' HF'). cbn [p_out] in IH.
      destruct (pipe_run G co ci fuel os (mkPipe (p_data p) (p_in p + length e) (p_out p))) as [[r outs'] p'].
      destruct IH as [IH1 IH2]. split; [|exact IH2].
      destruct IH1 as [(-> & -> & IH)|[Hr (rest & ->)]]; [left; auto|right]. split; [exact Hr|].
      exists rest. reflexivity.
Qed.

(** data_in_out starts as the empty queue. *)
Theorem data_in_out_empty G o : holds G o data_in_out [].
Proof. repeat split; cbn; lia. Qed.

(** Reading too early: if only a proper prefix [e1] of the encoding of the items has arrived,
    the read fails with result_out_of_range; if nothing has arrived the archives are unchanged. *)
Theorem duplex_early_read G co ci fuel items e1 e2 targets p :
  duplex G co ci -> Forall (takeable G ci fuel) items ->
  tallP_env (cmp_ok G) G -> tallP (cmp_ok G) (TTuple (map snd items)) ->
  (p_in p <= length (p_data p))%nat ->
  skipn (p_in p) (p_data p) = e1 ->
  concat (map (fun i => encode G (fmt_of ci) (fst i) (snd i)) items) = e1 ++ e2 -> e2 <> [] ->
  N.of_nat (length (p_data p ++ e2)) < 2 ^ 64 ->
  wt G (VSeq targets) (TTuple (map snd items)) = true ->
  let '(r, _, p') := pipe_read G ci fuel (map snd items) targets p in
  r = RErr result_out_of_range /\ (e1 = [] -> p' = p).
Proof.
  intros HX HT HcE Hc Hin Hsk He He2 H64 Hw.
  set (data := p_data p ++ e2).
  assert (Hfull : has_at data (p_in p) (e1 ++ e2)).
  { unfold data. rewrite <- (firstn_skipn (p_in p) (p_data p)), Hsk, <- app_assoc.
    assert (L : length (firstn (p_in p) (p_data p)) = p_in p) by (rewrite firstn_length; lia).
    rewrite <- L at 2. rewrite <- (app_nil_r (e1 ++ e2)) at 1. apply has_at_intro. }
  assert (Hsm : small data) by exact H64.
  pose proof (read_items G co ci fuel data items HX Hsm HT targets (p_in p)) as HR.
  rewrite He in HR. cbn [wt] in Hw. specialize (HR Hw Hfull).
  set (ts := map snd items) in *.
  assert (Hwf : wf G (TTuple ts) = true).
  { cbn [wf]. apply forallb_forall. intros t Ht. unfold ts in Ht. apply in_map_iff in Ht as (i & <- & Hi).
    rewrite Forall_forall in HT. apply (k_wf _ _ _ _ (HT i Hi)). }
  assert (Hrt : forallb (tall (rt_ok ci)) ts = true).
  { apply forallb_forall. intros t Ht. unfold ts in Ht. apply in_map_iff in Ht as (i & <- & Hi).
    rewrite Forall_forall in HT. apply (k_rt _ _ _ _ (HT i Hi)). }
  assert (Himp : forall t, rt_ok ci t = true -> delimited ci t = true).
  { intros t H. unfold rt_ok in H. rewrite !andb_true_iff in H. tauto. }
  assert (Hdl : tall (delimited ci) (TTuple ts) = true).
  { cbn [tall delimited andb]. rewrite forallb_forall in *. intros t Ht.
    eapply tall_sub; [exact Himp|]. now apply Hrt. }
  assert (HdlG : tall_env (delimited ci) G).
  { intro k. pose proof (x_rt _ _ _ HX k) as H. rewrite forallb_forall in *. intros t Ht.
    eapply tall_sub; [exact Himp|]. now apply H. }
  assert (HRd : reading G ci data (TTuple ts)).
  { split; auto; [apply (x_env _ _ _ HX)|apply (x_size _ _ _ HX)]. }
  assert (Ed : des G ci data fuel (TTuple ts) (VSeq targets) (p_in p)
               = (ROk, VSeq (map fst items), (p_in p + length (e1 ++ e2))%nat)).
  { unfold in_call in HR. unfold des. cbn [des_ty as_seq]. fold (des G ci data fuel). now rewrite HR. }
  assert (Hl2 : (0 < length e2)%nat) by (destruct e2; [contradiction|cbn; lia]).
  assert (Hle : length (p_data p) = (p_in p + length e1)%nat)
    by (rewrite <- Hsk, skipn_length; lia).
  pose proof (in_truncated_rejected G ci data (TTuple ts) fuel (VSeq targets) (p_in p) _ _ (length (p_data p))
                HRd Hdl HdlG Hin ltac:(unfold data; rewrite app_length; lia) Hw Ed
                ltac:(rewrite app_length; lia)) as HT'.
  assert (Hfd : firstn (length (p_data p)) data = p_data p)
    by (unfold data; rewrite firstn_app, firstn_all, Nat.sub_diag, firstn_O; apply app_nil_r).
  rewrite Hfd in HT'. unfold rres, des in HT'. cbn [des_ty as_seq] in HT'.
  fold (des G ci (p_data p) fuel) in HT'.
  unfold pipe_read. unfold in_call.
  destruct (des_many (des G ci (p_data p) fuel) ts targets (p_in p)) as [[r vs] p'] eqn:Em.
  cbn [seq_res fst] in HT'. split; [exact HT'|]. intro E0.
  assert (Hs1 : small (p_data p)) by (unfold small; rewrite app_length in H64; lia).
  assert (HRd' : reading G ci (p_data p) (TTuple ts))
    by (split; auto; [apply (x_env _ _ _ HX)|apply (x_size _ _ _ HX)]).
  destruct (in_call_memory_safe G ci (p_data p) ts fuel targets (p_in p) r vs p' HRd' Hin Hw Em) as [P _].
  rewrite E0 in Hle. cbn in Hle. replace p' with (p_in p) by lia. now destruct p.
Qed.

(** A program whose next read comes too early stops there with result_out_of_range: the reads
    before have delivered their values, nothing after it happens. *)
Lemma pipe_run_app G co ci fuel os1 os2 : forall p,
  pipe_run G co ci fuel (os1 ++ os2) p
  = match pipe_run G co ci fuel os1 p with
    | (ROk, outs, p1) => match pipe_run G co ci fuel os2 p1 with (r, o2, p2) => (r, outs ++ o2, p2) end
    | x => x
    end.
Proof.
  induction os1 as [|o os1 IH]; intro p; cbn [app pipe_run].
  - now destruct (pipe_run G co ci fuel os2 p) as [[r o2] p2].
  - destruct o as [vs ts|ts targets].
    + destruct (pipe_write G co vs ts p) as [[|e| | |] p1]; try reflexivity. apply IH.
    + destruct (pipe_read G ci fuel ts targets p) as [[[|e| | |] vs] p1]; try reflexivity.
      rewrite IH. destruct (pipe_run G co ci fuel os1 p1) as [[[|e| | |] o1] p2]; try reflexivity.
      now destruct (pipe_run G co ci fuel os2 p2) as [[r o2] p3].
Qed.

Theorem duplex_stops G co ci fuel os outs items e2 targets os' p q q' :
  duplex G co ci -> Forall (good_op G co ci fuel) os -> shaped os outs ->
  Forall (takeable G ci fuel) q -> holds G (fmt_of co) p q -> fifo q (events os outs) q' ->
  Forall (takeable G ci fuel) items ->
  tallP_env (cmp_ok G) G -> tallP (cmp_ok G) (TTuple (map snd items)) ->
  concat (map (fun i => encode G (fmt_of ci) (fst i) (snd i)) items)
  = concat (map (fun i => encode G (fmt_of ci) (fst i) (snd i)) q') ++ e2 -> e2 <> [] ->
  N.of_nat (length e2) < 2 ^ 63 ->
  wt G (VSeq targets) (TTuple (map snd items)) = true ->
  memory_for co (p_out p + written G (fmt_of co) os) ->
  fst (pipe_run G co ci fuel (os ++ PRead (map snd items) targets :: os') p)
  = (RErr result_out_of_range, outs).
Proof.
  intros HX HO Hsh Hq Hh HF HT HcE Hc He He2 H64 Hw Hm.
  pose proof (duplex_fifo G co ci fuel os outs p q q' HX HO Hsh Hq Hh HF) as D.
  rewrite pipe_run_app. destruct (pipe_run G co ci fuel os p) as [[r o1] p1].
  destruct D as [D1 D2]. rewrite (D2 Hm) in *.
  destruct D1 as [(_ & -> & Hh1)|[[D1|D1] _]]; try discriminate.
  assert (Hf : fmt_of co = fmt_of ci)
    by (unfold fmt_of; now rewrite (x_dsize _ _ _ HX), (x_order _ _ _ HX)).
  pose proof Hh1 as (Hin & _ & H63 & Hsk). rewrite Hf in Hsk.
  assert (L64 : N.of_nat (length (p_data p1 ++ e2)) < 2 ^ 64).
  { rewrite app_length. rewrite two63_val in *. change (2 ^ 64) with 18446744073709551616. lia. }
  pose proof (duplex_early_read G co ci fuel items _ e2 targets p1 HX HT HcE Hc Hin Hsk He He2
    L64 Hw) as R.
  cbn [pipe_run].
  destruct (pipe_read G ci fuel (map snd items) targets p1) as [[r1 vs] p2]. destruct R as [-> _].
  cbn [fst]. now rewrite app_nil_r.
Qed.

(** A read that fails in the middle has consumed the items before: repeating it when the rest
    has arrived does not deliver the values written. *)
Theorem duplex_retry_refuted :
  let ts := [TScalar 1 false; TScalar 2 false] in
  exists vs w,
    wt node_env (VSeq vs) (TTuple ts) = true /\ w <> vs /\
    let '(r1, p1) := pipe_write node_env vec_cfg (firstn 1 vs) (firstn 1 ts) data_in_out in
    let '(r2, _, p2) := pipe_read node_env vec_cfg 0 ts [VN 0; VN 0] p1 in
    let '(r3, p3) := pipe_write node_env vec_cfg (skipn 1 vs) (skipn 1 ts) p2 in
    let '(r4, p4) := pipe_write node_env vec_cfg vs ts p3 in
    let '(r5, got, _) := pipe_read node_env vec_cfg 0 ts [VN 0; VN 0] p4 in
    r1 = ROk /\ r2 = RErr result_out_of_range /\ r3 = ROk /\ r4 = ROk /\ r5 = ROk /\ got = w.
Proof.
  exists [VN 1; VN 0x302], [VN 2; VN 0x103]. split; [reflexivity|]. split; [discriminate|].
  vm_compute. tauto.
Qed.

(** Non-vacuity: a program with interleaved operations, split differently by writer and reader. *)
Definition demo_program : list pop :=
  [ PWrite [VN 1; demo_val] [TScalar 2 false; demo_ty];
    PRead [TScalar 2 false] [VN 0];
    PWrite [demo_bits] [TBitset 11];
    PRead [demo_ty; TBitset 11] [demo_default; demo_bits];
    PWrite [VN 9] [TVarint 4 false false] ].

Lemma demo_duplex : duplex node_env vec_cfg vec_cfg.
Proof.
  split; try reflexivity; [apply demo_wf_env|..]; intros [|k]; reflexivity.
Qed.

Example duplex_nontrivial :
  duplex node_env vec_cfg vec_cfg
  /\ Forall (good_op node_env vec_cfg vec_cfg 20) demo_program
  /\ shaped demo_program [[VN 1]; [demo_val; demo_bits]]
  /\ fifo [] (events demo_program [[VN 1]; [demo_val; demo_bits]]) [(VN 9, TVarint 4 false false)]
  /\ memory_for vec_cfg (p_out data_in_out + written node_env (fmt_of vec_cfg) demo_program)
  /\ fst (pipe_run node_env vec_cfg vec_cfg 20 demo_program data_in_out) = (ROk, [[VN 1]; [demo_val; demo_bits]]).
Proof.
  assert (W : forall vs ts, wt node_env (VSeq vs) (TTuple ts) = true -> wf node_env (TTuple ts) = true ->
            plain (TTuple ts) = true ->
            N.of_nat (length (encode node_env (fmt_of vec_cfg) (VSeq vs) (TTuple ts))) < 2 ^ 63 ->
            writing node_env vec_cfg (VSeq vs) (TTuple ts)).
  { intros vs ts H1 H2 H3 H4. split; auto; try reflexivity.
    - intros _. split; [reflexivity|]. split; [discriminate|reflexivity].
    - apply demo_wf_env.
    - intros [|k]; reflexivity. }
  split; [apply demo_duplex|]. split.
  { assert (Kt : forall v t, wf node_env t = true -> plain t = true -> tall (rt_ok vec_cfg) t = true ->
            wt node_env v t = true -> writable node_env (fmt_of vec_cfg) v t = true ->
            readable node_env vec_cfg v t = true -> (height v <=? 20)%nat = true ->
            takeable node_env vec_cfg 20 (v, t)).
    { intros v t H1 H2 H3 H4 H5 H6 H7. apply Nat.leb_le in H7. split; assumption. }
    unfold demo_program. repeat (apply Forall_cons; [cbn [good_op combine]|]); [| | | | |apply Forall_nil].
    - split; [apply W; vm_compute; reflexivity|].
      repeat (apply Forall_cons; [apply Kt; vm_compute; reflexivity|]). apply Forall_nil.
    - vm_compute; reflexivity.
    - split; [apply W; vm_compute; reflexivity|].
      repeat (apply Forall_cons; [apply Kt; vm_compute; reflexivity|]). apply Forall_nil.
    - vm_compute; reflexivity.
    - split; [apply W; vm_compute; reflexivity|].
      repeat (apply Forall_cons; [apply Kt; vm_compute; reflexivity|]). apply Forall_nil. }
  split; [repeat split|]. split.
  { cbn [events demo_program combine]. constructor. cbn [app].
    apply (fifo_took [(demo_val, demo_ty)] [(VN 1, TScalar 2 false)]). constructor. cbn [app].
    apply (fifo_took [] [(demo_val, demo_ty); (demo_bits, TBitset 11)]). constructor. constructor. }
  split; [|vm_compute; reflexivity].
  split; [vm_compute; reflexivity|]. split; [|exact I].
  intros m Hm. split; [|reflexivity].
  eapply N.le_lt_trans; [exact Hm|]. vm_compute. reflexivity.
Qed.

(** Three of the six bytes of a bit set and a four byte number have arrived. *)
Example duplex_early_nontrivial :
  let items := [(demo_bits, TBitset 11); (VN 7, TScalar 4 false)] in
  let e := concat (map (fun i => encode node_env (fmt_of vec_cfg) (fst i) (snd i)) items) in
  let p := mkPipe (firstn 2 e ++ firstn 3 e) 2 5 in
  Forall (takeable node_env vec_cfg 20) items
  /\ tallP (cmp_ok node_env) (TTuple (map snd items))
  /\ skipn (p_in p) (p_data p) = firstn 3 e /\ e = firstn 3 e ++ skipn 3 e /\ skipn 3 e <> []
  /\ fst (fst (pipe_read node_env vec_cfg 20 (map snd items) [demo_bits; VN 0] p)) = RErr result_out_of_range.
Proof.
  cbv zeta. split.
  { repeat (apply Forall_cons; [split; try reflexivity; vm_compute; lia|]). apply Forall_nil. }
  split; [cbn; tauto|]. split; [reflexivity|]. split; [reflexivity|]. split; [vm_compute; discriminate|].
  vm_compute. reflexivity.
Qed.

(** The demonstration program followed by a read of more than is left. *)
Example duplex_stops_nontrivial :
  let items := [(VN 9, TVarint 4 false false); (VN 7, TScalar 4 false)] in
  Forall (takeable node_env vec_cfg 20) items
  /\ concat (map (fun i => encode node_env (fmt_of vec_cfg) (fst i) (snd i)) items)
     = concat (map (fun i => encode node_env (fmt_of vec_cfg) (fst i) (snd i)) [(VN 9, TVarint 4 false false)])
       ++ [x07; x00; x00; x00]
  /\ fst (pipe_run node_env vec_cfg vec_cfg 20
       (demo_program ++ PRead (map snd items) [VN 0; VN 0] :: [PRead [TScalar 1 false] [VN 0]]) data_in_out)
     = (RErr result_out_of_range, [[VN 1]; [demo_val; demo_bits]]).
Proof.
  cbv zeta. split.
  { repeat (apply Forall_cons; [split; try reflexivity; vm_compute; lia|]). apply Forall_nil. }
  split; vm_compute; reflexivity.
Qed.
