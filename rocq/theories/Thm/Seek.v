(** C72: an output archive whose position is moved is a file with a cursor. *)

From Coq Require Import List NArith ZArith Lia Bool Arith.
From Coq Require Import ZifyBool ZifyNat ZifyN.
From Verif Require Import Base.Bytes Model.Types Model.Machine Model.Varint Model.Out Model.In
  Model.Duplex Model.Seek Spec.Leb128 Spec.Wire Spec.File Proofs.VarintP Proofs.OutP Proofs.InBase
  Proofs.InSafe Proofs.InLocal Proofs.InRound Proofs.SeekP Thm.Demo Thm.Output Thm.Input Thm.Duplex.
Import ListNotations.
Local Open Scope N_scope.

(** ** Vocabulary *)

(** The archives: a fixed buffer, or a growable one fitted after each call; both sides use the
    same byte order and size type. *)
Record seekable (G : tenv) (co ci : cfg) : Prop := {
  q_env : wf_env G;
  q_plain : tall_env elem_ok G;
  q_rt : tall_env (rt_ok ci) G;
  q_size : szok ci = true;
  q_dsize : dsize ci = dsize co;
  q_order : xorb (host_le ci) (swap ci) = xorb (host_le co) (swap co);
  q_fit : growable co = true -> nofit co = false /\ exact_enlarger co = false;
  q_bits : tall_env not_bitset G;
  q_tight : growable co = true -> tall_env (tight co) G
}.

(** What may be written anywhere: no bitsets (they are added to what is there, C26), on growable
    buffers no varints (they ask for more room than they use). *)
Definition mobile (c : cfg) (t : ty) : Prop :=
  tall not_bitset t = true /\ (growable c = true -> tall (tight c) t = true).

Definition seek_op (G : tenv) (co ci : cfg) (fuel : nat) (s : sop) : Prop :=
  match s with
  | SOp (PWrite vs ts) =>
      writing G co (VSeq vs) (TTuple ts) /\ mobile co (TTuple ts) /\ writable G (fmt_of co) (VSeq vs) (TTuple ts) = true
  | SOp (PRead ts targets) => True
  | _ => True
  end.

(** The archive is at the file. *)
Definition at_file (p : pipe) (f : file) : Prop :=
  p_data p = f_data f /\ p_out p = f_pos f /\ (f_pos f <= length (f_data f))%nat
  /\ N.of_nat (length (f_data f)) < 2 ^ 63.

(** ** Lemmas on files *)

Lemma pwrite_length d p e : (p <= length d)%nat -> length (pwrite d p e) = Nat.max (length d) (p + length e).
Proof. intro H. unfold pwrite. rewrite !app_length, firstn_length, skipn_length. lia. Qed.

Lemma pwrite_window d p e : (p <= length d)%nat -> window (pwrite d p e) p (length e) = e.
Proof.
  intro H. unfold window, pwrite. rewrite skipn_app, skipn_all2 by (rewrite firstn_length; lia).
  rewrite firstn_length, Nat.min_l, Nat.sub_diag by lia. cbn [app skipn].
  rewrite firstn_app, Nat.sub_diag, firstn_all, firstn_O. apply app_nil_r.
Qed.

Lemma pwrite_spares d p e a n : (p <= length d)%nat -> (a + n <= length d)%nat ->
  (p + length e <= a \/ a + n <= p)%nat -> window (pwrite d p e) a n = window d a n.
Proof.
  intros H1 H2 [H|H]; unfold window, pwrite.
  - rewrite app_assoc, skipn_app, skipn_all2 by (rewrite app_length, firstn_length; lia).
    cbn [app]. rewrite app_length, firstn_length, Nat.min_l by lia.
    rewrite skipn_skipn. f_equal. f_equal. lia.
  - rewrite skipn_app, firstn_length, Nat.min_l by lia.
    replace (a - p)%nat with O by lia.
    rewrite firstn_app. rewrite skipn_length, firstn_length, Nat.min_l by lia.
    replace (n - (p - a))%nat with O by lia. rewrite firstn_O, app_nil_r.
    rewrite <- (firstn_skipn p d) at 2. rewrite skipn_app, firstn_app, skipn_length, firstn_length, Nat.min_l by lia.
    replace (n - (p - a))%nat with O by lia. rewrite firstn_O, app_nil_r. reflexivity.
Qed.

Lemma pwrite_end d e : pwrite d (length d) e = d ++ e.
Proof. unfold pwrite. rewrite firstn_all, skipn_all2 by lia. now rewrite app_nil_r. Qed.

Lemma skipn_zeros n k : skipn n (zeros k) = zeros (k - n).
Proof.
  revert n; induction k as [|k IH]; intros [|n]; try reflexivity. cbn [Nat.sub]. rewrite <- (IH n). reflexivity.
Qed.

Lemma overwrite_zeros d k p e : (p <= length d)%nat -> (p + length e <= length d + k)%nat ->
  exists j, overwrite (d ++ zeros k) p e = pwrite d p e ++ zeros j
            /\ (length (pwrite d p e) + j = length d + k)%nat.
Proof.
  intros H1 H2. exists (length d + k - Nat.max (length d) (p + length e))%nat.
  rewrite pwrite_length by exact H1. split; [|lia].
  unfold overwrite, pwrite. rewrite firstn_app. replace (p - length d)%nat with O by lia.
  rewrite firstn_O, app_nil_r, skipn_app, <- !app_assoc. do 2 f_equal. f_equal.
  rewrite skipn_zeros. f_equal. lia.
Qed.

(** ** One call *)

(** Whatever the outcome: a prefix of the encoding is written at the position as in a file. *)
Theorem seek_call G c vs ts st r st' :
  writing G c (VSeq vs) (TTuple ts) -> mobile c (TTuple ts) ->
  (growable c = true -> nofit c = false /\ exact_enlarger c = false) ->
  tall_env not_bitset G -> (growable c = true -> tall_env (tight c) G) -> ost_ok st ->
  out_call G c vs ts st = (r, st') ->
  exists e1 e2 k,
    encode G (fmt_of c) (VSeq vs) (TTuple ts) = e1 ++ e2
    /\ obuf st' = pwrite (obuf st) (opos st) e1 ++ zeros k /\ opos st' = (opos st + length e1)%nat
    /\ (r <> RThrow -> k = O) /\ (r = ROk -> e2 = []).
Proof.
  intros HW [HB HT] Hfit HbG HtG Hok E.
  assert (Hb : bits_ok G (TTuple ts) st) by (right; split; assumption).
  pose proof (writing_emits _ _ _ _ _ HW Hb Hok) as HO. cbn [ser] in HO.
  unfold out_call in E. destruct (ser_many (ser G c) vs ts st) as [r1 st1] eqn:E1.
  destruct HO as [HO _]. pose proof (outcome_ok_state _ _ _ _ _ Hok HO) as [OK1 _].
  destruct HO as (e1 & e2 & k & F1 & F2 & F3 & F4 & F5). destruct Hok as [O1 O2].
  destruct (overwrite_zeros (obuf st) k (opos st) e1 O1 F3) as (j & J1 & J2).
  exists e1, e2.
  assert (R0 : r1 = ROk -> e2 = []) by (intros ->; apply F5).
  destruct (growable c) eqn:Eg.
  - destruct (Hfit eq_refl) as [N1 N2]. rewrite N1, N2 in E. cbn [negb andb] in E.
    pose proof (ser_edge G c (VSeq vs) (TTuple ts) st r1 st1 HW Eg (HtG eq_refl) (HT eq_refl) (conj O1 O2) E1) as (_ & _ & _ & ED).
    assert (L1 : length (obuf st1) = (length (pwrite (obuf st) (opos st) e1) + j)%nat)
      by (rewrite F2; cbn [obuf]; rewrite J1, app_length, zeros_length; reflexivity).
    rewrite pwrite_length in L1, J2 by exact O1.
    assert (P1 : opos st1 = (opos st + length e1)%nat) by (rewrite F2; reflexivity).
    unfold fit_size in E.
    assert (HR : match r1 with RUB | RStack => False | _ => True end)
      by (destruct r1 as [|er| | |]; auto).
    assert (D1 : obuf st1 = pwrite (obuf st) (opos st) e1 ++ zeros j) by (rewrite F2; exact J1).
    destruct r1 as [|er| | |]; try contradiction.
    3:{ injection E as <- <-. exists j. repeat split; auto; congruence. }
    all: unfold buf_resize in E;
      destruct (N.leb_spec (N.of_nat (opos st1)) (N.of_nat (length (obuf st1)))); [|lia];
      rewrite Nat2N.id in E; destruct (Nat.leb_spec (length (obuf st)) (opos st1)) as [Q|Q];
      injection E as <- <-; exists O; cbn [obuf opos]; repeat split; auto; cbn [zeros repeat]; rewrite ?app_nil_r.
    all: try (rewrite D1, firstn_app, pwrite_length by exact O1;
              replace (opos st1 - _)%nat with O by lia; rewrite firstn_O, app_nil_r; apply firstn_all2;
              rewrite pwrite_length by exact O1; lia).
    all: destruct ED as [ED|ED]; [|lia]; replace j with O in D1 by lia; cbn [zeros repeat] in D1;
      rewrite app_nil_r in D1; exact D1.
  - cbn [andb] in E. injection E as <- <-. exists O.
    destruct F4 as [->|[F4 _]]; [|discriminate].
    assert (j = O) by (rewrite pwrite_length in J2 by exact O1; lia). subst j.
    rewrite F2. cbn [obuf opos]. rewrite J1. repeat split; auto.
Qed.

(** ** Programs *)

Section Program.
  Variables (G : tenv) (co ci : cfg) (fuel : nat).
  Hypothesis HS : seekable G co ci.

  Lemma write_file vs ts p f :
    seek_op G co ci fuel (SOp (PWrite vs ts)) -> at_file p f ->
    let '(r, p') := pipe_write G co vs ts p in
    p_in p' = p_in p
    /\ (r = ROk -> at_file p' (fstep G (fmt_of co) (SOp (PWrite vs ts)) f))
    /\ exists e1 e2 k, encode G (fmt_of co) (VSeq vs) (TTuple ts) = e1 ++ e2
         /\ p_data p' = pwrite (f_data f) (f_pos f) e1 ++ zeros k /\ p_out p' = (f_pos f + length e1)%nat
         /\ (r <> RThrow -> k = O).
  Proof.
    intros (HW & HM & Hw) (A1 & A2 & A3 & A4). unfold pipe_write. rewrite A1, A2.
    destruct (out_call G co vs ts (mkO (f_data f) (f_pos f))) as [r st'] eqn:E.
    assert (Hok : ost_ok (mkO (f_data f) (f_pos f))) by (split; assumption).
    destruct (seek_call _ _ _ _ _ _ _ HW HM (q_fit _ _ _ HS) (q_bits _ _ _ HS) (q_tight _ _ _ HS) Hok E)
      as (e1 & e2 & k & S1 & S2 & S3 & S4 & S5). cbn [obuf opos] in *.
    cbn [p_in p_data p_out]. split; [reflexivity|]. split; [|exists e1, e2, k; auto].
    intros ->. specialize (S5 eq_refl). specialize (S4 ltac:(discriminate)). subst e2 k.
    rewrite app_nil_r in S1. cbn [zeros repeat] in S2. rewrite app_nil_r in S2.
    unfold at_file, fstep. cbn [p_data p_out f_data f_pos]. rewrite S1, S2, S3.
    rewrite pwrite_length by exact A3. repeat split; [lia|].
    assert (Hb : bits_ok G (TTuple ts) (mkO (f_data f) (f_pos f)))
      by (right; split; [apply HM|apply (q_bits _ _ _ HS)]).
    destruct (out_call_keeps_written _ _ _ _ _ _ _ HW Hb Hok E) as (st1 & E1 & Q1 & Q2 & Q3).
    pose proof (writing_emits _ _ _ _ _ HW Hb Hok) as HO. cbn [ser] in HO. rewrite E1 in HO.
    destruct HO as [HO _]. pose proof (outcome_ok_state _ _ _ _ _ Hok HO) as [O1 O2]. lia.
  Qed.

  Lemma read_file ts targets p f :
    at_file p f -> let '(_, _, p') := pipe_read G ci fuel ts targets p in at_file p' f.
  Proof. intros A. unfold pipe_read. destruct (in_call _ _ _ _ _ _ _) as [[r vs] pos]. exact A. Qed.

  (** C72: the program leaves exactly the file; if an operation fails, the file of the
      operations before it, with a prefix of what the failing call was to write. *)
  Theorem seek_file os : forall p f,
    Forall (seek_op G co ci fuel) os -> at_file p f -> placed G (fmt_of co) os f ->
    let '(r, _, p') := srun G co ci fuel os p in
    (r = ROk /\ at_file p' (frun G (fmt_of co) os f))
    \/ (r <> ROk /\ exists os1 s os2, os = os1 ++ s :: os2
          /\ let f1 := frun G (fmt_of co) os1 f in
             match s with
             | SOp (PWrite vs ts) =>
                 exists e1 e2 k, encode G (fmt_of co) (VSeq vs) (TTuple ts) = e1 ++ e2
                   /\ p_data p' = pwrite (f_data f1) (f_pos f1) e1 ++ zeros k
                   /\ p_out p' = (f_pos f1 + length e1)%nat /\ (r <> RThrow -> k = O)
             | SOp (PRead _ _) => at_file p' f1
             | _ => False
             end).
  Proof.
    induction os as [|s os IH]; intros p f HO HA HP; [left; auto|].
    inversion HO as [|? ? H1 H2]; subst. cbn [placed] in HP. destruct HP as [P1 P2].
    assert (K : forall (q : pipe) (x : res * list (list val) * pipe), at_file q (fstep G (fmt_of co) s f) ->
      srun G co ci fuel os q = x ->
      let '(r, _, p') := x in
      (r = ROk /\ at_file p' (frun G (fmt_of co) (s :: os) f))
      \/ (r <> ROk /\ exists os1 s0 os2, s :: os = os1 ++ s0 :: os2
          /\ let f1 := frun G (fmt_of co) os1 f in
             match s0 with
             | SOp (PWrite vs ts) =>
                 exists e1 e2 k, encode G (fmt_of co) (VSeq vs) (TTuple ts) = e1 ++ e2
                   /\ p_data p' = pwrite (f_data f1) (f_pos f1) e1 ++ zeros k
                   /\ p_out p' = (f_pos f1 + length e1)%nat /\ (r <> RThrow -> k = O)
             | SOp (PRead _ _) => at_file p' f1
             | _ => False
             end)).
    { intros q [[r outs] p'] Hq Ex. specialize (IH q _ H2 Hq P2). rewrite Ex in IH.
      destruct IH as [IH|(Hr & os1 & s0 & os2 & -> & IH)]; [left; exact IH|right].
      split; [exact Hr|]. exists (s :: os1), s0, os2. split; [reflexivity|exact IH]. }
    destruct s as [[vs ts|ts targets]|n|n]; cbn [srun].
    - pose proof (write_file vs ts p f H1 HA) as W.
      destruct (pipe_write G co vs ts p) as [r p1]. destruct W as (_ & W2 & W3).
      assert (Hd : r = ROk \/ r <> ROk) by (destruct r; auto; right; discriminate).
      destruct Hd as [->|Hr]; [exact (K p1 _ (W2 eq_refl) eq_refl)|].
      destruct r; try contradiction;
        (right; split; [exact Hr|]; exists [], (SOp (PWrite vs ts)), os; split; [reflexivity|exact W3]).
    - pose proof (read_file ts targets p f HA) as W.
      destruct (pipe_read G ci fuel ts targets p) as [[r vs] p1].
      destruct r; try (right; split; [discriminate|]; exists [], (SOp (PRead ts targets)), os; split; [reflexivity|exact W]).
      specialize (K p1 _ W eq_refl). destruct (srun G co ci fuel os p1) as [[r outs] p']. exact K.
    - apply (K (seek_out n p) _); [|reflexivity]. destruct HA as (A1 & A2 & A3 & A4).
      repeat split; cbn; auto.
    - apply (K (seek_in n p) _); [exact HA|reflexivity].
  Qed.

  Lemma srun_app os1 os2 : forall p,
    srun G co ci fuel (os1 ++ os2) p
    = match srun G co ci fuel os1 p with
      | (ROk, outs, p1) => match srun G co ci fuel os2 p1 with (r, o2, p2) => (r, outs ++ o2, p2) end
      | x => x
      end.
  Proof.
    induction os1 as [|s os1 IH]; intro p; cbn [app srun].
    - now destruct (srun G co ci fuel os2 p) as [[r o2] p2].
    - destruct s as [[vs ts|ts targets]|n|n]; try apply IH.
      + destruct (pipe_write G co vs ts p) as [[|e| | |] p1]; try reflexivity. apply IH.
      + destruct (pipe_read G ci fuel ts targets p) as [[[|e| | |] vs] p1]; try reflexivity.
        rewrite IH. destruct (srun G co ci fuel os1 p1) as [[[|e| | |] o1] p2]; try reflexivity.
        now destruct (srun G co ci fuel os2 p2) as [[r o2] p3].
  Qed.

  Lemma frun_app o os1 os2 : forall f, frun G o (os1 ++ os2) f = frun G o os2 (frun G o os1 f).
  Proof. induction os1 as [|s os1 IH]; intro f; cbn [app frun]; auto. Qed.

  Lemma fstep_length o s f : (f_pos f <= length (f_data f))%nat ->
    (length (f_data f) <= length (f_data (fstep G o s f)))%nat.
  Proof.
    intro H. destruct s as [[vs ts|ts targets]|n|n]; cbn [fstep f_data]; try lia. rewrite pwrite_length by exact H. lia.
  Qed.

  Lemma fstep_pos o s f :
    match s with SOut n | SIn n => (n <= length (f_data f))%nat | _ => True end ->
    (f_pos f <= length (f_data f))%nat ->
    (f_pos (fstep G o s f) <= length (f_data (fstep G o s f)))%nat.
  Proof.
    intros H1 H. destruct s as [[vs ts|ts targets]|n|n]; cbn [fstep f_data f_pos]; try lia.
    rewrite pwrite_length by exact H. lia.
  Qed.

  Lemma frun_length o os : forall f, placed G o os f -> (f_pos f <= length (f_data f))%nat ->
    (length (f_data f) <= length (f_data (frun G o os f)))%nat.
  Proof.
    induction os as [|s os IH]; intros f HP H; cbn [frun]; [lia|]. destruct HP as [P1 P2].
    specialize (IH _ P2 (fstep_pos o s f P1 H)). pose proof (fstep_length o s f H). lia.
  Qed.

  Lemma frun_spares o a n os : forall f, placed G o os f -> (f_pos f <= length (f_data f))%nat ->
    (a + n <= length (f_data f))%nat -> spares G o a n os f ->
    window (f_data (frun G o os f)) a n = window (f_data f) a n.
  Proof.
    induction os as [|s os IH]; intros f HP H HL HF; cbn [frun]; [reflexivity|].
    destruct HP as [P1 P2]. destruct HF as [F1 F2].
    pose proof (fstep_length o s f H) as L.
    rewrite (IH _ P2 (fstep_pos o s f P1 H) ltac:(lia) F2).
    destruct s as [[vs ts|ts targets]|m|m]; cbn [fstep f_data]; try reflexivity. now apply pwrite_spares.
  Qed.

  (** Reading at an offset where the encodings of some items are. *)
  Lemma read_items_at data items : small data -> Forall (takeable G ci fuel) items ->
    forall targets pos,
    forall2b (fun x m => wt G x m) targets (map snd items) = true ->
    has_at data pos (concat (map (fun i => encode G (fmt_of ci) (fst i) (snd i)) items)) ->
    in_call G ci data fuel (map snd items) targets pos
    = (ROk, map fst items, (pos + length (concat (map (fun i => encode G (fmt_of ci) (fst i) (snd i)) items)))%nat).
  Proof.
    intros Hsm. induction 1 as [|i items Hi _ IH]; intros targets pos Hw Hat.
    - cbn. now rewrite Nat.add_0_r.
    - destruct targets as [|x targets]; [discriminate|].
      cbn [map forall2b] in Hw. apply andb_true_iff in Hw as [Hw1 Hw2].
      cbn [map concat] in *. apply has_at_app in Hat as [H1 H2].
      unfold in_call in *. cbn [des_many].
      destruct Hi as [K1 K2 K3 K4 K5 K6 K7].
      rewrite (des_round G ci data (q_env _ _ _ HS) (q_size _ _ _ HS) Hsm (q_plain _ _ _ HS) (q_rt _ _ _ HS)
                 (fst i) (snd i) fuel x pos); auto.
      cbn [tl]. rewrite IH by auto. rewrite app_length, Nat.add_assoc. reflexivity.
  Qed.

  (** A record written at some offset can be read back from there as long as no later write
      touches its bytes, whatever else is written, read or moved in between. *)
  Theorem seek_record os1 off vs ts os2 targets p f outs p' :
    Forall (seek_op G co ci fuel) (os1 ++ SOut off :: SOp (PWrite vs ts) :: os2) ->
    Forall (takeable G ci fuel) (combine vs ts) ->
    at_file p f -> placed G (fmt_of co) (os1 ++ SOut off :: SOp (PWrite vs ts) :: os2) f ->
    let f2 := frun G (fmt_of co) (os1 ++ [SOut off; SOp (PWrite vs ts)]) f in
    spares G (fmt_of co) off (length (encode G (fmt_of co) (VSeq vs) (TTuple ts))) os2 f2 ->
    forall2b (fun x m => wt G x m) targets ts = true ->
    srun G co ci fuel (os1 ++ SOut off :: SOp (PWrite vs ts) :: os2) p = (ROk, outs, p') ->
    exists p'',
      srun G co ci fuel ((os1 ++ SOut off :: SOp (PWrite vs ts) :: os2) ++ [SIn off; SOp (PRead ts targets)]) p
      = (ROk, outs ++ [vs], p'').
  Proof.
    intros HO HT HA HP f2 HF Hw E.
    pose proof (seek_file _ p f HO HA HP) as S. rewrite E in S.
    destruct S as [(_ & S)|(S & _)]; [|congruence].
    set (e := encode G (fmt_of co) (VSeq vs) (TTuple ts)) in *.
    assert (PA : forall os os' g, placed G (fmt_of co) (os ++ os') g -> (f_pos g <= length (f_data g))%nat ->
              placed G (fmt_of co) os' (frun G (fmt_of co) os g)
              /\ (f_pos (frun G (fmt_of co) os g) <= length (f_data (frun G (fmt_of co) os g)))%nat).
    { induction os as [|s os IHos]; intros os' g Hg Hp; cbn [app frun] in *; [auto|].
      destruct Hg as [G1 G2]. apply IHos; [exact G2|]. now apply fstep_pos. }
    destruct HA as (A1 & A2 & A3 & A4).
    destruct (PA os1 _ f HP A3) as [Q1 Q2]. cbn [placed fstep] in Q1. destruct Q1 as (Q1 & _ & Q3).
    assert (Ef2 : f2 = mkF (pwrite (f_data (frun G (fmt_of co) os1 f)) off e) (off + length e))
      by (unfold f2; rewrite frun_app; reflexivity).
    cbn [f_data f_pos] in Q3. fold e in Q3. rewrite <- Ef2 in Q3.
    assert (Ef : frun G (fmt_of co) (os1 ++ SOut off :: SOp (PWrite vs ts) :: os2) f = frun G (fmt_of co) os2 f2).
    { rewrite frun_app. cbn [frun fstep f_data f_pos]. fold e. now rewrite Ef2. }
    rewrite Ef in S. destruct S as (S1 & S2 & S3 & S4).
    assert (P2 : (f_pos f2 <= length (f_data f2))%nat)
      by (rewrite Ef2; cbn [f_pos f_data]; rewrite pwrite_length by exact Q1; lia).
    assert (L2 : (off + length e <= length (f_data f2))%nat)
      by (rewrite Ef2; cbn [f_data]; rewrite pwrite_length by exact Q1; lia).
    pose proof (frun_spares (fmt_of co) off (length e) os2 f2 Q3 P2 L2 HF) as W.
    rewrite Ef2 in W at 2. cbn [f_data] in W. rewrite pwrite_window in W by exact Q1.
    pose proof (frun_length (fmt_of co) os2 f2 Q3 P2) as L3.
    assert (HW : writing G co (VSeq vs) (TTuple ts) /\ writable G (fmt_of co) (VSeq vs) (TTuple ts) = true).
    { apply Forall_app in HO as [_ HO]. inversion HO as [|? ? _ HO1]; subst. inversion HO1 as [|? ? HO2 _]; subst.
      split; apply HO2. }
    destruct HW as [HW Hwr].
    assert (Hlen : length vs = length ts).
    { pose proof (w_wt _ _ _ _ HW) as Ew. cbn [wt] in Ew. now apply forall2b_length in Ew. }
    assert (Hf : fmt_of co = fmt_of ci)
      by (unfold fmt_of; now rewrite (q_dsize _ _ _ HS), (q_order _ _ _ HS)).
    assert (He : e = concat (map (fun i => encode G (fmt_of ci) (fst i) (snd i)) (combine vs ts))).
    { unfold e. rewrite Hf in *. now apply encode_members_concat. }
    rewrite srun_app, E. cbn [srun]. unfold pipe_read. cbn [seek_in p_in p_data p_out].
    assert (Hsm : small (p_data p'))
      by (unfold small; rewrite S1; rewrite two63_val in *; change (2 ^ 64) with 18446744073709551616; lia).
    pose proof (read_items_at (p_data p') (combine vs ts) Hsm HT targets off) as HR.
    rewrite combine_snd, combine_fst in HR by exact Hlen. rewrite HR; [|exact Hw|].
    - eexists. reflexivity.
    - rewrite <- He. split; [rewrite S1; lia|]. rewrite S1. exact W.
  Qed.

  (** Programs that only write and move succeed if the memory for the final file is there:
      for fixed buffers, if nothing is written past the end. *)
  Definition reads_not (s : sop) : bool := match s with SOp (PRead _ _) => false | _ => true end.

  Theorem seek_succeeds os : forall p f,
    Forall (seek_op G co ci fuel) os -> at_file p f -> placed G (fmt_of co) os f ->
    forallb reads_not os = true ->
    (if growable co then memory_for co (length (f_data (frun G (fmt_of co) os f)))
     else length (f_data (frun G (fmt_of co) os f)) = length (f_data f)) ->
    fst (fst (srun G co ci fuel os p)) = ROk.
  Proof.
    induction os as [|s os IH]; intros p f HO HA HP HN HM; [reflexivity|].
    inversion HO as [|? ? H1 H2]; subst. pose proof HP as [P1 P2].
    cbn [forallb] in HN. apply andb_true_iff in HN as [N1 N2].
    pose proof HA as (A1 & A2 & A3 & A4).
    pose proof (fstep_length (fmt_of co) s f A3) as L1.
    pose proof (frun_length (fmt_of co) os _ P2 (fstep_pos (fmt_of co) s f P1 A3)) as L2.
    cbn [frun] in HM.
    assert (HM' : if growable co then memory_for co (length (f_data (frun G (fmt_of co) os (fstep G (fmt_of co) s f))))
     else length (f_data (frun G (fmt_of co) os (fstep G (fmt_of co) s f))) = length (f_data (fstep G (fmt_of co) s f))).
    { destruct (growable co); [exact HM|lia]. }
    destruct s as [[vs ts|ts targets]|n|n]; cbn [srun]; try discriminate.
    - pose proof (write_file vs ts p f H1 HA) as W.
      destruct (pipe_write G co vs ts p) as [r p1] eqn:E. destruct W as (_ & W2 & _).
      assert (r = ROk) as ->.
      2:{ exact (IH p1 _ H2 (W2 eq_refl) P2 N2 HM'). }
      destruct H1 as (HW & HMo & Hwr).
      unfold pipe_write in E. rewrite A1, A2 in E.
      destruct (out_call G co vs ts (mkO (f_data f) (f_pos f))) as [r1 st'] eqn:EO. injection E as -> _.
      assert (Hok : ost_ok (mkO (f_data f) (f_pos f))) by (split; assumption).
      assert (Hb : bits_ok G (TTuple ts) (mkO (f_data f) (f_pos f)))
        by (right; split; [apply HMo|apply (q_bits _ _ _ HS)]).
      destruct (out_call_keeps_written _ _ _ _ _ _ _ HW Hb Hok EO) as (st1 & E1 & _).
      cbn [fstep f_data f_pos] in L1, L2. set (e := encode G (fmt_of co) (VSeq vs) (TTuple ts)) in *.
      rewrite pwrite_length in L1, L2 by exact A3.
      destruct (growable co) eqn:Eg.
      + pose proof (out_growable_outcomes G co (VSeq vs) (TTuple ts) _ HW Hb Hok Eg Hwr) as [_ R].
        cbn [ser] in R. rewrite E1 in R. cbn [fst opos] in R.
        assert (L3 : (f_pos f + length e <= length (f_data (frun G (fmt_of co) os (fstep G (fmt_of co) (SOp (PWrite vs ts)) f))))%nat)
          by (cbn [fstep]; fold e; lia).
        destruct (memory_for_le co _ _ (w_cfg _ _ _ _ HW) Eg L3 HM) as (M1 & M2 & M3).
        apply R; assumption.
      + pose proof (out_fixed_iff_fits G co (VSeq vs) (TTuple ts) _ HW Hb Hok Eg) as R.
        cbn [ser] in R. rewrite E1 in R. destruct R as (_ & _ & R & _). specialize (R Hwr).
        cbn [opos obuf] in R. fold e in R. cbn [fstep] in *. fold e in HM, HM'. cbn [f_data f_pos] in *.
        rewrite pwrite_length in HM' by exact A3.
        destruct (Nat.leb_spec (f_pos f + length e) (length (f_data f))); [exact R|lia].
    - refine (IH (seek_out n p) _ H2 _ P2 N2 HM'). repeat split; cbn; auto.
    - exact (IH (seek_in n p) _ H2 HA P2 N2 HM').
  Qed.

  (** The usual way to write a header whose contents are only known afterwards: write a
      placeholder, write the body, go back and write the header, go to the end. *)
  Theorem seek_patch d h0 h1 th vs ts p :
    let n := length (encode G (fmt_of co) (VSeq [h0]) (TTuple [th])) in
    let m := length (encode G (fmt_of co) (VSeq vs) (TTuple ts)) in
    let os := [SOp (PWrite [h0] [th]); SOp (PWrite vs ts); SOut (length d); SOp (PWrite [h1] [th]); SOut (length d + n + m)] in
    Forall (seek_op G co ci fuel) os -> at_file p (mkF d (length d)) ->
    length (encode G (fmt_of co) (VSeq [h1]) (TTuple [th])) = n ->
    growable co = true -> memory_for co (length d + n + m) ->
    exists p', srun G co ci fuel os p = (ROk, [], p')
      /\ p_data p' = d ++ encode G (fmt_of co) (VSeq [h1]) (TTuple [th]) ++ encode G (fmt_of co) (VSeq vs) (TTuple ts)
      /\ p_out p' = length (p_data p').
  Proof.
    intros n m os HO HA Hh Hg HM.
    set (e0 := encode G (fmt_of co) (VSeq [h0]) (TTuple [th])) in *.
    set (e1 := encode G (fmt_of co) (VSeq [h1]) (TTuple [th])) in *.
    set (b := encode G (fmt_of co) (VSeq vs) (TTuple ts)) in *.
    assert (EF : frun G (fmt_of co) os (mkF d (length d)) = mkF (d ++ e1 ++ b) (length d + n + m)).
    { unfold os. cbn [frun fstep f_data f_pos]. fold e0 e1 b. f_equal.
      rewrite pwrite_end. fold n. replace (length d + n)%nat with (length (d ++ e0)) by (now rewrite app_length).
      rewrite pwrite_end. unfold pwrite. rewrite Hh. rewrite <- app_assoc, firstn_app, firstn_all, Nat.sub_diag, firstn_O, app_nil_r.
      do 2 f_equal. rewrite app_assoc, skipn_app, skipn_all2 by (rewrite app_length; fold n; lia).
      rewrite app_length. fold n. now rewrite Nat.sub_diag. }
    assert (HP : placed G (fmt_of co) os (mkF d (length d))).
    { unfold os. cbn [placed fstep f_data f_pos]. fold e0 e1 b.
      assert (L0 : length (pwrite d (length d) e0) = (length d + n)%nat) by (rewrite pwrite_length; fold n; lia).
      assert (L1 : length (pwrite (pwrite d (length d) e0) (length d + length e0) b) = (length d + n + m)%nat)
        by (rewrite pwrite_length; fold n m; lia).
      rewrite (pwrite_length (pwrite _ _ b)), L1, Hh by lia. repeat split; lia. }
    assert (LF : length (d ++ e1 ++ b) = (length d + n + m)%nat) by (rewrite !app_length, Hh; fold m; lia).
    assert (R : fst (fst (srun G co ci fuel os p)) = ROk).
    { eapply seek_succeeds; [exact HO|exact HA|exact HP|reflexivity|]. rewrite EF. cbn [f_data]. rewrite LF.
      now rewrite Hg. }
    pose proof (seek_file os p _ HO HA HP) as S.
    destruct (srun G co ci fuel os p) as [[r outs] p'] eqn:E. cbn [fst] in R. subst r.
    destruct S as [(_ & S)|(S & _)]; [|congruence]. rewrite EF in S. destruct S as (S1 & S2 & _). cbn [f_data f_pos] in *.
    exists p'. rewrite S1, S2, LF. split; [|auto]. f_equal. f_equal.
    unfold os in E. cbn [srun] in E.
    destruct (pipe_write G co [h0] [th] p) as [[] q1]; try discriminate.
    destruct (pipe_write G co vs ts q1) as [[] q2]; try discriminate.
    destruct (pipe_write G co [h1] [th] (seek_out (length d) q2)) as [[] q3]; try discriminate.
    now injection E as <- _.
  Qed.
End Program.

(** processed_data and remaining_data split the data. *)
Theorem seek_accessors p : (p_out p <= length (p_data p))%nat ->
  processed p ++ remaining_of p = p_data p /\ length (processed p) = p_out p.
Proof. intro H. unfold processed, remaining_of. rewrite firstn_skipn, firstn_length. split; [reflexivity|lia]. Qed.

(** ** Refutations *)

(** A position behind the end is not checked: the next write is out of bounds. *)
Theorem seek_beyond_refuted :
  exists d n, (length d < n)%nat
    /\ fst (fst (srun node_env vec_cfg vec_cfg 0 [SOut n; SOp (PWrite [VN 1] [TScalar 4 false])] (mkPipe d 0 0))) = RUB.
Proof. exists [x01], 2%nat. split; [cbn; lia|]. vm_compute. reflexivity. Qed.

Theorem seek_read_beyond_refuted :
  exists d n, (length d < n)%nat
    /\ fst (fst (srun node_env vec_cfg vec_cfg 0 [SIn n; SOp (PRead [TScalar 4 false] [VN 0])] (mkPipe d 0 1))) = RUB.
Proof. exists [x01], 2%nat. split; [cbn; lia|]. vm_compute. reflexivity. Qed.

(** A varint written shortly before the end of a growable buffer leaves bytes behind the end
    that nobody wrote. *)
Theorem seek_varint_refuted :
  exists p', srun node_env vec_cfg vec_cfg 0 [SOut 0; SOp (PWrite [VN 5] [TVarint 4 false false])]
               (mkPipe [x01; x02; x03] 0 3) = (ROk, [], p')
    /\ p_data p' <> f_data (frun node_env (fmt_of vec_cfg) [SOut 0; SOp (PWrite [VN 5] [TVarint 4 false false])]
                              (mkF [x01; x02; x03] 3))
    /\ firstn 3 (p_data p') = [x05; x02; x03] /\ (3 < length (p_data p'))%nat.
Proof. eexists. split; [vm_compute; reflexivity|]. split; [discriminate|]. split; [reflexivity|]. cbn. lia. Qed.

(** A bitset written over other bytes is mixed with them. *)
Theorem seek_bitset_refuted :
  exists p', srun node_env vec_cfg vec_cfg 0 [SOut 0; SOp (PWrite [VBits [true; false; false]] [TBitset 3])]
               (mkPipe [x02; x02] 0 2) = (ROk, [], p')
    /\ p_data p' = [x03; x02]
    /\ f_data (frun node_env (fmt_of vec_cfg) [SOut 0; SOp (PWrite [VBits [true; false; false]] [TBitset 3])]
                 (mkF [x02; x02] 2)) = [x01; x02].
Proof. eexists. split; [vm_compute; reflexivity|]. split; reflexivity. Qed.

(** ** Non-vacuity *)

Lemma demo_seekable : seekable node_env vec_cfg vec_cfg.
Proof.
  split; try reflexivity; try apply demo_wf_env; try (intros [|k]; reflexivity).
  - intros _. split; reflexivity.
  - intros _ [|k]; reflexivity.
Qed.

Lemma demo_seek_write vs ts :
  wt node_env (VSeq vs) (TTuple ts) = true -> wf node_env (TTuple ts) = true -> plain (TTuple ts) = true ->
  N.of_nat (length (encode node_env (fmt_of vec_cfg) (VSeq vs) (TTuple ts))) < 2 ^ 63 ->
  tall not_bitset (TTuple ts) = true -> tall (tight vec_cfg) (TTuple ts) = true ->
  writable node_env (fmt_of vec_cfg) (VSeq vs) (TTuple ts) = true ->
  seek_op node_env vec_cfg vec_cfg 20 (SOp (PWrite vs ts)).
Proof.
  intros H1 H2 H3 H4 H5 H6 H7. split; [|split; [split; auto|exact H7]]. split; auto; try reflexivity.
  - intros _. split; [reflexivity|]. split; [discriminate|reflexivity].
  - apply demo_wf_env.
  - intros [|k]; reflexivity.
Qed.

Definition str8 : ty := TVec None true (TScalar 1 false).

(** Two records, the first replaced by a shorter one, both read back out of order. *)
Definition demo_seek : list sop :=
  [ SOp (PWrite [VN 0x11111111] [TScalar 4 false]); SOp (PWrite [VSeq [VN 1; VN 2]] [str8]); SOut 0 ].
Definition demo_seek2 : list sop := [ SOut 4; SIn 6; SOut 10; SOp (PWrite [VN 7] [TScalar 2 false]) ].

Example seek_nontrivial :
  seekable node_env vec_cfg vec_cfg
  /\ Forall (seek_op node_env vec_cfg vec_cfg 20)
       (demo_seek ++ SOut 0 :: SOp (PWrite [VN 0x0a0b] [TScalar 2 false]) :: demo_seek2)
  /\ Forall (takeable node_env vec_cfg 20) (combine [VN 0x0a0b] [TScalar 2 false])
  /\ at_file data_in_out (mkF [] 0)
  /\ placed node_env (fmt_of vec_cfg) (demo_seek ++ SOut 0 :: SOp (PWrite [VN 0x0a0b] [TScalar 2 false]) :: demo_seek2) (mkF [] 0)
  /\ spares node_env (fmt_of vec_cfg) 0 2 demo_seek2
       (frun node_env (fmt_of vec_cfg) (demo_seek ++ [SOut 0; SOp (PWrite [VN 0x0a0b] [TScalar 2 false])]) (mkF [] 0))
  /\ exists p', srun node_env vec_cfg vec_cfg 20
       ((demo_seek ++ SOut 0 :: SOp (PWrite [VN 0x0a0b] [TScalar 2 false]) :: demo_seek2) ++ [SIn 0; SOp (PRead [TScalar 2 false] [VN 0])]) data_in_out
       = (ROk, [[VN 0x0a0b]], p')
     /\ p_data p' = [x0b; x0a; x11; x11; x02; x00; x00; x00; x01; x02; x07; x00].
Proof.
  split; [apply demo_seekable|]. split.
  { unfold demo_seek, demo_seek2. cbn [app].
    repeat (apply Forall_cons; [try exact I; try (apply demo_seek_write; vm_compute; reflexivity)|]). apply Forall_nil. }
  split.
  { apply Forall_cons; [|apply Forall_nil]. split; try (vm_compute; reflexivity). cbn. lia. }
  split; [repeat split; cbn; lia|].
  split; [vm_compute; repeat split; lia|].
  split; [vm_compute; repeat split; lia|].
  eexists. split; vm_compute; reflexivity.
Qed.

Example seek_patch_nontrivial :
  let os := [SOp (PWrite [VN 0] [TScalar 4 false]); SOp (PWrite [VSeq [VN 1; VN 2]] [str8]); SOut 1;
             SOp (PWrite [VN 6] [TScalar 4 false]); SOut 11] in
  Forall (seek_op node_env vec_cfg vec_cfg 20) os
  /\ at_file (mkPipe [xff] 0 1) (mkF [xff] 1) /\ memory_for vec_cfg 11
  /\ exists p', srun node_env vec_cfg vec_cfg 20 os (mkPipe [xff] 0 1) = (ROk, [], p')
     /\ p_data p' = [xff; x06; x00; x00; x00; x02; x00; x00; x00; x01; x02].
Proof.
  cbv zeta. split.
  { repeat (apply Forall_cons; [try exact I; try (apply demo_seek_write; vm_compute; reflexivity)|]). apply Forall_nil. }
  split; [repeat split; cbn; lia|]. split.
  { split; [reflexivity|]. split; [|exact I]. intros m Hm. change (emul vec_cfg * (2 * (N.of_nat 11 + 10)) / ediv vec_cfg) with 63 in Hm.
    rewrite two63_val. split; [lia|reflexivity]. }
  eexists. split; vm_compute; reflexivity.
Qed.

Print Assumptions seek_call.
Print Assumptions seek_file.
Print Assumptions seek_record.
Print Assumptions seek_succeeds.
Print Assumptions seek_patch.
Print Assumptions seek_accessors.
Print Assumptions seek_beyond_refuted.
Print Assumptions seek_read_beyond_refuted.
Print Assumptions seek_varint_refuted.
Print Assumptions seek_bitset_refuted.
