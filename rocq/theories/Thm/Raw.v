(** C55, C56: raw bytes with an explicit count; variants with an id supplied at run time. *)

From Coq Require Import List NArith ZArith Lia Bool Arith.
From Coq Require Import ZifyBool ZifyNat ZifyN.
From Verif Require Import Base.Bytes Model.Types Model.Machine Model.Varint Model.Out Model.In
  Model.Raw Spec.Leb128 Spec.Wire Proofs.VarintP Proofs.OutP Proofs.InBase Proofs.InRound
  Thm.Demo Thm.Output Thm.Input Thm.Items.
Import ListNotations.
Local Open Scope N_scope.

(** ** C55 *)

(** The count asks for [n] bytes that lie inside the items. *)
Definition inside (mem : list byte) (w : nat) (count : N) (n : nat) : Prop :=
  count * N.of_nat w = N.of_nat n /\ (n <= length mem)%nat /\ N.of_nat (length mem) < 2 ^ 63.

Lemma inside_size mem w count n : inside mem w count n -> size_in_bytes w count = N.of_nat n.
Proof.
  intros (H1 & H2 & H3). unfold size_in_bytes, wmul. rewrite H1. apply N.mod_small.
  rewrite two63_val in H3. rewrite two64_val. lia.
Qed.

Lemma out_raw_put c mem w count n st :
  inside mem w count n -> out_raw c mem w count st = put_bytes c (firstn n mem) st.
Proof.
  intros H. pose proof (inside_size _ _ _ _ H) as E. destruct H as (_ & H2 & _).
  unfold out_raw. rewrite E.
  destruct n as [|n]; [reflexivity|].
  destruct (N.eqb_spec (N.of_nat (S n)) 0); [lia|].
  destruct mem as [|b mem]; [cbn in H2; lia|]. cbn [firstn].
  unfold put_bytes, put, seq.
  replace (length (b :: firstn n mem)) with (S n)
    by (cbn [length] in *; rewrite firstn_length_le by lia; reflexivity).
  destruct (reserve c (N.of_nat (S n)) st) as [r s1]. destruct r; try reflexivity.
  destruct (N.leb_spec (N.of_nat (S n)) (N.of_nat (length (b :: mem)))); [|lia].
  now rewrite Nat2N.id.
Qed.

Lemma put_bytes_put c e : e <> [] -> put_bytes c e = put c e.
Proof. now destruct e. Qed.

(** Writing: on success exactly the first [n] bytes of the items are at the old position, the
    bytes before and after are as before and the position has moved by [n]; a fixed buffer
    accepts exactly what fits; nothing is undefined. *)
Theorem raw_written c mem w count n st :
  wf_out c -> ost_ok st -> inside mem w count n ->
  let '(r, st') := out_raw c mem w count st in
  (r = ROk ->
     opos st' = (opos st + n)%nat
     /\ window (obuf st') (opos st) n = firstn n mem
     /\ firstn (opos st) (obuf st') = firstn (opos st) (obuf st)
     /\ firstn (length (obuf st) - (opos st + n)) (skipn (opos st + n) (obuf st'))
        = skipn (opos st + n) (obuf st))
  /\ (growable c = false ->
       r = if (opos st + n <=? length (obuf st))%nat then ROk else RErr result_out_of_range)
  /\ (r <> ROk -> st' = st /\ (r = RErr result_out_of_range \/ r = RErr no_buffer_space \/ r = RThrow)).
Proof.
  intros Hwf Hok H. rewrite (out_raw_put c mem w count n st H).
  destruct H as (_ & Hn & H63).
  set (e := firstn n mem).
  assert (Le : length e = n) by (unfold e; now apply firstn_length_le).
  pose proof (emits_put_bytes c false e Hwf) as HE. cbn [pdone fst] in HE.
  specialize (HE ltac:(rewrite Le, two63_val in *; lia) st Hok ltac:(discriminate)).
  assert (Hfix : growable c = false -> put_bytes c e st =
      if (opos st + n <=? length (obuf st))%nat
      then (ROk, mkO (overwrite (obuf st) (opos st) e) (opos st + n)) else (RErr result_out_of_range, st)).
  { intro Hg. destruct e as [|b e'] eqn:Ee.
    - cbn in Le. subst n. cbn [put_bytes]. rewrite Nat.add_0_r. destruct Hok as [Hp _].
      destruct (Nat.leb_spec (opos st) (length (obuf st))); [|lia].
      rewrite overwrite_nil. now destruct st.
    - rewrite put_bytes_put by discriminate. rewrite <- Ee in *. unfold put, seq.
      pose proof (reserve_fixed c st (length e) Hg Hok) as HR. rewrite Le in HR. rewrite Le.
      destruct Hok as [Hp _].
      destruct (Nat.ltb_spec (length (obuf st) - opos st) n); rewrite HR;
        destruct (Nat.leb_spec (opos st + n) (length (obuf st))); try lia; [reflexivity|].
      rewrite store_ok by lia. now rewrite Le. }
  assert (Hfail : fst (put_bytes c e st) <> ROk -> snd (put_bytes c e st) = st).
  { clear HE Hfix. destruct e as [|b e'] eqn:Ee; [now cbn|].
    rewrite put_bytes_put by discriminate. rewrite <- Ee in *. unfold put, reserve, seq.
    destruct (growable c) eqn:Hg.
    - pose proof (enlarge_for_spec c (N.of_nat (length e)) st Hwf Hg Hok
                    ltac:(rewrite Le, two63_val in *; lia)) as HS.
      destruct (enlarge_for c (N.of_nat (length e)) st) as [r s1].
      destruct HS as [(k & -> & _ & [[-> Hroom]|[Hr ->]]) _].
      + rewrite store_ok by (cbn [obuf opos]; rewrite app_length, zeros_length; lia). now cbn.
      + intros _. assert (Es : mkO (obuf st ++ zeros 0) (opos st) = st)
          by (unfold zeros; cbn [repeat]; rewrite app_nil_r; now destruct st).
        destruct Hr as [-> | ->]; cbn [snd]; exact Es.
    - destruct (wsub (N.of_nat (length (obuf st))) (N.of_nat (opos st)) <? N.of_nat (length e)); [reflexivity|].
      unfold store. destruct (opos st + length e <=? length (obuf st))%nat; [now cbn|reflexivity]. }
  destruct (put_bytes c e st) as [r st'] eqn:EP. cbn [fst snd] in Hfail, HE.
  destruct HE as [(e1 & e2 & k & F1 & F2 & F3 & F4 & F5) _].
  split; [|split].
  - intros ->. destruct F5 as [-> _]. cbn [pdone fst] in F1. rewrite app_nil_r in F1. subst e1. rewrite Le in F3.
    subst st'. cbn [obuf opos]. rewrite Le. destruct Hok as [Hp _].
    split; [reflexivity|]. split; [|split].
    + pose proof (window_overwrite (obuf st ++ zeros k) (opos st) e) as HWo. rewrite Le in HWo. apply HWo. rewrite app_length. lia.
    + rewrite firstn_overwrite by (rewrite ?app_length, ?zeros_length; lia).
      now rewrite firstn_app, (proj2 (Nat.sub_0_le _ _)), firstn_O, app_nil_r by lia.
    + unfold overwrite. rewrite Le.
      rewrite skipn_app, skipn_all2 by (rewrite firstn_length, app_length; lia).
      rewrite firstn_length_le by (rewrite app_length; lia).
      rewrite skipn_app, skipn_all2 by lia.
      replace (opos st + n - opos st - length e)%nat with 0%nat by lia.
      rewrite skipn_O. cbn [app]. rewrite skipn_app.
      rewrite firstn_app, skipn_length, Nat.sub_diag, firstn_O, app_nil_r.
      apply firstn_all2. rewrite skipn_length. lia.
  - intro Hg. apply Hfix in Hg. destruct (opos st + n <=? length (obuf st))%nat; congruence.
  - intro Hr. split; [now apply Hfail|]. destruct r as [|[]| | |]; try contradiction; auto.
    destruct F5 as [_ F5]. discriminate.
Qed.

(** Reading: exactly the first [n] bytes of the items are replaced by the next [n] bytes of the
    input; if there are fewer the items and the position are as before. *)
Theorem raw_read data mem w count n pos :
  small data -> (pos <= length data)%nat -> inside mem w count n ->
  in_raw data mem w count pos =
    if (pos + n <=? length data)%nat
    then (ROk, firstn n (skipn pos data) ++ skipn n mem, (pos + n)%nat)
    else (RErr result_out_of_range, mem, pos).
Proof.
  intros Hsm Hp H. pose proof (inside_size _ _ _ _ H) as E. destruct H as (_ & Hn & H63).
  unfold in_raw. rewrite E.
  destruct (N.eqb_spec (N.of_nat n) 0).
  { assert (n = O) by lia. subst n. rewrite Nat.add_0_r.
    destruct (Nat.leb_spec pos (length data)); [|lia]. reflexivity. }
  rewrite remaining_small by assumption.
  destruct (N.ltb_spec (N.of_nat (length data - pos)) (N.of_nat n));
    destruct (Nat.leb_spec (pos + n) (length data)); try lia; [reflexivity|].
  destruct (N.leb_spec (N.of_nat n) (N.of_nat (length mem))); [|lia].
  rewrite Nat2N.id. unfold load. destruct (Nat.leb_spec (pos + n) (length data)); [|lia].
  unfold overwrite, window. cbn [firstn app]. rewrite firstn_length_le by (rewrite skipn_length; lia).
  now rewrite Nat.add_0_l.
Qed.

(** Together: what was written is read back into the first [n] bytes of any items. *)
Theorem raw_round_trip c mem mem' w count n st st' data pos :
  wf_out c -> ost_ok st -> inside mem w count n -> inside mem' w count n ->
  out_raw c mem w count st = (ROk, st') ->
  small data -> has_at data pos (window (obuf st') (opos st) (opos st' - opos st)) ->
  in_raw data mem' w count pos = (ROk, firstn n mem ++ skipn n mem', (pos + n)%nat).
Proof.
  intros Hwf Hok Hi Hi' Ho Hsm Hat.
  pose proof (raw_written c mem w count n st Hwf Hok Hi) as H. rewrite Ho in H.
  destruct H as [H _]. destruct (H eq_refl) as (E1 & E2 & _).
  rewrite E1 in Hat. replace (opos st + n - opos st)%nat with n in Hat by lia. rewrite E2 in Hat.
  destruct Hat as [Hb Hw].
  assert (L : length (firstn n mem) = n) by (apply firstn_length_le; apply Hi).
  rewrite L in *. rewrite (raw_read data mem' w count n pos Hsm ltac:(lia) Hi').
  destruct (Nat.leb_spec (pos + n) (length data)); [|lia].
  unfold window in Hw. now rewrite Hw.
Qed.

(** A count beyond the items is not noticed: the bytes after them are read (sent) ... *)
Theorem raw_beyond_refuted c mem w count n st :
  wf_out c -> ost_ok st ->
  count * N.of_nat w = N.of_nat n -> (length mem < n)%nat -> N.of_nat n < 2 ^ 63 ->
  (opos st + n <= length (obuf st))%nat ->
  fst (out_raw c mem w count st) = RUB
  /\ forall data pos, small data -> (pos + n <= length data)%nat ->
       fst (fst (in_raw data mem w count pos)) = RUB.
Proof.
  intros Hwf [Hp Hb] Hc Hn H63 Hfit. rewrite two63_val in *.
  assert (E : size_in_bytes w count = N.of_nat n).
  { unfold size_in_bytes, wmul. rewrite Hc. apply N.mod_small. rewrite two64_val. lia. }
  unfold out_raw, in_raw. rewrite E. destruct (N.eqb_spec (N.of_nat n) 0); [lia|].
  destruct (N.leb_spec (N.of_nat n) (N.of_nat (length mem))); [lia|]. split.
  - unfold seq, reserve, enlarge_for.
    rewrite wsub_small by (rewrite ?two64_val; lia).
    destruct (N.ltb_spec (N.of_nat (length (obuf st)) - N.of_nat (opos st)) (N.of_nat n)); [lia|].
    now destruct (growable c).
  - intros data pos Hsm Hpos. rewrite remaining_small by (auto; lia).
    destruct (N.ltb_spec (N.of_nat (length data - pos)) (N.of_nat n)); [lia|reflexivity].
Qed.

(** ... and a count whose size in bytes wraps succeeds without transferring it. *)
Theorem raw_wrap_refuted c mem data pos st :
  out_raw c mem 8 (2 ^ 61) st = (ROk, st) /\ in_raw data mem 8 (2 ^ 61) pos = (ROk, mem, pos).
Proof. split; reflexivity. Qed.

(** With the position set behind the end of the data the room left wraps around: any items but
    none are read from outside of the data. *)
Theorem raw_position_refuted data mem w count n pos :
  small data -> inside mem w count n -> (0 < n)%nat -> (length data < pos)%nat -> N.of_nat pos < 2 ^ 63 ->
  fst (fst (in_raw data mem w count pos)) = RUB.
Proof.
  intros Hsm Hi H0 Hp H63. pose proof (inside_size _ _ _ _ Hi) as E. destruct Hi as (_ & Hn & Hn63).
  rewrite two63_val in *. unfold in_raw. rewrite E. destruct (N.eqb_spec (N.of_nat n) 0); [lia|].
  unfold remaining. unfold small in Hsm. unfold wsub.
  destruct (N.ltb_spec ((N.of_nat (length data) + (two64 - N.of_nat pos mod two64)) mod two64) (N.of_nat n)) as [L|L].
  - exfalso. revert L. rewrite (N.mod_small (N.of_nat pos)) by (rewrite two64_val; lia).
    rewrite N.mod_small by (rewrite two64_val in *; lia). rewrite two64_val in *. lia.
  - destruct (N.leb_spec (N.of_nat n) (N.of_nat (length mem))); [|reflexivity].
    unfold load. rewrite Nat2N.id. destruct (Nat.leb_spec (pos + n) (length data)); [lia|reflexivity].
Qed.

(** Non-vacuity: two of three 2-byte items. *)
Example raw_nontrivial :
  let mem := [x01; x02; x03; x04; x05; x06] in
  inside mem 2 2 4
  /\ out_raw span_cfg mem 2 2 (mkO [x0a; x0b; x0c; x0d; x0e; x0f] 1) = (ROk, mkO [x0a; x01; x02; x03; x04; x0f] 5)
  /\ out_raw span_cfg mem 2 3 (mkO [x0a; x0b; x0c; x0d; x0e; x0f] 1)
     = (RErr result_out_of_range, mkO [x0a; x0b; x0c; x0d; x0e; x0f] 1)
  /\ in_raw [x0a; x01; x02; x03; x04; x0f] [x00; x00; x00; x00; x07; x08] 2 2 1
     = (ROk, [x01; x02; x03; x04; x07; x08], 5%nat)
  /\ fst (out_raw span_cfg [x01; x02] 2 2 (mkO [x0a; x0b; x0c; x0d; x0e; x0f] 1)) = RUB.
Proof.
  cbv zeta. split; [split; [reflexivity|split; [cbn; lia|reflexivity]]|].
  repeat split; vm_compute; reflexivity.
Qed.

(** ** C56 *)

(** Reading an integer first and passing it as the id, in(id); in(known_id(id, variant)), gives
    what reading the variant with its id gives: same outcome, object and position. *)
Theorem dynamic_id_split G c data fuel w meta alts isb old prior pos :
  match des G c data fuel (TScalar w isb) (VN old) pos with
  | (ROk, VN id, p) =>
      des G c data fuel (TVariant (IdInt w) meta alts) prior pos
      = des_dynamic G c data fuel meta alts id prior p
  | (r, _, p) => des G c data fuel (TVariant (IdInt w) meta alts) prior pos = (r, prior, p)
  end.
Proof.
  unfold des. rewrite des_variant_eq. cbn [des_ty des_id]. unfold des_scalar.
  destruct (remaining data pos <? N.of_nat w); [reflexivity|].
  destruct (load data pos w) as [e|]; reflexivity.
Qed.

Theorem dynamic_id_round_trip G cw cr i id dc x t meta alts st st' data pos fuel prior :
  distinct (map fst meta) = true ->
  nth_error meta i = Some (id, dc) -> nth_error alts i = Some t ->
  writing G cw x t -> bits_ok G t st -> ost_ok st ->
  ser_known G cw i alts (VAlt i x) st = (ROk, st') ->
  dsize cr = dsize cw -> xorb (host_le cr) (swap cr) = xorb (host_le cw) (swap cw) ->
  tall (rt_ok cr) t = true -> tall_env (rt_ok cr) G ->
  readable G cr x t = true -> (height x <= fuel)%nat ->
  (forall y, prior = VAlt i y -> wt G y t = true) ->
  small data ->
  has_at data pos (window (obuf st') (opos st) (opos st' - opos st)) ->
  des_dynamic G cr data fuel meta alts id prior pos = (ROk, VAlt i x, (pos + (opos st' - opos st))%nat).
Proof.
  intros Hd Hm Ha HW Hb Hok H Hds Ho Ht HtG Hr Hh Hpr Hsm Hat.
  unfold ser_known in H. rewrite Nat.eqb_refl, Ha in H.
  unfold des_dynamic. rewrite (find_id_nth meta id dc i Hd Hm), Ha, Hm.
  assert (Wd : wt G (dflt G t) t = true)
    by (apply wt_dflt; [apply (w_env _ _ _ _ HW)|apply (w_wf _ _ _ _ HW)]).
  unfold des_inplace. destruct dc; (erewrite (round_trip G cw cr x t st st' data pos fuel); [reflexivity|..]; eauto).
  unfold active. destruct prior; auto.
  destruct (Nat.eqb_spec i i0); [subst; now apply Hpr|exact Wd].
Qed.

Theorem dynamic_id_unknown G c data fuel meta alts id prior pos :
  ~ In id (map fst meta) ->
  des_dynamic G c data fuel meta alts id prior pos = (RErr bad_message, prior, pos).
Proof.
  intro Hn. unfold des_dynamic. destruct (find_id meta id) as [i|] eqn:E; [|reflexivity].
  apply find_id_some in E as (dc & E). exfalso. apply Hn.
  apply (in_map (@fst N bool) meta (id, dc)). eapply nth_error_In; eauto.
Qed.

(** Unlike the compile-time known_id, an alternative that is not default constructible is fine. *)
Example dynamic_id_nontrivial :
  let meta := [(0x201, true); (0x403, false)] in
  let alts := [TScalar 1 false; TScalar 2 false] in
  wf node_env (TVariant (IdInt 2) meta alts) = true
  /\ ser_known node_env vec_cfg 1 alts (VAlt 1 (VN 0x605)) (mkO [] 0) = (ROk, mkO [x05; x06; x00] 2)
  /\ des_dynamic node_env vec_cfg [x05; x06] 0 meta alts 0x403 (VAlt 0 (VN 9)) 0 = (ROk, VAlt 1 (VN 0x605), 2%nat)
  /\ des_dynamic node_env vec_cfg [x05; x06] 0 meta alts 0x404 (VAlt 0 (VN 9)) 0 = (RErr bad_message, VAlt 0 (VN 9), 0%nat)
  /\ des node_env vec_cfg [x03; x04; x05; x06] 0 (TVariant (IdInt 2) meta alts) (VAlt 0 (VN 9)) 0
     = (ROk, VAlt 1 (VN 0x605), 4%nat).
Proof. repeat split; vm_compute; reflexivity. Qed.
