(** What actions that may leave unfinished bytes on failure (protocol messages with a size
    placeholder) do to the buffer. *)

From Coq Require Import List NArith ZArith Lia Bool Arith.
From Coq Require Import ZifyBool ZifyNat ZifyN.
From Verif Require Import Base.Bytes Model.Types Model.Machine Model.Varint Model.Out Model.In
  Model.Loops Model.Protocol Spec.Leb128 Spec.Wire Proofs.VarintP Proofs.OutP.
Import ListNotations.
Local Open Scope N_scope.

Ltac Zify.zify_post_hook ::= Z.div_mod_to_equations.

(** The buffer was extended by [k] bytes, only if allowed. *)
Definition grew (c : cfg) (st : ost) (k : nat) : Prop :=
  k = O \/ growable c = true
           /\ within_limit c (N.of_nat (length (obuf st) + k)) = true
           /\ can_alloc c (N.of_nat (length (obuf st) + k)) = true.

(** Exactly [e] was written at the position. *)
Definition wrote_exactly (c : cfg) (st : ost) (e : list byte) (st' : ost) : Prop :=
  exists k,
    st' = mkO (overwrite (obuf st ++ zeros k) (opos st) e) (opos st + length e) /\
    (opos st + length e <= length (obuf st) + k)%nat /\ grew c st k.

(** Only bytes from the position on were touched. *)
Definition framed (c : cfg) (st st' : ost) : Prop :=
  exists k junk,
    obuf st' = overwrite (obuf st ++ zeros k) (opos st) junk /\
    (opos st <= opos st' <= opos st + length junk)%nat /\
    (opos st + length junk <= length (obuf st) + k)%nat /\ grew c st k.

Definition pemits (c : cfg) (a : act) (e : list byte) : Prop :=
  wf_out c -> N.of_nat (length e) < 2 ^ 63 ->
  forall st, ost_ok st ->
  let '(r, st') := a st in
  match r with
  | ROk => wrote_exactly c st e st'
  | RErr result_out_of_range =>
      growable c = false /\ framed c st st' /\ (length (obuf st) - opos st < length e)%nat
  | RErr no_buffer_space | RThrow => growable c = true /\ framed c st st'
  | _ => False
  end /\
  (forall E, rich c E -> (opos st + length e <= E)%nat -> r = ROk).

Lemma grew_ok c st k p :
  ost_ok st -> grew c st k -> (p <= length (obuf st) + k)%nat ->
  forall b, length b = (length (obuf st) + k)%nat -> ost_ok (mkO b p).
Proof.
  intros [H1 H2] Hg Hp b Hb. split; cbn [obuf opos]; [lia|].
  destruct Hg as [->|(_ & _ & Hc)]; [rewrite Hb, Nat.add_0_r; exact H2|].
  unfold can_alloc in Hc. apply andb_true_iff in Hc as [Hc _]. apply N.ltb_lt in Hc.
  now rewrite Hb.
Qed.

Lemma wrote_ok c st e st' : ost_ok st -> wrote_exactly c st e st' -> ost_ok st'.
Proof.
  intros Hok (k & -> & Hf & Hg). eapply grew_ok; eauto.
  rewrite overwrite_length; rewrite app_length, zeros_length; lia.
Qed.

Lemma framed_ok c st st' : ost_ok st -> framed c st st' -> ost_ok st'.
Proof.
  intros Hok (k & junk & Hb & Hp & Hf & Hg). destruct st' as [b p]. cbn [obuf opos] in *.
  eapply grew_ok; eauto; [lia|].
  rewrite Hb, overwrite_length; rewrite app_length, zeros_length; lia.
Qed.

Lemma grew_add c st k k2 b p :
  length b = (length (obuf st) + k)%nat ->
  grew c st k -> grew c (mkO b p) k2 -> grew c st (k + k2).
Proof.
  intros Hb Hg [->|Hg2]; [now rewrite Nat.add_0_r|].
  right. cbn [obuf] in Hg2. rewrite Hb, <- Nat.add_assoc in Hg2. exact Hg2.
Qed.

Lemma overwrite_grow (b : list byte) k k2 p e e2 :
  (p + length e <= length b + k)%nat ->
  overwrite (overwrite (b ++ zeros k) p e ++ zeros k2) (p + length e) e2
  = overwrite (b ++ zeros (k + k2)) p (e ++ e2).
Proof.
  intro H.
  rewrite <- overwrite_app_r by (rewrite app_length, zeros_length; lia).
  rewrite <- app_assoc, <- zeros_app.
  rewrite overwrite_app by (rewrite app_length, zeros_length; lia). reflexivity.
Qed.

Lemma wrote_seq c st e1 st1 e2 st2 :
  ost_ok st -> wrote_exactly c st e1 st1 -> wrote_exactly c st1 e2 st2 ->
  wrote_exactly c st (e1 ++ e2) st2.
Proof.
  intros Hok (k & -> & Hf & Hg) (k2 & -> & Hf2 & Hg2). cbn [obuf opos] in *.
  assert (HL : length (overwrite (obuf st ++ zeros k) (opos st) e1) = (length (obuf st) + k)%nat)
    by (rewrite overwrite_length; rewrite app_length, zeros_length; lia).
  rewrite HL in Hf2. exists (k + k2)%nat. repeat split.
  - rewrite overwrite_grow by lia. f_equal. rewrite app_length. lia.
  - rewrite app_length. lia.
  - eapply grew_add; eauto.
Qed.

Lemma wrote_framed c st e1 st1 st2 :
  wrote_exactly c st e1 st1 -> framed c st1 st2 -> framed c st st2.
Proof.
  intros (k & -> & Hf & Hg) (k2 & junk & Hb & Hp & Hf2 & Hg2). cbn [obuf opos] in *.
  assert (HL : length (overwrite (obuf st ++ zeros k) (opos st) e1) = (length (obuf st) + k)%nat)
    by (rewrite overwrite_length; rewrite app_length, zeros_length; lia).
  rewrite HL in Hf2. exists (k + k2)%nat, (e1 ++ junk). rewrite app_length. repeat split; try lia.
  - rewrite Hb. now rewrite overwrite_grow by lia.
  - eapply grew_add; eauto.
Qed.

Lemma framed_refl c st : ost_ok st -> framed c st st.
Proof.
  intros [H _]. exists O, []. unfold zeros. cbn [repeat length]. rewrite app_nil_r, overwrite_nil.
  repeat split; try lia. now left.
Qed.

Lemma wrote_is_framed c st e st' : wrote_exactly c st e st' -> framed c st st'.
Proof. intros (k & -> & Hf & Hg). exists k, e. cbn [obuf opos]. repeat split; auto; lia. Qed.

Lemma emits_pemits c a e : emits c false a (pdone e) -> pemits c a e.
Proof.
  intros H Hwf Hl st Hok. specialize (H Hwf Hl st Hok ltac:(discriminate)).
  destruct (a st) as [r st']. destruct H as [(e1 & e2 & k & F1 & F2 & F3 & F4 & F5) HR].
  cbn [fst snd pdone final] in *. split; [|exact HR].
  assert (HF : framed c st st').
  { exists k, e1. subst st'. cbn [obuf opos]. repeat split; auto; lia. }
  destruct r as [|[]| | |]; try tauto; try (destruct F5; discriminate).
  - destruct F5 as [-> _]. rewrite app_nil_r in F1. subst e1. exists k. auto.
Qed.

Lemma pemits_ret c : pemits c ret [].
Proof. apply emits_pemits. apply emits_ret. Qed.

Lemma pemits_seq c a1 a2 e1 e2 :
  pemits c a1 e1 -> pemits c a2 e2 -> pemits c (a1 ;; a2) (e1 ++ e2).
Proof.
  intros H1 H2 Hwf Hl st Hok. rewrite app_length in Hl.
  specialize (H1 Hwf ltac:(lia) st Hok). unfold seq. destruct (a1 st) as [r1 st1].
  destruct H1 as [O1 R1].
  assert (HR : r1 <> ROk -> forall E, rich c E -> (opos st + length (e1 ++ e2) <= E)%nat -> r1 = ROk).
  { intros _ E HE HE2. apply (R1 E HE). rewrite app_length in HE2. lia. }
  destruct r1 as [|[]| | |]; try tauto.
  - pose proof (wrote_ok c st e1 st1 Hok O1) as Hok1.
    specialize (H2 Hwf ltac:(lia) st1 Hok1).
    destruct (a2 st1) as [r2 st2]. destruct H2 as [O2 R2].
    assert (Hfit : opos st1 = (opos st + length e1)%nat)
      by (destruct O1 as (k & -> & _); reflexivity).
    split.
    + destruct r2 as [|[]| | |]; try tauto.
      * eapply wrote_seq; eauto.
      * destruct O2 as (Hg & HF & Hs). split; [exact Hg|]. split; [eapply wrote_framed; eauto|].
        destruct O1 as (k & -> & Hk & [->|(Hg' & _)]); [|congruence].
        cbn [obuf opos] in Hs.
        rewrite overwrite_length in Hs by (rewrite app_length, zeros_length; lia).
        rewrite app_length, zeros_length in Hs. rewrite app_length. lia.
      * destruct O2 as (Hg & HF). split; [exact Hg|]. eapply wrote_framed; eauto.
      * destruct O2 as (Hg & HF). split; [exact Hg|]. eapply wrote_framed; eauto.
    + intros E HE HE2. apply (R2 E HE). rewrite app_length in HE2. lia.
  - split; [|apply HR; discriminate]. destruct O1 as (Hg & HF & Hs).
    rewrite app_length. repeat split; auto. lia.
  - split; [|apply HR; discriminate]. exact O1.
  - split; [|apply HR; discriminate]. exact O1.
Qed.

(** Only the outcome and the frame matter: an action that differs by moving the position back
    on an exception is as good. *)
Lemma pemits_ext c a a' e : (forall st, a st = a' st) -> pemits c a e -> pemits c a' e.
Proof. intros H Hp Hwf Hl st Hok. rewrite <- H. now apply Hp. Qed.

Lemma overwrite_cover {A} (l : list A) p e1 e2 :
  (length e1 <= length e2)%nat -> (p + length e2 <= length l)%nat ->
  overwrite (overwrite l p e1) p e2 = overwrite l p e2.
Proof.
  intros H1 H2. unfold overwrite at 1 3.
  rewrite firstn_overwrite by lia. rewrite skipn_overwrite by lia. reflexivity.
Qed.

Lemma overwrite_app_l {A} (l : list A) p e1 e2 :
  (p + length e1 + length e2 <= length l)%nat ->
  overwrite (overwrite l (p + length e1) e2) p e1 = overwrite l p (e1 ++ e2).
Proof.
  intro H. apply list_ext. intro i.
  rewrite !nth_error_overwrite by (rewrite ?overwrite_length, ?app_length; lia).
  rewrite app_length.
  destruct (Nat.leb_spec p i); destruct (Nat.ltb_spec i (p + length e1));
    destruct (Nat.ltb_spec i (p + (length e1 + length e2)));
    destruct (Nat.leb_spec (p + length e1) i); 
    destruct (Nat.ltb_spec i (p + length e1 + length e2)); cbn [andb]; try lia; try reflexivity.
  - now rewrite nth_error_app1 by lia.
  - rewrite nth_error_app2 by lia. f_equal. lia.
Qed.

(** The size prefix of a protocol message of [n] bytes. *)
Definition proto_prefix (c : cfg) (s : sizety) (n : N) : list byte :=
  match s with
  | SzNone => []
  | SzFix w => hostrep c w (n mod pow256 w)
  | SzVar w => leb128 n
  end.

(** The message is short enough for its size type: always for fixed sizes (which are
    truncated), up to 7 bits per byte of the type for varints (the prefix is written into a
    span of sizeof(SizeType) bytes). *)
Definition size_fits (s : sizety) (n : N) : Prop :=
  match s with SzVar w => n < 128 ^ N.of_nat w | _ => True end.

Lemma hostrep_length c w n : length (hostrep c w n) = w.
Proof. unfold hostrep. destruct (host_le c); rewrite ?rev_length, le_bytes_length; reflexivity. Qed.

Lemma pow128_le_256 w : 128 ^ N.of_nat w <= pow256 w.
Proof. unfold pow256. apply N.pow_le_mono_l. lia. Qed.

Lemma wrote_len c st e st' :
  wrote_exactly c st e st' -> opos st' = (opos st + length e)%nat /\
  (opos st' <= length (obuf st'))%nat.
Proof.
  intros (k & -> & H & _). cbn [obuf opos]. split; [reflexivity|].
  rewrite overwrite_length; rewrite app_length, zeros_length; lia.
Qed.

(** Placeholder, then message. *)
Lemma pemits_size0 c s :
  wfsz (Some s) = true ->
  pemits c (ser_size c s 0) (match s with SzNone => [] | SzFix w => zeros w | SzVar w => [x00] end).
Proof.
  intro Hs. apply emits_pemits. destruct s as [|w|w]; cbn [ser_size wfsz] in *.
  - apply emits_ret.
  - replace (scalar_bytes c w (trunc w 0)) with (zeros w); [apply emits_put|].
    unfold scalar_bytes, hostrep, trunc. rewrite N.mod_0_l by (pose proof (pow256_pos w); lia).
    rewrite le_bytes_0.
    assert (Hr : rev (zeros w) = zeros w).
    { apply list_ext. intro i. unfold zeros.
      assert (H : forall n x, rev (repeat x n) = repeat (x : byte) n).
      { clear. induction n as [|n IH]; intro x; [reflexivity|]. cbn. rewrite IH.
        clear. induction n as [|n IH]; [reflexivity|]. cbn. now rewrite IH. }
      now rewrite H. }
    destruct (host_le c), (swap c); rewrite ?Hr, ?rev_involutive; try reflexivity.
  - pose proof (emits_varint c false w false false (trunc w 0) Hs (trunc_lt w 0)) as H.
    cbn [varint_number] in H. unfold trunc in *.
    rewrite N.mod_0_l in H |- * by (pose proof (pow256_pos w); lia). exact H.
Qed.

(** An action followed by a step that completes what the action wrote. *)
Lemma pemits_then c a e0 (fin : ost -> act) e :
  pemits c a e0 -> (length e0 <= length e)%nat ->
  (wf_out c -> N.of_nat (length e) < 2 ^ 63 -> forall st st2,
   ost_ok st -> wrote_exactly c st e0 st2 ->
   let '(r, st') := fin st st2 in
   match r with
   | ROk => wrote_exactly c st e st'
   | RErr result_out_of_range =>
       growable c = false /\ framed c st st' /\ (length (obuf st) - opos st < length e)%nat
   | RErr no_buffer_space | RThrow => growable c = true /\ framed c st st'
   | _ => False
   end /\ (forall E, rich c E -> (opos st + length e <= E)%nat -> r = ROk)) ->
  pemits c (fun st => match a st with (ROk, st') => fin st st' | other => other end) e.
Proof.
  intros Ha Hle Hfin Hwf Hl st Hok. specialize (Ha Hwf ltac:(lia) st Hok).
  destruct (a st) as [r st2]. destruct Ha as [O R].
  assert (HR : forall E, rich c E -> (opos st + length e <= E)%nat -> r = ROk)
    by (intros E HE HE2; apply (R E HE); lia).
  destruct r as [|[]| | |]; try tauto.
  - now apply Hfin.
  - split; [|exact HR]. destruct O as (A & B & D). repeat split; auto. lia.
Qed.

Lemma ser_protocol_fix c w body st :
  ser_protocol c (SzFix w) body st =
  match (ser_size c (SzFix w) 0 ;; body) st with
  | (ROk, st') =>
      patch_size c (SzFix w) (opos st)
        (wsub (wsub (N.of_nat (opos st')) (N.of_nat (opos st))) (N.of_nat w)) st'
  | other => other
  end.
Proof.
  cbn [ser_protocol]. unfold seq. destruct (ser_size c (SzFix w) 0 st) as [[] st1]; try reflexivity.
Qed.

Lemma ser_protocol_var c w body st :
  ser_protocol c (SzVar w) body st =
  match (ser_size c (SzVar w) 0 ;; body) st with
  | (ROk, st') =>
      let n := wsub (wsub (N.of_nat (opos st')) (N.of_nat (opos st))) 1 in
      (shift_message c (opos st + 1) n (varint_size n - 1) ;; patch_size c (SzVar w) (opos st) n) st'
  | other => other
  end.
Proof.
  cbn [ser_protocol]. unfold seq. destruct (ser_size c (SzVar w) 0 st) as [[] st1]; try reflexivity.
Qed.

Lemma reserve_spec c n st :
  wf_out c -> ost_ok st -> n < 2 ^ 63 ->
  let '(r, st') := reserve c n st in
  match r with
  | ROk => exists k, st' = mkO (obuf st ++ zeros k) (opos st) /\ grew c st k /\
                     N.of_nat (opos st) + n <= N.of_nat (length (obuf st) + k)
  | RErr result_out_of_range =>
      growable c = false /\ st' = st /\ N.of_nat (length (obuf st) - opos st) < n
  | RErr no_buffer_space | RThrow => growable c = true /\ st' = st
  | _ => False
  end /\
  (forall E, rich c E -> N.of_nat (opos st) + n <= N.of_nat E + 10 -> r = ROk).
Proof.
  intros Hwf Hok Hn. unfold reserve. destruct (growable c) eqn:Eg.
  - pose proof (enlarge_for_spec c n st Hwf Eg Hok Hn) as H.
    destruct (enlarge_for c n st) as [r st']. destruct H as [(k & -> & Hk & Hr) HR].
    split; [|exact HR].
    destruct Hr as [[-> Hroom]|[[-> | ->] ->]].
    + exists k. repeat split; auto. destruct Hk as [->|[A B]]; [now left|right; auto].
    + unfold zeros. cbn [repeat]. rewrite app_nil_r. destruct st; auto.
    + unfold zeros. cbn [repeat]. rewrite app_nil_r. destruct st; auto.
  - destruct Hok as [H1 H2]. rewrite two63_val in *.
    rewrite wsub_small by (rewrite ?two64_val; lia).
    destruct (N.ltb_spec (N.of_nat (length (obuf st)) - N.of_nat (opos st)) n).
    + split; [|intros E (HE & _); congruence]. repeat split; auto. lia.
    + split; [|reflexivity]. exists O. unfold zeros. cbn [repeat]. rewrite app_nil_r.
      destruct st as [b q]; cbn [obuf opos] in *. repeat split; [now left|lia].
Qed.

(** Writing the size of a varint-prefixed message that is already in place. *)
Lemma patch_var c w b p n m :
  wfw w = true -> n < 128 ^ N.of_nat w ->
  (p + length (leb128 n) + length m <= length b)%nat ->
  forall junk, (length junk <= length (leb128 n ++ m))%nat ->
  patch_size c (SzVar w) p n
    (mkO (overwrite (overwrite b p junk) (p + length (leb128 n)) m) (p + length (leb128 n) + length m))
  = (ROk, mkO (overwrite b p (leb128 n ++ m)) (p + length (leb128 n ++ m))).
Proof.
  intros Hs Hn Hroom junk Hj. rewrite app_length in Hj. unfold patch_size. cbn [obuf opos].
  assert (Hw8 : (0 < w)%nat) by (destruct (wfw_cases w Hs) as [-> | [-> | [-> | -> ]]]; lia).
  assert (Hlw : (length (leb128 n) <= w)%nat)
    by (apply (leb_length_le n _ w (leb128_spec n)); [lia|exact Hn]).
  assert (Hn256 : n < pow256 w) by (pose proof (pow128_le_256 w); lia).
  unfold trunc. rewrite (N.mod_small n) by exact Hn256.
  rewrite varint_size_length.
  replace (N.of_nat w <? N.of_nat (length (leb128 n))) with false
    by (symmetry; apply N.ltb_ge; lia).
  rewrite andb_false_r, vloop_leb128 by assumption.
  assert (HL : length (overwrite b p junk) = length b) by (rewrite overwrite_length; lia).
  rewrite overwrite_length by lia. rewrite HL.
  destruct (Nat.leb_spec (p + length (leb128 n)) (length b)); [|lia].
  rewrite overwrite_app_l by lia.
  rewrite overwrite_cover; rewrite ?app_length; try lia.
  f_equal. f_equal. lia.
Qed.

Lemma overwrite_cons (b : list byte) p x m :
  (p + 1 <= length b)%nat ->
  overwrite (overwrite b p [x]) (p + 1) m = overwrite b p (x :: m).
Proof. intro H. change (x :: m) with ([x] ++ m). now rewrite <- overwrite_app. Qed.

Lemma pemits_protocol c s body m :
  wfsz (Some s) = true -> size_fits s (N.of_nat (length m)) ->
  pemits c body m ->
  pemits c (ser_protocol c s body) (proto_prefix c s (N.of_nat (length m)) ++ m).
Proof.
  intros Hs Hfit Hbody. destruct s as [|w|w]; [exact Hbody| |].
  - (* fixed width *)
    cbn [proto_prefix wfsz] in *.
    eapply pemits_ext; [intro; symmetry; apply ser_protocol_fix|].
    apply (pemits_then _ _ (zeros w ++ m)).
    { apply pemits_seq; [apply (pemits_size0 c (SzFix w) Hs)|exact Hbody]. }
    { rewrite !app_length, zeros_length, hostrep_length. lia. }
    intros Hwf Hl st st2 Hok (k & -> & Hk & Hg).
    rewrite app_length, ?hostrep_length, ?zeros_length in *.
    assert (Hw : (w <= 8)%nat) by (destruct (wfw_cases w Hs) as [-> | [-> | [-> | -> ]]]; lia).
    unfold patch_size. cbn [obuf opos].
    assert (Hn : wsub (wsub (N.of_nat (opos st + (w + length m))) (N.of_nat (opos st)))
                   (N.of_nat w) = N.of_nat (length m)).
    { destruct Hok as [Hp1 Hp2]. rewrite two63_val in *.
      rewrite (wsub_small (N.of_nat (opos st + (w + length m)))); rewrite ?two64_val; try lia.
      rewrite wsub_small; rewrite ?two64_val; lia. }
    rewrite Hn, hostrep_length.
    assert (HL : length (overwrite (obuf st ++ zeros k) (opos st) (zeros w ++ m))
                 = (length (obuf st) + k)%nat)
      by (rewrite overwrite_length; rewrite ?app_length, ?zeros_length; lia).
    rewrite HL.
    destruct (Nat.leb_spec (opos st + w) (length (obuf st) + k)); [|lia].
    split; [|reflexivity].
    exists k. rewrite app_length, hostrep_length. repeat split; auto.
    f_equal.
    assert (Hsplit : overwrite (obuf st ++ zeros k) (opos st) (zeros w ++ m)
      = overwrite (overwrite (obuf st ++ zeros k) (opos st + length (zeros w)) m) (opos st) (zeros w)).
    { rewrite overwrite_app_l; [reflexivity|]. rewrite app_length, !zeros_length. lia. }
    rewrite Hsplit, zeros_length. rewrite overwrite_cover.
    + pose proof (overwrite_app_l (obuf st ++ zeros k) (opos st)
        (hostrep c w (N.of_nat (length m) mod pow256 w)) m) as HO.
      rewrite hostrep_length, app_length, zeros_length in HO. apply HO. lia.
    + rewrite zeros_length, hostrep_length. lia.
    + rewrite overwrite_length; rewrite ?app_length, ?zeros_length, ?hostrep_length; lia.
  - (* varint *)
    cbn [proto_prefix size_fits wfsz] in *.
    set (n := N.of_nat (length m)) in *.
    pose proof (leb128_nonempty n) as Hne.
    assert (Hlw : (length (leb128 n) <= 8)%nat).
    { assert (Hw : (0 < w <= 8)%nat) by (destruct (wfw_cases w Hs) as [-> | [-> | [-> | -> ]]]; lia).
      pose proof (leb_length_le n _ w (leb128_spec n) ltac:(lia) Hfit). lia. }
    eapply pemits_ext; [intro; symmetry; apply ser_protocol_var|].
    apply (pemits_then _ _ ([x00] ++ m)).
    { apply pemits_seq; [apply (pemits_size0 c (SzVar w) Hs)|exact Hbody]. }
    { rewrite !app_length. cbn [length]. lia. }
    intros Hwf Hl st st2 Hok O2. rewrite app_length in Hl |- *.
    pose proof (wrote_ok _ _ _ _ Hok O2) as Hok2.
    pose proof O2 as O2w. destruct O2 as (k & Hst2 & Hk & Hg). cbn [app length] in Hk, Hst2.
    assert (Hp2 : opos st2 = (opos st + S (length m))%nat) by (rewrite Hst2; reflexivity).
    assert (HL2 : length (obuf st2) = (length (obuf st) + k)%nat).
    { rewrite Hst2. cbn [obuf].
      rewrite overwrite_length; rewrite ?app_length, ?zeros_length; cbn [app length]; lia. }
    assert (Hn : wsub (wsub (N.of_nat (opos st2)) (N.of_nat (opos st))) 1 = n).
    { destruct Hok as [Hp1 Hp3]. rewrite Hp2. rewrite two63_val in *. unfold n.
      rewrite (wsub_small (N.of_nat (opos st + S (length m)))); rewrite ?two64_val; try lia.
      rewrite wsub_small; rewrite ?two64_val; lia. }
    cbn zeta. rewrite Hn, varint_size_length. unfold shift_message, seq.
    destruct (N.eqb_spec (N.of_nat (length (leb128 n)) - 1) 0) as [Hby|Hby].
    + unfold ret. assert (Hl1 : length (leb128 n) = 1%nat) by lia.
      pose proof (patch_var c w (obuf st ++ zeros k) (opos st) n m Hs Hfit) as HP.
      rewrite app_length, zeros_length, Hl1 in HP.
      specialize (HP ltac:(lia) [x00] ltac:(rewrite app_length; cbn [length]; lia)).
      rewrite overwrite_cons in HP by (rewrite app_length, zeros_length; lia).
      replace (opos st + 1 + length m)%nat with (opos st + S (length m))%nat in HP by lia.
      rewrite <- Hst2 in HP.
      rewrite HP. split; [|reflexivity].
      exists k. repeat split; auto. rewrite app_length. lia.
    + set (by_ := N.of_nat (length (leb128 n)) - 1) in *.
      pose proof (reserve_spec c by_ st2 Hwf Hok2 ltac:(rewrite two63_val; lia)) as HR.
      destruct (reserve c by_ st2) as [r3 st3]. destruct HR as [O3 R3].
      assert (HR : r3 <> ROk -> forall E, rich c E ->
         (opos st + (length (leb128 n) + length m) <= E)%nat -> r3 = ROk).
      { intros _ E HE HE2. apply (R3 E HE). rewrite Hp2. lia. }
      destruct r3 as [|[]| | |]; try tauto.
      * destruct O3 as (k3 & -> & Hg3 & Hroom). cbn beta iota. cbn [obuf opos].
        unfold memmove. rewrite app_length, zeros_length, HL2.
        replace (N.to_nat n) with (length m) by (unfold n; lia).
        replace (N.to_nat by_) with (length (leb128 n) - 1)%nat by lia.
        destruct (Nat.leb_spec (opos st + 1 + (length (leb128 n) - 1) + length m)
                    (length (obuf st) + k + k3)) as [_|Hbad]; [|lia].
        assert (Hbuf3 : obuf st2 ++ zeros k3
                        = overwrite (obuf st ++ zeros (k + k3)) (opos st) (x00 :: m)).
        { rewrite Hst2. cbn [obuf].
          rewrite <- overwrite_app_r by (rewrite app_length, zeros_length; cbn [length]; lia).
          now rewrite <- app_assoc, <- zeros_app. }
        rewrite Hbuf3.
        assert (Hwin : window (overwrite (obuf st ++ zeros (k + k3)) (opos st) (x00 :: m))
                         (opos st + 1) (length m) = m).
        { rewrite <- overwrite_cons by (rewrite app_length, zeros_length; lia).
          apply window_overwrite.
          rewrite overwrite_length; rewrite app_length, zeros_length; cbn [length]; lia. }
        rewrite Hwin.
        replace (opos st + 1 + (length (leb128 n) - 1))%nat
          with (opos st + length (leb128 n))%nat by lia.
        rewrite Hp2.
        replace (opos st + S (length m) + (length (leb128 n) - 1))%nat
          with (opos st + length (leb128 n) + length m)%nat by lia.
        rewrite patch_var; auto.
        -- split; [|reflexivity]. exists (k + k3)%nat. repeat split.
           ++ rewrite app_length. lia.
           ++ destruct st2 as [b2 p2]. eapply grew_add; eauto.
        -- rewrite app_length, zeros_length. lia.
        -- rewrite app_length. cbn [length]. lia.
      * split; [|apply HR; discriminate]. destruct O3 as (A & -> & D).
        repeat split; auto; [eapply wrote_is_framed; eauto|].
        rewrite HL2, Hp2 in D. destruct Hg as [->|(B & _)]; [|congruence].
        lia.
      * split; [|apply HR; discriminate]. destruct O3 as (A & ->). split; [exact A|].
        eapply wrote_is_framed; eauto.
      * split; [|apply HR; discriminate]. destruct O3 as (A & ->). split; [exact A|].
        eapply wrote_is_framed; eauto.
Qed.
