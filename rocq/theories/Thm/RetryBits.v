(** C44, continued: writing the same values again after a failure, bitsets included. *)

From Coq Require Import List NArith ZArith Lia Bool Arith.
From Coq Require Import ZifyBool ZifyNat ZifyN.
From Verif Require Import Base.Bytes Model.Types Model.Machine Model.Varint Model.Out
  Spec.Leb128 Spec.Wire Proofs.VarintP Proofs.OutP Thm.Demo Thm.Output.
Import ListNotations.
Local Open Scope N_scope.

(** The byte at an index; zero outside of the buffer. *)
Definition byte_at (l : list byte) (i : nat) : byte := nth i l x00.

(** Two states with the same position and size. *)
Definition even (a b : ost) : Prop := opos a = opos b /\ length (obuf a) = length (obuf b).

(** [a] holds from the position on what [b], which is clean, will hold, or zero. *)
Record stale (F : nat -> byte) (a b : ost) : Prop := {
  l_even : even a b;
  l_done : forall i, (i < opos b)%nat -> byte_at (obuf a) i = byte_at (obuf b) i;
  l_clean : forall i, (opos b <= i)%nat -> byte_at (obuf b) i = x00;
  l_todo : forall i, (opos b <= i)%nat -> byte_at (obuf a) i = x00 \/ byte_at (obuf a) i = F i
}.

(** Two bytes or-ed. *)
Definition mix (a b : byte) : byte := n2b (N.lor (b2n a) (b2n b)).

(** [a] holds from the position on what it held at first, or zero ([b] is clean); before it what
    [b] holds, or that or-ed into what [a] held. *)
Record dirty (D : nat -> byte) (a b : ost) : Prop := {
  d_even : even a b;
  d_done : forall i, (i < opos b)%nat ->
    byte_at (obuf a) i = byte_at (obuf b) i \/ byte_at (obuf a) i = mix (D i) (byte_at (obuf b) i);
  d_clean : forall i, (opos b <= i)%nat -> byte_at (obuf b) i = x00;
  d_todo : forall i, (opos b <= i)%nat -> byte_at (obuf a) i = x00 \/ byte_at (obuf a) i = D i
}.

Record sim (a : act) : Prop := {
  m_even : forall s t, even s t -> fst (a s) = fst (a t) /\ even (snd (a s)) (snd (a t));
  m_frame : forall s r s', a s = (r, s') -> r <> RUB ->
    (opos s <= opos s')%nat /\ forall i, (i < opos s)%nat -> byte_at (obuf s') i = byte_at (obuf s) i;
  m_stale : forall F s t r s' t', stale F s t -> a s = (r, s') -> a t = (r, t') -> r <> RUB ->
    (forall i, (opos t <= i < opos t')%nat -> byte_at (obuf t') i = F i) -> stale F s' t';
  m_dirty : forall D s t r s' t', dirty D s t -> a s = (r, s') -> a t = (r, t') -> r <> RUB -> dirty D s' t'
}.

Lemma sim_stop r : sim (fun st => (r, st)).
Proof.
  split.
  - intros s t H. auto.
  - intros s r' s' E _. injection E as _ <-. auto.
  - intros F s t r' s' t' H E E' _ _. injection E as _ <-. injection E' as _ <-. auto.
  - intros D s t r' s' t' H E E' _. injection E as _ <-. injection E' as _ <-. auto.
Qed.

Lemma sim_fail r : sim (fail r).
Proof. apply sim_stop. Qed.

Lemma sim_ret : sim ret.
Proof. apply sim_stop. Qed.

Lemma seq_cases a b s r s' : seq a b s = (r, s') ->
  (exists s1, a s = (ROk, s1) /\ b s1 = (r, s')) \/ (r <> ROk /\ a s = (r, s')).
Proof.
  unfold seq. destruct (a s) as [x s1]. destruct x; intro E; eauto; right; injection E as <- <-; split; auto; discriminate.
Qed.

Lemma sim_seq a b : sim a -> sim b -> sim (seq a b).
Proof.
  intros [A1 A2 A3 A4] [B1 B2 B3 B4]. split.
  - intros s t H. unfold seq. destruct (A1 s t H) as [H1 H2].
    destruct (a s) as [r s1], (a t) as [r' t1]. cbn [fst snd] in *. subst r'. destruct r; auto.
  - intros s r s' E Hr. apply seq_cases in E as [(s1 & E1 & E2)|[_ E]]; [|eapply A2; eauto].
    destruct (A2 _ _ _ E1 ltac:(discriminate)) as [P1 Q1], (B2 _ _ _ E2 Hr) as [P2 Q2]. split; [lia|].
    intros i Hi. rewrite Q2 by lia. auto.
  - intros F s t r s' t' H E E' Hr HF. destruct (A1 s t (l_even _ _ _ H)) as [Hx _].
    apply seq_cases in E as [(s1 & E1 & E2)|[N1 E]]; apply seq_cases in E' as [(t1 & D1 & D2)|[N2 E']].
    + destruct (A2 _ _ _ D1 ltac:(discriminate)) as [P1 Q1], (B2 _ _ _ D2 Hr) as [P2 Q2].
      eapply B3; [|exact E2|exact D2|exact Hr|intros i Hi; apply HF; lia].
      eapply A3; [exact H|exact E1|exact D1|discriminate|]. intros i Hi. rewrite <- Q2 by lia. apply HF. lia.
    + rewrite E1, E' in Hx. cbn [fst] in Hx. congruence.
    + rewrite E, D1 in Hx. cbn [fst] in Hx. congruence.
    + eapply A3; eauto.
  - intros D s t r s' t' H E E' Hr. destruct (A1 s t (d_even _ _ _ H)) as [Hx _].
    apply seq_cases in E as [(s1 & E1 & E2)|[N1 E]]; apply seq_cases in E' as [(t1 & D1 & D2)|[N2 E']].
    + eapply B4; [|exact E2|exact D2|exact Hr]. eapply A4; [exact H|exact E1|exact D1|discriminate].
    + rewrite E1, E' in Hx. cbn [fst] in Hx. congruence.
    + rewrite E, D1 in Hx. cbn [fst] in Hx. congruence.
    + eapply A4; eauto.
Qed.

(** ** Making room *)

Definition room (g : act) : Prop :=
  (forall s t, even s t -> fst (g s) = fst (g t) /\ even (snd (g s)) (snd (g t))) /\
  (forall s s', g s = (ROk, s') -> opos s' = opos s /\
     forall i, byte_at (obuf s') i = if (i <? length (obuf s'))%nat then byte_at (obuf s) i else x00) /\
  (forall s r s', g s = (r, s') -> r <> ROk -> s' = s).

Lemma byte_out l i : (length l <= i)%nat -> byte_at l i = x00.
Proof. apply nth_overflow. Qed.

Lemma room_id s : opos s = opos s /\
  forall i, byte_at (obuf s) i = if (i <? length (obuf s))%nat then byte_at (obuf s) i else x00.
Proof.
  split; [reflexivity|]. intro i. destruct (Nat.ltb_spec i (length (obuf s))); [reflexivity|now apply byte_out].
Qed.

Lemma byte_firstn n l i : byte_at (firstn n l) i = if (i <? length (firstn n l))%nat then byte_at l i else x00.
Proof.
  destruct (Nat.ltb_spec i (length (firstn n l))) as [L|L]; [|now apply byte_out].
  unfold byte_at. rewrite <- (firstn_skipn n l) at 2. now rewrite app_nth1.
Qed.

Lemma byte_zeros l k i : byte_at (l ++ zeros k) i = byte_at l i.
Proof.
  unfold byte_at. destruct (Nat.lt_ge_cases i (length l)) as [L|L]; [now rewrite app_nth1|].
  rewrite app_nth2, (nth_overflow l) by exact L. unfold zeros.
  destruct (Nat.lt_ge_cases (i - length l) k); [apply nth_repeat|apply nth_overflow; rewrite repeat_length; lia].
Qed.

Lemma room_resize c n : room (buf_resize c n).
Proof.
  split; [|split].
  - intros s t [H1 H2]. unfold buf_resize. rewrite H2. destruct (_ <=? _); [|destruct (can_alloc c n)]; cbn [fst snd];
      (split; [reflexivity|]); split; cbn [obuf opos]; auto; rewrite ?firstn_length, ?app_length; lia.
  - intros s s'. unfold buf_resize. destruct (_ <=? _); [|destruct (can_alloc c n); [|discriminate]];
      intro E; injection E as <-; cbn [obuf opos]; (split; [reflexivity|]); intro i.
    + apply byte_firstn.
    + rewrite byte_zeros. destruct (Nat.ltb_spec i (length (obuf s ++ zeros (N.to_nat n - length (obuf s))))) as [L|L];
        [reflexivity|]. rewrite app_length in L. apply byte_out. lia.
  - intros s r s'. unfold buf_resize. destruct (_ <=? _); [|destruct (can_alloc c n)]; intros E N; injection E as <- <-;
      congruence.
Qed.

Lemma room_enlarge c add : room (enlarge_for c add).
Proof.
  split; [|split].
  - intros s t H. pose proof H as [H1 H2]. unfold enlarge_for. rewrite H1, H2.
    destruct (_ <? add); [|auto]. destruct (_ && _); [auto|]. destruct (_ && _); [auto|].
    destruct (negb _); [auto|]. now apply room_resize.
  - intros s s'. unfold enlarge_for. destruct (_ <? add); [|intro E; injection E as <-; apply room_id].
    destruct (_ && _); [discriminate|]. destruct (_ && _); [discriminate|].
    destruct (negb _); [discriminate|]. apply room_resize.
  - intros s r s'. unfold enlarge_for. destruct (_ <? add); [|intros E N; injection E as <- <-; congruence].
    destruct (_ && _); [intros E N; injection E as <- <-; congruence|].
    destruct (_ && _); [intros E N; injection E as <- <-; congruence|].
    destruct (negb _); [intros E N; injection E as <- <-; congruence|]. apply room_resize.
Qed.

Lemma room_reserve c n : room (reserve c n).
Proof.
  split; [|split].
  - intros s t H. unfold reserve. destruct (growable c); [now apply room_enlarge|].
    pose proof H as [H1 H2]. rewrite H1, H2. destruct (_ <? n); auto.
  - intros s s'. unfold reserve. destruct (growable c); [apply room_enlarge|].
    destruct (_ <? n); [discriminate|]. intro E. injection E as <-. apply room_id.
  - intros s r s'. unfold reserve. destruct (growable c); [apply room_enlarge|].
    destruct (_ <? n); intros E N; injection E as <- <-; congruence.
Qed.

Lemma room_varint c w v : room (varint_reserve c w v).
Proof.
  split; [|split].
  - intros s t H. unfold varint_reserve. destruct (growable c); [now apply room_enlarge|].
    pose proof H as [H1 H2]. rewrite H1, H2. destruct (_ && _); auto.
  - intros s s'. unfold varint_reserve. destruct (growable c); [apply room_enlarge|].
    destruct (_ && _); [discriminate|]. intro E. injection E as <-. apply room_id.
  - intros s r s'. unfold varint_reserve. destruct (growable c); [apply room_enlarge|].
    destruct (_ && _); intros E N; injection E as <- <-; congruence.
Qed.

(** ** Writing *)

(** What a write of [n] bytes does to each of them: [h j] for the [j]th, and a second write changes nothing. *)
Record writes (n : nat) (W : nat -> list byte -> list byte) (h : nat -> byte -> byte) : Prop := {
  w_len : forall p l, (p + n <= length l)%nat -> length (W p l) = length l;
  w_in : forall p l i, (p + n <= length l)%nat -> (p <= i < p + n)%nat -> byte_at (W p l) i = h (i - p)%nat (byte_at l i);
  w_out : forall p l i, (p + n <= length l)%nat -> (i < p \/ p + n <= i)%nat -> byte_at (W p l) i = byte_at l i;
  w_again : forall j, h j (h j x00) = h j x00;
  w_mix : forall j b, h j b = h j x00 \/ h j b = mix b (h j x00)
}.

Definition write (n : nat) (W : nat -> list byte -> list byte) : act := fun st =>
  if (opos st + n <=? length (obuf st))%nat then (ROk, mkO (W (opos st) (obuf st)) (opos st + n)) else (RUB, st).

Lemma sim_write g n W h : room g -> writes n W h -> sim (seq g (write n W)).
Proof.
  intros (G1 & G2 & G3) [W1 W2 W3 W4 W5]. split.
  - intros s t H. unfold seq. destruct (G1 s t H) as [H1 H2].
    destruct (g s) as [r s1], (g t) as [r' t1]. cbn [fst snd] in *. subst r'. destruct r; auto.
    unfold write. destruct H2 as [E1 E2]. rewrite E1, E2.
    destruct (Nat.leb_spec (opos t1 + n) (length (obuf t1))) as [L|L]; cbn [fst snd]; (split; [reflexivity|]).
    + split; cbn [obuf opos]; [reflexivity|]. rewrite !W1 by lia. exact E2.
    + split; assumption.
  - intros s r s' E Hr. apply seq_cases in E as [(s1 & E1 & E2)|[N E]]; [|rewrite (G3 _ _ _ E N); auto].
    destruct (G2 _ _ E1) as [P1 Q1].
    unfold write in E2. destruct (Nat.leb_spec (opos s1 + n) (length (obuf s1))) as [L|L]; [|congruence].
    injection E2 as <- <-. cbn [obuf opos]. split; [lia|]. intros i Hi. rewrite W3 by lia. rewrite Q1.
    replace (i <? length (obuf s1))%nat with true by lia. reflexivity.
  - intros F s t r s' t' St E D Hr HF. pose proof St as [[L0 L0'] L1 L2 L3].
    destruct (G1 s t (conj L0 L0')) as [Hx Ev].
    apply seq_cases in E as [(s1 & E1 & E2)|[N1 E]]; apply seq_cases in D as [(t1 & D1 & D2)|[N2 D]].
    2: { rewrite E1, D in Hx. cbn [fst] in Hx. congruence. }
    2: { rewrite E, D1 in Hx. cbn [fst] in Hx. congruence. }
    2: { rewrite (G3 _ _ _ E N1), (G3 _ _ _ D N2). exact St. }
    clear St Hx. rewrite E1, D1 in Ev. cbn [snd] in Ev. destruct Ev as [V1 V2].
    destruct (G2 _ _ E1) as [P1 Q1], (G2 _ _ D1) as [P2 Q2].
    unfold write in E2, D2. destruct (Nat.leb_spec (opos s1 + n) (length (obuf s1))) as [L|L]; [|congruence].
    destruct (Nat.leb_spec (opos t1 + n) (length (obuf t1))) as [K|K]; [|congruence].
    injection E2 as <- <-. injection D2 as <-. cbn [obuf opos] in *.
    assert (Z : forall i, byte_at (obuf s1) i = byte_at (obuf s) i \/ byte_at (obuf s1) i = x00).
    { intro i. rewrite Q1. destruct (i <? _)%nat; auto. }
    split.
    + split; cbn [obuf opos]; [lia|]. rewrite !W1 by lia. exact V2.
    + cbn [obuf opos]. intros i Hi. destruct (Nat.lt_ge_cases i (opos t1)) as [B|B].
      * rewrite !W3 by lia. rewrite Q1, Q2, V2. rewrite L1 by lia. reflexivity.
      * rewrite !W2 by lia. rewrite V1, P2.
        assert (T : byte_at (obuf t1) i = x00).
        { rewrite Q2. destruct (i <? _)%nat; [apply L2; lia|reflexivity]. }
        rewrite T. pose proof (HF i ltac:(lia)) as X. rewrite W2 in X by lia. rewrite T, P2 in X.
        destruct (Z i) as [Y|Y]; rewrite Y; [|reflexivity].
        destruct (L3 i ltac:(lia)) as [Y2|Y2]; rewrite Y2; [reflexivity|]. rewrite <- X. apply W4.
    + cbn [obuf opos]. intros i Hi. rewrite W3 by lia. rewrite Q2. destruct (i <? _)%nat; [apply L2; lia|reflexivity].
    + cbn [obuf opos]. intros i Hi. rewrite W3 by lia. destruct (Z i) as [Y|Y]; rewrite Y; [apply L3; lia|now left].
  - intros D s t r s' t' St E E' Hr. pose proof St as [[L0 L0'] L1 L2 L3].
    destruct (G1 s t (conj L0 L0')) as [Hx Ev].
    apply seq_cases in E as [(s1 & E1 & E2)|[N1 E]]; apply seq_cases in E' as [(t1 & D1 & D2)|[N2 E']].
    2: { rewrite E1, E' in Hx. cbn [fst] in Hx. congruence. }
    2: { rewrite E, D1 in Hx. cbn [fst] in Hx. congruence. }
    2: { rewrite (G3 _ _ _ E N1), (G3 _ _ _ E' N2). exact St. }
    clear St Hx. rewrite E1, D1 in Ev. cbn [snd] in Ev. destruct Ev as [V1 V2].
    destruct (G2 _ _ E1) as [P1 Q1], (G2 _ _ D1) as [P2 Q2].
    unfold write in E2, D2. destruct (Nat.leb_spec (opos s1 + n) (length (obuf s1))) as [L|L]; [|congruence].
    destruct (Nat.leb_spec (opos t1 + n) (length (obuf t1))) as [K|K]; [|congruence].
    injection E2 as <- <-. injection D2 as <-. cbn [obuf opos] in *.
    assert (Z : forall i, byte_at (obuf s1) i = byte_at (obuf s) i \/ byte_at (obuf s1) i = x00).
    { intro i. rewrite Q1. destruct (i <? _)%nat; auto. }
    split.
    + split; cbn [obuf opos]; [lia|]. rewrite !W1 by lia. exact V2.
    + cbn [obuf opos]. intros i Hi. destruct (Nat.lt_ge_cases i (opos t1)) as [B|B].
      * rewrite !W3 by lia. rewrite Q1, Q2, V2. replace (i <? length (obuf t1))%nat with true by lia. apply L1. lia.
      * rewrite !W2 by lia. rewrite V1, P2.
        assert (T : byte_at (obuf t1) i = x00).
        { rewrite Q2. destruct (i <? _)%nat; [apply L2; lia|reflexivity]. }
        rewrite T. destruct (Z i) as [Y|Y]; rewrite Y; [|now left].
        destruct (L3 i ltac:(lia)) as [Y2|Y2]; rewrite Y2; [now left|]. apply W5.
    + cbn [obuf opos]. intros i Hi. rewrite W3 by lia. rewrite Q2. destruct (i <? _)%nat; [apply L2; lia|reflexivity].
    + cbn [obuf opos]. intros i Hi. rewrite W3 by lia. destruct (Z i) as [Y|Y]; rewrite Y; [apply L3; lia|now left].
Qed.

Lemma nth_skipn (l : list byte) : forall n i, nth i (skipn n l) x00 = nth (n + i) l x00.
Proof.
  induction l as [|b l IH]; intros [|n] i; cbn [skipn plus nth]; auto. destruct i; reflexivity.
Qed.

Lemma writes_store e : writes (length e) (fun p l => overwrite l p e) (fun j _ => byte_at e j).
Proof.
  split; auto.
  - intros p l H. now apply overwrite_length.
  - intros p l i H Hi. unfold byte_at, overwrite.
    rewrite app_nth2; rewrite firstn_length; [|lia]. rewrite app_nth1 by lia. f_equal. lia.
  - intros p l i H Hi. unfold byte_at, overwrite. destruct (Nat.lt_ge_cases i p) as [L|L].
    + rewrite app_nth1 by (rewrite firstn_length; lia). rewrite <- (firstn_skipn p l) at 2.
      rewrite app_nth1; [reflexivity|rewrite firstn_length; lia].
    + rewrite app_nth2 by (rewrite firstn_length; lia). rewrite firstn_length.
      rewrite app_nth2 by lia. rewrite nth_skipn. f_equal. lia.
Qed.

Lemma sim_put c e : sim (put c e).
Proof. exact (sim_write _ _ _ _ (room_reserve c _) (writes_store e)). Qed.

Lemma sim_varint c w sg zz n : sim (ser_varint c w sg zz n).
Proof. exact (sim_write _ _ _ _ (room_varint c w _) (writes_store _)). Qed.

(** Bits: each byte is or-ed with a mask. *)
Definition bit_mask (b : bool) (i : nat) : N := N.shiftl (if b then 1 else 0) (N.of_nat (i mod 8)).
Fixpoint mask (i : nat) (l : list bool) (j : nat) : N :=
  match l with
  | [] => 0
  | b :: l' => N.lor (if (j =? i / 8)%nat then bit_mask b i else 0) (mask (S i) l' j)
  end.

Lemma lor_small a b : a < 256 -> b < 256 -> N.lor a b < 256.
Proof.
  intros Ha Hb. destruct (N.eq_dec (N.lor a b) 0) as [E|E]; [rewrite E; reflexivity|].
  change 256 with (2 ^ 8). apply N.log2_lt_pow2; [lia|]. rewrite N.log2_lor.
  apply N.max_lub_lt.
  - destruct (N.eq_dec a 0) as [->|]; [reflexivity|]. apply N.log2_lt_pow2; [lia|exact Ha].
  - destruct (N.eq_dec b 0) as [->|]; [reflexivity|]. apply N.log2_lt_pow2; [lia|exact Hb].
Qed.

Lemma bit_mask_small b i : bit_mask b i < 256.
Proof.
  unfold bit_mask. pose proof (Nat.mod_upper_bound i 8 ltac:(lia)) as H.
  destruct b; [|rewrite N.shiftl_0_l; reflexivity]. rewrite N.shiftl_1_l.
  change 256 with (2 ^ 8). apply N.pow_lt_mono_r; lia.
Qed.

Lemma mask_small l : forall i j, mask i l j < 256.
Proof.
  induction l as [|b l IH]; intros i j; cbn [mask]; [reflexivity|]. apply lor_small; [|apply IH].
  destruct (_ =? _)%nat; [apply bit_mask_small|reflexivity].
Qed.

Lemma or_bit_length l p i b : length (or_bit l p i b) = length l.
Proof.
  unfold or_bit. destruct (nth_error l (p + i / 8)) eqn:E; [|reflexivity].
  assert (p + i / 8 < length l)%nat by (apply nth_error_Some; congruence).
  apply overwrite_length. cbn [length]. lia.
Qed.

Lemma or_bits_length bits : forall l p i, length (or_bits l p i bits) = length l.
Proof.
  induction bits as [|b bits IH]; intros l p i; cbn [or_bits]; [reflexivity|]. rewrite IH. apply or_bit_length.
Qed.

Lemma or_bit_at l p i b k : (k < length l)%nat ->
  byte_at (or_bit l p i b) k
  = n2b (N.lor (b2n (byte_at l k)) (if (k =? p + i / 8)%nat then bit_mask b i else 0)).
Proof.
  intro Hk. unfold or_bit. destruct (nth_error l (p + i / 8)) as [old|] eqn:E.
  - assert (L : (p + i / 8 < length l)%nat) by (apply nth_error_Some; congruence).
    destruct (writes_store [n2b (N.lor (b2n old) (N.shiftl (if b then 1 else 0) (N.of_nat (i mod 8))))]) as [_ X2 X3 _ _].
    cbn [length] in X2, X3. destruct (Nat.eqb_spec k (p + i / 8)) as [->|N].
    + rewrite X2 by lia. rewrite Nat.sub_diag. unfold byte_at at 1. cbn [nth]. unfold bit_mask. do 2 f_equal.
      unfold byte_at. rewrite (nth_error_nth _ _ x00 E). reflexivity.
    + rewrite X3 by lia. rewrite N.lor_0_r. now rewrite n2b_b2n.
  - apply nth_error_None in E. destruct (Nat.eqb_spec k (p + i / 8)) as [->|N]; [lia|].
    rewrite N.lor_0_r. now rewrite n2b_b2n.
Qed.

Lemma or_bits_at bits : forall l p i k, (k < length l)%nat -> (p <= k)%nat ->
  byte_at (or_bits l p i bits) k = n2b (N.lor (b2n (byte_at l k)) (mask i bits (k - p))).
Proof.
  induction bits as [|b bits IH]; intros l p i k Hk Hp; cbn [or_bits mask].
  - rewrite N.lor_0_r. now rewrite n2b_b2n.
  - rewrite IH by (rewrite ?or_bit_length; lia). rewrite or_bit_at by exact Hk.
    replace (k - p =? i / 8)%nat with (k =? p + i / 8)%nat by lia.
    set (m := if (k =? p + i / 8)%nat then bit_mask b i else 0).
    rewrite b2n_n2b_small.
    + now rewrite N.lor_assoc.
    + apply lor_small; [apply b2n_lt|]. unfold m. destruct (_ =? _)%nat; [apply bit_mask_small|reflexivity].
Qed.

Lemma or_bits_below bits : forall l p i k, (k < p)%nat -> byte_at (or_bits l p i bits) k = byte_at l k.
Proof.
  induction bits as [|b bits IH]; intros l p i k Hk; cbn [or_bits]; [reflexivity|].
  rewrite IH by exact Hk. destruct (Nat.lt_ge_cases k (length l)) as [L|L].
  - rewrite or_bit_at by exact L. replace (k =? p + i / 8)%nat with false by lia. rewrite N.lor_0_r. apply n2b_b2n.
  - rewrite !byte_out; rewrite ?or_bit_length; auto.
Qed.

Lemma mask_beyond bits : forall i j, (i + length bits <= 8 * j)%nat -> mask i bits j = 0.
Proof.
  induction bits as [|b bits IH]; intros i j H; cbn [mask length] in *; [reflexivity|].
  rewrite IH by lia. pose proof (Nat.div_mod i 8 ltac:(lia)).
  replace (j =? i / 8)%nat with false by lia. reflexivity.
Qed.

Lemma writes_bits n bits : length bits = n ->
  writes (bitset_bytes n) (fun p l => or_bits l p 0 bits) (fun j b => n2b (N.lor (b2n b) (mask 0 bits j))).
Proof.
  intro Hl. split.
  - intros p l H. apply or_bits_length.
  - intros p l i H Hi. apply or_bits_at; lia.
  - intros p l i H [Hi|Hi]; [now apply or_bits_below|].
    destruct (Nat.lt_ge_cases i (length l)) as [L|L].
    + rewrite or_bits_at by lia. rewrite mask_beyond; [rewrite N.lor_0_r; apply n2b_b2n|].
      unfold bitset_bytes in Hi. pose proof (Nat.div_mod (n + 7) 8 ltac:(lia)).
      pose proof (Nat.mod_upper_bound (n + 7) 8 ltac:(lia)). lia.
    + rewrite !byte_out; rewrite ?or_bits_length; auto.
  - intro j. pose proof (mask_small bits 0 j) as M. change (b2n x00) with 0. rewrite N.lor_0_l.
    rewrite b2n_n2b_small by exact M. now rewrite N.lor_diag.
  - intros j b. right. pose proof (mask_small bits 0 j) as M. unfold mix. change (b2n x00) with 0.
    rewrite N.lor_0_l, b2n_n2b_small by exact M. reflexivity.
Qed.

Lemma sim_bitset c n l : length l = n -> sim (ser_bitset c n l).
Proof. intro H. exact (sim_write _ _ _ _ (room_reserve c _) (writes_bits n l H)). Qed.

Lemma sim_put_bytes c e : sim (put_bytes c e).
Proof. destruct e; [apply sim_ret|apply sim_put]. Qed.

Lemma sim_size c s n : sim (ser_size c s n).
Proof. destruct s; cbn [ser_size]; [apply sim_ret|apply sim_put|apply sim_varint]. Qed.

Lemma sim_many G f l :
  Forall (fun x => forall t, wt G x t = true -> sim (f x t)) l ->
  forall ms, forall2b (fun x m => wt G x m) l ms = true -> sim (ser_many f l ms).
Proof.
  induction 1 as [|x l Hx Hl IH]; intros [|m ms] Hw; cbn [ser_many forall2b] in *; try discriminate; [apply sim_ret|].
  apply andb_true_iff in Hw as [H1 H2]. apply sim_seq; auto.
Qed.

Lemma sim_all G f t l :
  Forall (fun x => forall t, wt G x t = true -> sim (f x t)) l ->
  forallb (fun x => wt G x t) l = true -> sim (ser_all f l t).
Proof.
  induction 1 as [|x l Hx Hl IH]; intro Hw; cbn [ser_all forallb] in *; [apply sim_ret|].
  apply andb_true_iff in Hw as [H1 H2]. apply sim_seq; auto.
Qed.

Lemma ser_sim G c : forall v t, wt G v t = true -> sim (ser G c v t).
Proof.
  induction v as [n|l IH| |v IH|i v IH| |l|l] using val_ind'; intros t Ht;
    destruct t as [w isb| |w sg zz| |si ms|k|n' t'|ts|s cg t'|s k t'|dc t'|t'|t'|ik meta alts|n'|k|s t'];
    cbn [wt] in Ht; try discriminate; try (destruct k as [s|nv|]; discriminate);
    cbn [ser]; try (apply sim_fail); try apply sim_put; try apply sim_varint;
    try (apply sim_seq; [apply sim_size|]).
  - destruct l; [apply sim_ret|discriminate].
  - destruct (_ && _); [apply sim_ret|]. destruct (as_bytes c _); [apply sim_put_bytes|]. now apply (sim_many G).
  - now apply (sim_many G).
  - apply andb_true_iff in Ht as [_ Ht]. destruct (as_bytes c _); [apply sim_put_bytes|]. now apply (sim_all G).
  - now apply (sim_many G).
  - destruct (_ && _); [apply sim_put_bytes|]. now apply (sim_all G).
  - apply andb_true_iff in Ht as [Ht _]. now apply (sim_all G).
  - destruct (as_bytes c _); [apply sim_put_bytes|]. now apply (sim_all G).
  - apply sim_seq; [apply sim_put|now apply IH].
  - apply sim_seq; [apply sim_put|now apply IH].
  - now apply IH.
  - destruct (nth_error alts i) as [t'|] eqn:Ea; [|discriminate].
    destruct (nth_error meta i) as [[id ?]|]; [|apply sim_fail].
    apply sim_seq; [destruct ik; [apply sim_put|apply sim_put_bytes]|]. now apply IH.
  - apply Nat.eqb_eq in Ht. now apply sim_bitset.
  - destruct k as [s|nv|]; [apply sim_seq; [apply sim_size|]| |]; apply sim_put_bytes.
Qed.

Lemma byte_skipn l p i : byte_at (skipn p l) i = byte_at l (p + i).
Proof. apply nth_skipn. Qed.

Lemma byte_window l p e : window l p (length e) = e ->
  forall i, (p <= i < p + length e)%nat -> byte_at l i = byte_at e (i - p).
Proof.
  intros H i Hi. transitivity (byte_at (window l p (length e)) (i - p)); [|now rewrite H].
  assert (L : (i - p <? length (window l p (length e)))%nat = true) by (rewrite H; lia).
  unfold window in *. rewrite byte_firstn, L, byte_skipn. f_equal. lia.
Qed.

Lemma same_bytes (a b : list byte) : length a = length b ->
  (forall i, (i < length a)%nat -> byte_at a i = byte_at b i) -> a = b.
Proof. intros Hl H. apply (nth_ext a b x00 x00 Hl). exact H. Qed.

Lemma same_firstn p (a b : list byte) : (p <= length a)%nat -> (p <= length b)%nat ->
  (forall i, (i < p)%nat -> byte_at a i = byte_at b i) -> firstn p a = firstn p b.
Proof.
  intros Ha Hb H. assert (La : length (firstn p a) = p) by (rewrite firstn_length; lia).
  assert (Lb : length (firstn p b) = p) by (rewrite firstn_length; lia).
  apply same_bytes; [lia|]. intros i Hi. rewrite !byte_firstn, La, Lb.
  replace (i <? p)%nat with true by lia. apply H. lia.
Qed.

Lemma clean_byte st i : clean st -> (opos st <= i)%nat -> byte_at (obuf st) i = x00.
Proof.
  unfold clean. intros H Hi. replace i with (opos st + (i - opos st))%nat by lia. rewrite <- byte_skipn, H.
  etransitivity; [exact (byte_zeros [] _ _)|]. now destruct (i - opos st)%nat.
Qed.

(** Whatever came of writing the value from a clean state - an error, an exception or success -
    writing it again at the same position, in the same or a larger buffer, gives its encoding:
    the bits already set are bits of the encoding. *)
Theorem out_again_after_failure G c c2 v t st r st' m st2 :
  writing G c v t -> writing G c2 v t -> fmt_of c2 = fmt_of c ->
  clean st -> ost_ok st ->
  ser G c v t st = (r, st') ->
  N.of_nat (length (obuf st') + m) < 2 ^ 63 ->
  ser G c2 v t (mkO (obuf st' ++ zeros m) (opos st)) = (ROk, st2) ->
  opos st2 = (opos st + length (encode G (fmt_of c) v t))%nat
  /\ firstn (opos st) (obuf st2) = firstn (opos st) (obuf st)
  /\ window (obuf st2) (opos st) (length (encode G (fmt_of c) v t)) = encode G (fmt_of c) v t
  /\ clean st2.
Proof.
  intros W W2 Hf Hcl Hok E1 Hlen E2.
  assert (B : bits_ok G t st) by now left.
  destruct (out_frame _ _ _ _ _ _ _ W B Hok E1) as (_ & P1 & P2 & P3 & P4 & P5).
  destruct (out_failure_prefix _ _ _ _ _ _ _ W B Hok E1) as (_ & e1 & e2 & D1 & D2 & D3 & _).
  set (e := encode G (fmt_of c) v t) in *. set (p := opos st) in *.
  set (s := mkO (obuf st' ++ zeros m) p) in *.
  set (q := mkO (firstn p (obuf st') ++ zeros (length (obuf st') + m - p)) p).
  assert (Lq : length (obuf q) = (length (obuf st') + m)%nat).
  { cbn [q obuf]. rewrite app_length, firstn_length, zeros_length. lia. }
  assert (Ev : even s q).
  { split; [reflexivity|]. rewrite Lq. cbn [s obuf]. now rewrite app_length, zeros_length. }
  assert (Cq : clean q).
  { unfold clean. rewrite Lq. cbn [q obuf opos]. rewrite skipn_app, firstn_length.
    rewrite skipn_all2 by (rewrite firstn_length; lia). replace (p - Nat.min p (length (obuf st')))%nat with O by lia.
    reflexivity. }
  assert (Oq : ost_ok q) by (split; [rewrite Lq; cbn [q opos]; lia|rewrite Lq; exact Hlen]).
  destruct (ser_sim G c2 v t (w_wt _ _ _ _ W2)) as [S1 S2 S3 _].
  destruct (S1 s q Ev) as [R1 R2]. rewrite E2 in R1, R2. cbn [fst snd] in R1, R2.
  destruct (ser G c2 v t q) as [rq q2] eqn:E3. cbn [fst snd] in R1, R2. subst rq.
  assert (Bq : bits_ok G t q) by now left.
  destruct (out_wire_format _ _ _ _ _ _ W2 Bq Oq E3) as (_ & Q1 & Q2). rewrite Hf in Q1, Q2. fold e in Q1, Q2.
  change (opos q) with p in Q1, Q2.
  assert (St : stale (byte_at (obuf q2)) s q).
  { split; [exact Ev| | |]; change (opos q) with p.
    - intros i Hi. cbn [s q obuf]. rewrite !byte_zeros, byte_firstn, firstn_length.
      replace (i <? Nat.min p (length (obuf st')))%nat with true by lia. reflexivity.
    - intros i Hi. apply (clean_byte q i Cq Hi).
    - intros i Hi. cbn [s obuf]. rewrite byte_zeros.
      destruct (Nat.lt_ge_cases i (opos st')) as [L|L].
      + right. rewrite (byte_window _ _ _ D3) by lia. rewrite (byte_window _ _ _ Q2) by (rewrite D1, app_length; lia).
        rewrite D1. unfold byte_at. rewrite app_nth1 by lia. reflexivity.
      + left. destruct (Nat.lt_ge_cases i (length (obuf st))) as [K|K].
        * pose proof (P4 i (conj L K)) as N. rewrite <- (clean_byte st i Hcl Hi). unfold byte_at.
          destruct (nth_error (obuf st) i) as [b|] eqn:Eb; [|apply nth_error_None in Eb; lia].
          now rewrite (nth_error_nth _ _ x00 N), (nth_error_nth _ _ x00 Eb).
        * destruct (Nat.lt_ge_cases i (length (obuf st'))) as [M|M]; [|now apply byte_out].
          unfold byte_at. now rewrite (nth_error_nth _ _ x00 (P5 i (conj L M) K)). }
  destruct (S3 _ _ _ _ _ _ St E2 E3 ltac:(discriminate) ltac:(auto)) as [[V1 V2] X1 X2 X3].
  destruct (S2 _ _ _ E2 ltac:(discriminate)) as [Y1 Y2].
  assert (Hq2 : (opos q2 <= length (obuf q2))%nat) by (eapply out_frame; eauto).
  assert (Ls2 : (opos st2 <= length (obuf st2))%nat) by lia.
  split; [lia|]. split; [|split].
  - rewrite <- P3. apply same_firstn; [lia|lia|]. intros i Hi. change (opos s) with p in Y2. rewrite Y2 by exact Hi.
    cbn [s obuf]. now rewrite byte_zeros.
  - transitivity (window (obuf q2) p (length e)); [|exact Q2]. assert (Lw : forall l : list byte, (p + length e <= length l)%nat -> length (window l p (length e)) = length e)
      by (intros l Hl; unfold window; rewrite firstn_length, skipn_length; lia).
    apply same_bytes; [rewrite !Lw by lia; reflexivity|]. rewrite Lw by lia. intros i Hi.
    unfold window. rewrite !byte_firstn. fold (window (obuf st2) p (length e)) (window (obuf q2) p (length e)).
    rewrite !Lw by lia. replace (i <? length e)%nat with true by lia. rewrite !byte_skipn. apply X1. lia.
  - unfold clean. apply same_bytes; [rewrite skipn_length, zeros_length; reflexivity|]. intros i _.
    rewrite byte_skipn. change (zeros (length (obuf st2) - opos st2)) with ([] ++ zeros (length (obuf st2) - opos st2)).
    rewrite byte_zeros. rewrite (byte_out []) by (cbn; lia).
    destruct (X3 (opos st2 + i)%nat ltac:(lia)) as [->| ->]; [reflexivity|]. apply X2. lia.
Qed.

(** The same with the state a failed attempt leaves: the buffer ends within the bits. *)
Definition bits_demo : list bool := [true; false; true; true; false; false; true; true; false; true; true; true].

Example out_again_nontrivial :
  let t := TTuple [TBitset 12; TVarint 8 false false; TBitset 3; TScalar 4 false] in
  let v := VSeq [VBits bits_demo; VN 300; VBits [true; false; true]; VN 7] in
  let st := mkO ([xee; xee] ++ zeros 6) 2 in
  writing node_env span_cfg v t /\ clean st
  /\ exists st', ser node_env span_cfg v t st = (RErr result_out_of_range, st')
     /\ obuf st' = [xee; xee; xcd; x0e; xac; x02; x05; x00]
     /\ fst (ser node_env span_cfg v t (mkO (obuf st' ++ zeros 9) 2)) = ROk.
Proof.
  split; [|split; [reflexivity|]].
  - split; try reflexivity; try discriminate.
    + intro k. destruct k as [|[|k]]; split; reflexivity.
    + intro k. destruct k as [|[|k]]; reflexivity.
  - eexists. split; [vm_compute; reflexivity|]. split; vm_compute; reflexivity.
Qed.

(** Other values written at the old position: the bits of the failed attempt are still set. *)
Theorem out_again_others_refuted :
  exists t v v2 st st' st2,
    writing node_env span_cfg v t /\ writing node_env span_cfg v2 t /\ clean st /\ ost_ok st
    /\ ser node_env span_cfg v t st = (RErr result_out_of_range, st')
    /\ ser node_env span_cfg v2 t (mkO (obuf st' ++ zeros 4) (opos st)) = (ROk, st2)
    /\ window (obuf st2) (opos st) (length (encode node_env (fmt_of span_cfg) v2 t))
       <> encode node_env (fmt_of span_cfg) v2 t.
Proof.
  exists (TTuple [TBitset 3; TScalar 4 false]), (VSeq [VBits [true; false; true]; VN 7]),
    (VSeq [VBits [false; true; false]; VN 7]), (mkO (zeros 2) 0).
  eexists. eexists.
  assert (W : forall l, length l = 3%nat ->
    writing node_env span_cfg (VSeq [VBits l; VN 7]) (TTuple [TBitset 3; TScalar 4 false])).
  { intros l Hl. split; try reflexivity; try discriminate.
    - intro k. destruct k as [|[|k]]; split; reflexivity.
    - intro k. destruct k as [|[|k]]; reflexivity.
    - cbn [wt forall2b]. rewrite Hl. reflexivity. }
  split; [now apply W|]. split; [now apply W|]. split; [reflexivity|].
  split; [split; [cbn; lia|reflexivity]|].
  split; [vm_compute; reflexivity|]. split; [vm_compute; reflexivity|]. vm_compute. discriminate.
Qed.
