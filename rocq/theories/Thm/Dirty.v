(** C99: output over old bytes. *)

From Coq Require Import List NArith ZArith Lia Bool Arith.
From Coq Require Import ZifyBool ZifyNat ZifyN.
From Verif Require Import Base.Bytes Model.Types Model.Machine Model.Varint Model.Out
  Spec.Leb128 Spec.Wire Proofs.VarintP Proofs.OutP Thm.Demo Thm.Output Thm.RetryBits.
Import ListNotations.
Local Open Scope N_scope.

(** Status, position and size do not depend on what the buffer holds, whatever is written. *)
Theorem out_any_contents G c v t st1 st2 :
  wt G v t = true -> opos st1 = opos st2 -> length (obuf st1) = length (obuf st2) ->
  fst (ser G c v t st1) = fst (ser G c v t st2)
  /\ opos (snd (ser G c v t st1)) = opos (snd (ser G c v t st2))
  /\ length (obuf (snd (ser G c v t st1))) = length (obuf (snd (ser G c v t st2))).
Proof. intros Hw H1 H2. exact (m_even _ (ser_sim G c v t Hw) st1 st2 (conj H1 H2)). Qed.

(** The same for calls, which fit the buffer afterwards. *)
Theorem out_call_any_contents G c vs ts st1 st2 :
  wt G (VSeq vs) (TTuple ts) = true -> opos st1 = opos st2 -> length (obuf st1) = length (obuf st2) ->
  fst (out_call G c vs ts st1) = fst (out_call G c vs ts st2)
  /\ opos (snd (out_call G c vs ts st1)) = opos (snd (out_call G c vs ts st2))
  /\ length (obuf (snd (out_call G c vs ts st1))) = length (obuf (snd (out_call G c vs ts st2))).
Proof.
  intros Hw H1 H2. destruct (out_any_contents G c (VSeq vs) (TTuple ts) st1 st2 Hw H1 H2) as (A & B & C).
  cbn [ser] in A, B, C. unfold out_call. rewrite <- H2.
  destruct (ser_many (ser G c) vs ts st1) as [r s1], (ser_many (ser G c) vs ts st2) as [r' s2].
  cbn [fst snd] in *. subst r'. destruct (_ && _); [|auto]. unfold fit_size.
  destruct r; auto; rewrite B; (destruct (_ <=? _)%nat; [|auto]).
  all: destruct (proj1 (room_resize c (N.of_nat (opos s2))) s1 s2 (conj B C)) as [R1 [R2 R3]];
    destruct (buf_resize c (N.of_nat (opos s2)) s1) as [x y], (buf_resize c (N.of_nat (opos s2)) s2) as [x' y'];
    cbn [fst snd] in *; subst x'; destruct x; auto.
Qed.

(** Whatever the buffer holds: the items are written as far as they fit; each byte is that of the
    encoding, or that or-ed into the byte that was there (bitsets). *)
Theorem out_over_old_bytes G c v t st r st' :
  writing G c v t -> ost_ok st -> ser G c v t st = (r, st') ->
  r <> RUB /\ ost_ok st' /\ firstn (opos st) (obuf st') = firstn (opos st) (obuf st)
  /\ exists done todo,
       encode G (fmt_of c) v t = done ++ todo
       /\ opos st' = (opos st + length done)%nat
       /\ (r = ROk -> todo = [])
       /\ (forall j b, nth_error done j = Some b ->
             nth_error (obuf st') (opos st + j) = Some b
             \/ exists old, nth_error (obuf st) (opos st + j) = Some old
                /\ nth_error (obuf st') (opos st + j) = Some (n2b (N.lor (b2n old) (b2n b)))).
Proof.
  intros W Ho E. pose proof Ho as [O1 O2]. set (p := opos st) in *.
  set (q := mkO (firstn p (obuf st) ++ zeros (length (obuf st) - p)) p).
  assert (Lq : length (obuf q) = length (obuf st)).
  { cbn [q obuf]. rewrite app_length, firstn_length, zeros_length. lia. }
  assert (Ev : even st q) by (split; [reflexivity|now rewrite Lq]).
  assert (Cq : clean q).
  { unfold clean. rewrite Lq. cbn [q obuf opos]. rewrite skipn_app, firstn_length.
    rewrite skipn_all2 by (rewrite firstn_length; lia). replace (p - Nat.min p (length (obuf st)))%nat with O by lia.
    reflexivity. }
  assert (Oq : ost_ok q) by (split; rewrite Lq; [exact O1|exact O2]).
  assert (Bq : bits_ok G t q) by now left.
  destruct (ser_sim G c v t (w_wt _ _ _ _ W)) as [S1 S2 _ S4].
  destruct (S1 st q Ev) as [R1 R2]. rewrite E in R1, R2.
  destruct (ser G c v t q) as [rq q'] eqn:E3. cbn [fst snd] in R1, R2. subst rq.
  destruct (out_frame _ _ _ _ _ _ _ W Bq Oq E3) as (N & _ & F1 & _).
  destruct (out_failure_prefix _ _ _ _ _ _ _ W Bq Oq E3) as ([Z1 Z2] & e1 & e2 & D1 & D2 & D3 & D4).
  change (opos q) with p in D2, D3.
  assert (Dy : dirty (byte_at (obuf st)) st q).
  { split; [exact Ev| | |]; change (opos q) with p.
    - intros i Hi. left. cbn [q obuf]. rewrite byte_zeros, byte_firstn, firstn_length.
      replace (i <? Nat.min p (length (obuf st)))%nat with true by lia. reflexivity.
    - intros i Hi. apply (clean_byte q i Cq Hi).
    - auto. }
  destruct (S4 _ _ _ _ _ _ Dy E E3 N) as [[V1 V2] X1 _ _].
  destruct (S2 _ _ _ E N) as [Y1 Y2]. fold p in Y1, Y2.
  split; [exact N|]. split; [split; [lia|now rewrite V2]|].
  split; [apply same_firstn; [lia|exact O1|exact Y2]|].
  exists e1, e2. split; [exact D1|]. split; [lia|]. split; [exact D4|].
  intros j b Hj. assert (Lj : (j < length e1)%nat) by (apply nth_error_Some; congruence).
  assert (B : byte_at (obuf q') (p + j) = b).
  { rewrite (byte_window _ _ _ D3) by lia. replace (p + j - p)%nat with j by lia. exact (nth_error_nth _ _ x00 Hj). }
  assert (Nth : forall (l : list byte) i, (i < length l)%nat -> nth_error l i = Some (byte_at l i))
    by (intros l i Hi; now apply nth_error_nth').
  rewrite (Nth (obuf st')) by lia. destruct (X1 (p + j)%nat ltac:(lia)) as [X|X]; rewrite X, B; [now left|].
  destruct (Nat.lt_ge_cases (p + j) (length (obuf st))) as [L|L].
  - right. eexists. split; [now apply Nth|]. reflexivity.
  - left. rewrite (byte_out (obuf st)) by exact L. unfold mix. change (b2n x00) with 0. now rewrite N.lor_0_l, n2b_b2n.
Qed.

(** A bitset between two numbers, over a used buffer: only the bits are mixed. *)
Example out_over_old_nontrivial :
  let t := TTuple [TScalar 2 false; TBitset 12; TScalar 1 false] in
  let v := VSeq [VN 258; VBits bits_demo; VN 3] in
  let st := mkO [xaa; xff; xff; x30; xf0; xff; xff] 1 in
  writing node_env span_cfg v t
  /\ encode node_env (fmt_of span_cfg) v t = [x02; x01; xcd; x0e; x03]
  /\ ser node_env span_cfg v t st = (ROk, mkO [xaa; x02; x01; xfd; xfe; x03; xff] 6).
Proof.
  split; [|split; vm_compute; reflexivity].
  split; try reflexivity; try discriminate.
  - intro k. destruct k as [|[|k]]; split; reflexivity.
  - intro k. destruct k as [|[|k]]; reflexivity.
Qed.

Print Assumptions out_any_contents.
Print Assumptions out_call_any_contents.
Print Assumptions out_over_old_bytes.
