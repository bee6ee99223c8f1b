(** C96: reading objects again after memory ran out. *)

From Coq Require Import List NArith ZArith Lia Bool Arith Permutation.
From Coq Require Import ZifyBool ZifyNat ZifyN.
From Verif Require Import Base.Bytes Model.Types Model.Machine Model.Varint Model.Out Model.In Model.Heap Model.InAgain
  Proofs.HeapP Proofs.HeapLoud Thm.Resource Thm.Heap.
From Verif Require Import Spec.Wire Proofs.OutP Proofs.InBase Proofs.InSafe Proofs.InLocal Proofs.InPrior
  Proofs.InRound Proofs.InStable Model.Rpc Proofs.RpcP Thm.Demo Thm.Output Thm.Input Thm.Rpc Thm.Pieces.
Import ListNotations.
Local Open Scope N_scope.

Section Again.
  Variables (ok : nat -> bool) (G : tenv) (c : cfg) (data : list byte) (shared : ty -> bool).
  Variables (fuel : nat) (ts : list ty) (pos : nat) (rest : list nat).
  Hypothesis HR : reading G c data (TTuple ts).
  Hypothesis HW : owning G shared ts.
  Hypothesis Hp : (pos <= length data)%nat.

  (** The attempt that decides: it starts from some valid objects and is not refused anything, or it
      throws and was the last one. *)
  Lemma again_last tries : forall vars H r vars' p H',
    objects G shared ts vars -> exact_heap H vars rest ->
    in_again ok G c data shared fuel ts true tries vars pos H = (r, vars', p, H') ->
    exact_heap H' vars' rest /\ objects G shared ts vars' /\ (pos <= p <= length data)%nat
    /\ (r = RThrow \/ exists vars1, objects G shared ts vars1
          /\ in_call G c data fuel ts (map erase vars1) pos = (r, map erase vars', p)).
  Proof.
    assert (Dec : forall r, r = RThrow \/ r <> RThrow) by (intros [| | | |]; (now left) || (right; discriminate)).
    assert (Last : forall vars H r vars' p H', objects G shared ts vars -> exact_heap H vars rest ->
      hin_call ok G c data shared fuel ts vars pos H = (r, vars', p, H') ->
      exact_heap H' vars' rest /\ objects G shared ts vars' /\ (pos <= p <= length data)%nat
      /\ (r = RThrow \/ exists vars1, objects G shared ts vars1
            /\ in_call G c data fuel ts (map erase vars1) pos = (r, map erase vars', p))).
    { intros vars H r vars' p H' HO HE E.
      destruct (in_ownership _ _ _ _ _ _ _ _ _ _ _ _ _ _ _ HR HW Hp HO HE E) as (K1 & K2 & K3).
      split; [exact K1|]. split; [exact K2|]. split; [exact K3|].
      destruct (call_ok _ _ _ _ _ _ _ _ _ _ _ _ _ _ _ HR HW Hp HO HE E) as (_ & _ & _ & _ & [K|(K & _)]).
      - right. exists vars. auto.
      - now left. }
    induction tries as [|n IH]; intros vars H r vars' p H' HO HE; cbn [in_again];
      destruct (hin_call _ _ _ _ _ _ _ _ _ _) as [[[r1 vars1] p1] H1] eqn:E1; intro E.
    - apply (Last vars H); auto. rewrite E1. destruct r1; exact E.
    - destruct (Last _ _ _ _ _ _ HO HE E1) as (K1 & K2 & _).
      destruct (Dec r1) as [->|N]; [apply (IH vars1 H1); auto|].
      apply (Last vars H); auto. rewrite E1. destruct r1; try exact E. congruence.
  Qed.

  (** Every attempt that throws uses up a refused allocation, if it has memory enough otherwise. *)
  Lemma again_ends tries M : forall vars H r vars' p H',
    objects G shared ts vars -> exact_heap H vars rest ->
    (forall vs, wt G (VSeq vs) (TTuple ts) = true -> fst (fst (in_call G c data fuel ts vs pos)) <> RThrow) ->
    (forall n, (M <= n)%nat -> ok n = true) -> (M - hnext H <= tries)%nat ->
    in_again ok G c data shared fuel ts true tries vars pos H = (r, vars', p, H') -> r <> RThrow.
  Proof.
    intros vars H r vars' p H' HO HE Hn Hok. revert vars H HO HE.
    induction tries as [|n IH]; intros vars H HO HE Ht; cbn [in_again];
      destruct (hin_call _ _ _ _ _ _ _ _ _ _) as [[[r1 vars1] p1] H1] eqn:E1; intro E;
      destruct (in_ownership _ _ _ _ _ _ _ _ _ _ _ _ _ _ _ HR HW Hp HO HE E1) as (K1 & K2 & _);
      (destruct (call_ok _ _ _ _ _ _ _ _ _ _ _ _ _ _ _ HR HW Hp HO HE E1) as (_ & _ & _ & _ & [K|(-> & (m & M1 & M2) & _)]);
       [specialize (Hn _ (proj1 HO)); rewrite <- K in Hn; cbn [fst] in Hn; destruct r1; congruence|]).
    - rewrite Hok in M2 by lia. discriminate.
    - apply (IH vars1 H1); auto.
      assert (m < M)%nat by (destruct (Nat.lt_ge_cases m M) as [L|L]; [exact L|rewrite Hok in M2 by exact L; discriminate]).
      lia.
  Qed.
End Again.

(** Whatever the data: the attempts end as one read of the data does into any valid objects at all,
    or with an exception.  The live blocks are exactly those that the objects own. *)
Theorem in_again_one_read ok G c data shared fuel ts pos rest tries vars H r vars' p H' vs0 r0 xs0 p0 :
  reading G c data (TTuple ts) -> owning G shared ts -> (pos <= length data)%nat ->
  tall (own_extent c) (TTuple ts) = true -> tall_env (own_extent c) G ->
  objects G shared ts vars -> exact_heap H vars rest ->
  in_again ok G c data shared fuel ts true tries vars pos H = (r, vars', p, H') ->
  wt G (VSeq vs0) (TTuple ts) = true -> in_call G c data fuel ts vs0 pos = (r0, xs0, p0) -> r0 <> RThrow ->
  exact_heap H' vars' rest /\ objects G shared ts vars'
  /\ (r = RThrow \/ r = r0 /\ p = p0 /\ (r = ROk -> map erase vars' = xs0)).
Proof.
  intros HR HW Hp Ho HoG HO HE E Hw0 E0 N0.
  destruct (again_last _ _ _ _ _ _ _ _ _ HR HW Hp _ _ _ _ _ _ _ HO HE E) as (K1 & K2 & _ & K4).
  split; [exact K1|]. split; [exact K2|].
  assert (Dec : r = RThrow \/ r <> RThrow) by (destruct r; (now left) || (right; discriminate)).
  destruct Dec as [D|D]; [now left|]. destruct K4 as [K4|(vars1 & [O1 _] & E1)]; [now left|right].
  pose proof (call_des G c data fuel ts (map erase vars1) pos) as D1. rewrite E1 in D1.
  pose proof (call_des G c data fuel ts vs0 pos) as D0. rewrite E0 in D0. cbn [seq_res] in D0, D1.
  destruct (in_target_independent _ _ _ _ _ _ _ _ _ _ _ _ _ _ HR Ho HoG Hp O1 Hw0 D1 D0 D N0) as (I1 & I2 & I3).
  split; [exact I1|]. split; [exact I2|]. intro R. specialize (I3 R). congruence.
Qed.

(** If from allocation number [M] on none is refused, and the announced sizes are not beyond what the
    allocator gives at all, enough attempts end without an exception. *)
Theorem in_again_ends ok G c data shared fuel ts pos rest tries vars H M r vars' p H' :
  reading G c data (TTuple ts) -> owning G shared ts -> (pos <= length data)%nat ->
  objects G shared ts vars -> exact_heap H vars rest ->
  (forall vs, wt G (VSeq vs) (TTuple ts) = true -> fst (fst (in_call G c data fuel ts vs pos)) <> RThrow) ->
  (forall n, (M <= n)%nat -> ok n = true) -> (M - hnext H <= tries)%nat ->
  in_again ok G c data shared fuel ts true tries vars pos H = (r, vars', p, H') -> r <> RThrow.
Proof. intros HR HW Hp HO HE Hn Hok Ht E. eapply again_ends; eauto. Qed.

(** What was written by one call is read as it was with the first attempt that has enough memory. *)
Theorem in_again_round_trip ok G cw cr data shared fuel vs ts e pos rest tries vars H M r vars' p H' :
  sendable G cw cr fuel vs ts -> written G cw vs ts e -> has_at data pos e ->
  reading G cr data (TTuple ts) -> owning G shared ts ->
  objects G shared ts vars -> exact_heap H vars rest ->
  in_again ok G cr data shared fuel ts true tries vars pos H = (r, vars', p, H') ->
  exact_heap H' vars' rest
  /\ (r = ROk /\ map erase vars' = vs /\ p = (pos + length e)%nat \/ r = RThrow)
  /\ ((forall n, (M <= n)%nat -> ok n = true) -> (M - hnext H <= tries)%nat -> r = ROk).
Proof.
  intros HS (st & st' & Hb & Ho & E & He) Hat HR HW HO HE Ha. pose proof HS as [HWr H2 H3 H4 H5 H6 H7].
  assert (L : length e = (opos st' - opos st)%nat).
  { destruct (window_sent _ _ _ _ _ _ HWr Hb Ho E) as [W1 W2]. rewrite He, W1, W2. reflexivity. }
  assert (Hp : (pos <= length data)%nat) by (destruct Hat; lia).
  assert (R : forall items, wt G (VSeq items) (TTuple ts) = true ->
    in_call G cr data fuel ts items pos = (ROk, vs, (pos + length e)%nat)).
  { intros items Hw. rewrite L. apply (round_trip_call G cw cr vs ts st st'); auto; [apply HR|now rewrite <- He]. }
  destruct (again_last _ _ _ _ _ _ _ _ _ HR HW Hp _ _ _ _ _ _ _ HO HE Ha) as (K1 & K2 & _ & K4).
  split; [exact K1|].
  assert (K : r = ROk /\ map erase vars' = vs /\ p = (pos + length e)%nat \/ r = RThrow).
  { destruct K4 as [K4|(vars1 & [O1 _] & E1)]; [now right|left].
    rewrite (R _ O1) in E1. injection E1 as <- <- <-. auto. }
  split; [exact K|]. intros Hok Ht. destruct K as [K|K]; [apply K|]. exfalso. revert K.
  apply (again_ends ok G cr data shared fuel ts pos rest HR HW Hp tries M vars H r vars' p H' HO HE); auto.
  intros items Hw. rewrite (R _ Hw). discriminate.
Qed.

(** ** Examples *)

(** The demo object; allocations 1 and 4 are refused. *)
Definition scarce (n : nat) : bool := negb ((n =? 1) || (n =? 4))%nat.
Definition again (reset : bool) (tries : nat) :=
  in_again scarce node_env vec_cfg demo_bytes all_unique 10 [demo_ty] reset tries
    (map (fun t => bare (dflt node_env t)) [demo_ty]) 0 no_blocks.

Example in_again_nontrivial :
  map (fun n => match again true n with (r, vars, p, H) => (r, p, hnext H, length (hlive H)) end) [0; 1; 2]%nat
  = [(RThrow, 32, 2, 1); (RThrow, 34, 5, 3); (ROk, 38, 9, 5)]%nat
  /\ (forall n, (5 <= n)%nat -> scarce n = true).
Proof.
  split; [vm_compute; reflexivity|]. intros n Hn. unfold scarce.
  replace (n =? 1)%nat with false by lia. now replace (n =? 4)%nat with false by lia.
Qed.

(** A vector of two bytes with a size of one byte.  Its buffer is refused once: a program that calls
    again without setting the position back takes the first element for the size, and reports success
    with an empty vector. *)
Theorem in_again_position_refuted :
  let t := TVec (Some (SzFix 1)) true (TScalar 1 true) in
  let bytes := [x02; x00; x01] in
  let go reset := in_again (fun n => negb (n =? 0)%nat) node_env vec_cfg bytes all_unique 1 [t] reset 1 [HSeq [] []] 0 no_blocks in
  written node_env vec_cfg [VSeq [VN 0; VN 1]] [t] bytes
  /\ (exists H, go true = (ROk, [HSeq [1%nat] [HN 0; HN 1]], 3%nat, H))
  /\ (exists H, go false = (ROk, [HSeq [] []], 2%nat, H)).
Proof.
  cbv zeta. split; [|split; eexists; vm_compute; reflexivity].
  exists (mkO [] 0), (mkO [x02; x00; x01] 3).
  split; [left; reflexivity|]. split; [unfold ost_ok; cbn; lia|].
  split; vm_compute; reflexivity.
Qed.

Print Assumptions in_again_one_read.
Print Assumptions in_again_ends.
Print Assumptions in_again_round_trip.
Print Assumptions in_again_position_refuted.
