(** C90: a message that arrives in pieces. *)

From Coq Require Import List NArith ZArith Lia Bool Arith.
From Coq Require Import ZifyBool ZifyNat ZifyN.
From Verif Require Import Base.Bytes Model.Types Model.Machine Model.Varint Model.Out Model.In Model.Pieces Model.Rpc
  Spec.Wire Proofs.OutP Proofs.InBase Proofs.InSafe Proofs.InLocal Proofs.InPrior
  Proofs.InRound Proofs.InStable Proofs.RpcP Thm.Demo Thm.Output Thm.Input Thm.Rpc.
Import ListNotations.
Local Open Scope N_scope.

Definition too_short : res := RErr result_out_of_range.

Lemma call_des G c data fuel ts priors pos :
  des G c data fuel (TTuple ts) (VSeq priors) pos = seq_res (in_call G c data fuel ts priors pos).
Proof. unfold des. cbn [des_ty as_seq]. reflexivity. Qed.

Lemma seq_res_inj x y : seq_res x = seq_res y -> x = y.
Proof. destruct x as [[r l] p], y as [[r' l'] p']. cbn [seq_res]. congruence. Qed.

Lemma reading_prefix G c data more t : reading G c (data ++ more) t -> reading G c data t.
Proof.
  intros [H1 H2 H3 H4 H5 H6]. constructor; auto. unfold small in *. rewrite app_length in H3. lia.
Qed.

(** ** Every answer but result_out_of_range is final *)

(** Whatever the data: if what is there gives any other answer (success, an error, an exception of
    the allocator, an overflow of the stack), any continuation gives that same answer, with the
    same contents of the items and the same position. *)
Theorem answer_final G c data more fuel ts priors pos r vs p :
  reading G c (data ++ more) (TTuple ts) ->
  tall (delimited c) (TTuple ts) = true -> tall_env (delimited c) G ->
  (pos <= length data)%nat -> wt G (VSeq priors) (TTuple ts) = true ->
  in_call G c data fuel ts priors pos = (r, vs, p) -> r <> too_short ->
  in_call G c (data ++ more) fuel ts priors pos = (r, vs, p).
Proof.
  intros [H1 H2 H3 H4 H5 H6] Hd HdG Hp Hw E Hr.
  pose proof (des_stable G c data more (TTuple ts) fuel (VSeq priors) pos H1 H2 H3 H4 HdG H6 Hd H5 Hp Hw) as S.
  rewrite !call_des, E in S. destruct S as [S|S]; [contradiction|]. now apply seq_res_inj in S.
Qed.

(** And success is not among the answers that more data bring about earlier: result_out_of_range
    for some data means that every successful continuation consumes more than these data. *)
Theorem too_short_means_more G c data more fuel ts priors pos vs' p' vs p :
  reading G c (data ++ more) (TTuple ts) ->
  tall (delimited c) (TTuple ts) = true -> tall_env (delimited c) G ->
  (pos <= length data)%nat -> wt G (VSeq priors) (TTuple ts) = true ->
  in_call G c data fuel ts priors pos = (too_short, vs', p') ->
  in_call G c (data ++ more) fuel ts priors pos = (ROk, vs, p) ->
  (length data < p)%nat.
Proof.
  intros HR Hd HdG Hp Hw E1 E2. destruct (Nat.le_gt_cases p (length data)) as [L|L]; [exfalso|exact L].
  assert (D2 := call_des G c (data ++ more) fuel ts priors pos). rewrite E2 in D2. cbn [seq_res] in D2.
  assert (D : des G c data fuel (TTuple ts) (VSeq priors) pos = (ROk, VSeq vs, p)).
  { eapply in_consumed_bytes_only with (data := data ++ more); eauto.
    - apply reading_prefix in HR. apply HR.
    - rewrite app_length. lia.
    - intros i Hi. symmetry. apply nth_error_app1. lia. }
  rewrite call_des, E1 in D. discriminate D.
Qed.

(** ** The loop *)

(** However the data are cut into pieces, the loop gives the answer that reading all of them at
    once gives, with the position, and on success the same items; or else an attempt ends with an
    exception of the allocator, which a target of another size need not cause. *)
Theorem pieces_same_answer G c fuel ts pos have todo items0 items r vs p :
  reading G c (have ++ concat todo) (TTuple ts) ->
  tall (delimited c) (TTuple ts) = true -> tall_env (delimited c) G ->
  tall (own_extent c) (TTuple ts) = true -> tall_env (own_extent c) G ->
  (pos <= length have)%nat ->
  wt G (VSeq items0) (TTuple ts) = true -> wt G (VSeq items) (TTuple ts) = true ->
  in_call G c (have ++ concat todo) fuel ts items0 pos = (r, vs, p) -> r <> RThrow ->
  let '((r', vs', p'), have', rest) := receive G c fuel ts pos have todo items in
  have' ++ concat rest = have ++ concat todo
  /\ (r' = RThrow \/ (r' = r /\ p' = p /\ (r = ROk -> vs' = vs))).
Proof.
  intros HR Hd HdG Ho HoG Hp Hw0 Hw E Hr. revert have HR items Hp Hw E.
  assert (T : forall data items r1 vs1 p1, reading G c data (TTuple ts) -> (pos <= length data)%nat ->
    wt G (VSeq items) (TTuple ts) = true ->
    in_call G c data fuel ts items0 pos = (r, vs, p) -> in_call G c data fuel ts items pos = (r1, vs1, p1) ->
    r1 = RThrow \/ (r1 = r /\ p1 = p /\ (r = ROk -> vs1 = vs))).
  { intros data items r1 vs1 p1 HR Hp Hw E E1.
    assert (Dec : r1 = RThrow \/ r1 <> RThrow) by (destruct r1; (now left) || (right; discriminate)).
    destruct Dec as [N|N]; [now left|]. right.
    pose proof (in_target_independent G c data (TTuple ts) fuel (VSeq items0) (VSeq items)
      pos r (VSeq vs) p r1 (VSeq vs1) p1 HR Ho HoG Hp Hw0 Hw) as T.
    rewrite !call_des, E, E1 in T. cbn [seq_res] in T.
    destruct (T eq_refl eq_refl Hr N) as (T1 & T2 & T3).
    split; [auto|]. split; [auto|]. intro Hok. specialize (T3 Hok). now injection T3. }
  induction todo as [|x todo IH]; intros have HR items Hp Hw E; cbn [receive].
  { cbn [concat] in *. rewrite app_nil_r in *.
    destruct (in_call G c have fuel ts items pos) as [[r1 vs1] p1] eqn:E1.
    pose proof (T _ _ _ _ _ HR Hp Hw E E1).
    destruct r1 as [|[]| | |]; cbn [concat]; rewrite ?app_nil_r; auto. }
  destruct (in_call G c have fuel ts items pos) as [[r1 vs1] p1] eqn:E1.
  assert (F : r1 <> too_short ->
    have ++ concat (x :: todo) = have ++ concat (x :: todo)
    /\ (r1 = RThrow \/ r1 = r /\ p1 = p /\ (r = ROk -> vs1 = vs))).
  { intro N. split; [reflexivity|].
    pose proof (answer_final _ _ _ _ _ _ _ _ _ _ _ HR Hd HdG Hp Hw E1 N) as E'.
    eapply T with (3 := Hw) (5 := E'); eauto. rewrite app_length. lia. }
  assert (K : let '(r', vs', p', have', rest) := receive G c fuel ts pos (have ++ x) todo vs1 in
    have' ++ concat rest = have ++ concat (x :: todo)
    /\ (r' = RThrow \/ r' = r /\ p' = p /\ (r = ROk -> vs' = vs))).
  { cbn [concat] in *. rewrite app_assoc in *.
    destruct (in_call_memory_safe _ _ _ _ _ _ _ _ _ _
      (reading_prefix _ _ _ _ _ (reading_prefix _ _ _ _ _ HR)) Hp Hw E1) as (_ & W & _).
    apply IH; auto. rewrite app_length. lia. }
  destruct r1 as [|[]| | |]; try exact K; apply F; discriminate.
Qed.

(** Where the loop stops.  If all of the data can be read, whatever the items hold at that time,
    it stops with the first piece that completes the message: the bytes up to the position have
    arrived, and without the last piece they had not. *)
Theorem pieces_stop G c fuel ts pos have todo items vs p :
  reading G c (have ++ concat todo) (TTuple ts) ->
  tall (delimited c) (TTuple ts) = true -> tall_env (delimited c) G ->
  (pos <= length have)%nat -> wt G (VSeq items) (TTuple ts) = true ->
  (forall items', wt G (VSeq items') (TTuple ts) = true ->
     in_call G c (have ++ concat todo) fuel ts items' pos = (ROk, vs, p)) ->
  exists got rest,
    todo = got ++ rest
    /\ receive G c fuel ts pos have todo items = ((ROk, vs, p), have ++ concat got, rest)
    /\ (p <= length (have ++ concat got))%nat
    /\ (forall got' x more, got = got' ++ x :: more -> (length (have ++ concat got') < p)%nat).
Proof.
  intros HR Hd HdG Hp Hw E. revert have HR items Hp Hw E.
  induction todo as [|x todo IH]; intros have HR items Hp Hw E; cbn [receive].
  { cbn [concat] in *. rewrite app_nil_r in *. exists [], []. cbn [concat app]. rewrite app_nil_r.
    pose proof (E items Hw) as E1. rewrite E1. repeat split; auto.
    - eapply (in_call_memory_safe _ _ _ _ _ _ _ _ _ _ HR Hp Hw E1).
    - intros [|? ?]; discriminate. }
  destruct (in_call G c have fuel ts items pos) as [[r1 vs1] p1] eqn:E1.
  pose proof (in_call_memory_safe _ _ _ _ _ _ _ _ _ _ (reading_prefix _ _ _ _ _ HR) Hp Hw E1) as (P1 & W & _).
  assert (D : r1 = too_short \/ (r1, vs1, p1) = (ROk, vs, p)).
  { assert (Dec : r1 = too_short \/ r1 <> too_short)
      by (destruct r1 as [|[]| | |]; (now left) || (right; discriminate)).
    destruct Dec as [N|N]; [now left|]. right.
    rewrite <- (answer_final _ _ _ _ _ _ _ _ _ _ _ HR Hd HdG Hp Hw E1 N). auto. }
  destruct D as [->|D].
  - unfold too_short. pose proof (too_short_means_more _ _ _ _ _ _ _ _ _ _ _ _ HR Hd HdG Hp Hw E1 (E _ Hw)) as M.
    cbn [concat] in *. rewrite app_assoc in HR, E.
    destruct (IH (have ++ x) HR vs1 ltac:(rewrite app_length; lia) W E) as (got & rest & I1 & I2 & I3 & I4).
    exists (x :: got), rest. cbn [concat]. rewrite app_assoc. repeat split; auto.
    + now rewrite I1.
    + intros [|y got'] z more Eq; cbn [app] in Eq; injection Eq as -> ->; cbn [concat].
      * now rewrite app_nil_r.
      * rewrite app_assoc. eapply I4. reflexivity.
  - injection D as -> -> ->. exists [], (x :: todo). cbn [concat app]. rewrite app_nil_r. repeat split; auto.
    + apply P1.
    + intros [|? ?]; discriminate.
Qed.

(** ** Messages of the library *)

Lemma tall_rt c t : tall (rt_ok c) t = true -> tall (own_extent c) t = true /\ tall (delimited c) t = true.
Proof.
  intro H. split; revert H; apply tall_sub; intros t'; unfold rt_ok; rewrite !andb_true_iff; tauto.
Qed.

Lemma tall_rt_env c G : tall_env (rt_ok c) G -> tall_env (own_extent c) G /\ tall_env (delimited c) G.
Proof.
  intro H. split; intro k; specialize (H k); rewrite forallb_forall in *; intros t Ht;
    apply (tall_rt c t); auto.
Qed.

(** [e] is what one call of the sender appended for the values [vs]. *)
Definition written (G : tenv) (c : cfg) (vs : list val) (ts : list ty) (e : list byte) : Prop :=
  exists st st', bits_ok G (TTuple ts) st /\ ost_ok st /\ out_call G c vs ts st = (ROk, st')
    /\ e = window (obuf st') (opos st) (opos st' - opos st).

(** What was written by one call, sent in any pieces after anything and followed by anything, is
    received as it was, into targets holding anything, with the piece that completes it. *)
Theorem pieces_round_trip G cw cr fuel vs ts e have todo pos items :
  sendable G cw cr fuel vs ts -> written G cw vs ts e ->
  has_at (have ++ concat todo) pos e -> (pos <= length have)%nat ->
  reading G cr (have ++ concat todo) (TTuple ts) -> wt G (VSeq items) (TTuple ts) = true ->
  let p := (pos + length e)%nat in
  exists got rest,
    todo = got ++ rest
    /\ receive G cr fuel ts pos have todo items = ((ROk, vs, p), have ++ concat got, rest)
    /\ (p <= length (have ++ concat got))%nat
    /\ (forall got' x more, got = got' ++ x :: more -> (length (have ++ concat got') < p)%nat).
Proof.
  intros HS (st & st' & Hb & Ho & E & He) Hat Hp HR Hw p. pose proof HS as [HW H2 H3 H4 H5 H6 H7].
  pose proof (tall_rt _ _ H4) as [T1 T2]. pose proof (tall_rt_env _ _ H5) as [T3 T4].
  assert (L : length e = (opos st' - opos st)%nat).
  { destruct (window_sent _ _ _ _ _ _ HW Hb Ho E) as [W1 W2]. rewrite He, W1, W2. reflexivity. }
  apply pieces_stop; auto.
  intros items' Hw'. unfold p. rewrite L.
  apply (round_trip_call G cw cr vs ts st st'); auto; [apply HR|now rewrite <- He].
Qed.

(** A stream of such messages, cut into pieces anywhere, comes out as the messages that went in. *)
Definition message (G : tenv) (cw cr : cfg) (fuel : nat) (data : list byte)
  (m : list val * (list ty * list val)) (e : list byte) : Prop :=
  let '(vs, (ts, items)) := m in
  sendable G cw cr fuel vs ts /\ written G cw vs ts e
  /\ reading G cr data (TTuple ts) /\ wt G (VSeq items) (TTuple ts) = true.

Theorem pieces_stream G cw cr fuel ms es have todo pos :
  Forall2 (message G cw cr fuel (have ++ concat todo)) ms es ->
  has_at (have ++ concat todo) pos (concat es) -> (pos <= length have)%nat ->
  receive_all G cr fuel pos have todo (map snd ms) = (ROk, map fst ms, (pos + length (concat es))%nat).
Proof.
  intro H. remember (have ++ concat todo) as data eqn:Ed. revert have todo pos Ed.
  induction H as [|[vs [ts items]] e ms es (H1 & H2 & H3 & H4) _ IH]; intros have todo pos Ed Hat Hp;
    cbn [map fst snd receive_all concat length].
  { now rewrite Nat.add_0_r. }
  cbn [concat] in Hat. apply has_at_app in Hat as [A1 A2]. subst data.
  destruct (pieces_round_trip _ _ _ _ _ _ _ _ _ _ _ H1 H2 A1 Hp H3 H4) as (got & rest & P1 & P2 & P3 & _).
  rewrite P2. rewrite (IH (have ++ concat got) rest); auto.
  - rewrite app_length. now rewrite Nat.add_assoc.
  - rewrite P1, concat_app, app_assoc. reflexivity.
Qed.

(** ** What the theorems need *)

(** A target without a size of its own: a span that is smaller than what is sent.  The answer is
    result_out_of_range as well, and no further piece changes it, so the loop waits for ever. *)
Definition span_bytes : ty := TSpan None (TScalar 1 false).
Definition three : list byte := map n2b [3; 0; 0; 0; 1; 2; 3].

Theorem pieces_span_refuted :
  in_call node_env vec_cfg three 0 [span_bytes] [VSeq [VN 0; VN 0; VN 0]] 0
    = (ROk, [VSeq [VN 1; VN 2; VN 3]], 7%nat)
  /\ forall todo, small (three ++ concat todo) ->
       receive node_env vec_cfg 0 [span_bytes] 0 three todo [VSeq [VN 0; VN 0]]
       = ((too_short, [VSeq [VN 0; VN 0]], 4%nat), three ++ concat todo, []).
Proof.
  split; [vm_compute; reflexivity|].
  assert (A : forall more, small (three ++ more) ->
    in_call node_env vec_cfg (three ++ more) 0 [span_bytes] [VSeq [VN 0; VN 0]] 0
    = (too_short, [VSeq [VN 0; VN 0]], 4%nat)).
  { intros more Hs. assert (S : des_size vec_cfg (three ++ more) (SzFix 4) 0 = (ROk, 3, 4%nat)).
    { destruct (size_stable vec_cfg three more ltac:(vm_compute; reflexivity) Hs (SzFix 4) eq_refl 0%nat ltac:(cbn; lia)) as [S|S].
      - vm_compute in S. discriminate S.
      - rewrite S. vm_compute. reflexivity. }
    unfold in_call, des. cbn [des_many des_ty as_seq span_bytes]. change (sz_of vec_cfg None) with (SzFix 4).
    cbn match. rewrite S. reflexivity. }
  intro todo.
  enough (K : forall more, small (three ++ more ++ concat todo) ->
    receive node_env vec_cfg 0 [span_bytes] 0 (three ++ more) todo [VSeq [VN 0; VN 0]]
    = ((too_short, [VSeq [VN 0; VN 0]], 4%nat), three ++ more ++ concat todo, [])).
  { specialize (K []). now rewrite app_nil_r in K. }
  induction todo as [|x todo IH]; intros more Hs; cbn [receive];
    (rewrite A; [|unfold small in *; rewrite !app_length in *; lia]); unfold too_short in *.
  - cbn [concat]. now rewrite app_nil_r.
  - cbn [concat] in *. rewrite <- app_assoc. rewrite IH; rewrite <- !app_assoc; auto.
Qed.

(** A view of all the rest is satisfied with the first piece. *)
Theorem pieces_rest_refuted :
  exists o, receive node_env vec_cfg 0 [TView VwRest] 0 (map n2b [1]) [map n2b [2; 3]] [VBytes []]
              = (o, map n2b [1], [map n2b [2; 3]])
    /\ o = (ROk, [VBytes (map n2b [1])], 1%nat)
    /\ o <> in_call node_env vec_cfg (map n2b [1; 2; 3]) 0 [TView VwRest] [VBytes []] 0.
Proof.
  eexists. split; [vm_compute; reflexivity|]. split; [vm_compute; reflexivity|]. vm_compute. discriminate.
Qed.

(** ** Examples *)

Definition piece_types : list ty := [demo_ty; TVec None true (TScalar 2 false)].
Definition piece_vals : list val := [demo_val; VSeq [VN 1; VN 2; VN 3]].
Definition piece_items : list val := [demo_default; VSeq [VN 9]].
Definition piece_bytes : list byte := obuf (snd (out_call node_env vec_cfg piece_vals piece_types (mkO [] 0))).

Lemma piece_sendable : sendable node_env vec_cfg vec_cfg 10 piece_vals piece_types.
Proof.
  constructor;
  [ constructor;
    [ intros _; cbn; lia | reflexivity | apply demo_wf_env | intros [|k]; reflexivity | reflexivity
    | reflexivity | reflexivity | vm_compute; reflexivity ]
  | reflexivity | reflexivity | vm_compute; reflexivity | intros [|k]; reflexivity
  | vm_compute; reflexivity | cbn; lia ].
Qed.

Lemma piece_written : written node_env vec_cfg piece_vals piece_types piece_bytes.
Proof.
  exists (mkO [] 0), (snd (out_call node_env vec_cfg piece_vals piece_types (mkO [] 0))).
  split; [right; split; [vm_compute; reflexivity|intros [|k]; reflexivity]|].
  split; [unfold ost_ok; cbn; lia|]. split; vm_compute; reflexivity.
Qed.

Lemma piece_reading data : small data -> reading node_env vec_cfg data (TTuple piece_types).
Proof.
  intro Hs. destruct (demo_reading data Hs) as [H1 H2 H3 H4 H5 H6]. constructor; auto.
  cbn [tallP]. split; [exact I|]. constructor; [exact H5|]. constructor; [|constructor].
  cbn [tallP cmp_ok]. auto.
Qed.

(** Two such messages in pieces of 5 bytes: the attempts fail in different members, the one with
    50 bytes finds the first message, and the last piece completes the second. *)
Fixpoint cut (n fuel : nat) (l : list byte) : list (list byte) :=
  match fuel, l with O, _ | _, [] => [] | S f, _ => firstn n l :: cut n f (skipn n l) end.

Example pieces_nontrivial :
  let m := (piece_vals, (piece_types, piece_items)) in
  let todo := cut 5 100 (piece_bytes ++ piece_bytes) in
  length piece_bytes = 48%nat
  /\ receive node_env vec_cfg 10 piece_types 0 [] todo piece_items
     = ((ROk, piece_vals, 48%nat), firstn 50 (piece_bytes ++ piece_bytes), skipn 10 todo)
  /\ receive_all node_env vec_cfg 10 0 [] todo (map snd [m; m]) = (ROk, map fst [m; m], 96%nat)
  /\ Forall2 (message node_env vec_cfg vec_cfg 10 ([] ++ concat todo)) [m; m] [piece_bytes; piece_bytes]
  /\ has_at (concat todo) 0 (concat [piece_bytes; piece_bytes]).
Proof.
  intros m todo. split; [vm_compute; reflexivity|]. split; [vm_compute; reflexivity|].
  split; [vm_compute; reflexivity|].
  assert (M : message node_env vec_cfg vec_cfg 10 ([] ++ concat todo) m piece_bytes).
  { split; [apply piece_sendable|]. split; [apply piece_written|].
    split; [apply piece_reading; unfold small; vm_compute; reflexivity|vm_compute; reflexivity]. }
  split; [constructor; [exact M|]; constructor; [exact M|constructor]|]. split; vm_compute; [lia|reflexivity].
Qed.

(** Targets are torn in between: after 20 bytes the first members are those of the message. *)
Example pieces_torn :
  let '(r, vs, p) := in_call node_env vec_cfg (firstn 20 piece_bytes) 10 piece_types piece_items 0 in
  r = too_short /\ vs <> piece_items /\ vs <> piece_vals.
Proof. vm_compute. repeat split; discriminate. Qed.

(** An answer that is final though the data are not complete: an index no alternative has. *)
Example pieces_bad :
  let t := TVariant (IdInt 1) [(0, true); (1, true)] [TScalar 1 true; TScalar 4 false] in
  in_call node_env vec_cfg (map n2b [7]) 0 [t; TScalar 4 false] [VAlt 0 (VN 0); VN 0] 0
    = (RErr bad_message, [VAlt 0 (VN 0); VN 0], 1%nat)
  /\ receive node_env vec_cfg 0 [t; TScalar 4 false] 0 [] [map n2b [7]; map n2b [1; 2]] [VAlt 0 (VN 0); VN 0]
    = ((RErr bad_message, [VAlt 0 (VN 0); VN 0], 1%nat), map n2b [7], [map n2b [1; 2]]).
Proof. split; vm_compute; reflexivity. Qed.

Print Assumptions answer_final.
Print Assumptions too_short_means_more.
Print Assumptions pieces_same_answer.
Print Assumptions pieces_stop.
Print Assumptions pieces_round_trip.
Print Assumptions pieces_stream.
Print Assumptions pieces_span_refuted.
Print Assumptions pieces_rest_refuted.
