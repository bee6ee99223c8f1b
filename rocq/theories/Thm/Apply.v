(** C49, C50: calling a function with arguments from an archive, and the result type. *)

From Coq Require Import List NArith ZArith Lia Bool Arith.
From Coq Require Import ZifyBool ZifyNat ZifyN.
From Verif Require Import Base.Bytes Model.Types Model.Machine Model.Varint Model.Out Model.In
  Model.Rpc Model.Apply Spec.Leb128 Spec.Wire Proofs.VarintP Proofs.OutP Proofs.InBase Proofs.InSafe
  Proofs.InLocal Proofs.InPrior Proofs.InRound Proofs.RpcP Thm.Demo Thm.Output Thm.Input Thm.Rpc.
Import ListNotations.
Local Open Scope N_scope.

(** ** C50: value_or_errc

    What a program can do to obtain a value_or_errc that means [meaning]: a value or a failure. *)
Inductive meaning := MValue (v : val) | MError (c : code).

Inductive made : voe -> meaning -> Prop :=
| made_value v : made (voe_value v) (MValue v)
| made_error c : made (voe_error c) (MError c)
| made_move x y m : made x m -> voe_move x = Got y -> made y m.

Theorem voe_faithful x m :
  made x m ->
  (exists y, voe_move x = Got y) /\ voe_destroy_ok x = true /\
  match m with
  | MValue v => voe_success x = true /\ voe_get x = Got v /\ voe_or_throw x = Got v
  | MError c => voe_success x = false /\ voe_code x = Got c /\ voe_or_throw x = Throws c
  end.
Proof.
  intro H. assert (E : x = match m with MValue v => voe_value v | MError c => voe_error c end).
  { induction H as [v|c|x y m H IH Hm]; [reflexivity|reflexivity|].
    subst x. destruct m; cbn in Hm; injection Hm as <-; reflexivity. }
  subst x. destruct m; cbn; eauto 8.
Qed.

Example voe_faithful_nontrivial :
  exists x y, voe_move (voe_value (VN 7)) = Got x /\ voe_move x = Got y /\ made y (MValue (VN 7))
    /\ voe_or_throw y = Got (VN 7).
Proof.
  do 2 eexists. split; [reflexivity|]. split; [reflexivity|]. split; [|reflexivity].
  eapply made_move; [eapply made_move; [constructor|reflexivity]|reflexivity].
Qed.

(** Outside these uses: a default constructed object claims success without having a value, so
    value(), or_throw(), a move and the destructor read the inactive member; error() of a
    success and value() of a failure do too. *)
Theorem voe_default_refuted :
  voe_success voe_default = true /\ voe_get voe_default = Undefined
  /\ voe_or_throw voe_default = Undefined /\ voe_move voe_default = Undefined
  /\ voe_destroy_ok voe_default = false.
Proof. repeat split. Qed.

Theorem voe_wrong_member_undefined x m :
  made x m ->
  match m with MValue _ => voe_code x = Undefined | MError _ => voe_get x = Undefined end.
Proof.
  intro H. assert (E : x = match m with MValue v => voe_value v | MError c => voe_error c end).
  { induction H as [v|c|x y m H IH Hm]; [reflexivity|reflexivity|].
    subst x. destruct m; cbn in Hm; injection Hm as <-; reflexivity. }
  subst x. destruct m; reflexivity.
Qed.

(** ** C49: apply *)

(** How a caller sees the result: failure() and, on success, the value. *)
Definition outcome_of (x : returned + res) : got (option val) :=
  match x with
  | inl RNothing => Got None
  | inl (RCode c) => if code_failure c then Throws c else Got None
  | inl (RDirect v) => Got (Some v)
  | inl (RVoe x) => match voe_or_throw x with Got v => Got (Some v) | Throws c => Throws c | Undefined => Undefined end
  | inr r => Throws (inl r)
  end.

(** The result of a function as its caller would see it, had it been called directly. *)
Definition direct_outcome (rt : rret) (v : val) : got (option val) :=
  match rt with
  | RetVoid => Got None
  | RetErrc => if code_failure (errc_code v) then Throws (errc_code v) else Got None
  | RetVal _ => Got (Some v)
  end.

(** With the arguments in the input, apply is the call f(args...), made once. *)
Theorem apply_calls {S} G cw ci fuel rt params (f : S -> list val -> S * val) args data pos s :
  rt <> RetErrc ->
  sendable G cw ci fuel args params ->
  writable G (fmt_of cw) (VSeq args) (TTuple params) = true ->
  small data -> has_at data pos (wire G cw args params) ->
  let A := apply S G ci data fuel rt params f s pos in
  ap_calls A = [args] /\ ap_ctx A = fst (f s args)
  /\ ap_pos A = (pos + length (wire G cw args params))%nat
  /\ outcome_of (ap_ret A) = direct_outcome rt (snd (f s args)).
Proof.
  intros Hrt Hs Hw Hsm Hat.
  pose proof (in_call_received G cw ci fuel _ _ data pos Hs Hw Hsm Hat) as R.
  unfold apply. destruct params as [|p ps].
  - unfold in_call in R. cbn [des_many map] in R. injection R as <- E. rewrite <- E.
    destruct (f s []) as [s' v]. cbn. repeat split. destruct rt; reflexivity.
  - change (dflt G (TTuple (p :: ps))) with (VSeq (map (dflt G) (p :: ps))).
    rewrite in_call_tuple, R. destruct (f s args) as [s' v]. cbn. repeat split.
    destruct rt; try reflexivity. congruence.
Qed.

(** An errc returned by a function with parameters comes back as a failure, whatever it says. *)
Theorem apply_errc {S} G cw ci fuel p ps (f : S -> list val -> S * val) args data pos s :
  sendable G cw ci fuel args (p :: ps) ->
  writable G (fmt_of cw) (VSeq args) (TTuple (p :: ps)) = true ->
  small data -> has_at data pos (wire G cw args (p :: ps)) ->
  let A := apply S G ci data fuel RetErrc (p :: ps) f s pos in
  ap_calls A = [args] /\ ap_ctx A = fst (f s args)
  /\ ap_pos A = (pos + length (wire G cw args (p :: ps)))%nat
  /\ outcome_of (ap_ret A) = Throws (errc_code (snd (f s args))).
Proof.
  intros Hs Hw Hsm Hat.
  pose proof (in_call_received G cw ci fuel _ _ data pos Hs Hw Hsm Hat) as R.
  unfold apply. change (dflt G (TTuple (p :: ps))) with (VSeq (map (dflt G) (p :: ps))).
  rewrite in_call_tuple, R. destruct (f s args) as [s' v]. cbn. repeat split.
Qed.

Theorem apply_errc_success_refuted :
  exists (f : N -> list val -> N * val) data,
    (forall s args, direct_outcome RetErrc (snd (f s args)) = Got None) /\
    let A := apply N node_env vec_cfg data 10 RetErrc [TScalar 1 false] f 0 0 in
    ap_calls A = [[VN 5]] /\ outcome_of (ap_ret A) = Throws (inl ROk).
Proof.
  exists (fun s _ => (s, VN 0)), [x05]. split; [reflexivity|]. split; vm_compute; reflexivity.
Qed.

(** On any input: either the function was called once with a valid argument list, read from the
    input, or it was not called, the context is untouched and the failure is reported. *)
Theorem apply_any_input {S} G c data fuel rt params (f : S -> list val -> S * val) s pos :
  reading G c data (TTuple params) -> (pos <= length data)%nat ->
  let A := apply S G c data fuel rt params f s pos in
  (pos <= ap_pos A <= length data)%nat /\
  (ap_calls A = [] /\ ap_ctx A = s
   /\ (exists r, outcome_of (ap_ret A) = Throws (inl r) /\ r <> ROk
       /\ fst (fst (in_call G c data fuel params (map (dflt G) params) pos)) = r)
   \/ exists args,
        in_call G c data fuel params (map (dflt G) params) pos = (ROk, args, ap_pos A)
        /\ wt G (VSeq args) (TTuple params) = true
        /\ ap_calls A = [args] /\ ap_ctx A = fst (f s args)
        /\ (rt <> RetErrc -> outcome_of (ap_ret A) = direct_outcome rt (snd (f s args)))).
Proof.
  intros HR Hpos. unfold apply. destruct params as [|p ps].
  - destruct (f s []) as [s' v] eqn:Ef. cbn [ap_pos ap_calls ap_ctx ap_ret].
    split; [lia|]. right. exists []. rewrite Ef. repeat split.
    destruct rt; try reflexivity.
  - pose proof (wt_dflt G (TTuple (p :: ps)) (r_env _ _ _ _ HR) (r_wf _ _ _ _ HR)) as Hwp.
    change (dflt G (TTuple (p :: ps))) with (VSeq (map (dflt G) (p :: ps))) in *.
    rewrite in_call_tuple.
    destruct (in_call G c data fuel (p :: ps) (map (dflt G) (p :: ps)) pos) as [[r l] z] eqn:E.
    destruct (in_call_memory_safe _ _ _ _ _ _ _ _ _ _ HR Hpos Hwp E) as (Hz & Hw & _).
    destruct r as [|e| | |].
    + destruct (f s l) as [s' v] eqn:Ef. cbn [ap_pos ap_calls ap_ctx ap_ret].
      split; [lia|]. right. exists l. rewrite Ef. repeat split; auto.
      destruct rt; try reflexivity. congruence.
    + cbn [ap_pos ap_calls ap_ctx ap_ret]. split; [lia|]. left. repeat split.
      exists (RErr e). destruct rt; repeat split; discriminate.
    + cbn [ap_pos ap_calls ap_ctx ap_ret]. split; [lia|]. left. repeat split.
      eexists. repeat split. discriminate.
    + cbn [ap_pos ap_calls ap_ctx ap_ret]. split; [lia|]. left. repeat split.
      eexists. repeat split. discriminate.
    + cbn [ap_pos ap_calls ap_ctx ap_ret]. split; [lia|]. left. repeat split.
      eexists. repeat split. discriminate.
Qed.

(** A function without parameters leaves the archive alone. *)
Theorem apply_without_parameters {S} G c data fuel rt (f : S -> list val -> S * val) s pos :
  let A := apply S G c data fuel rt [] f s pos in
  ap_pos A = pos /\ ap_calls A = [[]] /\ ap_ctx A = fst (f s [])
  /\ outcome_of (ap_ret A) = direct_outcome rt (snd (f s [])).
Proof.
  unfold apply. destruct (f s []) as [s' v]. cbn. repeat split. destruct rt; reflexivity.
Qed.

(** The server is apply followed by sending the result, and never looks at the wrong member. *)
Theorem server_calls_apply {S} G ci co data fuel i rt params (f : S -> list val -> S * val) s pos so :
  reading G ci data (TTuple params) -> (pos <= length data)%nat ->
  let A := apply S G ci data fuel rt params f s pos in
  let R := call_plain S G ci co data fuel i rt params f s pos so in
  sv_ctx R = ap_ctx A /\ sv_pos R = ap_pos A
  /\ sv_log R = map (fun args => (i, WithArgs args)) (ap_calls A)
  /\ match ap_ret A with
     | inl x => answer G co rt x so = Got (sv_res R, sv_out R)
     | inr r => sv_res R = inl r /\ sv_out R = so
     end.
Proof.
  intros HR Hpos. unfold apply, call_plain.
  assert (C : forall v, match errc_code v with
              | c => (if code_failure c then c else inl ROk) = c end).
  { intros [n| | | | | | |]; try reflexivity. destruct n; reflexivity. }
  destruct params as [|p ps].
  - destruct (f s []) as [s' v]. destruct rt as [| |t]; cbn.
    + repeat split.
    + repeat split. rewrite C. reflexivity.
    + destruct (out_call G co [v] [t] so) as [r so']. repeat split.
  - pose proof (wt_dflt G (TTuple (p :: ps)) (r_env _ _ _ _ HR) (r_wf _ _ _ _ HR)) as Hwp.
    change (dflt G (TTuple (p :: ps))) with (VSeq (map (dflt G) (p :: ps))) in *.
    rewrite in_call_tuple.
    destruct (in_call G ci data fuel (p :: ps) (map (dflt G) (p :: ps)) pos) as [[r l] z] eqn:E.
    destruct r; try (destruct rt; repeat split; reflexivity).
    destruct (f s l) as [s' v]. destruct rt as [| |t]; cbn.
    + repeat split.
    + repeat split.
    + destruct (out_call G co [v] [t] so) as [r so']. repeat split.
Qed.

Example apply_nontrivial :
  let data := [xff; x39; x05; x00; x00; x02; x00; x00; x00; x68; x69] in
  let A := apply N node_env vec_cfg data 10 (RetVal (TScalar 4 false)) [TScalar 4 false; str] demo_add 40 1 in
  ap_calls A = [demo_args] /\ ap_ctx A = 41 /\ ap_pos A = 11%nat /\ outcome_of (ap_ret A) = Got (Some (VN 1379))
  /\ (let B := apply N node_env vec_cfg (firstn 10 data) 10 (RetVal (TScalar 4 false))
                 [TScalar 4 false; str] demo_add 40 1 in
      ap_calls B = [] /\ ap_ctx B = 40 /\ outcome_of (ap_ret B) = Throws (inl (RErr result_out_of_range))).
Proof. repeat split; vm_compute; reflexivity. Qed.

Lemma apply_sendable : sendable node_env vec_cfg vec_cfg 10 demo_args [TScalar 4 false; str].
Proof. sendable_demo. Qed.
