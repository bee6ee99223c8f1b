(** C86: remote calls of coroutines. *)

From Coq Require Import List NArith ZArith Lia Bool Arith.
From Coq Require Import ZifyBool ZifyNat ZifyN.
From Verif Require Import Base.Bytes Model.Types Model.Machine Model.Varint Model.Out Model.In
  Spec.RpcQueue Model.Rpc Model.RpcThrow Model.RpcCo Spec.Leb128 Spec.Wire Proofs.VarintP Proofs.OutP Proofs.InBase
  Proofs.InSafe Proofs.InLocal Proofs.InPrior Proofs.InRound Proofs.RpcP
  Thm.Demo Thm.Output Thm.Input Thm.Rpc Thm.RpcQueue Thm.RpcThrow.
Import ListNotations.
Local Open Scope N_scope.

(** ** Statement *)

(** The function a coroutine stands for: it returns the value and throws the error (C79). *)
Definition value_or_throw (v : val + N) : option val := match v with inl v => Some v | inr _ => None end.

Definition plain_ret (r : coret) : rret :=
  match r with Ordinary r => r | CoVoid => RetVoid | CoVal t => RetVal t end.

Definition settled {S} (b : cobinding S) : tbinding S :=
  mkTbinding (cb_id b) (plain_ret (cb_ret b))
    (match cb_body b with
     | CoPlain params f => TPlain params (fun s l => let (s', v) := f s l in (s', value_or_throw v))
     | CoArchives f => TArchives (fun s d p so => match f s d p so with (s', p', so', v) => (s', p', so', value_or_throw v) end)
     | CoRawData byref f => TRawData (fun s d => match f s d with (s', n, v) =>
                               (s', if byref then n else length d, value_or_throw v) end)
     end).

(** The same outcome, for a server with coroutines and one without. *)
Definition same_outcome (c : cores) (r : res + N) : Prop :=
  match c with
  | CoDone => r = inl ROk
  | CoFail r' => r = inl r' /\ r' <> ROk
  | CoYield n => r = inr n
  | CoError _ => r = inl RThrow
  end.

(** Functions that are not coroutines give a value. *)
Definition gives_value {S} (b : cobinding S) : Prop :=
  awaitable (cb_ret b) = false ->
  match cb_body b with
  | CoPlain _ f => forall s l, exists v, snd (f s l) = inl v
  | CoArchives f => forall s d p so, exists v, snd (f s d p so) = inl v
  | CoRawData _ f => forall s d, exists v, snd (f s d) = inl v
  end.

(** Not among them: with bind, functions with parameters that are coroutines without a value, or
    that return an errc; with bind_opaque, coroutines that run late and take the data by
    reference. *)
Definition well_bound {S} (eager : bool) (b : cobinding S) : Prop :=
  match cb_body b with
  | CoPlain (_ :: _) _ => cb_ret b <> CoVoid /\ cb_ret b <> Ordinary RetErrc
  | CoRawData byref _ => awaitable (cb_ret b) = true -> eager = true \/ byref = false
  | _ => True
  end.

(** ** Proofs *)

Lemma await_same x : same_outcome (fst (await_errc x)) (inl (fst x)) /\ snd (await_errc x) = snd x.
Proof. destruct x as [[] so]; cbn; repeat split; discriminate. Qed.

Lemma settle_send G co p r v so :
  (p = true -> r <> CoVoid /\ r <> Ordinary RetErrc) -> (awaitable r = false -> exists w, v = inl w) ->
  same_outcome (fst (settle G co p r v so)) (fst (tsend G co (plain_ret r) (value_or_throw v) so))
  /\ snd (settle G co p r v so) = snd (tsend G co (plain_ret r) (value_or_throw v) so).
Proof.
  intros Hp Hv. destruct r as [[| |t]| |t]; cbn [settle plain_ret awaitable] in *.
  - destruct (Hv eq_refl) as [w ->]. split; reflexivity.
  - destruct (Hv eq_refl) as [w ->]. cbn [value_or_throw tsend send].
    destruct w as [n| | | | | | |]; try (split; reflexivity).
    destruct p; [now destruct (Hp eq_refl)|]. destruct n as [|q]; split; reflexivity.
  - destruct (Hv eq_refl) as [w ->]. cbn [value_or_throw tsend send].
    pose proof (await_same (out_call G co [w] [t] so)) as H. destruct (out_call G co [w] [t] so). exact H.
  - destruct p; [now destruct (Hp eq_refl)|]. destruct v; split; reflexivity.
  - destruct v as [w|x]; [|split; reflexivity]. cbn [value_or_throw tsend send].
    pose proof (await_same (out_call G co [w] [t] so)) as H. destruct (out_call G co [w] [t] so). exact H.
Qed.

(** What a server with coroutines and one without agree on. *)
Definition agree {S} (A : coserved S) (B : served S) : Prop :=
  same_outcome (co_res A) (sv_res B) /\ co_ctx A = sv_ctx B /\ co_pos A = sv_pos B
  /\ co_out A = sv_out B /\ co_log A = sv_log B.

Lemma agree_settle {S} G co p r v so so' (s : S) pos l :
  (p = true -> r <> CoVoid /\ r <> Ordinary RetErrc) -> (awaitable r = false -> exists w, v = inl w) -> so' = so ->
  agree (let (c, o) := settle G co p r v so in mkCoserved c s pos o l)
        (let (c, o) := tsend G co (plain_ret r) (value_or_throw v) so' in mkServed c s pos o l).
Proof.
  intros Hp Hv ->. destruct (settle_send G co p r v so Hp Hv) as [A B].
  destruct (settle G co p r v so), (tsend G co (plain_ret r) (value_or_throw v) so). cbn [fst snd] in *. subst.
  now repeat split.
Qed.

Lemma fail_agree {S} r (s : S) pos so : r <> ROk ->
  agree (mkCoserved (CoFail r) s pos so []) (mkServed (inl r) s pos so []).
Proof. intro H. now repeat split. Qed.

Lemma in_call_shape G c data fuel t p pos : exists r x q, in_call G c data fuel [t] [p] pos = (r, [x], q).
Proof.
  unfold in_call. cbn [des_many tl]. destruct (des G c data fuel t p pos) as [[r x] q]. cbn [seq_res].
  destruct r; do 3 eexists; reflexivity.
Qed.

Lemma cocall_agree {S} eager G ci co data fuel i (b : cobinding S) s pos so :
  well_bound eager b -> gives_value b ->
  agree (cocall_one eager G ci co data fuel i b s pos so) (tcall_one S G ci co data fuel i (settled b) s pos so).
Proof.
  unfold well_bound, gives_value, cocall_one, tcall_one, settled. cbn [tb_ret tb_body].
  destruct (cb_body b) as [params f|f|byref f]; intros HW HV.
  - unfold cocall_plain, tcall_plain.
    set (p := match params with [] => false | _ :: _ => true end).
    assert (Hp : p = true -> cb_ret b <> CoVoid /\ cb_ret b <> Ordinary RetErrc) by (unfold p; destruct params; [discriminate|auto]).
    assert (Hr : runs eager p (cb_ret b) = true).
    { destruct (cb_ret b) as [r| |t]; try reflexivity. cbn [runs]. destruct p; [now destruct (Hp eq_refl)|]. apply orb_true_r. }
    rewrite Hr.
    assert (Q : forall args pos',
      agree (let (s', v) := f s args in let (r, so') := settle G co p (cb_ret b) v so in mkCoserved r s' pos' so' [(i, WithArgs args)])
            (let (s', v) := (let (s', v) := f s args in (s', value_or_throw v)) in
             let (r, so') := tsend G co (plain_ret (cb_ret b)) v so in mkServed r s' pos' so' [(i, WithArgs args)])).
    { intros args pos'. destruct (f s args) as [s' v] eqn:Ef. apply agree_settle; auto.
      intro Ha. destruct (HV Ha s args) as [w Hw]. rewrite Ef in Hw. now exists w. }
    destruct params as [|t ts]; [apply Q|].
    change (dflt G (TTuple (t :: ts))) with (VSeq (map (dflt G) (t :: ts))). rewrite in_call_tuple.
    destruct (in_call G ci data fuel (t :: ts) (map (dflt G) (t :: ts)) pos) as [[r l] q].
    destruct r; try (now apply fail_agree). apply Q.
  - destruct (f s data pos so) as [[[s' p'] so'] v] eqn:Ef. apply agree_settle; auto; [discriminate|].
    intro Ha. destruct (HV Ha s data pos so) as [w Hw]. rewrite Ef in Hw. now exists w.
  - replace (byref && awaitable (cb_ret b) && negb eager) with false.
    2: { destruct byref; [|reflexivity]. destruct (awaitable (cb_ret b)); [|reflexivity].
         destruct (HW eq_refl) as [->|H]; [reflexivity|discriminate]. }
    cbv zeta. destruct (f s (skipn pos data)) as [[s' n] v] eqn:Ef. apply agree_settle; auto; [discriminate|].
    intro Ha. destruct (HV Ha s (skipn pos data)) as [w Hw]. rewrite Ef in Hw. now exists w.
Qed.

(** ** C86 *)

(** If coroutines run when they are called, serve() is reading the id and serve(id). *)
Theorem co_serve_eager {S} G ci co data fuel idt (bs : list (cobinding S)) s pos so :
  coserve true G ci co data fuel idt bs s pos so = read_and_serve true G ci co data fuel idt bs s pos so.
Proof. reflexivity. Qed.

(** A server with coroutines does what a server does whose functions return what these return and
    throw where these end with an error: the same function with the same arguments, the same
    context, position, bytes sent and outcome.  Whether coroutines run when they are called or
    when they are awaited makes no difference. *)
Theorem co_transparent {S} eager G ci co data fuel idt (bs : list (cobinding S)) s pos so :
  Forall (well_bound eager) bs -> Forall gives_value bs ->
  agree (read_and_serve eager G ci co data fuel idt bs s pos so)
        (tserve S G ci co data fuel idt (map settled bs) s pos so).
Proof.
  intros HW HV. unfold read_and_serve, coserve_id, tserve.
  destruct (in_call_shape G ci data fuel idt (dflt G idt) pos) as (r & x & q & E). rewrite E.
  destruct r; try (now apply fail_agree). generalize O.
  revert HV. induction HW as [|b bs Hb HW IH]; intros HV k; cbn [cocall_binding tcall_binding map].
  - now apply fail_agree.
  - inversion HV; subst. cbn [settled tb_id]. destruct (id_eqb (cb_id b) x); [now apply cocall_agree|now apply IH].
Qed.

Definition co_table {S} (G : tenv) (idt : ty) (bs : list (cobinding S)) : Prop :=
  throw_table G idt (map settled bs).

Lemma settled_nth {S} (bs : list (cobinding S)) i b : nth_error bs i = Some b -> nth_error (map settled bs) i = Some (settled b).
Proof. intro H. now rewrite nth_error_map, H. Qed.

Lemma cocall_found {S} eager G ci co data fuel idt (bs : list (cobinding S)) i b s pos so q :
  co_table G idt bs -> nth_error bs i = Some b ->
  in_call G ci data fuel [idt] [dflt G idt] pos = (ROk, [cb_id b], q) ->
  read_and_serve eager G ci co data fuel idt bs s pos so = cocall_one eager G ci co data fuel i b s q so.
Proof.
  intros [T1 T2 T3] Hn E1. unfold read_and_serve, coserve_id. rewrite E1.
  assert (F : forall k, cocall_binding eager G ci co data fuel k bs (cb_id b) s q so = cocall_one eager G ci co data fuel (k + i) b s q so).
  { clear - T1 T2 T3 Hn. revert i Hn. induction bs as [|y l IH]; intros [|i] Hn k; try discriminate; cbn [nth_error] in Hn.
    - injection Hn as ->. cbn [cocall_binding].
      rewrite (proj2 (id_eqb_eq G idt (cb_id b) (cb_id b) T1 (T2 (settled b) (or_introl eq_refl))) eq_refl).
      now rewrite Nat.add_0_r.
    - cbn [cocall_binding]. destruct (id_eqb (cb_id y) (cb_id b)) eqn:Ei.
      + apply (id_eqb_eq G idt) in Ei; [|assumption|apply (T2 (settled y)); now left].
        exfalso. cbn [map] in T3. inversion T3 as [|? ? Hni _]; subst. apply Hni. rewrite map_map. cbn [settled tb_id].
        rewrite Ei. apply (in_map cb_id). eapply nth_error_In; eauto.
      + rewrite (IH ltac:(intros c Hc; apply T2; now right) ltac:(now inversion T3) i Hn). f_equal. lia. }
  apply F.
Qed.

(** The error is passed on as it is. *)
Theorem co_error {S} eager G ci co data fuel idt (bs : list (cobinding S)) i b params f args s pos so q z x s' :
  co_table G idt bs -> nth_error bs i = Some b -> cb_body b = CoPlain params f ->
  cb_ret b = CoVoid /\ params = [] \/ (exists t, cb_ret b = CoVal t) ->
  in_call G ci data fuel [idt] [dflt G idt] pos = (ROk, [cb_id b], q) ->
  in_call G ci data fuel params (map (dflt G) params) q = (ROk, args, z) ->
  f s args = (s', inr x) ->
  read_and_serve eager G ci co data fuel idt bs s pos so = mkCoserved (CoError x) s' z so [(i, WithArgs args)].
Proof.
  intros HT Hn Hb Hr E1 E2 Ef. rewrite (cocall_found eager G ci co data fuel idt bs i b s pos so q HT Hn E1).
  unfold cocall_one. rewrite Hb. unfold cocall_plain.
  set (p := match params with [] => false | _ :: _ => true end).
  assert (Hrun : runs eager p (cb_ret b) = true).
  { destruct Hr as [[-> ->]|[t ->]]; [apply orb_true_r|reflexivity]. }
  assert (Hs : settle G co p (cb_ret b) (inr x) so = (CoError x, so)).
  { destruct Hr as [[-> ->]|[t ->]]; reflexivity. }
  rewrite Hrun. destruct params as [|t ts].
  - cbn in E2. unfold in_call in E2. cbn in E2. injection E2 as <- <-. rewrite Ef, Hs. reflexivity.
  - change (dflt G (TTuple (t :: ts))) with (VSeq (map (dflt G) (t :: ts))). rewrite in_call_tuple, E2, Ef, Hs. reflexivity.
Qed.

(** In particular a request runs the coroutine it names once, with the arguments given; its value
    is sent, its error is what awaiting serve() gives, and then nothing is sent. *)
Theorem co_served {S} eager G cw ci co fuel idt (bs : list (cobinding S)) i b params f t args st st' data pos s so :
  Forall (well_bound eager) bs -> Forall gives_value bs ->
  co_table G idt bs -> nth_error bs i = Some b -> cb_body b = CoPlain params f -> cb_ret b = CoVal t ->
  sendable G cw ci fuel (cb_id b :: args) (idt :: params) ->
  bits_ok G (TTuple (idt :: params)) st -> ost_ok st ->
  request G cw idt (cb_id b) args params st = (ROk, st') ->
  small data -> has_at data pos (window (obuf st') (opos st) (opos st' - opos st)) ->
  let R := read_and_serve eager G ci co data fuel idt bs s pos so in
  co_log R = [(i, WithArgs args)] /\ co_ctx R = fst (f s args) /\
  co_pos R = (pos + (opos st' - opos st))%nat /\
  match snd (f s args) with
  | inl v => match out_call G co [v] [t] so with
             | (r, so') => co_out R = so' /\ (co_res R = CoDone <-> r = ROk)
             end
  | inr x => co_res R = CoError x /\ co_out R = so
  end.
Proof.
  intros HW HV HT Hn Hb Hr Hs Hbt Hok H Hsm Hat R.
  destruct (co_transparent eager G ci co data fuel idt bs s pos so HW HV) as (A1 & A2 & A3 & A4 & A5). fold R in A1, A2, A3, A4, A5.
  assert (Hb' : tb_body (settled b) = TPlain params (fun s l => let (s', v) := f s l in (s', value_or_throw v)))
    by (unfold settled; now rewrite Hb).
  destruct (rpc_throw_served G cw ci co fuel idt (map settled bs) i (settled b) params _ args st st' data pos s so
    HT (settled_nth _ _ _ Hn) Hb' Hs Hbt Hok H Hsm Hat) as (B1 & B2 & B3 & B4).
  assert (K : forall x, snd (f s args) = inr x -> co_res R = CoError x /\ co_out R = so).
  { intros x Ex. destruct (request_received G cw ci fuel idt (quiet (settled b)) args params st st' data pos Hs Hbt Hok H Hsm Hat)
      as (q & E1 & E2).
    unfold R. rewrite (co_error eager G ci co data fuel idt bs i b params f args s pos so q _ x (fst (f s args)) HT Hn Hb
      (or_intror (ex_intro _ t Hr)) E1 E2); [now split|]. rewrite <- Ex. now destruct (f s args). }
  rewrite A5, B1, A2, B2, A3, B3. split; [reflexivity|]. destruct (f s args) as [s' v]. cbn [fst snd] in *.
  split; [reflexivity|]. split; [reflexivity|]. destruct v as [v|x]; cbn [value_or_throw] in B4.
  - cbn [settled tb_ret] in B4. rewrite Hr in B4. cbn [plain_ret send] in B4.
    destruct (out_call G co [v] [t] so) as [r so']. injection B4 as B4 B5. rewrite B4 in A1. rewrite A4.
    split; [exact B5|]. destruct (co_res R); cbn [same_outcome] in A1.
    + injection A1 as A1. tauto.
    + destruct A1 as [A1 A6]. injection A1 as A1. subst r0. split; [discriminate|congruence].
    + discriminate.
    + injection A1 as A1. subst r. split; discriminate.
  - apply K. reflexivity.
Qed.

(** The client that asks for the response of a coroutine gets the value it returned. *)
Theorem co_returns {S} eager G cw ci co cr fuel idt (bs : list (cobinding S)) i b params f t args v
  st st' data pos s so data' pos' :
  Forall (well_bound eager) bs -> Forall gives_value bs ->
  co_table G idt bs -> nth_error bs i = Some b -> cb_body b = CoPlain params f -> cb_ret b = CoVal t ->
  sendable G cw ci fuel (cb_id b :: args) (idt :: params) ->
  bits_ok G (TTuple (idt :: params)) st -> ost_ok st ->
  request G cw idt (cb_id b) args params st = (ROk, st') ->
  small data -> has_at data pos (window (obuf st') (opos st) (opos st' - opos st)) ->
  let R := read_and_serve eager G ci co data fuel idt bs s pos so in
  snd (f s args) = inl v -> sendable G co cr fuel [v] [t] -> bits_ok G (TTuple [t]) so -> ost_ok so ->
  co_res R = CoDone ->
  small data' -> has_at data' pos' (window (obuf (co_out R)) (opos so) (opos (co_out R) - opos so)) ->
  coresponse G cr data' fuel (cb_ret b) pos' = (ROk, Some v, (pos' + (opos (co_out R) - opos so))%nat).
Proof.
  intros HW HV HT Hn Hb Hr Hs Hbt Hok H Hsm Hat R Hv Hs2 Hb2 Hok2 Hd Hsm' Hat'.
  destruct (co_served eager G cw ci co fuel idt bs i b params f t args st st' data pos s so
    HW HV HT Hn Hb Hr Hs Hbt Hok H Hsm Hat) as (_ & _ & _ & E). fold R in E. rewrite Hv in E.
  destruct (out_call G co [v] [t] so) as [r so'] eqn:Eo. destruct E as [E1 E2]. apply E2 in Hd. subst r.
  rewrite E1 in *.
  destruct (out_call_sent _ _ _ _ _ _ (sd_writing _ _ _ _ _ _ Hs2) Hb2 Hok2 Eo) as (Hw & _).
  destruct (window_sent _ _ _ _ _ _ (sd_writing _ _ _ _ _ _ Hs2) Hb2 Hok2 Eo) as [Ew El].
  rewrite Ew in Hat'. rewrite El.
  pose proof (in_call_received G co cr fuel _ _ data' pos' Hs2 Hw Hsm' Hat') as Q.
  cbn [map] in Q. rewrite Hr. unfold coresponse. now rewrite Q.
Qed.

(** A coroutine without a value and without parameters is awaited: it runs, and its error is the
    outcome.  (With parameters, see below.) *)
Theorem co_void_awaited {S} eager G ci co data fuel idt (bs : list (cobinding S)) i b f s pos so q :
  co_table G idt bs -> nth_error bs i = Some b -> cb_body b = CoPlain [] f -> cb_ret b = CoVoid ->
  in_call G ci data fuel [idt] [dflt G idt] pos = (ROk, [cb_id b], q) ->
  read_and_serve eager G ci co data fuel idt bs s pos so
  = mkCoserved (match snd (f s []) with inl _ => CoDone | inr x => CoError x end) (fst (f s [])) q so [(i, WithArgs [])].
Proof.
  intros HT Hn Hb Hr E1. destruct (f s []) as [s' [v|x]] eqn:Ef; cbn [fst snd].
  - rewrite (cocall_found eager G ci co data fuel idt bs i b s pos so q HT Hn E1).
    unfold cocall_one. rewrite Hb. unfold cocall_plain. rewrite Hr. cbn [runs negb]. rewrite orb_true_r, Ef. reflexivity.
  - apply (co_error eager G ci co data fuel idt bs i b [] f [] s pos so q q x s' HT Hn Hb); auto.
Qed.

(** With parameters it is not awaited: serve() reports success whatever the coroutine ended with,
    and if coroutines run when they are awaited, it does not run at all. *)
Theorem co_void_parameters {S} eager G ci co data fuel idt (bs : list (cobinding S)) i b p ps f args s pos so q z :
  co_table G idt bs -> nth_error bs i = Some b -> cb_body b = CoPlain (p :: ps) f -> cb_ret b = CoVoid ->
  in_call G ci data fuel [idt] [dflt G idt] pos = (ROk, [cb_id b], q) ->
  in_call G ci data fuel (p :: ps) (map (dflt G) (p :: ps)) q = (ROk, args, z) ->
  read_and_serve eager G ci co data fuel idt bs s pos so
  = if eager then mkCoserved CoDone (fst (f s args)) z so [(i, WithArgs args)]
    else mkCoserved CoDone s z so [].
Proof.
  intros HT Hn Hb Hr E1 E2. rewrite (cocall_found eager G ci co data fuel idt bs i b s pos so q HT Hn E1).
  unfold cocall_one. rewrite Hb. unfold cocall_plain. rewrite Hr. cbn [runs negb]. rewrite orb_false_r.
  change (dflt G (TTuple (p :: ps))) with (VSeq (map (dflt G) (p :: ps))). rewrite in_call_tuple, E2.
  destruct eager; [|reflexivity]. destruct (f s args). reflexivity.
Qed.

(** A coroutine bound with bind_opaque that takes the remaining data by value: everything that
    remains is consumed, whatever becomes of it. *)
Theorem co_opaque_data {S} eager G ci co data fuel idt (bs : list (cobinding S)) i b f t s pos so q :
  co_table G idt bs -> nth_error bs i = Some b -> cb_body b = CoRawData false f -> cb_ret b = CoVal t ->
  in_call G ci data fuel [idt] [dflt G idt] pos = (ROk, [cb_id b], q) ->
  let R := read_and_serve eager G ci co data fuel idt bs s pos so in
  co_log R = [(i, WithData (skipn q data))] /\ co_ctx R = fst (fst (f s (skipn q data)))
  /\ co_pos R = (q + length (skipn q data))%nat
  /\ match snd (f s (skipn q data)) with
     | inl v => match out_call G co [v] [t] so with (r, so') => co_out R = so' /\ (co_res R = CoDone <-> r = ROk) end
     | inr x => co_res R = CoError x /\ co_out R = so
     end.
Proof.
  intros HT Hn Hb Hr E1. cbv zeta. rewrite (cocall_found eager G ci co data fuel idt bs i b s pos so q HT Hn E1).
  unfold cocall_one. rewrite Hb, Hr. cbn [andb].
  destruct (f s (skipn q data)) as [[s' n] v]. cbn [fst snd settle].
  destruct v as [v|x]; [|repeat split]. destruct (out_call G co [v] [t] so) as [r so'].
  destruct r; cbn; repeat split; intro; congruence.
Qed.

(** ** Examples and what does not hold *)

Definition co_withdraw (s : N) (l : list val) : N * (val + N) :=
  match l with
  | [VN n] => if s <? n then (s, inr 5) else (s - n, inl (VN (s - n)))
  | _ => (s, inr 5)
  end.
Definition co_deposit (s : N) (l : list val) : N * (val + N) :=
  match l with
  | [VN n] => if 1000 <? s + n then (s, inr 6) else (s + n, inl VNone)
  | _ => (s, inr 6)
  end.
Definition co_close (s : N) (l : list val) : N * (val + N) := if s =? 0 then (s, inl VNone) else (s, inr 7).
Definition co_check (s : N) (l : list val) : N * (val + N) := (s, inl (VN 0)).
Definition co_sum (s : N) (d : list byte) : N * nat * (val + N) := (s, 0%nat, inl (VN (N.of_nat (length d)))).

Definition co_bank : list (cobinding N) :=
  [ mkCobinding (VN 0x201) (CoVal (TScalar 4 false)) (CoPlain [TScalar 4 false] co_withdraw);
    mkCobinding (VN 0x204) CoVoid (CoPlain [] co_close);
    mkCobinding (VN 0x205) (CoVal (TScalar 4 false)) (CoRawData false co_sum) ].
Definition co_bank_bad : list (cobinding N) :=
  co_bank ++
  [ mkCobinding (VN 0x202) CoVoid (CoPlain [TScalar 4 false] co_deposit);
    mkCobinding (VN 0x203) (Ordinary RetErrc) (CoPlain [TScalar 4 false] co_check) ].

Lemma co_bank_table : co_table node_env (TScalar 4 false) co_bank.
Proof.
  constructor; [reflexivity| |].
  - intros b [<-|[<-|[<-|[]]]]; reflexivity.
  - cbn. repeat constructor; cbn; intuition discriminate.
Qed.
Lemma co_bank_bad_table : co_table node_env (TScalar 4 false) co_bank_bad.
Proof.
  constructor; [reflexivity| |].
  - intros b [<-|[<-|[<-|[<-|[<-|[]]]]]]; reflexivity.
  - cbn. repeat constructor; cbn; intuition discriminate.
Qed.

Example co_bank_fine eager : Forall (well_bound eager) co_bank /\ Forall gives_value co_bank /\ has_coroutine co_bank = true.
Proof.
  split; [|split; [|reflexivity]].
  - repeat (apply Forall_cons; [cbn; first [exact I | split; discriminate | intros _; now right]|]). apply Forall_nil.
  - repeat (apply Forall_cons; [intro; discriminate|]). apply Forall_nil.
Qed.

Definition u32 (n : N) : list byte := le_bytes 4 n.

(** A withdrawal, one that fails, closing and a call with raw data. *)
Example co_bank_runs eager :
  read_and_serve eager node_env vec_cfg vec_cfg (u32 0x201 ++ u32 10) 10 (TScalar 4 false) co_bank 100 0 (mkO [] 0)
  = mkCoserved CoDone 90 8 (mkO (u32 90) 4) [(0%nat, WithArgs [VN 10])]
  /\ read_and_serve eager node_env vec_cfg vec_cfg (u32 0x201 ++ u32 500) 10 (TScalar 4 false) co_bank 100 0 (mkO [] 0)
  = mkCoserved (CoError 5) 100 8 (mkO [] 0) [(0%nat, WithArgs [VN 500])]
  /\ read_and_serve eager node_env vec_cfg vec_cfg (u32 0x204) 10 (TScalar 4 false) co_bank 100 0 (mkO [] 0)
  = mkCoserved (CoError 7) 100 4 (mkO [] 0) [(1%nat, WithArgs [])]
  /\ read_and_serve eager node_env vec_cfg vec_cfg (u32 0x205 ++ [x01; x02; x03]) 10 (TScalar 4 false) co_bank 100 0 (mkO [] 0)
  = mkCoserved CoDone 100 7 (mkO (u32 3) 4) [(2%nat, WithData [x01; x02; x03])]
  /\ read_and_serve eager node_env vec_cfg vec_cfg (u32 0x999) 10 (TScalar 4 false) co_bank 100 0 (mkO [] 0)
  = mkCoserved (CoFail (RErr not_supported)) 100 4 (mkO [] 0) []
  /\ coresponse node_env vec_cfg (u32 90) 10 (CoVal (TScalar 4 false)) 0 = (ROk, Some (VN 90), 4%nat).
Proof. destruct eager; vm_compute; repeat split. Qed.

(** The error of a coroutine without a value that has parameters is lost. *)
Theorem co_void_error_refuted :
  exists (bs : list (cobinding N)) i b f s st',
    co_table node_env (TScalar 4 false) bs /\ nth_error bs i = Some b /\
    cb_ret b = CoVoid /\ cb_body b = CoPlain [TScalar 4 false] f /\
    request node_env vec_cfg (TScalar 4 false) (cb_id b) [VN 500] [TScalar 4 false] (mkO [] 0) = (ROk, st') /\
    f s [VN 500] = (s, inr 6) /\
    let R := coserve true node_env vec_cfg vec_cfg (obuf st') 10 (TScalar 4 false) bs s 0 (mkO [] 0) in
    co_res R = CoDone /\ co_log R = [(i, WithArgs [VN 500])].
Proof.
  exists co_bank_bad, 3%nat, (mkCobinding (VN 0x202) CoVoid (CoPlain [TScalar 4 false] co_deposit)), co_deposit, 600,
    (mkO (u32 0x202 ++ u32 500) 8).
  split; [exact co_bank_bad_table|]. vm_compute. repeat split.
Qed.

(** If coroutines run when they are awaited, it never runs. *)
Theorem co_void_runs_refuted :
  exists (bs : list (cobinding N)) i b f s st',
    co_table node_env (TScalar 4 false) bs /\ nth_error bs i = Some b /\
    cb_ret b = CoVoid /\ cb_body b = CoPlain [TScalar 4 false] f /\
    request node_env vec_cfg (TScalar 4 false) (cb_id b) [VN 300] [TScalar 4 false] (mkO [] 0) = (ROk, st') /\
    f s [VN 300] = (900, inl VNone) /\ s = 600 /\
    read_and_serve false node_env vec_cfg vec_cfg (obuf st') 10 (TScalar 4 false) bs s 0 (mkO [] 0)
    = mkCoserved CoDone 600 8 (mkO [] 0) [].
Proof.
  exists co_bank_bad, 3%nat, (mkCobinding (VN 0x202) CoVoid (CoPlain [TScalar 4 false] co_deposit)), co_deposit, 600,
    (mkO (u32 0x202 ++ u32 300) 8).
  split; [exact co_bank_bad_table|]. vm_compute. repeat split.
Qed.

(** A function with parameters that returns the errc of success: among ordinary functions serve()
    succeeds; as soon as another function of the table is a coroutine, it yields the code of
    success as an error. *)
Theorem co_errc_refuted :
  exists (b : cobinding N) c data,
    cb_ret b = Ordinary RetErrc /\ gives_value b /\ awaitable (cb_ret c) = true /\
    co_table node_env (TScalar 4 false) [c; b] /\
    has_coroutine [b] = false /\ has_coroutine [c; b] = true /\
    sv_res (tserve N node_env vec_cfg vec_cfg data 10 (TScalar 4 false) (map settled [b]) 100 0 (mkO [] 0)) = inl ROk /\
    forall eager,
      co_res (read_and_serve eager node_env vec_cfg vec_cfg data 10 (TScalar 4 false) [c; b] 100 0 (mkO [] 0)) = CoYield 0.
Proof.
  exists (mkCobinding (VN 0x203) (Ordinary RetErrc) (CoPlain [TScalar 4 false] co_check)),
    (mkCobinding (VN 0x204) CoVoid (CoPlain [] co_close)), (u32 0x203 ++ u32 1).
  split; [reflexivity|]. split; [intros _ s l; now exists (VN 0)|]. split; [reflexivity|]. split.
  { constructor; [reflexivity| |].
    - intros b [<-|[<-|[]]]; reflexivity.
    - cbn. repeat constructor; cbn; intuition discriminate. }
  split; [reflexivity|]. split; [reflexivity|]. split; [vm_compute; reflexivity|]. intros []; vm_compute; reflexivity.
Qed.

(** If coroutines run when they are awaited, serve() itself is undefined, for every request whose
    id can be read. *)
Theorem co_serve_late_refuted :
  (exists data, let R := read_and_serve false node_env vec_cfg vec_cfg data 10 (TScalar 4 false) co_bank 100 0 (mkO [] 0) in
     co_res R = CoDone /\ co_res (coserve false node_env vec_cfg vec_cfg data 10 (TScalar 4 false) co_bank 100 0 (mkO [] 0)) = CoFail RUB)
  /\ forall S G ci co data fuel idt (bs : list (cobinding S)) s pos so id q,
     in_call G ci data fuel [idt] [dflt G idt] pos = (ROk, [id], q) ->
     co_res (coserve false G ci co data fuel idt bs s pos so) = CoFail RUB.
Proof.
  split.
  - exists (u32 0x201 ++ u32 10). vm_compute. split; reflexivity.
  - intros S G ci co data fuel idt bs s pos so id q E. unfold coserve. now rewrite E.
Qed.

Print Assumptions co_serve_eager.
Print Assumptions co_serve_late_refuted.
Print Assumptions co_transparent.
Print Assumptions co_served.
Print Assumptions co_error.
Print Assumptions co_returns.
Print Assumptions co_void_awaited.
Print Assumptions co_void_parameters.
Print Assumptions co_opaque_data.
Print Assumptions co_void_error_refuted.
Print Assumptions co_void_runs_refuted.
Print Assumptions co_errc_refuted.
