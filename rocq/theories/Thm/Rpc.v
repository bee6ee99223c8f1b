(** C36: remote procedure calls. *)

From Coq Require Import List NArith ZArith Lia Bool Arith.
From Coq Require Import ZifyBool ZifyNat ZifyN.
From Verif Require Import Base.Bytes Model.Types Model.Machine Model.Varint Model.Out Model.In
  Model.Rpc Spec.Leb128 Spec.Wire Proofs.VarintP Proofs.OutP Proofs.InBase Proofs.InSafe
  Proofs.InLocal Proofs.InPrior Proofs.InRound Proofs.RpcP Thm.Demo Thm.Output Thm.Input.
Import ListNotations.
Local Open Scope N_scope.

(** What rpc_checker (4334-4340) asserts: all ids have the same type and are distinct. *)
Record rpc_table {S} (G : tenv) (idt : ty) (bs : list (binding S)) : Prop := {
  t_idt : id_type idt = true;
  t_ids : forall b, In b bs -> wt G (b_id b) idt = true;
  t_distinct : NoDup (map b_id bs)
}.

(** [id] is the id of one of the bindings. *)
Definition bound {S} (bs : list (binding S)) (id : val) : Prop := In id (map b_id bs).

Lemma nth_error_firstn_lt {A} (l : list A) k i : (i < k)%nat -> nth_error (firstn k l) i = nth_error l i.
Proof.
  revert k i. induction l as [|x l IH]; intros [|k] [|i] H; try lia; try reflexivity.
  cbn [firstn nth_error]. apply IH. lia.
Qed.

Lemma window_sent G c vs ts st st' :
  writing G c (VSeq vs) (TTuple ts) -> bits_ok G (TTuple ts) st -> ost_ok st ->
  out_call G c vs ts st = (ROk, st') ->
  window (obuf st') (opos st) (opos st' - opos st) = wire G c vs ts
  /\ (opos st' - opos st)%nat = length (wire G c vs ts).
Proof.
  intros W B O E. destruct (out_call_sent _ _ _ _ _ _ W B O E) as (_ & P & [_ H] & _).
  assert (L : (opos st' - opos st)%nat = length (wire G c vs ts)) by lia.
  split; [rewrite L; exact H|exact L].
Qed.

(** The request as the server reads it: the id, then the parameters. *)
Lemma request_received {S} G cw ci fuel idt (b : binding S) args params st st' data pos :
  sendable G cw ci fuel (b_id b :: args) (idt :: params) ->
  bits_ok G (TTuple (idt :: params)) st -> ost_ok st ->
  request G cw idt (b_id b) args params st = (ROk, st') ->
  small data -> has_at data pos (window (obuf st') (opos st) (opos st' - opos st)) ->
  exists q, in_call G ci data fuel [idt] [dflt G idt] pos = (ROk, [b_id b], q)
    /\ in_call G ci data fuel params (map (dflt G) params) q
       = (ROk, args, (pos + (opos st' - opos st))%nat).
Proof.
  intros Hs Hb Hok H Hsm Hat. unfold request in H.
  destruct (out_call_sent _ _ _ _ _ _ (sd_writing _ _ _ _ _ _ Hs) Hb Hok H) as (Hw & _).
  destruct (window_sent _ _ _ _ _ _ (sd_writing _ _ _ _ _ _ Hs) Hb Hok H) as [Ew El].
  rewrite Ew in Hat. rewrite El.
  pose proof (in_call_received G cw ci fuel _ _ data pos Hs Hw Hsm Hat) as R.
  cbn [map] in R. now apply in_call_first in R.
Qed.

(** ** A request is served by the function it names, once, with the arguments given

    [cw]: the client's output archive, [ci], [co]: the server's archives.  The request bytes
    may be anywhere in the server's input, [so] is any state of its output archive. *)
Theorem rpc_served {S} G cw ci co fuel idt (bs : list (binding S)) i b params f args st st' data pos s so :
  rpc_table G idt bs -> nth_error bs i = Some b -> b_body b = Plain params f ->
  sendable G cw ci fuel (b_id b :: args) (idt :: params) ->
  bits_ok G (TTuple (idt :: params)) st -> ost_ok st ->
  request G cw idt (b_id b) args params st = (ROk, st') ->
  small data -> has_at data pos (window (obuf st') (opos st) (opos st' - opos st)) ->
  let R := serve S G ci co data fuel idt bs s pos so in
  sv_log R = [(i, WithArgs args)]
  /\ sv_ctx R = fst (f s args)
  /\ sv_pos R = (pos + (opos st' - opos st))%nat
  /\ (sv_res R, sv_out R) = send G co (b_ret b) (snd (f s args)) so.
Proof.
  intros [T1 T2 T3] Hn Hb Hs Hbt Hok H Hsm Hat.
  destruct (request_received _ _ _ _ _ _ _ _ _ _ _ _ Hs Hbt Hok H Hsm Hat) as (q & E1 & E2).
  assert (E : serve S G ci co data fuel idt bs s pos so
    = let (s', v) := f s args in
      let (r, so') := send G co (b_ret b) v so in
      mkServed r s' (pos + (opos st' - opos st))%nat so' [(i, WithArgs args)]).
  { unfold serve. rewrite E1. unfold serve_id.
    rewrite (call_binding_found G idt T1 ci co data fuel (b_id b) s q so bs i b T2 T3 Hn eq_refl).
    cbn [Nat.add]. unfold call_one. rewrite Hb. unfold call_plain.
    destruct params as [|p ps].
    - unfold in_call in E2. cbn [des_many map] in E2. injection E2 as <- ->. reflexivity.
    - cbn [dflt]. rewrite in_call_tuple, E2. reflexivity. }
  rewrite E. destruct (f s args) as [s' v]. cbn [fst snd].
  destruct (send G co (b_ret b) v so) as [r so']. repeat split.
Qed.

(** ** The client gets the result *)
Theorem rpc_returns {S} G cw ci co cr fuel idt (bs : list (binding S)) i b params f t args
  st st' data pos s so data' pos' :
  rpc_table G idt bs -> nth_error bs i = Some b -> b_body b = Plain params f -> b_ret b = RetVal t ->
  sendable G cw ci fuel (b_id b :: args) (idt :: params) ->
  bits_ok G (TTuple (idt :: params)) st -> ost_ok st ->
  request G cw idt (b_id b) args params st = (ROk, st') ->
  small data -> has_at data pos (window (obuf st') (opos st) (opos st' - opos st)) ->
  let R := serve S G ci co data fuel idt bs s pos so in
  sendable G co cr fuel [snd (f s args)] [t] -> bits_ok G (TTuple [t]) so -> ost_ok so ->
  sv_res R = inl ROk ->
  small data' -> has_at data' pos' (window (obuf (sv_out R)) (opos so) (opos (sv_out R) - opos so)) ->
  sv_log R = [(i, WithArgs args)] /\ sv_ctx R = fst (f s args)
  /\ response G cr data' fuel (b_ret b) pos'
     = (ROk, Some (snd (f s args)), (pos' + (opos (sv_out R) - opos so))%nat).
Proof.
  intros HT Hn Hb Ht Hs Hbt Hok H Hsm Hat R Hs2 Hb2 Hok2 Hr Hsm' Hat'.
  destruct (rpc_served G cw ci co fuel idt bs i b params f args st st' data pos s so
              HT Hn Hb Hs Hbt Hok H Hsm Hat) as (L & C & _ & E). fold R in L, C, E.
  split; [exact L|]. split; [exact C|].
  rewrite Ht in *. unfold send in E.
  destruct (out_call G co [snd (f s args)] [t] so) as [r so'] eqn:Eo.
  injection E as Er Eso. rewrite Hr in Er. injection Er as <-. rewrite Eso in *.
  destruct (out_call_sent _ _ _ _ _ _ (sd_writing _ _ _ _ _ _ Hs2) Hb2 Hok2 Eo) as (Hw & _).
  destruct (window_sent _ _ _ _ _ _ (sd_writing _ _ _ _ _ _ Hs2) Hb2 Hok2 Eo) as [Ew El].
  rewrite Ew in Hat'. rewrite El.
  pose proof (in_call_received G co cr fuel _ _ data' pos' Hs2 Hw Hsm' Hat') as Q.
  cbn [map] in Q. unfold response. now rewrite Q.
Qed.

(** Client and server on one buffer, as set up by data_in_out (README, test_rpc.cpp): the
    three calls in a row.  Both positions end up at the end of what was written, so the next
    call can follow. *)
Theorem rpc_shared_buffer {S} G c fuel idt (bs : list (binding S)) i b params f t args st st' s :
  rpc_table G idt bs -> nth_error bs i = Some b -> b_body b = Plain params f -> b_ret b = RetVal t ->
  sendable G c c fuel (b_id b :: args) (idt :: params) -> sendable G c c fuel [snd (f s args)] [t] ->
  clean st -> ost_ok st ->
  request G c idt (b_id b) args params st = (ROk, st') ->
  let R := serve S G c c (obuf st') fuel idt bs s (opos st) st' in
  sv_res R = inl ROk ->
  sv_log R = [(i, WithArgs args)] /\ sv_ctx R = fst (f s args) /\ sv_pos R = opos st'
  /\ response G c (obuf (sv_out R)) fuel (b_ret b) (sv_pos R)
     = (ROk, Some (snd (f s args)), opos (sv_out R)).
Proof.
  intros HT Hn Hb Ht Hs Hs2 Hc Hok H R Hr.
  assert (B1 : forall ts st, clean st -> bits_ok G (TTuple ts) st) by (intros; now left).
  destruct (out_call_sent _ _ _ _ _ _ (sd_writing _ _ _ _ _ _ Hs) (B1 _ _ Hc) Hok H)
    as (_ & P & A & _ & Hok' & Hc'). specialize (Hc' Hc).
  destruct (window_sent _ _ _ _ _ _ (sd_writing _ _ _ _ _ _ Hs) (B1 _ _ Hc) Hok H) as [Ew El].
  assert (sm : forall x, ost_ok x -> small (obuf x)).
  { intros x [_ K]. unfold small. change (2 ^ 63) with 9223372036854775808 in K.
    change (2 ^ 64) with 18446744073709551616. lia. }
  assert (At : has_at (obuf st') (opos st) (window (obuf st') (opos st) (opos st' - opos st)))
    by (rewrite Ew; exact A).
  destruct (rpc_served G c c c fuel idt bs i b params f args st st' (obuf st') (opos st) s st'
              HT Hn Hb Hs (B1 _ _ Hc) Hok H (sm _ Hok') At) as (L & C & Pp & E). fold R in L, C, Pp, E.
  rewrite Ht in E. unfold send in E.
  destruct (out_call G c [snd (f s args)] [t] st') as [r so'] eqn:Eo.
  injection E as Er Eso. rewrite Hr in Er. injection Er as <-.
  destruct (out_call_sent _ _ _ _ _ _ (sd_writing _ _ _ _ _ _ Hs2) (B1 _ _ Hc') Hok' Eo)
    as (_ & P2 & A2 & _ & Hok2 & _).
  destruct (window_sent _ _ _ _ _ _ (sd_writing _ _ _ _ _ _ Hs2) (B1 _ _ Hc') Hok' Eo) as [Ew2 El2].
  assert (Pp' : sv_pos R = opos st') by lia.
  split; [exact L|]. split; [exact C|]. split; [exact Pp'|].
  assert (At2 : has_at (obuf (sv_out R)) (opos st')
            (window (obuf (sv_out R)) (opos st') (opos (sv_out R) - opos st')))
    by (rewrite Eso, Ew2; exact A2).
  assert (smR : small (obuf (sv_out R))) by (rewrite Eso; now apply sm).
  destruct (rpc_returns G c c c c fuel idt bs i b params f t args st st' (obuf st') (opos st) s st'
              (obuf (sv_out R)) (opos st') HT Hn Hb Ht Hs (B1 _ _ Hc) Hok H (sm _ Hok') At
              Hs2 (B1 _ _ Hc') Hok' Hr smR At2) as (_ & _ & Q).
  fold R in Q. rewrite Pp', Q. f_equal. rewrite Eso. lia.
Qed.

(** A void function: called, nothing sent. *)
Theorem rpc_void {S} G cw ci co fuel idt (bs : list (binding S)) i b params f args st st' data pos s so :
  rpc_table G idt bs -> nth_error bs i = Some b -> b_body b = Plain params f -> b_ret b = RetVoid ->
  sendable G cw ci fuel (b_id b :: args) (idt :: params) ->
  bits_ok G (TTuple (idt :: params)) st -> ost_ok st ->
  request G cw idt (b_id b) args params st = (ROk, st') ->
  small data -> has_at data pos (window (obuf st') (opos st) (opos st' - opos st)) ->
  serve S G ci co data fuel idt bs s pos so
  = mkServed (inl ROk) (fst (f s args)) (pos + (opos st' - opos st)) so [(i, WithArgs args)].
Proof.
  intros HT Hn Hb Ht Hs Hbt Hok H Hsm Hat.
  destruct (rpc_served G cw ci co fuel idt bs i b params f args st st' data pos s so
              HT Hn Hb Hs Hbt Hok H Hsm Hat) as (L & C & P & E).
  rewrite Ht in E. cbn [send] in E. injection E as E1 E2.
  destruct (serve S G ci co data fuel idt bs s pos so). cbn in *. congruence.
Qed.

(** ** Requests that cannot be served *)

(** An id that is not bound: not_supported, no function called, nothing changed. *)
Theorem rpc_unknown_id {S} G ci co data fuel idt (bs : list (binding S)) s pos so id q :
  rpc_table G idt bs ->
  in_call G ci data fuel [idt] [dflt G idt] pos = (ROk, [id], q) -> ~ bound bs id ->
  serve S G ci co data fuel idt bs s pos so = mkServed (inl (RErr not_supported)) s q so [].
Proof.
  intros [T1 T2 T3] E Hn. unfold serve. rewrite E. now apply (call_binding_unknown G idt).
Qed.

(** Requests for an unbound id are such. *)
Theorem rpc_unknown_request {S} G cw ci co fuel idt (bs : list (binding S)) id args ts st st' data pos s so :
  rpc_table G idt bs -> ~ bound bs id ->
  sendable G cw ci fuel (id :: args) (idt :: ts) ->
  bits_ok G (TTuple (idt :: ts)) st -> ost_ok st ->
  request G cw idt id args ts st = (ROk, st') ->
  small data -> has_at data pos (window (obuf st') (opos st) (opos st' - opos st)) ->
  let R := serve S G ci co data fuel idt bs s pos so in
  sv_res R = inl (RErr not_supported) /\ sv_ctx R = s /\ sv_out R = so /\ sv_log R = [].
Proof.
  intros HT Hn Hs Hb Hok H Hsm Hat R.
  destruct (request_received G cw ci fuel idt (mkBinding id RetVoid (Plain ts (fun (s : S) _ => (s, VNone))))
              args ts st st' data pos Hs Hb Hok H Hsm Hat) as (q & E & _).
  cbn [b_id] in E. unfold R.
  rewrite (rpc_unknown_id G ci co data fuel idt bs s pos so id q HT E Hn). repeat split.
Qed.

(** Arguments that cannot be read: the error is reported and the function is not called. *)
Theorem rpc_bad_arguments {S} G ci co data fuel idt (bs : list (binding S)) i b p ps f s pos so q r l z :
  rpc_table G idt bs -> nth_error bs i = Some b -> b_body b = Plain (p :: ps) f ->
  in_call G ci data fuel [idt] [dflt G idt] pos = (ROk, [b_id b], q) ->
  in_call G ci data fuel (p :: ps) (map (dflt G) (p :: ps)) q = (r, l, z) -> r <> ROk ->
  serve S G ci co data fuel idt bs s pos so = mkServed (inl r) s z so [].
Proof.
  intros [T1 T2 T3] Hn Hb E1 E2 Hr. unfold serve. rewrite E1. unfold serve_id.
  rewrite (call_binding_found G idt T1 ci co data fuel (b_id b) s q so bs i b T2 T3 Hn eq_refl).
  unfold call_one. rewrite Hb. unfold call_plain. cbn [dflt]. rewrite in_call_tuple, E2.
  destruct r; try congruence; reflexivity.
Qed.

(** In particular every proper prefix of a request is rejected. *)
Theorem rpc_truncated {S} G cw ci co fuel idt (bs : list (binding S)) i b params f args st st' data pos s so k :
  rpc_table G idt bs -> nth_error bs i = Some b -> b_body b = Plain params f ->
  sendable G cw ci fuel (b_id b :: args) (idt :: params) ->
  reading G ci data (TTuple (idt :: params)) ->
  bits_ok G (TTuple (idt :: params)) st -> ost_ok st ->
  request G cw idt (b_id b) args params st = (ROk, st') ->
  has_at data pos (window (obuf st') (opos st) (opos st' - opos st)) ->
  (pos <= k < pos + (opos st' - opos st))%nat ->
  let R := serve S G ci co (firstn k data) fuel idt bs s pos so in
  sv_res R = inl (RErr result_out_of_range) /\ sv_ctx R = s /\ sv_out R = so /\ sv_log R = [].
Proof.
  intros HT Hn Hb Hs HR Hbt Hok H Hat Hk R.
  pose proof (r_small _ _ _ _ HR) as Hsm.
  destruct (request_received _ _ _ _ _ _ _ _ _ _ _ _ Hs Hbt Hok H Hsm Hat) as (q & E1 & E2).
  assert (Hdel : forall t, rt_ok ci t = true -> delimited ci t = true).
  { intros t Ht. unfold rt_ok in Ht. now rewrite !andb_true_iff in Ht. }
  assert (HdelG : tall_env (delimited ci) G).
  { intro j. pose proof (sd_env _ _ _ _ _ _ Hs j) as HE. rewrite forallb_forall in *.
    intros t Ht. apply tall_sub with (rt_ok ci); auto. }
  assert (Htd : forallb (tall (delimited ci)) (idt :: params) = true).
  { pose proof (sd_types _ _ _ _ _ _ Hs) as HE. cbn [tall] in HE. apply andb_true_iff in HE as [_ HE].
    rewrite forallb_forall in *. intros t Ht. apply tall_sub with (rt_ok ci); auto. }
  assert (Hl : length (firstn k data) = k).
  { rewrite firstn_length. destruct Hat as [Hle _].
    destruct (window_sent _ _ _ _ _ _ (sd_writing _ _ _ _ _ _ Hs) Hbt Hok H) as [Ew El].
    rewrite Ew in Hle. lia. }
  assert (Hsm' : small (firstn k data)) by (unfold small in *; rewrite Hl; rewrite firstn_length in Hl; lia).
  assert (Hpl : (pos <= length data)%nat) by (rewrite firstn_length in Hl; lia).
  assert (HWd : wt G (dflt G idt) idt = true /\ wt G (VSeq (map (dflt G) params)) (TTuple params) = true).
  { pose proof (r_wf _ _ _ _ HR) as HF. cbn [wf forallb] in HF. apply andb_true_iff in HF as [F1 F2].
    pose proof (r_env _ _ _ _ HR) as F0. split; [now apply wt_dflt|].
    exact (wt_dflt G (TTuple params) F0 F2). }
  destruct HWd as [Hwi Hwp].
  assert (HR1 : reading G ci data idt /\ reading G ci data (TTuple params)).
  { destruct HR as [R1 R2 R3 R4 R5 R6]. cbn [tallP] in R5. destruct R5 as [R5 [R5a R5b]].
    cbn [wf forallb] in R6. apply andb_true_iff in R6 as [R6a R6b].
    split; constructor; auto. cbn [tallP]. split; [exact I|exact R5b]. }
  destruct HR1 as [HRi HRp].
  cbn [forallb] in Htd. apply andb_true_iff in Htd as [Hd1 Hd2].
  assert (Hd2' : tall (delimited ci) (TTuple params) = true) by exact Hd2.
  assert (D1 : des G ci data fuel idt (dflt G idt) pos = (ROk, b_id b, q)).
  { unfold in_call in E1. cbn [des_many tl] in E1. destruct (des _ _ _ _ _ _ _) as [[r x] z].
    destruct r; congruence. }
  assert (D2 : des G ci data fuel (TTuple params) (VSeq (map (dflt G) params)) q
               = (ROk, VSeq args, (pos + (opos st' - opos st))%nat)).
  { unfold des. cbn [des_ty as_seq]. fold (des G ci data fuel). unfold in_call in E2. now rewrite E2. }
  destruct (in_position_and_target_valid _ _ _ _ _ _ _ _ _ _ HRi Hpl Hwi D1) as [Pq _].
  unfold R, serve.
  destruct (Nat.ltb_spec k q) as [Hkq|Hkq].
  - pose proof (in_truncated_rejected G ci data idt fuel (dflt G idt) pos (b_id b) q k
      HRi Hd1 HdelG ltac:(lia) Hpl Hwi D1 Hkq) as T. unfold rres in T.
    unfold in_call. cbn [des_many tl]. destruct (des G ci (firstn k data) fuel idt (dflt G idt) pos) as [[r x] z].
    cbn [fst] in T. subst r. cbn. repeat split.
  - pose proof (in_truncated_rejected G ci data (TTuple params) fuel _ q _ _ k
      HRp Hd2' HdelG Hkq ltac:(lia) Hwp D2 ltac:(lia)) as T.
    assert (D1' : des G ci (firstn k data) fuel idt (dflt G idt) pos = (ROk, b_id b, q)).
    { apply (in_consumed_bytes_only G ci data (firstn k data) idt fuel (dflt G idt) pos (b_id b) q); auto.
      - rewrite Hl. lia.
      - intros z Hz. rewrite nth_error_firstn_lt by lia. reflexivity. }
    assert (E1' : in_call G ci (firstn k data) fuel [idt] [dflt G idt] pos = (ROk, [b_id b], q)).
    { unfold in_call. cbn [des_many tl]. now rewrite D1'. }
    destruct HT as [T1 T2 T3]. rewrite E1'. unfold serve_id.
    rewrite (call_binding_found G idt T1 ci co (firstn k data) fuel (b_id b) s q so bs i b T2 T3 Hn eq_refl).
    unfold call_one. rewrite Hb. unfold call_plain.
    unfold des in T. cbn [des_ty as_seq] in T. fold (des G ci (firstn k data) fuel) in T.
    destruct params as [|p ps].
    + cbn in T. discriminate.
    + change (dflt G (TTuple (p :: ps))) with (VSeq (map (dflt G) (p :: ps))). rewrite in_call_tuple. unfold in_call.
      destruct (des_many (des G ci (firstn k data) fuel) (p :: ps) (map (dflt G) (p :: ps)) q) as [[r l] z].
      cbn [seq_res] in T. unfold rres in T. cbn [fst] in T. subst r. repeat split.
Qed.

(** ** Any input

    Whatever the bytes: at most one function is called, only the one whose id was read, only
    after all its arguments were read as objects of its parameter types; otherwise an error is
    reported and neither the context nor the output changes. *)
Lemma call_binding_cases {S} G ci co data fuel (l : list (binding S)) id s pos so : forall k,
  (exists i b, nth_error l i = Some b /\ id_eqb (b_id b) id = true
     /\ call_binding S G ci co data fuel k l id s pos so = call_one S G ci co data fuel (k + i) b s pos so)
  \/ call_binding S G ci co data fuel k l id s pos so = mkServed (inl (RErr not_supported)) s pos so [].
Proof.
  induction l as [|b l IH]; intro k; [now right|]. cbn [call_binding].
  destruct (id_eqb (b_id b) id) eqn:E.
  - left. exists O, b. rewrite Nat.add_0_r. auto.
  - destruct (IH (k + 1)%nat) as [(i & b' & H1 & H2 & H3)|H]; [|now right].
    left. exists (Datatypes.S i), b'. split; [exact H1|]. split; [exact H2|].
    rewrite H3. f_equal. lia.
Qed.

Definition plain_table {S} (bs : list (binding S)) : Prop :=
  forall b, In b bs -> exists params f, b_body b = Plain params f.

(** The types a server reads. *)
Definition table_reading {S} (G : tenv) (ci : cfg) (data : list byte) (idt : ty)
  (bs : list (binding S)) : Prop :=
  reading G ci data idt /\
  forall b params f, In b bs -> b_body b = Plain params f -> reading G ci data (TTuple params).

Lemma in_call_one G c data t fuel prior pos r v p :
  reading G c data t -> (pos <= length data)%nat -> wt G prior t = true ->
  in_call G c data fuel [t] [prior] pos = (r, v, p) ->
  exists x, v = [x] /\ wt G x t = true /\ (pos <= p <= length data)%nat
    /\ (tall not_bool t = true -> tall_env not_bool G -> r <> RUB).
Proof.
  intros HR Hp Hw E. unfold in_call in E. cbn [des_many tl] in E.
  destruct (des G c data fuel t prior pos) as [[r1 x] q] eqn:D.
  destruct (in_position_and_target_valid _ _ _ _ _ _ _ _ _ _ HR Hp Hw D) as [P1 P2].
  assert (E' : r = r1 /\ v = [x] /\ p = q) by (destruct r1; injection E as <- <- <-; auto).
  destruct E' as (-> & -> & ->). exists x. repeat split; auto; try lia.
  intros Hb HbG. pose proof (in_memory_safe _ _ _ _ fuel _ _ HR Hp Hw Hb HbG) as M. now rewrite D in M.
Qed.

Theorem rpc_any_input {S} G ci co data fuel idt (bs : list (binding S)) s pos so :
  rpc_table G idt bs -> plain_table bs -> table_reading G ci data idt bs -> (pos <= length data)%nat ->
  let R := serve S G ci co data fuel idt bs s pos so in
  (pos <= sv_pos R <= length data)%nat /\
  (sv_log R = [] /\ sv_ctx R = s /\ sv_out R = so /\ (exists r, sv_res R = inl r /\ r <> ROk)
   \/ exists i b params f args q,
        nth_error bs i = Some b /\ b_body b = Plain params f
        /\ in_call G ci data fuel [idt] [dflt G idt] pos = (ROk, [b_id b], q)
        /\ in_call G ci data fuel params (map (dflt G) params) q = (ROk, args, sv_pos R)
        /\ wt G (VSeq args) (TTuple params) = true
        /\ sv_log R = [(i, WithArgs args)] /\ sv_ctx R = fst (f s args)
        /\ (sv_res R, sv_out R) = send G co (b_ret b) (snd (f s args)) so).
Proof.
  intros HT HP [HRi HRb] Hpos R. unfold R, serve.
  pose proof (wt_dflt G idt (r_env _ _ _ _ HRi) (r_wf _ _ _ _ HRi)) as Hwi.
  destruct (in_call G ci data fuel [idt] [dflt G idt] pos) as [[r l] q] eqn:E1.
  destruct (in_call_one _ _ _ _ _ _ _ _ _ _ HRi Hpos Hwi E1) as (id & -> & Hid & Hq & _).
  destruct r; try (split; [exact Hq|]; left; repeat split; eexists; split; [reflexivity|discriminate]).
  unfold serve_id.
  destruct (call_binding_cases G ci co data fuel bs id s q so O) as [(i & b & Hn & Ei & ->)| ->].
  2:{ split; [exact Hq|]. left. repeat split. eexists; split; [reflexivity|discriminate]. }
  pose proof (nth_error_In _ _ Hn) as Hin.
  apply (id_eqb_eq G idt) in Ei; [|apply HT|now apply HT]. subst id.
  destruct (HP b Hin) as (params & f & Hb). pose proof (HRb b params f Hin Hb) as HRp.
  unfold call_one. rewrite Hb. unfold call_plain. cbn [Nat.add].
  assert (Hgo : forall args z, in_call G ci data fuel params (map (dflt G) params) q = (ROk, args, z) ->
    wt G (VSeq args) (TTuple params) = true -> (q <= z <= length data)%nat ->
    let R := let (s', v) := f s args in let (r, so') := send G co (b_ret b) v so in
             mkServed r s' z so' [(i, WithArgs args)] in
    (pos <= sv_pos R <= length data)%nat /\
    (sv_log R = [] /\ sv_ctx R = s /\ sv_out R = so /\ (exists r, sv_res R = inl r /\ r <> ROk)
     \/ exists i0 b0 params f args q0,
        nth_error bs i0 = Some b0 /\ b_body b0 = Plain params f
        /\ (ROk, [b_id b], q) = (ROk, [b_id b0], q0)
        /\ in_call G ci data fuel params (map (dflt G) params) q0 = (ROk, args, sv_pos R)
        /\ wt G (VSeq args) (TTuple params) = true
        /\ sv_log R = [(i0, WithArgs args)] /\ sv_ctx R = fst (f s args)
        /\ (sv_res R, sv_out R) = send G co (b_ret b0) (snd (f s args)) so)).
  { intros args z E2 Hw Hz. destruct (f s args) as [s' v] eqn:Ef.
    destruct (send G co (b_ret b) v so) as [r so'] eqn:Es. cbn [sv_pos sv_log sv_ctx sv_out sv_res].
    split; [lia|]. right. exists i, b, params, f, args, q. rewrite Ef. cbn [fst snd]. auto 10. }
  pose proof (wt_dflt G (TTuple params) (r_env _ _ _ _ HRp) (r_wf _ _ _ _ HRp)) as Hwp.
  destruct params as [|p ps].
  { apply Hgo; [reflexivity|reflexivity|lia]. }
  change (dflt G (TTuple (p :: ps))) with (VSeq (map (dflt G) (p :: ps))) in *.
  rewrite in_call_tuple.
  destruct (in_call G ci data fuel (p :: ps) (map (dflt G) (p :: ps)) q) as [[r l] z] eqn:E2.
  destruct (in_call_memory_safe _ _ _ _ _ _ _ _ _ _ HRp (proj2 Hq) Hwp E2) as (Hz & Hw & _).
  destruct r; try (split; [cbn; lia|]; left; repeat split; eexists; split; [reflexivity|discriminate]).
  apply Hgo; auto.
Qed.

(** No undefined behaviour, given that no bool is read and that results are objects of the
    declared type. *)
Theorem rpc_memory_safe {S} G ci co data fuel idt (bs : list (binding S)) s pos so :
  rpc_table G idt bs -> plain_table bs -> table_reading G ci data idt bs -> (pos <= length data)%nat ->
  tall_env not_bool G -> ost_ok so ->
  (forall b params f, In b bs -> b_body b = Plain params f -> tall not_bool (TTuple params) = true) ->
  (forall b params f t, In b bs -> b_body b = Plain params f -> b_ret b = RetVal t ->
     bits_ok G (TTuple [t]) so /\
     forall s args, wt G (VSeq args) (TTuple params) = true ->
       writing G co (VSeq [snd (f s args)]) (TTuple [t])) ->
  sv_res (serve S G ci co data fuel idt bs s pos so) <> inl RUB.
Proof.
  intros HT HP HR Hpos HbG Hok Hnb Hres.
  assert (Hi : tall not_bool idt = true).
  { pose proof (t_idt _ _ _ HT) as Hi. destruct idt; try discriminate; [reflexivity|].
    destruct idt; try discriminate. reflexivity. }
  destruct (rpc_any_input G ci co data fuel idt bs s pos so HT HP HR Hpos) as
    [_ [(L & _ & _ & r & Er & Hr)|(i & b & params & f & args & q & Hn & Hb & _ & _ & Hw & _ & _ & E)]].
  - rewrite Er. intro E. injection E as ->. revert Er. unfold serve.
    destruct HR as [HRi HRb].
    pose proof (wt_dflt G idt (r_env _ _ _ _ HRi) (r_wf _ _ _ _ HRi)) as Hwi.
    destruct (in_call G ci data fuel [idt] [dflt G idt] pos) as [[r l] q] eqn:E1.
    destruct (in_call_one _ _ _ _ _ _ _ _ _ _ HRi Hpos Hwi E1) as (id & -> & _ & Hq & U).
    specialize (U Hi HbG). revert L. unfold serve. rewrite E1.
    destruct r; cbn [sv_res]; try congruence.
    unfold serve_id.
    destruct (call_binding_cases G ci co data fuel bs id s q so O) as [(i & b & Hn & Ei & ->)| ->];
      [|discriminate].
    pose proof (nth_error_In _ _ Hn) as Hin.
    destruct (HP b Hin) as (params & f & Hb). pose proof (HRb b params f Hin Hb) as HRp.
    unfold call_one. rewrite Hb. unfold call_plain.
    pose proof (wt_dflt G (TTuple params) (r_env _ _ _ _ HRp) (r_wf _ _ _ _ HRp)) as Hwp.
    assert (Go : forall args z,
      sv_log (let (s', v) := f s args in let (r, so') := send G co (b_ret b) v so in
             mkServed r s' z so' [(i, WithArgs args)]) <> []).
    { intros args z. destruct (f s args) as [s' v]. destruct (send G co (b_ret b) v so). discriminate. }
    cbn [Nat.add]. destruct params as [|p ps]; [intro L; now apply Go in L|].
    change (dflt G (TTuple (p :: ps))) with (VSeq (map (dflt G) (p :: ps))) in *.
    rewrite in_call_tuple.
    destruct (in_call G ci data fuel (p :: ps) (map (dflt G) (p :: ps)) q) as [[r l] z] eqn:E2.
    destruct (in_call_memory_safe _ _ _ _ _ _ _ _ _ _ HRp (proj2 Hq) Hwp E2) as (_ & _ & U2).
    specialize (U2 (Hnb b _ _ Hin Hb) HbG).
    destruct r; cbn [sv_res sv_log]; try congruence. intro L. now apply Go in L.
  - intro Er. rewrite Er in E. pose proof (nth_error_In _ _ Hn) as Hin.
    destruct (b_ret b) as [| |t] eqn:Et; cbn [send] in E.
    + discriminate.
    + injection E as E _. destruct (snd (f s args)) as [n| | | | | | |]; try discriminate.
      destruct n; discriminate.
    + destruct (Hres b params f t Hin Hb Et) as [Hbits HW]. specialize (HW s args Hw).
      destruct (out_call G co [snd (f s args)] [t] so) as [r so'] eqn:Eo. injection E as <- _.
      destruct (out_call_keeps_written _ _ _ _ _ _ _ HW Hbits Hok Eo) as (st1 & E1 & _).
      destruct (out_frame G co (VSeq [snd (f s args)]) (TTuple [t]) so RUB st1 HW Hbits Hok E1) as (U & _).
      now apply U.
Qed.

(** ** Functions returning errc

    The code is the result of serve(); the client, whose response() expects an errc, is sent
    nothing, even if the call succeeded. *)
Theorem rpc_errc_not_sent {S} G cw ci co fuel idt (bs : list (binding S)) i b params f args st st' data pos s so n :
  rpc_table G idt bs -> nth_error bs i = Some b -> b_body b = Plain params f -> b_ret b = RetErrc ->
  sendable G cw ci fuel (b_id b :: args) (idt :: params) ->
  bits_ok G (TTuple (idt :: params)) st -> ost_ok st ->
  request G cw idt (b_id b) args params st = (ROk, st') ->
  small data -> has_at data pos (window (obuf st') (opos st) (opos st' - opos st)) ->
  snd (f s args) = VN n ->
  let R := serve S G ci co data fuel idt bs s pos so in
  sv_out R = so /\ sv_res R = (if n =? 0 then inl ROk else inr n).
Proof.
  intros HT Hn Hb Ht Hs Hbt Hok H Hsm Hat Hv R.
  destruct (rpc_served G cw ci co fuel idt bs i b params f args st st' data pos s so
              HT Hn Hb Hs Hbt Hok H Hsm Hat) as (_ & _ & _ & E). fold R in E.
  rewrite Ht, Hv in E. cbn [send] in E. injection E as -> ->. split; [reflexivity|].
  destruct n; reflexivity.
Qed.

(** ** Opaque functions *)

(** A function taking the remaining data gets everything after the id. *)
Theorem rpc_opaque_data {S} G ci co data fuel idt (bs : list (binding S)) i b f s pos so q :
  rpc_table G idt bs -> nth_error bs i = Some b -> b_body b = RawData f ->
  in_call G ci data fuel [idt] [dflt G idt] pos = (ROk, [b_id b], q) ->
  let R := serve S G ci co data fuel idt bs s pos so in
  let '(s', n, v) := f s (skipn q data) in
  sv_log R = [(i, WithData (skipn q data))] /\ sv_ctx R = s' /\ sv_pos R = (q + n)%nat
  /\ (sv_res R, sv_out R) = send G co (b_ret b) v so.
Proof.
  intros [T1 T2 T3] Hn Hb E. unfold serve. rewrite E. unfold serve_id.
  rewrite (call_binding_found G idt T1 ci co data fuel (b_id b) s q so bs i b T2 T3 Hn eq_refl).
  unfold call_one. rewrite Hb. cbn [Nat.add].
  destruct (f s (skipn q data)) as [[s' n] v]. destruct (send G co (b_ret b) v so) as [r so'].
  repeat split.
Qed.

(** A function taking the archives is called once, with the input just after the id. *)
Theorem rpc_opaque_archives {S} G ci co data fuel idt (bs : list (binding S)) i b f s pos so q :
  rpc_table G idt bs -> nth_error bs i = Some b -> b_body b = Archives f ->
  in_call G ci data fuel [idt] [dflt G idt] pos = (ROk, [b_id b], q) ->
  let R := serve S G ci co data fuel idt bs s pos so in
  let '(s', p, so1, v) := f s data q so in
  sv_log R = [(i, WithArchives)] /\ sv_ctx R = s' /\ sv_pos R = p
  /\ (sv_res R, sv_out R) = send G co (b_ret b) v so1.
Proof.
  intros [T1 T2 T3] Hn Hb E. unfold serve. rewrite E. unfold serve_id.
  rewrite (call_binding_found G idt T1 ci co data fuel (b_id b) s q so bs i b T2 T3 Hn eq_refl).
  unfold call_one. rewrite Hb. cbn [Nat.add].
  destruct (f s data q so) as [[[s' p] so1] v]. destruct (send G co (b_ret b) v so1) as [r so'].
  repeat split.
Qed.

(** ** serve(id): the id travels by other means *)
Theorem rpc_body_served {S} G cw ci co fuel idt (bs : list (binding S)) i b p ps f args st st' data pos s so :
  rpc_table G idt bs -> nth_error bs i = Some b -> b_body b = Plain (p :: ps) f ->
  sendable G cw ci fuel args (p :: ps) -> bits_ok G (TTuple (p :: ps)) st -> ost_ok st ->
  request_body G cw args (p :: ps) st = (ROk, st') ->
  small data -> has_at data pos (window (obuf st') (opos st) (opos st' - opos st)) ->
  let R := serve_id S G ci co data fuel bs (b_id b) s pos so in
  sv_log R = [(i, WithArgs args)] /\ sv_ctx R = fst (f s args)
  /\ sv_pos R = (pos + (opos st' - opos st))%nat
  /\ (sv_res R, sv_out R) = send G co (b_ret b) (snd (f s args)) so.
Proof.
  intros [T1 T2 T3] Hn Hb Hs Hbt Hok H Hsm Hat. unfold serve_id. cbn [request_body] in H.
  destruct (out_call_sent _ _ _ _ _ _ (sd_writing _ _ _ _ _ _ Hs) Hbt Hok H) as (Hw & _).
  destruct (window_sent _ _ _ _ _ _ (sd_writing _ _ _ _ _ _ Hs) Hbt Hok H) as [Ew El].
  rewrite Ew in Hat. rewrite El.
  pose proof (in_call_received G cw ci fuel _ _ data pos Hs Hw Hsm Hat) as E2.
  rewrite (call_binding_found G idt T1 ci co data fuel (b_id b) s pos so bs i b T2 T3 Hn eq_refl).
  unfold call_one. rewrite Hb. unfold call_plain. cbn [Nat.add].
  change (dflt G (TTuple (p :: ps))) with (VSeq (map (dflt G) (p :: ps))).
  rewrite in_call_tuple, E2.
  destruct (f s args) as [s' v]. cbn [fst snd].
  destruct (send G co (b_ret b) v so) as [r so']. repeat split.
Qed.

(** ** A concrete table

    Context: a counter.  0: std::uint32_t add(std::uint32_t, std::string), returns the sum of its
    first argument, the length of the second and the counter; 1: void reset(std::uint32_t);
    2: errc check(std::uint8_t); 3: an opaque function of the remaining data. *)
Definition str : ty := TVec None true (TScalar 1 true).
Definition demo_add (s : N) (args : list val) : N * val :=
  match args with
  | [VN a; VSeq l] => (s + 1, VN ((a + N.of_nat (length l) + s) mod 2 ^ 32))
  | _ => (s, VN 0)
  end.
Definition demo_reset (s : N) (args : list val) : N * val :=
  match args with [VN a] => (a, VNone) | _ => (s, VNone) end.
Definition demo_check (s : N) (args : list val) : N * val :=
  match args with [VN a] => (s, VN (if a <? 10 then 0 else 22)) | _ => (s, VN 0) end.
Definition demo_raw (s : N) (d : list byte) : N * nat * val :=
  (s + N.of_nat (length d), length d, VNone).
Definition demo_table : list (binding N) :=
  [ mkBinding (VN 0xAABBCCDD) (RetVal (TScalar 4 false)) (Plain [TScalar 4 false; str] demo_add);
    mkBinding (VN 7) RetVoid (Plain [TScalar 4 false] demo_reset);
    mkBinding (VN 8) RetErrc (Plain [TScalar 1 false] demo_check);
    mkBinding (VN 9) RetVoid (RawData demo_raw) ].
Definition demo_args : list val := [VN 1337; VSeq [VN 104; VN 105]].

Lemma demo_table_ok : rpc_table node_env (TScalar 4 false) demo_table.
Proof.
  constructor; [reflexivity| |].
  - intros b [<-|[<-|[<-|[<-|[]]]]]; reflexivity.
  - cbn. repeat constructor; cbn; intuition discriminate.
Qed.

Ltac sendable_demo :=
  constructor; try (vm_compute; reflexivity);
  [ constructor; try (vm_compute; reflexivity);
    [ intros _; repeat split; vm_compute; try reflexivity; discriminate
    | apply demo_wf_env
    | intros [|k]; reflexivity ]
  | intros [|k]; reflexivity
  | vm_compute; lia ].

Lemma demo_request_sendable :
  sendable node_env vec_cfg vec_cfg 10 (VN 0xAABBCCDD :: demo_args) [TScalar 4 false; TScalar 4 false; str].
Proof. sendable_demo. Qed.

Lemma demo_response_sendable :
  sendable node_env vec_cfg vec_cfg 10 [snd (demo_add 40 demo_args)] [TScalar 4 false].
Proof. sendable_demo. Qed.

Example rpc_nontrivial :
  exists st',
    request node_env vec_cfg (TScalar 4 false) (VN 0xAABBCCDD) demo_args [TScalar 4 false; str] (mkO [] 0)
    = (ROk, st') /\
    obuf st' = [xdd; xcc; xbb; xaa; x39; x05; x00; x00; x02; x00; x00; x00; x68; x69] /\
    let R := serve N node_env vec_cfg vec_cfg (obuf st') 10 (TScalar 4 false) demo_table 40 0 st' in
    sv_res R = inl ROk /\ sv_log R = [(0%nat, WithArgs demo_args)] /\ sv_ctx R = 41 /\
    response node_env vec_cfg (obuf (sv_out R)) 10 (RetVal (TScalar 4 false)) (sv_pos R)
    = (ROk, Some (VN 1379), 18%nat).
Proof. eexists. split; [vm_compute; reflexivity|]. repeat split; vm_compute; reflexivity. Qed.

(** Unknown id; truncated arguments; garbage. *)
Example rpc_rejected_nontrivial :
  let run d := serve N node_env vec_cfg vec_cfg d 10 (TScalar 4 false) demo_table 40 0 (mkO [] 0) in
  (sv_res (run [x01; x00; x00; x00; x05]), sv_log (run [x01; x00; x00; x00; x05])) = (inl (RErr not_supported), [])
  /\ (sv_res (run [xdd; xcc; xbb; xaa; x39; x05]), sv_log (run [xdd; xcc; xbb; xaa; x39; x05]))
     = (inl (RErr result_out_of_range), [])
  /\ (sv_res (run [xdd; xcc; xbb]), sv_ctx (run [xdd; xcc; xbb])) = (inl (RErr result_out_of_range), 40).
Proof. repeat split; vm_compute; reflexivity. Qed.

(** The client of a function returning errc cannot read the result, although the call was
    made and succeeded. *)
Theorem rpc_errc_response_refuted :
  exists (bs : list (binding N)) st st',
    rpc_table node_env (TScalar 4 false) bs /\
    request node_env vec_cfg (TScalar 4 false) (VN 8) [VN 5] [TScalar 1 false] st = (ROk, st') /\
    let R := serve N node_env vec_cfg vec_cfg (obuf st') 10 (TScalar 4 false) bs 40 0 st' in
    sv_res R = inl ROk /\ sv_log R = [(2%nat, WithArgs [VN 5])] /\
    fst (fst (response node_env vec_cfg (obuf (sv_out R)) 10 RetErrc (sv_pos R)))
    = RErr result_out_of_range.
Proof.
  exists demo_table, (mkO [] 0). eexists. split; [exact demo_table_ok|].
  split; [vm_compute; reflexivity|]. repeat split; vm_compute; reflexivity.
Qed.

(** An opaque function of the remaining data that leaves the span alone takes the requests
    that follow as its own data: the second request is never served. *)
Theorem rpc_opaque_pipelined_refuted :
  exists (bs : list (binding N)) st1 st2,
    rpc_table node_env (TScalar 4 false) bs /\
    request node_env vec_cfg (TScalar 4 false) (VN 9) [VN 5] [TScalar 1 false] (mkO [] 0) = (ROk, st1) /\
    request node_env vec_cfg (TScalar 4 false) (VN 7) [VN 6] [TScalar 4 false] st1 = (ROk, st2) /\
    let R1 := serve N node_env vec_cfg vec_cfg (obuf st2) 10 (TScalar 4 false) bs 40 0 (mkO [] 0) in
    let R2 := serve N node_env vec_cfg vec_cfg (obuf st2) 10 (TScalar 4 false) bs (sv_ctx R1) (sv_pos R1) (sv_out R1) in
    sv_res R1 = inl ROk /\ sv_log R1 = [(3%nat, WithData [x05; x07; x00; x00; x00; x06; x00; x00; x00])] /\
    sv_res R2 = inl (RErr result_out_of_range) /\ sv_log R2 = [].
Proof.
  exists demo_table. do 2 eexists. split; [exact demo_table_ok|].
  split; [vm_compute; reflexivity|]. split; [vm_compute; reflexivity|].
  repeat split; vm_compute; reflexivity.
Qed.
