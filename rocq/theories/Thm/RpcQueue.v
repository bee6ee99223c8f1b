(** C37: several remote calls. *)

From Coq Require Import List NArith ZArith Lia Bool Arith.
From Coq Require Import ZifyBool ZifyNat ZifyN.
From Verif Require Import Base.Bytes Model.Types Model.Machine Model.Varint Model.Out Model.In
  Spec.RpcQueue Model.Rpc Spec.Leb128 Spec.Wire Proofs.VarintP Proofs.OutP Proofs.InBase Proofs.InSafe
  Proofs.InLocal Proofs.InPrior Proofs.InRound Proofs.RpcP Thm.Demo Thm.Output Thm.Input Thm.Rpc.
Import ListNotations.
Local Open Scope N_scope.

Section Calls.
  Context {S : Type} (G : tenv) (idt : ty) (bs : list (binding S)) (cw ci co cr : cfg) (fuel : nat).

  (** The functions behind the bindings. *)
  Definition functions (i : nat) : option (bool * (S -> list val -> S * val)) :=
    match nth_error bs i with
    | Some b =>
        match b_body b, b_ret b with
        | Plain _ f, RetVoid => Some (false, f)
        | Plain _ f, RetVal _ => Some (true, f)
        | _, _ => None
        end
    | None => None
    end.

  (** The calls considered: [P i args] tells the arguments function [i] may be called with,
      [Inv] holds of every state of the server. *)
  Context (P : nat -> list val -> Prop) (Inv : S -> Prop).

  (** The arguments can be sent, the results can be sent back. *)
  Definition good_requests : Prop :=
    forall i args b params f, nth_error bs i = Some b -> b_body b = Plain params f -> P i args ->
      sendable G cw ci fuel (b_id b :: args) (idt :: params).

  Definition good_results : Prop :=
    forall i b params f s args, nth_error bs i = Some b -> b_body b = Plain params f ->
      Inv s -> P i args ->
      Inv (fst (f s args)) /\ forall t, b_ret b = RetVal t -> sendable G co cr fuel [snd (f s args)] [t].

  Definition good_op (o : op) : Prop :=
    match o with Request i args => P i args | _ => True end.

  Definition no_bitsets : Prop :=
    tall_env not_bitset G /\
    forall b, In b bs -> tall not_bitset (TTuple (idt :: params_of S b)) = true /\
      forall t, b_ret b = RetVal t -> tall not_bitset (TTuple [t]) = true.

  (** [L] bounds the length of a message, an archive [c] can grow up to [M] bytes. *)
  Definition bounded (L : nat) : Prop :=
    (forall i args b params f, nth_error bs i = Some b -> b_body b = Plain params f -> P i args ->
      writable G (fmt_of cw) (VSeq (b_id b :: args)) (TTuple (idt :: params)) = true /\
      (length (wire G cw (b_id b :: args) (idt :: params)) <= L)%nat) /\
    (forall i b params f s args t, nth_error bs i = Some b -> b_body b = Plain params f ->
      Inv s -> P i args -> b_ret b = RetVal t ->
      writable G (fmt_of co) (VSeq [snd (f s args)]) (TTuple [t]) = true /\
      (length (wire G co [snd (f s args)] [t]) <= L)%nat).

  Definition room (c : cfg) (M : nat) : Prop :=
    growable c = true /\
    let bound := emul c * (2 * (N.of_nat M + 10)) in
    bound < 2 ^ 64 /\ (forall n, n <= bound / ediv c -> n < 2 ^ 63 /\ alloc_ok c n = true) /\
    match alim c with None => True | Some l => bound / ediv c <= l end.

  Lemma out_call_succeeds c vs ts st M :
    writing G c (VSeq vs) (TTuple ts) -> bits_ok G (TTuple ts) st -> ost_ok st ->
    writable G (fmt_of c) (VSeq vs) (TTuple ts) = true ->
    room c M -> (opos st + length (wire G c vs ts) <= M)%nat -> fst (out_call G c vs ts st) = ROk.
  Proof.
    intros HW Hb Hok Hw (Hg & Hbd & Hal & Hlim) Hle.
    destruct (out_growable_outcomes G c _ _ st HW Hb Hok Hg Hw) as [_ H]. fold (wire G c vs ts) in H.
    assert (Hd : 0 < ediv c) by apply (w_cfg _ _ _ _ HW Hg).
    assert (Hm : emul c * (2 * (N.of_nat (opos st + length (wire G c vs ts)) + 10))
                 <= emul c * (2 * (N.of_nat M + 10))) by (apply N.mul_le_mono_l; lia).
    assert (Hm' : emul c * (2 * (N.of_nat (opos st + length (wire G c vs ts)) + 10)) / ediv c
                 <= emul c * (2 * (N.of_nat M + 10)) / ediv c) by (apply N.div_le_mono; lia).
    cbv zeta in H. specialize (H ltac:(lia)). specialize (H ltac:(intros n Hn; apply Hal; lia)).
    assert (H' : fst (ser G c (VSeq vs) (TTuple ts) st) = ROk).
    { apply H. revert Hlim. case (alim c); [intros; lia|auto]. }
    clear H. destruct (ser G c (VSeq vs) (TTuple ts) st) as [r st1] eqn:E. cbn [fst] in H'. subst r.
    destruct (out_frame _ _ _ _ _ _ _ HW Hb Hok E) as (_ & F & _).
    cbn [ser] in E. unfold out_call. rewrite E. destruct (_ && _); [|reflexivity].
    unfold fit_size, buf_resize. destruct (_ <=? _)%nat; [|reflexivity].
    destruct (N.leb_spec (N.of_nat (opos st1)) (N.of_nat (length (obuf st1)))); [reflexivity|lia].
  Qed.

  (** An output archive [st] and an input position [pos] on the same buffer, with the messages
      [es] in between. *)
  Record channel (st : ost) (pos : nat) (es : list (list byte)) : Prop := {
    ch_end : (pos + length (concat es))%nat = opos st;
    ch_bytes : has_at (obuf st) pos (concat es);
    ch_ok : ost_ok st;
    ch_clean : clean st \/ no_bitsets
  }.

  Lemma channel_small st pos es : channel st pos es -> small (obuf st).
  Proof.
    intros [_ _ [_ K] _]. unfold small. change (2 ^ 63) with 9223372036854775808 in K.
    change (2 ^ 64) with 18446744073709551616. lia.
  Qed.

  Lemma channel_pop st pos e es :
    channel st pos (e :: es) -> has_at (obuf st) pos e /\ channel st (pos + length e) es.
  Proof.
    intros [H1 H2 H3 H4]. cbn [concat] in *. apply has_at_app in H2 as [H2 H2'].
    split; [exact H2|]. constructor; auto. rewrite app_length in H1. lia.
  Qed.

  Lemma has_at_prefix {A} (l l' : list A) p e n :
    has_at l p e -> (p + length e <= n)%nat -> (n <= length l')%nat -> firstn n l' = firstn n l -> has_at l' p e.
  Proof.
    intros [H1 H2] H3 H4 H5. split; [lia|]. rewrite <- H2 at 2. unfold window.
    assert (Q : forall x : list A, firstn (length e) (skipn p x) = firstn (length e) (skipn p (firstn n x))).
    { intro x. rewrite skipn_firstn_comm, firstn_firstn. f_equal. lia. }
    now rewrite (Q l'), (Q l), H5.
  Qed.

  Lemma channel_push c st pos es vs ts st' :
    channel st pos es -> (clean st \/ no_bitsets -> bits_ok G (TTuple ts) st) ->
    writing G c (VSeq vs) (TTuple ts) ->
    out_call G c vs ts st = (ROk, st') ->
    channel st' pos (es ++ [wire G c vs ts]) /\ writable G (fmt_of c) (VSeq vs) (TTuple ts) = true.
  Proof.
    intros [H1 H2 H3 H4] Hb HW E. specialize (Hb H4).
    destruct (out_call_sent _ _ _ _ _ _ HW Hb H3 E) as (W & Po & A & F & K & C).
    split; [|exact W]. constructor.
    - rewrite concat_app, app_length. cbn [concat]. rewrite app_nil_r. lia.
    - rewrite concat_app. cbn [concat]. rewrite app_nil_r. apply has_at_app. split.
      + apply (has_at_prefix (obuf st) _ _ _ (opos st)); auto; [lia|]. destruct K. lia.
      + now rewrite H1.
    - exact K.
    - destruct H4 as [H4|H4]; [left; now apply C|now right].
  Qed.

  (** The bytes of a waiting request or response. *)
  Definition request_bytes (i : nat) (args : list val) (e : list byte) : Prop :=
    P i args /\ exists b params f, nth_error bs i = Some b /\ b_body b = Plain params f /\
      writable G (fmt_of cw) (VSeq (b_id b :: args)) (TTuple (idt :: params)) = true /\
      e = wire G cw (b_id b :: args) (idt :: params).

  Definition response_bytes (i : nat) (v : val) (e : list byte) : Prop :=
    exists b t, nth_error bs i = Some b /\ b_ret b = RetVal t /\
      sendable G co cr fuel [v] [t] /\
      writable G (fmt_of co) (VSeq [v]) (TTuple [t]) = true /\
      e = wire G co [v] [t].

  Hypothesis (HT : rpc_table G idt bs) (HQ : good_requests) (HR : good_results).

  Lemma bits_request st i b params f :
    nth_error bs i = Some b -> b_body b = Plain params f ->
    clean st \/ no_bitsets -> bits_ok G (TTuple (idt :: params)) st.
  Proof.
    intros Hn Hb [H|[H1 H2]]; [now left|right]. split; [|exact H1].
    apply nth_error_In in Hn. specialize (H2 b Hn). unfold params_of in H2. rewrite Hb in H2. apply H2.
  Qed.

  Lemma bits_response st i b t :
    nth_error bs i = Some b -> b_ret b = RetVal t ->
    clean st \/ no_bitsets -> bits_ok G (TTuple [t]) st.
  Proof.
    intros Hn Hb [H|[H1 H2]]; [now left|right]. split; [|exact H1].
    apply nth_error_In in Hn. now apply (H2 b Hn).
  Qed.

  Lemma serve_bytes i args e data pos s so sends f :
    request_bytes i args e -> functions i = Some (sends, f) -> small data -> has_at data pos e ->
    exists b params, nth_error bs i = Some b /\ b_body b = Plain params f /\
      (sends = true -> exists t, b_ret b = RetVal t) /\ (sends = false -> b_ret b = RetVoid) /\
      P i args /\
      let R := serve S G ci co data fuel idt bs s pos so in
      sv_ctx R = fst (f s args) /\ sv_pos R = (pos + length e)%nat /\
      (sv_res R, sv_out R) = send G co (b_ret b) (snd (f s args)) so.
  Proof using HT HQ.
    intros (HP & b & params & f' & Hn & Hb & Hw & ->) Hf Hsm Hat.
    pose proof (HQ i args b params f' Hn Hb HP) as Hs.
    unfold functions in Hf. rewrite Hn, Hb in Hf.
    exists b, params. split; [exact Hn|].
    assert (f' = f) as -> by (destruct (b_ret b); congruence).
    split; [exact Hb|]. split; [intros ->; destruct (b_ret b); try discriminate; eauto|].
    split; [intros ->; destruct (b_ret b); try discriminate; reflexivity|].
    split; [exact HP|].
    pose proof (in_call_received G cw ci fuel _ _ data pos Hs Hw Hsm Hat) as Q.
    cbn [map] in Q. apply in_call_first in Q as (q & E1 & E2).
    destruct HT as [T1 T2 T3]. cbv zeta. unfold serve. rewrite E1. unfold serve_id.
    rewrite (call_binding_found G idt T1 ci co data fuel (b_id b) s q so bs i b T2 T3 Hn eq_refl).
    cbn [Nat.add]. unfold call_one. rewrite Hb. unfold call_plain.
    destruct params as [|p ps].
    - unfold in_call in E2. cbn [des_many map] in E2. injection E2 as <- <-.
      destruct (f s []) as [s' v]. cbn [fst snd]. destruct (send G co (b_ret b) v so). repeat split.
    - change (dflt G (TTuple (p :: ps))) with (VSeq (map (dflt G) (p :: ps))).
      rewrite in_call_tuple, E2.
      destruct (f s args) as [s' v]. cbn [fst snd]. destruct (send G co (b_ret b) v so). repeat split.
  Qed.

  Lemma response_read i v e data pos :
    response_bytes i v e -> small data -> has_at data pos e ->
    exists b, nth_error bs i = Some b /\
      response G cr data fuel (b_ret b) pos = (ROk, Some v, (pos + length e)%nat).
  Proof.
    intros (b & t & Hn & Ht & Hs & Hw & ->) Hsm Hat. exists b. split; [exact Hn|].
    pose proof (in_call_received G co cr fuel _ _ data pos Hs Hw Hsm Hat) as Q.
    cbn [map] in Q. rewrite Ht. unfold response. now rewrite Q.
  Qed.

  (** Sending on a channel. *)
  Lemma request_push i args b params f st pos es r st' :
    P i args -> nth_error bs i = Some b -> b_body b = Plain params f -> channel st pos es ->
    request G cw idt (b_id b) args params st = (r, st') ->
    (r = ROk -> exists e, channel st' pos (es ++ [e]) /\ request_bytes i args e /\
       opos st' = (opos st + length e)%nat /\ forall L, bounded L -> (length e <= L)%nat) /\
    (r <> ROk -> forall L M, bounded L -> room cw M -> (opos st + L <= M)%nat -> False).
  Proof using HQ.
    intros HP Hn Hb C E. pose proof (HQ _ _ _ _ _ Hn Hb HP) as Hsd. unfold request in E. split.
    - intros ->. exists (wire G cw (b_id b :: args) (idt :: params)).
      destruct (channel_push cw _ _ _ _ _ _ C (bits_request _ _ _ _ _ Hn Hb)
                  (sd_writing _ _ _ _ _ _ Hsd) E) as [C' Hw].
      split; [exact C'|]. split; [split; [exact HP|]; exists b, params, f; auto|]. split.
      + destruct C, C'. rewrite concat_app, app_length in *. cbn [concat] in *. rewrite app_nil_r in *. lia.
      + intros L [B _]. now apply (B i args b params f).
    - intros Hr L M [B _] R HM. destruct (B i args b params f Hn Hb HP) as [Hw Hl].
      apply Hr. pose proof (out_call_succeeds cw _ _ st M (sd_writing _ _ _ _ _ _ Hsd)
        (bits_request _ _ _ _ _ Hn Hb (ch_clean _ _ _ C)) (ch_ok _ _ _ C) Hw R ltac:(lia)) as Q.
      now rewrite E in Q.
  Qed.

  Lemma response_push i args b params f t s st pos es r st' :
    P i args -> Inv s -> nth_error bs i = Some b -> b_body b = Plain params f -> b_ret b = RetVal t ->
    channel st pos es -> out_call G co [snd (f s args)] [t] st = (r, st') ->
    (r = ROk -> exists e, channel st' pos (es ++ [e]) /\ response_bytes i (snd (f s args)) e /\
       opos st' = (opos st + length e)%nat /\ forall L, bounded L -> (length e <= L)%nat) /\
    (r <> ROk -> forall L M, bounded L -> room co M -> (opos st + L <= M)%nat -> False).
  Proof using HR.
    intros HP Hi Hn Hb Ht C E. destruct (HR i b params f s args Hn Hb Hi HP) as [_ Hsd].
    specialize (Hsd t Ht). split.
    - intros ->. exists (wire G co [snd (f s args)] [t]).
      destruct (channel_push co _ _ _ _ _ _ C (bits_response _ _ _ _ Hn Ht)
                  (sd_writing _ _ _ _ _ _ Hsd) E) as [C' Hw].
      split; [exact C'|]. split; [exists b, t; auto|]. split.
      + destruct C, C'. rewrite concat_app, app_length in *. cbn [concat] in *. rewrite app_nil_r in *. lia.
      + intros L [_ B]. now apply (B i b params f s args t).
    - intros Hr L M [_ B] R HM. destruct (B i b params f s args t Hn Hb Hi HP Ht) as [Hw Hl].
      apply Hr. pose proof (out_call_succeeds co _ _ st M (sd_writing _ _ _ _ _ _ Hsd)
        (bits_response _ _ _ _ Hn Ht (ch_clean _ _ _ C)) (ch_ok _ _ _ C) Hw R ltac:(lia)) as Q.
      now rewrite E in Q.
  Qed.

  (** *** Two buffers *)

  Definition related2 (a : duplex S) (y : sys2 S) : Prop :=
    d_ctx a = y_ctx y /\ Inv (y_ctx y) /\
    (exists es, channel (y_req y) (y_reqpos y) es
       /\ Forall2 (fun m e => request_bytes (fst m) (snd m) e) (d_req a) es) /\
    (exists es, channel (y_resp y) (y_resppos y) es
       /\ Forall2 (fun m e => response_bytes (fst m) (snd m) e) (d_resp a) es).

  Lemma step2_follows o a y a' vs :
    good_op o -> related2 a y -> duplex_step functions o a = Some (a', vs) ->
    let '(r, vs', y') := step2 S G idt bs cw ci co cr fuel o y in
    (r = inl ROk -> vs' = vs /\ related2 a' y' /\
       forall L, bounded L -> (opos (y_req y') <= opos (y_req y) + L)%nat
                           /\ (opos (y_resp y') <= opos (y_resp y) + L)%nat) /\
    (r <> inl ROk -> match o with Response _ => False | _ => True end /\
       forall L M, bounded L -> room cw M -> room co M ->
         (opos (y_req y) + L <= M)%nat -> (opos (y_resp y) + L <= M)%nat -> False).
  Proof using HT HQ HR.
    intros Ho (Hc & Hi & (eq_ & Cq & Fq) & (er & Cr & Fr)) Hs.
    destruct o as [i args| |i]; cbn [duplex_step step2 good_op] in *.
    - destruct (functions i) as [[sends f]|] eqn:Ef; [|discriminate]. injection Hs as <- <-.
      unfold functions in Ef. destruct (nth_error bs i) as [b|] eqn:Hn; [|discriminate].
      destruct (b_body b) as [params f'| |] eqn:Hb; try discriminate.
      assert (Hp : params_of S b = params) by (unfold params_of; now rewrite Hb). rewrite Hp.
      destruct (request G cw idt (b_id b) args params (y_req y)) as [r st'] eqn:E.
      destruct (request_push _ _ _ _ _ _ _ _ _ _ Ho Hn Hb Cq E) as [H1 H2]. split.
      + intro Hr. injection Hr as ->. destruct (H1 eq_refl) as (e & Cq' & He & Hl & HL).
        split; [reflexivity|]. split.
        * split; [exact Hc|]. split; [exact Hi|]. split; [|exists er; auto].
          exists (eq_ ++ [e]). split; [exact Cq'|]. apply Forall2_app; [exact Fq|].
          constructor; [exact He|constructor].
        * intros L B. specialize (HL L B). cbn [y_req y_resp]. lia.
      + intro Hr. split; [exact I|]. intros L M B R1 R2 M1 M2. apply (H2 ltac:(congruence) L M B R1 M1).
    - destruct (d_req a) as [|[i args] q] eqn:Eq; [discriminate|].
      inversion Fq as [|? e ? es Hm Hrest]; subst. cbn [fst snd] in Hm.
      destruct (functions i) as [[sends f]|] eqn:Ef; [|discriminate].
      destruct (channel_pop _ _ _ _ Cq) as [Hat Cq'].
      destruct (serve_bytes i args e (obuf (y_req y)) (y_reqpos y) (y_ctx y) (y_resp y) sends f
                  Hm Ef (channel_small _ _ _ Cq) Hat) as (b & params & Hn & Hb & St & Sf & HP & R1 & R2 & R3).
      rewrite Hc in Hs.
      destruct (HR i b params f (y_ctx y) args Hn Hb Hi HP) as [Hi' _].
      rewrite R1, R2. destruct sends.
      + destruct (St eq_refl) as (t & Ht). rewrite Ht in R3. cbn [send] in R3.
        destruct (out_call G co [snd (f (y_ctx y) args)] [t] (y_resp y)) as [r so'] eqn:Eo.
        injection R3 as -> ->.
        destruct (response_push _ _ _ _ _ _ _ _ _ _ _ _ HP Hi Hn Hb Ht Cr Eo) as [H1 H2]. split.
        * intro Hr. injection Hr as ->. destruct (H1 eq_refl) as (e' & Cr' & He & Hl & HL).
          destruct (f (y_ctx y) args) as [s' v]. cbn [fst snd] in *. injection Hs as <- <-.
          split; [reflexivity|]. split.
          -- split; [reflexivity|]. split; [exact Hi'|]. split; [exists es; auto|].
             exists (er ++ [e']). split; [exact Cr'|]. apply Forall2_app; [exact Fr|].
             constructor; [exact He|constructor].
          -- intros L B. specialize (HL L B). cbn [y_req y_resp]. lia.
        * intro Hr. split; [exact I|]. intros L M B Q1 Q2 M1 M2. apply (H2 ltac:(congruence) L M B Q2 M2).
      + rewrite (Sf eq_refl) in R3. cbn [send] in R3. injection R3 as -> ->. split; [|congruence].
        intros _. destruct (f (y_ctx y) args) as [s' v]. cbn [fst snd] in *. injection Hs as <- <-.
        split; [reflexivity|]. split; [|intros L B; cbn [y_req y_resp]; lia].
        split; [reflexivity|]. split; [exact Hi'|]. split; [exists es; auto|]. exists er. auto.
    - destruct (functions i) as [[sends f]|] eqn:Ef; [|discriminate]. destruct sends.
      + destruct (d_resp a) as [|[j v] q] eqn:Eq; [discriminate|].
        destruct (Nat.eqb_spec i j) as [<-|]; [|discriminate]. injection Hs as <- <-.
        inversion Fr as [|? e ? es Hm Hrest]; subst. cbn [fst snd] in Hm.
        destruct (channel_pop _ _ _ _ Cr) as [Hat Cr'].
        destruct (response_read i v e _ _ Hm (channel_small _ _ _ Cr) Hat) as (b & Hn & E).
        rewrite Hn, E. split; [|congruence]. intros _. cbn [opt_list]. split; [reflexivity|].
        split; [|intros L B; cbn [y_req y_resp]; lia].
        split; [exact Hc|]. split; [exact Hi|]. split; [exists eq_; auto|]. exists es. auto.
      + injection Hs as <- <-. unfold functions in Ef.
        destruct (nth_error bs i) as [b|] eqn:Hn; [|discriminate].
        assert (Ht : b_ret b = RetVoid) by (destruct (b_body b), (b_ret b); congruence).
        rewrite Ht. cbn [response opt_list]. split; [|congruence]. intros _. split; [reflexivity|].
        split; [|intros L B; cbn [y_req y_resp]; lia].
        split; [exact Hc|]. split; [exact Hi|]. split; [exists eq_; auto|exists er; auto].
  Qed.

  (** *** One buffer *)

  Definition message_bytes_are (m : message) (e : list byte) : Prop :=
    match m with
    | ARequest i args => request_bytes i args e
    | AResponse i v => response_bytes i v e
    end.

  Definition related1 (a : shared S) (z : sys1 S) : Prop :=
    h_ctx a = z_ctx z /\ Inv (z_ctx z) /\
    exists es, channel (z_buf z) (z_pos z) es /\ Forall2 message_bytes_are (h_queue a) es.

  Lemma step1_follows o a z a' vs :
    good_op o -> related1 a z -> shared_step functions o a = Some (a', vs) ->
    let '(r, vs', z') := step1 S G idt bs cw ci co cr fuel o z in
    (r = inl ROk -> vs' = vs /\ related1 a' z' /\
       forall L, bounded L -> (opos (z_buf z') <= opos (z_buf z) + L)%nat) /\
    (r <> inl ROk -> match o with Response _ => False | _ => True end /\
       forall L M, bounded L -> room cw M -> room co M -> (opos (z_buf z) + L <= M)%nat -> False).
  Proof using HT HQ HR.
    intros Ho (Hc & Hi & (es & C & F)) Hs.
    destruct o as [i args| |i]; cbn [shared_step step1 good_op] in *.
    - destruct (functions i) as [[sends f]|] eqn:Ef; [|discriminate]. injection Hs as <- <-.
      unfold functions in Ef. destruct (nth_error bs i) as [b|] eqn:Hn; [|discriminate].
      destruct (b_body b) as [params f'| |] eqn:Hb; try discriminate.
      assert (Hp : params_of S b = params) by (unfold params_of; now rewrite Hb). rewrite Hp.
      destruct (request G cw idt (b_id b) args params (z_buf z)) as [r st'] eqn:E.
      destruct (request_push _ _ _ _ _ _ _ _ _ _ Ho Hn Hb C E) as [H1 H2]. split.
      + intro Hr. injection Hr as ->. destruct (H1 eq_refl) as (e & C' & He & Hl & HL).
        split; [reflexivity|]. split.
        * split; [exact Hc|]. split; [exact Hi|].
          exists (es ++ [e]). split; [exact C'|]. apply Forall2_app; [exact F|].
          constructor; [exact He|constructor].
        * intros L B. specialize (HL L B). cbn [z_buf]. lia.
      + intro Hr. split; [exact I|]. intros L M B R1 R2 M1. apply (H2 ltac:(congruence) L M B R1 M1).
    - destruct (h_queue a) as [|[i args|] q] eqn:Eq; try discriminate.
      inversion F as [|? e ? es' Hm Hrest]; subst. cbn [message_bytes_are] in Hm.
      destruct (functions i) as [[sends f]|] eqn:Ef; [|discriminate].
      destruct (channel_pop _ _ _ _ C) as [Hat C'].
      destruct (serve_bytes i args e (obuf (z_buf z)) (z_pos z) (z_ctx z) (z_buf z) sends f
                  Hm Ef (channel_small _ _ _ C) Hat) as (b & params & Hn & Hb & St & Sf & HP & R1 & R2 & R3).
      rewrite Hc in Hs.
      destruct (HR i b params f (z_ctx z) args Hn Hb Hi HP) as [Hi' _].
      rewrite R1, R2. destruct sends.
      + destruct (St eq_refl) as (t & Ht). rewrite Ht in R3. cbn [send] in R3.
        destruct (out_call G co [snd (f (z_ctx z) args)] [t] (z_buf z)) as [r so'] eqn:Eo.
        injection R3 as -> ->.
        destruct (response_push _ _ _ _ _ _ _ _ _ _ _ _ HP Hi Hn Hb Ht C' Eo) as [H1 H2]. split.
        * intro Hr. injection Hr as ->. destruct (H1 eq_refl) as (e' & C2 & He & Hl & HL).
          destruct (f (z_ctx z) args) as [s' v]. cbn [fst snd] in *. injection Hs as <- <-.
          split; [reflexivity|]. split.
          -- split; [reflexivity|]. split; [exact Hi'|].
             exists (es' ++ [e']). split; [exact C2|]. apply Forall2_app; [exact Hrest|].
             constructor; [exact He|constructor].
          -- intros L B. specialize (HL L B). cbn [z_buf]. lia.
        * intro Hr. split; [exact I|]. intros L M B Q1 Q2 M1. apply (H2 ltac:(congruence) L M B Q2 M1).
      + rewrite (Sf eq_refl) in R3. cbn [send] in R3. injection R3 as -> ->. split; [|congruence].
        intros _. destruct (f (z_ctx z) args) as [s' v]. cbn [fst snd] in *. injection Hs as <- <-.
        split; [reflexivity|]. split; [|intros L B; cbn [z_buf]; lia].
        split; [reflexivity|]. split; [exact Hi'|]. exists es'. auto.
    - destruct (functions i) as [[sends f]|] eqn:Ef; [|discriminate]. destruct sends.
      + destruct (h_queue a) as [|[|j v] q] eqn:Eq; try discriminate.
        destruct (Nat.eqb_spec i j) as [<-|]; [|discriminate]. injection Hs as <- <-.
        inversion F as [|? e ? es' Hm Hrest]; subst. cbn [message_bytes_are] in Hm.
        destruct (channel_pop _ _ _ _ C) as [Hat C'].
        destruct (response_read i v e _ _ Hm (channel_small _ _ _ C) Hat) as (b & Hn & E).
        rewrite Hn, E. split; [|congruence]. intros _. cbn [opt_list]. split; [reflexivity|].
        split; [|intros L B; cbn [z_buf]; lia].
        split; [exact Hc|]. split; [exact Hi|]. exists es'. auto.
      + injection Hs as <- <-. unfold functions in Ef.
        destruct (nth_error bs i) as [b|] eqn:Hn; [|discriminate].
        assert (Ht : b_ret b = RetVoid) by (destruct (b_body b), (b_ret b); congruence).
        rewrite Ht. cbn [response opt_list]. split; [|congruence]. intros _. split; [reflexivity|].
        split; [|intros L B; cbn [z_buf]; lia].
        split; [exact Hc|]. split; [exact Hi|]. exists es. auto.
  Qed.
End Calls.

(** What running must do: return the values the specification says, up to a failure, and only
    a write can fail. *)
Definition follows {A Y : Type} (ctx : A -> Y -> Prop) (expected : option (A * list val))
  (actual : list val * Y * option op) : Prop :=
  match expected with
  | None => True
  | Some (a, vs) =>
      match actual with
      | (vs', y, None) => vs' = vs /\ ctx a y
      | (vs', y, Some o) =>
          (exists rest, vs = vs' ++ rest) /\ match o with Response _ => False | _ => True end
      end
  end.


Lemma channel_init {S} G idt (bs : list (binding S)) : channel G idt bs (mkO [] 0) 0 [].
Proof.
  constructor; cbn; [reflexivity|split; [cbn; lia|reflexivity]|split; cbn; [lia|reflexivity]|left; reflexivity].
Qed.

Lemma related2_init {S} G idt (bs : list (binding S)) cw co cr fuel P (Inv : S -> Prop) s :
  Inv s -> related2 G idt bs cw co cr fuel P Inv (mkDuplex s [] []) (mkSys2 s (mkO [] 0) 0 (mkO [] 0) 0).
Proof.
  intro Hs. split; [reflexivity|]. split; [exact Hs|].
  split; (exists []; split; [apply channel_init|constructor]).
Qed.

Lemma related1_init {S} G idt (bs : list (binding S)) cw co cr fuel P (Inv : S -> Prop) s :
  Inv s -> related1 G idt bs cw co cr fuel P Inv (mkShared s []) (mkSys1 s (mkO [] 0) 0).
Proof.
  intro Hs. split; [reflexivity|]. split; [exact Hs|]. exists []; split; [apply channel_init|constructor].
Qed.

(** ** Separate buffers: any order in which each request is sent before it is served and each
    response is read after it was sent, first come first served *)
Theorem rpc_duplex_run {S} G idt (bs : list (binding S)) cw ci co cr fuel P (Inv : S -> Prop) os s :
  rpc_table G idt bs -> good_requests G idt bs cw ci fuel P -> good_results G bs co cr fuel P Inv ->
  Forall (good_op P) os -> Inv s ->
  follows (fun a y => d_ctx a = y_ctx y)
    (duplex_run (functions bs) os (mkDuplex s [] []))
    (run (step2 S G idt bs cw ci co cr fuel) os (mkSys2 s (mkO [] 0) 0 (mkO [] 0) 0)).
Proof.
  intros HT HQ HR Hos Hs.
  assert (Gen : forall os a y, Forall (good_op P) os ->
    related2 G idt bs cw co cr fuel P Inv a y ->
    follows (fun a y => d_ctx a = y_ctx y) (duplex_run (functions bs) os a)
      (run (step2 S G idt bs cw ci co cr fuel) os y)).
  { clear os Hos. induction os as [|o os IH]; intros a y Hos Hrel; cbn [duplex_run run].
    - cbn. split; [reflexivity|apply Hrel].
    - inversion Hos as [|? ? Ho Hos']; subst.
      destruct (duplex_step (functions bs) o a) as [[a' vs]|] eqn:E; [|exact I].
      pose proof (step2_follows G idt bs cw ci co cr fuel P Inv HT HQ HR o a y a' vs Ho Hrel E) as Hstep.
      destruct (step2 S G idt bs cw ci co cr fuel o y) as [[r vs'] y'].
      destruct (duplex_run (functions bs) os a') as [[a'' vs2]|] eqn:E2; [|exact I].
      assert (Cases : r = inl ROk \/ r <> inl ROk) by (destruct r as [[]|]; (now left) || (right; congruence)).
      destruct Cases as [->|Hr].
      + destruct Hstep as [Hstep _]. destruct (Hstep eq_refl) as (-> & Hrel' & _).
        specialize (IH a' y' Hos' Hrel'). rewrite E2 in IH. cbn [follows] in *.
        destruct (run _ os y') as [[vs3 y3] e]. destruct e as [o'|].
        * destruct IH as [(rest & ->) Hw]. split; [|exact Hw]. exists rest. now rewrite app_assoc.
        * destruct IH as [-> Hctx]. auto.
      + destruct Hstep as [_ Hstep]. destruct (Hstep Hr) as [Hw _]. cbn [follows].
        destruct r as [[]|]; try congruence; (split; [exists (vs ++ vs2); reflexivity|exact Hw]). }
  apply Gen; [exact Hos|]. now apply related2_init.
Qed.

Theorem rpc_duplex_run_succeeds {S} G idt (bs : list (binding S)) cw ci co cr fuel P (Inv : S -> Prop) os s L a' vs :
  rpc_table G idt bs -> good_requests G idt bs cw ci fuel P -> good_results G bs co cr fuel P Inv ->
  Forall (good_op P) os -> Inv s ->
  bounded G idt bs cw co P Inv L -> room cw (length os * L) -> room co (length os * L) ->
  duplex_run (functions bs) os (mkDuplex s [] []) = Some (a', vs) ->
  exists y, run (step2 S G idt bs cw ci co cr fuel) os (mkSys2 s (mkO [] 0) 0 (mkO [] 0) 0) = (vs, y, None) /\ (fun a y => d_ctx a = y_ctx y) a' y.
Proof.
  intros HT HQ HR Hos Hs HB Rw Ro.
  assert (Gen : forall os a y a' vs M, Forall (good_op P) os ->
    related2 G idt bs cw co cr fuel P Inv a y ->
    room cw M -> room co M -> (opos (y_req y) + length os * L <= M)%nat -> (opos (y_resp y) + length os * L <= M)%nat ->
    duplex_run (functions bs) os a = Some (a', vs) ->
    exists y', run (step2 S G idt bs cw ci co cr fuel) os y = (vs, y', None) /\ (fun a y => d_ctx a = y_ctx y) a' y').
  { clear os Hos Rw Ro a' vs. induction os as [|o os IH]; intros a y a' vs M Hos Hrel Rw Ro M1 M2 Hrun;
      cbn [duplex_run run length] in *.
    - injection Hrun as <- <-. exists y. split; [reflexivity|apply Hrel].
    - inversion Hos as [|? ? Ho Hos']; subst.
      destruct (duplex_step (functions bs) o a) as [[a1 vs1]|] eqn:E; [|discriminate].
      destruct (duplex_run (functions bs) os a1) as [[a2 vs2]|] eqn:E2; [|discriminate].
      injection Hrun as <- <-.
      pose proof (step2_follows G idt bs cw ci co cr fuel P Inv HT HQ HR o a y a1 vs1 Ho Hrel E) as Hstep.
      destruct (step2 S G idt bs cw ci co cr fuel o y) as [[r vs'] y'].
      assert (Cases : r = inl ROk \/ r <> inl ROk) by (destruct r as [[]|]; (now left) || (right; congruence)).
      destruct Cases as [->|Hr].
      + destruct Hstep as [Hstep _]. destruct (Hstep eq_refl) as (-> & Hrel' & Hlen).
        specialize (Hlen L HB).
        destruct (IH a1 y' a2 vs2 M Hos' Hrel' Rw Ro) as (y2 & E3 & Hctx); try lia; [exact E2|].
        rewrite E3. exists y2. auto.
      + exfalso. destruct Hstep as [_ Hstep]. destruct (Hstep Hr) as [_ F]. apply (F L M HB Rw Ro); lia. }
  intro Hrun. apply (Gen os (mkDuplex s [] []) _ a' vs (length os * L)%nat); auto; [now apply related2_init|..];
    cbn; lia.
Qed.

(** ** One buffer *)
Theorem rpc_shared_run {S} G idt (bs : list (binding S)) cw ci co cr fuel P (Inv : S -> Prop) os s :
  rpc_table G idt bs -> good_requests G idt bs cw ci fuel P -> good_results G bs co cr fuel P Inv ->
  Forall (good_op P) os -> Inv s ->
  follows (fun a z => h_ctx a = z_ctx z)
    (shared_run (functions bs) os (mkShared s []))
    (run (step1 S G idt bs cw ci co cr fuel) os (mkSys1 s (mkO [] 0) 0)).
Proof.
  intros HT HQ HR Hos Hs.
  assert (Gen : forall os a y, Forall (good_op P) os ->
    related1 G idt bs cw co cr fuel P Inv a y ->
    follows (fun a z => h_ctx a = z_ctx z) (shared_run (functions bs) os a)
      (run (step1 S G idt bs cw ci co cr fuel) os y)).
  { clear os Hos. induction os as [|o os IH]; intros a y Hos Hrel; cbn [shared_run run].
    - cbn. split; [reflexivity|apply Hrel].
    - inversion Hos as [|? ? Ho Hos']; subst.
      destruct (shared_step (functions bs) o a) as [[a' vs]|] eqn:E; [|exact I].
      pose proof (step1_follows G idt bs cw ci co cr fuel P Inv HT HQ HR o a y a' vs Ho Hrel E) as Hstep.
      destruct (step1 S G idt bs cw ci co cr fuel o y) as [[r vs'] y'].
      destruct (shared_run (functions bs) os a') as [[a'' vs2]|] eqn:E2; [|exact I].
      assert (Cases : r = inl ROk \/ r <> inl ROk) by (destruct r as [[]|]; (now left) || (right; congruence)).
      destruct Cases as [->|Hr].
      + destruct Hstep as [Hstep _]. destruct (Hstep eq_refl) as (-> & Hrel' & _).
        specialize (IH a' y' Hos' Hrel'). rewrite E2 in IH. cbn [follows] in *.
        destruct (run _ os y') as [[vs3 y3] e]. destruct e as [o'|].
        * destruct IH as [(rest & ->) Hw]. split; [|exact Hw]. exists rest. now rewrite app_assoc.
        * destruct IH as [-> Hctx]. auto.
      + destruct Hstep as [_ Hstep]. destruct (Hstep Hr) as [Hw _]. cbn [follows].
        destruct r as [[]|]; try congruence; (split; [exists (vs ++ vs2); reflexivity|exact Hw]). }
  apply Gen; [exact Hos|]. now apply related1_init.
Qed.

Theorem rpc_shared_run_succeeds {S} G idt (bs : list (binding S)) cw ci co cr fuel P (Inv : S -> Prop) os s L a' vs :
  rpc_table G idt bs -> good_requests G idt bs cw ci fuel P -> good_results G bs co cr fuel P Inv ->
  Forall (good_op P) os -> Inv s ->
  bounded G idt bs cw co P Inv L -> room cw (length os * L) -> room co (length os * L) ->
  shared_run (functions bs) os (mkShared s []) = Some (a', vs) ->
  exists y, run (step1 S G idt bs cw ci co cr fuel) os (mkSys1 s (mkO [] 0) 0) = (vs, y, None) /\ (fun a z => h_ctx a = z_ctx z) a' y.
Proof.
  intros HT HQ HR Hos Hs HB Rw Ro.
  assert (Gen : forall os a y a' vs M, Forall (good_op P) os ->
    related1 G idt bs cw co cr fuel P Inv a y ->
    room cw M -> room co M -> (opos (z_buf y) + length os * L <= M)%nat ->
    shared_run (functions bs) os a = Some (a', vs) ->
    exists y', run (step1 S G idt bs cw ci co cr fuel) os y = (vs, y', None) /\ (fun a z => h_ctx a = z_ctx z) a' y').
  { clear os Hos Rw Ro a' vs. induction os as [|o os IH]; intros a y a' vs M Hos Hrel Rw Ro M1 Hrun;
      cbn [shared_run run length] in *.
    - injection Hrun as <- <-. exists y. split; [reflexivity|apply Hrel].
    - inversion Hos as [|? ? Ho Hos']; subst.
      destruct (shared_step (functions bs) o a) as [[a1 vs1]|] eqn:E; [|discriminate].
      destruct (shared_run (functions bs) os a1) as [[a2 vs2]|] eqn:E2; [|discriminate].
      injection Hrun as <- <-.
      pose proof (step1_follows G idt bs cw ci co cr fuel P Inv HT HQ HR o a y a1 vs1 Ho Hrel E) as Hstep.
      destruct (step1 S G idt bs cw ci co cr fuel o y) as [[r vs'] y'].
      assert (Cases : r = inl ROk \/ r <> inl ROk) by (destruct r as [[]|]; (now left) || (right; congruence)).
      destruct Cases as [->|Hr].
      + destruct Hstep as [Hstep _]. destruct (Hstep eq_refl) as (-> & Hrel' & Hlen).
        specialize (Hlen L HB).
        destruct (IH a1 y' a2 vs2 M Hos' Hrel' Rw Ro) as (y2 & E3 & Hctx); try lia; [exact E2|].
        rewrite E3. exists y2. auto.
      + exfalso. destruct Hstep as [_ Hstep]. destruct (Hstep Hr) as [_ F]. apply (F L M HB Rw Ro); lia. }
  intro Hrun. apply (Gen os (mkShared s []) _ a' vs (length os * L)%nat); auto; [now apply related1_init|..];
    cbn; lia.
Qed.

(** ** Concrete runs *)

Definition demo_calls (i : nat) (args : list val) : Prop :=
  match i with
  | O => args = demo_args
  | 1%nat => args = [VN 5]
  | _ => False
  end.

Lemma demo_good_requests :
  good_requests node_env (TScalar 4 false) demo_table vec_cfg vec_cfg 10 demo_calls.
Proof.
  intros [|[|i]] args b params f Hn Hb HP; cbn in HP; try contradiction; subst args;
    cbn in Hn; injection Hn as <-; injection Hb as <- <-; cbn [b_id].
  - exact demo_request_sendable.
  - sendable_demo.
Qed.

Lemma demo_u32_sendable n :
  n < 2 ^ 32 -> sendable node_env vec_cfg vec_cfg 10 [VN n] [TScalar 4 false].
Proof.
  intro Hn. assert (Hw : wt node_env (VSeq [VN n]) (TTuple [TScalar 4 false]) = true).
  { cbn. rewrite andb_true_r. apply N.ltb_lt. exact Hn. }
  constructor; try reflexivity.
  - constructor; try reflexivity; try exact Hw.
    + intros _; repeat split; vm_compute; try reflexivity; discriminate.
    + apply demo_wf_env.
    + intros [|k]; reflexivity.
  - intros [|k]; reflexivity.
  - cbn. lia.
Qed.

Lemma demo_good_results : good_results node_env demo_table vec_cfg vec_cfg 10 demo_calls (fun _ => True).
Proof.
  intros i b params f s args Hn Hb _ HP. split; [exact I|]. intros t Ht.
  destruct i as [|[|i]]; cbn in HP; try contradiction; subst args;
    cbn in Hn; injection Hn as <-; cbn in Hb, Ht; try discriminate.
  injection Hb as <- <-. injection Ht as <-. cbn [demo_add demo_args snd].
  apply demo_u32_sendable. apply N.mod_lt. discriminate.
Qed.

Lemma demo_bounded :
  bounded node_env (TScalar 4 false) demo_table vec_cfg vec_cfg demo_calls (fun _ => True) 14.
Proof.
  split.
  - intros [|[|i]] args b params f Hn Hb HP; cbn in HP; try contradiction; subst args;
      cbn in Hn; injection Hn as <-; injection Hb as <- <-; split; vm_compute; reflexivity || lia.
  - intros i b params f s args t Hn Hb _ HP Ht.
    destruct i as [|[|i]]; cbn in HP; try contradiction; subst args;
      cbn in Hn; injection Hn as <-; cbn in Hb, Ht; try discriminate.
    injection Hb as <- <-. injection Ht as <-. cbn [demo_add demo_args snd].
    generalize ((1337 + N.of_nat (length [VN 104; VN 105]) + s) mod 2 ^ 32). intro n.
    split; cbn; [reflexivity|lia].
Qed.

Lemma demo_room_168 : room vec_cfg 168.
Proof.
  split; [reflexivity|]. cbv zeta. split; [vm_compute; reflexivity|]. split; [|exact I].
  intros n Hn. split; [|reflexivity].
  assert (Q : emul vec_cfg * (2 * (N.of_nat 168 + 10)) / ediv vec_cfg < 2 ^ 63) by (vm_compute; reflexivity).
  lia.
Qed.

(** Requests and responses interleaved, the state of the server carried along. *)
Definition demo_schedule : list op :=
  [Request 0 demo_args; Request 0 demo_args; Serve; Request 1 [VN 5]; Serve; Response 0; Serve;
   Response 1; Request 0 demo_args; Serve; Response 0; Response 0].

Example rpc_duplex_nontrivial :
  exists y, run (step2 N node_env (TScalar 4 false) demo_table vec_cfg vec_cfg vec_cfg vec_cfg 10)
      demo_schedule (mkSys2 40 (mkO [] 0) 0 (mkO [] 0) 0)
    = ([VN 1379; VN 1380; VN 1344], y, None) /\ 6 = y_ctx y.
Proof.
  apply (rpc_duplex_run_succeeds node_env (TScalar 4 false) demo_table vec_cfg vec_cfg vec_cfg vec_cfg 10
    demo_calls (fun _ => True) demo_schedule 40 14 (mkDuplex 6 [] [])).
  - exact demo_table_ok.
  - exact demo_good_requests.
  - exact demo_good_results.
  - repeat constructor.
  - exact I.
  - exact demo_bounded.
  - exact demo_room_168.
  - exact demo_room_168.
  - vm_compute. reflexivity.
Qed.

(** On one buffer a call is finished before the next one starts, except that requests can be
    sent ahead when all of them are served before the first response is read. *)
Definition demo_shared_schedule : list op :=
  [Request 0 demo_args; Request 1 [VN 5]; Request 0 demo_args; Serve; Serve; Serve;
   Response 0; Response 1; Response 0; Request 0 demo_args; Serve; Response 0].

Example rpc_shared_nontrivial :
  exists y, run (step1 N node_env (TScalar 4 false) demo_table vec_cfg vec_cfg vec_cfg vec_cfg 10)
      demo_shared_schedule (mkSys1 40 (mkO [] 0) 0)
    = ([VN 1379; VN 1344; VN 1345], y, None) /\ 7 = z_ctx y.
Proof.
  apply (rpc_shared_run_succeeds node_env (TScalar 4 false) demo_table vec_cfg vec_cfg vec_cfg vec_cfg 10
    demo_calls (fun _ => True) demo_shared_schedule 40 14 (mkShared 7 [])).
  - exact demo_table_ok.
  - exact demo_good_requests.
  - exact demo_good_results.
  - repeat constructor.
  - exact I.
  - exact demo_bounded.
  - exact demo_room_168.
  - exact demo_room_168.
  - vm_compute. reflexivity.
Qed.

(** On one buffer, reading a response while another request waits before it returns the bytes
    of that request: here the id 0xAABBCCDD instead of 1379.  No error is reported. *)
Theorem rpc_shared_overlap_refuted :
  exists os y,
    duplex_run (functions demo_table) os (mkDuplex 40 [] []) = Some (mkDuplex 41 [(0%nat, demo_args)] [], [VN 1379])
    /\ run (step1 N node_env (TScalar 4 false) demo_table vec_cfg vec_cfg vec_cfg vec_cfg 10)
         os (mkSys1 40 (mkO [] 0) 0) = ([VN 0xAABBCCDD], y, None).
Proof.
  exists [Request 0 demo_args; Request 0 demo_args; Serve; Response 0]. eexists.
  split; vm_compute; reflexivity.
Qed.
