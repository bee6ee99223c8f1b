(** C79: remote calls of functions that throw. *)

From Coq Require Import List NArith ZArith Lia Bool Arith.
From Coq Require Import ZifyBool ZifyNat ZifyN.
From Verif Require Import Base.Bytes Model.Types Model.Machine Model.Varint Model.Out Model.In
  Spec.RpcQueue Model.Rpc Model.RpcThrow Spec.Leb128 Spec.Wire Proofs.VarintP Proofs.OutP Proofs.InBase
  Proofs.InSafe Proofs.InLocal Proofs.InPrior Proofs.InRound Proofs.RpcP
  Thm.Demo Thm.Output Thm.Input Thm.Rpc Thm.RpcQueue.
Import ListNotations.
Local Open Scope N_scope.

(** ** Statement *)

(** All ids have the same type and are distinct. *)
Record throw_table {S} (G : tenv) (idt : ty) (bs : list (tbinding S)) : Prop := {
  tt_idt : id_type idt = true;
  tt_ids : forall b, In b bs -> wt G (tb_id b) idt = true;
  tt_distinct : NoDup (map tb_id bs)
}.

(** What a sequence of calls does, without bytes: each function is run in turn on what the one before left.
    [play] gives the state at the end, the result of every serve() and the answers: the values of the
    functions that return one, with the number of the function. *)
Section Spec.
  Context {S : Type} (bs : list (tbinding S)).

  Definition function (i : nat) : S -> list val -> S * option val :=
    match nth_error bs i with
    | Some b => match tb_body b with TPlain _ f => f | _ => fun s _ => (s, None) end
    | None => fun s _ => (s, None)
    end.

  Definition kind (i : nat) : rret :=
    match nth_error bs i with Some b => tb_ret b | None => RetVoid end.

  Definition outcome (r : rret) (v : option val) : res + N :=
    match v, r with
    | None, _ => inl RThrow
    | Some (VN 0), RetErrc => inl ROk
    | Some (VN n), RetErrc => inr n
    | _, _ => inl ROk
    end.

  Definition answer (i : nat) (v : option val) : list (nat * val) :=
    match v, kind i with Some v, RetVal _ => [(i, v)] | _, _ => [] end.

  Fixpoint play (s : S) (calls : list (nat * list val)) : S * list (res + N) * list (nat * val) :=
    match calls with
    | [] => (s, [], [])
    | (i, args) :: calls' =>
        let (s1, v) := function i s args in
        match play s1 calls' with
        | (s2, rs, l) => (s2, outcome (kind i) v :: rs, answer i v ++ l)
        end
    end.
End Spec.

Section Throw.
  Context {S : Type} (G : tenv) (idt : ty) (bs : list (tbinding S)) (cw ci co cr : cfg) (fuel : nat).

  (** The calls considered: [P i args] tells the arguments function [i] may be called with, [Inv] holds of every
      state of the server.  Arguments can be sent, and so can the results there are. *)
  Context (P : nat -> list val -> Prop) (Inv : S -> Prop).

  Definition sendable_requests : Prop :=
    forall i args, P i args -> exists b params f,
      nth_error bs i = Some b /\ tb_body b = TPlain params f /\
      sendable G cw ci fuel (tb_id b :: args) (idt :: params).

  Definition sendable_results : Prop :=
    forall i b params f s args, nth_error bs i = Some b -> tb_body b = TPlain params f ->
      Inv s -> P i args ->
      Inv (fst (f s args)) /\
      forall v t, snd (f s args) = Some v -> tb_ret b = RetVal t -> sendable G co cr fuel [v] [t].

  (** The results there are take at most [L] bytes each. *)
  Definition results_bounded (L : nat) : Prop :=
    forall i b params f s args v t, nth_error bs i = Some b -> tb_body b = TPlain params f ->
      Inv s -> P i args -> snd (f s args) = Some v -> tb_ret b = RetVal t ->
      writable G (fmt_of co) (VSeq [v]) (TTuple [t]) = true /\ (length (wire G co [v] [t]) <= L)%nat.

  (** No bitsets, or a buffer whose bytes beyond the position are zero (C04). *)
  Definition bitsets_fine (st : ost) : Prop :=
    clean st \/
    tall_env not_bitset G /\
    forall b, In b bs ->
      tall not_bitset (TTuple (idt :: tparams S b)) = true /\
      forall t, tb_ret b = RetVal t -> tall not_bitset (TTuple [t]) = true.
End Throw.

(** ** Proofs *)

(** The same table with functions that do not throw. *)
Definition quiet {S} (b : tbinding S) : binding S :=
  mkBinding (tb_id b) (tb_ret b)
    (match tb_body b with
     | TPlain params f => Plain params (fun s l => let (s', v) := f s l in (s', match v with Some v => v | None => VNone end))
     | TArchives f => Archives (fun s d p so => match f s d p so with (s', p', so', v) =>
                                  (s', p', so', match v with Some v => v | None => VNone end) end)
     | TRawData f => RawData (fun s d => match f s d with (s', n, v) =>
                                (s', n, match v with Some v => v | None => VNone end) end)
     end).

Lemma quiet_ids {S} (bs : list (tbinding S)) : map b_id (map quiet bs) = map tb_id bs.
Proof. rewrite map_map. reflexivity. Qed.

Lemma quiet_table {S} G idt (bs : list (tbinding S)) : throw_table G idt bs -> rpc_table G idt (map quiet bs).
Proof.
  intros [T1 T2 T3]. constructor; [exact T1| |now rewrite quiet_ids].
  intros b Hb. apply in_map_iff in Hb as (x & <- & Hx). now apply T2.
Qed.

Section Found.
  Context {S : Type} (G : tenv) (idt : ty) (ci co : cfg) (data : list byte) (fuel : nat).
  Hypothesis Hidt : id_type idt = true.

  Lemma tcall_binding_found id s pos so l : forall i b,
    (forall b : tbinding S, In b l -> wt G (tb_id b) idt = true) -> NoDup (map tb_id l) ->
    nth_error l i = Some b -> tb_id b = id -> forall k,
    tcall_binding S G ci co data fuel k l id s pos so = tcall_one S G ci co data fuel (k + i) b s pos so.
  Proof using Hidt.
    induction l as [|b0 l IH]; intros i b Hids Hnd Hn E k; [destruct i; discriminate|].
    cbn [tcall_binding]. inversion Hnd as [|x y Hni Hnd']; subst x y.
    destruct (id_eqb (tb_id b0) id) eqn:Ei.
    - apply (id_eqb_eq G idt) in Ei; [|exact Hidt|apply Hids; now left].
      destruct i as [|i]; [cbn in Hn; injection Hn as ->; now rewrite Nat.add_0_r|].
      exfalso. apply Hni. rewrite Ei, <- E. cbn [nth_error] in Hn. apply in_map. now apply nth_error_In in Hn.
    - destruct i as [|i].
      + cbn in Hn. injection Hn as ->. exfalso. rewrite E in Ei.
        assert (id_eqb id id = true) by (apply (id_eqb_eq G idt); auto; rewrite <- E; apply Hids; now left).
        congruence.
      + cbn [nth_error] in Hn. rewrite (IH i b) by (auto; intros; apply Hids; now right). f_equal. lia.
  Qed.
End Found.

Lemma quiet_bits {S} G idt (bs : list (tbinding S)) st :
  bitsets_fine G idt bs st -> clean st \/ no_bitsets G idt (map quiet bs).
Proof.
  intros [H|[H1 H2]]; [now left|right]. split; [exact H1|]. intros b Hb.
  apply in_map_iff in Hb as (x & <- & Hx). destruct (H2 x Hx) as [A B]. cbn [quiet b_ret].
  split; [|exact B]. unfold params_of, tparams in *. cbn [quiet b_body]. now destruct (tb_body x).
Qed.

Lemma fresh_channel {S} G idt (bs : list (tbinding S)) st :
  ost_ok st -> bitsets_fine G idt bs st -> channel G idt (map quiet bs) st (opos st) [].
Proof.
  intros [K1 K2] Hb. constructor.
  - cbn. lia.
  - split; [cbn; lia|reflexivity].
  - now split.
  - now apply quiet_bits.
Qed.

(** Once the request has been read. *)
Lemma tserve_read {S} G ci co fuel idt (bs : list (tbinding S)) i b params f args data pos q q' s so :
  throw_table G idt bs -> nth_error bs i = Some b -> tb_body b = TPlain params f ->
  in_call G ci data fuel [idt] [dflt G idt] pos = (ROk, [tb_id b], q) ->
  in_call G ci data fuel params (map (dflt G) params) q = (ROk, args, q') ->
  tserve S G ci co data fuel idt bs s pos so
  = mkServed (fst (tsend G co (tb_ret b) (snd (f s args)) so)) (fst (f s args)) q'
      (snd (tsend G co (tb_ret b) (snd (f s args)) so)) [(i, WithArgs args)].
Proof.
  intros [T1 T2 T3] Hn Hb E1 E2. unfold tserve. rewrite E1.
  rewrite (tcall_binding_found G idt ci co data fuel T1 (tb_id b) s q so bs i b T2 T3 Hn eq_refl).
  cbn [Nat.add]. unfold tcall_one. rewrite Hb. unfold tcall_plain.
  assert (Go : forall a, a = args ->
    (let (s', v) := f s a in let (r, so') := tsend G co (tb_ret b) v so in
     mkServed r s' q' so' [(i, WithArgs a)])
    = mkServed (fst (tsend G co (tb_ret b) (snd (f s args)) so)) (fst (f s args)) q'
        (snd (tsend G co (tb_ret b) (snd (f s args)) so)) [(i, WithArgs args)]).
  { intros a ->. destruct (f s args) as [s' v]. cbn [fst snd].
    now destruct (tsend G co (tb_ret b) v so). }
  destruct params as [|p ps].
  - unfold in_call in E2. cbn [des_many map] in E2. injection E2 as <- ->. now apply Go.
  - change (dflt G (TTuple (p :: ps))) with (VSeq (map (dflt G) (p :: ps))).
    rewrite in_call_tuple, E2. now apply Go.
Qed.

Section Runs.
  Context {S : Type} (G : tenv) (idt : ty) (bs : list (tbinding S)) (cw ci co cr : cfg) (fuel : nat).
  Context (P : nat -> list val -> Prop) (Inv : S -> Prop).
  Hypothesis (HT : throw_table G idt bs) (HQ : sendable_requests G idt bs cw ci fuel P)
    (HR : sendable_results G bs co cr fuel P Inv).

  (** The bytes of a request, of an answer. *)
  Definition request_is (m : nat * list val) (e : list byte) : Prop :=
    P (fst m) (snd m) /\
    forall b params f, nth_error bs (fst m) = Some b -> tb_body b = TPlain params f ->
      writable G (fmt_of cw) (VSeq (tb_id b :: snd m)) (TTuple (idt :: params)) = true /\
      e = wire G cw (tb_id b :: snd m) (idt :: params).

  Definition answer_is (m : nat * val) (e : list byte) : Prop :=
    exists b t, nth_error bs (fst m) = Some b /\ tb_ret b = RetVal t /\
      sendable G co cr fuel [snd m] [t] /\
      writable G (fmt_of co) (VSeq [snd m]) (TTuple [t]) = true /\
      e = wire G co [snd m] [t].

  Lemma requests_push : forall calls st pos es st',
    Forall (fun m => P (fst m) (snd m)) calls -> channel G idt (map quiet bs) st pos es ->
    requests S G cw idt bs calls st = (ROk, st') ->
    exists es', channel G idt (map quiet bs) st' pos (es ++ es') /\ Forall2 request_is calls es'.
  Proof using HQ.
    induction calls as [|[i args] calls IH]; intros st pos es st' HP C E; cbn [requests] in E.
    - injection E as <-. exists []. rewrite app_nil_r. auto.
    - inversion HP as [|? ? HP1 HP2]; subst. cbn [fst snd] in HP1.
      destruct (HQ i args HP1) as (b & params & f & Hn & Hb & Hs).
      assert (Hp : tparams S b = params) by (unfold tparams; now rewrite Hb).
      rewrite Hn, Hp in E.
      unfold seq in E. destruct (request G cw idt (tb_id b) args params st) as [r st1] eqn:E1.
      destruct r; try discriminate. unfold request in E1.
      assert (Hnq : nth_error (map quiet bs) i = Some (quiet b)) by (now rewrite nth_error_map, Hn).
      assert (Hbits : clean st \/ no_bitsets G idt (map quiet bs) -> bits_ok G (TTuple (idt :: params)) st).
      { intros [H|[H1 H2]]; [now left|right]. split; [|exact H1].
        apply nth_error_In in Hnq. specialize (H2 _ Hnq). unfold params_of in H2. cbn [quiet b_body] in H2.
        rewrite Hb in H2. apply H2. }
      destruct (channel_push G idt (map quiet bs) P cw _ _ _ _ _ _ C Hbits (sd_writing _ _ _ _ _ _ Hs) E1)
        as [C1 Hw].
      destruct (IH _ _ _ _ HP2 C1 E) as (es' & C2 & F).
      exists (wire G cw (tb_id b :: args) (idt :: params) :: es').
      rewrite <- app_assoc in C2. split; [exact C2|]. constructor; [|exact F].
      split; [exact HP1|]. cbn [fst snd]. intros b' params' f' Hn' Hb'.
      rewrite Hn in Hn'. injection Hn' as <-. rewrite Hb in Hb'. injection Hb' as <- <-. auto.
  Qed.

  (** One request. *)
  Lemma tserve_request i args e data pos s so :
    request_is (i, args) e -> small data -> has_at data pos e ->
    exists b params f, nth_error bs i = Some b /\ tb_body b = TPlain params f /\ P i args /\
      tserve S G ci co data fuel idt bs s pos so
      = mkServed (fst (tsend G co (tb_ret b) (snd (f s args)) so)) (fst (f s args)) (pos + length e)
          (snd (tsend G co (tb_ret b) (snd (f s args)) so)) [(i, WithArgs args)].
  Proof using HT HQ.
    intros [HP Hm] Hsm Hat. cbn [fst snd] in *.
    destruct (HQ i args HP) as (b & params & f & Hn & Hb & Hs).
    destruct (Hm b params f Hn Hb) as [Hw ->]. exists b, params, f.
    split; [exact Hn|]. split; [exact Hb|]. split; [exact HP|].
    pose proof (in_call_received G cw ci fuel _ _ data pos Hs Hw Hsm Hat) as Q.
    cbn [map] in Q. apply in_call_first in Q as (q & E1 & E2).
    exact (tserve_read G ci co fuel idt bs i b params f args data pos q _ s so HT Hn Hb E1 E2).
  Qed.

  Lemma serve_on_log : forall calls es data pos s so,
    Forall2 request_is calls es -> small data -> has_at data pos (concat es) ->
    match serve_on S G ci co data fuel idt bs (length calls) s pos so with
    | (rs, log, s', pos', so') =>
        log = map (fun m => (fst m, WithArgs (snd m))) calls /\ s' = fst (fst (play bs s calls)) /\
        pos' = (pos + length (concat es))%nat
    end.
  Proof using HT HQ.
    induction calls as [|[i args] calls IH]; intros es data pos s so F Hsm Hat.
    - inversion F; subst. cbn. auto.
    - inversion F as [|? e ? es' H1 H2]; subst. cbn [concat] in Hat. apply has_at_app in Hat as [Hat Hat'].
      destruct (tserve_request i args e data pos s so H1 Hsm Hat) as (b & params & f & Hn & Hb & HP & E).
      cbn [length serve_on play]. cbv zeta. rewrite E. cbn [sv_res sv_ctx sv_pos sv_out sv_log].
      assert (Ef : function bs i = f) by (unfold function; now rewrite Hn, Hb).
      rewrite Ef. destruct (f s args) as [s1 v]. cbn [fst snd].
      specialize (IH es' data (pos + length e)%nat s1 (snd (tsend G co (tb_ret b) v so)) H2 Hsm Hat').
      destruct (serve_on S G ci co data fuel idt bs (length calls) s1 (pos + length e)
        (snd (tsend G co (tb_ret b) v so))) as [[[[rs log] s'] pos'] so'].
      destruct (play bs s1 calls) as [[s2 rs2] l]. cbn [fst] in *. destruct IH as (-> & -> & ->).
      repeat split. cbn [concat]. rewrite app_length. lia.
  Qed.

  (** What one call sends. *)
  Lemma tsend_push i b params f s args so rpos res :
    nth_error bs i = Some b -> tb_body b = TPlain params f -> Inv s -> P i args ->
    channel G idt (map quiet bs) so rpos res ->
    exists er, match tsend G co (tb_ret b) (snd (f s args)) so with (r, so1) =>
      (r = outcome (tb_ret b) (snd (f s args)) ->
         channel G idt (map quiet bs) so1 rpos (res ++ er) /\
         Forall2 answer_is (answer bs i (snd (f s args))) er) /\
      (forall L M, results_bounded G bs co P Inv L -> room co M -> (opos so + L <= M)%nat ->
         r = outcome (tb_ret b) (snd (f s args)) /\ (opos so1 <= opos so + L)%nat) end.
  Proof using HR.
    intros Hn Hb Hi HP C. destruct (HR i b params f s args Hn Hb Hi HP) as [_ Hsd].
    assert (Ek : kind bs i = tb_ret b) by (unfold kind; now rewrite Hn). unfold answer. rewrite Ek.
    assert (HL : forall L, results_bounded G bs co P Inv L -> forall v t, snd (f s args) = Some v ->
      tb_ret b = RetVal t -> writable G (fmt_of co) (VSeq [v]) (TTuple [t]) = true /\
      (length (wire G co [v] [t]) <= L)%nat).
    { intros L HB v t. exact (HB i b params f s args v t Hn Hb Hi HP). }
    destruct (snd (f s args)) as [v|]; cbn [tsend].
    - destruct (tb_ret b) as [| |t] eqn:Er; cbn [send].
      + exists []. rewrite app_nil_r. destruct v; try (destruct n as [|p]); cbn [outcome]; (split; [intros _; split; [exact C|constructor]|intros; split; [reflexivity|lia]]).
      + exists []. rewrite app_nil_r. destruct v; try (destruct n as [|p]); cbn [outcome]; (split; [intros _; split; [exact C|constructor]|intros; split; [reflexivity|lia]]).
      + exists [wire G co [v] [t]]. specialize (Hsd v t eq_refl eq_refl).
        assert (Hnq : nth_error (map quiet bs) i = Some (quiet b)) by (now rewrite nth_error_map, Hn).
        assert (Hrq : b_ret (quiet b) = RetVal t) by exact Er.
        assert (Hbits := bits_response G idt (map quiet bs) so i (quiet b) t Hnq Hrq).
        assert (Eo : outcome (RetVal t) (Some v) = inl ROk) by (destruct v; try (destruct n as [|p]); reflexivity).
        rewrite Eo. destruct (out_call G co [v] [t] so) as [r so1] eqn:E1. split.
        * intro Hr. injection Hr as ->.
          destruct (channel_push G idt (map quiet bs) P co _ _ _ _ _ _ C Hbits (sd_writing _ _ _ _ _ _ Hsd) E1)
            as [C1 Hw]. split; [exact C1|]. constructor; [|constructor].
          exists b, t. cbn [fst snd]. auto.
        * intros L M HB Rm HM. destruct (HL L HB v t eq_refl eq_refl) as [Hw Hl].
          pose proof (out_call_succeeds G P co [v] [t] so M (sd_writing _ _ _ _ _ _ Hsd)
            (Hbits (ch_clean _ _ _ _ _ _ C)) (ch_ok _ _ _ _ _ _ C) Hw Rm ltac:(lia)) as Q.
          rewrite E1 in Q. cbn [fst] in Q. subst r. split; [reflexivity|].
          destruct (out_call_sent _ _ _ _ _ _ (sd_writing _ _ _ _ _ _ Hsd)
            (Hbits (ch_clean _ _ _ _ _ _ C)) (ch_ok _ _ _ _ _ _ C) E1) as (_ & Po & _). lia.
    - exists []. rewrite app_nil_r. destruct (tb_ret b); cbn [outcome]; (split; [intros _; split; [exact C|constructor]|intros; split; [reflexivity|lia]]).
  Qed.

  Lemma serve_on_answers : forall calls es data pos s so rpos res,
    Forall2 request_is calls es -> small data -> has_at data pos (concat es) -> Inv s ->
    channel G idt (map quiet bs) so rpos res ->
    match serve_on S G ci co data fuel idt bs (length calls) s pos so with
    | (rs, log, s', pos', so') =>
        (rs = snd (fst (play bs s calls)) ->
           exists er, channel G idt (map quiet bs) so' rpos (res ++ er) /\
             Forall2 answer_is (snd (play bs s calls)) er) /\
        (forall L M, results_bounded G bs co P Inv L -> room co M ->
           (opos so + length calls * L <= M)%nat -> rs = snd (fst (play bs s calls)))
    end.
  Proof using HT HQ HR.
    induction calls as [|[i args] calls IH]; intros es data pos s so rpos res F Hsm Hat Hi C.
    - inversion F; subst. cbn. split; [|auto]. intros _. exists []. rewrite app_nil_r. auto.
    - inversion F as [|? e ? es' H1 H2]; subst. cbn [concat] in Hat. apply has_at_app in Hat as [Hat Hat'].
      destruct (tserve_request i args e data pos s so H1 Hsm Hat) as (b & params & f & Hn & Hb & HP & E).
      cbn [length serve_on play]. cbv zeta. rewrite E. cbn [sv_res sv_ctx sv_pos sv_out sv_log].
      assert (Ef : function bs i = f) by (unfold function; now rewrite Hn, Hb).
      assert (Ek : kind bs i = tb_ret b) by (unfold kind; now rewrite Hn).
      rewrite Ef, Ek.
      destruct (HR i b params f s args Hn Hb Hi HP) as [Hi' _].
      destruct (tsend_push i b params f s args so rpos res Hn Hb Hi HP C) as (er1 & Step).
      destruct (f s args) as [s1 v]. cbn [fst snd] in *.
      destruct (tsend G co (tb_ret b) v so) as [r so1]. cbn [fst snd]. destruct Step as [St1 St2].
      assert (Hdec : r = outcome (tb_ret b) v \/ r <> outcome (tb_ret b) v).
      { destruct r as [a|a], (outcome (tb_ret b) v) as [c|c]; try (right; congruence).
        - assert (D : {a = c} + {a <> c}) by (decide equality; decide equality).
          destruct D; [left|right]; congruence.
        - destruct (N.eq_dec a c); [left|right]; congruence. }
      specialize (IH es' data (pos + length e)%nat s1 so1 rpos (res ++ er1) H2 Hsm Hat' Hi').
      destruct (serve_on S G ci co data fuel idt bs (length calls) s1 (pos + length e) so1)
        as [[[[rs log] s'] pos'] so'].
      destruct (play bs s1 calls) as [[s2 rs2] l]. cbn [fst snd] in *. split.
      + intro Q. injection Q as Q1 Q2. destruct (St1 Q1) as [C1 A1]. destruct (IH C1) as [I1 _].
        destruct (I1 Q2) as (er & C2 & A2). exists (er1 ++ er). rewrite app_assoc. split; [exact C2|].
        now apply Forall2_app.
      + intros L M HB Rm HM. destruct (St2 L M HB Rm ltac:(lia)) as [Q1 Q2].
        destruct (St1 Q1) as [C1 A1]. destruct (IH C1) as [_ I2]. f_equal; [exact Q1|].
        apply (I2 L M HB Rm). lia.
  Qed.

  (** The client. *)
  Lemma responses_read : forall l er data pos,
    Forall2 answer_is l er -> small data -> has_at data pos (concat er) ->
    responses G cr data fuel (map (fun m => kind bs (fst m)) l) pos
    = (ROk, map snd l, (pos + length (concat er))%nat).
  Proof.
    induction l as [|[i v] l IH]; intros er data pos F Hsm Hat.
    - inversion F; subst. cbn. now rewrite Nat.add_0_r.
    - inversion F as [|? e ? er' H1 H2]; subst. cbn [concat] in Hat. apply has_at_app in Hat as [Hat Hat'].
      cbn [map responses]. destruct H1 as (b & t & Hn & Ht & Hs & Hw & ->). cbn [fst snd] in *.
      assert (Ek : kind bs i = RetVal t) by (unfold kind; now rewrite Hn). rewrite Ek.
      pose proof (in_call_received G co cr fuel _ _ data pos Hs Hw Hsm Hat) as Q.
      cbn [map] in Q. unfold response at 1. rewrite Q. rewrite (IH er' data _ H2 Hsm Hat').
      cbn [opt_list app concat]. rewrite app_length. f_equal. lia.
  Qed.
End Runs.

(** ** C79 *)

(** A request is consumed by the function it names, with the arguments given, whether it returns or throws; if
    it throws, so does serve(), and nothing is sent. *)
Theorem rpc_throw_served {S} G cw ci co fuel idt (bs : list (tbinding S)) i b params f args st st' data pos s so :
  throw_table G idt bs -> nth_error bs i = Some b -> tb_body b = TPlain params f ->
  sendable G cw ci fuel (tb_id b :: args) (idt :: params) ->
  bits_ok G (TTuple (idt :: params)) st -> ost_ok st ->
  request G cw idt (tb_id b) args params st = (ROk, st') ->
  small data -> has_at data pos (window (obuf st') (opos st) (opos st' - opos st)) ->
  let R := tserve S G ci co data fuel idt bs s pos so in
  sv_log R = [(i, WithArgs args)] /\ sv_ctx R = fst (f s args) /\
  sv_pos R = (pos + (opos st' - opos st))%nat /\
  match snd (f s args) with
  | Some v => (sv_res R, sv_out R) = send G co (tb_ret b) v so
  | None => sv_res R = inl RThrow /\ sv_out R = so
  end.
Proof.
  intros HT Hn Hb Hs Hbt Hok H Hsm Hat.
  destruct (request_received G cw ci fuel idt (quiet b) args params st st' data pos Hs Hbt Hok H Hsm Hat)
    as (q & E1 & E2). cbn [quiet b_id] in E1.
  rewrite (tserve_read G ci co fuel idt bs i b params f args data pos q _ s so HT Hn Hb E1 E2).
  cbn [sv_res sv_ctx sv_pos sv_out sv_log].
  destruct (snd (f s args)) as [v|]; cbn [tsend]; [|repeat split].
  destruct (send G co (tb_ret b) v so). repeat split.
Qed.

(** A client sends requests, and a server that goes on after exceptions serves as many times: every function
    called is run once, in order, with its arguments, and all requests are consumed.  If the results were what
    the functions make them, the client that asks for the responses of the calls that returned a value, in
    order, gets these values and has read everything sent.  With enough memory the results are those. *)
Theorem rpc_throw_survived {S} G idt (bs : list (tbinding S)) cw ci co cr fuel P (Inv : S -> Prop)
  calls st st' s so :
  throw_table G idt bs -> sendable_requests G idt bs cw ci fuel P ->
  sendable_results G bs co cr fuel P Inv ->
  Forall (fun m => P (fst m) (snd m)) calls -> Inv s ->
  ost_ok st -> bitsets_fine G idt bs st -> ost_ok so -> bitsets_fine G idt bs so ->
  requests S G cw idt bs calls st = (ROk, st') ->
  match serve_on S G ci co (obuf st') fuel idt bs (length calls) s (opos st) so, play bs s calls with
  | (rs, log, s', pos', so'), (s2, outcomes, answers) =>
      log = map (fun m => (fst m, WithArgs (snd m))) calls /\ s' = s2 /\ pos' = opos st' /\
      (rs = outcomes ->
         responses G cr (obuf so') fuel (map (fun m => kind bs (fst m)) answers) (opos so)
         = (ROk, map snd answers, opos so')) /\
      (forall L M, results_bounded G bs co P Inv L -> room co M ->
         (opos so + length calls * L <= M)%nat -> rs = outcomes)
  end.
Proof.
  intros HT HQ HR HP Hi K1 B1 K2 B2 E.
  destruct (requests_push G idt bs cw ci fuel P HQ calls st (opos st) [] st' HP (fresh_channel G idt bs st K1 B1) E)
    as (es & C & F). cbn [app] in C.
  pose proof (channel_small G idt (map quiet bs) P _ _ _ C) as Hsm.
  pose proof (ch_bytes _ _ _ _ _ _ C) as Hat. pose proof (ch_end _ _ _ _ _ _ C) as He.
  pose proof (serve_on_log G idt bs cw ci co fuel P HT HQ calls es (obuf st') (opos st) s so F Hsm Hat) as H1.
  pose proof (serve_on_answers G idt bs cw ci co cr fuel P Inv HT HQ HR calls es (obuf st') (opos st) s so
    (opos so) [] F Hsm Hat Hi (fresh_channel G idt bs so K2 B2)) as H2.
  destruct (serve_on S G ci co (obuf st') fuel idt bs (length calls) s (opos st) so)
    as [[[[rs log] s'] pos'] so'].
  destruct (play bs s calls) as [[s2 outcomes] answers]. cbn [fst snd app] in *.
  destruct H1 as (-> & -> & ->). destruct H2 as [H2 H3].
  split; [reflexivity|]. split; [reflexivity|]. split; [exact He|]. split; [|exact H3].
  intro Q. destruct (H2 Q) as (er & C2 & A).
  rewrite (responses_read G bs co cr fuel answers er (obuf so') (opos so) A
    (channel_small G idt (map quiet bs) P _ _ _ C2) (ch_bytes _ _ _ _ _ _ C2)).
  now rewrite (ch_end _ _ _ _ _ _ C2).
Qed.

(** A function that is given the remaining data and throws: what it left in the span is skipped. *)
Theorem rpc_throw_data {S} G ci co data fuel idt (bs : list (tbinding S)) i b f s pos so q s' n :
  throw_table G idt bs -> nth_error bs i = Some b -> tb_body b = TRawData f ->
  in_call G ci data fuel [idt] [dflt G idt] pos = (ROk, [tb_id b], q) ->
  f s (skipn q data) = (s', n, None) ->
  tserve S G ci co data fuel idt bs s pos so
  = mkServed (inl RThrow) s' (q + n) so [(i, WithData (skipn q data))].
Proof.
  intros [T1 T2 T3] Hn Hb E Ef. unfold tserve. rewrite E.
  rewrite (tcall_binding_found G idt ci co data fuel T1 (tb_id b) s q so bs i b T2 T3 Hn eq_refl).
  unfold tcall_one. rewrite Hb. cbn [Nat.add]. now rewrite Ef.
Qed.

(** Functions that do not throw: Model/Rpc.v. *)
Definition returning {S} (b : tbinding S) : Prop :=
  match tb_body b with
  | TPlain _ f => forall s l, snd (f s l) <> None
  | TArchives f => forall s d p so, snd (f s d p so) <> None
  | TRawData f => forall s d, snd (f s d) <> None
  end.

Theorem rpc_without_throw {S} G ci co data fuel idt (bs : list (tbinding S)) s pos so :
  Forall returning bs ->
  tserve S G ci co data fuel idt bs s pos so = serve S G ci co data fuel idt (map quiet bs) s pos so.
Proof.
  intro HR. unfold tserve, serve, serve_id. destruct (in_call _ _ _ _ _ _ _) as [[r l] p].
  destruct r; try reflexivity. destruct l as [|id [|? ?]]; try reflexivity. generalize O.
  induction HR as [|b bs Hb HR IH]; intro k; cbn [tcall_binding call_binding map]; [reflexivity|].
  cbn [quiet b_id]. destruct (id_eqb (tb_id b) id); [|apply IH].
  unfold tcall_one, call_one, returning, quiet in *. cbn [b_body b_ret]. destruct (tb_body b) as [params f|f|f].
  - unfold tcall_plain, call_plain. destruct params as [|t ts].
    + specialize (Hb s []). destruct (f s []) as [s' [v|]]; [reflexivity|now contradiction Hb].
    + destruct (in_call _ _ _ _ _ _ _) as [[r' l'] p']. destruct r'; try reflexivity.
      destruct l' as [|[] [|? ?]]; try reflexivity.
      specialize (Hb s l). destruct (f s l) as [s' [v|]]; [reflexivity|now contradiction Hb].
  - specialize (Hb s data p so). destruct (f s data p so) as [[[s' p'] so'] [v|]]; [reflexivity|now contradiction Hb].
  - specialize (Hb s (skipn p data)). destruct (f s (skipn p data)) as [[s' n] [v|]]; [reflexivity|now contradiction Hb].
Qed.

(** ** Concrete runs *)

(** A server with an account: withdrawing more than there is throws. *)
Definition withdraw (s : N) (l : list val) : N * option val :=
  match l with
  | [VN n] => if s <? n then (s, None) else (s - n, Some (VN (s - n)))
  | _ => (s, None)
  end.
Definition deposit (s : N) (l : list val) : N * option val :=
  match l with
  | [VN n] => if 1000 <? s + n then (1000, None) else (s + n, Some VNone)
  | _ => (s, None)
  end.
Definition spill (s : N) (d : list byte) : N * nat * option val := (s + N.of_nat (length d), 3%nat, None).
Definition bank : list (tbinding N) :=
  [ mkTbinding (VN 0x101) (RetVal (TScalar 4 false)) (TPlain [TScalar 4 false] withdraw);
    mkTbinding (VN 0x102) RetVoid (TPlain [TScalar 4 false] deposit);
    mkTbinding (VN 0x103) RetVoid (TRawData spill) ].

Lemma bank_table : throw_table node_env (TScalar 4 false) bank.
Proof.
  constructor; [reflexivity| |].
  - intros b [<-|[<-|[<-|[]]]]; reflexivity.
  - cbn. repeat constructor; cbn; intuition discriminate.
Qed.

Definition bank_calls (i : nat) (args : list val) : Prop :=
  (i < 2)%nat /\ exists n, n < 2 ^ 32 /\ args = [VN n].

Lemma bank_requests : sendable_requests node_env (TScalar 4 false) bank vec_cfg vec_cfg 10 bank_calls.
Proof.
  assert (Q : forall k n, n < 2 ^ 32 -> k < 2 ^ 32 ->
    sendable node_env vec_cfg vec_cfg 10 [VN k; VN n] [TScalar 4 false; TScalar 4 false]).
  { intros k n Hn Hk.
    assert (Hw : wt node_env (VSeq [VN k; VN n]) (TTuple [TScalar 4 false; TScalar 4 false]) = true).
    { cbn. rewrite andb_true_r. apply andb_true_intro. split; apply N.ltb_lt; assumption. }
    constructor; try reflexivity.
    - constructor; try reflexivity; try exact Hw.
      + intros _; repeat split; vm_compute; try reflexivity; discriminate.
      + apply demo_wf_env.
      + intros [|j]; reflexivity.
    - intros [|j]; reflexivity.
    - cbn. lia. }
  intros i args (Hi & n & Hn & ->). destruct i as [|[|i]]; [| |lia]; eexists _, _, _;
    (split; [reflexivity|]); (split; [reflexivity|]); now apply Q.
Qed.

Lemma bank_results :
  sendable_results node_env bank vec_cfg vec_cfg 10 bank_calls (fun s => s <= 1000).
Proof.
  intros i b params f s args Hn Hb Hs (Hi & n & Hn' & ->).
  destruct i as [|[|i]]; [| |lia]; cbn in Hn; injection Hn as <-; cbn in Hb; injection Hb as <- <-.
  - cbn [withdraw]. destruct (N.ltb_spec s n); cbn [fst snd]; (split; [lia|]); intros v t Hv Ht; [discriminate|].
    injection Hv as <-. injection Ht as <-. apply demo_u32_sendable.
    change (2 ^ 32) with 4294967296. lia.
  - cbn [deposit]. destruct (N.ltb_spec 1000 (s + n)); cbn [fst snd]; (split; [lia|]); intros v t Hv Ht;
      discriminate.
Qed.

Lemma bank_bounded : results_bounded node_env bank vec_cfg bank_calls (fun s => s <= 1000) 4.
Proof.
  intros i b params f s args v t Hn Hb Hs (Hi & n & Hn' & ->) Hv Ht.
  destruct i as [|[|i]]; [| |lia]; cbn in Hn; injection Hn as <-; cbn in Hb; injection Hb as <- <-;
    cbn in Ht; [|discriminate].
  injection Ht as <-. cbn [withdraw] in Hv. destruct (s <? n); [discriminate|]. injection Hv as <-.
  generalize (s - n). intro k. split; cbn; [reflexivity|lia].
Qed.

(** Six calls of which two throw; the last ones are answered all the same. *)
Definition bank_session : list (nat * list val) :=
  [(0%nat, [VN 10]); (0%nat, [VN 500]); (1%nat, [VN 400]); (1%nat, [VN 700]); (0%nat, [VN 1]); (0%nat, [VN 999])].

Example rpc_throw_survived_nontrivial :
  exists st',
    requests N node_env vec_cfg (TScalar 4 false) bank bank_session (mkO [] 0) = (ROk, st') /\
    opos st' = 48%nat /\
    match serve_on N node_env vec_cfg vec_cfg (obuf st') 10 (TScalar 4 false) bank 6 100 0 (mkO [] 0) with
    | (rs, log, s', pos', so') =>
        rs = [inl ROk; inl RThrow; inl ROk; inl RThrow; inl ROk; inl ROk] /\
        log = map (fun m => (fst m, WithArgs (snd m))) bank_session /\ s' = 0 /\ pos' = 48%nat /\
        responses node_env vec_cfg (obuf so') 10 (repeat (RetVal (TScalar 4 false)) 3) 0
        = (ROk, [VN 90; VN 999; VN 0], opos so')
    end.
Proof.
  destruct (requests N node_env vec_cfg (TScalar 4 false) bank bank_session (mkO [] 0)) as [r st'] eqn:E.
  assert (r = ROk) as -> by (vm_compute in E; now injection E).
  pose proof (rpc_throw_survived node_env (TScalar 4 false) bank vec_cfg vec_cfg vec_cfg vec_cfg 10 bank_calls
    (fun s => s <= 1000) bank_session (mkO [] 0) st' 100 (mkO [] 0) bank_table bank_requests bank_results) as H.
  assert (P0 : Forall (fun m => bank_calls (fst m) (snd m)) bank_session).
  { repeat constructor; cbn; eexists; (split; [|reflexivity]); reflexivity. }
  assert (K : ost_ok (mkO [] 0)) by (split; cbn; [lia|reflexivity]).
  assert (B : bitsets_fine node_env (TScalar 4 false) bank (mkO [] 0)) by (now left).
  specialize (H P0 ltac:(cbn; lia) K B K B E). cbn [opos length bank_session] in H.
  assert (Eo : opos st' = 48%nat) by (vm_compute in E; injection E as <-; reflexivity).
  exists st'. split; [reflexivity|]. split; [exact Eo|].
  destruct (serve_on _ _ _ _ _ _ _ _ 6 _ _ _) as [[[[rs log] s'] pos'] so'].
  assert (Q : play bank 100 bank_session
    = (0, [inl ROk; inl RThrow; inl ROk; inl RThrow; inl ROk; inl ROk],
       [(0%nat, VN 90); (0%nat, VN 999); (0%nat, VN 0)])) by reflexivity.
  change [(0%nat, [VN 10]); (0%nat, [VN 500]); (1%nat, [VN 400]); (1%nat, [VN 700]); (0%nat, [VN 1]); (0%nat, [VN 999])]
    with bank_session in H.
  rewrite Q in H. destruct H as (H1 & H2 & H3 & H4 & H5).
  assert (Hrs := H5 4%nat 168%nat bank_bounded demo_room_168 ltac:(cbn; lia)). specialize (H4 Hrs).
  split; [exact Hrs|]. split; [exact H1|]. split; [exact H2|]. split; [congruence|]. exact H4.
Qed.

(** An overdraft is read, and throws; the output keeps its byte. *)
Example rpc_throw_served_nontrivial :
  exists st',
    request node_env vec_cfg (TScalar 4 false) (VN 0x101) [VN 500] [TScalar 4 false] (mkO [] 0) = (ROk, st') /\
    tserve N node_env vec_cfg vec_cfg (obuf st') 10 (TScalar 4 false) bank 100 0 (mkO [x01] 1)
    = mkServed (inl RThrow) 100 8 (mkO [x01] 1) [(0%nat, WithArgs [VN 500])].
Proof.
  destruct (request node_env vec_cfg (TScalar 4 false) (VN 0x101) [VN 500] [TScalar 4 false] (mkO [] 0)) as [r st'] eqn:E.
  assert (r = ROk) as -> by (vm_compute in E; now injection E). exists st'. split; [reflexivity|].
  assert (Hs : sendable node_env vec_cfg vec_cfg 10 [VN 0x101; VN 500] [TScalar 4 false; TScalar 4 false]).
  { destruct (bank_requests 0%nat [VN 500]) as (b & ps & f & Hn & Hb & Hs).
    - split; [lia|]. exists 500. split; reflexivity.
    - cbn in Hn. injection Hn as <-. cbn in Hb. injection Hb as <- <-. exact Hs. }
  pose proof (rpc_throw_served node_env vec_cfg vec_cfg vec_cfg 10 (TScalar 4 false) bank 0 _ _ withdraw [VN 500]
    (mkO [] 0) st' (obuf st') 0 100 (mkO [x01] 1) bank_table eq_refl eq_refl Hs) as H.
  assert (E' := E). vm_compute in E'. injection E' as <-.
  specialize (H ltac:(now left) ltac:(split; cbn; [lia|reflexivity]) E ltac:(reflexivity)
    ltac:(split; [cbn; lia|reflexivity])).
  cbn zeta in H. destruct (tserve _ _ _ _ _ _ _ _ _ _ _) as [r s p o l]. cbn in H.
  destruct H as (-> & -> & -> & -> & ->). reflexivity.
Qed.

(** The third byte of four is where the function stopped. *)
Example rpc_throw_data_nontrivial :
  tserve N node_env vec_cfg vec_cfg [x03; x01; x00; x00; x09; x09; x09; x09] 10 (TScalar 4 false) bank 100 0 (mkO [x01] 1)
  = mkServed (inl RThrow) 104 7 (mkO [x01] 1) [(2%nat, WithData [x09; x09; x09; x09])].
Proof.
  exact (rpc_throw_data node_env vec_cfg vec_cfg [x03; x01; x00; x00; x09; x09; x09; x09] 10 (TScalar 4 false) bank 2
    _ spill 100 0 (mkO [x01] 1) 4 104 3 bank_table eq_refl eq_refl eq_refl eq_refl).
Qed.

Definition steady : list (tbinding N) :=
  [ mkTbinding (VN 7) (RetVal (TScalar 4 false)) (TPlain [TScalar 4 false] (fun s _ => (s + 1, Some (VN s)))) ].
Example rpc_without_throw_nontrivial :
  Forall returning steady /\
  sv_log (tserve N node_env vec_cfg vec_cfg [x07; x00; x00; x00; x09; x00; x00; x00] 10 (TScalar 4 false) steady 100 0
    (mkO [] 0)) = [(0%nat, WithArgs [VN 9])].
Proof. split; [repeat constructor; discriminate|reflexivity]. Qed.

(** ** What does not hold *)

(** The client cannot tell that a function threw: the response to the first of two calls is taken from the
    second, and the second has none. *)
Theorem rpc_throw_misattributed_refuted :
  exists (bs : list (tbinding N)) st' rs log s' pos' so',
    throw_table node_env (TScalar 4 false) bs /\
    requests N node_env vec_cfg (TScalar 4 false) bs [(0%nat, [VN 500]); (0%nat, [VN 10])] (mkO [] 0) = (ROk, st') /\
    serve_on N node_env vec_cfg vec_cfg (obuf st') 10 (TScalar 4 false) bs 2 100 0 (mkO [] 0)
    = (rs, log, s', pos', so') /\
    rs = [inl RThrow; inl ROk] /\ s' = 90 /\
    function bs 0 100 [VN 500] = (100, None) /\ function bs 0 100 [VN 10] = (90, Some (VN 90)) /\
    response node_env vec_cfg (obuf so') 10 (kind bs 0) 0 = (ROk, Some (VN 90), 4%nat) /\
    fst (responses node_env vec_cfg (obuf so') 10 [kind bs 0; kind bs 0] 0)
    = (RErr result_out_of_range, [VN 90]).
Proof.
  exists bank. do 6 eexists. split; [exact bank_table|]. split; [vm_compute; reflexivity|].
  split; [vm_compute; reflexivity|]. repeat split; vm_compute; reflexivity.
Qed.

(** An exception leaves the requests that follow in step; the error for an unknown id does not, since the
    arguments stay unread.  A server that goes on takes them for a request: here it withdraws 258, which is the id
    of the request that follows. *)
Theorem rpc_unknown_resumed_refuted :
  exists (bs : list (tbinding N)) st1 st2 rs log s' pos' so',
    throw_table node_env (TScalar 4 false) bs /\ (forall b, In b bs -> tb_id b <> VN 0x999) /\
    request node_env vec_cfg (TScalar 4 false) (VN 0x999) [VN 0x101] [TScalar 4 false] (mkO [] 0) = (ROk, st1) /\
    requests N node_env vec_cfg (TScalar 4 false) bs [(1%nat, [VN 5])] st1 = (ROk, st2) /\
    serve_on N node_env vec_cfg vec_cfg (obuf st2) 10 (TScalar 4 false) bs 2 600 0 (mkO [] 0)
    = (rs, log, s', pos', so') /\
    rs = [inl (RErr not_supported); inl ROk] /\ log = [(0%nat, WithArgs [VN 258])] /\ s' = 342.
Proof.
  exists bank. do 7 eexists. split; [exact bank_table|].
  split; [intros b [<-|[<-|[<-|[]]]]; discriminate|].
  split; [vm_compute; reflexivity|]. split; [vm_compute; reflexivity|]. split; [vm_compute; reflexivity|].
  repeat split; vm_compute; reflexivity.
Qed.
