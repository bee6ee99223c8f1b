(** C92: remote procedure calls that arrive in pieces. *)

From Coq Require Import List NArith ZArith Lia Bool Arith.
From Coq Require Import ZifyBool ZifyNat ZifyN.
From Verif Require Import Base.Bytes Model.Types Model.Machine Model.Varint Model.Out Model.In Model.Pieces Model.Rpc
  Model.RpcPieces Spec.Wire Proofs.OutP Proofs.InBase Proofs.InSafe Proofs.InLocal Proofs.InPrior
  Proofs.InRound Proofs.InStable Proofs.RpcP Thm.Demo Thm.Output Thm.Input Thm.Rpc Thm.Pieces.
Import ListNotations.
Local Open Scope N_scope.

(** The types a server reads carry their own extent. *)
Definition table_delimited {S} (G : tenv) (ci : cfg) (idt : ty) (bs : list (binding S)) : Prop :=
  tall_env (delimited ci) G /\ tall (delimited ci) idt = true /\
  forall b params f, In b bs -> b_body b = Plain params f -> tall (delimited ci) (TTuple params) = true.

Lemma reading_one G c data t : reading G c data t -> reading G c data (TTuple [t]).
Proof.
  intros [H1 H2 H3 H4 H5 H6]. constructor; auto.
  - cbn [tallP]. repeat split; auto.
  - cbn [wf forallb]. now rewrite H6.
Qed.

(** ** What serve() does with the beginning of the data *)

(** Either nothing at all, and it answers result_out_of_range; or what it does with all of the
    data: the same function, the same arguments, the same response, answer and position. *)
Theorem rpc_serve_settled {S} G ci co data more fuel idt (bs : list (binding S)) s pos so :
  plain_table bs -> table_reading G ci (data ++ more) idt bs -> table_delimited G ci idt bs ->
  (pos <= length data)%nat ->
  let R := serve S G ci co data fuel idt bs s pos so in
  (sv_res R = inl too_short /\ sv_ctx R = s /\ sv_out R = so /\ sv_log R = [])
  \/ serve S G ci co (data ++ more) fuel idt bs s pos so = R.
Proof.
  intros HP [HRi HRb] (HdG & Hdi & Hdb) Hp R. unfold R, serve.
  pose proof (wt_dflt G idt (r_env _ _ _ _ HRi) (r_wf _ _ _ _ HRi)) as Hwi.
  destruct (in_call G ci data fuel [idt] [dflt G idt] pos) as [[r l] q] eqn:E1.
  destruct (in_call_one _ _ _ _ _ _ _ _ _ _ (reading_prefix _ _ _ _ _ HRi) Hp Hwi E1) as (id & -> & Hid & Hq & _).
  assert (Dec : forall r : res, r = too_short \/ r <> too_short)
    by (intros [|[]| | |]; (now left) || (right; discriminate)).
  destruct (Dec r) as [-> | N]; [left; cbn; auto|].
  assert (E1' := answer_final G ci data more fuel [idt] [dflt G idt] pos r [id] q (reading_one _ _ _ _ HRi)).
  cbn [tall forallb] in E1'. rewrite Hdi in E1'. cbn [wt forall2b] in E1'. rewrite Hwi in E1'.
  rewrite (E1' eq_refl HdG Hp eq_refl E1 N). clear E1'.
  destruct r; try (now right). unfold serve_id.
  assert (K : forall bs' k, (forall b, In b bs' -> In b bs) ->
    let R := call_binding S G ci co data fuel k bs' id s q so in
    (sv_res R = inl too_short /\ sv_ctx R = s /\ sv_out R = so /\ sv_log R = [])
    \/ call_binding S G ci co (data ++ more) fuel k bs' id s q so = R).
  { induction bs' as [|b bs' IH]; intros k Hin; cbn [call_binding]; [now right|].
    destruct (id_eqb (b_id b) id); [|apply IH; intros; apply Hin; now right].
    assert (Hb := Hin b (or_introl eq_refl)). destruct (HP b Hb) as (params & f & Eb).
    unfold call_one. rewrite Eb. unfold call_plain. destruct params as [|t ts]; [now right|].
    cbn [dflt]. rewrite !in_call_tuple.
    destruct (in_call G ci data fuel (t :: ts) (map (dflt G) (t :: ts)) q) as [[r2 l2] q2] eqn:E2.
    assert (HRp := HRb b _ f Hb Eb).
    assert (Hwp : wt G (VSeq (map (dflt G) (t :: ts))) (TTuple (t :: ts)) = true)
      by exact (wt_dflt G (TTuple (t :: ts)) (r_env _ _ _ _ HRp) (r_wf _ _ _ _ HRp)).
    destruct (Dec r2) as [-> | N2]; [left; cbn; auto|].
    rewrite (answer_final G ci data more fuel (t :: ts) _ q r2 l2 q2 HRp (Hdb b _ f Hb Eb) HdG
      ltac:(lia) Hwp E2 N2). now right. }
  apply (K bs O). auto.
Qed.

(** ** The loop *)

(** No function bound answers result_out_of_range itself, and there is room for all responses. *)
Definition conclusive {S} (G : tenv) (co : cfg) (bs : list (binding S)) (so : ost) : Prop :=
  forall b params f s args, In b bs -> b_body b = Plain params f ->
    short (fst (send G co (b_ret b) (snd (f s args)) so)) = false.

Lemma serve_short {S} G ci co data fuel idt (bs : list (binding S)) s pos so :
  rpc_table G idt bs -> plain_table bs -> table_reading G ci data idt bs -> (pos <= length data)%nat ->
  conclusive G co bs so ->
  let R := serve S G ci co data fuel idt bs s pos so in
  short (sv_res R) = true -> sv_ctx R = s /\ sv_out R = so /\ sv_log R = [].
Proof.
  intros HT HP HR Hp HC R Hs.
  destruct (rpc_any_input G ci co data fuel idt bs s pos so HT HP HR Hp) as [_ A].
  fold R in A. destruct A as [(A1 & A2 & A3 & _)|(i & b & params & f & args & q & A1 & A2 & _ & _ & _ & _ & _ & A3)].
  - auto.
  - apply nth_error_In in A1. pose proof (HC b params f s args A1 A2) as C. rewrite <- A3 in C.
    cbn [fst] in C. congruence.
Qed.

Lemma table_prefix {S} G ci data more idt (bs : list (binding S)) :
  table_reading G ci (data ++ more) idt bs -> table_reading G ci data idt bs.
Proof.
  intros [H1 H2]. split; [eapply reading_prefix; eauto|]. intros. eapply reading_prefix; eauto.
Qed.

(** Whatever arrives, in whatever pieces: the loop does what serving from all of the data does, so
    no function is called more than once. *)
Theorem rpc_pieces_same {S} G ci co fuel idt (bs : list (binding S)) pos have todo s so :
  rpc_table G idt bs -> plain_table bs -> table_reading G ci (have ++ concat todo) idt bs ->
  table_delimited G ci idt bs -> (pos <= length have)%nat -> conclusive G co bs so ->
  exists got rest,
    todo = got ++ rest
    /\ serve_pieces S G ci co fuel idt bs pos have todo s so
       = (serve S G ci co (have ++ concat todo) fuel idt bs s pos so, have ++ concat got, rest)
    /\ (short (sv_res (serve S G ci co (have ++ concat todo) fuel idt bs s pos so)) = true -> rest = []).
Proof.
  intros HT HP HR HD Hp HC. revert have HR Hp.
  induction todo as [|x todo IH]; intros have HR Hp; cbn [serve_pieces].
  { exists [], []. cbn [concat app] in *. rewrite !app_nil_r.
    destruct (short _); auto. }
  assert (HRh := table_prefix _ _ _ _ _ _ HR).
  pose proof (serve_short G ci co have fuel idt bs s pos so HT HP HRh Hp HC) as Q.
  destruct (rpc_serve_settled G ci co have (concat (x :: todo)) fuel idt bs s pos so HP HR HD Hp) as [T|T].
  - destruct T as (T1 & T2 & T3 & T4). rewrite T1. cbn [short too_short]. rewrite T2, T3, T4.
    cbn [concat] in *. rewrite app_assoc in *.
    destruct (IH (have ++ x) HR ltac:(rewrite app_length; lia)) as (got & rest & I1 & I2 & I3).
    exists (x :: got), rest. split; [now rewrite I1|]. rewrite I2. cbn [concat app]. rewrite app_assoc.
    split; [|exact I3]. now destruct (serve S G ci co ((have ++ x) ++ concat todo) fuel idt bs s pos so).
  - rewrite T. destruct (short (sv_res (serve S G ci co have fuel idt bs s pos so))) eqn:Es.
    + destruct (Q Es) as (Q1 & Q2 & Q3). rewrite Q1, Q2, Q3. rewrite <- T in Es |- *.
      cbn [concat] in *. rewrite app_assoc in *.
      destruct (IH (have ++ x) HR ltac:(rewrite app_length; lia)) as (got & rest & I1 & I2 & I3).
      exists (x :: got), rest. split; [now rewrite I1|]. rewrite I2. cbn [concat app]. rewrite app_assoc.
      split; [|intros _; exact (I3 Es)]. now destruct (serve S G ci co ((have ++ x) ++ concat todo) fuel idt bs s pos so).
    + exists [], (x :: todo). split; [reflexivity|]. cbn [concat]. rewrite app_nil_r. split; [reflexivity|discriminate].
Qed.

(** A request of the client, cut anywhere and followed by anything, calls its function once, with
    its arguments, when the last byte of it has arrived. *)
Theorem rpc_pieces_served {S} G cw ci co fuel idt (bs : list (binding S)) i b params f args e have todo pos s so :
  rpc_table G idt bs -> plain_table bs -> table_reading G ci (have ++ concat todo) idt bs ->
  table_delimited G ci idt bs -> conclusive G co bs so ->
  nth_error bs i = Some b -> b_body b = Plain params f ->
  sendable G cw ci fuel (b_id b :: args) (idt :: params) ->
  written G cw (b_id b :: args) (idt :: params) e ->
  (pos <= length have)%nat -> has_at (have ++ concat todo) pos e ->
  let '(R, have', rest) := serve_pieces S G ci co fuel idt bs pos have todo s so in
  sv_log R = [(i, WithArgs args)]
  /\ sv_ctx R = fst (f s args)
  /\ sv_pos R = (pos + length e)%nat
  /\ (sv_res R, sv_out R) = send G co (b_ret b) (snd (f s args)) so.
Proof.
  intros HT HP HR HD HC Hn Hb HS (st & st' & Hbt & Ho & E & He) Hp Hat.
  destruct (rpc_pieces_same G ci co fuel idt bs pos have todo s so HT HP HR HD Hp HC) as (got & rest & _ & Q & _).
  rewrite Q.
  assert (L : length e = (opos st' - opos st)%nat).
  { destruct (window_sent _ _ _ _ _ _ (sd_writing _ _ _ _ _ _ HS) Hbt Ho E) as [W1 W2]. rewrite He, W1, W2. reflexivity. }
  rewrite L. rewrite He in Hat.
  apply (rpc_served G cw ci co fuel idt bs i b params f args st st' (have ++ concat todo) pos s so HT Hn Hb HS Hbt Ho E); auto.
  apply (r_small _ _ _ _ (proj1 HR)).
Qed.

(** A growable response archive is enough, for functions that do not return the code themselves:
    it answers no_buffer_space when its limit is reached. *)
Theorem rpc_growable_conclusive {S} G co (bs : list (binding S)) so :
  growable co = true -> ost_ok so ->
  (forall b params f s args, In b bs -> b_body b = Plain params f ->
     match b_ret b with
     | RetVoid => True
     | RetErrc => snd (f s args) <> VN erange
     | RetVal t => let v := VSeq [snd (f s args)] in
         writing G co v (TTuple [t]) /\ bits_ok G (TTuple [t]) so
         /\ writable G (fmt_of co) v (TTuple [t]) = true
     end) ->
  conclusive G co bs so.
Proof.
  intros Hg Ho H b params f s args Hin Hb. specialize (H b params f s args Hin Hb). unfold send.
  destruct (b_ret b) as [| |t]; [reflexivity| |].
  - destruct (snd (f s args)) as [[|n]| | | | | | | ]; try reflexivity. cbn [fst short].
    apply N.eqb_neq. congruence.
  - destruct H as (HW & Hbt & Hw).
    destruct (out_growable_outcomes G co _ _ so HW Hbt Ho Hg Hw) as [Q _].
    change (ser G co (VSeq [snd (f s args)]) (TTuple [t]) so)
      with (ser_many (ser G co) [snd (f s args)] [t] so) in Q.
    unfold out_call. destruct (ser_many (ser G co) [snd (f s args)] [t] so) as [r st1]. cbn [fst] in Q.
    assert (R : short (inl r) = false) by (destruct Q as [->|[->| ->]]; reflexivity).
    destruct (_ && _ && _); [|exact R].
    assert (F : fst (fit_size co (length (obuf so)) r st1) = r \/ fst (fit_size co (length (obuf so)) r st1) = RThrow).
    { unfold fit_size, buf_resize. destruct r; auto; (destruct (_ <=? _)%nat; auto); (destruct (_ <=? _); auto);
      destruct (can_alloc _ _); auto. }
    destruct (fit_size co (length (obuf so)) r st1) as [r' st']. cbn [fst] in *.
    destruct F as [-> | ->]; [exact R|reflexivity].
Qed.

(** ** Without these conditions functions are called again *)

Definition add_request : list byte := [xdd; xcc; xbb; xaa; x39; x05; x00; x00; x02; x00; x00; x00; x68; x69].

(** No room for the response: serve() answers result_out_of_range after the function was called.
    The program waits for the next piece, here the beginning of another request, and the function
    is called once more. *)
Theorem rpc_pieces_response_refuted :
  let '(R, _, _) := serve_pieces N node_env vec_cfg span_cfg 10 (TScalar 4 false) demo_table 0
                      add_request [[xdd]; [xcc]] 40 (mkO [] 0) in
  sv_log R = [(0%nat, WithArgs demo_args); (0%nat, WithArgs demo_args); (0%nat, WithArgs demo_args)]
  /\ sv_ctx R = 43.
Proof. vm_compute. split; reflexivity. Qed.

(** The same with a function that returns the code. *)
Definition range_check (s : N) (args : list val) : N * val :=
  match args with [VN a] => (s + 1, VN (if a <? 10 then 0 else erange)) | _ => (s, VN 0) end.
Definition range_table : list (binding N) := [mkBinding (VN 8) RetErrc (Plain [TScalar 1 false] range_check)].

Theorem rpc_pieces_errc_refuted :
  let '(R, _, _) := serve_pieces N node_env vec_cfg vec_cfg 10 (TScalar 4 false) range_table 0
                      [] [[x08; x00]; [x00; x00; x0b]; [x08]] 0 (mkO [] 0) in
  sv_log R = [(0%nat, WithArgs [VN 11]); (0%nat, WithArgs [VN 11])] /\ sv_ctx R = 2.
Proof. vm_compute. split; reflexivity. Qed.

(** An opaque function is called with what has arrived. *)
Theorem rpc_pieces_opaque_refuted :
  let '(R, have, rest) := serve_pieces N node_env vec_cfg vec_cfg 10 (TScalar 4 false) demo_table 0
                      [] [[x09; x00]; [x00; x00; x01]; [x02; x03]] 0 (mkO [] 0) in
  sv_log R = [(3%nat, WithData [x01])] /\ rest = [[x02; x03]].
Proof. vm_compute. split; reflexivity. Qed.

(** ** Examples *)

Definition plain_demo : list (binding N) := firstn 2 demo_table.

Lemma plain_demo_conclusive : conclusive node_env vec_cfg plain_demo (mkO [] 0).
Proof.
  apply rpc_growable_conclusive; [reflexivity|unfold ost_ok; cbn; lia|].
  intros b params f s args [<-|[<-|[]]] Eb; cbn [b_ret]; [|exact I]. injection Eb as <- <-.
  assert (V : exists n, snd (demo_add s args) = VN n /\ n < 2 ^ 32).
  { unfold demo_add. repeat match goal with |- context [match ?x with _ => _ end] => destruct x end; cbn [snd];
      try (exists 0; split; [reflexivity|reflexivity]).
    eexists. split; [reflexivity|]. apply N.mod_lt. discriminate. }
  destruct V as (n & -> & L). split; [|split].
  - constructor; [intros _; cbn; lia|reflexivity|apply demo_wf_env|intros [|k]; reflexivity| |reflexivity|reflexivity|reflexivity].
    cbn [wt forall2b]. apply andb_true_iff. split; [|reflexivity]. now apply N.ltb_lt.
  - right. split; [reflexivity|intros [|k]; reflexivity].
  - reflexivity.
Qed.

Example rpc_pieces_nontrivial :
  let '(R, have, rest) := serve_pieces N node_env vec_cfg vec_cfg 10 (TScalar 4 false) plain_demo 0
                      [] [[xdd; xcc; xbb]; [xaa; x39; x05; x00; x00; x02]; [x00; x00; x00; x68]; [x69; x07]; [x00]] 40 (mkO [] 0) in
  sv_log R = [(0%nat, WithArgs demo_args)] /\ sv_ctx R = 41 /\ sv_res R = inl ROk /\ sv_pos R = 14%nat
  /\ have = add_request ++ [x07] /\ rest = [[x00]].
Proof. vm_compute. repeat split; reflexivity. Qed.

Example rpc_pieces_conditions data : small data ->
  rpc_table node_env (TScalar 4 false) plain_demo /\ plain_table plain_demo
  /\ table_reading node_env vec_cfg data (TScalar 4 false) plain_demo
  /\ table_delimited node_env vec_cfg (TScalar 4 false) plain_demo
  /\ sendable node_env vec_cfg vec_cfg 10 (VN 0xAABBCCDD :: demo_args) [TScalar 4 false; TScalar 4 false; str]
  /\ written node_env vec_cfg (VN 0xAABBCCDD :: demo_args) [TScalar 4 false; TScalar 4 false; str] add_request.
Proof.
  intro Hs. destruct (demo_reading data Hs) as [H1 H2 H3 H4 H5 H6].
  split; [|split; [|split; [|split; [|split]]]].
  - constructor; [reflexivity| |].
    + intros b [<-|[<-|[]]]; reflexivity.
    + cbn. repeat constructor; cbn; intuition discriminate.
  - intros b [<-|[<-|[]]]; do 2 eexists; reflexivity.
  - split; [constructor; auto; cbn; auto|].
    intros b params f [<-|[<-|[]]] Eb; injection Eb as <- <-; constructor; auto; cbn; auto 10.
  - split; [intros [|k]; reflexivity|]. split; [reflexivity|].
    intros b params f [<-|[<-|[]]] Eb; injection Eb as <- <-; reflexivity.
  - apply demo_request_sendable.
  - exists (mkO [] 0). eexists. split; [right; split; [reflexivity|intros [|k]; reflexivity]|].
    split; [unfold ost_ok; cbn; lia|]. split; [vm_compute; reflexivity|]. vm_compute. reflexivity.
Qed.

Print Assumptions rpc_serve_settled.
Print Assumptions rpc_pieces_same.
Print Assumptions rpc_pieces_served.
Print Assumptions rpc_growable_conclusive.
Print Assumptions rpc_pieces_response_refuted.
Print Assumptions rpc_pieces_errc_refuted.
Print Assumptions rpc_pieces_opaque_refuted.
