(** C66: a null owning pointer or a valueless variant anywhere in what is written stops the
    output with invalid_argument; nothing else does. *)

From Coq Require Import List NArith ZArith Lia Bool Arith.
From Coq Require Import ZifyBool ZifyNat ZifyN.
From Verif Require Import Base.Bytes Model.Types Model.Machine Model.Varint Model.Out
  Spec.Leb128 Spec.Wire Spec.Whole Proofs.OutP Thm.Demo Thm.Output.
Import ListNotations.
Local Open Scope N_scope.

Lemma pseq_snd a b : snd (pseq a b) = snd a && snd b.
Proof. unfold pseq. now destruct (snd a) eqn:E; rewrite ?E. Qed.

Lemma enc_many_snd f l ms : snd (enc_many f l ms) = forallb (fun p => snd (f (fst p) (snd p))) (combine l ms).
Proof.
  revert ms. induction l as [|x l IH]; intros [|m ms]; try reflexivity.
  cbn [enc_many combine forallb]. now rewrite pseq_snd, IH.
Qed.

Lemma enc_all_snd f l t : snd (enc_all f l t) = forallb (fun p => snd (f (fst p) (snd p))) (map (fun x => (x, t)) l).
Proof.
  induction l as [|x l IH]; [reflexivity|]. cbn [enc_all map forallb]. now rewrite pseq_snd, IH.
Qed.

Lemma forallb_false {A} (f : A -> bool) l : forallb f l = false -> exists x, In x l /\ f x = false.
Proof.
  induction l as [|x l IH]; cbn [forallb]; [discriminate|]. destruct (f x) eqn:E.
  - intro H. destruct (IH H) as (y & Hy & Hf). exists y. split; [now right|exact Hf].
  - intros _. exists x. split; [now left|exact E].
Qed.

Lemma forallb_hits {A} (f : A -> bool) l x : In x l -> f x = false -> forallb f l = false.
Proof.
  intros H E. destruct (forallb f l) eqn:F; [|reflexivity]. rewrite forallb_forall in F.
  specialize (F x H). congruence.
Qed.

Lemma enc_seq_snd G o l t : (exists p, In p (parts G t l)) ->
  snd (enc G o (VSeq l) t) = forallb (fun p => snd (enc G o (fst p) (snd p))) (parts G t l).
Proof.
  intros [p Hp]. destruct t; cbn [parts] in Hp; try (destruct Hp); cbn [enc parts];
    rewrite ?pseq_snd, ?enc_many_snd, ?enc_all_snd; reflexivity.
Qed.

(** The relation is the one the writer acts on. *)
Lemma holed_not_writable G o v t : wt G v t = true -> wf G t = true -> holed G v t -> writable G o v t = false.
Proof.
  intros _ _. unfold writable.
  induction 1 as [t|ik meta alts|t l x t' Hin _ IH|t x _ IH|dc t x _ IH|t x _ IH|ik meta alts i x t Ha _ IH];
    try reflexivity; try (cbn [enc]; rewrite ?pseq_snd; exact IH).
  - rewrite enc_seq_snd by eauto. eapply forallb_hits; [exact Hin|exact IH].
  - cbn [enc]. rewrite Ha. destruct (nth_error meta i) as [[id dc]|]; [|reflexivity]. now rewrite pseq_snd, IH.
Qed.

Lemma combine_wt G x m l ms : forall2b (fun x m => wt G x m) l ms = true -> In (x, m) (combine l ms) ->
  wt G x m = true.
Proof.
  revert ms. induction l as [|y l IH]; intros [|n ms] H Hin; try destruct Hin; cbn [forall2b combine] in *;
    apply andb_true_iff in H as [H1 H2].
  - congruence.
  - now apply (IH ms).
Qed.

Lemma not_writable_holed G o : wf_env G -> forall v t,
  wt G v t = true -> wf G t = true -> writable G o v t = false -> holed G v t.
Proof.
  intros HG v. unfold writable.
  assert (Sq : forall l t, Forall (fun v => forall t, wt G v t = true -> wf G t = true ->
              snd (enc G o v t) = false -> holed G v t) l ->
            (forall x m, In (x, m) (parts G t l) -> In x l /\ wt G x m = true /\ wf G m = true) ->
            forallb (fun p => snd (enc G o (fst p) (snd p))) (parts G t l) = false ->
            holed G (VSeq l) t).
  { intros l t IH Hp H. apply forallb_false in H as ([x m] & Hin & E). cbn [fst snd] in E.
    destruct (Hp x m Hin) as (A & B & C). rewrite Forall_forall in IH.
    eapply holed_part; [exact Hin|]. now apply IH. }
  assert (Cb : forall l ms, forallb (wf G) ms = true -> forall2b (fun x m => wt G x m) l ms = true ->
            forall x m, In (x, m) (combine l ms) -> In x l /\ wt G x m = true /\ wf G m = true).
  { intros l ms Hw Ht x m Hin. split; [now apply in_combine_l in Hin|].
    split; [now apply (combine_wt G x m l ms)|]. apply in_combine_r in Hin.
    rewrite forallb_forall in Hw. now apply Hw. }
  assert (Mp : forall l t, wf G t = true -> forallb (fun x => wt G x t) l = true ->
            forall x m, In (x, m) (map (fun x => (x, t)) l) -> In x l /\ wt G x m = true /\ wf G m = true).
  { intros l t Hw Ht x m Hin. apply in_map_iff in Hin as (y & E & Hin). injection E as -> <-.
    rewrite forallb_forall in Ht. auto. }
  induction v as [n|l IH| |v IH|i v IH| |l|l] using val_ind'; intros t Ht Hw H;
    destruct t; try discriminate; cbn [wt] in Ht; cbn [wf] in Hw; cbn [enc] in H;
    rewrite ?pseq_snd, ?enc_many_snd, ?enc_all_snd in H; cbn [pdone snd andb] in H; try discriminate;
    try (match goal with k : viewk |- _ => destruct k; discriminate end);
    repeat match goal with H : _ && _ = true |- _ => apply andb_true_iff in H as [? ?] end.
  - apply (Sq l (TStruct si ms)); auto. cbn [parts]. apply Cb; auto.
  - apply (Sq l (TRec k)); auto. cbn [parts]. apply Cb; auto. apply HG.
  - apply (Sq l (TArray n t)); auto. cbn [parts]. apply Mp; auto.
  - apply (Sq l (TTuple ts)); auto. cbn [parts]. apply Cb; auto.
  - apply (Sq l (TVec sz contig t)); auto. cbn [parts]. apply Mp; auto.
  - apply (Sq l (TAssoc sz k t)); auto. cbn [parts]. apply Mp; auto.
  - apply (Sq l (TSpan sz t)); auto. cbn [parts]. apply Mp; auto.
  - constructor.
  - constructor. auto.
  - constructor. auto.
  - constructor. auto.
  - destruct (nth_error meta i) as [[id dc]|] eqn:Hm.
    + destruct (nth_error alts i) as [t|] eqn:Ha; [|discriminate].
      rewrite pseq_snd in H. cbn [pdone snd andb] in H.
      apply (holed_alternative G ik meta alts i v t Ha). apply IH; auto.
      match goal with H : forallb (wf G) alts = true |- _ => rewrite forallb_forall in H; apply H end.
      now apply nth_error_In in Ha.
    + exfalso. apply nth_error_None in Hm. destruct (nth_error alts i) eqn:Ha; [|discriminate].
      assert (i < length alts)%nat by (apply nth_error_Some; congruence).
      match goal with H : (length meta =? length alts)%nat = true |- _ => apply Nat.eqb_eq in H end. lia.
  - constructor.
Qed.

(** ** C66 *)

(** With room for the output, a value with a hole is refused with invalid_argument and every other
    value is written. *)
Theorem out_null_exact G c v t st E :
  writing G c v t -> bits_ok G t st -> ost_ok st ->
  (growable c = false /\ (opos st + length (encode G (fmt_of c) v t) <= length (obuf st))%nat
   \/ rich c E /\ (opos st + length (encode G (fmt_of c) v t) <= E)%nat) ->
  let r := fst (ser G c v t st) in
  (holed G v t -> r = RErr invalid_argument) /\ (~ holed G v t -> r = ROk).
Proof.
  intros HW Hb Hok Hroom r.
  assert (K : r = if writable G (fmt_of c) v t then ROk else RErr invalid_argument).
  { unfold r. destruct Hroom as [[Hg Hr]|[Hr HE]].
    - pose proof (out_fixed_iff_fits G c v t st HW Hb Hok Hg) as O.
      destruct (ser G c v t st) as [r' st']. destruct O as (_ & _ & O1 & O2). cbn [fst].
      destruct (Nat.leb_spec (opos st + length (encode G (fmt_of c) v t)) (length (obuf st))); [|lia].
      destruct (writable G (fmt_of c) v t); auto.
    - pose proof (writing_emits G c v t st HW Hb Hok) as O.
      destruct (ser G c v t st) as [r' st']. destruct O as [_ O]. cbn [fst].
      rewrite (O E Hr HE). unfold final, writable. now destruct (snd (enc G (fmt_of c) v t)). }
  rewrite K. destruct HW as [_ _ W1 _ W2 W3 _ _]. split; intro H.
  - now rewrite (holed_not_writable G (fmt_of c) v t W2 W3 H).
  - destruct (writable G (fmt_of c) v t) eqn:F; [reflexivity|].
    exfalso. apply H. now apply (not_writable_holed G (fmt_of c) W1).
Qed.

(** Without any assumption on the room: never success with a hole, and invalid_argument only with
    one. *)
Theorem out_null_never_written G c v t st :
  writing G c v t -> bits_ok G t st -> ost_ok st ->
  let r := fst (ser G c v t st) in
  (holed G v t -> r <> ROk) /\ (r = RErr invalid_argument -> holed G v t).
Proof.
  intros HW Hb Hok r. unfold r. pose proof (writing_emits G c v t st HW Hb Hok) as O.
  destruct (ser G c v t st) as [r' st']. cbn [fst]. destruct O as [(e1 & e2 & k & _ & _ & _ & _ & O) _].
  destruct HW as [_ _ W1 _ W2 W3 _ _]. split; intro H.
  - apply (holed_not_writable G (fmt_of c) v t W2 W3) in H. unfold writable in H.
    intros ->. destruct O. congruence.
  - subst r'. apply (not_writable_holed G (fmt_of c) W1); auto. apply O.
Qed.

(** The first item with a hole decides what has been written: everything before it, and the part
    of it before the hole; what comes after it has no influence. *)
Lemma enc_many_app f l1 : forall l2 ms1 ms2, length l1 = length ms1 ->
  enc_many f (l1 ++ l2) (ms1 ++ ms2) = pseq (enc_many f l1 ms1) (enc_many f l2 ms2).
Proof.
  induction l1 as [|x l1 IH]; intros l2 [|m ms1] ms2 H; try discriminate; cbn [app enc_many].
  - unfold pseq, pnil. cbn [fst snd app]. now destruct (enc_many f l2 ms2).
  - rewrite IH by (now injection H). unfold pseq. destruct (snd (f x m)) eqn:E; rewrite ?E; [|reflexivity].
    cbn [fst snd]. destruct (snd (enc_many f l1 ms1)) eqn:F; rewrite ?F; cbn [fst snd]; [|reflexivity].
    now rewrite app_assoc.
Qed.

Theorem out_null_stops G c vs1 x vs2 ts1 t ts2 st st' :
  let item := VSeq (vs1 ++ x :: vs2) in let ty := TTuple (ts1 ++ t :: ts2) in
  writing G c item ty -> bits_ok G ty st -> ost_ok st -> length vs1 = length ts1 ->
  ~ holed G (VSeq vs1) (TTuple ts1) -> holed G x t ->
  ser G c item ty st = (RErr invalid_argument, st') ->
  let e := encode G (fmt_of c) (VSeq vs1) (TTuple ts1) ++ encode G (fmt_of c) x t in
  opos st' = (opos st + length e)%nat
  /\ window (obuf st') (opos st) (length e) = e.
Proof.
  intros item ty HW Hb Hok HL Hn Hh H e.
  pose proof (writing_emits G c item ty st HW Hb Hok) as O. rewrite H in O.
  destruct O as [(e1 & e2 & k & F1 & F2 & F3 & _ & F4 & _) _]. subst e2. rewrite app_nil_r in F1.
  assert (E : e1 = e).
  { rewrite <- F1. unfold item, ty. cbn [enc]. rewrite enc_many_app by exact HL. cbn [enc_many].
    destruct HW as [_ _ W1 _ W2 W3 _ _]. unfold item, ty in W2, W3. cbn [wt wf] in W2, W3.
    rewrite forallb_app in W3. apply andb_true_iff in W3 as [W3 W4]. cbn [forallb] in W4.
    apply andb_true_iff in W4 as [W4 _].
    assert (A : forall2b (fun x m => wt G x m) vs1 ts1 = true /\ wt G x t = true).
    { clear -W2 HL. revert ts1 W2 HL. induction vs1 as [|y l IH]; intros [|m ms] W2 HL; try discriminate;
        cbn [app forall2b] in *; apply andb_true_iff in W2 as [W2 W3]; [auto|].
      rewrite W2. injection HL as HL. cbn [andb]. now apply IH. }
    destruct A as [A1 A2].
    assert (B : snd (enc_many (enc G (fmt_of c)) vs1 ts1) = true).
    { destruct (snd (enc_many (enc G (fmt_of c)) vs1 ts1)) eqn:B; [reflexivity|]. exfalso. apply Hn.
      apply (not_writable_holed G (fmt_of c) W1); auto. }
    pose proof (holed_not_writable G (fmt_of c) x t A2 W4 Hh) as D. unfold writable in D.
    unfold pseq. rewrite B. cbn [fst]. rewrite D. unfold e, encode. cbn [enc]. reflexivity. }
  subst e1. rewrite F2. cbn [obuf opos]. split; [now rewrite E|].
  rewrite <- E. apply window_overwrite. destruct Hok. rewrite app_length, zeros_length. lia.
Qed.

(** A list of records, the second of which has a null pointer inside an optional. *)
Definition holes_ty : ty := TVec None true (TTuple [TScalar 1 false; TOpt true (TPtr TBool)]).
Definition holes_val : val :=
  VSeq [VSeq [VN 1; VSome (VSome (VN 1))]; VSeq [VN 2; VSome VNone]; VSeq [VN 3; VNone]].

Example out_null_nontrivial :
  writing node_env vec_cfg (VSeq [VN 7; holes_val; VN 8])
    (TTuple [TScalar 1 false; holes_ty; TScalar 1 false])
  /\ holed node_env holes_val holes_ty
  /\ ~ holed node_env (VSeq [VN 7]) (TTuple [TScalar 1 false])
  /\ (let '(r, st) := ser node_env vec_cfg (VSeq [VN 7; holes_val; VN 8])
        (TTuple [TScalar 1 false; holes_ty; TScalar 1 false]) (mkO [] 0) in
      r = RErr invalid_argument
      /\ firstn (opos st) (obuf st) = [x07] ++ [x03; x00; x00; x00; x01; x01; x01; x02; x01])
  /\ rich vec_cfg 100
  /\ fst (ser node_env span_cfg holes_val holes_ty (mkO (zeros 20) 0)) = RErr invalid_argument.
Proof.
  split.
  { constructor; try (vm_compute; reflexivity).
    - intros _. repeat split; vm_compute; try reflexivity; discriminate.
    - apply demo_wf_env.
    - intros [|k]; reflexivity. }
  split.
  { eapply holed_part; [right; left; reflexivity|]. eapply holed_part; [right; left; reflexivity|].
    repeat constructor. }
  split.
  { intro H. inversion H as [| |t l x t' Hin Hh| | | |]; subst. cbn in Hin.
    destruct Hin as [E|[]]. injection E as <- <-. inversion Hh. }
  split; [vm_compute; auto|]. split; [|vm_compute; reflexivity].
  split; [reflexivity|]. split; [vm_compute; reflexivity|].
  intros n Hn. split; [|reflexivity]. unfold can_alloc. apply andb_true_iff. split; [|reflexivity].
  apply N.ltb_lt. eapply N.le_lt_trans; [exact Hn|]. vm_compute. reflexivity.
Qed.

Print Assumptions out_null_exact.
Print Assumptions out_null_never_written.
Print Assumptions out_null_stops.
