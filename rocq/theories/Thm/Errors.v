(** C67: each error of an input archive has exactly its documented cause. *)

From Coq Require Import List NArith ZArith Lia Bool Arith.
From Coq Require Import ZifyBool ZifyNat ZifyN.
From Verif Require Import Base.Bytes Model.Types Model.Machine Model.Varint Model.Out Model.In
  Spec.Leb128 Spec.Wire Spec.Grammar Spec.Fault Proofs.VarintP Proofs.OutP Proofs.InBase Proofs.InSafe
  Proofs.InLocal Proofs.InPrior Proofs.InRound Proofs.InHost Proofs.InGrammar
  Thm.Demo Thm.Output Thm.Input Thm.Grammar.
Import ListNotations.
Local Open Scope N_scope.

Ltac Zify.zify_post_hook ::= Z.div_mod_to_equations.

(** What a result says about the faults present.  Bulk copies look at the size before they look
    at any bool, so a bad bool may hide behind [result_out_of_range]. *)
Definition named (k : fault) (e : errc) : Prop :=
  code k = Some e \/ k = BadBool /\ e = result_out_of_range.

Definition judged (F : fault -> Prop) (r : res) : Prop :=
  match r with
  | ROk => forall k, ~ F k
  | RErr e => (exists k, F k /\ named k e) /\ (e <> message_size -> forall k, F k -> named k e)
  | RUB => F BadBool /\ forall k, F k -> k = BadBool
  | _ => True
  end.

Lemma judged_iff (F F' : fault -> Prop) r : (forall k, F k <-> F' k) -> judged F r -> judged F' r.
Proof.
  intro H. destruct r as [|e| | |]; cbn [judged]; auto.
  - intros K k Hk. apply (K k). now apply H.
  - intros [(k & H1 & H2) K]. split; [exists k; split; [now apply H|exact H2]|].
    intros He k' Hk. apply (K He). now apply H.
  - intros [H1 K]. split; [now apply H|]. intros k Hk. apply K. now apply H.
Qed.

(** The only fault there is, and its code. *)
Lemma judged_one (F : fault -> Prop) k e : code k = Some e -> F k -> (forall k', F k' -> k' = k) -> judged F (RErr e).
Proof.
  intros Hc Hk Hu. cbn [judged]. split; [exists k; split; [exact Hk|now left]|].
  intros _ k' Hk'. apply Hu in Hk' as ->. now left.
Qed.

Section Judged.
  Variable data : list byte.

  Lemma has_at_rest pos e : has_at data pos e -> skipn pos data = e ++ skipn (pos + length e) data.
  Proof.
    intro H. apply has_at_elim in H as (pre & post & -> & <-).
    rewrite skipn_app, Nat.sub_diag, skipn_all. cbn [skipn app]. f_equal.
    rewrite <- app_length, app_assoc, skipn_app, Nat.sub_diag, skipn_all. reflexivity.
  Qed.

  Lemma rest_has_at pos e r : (pos <= length data)%nat -> skipn pos data = e ++ r -> has_at data pos e.
  Proof.
    intros Hp H. rewrite <- (firstn_skipn pos data), H.
    replace pos with (length (firstn pos data)) at 2 by (rewrite firstn_length; lia).
    apply has_at_intro.
  Qed.

  (** One part after another: faults of the first part, or of the second after a representation
      of the first. *)
  Definition two_parts {A} (D1 : list byte -> A -> Prop) (F1 : list byte -> fault -> Prop)
    (F2 : A -> list byte -> fault -> Prop) (F : list byte -> fault -> Prop) : Prop :=
    forall e k, F e k <-> F1 e k \/ exists e1 e2 a, e = e1 ++ e2 /\ D1 e1 a /\ F2 a e2 k.

  Lemma judged_fail1 {A} D1 F1 F2 F pos r (a : A) p :
    two_parts D1 F1 F2 F -> (pos <= length data)%nat -> r <> ROk ->
    accepted data D1 pos (r, a, p) -> judged (F1 (skipn pos data)) r -> judged (F (skipn pos data)) r.
  Proof.
    intros T Hp Hr HA HJ.
    assert (K : resource r \/ forall k, F (skipn pos data) k -> F1 (skipn pos data) k).
    { assert (K : resource r \/ forall e v, has_at data pos e -> ~ D1 e v) by (destruct r; auto; congruence).
      destruct K as [K|K]; [now left|]. right. intros k H. apply T in H as [H|(e1 & e2 & b & E & H & _)]; [exact H|].
      exfalso. apply (K e1 b); [|exact H]. now apply (rest_has_at _ _ e2). }
    assert (K' : forall k, F1 (skipn pos data) k -> F (skipn pos data) k) by (intros; apply T; now left).
    destruct r as [|e| | |]; cbn [judged] in *; auto; try congruence.
    - destruct HJ as [(k & H1 & H2) HJ]. split; [eauto|]. intros He k' Hk'. apply (HJ He).
      destruct K as [K|K]; [|auto].
      destruct e; cbn [resource] in K; try (destruct K; fail). congruence.
    - destruct HJ as [H1 HJ]. split; [auto|]. intros k Hk. apply HJ. destruct K as [[]|K]; auto.
  Qed.

  Lemma judged_then {A} D1 F1 F2 F pos e1 (a : A) r :
    two_parts D1 F1 F2 F -> unique_prefix D1 -> has_at data pos e1 -> D1 e1 a ->
    judged (F1 (skipn pos data)) ROk -> judged (F2 a (skipn (pos + length e1) data)) r ->
    judged (F (skipn pos data)) r.
  Proof.
    intros T U HE HD H1 H2. apply has_at_rest in HE. apply (judged_iff (F2 a (skipn (pos + length e1) data)));
      [|exact H2]. intro k. split.
    - intro Hk. apply T. right. exists e1, (skipn (pos + length e1) data), a. auto.
    - intro Hk. apply T in Hk as [Hk|(e1' & e2' & a' & E & Hd & Hk)]; [exfalso; now apply (H1 k)|].
      rewrite HE in E. destruct (U _ _ _ _ _ _ E HD Hd) as [<- <-]. apply app_inv_head in E. now subst e2'.
  Qed.
End Judged.

(** ** Elementary reads *)
Section Elementary.
  Variables (c : cfg) (data : list byte).
  Hypothesis Hsm : small data.
  Notation o := (fmt_of c).

  Lemma judged_scalar w prior pos : (pos <= length data)%nat ->
    judged (fun k => (length (skipn pos data) < w)%nat /\ k = Short)
      (fst (fst (des_scalar c data w prior pos))).
  Proof.
    intro Hp. rewrite des_scalar_eq by assumption. rewrite skipn_length.
    destruct (Nat.leb_spec (pos + w) (length data)); cbn [fst].
    - intros k [? _]. lia.
    - apply (judged_one _ Short); [reflexivity|split; [lia|reflexivity]|]. now intros k' [_ ->].
  Qed.

  Lemma judged_varint w zz prior pos : wfw w = true -> (pos <= length data)%nat ->
    judged (base128_fails w (skipn pos data)) (fst (fst (des_varint w zz prior data pos))).
  Proof.
    intros Hw Hp. rewrite des_varint_eq by assumption. unfold base128_fails.
    fold (varint_max_size w). rewrite skipn_length.
    destruct (leb_value _) as [[v n]|]; cbn [fst].
    - intros k [H _]. discriminate.
    - destruct (length data - pos <? varint_max_size w)%nat.
      + apply (judged_one _ Short); auto. now intros k' [_ ->].
      + apply (judged_one _ Overlong); auto. now intros k' [_ ->].
  Qed.

  Lemma judged_size s pos :
    wfsz (Some (sz_of c s)) = true -> sz_of c s <> SzNone -> (pos <= length data)%nat ->
    judged (size_fails o s (skipn pos data)) (fst (fst (des_size c data (sz_of c s) pos))).
  Proof.
    intros Hw Hn Hp. unfold size_fails, fmt_of. cbn [wsize]. fold (sz_of c s).
    destruct (sz_of c s) as [|w|w]; cbn [des_size]; [congruence|now apply judged_scalar|].
    now apply judged_varint.
  Qed.

  Lemma judged_id ik pos : (pos <= length data)%nat ->
    judged (fun k => (length (skipn pos data) < idwidth ik)%nat /\ k = Short)
      (fst (fst (des_id c data ik pos))).
  Proof.
    intro Hp. rewrite des_id_eq by assumption. rewrite skipn_length.
    destruct (Nat.leb_spec (pos + idwidth ik) (length data)); cbn [fst].
    - intros k [? _]. lia.
    - apply (judged_one _ Short); [reflexivity|split; [lia|reflexivity]|]. now intros k' [_ ->].
  Qed.
End Elementary.

Section Loops.
  Variables (G : tenv) (c : cfg) (data : list byte).
  Hypothesis (HG : wf_env G) (Hsm : small data).
  Notation o := (fmt_of c).
  Notation fails := (fails G o (alim c) (csizeof c)).
  Notation part_fails := (part_fails G o (alim c) (csizeof c)).
  Notation element_fails := (element_fails G o (alim c) (csizeof c)).
  Notation acc := (acc G c data).

  Definition jud (t : ty) (f : val -> nat -> dres) : Prop :=
    forall prior pos, (pos <= length data)%nat -> wt G prior t = true ->
      judged (fails t (skipn pos data)) (fst (fst (f prior pos))).

  Lemma part_fails_nil e k : ~ part_fails [] e k.
  Proof. intro H. inversion H. Qed.

  Lemma part_fails_cons t ts :
    two_parts (denotes G o t) (fails t) (fun _ => part_fails ts) (part_fails (t :: ts)).
  Proof.
    intros e k. split.
    - intro H. inversion H; subst; [now left|]. right. do 3 eexists. eauto.
    - intros [H|(e1 & e2 & a & -> & H1 & H2)]; [now apply P_here|]. eapply P_later; eauto.
  Qed.

  Lemma element_fails_0 t e k : ~ element_fails 0 t e k.
  Proof. intro H. inversion H. Qed.

  Lemma element_fails_S n t :
    two_parts (denotes G o t) (fails t) (fun _ => element_fails n t) (element_fails (S n) t).
  Proof.
    intros e k. split.
    - intro H. inversion H; subst; [now left|]. right. do 3 eexists. eauto.
    - intros [H|(e1 & e2 & a & -> & H1 & H2)]; [now apply L_here|]. eapply L_later; eauto.
  Qed.

  Lemma judged_many f ms :
    Forall (fun m => wf G m = true /\ acc m (f m) /\ jud m (f m)) ms ->
    forall l pos, (pos <= length data)%nat -> forall2b (fun x m => wt G x m) l ms = true ->
      judged (part_fails ms (skipn pos data)) (fst (fst (des_many f ms l pos))).
  Proof.
    induction 1 as [|m ms (Hw & Hm & Hj) _ IH]; intros l pos Hp Hl; cbn [des_many].
    - intros k. apply part_fails_nil.
    - destruct l as [|x l]; [discriminate|]. cbn [forall2b tl] in *.
      apply andb_true_iff in Hl as [Hx Hl].
      specialize (Hm x pos Hp Hx). specialize (Hj x pos Hp Hx). destruct (f m x pos) as [[r v] p].
      cbn [fst] in Hj.
      assert (K : r = ROk \/ r <> ROk) by (destruct r; auto; right; discriminate).
      destruct K as [->|Hr].
      + destruct Hm as (e1 & E1 & -> & D1). pose proof (has_at_le _ _ _ E1) as Hle.
        specialize (IH l (pos + length e1)%nat Hle Hl).
        destruct (des_many f ms l (pos + length e1)) as [[r' vs] p']. cbn [fst] in *.
        eapply judged_then with (1 := part_fails_cons m ms) (2 := denotes_unique G o HG m Hw); eauto.
      + pose proof (judged_fail1 _ _ _ _ _ pos r v p (part_fails_cons m ms) Hp Hr Hm Hj) as X.
        destruct r; try congruence; exact X.
  Qed.

  Lemma judged_all f t :
    wf G t = true -> acc t f -> jud t f ->
    forall l pos, (pos <= length data)%nat -> forallb (fun x => wt G x t) l = true ->
      judged (element_fails (length l) t (skipn pos data)) (fst (fst (des_all f l pos))).
  Proof.
    intros Hw Hf Hjf. induction l as [|x l IH]; intros pos Hp Hl; cbn [des_all length].
    - intros k. apply element_fails_0.
    - cbn [forallb] in Hl. apply andb_true_iff in Hl as [Hx Hl].
      pose proof (Hf x pos Hp Hx) as Hm. pose proof (Hjf x pos Hp Hx) as Hj.
      destruct (f x pos) as [[r v] p]. cbn [fst] in Hj.
      assert (K : r = ROk \/ r <> ROk) by (destruct r; auto; right; discriminate).
      destruct K as [->|Hr].
      + destruct Hm as (e1 & E1 & -> & D1). pose proof (has_at_le _ _ _ E1) as Hle.
        specialize (IH (pos + length e1)%nat Hle Hl).
        destruct (des_all f l (pos + length e1)) as [[r' vs] p']. cbn [fst] in *.
        eapply judged_then with (1 := element_fails_S (length l) t) (2 := denotes_unique G o HG t Hw); eauto.
      + pose proof (judged_fail1 _ _ _ _ _ pos r v p (element_fails_S (length l) t) Hp Hr Hm Hj) as X.
        destruct r; try congruence; exact X.
  Qed.

  Lemma judged_assoc f t ins d :
    wf G t = true -> acc t f -> jud t f -> wt G d t = true ->
    forall n a pos, (pos <= length data)%nat ->
      judged (element_fails n t (skipn pos data)) (fst (fst (des_assoc f ins d n a pos))).
  Proof.
    intros Hw Hf Hjf Hd. induction n as [|n IH]; intros a pos Hp; cbn [des_assoc].
    - intros k. apply element_fails_0.
    - pose proof (Hf d pos Hp Hd) as Hm. pose proof (Hjf d pos Hp Hd) as Hj.
      destruct (f d pos) as [[r v] p]. cbn [fst] in Hj.
      assert (K : r = ROk \/ r <> ROk) by (destruct r; auto; right; discriminate).
      destruct K as [->|Hr].
      + destruct Hm as (e1 & E1 & -> & D1). pose proof (has_at_le _ _ _ E1) as Hle.
        specialize (IH (ins a v) (pos + length e1)%nat Hle).
        eapply judged_then with (1 := element_fails_S n t) (2 := denotes_unique G o HG t Hw); eauto.
      + pose proof (judged_fail1 _ _ _ _ _ pos r v p (element_fails_S n t) Hp Hr Hm Hj) as X.
        destruct r; try congruence; exact X.
  Qed.

  (** ** Fixed layout objects: too short, or a bad bool *)
  Definition flat_faults (F : list byte -> fault -> Prop) (ok : list byte -> Prop) (n : nat) : Prop :=
    forall e, (exists e1 e2, e = e1 ++ e2 /\ length e1 = n /\ ok e1 /\ forall k, ~ F e k)
    \/ (exists k, F e k /\ (k = Short /\ (length e < n)%nat \/ k = BadBool) /\ (forall k', F e k' -> k' = k)
        /\ forall e1 e2, e = e1 ++ e2 -> ~ ok e1).

  Lemma flat_faults_nil (F : list byte -> fault -> Prop) (ok : list byte -> Prop) :
    (forall e k, ~ F e k) -> ok [] -> flat_faults F ok 0.
  Proof. intros H1 H2 e. left. exists [], e. repeat split; auto. Qed.

  Lemma flat_faults_then {A} (D1 : list byte -> A -> Prop) F1 (F2 F : list byte -> fault -> Prop)
      (ok2 ok : list byte -> Prop) n m :
    two_parts D1 F1 (fun _ => F2) F -> unique_prefix D1 ->
    (forall e, ok e <-> exists e1 e2 a, e = e1 ++ e2 /\ D1 e1 a /\ ok2 e2) ->
    flat_faults F1 (fun e => exists a, D1 e a) n -> flat_faults F2 ok2 m -> flat_faults F ok (n + m).
  Proof.
    intros T U HO H1 H2 e. destruct (H1 e) as [(e1 & e2 & -> & L & [a D] & N)|(k & K1 & K2 & K3 & K4)].
    - assert (HF : forall k, F (e1 ++ e2) k <-> F2 e2 k).
      { intro k. rewrite (T (e1 ++ e2) k). split.
        - intros [H|(e1' & e2' & a' & E & Hd & H)]; [exfalso; now apply (N k)|].
          destruct (U _ _ _ _ _ _ E D Hd) as [<- _]. apply app_inv_head in E. now subst.
        - intro H. right. exists e1, e2, a. auto. }
      destruct (H2 e2) as [(e3 & e4 & -> & L' & O & N')|(k & K1 & K2 & K3 & K4)].
      + left. exists (e1 ++ e3), e4. rewrite app_assoc, app_length. split; [reflexivity|].
        split; [lia|]. split; [apply HO; exists e1, e3, a; auto|]. intros k Hk. rewrite <- app_assoc in Hk.
        apply HF in Hk. now apply (N' k).
      + right. exists k. split; [now apply HF|]. split; [destruct K2 as [[-> K2]|K2]; [left|now right];
          rewrite app_length; split; [reflexivity|lia]|].
        split; [intros k' Hk'; apply K3; now apply HF|].
        intros e3 e4 E O. apply HO in O as (e5 & e6 & a' & -> & D5 & O6). rewrite <- app_assoc in E.
        destruct (U _ _ _ _ _ _ E D D5) as [<- _]. apply app_inv_head in E. now apply (K4 e6 e4).
    - right. exists k. split; [apply T; now left|]. split; [destruct K2 as [[-> K2]|K2]; [left; split; [reflexivity|lia]|now right]|].
      split.
      + intros k' Hk'. apply T in Hk' as [Hk'|(e1 & e2 & a & -> & D & _)]; [auto|].
        exfalso. apply (K4 e1 e2 eq_refl). eauto.
      + intros e1 e2 -> O. apply HO in O as (e3 & e4 & a & -> & D & _).
        apply (K4 e3 (e4 ++ e2)); [now rewrite app_assoc|eauto].
  Qed.

  Lemma flat_faults_ext F F' (ok ok' : list byte -> Prop) n :
    (forall e k, F e k <-> F' e k) -> (forall e, ok e <-> ok' e) ->
    flat_faults F ok n -> flat_faults F' ok' n.
  Proof.
    intros HF HO H e. destruct (H e) as [(e1 & e2 & E & L & O & N)|(k & K1 & K2 & K3 & K4)].
    - left. exists e1, e2. split; [exact E|]. split; [exact L|]. split; [now apply HO|]. intros k Hk. apply (N k). now apply HF.
    - right. exists k. split; [now apply HF|]. split; [exact K2|]. split; [intros k' Hk'; apply K3; now apply HF|].
      intros e1 e2 E O. apply (K4 e1 e2 E). now apply HO.
  Qed.

  Lemma flat_faults_many ms :
    Forall (fun m => wf G m = true /\ flat_faults (fails m) (fun e => exists v, denotes G o m e v) (bsize m)) ms ->
    flat_faults (part_fails ms) (fun e => exists l, sequence G o ms e l) (sum (map bsize ms)).
  Proof.
    induction 1 as [|m ms [Hw Hm] _ IH]; cbn [map sum fold_right].
    - apply flat_faults_nil; [apply part_fails_nil|]. exists []. constructor.
    - eapply flat_faults_then with (1 := part_fails_cons m ms) (2 := denotes_unique G o HG m Hw) (4 := Hm) (5 := IH).
      intro e. split.
      + intros [l H]. inversion H; subst. do 3 eexists. eauto.
      + intros (e1 & e2 & a & -> & H1 & l & H2). exists (a :: l). now constructor.
  Qed.

  Lemma flat_faults_all t n : wf G t = true ->
    flat_faults (fails t) (fun e => exists v, denotes G o t e v) (bsize t) ->
    flat_faults (element_fails n t) (fun e => exists l, length l = n /\ elements G o t e l) (n * bsize t).
  Proof.
    intros Hw Hm. induction n as [|n IH]; cbn [Nat.mul].
    - apply flat_faults_nil; [apply element_fails_0|]. exists []. split; [reflexivity|constructor].
    - eapply flat_faults_then with (1 := element_fails_S n t) (2 := denotes_unique G o HG t Hw) (4 := Hm) (5 := IH).
      intro e. split.
      + intros [l [L H]]. inversion H; subst; [discriminate|]. cbn [length] in L. injection L as L.
        do 3 eexists. split; [reflexivity|]. split; [eassumption|]. eauto.
      + intros (e1 & e2 & a & -> & H1 & l & L & H2). exists (a :: l). split; [cbn [length]; lia|now constructor].
  Qed.

  Lemma word_1 b : word o [b] = b2n b.
  Proof. unfold word. cbn [rev app]. destruct (little o); cbn [le_val]; lia. Qed.

  Lemma flat_faults_ty t : flat t -> wf G t = true ->
    flat_faults (fails t) (fun e => exists v, denotes G o t e v) (bsize t).
  Proof.
    induction t using ty_ind'; intros Hf Hw; try (destruct Hf as (? & _); discriminate); cbn [bsize].
    - intro e. destruct (Nat.le_gt_cases w (length e)) as [L|L].
      + left. exists (firstn w e), (skipn w e). rewrite firstn_skipn, firstn_length.
        repeat split; [lia| |].
        * eexists. apply D_scalar. rewrite firstn_length. lia.
        * intros k H. inversion H; subst. lia.
      + right. exists Short. split; [now constructor|]. split; [left; auto|]. split.
        * intros k' H. inversion H; subst. reflexivity.
        * intros e1 e2 -> [v D]. inversion D; subst. rewrite app_length in L. lia.
    - intro e. destruct e as [|b e].
      + right. exists Short. split; [now constructor|]. split; [left; split; [reflexivity|cbn; lia]|]. split.
        * intros k' H. inversion H; subst. reflexivity.
        * intros e1 e2 E [v D]. inversion D; subst. destruct e1; discriminate.
      + destruct (N.lt_ge_cases (b2n b) 2) as [L|L].
        * left. exists [b], e. repeat split.
          -- eexists. apply D_bool; [reflexivity|]. now rewrite word_1.
          -- intros k H. inversion H; subst. lia.
        * right. exists BadBool. split; [now constructor|]. split; [now right|]. split.
          -- intros k' H. inversion H; subst. reflexivity.
          -- intros e1 e2 E [v D]. inversion D; subst. destruct e1 as [|b' [|]]; try discriminate.
             cbn [app] in E. injection E as <- _. rewrite word_1 in *. lia.
    - destruct Hf as (_ & _ & ?). discriminate.
    - rewrite <- (flat_sum _ _ Hf). cbn [wf] in Hw. rewrite !andb_true_iff in Hw. destruct Hw as [[_ Hw] _].
      rewrite forallb_forall in Hw.
      eapply flat_faults_ext; [| |apply (flat_faults_many ms)].
      + intros e k. split; [now constructor|]. intro H0. now inversion H0.
      + intro e. split; [intros [l H0]; exists (VSeq l); now constructor|].
        intros [v H0]. inversion H0; subst. eauto.
      + rewrite Forall_forall in *. intros m Hin. split; [auto|]. apply H; auto. eapply flat_member; eauto.
    - cbn [wf] in Hw. apply andb_true_iff in Hw as [_ Hw].
      eapply flat_faults_ext; [| |apply (flat_faults_all t n Hw (IHt (flat_array _ _ Hf) Hw))].
      + intros e k. split; [now constructor|]. intro H0. now inversion H0.
      + intro e. split; [intros (l & <- & H0); exists (VSeq l); now constructor|].
        intros [v H0]. inversion H0; subst. eauto.
  Qed.

  Lemma judged_bytes t l pos :
    flat t -> wf G t = true -> as_bytes c t = true -> (pos <= length data)%nat ->
    judged (element_fails (length l) t (skipn pos data)) (fst (fst (des_bytes c data t (length l) l pos))).
  Proof.
    intros Hf Hw Ha Hp.
    pose proof (flat_faults_all t (length l) Hw (flat_faults_ty t Hf Hw) (skipn pos data)) as FF.
    pose proof (des_bytes_flat G c data (fun _ v p => (RStack, v, p)) Hsm t l pos Hf Hw Ha Hp) as RA.
    pose proof (bs_bsize_pos G t Hw (proj1 Hf)) as Hb.
    pose proof (parse_all_elements G c (wparse o t) (bsize t) t (length l)) as PA.
    pose proof (denotes_flat G c t Hf Hw) as DF.
    rewrite des_bytes_eq in * by assumption.
    destruct (Nat.eqb_spec (length l * bsize t) 0) as [E|E].
    - destruct l; [|cbn in E; lia]. intros k. apply element_fails_0.
    - destruct (Nat.leb_spec (pos + length l * bsize t) (length data)) as [Hl|Hl].
      + destruct (parse_all (objparse c t) _ _ _) as [vs|] eqn:Ep; cbn [fst].
        * destruct FF as [(e1 & e2 & E1 & _ & _ & N)|(k & _ & _ & _ & K4)]; [exact N|].
          exfalso. destruct (proj1 (RA vs (pos + length l * bsize t)%nat) eq_refl) as (_ & R & _).
          apply (K4 (window data pos (length l * bsize t)) (skipn (length l * bsize t) (skipn pos data))).
          -- unfold window. now rewrite firstn_skipn.
          -- exists vs. destruct (proj2 (PA (window data pos (length l * bsize t)) vs DF)) as [P1 P2]; auto.
             split; [now apply window_length|exact R].
        * destruct FF as [(e1 & e2 & E1 & L & (l' & L' & O) & N)|(k & K1 & K2 & K3 & K4)].
          -- exfalso. destruct (proj1 (PA e1 l' DF) (conj O L')) as [P1 P2].
             assert (X : (RUB, l, pos) = (ROk, l', (pos + length l * bsize t)%nat)); [|discriminate].
             apply RA. split; [exact Hl|]. split; [|reflexivity].
             replace (window data pos (length l * bsize t)) with e1; [exact P2|].
             unfold window. rewrite E1, <- P1, firstn_app, firstn_all, Nat.sub_diag, firstn_O.
             now rewrite app_nil_r.
          -- destruct K2 as [[-> K2]| ->]; [rewrite skipn_length in K2; lia|]. split; auto.
      + cbn [fst]. destruct FF as [(e1 & e2 & E1 & L & _ & N)|(k & K1 & K2 & K3 & K4)].
        * exfalso. assert (length (skipn pos data) = length (e1 ++ e2)) by congruence.
          rewrite skipn_length, app_length in *. lia.
        * split.
          -- exists k. split; [exact K1|]. destruct K2 as [[-> _]|K2]; [now left|right; auto].
          -- intros _ k' Hk'. apply K3 in Hk' as ->. destruct K2 as [[-> _]|K2]; [now left|right; auto].
  Qed.

  Lemma judged_elems (b : bool) rec t l pos :
    wf G t = true -> plain t = true -> is_empty t = false -> (b = true -> as_bytes c t = true) ->
    acc t (des_ty G c data rec t) -> jud t (des_ty G c data rec t) -> (pos <= length data)%nat ->
    forallb (fun x => wt G x t) l = true ->
    judged (element_fails (length l) t (skipn pos data))
      (fst (fst (des_elems c data b (des_ty G c data rec t) t l pos))).
  Proof.
    intros Hw Hpl He Hb Hf Hj Hp Hl. unfold des_elems. destruct b.
    - specialize (Hb eq_refl). assert (Hfl : flat t) by (repeat split; auto; eapply as_bytes_bs; eauto).
      pose proof (judged_bytes t l pos Hfl Hw Hb Hp) as J. now destruct (des_bytes _ _ _ _ _ _) as [[r x] p].
    - pose proof (judged_all _ t Hw Hf Hj l pos Hp Hl) as J. now destruct (des_all _ l pos) as [[r x] p].
  Qed.
End Loops.

Section JudgeType.
  Variables (G : tenv) (c : cfg) (data : list byte).
  Hypothesis (HG : wf_env G) (Hds : wfsz (Some (dsize c)) = true) (Hsm : small data).
  Hypothesis Hsz : forall t, wf G t = true -> 0 < csizeof c t.
  Notation o := (fmt_of c).
  Notation fails := (fails G o (alim c) (csizeof c)).
  Notation part_fails := (part_fails G o (alim c) (csizeof c)).
  Notation element_fails := (element_fails G o (alim c) (csizeof c)).
  Notation acc := (acc G c data).
  Notation jud := (jud G c data).

  Variable rec : nat -> val -> nat -> dres.
  Hypothesis (Hacc : forall k, acc (TRec k) (rec k)) (Hjud : forall k, jud (TRec k) (rec k)).

  Definition good (t : ty) : Prop :=
    wf G t = true /\ tall (own_extent c) t = true /\ tall (delimited c) t = true /\ plain t = true.

  Lemma over_limit_exceeds t n : wf G t = true ->
    over_limit c t n = true <-> exceeds (alim c) (csizeof c t) n.
  Proof.
    intro Hw. unfold over_limit, exceeds. destruct (alim c) as [L|]; [|split; [discriminate|intros []]].
    specialize (Hsz t Hw). rewrite N.ltb_lt. split; intro H.
    - rewrite N.mul_comm. pose proof (N.mul_succ_div_gt L (csizeof c t) ltac:(lia)). nia.
    - apply N.div_lt_upper_bound; lia.
  Qed.

  Definition vec_fails2 (t : ty) (n : N) (e : list byte) (k : fault) : Prop :=
    exceeds (alim c) (csizeof c t) n /\ k = TooMany
    \/ ~ exceeds (alim c) (csizeof c t) n /\ element_fails (N.to_nat n) t e k.

  Lemma vec_two s cg t :
    two_parts (size_is o s) (size_fails o s) (vec_fails2 t) (fails (TVec s cg t)).
  Proof.
    intros e k. split.
    - intro H. inversion H; subst; [now left|right..]; do 3 eexists; split; try reflexivity;
        (split; [eassumption|]); [now left|now right].
    - intros [H|(e1 & e2 & n & -> & H1 & [[H2 ->]|[H2 H3]])]; [now apply F_vec_size|..].
      + eapply F_vec_limit; eauto.
      + eapply F_vec; eauto.
  Qed.

  Lemma assoc_two s a t :
    two_parts (size_is o s) (size_fails o s) (fun n => element_fails (N.to_nat n) t) (fails (TAssoc s a t)).
  Proof.
    intros e k. split.
    - intro H. inversion H; subst; [now left|right]. do 3 eexists. split; [reflexivity|]. split; eassumption.
    - intros [H|(e1 & e2 & n & -> & H1 & H2)]; [now apply F_assoc_size|]. eapply F_assoc; eauto.
  Qed.

  Lemma view_two s :
    two_parts (size_is o s) (size_fails o s)
      (fun n e k => N.of_nat (length e) < n /\ k = Short) (fails (TView (VwSized s))).
  Proof.
    intros e k. split.
    - intro H. inversion H; subst; [now left|right]. do 3 eexists. split; [reflexivity|].
      split; [eassumption|auto].
    - intros [H|(e1 & e2 & n & -> & H1 & H2 & ->)]; [now apply F_view_size|]. eapply F_view; eauto.
  Qed.

  Definition flag_fails (e : list byte) (k : fault) : Prop := (length e < 1)%nat /\ k = Short.

  Lemma opt_two dc t :
    two_parts flag_is flag_fails (fun n e k => n <> 0 /\ fails t e k) (fails (TOpt dc t)).
  Proof.
    intros e k. split.
    - intro H. inversion H; subst; [left; split; [cbn; lia|reflexivity]|right].
      exists [b], e0, (b2n b). split; [reflexivity|]. split; [now exists b|]. split; [|assumption].
      rewrite b2n_zero. assumption.
    - intros [[H ->]|(e1 & e2 & n & -> & (b & -> & ->) & H1 & H2)].
      + destruct e; [constructor|cbn in H; lia].
      + cbn [app]. apply F_opt; [|exact H2]. now rewrite b2n_zero in H1.
  Qed.

  Lemma optptr_two t :
    two_parts flag_is flag_fails (fun n e k => n <> 0 /\ fails t e k) (fails (TOptPtr t)).
  Proof.
    intros e k. split.
    - intro H. inversion H; subst; [left; split; [cbn; lia|reflexivity]|right].
      exists [b], e0, (b2n b). split; [reflexivity|]. split; [now exists b|]. split; [|assumption].
      rewrite b2n_zero. assumption.
    - intros [[H ->]|(e1 & e2 & n & -> & (b & -> & ->) & H1 & H2)].
      + destruct e; [constructor|cbn in H; lia].
      + cbn [app]. apply F_optptr; [|exact H2]. now rewrite b2n_zero in H1.
  Qed.

  Definition variant_fails2 (meta : list (N * bool)) (alts : list ty) (id : N) (e : list byte) (k : fault) : Prop :=
    ~ In id (map fst meta) /\ k = UnknownId
    \/ exists i dc t, nth_error meta i = Some (id, dc) /\ nth_error alts i = Some t /\ fails t e k.

  Lemma variant_two ik meta alts :
    two_parts (id_is o ik) (fun e k => (length e < idwidth ik)%nat /\ k = Short)
      (variant_fails2 meta alts) (fails (TVariant ik meta alts)).
  Proof.
    intros e k. split.
    - intro H. inversion H; subst.
      + left. split; [destruct ik; assumption|reflexivity].
      + right. do 3 eexists. split; [reflexivity|]. split; [eassumption|]. now left.
      + right. do 3 eexists. split; [reflexivity|]. split; [eassumption|]. right. eauto 6.
    - intros [[H ->]|(e1 & e2 & id & -> & H1 & [[H2 ->]|(i & dc & t & H2 & H3 & H4)])].
      + apply F_id. destruct ik; exact H.
      + eapply F_unknown; eauto.
      + eapply F_variant; eauto.
  Qed.

  Lemma judged_flag pos : (pos <= length data)%nat ->
    judged (flag_fails (skipn pos data)) (fst (fst (des_flag c data pos))).
  Proof. intro Hp. now apply judged_scalar. Qed.

  Lemma judged_inplace dc f wrap cur d prior t pos :
    jud t f -> wt G d t = true -> (forall x, cur = Some x -> wt G x t = true) -> (pos <= length data)%nat ->
    judged (fails t (skipn pos data)) (fst (fst (des_inplace dc f wrap cur d prior pos))).
  Proof.
    intros Hf Hd Hc Hp. unfold des_inplace.
    set (x := match cur with Some x => x | None => d end).
    assert (Hx : wt G x t = true) by (unfold x; destruct cur; auto). destruct dc.
    - pose proof (Hf x pos Hp Hx) as A. destruct (f x pos) as [[r v] p]. exact A.
    - pose proof (Hf d pos Hp Hd) as A. destruct (f d pos) as [[r v] p]. destruct r; exact A.
  Qed.

  Lemma judged_ptr f d prior t pos :
    jud t f -> wt G d t = true -> (pos <= length data)%nat ->
    judged (fails t (skipn pos data)) (fst (fst (des_ptr f d prior pos))).
  Proof.
    intros Hf Hd Hp. unfold des_ptr.
    pose proof (Hf d pos Hp Hd) as A. destruct (f d pos) as [[r v] p]. destruct r; exact A.
  Qed.

  Lemma element_fails_1 t e k : element_fails 1 t e k <-> fails t e k.
  Proof.
    rewrite (element_fails_S G c 0 t e k). split; [|now left].
    intros [H|(e1 & e2 & a & _ & _ & H)]; [exact H|]. exfalso. eapply element_fails_0; eassumption.
  Qed.

  Lemma good_acc t : good t -> acc t (des_ty G c data rec t).
  Proof. intros (? & ? & ? & ?). now apply des_ty_accepted. Qed.

  Lemma members ms : Forall (fun t => good t -> jud t (des_ty G c data rec t)) ms -> Forall good ms ->
    Forall (fun m => wf G m = true /\ acc m (des_ty G c data rec m) /\ jud m (des_ty G c data rec m)) ms.
  Proof.
    rewrite !Forall_forall. intros H1 H2 m Hin. specialize (H2 m Hin). split; [apply H2|].
    split; [now apply good_acc|auto].
  Qed.

  Lemma des_ty_judged t : good t -> jud t (des_ty G c data rec t).
  Proof.
    induction t using ty_ind'; intros (Hw & Hx & Hdl & Hpl) prior pos Hp Hpr.
    - (* scalar *)
      cbn [des_ty].
      pose proof (judged_scalar c data Hsm w (match prior with VN n => n | _ => 0 end) pos Hp) as J.
      destruct (des_scalar c data w _ pos) as [[r n] p]. cbn [nres fst] in *.
      eapply judged_iff; [|exact J]. intro k. split; [intros [H ->]; now constructor|].
      intro H. inversion H; subst. auto.
    - (* bool *)
      cbn [des_ty]. rewrite des_scalar_eq by assumption.
      destruct (Nat.leb_spec (pos + 1) (length data)) as [H|H].
      + destruct (skipn pos data) as [|b e] eqn:E.
        { assert (length (skipn pos data) = 0%nat) by now rewrite E. rewrite skipn_length in *. lia. }
        unfold window. rewrite E. cbn [firstn]. rewrite scalar_val_word, word_1.
        destruct (N.ltb_spec (b2n b) 2); cbn [fst].
        * intros k K. inversion K; subst. lia.
        * split; [now constructor|]. intros k K. now inversion K.
      + cbn [fst]. rewrite skipn_all2 by lia. apply (judged_one _ Short); [reflexivity|constructor|].
        intros k K. now inversion K.
    - (* varint *)
      cbn [des_ty wf] in *.
      pose proof (judged_varint data w zz (match prior with VN n => n | _ => 0 end) pos Hw Hp) as J.
      destruct (des_varint w zz _ data pos) as [[r n] p]. cbn [nres fst] in *.
      eapply judged_iff; [|exact J]. intro k. split; [now constructor|]. intro H. now inversion H.
    - (* empty *) cbn [des_ty fst]. intros k H. inversion H.
    - (* struct *)
      assert (Hms : Forall good ms).
      { cbn [wf] in Hw. rewrite !andb_true_iff in Hw. destruct Hw as [[_ Hw] _].
        unfold plain in Hpl. cbn [tall] in Hx, Hdl, Hpl.
        apply andb_true_iff in Hx as [_ Hx]. apply andb_true_iff in Hdl as [_ Hdl].
        apply andb_true_iff in Hpl as [_ Hpl]. rewrite forallb_forall in Hw, Hx, Hdl, Hpl.
        rewrite Forall_forall. intros m Hin. repeat split; auto. }
      cbn [des_ty]. destruct (negb (s_expl si) && is_empty (TStruct si ms)) eqn:Ee.
      { apply andb_true_iff in Ee as [_ Ee]. destruct ms; [|discriminate]. cbn [fst].
        intros k H0. inversion H0; subst. eapply part_fails_nil; eassumption. }
      destruct (as_bytes c (TStruct si ms)) eqn:Ea.
      + assert (Hb : bs (TStruct si ms) = true) by now apply as_bytes_bs in Ea.
        assert (Hfl : flat (TStruct si ms)) by (repeat split; auto; now apply bs_not_empty_struct).
        pose proof (judged_bytes G c data HG Hsm (TStruct si ms) [prior] pos Hfl Hw Ea Hp) as J.
        cbn [length] in J. rewrite des_bytes_eq in * by assumption.
        eapply judged_iff in J; [|apply element_fails_1].
        destruct (1 * bsize (TStruct si ms) =? 0)%nat; [exact J|].
        destruct (pos + 1 * bsize (TStruct si ms) <=? length data)%nat; [|exact J].
        destruct (parse_all _ _ _ _) as [vs|] eqn:Ep; [|exact J].
        destruct vs as [|v [|]]; exact J.
      + destruct prior as [|l| | | | | |]; try discriminate. cbn [as_seq wt] in *.
        pose proof (judged_many G c data HG (des_ty G c data rec) ms (members ms H Hms) l pos Hp Hpr) as J.
        destruct (des_many _ ms l pos) as [[r x] p]. cbn [seq_res fst] in *.
        eapply judged_iff; [|exact J]. intro k. split; [now constructor|]. intro K. now inversion K.
    - cbn [des_ty]. now apply Hjud.
    - (* array *)
      destruct prior as [|l| | | | | |]; try discriminate. cbn [des_ty as_seq wt] in *.
      apply andb_true_iff in Hpr as [Hn Hpr]. apply Nat.eqb_eq in Hn. subst n.
      cbn [wf] in Hw. apply andb_true_iff in Hw as [_ Hw].
      unfold plain in Hpl. cbn [tall elem_ok] in Hx, Hdl, Hpl.
      apply andb_true_iff in Hx as [_ Hx]. apply andb_true_iff in Hdl as [_ Hdl].
      apply andb_true_iff in Hpl as [Hem Hpl]. apply negb_true_iff in Hem.
      assert (Hg : good t) by (repeat split; auto).
      pose proof (judged_elems G c data HG Hsm (as_bytes c t) rec t l pos Hw Hpl Hem (fun e => e)
        (good_acc t Hg) (IHt Hg) Hp Hpr) as J.
      eapply judged_iff; [|exact J]. intro k. split; [now constructor|]. intro K. now inversion K.
    - (* tuple *)
      destruct prior as [|l| | | | | |]; try discriminate. cbn [des_ty as_seq wt wf] in *.
      unfold plain in Hpl. cbn [tall] in Hx, Hdl, Hpl.
      apply andb_true_iff in Hx as [_ Hx]. apply andb_true_iff in Hdl as [_ Hdl].
      apply andb_true_iff in Hpl as [_ Hpl]. rewrite forallb_forall in Hw, Hx, Hdl, Hpl.
      assert (Hms : Forall good ts) by (rewrite Forall_forall; intros m Hin; repeat split; auto).
      pose proof (judged_many G c data HG (des_ty G c data rec) ts (members ts H Hms) l pos Hp Hpr) as J.
      destruct (des_many _ ts l pos) as [[r x] p]. cbn [seq_res fst] in *.
      eapply judged_iff; [|exact J]. intro k. split; [now constructor|]. intro K. now inversion K.
    - (* vec *)
      destruct prior as [|l| | | | | |]; try discriminate. cbn [des_ty as_seq wt] in *.
      cbn [wf] in Hw. apply andb_true_iff in Hw as [Hs Hw].
      unfold plain in Hpl. cbn [tall elem_ok own_extent] in Hx, Hdl, Hpl.
      apply andb_true_iff in Hx as [Hnn Hx]. apply andb_true_iff in Hdl as [_ Hdl].
      apply andb_true_iff in Hpl as [Hem Hpl]. apply negb_true_iff in Hem.
      assert (Hns : sz_of c s <> SzNone) by (intro E; rewrite E in Hnn; discriminate).
      apply (wfsz_sz_of c _ Hds) in Hs.
      pose proof (size_accepted data c Hsm s pos Hs Hns Hp) as A.
      pose proof (judged_size c data Hsm s pos Hs Hns Hp) as J1.
      assert (Hg : good t) by (repeat split; auto).
      assert (L : judged (fails (TVec s cg t) (skipn pos data)) (fst (fst
        match des_size c data (sz_of c s) pos with
            | (ROk, n, pos') =>
                match vec_resize G c t n l with
                | (ROk, l) => des_elems c data (as_bytes c t && cg) (des_ty G c data rec t) t l pos'
                | (r, l) => (r, VSeq l, pos')
                end
            | (r, _, pos') => (r, VSeq l, pos')
            end))).
      { destruct (des_size c data (sz_of c s) pos) as [[r n] p]; cbn [fst] in J1; destruct r;
          try (cbn [fst]; eapply judged_fail1; [apply vec_two|exact Hp|discriminate|exact A|exact J1]).
        destruct A as (e1 & E1 & -> & S1). pose proof (has_at_le _ _ _ E1) as Hle.
        eapply judged_then with (1 := vec_two s cg t) (2 := size_unique o s); eauto.
        destruct (vec_resize G c t n l) as [r l'] eqn:Ev.
        pose proof (vec_resize_wt G c true true HG t n l r l' Hw Hpr Ev) as (V1 & _ & V2).
        unfold vec_resize in Ev. pose proof (over_limit_exceeds t n Hw) as OL.
        destruct (over_limit c t n); [injection Ev as <- <-; cbn [fst]|].
        - split; [exists TooMany; split; [left; split; [now apply OL|reflexivity]|now left]|].
          intro K. congruence.
        - assert (NE : ~ exceeds (alim c) (csizeof c t) n) by (intro K; apply OL in K; discriminate).
          destruct (_ || _); injection Ev as <- <-; [|exact I].
          specialize (V2 eq_refl).
          pose proof (judged_elems G c data HG Hsm (as_bytes c t && cg) rec t (vresize (dflt G t) (N.to_nat n) l)
            (pos + length e1) Hw Hpl Hem
            (fun e => proj1 (proj1 (andb_true_iff _ _) e)) (good_acc t Hg) (IHt Hg) Hle V1) as J.
          rewrite V2 in J. eapply judged_iff; [|exact J]. intro k. unfold vec_fails2. tauto. }
      destruct (sz_of c s); [congruence|exact L..].
    - (* assoc *)
      destruct prior as [|l| | | | | |]; try discriminate. cbn [des_ty as_seq wt] in *.
      cbn [wf] in Hw. apply andb_true_iff in Hw as [Hs Hw].
      unfold plain in Hpl. cbn [tall elem_ok own_extent andb] in Hx, Hdl, Hpl.
      apply andb_true_iff in Hx as [Hnn Hx]. apply andb_true_iff in Hdl as [_ Hdl].
      assert (Hns : sz_of c s <> SzNone) by (intro E; rewrite E in Hnn; discriminate).
      apply (wfsz_sz_of c _ Hds) in Hs.
      pose proof (size_accepted data c Hsm s pos Hs Hns Hp) as A.
      pose proof (judged_size c data Hsm s pos Hs Hns Hp) as J1.
      assert (Hg : good t) by (repeat split; auto).
      assert (L : judged (fails (TAssoc s k t) (skipn pos data)) (fst (fst
        match des_size c data (sz_of c s) pos with
        | (ROk, n, pos') =>
            seq_res (des_assoc (des_ty G c data rec t) (assoc_insert k) (dflt G t) (N.to_nat n) [] pos')
        | (r, _, pos') => (r, VSeq l, pos')
        end))).
      { destruct (des_size c data (sz_of c s) pos) as [[r n] p]; cbn [fst] in J1; destruct r;
          try (cbn [fst]; eapply judged_fail1; [apply assoc_two|exact Hp|discriminate|exact A|exact J1]).
        destruct A as (e1 & E1 & -> & S1). pose proof (has_at_le _ _ _ E1) as Hle.
        eapply judged_then with (1 := assoc_two s k t) (2 := size_unique o s); eauto.
        pose proof (judged_assoc G c data HG (des_ty G c data rec t) t (assoc_insert k) (dflt G t) Hw
          (good_acc t Hg) (IHt Hg) (wt_dflt G t HG Hw) (N.to_nat n) [] (pos + length e1)%nat Hle) as J.
        destruct (des_assoc _ _ _ _ _ _) as [[r x] p]. exact J. }
      destruct (sz_of c s); [congruence|exact L..].
    - (* opt *)
      cbn [des_ty wf] in *. unfold plain in Hpl. cbn [tall elem_ok andb] in Hx, Hdl, Hpl.
      apply andb_true_iff in Hx as [_ Hx]. apply andb_true_iff in Hdl as [_ Hdl].
      assert (Hg : good t) by (repeat split; auto).
      pose proof (flag_accepted c data Hsm pos Hp) as A. pose proof (judged_flag pos Hp) as J1.
      destruct (des_flag c data pos) as [[r n] p]; cbn [fst] in J1; destruct r;
        try (cbn [fst]; eapply judged_fail1; [apply opt_two|exact Hp|discriminate|exact A|exact J1]).
      destruct A as (e1 & E1 & -> & b & -> & ->). pose proof (has_at_le _ _ _ E1) as Hle.
      eapply judged_then with (1 := opt_two dc t) (2 := flag_unique) (3 := E1) (a := b2n b);
        [now exists b|exact J1|]. destruct (b2n b) as [|q] eqn:Eb.
      + intros k [K _]. congruence.
      + eapply judged_iff; [|apply (judged_inplace dc (des_ty G c data rec t) VSome (opt_cur prior) (dflt G t) prior t);
          auto using wt_dflt].
        * intro k. split; [intro K; split; [discriminate|exact K]|now intros [_ K]].
        * intros x Hc. destruct prior; try discriminate. cbn [opt_cur] in Hc. injection Hc as <-. exact Hpr.
    - (* optptr *)
      cbn [des_ty wf] in *. unfold plain in Hpl. cbn [tall elem_ok andb] in Hx, Hdl, Hpl.
      apply andb_true_iff in Hx as [_ Hx]. apply andb_true_iff in Hdl as [_ Hdl].
      assert (Hg : good t) by (repeat split; auto).
      pose proof (flag_accepted c data Hsm pos Hp) as A. pose proof (judged_flag pos Hp) as J1.
      destruct (des_flag c data pos) as [[r n] p]; cbn [fst] in J1; destruct r;
        try (cbn [fst]; eapply judged_fail1; [apply optptr_two|exact Hp|discriminate|exact A|exact J1]).
      destruct A as (e1 & E1 & -> & b & -> & ->). pose proof (has_at_le _ _ _ E1) as Hle.
      eapply judged_then with (1 := optptr_two t) (2 := flag_unique) (3 := E1) (a := b2n b);
        [now exists b|exact J1|]. destruct (b2n b) as [|q] eqn:Eb.
      + intros k [K _]. congruence.
      + eapply judged_iff; [|apply (judged_ptr (des_ty G c data rec t) (dflt G t) prior t); auto using wt_dflt].
        intro k. split; [intro K; split; [discriminate|exact K]|now intros [_ K]].
    - (* ptr *)
      cbn [des_ty wf] in *. unfold plain in Hpl. cbn [tall elem_ok andb] in Hx, Hdl, Hpl.
      apply andb_true_iff in Hx as [_ Hx]. apply andb_true_iff in Hdl as [_ Hdl].
      assert (Hg : good t) by (repeat split; auto).
      eapply judged_iff; [|apply (judged_ptr (des_ty G c data rec t) (dflt G t) prior t); auto using wt_dflt].
      intro k. split; [now constructor|]. intro K. now inversion K.
    - (* variant *)
      rewrite des_variant_eq. unfold plain in Hpl. cbn [tall elem_ok andb] in Hx, Hdl, Hpl.
      apply andb_true_iff in Hx as [_ Hx]. apply andb_true_iff in Hdl as [_ Hdl].
      cbn [wf] in Hw. rewrite !andb_true_iff in Hw. destruct Hw as [[[[_ Hlen] Hd] _] Hw].
      rewrite forallb_forall in Hw, Hx, Hdl, Hpl. rewrite Forall_forall in H.
      pose proof (id_accepted data c Hsm ik pos Hp) as A.
      pose proof (judged_id c data Hsm ik pos Hp) as J1.
      destruct (des_id c data ik pos) as [[r n] p]; cbn [fst] in J1; destruct r;
        try (cbn [fst]; eapply judged_fail1; [apply variant_two|exact Hp|discriminate|exact A|exact J1]).
      destruct A as (e1 & E1 & -> & S1). pose proof (has_at_le _ _ _ E1) as Hle.
      eapply judged_then with (1 := variant_two ik meta alts) (2 := id_unique o ik); eauto.
      destruct (find_id meta n) as [i|] eqn:Ei.
      + destruct (find_id_some _ _ _ Ei) as [dc Hm]. rewrite Hm.
        destruct (nth_error alts i) as [t|] eqn:Ea.
        2:{ exfalso. apply nth_error_None in Ea. apply Nat.eqb_eq in Hlen.
            assert (i < length meta)%nat by (apply nth_error_Some; congruence). lia. }
        pose proof (nth_error_In _ _ Ea) as Hin.
        assert (Hg : good t) by (repeat split; auto).
        eapply judged_iff; [|apply (judged_inplace dc (des_ty G c data rec t) (VAlt i) (active i prior) (dflt G t) prior t);
          auto using wt_dflt].
        * intro k. split; [intro K; right; eauto 6|]. intros [[K _]|(j & dc' & t' & K1 & K2 & K3)].
          -- exfalso. apply K. apply nth_error_In in Hm. apply (in_map fst) in Hm. exact Hm.
          -- pose proof (distinct_nth _ _ _ _ _ _ Hd Hm K1) as <-. congruence.
        * intros x Hc. destruct prior; try discriminate. cbn [active] in Hc.
          destruct (Nat.eqb_spec i i0) as [->|]; [|discriminate]. injection Hc as <-.
          cbn [wt] in Hpr. now rewrite Ea in Hpr.
      + cbn [fst]. apply find_id_none in Ei. apply (judged_one _ UnknownId); [reflexivity|now left|].
        intros k [[_ ->]|(j & dc' & t' & K1 & _)]; [reflexivity|].
        exfalso. apply Ei. apply nth_error_In in K1. apply (in_map fst) in K1. exact K1.
    - (* bitset *)
      cbn [des_ty]. unfold des_bitset. rewrite remaining_small by assumption. unfold bitset_bytes.
      assert (E : length (skipn pos data) = (length data - pos)%nat) by apply skipn_length.
      destruct (N.ltb_spec (N.of_nat (length data - pos)) (N.of_nat ((n + 7) / 8))) as [Hl|Hl].
      + apply (judged_one _ Short); [reflexivity|constructor; lia|]. intros k K. now inversion K.
      + rewrite load_some by lia. cbn [fst]. intros k K. inversion K; subst. lia.
    - (* view *)
      destruct k as [s|n|]; cbn [des_ty].
      + cbn [wf tall delimited] in *. apply andb_true_iff in Hdl as [Hnn _].
        assert (Hns : sz_of c s <> SzNone) by (intro E; rewrite E in Hnn; discriminate).
        apply (wfsz_sz_of c _ Hds) in Hw.
        pose proof (size_accepted data c Hsm s pos Hw Hns Hp) as A.
        pose proof (judged_size c data Hsm s pos Hw Hns Hp) as J1.
        destruct (des_size c data (sz_of c s) pos) as [[r n] p]; cbn [fst] in J1; destruct r;
          try (cbn [fst]; eapply judged_fail1; [apply view_two|exact Hp|discriminate|exact A|exact J1]).
        destruct A as (e1 & E1 & -> & S1). pose proof (has_at_le _ _ _ E1) as Hle.
        eapply judged_then with (1 := view_two s) (2 := size_unique o s); eauto.
        assert (E : length (skipn (pos + length e1) data) = (length data - (pos + length e1))%nat)
          by apply skipn_length.
        assert (L : judged (fun k => N.of_nat (length (skipn (pos + length e1) data)) < n /\ k = Short) (fst (fst
          (if remaining data (pos + length e1) <? n then (RErr result_out_of_range, prior, (pos + length e1)%nat)
                else match load data (pos + length e1) (N.to_nat n) with
                     | Some e => (ROk, VBytes e, (pos + length e1 + N.to_nat n)%nat)
                     | None => (RUB, prior, (pos + length e1)%nat)
                     end)))).
        { rewrite remaining_small by assumption. rewrite E.
          destruct (N.ltb_spec (N.of_nat (length data - (pos + length e1))) n) as [Hl|Hl].
          - apply (judged_one _ Short); [reflexivity|auto|]. now intros k [_ ->].
          - rewrite load_some by lia. cbn [fst]. intros k [K _]. lia. }
        destruct (sz_of c s); [congruence|exact L..].
      + rewrite remaining_small by assumption.
        assert (E : length (skipn pos data) = (length data - pos)%nat) by apply skipn_length.
        destruct (N.ltb_spec (N.of_nat (length data - pos)) (N.of_nat n)) as [Hl|Hl].
        * apply (judged_one _ Short); [reflexivity|constructor; lia|]. intros k K. now inversion K.
        * rewrite load_some by lia. cbn [fst]. intros k K. inversion K; subst. lia.
      + cbn [tall delimited] in Hdl. discriminate.
    - cbn [tall own_extent] in Hx. discriminate.
  Qed.
End JudgeType.

Section JudgeCall.
  Variables (G : tenv) (c : cfg) (data : list byte) (ts : list ty).
  Hypothesis (HS : self_describing G c ts) (Hsm : small data).
  Hypothesis Hsz : forall t, 0 < abi c t.

  Lemma csizeof_pos t : wf G t = true -> 0 < csizeof c t.
  Proof.
    intro Hw. unfold csizeof. destruct (bs t) eqn:E; [|apply Hsz].
    pose proof (bs_bsize_pos G t Hw E). lia.
  Qed.

  Lemma good_members k : Forall (good G c) (t_mems G k).
  Proof.
    destruct HS as [HG _ _ _ H1 _ H2 _ H3]. destruct (HG k) as [Hw _].
    specialize (H1 k). specialize (H2 k). specialize (H3 k). rewrite forallb_forall in Hw, H1, H2, H3.
    rewrite Forall_forall. intros m Hin. repeat split; auto.
  Qed.

  Lemma rec_accepted fuel k : acc G c data (TRec k) (des_rec G c data fuel k).
  Proof. destruct HS. now apply des_rec_accepted. Qed.

  Lemma rec_judged fuel k : jud G c data (TRec k) (des_rec G c data fuel k).
  Proof.
    revert k. induction fuel as [|f IH]; intros k prior pos Hp Hpr; cbn [des_rec]; [exact I|].
    destruct prior as [|l| | | | | |]; try discriminate. cbn [as_seq wt] in *.
    pose proof HS as [HG Hds _ _ _ _ _ _ _].
    pose proof (judged_many G c data HG (des_ty G c data (des_rec G c data f)) (t_mems G k)) as J.
    assert (M : Forall (fun m => wf G m = true /\ acc G c data m (des_ty G c data (des_rec G c data f) m)
                /\ jud G c data m (des_ty G c data (des_rec G c data f) m)) (t_mems G k)).
    { apply members; auto using rec_accepted, good_members.
      rewrite Forall_forall. intros m _. apply des_ty_judged; auto using rec_accepted, csizeof_pos. }
    specialize (J M l pos Hp Hpr). destruct (des_many _ _ l pos) as [[r x] p]. cbn [seq_res fst] in *.
    eapply judged_iff; [|exact J]. intro i. split; [now constructor|]. intro K. now inversion K.
  Qed.

  Lemma call_judged fuel priors pos : (pos <= length data)%nat -> wt G (VSeq priors) (TTuple ts) = true ->
    judged (part_fails G (fmt_of c) (alim c) (csizeof c) ts (skipn pos data))
      (fst (fst (in_call G c data fuel ts priors pos))).
  Proof.
    intros Hp Hpr. pose proof HS as [HG Hds Hw Hx _ Hd _ Hl _]. unfold in_call.
    apply (judged_many G c data HG); auto. rewrite forallb_forall in Hw, Hx, Hd, Hl.
    apply members; auto using rec_accepted.
    - rewrite Forall_forall. intros m _. apply des_ty_judged; auto using rec_accepted, rec_judged, csizeof_pos.
    - rewrite Forall_forall. intros m Hin. repeat split; auto.
  Qed.
End JudgeCall.

(** ** C67 *)

(** Reading succeeds exactly when nothing is wrong with the input, and otherwise each error code
    is returned exactly when its cause is the first thing wrong; exceeding the allocation limit
    is noticed before anything that follows it.  (Unless memory or stack run out, and provided
    there is no bool other than 0 and 1.) *)
Theorem in_error_exact G c data fuel ts priors pos r vs p :
  self_describing G c ts -> small data -> (forall t, 0 < abi c t) -> (pos <= length data)%nat ->
  wt G (VSeq priors) (TTuple ts) = true ->
  in_call G c data fuel ts priors pos = (r, vs, p) -> r <> RThrow -> r <> RStack ->
  let F := part_fails G (fmt_of c) (alim c) (csizeof c) ts (skipn pos data) in
  ~ F BadBool ->
  (r = ROk <-> forall k, ~ F k)
  /\ (r = RErr message_size <-> F TooMany)
  /\ (forall k e, k <> TooMany -> code k = Some e -> (r = RErr e <-> F k /\ ~ F TooMany)).
Proof.
  intros HS Hsm Hsz Hp Hw E N1 N2 F NB.
  pose proof (call_judged G c data ts HS Hsm Hsz fuel priors pos Hp Hw) as J. rewrite E in J.
  cbn [fst] in J. fold F in J. destruct r as [|e| | |]; try congruence; cbn [judged] in J.
  - split; [split; [intros _; exact J|reflexivity]|]. split.
    + split; [discriminate|]. intro H. destruct (J _ H).
    + intros k e _ _. split; [discriminate|]. intros [H _]. destruct (J _ H).
  - destruct J as [(k & Hk & Hn) J]. assert (Hc : code k = Some e) by (destruct Hn as [|[-> _]]; [assumption|now destruct NB]).
    assert (J' : e <> message_size -> forall k, F k -> code k = Some e).
    { intros He k' Hk'. destruct (J He k' Hk') as [|[-> _]]; [assumption|now destruct NB]. }
    clear J Hn. split; [split; [discriminate|intro H; destruct (H k Hk)]|]. split.
    + split; [intros [= ->]; destruct k; try discriminate; exact Hk|].
      intro H. assert (D : e = message_size \/ e <> message_size) by (destruct e; auto; right; discriminate).
      destruct D as [->|D]; [reflexivity|]. apply (J' D) in H. cbn [code] in H. congruence.
    + intros k' e' Hne Hc'. split.
      * intros [= ->]. assert (k' = k) by (destruct k, k'; cbn [code] in *; congruence). subst k'.
        split; [exact Hk|]. intro H. assert (D : e' <> message_size) by (destruct k; cbn [code] in *; congruence).
        apply (J' D) in H. cbn [code] in H. congruence.
      * intros [H1 H2]. assert (D : e <> message_size) by (intros ->; apply H2; destruct k; try discriminate; exact Hk).
        apply (J' D) in H1. congruence.
  - destruct J as [J _]. now destruct NB.
Qed.

(** No other error code is ever returned, with or without bad bools, and a bad bool is undefined
    behaviour or hides behind a length check. *)
Theorem in_error_codes G c data fuel ts priors pos e vs p :
  self_describing G c ts -> small data -> (forall t, 0 < abi c t) -> (pos <= length data)%nat ->
  wt G (VSeq priors) (TTuple ts) = true ->
  in_call G c data fuel ts priors pos = (RErr e, vs, p) ->
  exists k, part_fails G (fmt_of c) (alim c) (csizeof c) ts (skipn pos data) k
    /\ (code k = Some e \/ k = BadBool /\ e = result_out_of_range).
Proof.
  intros HS Hsm Hsz Hp Hw E.
  pose proof (call_judged G c data ts HS Hsm Hsz fuel priors pos Hp Hw) as J. rewrite E in J.
  exact (proj1 J).
Qed.

(** The demo structure and a bitset read through an archive with a limit of 6 bytes per
    container; each list of bytes goes wrong in a different way. *)
Lemma limit_self_describing : self_describing node_env (limit_cfg 6) [demo_ty; TBitset 11].
Proof.
  constructor; try (vm_compute; reflexivity).
  - apply demo_wf_env.
  - intros [|k]; reflexivity.
  - intros [|k]; reflexivity.
  - intros [|k]; reflexivity.
Qed.

Definition demo_start : list byte :=
  [x04; x03; x02; x01;  x01; x00; x02; x00; x03; x00; x04; x00].
Definition limit_read (e : list byte) : res :=
  fst (fst (in_call node_env (limit_cfg 6) e 9 [demo_ty; TBitset 11] [demo_default; VBits (repeat false 11)] 0)).

Example in_error_exact_nontrivial :
  let fine := [x02; x00; x00; x00; x05; x00; x06; x00] in
  let runs := [ (demo_start ++ fine ++ [x00; x01; x4d; x00], result_out_of_range);
                (demo_start ++ [x04; x00; x00; x00], message_size);
                (demo_start ++ fine ++ [x00; x02], bad_message);
                (demo_start ++ fine ++ x01 :: repeat xff 10, value_too_large) ] in
  self_describing node_env (limit_cfg 6) [demo_ty; TBitset 11]
  /\ (forall t, 0 < abi (limit_cfg 6) t)
  /\ wt node_env (VSeq [demo_default; VBits (repeat false 11)]) (TTuple [demo_ty; TBitset 11]) = true
  /\ (forall e k, In (e, k) runs -> small e /\ limit_read e = RErr k)
  /\ limit_read (demo_start ++ fine ++ [x00; x00; x4d; x00; x08; x00; x01; x00]) = ROk.
Proof.
  cbv zeta. split; [apply limit_self_describing|]. split; [reflexivity|]. split; [reflexivity|].
  split; [|vm_compute; reflexivity].
  intros e k H. repeat (destruct H as [[= <- <-]|H]; [split; vm_compute; reflexivity|]). destruct H.
Qed.

(** Without the condition on bools the codes are not exact: an array of two bools is copied in
    one piece, so that its missing second byte is reported although the first byte already is
    no bool. *)
Theorem in_error_bad_bool_refuted :
  exists G c data ts, self_describing G c ts /\ small data /\ (forall t, 0 < abi c t)
    /\ fst (fst (in_call G c data 1 ts [VSeq [VN 0; VN 0]] 0)) = RErr result_out_of_range
    /\ ~ part_fails G (fmt_of c) (alim c) (csizeof c) ts data Short
    /\ part_fails G (fmt_of c) (alim c) (csizeof c) ts data BadBool.
Proof.
  exists node_env, vec_cfg, [x02], [TArray 2 TBool].
  split; [|split; [|split; [|split; [|split]]]]; try (vm_compute; reflexivity).
  - constructor; try (vm_compute; reflexivity).
    + apply demo_wf_env.
    + intros [|k]; reflexivity.
    + intros [|k]; reflexivity.
    + intros [|k]; reflexivity.
  - intro H. inversion H as [? ? ? ? K|? ? ? ? ? ? K1 K2]; subst; [|inversion K2].
    inversion K as [| | | | | | |? ? ? ? L| | | | | | | | | | | | | | | | |]; subst.
    inversion L as [? ? ? ? M|? ? e1 e2 ? ? M1 M2 E]; subst; [inversion M|].
    assert (Q : length e1 = 1%nat /\ word (fmt_of vec_cfg) e1 < 2) by (inversion M1; auto). destruct Q as [Q1 Q2].
    destruct e1 as [|b [|]]; try discriminate Q1. match goal with H : [b] ++ _ = _ |- _ => injection H as -> _ end. vm_compute in Q2. discriminate Q2.
  - constructor. constructor. constructor. constructor. vm_compute. discriminate.
Qed.

Print Assumptions in_error_exact.
Print Assumptions in_error_codes.
