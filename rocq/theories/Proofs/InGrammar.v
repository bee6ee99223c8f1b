(** Readers accept exactly the language of Spec/Grammar.v. *)

From Coq Require Import List NArith ZArith Lia Bool Arith.
From Coq Require Import ZifyBool ZifyNat ZifyN.
From Verif Require Import Base.Bytes Model.Types Model.Machine Model.Varint Model.Out Model.In
  Spec.Leb128 Spec.Wire Spec.Grammar Proofs.VarintP Proofs.OutP Proofs.InBase Proofs.InSafe
  Proofs.InLocal Proofs.InPrior Proofs.InRound Proofs.InHost.
Import ListNotations.
Local Open Scope N_scope.

Ltac Zify.zify_post_hook ::= Z.div_mod_to_equations.

(** ** A representation is determined by its beginning *)

(** Two representations at the beginning of the same bytes are the same and mean the same. *)
Definition unique_prefix {A} (D : list byte -> A -> Prop) : Prop :=
  forall e r v e' r' v', e ++ r = e' ++ r' -> D e v -> D e' v' -> e = e' /\ v = v'.

Lemma app_same_length {A} (e e' r r' : list A) :
  length e = length e' -> e ++ r = e' ++ r' -> e = e' /\ r = r'.
Proof.
  revert e'. induction e as [|x e IH]; intros [|x' e'] Hl H; try discriminate; cbn [app] in *; auto.
  injection H as -> H. injection Hl as Hl. destruct (IH e' Hl H) as [-> ->]. auto.
Qed.

Lemma base128_unique w : unique_prefix (base128 w).
Proof.
  intros e r n e' r' n' H (m & E & _ & ->) (m' & E' & _ & ->).
  apply (leb_value_app _ r) in E. apply (leb_value_app _ r') in E'. rewrite H, E' in E.
  injection E as <- El. destruct (app_same_length e e' r r'); auto.
Qed.

Lemma word_unique o w : unique_prefix (fun e n => length e = w /\ word o e = n).
Proof.
  intros e r n e' r' n' H (L & <-) (L' & <-).
  destruct (app_same_length e e' r r') as [-> _]; auto. now rewrite L, L'.
Qed.

Lemma size_unique o s : unique_prefix (size_is o s).
Proof.
  intros e r n e' r' n' H. unfold size_is. destruct (match s with Some s => s | None => _ end).
  - intros [].
  - now apply (word_unique o w e r n e' r' n').
  - now apply (base128_unique w e r n e' r' n').
Qed.

Lemma id_unique o k : unique_prefix (id_is o k).
Proof.
  intros e r n e' r' n' H. unfold id_is. destruct k.
  - now apply (word_unique o w e r n e' r' n').
  - intros (L & <-) (L' & <-). destruct (app_same_length e e' r r') as [-> _]; auto.
    now rewrite L, L'.
Qed.

Lemma distinct_nth (meta : list (N * bool)) i j id dc dc' :
  distinct (map fst meta) = true -> nth_error meta i = Some (id, dc) ->
  nth_error meta j = Some (id, dc') -> i = j.
Proof.
  intros Hd Hi Hj. apply (find_id_nth _ _ _ _ Hd) in Hi. apply (find_id_nth _ _ _ _ Hd) in Hj.
  congruence.
Qed.

Section Unique.
  Variables (G : tenv) (o : wfmt).
  Hypothesis HG : wf_env G.

  Lemma app_assoc_eq {A} (a b r a' b' r' : list A) :
    (a ++ b) ++ r = (a' ++ b') ++ r' -> a ++ (b ++ r) = a' ++ (b' ++ r').
  Proof. now rewrite <- !app_assoc. Qed.

  Lemma grammar_unique :
    (forall t e v, denotes G o t e v -> wf G t = true ->
       forall r e' r' v', e ++ r = e' ++ r' -> denotes G o t e' v' -> e = e' /\ v = v') /\
    (forall ts e l, sequence G o ts e l -> forallb (wf G) ts = true ->
       forall r e' r' l', e ++ r = e' ++ r' -> sequence G o ts e' l' -> e = e' /\ l = l') /\
    (forall t e l, elements G o t e l -> wf G t = true ->
       forall r e' r' l', length l = length l' -> e ++ r = e' ++ r' -> elements G o t e' l' ->
         e = e' /\ l = l').
  Proof.
    apply grammar_ind.
    - intros w b e L Hw r e' r' v' H D. inversion D; subst.
      destruct (app_same_length e e' r r') as [-> _]; auto.
    - intros e L Hlt Hw r e' r' v' H D. inversion D; subst.
      destruct (app_same_length e e' r r') as [-> _]; auto. congruence.
    - intros w sg e n B Hw r e' r' v' H D. inversion D; subst.
      destruct (base128_unique w e r n e' r' n0) as [-> ->]; auto.
    - intros w sg e n B Hw r e' r' v' H D. inversion D; subst.
      destruct (base128_unique w e r n e' r' n0) as [-> ->]; auto.
    - intros Hw r e' r' v' H D. inversion D; subst. auto.
    - intros si ms e l _ IH Hw r e' r' v' H D. inversion D; subst. cbn [wf] in Hw.
      rewrite !andb_true_iff in Hw. destruct Hw as [[_ Hw] _].
      destruct (IH Hw r e' r' l0) as [-> ->]; auto.
    - intros k e l _ IH Hw r e' r' v' H D. inversion D; subst.
      destruct (IH (proj1 (HG k)) r e' r' l0) as [-> ->]; auto.
    - intros ts e l _ IH Hw r e' r' v' H D. inversion D; subst. cbn [wf] in Hw.
      destruct (IH Hw r e' r' l0) as [-> ->]; auto.
    - intros t e l _ IH Hw r e' r' v' H D. inversion D; subst. cbn [wf] in Hw.
      apply andb_true_iff in Hw as [_ Hw].
      destruct (IH Hw r e' r' l0) as [-> ->]; auto.
    - intros s cg t e1 e2 l HS _ IH Hw r e' r' v' H D. inversion D; subst. cbn [wf] in Hw.
      apply andb_true_iff in Hw as [_ Hw]. apply app_assoc_eq in H.
      destruct (size_unique o s _ _ _ _ _ _ H HS H5) as [-> En].
      apply app_inv_head in H. destruct (IH Hw r e3 r' l0) as [-> ->]; auto. lia.
    - intros s k t e1 e2 l HS _ IH Hw r e' r' v' H D. inversion D; subst. cbn [wf] in Hw.
      apply andb_true_iff in Hw as [_ Hw]. apply app_assoc_eq in H.
      destruct (size_unique o s _ _ _ _ _ _ H HS H5) as [-> En].
      apply app_inv_head in H. destruct (IH Hw r e3 r' l0) as [-> ->]; auto. lia.
    - intros dc t Hw r e' r' v' H D. inversion D; subst; auto.
      cbn [app] in H. injection H as <- H. congruence.
    - intros dc t b e x Hb _ IH Hw r e' r' v' H D. cbn [wf] in Hw. inversion D; subst.
      + cbn [app] in H. injection H as -> H. congruence.
      + cbn [app] in H. injection H as <- H. destruct (IH Hw r e0 r' x0) as [-> ->]; auto.
    - intros t Hw r e' r' v' H D. inversion D; subst; auto.
      cbn [app] in H. injection H as <- H. congruence.
    - intros t b e x Hb _ IH Hw r e' r' v' H D. cbn [wf] in Hw. inversion D; subst.
      + cbn [app] in H. injection H as -> H. congruence.
      + cbn [app] in H. injection H as <- H. destruct (IH Hw r e0 r' x0) as [-> ->]; auto.
    - intros t e x _ IH Hw r e' r' v' H D. cbn [wf] in Hw. inversion D; subst.
      destruct (IH Hw r e' r' x0) as [-> ->]; auto.
    - intros ik meta alts i id dc t e1 e2 x Hm Ha HI _ IH Hw r e' r' v' H D. inversion D; subst.
      cbn [wf] in Hw. rewrite !andb_true_iff in Hw. destruct Hw as [[[[_ _] Hd] _] Hw].
      apply app_assoc_eq in H.
      match goal with K : id_is o ik e0 _ |- _ =>
        destruct (id_unique o ik _ _ _ _ _ _ H HI K) as [-> <-] end.
      match goal with K : nth_error meta i0 = _ |- _ =>
        pose proof (distinct_nth _ _ _ _ _ _ Hd Hm K) as <- end.
      assert (t0 = t) by congruence. subst t0. apply app_inv_head in H.
      rewrite forallb_forall in Hw. apply nth_error_In in Ha.
      match goal with K : denotes G o t e3 x0 |- _ =>
        destruct (IH (Hw _ Ha) r e3 r' x0 H K) as [-> ->] end; auto.
    - intros n e L Hw r e' r' v' H D. inversion D; subst.
      destruct (app_same_length e e' r r') as [-> _]; auto. congruence.
    - intros s e1 l HS Hw r e' r' v' H D. inversion D; subst. apply app_assoc_eq in H.
      match goal with K : size_is o s e0 _ |- _ =>
        destruct (size_unique o s _ _ _ _ _ _ H HS K) as [-> En] end.
      apply app_inv_head in H.
      destruct (app_same_length l l0 r r') as [-> _]; auto. lia.
    - intros l Hw r e' r' v' H D. inversion D; subst.
      destruct (app_same_length l e' r r') as [-> _]; auto.
    - intros _ r e' r' l' H D. inversion D; subst. auto.
    - intros t ts e1 e2 x l _ IHt _ IH Hw r e' r' l' H D. inversion D; subst.
      cbn [forallb] in Hw. apply andb_true_iff in Hw as [Hw Hws]. apply app_assoc_eq in H.
      match goal with K : denotes G o t e0 x0 |- _ =>
        destruct (IHt Hw _ _ _ _ H K) as [-> ->] end. apply app_inv_head in H.
      match goal with K : sequence G o ts e3 l0 |- _ =>
        destruct (IH Hws _ _ _ _ H K) as [-> ->] end. auto.
    - intros t _ r e' r' l' Hl H D. inversion D; subst; [auto|discriminate].
    - intros t e1 e2 x l _ IHt _ IH Hw r e' r' l' Hl H D. inversion D; subst; [discriminate|].
      apply app_assoc_eq in H.
      match goal with K : denotes G o t e0 x0 |- _ =>
        destruct (IHt Hw _ _ _ _ H K) as [-> ->] end. apply app_inv_head in H.
      cbn [length] in Hl. injection Hl as Hl.
      match goal with K : elements G o t e3 l0 |- _ =>
        destruct (IH Hw _ _ _ _ Hl H K) as [-> ->] end. auto.
  Qed.

  Lemma denotes_unique t : wf G t = true -> unique_prefix (denotes G o t).
  Proof. intros Hw e r v e' r' v' H D D'. eapply (proj1 grammar_unique); eauto. Qed.
End Unique.

(** ** Acceptance *)

(** Failures for want of memory or stack, or because of the allocation limit. *)
Definition resource (r : res) : Prop :=
  match r with RErr message_size | RThrow | RStack => True | _ => False end.

Section Accepted.
  Variable data : list byte.

  (** Success exactly on the representations found at [pos]. *)
  Definition accepted {A} (D : list byte -> A -> Prop) (pos : nat) (x : res * A * nat) : Prop :=
    match x with
    | (ROk, v, p) => exists e, has_at data pos e /\ p = (pos + length e)%nat /\ D e v
    | (r, _, _) => resource r \/ forall e v, has_at data pos e -> ~ D e v
    end.

  Lemma has_at_skipn pos e : has_at data pos e -> exists r, skipn pos data = e ++ r.
  Proof.
    intro H. apply has_at_elim in H as (pre & post & -> & <-). exists post.
    rewrite skipn_app, Nat.sub_diag, skipn_all. reflexivity.
  Qed.

  Lemma has_at_le pos e : has_at data pos e -> (pos + length e <= length data)%nat.
  Proof. now intros []. Qed.

  Lemma unique_at {A} (D : list byte -> A -> Prop) pos e e' v v' :
    unique_prefix D -> has_at data pos e -> has_at data pos e' -> D e v -> D e' v' -> e = e' /\ v = v'.
  Proof.
    intros U H H' V V'. apply has_at_skipn in H as [r H]. apply has_at_skipn in H' as [r' H'].
    apply (U e r v e' r' v'); auto. congruence.
  Qed.

  Lemma accepted_ok {A} (D : list byte -> A -> Prop) pos e (v : A) p :
    has_at data pos e -> p = (pos + length e)%nat -> D e v -> accepted D pos (ROk, v, p).
  Proof. intros. exists e. auto. Qed.

  Lemma accepted_res {A} (D : list byte -> A -> Prop) pos r (v : A) p : resource r -> accepted D pos (r, v, p).
  Proof. destruct r; cbn [accepted]; auto. intros []. Qed.

  Lemma accepted_no {A} (D : list byte -> A -> Prop) pos r (v : A) p :
    r <> ROk -> (forall e v, has_at data pos e -> ~ D e v) -> accepted D pos (r, v, p).
  Proof. intros H K. destruct r; cbn [accepted]; auto. congruence. Qed.

  Lemma accepted_iff {A} (D D' : list byte -> A -> Prop) pos x :
    (forall e v, D e v <-> D' e v) -> accepted D pos x -> accepted D' pos x.
  Proof.
    intros H. destruct x as [[r v] p]. destruct r; cbn [accepted];
      try (intros [K|K]; [now left|right; intros e0 w He Hd; apply (K e0 w He); now apply H]).
    intros (e & H1 & H2 & H3). exists e. split; [exact H1|split; [exact H2|now apply H]].
  Qed.

  (** One part after another. *)
  Lemma accepted_fail1 {A B} (D1 : list byte -> A -> Prop) (D : list byte -> B -> Prop) pos r a p b p' :
    r <> ROk -> accepted D1 pos (r, a, p) ->
    (forall e v, D e v -> exists e1 e2 a, e = e1 ++ e2 /\ D1 e1 a) ->
    accepted D pos (r, b, p').
  Proof.
    intros Hr H HD. assert (K : resource r \/ forall e v, has_at data pos e -> ~ D1 e v)
      by (destruct r; auto; congruence).
    destruct K as [K|K]; [now apply accepted_res|]. apply accepted_no; [exact Hr|].
    intros e v He Hd. destruct (HD e v Hd) as (e1 & e2 & a' & -> & H1).
    apply has_at_app in He as [He _]. now apply (K e1 a' He).
  Qed.

  Lemma accepted_then {A B C} (D1 : list byte -> A -> Prop) (D2 : list byte -> B -> Prop)
    (D : list byte -> C -> Prop) pos e1 a (x : res * B * nat) (y : res * C * nat) :
    unique_prefix D1 -> has_at data pos e1 -> D1 e1 a ->
    accepted D2 (pos + length e1) x ->
    (forall e v, D e v -> exists e1' e2 a', e = e1' ++ e2 /\ D1 e1' a' /\ (a' = a -> exists b, D2 e2 b)) ->
    fst (fst x) = fst (fst y) ->
    (forall b p, x = (ROk, b, p) -> exists v, y = (ROk, v, p) /\ forall e2, D2 e2 b -> D (e1 ++ e2) v) ->
    accepted D pos y.
  Proof.
    intros U H1 HD1 HX Hinv Hr Hok. destruct x as [[r b] p], y as [[r' v] p']. cbn [fst] in Hr. subst r'.
    assert (K : r = ROk \/ r <> ROk) by (destruct r; auto; right; discriminate).
    destruct K as [->|Hr].
    - destruct (Hok b p eq_refl) as (v' & [= -> ->] & Hv). destruct HX as (e2 & X1 & X2 & X3).
      apply accepted_ok with (e := e1 ++ e2).
      + apply has_at_app. auto.
      + rewrite app_length. lia.
      + auto.
    - assert (K : resource r \/ forall e v, has_at data (pos + length e1) e -> ~ D2 e v)
        by (destruct r; auto; congruence).
      destruct K as [K|K]; [now apply accepted_res|]. apply accepted_no; [exact Hr|].
      intros e v' He Hd. destruct (Hinv e v' Hd) as (e1' & e2 & a' & -> & I1 & I2).
      apply has_at_app in He as [He1 He2].
      destruct (unique_at D1 pos e1 e1' a a' U H1 He1 HD1 I1) as [<- <-].
      destruct (I2 eq_refl) as [b' Hb]. now apply (K e2 b' He2).
  Qed.

  (** Interpretations of a fixed number of bytes. *)
  Lemma reads_as_accepted {A} (f : list byte -> option A) n pos x :
    reads_as data f n pos x -> accepted (fun e v => length e = n /\ f e = Some v) pos x.
  Proof.
    intro H. destruct x as [[r v] p].
    assert (K : r = ROk \/ r <> ROk) by (destruct r; auto; right; discriminate).
    destruct K as [->|Hr].
    - destruct (proj1 (H v p) eq_refl) as (H1 & H2 & ->).
      exists (window data pos n). pose proof (window_length data pos n H1) as E.
      repeat split; auto; rewrite ?E; auto.
    - apply accepted_no; [exact Hr|]. intros e v' He [L F]. subst n.
      assert (E : (r, v, p) = (ROk, v', (pos + length e)%nat)).
      { apply H. destruct He as [He1 He2]. rewrite He2. auto. }
      congruence.
  Qed.

  Variable c : cfg.
  Hypothesis Hsm : small data.
  Notation o := (fmt_of c).

  Lemma scalar_val_word l : scalar_val c l = word o l.
  Proof. apply scalar_val_wval. Qed.

  Lemma scalar_accepted w prior pos : (pos <= length data)%nat ->
    accepted (fun e n => length e = w /\ word o e = n) pos (des_scalar c data w prior pos).
  Proof.
    intro Hp. rewrite des_scalar_eq by assumption.
    destruct (Nat.leb_spec (pos + w) (length data)) as [H|H].
    - apply accepted_ok with (e := window data pos w).
      + now apply window_has_at.
      + now rewrite window_length.
      + split; [now apply window_length|]. now rewrite scalar_val_word.
    - apply accepted_no; [discriminate|]. intros e v He [L _]. apply has_at_le in He. lia.
  Qed.

  Lemma base128_accepted w zz prior pos :
    wfw w = true -> (pos <= length data)%nat ->
    accepted (fun e n => exists m, base128 w e m /\ n = unwire_value w zz m) pos
      (des_varint w zz prior data pos).
  Proof.
    intros Hw Hp. rewrite des_varint_eq by assumption.
    destruct (leb_value _) as [[m k]|] eqn:E.
    - pose proof (leb_value_bounds _ _ _ E) as B. rewrite firstn_length, skipn_length in B.
      unfold varint_max_size in B.
      apply accepted_ok with (e := window data pos k).
      + apply window_has_at. lia.
      + rewrite window_length by lia. reflexivity.
      + exists (m mod pow256 w). split; [|reflexivity]. exists m. rewrite window_length by lia.
        split; [|split; [lia|reflexivity]].
        apply leb_value_firstn_inv in E. apply leb_value_firstn; [exact E|lia].
    - apply accepted_no; [discriminate|]. intros e v He (m & (m' & L & Hl & _) & _).
      apply has_at_skipn in He as [r He]. rewrite He in E.
      rewrite (leb_value_firstn _ m' (length e)) in E; [discriminate| |exact Hl].
      now apply leb_value_app.
  Qed.

  Lemma size_accepted s pos :
    wfsz (Some (sz_of c s)) = true -> sz_of c s <> SzNone -> (pos <= length data)%nat ->
    accepted (size_is o s) pos (des_size c data (sz_of c s) pos).
  Proof.
    intros Hw Hn Hp. unfold size_is, fmt_of. cbn [wsize]. fold (sz_of c s).
    destruct (sz_of c s) as [|w|w]; cbn [des_size]; [congruence|now apply scalar_accepted|].
    eapply accepted_iff; [|apply (base128_accepted w false 0 pos Hw Hp)].
    intros e n. cbn [unwire_value]. split; [now intros (m & H & ->)|eauto].
  Qed.

  Lemma id_accepted k pos : (pos <= length data)%nat ->
    accepted (id_is o k) pos (des_id c data k pos).
  Proof.
    intro Hp. rewrite des_id_eq by assumption.
    destruct (Nat.leb_spec (pos + idwidth k) (length data)) as [H|H].
    - apply accepted_ok with (e := window data pos (idwidth k)).
      + now apply window_has_at.
      + now rewrite window_length.
      + destruct k; cbn [id_is idwidth] in *; (split; [now apply window_length|]); [|reflexivity].
        now rewrite scalar_val_word.
    - apply accepted_no; [discriminate|]. intros e v He D. apply has_at_le in He.
      destruct k; cbn [id_is idwidth] in *; lia.
  Qed.
End Accepted.

Section AcceptLoops.
  Variables (G : tenv) (c : cfg) (data : list byte).
  Hypothesis (HG : wf_env G) (Hsm : small data).
  Notation o := (fmt_of c).

  Definition acc (t : ty) (f : val -> nat -> dres) : Prop :=
    forall prior pos, (pos <= length data)%nat -> wt G prior t = true ->
      accepted data (denotes G o t) pos (f prior pos).

  Lemma des_many_accepted f ms :
    Forall (fun m => wf G m = true /\ acc m (f m)) ms ->
    forall l pos, (pos <= length data)%nat -> forall2b (fun x m => wt G x m) l ms = true ->
      accepted data (sequence G o ms) pos (des_many f ms l pos).
  Proof.
    induction 1 as [|m ms [Hw Hm] _ IH]; intros l pos Hp Hl; cbn [des_many].
    - apply accepted_ok with (e := []); [now apply has_at_nil|cbn; lia|constructor].
    - destruct l as [|x l]; [discriminate|]. cbn [forall2b tl] in *.
      apply andb_true_iff in Hl as [Hx Hl].
      specialize (Hm x pos Hp Hx). destruct (f m x pos) as [[r v] p].
      assert (K : r = ROk \/ r <> ROk) by (destruct r; auto; right; discriminate).
      destruct K as [->|Hr].
      + destruct Hm as (e1 & E1 & -> & D1). pose proof (has_at_le _ _ _ E1) as Hle.
        specialize (IH l (pos + length e1)%nat Hle Hl).
        destruct (des_many f ms l (pos + length e1)) as [[r' vs] p'] eqn:Em.
        eapply accepted_then with (D1 := denotes G o m) (e1 := e1) (1 := denotes_unique G o HG m Hw)
          (2 := E1) (3 := D1) (4 := IH).
        * intros e l' D. inversion D; subst. do 3 eexists. split; [reflexivity|]. eauto.
        * reflexivity.
        * intros b p [= -> <- <-]. eexists. split; [reflexivity|]. intros. now constructor.
      + assert (X : accepted data (sequence G o (m :: ms)) pos (r, v :: l, p)).
        { eapply accepted_fail1; [exact Hr|exact Hm|].
          intros e l' D. inversion D; subst. eauto. }
        destruct r; try congruence; exact X.
  Qed.

  Lemma des_all_accepted f t :
    wf G t = true -> acc t f ->
    forall l pos, (pos <= length data)%nat -> forallb (fun x => wt G x t) l = true ->
      accepted data (fun e l' => length l' = length l /\ elements G o t e l') pos (des_all f l pos).
  Proof.
    intros Hw Hf. induction l as [|x l IH]; intros pos Hp Hl; cbn [des_all].
    - apply accepted_ok with (e := []); [now apply has_at_nil|cbn; lia|]. split; [reflexivity|constructor].
    - cbn [forallb] in Hl. apply andb_true_iff in Hl as [Hx Hl].
      pose proof (Hf x pos Hp Hx) as Hm. destruct (f x pos) as [[r v] p].
      assert (K : r = ROk \/ r <> ROk) by (destruct r; auto; right; discriminate).
      destruct K as [->|Hr].
      + destruct Hm as (e1 & E1 & -> & D1). pose proof (has_at_le _ _ _ E1) as Hle.
        specialize (IH (pos + length e1)%nat Hle Hl).
        destruct (des_all f l (pos + length e1)) as [[r' vs] p'] eqn:Em.
        eapply accepted_then with (D1 := denotes G o t) (e1 := e1) (1 := denotes_unique G o HG t Hw)
          (2 := E1) (3 := D1) (4 := IH).
        * intros e l' [L D]. inversion D; subst; [discriminate|]. cbn [length] in L.
          do 3 eexists. split; [reflexivity|]. split; [eassumption|]. intros _. eexists.
          split; [|eassumption]. lia.
        * reflexivity.
        * intros b p [= -> <- <-]. eexists. split; [reflexivity|]. intros e2 [L D].
          split; [cbn [length]; lia|]. now constructor.
      + assert (X : accepted data (fun e l' => length l' = length (x :: l) /\ elements G o t e l') pos
                      (r, v :: l, p)).
        { eapply accepted_fail1; [exact Hr|exact Hm|].
          intros e l' [L D]. inversion D; subst; [discriminate|]. eauto. }
        destruct r; try congruence; exact X.
  Qed.

  Lemma put_before_insert lt key l x :
    insert_sorted lt key l x = put_before (fun y => lt (key x) (key y)) l x.
  Proof. induction l as [|y l IH]; cbn [insert_sorted put_before]; [reflexivity|]. now rewrite IH. Qed.

  Lemma include_insert k l x : assoc_insert k l x = include k l x.
  Proof.
    unfold assoc_insert, include. destruct (_ && _); [reflexivity|].
    destruct (a_cmp k); [apply put_before_insert|reflexivity].
  Qed.

  Lemma des_assoc_accepted f t k d :
    wf G t = true -> acc t f -> wt G d t = true ->
    forall n a pos, (pos <= length data)%nat ->
      accepted data (fun e l' => exists l, length l = n /\ elements G o t e l
                                 /\ l' = fold_left (include k) l a) pos
        (des_assoc f (assoc_insert k) d n a pos).
  Proof.
    intros Hw Hf Hd. induction n as [|n IH]; intros a pos Hp; cbn [des_assoc].
    - apply accepted_ok with (e := []); [now apply has_at_nil|cbn; lia|].
      exists []. repeat split. constructor.
    - pose proof (Hf d pos Hp Hd) as Hm. destruct (f d pos) as [[r v] p].
      assert (K : r = ROk \/ r <> ROk) by (destruct r; auto; right; discriminate).
      destruct K as [->|Hr].
      + destruct Hm as (e1 & E1 & -> & D1). pose proof (has_at_le _ _ _ E1) as Hle.
        specialize (IH (assoc_insert k a v) (pos + length e1)%nat Hle).
        eapply accepted_then with (D1 := denotes G o t) (e1 := e1) (1 := denotes_unique G o HG t Hw)
          (2 := E1) (3 := D1) (4 := IH).
        * intros e l' (l & L & D & ->). inversion D; subst; [discriminate|]. cbn [length] in L.
          do 3 eexists. split; [reflexivity|]. split; [eassumption|]. intros ->. eexists.
          eexists. split; [|split; [eassumption|reflexivity]]. lia.
        * reflexivity.
        * intros b p E. exists b. split; [exact E|]. intros e2 (l & L & D & ->).
          exists (v :: l). split; [cbn [length]; lia|]. split; [now constructor|].
          cbn [fold_left]. now rewrite include_insert.
      + assert (X : accepted data (fun e l' => exists l, length l = S n /\ elements G o t e l
                                 /\ l' = fold_left (include k) l a) pos (r, a, p)).
        { eapply accepted_fail1; [exact Hr|exact Hm|].
          intros e l' (l & L & D & _). inversion D; subst; [discriminate|]. eauto. }
        destruct r; try congruence; exact X.
  Qed.

  (** Fixed layout objects. *)
  Lemma parse_all_elements (f : list byte -> option val) w t n e l :
    (forall e v, denotes G o t e v <-> length e = w /\ f e = Some v) ->
    (elements G o t e l /\ length l = n <-> length e = (n * w)%nat /\ parse_all f w n e = Some l).
  Proof.
    intro H. revert e l. induction n as [|n IH]; intros e l; cbn [parse_all Nat.mul].
    - split.
      + intros [D L]. destruct l; [|discriminate]. inversion D; subst. auto.
      + intros [L [= <-]]. destruct e; [|discriminate]. split; [constructor|reflexivity].
    - split.
      + intros [D L]. inversion D; subst; [discriminate|]. cbn [length] in L. injection L as L.
        apply H in H0 as [L1 F1]. destruct (proj1 (IH _ _) (conj H1 L)) as [L2 F2].
        rewrite app_length. split; [lia|].
        replace (firstn w (e1 ++ e2)) with e1
          by (rewrite firstn_app, firstn_all2, L1, Nat.sub_diag, firstn_O, app_nil_r by lia; reflexivity).
        replace (skipn w (e1 ++ e2)) with e2
          by (rewrite skipn_app, skipn_all2, L1, Nat.sub_diag by lia; reflexivity).
        now rewrite F1, F2.
      + intros [L F]. destruct (f (firstn w e)) as [v|] eqn:F1; [|discriminate].
        destruct (parse_all f w n (skipn w e)) as [vs|] eqn:F2; [|discriminate]. injection F as <-.
        destruct (proj2 (IH (skipn w e) vs)) as [D2 L2]; [rewrite skipn_length; split; [lia|exact F2]|].
        split; [|cbn [length]; lia].
        rewrite <- (firstn_skipn w e). constructor; [|exact D2]. apply H.
        split; [rewrite firstn_length; lia|exact F1].
  Qed.

  Lemma parse_many_sequence (f : ty -> list byte -> option val) ms :
    Forall (fun m => forall e v, denotes G o m e v <-> length e = bsize m /\ f m e = Some v) ms ->
    forall e l, sequence G o ms e l <-> length e = sum (map bsize ms) /\ parse_many f ms e = Some l.
  Proof.
    induction 1 as [|m ms Hm _ IH]; intros e l; cbn [parse_many map sum fold_right].
    - split.
      + intro D. inversion D; subst. auto.
      + intros [L [= <-]]. destruct e; [|discriminate]. constructor.
    - fold (sum (map bsize ms)). split.
      + intro D. inversion D; subst.
        match goal with K : denotes _ _ _ _ _ |- _ => apply Hm in K as [L1 F1] end.
        match goal with K : sequence _ _ _ _ _ |- _ => apply IH in K as [L2 F2] end.
        rewrite app_length. split; [lia|].
        replace (firstn (bsize m) (e1 ++ e2)) with e1
          by (rewrite firstn_app, firstn_all2, L1, Nat.sub_diag, firstn_O, app_nil_r by lia; reflexivity).
        replace (skipn (bsize m) (e1 ++ e2)) with e2
          by (rewrite skipn_app, skipn_all2, L1, Nat.sub_diag by lia; reflexivity).
        now rewrite F1, F2.
      + intros [L F]. destruct (f m (firstn (bsize m) e)) as [v|] eqn:F1; [|discriminate].
        destruct (parse_many f ms (skipn (bsize m) e)) as [vs|] eqn:F2; [|discriminate]. injection F as <-.
        rewrite <- (firstn_skipn (bsize m) e). constructor.
        * apply Hm. split; [rewrite firstn_length; lia|exact F1].
        * apply IH. split; [rewrite skipn_length; lia|exact F2].
  Qed.

  Lemma denotes_flat t : flat t -> wf G t = true ->
    forall e v, denotes G o t e v <-> length e = bsize t /\ wparse o t e = Some v.
  Proof.
    induction t using ty_ind'; intros Hf Hw e v; try (destruct Hf as (? & _); discriminate);
      cbn [bsize wparse].
    - split; [intro D; inversion D; subst; auto|]. intros [L [= <-]]. now apply D_scalar.
    - split.
      + intro D; inversion D; subst. split; [assumption|].
        match goal with K : word _ _ < 2 |- _ => apply N.ltb_lt in K; unfold word in K;
          unfold wval; now rewrite K end.
      + intros [L F]. destruct (wval o e <? 2) eqn:E; [|discriminate]. injection F as <-.
        apply D_bool; [exact L|]. now apply N.ltb_lt.
    - destruct Hf as (_ & _ & ?). discriminate.
    - assert (P : forall e l, sequence G o ms e l <->
        length e = sum (map bsize ms) /\ parse_many (wparse o) ms e = Some l).
      { apply parse_many_sequence. rewrite Forall_forall in *. intros m Hin. apply H; auto.
        - eapply flat_member; eauto.
        - cbn [wf] in Hw. rewrite !andb_true_iff in Hw. destruct Hw as [[_ Hw] _].
          rewrite forallb_forall in Hw. auto. }
      rewrite (flat_sum _ _ Hf) in P. split.
      + intro D; inversion D; subst.
        match goal with K : sequence _ _ _ _ _ |- _ => apply P in K as [L F] end.
        now rewrite F.
      + intros [L F]. destruct (parse_many (wparse o) ms e) as [l|] eqn:E; [|discriminate].
        injection F as <-. apply D_struct. now apply P.
    - cbn [wf] in Hw. apply andb_true_iff in Hw as [_ Hw].
      pose proof (fun n e l => parse_all_elements (wparse o t) (bsize t) t n e l
        (IHt (flat_array _ _ Hf) Hw)) as P.
      split.
      + intro D; inversion D; subst.
        match goal with K : elements _ _ _ _ _ |- _ => destruct (proj1 (P _ _ _) (conj K eq_refl)) as [L F] end.
        now rewrite F.
      + intros [L F]. destruct (parse_all _ _ _ _) as [l|] eqn:E; [|discriminate].
        injection F as <-. destruct (proj2 (P _ _ _) (conj L E)) as [D <-]. now apply D_array.
  Qed.

  Lemma des_elems_accepted (b : bool) rec t l pos :
    wf G t = true -> plain t = true -> is_empty t = false -> (b = true -> as_bytes c t = true) ->
    acc t (des_ty G c data rec t) -> (pos <= length data)%nat ->
    forallb (fun x => wt G x t) l = true ->
    accepted data (fun e v => exists l', v = VSeq l' /\ length l' = length l /\ elements G o t e l') pos
      (des_elems c data b (des_ty G c data rec t) t l pos).
  Proof.
    intros Hw Hpl He Hb Hf Hp Hl. destruct b.
    - specialize (Hb eq_refl). assert (Hfl : flat t) by (repeat split; auto; eapply as_bytes_bs; eauto).
      eapply accepted_iff; [|eapply reads_as_accepted, des_elems_flat; eauto].
      intros e v. pose proof (parse_all_elements (wparse o t) (bsize t) t (length l) e) as P.
      pose proof (denotes_flat t Hfl Hw) as DF. split.
      + intros [L F]. destruct (parse_all _ _ _ e) as [vs|] eqn:E; [|discriminate]. injection F as <-.
        exists vs. destruct (proj2 (P vs DF) (conj L eq_refl)). auto.
      + intros (l' & -> & L & D). destruct (proj1 (P l' DF) (conj D L)) as [P1 P2]. now rewrite P2.
    - unfold des_elems. pose proof (des_all_accepted _ t Hw Hf l pos Hp Hl) as A.
      destruct (des_all _ l pos) as [[r l'] p]. cbn [seq_res].
      destruct r; cbn [accepted] in *;
        try (destruct A as [A|A]; [now left|right; intros e0 w He0 (l0 & -> & D); now apply (A e0 l0 He0)]).
      destruct A as (e & E & -> & L & D). exists e. split; [exact E|]. eauto.
  Qed.

  Lemma seq_accepted (D : list byte -> list val -> Prop) (D' : list byte -> val -> Prop) pos x :
    (forall e v, D' e v <-> exists l, v = VSeq l /\ D e l) ->
    accepted data D pos x -> accepted data D' pos (seq_res x).
  Proof.
    intros H A. destruct x as [[r l'] p]. cbn [seq_res]. destruct r; cbn [accepted] in *;
      try (destruct A as [A|A]; [now left|right; intros e0 w He0 Hd; apply H in Hd as (l0 & -> & Hd);
           now apply (A e0 l0 He0)]).
    destruct A as (e & E & -> & Hd). exists e. split; [exact E|]. split; [reflexivity|].
    apply H. eauto.
  Qed.
End AcceptLoops.

Section Accept.
  Variables (G : tenv) (c : cfg) (data : list byte).
  Hypothesis (HG : wf_env G) (Hds : wfsz (Some (dsize c)) = true) (Hsm : small data).
  Notation o := (fmt_of c).
  Notation acc := (acc G c data).

  (** One byte: the presence flag. *)
  Definition flag_is (e : list byte) (n : N) : Prop := exists b, e = [b] /\ n = b2n b.

  Lemma flag_unique : unique_prefix flag_is.
  Proof.
    intros e r n e' r' n' H (b & -> & ->) (b' & -> & ->). cbn [app] in H. injection H as -> _. auto.
  Qed.

  Lemma flag_accepted pos : (pos <= length data)%nat ->
    accepted data flag_is pos (des_flag c data pos).
  Proof.
    intro Hp. eapply accepted_iff; [|apply scalar_accepted; eauto].
    intros e n. split.
    - intros [L <-]. destruct e as [|b [|]]; try discriminate. exists b. split; [reflexivity|].
      unfold word. cbn [rev app]. destruct (little o); cbn [le_val]; lia.
    - intros (b & -> & ->). split; [reflexivity|].
      unfold word. cbn [rev app]. destruct (little o); cbn [le_val]; lia.
  Qed.

  Lemma b2n_zero b : b2n b = 0 <-> b = x00.
  Proof. split; [|now intros ->]. intro H. apply b2n_inj. now rewrite H. Qed.

  (** An object read in place or into a temporary. *)
  Lemma inplace_accepted dc f wrap cur d prior t pos :
    acc t f -> wt G d t = true -> (forall x, cur = Some x -> wt G x t = true) ->
    (pos <= length data)%nat ->
    accepted data (fun e v => exists x, v = wrap x /\ denotes G o t e x) pos
      (des_inplace dc f wrap cur d prior pos).
  Proof.
    intros Hf Hd Hc Hp. unfold des_inplace.
    set (x := match cur with Some x => x | None => d end).
    assert (Hx : wt G x t = true) by (unfold x; destruct cur; auto).
    destruct dc.
    - pose proof (Hf x pos Hp Hx) as A. destruct (f x pos) as [[r v] p].
      destruct r; cbn [accepted] in *;
        try (destruct A as [A|A]; [now left|right; intros e0 w He0 (y & -> & D); now apply (A e0 y He0)]).
      destruct A as (e & E & -> & D). exists e. split; [exact E|]. eauto.
    - pose proof (Hf d pos Hp Hd) as A. destruct (f d pos) as [[r v] p].
      destruct r; cbn [accepted] in *;
        try (destruct A as [A|A]; [now left|right; intros e0 w He0 (y & -> & D); now apply (A e0 y He0)]).
      destruct A as (e & E & -> & D). exists e. split; [exact E|]. eauto.
  Qed.

  Lemma ptr_accepted f d prior t pos :
    acc t f -> wt G d t = true -> (pos <= length data)%nat ->
    accepted data (fun e v => exists x, v = VSome x /\ denotes G o t e x) pos (des_ptr f d prior pos).
  Proof.
    intros Hf Hd Hp. unfold des_ptr.
    pose proof (Hf d pos Hp Hd) as A. destruct (f d pos) as [[r v] p].
    destruct r; cbn [accepted] in *;
      try (destruct A as [A|A]; [now left|right; intros e0 w He0 (y & -> & D); now apply (A e0 y He0)]).
    destruct A as (e & E & -> & D). exists e. split; [exact E|]. eauto.
  Qed.

  Lemma nres_accepted (D : list byte -> N -> Prop) (D' : list byte -> val -> Prop) pos x :
    (forall e v, D' e v <-> exists n, v = VN n /\ D e n) ->
    accepted data D pos x -> accepted data D' pos (nres VN x).
  Proof.
    intros H A. destruct x as [[r n] p]. cbn [nres]. destruct r; cbn [accepted] in *;
      try (destruct A as [A|A]; [now left|right; intros e0 w He0 Hd; apply H in Hd as (n0 & -> & Hd);
           now apply (A e0 n0 He0)]).
    destruct A as (e & E & -> & Hd). exists e. split; [exact E|]. split; [reflexivity|].
    apply H. eauto.
  Qed.

  Lemma get_bits_testbit e n i :
    (i + n <= 8 * length e)%nat ->
    get_bits e i n = map (fun j => N.testbit (le_val e) (N.of_nat j)) (List.seq i n).
  Proof.
    revert i. induction n as [|n IH]; intros i H; cbn [get_bits List.seq map]; [reflexivity|].
    rewrite IH by lia. f_equal.
    rewrite <- (get_bit_le_bytes (length e)) by lia. now rewrite le_bytes_le_val.
  Qed.

  Variable rec : nat -> val -> nat -> dres.
  Hypothesis Hrec : forall k, acc (TRec k) (rec k).

  (** After a prefix [e1] with number [n], the rest. *)
  Ltac prefixed A r n p Hrej :=
    destruct A as [[r n] p]; destruct r;
      try (eapply accepted_fail1; [discriminate|exact A|exact Hrej]).

  Lemma des_ty_accepted t :
    wf G t = true -> tall (own_extent c) t = true -> tall (delimited c) t = true -> plain t = true ->
    acc t (des_ty G c data rec t).
  Proof.
    induction t using ty_ind'; intros Hw Hx Hdl Hpl prior pos Hp Hpr.
    - (* scalar *)
      cbn [des_ty].
      pose proof (scalar_accepted data c Hsm w (match prior with VN n => n | _ => 0 end) pos Hp) as A.
      destruct (des_scalar c data w _ pos) as [[r n] p]. cbn [nres].
      destruct r; cbn [accepted] in *;
        try (destruct A as [A|A]; [now left|right; intros e0 v He0 D; inversion D; subst;
             now apply (A e0 _ He0 (conj eq_refl eq_refl))]).
      destruct A as (e & E & -> & L & <-). exists e. split; [exact E|]. split; [reflexivity|].
      now apply D_scalar.
    - (* bool *)
      cbn [des_ty]. pose proof (scalar_accepted data c Hsm 1 0 pos Hp) as A.
      destruct (des_scalar c data 1 0 pos) as [[r n] p].
      destruct r; cbn [accepted] in *;
        try (destruct A as [A|A]; [now left|right; intros e0 v He0 D; inversion D; subst;
             now apply (A e0 (word o e0) He0)]).
      destruct A as (e & E & -> & L & <-). destruct (N.ltb_spec (word o e) 2).
      + exists e. split; [exact E|]. split; [reflexivity|]. now apply D_bool.
      + apply accepted_no; [discriminate|]. intros e0 v He0 D. inversion D; subst.
        destruct (unique_at data (fun e n => length e = 1%nat /\ word o e = n) pos e e0 (word o e) (word o e0))
          as [<- _]; auto using word_unique. lia.
    - (* varint *)
      cbn [des_ty wf] in *.
      pose proof (base128_accepted data w zz (match prior with VN n => n | _ => 0 end) pos Hw Hp) as A.
      assert (B : forall e m, base128 w e m -> m < pow256 w).
      { intros e m (m' & _ & _ & ->). apply N.mod_lt. pose proof (pow256_pos w). lia. }
      refine (nres_accepted _ _ _ _ _ A). intros e v. split.
      + intro D. inversion D; subst.
        * exists n. split; [reflexivity|]. exists n. auto.
        * exists (of_signed w (unzigzag n)). split; [reflexivity|]. exists n. split; [assumption|].
          cbn [unwire_value]. rewrite zz_dec_spec; eauto.
      + intros (m & -> & m' & Hb & ->). destruct zz; cbn [unwire_value].
        * rewrite zz_dec_spec by (auto; eapply B; eauto). now apply D_zigzag.
        * now apply D_varint.
    - (* empty *)
      cbn [des_ty]. destruct prior as [|[]| | | | | |]; try discriminate.
      apply accepted_ok with (e := []); [now apply has_at_nil|cbn; lia|constructor].
    - (* struct *)
      destruct (bs (TStruct si ms)) eqn:Eb.
      + assert (Hfl : flat (TStruct si ms)) by (repeat split; auto; now apply bs_not_empty_struct).
        eapply accepted_iff; [|eapply reads_as_accepted, des_ty_flat; eauto].
        intros e v. symmetry. now apply denotes_flat.
      + cbn [des_ty]. destruct (negb (s_expl si) && is_empty (TStruct si ms)) eqn:Ee.
        { apply andb_true_iff in Ee as [_ Ee]. destruct ms; [|discriminate].
          destruct prior as [|[]| | | | | |]; try discriminate.
          apply accepted_ok with (e := []); [now apply has_at_nil|cbn; lia|]. constructor. constructor. }
        destruct (as_bytes c (TStruct si ms)) eqn:Ea; [apply as_bytes_bs in Ea; congruence|].
        destruct prior as [|l| | | | | |]; try discriminate. cbn [as_seq wt] in *.
        cbn [wf] in Hw. rewrite !andb_true_iff in Hw. destruct Hw as [[_ Hw] _].
        unfold plain in Hpl. cbn [tall] in Hx, Hdl, Hpl.
        apply andb_true_iff in Hx as [_ Hx]. apply andb_true_iff in Hdl as [_ Hdl].
        apply andb_true_iff in Hpl as [_ Hpl]. rewrite forallb_forall in Hw, Hx, Hdl, Hpl.
        eapply seq_accepted; [|apply (des_many_accepted G c data HG); auto].
        * intros e v. split; [intro D; inversion D; subst; eauto|]. intros (l' & -> & D). now constructor.
        * rewrite Forall_forall in *. intros m Hin. split; auto; apply H; auto; now apply Hpl.
    - cbn [des_ty]. now apply Hrec.
    - (* array *)
      destruct prior as [|l| | | | | |]; try discriminate. cbn [des_ty as_seq wt] in *.
      apply andb_true_iff in Hpr as [Hn Hpr]. apply Nat.eqb_eq in Hn. subst n.
      cbn [wf] in Hw. apply andb_true_iff in Hw as [_ Hw].
      unfold plain in Hpl. cbn [tall elem_ok] in Hx, Hdl, Hpl.
      apply andb_true_iff in Hx as [_ Hx]. apply andb_true_iff in Hdl as [_ Hdl].
      apply andb_true_iff in Hpl as [Hem Hpl]. apply negb_true_iff in Hem.
      eapply accepted_iff; [|apply (des_elems_accepted G c data HG Hsm); auto; now apply IHt].
      intros e v. split.
      + intros (l' & -> & <- & D). now constructor.
      + intro D. inversion D; subst. eauto.
    - (* tuple *)
      destruct prior as [|l| | | | | |]; try discriminate. cbn [des_ty as_seq wt wf] in *.
      unfold plain in Hpl. cbn [tall] in Hx, Hdl, Hpl.
      apply andb_true_iff in Hx as [_ Hx]. apply andb_true_iff in Hdl as [_ Hdl].
      apply andb_true_iff in Hpl as [_ Hpl]. rewrite forallb_forall in Hw, Hx, Hdl, Hpl.
      eapply seq_accepted; [|apply (des_many_accepted G c data HG); auto].
      + intros e v. split; [intro D; inversion D; subst; eauto|]. intros (l' & -> & D). now constructor.
      + rewrite Forall_forall in *. intros m Hin. split; auto; apply H; auto; now apply Hpl.
    - (* vec *)
      destruct prior as [|l| | | | | |]; try discriminate. cbn [des_ty as_seq wt] in *.
      cbn [wf] in Hw. apply andb_true_iff in Hw as [Hs Hw].
      unfold plain in Hpl. cbn [tall elem_ok own_extent] in Hx, Hdl, Hpl.
      apply andb_true_iff in Hx as [Hnn Hx]. apply andb_true_iff in Hdl as [_ Hdl].
      apply andb_true_iff in Hpl as [Hem Hpl]. apply negb_true_iff in Hem.
      assert (Hns : sz_of c s <> SzNone) by (intro E; rewrite E in Hnn; discriminate).
      apply (wfsz_sz_of c _ Hds) in Hs.
      pose proof (size_accepted data c Hsm s pos Hs Hns Hp) as A.
      assert (L : accepted data (denotes G o (TVec s cg t)) pos
        match des_size c data (sz_of c s) pos with
            | (ROk, n, pos') =>
                match vec_resize G c t n l with
                | (ROk, l) => des_elems c data (as_bytes c t && cg) (des_ty G c data rec t) t l pos'
                | (r, l) => (r, VSeq l, pos')
                end
            | (r, _, pos') => (r, VSeq l, pos')
            end).
      { assert (Rej : forall e v, denotes G o (TVec s cg t) e v ->
                 exists e1 e2 a, e = e1 ++ e2 /\ size_is o s e1 a)
          by (intros e v D; inversion D; subst; eauto).
        destruct (des_size c data (sz_of c s) pos) as [[r n] p]; destruct r;
          try (eapply accepted_fail1; [discriminate|exact A|exact Rej]).
        destruct A as (e1 & E1 & -> & S1). pose proof (has_at_le _ _ _ E1) as Hle.
        destruct (vec_resize G c t n l) as [r l'] eqn:Ev.
        pose proof (vec_resize_wt G c true true HG t n l r l' Hw Hpr Ev) as (V1 & _ & V2).
        assert (K : r = ROk \/ resource r).
        { unfold vec_resize in Ev. destruct (over_limit c t n); [injection Ev as <- <-; right; exact I|].
          destruct (_ || _); injection Ev as <- <-; [now left|right; exact I]. }
        destruct K as [->|K].
        - specialize (V2 eq_refl).
          pose proof (des_elems_accepted G c data HG Hsm (as_bytes c t && cg) rec t l'
            (pos + length e1) Hw Hpl Hem) as B.
          eapply accepted_then with (1 := size_unique o s) (2 := E1) (3 := S1).
          + apply B; auto. intro Hb. now apply andb_true_iff in Hb as [Hb _].
          + intros e v D. inversion D; subst.
            match goal with K : size_is o s ?e _ |- _ => exists e end. do 2 eexists. split; [reflexivity|].
            split; [eassumption|]. intros <-. eexists. eexists. split; [reflexivity|].
            split; [|eassumption]. rewrite V2. lia.
          + reflexivity.
          + intros b p E. exists b. split; [exact E|]. intros e2 (l0 & -> & L0 & D0).
            apply D_vec; [|exact D0]. rewrite L0, V2. now rewrite N2Nat.id.
        - destruct r; try (destruct K; fail); now apply accepted_res. }
      destruct (sz_of c s); [congruence|exact L..].
    - (* assoc *)
      cbn [des_ty]. destruct prior as [|l| | | | | |]; try discriminate.
      cbn [wf] in Hw. apply andb_true_iff in Hw as [Hs Hw].
      unfold plain in Hpl. cbn [tall elem_ok own_extent] in Hx, Hdl, Hpl.
      apply andb_true_iff in Hx as [Hnn Hx]. apply andb_true_iff in Hdl as [_ Hdl].
      cbn [andb] in Hpl.
      assert (Hns : sz_of c s <> SzNone) by (intro E; rewrite E in Hnn; discriminate).
      apply (wfsz_sz_of c _ Hds) in Hs.
      pose proof (size_accepted data c Hsm s pos Hs Hns Hp) as A.
      assert (L : accepted data (denotes G o (TAssoc s k t)) pos
        match des_size c data (sz_of c s) pos with
        | (ROk, n, pos') =>
            seq_res (des_assoc (des_ty G c data rec t) (assoc_insert k) (dflt G t) (N.to_nat n) [] pos')
        | (r, _, pos') => (r, VSeq l, pos')
        end).
      { assert (Rej : forall e v, denotes G o (TAssoc s k t) e v ->
                 exists e1 e2 a, e = e1 ++ e2 /\ size_is o s e1 a)
          by (intros e v D; inversion D; subst; eauto).
        destruct (des_size c data (sz_of c s) pos) as [[r n] p]; destruct r;
          try (eapply accepted_fail1; [discriminate|exact A|exact Rej]).
        destruct A as (e1 & E1 & -> & S1). pose proof (has_at_le _ _ _ E1) as Hle.
        pose proof (des_assoc_accepted G c data HG (des_ty G c data rec t) t k (dflt G t) Hw
          (IHt Hw Hx Hdl Hpl) (wt_dflt G t HG Hw) (N.to_nat n) [] (pos + length e1) Hle) as B.
        destruct (des_assoc _ _ _ _ _ _) as [[r l'] p] eqn:Ed. cbn [seq_res].
        eapply accepted_then with (1 := size_unique o s) (2 := E1) (3 := S1) (4 := B).
        - intros e v D. inversion D; subst. do 3 eexists. split; [reflexivity|].
          split; [eassumption|]. intros <-. eexists. eexists. split; [|split; [eassumption|reflexivity]]. lia.
        - reflexivity.
        - intros b q [= -> <- <-]. eexists. split; [reflexivity|]. intros e2 (l0 & L0 & D0 & ->).
          apply D_assoc; [|exact D0]. rewrite L0. now rewrite N2Nat.id. }
      cbn [as_seq]. destruct (sz_of c s); [congruence|exact L..].
    - (* opt *)
      cbn [des_ty wf] in *. unfold plain in Hpl. cbn [tall elem_ok andb] in Hx, Hdl, Hpl.
      apply andb_true_iff in Hx as [_ Hx]. apply andb_true_iff in Hdl as [_ Hdl].
      assert (Rej : forall e v, denotes G o (TOpt dc t) e v ->
                 exists e1 e2 a, e = e1 ++ e2 /\ flag_is e1 a).
      { intros e v D. inversion D; subst.
        - exists [x00], [], 0. split; [reflexivity|]. now exists x00.
        - exists [b], e0, (b2n b). split; [reflexivity|]. now exists b. }
      pose proof (flag_accepted pos Hp) as A.
      destruct (des_flag c data pos) as [[r n] p]; destruct r;
        try (eapply accepted_fail1; [discriminate|exact A|exact Rej]).
      destruct A as (e1 & E1 & -> & b & -> & ->). pose proof (has_at_le _ _ _ E1) as Hle.
      destruct (b2n b) as [|q] eqn:Eb.
      + apply b2n_zero in Eb. subst b. apply accepted_ok with (e := [x00]); auto. constructor.
      + assert (Hb : b <> x00) by (intros ->; discriminate).
        eapply accepted_then with (D1 := flag_is) (e1 := [b]) (1 := flag_unique) (2 := E1).
        * exists b. split; [reflexivity|]. now symmetry.
        * apply (inplace_accepted dc (des_ty G c data rec t) VSome (opt_cur prior) (dflt G t) prior t);
            auto using wt_dflt.
          intros x Hc. destruct prior; try discriminate. cbn [opt_cur] in Hc. injection Hc as <-. exact Hpr.
        * intros e v D. inversion D; subst.
          -- exists [x00], [], 0. split; [reflexivity|]. split; [now exists x00|].
             intro K. exfalso. apply Hb, b2n_zero. congruence.
          -- exists [b0], e0, (b2n b0). split; [reflexivity|]. split; [now exists b0|].
             intros _. eexists. eexists. split; [reflexivity|]. eassumption.
        * reflexivity.
        * intros x p E. exists x. split; [exact E|]. intros e2 (y & -> & D). cbn [app]. now constructor.
    - (* optptr *)
      cbn [des_ty wf] in *. unfold plain in Hpl. cbn [tall elem_ok andb] in Hx, Hdl, Hpl.
      apply andb_true_iff in Hx as [_ Hx]. apply andb_true_iff in Hdl as [_ Hdl].
      assert (Rej : forall e v, denotes G o (TOptPtr t) e v ->
                 exists e1 e2 a, e = e1 ++ e2 /\ flag_is e1 a).
      { intros e v D. inversion D; subst.
        - exists [x00], [], 0. split; [reflexivity|]. now exists x00.
        - exists [b], e0, (b2n b). split; [reflexivity|]. now exists b. }
      pose proof (flag_accepted pos Hp) as A.
      destruct (des_flag c data pos) as [[r n] p]; destruct r;
        try (eapply accepted_fail1; [discriminate|exact A|exact Rej]).
      destruct A as (e1 & E1 & -> & b & -> & ->). pose proof (has_at_le _ _ _ E1) as Hle.
      destruct (b2n b) as [|q] eqn:Eb.
      + apply b2n_zero in Eb. subst b. apply accepted_ok with (e := [x00]); auto. constructor.
      + assert (Hb : b <> x00) by (intros ->; discriminate).
        eapply accepted_then with (D1 := flag_is) (e1 := [b]) (1 := flag_unique) (2 := E1).
        * exists b. split; [reflexivity|]. now symmetry.
        * apply (ptr_accepted (des_ty G c data rec t) (dflt G t) prior t); auto using wt_dflt.
        * intros e v D. inversion D; subst.
          -- exists [x00], [], 0. split; [reflexivity|]. split; [now exists x00|].
             intro K. exfalso. apply Hb, b2n_zero. congruence.
          -- exists [b0], e0, (b2n b0). split; [reflexivity|]. split; [now exists b0|].
             intros _. eexists. eexists. split; [reflexivity|]. eassumption.
        * reflexivity.
        * intros x p E. exists x. split; [exact E|]. intros e2 (y & -> & D). cbn [app]. now constructor.
    - (* ptr *)
      cbn [des_ty wf] in *. unfold plain in Hpl. cbn [tall elem_ok andb] in Hx, Hdl, Hpl.
      apply andb_true_iff in Hx as [_ Hx]. apply andb_true_iff in Hdl as [_ Hdl].
      eapply accepted_iff; [|eapply ptr_accepted with (t := t); eauto using wt_dflt].
      intros e v. split; [intros (x & -> & D); now constructor|]. intro D. inversion D; subst. eauto.
    - (* variant *)
      rewrite des_variant_eq. unfold plain in Hpl. cbn [tall elem_ok andb] in Hx, Hdl, Hpl.
      apply andb_true_iff in Hx as [_ Hx]. apply andb_true_iff in Hdl as [_ Hdl].
      cbn [wf] in Hw. rewrite !andb_true_iff in Hw. destruct Hw as [[[[_ Hlen] Hd] _] Hw].
      rewrite forallb_forall in Hw, Hx, Hdl, Hpl. rewrite Forall_forall in H.
      pose proof (id_accepted data c Hsm ik pos Hp) as A.
      assert (Rej : forall e v, denotes G o (TVariant ik meta alts) e v ->
                 exists e1 e2 a, e = e1 ++ e2 /\ id_is o ik e1 a)
          by (intros e v D; inversion D; subst; eauto).
      destruct (des_id c data ik pos) as [[r n] p]; destruct r;
        try (eapply accepted_fail1; [discriminate|exact A|exact Rej]).
      destruct A as (e1 & E1 & -> & S1). pose proof (has_at_le _ _ _ E1) as Hle.
      destruct (find_id meta n) as [i|] eqn:Ei.
      + destruct (find_id_some _ _ _ Ei) as [dc Hm]. rewrite Hm.
        destruct (nth_error alts i) as [t|] eqn:Ea.
        2:{ exfalso. apply nth_error_None in Ea. apply Nat.eqb_eq in Hlen.
            assert (i < length meta)%nat by (apply nth_error_Some; congruence). lia. }
        pose proof (nth_error_In _ _ Ea) as Hin.
        eapply accepted_then with (1 := id_unique o ik) (2 := E1) (3 := S1).
        * apply (inplace_accepted dc (des_ty G c data rec t) (VAlt i) (active i prior) (dflt G t) prior t);
            auto using wt_dflt.
          intros x Hc. destruct prior; try discriminate. cbn [active] in Hc.
          destruct (Nat.eqb_spec i i0) as [->|]; [|discriminate]. injection Hc as <-.
          cbn [wt] in Hpr. now rewrite Ea in Hpr.
        * intros e v D. inversion D; subst. do 3 eexists. split; [reflexivity|].
          split; [eassumption|]. intros ->.
          match goal with K : nth_error meta i0 = _ |- _ =>
            pose proof (distinct_nth _ _ _ _ _ _ Hd Hm K) as <- end.
          assert (t0 = t) by congruence. subst t0. eexists. eexists. split; [reflexivity|eassumption].
        * reflexivity.
        * intros x p E. exists x. split; [exact E|]. intros e2 (y & -> & D). econstructor; eauto.
      + apply accepted_no; [discriminate|]. intros e v He D. inversion D; subst.
        apply has_at_app in He as [He _].
        match goal with K : id_is o ik e0 _ |- _ =>
          destruct (unique_at data (id_is o ik) pos e1 e0 n id (id_unique o ik) E1 He S1 K) as [<- <-] end.
        apply find_id_none in Ei. apply Ei.
        match goal with K : nth_error meta _ = _ |- _ => apply nth_error_In in K; apply (in_map fst) in K; exact K end.
    - (* bitset *)
      cbn [des_ty]. unfold des_bitset. rewrite remaining_small by assumption.
      unfold bitset_bytes in *.
      destruct (N.ltb_spec (N.of_nat (length data - pos)) (N.of_nat ((n + 7) / 8))) as [Hl|Hl].
      + apply accepted_no; [discriminate|]. intros e v He D. inversion D; subst.
        apply has_at_le in He. lia.
      + rewrite load_some by lia.
        pose proof (window_length data pos ((n + 7) / 8) ltac:(lia)) as L.
        apply accepted_ok with (e := window data pos ((n + 7) / 8)).
        * apply window_has_at. lia.
        * now rewrite L.
        * rewrite get_bits_testbit by (rewrite L; lia). now constructor.
    - (* view *)
      destruct k as [s|n|]; cbn [des_ty].
      + cbn [wf tall delimited] in *. apply andb_true_iff in Hdl as [Hnn _].
        assert (Hns : sz_of c s <> SzNone) by (intro E; rewrite E in Hnn; discriminate).
        apply (wfsz_sz_of c _ Hds) in Hw.
        pose proof (size_accepted data c Hsm s pos Hw Hns Hp) as A.
        assert (Rej : forall e v, denotes G o (TView (VwSized s)) e v ->
                 exists e1 e2 a, e = e1 ++ e2 /\ size_is o s e1 a)
          by (intros e v D; inversion D; subst; eauto).
        destruct (des_size c data (sz_of c s) pos) as [[r n] p]; destruct r;
          try (eapply accepted_fail1; [discriminate|exact A|exact Rej]).
        destruct A as (e1 & E1 & -> & S1). pose proof (has_at_le _ _ _ E1) as Hle.
        assert (L : accepted data (denotes G o (TView (VwSized s))) pos
          (if remaining data (pos + length e1) <? n then (RErr result_out_of_range, prior, (pos + length e1)%nat)
                else match load data (pos + length e1) (N.to_nat n) with
                     | Some e => (ROk, VBytes e, (pos + length e1 + N.to_nat n)%nat)
                     | None => (RUB, prior, (pos + length e1)%nat)
                     end)).
        { rewrite remaining_small by assumption.
          destruct (N.ltb_spec (N.of_nat (length data - (pos + length e1))) n) as [Hl|Hl].
          - apply accepted_no; [discriminate|]. intros e v He D. inversion D; subst.
            apply has_at_app in He as [He He2].
            match goal with K : size_is o s e0 _ |- _ =>
              destruct (unique_at data (size_is o s) pos e1 e0 _ _ (size_unique o s) E1 He S1 K) as [<- ->] end.
            apply has_at_le in He2. lia.
          - rewrite load_some by lia.
            pose proof (window_length data (pos + length e1) (N.to_nat n) ltac:(lia)) as L.
            apply accepted_ok with (e := e1 ++ window data (pos + length e1) (N.to_nat n)).
            + apply has_at_app. split; [exact E1|]. apply window_has_at. lia.
            + rewrite app_length, L. lia.
            + constructor. rewrite L. now rewrite N2Nat.id. }
        destruct (sz_of c s); [congruence|exact L..].
      + rewrite remaining_small by assumption.
        destruct (N.ltb_spec (N.of_nat (length data - pos)) (N.of_nat n)) as [Hl|Hl].
        * apply accepted_no; [discriminate|]. intros e v He D. inversion D; subst.
          apply has_at_le in He. lia.
        * rewrite load_some by lia.
          pose proof (window_length data pos n ltac:(lia)) as L.
          apply accepted_ok with (e := window data pos n).
          -- apply window_has_at. lia.
          -- now rewrite L.
          -- rewrite <- L at 1. constructor.
      + cbn [tall delimited] in Hdl. discriminate.
    - cbn [tall own_extent] in Hx. discriminate.
  Qed.
End Accept.

Section AcceptRec.
  Variables (G : tenv) (c : cfg) (data : list byte).
  Hypothesis (HG : wf_env G) (Hds : wfsz (Some (dsize c)) = true) (Hsm : small data).
  Hypothesis (Hox : tall_env (own_extent c) G) (Hdl : tall_env (delimited c) G)
    (Hpl : tall_env elem_ok G).

  Lemma des_rec_accepted fuel k : acc G c data (TRec k) (des_rec G c data fuel k).
  Proof.
    revert k. induction fuel as [|f IH]; intros k prior pos Hp Hpr; cbn [des_rec].
    - apply accepted_res. exact I.
    - destruct prior as [|l| | | | | |]; try discriminate. cbn [as_seq wt] in *.
      destruct (HG k) as [Hw _]. specialize (Hox k) as Hx. specialize (Hdl k) as Hd.
      specialize (Hpl k) as Hl. rewrite forallb_forall in Hw, Hx, Hd, Hl.
      eapply seq_accepted; [|apply (des_many_accepted G c data HG); auto].
      + intros e v. split; [intro D; inversion D; subst; eauto|]. intros (l' & -> & D). now constructor.
      + rewrite Forall_forall. intros m Hin. split; auto; apply des_ty_accepted; auto; now apply Hl.
  Qed.

  Lemma des_accepted fuel t :
    wf G t = true -> tall (own_extent c) t = true -> tall (delimited c) t = true -> plain t = true ->
    acc G c data t (des G c data fuel t).
  Proof. intros. unfold des. apply des_ty_accepted; auto. apply des_rec_accepted. Qed.

  Lemma in_call_accepted fuel ts :
    forallb (wf G) ts = true -> forallb (tall (own_extent c)) ts = true ->
    forallb (tall (delimited c)) ts = true -> forallb plain ts = true ->
    forall priors pos, (pos <= length data)%nat ->
      forall2b (fun x m => wt G x m) priors ts = true ->
      accepted data (sequence G (fmt_of c) ts) pos (in_call G c data fuel ts priors pos).
  Proof.
    intros Hw Hx Hd Hl priors pos Hp Hpr. rewrite forallb_forall in Hw, Hx, Hd, Hl.
    unfold in_call. apply (des_many_accepted G c data HG); auto.
    rewrite Forall_forall. intros m Hin. split; auto. apply des_accepted; auto.
  Qed.
End AcceptRec.
