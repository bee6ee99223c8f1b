(** C62: which recursive classes are recognised (self_referencing). *)

From Coq Require Import List Bool Arith Lia Relations Wellfounded.
From Verif Require Import Model.SelfRef.
Import ListNotations.

(** ** Specification *)

(** [parts E t]: the members and elements an object of type [t] consists of, as far as the
    library looks into it. *)
Definition parts (E : senv) (t : sty) : list sty :=
  match t with
  | SClass k =>
      if cl_explicit (E k) || cl_empty (E k) then []
      else match cl_members (E k) with Some ms => ms | None => [] end
  | STuple ts => ts
  | SArr _ n e => if n =? 0 then [] else [e]
  | _ => []
  end.

Definition part_of (E : senv) (u t : sty) : Prop := In u (parts E t).

(** A container, map, owning pointer or optional directly of [self]. *)
Inductive refers (self : sty) : sty -> Prop :=
| rf_seq : refers self (SSeq self)
| rf_arr n : refers self (SArr true n self)
| rf_set : refers self (SSet self)
| rf_key v : refers self (SMap self v)
| rf_val k : refers self (SMap k self)
| rf_own : refers self (SOwn self)
| rf_opt : refers self (SOpt self).

(** Part of [t], however deep, is a member that refers to [self]. *)
Inductive holds (E : senv) (self : sty) : sty -> Prop :=
| hd_here t m : (forall s n e, t <> SArr s n e) -> part_of E m t -> refers self m -> holds E self t
| hd_part t m : part_of E m t -> holds E self m -> holds E self t.

(** Objects are finite: what C++ demands of every type. *)
Definition finite_objects (E : senv) : Prop := well_founded (part_of E).

(** ** Equality of types *)

Fixpoint ssize (t : sty) : nat :=
  match t with
  | SFund | SClass _ => 1
  | STuple l | SVar l => S (fold_right (fun x n => ssize x + n) 0 l)
  | SArr _ _ e | SSeq e | SSet e | SOwn e | SOpt e => S (ssize e)
  | SMap k v => S (ssize k + ssize v)
  end.

Lemma stys_eqb_eq f (l l' : list sty) :
  (forall x, In x l -> forall y, f x y = true <-> x = y) -> stys_eqb f l l' = true <-> l = l'.
Proof.
  revert l'. induction l as [|x l IH]; intros [|y l'] H; cbn [stys_eqb]; try (split; congruence).
  rewrite andb_true_iff, (H x (or_introl eq_refl)), (IH l' (fun z Hz => H z (or_intror Hz))).
  split; [intros [-> ->]; reflexivity|intro E; injection E; auto].
Qed.

Lemma ssize_in x l : In x l -> ssize x <= fold_right (fun x n => ssize x + n) 0 l.
Proof. induction l as [|y l IH]; intros []; cbn [fold_right]; [subst; lia|]. specialize (IH H). lia. Qed.

Lemma sty_eqb_eq_n n : forall a b, ssize a <= n -> sty_eqb a b = true <-> a = b.
Proof.
  induction n as [|n IH]; intros a b Hs; [destruct a; cbn [ssize] in Hs; lia|].
  destruct a as [|j|l|s m e|e|e|k v|e|e|l]; destruct b as [|j'|l'|s' m' e'|e'|e'|k' v'|e'|e'|l'];
    cbn [sty_eqb ssize] in *; try (split; congruence).
  - rewrite Nat.eqb_eq. split; congruence.
  - rewrite stys_eqb_eq; [split; congruence|]. intros x Hx y. apply IH.
    pose proof (ssize_in x l Hx). lia.
  - rewrite !andb_true_iff, eqb_true_iff, Nat.eqb_eq, IH by lia. split; [intros [[-> ->] ->]; reflexivity|].
    intro E. injection E. auto.
  - rewrite IH by lia. split; congruence.
  - rewrite IH by lia. split; congruence.
  - rewrite andb_true_iff, !IH by lia. split; [intros [-> ->]; reflexivity|]. intro E. injection E. auto.
  - rewrite IH by lia. split; congruence.
  - rewrite IH by lia. split; congruence.
  - rewrite stys_eqb_eq; [split; congruence|]. intros x Hx y. apply IH.
    pose proof (ssize_in x l Hx). lia.
Qed.

Lemma sty_eqb_eq a b : sty_eqb a b = true <-> a = b.
Proof. exact (sty_eqb_eq_n (ssize a) a b (le_n _)). Qed.

Lemma type_references_exact m self : type_references m self = true <-> refers self m.
Proof.
  split.
  - destruct m as [|j|l|[] n e|e|e|k v|e|e|l]; cbn [type_references]; try discriminate;
      rewrite ?orb_true_iff, ?sty_eqb_eq; intro H; try (subst; constructor).
    destruct H; subst; constructor.
  - destruct 1; cbn [type_references]; rewrite ?orb_true_iff, ?sty_eqb_eq; auto.
Qed.

(** ** The computation *)

Lemma any_of_true f l : any_of f l = Some true ->
  exists m, In m l /\ f m = Some true.
Proof.
  induction l as [|t l IH]; cbn [any_of]; [discriminate|].
  destruct (f t) as [a|] eqn:Ea; [|discriminate]. destruct (any_of f l) as [b|]; [|discriminate].
  intro H. injection H as H. apply orb_true_iff in H as [-> | ->].
  - exists t. split; [now left|exact Ea].
  - destruct (IH eq_refl) as (m & Hm & E). exists m. split; [now right|exact E].
Qed.

Lemma any_of_false f l : any_of f l = Some false -> forall m, In m l -> f m = Some false.
Proof.
  induction l as [|t l IH]; cbn [any_of]; intros H m []; subst;
    destruct (f _) as [a|] eqn:Ea; try discriminate; destruct (any_of f l) as [b|]; try discriminate;
    injection H as H; apply orb_false_iff in H as [-> ->]; auto.
Qed.

Lemma any_of_some f l : (forall m, In m l -> f m <> None) -> any_of f l <> None.
Proof.
  induction l as [|t l IH]; cbn [any_of]; intro H; [discriminate|].
  specialize (H t (or_introl eq_refl)) as Ht. destruct (f t); [|congruence].
  specialize (IH (fun m Hm => H m (or_intror Hm))). destruct (any_of f l); congruence.
Qed.

Lemma any_of_ext f g l : (forall m, In m l -> f m = g m) -> any_of f l = any_of g l.
Proof.
  induction l as [|t l IH]; cbn [any_of]; intro H; [reflexivity|].
  rewrite (H t (or_introl eq_refl)), IH; [reflexivity|]. intros m Hm. apply H. now right.
Qed.

Lemma acyclic E t : finite_objects E -> ~ clos_trans _ (part_of E) t t.
Proof.
  intros HW H. assert (W : well_founded (clos_trans _ (part_of E))) by now apply wf_clos_trans.
  induction (W t) as [t _ IH]. exact (IH t H H).
Qed.

Lemma arr_dec t :
  (exists s n e, t = SArr s (S n) e) \/ match t with SArr _ (S _) _ => False | _ => True end.
Proof. destruct t as [| | |s [|n] e| | | | | | ]; eauto. Qed.

Section Compute.
  Variables (E : senv) (self : sty).
  Hypothesis HW : finite_objects E.

  (** One level, for classes and tuples with members. *)
  Definition looked_into (t : sty) (ms : list sty) : Prop :=
    parts E t = ms /\ ms <> [] /\ forall s n e, t <> SArr s n e.

  Lemma self_ref_step f t visited :
    match t with SArr _ (S _) _ => False | _ => True end ->
    (exists ms, looked_into t ms /\
       self_ref E (S f) t self visited =
       if existsb (fun m => type_references m self) ms then Some true
       else if existsb (sty_eqb t) visited then Some false
       else any_of (fun m => self_ref E f m self (t :: visited)) ms)
    \/ (parts E t = [] /\ self_ref E (S f) t self visited = Some false).
  Proof.
    intro Ha. unfold looked_into. destruct t as [|k|ts|s n e|e|e|k v|e|e|ts];
      cbn [self_ref parts]; try (right; split; reflexivity).
    - destruct (cl_members (E k)) as [ms|].
      + destruct (cl_explicit (E k)); [right; split; reflexivity|].
        destruct (cl_empty (E k)); [right; destruct ms; split; reflexivity|].
        destruct ms as [|m ms]; [right; split; reflexivity|].
        left. exists (m :: ms). split; [|reflexivity]. repeat split; discriminate.
      + right. split; [|reflexivity]. now destruct (_ || _).
    - destruct ts as [|m ms]; [right; split; reflexivity|].
      left. exists (m :: ms). split; [|reflexivity]. repeat split; discriminate.
    - destruct n; [right; split; reflexivity|contradiction].
  Qed.

  Lemma self_ref_sound f : forall t visited,
    self_ref E f t self visited = Some true -> holds E self t.
  Proof.
    induction f as [|f IH]; intros t visited H; [discriminate|].
    destruct (arr_dec t) as [(s & n & e & ->)|HA].
    { cbn [self_ref Nat.eqb] in H. eapply hd_part; [|eapply IH; exact H].
         unfold part_of. cbn [parts Nat.eqb]. now left. }
    destruct (self_ref_step f t visited HA) as [(ms & (Hp & _ & Ha) & Er)|[_ Er]];
      rewrite Er in H; [|discriminate];
      destruct (existsb (fun m => type_references m self) ms) eqn:Ex;
      [apply existsb_exists in Ex as (m & Hm & Hr); apply type_references_exact in Hr;
       eapply hd_here; eauto; unfold part_of; now rewrite Hp|];
      destruct (existsb (sty_eqb t) visited); [discriminate|];
      apply any_of_true in H as (m & Hm & Hr); eapply hd_part; [|eapply IH; exact Hr];
      unfold part_of; now rewrite Hp.
  Qed.

  Lemma self_ref_complete f : forall t visited,
    (forall v, In v visited -> clos_trans _ (part_of E) t v) ->
    self_ref E f t self visited = Some false -> ~ holds E self t.
  Proof.
    induction f as [|f IH]; intros t visited HV H HH; [discriminate|].
    assert (Hn : ~ In t visited).
    { intro Hin. exact (acyclic E t HW (HV t Hin)). }
    assert (Hx : existsb (sty_eqb t) visited = false).
    { rewrite <- not_true_iff_false, existsb_exists. intros (v & Hv & Ev).
      apply sty_eqb_eq in Ev. now subst. }
    destruct (arr_dec t) as [(s & n & e & ->)|HA].
    { cbn [self_ref Nat.eqb] in H.
         inversion HH as [? m Ha Hm|? m Hm Hh]; [exfalso; eapply Ha; reflexivity|].
         unfold part_of in Hm. cbn [parts Nat.eqb In] in Hm. destruct Hm as [<- |[]].
         eapply IH; [|exact H|exact Hh]. intros v Hv. eapply t_trans; [|apply HV; exact Hv].
         apply t_step. unfold part_of. cbn [parts Nat.eqb]. now left. }
    destruct (self_ref_step f t visited HA) as [(ms & (Hp & _ & Ha) & Er)|[Hp _]];
      [|inversion HH as [? m Ha Hm|? m Hm]; unfold part_of in Hm; rewrite Hp in Hm; contradiction];
      rewrite Er, Hx in H;
      destruct (existsb (fun m => type_references m self) ms) eqn:Ex; [discriminate|];
      pose proof (any_of_false _ _ H) as HF;
      (inversion HH as [? m Hb Hm Hr|? m Hm Hh]; subst; unfold part_of in Hm;
       [rewrite <- not_true_iff_false in Ex; apply Ex; apply existsb_exists; exists m;
        split; [exact Hm|now apply type_references_exact]|
        eapply (IH m); [|apply HF; exact Hm|exact Hh];
        intros v [<- |Hv]; [now apply t_step|];
        eapply t_trans; [apply t_step; exact Hm|apply HV; exact Hv]]).
  Qed.

  Lemma self_ref_mono f : forall t visited b,
    self_ref E f t self visited = Some b -> self_ref E (S f) t self visited = Some b.
  Proof.
    induction f as [|f IH]; intros t visited b H; [discriminate|].
    destruct (arr_dec t) as [(s & n & e & ->)|HA].
    { cbn [self_ref Nat.eqb] in H. change (self_ref E (S f) e self visited = Some b). now apply IH. }
    destruct (self_ref_step f t visited HA) as [(ms & (Hp & Hne & _) & Er)|[Hp Er]];
      destruct (self_ref_step (S f) t visited HA) as [(ms' & (Hp' & Hne' & _) & Er')|[Hp' Er']];
      [|congruence..].
    rewrite Hp in Hp'. subst ms'. rewrite Er'. rewrite Er in H. clear Er Er'.
    destruct (existsb (fun m => type_references m self) ms); [exact H|].
    destruct (existsb (sty_eqb t) visited); [exact H|].
    rewrite <- H. symmetry. apply any_of_ext. intros m Hm.
    destruct (self_ref E f m self (t :: visited)) as [bm|] eqn:Em; [symmetry; now apply IH|exfalso].
    assert (D : any_of (fun m => self_ref E f m self (t :: visited)) ms <> None) by congruence.
    clear - Hm Em D. induction ms as [|x ms IHm]; [contradiction|]. cbn [any_of] in D.
    destruct Hm as [-> |Hm]; [rewrite Em in D; congruence|].
    apply IHm; [exact Hm|]. intro C. rewrite C in D. destruct (self_ref E f x self (t :: visited)); congruence.
  Qed.

  Lemma self_ref_mono_le f g t visited b :
    f <= g -> self_ref E f t self visited = Some b -> self_ref E g t self visited = Some b.
  Proof. induction 1; intro H1; [exact H1|]. apply self_ref_mono. auto. Qed.

  Lemma list_fuel (P : sty -> nat -> Prop) l :
    (forall m f g, f <= g -> P m f -> P m g) -> (forall m, In m l -> exists f, P m f) ->
    exists f, forall m, In m l -> P m f.
  Proof.
    intros HM. induction l as [|x l IH]; intro H; [exists 0; intros m []|].
    destruct (H x (or_introl eq_refl)) as (f & Hf).
    destruct (IH (fun m Hm => H m (or_intror Hm))) as (g & Hg).
    exists (max f g). intros m [<- |Hm].
    - apply (HM x f); [lia|exact Hf].
    - apply (HM m g); [lia|]. now apply Hg.
  Qed.

  Lemma self_ref_terminates t : exists f, forall visited, self_ref E f t self visited <> None.
  Proof.
    induction (HW t) as [t _ IH].
    assert (HF : exists f, forall m, In m (parts E t) -> forall visited, self_ref E f m self visited <> None).
    { apply (list_fuel (fun m f => forall visited, self_ref E f m self visited <> None)).
      - intros m f g Hfg Hm visited. specialize (Hm visited).
        destruct (self_ref E f m self visited) as [b|] eqn:Eb; [|congruence].
        rewrite (self_ref_mono_le f g m visited b Hfg Eb). discriminate.
      - intros m Hm. apply IH. exact Hm. }
    destruct HF as (f & HF). exists (S f). intro visited.
    destruct (arr_dec t) as [(s & n & e & ->)|HA].
    { cbn [self_ref Nat.eqb]. apply HF. cbn [parts Nat.eqb]. now left. }
    destruct (self_ref_step f t visited HA) as [(ms & (Hp & _ & Ha) & Er)|[Hp Er]];
      rewrite Er; [|discriminate];
      destruct (existsb (fun m => type_references m self) ms); [discriminate|];
      destruct (existsb (sty_eqb t) visited); [discriminate|];
      apply any_of_some; intros m Hm; apply HF; now rewrite Hp.
  Qed.
End Compute.

(** The instantiation ends, and answers whether the class refers to itself somewhere among its
    parts through one container, map, owning pointer or optional.  The list of visited types
    makes no difference. *)
Theorem self_referencing_exact E t :
  finite_objects E ->
  exists n b, (forall f, n <= f -> self_referencing E f t = Some b) /\ (b = true <-> holds E t t).
Proof.
  intro HW. destruct (self_ref_terminates E t HW t) as (n & Hn). specialize (Hn []).
  destruct (self_ref E n t t []) as [b|] eqn:Eb; [|congruence]. exists n, b. split.
  - intros f Hf. unfold self_referencing. now apply (self_ref_mono_le E t n f).
  - destruct b.
    + split; [|reflexivity]. intros _. now apply (self_ref_sound E t n t []).
    + split; [discriminate|]. intro HH. exfalso.
      exact (self_ref_complete E t HW n t [] (fun v (Hv : In v []) => match Hv with end) Eb HH).
Qed.

(** ** Recursion is interrupted *)

(** No cycle of functions that must be inlined passes through the members of a class that
    refers to itself in this way: these calls are not inlined at all. *)
Theorem self_reference_interrupts E k :
  finite_objects E -> holds E (SClass k) (SClass k) ->
  exists n, forall f, n <= f -> inlined E f (SClass k) = [].
Proof.
  intros HW HH. destruct (self_referencing_exact E (SClass k) HW) as (n & b & H1 & H2).
  apply H2 in HH. subst b. exists n. intros f Hf. cbn [inlined]. now rewrite (H1 f Hf).
Qed.

(** A tree with its children in a vector within a pair within a class. *)
Definition tree_env : senv := fun k =>
  match k with
  | 0 => mkClass false false (Some [SFund; SClass 1])
  | 1 => mkClass false false (Some [STuple [SFund; SMap SFund (SClass 0)]])
  | _ => mkClass true false (Some [])
  end.

Lemma tree_finite : finite_objects tree_env.
Proof.
  assert (A0 : Acc (part_of tree_env) SFund) by (constructor; intros y []).
  assert (AM : Acc (part_of tree_env) (SMap SFund (SClass 0))) by (constructor; intros y []).
  assert (AC : forall k, Acc (part_of tree_env) (SClass k)).
  { assert (A1 : Acc (part_of tree_env) (SClass 1)).
    { constructor. intros y [<- |[]]. constructor. intros y [<- |[<- |[]]]; assumption. }
    intros [|[|k]].
    - constructor. intros y [<- |[<- |[]]]; assumption.
    - exact A1.
    - constructor. intros y []. }
  intro t. remember (ssize t) as n eqn:En. assert (Hn : ssize t <= n) by lia. clear En. revert t Hn.
  induction n as [|n IH]; intros t Hn; [destruct t; cbn [ssize] in Hn; lia|].
  destruct t as [|k|ts|s m e|e|e|k v|e|e|ts]; try (constructor; intros y []; fail).
  - apply AC.
  - constructor. intros y Hy. unfold part_of in Hy. cbn [parts] in Hy. cbn [ssize] in Hn.
    pose proof (ssize_in y ts Hy). apply IH. lia.
  - constructor. intros y Hy. unfold part_of in Hy. cbn [parts] in Hy. cbn [ssize] in Hn.
    destruct (m =? 0); [contradiction|]. destruct Hy as [<- |[]]. apply IH. lia.
Qed.

Example self_reference_nontrivial :
  finite_objects tree_env /\ holds tree_env (SClass 0) (SClass 0) /\
  self_referencing tree_env 5 (SClass 0) = Some true /\
  self_referencing tree_env 5 (SClass 1) = Some false /\
  inlined tree_env 5 (SClass 1) = [STuple [SFund; SMap SFund (SClass 0)]].
Proof.
  split; [exact tree_finite|]. split; [|repeat split; vm_compute; reflexivity].
  eapply hd_part; [right; left; reflexivity|].
  eapply hd_part; [left; reflexivity|].
  eapply hd_here; [discriminate|right; left; reflexivity|constructor].
Qed.

(** Recursion through two containers, or through another class, is not recognised: the calls
    form a cycle all of whose members must be inlined. *)
Inductive inline_path (E : senv) (n : nat) : sty -> sty -> Prop :=
| ip_one t u : In u (inlined E n t) -> inline_path E n t u
| ip_more t u v : In u (inlined E n t) -> inline_path E n u v -> inline_path E n t v.

Definition nested_env : senv := fun _ => mkClass false false (Some [SSeq (SSeq (SClass 0))]).
Definition mutual_env : senv := fun k =>
  match k with
  | 0 => mkClass false false (Some [SFund; SSeq (SClass 1)])
  | _ => mkClass false false (Some [SOwn (SClass 0)])
  end.

Theorem recursion_recognised_refuted :
  (forall f, 2 <= f -> inline_path nested_env f (SClass 0) (SClass 0)) /\
  (forall f, 2 <= f -> inline_path mutual_env f (SClass 0) (SClass 0)).
Proof.
  split; intros f Hf; destruct f as [|[|f]]; try lia.
  - eapply ip_more; [left; reflexivity|]. eapply ip_more; [left; reflexivity|].
    apply ip_one. left. reflexivity.
  - eapply ip_more; [right; left; reflexivity|]. eapply ip_more; [left; reflexivity|].
    eapply ip_more; [left; reflexivity|]. apply ip_one. left. reflexivity.
Qed.

(** A class with a serialize function of its own, or without members, needs nothing inlined: recursion ends
    there, whatever its members are. *)
Theorem own_function_interrupts E f k :
  cl_explicit (E k) = true \/ cl_empty (E k) = true ->
  calls E (SClass k) = [] /\ forall t, ~ inline_path E f (SClass k) t.
Proof.
  intro H. assert (C : class_members E k = []).
  { unfold class_members. destruct H as [-> | ->]; [reflexivity|]. now rewrite orb_true_r. }
  split; [exact C|]. intros t HP.
  assert (I : inlined E f (SClass k) = []).
  { cbn [inlined calls]. rewrite C. now destruct (self_referencing E f (SClass k)) as [[]|]. }
  remember (SClass k) as x eqn:Ex. destruct HP as [x u HI|x u v HI _]; subst x; rewrite I in HI; destruct HI.
Qed.

(** The tree through two vectors, with a serialize function of its own. *)
Example own_function_nontrivial :
  let E := fun k : nat => mkClass false true (Some [SSeq (SSeq (SClass k))]) in
  cl_explicit (E 0) = true /\ inlined E 5 (SSeq (SClass 0)) = [SClass 0] /\ inlined E 5 (SClass 0) = [].
Proof. cbv zeta. repeat split; vm_compute; reflexivity. Qed.
