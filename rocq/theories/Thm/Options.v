(** C64: which option decides when several of a kind are given. *)

From Coq Require Import List NArith ZArith Lia Bool Arith.
From Verif Require Import Base.Bytes Model.Types Model.Machine Model.Varint Model.Out Model.Options.
Import ListNotations.
Local Open Scope N_scope.

(** The kinds of options. *)
Inductive kind := KSize | KLimit | KEnlarger | KOrder | KFit | KOverflow | KRun.
Definition kind_of (o : opt) : kind :=
  match o with
  | OSize _ => KSize
  | OAllocLimit _ => KLimit
  | OEnlarger _ _ => KEnlarger
  | OBig | OLittle | OSwapped | ONative => KOrder
  | ONoFitSize => KFit
  | ONoEnlargeOverflow | OEnlargeOverflow => KOverflow
  | OAppend | OReserve _ | OResize _ => KRun
  end.

(** [o] is the first option of its kind. *)
Definition first_of_kind (os : list opt) (o : opt) : Prop :=
  exists i, nth_error os i = Some o /\
    forall j o', (j < i)%nat -> nth_error os j = Some o' -> kind_of o' <> kind_of o.

Definition none_of_kind (os : list opt) (k : kind) : Prop := forall o, In o os -> kind_of o <> k.

Lemma first_cons o' os o :
  first_of_kind (o' :: os) o -> o' = o \/ kind_of o' <> kind_of o /\ first_of_kind os o.
Proof.
  intros [[|i] [Hi Hb]].
  - left. cbn in Hi. congruence.
  - right. split; [apply (Hb 0%nat o'); [lia|reflexivity]|].
    exists i. split; [exact Hi|]. intros j x Hj Hx. apply (Hb (S j) x); [lia|exact Hx].
Qed.

Section Decide.
  Variables (h g : bool) (alloc : N -> bool) (abi : ty -> N).

  Theorem first_size_decides os :
    (forall s, first_of_kind os (OSize s) -> dsize (config h g os alloc abi) = s) /\
    (none_of_kind os KSize -> dsize (config h g os alloc abi) = SzFix 4).
  Proof.
    cbn [config dsize]. split.
    - intros s. induction os as [|o os IH]; intro H; [destruct H as [[|i] [H _]]; discriminate|].
      apply first_cons in H as [-> | [Hk H]]; [reflexivity|].
      destruct o; cbn in Hk |- *; auto; congruence.
    - induction os as [|o os IH]; intro H; [reflexivity|].
      pose proof (H o (or_introl eq_refl)) as Ho.
      assert (Hr : none_of_kind os KSize) by (intros x Hx; apply H; now right).
      destruct o; cbn in Ho |- *; auto; congruence.
  Qed.

  Theorem first_limit_decides os :
    (forall l, first_of_kind os (OAllocLimit l) -> alim (config h g os alloc abi) = Some l) /\
    (none_of_kind os KLimit -> alim (config h g os alloc abi) = None).
  Proof.
    cbn [config alim]. split.
    - intros s. induction os as [|o os IH]; intro H; [destruct H as [[|i] [H _]]; discriminate|].
      apply first_cons in H as [-> | [Hk H]]; [reflexivity|].
      destruct o; cbn in Hk |- *; auto; congruence.
    - induction os as [|o os IH]; intro H; [reflexivity|].
      pose proof (H o (or_introl eq_refl)) as Ho.
      assert (Hr : none_of_kind os KLimit) by (intros x Hx; apply H; now right).
      destruct o; cbn in Ho |- *; auto; congruence.
  Qed.

  Theorem first_enlarger_decides os :
    (forall m d, first_of_kind os (OEnlarger m d) ->
       emul (config h g os alloc abi) = m /\ ediv (config h g os alloc abi) = d) /\
    (none_of_kind os KEnlarger ->
       emul (config h g os alloc abi) = 3 /\ ediv (config h g os alloc abi) = 2).
  Proof.
    cbn [config emul ediv]. split.
    - intros m d. induction os as [|o os IH]; intro H; [destruct H as [[|i] [H _]]; discriminate|].
      apply first_cons in H as [-> | [Hk H]]; [split; reflexivity|].
      destruct o; cbn in Hk |- *; auto; congruence.
    - induction os as [|o os IH]; intro H; [split; reflexivity|].
      pose proof (H o (or_introl eq_refl)) as Ho.
      assert (Hr : none_of_kind os KEnlarger) by (intros x Hx; apply H; now right).
      destruct o; cbn in Ho |- *; auto; congruence.
  Qed.

  (** Of the switches the place does not matter, and asking for the opposite as well does not
      undo them. *)
  Theorem switches_decide os :
    (swap (config h g os alloc abi) = true <->
     In OSwapped os \/ In (if h then OBig else OLittle) os) /\
    (nofit (config h g os alloc abi) = true <-> In ONoFitSize os) /\
    (noovf (config h g os alloc abi) = true <-> In ONoEnlargeOverflow os).
  Proof.
    cbn [config swap nofit noovf]. unfold has_opt. rewrite !existsb_exists. split; [|split].
    - split.
      + intros (o & Hin & Ho). destruct o, h; cbn in Ho; try discriminate; auto.
      + intros [H|H]; [exists OSwapped; auto|]. destruct h; eexists; (split; [exact H|reflexivity]).
    - split; [intros (o & Hin & Ho); destruct o; try discriminate; exact Hin|].
      intro H. exists ONoFitSize. auto.
    - split; [intros (o & Hin & Ho); destruct o; try discriminate; exact Hin|].
      intro H. exists ONoEnlargeOverflow. auto.
  Qed.
End Decide.

(** ** Options of different kinds do not interfere *)

Definition kind_eqb (a b : kind) : bool :=
  match a, b with
  | KSize, KSize | KLimit, KLimit | KEnlarger, KEnlarger | KOrder, KOrder | KFit, KFit
  | KOverflow, KOverflow | KRun, KRun => true
  | _, _ => false
  end.

Definition of_kind (k : kind) (os : list opt) : list opt :=
  filter (fun o => kind_eqb (kind_of o) k) os.

Lemma default_size_kind os : default_size os = default_size (of_kind KSize os).
Proof. induction os as [|o os IH]; [reflexivity|]. destruct o; cbn; auto. Qed.
Lemma alloc_limit_kind os : alloc_limit_of os = alloc_limit_of (of_kind KLimit os).
Proof. induction os as [|o os IH]; [reflexivity|]. destruct o; cbn; auto. Qed.
Lemma enlarger_kind os : enlarger_of os = enlarger_of (of_kind KEnlarger os).
Proof. induction os as [|o os IH]; [reflexivity|]. destruct o; cbn; auto. Qed.
Lemma swap_kind h os : has_opt (is_swapped h) os = has_opt (is_swapped h) (of_kind KOrder os).
Proof. induction os as [|o os IH]; [reflexivity|]. unfold has_opt in *. destruct o; cbn; rewrite ?IH; auto. Qed.
Lemma fit_kind os :
  has_opt (fun o => match o with ONoFitSize => true | _ => false end) os
  = has_opt (fun o => match o with ONoFitSize => true | _ => false end) (of_kind KFit os).
Proof. induction os as [|o os IH]; [reflexivity|]. unfold has_opt in *. destruct o; cbn; rewrite ?IH; auto. Qed.
Lemma overflow_kind os :
  has_opt (fun o => match o with ONoEnlargeOverflow => true | _ => false end) os
  = has_opt (fun o => match o with ONoEnlargeOverflow => true | _ => false end) (of_kind KOverflow os).
Proof. induction os as [|o os IH]; [reflexivity|]. unfold has_opt in *. destruct o; cbn; rewrite ?IH; auto. Qed.

Lemma run_kind c os st : run_options c os st = run_options c (of_kind KRun os) st.
Proof.
  revert st. induction os as [|o os IH]; intro st; [reflexivity|].
  assert (S : forall l, run_options c (o :: l) st
    = match run_option c o st with (ROk, st') => run_options c l st' | other => other end).
  { intro l. cbn [run_options]. unfold seq. destruct (run_option c o st) as [r s]. now destruct r. }
  unfold of_kind in *. cbn [filter]. rewrite S.
  destruct (kind_eqb (kind_of o) KRun) eqn:E.
  - rewrite S. destruct (run_option c o st) as [r s]. destruct r; try reflexivity. apply IH.
  - destruct o; try discriminate; apply IH.
Qed.

(** The constructed archive depends on the options of each kind only; how the kinds are
    interleaved is irrelevant. *)
Theorem options_of_a_kind_decide h g alloc abi os1 os2 :
  (forall k, of_kind k os1 = of_kind k os2) ->
  config h g os1 alloc abi = config h g os2 alloc abi /\
  forall c data, construct c os1 data = construct c os2 data.
Proof.
  intro H. split.
  - unfold config.
    rewrite (default_size_kind os1), (alloc_limit_kind os1), (enlarger_kind os1), (swap_kind h os1),
      (fit_kind os1), (overflow_kind os1), !H.
    now rewrite <- default_size_kind, <- alloc_limit_kind, <- enlarger_kind, <- swap_kind,
      <- fit_kind, <- overflow_kind.
  - intros c data. unfold construct. now rewrite run_kind, H, <- run_kind.
Qed.

(** The run-time options take effect in the order given: each acts on the archive the earlier
    ones left, and nothing after a throwing one runs. *)
Theorem run_options_in_order c os1 os2 data :
  construct c (os1 ++ os2) data =
  match construct c os1 data with
  | (ROk, st) => run_options c os2 st
  | other => other
  end.
Proof.
  unfold construct. generalize (mkO data 0). induction os1 as [|o os1 IH]; intro st; [reflexivity|].
  cbn [app run_options]. unfold seq. destruct (run_option c o st) as [r s]. destruct r; try reflexivity.
  apply IH.
Qed.

Example options_nontrivial :
  let os := [OAppend; OSize (SzVar 8); OBig; OAllocLimit 100; OSize (SzFix 1); OLittle;
             OAllocLimit 5; OEnlarger 2 1; OResize 3; OEnlargeOverflow; ONoEnlargeOverflow] in
  first_of_kind os (OSize (SzVar 8)) /\ first_of_kind os (OAllocLimit 100) /\
  first_of_kind os (OEnlarger 2 1) /\ none_of_kind os KFit /\
  dsize (config true true os (fun _ => true) (fun _ => 1)) = SzVar 8 /\
  swap (config true true os (fun _ => true) (fun _ => 1)) = true /\
  of_kind KRun os = [OAppend; OResize 3] /\
  construct (config true true os (fun _ => true) (fun _ => 1)) os [x01; x02; x03; x04]
  = (ROk, mkO [x01; x02; x03] 3).
Proof.
  cbv zeta. repeat split; try reflexivity.
  - exists 1%nat. split; [reflexivity|]. intros [|j] o Hj Ho; [|lia]. injection Ho as <-. discriminate.
  - exists 3%nat. split; [reflexivity|].
    intros [|[|[|j]]] o Hj Ho; [..|lia]; injection Ho as <-; discriminate.
  - exists 7%nat. split; [reflexivity|].
    intros [|[|[|[|[|[|[|j]]]]]]] o Hj Ho; [..|lia]; injection Ho as <-; discriminate.
  - intros o Ho. cbn [In] in Ho. repeat destruct Ho as [<-|Ho]; try discriminate. contradiction.
Qed.

(** Constructing an archive succeeds or throws, nothing else; and it throws only if some reserve
    or resize asked for an amount of memory that is refused. *)
Theorem construct_outcome c os data r st :
  construct c os data = (r, st) ->
  r = ROk \/
  r = RThrow /\ exists n, (In (OReserve n) os \/ In (OResize n) os) /\ can_alloc c n = false.
Proof.
  unfold construct. generalize (mkO data 0) as s0. revert r st.
  induction os as [|o os IH]; intros r st s0 H; cbn [run_options] in H.
  - injection H as <- <-. now left.
  - unfold seq in H. destruct (run_option c o s0) as [r1 s1] eqn:E.
    assert (D : r1 = ROk \/ r1 = RThrow /\ exists n, (o = OReserve n \/ o = OResize n) /\ can_alloc c n = false).
    { destruct o; cbn [run_option] in E; try (injection E as <- <-; now left).
      - destruct (n <=? N.of_nat (length (obuf s0))); cbn [orb] in E; [injection E as <- <-; now left|].
        destruct (can_alloc c n) eqn:A; injection E as <- <-; [now left|right; split; [reflexivity|]].
        exists n. auto.
      - unfold buf_resize in E.
        destruct (n <=? N.of_nat (length (obuf s0))); [injection E as <- <-; now left|].
        destruct (can_alloc c n) eqn:A; injection E as <- <-; [now left|right; split; [reflexivity|]].
        exists n. auto. }
    destruct D as [->|(-> & n & Hn & A)].
    + destruct (IH _ _ _ H) as [->|(-> & n & Hn & A)]; [now left|right; split; [reflexivity|]].
      exists n. cbn [In]. tauto.
    + injection H as <- <-. right. split; [reflexivity|]. exists n. cbn [In]. intuition.
Qed.

(** The amount that is refused need not be the first. *)
Example construct_outcome_nontrivial :
  let c := config true true [] (fun n => n <? 100) (fun _ => 1) in
  construct c [OReserve 99; OResize 2; OAppend; OReserve 100; OResize 0] [x01] = (RThrow, mkO [x01; x00] 2) /\
  construct c [OReserve 99; OResize 2; OAppend; OResize 100] [x01] = (RThrow, mkO [x01; x00] 2) /\
  can_alloc c 100 = false.
Proof. cbv zeta. repeat split. Qed.
