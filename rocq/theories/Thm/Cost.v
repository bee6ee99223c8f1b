(** C73: how much work a read can cause, compared to the bytes it consumes. *)

From Coq Require Import List NArith ZArith Lia Bool Arith.
From Coq Require Import ZifyBool ZifyNat ZifyN.
From Verif Require Import Base.Bytes Model.Types Model.Machine Model.Varint Model.Out Model.In
  Model.Cost Spec.Leb128 Spec.Wire Spec.Grammar Proofs.VarintP Proofs.OutP Proofs.InBase Proofs.InSafe
  Thm.Demo Thm.Output Thm.Input Thm.Resource.
Import ListNotations.
Local Open Scope N_scope.

(** ** Statement *)

Definition nsum (l : list N) : N := fold_right N.add 0 l.

(** What reading an object of a type costs, besides what its bytes pay for: [W] gives the prices
    of named classes.  An optional, or an alternative, that takes at least one byte pays for
    itself. *)
Fixpoint price (G : tenv) (c : cfg) (W : nat -> N) (t : ty) : N :=
  match t with
  | TScalar w _ => 1 + N.of_nat w
  | TBitset n => 1 + N.of_nat ((n + 7) / 8)
  | TStruct _ ms => 1 + nsum (map (price G c W) ms)
  | TTuple ms => 1 + nsum (map (price G c W) ms)
  | TRec k => W k
  | TArray n t' => 1 + N.of_nat n * price G c W t'
  | TPtr t' => 1 + csizeof c t' + price G c W t'
  | TOpt _ t' | TOptPtr t' =>
      2 + (if (1 <=? floor G t')%nat then 0 else csizeof c t' + price G c W t')
  | TVariant ik _ alts =>
      1 + N.of_nat (idwidth ik)
      + nsum (map (fun t' => if (1 <=? floor G t')%nat then 0 else csizeof c t' + price G c W t') alts)
  | _ => 2
  end.

(** The rate [K] per byte is enough for what a type contains: elements of containers take at
    least one byte and have an explicit number. *)
Definition sized (s : sizety) : bool := match s with SzNone => false | _ => true end.

Definition fair (G : tenv) (c : cfg) (W : nat -> N) (K : N) (t : ty) : bool :=
  match t with
  | TVec s _ t' | TAssoc s _ t' | TSpan s t' =>
      sized (sz_of c s) && (1 <=? floor G t')%nat && (csizeof c t' + price G c W t' <? K)
  | TOpt _ t' | TOptPtr t' => (floor G t' =? 0)%nat || (csizeof c t' + price G c W t' <=? K)
  | TView (VwSized s) => sized (sz_of c s)
  | TVariant ik _ alts =>
      (1 <=? idwidth ik)%nat
      && forallb (fun t' => (floor G t' =? 0)%nat || (csizeof c t' + price G c W t' <=? K)) alts
  | _ => true
  end.

(** How deep vectors are nested in each other in an object with [r] levels for named classes. *)
Fixpoint nest (r : nat -> nat) (t : ty) : nat :=
  match t with
  | TStruct _ ts | TTuple ts | TVariant _ _ ts => list_max (map (nest r) ts)
  | TRec k => r k
  | TVec _ _ t' => S (nest r t')
  | TArray _ t' | TAssoc _ _ t' | TSpan _ t' | TOpt _ t' | TOptPtr t' | TPtr t' => nest r t'
  | _ => 0
  end.
Fixpoint nest_rec (G : tenv) (fuel : nat) (k : nat) : nat :=
  match fuel with
  | O => 0
  | S f => list_max (map (nest (nest_rec G f)) (t_mems G k))
  end.

(** ** Proofs *)

Lemma list_max_In x l : In x l -> (x <= list_max l)%nat.
Proof.
  intro H. pose proof (proj1 (list_max_le l (list_max l)) (le_n _)) as F.
  rewrite Forall_forall in F. auto.
Qed.

Lemma nsum_In x l : In x l -> x <= nsum l.
Proof.
  induction l as [|y l IH]; cbn [In nsum fold_right]; [tauto|]. intros [->|H]; [lia|].
  specialize (IH H). unfold nsum in IH. lia.
Qed.

Lemma work_variant_eq G c data rec recw ik meta alts prior pos :
  work_ty G c data rec recw (TVariant ik meta alts) prior pos =
  1 + (past pos (des_id c data ik pos) +
  match des_id c data ik pos with
  | (ROk, id, pos') =>
      match find_id meta id with
      | None => 0
      | Some i =>
          match nth_error alts i with
          | Some t' =>
              work_inplace (match nth_error meta i with Some (_, b) => b | None => true end)
                (work_ty G c data rec recw t') (active i prior) (dflt G t') (csizeof c t') pos'
          | None => 0
          end
      end
  | _ => 0
  end).
Proof.
  cbn [work_ty]. f_equal. f_equal. destruct (des_id c data ik pos) as [[r id] p]. destruct r; try reflexivity.
  destruct (find_id meta id) as [i|]; [|reflexivity]. cbv zeta.
  generalize (match nth_error meta i with Some (_, b) => b | None => true end). intro dc.
  generalize (active i prior). intro cur.
  revert i. induction alts as [|t' l IH]; intros [|i]; cbn [nth_error]; try reflexivity. apply IH.
Qed.

Section Bound.
  Variables (G : tenv) (c : cfg) (data : list byte) (W : nat -> N) (K : N) (r : nat -> nat).
  Hypothesis (Hsm : small data) (HG : wf_env G) (Hds : wfsz (Some (dsize c)) = true) (HK : 2 <= K).

  Notation least := (least (fun k => list_sum (map (least (fun _ => 0%nat)) (t_mems G k)))).
  Notation price := (price G c W).
  Notation nest := (nest r).

  (** Bytes between two positions. *)
  Notation B p pos := (N.of_nat (p - pos)).

  (** [x] is the outcome of a read that cost [w]. *)
  Definition good {A} (w pr : N) (le ne pos : nat) (x : res * A * nat) : Prop :=
    match x with (o, _, p) =>
      (o = ROk -> w + K * N.of_nat le <= pr + K * B p pos)
      /\ (forall L, alim c = Some L -> exists j, (j <= ne)%nat /\ (j <= p - pos)%nat
            /\ w <= pr + K * B p pos + N.of_nat j * L)
    end.

  Definition paid (t : ty) (f : val -> nat -> dres) (g : val -> nat -> N) : Prop :=
    forall prior pos, (pos <= length data)%nat -> wt G prior t = true ->
      good (g prior pos) (price t) (least t) (nest t) pos (f prior pos).

  Notation safe := (safe_f G data true true).

  Lemma good_leaf {A} pr le ne pos (x : res * A * nat) :
    (pos <= snd x)%nat -> (fst (fst x) = ROk -> (pos + le <= snd x)%nat) -> 1 + N.of_nat le <= pr ->
    good (1 + past pos x) pr le ne pos x.
  Proof.
    destruct x as [[o v] p]. unfold past. cbn [fst snd good]. intros H1 H2 H3. split.
    - intro E. specialize (H2 E). nia.
    - intros L _. exists O. split; [lia|]. split; [lia|]. nia.
  Qed.

  (** The same outcome seen from an earlier position, with more work and a higher price. *)
  Lemma good_from {A B'} (x : res * A * nat) (x' : res * B' * nat) w w' pr pr' le le' ne ne' pos pos' :
    good w pr le ne pos x ->
    fst (fst x') = fst (fst x) -> snd x' = snd x -> (pos' <= pos <= snd x)%nat -> (ne <= ne')%nat ->
    (w' + K * N.of_nat le' + pr <= w + K * N.of_nat le + pr' + K * B pos pos') ->
    (w' + pr <= w + pr' + K * B pos pos') ->
    good w' pr' le' ne' pos' x'.
  Proof.
    destruct x as [[o v] p], x' as [[o' v'] p']. cbn [fst snd good]. intros [H1 H2] -> -> Hp Hne Ha Hb.
    assert (EB : B p pos' = B p pos + B pos pos') by lia.
    split.
    - intro E. specialize (H1 E). rewrite EB. nia.
    - intros L HL. destruct (H2 L HL) as (j & J1 & J2 & J3). exists j. split; [lia|]. split; [lia|].
      rewrite EB. nia.
  Qed.

  Lemma many_paid f g ms :
    Forall (fun m => paid m (f m) (g m)) ms -> Forall (fun m => safe m (f m)) ms ->
    forall priors pos, (pos <= length data)%nat ->
      forall2b (fun x m => wt G x m) priors ms = true ->
      good (work_many g f ms priors pos) (nsum (map price ms)) (list_sum (map least ms))
        (list_max (map nest ms)) pos (des_many f ms priors pos).
  Proof.
    intros HP HS. induction HP as [|m ms Hm HP IH]; intros priors pos Hp Hw; cbn [work_many des_many].
    { cbn [good]. split; [cbn; lia|]. intros L _. exists O. cbn. lia. }
    inversion_clear HS as [|? ? HS1 HS2]. specialize (IH HS2).
    destruct priors as [|x priors]; [discriminate|]. cbn [forall2b tl] in *.
    apply andb_true_iff in Hw as [Hx Hw].
    specialize (Hm x pos Hp Hx). pose proof (HS1 x pos Hp Hx) as S.
    destruct (f m x pos) as [[o v] p]. cbn [safe_out] in S. destruct S as (S1 & S2 & S3).
    cbn [good] in Hm. destruct Hm as [M1 M2].
    change (nsum (map price (m :: ms))) with (price m + nsum (map price ms)).
    change (list_sum (map least (m :: ms))) with (least m + list_sum (map least ms))%nat.
    change (list_max (map nest (m :: ms))) with (Nat.max (nest m) (list_max (map nest ms))).
    assert (HE : o <> ROk -> good (g m x pos + 0) (price m + nsum (map price ms))
                (least m + list_sum (map least ms)) (Nat.max (nest m) (list_max (map nest ms))) pos (o, v :: priors, p)).
    { intro Ho. cbn [good]. split; [intro; congruence|].
      intros L HL. destruct (M2 L HL) as (j & J1 & J2 & J3). exists j. split; [lia|]. split; [lia|]. lia. }
    destruct o; try (apply HE; discriminate). clear HE.
    specialize (IH priors p ltac:(lia) Hw). specialize (M1 eq_refl).
    assert (HS' : forall q, (p <= q)%nat -> B q pos = B q p + B p pos) by (intros; lia).
    pose proof (des_many_safe G data true true f ms HS2 priors p ltac:(lia) Hw) as S'.
    destruct (des_many f ms priors p) as [[o' vs] p']. destruct S' as (S1' & _).
    cbn [good] in IH |- *. destruct IH as [I1 I2]. rewrite (HS' p') by lia. split.
    - intro E. specialize (I1 E). rewrite Nat2N.inj_add. lia.
    - intros L HL. destruct (I2 L HL) as (j & J1 & J2 & J3). exists j. split; [lia|]. split; [lia|]. lia.
  Qed.

  (** Elements at most [Q] in price: those that are read pay for [Q] and [fee] each. *)
  Lemma all_paid f g t :
    paid t f g -> safe t f ->
    forall l pos, (pos <= length data)%nat -> forallb (fun x => wt G x t) l = true ->
      good (work_all g f l pos) (N.of_nat (length l) * price t) (length l * least t) (nest t) pos
        (des_all f l pos)
      /\ (forall L o vs p, des_all f l pos = (o, vs, p) -> alim c = Some L -> price t <= K * N.of_nat (least t) ->
            exists j, (j <= nest t)%nat /\ (j <= p - pos)%nat
              /\ work_all g f l pos <= price t + K * B p pos + N.of_nat j * L).
  Proof.
    intros HP HS. induction l as [|x l IH]; intros pos Hp Hw; cbn [work_all des_all].
    { split.
      - cbn [good]. split; [cbn; lia|]. intros L _. exists O. cbn. lia.
      - intros L o vs p E _ _. injection E as <- <- <-. exists O. cbn. lia. }
    cbn [forallb] in Hw. apply andb_true_iff in Hw as [Hx Hw].
    specialize (HP x pos Hp Hx). pose proof (HS x pos Hp Hx) as S.
    destruct (f x pos) as [[o v] p]. cbn [safe_out] in S. destruct S as (S1 & S2 & S3).
    cbn [good] in HP. destruct HP as [M1 M2].
    assert (HE : o <> ROk ->
              good (g x pos + 0) (N.of_nat (length (x :: l)) * price t) (length (x :: l) * least t) (nest t) pos (o, v :: l, p)
              /\ (forall L, alim c = Some L -> price t <= K * N.of_nat (least t) ->
                   exists j, (j <= nest t)%nat /\ (j <= p - pos)%nat /\ g x pos + 0 <= price t + K * B p pos + N.of_nat j * L)).
    { intro Ho. split.
      - cbn [good]. split; [intro; congruence|].
        intros L HL. destruct (M2 L HL) as (j & J1 & J2 & J3). exists j. split; [lia|]. split; [lia|].
        cbn [length]. nia.
      - intros L HL _. destruct (M2 L HL) as (j & J1 & J2 & J3). exists j. split; [lia|]. split; [lia|]. lia. }
    destruct o;
      try (destruct HE as [HE1 HE2]; [discriminate|]; split; [exact HE1|];
           intros L o' vs' p' E HL Hpr; injection E as <- <- <-; apply HE2; assumption).
    clear HE. specialize (M1 eq_refl). specialize (IH p ltac:(lia) Hw). destruct IH as [I1 I2].
    pose proof (des_all_safe G data true true f t HS l p ltac:(lia) Hw) as S'.
    destruct (des_all f l p) as [[o' vs] p'] eqn:E. destruct S' as (S1' & _).
    assert (EB : B p' pos = B p' p + B p pos) by lia. cbn [length].
    replace (N.of_nat (S (length l)) * price t) with (price t + N.of_nat (length l) * price t) by lia.
    replace (N.of_nat (S (length l) * least t)) with (N.of_nat (least t) + N.of_nat (length l * least t)) in * by lia.
    split.
    - cbn [good] in I1 |- *. destruct I1 as [I1 I1']. rewrite EB. split.
      + intro Eo. specialize (I1 Eo). replace (N.of_nat (S (length l) * least t)) with (N.of_nat (least t) + N.of_nat (length l * least t)) by lia. lia.
      + intros L HL. destruct (I1' L HL) as (j & J1 & J2 & J3). exists j. split; [lia|]. split; [lia|]. lia.
    - intros L o1 vs1 p1 E1 HL Hpr. injection E1 as <- <- <-.
      destruct (I2 L o' vs p' eq_refl HL Hpr) as (j & J1 & J2 & J3). exists j. split; [lia|]. split; [lia|].
      rewrite EB. lia.
  Qed.

  Lemma sum_bsize ms :
    Forall (fun t => bs t = true -> (least t <= bsize t)%nat /\ 1 + N.of_nat (bsize t) <= price t) ms ->
    forallb bs ms = true ->
    (list_sum (map least ms) <= sum (map bsize ms))%nat /\ N.of_nat (sum (map bsize ms)) <= nsum (map price ms).
  Proof.
    induction 1 as [|m ms Hm _ IH]; cbn [forallb map]; [intros _; cbn; lia|].
    intro H. apply andb_true_iff in H as [H1 H2]. destruct (IH H2) as [I1 I2]. destruct (Hm H1).
    unfold list_sum, sum, nsum in *. cbn [fold_right]. lia.
  Qed.

  Lemma bs_price t : bs t = true -> (least t <= bsize t)%nat /\ 1 + N.of_nat (bsize t) <= price t.
  Proof.
    induction t using ty_ind'; cbn [bs]; try discriminate; intro Hb;
      cbn [Resource.least bsize Cost.price]; try lia.
    - rewrite !andb_true_iff in Hb. destruct Hb as [[[[_ Hb] Hs] _] _].
      destruct (sum_bsize ms H Hb). apply Nat.eqb_eq in Hs. lia.
    - destruct (IHt Hb). split; nia.
  Qed.

  Lemma elems_paid (b : bool) f g t :
    wf G t = true -> (b = true -> bs t = true) ->
    paid t f g -> safe t f -> forall rec, f = des_ty G c data rec t ->
    forall l pos, (pos <= length data)%nat -> forallb (fun x => wt G x t) l = true ->
      good (work_elems G c data rec b g t l pos) (N.of_nat (length l) * price t) (length l * least t) (nest t) pos
        (des_elems c data b f t l pos)
      /\ (forall L o v p, des_elems c data b f t l pos = (o, v, p) -> alim c = Some L ->
            price t <= K * N.of_nat (least t) ->
            exists j, (j <= nest t)%nat /\ (j <= p - pos)%nat
              /\ work_elems G c data rec b g t l pos <= price t + K * B p pos + N.of_nat j * L).
  Proof.
    intros Hw Hb HP HS rec Hf l pos Hp Hl. unfold work_elems, des_elems. destruct b.
    - destruct (bs_price t (Hb eq_refl)) as [B1 B2]. rewrite des_bytes_eq by assumption.
      set (m := length l).
      assert (HA : forall o (l' : list val) p, (p = pos /\ (o = ROk -> m * bsize t = 0)%nat) \/ (o = ROk /\ p = pos + m * bsize t)%nat ->
        good (past pos (o, l', p)) (N.of_nat m * price t) (m * least t) (nest t) pos (seq_res (o, l', p))
        /\ (forall L o1 v p1, seq_res (o, l', p) = (o1, v, p1) -> alim c = Some L -> price t <= K * N.of_nat (least t) ->
            exists j, (j <= nest t)%nat /\ (j <= p1 - pos)%nat /\ past pos (o, l', p) <= price t + K * B p1 pos + N.of_nat j * L)).
      { intros o l' p H. unfold past, seq_res. cbn [snd good].
        assert (M : (m * least t <= m * bsize t)%nat) by (apply Nat.mul_le_mono_l; exact B1).
        split; [split|].
        - intro E. assert (p - pos = m * bsize t)%nat as -> by (destruct H as [[-> H]|[_ ->]]; [rewrite (H E)|]; lia).
          assert (N.of_nat (m * bsize t) <= N.of_nat m * price t) by nia. nia.
        - intros L _. exists O. split; [lia|]. split; [lia|]. nia.
        - intros L o1 v p1 E _ _. injection E as <- <- <-. exists O. split; [lia|]. split; [lia|]. nia. }
      destruct (Nat.eqb_spec (m * bsize t) 0) as [E|E]; [apply HA; left; auto|].
      destruct (_ <=? _)%nat; [|apply HA; left; split; [reflexivity|discriminate]].
      destruct (parse_all _ _ _ _); apply HA; [right; auto|left; split; [reflexivity|discriminate]].
    - rewrite <- Hf. destruct (all_paid f g t HP HS l pos Hp Hl) as [A1 A2].
      destruct (des_all f l pos) as [[o vs] p] eqn:E. unfold seq_res. split; [exact A1|].
      intros L o1 v p1 E1. injection E1 as <- _ <-. now apply A2 with (o := o) (vs := vs).
  Qed.

  Lemma assoc_paid f g ins t d fee :
    paid t f g -> safe t f -> wt G d t = true -> 1 + fee + price t <= K * N.of_nat (least t) ->
    forall n acc pos, (pos <= length data)%nat ->
      match des_assoc f ins d n acc pos with (o, _, p) =>
        (pos <= p)%nat
        /\ (o = ROk -> work_assoc g f d fee n pos <= K * B p pos)
        /\ (forall L, alim c = Some L -> exists j, (j <= nest t)%nat /\ (j <= p - pos)%nat
              /\ work_assoc g f d fee n pos <= fee + price t + K * B p pos + N.of_nat j * L)
      end.
  Proof.
    intros HP HS Hd Hpr. induction n as [|n IH]; intros acc pos Hp; cbn [work_assoc des_assoc].
    { split; [lia|]. split; [lia|]. intros L _. exists O. lia. }
    specialize (HP d pos Hp Hd). pose proof (HS d pos Hp Hd) as S.
    destruct (f d pos) as [[o v] p]. cbn [safe_out] in S. destruct S as (S1 & _).
    cbn [good] in HP. destruct HP as [M1 M2].
    destruct o;
      try (split; [lia|]; split; [discriminate|]; intros L HL; destruct (M2 L HL) as (j & J1 & J2 & J3);
           exists j; split; [lia|]; split; [lia|]; lia).
    specialize (M1 eq_refl). specialize (IH (ins acc v) p ltac:(lia)).
    destruct (des_assoc f ins d n (ins acc v) p) as [[o' l] p']. destruct IH as (I0 & I1 & I2).
    assert (EB : B p' pos = B p' p + B p pos) by lia. split; [lia|]. rewrite EB. split.
    - intro E. specialize (I1 E). lia.
    - intros L HL. destruct (I2 L HL) as (j & J1 & J2 & J3). exists j. split; [lia|]. split; [lia|]. lia.
  Qed.

  Lemma inplace_paid dc f g wrap cur t d prior pos :
    paid t f g -> wt G d t = true -> (forall x, cur = Some x -> wt G x t = true) -> (pos <= length data)%nat ->
    good (work_inplace dc g cur d (csizeof c t) pos) (csizeof c t + price t) (least t) (nest t) pos
      (des_inplace dc f wrap cur d prior pos).
  Proof.
    intros HP Hd Hc Hp. unfold work_inplace, des_inplace.
    assert (HA : forall x fee, wt G x t = true -> fee <= csizeof c t ->
       forall A (y : res * A * nat), fst (fst y) = fst (fst (f x pos)) -> snd y = snd (f x pos) ->
       good (fee + g x pos) (csizeof c t + price t) (least t) (nest t) pos y).
    { intros x fee Hx Hfee A y E1 E2. specialize (HP x pos Hp Hx).
      destruct (f x pos) as [[o v] p], y as [[o' v'] p']. cbn [fst snd good] in *. subst o' p'.
      destruct HP as [M1 M2]. split; [intro E; specialize (M1 E); lia|].
      intros L HL. destruct (M2 L HL) as (j & J1 & J2 & J3). exists j. split; [lia|]. split; [lia|]. lia. }
    destruct dc.
    - destruct cur as [x|].
      + rewrite <- (N.add_0_l (g x pos)). apply HA; [auto|lia|..]; destruct (f x pos) as [[o v] p]; reflexivity.
      + apply HA; [auto|lia|..]; destruct (f d pos) as [[o v] p]; reflexivity.
    - apply HA; [auto|lia|..]; destruct (f d pos) as [[o v] p]; destruct o; reflexivity.
  Qed.

  Lemma size_good s pos :
    wfsz (Some s) = true -> sized s = true -> (pos <= length data)%nat ->
    match des_size c data s pos with
    | (ROk, _, p) => (pos + 1 <= p <= length data)%nat
    | (_, _, p) => p = pos
    end.
  Proof.
    intros Hs Hz Hp. pose proof (des_size_safe c s Hs data pos Hsm Hp) as S. cbn beta in S.
    destruct s as [|w|w]; [discriminate|..]; cbn [des_size wfsz] in *.
    - rewrite des_scalar_eq in * by assumption. unfold wfw in Hs.
      destruct (Nat.leb_spec (pos + w) (length data)); [lia|reflexivity].
    - rewrite des_varint_eq in * by assumption. destruct (leb_value _) as [[v k]|] eqn:E; [|reflexivity].
      apply leb_value_bounds in E. lia.
  Qed.

  Lemma resize_paid t n l :
    (work_resize G c t n l <= n * csizeof c t)
    /\ (forall L, alim c = Some L -> work_resize G c t n l <= L).
  Proof.
    unfold work_resize, vec_resize, over_limit. split.
    - destruct (match alim c with Some _ => _ | None => _ end); [lia|]. destruct (_ || _); [|lia]. destruct (_ <=? _); lia.
    - intros L ->. destruct (N.ltb_spec (L / csizeof c t) n) as [H|H]; [lia|].
      destruct (_ || _); [|lia]. destruct (_ <=? _); [lia|].
      destruct (N.eq_dec (csizeof c t) 0) as [->|H0]; [lia|].
      transitivity (L / csizeof c t * csizeof c t); [now apply N.mul_le_mono_r|].
      rewrite N.mul_comm. now apply N.mul_div_le.
  Qed.

  Variable rec : nat -> val -> nat -> dres.
  Variable recw : nat -> val -> nat -> N.
  Hypothesis Hrec : forall k, safe (TRec k) (rec k).
  Hypothesis Hrecw : forall k, paid (TRec k) (rec k) (fun prior pos => 1 + recw k prior pos).

  Lemma tall_flagged t : tall (flagged true true) t = true.
  Proof.
    induction t using ty_ind'; cbn [tall]; unfold flagged; cbn [orb andb]; auto;
      rewrite forallb_forall; rewrite Forall_forall in H; auto.
  Qed.

  Lemma ty_paid t :
    wf G t = true -> tallP (cmp_ok G) t -> tall (fair G c W K) t = true ->
    paid t (des_ty G c data rec t) (work_ty G c data rec recw t).
  Proof.
    assert (HSafe : forall t, wf G t = true -> tallP (cmp_ok G) t -> safe t (des_ty G c data rec t)).
    { intros t0 H1 H2. apply des_ty_safe; auto. apply tall_flagged. }
    induction t using ty_ind'; intros Hw Hcp Hf prior pos Hp Hpr;
      pose proof (HSafe _ Hw Hcp prior pos Hp Hpr) as HSO.
    - (* scalar *)
      cbn [work_ty Cost.price Resource.least]. destruct prior; try discriminate.
      apply good_leaf; [|intros E|lia]; cbn [des_ty nres] in *; unfold nres in *;
        rewrite des_scalar_eq in * by assumption; destruct (Nat.leb_spec (pos + w) (length data)); cbn [fst snd] in *; lia || discriminate.
    - (* bool *)
      cbn [work_ty Cost.price Resource.least].
      apply good_leaf; [|intros E|lia]; cbn [des_ty] in *;
        rewrite des_scalar_eq in * by assumption; destruct (Nat.leb_spec (pos + 1) (length data)); cbn [fst snd] in *;
        try destruct (_ <? 2); cbn [fst snd] in *; lia || discriminate.
    - (* varint *)
      cbn [work_ty Cost.price Resource.least wf] in *. destruct prior; try discriminate.
      apply good_leaf; [|intros E|lia]; cbn [des_ty nres] in *; unfold nres in *;
        rewrite des_varint_eq in * by assumption; destruct (leb_value _) as [[v k]|] eqn:El; cbn [fst snd] in *;
        try apply leb_value_bounds in El; lia || discriminate.
    - (* empty *)
      cbn [work_ty Cost.price Resource.least]. apply good_leaf; cbn [des_ty fst snd]; lia.
    - (* struct *)
      cbn [work_ty].
      destruct ((negb (s_expl si) && is_empty (TStruct si ms)) || as_bytes c (TStruct si ms)) eqn:Eb.
      + apply good_leaf.
        * destruct (des_ty G c data rec (TStruct si ms) prior pos) as [[o v] p]. cbn [safe_out fst snd] in *. lia.
        * cbn [des_ty]. destruct (negb (s_expl si) && is_empty (TStruct si ms)) eqn:E1.
          -- apply andb_true_iff in E1 as [_ E1]. cbn [is_empty] in E1. destruct ms; [|discriminate].
             cbn. lia.
          -- cbn [orb] in Eb. rewrite Eb.
             destruct (bs_price (TStruct si ms) (as_bytes_bs _ _ Eb)) as [B1 _].
             rewrite des_bytes_eq by assumption. rewrite !Nat.mul_1_l.
             destruct (Nat.eqb_spec (bsize (TStruct si ms)) 0); [cbn [fst snd]; lia|].
             destruct (_ <=? _)%nat; [|cbn [fst]; discriminate].
             destruct (parse_all _ _ _ _) as [vs|] eqn:Ep; [|cbn [fst]; discriminate].
             destruct vs as [|x [|y vs]]; cbn [fst snd]; lia.
        * destruct (negb (s_expl si) && is_empty (TStruct si ms)) eqn:E1.
          -- apply andb_true_iff in E1 as [_ E1]. cbn [is_empty] in E1. destruct ms; [|discriminate]. cbn. lia.
          -- cbn [orb] in Eb. destruct (bs_price (TStruct si ms) (as_bytes_bs _ _ Eb)) as [B1 B2]. lia.
      + apply orb_false_iff in Eb as [E1 E2]. cbn [des_ty] in *. rewrite E1, E2 in *.
        destruct prior; try discriminate. cbn [as_seq wt] in *.
        cbn [wf] in Hw. rewrite !andb_true_iff in Hw. destruct Hw as [[_ Hw] _].
        cbn [tall] in Hf. apply andb_true_iff in Hf as [_ Hf].
        cbn [tallP] in Hcp. destruct Hcp as [_ Hcp]. apply tallP_list in Hcp.
        rewrite forallb_forall in Hw, Hf. rewrite Forall_forall in H, Hcp.
        assert (HP : Forall (fun m => paid m (des_ty G c data rec m) (work_ty G c data rec recw m)) ms)
          by (rewrite Forall_forall; intros m Hin; apply H; auto).
        assert (HS : Forall (fun m => safe m (des_ty G c data rec m)) ms)
          by (rewrite Forall_forall; intros m Hin; apply HSafe; auto).
        pose proof (many_paid _ _ ms HP HS l pos Hp Hpr) as M.
        destruct (des_many (des_ty G c data rec) ms l pos) as [[o vs] p]. cbn [seq_res safe_out] in *.
        eapply good_from; [exact M|reflexivity|reflexivity|cbn [snd]; lia|apply le_n|..];
          cbn [Cost.price Resource.least]; lia.
    - (* named class *)
      cbn [work_ty des_ty]. now apply Hrecw.
    - (* array *)
      destruct prior; try discriminate. cbn [wt] in Hpr. apply andb_true_iff in Hpr as [Hn Hpr].
      apply Nat.eqb_eq in Hn. cbn [work_ty des_ty as_seq] in *. cbn [wf] in Hw. apply andb_true_iff in Hw as [_ Hw].
      cbn [tall tallP] in *. apply andb_true_iff in Hf as [_ Hf]. destruct Hcp as [_ Hcp].
      destruct (elems_paid (as_bytes c t) _ (work_ty G c data rec recw t) t Hw (as_bytes_bs c t)
                  (IHt Hw Hcp Hf) (HSafe t Hw Hcp) rec eq_refl l pos Hp Hpr) as [M _].
      rewrite Hn in M.
      destruct (des_elems c data (as_bytes c t) (des_ty G c data rec t) t l pos) as [[o v] p]. cbn [safe_out] in HSO.
      eapply good_from; [exact M|reflexivity|reflexivity|cbn [snd]; lia|apply le_n|..];
        cbn [Cost.price Resource.least]; lia.
    - (* tuple *)
      destruct prior; try discriminate. cbn [wt] in Hpr. cbn [work_ty des_ty as_seq] in *. cbn [wf] in Hw.
      cbn [tall tallP] in *. apply andb_true_iff in Hf as [_ Hf]. destruct Hcp as [_ Hcp].
      apply tallP_list in Hcp. rewrite forallb_forall in Hw, Hf. rewrite Forall_forall in H, Hcp.
      assert (HP : Forall (fun m => paid m (des_ty G c data rec m) (work_ty G c data rec recw m)) ts)
        by (rewrite Forall_forall; intros m Hin; apply H; auto).
      assert (HS : Forall (fun m => safe m (des_ty G c data rec m)) ts)
        by (rewrite Forall_forall; intros m Hin; apply HSafe; auto).
      pose proof (many_paid _ _ ts HP HS l pos Hp Hpr) as M.
      destruct (des_many (des_ty G c data rec) ts l pos) as [[o vs] p]. cbn [seq_res safe_out] in *.
      eapply good_from; [exact M|reflexivity|reflexivity|cbn [snd]; lia|apply le_n|..];
        cbn [Cost.price Resource.least]; lia.
    - (* vector *)
      destruct prior; try discriminate. cbn [wt] in Hpr.
      cbn [wf] in Hw. apply andb_true_iff in Hw as [Hs Hw]. apply (wfsz_sz_of c) in Hs; [|exact Hds].
      cbn [tall tallP fair] in *. rewrite !andb_true_iff in Hf. destruct Hf as [[[Hz Hfl] Hk] Hf]. destruct Hcp as [_ Hcp].
      apply N.ltb_lt in Hk. apply Nat.leb_le in Hfl. unfold floor in Hfl.
      assert (Hb : as_bytes c t && cg = true -> bs t = true)
        by (intro Hb; apply andb_true_iff in Hb as [Hb _]; eapply as_bytes_bs; eauto).
      assert (E : good (1 + (past pos (des_size c data (sz_of c s) pos) +
            match des_size c data (sz_of c s) pos with
            | (ROk, n, pos') =>
                work_resize G c t n l +
                match vec_resize G c t n l with
                | (ROk, l) => work_elems G c data rec (as_bytes c t && cg) (work_ty G c data rec recw t) t l pos'
                | _ => 0
                end
            | _ => 0
            end)) 2 1 (S (nest t)) pos
        match des_size c data (sz_of c s) pos with
            | (ROk, n, pos') =>
                match vec_resize G c t n l with
                | (ROk, l) => des_elems c data (as_bytes c t && cg) (des_ty G c data rec t) t l pos'
                | (r, l) => (r, VSeq l, pos')
                end
            | (r, _, pos') => (r, VSeq l, pos')
            end).
      { clear HSO. pose proof (size_good (sz_of c s) pos Hs Hz Hp) as S.
        assert (HF : forall o (v : val) p w, o <> ROk -> (pos <= p)%nat -> w <= B p pos ->
                  good (1 + w) 2 1 (Datatypes.S (nest t)) pos (o, v, p)).
        { intros o v p w Ho Hpp Hww. cbn [good]. split; [intro; congruence|]. intros L _. exists O. nia. }
        destruct (des_size c data (sz_of c s) pos) as [[o n] p1]. unfold past. cbn [snd].
        destruct o; try (apply HF; [discriminate|lia|lia]).
        destruct (resize_paid t n l) as [R1 R2].
        destruct (vec_resize G c t n l) as [o l'] eqn:Ev.
        assert (R0 : o <> ROk -> work_resize G c t n l = 0).
        { intro Ho. unfold work_resize. rewrite Ev. destruct o; congruence. }
        destruct (vec_resize_wt G c true true HG t n l o l' Hw Hpr Ev) as (V1 & _ & V3).
        destruct o; try (rewrite R0 by discriminate; apply HF; [discriminate|lia|lia]).
        clear HF R0. specialize (V3 eq_refl).
        pose proof (des_elems_safe G c data true true Hsm (as_bytes c t && cg) (des_ty G c data rec t) t l' p1 Hw
                      (tall_flagged t) Hb (HSafe t Hw Hcp) ltac:(lia) V1) as SE.
        destruct (elems_paid (as_bytes c t && cg) _ (work_ty G c data rec recw t) t Hw Hb
                  (IHt Hw Hcp Hf) (HSafe t Hw Hcp) rec eq_refl l' p1 ltac:(lia) V1) as [M1 M2].
        set (E := work_elems G c data rec (as_bytes c t && cg) (work_ty G c data rec recw t) t l' p1) in *.
        destruct (des_elems c data (as_bytes c t && cg) (des_ty G c data rec t) t l' p1) as [[o v] p] eqn:Ed.
        assert (HPP : (p1 <= p)%nat) by (destruct v; tauto || lia). clear SE.
        cbn [good] in M1 |- *. destruct M1 as [M1 _].
        assert (EB : B p pos = B p p1 + B p1 pos) by lia. rewrite EB.
        assert (HL1 : csizeof c t + price t <= K * N.of_nat (least t)) by nia.
        assert (HS1 : 1 <= B p1 pos) by lia.
        split.
        - intro Eo. specialize (M1 Eo).
          assert (X1 : N.of_nat (length l') = n) by lia. rewrite X1 in M1. rewrite Nat2N.inj_mul, X1 in M1.
          assert (X2 : n * (csizeof c t + price t) <= n * (K * N.of_nat (least t))) by (apply N.mul_le_mono_l; exact HL1).
          assert (X3 : work_resize G c t n l + E <= K * B p p1) by lia. nia.
        - intros L HL. destruct (M2 L o v p eq_refl HL ltac:(lia)) as (j & J1 & J2 & J3).
          exists (Datatypes.S j). split; [lia|]. split; [lia|]. specialize (R2 L HL).
          assert (price t + B p1 pos <= K * B p1 pos + 1) by nia. lia. }
      cbn [work_ty des_ty as_seq Cost.price Resource.least Cost.nest]. destruct (sz_of c s); [discriminate Hz|exact E..].
    - (* assoc *)
      cbn [wf] in Hw. apply andb_true_iff in Hw as [Hs Hw]. apply (wfsz_sz_of c) in Hs; [|exact Hds].
      cbn [tall tallP fair] in *. rewrite !andb_true_iff in Hf. destruct Hf as [[[Hz Hfl] Hk] Hf]. destruct Hcp as [_ Hcp].
      apply N.ltb_lt in Hk. apply Nat.leb_le in Hfl. unfold floor in Hfl. clear HSO.
      cbn [work_ty des_ty Cost.price Resource.least Cost.nest].
      pose proof (size_good (sz_of c s) pos Hs Hz Hp) as S.
      assert (E : good (1 + (past pos (des_size c data (sz_of c s) pos) +
            match des_size c data (sz_of c s) pos with
            | (ROk, n, pos') =>
                work_assoc (work_ty G c data rec recw t) (des_ty G c data rec t) (dflt G t) (csizeof c t) (N.to_nat n) pos'
            | _ => 0
            end)) 2 1 (nest t) pos
          match des_size c data (sz_of c s) pos with
          | (ROk, n, pos') =>
            seq_res (des_assoc (des_ty G c data rec t) (assoc_insert k) (dflt G t) (N.to_nat n) [] pos')
          | (r, _, pos') => (r, prior, pos')
          end).
      { destruct (des_size c data (sz_of c s) pos) as [[o n] p1]. unfold past. cbn [snd].
        destruct o; try (cbn [good]; split; [discriminate|]; intros L _; exists O; subst p1; nia).
        assert (HL1 : 1 + csizeof c t + price t <= K * N.of_nat (least t)) by nia.
        pose proof (assoc_paid _ (work_ty G c data rec recw t) (assoc_insert k) t (dflt G t) (csizeof c t)
             (IHt Hw Hcp Hf) (HSafe t Hw Hcp) (wt_dflt G t HG Hw) HL1 (N.to_nat n) [] p1 ltac:(lia)) as M.
        destruct (des_assoc _ _ _ _ _ _) as [[o l] p]. destruct M as (M0 & M1 & M2). cbn [seq_res good].
        assert (EB : B p pos = B p p1 + B p1 pos) by lia. rewrite EB.
        assert (HS1 : 1 <= B p1 pos) by lia. split.
        - intro Eo. specialize (M1 Eo). nia.
        - intros L HL. destruct (M2 L HL) as (j & J1 & J2 & J3). exists j. split; [lia|]. split; [lia|].
          assert (csizeof c t + price t + B p1 pos <= K * B p1 pos + 1) by nia. lia. }
      destruct (sz_of c s); [discriminate Hz|exact E..].
    - (* optional *)
      cbn [wf tall tallP fair] in *. apply andb_true_iff in Hf as [Hk Hf]. destruct Hcp as [_ Hcp].
      cbn [work_ty des_ty Cost.price Resource.least Cost.nest] in *. unfold des_flag in *.
      rewrite des_scalar_eq in * by assumption.
      destruct (Nat.leb_spec (pos + 1) (length data)).
      2:{ unfold past. cbn [snd good]. split; [discriminate|]. intros L _. exists O. nia. }
      destruct (scalar_val c (window data pos 1)) as [|q].
      { unfold past. cbn [snd good]. split; [intros _; nia|]. intros L _. exists O. nia. }
      pose proof (inplace_paid dc (des_ty G c data rec t) (work_ty G c data rec recw t) VSome (opt_cur prior) t (dflt G t) prior
         (pos + 1)%nat (IHt Hw Hcp Hf) (wt_dflt G t HG Hw)
         ltac:(intros x Hx; destruct prior; try discriminate; injection Hx as <-; exact Hpr) ltac:(lia)) as M.
      pose proof (des_inplace_safe G data true true dc (des_ty G c data rec t) VSome (opt_cur prior) (dflt G t) prior (pos + 1)
         (TOpt dc t) t (HSafe t Hw Hcp) (wt_dflt G t HG Hw)
         ltac:(intros x Hx; destruct prior; try discriminate; injection Hx as <-; exact Hpr) Hpr ltac:(auto) ltac:(lia)) as SI.
      destruct (des_inplace dc (des_ty G c data rec t) VSome (opt_cur prior) (dflt G t) prior (pos + 1)) as [[o v] p].
      cbn [safe_out] in SI. unfold past. cbn [snd].
      eapply good_from; [exact M|reflexivity|reflexivity|cbn [snd]; lia|apply le_n|..];
        unfold floor in *; destruct (Nat.leb_spec 1 (least t)); nia.
    - (* optional_ptr *)
      cbn [wf tall tallP fair] in *. apply andb_true_iff in Hf as [Hk Hf]. destruct Hcp as [_ Hcp].
      cbn [work_ty des_ty Cost.price Resource.least Cost.nest] in *. unfold des_flag in *.
      rewrite des_scalar_eq in * by assumption.
      destruct (Nat.leb_spec (pos + 1) (length data)).
      2:{ unfold past. cbn [snd good]. split; [discriminate|]. intros L _. exists O. nia. }
      destruct (scalar_val c (window data pos 1)) as [|q].
      { unfold past. cbn [snd good]. split; [intros _; nia|]. intros L _. exists O. nia. }
      pose proof (IHt Hw Hcp Hf (dflt G t) (pos + 1)%nat ltac:(lia) (wt_dflt G t HG Hw)) as M.
      pose proof (HSafe t Hw Hcp (dflt G t) (pos + 1)%nat ltac:(lia) (wt_dflt G t HG Hw)) as SI.
      unfold des_ptr. destruct (des_ty G c data rec t (dflt G t) (pos + 1)%nat) as [[o v] p].
      cbn [safe_out] in SI. unfold past. cbn [snd].
      eapply good_from; [exact M|now destruct o|now destruct o|cbn [snd]; lia|apply le_n|..];
        unfold floor in *; destruct (Nat.leb_spec 1 (least t)); nia.
    - (* owning pointer *)
      cbn [wf tall tallP fair] in *. destruct Hcp as [_ Hcp].
      cbn [work_ty des_ty Cost.price Resource.least Cost.nest] in *.
      pose proof (IHt Hw Hcp Hf (dflt G t) pos Hp (wt_dflt G t HG Hw)) as M.
      pose proof (HSafe t Hw Hcp (dflt G t) pos Hp (wt_dflt G t HG Hw)) as SI.
      unfold des_ptr. destruct (des_ty G c data rec t (dflt G t) pos) as [[o v] p].
      cbn [safe_out] in SI.
      eapply good_from; [exact M|now destruct o|now destruct o|cbn [snd]; lia|apply le_n|lia|lia].
    - (* variant *)
      rewrite des_variant_eq, work_variant_eq. clear HSO.
      cbn [tall tallP fair] in *. rewrite !andb_true_iff in Hf. destruct Hf as [[Hid Hk] Hf].
      destruct Hcp as [_ Hcp]. apply tallP_list in Hcp. apply Nat.leb_le in Hid.
      cbn [wf] in Hw. rewrite !andb_true_iff in Hw. destruct Hw as [[[[Hl Hm] Hd] Hi] Hw].
      cbn [Cost.price Resource.least Cost.nest]. rewrite des_id_eq by assumption.
      destruct (Nat.leb_spec (pos + idwidth ik) (length data)).
      2:{ unfold past. cbn [snd good]. split; [discriminate|]. intros L _. exists O. nia. }
      set (id := match ik with IdInt _ => _ | IdBytes _ => _ end). clearbody id.
      set (extra := fun t' : ty => if (1 <=? floor G t')%nat then 0 else csizeof c t' + price t').
      unfold past. cbn [snd].
      destruct (find_id meta id) as [i|] eqn:Ef.
      2:{ cbn [good]. split; [discriminate|]. intros L _. exists O. nia. }
      destruct (nth_error alts i) as [t'|] eqn:Ea.
      2:{ cbn [good]. split; [discriminate|]. intros L _. exists O. nia. }
      pose proof (nth_error_In _ _ Ea) as Hin.
      rewrite forallb_forall in Hw, Hf, Hk. rewrite Forall_forall in H, Hcp.
      assert (Hcur : forall x, active i prior = Some x -> wt G x t' = true).
      { intros x Hx. destruct prior; try discriminate. cbn [active] in Hx.
        destruct (Nat.eqb_spec i i0) as [->|]; [|discriminate]. injection Hx as <-.
        cbn [wt] in Hpr. now rewrite Ea in Hpr. }
      set (dc := match nth_error meta i with Some (_, b) => b | None => true end).
      pose proof (inplace_paid dc (des_ty G c data rec t') (work_ty G c data rec recw t') (VAlt i) (active i prior) t' (dflt G t') prior
         (pos + idwidth ik)%nat (H t' Hin (Hw t' Hin) (Hcp t' Hin) (Hf t' Hin)) (wt_dflt G t' HG (Hw t' Hin)) Hcur ltac:(lia)) as M.
      pose proof (des_inplace_safe G data true true dc (des_ty G c data rec t') (VAlt i) (active i prior) (dflt G t') prior (pos + idwidth ik)
         (TVariant ik meta alts) t' (HSafe t' (Hw t' Hin) (Hcp t' Hin)) (wt_dflt G t' HG (Hw t' Hin)) Hcur Hpr
         ltac:(intros x Hx; cbn [wt]; now rewrite Ea) ltac:(lia)) as SI.
      destruct (des_inplace dc (des_ty G c data rec t') (VAlt i) (active i prior) (dflt G t') prior (pos + idwidth ik)) as [[o v] p].
      cbn [safe_out] in SI.
      pose proof (nsum_In (extra t') (map extra alts) (in_map _ _ _ Hin)) as HX.
      specialize (Hk t' Hin). change (floor G t') with (least t') in *.
      eapply good_from; [exact M|reflexivity|reflexivity|cbn [snd]; lia|apply list_max_In; now apply in_map|..];
        unfold extra in HX at 1; change (floor G t') with (least t') in HX; destruct (Nat.leb_spec 1 (least t')); nia.
    - (* bitset *)
      cbn [work_ty Cost.price Resource.least]. apply good_leaf.
      + destruct (des_ty G c data rec (TBitset n) prior pos) as [[o v] p]. cbn [safe_out fst snd] in *. lia.
      + cbn [des_ty]. unfold des_bitset. rewrite remaining_small by assumption.
        destruct (_ <? _); [discriminate|]. unfold load. destruct (_ <=? _)%nat; [|discriminate].
        cbn [fst snd]. unfold bitset_bytes. lia.
      + lia.
    - (* view *)
      cbn [work_ty]. apply good_leaf.
      + destruct (des_ty G c data rec (TView k) prior pos) as [[o v] p]. cbn [safe_out fst snd] in *. lia.
      + destruct k as [s|n|]; cbn [Resource.least].
        * cbn [wf des_ty] in *. destruct (sized (sz_of c s)) eqn:Hz.
          -- pose proof (size_good (sz_of c s) pos (wfsz_sz_of c s Hds Hw) Hz Hp) as S.
             destruct (des_size c data (sz_of c s) pos) as [[o n] p1]. destruct o; try discriminate.
             destruct (sz_of c s); [discriminate|..];
               (destruct (_ <? n); [discriminate|]; destruct (load _ _ _); [|discriminate]; cbn [fst snd]; lia).
          -- cbn [tall fair] in Hf. rewrite andb_true_r in Hf. congruence.
        * destruct (des_ty G c data rec (TView (VwFixed n)) prior pos) as [[o v] p]. cbn [safe_out fst snd] in *. lia.
        * destruct (des_ty G c data rec (TView VwRest) prior pos) as [[o v] p]. cbn [safe_out fst snd] in *. lia.
      + destruct k; cbn; lia.
    - (* span *)
      destruct prior; try discriminate. cbn [wt] in Hpr.
      cbn [wf] in Hw. apply andb_true_iff in Hw as [Hs Hw]. apply (wfsz_sz_of c) in Hs; [|exact Hds].
      cbn [tall tallP fair] in *. rewrite !andb_true_iff in Hf. destruct Hf as [[[Hz Hfl] Hk] Hf]. destruct Hcp as [_ Hcp].
      apply N.ltb_lt in Hk. apply Nat.leb_le in Hfl. unfold floor in Hfl. clear HSO.
      assert (E : good (1 + (past pos (des_size c data (sz_of c s) pos) +
            match des_size c data (sz_of c s) pos with
            | (ROk, n, pos') =>
                if N.of_nat (length l) <? n then 0
                else work_elems G c data rec (as_bytes c t) (work_ty G c data rec recw t) t (firstn (N.to_nat n) l) pos'
            | _ => 0
            end)) 2 0 (nest t) pos
        match des_size c data (sz_of c s) pos with
            | (ROk, n, pos') =>
                if N.of_nat (length l) <? n then (RErr result_out_of_range, VSeq l, pos')
                else des_elems c data (as_bytes c t) (des_ty G c data rec t) t (firstn (N.to_nat n) l) pos'
            | (r, _, pos') => (r, VSeq l, pos')
            end).
      { pose proof (size_good (sz_of c s) pos Hs Hz Hp) as S.
        assert (HF : forall o (v : val) p w, o <> ROk -> (pos <= p)%nat -> w <= B p pos ->
                  good (1 + w) 2 0 (nest t) pos (o, v, p)).
        { intros o v p w Ho Hpp Hww. cbn [good]. split; [intro; congruence|]. intros L _. exists O. nia. }
        destruct (des_size c data (sz_of c s) pos) as [[o n] p1]. unfold past. cbn [snd].
        destruct o; try (apply HF; [discriminate|lia|lia]).
        destruct (_ <? n); [apply HF; [discriminate|lia|lia]|]. clear HF.
        set (l' := firstn (N.to_nat n) l).
        assert (V1 : forallb (fun x => wt G x t) l' = true).
        { rewrite forallb_forall in *. intros x Hin. apply Hpr.
          rewrite <- (firstn_skipn (N.to_nat n) l). apply in_or_app. now left. }
        pose proof (des_elems_safe G c data true true Hsm (as_bytes c t) (des_ty G c data rec t) t l' p1 Hw
                      (tall_flagged t) (as_bytes_bs c t) (HSafe t Hw Hcp) ltac:(lia) V1) as SE.
        destruct (elems_paid (as_bytes c t) _ (work_ty G c data rec recw t) t Hw (as_bytes_bs c t)
                  (IHt Hw Hcp Hf) (HSafe t Hw Hcp) rec eq_refl l' p1 ltac:(lia) V1) as [M1 M2].
        set (E := work_elems G c data rec (as_bytes c t) (work_ty G c data rec recw t) t l' p1) in *.
        destruct (des_elems c data (as_bytes c t) (des_ty G c data rec t) t l' p1) as [[o v] p] eqn:Ed.
        assert (HPP : (p1 <= p)%nat) by (destruct v; tauto || lia). clear SE.
        cbn [good] in M1 |- *. destruct M1 as [M1 _].
        assert (EB : B p pos = B p p1 + B p1 pos) by lia. rewrite EB.
        assert (HL1 : csizeof c t + price t <= K * N.of_nat (least t)) by nia.
        assert (HS1 : 1 <= B p1 pos) by lia.
        split.
        - intro Eo. specialize (M1 Eo). rewrite Nat2N.inj_mul in M1.
          assert (X2 : N.of_nat (length l') * price t <= N.of_nat (length l') * (K * N.of_nat (least t)))
            by (apply N.mul_le_mono_l; lia).
          assert (X3 : E <= K * B p p1) by lia. nia.
        - intros L HL. destruct (M2 L o v p eq_refl HL ltac:(lia)) as (j & J1 & J2 & J3).
          exists j. split; [lia|]. split; [lia|].
          assert (price t + B p1 pos <= K * B p1 pos + 1) by nia. lia. }
      cbn [work_ty des_ty as_seq Cost.price Resource.least Cost.nest]. destruct (sz_of c s); [discriminate Hz|exact E..].
  Qed.
End Bound.

Section BoundRec.
  Variables (G : tenv) (c : cfg) (data : list byte) (W : nat -> N) (K : N).
  Hypothesis (Hsm : small data) (HG : wf_env G) (Hds : wfsz (Some (dsize c)) = true) (HK : 2 <= K).
  Hypothesis (Hcmp : tallP_env (cmp_ok G) G) (HE : tall_env (fair G c W K) G).
  Hypothesis (HW : forall k, 1 + nsum (map (price G c W) (t_mems G k)) <= W k).

  Lemma flagged_env : tall_env (flagged true true) G.
  Proof. intro k. rewrite forallb_forall. intros t _. apply tall_flagged. Qed.

  Lemma rec_paid fuel : forall k,
    paid G c data W K (nest_rec G fuel) (TRec k) (des_rec G c data fuel k)
      (fun prior pos => 1 + work_rec G c data fuel k prior pos).
  Proof.
    induction fuel as [|f IH]; intros k prior pos Hp Hpr; cbn [des_rec work_rec].
    - cbn [good]. split; [discriminate|]. intros L _. exists O. cbn [price]. specialize (HW k). lia.
    - destruct prior; try discriminate. cbn [wt as_seq] in *.
      destruct (HG k) as [Hw _]. pose proof (HE k) as HE'. pose proof (Hcmp k) as Hc'. rewrite forallb_forall in Hw, HE'.
      rewrite Forall_forall in Hc'.
      assert (HS : forall k, safe_f G data true true (TRec k) (des_rec G c data f k))
        by (intro j; apply des_rec_safe; auto using flagged_env).
      assert (HSF : Forall (fun m => safe_f G data true true m (des_ty G c data (des_rec G c data f) m)) (t_mems G k))
        by (rewrite Forall_forall; intros m Hin; apply des_ty_safe; auto using tall_flagged).
      assert (HPF : Forall (fun m => paid G c data W K (nest_rec G f) m (des_ty G c data (des_rec G c data f) m)
                (work_ty G c data (des_rec G c data f) (work_rec G c data f) m)) (t_mems G k))
        by (rewrite Forall_forall; intros m Hin; apply ty_paid; auto).
      pose proof (many_paid G c data W K (nest_rec G f) HK _ _ _ HPF HSF l pos Hp Hpr) as M.
      pose proof (des_many_safe G data true true _ _ HSF l pos Hp Hpr) as S.
      destruct (des_many _ _ _ _) as [[o vs] p]. destruct S as (S1 & _). cbn [seq_res].
      assert (Hle : (list_sum (map (least (fun _ => 0)) (t_mems G k))
                <= list_sum (map (least (fun k => list_sum (map (least (fun _ => 0)) (t_mems G k)))) (t_mems G k)))%nat).
      { clear. induction (t_mems G k) as [|t l IH]; [cbn; lia|].
        pose proof (least_mono (fun _ => 0) (fun k => list_sum (map (least (fun _ => 0)) (t_mems G k))) t ltac:(intro; apply Nat.le_0_l))%nat.
        unfold list_sum in *. cbn [map fold_right] in *. lia. }
      pose proof (HW k).
      eapply good_from; [exact W|exact (nest_rec G f)|exact HK|exact M|reflexivity|reflexivity|cbn [snd]; lia| |..];
        cbn [price least nest nest_rec]; [apply le_n|nia|lia].
  Qed.

  Lemma call_paid fuel ts :
    forallb (wf G) ts = true -> Forall (tallP (cmp_ok G)) ts -> forallb (tall (fair G c W K)) ts = true ->
    forall priors pos, (pos <= length data)%nat -> forall2b (fun x m => wt G x m) priors ts = true ->
    good c K (in_work G c data fuel ts priors pos) (nsum (map (price G c W) ts)) 
      (list_sum (map (floor G) ts)) (list_max (map (nest (nest_rec G fuel)) ts)) pos (in_call G c data fuel ts priors pos)
    /\ (pos <= snd (in_call G c data fuel ts priors pos))%nat.
  Proof.
    intros Hw Hcp Hf priors pos Hp Hpr. rewrite forallb_forall in Hw, Hf. rewrite Forall_forall in Hcp.
    assert (HS : forall k, safe_f G data true true (TRec k) (des_rec G c data fuel k))
      by (intro j; apply des_rec_safe; auto using flagged_env).
    assert (HSF : Forall (fun m => safe_f G data true true m (des G c data fuel m)) ts)
      by (rewrite Forall_forall; intros m Hin; apply des_ty_safe; auto using tall_flagged).
    assert (HPF : Forall (fun m => paid G c data W K (nest_rec G fuel) m (des G c data fuel m) (work G c data fuel m)) ts)
      by (rewrite Forall_forall; intros m Hin; apply ty_paid; auto using rec_paid).
    split.
    - exact (many_paid G c data W K (nest_rec G fuel) HK _ _ _ HPF HSF priors pos Hp Hpr).
    - pose proof (des_many_safe G data true true _ _ HSF priors pos Hp Hpr) as S.
      unfold in_call. destruct (des_many _ _ _ _) as [[o vs] p]. cbn [snd]. lia.
  Qed.
End BoundRec.

(** ** Theorems *)

(** Types whose work can be bounded: [K] per byte, with the prices [W] of named classes. *)
Record payable (G : tenv) (c : cfg) (W : nat -> N) (K : N) (ts : list ty) : Prop := {
  pay_types : forallb (tall (fair G c W K)) ts = true;
  pay_env : tall_env (fair G c W K) G;
  pay_named : forall k, 1 + nsum (map (price G c W) (t_mems G k)) <= W k;
  pay_rate : 2 <= K
}.

(** C73: a call that succeeds does work that is linear in the bytes it consumes - whatever the
    input, however the containers are nested, with or without a limit. *)
Theorem in_work_linear G c data fuel W K ts priors pos vs p :
  reading G c data (TTuple ts) -> payable G c W K ts -> (pos <= length data)%nat ->
  wt G (VSeq priors) (TTuple ts) = true ->
  in_call G c data fuel ts priors pos = (ROk, vs, p) ->
  in_work G c data fuel ts priors pos <= nsum (map (price G c W) ts) + K * N.of_nat (p - pos).
Proof.
  intros [R1 R2 R3 R4 R5 R6] [P1 P2 P3 P4] Hp Hv E. cbn [wf tallP wt] in *. destruct R5 as [_ R5]. apply tallP_list in R5.
  destruct (call_paid G c data W K R3 R1 R2 P4 R4 P2 P3 fuel ts R6 R5 P1 priors pos Hp Hv) as [M _].
  rewrite E in M. cbn [good] in M. destruct M as [M _]. specialize (M eq_refl). lia.
Qed.

(** C73: a call that fails may have prepared for elements that never came: at most alloc_limit
    for each vector it was in, and it was in no more vectors than are nested in the types and than
    it has consumed bytes. *)
Theorem in_work_limited G c data fuel W K ts priors pos L :
  reading G c data (TTuple ts) -> payable G c W K ts -> (pos <= length data)%nat ->
  wt G (VSeq priors) (TTuple ts) = true -> alim c = Some L ->
  let '(_, _, p) := in_call G c data fuel ts priors pos in
  in_work G c data fuel ts priors pos
  <= nsum (map (price G c W) ts) + K * N.of_nat (p - pos)
     + L * N.of_nat (Nat.min (list_max (map (nest (nest_rec G fuel)) ts)) (p - pos)).
Proof.
  intros [R1 R2 R3 R4 R5 R6] [P1 P2 P3 P4] Hp Hv HL. cbn [wf tallP wt] in *. destruct R5 as [_ R5]. apply tallP_list in R5.
  destruct (call_paid G c data W K R3 R1 R2 P4 R4 P2 P3 fuel ts R6 R5 P1 priors pos Hp Hv) as [M _].
  destruct (in_call G c data fuel ts priors pos) as [[o vs] p]. cbn [good] in M. destruct M as [_ M].
  destruct (M L HL) as (j & J1 & J2 & J3).
  assert (N.of_nat j * L <= L * N.of_nat (Nat.min (list_max (map (nest (nest_rec G fuel)) ts)) (p - pos))).
  { rewrite N.mul_comm. apply N.mul_le_mono_l. lia. }
  lia.
Qed.

(** Without a limit nothing bounds the work of a failing call: four bytes announce numbers that
    do not follow, and all are created before that is noticed. *)
Theorem work_announced_refuted n :
  0 < n < 2 ^ 32 ->
  let data := le_bytes 4 n in
  let t := TVec None true (TScalar 8 false) in
  fst (fst (des node_env vec_cfg data 0 t (VSeq []) 0)) = RErr result_out_of_range
  /\ 8 * n <= work node_env vec_cfg data 0 t (VSeq []) 0.
Proof.
  intros [H0 Hn] data t. unfold des, work. cbn [t des_ty work_ty sz_of]. change (dsize vec_cfg) with (SzFix 4). cbn iota.
  assert (ES : des_size vec_cfg data (SzFix 4) 0 = (ROk, n, 4%nat)).
  { cbn [des_size]. unfold data.
    rewrite des_scalar_eq by (rewrite ?le_bytes_length; unfold small; rewrite ?le_bytes_length; lia).
    rewrite le_bytes_length. cbn [Nat.leb Nat.add]. f_equal. f_equal.
    change (window (le_bytes 4 n) 0 4) with (firstn 4 (le_bytes 4 n)).
    rewrite firstn_all2 by (rewrite le_bytes_length; lia).
    change (scalar_val vec_cfg (le_bytes 4 n)) with (le_val (le_bytes 4 n)).
    now rewrite le_val_le_bytes_small. }
  rewrite ES. cbn [as_seq].
  assert (EV : vec_resize node_env vec_cfg (TScalar 8 false) n [] = (ROk, vresize (VN 0) (N.to_nat n) [])).
  { unfold vec_resize. cbn [over_limit alim vec_cfg]. 
    replace (can_alloc vec_cfg (n * csizeof vec_cfg (TScalar 8 false))) with true; [now rewrite orb_true_r|].
    symmetry. unfold can_alloc. cbn [alloc_ok vec_cfg]. change (csizeof vec_cfg (TScalar 8 false)) with 8. lia. }
  unfold work_resize. rewrite EV. cbn [length]. change (N.of_nat 0) with 0.
  destruct (N.leb_spec n 0); [lia|]. change (csizeof vec_cfg (TScalar 8 false)) with 8. split; [|lia].
  unfold des_elems, seq_res. change (as_bytes vec_cfg (TScalar 8 false) && true) with true. cbn iota.
  rewrite des_bytes_eq by (unfold small, data; rewrite ?le_bytes_length; lia).
  rewrite vresize_length. cbn [bsize]. destruct (Nat.eqb_spec (N.to_nat n * 8) 0); [lia|].
  unfold data. rewrite le_bytes_length. destruct (Nat.leb_spec (4 + N.to_nat n * 8) 4); [lia|]. reflexivity.
Qed.

(** Elements that take no bytes are not paid for: the work of a successful call is not bounded by
    its bytes. *)
Theorem work_weightless_refuted n :
  n < 2 ^ 32 ->
  let data := le_bytes 4 n in
  let t := TVec None true (TPtr TEmpty) in
  (exists v, des node_env vec_cfg data 0 t (VSeq []) 0 = (ROk, v, 4%nat))
  /\ 8 * n <= work node_env vec_cfg data 0 t (VSeq []) 0.
Proof.
  intros Hn data t.
  unfold des, work in *. cbn [t des_ty work_ty sz_of] in *. change (dsize vec_cfg) with (SzFix 4) in *. cbn iota in *.
  assert (ES : des_size vec_cfg data (SzFix 4) 0 = (ROk, n, 4%nat)).
  { cbn [des_size]. unfold data.
    rewrite des_scalar_eq by (rewrite ?le_bytes_length; unfold small; rewrite ?le_bytes_length; lia).
    rewrite le_bytes_length. cbn [Nat.leb Nat.add]. f_equal. f_equal.
    change (window (le_bytes 4 n) 0 4) with (firstn 4 (le_bytes 4 n)).
    rewrite firstn_all2 by (rewrite le_bytes_length; lia).
    change (scalar_val vec_cfg (le_bytes 4 n)) with (le_val (le_bytes 4 n)).
    now rewrite le_val_le_bytes_small. }
  rewrite ES. cbn [as_seq].
  assert (EV : vec_resize node_env vec_cfg (TPtr TEmpty) n [] = (ROk, repeat VNone (N.to_nat n))).
  { unfold vec_resize. cbn [over_limit alim vec_cfg].
    replace (can_alloc vec_cfg (n * csizeof vec_cfg (TPtr TEmpty))) with true.
    - rewrite orb_true_r. unfold vresize. cbn [length]. rewrite Nat.sub_0_r, firstn_nil. reflexivity.
    - symmetry. unfold can_alloc. cbn [alloc_ok vec_cfg]. change (csizeof vec_cfg (TPtr TEmpty)) with 8. lia. }
  unfold work_resize. rewrite EV. cbn [length]. change (N.of_nat 0) with 0.
  change (csizeof vec_cfg (TPtr TEmpty)) with 8. unfold des_elems. change (as_bytes vec_cfg (TPtr TEmpty) && true) with false.
  cbn iota. split.
  - exists (VSeq (repeat (VSome (VSeq [])) (N.to_nat n))).
    assert (A : forall m, des_all (des_ty node_env vec_cfg data (des_rec node_env vec_cfg data 0) (TPtr TEmpty))
                (repeat VNone m) 4 = (ROk, repeat (VSome (VSeq [])) m, 4%nat)).
    { induction m as [|m IH]; [reflexivity|]. cbn [repeat des_all].
      cbn [des_ty des_ptr dflt] in *. unfold des_ptr in *. now rewrite IH. }
    now rewrite A.
  - destruct (N.leb_spec n 0); lia.
Qed.

(** ** Non-vacuity *)

Definition demo_W (k : nat) : N := 5.

Example in_work_nontrivial :
  let c := limit_cfg 1000 in
  let ts := [demo_ty; TVec (Some (SzVar 4)) false (TVec None true demo_ty); TSpan None TBool] in
  reading node_env c (map n2b [1; 2; 3]) (TTuple ts)
  /\ payable node_env c demo_W 100 ts
  /\ list_max (map (nest (nest_rec node_env 7)) ts) = 3%nat.
Proof.
  cbv zeta. split; [|split; [|vm_compute; reflexivity]].
  - split; try reflexivity; [apply demo_wf_env|apply demo_cmp_env|].
    repeat constructor; try apply demo_cmp; auto.
  - split; [vm_compute; reflexivity| | |lia].
    + intros [|k]; vm_compute; reflexivity.
    + intros [|k]; vm_compute; discriminate.
Qed.

(** Three vectors deep, each level can make the reader prepare for 1000 bytes: eleven bytes cause
    3000 steps and more. *)
Example work_limit_attained :
  let c := limit_cfg 1000 in
  let t := TVec None true (TVec None true (TVec None true (TScalar 1 true))) in
  let data := map n2b [125; 0; 0; 0; 125; 0; 0; 0; 232; 3; 0; 0] in
  fst (fst (des node_env c data 0 t (VSeq []) 0)) = RErr result_out_of_range
  /\ 3000 <= work node_env c data 0 t (VSeq []) 0 <= 3020.
Proof. vm_compute. repeat split; discriminate. Qed.

Print Assumptions in_work_linear.
Print Assumptions in_work_limited.
Print Assumptions work_announced_refuted.
Print Assumptions work_weightless_refuted.
