(** Passing values on (C65): what a reader produced can be written again in the same format,
    never takes more bytes than the reader consumed, and reads back as the same value. *)

From Coq Require Import List NArith ZArith Lia Bool Arith.
From Coq Require Import ZifyBool ZifyNat ZifyN.
From Verif Require Import Base.Bytes Model.Types Model.Machine Model.Varint Model.Out Model.In
  Spec.Leb128 Spec.Wire Spec.Grammar Proofs.VarintP Proofs.OutP Proofs.InBase Proofs.InSafe
  Proofs.InLocal Proofs.InPrior Proofs.InRound Proofs.InHost Proofs.InGrammar
  Thm.Demo Thm.Output Thm.Input Thm.Grammar.
Import ListNotations.
Local Open Scope N_scope.

Ltac Zify.zify_post_hook ::= Z.div_mod_to_equations.

(** Zig-zag varints are over signed types.  (Over an unsigned type the writer's mapping is not
    the inverse of the reader's, see [zigzag_unsigned_refuted].) *)
Definition zigzag_signed (t : ty) : bool :=
  match t with TVarint w sg zz => negb zz || (sg && (1 <=? w)%nat) | _ => true end.

(** ** Numbers *)

Lemma leb_value_lt e m : leb_value e = Some (m, length e) -> m < 128 ^ N.of_nat (length e).
Proof.
  revert m. induction e as [|b e IH]; intros m H; cbn [leb_value length] in *; [discriminate|].
  rewrite pow128_S. pose proof (b2n_lt b).
  destruct (N.ltb_spec (b2n b) 128).
  - injection H as <- E. rewrite <- E. change (128 ^ N.of_nat 0) with 1. lia.
  - destruct (leb_value e) as [[v k]|] eqn:E; [|discriminate]. injection H as <- ->.
    specialize (IH v eq_refl). lia.
Qed.

(** The shortest form of a number is no longer than any other form of it. *)
Lemma base128_shortest w e n : base128 w e n -> (length (leb128 n) <= length e)%nat.
Proof.
  intros (m & Hm & _ & ->). pose proof (leb_value_bounds _ _ _ Hm).
  apply (leb_length_le (m mod pow256 w)); [apply leb128_spec|lia|].
  apply (N.le_lt_trans _ m); [|now apply leb_value_lt].
  pose proof (pow256_pos w). apply N.mod_le. lia.
Qed.

Lemma leb128_mono a b : a <= b -> (length (leb128 a) <= length (leb128 b))%nat.
Proof.
  intro H. assert (E : N.of_nat (length (leb128 a)) <= N.of_nat (length (leb128 b))); [|lia].
  rewrite (leb_length_log2 a _ (leb128_spec a)), (leb_length_log2 b _ (leb128_spec b)).
  pose proof (N.log2_le_mono a b H). pose proof (N.div_le_mono _ _ 7 ltac:(lia) H0). lia.
Qed.

Lemma zigzag_again w n : (1 <= w)%nat -> n < pow256 w ->
  zigzag (to_signed w (of_signed w (unzigzag n))) = n.
Proof.
  intros Hw Hn.
  assert (P : exists h, pow256 w = 2 * h /\ 0 < h).
  { destruct w as [|w]; [lia|]. exists (128 * pow256 w). pose proof (pow256_pos w).
    unfold pow256 in *. rewrite Nat2N.inj_succ, N.pow_succ_r by lia. lia. }
  destruct P as (h & P & Hh). unfold of_signed, unzigzag, to_signed, zigzag. rewrite P in *.
  pose proof (N.even_spec n) as Ev. pose proof (N.negb_even n) as Od.
  pose proof (N.odd_spec n) as Os.
  destruct (N.even n).
  - destruct Ev as [Ev _]. destruct (Ev eq_refl) as [k ->].
    rewrite (N.mul_comm 2 k), N.div_mul by lia.
    rewrite Z.mod_small by lia. rewrite N2Z.id.
    destruct (N.ltb_spec (2 * k) (2 * h)); [|lia].
    destruct (Z.leb_spec 0 (Z.of_N k)); lia.
  - destruct Os as [Os _]. destruct (Os (eq_sym Od)) as [k ->].
    replace ((2 * k + 1) / 2) with k by lia.
    replace (- Z.of_N k - 1)%Z with (Z.of_N (2 * h) - 1 - Z.of_N k + (-1) * Z.of_N (2 * h))%Z by lia.
    rewrite Z.mod_add by lia. rewrite Z.mod_small by lia.
    set (u := Z.to_N (Z.of_N (2 * h) - 1 - Z.of_N k)).
    assert (Hu : Z.of_N u = (Z.of_N (2 * h) - 1 - Z.of_N k)%Z) by (unfold u; lia).
    destruct (N.ltb_spec (2 * u) (2 * h)); [lia|].
    destruct (Z.leb_spec 0 (Z.of_N u - Z.of_N (2 * h))); lia.
Qed.

Lemma wscalar_length o w n : length (wscalar o w n) = w.
Proof. unfold wscalar. destruct (little o); rewrite ?rev_length; apply le_bytes_length. Qed.

(** ** Sizes *)

(** Counting fewer elements never takes a longer prefix. *)
Lemma size_shortest o s e n m :
  size_is o s e (N.of_nat n) -> (m <= n)%nat ->
  (length (wire_size o s (N.of_nat m)) <= length e)%nat.
Proof.
  unfold size_is, wire_size. destruct (match s with Some s => s | None => wsize o end) as [|w|w].
  - intros [].
  - intros [<- _] _. now rewrite wscalar_length.
  - intros B H. assert (L : N.of_nat n < pow256 w).
    { destruct B as (k & _ & _ & ->). apply N.mod_lt. pose proof (pow256_pos w). lia. }
    rewrite N.mod_small by lia.
    pose proof (base128_shortest w e _ B). pose proof (leb128_mono (N.of_nat m) (N.of_nat n)). lia.
Qed.

(** ** Containers *)

Section Reencode.
  Variables (G : tenv) (o : wfmt).
  Hypothesis HE : tall_env zigzag_signed G.

  (** A list whose elements can all be written, in [k] bytes together. *)
  Inductive takes (t : ty) : list val -> nat -> Prop :=
  | takes_nil : takes t [] 0
  | takes_cons x l k : snd (enc G o x t) = true -> takes t l k ->
      takes t (x :: l) (length (fst (enc G o x t)) + k).

  Lemma takes_enc_all t l k : takes t l k ->
    snd (enc_all (enc G o) l t) = true /\ length (fst (enc_all (enc G o) l t)) = k.
  Proof.
    induction 1 as [|x l k Hx _ [IH1 IH2]]; [split; reflexivity|].
    cbn [enc_all]. unfold pseq. rewrite Hx. cbn [fst snd]. rewrite app_length. split; [exact IH1|lia].
  Qed.

  Lemma takes_put g t l x k : snd (enc G o x t) = true -> takes t l k ->
    takes t (put_before g l x) (length (fst (enc G o x t)) + k).
  Proof.
    intros Hx. induction 1 as [|y l k Hy Hl IH]; cbn [put_before].
    - apply takes_cons; [exact Hx|constructor].
    - destruct (g y).
      + repeat (apply takes_cons; [assumption|]). exact Hl.
      + replace (length (fst (enc G o x t)) + (length (fst (enc G o y t)) + k))%nat
          with (length (fst (enc G o y t)) + (length (fst (enc G o x t)) + k))%nat by lia.
        now apply takes_cons.
  Qed.

  Lemma takes_app t l x k : snd (enc G o x t) = true -> takes t l k ->
    takes t (l ++ [x]) (length (fst (enc G o x t)) + k).
  Proof.
    intros Hx. induction 1 as [|y l k Hy Hl IH]; cbn [app].
    - apply takes_cons; [exact Hx|constructor].
    - replace (length (fst (enc G o x t)) + (length (fst (enc G o y t)) + k))%nat
        with (length (fst (enc G o y t)) + (length (fst (enc G o x t)) + k))%nat by lia.
      now apply takes_cons.
  Qed.

  Lemma put_length g l x : length (put_before g l x) = S (length l).
  Proof. induction l as [|y l IH]; cbn [put_before]; [reflexivity|]. destruct (g y); cbn [length]; lia. Qed.

  Lemma takes_include a t l x k : snd (enc G o x t) = true -> takes t l k ->
    exists k', takes t (include a l x) k' /\ (k' <= length (fst (enc G o x t)) + k)%nat
      /\ (length (include a l x) <= S (length l))%nat.
  Proof.
    intros Hx Hl. unfold include.
    destruct (negb (a_multi a) && existsb (fun y => equivalent a y x) l); [exists k; repeat split; auto; lia|].
    exists (length (fst (enc G o x t)) + k)%nat. destruct (a_cmp a).
    - split; [now apply takes_put|]. rewrite put_length. lia.
    - split; [now apply takes_app|]. rewrite app_length. cbn [length]. lia.
  Qed.

  Lemma takes_fold a t l : forall acc ka k, takes t l k -> takes t acc ka ->
    exists k', takes t (fold_left (include a) l acc) k' /\ (k' <= ka + k)%nat
      /\ (length (fold_left (include a) l acc) <= length acc + length l)%nat.
  Proof.
    induction l as [|x l IH]; intros acc ka k H Ha; inversion H; subst; cbn [fold_left length].
    - exists ka. repeat split; auto; lia.
    - destruct (takes_include a t acc x ka ltac:(assumption) Ha) as (k1 & A & B & C).
      edestruct IH as (k' & D & E & F); [eassumption|exact A|].
      exists k'. repeat split; auto; lia.
  Qed.

  Lemma enc_all_takes t l : snd (enc_all (enc G o) l t) = true ->
    takes t l (length (fst (enc_all (enc G o) l t))).
  Proof.
    induction l as [|x l IH]; cbn [enc_all]; [constructor|].
    unfold pseq. destruct (snd (enc G o x t)) eqn:E; [|congruence].
    cbn [fst snd]. rewrite app_length. intro H. apply takes_cons; auto.
  Qed.

  Definition no_longer (e : list byte) (p : pout) : Prop := snd p = true /\ (length (fst p) <= length e)%nat.

  Lemma no_longer_seq e1 e2 a b : no_longer e1 a -> no_longer e2 b -> no_longer (e1 ++ e2) (pseq a b).
  Proof.
    intros [A1 A2] [B1 B2]. unfold pseq. rewrite A1. split; [exact B1|].
    cbn [fst]. rewrite !app_length. lia.
  Qed.

  (** Every representation of a value is at least as long as what the writer produces. *)
  Lemma shortest :
    (forall t e v, denotes G o t e v -> tall zigzag_signed t = true -> no_longer e (enc G o v t)) /\
    (forall ts e l, sequence G o ts e l -> forallb (tall zigzag_signed) ts = true ->
       no_longer e (enc_many (enc G o) l ts)) /\
    (forall t e l, elements G o t e l -> tall zigzag_signed t = true ->
       no_longer e (enc_all (enc G o) l t)).
  Proof.
    assert (D : forall e l, (length l <= length e)%nat -> no_longer e (pdone l)) by (split; auto).
    apply grammar_ind; cbn [tall zigzag_signed andb].
    - intros w b e <- _. cbn [enc]. apply D. now rewrite wscalar_length.
    - intros e L _ _. cbn [enc]. apply D. rewrite wscalar_length. lia.
    - intros w sg e n B _. cbn [enc varint_number]. apply D. now apply (base128_shortest w).
    - intros w sg e n B H. cbn [negb orb] in H. rewrite andb_true_r in H.
      apply andb_true_iff in H as [-> H]. cbn [enc varint_number]. apply D.
      assert (n < pow256 w).
      { destruct B as (k & _ & _ & ->). apply N.mod_lt. pose proof (pow256_pos w). lia. }
      rewrite zigzag_again by lia. now apply (base128_shortest w).
    - intros _. now apply (D [] []).
    - intros si ms e l _ IH H. cbn [enc]. auto.
    - intros k e l _ IH _. cbn [enc]. apply IH, HE.
    - intros ts e l _ IH H. cbn [enc]. auto.
    - intros t e l _ IH H. cbn [enc]. auto.
    - intros s cg t e1 e2 l HS _ IH H. cbn [enc]. apply no_longer_seq; [|auto].
      apply D. now apply (size_shortest o s e1 (length l)).
    - intros s k t e1 e2 l HS _ IH H. cbn [enc]. destruct (IH H) as [I1 I2].
      destruct (takes_fold k t l [] 0%nat _ (enc_all_takes t l I1) (takes_nil t)) as (k' & F1 & F2 & F3).
      destruct (takes_enc_all _ _ _ F1) as [E1 E2].
      apply no_longer_seq; [apply D, (size_shortest o s e1 (length l)); auto|].
      split; [exact E1|]. lia.
    - intros dc t _. apply D. auto.
    - intros dc t b e x _ _ IH H. cbn [enc]. apply (no_longer_seq [b] e); [now apply D|auto].
    - intros t _. apply D. auto.
    - intros t b e x _ _ IH H. cbn [enc]. apply (no_longer_seq [b] e); [now apply D|auto].
    - intros t e x _ IH H. cbn [enc]. auto.
    - intros ik meta alts i id dc t e1 e2 x Hm Ha HI _ IH H. cbn [enc]. rewrite Hm, Ha.
      rewrite forallb_forall in H. apply no_longer_seq; [|apply IH, H, (nth_error_In _ _ Ha)].
      apply D. destruct ik; destruct HI as [<- _]; cbn [wire_id];
        [now rewrite wscalar_length|now rewrite le_bytes_length].
    - intros n e L _. cbn [enc]. apply D. rewrite le_bytes_length. lia.
    - intros s e1 l HS _. cbn [enc]. apply D. rewrite !app_length.
      pose proof (size_shortest o s e1 (length l) (length l) HS). lia.
    - intros l _. cbn [enc]. now apply D.
    - intros _. now apply (D [] []).
    - intros t ts e1 e2 x l _ IHt _ IH H. cbn [forallb enc_many] in *.
      apply andb_true_iff in H as [H1 H2]. apply no_longer_seq; auto.
    - intros t _. now apply (D [] []).
    - intros t e1 e2 x l _ IHt _ IH H. cbn [enc_all]. apply no_longer_seq; auto.
  Qed.
  (** ** The writer's form is itself a representation *)

  Lemma base128_again w e n m : base128 w e n -> m <= n -> base128 w (leb128 m) m.
  Proof.
    intros B H. pose proof (base128_shortest w e n B). pose proof (leb128_mono m n H).
    destruct B as (k & _ & L & ->). exists m.
    split; [apply leb_value_leb, leb128_spec|]. split; [lia|].
    rewrite N.mod_small; [reflexivity|]. pose proof (pow256_pos w).
    pose proof (N.mod_lt k (pow256 w)). lia.
  Qed.

  Lemma size_again s e n m : size_is o s e (N.of_nat n) -> (m <= n)%nat ->
    size_is o s (wire_size o s (N.of_nat m)) (N.of_nat m).
  Proof.
    unfold size_is, wire_size. destruct (match s with Some s => s | None => wsize o end) as [|w|w].
    - intros [].
    - intros [<- E] H. pose proof (word_lt o e). rewrite N.mod_small by lia.
      split; [apply wscalar_length|]. unfold word, wscalar.
      destruct (little o); rewrite ?rev_involutive; apply le_val_le_bytes_small; lia.
    - intros B H. assert (L : N.of_nat n < pow256 w).
      { destruct B as (k & _ & _ & ->). apply N.mod_lt. pose proof (pow256_pos w). lia. }
      rewrite N.mod_small by lia. apply (base128_again w e (N.of_nat n)); [exact B|lia].
  Qed.

  Lemma fold_sorted k l : forall acc, pairwise (before k) (acc ++ l) = true ->
    fold_left (include k) l acc = acc ++ l.
  Proof.
    induction l as [|x l IH]; intros acc Hp; cbn [fold_left]; [now rewrite app_nil_r|].
    assert (E : include k acc x = acc ++ [x]).
    { rewrite <- include_insert. apply assoc_insert_append. clear -Hp.
      induction acc as [|y acc IH]; [reflexivity|].
      cbn [app pairwise forallb] in *. apply andb_true_iff in Hp as [H1 H2].
      rewrite forallb_app in H1. cbn [forallb] in H1. rewrite !andb_true_iff in H1.
      destruct H1 as (_ & H1 & _). rewrite H1. cbn [andb]. auto. }
    rewrite E, IH; rewrite <- app_assoc; [reflexivity|exact Hp].
  Qed.

  Lemma include_in k l x y : In y (include k l x) -> In y l \/ y = x.
  Proof.
    unfold include. destruct (_ && _); [auto|]. destruct (a_cmp k) as [lt|?].
    - induction l as [|z l IH]; cbn [put_before]; [intros [<-|[]]; auto|].
      destruct (lt (akey k x) (akey k z)).
      + intros [<-|H]; auto.
      + intros [<-|H]; [left; now left|]. destruct (IH H); [left; now right|auto].
    - rewrite in_app_iff. cbn [In]. intuition.
  Qed.

  Lemma fold_in k l : forall acc y, In y (fold_left (include k) l acc) -> In y acc \/ In y l.
  Proof.
    induction l as [|x l IH]; intros acc y H; cbn [fold_left] in H; [auto|].
    destruct (IH _ _ H) as [A|A]; [|right; now right].
    destruct (include_in _ _ _ _ A) as [B|B]; [auto|right; left; auto].
  Qed.

  Definition settled (t : ty) (x : val) : Prop :=
    wt G x t = true -> snd (enc G o x t) = true /\ denotes G o t (fst (enc G o x t)) x.

  Lemma settled_all t l : Forall (settled t) l -> forallb (fun x => wt G x t) l = true ->
    snd (enc_all (enc G o) l t) = true /\ elements G o t (fst (enc_all (enc G o) l t)) l.
  Proof.
    induction 1 as [|x l Hx _ IH]; intro H; [split; [reflexivity|constructor]|].
    cbn [forallb enc_all] in *. apply andb_true_iff in H as [H1 H2].
    destruct (Hx H1) as [A B], (IH H2) as [C D]. unfold pseq. rewrite A. split; [exact C|].
    now apply E_cons.
  Qed.

  Lemma canonical :
    (forall t e v, denotes G o t e v -> tall zigzag_signed t = true -> settled t v) /\
    (forall ts e l, sequence G o ts e l -> forallb (tall zigzag_signed) ts = true ->
       forall2b (fun x m => wt G x m) l ts = true ->
       snd (enc_many (enc G o) l ts) = true /\ sequence G o ts (fst (enc_many (enc G o) l ts)) l) /\
    (forall t e l, elements G o t e l -> tall zigzag_signed t = true -> Forall (settled t) l).
  Proof.
    unfold settled. apply grammar_ind; cbn [tall zigzag_signed andb].
    - intros w b e <- _ _. cbn [enc pdone fst snd]. rewrite wscalar_word.
      split; [reflexivity|now constructor].
    - intros e L Hb _ _. cbn [enc pdone fst snd]. rewrite <- L, wscalar_word.
      split; [reflexivity|now constructor].
    - intros w sg e n B _ _. cbn [enc pdone fst snd varint_number].
      split; [reflexivity|]. constructor. apply (base128_again w e n); [exact B|lia].
    - intros w sg e n B H _. cbn [negb orb] in H. rewrite andb_true_r in H.
      apply andb_true_iff in H as [-> H]. cbn [enc pdone fst snd varint_number].
      assert (n < pow256 w).
      { destruct B as (k & _ & _ & ->). apply N.mod_lt. pose proof (pow256_pos w). lia. }
      rewrite zigzag_again by lia. split; [reflexivity|]. constructor.
      apply (base128_again w e n); [exact B|lia].
    - intros _ _. split; [reflexivity|constructor].
    - intros si ms e l _ IH H Hw. cbn [enc wt] in *. destruct (IH H Hw). split; [assumption|].
      now constructor.
    - intros k e l _ IH _ Hw. cbn [enc wt] in *. destruct (IH (HE k) Hw). split; [assumption|].
      now constructor.
    - intros ts e l _ IH H Hw. cbn [enc wt] in *. destruct (IH H Hw). split; [assumption|].
      now constructor.
    - intros t e l _ IH H Hw. cbn [enc wt] in *. apply andb_true_iff in Hw as [_ Hw].
      destruct (settled_all t l (IH H) Hw). split; [assumption|now constructor].
    - intros s cg t e1 e2 l HS _ IH H Hw. cbn [enc wt] in *.
      destruct (settled_all t l (IH H) Hw) as [A B]. unfold pseq. cbn [pdone fst snd].
      split; [exact A|]. constructor; [now apply (size_again s e1 (length l))|exact B].
    - intros s k t e1 e2 l HS _ IH H Hw. cbn [enc wt] in *. apply andb_true_iff in Hw as [Hw Hp].
      specialize (IH H). set (f := fold_left (include k) l []) in *.
      assert (F : Forall (settled t) f).
      { apply Forall_forall. intros x Hx. destruct (fold_in k l [] x Hx) as [[]|Hin].
        rewrite Forall_forall in IH. exact (IH x Hin). }
      assert (L : (length f <= length l)%nat).
      { unfold f. assert (K : forall l acc, (length (fold_left (include k) l acc) <= length acc + length l)%nat).
        { clear. induction l as [|x l IH]; intro acc; cbn [fold_left length]; [lia|].
          specialize (IH (include k acc x)).
          assert (length (include k acc x) <= S (length acc))%nat; [|lia].
          unfold include. destruct (_ && _); [lia|]. destruct (a_cmp k).
          - rewrite put_length. lia.
          - rewrite app_length. cbn [length]. lia. }
        apply (K l []). }
      destruct (settled_all t f F Hw) as [A B]. unfold pseq. cbn [pdone fst snd].
      split; [exact A|].
      assert (E : fold_left (include k) f [] = f) by (now apply fold_sorted).
      rewrite <- E at 3. constructor; [now apply (size_again s e1 (length l))|exact B].
    - intros dc t _ _. split; [reflexivity|constructor].
    - intros dc t b e x _ _ IH H Hw. cbn [enc wt] in *. destruct (IH H Hw) as [A B].
      unfold pseq. cbn [pdone fst snd app]. split; [exact A|]. constructor; [discriminate|exact B].
    - intros t _ _. split; [reflexivity|constructor].
    - intros t b e x _ _ IH H Hw. cbn [enc wt] in *. destruct (IH H Hw) as [A B].
      unfold pseq. cbn [pdone fst snd app]. split; [exact A|]. constructor; [discriminate|exact B].
    - intros t e x _ IH H Hw. cbn [enc wt] in *. destruct (IH H Hw) as [A B].
      split; [exact A|now constructor].
    - intros ik meta alts i id dc t e1 e2 x Hm Ha HI _ IH H Hw. cbn [enc wt] in *.
      rewrite Hm, Ha in *. rewrite forallb_forall in H.
      destruct (IH (H _ (nth_error_In _ _ Ha)) Hw) as [A B].
      unfold pseq. cbn [pdone fst snd]. split; [exact A|].
      apply (D_variant G o ik meta alts i id dc t); auto.
      assert (E : wire_id o ik id = e1).
      { destruct ik; destruct HI as [<- <-]; cbn [wire_id]; [apply wscalar_word|apply le_bytes_le_val]. }
      now rewrite E.
    - intros n e L _ _. cbn [enc pdone fst snd]. split; [reflexivity|].
      set (m := le_val e). rewrite bits_number_testbits.
      replace (map (fun i => N.testbit m (N.of_nat i)) (List.seq 0 n))
        with (map (fun i => N.testbit (le_val (le_bytes ((n + 7) / 8) (m mod 2 ^ N.of_nat n))) (N.of_nat i))
                (List.seq 0 n)).
      + constructor. apply le_bytes_length.
      + apply map_ext_in. intros i Hi. apply in_seq in Hi.
        rewrite le_val_le_bytes_small.
        * apply N.mod_pow2_bits_low. lia.
        * apply (N.le_lt_trans _ m); [apply N.mod_le; apply N.pow_nonzero; lia|].
          unfold m. rewrite <- L. apply le_val_lt.
    - intros s e1 l HS _ _. cbn [enc pdone fst snd]. split; [reflexivity|]. constructor.
      now apply (size_again s e1 (length l)).
    - intros l _ _. cbn [enc pdone fst snd]. split; [reflexivity|constructor].
    - intros _ _. split; [reflexivity|constructor].
    - intros t ts e1 e2 x l _ IHt _ IH H Hw. cbn [forallb enc_many forall2b] in *.
      apply andb_true_iff in H as [H1 H2]. apply andb_true_iff in Hw as [W1 W2].
      destruct (IHt H1 W1) as [A B], (IH H2 W2) as [C D]. unfold pseq. rewrite A.
      split; [exact C|now constructor].
    - constructor.
    - intros t e1 e2 x l _ IHt _ IH H. constructor; auto.
  Qed.
End Reencode.

(** ** C65 *)

(** What a reader produced can always be written in the same format, and takes at most as many
    bytes as the reader consumed. *)
Theorem in_reencode_no_longer G c data fuel t prior pos v p :
  self_describing G c [t] -> tall zigzag_signed t = true -> tall_env zigzag_signed G ->
  small data -> (pos <= length data)%nat -> wt G prior t = true ->
  des G c data fuel t prior pos = (ROk, v, p) ->
  writable G (fmt_of c) v t = true
  /\ (length (encode G (fmt_of c) v t) <= p - pos)%nat.
Proof.
  intros HS Ho HoE Hs Hp Hw E.
  destruct HS as [H1 H2 H3 H4 H5 H6 H7 H8 H9]. cbn [forallb] in *. rewrite andb_true_r in *.
  pose proof (des_accepted G c data H1 H2 Hs H5 H7 H9 fuel t H3 H4 H6 H8 prior pos Hp Hw) as A.
  rewrite E in A. destruct A as (e & He & -> & D).
  destruct (proj1 (shortest G (fmt_of c) HoE) t e v D Ho) as [F1 F2].
  unfold encode, writable. split; [exact F1|lia].
Qed.

(** The number of bytes is really smaller in general: an input with a varint in more bytes than
    needed, a repeated set element and a count prefix in two bytes. *)
Definition wordy : ty :=
  TTuple [TVarint 8 false false; TAssoc (Some (SzVar 4)) map_kind (TTuple [TScalar 1 false; TBool]);
          TOpt true (TVarint 4 true true)].
Definition wordy_in : list byte :=
  [x85; x80; x00] ++ [x83; x00; x02; x01; x01; x00; x02; x00] ++ [x07; x83; x00].
Definition wordy_val : val :=
  VSeq [VN 5; VSeq [VSeq [VN 1; VN 0]; VSeq [VN 2; VN 1]]; VSome (VN 4294967294)].

Lemma wordy_self_describing : self_describing node_env vec_cfg [wordy].
Proof.
  constructor; try (vm_compute; reflexivity).
  - apply demo_wf_env.
  - intros [|k]; reflexivity.
  - intros [|k]; reflexivity.
  - intros [|k]; reflexivity.
Qed.

Example in_reencode_no_longer_nontrivial :
  self_describing node_env vec_cfg [wordy] /\ tall zigzag_signed wordy = true
  /\ tall_env zigzag_signed node_env
  /\ des node_env vec_cfg (wordy_in ++ [xff]) 0 wordy (dflt node_env wordy) 0 = (ROk, wordy_val, 14%nat)
  /\ encode node_env (fmt_of vec_cfg) wordy_val wordy
     = [x05] ++ [x02; x01; x00; x02; x01] ++ [x01; x03].
Proof.
  split; [apply wordy_self_describing|]. split; [reflexivity|]. split; [intros [|k]; reflexivity|].
  split; vm_compute; reflexivity.
Qed.

(** Relaying: what was read with [cr] is written with [cw], an archive of the same byte order
    and default size over a buffer that cannot grow.  If the buffer has room for as many bytes
    as were consumed, the write succeeds; and the bytes written are a representation of the same
    value, in no more bytes. *)
Theorem relay_fits G cr cw data fuel t prior pos v p st :
  self_describing G cr [t] -> tallP_env (cmp_ok G) G -> tallP (cmp_ok G) t ->
  tall zigzag_signed t = true -> tall_env zigzag_signed G ->
  small data -> (pos <= length data)%nat -> wt G prior t = true ->
  des G cr data fuel t prior pos = (ROk, v, p) ->
  growable cw = false -> dsize cw = dsize cr ->
  xorb (host_le cw) (swap cw) = xorb (host_le cr) (swap cr) ->
  bits_ok G t st -> ost_ok st -> (opos st + (p - pos) <= length (obuf st))%nat ->
  exists st', ser G cw v t st = (ROk, st')
    /\ (opos st' - opos st <= p - pos)%nat
    /\ denotes G (fmt_of cw) t (window (obuf st') (opos st) (opos st' - opos st)) v.
Proof.
  intros HS HcE Hc Ho HoE Hs Hp Hw E Hg Hd Hx Hb Hok Hroom.
  destruct (in_reencode_no_longer G cr data fuel t prior pos v p HS Ho HoE Hs Hp Hw E) as [F1 F2].
  assert (Hf : fmt_of cw = fmt_of cr) by (unfold fmt_of; now rewrite Hd, Hx).
  destruct HS as [H1 H2 H3 H4 H5 H6 H7 H8 H9]. cbn [forallb] in *. rewrite andb_true_r in *.
  assert (R : reading G cr data t) by (constructor; auto).
  destruct (in_position_and_target_valid G cr data t fuel prior pos _ v p R Hp Hw E) as [P1 P2].
  pose proof (des_accepted G cr data H1 H2 Hs H5 H7 H9 fuel t H3 H4 H6 H8 prior pos Hp Hw) as A.
  rewrite E in A. destruct A as (e & He & -> & D).
  destruct (proj1 (canonical G (fmt_of cr) HoE) t e v D Ho P2) as [_ K].
  assert (W : writing G cw v t).
  { constructor; auto.
    - intro Z. congruence.
    - unfold szok. now rewrite Hd.
    - rewrite Hf. destruct Hok. lia. }
  pose proof (out_fixed_iff_fits G cw v t st W Hb Hok Hg) as O.
  destruct (ser G cw v t st) as [r st'] eqn:ES. destruct O as (_ & _ & O & _).
  rewrite Hf in O. specialize (O F1).
  destruct (Nat.leb_spec (opos st + length (encode G (fmt_of cr) v t)) (length (obuf st))); [|lia].
  subst r. exists st'. split; [reflexivity|].
  destruct (out_wire_format _ _ _ _ _ _ W Hb Hok ES) as (_ & Q1 & Q2).
  rewrite Hf in *. replace (opos st' - opos st)%nat with (length (encode G (fmt_of cr) v t)) by lia.
  split; [lia|]. rewrite Q2. exact K.
Qed.

(** Every reader of that format then gets the same value back from the relayed bytes, unless it
    runs out of memory, stack or its allocation limit. *)
Theorem relay_reads_back G cr cw c2 data fuel t prior pos v p st st' fuel2 prior2 :
  self_describing G cr [t] -> tallP_env (cmp_ok G) G -> tallP (cmp_ok G) t ->
  tall zigzag_signed t = true -> tall_env zigzag_signed G ->
  small data -> (pos <= length data)%nat -> wt G prior t = true ->
  des G cr data fuel t prior pos = (ROk, v, p) ->
  growable cw = false -> dsize cw = dsize cr ->
  xorb (host_le cw) (swap cw) = xorb (host_le cr) (swap cr) ->
  bits_ok G t st -> ost_ok st -> (opos st + (p - pos) <= length (obuf st))%nat ->
  ser G cw v t st = (ROk, st') ->
  dsize c2 = dsize cr -> xorb (host_le c2) (swap c2) = xorb (host_le cr) (swap cr) ->
  self_describing G c2 [t] -> wt G prior2 t = true -> small (obuf st') ->
  in_call G c2 (obuf st') fuel2 [t] [prior2] (opos st) = (ROk, [v], opos st')
  \/ (let r := fst (fst (in_call G c2 (obuf st') fuel2 [t] [prior2] (opos st))) in
      r = RErr message_size \/ r = RThrow \/ r = RStack).
Proof.
  intros HS HcE Hc Ho HoE Hs Hp Hw E Hg Hd Hx Hb Hok Hroom ES Hd2 Hx2 HS2 Hw2 Hs2.
  destruct (relay_fits G cr cw data fuel t prior pos v p st HS HcE Hc Ho HoE Hs Hp Hw E Hg Hd Hx Hb
    Hok Hroom) as (st1 & E1 & L & D).
  rewrite ES in E1. injection E1 as <-.
  assert (R : reading G cr data t).
  { destruct HS as [H1 H2 H3 _ _ _ _ _ _]. cbn [forallb] in *. rewrite andb_true_r in *.
    constructor; auto. }
  destruct (in_position_and_target_valid G cr data t fuel prior pos _ v p R Hp Hw E) as [P1 P2].
  assert (W : writing G cw v t).
  { destruct (in_reencode_no_longer G cr data fuel t prior pos v p HS Ho HoE Hs Hp Hw E) as [F1 F2].
    destruct HS as [H1 H2 H3 H4 H5 H6 H7 H8 H9]. cbn [forallb] in *. rewrite andb_true_r in *.
    assert (Hf : fmt_of cw = fmt_of cr) by (unfold fmt_of; now rewrite Hd, Hx).
    constructor; auto.
    - intro Z. congruence.
    - unfold szok. now rewrite Hd.
    - rewrite Hf. destruct Hok. lia. }
  destruct (out_frame _ _ _ _ _ _ _ W Hb Hok ES) as (_ & P & _).
  destruct (out_wire_format _ _ _ _ _ _ W Hb Hok ES) as (_ & Q1 & _).
  set (e := window (obuf st') (opos st) (opos st' - opos st)) in *.
  assert (Le : length e = (opos st' - opos st)%nat).
  { unfold e, window. rewrite firstn_length, skipn_length. lia. }
  assert (Hf : fmt_of cw = fmt_of c2) by (unfold fmt_of; congruence).
  rewrite Hf in D.
  assert (SQ : sequence G (fmt_of c2) [t] e [v]).
  { rewrite <- (app_nil_r e). apply S_cons; [exact D|constructor]. }
  assert (At : has_at (obuf st') (opos st) e).
  { unfold has_at. rewrite Le. split; [lia|]. reflexivity. }
  assert (Hw3 : wt G (VSeq [prior2]) (TTuple [t]) = true) by (cbn [wt forall2b]; now rewrite Hw2).
  pose proof (in_accepts_every_representation G c2 (obuf st') fuel2 [t] [prior2] (opos st) e [v]
    HS2 Hs2 ltac:(lia) Hw3 At SQ) as A.
  replace (opos st + length e)%nat with (opos st') in A by lia. exact A.
Qed.

(** The example above through a buffer of exactly the 14 bytes that were consumed. *)
Example relay_nontrivial :
  ser node_env span_cfg wordy_val wordy (mkO (zeros 14) 0)
  = (ROk, mkO ([x05] ++ [x02; x01; x00; x02; x01] ++ [x01; x03] ++ zeros 6) 8)
  /\ in_call node_env vec_cfg ([x05] ++ [x02; x01; x00; x02; x01] ++ [x01; x03] ++ zeros 6) 0
       [wordy] [dflt node_env wordy] 0 = (ROk, [wordy_val], 8%nat)
  /\ growable span_cfg = false /\ fmt_of span_cfg = fmt_of vec_cfg
  /\ tallP (cmp_ok node_env) wordy /\ tallP_env (cmp_ok node_env) node_env.
Proof.
  split; [vm_compute; reflexivity|]. split; [vm_compute; reflexivity|].
  split; [reflexivity|]. split; [reflexivity|]. split; [|apply demo_cmp_env].
  unfold wordy. Opaque cmp_ok. cbn [tallP]. Transparent cmp_ok.
  repeat match goal with |- _ /\ _ => split end; try exact I. now apply lt_n_cmp.
Qed.

(** A zig-zag varint over an unsigned type may come out longer than it came in, and as another
    number. *)
Theorem reencode_longer_refuted :
  exists data v,
    des node_env vec_cfg data 0 (TVarint 8 false true) (VN 0) 0 = (ROk, v, length data)
    /\ (length data < length (encode node_env (fmt_of vec_cfg) v (TVarint 8 false true)))%nat.
Proof.
  exists [x03]. eexists. split; [vm_compute; reflexivity|]. vm_compute. lia.
Qed.

Print Assumptions in_reencode_no_longer.
Print Assumptions relay_fits.
Print Assumptions relay_reads_back.
