(** C54: how often and how far the output buffer grows. *)

From Coq Require Import List NArith ZArith Lia Bool Arith.
From Coq Require Import ZifyBool ZifyNat ZifyN.
From Verif Require Import Base.Bytes Model.Types Model.Machine Model.Varint Model.Out
  Spec.Leb128 Spec.Wire Proofs.VarintP Proofs.OutP Proofs.Script Thm.Demo Thm.Output.
Import ListNotations.
Local Open Scope N_scope.

(** ** Vocabulary *)

(** [asks f st ns r st']: started in [st], the action asks the allocator for buffers of exactly
    the sizes [ns].  If the allocator grants all of them the result is [(r, st')]; if it
    refuses any of them the action ends with the allocator's exception.  ([f al] is the action
    with the allocator that grants the sizes [al] answers [true] for.) *)
Record asks (f : (N -> bool) -> act) (st : ost) (ns : list N) (r : res) (st' : ost) : Prop := {
  granted : forall al, forallb al ns = true -> f al st = (r, st');
  refused : forall al, forallb al ns = false -> fst (f al st) = RThrow
}.

(** Consecutive buffer sizes, starting from [l], each more than [m/d] times the one before. *)
Inductive geometric (m d : N) : N -> list N -> Prop :=
| geo_nil l : geometric m d l []
| geo_cons l n ns : m * l < d * n -> geometric m d n ns -> geometric m d l (n :: ns).

Definition total (ns : list N) : N := fold_right N.add 0 ns.

Definition blen (st : ost) : N := N.of_nat (length (obuf st)).

(** ** Properties of geometric sequences *)

Lemma last_cons {A} (x d : A) l : last (x :: l) d = last l x.
Proof.
  revert x d. induction l as [|y l IH]; intros x d; [reflexivity|].
  change (last (x :: y :: l) d) with (last (y :: l) d). now rewrite !IH.
Qed.

Lemma geo_app m d l ns ns' :
  geometric m d l ns -> geometric m d (last ns l) ns' -> geometric m d l (ns ++ ns').
Proof.
  induction 1 as [l|l n ns H _ IH]; intro H'; [exact H'|].
  cbn [app]. constructor; [exact H|]. apply IH. now rewrite last_cons in H'.
Qed.

Lemma last_app {A} (l l' : list A) d : last (l ++ l') d = last l' (last l d).
Proof.
  revert d. induction l as [|x l IH]; intro d; [reflexivity|].
  cbn [app]. rewrite !last_cons. apply IH.
Qed.

Lemma geo_count m d l ns :
  geometric m d l ns -> m ^ N.of_nat (length ns) * l <= d ^ N.of_nat (length ns) * last ns l.
Proof.
  induction 1 as [l|l n ns H _ IH].
  - cbn. rewrite !N.pow_0_r. lia.
  - rewrite last_cons. cbn [length]. rewrite Nat2N.inj_succ, !N.pow_succ_r'.
    set (k := N.of_nat (length ns)) in *.
    transitivity (m ^ k * (d * n)); [|nia].
    rewrite <- N.mul_assoc, (N.mul_comm m), <- N.mul_assoc. apply N.mul_le_mono_l.
    rewrite N.mul_comm. lia.
Qed.

Lemma geo_total m d l ns :
  geometric m d l ns -> d <= m -> (m - d) * (l + total ns) + d * l <= m * last ns l.
Proof.
  intros H Hmd. induction H as [l|l n ns H _ IH].
  - cbn [total fold_right last]. nia.
  - rewrite last_cons. cbn [total fold_right] in *. fold (total ns) in *.
    set (t := total ns) in *. set (z := last ns n) in *. clearbody t z.
    assert (E : m = (m - d) + d) by lia. set (q := m - d) in *. clearbody q. subst m. nia.
Qed.

Lemma geo_increasing m d l ns :
  geometric m d l ns -> d <= m -> Forall (fun n => l < n) ns.
Proof.
  intros H Hmd. induction H as [l|l n ns H _ IH]; constructor.
  - nia.
  - eapply Forall_impl; [|exact IH]. cbn. intros a Ha. assert (l < n) by nia. lia.
Qed.

Lemma geo_last m d l ns :
  geometric m d l ns -> d <= m -> l <= last ns l /\ Forall (fun n => n <= last ns l) ns.
Proof.
  intros H Hmd. induction H as [l|l n ns H HG IH].
  - split; [cbn; lia|constructor].
  - rewrite last_cons. destruct IH as [I1 I2]. assert (l < n) by nia. split; [lia|].
    constructor; assumption.
Qed.

(** ** One step *)

Lemma asks_seq f g st ns r st1 :
  asks f st ns r st1 ->
  (r <> ROk -> asks (fun al => f al ;; g al) st ns r st1) /\
  (r = ROk -> forall ns' r' st', asks g st1 ns' r' st' ->
     asks (fun al => f al ;; g al) st (ns ++ ns') r' st').
Proof.
  intros [G R]. split.
  - intro Hr. split.
    + intros al H. unfold seq. rewrite (G al H). destruct r; congruence.
    + intros al H. unfold seq. specialize (R al H). destruct (f al st) as [q s].
      cbn in R. now subst q.
  - intros -> ns' r' st' [G' R']. split.
    + intros al H. rewrite forallb_app in H. apply andb_true_iff in H as [H1 H2].
      unfold seq. rewrite (G al H1). now apply G'.
    + intros al H. rewrite forallb_app in H. unfold seq.
      destruct (forallb al ns) eqn:E; cbn [andb] in H.
      * rewrite (G al E). now apply R'.
      * specialize (R al E). destruct (f al st) as [q s]. cbn in R. now subst q.
Qed.

Lemma asks_const f st r st' : (forall al, f al st = (r, st')) -> asks f st [] r st'.
Proof. intro H. split; [intros; apply H|]. intros al E. discriminate. Qed.

(** enlarge_for asks at most once. *)
Lemma enlarge_asks c add st :
  wf_out c -> growable c = true -> ost_ok st -> add < 2 ^ 63 ->
  exists ns r k,
    asks (fun al => enlarge_for (with_alloc c al) add) st ns r (mkO (obuf st ++ zeros k) (opos st))
    /\ (r = ROk -> N.of_nat (opos st) + add <= N.of_nat (length (obuf st) + k))
    /\ (ns = [] /\ k = O \/
        exists n, ns = [n] /\ r = ROk /\ n = N.of_nat (length (obuf st) + k) /\ n < 2 ^ 63
          /\ emul c * blen st < ediv c * n /\ ediv c * n <= emul c * (2 * (N.of_nat (opos st) + add))).
Proof.
  intros Hwf Hg [Hpos Hsz] Hadd.
  destruct (Hwf Hg) as (Hd & Hmd & Hno).
  assert (Hst : mkO (obuf st ++ zeros 0) (opos st) = st).
  { unfold zeros. cbn [repeat]. rewrite app_nil_r. now destruct st. }
  unfold blen. set (size := N.of_nat (length (obuf st))) in *.
  rewrite two63_val in *.
  assert (Hsub : wsub size (N.of_nat (opos st)) = size - N.of_nat (opos st))
    by (apply wsub_small; rewrite ?two64_val; unfold size; lia).
  destruct (N.ltb_spec (size - N.of_nat (opos st)) add) as [Hlt|Hge].
  2:{ exists [], ROk, O. rewrite Hst. split; [|split].
      - apply asks_const. intro al. unfold enlarge_for. fold size. rewrite Hsub.
        destruct (N.ltb_spec (size - N.of_nat (opos st)) add); [lia|reflexivity].
      - unfold size in *. lia.
      - now left. }
  assert (Hreq : wadd size add = size + add).
  { unfold wadd. apply N.mod_small. rewrite two64_val. unfold size in *. lia. }
  set (scaled := if emul c =? 1 then size + add else wmul (size + add) (emul c)).
  destruct (negb (emul c =? 1) && negb (scaled / emul c =? size + add)) eqn:Eov.
  { exists [], (RErr no_buffer_space), O. rewrite Hst. split; [|split; [discriminate|now left]].
    apply asks_const. intro al. unfold enlarge_for. cbn [with_alloc emul ediv noovf].
    fold size. rewrite Hsub, Hno, Hreq. cbn [negb andb].
    destruct (N.ltb_spec (size - N.of_nat (opos st)) add); [|lia].
    destruct (N.ltb_spec (size + add) size); [lia|]. fold scaled.
    rewrite andb_true_r, Eov. reflexivity. }
  assert (Hsc : scaled = (size + add) * emul c).
  { unfold scaled in *. destruct (N.eqb_spec (emul c) 1) as [->|Hne]; [lia|].
    cbn [negb andb] in Eov. apply negb_false_iff, N.eqb_eq in Eov.
    unfold wmul in *. rewrite two64_val in *.
    destruct (N.ltb_spec ((size + add) * emul c) 18446744073709551616) as [Hl|Hl].
    - apply N.mod_small. exact Hl.
    - exfalso.
      assert (((size + add) * emul c) mod 18446744073709551616 < 18446744073709551616)
        by (apply N.mod_lt; lia).
      set (m := ((size + add) * emul c) mod 18446744073709551616) in *.
      assert (emul c * (m / emul c) <= m) by (apply N.mul_div_le; lia).
      nia. }
  set (new := if ediv c =? 1 then scaled else scaled / ediv c).
  assert (Hnew : new = (size + add) * emul c / ediv c).
  { unfold new. rewrite Hsc. destruct (N.eqb_spec (ediv c) 1) as [->|]; [|reflexivity].
    now rewrite N.div_1_r. }
  assert (Hbig : size + add <= new).
  { rewrite Hnew. apply N.div_le_lower_bound; [lia|]. nia. }
  assert (Hrun : forall al, enlarge_for (with_alloc c al) add st
            = if negb (within_limit c new) then (RErr no_buffer_space, st)
              else buf_resize (with_alloc c al) new st).
  { intro al. unfold enlarge_for. cbn [with_alloc emul ediv noovf].
    fold size. rewrite Hsub, Hno, Hreq. cbn [negb andb].
    destruct (N.ltb_spec (size - N.of_nat (opos st)) add); [|lia].
    destruct (N.ltb_spec (size + add) size); [lia|]. fold scaled.
    rewrite andb_true_r, Eov. reflexivity. }
  destruct (within_limit c new) eqn:Elim; cbn [negb] in Hrun.
  2:{ exists [], (RErr no_buffer_space), O. rewrite Hst. split; [|split; [discriminate|now left]].
      now apply asks_const. }
  assert (Hres : forall al, buf_resize (with_alloc c al) new st =
            if can_alloc (with_alloc c al) new
            then (ROk, mkO (obuf st ++ zeros (N.to_nat new - length (obuf st))) (opos st))
            else (RThrow, st)).
  { intro al. unfold buf_resize. fold size. destruct (N.leb_spec new size); [lia|reflexivity]. }
  destruct (N.ltb_spec new (2 ^ 63)) as [Hn63|Hn63]; rewrite two63_val in Hn63.
  - exists [new], ROk, (N.to_nat new - length (obuf st))%nat.
    assert (Hk : N.of_nat (length (obuf st) + (N.to_nat new - length (obuf st))) = new)
      by (unfold size in *; lia).
    rewrite Hk. split; [|split].
    + split; intros al H; cbn [forallb] in H; rewrite andb_true_r in H;
        rewrite Hrun, Hres; unfold can_alloc; cbn [with_alloc alloc_ok]; rewrite H.
      * destruct (N.ltb_spec new (2 ^ 63)); rewrite two63_val in *; [reflexivity|lia].
      * now rewrite andb_false_r.
    + intros _. unfold size in *. lia.
    + right. exists new. split; [reflexivity|]. split; [reflexivity|]. split; [reflexivity|].
      split; [exact Hn63|].
      assert (Hdm : (size + add) * emul c = ediv c * new + ((size + add) * emul c) mod ediv c)
        by (rewrite Hnew; apply N.div_mod; lia).
      assert (((size + add) * emul c) mod ediv c < ediv c) by (apply N.mod_lt; lia).
      assert (0 < add) by lia.
      split; [nia|].
      transitivity (emul c * (size + add)); [lia|]. apply N.mul_le_mono_l. lia.
  - exists [], RThrow, O. rewrite Hst. split; [|split; [discriminate|now left]].
    apply asks_const. intro al. rewrite Hrun, Hres. unfold can_alloc.
    destruct (N.ltb_spec new (2 ^ 63)); rewrite two63_val in *; [lia|reflexivity].
Qed.

(** ** Whole actions *)

Definition grows (c : cfg) (f : (N -> bool) -> act) : Prop := forall st, ost_ok st ->
  exists ns r st', asks f st ns r st' /\ ost_ok st' /\ (opos st <= opos st')%nat
    /\ geometric (emul c) (ediv c) (blen st) ns
    /\ blen st' = last ns (blen st)
    /\ Forall (fun n => ediv c * n <= emul c * (2 * (N.of_nat (opos st') + 10))) ns.

Lemma grows_const c f r : (forall al st, f al st = (r, st)) -> grows c f.
Proof.
  intros H st Hok. exists [], r, st. split; [apply asks_const; intro; apply H|].
  split; [exact Hok|]. split; [lia|]. split; [constructor|]. split; [reflexivity|constructor].
Qed.

Lemma grows_write c add n (upd : ost -> ost) :
  wf_out c -> growable c = true -> N.of_nat n <= add -> add <= N.of_nat n + 10 -> add < 2 ^ 63 ->
  forall w : act,
  (forall st, (opos st + n <= length (obuf st))%nat -> w st = (ROk, upd st)) ->
  (forall st, (opos st + n <= length (obuf st))%nat ->
     opos (upd st) = (opos st + n)%nat /\ length (obuf (upd st)) = length (obuf st)) ->
  grows c (fun al => enlarge_for (with_alloc c al) add ;; w).
Proof.
  intros Hwf Hg Hn Hn' Hadd w Hw Hupd st Hok.
  destruct (enlarge_asks c add st Hwf Hg Hok Hadd) as (ns & r & k & HA & Hroom & Hns).
  destruct (asks_seq _ (fun _ => w) _ _ _ _ HA) as [H1 H2].
  set (s1 := mkO (obuf st ++ zeros k) (opos st)) in *.
  assert (L1 : length (obuf s1) = (length (obuf st) + k)%nat)
    by (unfold s1; cbn [obuf]; now rewrite app_length, zeros_length).
  destruct Hok as [Hp Hs].
  assert (Hk63 : N.of_nat (length (obuf st) + k) < 2 ^ 63).
  { destruct Hns as [[_ ->]|(m & _ & _ & -> & Hm & _)]; [now rewrite Nat.add_0_r|exact Hm]. }
  assert (Hok1 : ost_ok s1) by (split; [rewrite L1; cbn; lia|now rewrite L1]).
  assert (Hdec : r = ROk \/ r <> ROk) by (destruct r; auto; right; discriminate).
  destruct Hdec as [Er|Er].
  - specialize (Hroom Er).
    assert (Hfit : (opos s1 + n <= length (obuf s1))%nat) by (rewrite L1; cbn; lia).
    destruct (Hupd s1 Hfit) as [U1 U2].
    exists (ns ++ []), ROk, (upd s1). split; [apply H2; [exact Er|]; apply asks_const; intro; now apply Hw|].
    rewrite app_nil_r.
    split; [split; [lia|rewrite U2, L1; exact Hk63]|].
    split; [rewrite U1; cbn; lia|].
    unfold blen. rewrite U1, U2, L1. cbn [opos s1].
    destruct Hns as [[-> ->]|(m & -> & _ & Em & Hm & G1 & G2)].
    + split; [constructor|]. cbn [last]. split; [lia|constructor].
    + split; [constructor; [exact G1|constructor]|]. cbn [last]. split; [now rewrite Em|].
      constructor; [|constructor]. etransitivity; [exact G2|].
      apply N.mul_le_mono_l. lia.
  - destruct Hns as [[-> ->]|(m & _ & E & _)]; [|contradiction].
    exists [], r, s1. split; [now apply H1|]. split; [exact Hok1|]. split; [cbn; lia|].
    split; [constructor|]. unfold blen. rewrite L1. cbn [last]. split; [lia|constructor].
Qed.

Lemma grows_seq c f g :
  growable c = true -> wf_out c ->
  grows c f -> grows c g -> grows c (fun al => f al ;; g al).
Proof.
  intros Hg Hwf Hf HG st Hok.
  destruct (Hf st Hok) as (ns & r & s1 & A & O1 & P1 & G1 & L1 & F1).
  destruct (asks_seq _ g _ _ _ _ A) as [H1 H2].
  assert (Hdec : r = ROk \/ r <> ROk) by (destruct r; auto; right; discriminate).
  destruct Hdec as [Er|Er].
  - destruct (HG s1 O1) as (ns' & r' & s2 & A' & O2 & P2 & G2 & L2 & F2).
    exists (ns ++ ns'), r', s2. split; [now apply H2|]. split; [exact O2|]. split; [lia|].
    split; [apply geo_app; [exact G1|now rewrite <- L1]|].
    split; [now rewrite last_app, <- L1|].
    apply Forall_app. split; [|exact F2].
    eapply Forall_impl; [|exact F1]. cbn. intros a Ha. etransitivity; [exact Ha|].
    apply N.mul_le_mono_l. lia.
  - exists ns, r, s1. split; [now apply H1|]. auto.
Qed.

(** When the first action cannot succeed, the second does not matter. *)
Lemma grows_stop c f g :
  (forall al st st', f al st <> (ROk, st')) -> grows c f -> grows c (fun al => f al ;; g al).
Proof.
  intros Hno Hf st Hok.
  destruct (Hf st Hok) as (ns & r & s1 & A & O1 & P1 & G1 & L1 & F1).
  assert (E : forall al, (f al ;; g al) st = f al st).
  { intro al. unfold seq. destruct (f al st) as [[]] eqn:E; try reflexivity. now apply Hno in E. }
  exists ns, r, s1. split; [|auto 10]. destruct A as [A B]. split; intros; rewrite E; auto.
Qed.

Fixpoint narrow (s : script) : bool :=
  match s with
  | SVar w _ => wfw w
  | SSeq a b => narrow a && narrow b
  | _ => true
  end.

Lemma run_done c s : forall st st', run c s st = (ROk, st') -> snd (writes s) = true.
Proof.
  induction s as [| |e|e|w v|n l|a IHa b IHb]; intros st st' H; try reflexivity; try discriminate.
  cbn [run] in H. unfold seq in H. destruct (run c a st) as [r s1] eqn:Ea.
  destruct r; try discriminate. cbn [writes].
  unfold pseq. rewrite (IHa _ _ Ea). cbn [snd]. exact (IHb _ _ H).
Qed.

Lemma run_growable_put c e : growable c = true -> run c (SPut e) = (enlarge_for c (N.of_nat (length e)) ;; store e).
Proof.
  intro H. cbn [run]. unfold put, reserve. rewrite H. reflexivity.
Qed.

Lemma or_bits_length pos : forall l b k, length (or_bits b pos k l) = length b.
Proof.
  induction l as [|x l IH]; intros b k; [reflexivity|]. cbn [or_bits].
  rewrite IH. unfold or_bit. destruct (nth_error b (pos + k / 8)) eqn:E; [|reflexivity].
  apply overwrite_length. cbn [length].
  assert (pos + k / 8 < length b)%nat by (apply nth_error_Some; congruence). lia.
Qed.

Lemma vloop_length f : forall v, (length (vloop f v) <= f)%nat.
Proof.
  induction f as [|f IH]; intro v; [cbn; lia|]. cbn [vloop].
  destruct (v <? 0x80); cbn [length]; [lia|]. specialize (IH (N.shiftr v 7)). lia.
Qed.

Lemma run_grows c s :
  wf_out c -> growable c = true -> narrow s = true -> N.of_nat (length (fst (writes s))) < 2 ^ 63 ->
  grows c (fun al => run (with_alloc c al) s).
Proof.
  intros Hwf Hg. induction s as [| |e|e|w v|n l|a IHa b IHb]; intros Hn Hl.
  - now apply (grows_const c _ ROk).
  - now apply (grows_const c _ RUB).
  - now apply (grows_const c _ (RErr e)).
  - cbn [writes pdone fst] in Hl.
    intros st Hok.
    destruct (grows_write c (N.of_nat (length e)) (length e)
                (fun st => mkO (overwrite (obuf st) (opos st) e) (opos st + length e))
                Hwf Hg ltac:(lia) ltac:(lia) Hl (store e)) with (st := st)
      as (ns & r & st' & A & R); auto.
    + intros s H. now apply store_ok.
    + intros s H. cbn [opos obuf]. split; [reflexivity|]. now apply overwrite_length.
    + exists ns, r, st'. split; [|exact R]. destruct A as [A B].
      split; intros al Hal; rewrite run_growable_put by exact Hg; auto.
  - cbn [narrow] in Hn. pose proof (max_size_le10 w Hn) as H10.
    pose proof (vloop_length (varint_max_size w) v) as HL.
    set (e := vloop (varint_max_size w) v) in *.
    intros st Hok.
    destruct (grows_write c (N.of_nat (varint_max_size w)) (length e)
                (fun st => mkO (overwrite (obuf st) (opos st) e) (opos st + length e))
                Hwf Hg ltac:(lia) ltac:(lia) ltac:(rewrite two63_val; lia) (store e)) with (st := st)
      as (ns & r & st' & A & R); auto.
    + intros s H. now apply store_ok.
    + intros s H. cbn [opos obuf]. split; [reflexivity|]. now apply overwrite_length.
    + exists ns, r, st'. split; [|exact R]. destruct A as [A B].
      assert (E : forall al, run (with_alloc c al) (SVar w v)
                  = (enlarge_for (with_alloc c al) (N.of_nat (varint_max_size w)) ;; store e)).
      { intro al. cbn [run]. unfold varint_reserve. cbn [with_alloc growable]. rewrite Hg. reflexivity. }
      split; intros al Hal; rewrite E; auto.
  - cbn [writes pdone fst] in Hl. rewrite le_bytes_length in Hl.
    intros st Hok.
    set (w := fun st => if (opos st + bitset_bytes n <=? length (obuf st))%nat
      then (ROk, mkO (or_bits (obuf st) (opos st) 0 l) (opos st + bitset_bytes n))
      else (RUB, st)).
    destruct (grows_write c (N.of_nat (bitset_bytes n)) (bitset_bytes n)
                (fun st => mkO (or_bits (obuf st) (opos st) 0 l) (opos st + bitset_bytes n))
                Hwf Hg ltac:(lia) ltac:(lia) Hl w) with (st := st)
      as (ns & r & st' & A & R); auto.
    + intros s H. unfold w. destruct (Nat.leb_spec (opos s + bitset_bytes n) (length (obuf s))); [reflexivity|lia].
    + intros s H. cbn [opos obuf]. split; [reflexivity|]. apply or_bits_length.
    + exists ns, r, st'. split; [|exact R]. destruct A as [A B].
      assert (E : forall al, run (with_alloc c al) (SBits n l)
                  = (enlarge_for (with_alloc c al) (N.of_nat (bitset_bytes n)) ;; w)).
      { intro al. cbn [run]. unfold ser_bitset, reserve. cbn [with_alloc growable]. rewrite Hg. reflexivity. }
      split; intros al Hal; rewrite E; auto.
  - cbn [narrow] in Hn. apply andb_true_iff in Hn as [Hna Hnb].
    cbn [writes] in Hl. unfold pseq in Hl. cbn [run].
    destruct (snd (writes a)) eqn:Ea.
    + cbn [fst] in Hl. rewrite app_length in Hl.
      apply (grows_seq c (fun al => run (with_alloc c al) a) (fun al => run (with_alloc c al) b));
        auto; [apply IHa|apply IHb]; auto; lia.
    + apply (grows_stop c (fun al => run (with_alloc c al) a) (fun al => run (with_alloc c al) b)); auto.
      intros al st st' H. apply run_done in H. congruence.
Qed.

Lemma narrow_bytes e : narrow (scr_bytes e) = true.
Proof. now destruct e. Qed.

Lemma narrow_size c s n : szok c = true -> wfsz s = true -> narrow (scr_size c (sz_of c s) n) = true.
Proof.
  unfold szok. intros H1 H2. destruct s as [s|]; cbn [sz_of]; [destruct s as [|w|w]|destruct (dsize c) as [|w|w]];
    cbn [scr_size narrow wfsz] in *; auto.
Qed.

Lemma scr_narrow G c : szok c = true -> wf_env G ->
  forall v t, wf G t = true -> narrow (scr G c v t) = true.
Proof.
  intros Hsz HG.
  assert (HM : forall l, Forall (fun v => forall t, wf G t = true -> narrow (scr G c v t) = true) l ->
             forall ms, forallb (wf G) ms = true -> narrow (scr_many (scr G c) l ms) = true).
  { intros l H. induction H as [|x l Hx _ IH]; intros [|m ms] Hm; try reflexivity.
    cbn [scr_many narrow forallb] in *. apply andb_true_iff in Hm as [Hm1 Hm2].
    rewrite Hx, IH by assumption. reflexivity. }
  assert (HA : forall t l, wf G t = true ->
             Forall (fun v => forall t, wf G t = true -> narrow (scr G c v t) = true) l ->
             narrow (scr_all (scr G c) l t) = true).
  { intros t l Ht H. induction H as [|x l Hx _ IH]; [reflexivity|].
    cbn [scr_all narrow]. now rewrite Hx, IH. }
  induction v as [n|l IH| |v IH|i v IH| |l|l] using val_ind'; intros t Hwf;
    destruct t as [w isb| |w sg zz| |si ms|k|n' t'|ts|s cg t'|s k t'|dc t'|t'|t'|ik meta alts|n'|k|s t'];
    try reflexivity; try (destruct k as [s|nv|]; reflexivity); cbn [scr wf] in *.
  - exact Hwf.
  - now destruct l.
  - rewrite !andb_true_iff in Hwf. destruct Hwf as [[_ Hwf] _].
    destruct (negb (s_expl si) && is_empty (TStruct si ms)); [reflexivity|].
    destruct (as_bytes c (TStruct si ms)); [apply narrow_bytes|]. now apply HM.
  - apply HM; [exact IH|]. apply HG.
  - apply andb_true_iff in Hwf as [_ Hwf].
    destruct (as_bytes c t'); [apply narrow_bytes|]. now apply HA.
  - now apply HM.
  - apply andb_true_iff in Hwf as [Hs Hwf]. cbn [narrow]. rewrite narrow_size by assumption.
    destruct (as_bytes c t' && cg); [apply narrow_bytes|]. now apply HA.
  - apply andb_true_iff in Hwf as [Hs Hwf]. cbn [narrow]. rewrite narrow_size by assumption. now apply HA.
  - apply andb_true_iff in Hwf as [Hs Hwf]. cbn [narrow]. rewrite narrow_size by assumption.
    destruct (as_bytes c t'); [apply narrow_bytes|]. now apply HA.
  - cbn [narrow]. now apply IH.
  - cbn [narrow]. now apply IH.
  - now apply IH.
  - destruct (nth_error meta i) as [[id dc]|]; [|reflexivity].
    destruct (nth_error alts i) as [t'|] eqn:E; [|reflexivity].
    cbn [narrow]. rewrite !andb_true_iff in Hwf. destruct Hwf as [_ Hwf].
    rewrite forallb_forall in Hwf. apply nth_error_In in E.
    rewrite IH by auto. destruct ik; cbn [scr_id]; [reflexivity|]. now rewrite narrow_bytes.
  - destruct k as [s|n|]; cbn [narrow]; rewrite ?narrow_bytes; [|reflexivity|reflexivity].
    now rewrite narrow_size.
Qed.

Lemma ser_grows G c v t :
  writing G c v t -> growable c = true -> grows c (fun al => ser G (with_alloc c al) v t).
Proof.
  intros [H1 H2 H3 H4 H5 H6 H7 H8] Hg st Hok.
  destruct (run_grows c (scr G c v t) H1 Hg) with (st := st) as (ns & r & st' & [A B] & R); auto.
  - now apply scr_narrow.
  - rewrite writes_enc by assumption. exact H8.
  - exists ns, r, st'. split; [|exact R].
    split; intros al Hal; rewrite ser_scr, scr_alloc; auto.
Qed.

(** ** The theorems *)

(** C54: writing any items through [out] asks the allocator for a geometric sequence of buffer
    sizes - each more than Multiplier/Divisor times the previous size of the buffer, the first
    compared with the size at the start - and never for more than Multiplier/Divisor times
    twice the final position plus ten bytes. *)
Theorem growth_geometric G c vs ts st :
  writing G c (VSeq vs) (TTuple ts) -> growable c = true -> ost_ok st ->
  exists ns r st', asks (fun al => out_call G (with_alloc c al) vs ts) st ns r st'
    /\ geometric (emul c) (ediv c) (blen st) ns
    /\ Forall (fun n => ediv c * n <= emul c * (2 * (N.of_nat (opos st') + 10))) ns.
Proof.
  intros HW Hg Hok.
  destruct (ser_grows _ _ _ _ HW Hg st Hok) as (ns & r & s1 & [A B] & [O1 O2] & P1 & G1 & L1 & F1).
  assert (E : forall al, out_call G (with_alloc c al) vs ts st =
     if growable c && negb (nofit c) && negb (exact_enlarger c)
     then let '(r, s) := ser G (with_alloc c al) (VSeq vs) (TTuple ts) st in
          fit_size (with_alloc c al) (length (obuf st)) r s
     else ser G (with_alloc c al) (VSeq vs) (TTuple ts) st).
  { intro al. unfold out_call, exact_enlarger. cbn [with_alloc growable nofit emul ediv ser].
    destruct (growable c && negb (nofit c) && negb ((emul c =? 1) && (ediv c =? 1))); [|reflexivity].
    now destruct (ser_many (ser G (with_alloc c al)) vs ts st). }
  assert (Fit : forall al r s, ost_ok s ->
     exists s', fit_size (with_alloc c al) (length (obuf st)) r s = (r, s') /\ opos s' = opos s
                /\ fit_size c (length (obuf st)) r s = (r, s')).
  { intros al q s [Q1 Q2]. unfold fit_size, buf_resize.
    destruct q; try (now exists s);
      (destruct (Nat.leb_spec (length (obuf st)) (opos s)); [|now exists s];
       destruct (N.leb_spec (N.of_nat (opos s)) (N.of_nat (length (obuf s)))); [|lia];
       eexists; split; [reflexivity|]; split; reflexivity). }
  destruct (growable c && negb (nofit c) && negb (exact_enlarger c)).
  2:{ exists ns, r, s1. split; [|now split]. split; intros al Hal; rewrite E; auto. }
  destruct (Fit (fun _ => true) r s1 (conj O1 O2)) as (s' & _ & P' & F').
  exists ns, r, s'. rewrite P'. split; [|now split].
  split; intros al Hal; rewrite E.
  - rewrite (A al Hal). destruct (Fit al r s1 (conj O1 O2)) as (s'' & F'' & _ & Fc).
    rewrite F''. congruence.
  - specialize (B al Hal). destruct (ser G (with_alloc c al) (VSeq vs) (TTuple ts) st) as [q s].
    cbn in B. subst q. reflexivity.
Qed.

(** With the default enlarger of 3/2, or any that enlarges at least as fast: the number of
    requests is logarithmic in the final position, everything ever requested together is at
    most nine times and the largest request at most three times the final position (plus a
    constant). *)
Theorem growth_amortised G c vs ts st :
  writing G c (VSeq vs) (TTuple ts) -> growable c = true -> ost_ok st ->
  emul c = 3 -> ediv c = 2 ->
  exists ns r st', asks (fun al => out_call G (with_alloc c al) vs ts) st ns r st'
    /\ 3 ^ N.of_nat (length ns) <= 2 ^ N.of_nat (length ns) * (9 * (N.of_nat (opos st') + 10))
    /\ total ns <= 9 * (N.of_nat (opos st') + 10)
    /\ Forall (fun n => n <= 3 * (N.of_nat (opos st') + 10)) ns.
Proof.
  intros HW Hg Hok Em Ed.
  destruct (growth_geometric _ _ _ _ _ HW Hg Hok) as (ns & r & st' & A & G1 & F1).
  exists ns, r, st'. split; [exact A|]. rewrite Em, Ed in *.
  set (E := N.of_nat (opos st') + 10) in *.
  assert (F : Forall (fun n => n <= 3 * E) ns).
  { eapply Forall_impl; [|exact F1]. cbn. intros a Ha. lia. }
  destruct G1 as [l|l n ns Hn HG].
  { cbn [length total fold_right]. rewrite !N.pow_0_r. split; [lia|]. split; [lia|constructor]. }
  assert (Hlast : last ns n <= 3 * E).
  { rewrite Forall_forall in F. apply F. clear -ns. revert n. induction ns as [|m ns IH]; intro n; [now left|].
    rewrite last_cons. right. apply IH. }
  split; [|split; [|exact F]].
  - pose proof (geo_count 3 2 n ns HG) as HC. cbn [length]. rewrite Nat2N.inj_succ, !N.pow_succ_r'.
    set (a := 3 ^ N.of_nat (length ns)) in *. set (b := 2 ^ N.of_nat (length ns)) in *.
    clearbody a b. assert (1 <= n) by lia. nia.
  - pose proof (geo_total 3 2 n ns HG ltac:(lia)) as HT. cbn [total fold_right]. fold (total ns). lia.
Qed.

(** A list of [k] one-byte integers without a size prefix. *)
Definition bytes_ty : ty := TVec (Some SzNone) false (TScalar 1 false).
Definition bytes_val (k : nat) : val := VSeq (repeat (VN 7) k).

(** Non-vacuity: the hypotheses hold for a nested value behind forty bytes; those forty bytes
    ask for eight buffers and refusing any of them ends in the exception. *)
Example growth_nontrivial :
  let f al := out_call node_env (with_alloc vec_cfg al) [bytes_val 40] [bytes_ty] (mkO [] 0) in
  let ns := [1; 3; 6; 10; 16; 25; 39; 60] in
  writing node_env vec_cfg (VSeq [bytes_val 40; demo_val]) (TTuple [bytes_ty; demo_ty])
  /\ growable vec_cfg = true /\ ost_ok (mkO [] 0) /\ emul vec_cfg = 3 /\ ediv vec_cfg = 2
  /\ f (fun n => existsb (N.eqb n) ns) = (ROk, mkO (repeat (n2b 7) 40) 40)
  /\ map (fun bad => fst (f (fun n => negb (n =? bad)))) ns = repeat RThrow 8.
Proof.
  cbv zeta. split; [|split; [reflexivity|split; [split; [cbn; lia|reflexivity]|
    split; [reflexivity|split; [reflexivity|split; vm_compute; reflexivity]]]]].
  split; try reflexivity.
  - intros _. split; [reflexivity|]. split; [discriminate|reflexivity].
  - intro k. destruct k as [|[|k]]; split; reflexivity.
  - intro k. destruct k as [|[|k]]; reflexivity.
Qed.

(** exact_enlarger (enlarger<1, 1>, 1108): writing [k] elements one by one asks for every size
    from 1 to [k]: as many requests as bytes, and their total is quadratic. *)
Definition exact_cfg : cfg :=
  mkCfg true false (SzFix 4) None 1 1 false false true (fun _ => true) (fun _ => 8).

Lemma exact_step al x buf :
  N.of_nat (S (length buf)) < 2 ^ 63 ->
  put (with_alloc exact_cfg al) [x] (mkO buf (length buf)) =
  if al (N.of_nat (S (length buf))) then (ROk, mkO (buf ++ [x]) (S (length buf)))
  else (RThrow, mkO buf (length buf)).
Proof.
  intro H. rewrite two63_val in H. unfold put, reserve, seq. cbn [with_alloc exact_cfg growable].
  unfold enlarge_for. cbn [obuf opos emul ediv noovf with_alloc length].
  rewrite wsub_small by (rewrite ?two64_val; lia). rewrite N.sub_diag.
  change (N.of_nat 1) with 1. change (0 <? 1) with true. cbn [negb andb].
  assert (Ha : wadd (N.of_nat (length buf)) 1 = N.of_nat (S (length buf))).
  { unfold wadd. rewrite N.mod_small; [lia|]. rewrite two64_val. lia. }
  rewrite Ha. destruct (N.ltb_spec (N.of_nat (S (length buf))) (N.of_nat (length buf))); [lia|].
  change (emul exact_cfg) with 1. change (ediv exact_cfg) with 1. change (noovf exact_cfg) with false.
  change (1 =? 1) with true. cbn [negb andb within_limit alim with_alloc exact_cfg].
  unfold buf_resize. cbn [obuf opos].
  destruct (N.leb_spec (N.of_nat (S (length buf))) (N.of_nat (length buf))); [lia|].
  unfold can_alloc. cbn [alloc_ok with_alloc].
  destruct (N.ltb_spec (N.of_nat (S (length buf))) (2 ^ 63)); [|rewrite two63_val in *; lia].
  cbn [andb]. destruct (al (N.of_nat (S (length buf)))); [|reflexivity].
  replace (N.to_nat (N.of_nat (S (length buf))) - length buf)%nat with 1%nat by lia.
  rewrite store_ok by (cbn [obuf opos length]; rewrite app_length; cbn; lia).
  cbn [obuf opos]. f_equal. f_equal; [|cbn [length]; lia].
  unfold overwrite. rewrite firstn_app, Nat.sub_diag, firstn_all. cbn [firstn app].
  rewrite app_nil_r. f_equal. cbn [length app].
  rewrite skipn_all2 by (rewrite app_length; cbn; lia). reflexivity.
Qed.

Lemma exact_run k : forall buf, N.of_nat (length buf + k) < 2 ^ 63 ->
  asks (fun al => ser_all (ser node_env (with_alloc exact_cfg al)) (repeat (VN 7) k) (TScalar 1 false))
    (mkO buf (length buf)) (map N.of_nat (List.seq (S (length buf)) k)) ROk
    (mkO (buf ++ repeat (n2b 7) k) (length buf + k)).
Proof.
  induction k as [|k IH]; intros buf H.
  - cbn [repeat List.seq map]. rewrite app_nil_r, Nat.add_0_r. now apply asks_const.
  - cbn [repeat List.seq map].
    change (N.of_nat (S (length buf)) :: map N.of_nat (List.seq (S (S (length buf))) k))
      with ([N.of_nat (S (length buf))] ++ map N.of_nat (List.seq (S (S (length buf))) k)).
    assert (S1 : asks (fun al => ser node_env (with_alloc exact_cfg al) (VN 7) (TScalar 1 false))
                  (mkO buf (length buf)) [N.of_nat (S (length buf))] ROk
                  (mkO (buf ++ [n2b 7]) (S (length buf)))).
    { split; intros al Hal; cbn [ser forallb] in *; rewrite andb_true_r in Hal;
        change (scalar_bytes (with_alloc exact_cfg al) 1 7) with [n2b 7];
        rewrite exact_step by lia; now rewrite Hal. }
    destruct (asks_seq _ (fun al => ser_all (ser node_env (with_alloc exact_cfg al)) (repeat (VN 7) k)
                            (TScalar 1 false)) _ _ _ _ S1) as [_ Hs].
    specialize (IH (buf ++ [n2b 7])). rewrite app_length in IH. cbn [length] in IH.
    rewrite Nat.add_1_r, <- app_assoc in IH.
    replace (length buf + S k)%nat with (S (length buf) + k)%nat by lia.
    apply (Hs eq_refl). apply IH. lia.
Qed.

Lemma total_seq k : forall a, 2 * total (map N.of_nat (List.seq a k)) = N.of_nat k * (2 * N.of_nat a + N.of_nat k) - N.of_nat k.
Proof.
  induction k as [|k IH]; intro a; [reflexivity|].
  cbn [List.seq map total fold_right]. fold (total (map N.of_nat (List.seq (S a) k))).
  specialize (IH (S a)). nia.
Qed.

Lemma exact_writing k :
  N.of_nat k < 2 ^ 63 -> writing node_env exact_cfg (VSeq [bytes_val k]) (TTuple [bytes_ty]).
Proof.
  intro H.
  assert (Hw : writing node_env exact_cfg (VSeq [bytes_val 0]) (TTuple [bytes_ty])).
  { split; try reflexivity.
    - intros _. split; [reflexivity|]. split; [discriminate|reflexivity].
    - intro i. destruct i as [|[|i]]; split; reflexivity.
    - intro i. destruct i as [|[|i]]; reflexivity. }
  destruct Hw as [H1 H2 H3 H4 H5 H6 H7 _]. split; try assumption.
  - cbn. rewrite andb_true_r. apply forallb_forall. intros x Hx. apply repeat_spec in Hx. now subst x.
  - assert (E : enc_all (enc node_env (fmt_of exact_cfg)) (repeat (VN 7) k) (TScalar 1 false) = pdone (repeat (n2b 7) k)).
    { clear. induction k as [|k IH]; [reflexivity|]. cbn [repeat enc_all]. rewrite IH. reflexivity. }
    unfold encode. cbn [enc enc_many bytes_val bytes_ty]. rewrite E.
    unfold pseq, pdone. cbn [snd fst wire_size]. cbn [app]. rewrite ?app_nil_r.
    cbn [fst snd]. rewrite ?app_nil_r. cbn [fst]. now rewrite repeat_length.
Qed.

Theorem exact_growth_refuted k :
  N.of_nat k < 2 ^ 63 ->
  writing node_env exact_cfg (VSeq [bytes_val k]) (TTuple [bytes_ty]) /\
  exists ns st', asks (fun al => out_call node_env (with_alloc exact_cfg al) [bytes_val k] [bytes_ty])
      (mkO [] 0) ns ROk st'
    /\ opos st' = k /\ length ns = k /\ 2 * total ns = N.of_nat k * (N.of_nat k + 1).
Proof.
  intro Hk. split; [now apply exact_writing|].
  exists (map N.of_nat (List.seq 1 k)), (mkO (repeat (n2b 7) k) k).
  split; [|split; [reflexivity|split; [now rewrite map_length, seq_length|]]].
  2:{ pose proof (total_seq k 1). lia. }
  destruct (exact_run k [] Hk) as [A B]. cbn [length app Nat.add] in *.
  assert (E : forall al, out_call node_env (with_alloc exact_cfg al) [bytes_val k] [bytes_ty] (mkO [] 0) =
    (ser_all (ser node_env (with_alloc exact_cfg al)) (repeat (VN 7) k) (TScalar 1 false) ;; ret) (mkO [] 0)).
  { intro al. unfold out_call. cbn. unfold seq. cbn.
    destruct (ser_all (ser node_env (with_alloc exact_cfg al)) (repeat (VN 7) k) (TScalar 1 false) (mkO [] 0)) as [[]]; reflexivity. }
  split; intros al Hal; rewrite E; unfold seq.
  - now rewrite (A al Hal).
  - specialize (B al Hal). destruct (ser_all _ _ _ _) as [q s]. cbn in B. now subst q.
Qed.

(** Non-vacuity. *)
Example exact_growth_nontrivial :
  let f al := out_call node_env (with_alloc exact_cfg al) [bytes_val 9] [bytes_ty] (mkO [] 0) in
  f (fun n => n <=? 9) = (ROk, mkO (repeat (n2b 7) 9) 9)
  /\ map (fun bad => fst (f (fun n => negb (n =? bad)))) [1;2;3;4;5;6;7;8;9] = repeat RThrow 9.
Proof. split; vm_compute; reflexivity. Qed.
