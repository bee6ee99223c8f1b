(** The work of writing: calls, bytes and the growth of the buffer. *)

From Coq Require Import List NArith ZArith Lia Bool Arith.
From Coq Require Import ZifyBool ZifyNat ZifyN.
From Verif Require Import Base.Bytes Model.Types Model.Machine Model.Varint Model.Out Model.OutCost
  Spec.Leb128 Spec.Wire Spec.Visits Proofs.VarintP Proofs.OutP Proofs.Script Thm.Output Thm.Growth Proofs.AliasLen.
Import ListNotations.
Local Open Scope N_scope.

Section Cost.
  Variable mv : N -> N -> bool.
  Notation spent := (spent mv). Notation resized := (resized mv).
  Notation also := also. Notation cost := (cost mv).

  (** What a script spends on bytes and room. *)
  Fixpoint toll (c : cfg) (s : script) : ost -> N :=
    match s with
    | SSeq a b => also (toll c a) (run c a) (toll c b)
    | s => spent (run c s)
    end.

  (** [w] is [k] calls and the script [s]. *)
  Definition counts (c : cfg) (w : ost -> N) (k : N) (s : script) : Prop :=
    forall st, w st <= k + toll c s st /\ (fst (run c s st) = ROk -> w st = k + toll c s st).

  Lemma spent_ext (a a' : act) st : a st = a' st -> spent a st = spent a' st.
  Proof. intro E. unfold OutCost.spent. now rewrite E. Qed.
  Lemma spent_ret st : spent ret st = 0.
  Proof.
    unfold OutCost.spent, OutCost.resized, ret. cbn [snd].
    rewrite N.ltb_irrefl. cbn [andb]. lia.
  Qed.
  Lemma spent_fail r st : spent (fail r) st = 0.
  Proof.
    unfold OutCost.spent, OutCost.resized, fail. cbn [snd].
    rewrite N.ltb_irrefl. cbn [andb]. lia.
  Qed.

  Definition single (s : script) : Prop := match s with SSeq _ _ => False | _ => True end.
  Lemma counts_single c a s : single s -> (forall st, a st = run c s st) -> counts c (spent a) 0 s.
  Proof.
    intros Hs E st. assert (K : spent a st = toll c s st).
    { destruct s; try contradiction; cbn [toll]; apply spent_ext; apply E. }
    rewrite K. split; [lia|intros _; lia].
  Qed.

  Lemma counts_also c (w1 w2 : ost -> N) (a : act) k1 k2 s1 s2 :
    counts c w1 k1 s1 -> counts c w2 k2 s2 -> (forall st, a st = run c s1 st) ->
    counts c (also w1 a w2) (k1 + k2) (SSeq s1 s2).
  Proof.
    intros H1 H2 E st. unfold OutCost.also, after. cbn [toll run]. unfold OutCost.also, after, seq. rewrite E.
    destruct (H1 st) as [A1 A2]. destruct (run c s1 st) as [r st1]. cbn [fst] in *.
    destruct (H2 st1) as [B1 B2].
    destruct r; cbn [fst]; (split; [lia|]); intro Hr; try discriminate. rewrite A2, B2; auto. lia.
  Qed.

  Lemma counts_ret c : counts c (fun _ => 0) 0 SRet.
  Proof. intro st. cbn [toll run]. rewrite spent_ret. lia. Qed.

  Lemma counts_le c w k k' s :
    counts c w k s -> k <= k' -> (forall st, fst (run c s st) <> ROk) -> counts c w k' s.
  Proof. intros H Hk Hn st. destruct (H st). split; [lia|]. intro E. exfalso. exact (Hn st E). Qed.

  Lemma counts_stop c s : single s -> (forall st, fst (run c s st) <> ROk) -> forall k, counts c (fun _ => 0) k s.
  Proof. intros _ Hn k st. split; [lia|]. intro E. exfalso. exact (Hn st E). Qed.

  Lemma counts_plus c w k s : counts c w k s -> counts c (fun st => 1 + w st) (1 + k) s.
  Proof. intros H st. destruct (H st) as [A B]. split; [lia|]. intro E. rewrite B by exact E. lia. Qed.

  Lemma counts_ext c w w' k s : (forall st, w st = w' st) -> counts c w k s -> counts c w' k s.
  Proof. intros E H st. rewrite <- E. apply H. Qed.

  Lemma counts_many G c l :
    Forall (fun x => forall t, counts c (cost G c x t) (visits G c x t) (scr G c x t)) l ->
    forall ms, counts c (cost_many (cost G c) (ser G c) l ms) (sum_many (visits G c) l ms) (scr_many (scr G c) l ms).
  Proof.
    induction 1 as [|x l Hx _ IH]; intros [|m ms]; cbn [cost_many sum_many scr_many].
    - apply counts_ret.
    - now apply counts_stop.
    - now apply counts_stop.
    - apply counts_also; auto. intro. apply ser_scr.
  Qed.

  Lemma counts_all G c l t :
    Forall (fun x => forall t, counts c (cost G c x t) (visits G c x t) (scr G c x t)) l ->
    counts c (cost_all (cost G c) (ser G c) l t) (sum_all (visits G c) l t) (scr_all (scr G c) l t).
  Proof.
    induction 1 as [|x l Hx _ IH]; cbn [cost_all sum_all scr_all].
    - apply counts_ret.
    - apply counts_also; auto. intro. apply ser_scr.
  Qed.

  Lemma counts_bytes c e : counts c (spent (put_bytes c e)) 0 (scr_bytes e).
  Proof. apply counts_single; [now destruct e|]. intro. apply run_bytes. Qed.
  Lemma counts_size c s n : counts c (spent (ser_size c s n)) 0 (scr_size c s n).
  Proof. apply counts_single; [now destruct s|]. intro. apply run_size. Qed.
  Lemma counts_id c k i : counts c (spent (ser_id c k i)) 0 (scr_id c k i).
  Proof. apply counts_single; [destruct k; [exact I|]; cbn; now destruct (le_bytes n i)|]. intro. apply run_id. Qed.

  Theorem cost_counts G c v : forall t, counts c (cost G c v t) (visits G c v t) (scr G c v t).
  Proof.
    induction v as [n|l IH| |v IH|i v IH| |l|l] using val_ind'; intro t;
      destruct t as [w isb| |w sg zz| |si ms|k|n' t'|ts|s cg t'|s k t'|dc t'|t'|t'|ik meta alts|n'|k|s t'];
      cbn [OutCost.cost visits scr]; apply counts_plus; try (now apply counts_stop);
      try (destruct k as [s|nv|]; now apply counts_stop);
      try (apply counts_single; [exact I|]; intro; reflexivity).
    - destruct l; [apply counts_ret|now apply counts_stop].
    - destruct (negb (s_expl si) && is_empty (TStruct si ms)); cbn [orb]; [apply counts_ret|].
      destruct (as_bytes c (TStruct si ms)); [apply counts_bytes|]. now apply counts_many.
    - now apply counts_many.
    - destruct (as_bytes c t'); [apply counts_bytes|]. now apply counts_all.
    - now apply counts_many.
    - apply (counts_also _ _ _ _ 0); [apply counts_size| |intro; apply run_size].
      destruct (as_bytes c t' && cg); [apply counts_bytes|now apply counts_all].
    - apply (counts_also _ _ _ _ 0); [apply counts_size| |intro; apply run_size]. now apply counts_all.
    - apply (counts_also _ _ _ _ 0); [apply counts_size| |intro; apply run_size].
      destruct (as_bytes c t'); [apply counts_bytes|now apply counts_all].
    - apply (counts_also _ _ _ _ 0); [apply counts_single; [exact I|reflexivity]|apply IH|reflexivity].
    - apply (counts_also _ _ _ _ 0); [apply counts_single; [exact I|reflexivity]|apply IH|reflexivity].
    - apply IH.
    - destruct (nth_error meta i) as [[id dc]|]; [|now apply counts_stop].
      destruct (nth_error alts i) as [t'|]; [|now apply counts_stop].
      apply (counts_also _ _ _ _ 0); [apply counts_id|apply IH|intro; apply run_id].
    - destruct k as [s|nv|].
      + apply (counts_also _ _ _ _ 0 0); [apply counts_size|apply counts_bytes|intro; apply run_size].
      + apply counts_bytes.
      + apply counts_bytes.
  Qed.

  (** ** What scripts spend *)

  (** From [st] to [st'] at the expense of [n]: every enlargement is paid for by the length it
      adds. *)
  Definition paid (c : cfg) (st st' : ost) (n : N) : Prop :=
    ost_ok st' /\ (opos st <= opos st')%nat /\ (length (obuf st) <= length (obuf st'))%nat
    /\ (emul c - ediv c) * n + emul c * blen st
       <= emul c * blen st' + (emul c - ediv c) * N.of_nat (opos st' - opos st)
    /\ (length (obuf st') = length (obuf st) -> n = N.of_nat (opos st' - opos st))
    /\ (growable c = false -> length (obuf st') = length (obuf st)).

  Lemma paid_step c st st' :
    ost_ok st' -> (opos st <= opos st')%nat -> (length (obuf st) <= length (obuf st'))%nat ->
    (length (obuf st') = length (obuf st) \/ growable c = true /\ emul c * blen st <= ediv c * blen st') ->
    paid c st st' (N.of_nat (opos st' - opos st) + resized st st').
  Proof.
    intros H1 H2 H3 H4. unfold paid, OutCost.resized, blen in *.
    set (l := N.of_nat (length (obuf st))) in *. set (l' := N.of_nat (length (obuf st'))) in *.
    assert (Hl : l <= l') by (unfold l, l'; lia).
    assert (Hb : (l' - l) + (if (l <? l') && mv l l' then l else 0) <= l').
    { destruct ((l <? l') && mv l l'); lia. }
    set (x := (l' - l) + (if (l <? l') && mv l l' then l else 0)) in *.
    assert (Hx : l' = l -> x = 0).
    { intros ->. unfold x. rewrite N.ltb_irrefl. cbn [andb]. lia. }
    clearbody x. set (d := N.of_nat (opos st' - opos st)). clearbody d.
    split; [exact H1|]. split; [exact H2|]. split; [exact H3|]. split; [|split].
    - destruct H4 as [H4|[_ H4]].
      + rewrite (Hx ltac:(unfold l, l'; lia)). nia.
      + clearbody l l'. destruct (N.le_gt_cases (ediv c) (emul c)) as [Hm|Hm].
        * assert (E : emul c = (emul c - ediv c) + ediv c) by lia.
          set (q := emul c - ediv c) in *. clearbody q. rewrite E. rewrite E in H4. nia.
        * replace (emul c - ediv c) with 0 by lia. nia.
    - intro E. rewrite (Hx ltac:(unfold l, l'; lia)). lia.
    - intro Hg. destruct H4 as [H4|[H4 _]]; [exact H4|congruence].
  Qed.

  Lemma paid_trans c a b d n m : paid c a b n -> paid c b d m -> paid c a d (n + m).
  Proof.
    intros (A1 & A2 & A3 & A4 & A5 & A6) (B1 & B2 & B3 & B4 & B5 & B6).
    split; [exact B1|]. split; [lia|]. split; [lia|]. split; [|split].
    - replace (N.of_nat (opos d - opos a)) with (N.of_nat (opos b - opos a) + N.of_nat (opos d - opos b)) by lia.
      set (q := emul c - ediv c) in *. clearbody q. nia.
    - intro E. rewrite A5, B5 by lia. lia.
    - intro Hg. rewrite B6, A6; auto.
  Qed.

  Lemma enlarge_paid c n st r st1 :
    wf_out c -> growable c = true -> ost_ok st -> n < 2 ^ 63 -> enlarge_for c n st = (r, st1) ->
    ost_ok st1 /\ opos st1 = opos st /\ (length (obuf st) <= length (obuf st1))%nat
    /\ (length (obuf st1) = length (obuf st) \/ emul c * blen st <= ediv c * blen st1)
    /\ (r = ROk -> N.of_nat (opos st) + n <= blen st1).
  Proof.
    intros Hwf Hg Hok Hn E.
    destruct (enlarge_stretch _ _ _ _ _ Hwf Hg Hok Hn E) as (S1 & S2 & S3 & S4 & S5).
    split; [exact S1|]. split; [exact S2|]. split; [exact S3|]. split; [|exact S5].
    pose proof (enlarge_for_spec c n st Hwf Hg Hok Hn) as S. rewrite E in S.
    destruct S as [(k & Hst & Hk & Hr) _].
    destruct (enlarge_asks c n st Hwf Hg Hok Hn) as (ns & r' & k' & [A B] & C & F).
    assert (Hal : with_alloc c (alloc_ok c) = c) by (now destruct c).
    specialize (A (alloc_ok c)). specialize (B (alloc_ok c)). rewrite Hal, E in A, B. cbn [fst] in B.
    assert (Hl : length (obuf st1) = (length (obuf st) + k)%nat)
      by (rewrite Hst; cbn [obuf]; rewrite app_length, zeros_length; reflexivity).
    destruct Hr as [[-> Hr]|[_ ->]]; [|left; lia].
    destruct (forallb (alloc_ok c) ns); [|discriminate (B eq_refl)].
    specialize (A eq_refl). injection A as <- A.
    assert (k = k').
    { rewrite Hst in A. injection A as A. apply (f_equal (@length byte)) in A.
      rewrite !app_length, !zeros_length in A. lia. }
    subst k'. destruct F as [[_ ->]|(m & _ & _ & -> & _ & F & _)]; [left; lia|right].
    unfold blen in *. rewrite Hl. lia.
  Qed.

  (** Room for [n], then [m] bytes. *)
  Lemma write_paid c n m (rs w : act) st :
    wf_out c -> ost_ok st -> n < 2 ^ 63 ->
    (growable c = true -> forall s, rs s = enlarge_for c n s) ->
    (growable c = false -> forall s, snd (rs s) = s) ->
    (forall s, (exists s', w s = (ROk, s') /\ opos s' = (opos s + m)%nat
        /\ length (obuf s') = length (obuf s) /\ (opos s' <= length (obuf s'))%nat) \/ snd (w s) = s) ->
    paid c st (snd ((rs ;; w) st)) (spent (rs ;; w) st).
  Proof.
    intros Hwf Hok H3 Hrg Hrf Hw. unfold OutCost.spent. unfold seq.
    assert (Q : exists r s1, rs st = (r, s1) /\ ost_ok s1 /\ opos s1 = opos st
      /\ (length (obuf st) <= length (obuf s1))%nat
      /\ (length (obuf s1) = length (obuf st) \/ growable c = true /\ emul c * blen st <= ediv c * blen s1)).
    { destruct (growable c) eqn:Hg.
      - rewrite (Hrg eq_refl). destruct (enlarge_for c n st) as [r s1] eqn:E. exists r, s1.
        destruct (enlarge_paid _ _ _ _ _ Hwf Hg Hok H3 E) as (A1 & A2 & A3 & A4 & A5).
        split; [reflexivity|]. split; [exact A1|]. split; [exact A2|]. split; [exact A3|]. tauto.
      - pose proof (Hrf eq_refl st) as A. destruct (rs st) as [r s1]. cbn [snd] in *. subst s1.
        exists r, st. split; [reflexivity|]. split; [exact Hok|]. split; [reflexivity|]. split; [lia|]. now left. }
    destruct Q as (r & s1 & E & A1 & A2 & A3 & A4). rewrite E.
    destruct r; cbn [snd]; try (apply paid_step; auto; lia).
    destruct (Hw s1) as [(s' & Ew & P & L & F)|Ew]; [|rewrite Ew; apply paid_step; auto; lia].
    rewrite Ew. cbn [snd]. apply paid_step; try lia.
    - destruct A1. split; [lia|]. rewrite L. assumption.
    - unfold blen in *. rewrite L. exact A4.
  Qed.

  Lemma paid_refl c st : ost_ok st -> paid c st st 0.
  Proof. intro H. unfold paid. split; [exact H|]. split; [lia|]. split; [lia|]. split; [lia|]. split; [lia|auto]. Qed.

  Lemma store_either e s :
    (exists s', store e s = (ROk, s') /\ opos s' = (opos s + length e)%nat
        /\ length (obuf s') = length (obuf s) /\ (opos s' <= length (obuf s'))%nat) \/ snd (store e s) = s.
  Proof.
    destruct (Nat.le_gt_cases (opos s + length e) (length (obuf s))) as [H|H].
    - left. exists (mkO (overwrite (obuf s) (opos s) e) (opos s + length e)). split; [now apply store_ok|].
      cbn [opos obuf]. rewrite overwrite_length by assumption. auto.
    - right. unfold store. destruct (Nat.leb_spec (opos s + length e) (length (obuf s))); [lia|reflexivity].
  Qed.

  Lemma run_paid c s :
    wf_out c -> narrow s = true -> N.of_nat (length (fst (writes s))) < 2 ^ 63 ->
    forall st, ost_ok st -> paid c st (snd (run c s st)) (toll c s st).
  Proof.
    intros Hwf. induction s as [| |e|e|w v|n l|a IHa b IHb]; intros Hn Hl st Hok; cbn [toll].
    - cbn [run]. rewrite spent_ret. now apply paid_refl.
    - cbn [run]. rewrite spent_fail. now apply paid_refl.
    - cbn [run]. rewrite spent_fail. now apply paid_refl.
    - cbn [writes pdone fst] in Hl. cbn [run]. unfold put.
      apply (write_paid c (N.of_nat (length e)) (length e)); auto.
      + intros Hg s. unfold reserve. now rewrite Hg.
      + intros Hg s. unfold reserve. rewrite Hg. now destruct (_ <? _).
      + apply store_either.
    - cbn [narrow] in Hn. pose proof (max_size_le10 w Hn) as H10. cbn [run].
      apply (write_paid c (N.of_nat (varint_max_size w)) (length (vloop (varint_max_size w) v))); auto.
      + rewrite two63_val. lia.
      + intros Hg s. unfold varint_reserve. now rewrite Hg.
      + intros Hg s. unfold varint_reserve. rewrite Hg. cbv zeta. now destruct (_ && _).
      + apply store_either.
    - cbn [writes pdone fst] in Hl. rewrite le_bytes_length in Hl. cbn [run]. unfold ser_bitset.
      apply (write_paid c (N.of_nat (bitset_bytes n)) (bitset_bytes n)); auto.
      + intros Hg s. unfold reserve. now rewrite Hg.
      + intros Hg s. unfold reserve. rewrite Hg. now destruct (_ <? _).
      + intro s. cbv beta. destruct (Nat.leb_spec (opos s + bitset_bytes n) (length (obuf s))); [left|right; reflexivity].
        eexists. split; [reflexivity|]. cbn [opos obuf]. rewrite or_bits_length. auto.
    - cbn [narrow] in Hn. apply andb_true_iff in Hn as [Hna Hnb].
      cbn [writes] in Hl. unfold pseq in Hl. cbn [run]. unfold seq, OutCost.also, after.
      assert (La : N.of_nat (length (fst (writes a))) < 2 ^ 63).
      { destruct (snd (writes a)); cbn [fst] in Hl; [rewrite app_length in Hl|]; lia. }
      pose proof (IHa Hna La st Hok) as S1.
      destruct (run c a st) as [r1 s1] eqn:E1. cbn [snd] in S1.
      destruct r1; try (cbn [snd]; rewrite N.add_0_r; exact S1).
      rewrite (run_done _ _ _ _ E1) in Hl. cbn [fst] in Hl. rewrite app_length in Hl.
      eapply paid_trans; [exact S1|]. apply IHb; auto; [lia|]. apply S1.
  Qed.

  (** A call that ends ten bytes before the end of the buffer has not enlarged it. *)
  Lemma run_roomy c s :
    wf_out c -> narrow s = true -> N.of_nat (length (fst (writes s))) < 2 ^ 63 ->
    forall st st', ost_ok st -> run c s st = (ROk, st') -> (opos st' + 10 <= length (obuf st))%nat ->
    length (obuf st') = length (obuf st).
  Proof.
    intros Hwf. induction s as [| |e|e|w v|n l|a IHa b IHb]; intros Hn Hl st st' Hok E Hr.
    - injection E as <-. reflexivity.
    - discriminate.
    - discriminate.
    - destruct (growable c) eqn:Hg.
      2: { pose proof (run_paid c (SPut e) Hwf Hn Hl st Hok) as P. rewrite E in P. now apply P. }
      cbn [writes pdone fst] in Hl. rewrite run_growable_put in E by exact Hg. unfold seq in E.
      destruct (enlarge_for c (N.of_nat (length e)) st) as [r s1] eqn:E1.
      destruct r; try discriminate.
      destruct (enlarge_paid _ _ _ _ _ Hwf Hg Hok Hl E1) as (A1 & A2 & A3 & A4 & A5).
      specialize (A5 eq_refl). rewrite store_ok in E by (unfold blen in A5; lia). injection E as <-.
      cbn [opos obuf] in *. rewrite overwrite_length by (unfold blen in A5; lia).
      enough (s1 = st) by congruence.
      assert (enlarge_for c (N.of_nat (length e)) st = (ROk, st)) as E2; [|rewrite E2 in E1; congruence].
      unfold enlarge_for. destruct Hok as [K1 K2]. rewrite two63_val in K2.
      rewrite wsub_small by (rewrite ?two64_val; lia).
      destruct (N.ltb_spec (N.of_nat (length (obuf st)) - N.of_nat (opos st)) (N.of_nat (length e))); [lia|reflexivity].
    - destruct (growable c) eqn:Hg.
      2: { pose proof (run_paid c (SVar w v) Hwf Hn Hl st Hok) as P. rewrite E in P. now apply P. }
      cbn [narrow] in Hn. pose proof (max_size_le10 w Hn) as H10.
      cbn [run] in E. unfold varint_reserve in E. rewrite Hg in E. unfold seq in E.
      assert (enlarge_for c (N.of_nat (varint_max_size w)) st = (ROk, st)) as E2.
      { assert (Hp : (opos st <= opos st')%nat).
        { destruct (enlarge_for c (N.of_nat (varint_max_size w)) st) as [r s1] eqn:E1. destruct r; try discriminate.
          assert (Hm : N.of_nat (varint_max_size w) < 2 ^ 63) by (rewrite two63_val; lia).
          destruct (enlarge_paid _ _ _ _ _ Hwf Hg Hok Hm E1) as (A1 & A2 & _).
          unfold store in E. destruct (_ <=? _)%nat; [|discriminate]. injection E as <-. cbn [opos]. lia. }
        unfold enlarge_for. destruct Hok as [K1 K2]. rewrite two63_val in K2.
        rewrite wsub_small by (rewrite ?two64_val; lia).
        destruct (N.ltb_spec (N.of_nat (length (obuf st)) - N.of_nat (opos st)) (N.of_nat (varint_max_size w))); [lia|reflexivity]. }
      rewrite E2 in E. unfold store in E. destruct (Nat.leb_spec (opos st + length (vloop (varint_max_size w) v)) (length (obuf st))); [|discriminate].
      injection E as <-. cbn [obuf]. now apply overwrite_length.
    - destruct (growable c) eqn:Hg.
      2: { pose proof (run_paid c (SBits n l) Hwf Hn Hl st Hok) as P. rewrite E in P. now apply P. }
      cbn [writes pdone fst] in Hl. rewrite le_bytes_length in Hl.
      cbn [run] in E. unfold ser_bitset, reserve in E. rewrite Hg in E. unfold seq in E.
      destruct (enlarge_for c (N.of_nat (bitset_bytes n)) st) as [r s1] eqn:E1.
      destruct r; try discriminate.
      destruct (enlarge_paid _ _ _ _ _ Hwf Hg Hok Hl E1) as (A1 & A2 & A3 & A4 & A5).
      destruct (_ <=? _)%nat; [|discriminate]. injection E as <-. cbn [obuf opos] in *. rewrite or_bits_length.
      enough (s1 = st) by congruence.
      assert (enlarge_for c (N.of_nat (bitset_bytes n)) st = (ROk, st)) as E2; [|rewrite E2 in E1; congruence].
      unfold enlarge_for. destruct Hok as [K1 K2]. rewrite two63_val in K2.
      rewrite wsub_small by (rewrite ?two64_val; lia).
      destruct (N.ltb_spec (N.of_nat (length (obuf st)) - N.of_nat (opos st)) (N.of_nat (bitset_bytes n))); [lia|reflexivity].
    - cbn [narrow] in Hn. apply andb_true_iff in Hn as [Hna Hnb].
      cbn [writes] in Hl. unfold pseq in Hl. cbn [run] in E. unfold seq in E.
      assert (La : N.of_nat (length (fst (writes a))) < 2 ^ 63).
      { destruct (snd (writes a)); cbn [fst] in Hl; [rewrite app_length in Hl|]; lia. }
      pose proof (run_paid c a Hwf Hna La st Hok) as S1.
      destruct (run c a st) as [r1 s1] eqn:E1. destruct r1; try discriminate. cbn [snd] in S1.
      rewrite (run_done _ _ _ _ E1) in Hl. cbn [fst] in Hl. rewrite app_length in Hl.
      assert (Lb : N.of_nat (length (fst (writes b))) < 2 ^ 63) by lia.
      destruct S1 as (P1 & P2 & P3 & _).
      pose proof (run_paid c b Hwf Hnb Lb s1 P1) as S2. rewrite E in S2. cbn [snd] in S2. destruct S2 as (_ & Q2 & _).
      assert (L1 : length (obuf s1) = length (obuf st)) by (apply (IHa Hna La st s1 Hok E1); lia).
      rewrite <- L1. apply (IHb Hnb Lb s1 st' P1 E). lia.
  Qed.

  (** ** Whole values *)

  Lemma cost_paid G c v t st :
    writing G c v t -> ost_ok st ->
    exists n, cost G c v t st <= visits G c v t + n
      /\ (fst (ser G c v t st) = ROk -> cost G c v t st = visits G c v t + n)
      /\ paid c st (snd (ser G c v t st)) n.
  Proof.
    intros [H1 H2 H3 H4 H5 H6 H7 H8] Hok. exists (toll c (scr G c v t) st).
    destruct (cost_counts G c v t st) as [A B]. rewrite ser_scr.
    split; [exact A|]. split; [exact B|]. apply run_paid; auto.
    - now apply scr_narrow.
    - rewrite writes_enc by assumption. exact H8.
  Qed.
End Cost.
