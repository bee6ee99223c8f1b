(** C61: agreement with the protobuf rules for reading (Spec/PbStd.v). *)

From Coq Require Import List NArith ZArith Lia Bool Arith.
From Coq Require Import ZifyBool ZifyNat ZifyN.
From Verif Require Import Base.Bytes Model.Types Model.Machine Model.Varint Model.Out Model.In
  Model.Loops Model.Protocol Model.Pb
  Spec.Leb128 Spec.Wire Spec.PbWire Spec.PbMerge Spec.PbStd
  Proofs.VarintP Proofs.OutP Proofs.InBase Proofs.InSafe Proofs.InRound Proofs.ProtoP
  Proofs.PbOut Proofs.PbParse Proofs.PbIn Proofs.PbRead Proofs.PbRound
  Thm.Demo Thm.Output Thm.Protocol Thm.Varints Thm.Pb.
Import ListNotations.
Local Open Scope N_scope.

Ltac Zify.zify_post_hook ::= Z.div_mod_to_equations.

Lemma std_int_varint w sg zz n :
  wfw w = true -> (zz = true -> sg = true) -> n < pow256 w ->
  std_int w zz n < pow256 w /\ varint_number w sg zz (std_int w zz n) = n.
Proof.
  intros Hw Hz Hn. unfold std_int. rewrite N.mod_small by exact Hn.
  destruct zz; [|split; [exact Hn|reflexivity]]. rewrite Hz by reflexivity.
  rewrite <- zz_dec_spec by assumption. change (zz_dec w n) with (unwire_value w true n).
  split; [now apply unwire_lt|].
  rewrite <- wire_value_number by (try assumption; now apply unwire_lt).
  now apply zigzag_signed_onto.
Qed.

Lemma varint_std_int w sg zz x :
  wfw w = true -> (zz = true -> sg = true) -> x < pow256 w ->
  std_int w zz (varint_number w sg zz x) = x.
Proof.
  intros Hw Hz Hx. pose proof (varint_number_lt w sg zz x Hw Hx) as Hn.
  unfold std_int. rewrite N.mod_small by exact Hn.
  destruct zz; [|reflexivity]. rewrite Hz by reflexivity. cbn [varint_number].
  now rewrite unzigzag_zigzag, of_to_signed.
Qed.

Lemma byte_vals_bytes b : flat_map (fun x => le_bytes 1 (vnum x)) (byte_vals b) = b.
Proof.
  induction b as [|x b IH]; [reflexivity|]. unfold byte_vals in *. cbn [map flat_map]. rewrite IH.
  cbn [vnum]. now destruct x.
Qed.

Lemma byte_vals_ok b : forallb (numok 1) (byte_vals b) = true.
Proof.
  induction b as [|x b IH]; [reflexivity|]. unfold byte_vals in *. cbn [map forallb numok].
  rewrite IH, andb_true_r. now destruct x.
Qed.

Lemma pow256_8 : pow256 8 = 2 ^ 64. Proof. reflexivity. Qed.
Lemma pow256_4 : pow256 4 = 2 ^ 32. Proof. reflexivity. Qed.

Lemma pow256_wfw w : wfw w = true -> pow256 w <= 2 ^ 64.
Proof.
  unfold wfw. intro H. rewrite !orb_true_iff, !Nat.eqb_eq in H.
  destruct H as [[[-> | ->] | ->] | ->]; vm_compute; discriminate.
Qed.

(** ** Reading: what the library shares with the protobuf rules *)

Lemma map_VN_bytes w ns : flat_map (fun x => le_bytes w (vnum x)) (map VN ns) = flat_map (le_bytes w) ns.
Proof. induction ns as [|n ns IH]; [reflexivity|]. cbn [map flat_map vnum]. now rewrite IH. Qed.

Lemma map_VN_ok w ns : Forall (fun n => n < pow256 w) ns -> forallb (numok w) (map VN ns) = true.
Proof.
  induction 1 as [|n ns Hn _ IH]; [reflexivity|]. cbn [map forallb numok]. rewrite IH, andb_true_r.
  now apply N.ltb_lt.
Qed.

Lemma fold_push ct rv l acc : fold_left (cinsert (CSeq ct rv)) l acc = acc ++ l.
Proof.
  revert acc. induction l as [|x l IH]; intro acc; cbn [fold_left cinsert]; [now rewrite app_nil_r|].
  rewrite IH, <- app_assoc. reflexivity.
Qed.

Lemma shared_merge P room :
  (forall t prior p v, std P room true t prior p v -> merge P room t prior p v) /\
  (forall nums ts vals rs vals', stds P room true nums ts vals rs vals' ->
     merges P room nums ts vals rs vals').
Proof.
  apply std_stds_ind; intros.
  - now apply mg_fix4.
  - now apply mg_fix8.
  - specialize (H0 eq_refl). replace (if n =? 0 then 0 else 1) with n by (destruct (N.eqb_spec n 0); lia).
    now apply mg_bool.
  - destruct (std_int_varint w sg zz n H H0 (H2 eq_refl)) as [E1 E2].
    rewrite <- E2 at 1. now apply mg_var.
  - apply mg_msg. now rewrite (H eq_refl).
  - destruct (H eq_refl) as [H1 H2].
    pose proof (mg_fixes P room ct rv 1 prior (byte_vals b)) as M. cbn zeta in M.
    rewrite byte_vals_bytes in M. apply M; auto. apply byte_vals_ok.
  - specialize (H1 eq_refl).
    destruct ck as [ct rv|ak rv].
    + destruct H1 as [-> H1]. rewrite fold_push. cbn [app].
      pose proof (mg_fixes P room ct rv w [] (map VN ns)) as M. cbn zeta in M.
      rewrite map_VN_bytes in M. apply M; auto. now apply map_VN_ok.
    + pose proof (mg_fixes_set P room ak rv w prior (map VN ns)) as M. cbn zeta in M.
      rewrite map_VN_bytes in M. apply M; auto. now apply map_VN_ok.
  - now apply mg_fixes_one4.
  - now apply mg_fixes_one8.
  - destruct (H2 eq_refl) as [H3 H4].
    set (l := map (fun n => VN (std_int w zz n)) ns).
    assert (E : flat_map leb128 ns
                = flat_map (fun x => leb128 (varint_number w sg zz (vnum x))) l).
    { unfold l. clear H1 H2 H4 l b. induction H3 as [|n ns Hn _ IH]; [reflexivity|].
      cbn [map flat_map vnum]. rewrite IH. now rewrite (proj2 (std_int_varint w sg zz n H H0 Hn)). }
    unfold b in *. rewrite E in *. apply mg_vars; auto.
    unfold l. clear - H H0 H3. induction H3 as [|n ns Hn _ IH]; [reflexivity|].
    cbn [map forallb numok]. rewrite IH, andb_true_r. apply N.ltb_lt.
    now apply (std_int_varint w sg zz n).
  - destruct (std_int_varint w sg zz n H H0 (H2 eq_refl)) as [E1 E2].
    rewrite <- E2 at 1. now apply mg_vars_one.
  - pose proof (mg_strs P room ck contig 1 prior (byte_vals b)) as M. cbn zeta in M.
    rewrite byte_vals_bytes in M. cbn [Nat.eqb] in M. apply M; auto. apply byte_vals_ok.
  - now apply mg_msgs.
  - unfold map_put. rewrite (H0 eq_refl). now apply mg_map.
  - constructor.
  - eapply mgs_cons; eauto.
  - discriminate.
Qed.

(** The strict rules are the protobuf rules, restricted. *)
Lemma shared_standard P room room' :
  (forall t prior p v, std P room true t prior p v -> std P room' false t prior p v) /\
  (forall nums ts vals rs vals', stds P room true nums ts vals rs vals' ->
     stds P room' false nums ts vals rs vals').
Proof.
  apply std_stds_ind; intros; try discriminate;
    try (econstructor; eauto; discriminate).
Qed.

Theorem shared_is_standard P room k prior rs res :
  shared_message P room k prior rs res -> std_message P k prior rs res.
Proof. apply shared_standard. Qed.

(** On the shared part the library computes what the rules say, and reads all of it. *)
Theorem pb_reads_standard P c f k prior rs res :
  wf_penv P -> shared_message P (pb_room c) k (start (msg_types P k) prior) rs res ->
  small (records_bytes rs) -> (length (records_bytes rs) < f)%nat ->
  std_message P k (start (msg_types P k) prior) rs res /\
  des_fields P (pb_icfg c) f k (records_bytes rs) prior = (ROk, res, length (records_bytes rs)).
Proof.
  intros HP H Hs Hf. split; [now apply shared_is_standard with (pb_room c)|].
  apply pb_reads_records; auto. now apply shared_merge.
Qed.

(** ** The rules determine the result *)

Definition valid_payload (p : payload) : Prop :=
  match p with
  | W64 n => n < pow256 8
  | W32 n => n < pow256 4
  | WVar _ | WLen _ => True
  | WCount _ _ | WByte _ | WRaw _ => False
  end.

Lemma std_payload P room b t prior p v :
  std P room b t prior p v -> valid_payload p /\ In (wire_of p) (std_wires t).
Proof.
  destruct 1; split; cbn [valid_payload wire_of std_wires In Nat.eqb]; auto;
    try (rewrite ?pow256_4, ?pow256_8; assumption); try (destruct H as [-> | ->]; cbn; auto).
Qed.

Lemma valid_record_payload num p : 0 < num -> valid_payload p -> valid_record (num, p) = true.
Proof.
  intros Hn Hp. unfold valid_record. cbn [fst snd]. apply N.ltb_lt in Hn. rewrite Hn.
  destruct p; cbn [valid_payload] in Hp; try contradiction; try reflexivity; now apply N.ltb_lt.
Qed.

Lemma stds_valid P room b nums ts vals rs vals' :
  stds P room b nums ts vals rs vals' -> Forall (fun n => 0 < n) nums -> forallb valid_record rs = true.
Proof.
  induction 1; intro Hp; [reflexivity|..]; cbn [forallb]; rewrite IHstds by exact Hp;
    rewrite andb_true_r; apply valid_record_payload.
  - apply nth_error_In in H. rewrite Forall_forall in Hp. now apply Hp.
  - eapply std_payload; eauto.
  - exact H0.
  - destruct p; cbn [conforming valid_payload] in *; rewrite ?pow256_4, ?pow256_8; auto.
Qed.

Lemma records_bytes_inj rs rs' :
  forallb valid_record rs = true -> forallb valid_record rs' = true ->
  records_bytes rs = records_bytes rs' -> rs = rs'.
Proof.
  intros H H' E. apply parse_records_exact in H, H'. rewrite E in H. congruence.
Qed.

Lemma leb_list_inj l l' : flat_map leb128 l = flat_map leb128 l' -> l = l'.
Proof.
  revert l'. induction l as [|n l IH]; intros [|n' l'] E; cbn [flat_map] in E.
  - reflexivity.
  - exfalso. pose proof (leb128_nonempty n'). destruct (leb128 n'); [cbn in *; lia|discriminate].
  - exfalso. pose proof (leb128_nonempty n). destruct (leb128 n); [cbn in *; lia|discriminate].
  - pose proof (leb_value_leb128 n (flat_map leb128 l)) as A. rewrite E in A.
    rewrite leb_value_leb128 in A. injection A as A _. subst n'.
    apply app_inv_head in E. now rewrite (IH l').
Qed.

Lemma le_list_inj w l l' :
  (0 < w)%nat -> Forall (fun n => n < pow256 w) l -> Forall (fun n => n < pow256 w) l' ->
  flat_map (le_bytes w) l = flat_map (le_bytes w) l' -> l = l'.
Proof.
  intros Hw Hl. revert l'. induction Hl as [|n l Hn _ IH]; intros l' Hl' E; destruct l' as [|n' l'];
    cbn [flat_map] in E.
  - reflexivity.
  - apply (f_equal (@length _)) in E. rewrite app_length, le_bytes_length in E. cbn in E. lia.
  - apply (f_equal (@length _)) in E. rewrite app_length, le_bytes_length in E. cbn in E. lia.
  - inversion Hl' as [|? ? Hn' Hl'']; subst.
    assert (L : length (le_bytes w n) = length (le_bytes w n')) by now rewrite !le_bytes_length.
    assert (A : firstn (length (le_bytes w n)) (le_bytes w n ++ flat_map (le_bytes w) l)
                = firstn (length (le_bytes w n)) (le_bytes w n' ++ flat_map (le_bytes w) l')) by now rewrite E.
    rewrite L in A at 2. rewrite !firstn_app, !Nat.sub_diag, !firstn_all in A.
    cbn [firstn] in A. rewrite !app_nil_r in A.
    rewrite A in E. apply app_inv_head in E. apply (le_bytes_inj w) in A; auto. subst. f_equal. now apply IH.
Qed.

Lemma distinct_index nums i j (n : N) :
  distinct nums = true -> nth_error nums i = Some n -> nth_error nums j = Some n -> i = j.
Proof.
  revert i j. induction nums as [|x nums IH]; intros i j Hd Hi Hj; [now destruct i|].
  cbn [distinct] in Hd. apply andb_true_iff in Hd as [Hx Hd].
  assert (A : forall k, nth_error nums k = Some x -> False).
  { intros k Hk. apply nth_error_In in Hk. apply negb_true_iff in Hx.
    rewrite <- not_true_iff_false in Hx. apply Hx. apply existsb_exists. exists x.
    split; [exact Hk|apply N.eqb_refl]. }
  destruct i as [|i], j as [|j]; cbn [nth_error] in *.
  - reflexivity.
  - injection Hi as ->. exfalso. eauto.
  - injection Hj as ->. exfalso. eauto.
  - f_equal. eapply IH; eauto.
Qed.

Definition good_numbers (nums : list N) : Prop :=
  distinct nums = true /\ Forall (fun n => 0 < n) nums.

Lemma msg_numbers_good P k : wf_penv P -> good_numbers (msg_numbers P k).
Proof.
  intro HP. destruct (message_facts P HP k) as (_ & _ & H2 & H3). split; [exact H2|].
  rewrite forallb_forall in H3. apply Forall_forall. intros n Hn. specialize (H3 n Hn).
  apply andb_true_iff in H3 as [H3 _]. now apply N.ltb_lt.
Qed.

Lemma pair_numbers_good : good_numbers [1; 2].
Proof. split; [reflexivity|]. repeat constructor. Qed.

Lemma std_unique P room b : wf_penv P ->
  (forall t prior p v, std P room b t prior p v -> forall v', std P room b t prior p v' -> v = v') /\
  (forall nums ts vals rs vals', stds P room b nums ts vals rs vals' ->
     good_numbers nums -> forall vals'', stds P room b nums ts vals rs vals'' -> vals' = vals'').
Proof.
  intro HP. apply std_stds_ind; intros.
  1-4: match goal with H : std _ _ _ _ _ _ _ |- _ => inversion H; subst; reflexivity end.
  - inversion H2; subst.
    assert (E : rs = rs0).
    { pose proof (msg_numbers_good P k HP) as [_ G].
      apply records_bytes_inj; [eapply stds_valid; eauto..|congruence]. }
    subst. f_equal. apply H1; auto. now apply msg_numbers_good.
  - inversion H0; subst; [reflexivity|]. destruct H5; discriminate.
  - inversion H2; subst; [destruct H; discriminate|].
    assert (E : ns = ns0).
    { apply (le_list_inj w); auto. destruct H as [-> | ->]; lia. }
    now subst.
  - inversion H0; subst; reflexivity.
  - inversion H0; subst; reflexivity.
  - inversion H3; subst.
    assert (E : ns = ns0) by (apply leb_list_inj; auto). now subst.
  - inversion H3; subst; reflexivity.
  - inversion H0; subst; reflexivity.
  - inversion H1; subst.
    assert (E : rs = rs0).
    { pose proof (msg_numbers_good P k HP) as [_ G].
      apply records_bytes_inj; [eapply stds_valid; eauto..|congruence]. }
    subst. rewrite (H0 (msg_numbers_good P k HP) res0) by assumption. reflexivity.
  - inversion H3; subst.
    assert (E : rs = rs0).
    { pose proof pair_numbers_good as [_ G].
      apply records_bytes_inj; [eapply stds_valid; eauto..|congruence]. }
    subst. rewrite (H2 pair_numbers_good res0) by assumption. reflexivity.
  - inversion H0; subst. reflexivity.
  - match goal with K : stds _ _ _ _ _ _ (_ :: _) _ |- _ => rename K into Hs end.
    match goal with K : good_numbers _ |- _ => rename K into Hg end.
    inversion Hs as [|? ? ? j ? t0 prior0 ? v0 ? ? J1 J2 J3 J4 J5|? ? ? ? ? ? ? J1 J2 J3 J4 J5]; subst.
    + assert (j = i) by (eapply distinct_index; eauto; apply Hg). subst j.
      assert (t0 = t) by congruence. assert (prior0 = prior) by congruence. subst.
      rewrite <- (H3 v0) in J5 by assumption. now apply H5.
    + exfalso. eapply J4; eauto. eapply std_payload; eauto.
  - match goal with K : stds _ _ _ _ _ _ (_ :: _) _ |- _ => rename K into Hs end.
    match goal with K : good_numbers _ |- _ => rename K into Hg end.
    inversion Hs as [|? ? ? j ? t0 prior0 ? v0 ? ? J1 J2 J3 J4 J5|? ? ? ? ? ? ? J1 J2 J3 J4 J5]; subst.
    + exfalso. eapply H2; eauto. eapply std_payload; eauto.
    + now apply H4.
Qed.

(** So "what a conforming parser makes of the records" is well defined. *)
Theorem std_message_unique P k prior rs res res' :
  wf_penv P -> std_message P k prior rs res -> std_message P k prior rs res' -> res = res'.
Proof.
  intros HP H H'. eapply (proj2 (std_unique P (fun _ => true) false HP)); eauto.
  now apply msg_numbers_good.
Qed.

(** ** Writing: a conforming parser gets the object *)

Lemma blank_repeated P t v : blank P t v -> repeated t = true -> v = VSeq [].
Proof. destruct 1; intro; try reflexivity; try discriminate. congruence. Qed.

Lemma start_blank P ts l : Forall2 (blank P) ts l -> start ts l = l.
Proof.
  induction 1 as [|t v ts l Hb _ IH]; [reflexivity|]. cbn [start]. rewrite IH.
  destruct (repeated t) eqn:E; [|reflexivity]. now rewrite (blank_repeated P t v Hb E).
Qed.

Lemma map_put_append k acc x :
  a_multi k = false -> forallb (fun y => before k y x) acc = true -> map_put k acc x = acc ++ [x].
Proof.
  intros Hm H. unfold map_put.
  assert (E : existsb (fun y => equivalent k y x) acc = false).
  { rewrite <- not_true_iff_false, existsb_exists. intros (y & Hy & E).
    rewrite forallb_forall in H. specialize (H y Hy). unfold before, equivalent in *. rewrite Hm in H.
    destruct (a_cmp k); [|now rewrite E in H].
    apply andb_true_iff in H as [H _]. rewrite H in E. discriminate. }
  rewrite E. now apply assoc_insert_append.
Qed.

Lemma fold_map_put k l acc :
  a_multi k = false -> pairwise (before k) (acc ++ l) = true -> fold_left (map_put k) l acc = acc ++ l.
Proof.
  intro Hm. revert acc. induction l as [|x l IH]; intros acc H; cbn [fold_left]; [now rewrite app_nil_r|].
  assert (E : map_put k acc x = acc ++ [x]).
  { apply map_put_append; [exact Hm|]. clear IH. induction acc as [|y acc IH]; [reflexivity|].
    cbn [app pairwise forallb] in *. apply andb_true_iff in H as [H1 H2].
    rewrite IH by exact H2. rewrite forallb_forall in H1. rewrite (H1 x); [reflexivity|].
    apply in_or_app. right. now left. }
  rewrite E. rewrite IH; rewrite <- app_assoc; auto.
Qed.

Lemma numok_vals w l :
  forallb (numok w) l = true ->
  exists ns, l = map VN ns /\ Forall (fun n => n < pow256 w) ns.
Proof.
  induction l as [|x l IH]; intro H; [exists []; split; constructor|].
  cbn [forallb] in H. apply andb_true_iff in H as [Hx H]. destruct (IH H) as (ns & -> & Hn).
  destruct x; try discriminate. cbn [numok] in Hx. exists (n :: ns). split; [reflexivity|].
  constructor; [now apply N.ltb_lt|exact Hn].
Qed.

Lemma vals_bytes l : forallb (numok 1) l = true -> exists b, l = byte_vals b.
Proof.
  intro H. exists (flat_map (fun x => le_bytes 1 (vnum x)) l).
  induction l as [|x l IH]; [reflexivity|]. cbn [forallb] in H. apply andb_true_iff in H as [Hx H].
  cbn [flat_map]. unfold byte_vals in *. rewrite map_app, <- IH by exact H.
  destruct x as [n| | | | | | |]; try discriminate. cbn [vnum numok] in *.
  apply N.ltb_lt in Hx. rewrite <- (le_val_le_bytes_small 1 n Hx) at 1.
  destruct (le_bytes 1 n) as [|y [|]] eqn:E; try (apply (f_equal (@length _)) in E; rewrite le_bytes_length in E; discriminate).
  cbn [map app le_val]. f_equal. f_equal. lia.
Qed.

Section Written.
  Variable P : penv.
  Hypothesis HP : wf_penv P.
  Hypothesis HE : protobuf_env P.

  Notation std_ := (std P (fun _ => true) false).
  Notation stds_ := (stds P (fun _ => true) false).

  Lemma stds_one nums ts vals i num t prior p v rs vals' :
    nth_error nums i = Some num -> nth_error ts i = Some t -> nth_error vals i = Some prior ->
    std_ t prior p v -> stds_ nums ts (set_nth i v vals) rs vals' ->
    stds_ nums ts vals ([(num, p)] ++ rs) vals'.
  Proof. intros. cbn [app]. eapply sts_cons; eauto. Qed.

  Lemma stds_each nums ts i num t (f : val -> list record) ins (l : list val) :
    nth_error nums i = Some num -> nth_error ts i = Some t ->
    (forall x acc, In x l -> exists p, f x = [(num, p)] /\ std_ t (VSeq acc) p (VSeq (ins acc x))) ->
    forall vals acc rs vals', nth_error vals i = Some (VSeq acc) ->
      stds_ nums ts (set_nth i (VSeq (fold_left ins l acc)) vals) rs vals' ->
      stds_ nums ts vals (flat_map f l ++ rs) vals'.
  Proof.
    intros Hn Ht. induction l as [|x l IH]; intros Hf vals acc rs vals' Hv H.
    - cbn [flat_map fold_left app] in *. now rewrite set_nth_same in H.
    - cbn [flat_map fold_left] in *. rewrite <- app_assoc.
      destruct (Hf x acc (or_introl eq_refl)) as (p & E & Hm). rewrite E.
      eapply stds_one; eauto.
      apply (IH (fun y a Hy => Hf y a (or_intror Hy)) _ (ins acc x)).
      + eapply nth_set_nth; eauto.
      + now rewrite set_nth_twice.
  Qed.

  Definition given (v : val) : Prop :=
    forall t num p0, pwt P v t = true -> wfp t = true -> protobuf_ty t = true -> blank P t p0 ->
    forall nums ts vals i rs vals',
      nth_error nums i = Some num -> nth_error ts i = Some t -> nth_error vals i = Some p0 ->
      stds_ nums ts (set_nth i v vals) rs vals' ->
      stds_ nums ts vals (member_records P num v t ++ rs) vals'.

  Lemma given_members mp fs : forall idx l prior,
    Forall given l ->
    forallb (fun fd => wfp (snd fd)) fs = true ->
    forallb (fun fd => protobuf_ty (snd fd)) fs = true ->
    forall2b (fun x fd => pwt P x (snd fd)) l fs = true ->
    Forall2 (blank P) (map snd fs) prior ->
    forall N1 T1 L1, length N1 = idx -> length T1 = idx -> length L1 = idx ->
    stds_ (N1 ++ spec_numbers mp idx fs) (T1 ++ map snd fs) (L1 ++ prior)
      (members_records
         (fun idx fd x => member_records P (spec_number mp (fst fd) idx) x (snd fd)) idx l fs)
      (L1 ++ l).
  Proof.
    induction fs as [|fd fs IH]; intros idx l prior Hl Hwf Hpb Hw Hp N1 T1 L1 HN HT HL.
    - destruct l; try discriminate. inversion Hp; subst. constructor.
    - destruct l as [|x l]; [discriminate|]. cbn [map] in Hp.
      inversion Hp as [|? y ? prior' Hy Hp']; subst prior. clear Hp. subst.
      cbn [forallb forall2b map spec_numbers members_records] in *.
      rewrite !andb_true_iff in *. destruct Hwf as [Hwf Hwf'], Hw as [Hw Hw'], Hpb as [Hpb Hpb'].
      pose proof (Forall_inv Hl) as Hx. pose proof (Forall_inv_tail Hl) as Hl'.
      apply (Hx (snd fd) _ y Hw Hwf Hpb Hy) with (i := length N1).
      + now apply nth_app_at.
      + apply nth_app_at. congruence.
      + apply nth_app_at. congruence.
      + rewrite set_nth_app by congruence.
        specialize (IH (S (length N1)) l prior' Hl' Hwf' Hpb' Hw' Hp'
          (N1 ++ [spec_number mp (fst fd) (length N1)]) (T1 ++ [snd fd]) (L1 ++ [x])).
        rewrite <- !app_assoc in IH. cbn [app] in IH. apply IH;
          rewrite app_length; cbn [length]; lia.
  Qed.

  Lemma given_message k l prior :
    Forall given l -> pwt P (VSeq l) (PMsg k) = true ->
    Forall2 (blank P) (msg_types P k) prior ->
    std_message P k prior (message_records P k l) l.
  Proof.
    intros Hl Hw Hp. destruct (wf_pmsg_facts P k (HP k)) as (H1 & _).
    apply (given_members (m_map (P k)) (m_fields (P k)) 0 l prior Hl H1 (proj1 HE k) Hw Hp [] [] []);
      reflexivity.
  Qed.

  Lemma blank_pdflt t : protobuf_ty t = true -> blank P t (pdflt P t).
  Proof.
    intro H. destruct t; cbn [pdflt]; try (now apply bl_rep); try (apply bl_num; [reflexivity|congruence..]).
    - apply bl_empty.
    - apply bl_msg. apply HE.
    - discriminate.
  Qed.

  Lemma given_all n v : (height v <= n)%nat -> given v.
  Proof.
    revert v. induction n as [|n IH]; intros v Hh.
    { destruct v; cbn [height] in Hh; lia. }
    intros t num p0 Hw Hwf Hpb Hbl nums ts vals i rs vals' Hn Ht Hv Hm.
    pose proof (blank_repeated P t p0 Hbl) as Hrep.
    destruct t as [w| | |w sg zz| |k|ck w|ck w sg zz|ck contig w|ck k|ak kt vt|m w];
      destruct v as [x|l| |v|j v| |l|l]; try discriminate;
      cbn [pwt wfp repeated protobuf_ty] in Hw, Hwf, Hpb, Hrep; cbn [member_records].
    - (* fixed *) eapply stds_one; eauto. apply orb_true_iff in Hwf as [E|E]; apply Nat.eqb_eq in E; subst w;
        cbn [Nat.eqb]; constructor; rewrite <- ?pow256_4, <- ?pow256_8; lia.
    - eapply stds_one; eauto.
      replace (VN x) with (VN (if x =? 0 then 0 else 1)) by (f_equal; destruct (N.eqb_spec x 0); lia).
      constructor; [|discriminate]. change (2 ^ 64) with 18446744073709551616. lia.
    - eapply stds_one; eauto.
      assert (Hx : x < pow256 w) by lia. pose proof (zz_sg zz sg Hpb) as Hz.
      rewrite <- (varint_std_int w sg zz x Hwf Hz Hx) at 2.
      constructor; [exact Hwf|exact Hz| |discriminate].
      pose proof (varint_number_lt w sg zz x Hwf Hx).
      eapply N.lt_le_trans; [eassumption|]. now apply pow256_wfw.
    - (* empty *) destruct l; [|discriminate]. inversion Hbl; subst; try congruence; try discriminate.
      now rewrite set_nth_same in Hm.
    - (* message *) inversion Hbl; subst; try congruence; try discriminate.
      eapply stds_one; eauto. apply st_msg; [discriminate|]. apply given_message; auto.
      rewrite Forall_forall. intros x Hin. apply IH. pose proof (height_in l x Hin). lia.
    - (* fundamentals *) rewrite (Hrep eq_refl) in *.
      apply andb_true_iff in Hw as [Hl Hck].
      destruct l as [|y l']; [cbn [app]; now rewrite set_nth_same in Hm|].
      set (l := y :: l') in *. eapply stds_one; eauto.
      destruct (Nat.eq_dec w 1) as [-> | Hw1].
      + destruct ck as [ct rv|]; [|discriminate].
        destruct (vals_bytes l Hl) as (b & ->). rewrite byte_vals_bytes. apply st_str. discriminate.
      + destruct (numok_vals w l Hl) as (ns & E & Hns). rewrite E in *. clear E l y l'.
        rewrite map_VN_bytes.
        replace (VSeq (map VN ns)) with (VSeq (fold_left (cinsert ck) (map VN ns) []))
          by (now rewrite fold_cinsert).
        apply st_fixes; [|exact Hns|discriminate]. destruct ck; lia.
    - (* varints *) rewrite (Hrep eq_refl) in *.
      apply andb_true_iff in Hw as [Hl Hck].
      destruct l as [|y l']; [cbn [app]; now rewrite set_nth_same in Hm|].
      set (l := y :: l') in *. eapply stds_one; eauto.
      pose proof (zz_sg zz sg Hpb) as Hz.
      destruct (numok_vals w l Hl) as (ns & E & Hns). rewrite E in *. clear E l y l'.
      replace (flat_map (fun x => leb128 (varint_number w sg zz (vnum x))) (map VN ns))
        with (flat_map leb128 (map (varint_number w sg zz) ns))
        by (clear; induction ns as [|n ns IH]; [reflexivity|]; cbn [map flat_map vnum]; now rewrite IH).
      replace (VSeq (map VN ns)) with
        (VSeq (fold_left (cinsert ck)
                 (map (fun n => VN (std_int w zz n)) (map (varint_number w sg zz) ns)) [])).
      { apply st_vars; [exact Hwf|exact Hz| |discriminate].
        apply Forall_map. eapply Forall_impl; [|exact Hns]. cbn beta. intros x Hx.
        pose proof (varint_number_lt w sg zz x Hwf Hx).
        eapply N.lt_le_trans; [eassumption|]. now apply pow256_wfw. }
      replace (map (fun n => VN (std_int w zz n)) (map (varint_number w sg zz) ns)) with (map VN ns).
      + now rewrite fold_cinsert.
      + clear - Hns Hwf Hz. induction Hns as [|x ns Hx _ IH]; [reflexivity|]. cbn [map].
        now rewrite IH, varint_std_int.
    - (* strings *) rewrite (Hrep eq_refl) in *. apply Nat.eqb_eq in Hpb. subst w.
      apply andb_true_iff in Hw as [Hl Hck]. rewrite forallb_forall in Hl.
      rewrite flat_map_one.
      eapply (stds_each nums ts i num _ _ (cinsert ck) l Hn Ht); [|exact Hv|].
      + intros x acc Hin. specialize (Hl x Hin). cbn beta in *.
        destruct x as [|m| | | | | |]; try discriminate. cbn [as_seq] in *.
        eexists. split; [reflexivity|]. cbn [Nat.eqb].
        destruct (vals_bytes m Hl) as (b & ->). rewrite byte_vals_bytes. apply st_strs. discriminate.
      + now rewrite fold_cinsert.
    - (* messages *) rewrite (Hrep eq_refl) in *.
      apply andb_true_iff in Hw as [Hl Hck]. rewrite forallb_forall in Hl.
      eapply (stds_each nums ts i num _ _ (cinsert ck) l Hn Ht); [|exact Hv|].
      + intros x acc Hin. specialize (Hl x Hin). cbn beta in *.
        destruct x as [|m| | | | | |]; try discriminate.
        eexists. split; [reflexivity|]. apply st_msgs.
        rewrite (start_blank P) by apply HE. apply given_message; auto; [|apply HE].
        rewrite Forall_forall. intros y Hy. apply IH.
        pose proof (height_in l _ Hin). pose proof (height_in m y Hy). lia.
      + now rewrite fold_cinsert.
    - (* maps *) rewrite (Hrep eq_refl) in *.
      apply andb_true_iff in Hw as [Hl Hck]. apply andb_true_iff in Hwf as [Hwk Hwv].
      rewrite !andb_true_iff in Hpb. destruct Hpb as [[Hmu Hpk] Hpv]. apply negb_true_iff in Hmu.
      rewrite forallb_forall in Hl.
      eapply (stds_each nums ts i num _ _ (map_put ak) l Hn Ht); [|exact Hv|].
      + intros x acc Hin. specialize (Hl x Hin). cbn beta in *.
        destruct x as [|[|a [|b [|]]]| | | | | |]; try discriminate.
        apply andb_true_iff in Hl as [Ha Hb].
        pose proof (height_in l _ Hin) as H1.
        pose proof (height_in [a; b] a ltac:(cbn; auto)) as H2.
        pose proof (height_in [a; b] b ltac:(cbn; auto)) as H3.
        eexists. split; [reflexivity|]. apply st_map; [exact Hmu|discriminate|].
        rewrite (start_blank P) by (constructor; [now apply blank_pdflt|];
                                    constructor; [now apply blank_pdflt|constructor]).
        rewrite <- (app_nil_r (member_records P 1 a kt ++ member_records P 2 b vt)), <- app_assoc.
        eapply (IH a ltac:(lia) kt 1 (pdflt P kt)); eauto.
        { now apply blank_pdflt. }
        { instantiate (1 := 0%nat). reflexivity. }
        { reflexivity. }
        { reflexivity. }
        eapply (IH b ltac:(lia) vt 2 (pdflt P vt)); eauto.
        { now apply blank_pdflt. }
        { instantiate (1 := 1%nat). reflexivity. }
        { reflexivity. }
        { reflexivity. }
        cbn [set_nth]. constructor.
      + now rewrite fold_map_put.
  Qed.
End Written.

(** Whatever the library writes, a conforming parser beginning with an empty message gets the
    object that was written, and nothing else. *)
Theorem pb_written_standard P c k l st st' prior :
  pb_writing P c SzNone k l -> protobuf_env P -> ost_ok st ->
  ser_pb_item P c SzNone k l st = (ROk, st') ->
  Forall2 (blank P) (msg_types P k) prior ->
  exists rs, records_bytes rs = window (obuf st') (opos st) (opos st' - opos st) /\
    std_message P k prior rs l /\
    forall rs' res, records_bytes rs' = records_bytes rs -> std_message P k prior rs' res -> res = l.
Proof.
  intros W HE Hok E Hb. destruct (pb_written _ _ _ _ _ _ _ W Hok E) as (Hp & Hat & _).
  destruct W as [_ _ _ _ W5 _ W7 _ _ _]. exists (message_records P k l).
  assert (G : std_message P k prior (message_records P k l) l).
  { apply given_message; auto. rewrite Forall_forall. intros x _. now apply (given_all P W5 HE (height x)). }
  split; [|split; [exact G|]].
  - cbn [proto_prefix app] in *. rewrite Hp, Nat.add_comm, Nat.add_sub. destruct Hat as [_ ->]. reflexivity.
  - intros rs' res Hr Hs.
    pose proof (msg_numbers_good P k W5) as [_ G2].
    assert (rs' = message_records P k l).
    { apply records_bytes_inj; [eapply stds_valid; eauto..|exact Hr]. }
    subst rs'. eapply std_message_unique; eauto.
Qed.

Lemma pb_demo_protobuf : protobuf_env pb_demo.
Proof.
  split.
  - intros [|[|k]]; reflexivity.
  - assert (B : Forall2 (blank pb_demo) (msg_types pb_demo 1) (m_dflt (pb_demo 1%nat))).
    { constructor; [now apply bl_rep|]. constructor; [|constructor]. now apply bl_num. }
    intros [|[|k]]; [|exact B|constructor].
    unfold msg_types. cbn [pb_demo m_fields m_dflt map snd].
    repeat (constructor;
            [first [now apply bl_rep | now apply bl_empty | apply bl_num; [reflexivity|congruence..]
                   | apply bl_msg; exact B]|]).
    constructor.
Qed.

(** A message from elsewhere: a number given twice, an embedded message after another member,
    packed and unpacked numbers mixed, a map entry with the members reversed. *)
Definition pb_foreign : list record :=
  [(2, WVar 7); (9, WLen (records_bytes [(2, WVar 6); (1, WLen [x61])])); (5, WVar 3); (2, WVar 5);
   (5, WLen (leb128 300 ++ leb128 (2 ^ 64 - 1))); (5, WVar 4);
   (7, WLen (records_bytes [(2, WLen [x62]); (1, W32 9)])); (6, W64 1); (8, WVar 1)].
Definition pb_foreign_val : list val :=
  [VSeq []; VN (2 ^ 32 - 3); VSeq []; VSeq [VSeq [VN 9; pb_text [0x62]]];
   VSeq [VN 3; VN 300; VN (2 ^ 64 - 1); VN 4]; VSeq [VN 1]; VN 1; VSeq [pb_text [0x61]; VN 6];
   VSeq []; VSeq []; VN 77].

Ltac std_next i := eapply (sts_cons _ _ _ _ _ _ i); [reflexivity..| |].

Example pb_reads_standard_nontrivial :
  let prior := [pb_text [1]; VN 9; VSeq [VSeq [pb_text []; VN 0]]; VSeq []; VSeq [VN 7]; VSeq [];
                VN 0; VSeq [VSeq []; VN 77]; VSeq [VN 3]; VSeq []; VN 77] in
  shared_message pb_demo (pb_room vec_cfg) 0 (start (msg_types pb_demo 0) prior)
    pb_foreign pb_foreign_val /\
  des_fields pb_demo (pb_icfg vec_cfg) 100 0 (records_bytes pb_foreign) prior
  = (ROk, pb_foreign_val, length (records_bytes pb_foreign)).
Proof.
  split; [|vm_compute; reflexivity].
  unfold shared_message, pb_foreign.
  std_next 1%nat; [apply (st_var _ _ _ 4 true true _ 7); vm_compute; auto; discriminate|].
  std_next 7%nat.
  { apply st_msg; [reflexivity|]. std_next 1%nat.
    - apply (st_var _ _ _ 4 false false _ 6); vm_compute; auto; discriminate.
    - std_next 0%nat; [apply (st_str _ _ _ true (Some 1) _ [x61]); vm_compute; auto|]. constructor. }
  std_next 4%nat; [apply (st_vars_one _ _ _ _ 8 true false _ 3); vm_compute; auto; discriminate|].
  std_next 1%nat; [apply (st_var _ _ _ 4 true true _ 5); vm_compute; auto; discriminate|].
  std_next 4%nat.
  { change (leb128 300 ++ leb128 (2 ^ 64 - 1)) with (flat_map leb128 [300; 2 ^ 64 - 1]).
    apply (st_vars _ _ _ _ 8 true false _ [300; 2 ^ 64 - 1]); [reflexivity|discriminate|..].
    - repeat constructor.
    - intros _. split; [repeat constructor|vm_compute; reflexivity]. }
  std_next 4%nat; [apply (st_vars_one _ _ _ _ 8 true false _ 4); vm_compute; auto; discriminate|].
  std_next 3%nat.
  { apply st_map; [reflexivity|vm_compute; reflexivity|].
    std_next 1%nat; [apply (st_str _ _ _ true (Some 1) _ [x62]); vm_compute; auto|].
    std_next 0%nat; [apply st_fix4; vm_compute; reflexivity|]. constructor. }
  std_next 5%nat; [apply st_fixes_one8; vm_compute; reflexivity|].
  std_next 6%nat; [apply st_bool; vm_compute; auto|].
  match goal with |- stds _ _ _ _ _ ?a [] ?b => replace b with a; [constructor|vm_compute; reflexivity] end.
Qed.

Example pb_written_standard_nontrivial :
  exists st', ser_pb_item pb_demo vec_cfg SzNone 0 pb_demo_val (mkO [x55] 1) = (ROk, st') /\
    Forall2 (blank pb_demo) (msg_types pb_demo 0) (m_dflt (pb_demo 0%nat)) /\
    exists rs, records_bytes rs = window (obuf st') 1 (opos st' - 1) /\
      std_message pb_demo 0 (m_dflt (pb_demo 0%nat)) rs pb_demo_val.
Proof.
  destruct (ser_pb_item pb_demo vec_cfg SzNone 0 pb_demo_val (mkO [x55] 1)) as [r st'] eqn:E.
  assert (r = ROk) by (revert E; vm_compute; intro E; injection E as <- <-; reflexivity). subst r.
  exists st'. split; [reflexivity|]. split; [apply pb_demo_protobuf|].
  destruct (pb_written_standard pb_demo vec_cfg 0 pb_demo_val (mkO [x55] 1) st' (m_dflt (pb_demo 0%nat))
              (pb_demo_writing SzNone (or_introl eq_refl)) pb_demo_protobuf
              ltac:(constructor; vm_compute; (reflexivity || lia)) E (proj2 pb_demo_protobuf 0%nat))
    as (rs & H1 & H2 & _).
  exists rs. split; [exact H1|exact H2].
Qed.

(** ** Where the library differs *)

(** int32 a = 1: protobuf writes -1 as 2^64-1; the library reports an error. *)
Definition pb_int : penv := fun _ => mkPmsg [(None, PVar 4 true false)] [] [VN 0].
Theorem pb_negative_int32_refuted :
  exists rs res, wf_penv pb_int /\ protobuf_env pb_int /\ std_message pb_int 0 [VN 0] rs res /\
    res = [VN (of_signed 4 (-1))] /\
    des_fields pb_int (pb_icfg vec_cfg) 20 0 (records_bytes rs) [VN 0]
    = (RErr value_too_large, [VN 0], 1%nat).
Proof.
  exists [(1, WVar (2 ^ 64 - 1))], [VN (of_signed 4 (-1))].
  split; [intro k; reflexivity|].
  split; [split; [intro k; reflexivity|intro k; constructor; [apply bl_num; [reflexivity|discriminate..]|constructor]]|].
  split; [|split; [reflexivity|vm_compute; reflexivity]].
  unfold std_message. std_next 0%nat.
  - apply (st_var _ _ _ 4 true false _ (2 ^ 64 - 1)); try reflexivity; discriminate.
  - match goal with |- stds _ _ _ _ _ ?a [] ?b => replace b with a; [constructor|vm_compute; reflexivity] end.
Qed.

(** And what the library writes for an int32 of -1 (32 bits of ones) is 2^32-1 for a parser whose
    field is an int64; protobuf considers int32 and int64 compatible. *)
Definition pb_long : penv := fun _ => mkPmsg [(None, PVar 8 true false)] [] [VN 0].
Theorem pb_int32_as_int64_refuted :
  exists rs res, pb_writing pb_int vec_cfg SzNone 0 [VN (of_signed 4 (-1))] /\
    (let '(r, st') := ser_pb_item pb_int vec_cfg SzNone 0 [VN (of_signed 4 (-1))] (mkO [] 0) in
     (r, firstn (opos st') (obuf st')) = (ROk, records_bytes rs)) /\
    std_message pb_long 0 [VN 0] rs res /\ res <> [VN (of_signed 8 (-1))].
Proof.
  exists [(1, WVar (2 ^ 32 - 1))], [VN (2 ^ 32 - 1)].
  split; [constructor; try (intro k; reflexivity); try (vm_compute; reflexivity);
          vm_compute; repeat split; discriminate|].
  split; [vm_compute; reflexivity|]. split; [|vm_compute; discriminate].
  unfold std_message. std_next 0%nat.
  - apply (st_var _ _ _ 8 true false _ (2 ^ 32 - 1)); try reflexivity; discriminate.
  - match goal with |- stds _ _ _ _ _ ?a [] ?b => replace b with a; [constructor|vm_compute; reflexivity] end.
Qed.

(** bool a = 1: the varint 2 is true; the library makes a bool out of the byte 2. *)
Definition pb_flag : penv := fun _ => mkPmsg [(None, PBool)] [] [VN 0].
Theorem pb_bool_varint_refuted :
  exists rs res, wf_penv pb_flag /\ std_message pb_flag 0 [VN 0] rs res /\ res = [VN 1] /\
    fst (fst (des_fields pb_flag (pb_icfg vec_cfg) 20 0 (records_bytes rs) [VN 0])) = RUB.
Proof.
  exists [(1, WVar 2)], [VN 1]. split; [intro k; reflexivity|].
  split; [|split; [reflexivity|vm_compute; reflexivity]].
  unfold std_message. std_next 0%nat; [apply (st_bool _ _ _ _ 2); [reflexivity|discriminate]|].
  match goal with |- stds _ _ _ _ _ ?a [] ?b => replace b with a; [constructor|vm_compute; reflexivity] end.
Qed.

(** An embedded message in two parts: the repeated numbers of the first part are lost. *)
Definition pb_parts : penv := fun k =>
  match k with
  | O => mkPmsg [(None, PMsg 1)] [] [VSeq [VSeq []; VN 0]]
  | _ => mkPmsg [(None, PVars (CSeq true (Some 4)) 4 false false); (None, PFix 4)] [] [VSeq []; VN 0]
  end.
Theorem pb_embedded_twice_refuted :
  exists rs res, wf_penv pb_parts /\
    std_message pb_parts 0 (m_dflt (pb_parts 0%nat)) rs res /\ res = [VSeq [VSeq [VN 1; VN 2]; VN 5]] /\
    des_fields pb_parts (pb_icfg vec_cfg) 40 0 (records_bytes rs) (m_dflt (pb_parts 0%nat))
    = (ROk, [VSeq [VSeq [VN 2]; VN 5]], length (records_bytes rs)).
Proof.
  exists [(1, WLen (records_bytes [(1, WVar 1); (2, W32 5)])); (1, WLen (records_bytes [(1, WVar 2)]))],
    [VSeq [VSeq [VN 1; VN 2]; VN 5]].
  split; [intros [|k]; reflexivity|].
  split; [|split; [reflexivity|vm_compute; reflexivity]].
  unfold std_message. std_next 0%nat.
  { apply st_msg; [discriminate|]. std_next 0%nat.
    - apply (st_vars_one _ _ _ _ 4 false false _ 1); try reflexivity; discriminate.
    - std_next 1%nat; [apply st_fix4; reflexivity|]. constructor. }
  std_next 0%nat.
  { apply st_msg; [discriminate|]. std_next 0%nat.
    - apply (st_vars_one _ _ _ _ 4 false false _ 2); try reflexivity; discriminate.
    - constructor. }
  match goal with |- stds _ _ _ _ _ ?a [] ?b => replace b with a; [constructor|vm_compute; reflexivity] end.
Qed.

(** repeated fixed32 in two packed records: the first is lost. *)
Definition pb_fixed : penv := fun _ => mkPmsg [(None, PFixes (CSeq true (Some 4)) 4)] [] [VSeq []].
Theorem pb_packed_twice_refuted :
  exists rs res, wf_penv pb_fixed /\
    std_message pb_fixed 0 [VSeq []] rs res /\ res = [VSeq [VN 1; VN 2]] /\
    des_fields pb_fixed (pb_icfg vec_cfg) 40 0 (records_bytes rs) [VSeq []]
    = (ROk, [VSeq [VN 2]], length (records_bytes rs)).
Proof.
  exists [(1, WLen (flat_map (le_bytes 4) [1])); (1, WLen (flat_map (le_bytes 4) [2]))], [VSeq [VN 1; VN 2]].
  split; [intro k; reflexivity|].
  split; [|split; [reflexivity|vm_compute; reflexivity]].
  unfold std_message.
  std_next 0%nat; [apply st_fixes; [now left|repeat constructor|discriminate]|].
  std_next 0%nat; [apply st_fixes; [now left|repeat constructor|discriminate]|].
  match goal with |- stds _ _ _ _ _ ?a [] ?b => replace b with a; [constructor|vm_compute; reflexivity] end.
Qed.

(** Two entries of a map with one key: protobuf keeps the last, the library the first. *)
Definition pb_dict : penv := fun _ => mkPmsg [(None, PMap map_kind (PFix 4) (PFix 4))] [] [VSeq []].
Theorem pb_map_duplicate_refuted :
  exists rs res, wf_penv pb_dict /\
    std_message pb_dict 0 [VSeq []] rs res /\ res = [VSeq [VSeq [VN 1; VN 20]]] /\
    des_fields pb_dict (pb_icfg vec_cfg) 40 0 (records_bytes rs) [VSeq []]
    = (ROk, [VSeq [VSeq [VN 1; VN 10]]], length (records_bytes rs)).
Proof.
  exists [(1, WLen (records_bytes [(1, W32 1); (2, W32 10)]));
          (1, WLen (records_bytes [(1, W32 1); (2, W32 20)]))], [VSeq [VSeq [VN 1; VN 20]]].
  split; [intro k; reflexivity|].
  split; [|split; [reflexivity|vm_compute; reflexivity]].
  unfold std_message.
  std_next 0%nat.
  { apply st_map; [reflexivity|discriminate|]. std_next 0%nat; [apply st_fix4; reflexivity|].
    std_next 1%nat; [apply st_fix4; reflexivity|]. constructor. }
  std_next 0%nat.
  { apply st_map; [reflexivity|discriminate|]. std_next 0%nat; [apply st_fix4; reflexivity|].
    std_next 1%nat; [apply st_fix4; reflexivity|]. constructor. }
  match goal with |- stds _ _ _ _ _ ?a [] ?b => replace b with a; [constructor|vm_compute; reflexivity] end.
Qed.
