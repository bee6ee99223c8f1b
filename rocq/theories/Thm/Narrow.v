(** C87: what depends on the width of std::size_t. *)

From Coq Require Import List NArith ZArith Lia Bool Arith.
From Coq Require Import ZifyBool ZifyNat ZifyN.
From Verif Require Import Base.Bytes Model.Types Model.Machine Model.Varint Model.Out Model.In Model.Narrow Model.Rpc
  Spec.Leb128 Spec.Wire Proofs.VarintP Proofs.OutP Proofs.Script Proofs.InBase Proofs.InAlloc Proofs.NarrowP
  Proofs.InSafe Proofs.NarrowSafe Proofs.RpcP Proofs.InLocal Thm.Demo Thm.Output Thm.Input Thm.Growth Thm.Rpc Thm.OutCost.
Import ListNotations.
Local Open Scope N_scope.

(** ** Reading *)

(** With size types no wider than std::size_t, or with an allocation limit, input archives do on
    every platform exactly what they do where std::size_t has 64 bits: on all inputs, from all
    positions, into all objects, with the same result, values and position. *)
Theorem narrow_in W G c data fuel t x p :
  tall (nfits W c) t = true -> tall_env (nfits W c) G ->
  ndes W G c data fuel t x p = des G c data fuel t x p.
Proof. intros Ht HG. unfold ndes, des. apply ndes_ty_same; [now apply ndes_rec_same|exact Ht]. Qed.

Theorem narrow_in_call W G c data fuel ts xs p :
  forallb (tall (nfits W c)) ts = true -> tall_env (nfits W c) G ->
  nin_call W G c data fuel ts xs p = in_call G c data fuel ts xs p.
Proof.
  intros Ht HG. unfold nin_call, in_call. apply des_many_ext. rewrite Forall_forall. intros t Hin y q.
  apply narrow_in; [|exact HG]. rewrite forallb_forall in Ht. auto.
Qed.

(** The same text for two widths: what one platform reads, every other reads. *)
Corollary narrow_in_agree W W' G c data fuel ts xs p :
  forallb (tall (nfits W c)) ts = true -> tall_env (nfits W c) G ->
  forallb (tall (nfits W' c)) ts = true -> tall_env (nfits W' c) G ->
  nin_call W G c data fuel ts xs p = nin_call W' G c data fuel ts xs p.
Proof. intros. now rewrite !narrow_in_call. Qed.

(** Size types of any width, any input: no access outside the data, the position stays inside and
    the target remains valid, whatever the width of std::size_t. *)
Theorem narrow_in_safe W G c data t fuel prior pos r v p :
  reading G c data t -> (pos <= length data)%nat -> wt G prior t = true ->
  ndes W G c data fuel t prior pos = (r, v, p) ->
  (pos <= p <= length data)%nat /\ wt G v t = true
  /\ (tall not_bool t = true -> tall_env not_bool G -> r <> RUB).
Proof.
  intros [H1 H2 H3 H4 H5 H6] Hp Hw E.
  pose proof (ndes_safe W G c data true true H1 H2 H3 H4 (flagged_env_true G) fuel t H6
    (flagged_true t) H5 prior pos Hp Hw) as S.
  rewrite E in S. cbn [safe_out] in S. destruct S as (S1 & S2 & _). split; [exact S1|]. split; [exact S2|].
  intros Hb HbG ->.
  pose proof (ndes_safe W G c data false true H1 H2 H3 H4
    (flagged_env _ _ _ flagged_no_bool HbG) fuel t H6 (flagged_no_bool _ Hb) H5 prior pos Hp Hw) as S.
  rewrite E in S. cbn [safe_out] in S. destruct S as (_ & _ & S & _). specialize (S eq_refl). discriminate.
Qed.

(** ** Writing *)

(** enlarge_for: from a buffer below half of the address space and for a request below that, with
    an enlarger whose divisor is 1 or 2, the overflow checks refuse nothing that could have been
    allocated, and what they let through is what 64 bits give. *)
Theorem narrow_enlarge W c add st :
  platform W c -> wf_out c -> growable c = true -> ediv c <= 2 -> emul c < 2 ^ W ->
  nok W st -> add < 2 ^ (W - 1) ->
  nenlarge W c add st = enlarge_for c add st
  \/ fst (nenlarge W c add st) = RErr no_buffer_space /\ fst (enlarge_for c add st) = RThrow
     /\ snd (nenlarge W c add st) = st.
Proof.
  intros HP Hwf Hg H2 Hm Hok Ha.
  destruct (nenlarge_alike W c HP Hwf ltac:(now intros _; split) add st Hg Hok Ha) as [[E|(E1 & E2 & E3)] _]; [now left|].
  right. split; [exact E1|]. split; [exact E2|]. unfold nenlarge in *.
  repeat match goal with
  | |- context [if ?b then _ else _] => destruct b; try reflexivity; try discriminate
  end;
  unfold buf_resize in *; repeat match goal with
  | |- context [if ?b then _ else _] => destruct b; try reflexivity; try discriminate
  end.
Qed.

(** Whatever the buffer and the request, as long as both are std::size_t: if enlarge_for succeeds
    there is room, the new size is one of the platform, and the bytes written so far are there;
    otherwise nothing has changed. *)
Theorem narrow_enlarge_safe W c add st r st' :
  (growable c = true -> 0 < ediv c /\ ediv c <= emul c /\ noovf c = false) -> growable c = true -> emul c < 2 ^ W ->
  (opos st <= length (obuf st))%nat -> N.of_nat (length (obuf st)) < 2 ^ W -> add < 2 ^ W ->
  nenlarge W c add st = (r, st') ->
  (r = ROk /\ opos st' = opos st
   /\ N.of_nat (opos st) + add <= N.of_nat (length (obuf st')) < 2 ^ W
   /\ firstn (length (obuf st)) (obuf st') = obuf st)
  \/ ((r = RErr no_buffer_space \/ r = RThrow) /\ st' = st).
Proof.
  intros Hwf Hg Hm Hp Hs Ha E. destruct (Hwf Hg) as (Q1 & Q2 & Q3). unfold nenlarge in E.
  rewrite nsub_small in E by lia. rewrite Q3 in E. cbn [negb andb] in E.
  set (size := N.of_nat (length (obuf st))) in *.
  destruct (N.ltb_spec (size - N.of_nat (opos st)) add) as [H0|H0].
  2: { injection E as <- <-. left. repeat split; try lia. apply firstn_all. }
  unfold nadd in E.
  destruct (N.ltb_spec ((size + add) mod 2 ^ W) size) as [H1|H1];
    [injection E as <- <-; right; split; auto|].
  assert (R : size + add < 2 ^ W).
  { destruct (N.lt_ge_cases (size + add) (2 ^ W)) as [|K]; [assumption|].
    replace (size + add) with (size + add - 2 ^ W + 1 * 2 ^ W) in H1 by lia.
    rewrite N.mod_add, N.mod_small in H1 by lia. lia. }
  rewrite N.mod_small in E by exact R. set (req := size + add) in *.
  assert (Fin : forall scaled, scaled < 2 ^ W -> scaled = req * emul c ->
    (if negb (within_limit c (if ediv c =? 1 then scaled else scaled / ediv c)) then (RErr no_buffer_space, st)
     else buf_resize c (if ediv c =? 1 then scaled else scaled / ediv c) st) = (r, st') ->
    (r = ROk /\ opos st' = opos st
     /\ N.of_nat (opos st) + add <= N.of_nat (length (obuf st')) < 2 ^ W
     /\ firstn (length (obuf st)) (obuf st') = obuf st)
    \/ ((r = RErr no_buffer_space \/ r = RThrow) /\ st' = st)).
  { intros scaled B1 B2. set (new := if ediv c =? 1 then scaled else scaled / ediv c).
    assert (N1 : req <= new).
    { unfold new. destruct (N.eqb_spec (ediv c) 1); [nia|]. apply N.div_le_lower_bound; [lia|]. nia. }
    assert (N2 : new < 2 ^ W).
    { unfold new. destruct (N.eqb_spec (ediv c) 1); [exact B1|].
      pose proof (N.div_le_upper_bound scaled (ediv c) scaled ltac:(lia) ltac:(nia)). lia. }
    destruct (within_limit c new); cbn [negb]; intro K; [|injection K as <- <-; right; split; auto].
    unfold buf_resize in K. fold size in K. destruct (N.leb_spec new size).
    - assert (new = size) by lia. assert (add = 0) by lia. lia.
    - destruct (can_alloc c new); injection K as <- <-; [|right; split; auto].
      left. split; [reflexivity|]. cbn [opos obuf]. split; [reflexivity|]. split.
      + rewrite app_length. unfold zeros. rewrite repeat_length. unfold size in *. lia.
      + rewrite firstn_app, firstn_all, Nat.sub_diag. cbn [firstn]. apply app_nil_r. }
  destruct (N.eqb_spec (emul c) 1) as [Em|Em]; cbn [negb andb] in E.
  - apply (Fin req); auto. rewrite Em. lia.
  - unfold nmul in E. rewrite mul_check in E by lia.
    destruct (N.ltb_spec (req * emul c) (2 ^ W)) as [B|B]; cbn [negb] in E.
    + rewrite N.mod_small in E by exact B. now apply (Fin (req * emul c)).
    + injection E as <- <-. right. split; auto.
Qed.

(** So no write goes outside the buffer, however large buffer and data are. *)
Theorem narrow_put_safe W c e st :
  wf_out c -> (growable c = true -> emul c < 2 ^ W) ->
  (opos st <= length (obuf st))%nat -> N.of_nat (length (obuf st)) < 2 ^ W -> N.of_nat (length e) < 2 ^ W ->
  fst (nput W c e st) <> RUB.
Proof.
  intros Hwf Hm Hp Hs He. unfold nput, seq, nreserve.
  assert (S : forall s, N.of_nat (opos s) + N.of_nat (length e) <= N.of_nat (length (obuf s)) -> fst (store e s) <> RUB).
  { intros s H. unfold store. destruct (Nat.leb_spec (opos s + length e) (length (obuf s))); [discriminate|lia]. }
  destruct (growable c) eqn:Hg.
  - destruct (nenlarge W c (N.of_nat (length e)) st) as [r st'] eqn:E.
    destruct (narrow_enlarge_safe W c _ st r st' Hwf Hg (Hm eq_refl) Hp Hs He E) as [(-> & P & [L _] & _)|[[-> | ->] _]];
      [|discriminate..]. apply S. rewrite P. exact L.
  - rewrite nsub_small by lia.
    destruct (N.ltb_spec (N.of_nat (length (obuf st)) - N.of_nat (opos st)) (N.of_nat (length e))); [discriminate|].
    apply S. lia.
Qed.

Lemma nout_scr W G c vs ts st : ser_many (nser W G c) vs ts st = nrun W c (scr G c (VSeq vs) (TTuple ts)) st.
Proof. exact (nser_scr W c G (VSeq vs) (TTuple ts) st). Qed.

Lemma out_scr G c vs ts st : ser_many (ser G c) vs ts st = run c (scr G c (VSeq vs) (TTuple ts)) st.
Proof. exact (ser_scr G c (VSeq vs) (TTuple ts) st). Qed.

(** A call of an output archive on such a platform ends as with 64 bits, or with no_buffer_space
    where with 64 bits the allocator throws, with the same position and the same bytes before it. *)
Theorem narrow_out W G c vs ts st :
  platform W c -> (growable c = true -> ediv c <= 2 /\ emul c < 2 ^ W) ->
  writing G c (VSeq vs) (TTuple ts) -> N.of_nat (length (wire G c vs ts)) < 2 ^ (W - 1) ->
  nok W st ->
  let x := nout_call W G c vs ts st in
  let y := out_call G c vs ts st in
  x = y
  \/ fst x = RErr no_buffer_space /\ fst y = RThrow
     /\ opos (snd x) = opos (snd y)
     /\ firstn (opos (snd x)) (obuf (snd x)) = firstn (opos (snd x)) (obuf (snd y)).
Proof.
  intros HP H2 HWr Hl Hok. pose proof HWr as [Q1 Q2 Q3 Q4 Q5 Q6 Q7 _].
  assert (S : sim W (nrun W c (scr G c (VSeq vs) (TTuple ts))) (run c (scr G c (VSeq vs) (TTuple ts)))).
  { apply run_sim; auto.
    - destruct HP as [HW _]. eapply N.lt_le_trans; [|apply (N.pow_le_mono_r 2 15); lia]. reflexivity.
    - now apply scr_narrow.
    - rewrite writes_enc; auto. }
  destruct (S st Hok) as [A K]. cbv zeta. unfold nout_call, out_call. rewrite nout_scr, out_scr.
  set (x := nrun W c _ st) in *. set (y := run c _ st) in *. clearbody x y.
  destruct A as [->|(E1 & E2 & E3)]; [now left|]. right.
  destruct x as [r s1], y as [r' s1']. cbn [fst snd] in *. subst.
  destruct (growable c && negb (nofit c) && negb (exact_enlarger c)); [|now repeat split].
  cbn [fit_size]. destruct K as [K1 K2].
  destruct (length (obuf st) <=? opos s1')%nat; [|now repeat split].
  unfold buf_resize. destruct (N.leb_spec (N.of_nat (opos s1')) (N.of_nat (length (obuf s1')))); [|lia].
  cbn [fst snd opos obuf]. split; [reflexivity|]. split; [reflexivity|]. split; [reflexivity|].
  rewrite Nat2N.id, firstn_firstn. f_equal. lia.
Qed.

(** So a call succeeds on such a platform exactly if it does with 64 bits, with the same buffer. *)
Theorem narrow_out_ok W G c vs ts st st' :
  platform W c -> (growable c = true -> ediv c <= 2 /\ emul c < 2 ^ W) ->
  writing G c (VSeq vs) (TTuple ts) -> N.of_nat (length (wire G c vs ts)) < 2 ^ (W - 1) ->
  nok W st ->
  (nout_call W G c vs ts st = (ROk, st') <-> out_call G c vs ts st = (ROk, st')).
Proof.
  intros HP H2 HW Hl Hok. pose proof (narrow_out W G c vs ts st HP H2 HW Hl Hok) as H. cbv zeta in H.
  destruct H as [->|(E1 & E2 & _)]; [reflexivity|]. split; intro E; rewrite E in *; discriminate.
Qed.

Lemma nok_ost W c st : platform W c -> nok W st -> ost_ok st.
Proof. intros [HW _] [H1 H2]. split; [exact H1|]. pose proof (half64 W ltac:(lia)). lia. Qed.

(** So data written on one platform is read on another, whatever the two widths. *)
Theorem narrow_round_trip W W' G cw cr fuel vs ts st st' data pos :
  sendable G cw cr fuel vs ts ->
  platform W cw -> (growable cw = true -> ediv cw <= 2 /\ emul cw < 2 ^ W) ->
  N.of_nat (length (wire G cw vs ts)) < 2 ^ (W - 1) -> nok W st -> bits_ok G (TTuple ts) st ->
  forallb (tall (nfits W' cr)) ts = true -> tall_env (nfits W' cr) G ->
  nout_call W G cw vs ts st = (ROk, st') ->
  small data -> has_at data pos (window (obuf st') (opos st) (opos st' - opos st)) ->
  nin_call W' G cr data fuel ts (map (dflt G) ts) pos = (ROk, vs, (pos + (opos st' - opos st))%nat).
Proof.
  intros HS HP H2 Hl Hok Hb Ht HG E Hsm Hat. pose proof (sd_writing _ _ _ _ _ _ HS) as HW.
  apply narrow_out_ok in E; auto. pose proof (nok_ost _ _ _ HP Hok) as Ho.
  destruct (window_sent _ _ _ _ _ _ HW Hb Ho E) as [W1 W2]. rewrite W1 in Hat. rewrite W2.
  rewrite narrow_in_call by auto. eapply in_call_received; eauto.
  now destruct (out_call_sent _ _ _ _ _ _ HW Hb Ho E).
Qed.

(** size_varint makes the size type a varint as wide as std::size_t.  Archives with that option on
    platforms of different widths understand each other, as long as no container is longer than
    both can say. *)
Theorem narrow_size_varint W W' G cw cr w w' m fuel vs ts st st' data pos :
  dsize cw = SzVar w -> dsize cr = SzVar w' -> m <= pow256 w -> m <= pow256 w' ->
  forallb (lengths_below m) vs = true -> N.of_nat (length vs) < m ->
  writing G cw (VSeq vs) (TTuple ts) -> sendable G (with_dsize cw (dsize cr)) cr fuel vs ts ->
  platform W cw -> (growable cw = true -> ediv cw <= 2 /\ emul cw < 2 ^ W) ->
  N.of_nat (length (wire G cw vs ts)) < 2 ^ (W - 1) -> nok W st -> bits_ok G (TTuple ts) st ->
  forallb (tall (nfits W' cr)) ts = true -> tall_env (nfits W' cr) G ->
  nout_call W G cw vs ts st = (ROk, st') ->
  small data -> has_at data pos (window (obuf st') (opos st) (opos st' - opos st)) ->
  nin_call W' G cr data fuel ts (map (dflt G) ts) pos = (ROk, vs, (pos + (opos st' - opos st))%nat).
Proof.
  intros Hd Hd' Hm Hm' Hlen Hn HW HS HP H2 Hl Hok Hb Ht HG E Hsm Hat.
  apply narrow_out_ok in E; auto. pose proof (nok_ost _ _ _ HP Hok) as Ho.
  destruct (window_sent _ _ _ _ _ _ HW Hb Ho E) as [W1 W2]. rewrite W1 in Hat. rewrite W2.
  destruct (out_call_sent _ _ _ _ _ _ HW Hb Ho E) as [Hwr _].
  assert (HE : enc G (fmt_of cw) (VSeq vs) (TTuple ts) = enc G (fmt_of (with_dsize cw (dsize cr))) (VSeq vs) (TTuple ts)).
  { eapply enc_width; [reflexivity|exact Hd|exact Hd'|exact Hm|exact Hm'|].
    cbn [lengths_below]. apply andb_true_iff. split; [now apply N.ltb_lt|exact Hlen]. }
  assert (HE' : wire G cw vs ts = wire G (with_dsize cw (dsize cr)) vs ts) by (unfold wire, encode; now rewrite HE).
  rewrite narrow_in_call by auto. rewrite HE' in *. eapply in_call_received; eauto.
  unfold writable in *. now rewrite <- HE.
Qed.

(** ** Where the width matters *)

(** size_native makes the size type std::size_t itself, as do native_vector, native_string and so
    on.  A 32-bit platform takes half of the size that a 64-bit platform has written for the first
    elements, and succeeds. *)
Theorem narrow_size_native_refuted :
  exists st',
    nout_call 64 node_env (with_dsize vec_cfg (SzFix 8)) [VSeq [VN 104; VN 105]] [str] (mkO [] 0) = (ROk, st')
    /\ nin_call 32 node_env vec_cfg (obuf st') 1 [str] [VSeq []] 0 = (ROk, [VSeq [VN 0; VN 0]], 6%nat).
Proof. eexists. split; [vm_compute; reflexivity|vm_compute; reflexivity]. Qed.

(** A 32-bit platform with default options. *)
Definition cfg32 : cfg :=
  mkCfg true false (SzFix 4) None 3 2 false false true (fun n => n <? 2 ^ 31) (fun _ => 4).

Lemma platform32 : platform 32 cfg32.
Proof. split; [lia|]. intros n Hn. cbn [cfg32 alloc_ok]. apply N.ltb_ge. exact Hn. Qed.

Definition long_bytes : ty := TVec (Some (SzFix 8)) true (TScalar 1 false).
Definition long_data : list byte := [x01; x00; x00; x00; x01; x00; x00; x00; x07].

(** A size type of 8 bytes where std::size_t has 32 bits: a message that says it has 2^32 + 1
    elements is read as one with a single element.  With 64 bits it is never read.  With any
    allocation limit it is refused. *)
Theorem narrow_truncates_refuted :
  platform 32 cfg32
  /\ ndes 32 node_env cfg32 long_data 1 long_bytes (VSeq []) 0 = (ROk, VSeq [VN 7], 9%nat)
  /\ (forall c fuel x r q,
        des node_env c long_data fuel long_bytes (VSeq []) 0 = (r, x, q) ->
        host_le c = true -> swap c = false -> platform 32 c -> r = RThrow \/ r = RErr message_size)
  /\ (forall L, 1 < L -> L < 2 ^ 32 ->
        ndes 32 node_env (mkCfg true false (SzFix 4) (Some L) 3 2 false false true (fun n => n <? 2 ^ 31) (fun _ => 4))
          long_data 1 long_bytes (VSeq []) 0 = (RErr message_size, VSeq [], 8%nat)).
Proof.
  split; [exact platform32|]. split; [vm_compute; reflexivity|]. split.
  - intros c fuel x r q E Hle Hsw [_ Hp]. unfold des, long_bytes in E. cbn [des_ty sz_of] in E.
    assert (D : exists n, des_size c long_data (SzFix 8) 0 = (ROk, n, 8%nat) /\ 2 ^ 31 <= n).
    { exists 4294967297. split; [|apply N.leb_le; reflexivity]. destruct c. cbn in Hle, Hsw. subst. reflexivity. }
    destruct D as (n & D & Hn). rewrite D in E. unfold vec_resize in E. cbn [as_seq length] in E.
    destruct (over_limit _ _ _); [injection E as <- _ _; now right|].
    destruct (N.leb_spec n (N.of_nat 0)) as [H0|_]; [lia|]. cbn [orb] in E.
    assert (A : can_alloc c (n * csizeof c (TScalar 1 false)) = false).
    { unfold can_alloc. change (csizeof c (TScalar 1 false)) with 1. rewrite N.mul_1_r, Hp by exact Hn. apply andb_false_r. }
    rewrite A in E. injection E as <- _ _. now left.
  - intros L H1 H2. rewrite narrow_in.
    + unfold des, long_bytes. cbn [des_ty sz_of].
      assert (D : forall c, host_le c = true -> swap c = false -> exists n, des_size c long_data (SzFix 8) 0 = (ROk, n, 8%nat) /\ 2 ^ 32 <= n).
      { intros c Hle Hsw. exists 4294967297. split; [|apply N.leb_le; reflexivity]. destruct c. cbn in Hle, Hsw. subst. reflexivity. }
      match goal with |- context [des_size ?c _ _ _] => destruct (D c eq_refl eq_refl) as (n & E & Hn) end.
      rewrite E. unfold vec_resize, over_limit. cbn [alim as_seq].
      match goal with |- context [L / ?k] => change k with 1 end. rewrite N.div_1_r.
      destruct (N.ltb_spec L n); [reflexivity|lia].
    + apply N.ltb_lt in H2. unfold long_bytes. cbn [tall nfits alim]. now rewrite H2, orb_true_r.
    + intros [|k]; reflexivity.
Qed.

(** With the options no_enlarge_overflow and the default enlarger there is a vector of less than
    2^31 bytes on a 32-bit platform to which appending one byte shrinks it and then writes outside. *)
Definition unchecked32 : cfg :=
  mkCfg true false (SzFix 4) None 3 2 true false true (fun n => n <? 2 ^ 31) (fun _ => 4).

Theorem narrow_unchecked_refuted :
  exists st,
    nok 32 st /\ N.of_nat (length (obuf st)) = 1431655765 /\ platform 32 unchecked32
    /\ fst (nser 32 node_env unchecked32 (VN 7) (TScalar 1 false) st) = RUB
    /\ length (obuf (snd (nser 32 node_env unchecked32 (VN 7) (TScalar 1 false) st))) = 1%nat
    /\ fst (nser 64 node_env unchecked32 (VN 7) (TScalar 1 false) st) = RThrow.
Proof.
  destruct (some_nat 1431655765) as [k Hk]. exists (mkO (zeros k) k).
  assert (HL : length (zeros k) = k) by (unfold zeros; apply repeat_length).
  assert (E : nreserve 32 unchecked32 1 (mkO (zeros k) k) = (ROk, mkO (firstn 1 (zeros k)) k)).
  { unfold nreserve, nenlarge. cbn [growable unchecked32 obuf opos noovf emul ediv within_limit alim negb andb].
    rewrite HL, Hk. change (nsub 32 1431655765 1431655765 <? 1) with true. cbv iota.
    change (nadd 32 1431655765 1) with 1431655766. change (3 =? 1) with false. change (2 =? 1) with false. cbv iota. cbn [negb andb].
    change (nmul 32 1431655766 3 / 2) with 1. unfold buf_resize. cbn [obuf opos]. rewrite HL, Hk. reflexivity. }
  assert (E2 : nreserve 64 unchecked32 1 (mkO (zeros k) k) = (RThrow, mkO (zeros k) k)).
  { unfold nreserve, nenlarge. cbn [growable unchecked32 obuf opos noovf emul ediv within_limit alim negb andb].
    rewrite HL, Hk. change (nsub 64 1431655765 1431655765 <? 1) with true. cbv iota.
    change (nadd 64 1431655765 1) with 1431655766. change (3 =? 1) with false. change (2 =? 1) with false. cbv iota. cbn [negb andb].
    change (nmul 64 1431655766 3 / 2) with 2147483649. unfold buf_resize. cbn [obuf opos]. rewrite HL, Hk. reflexivity. }
  assert (HF : length (firstn 1 (zeros k)) = 1%nat) by (rewrite firstn_length, HL; lia).
  assert (R : nser 32 node_env unchecked32 (VN 7) (TScalar 1 false) (mkO (zeros k) k) = (RUB, mkO (firstn 1 (zeros k)) k)).
  { cbn [nser]. unfold nput, seq. change (N.of_nat (length (scalar_bytes unchecked32 1 7))) with 1. rewrite E.
    unfold store. cbn [obuf opos]. rewrite HF.
    destruct (Nat.leb_spec (k + length (scalar_bytes unchecked32 1 7)) 1); [|reflexivity].
    change (length (scalar_bytes unchecked32 1 7)) with 1%nat in *. lia. }
  split; [split; cbn [obuf opos]; rewrite HL; [lia|rewrite Hk; reflexivity]|].
  split; [cbn [obuf]; now rewrite HL|].
  split; [split; [lia|]; intros n Hn; cbn [unchecked32 alloc_ok]; apply N.ltb_ge; exact Hn|].
  rewrite R. split; [reflexivity|]. split; [exact HF|].
  cbn [nser]. unfold nput, seq. change (N.of_nat (length (scalar_bytes unchecked32 1 7))) with 1. now rewrite E2.
Qed.

(** An enlarger with a larger divisor, as enlarger<10, 9>: the check refuses a growth to less than
    2^30 bytes that the allocator would have granted and that is made with 64 bits. *)
Definition tenth32 : cfg :=
  mkCfg true false (SzFix 4) None 10 9 false false true (fun n => n <? 2 ^ 31) (fun _ => 4).

Theorem narrow_enlarger_refuted :
  exists st,
    nok 32 st /\ platform 32 tenth32 /\ wf_out tenth32
    /\ fst (nenlarge 32 tenth32 1 st) = RErr no_buffer_space
    /\ fst (enlarge_for tenth32 1 st) = ROk
    /\ N.of_nat (length (obuf (snd (enlarge_for tenth32 1 st)))) = 596523236.
Proof.
  destruct (some_nat 536870912) as [k Hk]. exists (mkO (zeros k) k).
  assert (HL : length (zeros k) = k) by (unfold zeros; apply repeat_length).
  split; [split; cbn [obuf opos]; rewrite HL; [lia|rewrite Hk; reflexivity]|].
  split; [split; [lia|]; intros n Hn; cbn [tenth32 alloc_ok]; apply N.ltb_ge; exact Hn|].
  split; [intros _; cbn; lia|].
  assert (E : enlarge_for tenth32 1 (mkO (zeros k) k) = buf_resize tenth32 596523236 (mkO (zeros k) k)).
  { unfold enlarge_for. cbn [obuf opos noovf tenth32 emul ediv within_limit alim negb andb]. rewrite HL, Hk. reflexivity. }
  split.
  - unfold nenlarge. cbn [obuf opos noovf tenth32 emul ediv within_limit alim negb andb]. rewrite HL, Hk. reflexivity.
  - rewrite E. unfold buf_resize. cbn [obuf opos]. rewrite HL, Hk.
    change (596523236 <=? 536870912) with false. change (can_alloc tenth32 596523236) with true. cbv iota.
    split; [reflexivity|]. cbn [snd obuf]. rewrite app_length. unfold zeros. rewrite !repeat_length. lia.
Qed.

(** ** Examples *)

Definition narrow_types : list ty :=
  [ TScalar 8 false; TVec None true (TScalar 2 false);
    TOpt true (TVarint 8 true true);
    TAssoc (Some (SzVar 4)) map_kind (TTuple [TScalar 1 false; TBool]);
    TPtr (TRec 0) ].
Definition narrow_vals : list val :=
  [ VN 0x0102030405060708; VSeq [VN 1; VN 65535];
    VSome (VN 18446744073709551615);
    VSeq [VSeq [VN 1; VN 0]; VSeq [VN 3; VN 1]];
    VSome (VSeq [VN 5; VSome (VSeq [VN 6; VNone])]) ].

Ltac narrow_sends :=
  constructor;
  [ constructor;
    [ intros _; cbn; lia | reflexivity | apply demo_wf_env | intros [|k]; reflexivity | reflexivity
    | reflexivity | reflexivity | vm_compute; reflexivity ]
  | reflexivity | reflexivity | vm_compute; reflexivity | intros [|k]; reflexivity
  | vm_compute; reflexivity | cbn; lia ].

Lemma narrow_sendable : sendable node_env cfg32 vec_cfg 10 narrow_vals narrow_types.
Proof. narrow_sends. Qed.

Lemma narrow_sendable_back : sendable node_env vec_cfg cfg32 10 narrow_vals narrow_types.
Proof. narrow_sends. Qed.

(** A size of 8 bytes that does not fit 32 bits, with too few bytes behind it. *)
Example narrow_hostile :
  ndes 32 node_env cfg32 [x05; x00; x00; x00; x01; x00; x00; x00; x07] 1 long_bytes (VSeq [VN 9]) 0
  = (RErr result_out_of_range, VSeq [VN 9; VN 0; VN 0; VN 0; VN 0], 8%nat).
Proof. vm_compute. reflexivity. Qed.

Example narrow_reading : reading node_env cfg32 long_data long_bytes.
Proof.
  constructor;
  [apply demo_wf_env|reflexivity|unfold small; reflexivity|intros [|k]; cbn; repeat constructor|cbn; auto|reflexivity].
Qed.

(** A 32-bit writer into a vector that grows six times, a 64-bit reader, and back. *)
Example narrow_nontrivial :
  exists st',
    nout_call 32 node_env cfg32 narrow_vals narrow_types (mkO [] 0) = (ROk, st')
    /\ opos st' = 27%nat
    /\ N.of_nat (length (wire node_env cfg32 narrow_vals narrow_types)) < 2 ^ 31
    /\ nok 32 (mkO [] 0)
    /\ forallb (tall (nfits 32 cfg32)) narrow_types = true
    /\ tall_env (nfits 32 cfg32) node_env
    /\ nin_call 64 node_env vec_cfg (obuf st') 10 narrow_types (map (dflt node_env) narrow_types) 0
       = (ROk, narrow_vals, 27%nat)
    /\ nin_call 32 node_env cfg32 (obuf st') 10 narrow_types (map (dflt node_env) narrow_types) 0
       = (ROk, narrow_vals, 27%nat).
Proof.
  exists (snd (nout_call 32 node_env cfg32 narrow_vals narrow_types (mkO [] 0))).
  split; [vm_compute; reflexivity|]. split; [vm_compute; reflexivity|].
  split; [vm_compute; reflexivity|]. split; [split; cbn; lia|].
  split; [vm_compute; reflexivity|]. split; [intros [|k]; reflexivity|].
  split; vm_compute; reflexivity.
Qed.

(** size_varint on 32 and 64 bits. *)
Definition varint32 : cfg := with_dsize cfg32 (SzVar 4).
Definition varint64 : cfg := with_dsize vec_cfg (SzVar 8).

Lemma narrow_varint_sendable : sendable node_env (with_dsize varint32 (dsize varint64)) varint64 10 narrow_vals narrow_types.
Proof. narrow_sends. Qed.

Example narrow_varint_nontrivial :
  exists st',
    nout_call 32 node_env varint32 narrow_vals narrow_types (mkO [] 0) = (ROk, st')
    /\ opos st' = 24%nat
    /\ forallb (lengths_below (2 ^ 32)) narrow_vals = true /\ 2 ^ 32 <= pow256 4 /\ 2 ^ 32 <= pow256 8
    /\ nin_call 64 node_env varint64 (obuf st') 10 narrow_types (map (dflt node_env) narrow_types) 0
       = (ROk, narrow_vals, 24%nat).
Proof.
  exists (snd (nout_call 32 node_env varint32 narrow_vals narrow_types (mkO [] 0))).
  split; [vm_compute; reflexivity|]. split; [vm_compute; reflexivity|].
  split; [vm_compute; reflexivity|]. split; [apply N.leb_le; reflexivity|].
  split; [apply N.leb_le; reflexivity|]. vm_compute; reflexivity.
Qed.

(** Where the two platforms differ in the error: 1431655766 bytes full, one more. *)
Example narrow_differs :
  exists st, nok 32 st
    /\ nenlarge 32 cfg32 1 st = (RErr no_buffer_space, st) /\ enlarge_for cfg32 1 st = (RThrow, st).
Proof.
  destruct (some_nat 1431655766) as [k Hk]. exists (mkO (zeros k) k).
  assert (HL : length (zeros k) = k) by (unfold zeros; apply repeat_length).
  split; [split; cbn [obuf opos]; rewrite HL; [lia|rewrite Hk; reflexivity]|]. split.
  - unfold nenlarge. cbn [obuf opos noovf cfg32 emul ediv within_limit alim negb andb]. rewrite HL, Hk. reflexivity.
  - unfold enlarge_for. cbn [obuf opos noovf cfg32 emul ediv within_limit alim negb andb]. rewrite HL, Hk.
    unfold buf_resize. cbn [obuf opos]. rewrite HL, Hk. reflexivity.
Qed.

Print Assumptions narrow_in.
Print Assumptions narrow_in_call.
Print Assumptions narrow_in_agree.
Print Assumptions narrow_in_safe.
Print Assumptions narrow_enlarge.
Print Assumptions narrow_enlarge_safe.
Print Assumptions narrow_put_safe.
Print Assumptions narrow_out.
Print Assumptions narrow_out_ok.
Print Assumptions narrow_round_trip.
Print Assumptions narrow_size_varint.
Print Assumptions narrow_size_native_refuted.
Print Assumptions narrow_truncates_refuted.
Print Assumptions narrow_unchecked_refuted.
Print Assumptions narrow_enlarger_refuted.
