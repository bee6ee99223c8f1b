(** C02-C08, C18, C28, C43, C44: what writing does to the buffer. *)

From Coq Require Import List NArith ZArith Lia Bool Arith.
From Coq Require Import ZifyBool ZifyNat ZifyN.
From Verif Require Import Base.Bytes Model.Types Model.Machine Model.Varint Model.Out Model.Options
  Spec.Leb128 Spec.Wire Proofs.VarintP Proofs.OutP Thm.Demo.
Import ListNotations.
Local Open Scope N_scope.

(** The situations the output theorems speak about: [v] is an object of a well-formed type
    without containers of empty classes, sizes and enlarger options are sane. *)
Record writing (G : tenv) (c : cfg) (v : val) (t : ty) : Prop := {
  w_cfg : wf_out c;
  w_size : szok c = true;
  w_env : wf_env G;
  w_envp : tall_env elem_ok G;
  w_wt : wt G v t = true;
  w_wf : wf G t = true;
  w_plain : plain t = true;
  w_small : N.of_nat (length (encode G (fmt_of c) v t)) < 2 ^ 63
}.

(** Either the type has no bitset, or the buffer is zero from the position on. *)
Definition bits_ok (G : tenv) (t : ty) (st : ost) : Prop :=
  clean st \/ (tall not_bitset t = true /\ tall_env not_bitset G).

Lemma writing_emits G c v t st :
  writing G c v t -> bits_ok G t st -> ost_ok st ->
  let '(r, st') := ser G c v t st in
  outcome c st (enc G (fmt_of c) v t) r st' /\
  (forall E, rich c E -> (opos st + length (encode G (fmt_of c) v t) <= E)%nat ->
     r = final (enc G (fmt_of c) v t)).
Proof.
  intros [H1 H2 H3 H4 H5 H6 H7 H8] Hb Hok.
  destruct Hb as [Hcl|[Hb1 Hb2]].
  - apply (ser_emits G c true H2 H3 H4 ltac:(discriminate) v t H5 H6 H7 ltac:(discriminate)); auto.
  - apply (ser_emits G c false H2 H3 H4 (fun _ => Hb2) v t H5 H6 H7 (fun _ => Hb1)); auto. discriminate.
Qed.

Ltac run_ser HW Hb Hok :=
  let H := fresh "HO" in
  pose proof (writing_emits _ _ _ _ _ HW Hb Hok) as H.

(** C02: the bytes written are the documented encoding, nothing else. *)
Theorem out_wire_format G c v t st st' :
  writing G c v t -> bits_ok G t st -> ost_ok st ->
  ser G c v t st = (ROk, st') ->
  let e := encode G (fmt_of c) v t in
  writable G (fmt_of c) v t = true
  /\ opos st' = (opos st + length e)%nat
  /\ window (obuf st') (opos st) (length e) = e.
Proof.
  intros HW Hb Hok H e. run_ser HW Hb Hok. rewrite H in HO.
  destruct HO as [(e1 & e2 & k & F1 & F2 & F3 & F4 & F5 & F6) _]. subst e2.
  rewrite app_nil_r in F1. unfold e, encode. rewrite F1. subst st'. cbn [obuf opos].
  repeat split; [exact F6|]. apply window_overwrite. destruct Hok. rewrite app_length. lia.
Qed.

(** The bytes do not depend on the kind of buffer, growth options, limits, position,
    previous contents or (given the same wire byte order) on the host. *)
Theorem out_bytes_independent G c1 c2 v t st1 st1' st2 st2' :
  writing G c1 v t -> writing G c2 v t ->
  bits_ok G t st1 -> bits_ok G t st2 -> ost_ok st1 -> ost_ok st2 ->
  dsize c1 = dsize c2 -> xorb (host_le c1) (swap c1) = xorb (host_le c2) (swap c2) ->
  ser G c1 v t st1 = (ROk, st1') -> ser G c2 v t st2 = (ROk, st2') ->
  (opos st1' - opos st1 = opos st2' - opos st2)%nat
  /\ window (obuf st1') (opos st1) (opos st1' - opos st1)
     = window (obuf st2') (opos st2) (opos st2' - opos st2).
Proof.
  intros W1 W2 B1 B2 O1 O2 Hd Hx H1 H2.
  assert (Hf : fmt_of c1 = fmt_of c2) by (unfold fmt_of; now rewrite Hd, Hx).
  destruct (out_wire_format _ _ _ _ _ _ W1 B1 O1 H1) as (_ & P1 & Q1).
  destruct (out_wire_format _ _ _ _ _ _ W2 B2 O2 H2) as (_ & P2 & Q2).
  rewrite Hf in *.
  assert (E1 : (opos st1' - opos st1 = length (encode G (fmt_of c2) v t))%nat) by lia.
  assert (E2 : (opos st2' - opos st2 = length (encode G (fmt_of c2) v t))%nat) by lia.
  rewrite E1, E2. split; [reflexivity|]. now rewrite Q1, Q2.
Qed.

(** Non-vacuity: a nested value with every kind of member. *)
Lemma demo_wf_env : wf_env node_env.
Proof. intros [|k]; split; reflexivity. Qed.
Lemma demo_envp p : (forall t, p t = true) -> tall_env p node_env.
Proof. intros H [|k]; cbn; rewrite ?H; reflexivity. Qed.

Example demo_writing : writing node_env vec_cfg demo_val demo_ty.
Proof.
  constructor; try (vm_compute; reflexivity).
  - intros _. repeat split; vm_compute; try reflexivity; discriminate.
  - apply demo_wf_env.
  - intros [|k]; reflexivity.
Qed.
Example demo_out :
  ser node_env vec_cfg demo_val demo_ty (mkO [xaa; xbb] 2) =
  (ROk, mkO
    ([xaa; xbb] ++
     [x04; x03; x02; x01] ++ [x01; x00; x02; x00; x03; x00; x04; x00] ++
     [x03; x00; x00; x00; x05; x00; x06; x00; xff; xff] ++ [x01; x1f] ++
     [x01; x4d; x00; x00; x00] ++ [x02; x01; x01; x09; x00] ++ [x08; x01; x09; x00] ++ zeros 12)
    40).
Proof. vm_compute. reflexivity. Qed.
Example demo_bits_ok : bits_ok node_env demo_ty (mkO [xaa; xbb] 2).
Proof. left. reflexivity. Qed.

(** C03: whatever the outcome, bytes outside the written window are untouched, buffer growth
    only adds zero bytes, and no access is out of bounds. *)
Theorem out_frame G c v t st r st' :
  writing G c v t -> bits_ok G t st -> ost_ok st ->
  ser G c v t st = (r, st') ->
  r <> RUB
  /\ (opos st <= opos st' <= length (obuf st'))%nat
  /\ (length (obuf st) <= length (obuf st'))%nat
  /\ firstn (opos st) (obuf st') = firstn (opos st) (obuf st)
  /\ (forall i, (opos st' <= i < length (obuf st))%nat ->
        nth_error (obuf st') i = nth_error (obuf st) i)
  /\ (forall i, (opos st' <= i < length (obuf st'))%nat -> (length (obuf st) <= i)%nat ->
        nth_error (obuf st') i = Some x00).
Proof.
  intros HW Hb Hok H. run_ser HW Hb Hok. rewrite H in HO.
  destruct HO as [(e1 & e2 & k & F1 & F2 & F3 & F4 & F5) _].
  destruct Hok as [Hp _]. subst st'. cbn [obuf opos].
  assert (HL : (opos st + length e1 <= length (obuf st ++ zeros k))%nat)
    by (rewrite app_length, zeros_length; lia).
  rewrite overwrite_length by exact HL. rewrite app_length, zeros_length.
  split; [intros ->; exact F5|]. split; [lia|]. split; [lia|]. split; [|split].
  - rewrite firstn_overwrite by lia.
    rewrite firstn_app. replace (opos st - length (obuf st))%nat with O by lia.
    cbn [firstn]. now rewrite app_nil_r.
  - intros i Hi. rewrite nth_error_overwrite by exact HL.
    destruct (Nat.ltb_spec i (opos st + length e1)); [lia|]. rewrite andb_false_r.
    now rewrite nth_error_app1 by lia.
  - intros i Hi Hge. rewrite nth_error_overwrite by exact HL.
    destruct (Nat.ltb_spec i (opos st + length e1)); [lia|]. rewrite andb_false_r.
    rewrite nth_error_app2 by lia. unfold zeros. apply nth_error_repeat. lia.
Qed.

Example out_frame_nontrivial : (* a failing call on a span *)
  ser node_env span_cfg demo_val demo_ty (mkO (repeat xee 20) 3) =
  (RErr result_out_of_range,
   mkO (repeat xee 3 ++ [x04; x03; x02; x01] ++ [x01; x00; x02; x00; x03; x00; x04; x00] ++
        [x03; x00; x00; x00] ++ [xee]) 19).
Proof. vm_compute. reflexivity. Qed.

(** C04: fixed buffers. *)
Theorem out_fixed_iff_fits G c v t st :
  writing G c v t -> bits_ok G t st -> ost_ok st -> growable c = false ->
  let '(r, st') := ser G c v t st in
  let e := encode G (fmt_of c) v t in
  length (obuf st') = length (obuf st)
  /\ (opos st' <= length (obuf st))%nat
  /\ (writable G (fmt_of c) v t = true ->
      if (opos st + length e <=? length (obuf st))%nat
      then r = ROk
      else r = RErr result_out_of_range)
  /\ (writable G (fmt_of c) v t = false ->
      if (opos st + length e <=? length (obuf st))%nat
      then r = RErr invalid_argument
      else r = RErr result_out_of_range).
Proof.
  intros HW Hb Hok Hg. run_ser HW Hb Hok.
  destruct (ser G c v t st) as [r st'].
  destruct HO as [(e1 & e2 & k & F1 & F2 & F3 & F4 & F5) _].
  destruct F4 as [->|(F4 & _)]; [|congruence].
  assert (HL : (opos st + length e1 <= length (obuf st ++ zeros 0))%nat)
    by (rewrite app_length, zeros_length; lia).
  subst st'. cbn [obuf opos]. rewrite overwrite_length by exact HL.
  rewrite app_length, zeros_length.
  split; [lia|]. split; [lia|]. unfold writable, encode. rewrite F1.
  rewrite F1 in F5. destruct Hok as [Hp _].
  split; intro Hw; rewrite app_length in *;
    destruct (Nat.leb_spec (opos st + (length e1 + length e2)) (length (obuf st)));
    destruct r as [|[]| | |]; try reflexivity; try tauto; try congruence;
    try (destruct F5; congruence); destruct F5 as [Fa Fb]; try (subst e2; cbn [length] in *); lia.
Qed.

Example out_fixed_nontrivial :
  fst (ser node_env span_cfg demo_val demo_ty (mkO (repeat xee 38) 0)) = ROk
  /\ fst (ser node_env span_cfg demo_val demo_ty (mkO (repeat xee 37) 0)) = RErr result_out_of_range.
Proof. split; vm_compute; reflexivity. Qed.

(** C05: growable buffers. *)
Theorem out_growable_outcomes G c v t st :
  writing G c v t -> bits_ok G t st -> ost_ok st -> growable c = true ->
  writable G (fmt_of c) v t = true ->
  let r := fst (ser G c v t st) in
  (r = ROk \/ r = RErr no_buffer_space \/ r = RThrow)
  /\ (let E := (opos st + length (encode G (fmt_of c) v t))%nat in
      let bound := emul c * (2 * (N.of_nat E + 10)) in
      bound < 2 ^ 64 ->
      (forall n, n <= bound / ediv c -> n < 2 ^ 63 /\ alloc_ok c n = true) ->
      match alim c with None => True | Some l => bound / ediv c <= l end ->
      r = ROk).
Proof.
  intros HW Hb Hok Hg Hw. run_ser HW Hb Hok.
  destruct (ser G c v t st) as [r st']. change (fst (r, st')) with r.
  destruct HO as [(e1 & e2 & k & F1 & F2 & F3 & F4 & F5) HR].
  unfold writable in Hw. rewrite Hw in F5. split.
  - destruct r as [|[]| | |]; try tauto; destruct F5; congruence.
  - intros E bound Hbd Hal Hlim.
    specialize (HR E). unfold final in HR. rewrite Hw in HR. apply HR; [|apply le_n].
    split; [exact Hg|]. split; [exact Hbd|].
    intros n Hn. destruct (Hal n Hn) as [Ha1 Ha2]. unfold can_alloc, within_limit.
    rewrite Ha2, andb_true_r. split; [now apply N.ltb_lt|].
    fold bound in Hn. destruct (alim c); [apply N.leb_le; lia | reflexivity].
Qed.

Example out_growable_nontrivial :
  fst (ser node_env vec_cfg demo_val demo_ty (mkO [] 0)) = ROk
  /\ fst (ser node_env (limit_cfg 10) demo_val demo_ty (mkO [] 0)) = RErr no_buffer_space.
Proof. split; vm_compute; reflexivity. Qed.

(** C06: growth arithmetic. *)
Theorem enlarge_for_safe c add st :
  0 < ediv c -> ediv c <= emul c -> noovf c = false -> growable c = true ->
  ost_ok st -> add < 2 ^ 63 ->
  let '(r, st') := enlarge_for c add st in
  opos st' = opos st /\
  (r = ROk /\ (exists k, obuf st' = obuf st ++ zeros k)
     /\ N.of_nat (opos st) + add <= N.of_nat (length (obuf st'))
   \/ (r = RErr no_buffer_space \/ r = RThrow) /\ st' = st).
Proof.
  intros H1 H2 H3 Hg Hok Ha.
  assert (Hwf : wf_out c) by (intros _; auto).
  pose proof (enlarge_for_spec c add st Hwf Hg Hok Ha) as H.
  destruct (enlarge_for c add st) as [r st'].
  destruct H as [(k & -> & Hk & Hr) _]. cbn [obuf opos]. split; [reflexivity|].
  destruct Hr as [[-> Hr]|[Hr ->]].
  - left. split; [reflexivity|]. split; [eauto|]. rewrite app_length, zeros_length. exact Hr.
  - right. split; [exact Hr|]. unfold zeros. cbn [repeat]. rewrite app_nil_r. now destruct st.
Qed.

Lemma enlarge_for_cases c add st :
  0 < ediv c -> ediv c <= emul c -> noovf c = false ->
  ost_ok st -> add < 2 ^ 64 ->
  let '(r, st') := enlarge_for c add st in
  opos st' = opos st /\
  (r = ROk /\ (exists k, obuf st' = obuf st ++ zeros k)
     /\ N.of_nat (opos st) + add <= N.of_nat (length (obuf st'))
     /\ (st' = st \/ within_limit c (N.of_nat (length (obuf st'))) = true)
   \/ (r = RErr no_buffer_space \/
       r = RThrow /\ exists new, within_limit c new = true /\ N.of_nat (opos st) + add <= new)
      /\ st' = st).
Proof.
  intros H1 H2 H3 [Hp Hs] Ha. rewrite two63_val in Hs.
  change (2 ^ 64) with 18446744073709551616 in Ha.
  unfold enlarge_for. rewrite H3. cbn [negb andb].
  rewrite wsub_small by (rewrite ?two64_val; lia).
  destruct (N.ltb_spec (N.of_nat (length (obuf st)) - N.of_nat (opos st)) add) as [Hlt|Hge].
  2:{ split; [reflexivity|]. left. split; [reflexivity|]. split; [|split; [lia|auto]].
      exists O. unfold zeros. cbn [repeat]. now rewrite app_nil_r. }
  set (size := N.of_nat (length (obuf st))) in *.
  destruct (N.ltb_spec (wadd size add) size) as [Hw|Hw]; [auto 10|].
  assert (Hreq : wadd size add = size + add).
  { unfold wadd in *. rewrite two64_val in *.
    destruct (N.ltb_spec (size + add) 18446744073709551616) as [Hl|Hl].
    - apply N.mod_small. exact Hl.
    - exfalso. revert Hw.
      replace (size + add) with (size + add - 18446744073709551616 + 1 * 18446744073709551616) by lia.
      rewrite N.mod_add by lia. rewrite N.mod_small by lia. lia. }
  rewrite Hreq.
  set (scaled := if emul c =? 1 then size + add else wmul (size + add) (emul c)).
  destruct (negb (emul c =? 1) && true && negb (scaled / emul c =? size + add)) eqn:Eov; [auto 10|].
  assert (Hsc : scaled = (size + add) * emul c).
  { unfold scaled in *. destruct (N.eqb_spec (emul c) 1) as [E1|Hne]; [rewrite E1; lia|].
    cbn in Eov. apply negb_false_iff, N.eqb_eq in Eov.
    unfold wmul in *. rewrite two64_val in *.
    destruct (N.ltb_spec ((size + add) * emul c) 18446744073709551616) as [Hl|Hl].
    - apply N.mod_small. exact Hl.
    - exfalso.
      assert (((size + add) * emul c) mod 18446744073709551616 < 18446744073709551616)
        by (apply N.mod_lt; lia).
      set (m := ((size + add) * emul c) mod 18446744073709551616) in *.
      assert (emul c * (m / emul c) <= m) by (apply N.mul_div_le; lia).
      nia. }
  set (new := if ediv c =? 1 then scaled else scaled / ediv c).
  assert (Hbig : size + add <= new).
  { unfold new. rewrite Hsc. destruct (N.eqb_spec (ediv c) 1) as [E1|].
    - nia.
    - apply N.div_le_lower_bound; [lia|]. nia. }
  destruct (within_limit c new) eqn:El; cbn [negb]; [|auto 10].
  unfold buf_resize. fold size.
  destruct (N.leb_spec new size); [lia|].
  destruct (can_alloc c new) eqn:Ea.
  2:{ split; [reflexivity|]. right. split; [|reflexivity]. right. split; [reflexivity|].
      exists new. split; [exact El|]. unfold size in *. lia. }
  cbn [obuf opos]. split; [reflexivity|]. left. split; [reflexivity|]. split; [eauto|].
  rewrite app_length, zeros_length. split; [unfold size in *; lia|]. right.
  replace (N.of_nat (length (obuf st) + (N.to_nat new - length (obuf st)))) with new
    by (unfold size in *; lia).
  exact El.
Qed.

(** The same for requests of any 64-bit size: the request never succeeds without providing
    the room. *)
Theorem enlarge_for_any_request c add st :
  0 < ediv c -> ediv c <= emul c -> noovf c = false ->
  ost_ok st -> add < 2 ^ 64 ->
  let '(r, st') := enlarge_for c add st in
  opos st' = opos st /\
  (r = ROk /\ (exists k, obuf st' = obuf st ++ zeros k)
     /\ N.of_nat (opos st) + add <= N.of_nat (length (obuf st'))
   \/ (r = RErr no_buffer_space \/ r = RThrow) /\ st' = st).
Proof.
  intros H1 H2 H3 Hok Ha. pose proof (enlarge_for_cases c add st H1 H2 H3 Hok Ha) as H.
  destruct (enlarge_for c add st) as [r st']. destruct H as [Hp H]. split; [exact Hp|].
  destruct H as [(A & B & C & D)|[[A|[A B]] C]]; auto 10.
Qed.

Example enlarge_for_nontrivial :
  enlarge_for vec_cfg 4 (mkO [x11; x22] 2) = (ROk, mkO ([x11; x22] ++ zeros 7) 2)
  /\ fst (enlarge_for vec_cfg (2 ^ 64 - 1) (mkO [x11; x22] 2)) = RErr no_buffer_space
  /\ fst (enlarge_for vec_cfg (2 ^ 63) (mkO [x11; x22] 2)) = RErr no_buffer_space.
Proof. repeat split; vm_compute; reflexivity. Qed.

(** With Mul < Div the request can succeed although the room is not there. *)
Theorem enlarge_shrinking_refuted :
  exists c add st st',
    growable c = true /\ noovf c = false /\ 0 < ediv c /\ ost_ok st /\ add < 2 ^ 63
    /\ enlarge_for c add st = (ROk, st')
    /\ N.of_nat (length (obuf st')) < N.of_nat (opos st') + add.
Proof.
  exists (mkCfg true false (SzFix 4) None 1 2 false false true (fun _ => true) (fun _ => 8)),
    4, (mkO [x01; x02; x03; x04] 3).
  eexists. repeat split; try (vm_compute; reflexivity). cbn. lia.
Qed.

(** With no_enlarge_overflow the guarantee is lost when the arithmetic wraps. *)
Theorem enlarge_unchecked_refuted :
  exists c add st st',
    growable c = true /\ ediv c <= emul c /\ 0 < ediv c /\ ost_ok st /\ add < 2 ^ 64
    /\ enlarge_for c add st = (ROk, st')
    /\ N.of_nat (length (obuf st')) < N.of_nat (opos st') + add.
Proof.
  exists (mkCfg true false (SzFix 4) None 3 2 true false true (fun _ => true) (fun _ => 8)),
    (2 ^ 64 - 1), (mkO [x01; x02] 1).
  eexists. repeat split; try (vm_compute; reflexivity).
  - cbn. discriminate.
  - cbn. lia.
Qed.

(** C08: alloc_limit. *)
Theorem out_alloc_limit G c v t st r st' l :
  writing G c v t -> bits_ok G t st -> ost_ok st -> alim c = Some l ->
  ser G c v t st = (r, st') ->
  N.of_nat (length (obuf st')) <= N.max (N.of_nat (length (obuf st))) l.
Proof.
  intros HW Hb Hok Hl H. run_ser HW Hb Hok. rewrite H in HO.
  destruct HO as [(e1 & e2 & k & F1 & F2 & F3 & F4 & F5) _]. subst st'. cbn [obuf].
  rewrite overwrite_length; rewrite app_length, zeros_length; [|lia].
  destruct F4 as [->|(_ & Hw & _)]; [lia|].
  unfold within_limit in Hw. rewrite Hl in Hw. lia.
Qed.

(** A request that cannot be met within the limit is reported and changes nothing. *)
Theorem enlarge_over_limit c add st l :
  0 < ediv c -> ediv c <= emul c -> noovf c = false ->
  ost_ok st -> add < 2 ^ 64 -> alim c = Some l ->
  l < N.of_nat (opos st) + add ->
  N.of_nat (length (obuf st)) < N.of_nat (opos st) + add ->
  enlarge_for c add st = (RErr no_buffer_space, st).
Proof.
  intros H1 H2 H3 Hok Ha Hl Hover Hneed.
  pose proof (enlarge_for_cases c add st H1 H2 H3 Hok Ha) as H.
  destruct (enlarge_for c add st) as [r st']. destruct H as [Hp H].
  destruct H as [(A & B & C & D)|[[A|(A & n & B & C)] D]].
  - exfalso. destruct D as [->|D]; [lia|]. unfold within_limit in D. rewrite Hl in D. lia.
  - now subst.
  - exfalso. unfold within_limit in B. rewrite Hl in B. lia.
Qed.

Example out_alloc_limit_nontrivial :
  ser node_env (limit_cfg 30) demo_val demo_ty (mkO [] 0)
  = (RErr no_buffer_space,
     mkO ([x04; x03; x02; x01] ++ [x01; x00; x02; x00; x03; x00; x04; x00] ++
          [x03; x00; x00; x00] ++ zeros 5) 16).
Proof. vm_compute. reflexivity. Qed.

(** C07: fit-to-size.  If the archive is positioned at the end of its data (fresh archives and
    append), the data end at the position after the call, on success and on error. *)
Theorem out_call_fits G c vs ts st r st' :
  writing G c (VSeq vs) (TTuple ts) -> bits_ok G (TTuple ts) st -> ost_ok st ->
  growable c = true -> nofit c = false -> exact_enlarger c = false ->
  opos st = length (obuf st) ->
  out_call G c vs ts st = (r, st') ->
  r <> RThrow ->
  length (obuf st') = opos st'.
Proof.
  intros HW Hb Hok Hg Hf He Hend H Hr.
  unfold out_call in H. rewrite Hg, Hf, He in H. cbn [negb andb] in H.
  run_ser HW Hb Hok. cbn [ser] in HO.
  destruct (ser_many (ser G c) vs ts st) as [r1 st1].
  destruct HO as [(e1 & e2 & k & F1 & F2 & F3 & F4 & F5) _].
  assert (Hpos : opos st1 = (opos st + length e1)%nat) by (subst st1; reflexivity).
  assert (Hlen : (opos st1 <= length (obuf st1))%nat).
  { subst st1. cbn [obuf opos]. rewrite overwrite_length; rewrite app_length, zeros_length; lia. }
  unfold fit_size in H.
  destruct (Nat.leb_spec (length (obuf st)) (opos st1)); [|lia].
  unfold buf_resize in H. destruct (N.leb_spec (N.of_nat (opos st1)) (N.of_nat (length (obuf st1)))); [|lia].
  rewrite Nat2N.id in H.
  destruct r1 as [|er| | |]; try (now destruct F5); try congruence;
    injection H as <- <-; cbn [obuf opos]; rewrite firstn_length; lia.
Qed.

(** Trimming never removes bytes before the position and changes neither status nor position. *)
Theorem out_call_keeps_written G c vs ts st r st' :
  writing G c (VSeq vs) (TTuple ts) -> bits_ok G (TTuple ts) st -> ost_ok st ->
  out_call G c vs ts st = (r, st') ->
  exists st1, ser_many (ser G c) vs ts st = (r, st1)
    /\ opos st' = opos st1
    /\ firstn (opos st1) (obuf st') = firstn (opos st1) (obuf st1)
    /\ (opos st' <= length (obuf st'))%nat.
Proof.
  intros HW Hb Hok H. run_ser HW Hb Hok. cbn [ser] in HO.
  unfold out_call in H.
  destruct (ser_many (ser G c) vs ts st) as [r1 st1].
  destruct HO as [HO _]. pose proof (outcome_ok_state _ _ _ _ _ Hok HO) as [Hlen _].
  destruct (growable c && negb (nofit c) && negb (exact_enlarger c)).
  2:{ injection H as <- <-. eauto. }
  assert (Hfit : fit_size c (length (obuf st)) r1 st1 =
            (r1, if match r1 with ROk | RErr _ => (length (obuf st) <=? opos st1)%nat | _ => false end
                 then mkO (firstn (opos st1) (obuf st1)) (opos st1) else st1)).
  { unfold fit_size, buf_resize.
    destruct (N.leb_spec (N.of_nat (opos st1)) (N.of_nat (length (obuf st1)))); [|lia].
    rewrite Nat2N.id. destruct r1; try reflexivity; destruct (_ <=? _)%nat; reflexivity. }
  rewrite Hfit in H. injection H as <- <-. exists st1. split; [reflexivity|].
  match goal with |- context [if ?b then _ else _] => destruct b end; cbn [obuf opos].
  - rewrite firstn_firstn, Nat.min_id, firstn_length. repeat split; lia.
  - auto.
Qed.

(** If nothing had to grow and the call ends before the old end, the size is unchanged. *)
Theorem out_call_no_growth G c vs ts st r st1 :
  ser_many (ser G c) vs ts st = (r, st1) ->
  length (obuf st1) = length (obuf st) -> (opos st1 <= length (obuf st))%nat ->
  out_call G c vs ts st = (r, st1).
Proof.
  intros H Hl Hp. unfold out_call. rewrite H.
  destruct (_ && _); [|reflexivity].
  unfold fit_size, buf_resize. rewrite Hl.
  destruct (N.leb_spec (N.of_nat (opos st1)) (N.of_nat (length (obuf st)))); [|lia].
  destruct (Nat.leb_spec (length (obuf st)) (opos st1)); [|destruct r; reflexivity].
  rewrite Nat2N.id, firstn_all2 by lia. destruct st1, r; reflexivity.
Qed.

Example out_call_fits_nontrivial :
  out_call node_env vec_cfg [VN 7; demo_bits] [TScalar 2 false; TBitset 11] (mkO [xaa] 1)
  = (ROk, mkO [xaa; x07; x00; x8d; x05] 5).
Proof. vm_compute. reflexivity. Qed.

(** Writing inside existing data can leave the buffer larger than both the old data and the
    position: varints reserve their maximal size even when the value is short (finding). *)
Theorem out_call_overgrowth_refuted :
  exists c vs ts st st',
    writing node_env c (VSeq vs) (TTuple ts) /\ bits_ok node_env (TTuple ts) st /\ ost_ok st
    /\ growable c = true /\ nofit c = false
    /\ out_call node_env c vs ts st = (ROk, st')
    /\ (length (obuf st) < length (obuf st'))%nat /\ (opos st' < length (obuf st))%nat.
Proof.
  exists vec_cfg, [VN 1], [TVarint 8 false false], (mkO (repeat xee 5) 0).
  eexists. split; [|split; [|split; [|split; [|split; [|split; [vm_compute; reflexivity|]]]]]];
    try reflexivity.
  - constructor; try (vm_compute; reflexivity).
    + intros _. repeat split; vm_compute; try reflexivity; discriminate.
    + apply demo_wf_env.
    + intros [|k]; reflexivity.
  - right. split; [reflexivity|]. intros [|k]; reflexivity.
  - split; cbn; [lia|]. reflexivity.
  - cbn. lia.
Qed.

(** C18: with an explicit byte order (and otherwise the same size options) the bytes do not
    depend on the host. *)
(** The byte order requested: [Some true] for endian::little, [Some false] for endian::big /
    network; [None] if none, both, or a host-relative alias is given. *)
Definition one_order (os : list opt) : option bool :=
  let big := has_opt (fun o => match o with OBig => true | _ => false end) os in
  let little := has_opt (fun o => match o with OLittle => true | _ => false end) os in
  let rel := has_opt (fun o => match o with OSwapped | ONative => true | _ => false end) os in
  if rel then None
  else match big, little with
       | true, false => Some false
       | false, true => Some true
       | _, _ => None
       end.

Lemma one_order_wire h os b :
  one_order os = Some b -> xorb h (has_opt (is_swapped h) os) = b.
Proof.
  unfold one_order, has_opt. intro H.
  assert (E : existsb (is_swapped h) os
    = (h && existsb (fun o => match o with OBig => true | _ => false end) os)
      || (negb h && existsb (fun o => match o with OLittle => true | _ => false end) os)
      || existsb (fun o => match o with OSwapped => true | _ => false end) os).
  { clear H. induction os as [|o os IH]; [destruct h; reflexivity|].
    cbn [existsb]. rewrite IH. destruct o, h; cbn [is_swapped negb andb orb];
      rewrite ?orb_true_r, ?orb_false_r; reflexivity. }
  assert (Es : existsb (fun o => match o with OSwapped | ONative => true | _ => false end) os = false ->
               existsb (fun o => match o with OSwapped => true | _ => false end) os = false).
  { clear. induction os as [|o os IH]; [reflexivity|]. cbn [existsb].
    destruct o; cbn [orb]; auto; discriminate. }
  rewrite E.
  destruct (existsb (fun o => match o with OSwapped | ONative => true | _ => false end) os); [discriminate|].
  rewrite (Es eq_refl).
  destruct (existsb _ os), (existsb _ os); try discriminate; injection H as <-; destruct h; reflexivity.
Qed.

Theorem out_host_independent G h1 h2 g1 g2 os1 os2 a1 a2 abi1 abi2 v t st1 st1' st2 st2' :
  let c1 := config h1 g1 os1 a1 abi1 in
  let c2 := config h2 g2 os2 a2 abi2 in
  one_order os1 = one_order os2 -> one_order os1 <> None ->
  default_size os1 = default_size os2 ->
  writing G c1 v t -> writing G c2 v t ->
  bits_ok G t st1 -> bits_ok G t st2 -> ost_ok st1 -> ost_ok st2 ->
  ser G c1 v t st1 = (ROk, st1') -> ser G c2 v t st2 = (ROk, st2') ->
  window (obuf st1') (opos st1) (opos st1' - opos st1)
  = window (obuf st2') (opos st2) (opos st2' - opos st2).
Proof.
  intros c1 c2 Ho Hn Hd W1 W2 B1 B2 O1 O2 H1 H2.
  refine (proj2 (out_bytes_independent G c1 c2 v t st1 st1' st2 st2' W1 W2 B1 B2 O1 O2 Hd _ H1 H2)).
  unfold c1, c2. cbn [host_le swap config].
  destruct (one_order os1) as [b|] eqn:E1; [|congruence]. symmetry in Ho.
  rewrite (one_order_wire h1 os1 b E1), (one_order_wire h2 os2 b Ho). reflexivity.
Qed.

Example out_host_independent_nontrivial :
  one_order [OAppend; OBig; OSize (SzFix 4)] = Some false /\
  window (obuf (snd (ser node_env (big_cfg true) demo_val demo_ty (mkO [] 0)))) 0 38
  = window (obuf (snd (ser node_env (big_cfg false) demo_val demo_ty (mkO [] 0)))) 0 38
  /\ fst (ser node_env (big_cfg true) demo_val demo_ty (mkO [] 0)) = ROk.
Proof. repeat split; vm_compute; reflexivity. Qed.

(** Without a byte order option the format depends on the host. *)
Theorem out_native_host_dependent_refuted :
  exists os v t st1' st2',
    let c h := config h true os (fun _ => true) (fun _ => 8) in
    ser node_env (c true) v t (mkO [] 0) = (ROk, st1')
    /\ ser node_env (c false) v t (mkO [] 0) = (ROk, st2')
    /\ window (obuf st1') 0 (opos st1') <> window (obuf st2') 0 (opos st2').
Proof.
  exists [], (VN 1), (TScalar 2 false).
  do 2 eexists. repeat split; vm_compute; try reflexivity. discriminate.
Qed.

(** C28: one call with several items is the same as several calls in a row... *)
Theorem out_many_split G c vs1 ts1 vs2 ts2 st :
  length vs1 = length ts1 ->
  ser_many (ser G c) (vs1 ++ vs2) (ts1 ++ ts2) st
  = match ser_many (ser G c) vs1 ts1 st with
    | (ROk, st') => ser_many (ser G c) vs2 ts2 st'
    | failed => failed
    end.
Proof.
  revert ts1 st; induction vs1 as [|x l IH]; intros [|m ms] st H; try discriminate; [reflexivity|].
  cbn [app ser_many]. unfold seq. destruct (ser G c x m st) as [[] st']; try reflexivity.
  apply IH. now injection H.
Qed.

(** ... and through operator() with fit-to-size: same status, position and written bytes, as
    long as both ways succeed. *)
Theorem out_call_split G c vs1 ts1 vs2 ts2 st st' st1 st2 :
  writing G c (VSeq (vs1 ++ vs2)) (TTuple (ts1 ++ ts2)) ->
  writing G c (VSeq vs1) (TTuple ts1) -> writing G c (VSeq vs2) (TTuple ts2) ->
  tall not_bitset (TTuple (ts1 ++ ts2)) = true -> tall_env not_bitset G ->
  length vs1 = length ts1 -> ost_ok st ->
  out_call G c (vs1 ++ vs2) (ts1 ++ ts2) st = (ROk, st') ->
  out_call G c vs1 ts1 st = (ROk, st1) -> out_call G c vs2 ts2 st1 = (ROk, st2) ->
  opos st' = opos st2 /\ firstn (opos st') (obuf st') = firstn (opos st2) (obuf st2).
Proof.
  intros W W1 W2 Hnb HnbG Hlen Hok H H1 H2.
  assert (Hs : tall not_bitset (TTuple ts1) = true /\ tall not_bitset (TTuple ts2) = true).
  { cbn [tall not_bitset andb] in *. rewrite forallb_app, andb_true_iff in Hnb. exact Hnb. }
  assert (B : bits_ok G (TTuple (ts1 ++ ts2)) st) by (right; auto).
  assert (B1 : bits_ok G (TTuple ts1) st) by (right; tauto).
  assert (B2 : bits_ok G (TTuple ts2) st1) by (right; tauto).
  destruct (out_call_keeps_written _ _ _ _ _ _ _ W B Hok H) as (s & E & P & Q & L).
  destruct (out_call_keeps_written _ _ _ _ _ _ _ W1 B1 Hok H1) as (s1 & E1 & P1 & Q1 & L1).
  assert (Hok1 : ost_ok st1).
  { split; [exact L1|].
    (* trimming or keeping a legal buffer *)
    pose proof (writing_emits _ _ _ _ _ W1 B1 Hok) as HO. cbn [ser] in HO. rewrite E1 in HO.
    destruct HO as [HO _]. pose proof (outcome_ok_state _ _ _ _ _ Hok HO) as [_ HL].
    unfold out_call in H1. rewrite E1 in H1.
    destruct (_ && _) in H1; [|injection H1 as <-; exact HL].
    unfold fit_size, buf_resize in H1.
    destruct (_ <=? _)%nat in H1; [|injection H1 as <-; exact HL].
    destruct (N.leb_spec (N.of_nat (opos s1)) (N.of_nat (length (obuf s1)))).
    - injection H1 as <-. cbn [obuf]. rewrite firstn_length. lia.
    - destruct HO as (? & ? & ? & ? & ? & ? & ? & ?).
      subst s1. cbn [obuf opos] in *. rewrite overwrite_length in *;
        rewrite app_length, zeros_length in *; lia. }
  destruct (out_call_keeps_written _ _ _ _ _ _ _ W2 B2 Hok1 H2) as (s2 & E2 & P2 & Q2 & L2).
  rewrite P, P2, Q, Q2.
  pose proof (writing_emits _ _ _ _ _ W B Hok) as HO. cbn [ser] in HO. rewrite E in HO.
  pose proof (writing_emits _ _ _ _ _ W1 B1 Hok) as HO1. cbn [ser] in HO1. rewrite E1 in HO1.
  pose proof (writing_emits _ _ _ _ _ W2 B2 Hok1) as HO2. cbn [ser] in HO2. rewrite E2 in HO2.
  destruct HO as [(a & a' & k & A1 & A2 & A3 & A4 & -> & _) _].
  destruct HO1 as [(b & b' & k1 & C1 & C2 & C3 & C4 & -> & C5) _].
  destruct HO2 as [(d & d' & k2 & D1 & D2 & D3 & D4 & -> & _) _].
  rewrite !app_nil_r in *.
  assert (Happ : a = b ++ d).
  { rewrite <- A1, <- C1, <- D1. cbn [enc] in *. clear - Hlen C5.
    revert ts1 Hlen C5; induction vs1 as [|x l IH]; intros [|m ms] Hlen C5; try discriminate.
    - reflexivity.
    - cbn [app enc_many] in *. unfold pseq in *. destruct (snd (enc G (fmt_of c) x m)) eqn:Es.
      + cbn [fst snd] in *. rewrite IH; [now rewrite app_assoc|now injection Hlen|exact C5].
      + congruence. }
  clear A1. subst a s s1 s2. cbn [obuf opos] in *. rewrite ?P1 in *. rewrite ?app_length in *.
  split; [lia|].
  destruct Hok as [Hp _].
  unfold overwrite at 1. rewrite app_length.
  rewrite firstn_app, firstn_firstn, firstn_length, app_length, zeros_length.
  replace (Nat.min (opos st + (length b + length d)) (opos st)) with (opos st) by lia.
  replace (opos st + (length b + length d) - Nat.min (opos st) (length (obuf st) + k))%nat
    with (length (b ++ d) + 0)%nat by (rewrite app_length; lia).
  rewrite firstn_app_2. cbn [firstn]. rewrite app_nil_r.
  assert (Hov : forall (l e : list byte) p, (p + length e <= length l)%nat ->
            firstn (p + length e) (overwrite l p e) = firstn p l ++ e).
  { intros l e p Hl. unfold overwrite.
    rewrite firstn_app, firstn_firstn, firstn_length.
    replace (Nat.min (p + length e) p) with p by lia.
    replace (p + length e - Nat.min p (length l))%nat with (length e + 0)%nat by lia.
    rewrite firstn_app_2. cbn [firstn]. now rewrite app_nil_r. }
  rewrite Hov by (rewrite app_length, zeros_length; lia).
  assert (Hf1 : firstn (opos st + length b) (obuf st1 ++ zeros k2) = firstn (opos st + length b) (obuf st1)).
  { rewrite firstn_app. replace (opos st + length b - length (obuf st1))%nat with O by lia.
    cbn [firstn]. now rewrite app_nil_r. }
  rewrite Hf1, Q1, Hov by (rewrite app_length, zeros_length; lia).
  rewrite !firstn_app. replace (opos st - length (obuf st))%nat with O by lia.
  cbn [firstn]. rewrite !app_nil_r. now rewrite app_assoc.
Qed.

Example out_call_split_nontrivial :
  out_call node_env vec_cfg [VN 7; VN 8] [TScalar 2 false; TVarint 4 false false] (mkO [] 0)
    = (ROk, mkO [x07; x00; x08] 3)
  /\ out_call node_env vec_cfg [VN 7] [TScalar 2 false] (mkO [] 0) = (ROk, mkO [x07; x00] 2)
  /\ out_call node_env vec_cfg [VN 8] [TVarint 4 false false] (mkO [x07; x00] 2)
    = (ROk, mkO [x07; x00; x08] 3).
Proof. repeat split; vm_compute; reflexivity. Qed.

(** The bytes of a tuple or class are those of its members, in order. *)
Theorem encode_members_concat G o vs ts :
  snd (enc G o (VSeq vs) (TTuple ts)) = true -> length vs = length ts ->
  encode G o (VSeq vs) (TTuple ts)
  = concat (map (fun p => encode G o (fst p) (snd p)) (combine vs ts)).
Proof.
  unfold encode. cbn [enc]. revert ts; induction vs as [|x l IH]; intros [|m ms] Hs Hl; try discriminate.
  - reflexivity.
  - cbn [enc_many combine map concat fst snd] in *. unfold pseq in *.
    destruct (snd (enc G o x m)) eqn:Es; [|congruence]. cbn [fst snd] in *.
    rewrite IH; [reflexivity|exact Hs|now injection Hl].
Qed.

(** C44: after a failure the archive holds a prefix of the encoding and can be used again. *)
Theorem out_failure_prefix G c v t st r st' :
  writing G c v t -> bits_ok G t st -> ost_ok st ->
  ser G c v t st = (r, st') ->
  ost_ok st' /\ exists done todo,
    encode G (fmt_of c) v t = done ++ todo
    /\ opos st' = (opos st + length done)%nat
    /\ window (obuf st') (opos st) (length done) = done
    /\ (r = ROk -> todo = []).
Proof.
  intros HW Hb Hok H. run_ser HW Hb Hok. rewrite H in HO. destruct HO as [HO _].
  split; [eapply outcome_ok_state; eauto|].
  destruct HO as (e1 & e2 & k & F1 & F2 & F3 & F4 & F5).
  exists e1, e2. subst st'. cbn [obuf opos]. repeat split; auto.
  - apply window_overwrite. destruct Hok. rewrite app_length. lia.
  - intros ->. tauto.
Qed.

(** Retrying at the old position after a failure gives the correct encoding, although the
    buffer is no longer clean (types without bitsets). *)
Theorem out_retry_after_failure G c c2 v t st r st' extra st2 :
  writing G c v t -> writing G c2 v t -> fmt_of c2 = fmt_of c ->
  tall not_bitset t = true -> tall_env not_bitset G -> ost_ok st ->
  ser G c v t st = (r, st') -> r <> ROk ->
  N.of_nat (length (obuf st' ++ extra)) < 2 ^ 63 ->
  ser G c2 v t (mkO (obuf st' ++ extra) (opos st)) = (ROk, st2) ->
  opos st2 = (opos st + length (encode G (fmt_of c) v t))%nat
  /\ firstn (opos st) (obuf st2) = firstn (opos st) (obuf st)
  /\ window (obuf st2) (opos st) (length (encode G (fmt_of c) v t)) = encode G (fmt_of c) v t.
Proof.
  intros W W2 Hf Hnb HnbG Hok H Hr Hl H2.
  assert (B : bits_ok G t st) by (right; auto).
  destruct (out_frame _ _ _ _ _ _ _ W B Hok H) as (_ & P1 & P2 & P3 & _).
  set (s := mkO (obuf st' ++ extra) (opos st)) in *.
  assert (Hoks : ost_ok s).
  { split; [|exact Hl]. cbn [s obuf opos]. rewrite app_length. lia. }
  assert (Bs : bits_ok G t s) by (right; auto).
  destruct (out_wire_format _ _ _ _ _ _ W2 Bs Hoks H2) as (_ & Q1 & Q2).
  destruct (out_frame _ _ _ _ _ _ _ W2 Bs Hoks H2) as (_ & _ & _ & Q3 & _).
  rewrite Hf in *. cbn [s obuf opos] in *. repeat split; auto.
  rewrite Q3, firstn_app.
  replace (opos st - length (obuf st'))%nat with O by lia. cbn [firstn]. now rewrite app_nil_r.
Qed.

Example out_retry_nontrivial :
  fst (ser node_env span_cfg demo_val demo_ty (mkO (repeat xee 20) 3)) = RErr result_out_of_range
  /\ fst (ser node_env span_cfg demo_val demo_ty
       (mkO (obuf (snd (ser node_env span_cfg demo_val demo_ty (mkO (repeat xee 20) 3))) ++ repeat xdd 30) 3))
     = ROk.
Proof. split; vm_compute; reflexivity. Qed.

(** C43: constructing an archive.  append positions it after the existing data, resize sets
    the size and clamps the position, reserve and the other options change nothing. *)
Theorem construct_append c data : construct c [OAppend] data = (ROk, mkO data (length data)).
Proof. reflexivity. Qed.

Theorem run_option_position_valid c o st r st' :
  ost_ok st -> run_option c o st = (r, st') -> ost_ok st'.
Proof.
  intros [H1 H2] H. destruct o; cbn [run_option] in H;
    try (injection H as <- <-; split; cbn [obuf opos]; auto).
  - destruct (_ || _) in H; injection H as <- <-; split; auto.
  - unfold buf_resize in H.
    destruct (N.leb_spec n (N.of_nat (length (obuf st)))).
    + cbn [obuf opos] in H. injection H as <- <-. split; cbn [obuf opos]; rewrite firstn_length.
      * destruct (Nat.ltb_spec (N.to_nat n) (opos st)); lia.
      * lia.
    + destruct (can_alloc c n) eqn:Ea.
      * cbn [obuf opos] in H. injection H as <- <-. split; cbn [obuf opos]; rewrite app_length, zeros_length.
        -- destruct (Nat.ltb_spec (N.to_nat n) (opos st)); lia.
        -- unfold can_alloc in Ea. apply andb_true_iff in Ea as [Ea _]. apply N.ltb_lt in Ea. lia.
      * injection H as <- <-. split; auto.
Qed.

Theorem construct_position_valid c os data r st :
  N.of_nat (length data) < 2 ^ 63 -> construct c os data = (r, st) -> ost_ok st.
Proof.
  unfold construct. intro Hd.
  assert (G0 : ost_ok (mkO data 0)) by (split; [cbn; lia|exact Hd]).
  revert G0. generalize (mkO data 0) as s. clear Hd.
  revert r st; induction os as [|o os IH]; intros r st s Hs H; cbn [run_options] in H.
  - injection H as <- <-. exact Hs.
  - unfold seq in H. destruct (run_option c o s) as [r1 s1] eqn:E.
    pose proof (run_option_position_valid _ _ _ _ _ Hs E).
    destruct r1; try (injection H as <- <-; assumption). eapply IH; eauto.
Qed.

Theorem run_option_resize c n st st' :
  run_option c (OResize n) st = (ROk, st') ->
  N.of_nat (length (obuf st')) = n
  /\ opos st' = Nat.min (opos st) (N.to_nat n)
  /\ firstn (Nat.min (N.to_nat n) (length (obuf st))) (obuf st')
     = firstn (N.to_nat n) (obuf st).
Proof.
  cbn [run_option]. unfold buf_resize. intro H.
  destruct (N.leb_spec n (N.of_nat (length (obuf st)))).
  - cbn [obuf opos] in H. injection H as <-. cbn [obuf opos].
    rewrite firstn_length, firstn_firstn. split; [lia|]. split.
    + destruct (Nat.ltb_spec (N.to_nat n) (opos st)); lia.
    + f_equal. lia.
  - destruct (can_alloc c n); [|discriminate]. cbn [obuf opos] in H. injection H as <-.
    cbn [obuf opos]. rewrite app_length, zeros_length. split; [lia|]. split.
    + destruct (Nat.ltb_spec (N.to_nat n) (opos st)); lia.
    + rewrite firstn_app, Nat.min_r by lia. rewrite Nat.sub_diag. cbn [firstn].
      rewrite app_nil_r, !firstn_all2 by lia. reflexivity.
Qed.

(** Writing to an appended archive preserves the existing data and puts the new bytes after. *)
Theorem append_preserves G c v t data r st' :
  writing G c v t -> N.of_nat (length data) < 2 ^ 63 ->
  (construct c [OAppend] data = (ROk, mkO data (length data))) ->
  ser G c v t (mkO data (length data)) = (r, st') ->
  firstn (length data) (obuf st') = data
  /\ (r = ROk -> firstn (opos st') (obuf st') = data ++ encode G (fmt_of c) v t).
Proof.
  intros HW Hd _ H.
  assert (Hok : ost_ok (mkO data (length data))) by (split; [apply le_n|exact Hd]).
  assert (Hb : bits_ok G t (mkO data (length data))).
  { left. unfold clean. cbn [obuf opos]. now rewrite skipn_all, Nat.sub_diag. }
  destruct (out_frame _ _ _ _ _ _ _ HW Hb Hok H) as (_ & P1 & _ & P2 & _).
  cbn [obuf opos] in *. rewrite firstn_all in P2. split; [exact P2|].
  intros ->. destruct (out_wire_format _ _ _ _ _ _ HW Hb Hok H) as (_ & Q1 & Q2).
  cbn [obuf opos] in *. rewrite Q1.
  set (e := encode G (fmt_of c) v t) in *.
  rewrite <- (firstn_skipn (length data) (obuf st')) at 1. rewrite P2.
  rewrite firstn_app_2. unfold window in Q2. now rewrite Q2.
Qed.

(** reset(p) with p inside the data overwrites in place (the position and frame theorems
    apply to the reset archive); with p beyond the data every write is undefined behaviour,
    because the remaining-space subtraction wraps around. *)
Theorem out_position_beyond_ub c e p st :
  (length (obuf st) < p)%nat ->
  N.of_nat p - N.of_nat (length (obuf st)) + N.of_nat (length e) <= 2 ^ 64 ->
  N.of_nat (length (obuf st)) < 2 ^ 63 -> N.of_nat p < 2 ^ 64 ->
  put c e (reset p st) = (RUB, reset p st).
Proof.
  intros H1 H2 H3 H4.
  change (2 ^ 64) with 18446744073709551616 in *. rewrite two63_val in *.
  unfold reset. set (s := mkO (obuf st) p).
  assert (Hw : wsub (N.of_nat (length (obuf s))) (N.of_nat (opos s)) <? N.of_nat (length e) = false).
  { unfold s. cbn [obuf opos]. unfold wsub. rewrite two64_val.
    rewrite (N.mod_small (N.of_nat p)) by lia.
    rewrite N.mod_small by lia. lia. }
  unfold put, seq, reserve, enlarge_for. rewrite Hw.
  destruct (growable c); unfold store;
    destruct (Nat.leb_spec (opos s + length e) (length (obuf s))); unfold s in *; cbn [obuf opos] in *;
    try lia; reflexivity.
Qed.

Example construct_nontrivial :
  construct vec_cfg [OAppend; OResize 2; OReserve 100; OBig] [x01; x02; x03] = (ROk, mkO [x01; x02] 2)
  /\ put vec_cfg [x07] (reset 5 (mkO [x01; x02; x03] 0)) = (RUB, mkO [x01; x02; x03] 5).
Proof. split; vm_compute; reflexivity. Qed.

Print Assumptions out_wire_format.
Print Assumptions out_bytes_independent.
Print Assumptions out_frame.
Print Assumptions out_fixed_iff_fits.
Print Assumptions out_growable_outcomes.
Print Assumptions enlarge_for_safe.
Print Assumptions enlarge_for_any_request.
Print Assumptions enlarge_shrinking_refuted.
Print Assumptions enlarge_unchecked_refuted.
Print Assumptions out_alloc_limit.
Print Assumptions enlarge_over_limit.
Print Assumptions out_call_fits.
Print Assumptions out_call_keeps_written.
Print Assumptions out_call_no_growth.
Print Assumptions out_call_overgrowth_refuted.
Print Assumptions out_host_independent.
Print Assumptions out_native_host_dependent_refuted.
Print Assumptions out_many_split.
Print Assumptions out_call_split.
Print Assumptions encode_members_concat.
Print Assumptions out_failure_prefix.
Print Assumptions out_retry_after_failure.
Print Assumptions construct_append.
Print Assumptions run_option_position_valid.
Print Assumptions construct_position_valid.
Print Assumptions run_option_resize.
Print Assumptions append_preserves.
Print Assumptions out_position_beyond_ub.
