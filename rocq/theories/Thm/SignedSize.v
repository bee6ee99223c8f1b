(** C88: containers whose size type is signed. *)

From Coq Require Import List NArith ZArith Lia Bool Arith.
From Coq Require Import ZifyBool ZifyNat ZifyN.
From Verif Require Import Base.Bytes Model.Types Model.Machine Model.Varint Model.Out Model.In Model.SignedSize Model.Rpc
  Spec.Leb128 Spec.Wire Proofs.VarintP Proofs.OutP Proofs.InBase Proofs.InSafe Proofs.InLocal Proofs.InPrior
  Proofs.InRound Proofs.InAlloc Proofs.SignedP Proofs.RpcP Thm.Demo Thm.Output Thm.Input Thm.Rpc.
Import ListNotations.
Local Open Scope N_scope.

(** ** Unsigned size types: nothing changes *)

Section Same.
  Variables (sgn : sizety -> bool) (G : tenv) (c : cfg) (data : list byte).
  Hypothesis Hs : forall s, sgn s = false.
  Variables rec rec' : nat -> val -> nat -> dres.
  Hypothesis Hrec : forall k x p, rec' k x p = rec k x p.

  Lemma gdes_size_same s pos : gdes_size sgn c data s pos = des_size c data s pos.
  Proof.
    unfold gdes_size. destruct (des_size c data s pos) as [[[] n] p]; try reflexivity.
    unfold extend_size. destruct s; rewrite ?Hs; reflexivity.
  Qed.

  Lemma gelems_ext b (f g : val -> nat -> dres) t l pos : (forall x p, f x p = g x p) ->
    des_elems c data b f t l pos = des_elems c data b g t l pos.
  Proof. intro H. unfold des_elems. destruct b; [reflexivity|]. f_equal. now apply des_all_ext. Qed.

  Lemma gdes_ty_same t : forall x p, gdes_ty sgn G c data rec' t x p = des_ty G c data rec t x p.
  Proof.
    induction t using ty_ind'; intros x p; try reflexivity.
    - cbn [gdes_ty des_ty]. destruct (_ && _); [reflexivity|]. destruct (as_bytes _ _); [reflexivity|].
      f_equal. now apply des_many_ext.
    - cbn [gdes_ty des_ty]. apply Hrec.
    - cbn [gdes_ty des_ty]. now apply gelems_ext.
    - cbn [gdes_ty des_ty]. f_equal. now apply des_many_ext.
    - cbn [gdes_ty des_ty].
      destruct (sz_of c s) as [|w|w]; [now apply gelems_ext|..];
      (rewrite gdes_size_same; destruct (des_size c data _ p) as [[[] n] q]; try reflexivity;
       destruct (vec_resize G c t n (as_seq x)) as [[] l]; try reflexivity; now apply gelems_ext).
    - cbn [gdes_ty des_ty].
      destruct (sz_of c s) as [|w|w]; [f_equal; now apply des_assoc_ext|..];
      (rewrite gdes_size_same; destruct (des_size c data _ p) as [[[] n] q]; try reflexivity; f_equal; now apply des_assoc_ext).
    - cbn [gdes_ty des_ty]. destruct (des_flag c data p) as [[[] n] q]; try reflexivity.
      destruct n; [reflexivity|]. unfold des_inplace. now rewrite !IHt.
    - cbn [gdes_ty des_ty]. destruct (des_flag c data p) as [[[] n] q]; try reflexivity.
      destruct n; [reflexivity|]. unfold des_ptr. now rewrite !IHt.
    - cbn [gdes_ty des_ty]. unfold des_ptr. now rewrite !IHt.
    - rewrite gvariant_eq, des_variant_eq. destruct (des_id c data ik p) as [[[] n] q]; try reflexivity.
      destruct (find_id meta n) as [i|]; [|reflexivity].
      destruct (nth_error alts i) as [t'|] eqn:Ea; [|reflexivity]. apply nth_error_In in Ea.
      rewrite Forall_forall in H. specialize (H t' Ea). unfold des_inplace. now rewrite !H.
    - destruct k as [s|n|]; try reflexivity. cbn [gdes_ty des_ty].
      destruct (sz_of c s) as [|w|w]; [reflexivity|now rewrite gdes_size_same..].
    - cbn [gdes_ty des_ty].
      destruct (sz_of c s) as [|w|w]; [now apply gelems_ext|..];
      (rewrite gdes_size_same; destruct (des_size c data _ p) as [[[] n] q]; try reflexivity;
       destruct (_ <? _); [reflexivity|]; now apply gelems_ext).
  Qed.
End Same.

Theorem signed_none_same sgn G c data fuel t x p :
  (forall s, sgn s = false) -> gdes sgn G c data fuel t x p = des G c data fuel t x p.
Proof.
  intro Hs. unfold gdes, des. apply gdes_ty_same; [exact Hs|]. clear x p.
  induction fuel as [|f IH]; intros k x p; cbn [gdes_rec des_rec]; [reflexivity|].
  f_equal. apply des_many_ext. rewrite Forall_forall. intros m _ y q. now apply gdes_ty_same.
Qed.

(** ** Any input *)

(** Whatever is read for a signed size: no access outside the data, the position stays inside and
    the target remains valid. *)
Theorem signed_in_safe sgn G c data t fuel prior pos r v p :
  reading G c data t -> (pos <= length data)%nat -> wt G prior t = true ->
  gdes sgn G c data fuel t prior pos = (r, v, p) ->
  (pos <= p <= length data)%nat /\ wt G v t = true
  /\ (tall not_bool t = true -> tall_env not_bool G -> r <> RUB).
Proof.
  intros [H1 H2 H3 H4 H5 H6] Hp Hw E.
  pose proof (gdes_safe sgn G c data true true H1 H2 H3 H4 (flagged_env_true G) fuel t H6
    (flagged_true t) H5 prior pos Hp Hw) as S.
  rewrite E in S. cbn [safe_out] in S. destruct S as (S1 & S2 & _). split; [exact S1|]. split; [exact S2|].
  intros Hb HbG ->.
  pose proof (gdes_safe sgn G c data false true H1 H2 H3 H4
    (flagged_env _ _ _ flagged_no_bool HbG) fuel t H6 (flagged_no_bool _ Hb) H5 prior pos Hp Hw) as S.
  rewrite E in S. cbn [safe_out] in S. destruct S as (_ & _ & S & _). specialize (S eq_refl). discriminate.
Qed.

(** A size of type [s] was read that is negative. *)
Definition negative (c : cfg) (data : list byte) (s : sizety) (pos : nat) (pos' : nat) : Prop :=
  exists n w, des_size c data s pos = (ROk, n, pos') /\ (s = SzFix w \/ s = SzVar w)
    /\ pow256 w / 2 <= n < pow256 w /\ (w <= 8)%nat.

Lemma negative_huge sgn c data s pos pos' : sgn s = true -> negative c data s pos pos' ->
  exists m, gdes_size sgn c data s pos = (ROk, m, pos') /\ 2 ^ 63 <= m < 2 ^ 64.
Proof.
  intros Hs (n & w & E & Hw & [H1 H2] & H8). exists (two64 - (pow256 w - n)). unfold gdes_size. rewrite E.
  assert (X : extend_size sgn s n = two64 - (pow256 w - n)).
  { destruct Hw as [-> | ->]; cbn [extend_size]; rewrite Hs; unfold extend;
    (destruct (N.ltb_spec n (pow256 w / 2)); [lia|reflexivity]). }
  rewrite X. split; [reflexivity|].
  assert (P : pow256 w <= two64).
  { unfold two64. rewrite pow256_2. apply N.pow_le_mono_r; [lia|]. unfold bits. lia. }
  assert (Q : pow256 w - n <= 2 ^ 63).
  { pose proof (N.div_mod (pow256 w) 2 ltac:(lia)) as D. pose proof (N.mod_lt (pow256 w) 2 ltac:(lia)).
    assert (two64 = 2 * 2 ^ 63) by reflexivity.
    assert (pow256 w / 2 <= 2 ^ 63) by (apply N.div_le_upper_bound; lia).
    destruct w as [|w]; [rewrite pow256_0 in *; lia|].
    assert (pow256 (S w) mod 2 = 0).
    { rewrite pow256_S. replace (256 * pow256 w) with (128 * pow256 w * 2) by lia. apply N.mod_mul. lia. }
    lia. }
  assert (two64 = 2 * 2 ^ 63) by reflexivity. assert (2 ^ 64 = two64) by reflexivity. lia.
Qed.

(** A vector or string with a negative size is refused by the limit or by the container, before
    anything is read; the elements it had stay. *)
Theorem signed_negative_vec sgn G c data fuel s cg t l pos pos' :
  sgn (sz_of c s) = true -> negative c data (sz_of c s) pos pos' ->
  N.of_nat (length l) < 2 ^ 63 -> 1 <= csizeof c t ->
  exists r, gdes sgn G c data fuel (TVec s cg t) (VSeq l) pos = (r, VSeq l, pos')
    /\ (r = RErr message_size /\ (exists L, alim c = Some L) \/ r = RThrow).
Proof.
  intros Hs Hn Hl Hc. destruct (negative_huge _ _ _ _ _ _ Hs Hn) as (m & E & Hm1 & Hm2).
  unfold gdes. cbn [gdes_ty as_seq].
  assert (V : exists r, vec_resize G c t m l = (r, l) /\ r <> ROk
            /\ (r = RErr message_size /\ (exists L, alim c = Some L) \/ r = RThrow)).
  { unfold vec_resize, over_limit. destruct (alim c) as [L|] eqn:EL.
    - destruct (_ <? m).
      + eexists. split; [reflexivity|]. split; [discriminate|]. left. split; [reflexivity|]. now exists L.
      + destruct (N.leb_spec m (N.of_nat (length l))); [lia|]. unfold can_alloc.
        destruct (N.ltb_spec (m * csizeof c t) (2 ^ 63)); [nia|]. cbn [orb andb].
        eexists. split; [reflexivity|]. split; [discriminate|]. now right.
    - destruct (N.leb_spec m (N.of_nat (length l))); [lia|]. unfold can_alloc.
      destruct (N.ltb_spec (m * csizeof c t) (2 ^ 63)); [nia|]. cbn [orb andb].
      eexists. split; [reflexivity|]. split; [discriminate|]. now right. }
  destruct V as (r & V & Hr & Hcase). exists r. split; [|exact Hcase].
  destruct (sz_of c s) as [|w|w] eqn:Ez.
  - destruct Hn as (n & w & _ & [H|H] & _); discriminate.
  - rewrite E, V. destruct r; congruence.
  - rewrite E, V. destruct r; congruence.
Qed.

(** A view or a span with a negative size is out of range. *)
Theorem signed_negative_view sgn G c data fuel s prior pos pos' :
  sgn (sz_of c s) = true -> negative c data (sz_of c s) pos pos' ->
  (pos' <= length data)%nat -> N.of_nat (length data) < 2 ^ 63 ->
  gdes sgn G c data fuel (TView (VwSized s)) prior pos = (RErr result_out_of_range, prior, pos').
Proof.
  intros Hs Hn Hp Hd. destruct (negative_huge _ _ _ _ _ _ Hs Hn) as (m & E & Hm1 & Hm2).
  unfold gdes. cbn [gdes_ty]. rewrite E.
  assert (HR : remaining data pos' <? m = true).
  { rewrite remaining_small; [apply N.ltb_lt; lia| |exact Hp]. unfold small. lia. }
  destruct (sz_of c s) as [|w|w] eqn:Ez; [|now rewrite HR..].
  destruct Hn as (n & w & _ & [H|H] & _); discriminate.
Qed.

Theorem signed_negative_span sgn G c data fuel s t l pos pos' :
  sgn (sz_of c s) = true -> negative c data (sz_of c s) pos pos' -> N.of_nat (length l) < 2 ^ 63 ->
  gdes sgn G c data fuel (TSpan s t) (VSeq l) pos = (RErr result_out_of_range, VSeq l, pos').
Proof.
  intros Hs Hn Hl. destruct (negative_huge _ _ _ _ _ _ Hs Hn) as (m & E & Hm1 & Hm2).
  unfold gdes. cbn [gdes_ty as_seq].
  destruct (sz_of c s) as [|w|w] eqn:Ez.
  - destruct Hn as (n & w & _ & [H|H] & _); discriminate.
  - rewrite E. destruct (N.ltb_spec (N.of_nat (length l)) m); [reflexivity|lia].
  - rewrite E. destruct (N.ltb_spec (N.of_nat (length l)) m); [reflexivity|lia].
Qed.

Lemma assoc_consumes (f : val -> nat -> dres) ins d n : forall acc pos l p,
  (forall x q v q', f x q = (ROk, v, q') -> (q < q')%nat) ->
  des_assoc f ins d n acc pos = (ROk, l, p) -> (pos + n <= p)%nat.
Proof.
  induction n as [|n IH]; intros acc pos l p Hf E; cbn [des_assoc] in E.
  - injection E as _ <-. lia.
  - destruct (f d pos) as [[r v] q] eqn:Ef. destruct r; try discriminate.
    apply Hf in Ef. apply IH in E; [lia|exact Hf].
Qed.

(** A set or map with a negative size, whose elements take at least a byte each, is read until
    something fails: never successfully. *)
Theorem signed_negative_assoc sgn G c data fuel s k t x pos pos' r v p :
  sgn (sz_of c s) = true -> negative c data (sz_of c s) pos pos' ->
  reading G c data (TAssoc s k t) -> (pos <= length data)%nat -> wt G x (TAssoc s k t) = true ->
  N.of_nat (length data) < 2 ^ 63 ->
  (forall y q v' q', gdes sgn G c data fuel t y q = (ROk, v', q') -> (q < q')%nat) ->
  gdes sgn G c data fuel (TAssoc s k t) x pos = (r, v, p) -> r <> ROk.
Proof.
  intros Hs Hn HR Hp Hx Hd Hf E ->. destruct (negative_huge _ _ _ _ _ _ Hs Hn) as (m & Em & Hm1 & Hm2).
  pose proof (signed_in_safe _ _ _ _ _ _ _ _ _ _ _ HR Hp Hx E) as (P & _).
  unfold gdes in E. cbn [gdes_ty] in E.
  assert (K : seq_res (des_assoc (gdes_ty sgn G c data (gdes_rec sgn G c data fuel) t) (assoc_insert k) (dflt G t)
              (N.to_nat m) [] pos') = (ROk, v, p)).
  { destruct (sz_of c s) as [|w|w] eqn:Ez.
    - destruct Hn as (n & w & _ & [H|H] & _); discriminate.
    - now rewrite Em in E.
    - now rewrite Em in E. }
  destruct (des_assoc _ _ _ _ _ _) as [[r l] q] eqn:D. cbn [seq_res] in K. injection K as -> _ ->.
  apply assoc_consumes in D; [|exact Hf]. lia.
Qed.

(** ** Round trip *)

(** What is written comes back if no count has the sign bit: counts of size types that are signed
    are below half of their range, as [greadable] says. *)
Theorem signed_round_trip sgn G cw cr fuel vs ts st st' data pos :
  sendable G cw cr fuel vs ts -> greadable sgn G cr (VSeq vs) (TTuple ts) = true ->
  bits_ok G (TTuple ts) st -> ost_ok st ->
  out_call G cw vs ts st = (ROk, st') ->
  small data -> has_at data pos (window (obuf st') (opos st) (opos st' - opos st)) ->
  gin_call sgn G cr data fuel ts (map (dflt G) ts) pos = (ROk, vs, (pos + (opos st' - opos st))%nat).
Proof.
  intros HS HR Hb Ho E Hsm Hat. pose proof (sd_writing _ _ _ _ _ _ HS) as HW.
  destruct (window_sent _ _ _ _ _ _ HW Hb Ho E) as [W1 W2]. rewrite W1 in Hat. rewrite W2.
  destruct (out_call_sent _ _ _ _ _ _ HW Hb Ho E) as [Hw _]. clear E W1 W2.
  destruct HS as [_ Hd Ho' Ht HtG Hr Hh]. unfold wire in *.
  assert (Hf : fmt_of cw = fmt_of cr) by (unfold fmt_of; now rewrite Hd, Ho').
  rewrite Hf in *. destruct HW as [_ W2 W3 W4 W5 W6 W7 _].
  assert (Hp : wt G (VSeq (map (dflt G) ts)) (TTuple ts) = true).
  { pose proof (wt_dflt G (TTuple ts) W3 W6) as D. exact D. }
  pose proof (gdes_round sgn G cr data W3) as R.
  assert (Hds : wfsz (Some (dsize cr)) = true) by (rewrite Hd; exact W2).
  specialize (R Hds Hsm W4 HtG (VSeq vs) (TTuple ts) fuel (VSeq (map (dflt G) ts)) pos W6 W7 Ht W5 Hw HR Hh Hp Hat).
  unfold gdes in R. cbn [gdes_ty as_seq] in R. fold (gdes sgn G cr data fuel) in R.
  unfold gin_call. destruct (des_many _ _ _ _) as [[r l] p]. cbn [seq_res] in R. injection R as -> -> ->. reflexivity.
Qed.

(** So it does not matter to such data whether char, as a size type, is signed. *)
Theorem signed_char_either sgn sgn' G cw cr fuel vs ts st st' data pos :
  sendable G cw cr fuel vs ts -> greadable sgn G cr (VSeq vs) (TTuple ts) = true ->
  greadable sgn' G cr (VSeq vs) (TTuple ts) = true ->
  bits_ok G (TTuple ts) st -> ost_ok st ->
  out_call G cw vs ts st = (ROk, st') ->
  small data -> has_at data pos (window (obuf st') (opos st) (opos st' - opos st)) ->
  gin_call sgn G cr data fuel ts (map (dflt G) ts) pos = gin_call sgn' G cr data fuel ts (map (dflt G) ts) pos.
Proof. intros. erewrite !signed_round_trip by eassumption. reflexivity. Qed.

(** Without that condition it does: 200 bytes in a vector with sizes of type signed char are
    written with success and never read back; with sizes of type unsigned char they are. *)
Definition char_bytes : ty := TVec (Some (SzFix 1)) true (TScalar 1 false).
Definition two_hundred : val := VSeq (repeat (VN 7) 200).

Theorem signed_round_trip_refuted :
  exists st',
    out_call node_env vec_cfg [two_hundred] [char_bytes] (mkO [] 0) = (ROk, st')
    /\ gin_call (fun _ => false) node_env vec_cfg (obuf st') 1 [char_bytes] [VSeq []] 0 = (ROk, [two_hundred], 201%nat)
    /\ gin_call (fun _ => true) node_env vec_cfg (obuf st') 1 [char_bytes] [VSeq []] 0 = (RThrow, [VSeq []], 1%nat).
Proof.
  exists (snd (out_call node_env vec_cfg [two_hundred] [char_bytes] (mkO [] 0))).
  split; [vm_compute; reflexivity|]. split; vm_compute; reflexivity.
Qed.

(** ** Examples *)

Definition signed_types : list ty :=
  [ TVec (Some (SzFix 1)) true (TScalar 2 false);
    TAssoc (Some (SzVar 4)) map_kind (TTuple [TScalar 1 false; TBool]);
    TVec None true (TOpt true (TScalar 4 false)) ].
Definition signed_vals : list val :=
  [ VSeq (repeat (VN 0x102) 127); VSeq [VSeq [VN 1; VN 0]; VSeq [VN 3; VN 1]]; VSeq [VNone; VSome (VN 5)] ].

Lemma signed_sendable : sendable node_env vec_cfg vec_cfg 10 signed_vals signed_types.
Proof.
  constructor;
  [ constructor;
    [ intros _; cbn; lia | reflexivity | apply demo_wf_env | intros [|k]; reflexivity | reflexivity
    | reflexivity | reflexivity | vm_compute; reflexivity ]
  | reflexivity | reflexivity | vm_compute; reflexivity | intros [|k]; reflexivity
  | vm_compute; reflexivity | cbn; lia ].
Qed.

Example signed_nontrivial :
  exists st',
    out_call node_env vec_cfg signed_vals signed_types (mkO [] 0) = (ROk, st')
    /\ greadable (fun _ => true) node_env vec_cfg (VSeq signed_vals) (TTuple signed_types) = true
    /\ gin_call (fun _ => true) node_env vec_cfg (obuf st') 10 signed_types (map (dflt node_env) signed_types) 0
       = (ROk, signed_vals, 270%nat).
Proof.
  exists (snd (out_call node_env vec_cfg signed_vals signed_types (mkO [] 0))).
  split; [vm_compute; reflexivity|]. split; [vm_compute; reflexivity|]. vm_compute; reflexivity.
Qed.

(** Negative sizes of one byte, of four, and as varint. *)
Example signed_negative_sizes :
  negative vec_cfg [xff; x01] (SzFix 1) 0 1
  /\ negative vec_cfg [x00; x00; x00; x80] (SzFix 4) 0 4
  /\ negative vec_cfg [xff; xff; xff; xff; x0f] (SzVar 4) 0 5
  /\ ~ negative vec_cfg [x7f] (SzFix 1) 0 1
  /\ gdes (fun _ => true) node_env (limit_cfg 1000) [xff; x01] 1 char_bytes (VSeq [VN 4]) 0
     = (RErr message_size, VSeq [VN 4], 1%nat)
  /\ gdes (fun _ => true) node_env vec_cfg [xff; x01; x02] 1 (TView (VwSized (Some (SzFix 1)))) (VBytes []) 0
     = (RErr result_out_of_range, VBytes [], 1%nat).
Proof.
  assert (P1 : pow256 1 = 256) by reflexivity. assert (P4 : pow256 4 = 4294967296) by reflexivity.
  split; [exists 255, 1%nat; split; [reflexivity|]; split; [now left|]; rewrite P1; split; [split; [vm_compute; discriminate|reflexivity]|lia]|].
  split; [exists 2147483648, 4%nat; split; [reflexivity|]; split; [now left|]; rewrite P4; split; [split; [vm_compute; discriminate|reflexivity]|lia]|].
  split; [exists 4294967295, 4%nat; split; [reflexivity|]; split; [now right|]; rewrite P4; split; [split; [vm_compute; discriminate|reflexivity]|lia]|].
  split; [intros (n & w & E & [H|H] & [H1 _] & _); [|discriminate]; injection H as <-;
          vm_compute in E; injection E as <-; vm_compute in H1; now apply H1|].
  split; vm_compute; reflexivity.
Qed.

(** The elements of a set of numbers take a byte or more. *)
Example signed_elements_consume sgn G c fuel data w sg y q v q' : (1 <= w)%nat ->
  gdes sgn G c data fuel (TScalar w sg) y q = (ROk, v, q') -> (q < q')%nat.
Proof.
  intros Hw E. unfold gdes in E. cbn [gdes_ty] in E. unfold des_scalar in E.
  repeat match type of E with context [match ?x with _ => _ end] => destruct x end;
    cbn [nres] in E; try discriminate; injection E as _ <-; lia.
Qed.

Print Assumptions signed_none_same.
Print Assumptions signed_in_safe.
Print Assumptions signed_negative_vec.
Print Assumptions signed_negative_view.
Print Assumptions signed_negative_span.
Print Assumptions signed_negative_assoc.
Print Assumptions signed_round_trip.
Print Assumptions signed_char_either.
Print Assumptions signed_round_trip_refuted.
