(** C01, C09-C14, C18, C28, C42: reading back, and reading arbitrary bytes. *)

From Coq Require Import List NArith ZArith Lia Bool Arith.
From Coq Require Import ZifyBool ZifyNat ZifyN.
From Verif Require Import Base.Bytes Model.Types Model.Machine Model.Varint Model.Out Model.In
  Model.Options Spec.Leb128 Spec.Wire Proofs.VarintP Proofs.OutP Proofs.InBase Proofs.InSafe
  Proofs.InLocal Proofs.InPrior Proofs.InAlloc Proofs.InRound Thm.Demo Thm.Output.
Import ListNotations.
Local Open Scope N_scope.

Definition rpos (x : dres) : nat := snd x.
Definition rval (x : dres) : val := snd (fst x).
Definition rres (x : dres) : res := fst (fst x).

(** What the reading theorems assume about the program and the input: well-formed types,
    ordered containers with a strict order, input of less than 2^64 bytes. *)
Record reading (G : tenv) (c : cfg) (data : list byte) (t : ty) : Prop := {
  r_env : wf_env G;
  r_size : wfsz (Some (dsize c)) = true;
  r_small : small data;
  r_cmpE : tallP_env (cmp_ok G) G;
  r_cmp : tallP (cmp_ok G) t;
  r_wf : wf G t = true
}.

Lemma lt_n_cmp s k t :
  k = map_kind -> t = TTuple [TScalar 1 false; TBool] -> cmp_ok node_env (TAssoc s k t).
Proof.
  intros -> ->. cbn [cmp_ok map_kind a_cmp]. unfold akey. cbn [a_map].
  assert (K : forall x, wt node_env x (TTuple [TScalar 1 false; TBool]) = true ->
            exists a b, x = VSeq [VN a; VN b]).
  { intros x H. destruct x as [|l| | | | | |]; try discriminate.
    destruct l as [|x [|y [|z l]]]; try discriminate; cbn [wt forall2b] in H.
    - destruct x; cbn in H; try discriminate; rewrite andb_false_r in H; discriminate.
    - destruct x; try discriminate. destruct y; try (rewrite andb_false_r in H; discriminate). eauto.
    - rewrite !andb_false_r in H. discriminate. }
  split.
  - intros x Hx. destruct (K x Hx) as (a & b & ->). cbn. apply N.ltb_irrefl.
  - intros x y z Hx Hy Hz. destruct (K x Hx) as (a & b & ->), (K y Hy) as (a' & b' & ->),
      (K z Hz) as (a'' & b'' & ->). cbn. rewrite !N.ltb_lt. lia.
Qed.

Lemma demo_cmp : tallP (cmp_ok node_env) demo_ty.
Proof.
  unfold demo_ty, demo_members, point.
  Opaque cmp_ok. cbn [tallP]. Transparent cmp_ok.
  repeat match goal with |- _ /\ _ => split end; try exact I.
  now apply lt_n_cmp.
Qed.

Lemma demo_cmp_env : tallP_env (cmp_ok node_env) node_env.
Proof.
  intros [|k]; cbn [node_env t_mems]; [|constructor].
  repeat constructor.
Qed.

Example demo_reading data :
  small data -> reading node_env vec_cfg data demo_ty.
Proof.
  intro H. constructor; auto; try (vm_compute; reflexivity).
  - apply demo_wf_env.
  - apply demo_cmp_env.
  - apply demo_cmp.
Qed.

(** ** C01: round trip

    [cw]: the writing archive, [cr]: the reading archive; they agree on byte order and default
    size type and on nothing else.  [data] is any input that contains the bytes written, at any
    position [pos] and with anything before and after them; [prior] is whatever the target
    object held.  [height v <= fuel]: the stack suffices. *)
Theorem round_trip G cw cr v t st st' data pos fuel prior :
  writing G cw v t -> bits_ok G t st -> ost_ok st ->
  ser G cw v t st = (ROk, st') ->
  dsize cr = dsize cw -> xorb (host_le cr) (swap cr) = xorb (host_le cw) (swap cw) ->
  tall (rt_ok cr) t = true -> tall_env (rt_ok cr) G ->
  readable G cr v t = true -> (height v <= fuel)%nat -> wt G prior t = true ->
  small data ->
  has_at data pos (window (obuf st') (opos st) (opos st' - opos st)) ->
  des G cr data fuel t prior pos = (ROk, v, (pos + (opos st' - opos st))%nat).
Proof.
  intros HW Hb Hok H Hd Ho Ht HtG Hr Hh Hpr Hsm Hat.
  destruct (out_wire_format _ _ _ _ _ _ HW Hb Hok H) as (Hwr & Hpos & Hwin).
  assert (Hf : fmt_of cw = fmt_of cr) by (unfold fmt_of; now rewrite Hd, Ho).
  replace (opos st' - opos st)%nat with (length (encode G (fmt_of cw) v t)) in * by lia.
  rewrite Hwin in Hat. rewrite Hf in *.
  destruct HW as [_ W2 W3 W4 W5 W6 W7 _].
  apply des_round; auto. unfold szok in W2. now rewrite Hd.
Qed.

(** In particular directly from the buffer just written. *)
Theorem round_trip_same_buffer G c v t st st' fuel prior :
  writing G c v t -> bits_ok G t st -> ost_ok st ->
  ser G c v t st = (ROk, st') ->
  tall (rt_ok c) t = true -> tall_env (rt_ok c) G ->
  readable G c v t = true -> (height v <= fuel)%nat -> wt G prior t = true ->
  small (obuf st') ->
  des G c (obuf st') fuel t prior (opos st) = (ROk, v, opos st').
Proof.
  intros HW Hb Hok H Ht HtG Hr Hh Hpr Hsm.
  destruct (out_frame _ _ _ _ _ _ _ HW Hb Hok H) as (_ & P & _).
  rewrite (round_trip G c c v t st st' (obuf st') (opos st) fuel prior); auto.
  - f_equal. lia.
  - unfold has_at. unfold window. rewrite firstn_length, skipn_length. split; [lia|].
    f_equal. lia.
Qed.

(** A whole call: out(a, b, ...) including fit-to-size, then in(a', b', ...). *)
Theorem round_trip_call G cw cr vs ts st st' data pos fuel priors :
  writing G cw (VSeq vs) (TTuple ts) -> bits_ok G (TTuple ts) st -> ost_ok st ->
  out_call G cw vs ts st = (ROk, st') ->
  dsize cr = dsize cw -> xorb (host_le cr) (swap cr) = xorb (host_le cw) (swap cw) ->
  tall (rt_ok cr) (TTuple ts) = true -> tall_env (rt_ok cr) G ->
  readable G cr (VSeq vs) (TTuple ts) = true -> (height (VSeq vs) <= fuel)%nat ->
  wt G (VSeq priors) (TTuple ts) = true -> small data ->
  has_at data pos (window (obuf st') (opos st) (opos st' - opos st)) ->
  in_call G cr data fuel ts priors pos = (ROk, vs, (pos + (opos st' - opos st))%nat).
Proof.
  intros HW Hb Hok H Hd Ho Ht HtG Hr Hh Hpr Hsm Hat.
  destruct (out_call_keeps_written _ _ _ _ _ _ _ HW Hb Hok H) as (st1 & E & P & Q & L).
  assert (E1 : ser G cw (VSeq vs) (TTuple ts) st = (ROk, st1)) by exact E.
  destruct (out_frame _ _ _ _ _ _ _ HW Hb Hok E1) as (_ & P1 & _).
  assert (Hw : window (obuf st') (opos st) (opos st' - opos st)
             = window (obuf st1) (opos st) (opos st1 - opos st)).
  { rewrite P. unfold window. rewrite !firstn_skipn_comm.
    replace (opos st + (opos st1 - opos st))%nat with (opos st1) by lia. now rewrite Q. }
  rewrite Hw in Hat.
  pose proof (round_trip G cw cr (VSeq vs) (TTuple ts) st st1 data pos fuel (VSeq priors)
                HW Hb Hok E1 Hd Ho Ht HtG Hr Hh Hpr Hsm Hat) as R.
  unfold des in R. cbn [des_ty as_seq] in R. fold (des G cr data fuel) in R.
  unfold in_call. rewrite P.
  destruct (des_many (des G cr data fuel) ts priors pos) as [[r l] p]. cbn [seq_res] in R.
  congruence.
Qed.

Example round_trip_nontrivial :
  let w := snd (ser node_env vec_cfg demo_val demo_ty (mkO [xaa; xbb] 2)) in
  readable node_env vec_cfg demo_val demo_ty = true
  /\ tall (rt_ok vec_cfg) demo_ty = true
  /\ des node_env vec_cfg ([x77] ++ window (obuf w) 2 38 ++ [x99; x98]) 10 demo_ty demo_default 1
     = (ROk, demo_val, 39%nat)
  /\ des node_env vec_cfg (obuf w) 10 demo_ty demo_val 2 = (ROk, demo_val, 40%nat).
Proof. repeat split; vm_compute; reflexivity. Qed.

(** Unsized containers take their extent from the target, which must have the same number
    of elements. *)
Theorem round_trip_unsized G c contig t l pl data pos fuel :
  wf_env G -> szok c = true -> small data -> tall_env elem_ok G -> tall_env (rt_ok c) G ->
  wf G t = true -> plain t = true -> is_empty t = false -> tall (rt_ok c) t = true ->
  forallb (fun x => wt G x t) l = true -> forallb (fun x => readable G c x t) l = true ->
  writable G (fmt_of c) (VSeq l) (TVec (Some SzNone) contig t) = true ->
  (height (VSeq l) <= fuel)%nat ->
  length pl = length l -> forallb (fun x => wt G x t) pl = true ->
  let e := encode G (fmt_of c) (VSeq l) (TVec (Some SzNone) contig t) in
  has_at data pos e ->
  des G c data fuel (TVec (Some SzNone) contig t) (VSeq pl) pos = (ROk, VSeq l, (pos + length e)%nat)
  /\ e = encode G (fmt_of c) (VSeq l) (TArray (length l) t).
Proof.
  intros HG Hsz Hsm HpG HrG Hw Hp He Hrt Hl Hrd Hwr Hh HL Hpl e Hat.
  assert (Ee : e = fst (enc_all (enc G (fmt_of c)) l t)).
  { unfold e, encode. cbn [enc]. unfold wire_size, pseq. reflexivity. }
  split; [|rewrite Ee; reflexivity].
  unfold writable in Hwr. cbn [enc] in Hwr. unfold wire_size, pseq in Hwr. cbn [fst snd pdone] in Hwr.
  rewrite Ee in *. unfold des. cbn [des_ty sz_of as_seq].
  apply des_elems_reads; auto.
  - intro H. apply andb_true_iff in H. tauto.
  - intros x Hin Hs prior p Hpx Hx.
    apply (des_round G c data HG Hsz Hsm HpG HrG x t fuel prior p); auto.
    + rewrite forallb_forall in Hl; auto.
    + rewrite forallb_forall in Hrd; auto.
    + pose proof (height_in _ _ Hin). lia.
Qed.

(** A mutable span with at least as many elements as announced is shrunk to the announced
    number and its elements are read in place. *)
Theorem round_trip_span G c s t l pl data pos fuel :
  wf_env G -> szok c = true -> small data -> tall_env elem_ok G -> tall_env (rt_ok c) G ->
  wf G (TSpan s t) = true -> plain t = true -> is_empty t = false -> tall (rt_ok c) t = true ->
  sz_of c s <> SzNone -> count_ok c s (length l) = true ->
  forallb (fun x => wt G x t) l = true -> forallb (fun x => readable G c x t) l = true ->
  writable G (fmt_of c) (VSeq l) (TSpan s t) = true ->
  (height (VSeq l) <= fuel)%nat ->
  (length l <= length pl)%nat -> forallb (fun x => wt G x t) pl = true ->
  let e := encode G (fmt_of c) (VSeq l) (TSpan s t) in
  has_at data pos e ->
  des G c data fuel (TSpan s t) (VSeq pl) pos = (ROk, VSeq l, (pos + length e)%nat).
Proof.
  intros HG Hsz Hsm HpG HrG Hw Hp He Hrt Hne Hc Hl Hrd Hwr Hh HL Hpl e Hat.
  cbn [wf] in Hw. apply andb_true_iff in Hw as [Hs Hw].
  unfold e, encode, writable in *. cbn [enc] in *.
  apply pseq_ok in Hwr as (_ & Hwr & E). rewrite E in *. cbn [pdone fst] in *.
  apply has_at_app in Hat as [H1 H2].
  unfold des. cbn [des_ty as_seq].
  pose proof (des_size_has c data Hsz Hsm s (length l) pos Hs Hne Hc H1) as D.
  destruct (sz_of c s) eqn:Es; [congruence|..]; rewrite D;
    (destruct (N.ltb_spec (N.of_nat (length pl)) (N.of_nat (length l))); [lia|]);
    rewrite Nat2N.id, app_length, Nat.add_assoc;
    (apply des_elems_reads; auto;
     [ intros x Hin Hx prior p Hpx Hat;
       apply (des_round G c data HG Hsz Hsm HpG HrG x t fuel prior p); auto;
       [ rewrite forallb_forall in Hl; auto
       | rewrite forallb_forall in Hrd; auto
       | pose proof (height_in _ _ Hin); lia ]
     | rewrite firstn_length; lia
     | rewrite forallb_forall in *; intros x Hin; apply Hpl;
       rewrite <- (firstn_skipn (length l) pl); apply in_or_app; now left ]).
Qed.

(** An unsized const byte view takes the rest of the input. *)
Theorem round_trip_rest_view G c data pos fuel prior l :
  (pos <= length data)%nat ->
  skipn pos data = l ->
  des G c data fuel (TView VwRest) prior pos = (ROk, VBytes l, length data)
  /\ encode G (fmt_of c) (VBytes l) (TView VwRest) = l.
Proof.
  intros Hp <-. split; [|reflexivity]. unfold des. cbn [des_ty].
  rewrite load_some by lia. unfold window.
  rewrite firstn_all2 by (rewrite skipn_length; lia). reflexivity.
Qed.

(** ** C09, C10: arbitrary input *)

Lemma flagged_no_bool t : tall not_bool t = true -> tall (flagged false true) t = true.
Proof. apply tall_sub. intros x H. unfold flagged. now rewrite H. Qed.
Lemma flagged_no_rec t : tall not_rec t = true -> tall (flagged true false) t = true.
Proof. apply tall_sub. intros x H. unfold flagged. now rewrite H. Qed.
Lemma flagged_env p q G :
  (forall t, tall p t = true -> tall q t = true) -> tall_env p G -> tall_env q G.
Proof.
  intros H HG k. specialize (HG k). rewrite forallb_forall in *. auto.
Qed.

(** C09: no access outside the data and no other undefined behaviour, for any bytes. *)
Theorem in_memory_safe G c data t fuel prior pos :
  reading G c data t -> (pos <= length data)%nat -> wt G prior t = true ->
  tall not_bool t = true -> tall_env not_bool G ->
  rres (des G c data fuel t prior pos) <> RUB.
Proof.
  intros [H1 H2 H3 H4 H5 H6] Hp Hw Hb HbG.
  pose proof (des_safe G c data false true H1 H2 H3 H4
    (flagged_env _ _ _ flagged_no_bool HbG) fuel t H6 (flagged_no_bool _ Hb) H5 prior pos Hp Hw) as S.
  destruct (des G c data fuel t prior pos) as [[r v] p]. cbn [safe_out] in S.
  destruct S as (_ & _ & S & _). cbn. intro E. specialize (S E). discriminate.
Qed.

(** Types without named (self-referencing) classes need no more than their static depth. *)
Theorem in_no_stack_exhaustion G c data t fuel prior pos :
  reading G c data t -> (pos <= length data)%nat -> wt G prior t = true ->
  tall not_rec t = true ->
  rres (des G c data fuel t prior pos) <> RStack.
Proof.
  intros [H1 H2 H3 H4 H5 H6] Hp Hw Hb.
  assert (P := des_ty_safe G c data true false H3 H1 H2 (des_rec G c data fuel)
    ltac:(discriminate) t H6 (flagged_no_rec _ Hb) H5 prior pos Hp Hw).
  unfold des. destruct (des_ty G c data (des_rec G c data fuel) t prior pos) as [[r v] p].
  cbn [safe_out] in P. destruct P as (_ & _ & _ & S). cbn. intro E. specialize (S E). discriminate.
Qed.

(** C10: the position stays inside the data and never goes back; the target is always a valid
    object of its type, also after a failure. *)
Theorem in_position_and_target_valid G c data t fuel prior pos r v p :
  reading G c data t -> (pos <= length data)%nat -> wt G prior t = true ->
  des G c data fuel t prior pos = (r, v, p) ->
  (pos <= p <= length data)%nat /\ wt G v t = true.
Proof.
  intros [H1 H2 H3 H4 H5 H6] Hp Hw E.
  pose proof (des_safe G c data true true H1 H2 H3 H4 (flagged_env_true G) fuel t H6
    (flagged_true t) H5 prior pos Hp Hw) as S.
  rewrite E in S. cbn [safe_out] in S. tauto.
Qed.

(** The same for a call with several items. *)
Theorem in_call_memory_safe G c data ts fuel priors pos r vs p :
  reading G c data (TTuple ts) -> (pos <= length data)%nat -> wt G (VSeq priors) (TTuple ts) = true ->
  in_call G c data fuel ts priors pos = (r, vs, p) ->
  (pos <= p <= length data)%nat /\ wt G (VSeq vs) (TTuple ts) = true
  /\ (tall not_bool (TTuple ts) = true -> tall_env not_bool G -> r <> RUB).
Proof.
  intros HR Hp Hw E.
  assert (D : des G c data fuel (TTuple ts) (VSeq priors) pos = (r, VSeq vs, p)).
  { unfold des. cbn [des_ty as_seq]. fold (des G c data fuel). unfold in_call in E. now rewrite E. }
  destruct (in_position_and_target_valid _ _ _ _ _ _ _ _ _ _ HR Hp Hw D) as [P1 P2].
  split; [exact P1|]. split; [exact P2|]. intros Hb HbG.
  pose proof (in_memory_safe _ _ _ _ fuel _ _ HR Hp Hw Hb HbG) as M. now rewrite D in M.
Qed.

(** A hostile input: an announced length of 2^32-1 elements with no data behind it. *)
Example in_hostile_nontrivial :
  des node_env (limit_cfg 1000) ([x04; x03; x02; x01] ++ repeat x07 8 ++ repeat xff 20) 5
      demo_ty demo_default 0
  = (RErr message_size,
     VSeq [VN 0x01020304; VSeq [VSeq [VN 0x707; VN 0x707]; VSeq [VN 0x707; VN 0x707]];
           VSeq []; VNone; VAlt 0 (VN 0); VSeq []; VNone], 16%nat)
  /\ tall not_bool (TVec None true (TOpt true (TScalar 4 false))) = true.
Proof. split; vm_compute; reflexivity. Qed.

(** Bool objects are read by copying a byte into them: 2..255 are not values of bool. *)
Theorem in_bool_refuted :
  exists data, des node_env vec_cfg data 0 TBool (VN 0) 0 = (RUB, VN 0, 1%nat)
    /\ rres (des node_env vec_cfg data 0 (TArray 1 TBool) (VSeq [VN 0]) 0) = RUB.
Proof. exists [x02]. split; vm_compute; reflexivity. Qed.

(** A position beyond the data (reset) makes the remaining-bytes subtraction wrap: undefined. *)
Theorem in_position_beyond_ub G c data fuel w isb prior pos :
  small data -> (length data < pos)%nat ->
  N.of_nat pos - N.of_nat (length data) + N.of_nat w <= 2 ^ 64 -> N.of_nat pos < 2 ^ 64 ->
  rres (des G c data fuel (TScalar w isb) prior pos) = RUB.
Proof.
  unfold small. change (2 ^ 64) with 18446744073709551616. intros H1 H2 H3 H4.
  unfold des. cbn [des_ty]. unfold des_scalar.
  assert (E : remaining data pos <? N.of_nat w = false).
  { apply N.ltb_ge. unfold remaining, wsub, two64. change (2 ^ 64) with 18446744073709551616.
    rewrite (N.mod_small (N.of_nat pos)) by lia.
    rewrite N.mod_small; lia. }
  rewrite E. unfold load. destruct (Nat.leb_spec (pos + w) (length data)); [lia|]. reflexivity.
Qed.

(** ** C11: allocation limit *)

(** Whether or not requests above L bytes could be satisfied makes no difference: they are
    never made. *)
Theorem in_alloc_limit G c data L ok t fuel prior pos :
  alim c = Some L -> (forall n, n <= L -> ok n = alloc_ok c n) ->
  des G (with_alloc c ok) data fuel t prior pos = des G c data fuel t prior pos.
Proof. intros. now apply des_alloc with (L := L). Qed.

(** An announced length needing more than L bytes gives message_size and leaves the container
    as it was. *)
Theorem in_over_limit G c data L s contig t fuel prior pos n p :
  alim c = Some L -> sz_of c s <> SzNone -> 0 < csizeof c t ->
  des_size c data (sz_of c s) pos = (ROk, n, p) -> L < n * csizeof c t ->
  wt G prior (TVec s contig t) = true ->
  des G c data fuel (TVec s contig t) prior pos = (RErr message_size, prior, p).
Proof.
  intros HL Hs Hz Hd Hn Hw. unfold des. cbn [des_ty].
  destruct prior as [|l| | | | | |]; try discriminate. cbn [as_seq].
  assert (E : vec_resize G c t n l = (RErr message_size, l)).
  { unfold vec_resize, over_limit. rewrite HL.
    destruct (N.ltb_spec (L / csizeof c t) n); [reflexivity|]. exfalso.
    pose proof (N.mul_div_le L (csizeof c t) ltac:(lia)).
    assert (n * csizeof c t <= L / csizeof c t * csizeof c t) by (apply N.mul_le_mono_r; lia). lia. }
  destruct (sz_of c s); [congruence|..]; rewrite Hd, E; reflexivity.
Qed.

Example in_alloc_limit_nontrivial :
  (* 3 elements of 2 bytes within 6, not within 5 *)
  des node_env (with_alloc (limit_cfg 6) (fun n => n <=? 6)) ([x03; x00; x00; x00] ++ repeat x01 6) 0
    (TVec None true (TScalar 2 false)) (VSeq []) 0 = (ROk, VSeq [VN 257; VN 257; VN 257], 10%nat)
  /\ des node_env (limit_cfg 5) ([x03; x00; x00; x00] ++ repeat x01 6) 0
    (TVec None true (TScalar 2 false)) (VSeq []) 0 = (RErr message_size, VSeq [], 4%nat).
Proof. split; vm_compute; reflexivity. Qed.

(** Associative containers are not covered by the limit (nor by the theorem: they allocate one
    node per element that was really read). *)
Example in_limit_assoc :
  rres (des node_env (limit_cfg 0) [x02; x00; x00; x00; x01; x01; x02; x01] 0
    (TAssoc None map_kind (TTuple [TScalar 1 false; TBool])) (VSeq []) 0) = ROk.
Proof. vm_compute. reflexivity. Qed.

(** ** C12, C13: locality and truncation *)

(** C12: success and result depend only on the bytes consumed. *)
Theorem in_consumed_bytes_only G c data data' t fuel prior pos v p :
  reading G c data t -> small data' ->
  tall (delimited c) t = true -> tall_env (delimited c) G ->
  (pos <= length data)%nat -> wt G prior t = true ->
  des G c data fuel t prior pos = (ROk, v, p) ->
  (p <= length data')%nat ->
  (forall i, (pos <= i < p)%nat -> nth_error data' i = nth_error data i) ->
  des G c data' fuel t prior pos = (ROk, v, p).
Proof.
  intros HR Hs' Hd HdG Hp Hw E Hl Ha.
  destruct (in_position_and_target_valid _ _ _ _ _ _ _ _ _ _ HR Hp Hw E) as [P _].
  destruct HR as [H1 H2 H3 H4 H5 H6].
  pose proof (des_local G c data data' H1 H2 H3 Hs' H4 HdG fuel t H6 Hd H5 prior pos v p Hp
    ltac:(lia) Hw E) as L.
  unfold lres in L. destruct (Nat.leb_spec p (length data')); [|lia]. apply L.
  unfold agree. intros i Hi. symmetry. apply Ha. lia.
Qed.

(** Appending anything changes nothing; prefixing anything shifts the position. *)
Theorem in_appended G c data more t fuel prior pos v p :
  reading G c data t -> small (data ++ more) ->
  tall (delimited c) t = true -> tall_env (delimited c) G ->
  (pos <= length data)%nat -> wt G prior t = true ->
  des G c data fuel t prior pos = (ROk, v, p) ->
  des G c (data ++ more) fuel t prior pos = (ROk, v, p).
Proof.
  intros HR Hs' Hd HdG Hp Hw E.
  destruct (in_position_and_target_valid _ _ _ _ _ _ _ _ _ _ HR Hp Hw E) as [P _].
  eapply in_consumed_bytes_only; eauto.
  - rewrite app_length. lia.
  - intros i Hi. apply nth_error_app1. lia.
Qed.

(** C13: if the data end anywhere before the last consumed byte, the result is
    result_out_of_range. *)
Theorem in_truncated_rejected G c data t fuel prior pos v p k :
  reading G c data t ->
  tall (delimited c) t = true -> tall_env (delimited c) G ->
  (pos <= k)%nat -> (pos <= length data)%nat -> wt G prior t = true ->
  des G c data fuel t prior pos = (ROk, v, p) -> (k < p)%nat ->
  rres (des G c (firstn k data) fuel t prior pos) = RErr result_out_of_range.
Proof.
  intros HR Hd HdG Hk Hp Hw E Hkp.
  destruct (in_position_and_target_valid _ _ _ _ _ _ _ _ _ _ HR Hp Hw E) as [P _].
  destruct HR as [H1 H2 H3 H4 H5 H6].
  assert (Hl : length (firstn k data) = k) by (rewrite firstn_length; lia).
  assert (Hs' : small (firstn k data)) by (unfold small in *; rewrite Hl; lia).
  pose proof (des_local G c data (firstn k data) H1 H2 H3 Hs' H4 HdG fuel t H6 Hd H5 prior pos v p Hp
    ltac:(lia) Hw E) as L.
  unfold lres in L. rewrite Hl in L. destruct (Nat.leb_spec p k); [lia|]. apply L.
  unfold agree. intros i Hi. rewrite <- (firstn_skipn k data) at 1. apply nth_error_app1. lia.
Qed.

Example in_truncated_nontrivial :
  let w := obuf (snd (ser node_env vec_cfg demo_val demo_ty (mkO [] 0))) in
  des node_env vec_cfg w 10 demo_ty demo_default 0 = (ROk, demo_val, 38%nat)
  /\ rres (des node_env vec_cfg (firstn 37 w) 10 demo_ty demo_default 0) = RErr result_out_of_range
  /\ rres (des node_env vec_cfg (firstn 20 w) 10 demo_ty demo_default 0) = RErr result_out_of_range
  /\ tall (delimited vec_cfg) demo_ty = true.
Proof. repeat split; vm_compute; reflexivity. Qed.

(** Views of the rest of the input are the exception. *)
Theorem in_rest_view_refuted :
  exists data more prior v p,
    des node_env vec_cfg data 0 (TView VwRest) prior 0 = (ROk, v, p)
    /\ des node_env vec_cfg (data ++ more) 0 (TView VwRest) prior 0 <> (ROk, v, p)
    /\ rres (des node_env vec_cfg (firstn 1 data) 0 (TView VwRest) prior 0) = ROk.
Proof.
  exists [x01; x02], [x03], (VBytes []), (VBytes [x01; x02]), 2%nat.
  repeat split; vm_compute; try reflexivity. discriminate.
Qed.

(** ** C14: the previous contents of the target *)

(** Two targets holding different values give the same status, position and (on success)
    value.  The exception is an allocation that fails for one of them only: the vector that
    already has the capacity does not allocate. *)
Theorem in_target_independent G c data t fuel v1 v2 pos r1 x1 p1 r2 x2 p2 :
  reading G c data t -> tall (own_extent c) t = true -> tall_env (own_extent c) G ->
  (pos <= length data)%nat -> wt G v1 t = true -> wt G v2 t = true ->
  des G c data fuel t v1 pos = (r1, x1, p1) ->
  des G c data fuel t v2 pos = (r2, x2, p2) ->
  r1 <> RThrow -> r2 <> RThrow ->
  r1 = r2 /\ p1 = p2 /\ (r1 = ROk -> x1 = x2).
Proof.
  intros [H1 H2 H3 H4 H5 H6] Ho HoG Hp Hw1 Hw2 E1 E2 N1 N2.
  pose proof (des_indep G c data H1 H2 H3 H4 HoG fuel t H6 Ho H5 v1 v2 pos Hp Hw1 Hw2) as S.
  rewrite E1, E2 in S. unfold same_result in S. cbn [fst snd] in S.
  destruct S as [S|[S|S]]; [congruence..|exact S].
Qed.

Example in_target_independent_nontrivial :
  let w := obuf (snd (ser node_env vec_cfg demo_val demo_ty (mkO [] 0))) in
  let other := VSeq [VN 9; VSeq [VSeq [VN 1; VN 1]; VSeq [VN 1; VN 1]];
                     VSeq (repeat (VN 3) 50); VSome (VN 4); VAlt 0 (VN 200);
                     VSeq [VSeq [VN 3; VN 0]]; VSome (VSeq [VN 1; VNone])] in
  wt node_env other demo_ty = true
  /\ des node_env vec_cfg w 10 demo_ty other 0 = des node_env vec_cfg w 10 demo_ty demo_default 0
  /\ tall (own_extent vec_cfg) demo_ty = true.
Proof. repeat split; vm_compute; reflexivity. Qed.

(** Unsized containers and mutable spans do depend on the target. *)
Theorem in_unsized_target_refuted :
  exists data v1 v2,
    let t := TVec (Some SzNone) true (TScalar 1 false) in
    let ts := TSpan None (TScalar 1 false) in
    wt node_env v1 t = true /\ wt node_env v2 t = true
    /\ rval (des node_env vec_cfg data 0 t v1 0) <> rval (des node_env vec_cfg data 0 t v2 0)
    /\ rres (des node_env vec_cfg data 0 ts v1 0) <> rres (des node_env vec_cfg data 0 ts v2 0).
Proof.
  exists [x01; x00; x00; x00; x05], (VSeq []), (VSeq [VN 0; VN 0]).
  repeat split; vm_compute; discriminate.
Qed.

(** ** C28: sequencing on input *)

Theorem in_call_split G c data fuel ts1 ts2 ps1 ps2 pos :
  length ps1 = length ts1 ->
  in_call G c data fuel (ts1 ++ ts2) (ps1 ++ ps2) pos
  = match in_call G c data fuel ts1 ps1 pos with
    | (ROk, vs1, pos') =>
        match in_call G c data fuel ts2 ps2 pos' with
        | (r, vs2, pos'') => (r, vs1 ++ vs2, pos'')
        end
    | (r, vs1, pos') => (r, vs1 ++ ps2, pos')
    end.
Proof.
  unfold in_call. revert ps1 pos. induction ts1 as [|t ts1 IH]; intros [|x ps1] pos H; try discriminate.
  - cbn [app des_many]. destruct (des_many _ ts2 ps2 pos) as [[r l] p]. reflexivity.
  - cbn [app des_many tl]. destruct (des G c data fuel t x pos) as [[r v] p].
    destruct r; try reflexivity.
    rewrite IH by (now injection H).
    destruct (des_many (des G c data fuel) ts1 ps1 p) as [[r1 l1] p1].
    destruct r1; try reflexivity.
    destruct (des_many (des G c data fuel) ts2 ps2 p1) as [[r2 l2] p2]. reflexivity.
Qed.

(** Reading a tuple (or a class by its members) is reading its members in order. *)
Lemma in_tuple_members G c data fuel ts ps pos :
  des G c data fuel (TTuple ts) (VSeq ps) pos = seq_res (in_call G c data fuel ts ps pos).
Proof. reflexivity. Qed.

Example in_call_split_nontrivial :
  in_call node_env vec_cfg [x07; x00; x08; x09] 0
    ([TScalar 2 false; TScalar 1 false] ++ [TScalar 4 false]) ([VN 1; VN 2] ++ [VN 3]) 0
  = (RErr result_out_of_range, [VN 7; VN 8; VN 3], 3%nat).
Proof. vm_compute. reflexivity. Qed.
