(** C80: whole calls have the same effect in constant evaluation and at run time. *)

From Coq Require Import List NArith ZArith Lia Bool Arith.
From Coq Require Import ZifyBool ZifyNat ZifyN.
From Verif Require Import Base.Bytes Model.Types Model.Machine Model.Varint Model.Out Model.In Model.Loops
  Model.Protocol Model.Pb Model.ConstCalls Proofs.OutP Proofs.VarintP Proofs.InBase Proofs.InRound Thm.Const Thm.Demo Thm.Pb.
Import ListNotations.
Local Open Scope N_scope.

(** Ids of variants are not of width zero (there is no such type in C++). *)
Definition id_sized (t : ty) : bool :=
  match t with TVariant ik _ _ => (0 <? idwidth ik)%nat | _ => true end.

(** ** Writing *)

Lemma seq_ext a a' b b' :
  (forall st, a st = a' st) -> (forall st, b st = b' st) -> forall st, (a ;; b) st = (a' ;; b') st.
Proof.
  intros Ha Hb st. unfold seq. rewrite Ha. destruct (a' st) as [r st']. destruct r; auto.
Qed.

Lemma kput_objects_agrees G c t l st :
  bs t = true -> forallb (fun x => wt G x t) l = true ->
  kput_objects c t l st = put_bytes c (flat_map (fun x => objrep c x t) l) st.
Proof. apply const_container_output. Qed.

Lemma kput_bytes_agrees c l st : kput_bytes c l st = put_bytes c l st.
Proof.
  unfold kput_bytes. rewrite const_bytes_output.
  - f_equal. induction l as [|b l IH]; [reflexivity|]. cbn. now rewrite IH.
  - apply Forall_forall. intros x Hx. apply in_map_iff in Hx as (b & <- & _). reflexivity.
Qed.

Lemma wfw_pos w : wfw w = true -> (0 < w)%nat.
Proof. destruct w; [discriminate|lia]. Qed.

Lemma kser_size_agrees c s n st :
  wfsz (Some s) = true -> kser_size c s n st = ser_size c s n st.
Proof.
  destruct s as [|w|w]; cbn [wfsz kser_size ser_size]; intro H; try reflexivity.
  apply const_scalar_output. now apply wfw_pos.
Qed.

Lemma sz_of_wf c s : szok c = true -> wfsz s = true -> wfsz (Some (sz_of c s)) = true.
Proof. unfold szok, sz_of. destruct s; auto. Qed.

Lemma kser_id_agrees c ik i st :
  (0 <? idwidth ik)%nat = true -> kser_id c ik i st = ser_id c ik i st.
Proof.
  destruct ik as [w|n]; cbn [kser_id ser_id idwidth]; intro H.
  - apply const_scalar_output. lia.
  - apply kput_bytes_agrees.
Qed.

Lemma ser_many_ext (f g : val -> ty -> act) : forall l ms,
  forall2b (fun _ _ => true) l ms = true ->
  (forall x m, In (x, m) (combine l ms) -> forall st, f x m st = g x m st) ->
  forall st, ser_many f l ms st = ser_many g l ms st.
Proof.
  induction l as [|x l IH]; intros [|m ms] Hl H st; cbn [forall2b] in Hl; try discriminate; [reflexivity|].
  cbn [ser_many]. apply seq_ext; [intro; apply H; now left|].
  intro. apply IH; [exact Hl|]. intros y m' Hin. apply H. now right.
Qed.

Lemma ser_all_ext (f g : val -> ty -> act) t : forall l,
  (forall x, In x l -> forall st, f x t st = g x t st) ->
  forall st, ser_all f l t st = ser_all g l t st.
Proof.
  induction l as [|x l IH]; intros H st; [reflexivity|].
  cbn [ser_all]. apply seq_ext; [intro; apply H; now left|].
  intro. apply IH. intros y Hy. apply H. now right.
Qed.

Lemma forall2b_true {A B} (f : A -> B -> bool) l m :
  forall2b f l m = true -> forall2b (fun _ _ => true) l m = true.
Proof.
  revert m; induction l as [|x l IH]; intros [|y m] H; cbn [forall2b] in *; try discriminate; [reflexivity|].
  apply andb_true_iff in H as [_ H]. now rewrite IH.
Qed.

Lemma kser_agrees G c :
  szok c = true -> wf_env G -> tall_env id_sized G ->
  forall v t, wt G v t = true -> wf G t = true -> tall id_sized t = true ->
  forall st, kser G c v t st = ser G c v t st.
Proof.
  intros Hsz HG HI.
  induction v as [n|l IH| |v IH|i v IH| |l|l] using val_ind';
    intros t Hwt Hwf Hid st;
    destruct t as [w isb| |w sg zz| |si ms|k|n' t'|ts|s cg t'|s k t'|dc t'|t'|t'|ik meta alts|n'|k|s t'];
    cbn [wt] in Hwt; try discriminate; try (destruct k as [s|nv|]; discriminate); cbn [kser ser];
    try reflexivity.
  - cbn [wf] in Hwf. apply const_scalar_output. lia.
  - apply const_scalar_output. lia.
  - (* struct *)
    destruct (negb (s_expl si) && is_empty (TStruct si ms)); [reflexivity|].
    destruct (as_bytes c (TStruct si ms)) eqn:Eab.
    { rewrite (kput_objects_agrees G); [cbn [flat_map]; now rewrite app_nil_r|now apply as_bytes_bs in Eab|].
      cbn [forallb wt]. now rewrite Hwt. }
    cbn [wf] in Hwf. rewrite !andb_true_iff in Hwf. destruct Hwf as [[_ Hwf] _].
    cbn [tall id_sized andb] in Hid.
    apply ser_many_ext; [now apply forall2b_true in Hwt|].
    intros x m Hin. rewrite Forall_forall in IH. apply IH.
    + eapply in_combine_l; eauto.
    + eapply (forall2b_in _ _ _ _ _ Hwt Hin).
    + eapply in_combine_forallb; eauto.
    + eapply in_combine_forallb; eauto.
  - (* named class *)
    apply ser_many_ext; [now apply forall2b_true in Hwt|].
    destruct (HG k) as [Hk _]. specialize (HI k).
    intros x m Hin. rewrite Forall_forall in IH. apply IH.
    + eapply in_combine_l; eauto.
    + eapply (forall2b_in _ _ _ _ _ Hwt Hin).
    + eapply in_combine_forallb; eauto.
    + eapply in_combine_forallb; eauto.
  - (* array *)
    apply andb_true_iff in Hwt as [_ Hwt]. cbn [wf] in Hwf. apply andb_true_iff in Hwf as [_ Hwf].
    cbn [tall id_sized andb] in Hid.
    destruct (as_bytes c t') eqn:Eab.
    { rewrite (kput_objects_agrees G); [reflexivity|now apply as_bytes_bs in Eab|exact Hwt]. }
    apply ser_all_ext. intros x Hx. rewrite Forall_forall in IH. rewrite forallb_forall in Hwt. auto.
  - (* tuple *)
    cbn [wf] in Hwf. cbn [tall id_sized andb] in Hid.
    apply ser_many_ext; [now apply forall2b_true in Hwt|].
    intros x m Hin. rewrite Forall_forall in IH. apply IH.
    + eapply in_combine_l; eauto.
    + eapply (forall2b_in _ _ _ _ _ Hwt Hin).
    + eapply in_combine_forallb; eauto.
    + eapply in_combine_forallb; eauto.
  - (* container *)
    cbn [wf] in Hwf. apply andb_true_iff in Hwf as [Hs Hwf]. cbn [tall id_sized andb] in Hid.
    apply seq_ext; [intro; apply kser_size_agrees; now apply sz_of_wf|]. intro st'.
    destruct (as_bytes c t' && cg) eqn:Eab.
    { apply andb_true_iff in Eab as [Eab _]. apply as_bytes_bs in Eab.
      now rewrite (kput_objects_agrees G). }
    apply ser_all_ext. intros x Hx. rewrite Forall_forall in IH. rewrite forallb_forall in Hwt. auto.
  - (* associative container *)
    apply andb_true_iff in Hwt as [Hwt _].
    cbn [wf] in Hwf. apply andb_true_iff in Hwf as [Hs Hwf]. cbn [tall id_sized andb] in Hid.
    apply seq_ext; [intro; apply kser_size_agrees; now apply sz_of_wf|]. intro st'.
    apply ser_all_ext. intros x Hx. rewrite Forall_forall in IH. rewrite forallb_forall in Hwt. auto.
  - (* span *)
    cbn [wf] in Hwf. apply andb_true_iff in Hwf as [Hs Hwf]. cbn [tall id_sized andb] in Hid.
    apply seq_ext; [intro; apply kser_size_agrees; now apply sz_of_wf|]. intro st'.
    destruct (as_bytes c t') eqn:Eab.
    { apply as_bytes_bs in Eab. now rewrite (kput_objects_agrees G). }
    apply ser_all_ext. intros x Hx. rewrite Forall_forall in IH. rewrite forallb_forall in Hwt. auto.
  - apply const_scalar_output. lia.
  - apply const_scalar_output. lia.
  - cbn [wf] in Hwf. cbn [tall id_sized andb] in Hid.
    apply seq_ext; [intro; apply const_scalar_output; lia|]. intro. now apply IH.
  - cbn [wf] in Hwf. cbn [tall id_sized andb] in Hid.
    apply seq_ext; [intro; apply const_scalar_output; lia|]. intro. now apply IH.
  - cbn [wf] in Hwf. cbn [tall id_sized andb] in Hid. now apply IH.
  - (* variant *)
    cbn [wf] in Hwf. rewrite !andb_true_iff in Hwf. destruct Hwf as [_ Hwf].
    cbn [tall id_sized] in Hid. apply andb_true_iff in Hid as [Hi Hid].
    destruct (nth_error meta i) as [[id b]|]; [|reflexivity].
    destruct (nth_error alts i) as [t'|] eqn:Ei; [|reflexivity].
    apply nth_error_In in Ei. rewrite forallb_forall in Hwf, Hid.
    apply seq_ext; [intro; apply kser_id_agrees; exact Hi|]. intro. apply IH; auto.
  - (* views *)
    destruct k as [s|nv|].
    + cbn [wf] in Hwf. apply seq_ext; [intro; apply kser_size_agrees; now apply sz_of_wf|].
      intro. apply kput_bytes_agrees.
    + apply kput_bytes_agrees.
    + apply kput_bytes_agrees.
Qed.

(** out::operator(): every list of items of well-formed types, every configuration and every state of the
    archive, also states in which the call fails. *)
Theorem const_out_call G c vs ts st :
  szok c = true -> wf_env G -> tall_env id_sized G ->
  forall2b (wt G) vs ts = true -> forallb (wf G) ts = true -> forallb (tall id_sized) ts = true ->
  kout_call G c vs ts st = out_call G c vs ts st.
Proof.
  intros Hsz HG HI Hw Hf Hid.
  assert (E : forall st, ser_many (kser G c) vs ts st = ser_many (ser G c) vs ts st).
  { apply ser_many_ext; [now apply forall2b_true in Hw|]. intros x m Hin st'.
    apply kser_agrees; auto.
    - eapply (forall2b_in _ _ _ _ _ Hw Hin).
    - eapply in_combine_forallb; eauto.
    - eapply in_combine_forallb; eauto. }
  unfold kout_call, out_call. now rewrite E.
Qed.

(** ** Reading *)

Lemma b2n_small b : b2n b < 256.
Proof. apply b2n_lt. Qed.

Lemma wf_scalar_ty w : wfw w = true -> wf no_types (scalar_ty w) = true.
Proof.
  intro H. apply wfw_pos in H. cbn [scalar_ty wf]. apply andb_true_iff. split; [lia|].
  destruct (w =? 1)%nat; reflexivity.
Qed.

Lemma wf_unsized ck w : wfw w = true ->
  wf no_types (unsized_ty ck w) = true /\ tall id_sized (unsized_ty ck w) = true.
Proof.
  intro H. pose proof (wf_scalar_ty w H) as Hs. destruct ck; cbn [unsized_ty wf wfsz]; split; auto.
Qed.

Section Reading.
  Variables (sx : bool) (junk : nat -> list byte).
  Hypothesis Hjunk : forall w, length (junk w) = w.

  (** The sign of a byte does not matter: the bits above the lowest seven are masked away. *)
  Lemma pow256_split w : (0 < w)%nat -> exists m, pow256 w = 256 * m /\ 0 < m.
  Proof.
    intro H. destruct w as [|w]; [lia|]. exists (pow256 w). split; [|apply pow256_pos].
    apply pow256_S.
  Qed.

  Lemma kbyte_mod w b : (0 < w)%nat -> kbyte sx w b mod 256 = b2n b mod 256.
  Proof.
    intro H. destruct (pow256_split w H) as (m & E & Hm). unfold kbyte, trunc. rewrite E.
    pose proof (b2n_small b) as Hb.
    destruct (sx && (128 <=? b2n b)).
    - replace (256 * m - 256 + b2n b) with (b2n b + (m - 1) * 256) by lia.
      rewrite N.mod_add by lia. reflexivity.
    - rewrite (N.mod_small (b2n b) (256 * m)) by lia. reflexivity.
  Qed.

  Lemma kbyte_land w b k : (0 < w)%nat -> k <= 8 ->
    N.land (kbyte sx w b) (N.ones k) = N.land (trunc w (b2n b)) (N.ones k).
  Proof.
    intros H Hk. rewrite !N.land_ones.
    assert (E : forall a, a mod 2 ^ k = (a mod 256) mod 2 ^ k).
    { intro a. replace 256 with (2 ^ k * 2 ^ (8 - k)).
      - rewrite N.mod_mul_r by (apply N.pow_nonzero; lia).
        rewrite N.mul_comm, N.mod_add by (apply N.pow_nonzero; lia).
        now rewrite N.mod_mod by (apply N.pow_nonzero; lia).
      - rewrite <- N.pow_add_r. replace (k + (8 - k)) with 8 by lia. reflexivity. }
    rewrite E, (E (trunc w (b2n b))). f_equal. rewrite kbyte_mod by exact H.
    destruct (pow256_split w H) as (m & Em & Hm). unfold trunc. rewrite Em.
    pose proof (b2n_small b) as Hb. now rewrite (N.mod_small (b2n b) (256 * m)) by lia.
  Qed.

  Lemma trunc_byte w b : (0 < w)%nat -> trunc w (b2n b) = b2n b.
  Proof.
    intro H. destruct (pow256_split w H) as (m & Em & Hm). unfold trunc. rewrite Em.
    pose proof (b2n_small b). apply N.mod_small. lia.
  Qed.

  Lemma kbyte_more w b : (0 < w)%nat -> (0x80 <=? kbyte sx w b) = (0x80 <=? trunc w (b2n b)).
  Proof.
    intro H. rewrite trunc_byte by exact H. unfold kbyte. rewrite trunc_byte by exact H.
    destruct (sx && (128 <=? b2n b)) eqn:E; [|reflexivity].
    apply andb_true_iff in E as [_ E]. rewrite E. apply N.leb_le. apply N.leb_le in E.
    destruct (pow256_split w H) as (m & Em & Hm). lia.
  Qed.

  Lemma kdec_short_agrees w : (0 < w)%nat -> forall data shift value i,
    kdec_short sx w data shift value i = dec_short w data shift value i.
  Proof.
    intro H. induction data as [|b data IH]; intros; [reflexivity|].
    cbn [kdec_short dec_short]. rewrite kbyte_more by exact H.
    change 0x7f with (N.ones 7). rewrite kbyte_land by (auto; lia).
    destruct (128 <=? trunc w (b2n b)); [apply IH|reflexivity].
  Qed.

  Lemma kdec_long_agrees w : (0 < w)%nat -> forall steps data i value,
    kdec_long sx w steps data i value = dec_long w steps data i value.
  Proof.
    intro H. induction steps as [|steps IH]; intros [|b data] i value; try reflexivity.
    cbn [kdec_long dec_long].
    assert (E : N.land (kbyte sx w b) (if (i =? 9)%nat then 0x01 else 0x7f)
                = N.land (trunc w (b2n b)) (if (i =? 9)%nat then 0x01 else 0x7f)).
    { destruct (i =? 9)%nat; [change 0x01 with (N.ones 1)|change 0x7f with (N.ones 7)];
        apply kbyte_land; auto; lia. }
    rewrite E.
    assert (L : (kbyte sx w b <? 0x80) = (trunc w (b2n b) <? 0x80)).
    { rewrite !N.ltb_antisym. now rewrite kbyte_more. }
    rewrite L. destruct (trunc w (b2n b) <? 0x80); [reflexivity|apply IH].
  Qed.

  Lemma land_0x80 n : n < 256 -> (N.land n 0x80 =? 0) = (n <? 0x80).
  Proof.
    intro H. assert (T : forallb (fun n => Bool.eqb (N.land n 0x80 =? 0) (n <? 0x80))
      (map N.of_nat (List.seq 0 256)) = true) by (vm_compute; reflexivity).
    rewrite forallb_forall in T. apply eqb_prop. apply T.
    replace n with (N.of_nat (N.to_nat n)) by lia. apply in_map. apply in_seq. lia.
  Qed.

  Lemma kvarint_agrees w data : (0 < w)%nat -> kvarint_in sx w data = varint_in w data.
  Proof.
    intro H. unfold kvarint_in, varint_in, kdecode_varint, decode_varint.
    rewrite kdec_short_agrees, kdec_long_agrees by exact H. destruct data as [|b data]; [reflexivity|].
    rewrite trunc_byte by exact H.
    replace (N.land (kbyte sx w b) 0x80) with (N.land (b2n b) 0x80).
    - destruct (N.land (b2n b) 0x80 =? 0) eqn:E; [|reflexivity].
      f_equal. unfold kbyte. rewrite trunc_byte by exact H. rewrite land_0x80 in E by apply b2n_small.
      destruct (sx && (128 <=? b2n b)) eqn:E2; [|reflexivity]. apply andb_true_iff in E2 as [_ E2]. lia.
    - change 0x80 with (N.land (N.ones 8) 0x80).
      rewrite !N.land_assoc, kbyte_land by (auto; lia). now rewrite trunc_byte by exact H.
  Qed.

  Lemma kdes_varint_agrees w zz prior data pos :
    (0 < w)%nat -> kdes_varint sx w zz prior data pos = des_varint w zz prior data pos.
  Proof.
    intro H. unfold kdes_varint, des_varint. destruct (rest_of data pos); [|reflexivity].
    now rewrite kvarint_agrees.
  Qed.

  Lemma kdes_scalar_agrees c data w prior pos :
    (0 < w)%nat -> kdes_scalar junk c data w prior pos = des_scalar c data w prior pos.
  Proof. intro H. apply const_scalar_input; auto. Qed.

  Lemma kdes_bytes_agrees c data t prior pos :
    kdes_bytes junk c data t prior pos = des_bytes c data t (length prior) prior pos.
  Proof. apply const_bytes_input. apply Hjunk. Qed.

  Lemma kdes_size_agrees c data s pos :
    wfsz (Some s) = true -> kdes_size sx junk c data s pos = des_size c data s pos.
  Proof.
    destruct s as [|w|w]; cbn [wfsz kdes_size des_size]; intro H; [reflexivity| |].
    - apply kdes_scalar_agrees. now apply wfw_pos.
    - apply kdes_varint_agrees. now apply wfw_pos.
  Qed.

  Lemma hostval_one c b : hostval c [b] = b2n b.
  Proof.
    unfold hostval. destruct (host_le c); cbn; lia.
  Qed.

  Lemma parse_raw c : forall e,
    parse_all (objparse c (TScalar 1 true)) 1 (length e) e = Some (map (fun b => VN (b2n b)) e).
  Proof.
    induction e as [|b e IH]; [reflexivity|]. cbn [length parse_all firstn skipn].
    rewrite IH. cbn [objparse map]. rewrite hostval_one. reflexivity.
  Qed.

  Lemma kdes_id_agrees c data ik pos :
    (0 <? idwidth ik)%nat = true ->
    kdes_id junk c data ik pos = des_id c data ik pos.
  Proof.
    intro H. destruct ik as [w|n]; cbn [kdes_id des_id idwidth] in *; [apply kdes_scalar_agrees; lia|].
    rewrite kdes_bytes_agrees. unfold des_bytes. rewrite repeat_length. cbn [bsize].
    rewrite N.mul_1_r, Nat.mul_1_r.
    destruct (N.eqb_spec (N.of_nat n) 0) as [E|E].
    { lia. }
    destruct (remaining data pos <? N.of_nat n); [reflexivity|].
    unfold load. destruct (Nat.leb_spec (pos + n) (length data)) as [L|L]; [|reflexivity].
    pose proof (window_length data pos n L) as W.
    pose proof (parse_raw c (window data pos n)) as Q. rewrite W in Q. cbn [bsize] in Q. rewrite Q.
    do 2 f_equal. f_equal. rewrite map_map. rewrite <- (map_id (window data pos n)) at 2.
    apply map_ext. intro b. cbn [vnum]. apply n2b_b2n.
  Qed.

  Lemma des_many_ext (f g : ty -> val -> nat -> dres) : forall ms priors pos,
    Forall (fun m => forall v pos, f m v pos = g m v pos) ms ->
    des_many f ms priors pos = des_many g ms priors pos.
  Proof.
    induction ms as [|m ms IH]; intros priors pos H; [reflexivity|]. inversion H; subst.
    cbn [des_many]. rewrite H2. destruct (g m _ pos) as [[r v] pos']. destruct r; try reflexivity.
    now rewrite IH.
  Qed.

  Lemma des_all_ext (f g : val -> nat -> dres) :
    (forall v pos, f v pos = g v pos) -> forall l pos, des_all f l pos = des_all g l pos.
  Proof.
    intros H. induction l as [|x l IH]; intro pos; [reflexivity|].
    cbn [des_all]. rewrite H. destruct (g x pos) as [[r v] pos']. destruct r; try reflexivity.
    now rewrite IH.
  Qed.

  Lemma des_assoc_ext (f g : val -> nat -> dres) ins d :
    (forall v pos, f v pos = g v pos) ->
    forall n acc pos, des_assoc f ins d n acc pos = des_assoc g ins d n acc pos.
  Proof.
    intros H. induction n as [|n IH]; intros acc pos; [reflexivity|].
    cbn [des_assoc]. rewrite H. destruct (g d pos) as [[r v] pos']. destruct r; auto.
  Qed.

  Lemma kdes_elems_agrees c data bytes (f g : val -> nat -> dres) t l pos :
    (forall v pos, f v pos = g v pos) ->
    kdes_elems junk c data bytes f t l pos = des_elems c data bytes g t l pos.
  Proof.
    intro H. unfold kdes_elems, des_elems. f_equal. destruct bytes; [apply kdes_bytes_agrees|].
    now apply des_all_ext.
  Qed.

  Lemma des_inplace_ext dc (f g : val -> nat -> dres) wrap cur d prior pos :
    (forall v pos, f v pos = g v pos) ->
    des_inplace dc f wrap cur d prior pos = des_inplace dc g wrap cur d prior pos.
  Proof. intro H. unfold des_inplace. now rewrite !H. Qed.

  Lemma des_ptr_ext (f g : val -> nat -> dres) d prior pos :
    (forall v pos, f v pos = g v pos) -> des_ptr f d prior pos = des_ptr g d prior pos.
  Proof. intro H. unfold des_ptr. now rewrite H. Qed.

  Lemma kdes_ty_agrees G c data rec rec' :
    szok c = true -> (forall k v pos, rec k v pos = rec' k v pos) ->
    forall t, wf G t = true -> tall id_sized t = true ->
    forall prior pos, kdes_ty sx junk G c data rec t prior pos = des_ty G c data rec' t prior pos.
  Proof.
    intros Hsz Hrec.
    induction t as [w isb| |w sg zz| |si ms IH|k|n t IH|ts IH|s cg t IH|s k t IH|dc t IH|t IH|t IH|ik meta alts IH|n|k|s t IH]
      using ty_ind'; intros Hwf Hid prior pos; cbn [kdes_ty des_ty]; try reflexivity.
    - cbn [wf] in Hwf. rewrite kdes_scalar_agrees by lia. reflexivity.
    - rewrite kdes_scalar_agrees by lia. reflexivity.
    - cbn [wf] in Hwf. rewrite kdes_varint_agrees by (now apply wfw_pos). reflexivity.
    - cbn [wf] in Hwf. rewrite !andb_true_iff in Hwf. destruct Hwf as [[_ Hwf] _].
      cbn [tall id_sized andb] in Hid.
      destruct (negb (s_expl si) && is_empty (TStruct si ms)); [reflexivity|].
      rewrite kdes_bytes_agrees. cbn [length].
      destruct (as_bytes c (TStruct si ms)); [reflexivity|]. f_equal. apply des_many_ext.
      rewrite forallb_forall in Hwf, Hid. rewrite Forall_forall in *. auto.
    - apply Hrec.
    - cbn [wf] in Hwf. apply andb_true_iff in Hwf as [_ Hwf]. cbn [tall id_sized andb] in Hid.
      apply kdes_elems_agrees. auto.
    - cbn [wf] in Hwf. cbn [tall id_sized andb] in Hid. f_equal. apply des_many_ext.
      rewrite forallb_forall in Hwf, Hid. rewrite Forall_forall in *. auto.
    - cbn [wf] in Hwf. apply andb_true_iff in Hwf as [Hs Hwf]. cbn [tall id_sized andb] in Hid.
      pose proof (sz_of_wf c s Hsz Hs) as Hz. specialize (IH Hwf Hid).
      destruct (sz_of c s) as [|w|w]; [now apply kdes_elems_agrees| |];
        (rewrite kdes_size_agrees by exact Hz;
         destruct (des_size c data _ pos) as [[r m] pos']; destruct r; try reflexivity;
         destruct (vec_resize G c t m (as_seq prior)) as [r l]; destruct r; try reflexivity;
         now apply kdes_elems_agrees).
    - cbn [wf] in Hwf. apply andb_true_iff in Hwf as [Hs Hwf]. cbn [tall id_sized andb] in Hid.
      pose proof (sz_of_wf c s Hsz Hs) as Hz. specialize (IH Hwf Hid).
      destruct (sz_of c s) as [|w|w];
        rewrite ?kdes_size_agrees by exact Hz;
        [|destruct (des_size c data _ pos) as [[r m] pos']; destruct r; try reflexivity ..];
        f_equal; now apply des_assoc_ext.
    - cbn [wf] in Hwf. cbn [tall id_sized andb] in Hid. unfold kdes_flag, des_flag.
      rewrite kdes_scalar_agrees by lia. destruct (des_scalar c data 1 0 pos) as [[r m] pos'].
      destruct r; try reflexivity. destruct m; try reflexivity. apply des_inplace_ext; auto.
    - cbn [wf] in Hwf. cbn [tall id_sized andb] in Hid. unfold kdes_flag, des_flag.
      rewrite kdes_scalar_agrees by lia. destruct (des_scalar c data 1 0 pos) as [[r m] pos'].
      destruct r; try reflexivity. destruct m; try reflexivity. apply des_ptr_ext; auto.
    - cbn [wf] in Hwf. cbn [tall id_sized andb] in Hid. apply des_ptr_ext; auto.
    - cbn [wf] in Hwf. rewrite !andb_true_iff in Hwf. destruct Hwf as [_ Hwf].
      cbn [tall id_sized] in Hid. apply andb_true_iff in Hid as [Hi Hid].
      rewrite kdes_id_agrees by exact Hi.
      destruct (des_id c data ik pos) as [[r id] pos']. destruct r; try reflexivity.
      destruct (find_id meta id) as [i|]; [|reflexivity].
      cbv zeta. generalize (match nth_error meta i with Some (_, b) => b | None => true end) as dc.
      intro dc. generalize (VAlt i) as wrap, (active i prior) as cur. intros wrap cur.
      rewrite forallb_forall in Hwf, Hid. rewrite Forall_forall in IH.
      assert (Q : forall t', In t' alts ->
        forall v p, kdes_ty sx junk G c data rec t' v p = des_ty G c data rec' t' v p) by auto.
      clear - Q. revert i. induction alts as [|t' alts IHa]; intros [|j]; try reflexivity.
      + apply des_inplace_ext. apply Q. now left.
      + apply IHa. intros. apply Q. now right.
    - destruct k as [s|nv|]; try reflexivity. cbn [wf] in Hwf.
      now rewrite kdes_size_agrees by (now apply sz_of_wf).
    - cbn [wf] in Hwf. apply andb_true_iff in Hwf as [Hs Hwf]. cbn [tall id_sized andb] in Hid.
      pose proof (sz_of_wf c s Hsz Hs) as Hz. specialize (IH Hwf Hid).
      destruct (sz_of c s) as [|w|w]; [now apply kdes_elems_agrees| |];
        (rewrite kdes_size_agrees by exact Hz;
         destruct (des_size c data _ pos) as [[r m] pos']; destruct r; try reflexivity;
         destruct (_ <? _); try reflexivity; now apply kdes_elems_agrees).
  Qed.

  Lemma kdes_rec_agrees G c data :
    szok c = true -> wf_env G -> tall_env id_sized G ->
    forall fuel k prior pos, kdes_rec sx junk G c data fuel k prior pos = des_rec G c data fuel k prior pos.
  Proof.
    intros Hsz HG HI. induction fuel as [|fuel IH]; intros k prior pos; [reflexivity|].
    cbn [kdes_rec des_rec]. f_equal. apply des_many_ext.
    destruct (HG k) as [Hk _]. specialize (HI k). rewrite forallb_forall in Hk, HI.
    apply Forall_forall. intros m Hm v p. apply kdes_ty_agrees; auto.
  Qed.

  (** in::operator(): any data, any objects read into, any position. *)
  Theorem const_in_call G c data fuel ts priors pos :
    szok c = true -> wf_env G -> tall_env id_sized G ->
    forallb (wf G) ts = true -> forallb (tall id_sized) ts = true ->
    kin_call sx junk G c data fuel ts priors pos = in_call G c data fuel ts priors pos.
  Proof.
    intros Hsz HG HI Hw Hid. unfold kin_call, in_call, des. apply des_many_ext.
    rewrite forallb_forall in Hw, Hid. apply Forall_forall. intros m Hm v p.
    apply kdes_ty_agrees; auto. intros. now apply kdes_rec_agrees.
  Qed.

  (** ** Protocol buffers: reading *)

  Lemma kdes_protocol_agrees c data s body body' prior pos :
    wfsz (Some s) = true -> (forall n v p, body n v p = body' n v p) ->
    kdes_protocol sx junk c data s body prior pos = des_protocol c data s body' prior pos.
  Proof.
    intros Hs H. unfold kdes_protocol, des_protocol. destruct s as [|w|w]; [apply H| |];
      (rewrite kdes_size_agrees by exact Hs; destruct (des_size c data _ pos) as [[r n] pos'];
       destruct r; try reflexivity; apply H).
  Qed.

  Lemma des_nested_ext data (f g : list byte -> list val -> res * list val * nat) size prior pos :
    (forall d l, f d l = g d l) -> des_nested data f size prior pos = des_nested data g size prior pos.
  Proof. intro H. unfold des_nested. destruct (rest_of data pos); [|reflexivity]. now rewrite H. Qed.

  Lemma kfield_loop_agrees data nums (f g : nat -> N -> val -> nat -> dres) :
    (forall i wt v pos, f i wt v pos = g i wt v pos) ->
    forall n vals pos, kfield_loop sx data nums f n vals pos = field_loop data nums g n vals pos.
  Proof.
    intro H. induction n as [|n IH]; intros vals pos; cbn [kfield_loop field_loop]; [reflexivity|].
    destruct (pos <? length data)%nat; [|reflexivity].
    rewrite kdes_varint_agrees by lia.
    destruct (des_varint 4 false 0 data pos) as [[r tag] pos1]. destruct r; try reflexivity.
    cbv zeta. destruct (index_of nums (N.shiftr tag 3)) as [i|].
    - destruct (nth_error vals i) as [prior|]; [|reflexivity]. rewrite H.
      destruct (g i (N.land tag 7) prior pos1) as [[r v] pos2]. destruct r; try reflexivity. apply IH.
    - destruct (N.shiftr tag 3 =? 0); [reflexivity|apply IH].
  Qed.

  Lemma packed_loop_ext (f g : nat -> res * N * nat) ins stop :
    (forall pos, f pos = g pos) ->
    forall n acc pos, packed_loop f ins stop n acc pos = packed_loop g ins stop n acc pos.
  Proof.
    intro H. induction n as [|n IH]; intros acc pos; cbn [packed_loop]; [reflexivity|].
    destruct (_ <? _); [|reflexivity]. rewrite H. destruct (g pos) as [[r x] pos'].
    destruct r; auto.
  Qed.

  Lemma kdes_scalars_agrees c data ck w resize fetch fetch' wt prior pos :
    szok c = true -> wfw w = true -> (forall pos, fetch pos = fetch' pos) ->
    kdes_scalars sx junk c data ck w resize fetch wt prior pos
    = des_scalars c data ck w resize fetch' wt prior pos.
  Proof.
    intros Hsz Hw H. unfold kdes_scalars, des_scalars. rewrite H.
    destruct (negb (wt =? 2)); [reflexivity|]. rewrite kdes_varint_agrees by lia.
    destruct (des_varint 8 false 0 data pos) as [[r len] pos']. destruct r; try reflexivity.
    destruct resize.
    - cbv zeta. destruct (match alim c with Some lim => lim <? len | None => false end); [reflexivity|].
      destruct (_ || _); [|reflexivity]. destruct (wf_unsized ck w Hw). apply kdes_ty_agrees; auto.
    - destruct (reserve_ok c ck len (as_seq prior)); [|reflexivity]. now apply packed_loop_ext.
  Qed.

  Lemma kdes_field_agrees P c rec rec' :
    szok c = true -> (forall k d l, rec k d l = rec' k d l) ->
    forall t, wfp t = true -> forall data wt prior pos,
    kdes_field sx junk P c rec t data wt prior pos = des_field P c rec' t data wt prior pos.
  Proof.
    intros Hsz Hrec. assert (Hd : wfsz (Some (dsize c)) = true) by exact Hsz.
    induction t as [w| | |w sg zz| |k|ck w|ck w sg zz|ck cg w|ck k|ak kt IHk vt IHv|n w];
      intros Hw data wt prior pos; cbn [kdes_field des_field]; cbn [wfp] in Hw; try reflexivity.
    - rewrite kdes_scalar_agrees by lia. reflexivity.
    - rewrite kdes_scalar_agrees by lia. reflexivity.
    - rewrite kdes_varint_agrees by lia. reflexivity.
    - rewrite kdes_varint_agrees by (now apply wfw_pos). reflexivity.
    - apply kdes_protocol_agrees; [exact Hd|]. intros. now apply des_nested_ext.
    - apply kdes_scalars_agrees; auto. intro. apply kdes_scalar_agrees. now apply wfw_pos.
    - apply kdes_scalars_agrees; auto. intro. apply kdes_varint_agrees. now apply wfw_pos.
    - rewrite (kdes_ty_agrees no_types c data _ (fun _ p pos => (RUB, p, pos)) Hsz); auto.
      cbn [wf wfsz]. now apply wf_scalar_ty.
    - rewrite (kdes_protocol_agrees c data (dsize c) _ (des_nested data (rec' k))); auto.
      intros. now apply des_nested_ext.
    - apply andb_true_iff in Hw as [Hk Hv]. specialize (IHk Hk). specialize (IHv Hv).
      erewrite kdes_protocol_agrees; [reflexivity|exact Hd|].
      intros. apply des_nested_ext. intros. apply kfield_loop_agrees. intros [|i] wt' v' p'; auto.
    - apply andb_true_iff in Hw as [H0 Hw]. apply kdes_ty_agrees; auto.
      cbn [wf]. rewrite H0. now apply wf_scalar_ty.
  Qed.

  Lemma kdes_fields_agrees P c :
    szok c = true -> (forall k, forallb (fun fd => wfp (snd fd)) (m_fields (P k)) = true) ->
    forall fuel k data vals, kdes_fields sx junk P c fuel k data vals = des_fields P c fuel k data vals.
  Proof.
    intros Hsz HP. induction fuel as [|fuel IH]; intros k data vals; [reflexivity|].
    cbn [kdes_fields des_fields]. apply kfield_loop_agrees. intros i wt v pos.
    destruct (nth_error (m_fields (P k)) i) as [fd|] eqn:E; [|reflexivity].
    apply kdes_field_agrees; auto. specialize (HP k). rewrite forallb_forall in HP. apply HP.
    now apply nth_error_In in E.
  Qed.

  (** A message read by an archive: any data, any object, any position. *)
  Theorem const_pb_in P c data fuel s k prior pos :
    wfsz (Some s) = true -> wf_penv P ->
    kdes_pb_item sx junk P c data fuel s k prior pos = des_pb_item P c data fuel s k prior pos.
  Proof.
    intros Hs HP. unfold kdes_pb_item, des_pb_item. apply kdes_protocol_agrees; [exact Hs|].
    intros. apply des_nested_ext. intros. apply kdes_fields_agrees; [reflexivity|].
    intro k'. specialize (HP k'). unfold wf_pmsg in HP. rewrite !andb_true_iff in HP. tauto.
  Qed.
End Reading.

(** ** Protocol buffers: writing *)

Lemma kpatch_size_agrees c s at_ n st :
  wfsz (Some s) = true -> kpatch_size c s at_ n st = patch_size c s at_ n st.
Proof.
  destruct s as [|w|w]; cbn [wfsz kpatch_size]; intro H; try reflexivity.
  apply wfw_pos in H. rewrite const_store_scalar_agrees.
  - cbn [swap]. unfold store, patch_size. cbn [obuf opos].
    destruct (_ <=? _)%nat; reflexivity.
  - intro E. pose proof (hostrep_length c w (trunc w n)) as L. rewrite E in L. cbn in L. lia.
Qed.

Lemma kshift_message_agrees c start n st :
  kshift_message c start n (varint_size n - 1) st = shift_message c start n (varint_size n - 1) st.
Proof.
  unfold kshift_message, shift_message. destruct (N.eqb_spec (varint_size n - 1) 0) as [E|E]; [reflexivity|].
  apply seq_ext; [reflexivity|]. intro st'. rewrite const_shift; [reflexivity| |lia].
  destruct n; [exfalso; apply E; reflexivity|lia].
Qed.

Lemma kser_protocol_agrees c s body body' :
  wfsz (Some s) = true -> (forall st, body st = body' st) ->
  forall st, kser_protocol c s body st = ser_protocol c s body' st.
Proof.
  intros Hs H st. destruct s as [|w|w]; cbn [kser_protocol ser_protocol]; [apply H| |]; cbv zeta;
    (apply seq_ext; [intro; now apply kser_size_agrees|]);
    intro; (apply seq_ext; [exact H|]); intro st'.
  - now apply kpatch_size_agrees.
  - apply seq_ext; [intro; apply kshift_message_agrees|]. intro. now apply kpatch_size_agrees.
Qed.

Lemma ser_members_ext (f g : nat -> pfield -> val -> act) : forall l fs idx,
  (forall i fd x, In (x, fd) (combine l fs) -> forall st, f i fd x st = g i fd x st) ->
  forall st, ser_members f idx l fs st = ser_members g idx l fs st.
Proof.
  induction l as [|x l IH]; intros [|fd fs] idx H st; try reflexivity.
  cbn [ser_members]. apply seq_ext; [intro; apply H; now left|].
  intro. apply IH. intros i fd' y Hin. apply H. now right.
Qed.

Lemma ser_each_ext (f g : val -> act) : forall l,
  (forall x, In x l -> forall st, f x st = g x st) ->
  forall st, ser_each f l st = ser_each g l st.
Proof.
  induction l as [|x l IH]; intros H st; [reflexivity|].
  cbn [ser_each]. apply seq_ext; [intro; apply H; now left|].
  intro. apply IH. intros y Hy. apply H. now right.
Qed.

Lemma no_types_wf : wf_env no_types.
Proof. intro k. split; reflexivity. Qed.

Lemma numok_wt w l : forallb (numok w) l = true -> forallb (fun x => wt no_types x (scalar_ty w)) l = true.
Proof.
  intro H. rewrite forallb_forall in *. intros x Hx. specialize (H x Hx). now destruct x.
Qed.

Section PbWriting.
  Variables (P : penv) (c : cfg).
  Hypotheses (Hsz : szok c = true)
    (HP : forall k, forallb (fun fd => wfp (snd fd)) (m_fields (P k)) = true).

  Lemma kser_plain v t st :
    wt no_types v t = true -> wf no_types t = true -> tall id_sized t = true ->
    kser no_types c v t st = ser no_types c v t st.
  Proof. intros. apply kser_agrees; auto; [apply no_types_wf|]. intro k. reflexivity. Qed.

  Definition pb_same (v : val) : Prop :=
    forall tg etg t, pwt P v t = true -> wfp t = true ->
    forall st, kser_pb P c tg etg v t st = ser_pb P c tg etg v t st.

  Lemma kser_fields k l st idx :
    Forall pb_same l -> forall2b (fun x fd => pwt P x (snd fd)) l (m_fields (P k)) = true ->
    ser_members
      (fun idx fd x =>
         kser_pb P c (ser_tag c (m_map (P k)) (fst fd) idx) (ser_tag c (m_map (P k)) None idx) x (snd fd))
      idx l (m_fields (P k)) st
    = ser_members
      (fun idx fd x =>
         ser_pb P c (ser_tag c (m_map (P k)) (fst fd) idx) (ser_tag c (m_map (P k)) None idx) x (snd fd))
      idx l (m_fields (P k)) st.
  Proof.
    intros Hl Hw. apply ser_members_ext. intros i fd x Hin st'.
    rewrite Forall_forall in Hl. apply Hl.
    - eapply in_combine_l; eauto.
    - exact (forall2b_in _ _ _ _ _ Hw Hin).
    - apply in_combine_r in Hin. specialize (HP k). rewrite forallb_forall in HP. now apply HP.
  Qed.

  Lemma kser_pb_same v : pb_same v /\ (forall m, v = VSeq m -> Forall pb_same m).
  Proof.
    assert (Hd : wfsz (Some (dsize c)) = true) by exact Hsz.
    induction v as [n|l IH| |v IH|i v IH| |l|l] using val_ind'; (split; [|intros m E; try discriminate E]);
      try (intros tg etg t Hwt Hf st;
        destruct t as [w| | |w sg zz| |k|ck w|ck w sg zz|ck cg w|ck k|ak kt vt|n' w];
        cbn [pwt] in Hwt; try discriminate; cbn [kser_pb ser_pb]; cbn [wfp] in Hf; try reflexivity).
    - apply seq_ext; [reflexivity|]. intro. apply const_scalar_output. lia.
    - apply seq_ext; [reflexivity|]. intro. apply const_scalar_output. lia.
    - apply seq_ext; [reflexivity|]. intro. apply const_scalar_output. lia.
    - (* message *)
      apply seq_ext; [reflexivity|]. apply kser_protocol_agrees; [exact Hd|]. intro.
      apply kser_fields; [|exact Hwt]. eapply Forall_impl; [|exact IH]. cbn. tauto.
    - (* fixed width *)
      apply andb_true_iff in Hwt as [Hn Hc]. destruct l as [|x l]; [reflexivity|].
      apply seq_ext; [reflexivity|]. apply seq_ext; [reflexivity|]. intro. 
      destruct (wf_unsized ck w Hf). apply kser_plain; auto.
      apply numok_wt in Hn. destruct ck; cbn [unsized_ty wt]; rewrite Hn; auto.
    - (* strings *)
      apply andb_true_iff in Hwt as [Hn _]. apply ser_each_ext. intros x Hx. apply seq_ext; [reflexivity|].
      intro. rewrite forallb_forall in Hn. specialize (Hn x Hx). destruct x; try discriminate.
      apply kser_plain; [cbn [wt]; now apply numok_wt|cbn [wf wfsz]; now apply wf_scalar_ty|reflexivity].
    - (* messages *)
      apply andb_true_iff in Hwt as [Hn _]. apply ser_each_ext. intros x Hx. apply seq_ext; [reflexivity|].
      intro. rewrite forallb_forall in Hn. specialize (Hn x Hx). destruct x as [|m| | | | | |]; try discriminate.
      rewrite Forall_forall in IH. destruct (IH _ Hx) as [_ Hm].
      apply kser_protocol_agrees; [exact Hd|]. intro. apply kser_fields; [now apply Hm|exact Hn].
    - (* map *)
      apply andb_true_iff in Hwt as [Hn _]. apply andb_true_iff in Hf as [Hk Hv].
      apply ser_each_ext. intros x Hx. apply seq_ext; [reflexivity|].
      intro. rewrite forallb_forall in Hn. specialize (Hn x Hx).
      destruct x as [|m| | | | | |]; try discriminate.
      rewrite Forall_forall in IH. destruct (IH _ Hx) as [_ Hm]. specialize (Hm m eq_refl).
      destruct m as [|a [|b [|]]]; try discriminate. apply andb_true_iff in Hn as [Ha Hb].
      inversion Hm as [|? ? Qa Hm']; subst. inversion Hm' as [|? ? Qb _]; subst.
      apply kser_protocol_agrees; [exact Hd|]. apply seq_ext; intro; [apply Qa|apply Qb]; auto.
    - (* array *)
      apply andb_true_iff in Hwt as [Hn Hwt]. apply andb_true_iff in Hf as [H0 Hf].
      apply seq_ext; [reflexivity|]. intro. apply kser_plain; [|cbn [wf]; rewrite H0; now apply wf_scalar_ty|reflexivity].
      cbn [wt]. rewrite Hn. now apply numok_wt.
    - injection E as <-. eapply Forall_impl; [|exact IH]. cbn. tauto.
  Qed.
End PbWriting.

Theorem const_pb_out P c s k l st :
  wfsz (Some s) = true -> szok c = true -> wf_penv P -> pwt P (VSeq l) (PMsg k) = true ->
  kser_pb_item P c s k l st = ser_pb_item P c s k l st.
Proof.
  intros Hs Hsz HP Hw. unfold kser_pb_item, ser_pb_item. apply kser_protocol_agrees; [exact Hs|].
  intro st'. unfold pb_out, pb_nested.
  assert (E : forall st, kser_message P (pb_ocfg c) k l st = ser_message P (pb_ocfg c) k l st).
  { intro. unfold kser_message, ser_message. apply kser_fields.
    - intro k'. specialize (HP k'). unfold wf_pmsg in HP. rewrite !andb_true_iff in HP. tauto.
    - apply (kser_pb_same P (pb_ocfg c)) with (v := VSeq l); [| |reflexivity].
      + unfold pb_ocfg, szok in *. destruct (pb_direct c); [exact Hsz|reflexivity].
      + intro k'. specialize (HP k'). unfold wf_pmsg in HP. rewrite !andb_true_iff in HP. tauto.
    - exact Hw. }
  now rewrite E.
Qed.

(** ** Concrete cases *)

Definition call_junk (w : nat) : list byte := repeat xee w.

Lemma call_demo_ok :
  szok vec_cfg = true /\ wf_env node_env /\ tall_env id_sized node_env /\
  forall2b (wt node_env) [demo_val; demo_bits] [demo_ty; TBitset 11] = true /\
  forallb (wf node_env) [demo_ty; TBitset 11] = true /\
  forallb (tall id_sized) [demo_ty; TBitset 11] = true /\
  (forall w, length (call_junk w) = w).
Proof.
  split; [reflexivity|]. split; [intros [|k]; split; reflexivity|]. split; [intros [|k]; reflexivity|].
  split; [reflexivity|]. split; [reflexivity|]. split; [reflexivity|].
  intro w. apply repeat_length.
Qed.

(** Written in constant evaluation, with an optional zig-zag varint, a map, a list of nodes and a bitset; read
    back at run time, and the other way round with signed bytes. *)
Definition call_data : list byte :=
  Eval vm_compute in
  obuf (snd (kout_call node_env vec_cfg [demo_val; demo_bits] [demo_ty; TBitset 11] (mkO [] O))).

Example const_call_nontrivial :
  length call_data = 40%nat /\
  kout_call node_env vec_cfg [demo_val; demo_bits] [demo_ty; TBitset 11] (mkO [] O)
    = (ROk, mkO call_data 40) /\
  in_call node_env vec_cfg call_data 9 [demo_ty; TBitset 11] [demo_default; VBits []] O
    = (ROk, [demo_val; demo_bits], 40%nat) /\
  kin_call true call_junk node_env vec_cfg call_data 9 [demo_ty; TBitset 11] [demo_default; VBits []] O
    = (ROk, [demo_val; demo_bits], 40%nat).
Proof. repeat split; vm_compute; reflexivity. Qed.

(** A signed byte with its highest bit set converts to a large number, and is decoded all the same. *)
Example const_varint_nontrivial :
  kbyte true 4 xac = 2 ^ 32 - 84 /\ kbyte false 4 xac = 172 /\
  kdes_varint true 4 false 0 [xac; x02] O = (ROk, 300, 2%nat) /\
  kdes_varint true 8 false 0 [xff; xff; xff; xff; xff; xff; xff; xff; xff; x01; x00] O
    = (ROk, 2 ^ 64 - 1, 10%nat).
Proof. vm_compute. repeat split. Qed.

(** A message whose size takes two bytes, so that it is moved. *)
Definition long_text : list val :=
  [pb_text (repeat 65 200); VN 7; VSeq [VSeq [pb_text [49; 50]; VN 1]]; VSeq []; VSeq []; VSeq []; VN 1;
   VSeq [pb_text [51]; VN 2]; VSeq []; VSeq []; VN 0x01020304].

Definition text_data : list byte :=
  Eval vm_compute in
  let st := snd (kser_pb_item pb_demo vec_cfg (SzVar 8) O long_text (mkO [] O)) in firstn (opos st) (obuf st).

Example const_pb_nontrivial :
  pwt pb_demo (VSeq long_text) (PMsg O) = true /\ length text_data = 229%nat /\
  fst (ser_pb_item pb_demo vec_cfg (SzVar 8) O long_text (mkO [] O)) = ROk /\
  kser_pb_item pb_demo vec_cfg (SzVar 8) O long_text (mkO [] O)
    = ser_pb_item pb_demo vec_cfg (SzVar 8) O long_text (mkO [] O) /\
  kdes_pb_item true call_junk pb_demo vec_cfg text_data 9 (SzVar 8) O (VSeq (m_dflt (pb_demo O))) O
    = (ROk, VSeq long_text, 229%nat).
Proof. repeat split; vm_compute; reflexivity. Qed.
