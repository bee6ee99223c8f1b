(** Platforms with another width of std::size_t (Model/Narrow.v) compared with 64 bits. *)

From Coq Require Import List NArith ZArith Lia Bool Arith.
From Coq Require Import ZifyBool ZifyNat ZifyN.
From Verif Require Import Base.Bytes Model.Types Model.Machine Model.Varint Model.Out Model.In Model.Narrow
  Spec.Leb128 Spec.Wire Proofs.VarintP Proofs.OutP Proofs.Script Proofs.InBase Proofs.InAlloc Thm.Growth.
Import ListNotations.
Local Open Scope N_scope.

(** No request of half the address space or more is granted. *)
Definition platform (W : N) (c : cfg) : Prop :=
  16 <= W <= 64 /\ forall n, 2 ^ (W - 1) <= n -> alloc_ok c n = false.

(** ** Input *)

(** The size type is at most as wide as std::size_t. *)
Definition szfits (W : N) (s : sizety) : bool :=
  match s with
  | SzNone => true
  | SzFix w => 8 * N.of_nat w <=? W
  | SzVar w => wfw w && (8 * N.of_nat w <=? W)
  end.

(** Or there is an allocation limit, which is a std::size_t, and it is checked. *)
Definition nfits (W : N) (c : cfg) (t : ty) : bool :=
  match t with
  | TVec s _ _ => szfits W (sz_of c s) || match alim c with Some l => l <? 2 ^ W | None => false end
  | TAssoc s _ _ => szfits W (sz_of c s)
  | _ => true
  end.

Lemma size_fits W c data s pos n q :
  szfits W s = true -> des_size c data s pos = (ROk, n, q) -> n < 2 ^ W.
Proof.
  intros Hf E. destruct s as [|w|w]; cbn [des_size szfits] in *.
  - injection E as <- _. pose proof (N.pow_nonzero 2 W). lia.
  - unfold des_scalar in E. destruct (_ <? _); [discriminate|]. unfold load in E.
    destruct (Nat.leb_spec (pos + w) (length data)); [|discriminate]. injection E as <- _.
    apply N.leb_le in Hf. eapply N.lt_le_trans; [apply scalar_val_lt|].
    rewrite window_length by lia. rewrite pow256_2. apply N.pow_le_mono_r; [lia|]. unfold bits. lia.
  - apply andb_true_iff in Hf as [Hw Hf]. apply N.leb_le in Hf.
    unfold des_varint in E. destruct (rest_of data pos) as [rest|] eqn:Er; [|discriminate].
    assert (Hp : (pos <= length data)%nat).
    { unfold rest_of in Er. destruct (Nat.leb_spec pos (length data)); [assumption|discriminate]. }
    assert (E' : des_varint w false 0 data pos = (ROk, n, q)) by (unfold des_varint; now rewrite Er).
    rewrite des_varint_eq in E' by assumption. destruct (leb_value _) as [[v k]|]; [|discriminate].
    injection E' as <- _. eapply N.lt_le_trans.
    + apply N.mod_lt. pose proof (pow256_pos w). lia.
    + rewrite pow256_2. apply N.pow_le_mono_r; [lia|]. unfold bits. lia.
Qed.

Lemma nvec_resize_small W G c t n l : n < 2 ^ W -> nvec_resize W G c t n l = vec_resize G c t n l.
Proof. intro H. unfold nvec_resize, vec_resize. now rewrite N.mod_small. Qed.

Lemma nvec_resize_limit W G c t n l L :
  alim c = Some L -> L < 2 ^ W -> nvec_resize W G c t n l = vec_resize G c t n l.
Proof.
  intros HL H. unfold nvec_resize, vec_resize. destruct (over_limit c t n) eqn:E; [reflexivity|].
  rewrite N.mod_small; [reflexivity|]. unfold over_limit in E. rewrite HL in E. apply N.ltb_ge in E.
  destruct (N.eq_dec (csizeof c t) 0) as [Ez|Hz].
  - rewrite Ez in E. destruct L; cbn in E; lia.
  - pose proof (N.div_le_upper_bound L (csizeof c t) L Hz ltac:(nia)). lia.
Qed.

Section In.
  Variables (W : N) (G : tenv) (c : cfg) (data : list byte).
  Variables rec rec' : nat -> val -> nat -> dres.
  Hypothesis Hrec : forall k x p, rec' k x p = rec k x p.

  Lemma elems_ext b (f g : val -> nat -> dres) t l pos : (forall x p, f x p = g x p) ->
    des_elems c data b f t l pos = des_elems c data b g t l pos.
  Proof. intro H. unfold des_elems. destruct b; [reflexivity|]. f_equal. now apply des_all_ext. Qed.

  Lemma nvariant_eq ik meta alts prior pos :
    ndes_ty W G c data rec' (TVariant ik meta alts) prior pos =
    match des_id c data ik pos with
    | (ROk, id, pos') =>
        match find_id meta id with
        | None => (RErr bad_message, prior, pos')
        | Some i =>
            match nth_error alts i with
            | Some t' =>
                des_inplace (match nth_error meta i with Some (_, b) => b | None => true end)
                  (ndes_ty W G c data rec' t') (VAlt i) (active i prior) (dflt G t') prior pos'
            | None => (RUB, prior, pos')
            end
        end
    | (r, _, pos') => (r, prior, pos')
    end.
  Proof.
    cbn [ndes_ty]. destruct (des_id c data ik pos) as [[[] id] pos']; try reflexivity.
    destruct (find_id meta id) as [i|]; [|reflexivity].
    set (dc := match nth_error meta i with Some (_, b) => b | None => true end). clearbody dc.
    generalize (VAlt i) as wrap. generalize (active i prior) as cur. intros cur wrap.
    revert i. induction alts as [|t l IH]; intros [|i]; cbn; auto.
  Qed.

  Lemma ndes_ty_same t : tall (nfits W c) t = true ->
    forall x p, ndes_ty W G c data rec' t x p = des_ty G c data rec t x p.
  Proof.
    induction t using ty_ind'; intros Hf x p; try reflexivity;
      cbn [tall] in Hf; apply andb_true_iff in Hf as [Hf Hsub].
    - cbn [ndes_ty des_ty]. destruct (_ && _); [reflexivity|]. destruct (as_bytes _ _); [reflexivity|].
      f_equal. apply des_many_ext. rewrite Forall_forall in H |- *. rewrite forallb_forall in Hsub. auto.
    - cbn [ndes_ty des_ty]. apply Hrec.
    - cbn [ndes_ty des_ty]. apply elems_ext. auto.
    - cbn [ndes_ty des_ty]. f_equal. apply des_many_ext. rewrite Forall_forall in H |- *.
      rewrite forallb_forall in Hsub. auto.
    - cbn [ndes_ty des_ty nfits] in *.
      assert (HR : forall n q l, des_size c data (sz_of c s) p = (ROk, n, q) ->
                nvec_resize W G c t n l = vec_resize G c t n l).
      { intros n q l E. apply orb_true_iff in Hf as [Hf|Hf].
        - apply nvec_resize_small. eapply size_fits; eauto.
        - destruct (alim c) as [L|] eqn:EL; [|discriminate]. apply N.ltb_lt in Hf.
          eapply nvec_resize_limit; eauto. }
      destruct (sz_of c s) as [|w|w]; [apply elems_ext; auto|..];
      (destruct (des_size c data _ p) as [[[] n] q]; try reflexivity;
       rewrite (HR n q _ eq_refl); destruct (vec_resize G c t n (as_seq x)) as [[] l]; try reflexivity;
       apply elems_ext; auto).
    - cbn [ndes_ty des_ty].
      destruct (sz_of c s) as [|w|w]; [f_equal; apply des_assoc_ext; auto|..];
      (destruct (des_size c data _ p) as [[[] n] q]; try reflexivity;
       f_equal; apply des_assoc_ext; auto).
    - cbn [ndes_ty des_ty]. destruct (des_flag c data p) as [[[] n] q]; try reflexivity.
      destruct n; [reflexivity|]. unfold des_inplace. now rewrite !IHt.
    - cbn [ndes_ty des_ty]. destruct (des_flag c data p) as [[[] n] q]; try reflexivity.
      destruct n; [reflexivity|]. unfold des_ptr. now rewrite !IHt.
    - cbn [ndes_ty des_ty]. unfold des_ptr. now rewrite !IHt.
    - rewrite nvariant_eq, des_variant_eq. destruct (des_id c data ik p) as [[[] n] q]; try reflexivity.
      destruct (find_id meta n) as [i|]; [|reflexivity].
      destruct (nth_error alts i) as [t'|] eqn:Ea; [|reflexivity]. apply nth_error_In in Ea.
      rewrite Forall_forall in H. rewrite forallb_forall in Hsub. specialize (H t' Ea (Hsub t' Ea)).
      unfold des_inplace. now rewrite !H.
    - cbn [ndes_ty des_ty].
      destruct (sz_of c s) as [|w|w]; [apply elems_ext; auto|..];
      (destruct (des_size c data _ p) as [[[] n] q]; try reflexivity;
       destruct (_ <? _); [reflexivity|]; apply elems_ext; auto).
  Qed.
End In.

Lemma ndes_rec_same W G c data : tall_env (nfits W c) G ->
  forall fuel k x p, ndes_rec W G c data fuel k x p = des_rec G c data fuel k x p.
Proof.
  intros HG fuel. induction fuel as [|f IH]; intros k x p; cbn [ndes_rec des_rec]; [reflexivity|].
  f_equal. apply des_many_ext. rewrite Forall_forall. intros m Hm y q.
  apply ndes_ty_same; [exact IH|]. specialize (HG k). rewrite forallb_forall in HG. auto.
Qed.

(** ** Output *)

(** A buffer as there is on such a platform, with the position inside. *)
Definition nok (W : N) (st : ost) : Prop :=
  (opos st <= length (obuf st))%nat /\ N.of_nat (length (obuf st)) < 2 ^ (W - 1).

(** The same, or the growth is refused by the check for overflow where with 64 bits the allocator
    refuses it. *)
Definition alike (x y : res * ost) : Prop :=
  x = y \/ fst x = RErr no_buffer_space /\ fst y = RThrow /\ snd x = snd y.

Lemma half W : 1 <= W -> 2 ^ W = 2 * 2 ^ (W - 1).
Proof. intro H. rewrite <- N.pow_succ_r by lia. f_equal. lia. Qed.

Lemma half64 W : 1 <= W <= 64 -> 2 ^ (W - 1) <= 2 ^ 63.
Proof. intros H. apply N.pow_le_mono_r; lia. Qed.

Lemma nsub_small W a b : a < 2 ^ W -> b <= a -> nsub W a b = a - b.
Proof.
  intros Ha Hb. unfold nsub. rewrite (N.mod_small b) by lia.
  replace (a + (2 ^ W - b)) with (a - b + 1 * 2 ^ W) by lia.
  rewrite N.mod_add by lia. apply N.mod_small. lia.
Qed.

Lemma mul_check B req m : 0 < m <= B ->
  ((req * m) mod B / m =? req) = (req * m <? B).
Proof.
  intros [Hm HB]. destruct (N.ltb_spec (req * m) B) as [H|H].
  - rewrite N.mod_small by lia. rewrite N.div_mul by lia. apply N.eqb_refl.
  - apply N.eqb_neq. intro E.
    pose proof (N.div_mod (req * m) B ltac:(lia)) as D.
    pose proof (N.mod_lt (req * m) B ltac:(lia)) as L.
    assert (1 <= req * m / B) by (apply N.div_le_lower_bound; lia).
    assert ((req * m) mod B <= req * m - B) by nia.
    pose proof (N.mul_div_le ((req * m) mod B) m ltac:(lia)). rewrite E in *. nia.
Qed.

Lemma buf_grow W c n st : platform W c -> nok W st -> N.of_nat (length (obuf st)) <= n ->
  nok W (snd (buf_resize c n st)).
Proof.
  intros [HW Hp] [H1 H2] Hn. unfold buf_resize. destruct (N.leb_spec n (N.of_nat (length (obuf st)))).
  - cbn [snd]. split; cbn [obuf opos]; rewrite firstn_length; lia.
  - destruct (can_alloc c n) eqn:E; [|now split].
    apply andb_true_iff in E as [_ E]. destruct (N.leb_spec (2 ^ (W - 1)) n) as [H0|H0]; [rewrite Hp in E by lia; discriminate|].
    cbn [snd]. split; cbn [obuf opos]; rewrite app_length; unfold zeros; rewrite repeat_length; lia.
Qed.

Section Out.
  Variables (W : N) (c : cfg).
  Hypotheses (HP : platform W c) (Hwf : wf_out c) (Hd2 : growable c = true -> ediv c <= 2 /\ emul c < 2 ^ W).

  Lemma nenlarge_alike add st : growable c = true -> nok W st -> add < 2 ^ (W - 1) ->
    alike (nenlarge W c add st) (enlarge_for c add st) /\ nok W (snd (nenlarge W c add st)).
  Proof.
    intros Hg Hok Ha. pose proof Hok as [H1 H2]. pose proof HP as [HW Hp]. destruct (Hwf Hg) as (Q1 & Q2 & Q3).
    destruct (Hd2 Hg) as [Q4 Q5].
    pose proof (half W ltac:(lia)) as HH. pose proof (half64 W ltac:(lia)) as H6.
    assert (H64 : 2 ^ W <= two64) by (unfold two64; apply N.pow_le_mono_r; lia).
    assert (B1 : nsub W (N.of_nat (length (obuf st))) (N.of_nat (opos st)) = N.of_nat (length (obuf st)) - N.of_nat (opos st))
      by (apply nsub_small; lia).
    assert (B2 : wsub (N.of_nat (length (obuf st))) (N.of_nat (opos st)) = N.of_nat (length (obuf st)) - N.of_nat (opos st))
      by (apply wsub_small; lia).
    unfold nenlarge, enlarge_for. rewrite B1, B2, Q3. cbn [negb andb].
    set (size := N.of_nat (length (obuf st))) in *.
    destruct (_ <? add); [|split; [now left|exact Hok]].
    assert (A1 : nadd W size add = size + add) by (unfold nadd; apply N.mod_small; lia).
    assert (A2 : wadd size add = size + add) by (unfold wadd; apply N.mod_small; lia).
    rewrite A1, A2. set (req := size + add) in *.
    destruct (N.ltb_spec req size); [lia|]. rewrite andb_true_r.
    assert (D1 : forall x, x * ediv c <= req * emul c -> True) by auto. clear D1.
    assert (Hnew : forall scaled, req * emul c = scaled -> req <= (if ediv c =? 1 then scaled else scaled / ediv c)).
    { intros scaled <-. destruct (N.eqb_spec (ediv c) 1) as [E|E].
      - nia.
      - apply N.div_le_lower_bound; [lia|]. nia. }
    destruct (N.eqb_spec (emul c) 1) as [Em|Em]; cbn [negb andb].
    - destruct (within_limit c _); cbn [negb]; [|split; [now left|exact Hok]].
      split; [now left|]. apply buf_grow; auto. unfold size in *.
      specialize (Hnew req ltac:(rewrite Em; lia)). lia.
    - unfold nmul, wmul. rewrite !mul_check by lia.
      destruct (N.ltb_spec (req * emul c) (2 ^ W)) as [Hs|Hs].
      + destruct (N.ltb_spec (req * emul c) two64); [|lia]. rewrite !N.mod_small by lia. cbn [negb].
        destruct (within_limit c _); cbn [negb]; [|split; [now left|exact Hok]].
        split; [now left|]. apply buf_grow; auto. specialize (Hnew _ eq_refl). unfold size in *. lia.
      + cbn [negb]. split; [|exact Hok].
        destruct (N.ltb_spec (req * emul c) two64); cbn [negb]; [|now left]. rewrite N.mod_small by lia.
        set (new := if ediv c =? 1 then req * emul c else req * emul c / ediv c).
        assert (Hbig : 2 ^ (W - 1) <= new).
        { unfold new. destruct (N.eqb_spec (ediv c) 1); [lia|]. apply N.div_le_lower_bound; [lia|].
          replace (ediv c) with 2 by lia. lia. }
        destruct (within_limit c new); cbn [negb]; [|now left].
        right. unfold buf_resize. fold size. destruct (N.leb_spec new size); [lia|].
        unfold can_alloc. rewrite (Hp new Hbig), andb_false_r. now split.
  Qed.

  (** The actions of a script, with std::size_t of [W] bits. *)
  Fixpoint nrun (s : script) : act :=
    match s with
    | SRet => ret
    | SUb => fail RUB
    | SFail e => fail (RErr e)
    | SPut e => nput W c e
    | SVar w v => nvarint_reserve W c w v ;; store (vloop (varint_max_size w) v)
    | SBits n l => nser_bitset W c n l
    | SSeq a b => nrun a ;; nrun b
    end.

  Definition sim (a b : act) : Prop :=
    forall st, nok W st -> alike (a st) (b st) /\ nok W (snd (a st)).

  Lemma sim_seq a b a' b' : sim a b -> sim a' b' -> sim (a ;; a') (b ;; b').
  Proof.
    intros H H' st Hok. destruct (H st Hok) as [[E|(E1 & E2 & E3)] K]; unfold seq.
    - rewrite <- E. destruct (a st) as [r s1]. cbn [snd] in K.
      destruct r; try (split; [now left|exact K]). now apply H'.
    - destruct (a st) as [r s1], (b st) as [r' s1']. cbn [fst snd] in *. subst. split; [right; now split|exact K].
  Qed.

  Lemma sim_same (a : act) : (forall st, nok W st -> nok W (snd (a st))) -> sim a a.
  Proof. intros H st Hok. split; [now left|auto]. Qed.

  Lemma sim_store e : sim (store e) (store e).
  Proof.
    apply sim_same. intros st [H1 H2]. unfold store.
    destruct (Nat.leb_spec (opos st + length e) (length (obuf st))); cbn [snd]; [|now split].
    split; cbn [obuf opos]; rewrite overwrite_length by assumption; assumption.
  Qed.

  Lemma sub_same st : nok W st ->
    nsub W (N.of_nat (length (obuf st))) (N.of_nat (opos st)) = wsub (N.of_nat (length (obuf st))) (N.of_nat (opos st)).
  Proof.
    intros [H1 H2]. destruct HP as [HW _]. pose proof (half W ltac:(lia)). pose proof (half64 W ltac:(lia)).
    rewrite nsub_small by lia. rewrite wsub_small; [reflexivity| |lia]. unfold two64.
    pose proof (half 64 ltac:(lia)) as E. change (64 - 1) with 63 in E. lia.
  Qed.

  Lemma sim_reserve n : n < 2 ^ (W - 1) -> sim (nreserve W c n) (reserve c n).
  Proof.
    intros Hn st Hok. unfold nreserve, reserve. case_eq (growable c); intro Hg; [now apply nenlarge_alike|].
    rewrite sub_same by assumption. destruct (_ <? n); split; try (now left); exact Hok.
  Qed.

  Lemma sim_varint w v : N.of_nat (varint_max_size w) < 2 ^ (W - 1) ->
    sim (nvarint_reserve W c w v) (varint_reserve c w v).
  Proof.
    intros Hn st Hok. unfold nvarint_reserve, varint_reserve. case_eq (growable c); intro Hg; [now apply nenlarge_alike|].
    rewrite sub_same by assumption. destruct (_ && _); split; try (now left); exact Hok.
  Qed.

  Lemma run_sim s : 10 < 2 ^ (W - 1) -> narrow s = true -> N.of_nat (length (fst (writes s))) < 2 ^ (W - 1) ->
    sim (nrun s) (run c s).
  Proof.
    intro H10. induction s as [| |e|e|w v|n l|a IHa b IHb]; intros Hn Hl; cbn [nrun run].
    - now apply sim_same.
    - now apply sim_same.
    - now apply sim_same.
    - apply sim_seq; [now apply sim_reserve|apply sim_store].
    - cbn [narrow] in Hn. pose proof (max_size_le10 w Hn). apply sim_seq; [apply sim_varint; lia|apply sim_store].
    - cbn [writes pdone fst] in Hl. rewrite le_bytes_length in Hl.
      apply sim_seq; [now apply sim_reserve|]. apply sim_same. intros st [H1 H2].
      destruct (Nat.leb_spec (opos st + bitset_bytes n) (length (obuf st))); cbn [snd]; [|now split].
      split; cbn [obuf opos]; rewrite or_bits_length; assumption.
    - cbn [narrow] in Hn. apply andb_true_iff in Hn as [Ha Hb]. cbn [writes] in Hl. unfold pseq in Hl.
      destruct (writes a) as [ea da] eqn:Ea. destruct da.
      + destruct (writes b) as [eb db]. cbn [fst snd] in Hl, IHb. rewrite app_length in Hl. apply sim_seq; [apply IHa; auto; cbn [fst]; lia|apply IHb; auto; lia].
      + assert (Hs : sim (nrun a) (run c a)) by (apply IHa; auto).
        intros st Hok. destruct (Hs st Hok) as [K1 K2]. unfold seq.
        assert (Hno : forall s1, run c a st <> (ROk, s1)).
        { intros s1 E. apply run_done in E. rewrite Ea in E. discriminate. }
        destruct K1 as [E|(E1 & E2 & E3)].
        * rewrite <- E in *. destruct (nrun a st) as [r s1]. cbn [snd] in K2.
          destruct r; try (split; [now left|exact K2]). now destruct (Hno s1).
        * destruct (nrun a st) as [r s1], (run c a st) as [r' s1']. cbn [fst snd] in *. subst.
          split; [right; now split|exact K2].
  Qed.

  Lemma nrun_bytes e st : nput_bytes W c e st = nrun (scr_bytes e) st.
  Proof. now destruct e. Qed.
  Lemma nrun_size s n st : nser_size W c s n st = nrun (scr_size c s n) st.
  Proof. now destruct s. Qed.
  Lemma nrun_id k i st : nser_id W c k i st = nrun (scr_id c k i) st.
  Proof. destruct k; [reflexivity|apply nrun_bytes]. Qed.

  Lemma nrun_many (f : val -> ty -> act) g l :
    Forall (fun x => forall t st, f x t st = nrun (g x t) st) l ->
    forall ms st, ser_many f l ms st = nrun (scr_many g l ms) st.
  Proof.
    induction 1 as [|x l Hx _ IH]; intros [|m ms] st; try reflexivity.
    cbn [ser_many scr_many nrun]. now apply seq_ext.
  Qed.

  Lemma nrun_all (f : val -> ty -> act) g l t :
    Forall (fun x => forall t st, f x t st = nrun (g x t) st) l ->
    forall st, ser_all f l t st = nrun (scr_all g l t) st.
  Proof.
    induction 1 as [|x l Hx _ IH]; intro st; [reflexivity|].
    cbn [ser_all scr_all nrun]. now apply seq_ext.
  Qed.

  Lemma nser_scr G v : forall t st, nser W G c v t st = nrun (scr G c v t) st.
  Proof.
    induction v as [n|l IH| |v IH|i v IH| |l|l] using val_ind'; intros t st;
      destruct t as [w isb| |w sg zz| |si ms|k|n' t'|ts|s cg t'|s k t'|dc t'|t'|t'|ik meta alts|n'|k|s t'];
      cbn [nser scr]; try reflexivity; try (destruct k as [s|nv|]; reflexivity).
    - now destruct l.
    - destruct (negb (s_expl si) && is_empty (TStruct si ms)); [reflexivity|].
      destruct (as_bytes c (TStruct si ms)); [apply nrun_bytes|]. now apply nrun_many.
    - now apply nrun_many.
    - destruct (as_bytes c t'); [apply nrun_bytes|]. now apply nrun_all.
    - now apply nrun_many.
    - cbn [nrun]. apply seq_ext; [intro; apply nrun_size|]. intro st'.
      destruct (as_bytes c t' && cg); [apply nrun_bytes|]. now apply nrun_all.
    - cbn [nrun]. apply seq_ext; [intro; apply nrun_size|]. intro st'. now apply nrun_all.
    - cbn [nrun]. apply seq_ext; [intro; apply nrun_size|]. intro st'.
      destruct (as_bytes c t'); [apply nrun_bytes|]. now apply nrun_all.
    - cbn [nrun]. apply seq_ext; [reflexivity|]. intro. apply IH.
    - cbn [nrun]. apply seq_ext; [reflexivity|]. intro. apply IH.
    - apply IH.
    - destruct (nth_error meta i) as [[id dc]|]; [|reflexivity].
      destruct (nth_error alts i) as [t'|]; [|reflexivity].
      cbn [nrun]. apply seq_ext; [intro; apply nrun_id|]. intro. apply IH.
    - destruct k as [s|nv|].
      + cbn [nrun]. apply seq_ext; [intro; apply nrun_size|]. intro. apply nrun_bytes.
      + apply nrun_bytes.
      + apply nrun_bytes.
  Qed.
End Out.

(** ** size_varint: the default size type is a varint as wide as std::size_t *)

Definition with_dsize (c : cfg) (s : sizety) : cfg :=
  mkCfg (host_le c) (swap c) s (alim c) (emul c) (ediv c) (noovf c) (nofit c) (growable c) (alloc_ok c) (abi c).

(** All sequences in the value are shorter than [m]. *)
Fixpoint lengths_below (m : N) (v : val) {struct v} : bool :=
  match v with
  | VSeq l => (N.of_nat (length l) <? m) && forallb (lengths_below m) l
  | VBytes l => N.of_nat (length l) <? m
  | VSome x => lengths_below m x
  | VAlt _ x => lengths_below m x
  | _ => true
  end.

Lemma wire_size_width o o' w w' m s n : little o = little o' -> wsize o = SzVar w -> wsize o' = SzVar w' ->
  m <= pow256 w -> m <= pow256 w' -> n < m -> wire_size o s n = wire_size o' s n.
Proof.
  intros Hl H1 H2 H3 H4 Hn. unfold wire_size. destruct s as [[|k|k]|]; try reflexivity.
  - unfold wscalar. now rewrite Hl.
  - rewrite H1, H2, !N.mod_small by lia. reflexivity.
Qed.

Lemma enc_width G o o' w w' m : little o = little o' -> wsize o = SzVar w -> wsize o' = SzVar w' ->
  m <= pow256 w -> m <= pow256 w' ->
  forall v t, lengths_below m v = true -> enc G o v t = enc G o' v t.
Proof.
  intros Hl H1 H2 H3 H4.
  assert (HS : forall k n, wscalar o k n = wscalar o' k n) by (intros; unfold wscalar; now rewrite Hl).
  assert (HI : forall k n, wire_id o k n = wire_id o' k n) by (intros [k|k] n; cbn [wire_id]; auto).
  assert (HZ : forall s n, n < m -> wire_size o s n = wire_size o' s n) by (intros; eapply wire_size_width; eauto).
  assert (HM : forall l, Forall (fun v => forall t, lengths_below m v = true -> enc G o v t = enc G o' v t) l ->
             forallb (lengths_below m) l = true ->
             (forall ms, enc_many (enc G o) l ms = enc_many (enc G o') l ms)
             /\ (forall t, enc_all (enc G o) l t = enc_all (enc G o') l t)).
  { intros l H. induction H as [|x l Hx _ IH]; intro Hb; [split; intros; reflexivity|].
    cbn [forallb] in Hb. apply andb_true_iff in Hb as [B1 B2]. destruct (IH B2) as [I1 I2].
    split; [intros [|t ms]; [reflexivity|]|intro t]; cbn [enc_many enc_all]; now rewrite Hx, ?I1, ?I2. }
  induction v as [n|l IH| |v IH|i v IH| |l|l] using val_ind'; intros t Hb;
    destruct t as [k b| |k sg zz| |si ms|k|n' t'|ts|s cg t'|s k t'|dc t'|t'|t'|ik meta alts|n'|k|s t'];
    cbn [enc]; try reflexivity; try (now rewrite ?HS); try (destruct k; reflexivity);
    cbn [lengths_below] in Hb.
  1-7: apply andb_true_iff in Hb as [B1 B2]; destruct (HM l IH B2) as [M1 M2]; apply N.ltb_lt in B1;
       rewrite ?M1, ?M2, ?(HZ s) by exact B1; reflexivity.
  all: try (now rewrite IH).
  - destruct (nth_error meta i) as [[id dc]|]; [|reflexivity].
    destruct (nth_error alts i) as [t'|]; [|reflexivity]. now rewrite HI, IH.
  - destruct k as [s|k|]; try reflexivity. apply N.ltb_lt in Hb. now rewrite (HZ s).
Qed.
