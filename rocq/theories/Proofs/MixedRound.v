(** Protobuf messages inside ordinary data: reading back what was written. *)

From Coq Require Import List NArith ZArith Lia Bool Arith.
From Coq Require Import ZifyBool ZifyNat ZifyN.
From Verif Require Import Base.Bytes Model.Types Model.Machine Model.Varint Model.Out Model.In Model.Protocol
  Model.Pb Model.PbNative Model.Mixed Spec.Leb128 Spec.Wire Spec.PbWire Spec.PbMerge Spec.MixedWire
  Proofs.VarintP Proofs.OutP Proofs.InBase
  Proofs.InSafe Proofs.InLocal Proofs.InPrior Proofs.InRound Proofs.ProtoP Proofs.PbIn Proofs.PbRound
  Proofs.CustomP Proofs.MixedP Thm.Pb.
Import ListNotations.
Local Open Scope N_scope.

Ltac Zify.zify_post_hook ::= Z.div_mod_to_equations.

(** The reader can rebuild the message: its parts (Spec/PbMerge.v), and the length fits the size
    type of the archive, which, unless it is a varint or one byte, is in the host's order. *)
Definition message_readable (P : penv) (c : cfg) (k : nat) (l : list val) : bool :=
  preadable P (pb_room c) (VSeq l) (PMsg k) &&
  let n := N.of_nat (length (message_bytes P k l)) in
  match dsize c with
  | SzNone => false
  | SzFix w => (n <? pow256 w) && (negb (swap c) || (w =? 1)%nat)
  | SzVar w => n <? 128 ^ N.of_nat w
  end.

(** [readable] of Proofs/InRound.v with messages. *)
Fixpoint mreadable (G : tenv) (M : nat -> bool) (P : penv) (c : cfg) (v : val) (t : ty) {struct v} : bool :=
  match t, v with
  | TStruct _ ms, VSeq l => forall2b (fun x m => mreadable G M P c x m) l ms
  | TRec k, VSeq l => if M k then message_readable P c k l else forall2b (fun x m => mreadable G M P c x m) l (t_mems G k)
  | TTuple ms, VSeq l => forall2b (fun x m => mreadable G M P c x m) l ms
  | TArray _ t', VSeq l => forallb (fun x => mreadable G M P c x t') l
  | TVec s _ t', VSeq l =>
      count_ok c s (length l) && negb (over_limit c t' (N.of_nat (length l)))
      && can_alloc c (N.of_nat (length l) * csizeof c t')
      && forallb (fun x => mreadable G M P c x t') l
  | TAssoc s _ t', VSeq l => count_ok c s (length l) && forallb (fun x => mreadable G M P c x t') l
  | TSpan s t', VSeq l => count_ok c s (length l) && forallb (fun x => mreadable G M P c x t') l
  | TOpt _ t', VSome x => mreadable G M P c x t'
  | TOptPtr t', VSome x => mreadable G M P c x t'
  | TPtr t', VSome x => mreadable G M P c x t'
  | TVariant _ _ alts, VAlt i x =>
      match nth_error alts i with Some t' => mreadable G M P c x t' | None => false end
  | TView (VwSized s), VBytes l => count_ok c s (length l)
  | _, _ => true
  end.

Section Round.
  Variables (G : tenv) (M : nat -> bool) (P : penv) (c : cfg) (data : list byte) (pf : nat).
  Hypothesis (HM : mixed G M P) (Hds : wfsz (Some (dsize c)) = true) (Hsm : small data).
  Hypothesis (Hd63 : N.of_nat (length data) < 2 ^ 63) (Hpf : (length data < pf)%nat).
  Hypothesis (Hpl : native elem_ok G M) (Hrt : native (rt_ok c) G M).
  Let HG : wf_env G := mx_env _ _ _ HM.
  Notation o := (fmt_of c).
  Notation menc := (menc G M P c).
  Notation has := (has_at data).

  Lemma message_reads k l pl pos :
    pwt P (VSeq l) (PMsg k) = true -> pwt P (VSeq pl) (PMsg k) = true ->
    message_readable P c k l = true -> has pos (message_item P c k l) ->
    des_pb_item P c data pf (dsize c) k (VSeq pl) pos
    = (ROk, VSeq l, (pos + length (message_item P c k l))%nat).
  Proof.
    intros Hl Hp Hr H. unfold message_readable in Hr. apply andb_true_iff in Hr as [R1 R2].
    unfold message_item in *. pose proof (mx_msgs _ _ _ HM) as HP.
    apply (pb_reads_sized P c (dsize c) k pl (message_records P k l) l data pos pf); auto.
    - now apply message_restored.
    - intro E. now rewrite E in R2.
    - constructor; auto.
      + destruct (dsize c); cbn [size_fits]; auto. now apply N.ltb_lt.
      + intros _. unfold size_width. destruct (dsize c) as [|w|w]; [discriminate|..].
        * apply andb_true_iff in R2 as [R2 _]. now apply N.ltb_lt.
        * apply N.ltb_lt in R2. eapply N.lt_le_trans; [exact R2|]. apply pow128_le_256.
      + intros w E. rewrite E in R2. apply andb_true_iff in R2 as [_ R2].
        destruct (swap c); auto. right. now apply Nat.eqb_eq.
    - destruct H as [H _]. rewrite app_length in H. change (records_bytes (message_records P k l)) with (message_bytes P k l). lia.
  Qed.

  Definition mreads (f : val -> nat -> dres) (v : val) (t : ty) : Prop :=
    forall prior pos, wt G prior t = true -> has pos (fst (menc v t)) ->
      f prior pos = (ROk, v, (pos + length (fst (menc v t)))%nat).

  Lemma des_many_mreads (f : ty -> val -> nat -> dres) l ms :
    (forall x m, In (x, m) (combine l ms) -> snd (menc x m) = true -> mreads (f m) x m) ->
    length l = length ms -> snd (enc_many menc l ms) = true ->
    forall priors pos, forall2b (fun x m => wt G x m) priors ms = true ->
      has pos (fst (enc_many menc l ms)) ->
      des_many f ms priors pos = (ROk, l, (pos + length (fst (enc_many menc l ms)))%nat).
  Proof.
    revert ms; induction l as [|x l IH]; intros [|m ms] HF HL Hs priors pos Hp H; try discriminate;
      cbn [des_many enc_many] in *.
    - cbn. f_equal. lia.
    - apply pseq_ok in Hs as (S1 & S2 & S3). rewrite S3 in *.
      apply has_at_app in H as [H1 H2].
      destruct priors as [|y priors]; [discriminate|]. cbn [forall2b tl] in *.
      apply andb_true_iff in Hp as [Hy Hp].
      rewrite (HF x m (or_introl eq_refl) S1 y pos Hy H1).
      rewrite (IH ms) with (pos := (pos + length (fst (menc x m)))%nat); auto.
      + rewrite app_length. f_equal. lia.
      + intros x' m' Hin. apply HF. now right.
  Qed.

  Lemma des_all_mreads (f : val -> nat -> dres) l t :
    (forall x, In x l -> snd (menc x t) = true -> mreads f x t) ->
    snd (enc_all menc l t) = true ->
    forall priors pos, length priors = length l -> forallb (fun x => wt G x t) priors = true ->
      has pos (fst (enc_all menc l t)) ->
      des_all f priors pos = (ROk, l, (pos + length (fst (enc_all menc l t)))%nat).
  Proof.
    induction l as [|x l IH]; intros HF Hs [|y priors] pos HL Hp H; try discriminate;
      cbn [des_all enc_all] in *.
    - cbn. f_equal. lia.
    - apply pseq_ok in Hs as (S1 & S2 & S3). rewrite S3 in *.
      apply has_at_app in H as [H1 H2]. cbn [forallb] in Hp. apply andb_true_iff in Hp as [Hy Hp].
      rewrite (HF x (or_introl eq_refl) S1 y pos Hy H1).
      rewrite IH with (pos := (pos + length (fst (menc x t)))%nat); auto.
      + rewrite app_length. f_equal. lia.
      + intros x' Hin. apply HF. now right.
  Qed.

  Lemma des_assoc_mreads (f : val -> nat -> dres) k l t d :
    (forall x, In x l -> snd (menc x t) = true -> mreads f x t) ->
    snd (enc_all menc l t) = true -> wt G d t = true ->
    forall acc pos, pairwise (before k) (acc ++ l) = true ->
      has pos (fst (enc_all menc l t)) ->
      des_assoc f (assoc_insert k) d (length l) acc pos
      = (ROk, acc ++ l, (pos + length (fst (enc_all menc l t)))%nat).
  Proof.
    intros HF Hs Hd. revert HF Hs. induction l as [|x l IH]; intros HF Hs acc pos Hp H;
      cbn [length des_assoc enc_all] in *.
    - rewrite app_nil_r. f_equal. cbn. lia.
    - apply pseq_ok in Hs as (S1 & S2 & S3). rewrite S3 in *.
      apply has_at_app in H as [H1 H2].
      rewrite (HF x (or_introl eq_refl) S1 d pos Hd H1).
      assert (E : assoc_insert k acc x = acc ++ [x]).
      { apply assoc_insert_append. clear -Hp. induction acc as [|y acc IH]; [reflexivity|].
        cbn [app pairwise forallb] in *. apply andb_true_iff in Hp as [H1 H2].
        rewrite forallb_app in H1. cbn [forallb] in H1. rewrite !andb_true_iff in H1.
        destruct H1 as (_ & H1 & _). rewrite H1. cbn [andb]. auto. }
      rewrite E, IH; auto.
      + rewrite <- app_assoc, app_length. cbn [app]. f_equal. lia.
      + intros x' Hin. apply HF. now right.
      + now rewrite <- app_assoc.
  Qed.

  Lemma des_elems_mreads (b : bool) (f : val -> nat -> dres) t l priors pos :
    wf G t = true -> plain t = true -> is_empty t = false -> (b = true -> as_bytes c t = true) ->
    forallb (fun x => wt G x t) l = true ->
    (forall x, In x l -> snd (menc x t) = true -> mreads f x t) ->
    snd (enc_all menc l t) = true ->
    length priors = length l -> forallb (fun x => wt G x t) priors = true ->
    has pos (fst (enc_all menc l t)) ->
    des_elems c data b f t priors pos = (ROk, VSeq l, (pos + length (fst (enc_all menc l t)))%nat).
  Proof.
    intros Hw Hp He Hb Hl HF Hs HL Hpr H. unfold des_elems. destruct b.
    - assert (E : enc_all menc l t = (flat_map (fun x => objrep c x t) l, true)).
      { rewrite <- (enc_all_bulk G c) by auto. apply menc_all_ext. intros x Hin.
        rewrite forallb_forall in Hl. apply menc_norec; eauto using bytes_nrec. }
      rewrite E in *. cbn [fst] in *.
      rewrite HL, (des_bytes_has G); auto. apply (as_bytes_bs c); auto.
    - now rewrite (des_all_mreads f l t HF Hs priors pos HL Hpr H).
  Qed.

  Theorem mdes_round v : forall t fuel prior pos,
    wf G t = true -> plain t = true -> tall (rt_ok c) t = true ->
    wt G v t = true -> snd (menc v t) = true -> mreadable G M P c v t = true ->
    (height v <= fuel)%nat -> wt G prior t = true ->
    has pos (fst (menc v t)) ->
    mdes G M P c data pf fuel t prior pos = (ROk, v, (pos + length (fst (menc v t)))%nat).
  Proof.
    unfold mdes.
    induction v as [n|l IH| |v IH|i v IH| |l|l] using val_ind';
      intros t fuel prior pos Hw Hp Ht Hv Hs Hr Hh Hpr H;
      destruct t; cbn [wt] in Hv; try discriminate; try (destruct k as [s|nv|]; discriminate).
    - (* scalar *)
      cbn [MixedWire.menc pdone fst] in *. cbn [des_ty]. apply N.ltb_lt in Hv.
      rewrite (des_scalar_has c data Hsm w _ n) by assumption. cbn [nres]. now rewrite wscalar_length.
    - (* bool *)
      cbn [MixedWire.menc pdone fst] in *. cbn [des_ty]. apply N.ltb_lt in Hv.
      rewrite (des_scalar_has c data Hsm 1 _ n) by (try assumption; rewrite pow256_S, pow256_0; lia).
      rewrite wscalar_length. apply N.ltb_lt in Hv. now rewrite Hv.
    - (* varint *)
      cbn [MixedWire.menc pdone fst] in *. cbn [des_ty wf] in *. apply N.ltb_lt in Hv.
      cbn [tall] in Ht. unfold rt_ok in Ht. cbn [own_extent delimited andb] in Ht.
      rewrite (des_varint_has c data w sg zz _ n); auto. intros ->. destruct sg; auto.
    - (* empty *)
      destruct l; [|discriminate]. destruct prior as [|[]| | | | | |]; try discriminate.
      cbn [des_ty MixedWire.menc pnil fst length]. f_equal. lia.
    - (* struct *)
      cbn [des_ty]. destruct (negb (s_expl si) && is_empty (TStruct si ms)) eqn:Ee.
      { apply andb_true_iff in Ee as [_ Ee]. destruct ms; [|discriminate].
        destruct l; [|discriminate]. destruct prior as [|[]| | | | | |]; try discriminate.
        cbn [MixedWire.menc enc_many pnil fst length]. f_equal. lia. }
      destruct (as_bytes c (TStruct si ms)) eqn:Eb.
      + pose proof (as_bytes_bs _ _ Eb) as Hb.
        assert (Hwt : wt G (VSeq l) (TStruct si ms) = true) by exact Hv.
        pose proof (objrep_enc G c (VSeq l) (TStruct si ms) Hwt Hw Hp (bs_not_empty_struct _ _ Hb) Eb) as E.
        rewrite <- (menc_norec G M P c (VSeq l) (TStruct si ms) Hwt (bytes_nrec _ _ Eb)) in E.
        rewrite E in *. cbn [fst] in *.
        pose proof (des_bytes_has G c data Hsm (TStruct si ms) [VSeq l] [prior] pos Hw Hb
          ltac:(cbn [forallb]; now rewrite Hwt) eq_refl) as D.
        cbn [flat_map length] in D. rewrite app_nil_r in D. now rewrite D.
      + destruct prior as [|pl| | | | | |]; try discriminate. cbn [as_seq wt] in *.
        cbn [wf] in Hw. rewrite !andb_true_iff in Hw. destruct Hw as [[_ Hw] _].
        unfold plain in Hp. cbn [tall] in Hp, Ht. apply andb_true_iff in Hp as [_ Hp].
        apply andb_true_iff in Ht as [_ Ht]. cbn [mreadable MixedWire.menc] in *.
        rewrite (des_many_mreads _ l ms); auto; [|now apply forall2b_length in Hv].
        intros x m Hin Hsx prior pos' Hpx Hx.
        pose proof (in_combine_l _ _ _ _ Hin) as Hin1.
        rewrite Forall_forall in IH. apply (IH x Hin1 m fuel prior pos');
          try (eapply in_combine_forallb; eassumption); auto.
        * eapply forall2b_in in Hv; eauto.
        * eapply forall2b_in in Hr; eauto.
        * pose proof (height_in _ _ Hin1). lia.
    - (* named class *)
      destruct prior as [|pl| | | | | |]; try discriminate. cbn [as_seq des_ty] in *.
      cbn [mreadable MixedWire.menc] in *.
      destruct (M k) eqn:Em.
      { assert (Ed : mdes_rec G M P c data pf fuel k (VSeq pl) pos
                     = des_pb_item P c data pf (dsize c) k (VSeq pl) pos)
          by (destruct fuel; cbn [mdes_rec]; now rewrite Em).
        rewrite Ed. cbn [pdone fst] in *. apply message_reads; auto.
        - rewrite <- (mx_same _ _ _ HM k Em). exact Hv.
        - rewrite <- (mx_same _ _ _ HM k Em). exact Hpr. }
      cbn [wt] in Hpr. destruct fuel as [|f]; [cbn in Hh; lia|]. cbn [mdes_rec as_seq]. rewrite Em.
      destruct (HG k) as [Hwk _]. specialize (Hpl k Em) as Hpk. specialize (Hrt k Em) as Htk.
      rewrite (des_many_mreads _ l (t_mems G k)); auto; [|now apply forall2b_length in Hv].
      intros x m Hin Hsx prior pos' Hpx Hx.
      pose proof (in_combine_l _ _ _ _ Hin) as Hin1.
      rewrite Forall_forall in IH. apply (IH x Hin1 m f prior pos');
        try (eapply in_combine_forallb; eassumption); auto.
      + eapply forall2b_in in Hv; eauto.
      + eapply forall2b_in in Hr; eauto.
      + pose proof (height_in _ _ Hin1). lia.
    - (* array *)
      destruct prior as [|pl| | | | | |]; try discriminate. cbn [as_seq wt des_ty] in *.
      apply andb_true_iff in Hv as [N1 Hv]. apply andb_true_iff in Hpr as [N2 Hpr].
      cbn [wf] in Hw. apply andb_true_iff in Hw as [_ Hw].
      unfold plain in Hp. cbn [tall elem_ok] in Hp, Ht. apply andb_true_iff in Hp as [He Hp].
      apply andb_true_iff in Ht as [_ Ht]. cbn [mreadable MixedWire.menc] in *.
      apply negb_true_iff in He.
      rewrite (des_elems_mreads (as_bytes c t) _ t l pl pos); auto; [|lia].
      rewrite forallb_forall in Hv, Hr. rewrite Forall_forall in IH.
      intros x Hin Hsx prior pos' Hpx Hx. apply (IH x Hin t fuel prior pos'); auto.
      pose proof (height_in _ _ Hin). lia.
    - (* tuple *)
      destruct prior as [|pl| | | | | |]; try discriminate. cbn [as_seq wt des_ty wf] in *.
      unfold plain in Hp. cbn [tall] in Hp, Ht. apply andb_true_iff in Hp as [_ Hp].
      apply andb_true_iff in Ht as [_ Ht]. cbn [mreadable MixedWire.menc] in *.
      rewrite (des_many_mreads _ l ts); auto; [|now apply forall2b_length in Hv].
      intros x m Hin Hsx prior pos' Hpx Hx.
      pose proof (in_combine_l _ _ _ _ Hin) as Hin1.
      rewrite Forall_forall in IH. apply (IH x Hin1 m fuel prior pos');
        try (eapply in_combine_forallb; eassumption); auto.
      * eapply forall2b_in in Hv; eauto.
      * eapply forall2b_in in Hr; eauto.
      * pose proof (height_in _ _ Hin1). lia.
    - (* vec *)
      destruct prior as [|pl| | | | | |]; try discriminate. cbn [as_seq wt des_ty] in *.
      cbn [wf] in Hw. apply andb_true_iff in Hw as [Hz Hw].
      unfold plain in Hp. cbn [tall elem_ok] in Hp, Ht. apply andb_true_iff in Hp as [He Hp].
      apply andb_true_iff in Ht as [Hx Ht]. cbn [mreadable MixedWire.menc] in *.
      apply negb_true_iff in He. unfold rt_ok in Hx. cbn [own_extent] in Hx.
      rewrite !andb_true_iff in Hr. destruct Hr as [[[R1 R2] R3] R4]. apply negb_true_iff in R2.
      apply pseq_ok in Hs as (S1 & S2 & S3). rewrite S3 in *. cbn [pdone fst] in *.
      apply has_at_app in H as [H1 H2].
      assert (Hne : sz_of c sz <> SzNone) by (intro E; rewrite E in Hx; discriminate).
      pose proof (des_size_has c data Hds Hsm sz (length l) pos Hz Hne R1 H1) as D.
      assert (V : vec_resize G c t (N.of_nat (length l)) pl = (ROk, vresize (dflt G t) (length l) pl)).
      { unfold vec_resize. rewrite R2, R3, orb_true_r, Nat2N.id. reflexivity. }
      assert (E : des_elems c data (as_bytes c t && contig) (des_ty G c data (mdes_rec G M P c data pf fuel) t) t
         (vresize (dflt G t) (length l) pl) (pos + length (wire_size o sz (N.of_nat (length l))))
         = (ROk, VSeq l, (pos + length (wire_size o sz (N.of_nat (length l))) + length (fst (enc_all menc l t)))%nat)).
      { apply des_elems_mreads; auto.
        - intro B. now apply andb_true_iff in B.
        - rewrite forallb_forall in Hv, R4. rewrite Forall_forall in IH.
          intros x Hin Hsx prior pos' Hpx Hx'. apply (IH x Hin t fuel prior pos'); auto.
          pose proof (height_in _ _ Hin). lia.
        - apply vresize_length.
        - rewrite forallb_forall in *. apply Forall_forall, vresize_forall; [now apply wt_dflt|].
          now rewrite Forall_forall. }
      destruct (sz_of c sz); [congruence|..]; rewrite D, V, E, app_length; f_equal; lia.
    - (* assoc *)
      cbn [des_ty]. apply andb_true_iff in Hv as [Hv Hb].
      cbn [wf] in Hw. apply andb_true_iff in Hw as [Hz Hw].
      unfold plain in Hp. cbn [tall elem_ok andb] in Hp, Ht.
      apply andb_true_iff in Ht as [Hx Ht]. cbn [mreadable MixedWire.menc] in *.
      unfold rt_ok in Hx. cbn [own_extent] in Hx.
      apply andb_true_iff in Hr as [R1 R4].
      apply pseq_ok in Hs as (S1 & S2 & S3). rewrite S3 in *. cbn [pdone fst] in *.
      apply has_at_app in H as [H1 H2].
      assert (Hne : sz_of c sz <> SzNone) by (intro E; rewrite E in Hx; discriminate).
      pose proof (des_size_has c data Hds Hsm sz (length l) pos Hz Hne R1 H1) as D.
      pose proof (des_assoc_mreads (des_ty G c data (mdes_rec G M P c data pf fuel) t) k l t (dflt G t)) as E.
      assert (F : des_assoc (des_ty G c data (mdes_rec G M P c data pf fuel) t) (assoc_insert k) (dflt G t)
          (length l) [] (pos + length (wire_size o sz (N.of_nat (length l))))
          = (ROk, l, (pos + length (wire_size o sz (N.of_nat (length l))) + length (fst (enc_all menc l t)))%nat)).
      { apply E; auto; [|now apply wt_dflt].
        rewrite forallb_forall in Hv, R4. rewrite Forall_forall in IH.
        intros x Hin Hsx prior' pos' Hpx Hx'. apply (IH x Hin t fuel prior' pos'); auto.
        pose proof (height_in _ _ Hin). lia. }
      destruct (sz_of c sz); [congruence|..]; rewrite D, Nat2N.id, F, app_length; cbn [seq_res]; f_equal; lia.
    - (* no optional *)
      cbn [des_ty MixedWire.menc pdone fst length] in *. unfold des_flag.
      rewrite (des_scalar_has c data Hsm 1 0 0); [reflexivity|rewrite pow256_S, pow256_0; lia|].
      rewrite wscalar_1. exact H.
    - cbn [des_ty MixedWire.menc pdone fst length] in *. unfold des_flag.
      rewrite (des_scalar_has c data Hsm 1 0 0); [reflexivity|rewrite pow256_S, pow256_0; lia|].
      rewrite wscalar_1. exact H.
    - (* optional *)
      cbn [des_ty MixedWire.menc wf readable] in *. unfold plain in Hp. cbn [tall elem_ok andb] in Hp, Ht.
      apply andb_true_iff in Ht as [_ Ht]. cbn [height] in Hh.
      apply pseq_ok in Hs as (S1 & S2 & S3). rewrite S3 in *. cbn [pdone fst] in *.
      apply has_at_app in H as [H1 H2]. unfold des_flag.
      rewrite (des_scalar_has c data Hsm 1 0 1); [|rewrite pow256_S, pow256_0; lia|rewrite wscalar_1; exact H1].
      cbn [length] in H2. unfold des_inplace. destruct dc.
      + erewrite IH; eauto; [|lia|].
        * rewrite app_length. cbn [length]. f_equal. lia.
        * destruct prior; cbn [opt_cur]; try (apply wt_dflt; assumption). exact Hpr.
      + erewrite IH; eauto; [|lia|now apply wt_dflt].
        rewrite app_length. cbn [length]. f_equal. lia.
    - (* optional_ptr *)
      cbn [des_ty MixedWire.menc wf readable] in *. unfold plain in Hp. cbn [tall elem_ok andb] in Hp, Ht.
      apply andb_true_iff in Ht as [_ Ht]. cbn [height] in Hh.
      apply pseq_ok in Hs as (S1 & S2 & S3). rewrite S3 in *. cbn [pdone fst] in *.
      apply has_at_app in H as [H1 H2]. unfold des_flag.
      rewrite (des_scalar_has c data Hsm 1 0 1); [|rewrite pow256_S, pow256_0; lia|rewrite wscalar_1; exact H1].
      cbn [length] in H2. unfold des_ptr.
      erewrite IH; eauto; [|lia|now apply wt_dflt].
      rewrite app_length. cbn [length]. f_equal. lia.
    - (* owning pointer *)
      cbn [des_ty MixedWire.menc wf readable] in *. unfold plain in Hp. cbn [tall elem_ok andb] in Hp, Ht.
      apply andb_true_iff in Ht as [_ Ht]. cbn [height] in Hh. unfold des_ptr.
      erewrite IH; eauto; [lia|now apply wt_dflt].
    - (* variant *)
      rewrite des_variant_eq.
      cbn [wf] in Hw. rewrite !andb_true_iff in Hw. destruct Hw as [[[[Hl Hm] Hd] Hi] Hw].
      unfold plain in Hp. cbn [tall elem_ok andb] in Hp, Ht. apply andb_true_iff in Ht as [_ Ht].
      cbn [MixedWire.menc mreadable height] in *.
      destruct (nth_error alts i) as [t'|] eqn:Ea; [|discriminate].
      destruct (nth_error meta i) as [[id dc]|] eqn:Em; [|discriminate].
      apply pseq_ok in Hs as (S1 & S2 & S3). rewrite S3 in *. cbn [pdone fst] in *.
      apply has_at_app in H as [H1 H2].
      pose proof (nth_error_In _ _ Ea) as Hin.
      rewrite forallb_forall in Hw, Hp, Ht, Hi.
      assert (Hid : id < pow256 (idwidth ik)).
      { apply N.ltb_lt, Hi. apply nth_error_In in Em. apply in_map_iff. now exists (id, dc). }
      rewrite (des_id_has c data Hsm ik id pos Hid H1). rewrite (find_id_nth meta id dc i Hd Em), Ea, Em.
      specialize (Hw _ Hin). unfold des_inplace. destruct dc.
      + erewrite (IH t'); eauto; [|lia|].
        * rewrite app_length. f_equal. lia.
        * destruct prior; cbn [active]; try (apply wt_dflt; assumption).
          destruct (Nat.eqb_spec i i0) as [->|]; [|apply wt_dflt; assumption].
          cbn [wt] in Hpr. now rewrite Ea in Hpr.
      + erewrite (IH t'); eauto; [|lia|now apply wt_dflt].
        rewrite app_length. f_equal. lia.
    - (* bitset *)
      cbn [des_ty MixedWire.menc pdone fst] in *. apply Nat.eqb_eq in Hv. subst n.
      unfold des_bitset. destruct H as [H1 H2]. rewrite le_bytes_length in *.
      fold (bitset_bytes (length l)) in *.
      rewrite remaining_small by (assumption || lia).
      destruct (N.ltb_spec (N.of_nat (length data - pos)) (N.of_nat (bitset_bytes (length l)))); [lia|].
      rewrite load_some by lia. rewrite H2, get_bits_le_bytes; [reflexivity|].
      unfold bitset_bytes. lia.
    - (* views *)
      destruct k as [s|n|].
      + cbn [des_ty MixedWire.menc pdone fst mreadable wf] in *.
        cbn [tall] in Ht. unfold rt_ok in Ht. cbn [own_extent delimited andb] in Ht.
        assert (Hne : sz_of c s <> SzNone) by (intro E; rewrite E in Ht; discriminate).
        apply has_at_app in H as [H1 H2].
        rewrite (des_size_has c data Hds Hsm s (length l) pos Hw Hne Hr H1).
        set (q := (pos + length (wire_size o s (N.of_nat (length l))))%nat) in *.
        destruct H2 as [H2 H3].
        assert (E : (if remaining data q <? N.of_nat (length l) then (RErr result_out_of_range, prior, q)
                     else match load data q (N.to_nat (N.of_nat (length l))) with
                     | Some e => (ROk, VBytes e, (q + N.to_nat (N.of_nat (length l)))%nat)
                     | None => (RUB, prior, q)
                     end) = (ROk, VBytes l, (q + length l)%nat)).
        { rewrite remaining_small by (assumption || lia).
          destruct (N.ltb_spec (N.of_nat (length data - q)) (N.of_nat (length l))); [lia|].
          rewrite Nat2N.id, load_some by lia. now rewrite H3. }
        rewrite app_length. replace (pos + (length (wire_size o s (N.of_nat (length l))) + length l))%nat
          with (q + length l)%nat by (unfold q; lia).
        destruct (sz_of c s); [congruence|exact E..].
      + cbn [des_ty MixedWire.menc pdone fst] in *. apply Nat.eqb_eq in Hv. subst n.
        destruct H as [H2 H3].
        rewrite remaining_small by (assumption || lia).
        destruct (N.ltb_spec (N.of_nat (length data - pos)) (N.of_nat (length l))); [lia|].
        rewrite load_some by lia. now rewrite H3.
      + cbn [tall] in Ht. unfold rt_ok in Ht. cbn [own_extent delimited andb] in Ht. discriminate.
  Qed.
End Round.
