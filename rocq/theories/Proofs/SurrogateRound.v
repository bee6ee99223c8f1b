(** Classes whose functions go through other classes: reading back what was written. *)

From Coq Require Import List NArith ZArith Lia Bool Arith.
From Coq Require Import ZifyBool ZifyNat ZifyN.
From Verif Require Import Base.Bytes Model.Types Model.Machine Model.Varint Model.Out Model.In Model.Pb
  Model.Custom Model.Surrogate Spec.Leb128 Spec.Wire Spec.CustomWire Spec.SurrogateWire
  Proofs.VarintP Proofs.OutP Proofs.InBase
  Proofs.InSafe Proofs.InLocal Proofs.InPrior Proofs.InRound Proofs.PbIn Proofs.CustomP Proofs.CustomIn
  Proofs.CustomRound Proofs.SurrogateP Proofs.SurrogateIn.
Import ListNotations.
Local Open Scope N_scope.

Ltac Zify.zify_post_hook ::= Z.div_mod_to_equations.

(** [xreadable]; [rrec]: objects of named classes that are read back. *)
Fixpoint yreadable (c : cfg) (rrec : nat -> list val -> Prop) (v : val) (t : ty) {struct v} : Prop :=
  match t, v with
  | TRec k, VSeq l => rrec k l
  | TStruct _ ms, VSeq l => forall2P (yreadable c rrec) l ms
  | TTuple ms, VSeq l => forall2P (yreadable c rrec) l ms
  | TArray _ t', VSeq l => forallP (fun x => yreadable c rrec x t') l
  | TVec s _ t', VSeq l =>
      (sz_of c s <> SzNone ->
       count_ok c s (length l) && negb (over_limit c t' (N.of_nat (length l)))
       && can_alloc c (N.of_nat (length l) * csizeof c t') = true)
      /\ forallP (fun x => yreadable c rrec x t') l
  | TAssoc s _ t', VSeq l => count_ok c s (length l) = true /\ forallP (fun x => yreadable c rrec x t') l
  | TSpan s t', VSeq l => count_ok c s (length l) = true /\ forallP (fun x => yreadable c rrec x t') l
  | TOpt _ t', VSome x => yreadable c rrec x t'
  | TOptPtr t', VSome x => yreadable c rrec x t'
  | TPtr t', VSome x => yreadable c rrec x t'
  | TVariant _ _ alts, VAlt i x =>
      match nth_error alts i with Some t' => yreadable c rrec x t' | None => False end
  | TView (VwSized s), VBytes l => count_ok c s (length l) = true
  | _, _ => True
  end.

(** With at most [n] functions inside of one another: the function of the reader, [F'], mirrors
    that of the writer, [F], whatever the target was. *)
Fixpoint preadable_rec (G : tenv) (F F' : funs) (c : cfg) (n : nat) (k : nat) (l : list val) : Prop :=
  match n with
  | O => False
  | S m =>
      forall cur, object G cur (t_mems G k) ->
        mirrors (fun x t => tall (rt_ok c) t = true /\ yreadable c (preadable_rec G F F' c m) x t)
          (map (fun x t y => extent_known c x t y /\ yreadable c (preadable_rec G F F' c m) x t) l)
          l (F k) (F' k) cur l
  end.
Definition preadable (G : tenv) (F F' : funs) (c : cfg) (n : nat) : val -> ty -> Prop :=
  yreadable c (preadable_rec G F F' c n).

(** Written to the end. *)
Definition ybytes (p : yout) : list byte := match p with Some (e, _) => e | None => [] end.
Definition yok (p : yout) : Prop := p = Some (ybytes p, None).

Lemma yok_some e : yok (Some (e, None)).
Proof. reflexivity. Qed.

Lemma yseq_ok a b : yok (yseq a b) -> yok a /\ yok b /\ ybytes (yseq a b) = ybytes a ++ ybytes b.
Proof.
  unfold yok, yseq. destruct a as [[ea [sa|]]|]; cbn [ybytes]; try discriminate.
  destruct b as [[eb sb]|]; cbn [ybytes]; try discriminate. intro E. injection E as ->. auto.
Qed.

Section Round.
  Variables (G : tenv) (c : cfg) (data : list byte).
  Variables (erec : nat -> list val -> yout) (rrec : nat -> list val -> Prop).
  Hypothesis (HG : wf_env G) (Hds : wfsz (Some (dsize c)) = true) (Hsm : small data).
  Notation o := (fmt_of c).
  Notation yenc := (yenc G o erec).
  Notation has := (has_at data).

  (** [f] reads back [v]. *)
  Definition yreads (f : val -> nat -> dres) (v : val) (t : ty) : Prop :=
    forall prior pos, wt G prior t = true -> has pos (ybytes (yenc v t)) ->
      f prior pos = (ROk, v, (pos + length (ybytes (yenc v t)))%nat).

  Lemma des_many_yreads (f : ty -> val -> nat -> dres) l ms :
    (forall x m, In (x, m) (combine l ms) -> yok (yenc x m) -> yreads (f m) x m) ->
    length l = length ms -> yok (yenc_many yenc l ms) ->
    forall priors pos, forall2b (fun x m => wt G x m) priors ms = true ->
      has pos (ybytes (yenc_many yenc l ms)) ->
      des_many f ms priors pos = (ROk, l, (pos + length (ybytes (yenc_many yenc l ms)))%nat).
  Proof.
    revert ms; induction l as [|x l IH]; intros [|m ms] HF HL Hs priors pos Hp H; try discriminate;
      cbn [des_many yenc_many] in *.
    - cbn. f_equal. lia.
    - apply yseq_ok in Hs as (S1 & S2 & S3). rewrite S3 in *.
      apply has_at_app in H as [H1 H2].
      destruct priors as [|y priors]; [discriminate|]. cbn [forall2b tl] in *.
      apply andb_true_iff in Hp as [Hy Hp].
      rewrite (HF x m (or_introl eq_refl) S1 y pos Hy H1).
      rewrite (IH ms) with (pos := (pos + length (ybytes (yenc x m)))%nat); auto.
      + rewrite app_length. f_equal. lia.
      + intros x' m' Hin. apply HF. now right.
  Qed.

  Lemma des_all_yreads (f : val -> nat -> dres) l t :
    (forall x, In x l -> yok (yenc x t) -> yreads f x t) ->
    yok (yenc_all yenc l t) ->
    forall priors pos, length priors = length l -> forallb (fun x => wt G x t) priors = true ->
      has pos (ybytes (yenc_all yenc l t)) ->
      des_all f priors pos = (ROk, l, (pos + length (ybytes (yenc_all yenc l t)))%nat).
  Proof.
    induction l as [|x l IH]; intros HF Hs [|y priors] pos HL Hp H; try discriminate;
      cbn [des_all yenc_all] in *.
    - cbn. f_equal. lia.
    - apply yseq_ok in Hs as (S1 & S2 & S3). rewrite S3 in *.
      apply has_at_app in H as [H1 H2]. cbn [forallb] in Hp. apply andb_true_iff in Hp as [Hy Hp].
      rewrite (HF x (or_introl eq_refl) S1 y pos Hy H1).
      rewrite IH with (pos := (pos + length (ybytes (yenc x t)))%nat); auto.
      + rewrite app_length. f_equal. lia.
      + intros x' Hin. apply HF. now right.
  Qed.

  Lemma des_assoc_yreads (f : val -> nat -> dres) k l t d :
    (forall x, In x l -> yok (yenc x t) -> yreads f x t) ->
    yok (yenc_all yenc l t) -> wt G d t = true ->
    forall acc pos, pairwise (before k) (acc ++ l) = true ->
      has pos (ybytes (yenc_all yenc l t)) ->
      des_assoc f (assoc_insert k) d (length l) acc pos
      = (ROk, acc ++ l, (pos + length (ybytes (yenc_all yenc l t)))%nat).
  Proof.
    intros HF Hs Hd. revert HF Hs. induction l as [|x l IH]; intros HF Hs acc pos Hp H;
      cbn [length des_assoc yenc_all] in *.
    - rewrite app_nil_r. f_equal. cbn. lia.
    - apply yseq_ok in Hs as (S1 & S2 & S3). rewrite S3 in *.
      apply has_at_app in H as [H1 H2].
      rewrite (HF x (or_introl eq_refl) S1 d pos Hd H1).
      assert (E : assoc_insert k acc x = acc ++ [x]).
      { apply assoc_insert_append. clear -Hp. induction acc as [|y acc IH]; [reflexivity|].
        cbn [app pairwise forallb] in *. apply andb_true_iff in Hp as [H1 H2].
        rewrite forallb_app in H1. cbn [forallb] in H1. rewrite !andb_true_iff in H1.
        destruct H1 as (_ & H1 & _). rewrite H1. cbn [andb]. auto. }
      rewrite E, IH; auto.
      + rewrite <- app_assoc, app_length. cbn [app]. f_equal. lia.
      + intros x' Hin. apply HF. now right.
      + now rewrite <- app_assoc.
  Qed.

  Lemma des_elems_yreads (b : bool) (f : val -> nat -> dres) t l priors pos :
    wf G t = true -> plain t = true -> is_empty t = false -> (b = true -> as_bytes c t = true) ->
    forallb (fun x => wt G x t) l = true ->
    (forall x, In x l -> yok (yenc x t) -> yreads f x t) ->
    yok (yenc_all yenc l t) ->
    length priors = length l -> forallb (fun x => wt G x t) priors = true ->
    has pos (ybytes (yenc_all yenc l t)) ->
    des_elems c data b f t priors pos = (ROk, VSeq l, (pos + length (ybytes (yenc_all yenc l t)))%nat).
  Proof.
    intros Hw Hp He Hb Hl HF Hs HL Hpr H. unfold des_elems. destruct b.
    - assert (E : yenc_all yenc l t = Some (flat_map (fun x => objrep c x t) l, None)).
      { rewrite (yenc_all_lift (Wire.enc G o)).
        - rewrite (enc_all_bulk G c) by auto. reflexivity.
        - rewrite forallb_forall in Hl. intros. apply yenc_norec; eauto using bytes_nrec. }
      rewrite E in *. cbn [ybytes fst] in *.
      rewrite HL, (des_bytes_has G); auto. apply (as_bytes_bs c); auto.
    - now rewrite (des_all_yreads f l t HF Hs priors pos HL Hpr H).
  Qed.

  Variable rec : nat -> val -> nat -> dres.
  Hypothesis Hrec : forall k l prior pos,
    object G l (t_mems G k) -> yok (erec k l) -> rrec k l -> wt G prior (TRec k) = true ->
    has pos (ybytes (erec k l)) ->
    rec k prior pos = (ROk, VSeq l, (pos + length (ybytes (erec k l)))%nat).

  Theorem des_ty_yround v : forall t prior pos,
    wf G t = true -> plain t = true -> tall (rt_ok c) t = true -> 
    wt G v t = true -> yok (yenc v t) -> yreadable c rrec v t ->
    wt G prior t = true ->
    has pos (ybytes (yenc v t)) ->
    des_ty G c data rec t prior pos = (ROk, v, (pos + length (ybytes (yenc v t)))%nat).
  Proof.
    induction v as [m|l IH| |v IH|i v IH| |l|l] using val_ind';
      intros t prior pos Hw Hp Ht Hv Hs Hr Hpr H;
      destruct t; cbn [wt] in Hv; try discriminate; try (destruct k as [s|nv|]; discriminate).
    - (* scalar *)
      cbn [SurrogateWire.yenc Wire.enc lift pdone fst snd ybytes] in *. cbn [des_ty]. apply N.ltb_lt in Hv.
      rewrite (des_scalar_has c data Hsm w _ m) by assumption. cbn [nres]. now rewrite wscalar_length.
    - (* bool *)
      cbn [SurrogateWire.yenc Wire.enc lift pdone fst snd ybytes] in *. cbn [des_ty]. apply N.ltb_lt in Hv.
      rewrite (des_scalar_has c data Hsm 1 _ m) by (try assumption; rewrite pow256_S, pow256_0; lia).
      rewrite wscalar_length. apply N.ltb_lt in Hv. now rewrite Hv.
    - (* varint *)
      cbn [SurrogateWire.yenc Wire.enc lift pdone fst snd ybytes] in *. cbn [des_ty wf] in *. apply N.ltb_lt in Hv.
      cbn [tall] in Ht. unfold rt_ok in Ht. cbn [own_extent delimited andb] in Ht.
      rewrite (des_varint_has c data w sg zz _ m); auto. intros ->. destruct sg; auto.
    - (* empty *)
      destruct l; [|discriminate]. destruct prior as [|[]| | | | | |]; try discriminate.
      cbn [des_ty SurrogateWire.yenc Wire.enc lift pnil fst snd ybytes length]. f_equal. lia.
    - (* struct *)
      cbn [des_ty]. destruct (negb (s_expl si) && is_empty (TStruct si ms)) eqn:Ee.
      { apply andb_true_iff in Ee as [_ Ee]. destruct ms; [|discriminate].
        destruct l; [|discriminate]. destruct prior as [|[]| | | | | |]; try discriminate.
        cbn [SurrogateWire.yenc yenc_many ynil xnil ybytes fst length]. f_equal. lia. }
      destruct (as_bytes c (TStruct si ms)) eqn:Eb.
      + pose proof (as_bytes_bs _ _ Eb) as Hbs.
        assert (Hwt : wt G (VSeq l) (TStruct si ms) = true) by exact Hv.
        pose proof (objrep_enc G c (VSeq l) (TStruct si ms) Hwt Hw Hp (bs_not_empty_struct _ _ Hbs) Eb) as E.
        rewrite (yenc_norec G o erec (VSeq l) (TStruct si ms) Hwt (bytes_nrec _ _ Eb)), E in *. cbn [lift fst snd ybytes] in *.
        pose proof (des_bytes_has G c data Hsm (TStruct si ms) [VSeq l] [prior] pos Hw Hbs
          ltac:(cbn [forallb]; now rewrite Hwt) eq_refl) as D.
        cbn [flat_map length] in D. rewrite app_nil_r in D. now rewrite D.
      + destruct prior as [|pl| | | | | |]; try discriminate. cbn [as_seq wt] in *.
        cbn [wf] in Hw. rewrite !andb_true_iff in Hw. destruct Hw as [[_ Hw] _].
        unfold plain in Hp. cbn [tall] in Hp, Ht. apply andb_true_iff in Hp as [_ Hp].
        apply andb_true_iff in Ht as [_ Ht].
        cbn [yreadable SurrogateWire.yenc] in *.
        rewrite (des_many_yreads _ l ms); auto; [|now apply forall2b_length in Hv].
        intros x m Hin Hsx prior pos' Hpx Hx.
        pose proof (in_combine_l _ _ _ _ Hin) as Hin1.
        rewrite Forall_forall in IH. apply (IH x Hin1 m prior pos');
          try (eapply in_combine_forallb; eassumption); auto.
        * eapply forall2b_in in Hv; eauto.
        * exact (forall2P_in _ _ _ _ _ Hr Hin).
    - (* named class *)
      cbn [des_ty]. apply Hrec; auto.
    - (* array *)
      destruct prior as [|pl| | | | | |]; try discriminate. cbn [as_seq wt des_ty] in *.
      apply andb_true_iff in Hv as [N1 Hv]. apply andb_true_iff in Hpr as [N2 Hpr].
      cbn [wf] in Hw. apply andb_true_iff in Hw as [_ Hw].
      unfold plain in Hp. cbn [tall elem_ok] in Hp, Ht. apply andb_true_iff in Hp as [He Hp].
      apply andb_true_iff in Ht as [_ Ht].
      cbn [yreadable SurrogateWire.yenc] in *.
      apply negb_true_iff in He.
      rewrite (des_elems_yreads (as_bytes c t) _ t l pl pos); auto; [|lia].
      rewrite forallb_forall in Hv. rewrite Forall_forall in IH.
      intros x Hin Hsx prior pos' Hpx Hx. apply (IH x Hin t prior pos'); auto.
      + exact (forallP_in _ _ _ Hr Hin).
    - (* tuple *)
      destruct prior as [|pl| | | | | |]; try discriminate. cbn [as_seq wt des_ty wf] in *.
      unfold plain in Hp. cbn [tall] in Hp, Ht. apply andb_true_iff in Hp as [_ Hp].
      apply andb_true_iff in Ht as [_ Ht].
      cbn [yreadable SurrogateWire.yenc] in *.
      rewrite (des_many_yreads _ l ts); auto; [|now apply forall2b_length in Hv].
      intros x m Hin Hsx prior pos' Hpx Hx.
      pose proof (in_combine_l _ _ _ _ Hin) as Hin1.
      rewrite Forall_forall in IH. apply (IH x Hin1 m prior pos');
        try (eapply in_combine_forallb; eassumption); auto.
      * eapply forall2b_in in Hv; eauto.
      * exact (forall2P_in _ _ _ _ _ Hr Hin).
    - (* vec *)
      destruct prior as [|pl| | | | | |]; try discriminate. cbn [as_seq wt des_ty] in *.
      cbn [wf] in Hw. apply andb_true_iff in Hw as [Hz Hw].
      unfold plain in Hp. cbn [tall elem_ok] in Hp, Ht. apply andb_true_iff in Hp as [He Hp].
      apply andb_true_iff in Ht as [Hx Ht].
      cbn [yreadable SurrogateWire.yenc] in *.
      apply negb_true_iff in He. unfold rt_ok in Hx. cbn [own_extent] in Hx.
      assert (Hne : sz_of c sz <> SzNone) by (intro E; rewrite E in Hx; discriminate).
      destruct Hr as [Hr R4]. specialize (Hr Hne).
      rewrite !andb_true_iff in Hr. destruct Hr as [[R1 R2] R3]. apply negb_true_iff in R2.
      apply yseq_ok in Hs as (S1 & S2 & S3). rewrite S3 in *. cbn [ydone xdone ybytes fst] in *.
      apply has_at_app in H as [H1 H2].
      pose proof (des_size_has c data Hds Hsm sz (length l) pos Hz Hne R1 H1) as D.
      assert (V : vec_resize G c t (N.of_nat (length l)) pl = (ROk, vresize (dflt G t) (length l) pl)).
      { unfold vec_resize. rewrite R2, R3, orb_true_r, Nat2N.id. reflexivity. }
      assert (E : des_elems c data (as_bytes c t && contig) (des_ty G c data rec t) t
         (vresize (dflt G t) (length l) pl) (pos + length (wire_size o sz (N.of_nat (length l))))
         = (ROk, VSeq l, (pos + length (wire_size o sz (N.of_nat (length l))) + length (ybytes (yenc_all yenc l t)))%nat)).
      { apply des_elems_yreads; auto.
        - intro B. now apply andb_true_iff in B.
        - rewrite forallb_forall in Hv. rewrite Forall_forall in IH.
          intros x Hin Hsx prior pos' Hpx Hx'. apply (IH x Hin t prior pos'); auto.
          + exact (forallP_in _ _ _ R4 Hin).
        - apply vresize_length.
        - rewrite forallb_forall in *. apply Forall_forall, vresize_forall; [now apply wt_dflt|].
          now rewrite Forall_forall. }
      destruct (sz_of c sz); [congruence|..]; rewrite D, V, E, app_length; f_equal; lia.
    - (* assoc *)
      cbn [des_ty]. apply andb_true_iff in Hv as [Hv Hbf].
      cbn [wf] in Hw. apply andb_true_iff in Hw as [Hz Hw].
      unfold plain in Hp. cbn [tall elem_ok andb] in Hp, Ht.
      apply andb_true_iff in Ht as [Hx Ht].
      cbn [yreadable SurrogateWire.yenc] in *.
      unfold rt_ok in Hx. cbn [own_extent] in Hx.
      destruct Hr as [R1 R4].
      apply yseq_ok in Hs as (S1 & S2 & S3). rewrite S3 in *. cbn [ydone xdone ybytes fst] in *.
      apply has_at_app in H as [H1 H2].
      assert (Hne : sz_of c sz <> SzNone) by (intro E; rewrite E in Hx; discriminate).
      pose proof (des_size_has c data Hds Hsm sz (length l) pos Hz Hne R1 H1) as D.
      assert (E : des_assoc (des_ty G c data rec t) (assoc_insert k) (dflt G t)
          (length l) [] (pos + length (wire_size o sz (N.of_nat (length l))))
          = (ROk, l, (pos + length (wire_size o sz (N.of_nat (length l))) + length (ybytes (yenc_all yenc l t)))%nat)).
      { apply (des_assoc_yreads (des_ty G c data rec t) k l t (dflt G t)); auto; [|now apply wt_dflt].
        rewrite forallb_forall in Hv. rewrite Forall_forall in IH.
        intros x Hin Hsx prior' pos' Hpx Hx'. apply (IH x Hin t prior' pos'); auto.
        - exact (forallP_in _ _ _ R4 Hin). }
      destruct (sz_of c sz); [congruence|..]; rewrite D, Nat2N.id, E, app_length; cbn [seq_res]; f_equal; lia.
    - (* no optional *)
      cbn [des_ty SurrogateWire.yenc Wire.enc lift pdone fst snd ybytes length] in *. unfold des_flag.
      rewrite (des_scalar_has c data Hsm 1 0 0); [reflexivity|rewrite pow256_S, pow256_0; lia|].
      rewrite wscalar_1. exact H.
    - cbn [des_ty SurrogateWire.yenc Wire.enc lift pdone fst snd ybytes length] in *. unfold des_flag.
      rewrite (des_scalar_has c data Hsm 1 0 0); [reflexivity|rewrite pow256_S, pow256_0; lia|].
      rewrite wscalar_1. exact H.
    - (* optional *)
      cbn [des_ty SurrogateWire.yenc wf yreadable] in *. unfold plain in Hp. cbn [tall elem_ok andb] in Hp, Ht.
      apply andb_true_iff in Ht as [_ Ht].
      apply yseq_ok in Hs as (S1 & S2 & S3). rewrite S3 in *. cbn [ydone xdone ybytes fst] in *.
      apply has_at_app in H as [H1 H2]. unfold des_flag.
      rewrite (des_scalar_has c data Hsm 1 0 1); [|rewrite pow256_S, pow256_0; lia|rewrite wscalar_1; exact H1].
      cbn [length] in H2. unfold des_inplace. destruct dc.
      + erewrite IH; eauto.
        * rewrite app_length. cbn [length]. f_equal. lia.
        * destruct prior; cbn [opt_cur]; try (apply wt_dflt; assumption). exact Hpr.
      + erewrite IH; eauto; [|now apply wt_dflt].
        rewrite app_length. cbn [length]. f_equal. lia.
    - (* optional_ptr *)
      cbn [des_ty SurrogateWire.yenc wf yreadable] in *. unfold plain in Hp. cbn [tall elem_ok andb] in Hp, Ht.
      apply andb_true_iff in Ht as [_ Ht].
      apply yseq_ok in Hs as (S1 & S2 & S3). rewrite S3 in *. cbn [ydone xdone ybytes fst] in *.
      apply has_at_app in H as [H1 H2]. unfold des_flag.
      rewrite (des_scalar_has c data Hsm 1 0 1); [|rewrite pow256_S, pow256_0; lia|rewrite wscalar_1; exact H1].
      cbn [length] in H2. unfold des_ptr.
      erewrite IH; eauto; [|now apply wt_dflt].
      rewrite app_length. cbn [length]. f_equal. lia.
    - (* owning pointer *)
      cbn [des_ty SurrogateWire.yenc wf yreadable] in *. unfold plain in Hp. cbn [tall elem_ok andb] in Hp, Ht.
      apply andb_true_iff in Ht as [_ Ht]. unfold des_ptr.
      erewrite IH; eauto; now apply wt_dflt.
    - (* variant *)
      rewrite des_variant_eq.
      cbn [wf] in Hw. rewrite !andb_true_iff in Hw. destruct Hw as [[[[Hl Hm] Hd] Hi] Hw].
      unfold plain in Hp. cbn [tall elem_ok andb] in Hp, Ht. apply andb_true_iff in Ht as [_ Ht].
     
      cbn [SurrogateWire.yenc yreadable] in *.
      destruct (nth_error alts i) as [t'|] eqn:Ea; [|discriminate].
      destruct (nth_error meta i) as [[id dc]|] eqn:Em; [|discriminate].
      apply yseq_ok in Hs as (S1 & S2 & S3). rewrite S3 in *. cbn [ydone xdone ybytes fst] in *.
      apply has_at_app in H as [H1 H2].
      pose proof (nth_error_In _ _ Ea) as Hin.
      rewrite forallb_forall in Hw, Hp, Ht, Hi.
      assert (Hid : id < pow256 (idwidth ik)).
      { apply N.ltb_lt, Hi. apply nth_error_In in Em. apply in_map_iff. now exists (id, dc). }
      rewrite (des_id_has c data Hsm ik id pos Hid H1). rewrite (find_id_nth meta id dc i Hd Em), Ea, Em.
      specialize (Hw _ Hin). unfold des_inplace. destruct dc.
      + erewrite (IH t'); eauto.
        * rewrite app_length. f_equal. lia.
        * destruct prior; cbn [active]; try (apply wt_dflt; assumption).
          destruct (Nat.eqb_spec i i0) as [->|]; [|apply wt_dflt; assumption].
          cbn [wt] in Hpr. now rewrite Ea in Hpr.
      + erewrite (IH t'); eauto; [|now apply wt_dflt].
        rewrite app_length. f_equal. lia.
    - (* bitset *)
      cbn [des_ty SurrogateWire.yenc Wire.enc lift pdone fst snd ybytes] in *. apply Nat.eqb_eq in Hv. subst n.
      unfold des_bitset. destruct H as [H1 H2]. rewrite le_bytes_length in *.
      fold (bitset_bytes (length l)) in *.
      rewrite remaining_small by (assumption || lia).
      destruct (N.ltb_spec (N.of_nat (length data - pos)) (N.of_nat (bitset_bytes (length l)))); [lia|].
      rewrite load_some by lia. rewrite H2, get_bits_le_bytes; [reflexivity|].
      unfold bitset_bytes. lia.
    - (* views *)
      destruct k as [s|m|].
      + cbn [des_ty SurrogateWire.yenc Wire.enc lift pdone fst snd ybytes yreadable wf] in *.
        cbn [tall] in Ht. unfold rt_ok in Ht. cbn [own_extent delimited andb] in Ht.
        assert (Hne : sz_of c s <> SzNone) by (intro E; rewrite E in Ht; discriminate).
        apply has_at_app in H as [H1 H2].
        rewrite (des_size_has c data Hds Hsm s (length l) pos Hw Hne Hr H1).
        set (q := (pos + length (wire_size o s (N.of_nat (length l))))%nat) in *.
        destruct H2 as [H2 H3].
        assert (E : (if remaining data q <? N.of_nat (length l) then (RErr result_out_of_range, prior, q)
                     else match load data q (N.to_nat (N.of_nat (length l))) with
                     | Some e => (ROk, VBytes e, (q + N.to_nat (N.of_nat (length l)))%nat)
                     | None => (RUB, prior, q)
                     end) = (ROk, VBytes l, (q + length l)%nat)).
        { rewrite remaining_small by (assumption || lia).
          destruct (N.ltb_spec (N.of_nat (length data - q)) (N.of_nat (length l))); [lia|].
          rewrite Nat2N.id, load_some by lia. now rewrite H3. }
        rewrite app_length. replace (pos + (length (wire_size o s (N.of_nat (length l))) + length l))%nat
          with (q + length l)%nat by (unfold q; lia).
        destruct (sz_of c s); [congruence|exact E..].
      + cbn [des_ty SurrogateWire.yenc Wire.enc lift pdone fst snd ybytes] in *. apply Nat.eqb_eq in Hv. subst m.
        destruct H as [H2 H3].
        rewrite remaining_small by (assumption || lia).
        destruct (N.ltb_spec (N.of_nat (length data - pos)) (N.of_nat (length l))); [lia|].
        rewrite load_some by lia. now rewrite H3.
      + cbn [tall] in Ht. unfold rt_ok in Ht. cbn [own_extent delimited andb] in Ht. discriminate.
  Qed.

  (** Containers without a size: the target has as many elements. *)
  Lemma des_unsized_yround s contig t l pl pos :
    sz_of c s = SzNone -> wf G (TVec s contig t) = true -> plain (TVec s contig t) = true ->
    tall (rt_ok c) t = true -> 
    wt G (VSeq l) (TVec s contig t) = true -> yok (yenc (VSeq l) (TVec s contig t)) ->
    yreadable c rrec (VSeq l) (TVec s contig t) ->
    wt G (VSeq pl) (TVec s contig t) = true -> length pl = length l ->
    has pos (ybytes (yenc (VSeq l) (TVec s contig t))) ->
    des_ty G c data rec (TVec s contig t) (VSeq pl) pos
    = (ROk, VSeq l, (pos + length (ybytes (yenc (VSeq l) (TVec s contig t))))%nat).
  Proof.
    intros Es Hw Hp Ht Hv Hs Hr Hpr HL H.
    cbn [as_seq wt des_ty] in *. rewrite Es.
    cbn [wf] in Hw. apply andb_true_iff in Hw as [Hz Hw].
    unfold plain in Hp. cbn [tall elem_ok] in Hp. apply andb_true_iff in Hp as [He Hp].
    apply negb_true_iff in He. cbn [yreadable SurrogateWire.yenc] in *. destruct Hr as [_ R4].
    apply yseq_ok in Hs as (S1 & S2 & S3). rewrite S3 in *. cbn [ydone xdone ybytes fst] in *.
    assert (Ew : wire_size o s (N.of_nat (length l)) = []).
    { unfold wire_size. change (match s with Some s0 => s0 | None => wsize o end) with (sz_of c s). now rewrite Es. }
    rewrite Ew in *. cbn [app] in *.
    apply des_elems_yreads; auto.
    - intro B. now apply andb_true_iff in B.
    - rewrite forallb_forall in Hv. intros x Hin Hsx prior pos' Hpx Hx'. apply des_ty_yround; auto.
      + exact (forallP_in _ _ _ R4 Hin).
  Qed.
End Round.

Section RunRound.
  Variables (G : tenv) (F F' : funs) (c : cfg) (data : list byte).
  Hypothesis (HG : wf_env G) (Hds : wfsz (Some (dsize c)) = true) (Hsm : small data).
  Notation o := (fmt_of c).
  Notation has := (has_at data).

  Lemma prun_round (erec : nat -> list val -> yout) (rrec : nat -> list val -> Prop) rec ts l :
    (forall k l prior pos,
      object G l (t_mems G k) -> yok (erec k l) -> rrec k l -> wt G prior (TRec k) = true ->
      has pos (ybytes (erec k l)) ->
      rec k prior pos = (ROk, VSeq l, (pos + length (ybytes (erec k l)))%nat)) ->
    object G l ts ->
    forall p q cur res,
      mirrors (fun x t => tall (rt_ok c) t = true /\ yreadable c rrec x t)
        (map (fun x t y => extent_known c x t y /\ yreadable c rrec x t) l) l p q cur res ->
    forall pos, psound G plain_item ts p -> psound G plain_item ts q -> object G cur ts ->
      yok (ypath (yenc G o erec) l p) -> has pos (ybytes (ypath (yenc G o erec) l p)) ->
      run_in (des_ty G c data rec) (des_ty G c data rec) q cur pos
      = (ROk, res, (pos + length (ybytes (ypath (yenc G o erec) l p)))%nat).
  Proof.
    intros Hrec Hl p q cur res M. induction M as [cur|i t k k' cur x y rd res Hx Hrd Hy R M IH|t f f' k k' cur res R M IH|f k q cur res M IH|f p k cur res M IH];
      intros pos Sp Sq Ho Hs H; cbn [run_in ypath psound] in *.
    - cbn. f_equal. lia.
    - destruct Sp as ((t0 & E0 & Ht0) & Hw & Hp & Sp). destruct Sq as (_ & _ & _ & Sq).
      rewrite nth_error_map, Hx in Hrd. cbn in Hrd. injection Hrd as <-. destruct R as [Rx Rr].
      rewrite Hx in *. rewrite Hy.
      apply yseq_ok in Hs as (S1 & S2 & S3). rewrite S3 in *. apply has_at_app in H as [H1 H2].
      assert (Wx : wt G x t = true) by (rewrite Ht0; eapply nth_object; [exact Hl|..]; eauto).
      assert (Wy : wt G y t = true) by (rewrite Ht0; eapply nth_object; [exact Ho|..]; eauto).
      assert (Ho' : object G (set_nth i x cur) ts).
      { apply (forall2b_set _ _ _ _ _ t0 Ho E0). now rewrite <- Ht0. }
      assert (D : des_ty G c data rec t y pos = (ROk, x, (pos + length (ybytes (yenc G o erec x t)))%nat)).
      { destruct Rx as [Rt|(s & cg & t' & -> & Es & Rt & Rl)].
        - apply (des_ty_yround G c data erec rrec HG Hds Hsm rec Hrec); auto.
        - destruct x as [|lx| | | | | |]; try discriminate. destruct y as [|ly| | | | | |]; try discriminate.
          apply (des_unsized_yround G c data erec rrec HG Hds Hsm rec Hrec); auto. }
      rewrite D, IH; auto. rewrite app_length. f_equal. lia.
    - destruct Sp as (Hw & Hp & Hf & Sp). destruct Sq as (_ & _ & Hf' & Sq).
      apply yseq_ok in Hs as (S1 & S2 & S3). rewrite S3 in *. apply has_at_app in H as [H1 H2].
      destruct R as [R1 R2].
      rewrite (des_ty_yround G c data erec rrec HG Hds Hsm rec Hrec (f l) t (f' cur) pos); auto.
      rewrite IH; auto. rewrite app_length. f_equal. lia.
    - destruct Sp as [_ Sp]. auto.
    - destruct Sq as [Sf Sq]. auto.
  Qed.

  Hypothesis (HF : forall k, psound G plain_item (t_mems G k) (F k)).
  Hypothesis (HF' : forall k, psound G plain_item (t_mems G k) (F' k)).

  Lemma pdes_rec_round n : forall fuel k l prior pos,
    (n <= fuel)%nat -> object G l (t_mems G k) -> yok (penc_rec G F o n k l) -> preadable_rec G F F' c n k l ->
    wt G prior (TRec k) = true -> has pos (ybytes (penc_rec G F o n k l)) ->
    pdes_rec G F' c data fuel k prior pos = (ROk, VSeq l, (pos + length (ybytes (penc_rec G F o n k l)))%nat).
  Proof.
    induction n as [|n IH]; intros fuel k l prior pos Hf Hl Hs Hr Hp H; cbn [preadable_rec] in Hr; [contradiction|].
    destruct fuel as [|fuel]; [lia|].
    destruct prior as [|pl| | | | | |]; try discriminate.
    cbn [pdes_rec as_seq wt penc_rec] in *.
    rewrite (prun_round (penc_rec G F o n) (preadable_rec G F F' c n) _ (t_mems G k) l) with (p := F k) (res := l); auto.
    intros k' l' prior' pos'. apply IH. lia.
  Qed.

  (** [n]: how deep the functions of the writer are inside of one another; the stack of the
      reader suffices for that. *)
  Theorem pdes_round n v t fuel prior pos :
    (n <= fuel)%nat -> wf G t = true -> plain t = true -> tall (rt_ok c) t = true ->
    wt G v t = true -> yok (penc G F o n v t) -> preadable G F F' c n v t ->
    wt G prior t = true -> has pos (ybytes (penc G F o n v t)) ->
    pdes G F' c data fuel t prior pos = (ROk, v, (pos + length (ybytes (penc G F o n v t)))%nat).
  Proof.
    intros. unfold pdes, penc, preadable in *.
    apply (des_ty_yround G c data (penc_rec G F o n) (preadable_rec G F F' c n) HG Hds Hsm); auto.
    intros. now apply pdes_rec_round.
  Qed.

  (** One object, whatever the reader makes of it. *)
  Theorem pdes_mirror n k l pl res fuel pos :
    (n <= fuel)%nat -> object G l (t_mems G k) -> object G pl (t_mems G k) ->
    yok (penc_rec G F o (S n) k l) -> has pos (ybytes (penc_rec G F o (S n) k l)) ->
    mirrors (fun x t => tall (rt_ok c) t = true /\ preadable G F F' c n x t)
      (map (fun x t y => extent_known c x t y /\ preadable G F F' c n x t) l) l (F k) (F' k) pl res ->
    pdes G F' c data (S fuel) (TRec k) (VSeq pl) pos
    = (ROk, VSeq res, (pos + length (ybytes (penc_rec G F o (S n) k l)))%nat).
  Proof.
    intros Hf Hl Hp Hs H M. unfold pdes, preadable in *. cbn [des_ty pdes_rec as_seq penc_rec] in *.
    rewrite (prun_round (penc_rec G F o n) (preadable_rec G F F' c n) _ (t_mems G k) l) with (p := F k) (res := res); auto.
    intros. now apply pdes_rec_round.
  Qed.
End RunRound.
