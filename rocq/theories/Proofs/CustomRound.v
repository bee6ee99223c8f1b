(** Classes with a serialize function: reading back what was written. *)

From Coq Require Import List NArith ZArith Lia Bool Arith.
From Coq Require Import ZifyBool ZifyNat ZifyN.
From Verif Require Import Base.Bytes Model.Types Model.Machine Model.Varint Model.Out Model.In Model.Pb
  Model.Custom Spec.Leb128 Spec.Wire Spec.CustomWire Proofs.VarintP Proofs.OutP Proofs.InBase
  Proofs.InSafe Proofs.InLocal Proofs.InPrior Proofs.InRound Proofs.PbIn Proofs.CustomP Proofs.CustomIn.
Import ListNotations.
Local Open Scope N_scope.

Ltac Zify.zify_post_hook ::= Z.div_mod_to_equations.

(** The extent of an item is known to the reader: from the item itself, or, for a container
    without a size, from the target. *)
Definition extent_known (c : cfg) (x : val) (t : ty) (y : val) : Prop :=
  tall (rt_ok c) t = true \/
  exists s contig t', t = TVec s contig t' /\ sz_of c s = SzNone /\ tall (rt_ok c) t' = true
    /\ length (as_seq y) = length (as_seq x).

Section AllP.
  Context {A B : Type} (P : A -> B -> Prop) (Q : A -> Prop).
  Fixpoint forall2P (l : list A) (m : list B) : Prop :=
    match l, m with
    | [], [] => True
    | x :: l', y :: m' => P x y /\ forall2P l' m'
    | _, _ => False
    end.
  Fixpoint forallP (l : list A) : Prop :=
    match l with [] => True | x :: l' => Q x /\ forallP l' end.
End AllP.

Lemma forall2P_in {A B} (P : A -> B -> Prop) l m x y : forall2P P l m -> In (x, y) (combine l m) -> P x y.
Proof.
  revert m; induction l as [|a l IH]; intros [|b m]; cbn; try tauto.
  intros [H1 H2] [E|E]; [injection E as <- <-; exact H1|eauto].
Qed.
Lemma forallP_in {A} (Q : A -> Prop) l x : forallP Q l -> In x l -> Q x.
Proof. induction l as [|a l IH]; cbn; [tauto|]. intros [H1 H2] [<-|E]; auto. Qed.
Lemma forallP_intro {A} (Q : A -> Prop) l : (forall x, In x l -> Q x) -> forallP Q l.
Proof. induction l as [|a l IH]; cbn; auto. Qed.

(** [readable] of Proofs/InRound.v; classes with a function: the function of the reader, [F'],
    mirrors that of the writer, [F], whatever the target was. *)
Fixpoint xreadable (G : tenv) (F F' : funs) (c : cfg) (v : val) (t : ty) {struct v} : Prop :=
  match t, v with
  | TRec k, VSeq l =>
      forall cur, object G cur (t_mems G k) ->
        mirrors (fun x t => tall (rt_ok c) t = true /\ readable G c x t = true)
          (map (fun x t y => extent_known c x t y /\ xreadable G F F' c x t) l) l (F k) (F' k) cur l
  | TStruct _ ms, VSeq l => forall2P (xreadable G F F' c) l ms
  | TTuple ms, VSeq l => forall2P (xreadable G F F' c) l ms
  | TArray _ t', VSeq l => forallP (fun x => xreadable G F F' c x t') l
  | TVec s _ t', VSeq l =>
      (sz_of c s <> SzNone ->
       count_ok c s (length l) && negb (over_limit c t' (N.of_nat (length l)))
       && can_alloc c (N.of_nat (length l) * csizeof c t') = true)
      /\ forallP (fun x => xreadable G F F' c x t') l
  | TAssoc s _ t', VSeq l => count_ok c s (length l) = true /\ forallP (fun x => xreadable G F F' c x t') l
  | TSpan s t', VSeq l => count_ok c s (length l) = true /\ forallP (fun x => xreadable G F F' c x t') l
  | TOpt _ t', VSome x => xreadable G F F' c x t'
  | TOptPtr t', VSome x => xreadable G F F' c x t'
  | TPtr t', VSome x => xreadable G F F' c x t'
  | TVariant _ _ alts, VAlt i x =>
      match nth_error alts i with Some t' => xreadable G F F' c x t' | None => False end
  | TView (VwSized s), VBytes l => count_ok c s (length l) = true
  | _, _ => True
  end.

Section Round.
  Variables (G : tenv) (F F' : funs) (c : cfg) (data : list byte).
  Hypothesis (HG : wf_env G) (Hds : wfsz (Some (dsize c)) = true) (Hsm : small data).
  Notation o := (fmt_of c).
  Notation xenc := (xenc G F o).
  Notation has := (has_at data).

  (** [f] xreads back [v]. *)
  Definition xreads (f : val -> nat -> dres) (v : val) (t : ty) : Prop :=
    forall prior pos, wt G prior t = true -> has pos (fst (xenc v t)) ->
      f prior pos = (ROk, v, (pos + length (fst (xenc v t)))%nat).

  Lemma xseq_ok a b : snd (xseq a b) = None -> snd a = None /\ snd b = None /\ fst (xseq a b) = fst a ++ fst b.
  Proof. unfold xseq. destruct a as [ea []]; cbn [fst snd]; auto. discriminate. Qed.

  Lemma des_many_xreads (f : ty -> val -> nat -> dres) l ms :
    (forall x m, In (x, m) (combine l ms) -> snd (xenc x m) = None -> xreads (f m) x m) ->
    length l = length ms -> snd (xenc_many xenc l ms) = None ->
    forall priors pos, forall2b (fun x m => wt G x m) priors ms = true ->
      has pos (fst (xenc_many xenc l ms)) ->
      des_many f ms priors pos = (ROk, l, (pos + length (fst (xenc_many xenc l ms)))%nat).
  Proof.
    revert ms; induction l as [|x l IH]; intros [|m ms] HF HL Hs priors pos Hp H; try discriminate;
      cbn [des_many xenc_many] in *.
    - cbn. f_equal. lia.
    - apply xseq_ok in Hs as (S1 & S2 & S3). rewrite S3 in *.
      apply has_at_app in H as [H1 H2].
      destruct priors as [|y priors]; [discriminate|]. cbn [forall2b tl] in *.
      apply andb_true_iff in Hp as [Hy Hp].
      rewrite (HF x m (or_introl eq_refl) S1 y pos Hy H1).
      rewrite (IH ms) with (pos := (pos + length (fst (xenc x m)))%nat); auto.
      + rewrite app_length. f_equal. lia.
      + intros x' m' Hin. apply HF. now right.
  Qed.

  Lemma des_all_xreads (f : val -> nat -> dres) l t :
    (forall x, In x l -> snd (xenc x t) = None -> xreads f x t) ->
    snd (xenc_all xenc l t) = None ->
    forall priors pos, length priors = length l -> forallb (fun x => wt G x t) priors = true ->
      has pos (fst (xenc_all xenc l t)) ->
      des_all f priors pos = (ROk, l, (pos + length (fst (xenc_all xenc l t)))%nat).
  Proof.
    induction l as [|x l IH]; intros HF Hs [|y priors] pos HL Hp H; try discriminate;
      cbn [des_all xenc_all] in *.
    - cbn. f_equal. lia.
    - apply xseq_ok in Hs as (S1 & S2 & S3). rewrite S3 in *.
      apply has_at_app in H as [H1 H2]. cbn [forallb] in Hp. apply andb_true_iff in Hp as [Hy Hp].
      rewrite (HF x (or_introl eq_refl) S1 y pos Hy H1).
      rewrite IH with (pos := (pos + length (fst (xenc x t)))%nat); auto.
      + rewrite app_length. f_equal. lia.
      + intros x' Hin. apply HF. now right.
  Qed.

  Lemma des_assoc_xreads (f : val -> nat -> dres) k l t d :
    (forall x, In x l -> snd (xenc x t) = None -> xreads f x t) ->
    snd (xenc_all xenc l t) = None -> wt G d t = true ->
    forall acc pos, pairwise (before k) (acc ++ l) = true ->
      has pos (fst (xenc_all xenc l t)) ->
      des_assoc f (assoc_insert k) d (length l) acc pos
      = (ROk, acc ++ l, (pos + length (fst (xenc_all xenc l t)))%nat).
  Proof.
    intros HF Hs Hd. revert HF Hs. induction l as [|x l IH]; intros HF Hs acc pos Hp H;
      cbn [length des_assoc xenc_all] in *.
    - rewrite app_nil_r. f_equal. cbn. lia.
    - apply xseq_ok in Hs as (S1 & S2 & S3). rewrite S3 in *.
      apply has_at_app in H as [H1 H2].
      rewrite (HF x (or_introl eq_refl) S1 d pos Hd H1).
      assert (E : assoc_insert k acc x = acc ++ [x]).
      { apply assoc_insert_append. clear -Hp. induction acc as [|y acc IH]; [reflexivity|].
        cbn [app pairwise forallb] in *. apply andb_true_iff in Hp as [H1 H2].
        rewrite forallb_app in H1. cbn [forallb] in H1. rewrite !andb_true_iff in H1.
        destruct H1 as (_ & H1 & _). rewrite H1. cbn [andb]. auto. }
      rewrite E, IH; auto.
      + rewrite <- app_assoc, app_length. cbn [app]. f_equal. lia.
      + intros x' Hin. apply HF. now right.
      + now rewrite <- app_assoc.
  Qed.

  Lemma des_elems_xreads (b : bool) (f : val -> nat -> dres) t l priors pos :
    wf G t = true -> plain t = true -> is_empty t = false -> (b = true -> as_bytes c t = true) ->
    forallb (fun x => wt G x t) l = true ->
    (forall x, In x l -> snd (xenc x t) = None -> xreads f x t) ->
    snd (xenc_all xenc l t) = None ->
    length priors = length l -> forallb (fun x => wt G x t) priors = true ->
    has pos (fst (xenc_all xenc l t)) ->
    des_elems c data b f t priors pos = (ROk, VSeq l, (pos + length (fst (xenc_all xenc l t)))%nat).
  Proof.
    intros Hw Hp He Hb Hl HF Hs HL Hpr H. unfold des_elems. destruct b.
    - assert (E : xenc_all xenc l t = (flat_map (fun x => objrep c x t) l, None)).
      { rewrite (xenc_all_lift (Wire.enc G o)).
        - rewrite (enc_all_bulk G c) by auto. reflexivity.
        - rewrite forallb_forall in Hl. intros. apply xenc_norec; eauto using bytes_nrec. }
      rewrite E in *. cbn [fst] in *.
      rewrite HL, (des_bytes_has G); auto. apply (as_bytes_bs c); auto.
    - now rewrite (des_all_xreads f l t HF Hs priors pos HL Hpr H).
  Qed.

  Variables (rec : nat -> val -> nat -> dres) (n : nat) (b : bool).
  Hypothesis Hrec : b = true -> forall k v prior pos,
    (height v <= n)%nat -> wt G v (TRec k) = true -> snd (xenc v (TRec k)) = None ->
    xreadable G F F' c v (TRec k) -> wt G prior (TRec k) = true -> has pos (fst (xenc v (TRec k))) ->
    rec k prior pos = (ROk, v, (pos + length (fst (xenc v (TRec k))))%nat).

  Theorem des_ty_xround v : forall t prior pos,
    wf G t = true -> plain t = true -> tall (rt_ok c) t = true -> tall (fun t => b || nrec t) t = true ->
    wt G v t = true -> snd (xenc v t) = None -> xreadable G F F' c v t ->
    (b = true -> height v <= n)%nat -> wt G prior t = true ->
    has pos (fst (xenc v t)) ->
    des_ty G c data rec t prior pos = (ROk, v, (pos + length (fst (xenc v t)))%nat).
  Proof.
    induction v as [m|l IH| |v IH|i v IH| |l|l] using val_ind';
      intros t prior pos Hw Hp Ht Hb Hv Hs Hr Hh Hpr H;
      destruct t; cbn [wt] in Hv; try discriminate; try (destruct k as [s|nv|]; discriminate).
    - (* scalar *)
      cbn [CustomWire.xenc Wire.enc lift pdone fst] in *. cbn [des_ty]. apply N.ltb_lt in Hv.
      rewrite (des_scalar_has c data Hsm w _ m) by assumption. cbn [nres]. now rewrite wscalar_length.
    - (* bool *)
      cbn [CustomWire.xenc Wire.enc lift pdone fst] in *. cbn [des_ty]. apply N.ltb_lt in Hv.
      rewrite (des_scalar_has c data Hsm 1 _ m) by (try assumption; rewrite pow256_S, pow256_0; lia).
      rewrite wscalar_length. apply N.ltb_lt in Hv. now rewrite Hv.
    - (* varint *)
      cbn [CustomWire.xenc Wire.enc lift pdone fst] in *. cbn [des_ty wf] in *. apply N.ltb_lt in Hv.
      cbn [tall] in Ht. unfold rt_ok in Ht. cbn [own_extent delimited andb] in Ht.
      rewrite (des_varint_has c data w sg zz _ m); auto. intros ->. destruct sg; auto.
    - (* empty *)
      destruct l; [|discriminate]. destruct prior as [|[]| | | | | |]; try discriminate.
      cbn [des_ty CustomWire.xenc Wire.enc lift pnil fst length]. f_equal. lia.
    - (* struct *)
      cbn [des_ty]. destruct (negb (s_expl si) && is_empty (TStruct si ms)) eqn:Ee.
      { apply andb_true_iff in Ee as [_ Ee]. destruct ms; [|discriminate].
        destruct l; [|discriminate]. destruct prior as [|[]| | | | | |]; try discriminate.
        cbn [CustomWire.xenc xenc_many xnil fst length]. f_equal. lia. }
      destruct (as_bytes c (TStruct si ms)) eqn:Eb.
      + pose proof (as_bytes_bs _ _ Eb) as Hbs.
        assert (Hwt : wt G (VSeq l) (TStruct si ms) = true) by exact Hv.
        pose proof (objrep_enc G c (VSeq l) (TStruct si ms) Hwt Hw Hp (bs_not_empty_struct _ _ Hbs) Eb) as E.
        rewrite (xenc_norec G F o (VSeq l) (TStruct si ms) Hwt (bytes_nrec _ _ Eb)), E in *. cbn [lift fst] in *.
        pose proof (des_bytes_has G c data Hsm (TStruct si ms) [VSeq l] [prior] pos Hw Hbs
          ltac:(cbn [forallb]; now rewrite Hwt) eq_refl) as D.
        cbn [flat_map length] in D. rewrite app_nil_r in D. now rewrite D.
      + destruct prior as [|pl| | | | | |]; try discriminate. cbn [as_seq wt] in *.
        cbn [wf] in Hw. rewrite !andb_true_iff in Hw. destruct Hw as [[_ Hw] _].
        unfold plain in Hp. cbn [tall] in Hp, Ht, Hb. apply andb_true_iff in Hp as [_ Hp].
        apply andb_true_iff in Ht as [_ Ht]. apply andb_true_iff in Hb as [_ Hb].
        cbn [xreadable CustomWire.xenc] in *.
        rewrite (des_many_xreads _ l ms); auto; [|now apply forall2b_length in Hv].
        intros x m Hin Hsx prior pos' Hpx Hx.
        pose proof (in_combine_l _ _ _ _ Hin) as Hin1.
        rewrite Forall_forall in IH. apply (IH x Hin1 m prior pos');
          try (eapply in_combine_forallb; eassumption); auto.
        * eapply forall2b_in in Hv; eauto.
        * exact (forall2P_in _ _ _ _ _ Hr Hin).
        * intro B. specialize (Hh B). pose proof (height_in _ _ Hin1). lia.
    - (* named class *)
      cbn [des_ty]. cbn [tall nrec] in Hb. destruct b; [|discriminate]. apply Hrec; auto.
    - (* array *)
      destruct prior as [|pl| | | | | |]; try discriminate. cbn [as_seq wt des_ty] in *.
      apply andb_true_iff in Hv as [N1 Hv]. apply andb_true_iff in Hpr as [N2 Hpr].
      cbn [wf] in Hw. apply andb_true_iff in Hw as [_ Hw].
      unfold plain in Hp. cbn [tall elem_ok] in Hp, Ht, Hb. apply andb_true_iff in Hp as [He Hp].
      apply andb_true_iff in Ht as [_ Ht]. apply andb_true_iff in Hb as [_ Hb].
      cbn [xreadable CustomWire.xenc] in *.
      apply negb_true_iff in He.
      rewrite (des_elems_xreads (as_bytes c t) _ t l pl pos); auto; [|lia].
      rewrite forallb_forall in Hv. rewrite Forall_forall in IH.
      intros x Hin Hsx prior pos' Hpx Hx. apply (IH x Hin t prior pos'); auto.
      + exact (forallP_in _ _ _ Hr Hin).
      + intro B. specialize (Hh B). pose proof (height_in _ _ Hin). lia.
    - (* tuple *)
      destruct prior as [|pl| | | | | |]; try discriminate. cbn [as_seq wt des_ty wf] in *.
      unfold plain in Hp. cbn [tall] in Hp, Ht, Hb. apply andb_true_iff in Hp as [_ Hp].
      apply andb_true_iff in Ht as [_ Ht]. apply andb_true_iff in Hb as [_ Hb].
      cbn [xreadable CustomWire.xenc] in *.
      rewrite (des_many_xreads _ l ts); auto; [|now apply forall2b_length in Hv].
      intros x m Hin Hsx prior pos' Hpx Hx.
      pose proof (in_combine_l _ _ _ _ Hin) as Hin1.
      rewrite Forall_forall in IH. apply (IH x Hin1 m prior pos');
        try (eapply in_combine_forallb; eassumption); auto.
      * eapply forall2b_in in Hv; eauto.
      * exact (forall2P_in _ _ _ _ _ Hr Hin).
      * intro B. specialize (Hh B). pose proof (height_in _ _ Hin1). lia.
    - (* vec *)
      destruct prior as [|pl| | | | | |]; try discriminate. cbn [as_seq wt des_ty] in *.
      cbn [wf] in Hw. apply andb_true_iff in Hw as [Hz Hw].
      unfold plain in Hp. cbn [tall elem_ok] in Hp, Ht, Hb. apply andb_true_iff in Hp as [He Hp].
      apply andb_true_iff in Ht as [Hx Ht]. apply andb_true_iff in Hb as [_ Hb].
      cbn [xreadable CustomWire.xenc] in *.
      apply negb_true_iff in He. unfold rt_ok in Hx. cbn [own_extent] in Hx.
      assert (Hne : sz_of c sz <> SzNone) by (intro E; rewrite E in Hx; discriminate).
      destruct Hr as [Hr R4]. specialize (Hr Hne).
      rewrite !andb_true_iff in Hr. destruct Hr as [[R1 R2] R3]. apply negb_true_iff in R2.
      apply xseq_ok in Hs as (S1 & S2 & S3). rewrite S3 in *. cbn [xdone fst] in *.
      apply has_at_app in H as [H1 H2].
      pose proof (des_size_has c data Hds Hsm sz (length l) pos Hz Hne R1 H1) as D.
      assert (V : vec_resize G c t (N.of_nat (length l)) pl = (ROk, vresize (dflt G t) (length l) pl)).
      { unfold vec_resize. rewrite R2, R3, orb_true_r, Nat2N.id. reflexivity. }
      assert (E : des_elems c data (as_bytes c t && contig) (des_ty G c data rec t) t
         (vresize (dflt G t) (length l) pl) (pos + length (wire_size o sz (N.of_nat (length l))))
         = (ROk, VSeq l, (pos + length (wire_size o sz (N.of_nat (length l))) + length (fst (xenc_all xenc l t)))%nat)).
      { apply des_elems_xreads; auto.
        - intro B. now apply andb_true_iff in B.
        - rewrite forallb_forall in Hv. rewrite Forall_forall in IH.
          intros x Hin Hsx prior pos' Hpx Hx'. apply (IH x Hin t prior pos'); auto.
          + exact (forallP_in _ _ _ R4 Hin).
          + intro B. specialize (Hh B). pose proof (height_in _ _ Hin). lia.
        - apply vresize_length.
        - rewrite forallb_forall in *. apply Forall_forall, vresize_forall; [now apply wt_dflt|].
          now rewrite Forall_forall. }
      destruct (sz_of c sz); [congruence|..]; rewrite D, V, E, app_length; f_equal; lia.
    - (* assoc *)
      cbn [des_ty]. apply andb_true_iff in Hv as [Hv Hbf].
      cbn [wf] in Hw. apply andb_true_iff in Hw as [Hz Hw].
      unfold plain in Hp. cbn [tall elem_ok andb] in Hp, Ht, Hb.
      apply andb_true_iff in Ht as [Hx Ht]. apply andb_true_iff in Hb as [_ Hb].
      cbn [xreadable CustomWire.xenc] in *.
      unfold rt_ok in Hx. cbn [own_extent] in Hx.
      destruct Hr as [R1 R4].
      apply xseq_ok in Hs as (S1 & S2 & S3). rewrite S3 in *. cbn [xdone fst] in *.
      apply has_at_app in H as [H1 H2].
      assert (Hne : sz_of c sz <> SzNone) by (intro E; rewrite E in Hx; discriminate).
      pose proof (des_size_has c data Hds Hsm sz (length l) pos Hz Hne R1 H1) as D.
      assert (E : des_assoc (des_ty G c data rec t) (assoc_insert k) (dflt G t)
          (length l) [] (pos + length (wire_size o sz (N.of_nat (length l))))
          = (ROk, l, (pos + length (wire_size o sz (N.of_nat (length l))) + length (fst (xenc_all xenc l t)))%nat)).
      { apply (des_assoc_xreads (des_ty G c data rec t) k l t (dflt G t)); auto; [|now apply wt_dflt].
        rewrite forallb_forall in Hv. rewrite Forall_forall in IH.
        intros x Hin Hsx prior' pos' Hpx Hx'. apply (IH x Hin t prior' pos'); auto.
        - exact (forallP_in _ _ _ R4 Hin).
        - intro B. specialize (Hh B). pose proof (height_in _ _ Hin). lia. }
      destruct (sz_of c sz); [congruence|..]; rewrite D, Nat2N.id, E, app_length; cbn [seq_res]; f_equal; lia.
    - (* no optional *)
      cbn [des_ty CustomWire.xenc Wire.enc lift pdone fst length] in *. unfold des_flag.
      rewrite (des_scalar_has c data Hsm 1 0 0); [reflexivity|rewrite pow256_S, pow256_0; lia|].
      rewrite wscalar_1. exact H.
    - cbn [des_ty CustomWire.xenc Wire.enc lift pdone fst length] in *. unfold des_flag.
      rewrite (des_scalar_has c data Hsm 1 0 0); [reflexivity|rewrite pow256_S, pow256_0; lia|].
      rewrite wscalar_1. exact H.
    - (* optional *)
      cbn [des_ty CustomWire.xenc wf xreadable] in *. unfold plain in Hp. cbn [tall elem_ok andb] in Hp, Ht, Hb.
      apply andb_true_iff in Ht as [_ Ht]. apply andb_true_iff in Hb as [_ Hb]. cbn [height] in Hh.
      assert (Hh' : b = true -> (height v <= n)%nat) by (intro B; specialize (Hh B); lia).
      apply xseq_ok in Hs as (S1 & S2 & S3). rewrite S3 in *. cbn [xdone fst] in *.
      apply has_at_app in H as [H1 H2]. unfold des_flag.
      rewrite (des_scalar_has c data Hsm 1 0 1); [|rewrite pow256_S, pow256_0; lia|rewrite wscalar_1; exact H1].
      cbn [length] in H2. unfold des_inplace. destruct dc.
      + erewrite IH; eauto.
        * rewrite app_length. cbn [length]. f_equal. lia.
        * destruct prior; cbn [opt_cur]; try (apply wt_dflt; assumption). exact Hpr.
      + erewrite IH; eauto; [|now apply wt_dflt].
        rewrite app_length. cbn [length]. f_equal. lia.
    - (* optional_ptr *)
      cbn [des_ty CustomWire.xenc wf xreadable] in *. unfold plain in Hp. cbn [tall elem_ok andb] in Hp, Ht, Hb.
      apply andb_true_iff in Ht as [_ Ht]. apply andb_true_iff in Hb as [_ Hb]. cbn [height] in Hh.
      assert (Hh' : b = true -> (height v <= n)%nat) by (intro B; specialize (Hh B); lia).
      apply xseq_ok in Hs as (S1 & S2 & S3). rewrite S3 in *. cbn [xdone fst] in *.
      apply has_at_app in H as [H1 H2]. unfold des_flag.
      rewrite (des_scalar_has c data Hsm 1 0 1); [|rewrite pow256_S, pow256_0; lia|rewrite wscalar_1; exact H1].
      cbn [length] in H2. unfold des_ptr.
      erewrite IH; eauto; [|now apply wt_dflt].
      rewrite app_length. cbn [length]. f_equal. lia.
    - (* owning pointer *)
      cbn [des_ty CustomWire.xenc wf xreadable] in *. unfold plain in Hp. cbn [tall elem_ok andb] in Hp, Ht, Hb.
      apply andb_true_iff in Ht as [_ Ht]. apply andb_true_iff in Hb as [_ Hb]. cbn [height] in Hh. unfold des_ptr.
      assert (Hh' : b = true -> (height v <= n)%nat) by (intro B; specialize (Hh B); lia).
      erewrite IH; eauto; now apply wt_dflt.
    - (* variant *)
      rewrite des_variant_eq.
      cbn [wf] in Hw. rewrite !andb_true_iff in Hw. destruct Hw as [[[[Hl Hm] Hd] Hi] Hw].
      unfold plain in Hp. cbn [tall elem_ok andb] in Hp, Ht, Hb. apply andb_true_iff in Ht as [_ Ht].
      apply andb_true_iff in Hb as [_ Hb].
      cbn [CustomWire.xenc xreadable height] in *.
      assert (Hh' : b = true -> (height v <= n)%nat) by (intro B; specialize (Hh B); lia).
      destruct (nth_error alts i) as [t'|] eqn:Ea; [|discriminate].
      destruct (nth_error meta i) as [[id dc]|] eqn:Em; [|discriminate].
      apply xseq_ok in Hs as (S1 & S2 & S3). rewrite S3 in *. cbn [xdone fst] in *.
      apply has_at_app in H as [H1 H2].
      pose proof (nth_error_In _ _ Ea) as Hin.
      rewrite forallb_forall in Hw, Hp, Ht, Hi, Hb.
      assert (Hid : id < pow256 (idwidth ik)).
      { apply N.ltb_lt, Hi. apply nth_error_In in Em. apply in_map_iff. now exists (id, dc). }
      rewrite (des_id_has c data Hsm ik id pos Hid H1). rewrite (find_id_nth meta id dc i Hd Em), Ea, Em.
      specialize (Hw _ Hin). unfold des_inplace. destruct dc.
      + erewrite (IH t'); eauto.
        * rewrite app_length. f_equal. lia.
        * destruct prior; cbn [active]; try (apply wt_dflt; assumption).
          destruct (Nat.eqb_spec i i0) as [->|]; [|apply wt_dflt; assumption].
          cbn [wt] in Hpr. now rewrite Ea in Hpr.
      + erewrite (IH t'); eauto; [|now apply wt_dflt].
        rewrite app_length. f_equal. lia.
    - (* bitset *)
      cbn [des_ty CustomWire.xenc Wire.enc lift pdone fst] in *. apply Nat.eqb_eq in Hv. subst n0.
      unfold des_bitset. destruct H as [H1 H2]. rewrite le_bytes_length in *.
      fold (bitset_bytes (length l)) in *.
      rewrite remaining_small by (assumption || lia).
      destruct (N.ltb_spec (N.of_nat (length data - pos)) (N.of_nat (bitset_bytes (length l)))); [lia|].
      rewrite load_some by lia. rewrite H2, get_bits_le_bytes; [reflexivity|].
      unfold bitset_bytes. lia.
    - (* views *)
      destruct k as [s|m|].
      + cbn [des_ty CustomWire.xenc Wire.enc lift pdone fst xreadable wf] in *.
        cbn [tall] in Ht. unfold rt_ok in Ht. cbn [own_extent delimited andb] in Ht.
        assert (Hne : sz_of c s <> SzNone) by (intro E; rewrite E in Ht; discriminate).
        apply has_at_app in H as [H1 H2].
        rewrite (des_size_has c data Hds Hsm s (length l) pos Hw Hne Hr H1).
        set (q := (pos + length (wire_size o s (N.of_nat (length l))))%nat) in *.
        destruct H2 as [H2 H3].
        assert (E : (if remaining data q <? N.of_nat (length l) then (RErr result_out_of_range, prior, q)
                     else match load data q (N.to_nat (N.of_nat (length l))) with
                     | Some e => (ROk, VBytes e, (q + N.to_nat (N.of_nat (length l)))%nat)
                     | None => (RUB, prior, q)
                     end) = (ROk, VBytes l, (q + length l)%nat)).
        { rewrite remaining_small by (assumption || lia).
          destruct (N.ltb_spec (N.of_nat (length data - q)) (N.of_nat (length l))); [lia|].
          rewrite Nat2N.id, load_some by lia. now rewrite H3. }
        rewrite app_length. replace (pos + (length (wire_size o s (N.of_nat (length l))) + length l))%nat
          with (q + length l)%nat by (unfold q; lia).
        destruct (sz_of c s); [congruence|exact E..].
      + cbn [des_ty CustomWire.xenc Wire.enc lift pdone fst] in *. apply Nat.eqb_eq in Hv. subst m.
        destruct H as [H2 H3].
        rewrite remaining_small by (assumption || lia).
        destruct (N.ltb_spec (N.of_nat (length data - pos)) (N.of_nat (length l))); [lia|].
        rewrite load_some by lia. now rewrite H3.
      + cbn [tall] in Ht. unfold rt_ok in Ht. cbn [own_extent delimited andb] in Ht. discriminate.
  Qed.

  (** Containers without a size: the target has as many elements. *)
  Lemma des_unsized_xround s contig t l pl pos :
    sz_of c s = SzNone -> wf G (TVec s contig t) = true -> plain (TVec s contig t) = true ->
    tall (rt_ok c) t = true -> tall (fun t => b || nrec t) t = true ->
    wt G (VSeq l) (TVec s contig t) = true -> snd (xenc (VSeq l) (TVec s contig t)) = None ->
    xreadable G F F' c (VSeq l) (TVec s contig t) -> (b = true -> height (VSeq l) <= n)%nat ->
    wt G (VSeq pl) (TVec s contig t) = true -> length pl = length l ->
    has pos (fst (xenc (VSeq l) (TVec s contig t))) ->
    des_ty G c data rec (TVec s contig t) (VSeq pl) pos
    = (ROk, VSeq l, (pos + length (fst (xenc (VSeq l) (TVec s contig t))))%nat).
  Proof.
    intros Es Hw Hp Ht Hb Hv Hs Hr Hh Hpr HL H.
    cbn [as_seq wt des_ty] in *. rewrite Es.
    cbn [wf] in Hw. apply andb_true_iff in Hw as [Hz Hw].
    unfold plain in Hp. cbn [tall elem_ok] in Hp. apply andb_true_iff in Hp as [He Hp].
    apply negb_true_iff in He. cbn [xreadable CustomWire.xenc] in *. destruct Hr as [_ R4].
    apply xseq_ok in Hs as (S1 & S2 & S3). rewrite S3 in *. cbn [xdone fst] in *.
    assert (Ew : wire_size o s (N.of_nat (length l)) = []).
    { unfold wire_size. change (match s with Some s0 => s0 | None => wsize o end) with (sz_of c s). now rewrite Es. }
    rewrite Ew in *. cbn [app] in *.
    apply des_elems_xreads; auto.
    - intro B. now apply andb_true_iff in B.
    - rewrite forallb_forall in Hv. intros x Hin Hsx prior pos' Hpx Hx'. apply des_ty_xround; auto.
      + exact (forallP_in _ _ _ R4 Hin).
      + intro B. specialize (Hh B). pose proof (height_in _ _ Hin). lia.
  Qed.
End Round.

Lemma readable_x G F F' c v : forall t, tall nrec t = true -> readable G c v t = true -> xreadable G F F' c v t.
Proof.
  induction v as [m|l IH| |v IH|i v IH| |l|l] using val_ind'; intros t Hn Hr;
    destruct t; cbn [xreadable readable tall nrec andb] in *; auto; try discriminate;
    try (destruct k; exact I || exact Hr; fail).
  - revert ms Hn Hr. induction IH as [|x l Hx _ IHl]; intros [|m ms] Hn Hr; cbn in *; auto; try discriminate.
    apply andb_true_iff in Hn as [N1 N2], Hr as [R1 R2]. auto.
  - apply forallP_intro. rewrite forallb_forall in Hr. rewrite Forall_forall in IH. auto.
  - revert ts Hn Hr. induction IH as [|x l Hx _ IHl]; intros [|m ms] Hn Hr; cbn in *; auto; try discriminate.
    apply andb_true_iff in Hn as [N1 N2], Hr as [R1 R2]. auto.
  - apply andb_true_iff in Hr as [R1 R2]. split; auto.
    apply forallP_intro. rewrite forallb_forall in R2. rewrite Forall_forall in IH. auto.
  - apply andb_true_iff in Hr as [R1 R2]. split; auto.
    apply forallP_intro. rewrite forallb_forall in R2. rewrite Forall_forall in IH. auto.
  - apply andb_true_iff in Hr as [R1 R2]. split; auto.
    apply forallP_intro. rewrite forallb_forall in R2. rewrite Forall_forall in IH. auto.
  - destruct (nth_error alts i) as [t'|] eqn:E; [|discriminate].
    apply IH; auto. rewrite forallb_forall in Hn. apply Hn. eapply nth_error_In; eauto.
Qed.

Definition plain_item (t : ty) : Prop := plain t = true.

Section RunRound.
  Variables (G : tenv) (F F' : funs) (c : cfg) (data : list byte).
  Hypothesis (HG : wf_env G) (Hds : wfsz (Some (dsize c)) = true) (Hsm : small data).
  Notation o := (fmt_of c).
  Notation xenc := (xenc G F o).
  Notation has := (has_at data).
  Definition loc_back (x : val) (t : ty) : Prop := tall (rt_ok c) t = true /\ readable G c x t = true.
  Definition mem_back (x : val) (t : ty) (y : val) : Prop := extent_known c x t y /\ xreadable G F F' c x t.

  (** [rec] reads back the classes nested in the members. *)
  Lemma run_in_round rec n ts l :
    (forall k v prior pos,
      (height v <= n)%nat -> wt G v (TRec k) = true -> snd (xenc v (TRec k)) = None ->
      xreadable G F F' c v (TRec k) -> wt G prior (TRec k) = true -> has pos (fst (xenc v (TRec k))) ->
      rec k prior pos = (ROk, v, (pos + length (fst (xenc v (TRec k))))%nat)) ->
    object G l ts -> (forall x, In x l -> (height x <= n)%nat) ->
    forall p q cur res, mirrors loc_back (map mem_back l) l p q cur res ->
    forall pos, sound G plain_item ts p -> sound G plain_item ts q -> object G cur ts ->
      snd (path G o (map xenc l) l p) = None -> has pos (fst (path G o (map xenc l) l p)) ->
      run_in (des_ty G c data rec) (des_ty G c data no_rec) q cur pos
      = (ROk, res, (pos + length (fst (path G o (map xenc l) l p)))%nat).
  Proof.
    intros Hrec Hl Hh p q cur res M. induction M as [cur|i t k k' cur x y rd res Hx Hrd Hy R M IH|t f f' k k' cur res R M IH|f k q cur res M IH|f p k cur res M IH];
      intros pos Sp Sq Ho Hs H; cbn [run_in path sound] in *.
    - cbn. f_equal. lia.
    - destruct Sp as ((t0 & E0 & Ht0) & Hw & Hp & Sp). destruct Sq as (_ & _ & _ & Sq).
      rewrite nth_error_map, Hx in Hrd. cbn in Hrd. injection Hrd as <-. destruct R as [Rx Rr].
      rewrite nth_error_map, Hx in *. cbn [option_map] in *. rewrite Hy.
      apply xseq_ok in Hs as (S1 & S2 & S3). rewrite S3 in *. apply has_at_app in H as [H1 H2].
      assert (Wx : wt G x t = true) by (rewrite Ht0; eapply nth_object; [exact Hl|..]; eauto).
      assert (Wy : wt G y t = true) by (rewrite Ht0; eapply nth_object; [exact Ho|..]; eauto).
      assert (Ho' : object G (set_nth i x cur) ts).
      { apply (forall2b_set _ _ _ _ _ t0 Ho E0). now rewrite <- Ht0. }
      assert (D : des_ty G c data rec t y pos = (ROk, x, (pos + length (fst (xenc x t)))%nat)).
      { pose proof (nth_error_In _ _ Hx) as Hin.
        destruct Rx as [Rt|(s & cg & t' & -> & Es & Rt & Rl)].
        - apply (des_ty_xround G F F' c data HG Hds Hsm rec n true); auto.
          apply tall_true. reflexivity.
        - destruct x as [|lx| | | | | |]; try discriminate. destruct y as [|ly| | | | | |]; try discriminate.
          apply (des_unsized_xround G F F' c data HG Hds Hsm rec n true); auto.
          apply tall_true. reflexivity. }
      rewrite D, IH; auto. rewrite app_length. f_equal. lia.
    - destruct Sp as (Hw & Hn & Hp & Hf & Sp). destruct Sq as (_ & _ & _ & Hf' & Sq).
      apply xseq_ok in Hs as (S1 & S2 & S3). rewrite S3 in *. apply has_at_app in H as [H1 H2].
      assert (E : xenc (f l) t = lift (enc G o (f l) t)) by (apply xenc_norec; auto).
      rewrite <- E in *. destruct R as [R1 R2].
      rewrite (des_ty_xround G F F' c data HG Hds Hsm no_rec O false) with (v := f l); auto; try discriminate.
      + rewrite IH; auto. rewrite app_length. f_equal. lia.
      + apply readable_x; auto.
    - destruct Sp as [_ Sp]. auto.
    - destruct Sq as [Sf Sq]. auto.
  Qed.

  Hypothesis (HF : forall k, sound G plain_item (t_mems G k) (F k)).
  Hypothesis (HF' : forall k, sound G plain_item (t_mems G k) (F' k)).

  Lemma cdes_rec_round fuel : forall k v prior pos,
    (height v <= fuel)%nat -> wt G v (TRec k) = true -> snd (xenc v (TRec k)) = None ->
    xreadable G F F' c v (TRec k) -> wt G prior (TRec k) = true -> has pos (fst (xenc v (TRec k))) ->
    cdes_rec G F' c data fuel k prior pos = (ROk, v, (pos + length (fst (xenc v (TRec k))))%nat).
  Proof.
    induction fuel as [|n IH]; intros k v prior pos Hh Hv Hs Hr Hp H.
    { destruct v; cbn in Hh; lia. }
    destruct v as [|l| | | | | |]; try discriminate. destruct prior as [|pl| | | | | |]; try discriminate.
    cbn [cdes_rec as_seq xreadable wt CustomWire.xenc] in *.
    rewrite (run_in_round _ n (t_mems G k) l IH Hv) with (p := F k) (res := l); auto.
    - intros x Hin. pose proof (height_in _ _ Hin). lia.
  Qed.

  Theorem cdes_round v t fuel prior pos :
    wf G t = true -> plain t = true -> tall (rt_ok c) t = true ->
    wt G v t = true -> snd (xenc v t) = None -> xreadable G F F' c v t ->
    (height v <= fuel)%nat -> wt G prior t = true -> has pos (fst (xenc v t)) ->
    cdes G F' c data fuel t prior pos = (ROk, v, (pos + length (fst (xenc v t)))%nat).
  Proof.
    intros. unfold cdes. apply (des_ty_xround G F F' c data HG Hds Hsm _ fuel true); auto.
    - intros _. apply cdes_rec_round.
    - apply tall_true. reflexivity.
  Qed.

  (** One object, whatever the reader makes of it. *)
  Theorem cdes_mirror k l pl res fuel pos :
    wt G (VSeq l) (TRec k) = true -> wt G (VSeq pl) (TRec k) = true -> (height (VSeq l) <= fuel)%nat ->
    snd (xenc (VSeq l) (TRec k)) = None -> has pos (fst (xenc (VSeq l) (TRec k))) ->
    mirrors loc_back (map mem_back l) l (F k) (F' k) pl res ->
    cdes G F' c data fuel (TRec k) (VSeq pl) pos
    = (ROk, VSeq res, (pos + length (fst (xenc (VSeq l) (TRec k))))%nat).
  Proof.
    intros Hv Hp Hh Hs H M. unfold cdes. destruct fuel as [|n]; [cbn in Hh; lia|].
    cbn [des_ty cdes_rec as_seq wt CustomWire.xenc] in *.
    rewrite (run_in_round _ n (t_mems G k) l (cdes_rec_round n) Hv) with (p := F k) (res := res); auto.
    intros x Hin. pose proof (height_in _ _ Hin). lia.
  Qed.
End RunRound.
