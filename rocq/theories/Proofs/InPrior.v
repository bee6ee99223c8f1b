(** The result of reading does not depend on the previous contents of the target. *)

From Coq Require Import List NArith ZArith Lia Bool Arith.
From Coq Require Import ZifyBool ZifyNat ZifyN.
From Verif Require Import Base.Bytes Model.Types Model.Machine Model.Varint Model.Out Model.In
  Spec.Leb128 Spec.Wire Proofs.VarintP Proofs.OutP Proofs.InBase Proofs.InSafe Proofs.InLocal.
Import ListNotations.
Local Open Scope N_scope.

Ltac Zify.zify_post_hook ::= Z.div_mod_to_equations.

(** Not an unsized container or mutable span, whose extent is taken from the target. *)
Definition own_extent (c : cfg) (t : ty) : bool :=
  match t with
  | TVec s _ _ | TAssoc s _ _ => match sz_of c s with SzNone => false | _ => true end
  | TSpan _ _ => false
  | _ => true
  end.

Definition same_result {A} (x1 x2 : res * A * nat) : Prop :=
  fst (fst x1) = RThrow \/ fst (fst x2) = RThrow \/
  (fst (fst x1) = fst (fst x2) /\ snd x1 = snd x2 /\ (fst (fst x1) = ROk -> snd (fst x1) = snd (fst x2))).

Lemma same_refl {A} (x : res * A * nat) : same_result x x.
Proof. right; right. auto. Qed.

Section Prior.
  Variables (G : tenv) (c : cfg) (data : list byte).
  Hypothesis (HG : wf_env G) (Hds : wfsz (Some (dsize c)) = true) (Hsm : small data).

  Definition indep (t : ty) (f : val -> nat -> dres) : Prop :=
    forall v1 v2 pos, (pos <= length data)%nat -> wt G v1 t = true -> wt G v2 t = true ->
      same_result (f v1 pos) (f v2 pos).

  Notation safe := (safe_f G data true true).

  Lemma des_many_indep f ms :
    Forall (fun m => safe m (f m)) ms -> Forall (fun m => indep m (f m)) ms ->
    forall l1 l2 pos, (pos <= length data)%nat ->
      forall2b (fun x m => wt G x m) l1 ms = true -> forall2b (fun x m => wt G x m) l2 ms = true ->
      same_result (des_many f ms l1 pos) (des_many f ms l2 pos).
  Proof.
    induction ms as [|m ms IH]; intros HS HI l1 l2 pos Hp H1 H2; cbn [des_many]; [apply same_refl|].
    inversion HS as [|? ? HSm HSs]; inversion HI as [|? ? HIm HIs]; subst.
    destruct l1 as [|x1 l1]; [discriminate|]. destruct l2 as [|x2 l2]; [discriminate|].
    cbn [forall2b tl] in *. apply andb_true_iff in H1 as [Hx1 H1]. apply andb_true_iff in H2 as [Hx2 H2].
    pose proof (HIm x1 x2 pos Hp Hx1 Hx2) as I. pose proof (HSm x1 pos Hp Hx1) as S.
    destruct (f m x1 pos) as [[r1 v1] p1]. destruct (f m x2 pos) as [[r2 v2] p2].
    unfold same_result in I. cbn [fst snd safe_out] in I, S. unfold same_result.
    destruct I as [->|[->|(-> & -> & Iv)]].
    - left. reflexivity.
    - right. left. reflexivity.
    - destruct r2; try (right; right; cbn [fst snd]; repeat split; [congruence..]).
      specialize (Iv eq_refl). subst v2.
      specialize (IH HSs HIs l1 l2 p2 ltac:(lia) H1 H2). unfold same_result in IH.
      destruct (des_many f ms l1 p2) as [[r3 l3] p3]. destruct (des_many f ms l2 p2) as [[r4 l4] p4].
      cbn [fst snd] in *. destruct IH as [->|[->|(-> & -> & Iv)]]; auto.
      right; right. repeat split. intro E. now rewrite (Iv E).
  Qed.

  Lemma des_all_indep f t :
    safe t f -> indep t f ->
    forall l1 l2 pos, (pos <= length data)%nat -> length l1 = length l2 ->
      forallb (fun x => wt G x t) l1 = true -> forallb (fun x => wt G x t) l2 = true ->
      same_result (des_all f l1 pos) (des_all f l2 pos).
  Proof.
    intros HS HI. induction l1 as [|x1 l1 IH]; intros [|x2 l2] pos Hp Hl H1 H2; try discriminate;
      cbn [des_all]; [apply same_refl|].
    cbn [forallb] in *. apply andb_true_iff in H1 as [Hx1 H1]. apply andb_true_iff in H2 as [Hx2 H2].
    pose proof (HI x1 x2 pos Hp Hx1 Hx2) as I. pose proof (HS x1 pos Hp Hx1) as S.
    destruct (f x1 pos) as [[r1 v1] p1]. destruct (f x2 pos) as [[r2 v2] p2].
    unfold same_result in I. cbn [fst snd safe_out] in I, S. unfold same_result.
    destruct I as [->|[->|(-> & -> & Iv)]].
    - left. reflexivity.
    - right. left. reflexivity.
    - destruct r2; try (right; right; cbn [fst snd]; repeat split; [congruence..]).
      specialize (Iv eq_refl). subst v2.
      specialize (IH l2 p2 ltac:(lia) ltac:(now injection Hl) H1 H2). unfold same_result in IH.
      destruct (des_all f l1 p2) as [[r3 l3] p3]. destruct (des_all f l2 p2) as [[r4 l4] p4].
      cbn [fst snd] in *. destruct IH as [->|[->|(-> & -> & Iv)]]; auto.
      right; right. repeat split. intro E. now rewrite (Iv E).
  Qed.

  Lemma seq_same x1 x2 : same_result x1 x2 -> same_result (seq_res x1) (seq_res x2).
  Proof.
    destruct x1 as [[r1 l1] p1], x2 as [[r2 l2] p2]. unfold same_result. cbn [seq_res fst snd].
    intros [H|[H|(H1 & H2 & H3)]]; auto. right; right. repeat split; auto. intro E. f_equal. auto.
  Qed.

  Lemma des_bytes_indep t n l1 l2 pos :
    (0 < bsize t)%nat -> (pos <= length data)%nat -> length l1 = n -> length l2 = n ->
    same_result (des_bytes c data t n l1 pos) (des_bytes c data t n l2 pos).
  Proof.
    intros Hb Hp H1 H2. rewrite !des_bytes_eq by assumption.
    destruct (Nat.eqb_spec (n * bsize t) 0).
    - destruct n; [|lia]. destruct l1, l2; try discriminate. apply same_refl.
    - destruct (_ <=? _)%nat; [destruct (parse_all _ _ _ _)|]; right; right; cbn [fst snd];
        repeat split; congruence.
  Qed.

  Lemma des_elems_indep (b : bool) f t l1 l2 pos :
    wf G t = true -> (b = true -> bs t = true) -> safe t f -> indep t f ->
    (pos <= length data)%nat -> length l1 = length l2 ->
    forallb (fun x => wt G x t) l1 = true -> forallb (fun x => wt G x t) l2 = true ->
    same_result (des_elems c data b f t l1 pos) (des_elems c data b f t l2 pos).
  Proof.
    intros Hw Hb HS HI Hp Hl H1 H2. unfold des_elems. apply seq_same. destruct b.
    - rewrite Hl. apply des_bytes_indep; auto. eapply bs_bsize_pos; eauto.
    - now apply (des_all_indep f t).
  Qed.

  Lemma des_inplace_indep dc f wrap cur1 cur2 d prior1 prior2 pos t :
    indep t f -> wt G d t = true ->
    (forall x, cur1 = Some x -> wt G x t = true) -> (forall x, cur2 = Some x -> wt G x t = true) ->
    (pos <= length data)%nat ->
    same_result (des_inplace dc f wrap cur1 d prior1 pos) (des_inplace dc f wrap cur2 d prior2 pos).
  Proof.
    intros HI Hd Hc1 Hc2 Hp. unfold des_inplace. destruct dc.
    - set (x1 := match cur1 with Some x => x | None => d end).
      set (x2 := match cur2 with Some x => x | None => d end).
      assert (Hx1 : wt G x1 t = true) by (unfold x1; destruct cur1; auto).
      assert (Hx2 : wt G x2 t = true) by (unfold x2; destruct cur2; auto).
      pose proof (HI x1 x2 pos Hp Hx1 Hx2) as I. unfold same_result in *.
      destruct (f x1 pos) as [[r1 v1] p1]. destruct (f x2 pos) as [[r2 v2] p2]. cbn [fst snd] in *.
      destruct I as [->|[->|(-> & -> & Iv)]]; auto. right; right. repeat split.
      intro E. f_equal. auto.
    - destruct (f d pos) as [[r v] p]. right; right.
      destruct r; cbn [fst snd]; repeat split; congruence.
  Qed.

  Lemma des_ptr_indep f d prior1 prior2 pos :
    same_result (des_ptr f d prior1 pos) (des_ptr f d prior2 pos).
  Proof.
    unfold des_ptr. destruct (f d pos) as [[r v] p]. right; right.
    destruct r; cbn [fst snd]; repeat split; congruence.
  Qed.

  Variable rec : nat -> val -> nat -> dres.
  Hypothesis Hrec : forall k, safe (TRec k) (rec k).
  Hypothesis Hind : forall k, indep (TRec k) (rec k).

  Lemma keep_same r (v1 v2 : val) p : r <> ROk -> same_result (r, v1, p) (r, v2, p).
  Proof. intro H. right; right. cbn [fst snd]. repeat split. congruence. Qed.

  Lemma des_ty_indep t :
    wf G t = true -> tall (own_extent c) t = true -> tallP (cmp_ok G) t ->
    indep t (des_ty G c data rec t).
  Proof.
    induction t using ty_ind'; intros Hw Hf Hcp v1 v2 pos Hp H1 H2.
    - cbn [des_ty]. rewrite !des_scalar_eq by assumption.
      destruct (_ <=? _)%nat; [apply same_refl|]. apply keep_same. discriminate.
    - cbn [des_ty]. rewrite !des_scalar_eq by assumption.
      destruct (_ <=? _)%nat; [|apply keep_same; discriminate].
      destruct (_ <? 2); [apply same_refl|]. apply keep_same. discriminate.
    - cbn [des_ty wf] in *. rewrite !des_varint_eq by assumption.
      destruct (leb_value _) as [[? ?]|]; [apply same_refl|]. apply keep_same. discriminate.
    - cbn [des_ty]. destruct v1 as [|[]| | | | | |], v2 as [|[]| | | | | |]; try discriminate. apply same_refl.
    - (* struct *)
      cbn [des_ty]. destruct (negb (s_expl si) && is_empty (TStruct si ms)) eqn:Ee.
      { apply andb_true_iff in Ee as [_ Ee]. destruct ms; [|discriminate].
        destruct v1 as [|[]| | | | | |], v2 as [|[]| | | | | |]; try discriminate. apply same_refl. }
      destruct (as_bytes c (TStruct si ms)) eqn:Eb.
      + pose proof (bs_bsize_pos G _ Hw (as_bytes_bs _ _ Eb)) as Hb.
        rewrite !des_bytes_eq by assumption. rewrite Nat.mul_1_l.
        destruct (Nat.eqb_spec (bsize (TStruct si ms)) 0); [lia|].
        destruct (_ <=? _)%nat; [|apply keep_same; discriminate].
        destruct (parse_all _ _ _ _) as [vs|] eqn:Ep; [|apply keep_same; discriminate].
        cbn [parse_all] in Ep. destruct (objparse _ _ _); [|discriminate]. injection Ep as <-.
        apply same_refl.
      + destruct v1 as [|l1| | | | | |], v2 as [|l2| | | | | |]; try discriminate.
        cbn [as_seq wt] in *.
        cbn [wf] in Hw. rewrite !andb_true_iff in Hw. destruct Hw as [[_ Hw] _].
        cbn [tall] in Hf. apply andb_true_iff in Hf as [_ Hf].
        cbn [tallP] in Hcp. destruct Hcp as [_ Hcp]. apply tallP_list in Hcp.
        rewrite forallb_forall in Hw, Hf. rewrite Forall_forall in H, Hcp.
        apply seq_same, des_many_indep; auto; rewrite Forall_forall; intros m Hin.
        * eapply bytes_f_safe; auto.
        * apply H; auto.
    - cbn [des_ty]. now apply Hind.
    - (* array *)
      destruct v1 as [|l1| | | | | |], v2 as [|l2| | | | | |]; try discriminate.
      cbn [des_ty as_seq wt] in *. apply andb_true_iff in H1 as [N1 H1]. apply andb_true_iff in H2 as [N2 H2].
      cbn [wf] in Hw. apply andb_true_iff in Hw as [_ Hw].
      cbn [tall tallP] in *. apply andb_true_iff in Hf as [_ Hf]. destruct Hcp as [_ Hcp].
      apply des_elems_indep; auto; [apply as_bytes_bs|now eapply bytes_f_safe|lia].
    - (* tuple *)
      destruct v1 as [|l1| | | | | |], v2 as [|l2| | | | | |]; try discriminate.
      cbn [des_ty as_seq wt wf] in *.
      cbn [tall] in Hf. apply andb_true_iff in Hf as [_ Hf].
      cbn [tallP] in Hcp. destruct Hcp as [_ Hcp]. apply tallP_list in Hcp.
      rewrite forallb_forall in Hw, Hf. rewrite Forall_forall in H, Hcp.
      apply seq_same, des_many_indep; auto; rewrite Forall_forall; intros m Hin.
      * eapply bytes_f_safe; auto.
      * apply H; auto.
    - (* vec *)
      destruct v1 as [|l1| | | | | |], v2 as [|l2| | | | | |]; try discriminate.
      cbn [des_ty as_seq wt] in *.
      cbn [wf] in Hw. apply andb_true_iff in Hw as [Hs Hw].
      cbn [tall tallP own_extent] in *. apply andb_true_iff in Hf as [Hx Hf]. destruct Hcp as [_ Hcp].
      assert (Hb : as_bytes c t && cg = true -> bs t = true)
        by (intro Hb; apply andb_true_iff in Hb as [Hb _]; eapply as_bytes_bs; eauto).
      assert (St : safe t (des_ty G c data rec t)) by now eapply bytes_f_safe.
      assert (L : same_result
        match des_size c data (sz_of c s) pos with
            | (ROk, n, pos') =>
                match vec_resize G c t n l1 with
                | (ROk, l) => des_elems c data (as_bytes c t && cg) (des_ty G c data rec t) t l pos'
                | (r, l) => (r, VSeq l, pos')
                end
            | (r, _, pos') => (r, VSeq l1, pos')
            end
        match des_size c data (sz_of c s) pos with
            | (ROk, n, pos') =>
                match vec_resize G c t n l2 with
                | (ROk, l) => des_elems c data (as_bytes c t && cg) (des_ty G c data rec t) t l pos'
                | (r, l) => (r, VSeq l, pos')
                end
            | (r, _, pos') => (r, VSeq l2, pos')
            end).
      { apply (wfsz_sz_of c _ Hds) in Hs.
        pose proof (des_size_safe c _ Hs data pos Hsm Hp) as S. cbn beta in S.
        destruct (des_size c data (sz_of c s) pos) as [[r n] p1].
        destruct r; try (apply keep_same; discriminate).
        destruct (vec_resize G c t n l1) as [r1 l1'] eqn:E1.
        destruct (vec_resize G c t n l2) as [r2 l2'] eqn:E2.
        pose proof (vec_resize_wt G c true true HG t n l1 r1 l1' Hw H1 E1) as (V1 & _ & N1).
        pose proof (vec_resize_wt G c true true HG t n l2 r2 l2' Hw H2 E2) as (V2 & _ & N2).
        unfold vec_resize in E1, E2. destruct (over_limit c t n).
        { injection E1 as <- <-. injection E2 as <- <-. apply keep_same. discriminate. }
        destruct (_ || _) in E1; [|injection E1 as <- <-; left; reflexivity].
        destruct (_ || _) in E2; [|injection E2 as <- <-; right; left; reflexivity].
        injection E1 as <- _. injection E2 as <- _.
        apply des_elems_indep; auto; [lia|]. now rewrite N1, N2. }
      destruct (sz_of c s); [discriminate|exact L..].
    - (* assoc *)
      cbn [des_ty tall tallP own_extent] in *. apply andb_true_iff in Hf as [Hx Hf].
      destruct (sz_of c s); [discriminate|..];
      (destruct (des_size _ _ _ _) as [[r n] p1]; destruct r; try (apply keep_same; discriminate); apply same_refl).
    - (* opt *)
      cbn [des_ty wf] in *. cbn [tall tallP] in *. apply andb_true_iff in Hf as [_ Hf].
      destruct Hcp as [_ Hcp]. unfold des_flag in *.
      pose proof (des_scalar_safe c 1 0 data pos Hsm Hp) as S. cbn beta in S.
      destruct (des_scalar c data 1 0 pos) as [[r n] p1]. destruct r; try (apply keep_same; discriminate).
      destruct n; [apply same_refl|].
      eapply des_inplace_indep with (t := t); auto; [now apply wt_dflt|..|lia].
      + intros x Hx. destruct v1; try discriminate. injection Hx as <-. exact H1.
      + intros x Hx. destruct v2; try discriminate. injection Hx as <-. exact H2.
    - (* optptr *)
      cbn [des_ty]. unfold des_flag.
      destruct (des_scalar c data 1 0 pos) as [[r n] p1]. destruct r; try (apply keep_same; discriminate).
      destruct n; [apply same_refl|]. apply des_ptr_indep.
    - cbn [des_ty]. apply des_ptr_indep.
    - (* variant *)
      rewrite !des_variant_eq.
      cbn [tall tallP] in *. apply andb_true_iff in Hf as [_ Hf].
      destruct Hcp as [_ Hcp]. apply tallP_list in Hcp.
      cbn [wf] in Hw. rewrite !andb_true_iff in Hw. destruct Hw as [[[[Hl Hm] Hd] Hi] Hw].
      pose proof (des_id_safe c ik data pos Hsm Hp) as S. cbn beta in S.
      destruct (des_id c data ik pos) as [[r n] p1]. destruct r; try (apply keep_same; discriminate).
      destruct (find_id meta n) as [i|]; [|apply keep_same; discriminate].
      destruct (nth_error alts i) as [t'|] eqn:Ea; [|apply keep_same; discriminate].
      pose proof (nth_error_In _ _ Ea) as Hin.
      rewrite forallb_forall in Hw, Hf. rewrite Forall_forall in H, Hcp.
      eapply des_inplace_indep with (t := t'); auto; [apply wt_dflt; auto|..|lia].
      + intros x Hx. destruct v1; try discriminate. cbn [active] in Hx.
        destruct (Nat.eqb_spec i i0) as [->|]; [|discriminate]. injection Hx as <-.
        cbn [wt] in H1. now rewrite Ea in H1.
      + intros x Hx. destruct v2; try discriminate. cbn [active] in Hx.
        destruct (Nat.eqb_spec i i0) as [->|]; [|discriminate]. injection Hx as <-.
        cbn [wt] in H2. now rewrite Ea in H2.
    - (* bitset *)
      cbn [des_ty]. unfold des_bitset.
      destruct (_ <? _); [apply keep_same; discriminate|].
      destruct (load _ _ _); [apply same_refl|apply keep_same; discriminate].
    - (* view *)
      destruct k as [s|n|]; cbn [des_ty].
      + destruct (des_size _ _ _ _) as [[r n] p1]. destruct r; try (apply keep_same; discriminate).
        destruct (sz_of c s); [destruct (load _ _ _); [apply same_refl|apply keep_same; discriminate]|..];
        (destruct (_ <? _); [apply keep_same; discriminate|];
         destruct (load _ _ _); [apply same_refl|apply keep_same; discriminate]).
      + destruct (_ <? _); [apply keep_same; discriminate|].
        destruct (load _ _ _); [apply same_refl|apply keep_same; discriminate].
      + destruct (load _ _ _); [apply same_refl|apply keep_same; discriminate].
    - cbn [tall own_extent] in Hf. discriminate.
  Qed.
End Prior.

Section PriorRec.
  Variables (G : tenv) (c : cfg) (data : list byte).
  Hypothesis (HG : wf_env G) (Hds : wfsz (Some (dsize c)) = true) (Hsm : small data).
  Hypothesis (Hcmp : tallP_env (cmp_ok G) G).
  Hypothesis (Hox : tall_env (own_extent c) G).

  Lemma des_rec_indep fuel k : indep G data (TRec k) (des_rec G c data fuel k).
  Proof.
    revert k. induction fuel as [|f IH]; intros k v1 v2 pos Hp H1 H2; cbn [des_rec].
    - apply keep_same. discriminate.
    - destruct v1 as [|l1| | | | | |], v2 as [|l2| | | | | |]; try discriminate. cbn [as_seq wt] in *.
      destruct (HG k) as [Hw _]. specialize (Hox k) as Hf. specialize (Hcmp k) as Hcp.
      rewrite forallb_forall in Hw, Hf. rewrite Forall_forall in Hcp.
      assert (SF : forall k0, safe_f G data true true (TRec k0) (des_rec G c data f k0))
        by (intro k0; apply des_rec_safe; auto using flagged_env_true).
      apply seq_same, (des_many_indep G c data); auto; rewrite Forall_forall; intros m Hin.
      + apply bytes_f_safe; auto.
      + apply des_ty_indep; auto.
  Qed.

  Lemma des_indep fuel t :
    wf G t = true -> tall (own_extent c) t = true -> tallP (cmp_ok G) t ->
    indep G data t (des G c data fuel t).
  Proof.
    intros. unfold des. apply des_ty_indep; auto using des_rec_indep.
    intro k. apply des_rec_safe; auto using flagged_env_true.
  Qed.
End PriorRec.
