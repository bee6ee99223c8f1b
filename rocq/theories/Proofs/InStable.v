(** Errors other than result_out_of_range do not depend on data that is still to come. *)

From Coq Require Import List NArith ZArith Lia Bool Arith.
From Coq Require Import ZifyBool ZifyNat ZifyN.
From Verif Require Import Base.Bytes Model.Types Model.Machine Model.Varint Model.Out Model.In
  Spec.Leb128 Spec.Wire Proofs.VarintP Proofs.OutP Proofs.InBase Proofs.InSafe Proofs.InLocal.
Import ListNotations.
Local Open Scope N_scope.

Ltac Zify.zify_post_hook ::= Z.div_mod_to_equations.

Section Stable.
  Variables (G : tenv) (c : cfg) (data more : list byte).
  Notation data' := (data ++ more).
  Hypothesis (HG : wf_env G) (Hds : wfsz (Some (dsize c)) = true).
  Hypothesis (Hsm : small data) (Hsm' : small data').
  Hypothesis (Hcmp : tallP_env (cmp_ok G) G).

  (** The outcome is result_out_of_range, or the same with more data. *)
  Definition settled {A} (x x' : res * A * nat) : Prop :=
    fst (fst x) = RErr result_out_of_range \/ x' = x.

  Definition stable_f (t : ty) (f f' : val -> nat -> dres) : Prop :=
    forall prior pos, (pos <= length data)%nat -> wt G prior t = true ->
      settled (f prior pos) (f' prior pos).

  Definition nstable (g : nread) : Prop :=
    forall pos, (pos <= length data)%nat -> settled (g data pos) (g data' pos).

  Notation safe := (safe_f G data true true).

  Lemma more_agree p q : (q <= length data)%nat -> agree data data' p q.
  Proof.
    intros Hq i Hi. rewrite nth_error_app1; [reflexivity|lia].
  Qed.

  Lemma more_window p n : (p + n <= length data)%nat -> window data' p n = window data p n.
  Proof.
    intro H. unfold window. rewrite skipn_app. rewrite firstn_app.
    rewrite skipn_length. replace (n - (length data - p))%nat with 0%nat by lia.
    cbn [firstn]. apply app_nil_r.
  Qed.

  Lemma scalar_stable w prior : nstable (fun d => des_scalar c d w prior).
  Proof.
    intros pos Hp. cbn beta.
    rewrite (des_scalar_eq c data) by auto. rewrite (des_scalar_eq c data') by (auto; rewrite app_length; lia).
    destruct (Nat.leb_spec (pos + w) (length data)); [|now left].
    right. rewrite app_length. destruct (Nat.leb_spec (pos + w) (length data + length more)); [|lia].
    now rewrite more_window.
  Qed.

  Lemma varint_stable w zz prior : wfw w = true -> nstable (fun d => des_varint w zz prior d).
  Proof.
    intros Hw pos Hp. cbn beta.
    pose proof (des_varint_local w zz prior Hw data data' pos) as L.
    rewrite (des_varint_eq w zz prior data) in * by auto.
    destruct (leb_value _) as [[v k]|] eqn:E.
    - right. pose proof (leb_value_bounds _ _ _ E) as B. rewrite firstn_length, skipn_length in B.
      specialize (L _ _ Hsm Hsm' Hp ltac:(rewrite app_length; lia) eq_refl
        ltac:(apply more_agree; rewrite app_length; lia)).
      cbn beta in L. destruct (Nat.leb_spec (pos + k) (length data')) as [|Hx]; [exact L|].
      rewrite app_length in Hx. lia.
    - destruct (length data - pos <? varint_max_size w)%nat eqn:El; [now left|]. right.
      rewrite (des_varint_eq w zz prior data') by (auto; rewrite app_length; lia).
      assert (Hf : firstn (varint_max_size w) (skipn pos data') = firstn (varint_max_size w) (skipn pos data)).
      { apply Nat.ltb_ge in El. apply (more_window pos (varint_max_size w)). lia. }
      rewrite Hf, E.
      destruct (length data' - pos <? varint_max_size w)%nat eqn:El'; [|reflexivity].
      apply Nat.ltb_ge in El. apply Nat.ltb_lt in El'. rewrite app_length in El'. lia.
  Qed.

  Lemma size_stable s : wfsz (Some s) = true -> nstable (fun d => des_size c d s).
  Proof.
    intros Hs pos Hp. destruct s as [|w|w]; cbn [des_size].
    - now right.
    - now apply (scalar_stable w 0).
    - now apply (varint_stable w false 0 Hs).
  Qed.

  Lemma load_more pos n e : load data pos n = Some e -> load data' pos n = Some e.
  Proof.
    unfold load. destruct (Nat.leb_spec (pos + n) (length data)); [|discriminate]. intro E.
    rewrite app_length. destruct (Nat.leb_spec (pos + n) (length data + length more)); [|lia].
    now rewrite more_window.
  Qed.

  Lemma remaining_more pos n : (pos <= length data)%nat ->
    remaining data pos <? n = false -> remaining data' pos <? n = false.
  Proof.
    intros Hp. rewrite !remaining_small; auto; [|rewrite app_length; lia].
    rewrite !N.ltb_ge, app_length. lia.
  Qed.

  Lemma load_ok pos n : (pos <= length data)%nat -> remaining data pos <? N.of_nat n = false ->
    load data pos n = Some (window data pos n).
  Proof.
    intros Hp H. rewrite remaining_small in H by assumption. apply N.ltb_ge in H.
    apply load_some. lia.
  Qed.

  Lemma id_stable ik : nstable (fun d => des_id c d ik).
  Proof.
    intros pos Hp. destruct ik as [w|n]; cbn [des_id].
    - now apply (scalar_stable w 0).
    - destruct (remaining data pos <? N.of_nat n) eqn:E; [now left|]. right.
      rewrite (remaining_more _ _ Hp E), (load_ok _ _ Hp E), (load_more _ _ _ (load_ok _ _ Hp E)).
      reflexivity.
  Qed.

  Lemma bytes_stable t n xs pos : (pos <= length data)%nat ->
    settled (des_bytes c data t n xs pos) (des_bytes c data' t n xs pos).
  Proof.
    intro Hp. unfold des_bytes.
    destruct (_ =? 0); [now right|].
    destruct (remaining data pos <? N.of_nat n * N.of_nat (bsize t)) eqn:E; [now left|]. right.
    rewrite (remaining_more _ _ Hp E). rewrite <- Nat2N.inj_mul in E.
    now rewrite (load_ok _ _ Hp E), (load_more _ _ _ (load_ok _ _ Hp E)).
  Qed.

  Lemma many_stable f f' ms :
    Forall (fun m => safe m (f m)) ms -> Forall (fun m => stable_f m (f m) (f' m)) ms ->
    forall priors pos, (pos <= length data)%nat ->
      forall2b (fun x m => wt G x m) priors ms = true ->
      settled (des_many f ms priors pos) (des_many f' ms priors pos).
  Proof.
    induction ms as [|m ms IH]; intros HS HL priors pos Hp Hw; cbn [des_many]; [now right|].
    inversion HS as [|? ? HSm HSs]; inversion HL as [|? ? HLm HLs]; subst.
    destruct priors as [|x priors]; [discriminate|]. cbn [forall2b tl] in *.
    apply andb_true_iff in Hw as [Hx Hw].
    pose proof (HSm x pos Hp Hx) as S. specialize (HLm x pos Hp Hx). unfold settled in HLm.
    destruct (f m x pos) as [[r v] p1]. cbn [safe_out] in S. destruct S as (S1 & _).
    destruct HLm as [E|E]; [cbn [fst] in E; subst r; now left|]. rewrite E.
    destruct r; try now right.
    specialize (IH HSs HLs priors p1 ltac:(lia) Hw). unfold settled in *.
    destruct (des_many f ms priors p1) as [[r2 l2] p2]. cbn [fst] in *.
    destruct IH as [IH|IH]; [subst; now left|]. rewrite IH. now right.
  Qed.

  Lemma all_stable f f' t :
    safe t f -> stable_f t f f' ->
    forall xs pos, (pos <= length data)%nat -> forallb (fun x => wt G x t) xs = true ->
      settled (des_all f xs pos) (des_all f' xs pos).
  Proof.
    intros HS HL. induction xs as [|x xs IH]; intros pos Hp Hw; cbn [des_all]; [now right|].
    cbn [forallb] in *. apply andb_true_iff in Hw as [Hx Hw].
    pose proof (HS x pos Hp Hx) as S. pose proof (HL x pos Hp Hx) as L. unfold settled in L.
    destruct (f x pos) as [[r v] p1]. cbn [safe_out] in S. destruct S as (S1 & _).
    destruct L as [E|E]; [cbn [fst] in E; subst r; now left|]. rewrite E.
    destruct r; try now right.
    specialize (IH p1 ltac:(lia) Hw). unfold settled in *.
    destruct (des_all f xs p1) as [[r2 l2] p2]. cbn [fst] in *.
    destruct IH as [IH|IH]; [subst; now left|]. rewrite IH. now right.
  Qed.

  Lemma assoc_stable f f' ins d t :
    safe t f -> stable_f t f f' -> wt G d t = true ->
    forall n acc pos, (pos <= length data)%nat ->
      settled (des_assoc f ins d n acc pos) (des_assoc f' ins d n acc pos).
  Proof.
    intros HS HL Hd. induction n as [|n IH]; intros acc pos Hp; cbn [des_assoc]; [now right|].
    pose proof (HS d pos Hp Hd) as S. pose proof (HL d pos Hp Hd) as L. unfold settled in L.
    destruct (f d pos) as [[r v] p1]. cbn [safe_out] in S. destruct S as (S1 & _).
    destruct L as [E|E]; [cbn [fst] in E; subst r; now left|]. rewrite E.
    destruct r; try now right. apply IH. lia.
  Qed.

  Lemma seq_settled x x' : settled x x' -> settled (seq_res x) (seq_res x').
  Proof.
    unfold settled. destruct x as [[r l] p]. cbn [fst seq_res]. intros [E|E]; [now left|].
    right. now rewrite E.
  Qed.

  Lemma elems_stable b f f' t xs pos :
    safe t f -> stable_f t f f' -> (pos <= length data)%nat -> forallb (fun x => wt G x t) xs = true ->
    settled (des_elems c data b f t xs pos) (des_elems c data' b f' t xs pos).
  Proof.
    intros HS HL Hp Hw. unfold des_elems. destruct b; apply seq_settled.
    - now apply bytes_stable.
    - now apply (all_stable _ _ t).
  Qed.

  Lemma inplace_stable dc f f' wrap cur d prior pos t :
    stable_f t f f' -> wt G d t = true -> (forall x, cur = Some x -> wt G x t = true) ->
    (pos <= length data)%nat ->
    settled (des_inplace dc f wrap cur d prior pos) (des_inplace dc f' wrap cur d prior pos).
  Proof.
    intros HL Hd Hc Hp. unfold des_inplace. destruct dc.
    - assert (Hx : wt G (match cur with Some x => x | None => d end) t = true) by (destruct cur; auto).
      specialize (HL _ pos Hp Hx). unfold settled in *.
      destruct (f _ pos) as [[r x] q]. cbn [fst] in *.
      destruct HL as [E|E]; [now left|]. rewrite E. now right.
    - specialize (HL d pos Hp Hd). unfold settled in *.
      destruct (f d pos) as [[r x] q]. cbn [fst] in *.
      destruct HL as [E|E]; [subst r; now left|]. rewrite E. destruct r; now right.
  Qed.

  Lemma ptr_stable f f' d prior pos t :
    stable_f t f f' -> wt G d t = true -> (pos <= length data)%nat ->
    settled (des_ptr f d prior pos) (des_ptr f' d prior pos).
  Proof.
    intros HL Hd Hp. unfold des_ptr. specialize (HL d pos Hp Hd). unfold settled in *.
    destruct (f d pos) as [[r x] q]. cbn [fst] in *.
    destruct HL as [E|E]; [subst r; now left|]. rewrite E. destruct r; now right.
  Qed.

  (** A number, then something that depends on it. *)
  Lemma then_stable {A} (g : nread) pos (k k' : N -> nat -> res * A * nat) (e e' : res -> N -> nat -> res * A * nat) :
    nstable g -> (forall r n p, fst (fst (e r n p)) = r) -> (forall r n p, e' r n p = e r n p) ->
    (pos <= length data)%nat ->
    (forall n p, g data pos = (ROk, n, p) -> settled (k n p) (k' n p)) ->
    settled (match g data pos with (ROk, n, p) => k n p | (r, n, p) => e r n p end)
            (match g data' pos with (ROk, n, p) => k' n p | (r, n, p) => e' r n p end).
  Proof.
    intros Hg He He' Hp Hk. specialize (Hg pos Hp). unfold settled in Hg.
    destruct (g data pos) as [[r n] p]. cbn [fst] in Hg. destruct Hg as [E|E].
    - subst r. left. apply He.
    - rewrite E. destruct r; [now apply Hk|right; now rewrite He'..].
  Qed.

  Variable rec rec' : nat -> val -> nat -> dres.
  Hypothesis Hrec : forall k, safe (TRec k) (rec k).
  Hypothesis Hst : forall k, stable_f (TRec k) (rec k) (rec' k).

  Lemma ty_safe t : wf G t = true -> tallP (cmp_ok G) t -> safe t (des_ty G c data rec t).
  Proof. intros Hw Hc. apply des_ty_safe; auto using flagged_true, flagged_env_true. Qed.

  Lemma ty_stable t :
    wf G t = true -> tall (delimited c) t = true -> tallP (cmp_ok G) t ->
    stable_f t (des_ty G c data rec t) (des_ty G c data' rec' t).
  Proof.
    induction t using ty_ind'; intros Hw Hf Hcp prior pos Hp Hpr.
    - cbn [des_ty]. pose proof (scalar_stable w (match prior with VN n => n | _ => 0 end) pos Hp) as S.
      unfold settled, nres in *. destruct (des_scalar c data w _ pos) as [[r n] p].
      destruct S as [S|S]; [now left|]. rewrite S. now right.
    - cbn [des_ty].
      apply (then_stable (fun d => des_scalar c d 1 0) pos
        (fun n p => if n <? 2 then (ROk, VN n, p) else (RUB, prior, p))
        (fun n p => if n <? 2 then (ROk, VN n, p) else (RUB, prior, p))
        (fun r _ p => (r, prior, p)) (fun r _ p => (r, prior, p))); auto using scalar_stable.
      intros. now right.
    - cbn [des_ty wf] in *.
      pose proof (varint_stable w zz (match prior with VN n => n | _ => 0 end) Hw pos Hp) as S.
      unfold settled, nres in *. destruct (des_varint w zz _ data pos) as [[r n] p].
      destruct S as [S|S]; [now left|]. rewrite S. now right.
    - now right.
    - cbn [des_ty]. destruct (negb (s_expl si) && _); [now right|].
      destruct (as_bytes c (TStruct si ms)).
      + pose proof (bytes_stable (TStruct si ms) 1 [prior] pos Hp) as S. unfold settled in *.
        destruct (des_bytes c data (TStruct si ms) 1 [prior] pos) as [[r l] q]. cbn [fst] in S.
        destruct S as [S|S]; [left; subst r; now destruct l as [|? [|]]|]. rewrite S. now right.
      + destruct prior; try discriminate. cbn [as_seq wt] in *.
        cbn [wf] in Hw. rewrite !andb_true_iff in Hw. destruct Hw as [[_ Hw] _].
        cbn [tall] in Hf. apply andb_true_iff in Hf as [_ Hf].
        cbn [tallP] in Hcp. destruct Hcp as [_ Hcp]. apply tallP_list in Hcp.
        rewrite forallb_forall in Hw, Hf. rewrite Forall_forall in H, Hcp.
        apply seq_settled. apply many_stable; auto; rewrite Forall_forall; intros m Hin; auto using ty_safe.
    - cbn [des_ty]. now apply Hst.
    - destruct prior; try discriminate. cbn [wt] in Hpr. apply andb_true_iff in Hpr as [Hn Hpr].
      cbn [des_ty as_seq]. cbn [wf] in Hw. apply andb_true_iff in Hw as [_ Hw].
      cbn [tall tallP] in *. apply andb_true_iff in Hf as [_ Hf]. destruct Hcp as [_ Hcp].
      apply elems_stable; auto using ty_safe.
    - destruct prior; try discriminate. cbn [wt] in Hpr. cbn [des_ty as_seq]. cbn [wf] in Hw.
      cbn [tall tallP] in *. apply andb_true_iff in Hf as [_ Hf]. destruct Hcp as [_ Hcp].
      apply tallP_list in Hcp.
      rewrite forallb_forall in Hw, Hf. rewrite Forall_forall in H, Hcp.
      apply seq_settled. apply many_stable; auto; rewrite Forall_forall; intros m Hin; auto using ty_safe.
    - (* vec *)
      destruct prior; try discriminate. cbn [wt] in Hpr. cbn [des_ty as_seq].
      cbn [wf] in Hw. apply andb_true_iff in Hw as [Hs Hw]. apply (wfsz_sz_of c _ Hds) in Hs.
      cbn [tall tallP] in *. apply andb_true_iff in Hf as [_ Hf]. destruct Hcp as [_ Hcp].
      pose proof (ty_safe t Hw Hcp) as St. specialize (IHt Hw Hf Hcp).
      assert (L := then_stable (fun d => des_size c d (sz_of c s)) pos
        (fun n p => match vec_resize G c t n l with
                | (ROk, l) => des_elems c data (as_bytes c t && cg) (des_ty G c data rec t) t l p
                | (r, l) => (r, VSeq l, p)
                end)
        (fun n p => match vec_resize G c t n l with
                | (ROk, l) => des_elems c data' (as_bytes c t && cg) (des_ty G c data' rec' t) t l p
                | (r, l) => (r, VSeq l, p)
                end)
        (fun r _ p => (r, VSeq l, p)) (fun r _ p => (r, VSeq l, p))
        (size_stable _ Hs) (fun _ _ _ => eq_refl) (fun _ _ _ => eq_refl) Hp).
      assert (L' : forall n p, des_size c data (sz_of c s) pos = (ROk, n, p) ->
         settled (match vec_resize G c t n l with
                | (ROk, l) => des_elems c data (as_bytes c t && cg) (des_ty G c data rec t) t l p
                | (r, l) => (r, VSeq l, p)
                end)
           (match vec_resize G c t n l with
                | (ROk, l) => des_elems c data' (as_bytes c t && cg) (des_ty G c data' rec' t) t l p
                | (r, l) => (r, VSeq l, p)
                end)).
      { intros n p E. pose proof (des_size_safe c _ Hs data pos Hsm Hp) as S. cbn beta in S. rewrite E in S.
        destruct (vec_resize G c t n l) as [r l'] eqn:Ev. destruct r; try now right.
        pose proof (vec_resize_wt G c true true HG t n l ROk l' Hw Hpr Ev) as (V1 & _ & _).
        apply elems_stable; auto. lia. }
      specialize (L L'). cbn beta in L.
      destruct (sz_of c s); [apply elems_stable; auto|exact L..].
    - (* assoc *)
      cbn [des_ty].
      cbn [wf] in Hw. apply andb_true_iff in Hw as [Hs Hw]. apply (wfsz_sz_of c _ Hds) in Hs.
      cbn [tall tallP] in *. apply andb_true_iff in Hf as [_ Hf]. destruct Hcp as [Hk Hcp].
      pose proof (ty_safe t Hw Hcp) as St. specialize (IHt Hw Hf Hcp).
      assert (A : forall n p, (p <= length data)%nat ->
        settled (seq_res (des_assoc (des_ty G c data rec t) (assoc_insert k) (dflt G t) n [] p))
                (seq_res (des_assoc (des_ty G c data' rec' t) (assoc_insert k) (dflt G t) n [] p))).
      { intros n p Hpp. apply seq_settled. apply (assoc_stable _ _ _ _ t); auto. now apply wt_dflt. }
      assert (L := then_stable (fun d => des_size c d (sz_of c s)) pos
        (fun n p => seq_res (des_assoc (des_ty G c data rec t) (assoc_insert k) (dflt G t) (N.to_nat n) [] p))
        (fun n p => seq_res (des_assoc (des_ty G c data' rec' t) (assoc_insert k) (dflt G t) (N.to_nat n) [] p))
        (fun r _ p => (r, prior, p)) (fun r _ p => (r, prior, p))
        (size_stable _ Hs) (fun _ _ _ => eq_refl) (fun _ _ _ => eq_refl) Hp).
      assert (L' : forall n p, des_size c data (sz_of c s) pos = (ROk, n, p) -> (p <= length data)%nat).
      { intros n p E. pose proof (des_size_safe c _ Hs data pos Hsm Hp) as S. cbn beta in S. rewrite E in S. lia. }
      specialize (L (fun n p E => A (N.to_nat n) p (L' n p E))). cbn beta in L.
      destruct (sz_of c s); [now apply A|exact L..].
    - (* opt *)
      cbn [des_ty wf] in *. cbn [tall tallP] in *. apply andb_true_iff in Hf as [_ Hf].
      destruct Hcp as [_ Hcp]. unfold des_flag. specialize (IHt Hw Hf Hcp).
      pose proof (scalar_stable 1 0 pos Hp) as S. unfold settled in S. cbn beta in S.
      pose proof (des_scalar_safe c 1 0 data pos Hsm Hp) as S'. cbn beta in S'.
      destruct (des_scalar c data 1 0 pos) as [[r n] p1]. cbn [fst] in S.
      destruct S as [S|S]; [subst r; now left|]. rewrite S. destruct r; try now right.
      destruct n as [|n]; [now right|].
      apply (inplace_stable _ _ _ _ _ _ _ _ t); auto; [now apply wt_dflt| |lia].
      intros x Hx. destruct prior; try discriminate. injection Hx as <-. exact Hpr.
    - (* optptr *)
      cbn [des_ty wf] in *. cbn [tall tallP] in *. apply andb_true_iff in Hf as [_ Hf].
      destruct Hcp as [_ Hcp]. unfold des_flag. specialize (IHt Hw Hf Hcp).
      pose proof (scalar_stable 1 0 pos Hp) as S. unfold settled in S. cbn beta in S.
      pose proof (des_scalar_safe c 1 0 data pos Hsm Hp) as S'. cbn beta in S'.
      destruct (des_scalar c data 1 0 pos) as [[r n] p1]. cbn [fst] in S.
      destruct S as [S|S]; [subst r; now left|]. rewrite S. destruct r; try now right.
      destruct n as [|n]; [now right|].
      apply (ptr_stable _ _ _ _ _ t); auto; [now apply wt_dflt|lia].
    - cbn [des_ty wf] in *. cbn [tall tallP] in *. apply andb_true_iff in Hf as [_ Hf].
      destruct Hcp as [_ Hcp].
      apply (ptr_stable _ _ _ _ _ t); auto. now apply wt_dflt.
    - (* variant *)
      rewrite !des_variant_eq.
      cbn [tall tallP] in *. apply andb_true_iff in Hf as [_ Hf].
      destruct Hcp as [_ Hcp]. apply tallP_list in Hcp.
      cbn [wf] in Hw. rewrite !andb_true_iff in Hw. destruct Hw as [[[[Hl Hm] Hd] Hi] Hw].
      pose proof (id_stable ik pos Hp) as S. unfold settled in S. cbn beta in S.
      pose proof (des_id_safe c ik data pos Hsm Hp) as S'. cbn beta in S'.
      destruct (des_id c data ik pos) as [[r n] p1]. cbn [fst] in S.
      destruct S as [S|S]; [subst r; now left|]. rewrite S. destruct r; try now right.
      destruct (find_id meta n) as [i|]; [|now right].
      destruct (nth_error alts i) as [t'|] eqn:Ea; [|now right].
      pose proof (nth_error_In _ _ Ea) as Hin.
      rewrite forallb_forall in Hw, Hf. rewrite Forall_forall in H, Hcp.
      specialize (H t' Hin (Hw _ Hin) (Hf _ Hin) (Hcp _ Hin)).
      apply (inplace_stable _ _ _ _ _ _ _ _ t'); auto; [apply wt_dflt; auto| |lia].
      intros x Hx. destruct prior; try discriminate. cbn [active] in Hx.
      destruct (Nat.eqb_spec i i0) as [->|]; [|discriminate]. injection Hx as <-.
      cbn [wt] in Hpr. now rewrite Ea in Hpr.
    - (* bitset *)
      cbn [des_ty]. unfold des_bitset.
      destruct (remaining data pos <? N.of_nat (bitset_bytes n)) eqn:E; [now left|]. right.
      now rewrite (remaining_more _ _ Hp E), (load_ok _ _ Hp E), (load_more _ _ _ (load_ok _ _ Hp E)).
    - (* views *)
      cbn [tall] in Hf. apply andb_true_iff in Hf as [Hf _].
      destruct k as [s|n|]; cbn [des_ty delimited wf] in *; [| |discriminate].
      + apply (wfsz_sz_of c _ Hds) in Hw.
        pose proof (size_stable _ Hw pos Hp) as S. unfold settled in S. cbn beta in S.
        pose proof (des_size_safe c _ Hw data pos Hsm Hp) as S'. cbn beta in S'.
        destruct (des_size c data (sz_of c s) pos) as [[r n] p1]. cbn [fst] in S.
        destruct S as [S|S]; [subst r; now left|]. rewrite S. destruct r; try now right.
        assert (K : settled
          (if remaining data p1 <? n then (RErr result_out_of_range, prior, p1)
           else match load data p1 (N.to_nat n) with
                | Some e => (ROk, VBytes e, (p1 + N.to_nat n)%nat) | None => (RUB, prior, p1) end)
          (if remaining data' p1 <? n then (RErr result_out_of_range, prior, p1)
           else match load data' p1 (N.to_nat n) with
                | Some e => (ROk, VBytes e, (p1 + N.to_nat n)%nat) | None => (RUB, prior, p1) end)).
        { destruct (remaining data p1 <? n) eqn:E; [now left|]. right.
          assert (Hp1 : (p1 <= length data)%nat) by lia.
          rewrite (remaining_more _ _ Hp1 E). rewrite <- (N2Nat.id n) in E.
          now rewrite (load_ok _ _ Hp1 E), (load_more _ _ _ (load_ok _ _ Hp1 E)). }
        destruct (sz_of c s); [discriminate|exact K..].
      + destruct (remaining data pos <? N.of_nat n) eqn:E; [now left|]. right.
        now rewrite (remaining_more _ _ Hp E), (load_ok _ _ Hp E), (load_more _ _ _ (load_ok _ _ Hp E)).
    - (* span *)
      destruct prior; try discriminate. cbn [wt] in Hpr. cbn [des_ty as_seq].
      cbn [wf] in Hw. apply andb_true_iff in Hw as [Hs Hw]. apply (wfsz_sz_of c _ Hds) in Hs.
      cbn [tall tallP] in *. apply andb_true_iff in Hf as [_ Hf]. destruct Hcp as [_ Hcp].
      pose proof (ty_safe t Hw Hcp) as St. specialize (IHt Hw Hf Hcp).
      pose proof (size_stable _ Hs pos Hp) as S. unfold settled in S. cbn beta in S.
      pose proof (des_size_safe c _ Hs data pos Hsm Hp) as S'. cbn beta in S'.
      assert (K : settled
        match des_size c data (sz_of c s) pos with
        | (ROk, n, pos') =>
            if N.of_nat (length l) <? n then (RErr result_out_of_range, VSeq l, pos')
            else des_elems c data (as_bytes c t) (des_ty G c data rec t) t (firstn (N.to_nat n) l) pos'
        | (r, _, pos') => (r, VSeq l, pos')
        end
        match des_size c data' (sz_of c s) pos with
        | (ROk, n, pos') =>
            if N.of_nat (length l) <? n then (RErr result_out_of_range, VSeq l, pos')
            else des_elems c data' (as_bytes c t) (des_ty G c data' rec' t) t (firstn (N.to_nat n) l) pos'
        | (r, _, pos') => (r, VSeq l, pos')
        end).
      { destruct (des_size c data (sz_of c s) pos) as [[r n] p1]. cbn [fst] in S.
        destruct S as [S|S]; [subst r; now left|]. rewrite S. destruct r; try now right.
        destruct (_ <? n); [now right|]. apply elems_stable; auto; [lia|].
        rewrite forallb_forall in Hpr |- *. intros x Hx. apply Hpr.
        rewrite <- (firstn_skipn (N.to_nat n) l). apply in_or_app. now left. }
      destruct (sz_of c s); [apply elems_stable; auto|exact K..].
  Qed.
End Stable.

Theorem des_stable G c data more t fuel prior pos :
  wf_env G -> wfsz (Some (dsize c)) = true -> small (data ++ more) ->
  tallP_env (cmp_ok G) G -> tall_env (delimited c) G ->
  wf G t = true -> tall (delimited c) t = true -> tallP (cmp_ok G) t ->
  (pos <= length data)%nat -> wt G prior t = true ->
  settled (des G c data fuel t prior pos) (des G c (data ++ more) fuel t prior pos).
Proof.
  intros HG Hds Hsm' Hcmp Hdl Hw Hd Hc Hp Hpr.
  assert (Hsm : small data) by (unfold small in *; rewrite app_length in Hsm'; lia).
  unfold des. apply ty_stable; auto; [intro k; apply des_rec_safe; auto using flagged_env_true|].
  clear -HG Hds Hsm' Hcmp Hdl Hsm.
  induction fuel as [|f IH]; intros k prior pos Hp Hpr; cbn [des_rec]; [now right|].
  destruct prior; try discriminate. cbn [wt as_seq] in *. apply seq_settled.
  destruct (HG k) as [Hw _]. specialize (Hdl k) as Hf. specialize (Hcmp k) as Hcp.
  rewrite forallb_forall in Hw, Hf. rewrite Forall_forall in Hcp.
  assert (SF : forall k0, safe_f G data true true (TRec k0) (des_rec G c data f k0))
    by (intro k0; apply des_rec_safe; auto using flagged_env_true).
  eapply many_stable; eauto; rewrite Forall_forall; intros m Hin.
  - eapply ty_safe; eauto.
  - apply ty_stable; auto.
Qed.
