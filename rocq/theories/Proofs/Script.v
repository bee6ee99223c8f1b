(** What [ser] does, as a script of elementary steps that does not depend on the buffer or the
    allocator. *)

From Coq Require Import List NArith ZArith Lia Bool Arith.
From Coq Require Import ZifyBool ZifyNat ZifyN.
From Verif Require Import Base.Bytes Model.Types Model.Machine Model.Varint Model.Out
  Spec.Leb128 Spec.Wire Proofs.VarintP Proofs.OutP.
Import ListNotations.
Local Open Scope N_scope.

Inductive script :=
| SRet | SUb | SFail (e : errc) | SPut (e : list byte) | SVar (w : nat) (v : N)
| SBits (n : nat) (l : list bool) | SSeq (a b : script).

Fixpoint run (c : cfg) (s : script) : act :=
  match s with
  | SRet => ret
  | SUb => fail RUB
  | SFail e => fail (RErr e)
  | SPut e => put c e
  | SVar w v => varint_reserve c w v ;; store (vloop (varint_max_size w) v)
  | SBits n l => ser_bitset c n l
  | SSeq a b => run c a ;; run c b
  end.

(** The bytes a script writes and whether it gets to its end. *)
Fixpoint writes (s : script) : pout :=
  match s with
  | SRet => pnil
  | SUb | SFail _ => ([], false)
  | SPut e => pdone e
  | SVar w v => pdone (vloop (varint_max_size w) v)
  | SBits n l => pdone (le_bytes (bitset_bytes n) (bits_number l))
  | SSeq a b => pseq (writes a) (writes b)
  end.

Section ScrLoops.
  Context (f : val -> ty -> script).
  Fixpoint scr_many (l : list val) (ms : list ty) : script :=
    match l, ms with
    | [], [] => SRet
    | x :: l', m :: ms' => SSeq (f x m) (scr_many l' ms')
    | _, _ => SUb
    end.
  Fixpoint scr_all (l : list val) (t : ty) : script :=
    match l with
    | [] => SRet
    | x :: l' => SSeq (f x t) (scr_all l' t)
    end.
End ScrLoops.

Definition scr_bytes (e : list byte) : script := match e with [] => SRet | _ => SPut e end.

Definition scr_size (c : cfg) (s : sizety) (n : N) : script :=
  match s with
  | SzNone => SRet
  | SzFix w => SPut (scalar_bytes c w (trunc w n))
  | SzVar w => SVar w (trunc w n)
  end.

Definition scr_id (c : cfg) (k : idkind) (i : N) : script :=
  match k with
  | IdInt w => SPut (scalar_bytes c w i)
  | IdBytes n => scr_bytes (le_bytes n i)
  end.

Definition scr_flag (c : cfg) (b : bool) : script := SPut (scalar_bytes c 1 (if b then 1 else 0)).

Fixpoint scr (G : tenv) (c : cfg) (v : val) (t : ty) {struct v} : script :=
  match t, v with
  | TScalar w _, VN n => SPut (scalar_bytes c w n)
  | TBool, VN n => SPut (scalar_bytes c 1 n)
  | TVarint w sg zz, VN n => SVar w (wire_value w sg zz n)
  | TEmpty, VSeq [] => SRet
  | TStruct si ms, VSeq l =>
      if negb (s_expl si) && is_empty t then SRet
      else if as_bytes c t then scr_bytes (objrep c v t)
      else scr_many (scr G c) l ms
  | TRec k, VSeq l => scr_many (scr G c) l (t_mems G k)
  | TArray n t', VSeq l =>
      if as_bytes c t' then scr_bytes (objrep c v t) else scr_all (scr G c) l t'
  | TTuple ts, VSeq l => scr_many (scr G c) l ts
  | TVec s contig t', VSeq l =>
      SSeq (scr_size c (sz_of c s) (N.of_nat (length l)))
        (if as_bytes c t' && contig then scr_bytes (flat_map (fun x => objrep c x t') l)
         else scr_all (scr G c) l t')
  | TAssoc s k t', VSeq l =>
      SSeq (scr_size c (sz_of c s) (N.of_nat (length l))) (scr_all (scr G c) l t')
  | TSpan s t', VSeq l =>
      SSeq (scr_size c (sz_of c s) (N.of_nat (length l)))
        (if as_bytes c t' then scr_bytes (flat_map (fun x => objrep c x t') l)
         else scr_all (scr G c) l t')
  | TOpt _ _, VNone => scr_flag c false
  | TOpt _ t', VSome x => SSeq (scr_flag c true) (scr G c x t')
  | TOptPtr _, VNone => scr_flag c false
  | TOptPtr t', VSome x => SSeq (scr_flag c true) (scr G c x t')
  | TPtr _, VNone => SFail invalid_argument
  | TPtr t', VSome x => scr G c x t'
  | TVariant _ _ _, VValueless => SFail invalid_argument
  | TVariant ik meta alts, VAlt i x =>
      match nth_error meta i, nth_error alts i with
      | Some (id, _), Some t' => SSeq (scr_id c ik id) (scr G c x t')
      | _, _ => SUb
      end
  | TBitset n, VBits l => SBits n l
  | TView (VwSized s), VBytes l =>
      SSeq (scr_size c (sz_of c s) (N.of_nat (length l))) (scr_bytes l)
  | TView (VwFixed _), VBytes l => scr_bytes l
  | TView VwRest, VBytes l => scr_bytes l
  | _, _ => SUb
  end.

Lemma seq_ext (a a' b b' : act) : (forall st, a st = a' st) -> (forall st, b st = b' st) ->
  forall st, (a ;; b) st = (a' ;; b') st.
Proof. intros Ha Hb st. unfold seq. rewrite Ha. destruct (a' st) as [[] ?]; auto. Qed.

Lemma run_bytes c e st : put_bytes c e st = run c (scr_bytes e) st.
Proof. now destruct e. Qed.
Lemma run_size c s n st : ser_size c s n st = run c (scr_size c s n) st.
Proof. now destruct s. Qed.
Lemma run_id c k i st : ser_id c k i st = run c (scr_id c k i) st.
Proof. destruct k; [reflexivity|apply run_bytes]. Qed.

Lemma run_many c (f : val -> ty -> act) g l :
  Forall (fun x => forall t st, f x t st = run c (g x t) st) l ->
  forall ms st, ser_many f l ms st = run c (scr_many g l ms) st.
Proof.
  induction 1 as [|x l Hx _ IH]; intros [|m ms] st; try reflexivity.
  cbn [ser_many scr_many run]. now apply seq_ext.
Qed.

Lemma run_all c (f : val -> ty -> act) g l t :
  Forall (fun x => forall t st, f x t st = run c (g x t) st) l ->
  forall st, ser_all f l t st = run c (scr_all g l t) st.
Proof.
  induction 1 as [|x l Hx _ IH]; intro st; [reflexivity|].
  cbn [ser_all scr_all run]. now apply seq_ext.
Qed.

(** [ser] is the script, on every value of every type. *)
Lemma ser_scr G c v : forall t st, ser G c v t st = run c (scr G c v t) st.
Proof.
  induction v as [n|l IH| |v IH|i v IH| |l|l] using val_ind'; intros t st;
    destruct t as [w isb| |w sg zz| |si ms|k|n' t'|ts|s cg t'|s k t'|dc t'|t'|t'|ik meta alts|n'|k|s t'];
    cbn [ser scr]; try reflexivity; try (destruct k as [s|nv|]; reflexivity).
  - now destruct l.
  - destruct (negb (s_expl si) && is_empty (TStruct si ms)); [reflexivity|].
    destruct (as_bytes c (TStruct si ms)); [apply run_bytes|]. now apply run_many.
  - now apply run_many.
  - destruct (as_bytes c t'); [apply run_bytes|]. now apply run_all.
  - now apply run_many.
  - cbn [run]. apply seq_ext; [intro; apply run_size|]. intro st'.
    destruct (as_bytes c t' && cg); [apply run_bytes|]. now apply run_all.
  - cbn [run]. apply seq_ext; [intro; apply run_size|]. intro st'. now apply run_all.
  - cbn [run]. apply seq_ext; [intro; apply run_size|]. intro st'.
    destruct (as_bytes c t'); [apply run_bytes|]. now apply run_all.
  - cbn [run]. apply seq_ext; [reflexivity|]. intro. apply IH.
  - cbn [run]. apply seq_ext; [reflexivity|]. intro. apply IH.
  - apply IH.
  - destruct (nth_error meta i) as [[id dc]|]; [|reflexivity].
    destruct (nth_error alts i) as [t'|]; [|reflexivity].
    cbn [run]. apply seq_ext; [intro; apply run_id|]. intro. apply IH.
  - destruct k as [s|nv|].
    + cbn [run]. apply seq_ext; [intro; apply run_size|]. intro. apply run_bytes.
    + apply run_bytes.
    + apply run_bytes.
Qed.

(** The script does not depend on the allocator. *)
Definition with_alloc (c : cfg) (al : N -> bool) : cfg :=
  mkCfg (host_le c) (swap c) (dsize c) (alim c) (emul c) (ediv c) (noovf c) (nofit c) (growable c)
    al (abi c).

Lemma scr_many_ext f g l :
  Forall (fun x => forall t, f x t = g x t) l -> forall ms, scr_many f l ms = scr_many g l ms.
Proof.
  induction 1 as [|x l Hx _ IH]; intros [|m ms]; try reflexivity. cbn. now rewrite Hx, IH.
Qed.
Lemma scr_all_ext f g l t :
  Forall (fun x => forall t, f x t = g x t) l -> scr_all f l t = scr_all g l t.
Proof. induction 1 as [|x l Hx _ IH]; [reflexivity|]. cbn. now rewrite Hx, IH. Qed.

Lemma objrep_alloc c al v : forall t, objrep (with_alloc c al) v t = objrep c v t.
Proof.
  induction v as [n|l IH| |v IH|i v IH| |l|l] using val_ind'; intro t; destruct t; try reflexivity; cbn [objrep].
  - revert ms. induction IH as [|x l Hx _ IHl]; intros [|m ms]; try reflexivity.
    cbn [reps_many]. now rewrite Hx, IHl.
  - induction IH as [|x l Hx _ IHl]; [reflexivity|]. cbn [flat_map]. now rewrite Hx, IHl.
Qed.

Lemma flat_objrep_alloc c al t l :
  flat_map (fun x => objrep (with_alloc c al) x t) l = flat_map (fun x => objrep c x t) l.
Proof. apply flat_map_ext. intro x. apply objrep_alloc. Qed.

Lemma scr_alloc G c al v : forall t, scr G (with_alloc c al) v t = scr G c v t.
Proof.
  induction v as [n|l IH| |v IH|i v IH| |l|l] using val_ind'; intro t;
    destruct t as [w isb| |w sg zz| |si ms|k|n' t'|ts|s cg t'|s k t'|dc t'|t'|t'|ik meta alts|n'|k|s t'];
    try reflexivity; cbn [scr];
    change (as_bytes (with_alloc c al)) with (as_bytes c);
    change (sz_of (with_alloc c al)) with (sz_of c);
    change (scr_size (with_alloc c al)) with (scr_size c);
    change (scr_flag (with_alloc c al)) with (scr_flag c);
    change (scr_id (with_alloc c al)) with (scr_id c);
    rewrite ?objrep_alloc, ?flat_objrep_alloc, ?IH;
    try (rewrite (scr_many_ext (scr G (with_alloc c al)) (scr G c)) by exact IH);
    try (rewrite (scr_all_ext (scr G (with_alloc c al)) (scr G c)) by exact IH);
    try reflexivity.
  destruct (nth_error meta i) as [[id dc]|]; [|reflexivity].
  destruct (nth_error alts i) as [t'|]; [|reflexivity]. now rewrite IH.
Qed.

(** The bytes are those of the wire format. *)
Lemma writes_bytes e : writes (scr_bytes e) = pdone e.
Proof. now destruct e. Qed.

Lemma writes_many G c o l (P : val -> ty -> Prop) ms :
  Forall (fun x => forall t, P x t -> writes (scr G c x t) = enc G o x t) l ->
  length l = length ms ->
  (forall x m, In (x, m) (combine l ms) -> P x m) ->
  writes (scr_many (scr G c) l ms) = enc_many (enc G o) l ms.
Proof.
  intro H. revert ms; induction H as [|x l Hx _ IH]; intros ms Hlen Hin.
  - destruct ms; [reflexivity | discriminate].
  - destruct ms as [|m ms]; [discriminate|]. cbn [scr_many enc_many writes].
    rewrite (Hx m) by (apply Hin; left; reflexivity).
    rewrite IH; [reflexivity|now injection Hlen|]. intros y n Hy. apply Hin. right; exact Hy.
Qed.

Lemma writes_all G c o l t :
  Forall (fun x => writes (scr G c x t) = enc G o x t) l ->
  writes (scr_all (scr G c) l t) = enc_all (enc G o) l t.
Proof. induction 1 as [|x l Hx _ IH]; [reflexivity|]. cbn [scr_all enc_all writes]. now rewrite Hx, IH. Qed.

Lemma writes_size c s n :
  szok c = true -> wfsz s = true ->
  writes (scr_size c (sz_of c s) n) = pdone (wire_size (fmt_of c) s n).
Proof.
  intros Hd Hs. unfold wire_size, sz_of.
  assert (Hs' : wfsz (Some (match s with Some s => s | None => dsize c end)) = true)
    by (destruct s; assumption).
  replace (match s with Some s0 => s0 | None => wsize (fmt_of c) end)
    with (match s with Some s0 => s0 | None => dsize c end) by reflexivity.
  destruct (match s with Some s0 => s0 | None => dsize c end) as [|w|w]; cbn [scr_size wfsz writes] in *.
  - reflexivity.
  - now rewrite scalar_bytes_wscalar.
  - rewrite vloop_leb128; [reflexivity|exact Hs'|apply trunc_lt].
Qed.

Theorem writes_enc G c :
  szok c = true -> wf_env G -> tall_env elem_ok G ->
  forall v t, wt G v t = true -> wf G t = true -> plain t = true ->
    writes (scr G c v t) = enc G (fmt_of c) v t.
Proof.
  intros Hsz HwfG HplG.
  induction v as [n|l IH| |v IH|i v IH| |l|l] using val_ind';
    intros t Hwt Hwf Hpl;
    destruct t as [w isb| |w sg zz| |si ms|k|n' t'|ts|s cg t'|s k t'|dc t'|t'|t'|ik meta alts|n'|k|s t'];
    cbn [wt] in Hwt; try discriminate; try (destruct k as [s|nv|]; discriminate).
  - cbn [scr enc writes]. now rewrite scalar_bytes_wscalar.
  - cbn [scr enc writes]. now rewrite scalar_bytes_wscalar.
  - cbn [scr enc writes]. cbn [wf] in Hwf. apply N.ltb_lt in Hwt.
    rewrite wire_value_number by assumption.
    rewrite vloop_leb128; [reflexivity|assumption|now apply varint_number_lt].
  - destruct l; [|discriminate]. reflexivity.
  - cbn [scr]. destruct (negb (s_expl si) && is_empty (TStruct si ms)) eqn:Eem.
    { apply andb_true_iff in Eem as [_ Eem]. destruct ms; [|discriminate].
      destruct l; [|discriminate]. reflexivity. }
    destruct (as_bytes c (TStruct si ms)) eqn:Eab.
    { rewrite writes_bytes. symmetry. rewrite (objrep_enc G c (VSeq l) (TStruct si ms)); auto.
      destruct ms; [|reflexivity].
      unfold as_bytes in Eab. cbn in Eab. rewrite !andb_false_r in Eab. discriminate. }
    cbn [enc].
    apply (writes_many G c (fmt_of c) l (fun x t => wt G x t = true /\ wf G t = true /\ plain t = true)).
    + eapply Forall_impl; [|exact IH]. cbn. intros ? ? ? (?&?&?); auto.
    + eapply forall2b_length; eauto.
    + cbn [wf] in Hwf. rewrite !andb_true_iff in Hwf. destruct Hwf as [[_ Hwf] _].
      unfold plain in Hpl. cbn [tall elem_ok andb] in Hpl.
      intros x m Hin; repeat split.
      * eapply (forall2b_in (fun x m => wt G x m)); eauto.
      * eapply in_combine_forallb; eauto.
      * eapply (in_combine_forallb (tall elem_ok)); eauto.
  - cbn [scr enc].
    apply (writes_many G c (fmt_of c) l (fun x t => wt G x t = true /\ wf G t = true /\ plain t = true)).
    + eapply Forall_impl; [|exact IH]. cbn. intros ? ? ? (?&?&?); auto.
    + eapply forall2b_length; eauto.
    + intros x m Hin; repeat split.
      * eapply (forall2b_in (fun x m => wt G x m)); eauto.
      * eapply in_combine_forallb; [apply (HwfG k)|eauto].
      * eapply (in_combine_forallb (tall elem_ok)); [apply (HplG k)|eauto].
  - cbn [scr].
    unfold plain in Hpl. cbn [tall elem_ok] in Hpl.
    apply andb_true_iff in Hpl as [He Hpl]. apply negb_true_iff in He.
    cbn [wf] in Hwf. apply andb_true_iff in Hwf as [Hn0 Hwf].
    apply andb_true_iff in Hwt as [Hlen Hwt]. rewrite forallb_forall in Hwt.
    rewrite Forall_forall in IH.
    destruct (as_bytes c t') eqn:Eab.
    + cbn [enc objrep]. rewrite writes_bytes, (enc_all_bytes G (fmt_of c) c); [reflexivity|].
      rewrite Forall_forall. intros x Hin. apply objrep_enc; auto.
    + cbn [enc]. apply writes_all. rewrite Forall_forall. intros x Hin. apply IH; auto.
  - cbn [scr enc].
    apply (writes_many G c (fmt_of c) l (fun x t => wt G x t = true /\ wf G t = true /\ plain t = true)).
    + eapply Forall_impl; [|exact IH]. cbn. intros ? ? ? (?&?&?); auto.
    + eapply forall2b_length; eauto.
    + cbn [wf] in Hwf.
      unfold plain in Hpl. cbn [tall elem_ok andb] in Hpl.
      intros x m Hin; repeat split.
      * eapply (forall2b_in (fun x m => wt G x m)); eauto.
      * eapply in_combine_forallb; eauto.
      * eapply (in_combine_forallb (tall elem_ok)); eauto.
  - cbn [scr enc writes].
    unfold plain in Hpl. cbn [tall elem_ok] in Hpl.
    apply andb_true_iff in Hpl as [He Hpl]. apply negb_true_iff in He.
    cbn [wf] in Hwf. apply andb_true_iff in Hwf as [Hs Hwf].
    rewrite forallb_forall in Hwt. rewrite Forall_forall in IH.
    rewrite writes_size by assumption. f_equal.
    destruct (as_bytes c t') eqn:Eab; [destruct cg|]; cbn [andb].
    + rewrite writes_bytes, (enc_all_bytes G (fmt_of c) c); [reflexivity|].
      rewrite Forall_forall. intros x Hin. apply objrep_enc; auto.
    + apply writes_all. rewrite Forall_forall. intros x Hin. apply IH; auto.
    + apply writes_all. rewrite Forall_forall. intros x Hin. apply IH; auto.
  - cbn [scr enc writes].
    unfold plain in Hpl. cbn [tall elem_ok andb] in Hpl.
    cbn [wf] in Hwf. apply andb_true_iff in Hwf as [Hs Hwf].
    apply andb_true_iff in Hwt as [Hwt _].
    rewrite forallb_forall in Hwt. rewrite Forall_forall in IH.
    rewrite writes_size by assumption. f_equal.
    apply writes_all. rewrite Forall_forall. intros x Hin. apply IH; auto.
  - cbn [scr enc writes].
    unfold plain in Hpl. cbn [tall elem_ok] in Hpl.
    apply andb_true_iff in Hpl as [He Hpl]. apply negb_true_iff in He.
    cbn [wf] in Hwf. apply andb_true_iff in Hwf as [Hs Hwf].
    rewrite forallb_forall in Hwt. rewrite Forall_forall in IH.
    rewrite writes_size by assumption. f_equal.
    destruct (as_bytes c t') eqn:Eab.
    + rewrite writes_bytes, (enc_all_bytes G (fmt_of c) c); [reflexivity|].
      rewrite Forall_forall. intros x Hin. apply objrep_enc; auto.
    + apply writes_all. rewrite Forall_forall. intros x Hin. apply IH; auto.
  - cbn [scr enc]. unfold scr_flag. cbn [writes]. now rewrite scalar_bytes_wscalar, wscalar_1.
  - cbn [scr enc]. unfold scr_flag. cbn [writes]. now rewrite scalar_bytes_wscalar, wscalar_1.
  - reflexivity.
  - cbn [scr enc]. unfold scr_flag. cbn [writes]. rewrite scalar_bytes_wscalar, wscalar_1. f_equal. apply IH; auto.
  - cbn [scr enc]. unfold scr_flag. cbn [writes]. rewrite scalar_bytes_wscalar, wscalar_1. f_equal. apply IH; auto.
  - cbn [scr enc]. apply IH; auto.
  - cbn [scr enc]. destruct (nth_error alts i) as [t'|] eqn:Ei; [|discriminate].
    cbn [wf] in Hwf. rewrite !andb_true_iff in Hwf.
    destruct Hwf as [[[[_ Hlen] _] Hids] Hwf]. apply Nat.eqb_eq in Hlen.
    assert (Hi : (i < length meta)%nat).
    { rewrite Hlen. apply nth_error_Some. congruence. }
    destruct (nth_error meta i) as [[id dc]|] eqn:Em;
      [|apply nth_error_None in Em; lia].
    pose proof (nth_error_In _ _ Ei) as Hin.
    unfold plain in Hpl. cbn [tall elem_ok andb] in Hpl.
    rewrite forallb_forall in Hwf, Hpl.
    cbn [writes]. f_equal.
    + unfold scr_id, wire_id. destruct ik as [w|n].
      * cbn [writes]. now rewrite scalar_bytes_wscalar.
      * apply writes_bytes.
    + apply IH; auto.
  - reflexivity.
  - reflexivity.
  - destruct k as [s|n|]; cbn [scr enc].
    + cbn [wf] in Hwf. cbn [writes]. rewrite writes_size, writes_bytes by assumption. reflexivity.
    + apply writes_bytes.
    + apply writes_bytes.
Qed.
