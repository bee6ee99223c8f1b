(** C41: compile time encoding and ids. *)

From Coq Require Import List NArith ZArith Lia Bool Arith.
From Coq Require Import ZifyBool ZifyNat ZifyN.
From Verif Require Import Base.Bytes Model.Types Model.Machine Model.Varint Model.Out Model.Options
  Model.In Model.ToBytes Spec.RpcQueue Model.Rpc Spec.Leb128 Spec.Wire Proofs.VarintP Proofs.OutP
  Proofs.InBase Proofs.InSafe Proofs.InLocal Proofs.InPrior Proofs.InRound Thm.Demo Thm.Output
  Thm.Input.
Import ListNotations.
Local Open Scope N_scope.

(** Objects that can be written: an archive over an array has sane options, so only the
    object and its type matter. *)
Record object (G : tenv) (h : bool) (v : val) (t : ty) : Prop := {
  ob_env : wf_env G;
  ob_envp : tall_env elem_ok G;
  ob_wt : wt G v t = true;
  ob_wf : wf G t = true;
  ob_plain : plain t = true;
  ob_small : N.of_nat (length (encode G (mkWfmt h (SzFix 4)) v t)) < 2 ^ 63
}.

(** The encoding in host byte order. *)
Definition host_encoding (G : tenv) (h : bool) (v : val) (t : ty) : list byte :=
  encode G (mkWfmt h (SzFix 4)) v t.

Lemma array_fmt h abi : fmt_of (array_cfg h abi) = mkWfmt h (SzFix 4).
Proof. unfold fmt_of, array_cfg, config. cbn. now destruct h. Qed.

Lemma object_writing G h abi v t : object G h v t -> writing G (array_cfg h abi) v t.
Proof.
  intros [H1 H2 H3 H4 H5 H6]. constructor; auto.
  - intro. discriminate.
  - now rewrite array_fmt.
Qed.

Lemma enc_one G o v t : enc G o (VSeq [v]) (TTuple [t]) = enc G o v t.
Proof.
  cbn [enc enc_many]. unfold pseq, pnil. destruct (enc G o v t) as [e []]; [|reflexivity].
  cbn [fst snd]. now rewrite app_nil_r.
Qed.

Lemma object_one G h v t : object G h v t -> object G h (VSeq [v]) (TTuple [t]).
Proof.
  intros [H1 H2 H3 H4 H5 H6]. constructor; auto.
  - cbn [wt forall2b]. now rewrite H3.
  - cbn [wf forallb]. now rewrite H4.
  - unfold plain in *. cbn [tall forallb elem_ok]. now rewrite H5.
  - unfold encode. now rewrite enc_one.
Qed.

(** out{data}(object) over an array of a given size. *)
Lemma out_array_spec G h abi size vs ts :
  object G h (VSeq vs) (TTuple ts) -> N.of_nat size < 2 ^ 63 ->
  let e := host_encoding G h (VSeq vs) (TTuple ts) in
  if writable G (mkWfmt h (SzFix 4)) (VSeq vs) (TTuple ts) && (length e <=? size)%nat
  then exists st, out_array G h abi size vs ts = Some st /\ opos st = length e
       /\ length (obuf st) = size /\ firstn (length e) (obuf st) = e
  else out_array G h abi size vs ts = None.
Proof.
  intros Ho Hs e. pose proof (object_writing G h abi _ _ Ho) as HW.
  assert (Hc : bits_ok G (TTuple ts) (mkO (zeros size) 0)).
  { left. unfold clean. cbn [obuf opos skipn]. now rewrite zeros_length, Nat.sub_0_r. }
  assert (Hok : ost_ok (mkO (zeros size) 0)).
  { split; cbn [obuf opos]; rewrite zeros_length; [lia|exact Hs]. }
  pose proof (out_fixed_iff_fits G (array_cfg h abi) _ _ _ HW Hc Hok eq_refl) as F.
  destruct (ser G (array_cfg h abi) (VSeq vs) (TTuple ts) (mkO (zeros size) 0)) as [r st] eqn:E.
  cbv zeta in F. cbn [obuf opos Nat.add] in F. rewrite zeros_length, array_fmt in F.
  fold (host_encoding G h (VSeq vs) (TTuple ts)) in F. fold e in F.
  destruct F as (F1 & F2 & F3 & F4).
  assert (Eo : out_call G (array_cfg h abi) vs ts (mkO (zeros size) 0) = (r, st)).
  { unfold out_call. cbn [growable array_cfg config andb]. exact E. }
  unfold out_array. rewrite Eo.
  destruct (writable G (mkWfmt h (SzFix 4)) (VSeq vs) (TTuple ts)) eqn:W.
  - cbn [andb]. destruct (Nat.leb_spec (length e) size) as [L|L].
    + rewrite (F3 eq_refl) in *. exists st. split; [reflexivity|].
      destruct (out_wire_format _ _ _ _ _ _ HW Hc Hok E) as (_ & P & Wi).
      rewrite array_fmt in P, Wi. fold (host_encoding G h (VSeq vs) (TTuple ts)) in P, Wi.
      fold e in P, Wi. cbn [opos Nat.add] in P, Wi. split; [exact P|]. split; [exact F1|exact Wi].
    + rewrite (F3 eq_refl). reflexivity.
  - cbn [andb]. destruct (length e <=? size)%nat; rewrite (F4 eq_refl); reflexivity.
Qed.

(** ** to_bytes<object>() is the encoding; objects longer than 4096 bytes do not compile *)
Theorem to_bytes_one_encodes G h abi v t :
  object G h v t ->
  to_bytes_one G h abi v t
  = if writable G (mkWfmt h (SzFix 4)) v t && (length (host_encoding G h v t) <=? max_size)%nat
    then Some (host_encoding G h v t) else None.
Proof.
  intro Ho. apply object_one in Ho. unfold to_bytes_one.
  pose proof (out_array_spec G h abi max_size [v] [t] Ho ltac:(vm_compute; reflexivity)) as F.
  cbv zeta in F. unfold host_encoding, encode, writable in *. rewrite enc_one in F.
  set (e := fst (enc G {| little := h; wsize := SzFix 4 |} v t)) in *.
  destruct (snd (enc G {| little := h; wsize := SzFix 4 |} v t)) eqn:W; cbn [andb] in *.
  - destruct (Nat.leb_spec (length e) max_size) as [L|L].
    + destruct F as (st & -> & P & _). rewrite P.
      destruct (Nat.eqb_spec (length e) 0) as [Z|Z].
      * destruct e; [reflexivity|discriminate].
      * assert (Hs : N.of_nat (length e) < 2 ^ 63).
        { unfold max_size in L. change (2 ^ 63) with 9223372036854775808. lia. }
        pose proof (out_array_spec G h abi (length e) [v] [t] Ho Hs) as F.
        cbv zeta in F. unfold host_encoding, encode, writable in F. rewrite enc_one in F.
        fold e in F. rewrite W, Nat.leb_refl in F. cbn [andb] in F.
        destruct F as (st' & -> & _ & L' & E'). rewrite <- L', firstn_all in E'. now rewrite E'.
    + now rewrite F.
  - now rewrite F.
Qed.

(** ** join is concatenation *)
Lemma enc_views G o ds :
  enc_many (enc G o) (map VBytes ds) (map (fun d => TView (VwFixed (length d))) ds) = (concat ds, true).
Proof.
  induction ds as [|d ds IH]; [reflexivity|]. cbn [map enc_many concat enc]. rewrite IH. reflexivity.
Qed.

Lemma concat_length_sum (ds : list (list byte)) : length (concat ds) = sum (map (@length byte) ds).
Proof. induction ds as [|d ds IH]; [reflexivity|]. cbn. now rewrite app_length, IH. Qed.

Theorem join_concat G h abi ds :
  wf_env G -> tall_env elem_ok G -> N.of_nat (length (concat ds)) < 2 ^ 63 ->
  join G h abi ds = Some (concat ds).
Proof.
  intros HG HpG Hs. unfold join. rewrite <- concat_length_sum.
  destruct (Nat.eqb_spec (length (concat ds)) 0) as [Z|Z].
  - destruct (concat ds); [reflexivity|discriminate].
  - assert (Ho : object G h (VSeq (map VBytes ds)) (TTuple (map (fun d => TView (VwFixed (length d))) ds))).
    { constructor; auto.
      - cbn [wt]. clear. induction ds as [|d ds IH]; [reflexivity|]. cbn [map forall2b wt].
        now rewrite Nat.eqb_refl.
      - cbn [wf]. clear. induction ds as [|d ds IH]; [reflexivity|]. exact IH.
      - unfold plain. cbn [tall elem_ok andb]. clear. induction ds as [|d ds IH]; [reflexivity|]. exact IH.
      - unfold encode. cbn [enc]. now rewrite enc_views. }
    pose proof (out_array_spec G h abi (length (concat ds)) _ _ Ho Hs) as F.
    cbv zeta in F. unfold host_encoding, encode, writable in F. cbn [enc] in F.
    rewrite enc_views in F. cbn [fst snd andb] in F. rewrite Nat.leb_refl in F.
    destruct F as (st & -> & _ & L & E). rewrite <- L, firstn_all in E. now rewrite E.
Qed.

(** ** to_bytes of several objects is the concatenation *)
Theorem to_bytes_concat G h abi objects :
  wf_env G -> tall_env elem_ok G ->
  Forall (fun p => object G h (fst p) (snd p)) objects ->
  N.of_nat (length objects) < 2 ^ 48 ->
  to_bytes G h abi objects
  = if forallb (fun p => writable G (mkWfmt h (SzFix 4)) (fst p) (snd p)
                         && (length (host_encoding G h (fst p) (snd p)) <=? max_size)%nat) objects
    then Some (concat (map (fun p => host_encoding G h (fst p) (snd p)) objects)) else None.
Proof.
  intros HG HpG Ho Hn. unfold to_bytes.
  assert (A : all_some (map (fun p => to_bytes_one G h abi (fst p) (snd p)) objects)
    = if forallb (fun p => writable G (mkWfmt h (SzFix 4)) (fst p) (snd p)
                         && (length (host_encoding G h (fst p) (snd p)) <=? max_size)%nat) objects
      then Some (map (fun p => host_encoding G h (fst p) (snd p)) objects) else None).
  { clear Hn. induction Ho as [|[v t] l Hp Hl IH]; [reflexivity|]. cbn [map all_some forallb fst snd] in *.
    rewrite to_bytes_one_encodes by exact Hp. destruct (_ && _); [|reflexivity]. cbn [andb].
    rewrite IH. now destruct (forallb _ l). }
  rewrite A. destruct (forallb _ objects) eqn:F; [|reflexivity].
  apply join_concat; auto. rewrite concat_length_sum, map_map.
  assert (B : (sum (map (fun p => length (host_encoding G h (fst p) (snd p))) objects)
               <= length objects * max_size)%nat).
  { clear -F. induction objects as [|p l IH]; [cbn; lia|]. cbn [forallb map sum fold_right length] in *.
    apply andb_true_iff in F as [F1 F2]. apply andb_true_iff in F1 as [_ F1].
    specialize (IH F2). unfold sum in *. apply Nat.leb_le in F1. lia. }
  change (2 ^ 63) with 9223372036854775808. change (2 ^ 48) with 281474976710656 in Hn.
  unfold max_size in B. lia.
Qed.

(** ** from_bytes<to_bytes<v>(), T>() is v *)

(** Objects that can be read back in the same byte order. *)
Record readable_object (G : tenv) (h : bool) (abi : ty -> N) (fuel : nat) (v : val) (t : ty) : Prop := {
  ro_object : object G h v t;
  ro_types : tall (rt_ok (array_cfg h abi)) t = true;
  ro_env : tall_env (rt_ok (array_cfg h abi)) G;
  ro_readable : readable G (array_cfg h abi) v t = true;
  ro_stack : (height v <= fuel)%nat
}.

Lemma from_bytes_reads G h abi fuel v t data :
  readable_object G h abi fuel v t -> writable G (mkWfmt h (SzFix 4)) v t = true ->
  N.of_nat (length data) < 2 ^ 63 ->
  has_at data 0 (host_encoding G h v t) -> from_bytes G h abi fuel data t = Some v.
Proof.
  intros [[O1 O2 O3 O4 O5 O6] R1 R2 R3 R4] Hw Hs Hat. unfold from_bytes, in_call. cbn [des_many].
  rewrite (des_round G (array_cfg h abi) data) with (v := v); auto.
  - unfold small. change (2 ^ 63) with 9223372036854775808 in Hs.
    change (2 ^ 64) with 18446744073709551616. lia.
  - now rewrite array_fmt.
  - now apply wt_dflt.
  - now rewrite array_fmt.
Qed.

Theorem from_bytes_to_bytes G h abi fuel v t e :
  readable_object G h abi fuel v t ->
  to_bytes G h abi [(v, t)] = Some e -> from_bytes G h abi fuel e t = Some v.
Proof.
  intros Hr. pose proof Hr as [Ho _ _ _ _]. pose proof Ho as [O1 O2 _ _ _ O6].
  rewrite to_bytes_concat; auto; [|vm_compute; reflexivity]. cbn [forallb map concat fst snd].
  rewrite andb_true_r, app_nil_r. destruct (_ && _) eqn:E; [|discriminate]. intro H. injection H as <-.
  apply andb_true_iff in E as [E _]. apply from_bytes_reads; auto.
  split; [cbn; lia|]. apply window_all.
Qed.

Theorem from_bytes_to_bytes_many G h abi fuel vs ts e :
  length vs = length ts -> (1 < length ts)%nat -> N.of_nat (length vs) < 2 ^ 48 ->
  readable_object G h abi fuel (VSeq vs) (TTuple ts) ->
  Forall (fun p => object G h (fst p) (snd p)) (combine vs ts) ->
  to_bytes G h abi (combine vs ts) = Some e ->
  from_bytes G h abi fuel e (TTuple ts) = Some (VSeq vs).
Proof.
  intros Hl _ Hn Hr Hf. pose proof Hr as [Ho _ _ _ _]. pose proof Ho as [O1 O2 _ _ _ O6].
  rewrite to_bytes_concat; auto; [|rewrite combine_length; lia].
  destruct (forallb _ _) eqn:E; [|discriminate]. intro H. injection H as <-.
  assert (Q : enc G (mkWfmt h (SzFix 4)) (VSeq vs) (TTuple ts)
    = (concat (map (fun p => host_encoding G h (fst p) (snd p)) (combine vs ts)), true)).
  { cbn [enc]. clear -Hl E. revert ts Hl E. induction vs as [|v vs IH]; intros [|t ts] Hl E; try discriminate; [reflexivity|].
    cbn [combine forallb map concat enc_many fst snd] in *. apply andb_true_iff in E as [E1 E2].
    apply andb_true_iff in E1 as [E1 _]. rewrite IH; auto. unfold pseq. unfold writable in E1. rewrite E1.
    reflexivity. }
  assert (Q' : host_encoding G h (VSeq vs) (TTuple ts)
    = concat (map (fun p => host_encoding G h (fst p) (snd p)) (combine vs ts)))
    by (unfold host_encoding at 1, encode; now rewrite Q).
  rewrite <- Q'. apply from_bytes_reads; auto.
  - unfold writable. now rewrite Q.
  - split; [cbn; lia|]. apply window_all.
Qed.

(** ** Ids *)

Definition host_number (h : bool) (e : list byte) : N := if h then le_val e else le_val (rev e).

(** The bytes of the id: the first [max] bytes of the encoding, all of them by default. *)
Definition id_bytes (e : list byte) (max : option nat) : list byte :=
  match max with None => e | Some m => firstn m e end.

Lemma scalar_reads G h abi fuel w isb s :
  length s = w -> N.of_nat w < 2 ^ 63 ->
  from_bytes G h abi fuel s (TScalar w isb) = Some (VN (host_number h s)).
Proof.
  intros Hl Hs. unfold from_bytes, in_call. cbn [des_many]. unfold des. cbn [des_ty].
  rewrite des_scalar_eq; [|unfold small; change (2 ^ 63) with 9223372036854775808 in Hs;
    change (2 ^ 64) with 18446744073709551616; lia|lia].
  rewrite Nat.add_0_l, Hl, Nat.leb_refl. cbn [nres]. rewrite <- Hl, window_all. reflexivity.
Qed.

(** What serialize_id returns, for every object and truncation. *)
Theorem serialize_id_value G h abi fuel v t max :
  object G h v t -> writable G (mkWfmt h (SzFix 4)) v t = true ->
  let e := host_encoding G h v t in
  (length e <= max_size)%nat ->
  match max with None => (0 < length e)%nat | Some m => (0 < m <= length e)%nat end ->
  let b := id_bytes e max in
  serialize_id G h abi fuel (v, t) max
  = Some (if existsb (Nat.eqb (length b)) [1; 2; 4; 8]%nat
          then (VN (host_number h b), TScalar (length b) (length b =? 1)%nat)
          else (VSeq (map (fun x => VN (b2n x)) b), TArray (length b) (TScalar 1 true))).
Proof.
  intros Ho Hw e Hlen Hmax b. unfold serialize_id. pose proof Ho as [O1 O2 _ _ _ _].
  rewrite to_bytes_concat; auto; [|vm_compute; reflexivity]. cbn [forallb map concat fst snd].
  fold e. rewrite Hw, andb_true_r, app_nil_r. cbn [andb].
  destruct (Nat.leb_spec (length e) max_size); [|lia].
  assert (Es : slice 0 max e = Some b).
  { unfold slice, b, id_bytes. destruct max as [m|]; [|reflexivity].
    destruct (Nat.ltb_spec 0 m); [|lia]. destruct (Nat.leb_spec m (length e)); [|lia].
    cbn [andb]. now rewrite Nat.sub_0_r. }
  rewrite Es. assert (Hb : (0 < length b)%nat).
  { unfold b, id_bytes. destruct max; [rewrite firstn_length|]; lia. }
  assert (Hb2 : N.of_nat (length b) < 2 ^ 63).
  { assert (length b <= length e)%nat by (unfold b, id_bytes; destruct max; [rewrite firstn_length|]; lia).
    unfold max_size in *. change (2 ^ 63) with 9223372036854775808. lia. }
  clearbody b. remember (length b) as n eqn:En.
  do 9 (destruct n as [|n]; [try lia; try reflexivity; cbn [existsb Nat.eqb orb];
          (rewrite scalar_reads by auto; reflexivity)|]).
  reflexivity.
Qed.

(** Writing the id in host byte order writes exactly those bytes. *)
Theorem id_wire_bytes G h abi fuel v t max id idt :
  object G h v t -> writable G (mkWfmt h (SzFix 4)) v t = true ->
  let e := host_encoding G h v t in
  (length e <= max_size)%nat ->
  match max with None => (0 < length e)%nat | Some m => (0 < m <= length e)%nat end ->
  serialize_id G h abi fuel (v, t) max = Some (id, idt) ->
  forall s, encode G (mkWfmt h s) id idt = id_bytes e max
  /\ id_type idt = true /\ wt G id idt = true /\ wf G idt = true.
Proof.
  intros Ho Hw e Hlen Hmax H s.
  rewrite (serialize_id_value G h abi fuel v t max Ho Hw Hlen Hmax) in H.
  fold e in H. set (b := id_bytes e max) in *.
  assert (Hb : (0 < length b)%nat).
  { unfold b, id_bytes. destruct max; [rewrite firstn_length|]; lia. }
  clearbody b. destruct (existsb (Nat.eqb (length b)) [1; 2; 4; 8]%nat) eqn:E.
  - injection H as <- <-. unfold encode. cbn [enc fst pdone wscalar little id_type wt wf].
    split; [|split; [now apply Nat.ltb_lt|split]].
    + unfold wscalar, host_number. cbn [little]. destruct h; [apply le_bytes_le_val|].
      rewrite <- (rev_length b), le_bytes_le_val. apply rev_involutive.
    + apply N.ltb_lt. unfold host_number. destruct h; [apply le_val_lt|].
      rewrite <- (rev_length b). apply le_val_lt.
    + apply andb_true_intro. split; [now apply Nat.ltb_lt|]. now destruct (length b =? 1)%nat.
  - injection H as <- <-. cbn [id_type wt wf].
    split; [|split; [now apply Nat.ltb_lt|split]].
    + unfold encode. cbn [enc]. clear. induction b as [|x b IH]; [reflexivity|].
      cbn [map enc_all enc]. unfold pseq, pdone. cbn [fst snd].
      rewrite wscalar_1, n2b_b2n, IH. reflexivity.
    + rewrite map_length, Nat.eqb_refl. cbn [andb]. clear. induction b as [|x b IH]; [reflexivity|].
      cbn [map forallb wt]. rewrite IH, andb_true_r. apply N.ltb_lt.
      rewrite pow256_S, pow256_0. pose proof (b2n_lt x). lia.
    + apply andb_true_intro. split; [now apply Nat.ltb_lt|reflexivity].
Qed.

(** Through an archive of the other byte order, an id that became an integer is reversed, an
    id that stayed an array is not. *)
Theorem id_wire_bytes_swapped_refuted :
  exists G v t id idt,
    object G true v t /\ serialize_id G true (fun _ => 8) 10 (v, t) (Some 4%nat) = Some (id, idt)
    /\ host_encoding G true v t = [x66; x6f; x6f; x21; x00]
    /\ encode G (mkWfmt false (SzFix 4)) id idt = [x21; x6f; x6f; x66].
Proof.
  exists node_env, (VSeq (map VN [0x66; 0x6f; 0x6f; 0x21; 0])), (TArray 5 (TScalar 1 true)). do 2 eexists.
  split; [constructor; try (vm_compute; reflexivity); [apply demo_wf_env|intros [|k]; reflexivity]|].
  split; [vm_compute; reflexivity|]. split; vm_compute; reflexivity.
Qed.

(** An object longer than MaxSize has no to_bytes. *)
Theorem to_bytes_long_refuted :
  exists v t, object node_env true v t
    /\ writable node_env (mkWfmt true (SzFix 4)) v t = true
    /\ to_bytes node_env true (fun _ => 8) [(v, t)] = None.
Proof.
  exists (VSeq (repeat (VN 7) 4097)), (TArray 4097 (TScalar 1 false)).
  split; [constructor; try (vm_compute; reflexivity); [apply demo_wf_env|intros [|k]; reflexivity]|].
  split; vm_compute; reflexivity.
Qed.

Example to_bytes_nontrivial :
  to_bytes node_env true (fun _ => 8) [(VN 0x1234, TScalar 2 false); (VSeq [VN 1; VN 2], TTuple [TVarint 4 false false; TScalar 4 false])]
  = Some [x34; x12; x01; x02; x00; x00; x00]
  /\ from_bytes node_env true (fun _ => 8) 10 [x34; x12; x01; x02; x00; x00; x00]
       (TTuple [TScalar 2 false; TTuple [TVarint 4 false false; TScalar 4 false]])
     = Some (VSeq [VN 0x1234; VSeq [VN 1; VN 2]])
  /\ serialize_id node_env true (fun _ => 8) 10 (VSeq (map VN [0x66; 0x6f; 0x6f]), TArray 3 (TScalar 1 true)) None
     = Some (VSeq (map VN [0x66; 0x6f; 0x6f]), TArray 3 (TScalar 1 true))
  /\ serialize_id node_env false (fun _ => 8) 10 (VSeq (map VN [0x66; 0x6f; 0x6f]), TArray 3 (TScalar 1 true)) (Some 2%nat)
     = Some (VN 0x666f, TScalar 2 false)
  /\ readable_object node_env true (fun _ => 8) 10 (VSeq [VN 1; VN 2]) (TTuple [TVarint 4 false false; TScalar 4 false]).
Proof.
  repeat (split; [vm_compute; reflexivity|]).
  constructor; try (vm_compute; reflexivity).
  - constructor; try (vm_compute; reflexivity); [apply demo_wf_env|intros [|k]; reflexivity].
  - intros [|k]; reflexivity.
  - cbn. lia.
Qed.

(** slice takes exactly the bytes from Left up to Right, or to the end; Left = Right is refused, as is
    anything beyond the end of the array. *)
Theorem slice_exact left right a s :
  slice left right a = Some s <->
  exists stop,
    match right with None => stop = length a | Some r => stop = r /\ (left < r)%nat end /\
    (left <= stop <= length a)%nat /\
    exists before after, a = before ++ s ++ after /\ length before = left /\ length (before ++ s) = stop.
Proof.
  unfold slice. destruct right as [r|].
  - destruct (Nat.ltb_spec left r) as [L|L]; cbn [andb].
    + destruct (Nat.leb_spec r (length a)) as [R|R].
      * split.
        -- intro H. injection H as <-. exists r. split; [auto|]. split; [lia|].
           exists (firstn left a), (skipn r a). unfold window.
           rewrite app_length, !firstn_length, skipn_length.
           split; [|split; lia].
           rewrite <- (firstn_skipn left a) at 1. f_equal.
           rewrite <- (firstn_skipn (r - left) (skipn left a)) at 1. f_equal.
           rewrite skipn_skipn. f_equal. lia.
        -- intros (stop & (-> & _) & _ & before & after & -> & <- & Hs). rewrite app_length in Hs.
           f_equal. unfold window. rewrite skipn_app, skipn_all, Nat.sub_diag. cbn [skipn app].
           rewrite firstn_app. replace (r - length before)%nat with (length s) by lia.
           rewrite firstn_all, Nat.sub_diag. cbn [firstn]. now rewrite app_nil_r.
      * split; [discriminate|]. intros (stop & (-> & _) & Hx & _). lia.
    + split; [discriminate|]. intros (stop & (-> & Hx) & _). lia.
  - destruct (Nat.leb_spec left (length a)) as [L|L].
    + split.
      * intro H. injection H as <-. exists (length a). split; [auto|]. split; [lia|].
        exists (firstn left a), []. rewrite app_nil_r, firstn_skipn, firstn_length. split; [auto|]. split; lia.
      * intros (stop & -> & _ & before & after & -> & <- & Hs). rewrite !app_length in Hs.
        destruct after as [|x after]; [|cbn [length] in Hs; lia].
        now rewrite app_nil_r, skipn_app, skipn_all, Nat.sub_diag.
    + split; [discriminate|]. intros (stop & -> & Hx & _). lia.
Qed.

Example slice_nontrivial :
  slice 1%nat (Some 3%nat) [x01; x02; x03; x04] = Some [x02; x03] /\ slice 2%nat None [x01; x02; x03] = Some [x03] /\
  slice 2%nat (Some 2%nat) [x01; x02; x03] = None /\ slice 1%nat (Some 4%nat) [x01; x02; x03] = None /\
  slice 3%nat None [x01; x02; x03] = Some [] /\ slice 4%nat None [x01; x02; x03] = None.
Proof. repeat split. Qed.
