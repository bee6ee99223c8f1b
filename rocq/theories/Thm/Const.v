(** C20: the constant-evaluation paths have the same effect as the run-time paths. *)

From Coq Require Import List NArith ZArith Lia Bool Arith.
From Coq Require Import ZifyBool ZifyNat ZifyN.
From Verif Require Import Base.Bytes Model.Types Model.Machine Model.Varint Model.Out Model.In
  Model.Loops Proofs.OutP Proofs.InBase Proofs.InRound.
Import ListNotations.
Local Open Scope nat_scope.

Ltac Zify.zify_post_hook ::= Z.div_mod_to_equations.

(** ** The loops *)

Lemma for_up_ext {S} (f g : nat -> S -> option S) n k s :
  (forall i s', k <= i < k + n -> f i s' = g i s') -> for_up f n k s = for_up g n k s.
Proof.
  revert k s; induction n as [|n IH]; intros k s H; [reflexivity|]. cbn [for_up].
  rewrite H by lia. destruct (g k s); [|reflexivity]. apply IH. intros. apply H. lia.
Qed.

Lemma overwrite_app_l {A} (l : list A) p e1 e2 :
  p + length e1 + length e2 <= length l ->
  overwrite (overwrite l (p + length e1) e2) p e1 = overwrite l p (e1 ++ e2).
Proof.
  intro H. apply list_ext. intro i.
  rewrite !nth_error_overwrite by (rewrite ?overwrite_length, ?app_length; lia).
  rewrite app_length.
  destruct (Nat.leb_spec p i); destruct (Nat.ltb_spec i (p + length e1));
    destruct (Nat.ltb_spec i (p + (length e1 + length e2)));
    destruct (Nat.leb_spec (p + length e1) i); 
    destruct (Nat.ltb_spec i (p + length e1 + length e2)); cbn [andb]; try lia; try reflexivity.
  - now rewrite nth_error_app1 by lia.
  - rewrite nth_error_app2 by lia. f_equal. lia.
Qed.

(** Ascending fill. *)
Lemma fill_up {A} (src : nat -> option A) base e : forall k s,
  (forall j, j < length e -> src (k + j) = nth_error e j) ->
  base + k + length e <= length s ->
  for_up (fun i s => match src i with Some x => assign s (base + i) x | None => None end)
    (length e) k s = Some (overwrite s (base + k) e).
Proof.
  induction e as [|x e IH]; intros k s Hsrc Hlen.
  - cbn. now rewrite overwrite_nil.
  - cbn [length for_up] in *. pose proof (Hsrc 0 ltac:(lia)) as H0. rewrite Nat.add_0_r in H0.
    rewrite H0. cbn [nth_error]. unfold assign at 1.
    destruct (Nat.ltb_spec (base + k) (length s)); [|lia].
    rewrite IH.
    + f_equal. replace (base + S k) with (base + k + length [x]) by (cbn; lia).
      rewrite overwrite_app by (cbn; lia). reflexivity.
    + intros j Hj. specialize (Hsrc (S j) ltac:(lia)). cbn [nth_error] in Hsrc.
      rewrite <- Hsrc. f_equal. lia.
    + rewrite overwrite_length by (cbn; lia). lia.
Qed.

Lemma fill_up_oob {A} (src : nat -> option A) base n : forall k s,
  length s < base + k + n -> n <> 0 ->
  for_up (fun i s => match src i with Some x => assign s (base + i) x | None => None end)
    n k s = None.
Proof.
  induction n as [|n IH]; intros k s Hlen Hn; [lia|].
  cbn [for_up]. destruct (src k) as [x|]; [|reflexivity]. unfold assign at 1.
  destruct (Nat.ltb_spec (base + k) (length s)); [|reflexivity].
  destruct (Nat.eq_dec n 0) as [->|Hn'].
  - lia.
  - apply IH; [|exact Hn']. rewrite overwrite_length by (cbn; lia). lia.
Qed.

Lemma fill_up_nosrc {A} (src : nat -> option A) tgt n : forall k s j,
  j < n -> src (k + j) = None ->
  for_up (fun i s => match src i with Some x => assign s (tgt i) x | None => None end)
    n k s = None.
Proof.
  induction n as [|n IH]; intros k s j Hj Hs; [lia|].
  cbn [for_up]. destruct j as [|j].
  - rewrite Nat.add_0_r in Hs. now rewrite Hs.
  - destruct (src k) as [x|]; [|reflexivity]. unfold assign at 1.
    destruct (tgt k <? length s); [|reflexivity].
    apply (IH _ _ j); [lia|]. rewrite <- Hs. f_equal. lia.
Qed.

(** Descending fill of a [w]-element array by an ascending loop. *)
Lemma fill_rev {A} (src : nat -> option A) w e : forall k s,
  (forall j, j < length e -> src (k + j) = nth_error e j) ->
  k + length e <= w -> length s = w ->
  for_up (fun i s => match src i with Some x => assign s (w - 1 - i) x | None => None end)
    (length e) k s = Some (overwrite s (w - k - length e) (rev e)).
Proof.
  induction e as [|x e IH]; intros k s Hsrc Hlen Hw.
  - cbn. now rewrite overwrite_nil.
  - cbn [length for_up rev] in *. pose proof (Hsrc 0 ltac:(lia)) as H0. rewrite Nat.add_0_r in H0.
    rewrite H0. cbn [nth_error]. unfold assign at 1.
    destruct (Nat.ltb_spec (w - 1 - k) (length s)); [|lia].
    rewrite IH.
    + f_equal. replace (w - k - S (length e)) with (w - S k - length e) by lia.
      replace (w - 1 - k) with (w - S k - length e + length (rev e)) by (rewrite rev_length; lia).
      rewrite overwrite_app_l; [reflexivity|]. rewrite rev_length. cbn. lia.
    + intros j Hj. specialize (Hsrc (S j) ltac:(lia)). cbn [nth_error] in Hsrc.
      rewrite <- Hsrc. f_equal. lia.
    + lia.
    + rewrite overwrite_length by (cbn; lia). lia.
Qed.

Lemma overwrite_whole {A} (l e : list A) : length e = length l -> overwrite l 0 e = e.
Proof.
  intro H. unfold overwrite. cbn [firstn app Nat.add]. rewrite skipn_all2 by lia. apply app_nil_r.
Qed.

Lemma nth_error_rev' {A} (l : list A) i :
  i < length l -> nth_error (rev l) i = nth_error l (length l - 1 - i).
Proof.
  intro H. destruct (nth_error l (length l - 1 - i)) as [x|] eqn:E.
  - apply nth_error_nth with (d := x) in E.
    rewrite (nth_error_nth' _ x) by (rewrite rev_length; lia).
    f_equal. rewrite rev_nth by lia.
    replace (length l - S i) with (length l - 1 - i) by lia. exact E.
  - apply nth_error_None in E. lia.
Qed.

(** ** Output *)

Lemma hostrep_length c w n : length (hostrep c w n) = w.
Proof. unfold hostrep. destruct (host_le c); rewrite ?rev_length, le_bytes_length; reflexivity. Qed.

Lemma const_store_scalar_agrees c value st :
  value <> [] ->
  const_store_scalar c value st = store (if swap c then rev value else value) st.
Proof.
  intro Hne. unfold const_store_scalar, store.
  assert (Hl : length (if swap c then rev value else value) = length value)
    by (destruct (swap c); rewrite ?rev_length; reflexivity).
  rewrite Hl. unfold copy1.
  destruct (Nat.leb_spec (opos st + length value) (length (obuf st))) as [Hle|Hgt].
  - pose proof (fill_up (fun i => nth_error value (if swap c then length value - 1 - i else i))
      (opos st) (if swap c then rev value else value) 0 (obuf st)) as HF.
    rewrite Hl, Nat.add_0_r in HF. rewrite HF; [reflexivity| |lia].
    intros j Hj. cbn [Nat.add]. destruct (swap c); [|reflexivity].
    now rewrite nth_error_rev'.
  - rewrite (fill_up_oob (fun i => nth_error value (if swap c then length value - 1 - i else i))).
    + reflexivity.
    + lia.
    + destruct value; [contradiction|discriminate].
Qed.

(** Scalars: every configuration, width, value and archive state. *)
Theorem const_scalar_output c w n st :
  0 < w -> const_put_scalar c w n st = put c (scalar_bytes c w n) st.
Proof.
  intro Hw. unfold const_put_scalar, put, seq.
  assert (Hl : length (scalar_bytes c w n) = w)
    by (unfold scalar_bytes; destruct (swap c); rewrite ?rev_length; apply hostrep_length).
  rewrite Hl. destruct (reserve c (N.of_nat w) st) as [r st']. destruct r; try reflexivity.
  rewrite const_store_scalar_agrees; [reflexivity|].
  intro E. pose proof (hostrep_length c w n) as H. rewrite E in H. cbn in H. lia.
Qed.

Lemma length_concat_w {A} w (l : list (list A)) :
  Forall (fun x => length x = w) l -> length (concat l) = length l * w.
Proof.
  induction 1 as [|x l Hx _ IH]; [reflexivity|]. cbn. rewrite app_length, IH, Hx. reflexivity.
Qed.

Lemma const_bytes_loop w base : forall (items all pre : list (list byte)) buf,
  all = pre ++ items -> Forall (fun x => length x = w) items ->
  base + length pre * w + length items * w <= length buf ->
  for_up (fun index buf =>
    match nth_error all index with
    | None => None
    | Some value => for_up (fun i buf => copy1 buf (base + index * w + i) value i) w 0 buf
    end) (length items) (length pre) buf
  = Some (overwrite buf (base + length pre * w) (concat items)).
Proof.
  induction items as [|x items IH]; intros all pre buf Hall Hf Hlen.
  - cbn. now rewrite overwrite_nil.
  - inversion Hf as [|? ? Hx Hf']; subst x0 l.
    cbn [length for_up concat] in *. rewrite Hall at 1.
    rewrite nth_error_app2, Nat.sub_diag by lia. cbn [nth_error].
    pose proof (fill_up (fun i => nth_error x i) (base + length pre * w) x 0 buf) as HF.
    rewrite Hx, Nat.add_0_r in HF. unfold copy1. rewrite HF; [|reflexivity|lia].
    specialize (IH all (pre ++ [x]) (overwrite buf (base + length pre * w) x)).
    rewrite app_length in IH. cbn [length] in IH. rewrite Nat.add_1_r in IH.
    unfold copy1 in IH. rewrite IH.
    + f_equal. replace (base + S (length pre) * w) with (base + length pre * w + length x) by lia.
      apply overwrite_app. lia.
    + rewrite Hall, <- app_assoc. reflexivity.
    + exact Hf'.
    + rewrite overwrite_length by lia. lia.
Qed.

Lemma const_bytes_loop_oob w base (all : list (list byte)) : forall n k buf,
  length buf < base + k * w + n * w -> n * w <> 0 ->
  for_up (fun index buf =>
    match nth_error all index with
    | None => None
    | Some value => for_up (fun i buf => copy1 buf (base + index * w + i) value i) w 0 buf
    end) n k buf = None.
Proof.
  induction n as [|n IH]; intros k buf Hlen Hn; [lia|].
  cbn [for_up]. destruct (nth_error all k) as [value|]; [|reflexivity].
  destruct (Nat.lt_ge_cases (length buf) (base + k * w + w)) as [Hlt|Hge].
  - unfold copy1. rewrite (fill_up_oob (fun i => nth_error value i)); [reflexivity|lia|lia].
  - destruct (for_up _ w 0 buf) as [buf'|] eqn:E; [|reflexivity].
    assert (Hbuf : length buf' = length buf).
    { revert E. unfold copy1.
      set (src := fun i => nth_error value i).
      generalize 0 as i0. generalize buf as b. clear.
      induction w as [|m IHm] at 2; intros b i0.
      - cbn. intro H. now injection H as ->.
      - cbn [for_up]. destruct (src i0); [|discriminate]. unfold assign.
        destruct (Nat.ltb_spec (base + k * w + i0) (length b)); [|discriminate].
        intro H'. apply IHm in H'. rewrite H'. rewrite overwrite_length; [reflexivity|cbn; lia]. }
    destruct (Nat.eq_dec n 0) as [->|Hn0]; [lia|].
    apply IH; [rewrite Hbuf; nia|]. nia.
Qed.

(** bytes items: any number of objects, each [w] bytes long. *)
Theorem const_bytes_output c w items st :
  Forall (fun x => length x = w) items ->
  const_put_bytes c w items st = put_bytes c (concat items) st.
Proof.
  intro Hf. pose proof (length_concat_w w items Hf) as HL.
  unfold const_put_bytes, put_bytes.
  destruct (N.eqb_spec (N.of_nat (length items) * N.of_nat w) 0) as [H0|H0].
  - destruct (concat items); [reflexivity|]. cbn in HL. lia.
  - destruct (concat items) as [|b e] eqn:E; [cbn in HL; lia|].
    unfold put, seq. rewrite HL. replace (N.of_nat (length items) * N.of_nat w)%N
      with (N.of_nat (length items * w)) by lia.
    destruct (reserve c _ st) as [r st']. destruct r; try reflexivity.
    unfold const_store_bytes, store. rewrite HL.
    destruct (Nat.leb_spec (opos st' + length items * w) (length (obuf st'))) as [Hle|Hgt].
    + pose proof (const_bytes_loop w (opos st') items items [] (obuf st') eq_refl Hf
        ltac:(cbn; lia)) as HF. cbn [length] in HF. rewrite HF.
      now rewrite E, Nat.mul_0_l, Nat.add_0_r.
    + rewrite const_bytes_loop_oob; [reflexivity|lia|lia].
Qed.

(** In particular the elements of a contiguous container of byte-serializable objects. *)
Theorem const_container_output G c t l st :
  bs t = true -> forallb (fun x => wt G x t) l = true ->
  const_put_bytes c (bsize t) (map (fun x => objrep c x t) l) st
  = put_bytes c (flat_map (fun x => objrep c x t) l) st.
Proof.
  intros Hb Hw. rewrite flat_map_concat_map. apply const_bytes_output.
  apply Forall_forall. intros e He. apply in_map_iff in He as (x & <- & Hx).
  rewrite forallb_forall in Hw. eapply objrep_length; eauto.
Qed.

(** ** Input *)

Lemma window_nth (data : list byte) pos n i :
  i < n -> nth_error (window data pos n) i = nth_error data (pos + i).
Proof. apply nth_error_window. Qed.

(** Scalars: any indeterminate array contents, any prior value, any data and position. *)
Theorem const_scalar_input c data w init prior pos :
  length init = w -> 0 < w ->
  const_des_scalar c data w init prior pos = des_scalar c data w prior pos.
Proof.
  intros Hi Hw. unfold const_des_scalar, des_scalar.
  destruct (remaining data pos <? N.of_nat w)%N; [reflexivity|].
  unfold load. destruct (Nat.leb_spec (pos + w) (length data)) as [Hle|Hgt].
  - pose proof (window_length data pos w Hle) as HW.
    unfold scalar_val, copy1. destruct (swap c).
    + pose proof (fill_rev (fun i => nth_error data (pos + i)) w (window data pos w) 0 init) as HF.
      rewrite HW in HF. rewrite HF; [|intros j Hj; now rewrite window_nth by lia|lia|lia].
      replace (w - 0 - w) with 0 by lia.
      rewrite overwrite_whole by (rewrite rev_length; lia). reflexivity.
    + pose proof (fill_up (fun i => nth_error data (pos + i)) 0 (window data pos w) 0 init) as HF.
      rewrite HW in HF. cbn [Nat.add] in HF. rewrite HF; [|intros j Hj; now rewrite window_nth by lia|lia].
      now rewrite overwrite_whole by lia.
  - unfold copy1. rewrite (fill_up_nosrc (fun i => nth_error data (pos + i)) _ w 0 init (w - 1)).
    + reflexivity.
    + lia.
    + apply nth_error_None. lia.
Qed.

Lemma const_des_loop c data t init pos :
  length init = bsize t ->
  forall items pre vs,
  pos + length pre * bsize t + length items * bsize t <= length data ->
  parse_all (objparse c t) (bsize t) (length items)
    (window data (pos + length pre * bsize t) (length items * bsize t)) = vs ->
  for_up (fun index items =>
    match for_up (fun i value => copy1 value i data (pos + index * bsize t + i)) (bsize t) 0 init with
    | None => None
    | Some value =>
        match objparse c t value with Some v => assign items index v | None => None end
    end) (length items) (length pre) (pre ++ items)
  = match vs with Some l => Some (pre ++ l) | None => None end.
Proof.
  intro Hi. induction items as [|x items IH]; intros pre vs Hlen Hp.
  - cbn in Hp. subst vs. reflexivity.
  - cbn [length for_up parse_all] in *.
    set (w := bsize t) in *. set (k := length pre) in *.
    set (p := pos + k * w) in *.
    assert (Hwin : firstn w (window data p (S (length items) * w)) = window data p w).
    { unfold window. rewrite firstn_firstn. f_equal. lia. }
    assert (Hskip : skipn w (window data p (S (length items) * w))
                    = window data (p + w) (length items * w)).
    { unfold window. rewrite skipn_firstn_comm, skipn_skipn. f_equal. lia. }
    rewrite Hwin, Hskip in Hp.
    unfold copy1.
    pose proof (window_length data p w ltac:(lia)) as HW.
    pose proof (fill_up (fun i => nth_error data (p + i)) 0 (window data p w) 0 init) as HF.
    cbn [Nat.add] in HF. rewrite HW in HF.
    rewrite HF; [|intros j Hj; now rewrite window_nth by lia|lia].
    rewrite overwrite_whole by lia.
    destruct (objparse c t (window data p w)) as [v|]; [|now subst vs].
    unfold assign. destruct (Nat.ltb_spec k (length (pre ++ x :: items))) as [_|Hge];
      [|rewrite app_length in Hge; cbn in Hge; lia].
    assert (Ho : overwrite (pre ++ x :: items) k [v] = (pre ++ [v]) ++ items).
    { unfold overwrite, k. rewrite firstn_app, Nat.sub_diag, firstn_all. cbn [firstn length].
      rewrite app_nil_r, Nat.add_1_r.
      replace (S (length pre)) with (length (pre ++ [x])) by (rewrite app_length; cbn; lia).
      rewrite <- !app_assoc. cbn [app]. f_equal. f_equal.
      replace (pre ++ x :: items) with ((pre ++ [x]) ++ items) by (rewrite <- app_assoc; reflexivity).
      rewrite skipn_app, Nat.sub_diag, skipn_all. reflexivity. }
    rewrite Ho. specialize (IH (pre ++ [v])).
    rewrite app_length in IH. cbn [length] in IH. rewrite Nat.add_1_r in IH. fold k in IH.
    unfold copy1, assign in IH.
    replace (pos + S k * w) with (p + w) in IH by lia.
    rewrite (IH _ ltac:(lia) eq_refl). clear IH.
    subst vs.
    destruct (parse_all (objparse c t) w (length items) (window data (p + w) (length items * w)))
      as [l|]; [|reflexivity].
    now rewrite <- app_assoc.
Qed.

(** bytes items: any target objects (also when a bool would be invalid: then both are
    undefined). *)
Theorem const_bytes_input c data t init prior pos :
  length init = bsize t ->
  const_des_bytes c data t init prior pos = des_bytes c data t (length prior) prior pos.
Proof.
  intro Hi. unfold const_des_bytes, des_bytes.
  destruct (N.eqb_spec (N.of_nat (length prior) * N.of_nat (bsize t)) 0) as [H0|H0]; [reflexivity|].
  destruct (remaining data pos <? _)%N; [reflexivity|].
  unfold load. destruct (Nat.leb_spec (pos + length prior * bsize t) (length data)) as [Hle|Hgt].
  - pose proof (const_des_loop c data t init pos Hi prior [] _ ltac:(cbn; lia) eq_refl) as HL.
    cbn [length app] in HL. rewrite Nat.mul_0_l, Nat.add_0_r in HL. rewrite HL. clear HL.
    destruct (parse_all _ _ _ _); reflexivity.
  - assert (HN : forall n k items,
        length data < pos + k * bsize t + n * bsize t -> n * bsize t <> 0 ->
        for_up (fun index items =>
          match for_up (fun i value => copy1 value i data (pos + index * bsize t + i)) (bsize t) 0 init with
          | None => None
          | Some value =>
              match objparse c t value with Some v => assign items index v | None => None end
          end) n k items = None).
    { clear - Hi. induction n as [|n IH]; intros k items Hl Hn; [lia|].
      cbn [for_up].
      destruct (Nat.lt_ge_cases (length data) (pos + k * bsize t + bsize t)) as [Hlt|Hge].
      - unfold copy1.
        rewrite (fill_up_nosrc (fun i => nth_error data (pos + k * bsize t + i)) _ _ _ _ (bsize t - 1));
          [reflexivity|lia|]. apply nth_error_None. lia.
      - destruct (for_up _ (bsize t) 0 init); [|reflexivity].
        destruct (objparse c t l); [|reflexivity].
        destruct (assign items k v); [|reflexivity].
        destruct (Nat.eq_dec n 0) as [->|Hn0]; [lia|].
        apply IH; [nia|nia]. }
    rewrite HN; [reflexivity|lia|lia].
Qed.

(** ** Shifting a message to make room for its size *)

Lemma const_memmove_prefix (buf0 : list byte) by_ start : forall n buf,
  start + by_ + n <= length buf0 ->
  length buf = length buf0 ->
  (forall q, q < start + n + by_ -> nth_error buf q = nth_error buf0 q) -> 0 < by_ ->
  for_down (fun p b => copy1 b (p + by_) b p) n start buf
  = Some (overwrite buf (start + by_) (window buf0 start n)).
Proof.
  induction n as [|n IH]; intros buf Hlen Hb Heq Hby.
  - cbn [for_down]. now rewrite window_nil, overwrite_nil.
  - cbn [for_down]. unfold copy1 at 1.
    rewrite Heq by lia.
    destruct (nth_error buf0 (start + n)) as [x|] eqn:E;
      [|apply nth_error_None in E; lia].
    unfold assign. destruct (Nat.ltb_spec (start + n + by_) (length buf)); [|lia].
    rewrite IH; [|lia|rewrite overwrite_length; [lia|cbn; lia]| |exact Hby].
    2:{ intros q Hq. rewrite nth_error_overwrite by (cbn; lia). cbn [length].
        destruct (Nat.leb_spec (start + n + by_) q); [lia|]. cbn [andb]. apply Heq. lia. }
    f_equal.
    pose proof (window_length buf0 start n ltac:(lia)) as HW.
    replace (start + n + by_) with (start + by_ + length (window buf0 start n)) by lia.
    rewrite overwrite_app_l by (cbn [length]; lia).
    f_equal. apply list_ext. intro i.
    destruct (Nat.lt_ge_cases i n).
    + rewrite nth_error_app1 by lia. rewrite !window_nth by lia. reflexivity.
    + rewrite nth_error_app2 by lia. rewrite HW.
      destruct (Nat.eq_dec i n) as [->|].
      * rewrite Nat.sub_diag. rewrite window_nth by lia. cbn [nth_error]. now rewrite E.
      * destruct (i - n) as [|d] eqn:Ed; [lia|]. cbn [nth_error].
        replace (nth_error [] d) with (@None byte) by (destruct d; reflexivity).
        symmetry. apply nth_error_None. rewrite window_length by lia. lia.
Qed.

(** The backward loop equals memmove, for every non-empty message and positive shift (the
    code calls it only then: 2377). *)
Theorem const_shift buf start n by_ :
  0 < n -> 0 < by_ -> const_memmove buf start n by_ = memmove buf start n by_.
Proof.
  intros Hn Hby. unfold const_memmove, memmove.
  destruct (Nat.leb_spec (start + by_ + n) (length buf)) as [Hle|Hgt].
  - apply const_memmove_prefix; auto; lia.
  - destruct n as [|n]; [lia|]. cbn [for_down]. unfold copy1 at 1.
    destruct (nth_error buf (start + n)); [|reflexivity]. unfold assign.
    destruct (Nat.ltb_spec (start + n + by_) (length buf)); [lia|reflexivity].
Qed.

(** ** Concrete cases *)

Definition const_cfg (sw : bool) : cfg :=
  mkCfg true sw (SzFix 4) None 3 2 false false false (fun _ => true) (fun _ => 0%N).

Example const_paths_nontrivial :
  const_put_scalar (const_cfg true) 4 0x11223344 (mkO (zeros 6) 1)
    = (ROk, mkO [x00; x11; x22; x33; x44; x00] 5) /\
  const_put_bytes (const_cfg false) 2 [[x01; x02]; [x03; x04]] (mkO (zeros 5) 1)
    = (ROk, mkO [x00; x01; x02; x03; x04] 5) /\
  const_des_scalar (const_cfg true) [x00; x01; x02] 2 [xff; xff] 7 1 = (ROk, 258%N, 3) /\
  const_des_bytes (const_cfg false) [x00; x01; x02; x03; x04] (TScalar 2 false) [xff; xff]
    [VN 0; VN 0] 1 = (ROk, [VN 513; VN 1027], 5) /\
  const_memmove [x01; x02; x03; x00; x00] 0 3 2 = Some [x01; x02; x01; x02; x03].
Proof. vm_compute. auto 10. Qed.
