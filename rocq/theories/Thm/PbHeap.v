(** C78: reading protobuf messages neither leaks memory nor frees it twice, whichever allocation fails. *)

From Coq Require Import List NArith ZArith Lia Bool Arith Permutation.
From Coq Require Import ZifyBool ZifyNat ZifyN.
From Verif Require Import Base.Bytes Model.Types Model.Machine Model.Varint Model.Out Model.In
  Model.Loops Model.Protocol Model.Pb Model.Heap Model.PbHeap
  Spec.Leb128 Spec.Wire Proofs.VarintP Proofs.OutP Proofs.InBase Proofs.InSafe Proofs.ProtoP Proofs.PbOut
  Proofs.PbIn Proofs.HeapP Proofs.HeapLoud Proofs.PbHeapP
  Thm.Demo Thm.Output Thm.Resource Thm.Heap Thm.Pb Thm.PbInput Thm.PbHold.
Import ListNotations.
Local Open Scope N_scope.

(** [h] is a message of type [k]: its members have values of their types, and own blocks where such objects do. *)
Definition message (P : penv) (k : nat) (h : hval) : Prop :=
  pwt P (erase h) (PMsg k) = true /\ pshaped P h (PMsg k) = true.

(** The message types: well-formed, comparisons that order, and nothing in the containers of a
    value-initialised message. *)
Record schema (P : penv) : Prop := {
  s_wf : wf_penv P;
  s_cmp : pcmp_env P;
  s_bare : PbHold.bare P
}.

(** The archive: fewer than 2^63 bytes, a position inside them, any options. *)
Record pb_source (data : list byte) (pos : nat) (s : sizety) : Prop := {
  b_small : small data;
  b_pos : (pos <= length data)%nat;
  b_size : wfsz (Some s) = true
}.

Lemma hollow_shaped P : wf_penv P -> forall v t,
  wfp t = true -> contents P v t = O -> pwt P v t = true -> pshaped P (Heap.bare v) t = true.
Proof.
  intros HP. induction v as [n|l IH| |v IH|i v IH| |l|l] using val_ind'; intros t Ht Hc Hw;
    destruct t; try discriminate; try reflexivity;
    cbn [Heap.bare pshaped contents pwt wfp] in *.
  - destruct l; [reflexivity|discriminate].
  - assert (Hf : forall fd, In fd (m_fields (P k)) -> wfp (snd fd) = true).
    { intros fd Hin. pose proof (HP k) as Hk. unfold wf_pmsg in Hk. rewrite !andb_true_iff in Hk.
      destruct Hk as [[[[[W _] _] _] _] _]. rewrite forallb_forall in W. now apply W. }
    revert Hf Hc Hw. generalize (m_fields (P k)).
    induction IH as [|x l Hx Hl IHl]; intros [|fd m] Hf Hc Hw; try discriminate; [reflexivity|].
    cbn [map forall2b sum2] in *. apply andb_true_iff in Hw as [W1 W2].
    rewrite Hx by (auto with datatypes; lia). cbn [andb].
    apply IHl; [intros fd' Hin; apply Hf; now right|lia|exact W2].
  - pose proof (wfw_pos _ Ht). destruct l as [|x l]; [|cbn [length] in Hc; nia].
    destruct ck as [[|] ?|? ?]; reflexivity.
  - destruct l as [|x l]; [|discriminate]. destruct ck as [[|] ?|? ?]; reflexivity.
  - destruct l as [|x l]; [|discriminate]. destruct ck as [[|] ?|? ?]; reflexivity.
  - destruct l as [|x l]; [|discriminate]. destruct ck as [[|] ?|? ?]; reflexivity.
  - destruct l as [|x l]; [|discriminate]. reflexivity.
  - apply andb_true_iff in Hw as [_ Hw]. now apply nums_bare with w.
Qed.

Lemma schema_bare P : schema P -> forall k, pshaped P (Heap.bare (VSeq (m_dflt (P k)))) (PMsg k) = true.
Proof.
  intros [S1 _ S3] k. apply hollow_shaped; [exact S1|reflexivity|apply S3|].
  exact (pwt_pdflt P (PMsg k) S1).
Qed.

Section Item.
  Variables (ok : nat -> bool) (room : nat -> N) (P : penv) (c : cfg) (data : list byte) (fuel : nat) (s : sizety).
  Variables (k : nat) (h : hval) (pos : nat) (H : heap) (rest : list nat).
  Variables (r : res) (h' : hval) (p : nat) (H' : heap).
  Hypothesis HS : schema P.
  Hypothesis HA : pb_source data pos s.
  Hypothesis Hf : (length data - pos < fuel)%nat.
  Hypothesis HM : message P k h.
  Hypothesis HE : exact_heap H [h] rest.
  Hypothesis Hcall : hdes_pb_item ok room P c data fuel s k h pos H = (r, h', p, H').

  Lemma item_ok :
    good H' (own h') (fun b => cnt b rest) /\ hbad H' = hbad H /\ pshaped P h' (PMsg k) = true /\
    ((r, erase h', p) = des_pb_item P c data fuel s k (erase h) pos /\ calm ok H H'
     \/ r = RThrow /\ stopped ok H H' /\ (pos <= p <= length data)%nat /\ pwt P (erase h') (PMsg k) = true).
  Proof.
    destruct HS as [S1 S2 S3], HA as [A1 A2 A3], HM as [M1 M2].
    pose proof (exact_good _ _ _ HE) as G0. cbn [flat_map] in G0. rewrite app_nil_r in G0.
    pose proof (hdes_pb_item_ok ok room P c data fuel s k h pos H (fun b => cnt b rest) S1 S2 (schema_bare P HS)
      A3 A1 A2 Hf M1 M2 G0) as K.
    rewrite Hcall in K. exact K.
  Qed.
End Item.

(** ** C78 *)

(** Whatever the bytes, whichever allocations are refused and however the read ends: afterwards the live blocks
    are exactly those that the message owns and those that others owned before. *)
Theorem pb_ownership ok room P c data fuel s k h pos H rest r h' p H' :
  schema P -> pb_source data pos s -> (length data - pos < fuel)%nat ->
  message P k h -> exact_heap H [h] rest ->
  hdes_pb_item ok room P c data fuel s k h pos H = (r, h', p, H') ->
  exact_heap H' [h'] rest /\ message P k h' /\ (pos <= p <= length data)%nat.
Proof.
  intros HS HA Hf HM HE Hc.
  destruct (item_ok _ _ _ _ _ _ _ _ _ _ _ _ _ _ _ _ HS HA Hf HM HE Hc) as (K1 & K2 & K3 & K4).
  split; [apply good_exact; [cbn [flat_map]; now rewrite app_nil_r|rewrite K2; apply HE]|].
  destruct K4 as [[K4 _]|(_ & _ & K5 & K6)]; [|split; [split; assumption|exact K5]].
  destruct HS as [S1 S2 S3], HA as [A1 A2 A3], HM as [M1 M2].
  pose proof (des_pb_item_safe P c true data fuel s k (erase h) pos S1 S2
    ltac:(intro k'; apply forallb_forall; reflexivity) A3 A1 A2 Hf M1) as Z.
  rewrite <- K4 in Z. destruct Z as (Z1 & Z2 & _). split; [split; assumption|exact Z1].
Qed.

(** A refused allocation is what the caller sees, and it is the last one asked for. *)
Theorem pb_refusal_throws ok room P c data fuel s k h pos H rest r h' p H' :
  schema P -> pb_source data pos s -> (length data - pos < fuel)%nat ->
  message P k h -> exact_heap H [h] rest ->
  hdes_pb_item ok room P c data fuel s k h pos H = (r, h', p, H') ->
  forall n, (hnext H <= n < hnext H')%nat -> ok n = false -> r = RThrow /\ hnext H' = S n.
Proof.
  intros HS HA Hf HM HE Hc n Hn Hno.
  destruct (item_ok _ _ _ _ _ _ _ _ _ _ _ _ _ _ _ _ HS HA Hf HM HE Hc) as (_ & _ & _ & K4).
  destruct K4 as [[_ [_ K4]]|(-> & (m & E & L & Gr & Fm) & _)].
  - rewrite K4 in Hno by exact Hn. discriminate.
  - split; [reflexivity|]. rewrite E. f_equal.
    destruct (Nat.lt_trichotomy n m) as [K|[K|K]]; [rewrite Gr in Hno by lia; discriminate|now symmetry|lia].
Qed.

(** If no allocation is refused during the read, it does what Model/Pb.v says; this holds for any growth
    policy ([room]). *)
Theorem pb_heap_refines ok room P c data fuel s k h pos H rest r h' p H' :
  schema P -> pb_source data pos s -> (length data - pos < fuel)%nat ->
  message P k h -> exact_heap H [h] rest ->
  hdes_pb_item ok room P c data fuel s k h pos H = (r, h', p, H') ->
  (forall n, (hnext H <= n < hnext H')%nat -> ok n = true) ->
  des_pb_item P c data fuel s k (erase h) pos = (r, erase h', p).
Proof.
  intros HS HA Hf HM HE Hc Hall.
  destruct (item_ok _ _ _ _ _ _ _ _ _ _ _ _ _ _ _ _ HS HA Hf HM HE Hc) as (_ & _ & _ & K4).
  destruct K4 as [[K4 _]|(_ & (m & E & L & _ & Fm) & _)]; [now symmetry|].
  rewrite Hall in Fm by lia. discriminate.
Qed.

(** Programs: message variables, and reads into any of them, from any archive; every outcome, exceptions
    included, is survived. *)
Record pb_step := mkStep { e_var : nat; e_cfg : cfg; e_data : list byte; e_pos : nat; e_size : sizety }.

Definition run_step ok room P (ks : list nat) (x : pb_step) (vars : list hval) (H : heap) : list hval * heap :=
  match nth_error vars (e_var x), nth_error ks (e_var x) with
  | Some h, Some k =>
      match hdes_pb_item ok room P (e_cfg x) (e_data x) (S (length (e_data x))) (e_size x) k h (e_pos x) H with
      | (_, h', _, H') => (set_nth (e_var x) h' vars, H')
      end
  | _, _ => (vars, H)
  end.

Fixpoint run_steps ok room P (ks : list nat) (xs : list pb_step) (vars : list hval) (H : heap) : list hval * heap :=
  match xs with
  | [] => (vars, H)
  | x :: xs' => let (vars', H') := run_step ok room P ks x vars H in run_steps ok room P ks xs' vars' H'
  end.

Definition messages (P : penv) (ks : list nat) (vars : list hval) : Prop := Forall2 (message P) ks vars.

Lemma nth_split_set {A} (l : list A) : forall i x, nth_error l i = Some x ->
  exists a b, l = a ++ x :: b /\ forall y, set_nth i y l = a ++ y :: b.
Proof.
  induction l as [|z l IH]; intros [|i] x E; try discriminate.
  - injection E as ->. exists [], l. split; reflexivity.
  - cbn [nth_error] in E. destruct (IH i x E) as (a & b & -> & S'). exists (z :: a), b.
    split; [reflexivity|]. intro y. cbn [set_nth app]. now rewrite S'.
Qed.

Lemma messages_set P ks : forall vars i k h, messages P ks vars -> nth_error ks i = Some k -> message P k h ->
  messages P ks (set_nth i h vars).
Proof.
  induction ks as [|k0 ks IH]; intros vars i k h HM; inversion HM as [|? h0 ? vars0 M1 M2]; subst.
  - destruct i; discriminate.
  - destruct i as [|i]; cbn [nth_error set_nth]; intros E Hh.
    + injection E as ->. now constructor.
    + constructor; [exact M1|]. now apply IH with k.
Qed.

Lemma messages_nth P ks : forall vars i k h, messages P ks vars -> nth_error ks i = Some k ->
  nth_error vars i = Some h -> message P k h.
Proof.
  induction ks as [|k0 ks IH]; intros vars i k h HM; inversion HM as [|? h0 ? vars0 M1 M2]; subst.
  - destruct i; discriminate.
  - destruct i as [|i]; cbn [nth_error]; intros E Eh; [congruence|]. eapply IH; eauto.
Qed.

Lemma run_step_keeps ok room P ks x vars H rest :
  schema P -> pb_source (e_data x) (e_pos x) (e_size x) -> messages P ks vars -> exact_heap H vars rest ->
  let (vars', H') := run_step ok room P ks x vars H in messages P ks vars' /\ exact_heap H' vars' rest.
Proof.
  intros HS HA HM HE. unfold run_step.
  destruct (nth_error vars (e_var x)) as [h|] eqn:Ev; [|auto].
  destruct (nth_error ks (e_var x)) as [k|] eqn:Ek; [|auto].
  destruct (hdes_pb_item _ _ _ _ _ _ _ _ _ _ _) as [[[r h'] p] H'] eqn:E.
  destruct (nth_split_set _ _ _ Ev) as (a & b & El & Es). rewrite Es.
  assert (HE1 : exact_heap H [h] (flat_map own a ++ flat_map own b ++ rest)).
  { destruct HE as [E1 E2 E3 E4]. constructor; auto. eapply Permutation_trans; [exact E1|].
    rewrite El. rewrite flat_map_app. cbn [flat_map]. rewrite app_nil_r, <- !app_assoc.
    apply Permutation_app_swap_app. }
  destruct (pb_ownership ok room P (e_cfg x) (e_data x) (S (length (e_data x))) (e_size x) k h (e_pos x) H _ r h' p H'
    HS HA ltac:(lia) (messages_nth _ _ _ _ _ _ HM Ek Ev) HE1 E) as ([E1 E2 E3 E4] & M' & _).
  split; [rewrite <- Es; now apply messages_set with k|]. constructor; auto.
  eapply Permutation_trans; [exact E1|]. rewrite flat_map_app. cbn [flat_map]. rewrite app_nil_r, <- !app_assoc.
  apply Permutation_app_swap_app.
Qed.

Lemma run_steps_keep ok room P ks xs rest : schema P -> forall vars H,
  Forall (fun x => pb_source (e_data x) (e_pos x) (e_size x)) xs -> messages P ks vars -> exact_heap H vars rest ->
  let (vars', H') := run_steps ok room P ks xs vars H in messages P ks vars' /\ exact_heap H' vars' rest.
Proof.
  intros HS. induction xs as [|x xs IH]; intros vars H HX HM HE; cbn [run_steps]; [auto|].
  inversion HX as [|? ? X1 X2]; subst.
  pose proof (run_step_keeps ok room P ks x vars H rest HS X1 HM HE) as K.
  destruct (run_step _ _ _ _ _ _ _) as [vars' H']. destruct K as [K1 K2]. now apply IH.
Qed.

(** From birth to death: value-initialised messages, any number of reads into any of them from any archives
    and bytes, any allocations refused at any time; then the messages are destroyed. *)
Theorem pb_lifetime ok room P ks xs vars H :
  schema P -> Forall (fun x => pb_source (e_data x) (e_pos x) (e_size x)) xs ->
  run_steps ok room P ks xs (map (fun k => Heap.bare (VSeq (m_dflt (P k)))) ks) no_blocks = (vars, H) ->
  exact_heap H vars [] /\ messages P ks vars /\
  hlive (destroy_all vars H) = [] /\ hbad (destroy_all vars H) = false.
Proof.
  intros HS HX Hrun.
  assert (HM : messages P ks (map (fun k => Heap.bare (VSeq (m_dflt (P k)))) ks)).
  { clear Hrun. induction ks as [|k l IH]; [constructor|]. cbn [map]. constructor; [|exact IH]. split.
    - rewrite erase_bare. apply (pwt_pdflt P (PMsg k)). apply HS.
    - now apply schema_bare. }
  assert (HE : exact_heap no_blocks (map (fun k => Heap.bare (VSeq (m_dflt (P k)))) ks) []).
  { replace (map (fun k => Heap.bare (VSeq (m_dflt (P k)))) ks)
      with (map Heap.bare (map (fun k => VSeq (m_dflt (P k))) ks)) by now rewrite map_map.
    constructor; cbn [no_blocks hlive hnext hbad]; [|constructor|intros b []|reflexivity].
    rewrite own_bares. constructor. }
  pose proof (run_steps_keep ok room P ks xs [] HS _ _ HX HM HE) as K. rewrite Hrun in K.
  destruct K as [K1 K2]. split; [exact K2|]. split; [exact K1|].
  pose proof (exact_good _ _ _ K2) as Kg. apply destroy_all_good in Kg as [D1 D2].
  split; [|rewrite D2; apply K2]. destruct D1 as [_ D1].
  destruct (hlive (destroy_all vars H)) as [|b l] eqn:El; [reflexivity|].
  specialize (D1 b). rewrite cnt_cons, Nat.eqb_refl in D1. cbn in D1. lia.
Qed.

(** ** The hypotheses are met, and allocations do fail *)

Definition hdemo_bytes : list byte := obuf (snd (ser_pb_item pb_demo vec_cfg (SzFix 4) 0 pb_demo_val (mkO [] 0))).
Definition hdemo (ok : nat -> bool) (room : nat -> N) :=
  hdes_pb_item ok room pb_demo vec_cfg hdemo_bytes 200 (SzFix 4) 0 (Heap.bare (VSeq (m_dflt (pb_demo O)))) 0 no_blocks.
Definition pb_outcome (x : hres) : res * nat * nat := match x with (r, _, _, H) => (r, hnext H, length (hlive H)) end.

Lemma pb_demo_schema : schema pb_demo.
Proof.
  constructor; [exact pb_demo_wf| |intros [|[|k]]; reflexivity].
  intros [|[|k]]; cbn [pb_demo m_fields];
    repeat (apply Forall_cons); try apply Forall_nil; cbn [snd pcmp_ok]; try exact I.
  - split; [exact (lt_n_order _ map_kind eq_refl)|]. split; exact I.
  - exact (lt_n_order _ set_kind eq_refl).
Qed.

Lemma pb_demo_source : pb_source hdemo_bytes 0 (SzFix 4).
Proof. constructor; [vm_compute; reflexivity|lia|reflexivity]. Qed.

(** Twelve blocks at the end; two more on the way if buffers have to grow.  If the nth allocation is refused,
    what the members read before hold is all that is live. *)
Example pb_ownership_nontrivial :
  pb_outcome (hdemo (fun _ => true) (fun _ => 1)) = (ROk, 14%nat, 12%nat) /\
  pb_outcome (hdemo (fun _ => true) (fun _ => 100)) = (ROk, 12%nat, 12%nat) /\
  map (fun i => pb_outcome (hdemo (fun n => negb (n =? i)%nat) (fun _ => 1))) [0; 2; 5; 9; 13]%nat
  = [(RThrow, 1, 0); (RThrow, 3, 1); (RThrow, 6, 3); (RThrow, 10, 8); (RThrow, 14, 11)]%nat.
Proof. split; [|split]; vm_compute; reflexivity. Qed.

(** One key twice in a map of strings: the node and the string of the second entry are freed; if its node is
    refused, its string is freed and the first entry stays. *)
Definition twice : list byte :=
  [x3a; x08; x0d; x07; x00; x00; x00; x12; x01; x61;  x3a; x08; x0d; x07; x00; x00; x00; x12; x01; x62].

Definition htwice (ok : nat -> bool) : res * hval * heap :=
  match hdes_pb_item ok (fun _ => 1) pb_demo vec_cfg twice 200 SzNone 0
          (Heap.bare (VSeq (m_dflt (pb_demo O)))) 0 no_blocks with
  | (r, h, _, H) => (r, nth 3 (has h) HNone, H)
  end.

Example pb_duplicate_freed :
  let entry := HSeq [1%nat] [HSeq [] [HN 7; HSeq [0%nat] [HN 97]]] in
  htwice (fun _ => true) = (ROk, entry, mkHeap 4 [1; 0]%nat false) /\
  htwice (fun n => negb (n =? 3)%nat) = (RThrow, entry, mkHeap 4 [1; 0]%nat false) /\
  htwice (fun n => negb (n =? 1)%nat) = (RThrow, HSeq [] [], mkHeap 2 [] false).
Proof. split; [|split]; vm_compute; reflexivity. Qed.

(** Two messages, three reads, one of them running out of memory. *)
Example pb_lifetime_nontrivial :
  let x := mkStep 0 vec_cfg hdemo_bytes 0 (SzFix 4) in
  let '(vars, H) := run_steps (fun n => negb (n =? 20)%nat) (fun _ => 1) pb_demo [0; 1]%nat
    [x; mkStep 1 vec_cfg [x0a; x01; x41] 0 SzNone; x]
    (map (fun k => Heap.bare (VSeq (m_dflt (pb_demo k)))) [0; 1]%nat) no_blocks in
  (hnext H, length (hlive H), hbad H, hlive (destroy_all vars H)) = (21%nat, 9%nat, false, []).
Proof. vm_compute. reflexivity. Qed.

(** ** Buffers are used again *)

(** A member that is a vector of numbers. *)
Definition number_vector (t : pty) : bool :=
  match t with
  | PFixes (CSeq true _) _ => true
  | PVars (CSeq true _) w _ _ => wfw w
  | _ => false
  end.

(** What reading one record of wire type 2 may ask of the buffer: fundamentals replace what the
    member holds (5131), varints are added to it, at most one per byte, and the number of bytes is
    reserved beforehand (5136-5146). *)
Definition packed_need (t : pty) (len : N) (l : list hval) : N :=
  match t with
  | PFixes _ w => len / N.of_nat w
  | _ => len + N.of_nat (length l)
  end.

(** A single element for which the buffer has space asks the allocator for nothing. *)
Theorem pb_element_in_place ok room P c rec t data wire b l pos H r h p H' :
  number_vector t = true -> wire <> 2 -> N.of_nat (length l) + 1 <= room b ->
  hdes_field ok room P c rec t data wire (HSeq [b] l) pos H = (r, h, p, H') ->
  H' = H /\ blocks h = [b].
Proof.
  intros Ht Hwt Hr E.
  destruct t as [| | | | | |ck w|ck w sg zz| | | |]; try discriminate Ht;
    destruct ck as [[] q|]; try discriminate Ht; cbn [hdes_field] in E; unfold hdes_scalars in E;
    (replace (wire =? 2) with false in E by lia); cbn [negb has blocks hadd] in E;
    (destruct (_ : res * N * nat) as [[r1 x] p1] in E; destruct r1; try (injection E as <- <- <- <-; auto));
    unfold fits in E; (replace (N.of_nat (S (length l)) <=? room b) with true in E by lia);
    injection E as <- <- <- <-; auto.
Qed.

Lemma packed_in_place ok room fetch b q stop top :
  (forall pos x pos', (pos <= top)%nat -> fetch pos = (ROk, x, pos') -> (pos < pos' <= top)%nat) ->
  forall n acc pos H r h p H', (pos <= top)%nat ->
  N.of_nat (length acc) + (stop - N.of_nat pos) <= room b ->
  hpacked_loop ok room fetch (CSeq true q) stop n [b] acc pos H = (r, h, p, H') ->
  H' = H /\ blocks h = [b].
Proof.
  intro Hf. induction n as [|n IH]; intros acc pos H r h p H' Ht Hr E; cbn [hpacked_loop] in E.
  - destruct (_ <? stop); injection E as <- <- <- <-; auto.
  - destruct (N.ltb_spec (N.of_nat pos) stop) as [L|L]; [|injection E as <- <- <- <-; auto].
    destruct (fetch pos) as [[r1 x] p1] eqn:Ef. destruct r1; try (injection E as <- <- <- <-; auto).
    pose proof (Hf _ _ _ Ht Ef) as Hf'. cbn [hadd] in E. unfold fits in E.
    replace (N.of_nat (S (length acc)) <=? room b) with true in E by lia.
    apply IH in E; auto; [lia|]. rewrite app_length. cbn [length]. lia.
Qed.

(** Nor does a packed record whose announced length the buffer has space for. *)
Theorem pb_packed_in_place ok room P c rec t data b l pos len pos1 H r h p H' :
  number_vector t = true -> small data -> (pos <= length data)%nat ->
  des_varint 8 false 0 data pos = (ROk, len, pos1) -> packed_need t len l <= room b ->
  hdes_field ok room P c rec t data 2 (HSeq [b] l) pos H = (r, h, p, H') ->
  H' = H /\ blocks h = [b].
Proof.
  intros Ht Hs Hp Hl Hr E.
  destruct t as [| | | | | |ck w|ck w sg zz| | | |]; try discriminate Ht;
    destruct ck as [[] q|]; try discriminate Ht; cbn [hdes_field packed_need number_vector] in *; unfold hdes_scalars in E;
    cbn [N.eqb Pos.eqb negb has blocks] in E; rewrite Hl in E.
  - destruct (match alim c with Some lim => lim <? len | None => false end); [injection E as <- <- <- <-; auto|].
    unfold hresize in E. destruct (_ <=? N.of_nat (length l)).
    + destruct (des_ty _ _ _ _ _ _ _) as [[r1 v] p1]. injection E as <- <- <- <-. auto.
    + destruct (can_alloc c _); [|injection E as <- <- <- <-; auto]. unfold fits in E.
      replace (len / N.of_nat w <=? room b) with true in E by lia.
      destruct (des_ty _ _ _ _ _ _ _) as [[r1 v] p1]. injection E as <- <- <- <-. auto.
  - unfold hreserve in E. destruct (reserve_ok c _ len _); [|injection E as <- <- <- <-; auto].
    assert (K : match q with Some _ => if (len <=? N.of_nat (length l)) || fits room [b] len then (ROk, [b], H)
          else match rebuffer ok [b] H with (Some bs', H') => (ROk, bs', H') | (None, H') => (RThrow, [b], H') end
       | None => (ROk, [b], H) end = (ROk, [b], H)).
    { destruct q; [|reflexivity]. unfold fits. replace (len <=? room b) with true by lia. now rewrite orb_true_r. }
    rewrite K in E.
    pose proof (des_varint_safe 8 false 0 eq_refl data pos Hs Hp) as S. cbn beta in S. rewrite Hl in S.
    eapply (packed_in_place _ _ _ _ _ _ (length data)); [| | |exact E].
    + intros pos0 x p0 Hp0 Ef. rewrite (des_varint_eq w zz 0 data) in Ef by auto.
      destruct (leb_value _) as [[v k]|] eqn:El; [|discriminate]. injection Ef as _ <-.
      apply leb_value_bounds in El. rewrite firstn_length, skipn_length in El. lia.
    + lia.
    + unfold wadd. pose proof (N.mod_le (len + N.of_nat pos1) two64 ltac:(discriminate)). lia.
Qed.

(** A packed record of three varints into a buffer with space for exactly three; with space for
    two a new buffer is asked for.  One more element afterwards needs space for four. *)
Example pb_in_place_nontrivial :
  let fld room := hdes_field (fun _ => true) room pb_demo vec_cfg (fun _ _ v H => (RUB, v, O, H))
    (PVars (CSeq true (Some 8)) 4 false false) in
  let data := [x03; x01; x02; x03; x09] in
  let H := mkHeap 1 [0%nat] false in
  let three := HSeq [0%nat] [HN 1; HN 2; HN 3] in
  des_varint 8 false 0 data 0 = (ROk, 3, 1%nat) /\
  fld (fun _ => 3) data 2 (HSeq [0%nat] []) O H = (ROk, three, 4%nat, H) /\
  hnext (snd (fld (fun _ => 2) data 2 (HSeq [0%nat] []) O H)) = 3%nat /\
  fld (fun _ => 4) data 0 three 4%nat H = (ROk, HSeq [0%nat] [HN 1; HN 2; HN 3; HN 9], 5%nat, H) /\
  hnext (snd (fld (fun _ => 3) data 0 three 4%nat H)) = 2%nat.
Proof. repeat split; vm_compute; reflexivity. Qed.

Print Assumptions pb_ownership.
Print Assumptions pb_refusal_throws.
Print Assumptions pb_heap_refines.
Print Assumptions pb_lifetime.
Print Assumptions pb_element_in_place.
Print Assumptions pb_packed_in_place.
