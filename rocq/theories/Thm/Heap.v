(** C68: reading neither leaks memory nor frees it twice, whichever allocation fails. *)

From Coq Require Import List NArith ZArith Lia Bool Arith Permutation.
From Coq Require Import ZifyBool ZifyNat ZifyN.
From Verif Require Import Base.Bytes Model.Types Model.Machine Model.Varint Model.Out Model.In Model.Heap
  Spec.Leb128 Spec.Wire Proofs.VarintP Proofs.OutP Proofs.InBase Proofs.InSafe Proofs.HeapP Proofs.HeapLoud
  Thm.Demo Thm.Output Thm.Input.
Import ListNotations.
Local Open Scope N_scope.

(** The live blocks are exactly those that [vars] own and those of the rest of the program, each once; none
    has been freed that was not live. *)
Record exact_heap (H : heap) (vars : list hval) (rest : list nat) : Prop := {
  e_live : Permutation (hlive H) (flat_map own vars ++ rest);
  e_once : NoDup (hlive H);
  e_past : forall b, In b (hlive H) -> (b < hnext H)%nat;
  e_free : hbad H = false
}.

(** [vars] are objects of the types [ts]: their values fit the types, and they own blocks where such objects
    do (a vector its buffer, a list a node per element, ...). *)
Definition objects (G : tenv) (shared : ty -> bool) (ts : list ty) (vars : list hval) : Prop :=
  wt G (VSeq (map erase vars)) (TTuple ts) = true /\ forall2b (shaped G shared) vars ts = true.

(** The types: no spans (what they refer to belongs to others); a value-initialised class owns nothing. *)
Record owning (G : tenv) (shared : ty -> bool) (ts : list ty) : Prop := {
  w_env : bare_env G shared;
  w_cls : tall_env (tracked G shared) G;
  w_ts : forallb (tall (tracked G shared)) ts = true
}.

Lemma exact_good H vars rest : exact_heap H vars rest -> good H (flat_map own vars) (fun b => cnt b rest).
Proof.
  intros [E1 E2 E3 _]. split; intro b.
  - rewrite (NoDup_count_occ Nat.eq_dec) in E2. specialize (E2 b). fold (cnt b (hlive H)) in E2.
    destruct (Nat.ltb_spec b (hnext H)) as [_|Hb]; [exact E2|].
    destruct (cnt b (hlive H)) eqn:Ec; [lia|]. exfalso.
    assert (In b (hlive H)) by (apply (count_occ_In Nat.eq_dec); unfold cnt in Ec; lia).
    apply E3 in H0. lia.
  - rewrite (Permutation_count_occ Nat.eq_dec) in E1. rewrite <- cnt_app. apply E1.
Qed.

Lemma good_exact H vars rest :
  good H (flat_map own vars) (fun b => cnt b rest) -> hbad H = false -> exact_heap H vars rest.
Proof.
  intros [G1 G2] Hb. constructor; [| | |exact Hb].
  - apply (Permutation_count_occ Nat.eq_dec). intro b. fold (cnt b (hlive H)).
    fold (cnt b (flat_map own vars ++ rest)). now rewrite cnt_app.
  - apply (NoDup_count_occ Nat.eq_dec). intro b. specialize (G1 b). fold (cnt b (hlive H)).
    destruct (_ <? _)%nat in G1; lia.
  - intros b Hin. specialize (G1 b). apply (count_occ_In Nat.eq_dec) in Hin. fold (cnt b (hlive H)) in Hin.
    destruct (Nat.ltb_spec b (hnext H)); lia.
Qed.

Section Calls.
  Variables (ok : nat -> bool) (G : tenv) (c : cfg) (data : list byte) (shared : ty -> bool) (ts : list ty).
  Variables (fuel : nat) (vars : list hval) (pos : nat) (H : heap) (rest : list nat).
  Variables (r : res) (vars' : list hval) (p : nat) (H' : heap).
  Hypothesis HR : reading G c data (TTuple ts).
  Hypothesis HW : owning G shared ts.
  Hypothesis Hp : (pos <= length data)%nat.
  Hypothesis HO : objects G shared ts vars.
  Hypothesis HE : exact_heap H vars rest.
  Hypothesis Hcall : hin_call ok G c data shared fuel ts vars pos H = (r, vars', p, H').

  Lemma call_ok :
    good H' (flat_map own vars') (fun b => cnt b rest) /\ hbad H' = hbad H /\ (hnext H <= hnext H')%nat /\
    forall2b (shaped G shared) vars' ts = true /\
    ((r, map erase vars', p) = in_call G c data fuel ts (map erase vars) pos
     \/ r = RThrow /\ refused ok H H' /\ (pos <= p <= length data)%nat
        /\ forall2b (wt G) (map erase vars') ts = true).
  Proof.
    destruct HR as [R1 R2 R3 R4 R5 R6], HW as [W1 W2 W3], HO as [O1 O2].
    cbn [tallP] in R5. destruct R5 as [_ R5]. apply tallP_list in R5.
    pose proof (hin_call_ok ok G c data shared R3 R1 R2 W1 R4 W2 fuel ts R6 R5 W3 vars pos H
      (fun b => cnt b rest) Hp O1 O2 (exact_good _ _ _ HE)) as K.
    rewrite Hcall in K. exact K.
  Qed.

  Lemma call_objects :
    objects G shared ts vars' /\ (pos <= p <= length data)%nat.
  Proof.
    destruct call_ok as (_ & _ & _ & K4 & [K|(_ & _ & K5 & K6)]).
    - symmetry in K. destruct HO as [O1 _].
      destruct (in_call_memory_safe _ _ _ _ _ _ _ _ _ _ HR Hp O1 K) as (P & W & _).
      split; [now split|exact P].
    - split; [now split|exact K5].
  Qed.

  Lemma call_exact : exact_heap H' vars' rest.
  Proof.
    destruct call_ok as (K1 & K2 & _). apply good_exact; [exact K1|]. rewrite K2. apply HE.
  Qed.
End Calls.

(** ** C68 *)

(** Whatever the bytes, whichever allocations are refused and however the call ends: afterwards the live
    blocks are exactly those that the targets own and those that others owned before.  So nothing has been
    lost, nothing freed twice, nothing of others freed, and no two objects own the same block. *)
Theorem in_ownership ok G c data shared ts fuel vars pos H rest r vars' p H' :
  reading G c data (TTuple ts) -> owning G shared ts -> (pos <= length data)%nat ->
  objects G shared ts vars -> exact_heap H vars rest ->
  hin_call ok G c data shared fuel ts vars pos H = (r, vars', p, H') ->
  exact_heap H' vars' rest /\ objects G shared ts vars' /\ (pos <= p <= length data)%nat.
Proof.
  intros HR HW Hp HO HE Hc.
  destruct (call_objects _ _ _ _ _ _ _ _ _ _ _ _ _ _ _ HR HW Hp HO HE Hc) as [K1 K2].
  split; [exact (call_exact _ _ _ _ _ _ _ _ _ _ _ _ _ _ _ HR HW Hp HO HE Hc)|]. exact (conj K1 K2).
Qed.

(** A refused allocation is what the caller sees, and it is the last one asked for; it is never swallowed. *)
Theorem in_refusal_throws ok G c data shared ts fuel vars pos H r vars' p H' :
  hin_call ok G c data shared fuel ts vars pos H = (r, vars', p, H') ->
  forall n, (hnext H <= n < hnext H')%nat -> ok n = false -> r = RThrow /\ hnext H' = S n.
Proof.
  intros Hc n Hn Hf. pose proof (hin_call_loud ok G c data shared fuel ts vars pos H) as L. rewrite Hc in L.
  destruct L as [_ [L|(E & m & E2 & L1 & L2 & L3)]]; [rewrite L in Hf by lia; discriminate|].
  split; [exact E|]. rewrite E2. f_equal.
  destruct (Nat.lt_trichotomy n m) as [K|[K|K]]; [rewrite L2 in Hf by lia; discriminate|now symmetry|lia].
Qed.

(** If no allocation is refused during the call, it does what Model/In.v says. *)
Theorem in_heap_refines ok G c data shared ts fuel vars pos H rest r vars' p H' :
  reading G c data (TTuple ts) -> owning G shared ts -> (pos <= length data)%nat ->
  objects G shared ts vars -> exact_heap H vars rest ->
  hin_call ok G c data shared fuel ts vars pos H = (r, vars', p, H') ->
  (forall n, (hnext H <= n < hnext H')%nat -> ok n = true) ->
  in_call G c data fuel ts (map erase vars) pos = (r, map erase vars', p).
Proof.
  intros HR HW Hp HO HE Hc Hall.
  destruct (call_ok _ _ _ _ _ _ _ _ _ _ _ _ _ _ _ HR HW Hp HO HE Hc) as (_ & _ & _ & _ & [K|(_ & (n & Hn & Hf) & _)]).
  - now symmetry.
  - rewrite Hall in Hf by exact Hn. discriminate.
Qed.

(** Programs: variables, and reads into any run of neighbouring variables, from any archive; every outcome,
    exceptions included, is survived. *)
Record read_step := mkRead { d_first : nat; d_count : nat; d_cfg : cfg; d_data : list byte; d_pos : nat }.

Definition window {A} (s : read_step) (l : list A) : list A := firstn (d_count s) (skipn (d_first s) l).

Definition run_read ok G shared fuel (ts : list ty) (s : read_step) (vars : list hval) (H : heap) : list hval * heap :=
  match hin_call ok G (d_cfg s) (d_data s) shared fuel (window s ts) (window s vars) (d_pos s) H with
  | (_, l, _, H') => (firstn (d_first s) vars ++ l ++ skipn (d_count s) (skipn (d_first s) vars), H')
  end.

Fixpoint run_reads ok G shared fuel (ts : list ty) (ss : list read_step) (vars : list hval) (H : heap)
  : list hval * heap :=
  match ss with
  | [] => (vars, H)
  | s :: ss' => let (vars', H') := run_read ok G shared fuel ts s vars H in
                run_reads ok G shared fuel ts ss' vars' H'
  end.

Fixpoint destroy_all (vars : list hval) (H : heap) : heap :=
  match vars with
  | [] => H
  | x :: l => destroy_all l (destroy x H)
  end.

Definition step_ok G (ts : list ty) (s : read_step) : Prop :=
  reading G (d_cfg s) (d_data s) (TTuple (window s ts)) /\ (d_pos s <= length (d_data s))%nat.

Definition no_blocks : heap := mkHeap 0 [] false.

Lemma forall2b_split {A B} (f : A -> B -> bool) n : forall l m,
  forall2b f l m = forall2b f (firstn n l) (firstn n m) && forall2b f (skipn n l) (skipn n m).
Proof.
  induction n as [|n IH]; intros l m; [reflexivity|]. destruct l as [|x l], m as [|y m]; cbn [firstn skipn forall2b]; auto.
  - now rewrite IH, andb_assoc.
Qed.

Lemma forall2b_length {A B} (f : A -> B -> bool) : forall l m, forall2b f l m = true -> length l = length m.
Proof.
  induction l as [|x l IH]; intros [|y m] K; try discriminate; [reflexivity|]. cbn [forall2b length] in *.
  apply andb_true_iff in K as [_ K]. f_equal. now apply IH.
Qed.

Lemma forall2b_app {A B} (f : A -> B -> bool) : forall l m l' m',
  forall2b f l m = true -> forall2b f l' m' = true -> forall2b f (l ++ l') (m ++ m') = true.
Proof.
  induction l as [|x l IH]; intros [|y m] l' m' K K'; try discriminate; [exact K'|]. cbn [forall2b app] in *.
  apply andb_true_iff in K as [K1 K2]. rewrite K1. cbn [andb]. now apply IH.
Qed.

Lemma window_parts {A} (s : read_step) (l : list A) :
  l = firstn (d_first s) l ++ window s l ++ skipn (d_count s) (skipn (d_first s) l).
Proof. unfold window. now rewrite !firstn_skipn. Qed.

Lemma map_window {A B} (f : A -> B) (s : read_step) (l : list A) : map f (window s l) = window s (map f l).
Proof. unfold window. now rewrite <- firstn_map, <- skipn_map. Qed.

Lemma forallb_window {A} (f : A -> bool) (s : read_step) (l : list A) :
  forallb f l = true -> forallb f (window s l) = true.
Proof.
  rewrite (window_parts s l) at 1. rewrite !forallb_app, !andb_true_iff. tauto.
Qed.

Lemma run_read_keeps ok G shared fuel ts s vars H rest :
  step_ok G ts s -> owning G shared ts -> objects G shared ts vars -> exact_heap H vars rest ->
  let (vars', H') := run_read ok G shared fuel ts s vars H in
  objects G shared ts vars' /\ exact_heap H' vars' rest.
Proof.
  intros [HR Hp] HW [O1 O2] HE. unfold run_read.
  destruct (hin_call _ _ _ _ _ _ _ _ _ _) as [[[r l] p] H'] eqn:E.
  set (A := firstn (d_first s) vars). set (Z := skipn (d_count s) (skipn (d_first s) vars)).
  assert (Ev : vars = A ++ window s vars ++ Z) by apply window_parts.
  cbn [wt] in O1.
  pose proof O1 as P1. rewrite (forall2b_split _ (d_first s)), andb_true_iff in P1. destruct P1 as [P1 P2].
  rewrite (forall2b_split _ (d_count s)), andb_true_iff in P2. destruct P2 as [P2 P3].
  pose proof O2 as Q1. rewrite (forall2b_split _ (d_first s)), andb_true_iff in Q1. destruct Q1 as [Q1 Q2].
  rewrite (forall2b_split _ (d_count s)), andb_true_iff in Q2. destruct Q2 as [Q2 Q3].
  rewrite firstn_map in P1. rewrite skipn_map, firstn_map in P2. rewrite !skipn_map in P3.
  fold (window s vars) in P2, Q2. fold (window s ts) in P2, Q2. fold A in P1, Q1. fold Z in P3, Q3.
  assert (HOw : objects G shared (window s ts) (window s vars)) by now split.
  assert (HWw : owning G shared (window s ts)).
  { destruct HW as [W1 W2 W3]. split; auto. now apply forallb_window. }
  assert (HEw : exact_heap H (window s vars) (flat_map own A ++ flat_map own Z ++ rest)).
  { destruct HE as [E1 E2 E3 E4]. constructor; auto. eapply Permutation_trans; [exact E1|].
    rewrite Ev at 1. rewrite !flat_map_app. rewrite <- !app_assoc.
    rewrite (app_assoc (flat_map own A)), (app_assoc (flat_map own (window s vars))).
    apply Permutation_app_tail. apply Permutation_app_comm. }
  destruct (in_ownership _ _ _ _ _ _ _ _ _ _ _ _ _ _ _ HR HWw Hp HOw HEw E) as ([E1 E2 E3 E4] & [N1 N2] & _).
  split; [split|constructor; auto].
  - cbn [wt] in *. rewrite !map_app. rewrite (window_parts s ts).
    apply forall2b_app; [exact P1|]. apply forall2b_app; [exact N1|exact P3].
  - rewrite (window_parts s ts). apply forall2b_app; [exact Q1|]. apply forall2b_app; [exact N2|exact Q3].
  - eapply Permutation_trans; [exact E1|]. rewrite !flat_map_app, <- !app_assoc.
    rewrite (app_assoc (flat_map own l)), (app_assoc (flat_map own A)).
    apply Permutation_app_tail. apply Permutation_app_comm.
Qed.

Lemma run_reads_keep ok G shared fuel ts ss rest : forall vars H,
  Forall (step_ok G ts) ss -> owning G shared ts -> objects G shared ts vars -> exact_heap H vars rest ->
  let (vars', H') := run_reads ok G shared fuel ts ss vars H in
  objects G shared ts vars' /\ exact_heap H' vars' rest.
Proof.
  induction ss as [|s ss IH]; intros vars H HS HW HO HE; cbn [run_reads]; [auto|].
  inversion HS as [|? ? S1 S2]; subst.
  pose proof (run_read_keeps ok G shared fuel ts s vars H rest S1 HW HO HE) as K.
  destruct (run_read _ _ _ _ _ _ _ _) as [vars' H']. destruct K as [K1 K2]. now apply IH.
Qed.

Lemma destroy_all_good vars : forall H F, good H (flat_map own vars) F ->
  good (destroy_all vars H) [] F /\ hbad (destroy_all vars H) = hbad H.
Proof.
  induction vars as [|x l IH]; intros H F K; cbn [destroy_all flat_map] in *; [auto|].
  apply destroy_good in K as (K1 & K2 & _). apply IH in K1 as [K3 K4]. split; [exact K3|congruence].
Qed.

(** From birth to death: value-initialised variables, any number of reads into any of them from any archives
    and bytes, any allocations refused at any time; then the variables are destroyed.  At every point the
    live blocks are those the variables own; at the end there are none. *)
Theorem in_lifetime ok G shared fuel ts ss vars H :
  Forall (step_ok G ts) ss -> owning G shared ts -> wf_env G -> forallb (wf G) ts = true ->
  run_reads ok G shared fuel ts ss (map (fun t => bare (dflt G t)) ts) no_blocks = (vars, H) ->
  exact_heap H vars [] /\ objects G shared ts vars /\
  hlive (destroy_all vars H) = [] /\ hbad (destroy_all vars H) = false.
Proof.
  intros HS HW HG Hts Hrun.
  assert (HO : objects G shared ts (map (fun t => bare (dflt G t)) ts)).
  { destruct HW as [W1 W2 W3]. split.
    - cbn [wt]. rewrite map_map. clear HS Hrun.
      induction ts as [|t l IH]; [reflexivity|]. cbn [map forall2b forallb] in *.
      apply andb_true_iff in Hts as [T1 T2], W3 as [W3 W4]. rewrite erase_bare, (wt_dflt G t HG T1). now apply IH.
    - clear HS Hrun. induction ts as [|t l IH]; [reflexivity|]. cbn [map forall2b forallb] in *.
      apply andb_true_iff in Hts as [T1 T2], W3 as [W3 W4].
      rewrite (dflt_shaped G shared t W1 (tracked_bare G shared t W3)). now apply IH. }
  assert (HE : exact_heap no_blocks (map (fun t => bare (dflt G t)) ts) []).
  { replace (map (fun t => bare (dflt G t)) ts) with (map bare (map (dflt G) ts)) by now rewrite map_map.
    constructor; cbn [no_blocks hlive hnext hbad]; [|constructor|intros b []|reflexivity].
    rewrite own_bares. constructor. }
  pose proof (run_reads_keep ok G shared fuel ts ss [] _ _ HS HW HO HE) as K. rewrite Hrun in K.
  destruct K as [K1 K2]. split; [exact K2|]. split; [exact K1|].
  pose proof (exact_good _ _ _ K2) as Kg. apply destroy_all_good in Kg as [D1 D2].
  split; [|rewrite D2; apply K2]. destruct D1 as [_ D1].
  destruct (hlive (destroy_all vars H)) as [|b l] eqn:El; [reflexivity|].
  specialize (D1 b). rewrite cnt_cons, Nat.eqb_refl in D1. cbn in D1. lia.
Qed.

(** ** The hypotheses are met, and allocations do fail *)

(** The demo class: a vector (one buffer), a map (two nodes), a list of nodes (two pointees). *)
Definition all_unique : ty -> bool := fun _ => false.
Definition all_shared : ty -> bool := fun _ => true.

Lemma demo_owning sh : owning node_env (fun _ => sh) [demo_ty].
Proof.
  constructor.
  - intros [|k]; reflexivity.
  - intros [|k]; reflexivity.
  - destruct sh; vm_compute; reflexivity.
Qed.

Definition demo_bytes : list byte := fst (enc node_env (fmt_of vec_cfg) demo_val demo_ty).

Lemma demo_small : small demo_bytes.
Proof. vm_compute. reflexivity. Qed.

Lemma demo_reading1 : reading node_env vec_cfg demo_bytes (TTuple [demo_ty]).
Proof.
  destruct (demo_reading demo_bytes demo_small) as [R1 R2 R3 R4 R5 R6].
  constructor; [exact R1|exact R2|exact R3|exact R4| |exact eq_refl].
  exact (conj I (conj R5 I)).
Qed.

Definition demo_read := mkRead 0 1 vec_cfg demo_bytes 0.

Example demo_step : step_ok node_env [demo_ty] demo_read.
Proof. split; [exact demo_reading1|cbn [d_pos demo_read]; lia]. Qed.

Definition outcome (x : res * list hval * nat * heap) : res * nat * nat :=
  match x with (r, _, _, H) => (r, hnext H, length (hlive H)) end.

(** Five blocks; a shared_ptr takes a sixth, the control block.  If the second node of the list is refused
    (allocation 4), the buffer and the nodes of the map remain; likewise if the control block is refused. *)
Example demo_alloc :
  let start := map (fun t => bare (dflt node_env t)) [demo_ty] in
  outcome (hin_call (fun _ => true) node_env vec_cfg demo_bytes all_unique 10 [demo_ty] start 0 no_blocks)
    = (ROk, 5%nat, 5%nat)
  /\ outcome (hin_call (fun _ => true) node_env vec_cfg demo_bytes all_shared 10 [demo_ty] start 0 no_blocks)
    = (ROk, 6%nat, 6%nat)
  /\ outcome (hin_call (fun n => negb (n =? 4)%nat) node_env vec_cfg demo_bytes all_unique 10 [demo_ty] start 0 no_blocks)
    = (RThrow, 5%nat, 3%nat)
  /\ outcome (hin_call (fun n => negb (n =? 5)%nat) node_env vec_cfg demo_bytes all_shared 10 [demo_ty] start 0 no_blocks)
    = (RThrow, 6%nat, 3%nat).
Proof. vm_compute. repeat split. Qed.

(** Reading twice into the same object, the second time running out of memory at the second node of the map:
    the buffer, one node of the map and the two old pointees are left, and are given back at the end. *)
Example demo_twice :
  let '(vars, H) := run_reads (fun n => negb (n =? 6)%nat) node_env all_unique 10 [demo_ty] [demo_read; demo_read]
    (map (fun t => bare (dflt node_env t)) [demo_ty]) no_blocks in
  (hnext H, length (hlive H), hbad H, hlive (destroy_all vars H)) = (7%nat, 4%nat, false, []).
Proof. vm_compute. reflexivity. Qed.

(** The flag is exact: it is set by giving back what is not live, and never cleared. *)
Theorem free_flag_exact b H :
  hbad (free b H) = false <-> hbad H = false /\ In b (hlive H).
Proof.
  assert (R : forall l, remove1 b l = None <-> ~ In b l).
  { induction l as [|x l IH]; cbn [remove1 In]; [tauto|].
    destruct (Nat.eqb_spec x b) as [->|N]; [split; [discriminate|intro X; exfalso; auto]|].
    destruct (remove1 b l); [|tauto]. split; [discriminate|]. intro X. exfalso.
    assert (Some l0 = None) by (apply IH; tauto). discriminate. }
  unfold free. destruct (remove1 b (hlive H)) as [l|] eqn:E; cbn [hbad].
  - split; [|tauto]. intro B. split; [exact B|].
    destruct (in_dec Nat.eq_dec b (hlive H)) as [I|I]; [exact I|]. apply R in I. congruence.
  - split; [discriminate|]. intros (_ & I). now apply R in E.
Qed.

Example free_flag_nontrivial :
  let H := mkHeap 3 [0; 2]%nat false in
  hbad (free_all [2; 0]%nat H) = false /\ hbad (free_all [2; 2]%nat H) = true /\
  hbad (free_all [1; 2; 0]%nat H) = true /\ hlive (free_all [1; 2; 0]%nat H) = [].
Proof. repeat split. Qed.

Print Assumptions in_ownership.
Print Assumptions in_refusal_throws.
Print Assumptions in_heap_refines.
Print Assumptions in_lifetime.
Print Assumptions free_flag_exact.
