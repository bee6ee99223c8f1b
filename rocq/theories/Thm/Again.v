(** C97: objects written with several attempts are read with several attempts. *)

From Coq Require Import List NArith ZArith Lia Bool Arith.
From Coq Require Import ZifyBool ZifyNat ZifyN.
From Verif Require Import Model.Heap Model.InAgain Proofs.HeapP Proofs.HeapLoud Thm.Resource Thm.Heap.
From Verif Require Import Base.Bytes Model.Types Model.Machine Model.Varint Model.Out Model.In Model.OutAgain
  Spec.Wire Proofs.OutP Proofs.InBase Proofs.InRound Proofs.RpcP
  Thm.Demo Thm.Output Thm.Input Thm.Rpc Thm.Pieces Thm.InAgain Thm.OutAgain.
Import ListNotations.
Local Open Scope N_scope.

Lemma received_over G cw cr fuel vs ts data pos items :
  sendable G cw cr fuel vs ts -> writable G (fmt_of cw) (VSeq vs) (TTuple ts) = true ->
  small data -> has_at data pos (encode G (fmt_of cw) (VSeq vs) (TTuple ts)) ->
  wt G (VSeq items) (TTuple ts) = true ->
  in_call G cr data fuel ts items pos
  = (ROk, vs, (pos + length (encode G (fmt_of cw) (VSeq vs) (TTuple ts)))%nat).
Proof.
  intros [W Hd Ho Ht HtG Hr Hh] Hw Hsm Hat Hp.
  assert (Hf : fmt_of cw = fmt_of cr) by (unfold fmt_of; now rewrite Hd, Ho).
  rewrite Hf in *. destruct W as [_ W2 W3 W4 W5 W6 W7 _].
  assert (R : des G cr data fuel (TTuple ts) (VSeq items) pos
              = (ROk, VSeq vs, (pos + length (encode G (fmt_of cr) (VSeq vs) (TTuple ts)))%nat)).
  { apply des_round; auto. unfold szok in W2. now rewrite Hd. }
  unfold des in R. cbn [des_ty as_seq] in R. fold (des G cr data fuel) in R. unfold in_call.
  destruct (des_many (des G cr data fuel) ts items pos) as [[r l] p].
  cbn [seq_res] in R. congruence.
Qed.

(** The writer runs out of memory or room any number of times and ends with success.  A reader with
    the same format, that runs out of memory any number of times, has the objects as they were with
    the first attempt that is refused nothing, whatever its objects held. *)
Theorem again_round_trip G o vs ts c cs st st' ok cr data shared fuel pos rest tries vars H M r vars' p H' :
  attempts G o vs ts (c :: cs) -> clean st -> ost_ok st ->
  out_again G vs ts true c cs st = (ROk, st') ->
  sendable G c cr fuel vs ts -> has_at data pos (window (obuf st') (opos st) (opos st' - opos st)) ->
  reading G cr data (TTuple ts) -> owning G shared ts ->
  objects G shared ts vars -> exact_heap H vars rest ->
  in_again ok G cr data shared fuel ts true tries vars pos H = (r, vars', p, H') ->
  exact_heap H' vars' rest
  /\ (r = ROk /\ map erase vars' = vs /\ p = (pos + (opos st' - opos st))%nat \/ r = RThrow)
  /\ ((forall n, (M <= n)%nat -> ok n = true) -> (M - hnext H <= tries)%nat -> r = ROk).
Proof.
  intros HA Hc Ho E HS Hat HR HW HO HE Ha.
  assert (Hf : fmt_of c = o) by (inversion HA as [|? ? [_ F]]; exact F). subst o.
  set (e := encode G (fmt_of c) (VSeq vs) (TTuple ts)).
  destruct (out_again_written _ _ _ _ _ _ _ _ HA Hc Ho E) as (P & (k & B) & _). fold e in P, B.
  assert (Hw : window (obuf st') (opos st) (opos st' - opos st) = e).
  { rewrite P, B. unfold window. destruct Ho as [O1 _].
    assert (Lf : length (firstn (opos st) (obuf st)) = opos st) by (rewrite firstn_length; lia).
    rewrite skipn_app, Lf, skipn_all2 by lia. replace (opos st - opos st)%nat with O by lia.
    cbn [skipn app]. rewrite firstn_app. replace (opos st + length e - opos st)%nat with (length e) by lia.
    rewrite firstn_all. replace (length e - length e)%nat with O by lia. cbn [firstn]. now rewrite app_nil_r. }
  rewrite Hw in Hat. replace (opos st' - opos st)%nat with (length e) by lia.
  assert (Hv : writable G (fmt_of c) (VSeq vs) (TTuple ts) = true).
  { destruct (out_again_tried _ _ _ _ _ _ _ _ _ _ _ HA (tried_start _ _ Hc Ho) E) as (_ & _ & _ & F).
    specialize (F eq_refl). unfold final in F. unfold writable. destruct (snd _); [reflexivity|discriminate]. }
  assert (Hp : (pos <= length data)%nat) by (destruct Hat; lia).
  assert (R : forall items, wt G (VSeq items) (TTuple ts) = true ->
    in_call G cr data fuel ts items pos = (ROk, vs, (pos + length e)%nat)).
  { intros items Hi. apply (received_over G c cr); auto. apply HR. }
  destruct (again_last _ _ _ _ _ _ _ _ _ HR HW Hp _ _ _ _ _ _ _ HO HE Ha) as (K1 & K2 & _ & K4).
  split; [exact K1|].
  assert (K : r = ROk /\ map erase vars' = vs /\ p = (pos + length e)%nat \/ r = RThrow).
  { destruct K4 as [K4|(vars1 & [O1 _] & E1)]; [now right|left].
    rewrite (R _ O1) in E1. injection E1 as <- <- <-. auto. }
  split; [exact K|]. intros Hok Ht. destruct K as [K|K]; [apply K|]. exfalso. revert K.
  apply (again_ends ok G cr data shared fuel ts pos rest HR HW Hp tries M vars H r vars' p H' HO HE); auto.
  intros items Hi. rewrite (R _ Hi). discriminate.
Qed.

(** ** Example *)

(** The writer's vector may have 9, 20, then 200 bytes; the reader is refused allocation 0. *)
Example again_round_trip_nontrivial :
  exists st', out_again node_env room_vs room_ts true (mem 9) [mem 20; mem 200] (mkO [xee; xee] 2) = (ROk, st')
  /\ match in_again (fun n => negb (n =? 0)%nat) node_env vec_cfg (obuf st') all_unique 10 room_ts true 1
             (map (fun t => bare (dflt node_env t)) room_ts) 2 no_blocks with
     | (r, vars, p, H) => r = ROk /\ map erase vars = room_vs /\ p = opos st'
     end
  /\ fst (fst (fst (in_again (fun n => negb (n =? 0)%nat) node_env vec_cfg (obuf st') all_unique 10 room_ts true 0
             (map (fun t => bare (dflt node_env t)) room_ts) 2 no_blocks))) = RThrow.
Proof.
  eexists. split; [vm_compute; reflexivity|]. split; [vm_compute; auto|vm_compute; reflexivity].
Qed.

Print Assumptions again_round_trip.
