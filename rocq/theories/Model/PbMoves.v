(** How many bytes writing a protobuf message moves: the functions of Model/Pb.v that write
    (zpp_bits.h:4692-4927) and the size prefix of a message (2341-2415) once more, counting the bytes
    that the memmove (2396-2398) shifts to make room for a size of more than one byte.  Which calls are
    made, and from which state, is what Model/Pb.v says.  The moves of a vector that is enlarged are
    not counted (C54). *)

From Coq Require Import List NArith Bool Arith.
From Verif Require Import Base.Bytes Model.Types Model.Machine Model.Varint Model.Out
  Model.Protocol Model.Pb.
Import ListNotations.
Local Open Scope N_scope.

Definition count := ost -> N.
Definition none : count := fun _ => 0.

(** First [a], which moves [ca], then what moves [cb] if it succeeded. *)
Definition pay (a : act) (ca cb : count) : count := fun st =>
  ca st + match a st with (ROk, st') => cb st' | _ => 0 end.

(** 2371-2399: nothing if the size takes one byte, or if there is no room. *)
Definition shift_moves (c : cfg) (n by_ : N) : count := fun st =>
  if by_ =? 0 then 0
  else match reserve c by_ st with (ROk, _) => n | _ => 0 end.

Definition protocol_moves (c : cfg) (s : sizety) (body : act) (cb : count) : count :=
  match s with
  | SzNone => cb
  | SzFix _ => pay (ser_size c s 0) none cb
  | SzVar _ => fun st =>
      let at_ := opos st in
      pay (ser_size c s 0 ;; body) (pay (ser_size c s 0) none cb)
        (fun st' =>
           let n := wsub (wsub (N.of_nat (opos st')) (N.of_nat at_)) 1 in
           shift_moves c n (varint_size n - 1) st') st
  end.

Section Loops.
  Context (f : nat -> pfield -> val -> act) (g : nat -> pfield -> val -> count).
  Fixpoint members_moves (idx : nat) (l : list val) (fs : list pfield) : count :=
    match l, fs with
    | x :: l', fd :: fs' => pay (f idx fd x) (g idx fd x) (members_moves (S idx) l' fs')
    | _, _ => none
    end.

  Context (h : val -> act) (k : val -> count).
  Fixpoint each_moves (l : list val) : count :=
    match l with
    | [] => none
    | x :: l' => pay (h x) (k x) (each_moves l')
    end.
End Loops.

(** pb::serialize_one (4787-4927). *)
Fixpoint pb_moves (P : penv) (c : cfg) (tg etg : N -> act) (v : val) (t : pty) {struct v} : count :=
  match t, v with
  | PMsg k, VSeq l =>
      pay (tg (wire_type t)) none
        (protocol_moves c (dsize c) (ser_message P c k l)
           (members_moves
              (fun idx fd x =>
                 ser_pb P c (ser_tag c (m_map (P k)) (fst fd) idx)
                   (ser_tag c (m_map (P k)) None idx) x (snd fd))
              (fun idx fd x =>
                 pb_moves P c (ser_tag c (m_map (P k)) (fst fd) idx)
                   (ser_tag c (m_map (P k)) None idx) x (snd fd))
              0 l (m_fields (P k))))
  | PMsgs ck k, VSeq l =>
      each_moves
        (fun x =>
           etg 2 ;;
           match x with
           | VSeq m => ser_protocol c (dsize c) (ser_message P c k m)
           | _ => fail RUB
           end)
        (fun x =>
           pay (etg 2) none
             match x with
             | VSeq m =>
                 protocol_moves c (dsize c) (ser_message P c k m)
                   (members_moves
                      (fun idx fd x =>
                         ser_pb P c (ser_tag c (m_map (P k)) (fst fd) idx)
                           (ser_tag c (m_map (P k)) None idx) x (snd fd))
                      (fun idx fd x =>
                         pb_moves P c (ser_tag c (m_map (P k)) (fst fd) idx)
                           (ser_tag c (m_map (P k)) None idx) x (snd fd))
                      0 m (m_fields (P k)))
             | _ => none
             end) l
  | PMap ak kt vt, VSeq l =>
      each_moves
        (fun x =>
           tg (wire_type t) ;;
           match x with
           | VSeq [a; b] =>
               ser_protocol c (dsize c)
                 (ser_pb P c (ser_tag c [] None 0) (ser_tag c [] None 0) a kt ;;
                  ser_pb P c (ser_tag c [] None 1) (ser_tag c [] None 1) b vt)
           | _ => fail RUB
           end)
        (fun x =>
           pay (tg (wire_type t)) none
             match x with
             | VSeq [a; b] =>
                 protocol_moves c (dsize c)
                   (ser_pb P c (ser_tag c [] None 0) (ser_tag c [] None 0) a kt ;;
                    ser_pb P c (ser_tag c [] None 1) (ser_tag c [] None 1) b vt)
                   (pay (ser_pb P c (ser_tag c [] None 0) (ser_tag c [] None 0) a kt)
                      (pb_moves P c (ser_tag c [] None 0) (ser_tag c [] None 0) a kt)
                      (pb_moves P c (ser_tag c [] None 1) (ser_tag c [] None 1) b vt))
             | _ => none
             end) l
  | _, _ => none
  end.

Definition message_moves (P : penv) (c : cfg) (k : nat) (l : list val) : count :=
  members_moves
    (fun idx fd x =>
       ser_pb P c (ser_tag c (m_map (P k)) (fst fd) idx) (ser_tag c (m_map (P k)) None idx) x (snd fd))
    (fun idx fd x =>
       pb_moves P c (ser_tag c (m_map (P k)) (fst fd) idx) (ser_tag c (m_map (P k)) None idx) x (snd fd))
    0 l (m_fields (P k)).

(** A message written to an archive with size type [s] (2341-2415, 4692-4761). *)
Definition pb_item_moves (P : penv) (c : cfg) (s : sizety) (k : nat) (l : list val) : count :=
  protocol_moves c s (pb_out P c k l) (message_moves P (pb_ocfg c) k l).
