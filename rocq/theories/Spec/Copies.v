(** What a program over one vector means if every view is a copy of its bytes. *)

From Coq Require Import List NArith Bool Arith.
From Verif Require Import Base.Bytes Model.Types Model.Machine Model.Out Model.In Model.Duplex Model.Alias.
Import ListNotations.

(** The archives and the vector, the strings in the variables. *)
Record cstate := mkC { c_pipe : pipe; c_vars : list (list byte) }.

(** The items as ordinary objects: a view is a string of bytes. *)
Definition w_val (vars : list (list byte)) (i : witem) : val :=
  match i with WOwn v _ => v | WView _ j => VBytes (nth j vars []) end.
Definition w_ty (i : witem) : ty := match i with WOwn _ t => t | WView s _ => TView (VwSized s) end.
Definition w_known (n : nat) (i : witem) : bool := match i with WOwn _ _ => true | WView _ j => (j <? n)%nat end.
Definition r_ty (i : ritem) : ty := match i with ROwn t _ => t | RView s => TView (VwSized s) end.
Definition r_prior (i : ritem) : val := match i with ROwn _ x => x | RView _ => VBytes [] end.

(** What was read: the objects, and the strings. *)
Fixpoint r_vals (l : list ritem) (vs : list val) : list val :=
  match l, vs with
  | ROwn _ _ :: l', v :: vs' => v :: r_vals l' vs'
  | RView _ :: l', _ :: vs' => r_vals l' vs'
  | _, _ => []
  end.
Fixpoint r_views (l : list ritem) (vs : list val) : list (list byte) :=
  match l, vs with
  | ROwn _ _ :: l', _ :: vs' => r_views l' vs'
  | RView _ :: l', VBytes e :: vs' => e :: r_views l' vs'
  | _, _ => []
  end.

Fixpoint crun (G : tenv) (co ci : cfg) (fuel : nat) (os : list aop) (s : cstate)
  : res * list val * cstate :=
  match os with
  | [] => (ROk, [], s)
  | AWrite l :: os' =>
      match pipe_write G co (map (w_val (c_vars s)) l) (map w_ty l) (c_pipe s) with
      | (ROk, p') => crun G co ci fuel os' (mkC p' (c_vars s))
      | (r, p') => (r, [], mkC p' (c_vars s))
      end
  | ARead l :: os' =>
      match pipe_read G ci fuel (map r_ty l) (map r_prior l) (c_pipe s) with
      | (ROk, vs, p') =>
          match crun G co ci fuel os' (mkC p' (c_vars s ++ r_views l vs)) with
          | (r, seen, s') => (r, r_vals l vs ++ seen, s')
          end
      | (r, _, p') => (r, [], mkC p' (c_vars s))
      end
  | AUse i :: os' =>
      match crun G co ci fuel os' s with (r, seen, s') => (r, VBytes (nth i (c_vars s) []) :: seen, s') end
  end.
