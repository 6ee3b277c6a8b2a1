(** Growing a slice and writing its elements, as operations on lists. *)
From Coq Require Import List Bool Arith.
Import ListNotations.

Section Grow.
Context {A : Type}.
Variable zero : A.
(** one growth, to a length; one write to an element *)
Inductive op := Grow (n : nat) | Write (i : nat) (v : A).
(** growing appends zero values; [None]: an index out of range or a request to shrink *)
Fixpoint listOps (ops : list op) (l : list A) : option (list A) :=
  match ops with
  | [] => Some l
  | Grow n :: r => if length l <=? n then listOps r (l ++ repeat zero (n - length l)) else None
  | Write i v :: r => if i <? length l then listOps r (firstn i l ++ v :: skipn (S i) l) else None
  end.
End Grow.
Arguments op : clear implicits.
