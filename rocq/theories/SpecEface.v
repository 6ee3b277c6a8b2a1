(** Chains of pointers.  From the model this uses the memory cells only, and the Go values of ModelRead.v. *)
From Coq Require Import ZArith.
From Verif Require Import ModelFloat ModelRead Spec SpecRead ModelEface.
Local Open Scope Z_scope.

Section Chains.
Context {V : Type}.
(** [points h a b]: the variable at [a] is a pointer to [b] or an interface that holds such a pointer *)
Inductive points (h : Z -> cell V) (a b : Z) : Prop :=
| po_eface : h a = CEface (HPtr b) -> points h a b
| po_ptr t : h a = CPtr t (Some b) -> points h a b.
(** [chain h n a b]: [n] pointers lead from [a] to [b] *)
Inductive chain (h : Z -> cell V) : nat -> Z -> Z -> Prop :=
| ch_here a : chain h O a a
| ch_step n a b c : points h a b -> chain h n b c -> chain h (S n) a c.
Definition is_eface (h : Z -> cell V) (a : Z) : Prop := exists x, h a = CEface x.
(** the pointers lead back to [a] *)
Definition cyclic (h : Z -> cell V) (a : Z) : Prop := exists n, chain h (S n) a a.
(** the pointers that start at [a] never end *)
Definition endless (h : Z -> cell V) (a : Z) : Prop := forall n, exists b, chain h n a b.
(** the first interface on the way from [a] *)
Definition first_eface (h : Z -> cell V) (a m : Z) : Prop :=
  exists n, chain h n a m /\ is_eface h m /\ forall k x, (k < n)%nat -> chain h k a x -> ~ is_eface h x.
(** the interface that the others are compared with: the first one; the second one if there are blanks before the
    value and [a] is an interface *)
Definition checkpoint (h : Z -> cell V) (blanks : bool) (a m : Z) : Prop :=
  (blanks = false \/ ~ is_eface h a) /\ first_eface h a m \/
  blanks = true /\ is_eface h a /\ exists b, points h a b /\ first_eface h b m.
End Chains.

(** the interface holds what the JSON value stands for *)
Definition holds_json (F : floatOps) (useNumber : bool) (j : jval) (x : held (gval F)) : Prop :=
  match j with JNull => x = HNil | _ => exists v, x = HVal v /\ go_value F useNumber j v end.
