(** The bit-packed nesting stack.  Code: stack.go. *)
From Coq Require Import ZArith List Bool Lia.
From Verif Require Import Base.
Import ListNotations.
Local Open Scope Z_scope.

(** stack.go:17-27; [stackElement] is an int8 *)
Definition stackElementNone : Z := -1.
(** stack.go:22 *)
Definition stackElementObjectBegin : Z := 0.
(** stack.go:23 *)
Definition stackElementObject : Z := 2.
(** stack.go:25 *)
Definition stackElementArrayBegin : Z := 1.
(** stack.go:26 *)
Definition stackElementArray : Z := 3.

(** s.stack[n] = x *)
Fixpoint set_nth (l : list Z) (n : nat) (x : Z) : list Z :=
  match l, n with
  | [], _ => []
  | _ :: t, O => x :: t
  | h :: t, S n' => h :: set_nth t n' x
  end.

(** stack.go:34-37 *)
Definition stack_init (s : stack) : stack := mkStack (stk_words s) 0.

(** stack.go:39-46 *)
Definition initObject (s : stack) : stack :=
  let w := match stk_words s with [] => [0] | w => w end in
  mkStack (set_nth w 0 0) 1.

(** stack.go:48-55 *)
Definition initArray (s : stack) : stack :=
  let w := match stk_words s with [] => [0] | w => w end in
  mkStack (set_nth w 0 1) 1.

(** stack.go:57-65; [None] is the index panic *)
Definition stack_top (s : stack) : option Z :=
  match stk_depth s with
  | O => Some stackElementNone
  | S d =>
      match nth_error (stk_words s) (d / 64) with
      | None => None
      | Some w => Some (Z.land (Z.shiftr w (Z.of_nat (d mod 64))) 1)
      end
  end.

(** stack.go:67-78 *)
Definition pop (s : stack) : option (Z * stack) :=
  match stk_depth s with
  | O => Some (stackElementNone, s)
  | S d =>
      match nth_error (stk_words s) (d / 64) with
      | None => None
      | Some w => Some (Z.lor (Z.land (Z.shiftr w (Z.of_nat (d mod 64))) 1) 2,
                        mkStack (stk_words s) d)
      end
  end.

(** stack.go:80-89 *)
Definition pushObject (s : stack) : option stack :=
  let d := stk_depth s in
  let div := (d / 64)%nat in
  if (div =? length (stk_words s))%nat then Some (mkStack (stk_words s ++ [0]) (S d))
  else
    match nth_error (stk_words s) div with
    | None => None
    | Some w =>
        Some (mkStack (set_nth (stk_words s) div
                         (Z.land w (Z.shiftl 1 (Z.of_nat (d mod 64)) - 1))) (S d))
    end.

(** stack.go:91-100 *)
Definition pushArray (s : stack) : option stack :=
  let d := stk_depth s in
  let div := (d / 64)%nat in
  if (div =? length (stk_words s))%nat then Some (mkStack (stk_words s ++ [1]) (S d))
  else
    match nth_error (stk_words s) div with
    | None => None
    | Some w =>
        Some (mkStack (set_nth (stk_words s) div
                         (Z.lor w (Z.shiftl 1 (Z.of_nat (d mod 64))))) (S d))
    end.
