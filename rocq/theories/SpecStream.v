(** Specification of the written texts.  Nothing here refers to the model. *)
From Coq Require Import String ZArith List Bool Lia.
From Verif Require Import Base Spec.
Import ListNotations.
Local Open Scope Z_scope.

(** The canonical decimal numeral of an integer *)
Definition numeral (v : Z) (t : bytes) : Prop :=
  if v <? 0 then exists u, t = 45 :: u /\ int_part u /\ dec u = - v
  else int_part t /\ dec t = v.

(** Go strings are byte strings *)
Definition is_byte (c : Z) : Prop := 0 <= c < 256.
Definition is_bytes (l : bytes) : Prop := Forall is_byte l.

(** Unicode scalar values *)
Definition scalar (r : Z) : Prop := 0 <= r < 55296 \/ 57344 <= r <= 1114111.

(** [sanitized s s']: [s'] is [s] with each byte that does not begin the UTF-8 encoding of a
    scalar value replaced by U+FFFD *)
Inductive sanitized : bytes -> bytes -> Prop :=
| sz_nil : sanitized [] []
| sz_scalar r l l' : scalar r -> sanitized l l' -> sanitized (utf8 r ++ l) (utf8 r ++ l')
| sz_bad c l l' : (forall r x, scalar r -> c :: l <> utf8 r ++ x) -> sanitized l l' ->
    sanitized (c :: l) (utf8 65533 ++ l').
(** valid UTF-8 *)
Inductive utf8_text : bytes -> Prop :=
| ut_nil : utf8_text []
| ut_cons r l : scalar r -> utf8_text l -> utf8_text (utf8 r ++ l).

(** [x] occurs in [l] *)
Definition occurs (x l : bytes) : Prop := exists a b, l = a ++ x ++ b.

(** The results of strconv.AppendFloat with precision -1: format 'f' gives digits with an
    optional fraction, format 'e' one digit, an optional fraction, and an exponent of at least
    two digits *)
Inductive fixed_text : bytes -> Prop :=
| ft_pos i f : int_part i -> frac_part f -> fixed_text (i ++ f)
| ft_neg i f : int_part i -> frac_part f -> fixed_text (45 :: i ++ f).
Inductive expo_text : bytes -> Prop :=
| et m d f s e : m = [] \/ m = [45] -> is_digit d -> frac_part f -> s = 43 \/ s = 45 ->
    digits e -> (2 <= length e)%nat -> expo_text (m ++ d :: f ++ 101 :: s :: e).

(** The value of a number text as coefficient and power of ten: value = c * 10 ^ p.
    [split_at p l] splits before the first element satisfying [p]. *)
Fixpoint split_at (p : Z -> bool) (l : bytes) : bytes * bytes :=
  match l with
  | [] => ([], [])
  | c :: r => if p c then ([], l) else let '(a, b) := split_at p r in (c :: a, b)
  end.
Definition exp_value (e : bytes) : Z :=
  match e with
  | [] => 0
  | _ :: 43 :: l => dec l
  | _ :: 45 :: l => - dec l
  | _ :: l => dec l
  end.
Definition unsigned_value (t : bytes) : Z * Z :=
  let '(m, e) := split_at (fun c => (c =? 101) || (c =? 69)) t in
  let '(i, f) := split_at (fun c => c =? 46) m in
  (dec (i ++ tl f), exp_value e - Z.of_nat (length (tl f))).
Definition num_value (t : bytes) : Z * Z :=
  match t with
  | 45 :: u => let '(c, p) := unsigned_value u in (- c, p)
  | _ => unsigned_value t
  end.
