(** Specification of tags and of the match between object keys and field names.  Nothing here
    refers to the model. *)
From Coq Require Import String ZArith List Bool Lia.
From Verif Require Import Base Spec SpecStream.
Import ListNotations.
Local Open Scope Z_scope.

(** ** Tags *)

(** [item o x]: [x] is one of the pieces of [o] between commas *)
Definition item (o x : bytes) : Prop :=
  exists a b, o = a ++ x ++ b /\ ~ In 44 x /\ (a = [] \/ exists a', a = a' ++ [44]) /\ (b = [] \/ exists b', b = 44 :: b').

(** ** Code points of a byte string: an ill-formed byte stands for U+FFFD *)
Inductive code_points : bytes -> list Z -> Prop :=
| cp_nil : code_points [] []
| cp_scalar r l rs : scalar r -> code_points l rs -> code_points (utf8 r ++ l) (r :: rs)
| cp_bad c l rs : (forall r x, scalar r -> c :: l <> utf8 r ++ x) -> code_points l rs ->
    code_points (c :: l) (65533 :: rs).

(** ** Simple case folding of Unicode *)
Definition letter (a : Z) : Prop := 65 <= a <= 90 \/ 97 <= a <= 122.
Definition other_case (a x : Z) : Prop := (65 <= a <= 90 /\ x = a + 32) \/ (97 <= a <= 122 /\ x = a - 32).
(** What is used of the relation "equal under simple case folding": it is an equivalence on
    scalar values, and an ASCII character is related to the other case of a letter, and S and K
    also to the long s (U+017F) and the Kelvin sign (U+212A). *)
Record folding (E : Z -> Z -> Prop) : Prop := mkFolding {
  fo_refl : forall a, E a a;
  fo_sym : forall a b, E a b -> E b a;
  fo_trans : forall a b c, E a b -> E b c -> E a c;
  fo_scalar : forall a b, E a b -> scalar a -> scalar b;
  fo_ascii : forall a x, 0 <= a < 128 ->
    (E a x <-> x = a \/ other_case a x \/ ((a = 83 \/ a = 115) /\ x = 383) \/ ((a = 75 \/ a = 107) /\ x = 8490))
}.
(** The documentation of unicode.SimpleFold: the next larger member of the class, or the
    smallest one if there is none.  Classes are finite: at most 8 steps upwards ([rank]). *)
Record walks (E : Z -> Z -> Prop) (sf : Z -> Z) : Prop := mkWalks {
  wk_class : forall r, E r (sf r);
  wk_next : forall r x, E r x -> r < x -> r < sf r <= x;
  wk_wrap : forall r, (forall x, E r x -> x <= r) -> forall x, E r x -> sf r <= x;
  wk_rank : exists rank : Z -> nat, forall r, (rank r <= 8)%nat /\ (r < sf r -> (rank (sf r) < rank r)%nat)
}.

Section Match.
Variable E : Z -> Z -> Prop.
(** equal under case folding, as byte strings *)
Definition fold_equal (a b : bytes) : Prop :=
  exists ra rb, code_points a ra /\ code_points b rb /\ Forall2 E ra rb.

(** The field an object key belongs to: the field with exactly this name; if there is none and
    case does not matter, the first field whose name is equal under folding. *)
Definition exact_match (names : list bytes) (key : bytes) (i : nat) : Prop :=
  nth_error names i = Some key.
Definition fold_match (names : list bytes) (key : bytes) (i : nat) : Prop :=
  ~ In key names /\
  (exists n, nth_error names i = Some n /\ fold_equal n key) /\
  (forall j n, (j < i)%nat -> nth_error names j = Some n -> ~ fold_equal n key).
Definition matches (names : list bytes) (key : bytes) (caseSensitive : bool) (i : nat) : Prop :=
  exact_match names key i \/ (caseSensitive = false /\ fold_match names key i).
End Match.
(** a byte string without long s and Kelvin sign *)
Definition no_special (key : bytes) : Prop := forall rs, code_points key rs -> ~ In 383 rs /\ ~ In 8490 rs.

(** the characters allowed in a name given by a tag, besides letters and digits *)
Definition tag_char (isLetter isDigit : Z -> bool) (c : Z) : Prop :=
  In c (bs "!#$%&()*+-./:<=>?@[]^_{|}~ ") \/ isLetter c = true \/ isDigit c = true.
