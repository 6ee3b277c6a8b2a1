(** Specification of JSON texts, written from RFC 8259.  Nothing here refers to the model. *)
From Coq Require Import String ZArith List Bool Lia.
From Verif Require Import Base.
Import ListNotations.
Local Open Scope Z_scope.

(** RFC 8259 section 2: insignificant whitespace *)
Definition is_ws (c : Z) : Prop := c = 32 \/ c = 9 \/ c = 10 \/ c = 13.
Definition ws (l : bytes) : Prop := Forall is_ws l.

(** Section 6: numbers *)
Definition is_digit (c : Z) : Prop := 48 <= c <= 57.
Definition digits (l : bytes) : Prop := Forall is_digit l.
Definition digits1 (l : bytes) : Prop := l <> [] /\ digits l.
Inductive int_part : bytes -> Prop :=
| ip_zero : int_part [48]
| ip_pos d l : 49 <= d <= 57 -> digits l -> int_part (d :: l).
Inductive frac_part : bytes -> Prop :=
| fp_none : frac_part []
| fp_some l : digits1 l -> frac_part (46 :: l).
Inductive exp_part : bytes -> Prop :=
| ep_none : exp_part []
| ep_some e l : e = 101 \/ e = 69 -> digits1 l -> exp_part (e :: l)
| ep_sign e s l : e = 101 \/ e = 69 -> s = 43 \/ s = 45 -> digits1 l -> exp_part (e :: s :: l).
Inductive unsigned_number : bytes -> Prop :=
| un i f e : int_part i -> frac_part f -> exp_part e -> unsigned_number (i ++ f ++ e).
Inductive number : bytes -> Prop :=
| num_pos t : unsigned_number t -> number t
| num_neg t : unsigned_number t -> number (45 :: t).

(** UTF-8 encoding of a code point (RFC 3629); the caller passes scalar values only *)
Definition utf8 (r : Z) : bytes :=
  if r <? 128 then [r]
  else if r <? 2048 then [192 + r / 64; 128 + r mod 64]
  else if r <? 65536 then [224 + r / 4096; 128 + (r / 64) mod 64; 128 + r mod 64]
  else [240 + r / 262144; 128 + (r / 4096) mod 64; 128 + (r / 64) mod 64; 128 + r mod 64].

(** Section 7: strings.  A string body is a sequence of items. *)
Inductive hex : Z -> Z -> Prop :=
| hex_digit c : 48 <= c <= 57 -> hex c (c - 48)
| hex_lower c : 97 <= c <= 102 -> hex c (c - 87)
| hex_upper c : 65 <= c <= 70 -> hex c (c - 55).
Inductive hex4 : bytes -> Z -> Prop :=
| h4 a b c d va vb vc vd : hex a va -> hex b vb -> hex c vc -> hex d vd ->
    hex4 [a; b; c; d] (va * 4096 + vb * 256 + vc * 16 + vd).
(** the two-character escapes *)
Inductive short_escape : Z -> Z -> Prop :=
| se_quote : short_escape 34 34
| se_bslash : short_escape 92 92
| se_slash : short_escape 47 47
| se_b : short_escape 98 8
| se_f : short_escape 102 12
| se_n : short_escape 110 10
| se_r : short_escape 114 13
| se_t : short_escape 116 9.

(** The items of a string body: a plain byte, the byte of a two-character escape, or the
    16-bit unit of a \uXXXX escape. *)
Inductive unit16 :=
| UByte (c : Z)
| UEsc (c : Z)
| UCode (u : Z).
Inductive string_items : bytes -> list unit16 -> Prop :=
| si_nil : string_items [] []
| si_plain c l us : 32 <= c -> c <> 34 -> c <> 92 -> string_items l us ->
    string_items (c :: l) (UByte c :: us)
| si_short e v l us : short_escape e v -> string_items l us ->
    string_items (92 :: e :: l) (UEsc v :: us)
| si_unicode h u l us : hex4 h u -> string_items l us ->
    string_items (92 :: 117 :: h ++ l) (UCode u :: us).

(** The bytes denoted by the items.  A high surrogate directly followed by a low
    surrogate is one code point; any other surrogate stands for U+FFFD (the convention
    of encoding/json, RFC 8259 section 8.2 leaves it open). *)
Definition is_high (u : Z) : bool := (55296 <=? u) && (u <? 56320).
Definition is_low (u : Z) : bool := (56320 <=? u) && (u <? 57344).
Fixpoint denote (us : list unit16) : bytes :=
  match us with
  | [] => []
  | UByte c :: r => c :: denote r
  | UEsc c :: r => c :: denote r
  | UCode u :: r =>
      if is_high u then
        match r with
        | UCode v :: r' =>
            if is_low v then utf8 (65536 + (u - 55296) * 1024 + (v - 56320)) ++ denote r'
            else utf8 65533 ++ denote r
        | _ => utf8 65533 ++ denote r
        end
      else if is_low u then utf8 65533 ++ denote r
      else utf8 u ++ denote r
  end.

(** A string literal between its quotes, and what it denotes *)
Definition string_body (b : bytes) (s : bytes) : Prop :=
  exists us, string_items b us /\ s = denote us.

(** JSON values.  Numbers keep their text. *)
Inductive jval :=
| JNull
| JBool (b : bool)
| JNum (t : bytes)
| JStr (s : bytes)
| JArr (l : list jval)
| JObj (l : list (bytes * jval)).

(** Sections 3, 4, 5: a value text and the value it denotes *)
Inductive value : bytes -> jval -> Prop :=
| v_null : value (bs "null") JNull
| v_true : value (bs "true") (JBool true)
| v_false : value (bs "false") (JBool false)
| v_num t : number t -> value t (JNum t)
| v_str b s : string_body b s -> value (34 :: b ++ [34]) (JStr s)
| v_arr0 w : ws w -> value (91 :: w ++ [93]) (JArr [])
| v_arr t vs : elements t vs -> value (91 :: t ++ [93]) (JArr vs)
| v_obj0 w : ws w -> value (123 :: w ++ [125]) (JObj [])
| v_obj t ms : members t ms -> value (123 :: t ++ [125]) (JObj ms)
with elements : bytes -> list jval -> Prop :=
| el_one w1 t v w2 : ws w1 -> value t v -> ws w2 -> elements (w1 ++ t ++ w2) [v]
| el_cons w1 t v w2 r vs : ws w1 -> value t v -> ws w2 -> elements r vs ->
    elements (w1 ++ t ++ w2 ++ 44 :: r) (v :: vs)
with members : bytes -> list (bytes * jval) -> Prop :=
| mb_one w1 b k w2 w3 t v w4 : ws w1 -> string_body b k -> ws w2 -> ws w3 -> value t v -> ws w4 ->
    members (w1 ++ 34 :: b ++ 34 :: w2 ++ 58 :: w3 ++ t ++ w4) [(k, v)]
| mb_cons w1 b k w2 w3 t v w4 r ms :
    ws w1 -> string_body b k -> ws w2 -> ws w3 -> value t v -> ws w4 -> members r ms ->
    members (w1 ++ 34 :: b ++ 34 :: w2 ++ 58 :: w3 ++ t ++ w4 ++ 44 :: r) ((k, v) :: ms).

Scheme value_ind3 := Minimality for value Sort Prop
  with elements_ind3 := Minimality for elements Sort Prop
  with members_ind3 := Minimality for members Sort Prop.
Combined Scheme value_mutind from value_ind3, elements_ind3, members_ind3.

(** Section 2: a JSON text *)
Definition json_text (l : bytes) (v : jval) : Prop :=
  exists w1 t w2, l = w1 ++ t ++ w2 /\ ws w1 /\ value t v /\ ws w2.

(** The end of a value inside a longer input ([rest] follows, and the source ends with error
    [f]): a number must not be continued by the next byte, and if the input ends here it
    must end with EOF. *)
Definition num_ends (t : bytes) (f : err) (rest : bytes) : Prop :=
  (forall c r x, rest = c :: r -> ~ number (t ++ c :: x)) /\ (rest = [] -> f = EEOF).
Definition vends (t : bytes) (j : jval) (f : err) (rest : bytes) : Prop :=
  match j with JNum _ => num_ends t f rest | _ => True end.

(** Decimal numerals *)
Definition dec (ds : bytes) : Z := fold_left (fun a c => 10 * a + (c - 48)) ds 0.
(** [ds] is the whole unsigned integer standing before [rest]: a single zero, or a non-zero
    digit with all the digits that follow it. *)
Definition uint_token (ds rest : bytes) (f : err) : Prop :=
  ds = [48] \/
  exists d l, ds = d :: l /\ 49 <= d <= 57 /\ digits l /\
    match rest with [] => f = EEOF | c :: _ => ~ is_digit c end.
(** an optional minus sign before it *)
Inductive int_token : bytes -> Z -> bytes -> err -> Prop :=
| it_pos ds rest f : uint_token ds rest f -> int_token ds (dec ds) rest f
| it_neg ds rest f : uint_token ds rest f -> int_token (45 :: ds) (- dec ds) rest f.
