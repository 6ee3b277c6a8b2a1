(** Specification of base64 (RFC 4648, section 4), written with arithmetic on numbers. *)
From Coq Require Import String ZArith List Bool.
From Verif Require Import Base Spec SpecStream.
Import ListNotations.
Local Open Scope Z_scope.

(** [sextet v c]: the character [c] stands for the number [v] *)
Definition b64_alphabet : bytes := bs "ABCDEFGHIJKLMNOPQRSTUVWXYZabcdefghijklmnopqrstuvwxyz0123456789+/".
Definition sextet (v c : Z) : Prop := 0 <= v /\ nth_error b64_alphabet (Z.to_nat v) = Some c.

(** [base64 data text]: groups of three octets, read as a number of 24 bits, are written with four
    characters of six bits; the last one or two octets are filled up with zero bits and the text with
    padding characters. *)
Inductive base64 : bytes -> bytes -> Prop :=
| b64_nil : base64 [] []
| b64_three a b c w x y z cw cx cy cz data text :
    is_byte a -> is_byte b -> is_byte c ->
    a * 65536 + b * 256 + c = w * 262144 + x * 4096 + y * 64 + z ->
    sextet w cw -> sextet x cx -> sextet y cy -> sextet z cz ->
    base64 data text -> base64 (a :: b :: c :: data) (cw :: cx :: cy :: cz :: text)
| b64_two a b w x y cw cx cy :
    is_byte a -> is_byte b ->
    a * 65536 + b * 256 = w * 262144 + x * 4096 + y * 64 ->
    sextet w cw -> sextet x cx -> sextet y cy ->
    base64 [a; b] [cw; cx; cy; 61]
| b64_one a w x cw cx :
    is_byte a -> a * 65536 = w * 262144 + x * 4096 ->
    sextet w cw -> sextet x cx -> base64 [a] [cw; cx; 61; 61].

(** [base64_lax data text]: the same without the condition that the filling bits are zero; this is
    what a decoder that is not strict accepts (RFC 4648, section 3.5) *)
Inductive base64_lax : bytes -> bytes -> Prop :=
| lax_nil : base64_lax [] []
| lax_three a b c w x y z cw cx cy cz data text :
    is_byte a -> is_byte b -> is_byte c ->
    a * 65536 + b * 256 + c = w * 262144 + x * 4096 + y * 64 + z ->
    sextet w cw -> sextet x cx -> sextet y cy -> sextet z cz ->
    base64_lax data text -> base64_lax (a :: b :: c :: data) (cw :: cx :: cy :: cz :: text)
| lax_two a b r w x y cw cx cy :
    is_byte a -> is_byte b -> 0 <= r < 256 ->
    a * 65536 + b * 256 + r = w * 262144 + x * 4096 + y * 64 ->
    sextet w cw -> sextet x cx -> sextet y cy ->
    base64_lax [a; b] [cw; cx; cy; 61]
| lax_one a r w x cw cx :
    is_byte a -> 0 <= r < 65536 -> a * 65536 + r = w * 262144 + x * 4096 ->
    sextet w cw -> sextet x cx -> base64_lax [a] [cw; cx; 61; 61].
(** line breaks inside the text are ignored *)
Definition no_breaks (text : bytes) : bytes := filter (fun c => negb ((c =? 10) || (c =? 13))) text.
