(** Struct tags.  Code: struct_tag.go. *)
From Coq Require Import String ZArith List Bool.
From Verif Require Import Base ModelRead ModelStream.
Import ListNotations.
Local Open Scope Z_scope.

(** strings.Index(s, ","), used in struct_tag.go:20 and 36 *)
Fixpoint indexComma (s : bytes) : option nat :=
  match s with
  | [] => None
  | c :: r => if c =? 44 then Some O else option_map S (indexComma r)
  end.

(** struct_tag.go:19-24 *)
Definition parseTag (tag : bytes) : bytes * bytes :=
  match indexComma tag with
  | Some idx => (firstn idx tag, skipn (S idx) tag)
  | None => (tag, [])
  end.

(** struct_tag.go:34-44; each round shortens [s], whose length is the fuel *)
Fixpoint containsLoop (fuel : nat) (s optionName : bytes) : bool :=
  match fuel with
  | O => false
  | S f =>
      match s with
      | [] => false
      | _ =>
          let '(item, next) :=
            match indexComma s with
            | Some i => (firstn i s, skipn (S i) s)
            | None => (s, [])
            end in
          if bytes_eqb item optionName then true else containsLoop f next optionName
      end
  end.
(** struct_tag.go:29-46 *)
Definition Contains (o optionName : bytes) : bool := containsLoop (S (length o)) o optionName.

(** struct_tag.go:54: the characters allowed besides letters and digits *)
Definition tagPunct : bytes := bs "!#$%&()*+-./:<=>?@[]^_{|}~ ".

Section Unicode.
(** unicode.IsLetter and unicode.IsDigit of the standard library *)
Variables isLetter isDigit : Z -> bool.

(** struct_tag.go:52-61: the loop [for _, c := range s] decodes UTF-8; an invalid byte gives
    U+FFFD and advances by one.  The length of [s] is the fuel. *)
Fixpoint validLoop (fuel : nat) (s : bytes) : bool :=
  match fuel with
  | O => true
  | S f =>
      match s with
      | [] => true
      | _ =>
          let '(c, size) := decodeRune s in
          if existsb (Z.eqb c) tagPunct then validLoop f (skipn size s)
          else if negb (isLetter c) && negb (isDigit c) then false
          else validLoop f (skipn size s)
      end
  end.
(** struct_tag.go:48-63 *)
Definition isValidTag (s : bytes) : bool :=
  match s with
  | [] => false
  | _ => validLoop (length s) s
  end.
End Unicode.
