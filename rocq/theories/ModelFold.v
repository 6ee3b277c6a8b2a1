(** Matching object keys with field names.  Code: struct_field_fold.go, struct_field_upper.go,
    the find methods of the struct decoders. *)
From Coq Require Import String ZArith List Bool.
From Verif Require Import Base ModelRead ModelStr ModelStream.
Import ListNotations.
Local Open Scope Z_scope.

(** struct_field_fold.go:14: b & caseMask *)
Definition maskCase (b : Z) : Z := Z.land b 223.
(** struct_field_fold.go:15-16 *)
Definition kelvin : Z := 8490.
(** struct_field_fold.go:16 *)
Definition smallLongEss : Z := 383.
(** 'A' <= b && b <= 'Z' in struct_field_fold.go *)
Definition isUpper (b : Z) : bool := (65 <=? b) && (b <=? 90).

Section Fold.
(** unicode.SimpleFold of the standard library *)
Variable simpleFold : Z -> Z.

(** The two loops over an orbit of SimpleFold get this much fuel; the longest orbit of Unicode
    has four members. *)
Definition orbitFuel : nat := 16.

(** standard library bytes.EqualFold: r := SimpleFold(sr); for r != sr && r < tr { r = SimpleFold(r) } *)
Fixpoint orbitTo (fuel : nat) (sr tr r : Z) : Z :=
  match fuel with
  | O => r
  | S f => if negb (r =? sr) && (r <? tr) then orbitTo f sr tr (simpleFold r) else r
  end.
(** standard library bytes.EqualFold: comparison of two runes *)
Definition runeEqualFold (a b : Z) : bool :=
  if a =? b then true
  else
    let sr := Z.min a b in
    let tr := Z.max a b in
    if tr <? 128 then isUpper sr && (tr =? sr + 32)
    else orbitTo orbitFuel sr tr (simpleFold sr) =? tr.
(** standard library bytes.EqualFold; the length of [s] is the fuel *)
Fixpoint equalFoldLoop (fuel : nat) (s t : bytes) : bool :=
  match s, t with
  | [], [] => true
  | [], _ => false
  | _, [] => false
  | _, _ =>
      match fuel with
      | O => false
      | S f =>
          let '(sr, ssize) := decodeRune s in
          let '(tr, tsize) := decodeRune t in
          if runeEqualFold sr tr then equalFoldLoop f (skipn ssize s) (skipn tsize t) else false
      end
  end.
(** bytes.EqualFold (standard library), returned at struct_field_fold.go:39 *)
Definition bytesEqualFold (s t : bytes) : bool := equalFoldLoop (length s) s t.

(** struct_field_fold.go:62-104 *)
Fixpoint equalFoldRight (s t : bytes) : bool :=
  match s with
  | [] => match t with [] => true | _ => false end
  | sb :: s' =>
      match t with
      | [] => false
      | tb :: t' =>
          if tb <? 128 then
            if negb (sb =? tb) then
              if isUpper (maskCase sb) then
                if negb (maskCase sb =? maskCase tb) then false else equalFoldRight s' t'
              else false
            else equalFoldRight s' t'
          else
            let '(tr, size) := decodeRune t in
            if (sb =? 115) || (sb =? 83) then
              if negb (tr =? smallLongEss) then false else equalFoldRight s' (skipn size t)
            else if (sb =? 107) || (sb =? 75) then
              if negb (tr =? kelvin) then false else equalFoldRight s' (skipn size t)
            else false
      end
  end.

(** struct_field_fold.go:114-126 *)
Fixpoint asciiFoldLoop (s t : bytes) : bool :=
  match s, t with
  | sb :: s', tb :: t' =>
      if sb =? tb then asciiFoldLoop s' t'
      else if ((97 <=? sb) && (sb <=? 122)) || isUpper sb then
        if negb (maskCase sb =? maskCase tb) then false else asciiFoldLoop s' t'
      else false
  | _, _ => true
  end.
(** struct_field_fold.go:110-128 *)
Definition asciiEqualFold (s t : bytes) : bool :=
  if negb (length s =? length t)%nat then false else asciiFoldLoop s t.

(** struct_field_fold.go:138-142 *)
Fixpoint simpleFoldLoop (s t : bytes) : bool :=
  match s, t with
  | b :: s', tb :: t' => if negb (maskCase b =? maskCase tb) then false else simpleFoldLoop s' t'
  | _, _ => true
  end.
(** struct_field_fold.go:134-144 *)
Definition simpleLetterEqualFold (s t : bytes) : bool :=
  if negb (length s =? length t)%nat then false else simpleFoldLoop s t.

(** struct_field_fold.go:34-56 *)
Fixpoint foldFuncLoop (s : bytes) (nonLetter special : bool) : bytes -> bytes -> bool :=
  match s with
  | [] => if special then equalFoldRight else if nonLetter then asciiEqualFold else simpleLetterEqualFold
  | b :: s' =>
      if 128 <=? b then bytesEqualFold
      else
        let upper := maskCase b in
        if negb (isUpper upper) then foldFuncLoop s' true special
        else if (upper =? 75) || (upper =? 83) then foldFuncLoop s' nonLetter true
        else foldFuncLoop s' nonLetter special
  end.
(** struct_field_fold.go:34-56 *)
Definition foldFunc (s : bytes) : bytes -> bytes -> bool := foldFuncLoop s false false.

(** struct_field_upper.go:12-15: for fr > r { fr = unicode.SimpleFold(fr) } *)
Fixpoint orbitMin (fuel : nat) (r fr : Z) : Z :=
  match fuel with
  | O => fr
  | S f => if r <? fr then orbitMin f r (simpleFold fr) else fr
  end.
(** struct_field_upper.go:8-20; the length of [inp] is the fuel *)
Fixpoint toUpperLoop (fuel : nat) (inp out : bytes) : bytes :=
  match fuel with
  | O => out
  | S f =>
      match inp with
      | [] => out
      | _ =>
          let '(r, size) := decodeRune inp in
          toUpperLoop f (skipn size inp) (appendRune out (orbitMin orbitFuel r (simpleFold r)))
      end
  end.
(** struct_field_upper.go:8-20 *)
Definition toUpper (inp out : bytes) : bytes := toUpperLoop (length inp) inp out.

(** ** The find methods: the index of the field, or [None] *)

(** first index with the property, for the loops of val_decoder_native_struct_small.go:37-51 *)
Fixpoint firstIndex (p : bytes -> bool) (names : list bytes) : option nat :=
  match names with
  | [] => None
  | n :: r => if p n then Some O else option_map S (firstIndex p r)
  end.
(** val_decoder_native_struct_small.go:36-53 *)
Definition findSmall (names : list bytes) (key : bytes) (caseSensitive : bool) : option nat :=
  match firstIndex (fun n => bytes_eqb n key) names with
  | Some i => Some i
  | None =>
      if caseSensitive then None
      else firstIndex (fun n => foldFunc n n key) names
  end.

(** Go maps from names to positions, as association lists *)
Definition index := list (bytes * nat).
(** m[k] *)
Fixpoint indexGet (m : index) (k : bytes) : option nat :=
  match m with
  | [] => None
  | (k', i) :: m' => if bytes_eqb k' k then Some i else indexGet m' k
  end.
(** m[k] = i *)
Fixpoint indexSet (m : index) (k : bytes) (i : nat) : index :=
  match m with
  | [] => [(k, i)]
  | (k', i') :: m' => if bytes_eqb k' k then (k, i) :: m' else (k', i') :: indexSet m' k i
  end.
(** val_decoder_native_struct.go:43-47 with the state left by :49-66 *)
Record decoderFields := mkDF { df_len : nat; df_nameIndex : index; df_nameIndexUpper : index }.
(** val_decoder_native_struct.go:49-53 *)
Definition df_init : decoderFields := mkDF 0 [] [].
(** val_decoder_native_struct.go:55-65, the part used by find; struct.go:158: nameBytesUpper *)
Definition df_add (df : decoderFields) (name : bytes) : decoderFields :=
  let nameUpper := toUpper name [] in
  mkDF (S (df_len df)) (indexSet (df_nameIndex df) name (df_len df))
       (match indexGet (df_nameIndexUpper df) nameUpper with
        | Some _ => df_nameIndexUpper df
        | None => indexSet (df_nameIndexUpper df) nameUpper (df_len df)
        end).
(** val_decoder_native_struct.go:19-26 *)
Definition df_build (names : list bytes) : decoderFields := fold_left df_add names df_init.
(** val_decoder_native_struct.go:68-93; buf is it.tmpBuffer, whose last bytes are the key *)
Definition findLarge (names : list bytes) (key buf : bytes) (caseSensitive : bool) : option nat :=
  match indexGet (df_nameIndex (df_build names)) key with
  | Some i => Some i
  | None =>
      if caseSensitive then None
      else indexGet (df_nameIndexUpper (df_build names)) (skipn (length buf) (toUpper key buf))
  end.

(** val_decoder_native_struct_one_field.go:14-26 and the call in Decode :67; note the order of
    the arguments *)
Definition findOne (name key : bytes) (caseSensitive : bool) : option nat :=
  let equalFold := if caseSensitive then bytes_eqb else foldFunc name in
  if equalFold key name then Some O else None.
End Fold.
