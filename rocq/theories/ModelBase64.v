(** base64.StdEncoding of the standard library, as used by val_encoder_native_base64.go and
    val_decoder_native_slice.go. *)
From Coq Require Import String ZArith List Bool.
From Verif Require Import Base.
Import ListNotations.
Local Open Scope Z_scope.

(** standard library encoding/base64: encodeStd *)
Definition encodeStd : bytes := bs "ABCDEFGHIJKLMNOPQRSTUVWXYZabcdefghijklmnopqrstuvwxyz0123456789+/".
(** enc.encode[i & 0x3F] *)
Definition encodeChar (v : Z) : Z := nth (Z.to_nat (Z.land v 63)) encodeStd 0.
(** standard library Encoding.Encode with padding, called in val_encoder_native_base64.go:33;
    the destination has exactly EncodedLen bytes, so the result is the list written to it *)
Fixpoint b64encode (src : bytes) : bytes :=
  match src with
  | [] => []
  | [a] =>
      let val := Z.shiftl a 16 in
      [encodeChar (Z.shiftr val 18); encodeChar (Z.shiftr val 12); 61; 61]
  | [a; b] =>
      let val := Z.lor (Z.shiftl a 16) (Z.shiftl b 8) in
      [encodeChar (Z.shiftr val 18); encodeChar (Z.shiftr val 12); encodeChar (Z.shiftr val 6); 61]
  | a :: b :: c :: r =>
      let val := Z.lor (Z.lor (Z.shiftl a 16) (Z.shiftl b 8)) c in
      encodeChar (Z.shiftr val 18) :: encodeChar (Z.shiftr val 12) ::
      encodeChar (Z.shiftr val 6) :: encodeChar val :: b64encode r
  end.

(** position of a character in a table *)
Fixpoint indexOf (c : Z) (l : bytes) (i : Z) : option Z :=
  match l with
  | [] => None
  | x :: r => if x =? c then Some i else indexOf c r (i + 1)
  end.
(** enc.decodeMap[in]; [None] is 0xFF *)
Definition decodeMap (c : Z) : option Z := indexOf c encodeStd 0.
(** in == '\n' || in == '\r' *)
Definition isNewline (c : Z) : bool := (c =? 10) || (c =? 13).
(** the loops of decodeQuantum that skip over newlines *)
Fixpoint skipNewlines (src : bytes) : bytes :=
  match src with
  | c :: r => if isNewline c then skipNewlines r else src
  | [] => []
  end.
(** the end of decodeQuantum: dbuf (filled up with 0) to bytes; dlen - 1 of them are used *)
Definition quantumBytes (dbuf : list Z) : bytes :=
  let d i := nth i dbuf 0 in
  let val := Z.lor (Z.lor (Z.lor (Z.shiftl (d 0%nat) 18) (Z.shiftl (d 1%nat) 12)) (Z.shiftl (d 2%nat) 6)) (d 3%nat) in
  firstn (length dbuf - 1) [Z.land (Z.shiftr val 16) 255; Z.land (Z.shiftr val 8) 255; Z.land val 255].
(** decodeQuantum from the padding character on; [j] digits were read *)
Definition quantumPad (dbuf : list Z) (src : bytes) : option (bytes * bytes) :=
  let finish src :=
    match skipNewlines src with
    | [] => Some (quantumBytes dbuf, [])
    | _ => None
    end in
  match length dbuf with
  | O | 1%nat => None
  | 2%nat =>
      match skipNewlines src with
      | [] => None
      | c :: r => if c =? 61 then finish r else None
      end
  | _ => finish src
  end.
(** standard library Encoding.decodeQuantum for StdEncoding (padding, not strict): the decoded
    bytes and the rest of the source; [None] is a CorruptInputError *)
Fixpoint decodeQuantum (dbuf : list Z) (src : bytes) : option (bytes * bytes) :=
  match src with
  | [] => match dbuf with [] => Some ([], []) | _ => None end
  | c :: r =>
      match decodeMap c with
      | Some v =>
          let dbuf := dbuf ++ [v] in
          if (length dbuf =? 4)%nat then Some (quantumBytes dbuf, r) else decodeQuantum dbuf r
      | None =>
          if isNewline c then decodeQuantum dbuf r
          else if c =? 61 then quantumPad dbuf r
          else None
      end
  end.
(** standard library Encoding.Decode and DecodeString, called in val_decoder_native_slice.go:68.
    The fast paths for 8 and 4 characters at once, which give the same bytes as decodeQuantum, are not
    modelled.  The length of the source is the fuel. *)
Fixpoint b64decodeLoop (fuel : nat) (src : bytes) : option bytes :=
  match src with
  | [] => Some []
  | _ =>
      match fuel with
      | O => None
      | S f =>
          match decodeQuantum [] src with
          | Some (out, rest) => option_map (app out) (b64decodeLoop f rest)
          | None => None
          end
      end
  end.
(** encoding/base64 (standard library): DecodedLen bytes of Decode, for all of the source; see [b64decodeLoop] *)
Definition b64decode (src : bytes) : option bytes := b64decodeLoop (length src) src.
