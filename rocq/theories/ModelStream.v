(** Writing JSON.  Code: streamer.go, streamer_int.go, streamer_str.go, streamer_float.go,
    encoder.go. *)
From Coq Require Import String ZArith List Bool.
From Verif Require Import Base.
Import ListNotations.
Local Open Scope Z_scope.

(** ** Integers *)

(** streamer_int.go:4 *)
Definition nSmalls : Z := 1000.

(** streamer_int.go:11-21, one entry of the table *)
Definition digitsEntry (i : Z) : Z :=
  let v := Z.shiftl (i / 100 + 48) 16 + Z.shiftl ((i / 10) mod 10 + 48) 8 + (i mod 10 + 48) in
  if i <? 10 then Z.lor v (Z.shiftl 2 24)
  else if i <? 100 then Z.lor v (Z.shiftl 1 24)
  else v.
(** digits[i]; [None] is the index panic (streamer_int.go:7-9) *)
Definition digitsAt (i : Z) : option Z :=
  if (0 <=? i) && (i <? nSmalls) then Some (digitsEntry i) else None.

(** Go's byte(v) *)
Definition low8 (v : Z) : Z := v mod 256.

(** streamer_int.go:23-32 *)
Definition appendLeadingDigit (data : bytes) (v : Z) : bytes :=
  let start := Z.shiftr v 24 in
  if start =? 0 then data ++ [low8 (Z.shiftr v 16); low8 (Z.shiftr v 8); low8 v]
  else if start =? 1 then data ++ [low8 (Z.shiftr v 8); low8 v]
  else data ++ [low8 v].
(** streamer_int.go:34-36 *)
Definition appendDigit (data : bytes) (v : Z) : bytes :=
  data ++ [low8 (Z.shiftr v 16); low8 (Z.shiftr v 8); low8 v].

(** appendLeadingDigit(b, digits[i]) and appendDigit(b, digits[i]) with the bounds check *)
Definition leading (i : Z) (b : bytes) : option bytes :=
  match digitsAt i with Some v => Some (appendLeadingDigit b v) | None => None end.
(** appendDigit of digits[i] (streamer_int.go:34-36) *)
Definition group (i : Z) (b : bytes) : option bytes :=
  match digitsAt i with Some v => Some (appendDigit b v) | None => None end.
(** the next statement, unless an index is out of range *)
Definition obind {A B} (o : option A) (f : A -> option B) : option B :=
  match o with Some a => f a | None => None end.
Notation "o >>= f" := (obind o f) (at level 50, left associativity).

(** streamer_int.go:38-40 *)
Definition appendUint8 (b : bytes) (v : Z) : option bytes := leading v b.

(** streamer_int.go:92-100.  Here and below q*nSmalls does not overflow: it is at most the
    dividend. *)
Definition appendUint16 (b : bytes) (v : Z) : option bytes :=
  let q1 := v / nSmalls in
  if q1 =? 0 then leading v b
  else
    let r1 := v - q1 * nSmalls in
    leading q1 b >>= group r1.

(** streamer_int.go:152-175 *)
Definition appendUint32 (b : bytes) (v : Z) : option bytes :=
  let q1 := v / nSmalls in
  if q1 =? 0 then leading v b
  else
    let r1 := v - q1 * nSmalls in
    let q2 := q1 / nSmalls in
    if q2 =? 0 then leading q1 b >>= group r1
    else
      let r2 := q1 - q2 * nSmalls in
      let q3 := q2 / nSmalls in
      (if q3 =? 0 then leading q2 b
       else
         let r3 := q2 - q3 * nSmalls in
         group r3 (b ++ [low8 (q3 + 48)])) >>= group r2 >>= group r1.

(** streamer_int.go:227-271 *)
Definition appendUint64 (b : bytes) (v : Z) : option bytes :=
  let q1 := v / nSmalls in
  if q1 =? 0 then leading v b
  else
    let r1 := v - q1 * nSmalls in
    let q2 := q1 / nSmalls in
    (if q2 =? 0 then leading q1 b
     else
       let r2 := q1 - q2 * nSmalls in
       let q3 := q2 / nSmalls in
       (if q3 =? 0 then leading q2 b
        else
          let r3 := q2 - q3 * nSmalls in
          let q4 := q3 / nSmalls in
          (if q4 =? 0 then leading q3 b
           else
             let r4 := q3 - q4 * nSmalls in
             let q5 := q4 / nSmalls in
             (if q5 =? 0 then leading q4 b
              else
                let r5 := q4 - q5 * nSmalls in
                let q6 := q5 / nSmalls in
                (if q6 =? 0 then leading q5 b
                 else
                   let r6 := q5 - q6 * nSmalls in
                   leading q6 b >>= group r6) >>= group r5) >>= group r4) >>= group r3)
       >>= group r2)
    >>= group r1.

(** widths of the integer methods *)
Inductive iwidth := I8 | I16 | I32 | I64.
(** the number of bits of the integer type *)
Definition ibits (w : iwidth) : Z := match w with I8 => 8 | I16 => 16 | I32 => 32 | I64 => 64 end.
(** streamer_int.go:38-69, 92-129, 152-204, 227-300 *)
Definition appendUint (w : iwidth) : bytes -> Z -> option bytes :=
  match w with I8 => appendUint8 | I16 => appendUint16 | I32 => appendUint32 | I64 => appendUint64 end.
(** streamer_int.go:42-48, 102-108, 177-183, 273-279; uintN(-v) is taken modulo 2^N *)
Definition appendInt (w : iwidth) (b : bytes) (v : Z) : option bytes :=
  if v <? 0 then appendUint w (b ++ [45]) ((- v) mod 2 ^ ibits w)
  else appendUint w b v.

(** ** Strings *)

(** Standard library unicode/utf8: DecodeRuneInString, the rune and its size *)
Definition cont (c : Z) : bool := (128 <=? c) && (c <=? 191).
(** unicode/utf8 (standard library): RuneError *)
Definition runeErr : Z := 65533.
(** unicode/utf8 (standard library): DecodeRuneInString *)
Definition decodeRune (s : bytes) : Z * nat :=
  match s with
  | [] => (runeErr, 0%nat)
  | b0 :: r =>
      if b0 <? 128 then (b0, 1%nat)
      else if (b0 <? 194) || (244 <? b0) then (runeErr, 1%nat)
      else if b0 <? 224 then
        match r with
        | b1 :: _ => if cont b1 then (Z.lor (Z.shiftl (Z.land b0 31) 6) (Z.land b1 63), 2%nat)
                     else (runeErr, 1%nat)
        | _ => (runeErr, 1%nat)
        end
      else
        let lo := if b0 =? 224 then 160 else if b0 =? 240 then 144 else 128 in
        let hi := if b0 =? 237 then 159 else if b0 =? 244 then 143 else 191 in
        if b0 <? 240 then
          match r with
          | b1 :: b2 :: _ =>
              if (lo <=? b1) && (b1 <=? hi) && cont b2
              then (Z.lor (Z.lor (Z.shiftl (Z.land b0 15) 12) (Z.shiftl (Z.land b1 63) 6)) (Z.land b2 63), 3%nat)
              else (runeErr, 1%nat)
          | _ => (runeErr, 1%nat)
          end
        else
          match r with
          | b1 :: b2 :: b3 :: _ =>
              if (lo <=? b1) && (b1 <=? hi) && cont b2 && cont b3
              then (Z.lor (Z.lor (Z.lor (Z.shiftl (Z.land b0 7) 18) (Z.shiftl (Z.land b1 63) 12))
                                 (Z.shiftl (Z.land b2 63) 6)) (Z.land b3 63), 4%nat)
              else (runeErr, 1%nat)
          | _ => (runeErr, 1%nat)
          end
  end.

(** streamer_str.go:8: hex[i] *)
Definition hexDigit (i : Z) : Z := if i <? 10 then 48 + i else 87 + i.

(** streamer_str.go:9-17 and 18-29; the empty string means no replacement *)
Definition safeSet (html : bool) (c : Z) : bytes :=
  if c =? 10 then [92; 110]
  else if c =? 13 then [92; 114]
  else if c =? 9 then [92; 116]
  else if c =? 34 then [92; 34]
  else if c =? 92 then [92; 92]
  else if html then
    if c =? 60 then [92; 117; 48; 48; 51; 99]
    else if c =? 62 then [92; 117; 48; 48; 51; 101]
    else if c =? 38 then [92; 117; 48; 48; 50; 54]
    else []
  else [].

(** streamer_str.go:46-91, the loop.  Per round: the rest of the string str[i:], the pending
    part str[offset:i], the buffer.  The two slices are kept instead of the two indices. *)
Fixpoint encodeLoop (fuel : nat) (html : bool) (rest pending buffer : bytes) : option bytes :=
  match fuel with
  | O => None
  | S f =>
      match rest with
      | [] => Some (buffer ++ pending)
      | c :: rest' =>
          if c <? 128 then
            if 32 <=? c then
              match safeSet html c with
              | [] => encodeLoop f html rest' (pending ++ [c]) buffer
              | hs => encodeLoop f html rest' [] (buffer ++ pending ++ hs)
              end
            else
              match safeSet true c with
              | [] => encodeLoop f html rest' []
                        (buffer ++ pending ++ [92; 117; 48; 48; hexDigit (Z.shiftr c 4); hexDigit (Z.land c 15)])
              | hs => encodeLoop f html rest' [] (buffer ++ pending ++ hs)
              end
          else
            let '(r, size) := decodeRune rest in
            if (r =? runeErr) && (size =? 1)%nat then
              encodeLoop f html rest' [] (buffer ++ pending ++ [92; 117; 102; 102; 102; 100])
            else if (r =? 8232) || (r =? 8233) then
              encodeLoop f html (skipn size rest) []
                (buffer ++ pending ++ [92; 117; 50; 48; 50; hexDigit (Z.land r 15)])
            else encodeLoop f html (skipn size rest) (pending ++ firstn size rest) buffer
      end
  end.
(** streamer_str.go:41-94; each round consumes a byte *)
Definition encodeString (buffer str : bytes) (html : bool) : option bytes :=
  match encodeLoop (S (length str)) html str [] (buffer ++ [34]) with
  | Some b => Some (b ++ [34])
  | None => None
  end.

(** ** Floats *)

(** What Float32/Float64 use of the float type: classification, the comparisons with the
    constants and strconv.AppendFloat(nil, f, fmt, -1, bits), all external. *)
Record floatFmt := mkFloatFmt {
  ff : Type;
  ff_inf : ff -> bool;
  ff_nan : ff -> bool;
  ff_zero : ff -> bool;
  ff_pos : ff -> bool;            (* f > 0 *)
  ff_lt_small : ff -> bool;       (* f < 1e-6 *)
  ff_ge_large : ff -> bool;       (* f >= 1e21 *)
  ff_gt_neg_small : ff -> bool;   (* f > -1e-6 *)
  ff_le_neg_large : ff -> bool;   (* f <= -1e21 *)
  ff_append : ff -> Z -> bytes    (* fmt is 'f' = 102 or 'e' = 101 *)
}.

(** streamer_float.go:37-45, 77-85; [l] is the whole buffer *)
Definition cleanExponent (l : bytes) : bytes :=
  let n := length l in
  if (4 <? n)%nat && (nth (n - 4) l 0 =? 101) && (nth (n - 3) l 0 =? 45) && (nth (n - 2) l 0 =? 48)
  then firstn (n - 2) l ++ [nth (n - 1) l 0]
  else l.

(** streamer_float.go:23-35, 63-75 *)
Definition floatFormat (F : floatFmt) (f : ff F) : Z :=
  if negb (ff_zero F f) then
    if ff_pos F f then
      if ff_lt_small F f || ff_ge_large F f then 101 else 102
    else
      if ff_gt_neg_small F f || ff_le_neg_large F f then 101 else 102
  else 102.
(** streamer_float.go:23-46, 63-86 *)
Definition appendFloat (F : floatFmt) (b : bytes) (f : ff F) : bytes :=
  let fmt := floatFormat F f in
  let b' := b ++ ff_append F f fmt in
  if fmt =? 101 then cleanExponent b' else b'.

(** ** The streamer *)

(** errors_encoder.go: the errors a streamer stores; others come from callbacks or callers *)
Inductive serr := ErrFloatIsInfinity | ErrFloatIsNan | ErrNoAttachedWriter | SErr (n : Z).

(** An io.Writer: the answer (n, err) to a call may depend on all earlier calls.
    [w_log] is what the writer has accepted. *)
Record writer := mkWriter {
  w_fn : list bytes -> bytes -> nat * option serr;
  w_calls : list bytes;
  w_log : bytes
}.
(** a call of Write (streamer.go:77) *)
Definition w_write (w : writer) (d : bytes) : nat * option serr * writer :=
  let '(n, e) := w_fn w (w_calls w) d in
  (n, e, mkWriter (w_fn w) (w_calls w ++ [d]) (w_log w ++ firstn n d)).

(** streamer.go:8-26 without cfg and Context *)
Record stm := mkStm {
  sm_writer : option writer;
  sm_buffer : bytes;
  sm_error : option serr;
  sm_poped : bool;
  sm_html : bool            (* escapeHTML; safeSet is determined by it *)
}.

(** streamer.go:38-44 *)
Definition sm_reset (s : stm) : stm := mkStm None [] None false (sm_html s).
(** streamer.go:47-50 *)
Definition sm_Reset (w : writer) (s : stm) : stm := mkStm (Some w) [] None false (sm_html s).
(** streamer_pool.go:15-30, encoder_config_adaptor.go:4-9: a streamer from the pool *)
Definition newStm (html : bool) : stm := mkStm None [] None false html.

(** s.buffer = b *)
Definition set_buffer (b : bytes) (s : stm) : stm :=
  mkStm (sm_writer s) b (sm_error s) (sm_poped s) (sm_html s).
(** s.poped = p *)
Definition set_poped (p : bool) (s : stm) : stm :=
  mkStm (sm_writer s) (sm_buffer s) (sm_error s) p (sm_html s).
(** s.Error = e *)
Definition set_error (e : option serr) (s : stm) : stm :=
  mkStm (sm_writer s) (sm_buffer s) e (sm_poped s) (sm_html s).
(** s.buffer = append(s.buffer, b...) *)
Definition put (b : bytes) (s : stm) : stm := set_buffer (sm_buffer s ++ b) s.

(** streamer.go:87-93 *)
Definition onVal (s : stm) : stm := if sm_poped s then put [44] s else set_poped true s.

Section Calls.
Variables F32 F64 : floatFmt.

(** One constructor per method of Streamer, and the ways in which the encoders of this package
    write to a streamer. *)
Inductive scall :=
| SRaw (b : bytes)                   (* RawString, Raw *)
| SNull | SBool (b : bool)
| SInt (w : iwidth) (v : Z) | SUint (w : iwidth) (v : Z)
| SQInt (w : iwidth) (v : Z) | SQUint (w : iwidth) (v : Z)   (* quotedIntN, quotedUintN *)
| SFloat32 (f : ff F32) | SFloat64 (f : ff F64)
| SString (str : bytes)
| SField (field : bytes) | SRawField (b : bytes)
| SObjectStart | SObjectEnd | SArrayStart | SArrayEnd
| SEscapeHTML (on : bool)
| SSetError (e : serr).              (* s.Error = err, by an encoder *)

(** "if s.Error != nil { return s }; s.onVal(); ..." *)
Definition guarded (f : stm -> option stm) (s : stm) : option stm :=
  match sm_error s with Some _ => Some s | None => f s end.
(** s.buffer = g(s.buffer), unless an index in g is out of range *)
Definition putOpt (g : bytes -> option bytes) (s : stm) : option stm :=
  match g (sm_buffer s) with Some b => Some (set_buffer b s) | None => None end.

(** streamer.go:96-221, streamer_int.go:50-90 and the same for the other widths,
    streamer_str.go:32-39, streamer_float.go:9-87.  [None] is a panic. *)
Definition call (c : scall) (s : stm) : option stm :=
  match c with
  | SRaw b => guarded (fun s => Some (put b (onVal s))) s
  | SNull => guarded (fun s => Some (put (bs "null") (onVal s))) s
  | SBool true => guarded (fun s => Some (put (bs "true") (onVal s))) s
  | SBool false => guarded (fun s => Some (put (bs "false") (onVal s))) s
  | SInt w v => guarded (fun s => putOpt (fun b => appendInt w b v) (onVal s)) s
  | SUint w v => guarded (fun s => putOpt (fun b => appendUint w b v) (onVal s)) s
  | SQInt w v => guarded (fun s =>
      match putOpt (fun b => appendInt w (b ++ [34]) v) (onVal s) with
      | Some s' => Some (put [34] s') | None => None end) s
  | SQUint w v => guarded (fun s =>
      match putOpt (fun b => appendUint w (b ++ [34]) v) (onVal s) with
      | Some s' => Some (put [34] s') | None => None end) s
  | SFloat32 f => guarded (fun s =>
      if ff_inf F32 f then Some (set_error (Some ErrFloatIsInfinity) s)
      else if ff_nan F32 f then Some (set_error (Some ErrFloatIsNan) s)
      else let s1 := onVal s in Some (set_buffer (appendFloat F32 (sm_buffer s1) f) s1)) s
  | SFloat64 f => guarded (fun s =>
      if ff_inf F64 f then Some (set_error (Some ErrFloatIsInfinity) s)
      else if ff_nan F64 f then Some (set_error (Some ErrFloatIsNan) s)
      else let s1 := onVal s in Some (set_buffer (appendFloat F64 (sm_buffer s1) f) s1)) s
  | SString str => guarded (fun s => putOpt (fun b => encodeString b str (sm_html s)) (onVal s)) s
  | SField f => guarded (fun s =>
      match putOpt (fun b => encodeString b f (sm_html s)) (onVal s) with
      | Some s' => Some (set_poped false (put [58] s')) | None => None end) s
  | SRawField b => guarded (fun s => Some (set_poped false (put (b ++ [58]) (onVal s)))) s
  | SObjectStart => guarded (fun s => Some (set_poped false (put [123] (onVal s)))) s
  | SObjectEnd => guarded (fun s => Some (set_poped true (put [125] s))) s
  | SArrayStart => guarded (fun s => Some (set_poped false (put [91] (onVal s)))) s
  | SArrayEnd => guarded (fun s => Some (set_poped true (put [93] s))) s
  | SEscapeHTML on => Some (mkStm (sm_writer s) (sm_buffer s) (sm_error s) (sm_poped s) on)
  | SSetError e => guarded (fun s => Some (set_error (Some e) s)) s
  end.

(** a sequence of calls *)
Fixpoint calls (cs : list scall) (s : stm) : option stm :=
  match cs with
  | [] => Some s
  | c :: r => match call c s with Some s' => calls r s' | None => None end
  end.
End Calls.
Arguments SRaw {F32 F64} _.
Arguments SNull {F32 F64}.
Arguments SBool {F32 F64} _.
Arguments SInt {F32 F64} _ _.
Arguments SUint {F32 F64} _ _.
Arguments SQInt {F32 F64} _ _.
Arguments SQUint {F32 F64} _ _.
Arguments SFloat32 {F32 F64} _.
Arguments SFloat64 {F32 F64} _.
Arguments SString {F32 F64} _.
Arguments SField {F32 F64} _.
Arguments SRawField {F32 F64} _.
Arguments SObjectStart {F32 F64}.
Arguments SObjectEnd {F32 F64}.
Arguments SArrayStart {F32 F64}.
Arguments SArrayEnd {F32 F64}.
Arguments SEscapeHTML {F32 F64} _.
Arguments SSetError {F32 F64} _.
Arguments call {F32 F64} _ _.
Arguments calls {F32 F64} _ _.

(** streamer.go:68-85 *)
Definition Flush (s : stm) : option serr * stm :=
  match sm_error s with
  | Some e => (Some e, s)
  | None =>
      match sm_writer s with
      | None => (Some ErrNoAttachedWriter, s)
      | Some w =>
          let l := length (sm_buffer s) in
          let '(n, e, w') := w_write w (sm_buffer s) in
          let b := if (n <? l)%nat then skipn n (sm_buffer s) else [] in
          (e, mkStm (Some w') b (sm_error s) (sm_poped s) (sm_html s))
      end
  end.

(** encoder.go:6-9 *)
Record encoder := mkEncoder { en_s : stm; en_err : option serr }.

(** encoder.go:17-27; [value] is s.Value(v).  None is a panic (s.writer is nil after a Flush
    that returned no error cannot happen). *)
Definition encodeInternal (value : stm -> option stm) (s : stm) : option (option serr * stm) :=
  match value s with
  | None => None
  | Some s1 =>
      let '(e, s2) := Flush s1 in
      match e with
      | Some x => Some (Some x, s2)
      | None =>
          match sm_writer s2 with
          | None => None
          | Some w =>
              let '(_, e2, w') := w_write w [10] in
              match e2 with
              | Some x => Some (Some x, mkStm (Some w') (sm_buffer s2) (sm_error s2) (sm_poped s2) (sm_html s2))
              | None => Some (None, sm_Reset w' s2)
              end
          end
      end
  end.
(** encoder.go:31-36 *)
Definition Encode (value : stm -> option stm) (en : encoder) : option (option serr * encoder) :=
  match en_err en with
  | Some e => Some (Some e, en)
  | None =>
      match encodeInternal value (en_s en) with
      | None => None
      | Some (e, s) => Some (e, mkEncoder s e)
      end
  end.
