(** Specification of the Go value that a JSON value is read into. *)
From Coq Require Import String ZArith List Bool Lia.
From Verif Require Import Base ModelFloat ModelRead Spec.
Import ListNotations.
Local Open Scope Z_scope.

Section GoValue.
Variable F : floatOps.
Variable useNumber : bool.

(** last value bound to a key in the members of an object *)
Fixpoint last_binding (k : bytes) (ms : list (bytes * jval)) : option jval :=
  match ms with
  | [] => None
  | (k', j) :: r =>
      match last_binding k r with
      | Some x => Some x
      | None => if list_eq_dec Z.eq_dec k' k then Some j else None
      end
  end.

(** [go_value j v]: interface{} value [v] represents JSON value [j].  Maps are lists of
    entries with distinct keys, in any order. *)
Inductive go_value : jval -> gval F -> Prop :=
| gv_null : go_value JNull GNil
| gv_bool b : go_value (JBool b) (GBool b)
| gv_number t : useNumber = true -> go_value (JNum t) (GNumber t)
| gv_float t x : useNumber = false -> fl_parse F t = inl x -> go_value (JNum t) (GFloat x)
| gv_string s : go_value (JStr s) (GString s)
| gv_slice js vs : Forall2 go_value js vs -> go_value (JArr js) (GSlice vs)
| gv_map ms m :
    NoDup (map fst m) ->
    (forall k, In k (map fst m) <-> In k (map fst ms)) ->
    (forall k v, In (k, v) m -> exists j, last_binding k ms = Some j /\ go_value j v) ->
    go_value (JObj ms) (GMap m).

(** every number in the value is accepted by the float parser *)
Inductive nums_ok : jval -> Prop :=
| no_null : nums_ok JNull
| no_bool b : nums_ok (JBool b)
| no_number t : useNumber = true \/ (exists x, fl_parse F t = inl x) -> nums_ok (JNum t)
| no_string s : nums_ok (JStr s)
| no_arr js : Forall nums_ok js -> nums_ok (JArr js)
| no_obj ms : Forall (fun m => nums_ok (snd m)) ms -> nums_ok (JObj ms).
End GoValue.
