(** Compact texts (C61): JSON without white space between the tokens. *)
From Coq Require Import String ZArith List Bool.
From Verif Require Import Base ModelOps ModelStream ModelVal ModelEnc StreamTree.
Import ListNotations.
Local Open Scope Z_scope.

(** [squeeze outside l]: [l] without the white space that is not in a string, as json.Compact of the standard library leaves it *)
Inductive place := outside | inside | escaped.
Fixpoint squeeze (p : place) (l : bytes) : bytes :=
  match l with
  | [] => []
  | c :: r =>
      match p with
      | outside =>
          if c =? 34 then c :: squeeze inside r
          else if (c =? 32) || (c =? 9) || (c =? 10) || (c =? 13) then squeeze outside r
          else c :: squeeze outside r
      | inside => c :: squeeze (if c =? 34 then outside else if c =? 92 then escaped else inside) r
      | escaped => c :: squeeze inside r
      end
  end.
Definition compact (l : bytes) : Prop := squeeze outside l = l.

(** the texts that come from elsewhere: json.RawMessage, and what the methods MarshalJSON of a part of the value return *)
Inductive inserted {F32 F64 C} (U : marshalers F32 F64 C) : gval F32 F64 C -> bytes -> Prop :=
| is_raw t : inserted U (VRaw (Some t)) t
| is_json id x t : ma_MarshalJSON _ _ _ U id x = inl t -> inserted U (VObj x) t
| is_repr id x t : inserted U (ma_repr _ _ _ U id x) t -> inserted U (VObj x) t
| is_ptr v t : inserted U v t -> inserted U (VPtr (Some v)) t
| is_array v l t : In v l -> inserted U v t -> inserted U (VArr l) t
| is_slice v l t : In v l -> inserted U v t -> inserted U (VSlice (Some l)) t
| is_map k v m t : In (k, v) m -> inserted U v t -> inserted U (VMap (Some m)) t
| is_struct v l t : In v l -> inserted U v t -> inserted U (VStruct l) t
| is_iface T v t : inserted U v t -> inserted U (VIface (Some (T, v))) t.
(** the raw parts of a tree of streamer calls are compact *)
Fixpoint tidy_tree {G32 G64} (t : @tree G32 G64) : Prop :=
  match t with
  | StreamTree.TRaw u => compact u
  | TArr l => fold_right (fun t P => tidy_tree t /\ P) True l
  | TObj l => fold_right (fun m P => tidy_tree (snd m) /\ P) True l
  | _ => True
  end.
