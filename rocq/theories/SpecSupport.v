(** The types that cannot be decoded (C26, C28). *)
From Coq Require Import ZArith List Bool.
From Verif Require Import Base ModelVal SpecVal SpecEnc.
Import ListNotations.

(** [unsupported E T]: TBad (the types that decoder_config.go has no case for: functions, channels and so on) and the maps whose keys are neither strings nor integers and cannot be read from a text; and their names *)
Inductive unsupported {F32 F64 C} (E : env F32 F64 C) : ty -> Prop :=
| un_bad : unsupported E TBad
| un_map k T : ~ decodable_key k -> unsupported E (TMap k T)
| un_name n : unsupported E (te_type F32 F64 C E n) -> unsupported E (TRef n).
