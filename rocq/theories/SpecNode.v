(** What an interface{} stands for in a memory, and which cells it is made of. *)
From Coq Require Import ZArith List Bool.
From Verif Require Import Base ModelFloat ModelRead ModelNode.
Import ListNotations.

Section Holds.
Variable F : floatOps.
(** [holds h fs w g]: in the memory [h] the word [w] is the value [g], and [fs] lists the cells found on the way, a cell
    once for every time it is found.  The words of an array behind the length of a slice do not count. *)
Inductive holds (h : heap F) : list nat -> word F -> gval F -> Prop :=
| ho_nil : holds h [] WNil GNil
| ho_bool b : holds h [] (WBool b) (GBool b)
| ho_float f : holds h [] (WFloat f) (GFloat f)
| ho_number s : holds h [] (WNumber s) (GNumber s)
| ho_string s : holds h [] (WString s) (GString s)
| ho_slice a n l fs gs : nth_error h a = Some (CArr l) -> n <= length l -> each h fs (firstn n l) gs ->
    holds h (a :: fs) (WSlice a n) (GSlice gs)
| ho_map a m fs gm : nth_error h a = Some (CMap m) -> every h fs m gm -> holds h (a :: fs) (WMap a) (GMap gm)
with each (h : heap F) : list nat -> list (word F) -> list (gval F) -> Prop :=
| ea_nil : each h [] [] []
| ea_cons f fs w ws g gs : holds h f w g -> each h fs ws gs -> each h (f ++ fs) (w :: ws) (g :: gs)
with every (h : heap F) : list nat -> list (bytes * word F) -> list (bytes * gval F) -> Prop :=
| ev_nil : every h [] [] []
| ev_cons k f fs w ws g gs : holds h f w g -> every h fs ws gs -> every h (f ++ fs) ((k, w) :: ws) ((k, g) :: gs).

(** [apart h old w g]: [w] is [g], every cell of it is found in one way only, and none is a cell of the memory [old] *)
Definition apart (h old : heap F) (w : word F) (g : gval F) : Prop :=
  exists fs, holds h fs w g /\ NoDup fs /\ Forall (fun a => length old <= a < length h) fs.
End Holds.
Arguments holds {F} _ _ _ _.
Arguments each {F} _ _ _ _.
Arguments every {F} _ _ _ _.
Arguments apart {F} _ _ _ _.
Scheme holds_mut := Minimality for holds Sort Prop
  with each_mut := Minimality for each Sort Prop
  with every_mut := Minimality for every Sort Prop.
Combined Scheme holds_mutind from holds_mut, each_mut, every_mut.

(** ** what the rest of the program may do with the memory between calls of Read *)
Section Between.
Variable F : floatOps.
Variable spare : nat -> nat.
(** somebody calls Read, with any iterator and any node stack from the pool; somebody writes to a cell; somebody makes a
    new cell *)
Inductive event := ERead (it : iter) (ns : nstack) | EWrite (a : nat) (c : cell F) | ENew (c : cell F).
(** what is left of the memory after the events *)
Fixpoint after (es : list event) (h : heap F) : heap F :=
  match es with
  | [] => h
  | ERead it ns :: es' => after es' (me_heap (snd (hRead F spare (mkMem h ns) it)))
  | EWrite a c :: es' => after es' (put_nth h a c)
  | ENew c :: es' => after es' (h ++ [c])
  end.
(** nobody but Read writes to the cells *)
Definition untouched (fs : list nat) (es : list event) : Prop := forall a c, In (EWrite a c) es -> ~ In a fs.
(** the elements of a slice, the values of a map *)
Definition parts (h : heap F) (w : word F) : list (word F) :=
  match w with
  | WSlice a n => match nth_error h a with Some (CArr l) => firstn n l | _ => [] end
  | WMap a => match nth_error h a with Some (CMap m) => map snd m | _ => [] end
  | _ => []
  end.
(** the same for a value *)
Definition partsG (g : gval F) : list (gval F) :=
  match g with GSlice l => l | GMap m => map snd m | _ => [] end.
End Between.
Arguments EWrite {F} _ _.
Arguments ENew {F} _.
Arguments ERead {F} _ _.
