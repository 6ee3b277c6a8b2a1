(** What the users of a shared pool may rely on: each sees what it would see alone. *)
From Coq Require Import List Bool Arith.
From Verif Require Import Base ModelVal ModelDecoder ModelPool Sim.
Import ListNotations.

Section Spec.
Variables Obj Cfg Env Loc Work Out : Type.
Variable fresh : Obj.
Variable prepare : Cfg -> Env -> Obj -> Obj.
Variable opening : Cfg -> Loc.
Variable work : Work -> Loc -> Obj -> Out * Loc * Obj.
Variable e0 : Env.
Notation act := (act Cfg Env Work).
Notation event := (event Cfg Env Work).
Notation result := (result Out).

(** The results of a user who is alone: every object is brand-new, and there is no pool *)
Fixpoint solo (l : list act) (s : option (Loc * Obj)) : list result :=
  match l with
  | [] => []
  | AGet c _ _ :: r => RDone :: solo r (Some (opening c, prepare c e0 fresh))
  | AWork w :: r =>
      match s with
      | Some (q, x) => let '(o, q', x') := work w q x in ROut o :: solo r (Some (q', x'))
      | None => RPanic :: solo r None
      end
  | APut _ :: r => match s with Some _ => RDone | None => RPanic end :: solo r None
  end.

(** the steps of user [k], and the results of user [k] *)
Fixpoint actsOf (k : nat) (h : list event) : list act :=
  match h with
  | [] => []
  | Step j x :: r => if (j =? k)%nat then x :: actsOf k r else actsOf k r
  | GC _ :: r => actsOf k r
  end.
Fixpoint outsOf (k : nat) (os : list (nat * result)) : list result :=
  match os with
  | [] => []
  | (j, o) :: r => if (j =? k)%nat then o :: outsOf k r else outsOf k r
  end.

(** "The iterator should not be reused after call" (iterator.go:58, streamer.go:33): after a Release that does not set the
    variable to nil, the next step is to get another object.  [stale]: such a Release was the last step. *)
Fixpoint careful (stale : bool) (l : list act) : Prop :=
  match l with
  | [] => True
  | AGet _ _ _ :: r => careful false r
  | AWork _ :: r => stale = false /\ careful false r
  | APut forget :: r => stale = false /\ careful (negb forget) r
  end.
Definition carefulAll (h : list event) : Prop := forall k, careful false (actsOf k h).
(** what [careful] says about the next step *)
Fixpoint staleAfter (stale : bool) (l : list act) : bool :=
  match l with
  | [] => stale
  | AGet _ _ _ :: r => staleAfter false r
  | AWork _ :: r => staleAfter stale r
  | APut forget :: r => staleAfter (negb forget) r
  end.

(** No object is in two hands: the objects in the pool are different, none of them is the one that a user may still use, and no
    two users may use the same one *)
Definition exclusive (h : list event) (w : world Obj Loc) : Prop :=
  NoDup (w_free _ _ w) /\
  (forall k a q, w_ref _ _ w k = Some (a, q) -> staleAfter false (actsOf k h) = false -> ~ In a (w_free _ _ w)) /\
  (forall k j a q q', w_ref _ _ w k = Some (a, q) -> w_ref _ _ w j = Some (a, q') ->
     staleAfter false (actsOf k h) = false -> staleAfter false (actsOf j h) = false -> k = j).
End Spec.

(** Readers that deliver no data together with an error other than EOF *)
Definition cleanSource (s : source) : Prop := match s with SReader r => ~ rd_dirty r | _ => True end.
(** the calls whose inputs are such readers *)
Definition cleanWork {F32 F64 C} (w : iwork F32 F64 C) : Prop :=
  match w with
  | IUnmarshalFromReader _ _ r => ~ rd_dirty r
  | IRun s _ | IAttach s => cleanSource s
  | _ => True
  end.
Definition cleanActs {F32 F64 C} (l : list (act icfg stack (iwork F32 F64 C))) : Prop :=
  Forall (fun x => match x with AWork w => cleanWork w | _ => True end) l.
