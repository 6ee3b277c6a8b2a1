(** A pure recogniser for JSON containers with an explicit stack, parameterised by what is
    done with leaves, keys and finished containers.  Skip and Read are instances. *)
From Coq Require Import String ZArith List Bool Lia Arith.
From Verif Require Import Base ModelIter ModelStack ModelSkip Sim SimLib StackFacts.
Import ListNotations.
Local Open Scope Z_scope.

(** accumulators of the container being read *)
Inductive acc (SA SO : Type) := AArr (s : SA) | AObj (s : SO).
Arguments AArr {SA SO} _.
Arguments AObj {SA SO} _.
Definition is_arr {SA SO} (a : acc SA SO) : bool := match a with AArr _ => true | AObj _ => false end.
(** the numbers used by the code for the container being read *)
Definition topOf {SA SO} (first : bool) (a : acc SA SO) : Z :=
  (if is_arr a then 1 else 0) + (if first then 0 else 2).
Definition kinds {K SA SO} (stk : list (K * acc SA SO)) : list bool := map (fun x => is_arr (snd x)) stk.

Record alg (V K SA SO : Type) := mkAlg {
  leaf : Z -> P V;                 (* a value that is not a container, after its first byte *)
  field : P K;                     (* a key and its colon, after the opening quote *)
  k0 : K;                          (* the key used inside arrays *)
  emptyA : SA;
  addA : SA -> V -> SA;
  emptyO : SO;
  addO : SO -> K -> V -> SO;
  finA : SA -> V;
  finO : SO -> V;
  arrErr : Z -> err                (* neither comma nor closing bracket *)
}.
Arguments mkAlg {V K SA SO}.
Arguments leaf {V K SA SO}.
Arguments field {V K SA SO}.
Arguments k0 {V K SA SO}.
Arguments emptyA {V K SA SO}.
Arguments addA {V K SA SO}.
Arguments emptyO {V K SA SO}.
Arguments addO {V K SA SO}.
Arguments finA {V K SA SO}.
Arguments finO {V K SA SO}.
Arguments arrErr {V K SA SO}.

Section Machine.
Context {V K SA SO : Type}.
Variable X : alg V K SA SO.

Definition finish (a : acc SA SO) : V := match a with AArr s => finA X s | AObj s => finO X s end.
Definition add (a : acc SA SO) (k : K) (v : V) : acc SA SO :=
  match a with AArr s => AArr (addA X s v) | AObj s => AObj (addO X s k v) end.

Fixpoint p_loop (fuel : nat) (first : bool) (a : acc SA SO) (stk : list (K * acc SA SO)) : P V :=
  match fuel with
  | O => fuel0
  | S f =>
      pbind p_takeToken (fun c0 =>
      match a with
      | AArr s =>
          if c0 =? cRBRACK then
            match stk with
            | [] => pret (finish (AArr s))
            | (k, b) :: stk' => p_loop f false (add b k (finish (AArr s))) stk'
            end
          else
            pbind (if negb first then
                     if negb (c0 =? cCOMMA) then pfail (EUnexpectedByte c0 cCOMMA 0) else p_takeToken
                   else pret c0) (fun c =>
            if c =? cLBRACK then p_loop f true (AArr (emptyA X)) ((k0 X, AArr s) :: stk)
            else if c =? cLBRACE then p_loop f true (AObj (emptyO X)) ((k0 X, AArr s) :: stk)
            else pbind (leaf X c) (fun v => p_loop f false (AArr (addA X s v)) stk))
      | AObj s =>
          if c0 =? cRBRACE then
            match stk with
            | [] => pret (finish (AObj s))
            | (k, b) :: stk' => p_loop f false (add b k (finish (AObj s))) stk'
            end
          else
            pbind (if negb first then
                     if negb (c0 =? cCOMMA) then pfail (EUnexpectedByte c0 cCOMMA 0) else p_takeToken
                   else pret c0) (fun c =>
            if negb (c =? cQUOTE) then pfail (EUnexpectedByte c cQUOTE 0)
            else
              pbind (field X) (fun k =>
              pbind p_takeToken (fun d =>
              if d =? cLBRACK then p_loop f true (AArr (emptyA X)) ((k, AObj s) :: stk)
              else if d =? cLBRACE then p_loop f true (AObj (emptyO X)) ((k, AObj s) :: stk)
              else pbind (leaf X d) (fun v => p_loop f false (AObj (addO X s k v)) stk))))
      end)
  end.

(** the loops used as long as only leaves have been met *)
Fixpoint p_arrLoop (fuel : nat) (c : Z) (s : SA) : P V :=
  match fuel with
  | O => fuel0
  | S f =>
      if c =? cLBRACE then p_fuel (fun n => p_loop n true (AObj (emptyO X)) [(k0 X, AArr s)])
      else if c =? cLBRACK then p_fuel (fun n => p_loop n true (AArr (emptyA X)) [(k0 X, AArr s)])
      else
        pbind (leaf X c) (fun v =>
        pbind p_takeToken (fun d =>
        if d =? cRBRACK then pret (finA X (addA X s v))
        else if negb (d =? cCOMMA) then pfail (arrErr X d)
        else pbind p_takeToken (fun c' => p_arrLoop f c' (addA X s v))))
  end.
Definition p_array : P V :=
  pbind p_takeToken (fun c =>
  if c =? cRBRACK then pret (finA X (emptyA X)) else p_fuel (fun n => p_arrLoop n c (emptyA X))).

Fixpoint p_objLoop (fuel : nat) (c : Z) (s : SO) : P V :=
  match fuel with
  | O => fuel0
  | S f =>
      if negb (c =? cQUOTE) then pfail (EUnexpectedByte c cQUOTE 0)
      else
        pbind p_inc (fun _ =>
        pbind (field X) (fun k =>
        pbind p_takeToken (fun d =>
        if d =? cLBRACE then p_fuel (fun n => p_loop n true (AObj (emptyO X)) [(k, AObj s)])
        else if d =? cLBRACK then p_fuel (fun n => p_loop n true (AArr (emptyA X)) [(k, AObj s)])
        else
          pbind (leaf X d) (fun v =>
          pbind p_takeToken (fun e =>
          if e =? cRBRACE then pret (finO X (addO X s k v))
          else if negb (e =? cCOMMA) then pfail (EUnexpectedByte e cRBRACE cCOMMA)
          else pbind p_nextToken (fun c' => p_objLoop f c' (addO X s k v)))))))
  end.
Definition p_object : P V :=
  pbind p_nextToken (fun c =>
  if c =? cRBRACE then pbind p_inc (fun _ => pret (finO X (emptyO X)))
  else p_fuel (fun n => p_objLoop n c (emptyO X))).

Definition p_value (c : Z) : P V :=
  if c =? cLBRACK then p_array
  else if c =? cLBRACE then p_object
  else leaf X c.
End Machine.
