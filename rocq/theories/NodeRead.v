(** The loops of Read, with the memory and on values. *)
From Coq Require Import ZArith List Bool Lia.
From Verif Require Import Base ModelIter ModelStack ModelSkip ModelStr ModelFloat ModelRead ModelNode SpecNode StackFacts NodeFacts.
Import ListNotations.
Local Open Scope Z_scope.

Section Loops.
Variable F : floatOps.
Variable spare : nat -> nat.
Local Notation heap := (heap F).
Local Notation word := (word F).
Local Notation gval := (gval F).

(** the run with the memory ends as the run on values: same place in the input, same error; the value of the one is the
    value of the other in the memory, made of new cells; the memory [p] is still there *)
Definition follows (p : heap) (r : res word * iter * mem F) (q : res gval * iter) : Prop :=
  snd (fst r) = snd q /\ kept F p (me_heap (snd r)) /\
  match fst q with
  | Ok g => exists w, fst (fst r) = Ok w /\ apart (me_heap (snd r)) p w g
  | Err e => fst (fst r) = Err e
  | Panic => fst (fst r) = Panic
  | OutOfFuel => fst (fst r) = OutOfFuel
  end.

Lemma follows_err p st it e : kept F p (me_heap st) -> follows p (Err e, it, st) (Err e, it).
Proof. intros K. split; [reflexivity|]. split; [exact K|reflexivity]. Qed.
Lemma follows_lift {A} p (m : M A) k k' st it :
  kept F p (me_heap st) ->
  (forall a it', m it = (Ok a, it') -> follows p (k a st it') (k' a it')) ->
  follows p (nbind F (lift F m) k st it) (bind m k' it).
Proof.
  intros K H. unfold nbind, lift, bind. destruct (m it) as [[a|e| |] it'] eqn:E.
  - apply H. reflexivity.
  - split; [reflexivity|]. split; [exact K|reflexivity].
  - split; [reflexivity|]. split; [exact K|reflexivity].
  - split; [reflexivity|]. split; [exact K|reflexivity].
Qed.
Lemma readLeaf_leaf c it g it' : readLeaf F c it = (Ok g, it') -> is_leaf F g.
Proof.
  unfold readLeaf, readNumberValue, bind, ret, fail.
  repeat (match goal with |- context [if ?b then _ else _] => destruct b end).
  all: try (destruct (readString it) as [[?|?| |] ?]); try (destruct (expectBytes _ it) as [[?|?| |] ?]).
  all: try (destruct (readNumberAsString c it) as [[?|?| |] ?]); try (destruct (readFloat F c it) as [[?|?| |] ?]).
  all: intros H; try discriminate; injection H as <- <-; exact I.
Qed.
Lemma follows_leaf p c k k' st it :
  kept F p (me_heap st) ->
  (forall g it', is_leaf F g -> follows p (k (leafWord F g) st it') (k' g it')) ->
  follows p (nbind F (hReadLeaf F c) k st it) (bind (readLeaf F c) k' it).
Proof.
  intros K H. unfold hReadLeaf.
  assert (E : nbind F (nbind F (lift F (readLeaf F c)) (fun g => nret F (leafWord F g))) k st it =
              nbind F (lift F (readLeaf F c)) (fun g => k (leafWord F g)) st it).
  { unfold nbind, lift, nret. destruct (readLeaf F c it) as [[g|e| |] it']; reflexivity. }
  rewrite E. apply follows_lift; [exact K|]. intros g it' Hg. apply H. exact (readLeaf_leaf c it g it' Hg).
Qed.
Lemma comma_lift (b b' : bool) e c0 (k : Z -> N F word) st it :
  nbind F (if b then if b' then nfail F e else lift F takeToken else nret F c0) k st it =
  nbind F (lift F (if b then if b' then fail e else takeToken else ret c0)) k st it.
Proof. destruct b; [destruct b'|]; reflexivity. Qed.
Lemma inloop_kept p st ns : inloop F p st ns -> kept F p (me_heap st).
Proof. intros (fs & live & _ & _ & _ & K & _). exact K. Qed.
Lemma bind_opt {A} (m : N F unit) (k : unit -> N F word) (o : option A) (k' : A -> M gval) p st it st' a :
  m st it = (Ok tt, it, st') -> o = Some a -> follows p (k tt st' it) (k' a it) ->
  follows p (nbind F m k st it) (bind (opt o) k' it).
Proof. intros E -> H. unfold nbind, bind, opt, ret. rewrite E. exact H. Qed.
Lemma bind_push (m : N F unit) (k : unit -> N F word) p q st it st' :
  m st it = (Ok tt, it, st') -> follows p (k tt st' it) q -> follows p (nbind F m k st it) q.
Proof. intros E H. unfold nbind. rewrite E. exact H. Qed.

Lemma follows_loop p f : forall top s st n ns it,
  inloop F p st (n :: ns) -> reps s (map (is_slice F) ns) -> (Z.land top 1 =? 0) = negb (is_slice F n) ->
  follows p (hLoop F spare f top s st it) (readWithStack_loop F f top s (n :: ns) it).
Proof.
  induction f as [|f IH]; intros top s st n ns it I R T.
  - assert (K := inloop_kept _ _ _ I). split; [reflexivity|]. split; [exact K|reflexivity].
  - assert (K := inloop_kept _ _ _ I). cbn [hLoop readWithStack_loop]. apply follows_lift; [exact K|]. intros c0 it0 _.
    rewrite T. destruct (is_slice F n) eqn:Es; cbn [negb].
    + destruct (c0 =? cRBRACK).
      * apply reps_pop in R. destruct ns as [|n2 ns]; cbn [map] in R.
        -- rewrite R. rewrite Z.eqb_refl.
           destruct (topArray_ok F p st n [] it0 I Es) as (w & g & E1 & E2 & A). rewrite E1. unfold opt. rewrite E2.
           split; [reflexivity|]. split; [exact K|]. exists w. split; [reflexivity|exact A].
        -- destruct R as (s' & -> & R'). replace (elem (is_slice F n2) =? stackElementNone) with false by (destruct (is_slice F n2); reflexivity).
           destruct (popArray_ok F spare p st n n2 ns it0 I Es) as (st' & ns' & E1 & E2 & I' & M').
           eapply bind_opt; [exact E1|exact E2|]. destruct ns' as [|n' ns']; [discriminate|]. cbn [map] in M'.
           injection M' as M1 M2. apply IH; [exact I'|rewrite M2; exact R'|]. rewrite M1. destruct (is_slice F n2); reflexivity.
      * rewrite comma_lift. apply follows_lift; [exact K|]. intros c it1 _.
        destruct (c =? cLBRACK); [|destruct (c =? cLBRACE)].
        -- destruct (reps_pushArray s _ R) as (s' & -> & R'). destruct (pushArray_ok F p st (n :: ns) [] it1 I) as (st' & E1 & I').
           eapply bind_push; [exact E1|]. apply IH; [exact I'|cbn [map]; rewrite Es; exact R'|reflexivity].
        -- destruct (reps_pushArray s _ R) as (s' & -> & R'). destruct (pushObject_ok F p st (n :: ns) [] it1 I) as (st' & E1 & I').
           eapply bind_push; [exact E1|]. apply IH; [exact I'|cbn [map]; rewrite Es; exact R'|reflexivity].
        -- apply follows_leaf; [exact K|]. intros g it2 Lg.
           assert (En : exists gs, nd_val F n = NSlice F gs) by (unfold is_slice in Es; destruct (nd_val F n); [discriminate|eauto]).
           destruct En as (gs & En). destruct (appendTop_ok F spare p st n ns gs g it2 I En Lg) as (st' & ns' & E1 & E2 & I' & M').
           eapply bind_opt; [exact E1|exact E2|]. destruct ns' as [|n' ns']; [discriminate|]. cbn [map] in M'.
           injection M' as M1 M2. apply IH; [exact I'|rewrite M2; exact R|]. rewrite M1, Es. reflexivity.
    + destruct (c0 =? cRBRACE).
      * apply reps_pop in R. destruct ns as [|n2 ns]; cbn [map] in R.
        -- rewrite R. rewrite Z.eqb_refl.
           destruct (topObject_ok F p st n [] it0 I Es) as (w & g & E1 & E2 & A). rewrite E1. unfold opt. rewrite E2.
           split; [reflexivity|]. split; [exact K|]. exists w. split; [reflexivity|exact A].
        -- destruct R as (s' & -> & R'). replace (elem (is_slice F n2) =? stackElementNone) with false by (destruct (is_slice F n2); reflexivity).
           destruct (popObject_ok F spare p st n n2 ns it0 I Es) as (st' & ns' & E1 & E2 & I' & M').
           eapply bind_opt; [exact E1|exact E2|]. destruct ns' as [|n' ns']; [discriminate|]. cbn [map] in M'.
           injection M' as M1 M2. apply IH; [exact I'|rewrite M2; exact R'|]. rewrite M1. destruct (is_slice F n2); reflexivity.
      * rewrite comma_lift. apply follows_lift; [exact K|]. intros c it1 _.
        destruct (negb (c =? cQUOTE)); [apply follows_err, K|].
        apply follows_lift; [exact K|]. intros field it2 _. apply follows_lift; [exact K|]. intros d it3 _.
        destruct (d =? cLBRACK); [|destruct (d =? cLBRACE)].
        -- destruct (reps_pushObject s _ R) as (s' & -> & R'). destruct (pushArray_ok F p st (n :: ns) field it3 I) as (st' & E1 & I').
           eapply bind_push; [exact E1|]. apply IH; [exact I'|cbn [map]; rewrite Es; exact R'|reflexivity].
        -- destruct (reps_pushObject s _ R) as (s' & -> & R'). destruct (pushObject_ok F p st (n :: ns) field it3 I) as (st' & E1 & I').
           eapply bind_push; [exact E1|]. apply IH; [exact I'|cbn [map]; rewrite Es; exact R'|reflexivity].
        -- apply follows_leaf; [exact K|]. intros g it4 Lg.
           assert (En : exists gm, nd_val F n = NMap F gm) by (unfold is_slice in Es; destruct (nd_val F n); [eauto|discriminate]).
           destruct En as (gm & En). destruct (setTop_ok F spare p st n ns gm field g it4 I En Lg) as (st' & ns' & E1 & E2 & I' & M').
           eapply bind_opt; [exact E1|exact E2|]. destruct ns' as [|n' ns']; [discriminate|]. cbn [map] in M'.
           injection M' as M1 M2. apply IH; [exact I'|rewrite M2; exact R|]. rewrite M1, Es. reflexivity.
Qed.

Lemma follows_release p r q : follows p r q ->
  follows p (match r with
             | (Ok v, it', st') => nbind F (hRelease F) (fun _ => nret F v) st' it'
             | (Err e, it', st') => nbind F (hRelease F) (fun _ => nfail F e) st' it'
             | (Panic, it', st') => (Panic, it', st')
             | (OutOfFuel, it', st') => (OutOfFuel, it', st')
             end) q.
Proof. destruct r as [[[w|e| |] it'] st']; intros H; exact H. Qed.
(** the two ways into the loop *)
Lemma follows_stack p top init initNs push st it n ns st2 :
  inloop F p st2 (n :: ns) -> reps (init (it_pool it)) (map (is_slice F) ns) -> (Z.land top 1 =? 0) = negb (is_slice F n) ->
  push (mkMem (me_heap st) (initNs (me_ns st))) it = (Ok tt, it, st2) ->
  follows p (hReadWithStack F spare top init initNs push st it) (readWithStack F top (init (it_pool it)) (n :: ns) it).
Proof.
  intros I R T E. unfold hReadWithStack. apply follows_release. unfold nbind at 1. unfold nbind at 1. rewrite E.
  unfold readWithStack. apply follows_loop; assumption.
Qed.
Lemma follows_inner p st it nst (x : slot) n0 fs (init : stack -> stack) field :
  me_heap st = me_heap st -> nst = me_ns st ->
  holds (me_heap st) fs (slotW F x) (nodeG F n0) -> sl_field x = nd_field F n0 -> NoDup fs -> inside F p (me_heap st) fs -> kept F p (me_heap st) ->
  reps (init (it_pool it)) [is_slice F n0] ->
  follows p (hReadWithStack F spare stackElementObjectBegin init (fun ns => ns_append (mkNs (ns_slots ns) 0) x) (hPushObject F field) st it)
    (readWithStack F stackElementObjectBegin (init (it_pool it)) (ns_pushObject F field [n0]) it) /\
  follows p (hReadWithStack F spare stackElementArrayBegin init (fun ns => ns_append (mkNs (ns_slots ns) 0) x) (hPushArray F field) st it)
    (readWithStack F stackElementArrayBegin (init (it_pool it)) (ns_pushArray F field [n0]) it).
Proof.
  intros _ -> H Ef ND IN K R. assert (I := init_ok F p (me_heap st) (me_ns st) x n0 fs H Ef ND IN K). split.
  - destruct (pushObject_ok F p _ [n0] field it I) as (st' & E & I'). eapply follows_stack; [exact I'|exact R|reflexivity|exact E].
  - destruct (pushArray_ok F p _ [n0] field it I) as (st' & E & I'). eapply follows_stack; [exact I'|exact R|reflexivity|exact E].
Qed.

Lemma follows_array p f : forall c a j gs fs st it,
  holds (me_heap st) fs (WSlice a j) (GSlice gs) -> NoDup fs -> inside F p (me_heap st) fs -> kept F p (me_heap st) ->
  follows p (hArray_loop F spare f c (a, j) st it) (readArray_loop F f c gs it).
Proof.
  induction f as [|f IH]; intros c a j gs fs st it H ND IN K.
  - split; [reflexivity|]. split; [exact K|reflexivity].
  - cbn [hArray_loop readArray_loop].
    destruct (follows_inner p st it (me_ns st) (mkSlot None (Some (a, j)) []) (mkNode F (NSlice F gs) []) fs initArray []
                eq_refl eq_refl H eq_refl ND IN K (reps_initArray _)) as (A1 & A2).
    destruct (c =? cLBRACE); [exact A1|]. destruct (c =? cLBRACK); [exact A2|]. clear A1 A2.
    apply follows_leaf; [exact K|]. intros g it' Lg.
    destruct (append_ok F spare p (me_heap st) a j gs fs [] (leafWord F g) g H (leaf_holds F _ _ Lg)) as (h' & a' & fs' & E & H' & ND' & FR & (SL & _) & K');
      rewrite ?app_nil_r; auto.
    rewrite app_nil_r in FR.
    assert (IN' : inside F p h' fs') by (eapply inside_from; [exact IN|exact FR|exact SL|apply kept_len, K]).
    unfold nbind at 1. rewrite E. apply follows_lift; [exact K'|]. intros d it1 _. cbn [fst snd].
    destruct (d =? cRBRACK).
    + split; [reflexivity|]. split; [exact K'|]. exists (WSlice a' (S j)). split; [reflexivity|]. exists fs'. split; [exact H'|]. split; [exact ND'|].
      apply Forall_forall. exact IN'.
    + destruct (negb (d =? cCOMMA)); [apply follows_err; exact K'|]. apply follows_lift; [exact K'|]. intros c' it2 _.
      eapply IH; eauto.
Qed.
Lemma follows_object p f : forall c a gm fs st it,
  holds (me_heap st) fs (WMap a) (GMap gm) -> NoDup fs -> inside F p (me_heap st) fs -> kept F p (me_heap st) ->
  follows p (hObject_loop F spare f c a st it) (readObject_loop F f c gm it).
Proof.
  induction f as [|f IH]; intros c a gm fs st it H ND IN K.
  - split; [reflexivity|]. split; [exact K|reflexivity].
  - cbn [hObject_loop readObject_loop]. destruct (negb (c =? cQUOTE)); [apply follows_err, K|].
    apply follows_lift; [exact K|]. intros _ it0 _. apply follows_lift; [exact K|]. intros field it1 _. apply follows_lift; [exact K|]. intros d it2 _.
    destruct (follows_inner p st it2 (me_ns st) (mkSlot (Some a) None []) (mkNode F (NMap F gm) []) fs initObject field
                eq_refl eq_refl H eq_refl ND IN K (reps_initObject _)) as (A1 & A2).
    destruct (d =? cLBRACE); [exact A1|]. destruct (d =? cLBRACK); [exact A2|]. clear A1 A2.
    apply follows_leaf; [exact K|]. intros g it' Lg.
    destruct (assign_ok F spare p (me_heap st) a gm fs [] (leafWord F g) g field H (leaf_holds F _ _ Lg)) as (h' & fs' & E & H' & ND' & FR & (SL & _) & K');
      rewrite ?app_nil_r; auto.
    rewrite app_nil_r in FR.
    assert (IN' : inside F p h' fs') by (eapply inside_from; [exact IN|exact FR|exact SL|apply kept_len, K]).
    unfold nbind at 1. rewrite E. apply follows_lift; [exact K'|]. intros e it3 _.
    destruct (e =? cRBRACE).
    + split; [reflexivity|]. split; [exact K'|]. exists (WMap a). split; [reflexivity|]. exists fs'. split; [exact H'|]. split; [exact ND'|].
      apply Forall_forall. exact IN'.
    + destruct (negb (e =? cCOMMA)); [apply follows_err; exact K'|]. apply follows_lift; [exact K'|]. intros c' it4 _.
      eapply IH; eauto.
Qed.
Lemma NoDup_one {A} (x : A) : NoDup [x].
Proof. constructor; [intros []|constructor]. Qed.
Lemma kept_refl h : kept F h h.
Proof. exists []. symmetry. apply app_nil_r. Qed.

Theorem follows_read st it : follows (me_heap st) (hRead F spare st it) (Read F it).
Proof.
  assert (K := kept_refl (me_heap st)). unfold hRead, Read. apply follows_lift; [exact K|]. intros c it0 _. unfold readFunctions.
  destruct (c =? cLBRACK); [|destruct (c =? cLBRACE)].
  - unfold hReadArray, readArrayWithStack. apply follows_lift; [exact K|]. intros d it1 _. unfold nbind at 1. cbn [newSlice fst snd].
    destruct (new_holds F (me_heap st) (me_heap st) (CArr []) (WSlice (length (me_heap st)) 0) (GSlice []) K) as (H & K' & I); [intros h' E; apply new_slice, E|].
    destruct (d =? cRBRACK).
    + split; [reflexivity|]. split; [exact K'|]. eexists. split; [reflexivity|]. eexists. split; [exact H|]. split; [apply NoDup_one|]. apply Forall_forall. exact I.
    + eapply follows_array; [exact H|apply NoDup_one|exact I|exact K'].
  - unfold hReadObject, readObjectWithStack. apply follows_lift; [exact K|]. intros d it1 _. unfold nbind at 1. cbn [newMap fst snd].
    destruct (new_holds F (me_heap st) (me_heap st) (CMap []) (WMap (length (me_heap st))) (GMap []) K) as (H & K' & I); [intros h' E; apply new_map, E|].
    destruct (d =? cRBRACE).
    + apply follows_lift; [exact K'|]. intros _ it2 _. split; [reflexivity|]. split; [exact K'|]. eexists. split; [reflexivity|]. eexists. split; [exact H|]. split; [apply NoDup_one|]. apply Forall_forall. exact I.
    + eapply follows_object; [exact H|apply NoDup_one|exact I|exact K'].
  - assert (E : hReadLeaf F c st it0 = nbind F (hReadLeaf F c) (nret F (A:=word)) st it0).
    { unfold nbind. destruct (hReadLeaf F c st it0) as [[[w|e| |] i] s]; reflexivity. }
    assert (E' : readLeaf F c it0 = bind (readLeaf F c) (fun g => ret g) it0).
    { unfold bind, ret. destruct (readLeaf F c it0) as [[w|e| |] i]; reflexivity. }
    rewrite E, E'. apply follows_leaf; [exact K|]. intros g it' Lg. split; [reflexivity|]. split; [exact K|].
    eexists. split; [reflexivity|]. exists []. split; [apply leaf_holds, Lg|]. split; constructor.
Qed.
End Loops.
