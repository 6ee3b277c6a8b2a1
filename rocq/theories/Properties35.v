(** C26: which error is given if an interface with methods has nothing that can be decoded into. *)
From Coq Require Import String ZArith List Bool Lia.
From Verif Require Import Base ModelIter ModelStack ModelSkip ModelFloat ModelRead ModelOps ModelVal ModelDecoder Sim SimLib SimOps SimVal MachineFacts FloatFacts GrammarFacts IterFacts ValFacts
  DecFacts NumFacts IterateFacts SpecVal Spec SpecStream Properties1 Properties4.
Import ListNotations.
Local Open Scope Z_scope.

Section Typed.
Variables F32 F64 : floatOps.
Variable C : custom.
Variable E : env F32 F64 C.
Variable sf : Z -> Z.
Variable cs : bool.
Notation gval := (gval F32 F64 C).
Notation ReadVal := (ReadVal F32 F64 C E sf cs).
Notation vreachable := (vreachable F32 F64 C E sf cs).
Notation under := (under F32 F64 C E).
(** an interface that holds such a value has nil in its second word: a nil pointer, a nil map, and structs and arrays that consist of one of these *)
Inductive wordless : gval -> Prop :=
| wl_ptr : wordless (VPtr None)
| wl_map : wordless (VMap None)
| wl_struct x : wordless x -> wordless (VStruct [x])
| wl_arr x : wordless x -> wordless (VArr [x]).
Fixpoint nilWord_wordless (v : gval) : nilWord F32 F64 C v = true <-> wordless v.
Proof.
  destruct v as [b|z|x|x|x|o|x|[y|]|[|y [|y' l]]|o|[m|]|[|y [|y' l]]|o]; cbn [nilWord]; try (split; [discriminate|intros H; inversion H]).
  - split; intros; [constructor|reflexivity].
  - specialize (nilWord_wordless y). split; [intros H; constructor; tauto|intros H; inversion H; subst; tauto].
  - split; intros; [constructor|reflexivity].
  - specialize (nilWord_wordless y). split; [intros H; constructor; tauto|intros H; inversion H; subst; tauto].
Qed.
(** A value other than null comes next, and the interface holds nothing (first part) or no pointer to a variable (second part) *)
Theorem C26_receiver n it w c l : vreachable it -> ~ dirty it -> stream it = w ++ c :: l -> ws w -> ~ is_ws c -> c <> 110 ->
  fst (ReadVal (S n) TIface (VIface None) it) = Err ErrEmptyIFace /\
  forall t v, (forall T y, under t = TPtr T -> v <> VPtr (Some y)) ->
    (wordless v -> fst (ReadVal (S n) TIface (VIface (Some (t, v))) it) = Err ErrNilPointerReceiver) /\
    (~ wordless v -> fst (ReadVal (S n) TIface (VIface (Some (t, v))) it) = Err ErrPointerReceiver).
Proof.
  intros R D Es Hw Hc Nn. assert (W := vreachable_wf F32 F64 C E sf cs it R).
  assert (Y : yields nextToken it c (c :: l)).
  { apply (pure_yields anyP nextToken p_nextToken (sim_nextToken_eq anyP)); auto; [exact I|]. rewrite Es. now apply nextToken_run. }
  destruct Y as [Y _]. unfold ModelVal.ReadVal. cbn [decode]. unfold ifaceDecoder, bind. destruct (nextToken it) as [r it'] eqn:En. cbn [fst] in Y. subst r.
  assert (K : (c =? c_n) = false) by (apply Z.eqb_neq; exact Nn). rewrite K. split; [reflexivity|]. intros t v Hv. assert (N := nilWord_wordless v). split; intros Hs.
  - apply N in Hs. destruct (ModelVal.under _ _ _ _ t) eqn:Eu; try (rewrite Hs; reflexivity).
    destruct v as [| | | | | | |[y|]| | | | |]; try (rewrite Hs; reflexivity); [now destruct (Hv _ y eq_refl)|reflexivity].
  - assert (Nw : nilWord F32 F64 C v = false) by (destruct (nilWord F32 F64 C v); [tauto|reflexivity]).
    destruct (ModelVal.under _ _ _ _ t) eqn:Eu; try (rewrite Nw; reflexivity).
    destruct v as [| | | | | | |[y|]| | | | |]; try (rewrite Nw; reflexivity); [now destruct (Hv _ y eq_refl)|discriminate].
Qed.
End Typed.
Example C26_receiver_ex : let it := bytesOf " 12" in stream it = bs " " ++ 49 :: bs "2" /\ ~ dirty it /\
  wordless textF textF demoC (VStruct [VMap None]) /\ ~ wordless textF textF demoC (VInt 0) /\
  fst (ReadVal textF textF demoC demoE noFold true 9 TIface (VIface (Some (TStruct [TMap KString TBool] [], VStruct [VMap None]))) it) = Err ErrNilPointerReceiver /\
  fst (ReadVal textF textF demoC demoE noFold true 9 TIface (VIface (Some (TInt true W64, VInt 0))) it) = Err ErrPointerReceiver.
Proof.
  cbv zeta. split; [reflexivity|]. split; [intros (r & H & _); discriminate H|]. split; [repeat constructor|]. split; [intros H; inversion H|]. split; reflexivity.
Qed.

Print Assumptions C26_receiver.
