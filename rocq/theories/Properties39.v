(** C26, C28: types that are not supported. *)
From Coq Require Import String ZArith List Bool Lia Arith.
From Verif Require Import Base ModelIter ModelStack ModelSkip ModelStr ModelInt ModelFloat ModelRead ModelIterate ModelOps
  ModelFold ModelBase64 Spec Sim SimLib SimSkip SimRaw SimStr SimInt SimFloat SimRead SimIterate SimOps
  NumFacts StrFacts MachineFacts FloatFacts GrammarFacts IntFacts IterateFacts IterFacts SpecBase64 Base64Facts
  FoldFacts ModelVal SimVal ModelDecoder SpecVal SpecEnc DecFacts DecSound DecComplete ValFacts StructFacts SpecBlock SpecReach SpecSupport
  Properties1 Properties4 Properties36 Properties38.
Import ListNotations.
Local Open Scope Z_scope.

Section Typed.
Variables F32 F64 : floatOps.
Variable C : custom.
Variable E : env F32 F64 C.
Variable sf : Z -> Z.
Variable cs : bool.
Notation lookup := (findField sf cs).
Notation gval := (gval F32 F64 C).
Notation ReadVal := (ReadVal F32 F64 C E sf cs).
Notation vreachable := (vreachable F32 F64 C E sf cs).
Notation members := (SpecVal.members F32 F64 C E lookup).
Hypothesis sane32 : float_sane F32.
Hypothesis sane64 : float_sane F64.

Lemma no_key k : ~ decodable_key k -> p_keyDecoder F32 F64 C k = None /\ keyDecoder F32 F64 C k = None.
Proof. destruct k as [|s w|[|s w|] [id|] mar]; intros H; try (exfalso; apply H; exact I); split; reflexivity. Qed.
Lemma unsupported_run b d T : unsupported E T -> exists n0, forall n, (n0 <= n)%nat -> forall o old f l, p_decode F32 F64 C E b d sf cs n T o old f l = PErr TypeNotSupportedError.
Proof.
  induction 1 as [|k T H|m H (n0 & IH)].
  - exists 1%nat. intros n Hn o old f l. destruct n; [lia|]. reflexivity.
  - exists 1%nat. intros n Hn o old f l. destruct n; [lia|]. cbn [p_decode]. now rewrite (proj1 (no_key k H)).
  - exists (S n0). intros n Hn o old f l. destruct n; [lia|]. cbn [p_decode]. apply IH. lia.
Qed.
(** A value of a type that is not supported is refused with TypeNotSupportedError before anything is read, whatever the state of the iterator is *)
Theorem C26_unsupported T : unsupported E T -> exists n0, forall n (old : gval) it, (n0 <= n)%nat -> ReadVal n T old it = (Err TypeNotSupportedError, it).
Proof.
  intros H. enough (K : exists n0, forall n, (n0 <= n)%nat -> forall o old it, decode F32 F64 C E sf cs n T o old it = (Err TypeNotSupportedError, it)).
  { destruct K as (n0 & K). exists n0. intros n old it Hn. now apply K. }
  induction H as [|k T H|m H (n0 & IH)].
  - exists 1%nat. intros n Hn o old it. destruct n; [lia|]. reflexivity.
  - exists 1%nat. intros n Hn o old it. destruct n; [lia|]. cbn [decode]. now rewrite (proj2 (no_key k H)).
  - exists (S n0). intros n Hn o old it. destruct n; [lia|]. cbn [decode]. apply IH. lia.
Qed.
(** A struct with such a field can be decoded until there is a member for it *)
Theorem C28_unsupported layout fs (old : gval) ps1 v1 k name i fd z y ps2 it w t r : vreachable it -> ~ dirty it -> stream it = w ++ t ++ r -> ws w ->
  object_text t (ps1 ++ (quote k, y) :: ps2) -> members (it_useNumber it) (it_disallow it) fs old ps1 v1 ->
  string_body k name -> lookup (map f_name fs) name = Some i -> nth_error fs i = Some fd -> reached E (f_path fd) v1 z -> unsupported E (f_type fd) ->
  exists n0, forall n, (n0 <= n)%nat -> fst (ReadVal n (TStruct layout fs) old it) = Err TypeNotSupportedError.
Proof.
  intros R D Es Hw Ht Hm Hk Hl Hi Hr Hu. assert (Hne : fs <> []) by (intros ->; destruct i; discriminate).
  assert (S : stops F32 F64 C E (it_useNumber it) (it_disallow it) sf cs fs old (ps1 ++ (quote k, y) :: ps2) TypeNotSupportedError).
  { destruct (unsupported_run (it_useNumber it) (it_disallow it) _ Hu) as (n1 & Hn1).
    eapply stops_after; eauto. apply (stops_at F32 F64 C E _ _ sf cs n1 fs v1 k name i fd z); auto. }
  assert (Hp : ps1 ++ (quote k, y) :: ps2 <> []) by (destruct ps1; discriminate).
  destruct (stops_struct F32 F64 C E _ _ sf cs layout fs noOpts old t _ _ Hne Hp Ht S) as (n0 & H0).
  exists n0. intros n Hn'.
  apply (pure_fails _ _ _ (SimVal.sim_decode F32 F64 C E (it_useNumber it) (it_disallow it) sf cs n (TStruct layout fs) noOpts old));
    auto; [exact (vreachable_wf F32 F64 C E sf cs it R)|split; reflexivity|]. rewrite Es. auto.
Qed.
End Typed.

(** struct { A bool; M map[[2]int]bool } *)
Definition oddF : list (field ty) := [mkField (bs "a") [HField 0] false false TBool; mkField (bs "m") [HField 1] false false (TMap (KUser KKOther None None) TBool)].
Example C28_unsupported_ex : unsupported demoE (TMap (KUser KKOther None None) TBool) /\
  object_text (bs "{""a"":true,""m"":{}}") [(quote (bs "a"), bs "true"); (quote (bs "m"), bs "{}")] /\
  fst (dReadVal 4 (TStruct [TBool; TMap (KUser KKOther None None) TBool] oddF) (VStruct [VBool false; VMap None]) (smallv false "{""a"":true,""m"":{}}")) = Err TypeNotSupportedError /\
  fst (dReadVal 4 (TStruct [TBool; TMap (KUser KKOther None None) TBool] oddF) (VStruct [VBool false; VMap None]) (smallv false "{""a"":true}")) = Ok (VStruct [VBool true; VMap None]).
Proof.
  assert (W0 := ws_nil). split; [apply un_map; intros []|]. split; [|split; vm_compute; reflexivity].
  apply (object_pairs (bs """a"":true,""m"":{}")). apply (pairs_cons [] (quote (bs "a")) [] [] (bs "true") [] (bs """m"":{}")); auto.
  apply (pairs_one [] (quote (bs "m")) [] [] (bs "{}") []); auto.
Qed.
Example C26_unsupported_ex : unsupported demoE TBad /\ (let it := smallv false " 1" in dReadVal 1 TBad (VBool true) it = (Err TypeNotSupportedError, it)).
Proof. split; [constructor|reflexivity]. Qed.

Print Assumptions C26_unsupported.
Print Assumptions C28_unsupported.
