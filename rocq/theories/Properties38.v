(** C28, C39: strings that are refused for what they say. *)
From Coq Require Import String ZArith List Bool Lia Arith.
From Verif Require Import Base ModelIter ModelStack ModelSkip ModelStr ModelInt ModelFloat ModelRead ModelIterate ModelOps
  ModelFold ModelBase64 Spec Sim SimLib SimSkip SimRaw SimStr SimInt SimFloat SimRead SimIterate SimOps
  NumFacts StrFacts MachineFacts FloatFacts GrammarFacts IntFacts IterateFacts IterFacts SpecBase64 Base64Facts
  FoldFacts ModelVal SimVal ModelDecoder SpecVal DecFacts DecSound DecComplete ValFacts StructFacts SpecBlock SpecReach Properties1 Properties4 Properties36.
Import ListNotations.
Local Open Scope Z_scope.

Section Refused.
Variables F32 F64 : floatOps.
Variable C : custom.
Notation gval := (gval F32 F64 C).
Variable E : env F32 F64 C.
Variables b d : bool.
Variable sf : Z -> Z.
Variable cs : bool.
Hypothesis sane32 : float_sane F32.
Hypothesis sane64 : float_sane F64.
Notation lookup := (findField sf cs).
Notation members := (SpecVal.members F32 F64 C E lookup b d).
Notation pd := (p_decode F32 F64 C E b d sf cs).
Notation stops := (stops F32 F64 C E b d sf cs).

Lemma reached_follow path v x : reached E path v x -> forall dec f l e, dec x f l = PErr e -> p_follow F32 F64 C E path dec v f l = PErr e.
Proof.
  induction 1 as [x|path l1 x l2 y H IH|alloc path x y H IH|T path y H IH]; intros dec f l e He; cbn [p_follow]; [exact He| | |].
  - rewrite nth_error_app2, Nat.sub_diag by auto. cbn [nth_error]. unfold pbind. now rewrite (IH dec f l e He).
  - unfold pbind. now rewrite (IH dec f l e He).
  - unfold pbind. now rewrite (IH dec f l e He).
Qed.
Lemma corrupt_run n T o old x s f w r : under F32 F64 C E T = TInt false W8 -> string_body x s -> (forall data, ~ base64_lax data x) -> ws w ->
  pd (S n) (TSlice T) o old f (w ++ quote x ++ r) = PErr CorruptInputError.
Proof.
  intros HT Hx Hd Hw. cbn [p_decode]. unfold p_sliceDecoder. rewrite quote_app, next_lit by auto.
  change (34 =? c_n) with false. change (34 =? cQUOTE) with true. rewrite HT. change (negb true) with false. cbv iota.
  unfold p_readBase64. rewrite inc_run. rewrite (pbind_run _ _ _ _ x r) by (apply body_spec; eauto).
  destruct (b64decode x) as [data|] eqn:Hb; [|reflexivity]. apply b64decode_spec in Hb. rewrite (body_no_breaks _ _ Hx) in Hb. now destruct (Hd data).
Qed.
Lemma quoted_run n o old x s f w r : o_quoted o = true -> string_body x s -> s <> bs "null" -> (forall x' s', string_body x' s' -> s <> quote x') -> ws w ->
  pd (S n) TString o old f (w ++ quote x ++ r) = PErr BadQuotedStringError.
Proof.
  intros Ho Hx Hn Hq Hw. cbn [p_decode]. unfold p_stringDecoder. rewrite quote_app, next_lit by auto. change (34 =? cQUOTE) with true. cbv iota.
  rewrite inc_run. rewrite (pbind_run _ _ _ _ s r) by (apply readString_spec; eauto). rewrite Ho. cbn [negb].
  destruct (length s <? 2)%nat; [reflexivity|]. destruct (nth 0 s 0 =? c_n).
  { destruct (bytes_eqb_spec s (bs "null")) as [K|K]; [contradiction|reflexivity]. }
  destruct (Z.eqb_spec (nth 0 s 0) cQUOTE) as [N0|]; [|reflexivity].
  destruct (Z.eqb_spec (nth (length s - 1) s 0) cQUOTE) as [N1|]; cbn [negb]; [|reflexivity].
  destruct (p_readQuoted s) as [sub|] eqn:Eq; [|reflexivity]. apply readQuoted_spec in Eq; auto. destruct Eq as (x' & -> & Hx'). now destruct (Hq x' sub Hx').
Qed.
Lemma stops_at n1 fs v x name i fd z t ps e : string_body x name -> lookup (map f_name fs) name = Some i -> nth_error fs i = Some fd -> reached E (f_path fd) v z ->
  (forall n f w r, (n1 <= n)%nat -> ws w -> pd n (f_type fd) (mkOpts false (f_quoted fd)) z f (w ++ t ++ r) = PErr e) -> stops fs v ((quote x, t) :: ps) e.
Proof.
  intros Hx Hl Hi Hr He. exists n1. intros n Hn body f r Hb.
  assert (Hf : forall w2 l, ws w2 -> p_readObjectField f (x ++ 34 :: w2 ++ 58 :: l) = POk name l).
  { intros w2 l Hw2. apply field_spec. eauto. }
  inversion Hb as [w1 k0 w2 w3 t0 w4 Hw1 Hw2 Hw3 Hw4|w1 k0 w2 w3 t0 w4 b2 ps0 Hw1 Hw2 Hw3 Hw4 Hp]; subst.
  - exists w1, (x ++ 34 :: w2 ++ 58 :: w3 ++ t ++ w4). split; [unfold quote; app_eq|]. split; auto.
    intros m Hm. destruct m as [|m]; [lia|]. cbn [p_structLoop].
    replace ((x ++ 34 :: w2 ++ 58 :: w3 ++ t ++ w4) ++ 125 :: r) with (x ++ 34 :: w2 ++ 58 :: w3 ++ t ++ w4 ++ 125 :: r) by app_eq.
    rewrite (pbind_run _ _ _ _ name _ (Hf w2 (w3 ++ t ++ w4 ++ 125 :: r) Hw2)). rewrite Hl. unfold infos at 1. rewrite nth_error_map, Hi. cbn [option_map pf_path pf_decoder pf_quoted].
    unfold pbind at 1. now rewrite (reached_follow _ _ _ Hr _ _ _ e (He n f w3 (w4 ++ 125 :: r) Hn Hw3)).
  - exists w1, (x ++ 34 :: w2 ++ 58 :: w3 ++ t ++ w4 ++ 44 :: b2). split; [unfold quote; app_eq|]. split; auto.
    intros m Hm. destruct m as [|m]; [lia|]. cbn [p_structLoop].
    replace ((x ++ 34 :: w2 ++ 58 :: w3 ++ t ++ w4 ++ 44 :: b2) ++ 125 :: r)
      with (x ++ 34 :: w2 ++ 58 :: w3 ++ t ++ w4 ++ 44 :: b2 ++ 125 :: r) in * by app_eq.
    rewrite (pbind_run _ _ _ _ name _ (Hf w2 (w3 ++ t ++ w4 ++ 44 :: b2 ++ 125 :: r) Hw2)). rewrite Hl. unfold infos at 1. rewrite nth_error_map, Hi. cbn [option_map pf_path pf_decoder pf_quoted].
    unfold pbind at 1. now rewrite (reached_follow _ _ _ Hr _ _ _ e (He n f w3 (w4 ++ 44 :: b2 ++ 125 :: r) Hn Hw3)).
Qed.
End Refused.

Section Typed.
Variables F32 F64 : floatOps.
Variable C : custom.
Variable E : env F32 F64 C.
Variable sf : Z -> Z.
Variable cs : bool.
Notation lookup := (findField sf cs).
Notation gval := (gval F32 F64 C).
Notation ReadVal := (ReadVal F32 F64 C E sf cs).
Notation vreachable := (vreachable F32 F64 C E sf cs).
Notation members := (SpecVal.members F32 F64 C E lookup).
Hypothesis sane32 : float_sane F32.
Hypothesis sane64 : float_sane F64.
(** A JSON string that is not base64 is refused by slices of bytes with the error of the base64 package *)
Theorem C39_corrupt n T (old : gval) it w x s r : vreachable it -> ~ dirty it -> stream it = w ++ quote x ++ r -> ws w ->
  under F32 F64 C E T = TInt false W8 -> string_body x s -> (forall data, ~ base64_lax data x) ->
  fst (ReadVal (S n) (TSlice T) old it) = Err CorruptInputError.
Proof.
  intros R D Es Hw HT Hx Hd.
  apply (pure_fails _ _ _ (SimVal.sim_decode F32 F64 C E (it_useNumber it) (it_disallow it) sf cs (S n) (TSlice T) noOpts old));
    auto; [exact (vreachable_wf F32 F64 C E sf cs it R)|split; reflexivity|]. rewrite Es. eapply corrupt_run; eauto.
Qed.
(** A member for a string field with the option string: the string must contain null or a JSON string *)
Theorem C28_quoted layout fs (old : gval) ps1 v1 k name i fd z x s ps2 it w t r : vreachable it -> ~ dirty it -> stream it = w ++ t ++ r -> ws w ->
  object_text t (ps1 ++ (quote k, quote x) :: ps2) -> members (it_useNumber it) (it_disallow it) fs old ps1 v1 ->
  string_body k name -> lookup (map f_name fs) name = Some i -> nth_error fs i = Some fd -> f_type fd = TString -> f_quoted fd = true -> reached E (f_path fd) v1 z ->
  string_body x s -> s <> bs "null" -> (forall x' s', string_body x' s' -> s <> quote x') ->
  exists n0, forall n, (n0 <= n)%nat -> fst (ReadVal n (TStruct layout fs) old it) = Err BadQuotedStringError.
Proof.
  intros R D Es Hw Ht Hm Hk Hl Hi HT Hq Hr Hx Hn Hs. assert (Hne : fs <> []) by (intros ->; destruct i; discriminate).
  assert (S : stops F32 F64 C E (it_useNumber it) (it_disallow it) sf cs fs old (ps1 ++ (quote k, quote x) :: ps2) BadQuotedStringError).
  { eapply stops_after; eauto. apply (stops_at F32 F64 C E _ _ sf cs 1 fs v1 k name i fd z); auto. intros n f w' r' Hn' Hw'. destruct n as [|n]; [lia|]. rewrite HT, Hq. eapply quoted_run; eauto. }
  assert (Hp : ps1 ++ (quote k, quote x) :: ps2 <> []) by (destruct ps1; discriminate).
  destruct (stops_struct F32 F64 C E _ _ sf cs layout fs noOpts old t _ _ Hne Hp Ht S) as (n0 & H0).
  exists n0. intros n Hn'.
  apply (pure_fails _ _ _ (SimVal.sim_decode F32 F64 C E (it_useNumber it) (it_disallow it) sf cs n (TStruct layout fs) noOpts old));
    auto; [exact (vreachable_wf F32 F64 C E sf cs it R)|split; reflexivity|]. rewrite Es. auto.
Qed.
End Typed.

Example C39_corrupt_ex : string_body (bs "AB=C") (bs "AB=C") /\ (forall data, ~ base64_lax data (bs "AB=C")) /\
  fst (dReadVal 2 (TSlice (TInt false W8)) (VSlice None) (smallv false " ""AB=C"",")) = Err CorruptInputError.
Proof.
  split; [|split; [|vm_compute; reflexivity]].
  - exists (map UByte (bs "AB=C")). split; [|reflexivity]. repeat (apply si_plain; try (vm_compute; discriminate)); try lia. constructor.
  - intros data H. assert (K : b64decode (bs "AB=C") = Some data) by (apply b64decode_spec; exact H). vm_compute in K. discriminate.
Qed.
(** struct { S string `json:"s,string"` } *)
Definition quotedF : list (field ty) := [mkField (bs "s") [HField 0] true false TString].
Example C28_quoted_ex : reached demoE [HField 0] (VStruct [VStr []] : dval) (VStr []) /\ bs "ab" <> bs "null" /\ (forall x' s', string_body x' s' -> bs "ab" <> quote x') /\
  object_text (bs "{""s"":""ab""}") [(quote (bs "s"), quote (bs "ab"))] /\
  fst (dReadVal 3 (TStruct [TString] quotedF) (VStruct [VStr []]) (smallv false "{""s"":""ab""}")) = Err BadQuotedStringError /\
  fst (dReadVal 3 (TStruct [TString] quotedF) (VStruct [VStr []]) (smallv false "{""s"":""\""ab\""""}")) = Ok (VStruct [VStr (bs "ab")]).
Proof.
  assert (W0 := ws_nil). split; [apply (rc_field demoE _ []); constructor|]. split; [discriminate|]. split; [intros x' s' _ K; discriminate|].
  split; [apply (object_pairs (bs """s"":""ab""")); apply (pairs_one [] (quote (bs "s")) [] [] (quote (bs "ab")) []); auto|]. split; vm_compute; reflexivity.
Qed.

Print Assumptions C39_corrupt.
Print Assumptions C28_quoted.
