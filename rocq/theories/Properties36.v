(** C28: a member for a field behind a nil embedded pointer that may not be set. *)
From Coq Require Import String ZArith List Bool Lia Arith.
From Verif Require Import Base ModelIter ModelStack ModelSkip ModelStr ModelInt ModelFloat ModelRead ModelIterate ModelOps
  ModelFold ModelBase64 Spec Sim SimLib SimSkip SimRaw SimStr SimInt SimFloat SimRead SimIterate SimOps
  NumFacts StrFacts MachineFacts FloatFacts GrammarFacts IntFacts IterateFacts IterFacts SpecBase64 Base64Facts
  FoldFacts ModelVal SimVal ModelDecoder SpecVal DecFacts DecSound DecComplete ValFacts StructFacts SpecBlock Properties1 Properties4.
Import ListNotations.
Local Open Scope Z_scope.

Section Blocked.
Variables F32 F64 : floatOps.
Variable C : custom.
Notation gval := (gval F32 F64 C).
Variable E : env F32 F64 C.
Variables b d : bool.
Variable sf : Z -> Z.
Variable cs : bool.
Hypothesis sane32 : float_sane F32.
Hypothesis sane64 : float_sane F64.
Notation lookup := (findField sf cs).
Notation members := (SpecVal.members F32 F64 C E lookup b d).
Notation pd := (p_decode F32 F64 C E b d sf cs).
Notation member n fs v name := (match lookup (map f_name fs) name with
   | Some i => match nth_error (infos F32 F64 C (pd n) fs) i with
               | None => pfail errType
               | Some fi => p_follow F32 F64 C E (pf_path _ _ _ fi) (pf_decoder _ _ _ fi (mkOpts false (pf_quoted _ _ _ fi))) v
               end
   | None => if d then pfail (EUnknownField name) else pbind p_Skip (fun _ => pret v)
   end).

Lemma blocked_follow path v : blocked E path v -> forall dec f l, p_follow F32 F64 C E path dec v f l = PErr ErrNilEmbeddedPointer.
Proof.
  induction 1 as [path|path l1 x l2 H IH|alloc path x H IH|T path H IH]; intros dec f l; cbn [p_follow]; [reflexivity| | |].
  - rewrite nth_error_app2, Nat.sub_diag by auto. cbn [nth_error]. unfold pbind. now rewrite IH.
  - unfold pbind. now rewrite IH.
  - unfold pbind. now rewrite IH.
Qed.
(** the loop over the members stops with the error *)
Definition stops (fs : list (field ty)) (v : gval) (ps : list (bytes * bytes)) (e : err) : Prop :=
  exists n0, forall n, (n0 <= n)%nat -> forall body f r, pairs body ps ->
  exists w0 l0, body = w0 ++ 34 :: l0 /\ ws w0 /\ forall m, lt (length (l0 ++ 125 :: r)) m ->
    p_structLoop F32 F64 C E d m (lookup (map f_name fs)) (infos F32 F64 C (pd n) fs) v f (l0 ++ 125 :: r) = PErr e.
Lemma stops_here fs v x name t ps e : string_body x name -> (forall n f l, member n fs v name f l = PErr e) -> stops fs v ((quote x, t) :: ps) e.
Proof.
  intros Hx He. exists 0%nat. intros n _ body f r Hb.
  assert (Hf : forall w2 l, ws w2 -> p_readObjectField f (x ++ 34 :: w2 ++ 58 :: l) = POk name l).
  { intros w2 l Hw2. apply field_spec. eauto. }
  inversion Hb as [w1 k0 w2 w3 t0 w4 Hw1 Hw2 Hw3 Hw4|w1 k0 w2 w3 t0 w4 b2 ps0 Hw1 Hw2 Hw3 Hw4 Hp]; subst.
  - exists w1, (x ++ 34 :: w2 ++ 58 :: w3 ++ t ++ w4). split; [unfold quote; app_eq|]. split; auto.
    intros m Hm. destruct m as [|m]; [lia|]. cbn [p_structLoop].
    replace ((x ++ 34 :: w2 ++ 58 :: w3 ++ t ++ w4) ++ 125 :: r) with (x ++ 34 :: w2 ++ 58 :: w3 ++ t ++ w4 ++ 125 :: r) by app_eq.
    rewrite (pbind_run _ _ _ _ name _ (Hf w2 (w3 ++ t ++ w4 ++ 125 :: r) Hw2)). unfold pbind at 1. now rewrite He.
  - exists w1, (x ++ 34 :: w2 ++ 58 :: w3 ++ t ++ w4 ++ 44 :: b2). split; [unfold quote; app_eq|]. split; auto.
    intros m Hm. destruct m as [|m]; [lia|]. cbn [p_structLoop].
    replace ((x ++ 34 :: w2 ++ 58 :: w3 ++ t ++ w4 ++ 44 :: b2) ++ 125 :: r)
      with (x ++ 34 :: w2 ++ 58 :: w3 ++ t ++ w4 ++ 44 :: b2 ++ 125 :: r) in * by app_eq.
    rewrite (pbind_run _ _ _ _ name _ (Hf w2 (w3 ++ t ++ w4 ++ 44 :: b2 ++ 125 :: r) Hw2)). unfold pbind at 1. now rewrite He.
Qed.
Lemma stops_next fs v x name t v1 ps e : string_body x name ->
  (exists n1, forall n, (n1 <= n)%nat -> forall f w r, ws w -> ends t f r -> member n fs v name f (w ++ t ++ r) = POk v1 r) -> ps <> [] ->
  stops fs v1 ps e -> stops fs v ((quote x, t) :: ps) e.
Proof.
  intros Hx (n1 & H1) Hne (n2 & H2). exists (Nat.max n1 n2). intros n Hn body f r Hb.
  assert (Hf : forall w2 l, ws w2 -> p_readObjectField f (x ++ 34 :: w2 ++ 58 :: l) = POk name l).
  { intros w2 l Hw2. apply field_spec. eauto. }
  inversion Hb as [w1 k0 w2 w3 t0 w4 Hw1 Hw2 Hw3 Hw4|w1 k0 w2 w3 t0 w4 b2 ps0 Hw1 Hw2 Hw3 Hw4 Hps]; subst; [now destruct Hne|].
  exists w1, (x ++ 34 :: w2 ++ 58 :: w3 ++ t ++ w4 ++ 44 :: b2). split; [unfold quote; app_eq|]. split; auto.
  intros m Hm. destruct m as [|m]; [lia|]. cbn [p_structLoop].
  replace ((x ++ 34 :: w2 ++ 58 :: w3 ++ t ++ w4 ++ 44 :: b2) ++ 125 :: r)
    with (x ++ 34 :: w2 ++ 58 :: w3 ++ t ++ w4 ++ 44 :: b2 ++ 125 :: r) in * by app_eq.
  rewrite (pbind_run _ _ _ _ name _ (Hf w2 (w3 ++ t ++ w4 ++ 44 :: b2 ++ 125 :: r) Hw2)).
  rewrite (pbind_run _ _ _ _ v1 (w4 ++ 44 :: b2 ++ 125 :: r)).
  2:{ apply (H1 n); auto; [lia|]. apply sep_ends, ws_sep; auto. }
  rewrite next_lit by auto. change (44 =? cRBRACE) with false. change (44 =? cCOMMA) with true. cbv iota. rewrite inc_run.
  destruct (H2 n ltac:(lia) b2 f r Hps) as (w0 & l0 & -> & Hw0 & Hl0).
  rewrite <- app_assoc. simpl app. rewrite next_lit by auto. change (negb (34 =? cQUOTE)) with false. cbv iota. rewrite inc_run.
  apply Hl0. revert Hm. repeat (rewrite app_length; cbn [length app]). lia.
Qed.
Lemma stops_after fs v ps1 v1 x t ps2 e : members fs v ps1 v1 -> stops fs v1 ((quote x, t) :: ps2) e -> stops fs v (ps1 ++ (quote x, t) :: ps2) e.
Proof.
  intros H. induction H as [fs v|fs v x0 name0 i fd t0 v1 ps v2 Hx0 Hl0 Hi Hp Hm IH|fs v x0 name0 t0 j ps v2 Hx0 Hl0 Hd Hj Hm IH]; intros S; [exact S| |].
  - simpl. destruct (decode_complete F32 F64 C E b d sf cs sane32 sane64) as (_ & _ & _ & _ & _ & HP). destruct (HP _ _ _ _ _ _ Hp) as (n1 & H1).
    eapply stops_next; eauto; [|destruct ps; discriminate]. exists n1. intros n Hn f w r Hw He. rewrite Hl0. unfold infos. rewrite nth_error_map, Hi. simpl. now apply H1.
  - simpl. eapply stops_next; eauto; [|destruct ps; discriminate]. exists 0%nat. intros n Hn f w r Hw He. rewrite Hl0, Hd.
    apply bind_ret. exists tt. split; auto. apply Skip_spec. exists w, t0, j. repeat split; auto. now apply ends_vends.
Qed.
Lemma stops_struct layout fs o old t ps e : fs <> [] -> ps <> [] -> object_text t ps -> stops fs old ps e ->
  exists n0, forall n, (n0 <= n)%nat -> forall f w r, ws w -> pd n (TStruct layout fs) o old f (w ++ t ++ r) = PErr e.
Proof.
  intros Hne Hps Ht (n0 & IH). exists (S n0). intros n Hn f w r Hw. destruct n as [|n]; [lia|]. cbn [p_decode].
  destruct fs as [|fd fs]; [congruence|].
  change (map (fun fd0 => pInfo F32 F64 C (f_path fd0) (f_quoted fd0) (pd n (f_type fd0))) (fd :: fs)) with (infos F32 F64 C (pd n) (fd :: fs)).
  remember (fd :: fs) as fs' eqn:Ef. unfold p_structDecoder.
  destruct Ht as [w2 Hw2|body ps Hb]; [congruence|].
  replace (w ++ (123 :: body ++ [125]) ++ r) with (w ++ 123 :: body ++ 125 :: r) by app_eq. rewrite next_lit by auto.
  change (123 =? c_n) with false. change (negb (123 =? cLBRACE)) with false. cbv iota.
  rewrite inc_run.
  destruct (IH n ltac:(lia) body f r Hb) as (w0 & l0 & -> & Hw0 & Hl0).
  rewrite <- app_assoc. simpl app. rewrite next_lit by auto. change (34 =? cRBRACE) with false. change (negb (34 =? cQUOTE)) with false. cbv iota.
  rewrite inc_run, fuel_eq. apply Hl0. lia.
Qed.
End Blocked.

Section Typed.
Variables F32 F64 : floatOps.
Variable C : custom.
Variable E : env F32 F64 C.
Variable sf : Z -> Z.
Variable cs : bool.
Notation lookup := (findField sf cs).
Notation gval := (gval F32 F64 C).
Notation ReadVal := (ReadVal F32 F64 C E sf cs).
Notation vreachable := (vreachable F32 F64 C E sf cs).
Notation members := (SpecVal.members F32 F64 C E lookup).
Hypothesis sane32 : float_sane F32.
Hypothesis sane64 : float_sane F64.
(** The first member for a field that cannot be reached is reported, whatever its value and the rest are; the members before it are decoded, or skipped if they are unknown *)
Theorem C28_embedded layout fs (old : gval) ps1 v1 x name i fd y ps2 it w t r : vreachable it -> ~ dirty it -> stream it = w ++ t ++ r -> ws w ->
  object_text t (ps1 ++ (quote x, y) :: ps2) -> members (it_useNumber it) (it_disallow it) fs old ps1 v1 ->
  string_body x name -> lookup (map f_name fs) name = Some i -> nth_error fs i = Some fd -> blocked E (f_path fd) v1 ->
  exists n0, forall n, (n0 <= n)%nat -> fst (ReadVal n (TStruct layout fs) old it) = Err ErrNilEmbeddedPointer.
Proof.
  intros R D Es Hw Ht Hm Hx Hl Hi Hb. assert (Hne : fs <> []) by (intros ->; destruct i; discriminate).
  assert (S : stops F32 F64 C E (it_useNumber it) (it_disallow it) sf cs fs old (ps1 ++ (quote x, y) :: ps2) ErrNilEmbeddedPointer).
  { eapply stops_after; eauto. eapply stops_here; eauto. intros n f l. rewrite Hl. unfold infos. rewrite nth_error_map, Hi. cbn [option_map pf_path pf_decoder pf_quoted]. now apply blocked_follow. }
  assert (Hp : ps1 ++ (quote x, y) :: ps2 <> []) by (destruct ps1; discriminate).
  destruct (stops_struct F32 F64 C E _ _ sf cs layout fs noOpts old t _ _ Hne Hp Ht S) as (n0 & H0).
  exists n0. intros n Hn.
  apply (pure_fails _ _ _ (SimVal.sim_decode F32 F64 C E (it_useNumber it) (it_disallow it) sf cs n (TStruct layout fs) noOpts old));
    auto; [exact (vreachable_wf F32 F64 C E sf cs it R)|split; reflexivity|]. rewrite Es. auto.
Qed.
End Typed.

(** struct { A int; *inner } with inner struct { X, Y int }, which is not exported *)
Definition hiddenF : list (field ty) := [mkField (bs "a") [HField 0] false false (TInt true W64); mkField (bs "x") [HField 1; HPtr None; HField 0] false false (TInt true W64)].
Definition hiddenT : ty := TStruct [TInt true W64; TPtr (TStruct [TInt true W64; TInt true W64] [])] hiddenF.
Definition hiddenText : string := "{""a"":5,""q"":[],""x"":7}".
Example C28_embedded_ex : object_text (bs hiddenText) ([(quote (bs "a"), bs "5"); (quote (bs "q"), bs "[]")] ++ [(quote (bs "x"), bs "7")]) /\
  SpecVal.members textF textF demoC demoE (findField noFold true) false false hiddenF (VStruct [VInt 0; VPtr None]) [(quote (bs "a"), bs "5"); (quote (bs "q"), bs "[]")] (VStruct [VInt 5; VPtr None]) /\
  blocked demoE [HField 1; HPtr None; HField 0] (VStruct [VInt 5; VPtr None] : dval) /\
  fst (dReadVal 9 hiddenT (VStruct [VInt 0; VPtr None]) (smallv false hiddenText)) = Err ErrNilEmbeddedPointer /\
  fst (dReadVal 9 hiddenT (VStruct [VInt 0; VPtr (Some (VStruct [VInt 0; VInt 0]))]) (smallv false hiddenText)) = Ok (VStruct [VInt 5; VPtr (Some (VStruct [VInt 7; VInt 0]))]).
Proof.
  assert (W0 := ws_nil). split; [|split; [|split; [|split; vm_compute; reflexivity]]].
  - apply (object_pairs (bs """a"":5,""q"":[],""x"":7")). cbn [app]. apply (pairs_cons [] (quote (bs "a")) [] [] (bs "5") [] (bs """q"":[],""x"":7")); auto.
    apply (pairs_cons [] (quote (bs "q")) [] [] (bs "[]") [] (bs """x"":7")); auto. apply (pairs_one [] (quote (bs "x")) [] [] (bs "7") []); auto.
  - eapply ms_field with (name := bs "a") (i := 0%nat); [|vm_compute; reflexivity|reflexivity| |].
    + exists [UByte 97]. split; [|reflexivity]. apply si_plain; try lia. constructor.
    + apply (ap_field _ _ _ _ _ _ _ _ _ _ [] (VInt 0) [VPtr None] _ (VInt 5)). apply ap_here. apply d_int; auto.
      * exact (it_plain true [53] (ip_pos 53 [] ltac:(lia) (Forall_nil _))).
      * change (- 2 ^ (64 - 1) <= 5 < 2 ^ (64 - 1)). lia.
    + eapply ms_unknown with (name := bs "q"); [|vm_compute; reflexivity|reflexivity| |constructor].
      * exists [UByte 113]. split; [|reflexivity]. apply si_plain; try lia. constructor.
      * apply (v_arr0 []); auto.
  - apply (bl_field demoE _ [VInt 5]). constructor.
Qed.

Print Assumptions C28_embedded.
