(** C60 for structs with fields of any types: the members may be moved as they are. *)
From Coq Require Import String ZArith List Bool Lia.
From Verif Require Import Base ModelIter ModelStack ModelSkip ModelInt ModelFloat ModelRead ModelOps ModelFold ModelVal ModelDecoder Sim SimLib SimOps SimVal NumFacts StrFacts
  MachineFacts FloatFacts GrammarFacts IterFacts ValFacts DecFacts DecSound DecComplete SpecVal Spec SpecStream SpecFold FoldFacts TreeFacts SpecSpell SpellFacts SpellVal
  SpecOrder OrderFacts OrderVal SpecAgain AgainWhole SpecPatch PatchVal SpecFields Properties1 Properties3 Properties4 Properties26 Properties27 Properties29 Properties31.
Import ListNotations.
Local Open Scope Z_scope.

Section Typed.
Variables F32 F64 : floatOps.
Variable C : custom.
Variable E : env F32 F64 C.
Variable sf : Z -> Z.
Variable cs : bool.
Notation lookup := (findField sf cs).
Notation gval := (gval F32 F64 C).
Notation Unmarshal := (Unmarshal F32 F64 C E sf cs).
Notation UnmarshalFromReader := (UnmarshalFromReader F32 F64 C E sf cs).
Notation vreachable := (vreachable F32 F64 C E sf cs).
Notation decodes := (decodes F32 F64 C E lookup).
Notation members := (SpecVal.members F32 F64 C E lookup).
Hypothesis sane32 : float_sane F32.
Hypothesis sane64 : float_sane F64.

Lemma moved_pieces ps ps' : moved lookup ps ps' -> Forall piece ps -> Forall piece ps'.
Proof.
  induction 1 as [|ps1 b a x c d y ps2 ps Ha Hd Df H IH]; auto. intros K. apply IH. apply Forall_app in K. destruct K as [K1 K2]. apply Forall_app. split; auto.
  inversion K2 as [|? ? A K3]; subst. inversion K3; subst. auto.
Qed.
Lemma moved_members un dis fs ps ps' : disjoint fs -> moved lookup ps ps' -> Forall piece ps -> forall v v', members un dis fs v ps v' -> members un dis fs v ps' v'.
Proof.
  intros Dj. induction 1 as [|ps1 b a x c d y ps2 ps Ha Hd Df H IH]; auto. intros K v v' M. apply Forall_app in K. destruct K as [K1 K2].
  inversion K2 as [|? ? A K3]; subst. inversion K3 as [|? ? A' K4]; subst. apply IH.
  - apply Forall_app. split; auto.
  - destruct A as [_ (j & Hj)], A' as [_ (j' & Hj')]. cbn [snd] in *. revert v v' M. apply members_prefix. intros v v'.
    apply (members_swap F32 F64 C E un dis sf cs fs v _ _ ps2 v' (a, j) (d, j')); auto; [exists b|exists c]; auto.
Qed.
Lemma moved_decodes un dis T : recordT E T -> forall o (old : gval) t t' ps ps' v, object_text t ps -> object_text t' ps' -> Forall piece ps -> moved lookup ps ps' ->
  decodes un dis T o old t v -> decodes un dis T o old t' v.
Proof.
  assert (W := whole_decodes F32 F64 C E un dis sf cs). destruct W as (_ & _ & _ & We & Wm & _).
  induction 1 as [layout fields Nd Bn Ap|T H IH|n H IH]; intros o old t t' ps ps' v Ht Ht' Hp Hm D;
    assert (N := object_null _ _ Ht); assert (N' := object_null _ _ Ht'); inversion D; subst; try congruence; try discriminate.
  - match goal with K : object_text t ?q, L : members _ _ _ _ ?q _ |- _ => assert (Q : q = ps) by (eapply object_same; eauto); subst end.
    econstructor; eauto. eapply moved_members; eauto. now split.
  - apply d_ptr_new; eauto.
  - apply d_ptr_old; eauto.
  - constructor. eauto.
Qed.
Lemma moved_doc un dis T (old : gval) data data' ps ps' v : recordT E T -> object_doc data ps -> object_doc data' ps' -> moved lookup ps ps' ->
  (exists w1 t w2, data = w1 ++ t ++ w2 /\ ws w1 /\ ws w2 /\ decodes un dis T noOpts old t v) ->
  exists w1 t w2, data' = w1 ++ t ++ w2 /\ ws w1 /\ ws w2 /\ decodes un dis T noOpts old t v.
Proof.
  intros Pt [(w1 & t & w2 & Es & H1 & H2 & Ht) Hp] [(u1 & t' & u2 & Es' & U1 & U2 & Ht') _] Hm (w & x & w' & Ex & Hw & Hw' & D).
  destruct (piece_value _ _ Ht Hp) as (j & Hv). rewrite Es in Ex.
  assert (K := text_same F32 F64 C E un dis sf cs _ _ _ _ _ _ _ _ _ _ _ H1 H2 Hw Hw' Hv D Ex). subst x. exists u1, t', u2. split; [exact Es'|]. split; [exact U1|]. split; [exact U2|].
  exact (moved_decodes un dis T Pt _ _ _ _ _ _ _ Ht Ht' Hp Hm D).
Qed.
(** the same value, exactly *)
Theorem C60_fields n T (old : gval) data data' ps ps' it it' v : vreachable it -> vreachable it' -> it_useNumber it = it_useNumber it' -> it_disallow it = it_disallow it' ->
  recordT E T -> object_doc data ps -> object_doc data' ps' -> moved lookup ps ps' ->
  fst (Unmarshal n T old data it) = Ok v -> exists n0, forall m, (n0 <= m)%nat -> fst (Unmarshal m T old data' it') = Ok v.
Proof.
  intros R R' Hn Hd Pt D D' Hm H. assert (K : exists n, fst (Unmarshal n T old data it) = Ok v) by eauto. apply (C26_unmarshal F32 F64 C E sf cs sane32 sane64 T old data it v R) in K.
  apply (moved_doc _ _ T old data data' ps ps' v Pt D D' Hm) in K. rewrite Hn, Hd in K. apply (C26_unmarshal F32 F64 C E sf cs sane32 sane64 T old data' it' v R') in K. destruct K as (m & K).
  exact (C26_fuel F32 F64 C E sf cs sane32 sane64 T old _ it' v m R' K).
Qed.
Theorem C60_fields_reader n T (old : gval) rd rd' ps ps' it it' v : vreachable it -> vreachable it' -> rd_fin rd = EEOF -> rd_fin rd' = EEOF ->
  it_useNumber it = it_useNumber it' -> it_disallow it = it_disallow it' -> recordT E T -> object_doc (rd_data rd) ps -> object_doc (rd_data rd') ps' -> moved lookup ps ps' ->
  fst (UnmarshalFromReader n T old rd it) = Ok v -> exists m, fst (UnmarshalFromReader m T old rd' it') = Ok v.
Proof.
  intros R R' F F' Hn Hd Pt D D' Hm H. assert (K : exists n, fst (UnmarshalFromReader n T old rd it) = Ok v) by eauto. apply (C26_reader F32 F64 C E sf cs sane32 sane64 T old rd it v R F) in K.
  apply (moved_doc _ _ T old _ _ ps ps' v Pt D D' Hm) in K. rewrite Hn, Hd in K. apply (C26_reader F32 F64 C E sf cs sane32 sane64 T old rd' it' v R' F'). exact K.
Qed.
End Typed.

(** the struct of C62 with quoted fields, RawMessage and UnmarshalJSON *)
Definition deedPs : list (bytes * bytes) := [(quote (bs "raw"), bs "[ 1,2]"); (quote (bs "j"), bs "{""a"" :1}")].
Definition deedPs' : list (bytes * bytes) := [(quote (bs "j"), bs "{""a"" :1}"); (quote (bs "raw"), bs "[ 1,2]")].
Example C60_fields_ex : recordT demoE deedT /\ object_doc (bs "{""raw"":[ 1,2],""j"":{""a"" :1}}") deedPs /\ object_doc (bs "{""j"":{""a"" :1},""raw"":[ 1,2]}") deedPs' /\
  moved (findField noFold true) deedPs deedPs' /\
  exists v, fst (dUnmarshal 9 deedT (zero _ _ _ demoE deedT) (bs "{""raw"":[ 1,2],""j"":{""a"" :1}}") (used2 false)) = Ok v /\
            fst (dUnmarshal 9 deedT (zero _ _ _ demoE deedT) (bs "{""j"":{""a"" :1},""raw"":[ 1,2]}") (used2 false)) = Ok v /\ v <> zero _ _ _ demoE deedT.
Proof.
  assert (W0 := ws_nil).
  assert (Kr : Forall (fun c => 32 <= c /\ c <> 34 /\ c <> 92) (bs "raw")) by (apply Forall_forall; intros c [<-|[<-|[<-|[]]]]; repeat split; vm_compute; discriminate).
  assert (Kj : Forall (fun c => 32 <= c /\ c <> 34 /\ c <> 92) (bs "j")) by (apply Forall_forall; intros c [<-|[]]; repeat split; vm_compute; discriminate).
  assert (Pr : piece (quote (bs "raw"), bs "[ 1,2]")) by (eapply tree_piece; [assumption|vm_compute; reflexivity|intros H; vm_compute in H; intuition discriminate]).
  assert (Pj : piece (quote (bs "j"), bs "{""a"" :1}")) by (eapply tree_piece; [assumption|vm_compute; reflexivity|intros H; vm_compute in H; intuition discriminate]).
  split; [assert (S := deed_steady false deedT (or_introl eq_refl)); destruct S as (_ & A & B & D); now constructor|].
  split; [|split; [|split]].
  - split; [|repeat (apply Forall_cons; auto); apply Forall_nil]. exists [], (bs "{""raw"":[ 1,2],""j"":{""a"" :1}}"), []. split; [reflexivity|]. split; auto. split; auto. apply (object_pairs (bs """raw"":[ 1,2],""j"":{""a"" :1}")).
    apply (pairs_more [] _ [] [] _ [] (bs """j"":{""a"" :1}")); auto. apply (pairs_last [] _ [] [] _ []); auto.
  - split; [|repeat (apply Forall_cons; auto); apply Forall_nil]. exists [], (bs "{""j"":{""a"" :1},""raw"":[ 1,2]}"), []. split; [reflexivity|]. split; auto. split; auto. apply (object_pairs (bs """j"":{""a"" :1},""raw"":[ 1,2]")).
    apply (pairs_more [] _ [] [] _ [] (bs """raw"":[ 1,2]")); auto. apply (pairs_last [] _ [] [] _ []); auto.
  - apply (mo_swap _ [] (bs "raw") (bs "raw") _ (bs "j") (bs "j") _ []); [| | |constructor].
    + exists (map UByte (bs "raw")). split; [repeat (constructor; [vm_compute; discriminate..|]); constructor|reflexivity].
    + exists (map UByte (bs "j")). split; [repeat (constructor; [vm_compute; discriminate..|]); constructor|reflexivity].
    + apply C60_differ_exact. discriminate.
  - eexists. split; [vm_compute; reflexivity|]. split; [vm_compute; reflexivity|]. discriminate.
Qed.
Example C60_fields_reader_ex : rd_data (pieces "{""j"":{""a"" :1},""raw"":[ 1,2]}") = bs "{""j"":{""a"" :1},""raw"":[ 1,2]}" /\ rd_fin (pieces "{""j"":{""a"" :1},""raw"":[ 1,2]}") = EEOF.
Proof. split; reflexivity. Qed.

Print Assumptions C60_fields.
Print Assumptions C60_fields_reader.
