(** C64: decoding an object is decoding its members one after the other. *)
From Coq Require Import String ZArith List Bool Lia.
From Verif Require Import Base ModelIter ModelStack ModelSkip ModelInt ModelFloat ModelRead ModelOps ModelFold ModelVal ModelDecoder Sim SimLib SimOps SimVal NumFacts StrFacts
  MachineFacts FloatFacts GrammarFacts IterFacts ValFacts DecFacts DecSound DecComplete SpecVal Spec SpecStream SpecFold FoldFacts TreeFacts SpecSpell SpellFacts SpellVal
  SpecOrder OrderFacts OrderVal AgainWhole SpecPatch PatchVal Properties1 Properties3 Properties4 Properties26 Properties27.
Import ListNotations.
Local Open Scope Z_scope.

Section Typed.
Variables F32 F64 : floatOps.
Variable C : custom.
Variable E : env F32 F64 C.
Variable sf : Z -> Z.
Variable cs : bool.
Notation gval := (gval F32 F64 C).
Notation Unmarshal := (Unmarshal F32 F64 C E sf cs).
Notation UnmarshalFromReader := (UnmarshalFromReader F32 F64 C E sf cs).
Notation vreachable := (vreachable F32 F64 C E sf cs).
Hypothesis sane32 : float_sane F32.
Hypothesis sane64 : float_sane F64.

(** a document with some members, decoded *)
Lemma doc_same un dis T (old : gval) data data' ps v : patched E T -> object_doc data ps -> object_doc data' ps ->
  (exists w1 t w2, data = w1 ++ t ++ w2 /\ ws w1 /\ ws w2 /\ decodes F32 F64 C E (findField sf cs) un dis T noOpts old t v) ->
  exists w1 t w2, data' = w1 ++ t ++ w2 /\ ws w1 /\ ws w2 /\ decodes F32 F64 C E (findField sf cs) un dis T noOpts old t v.
Proof.
  intros Pt [(w1 & t & w2 & Es & H1 & H2 & Ht) Hp] [(u1 & t' & u2 & Es' & U1 & U2 & Ht') _] (w & x & w' & Ex & Hw & Hw' & D).
  destruct (piece_value _ _ Ht Hp) as (j & Hv). rewrite Es in Ex.
  assert (K := text_same F32 F64 C E un dis sf cs _ _ _ _ _ _ _ _ _ _ _ H1 H2 Hw Hw' Hv D Ex). subst x. exists u1, t', u2. split; [exact Es'|]. split; [exact U1|]. split; [exact U2|]. exact (patch_same F32 F64 C E un dis sf cs T Pt _ _ _ _ _ _ Ht Ht' Hp D).
Qed.
Lemma doc_split un dis T (old : gval) data data1 data2 ps1 ps2 v : patched E T -> object_doc data (ps1 ++ ps2) -> object_doc data1 ps1 -> object_doc data2 ps2 ->
  (exists w1 t w2, data = w1 ++ t ++ w2 /\ ws w1 /\ ws w2 /\ decodes F32 F64 C E (findField sf cs) un dis T noOpts old t v) <->
  exists v', (exists w1 t w2, data1 = w1 ++ t ++ w2 /\ ws w1 /\ ws w2 /\ decodes F32 F64 C E (findField sf cs) un dis T noOpts old t v') /\
             (exists w1 t w2, data2 = w1 ++ t ++ w2 /\ ws w1 /\ ws w2 /\ decodes F32 F64 C E (findField sf cs) un dis T noOpts v' t v).
Proof.
  intros Pt D D1 D2. destruct D as [(w & t & w' & Es & Hw & Hw' & Ht) Hp]. destruct D1 as [(w1 & t1 & w1' & Es1 & Hw1 & Hw1' & Ht1) Hp1], D2 as [(w2 & t2 & w2' & Es2 & Hw2 & Hw2' & Ht2) Hp2].
  destruct (piece_value _ _ Ht Hp) as (j & Hv), (piece_value _ _ Ht1 Hp1) as (j1 & Hv1), (piece_value _ _ Ht2 Hp2) as (j2 & Hv2).
  assert (P := patch_decodes F32 F64 C E un dis sf cs T Pt noOpts old t t1 t2 ps1 ps2 v Ht Ht1 Ht2 Hp1 Hp2). split.
  - intros (u & x & u' & Eu & Hu & Hu' & Hd). rewrite Es in Eu. assert (K := text_same F32 F64 C E un dis sf cs _ _ _ _ _ _ _ _ _ _ _ Hw Hw' Hu Hu' Hv Hd Eu). subst x.
    apply P in Hd. destruct Hd as (v' & A & B). exists v'. split; [exists w1, t1, w1'|exists w2, t2, w2']; auto.
  - intros (v' & (u & x & u' & Eu & Hu & Hu' & Hd) & (u2 & x2 & u2' & Eu2 & Hu2 & Hu2' & Hd2)). rewrite Es1 in Eu. rewrite Es2 in Eu2.
    assert (K := text_same F32 F64 C E un dis sf cs _ _ _ _ _ _ _ _ _ _ _ Hw1 Hw1' Hu Hu' Hv1 Hd Eu).
    assert (K2 := text_same F32 F64 C E un dis sf cs _ _ _ _ _ _ _ _ _ _ _ Hw2 Hw2' Hu2 Hu2' Hv2 Hd2 Eu2). subst x x2.
    exists w, t, w'. repeat (split; auto). apply P. eauto.
Qed.
(** an object in two parts: accepted if and only if the parts are accepted one after the other, with the same result *)
Theorem C64_unmarshal T (old : gval) data data1 data2 ps1 ps2 it it1 it2 v : vreachable it -> vreachable it1 -> vreachable it2 ->
  it_useNumber it = it_useNumber it1 -> it_useNumber it = it_useNumber it2 -> it_disallow it = it_disallow it1 -> it_disallow it = it_disallow it2 ->
  patched E T -> object_doc data (ps1 ++ ps2) -> object_doc data1 ps1 -> object_doc data2 ps2 ->
  (exists n, fst (Unmarshal n T old data it) = Ok v) <->
  exists v', (exists n, fst (Unmarshal n T old data1 it1) = Ok v') /\ (exists n, fst (Unmarshal n T v' data2 it2) = Ok v).
Proof.
  intros R R1 R2 U1 U2 I1 I2 Pt D D1 D2. rewrite (C26_unmarshal F32 F64 C E sf cs sane32 sane64 T old data it v R). rewrite (doc_split _ _ T old _ _ _ ps1 ps2 v Pt D D1 D2). split.
  - intros (v' & A & B). rewrite U1, I1 in A. rewrite U2, I2 in B. exists v'. split; [apply (C26_unmarshal F32 F64 C E sf cs sane32 sane64 T old data1 it1 v' R1)|apply (C26_unmarshal F32 F64 C E sf cs sane32 sane64 T v' data2 it2 v R2)]; auto.
  - intros (v' & A & B). exists v'. rewrite (C26_unmarshal F32 F64 C E sf cs sane32 sane64 T old data1 it1 v' R1) in A. rewrite (C26_unmarshal F32 F64 C E sf cs sane32 sane64 T v' data2 it2 v R2) in B.
    rewrite <- U1, <- I1 in A. rewrite <- U2, <- I2 in B. auto.
Qed.
Theorem C64_reader T (old : gval) rd rd1 rd2 ps1 ps2 it it1 it2 v : vreachable it -> vreachable it1 -> vreachable it2 ->
  rd_fin rd = EEOF -> rd_fin rd1 = EEOF -> rd_fin rd2 = EEOF ->
  it_useNumber it = it_useNumber it1 -> it_useNumber it = it_useNumber it2 -> it_disallow it = it_disallow it1 -> it_disallow it = it_disallow it2 ->
  patched E T -> object_doc (rd_data rd) (ps1 ++ ps2) -> object_doc (rd_data rd1) ps1 -> object_doc (rd_data rd2) ps2 ->
  (exists n, fst (UnmarshalFromReader n T old rd it) = Ok v) <->
  exists v', (exists n, fst (UnmarshalFromReader n T old rd1 it1) = Ok v') /\ (exists n, fst (UnmarshalFromReader n T v' rd2 it2) = Ok v).
Proof.
  intros R R1 R2 F F1 F2 U1 U2 I1 I2 Pt D D1 D2. rewrite (C26_reader F32 F64 C E sf cs sane32 sane64 T old rd it v R F). rewrite (doc_split _ _ T old _ _ _ ps1 ps2 v Pt D D1 D2). split.
  - intros (v' & A & B). rewrite U1, I1 in A. rewrite U2, I2 in B. exists v'. split; [apply (C26_reader F32 F64 C E sf cs sane32 sane64 T old rd1 it1 v' R1 F1)|apply (C26_reader F32 F64 C E sf cs sane32 sane64 T v' rd2 it2 v R2 F2)]; auto.
  - intros (v' & A & B). exists v'. rewrite (C26_reader F32 F64 C E sf cs sane32 sane64 T old rd1 it1 v' R1 F1) in A. rewrite (C26_reader F32 F64 C E sf cs sane32 sane64 T v' rd2 it2 v R2 F2) in B.
    rewrite <- U1, <- I1 in A. rewrite <- U2, <- I2 in B. auto.
Qed.
(** one member after the other *)
Inductive in_turn (it : iter) (T : ty) : gval -> list (bytes * bytes) -> gval -> Prop :=
| it_nil v : in_turn it T v [] v
| it_cons n v p ps v1 v2 : fst (Unmarshal n T v (123 :: fst p ++ 58 :: snd p ++ [125]) it) = Ok v1 -> in_turn it T v1 ps v2 -> in_turn it T v (p :: ps) v2.
Lemma one_doc p : piece p -> object_doc (123 :: fst p ++ 58 :: snd p ++ [125]) [p].
Proof.
  intros H. split; [|now constructor]. exists [], (123 :: fst p ++ 58 :: snd p ++ [125]), []. rewrite app_nil_r. split; [reflexivity|]. split; [constructor|]. split; [constructor|].
  destruct p as [k t]. cbn [fst snd]. replace (123 :: k ++ 58 :: t ++ [125]) with (123 :: (([] ++ k ++ [] ++ 58 :: [] ++ t ++ []) ++ [125])) by now rewrite app_nil_r; cbn [app]; rewrite <- !app_assoc.
  constructor. constructor; constructor.
Qed.
Lemma some_doc ps : Forall piece ps -> exists t, object_doc t ps.
Proof.
  intros H. assert (K : exists t, object_text t ps).
  { destruct ps as [|p ps]; [exists (123 :: [] ++ [125]); constructor; constructor|]. assert (K : exists b, pairs b (p :: ps)); [|destruct K as (b & K); exists (123 :: b ++ [125]); now constructor].
    clear H. revert p. induction ps as [|q ps IH]; intros [k t].
    - exists ([] ++ k ++ [] ++ 58 :: [] ++ t ++ []). constructor; constructor.
    - destruct (IH q) as (b & Hb). exists ([] ++ k ++ [] ++ 58 :: [] ++ t ++ [] ++ 44 :: b). constructor; auto; constructor. }
  destruct K as (t & K). exists t. split; auto. exists [], t, []. rewrite app_nil_r. repeat (split; auto); constructor.
Qed.
Theorem C64_members T (old : gval) data p ps it v : vreachable it -> patched E T -> object_doc data (p :: ps) ->
  (exists n, fst (Unmarshal n T old data it) = Ok v) <-> in_turn it T old (p :: ps) v.
Proof.
  intros R Pt. revert p data old. induction ps as [|q ps IH]; intros p data old D; assert (Hp := proj2 D : Forall piece _); inversion Hp as [|? ? P1 P2]; subst; assert (D1 := one_doc p P1).
  - split.
    + intros H. assert (K : exists n, fst (Unmarshal n T old (123 :: fst p ++ 58 :: snd p ++ [125]) it) = Ok v); [|destruct K as (n & K); econstructor; [exact K|constructor]].
      apply (C26_unmarshal F32 F64 C E sf cs sane32 sane64 T old _ it v R). apply (C26_unmarshal F32 F64 C E sf cs sane32 sane64 T old data it v R) in H. eapply doc_same; [exact Pt|exact D|exact D1|exact H].
    + intros H. inversion H as [|n ? ? ? v1 ? A B]; subst. inversion B; subst. apply (C26_unmarshal F32 F64 C E sf cs sane32 sane64 T old data it v R).
      assert (K : exists n, fst (Unmarshal n T old (123 :: fst p ++ 58 :: snd p ++ [125]) it) = Ok v) by eauto.
      apply (C26_unmarshal F32 F64 C E sf cs sane32 sane64 T old _ it v R) in K. eapply doc_same; [exact Pt|exact D1|exact D|exact K].
  - destruct (some_doc (q :: ps) P2) as (t2 & D2).
    rewrite (C64_unmarshal T old data (123 :: fst p ++ 58 :: snd p ++ [125]) t2 [p] (q :: ps) it it it v R R R eq_refl eq_refl eq_refl eq_refl Pt D D1 D2). split.
    + intros (v' & (n & A) & B). econstructor; [exact A|]. apply (IH q t2 v' D2), B.
    + intros H. inversion H as [|n ? ? ? v1 ? A B]; subst. exists v1. split; [eauto|]. apply (IH q t2 v1 D2), B.
Qed.
End Typed.

(** ** Examples and refutations *)
Lemma tree_value c l j : p_tree EEOF (c :: l) = POk j [] -> ~ is_ws c -> value (c :: l) j.
Proof.
  intros T N. apply tree_spec in T. destruct T as (w & t & Es & Hw & Hv & _). rewrite app_nil_r in Es. destruct w as [|c' w]; [cbn [app] in Es; now rewrite Es|]. injection Es as -> _. now inversion Hw.
Qed.
Lemma tree_piece k c l j : Forall (fun c => 32 <= c /\ c <> 34 /\ c <> 92) k -> p_tree EEOF (c :: l) = POk j [] -> ~ is_ws c -> piece (quote k, c :: l).
Proof. intros Hk T N. split; [destruct (plain_items k Hk) as (s & K); cbn; eauto|]. exists j. now apply tree_value. Qed.
(** the linked list of C26: a member that is itself an object, and a field that is written twice *)
Definition nodePs1 : list (bytes * bytes) := [(quote (bs "v"), bs "1"); (quote (bs "next"), bs "{""v"": 2}")].
Definition nodePs2 : list (bytes * bytes) := [(quote (bs "next"), bs "{""next"":{}}"); (quote (bs "v"), bs "3")].
Lemma node_pieces : Forall piece (nodePs1 ++ nodePs2).
Proof.
  assert (Kv : Forall (fun c => 32 <= c /\ c <> 34 /\ c <> 92) (bs "v")) by (apply Forall_forall; intros c [<-|[]]; repeat split; vm_compute; discriminate).
  assert (Kn : Forall (fun c => 32 <= c /\ c <> 34 /\ c <> 92) (bs "next")) by (apply Forall_forall; intros c [<-|[<-|[<-|[<-|[]]]]]; repeat split; vm_compute; discriminate).
  apply Forall_app. split; (apply Forall_cons; [|apply Forall_cons; [|apply Forall_nil]]); (eapply tree_piece; [assumption|vm_compute; reflexivity|intros H; vm_compute in H; intuition discriminate]).
Qed.
Definition nodeText : string := " {""v"":1,""next"":{""v"": 2},""next"" :{""next"":{}},""v"":3}".
Definition nodeText1 : string := "{""v"":1,""next"":{""v"": 2}}".
Definition nodeText2 : string := "{ ""next"":{""next"":{}},""v"":3} ".
Lemma pairs_more w1 k w2 w3 t w4 r l ps : ws w1 -> ws w2 -> ws w3 -> ws w4 -> pairs r ps -> l = w1 ++ k ++ w2 ++ 58 :: w3 ++ t ++ w4 ++ 44 :: r -> pairs l ((k, t) :: ps).
Proof. intros. subst. now constructor. Qed.
Lemma pairs_last w1 k w2 w3 t w4 l : ws w1 -> ws w2 -> ws w3 -> ws w4 -> l = w1 ++ k ++ w2 ++ 58 :: w3 ++ t ++ w4 -> pairs l [(k, t)].
Proof. intros. subst. now constructor. Qed.
Lemma node_docs : object_doc (bs nodeText) (nodePs1 ++ nodePs2) /\ object_doc (bs nodeText1) nodePs1 /\ object_doc (bs nodeText2) nodePs2.
Proof.
  assert (Hp := node_pieces). apply Forall_app in Hp. destruct Hp as [Hp1 Hp2]. assert (W : ws [32]) by now repeat constructor. assert (W0 := ws_nil).
  assert (A2 : pairs (bs """v"":3") [(quote (bs "v"), bs "3")]) by (apply (pairs_last [] _ [] [] _ []); auto).
  assert (A1 : pairs (bs " ""next"":{""next"":{}},""v"":3") nodePs2) by (apply (pairs_more [32] _ [] [] _ [] (bs """v"":3")); auto).
  assert (A1' : pairs (bs """next"" :{""next"":{}},""v"":3") nodePs2) by (apply (pairs_more [] _ [32] [] _ [] (bs """v"":3")); auto).
  assert (B1 : pairs (bs """v"":1,""next"":{""v"": 2}") nodePs1).
  { apply (pairs_more [] _ [] [] _ [] (bs """next"":{""v"": 2}")); auto. apply (pairs_last [] _ [] [] _ []); auto. }
  assert (B : pairs (bs """v"":1,""next"":{""v"": 2},""next"" :{""next"":{}},""v"":3") (nodePs1 ++ nodePs2)).
  { apply (pairs_more [] _ [] [] _ [] (bs """next"":{""v"": 2},""next"" :{""next"":{}},""v"":3")); auto. apply (pairs_more [] _ [] [] _ [] (bs """next"" :{""next"":{}},""v"":3")); auto. }
  split; [|split]; (split; [|auto using node_pieces]).
  - exists [32], (bs "{""v"":1,""next"":{""v"": 2},""next"" :{""next"":{}},""v"":3}"), []. split; [reflexivity|]. split; auto. split; auto. exact (object_pairs _ _ B).
  - exists [], (bs nodeText1), []. split; [reflexivity|]. split; auto. split; auto. exact (object_pairs _ _ B1).
  - exists [], (bs "{ ""next"":{""next"":{}},""v"":3}"), [32]. split; [reflexivity|]. split; auto. split; auto. exact (object_pairs _ _ A1).
Qed.
Definition node (z : Z) (x : option dval) : dval := VStruct [VInt z; VPtr x].
Definition nodeNew : dval := VPtr (Some (node 3 (Some (node 2 (Some (node 0 None)))))).
Example C64_unmarshal_ex : vreachable textF textF demoC demoE noFold true (used2 false) /\ patched demoE (TPtr (TRef 0)) /\
  object_doc (bs nodeText) (nodePs1 ++ nodePs2) /\ object_doc (bs nodeText1) nodePs1 /\ object_doc (bs nodeText2) nodePs2 /\
  fst (dUnmarshal 9 (TPtr (TRef 0)) (VPtr None) (bs nodeText) (used2 false)) = Ok nodeNew /\
  exists v, fst (dUnmarshal 9 (TPtr (TRef 0)) (VPtr None) (bs nodeText1) (used2 false)) = Ok v /\ fst (dUnmarshal 9 (TPtr (TRef 0)) v (bs nodeText2) (used2 false)) = Ok nodeNew /\ v <> nodeNew.
Proof.
  split; [apply reachable_used2|]. split; [apply pa_ptr, pa_ref, pa_struct|]. split; [apply node_docs|]. split; [apply node_docs|]. split; [apply node_docs|].
  split; [vm_compute; reflexivity|]. eexists. split; [vm_compute; reflexivity|]. split; [vm_compute; reflexivity|]. discriminate.
Qed.
Example C64_reader_ex : rd_fin (pieces nodeText) = EEOF /\ object_doc (rd_data (pieces nodeText)) (nodePs1 ++ nodePs2) /\ object_doc (rd_data (pieces nodeText1)) nodePs1 /\
  fst (UnmarshalFromReader textF textF demoC demoE noFold true 9 (TPtr (TRef 0)) (VPtr None) (pieces nodeText) (used2 false)) = Ok nodeNew.
Proof. split; [reflexivity|]. split; [apply node_docs|]. split; [apply node_docs|]. vm_compute. reflexivity. Qed.
Example C64_members_ex : in_turn textF textF demoC demoE noFold true (used2 false) (TPtr (TRef 0)) (VPtr None) (nodePs1 ++ nodePs2) nodeNew.
Proof.
  cbn [nodePs1 nodePs2 app]. repeat (eapply (it_cons _ _ _ _ _ _ _ _ 9%nat); [vm_compute; reflexivity|]). constructor.
Qed.
(** Not for interface{}: the parts replace each other. *)
Theorem C64_iface_refuted : exists old data data1 data2 ps1 ps2 it v v' v2, vreachable textF textF demoC demoE noFold true it /\
  object_doc data (ps1 ++ ps2) /\ object_doc data1 ps1 /\ object_doc data2 ps2 /\
  fst (dUnmarshal 9 TEface old data it) = Ok v /\ fst (dUnmarshal 9 TEface old data1 it) = Ok v' /\ fst (dUnmarshal 9 TEface v' data2 it) = Ok v2 /\ v <> v2.
Proof.
  exists (VIface None), (bs nodeText), (bs nodeText1), (bs nodeText2), nodePs1, nodePs2, (used2 false). do 3 eexists. split; [apply reachable_used2|]. split; [apply node_docs|]. split; [apply node_docs|]. split; [apply node_docs|].
  split; [vm_compute; reflexivity|]. split; [vm_compute; reflexivity|]. split; [vm_compute; reflexivity|]. discriminate.
Qed.

Print Assumptions C64_unmarshal.
Print Assumptions C64_reader.
Print Assumptions C64_members.
Print Assumptions C64_iface_refuted.
