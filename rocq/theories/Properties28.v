(** C61: the encoder and the streamer write no white space between the tokens, apart from what texts of others contain. *)
From Coq Require Import String ZArith List Bool Lia.
From Verif Require Import Base ModelInt ModelFloat ModelRead ModelOps ModelStream ModelVal ModelDecoder ModelEnc SpecStream SpecBase64 StreamIntFacts StreamFacts StreamTree SpecVal SpecEnc EncFacts EncRound ValFacts
  Spec SpecSpell SpellFacts SpecCompact CompactFacts FloatFacts Properties1 Properties2 Properties4 Properties5 Properties26 Properties27.
Import ListNotations ModelVal.
Local Open Scope Z_scope.

Section Typed.
Variables F32 F64 : floatOps.
Variable C : custom.
Notation gval := (gval F32 F64 C).
Variable E : env F32 F64 C.
Variable U : marshalers F32 F64 C.
Variables G32 G64 : floatFmt.
Variable e32 : fl F32 -> ff G32.
Variable e64 : fl F64 -> ff G64.
Variable cfgHTML : bool.
Notation Marshal := (Marshal F32 F64 C E U G32 G64 e32 e64 cfgHTML).
Notation Value := (Value F32 F64 C E U G32 G64 e32 e64 cfgHTML).
Notation fits q := (fits F32 F64 C E U G32 G64 e32 e64 q).
Variables (S32 : fmt_sane G32) (S64 : fmt_sane G64).
Hypothesis NO : names_ok F32 F64 C E U.

(** The text of Marshal has no white space outside strings, if this holds of the texts that it takes from json.RawMessage and MarshalJSON *)
Theorem C61_marshal (Q : Prop) o : fits Q false TEface (VIface o) -> (forall u, inserted U (VIface o) u -> compact u) ->
  exists t j n0, value t j /\ compact t /\ forall n, (n0 <= n)%nat -> Marshal n o = MOk t.
Proof.
  intros H K. destruct (C27_marshal F32 F64 C E U G32 G64 e32 e64 cfgHTML S32 S64 NO Q o H) as (t & j & n0 & He & V & M).
  exists t, j, n0. split; [exact V|]. split; [|exact M]. exact (proj2 (proj1 (encodes_tight F32 F64 C E U G32 G64 e32 e64 Q) _ _ _ _ _ He K)).
Qed.
(** the same for a value that is appended to a streamer *)
Theorem C61_value (Q : Prop) o h : fits Q false TEface (VIface o) -> (forall u, inserted U (VIface o) u -> compact u) ->
  exists t j n0, value t j /\ compact t /\
    forall n p w b, (n0 <= n)%nat -> Value n o (mkStm w b None p h) = SOk (mkStm w (b ++ comma p ++ t) None true h).
Proof.
  intros H K. destruct (C27_value F32 F64 C E U G32 G64 e32 e64 cfgHTML S32 S64 NO Q o h H) as (t & j & n0 & He & V & M).
  exists t, j, n0. split; [exact V|]. split; [|exact M]. exact (proj2 (proj1 (encodes_tight F32 F64 C E U G32 G64 e32 e64 Q) _ _ _ _ _ He K)).
Qed.
(** so it is the shortest of the texts that differ in white space only, and no other is as short *)
Theorem C61_shortest (Q : Prop) o : fits Q false TEface (VIface o) -> (forall u, inserted U (VIface o) u -> compact u) ->
  exists t n0, (forall n, (n0 <= n)%nat -> Marshal n o = MOk t) /\
    forall l, alike_texts false t l -> (length t < length l)%nat \/ l = t.
Proof.
  intros H K. destruct (C61_marshal Q o H K) as (t & j & n0 & V & Ct & M). exists t, n0. split; [exact M|]. intros l A.
  apply texts_squeeze in A. unfold compact in Ct. rewrite Ct in A. pose proof (squeeze_length outside l) as L.
  destruct (Nat.eq_dec (length t) (length l)) as [L'|L']; [right|left; rewrite A in *; lia].
  rewrite A in L'. apply squeeze_same in L'. congruence.
Qed.
End Typed.

(** well-nested calls of a streamer *)
Theorem C61_calls {G32 G64} (S32 : fmt_sane G32) (S64 : fmt_sane G64) h (T : @tree G32 G64) : printable T -> tidy_tree T ->
  exists t, compact t /\ forall p w b, calls (tree_calls T) (mkStm w b None p h) = Some (mkStm w (b ++ comma p ++ t) None true h).
Proof. intros P K. destruct (tree_tight S32 S64 h T P K) as (t & [_ Ct] & Ef). exists t. split; [exact Ct|]. intros p w b. apply Ef. Qed.

(** Removing the white space from a JSON text leaves a JSON text of the same value, with the same strings *)
Theorem C61_squeeze l j : json_text l j -> json_text (squeeze outside l) j /\ alike_texts false l (squeeze outside l) /\ compact (squeeze outside l).
Proof.
  intros J. pose proof (squeeze_text l j J) as A. split; [|split; [exact A|]].
  - destruct J as (w & t & w2 & -> & Hw & V & Hw2). destruct (proj1 squeeze_value t j V) as [T Al].
    destruct (proj1 (alike_value false) _ _ Al) as (j' & V1 & V2). assert (j' = j) as -> by exact (TreeFacts.value_det t j' j V1 V).
    rewrite sq_ws, T, (ws_gone w2) by auto. exists [], (squeeze outside t), []. repeat split; auto; constructor.
  - unfold compact. symmetry. now apply texts_squeeze.
Qed.

Section Decoding.
Variables F32 F64 : floatOps.
Variable C : custom.
Variable E : env F32 F64 C.
Variable sf : Z -> Z.
Variable cs : bool.
Notation gval := (gval F32 F64 C).
Notation Unmarshal := (Unmarshal F32 F64 C E sf cs).
Notation vreachable := (vreachable F32 F64 C E sf cs).
Hypothesis sane32 : float_sane F32.
Hypothesis sane64 : float_sane F64.
Variable P : bool -> ty -> Prop.
Hypothesis types : forall q t, P q t -> blind E false P q t.
Hypothesis named : forall n, held E P (te_zero F32 F64 C E n).
(** and decoding what is left gives what decoding the text gives *)
Theorem C61_unmarshal n T (old : gval) data j it v : vreachable it -> P false T -> held E P old -> json_text data j ->
  (fst (Unmarshal n T old data it) = Ok v <-> fst (Unmarshal n T old (squeeze outside data) it) = Ok v).
Proof.
  intros R PT Ho J. apply (C59_unmarshal F32 F64 C E sf cs sane32 sane64 false P types named); auto. now apply squeeze_text with j.
Qed.
End Decoding.

(** ** Examples and refutations *)
Notation eval := (gval textF textF demoC).
(** []interface{}{json.RawMessage(`{"a b":[1]}`), item}, and "a b", of type 0, whose MarshalJSON puts it in quotes *)
Definition boxT : ty := TSlice TEface.
Definition box : eval := VSlice (Some [VIface (Some (TRaw, VRaw (Some (bs "{""a b"":[1]}")))); VIface (Some (TRef 0, item0)); VIface (Some (TJson 0, VObj (bs "a b" : cu_state demoC)))]).
Definition boxText : string := "[{""a b"":[1]}," ++ itemText ++ ",""a b""]".
Lemma box_fits Q : fits textF textF demoC encE encU demoF demoF encF encF Q false TEface (VIface (Some (boxT, box))).
Proof.
  unfold boxT, box. apply fi_iface; [auto|left; left; notUser|]. apply fi_slice; [discriminate|].
  assert (V : exists j, value (bs "{""a b"":[1]}") j).
  { assert (T : TreeFacts.p_tree EEOF (bs "{""a b"":[1]}") = Sim.POk (JObj [(bs "a b", JArr [JNum (bs "1")])]) []) by (vm_compute; reflexivity).
    apply TreeFacts.tree_spec in T. destruct T as (w & t & Et & Hw & Hv & _). exists (JObj [(bs "a b", JArr [JNum (bs "1")])]).
    rewrite app_nil_r in Et. destruct w as [|c w]; [now rewrite Et|]. exfalso. injection Et as Ec _. inversion Hw; subst. unfold is_ws in *. lia. }
  destruct V as (j & V). apply fl_more; [|apply fl_more; [|apply fl_more; [|apply fl_none]]].
  - apply fi_iface; [auto|left; left; notUser|]. now apply fi_raw with j.
  - pose proof (item_fits Q) as H. inversion H; subst. apply fi_iface; auto.
  - apply fi_iface; [auto|left; right; apply sw_user with 0%nat; [now left|now apply sw_other]|]. apply fi_json with 0%nat (quote (bs "a b")) (JStr (bs "a b")); [now left|now left|reflexivity|].
    apply v_str. apply plain_body. apply Forall_forall. intros c K. cbn in K. lia.
Qed.
Lemma obj_parts (x : cu_state demoC) u : inserted encU (VObj x) u -> u = quote x.
Proof.
  intros H. inversion H as [|id y t K|id y t K| | | | | |]; subst; [cbn in K; congruence|]. exfalso.
  destruct id as [|[|[|[|id]]]]; cbn [encU ma_repr] in K; inversion K; match goal with F : In _ [] |- _ => destruct F end.
Qed.
Ltac parts := repeat match goal with
  | H : In _ [] |- _ => destruct H
  | H : In _ (_ :: _) |- _ => destruct H as [H|H]; [try (injection H as; subst); subst|]
  | H : inserted _ (VObj _) _ |- _ => apply obj_parts in H; subst
  | H : inserted _ _ _ |- _ => inversion H; subst; clear H
  end.
Lemma item_none (u : bytes) : ~ inserted encU item0 u.
Proof.
  assert (N1 : ~ inserted encU item1 u) by (unfold item1; intros H; cbn [map] in H; parts).
  unfold item0. intros H. inversion H as [| | | | | | |v l t Hin K|]; subst. cbn [In] in Hin. 
  repeat (destruct Hin as [<-|Hin]; [parts; try contradiction|]). contradiction.
Qed.
Lemma box_tidy u : inserted encU (VIface (Some (boxT, box))) u -> compact u.
Proof.
  unfold box. intros H. inversion H; subst; clear H. match goal with K : inserted _ _ _ |- _ => inversion K as [| | | | |v l t Hin K1| | |]; subst; clear K end.
  cbn [In] in Hin. destruct Hin as [<-|[<-|[<-|[]]]]; inversion K1; subst; clear K1; match goal with K : inserted _ _ _ |- _ => rename K into K2 end.
  - inversion K2; subst. reflexivity.
  - now apply item_none in K2.
  - apply obj_parts in K2. subst. reflexivity.
Qed.
Example C61_marshal_ex : fits textF textF demoC encE encU demoF demoF encF encF False false TEface (VIface (Some (boxT, box))) /\
  (forall u, inserted encU (VIface (Some (boxT, box))) u -> compact u) /\ inserted encU (VIface (Some (boxT, box))) (bs "{""a b"":[1]}") /\
  eMarshal 15 (Some (boxT, box)) = MOk (bs boxText) /\ compact (bs boxText) /\ ~ compact (bs "{""a b"": [1]}").
Proof.
  split; [apply box_fits|]. split; [apply box_tidy|].
  split; [apply is_iface; eapply is_slice; [left; reflexivity|apply is_iface, is_raw]|]. split; [vm_compute; reflexivity|]. split; [vm_compute; reflexivity|].
  vm_compute. discriminate.
Qed.
Example C61_value_ex : fits textF textF demoC encE encU demoF demoF encF encF False false TEface (VIface (Some (boxT, box))) /\
  Value textF textF demoC encE encU demoF demoF encF encF true 15 (Some (boxT, box)) (mkStm None (bs "[1") None true true) =
  SOk (mkStm None (bs "[1," ++ bs boxText) None true true).
Proof. split; [apply box_fits|vm_compute; reflexivity]. Qed.
Example C61_shortest_ex : exists l, alike_texts false (bs "[{""a b"":[1]},2]") l /\ l = bs " [{""a b"" : [ 1]} ,2]" /\ squeeze outside l = bs "[{""a b"":[1]},2]".
Proof.
  exists (bs " [{""a b"" : [ 1]} ,2]"). split; [|split; vm_compute; reflexivity].
  apply alike_texts_sym. change (bs "[{""a b"":[1]},2]") with (squeeze outside (bs " [{""a b"" : [ 1]} ,2]")).
  apply squeeze_text with (treeOf (bs " [{""a b"" : [ 1]} ,2]")). apply tree_text. vm_compute. reflexivity.
Qed.
Lemma one_number : number (bs "1").
Proof. change (bs "1") with ([49] ++ [] ++ []). apply num_pos, un; constructor; [lia|constructor]. Qed.
Definition tightTree : @tree demoF demoF :=
  TArr [TNull; TObj [(FName (bs "a<b"), TArr []); (FRaw (bs """k"""), TObj []); (FName [], TStr messy)]; TQUint I8 255; StreamTree.TRaw (bs "[1]"); StreamTree.TBool false].
Example C61_calls_ex : printable tightTree /\ tidy_tree tightTree /\ compact (bs "[1]") /\ ~ compact (bs "[ ]") /\
  exists s, calls (tree_calls tightTree) (newStm true) = Some s /\ compact (sm_buffer s).
Proof.
  split; [|split; [|split; [reflexivity|split; [discriminate|]]]].
  - simpl. unfold in_int, in_uint. simpl. repeat split; try lia; try (now apply bytes_b).
    + exists [107], [107]. split; [reflexivity|]. apply plain_body. repeat constructor; lia.
    + exists (JArr [JNum (bs "1")]). apply (v_arr (bs "1")). apply (el_one [] (bs "1") (JNum (bs "1")) []); [constructor| |constructor].
      apply v_num, one_number.
  - cbn [tidy_tree tightTree fold_right snd]. repeat (split; [try exact I; try reflexivity|]); exact I.
  - eexists. split; vm_compute; reflexivity.
Qed.
Definition loosened : string := " { ""a\"" b"" : [ 1 , { } , ""\\"" ] } ".
Example C61_squeeze_ex : json_text (bs loosened) (treeOf (bs loosened)) /\ squeeze outside (bs loosened) = bs "{""a\"" b"":[1,{},""\\""]}".
Proof. split; [|vm_compute; reflexivity]. apply (tree_texts (bs "{""a\"" b"":[1,{},""\\""]}")); [vm_compute; reflexivity|]. exists [32]. split; [vm_compute; reflexivity|]. now repeat constructor. Qed.
Example C61_unmarshal_ex : (forall q T, billSet q T -> blind demoE false billSet q T) /\ (forall n, held demoE billSet (te_zero _ _ _ demoE n)) /\ billSet false billT /\
  held demoE billSet (zero _ _ _ demoE billT) /\ vreachable textF textF demoC demoE noFold true (used2 false) /\
  json_text (bs billText2) (treeOf (bs billText2)) /\ squeeze outside (bs billText2) <> bs billText2 /\
  exists v, fst (dUnmarshal 9 billT (zero _ _ _ demoE billT) (bs billText2) (used2 false)) = Ok v /\ v <> zero _ _ _ demoE billT.
Proof.
  split; [apply bill_types|]. split; [intros [|n]; cbn; auto 10|]. split; [left; reflexivity|]. split; [cbn; auto 10|]. split; [apply reachable_used2|].
  split; [apply tree_text; vm_compute; reflexivity|]. split; [vm_compute; discriminate|]. eexists. split; [vm_compute; reflexivity|discriminate].
Qed.
(** The texts of json.RawMessage and MarshalJSON are written as they are, with their white space (val_encoder_json_rawmessage.go,
    val_encoder_json_marshaler.go); encoding/json compacts them. *)
Definition wideU : marshalers textF textF demoC := mkMarshalers textF textF demoC (fun _ => RValue) (fun _ => RNone) (fun _ _ => inl (bs "[ 1 ]")) (fun _ _ => inl [])
  (fun _ => TBool) (fun _ _ => VBool false) (fun _ => None) (fun _ _ => inl []) (fun _ _ => false).
Theorem C61_inserted_refuted : exists o o', fits textF textF demoC encE wideU demoF demoF encF encF False false TEface (VIface o) /\
  fits textF textF demoC encE wideU demoF demoF encF encF False false TEface (VIface o') /\
  forall n, (3 <= n)%nat -> Marshal textF textF demoC encE wideU demoF demoF encF encF true n o = MOk (bs "[ 1 ]") /\
    Marshal textF textF demoC encE wideU demoF demoF encF encF true n o' = MOk (bs "[ 1 ]") /\ ~ compact (bs "[ 1 ]").
Proof.
  assert (V : value (bs "[ 1 ]") (JArr [JNum (bs "1")])).
  { apply (v_arr (bs " 1 ")). apply (el_one [32] (bs "1") (JNum (bs "1")) [32]); [now repeat constructor| |now repeat constructor].
    apply v_num, one_number. }
  exists (Some (TRaw, VRaw (Some (bs "[ 1 ]")))), (Some (TJson 0, VObj ([] : cu_state demoC))).
  split; [|split].
  - apply fi_iface; [auto|left; left; notUser|]. now apply fi_raw with (JArr [JNum (bs "1")]).
  - apply fi_iface; [auto|left; right; apply sw_user with 0%nat; [now left|now apply sw_other]|].
    apply fi_json with 0%nat (bs "[ 1 ]") (JArr [JNum (bs "1")]); [now left|now left|reflexivity|exact V].
  - intros [|[|[|n]]] Hn; try lia. split; [reflexivity|]. split; [reflexivity|]. vm_compute. discriminate.
Qed.

Print Assumptions C61_marshal.
Print Assumptions C61_value.
Print Assumptions C61_shortest.
Print Assumptions C61_calls.
Print Assumptions C61_squeeze.
Print Assumptions C61_unmarshal.
Print Assumptions C61_inserted_refuted.
