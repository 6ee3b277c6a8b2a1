(** C63: a value survives the reformatting of its text. *)
From Coq Require Import String ZArith List Bool Lia Arith Permutation.
From Verif Require Import Spec SpecStream SpecBase64 SpecFold StreamFacts StreamStrFacts FloatFacts Base64Facts FoldFacts IterFacts Sim TreeFacts Properties1 Properties2.
From Verif Require Import ModelIter ModelStack ModelRead Properties3.
From Verif Require Import Base ModelInt ModelFloat ModelOps ModelBase64 ModelStream ModelFold ModelVal ModelDecoder ModelEnc SpecVal SpecEnc ValFacts EncFacts EncRound Properties4 Properties5.
From Verif Require Import Spec SpecSpell SpellVal SpecOrder Properties26 Properties27.
Import ListNotations.
Local Open Scope Z_scope.

Section Reformat.
Variables F32 F64 : floatOps.
Variable C : custom.
Notation gval := (gval F32 F64 C).
Variable E : env F32 F64 C.
Notation zero := (zero F32 F64 C E).
Variable U : marshalers F32 F64 C.
Variables G32 G64 : floatFmt.
Variable e32 : fl F32 -> ff G32.
Variable e64 : fl F64 -> ff G64.
Variable cfgHTML : bool.
Notation Marshal := (Marshal F32 F64 C E U G32 G64 e32 e64 cfgHTML).
Notation no_fields := (no_fields F32 F64 C E U).
Notation set_word := (set_word F32 F64 C E U).
Notation encodes q := (encodes F32 F64 C E U G32 G64 e32 e64 q).
Notation keeps := (keeps F32 F64 C E U G32 G64 e32 e64 False).
Variables (S32 : fmt_sane G32) (S64 : fmt_sane G64).
Hypothesis NO : names_ok F32 F64 C E U.
Variable sf : Z -> Z.                    (* unicode.SimpleFold *)
Variable cs : bool.                      (* CaseSensitive *)
Variable Ef : Z -> Z -> Prop.
Hypothesis FO : folding Ef.
Hypothesis WK : walks Ef sf.
Hypothesis sane32 : float_sane F32.
Hypothesis sane64 : float_sane F64.
Hypothesis ZO : zeros_ok F32 F64 C E.
Notation Unmarshal := (Unmarshal F32 F64 C E sf cs).
Notation vreachable := (vreachable F32 F64 C E sf cs).
Notation same := (same F32 F64 C).

(** the text of a value, which is JSON, and from which it is restored *)
Lemma marshal_text T v it : vreachable it -> keeps (it_useNumber it) false T false v -> (no_fields false T -> set_word T v) ->
  exists t j n0, value t j /\ forall n, (n0 <= n)%nat -> Marshal n (Some (T, v)) = MOk t /\ fst (Unmarshal n T (zero T) t it) = Ok v.
Proof.
  intros R K Nw. destruct (C25_roundtrip F32 F64 C E U G32 G64 e32 e64 cfgHTML S32 S64 NO sf cs Ef FO WK sane32 sane64 ZO T v it R K Nw) as (t & n0 & H).
  destruct (keeps_encodes F32 F64 C E U G32 G64 S32 S64 e32 e64 False (it_useNumber it)) as [X _]. destruct (X _ _ _ _ K) as (t0 & H0).
  destruct (Marshal_ok F32 F64 C E U G32 G64 S32 S64 e32 e64 cfgHTML False NO (Some (T, v)) t0) as (t' & n1 & Ht & P1); [apply e_iface; auto|].
  destruct (C27_valid F32 F64 C E U G32 G64 e32 e64 _ _ _ _ _ _ Ht) as (j & Hj). exists t, j, n0. split; auto.
  assert (Et : MOk t = MOk t') by (rewrite <- (P1 (Nat.max n0 n1)) by lia; symmetry; apply H; lia). injection Et as ->. exact Hj.
Qed.

(** No two values have the same text. *)
Theorem C63_injective T v v' b : keeps b false T false v -> (no_fields false T -> set_word T v) -> keeps b false T false v' -> (no_fields false T -> set_word T v') ->
  (forall n0, exists n, (n0 <= n)%nat /\ Marshal n (Some (T, v)) = Marshal n (Some (T, v'))) -> v = v'.
Proof.
  intros K Nw K' Nw' H. pose (it := newIter b false (mkStack [] 0)). assert (R : vreachable it) by apply vr_reachable, re_new.
  destruct (marshal_text T v it R K Nw) as (t & j & n1 & _ & H1), (marshal_text T v' it R K' Nw') as (t' & j' & n2 & _ & H2).
  destruct (H (Nat.max n1 n2)) as (n & L & En). destruct (H1 n ltac:(lia)) as [A B], (H2 n ltac:(lia)) as [A' B']. congruence.
Qed.

Section Types.
Variable loose : bool.
Variable P : bool -> ty -> Prop.
Hypothesis types : forall q t, P q t -> blind E loose P q t.
Hypothesis named : forall n, held E P (te_zero F32 F64 C E n).
(** With other white space, and for [loose] with other escapes in strings, the text is decoded to the same value. *)
Theorem C63_respelled T v it it' : vreachable it -> vreachable it' -> it_useNumber it = it_useNumber it' -> it_disallow it = it_disallow it' ->
  P false T -> keeps (it_useNumber it) false T false v -> (no_fields false T -> set_word T v) ->
  exists t n0, forall n, (n0 <= n)%nat -> Marshal n (Some (T, v)) = MOk t /\
    forall l, alike_texts loose t l -> fst (Unmarshal n T (zero T) l it') = Ok v.
Proof.
  intros R R' Hn Hd PT K Nw. destruct (marshal_text T v it R K Nw) as (t & j & n0 & _ & H). exists t, n0. intros n L. destruct (H n L) as [A B]. split; auto.
  intros l Al. apply (C59_unmarshal F32 F64 C E sf cs sane32 sane64 loose P types named n T (zero T) t l it it' v); auto. now apply held_zero.
Qed.
End Types.

Section Order.
Variable P : bool -> ty -> Prop.
Hypothesis types : forall q t, P q t -> orderless E P q t.
Hypothesis named : forall n, held E P (te_zero F32 F64 C E n).
(** With the members of its objects in another order it is decoded to the same value, up to the order of the entries of maps. *)
Theorem C63_reordered T v it it' : vreachable it -> vreachable it' -> it_useNumber it = it_useNumber it' -> it_disallow it = it_disallow it' ->
  P false T -> keeps (it_useNumber it) false T false v -> (no_fields false T -> set_word T v) ->
  exists t j n0, json_text t j /\ (forall n, (n0 <= n)%nat -> Marshal n (Some (T, v)) = MOk t) /\
    forall l j', json_text l j' -> shuffled (findField sf cs) j j' -> exists n1 v', same v v' /\ forall n, (n1 <= n)%nat -> fst (Unmarshal n T (zero T) l it') = Ok v'.
Proof.
  intros R R' Hn Hd PT K Nw. destruct (marshal_text T v it R K Nw) as (t & j & n0 & Hj & H).
  assert (J : json_text t j) by (exists [], t, []; rewrite app_nil_r; repeat split; auto; constructor). exists t, j, n0. split; auto. split; [intros n L; now apply H|].
  intros l j' J' Hs. apply (C60_unmarshal F32 F64 C E sf cs sane32 sane64 P types named n0 T (zero T) (zero T) t l it it' v j j'); auto.
  - now apply held_zero.
  - constructor.
  - now apply H.
Qed.
End Order.
End Reformat.

(** ** Examples and refutations *)
(** a map[string]interface{} *)
Definition cardT : ty := TMap KString TEface.
Definition cardSet (q : bool) (T : ty) : Prop := In (q, T) [(false, cardT); (false, TEface)].
Lemma card_orderless q T : cardSet q T -> orderless encE cardSet q T.
Proof.
  unfold cardSet. cbn [In]. intros H. split; repeat (destruct H as [[= <- <-]|H]; [|]); try contradiction; cbn; auto.
Qed.
Lemma enc_held P n : held encE P (te_zero _ _ _ encE n).
Proof. destruct n as [|[|[|[|[|n]]]]]; cbn; auto 10. Qed.
Definition card : gval textF textF demoC := VMap (Some [(KS (bs "to"), VIface (Some (TString, VStr (bs "a<b")))); (KS (bs "on"), VIface (Some (TBool, VBool true)));
  (KS [], VIface (Some (cardT, VMap (Some [(KS (bs "x"), VIface None)]))))]).
Notation ekeeps := (keeps textF textF demoC encE encU demoF demoF encF encF False false).
Lemma card_keeps : ekeeps false cardT false card.
Proof.
  unfold card, cardT. apply k_map; [exact I|exact I|names_differ|].
  apply km_more; [apply kk_str, ascii_text; reflexivity|repeat keepStep|]. apply km_more; [apply kk_str, ascii_text; reflexivity|repeat keepStep|].
  apply km_more; [apply kk_str, ascii_text; reflexivity| |constructor]. apply k_generic; [unfold generic, cardT; tauto|discriminate|discriminate|].
  apply k_map; [exact I|exact I|names_differ|]. apply km_more; [apply kk_str, ascii_text; reflexivity|apply k_iface_nil; auto|constructor].
Qed.
Definition cardText : string := "{""to"":""a\u003cb"",""on"":true,"""":{""x"":null}}".
Definition cardText2 : string := " { ""to"" : ""a<b"" , ""on"": true,"""":{ ""x"":null}} ".
Definition cardText3 : string := "{"""": {""x"":null}, ""on"":true,""to"":""a<b""}".
Definition cardM : list (bytes * jval) := [(bs "to", JStr (bs "a<b")); (bs "on", JBool true); ([], JObj [(bs "x", JNull)])].
Example C63_respelled_ex : (forall q T, cardSet q T -> blind encE true cardSet q T) /\ (forall n, held encE cardSet (te_zero _ _ _ encE n)) /\ cardSet false cardT /\
  vreachable textF textF demoC encE demoSf false used3 /\ ekeeps false cardT false card /\ ~ no_fields textF textF demoC encE encU false cardT /\
  eMarshal 9 (Some (cardT, card)) = MOk (bs cardText) /\ alike_texts true (bs cardText) (bs cardText2) /\
  fst (Unmarshal textF textF demoC encE demoSf false 9 cardT (zero _ _ _ encE cardT) (bs cardText2) used3) = Ok card.
Proof.
  split; [intros q T H; apply card_orderless in H; apply H|]. split; [apply enc_held|]. split; [now left|]. split; [apply vr_ReadVal, vr_reachable, re_ResetBytes, re_new|].
  split; [apply card_keeps|]. split; [notUser|]. split; [vm_compute; reflexivity|]. split; [|vm_compute; reflexivity].
  apply C59_alike. eexists. apply tree_texts; [vm_compute; reflexivity|]. exists [32]. split; [vm_compute; reflexivity|]. repeat constructor.
Qed.
Example C63_reordered_ex : (forall q T, cardSet q T -> orderless encE cardSet q T) /\ json_text (bs cardText) (JObj cardM) /\ json_text (bs cardText3) (JObj (rev cardM)) /\
  shuffled (findField demoSf true) (JObj cardM) (JObj (rev cardM)) /\
  exists v', fst (Unmarshal textF textF demoC encE demoSf true 9 cardT (zero _ _ _ encE cardT) (bs cardText3) used3) = Ok v' /\ v' <> card /\ same _ _ _ card v'.
Proof.
  split; [apply card_orderless|]. split; [apply tree_text; vm_compute; reflexivity|]. split; [apply tree_text; vm_compute; reflexivity|]. split.
  - apply (sh_obj _ cardM cardM); [repeat (constructor; [split; [reflexivity|apply sh_same]|]); constructor|]. apply C60_permutation; [apply Permutation_rev|names_differ|].
    intros a c _ _. apply C60_differ_exact.
  - eexists. split; [vm_compute; reflexivity|]. split; [discriminate|]. apply sv_map.
    + intros k v H. exists v. split; [|constructor]. cbn [SpecOrder.get] in *. repeat (destruct (key_eq_dec _ _); [subst; first [discriminate|assumption]|]).
      all: try discriminate; try assumption.
    + intros k H. cbn [SpecOrder.get] in *. repeat destruct (key_eq_dec _ _); try discriminate; reflexivity.
Qed.
Example C63_injective_ex : exists v, ekeeps false cardT false v /\ eMarshal 9 (Some (cardT, v)) = MOk (bs "{""x"":null}") /\
  eMarshal 9 (Some (cardT, v)) <> eMarshal 9 (Some (cardT, card)).
Proof.
  exists (VMap (Some [(KS (bs "x"), VIface None)])). split; [|split; [vm_compute; reflexivity|vm_compute; discriminate]].
  unfold cardT. apply k_map; [exact I|exact I|names_differ|]. apply km_more; [apply kk_str, ascii_text; reflexivity|apply k_iface_nil; auto|constructor].
Qed.
(** Values that are not restored may share their text: strings with bytes that are not UTF-8 *)
Theorem C63_bytes_refuted : exists v v' n t, v <> v' /\ eMarshal n (Some (TString, v)) = MOk t /\ eMarshal n (Some (TString, v')) = MOk t.
Proof. exists (VStr [255]), (VStr [254]), 9%nat. eexists. split; [discriminate|]. split; vm_compute; reflexivity. Qed.
(** json.RawMessage is not restored from a text with other white space *)
Theorem C63_raw_refuted : exists v v' n t l, ekeeps false TRaw false v /\ eMarshal n (Some (TRaw, v)) = MOk t /\ alike_texts false t l /\
  fst (Unmarshal textF textF demoC encE demoSf false n TRaw (zero _ _ _ encE TRaw) l used3) = Ok v' /\ v <> v'.
Proof.
  exists (VRaw (Some (bs "[]"))), (VRaw (Some (bs "[ ]"))), 9%nat, (bs "[]"), (bs "[ ]"). split; [apply k_raw with (JArr []); apply (v_arr0 []); constructor|].
  split; [vm_compute; reflexivity|]. split; [|split; [vm_compute; reflexivity|discriminate]].
  exists [], (bs "[]"), [], [], (bs "[ ]"), []. repeat (split; [solve [auto|constructor]|]). apply (ak_arr0 false [] [32]); now repeat constructor.
Qed.

Print Assumptions C63_injective.
Print Assumptions C63_respelled.
Print Assumptions C63_reordered.
Print Assumptions C63_bytes_refuted.
Print Assumptions C63_raw_refuted.
