(** C62: decoding a text again into the variable it was decoded into changes nothing. *)
From Coq Require Import String ZArith List Bool Lia Permutation.
From Verif Require Import Base ModelIter ModelStack ModelSkip ModelInt ModelFloat ModelRead ModelOps ModelFold ModelVal ModelDecoder Sim SimLib SimOps SimVal NumFacts StrFacts
  MachineFacts FloatFacts GrammarFacts IterFacts ValFacts DecFacts DecSound DecComplete SpecVal Spec SpecStream SpecFold FoldFacts TreeFacts SpecSpell SpellFacts SpellVal
  SpecOrder OrderFacts OrderVal SpecAgain AgainVal Properties1 Properties3 Properties4 Properties26 Properties27.
Import ListNotations.
Local Open Scope Z_scope.

Section Typed.
Variables F32 F64 : floatOps.
Variable C : custom.
Variable E : env F32 F64 C.
Variable sf : Z -> Z.
Variable cs : bool.
Notation gval := (gval F32 F64 C).
Notation Unmarshal := (Unmarshal F32 F64 C E sf cs).
Notation UnmarshalFromReader := (UnmarshalFromReader F32 F64 C E sf cs).
Notation vreachable := (vreachable F32 F64 C E sf cs).
Hypothesis sane32 : float_sane F32.
Hypothesis sane64 : float_sane F64.
Variable P : bool -> ty -> Prop.
Hypothesis types : forall q t, P q t -> steady E P q t.
Hypothesis named : forall n, held E P (te_zero F32 F64 C E n).
(** the UnmarshalText and UnmarshalJSON methods of the program do so as well *)
Hypothesis texts : forall id x s x', cu_text C id x s = inl x' -> cu_text C id x' s = inl x'.
Hypothesis jsons : forall id x t x', cu_json C id x t = inl x' -> cu_json C id x' t = inl x'.

(** Unmarshal, with any iterators that have the same options *)
Theorem C62_unmarshal n T (old : gval) data it it' v j : vreachable it -> vreachable it' ->
  it_useNumber it = it_useNumber it' -> it_disallow it = it_disallow it' -> P false T -> held E P old ->
  json_text data j -> single (findField sf cs) j ->
  fst (Unmarshal n T old data it) = Ok v -> exists n0, forall m, (n0 <= m)%nat -> fst (Unmarshal m T v data it') = Ok v.
Proof.
  intros R R' Hn Hd PT Ho J Hs H.
  destruct (proj1 (C26_unmarshal F32 F64 C E sf cs sane32 sane64 T old data it v R)) as (w1 & t & w2 & -> & H1 & H2 & D); [eauto|].
  assert (Hv := text_json F32 F64 C E _ _ sf cs _ _ _ _ _ _ _ _ H1 H2 J D).
  assert (D' := proj1 (again_decodes F32 F64 C E _ _ sf cs P types named texts jsons) _ _ _ _ _ D PT eq_refl Ho _ Hv Hs). rewrite Hn, Hd in D'.
  destruct (proj2 (C26_unmarshal F32 F64 C E sf cs sane32 sane64 T v (w1 ++ t ++ w2) it' v R')) as (m & K); [exists w1, t, w2; auto|].
  exact (C26_fuel F32 F64 C E sf cs sane32 sane64 T v _ it' v m R' K).
Qed.
(** UnmarshalFromReader, whatever pieces the readers deliver *)
Theorem C62_reader n T (old : gval) rd rd' it it' v j : vreachable it -> vreachable it' -> rd_fin rd = EEOF -> rd_fin rd' = EEOF -> rd_data rd = rd_data rd' ->
  it_useNumber it = it_useNumber it' -> it_disallow it = it_disallow it' -> P false T -> held E P old ->
  json_text (rd_data rd) j -> single (findField sf cs) j ->
  fst (UnmarshalFromReader n T old rd it) = Ok v -> exists m, fst (UnmarshalFromReader m T v rd' it') = Ok v.
Proof.
  intros R R' Hf Hf' Ed Hn Hd PT Ho J Hs H.
  destruct (proj1 (C26_reader F32 F64 C E sf cs sane32 sane64 T old rd it v R Hf)) as (w1 & t & w2 & Es & H1 & H2 & D); [eauto|]. rewrite Es in J.
  assert (Hv := text_json F32 F64 C E _ _ sf cs _ _ _ _ _ _ _ _ H1 H2 J D).
  assert (D' := proj1 (again_decodes F32 F64 C E _ _ sf cs P types named texts jsons) _ _ _ _ _ D PT eq_refl Ho _ Hv Hs). rewrite Hn, Hd in D'.
  apply (C26_reader F32 F64 C E sf cs sane32 sane64 T v rd' it' v R' Hf'). exists w1, t, w2. rewrite <- Ed. auto.
Qed.
End Typed.
Section Refresh.
Variables F32 F64 : floatOps.
Variable C : custom.
Variable E : env F32 F64 C.
Variable sf : Z -> Z.
Variable cs : bool.
Notation gval := (gval F32 F64 C).
Notation Unmarshal := (Unmarshal F32 F64 C E sf cs).
Notation vreachable := (vreachable F32 F64 C E sf cs).
Notation same := (same F32 F64 C).
Hypothesis sane32 : float_sane F32.
Hypothesis sane64 : float_sane F64.
Variable P : bool -> ty -> Prop.
(** the types of C60 *)
Hypothesis types : forall q t, P q t -> orderless E P q t.
Hypothesis named : forall n, held E P (te_zero F32 F64 C E n).
Hypothesis texts : forall id x s x', cu_text C id x s = inl x' -> cu_text C id x' s = inl x'.
Hypothesis jsons : forall id x t x', cu_json C id x t = inl x' -> cu_json C id x' t = inl x'.
(** the second text may have its members in another order, and be spelled differently *)
Theorem C62_refresh n T (old : gval) data data' it it' v j j' : vreachable it -> vreachable it' ->
  it_useNumber it = it_useNumber it' -> it_disallow it = it_disallow it' -> P false T -> held E P old ->
  json_text data j -> json_text data' j' -> single (findField sf cs) j -> shuffled (findField sf cs) j j' ->
  fst (Unmarshal n T old data it) = Ok v -> exists n0 v', same v v' /\ forall m, (n0 <= m)%nat -> fst (Unmarshal m T v data' it') = Ok v'.
Proof.
  intros R R' Hn Hd PT Ho J J' Hs Hsh H.
  destruct (C62_unmarshal F32 F64 C E sf cs sane32 sane64 P (fun q t H => orderless_steady E P q t (types q t H)) named texts jsons n T old data it it v j R R eq_refl eq_refl PT Ho J Hs H) as (n1 & K).
  assert (Hv : held E P v).
  { destruct (proj1 (C26_unmarshal F32 F64 C E sf cs sane32 sane64 T old data it v R)) as (w1 & t & w2 & _ & _ & _ & D); [eauto|].
    exact (proj1 (held_decodes F32 F64 C E _ _ sf cs P types named) _ _ _ _ _ D PT Ho). }
  exact (C60_unmarshal F32 F64 C E sf cs sane32 sane64 P types named n1 T v v data data' it it' v j j' R R' Hn Hd PT Hv (sv_same _ _ _ v) J J' Hsh (K n1 (le_n _))).
Qed.
End Refresh.

(** ** Texts in which no field is written twice *)
(** with CaseSensitive: the names of an object are all different *)
Fixpoint distinct (j : jval) : Prop :=
  match j with
  | JArr l => (fix go l := match l with [] => True | j :: r => distinct j /\ go r end) l
  | JObj ms => NoDup (map fst ms) /\ (fix go ms := match ms with [] => True | m :: r => distinct (snd m) /\ go r end) ms
  | _ => True
  end.
Lemma pairs_differ lookup {A} (ms : list (bytes * A)) : NoDup (map fst ms) -> (forall k k', In k (map fst ms) -> In k' (map fst ms) -> k <> k' -> differ lookup k k') ->
  ForallOrdPairs (fun a c => differ lookup (fst a) (fst c)) ms.
Proof.
  induction ms as [|m ms IH]; cbn [map]; intros N D; [constructor|]. inversion N as [|? ? Ni N']; subst. constructor.
  - apply Forall_forall. intros c Hc. apply (in_map fst) in Hc. apply D; [now left|now right|]. intros Ec. apply Ni. now rewrite Ec.
  - apply IH; auto. intros k k' Hk Hk'. apply D; now right.
Qed.
Theorem C62_distinct sf j : distinct j -> single (findField sf true) j.
Proof.
  induction j as [| | | |l IH|ms IH] using jval_ind2; intros H; try constructor.
  - induction IH as [|x l Hx _ IHl]; constructor; destruct H; auto.
  - destruct H as [N _]. apply pairs_differ; auto. intros k k' _ _. apply C60_differ_exact.
  - destruct H as [_ H]. induction IH as [|x ms Hx _ IHl]; constructor; destruct H; auto.
Qed.
(** by default: no two names of an object are equal under case folding *)
Theorem C62_folded Ef sf cs ms : folding Ef -> walks Ef sf -> NoDup (map fst ms) -> Forall is_bytes (map fst ms) -> Forall no_special (map fst ms) ->
  (forall k k', In k (map fst ms) -> In k' (map fst ms) -> k <> k' -> ~ fold_equal Ef k k') -> Forall (fun m => single (findField sf cs) (snd m)) ms ->
  single (findField sf cs) (JObj ms).
Proof.
  intros FO WK N B Sp D H. constructor; auto. apply pairs_differ; auto. rewrite Forall_forall in B, Sp. intros k k' Hk Hk' Nk. apply (C60_differ Ef); auto.
Qed.

(** ** Examples and refutations *)
Lemma demo_texts id x s x' : cu_text demoC id x s = inl x' -> cu_text demoC id x' s = inl x'.
Proof. cbn. destruct (bytes_eqb s (bs "bad")); auto. Qed.
Lemma demo_jsons id x t x' : cu_json demoC id x t = inl x' -> cu_json demoC id x' t = inl x'. Proof. auto. Qed.
Lemma order_single : single (findField noFold true) (JObj membersA).
Proof. apply C62_distinct. cbn [distinct membersA anyA rowsA nextA innerA snd fst map]. repeat split; auto; names_differ. Qed.
Definition menuOld : dval := VStruct [VInt 1; VPtr (Some (VStruct [VInt 9; VPtr (Some (VStruct [VInt 8; VPtr None]))])); VObj (bs "then" : cu_state demoC); VIface (Some (TString, VStr (bs "s")));
  VMap (Some [(KS (bs "l"), VArr [VFloat64 ((false, []) : fl textF); VFloat64 ((false, []) : fl textF)]); (KS (bs "z"), VArr [VFloat64 ((false, []) : fl textF); VFloat64 ((false, []) : fl textF)])])].
Example C62_unmarshal_ex : (forall q T, menuSet q T -> steady demoE menuSet q T) /\ (forall n, held demoE menuSet (te_zero _ _ _ demoE n)) /\
  (forall id x s x', cu_text demoC id x s = inl x' -> cu_text demoC id x' s = inl x') /\ (forall id x t x', cu_json demoC id x t = inl x' -> cu_json demoC id x' t = inl x') /\
  menuSet false menuT /\ held demoE menuSet menuOld /\ vreachable textF textF demoC demoE noFold true (used2 false) /\
  json_text (bs orderA) (JObj membersA) /\ single (findField noFold true) (JObj membersA) /\
  exists v, fst (dUnmarshal 9 menuT menuOld (bs orderA) (used2 false)) = Ok v /\ fst (dUnmarshal 9 menuT v (bs orderA) (used2 false)) = Ok v /\ v <> menuOld.
Proof.
  split; [intros q T H; apply orderless_steady, menu_orderless, H|]. split; [apply demo_held|]. split; [apply demo_texts|]. split; [apply demo_jsons|]. split; [left; reflexivity|]. split; [cbn; auto 10|]. split; [apply reachable_used2|].
  split; [apply order_texts|]. split; [apply order_single|]. eexists. split; [vm_compute; reflexivity|]. split; [vm_compute; reflexivity|]. discriminate.
Qed.
(** type deed struct { ID int8 `json:"id,string"`; On bool `json:"on,string"`; Raw json.RawMessage `json:"raw"`; J custom `json:"j"`; N json.Number; By map[int8]bool }
    where custom has an UnmarshalJSON method *)
Definition deedFields : list (field ty) :=
  [mkField (bs "id") [HField 0] true false (TInt true W8); mkField (bs "on") [HField 1] true false TBool; mkField (bs "raw") [HField 2] false false TRaw;
   mkField (bs "j") [HField 3] false false (TJson 1); mkField (bs "N") [HField 4] false false TNumber; mkField (bs "By") [HField 5] false false (TMap (KInt true W8) TBool)].
Definition deedT : ty := TStruct [TInt true W8; TBool; TRaw; TJson 1; TNumber; TMap (KInt true W8) TBool] deedFields.
Definition deedSet (q : bool) (T : ty) : Prop :=
  In (q, T) [(false, deedT); (true, TInt true W8); (true, TBool); (false, TRaw); (false, TJson 1); (false, TNumber); (false, TMap (KInt true W8) TBool); (false, TBool)].
Lemma deed_steady q T : deedSet q T -> steady demoE deedSet q T.
Proof.
  unfold deedSet. cbn [In]. intros H. repeat (destruct H as [[= <- <-]|H]; [|]); try contradiction; cbn [steady deedT]; auto 20.
  split; [unfold deedFields; repeat (constructor; [cbn; auto 20|]); constructor|]. split; [unfold deedFields; cbn [map f_name]; names_differ|].
  split; [unfold deedFields; cbn [map f_name]; repeat constructor; unfold is_byte; lia|].
  intros i j fi fj N Hi Hj. destruct i as [|[|[|[|[|[|i]]]]]], j as [|[|[|[|[|[|j]]]]]]; cbn in Hi, Hj; try contradiction;
    try (destruct i; discriminate); try (destruct j; discriminate); injection Hi as <-; injection Hj as <-; constructor; discriminate.
Qed.
Definition deedText : string := "{""id"":""-7"",""on"":"" true"",""raw"":[ 1,2],""j"":{""a"" :1},""N"":""12"",""By"":{""2"":true}}".
Definition deedVal : jval := JObj [(bs "id", JStr (bs "-7")); (bs "on", JStr (bs " true")); (bs "raw", JArr [JNum (bs "1"); JNum (bs "2")]); (bs "j", JObj [(bs "a", JNum (bs "1"))]);
  (bs "N", JStr (bs "12")); (bs "By", JObj [(bs "2", JBool true)])].
Example C62_unmarshal_deed : (forall q T, deedSet q T -> steady demoE deedSet q T) /\ deedSet false deedT /\ ~ orderless demoE deedSet false TRaw /\
  json_text (bs deedText) deedVal /\ single (findField noFold true) deedVal /\
  exists v, fst (dUnmarshal 9 deedT (zero _ _ _ demoE deedT) (bs deedText) (used2 false)) = Ok v /\ fst (dUnmarshal 9 deedT v (bs deedText) (used2 false)) = Ok v /\ v <> zero _ _ _ demoE deedT.
Proof.
  split; [apply deed_steady|]. split; [left; reflexivity|]. split; [intros [[] _]|]. split; [apply tree_text; vm_compute; reflexivity|].
  split; [apply C62_distinct; cbn [distinct deedVal snd fst map]; repeat split; auto; names_differ|].
  eexists. split; [vm_compute; reflexivity|]. split; [vm_compute; reflexivity|]. discriminate.
Qed.
Example C62_reader_ex : exists v, fst (UnmarshalFromReader textF textF demoC demoE noFold true 9 menuT menuOld (pieces orderA) (used2 false)) = Ok v /\
  fst (UnmarshalFromReader textF textF demoC demoE noFold true 9 menuT v (mkReader (bs orderA) [(1%nat, false); (0%nat, false)] EEOF) (used2 false)) = Ok v /\
  rd_fin (pieces orderA) = EEOF /\ json_text (rd_data (pieces orderA)) (JObj membersA) /\ v <> menuOld.
Proof. eexists. split; [vm_compute; reflexivity|]. split; [vm_compute; reflexivity|]. split; [reflexivity|]. split; [apply order_texts|discriminate]. Qed.
Example C62_refresh_ex : json_text (bs orderB) (JObj membersB) /\ shuffled (findField noFold true) (JObj membersA) (JObj membersB) /\ membersA <> membersB /\
  exists v, fst (dUnmarshal 9 menuT menuOld (bs orderA) (used2 false)) = Ok v /\ exists v', fst (dUnmarshal 9 menuT v (bs orderB) (used2 false)) = Ok v'.
Proof.
  split; [apply order_texts|]. split; [apply order_shuffled|]. split; [discriminate|]. eexists. split; [vm_compute; reflexivity|]. eexists. vm_compute. reflexivity.
Qed.
Example C62_distinct_ex : distinct (JObj membersA) /\ ~ distinct (JArr [JObj [(bs "a", JNull); (bs "a", JNull)]]).
Proof.
  split; [cbn [distinct membersA anyA rowsA nextA innerA snd fst map]; repeat split; auto; names_differ|]. cbn. intros [[N _] _]. inversion N as [|? ? K _]. apply K. now left.
Qed.
Example C62_folded_ex : folding Properties3.demoE /\ walks Properties3.demoE demoSf /\ single (findField demoSf false) (JObj [(bs "Size", JNull); (bs "at", JBool true)]).
Proof.
  assert (A1 : ascii (bs "Size")) by (repeat constructor; lia). assert (A2 : ascii (bs "at")) by (repeat constructor; lia).
  split; [apply demo_folding|]. split; [apply demo_walks|]. apply (C62_folded Properties3.demoE); [apply demo_folding|apply demo_walks| | | | |].
  - names_differ.
  - repeat constructor; unfold is_byte; lia.
  - constructor; [exact (proj1 (ascii_differ _ _ A1 A2))|]. constructor; [exact (proj1 (ascii_differ _ _ A2 A1))|constructor].
  - intros k k' Hk Hk' N. cbn [map fst In] in Hk, Hk'. destruct Hk as [<-|[<-|[]]], Hk' as [<-|[<-|[]]]; try contradiction.
    + apply (proj2 (ascii_differ _ _ A1 A2)). discriminate.
    + apply (proj2 (ascii_differ _ _ A2 A1)). discriminate.
  - repeat constructor.
Qed.
(** A field that is written twice: struct { I fmt.Stringer `json:"i"` } that holds a pointer.  The text is accepted once only, as its first
    decoding ends with a nil interface that has no methods to decode into. *)
Definition plugT : ty := TStruct [TIface] [mkField (bs "i") [HField 0] false false TIface].
Definition plug (x : option (ty * dval)) : dval := VStruct [VIface x].
Definition plugSet (q : bool) (T : ty) : Prop := In (q, T) [(false, plugT); (false, TIface); (false, TInt true W8)].
Lemma plug_orderless q T : plugSet q T -> orderless demoE plugSet q T.
Proof.
  unfold plugSet. cbn [In]. intros H. split.
  - repeat (destruct H as [[= <- <-]|H]; [|]); try contradiction; cbn [blind]; auto. unfold plugT. cbn [blind]. constructor; [cbn; auto|constructor].
  - repeat (destruct H as [[= <- <-]|H]; [|]); try contradiction; cbn; auto.
    split; [names_differ|]. split; [repeat constructor; unfold is_byte; lia|]. intros [|i] [|j] fi fj N; cbn; try contradiction; destruct i || destruct j; discriminate.
Qed.
Theorem C62_twice_refuted : ~ (forall (E : env textF textF demoC) sf cs (P : bool -> ty -> Prop) n T old data it v j,
  (forall q t, P q t -> orderless E P q t) -> (forall n, held E P (te_zero _ _ _ E n)) -> vreachable _ _ _ E sf cs it -> P false T -> held E P old -> json_text data j ->
  fst (Unmarshal _ _ _ E sf cs n T old data it) = Ok v -> exists m, fst (Unmarshal _ _ _ E sf cs m T v data it) = Ok v).
Proof.
  intros H. destruct (H demoE noFold true plugSet 9%nat plugT (plug (Some (TPtr (TInt true W8), VPtr (Some (VInt 0))))) (bs "{""i"":5,""i"":null}") (used2 false) (plug None)
    (JObj [(bs "i", JNum (bs "5")); (bs "i", JNull)])) as (m & K).
  - apply plug_orderless.
  - apply demo_held.
  - apply reachable_used2.
  - now left.
  - cbn. split; [split; [|exact I]|exact I]. intros t' [= <-]. right. right. now left.
  - apply tree_text. vm_compute. reflexivity.
  - vm_compute. reflexivity.
  - destruct (C26_fuel textF textF demoC demoE noFold true textF_sane textF_sane _ _ _ _ _ _ (reachable_used2 false) K) as (n0 & K').
    specialize (K' (n0 + 9)%nat ltac:(lia)). replace (n0 + 9)%nat with (S (S (S (S (S (S (S (S (S n0))))))))) in K' by lia. vm_compute in K'. discriminate.
Qed.
(** An UnmarshalText method, and an UnmarshalJSON method, that append *)
Definition growC : custom := mkCustom bytes (fun _ => []) (fun _ x t => inl (x ++ t)) (fun _ x t => inl (x ++ t)) (fun _ x => KS x).
Definition growE : env textF textF growC := mkEnv _ _ _ (fun _ => TBad) (fun _ => VBool false).
Definition growSet (q : bool) (T : ty) : Prop := q = false /\ (T = TText 0 \/ T = TJson 0).
Lemma grow_steady q t : growSet q t -> steady growE growSet q t. Proof. intros [-> [->| ->]]; exact I. Qed.
Definition grown (s : string) : gval textF textF growC := VObj (bs s : cu_state growC).
Theorem C62_text_refuted : exists (P : bool -> ty -> Prop) n T old data it v v' j,
  (forall q t, P q t -> orderless growE P q t) /\ (forall n, held growE P (te_zero _ _ _ growE n)) /\ vreachable _ _ _ growE noFold true it /\ P false T /\ held growE P old /\
  json_text data j /\ single (findField noFold true) j /\ fst (Unmarshal _ _ _ growE noFold true n T old data it) = Ok v /\
  fst (Unmarshal _ _ _ growE noFold true n T v data it) = Ok v' /\ v <> v'.
Proof.
  exists (fun q T => (q, T) = (false, TText 0)), 9%nat, (TText 0), (grown ""), (bs """ab"""), (newIter false false (mkStack [5; 7] 0)), (grown "ab"), (grown "abab"), (JStr (bs "ab")).
  split. { intros q t [= -> ->]. split; exact I. } split; [intros n; exact I|]. split; [apply vr_reachable, re_new|]. split; [reflexivity|]. split; [exact I|].
  split; [apply tree_text; vm_compute; reflexivity|]. split; [constructor|]. split; [vm_compute; reflexivity|]. split; [vm_compute; reflexivity|]. discriminate.
Qed.
Theorem C62_json_refuted : exists (P : bool -> ty -> Prop) n T old data it v v' j,
  (forall q t, P q t -> steady growE P q t) /\ (forall n, held growE P (te_zero _ _ _ growE n)) /\ vreachable _ _ _ growE noFold true it /\ P false T /\ held growE P old /\
  json_text data j /\ single (findField noFold true) j /\ fst (Unmarshal _ _ _ growE noFold true n T old data it) = Ok v /\
  fst (Unmarshal _ _ _ growE noFold true n T v data it) = Ok v' /\ v <> v'.
Proof.
  exists growSet, 9%nat, (TJson 0), (grown ""), (bs "12"), (newIter false false (mkStack [5; 7] 0)), (grown "12"), (grown "1212"), (JNum (bs "12")).
  split; [apply grow_steady|]. split; [intros n; exact I|]. split; [apply vr_reachable, re_new|]. split; [split; auto|]. split; [exact I|].
  split; [apply tree_text; vm_compute; reflexivity|]. split; [constructor|]. split; [vm_compute; reflexivity|]. split; [vm_compute; reflexivity|]. discriminate.
Qed.

Print Assumptions C62_unmarshal.
Print Assumptions C62_reader.
Print Assumptions C62_refresh.
Print Assumptions C62_distinct.
Print Assumptions C62_folded.
Print Assumptions C62_twice_refuted.
Print Assumptions C62_text_refuted.
Print Assumptions C62_json_refuted.
