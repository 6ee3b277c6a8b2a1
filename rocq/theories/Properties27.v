(** C60: the order of the members of an object does not matter. *)
From Coq Require Import String ZArith List Bool Lia Permutation.
From Verif Require Import Base ModelIter ModelStack ModelSkip ModelInt ModelFloat ModelRead ModelOps ModelFold ModelVal ModelDecoder Sim SimLib SimOps SimVal NumFacts StrFacts
  MachineFacts FloatFacts GrammarFacts IterFacts ValFacts DecFacts DecSound DecComplete SpecVal Spec SpecStream SpecFold FoldFacts TreeFacts SpecSpell SpellFacts SpellVal
  SpecOrder OrderFacts OrderVal Properties1 Properties3 Properties4 Properties26
  ModelStruct SpecStruct DescFacts DescSearch Properties7.
Import ListNotations.
Local Open Scope Z_scope.

(** ** Names that stand for different fields *)
Lemma findField_matches Ef sf cs names k i : folding Ef -> walks Ef sf -> NoDup names -> Forall is_bytes names -> is_bytes k -> no_special k ->
  findField sf cs names k = Some i -> matches Ef names k cs i.
Proof.
  intros FO WK N B Bk Sk H. destruct names as [|n [|n2 r]]; cbn [findField] in H; [discriminate| |].
  - inversion B; subst. now apply (findOne_spec Ef sf FO WK) in H.
  - destruct (_ <=? _)%nat; [now apply (findSmall_spec Ef sf FO WK) in H|now apply (findLarge_spec Ef sf FO WK) in H].
Qed.
Lemma fold_common Ef n k k' : folding Ef -> is_bytes n -> is_bytes k -> is_bytes k' -> fold_equal Ef n k -> fold_equal Ef n k' -> fold_equal Ef k k'.
Proof.
  intros FO Bn Bk Bk' H H'. apply fold_equal_runes in H, H'; auto. apply fold_equal_runes; auto. clear - FO H H'. revert H'. generalize (TagFacts.runes k'). induction H as [|a c l l' Hac H IH]; intros r H'; inversion H'; subst; constructor.
  - eapply (fo_trans _ FO); [apply (fo_sym _ FO); eassumption|]. assumption.
  - now apply IH.
Qed.
(** Names that are not equal under case folding *)
Theorem C60_differ Ef sf cs k k' : folding Ef -> walks Ef sf -> is_bytes k -> is_bytes k' -> no_special k -> no_special k' -> ~ fold_equal Ef k k' ->
  differ (findField sf cs) k k'.
Proof.
  intros FO WK Bk Bk' Sk Sk' N. split; [intros ->; apply N; now apply fold_refl|]. intros names i Nd B H H'.
  apply (findField_matches Ef) in H, H'; auto. apply N.
  assert (G : forall x, is_bytes x -> matches Ef names x cs i -> exists n, nth_error names i = Some n /\ fold_equal Ef n x).
  { intros x Bx [K|[_ (_ & K & _)]]; [exists x; split; [exact K|now apply fold_refl]|exact K]. }
  destruct (G _ Bk H) as (n & A & F), (G _ Bk' H') as (n' & A' & F'). rewrite A in A'. injection A' as <-.
  assert (Bn : is_bytes n) by (eapply (proj1 (Forall_forall _ _) B); eapply nth_error_In; eauto). eapply fold_common; eauto.
Qed.
(** with CaseSensitive all different names *)
Lemma firstIndex_exact names k i : firstIndex (fun n => bytes_eqb n k) names = Some i -> nth_error names i = Some k.
Proof. intros H. apply firstIndex_some in H. destruct H as [(n & A & B) _]. apply TagFacts.bytes_eqb_iff in B. now subst. Qed.
Theorem C60_differ_exact sf k k' : k <> k' -> differ (findField sf true) k k'.
Proof.
  intros N. split; [exact N|]. intros names i Nd B H H'.
  assert (G : forall x, findField sf true names x = Some i -> nth_error names i = Some x).
  { intros x K. destruct names as [|n [|n2 r]]; cbn [findField] in K; [discriminate| |].
    - apply findOne_exact in K. destruct K as [-> ->]. reflexivity.
    - destruct (_ <=? _)%nat.
      + unfold findSmall in K. destruct (firstIndex (fun n => bytes_eqb n x) (n :: n2 :: r)) eqn:Ef; [|discriminate]. injection K as <-. now apply firstIndex_exact.
      + unfold findLarge in K. destruct (df_build_spec sf (n :: n2 :: r)) as (_ & H2 & _ & _). destruct (indexGet _ x) eqn:Ei; [|discriminate]. injection K as <-. now apply H2 in Ei. }
  assert (A := G _ H). assert (A' := G _ H'). congruence.
Qed.

(** ** Permutations of members *)
Section Perm.
Variable lookup : list bytes -> bytes -> option nat.
Lemma reordered_trans {A} (l l1 l2 : list (bytes * A)) : reordered lookup l l1 -> reordered lookup l1 l2 -> reordered lookup l l2.
Proof. induction 1; auto. intros K. eapply ro_swap; eauto. Qed.
Lemma reordered_cons {A} x (l l' : list (bytes * A)) : reordered lookup l l' -> reordered lookup (x :: l) (x :: l').
Proof. induction 1 as [l|l1 a c l2 l D _ IH]; [constructor|]. exact (ro_swap lookup (x :: l1) a c l2 _ D IH). Qed.
(** members with names that differ, in any order *)
Theorem C60_permutation {A} (l l' : list (bytes * A)) : Permutation l l' -> NoDup (map fst l) ->
  (forall a c, In a l -> In c l -> fst a <> fst c -> differ lookup (fst a) (fst c)) -> reordered lookup l l'.
Proof.
  induction 1 as [|x l l' H IH|x y l|l l1 l2 H1 IH1 H2 IH2]; intros N D.
  - constructor.
  - apply reordered_cons. cbn [map] in N. inversion N; subst. apply IH; auto. intros a c Ha Hc. apply D; now right.
  - apply (ro_swap lookup [] y x l); [|constructor]. cbn [map] in N. inversion N; subst. apply D; [now left|right; now left|]. intros K. apply H1. left. auto.
  - eapply reordered_trans; [apply IH1; auto|]. apply IH2.
    + eapply Permutation_NoDup; [apply Permutation_map; exact H1|exact N].
    + intros a c Ha Hc. apply D; (eapply Permutation_in; [apply Permutation_sym; exact H1|assumption]).
Qed.
Lemma differ_sym k k' : differ lookup k k' -> differ lookup k' k.
Proof. intros [N D]. split; [auto|]. intros names i Nd B H H'. eapply D; eauto. Qed.
Lemma reordered_sym {A} (l l' : list (bytes * A)) : reordered lookup l l' -> reordered lookup l' l.
Proof.
  induction 1 as [l|l1 a c l2 l D _ IH]; [constructor|]. eapply reordered_trans; [exact IH|]. eapply ro_swap; [now apply differ_sym|constructor].
Qed.
Lemma reordered_pointwise {A} (R : A -> A -> Prop) (l l1 l' : list (bytes * A)) : reordered lookup l1 l' -> Forall2 (fun p q => fst p = fst q /\ R (snd p) (snd q)) l l1 ->
  exists l2, reordered lookup l l2 /\ Forall2 (fun p q => fst p = fst q /\ R (snd p) (snd q)) l2 l'.
Proof.
  intros H. revert l. induction H as [l0|l1 a c l2 l0 D _ IH]; intros l K; [exists l; split; [constructor|auto]|].
  apply Forall2_app_inv_r in K. destruct K as (q1 & q2 & K1 & K2 & ->). inversion K2 as [|a' ? q3 ? Ha K3]; subst. inversion K3 as [|c' ? q4 ? Hc K4]; subst.
  destruct (IH (q1 ++ c' :: a' :: q4)) as (l3 & A1 & A2); [apply Forall2_app; auto|]. exists l3. split; auto.
  eapply ro_swap; [|exact A1]. destruct Ha as [-> _], Hc as [-> _]. exact D.
Qed.
Lemma shuffled_sym : forall j j', shuffled lookup j j' -> shuffled lookup j' j.
Proof.
  induction j as [| | | |l IH|ms IH] using jval_ind2; intros j' H; inversion H as [|? l' Hl|? ms1 ms' Hm Hr]; subst; try constructor.
  - clear H. induction Hl as [|x y l l' Hx Hl IHl]; [constructor|]. inversion IH; subst. constructor; auto.
  - destruct (reordered_pointwise _ _ _ _ Hr Hm) as (ms2 & A & B). apply (sh_obj lookup ms' ms2); [|now apply reordered_sym].
    assert (IH2 : Forall (fun p => forall j', shuffled lookup (snd p) j' -> shuffled lookup j' (snd p)) ms2).
    { clear - IH A. induction A as [l|l1 a c l2 l D _ IHr]; auto. apply IHr. apply Forall_app in IH. destruct IH as [I1 I2]. inversion I2 as [|? ? Ia I3]; subst. inversion I3; subst.
      apply Forall_app. split; auto. }
    clear - IH2 B. induction B as [|p q l l' [Hp Hq] B IHB]; [constructor|]. inversion IH2; subst. constructor; [split; auto|auto].
Qed.
End Perm.

Section Typed.
Variables F32 F64 : floatOps.
Variable C : custom.
Variable E : env F32 F64 C.
Variable sf : Z -> Z.
Variable cs : bool.
Notation gval := (gval F32 F64 C).
Notation Unmarshal := (Unmarshal F32 F64 C E sf cs).
Notation UnmarshalFromReader := (UnmarshalFromReader F32 F64 C E sf cs).
Notation vreachable := (vreachable F32 F64 C E sf cs).
Notation same := (same F32 F64 C).
Hypothesis sane32 : float_sane F32.
Hypothesis sane64 : float_sane F64.
Variable P : bool -> ty -> Prop.
Hypothesis types : forall q t, P q t -> orderless E P q t.
Hypothesis named : forall n, held E P (te_zero F32 F64 C E n).

Lemma shuffled_decodes un dis T (old old' : gval) t t' v j j' : P false T -> held E P old -> same old old' -> value t j -> value t' j' -> shuffled (findField sf cs) j j' ->
  decodes F32 F64 C E (findField sf cs) un dis T noOpts old t v -> exists v', decodes F32 F64 C E (findField sf cs) un dis T noOpts old' t' v' /\ same v v'.
Proof.
  intros PT Ho S Hv Hv' Hs Hd. apply (proj1 (order_decodes F32 F64 C E un dis sf cs sane32 sane64 P types named) _ _ _ _ _ Hd PT eq_refl Ho t' old'); [exists j, j'; auto|exact S].
Qed.
(** a value that is decoded from a text with a JSON value is decoded from its only value *)
Lemma text_value un dis T (old : gval) w1 t w2 v j : P false T -> held E P old -> ws w1 -> ws w2 -> json_text (w1 ++ t ++ w2) j ->
  decodes F32 F64 C E (findField sf cs) un dis T noOpts old t v -> value t j.
Proof.
  intros PT Ho H1 H2 (w & s & w' & Es & Hw & Hv & Hw') Hd.
  assert (W := decodes_whole F32 F64 C E un dis sf cs sane32 sane64 P types named _ _ _ _ _ Hd PT eq_refl Ho).
  destruct (W w w1 s j (w' ++ [44]) (w2 ++ [44]) Hw H1 Hv) as [<- _]; [apply ws_sep; auto|apply ws_sep; auto| |exact Hv].
  rewrite !app_assoc in *. now rewrite Es.
Qed.
(** Unmarshal: the same value, up to the order of the entries of maps.  The variable may hold such values as well. *)
Theorem C60_unmarshal n T (old old' : gval) data data' it it' v j j' : vreachable it -> vreachable it' ->
  it_useNumber it = it_useNumber it' -> it_disallow it = it_disallow it' -> P false T -> held E P old -> same old old' ->
  json_text data j -> json_text data' j' -> shuffled (findField sf cs) j j' ->
  fst (Unmarshal n T old data it) = Ok v -> exists n0 v', same v v' /\ forall m, (n0 <= m)%nat -> fst (Unmarshal m T old' data' it') = Ok v'.
Proof.
  intros R R' Hn Hd PT Ho S J J' Hs H.
  destruct (proj1 (C26_unmarshal F32 F64 C E sf cs sane32 sane64 T old data it v R)) as (w1 & t & w2 & -> & H1 & H2 & D); [eauto|].
  assert (Hv := text_value _ _ _ _ _ _ _ _ _ PT Ho H1 H2 J D). destruct J' as (w & t' & w' & -> & Hw & Hv' & Hw').
  destruct (shuffled_decodes _ _ _ _ _ _ _ _ _ _ PT Ho S Hv Hv' Hs D) as (v' & D' & S'). rewrite Hn, Hd in D'.
  destruct (proj2 (C26_unmarshal F32 F64 C E sf cs sane32 sane64 T old' (w ++ t' ++ w') it' v' R')) as (m & K); [exists w, t', w'; auto|].
  destruct (C26_fuel F32 F64 C E sf cs sane32 sane64 T old' _ it' v' m R' K) as (n0 & K'). eauto.
Qed.
(** UnmarshalFromReader, whatever pieces the readers deliver *)
Theorem C60_reader n T (old old' : gval) rd rd' it it' v j j' : vreachable it -> vreachable it' -> rd_fin rd = EEOF -> rd_fin rd' = EEOF ->
  it_useNumber it = it_useNumber it' -> it_disallow it = it_disallow it' -> P false T -> held E P old -> same old old' ->
  json_text (rd_data rd) j -> json_text (rd_data rd') j' -> shuffled (findField sf cs) j j' ->
  fst (UnmarshalFromReader n T old rd it) = Ok v -> exists m v', same v v' /\ fst (UnmarshalFromReader m T old' rd' it') = Ok v'.
Proof.
  intros R R' Hf Hf' Hn Hd PT Ho S J J' Hs H.
  destruct (proj1 (C26_reader F32 F64 C E sf cs sane32 sane64 T old rd it v R Hf)) as (w1 & t & w2 & Es & H1 & H2 & D); [eauto|]. rewrite Es in J.
  assert (Hv := text_value _ _ _ _ _ _ _ _ _ PT Ho H1 H2 J D). destruct J' as (w & t' & w' & Es' & Hw & Hv' & Hw').
  destruct (shuffled_decodes _ _ _ _ _ _ _ _ _ _ PT Ho S Hv Hv' Hs D) as (v' & D' & S'). rewrite Hn, Hd in D'.
  destruct (proj2 (C26_reader F32 F64 C E sf cs sane32 sane64 T old' rd' it' v' R' Hf')) as (m & K); [exists w, t', w'; auto|]. eauto.
Qed.
(** one order is accepted if the other is *)
Theorem C60_accepted T (old : gval) data data' it it' j j' : vreachable it -> vreachable it' ->
  it_useNumber it = it_useNumber it' -> it_disallow it = it_disallow it' -> P false T -> held E P old ->
  json_text data j -> json_text data' j' -> shuffled (findField sf cs) j j' ->
  ((exists n v, fst (Unmarshal n T old data it) = Ok v) <-> (exists n v, fst (Unmarshal n T old data' it') = Ok v)).
Proof.
  intros R R' Hn Hd PT Ho J J' Hs. split; intros (n & v & H).
  - destruct (C60_unmarshal n T old old data data' it it' v j j') as (n0 & v' & _ & K); auto; [constructor|]. exists n0, v'. auto.
  - destruct (C60_unmarshal n T old old data' data it' it v j' j) as (n0 & v' & _ & K); auto; [constructor|now apply shuffled_sym|]. exists n0, v'. auto.
Qed.
(** The members of an object in any order, for names that are not equal under case folding *)
Theorem C60_object Ef n T (old : gval) data data' it it' v ms ms' : folding Ef -> walks Ef sf -> vreachable it -> vreachable it' ->
  it_useNumber it = it_useNumber it' -> it_disallow it = it_disallow it' -> P false T -> held E P old ->
  json_text data (JObj ms) -> json_text data' (JObj ms') -> Permutation ms ms' -> NoDup (map fst ms) ->
  Forall is_bytes (map fst ms) -> Forall no_special (map fst ms) ->
  (forall k k', In k (map fst ms) -> In k' (map fst ms) -> k <> k' -> ~ fold_equal Ef k k') ->
  fst (Unmarshal n T old data it) = Ok v -> exists m v', same v v' /\ fst (Unmarshal m T old data' it') = Ok v'.
Proof.
  intros FO WK R R' Hn Hd PT Ho J J' Pm N B Sp Nf H.
  destruct (C60_unmarshal n T old old data data' it it' v _ _ R R' Hn Hd PT Ho (sv_same _ _ _ old) J J') as (n0 & v' & S & K); [|exact H|exists n0, v'; auto].
  apply (sh_obj _ ms ms); [clear; induction ms; constructor; [split; [auto|constructor]|auto]|]. apply C60_permutation; auto.
  intros a c Ha Hc Hac. apply (in_map fst) in Ha, Hc. rewrite Forall_forall in B, Sp. apply (C60_differ Ef); auto.
Qed.
(** with CaseSensitive, for all names *)
Theorem C60_object_exact n T (old : gval) data data' it it' v ms ms' : cs = true -> vreachable it -> vreachable it' ->
  it_useNumber it = it_useNumber it' -> it_disallow it = it_disallow it' -> P false T -> held E P old ->
  json_text data (JObj ms) -> json_text data' (JObj ms') -> Permutation ms ms' -> NoDup (map fst ms) ->
  fst (Unmarshal n T old data it) = Ok v -> exists m v', same v v' /\ fst (Unmarshal m T old data' it') = Ok v'.
Proof.
  intros Hc R R' Hn Hd PT Ho J J' Pm N H.
  destruct (C60_unmarshal n T old old data data' it it' v _ _ R R' Hn Hd PT Ho (sv_same _ _ _ old) J J') as (n0 & v' & S & K); [|exact H|exists n0, v'; auto].
  apply (sh_obj _ ms ms); [clear; induction ms; constructor; [split; [auto|constructor]|auto]|]. apply C60_permutation; auto.
  intros a c _ _ Hac. rewrite Hc. now apply C60_differ_exact.
Qed.
End Typed.

(** ** The fields of a described struct do not overlap *)
Section Described.
Variable R : nat -> rtyp.
Variables isLetter isDigit : Z -> bool.
Variable onlyTaggedField : bool.
Variable sort : (dfield -> dfield -> bool) -> list dfield -> list dfield.
Hypothesis sort_ok : sorts sort.
Hypothesis tag_bytes : forall t sf tag, In sf (rt_fields (R t)) -> sf_tag sf = Some tag -> is_bytes tag.
Notation route := (SpecStruct.route R isLetter isDigit onlyTaggedField).
Notation describeStruct := (describeStruct R isLetter isDigit onlyTaggedField sort).
Lemma route_front st p q : forall t o, route st (p ++ q) t o -> exists u o', route st p u o'.
Proof.
  induction q as [|x q IH] using rev_ind; intros t o H; [rewrite app_nil_r in H; eauto|]. rewrite app_assoc in H.
  destruct (route_prefix _ _ _ _ _ _ _ _ _ H) as (u & o' & H'). eauto.
Qed.
Lemma no_route_through st fd : is_candidate R isLetter isDigit onlyTaggedField st fd -> forall q t o, ~ route st (d_index fd ++ q) t o.
Proof.
  intros (t & i & H) q t' o K. apply route_front in K. destruct K as (u & o' & K). destruct H as [p offs z r sf label opts u' quoted omit Hr Hn Hd Hb Hq Ho]. cbn [d_index] in K.
  assert (G : exists t0 o0 sf0, route st p t0 o0 /\ nth_error (rt_fields (R t0)) i = Some sf0 /\ exists u0, embeds R isLetter isDigit onlyTaggedField sf0 u0).
  { remember (p ++ [i]) as pi eqn:Ep. destruct K as [|p0 t0 offs0 o0 r0 i0 sf0 u0 A B D _|p0 t0 offs0 o0 r0 i0 sf0 u0 A B D _]; [destruct p; discriminate| |];
      apply app_inj_tail in Ep; destruct Ep as [-> ->]; eauto 9. }
  destruct G as (t0 & o0 & sf0 & A & B & D). destruct (route_fun R isLetter isDigit onlyTaggedField tag_bytes _ _ _ _ _ _ A Hr) as [-> _].
  rewrite Hn in B. injection B as <-. now apply Hd.
Qed.
Lemma index_lt_parts a b : index_lt a b -> (exists x r, b = a ++ x :: r) \/ exists q i j r r', a = q ++ i :: r /\ b = q ++ j :: r' /\ i <> j.
Proof.
  induction 1 as [y b|x y a b L|x a b H [(z & r & ->)|(q & i & j & r & r' & -> & -> & N)]].
  - left. exists y, b. reflexivity.
  - right. exists [], x, y, a, b. repeat split; auto. lia.
  - left. exists z, r. reflexivity.
  - right. exists (x :: q), i, j, r, r'. auto.
Qed.
(** the index sequences of two fields part at different fields of one struct *)
Theorem C60_described fuel st l x y : describeStruct fuel st = Some l -> In x l -> In y l -> x <> y ->
  exists q i j r r', d_index x = q ++ i :: r /\ d_index y = q ++ j :: r' /\ i <> j.
Proof.
  intros E Hx Hy N.
  assert (C : forall fd, In fd l -> is_candidate R isLetter isDigit onlyTaggedField st fd)
    by (intros fd I; now apply (C30_described R isLetter isDigit onlyTaggedField sort sort_ok tag_bytes fuel st l fd E)).
  assert (S := C30_order R isLetter isDigit onlyTaggedField sort sort_ok tag_bytes fuel st l E).
  assert (G : forall a b, In a l -> In b l -> index_lt (d_index a) (d_index b) -> exists q i j r r', d_index a = q ++ i :: r /\ d_index b = q ++ j :: r' /\ i <> j).
  { intros a b Ha Hb L. destruct (index_lt_parts _ _ L) as [(z & r & Eb)|K]; [exfalso|exact K].
    destruct (C b Hb) as (t & i & Cb). destruct Cb as [p offs z0 r0 sf label opts u quoted omit Hr _ _ _ _ _]. cbn [d_index] in Eb.
    destruct (exists_last (l := z :: r)) as (r1 & z1 & Er); [discriminate|]. rewrite Er, app_assoc in Eb. apply app_inj_tail in Eb. destruct Eb as [-> _].
    exact (no_route_through st a (C a Ha) _ _ _ Hr). }
  assert (O : index_lt (d_index x) (d_index y) \/ index_lt (d_index y) (d_index x)).
  { clear - S Hx Hy N. induction S as [|a l S IH F]; [contradiction|]. rewrite Forall_forall in F.
    destruct Hx as [->|Hx], Hy as [->|Hy]; auto; contradiction. }
  destruct O as [O|O]; [now apply G|]. destruct (G _ _ Hy Hx O) as (q & i & j & r & r' & A & B & D). exists q, j, i, r', r. auto.
Qed.
End Described.
Example C60_described_ex : exists x y, describeStruct demoR asciiLetter asciiDigit false insertSort 6 10 = Some demoResult /\ In x demoResult /\ In y demoResult /\
  x <> y /\ d_index x = [2; 0]%nat /\ d_index y = [2; 2]%nat.
Proof. do 2 eexists. split; [vm_compute; reflexivity|]. split; [right; left; reflexivity|]. split; [right; right; left; reflexivity|]. split; [discriminate|split; reflexivity]. Qed.

(** ** Examples and refutations *)
Lemma menu_orderless q T : menuSet q T -> orderless demoE menuSet q T.
Proof.
  intros H. split; [now apply menu_types|]. unfold menuSet in H. cbn [In] in H. repeat (destruct H as [[= <- <-]|H]; [|]); try contradiction; cbn; auto.
  - split; [repeat constructor; cbn; intuition discriminate|]. split; [repeat constructor; unfold is_byte; lia|].
    intros i j fi fj N Hi Hj. do 5 (destruct i as [|i]; [injection Hi as <-; do 5 (destruct j as [|j]; [injection Hj as <-; try contradiction; constructor; discriminate|]); destruct j; discriminate|]).
    destruct i; discriminate.
  - split; [repeat constructor; cbn; intuition discriminate|]. split; [repeat constructor; unfold is_byte; lia|].
    intros i j fi fj N Hi Hj. do 2 (destruct i as [|i]; [injection Hi as <-; do 2 (destruct j as [|j]; [injection Hj as <-; try contradiction; constructor; discriminate|]); destruct j; discriminate|]).
    destruct i; discriminate.
Qed.
Definition orderA : string :=
  "{""Size"":-7,""Next"":{""v"":1,""next"":null},""At"":""now"",""Any"":{""x"":1,""y"":[{""p"":2,""q"":3}]},""Rows"":{""k"":[1.5,2],""l"":[3]},""extra"":[]}".
Definition orderB : string :=
  "{""extra"":[],""Rows"":{""l"":[3],""k"":[1.5,2]},""Any"":{""y"":[{""q"":3,""p"":2}],""x"":1},""Next"":{""next"":null,""v"":1},""At"":""now"",""Size"":-7}".
Definition num (s : string) : jval := JNum (bs s).
Definition rowsA : list (bytes * jval) := [(bs "k", JArr [num "1.5"; num "2"]); (bs "l", JArr [num "3"])].
Definition rowsB : list (bytes * jval) := [(bs "l", JArr [num "3"]); (bs "k", JArr [num "1.5"; num "2"])].
Definition nextA : list (bytes * jval) := [(bs "v", num "1"); (bs "next", JNull)].
Definition nextB : list (bytes * jval) := [(bs "next", JNull); (bs "v", num "1")].
Definition innerA : list (bytes * jval) := [(bs "p", num "2"); (bs "q", num "3")].
Definition innerB : list (bytes * jval) := [(bs "q", num "3"); (bs "p", num "2")].
Definition anyA : list (bytes * jval) := [(bs "x", num "1"); (bs "y", JArr [JObj innerA])].
Definition anyB : list (bytes * jval) := [(bs "y", JArr [JObj innerB]); (bs "x", num "1")].
Definition membersA : list (bytes * jval) :=
  [(bs "Size", num "-7"); (bs "Next", JObj nextA); (bs "At", JStr (bs "now")); (bs "Any", JObj anyA); (bs "Rows", JObj rowsA); (bs "extra", JArr [])].
Definition membersB : list (bytes * jval) :=
  [(bs "extra", JArr []); (bs "Rows", JObj rowsB); (bs "Any", JObj anyB); (bs "Next", JObj nextB); (bs "At", JStr (bs "now")); (bs "Size", num "-7")].
Lemma tree_text l j : p_tree EEOF l = POk j [] -> json_text l j.
Proof. intros T. apply tree_spec in T. destruct T as (w & t & Es & Hw & Hv & _). exists w, t, []. auto using ws_nil. Qed.
Lemma order_texts : json_text (bs orderA) (JObj membersA) /\ json_text (bs orderB) (JObj membersB).
Proof. split; apply tree_text; vm_compute; reflexivity. Qed.
Lemma perm_check (l l' : list (bytes * jval)) : NoDup (map fst l) -> NoDup (map fst l') -> (forall x, In x l <-> In x l') -> Permutation l l'.
Proof. intros N N' H. apply NoDup_Permutation; auto; now apply (NoDup_map_inv fst). Qed.
Ltac names_differ := repeat constructor; cbn; intuition discriminate.
Lemma exact_objects ms ms1 ms' : Forall2 (fun p q => fst p = fst q /\ shuffled (findField noFold true) (snd p) (snd q)) ms ms1 ->
  NoDup (map fst ms1) -> NoDup (map fst ms') -> (forall x, In x ms1 <-> In x ms') -> shuffled (findField noFold true) (JObj ms) (JObj ms').
Proof. intros H N N' Hi. eapply sh_obj; [exact H|]. apply C60_permutation; auto; [now apply perm_check|]. intros a c _ _. apply C60_differ_exact. Qed.
Ltac alone := cbn [fst snd]; split; [reflexivity|]; try apply sh_same.
Lemma order_shuffled : shuffled (findField noFold true) (JObj membersA) (JObj membersB).
Proof.
  apply (exact_objects membersA [(bs "Size", num "-7"); (bs "Next", JObj nextB); (bs "At", JStr (bs "now")); (bs "Any", JObj anyB); (bs "Rows", JObj rowsB); (bs "extra", JArr [])]);
    [|names_differ|names_differ|intros x; cbn; tauto].
  constructor; [alone|]. constructor; [alone|].
  { apply (exact_objects nextA nextA); [repeat (constructor; [alone|]); constructor|names_differ|names_differ|intros x; cbn; tauto]. }
  constructor; [alone|]. constructor; [alone|].
  { apply (exact_objects anyA [(bs "x", num "1"); (bs "y", JArr [JObj innerB])]); [|names_differ|names_differ|intros x; cbn; tauto].
    constructor; [alone|]. constructor; [alone|constructor]. apply sh_arr. constructor; [|constructor].
    apply (exact_objects innerA innerA); [repeat (constructor; [alone|]); constructor|names_differ|names_differ|intros x; cbn; tauto]. }
  constructor; [alone|]. { apply (exact_objects rowsA rowsA); [repeat (constructor; [alone|]); constructor|names_differ|names_differ|intros x; cbn; tauto]. }
  constructor; [alone|constructor].
Qed.
Example C60_unmarshal_ex : (forall q T, menuSet q T -> orderless demoE menuSet q T) /\ (forall n, held demoE menuSet (te_zero _ _ _ demoE n)) /\
  menuSet false menuT /\ held demoE menuSet menu0 /\ vreachable textF textF demoC demoE noFold true (used2 false) /\
  json_text (bs orderA) (JObj membersA) /\ json_text (bs orderB) (JObj membersB) /\ shuffled (findField noFold true) (JObj membersA) (JObj membersB) /\
  exists v v', fst (dUnmarshal 9 menuT menu0 (bs orderA) (used2 false)) = Ok v /\ fst (dUnmarshal 9 menuT menu0 (bs orderB) (used2 false)) = Ok v' /\ v <> v'.
Proof.
  split; [apply menu_orderless|]. split; [apply demo_held|]. split; [left; reflexivity|]. split; [apply menu0_held|]. split; [apply reachable_used2|].
  split; [apply order_texts|]. split; [apply order_texts|]. split; [apply order_shuffled|].
  do 2 eexists. split; [vm_compute; reflexivity|]. split; [vm_compute; reflexivity|]. discriminate.
Qed.
Example C60_reader_ex : exists n v v', fst (UnmarshalFromReader textF textF demoC demoE noFold true n menuT menu0 (pieces orderA) (used2 false)) = Ok v /\
  fst (UnmarshalFromReader textF textF demoC demoE noFold true n menuT menu0 (mkReader (bs orderB) [(1%nat, false); (0%nat, false)] EEOF) (used2 false)) = Ok v' /\
  rd_fin (pieces orderA) = EEOF /\ json_text (rd_data (pieces orderA)) (JObj membersA) /\ v <> v'.
Proof.
  exists 9%nat. do 2 eexists. split; [vm_compute; reflexivity|]. split; [vm_compute; reflexivity|]. split; [reflexivity|]. split; [apply order_texts|discriminate].
Qed.
Example C60_accepted_ex : exists l l' j j', json_text (bs l) j /\ json_text (bs l') j' /\ shuffled (findField noFold true) j j' /\
  (exists e, fst (dUnmarshal 9 menuT menu0 (bs l) (used2 false)) = Err e) /\ exists e, fst (dUnmarshal 9 menuT menu0 (bs l') (used2 false)) = Err e.
Proof.
  exists "{""x"":1,""Size"":1000}"%string, "{""Size"":1000,""x"":1}"%string, (JObj [(bs "x", num "1"); (bs "Size", num "1000")]), (JObj [(bs "Size", num "1000"); (bs "x", num "1")]).
  split; [apply tree_text; vm_compute; reflexivity|]. split; [apply tree_text; vm_compute; reflexivity|]. split; [|split; eexists; vm_compute; reflexivity].
  apply exact_objects with [(bs "x", num "1"); (bs "Size", num "1000")]; [repeat (constructor; [alone|]); constructor|names_differ|names_differ|intros x; cbn; tauto].
Qed.
Example C60_object_exact_ex : Permutation membersA (rev membersA) /\ NoDup (map fst membersA) /\ membersA <> rev membersA.
Proof. split; [apply Permutation_rev|]. split; [names_differ|discriminate]. Qed.
(** names that are not equal under case folding, for the default configuration *)
Lemma ascii_differ k k' : ascii k -> ascii k' -> no_special k /\ (length k <> length k' -> ~ fold_equal Properties3.demoE k k').
Proof.
  intros A A'. assert (B := ascii_bytes _ A). assert (B' := ascii_bytes _ A'). split.
  - intros rs H. apply TagFacts.cp_runes in H; auto. subst. rewrite runes_id by auto. unfold ascii in A. rewrite Forall_forall in A. split; intros K; apply A in K; lia.
  - intros L H. apply fold_equal_runes in H; auto. rewrite !runes_id in H by auto. apply L. clear - H. induction H; cbn [length]; auto.
Qed.
Example C60_object_ex : folding Properties3.demoE /\ walks Properties3.demoE demoSf /\ is_bytes (bs "Size") /\ is_bytes (bs "at") /\ no_special (bs "Size") /\
  no_special (bs "at") /\ ~ fold_equal Properties3.demoE (bs "Size") (bs "at") /\
  findField demoSf false (map f_name menuFields) (bs "at") = Some 2%nat.
Proof.
  assert (A1 : ascii (bs "Size")) by (repeat constructor; lia). assert (A2 : ascii (bs "at")) by (repeat constructor; lia).
  split; [apply demo_folding|]. split; [apply demo_walks|]. split; [now apply ascii_bytes|]. split; [now apply ascii_bytes|].
  split; [now apply (ascii_differ _ _ A1 A2)|]. split; [now apply (ascii_differ _ _ A2 A1)|]. split; [now apply (ascii_differ _ _ A1 A2)|]. vm_compute. reflexivity.
Qed.

(** What the restrictions are for.  A name that is given twice: the last member counts.  Names that are equal under case folding stand for one field; "0" and "-0"
    for one key of a map with integer keys. *)
Definition orders : list (bool * ty * dval * string * string * list bytes) :=
  [(true, TStruct [TInt true W8] [mkField (bs "a") [HField 0] false false (TInt true W8)], VStruct [VInt 0], "{""a"":1,""a"":2}", "{""a"":2,""a"":1}", [bs "a"; bs "a"]);
   (true, TMap KString TBool, VMap None, "{""a"":true,""a"":false}", "{""a"":false,""a"":true}", [bs "a"; bs "a"]);
   (false, TStruct [TInt true W8] [mkField (bs "a") [HField 0] false false (TInt true W8)], VStruct [VInt 0], "{""a"":1,""A"":2}", "{""A"":2,""a"":1}", [bs "a"; bs "A"]);
   (true, TMap (KInt true W8) TBool, VMap None, "{""0"":true,""-0"":false}", "{""-0"":false,""0"":true}", [bs "0"; bs "-0"])]%string.
Lemma not_same_int z z' : z <> z' -> ~ same textF textF demoC (VStruct [VInt z]) (VStruct [VInt z']).
Proof. intros N H. inversion H as [| | | |? ? K| |]; subst; [congruence|]. inversion K as [|? ? ? ? K1]; subst. inversion K1; subst. congruence. Qed.
Lemma not_same_map k b b' : b <> b' -> ~ same textF textF demoC (VMap (Some [(k, VBool b)])) (VMap (Some [(k, VBool b')])).
Proof.
  intros N H. inversion H as [| | | | | |? ? K _]; subst; [congruence|]. destruct (K k (VBool b)) as (v' & A & S); cbn; [destruct (key_eq_dec k k); congruence|].
  cbn in A. destruct (key_eq_dec k k); [|congruence]. injection A as <-. inversion S; subst. congruence.
Qed.
Theorem C60_names_refuted : Forall (fun '(cs, T, old, l, l', names) => exists ms ms' n it v v', json_text (bs l) (JObj ms) /\ json_text (bs l') (JObj ms') /\ Permutation ms ms' /\
  map fst ms = names /\ vreachable textF textF demoC demoE demoSf cs it /\
  fst (Unmarshal textF textF demoC demoE demoSf cs n T old (bs l) it) = Ok v /\ fst (Unmarshal textF textF demoC demoE demoSf cs n T old (bs l') it) = Ok v' /\
  ~ same textF textF demoC v v') orders.
Proof.
  unfold orders. repeat (constructor; [|]); try constructor.
  - exists [(bs "a", num "1"); (bs "a", num "2")], [(bs "a", num "2"); (bs "a", num "1")], 5%nat, (newIter false false (mkStack [] 0)). do 2 eexists.
    split; [apply tree_text; vm_compute; reflexivity|]. split; [apply tree_text; vm_compute; reflexivity|]. split; [apply perm_swap|]. split; [reflexivity|].
    split; [apply vr_reachable, re_new|]. split; [vm_compute; reflexivity|]. split; [vm_compute; reflexivity|]. apply not_same_int. lia.
  - exists [(bs "a", JBool true); (bs "a", JBool false)], [(bs "a", JBool false); (bs "a", JBool true)], 5%nat, (newIter false false (mkStack [] 0)). do 2 eexists.
    split; [apply tree_text; vm_compute; reflexivity|]. split; [apply tree_text; vm_compute; reflexivity|]. split; [apply perm_swap|]. split; [reflexivity|].
    split; [apply vr_reachable, re_new|]. split; [vm_compute; reflexivity|]. split; [vm_compute; reflexivity|]. apply not_same_map. discriminate.
  - exists [(bs "a", num "1"); (bs "A", num "2")], [(bs "A", num "2"); (bs "a", num "1")], 5%nat, (newIter false false (mkStack [] 0)). do 2 eexists.
    split; [apply tree_text; vm_compute; reflexivity|]. split; [apply tree_text; vm_compute; reflexivity|]. split; [apply perm_swap|]. split; [reflexivity|].
    split; [apply vr_reachable, re_new|]. split; [vm_compute; reflexivity|]. split; [vm_compute; reflexivity|]. apply not_same_int. lia.
  - exists [(bs "0", JBool true); (bs "-0", JBool false)], [(bs "-0", JBool false); (bs "0", JBool true)], 5%nat, (newIter false false (mkStack [] 0)). do 2 eexists.
    split; [apply tree_text; vm_compute; reflexivity|]. split; [apply tree_text; vm_compute; reflexivity|]. split; [apply perm_swap|]. split; [reflexivity|].
    split; [apply vr_reachable, re_new|]. split; [vm_compute; reflexivity|]. split; [vm_compute; reflexivity|]. apply not_same_map. discriminate.
Qed.
(** the error that is reported may depend on the order: it is the first one *)
Theorem C60_error_refuted : exists l l' e e' n it, (exists j j', json_text l j /\ json_text l' j' /\ shuffled (findField noFold true) j j') /\
  vreachable textF textF demoC demoE noFold true it /\ fst (dUnmarshal n menuT menu0 l it) = Err e /\ fst (dUnmarshal n menuT menu0 l' it) = Err e' /\ e <> e'.
Proof.
  exists (bs "{""Size"":1000,""At"":1}"), (bs "{""At"":1,""Size"":1000}"). do 2 eexists. exists 9%nat, (used2 false). split; [|split; [apply reachable_used2|]].
  - exists (JObj [(bs "Size", num "1000"); (bs "At", num "1")]), (JObj [(bs "At", num "1"); (bs "Size", num "1000")]).
    split; [apply tree_text; vm_compute; reflexivity|]. split; [apply tree_text; vm_compute; reflexivity|].
    apply exact_objects with [(bs "Size", num "1000"); (bs "At", num "1")]; [repeat (constructor; [alone|]); constructor|names_differ|names_differ|intros x; cbn; tauto].
  - split; [vm_compute; reflexivity|]. split; [vm_compute; reflexivity|]. discriminate.
Qed.

Print Assumptions C60_differ.
Print Assumptions C60_differ_exact.
Print Assumptions C60_permutation.
Print Assumptions C60_unmarshal.
Print Assumptions C60_reader.
Print Assumptions C60_accepted.
Print Assumptions C60_object.
Print Assumptions C60_object_exact.
Print Assumptions C60_described.
Print Assumptions C60_names_refuted.
Print Assumptions C60_error_refuted.
