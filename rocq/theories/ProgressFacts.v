(** Decoding ends, whatever the input, and never meets a value of a wrong type (for C50). *)
From Coq Require Import String ZArith List Bool Lia Arith.
From Verif Require Import Base ModelIter ModelStack ModelSkip ModelStr ModelInt ModelFloat ModelRead ModelIterate ModelOps
  ModelFold ModelBase64 Spec SpecStream Sim SimLib SimSkip SimRaw SimStr SimInt SimFloat SimRead SimIterate SimOps
  NumFacts StrFacts MachineFacts FloatFacts GrammarFacts IntFacts IterateFacts IterFacts
  FoldFacts ModelVal SimVal SpecVal DecFacts DecSound SpecTyped TypedFacts SpecProgress NeverFacts.
Import ListNotations.
Local Open Scope Z_scope.

(** with enough nesting fuel the result is always the same, and not one of the marks *)
Definition settles {A} (p : nat -> P A) (f : err) (l : bytes) : Prop :=
  exists n r, (forall m, (n <= m)%nat -> p m f l = r) /\ match r with PErr e => marked e = false | POk _ _ => True end.
Lemma st_never {A} (p : P A) f l : marked f = false -> never p -> settles (fun _ => p) f l.
Proof. intros M H. exists O, (p f l). split; auto. destruct (p f l) eqn:E; auto. now apply (H f l). Qed.
Lemma st_bind {A B} (p : nat -> P A) (q : nat -> A -> P B) f l : settles p f l ->
  (forall m a r, p m f l = POk a r -> settles (fun m => q m a) f r) -> settles (fun m => pbind (p m) (q m)) f l.
Proof.
  intros (n & [a r|e] & H & K) Hq.
  - destruct (Hq n a r (H n (le_n n))) as (n2 & r2 & H2 & K2). exists (Nat.max n n2), r2. split; auto.
    intros m Hm. unfold pbind. rewrite H by lia. apply H2. lia.
  - exists n, (PErr e). split; auto. intros m Hm. unfold pbind. now rewrite H.
Qed.
Lemma st_ret {A} (a : nat -> A) x f l : (forall m, a m = x) -> settles (fun m => pret (a m)) f l.
Proof. intros H. exists O, (POk x l). split; auto. intros m _. unfold pret. now rewrite H. Qed.
Lemma st_fail {A} e f l : marked e = false -> settles (fun _ => pfail (A := A) e) f l.
Proof. intros H. exists O, (PErr e). split; auto. Qed.
Lemma st_if {A} (b : bool) (p q : nat -> P A) f l : (b = true -> settles p f l) -> (b = false -> settles q f l) -> settles (fun m => if b then p m else q m) f l.
Proof. destruct b; auto. Qed.
Lemma st_next {B} (q : nat -> Z -> P B) f l : marked f = false ->
  (forall w c l', l = w ++ c :: l' -> settles (fun m => q m c) f (c :: l')) -> settles (fun m => pbind p_nextToken (q m)) f l.
Proof.
  intros M H. apply st_bind; [now apply st_never, never_nextToken|]. intros m c r Hc. apply p_nextToken_ok in Hc.
  destruct Hc as (w & l' & -> & -> & _). now apply (H w).
Qed.
Lemma st_inc {B} (q : nat -> unit -> P B) f c l : settles (fun m => q m tt) f l -> settles (fun m => pbind p_inc (q m)) f (c :: l).
Proof. intros H. exact H. Qed.
Lemma st_fuel {A} (p : nat -> nat -> P A) f l : (forall k, settles (fun m => p m k) f l) -> settles (fun m => p_fuel (p m)) f l.
Proof. intros H. apply H. Qed.
Lemma st_S {A} (p p' : nat -> P A) f l : (forall m, p' (S m) = p m) -> settles p f l -> settles p' f l.
Proof. intros E (n & r & H & K). exists (S n), r. split; auto. intros [|m] Hm; [lia|]. rewrite E. apply H. lia. Qed.
Lemma st_ext {A} (p p' : nat -> P A) f l : (forall m, p' m f l = p m f l) -> settles p f l -> settles p' f l.
Proof. intros E (n & r & H & K). exists n, r. split; auto. intros m Hm. rewrite E. now apply H. Qed.

Section Progress.
Variables F32 F64 : floatOps.
Variable C : custom.
Notation gval := (gval F32 F64 C).
Variable E : env F32 F64 C.
Notation under := (under F32 F64 C E).
Notation zero := (zero F32 F64 C E).
Variables b d : bool.
Variable sf : Z -> Z.
Variable cs : bool.
Hypothesis sane32 : float_sane F32.
Hypothesis sane64 : float_sane F64.
Notation lookup := (findField sf cs).
Notation pd := (p_decode F32 F64 C E b d sf cs).
Notation sound := (sound F32 F64 C E).
Notation typed := (typed F32 F64 C E).
Notation route := (route F32 F64 C E).
Notation grounded := (grounded F32 F64 C E).
Hypothesis SE : sound_env F32 F64 C E.
Hypothesis Z0 : forall n, te_zero _ _ _ E n = zero (te_type _ _ _ E n).
Hypothesis G0 : forall n, grounded (te_type _ _ _ E n).
Hypothesis UJ : forall id x t e, cu_json C id x t = inr e -> marked e = false.
Hypothesis UT : forall id x t e, cu_text C id x t = inr e -> marked e = false.

Definition prog (T : ty) (o : decOpts) (v : gval) (l : bytes) : Prop := forall f, marked f = false -> settles (fun m => pd m T o v) f l.
Definition all (n : nat) : Prop := forall l, (length l < n)%nat -> is_bytes l -> forall T o v, sound T -> typed T v -> prog T o v l.

Lemma consumed m T o v f l v' r : pd m T o v f l = POk v' r -> sound T -> typed T v -> is_bytes l ->
  typed T v' /\ is_bytes r /\ (length r <= length l)%nat.
Proof.
  intros H HS Ty B. apply decode_sound in H; auto. destruct H as (w & t & -> & Hw & H).
  apply bytes_app in B as [_ B]. apply bytes_app in B as [Bt Br]. split; [|split; auto; rewrite !app_length; lia].
  now apply (proj1 (decodes_typed F32 F64 C E lookup b d SE) T o v t v' H).
Qed.
Lemma grounded_all T : grounded T.
Proof. induction T; try (apply gr_other; exact I); [now apply gr_ptr|apply gr_ref, G0]. Qed.
Lemma route_sound T path T' : route T path T' -> sound T -> sound T'.
Proof.
  induction 1 as [T|T layout fs i Ti path T' U N R IH|T T1 al path T' U A R IH]; intros HS; auto; apply IH; apply (sound_under _ _ _ _ SE) in HS; rewrite U in HS.
  - inversion HS as [? K| | | | |? ? K]; subst; [destruct K|]. apply K. now apply nth_error_In in N.
  - inversion HS as [? K|? K| | | |]; subst; [destruct K|exact K].
Qed.
Lemma typed_zero T : sound T -> typed T (zero T).
Proof. apply zero_typed. exact SE. Qed.

(** ** Single values *)
Ltac nvb := repeat first [apply never_ret | apply never_inc | apply never_peek | apply never_nextToken | apply never_expectBytes | apply never_readIntOf
  | apply never_ReadFloat | apply never_readNumberAsString | apply never_readStringAsSlice | apply never_SkipRaw | apply never_AppendRaw | apply never_Skip
  | apply never_skipFunctions | apply never_body | (apply never_fail; reflexivity)
  | (apply never_bind; [|intros]) | apply never_if | match goal with |- never (match ?x with _ => _ end) => destruct x end].
Lemma never_null (v : gval) : never (p_readNull F32 F64 C v).
Proof. unfold p_readNull. nvb. Qed.
Lemma never_method (m : cu_state C -> bytes -> cu_state C + err) x t : (forall x t e, m x t = inr e -> marked e = false) ->
  never (p_method F32 F64 C m (VObj x) t).
Proof. intros H. unfold p_method. destruct (m x t) eqn:Em; [apply never_ret|]. apply never_fail. eapply H; eauto. Qed.
Lemma never_text id o x : never (p_textUnmarshalerDecoder F32 F64 C id o (VObj x)).
Proof. unfold p_textUnmarshalerDecoder. nvb; try apply never_null. apply never_method. intros. eapply UT; eauto. Qed.
Lemma never_stringD o v : never (p_stringDecoder F32 F64 C o v).
Proof. unfold p_stringDecoder. nvb; try apply never_null. Qed.
Lemma never_intD s w o v : never (p_intDecoder F32 F64 C s w o v).
Proof. unfold p_intDecoder. nvb; try apply never_null. Qed.
Lemma never_key k kp : p_keyDecoder F32 F64 C k = Some kp -> never (kp (mkOpts true false) (keyZero F32 F64 C k)).
Proof.
  destruct k as [|s w|kd [id|] mar]; simpl; try (intros [= <-]).
  - apply never_stringD.
  - apply never_intD.
  - destruct kd; apply never_text.
  - destruct kd; simpl; try discriminate; intros [= <-]; [apply never_stringD|apply never_intD].
Qed.
Lemma never_base64 : never (p_readBase64 F32 F64 C).
Proof. unfold p_readBase64. nvb. Qed.

(** ** Composite values *)
Section Parts.
Variable n : nat.
Hypothesis IHn : all n.
Lemma bytes_tail w c (l : bytes) : is_bytes (w ++ c :: l) -> is_bytes l.
Proof. intros B. apply bytes_app in B as [_ B]. now apply bytes_cons in B. Qed.
Lemma st_arrayLoop T k : sound T -> forall f l count a, marked f = false -> (length l < n)%nat -> is_bytes l -> Forall (typed T) a ->
  settles (fun m => p_arrayLoop F32 F64 C k (pd m T) count a) f l.
Proof.
  intros HS. induction k as [|k IH]; intros f l count a M L B A; [now apply st_never, never_fuel0|]. cbn [p_arrayLoop].
  assert (Fin : forall st l1, (length l1 <= length l)%nat -> is_bytes l1 -> Forall (typed T) (snd st) ->
    settles (fun m => pbind p_nextToken (fun c => pbind p_inc (fun _ => if c =? cRBRACK then pret st
      else if negb (c =? cCOMMA) then pfail (EUnexpectedByte c cRBRACK cCOMMA) else p_arrayLoop F32 F64 C k (pd m T) (fst st) (snd st)))) f l1).
  { intros st l1 L1 B1 A1. apply st_next; auto. intros w c l2 ->. apply st_inc. apply st_if; intros _; [now apply st_ret with (x := st)|].
    apply st_if; intros _; [now apply st_fail|]. rewrite app_length in L1. simpl in L1. apply IH; auto; [lia|]. now apply bytes_tail in B1. }
  apply (st_bind (fun m => match nth_error a count with
             | Some v => pbind (pd m T noOpts v) (fun v' => pret (S count, upd a count v'))
             | None => pbind p_Skip (fun _ => pret (count, a))
             end)).
  - destruct (nth_error a count) as [v|] eqn:En.
    + apply st_bind; [apply IHn; auto; apply nth_error_In in En; rewrite Forall_forall in A; auto|]. intros m v' r _. eapply st_ret. reflexivity.
    + apply st_never; auto. nvb.
  - intros m st l1 H. destruct (nth_error a count) as [v|] eqn:En.
    + apply bind_ret in H. destruct H as (v' & H & ->).
      apply consumed in H; auto; [|apply nth_error_In in En; rewrite Forall_forall in A; auto].
      destruct H as (Ty & B1 & L1). apply Fin; auto. cbn [snd]. clear - A Ty. revert count. induction A as [|x a Hx Ha IHa]; intros [|count]; simpl; constructor; auto.
    + apply bind_ret in H. destruct H as ([] & H & ->). apply Skip_spec in H. destruct H as (w & t & j & -> & _).
      apply Fin; auto; [rewrite !app_length; lia|]. apply bytes_app in B as [_ B]. now apply bytes_app in B.
Qed.
Lemma st_sliceLoop T k : sound T -> forall f l acc, marked f = false -> (length l < n)%nat -> is_bytes l ->
  settles (fun m => p_sliceLoop F32 F64 C k (zero T) (pd m T) acc) f l.
Proof.
  intros HS. induction k as [|k IH]; intros f l acc M L B; [now apply st_never, never_fuel0|]. cbn [p_sliceLoop].
  apply st_bind; [apply IHn; auto; now apply typed_zero|]. intros m v r H.
  apply consumed in H; auto; [|now apply typed_zero]. destruct H as (_ & B1 & L1).
  apply st_next; auto. intros w c l2 ->. apply st_inc. apply st_if; intros _; [eapply st_ret; reflexivity|].
  apply st_if; intros _; [now apply st_fail|]. rewrite app_length in L1. simpl in L1. apply IH; auto; [lia|]. now apply bytes_tail in B1.
Qed.
Lemma st_mapLoop key kp T k : p_keyDecoder F32 F64 C key = Some kp -> sound T -> forall f l mm, marked f = false -> (length l < n)%nat -> is_bytes l ->
  settles (fun m => p_mapLoop F32 F64 C k key kp (zero T) (pd m T) mm) f l.
Proof.
  intros HK HS. induction k as [|k IH]; intros f l mm M L B; [now apply st_never, never_fuel0|]. cbn [p_mapLoop].
  apply st_bind; [apply st_never; auto; now apply never_key|]. intros _ kv r H.
  apply (sound_key F32 F64 C E b d sf cs _ _ _ _ _ _ HK) in H. destruct H as (w0 & t0 & kk & -> & _ & _ & Hk).
  apply bytes_app in B as [_ B]. apply bytes_app in B as [_ B]. rewrite !app_length in L.
  apply st_next; auto. intros w c l2 ->. apply st_if; intros _; [now apply st_fail|]. apply st_inc.
  rewrite !app_length in L. simpl in L. apply bytes_tail in B.
  apply st_bind; [apply IHn; auto; [lia|now apply typed_zero]|]. intros m v r H.
  apply consumed in H; auto; [|now apply typed_zero]. destruct H as (_ & B1 & L1). rewrite Hk.
  apply st_next; auto. intros w2 c2 l3 ->. rewrite app_length in L1. simpl in L1. apply bytes_tail in B1.
  apply st_if; intros _; [apply st_inc; eapply st_ret; reflexivity|].
  apply st_if; intros _; [|now apply st_fail]. apply st_inc. apply IH; auto; lia.
Qed.
Lemma st_follow T o path : forall T0 v f l, route T0 path T -> sound T0 -> typed T0 v -> marked f = false -> (length l < n)%nat -> is_bytes l ->
  settles (fun m => p_follow F32 F64 C E path (pd m T o) v) f l.
Proof.
  induction path as [|[i|al] path IH]; intros T0 v f l R HS Ty M L B; cbn [p_follow].
  - inversion R; subst. now apply IHn.
  - inversion R as [|? layout fs ? Ti ? ? U N R'|]; subst. apply typed_under in Ty. rewrite U in Ty.
    assert (Si : sound Ti). { apply (route_sound T0 [HField i]); auto. econstructor; eauto. constructor. }
    inversion Ty as [| | | | | | | | | | | | | | | | |? ? lv FT|? K|? ? ? K| |]; subst; try (destruct K; discriminate).
    destruct (nth_error lv i) as [x|] eqn:En.
    + apply st_bind; [|intros; eapply st_ret; reflexivity]. apply IH with (T0 := Ti); auto.
      clear - FT N En. revert i N En. induction FT; intros [|i] N En; simpl in *; try discriminate; [congruence|eauto].
    + exfalso. apply nth_error_None in En. assert (length layout = length lv) by (clear - FT; induction FT; simpl; auto).
      assert (nth_error layout i <> None) by congruence. apply nth_error_Some in H0. lia.
  - inversion R as [| |? T1 ? ? ? U Al R']; subst. apply typed_under in Ty. rewrite U in Ty.
    assert (S1 : sound T1). { apply (route_sound T0 [HPtr al]); auto. econstructor; eauto. constructor. }
    inversion Ty as [| | | | | | | | | | |? x Tx| | | | | | |? K|? ? ? K| |]; subst; try (destruct K; discriminate).
    + destruct al as [t|]; [|now apply st_fail]. destruct Al as [|[= ->]]; [discriminate|].
      apply st_bind; [|intros; eapply st_ret; reflexivity]. apply IH with (T0 := T1); auto. now apply typed_zero.
    + apply st_bind; [|intros; eapply st_ret; reflexivity]. now apply IH with (T0 := T1).
Qed.
Lemma follow_typed m T o path T0 v f l v' r : route T0 path T -> sound T0 -> typed T0 v -> is_bytes l ->
  p_follow F32 F64 C E path (pd m T o) v f l = POk v' r -> typed T0 v' /\ is_bytes r /\ (length r <= length l)%nat.
Proof.
  intros R HS Ty B H. apply (sound_follow F32 F64 C E b d sf cs T o) in H.
  2:{ intros x f1 l1 v1 r1 H1. now apply decode_sound in H1. }
  destruct H as (w & t & -> & _ & H). apply bytes_app in B as [_ B]. apply bytes_app in B as [Bt Br].
  split; [|split; auto; rewrite !app_length; lia].
  now apply (proj2 (proj2 (proj2 (proj2 (proj2 (decodes_typed F32 F64 C E lookup b d SE))))) path T o v t v' H T0).
Qed.
Lemma st_structLoop layout fs k : sound (TStruct layout fs) -> forall f l v, marked f = false -> (length l < n)%nat -> is_bytes l -> typed (TStruct layout fs) v ->
  settles (fun m => p_structLoop F32 F64 C E d k (lookup (map f_name fs)) (map (fun fd => pInfo F32 F64 C (f_path fd) (f_quoted fd) (pd m (f_type fd))) fs) v) f l.
Proof.
  intros HS. assert (HR : forall fd, In fd fs -> route (TStruct layout fs) (f_path fd) (f_type fd)).
  { intros fd Hf. inversion HS as [? K| | | | |? ? _ K]; subst; [destruct K|]. now apply K. }
  induction k as [|k IH]; intros f l v M L B Ty; [now apply st_never, never_fuel0|]. cbn [p_structLoop].
  apply st_bind; [apply st_never; auto; apply never_readObjectField|]. intros _ name l1 H.
  apply shrinks_readObjectField in H. destruct H as (u & ->). apply bytes_app in B as [_ B]. rewrite app_length in L.
  assert (Fin : forall v' l2, (length l2 <= length l1)%nat -> is_bytes l2 -> typed (TStruct layout fs) v' ->
    settles (fun m => pbind p_nextToken (fun c => if c =? cRBRACE then pbind p_inc (fun _ => pret v')
      else if c =? cCOMMA then pbind p_inc (fun _ => pbind p_nextToken (fun c2 => if negb (c2 =? cQUOTE) then pfail (EUnexpectedByte c2 cQUOTE 0)
        else pbind p_inc (fun _ => p_structLoop F32 F64 C E d k (lookup (map f_name fs))
          (map (fun fd => pInfo F32 F64 C (f_path fd) (f_quoted fd) (pd m (f_type fd))) fs) v')))
      else pfail (EUnexpectedByte c cRBRACE cCOMMA))) f l2).
  { intros v' l2 L2 B2 Ty2. apply st_next; auto. intros w c l3 ->. rewrite app_length in L2. simpl in L2. apply bytes_tail in B2.
    apply st_if; intros _; [apply st_inc; eapply st_ret; reflexivity|]. apply st_if; intros _; [|now apply st_fail]. apply st_inc.
    apply st_next; auto. intros w2 c2 l4 ->. rewrite app_length in L2. simpl in L2. apply bytes_tail in B2.
    apply st_if; intros _; [now apply st_fail|]. apply st_inc. apply IH; auto; lia. }
  apply (st_bind (fun m => match lookup (map f_name fs) name with
    | Some i => match nth_error (map (fun fd => pInfo F32 F64 C (f_path fd) (f_quoted fd) (pd m (f_type fd))) fs) i with
                | None => pfail errType
                | Some fi => p_follow F32 F64 C E (pf_path _ _ _ fi) (pf_decoder _ _ _ fi (mkOpts false (pf_quoted _ _ _ fi))) v
                end
    | None => if d then pfail (EUnknownField name) else pbind p_Skip (fun _ => pret v)
    end)).
  - destruct (lookup (map f_name fs) name) as [i|] eqn:El.
    + apply findField_lt in El. rewrite map_length in El. destruct (nth_error fs i) as [fd|] eqn:Ef; [|apply nth_error_None in Ef; lia].
      apply (st_ext (fun m => p_follow F32 F64 C E (f_path fd) (pd m (f_type fd) (mkOpts false (f_quoted fd))) v)).
      { intros m. now rewrite nth_error_map, Ef. }
      apply nth_error_In in Ef. apply st_follow with (T0 := TStruct layout fs); auto. lia.
    + apply st_never; auto. nvb.
  - intros m v' l2 H. destruct (lookup (map f_name fs) name) as [i|] eqn:El.
    + rewrite nth_error_map in H. destruct (nth_error fs i) as [fd|] eqn:Ef; [|discriminate]. simpl in H. apply nth_error_In in Ef.
      apply (follow_typed _ _ _ _ (TStruct layout fs)) in H; auto. destruct H as (Ty2 & B2 & L2). now apply Fin.
    + destruct d; [discriminate|]. apply bind_ret in H. destruct H as ([] & H & ->). apply Skip_spec in H. destruct H as (w & t & j & -> & _).
      apply Fin; auto; [rewrite !app_length; lia|]. apply bytes_app in B as [_ B]. now apply bytes_app in B.
Qed.

(** a type that is neither a pointer nor a name, and a value that is not an interface with something in it *)
Lemma st_step T o v l : (match T with TPtr _ | TRef _ => False | _ => True end) -> (forall p, v <> VIface (Some p)) ->
  (length l <= n)%nat -> is_bytes l -> sound T -> typed T v -> prog T o v l.
Proof.
  intros HT HV L B HS Ty f M.
  assert (NN : forall c l' v0, settles (fun _ => p_readNull F32 F64 C v0) f (c :: l')) by (intros; apply st_never; auto; apply never_null).
  assert (LB : forall w c w2 c2 l2, l = w ++ c :: w2 ++ c2 :: l2 -> (length (c2 :: l2) < n)%nat /\ is_bytes (c2 :: l2) /\ (length l2 < n)%nat /\ is_bytes l2).
  { intros w c w2 c2 l2 ->. rewrite !app_length in L. simpl in L. rewrite app_length in L. simpl in L. apply bytes_tail in B. apply bytes_app in B as [_ B].
    split; [simpl; lia|]. split; auto. split; [lia|]. now apply bytes_cons in B. }
  destruct T as [|sg wd| | | | | |id|id|T|k T|T|key T|layout fs| | |r|]; try contradiction HT.
  - apply st_S with (p := fun _ => p_boolDecoder F32 F64 C o v); [reflexivity|]. apply st_never; auto. unfold p_boolDecoder. nvb; apply never_null.
  - apply st_S with (p := fun _ => p_intDecoder F32 F64 C sg wd o v); [reflexivity|]. apply st_never; auto. apply never_intD.
  - apply st_S with (p := fun _ => p_floatDecoder F32 F64 C F32 VFloat32 o v); [reflexivity|]. apply st_never; auto. unfold p_floatDecoder. nvb; apply never_null.
  - apply st_S with (p := fun _ => p_floatDecoder F32 F64 C F64 VFloat64 o v); [reflexivity|]. apply st_never; auto. unfold p_floatDecoder. nvb; apply never_null.
  - apply st_S with (p := fun _ => p_stringDecoder F32 F64 C o v); [reflexivity|]. apply st_never; auto. apply never_stringD.
  - apply st_S with (p := fun _ => p_jsonNumberDecoder F32 F64 C o v); [reflexivity|]. apply st_never; auto. unfold p_jsonNumberDecoder. nvb; apply never_null.
  - apply st_S with (p := fun _ => p_jsonRawMessageDecoder F32 F64 C o v); [reflexivity|]. apply st_never; auto. unfold p_jsonRawMessageDecoder. nvb.
  - apply st_S with (p := fun _ => p_jsonUnmarshalerDecoder F32 F64 C id o v); [reflexivity|]. apply st_never; auto.
    inversion Ty as [| | | | | | | |? x| | | | | | | | | |? K|? ? ? K| |]; subst; try (destruct K; discriminate).
    unfold p_jsonUnmarshalerDecoder. nvb. apply never_method. intros. eapply UJ; eauto.
  - apply st_S with (p := fun _ => p_textUnmarshalerDecoder F32 F64 C id o v); [reflexivity|]. apply st_never; auto.
    inversion Ty as [| | | | | | | | |? x| | | | | | | | |? K|? ? ? K| |]; subst; try (destruct K; discriminate). apply never_text.
  - apply sound_inv in HS. apply st_S with (p := fun m => p_arrayDecoder F32 F64 C (zero T) (pd m T) o v); [reflexivity|].
    inversion Ty as [| | | | | | | | | | | |? a A| | | | | |? K|? ? ? K| |]; subst; try (destruct K; discriminate).
    unfold p_arrayDecoder. apply st_next; auto. intros w c l1 El. apply st_if; intros _; [apply NN|]. apply st_if; intros _; [now apply st_fail|]. apply st_inc.
    apply st_next; auto. intros w2 c2 l2 ->. destruct (LB _ _ _ _ _ El) as (L2 & B2 & L3 & B3).
    apply st_bind; [|intros; eapply st_ret; reflexivity]. apply st_if; intros _; [apply st_inc; eapply st_ret; reflexivity|].
    apply st_fuel. intros k. now apply st_arrayLoop.
  - apply sound_inv in HS.
    apply st_S with (p := fun m => p_sliceDecoder F32 F64 C (match under T with TInt false W8 => true | _ => false end) (zero T) (pd m T) o v); [reflexivity|].
    unfold p_sliceDecoder. apply st_next; auto. intros w c l1 El. apply st_if; intros _; [apply NN|].
    apply st_if; intros _. { apply st_never; auto. apply never_if; [apply never_fail; reflexivity|apply never_base64]. }
    apply st_if; intros _; [now apply st_fail|]. apply st_inc.
    apply st_next; auto. intros w2 c2 l2 ->. destruct (LB _ _ _ _ _ El) as (L2 & B2 & L3 & B3).
    apply st_bind; [|intros; eapply st_ret; reflexivity]. apply st_if; intros _; [apply st_inc; eapply st_ret; reflexivity|].
    apply st_fuel. intros k. now apply st_sliceLoop.
  - apply sound_inv in HS. destruct HS as (_ & HS). destruct (p_keyDecoder F32 F64 C key) as [kp|] eqn:HK.
    + apply st_S with (p := fun m => p_mapDecoder F32 F64 C key kp (zero T) (pd m T) o v); [intros m; cbn [p_decode]; now rewrite HK|].
      assert (exists q, v = VMap q) as (q & ->).
      { inversion Ty as [| | | | | | | | | | | | | | |? ?|? ? mm| |? K|? ? ? K| |]; subst; try (destruct K; discriminate); eauto. }
      unfold p_mapDecoder. apply st_next; auto. intros w c l1 El. apply st_if; intros _; [apply NN|]. apply st_if; intros _; [now apply st_fail|]. apply st_inc.
      apply st_next; auto. intros w2 c2 l2 ->. destruct (LB _ _ _ _ _ El) as (L2 & B2 & L3 & B3).
      apply st_bind; [|intros; eapply st_ret; reflexivity]. apply st_if; intros _; [apply st_inc; eapply st_ret; reflexivity|].
      apply st_fuel. intros k. now apply st_mapLoop.
    + apply st_S with (p := fun _ => pfail TypeNotSupportedError); [intros m; cbn [p_decode]; now rewrite HK|]. now apply st_fail.
  - destruct fs as [|f0 fs].
    + apply st_S with (p := fun _ => p_emptyObjectDecoder F32 F64 C d o v); [reflexivity|]. apply st_never; auto. unfold p_emptyObjectDecoder. nvb.
    + set (fs' := f0 :: fs) in *.
      apply st_S with (p := fun m => p_structDecoder F32 F64 C E d (lookup (map f_name fs'))
        (map (fun fd => pInfo F32 F64 C (f_path fd) (f_quoted fd) (pd m (f_type fd))) fs') o v); [reflexivity|].
      unfold p_structDecoder. apply st_next; auto. intros w c l1 El. apply st_if; intros _; [apply NN|]. apply st_if; intros _; [now apply st_fail|]. apply st_inc.
      apply st_next; auto. intros w2 c2 l2 ->. destruct (LB _ _ _ _ _ El) as (L2 & B2 & L3 & B3).
      apply st_if; intros _; [apply st_inc; eapply st_ret; reflexivity|]. apply st_if; intros _; [now apply st_fail|]. apply st_inc.
      apply st_fuel. intros k. now apply st_structLoop with (layout := layout).
  - apply st_S with (p := fun m => p_efaceDecoder F32 F64 C E b (pd m) o v); [reflexivity|].
    assert (v = VIface None) as ->. { inversion Ty; subst; auto. exfalso. eapply HV. reflexivity. }
    apply st_never; auto. unfold p_efaceDecoder. cbn [heldPtr]. apply never_bind; [apply never_Read|intros; apply never_ret].
  - apply st_S with (p := fun m => p_ifaceDecoder F32 F64 C E (pd m) o v); [reflexivity|].
    assert (v = VIface None) as ->. { inversion Ty; subst; auto. exfalso. eapply HV. reflexivity. }
    unfold p_ifaceDecoder. apply st_never; auto. nvb; apply never_null.
  - apply st_S with (p := fun _ => pfail TypeNotSupportedError); [reflexivity|]. now apply st_fail.
Qed.
Lemma st_pointer T o q l : (forall l, (length l <= n)%nat -> is_bytes l -> prog T o (match q with Some v => v | None => zero T end) l) ->
  (length l <= n)%nat -> is_bytes l -> prog (TPtr T) o (VPtr q) l.
Proof.
  intros H L B f M. apply st_S with (p := fun m => p_pointerDecoder F32 F64 C (zero T) (pd m T) o (VPtr q)); [reflexivity|].
  unfold p_pointerDecoder. apply st_next; auto. intros w c l1 ->. apply st_if; intros _; [apply st_never; auto; apply never_null|].
  rewrite app_length in L. apply bytes_app in B as [_ B].
  apply st_bind; [apply H; auto; lia|intros; eapply st_ret; reflexivity].
Qed.
Lemma st_ref r o v l : prog (te_type _ _ _ E r) o v l -> prog (TRef r) o v l.
Proof. intros H f M. eapply st_S; [|now apply H]. reflexivity. Qed.
Lemma zero_iface T : (match T with TPtr _ | TRef _ => False | _ => True end) -> forall p, zero T <> VIface (Some p).
Proof. intros HT p H. destruct T; try contradiction; discriminate. Qed.
Lemma st_zero T : sound T -> forall o l, (length l <= n)%nat -> is_bytes l -> prog T o (zero T) l.
Proof.
  assert (H := grounded_all T). induction H as [T HT|T H IH|r H IH]; intros HS o l L B.
  - apply st_step; auto; [now apply zero_iface|now apply typed_zero].
  - apply sound_inv in HS. apply st_pointer; auto.
  - apply st_ref. cbn [ModelVal.zero]. rewrite Z0. apply IH; auto. apply SE.
Qed.
Lemma st_all T v : typed T v -> sound T ->
  (forall o l, (length l <= n)%nat -> is_bytes l -> prog T o v l) /\
  (forall T1 x, under T = TPtr T1 -> v = VPtr (Some x) -> forall o l, (length l <= n)%nat -> is_bytes l -> prog T1 o x l).
Proof.
  intros Ty.
  induction Ty as [bb|sg wd z R|x|x|s Bs|s Bs| |s Bs|id x|id x|T|T v Ty IH|T lv A|T|T lv A|key T|key T mm N K A|layout fs lv A|T HT|T T' v HT HS' Ty IH|r v Ty IH|v]; intros HS;
    try (split; [intros o l L B; apply st_step; [exact I|discriminate|exact L|exact B|exact HS|econstructor; eauto]|discriminate]; fail).
  - apply sound_inv in HS. split; [|discriminate]. intros o l L B. apply st_pointer; auto. intros l' L' B'. now apply st_zero.
  - apply sound_inv in HS. destruct (IH HS) as [IH1 _]. split; [intros o l L B; apply st_pointer; auto; intros l' L' B'; now apply IH1|].
    intros T1 x [= <-] [= <-]. exact IH1.
  - split; [intros o l L B; apply st_step; [now destruct HT; subst|discriminate|exact L|exact B|exact HS|now constructor]|now destruct HT; subst].
  - split; [|now destruct HT; subst]. specialize (IH HS'). intros o l L B f M. destruct IH as [_ IH].
    assert (Tv : forall T1, under T' = TPtr T1 -> exists q, v = VPtr q).
    { intros T1 U. apply typed_under in Ty. rewrite U in Ty. inversion Ty as [| | | | | | | | | | | | | | | | | |? K|? ? ? K| |]; subst; try (destruct K; discriminate); eauto. }
    destruct HT as [->| ->].
    + apply st_S with (p := fun m => p_efaceDecoder F32 F64 C E b (pd m) o (VIface (Some (T', v)))); [reflexivity|]. unfold p_efaceDecoder.
      destruct (heldPtr F32 F64 C E (Some (T', v))) as [[T1 x]|] eqn:Eh.
      * apply heldPtr_some in Eh. destruct Eh as (P & [= -> ->] & U).
        apply st_next; auto. intros w c l1 ->. apply st_if; intros _; [apply st_never; auto; apply never_null|].
        rewrite app_length in L. apply bytes_app in B as [_ B]. apply st_bind; [apply (IH T1 x); auto; lia|intros; eapply st_ret; reflexivity].
      * apply st_never; auto. apply never_bind; [apply never_Read|intros; apply never_ret].
    + apply st_S with (p := fun m => p_ifaceDecoder F32 F64 C E (pd m) o (VIface (Some (T', v)))); [reflexivity|]. unfold p_ifaceDecoder.
      apply st_next; auto. intros w c l1 ->. apply st_if; intros _; [apply st_never; auto; apply never_null|].
      rewrite app_length in L. apply bytes_app in B as [_ B].
      assert (NW : forall (x : bool) l, settles (fun _ : nat => pfail (A := gval) (if x then ErrNilPointerReceiver else ErrPointerReceiver)) f l)
        by (intros []; intros; now apply st_fail).
      destruct (under T') eqn:U; try apply NW. destruct (Tv _ eq_refl) as ([x|] & ->); [|now apply st_fail].
      apply st_bind; [apply (IH t x); auto; lia|intros; eapply st_ret; reflexivity].
  - assert (Sr : sound (te_type _ _ _ E r)) by apply SE. destruct (IH Sr) as [H1 H2]. split; [intros o l L B; apply st_ref; auto|].
    intros T1 x U Hx. apply H2; auto. simpl in U. now rewrite U.
  - split; [|discriminate]. intros o l L B f M. apply st_S with (p := fun _ => pfail TypeNotSupportedError); [reflexivity|]. now apply st_fail.
Qed.
End Parts.

Theorem progress T v : sound T -> typed T v -> forall o l, is_bytes l -> prog T o v l.
Proof.
  intros HS Ty o l B. assert (H : forall n, all n).
  { induction n as [|n IH]; intros l' L B' T' o' v' HS' Ty'; [lia|]. apply (st_all n IH); auto. lia. }
  apply (H (S (length l))); auto.
Qed.
End Progress.
