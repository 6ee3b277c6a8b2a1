(** The decoders in the cache and those of ModelVal.v do the same (for C43). *)
From Coq Require Import String ZArith List Bool Lia Arith.
From Verif Require Import Base ModelIter ModelSkip ModelStr ModelInt ModelFloat ModelRead ModelIterate ModelOps ModelFold ModelGrow ModelBase64 ModelVal ModelCache
  SpecCache SpecWord DecCache ModelLink SpecLink.
Import ListNotations.

Lemma dynamics_weak F32 F64 C (E : env F32 F64 C) (K K' : ty -> Prop) : (forall p, K p -> K' p) -> forall v, dynamics F32 F64 C E K v -> dynamics F32 F64 C E K' v.
Proof.
  intros H. fix IH 2. intros v [b|z|x|x|x|o|x| |w Hw|l Hl| |l Hl| |m Hm|l Hl| |t w Hk Hw]; try (constructor; fail).
  - constructor. now apply IH.
  - constructor. induction Hl; constructor; auto.
  - constructor. induction Hl; constructor; auto.
  - constructor. induction Hm; constructor; auto.
  - constructor. induction Hl; constructor; auto.
  - constructor; [eauto|now apply IH].
Qed.
Section Facts.
Variables F32 F64 : floatOps.
Variable C : custom.
Notation gval := (gval F32 F64 C).
Notation decoder := (decoder F32 F64 C).
Variable E : env F32 F64 C.
Notation under := (under F32 F64 C E).
Notation zero := (zero F32 F64 C E).
Variable sf : Z -> Z.
Variable cs : bool.
Variable typ : nat -> ty.
Variable code : ty -> nat.
Variable userDec : nat -> decoder.
Variable objs : nat -> dobj.
Variable root : nat -> option dval.
Variable T : nat -> dtype.
Variable k : nat.
Variable K : ty -> Prop.
Notation ok := (dynamics F32 F64 C E K).
Hypothesis Z0 : forall n, ok (te_zero _ _ _ E n).

(** ** Computations that do at least what another one does *)
Definition mle {A} (Q : A -> Prop) (x y : M A) : Prop := forall it,
  match fst (x it) with Ok v => Q v /\ y it = x it | Err e => e = errDepth \/ y it = x it | _ => y it = x it end.
Lemma mle_refl {A} (x : M A) : mle (fun _ => True) x x.
Proof. intros it. destruct (fst (x it)); auto. Qed.
Lemma mle_ret {A} (Q : A -> Prop) v : Q v -> mle Q (ret v) (ret v).
Proof. intros H it. simpl. auto. Qed.
Lemma mle_fail {A} (Q : A -> Prop) e : mle Q (fail e) (fail e).
Proof. intros it. simpl. auto. Qed.
Lemma mle_depth {A} (Q : A -> Prop) y : mle Q (fail errDepth) y.
Proof. intros it. simpl. auto. Qed.
Lemma mle_panic {A} (Q : A -> Prop) : mle Q panic panic.
Proof. intros it. reflexivity. Qed.
Lemma mle_fuel {A} (Q : A -> Prop) : mle Q outOfFuel outOfFuel.
Proof. intros it. reflexivity. Qed.
Lemma mle_bind {A B} (Q : A -> Prop) (R : B -> Prop) x y f g : mle Q x y -> (forall v, Q v -> mle R (f v) (g v)) -> mle R (bind x f) (bind y g).
Proof.
  intros H1 H2 it. unfold bind. specialize (H1 it). destruct (x it) as [[v|e| |] it'] eqn:Ex; cbn [fst] in *.
  - destruct H1 as [Hq ->]. exact (H2 v Hq it').
  - destruct H1 as [->|H1]; [now left|]. rewrite H1. auto.
  - rewrite H1. reflexivity.
  - rewrite H1. reflexivity.
Qed.
Lemma mle_op {A B} (R : B -> Prop) (x : M A) f g : (forall v, mle R (f v) (g v)) -> mle R (bind x f) (bind x g).
Proof. intros H. eapply mle_bind; [apply mle_refl|auto]. Qed.
Lemma mle_if {A} (R : A -> Prop) (b : bool) x y x' y' : mle R x x' -> mle R y y' -> mle R (if b then x else y) (if b then x' else y').
Proof. destruct b; auto. Qed.
Lemma mle_iter {A} (Q : A -> Prop) (f g : iter -> M A) : (forall it, mle Q (f it) (g it)) -> mle Q (fun it => f it it) (fun it => g it it).
Proof. intros H it. apply (H it it). Qed.
Lemma mle_weak {A} (Q R : A -> Prop) x y : mle Q x y -> (forall v, Q v -> R v) -> mle R x y.
Proof. intros H HQ it. specialize (H it). destruct (fst (x it)); auto. destruct H. auto. Qed.
(** the same for decoders *)
Definition dle (d d' : decoder) : Prop := forall o old, ok old -> mle ok (d o old) (d' o old).
Definition rel (b : bool) (d d' : decoder) : Prop := if b then dle d d' else dle d' d.

(** ** The leaves *)
Hint Constructors dynamics : core.
Ltac step := first
  [ apply mle_fail | apply mle_panic | (apply mle_ret; now eauto) | apply mle_if | (apply mle_op; intros ?) ].
Lemma null_ok v : ok v -> mle ok (readNull F32 F64 C v) (readNull F32 F64 C v).
Proof. intros H. unfold readNull. repeat step. Qed.
Ltac leafs := repeat first [ step | (apply null_ok; now eauto) | match goal with |- mle _ (match ?x with _ => _ end) _ => destruct x end ].
Lemma bool_ok : dle (boolDecoder F32 F64 C) (boolDecoder F32 F64 C).
Proof. intros o old H. unfold boolDecoder. leafs. Qed.
Lemma string_ok : dle (stringDecoder F32 F64 C) (stringDecoder F32 F64 C).
Proof. intros o old H. unfold stringDecoder. leafs. Qed.
Lemma int_ok s w : dle (intDecoder F32 F64 C s w) (intDecoder F32 F64 C s w).
Proof. intros o old H. unfold intDecoder. leafs. Qed.
Lemma float_ok F inj : (forall x, ok (inj x)) -> dle (floatDecoder F32 F64 C F inj) (floatDecoder F32 F64 C F inj).
Proof. intros Hi o old H. unfold floatDecoder. leafs. Qed.
Lemma number_ok : dle (jsonNumberDecoder F32 F64 C) (jsonNumberDecoder F32 F64 C).
Proof. intros o old H. unfold jsonNumberDecoder. apply mle_op; intros c. leafs. Qed.
Lemma raw_ok : dle (jsonRawMessageDecoder F32 F64 C) (jsonRawMessageDecoder F32 F64 C).
Proof. intros o old H. unfold jsonRawMessageDecoder. leafs. Qed.
Lemma json_ok id : dle (jsonUnmarshalerDecoder F32 F64 C id) (jsonUnmarshalerDecoder F32 F64 C id).
Proof. intros o old H. unfold jsonUnmarshalerDecoder. apply mle_op; intros b. destruct old; leafs. Qed.
Lemma text_ok id : dle (textUnmarshalerDecoder F32 F64 C id) (textUnmarshalerDecoder F32 F64 C id).
Proof. intros o old H. unfold textUnmarshalerDecoder. leafs. Qed.
Lemma unsupported_ok : dle (notSupportedDecoder F32 F64 C) (notSupportedDecoder F32 F64 C).
Proof. intros o old H. apply mle_fail. Qed.
Lemma emptyObject_ok : dle (emptyObjectDecoder F32 F64 C) (emptyObjectDecoder F32 F64 C).
Proof. intros o old H. unfold emptyObjectDecoder. leafs. Qed.
Lemma rel_refl b d : dle d d -> rel b d d.
Proof. destruct b; auto. Qed.

(** ** The other decoders *)
Lemma zero_ok t : ok (zero t).
Proof.
  revert t. fix F 1. intros [|s w| | | | | |id|id|t|n t|t|ky t|layout fs| | |m|]; cbn [ModelVal.zero]; try constructor.
  - apply Forall_forall. intros x Hx. apply repeat_spec in Hx. subst. apply F.
  - induction layout as [|t l IH]; cbn [map]; constructor; [apply F|exact IH].
  - apply Z0.
Qed.
Lemma pointer_le t d d' : dle d d' -> dle (pointerDecoder F32 F64 C (zero t) d) (pointerDecoder F32 F64 C (zero t) d').
Proof.
  intros H o old Ho. unfold pointerDecoder. apply mle_op; intros c. apply mle_if; [apply null_ok; auto|]. destruct old; try apply mle_fail.
  eapply mle_bind; [apply H; destruct o0; [now inversion Ho|apply zero_ok]|]. intros v Hv. apply mle_ret. auto.
Qed.
Lemma upd_ok l : forall i v, Forall ok l -> ok v -> Forall ok (ModelVal.upd l i v).
Proof. induction l as [|x l IH]; intros [|i] v Hl Hv; simpl; inversion Hl; subst; auto. Qed.
Lemma nth_ok l i (v : gval) : Forall ok l -> nth_error l i = Some v -> ok v.
Proof. intros H Hn. apply nth_error_In in Hn. eapply Forall_forall; eauto. Qed.
Lemma arrayLoop_le d d' : dle d d' -> forall fuel n a, Forall ok a ->
  mle (fun p => Forall ok (snd p)) (arrayLoop F32 F64 C fuel d n a) (arrayLoop F32 F64 C fuel d' n a).
Proof.
  intros H. induction fuel as [|f IH]; intros n a Ha; cbn [arrayLoop]; [apply mle_fuel|].
  apply mle_bind with (fun p => Forall ok (snd p)).
  - destruct (nth_error a n) as [v|] eqn:Ev.
    + eapply mle_bind; [apply H; eapply nth_ok; eauto|]. intros v' Hv'. apply mle_ret. simpl. now apply upd_ok.
    + apply mle_op; intros _. now apply mle_ret.
  - intros p Hp. apply mle_op; intros c. apply mle_op; intros _. apply mle_if; [now apply mle_ret|]. apply mle_if; [apply mle_fail|]. now apply IH.
Qed.
Lemma repeat_ok x n : ok x -> Forall ok (repeat x n).
Proof. intros H. apply Forall_forall. intros y Hy. apply repeat_spec in Hy. now subst. Qed.
Lemma firstn_ok n l : Forall ok l -> Forall ok (firstn n l).
Proof. intros H. revert n. induction H; intros [|n]; simpl; auto. Qed.
Lemma array_le t d d' : dle d d' -> dle (arrayDecoder F32 F64 C (zero t) d) (arrayDecoder F32 F64 C (zero t) d').
Proof.
  intros H o old Ho. unfold arrayDecoder. apply mle_op; intros c. apply mle_if; [now apply null_ok|]. apply mle_if; [apply mle_fail|]. destruct old; try apply mle_fail. apply mle_op; intros _. apply mle_op; intros c2.
  apply mle_bind with (fun p => Forall ok (snd p)).
  - inversion Ho; subst. apply mle_if; [repeat step|]. apply (mle_iter _ (fun it => arrayLoop F32 F64 C (S (left_total it)) d 0 l) (fun it => arrayLoop F32 F64 C (S (left_total it)) d' 0 l)).
    intros it. now apply arrayLoop_le.
  - intros p Hp. apply mle_ret. constructor. apply Forall_app. split; [now apply firstn_ok|apply repeat_ok, zero_ok].
Qed.

Lemma skipn_ok n l : Forall ok l -> Forall ok (skipn n l).
Proof. intros H. revert n. induction H; intros [|n]; simpl; auto. Qed.
Lemma grow_ok z sh n : ok z -> Forall ok (sl_data sh) -> Forall ok (sl_data (unsafeGrowSlice z sh n)).
Proof.
  intros Hz H. unfold unsafeGrowSlice. destruct (n <? sl_cap sh); [exact H|]. unfold typedslicecopy, unsafeMakeSlice. cbn [sl_data].
  apply Forall_app. split; [now apply firstn_ok|apply skipn_ok, repeat_ok; auto].
Qed.
Lemma set_ok sh i v : ok v -> Forall ok (sl_data sh) -> Forall ok (sl_data (childSet sh i v)).
Proof.
  intros Hv H. unfold childSet. cbn [sl_data]. apply Forall_app. split; [now apply firstn_ok|].
  pose proof (skipn_ok i _ H) as Hs. destruct (skipn i (sl_data sh)); auto. inversion Hs; subst. auto.
Qed.
Lemma sliceLoop_le d d' t : dle d d' -> forall fuel n sh, Forall ok (sl_data sh) ->
  mle (fun sh => Forall ok (sl_data sh)) (sliceLoop F32 F64 C fuel (zero t) d n sh) (sliceLoop F32 F64 C fuel (zero t) d' n sh).
Proof.
  intros H. induction fuel as [|f IH]; intros n sh Hs; cbn [sliceLoop]; [apply mle_fuel|].
  pose proof (grow_ok (zero t) sh (S n) (zero_ok t) Hs) as Hg. unfold childGet. destruct (nth_error (sl_data (unsafeGrowSlice (zero t) sh (S n))) n) as [v|] eqn:Ev; [|apply mle_panic].
  eapply mle_bind; [apply H; eapply nth_ok; eauto|]. intros v' Hv'. pose proof (set_ok _ n v' Hv' Hg) as Hs2.
  apply mle_op; intros c. apply mle_op; intros _. apply mle_if; [now apply mle_ret|]. apply mle_if; [apply mle_fail|]. now apply IH.
Qed.
Lemma base64_ok : mle ok (readBase64 F32 F64 C) (readBase64 F32 F64 C).
Proof.
  unfold readBase64. apply mle_op; intros _.
  match goal with |- mle ok (fun it => (do buf <- @?m it; ?k) it) _ => apply (mle_iter ok (fun it => bind (m it) (fun buf => k)) (fun it => bind (m it) (fun buf => k))) end.
  intros it. apply mle_op; intros buf. destruct (b64decode buf); [|apply mle_fail]. apply mle_ret. constructor. apply Forall_forall. intros x Hx. apply in_map_iff in Hx as (y & <- & _). constructor.
Qed.
Lemma slice_le t b d d' : dle d d' -> dle (sliceDecoder F32 F64 C b (zero t) d) (sliceDecoder F32 F64 C b (zero t) d').
Proof.
  intros H o old Ho. unfold sliceDecoder. apply mle_op; intros c. apply mle_if; [apply null_ok; auto|].
  apply mle_if; [apply mle_if; [apply mle_fail|apply base64_ok]|]. apply mle_if; [apply mle_fail|]. apply mle_op; intros _. apply mle_op; intros c2.
  apply mle_bind with (fun sh => Forall ok (sl_data sh)).
  - apply mle_if; [apply mle_op; intros _; apply mle_ret; constructor|].
    apply (mle_iter _ (fun it => sliceLoop F32 F64 C (S (left_total it)) (zero t) d 0 (unsafeMakeSlice (zero t) 0 0)) (fun it => sliceLoop F32 F64 C (S (left_total it)) (zero t) d' 0 (unsafeMakeSlice (zero t) 0 0))).
    intros it. apply sliceLoop_le; auto. constructor.
  - intros sh Hs. apply mle_ret. constructor. now apply firstn_ok.
Qed.
Lemma assign_ok m ky v : Forall (fun p => ok (snd p)) m -> ok v -> Forall (fun p => ok (snd p)) (mapassign F32 F64 C m ky v).
Proof. intros H Hv. induction H as [|[k' v'] m H1 H2 IH]; simpl; [constructor; auto|]. destruct (key_eqb k' ky); constructor; auto. Qed.
Lemma mapLoop_le ky kd t d d' : dle d d' -> forall fuel m, Forall (fun p => ok (snd p)) m ->
  mle (Forall (fun p => ok (snd p))) (mapLoop F32 F64 C fuel ky kd (zero t) d m) (mapLoop F32 F64 C fuel ky kd (zero t) d' m).
Proof.
  intros H. induction fuel as [|f IH]; intros m Hm; cbn [mapLoop]; [apply mle_fuel|].
  apply mle_op; intros kv. apply mle_op; intros c. apply mle_if; [apply mle_fail|]. apply mle_op; intros _.
  eapply mle_bind; [apply H, zero_ok|]. intros v Hv. destruct (toKey F32 F64 C ky kv) as [kk|]; [|apply mle_fail].
  pose proof (assign_ok m kk v Hm Hv) as Ha. apply mle_op; intros e. apply mle_if; [apply mle_op; intros _; now apply mle_ret|].
  apply mle_if; [|apply mle_fail]. apply mle_op; intros _. now apply IH.
Qed.
Lemma map_le ky kd t d d' : dle d d' -> dle (mapDecoder F32 F64 C ky kd (zero t) d) (mapDecoder F32 F64 C ky kd (zero t) d').
Proof.
  intros H o old Ho. unfold mapDecoder. apply mle_op; intros c. apply mle_if; [apply null_ok; auto|]. apply mle_if; [apply mle_fail|].
  destruct old; try apply mle_fail. apply mle_op; intros _. apply mle_op; intros c2.
  set (m := match o0 with Some m => m | None => [] end). assert (Hm : Forall (fun p => ok (snd p)) m) by (unfold m; destruct o0; [now inversion Ho|constructor]).
  apply mle_bind with (Forall (fun p : key * gval => ok (snd p))).
  - apply mle_if; [apply mle_op; intros _; now apply mle_ret|].
    apply (mle_iter _ (fun it => mapLoop F32 F64 C (S (left_total it)) ky kd (zero t) d m) (fun it => mapLoop F32 F64 C (S (left_total it)) ky kd (zero t) d' m)).
    intros it. now apply mapLoop_le.
  - intros m' Hm'. apply mle_ret. auto.
Qed.
Lemma follow_le path (f g : gval -> M gval) : (forall v, ok v -> mle ok (f v) (g v)) -> forall v, ok v ->
  mle ok (follow F32 F64 C E path f v) (follow F32 F64 C E path g v).
Proof.
  intros H. induction path as [|[i|t] path IH]; intros v Hv; cbn [follow]; auto.
  - destruct v; try apply mle_fail. inversion Hv; subst. destruct (nth_error l i) as [x|] eqn:Ex; [|apply mle_fail].
    eapply mle_bind; [apply IH; eapply nth_ok; eauto|]. intros x' Hx'. apply mle_ret. constructor. now apply upd_ok.
  - destruct v; try apply mle_fail. destruct o as [x|].
    + inversion Hv; subst. eapply mle_bind; [now apply IH|]. intros x' Hx'. apply mle_ret. auto.
    + destruct t as [t|]; [|apply mle_fail]. eapply mle_bind; [apply IH, zero_ok|]. intros x' Hx'. apply mle_ret. auto.
Qed.
Notation info := (fieldInfo F32 F64 C).
Notation df_path := (df_path F32 F64 C).
Notation df_quoted := (df_quoted F32 F64 C).
Notation df_decoder := (df_decoder F32 F64 C).
Definition info_le (f g : info) : Prop := df_path f = df_path g /\ df_quoted f = df_quoted g /\ dle (df_decoder f) (df_decoder g).
Lemma Forall2_nth {A B} (R : A -> B -> Prop) l l' : Forall2 R l l' -> forall i,
  match nth_error l i, nth_error l' i with Some x, Some y => R x y | None, None => True | _, _ => False end.
Proof. induction 1; intros [|i]; simpl; auto. apply IHForall2. Qed.
Lemma structLoop_le find find' fs fs' : (forall n, find n = find' n) -> Forall2 info_le fs fs' -> forall fuel v, ok v ->
  mle ok (structLoop F32 F64 C E fuel find fs v) (structLoop F32 F64 C E fuel find' fs' v).
Proof.
  intros Hf H. induction fuel as [|f IH]; intros v Hv; cbn [structLoop]; [apply mle_fuel|].
  apply mle_op; intros name. rewrite <- Hf. apply mle_bind with ok.
  - destruct (find name) as [i|].
    + pose proof (Forall2_nth _ _ _ H i) as Hi. destruct (nth_error fs i) as [x|], (nth_error fs' i) as [y|]; try contradiction; [|apply mle_panic].
      destruct Hi as (-> & -> & Hi). apply follow_le; auto.
    + apply mle_op; intros b. apply mle_if; [apply mle_fail|]. apply mle_op; intros _. now apply mle_ret.
  - intros v' Hv'. apply mle_op; intros c. apply mle_if; [apply mle_op; intros _; now apply mle_ret|]. apply mle_if; [|apply mle_fail].
    apply mle_op; intros _. apply mle_op; intros c2. apply mle_if; [apply mle_fail|]. apply mle_op; intros _. now apply IH.
Qed.
Lemma struct_le find find' fs fs' : (forall n, find n = find' n) -> Forall2 info_le fs fs' ->
  dle (structDecoder F32 F64 C E find fs) (structDecoder F32 F64 C E find' fs').
Proof.
  intros Hf H o old Ho. unfold structDecoder. leafs.
  apply (mle_iter _ (fun it => structLoop F32 F64 C E (S (left_total it)) find fs old) (fun it => structLoop F32 F64 C E (S (left_total it)) find' fs' old)).
  intros it. now apply structLoop_le.
Qed.
Lemma of_read_ok : forall g, ok (of_read F32 F64 C g).
Proof.
  fix F 1. intros [|b|x|t|s|l|m]; cbn [of_read]; try constructor; try discriminate; try constructor.
  - induction l; cbn [map]; constructor; auto.
  - induction m as [|[ky g] m IH]; cbn [map]; constructor; auto. cbn [snd]. apply F.
Qed.
(** interfaces: [K] holds for the new pointer that null stores *)
Hypothesis KP : forall p t t', K p -> under p = TPtr t -> under t = TPtr t' -> K (TPtr t).
Lemma eface_le (d d' : gval -> ty -> decoder) : (forall p t v, K p -> under p = TPtr t -> dle (d (VIface (Some (p, v))) t) (d' (VIface (Some (p, v))) t)) ->
  dle (fun o old => efaceDecoder F32 F64 C E (d old) o old) (fun o old => efaceDecoder F32 F64 C E (d' old) o old).
Proof.
  intros H o old Ho. unfold efaceDecoder. destruct old; try apply mle_fail.
  destruct (heldPtr F32 F64 C E o0) as [[t v]|] eqn:Eh; [|apply mle_op; intros g; apply mle_ret, of_read_ok].
  destruct o0 as [[p w]|]; [|discriminate]. cbn [heldPtr] in Eh. destruct w as [| | | | | | |[w|]| | | | |]; try discriminate.
  destruct (under p) eqn:Ep; try discriminate. injection Eh as -> ->. inversion Ho as [| | | | | | | | | | | | | | | |p' w' Hk Hw]; subst. inversion Hw; subst.
  apply mle_op; intros c. apply mle_if.
  - apply null_ok. unfold ModelVal.isPtr. destruct (under t) eqn:Et; auto. constructor; [|auto]. intros t2 _. eauto.
  - eapply mle_bind; [apply H; eauto|]. intros v' Hv'. apply mle_ret. cbn [option_map fst]. auto.
Qed.
Lemma iface_le (d d' : gval -> ty -> decoder) : (forall p t v, K p -> under p = TPtr t -> dle (d (VIface (Some (p, v))) t) (d' (VIface (Some (p, v))) t)) ->
  dle (fun o old => ifaceDecoder F32 F64 C E (d old) o old) (fun o old => ifaceDecoder F32 F64 C E (d' old) o old).
Proof.
  intros H o old Ho. unfold ifaceDecoder. apply mle_op; intros c. apply mle_if; [apply null_ok; auto|]. destruct old; try apply mle_fail.
  destruct o0 as [[p w]|]; [|apply mle_fail]. inversion Ho as [| | | | | | | | | | | | | | | |p' w' Hk Hw]; subst.
  destruct (under p) eqn:Ep; try apply mle_fail.
  destruct w as [| | | | | | |[w|]| | | | |]; try apply mle_fail. inversion Hw; subst. eapply mle_bind; [apply H; eauto|]. intros v' Hv'. apply mle_ret. constructor; auto. intros t2 _. eauto.
Qed.

(** ** The decoders in the cache *)
Notation noCustom := (fun _ : nat => @None nat).
Notation chooses := (chooses noCustom T).
Notation pointee := (pointee F32 F64 C E).
Notation decode := (decode F32 F64 C E sf cs).
Notation apply := (apply F32 F64 C E sf cs typ code userDec objs root).
Notation readVal := (readVal F32 F64 C code root).
Notation leaf := (leaf F32 F64 C E typ code userDec root).
Notation node := (node F32 F64 C E sf cs typ).
Notation refd := (ModelLink.ref F32 F64 C).
Hypothesis DP : dprogram F32 F64 C E typ T.
(** the decoder [v] belongs to the type with code [c], down to depth [n] *)
Definition fitd (n c : nat) (v : dval) : Prop := exists x, belongs noCustom T n c x /\ sees objs k n (Some v) x.
Definition built (n c : nat) (ch : dlabel + dshape * list nat) (v : dval) : Prop :=
  match ch with
  | inl l => v = DLeaf l
  | inr (sh, us) => exists a vs, v = DObj a /\ objs a = mkDO sh c (Some vs) /\ Forall2 (fun u w => exists v', w = Some v' /\ fitd n u v') us vs
  end.
Lemma fitd_built n c v : fitd (S n) c v -> exists ch, chooses c ch /\ built n c ch v.
Proof.
  intros (x & H1 & H2). inversion H1 as [|n' t l Hc|n' t sh us xs Hc Hs]; subst.
  - inversion H2; subst. exists (inl l). split; [exact Hc|reflexivity].
  - inversion H2 as [| |n' a sh' t' vs xs' Ha Ho Hv]; subst. exists (inr (sh, us)). split; [exact Hc|]. exists a, vs. split; [reflexivity|]. split; [exact Ho|].
    clear - Hs Hv. revert vs Hv. induction Hs as [|u x us xs Hu Hs IH]; intros vs Hv; inversion Hv as [|w w' vs' xs' Hw Hv']; subst; constructor; auto.
    destruct w as [v'|]; [|inversion Hw]. exists v'. split; [reflexivity|]. exists x. auto.
Qed.
(** dynamic types have complete decoders *)
Hypothesis KR : forall p, K p -> typ (code p) = p /\ exists v, root (code p) = Some v /\ forall n, fitd n (code p) v.

Lemma choice c ch : chooses c ch -> let t := pointee (typ c) in
  match under t with
  | TJson _ => ch = inl (LJson c) | TText _ => ch = inl (LText c) | TNumber => ch = inl (LGlobal 0) | TRaw => ch = inl (LGlobal 1)
  | _ => exists kd, dkind_of F32 F64 C E typ t kd /\ kind_chooses noCustom c kd ch
  end.
Proof.
  destruct DP as [D1 D2 D3 D4 D5]. intros H t. destruct (D1 c) as [Dg Dj Dt Dk].
  assert (NJ : dt_json (T c) = false -> forall id, typ c = TPtr t -> under t <> TJson id).
  { intros Ej id Ht Hu. assert (dt_json (T c) = true) by (apply Dj; eauto). congruence. }
  assert (NT : dt_json (T c) = false -> dt_text (T c) = false -> forall id, typ c = TPtr t -> under t <> TText id).
  { intros Ej Et id Ht Hu. assert (dt_text (T c) = true) by (apply (Dt Ej); eauto). congruence. }
  inversion H as [n Hn|n _ Hg|_ Hg Hj|_ Hg Hj Ht|ch' _ Hg Hj Ht Hk]; subst.
  - discriminate.
  - rewrite Hg in Dg. destruct (typ c) as [| | | | | | | | |t'| | | | | | | |] eqn:Ec; try discriminate. unfold t, ModelLink.pointee, ModelVal.under at 2. unfold dglobalOf in Dg.
    destruct (under t'); try discriminate; injection Dg as ->; reflexivity.
  - apply Dj in Hj as (t' & id & Ec & Hu). unfold t. rewrite Ec. unfold ModelLink.pointee, ModelVal.under at 2. now rewrite Hu.
  - apply (Dt Hj) in Ht as (t' & id & Ec & Hu). unfold t. rewrite Ec. unfold ModelLink.pointee, ModelVal.under at 2. now rewrite Hu.
  - destruct (Dk Hg Hj Ht) as (t' & Hu & Hd). assert (Et : t = t') by (unfold t, ModelLink.pointee; now rewrite Hu). rewrite Et in *.
    assert (G : exists kd, dkind_of F32 F64 C E typ t' kd /\ kind_chooses noCustom c kd ch) by eauto.
    destruct (typ c) as [| | | | | | | | |t2| | | | | | |n|] eqn:Ec; try discriminate.
    + injection Hu as ->. rewrite Hg in Dg. unfold dglobalOf in Dg. destruct (under t') eqn:Eu; auto; try discriminate; exfalso; [eapply NJ; eauto|eapply NT; eauto].
    + simpl in Hu. specialize (D4 n t' Hu). destruct (under t'); auto; contradiction.
Qed.
Lemma kind_under t kd : dkind_of F32 F64 C E typ t kd ->
  match under t with
  | TPtr _ => exists e, kd = KPtr e /\ typ e = t
  | t' => dkind_of F32 F64 C E typ t' kd
  end.
Proof.
  intros H. destruct DP as [D1 D2 D3 D4 D5].
  inversion H as [t0 na e Hb| | | |t0 t' e Hu He|n t' e He|t' e He|ky t' e Hr He| | | |n kd' Hn Hk]; subst; cbn [ModelVal.under]; auto.
  - destruct t; try discriminate; exact H.
  - rewrite Hu. eauto.
  - specialize (D3 n). specialize (Hn). destruct (te_type _ _ _ E n) eqn:En; auto. exfalso. now apply (Hn t).
Qed.
Lemma rel_info b fs us vs n d (a : dval -> decoder) : map typ us = map (fun f : field ty => TPtr (f_type f)) fs ->
  Forall2 (fun u w => exists v', w = Some v' /\ fitd n u v') us vs -> (forall u v, fitd n u v -> rel b (d (pointee (typ u))) (a v)) ->
  let l1 := map (fun fd => mkInfo F32 F64 C (f_path fd) (f_quoted fd) (d (f_type fd))) fs in
  let l2 := infos F32 F64 C a fs vs in
  if b then Forall2 info_le l1 l2 else Forall2 info_le l2 l1.
Proof.
  intros Hm H IH. revert fs Hm. induction H as [|u w us vs Hu Hs IHs]; intros [|fd fs] Hm; try discriminate.
  - destruct b; constructor.
  - simpl in Hm. injection Hm as Ht Hm. specialize (IHs fs Hm). destruct Hu as (v' & -> & Hv). specialize (IH u v' Hv). rewrite Ht in IH.
    change (pointee (TPtr (f_type fd))) with (f_type fd) in IH. destruct b; constructor; auto; split; auto.
Qed.
Lemma rel_readVal b n d (a : dval -> decoder) : (forall u v, fitd n u v -> rel b (d (pointee (typ u))) (a v)) ->
  forall p t, K p -> under p = TPtr t -> rel b (d t) (readVal a p).
Proof.
  intros IH p t Hk Hu. destruct (KR p Hk) as (Hp & v & Hv & Hf). unfold ModelLink.readVal. rewrite Hv. specialize (IH (code p) v (Hf n)). rewrite Hp in IH.
  unfold ModelLink.pointee in IH. now rewrite Hu in IH.
Qed.
(** one level of the decoder of a type that is not a name *)
Definition level (d : ty -> decoder) (t : ty) : decoder :=
  match t with
  | TBool => boolDecoder F32 F64 C
  | TInt s w => intDecoder F32 F64 C s w
  | TFloat32 => floatDecoder F32 F64 C F32 VFloat32
  | TFloat64 => floatDecoder F32 F64 C F64 VFloat64
  | TString => stringDecoder F32 F64 C
  | TNumber => jsonNumberDecoder F32 F64 C
  | TRaw => jsonRawMessageDecoder F32 F64 C
  | TJson id => jsonUnmarshalerDecoder F32 F64 C id
  | TText id => textUnmarshalerDecoder F32 F64 C id
  | TPtr t => pointerDecoder F32 F64 C (zero t) (d t)
  | TArray _ t => arrayDecoder F32 F64 C (zero t) (d t)
  | TSlice t => sliceDecoder F32 F64 C (match under t with TInt false W8 => true | _ => false end) (zero t) (d t)
  | TMap k t => match keyDecoder F32 F64 C k with Some kd => mapDecoder F32 F64 C k kd (zero t) (d t) | None => notSupportedDecoder F32 F64 C end
  | TStruct _ [] => emptyObjectDecoder F32 F64 C
  | TStruct _ fields =>
      structDecoder F32 F64 C E (findField sf cs (map f_name fields))
        (map (fun fd => mkInfo F32 F64 C (f_path fd) (f_quoted fd) (d (f_type fd))) fields)
  | TEface => efaceDecoder F32 F64 C E d
  | TIface => ifaceDecoder F32 F64 C E d
  | TRef n => d (te_type _ _ _ E n)
  | TBad => notSupportedDecoder F32 F64 C
  end.
Lemma keyDecoder_some ky : SpecVal.decodable_key ky -> exists kd, keyDecoder F32 F64 C ky = Some kd.
Proof. destruct ky as [| |[] [] mar]; simpl; eauto; contradiction. Qed.
Lemma keyDecoder_none ky : ~ SpecVal.decodable_key ky -> keyDecoder F32 F64 C ky = None.
Proof. destruct ky as [| |[] [] mar]; simpl; auto; tauto. Qed.
Lemma decode_level f t : decode (S f) t = level (decode f) t.
Proof. reflexivity. Qed.
Lemma finds_field us fs : us <> [] -> map typ us = map (fun f : field ty => TPtr (f_type f)) fs ->
  forall n, findField sf cs (map f_name fs) n = finds sf cs (struct_shape us) (map f_name fs) n.
Proof.
  intros Hn Hm n. assert (Hl : length us = length fs) by (apply (f_equal (@length _)) in Hm; now rewrite !map_length in Hm).
  unfold struct_shape. rewrite Hl. destruct fs as [|f1 [|f2 fs]].
  - destruct us; [contradiction|discriminate].
  - reflexivity.
  - cbn [length map]. change (S (S (length fs)) =? 1) with false. cbn iota. unfold findField. cbn [length]. rewrite map_length.
    destruct (S (S (length fs)) <=? 10); reflexivity.
Qed.
Ltac invKind Hd := inversion Hd as [? ? ? Hbas| | | |? ? ? Hptr ?|? ? ? ?|? ? ?|? ? ? ? ?| | | |]; subst; try discriminate.
Lemma rel_level b n d (a : dval -> decoder) c v : (forall u v, fitd n u v -> rel b (d (pointee (typ u))) (a v)) -> fitd (S n) c v ->
  rel b (level d (under (pointee (typ c)))) (match v with DLeaf l => leaf a l | DObj x => node a (objs x) end).
Proof.
  intros IH Hf. apply fitd_built in Hf as (ch & Hc & Hb). apply choice in Hc. cbv zeta in Hc. set (t := pointee (typ c)) in *.
  pose proof (rel_readVal b n d a IH) as RV.
  assert (ONE : forall u vs, Forall2 (fun u w => exists v', w = Some v' /\ fitd n u v') [u] vs -> exists v', vs = [Some v'] /\ rel b (d (pointee (typ u))) (a v')).
  { intros u vs H. inversion H as [|? w ? vs' (v' & -> & Hv) H2]; subst. inversion H2; subst. eauto. }
  assert (KU : forall kd, dkind_of F32 F64 C E typ t kd -> match under t with TPtr _ => exists e, kd = KPtr e /\ typ e = t | t' => dkind_of F32 F64 C E typ t' kd end)
    by apply kind_under.
  destruct (under t) as [|sg w| | | | | |id|id|t'|len t'|t'|ky t'|layout fs| | |m|] eqn:Eu.
  6-9: subst ch; simpl in Hb; subst v.
  6: apply rel_refl, number_ok.
  6: apply rel_refl, raw_ok.
  6-7: cbn [ModelLink.leaf]; unfold methodDec; fold t; rewrite Eu; apply rel_refl; auto using json_ok, text_ok.
  all: destruct Hc as (kd & Hd & Hk); apply KU in Hd.
  - invKind Hd. injection Hbas as <-. inversion Hk; subst; try discriminate. simpl in Hb. subst v. apply rel_refl, bool_ok.
  - invKind Hd. inversion Hk; subst; try discriminate. simpl in Hb. subst v. destruct sg, w; injection Hbas as <-; apply rel_refl, int_ok.
  - invKind Hd. injection Hbas as <-. inversion Hk; subst; try discriminate. simpl in Hb. subst v. apply rel_refl, float_ok. constructor.
  - invKind Hd. injection Hbas as <-. inversion Hk; subst; try discriminate. simpl in Hb. subst v. apply rel_refl, float_ok. constructor.
  - invKind Hd. injection Hbas as <-. inversion Hk; subst; try discriminate. simpl in Hb. subst v. apply rel_refl, string_ok.
  - destruct Hd as (e & -> & He). inversion Hk; subst. destruct Hb as (x & vs & -> & Ho & Hs). apply ONE in Hs as (v' & -> & Hr). rewrite Ho. unfold ModelLink.node. cbn [do_refs do_shape do_type].
    fold t. rewrite Eu. cbn [ModelLink.ref level]. rewrite He in Hr. unfold ModelLink.pointee in Hr. rewrite Eu in Hr. destruct b; apply pointer_le; exact Hr.
  - invKind Hd. inversion Hk; subst. destruct Hb as (x & vs & -> & Ho & Hs). apply ONE in Hs as (v' & -> & Hr). rewrite Ho. unfold ModelLink.node. cbn [do_refs do_shape do_type].
    fold t. rewrite Eu. cbn [ModelLink.ref level]. match goal with H : typ _ = TPtr _ |- _ => rewrite H in Hr end. destruct b; apply array_le; exact Hr.
  - invKind Hd. inversion Hk; subst. destruct Hb as (x & vs & -> & Ho & Hs). apply ONE in Hs as (v' & -> & Hr). rewrite Ho. unfold ModelLink.node. cbn [do_refs do_shape do_type].
    fold t. rewrite Eu. cbn [ModelLink.ref level]. match goal with H : typ _ = TPtr _ |- _ => rewrite H in Hr end. destruct b; apply slice_le; exact Hr.
  - invKind Hd; inversion Hk; subst.
    + destruct Hb as (x & vs & -> & Ho & Hs). apply ONE in Hs as (v' & -> & Hr). rewrite Ho. unfold ModelLink.node. cbn [do_refs do_shape do_type].
      fold t. rewrite Eu. cbn [ModelLink.ref level]. match goal with H : typ _ = TPtr _ |- _ => rewrite H in Hr end.
      match goal with H : SpecVal.decodable_key _ |- _ => destruct (keyDecoder_some _ H) as (kd & ->) end. destruct b; apply map_le; exact Hr.
    + simpl in Hb. subst v. cbn [level]. match goal with H : ~ SpecVal.decodable_key _ |- _ => rewrite (keyDecoder_none _ H) end. apply rel_refl, unsupported_ok.
  - inversion Hd as [|  | |? ? us Hm| | | | | | | |]; subst; try discriminate. inversion Hk as [| | | | |? Hne| | | | | |]; subst.
    + destruct fs; [|discriminate]. simpl in Hb. subst v. apply rel_refl, emptyObject_ok.
    + destruct Hb as (x & vs & -> & Ho & Hs). rewrite Ho. unfold ModelLink.node. cbn [do_refs do_shape do_type]. fold t. rewrite Eu.
      pose proof (rel_info b fs us vs n d a Hm Hs IH) as Hi. cbv zeta in Hi. pose proof (finds_field us fs Hne Hm) as Hff.
      assert (Hfs : fs <> []) by (intros ->; destruct us; [now apply Hne|discriminate]).
      assert (Hl : level d (TStruct layout fs) = structDecoder F32 F64 C E (findField sf cs (map f_name fs)) (map (fun fd => mkInfo F32 F64 C (f_path fd) (f_quoted fd) (d (f_type fd))) fs))
        by (destruct fs; [contradiction|reflexivity]).
      rewrite Hl. assert (Hsh : struct_shape us = SOne \/ struct_shape us = SSmall \/ struct_shape us = SMany).
      { unfold struct_shape. destruct (length us =? 1); auto. destruct (length us <=? 10); auto. }
      destruct Hsh as [Hsh|[Hsh|Hsh]]; rewrite Hsh in *; destruct b; apply struct_le; auto.
  - invKind Hd. inversion Hk; subst. simpl in Hb. subst v. cbn [ModelLink.leaf level]. unfold efaceDec.
    destruct b; [apply (eface_le (fun _ => d) (fun old _ => readVal a (held F32 F64 C old)))|apply (eface_le (fun old _ => readVal a (held F32 F64 C old)) (fun _ => d))]; intros p t' v Hp Hu; apply (RV p t' Hp Hu).
  - invKind Hd. inversion Hk; subst. simpl in Hb. subst v. cbn [ModelLink.leaf level]. unfold ifaceDec.
    destruct b; [apply (iface_le (fun _ => d) (fun old _ => readVal a (held F32 F64 C old)))|apply (iface_le (fun old _ => readVal a (held F32 F64 C old)) (fun _ => d))]; intros p t' v Hp Hu; apply (RV p t' Hp Hu).
  - exfalso. destruct DP as [D1 D2 D3 D4 D5]. destruct t; try discriminate. simpl in Eu. exact (D3 _ _ Eu).
  - invKind Hd; inversion Hk; subst; simpl in Hb; subst v; apply rel_refl, unsupported_ok.
Qed.
(** a name takes one more level of [decode] *)
Theorem agree_from m : forall n j c v, m < n -> n <= j -> fitd j c v -> dle (decode m (pointee (typ c))) (apply n v).
Proof.
  assert (NR : forall i i', te_type _ _ _ E i <> TRef i') by apply DP.
  induction m as [m IH] using lt_wf_ind. intros [|n] [|j] c v Hm Hn Hf; try lia.
  assert (L : forall m', m' < m -> dle (level (decode m') (under (pointee (typ c)))) (apply (S n) v)).
  { intros m' Hm'. apply (rel_level true j (decode m') (apply n) c v); auto. intros u w Hu. apply (IH m') with j; auto; lia. }
  destruct m as [|m]; [intros o old _; apply mle_depth|]. rewrite decode_level.
  destruct (pointee (typ c)) eqn:Et; try (apply (L m); lia).
  cbn [level]. destruct m as [|m]; [intros o old _; apply mle_depth|]. rewrite decode_level.
  cbn [ModelVal.under] in L. apply L. lia.
Qed.
Theorem agree_to n : forall m j c v, 2 * n <= m -> n <= j -> fitd j c v -> dle (apply n v) (decode m (pointee (typ c))).
Proof.
  assert (NR : forall i i', te_type _ _ _ E i <> TRef i') by apply DP.
  induction n as [|n IH]; intros m j c v Hm Hn Hf; [intros o old _; apply mle_depth|].
  destruct m as [|[|m]]; try lia. destruct j as [|j]; [lia|].
  assert (L : forall m', m <= m' -> dle (apply (S n) v) (level (decode m') (under (pointee (typ c))))).
  { intros m' Hm'. apply (rel_level false j (decode m') (apply n) c v); auto. intros u w Hu. apply IH with j; auto; lia. }
  rewrite decode_level. destruct (pointee (typ c)) eqn:Et; try (apply (L (S m)); lia).
  cbn [level]. rewrite decode_level. cbn [ModelVal.under] in L. apply L. lia.
Qed.
End Facts.
