(** The encoders in the caches do what ModelEnc.v says. *)
From Coq Require Import String ZArith List Bool Lia Wf_nat.
From Verif Require EncCache EncFacts.
From Verif Require Import Base ModelFloat ModelOps ModelStream ModelVal ModelEnc ModelCache ModelEncCache SpecEncCache SpecEnc ModelWord SpecWord.
Import ListNotations.

Section Facts.
Variables F32 F64 : floatOps.
Variable C : custom.
Notation gval := (gval F32 F64 C).
Variable E : env F32 F64 C.
Notation under := (ModelVal.under F32 F64 C E).
Variable U : marshalers F32 F64 C.
Variables G32 G64 : floatFmt.
Variable e32 : fl F32 -> ff G32.
Variable e64 : fl F64 -> ff G64.
Variable cfgHTML : bool.
Notation encoder := (encoder F32 F64 C).
Notation en_isEmpty := (en_isEmpty F32 F64 C).
Notation en_Encode := (en_Encode F32 F64 C).
Notation encode := (encode F32 F64 C E U G32 G64 e32 e64 cfgHTML).
Notation userOf := (userOf F32 F64 C E).
Notation docall := (docall G32 G64).
Notation PNil := (PNil F32 F64 C).
Notation PVar := (PVar F32 F64 C).
Notation w_isEmpty := (w_isEmpty F32 F64 C).
Notation w_Encode := (w_Encode F32 F64 C).
Notation asVar := (asVar F32 F64 C).
Notation atVar := (atVar F32 F64 C).
Notation anyVar := (anyVar F32 F64 C).
Notation viewed := (viewed F32 F64 C E U).
Notation deref := (deref F32 F64 C E).
Notation pshape := (pshape F32 F64 C E U).
Notation holds := (holds F32 F64 C E U).
Notation data_word := (data_word F32 F64 C E U).
Notation part := (part F32 F64 C U).
Variable T : nat -> etype.
Variable ptrTo : nat -> nat.
Variable uint8 : nat.
Notation noCustom := (fun _ : nat => @None nat).
Notation echooses := (echooses noCustom T ptrTo uint8 uint8Enc).
Notation eplain := (eplain noCustom T).
Notation ekind_plain := (ekind_plain noCustom).
Notation base64_slice := (base64_slice noCustom T ptrTo uint8 uint8Enc).
Notation einner := (einner noCustom T ptrTo uint8 uint8Enc).
Notation eprefer := (eprefer noCustom T ptrTo uint8 uint8Enc).
Notation eroot := (eroot noCustom T ptrTo uint8 uint8Enc).
Variable typ : nat -> ty.
Variable code : ty -> nat.
Notation describes := (describes F32 F64 C E U typ uint8).
Notation kind_of := (kind_of F32 F64 C E U typ uint8).
Notation globalOf := (globalOf F32 F64 C E U).
Notation has_json := (has_method F32 F64 C E U (ma_json _ _ _ U) json_iface).
Notation has_text := (has_method F32 F64 C E U (ma_text _ _ _ U) text_iface).
Variable load : ty -> pword F32 F64 C -> gval.
Variable store : ty -> gval -> pword F32 F64 C.
Variable userEnc : nat -> wenc F32 F64 C.
Variable objs : nat -> eobj.
Variable k : nat.
Variable root : nat -> option eval.
Notation esees := (esees objs k).
Notation apply := (apply F32 F64 C E U G32 G64 e32 e64 cfgHTML typ code T load store userEnc objs root).
Notation ref := (ref F32 F64 C apply).
Notation value n := (value F32 F64 C G32 G64 code T store root (apply n)).
Notation ref_to := (ModelWord.ref F32 F64 C).

Hypothesis D : forall c, describes (T c) (typ c).
Hypothesis PT : pointers_ok T ptrTo.
Hypothesis TP : forall c, typ (ptrTo c) = TPtr (typ c).
Hypothesis NO : names_ok F32 F64 C E U.
Hypothesis LO : forall t p v, holds t p v -> load t p = v.
Hypothesis UW : forall t id x, userOf t = Some id -> pshape t -> holds t (store t (VObj x)) (VObj x).
Hypothesis NB : forall id, ma_under _ _ _ U id = TInt false W8 -> ma_json _ _ _ U id <> RNone \/ ma_text _ _ _ U id <> RNone.

(** what the caches have for the dynamic types *)
Definition good (t : ty) (x : gval) : Prop :=
  typ (code t) = t /\ data_word t x (store t x) /\
  exists v, root (code t) = Some v /\ ecomplete noCustom T ptrTo uint8 uint8Enc objs k (code t) (Some v).
(** all interfaces in the value hold such types *)
Definition P (v : gval) : Prop := forall t x, part (VIface (Some (t, x))) v -> good t x.
Lemma part_trans x y z : part x y -> part y z -> part x z.
Proof. intros H K. induction K; eauto using SpecWord.part. Qed.
Lemma P_part v x : P v -> part x v -> P x.
Proof. intros H K t y Hy. apply H. eapply part_trans; eauto. Qed.

(** ** Encoders that do at least what another one does *)
Record encref (e e' : encoder) : Prop := mkRef {
  rf_empty : forall v b, P v -> en_isEmpty e v = Some b -> en_isEmpty e' v = Some b;
  rf_some : forall v q s s', P v -> en_Encode e (Some v) q s = SOk s' -> en_Encode e' (Some v) q s = SOk s';
  rf_none : forall q s s', en_Encode e None q s = SOk s' -> en_Encode e' None q s = SOk s'
}.
Lemma encref_refl e : encref e e. Proof. now constructor. Qed.
Lemma sbind_ok r f s' : sbind r f = SOk s' -> exists s, r = SOk s /\ f s = SOk s'.
Proof. destruct r; simpl; try discriminate. eauto. Qed.
Lemma ifNoError_mono (f g : stm -> sres) s s' : (f s = SOk s' -> g s = SOk s') -> ifNoError f s = SOk s' -> ifNoError g s = SOk s'.
Proof. unfold ifNoError. destruct (sm_error s); auto. Qed.
Lemma all_mono {A} (f g : A -> stm -> sres) l : (forall x s s', In x l -> f x s = SOk s' -> g x s = SOk s') ->
  forall s s', encodeAll f l s = SOk s' -> encodeAll g l s = SOk s'.
Proof.
  induction l as [|x l IH]; intros H s s'; simpl; auto. intros K. apply sbind_ok in K as (s1 & K1 & K2).
  rewrite (H x s s1 (or_introl eq_refl) K1). simpl. destruct (sm_error s1); auto. apply IH; auto. intros y t t' Hy. apply H. now right.
Qed.
Lemma ref_pointer e e' : encref e e' -> encref (pointerEncoder F32 F64 C G32 G64 e) (pointerEncoder F32 F64 C G32 G64 e').
Proof.
  intros [H1 H2 H3]. constructor; simpl; auto. intros v q s s' Hp. destruct v; auto. destruct o as [v|]; auto. apply H2.
  eapply P_part; [exact Hp|]. apply pt_ptr, pt_here.
Qed.
Lemma ref_array e e' : encref e e' -> encref (arrayEncoder F32 F64 C G32 G64 e) (arrayEncoder F32 F64 C G32 G64 e').
Proof.
  intros [H1 H2 H3]. constructor; simpl; auto. intros v q s s' Hp. destruct v; auto. intros K.
  apply sbind_ok in K as (s1 & K1 & K2). apply sbind_ok in K1 as (s0 & K0 & K1). rewrite K0. simpl.
  rewrite (all_mono _ (fun x => en_Encode e' (Some x) false) l) with (2 := K1); auto.
  intros x t t' Hx. apply H2. eapply P_part; [exact Hp|]. eapply pt_arr; eauto. apply pt_here.
Qed.
Lemma ref_slice e e' : encref e e' -> encref (sliceEncoder F32 F64 C G32 G64 e) (sliceEncoder F32 F64 C G32 G64 e').
Proof.
  intros [H1 H2 H3]. constructor; simpl; auto. intros v q s s' Hp. apply ifNoError_mono. cbn [orNull]. destruct v; auto. destruct o as [[|y l]|]; auto. intros K.
  apply sbind_ok in K as (s1 & K1 & K2). apply sbind_ok in K1 as (s0 & K0 & K1). rewrite K0. cbn [sbind].
  rewrite (all_mono _ (fun x => en_Encode e' (Some x) false) (y :: l)) with (2 := K1); auto.
  intros x t t' Hx. apply H2. eapply P_part; [exact Hp|]. eapply pt_slice; eauto. apply pt_here.
Qed.
Lemma ref_map ky e e' : encref e e' -> encref (mapEncoder F32 F64 C G32 G64 ky e) (mapEncoder F32 F64 C G32 G64 ky e').
Proof.
  intros [H1 H2 H3]. constructor; simpl; auto. intros v q s s' Hp. apply ifNoError_mono. cbn [orNull]. destruct v; auto. destruct o as [m|]; auto. intros K.
  apply sbind_ok in K as (s1 & K1 & K2). apply sbind_ok in K1 as (s0 & K0 & K1). rewrite K0. cbn [sbind].
  match goal with |- context [encodeAll ?g m s0] => rewrite (all_mono _ g m) with (2 := K1); auto end.
  intros [ky0 x] t t' Hx K. apply sbind_ok in K as (t1 & K3 & K4). rewrite K3. cbn [sbind]. destruct (sm_error t1); auto. cbn [snd] in *. apply H2; auto.
  eapply P_part; [exact Hp|]. eapply pt_map; eauto. apply pt_here.
Qed.
Lemma reach_part path : forall v x, reach F32 F64 C path v = Some (Some x) -> part x v.
Proof.
  induction path as [|[i|t] path IH]; intros v x; simpl.
  - intros [= ->]. apply pt_here.
  - destruct v; try discriminate. destruct (nth_error l i) as [y|] eqn:Ey; [|discriminate]. intros H. apply pt_struct with y; [now apply nth_error_In in Ey|auto].
  - destruct v; try discriminate. destruct o; [|discriminate]. intros H. apply pt_ptr. auto.
Qed.
Lemma ref_struct (fs fs' : list (encField F32 F64 C)) :
  Forall2 (fun f f' => exists fd e e', f = addField F32 F64 C fd e /\ f' = addField F32 F64 C fd e' /\ encref e e') fs fs' ->
  encref (structEncoder F32 F64 C G32 G64 fs) (structEncoder F32 F64 C G32 G64 fs').
Proof.
  intros H. constructor; simpl; auto. intros v q s s' Hp. apply ifNoError_mono. cbn [orNull]. intros K.
  apply sbind_ok in K as (s1 & K1 & K2). apply sbind_ok in K1 as (s0 & K0 & K1). rewrite K0. cbn [sbind].
  assert (A : encodeAll (encodeField F32 F64 C G32 G64 v) fs' s0 = SOk s1); [|now rewrite A].
  clear K0 K2. revert s0 s1 K1. induction H as [|f f' fs fs' (fd & e & e' & -> & -> & [H1 H2 H3]) H IH]; intros s0 s1; auto.
  cbn [encodeAll]. intros K. apply sbind_ok in K as (t1 & K1 & K2).
  assert (A : encodeField F32 F64 C G32 G64 v (addField F32 F64 C fd e') s0 = SOk t1).
  { revert K1. unfold encodeField. cbn [ef_path ef_raw ef_safe ef_quoted ModelEnc.ef_omit ef_enc addField].
    destruct (reach F32 F64 C (f_path fd) v) as [[x|]|] eqn:R; auto. apply reach_part in R. assert (Px : P x) by (eapply P_part; eauto).
    destruct (f_omitEmpty fd).
    - destruct (en_isEmpty e x) as [b|] eqn:Eb; [|discriminate]. rewrite (H1 x b Px Eb). destruct b; auto.
      destruct (if sm_html s0 then _ else _); auto. intros K. apply sbind_ok in K as (t0 & K3 & K4). rewrite K3. cbn [sbind]. auto.
    - destruct (if sm_html s0 then _ else _); auto. intros K. apply sbind_ok in K as (t0 & K3 & K4). rewrite K3. cbn [sbind]. auto. }
  rewrite A. cbn [sbind]. destruct (sm_error t1); auto.
Qed.
(** the value of the underlying type *)
Lemma user_some t id : userOf t = Some id <-> under t = TJson id \/ under t = TText id.
Proof. unfold ModelEnc.userOf. destruct (under t); split; try (intros [?|?]; congruence); try congruence; intros [= ->]; auto. Qed.
Lemma ref_view t e e' : encref e e' -> encref (match userOf t with Some id => byKind F32 F64 C U id e | None => e end) (viewed (Some t) e').
Proof.
  intros H. unfold ModelWord.viewed. destruct (userOf t) as [id|]; auto. destruct H as [H1 H2 H3]. constructor; simpl; auto.
  - intros v b Hp. destruct v; auto. apply H1. eapply P_part; [exact Hp|]. eapply pt_obj, pt_here.
  - intros v q s s' Hp. destruct v; auto. apply H2. eapply P_part; [exact Hp|]. eapply pt_obj, pt_here.
Qed.
Lemma ref_at e e' : encref e e' -> encref e (asVar (atVar e')).
Proof. intros [H1 H2 H3]. constructor; simpl; auto. Qed.
Lemma ref_const e b : (forall v, en_isEmpty e v = Some b) -> (forall v v' q s, en_Encode e (Some v) q s = en_Encode e (Some v') q s) -> encref e (asVar (anyVar e)).
Proof. intros H1 H2. constructor; simpl; auto; intros v; [intros b'; now rewrite !H1 | intros q s s' _; now rewrite (H2 v (VBool false))]. Qed.
Lemma ref_const_view t e b : (forall v, en_isEmpty e v = Some b) -> (forall v v' q s, en_Encode e (Some v) q s = en_Encode e (Some v') q s) ->
  encref (match userOf t with Some id => byKind F32 F64 C U id e | None => e end) (asVar (anyVar e)).
Proof.
  intros H1 H2. destruct (userOf t) as [id|]; [|eapply ref_const; eauto]. constructor; simpl; auto; intros v.
  - intros b' _. destruct v; try discriminate. now rewrite !H1.
  - intros q s s' _. destruct v as [| | | | | |x| | | | | |]; try discriminate. now rewrite (H2 (ma_repr _ _ _ U id x) (VBool false)).
Qed.
Lemma ref_bad e : encref (mkEnc F32 F64 C (fun _ => None) (fun _ _ _ => SBad)) e.
Proof. constructor; simpl; discriminate. Qed.

(** ** Types *)
Definition flat (t : ty) : Prop := match t with TRef _ | TJson _ | TText _ => False | _ => True end.
Notation kindTy := (kindTy F32 F64 C E U).
Lemma user_under id : userOf (ma_under _ _ _ U id) = None.
Proof. destruct (nk_under _ _ _ _ _ NO id id) as (H1 & H2 & H3). unfold ModelEnc.userOf. destruct (ma_under _ _ _ U id) eqn:Eu; simpl; auto; exfalso; destruct (nk_under _ _ _ _ _ NO id id0) as (? & ? & ?) || destruct (nk_under _ _ _ _ _ NO id n) as (? & ? & ?); congruence. Qed.
Lemma flat_under id : flat (ma_under _ _ _ U id).
Proof. destruct (ma_under _ _ _ U id) eqn:Eu; simpl; auto; [destruct (nk_under _ _ _ _ _ NO id id0) as (? & ? & ?)|destruct (nk_under _ _ _ _ _ NO id id0) as (? & ? & ?)|destruct (nk_under _ _ _ _ _ NO id n) as (? & ? & ?)]; congruence. Qed.
Lemma flat_kind t : flat (kindTy t).
Proof.
  unfold ModelWord.kindTy. destruct (userOf t) as [id|] eqn:Eu; [apply flat_under|]. unfold ModelEnc.userOf in Eu. destruct (under t) eqn:Et; simpl; auto; try discriminate.
  unfold ModelVal.under in Et. destruct t; try discriminate. eapply (nk_ref _ _ _ _ _ NO); eauto.
Qed.
Lemma kind_flat t kd : kind_of t kd -> kind_of (kindTy t) kd.
Proof.
  unfold ModelWord.kindTy, ModelEnc.userOf. induction 1; simpl; try (econstructor; eauto; fail).
  - destruct t; try discriminate; simpl; econstructor; eauto.
  - destruct (te_type F32 F64 C E n) eqn:Et; auto; simpl in *; exfalso; eapply (nk_ref _ _ _ _ _ NO); eauto.
  - unfold user in *. destruct H as [-> | ->]; simpl; auto.
Qed.
Lemma kind_ty c : globalOf (typ c) = None -> kind_of (kindTy (typ c)) (et_kind (T c)).
Proof. intros H. apply kind_flat, (ds_kind _ _ _ _ _ _ _ _ _ (D c)). rewrite (ds_global _ _ _ _ _ _ _ _ _ (D c)). exact H. Qed.
Lemma user_is t id : userOf t = Some id -> SpecEnc.user (under t) id.
Proof. intros H. now apply user_some. Qed.
Lemma user_json t id : userOf t = Some id -> (has_json t <-> ma_json _ _ _ U id = RValue).
Proof.
  intros Hu. split.
  - intros H. inversion H as [t' id' H1 H2 | t' id' H1 H2 | n d H1 H2]; subst.
    + apply user_some in H1. congruence.
    + discriminate.
    + unfold ModelEnc.userOf, ModelVal.under in Hu. rewrite (nk_dyn _ _ _ _ _ NO n) in Hu by congruence. discriminate.
  - intros H. eapply hm_value; eauto. now apply user_some.
Qed.
Lemma user_text t id : userOf t = Some id -> (has_text t <-> ma_text _ _ _ U id = RValue).
Proof.
  intros Hu. split.
  - intros H. inversion H as [t' id' H1 H2 | t' id' H1 H2 | n d H1 H2]; subst.
    + apply user_some in H1. congruence.
    + discriminate.
    + unfold ModelEnc.userOf, ModelVal.under in Hu. rewrite (nk_dyn _ _ _ _ _ NO n) in Hu by congruence. discriminate.
  - intros H. eapply hm_value; eauto. now apply user_some.
Qed.
Lemma user_global t id : userOf t = Some id -> globalOf t = None.
Proof.
  intros Hu. unfold SpecWord.globalOf. pose proof (user_is _ _ Hu) as [-> | ->]; destruct t; auto;
    destruct (ma_dyn _ _ _ U n) eqn:Ed; auto; unfold ModelEnc.userOf, ModelVal.under in Hu; rewrite (nk_dyn _ _ _ _ _ NO n) in Hu by congruence; discriminate.
Qed.
Lemma json_iff c : et_json (T c) = true <-> has_json (typ c). Proof. apply (ds_json _ _ _ _ _ _ _ _ _ (D c)). Qed.
Lemma text_iff c : et_json (T c) = false -> (et_text (T c) = true <-> has_text (typ c)). Proof. apply (ds_text _ _ _ _ _ _ _ _ _ (D c)). Qed.
Lemma global_eq c : et_global (T c) = globalOf (typ c). Proof. apply (ds_global _ _ _ _ _ _ _ _ _ (D c)). Qed.
(** what the cases of the choice mean *)
Definition bykind (c : nat) (ch : elabel + eshape * list nat) : Prop :=
  base64_slice c /\ ch = inl ELBase64 \/ ~ base64_slice c /\ ekind_plain c (et_kind (T c)) ch.
Lemma choice c ch : echooses c ch ->
  (exists g, globalOf (typ c) = Some g /\ ch = inl (ELGlobal g)) \/
  globalOf (typ c) = None /\
    (et_json (T c) = true /\ emarshals T c (fun u => et_json (T u)) ELJson ELPtrJson ELDirectJson ch \/
     et_json (T c) = false /\
       (et_text (T c) = true /\ emarshals T c (fun u => et_text (T u)) ELText ELPtrText ELDirectText ch \/
        et_text (T c) = false /\ bykind c ch)).
Proof.
  intros H. rewrite <- global_eq. inversion H as [B | ch' B H1]; subst.
  - destruct B as (e & enc & H1 & H2 & H3 & H4).
    assert (B : base64_slice c) by (exists e, enc; auto).
    inversion H1 as [ | | ch' _ G J M | ch' _ G J X M | ch' _ G J X M]; subst; try (inversion M; fail).
    right. split; auto. right. split; auto. right. split; auto. left. auto.
  - inversion H1 as [? A | ? A G | ch' _ G J M | ch' _ G J X M | ch' _ G J X M]; subst; try discriminate.
    + left. eauto.
    + right. split; auto.
    + right. split; auto. 
    + right. split; auto. right. split; auto. right. split; auto. right. auto.
Qed.
Notation special := (special F32 F64 C E U G32 G64).
Lemma no_json_pointer t : userOf t = None -> ~ has_json (TPtr t).
Proof. intros H K. inversion K as [t' id H1 H2|t' id H1 H2|]; subst; [destruct H1; discriminate|]. apply user_some in H1. congruence. Qed.
Lemma no_text_pointer t : userOf t = None -> ~ has_text (TPtr t).
Proof. intros H K. inversion K as [t' id H1 H2|t' id H1 H2|]; subst; [destruct H1; discriminate|]. apply user_some in H1. congruence. Qed.
Lemma json_pointer t id : userOf t = Some id -> (has_json (TPtr t) <-> ma_json _ _ _ U id <> RNone).
Proof.
  intros H. split; intros K.
  - inversion K as [t' id' H1 H2|t' id' H1 H2|]; subst; [destruct H1; discriminate|]. apply user_some in H1. congruence.
  - eapply hm_ptr; eauto. now apply user_some.
Qed.
Lemma text_pointer t id : userOf t = Some id -> (has_text (TPtr t) <-> ma_text _ _ _ U id <> RNone).
Proof.
  intros H. split; intros K.
  - inversion K as [t' id' H1 H2|t' id' H1 H2|]; subst; [destruct H1; discriminate|]. apply user_some in H1. congruence.
  - eapply hm_ptr; eauto. now apply user_some.
Qed.
Lemma ptr_kind c t : typ c = TPtr t -> exists e, et_kind (T c) = EKPtr e /\ typ e = t.
Proof.
  intros H. assert (G : globalOf (typ c) = None) by (now rewrite H). pose proof (kind_ty c G) as K. rewrite H in K. unfold ModelWord.kindTy in K. simpl in K.
  inversion K as [t0 ? ? K0| | | |e| | | | | | |t0 ? ? K0]; subst; try discriminate; [eauto|destruct K0; discriminate].
Qed.
Lemma ptr_indir c t : typ c = TPtr t -> et_indir (T c) = false.
Proof. intros H. apply (ds_indir _ _ _ _ _ _ _ _ _ (D c)); rewrite H; [discriminate|constructor]. Qed.
Lemma bool_false b (Q : Prop) : (b = true <-> Q) -> ~ Q -> b = false.
Proof. intros H1 H2. destruct b; auto. exfalso. apply H2, H1. auto. Qed.
Lemma bool_true b (Q : Prop) : (b = true <-> Q) -> Q -> b = true.
Proof. intros H1 H2. now apply H1. Qed.
(** the encoders of pointers *)
Lemma ptr_choice c e ch : typ c = TPtr (typ e) -> et_kind (T c) = EKPtr e -> echooses c ch ->
  special (typ e) = None /\ ch = inr (EPtr, [e]) \/
  (exists id, userOf (typ e) = Some id /\ ma_json _ _ _ U id = RPtr /\ ch = inl (ELPtrJson c)) \/
  (exists id, userOf (typ e) = Some id /\ ma_json _ _ _ U id = RNone /\ ma_text _ _ _ U id = RPtr /\ ch = inl (ELPtrText c)).
Proof.
  intros Ht Hk H. pose proof (ptr_indir _ _ Ht) as Hi. unfold ModelEnc.special.
  apply choice in H as [(g & G & _)|(G & [(J & M)|(J & [(X & M)|(X & K)])])].
  - rewrite Ht in G. discriminate.
  - apply json_iff in J. rewrite Ht in J. destruct (userOf (typ e)) as [id|] eqn:Eu; [|now apply no_json_pointer in J].
    apply (json_pointer _ _ Eu) in J. inversion M as [I|e' _ Ke I|e' _ Ke I|_ I]; subst; try congruence; assert (e' = e) by congruence; subst.
    + apply json_iff, (user_json _ _ Eu) in I. rewrite I. auto.
    + right. left. exists id. split; auto. split; auto. destruct (ma_json _ _ _ U id) eqn:Ej; auto; [congruence|].
      assert (A : et_json (T e) = true) by (apply json_iff, (user_json _ _ Eu); auto). congruence.
  - apply (text_iff c J) in X. assert (J' : ~ has_json (typ c)) by (intros A; apply json_iff in A; congruence).
    rewrite Ht in X, J'. destruct (userOf (typ e)) as [id|] eqn:Eu; [|now apply no_text_pointer in X].
    apply (text_pointer _ _ Eu) in X. rewrite (json_pointer _ _ Eu) in J'.
    assert (Hj : ma_json _ _ _ U id = RNone) by (destruct (ma_json _ _ _ U id); auto; exfalso; apply J'; discriminate).
    assert (Je : et_json (T e) = false) by (apply (bool_false _ _ (json_iff e)); rewrite (user_json _ _ Eu), Hj; discriminate).
    inversion M as [I|e' _ Ke I|e' _ Ke I|_ I]; subst; try congruence; assert (e' = e) by congruence; subst.
    + apply (text_iff e Je), (user_text _ _ Eu) in I. rewrite Hj, I. auto.
    + right. right. exists id. split; auto. split; auto. split; auto. destruct (ma_text _ _ _ U id) eqn:Ej; auto; [congruence|].
      assert (A : et_text (T e) = true) by (apply (text_iff e Je), (user_text _ _ Eu); auto). congruence.
  - assert (J' : ~ has_json (typ c)) by (intros A; apply json_iff in A; congruence).
    assert (X' : ~ has_text (typ c)) by (intros A; apply (text_iff c J) in A; congruence).
    left. split.
    + destruct (userOf (typ e)) as [id|] eqn:Eu; auto. rewrite Ht in J', X'. rewrite (json_pointer _ _ Eu) in J'. rewrite (text_pointer _ _ Eu) in X'.
      destruct (ma_json _ _ _ U id); [|exfalso; apply J'; discriminate|auto]. destruct (ma_text _ _ _ U id); auto. exfalso. apply X'. discriminate.
    + destruct K as [((e' & enc & K & _) & _)|(_ & K)].
      * exfalso. inversion K as [ | | ch' _ _ _ M | ch' _ _ _ _ M | ch' _ _ _ _ M]; subst; inversion M; congruence.
      * rewrite Hk in K. inversion K; subst; auto.
Qed.
Lemma not_base64 c e : et_kind (T c) = EKPtr e -> ~ base64_slice c.
Proof. intros Hk (e' & enc & K & _). inversion K as [ | | ch' _ _ _ M | ch' _ _ _ _ M | ch' _ _ _ _ M]; subst; inversion M; congruence. Qed.
Lemma ptr_follow c e : typ c = TPtr (typ e) -> et_kind (T c) = EKPtr e -> special (typ e) = None -> eplain c (inr (EPtr, [e])).
Proof.
  intros Ht Hk Hs. assert (G : et_global (T c) = None) by (rewrite global_eq, Ht; auto). pose proof (ptr_indir _ _ Ht) as Hi.
  unfold ModelEnc.special in Hs. destruct (userOf (typ e)) as [id|] eqn:Eu.
  - destruct (ma_json _ _ _ U id) eqn:Ej; try discriminate.
    + assert (Jc : et_json (T c) = false) by (apply (bool_false _ _ (json_iff c)); rewrite Ht, (json_pointer _ _ Eu), Ej; auto).
      assert (Je : et_json (T e) = false) by (apply (bool_false _ _ (json_iff e)); rewrite (user_json _ _ Eu), Ej; discriminate).
      destruct (ma_text _ _ _ U id) eqn:Ex; try discriminate.
      * apply ep_kind; auto; [|rewrite Hk; constructor]. apply (bool_false _ _ (text_iff c Jc)). rewrite Ht, (text_pointer _ _ Eu), Ex; auto.
      * apply ep_text; auto; [|apply em_follow; auto]; [apply (text_iff c Jc); rewrite Ht, (text_pointer _ _ Eu), Ex; discriminate|].
        apply (text_iff e Je), (user_text _ _ Eu); auto.
    + apply ep_json; auto; [|apply em_follow; auto]; [apply json_iff; rewrite Ht, (json_pointer _ _ Eu), Ej; discriminate|].
      apply json_iff, (user_json _ _ Eu); auto.
  - assert (Jc : et_json (T c) = false) by (apply (bool_false _ _ (json_iff c)); rewrite Ht; now apply no_json_pointer).
    apply ep_kind; auto; [|rewrite Hk; constructor]. apply (bool_false _ _ (text_iff c Jc)). rewrite Ht. now apply no_text_pointer.
Qed.
Lemma follows_special e : follows noCustom T ptrTo uint8 uint8Enc e <-> special (typ e) = None.
Proof.
  split; intros H.
  - apply ptr_choice with (e := e) in H as [(H & _)|[(id & _ & _ & H)|(id & _ & _ & _ & H)]]; auto; discriminate.
  - apply ec_plain; [eapply not_base64; apply PT|]. apply ptr_follow; auto.
Qed.
(** ** Encoders in the caches *)
Definition child (sh : eshape) (n e : nat) (v : option eval) : Prop :=
  exists y, esees n v y /\ match sh with EPtr | EMap => einner n e y | _ => eprefer n e y end.
Inductive built (n c : nat) : elabel + eshape * list nat -> eval -> Prop :=
| bu_leaf l : built n c (inl l) (ELeaf l)
| bu_node sh cs a vs : objs a = mkEO sh c (Some vs) -> Forall2 (child sh n) cs vs -> built n c (inr (sh, cs)) (EObj a).
Lemma forall2_join (R1 : nat -> etree -> Prop) (R2 : option eval -> etree -> Prop) cs xs : Forall2 R1 cs xs -> forall vs, Forall2 R2 vs xs ->
  Forall2 (fun c v => exists y, R2 v y /\ R1 c y) cs vs.
Proof. induction 1; intros vs K; inversion K; subst; constructor; eauto. Qed.
Lemma einner_built n c x v : einner (S n) c x -> esees (S n) (Some v) x -> exists ch, echooses c ch /\ built n c ch v.
Proof.
  intros H K. inversion H as [ | n' t l H1 | n' t sh cs xs H1 H2 H3 | n' t sh cs xs H1 H2 H3]; subst.
  - inversion K; subst. eexists. split; [exact H1|constructor].
  - inversion K as [| | |n' a sh' t' vs xs' _ Ho Hs]; subst. eexists. split; [exact H1|]. econstructor; eauto.
    pose proof (forall2_join _ _ _ _ H3 _ Hs) as J. unfold child. destruct H2; subst; exact J.
  - inversion K as [| | |n' a sh' t' vs xs' _ Ho Hs]; subst. eexists. split; [exact H1|]. econstructor; eauto.
    pose proof (forall2_join _ _ _ _ H3 _ Hs) as J. unfold child. destruct H2 as [|[|]]; subst; exact J.
Qed.
(** the encoders of the kinds; those of named pointers ignore methods *)
Definition kenc (m : nat) (t : ty) : encoder :=
  match t with TPtr t' => pointerEncoder F32 F64 C G32 G64 (encode m t') | _ => encode (S m) t end.
Definition inner (m : nat) : Prop := forall n c x v w, m < n -> einner n c x -> esees n (Some v) x -> deref w = Some (typ c) ->
  encref (encode m (typ c)) (asVar (apply n w v)).
Definition rooted (m : nat) : Prop := forall n o q s s', m < n -> P (VIface o) ->
  encValue F32 F64 C E U G32 G64 m (encode m) o q s = SOk s' -> value n o q s = SOk s'.
Lemma ref_child m n e v : inner m -> m < n -> child EPtr n e v -> encref (encode m (typ e)) (ref_to (apply n) (typ e) v).
Proof.
  intros I Hm (y & Hs & Hi). assert (exists v', v = Some v') as (v' & ->) by (inversion Hs; eauto). eapply I; eauto.
Qed.
Lemma load_ptr t v : load (TPtr t) (PVar v) = VPtr (Some v). Proof. apply LO. constructor. Qed.
Lemma load_nil t : load (TPtr t) PNil = VPtr None. Proof. apply LO. constructor. Qed.
Lemma ref_prefer m n e v : inner m -> m < n -> child EArray n e v ->
  encref (ModelEnc.preferPtrEncoder F32 F64 C E U G32 G64 (typ e) (encode m (typ e))) (ref_to (apply n) (typ e) v).
Proof.
  intros I Hm (y & Hs & Hi). unfold ModelEnc.preferPtrEncoder. inversion Hi as [|n' t x Hf Hx|n' t x Hf Hx]; subst.
  - lia.
  - apply follows_special in Hf. rewrite Hf. eapply ref_child; eauto. exists y. eauto.
  - inversion Hs as [| |n'' v' x' Hv|]; subst. rewrite follows_special in Hf.
    assert (exists v'', v' = v'') as (v'' & ->) by eauto.
    destruct (einner_built _ _ _ _ Hx Hv) as (ch & Hc & Hb).
    apply ptr_choice with (e := e) in Hc as [(Hc & _)|[(id & Eu & Ej & ->)|(id & Eu & Ej & Ex & ->)]]; auto; [congruence| |];
      unfold ModelEnc.special; rewrite Eu, Ej; try rewrite Ex; inversion Hb; subst; constructor;
      intros; simpl in *; try rewrite load_ptr; try rewrite load_nil; unfold ModelWord.pointerMethodEnc; rewrite TP, Eu; simpl; auto.
Qed.
Lemma length_F2 {A B} (R : A -> B -> Prop) l l' : Forall2 R l l' -> length l = length l'.
Proof. induction 1; simpl; auto. Qed.
Lemma kind_elem c e : (kindTy (typ c) = TPtr e \/ kindTy (typ c) = TSlice e \/ (exists n, kindTy (typ c) = TArray n e) \/ (exists ky, kindTy (typ c) = TMap ky e)) ->
  elemTy F32 F64 C E U (typ c) = e.
Proof. unfold elemTy. intros [-> | [-> | [(n & ->) | (ky & ->)]]]; auto. Qed.
Lemma uint8_elem e : kind_of (kindTy (typ e)) (et_kind (T e)) -> forall enc, et_kind (T e) = EKBasic uint8 enc -> enc = uint8Enc /\ kindTy (typ e) = TInt false W8.
Proof.
  intros K enc He. rewrite He in K. pose proof (flat_kind (typ e)) as Hf. inversion K as [t0 nat0 e0 H1 H2 | | | | | | | | | | n k0 H1|t0 id k0 H1]; subst.
  - assert (enc = uint8Enc) by now apply H2. subst. split; auto. unfold uint8Enc in *. unfold basicOf in H1. destruct (kindTy (typ e)); try discriminate. destruct signed, w; try discriminate. auto.
  - rewrite <- H in Hf. destruct Hf.
  - destruct H1 as [A|A]; rewrite A in Hf; destruct Hf.
Qed.
(** slices of bytes *)
Lemma base64_iff c e : globalOf (typ c) = None -> et_json (T c) = false -> et_text (T c) = false -> et_kind (T c) = EKSlice e ->
  (base64_slice c <-> under (typ e) = TInt false W8).
Proof.
  intros G J X Hk. split.
  - intros (e' & enc & H1 & H2 & H3 & H4).
    assert (e' = e) by (inversion H1 as [ | | ch' _ _ _ M | ch' _ _ _ _ M | ch' _ _ _ _ M]; subst; inversion M; congruence). subst e'.
    assert (Ge : et_global (T e) = None) by (inversion H3 as [ | | ch' _ G' _ M | ch' _ G' _ _ M | ch' _ G' _ _ M]; subst; auto; discriminate).
    rewrite global_eq in Ge. destruct (uint8_elem e (kind_ty e Ge) enc H2) as (-> & Hu).
    unfold ModelWord.kindTy in Hu. destruct (userOf (typ e)) as [id|] eqn:Eu; auto. exfalso.
    assert (Je : et_json (T e) = false /\ et_text (T e) = false).
    { inversion H3 as [ | | ch' _ G' _ M | ch' _ G' _ _ M | ch' _ G' ? ? M]; subst; auto; inversion M. }
    destruct Je as (Je & Xe).
    assert (Nj : ma_json _ _ _ U id <> RValue) by (intros A; apply (user_json _ _ Eu), json_iff in A; congruence).
    assert (Nx : ma_text _ _ _ U id <> RValue) by (intros A; apply (user_text _ _ Eu), (text_iff e Je) in A; congruence).
    assert (Hs : special (typ e) = None).
    { apply follows_special. apply ec_plain; auto. eapply not_base64; apply PT. }
    unfold ModelEnc.special in Hs. rewrite Eu in Hs. destruct (NB id Hu) as [A|A].
    + destruct (ma_json _ _ _ U id); congruence.
    + destruct (ma_json _ _ _ U id); [|discriminate|congruence]. destruct (ma_text _ _ _ U id); congruence.
  - intros Hu. assert (Eu : userOf (typ e) = None) by (unfold ModelEnc.userOf; now rewrite Hu).
    assert (Ge : globalOf (typ e) = None).
    { unfold SpecWord.globalOf. rewrite Hu. destruct (typ e) eqn:Et; auto. destruct (ma_dyn _ _ _ U n) eqn:Ed; auto.
      simpl in Hu. rewrite (nk_dyn _ _ _ _ _ NO n) in Hu by congruence. discriminate. }
    assert (Nd : forall m (i : dyn -> Prop), ~ has_method F32 F64 C E U m i (typ e)).
    { intros m i A. inversion A as [t' id' H1 H2 | t' id' H1 H2 | n d H1 H2]; subst.
      - apply user_some in H1. congruence.
      - rewrite <- H in Hu. discriminate.
      - rewrite <- H in Hu. simpl in Hu. rewrite (nk_dyn _ _ _ _ _ NO n) in Hu by congruence. discriminate. }
    pose proof (kind_ty e Ge) as Ke. unfold ModelWord.kindTy in Ke. rewrite Eu, Hu in Ke.
    inversion Ke as [t0 nat0 e0 H1 H2 | | | | | | | | | | |t0 id k0 H1]; subst; [|destruct H1; discriminate]. injection H1 as <-.
    assert (nat0 = uint8) by now apply H2. subst nat0. match goal with A : EKBasic uint8 _ = _ |- _ => symmetry in A; rename A into Ekd end. exists e, 8.
    assert (Je : et_json (T e) = false) by (apply (bool_false _ _ (json_iff e)), Nd).
    assert (Xe : et_text (T e) = false) by (apply (bool_false _ _ (text_iff e Je)), Nd).
    split; [|split; [auto|split]].
    + apply ep_kind; auto; [now rewrite global_eq|rewrite Hk; constructor].
    + apply ep_kind; auto; [now rewrite global_eq|]. rewrite Ekd. now constructor.
    + apply ptr_follow; auto. unfold ModelEnc.special. now rewrite Eu.
Qed.
Lemma ref_iface m n : rooted m -> m < n -> encref (interfaceEncoder F32 F64 C E U G32 G64 m (encode m)) (ifaceEnc F32 F64 C G32 G64 (value n)).
Proof.
  intros R Hm. constructor; simpl; auto. intros v q s s' Hp. destruct v; eauto.
Qed.
Lemma kind_ref m n c ch v w : inner m -> rooted m -> m < n ->
  globalOf (typ c) = None -> et_json (T c) = false -> et_text (T c) = false -> bykind c ch -> built n c ch v -> deref w = Some (typ c) ->
  encref (match userOf (typ c) with Some id => byKind F32 F64 C U id (kenc m (kindTy (typ c))) | None => kenc m (kindTy (typ c)) end)
    (asVar (apply (S n) w v)).
Proof.
  intros I R Hm G J X Bk Bu Dw. pose proof (kind_ty c G) as Kt. pose proof (flat_kind (typ c)) as Hf.
  assert (Leaf : forall l e', v = ELeaf l -> leaf F32 F64 C E U G32 G64 e32 e64 cfgHTML typ T load store userEnc (value n) w l = atVar (viewed (Some (typ c)) e') ->
     encref (kenc m (kindTy (typ c))) e' -> encref (match userOf (typ c) with Some id => byKind F32 F64 C U id (kenc m (kindTy (typ c))) | None => kenc m (kindTy (typ c)) end) (asVar (apply (S n) w v))).
  { intros l e' -> H1 H2. cbn [ModelWord.apply]. rewrite H1. apply ref_at, ref_view, H2. }
  assert (Any : forall l e' b, v = ELeaf l -> leaf F32 F64 C E U G32 G64 e32 e64 cfgHTML typ T load store userEnc (value n) w l = anyVar e' ->
     kenc m (kindTy (typ c)) = e' -> (forall v, en_isEmpty e' v = Some b) -> (forall v v' q s, en_Encode e' (Some v) q s = en_Encode e' (Some v') q s) ->
     encref (match userOf (typ c) with Some id => byKind F32 F64 C U id (kenc m (kindTy (typ c))) | None => kenc m (kindTy (typ c)) end) (asVar (apply (S n) w v))).
  { intros l e' b -> H1 -> H2 H3. cbn [ModelWord.apply]. rewrite H1. eapply ref_const_view; eauto. }
  assert (Node : forall sh cs vs a, v = EObj a -> objs a = mkEO sh c (Some vs) -> Forall2 (child sh n) cs vs ->
     encref (kenc m (kindTy (typ c))) (node F32 F64 C E U G32 G64 typ (apply n) (mkEO sh c (Some vs))) ->
     encref (match userOf (typ c) with Some id => byKind F32 F64 C U id (kenc m (kindTy (typ c))) | None => kenc m (kindTy (typ c)) end) (asVar (apply (S n) w v))).
  { intros sh cs vs a -> Ho Hc Hn. cbn [ModelWord.apply]. rewrite Dw, Ho. apply ref_at, ref_view, Hn. }
  destruct Bk as [(B64 & ->)|(B64 & Bk)].
  { inversion Bu; subst. destruct B64 as (e & enc & H1 & H2). assert (Hk : et_kind (T c) = EKSlice e) by (inversion H1 as [ | | ch' _ _ _ M | ch' _ _ _ _ M | ch' _ _ _ _ M]; subst; inversion M; congruence).
    assert (B : base64_slice c) by (exists e, enc; auto). apply (base64_iff c e G J X Hk) in B.
    rewrite Hk in Kt. eapply Leaf; [reflexivity|simpl; rewrite Dw; reflexivity|].
    inversion Kt as [t0 nat0 e0 K1 K2 | | | | | | | | | |n0 k0 K1|t0 id k0 K1]; subst.
    - unfold kenc. cbn [ModelEnc.encode]. rewrite B. apply encref_refl.
    - rewrite <- H in Hf. destruct Hf.
    - destruct K1 as [A|A]; rewrite A in Hf; destruct Hf. }
  remember (et_kind (T c)) as kd eqn:Ek. remember (kindTy (typ c)) as t0 eqn:Et0.
  destruct Kt as [t1 nat0 e0 K1 K2 | | | layout fs cs Hc | e | a e | e | ky e Hky | | ky t1 Hky | n0 k0 K1|t1 id k0 K1]; try (destruct Hf; fail).
  - inversion Bk; subst; try discriminate. inversion Bu; subst. eapply Leaf; [reflexivity|simpl; rewrite Dw; reflexivity|].
    unfold basicOf in K1. destruct (kindTy (typ c)); try discriminate; try (injection K1 as <-; apply encref_refl).
    destruct signed, w0; injection K1 as <-; apply encref_refl.
  - inversion Bk; subst. inversion Bu; subst. eapply Leaf; [reflexivity|simpl; rewrite Dw; reflexivity|]. unfold kenc. cbn [ModelEnc.encode]. now apply ref_iface.
  - inversion Bk; subst. inversion Bu; subst. eapply Leaf; [reflexivity|simpl; rewrite Dw; reflexivity|]. unfold kenc. cbn [ModelEnc.encode]. now apply ref_iface.
  - inversion Bk; subst.
    + inversion Bu; subst. destruct fs; [|discriminate]. eapply Any; [reflexivity|reflexivity|reflexivity|reflexivity|reflexivity].
    + inversion Bu as [|sh cs0 a vs Ho Hch]; subst. eapply Node; [reflexivity|exact Ho|exact Hch|].
      unfold node. cbn [eo_shape eo_refs eo_type]. rewrite <- Et0. unfold kenc.
      destruct fs as [|f0 fs]; [destruct cs; [congruence|discriminate]|].
      change (encode (S m) (TStruct layout (f0 :: fs))) with (structEncoder F32 F64 C G32 G64 (map (fun fd => addField F32 F64 C fd (ModelEnc.preferPtrEncoder F32 F64 C E U G32 G64 (f_type fd) (encode m (f_type fd)))) (f0 :: fs))).
      apply ref_struct. clear - I Hm Hch Hc TP PT D NO LO. set (l := f0 :: fs) in *. clearbody l. clear f0 fs. revert l Hc.
      induction Hch as [|e v cs vs Hv Hch IH]; intros [|f fs] Hc; try discriminate; [constructor|]. injection Hc as H1 H2. simpl. constructor.
      * exists f, (ModelEnc.preferPtrEncoder F32 F64 C E U G32 G64 (f_type f) (encode m (f_type f))), (ref_to (apply n) (f_type f) v). split; auto. split; auto.
        rewrite <- H1. now apply ref_prefer.
      * apply IH; auto.
  - inversion Bk; subst. inversion Bu as [|sh cs0 a vs Ho Hch]; subst. inversion Hch as [|e0 v0 cs1 vs1 Hv Hn]; subst. inversion Hn; subst.
    eapply Node; [reflexivity|exact Ho|exact Hch|]. unfold node. cbn [eo_shape eo_refs eo_type]. rewrite (kind_elem c (typ e)) by (rewrite <- Et0; auto).
    unfold kenc. apply ref_pointer. now apply ref_child.
  - destruct a as [|a]; inversion Bk; subst.
    + inversion Bu; subst. eapply Any; [reflexivity|reflexivity|reflexivity|reflexivity|reflexivity].
    + inversion Bu as [|sh cs0 a0 vs Ho Hch]; subst. inversion Hch as [|e0 v0 cs1 vs1 Hv Hn]; subst. inversion Hn; subst.
      eapply Node; [reflexivity|exact Ho|exact Hch|]. unfold node. cbn [eo_shape eo_refs eo_type]. rewrite (kind_elem c (typ e)) by (rewrite <- Et0; eauto).
      unfold kenc. cbn [ModelEnc.encode]. apply ref_array. now apply ref_prefer.
  - inversion Bk; subst. inversion Bu as [|sh cs0 a vs Ho Hch]; subst. inversion Hch as [|e0 v0 cs1 vs1 Hv Hn]; subst. inversion Hn; subst.
    eapply Node; [reflexivity|exact Ho|exact Hch|]. unfold node. cbn [eo_shape eo_refs eo_type]. rewrite (kind_elem c (typ e)) by (rewrite <- Et0; auto).
    unfold kenc. cbn [ModelEnc.encode]. rewrite (base64_iff c e G J X (eq_sym Ek)) in B64.
    assert (A : match under (typ e) with TInt false W8 => base64Encoder F32 F64 C G32 G64 | _ => sliceEncoder F32 F64 C G32 G64 (ModelEnc.preferPtrEncoder F32 F64 C E U G32 G64 (typ e) (encode m (typ e))) end = sliceEncoder F32 F64 C G32 G64 (ModelEnc.preferPtrEncoder F32 F64 C E U G32 G64 (typ e) (encode m (typ e)))).
    { destruct (under (typ e)); auto. destruct signed; auto. destruct w0; auto. congruence. }
    rewrite A. apply ref_slice. now apply ref_prefer.
  - inversion Bk; subst. inversion Bu as [|sh cs0 a vs Ho Hch]; subst. inversion Hch as [|e0 v0 cs1 vs1 Hv Hn]; subst. inversion Hn; subst.
    eapply Node; [reflexivity|exact Ho|exact Hch|]. unfold node. cbn [eo_shape eo_refs eo_type]. rewrite <- Et0. rewrite (kind_elem c (typ e)) by (rewrite <- Et0; eauto).
    unfold kenc. cbn [ModelEnc.encode]. destruct (EncFacts.encodable_some F32 F64 C U G32 G64 ky Hky) as (ke & ->). apply ref_map. now apply ref_child.
  - inversion Bk; subst. inversion Bu; subst. eapply Any; [reflexivity|reflexivity|reflexivity|reflexivity|reflexivity].
  - inversion Bk; subst. inversion Bu; subst. eapply Any; [reflexivity|reflexivity| |reflexivity|reflexivity].
    unfold kenc. cbn [ModelEnc.encode]. now rewrite (EncFacts.encodable_none F32 F64 C U G32 G64 ky Hky).
  - destruct K1 as [A|A]; rewrite A in Hf; destruct Hf.
Qed.
(** user-defined types *)
Lemma user_kind c id e : userOf (typ c) = Some id -> et_kind (T c) <> EKPtr e.
Proof.
  intros Eu Hk. pose proof (kind_ty c (user_global _ _ Eu)) as K. unfold ModelWord.kindTy in K. rewrite Eu, Hk in K. pose proof (flat_under id) as Hf.
  inversion K as [t0 nat0 e0 K1 K2 | | | |e' A| | | | | |n0 k0 K1|t0 id0 k0 K1]; subst.
  - eapply (nk_pointer _ _ _ _ _ NO); eauto.
  - rewrite <- H in Hf. destruct Hf.
  - destruct K1 as [A|A]; rewrite A in Hf; destruct Hf.
Qed.
Lemma pshape_bad t : under t = TBad -> ~ pshape t.
Proof.
  intros H K. assert (A : forall t, pshape t -> under t <> TBad).
  { induction 1; simpl; try discriminate.
    - destruct (te_type F32 F64 C E n) eqn:Et; try discriminate. inversion H0. destruct H1; discriminate.
    - destruct H0; subst; discriminate. }
  exact (A _ K H).
Qed.
Lemma indir_false c : et_indir (T c) = false -> pshape (typ c) \/ under (typ c) = TBad.
Proof. intros H. destruct (under (typ c)) eqn:Et; auto; left; apply (ds_indir _ _ _ _ _ _ _ _ _ (D c)); auto; congruence. Qed.
Lemma load_store c id x : userOf (typ c) = Some id -> et_indir (T c) = false -> load (typ c) (store (typ c) (VObj x)) = VObj x.
Proof.
  intros Eu Hi. apply LO. eapply UW; eauto. destruct (indir_false c Hi) as [H|H]; auto. unfold ModelEnc.userOf in Eu. rewrite H in Eu. discriminate.
Qed.
Lemma ref_given c id (f : nat -> encoder) : userOf (typ c) = Some id -> et_indir (T c) = true ->
  encref (f id) (asVar (methodW F32 F64 C E G32 G64 typ T load (asGiven F32 F64 C) f c)).
Proof.
  intros Eu Hi. constructor; simpl; unfold methodEnc; rewrite ?Eu; auto. intros v q s s' _. unfold unpack. now rewrite Hi.
Qed.
Lemma ref_word c id (f : nat -> encoder) : userOf (typ c) = Some id -> et_indir (T c) = false ->
  (forall v q s s', en_Encode (f id) (Some v) q s = SOk s' -> (exists x, v = VObj x) \/ forall v', en_Encode (f id) (Some v') q s = SOk s') ->
  encref (f id) (asVar (methodW F32 F64 C E G32 G64 typ T load (firstWord F32 F64 C typ store) f c)).
Proof.
  intros Eu Hi Hv. constructor; simpl; unfold methodEnc; rewrite ?Eu; auto. intros v q s s' _ H. unfold unpack. rewrite Hi.
  destruct (Hv _ _ _ _ H) as [(x & ->)|A]; auto. now rewrite (load_store c id x Eu Hi).
Qed.
Lemma json_arg id v q s s' : en_Encode (jsonMarshalerEncoder F32 F64 C E U G32 G64 e32 e64 id) (Some v) q s = SOk s' ->
  (exists x, v = VObj x) \/ forall v', en_Encode (jsonMarshalerEncoder F32 F64 C E U G32 G64 e32 e64 id) (Some v') q s = SOk s'.
Proof. simpl. unfold ifNoError. destruct (sm_error s); auto. simpl. destruct v; try discriminate. eauto. Qed.
Lemma text_arg id v q s s' : en_Encode (textMarshalerEncoder F32 F64 C E U G32 G64 e32 e64 id) (Some v) q s = SOk s' ->
  (exists x, v = VObj x) \/ forall v', en_Encode (textMarshalerEncoder F32 F64 C E U G32 G64 e32 e64 id) (Some v') q s = SOk s'.
Proof. simpl. unfold ifNoError. destruct (sm_error s); auto. simpl. destruct v; try discriminate. eauto. Qed.
Lemma kenc_under m id : encode (S m) (ma_under _ _ _ U id) = kenc m (ma_under _ _ _ U id).
Proof. unfold kenc. destruct (ma_under _ _ _ U id) eqn:Eu; auto. exfalso. eapply (nk_pointer _ _ _ _ _ NO); eauto. Qed.
Lemma user_ref m n c ch v w id tk : userOf (typ c) = Some id -> tk = TJson id \/ tk = TText id -> (forall m', m' < m -> inner m' /\ rooted m') -> m <= n ->
  echooses c ch -> built n c ch v -> deref w = Some (typ c) -> encref (encode (S m) tk) (asVar (apply (S n) w v)).
Proof.
  intros Eu Htk IH Hm Hc Bu Dw. pose proof (user_global _ _ Eu) as G.
  assert (Hk : encode (S m) tk = match ma_json _ _ _ U id, ma_text _ _ _ U id with
    | RValue, _ => jsonMarshalerEncoder F32 F64 C E U G32 G64 e32 e64 id | _, RValue => textMarshalerEncoder F32 F64 C E U G32 G64 e32 e64 id
    | _, _ => byKind F32 F64 C U id (encode m (ma_under _ _ _ U id)) end) by (destruct Htk; subst; auto).
  rewrite Hk. apply choice in Hc as [(g & A & _)|(_ & [(J & M)|(J & [(X & M)|(X & K)])])].
  - congruence.
  - apply json_iff, (user_json _ _ Eu) in J. rewrite J. inversion M as [Hi|e Hi K1|e Hi K1|Hi K1]; subst; try (exfalso; eapply user_kind; eauto; fail); inversion Bu; subst; cbn [ModelWord.apply leaf].
    + now apply ref_given.
    + apply ref_word; auto. apply json_arg.
  - assert (Nj : ma_json _ _ _ U id <> RValue) by (intros A; apply (user_json _ _ Eu), json_iff in A; congruence).
    apply (text_iff c J), (user_text _ _ Eu) in X. rewrite X.
    replace (match ma_json _ _ _ U id with RValue => _ | _ => _ end) with (textMarshalerEncoder F32 F64 C E U G32 G64 e32 e64 id) by (destruct (ma_json _ _ _ U id); congruence).
    inversion M as [Hi|e Hi K1|e Hi K1|Hi K1]; subst; try (exfalso; eapply user_kind; eauto; fail); inversion Bu; subst; cbn [ModelWord.apply leaf].
    + now apply ref_given.
    + apply ref_word; auto. apply text_arg.
  - assert (Nj : ma_json _ _ _ U id <> RValue) by (intros A; apply (user_json _ _ Eu), json_iff in A; congruence).
    assert (Nx : ma_text _ _ _ U id <> RValue) by (intros A; apply (user_text _ _ Eu), (text_iff c J) in A; congruence).
    assert (R : encref (byKind F32 F64 C U id (encode m (ma_under _ _ _ U id))) (asVar (apply (S n) w v))).
    { destruct m as [|m'].
      - constructor; simpl; try discriminate; intros v0; destruct v0; discriminate.
      - destruct (IH m') as (I & R); [lia|]. pose proof (kind_ref m' n c ch v w I R ltac:(lia) G J X K Bu Dw) as Z.
        unfold ModelWord.kindTy in Z. rewrite Eu in Z. now rewrite kenc_under. }
    destruct (ma_json _ _ _ U id); try congruence; destruct (ma_text _ _ _ U id); try congruence; exact R.
Qed.
Lemma iface_indir c j : typ c = TRef j -> te_type _ _ _ E j = TIface -> et_indir (T c) = true.
Proof.
  intros Ht Hj. destruct (et_indir (T c)) eqn:Hi; auto. exfalso. destruct (indir_false c Hi) as [A|A]; rewrite Ht in A.
  - inversion A as [| | | |n B|t id B]; subst; [|destruct B; discriminate]. rewrite Hj in B. inversion B. destruct H; discriminate.
  - simpl in A. congruence.
Qed.
Lemma packed_ref c j (f : nat -> encoder) n w l : typ c = TRef j -> te_type _ _ _ E j = TIface ->
  leaf F32 F64 C E U G32 G64 e32 e64 cfgHTML typ T load store userEnc (value n) w l = methodW F32 F64 C E G32 G64 typ T load (asGiven F32 F64 C) f c ->
  encref (packedMarshalerEncoder F32 F64 C G32 G64) (asVar (apply (S n) w (ELeaf l))).
Proof.
  intros Ht Hj Hl. cbn [ModelWord.apply]. rewrite Hl. assert (Eu : userOf (typ c) = None) by (rewrite Ht; unfold ModelEnc.userOf; simpl; now rewrite Hj).
  constructor; simpl; unfold methodEnc; rewrite Eu; auto. intros v q s s' _. unfold unpack. now rewrite (iface_indir c j Ht Hj).
Qed.
Lemma inner_step M : (forall m, m < M -> inner m /\ rooted m) -> inner M.
Proof.
  intros IH n c x v w Hm Hx Hs Dw. destruct M as [|m]; [apply ref_bad|]. destruct n as [|n]; [lia|].
  destruct (einner_built _ _ _ _ Hx Hs) as (ch & Hc & Bu). destruct (IH m) as (I & R); [lia|].
  destruct (userOf (typ c)) as [id|] eqn:Eu.
  { destruct (typ c) eqn:Et; try discriminate.
    - injection Eu as ->. rewrite <- Et in Dw. eapply user_ref with (id := id); eauto; [now rewrite Et|lia].
    - injection Eu as ->. rewrite <- Et in Dw. eapply user_ref with (id := id); eauto; [now rewrite Et|lia].
    - cbn [ModelEnc.encode]. pose proof Eu as Eu'. unfold ModelEnc.userOf in Eu'. simpl in Eu'.
      assert (Ed : ma_dyn _ _ _ U n0 = None) by (destruct (ma_dyn _ _ _ U n0) eqn:Ed; auto; rewrite (nk_dyn _ _ _ _ _ NO n0) in Eu' by congruence; discriminate).
      rewrite Ed. rewrite <- Et in Dw. destruct m as [|m]; [destruct (te_type _ _ _ E n0); try discriminate; apply ref_bad|].
      assert (Z : encref (encode (S m) (te_type _ _ _ E n0)) (asVar (apply (S n) w v))).
      { eapply user_ref with (id := id); eauto; [rewrite Et; auto| |lia]. destruct (te_type _ _ _ E n0); try discriminate; injection Eu' as ->; auto. }
      destruct (te_type _ _ _ E n0); try discriminate; exact Z. }
  assert (Ptr : forall t', typ c = TPtr t' -> encref (encode (S m) (typ c)) (asVar (apply (S n) w v))).
  { intros t' Et. destruct (ptr_kind c t' Et) as (e & Ek & Ee). subst t'. rewrite Et. cbn [ModelEnc.encode].
    destruct (ptr_choice c e ch Et Ek Hc) as [(Sp & ->)|[(id & Eu' & Ej & ->)|(id & Eu' & Ej & Ex & ->)]].
    - rewrite Sp. inversion Bu as [|sh cs0 a vs Ho Hch]; subst. inversion Hch as [|e0 v0 cs1 vs1 Hv Hn]; subst. inversion Hn; subst.
      cbn [ModelWord.apply]. apply ref_at. rewrite Dw, Et. unfold ModelWord.viewed. simpl. rewrite Ho. unfold node. cbn [eo_shape eo_refs eo_type].
      rewrite (kind_elem c (typ e)) by (left; unfold ModelWord.kindTy; rewrite Eu, Et; auto). apply ref_pointer. apply ref_child; auto; lia.
    - unfold ModelEnc.special. rewrite Eu', Ej. inversion Bu; subst. cbn [ModelWord.apply leaf]. apply ref_at. unfold pointerMethodEnc. rewrite Et, Eu'. apply encref_refl.
    - unfold ModelEnc.special. rewrite Eu', Ej, Ex. inversion Bu; subst. cbn [ModelWord.apply leaf]. apply ref_at. unfold pointerMethodEnc. rewrite Et, Eu'. apply encref_refl. }
  destruct (choice _ _ Hc) as [(g & G & ->)|(G & [(J & Mm)|(J & [(X & Mm)|(X & K)])])].
  - inversion Bu; subst. cbn [ModelWord.apply leaf]. apply ref_at. unfold SpecWord.globalOf in G. destruct (typ c) eqn:Et; try discriminate; simpl in G; try (injection G as <-; apply encref_refl).
    cbn [ModelEnc.encode]. destruct (ma_dyn _ _ _ U n0) as [d|] eqn:Ed.
    + rewrite (nk_dyn _ _ _ _ _ NO n0) in G by congruence. destruct d; injection G as <- || discriminate; apply encref_refl.
    + destruct (te_type _ _ _ E n0) eqn:Ej; try discriminate; injection G as <-; destruct m; try apply ref_bad; apply encref_refl.
  - apply json_iff in J. inversion J as [t' id' H1 H2 | t' id' H1 H2 | j d H1 H2]; subst.
    + apply user_some in H1. congruence.
    + match goal with A : TPtr _ = typ c |- _ => rewrite A; eapply Ptr; symmetry; exact A end.
    + assert (Hj : typ c = TRef j) by auto. assert (Ej : te_type _ _ _ E j = TIface) by (apply (nk_dyn _ _ _ _ _ NO); congruence).
      inversion Mm as [Hi|e Hi K1|e Hi K1|Hi K1]; subst; try (rewrite (iface_indir c j) in Hi by auto; discriminate). inversion Bu; subst.
      rewrite Hj in G. cbn [ModelEnc.encode]. rewrite H1. destruct H2 as [-> | ->].
      * unfold SpecWord.globalOf in G. simpl in G. rewrite Ej, H1 in G. discriminate.
      * eapply packed_ref; eauto. reflexivity.
  - apply (text_iff c J) in X. inversion X as [t' id' H1 H2 | t' id' H1 H2 | j d H1 H2]; subst.
    + apply user_some in H1. congruence.
    + match goal with A : TPtr _ = typ c |- _ => rewrite A; eapply Ptr; symmetry; exact A end.
    + assert (Hj : typ c = TRef j) by auto. assert (Ej : te_type _ _ _ E j = TIface) by (apply (nk_dyn _ _ _ _ _ NO); congruence).
      inversion Mm as [Hi|e Hi K1|e Hi K1|Hi K1]; subst; try (rewrite (iface_indir c j) in Hi by auto; discriminate). inversion Bu; subst.
      rewrite Hj in G. cbn [ModelEnc.encode]. rewrite H1. destruct H2 as [-> | ->].
      * unfold SpecWord.globalOf in G. simpl in G. rewrite Ej, H1 in G. discriminate.
      * eapply packed_ref; eauto. reflexivity.
  - assert (Z : forall m', m' <= m -> encref (kenc m' (under (typ c))) (asVar (apply (S n) w v))).
    { intros m' Hm'. destruct (IH m') as (I' & R'); [lia|]. pose proof (kind_ref m' n c ch v w I' R' ltac:(lia) G J X K Bu Dw) as Z. rewrite Eu in Z.
      unfold ModelWord.kindTy in Z. now rewrite Eu in Z. }
    destruct (typ c) eqn:Et; try discriminate; try (exact (Z m (le_n m))); eauto.
    simpl in Z. cbn [ModelEnc.encode]. destruct (ma_dyn _ _ _ U n0) as [d|] eqn:Ed.
    + exfalso. assert (Ej : te_type _ _ _ E n0 = TIface) by (apply (nk_dyn _ _ _ _ _ NO); congruence).
      unfold SpecWord.globalOf in G. simpl in G. rewrite Ej, Ed in G. destruct d; try discriminate.
      * assert (A : et_json (T c) = true) by (apply json_iff; rewrite Et; econstructor; eauto; right; auto). congruence.
      * assert (A : et_text (T c) = true) by (apply (text_iff c J); rewrite Et; econstructor; eauto; right; auto). congruence.
    + destruct (te_type _ _ _ E n0) eqn:Ej; try (exact (Z m (le_n m))); (destruct m as [|m]; [apply ref_bad|exact (Z m (Nat.le_succ_diag_r m))]).
Qed.
(** ** The data words of interfaces *)
Lemma nil_pshape m : forall t v, storedNil F32 F64 C E U m t v = Some true -> pshape t.
Proof.
  induction m as [|m IH]; intros t v; simpl; [discriminate|]. destruct t as [| | | | | | |id|id|t|n t|t|ky t|layout fs| | |n|]; try discriminate.
  - destruct v; try discriminate. intros H. eapply ps_user; eauto.
  - destruct v; try discriminate. intros H. eapply ps_user; eauto.
  - intros _. constructor.
  - destruct n as [|[|n]]; try discriminate. destruct v as [| | | | | | | |[|v' [|]]| | | |]; try discriminate. intros H. constructor; eauto.
  - intros _. constructor.
  - destruct layout as [|t' [|]]; try discriminate. destruct v as [| | | | | | | | | | |[|v' [|]]|]; try discriminate. intros H. constructor; eauto.
  - intros H. constructor; eauto.
Qed.
Lemma nil_word m : forall t v p b, holds t p v -> storedNil F32 F64 C E U m t v = Some b -> (b = true <-> p = PNil).
Proof.
  induction m as [|m IH]; intros t v p b H; simpl; [discriminate|].
  destruct H as [t|t v|ky t|ky t l|t fs p v H|t p v H|n p v H|t id p x Hu H]; try (intros [= <-]; split; intros; congruence); eauto.
  destruct Hu; subst; eauto.
Qed.
Lemma kind_pshape t : pshape t -> pshape (kindTy t).
Proof.
  intros H. unfold ModelWord.kindTy, ModelEnc.userOf. destruct H as [t|ky t|t fs H|t H|n H|t id Hu H]; simpl; try (constructor; auto; fail).
  - destruct (te_type _ _ _ E n) eqn:Et; auto; inversion H as [| | | | |t' id' Hu Hs]; subst; destruct Hu as [A|A]; try discriminate; injection A as ->; auto.
  - destruct Hu; subst; auto.
Qed.
Lemma pshape_kind t : pshape (kindTy t) -> pshape t.
Proof.
  unfold ModelWord.kindTy, ModelEnc.userOf. destruct t; simpl; auto; intros H.
  - eapply ps_user; eauto.
  - eapply ps_user; eauto.
  - apply ps_ref. destruct (te_type _ _ _ E n) eqn:Et; auto; eapply ps_user; eauto.
Qed.
Lemma empty_kind t : isEmptyStruct F32 F64 C E U t = true -> globalOf t = None /\ (exists layout, kindTy t = TStruct layout []) /\
  forall id, userOf t = Some id -> ma_json _ _ _ U id <> RValue /\ ma_text _ _ _ U id <> RValue.
Proof.
  intros H. assert (G : globalOf t = None).
  { destruct (userOf t) as [id|] eqn:Eu; [eapply user_global; eauto|]. unfold ModelEnc.userOf in Eu. unfold isEmptyStruct in H. unfold SpecWord.globalOf.
    destruct (under t) eqn:Et; try discriminate. destruct t; auto. destruct (ma_dyn _ _ _ U n) eqn:Ed; auto. simpl in Et. rewrite (nk_dyn _ _ _ _ _ NO n) in Et by congruence. discriminate. }
  split; auto. unfold isEmptyStruct in H. unfold ModelWord.kindTy, ModelEnc.userOf. destruct (under t) eqn:Et; try discriminate.
  - apply andb_true_iff in H as (H1 & H2). split.
    + destruct (under (ma_under _ _ _ U id)) as [| | | | | | | | | | | | |layout [|]| | | |] eqn:E2; try discriminate. exists layout.
      unfold ModelVal.under in E2. destruct (ma_under _ _ _ U id) eqn:E3; try discriminate; try congruence. exfalso. destruct (nk_under _ _ _ _ _ NO id n); congruence.
    + intros id' [= <-]. unfold plainUser in H1. destruct (ma_json _ _ _ U id), (ma_text _ _ _ U id); split; congruence.
  - apply andb_true_iff in H as (H1 & H2). split.
    + destruct (under (ma_under _ _ _ U id)) as [| | | | | | | | | | | | |layout [|]| | | |] eqn:E2; try discriminate. exists layout.
      unfold ModelVal.under in E2. destruct (ma_under _ _ _ U id) eqn:E3; try discriminate; try congruence. exfalso. destruct (nk_under _ _ _ _ _ NO id n); congruence.
    + intros id' [= <-]. unfold plainUser in H1. destruct (ma_json _ _ _ U id), (ma_text _ _ _ U id); split; congruence.
  - destruct fields; [|discriminate]. split; [eauto|discriminate].
Qed.
Lemma empty_choice c ch : isEmptyStruct F32 F64 C E U (typ c) = true -> echooses c ch -> ch = inl ELEmptyStruct.
Proof.
  intros H Hc. destruct (empty_kind _ H) as (G & (layout & Hk) & Hm). pose proof (kind_ty c G) as K. rewrite Hk in K.
  assert (Ek : et_kind (T c) = EKStruct []).
  { inversion K as [t0 nat0 e0 K1 K2 | | |? ? cs K1| | | | | | |n0 k0 K1|t0 id0 k0 K1]; subst; try discriminate; [|destruct K1; discriminate]. destruct cs; [auto|discriminate]. }
  assert (Nt : forall t', typ c <> TPtr t') by (intros t' A; rewrite A in Hk; discriminate).
  assert (Nd : forall m (i : dyn -> Prop), (forall id, userOf (typ c) = Some id -> m id <> RValue) -> ~ has_method F32 F64 C E U m i (typ c)).
  { intros m i Hn A. inversion A as [t' id' H1 H2 | t' id' H1 H2 | n d H1 H2]; subst.
    - eapply Hn; eauto. now apply user_some.
    - eapply Nt. symmetry. eauto.
    - match goal with B : TRef n = typ c |- _ => rewrite <- B in Hk end. unfold ModelWord.kindTy, ModelEnc.userOf in Hk. simpl in Hk.
      rewrite (nk_dyn _ _ _ _ _ NO n) in Hk by congruence. discriminate. }
  apply choice in Hc as [(g & A & _)|(_ & [(J & M)|(J & [(X & M)|(X & Bk)])])].
  - congruence.
  - apply json_iff in J. apply Nd in J as []. intros id Eu. apply Hm, Eu.
  - apply (text_iff c J) in X. apply Nd in X as []. intros id Eu. apply Hm, Eu.
  - destruct Bk as [((e & enc & B & _) & _)|(_ & B)].
    + inversion B as [ | | ch' _ _ _ M | ch' _ _ _ _ M | ch' _ _ _ _ M]; subst; inversion M; congruence.
    + rewrite Ek in B. inversion B; subst; congruence.
Qed.
Lemma pshape_kinds t kd : pshape t -> flat t -> kind_of t kd ->
  (exists e, kd = EKPtr e) \/ (exists e, kd = EKMap (Some e)) \/ (exists cs, kd = EKStruct cs) \/ (exists e, kd = EKArray false e) \/ kd = EKMap None.
Proof.
  intros Hp Hf K. destruct K as [t nat0 e0 K1 K2| | |layout fs cs Hc|e|a e|e|ky e| |ky t|n k0 K|t id k0 Hu K]; try (destruct Hf; fail); eauto 8;
    try (inversion Hp as [| | | | |? ? A]; subst; destruct A; discriminate).
  - exfalso. destruct Hp as [| | | | |? ? A]; try discriminate. destruct A; subst; destruct Hf.
  - inversion Hp as [| | |t H| |? ? A]; subst; [eauto 8|destruct A; discriminate].
  - destruct Hu; subst; destruct Hf.
Qed.
(** what is used as it is for types with the shape of a pointer *)
Lemma same_choice c ch : pshape (typ c) -> et_indir (T c) = false -> echooses c ch -> (forall e, ch <> inr (EPtr, [e])) -> ~ needs_address T c ch ->
  ch = inl ELEmptyStruct \/ ch = inl (ELNotSupported c).
Proof.
  intros Hp Hi Hc Np Na. apply choice in Hc as [(g & G & ->)|(G & [(J & M)|(J & [(X & M)|(X & Bk)])])].
  - exfalso. unfold SpecWord.globalOf in G. destruct Hp as [t|ky t|t fs H|t H|n H|t id Hu H]; try discriminate.
    + simpl in G. destruct (te_type _ _ _ E n) eqn:Et; try (inversion H as [| | | | |? ? A]; destruct A; discriminate);
        destruct (ma_dyn _ _ _ U n) eqn:Ed; try discriminate; pose proof (nk_dyn _ _ _ _ _ NO n); rewrite Et, Ed in *;
        match goal with A : _ -> _ = TIface |- _ => exfalso; assert (B : Some d <> None) by discriminate; specialize (A B); discriminate end.
    + destruct Hu; subst; discriminate.
  - inversion M; subst; try congruence; exfalso; try (eapply Np; reflexivity); apply Na; exact Logic.I.
  - inversion M; subst; try congruence; exfalso; try (eapply Np; reflexivity); apply Na; exact Logic.I.
  - pose proof (pshape_kinds _ _ (kind_pshape _ Hp) (flat_kind _) (kind_ty c G)) as K.
    destruct Bk as [((e & enc & B & _) & ->)|(_ & B)].
    + exfalso. assert (Ek : et_kind (T c) = EKSlice e) by (inversion B as [ | | ch' _ _ _ M | ch' _ _ _ _ M | ch' _ _ _ _ M]; subst; inversion M; congruence).
      rewrite Ek in K. destruct K as [(? & K)|[(? & K)|[(? & K)|[(? & K)|K]]]]; discriminate.
    + destruct K as [(? & K)|[(? & K)|[(? & K)|[(? & K)|K]]]]; rewrite K in B; inversion B; subst; auto; exfalso; try (eapply Np; reflexivity); try (apply Na; exact Logic.I); apply Na; exact Hi.
Qed.
Notation wordTy := (wordTy code T).
Lemma sees_direct n v x : esees n (Some v) (ETDirect x) -> exists v', v = EDirect v' /\ esees n (Some v') x.
Proof. intros H. inversion H; subst. eauto. Qed.
Lemma choice_fun c ch ch' : echooses c ch -> echooses c ch' -> ch = ch'.
Proof. apply EncCache.chooses_fun. Qed.
Lemma is_empty c : echooses c (inl ELEmptyStruct) -> isEmptyStruct F32 F64 C E U (typ c) = true.
Proof.
  intros Hc. apply choice in Hc as [(g & _ & A)|(G & [(J & M)|(J & [(X & M)|(X & Bk)])])]; try discriminate; try (inversion M; fail).
  assert (Hk : et_kind (T c) = EKStruct []) by (destruct Bk as [(_ & A)|(_ & B)]; [discriminate|]; inversion B; auto).
  pose proof (kind_ty c G) as K. rewrite Hk in K. pose proof (flat_kind (typ c)) as Hf.
  assert (Et : exists layout, kindTy (typ c) = TStruct layout []).
  { remember (kindTy (typ c)) as t0 eqn:Et0. remember (EKStruct []) as kd eqn:Ekd.
    destruct K as [t nat0 e0 K1 K2| | |layout fs cs Hc'|e'|a e'|e'|ky e'| | |n k0 K|t id k0 Hu K]; try discriminate; try (destruct Hf; fail).
    - injection Ekd as ->. destruct fs; [eauto|discriminate].
    - destruct Hu as [A|A]; rewrite A in Hf; destruct Hf. }
  destruct Et as (layout & Et). unfold ModelWord.kindTy in Et. unfold isEmptyStruct. destruct (userOf (typ c)) as [id|] eqn:Eu; [|now rewrite Et].
  assert (Nj : ma_json _ _ _ U id <> RValue) by (intros A; apply (user_json _ _ Eu), json_iff in A; congruence).
  assert (Nx : ma_text _ _ _ U id <> RValue) by (intros A; apply (user_text _ _ Eu), (text_iff c J) in A; congruence).
  assert (Pu : plainUser F32 F64 C U id = true) by (unfold plainUser; destruct (ma_json _ _ _ U id), (ma_text _ _ _ U id); congruence).
  destruct (user_is _ _ Eu) as [-> | ->]; rewrite Pu, Et; reflexivity.
Qed.
Lemma bad_choice c ch : under (typ c) = TBad -> echooses c ch -> exists l, ch = inl (ELNotSupported l).
Proof.
  intros Hb Hc. assert (Eu : userOf (typ c) = None) by (unfold ModelEnc.userOf; now rewrite Hb).
  assert (Nd : forall m (i : dyn -> Prop), ~ has_method F32 F64 C E U m i (typ c)).
  { intros m i A. inversion A as [t' id' H1 H2 | t' id' H1 H2 | n d H1 H2]; subst.
    - apply user_some in H1. congruence.
    - match goal with B : TPtr _ = typ c |- _ => rewrite <- B in Hb end. discriminate.
    - match goal with B : TRef n = typ c |- _ => rewrite <- B in Hb end. simpl in Hb. rewrite (nk_dyn _ _ _ _ _ NO n) in Hb by congruence. discriminate. }
  apply choice in Hc as [(g & A & _)|(G & [(J & M)|(J & [(X & M)|(X & Bk)])])].
  - exfalso. unfold SpecWord.globalOf in A. rewrite Hb in A. destruct (typ c); try discriminate. destruct (ma_dyn _ _ _ U n) eqn:Ed; try discriminate.
    simpl in Hb. rewrite (nk_dyn _ _ _ _ _ NO n) in Hb by congruence. discriminate.
  - apply json_iff in J. now apply Nd in J.
  - apply (text_iff c J) in X. now apply Nd in X.
  - pose proof (kind_ty c G) as K. unfold ModelWord.kindTy in K. rewrite Eu, Hb in K.
    destruct Bk as [((e & enc & B & _) & _)|(_ & B)].
    + exfalso. assert (Ek : et_kind (T c) = EKSlice e) by (inversion B as [ | | ch' _ _ _ M | ch' _ _ _ _ M | ch' _ _ _ _ M]; subst; inversion M; congruence).
      rewrite Ek in K. inversion K; subst. match goal with A : _ \/ _ |- _ => destruct A; discriminate end.
    + remember (et_kind (T c)) as kd eqn:Ekd. clear Ekd. inversion K as [? ? ? K1| | | | | | | | | | |? ? ? K1]; subst; try discriminate; try (destruct K1; discriminate); inversion B; subst; eauto.
Qed.
Lemma root_pointer c e : echooses c (inr (EPtr, [e])) -> et_kind (T c) = EKPtr e /\ kindTy (typ c) = TPtr (typ e) /\ userOf (typ c) = None.
Proof.
  intros Hc. assert (Hk : globalOf (typ c) = None /\ et_kind (T c) = EKPtr e).
  { apply choice in Hc as [(g & _ & A)|(G & [(J & M)|(J & [(X & M)|(X & Bk)])])].
    - discriminate.
    - inversion M; auto.
    - inversion M; auto.
    - split; auto. destruct Bk as [(_ & A)|(_ & B)]; [discriminate|]. inversion B; auto. }
  destruct Hk as (G & Hk). split; auto. pose proof (kind_ty c G) as K. rewrite Hk in K. pose proof (flat_kind (typ c)) as Hf.
  remember (kindTy (typ c)) as t0 eqn:Et0. remember (EKPtr e) as kd eqn:Ekd.
  destruct K as [t nat0 e0 K1 K2| | |layout fs cs Hc'|e'|a e'|e'|ky e'| | |n k0 K|t id k0 Hu K]; try discriminate; try (destruct Hf; fail).
  - injection Ekd as ->. split; auto. destruct (userOf (typ c)) as [id|] eqn:Eu; auto. exfalso. unfold ModelWord.kindTy in Et0. rewrite Eu in Et0.
    eapply (nk_pointer _ _ _ _ _ NO); eauto.
  - destruct Hu as [A|A]; rewrite A in Hf; destruct Hf.
Qed.
Lemma address_indir c ch : under (typ c) <> TBad -> echooses c ch -> needs_address T c ch -> et_indir (T c) = false.
Proof.
  intros Hb Hc Na. destruct (choice _ _ Hc) as [(g & G & ->)|(G & [(J & M)|(J & [(X & M)|(X & Bk)])])].
  - destruct Na.
  - inversion M; subst; auto. destruct Na.
  - inversion M; subst; auto. destruct Na.
  - destruct Bk as [(_ & ->)|(_ & B)]; [destruct Na|]. pose proof (kind_ty c G) as K. pose proof (flat_kind (typ c)) as Hf.
    remember (et_kind (T c)) as kd eqn:Ekd. clear Ekd. destruct B; try (destruct Na; fail); try exact Na.
    apply (ds_indir _ _ _ _ _ _ _ _ _ (D c)); auto. apply pshape_kind. remember (EKMap (Some e)) as kd eqn:Ekd.
    remember (kindTy (typ c)) as t0. destruct K; try discriminate; try (destruct Hf; fail); [constructor|]. destruct H as [A|A]; rewrite A in Hf; destruct Hf.
Qed.
Lemma root_step m : (forall m', m' <= m -> inner m') -> rooted m.
Proof.
  intros I n o q s s' Hm Hp. unfold encValue, ModelWord.value. apply ifNoError_mono. destruct o as [(t & v0)|]; auto.
  destruct (Hp t v0 (pt_here _ _ _ _ _)) as (Ht & Hw & v & Hr & Hcm). rewrite Hr.
  assert (Pv : P v0) by (eapply P_part; [exact Hp|]; apply pt_iface, pt_here).
  destruct n as [|n]; [lia|]. destruct (Hcm (S n)) as (x & Hx & Hs). set (c := code t) in *.
  assert (Wt : wordTy t = if et_indir (T c) then TPtr t else t) by reflexivity.
  inversion Hx as [|n' t' e x' Hc Hi|n' t' ch x' Hc Np Na Hi|n' t' ch x' Hc Na Hi]; subst n' t'; try subst x'.
  - destruct (root_pointer c e Hc) as (Hk & Hkt & Eu). rewrite Ht in Hkt, Eu.
    assert (Hu : under t = TPtr (typ e)) by (unfold ModelWord.kindTy in Hkt; now rewrite Eu in Hkt).
    assert (Hps : pshape t) by (apply pshape_kind; rewrite Hkt; constructor).
    assert (Hin : et_indir (T c) = false) by (apply (ds_indir _ _ _ _ _ _ _ _ _ (D c)); rewrite Ht; auto; congruence).
    rewrite Hin in Wt. rewrite Wt. assert (Hes : isEmptyStruct F32 F64 C E U t = false) by (unfold isEmptyStruct; now rewrite Hu). rewrite Hes.
    assert (Hh : holds t (store t v0) v0) by (inversion Hw; auto; contradiction).
    assert (Hv : v0 = VPtr None /\ store t v0 = PNil \/ exists y, v0 = VPtr (Some y) /\ store t v0 = PVar y).
    { assert (A : forall t p v, holds t p v -> under t = TPtr (typ e) -> v = VPtr None /\ p = PNil \/ exists y, v = VPtr (Some y) /\ p = PVar y).
      { clear. induction 1; simpl; intros A; try discriminate; eauto.
        - inversion H; subst; try (rewrite <- H0 in A; discriminate); eauto; rewrite A in *; try discriminate.
          destruct H0; subst; discriminate.
        - destruct H; subst; discriminate. }
      eapply A; eauto. }
    destruct m as [|m]; [discriminate|].
    assert (Hm' : encode (S m) t = pointerEncoder F32 F64 C G32 G64 (encode m (typ e))).
    { destruct t; try discriminate.
      - simpl in Hu. injection Hu as ->. destruct (ptr_choice c e _ Ht Hk Hc) as [(Sp & _)|[(id & _ & _ & A)|(id & _ & _ & _ & A)]]; try discriminate.
        cbn [ModelEnc.encode]. now rewrite Sp.
      - simpl in Hu. cbn [ModelEnc.encode]. rewrite Hu. destruct (ma_dyn _ _ _ U n0) eqn:Ed; auto. rewrite (nk_dyn _ _ _ _ _ NO n0) in Hu by congruence. discriminate. }
    rewrite Hm'. assert (Hd : deref t = Some (typ e)) by (unfold ModelWord.deref; now rewrite Hu).
    destruct (I m ltac:(lia) (S n) e x v t ltac:(lia) Hi Hs Hd) as [R1 R2 R3].
    simpl. destruct Hv as [(-> & ->)|(y & -> & ->)]; simpl.
    + apply (R3 q).
    + apply (R2 y q). eapply P_part; [exact Pv|]. apply pt_ptr, pt_here.
  - destruct (I m (le_n m) (S n) c x v (TPtr (typ c)) Hm Hi Hs eq_refl) as [R1 R2 R3]. rewrite Ht in *.
    assert (Hd : ~ pshape t -> store t v0 = PVar v0) by (intros A; inversion Hw; auto; contradiction).
    assert (Hn : ~ pshape t -> (if isEmptyStruct F32 F64 C E U t then storedNil F32 F64 C E U m t v0 else Some false) <> Some true).
    { intros A B. destruct (isEmptyStruct F32 F64 C E U t); [|discriminate]. apply nil_pshape in B. contradiction. }
    destruct (et_indir (T c)) eqn:Hin.
    + assert (Hps : ~ pshape t).
      { intros A. destruct (under t) eqn:Et; try (eapply pshape_bad; eauto; fail); apply (ds_indir _ _ _ _ _ _ _ _ _ (D c)) in A || (rewrite <- Ht in A; apply (ds_indir _ _ _ _ _ _ _ _ _ (D c)) in A); rewrite ?Ht; congruence. }
      rewrite Wt, (Hd Hps). specialize (Hn Hps). destruct (if isEmptyStruct F32 F64 C E U t then _ else _) as [[|]|]; try congruence; try discriminate. now apply R2.
    + rewrite Wt. destruct (indir_false c Hin) as [Hps|Hb]; rewrite Ht in *.
      * assert (Sc : ch = inl ELEmptyStruct \/ ch = inl (ELNotSupported c)) by (apply (same_choice c); auto; now rewrite Ht).
        destruct Sc as [-> | ->].
        2:{ assert (He : isEmptyStruct F32 F64 C E U t = false).
            { destruct (isEmptyStruct F32 F64 C E U t) eqn:Ee; auto. rewrite <- Ht in Ee. discriminate (empty_choice _ _ Ee Hc). }
            rewrite He. destruct (einner_built _ _ _ _ Hi Hs) as (ch' & Hc' & Bu). assert (ch' = inl (ELNotSupported c)) by (eapply choice_fun; eauto).
            subst ch'. inversion Bu; subst v. intros A. exact (R2 v0 q s s' Pv A). }
        destruct (einner_built _ _ _ _ Hi Hs) as (ch & Hc' & Bu).
        assert (ch = inl ELEmptyStruct).
        { eapply choice_fun; eauto. }
        subst ch. inversion Bu; subst v. simpl in *.
        assert (Hh : holds t (store t v0) v0) by (inversion Hw; auto; contradiction).
        assert (He : isEmptyStruct F32 F64 C E U t = true) by (rewrite <- Ht; now apply is_empty). rewrite He in *.
        destruct (storedNil F32 F64 C E U m t v0) as [b|] eqn:Ee; [|discriminate]. pose proof (nil_word _ _ _ _ _ Hh Ee) as B. destruct b.
        -- intros A. apply R3 in A. destruct B as (B & _). rewrite (B eq_refl). exact A.
        -- intros A. apply R2 in A; auto. destruct (store t v0); auto. destruct B as (_ & B). discriminate (B eq_refl).
      * pose proof (pshape_bad _ Hb) as Hps. rewrite (Hd Hps). specialize (Hn Hps).
        destruct (einner_built _ _ _ _ Hi Hs) as (ch' & Hc' & Bu). destruct (bad_choice c ch') as (l & ->); auto; [now rewrite Ht|]. inversion Bu; subst v.
        destruct (if isEmptyStruct F32 F64 C E U t then _ else _) as [[|]|]; try congruence; try discriminate. intros A. exact (R2 v0 q s s' Pv A).
  - subst x. destruct (sees_direct _ _ _ Hs) as (v' & -> & Hs').
    destruct (I m (le_n m) (S n) c x' v' (TPtr (typ c)) Hm Hi Hs' eq_refl) as [R1 R2 R3].
    assert (Hb : under (typ c) <> TBad).
    { intros A. destruct (bad_choice _ _ A Hc) as (l & ->). exact Na. }
    assert (Hin : et_indir (T c) = false) by (eapply address_indir; eauto).
    assert (Hps : pshape (typ c)) by (now apply (ds_indir _ _ _ _ _ _ _ _ _ (D c))).
    rewrite Ht in *. rewrite Wt, Hin. assert (Hh : holds t (store t v0) v0) by (inversion Hw; auto; contradiction).
    assert (He : isEmptyStruct F32 F64 C E U t = false).
    { destruct (isEmptyStruct F32 F64 C E U t) eqn:Ee; auto. rewrite <- Ht in Ee. rewrite (empty_choice _ _ Ee Hc) in Na. destruct Na. }
    rewrite He. intros A. apply R2 in A; auto. rewrite <- (LO _ _ _ Hh) in A. exact A.
Qed.
Theorem agree m : inner m /\ rooted m.
Proof.
  induction m as [m IH] using lt_wf_ind. assert (I : inner m) by (apply inner_step; auto). split; auto.
  apply root_step. intros m' Hm. destruct (Nat.eq_dec m' m) as [->|]; auto. apply IH. lia.
Qed.
End Facts.
