(** Decoding with two settings of the options: what is accepted with the stricter setting is accepted with the laxer one,
    with a value alike. *)
From Coq Require Import String ZArith List Bool Lia Arith.
From Verif Require Import Base ModelStream ModelStr ModelRead ModelFloat ModelFold ModelOps ModelVal Spec SpecVal SpecBase64 SpecOption StreamStrFacts GrammarFacts TagFacts FoldFacts.
Import ListNotations.
Local Open Scope Z_scope.

(** ** A key equal to a name is found with and without CaseSensitive *)
Lemma decodeRune_size c s : (1 <= snd (decodeRune (c :: s)))%nat.
Proof.
  rewrite StreamStrFacts.decodeRune_eq. unfold StreamStrFacts.adecode. repeat match goal with
  | |- context [match ?x with _ => _ end] => destruct x; cbn [snd]
  end; lia.
Qed.
Lemma runeEqualFold_refl sf a : runeEqualFold sf a a = true.
Proof. unfold runeEqualFold. now rewrite Z.eqb_refl. Qed.
Lemma equalFoldLoop_refl sf n : forall s, (length s <= n)%nat -> equalFoldLoop sf n s s = true.
Proof.
  induction n as [|n IH]; intros [|c s] H; auto; [simpl in H; lia|]. cbn [equalFoldLoop].
  assert (K := decodeRune_size c s). destruct (decodeRune (c :: s)) as [r k]. cbn [snd] in K.
  rewrite runeEqualFold_refl. apply IH. rewrite skipn_length. cbn [length] in *. lia.
Qed.
Lemma equalFoldRight_refl s : Forall (fun c => c < 128) s -> equalFoldRight s s = true.
Proof.
  induction s as [|c s IH]; intros H; auto. inversion H; subst. cbn [equalFoldRight].
  rewrite (proj2 (Z.ltb_lt _ _)) by assumption. rewrite Z.eqb_refl. simpl. auto.
Qed.
Lemma asciiEqualFold_refl s : asciiEqualFold s s = true.
Proof.
  unfold asciiEqualFold. rewrite Nat.eqb_refl. simpl. induction s as [|c s IH]; auto. cbn [asciiFoldLoop]. now rewrite Z.eqb_refl.
Qed.
Lemma simpleLetterEqualFold_refl s : simpleLetterEqualFold s s = true.
Proof.
  unfold simpleLetterEqualFold. rewrite Nat.eqb_refl. simpl. induction s as [|c s IH]; auto. cbn [simpleFoldLoop]. now rewrite Z.eqb_refl.
Qed.
Lemma foldFuncLoop_refl sf s : forall n nl sp, (Forall (fun c => c < 128) s -> Forall (fun c => c < 128) n) -> foldFuncLoop sf s nl sp n n = true.
Proof.
  induction s as [|c s IH]; intros n nl sp H; cbn [foldFuncLoop].
  - destruct sp; [apply equalFoldRight_refl; auto|]. destruct nl; [apply asciiEqualFold_refl|apply simpleLetterEqualFold_refl].
  - destruct (Z.leb_spec 128 c) as [L|L]; [apply equalFoldLoop_refl; auto|].
    assert (K : Forall (fun c => c < 128) s -> Forall (fun c => c < 128) n) by (intros K; apply H; constructor; auto).
    cbv zeta. destruct (negb _); [now apply IH|]. destruct (_ || _); now apply IH.
Qed.
Lemma foldFunc_refl sf n : foldFunc sf n n n = true.
Proof. now apply foldFuncLoop_refl. Qed.
(** the field found with CaseSensitive is found without it *)
Lemma findField_exact sf names key i cs : findField sf true names key = Some i -> findField sf cs names key = Some i.
Proof.
  destruct cs; auto. destruct names as [|n [|n2 r]]; cbn [findField]; auto.
  - unfold findOne. destruct (bytes_eqb key n) eqn:E; [|discriminate]. apply bytes_eqb_iff in E. subst key. now rewrite foldFunc_refl.
  - destruct (_ <=? _)%nat.
    + unfold findSmall. destruct (firstIndex _ _); auto. discriminate.
    + unfold findLarge. destruct (indexGet _ _); auto. discriminate.
Qed.

(** ** The parts of a text *)
Definition part (u t : bytes) : Prop := exists a c, t = a ++ u ++ c.
Lemma part_refl t : part t t.
Proof. exists [], []. now rewrite app_nil_r. Qed.
Lemma part_trans a b c : part a b -> part b c -> part a c.
Proof. intros (x & y & ->) (z & w & ->). exists (z ++ x), (y ++ w). now rewrite !app_assoc. Qed.
Lemma part_mid a u c : part u (a ++ u ++ c).
Proof. now exists a, c. Qed.
Lemma items_parts b ts : items b ts -> Forall (fun t => part t b) ts.
Proof.
  induction 1; repeat constructor; try apply part_mid.
  eapply Forall_impl; [|eassumption]. intros a Ha. apply (part_trans _ _ _ Ha).
  exists (w1 ++ t ++ w2 ++ [44]), []. rewrite app_nil_r, <- !app_assoc. reflexivity.
Qed.
Lemma array_parts t ts : array_text t ts -> Forall (fun u => part u t) ts.
Proof.
  intros H; inversion H; subst; [constructor|]. eapply Forall_impl; [|eapply items_parts; eassumption].
  intros a Ha. apply (part_trans _ _ _ Ha). exists [91], [93]. reflexivity.
Qed.
Lemma pairs_parts b ps : pairs b ps -> Forall (fun p => part (snd p) b) ps.
Proof.
  assert (K : forall w1 k w2 w3 t r, part t (w1 ++ k ++ w2 ++ 58 :: w3 ++ t ++ r)).
  { intros. exists (w1 ++ k ++ w2 ++ 58 :: w3), r. rewrite <- !app_assoc. simpl. now rewrite <- ?app_assoc. }
  induction 1; repeat constructor; try apply K. eapply Forall_impl; [|eassumption]. intros a Ha. apply (part_trans _ _ _ Ha).
  exists (w1 ++ k ++ w2 ++ 58 :: w3 ++ t ++ w4 ++ [44]), []. rewrite app_nil_r, <- !app_assoc. simpl. now rewrite <- !app_assoc.
Qed.
Lemma object_parts t ps : object_text t ps -> Forall (fun p => part (snd p) t) ps.
Proof.
  intros H; inversion H; subst; [constructor|]. eapply Forall_impl; [|eapply pairs_parts; eassumption].
  intros a Ha. apply (part_trans _ _ _ Ha). exists [123], [125]. reflexivity.
Qed.

Section Options.
Variables F32 F64 : floatOps.
Variable C : custom.
Notation gval := (gval F32 F64 C).
Variable E : env F32 F64 C.
Notation zero := (zero F32 F64 C E).
Notation under := (under F32 F64 C E).

Section Base.
Variable base : gval -> gval -> Prop.
Notation alike := (alike F32 F64 C base).
Definition on_ifaces : Prop := forall v w, base v w -> exists S x T y, v = VIface (Some (S, x)) /\ w = VIface (Some (T, y)) /\
  (forall p, x <> VPtr p) /\ (forall p, y <> VPtr p).
Hypothesis OB : on_ifaces.
Hint Constructors SpecOption.alike : core.

Lemma alike_list l : Forall2 alike l l.
Proof. induction l; auto. Qed.
Lemma alike_map (m : list (key * gval)) : Forall2 (fun p q => fst p = fst q /\ alike (snd p) (snd q)) m m.
Proof. induction m; auto. Qed.
Ltac no_base := match goal with H : base _ _ |- _ => apply OB in H; destruct H as (? & ? & ? & ? & ? & ? & ? & ?); try discriminate end.
Lemma alike_obj x w : alike (VObj x) w -> w = VObj x.
Proof. intros H; inversion H; subst; auto. no_base. Qed.
Lemma alike_ptr p w : alike (VPtr p) w -> exists q, w = VPtr q /\ match p, q with Some x, Some y => alike x y | None, None => True | _, _ => False end.
Proof. intros H; inversion H; subst; [exists p; destruct p; auto|no_base|eauto]. Qed.
Lemma alike_arr l w : alike (VArr l) w -> exists m, w = VArr m /\ Forall2 alike l m.
Proof. intros H; inversion H; subst; [eauto using alike_list|no_base|eauto]. Qed.
Lemma alike_struct l w : alike (VStruct l) w -> exists m, w = VStruct m /\ Forall2 alike l m.
Proof. intros H; inversion H; subst; [eauto using alike_list|no_base|eauto]. Qed.
Lemma alike_vmap p w : alike (VMap p) w -> exists q, w = VMap q /\
  Forall2 (fun p q => fst p = fst q /\ alike (snd p) (snd q)) (match p with Some m => m | None => [] end) (match q with Some m => m | None => [] end).
Proof. intros H; inversion H; subst; [exists p; split; auto; apply alike_map|no_base|eauto]. Qed.
(** an interface holds a pointer in both or in none *)
Lemma alike_iface x w : alike (VIface x) w -> exists y, w = VIface y /\
  (forall P p, x = Some (P, VPtr p) -> exists q, y = Some (P, VPtr q) /\ match p, q with Some x, Some y => alike x y | None, None => True | _, _ => False end) /\
  (forall P q, y = Some (P, VPtr q) -> exists p, x = Some (P, VPtr p)).
Proof.
  intros H; inversion H; subst.
  - exists x. split; auto. split; eauto. intros P p ->. exists p. split; auto. destruct p; auto.
  - no_base. match goal with K : VIface x = _ |- _ => injection K as -> end. subst. eexists. split; [reflexivity|].
    split; intros P p K; injection K as ? ?; subst; exfalso; match goal with N : forall p, _ <> VPtr p |- _ => exact (N _ eq_refl) end.
  - eexists. split; [reflexivity|]. split.
    + intros P p K. injection K as -> ->. apply alike_ptr in H1. destruct H1 as (q & -> & Hq). eauto.
    + intros P q K. injection K as -> ->. inversion H1; subst; eauto. no_base.
Qed.
Lemma alike_put m m' k v v' : Forall2 (fun p q => fst p = fst q /\ alike (snd p) (snd q)) m m' -> alike v v' ->
  Forall2 (fun p q => fst p = fst q /\ alike (snd p) (snd q)) (SpecVal.put F32 F64 C m k v) (SpecVal.put F32 F64 C m' k v').
Proof.
  intros H Hv. induction H as [|[a x] [a' y] l l' [Ha Hx] H IH]; simpl; [auto|]. simpl in Ha, Hx. subst a'.
  destruct (key_eq_dec a k); auto.
Qed.

(** induction over the parts of both values *)
Lemma alike_ind2 (Q : gval -> gval -> Prop) : (forall v, Q v v) -> (forall v w, base v w -> Q v w) ->
  (forall v w, Q v w -> Q (VPtr (Some v)) (VPtr (Some w))) -> (forall l m, Forall2 Q l m -> Q (VArr l) (VArr m)) ->
  (forall l m, Forall2 Q l m -> Q (VSlice (Some l)) (VSlice (Some m))) -> (forall l m, Forall2 Q l m -> Q (VStruct l) (VStruct m)) ->
  (forall l m, Forall2 (fun p q => fst p = fst q /\ Q (snd p) (snd q)) l m -> Q (VMap (Some l)) (VMap (Some m))) ->
  (forall T v w, Q v w -> Q (VIface (Some (T, v))) (VIface (Some (T, w)))) -> forall v w, alike v w -> Q v w.
Proof using Type.
  intros H1 H2 H3 H4 H5 H6 H7 H8. fix IH 3.
  intros v w H. destruct H as [v|v w H|v w H|l m H|l m H|l m H|l m H|T v w H].
  - apply H1.
  - apply H2, H.
  - apply H3, IH, H.
  - apply H4. revert l m H. fix IHl 3. intros l m H. destruct H as [|x y l m H K]; constructor; [apply IH, H|apply IHl, K].
  - apply H5. revert l m H. fix IHl 3. intros l m H. destruct H as [|x y l m H K]; constructor; [apply IH, H|apply IHl, K].
  - apply H6. revert l m H. fix IHl 3. intros l m H. destruct H as [|x y l m H K]; constructor; [apply IH, H|apply IHl, K].
  - apply H7. revert l m H. fix IHl 3. intros l m H. destruct H as [|x y l m H K]; constructor; [|apply IHl, K].
    destruct H as [H H']. split; [exact H|apply IH, H'].
  - apply H8, IH, H.
Qed.

(** ** Two settings *)
Variables lookup lookup' : list bytes -> bytes -> option nat.
Variables b d b' d' : bool.
Hypothesis Some_some : forall names key i, lookup names key = Some i -> lookup' names key = Some i.
Hypothesis None_none : d = false -> d' = false /\ forall names key, lookup names key = None -> lookup' names key = None.
Variable okay : bytes -> Prop.
Hypothesis okay_part : forall t u, okay t -> part u t -> okay u.
Hypothesis okay_iface : forall t j v, okay t -> value t j -> iface_of F32 F64 C b j = Some v -> exists v', iface_of F32 F64 C b' j = Some v' /\ alike v v'.
Notation decodes1 := (decodes F32 F64 C E lookup b d).
Notation decodes2 := (decodes F32 F64 C E lookup' b' d').

Lemma options_all :
  (forall T o old t v, decodes1 T o old t v -> okay t -> forall old', alike old old' -> exists v', decodes2 T o old' t v' /\ alike v v') /\
  (forall T ts vs, elems F32 F64 C E lookup b d T ts vs -> Forall okay ts -> exists vs', elems F32 F64 C E lookup' b' d' T ts vs' /\ Forall2 alike vs vs') /\
  (forall T a ts vs, overwrite F32 F64 C E lookup b d T a ts vs -> Forall okay ts -> forall a', Forall2 alike a a' ->
     exists vs', overwrite F32 F64 C E lookup' b' d' T a' ts vs' /\ Forall2 alike vs vs') /\
  (forall k T m ps r, entries F32 F64 C E lookup b d k T m ps r -> Forall (fun p => okay (snd p)) ps ->
     forall m', Forall2 (fun p q => fst p = fst q /\ alike (snd p) (snd q)) m m' ->
     exists r', entries F32 F64 C E lookup' b' d' k T m' ps r' /\ Forall2 (fun p q => fst p = fst q /\ alike (snd p) (snd q)) r r') /\
  (forall fs v ps w, SpecVal.members F32 F64 C E lookup b d fs v ps w -> Forall (fun p => okay (snd p)) ps -> forall v', alike v v' ->
     exists w', SpecVal.members F32 F64 C E lookup' b' d' fs v' ps w' /\ alike w w') /\
  (forall path T o v t w, at_path F32 F64 C E lookup b d path T o v t w -> okay t -> forall v', alike v v' ->
     exists w', at_path F32 F64 C E lookup' b' d' path T o v' t w' /\ alike w w').
Proof using All.
  apply decodes_mutind; intros; try (eexists; split; [econstructor; eauto; fail|auto; fail]).
  all: try (match goal with H : alike ?o ?o' |- _ => exists o'; split; [econstructor; eauto; fail|auto; fail] end).
  - (* d_json *) apply alike_obj in H2. subst. eexists; split; [econstructor; eauto|auto].
  - apply alike_obj in H2. subst. eexists; split; [econstructor; eauto|auto].
  - (* d_ptr_new *) apply alike_ptr in H3. destruct H3 as ([q|] & -> & Hq); [contradiction|]. destruct (H1 H2 _ (al_same _ _ _ _ _)) as (v' & D & A).
    eexists; split; [eapply d_ptr_new; eauto|auto].
  - apply alike_ptr in H3. destruct H3 as ([q|] & -> & Hq); [|contradiction]. destruct (H1 H2 _ Hq) as (v' & D & A).
    eexists; split; [eapply d_ptr_old; eauto|auto].
  - (* d_slice *) destruct H1 as (vs' & D & A). { eapply Forall_impl; [|apply array_parts; eassumption]. intros u Hu; eapply okay_part; eauto. }
    eexists; split; [eapply d_slice; eauto|auto].
  - (* d_array *) apply alike_arr in H3. destruct H3 as (m & -> & Hm). destruct (H1 ltac:(eapply Forall_impl; [|apply array_parts; eassumption]; intros u Hu; eapply okay_part; eauto) m Hm) as (vs' & D & A).
    eexists; split; [eapply d_array; eauto|auto].
  - (* d_map *) apply alike_vmap in H4. destruct H4 as (q & -> & Hq).
    destruct (H2 ltac:(eapply Forall_impl; [|apply object_parts; eassumption]; intros u Hu; eapply okay_part; eauto) _ Hq) as (m' & D & A).
    eexists; split; [eapply d_map; eauto|auto].
  - (* d_struct *)
    destruct (H1 ltac:(eapply Forall_impl; [|apply object_parts; eassumption]; intros u Hu; eapply okay_part; eauto) _ H3) as (m' & D & A).
    eexists; split; [eapply d_struct; eauto|auto].
  - (* d_eface *) apply alike_iface in H3. destruct H3 as (y & -> & K1 & K2). destruct (okay_iface _ _ _ H2 H0 H1) as (v' & Hv & A).
    eexists; split; [eapply d_eface; eauto|auto]. intros P T z ->. destruct (K2 P _ eq_refl) as (p & Ep). destruct (K1 P p Ep) as (q & Eq & M).
    injection Eq as <-. destruct p as [x0|]; [|contradiction]. eauto.
  - (* d_eface_held *) apply alike_iface in H4. destruct H4 as (y & -> & K1 & K2). destruct (K1 _ _ eq_refl) as (q & -> & M).
    destruct q as [z|]; [|contradiction]. destruct (H2 H3 _ M) as (v' & D & A). eexists; split; [eapply d_eface_held; eauto|auto].
  - apply alike_iface in H2. destruct H2 as (y & -> & K1 & K2). destruct (K1 _ _ eq_refl) as (q & -> & M).
    destruct q as [z|]; [|contradiction]. eexists; split; [eapply d_eface_null; eauto|auto].
  - apply alike_iface in H2. destruct H2 as (y & -> & K1 & K2). destruct (K1 _ _ eq_refl) as (q & -> & M).
    destruct q as [z|]; [|contradiction]. eexists; split; [eapply d_eface_null_ptr; eauto|auto].
  - apply alike_iface in H4. destruct H4 as (y & -> & K1 & K2). destruct (K1 _ _ eq_refl) as (q & -> & M).
    destruct q as [z|]; [|contradiction]. destruct (H2 H3 _ M) as (v' & D & A). eexists; split; [eapply d_iface_held; eauto|auto].
  - (* d_ref *) destruct (H0 H1 _ H2) as (v' & D & A). eexists; split; [eapply d_ref; eauto|auto].
  - (* el_next *) inversion H3; subst. destruct (H0 H6 _ (al_same _ _ _ _ _)) as (v' & D & A). destruct (H2 H7) as (vs' & D' & A').
    eexists; split; [eapply SpecVal.el_next; eauto|auto].
  - inversion H1; subst. eexists; split; [apply ov_skip; auto|auto].
  - (* ov_next *) apply Forall_cons_iff in H3. destruct H3 as [O1 O2]. inversion H4 as [|x y l' m' Hx Hl]; subst.
    destruct (H0 O1 _ Hx) as (v' & D & A). destruct (H2 O2 _ Hl) as (vs' & D' & A').
    eexists; split; [eapply ov_next; eauto|auto].
  - exists (repeat (zero T) (length a')). split; [constructor|]. rewrite (Forall2_len _ _ _ H0). apply alike_list.
  - (* en_next *) apply Forall_cons_iff in H4. destruct H4 as [O1 O2]. destruct (H1 O1 _ (al_same _ _ _ _ _)) as (v' & D & A).
    destruct (H3 O2 _ (alike_put _ _ key _ _ H5 A)) as (r' & D' & A'). eexists; split; [eapply en_next; eauto|auto].
  - (* ms_field *) apply Forall_cons_iff in H6. destruct H6 as [O1 O2]. destruct (H3 O1 _ H7) as (v9 & D & A). destruct (H5 O2 _ A) as (w' & D' & A').
    eexists; split; [eapply ms_field; eauto|auto].
  - (* ms_unknown *) apply Forall_cons_iff in H5. destruct H5 as [O1 O2]. destruct (H4 O2 _ H6) as (w' & D & A). destruct (None_none H1) as (Hd & HN).
    eexists; split; [eapply ms_unknown; eauto|auto].
  - (* ap_here *) destruct (H0 H1 _ H2) as (v9 & D & A). eexists; split; [apply ap_here; eauto|auto].
  - (* ap_field *) apply alike_struct in H2. destruct H2 as (m & -> & Hm). apply Forall2_app_inv_l in Hm. destruct Hm as (m1 & m2 & L1 & L2 & ->).
    inversion L2; subst. destruct (H0 H1 _ H4) as (v9 & D & A). rewrite (Forall2_len _ _ _ L1). eexists; split; [eapply ap_field; eauto|].
    apply al_struct. apply Forall2_app; auto.
  - apply alike_ptr in H2. destruct H2 as ([q|] & -> & Hq); [|contradiction]. destruct (H0 H1 _ Hq) as (v9 & D & A).
    eexists; split; [eapply ap_ptr; eauto|auto].
  - apply alike_ptr in H2. destruct H2 as ([q|] & -> & Hq); [contradiction|]. destruct (H0 H1 _ (al_same _ _ _ _ _)) as (v9 & D & A).
    eexists; split; [eapply ap_alloc; eauto|auto].
Qed.
End Base.

(** nothing may differ *)
Lemma alike_nothing v w : alike F32 F64 C (fun _ _ => False) v w -> v = w.
Proof.
  assert (L : forall l m, Forall2 (@eq gval) l m -> l = m) by (induction 1; congruence).
  revert v w. apply alike_ind2; try congruence; try contradiction; intros l m H; try (apply L in H; congruence).
  do 2 f_equal. induction H as [|[a x] [b y] l m [H1 H2] H IH]; auto. simpl in *. congruence.
Qed.
Lemma alike_flip base v w : alike F32 F64 C base v w -> alike F32 F64 C (fun x y => base y x) w v.
Proof.
  assert (L : forall (R : gval -> gval -> Prop) l m, Forall2 (fun v w => R w v) l m -> Forall2 R m l) by (induction 1; auto).
  revert v w. apply alike_ind2; intros; try (constructor; auto; fail).
  apply al_map. induction H as [|[a x] [b y] l m [H1 H2] H IH]; auto.
Qed.

(** ** UseNumber *)
Lemma as_number_ifaces : on_ifaces (as_number F32 F64 C).
Proof. intros v w H. inversion H; subst. do 4 eexists. split; [reflexivity|]. split; [reflexivity|]. split; discriminate. Qed.
Lemma number_as_ifaces : on_ifaces (fun v w => as_number F32 F64 C w v).
Proof. intros v w H. inversion H; subst. do 4 eexists. split; [reflexivity|]. split; [reflexivity|]. split; discriminate. Qed.

(** the numbers of a value *)
Fixpoint numbers (j : jval) : list bytes :=
  match j with
  | JNum t => [t]
  | JArr l => flat_map numbers l
  | JObj ms => flat_map (fun p => numbers (snd p)) ms
  | _ => []
  end.
Lemma numbers_part :
  (forall t j, value t j -> forall n, In n (numbers j) -> number n /\ part n t) /\
  (forall t l, elements t l -> forall n, In n (flat_map numbers l) -> number n /\ part n t) /\
  (forall t ms, Spec.members t ms -> forall n, In n (flat_map (fun p => numbers (snd p)) ms) -> number n /\ part n t).
Proof.
  apply value_mutind; simpl; intros; try contradiction.
  - destruct H0 as [<-|[]]. auto using part_refl.
  - destruct (H0 _ H1) as (K & P). split; auto. apply (part_trans _ _ _ P). exists [91], [93]. reflexivity.
  - destruct (H0 _ H1) as (K & P). split; auto. apply (part_trans _ _ _ P). exists [123], [125]. reflexivity.
  - rewrite app_nil_r in *. destruct (H1 _ H3) as (K & P). split; auto. apply (part_trans _ _ _ P), part_mid.
  - apply in_app_or in H5. destruct H5 as [H5|H5].
    + destruct (H1 _ H5) as (K & P). split; auto. apply (part_trans _ _ _ P), part_mid.
    + destruct (H4 _ H5) as (K & P). split; auto. apply (part_trans _ _ _ P).
      exists (w1 ++ t ++ w2 ++ [44]), []. rewrite app_nil_r, <- !app_assoc. reflexivity.
  - rewrite app_nil_r in *. destruct (H4 _ H6) as (K & P). split; auto. apply (part_trans _ _ _ P).
    exists (w1 ++ 34 :: b ++ 34 :: w2 ++ 58 :: w3), w4. rewrite <- ?app_assoc. simpl. rewrite <- ?app_assoc. simpl. now rewrite <- ?app_assoc.
  - apply in_app_or in H8. destruct H8 as [H8|H8].
    + destruct (H4 _ H8) as (K & P). split; auto. apply (part_trans _ _ _ P).
      exists (w1 ++ 34 :: b ++ 34 :: w2 ++ 58 :: w3), (w4 ++ 44 :: r). rewrite <- ?app_assoc. simpl. rewrite <- ?app_assoc. simpl. now rewrite <- ?app_assoc.
    + destruct (H7 _ H8) as (K & P). split; auto. apply (part_trans _ _ _ P).
      exists (w1 ++ 34 :: b ++ 34 :: w2 ++ 58 :: w3 ++ t ++ w4 ++ [44]), []. rewrite app_nil_r. repeat (rewrite <- ?app_assoc; simpl). reflexivity.
Qed.

Lemma iface_number j : forall v, iface_of F32 F64 C false j = Some v -> exists v', iface_of F32 F64 C true j = Some v' /\ renumbered F32 F64 C v v'.
Proof.
  unfold renumbered.
  induction j as [| | | |l IH|ms IH] using jval_ind2; cbn [iface_of]; intros v Hv; try (eexists; split; [eassumption|constructor]; fail).
  - destruct (fl_parse F64 t) as [x|] eqn:Ex; [|discriminate]. injection Hv as <-. eexists. split; [reflexivity|]. apply al_base. now constructor.
  - match type of Hv with option_map _ (?g l) = _ => set (go := g) in * end.
    match goal with |- exists v', option_map ?k (?g l) = _ /\ _ => set (go' := g); set (kk := k) end.
    assert (K : forall vs, go l = Some vs -> exists vs', go' l = Some vs' /\ Forall2 (alike F32 F64 C (as_number F32 F64 C)) vs vs').
    { clear Hv. induction IH as [|j l Hj Hl IHl]; intros vs Hg; simpl in *; [injection Hg as <-; eauto|].
      destruct (iface_of F32 F64 C false j) as [x|]; [|discriminate]. destruct (Hj _ eq_refl) as (x' & -> & A).
      destruct (go l) as [ys|]; [|discriminate]. destruct (IHl _ eq_refl) as (ys' & -> & A'). injection Hg as <-. eauto. }
    destruct (go l) as [vs|]; [|discriminate]. destruct (K _ eq_refl) as (vs' & -> & A). injection Hv as <-. simpl. eexists. split; [reflexivity|].
    apply al_iface, al_slice, A.
  - match type of Hv with option_map _ (?g [] ms) = _ => set (go := g) in * end.
    match goal with |- exists v', option_map ?k (?g [] ms) = _ /\ _ => set (go' := g) end.
    assert (K : forall m m' r, Forall2 (fun p q => fst p = fst q /\ alike F32 F64 C (as_number F32 F64 C) (snd p) (snd q)) m m' -> go m ms = Some r ->
      exists r', go' m' ms = Some r' /\ Forall2 (fun p q => fst p = fst q /\ alike F32 F64 C (as_number F32 F64 C) (snd p) (snd q)) r r').
    { clear Hv. induction IH as [|[k j] l Hj Hl IHl]; intros m m' r Hm Hg; simpl in *; [injection Hg as <-; eauto|].
      destruct (iface_of F32 F64 C false j) as [x|]; [|discriminate]. destruct (Hj _ eq_refl) as (x' & -> & A).
      eapply IHl; [|eassumption]. apply alike_put; auto. }
    destruct (go [] ms) as [m|] eqn:Em; [|discriminate]. destruct (K [] [] m (Forall2_nil _) Em) as (m' & -> & A). injection Hv as <-. simpl.
    eexists. split; [reflexivity|]. apply al_iface, al_map, A.
Qed.
(** without UseNumber the numbers must be in range *)
Lemma iface_float j : (forall n, In n (numbers j) -> exists x, fl_parse F64 n = inl x) -> exists v, iface_of F32 F64 C false j = Some v.
Proof.
  induction j as [| | | |l IH|ms IH] using jval_ind2; cbn [iface_of numbers]; intros Hn; eauto.
  - destruct (Hn t) as (x & ->); [left; reflexivity|]. eauto.
  - match goal with |- exists v', option_map ?k (?g l) = _ => set (go := g) end.
    assert (K : exists vs, go l = Some vs).
    { induction IH as [|j l Hj Hl IHl]; simpl; eauto. destruct Hj as (v & ->); [intros n Hi; apply Hn; simpl; apply in_or_app; auto|].
      destruct IHl as (vs & ->); [intros n Hi; apply Hn; simpl; apply in_or_app; auto|]. eauto. }
    destruct K as (vs & ->). simpl. eauto.
  - match goal with |- exists v', option_map ?k (?g [] ms) = _ => set (go := g) end.
    assert (K : forall m, exists r, go m ms = Some r).
    { induction IH as [|[k j] l Hj Hl IHl]; simpl; eauto. intros m. simpl in Hj. destruct Hj as (v & ->); [intros n Hi; apply Hn; simpl; apply in_or_app; auto|].
      apply IHl. intros n Hi; apply Hn; simpl; apply in_or_app; auto. }
    destruct (K []) as (m & ->). simpl. eauto.
Qed.

Variables lookup lookup' : list bytes -> bytes -> option nat.
(** laxer options, the value of UseNumber unchanged *)
Lemma options_same b d d' T o old t v : (forall names key i, lookup names key = Some i -> lookup' names key = Some i) ->
  (d = false -> d' = false /\ forall names key, lookup names key = None -> lookup' names key = None) ->
  decodes F32 F64 C E lookup b d T o old t v -> decodes F32 F64 C E lookup' b d' T o old t v.
Proof.
  intros H1 H2 D. assert (OB : on_ifaces (fun _ _ => False)) by (intros ? ? []).
  destruct (proj1 (options_all _ OB lookup lookup' b d b d' H1 H2 (fun _ => True) (fun _ _ _ _ => I)
    (fun t j v _ _ Hv => ex_intro _ v (conj Hv (al_same _ _ _ _ v)))) _ _ _ _ _ D I _ (al_same _ _ _ _ _)) as (v' & D' & A).
  now rewrite (alike_nothing _ _ A).
Qed.
Lemma options_number d d' T o old old' t v : (forall names key i, lookup names key = Some i -> lookup' names key = Some i) ->
  (d = false -> d' = false /\ forall names key, lookup names key = None -> lookup' names key = None) ->
  renumbered F32 F64 C old old' -> decodes F32 F64 C E lookup false d T o old t v ->
  exists v', decodes F32 F64 C E lookup' true d' T o old' t v' /\ renumbered F32 F64 C v v'.
Proof.
  intros H1 H2 A D.
  exact (proj1 (options_all _ as_number_ifaces lookup lookup' false d true d' H1 H2 (fun _ => True) (fun _ _ _ _ => I)
    (fun t j v _ _ Hv => iface_number j v Hv)) _ _ _ _ _ D I _ A).
Qed.
Lemma options_float d d' T o old old' t v' : (forall names key i, lookup names key = Some i -> lookup' names key = Some i) ->
  (d = false -> d' = false /\ forall names key, lookup names key = None -> lookup' names key = None) ->
  renumbered F32 F64 C old old' -> in_float_range F64 t -> decodes F32 F64 C E lookup true d T o old' t v' ->
  exists v, decodes F32 F64 C E lookup' false d' T o old t v /\ renumbered F32 F64 C v v'.
Proof.
  intros H1 H2 A R D. apply alike_flip in A.
  assert (P1 : forall t u, in_float_range F64 t -> part u t -> in_float_range F64 u).
  { intros s u Hs (x & y & ->) a n c -> Hn. apply (Hs (x ++ a) n (c ++ y)); auto. now rewrite <- !app_assoc. }
  assert (P2 : forall t j v, in_float_range F64 t -> value t j -> iface_of F32 F64 C true j = Some v ->
    exists v', iface_of F32 F64 C false j = Some v' /\ alike F32 F64 C (fun v w => as_number F32 F64 C w v) v v').
  { intros s j v Hs Hj Hv. destruct (iface_float j) as (w & Hw).
    - intros n Hn. destruct (proj1 numbers_part _ _ Hj _ Hn) as (Nn & x & y & Es). exact (Hs x n y Es Nn).
    - exists w. split; auto. destruct (iface_number _ _ Hw) as (v1 & Hv1 & Hr). rewrite Hv in Hv1. injection Hv1 as <-. now apply alike_flip. }
  destruct (proj1 (options_all _ number_as_ifaces lookup lookup' true d false d' H1 H2 (in_float_range F64) P1 P2) _ _ _ _ _ D R _ A) as (v & D' & A').
  exists v. split; auto. apply alike_flip in A'. exact A'.
Qed.
End Options.
