(** The build of encoders meets the conditions of the protocol. *)
From Coq Require Import List Bool Arith Lia Permutation.
From Verif Require Import ModelCache ModelEncCache SpecEncCache CacheFacts.
Import ListNotations.

Section Encoders.
Variable custom : nat -> option nat.
Variable T : nat -> etype.
Variable ptrTo : nat -> nat.
Variables uint8 uint8Enc : nat.
Hypothesis nat_ok : enatives_ok T.
Hypothesis ptr_ok : pointers_ok T ptrTo.
Notation P := (eplain custom T).
Notation B64 := (base64_slice custom T ptrTo uint8 uint8Enc).
Notation chooses := (echooses custom T ptrTo uint8 uint8Enc).
Notation follows := (follows custom T ptrTo uint8 uint8Enc).
Notation inner := (einner custom T ptrTo uint8 uint8Enc).
Notation prefer := (eprefer custom T ptrTo uint8 uint8Enc).
Notation root := (eroot custom T ptrTo uint8 uint8Enc).
Notation needs := (needs_address T).
Notation comp := (ecomplete custom T ptrTo uint8 uint8Enc).
Notation comp_at := (ecomplete_at custom T ptrTo uint8 uint8Enc).
Notation mem := (bmem eval eobj).
Notation visit := (e_visit T ptrTo).

Lemma ekind_fun t k c c' : ekind_plain custom t k c -> ekind_plain custom t k c' -> c = c'.
Proof. intros H H'. destruct H; inversion H'; subst; congruence. Qed.
Lemma emarshals_fun t impl a b d c c' : emarshals T t impl a b d c -> emarshals T t impl a b d c' -> c = c'.
Proof. intros H H'. destruct H; inversion H'; subst; try congruence; exfalso; eauto. Qed.
Lemma P_fun t c c' : P t c -> P t c' -> c = c'.
Proof.
  intros H H'. destruct H; inversion H'; subst; try congruence.
  - eapply emarshals_fun; eauto.
  - eapply emarshals_fun; eauto.
  - eapply ekind_fun; eauto.
Qed.
Lemma emarshals_ex t impl a b d : exists c, emarshals T t impl a b d c.
Proof.
  destruct (et_indir (T t)) eqn:E; [eexists; now apply em_plain|].
  destruct (et_kind (T t)) as [| | |e| | | |] eqn:K; try (eexists; apply em_direct; auto; intros e; rewrite K; discriminate).
  destruct (impl e) eqn:I; eexists; [eapply em_follow|eapply em_ptr]; eauto.
Qed.
Lemma P_ex t : exists c, P t c.
Proof.
  destruct (custom t) as [n|] eqn:E1; [eexists; eapply ep_custom; eauto|].
  destruct (et_global (T t)) as [n|] eqn:E2; [eexists; eapply ep_global; eauto|].
  destruct (et_json (T t)) eqn:E3; [destruct (emarshals_ex t (fun u => et_json (T u)) ELJson ELPtrJson ELDirectJson); eexists; eapply ep_json; eauto|].
  destruct (et_text (T t)) eqn:E4; [destruct (emarshals_ex t (fun u => et_text (T u)) ELText ELPtrText ELDirectText); eexists; eapply ep_text; eauto|].
  assert (K : exists c, ekind_plain custom t (et_kind (T t)) c).
  { destruct (et_kind (T t)) as [na d|[]|[|f fs]|e|[] e|e|[e|]|]; try (eexists; constructor; fail).
    - destruct (custom na) eqn:E; eexists; [eapply ek_native|apply ek_basic]; eauto.
    - eexists. apply ek_struct. discriminate. }
  destruct K as [c K]. exists c. now apply ep_kind.
Qed.
Lemma choice_dec (c c' : elabel + eshape * list nat) : {c = c'} + {c <> c'}.
Proof.
  decide equality.
  - decide equality; apply Nat.eq_dec.
  - decide equality; [apply list_eq_dec, Nat.eq_dec|decide equality].
Qed.
Lemma P_dec t c : P t c \/ ~ P t c.
Proof.
  destruct (P_ex t) as [c' H]. destruct (choice_dec c c') as [->|N]; [now left|right]. intros H'. apply N. eapply P_fun; eauto.
Qed.
Lemma B64_dec t : B64 t \/ ~ B64 t.
Proof.
  destruct (P_ex t) as [c H].
  assert (D : (exists e, c = inr (ESlice, [e])) \/ forall e, c <> inr (ESlice, [e])).
  { destruct c as [l|[sh [|e [|e2 cs]]]]; try (right; congruence). destruct sh; try (right; congruence). left. eauto. }
  destruct D as [[e ->]|D].
  2: { right. intros (e & enc & H1 & _). apply (D e). eapply P_fun; eauto. }
  assert (K : (exists enc, et_kind (T e) = EKBasic uint8 enc) \/ forall enc, et_kind (T e) <> EKBasic uint8 enc).
  { destruct (et_kind (T e)) as [na d| | | | | | |]; try (right; congruence). destruct (Nat.eq_dec na uint8) as [->|]; [left; eauto|right; congruence]. }
  destruct K as [[enc K]|K].
  2: { right. intros (e' & enc & H1 & H2 & _). assert (E := P_fun _ _ _ H H1). injection E as <-. exact (K _ H2). }
  destruct (P_dec e (inl (ELBasic uint8Enc))) as [H2|H2].
  2: { right. intros (e' & enc' & H1 & _ & H3 & _). assert (E := P_fun _ _ _ H H1). injection E as <-. auto. }
  destruct (P_dec (ptrTo e) (inr (EPtr, [e]))) as [H3|H3].
  2: { right. intros (e' & enc' & H1 & _ & _ & H4). assert (E := P_fun _ _ _ H H1). injection E as <-. auto. }
  left. exists e, enc. auto.
Qed.
Lemma B64_slice t : B64 t -> exists e, P t (inr (ESlice, [e])).
Proof. intros (e & enc & H & _). eauto. Qed.
Lemma chooses_fun t c c' : chooses t c -> chooses t c' -> c = c'.
Proof. intros H H'. destruct H; inversion H'; subst; auto; try contradiction. eapply P_fun; eauto. Qed.
Lemma no_base64 t : ~ P t (inl ELBase64).
Proof.
  intros H. inversion H as [|?|? _ _ _ M|? _ _ _ _ M|? _ _ _ _ K]; subst; try discriminate.
  - inversion M.
  - inversion M.
  - inversion K.
Qed.
Lemma chooses_leaf t l : P t (inl l) -> chooses t (inl l).
Proof. intros H. apply ec_plain; auto. intros B. apply B64_slice in B as [e B]. assert (E := P_fun _ _ _ H B). discriminate. Qed.
Lemma chooses_shape t sh cs : P t (inr (sh, cs)) -> sh <> ESlice -> chooses t (inr (sh, cs)).
Proof. intros H N. apply ec_plain; auto. intros B. apply B64_slice in B as [e B]. assert (E := P_fun _ _ _ H B). congruence. Qed.
Lemma chooses_P t sh cs : chooses t (inr (sh, cs)) -> P t (inr (sh, cs)).
Proof. intros H. inversion H; auto. Qed.
Lemma chooses_Pl t l : chooses t (inl l) -> l <> ELBase64 -> P t (inl l).
Proof. intros H N. inversion H; auto. congruence. Qed.
Lemma P_pointer t cs : P t (inr (EPtr, cs)) -> exists e, cs = [e] /\ et_kind (T t) = EKPtr e.
Proof.
  intros H. inversion H as [|?|? _ _ _ M|? _ _ _ _ M|? _ _ _ _ K]; subst; try discriminate.
  - inversion M; subst. eauto.
  - inversion M; subst. eauto.
  - inversion K; subst. eauto.
Qed.
Lemma follows_iff c : follows c <-> exists cs, P (ptrTo c) (inr (EPtr, cs)).
Proof.
  split.
  - intros H. apply chooses_P in H. eauto.
  - intros [cs H]. destruct (P_pointer _ _ H) as (e & -> & K). rewrite ptr_ok in K. injection K as <-. apply chooses_shape; auto. discriminate.
Qed.

(** ** Frames *)
Lemma esees_frame objs objs' k k' n v x : esees objs k n v x -> (forall a, a < k -> objs' a = objs a) -> k <= k' -> esees objs' k' n v x.
Proof.
  intros H F L. revert n v x H. fix IH 4. intros n v x H. destruct H as [v|n l|n v x H|n a sh t vs xs Ha Ho Hf].
  - constructor.
  - constructor.
  - constructor. apply IH. exact H.
  - econstructor; [lia|rewrite F by auto; exact Ho|]. revert vs xs Ho Hf.
    assert (G : forall vs xs, Forall2 (esees objs k n) vs xs -> Forall2 (esees objs' k' n) vs xs).
    { fix IHf 3. intros vs xs [|]; constructor; [apply IH; assumption|apply IHf; assumption]. }
    intros vs xs _ Hf. apply G. exact Hf.
Qed.
Lemma comp_frame objs k t v objs' k' : comp objs k t v -> (forall a, a < k -> objs' a = objs a) -> k <= k' -> comp objs' k' t v.
Proof. intros H F L n. destruct (H n) as (x & H1 & H2). exists x. split; auto. eapply esees_frame; eauto. Qed.
Lemma comp_at_frame objs k t v objs' k' : comp_at objs k t v -> (forall a, a < k -> objs' a = objs a) -> k <= k' -> comp_at objs' k' t v.
Proof. intros H F L n. destruct (H n) as (x & H1 & H2). exists x. split; auto. eapply esees_frame; eauto. Qed.
Definition okv (objs : nat -> eobj) (k t : nat) (v : eval) : Prop := comp objs k t (Some v).
Definition okw (objs : nat -> eobj) (k : nat) (v : eval) : Prop := forall n, exists x, esees objs k n (Some v) x.
Lemma okw_call objs k v a : okw objs k v -> e_target v = Some a ->
  a < k /\ forall w, In w (e_refs (objs a)) -> exists u, w = Some u /\ okw objs k u.
Proof.
  induction v as [l|v IH|a']; intros H E; [discriminate| |].
  - apply IH; auto. intros [|n].
    + eexists. constructor.
    + destruct (H (S n)) as (x & Se). inversion Se; subst. eauto.
  - injection E as ->.
    assert (A : a < k /\ exists sh t vs, objs a = mkEO sh t (Some vs)).
    { destruct (H 1) as (x & Se). inversion Se; subst. eauto 6. }
    destruct A as (Ha & sh & t & vs & Ho). split; auto. intros w. unfold e_refs. rewrite Ho. simpl. intros Hw.
    assert (B : forall n, exists x, esees objs k n w x).
    { intros n. destruct (H (S n)) as (x & Se). inversion Se as [| | |? ? sh' t' vs' xs Ha' Ho' Hf]; subst. assert (vs' = vs) by congruence. subst vs'.
      clear - Hf Hw. induction Hf; destruct Hw; subst; eauto. }
    destruct (B 0) as (x & Se). inversion Se; subst. eexists. split; [reflexivity|]. exact B.
Qed.
Lemma Forall2_all {A C D} (R : nat -> A -> D -> Prop) (Q : nat -> C -> D -> Prop) cs vs :
  (forall n, exists xs, Forall2 (R n) cs xs /\ Forall2 (Q n) vs xs) -> Forall2 (fun c w => forall n, exists x, R n c x /\ Q n w x) cs vs.
Proof.
  intros A0. assert (L : length cs = length vs).
  { destruct (A0 0) as (xs & F1 & F2). assert (L1 : length cs = length xs) by (clear - F1; induction F1; simpl; auto). assert (L2 : length vs = length xs) by (clear - F2; induction F2; simpl; auto). congruence. }
  revert vs A0 L. induction cs as [|c cs IH]; intros [|w vs] A0 L; try discriminate; constructor.
  - intros n. destruct (A0 n) as (xs & F1 & F2). inversion F1; subst. inversion F2; subst. eauto.
  - apply IH; auto. intros n. destruct (A0 n) as (xs & F1 & F2). inversion F1; subst. inversion F2; subst. eauto.
Qed.
Lemma comp_choice objs k t v : comp_at objs k t (Some v) ->
  match v with
  | ELeaf l => chooses t (inl l)
  | EDirect _ => False
  | EObj a => a < k /\ exists sh cs vs, chooses t (inr (sh, cs)) /\ objs a = mkEO sh t (Some vs) /\
      (sh = EPtr -> Forall2 (fun c w => comp_at objs k c w) cs vs)
  end.
Proof.
  intros H. destruct (H 1) as (x & I & Se). destruct v as [l|v|a].
  - inversion Se; subst. inversion I; subst; auto.
  - inversion Se; subst. inversion I.
  - inversion Se as [| | |? ? sh t' vs xs Ha Ho Hf]; subst. split; auto.
    assert (Ch : t' = t /\ exists cs, chooses t (inr (sh, cs))) by (inversion I; subst; eauto). destruct Ch as [-> [cs Ch]].
    exists sh, cs, vs. split; auto. split; auto. intros ->. apply (Forall2_all (fun n => inner n) (fun n => esees objs k n)).
    intros n. destruct (H (S n)) as (x' & I' & Se'). inversion Se' as [| | |? ? sh' t2 vs' xs' Ha' Ho' Hf']; subst. assert (vs' = vs) by congruence; subst vs'; assert (sh' = EPtr) by congruence; subst sh'.
    inversion I' as [| |? ? ? cs' ? Ch' _ Hi|? ? ? cs' ? Ch' [?|[?|?]] Hi]; try discriminate. subst. assert (E := chooses_fun _ _ _ Ch Ch'). injection E as <-. eauto.
Qed.

(** ** The invariant *)
Definition deps (sh : eshape) (cs : list nat) : list nat := match sh with EPtr | EMap => cs | _ => map ptrTo cs end.
Definition IG (x : mem) : Prop :=
  (forall t v, b_int x t = Some v -> comp_at (b_objs x) (b_nobjs x) t (Some v)) /\
  (forall t v, b_new x t = Some v -> comp (b_objs x) (b_nobjs x) t (Some v)) /\
  (forall t, b_int x t = None <-> b_new x t = None) /\
  (forall t n, custom t = Some n -> b_int x t = Some (ELeaf (ELCustom n))) /\
  (forall t sh cs c, b_int x t <> None -> P t (inr (sh, cs)) -> In c (deps sh cs) -> b_int x c <> None).
Definition queue (b : ebuild) : list nat := match b with ELoop q _ => q | _ => [] end.
Definition pending (b : ebuild) : list ebuilder :=
  match b with ELoop _ rb => rb | EBase64 l r | EPtrs l r => l ++ r | EOthers l => l end.
Definition late (b : ebuild) : Prop := match b with EPtrs _ _ | EOthers _ => True | _ => False end.
Definition known (x : mem) (b : ebuild) (c : nat) : Prop := b_int x c <> None \/ In c (queue b).
(** what has been found out about a builder *)
Definition sorted (b : ebuild) (bu : ebuilder) : Prop :=
  match b with
  | ELoop _ _ => True
  | EBase64 todo _ => In bu todo \/ ~ B64 (eb_type bu)
  | EPtrs todo _ => ~ B64 (eb_type bu) /\ (eb_shape bu = EPtr -> In bu todo)
  | EOthers _ => ~ B64 (eb_type bu) /\ eb_shape bu <> EPtr
  end.
Section Build.
Variable x0 : mem.
Definition inner_val (x : mem) (c : nat) (w : option eval) : Prop :=
  exists v, w = Some v /\ (b_int x c = Some v \/ comp_at (b_objs x0) (b_nobjs x0) c (Some v)).
Definition prefer_val (x : mem) (c : nat) (w : option eval) : Prop :=
  follows c /\ inner_val x c w \/ ~ follows c /\ exists v, b_int x (ptrTo c) = Some v /\ w = Some (EDirect v).
Definition child (x : mem) (sh : eshape) (c : nat) (w : option eval) : Prop :=
  match sh with EPtr | EMap => inner_val x c w | _ => prefer_val x c w end.
Definition status (x : mem) (b : ebuild) (u a : nat) (sh : eshape) (cs : list nat) : Prop :=
  eo_refs (b_objs x a) = None /\ In (mkEB sh u a cs) (pending b) \/
  exists vs, eo_refs (b_objs x a) = Some vs /\ ~ B64 u /\ late b /\ Forall2 (child x sh) cs vs.
Definition ientry (x : mem) (b : ebuild) (u : nat) (v : eval) : Prop :=
  match v with
  | ELeaf l => chooses u (inl l)
  | EDirect _ => False
  | EObj a => exists sh cs, P u (inr (sh, cs)) /\ b_nobjs x0 <= a < b_nobjs x /\
      eo_shape (b_objs x a) = sh /\ eo_type (b_objs x a) = u /\ status x b u a sh cs
  end.
Definition rentry (x : mem) (b : ebuild) (u : nat) (v : eval) : Prop :=
  (exists e, chooses u (inr (EPtr, [e])) /\ late b /\ inner_val x e (Some v)) \/
  (exists c w, chooses u c /\ (forall e, c <> inr (EPtr, [e])) /\ b_int x u = Some w /\
     (needs u c /\ v = EDirect w \/ ~ needs u c /\ v = w)).
Record BIr (t : nat) (x : mem) (b : ebuild) : Prop := mkBI {
  bi_ig : IG x0;
  bi_growi : forall u v, b_int x0 u = Some v -> b_int x u = Some v;
  bi_growr : forall u v, b_new x0 u = Some v -> b_new x u = Some v;
  bi_frame : forall a, a < b_nobjs x0 -> b_objs x a = b_objs x0 a;
  bi_n : b_nobjs x0 <= b_nobjs x;
  bi_dom : forall u, b_int x u = None -> b_new x u = None;
  bi_ientry : forall u v, b_int x u = Some v -> b_int x0 u = Some v \/ b_int x0 u = None /\ ientry x b u v;
  bi_rentry : forall u v, b_new x u = Some v -> b_new x0 u = Some v \/ b_int x0 u = None /\ rentry x b u v;
  bi_cover : forall u, b_int x u <> None -> b_new x u <> None \/ In u (map eb_type (pending b));
  bi_closed : forall u sh cs c, b_int x u <> None -> P u (inr (sh, cs)) -> In c (deps sh cs) -> known x b c;
  bi_pend : forall bu, In bu (pending b) -> b_int x (eb_type bu) = Some (EObj (eb_obj bu)) /\ b_int x0 (eb_type bu) = None /\
    b_new x (eb_type bu) = None /\ P (eb_type bu) (inr (eb_shape bu, eb_refs bu)) /\ sorted b bu;
  bi_nodup : NoDup (map eb_type (pending b));
  bi_target : known x b t
}.
End Build.
Definition BI x0 t x b := BIr x0 t x b.
Lemma BI_start x t : IG x -> b_new x t = None -> BI x t x (estart t).
Proof.
  intros H N. assert (H' := H). destruct H' as (H1 & H2 & H3 & H4 & H5). constructor; auto.
  - intros u. now apply H3.
  - intros u Hu. left. intros E. apply Hu. now apply H3.
  - intros u sh cs c Hu Hp Hc. left. eauto.
  - intros bu [].
  - constructor.
  - right. now left.
Qed.
(** an entry of the internal cache, old or new *)
Lemma iview x0 t x b u v : BI x0 t x b -> b_int x u = Some v ->
  match v with
  | ELeaf l => chooses u (inl l)
  | EDirect _ => False
  | EObj a => a < b_nobjs x /\ exists cs, P u (inr (eo_shape (b_objs x a), cs))
  end.
Proof.
  intros A H. destruct (bi_ientry _ _ _ _ A u v H) as [H0|[_ H0]].
  - apply (proj1 (bi_ig _ _ _ _ A)) in H0. apply comp_choice in H0. destruct v as [l|v|a]; auto.
    destruct H0 as (Ha & sh & cs & vs & Ch & Ho & _). assert (N := bi_n _ _ _ _ A). split; [lia|]. exists cs. rewrite (bi_frame _ _ _ _ A) by auto. rewrite Ho. simpl. now apply chooses_P.
  - destruct v as [l|v|a]; auto. destruct H0 as (sh & cs & Hp & Ha & Hs & _). split; [lia|]. exists cs. now rewrite Hs.
Qed.
Lemma entry_leaf x0 t x b u v l : BI x0 t x b -> b_int x u = Some v -> P u (inl l) -> v = ELeaf l.
Proof.
  intros A H Hp. assert (I := iview _ _ _ _ _ _ A H). destruct v as [l'|v|a]; [|contradiction|].
  - assert (E := chooses_fun _ _ _ I (chooses_leaf _ _ Hp)). congruence.
  - destruct I as [_ [cs I]]. assert (E := P_fun _ _ _ I Hp). discriminate.
Qed.
Lemma custom_none x0 t x b u : BI x0 t x b -> b_int x u = None -> custom u = None.
Proof.
  intros A H. destruct (custom u) as [n|] eqn:E; auto. destruct (bi_ig _ _ _ _ A) as (_ & _ & _ & I & _). apply I in E. apply (bi_growi _ _ _ _ A) in E. congruence.
Qed.
Lemma old_none x0 t x b u : BI x0 t x b -> b_int x u = None -> b_int x0 u = None /\ b_new x0 u = None.
Proof.
  intros A H. assert (E : b_int x0 u = None) by (destruct (b_int x0 u) as [w|] eqn:E; auto; apply (bi_growi _ _ _ _ A) in E; congruence).
  split; auto. apply (proj1 (proj2 (proj2 (bi_ig _ _ _ _ A)))). exact E.
Qed.
(** a step of the loop changes neither structs nor builders; entries stay what they are *)
Lemma ientry_loop x0 x q rb x' q' rb' u v : ientry x0 x (ELoop q rb) u v -> (forall a, a < b_nobjs x -> b_objs x' a = b_objs x a) -> b_nobjs x <= b_nobjs x' ->
  incl rb rb' -> ientry x0 x' (ELoop q' rb') u v.
Proof.
  intros H F L I. destruct v as [l|v|a]; auto. destruct H as (sh & cs & H1 & H2 & H3 & H4 & [(H5 & H6)|(vs & _ & _ & [] & _)]).
  exists sh, cs. split; auto. split; [lia|]. rewrite !F by lia. split; auto. split; auto. left. rewrite F by lia. split; auto.
Qed.
Lemma rentry_loop x0 x q rb x' q' rb' u v : rentry x0 x (ELoop q rb) u v -> b_int x' u = b_int x u -> rentry x0 x' (ELoop q' rb') u v.
Proof.
  intros [(e & _ & [] & _)|(c & w & H1 & H2 & H3 & H4)] E. right. exists c, w. split; auto. split; auto. rewrite E. auto.
Qed.
Lemma BI_leaf x0 t x q rb u l r ts : BI x0 t x (ELoop (u :: q) rb) -> b_int x u = None -> P u (inl l) ->
  (needs u (inl l) /\ r = EDirect (ELeaf l) \/ ~ needs u (inl l) /\ r = ELeaf l) ->
  BI x0 t (mkB (upd (b_new x) u (Some r)) (upd (b_int x) u (Some (ELeaf l))) (b_objs x) (b_nobjs x)) (ELoop (push q ts) rb).
Proof.
  intros A N Hp Hr. destruct (old_none _ _ _ _ _ A N) as [N0 N1]. destruct A as [A1 A2 A3 A4 A5 A6 A7 A8 A9 A10 A11 A12 A13].
  assert (Kn : forall c, known x (ELoop (u :: q) rb) c -> known (mkB (upd (b_new x) u (Some r)) (upd (b_int x) u (Some (ELeaf l))) (b_objs x) (b_nobjs x)) (ELoop (push q ts) rb) c).
  { intros c [H|[->|H]]; [|left; simpl; rewrite upd_same; discriminate|right; simpl; unfold push; apply in_or_app; auto]. left. simpl. unfold upd. destruct (c =? u); [discriminate|auto]. }
  constructor; simpl; auto.
  - intros c v Hc. rewrite upd_other; auto. intros ->. congruence.
  - intros c v Hc. rewrite upd_other; auto. intros ->. congruence.
  - intros c. unfold upd. destruct (c =? u); [discriminate|auto].
  - intros c v. unfold upd at 1. destruct (Nat.eqb_spec c u) as [->|Nc]; [intros [= <-]; right; split; auto; now apply chooses_leaf|].
    intros Hc. destruct (A7 c v Hc) as [H|[H1 H]]; [auto|right; split; auto]. eapply ientry_loop; eauto using incl_refl.
  - intros c v. unfold upd at 1. destruct (Nat.eqb_spec c u) as [->|Nc].
    + intros [= <-]. right. split; auto. right. exists (inl l), (ELeaf l). split; [now apply chooses_leaf|]. split; [discriminate|]. simpl. rewrite upd_same. auto.
    + intros Hc. destruct (A8 c v Hc) as [H|[H1 H]]; [auto|right; split; auto]. eapply rentry_loop; eauto. simpl. now apply upd_other.
  - intros c. unfold upd. destruct (c =? u); [left; discriminate|auto].
  - intros c sh cs d Hc Hd Hi. apply Kn. unfold upd in Hc. destruct (Nat.eqb_spec c u) as [->|Nc]; [assert (E := P_fun _ _ _ Hp Hd); discriminate|eauto].
  - intros bu Hb. destruct (A11 bu Hb) as (H1 & H2 & H3 & H4). assert (eb_type bu <> u) by congruence. rewrite !upd_other by auto. auto.
Qed.
Lemma BI_node x0 t x q rb u sh cs : BI x0 t x (ELoop (u :: q) rb) -> b_int x u = None -> P u (inr (sh, cs)) ->
  BI x0 t (fst (e_node x q rb u sh cs (deps sh cs))) (snd (e_node x q rb u sh cs (deps sh cs))).
Proof.
  intros A N Hp. destruct (old_none _ _ _ _ _ A N) as [N0 N1]. destruct A as [A1 A2 A3 A4 A5 A6 A7 A8 A9 A10 A11 A12 A13].
  unfold e_node. cbv zeta. simpl fst. simpl snd. set (x' := mkB _ _ _ _).
  assert (Kn : forall c, known x (ELoop (u :: q) rb) c -> known x' (ELoop (push q (deps sh cs)) (mkEB sh u (b_nobjs x) cs :: rb)) c).
  { intros c [H|[->|H]]; [|left; simpl; rewrite upd_same; discriminate|right; simpl; unfold push; apply in_or_app; auto]. left. simpl. unfold upd. destruct (c =? u); [discriminate|auto]. }
  assert (Nn : b_new x u = None) by auto.
  constructor; auto.
  - intros c v Hc. simpl. rewrite upd_other; auto. intros ->. congruence.
  - intros a Ha. simpl. rewrite upd_other by lia. auto.
  - simpl. lia.
  - intros c. simpl. unfold upd. destruct (c =? u); [discriminate|auto].
  - intros c v. simpl b_int. unfold upd at 1. destruct (Nat.eqb_spec c u) as [->|Nc].
    + intros [= <-]. right. split; auto. exists sh, cs. split; auto. split; [simpl; lia|]. unfold x' at 1 2. simpl b_objs. rewrite upd_same. split; auto. split; auto.
      left. simpl b_objs. rewrite upd_same. split; auto. now left.
    + intros Hc. destruct (A7 c v Hc) as [H|[H1 H]]; [auto|right; split; auto]. eapply ientry_loop; eauto.
      * intros a Ha. simpl. apply upd_other. lia.
      * simpl. lia.
      * intros z Hz. now right.
  - intros c v Hc. change (b_new x c = Some v) in Hc. destruct (A8 c v Hc) as [H|[H1 H]]; [auto|right; split; auto]. eapply rentry_loop; eauto. simpl. apply upd_other. congruence.
  - intros c. simpl. unfold upd. destruct (Nat.eqb_spec c u) as [->|Nc]; [auto|]. intros Hc. destruct (A9 c Hc); auto.
  - intros c sh' cs' d Hc Hd Hi. simpl in Hc. unfold upd in Hc. destruct (Nat.eqb_spec c u) as [->|Nc]; [|apply Kn; eauto].
    assert (E := P_fun _ _ _ Hp Hd). injection E as <- <-. right. simpl. unfold push. apply in_or_app. left. now rewrite <- in_rev.
  - intros bu [<-|Hb]; simpl.
    + rewrite upd_same. auto.
    + destruct (A11 bu Hb) as (H1 & H2 & H3 & H4). rewrite upd_other by congruence. auto.
  - simpl. constructor; auto. intros Hi. apply in_map_iff in Hi. destruct Hi as (bu & E & Hb). destruct (A11 bu Hb) as (H1 & _). congruence.
Qed.
Lemma BI_skip x0 t x q rb u : BI x0 t x (ELoop (u :: q) rb) -> b_int x u <> None -> BI x0 t x (ELoop q rb).
Proof.
  intros [A1 A2 A3 A4 A5 A6 A7 A8 A9 A10 A11 A12 A13] N.
  assert (Kn : forall c, known x (ELoop (u :: q) rb) c -> known x (ELoop q rb) c) by (intros c [H|[<-|H]]; [now left|now left|now right]).
  constructor; [exact A1|exact A2|exact A3|exact A4|exact A5|exact A6| | |exact A9| |exact A11|exact A12|auto].
  - intros c v Hc. destruct (A7 c v Hc) as [H|[H1 H]]; [auto|right; split; [exact H1|]]. eapply ientry_loop; eauto using incl_refl.
  - intros c v Hc. destruct (A8 c v Hc) as [H|[H1 H]]; [auto|right; split; [exact H1|]]. eapply rentry_loop; eauto.
  - intros c sh cs d Hc Hd Hi. apply Kn. eauto.
Qed.
Lemma BI_marshaler x0 t x q rb u impl lp lq ld : BI x0 t x (ELoop (u :: q) rb) -> b_int x u = None ->
  (forall c, emarshals T u impl lp lq ld c -> P u c) -> ~ needs u (inl (lp u)) -> needs u (inl (lq u)) -> needs u (inl (ld u)) ->
  BI x0 t (fst (e_marshaler T x q rb u impl lp lq ld)) (snd (e_marshaler T x q rb u impl lp lq ld)).
Proof.
  intros A N Hm Np Nq Nd. unfold e_marshaler. destruct (et_indir (T u)) eqn:Ei.
  - apply (BI_leaf _ _ _ _ _ _ (lp u) _ []); auto. apply Hm. now apply em_plain.
  - assert (D : (forall e, et_kind (T u) <> EKPtr e) -> BI x0 t (e_direct x u (ELeaf (ld u))) (ELoop q rb)).
    { intros K. apply (BI_leaf _ _ _ _ _ _ (ld u) _ []); auto. apply Hm. now apply em_direct. }
    destruct (et_kind (T u)) as [| | |e| | | |] eqn:K; try (apply D; discriminate).
    destruct (impl e) eqn:Ie.
    + apply (BI_node _ _ _ _ _ _ EPtr [e]); auto. apply Hm. now apply em_follow.
    + apply (BI_leaf _ _ _ _ _ _ (lq u) _ []); auto. apply Hm. now apply (em_ptr _ _ _ _ _ _ e).
Qed.
Lemma BI_visit x0 t x q rb u : BI x0 t x (ELoop (u :: q) rb) -> BI x0 t (fst (visit x q rb u)) (snd (visit x q rb u)).
Proof.
  intros A. unfold e_visit. cbv zeta. destruct (b_int x u) as [v|] eqn:Eu.
  - simpl. eapply BI_skip; eauto. congruence.
  - assert (Nu := custom_none _ _ _ _ _ A Eu).
    assert (Lf : forall l, P u (inl l) -> ~ needs u (inl l) -> BI x0 t (e_both x u (ELeaf l)) (ELoop q rb)) by (intros l Hp Hn; apply (BI_leaf _ _ _ _ _ _ l _ []); auto).
    destruct (et_global (T u)) as [n|] eqn:E2; [apply Lf; [now apply ep_global|intros []]|].
    destruct (et_json (T u)) eqn:E3; [apply BI_marshaler; simpl; auto; intros c Hc; now apply ep_json|].
    destruct (et_text (T u)) eqn:E4; [apply BI_marshaler; simpl; auto; intros c Hc; now apply ep_text|].
    assert (Ck : forall c, ekind_plain custom u (et_kind (T u)) c -> P u c) by (intros c K; now apply ep_kind).
    destruct (et_kind (T u)) as [na d|[]|[|f fs]|e|[] e|e|[e|]|] eqn:Ek;
      try (apply Lf; [apply Ck; constructor|intros []]; fail).
    + assert (Tn := nat_ok _ _ _ Ek). assert (Cn : forall c, ekind_plain custom na (EKBasic na d) c -> custom na = None -> P na c).
      { intros c K Nn. apply ep_kind; rewrite ?Tn; auto. }
      destruct (b_int x na) as [v|] eqn:En.
      * destruct (custom na) as [n|] eqn:Ec.
        -- rewrite (entry_leaf _ _ _ _ na v (ELCustom n) A En (ep_custom _ _ na n Ec)). apply Lf; [|intros []]. apply Ck. now apply ek_native.
        -- assert (Cb : P na (inl (ELBasic d))) by (apply Cn; auto; now apply ek_basic).
           rewrite (entry_leaf _ _ _ _ na v (ELBasic d) A En Cb). apply Lf; [|intros []]. apply Ck. now apply ek_basic.
      * apply Lf; [|intros []]. apply Ck. apply ek_basic. eapply custom_none; eauto.
    + apply (BI_node _ _ _ _ _ _ EStruct (f :: fs)); auto. apply Ck. apply ek_struct. discriminate.
    + apply (BI_node _ _ _ _ _ _ EPtr [e]); auto. apply Ck. constructor.
    + apply (BI_leaf _ _ _ _ _ _ ELEmptyArray _ [ptrTo e]); auto. apply Ck. constructor.
    + apply (BI_node _ _ _ _ _ _ EArray [e]); auto. apply Ck. constructor.
    + apply (BI_node _ _ _ _ _ _ ESlice [e]); auto. apply Ck. constructor.
    + apply (BI_node _ _ _ _ _ _ EMap [e]); auto. apply Ck. constructor.
Qed.

Lemma BI_same x0 t x b b' : BI x0 t x b -> queue b' = queue b -> Permutation (pending b) (pending b') -> (forall bu, In bu (pending b) -> sorted b bu -> sorted b' bu) ->
  (late b -> late b') -> BI x0 t x b'.
Proof.
  intros [A1 A2 A3 A4 A5 A6 A7 A8 A9 A10 A11 A12 A13] Q Pm S L.
  constructor; [exact A1|exact A2|exact A3|exact A4|exact A5|exact A6| | | | | | |].
  - intros u v Hu. destruct (A7 u v Hu) as [H|[H1 H]]; [auto|right; split; [exact H1|]]. destruct v as [l|v|a]; auto.
    destruct H as (sh & cs & P1 & P2 & P3 & P4 & P5). exists sh, cs. split; auto. split; auto. split; auto. split; auto.
    destruct P5 as [[P5 P6]|(vs & P5 & P6 & P7 & P8)]; [left; split; auto; eapply Permutation_in; eauto|right; exists vs; auto].
  - intros u v Hu. destruct (A8 u v Hu) as [H|[H1 H]]; [auto|right; split; [exact H1|]]. destruct H as [(e & E1 & E2 & E3)|H]; [left; exists e; auto|right; exact H].
  - intros u Hu. destruct (A9 u Hu) as [H|H]; [now left|right]. eapply Permutation_in; [apply Permutation_map; exact Pm|exact H].
  - intros u sh cs c H1 H2 H3. destruct (A10 u sh cs c H1 H2 H3) as [H|H]; [now left|right]. now rewrite Q.
  - intros bu Hb. apply (Permutation_in bu (Permutation_sym Pm)) in Hb. destruct (A11 bu Hb) as (H1 & H2 & H3 & H4 & H5). auto 6.
  - eapply Permutation_NoDup; [apply Permutation_map; exact Pm|exact A12].
  - destruct A13 as [H|H]; [now left|right]. now rewrite Q.
Qed.
(** pointers in the internal cache *)
Lemma ptr_view x0 t x b c v : BI x0 t x b -> b_int x (ptrTo c) = Some v -> (is_pointer x (Some v) = true <-> follows c).
Proof.
  intros A H. assert (I := iview _ _ _ _ _ _ A H). rewrite follows_iff. destruct v as [l|v|a]; [|contradiction|]; simpl.
  - split; [discriminate|]. intros [cs Hp]. assert (E := chooses_fun _ _ _ I (chooses_shape _ _ _ Hp ltac:(discriminate))). discriminate.
  - destruct I as [_ [cs I]]. destruct (eo_shape (b_objs x a)) eqn:Es; split; try discriminate; eauto; intros [cs' Hp]; assert (E := P_fun _ _ _ I Hp); discriminate.
Qed.
Lemma base64_view x0 t x b bu : BI x0 t x b -> queue b = [] -> In bu (pending b) -> (is_base64 T ptrTo uint8 uint8Enc x bu = true <-> B64 (eb_type bu)).
Proof.
  intros A Q Hb. destruct (bi_pend _ _ _ _ A bu Hb) as (P1 & P2 & P3 & P4 & _). unfold is_base64.
  assert (Kn : forall c, known x b c -> exists v, b_int x c = Some v) by (intros c [H|H]; [destruct (b_int x c); [eauto|congruence]|rewrite Q in H; destruct H]).
  split.
  - destruct (eb_shape bu) eqn:Es; try discriminate. destruct (eb_refs bu) as [|e [|]] eqn:Er; try discriminate. destruct (et_kind (T e)) as [na d| | | | | | |] eqn:Ek; try discriminate.
    intros H. apply andb_true_iff in H as [H H3]. apply andb_true_iff in H as [H1 H2]. apply Nat.eqb_eq in H1. subst na.
    destruct (b_int x (ptrTo e)) as [v|] eqn:Ep; [|discriminate]. apply (ptr_view _ _ _ _ _ _ A Ep) in H2.
    destruct (b_int x e) as [[[]| |]|] eqn:Ee; try discriminate. apply Nat.eqb_eq in H3. subst enc.
    exists e, d. split; auto. split; auto. split; [|now apply chooses_P]. assert (I := iview _ _ _ _ _ _ A Ee). apply chooses_Pl; auto. discriminate.
  - intros (e & d & B1 & B2 & B3 & B4). assert (E := P_fun _ _ _ P4 B1). injection E as -> ->. rewrite B2, Nat.eqb_refl. simpl.
    destruct (Kn (ptrTo e)) as [v Ep]; [apply (bi_closed _ _ _ _ A (eb_type bu) ESlice [e]); auto; [congruence|now left]|].
    destruct (Kn e) as [w Ee]; [apply (bi_closed _ _ _ _ A (ptrTo e) EPtr [e]); auto; [congruence|now left]|].
    assert (F : follows e) by (apply follows_iff; eauto). apply (ptr_view _ _ _ _ _ _ A Ep) in F. rewrite Ep, F. simpl.
    rewrite Ee, (entry_leaf _ _ _ _ _ _ _ A Ee B3). apply Nat.eqb_refl.
Qed.
Lemma BI_base64 x0 t x l1 bu l2 rest : BI x0 t x (EBase64 (l1 ++ bu :: l2) rest) -> is_base64 T ptrTo uint8 uint8Enc x bu = true ->
  BI x0 t (e_both x (eb_type bu) (ELeaf ELBase64)) (EBase64 (l1 ++ l2) rest).
Proof.
  intros A E. assert (Hb : In bu (pending (EBase64 (l1 ++ bu :: l2) rest))) by (simpl; apply in_or_app; left; apply in_or_app; right; now left).
  apply (base64_view _ _ _ _ _ A eq_refl Hb) in E. destruct (bi_pend _ _ _ _ A bu Hb) as (P1 & P2 & P3 & P4 & _).
  assert (P5 : b_new x0 (eb_type bu) = None) by (destruct (bi_ig _ _ _ _ A) as (_ & _ & D & _); now apply D).
  destruct A as [A1 A2 A3 A4 A5 A6 A7 A8 A9 A10 A11 A12 A13].
  assert (Pm : Permutation (pending (EBase64 (l1 ++ bu :: l2) rest)) (bu :: pending (EBase64 (l1 ++ l2) rest))).
  { simpl. rewrite <- !app_assoc. symmetry. apply Permutation_middle. }
  assert (Nd : NoDup (eb_type bu :: map eb_type (pending (EBase64 (l1 ++ l2) rest)))) by exact (Permutation_NoDup (Permutation_map eb_type Pm) A12).
  inversion Nd as [|? ? Nd1 Nd2]; subst.
  assert (Ty : forall b', In b' (pending (EBase64 (l1 ++ l2) rest)) -> eb_type b' <> eb_type bu) by (intros b' Hb' Et; apply Nd1; rewrite <- Et; now apply in_map).
  assert (In' : forall b', In b' (pending (EBase64 (l1 ++ bu :: l2) rest)) -> b' = bu \/ In b' (pending (EBase64 (l1 ++ l2) rest))).
  { intros b' Hb'. apply (Permutation_in b' Pm) in Hb'. destruct Hb'; auto. }
  assert (Kn : forall c, known x (EBase64 (l1 ++ bu :: l2) rest) c -> known (e_both x (eb_type bu) (ELeaf ELBase64)) (EBase64 (l1 ++ l2) rest) c).
  { intros c [H|[]]. left. simpl. unfold upd. destruct (c =? eb_type bu); [discriminate|auto]. }
  constructor; [exact A1| | |exact A4|exact A5| | | | | | |exact Nd2|auto].
  - intros c v Hc. simpl. rewrite upd_other; auto. intros ->. congruence.
  - intros c v Hc. simpl. rewrite upd_other; auto. intros ->. congruence.
  - intros c. simpl. unfold upd. destruct (c =? eb_type bu); [discriminate|auto].
  - intros c v. simpl b_int. unfold upd at 1. destruct (Nat.eqb_spec c (eb_type bu)) as [->|Nc]; [intros [= <-]; right; split; auto; now apply ec_base64|].
    intros Hc. destruct (A7 c v Hc) as [H|[H1 H]]; [auto|right; split; [exact H1|]]. destruct v as [l|v|a]; auto.
    destruct H as (sh & cs & Q1 & Q2 & Q3 & Q4 & [[Q5 Q6]|(vs & _ & _ & [] & _)]). exists sh, cs. split; auto. split; auto. split; auto. split; auto. left. split; auto.
    destruct (In' _ Q6) as [Eb|Hi]; auto. elim Nc. now rewrite <- Eb.
  - intros c v. simpl b_new. unfold upd at 1. destruct (Nat.eqb_spec c (eb_type bu)) as [->|Nc].
    + intros [= <-]. right. split; auto. right. exists (inl ELBase64), (ELeaf ELBase64). split; [now apply ec_base64|]. split; [discriminate|]. simpl. rewrite upd_same. auto.
    + intros Hc. destruct (A8 c v Hc) as [H|[H1 [(e & _ & [] & _)|(d & w & H2 & H3 & H4 & H5)]]]; [auto|right; split; [exact H1|]]. right. exists d, w. split; auto. split; auto. simpl. rewrite upd_other by auto. auto.
  - intros c. simpl b_int. simpl b_new. unfold upd. destruct (Nat.eqb_spec c (eb_type bu)) as [->|Nc]; [left; discriminate|]. intros Hc. destruct (A9 c Hc) as [H|H]; [auto|right].
    apply in_map_iff in H as (b' & Eb & H). destruct (In' _ H) as [->|Hi]; [congruence|]. rewrite <- Eb. now apply in_map.
  - intros c sh cs d Hc Hd Hi. apply Kn. eapply A10; eauto. simpl in Hc. unfold upd in Hc. destruct (Nat.eqb_spec c (eb_type bu)) as [->|Nc]; [congruence|auto].
  - intros b' Hb'. assert (N := Ty _ Hb'). destruct (A11 b') as (H1 & H2 & H3 & H4 & H5); [apply (Permutation_in b' (Permutation_sym Pm)); now right|].
    simpl b_int. simpl b_new. rewrite !upd_other by auto. split; auto. split; auto. split; auto. split; auto. simpl in H5 |- *. destruct H5 as [H5|H5]; auto.
    left. apply in_app_or in H5 as [H5|[H5|H5]]; [apply in_or_app; auto|subst; congruence|apply in_or_app; auto].
Qed.
(** the references of a struct are set *)
Lemma BI_set x0 t x b b' bu vs r : BI x0 t x b -> queue b = [] -> late b -> late b' -> queue b' = [] -> Permutation (pending b) (bu :: pending b') -> (forall b2, In b2 (pending b) -> b2 <> bu -> sorted b b2 -> sorted b' b2) ->
  ~ B64 (eb_type bu) -> Forall2 (child x0 x (eb_shape bu)) (eb_refs bu) vs -> rentry x0 x b' (eb_type bu) r ->
  BI x0 t (e_set x bu vs (Some r)) b'.
Proof.
  intros A Q Lb Lb' Q' Pm So NB F R. assert (Hb : In bu (pending b)) by (apply (Permutation_in bu (Permutation_sym Pm)); now left).
  destruct (bi_pend _ _ _ _ A bu Hb) as (P1 & P2 & P3 & P4 & _).
  assert (P5 : b_new x0 (eb_type bu) = None) by (destruct (bi_ig _ _ _ _ A) as (_ & _ & D & _); now apply D).
  destruct A as [A1 A2 A3 A4 A5 A6 A7 A8 A9 A10 A11 A12 A13].
  assert (Nd : NoDup (eb_type bu :: map eb_type (pending b'))) by exact (Permutation_NoDup (Permutation_map eb_type Pm) A12).
  inversion Nd as [|? ? Nd1 Nd2]; subst.
  assert (Ty : forall b2, In b2 (pending b') -> eb_type b2 <> eb_type bu) by (intros b2 Hb' Et; apply Nd1; rewrite <- Et; now apply in_map).
  assert (In' : forall b2, In b2 (pending b) -> b2 = bu \/ In b2 (pending b')).
  { intros b2 Hb'. apply (Permutation_in b2 Pm) in Hb'. destruct Hb'; auto. }
  assert (Hn : b_nobjs x0 <= eb_obj bu < b_nobjs x /\ eo_type (b_objs x (eb_obj bu)) = eb_type bu /\ eo_shape (b_objs x (eb_obj bu)) = eb_shape bu).
  { destruct (A7 _ _ P1) as [H|[_ (sh & cs & H1 & H2 & H3 & H4 & _)]]; [congruence|]. assert (E := P_fun _ _ _ P4 H1). split; auto. split; auto. congruence. }
  destruct Hn as (Hn & Ht & Hs).
  assert (Kn : forall c, known x b c -> known (e_set x bu vs (Some r)) b' c) by (intros c [H|H]; [left; exact H|rewrite Q in H; destruct H]).
  constructor; [exact A1|exact A2| | |exact A5| | | | | | |exact Nd2|auto].
  - intros c v Hc. simpl. rewrite upd_other; auto. intros ->. congruence.
  - intros a Ha. simpl. rewrite upd_other by lia. auto.
  - intros c Hc. simpl in *. rewrite upd_other; auto. intros ->. congruence.
  - intros c v Hc. simpl in Hc. destruct (A7 c v Hc) as [H|[H1 H]]; [auto|right; split; [exact H1|]]. destruct v as [l|v|a]; auto.
    destruct H as (sh & cs & Q1 & Q2 & Q3 & Q4 & Q5). exists sh, cs. split; auto. split; auto. unfold e_set at 1 2. simpl b_objs.
    destruct (Nat.eq_dec a (eb_obj bu)) as [->|Na].
    + rewrite upd_same. simpl. split; auto. split; auto. right. exists vs. unfold e_set at 1. simpl b_objs. rewrite upd_same. simpl. split; auto.
      assert (c = eb_type bu) as -> by congruence. assert (E := P_fun _ _ _ P4 Q1). injection E as E1 E2. split; auto. split; auto. rewrite <- E1, <- E2. exact F.
    + rewrite upd_other by auto. split; auto. split; auto. unfold status. unfold e_set at 1 2. simpl b_objs. rewrite upd_other by auto.
      destruct Q5 as [[Q5 Q6]|(vs' & Q5 & Q6 & _ & Q7)]; [left; split; auto|right; exists vs'; split; auto].
      destruct (In' _ Q6) as [E|E]; auto. subst bu. simpl in Na. congruence.
  - intros c v. simpl b_new. unfold upd at 1. destruct (Nat.eqb_spec c (eb_type bu)) as [->|Nc]; [intros [= <-]; right; split; auto; exact R|].
    intros Hc. destruct (A8 c v Hc) as [H|[H1 H]]; [auto|right; split; [exact H1|]]. destruct H as [(e & E1 & _ & E3)|H]; [left; exists e; auto|right; exact H].
  - intros c. simpl b_int. simpl b_new. unfold upd. destruct (Nat.eqb_spec c (eb_type bu)) as [->|Nc]; [left; discriminate|]. intros Hc. destruct (A9 c Hc) as [H|H]; [auto|right].
    apply in_map_iff in H as (b2 & Eb & H). destruct (In' _ H) as [->|Hi]; [congruence|]. rewrite <- Eb. now apply in_map.
  - intros c sh cs d Hc Hd Hi. apply Kn. eapply A10; eauto.
  - intros b2 Hb'. assert (N := Ty _ Hb'). assert (Hb2 : In b2 (pending b)) by (apply (Permutation_in b2 (Permutation_sym Pm)); now right). destruct (A11 b2 Hb2) as (H1 & H2 & H3 & H4 & H5).
    simpl b_int. simpl b_new. rewrite upd_other by auto. split; auto. split; auto. split; auto. split; auto. apply So; auto. congruence.
Qed.
Lemma known_int x0 t x b u sh cs c : BI x0 t x b -> queue b = [] -> b_int x u <> None -> P u (inr (sh, cs)) -> In c (deps sh cs) -> exists v, b_int x c = Some v.
Proof.
  intros A Q H1 H2 H3. destruct (bi_closed _ _ _ _ A u sh cs c H1 H2 H3) as [H|H]; [destruct (b_int x c); [eauto|congruence]|rewrite Q in H; destruct H].
Qed.
Lemma BI_pointer x0 t x l1 bu l2 rest : BI x0 t x (EPtrs (l1 ++ bu :: l2) rest) -> eb_shape bu = EPtr -> BI x0 t (e_pointer x bu) (EPtrs (l1 ++ l2) rest).
Proof.
  intros A Es. assert (Hb : In bu (pending (EPtrs (l1 ++ bu :: l2) rest))) by (simpl; apply in_or_app; left; apply in_or_app; right; now left).
  destruct (bi_pend _ _ _ _ A bu Hb) as (P1 & P2 & P3 & P4 & So). simpl in So. rewrite Es in P4. destruct (P_pointer _ _ P4) as (e & Er & Ek). rewrite Er in P4.
  destruct (known_int _ _ _ _ (eb_type bu) EPtr [e] e A eq_refl) as [v Ev]; auto; [congruence|now left|].
  unfold e_pointer. rewrite Er. simpl. rewrite Ev. apply (BI_set _ _ _ _ _ _ _ _ A); simpl; auto.
  - rewrite <- !app_assoc. symmetry. apply Permutation_middle.
  - intros b2 _ N2 [S1 S2]. split; auto. intros E2. specialize (S2 E2). apply in_app_or in S2 as [S2|[S2|S2]]; [apply in_or_app; auto|congruence|apply in_or_app; auto].
  - tauto.
  - rewrite Er, Es. constructor; [|constructor]. exists v. auto.
  - left. exists e. split; [apply chooses_shape; auto; discriminate|]. split; [exact I|]. exists v. auto.
Qed.
Lemma prefer_ok x0 t x l c : BI x0 t x (EOthers l) -> (exists v, b_int x (ptrTo c) = Some v) -> prefer_val x0 x c (preferPtrEncoder ptrTo x c).
Proof.
  intros A [v Ev]. unfold preferPtrEncoder. rewrite Ev. destruct (is_pointer x (Some v)) eqn:Ei.
  2: { right. split; [|eauto]. intros Fc. apply (ptr_view _ _ _ _ _ _ A Ev) in Fc. congruence. }
  apply (ptr_view _ _ _ _ _ _ A Ev) in Ei. left. split; auto. apply chooses_P in Ei.
  destruct (bi_ientry _ _ _ _ A _ _ Ev) as [H|[_ H]].
  - apply (proj1 (bi_ig _ _ _ _ A)) in H. apply comp_choice in H. destruct v as [l'|v|a]; [|contradiction|].
    + assert (E := chooses_fun _ _ _ H (chooses_shape _ _ _ Ei ltac:(discriminate))). discriminate.
    + destruct H as (Ha & sh & cs & vs & Ch & Ho & Hf). assert (E := P_fun _ _ _ Ei (chooses_P _ _ _ Ch)). injection E as <- <-. specialize (Hf eq_refl). inversion Hf as [|? w ? ? Hw Hn]; subst. inversion Hn; subst.
      simpl. rewrite (bi_frame _ _ _ _ A) by auto. rewrite Ho. simpl. destruct w as [w|]; [|destruct (Hw 0) as (y & _ & Y); inversion Y]. exists w. auto.
  - destruct v as [l'|v|a]; [|contradiction|].
    + assert (E := chooses_fun _ _ _ H (chooses_shape _ _ _ Ei ltac:(discriminate))). discriminate.
    + destruct H as (sh & cs & Hp & _ & _ & _ & St). assert (E := P_fun _ _ _ Ei Hp). injection E as <- <-. destruct St as [[_ Hb]|(vs & Hr & _ & _ & Hf)].
      * destruct (bi_pend _ _ _ _ A _ Hb) as (_ & _ & _ & _ & [_ So]). simpl in So. congruence.
      * inversion Hf as [|? w ? ? Hw Hn]; subst. inversion Hn; subst. simpl. rewrite Hr. exact Hw.
Qed.
Lemma Forall2_map {A C} (R : A -> C -> Prop) (f : A -> C) l : (forall a, In a l -> R a (f a)) -> Forall2 R l (map f l).
Proof. induction l as [|a l IH]; simpl; intros H; constructor; auto. Qed.
Lemma BI_other x0 t x l1 bu l2 : BI x0 t x (EOthers (l1 ++ bu :: l2)) -> BI x0 t (e_other T ptrTo x bu) (EOthers (l1 ++ l2)).
Proof.
  intros A. assert (Hb : In bu (pending (EOthers (l1 ++ bu :: l2)))) by (simpl; apply in_or_app; right; now left).
  destruct (bi_pend _ _ _ _ A bu Hb) as (P1 & P2 & P3 & P4 & [NB Np]).
  assert (Ch : chooses (eb_type bu) (inr (eb_shape bu, eb_refs bu))) by now apply ec_plain.
  assert (Kn : forall c, In c (deps (eb_shape bu) (eb_refs bu)) -> exists v, b_int x c = Some v).
  { intros c Hc. eapply known_int; eauto. congruence. }
  assert (G : forall vs r, Forall2 (child x0 x (eb_shape bu)) (eb_refs bu) vs ->
    (needs (eb_type bu) (inr (eb_shape bu, eb_refs bu)) /\ r = EDirect (EObj (eb_obj bu)) \/ ~ needs (eb_type bu) (inr (eb_shape bu, eb_refs bu)) /\ r = EObj (eb_obj bu)) ->
    BI x0 t (e_set x bu vs (Some r)) (EOthers (l1 ++ l2))).
  { intros vs r F R. apply (BI_set _ _ _ _ _ _ _ _ A); simpl; auto.
    - symmetry. apply Permutation_middle.
    - right. exists (inr (eb_shape bu, eb_refs bu)), (EObj (eb_obj bu)). split; auto. split; [intros e; congruence|]. split; auto. }
  unfold e_other. cbv zeta. destruct (eb_shape bu) eqn:Es; [congruence| | | |]; apply G; simpl.
  - apply Forall2_map. intros c Hc. eapply prefer_ok; eauto. apply Kn. simpl. now apply in_map.
  - destruct (et_indir (T (eb_type bu))); [right|left]; split; auto. discriminate.
  - apply Forall2_map. intros c Hc. destruct (Kn c Hc) as [v Ev]. exists v. auto.
  - auto.
  - apply Forall2_map. intros c Hc. eapply prefer_ok; eauto. apply Kn. simpl. now apply in_map.
  - right. split; auto.
  - apply Forall2_map. intros c Hc. eapply prefer_ok; eauto. apply Kn. simpl. now apply in_map.
  - destruct (et_indir (T (eb_type bu))); [right|left]; split; auto. discriminate.
Qed.
Notation step := (estep T ptrTo uint8 uint8Enc).
Lemma BI_step x0 t x b acc x' b' : BI x0 t x b -> step x b acc x' b' ->
  BI x0 t x' b' /\ (forall a, a < b_nobjs x0 -> b_objs x' a = b_objs x a) /\ (forall a, In (BObj a, true) acc -> b_nobjs x0 <= a).
Proof.
  intros A St. assert (N := bi_n _ _ _ _ A).
  assert (Pn : forall bu, In bu (pending b) -> b_nobjs x0 <= eb_obj bu).
  { intros bu Hb. destruct (bi_pend _ _ _ _ A bu Hb) as (P1 & P2 & _). destruct (bi_ientry _ _ _ _ A _ _ P1) as [H|[_ (sh & cs & _ & H & _)]]; [congruence|lia]. }
  assert (G : BI x0 t x' b').
  { destruct St as [u q rb|rb|l1 bu l2 rest Eb|l1 bu l2 rest Eb|rest|l1 bu l2 rest Es|l1 bu l2 rest Es|rest|l1 bu l2].
    - now apply BI_visit.
    - eapply BI_same; eauto; simpl; auto. now rewrite app_nil_r.
    - now apply BI_base64.
    - assert (Hb : In bu (pending (EBase64 (l1 ++ bu :: l2) rest))) by (simpl; apply in_or_app; left; apply in_or_app; right; now left).
      assert (NB : ~ B64 (eb_type bu)) by (intros B; apply (base64_view _ _ _ _ _ A eq_refl Hb) in B; congruence).
      eapply BI_same; eauto; simpl; auto.
      + rewrite <- !app_assoc. apply Permutation_app_head. simpl. apply Permutation_middle.
      + intros b2 _ [H|H]; [|now right]. apply in_app_or in H as [H|[H|H]]; [left; apply in_or_app; auto|subst; now right|left; apply in_or_app; auto].
    - eapply BI_same; eauto; simpl; auto; [now rewrite app_nil_r|]. intros b2 Hb2 [[]|H]. auto.
    - now apply BI_pointer.
    - eapply BI_same; eauto; simpl; auto.
      + rewrite <- !app_assoc. apply Permutation_app_head. simpl. apply Permutation_middle.
      + intros b2 _ [H1 H2]. split; auto. intros E. specialize (H2 E). apply in_app_or in H2 as [H|[H|H]]; [apply in_or_app; auto|congruence|apply in_or_app; auto].
    - eapply BI_same; eauto; simpl; auto.
    - now apply BI_other. }
  split; auto. split.
  - intros a Ha. rewrite (bi_frame _ _ _ _ G) by auto. symmetry. now apply (bi_frame _ _ _ _ A).
  - intros a Ha. destruct St as [u q rb|rb|l1 bu l2 rest Eb|l1 bu l2 rest Eb|rest|l1 bu l2 rest Es|l1 bu l2 rest Es|rest|l1 bu l2]; simpl in Ha; try contradiction.
    + destruct Ha as [E|[E|[E|[]]]]; try discriminate. injection E as <-. auto.
    + destruct Ha as [E|[E|[]]]; discriminate.
    + destruct Ha as [E|[]]; discriminate.
    + destruct Ha as [E|[E|[E|[]]]]; try discriminate. injection E as <-. apply Pn. simpl. apply in_or_app. left. apply in_or_app. right. now left.
    + destruct Ha as [E|[E|[E|E]]]; try discriminate.
      * injection E as <-. apply Pn. simpl. apply in_or_app. right. now left.
      * unfold e_reads in E. apply in_flat_map in E as (c & _ & E). destruct (b_int x (ptrTo c)) as [v|]; [|destruct E]. destruct (e_target v); [|destruct E]. destruct E as [E|[]]. discriminate.
Qed.
Lemma BI_done x0 t x b : BI x0 t x b -> edone b -> IG x /\ b_new x t <> None /\ (forall t v, b_new x0 t = Some v -> b_new x t = Some v).
Proof.
  intros A ->. assert (A' := A). destruct A' as [A1 A2 A3 A4 A5 A6 A7 A8 A9 A10 A11 A12 A13].
  assert (Cov : forall u, b_int x u <> None -> b_new x u <> None) by (intros u H; destruct (A9 u H) as [H'|[]]; auto).
  assert (Cm : forall n u v, b_int x u = Some v -> exists y, inner n u y /\ esees (b_objs x) (b_nobjs x) n (Some v) y).
  { induction n as [|n IH]; intros u v Hv; [exists ECut; split; constructor|]. destruct (A7 u v Hv) as [H|[_ H]].
    - apply (proj1 A1) in H. destruct (H (S n)) as (y & Y1 & Y2). exists y. split; auto. eapply esees_frame; eauto.
    - destruct v as [l|v|a]; [exists (ETLeaf l); split; constructor; auto|contradiction|].
      destruct H as (sh & cs & H1 & H2 & H3 & H4 & [[_ []]|(vs & H5 & H6 & _ & H7)]).
      assert (Ch : chooses u (inr (sh, cs))) by now apply ec_plain.
      assert (Iv : forall c w, inner_val x0 x c w -> exists y, inner n c y /\ esees (b_objs x) (b_nobjs x) n w y).
      { intros c w (v & -> & [H|H]); [now apply IH|]. destruct (H n) as (y & Y1 & Y2). exists y. split; auto. eapply esees_frame; eauto. }
      assert (Pv : forall c w, prefer_val x0 x c w -> exists y, prefer n c y /\ esees (b_objs x) (b_nobjs x) n w y).
      { intros c w. destruct n as [|m].
        - intros [[_ (v & -> & _)]|[_ (v & _ & ->)]]; exists ECut; split; constructor.
        - intros [[Fc Hw]|[Nf (v & Hv' & ->)]].
          + destruct (Iv c w Hw) as (y & Y1 & Y2). exists y. split; auto. now apply er_follow.
          + destruct (IH _ _ Hv') as (y & Y1 & Y2). exists (ETDirect y). split; [now apply er_direct|now constructor]. }
      assert (Fa : forall (R : nat -> option eval -> Prop) (Q : nat -> etree -> Prop), (forall c w, R c w -> exists y, Q c y /\ esees (b_objs x) (b_nobjs x) n w y) -> Forall2 R cs vs ->
        exists xs, Forall2 Q cs xs /\ Forall2 (esees (b_objs x) (b_nobjs x) n) vs xs).
      { intros R Q HR F. clear - HR F. induction F as [|c w cs vs Hc F IH]; [exists []; split; constructor|]. destruct IH as (xs & X1 & X2). destruct (HR _ _ Hc) as (y & Y1 & Y2). exists (y :: xs). split; constructor; auto. }
      assert (Ho : b_objs x a = mkEO sh u (Some vs)) by (destruct (b_objs x a); simpl in *; congruence).
      assert (D : (sh = EPtr \/ sh = EMap) \/ (sh = EArray \/ sh = ESlice \/ sh = EStruct)) by (destruct sh; auto).
      destruct D as [D|D].
      + destruct (Fa _ _ Iv) as (xs & X1 & X2); [destruct D as [D|D]; rewrite D in H7; exact H7|]. exists (ETNode sh u xs). split; [eapply ei_node; eauto|]. econstructor; [lia|exact Ho|exact X2].
      + destruct (Fa _ _ Pv) as (xs & X1 & X2); [destruct D as [D|[D|D]]; rewrite D in H7; exact H7|]. exists (ETNode sh u xs). split; [eapply ei_prefer; eauto|]. econstructor; [lia|exact Ho|exact X2]. }
  split; [|split; [destruct A13 as [H|[]]; auto|exact A3]].
  split; [|split; [|split; [|split]]].
  - intros u v Hv n. auto.
  - intros u v Hv n. destruct (A8 u v Hv) as [H|[_ H]].
    + destruct A1 as (_ & A1 & _). destruct (A1 _ _ H n) as (y & Y1 & Y2). exists y. split; auto. eapply esees_frame; eauto.
    + destruct n as [|n]; [exists ECut; split; constructor|]. destruct H as [(e & E1 & _ & (w & Ew & E3))|(c & w & E1 & E2 & E3 & E4)].
      * assert (Y : exists y, inner (S n) e y /\ esees (b_objs x) (b_nobjs x) (S n) (Some v) y).
        { injection Ew as <-. destruct E3 as [H|H]; [now apply Cm|]. destruct (H (S n)) as (y & Y1 & Y2). exists y. split; auto. eapply esees_frame; eauto. }
        destruct Y as (y & Y1 & Y2). exists y. split; auto. eapply eo_pointer; eauto.
      * destruct (Cm (S n) u w E3) as (y & Y1 & Y2). destruct E4 as [[E4 ->]|[E4 ->]].
        -- exists (ETDirect y). split; [eapply eo_address; eauto|now constructor].
        -- exists y. split; auto. eapply eo_same; eauto.
  - intros u. split; [apply A6|]. intros H. destruct (b_int x u) as [w|] eqn:E; auto. elim (Cov u); congruence.
  - intros u n Hn. apply A2. destruct A1 as (_ & _ & _ & A1 & _). now apply A1.
  - intros u sh cs c H1 H2 H3. destruct (A10 u sh cs c H1 H2 H3) as [H|[]]. exact H.
Qed.
Theorem enc_build_ok : build_ok estart step edone e_target e_refs okv okw IG BI.
Proof.
  constructor.
  - intros objs k t v objs' k'. apply comp_frame.
  - intros objs k t v H n. destruct (H n) as (x & _ & Se). eauto.
  - intros objs k v objs' k' H F L n. destruct (H n) as (x & Se). exists x. eapply esees_frame; eauto.
  - apply okw_call.
  - intros x t v (_ & H & _). apply H.
  - apply BI_start.
  - apply BI_step.
  - intros x0 t x b A. apply A.
  - apply BI_done.
Qed.
Lemma enc_progress x0 t x b : BI x0 t x b -> edone b \/ exists acc x' b', step x b acc x' b'.
Proof.
  intros _. destruct b as [[|u q] rb|[|bu l] r|[|bu l] r|[|bu l]]; try (right; do 3 eexists; constructor; fail).
  - right. destruct (is_base64 T ptrTo uint8 uint8Enc x bu) eqn:E; do 3 eexists; [eapply (es_base64 _ _ _ _ x [] bu)|eapply (es_nobase64 _ _ _ _ x [] bu)]; exact E.
  - right. assert (D : eb_shape bu = EPtr \/ eb_shape bu <> EPtr) by (destruct (eb_shape bu); auto; right; discriminate).
    destruct D; do 3 eexists; [eapply (es_ptr _ _ _ _ x [] bu)|eapply (es_noptr _ _ _ _ x [] bu)]; auto.
  - left. reflexivity.
  - right. do 3 eexists. apply (es_other _ _ _ _ x [] bu).
Qed.
Lemma enc_init : Inv okv okw IG BI (econfig custom) 0.
Proof.
  assert (Hi : forall t v, option_map (fun n => ELeaf (ELCustom n)) (custom t) = Some v -> comp_at (fun _ => mkEO EPtr 0 None) 0 t (Some v)).
  { intros t v. destruct (custom t) as [n|] eqn:E; [|discriminate]. intros [= <-] [|k].
    - exists ECut. split; constructor.
    - exists (ETLeaf (ELCustom n)). split; constructor. apply chooses_leaf. now apply ep_custom. }
  assert (H : forall t v, option_map (fun n => ELeaf (ELCustom n)) (custom t) = Some v -> okv (fun _ => mkEO EPtr 0 None) 0 t v).
  { intros t v Hv [|k]; [exists ECut; split; constructor|]. destruct (Hi t v Hv (S k)) as (y & Y1 & Y2). exists y. split; auto. destruct (custom t) as [n|] eqn:E; [|discriminate].
    apply (eo_same _ _ _ _ _ k t (inl (ELCustom n))); auto; [apply chooses_leaf; now apply ep_custom|discriminate]. }
  constructor; simpl; auto; try discriminate.
  - intros i [].
  - split; [|exact H]. split; [discriminate|]. split; [simpl; lia|]. intros i [].
  - intros _. split; auto. split; [exact Hi|]. split; [exact H|]. split; [reflexivity|]. split.
    + intros t n E. simpl. now rewrite E.
    + intros t sh cs c. simpl. destruct (custom t) as [n|] eqn:E; [|simpl; congruence]. intros _ Hp. assert (X := P_fun _ _ _ Hp (ep_custom _ _ _ _ E)). discriminate.
Qed.

(** ** The build ends *)
Section Ends.
Variable U : list nat.
Hypothesis U_closed : eclosed T ptrTo U.
Definition after (y x : mem * ebuild) : Prop := exists acc, step (fst x) (snd x) acc (fst y) (snd y).
Definition missing (x : mem) : nat := length (filter (fun u => match b_int x u with None => true | _ => false end) U).
Lemma drop_one {A} (l1 l2 : list A) a n : length (l1 ++ a :: l2) <= S n -> length (l1 ++ l2) <= n.
Proof. rewrite !app_length. simpl. lia. Qed.
Lemma one_more {A} (l1 l2 : list A) a : length (l1 ++ a :: l2) <= 0 -> False.
Proof. rewrite app_length. simpl. lia. Qed.
Lemma acc_others n : forall x l, length l <= n -> Acc after (x, EOthers l).
Proof.
  induction n as [|n IH]; intros x l L; constructor; intros [y b] [acc St]; simpl in St; inversion St; subst.
  - elim (one_more _ _ _ L).
  - apply IH. eapply drop_one; eauto.
Qed.
Lemma acc_ptrs n : forall x l r, length l <= n -> Acc after (x, EPtrs l r).
Proof.
  induction n as [|n IH]; intros x l r L; constructor; intros [y b] [acc St]; simpl in St; inversion St; subst; try (now apply (acc_others (length r))).
  - elim (one_more _ _ _ L).
  - elim (one_more _ _ _ L).
  - apply IH. eapply drop_one; eauto.
  - apply IH. eapply drop_one; eauto.
Qed.
Lemma acc_base64 n : forall x l r, length l <= n -> Acc after (x, EBase64 l r).
Proof.
  induction n as [|n IH]; intros x l r L; constructor; intros [y b] [acc St]; simpl in St; inversion St; subst; try (now apply (acc_ptrs (length r))).
  - elim (one_more _ _ _ L).
  - elim (one_more _ _ _ L).
  - apply IH. eapply drop_one; eauto.
  - apply IH. eapply drop_one; eauto.
Qed.
Lemma filter_less {A} (f g : A -> bool) l a : (forall x, g x = true -> f x = true) -> In a l -> f a = true -> g a = false ->
  length (filter g l) < length (filter f l).
Proof.
  intros H. assert (Le : forall l, length (filter g l) <= length (filter f l)).
  { induction l0 as [|x l0 IHl]; simpl; auto. specialize (H x). destruct (g x); [rewrite H by auto; simpl; lia|]. destruct (f x); simpl; lia. }
  induction l as [|x l IH]; intros []; intros Hf Hg; simpl.
  - subst. rewrite Hf, Hg. simpl. specialize (Le l). lia.
  - specialize (IH H0 Hf Hg). specialize (H x). destruct (g x); [rewrite H by auto; simpl; lia|]. destruct (f x); simpl; lia.
Qed.
Lemma missing_upd x u v i o n : In u U -> b_int x u = None -> missing (mkB i (upd (b_int x) u (Some v)) o n) < missing x.
Proof.
  intros Hu N. apply (filter_less _ _ U u); auto.
  - intros w. simpl. unfold upd. destruct (w =? u); [discriminate|auto].
  - now rewrite N.
  - simpl. now rewrite upd_same.
Qed.
Definition lessened (x : mem) (q : list nat) (y : mem * ebuild) : Prop :=
  exists q' rb', snd y = ELoop q' rb' /\ incl q' U /\ (fst y = x /\ q' = q \/ missing (fst y) < missing x).
(** a visit forgets the type or makes it known *)
Lemma visit_less x q rb u : incl (u :: q) U -> lessened x q (visit x q rb u).
Proof.
  intros I. assert (Hu : In u U) by (apply I; now left). assert (Iq : incl q U) by (intros z Hz; apply I; now right).
  unfold e_visit. cbv zeta. destruct (b_int x u) as [v|] eqn:Eu; [exists q, rb; auto|].
  assert (Ip : forall ts, incl ts (ecomponents ptrTo (et_kind (T u))) -> incl (push q ts) U).
  { intros ts Ht z Hz. unfold push in Hz. apply in_app_or in Hz. destruct Hz as [Hz|Hz]; auto. rewrite <- in_rev in Hz. apply (U_closed u Hu). auto. }
  assert (Lf : forall n v o k ts, incl ts (ecomponents ptrTo (et_kind (T u))) -> lessened x q (mkB n (upd (b_int x) u (Some v)) o k, ELoop (push q ts) rb)).
  { intros n v o k ts Ht. exists (push q ts), rb. split; [reflexivity|]. split; auto. right. now apply missing_upd. }
  assert (Lb : forall v, lessened x q (e_both x u v, ELoop q rb)) by (intros v; apply (Lf _ _ _ _ []); intros z []).
  assert (Ld : forall v, lessened x q (e_direct x u v, ELoop q rb)) by (intros v; apply (Lf _ _ _ _ []); intros z []).
  assert (Nd : forall sh cs ts, incl ts (ecomponents ptrTo (et_kind (T u))) -> lessened x q (e_node x q rb u sh cs ts)).
  { intros sh cs ts Ht. eexists _, _. split; [reflexivity|]. split; auto. right. now apply missing_upd. }
  assert (Ma : forall impl a b d, lessened x q (e_marshaler T x q rb u impl a b d)).
  { intros impl a b d. unfold e_marshaler. destruct (et_indir (T u)); auto. destruct (et_kind (T u)) eqn:K; auto. destruct (impl elem); auto. apply Nd. apply incl_refl. }
  destruct (et_global (T u)); auto. destruct (et_json (T u)); auto. destruct (et_text (T u)); auto.
  destruct (et_kind (T u)) as [na d|[]|[|f fs]|e|[] e|e|[e|]|] eqn:Ek; auto; try (apply Nd; apply incl_refl).
  apply (Lf _ _ _ _ [ptrTo e]). apply incl_refl.
Qed.
Lemma acc_loop m : forall n x q rb, incl q U -> missing x <= m -> length q <= n -> Acc after (x, ELoop q rb).
Proof.
  induction m as [m IHm] using lt_wf_ind. induction n as [|n IHn]; intros x q rb I Lm Ln; constructor; intros [y b] [acc St]; simpl in St.
  - destruct q; [|simpl in Ln; lia]. inversion St; subst. now apply (acc_base64 (length rb)).
  - inversion St as [u q' rb'|rb'| | | | | | |]; subst; [|now apply (acc_base64 (length rb))].
    destruct (visit_less x q' rb u I) as (q2 & rb2 & E & I2 & Ls). rewrite E. destruct Ls as [[-> ->]|Ls].
    + apply IHn; auto. simpl in Ln. lia.
    + apply (IHm (missing (fst (visit x q' rb u)))) with (n := length q2); auto. lia.
Qed.
Lemma enc_ends x t : In t U -> Acc after (x, estart t).
Proof. intros Ht. apply (acc_loop (missing x) 1); auto. intros z [<-|[]]. exact Ht. Qed.
End Ends.
End Encoders.
