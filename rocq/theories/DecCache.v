(** The build of decoders meets the conditions of the protocol. *)
From Coq Require Import List Bool Arith Lia Wellfounded.
From Verif Require Import ModelCache SpecCache CacheFacts.
Import ListNotations.

Section Decoders.
Variable custom : nat -> option nat.
Variable T : nat -> dtype.
Hypothesis nat_ok : natives_ok T.
Notation chooses := (chooses custom T).
Notation belongs := (belongs custom T).

Lemma kind_fun t k c c' : kind_chooses custom t k c -> kind_chooses custom t k c' -> c = c'.
Proof. intros H H'. destruct H; inversion H'; subst; congruence. Qed.
Lemma chooses_fun t c c' : chooses t c -> chooses t c' -> c = c'.
Proof.
  intros H H'. destruct H; inversion H'; subst; try congruence. eapply kind_fun; eauto.
Qed.
Lemma chooses_ex t : exists c, chooses t c.
Proof.
  destruct (custom t) as [n|] eqn:E1; [eexists; eapply ch_custom; eauto|].
  destruct (dt_global (T t)) as [n|] eqn:E2; [eexists; eapply ch_global; eauto|].
  destruct (dt_json (T t)) eqn:E3; [eexists; eapply ch_json; eauto|].
  destruct (dt_text (T t)) eqn:E4; [eexists; eapply ch_text; eauto|].
  assert (K : exists c, kind_chooses custom t (dt_kind (T t)) c).
  { destruct (dt_kind (T t)) as [na d|[]|[|f fs]|e|e|e|[e|]|]; try (eexists; constructor; fail).
    - destruct (custom na) eqn:E; eexists; [eapply kc_native|apply kc_basic]; eauto.
    - eexists. apply kc_struct. discriminate. }
  destruct K as [c K]. exists c. now apply ch_kind.
Qed.
Lemma belongs_fun n : forall t x x', belongs n t x -> belongs n t x' -> x = x'.
Proof.
  induction n as [|n IH]; intros t x x' H H'; inversion H; inversion H'; subst; auto.
  - assert (E := chooses_fun _ _ _ H1 H5). congruence.
  - assert (E := chooses_fun _ _ _ H1 H5). congruence.
  - assert (E := chooses_fun _ _ _ H1 H6). congruence.
  - assert (E := chooses_fun _ _ _ H1 H6). injection E as <- <-. f_equal. clear - H2 H7 IH. revert xs0 H7.
    induction H2; intros xs0 H7; inversion H7; subst; auto. f_equal; eauto.
Qed.

Definition okv (objs : nat -> dobj) (k t : nat) (v : dval) : Prop := complete custom T objs k t (Some v).
Lemma sees_frame objs objs' k k' n : forall v x, sees objs k n v x -> (forall a, a < k -> objs' a = objs a) -> k <= k' -> sees objs' k' n v x.
Proof.
  induction n as [|n IH]; intros v x H F L; inversion H as [| |? a sh t vs xs Ha Ho Hf]; subst; try constructor.
  econstructor; [lia|rewrite F by auto; exact Ho|]. clear - Hf IH F L. induction Hf; constructor; eauto.
Qed.
Lemma okv_frame objs k t v objs' k' : okv objs k t v -> (forall a, a < k -> objs' a = objs a) -> k <= k' -> okv objs' k' t v.
Proof. intros H F L n. destruct (H n) as (x & H1 & H2). exists x. split; auto. eapply sees_frame; eauto. Qed.
Lemma okv_choice objs k t v : okv objs k t v ->
  match v with
  | DLeaf l => chooses t (inl l)
  | DObj a => a < k /\ exists sh cs vs, chooses t (inr (sh, cs)) /\ objs a = mkDO sh t (Some vs) /\
      Forall2 (fun c w => complete custom T objs k c w) cs vs
  end.
Proof.
  intros H. destruct (H 1) as (x & B & Se). destruct v as [l|a].
  - inversion Se; subst. inversion B; subst; auto.
  - inversion Se as [| |? ? sh t' vs xs Ha Ho Hf]; subst. inversion B as [| |? ? ? cs ? Ch Hb]; subst. split; auto.
    exists sh, cs, vs. split; auto. split; auto.
    assert (A : forall n, Forall2 (fun c w => exists x, belongs n c x /\ sees objs k n w x) cs vs).
    { intros n. destruct (H (S n)) as (x & B' & Se'). inversion Se' as [| |? ? sh' t2 vs' xs' Ha' Ho' Hf']; subst. assert (vs' = vs) by congruence; subst vs'; assert (sh' = sh) by congruence; subst sh'.
      inversion B' as [| |? ? ? cs' ? Ch' Hb']; subst. assert (E := chooses_fun _ _ _ Ch Ch'). injection E as <-.
      clear - Hf' Hb'. revert vs Hf'. induction Hb'; intros vs Hf'; inversion Hf'; subst; constructor; eauto. }
    clear - A. assert (L : length cs = length vs) by (generalize (A 0); clear; induction 1; simpl; auto).
    revert vs A L. induction cs as [|c cs IH]; intros [|w vs] A L; try discriminate; constructor.
    + intros n. specialize (A n). now inversion A.
    + apply IH; auto. intros n. specialize (A n). now inversion A.
Qed.
Lemma Forall2_right {A C} (R : A -> C -> Prop) l l' y : Forall2 R l l' -> In y l' -> exists x, In x l /\ R x y.
Proof. induction 1; intros []; subst; [eexists; split; [now left|auto]|]. destruct IHForall2 as (z & Z1 & Z2); auto. exists z. split; auto. now right. Qed.
Definition okw (objs : nat -> dobj) (k : nat) (v : dval) : Prop := forall n, exists x, sees objs k n (Some v) x.
Lemma okv_use objs k t v : okv objs k t v -> okw objs k v.
Proof. intros H n. destruct (H n) as (x & _ & Se). eauto. Qed.
Lemma okw_call objs k v a : okw objs k v -> d_target v = Some a ->
  a < k /\ forall w, In w (d_refs (objs a)) -> exists u, w = Some u /\ okw objs k u.
Proof.
  intros H E. destruct v as [l|a']; [discriminate|]. injection E as ->.
  assert (A : a < k /\ exists sh t vs, objs a = mkDO sh t (Some vs)).
  { destruct (H 1) as (x & Se). inversion Se; subst. eauto 6. }
  destruct A as (Ha & sh & t & vs & Ho). split; auto. intros w. unfold d_refs. rewrite Ho. simpl. intros Hw.
  assert (B : forall n, exists x, sees objs k n w x).
  { intros n. destruct (H (S n)) as (x & Se). inversion Se as [| |? ? sh' t' vs' xs Ha' Ho' Hf]; subst. assert (vs' = vs) by congruence. subst vs'.
    clear - Hf Hw. induction Hf; destruct Hw; subst; eauto. }
  destruct (B 0) as (x & Se). inversion Se; subst. eexists. split; [reflexivity|]. exact B.
Qed.
Definition IG (x : bmem dval dobj) : Prop :=
  (forall t v, b_new x t = Some v -> okv (b_objs x) (b_nobjs x) t v) /\
  (forall t n, custom t = Some n -> b_new x t = Some (DLeaf (LCustom n))).
Definition queue (b : dbuild) : list nat := match b with DLoop q _ => q | DBuild _ => [] end.
Definition pending (b : dbuild) : list builder := match b with DLoop _ rb => rb | DBuild rb => rb end.
Definition known (x : bmem dval dobj) (b : dbuild) (c : nat) : Prop := b_new x c <> None \/ In c (queue b).
Definition built (x : bmem dval dobj) (b : dbuild) (u a : nat) (cs : list nat) : Prop :=
  do_refs (b_objs x a) = None /\ In (mkBuilder u a cs) (pending b) \/
  do_refs (b_objs x a) = Some (map (b_new x) cs) /\ exists rb, b = DBuild rb.
Definition entry (x0 x : bmem dval dobj) (b : dbuild) (u : nat) (v : dval) : Prop :=
  match v with
  | DLeaf l => chooses u (inl l)
  | DObj a => exists sh cs, chooses u (inr (sh, cs)) /\ b_nobjs x0 <= a < b_nobjs x /\
      do_shape (b_objs x a) = sh /\ do_type (b_objs x a) = u /\ built x b u a cs /\ forall c, In c cs -> known x b c
  end.
Record BI (x0 : bmem dval dobj) (t : nat) (x : bmem dval dobj) (b : dbuild) : Prop := mkBI {
  bi_ig : IG x0;
  bi_grow : forall u v, b_new x0 u = Some v -> b_new x u = Some v;
  bi_frame : forall a, a < b_nobjs x0 -> b_objs x a = b_objs x0 a;
  bi_n : b_nobjs x0 <= b_nobjs x;
  bi_entry : forall u v, b_new x u = Some v -> b_new x0 u = Some v \/ entry x0 x b u v;
  bi_pend : forall bu, In bu (pending b) -> b_new x (bu_type bu) = Some (DObj (bu_obj bu)) /\ b_new x0 (bu_type bu) = None /\
    exists sh, chooses (bu_type bu) (inr (sh, bu_refs bu));
  bi_target : known x b t
}.
Lemma BI_start x t : IG x -> b_new x t = None -> BI x t x (dstart t).
Proof.
  intros H N. constructor; auto.
  - intros bu [].
  - right. now left.
Qed.
(** the entry added by a visit *)
Lemma BI_leaf x0 t x q rb u l : BI x0 t x (DLoop (u :: q) rb) -> b_new x u = None -> chooses u (inl l) ->
  BI x0 t (fst (d_leaf x q rb u (DLeaf l))) (snd (d_leaf x q rb u (DLeaf l))).
Proof.
  intros [A1 A2 A3 A4 A5 A6 A7] N Ch. simpl.
  assert (Kn : forall c, known x (DLoop (u :: q) rb) c -> known (mkB (upd (b_new x) u (Some (DLeaf l))) (b_int x) (b_objs x) (b_nobjs x)) (DLoop q rb) c).
  { intros c [H|[->|H]]; [|left; simpl; rewrite upd_same; discriminate|right; auto]. left. simpl. unfold upd. destruct (c =? u); [discriminate|auto]. }
  constructor; simpl; auto.
  - intros c v Hc. rewrite upd_other; auto. intros ->. apply A2 in Hc. congruence.
  - intros c v. unfold upd at 1. destruct (Nat.eqb_spec c u) as [->|Nc]; [intros [= <-]; right; exact Ch|].
    intros Hc. destruct (A5 c v Hc) as [H|H]; [auto|right]. destruct v as [l'|a]; [exact H|].
    destruct H as (sh & cs & H1 & H2 & H3 & H4 & [H5|[_ [rb' H5]]] & H6); [|discriminate]. exists sh, cs. split; auto. split; auto. split; auto. split; auto. split; [left; exact H5|]. auto.
  - intros bu Hb. destruct (A6 bu Hb) as (H1 & H2 & H3). split; auto. rewrite upd_other; auto. congruence.
Qed.
Lemma BI_node x0 t x q rb u sh cs : BI x0 t x (DLoop (u :: q) rb) -> b_new x u = None -> chooses u (inr (sh, cs)) ->
  BI x0 t (fst (d_node x q rb u sh cs)) (snd (d_node x q rb u sh cs)).
Proof.
  intros [A1 A2 A3 A4 A5 A6 A7] N Ch. unfold d_node. cbv zeta. simpl fst. simpl snd. set (x' := mkB _ _ _ _).
  assert (Kn : forall c, known x (DLoop (u :: q) rb) c -> known x' (DLoop (push q cs) (mkBuilder u (b_nobjs x) cs :: rb)) c).
  { intros c [H|[->|H]]; [|left; simpl; rewrite upd_same; discriminate|right; simpl; unfold push; apply in_or_app; auto]. left. simpl. unfold upd. destruct (c =? u); [discriminate|auto]. }
  constructor; auto.
  - intros c v Hc. simpl. rewrite upd_other; auto. intros ->. apply A2 in Hc. congruence.
  - intros a Ha. simpl. rewrite upd_other by lia. auto.
  - simpl. lia.
  - intros c v. simpl b_new. unfold upd at 1. destruct (Nat.eqb_spec c u) as [->|Nc].
    + intros [= <-]. right. exists sh, cs. split; auto. split; [simpl; lia|]. unfold x' at 1 2. simpl b_objs. rewrite upd_same. split; auto. split; auto. split.
      * left. simpl b_objs. rewrite upd_same. split; auto. now left.
      * intros c Hc. right. simpl. unfold push. apply in_or_app. left. now rewrite <- in_rev.
    + intros Hc. destruct (A5 c v Hc) as [H|H]; [auto|right]. destruct v as [l'|a]; [exact H|].
      destruct H as (sh' & cs' & H1 & H2 & H3 & H4 & [H5|[_ [rb' H5]]] & H6); [|discriminate].
      assert (Ea : b_objs x' a = b_objs x a) by (simpl; apply upd_other; lia). exists sh', cs'. split; auto. split; [simpl; lia|]. rewrite !Ea. split; auto. split; auto. split; auto.
      left. rewrite Ea. destruct H5. split; auto. now right.
  - intros bu [<-|Hb]; simpl.
    + rewrite upd_same. split; auto. split; [|eauto]. destruct (b_new x0 u) as [w|] eqn:E; auto. apply A2 in E. congruence.
    + destruct (A6 bu Hb) as (H1 & H2 & H3). split; auto. rewrite upd_other; auto. congruence.
Qed.
Lemma entry_leaf x0 t x b u v l : BI x0 t x b -> b_new x u = Some v -> chooses u (inl l) -> v = DLeaf l.
Proof.
  intros A H Ch. destruct (bi_entry _ _ _ _ A u v H) as [H0|H0].
  - apply (proj1 (bi_ig _ _ _ _ A)) in H0. apply okv_choice in H0. destruct v as [l'|a]; [assert (E := chooses_fun _ _ _ H0 Ch); congruence|].
    destruct H0 as (_ & sh & cs & vs & Ch' & _). assert (E := chooses_fun _ _ _ Ch' Ch). congruence.
  - destruct v as [l'|a]; [assert (E := chooses_fun _ _ _ H0 Ch); congruence|]. destruct H0 as (sh & cs & Ch' & _). assert (E := chooses_fun _ _ _ Ch' Ch). congruence.
Qed.
Lemma BI_visit x0 t x q rb u : BI x0 t x (DLoop (u :: q) rb) ->
  BI x0 t (fst (d_visit T x q rb u)) (snd (d_visit T x q rb u)).
Proof.
  intros A. unfold d_visit. cbv zeta. destruct (b_new x u) as [v|] eqn:Eu.
  - simpl. destruct A as [A1 A2 A3 A4 A5 A6 A7].
    assert (Kn : forall c, known x (DLoop (u :: q) rb) c -> known x (DLoop q rb) c) by (intros c [H|[<-|H]]; [now left|left; congruence|now right]).
    constructor; auto. intros c w Hc. destruct (A5 c w Hc) as [H|H]; [auto|right]. destruct w as [l'|a]; [exact H|].
    destruct H as (sh & cs & H1 & H2 & H3 & H4 & [H5|[_ [rb' H5]]] & H6); [|discriminate]. exists sh, cs. split; auto. split; auto. split; auto. split; auto. split; [left; exact H5|]. auto.
  - assert (Cu : forall c n, b_new x c = None -> custom c = Some n -> False).
    { intros c n Ec Hc. apply (proj2 (bi_ig _ _ _ _ A)) in Hc. apply (bi_grow _ _ _ _ A) in Hc. congruence. }
    assert (Nu : custom u = None) by (destruct (custom u) as [n|] eqn:E; auto; now elim (Cu u n)).
    destruct (dt_global (T u)) as [n|] eqn:E2; [apply BI_leaf; auto; now apply ch_global|].
    destruct (dt_json (T u)) eqn:E3; [apply BI_leaf; auto; now apply ch_json|].
    destruct (dt_text (T u)) eqn:E4; [apply BI_leaf; auto; now apply ch_text|].
    assert (Ck : forall c, kind_chooses custom u (dt_kind (T u)) c -> chooses u c) by (intros c K; now apply ch_kind).
    destruct (dt_kind (T u)) as [na d|[]|[|f [|f2 fs]]|e|e|e|[e|]|] eqn:Ek;
      try (apply BI_leaf; auto; apply Ck; constructor; fail); try (apply BI_node; auto; apply Ck; constructor; fail).
    + assert (Tn := nat_ok _ _ _ Ek). assert (Cn : forall c, kind_chooses custom na (KBasic na d) c -> custom na = None -> chooses na c).
      { intros c K Nn. apply ch_kind; rewrite ?Tn; auto. }
      destruct (b_new x na) as [v|] eqn:En.
      * destruct (custom na) as [n|] eqn:Ec.
        -- rewrite (entry_leaf _ _ _ _ na v (LCustom n) A En (ch_custom _ _ na n Ec)). apply BI_leaf; auto. apply Ck. now apply kc_native.
        -- assert (Cb : chooses na (inl (LBasic d))) by (apply Cn; auto; now apply kc_basic).
           rewrite (entry_leaf _ _ _ _ na v (LBasic d) A En Cb). apply BI_leaf; auto. apply Ck. now apply kc_basic.
      * apply BI_leaf; auto. apply Ck. apply kc_basic. destruct (custom na) as [n|] eqn:Ec; auto. now elim (Cu na n).
    + apply BI_node; auto. apply Ck. now apply (kc_struct custom u [f]).
    + apply BI_node; auto. apply Ck. replace (if length (f :: f2 :: fs) <=? 10 then SSmall else SMany) with (struct_shape (f :: f2 :: fs)) by reflexivity.
      now apply kc_struct.
Qed.
Lemma BI_rebuild x0 t x l1 bu l2 : BI x0 t x (DBuild (l1 ++ bu :: l2)) -> BI x0 t (d_rebuild x bu) (DBuild (l1 ++ l2)).
Proof.
  intros A. destruct (bi_pend _ _ _ _ A bu) as (P1 & P2 & sh0 & P3); [apply in_or_app; right; now left|].
  assert (A' := A). destruct A' as [A1 A2 A3 A4 A5 A6 A7].
  assert (P4 : exists sh cs, chooses (bu_type bu) (inr (sh, cs)) /\ b_nobjs x0 <= bu_obj bu < b_nobjs x /\ do_shape (b_objs x (bu_obj bu)) = sh /\
    do_type (b_objs x (bu_obj bu)) = bu_type bu /\ forall c, In c cs -> known x (DBuild (l1 ++ bu :: l2)) c).
  { destruct (A5 _ _ P1) as [H|(sh & cs & H1 & H2 & H3 & H4 & _ & H6)]; [congruence|]. exists sh, cs. auto. }
  destruct P4 as (sh & cs & Q1 & Q2 & Q3 & Q4 & Q5). assert (E := chooses_fun _ _ _ P3 Q1). injection E as -> Er.
  constructor; auto.
  - intros a Ha. simpl. rewrite upd_other by lia. auto.
  - intros u v Hv. simpl in Hv. destruct (A5 u v Hv) as [H|H]; [auto|right]. destruct v as [l'|a]; [exact H|].
    destruct H as (sh' & cs' & H1 & H2 & H3 & H4 & H5 & H6). exists sh', cs'. split; auto. split; auto. simpl b_objs.
    destruct (Nat.eq_dec a (bu_obj bu)) as [->|Na].
    + rewrite upd_same. simpl. split; auto. split; auto. split; auto. right. simpl. rewrite upd_same. simpl. split; [|eauto].
      assert (u = bu_type bu) as -> by congruence. assert (E := chooses_fun _ _ _ P3 H1). congruence.
    + rewrite upd_other by auto. split; auto. split; auto. split; auto. unfold built. simpl b_objs. rewrite upd_other by auto. destruct H5 as [[H5 H7]|[H5 _]]; [left|right; eauto].
      split; auto. simpl in *. apply in_app_or in H7. destruct H7 as [H7|[H7|H7]]; apply in_or_app; auto. subst bu. simpl in Na. congruence.
  - intros b' Hb. apply A6. simpl in *. apply in_app_or in Hb. apply in_or_app. simpl. tauto.
Qed.
Lemma BI_step x0 t x b acc x' b' : BI x0 t x b -> dstep T x b acc x' b' ->
  BI x0 t x' b' /\ (forall a, a < b_nobjs x0 -> b_objs x' a = b_objs x a) /\ (forall a, In (BObj a, true) acc -> b_nobjs x0 <= a).
Proof.
  intros A St. assert (N := bi_n _ _ _ _ A). assert (G : BI x0 t x' b').
  { destruct St as [u q rb|rb|l1 bu l2]; [now apply BI_visit| |now apply BI_rebuild].
    destruct A as [A1 A2 A3 A4 A5 A6 A7]. constructor; auto. intros u v Hv. destruct (A5 u v Hv) as [H|H]; [auto|right]. destruct v as [l'|a]; [exact H|].
    destruct H as (sh' & cs' & H1 & H2 & H3 & H4 & [H5|[H5 [rb' E]]] & H6); [|discriminate]. exists sh', cs'. split; auto. split; auto. split; auto. split; auto. split; auto. left. exact H5. }
  split; auto. split.
  - intros a Ha. rewrite (bi_frame _ _ _ _ G) by auto. symmetry. now apply (bi_frame _ _ _ _ A).
  - intros a Ha. destruct St as [u q rb|rb|l1 bu l2]; simpl in Ha.
    + destruct Ha as [E|[E|[]]]; [discriminate|]. injection E as <-. auto.
    + contradiction.
    + destruct Ha as [E|[E|[]]]; [discriminate|]. injection E as <-. destruct (bi_pend _ _ _ _ A bu) as (P1 & P2 & _); [apply in_or_app; right; now left|].
      destruct (bi_entry _ _ _ _ A _ _ P1) as [H|(sh & cs & _ & H & _)]; [congruence|lia].
Qed.
Lemma BI_done x0 t x b : BI x0 t x b -> ddone b -> IG x /\ b_new x t <> None /\ (forall t v, b_new x0 t = Some v -> b_new x t = Some v).
Proof.
  intros A ->. assert (A' := A). destruct A' as [A1 A2 A3 A4 A5 A6 A7]. split; [|split; auto; destruct A7 as [H|[]]; auto].
  split.
  - intros u v Hv n. revert u v Hv. induction n as [|n IH]; intros u v Hv.
    + exists TCut. split; constructor.
    + destruct (A5 u v Hv) as [H|H].
      * apply (proj1 A1) in H. destruct (H (S n)) as (y & Y1 & Y2). exists y. split; auto. eapply sees_frame; eauto.
      * destruct v as [l|a]; [exists (TLeaf l); split; constructor; auto|].
        destruct H as (sh & cs & H1 & H2 & H3 & H4 & [[_ []]|[H5 _]] & H6).
        assert (C : exists xs, Forall2 (belongs n) cs xs /\ Forall2 (sees (b_objs x) (b_nobjs x) n) (map (b_new x) cs) xs).
        { clear H1 H5. induction cs as [|c cs IHc]; [exists []; split; constructor|]. destruct IHc as (xs & X1 & X2); [intros; apply H6; now right|].
          destruct (H6 c (or_introl eq_refl)) as [Hc|[]]. destruct (b_new x c) as [w|] eqn:Ec; [|congruence].
          destruct (IH c w Ec) as (y & Y1 & Y2). exists (y :: xs). split; constructor; auto. now rewrite Ec. }
        destruct C as (xs & X1 & X2). exists (TNode sh u xs). split; [econstructor; eauto|]. econstructor; [lia| |exact X2].
        destruct (b_objs x a); simpl in *; congruence.
  - intros u n Hn. apply A2. now apply A1.
Qed.
Theorem dec_build_ok : build_ok dstart (dstep T) ddone d_target d_refs okv okw IG BI.
Proof.
  constructor.
  - apply okv_frame.
  - apply okv_use.
  - intros objs k v objs' k' H F L n. destruct (H n) as (x & Se). exists x. eapply sees_frame; eauto.
  - apply okw_call.
  - intros x t v [H _]. apply H.
  - apply BI_start.
  - apply BI_step.
  - intros x0 t x b A. apply A.
  - apply BI_done.
Qed.
Lemma dec_progress x0 t x b : BI x0 t x b -> ddone b \/ exists acc x' b', dstep T x b acc x' b'.
Proof.
  intros _. destruct b as [[|u q] rb|[|bu rb]]; [right|right|left; reflexivity|right]; do 3 eexists.
  - apply ds_end.
  - apply ds_visit.
  - apply (ds_build T x [] bu rb).
Qed.
Lemma dec_init : Inv okv okw IG BI (dconfig custom) 0.
Proof.
  assert (H : forall t v, option_map (fun n => DLeaf (LCustom n)) (custom t) = Some v -> okv (fun _ => mkDO SPtr 0 None) 0 t v).
  { intros t v. destruct (custom t) as [n|] eqn:E; [|discriminate]. intros [= <-] [|k].
    - exists TCut. split; constructor.
    - exists (TLeaf (LCustom n)). split; constructor. now apply ch_custom. }
  constructor; simpl; auto; try discriminate.
  - intros i [].
  - split; [|exact H]. split; [discriminate|]. split; [simpl; lia|]. intros i [].
  - intros _. split; auto. split; [exact H|]. intros t n E. simpl. now rewrite E.
Qed.

(** ** The build ends *)
Section Ends.
Variable U : list nat.
Hypothesis U_closed : closed T U.
Definition after (y x : bmem dval dobj * dbuild) : Prop := exists acc, dstep T (fst x) (snd x) acc (fst y) (snd y).
Definition missing (x : bmem dval dobj) : nat := length (filter (fun u => match b_new x u with None => true | _ => false end) U).
Lemma acc_build n : forall x rb, length rb <= n -> Acc after (x, DBuild rb).
Proof.
  induction n as [|n IH]; intros x rb L; constructor; intros [y b] [acc St]; simpl in St.
  - destruct rb; [|simpl in L; lia]. inversion St. destruct l1; discriminate.
  - inversion St as [| |l1 bu l2]; subst. apply IH. rewrite app_length in L. rewrite app_length. simpl in L. lia.
Qed.
Lemma filter_less {A} (f g : A -> bool) l a : (forall x, g x = true -> f x = true) -> In a l -> f a = true -> g a = false ->
  length (filter g l) < length (filter f l).
Proof.
  intros H. assert (Le : forall l, length (filter g l) <= length (filter f l)).
  { induction l0 as [|x l0 IHl]; simpl; auto. specialize (H x). destruct (g x); [rewrite H by auto; simpl; lia|]. destruct (f x); simpl; lia. }
  induction l as [|x l IH]; intros []; intros Hf Hg; simpl.
  - subst. rewrite Hf, Hg. simpl. specialize (Le l). lia.
  - specialize (IH H0 Hf Hg). specialize (H x). destruct (g x); [rewrite H by auto; simpl; lia|]. destruct (f x); simpl; lia.
Qed.
Lemma missing_upd x u v i o n : In u U -> b_new x u = None -> missing (mkB (upd (b_new x) u (Some v)) i o n) < missing x.
Proof.
  intros Hu N. apply (filter_less _ _ U u); auto.
  - intros w. simpl. unfold upd. destruct (w =? u); [discriminate|auto].
  - now rewrite N.
  - simpl. now rewrite upd_same.
Qed.
(** a visit forgets the type or makes it known *)
Lemma visit_less x q rb u : incl (u :: q) U -> exists q' rb', snd (d_visit T x q rb u) = DLoop q' rb' /\ incl q' U /\
  (fst (d_visit T x q rb u) = x /\ q' = q \/ missing (fst (d_visit T x q rb u)) < missing x).
Proof.
  intros I. assert (Hu : In u U) by (apply I; now left). assert (Iq : incl q U) by (intros z Hz; apply I; now right).
  unfold d_visit. cbv zeta. destruct (b_new x u) as [v|] eqn:Eu; [exists q, rb; auto|].
  assert (Lf : forall v, exists q' rb', snd (d_leaf x q rb u v) = DLoop q' rb' /\ incl q' U /\ (fst (d_leaf x q rb u v) = x /\ q' = q \/ missing (fst (d_leaf x q rb u v)) < missing x)).
  { intros v. exists q, rb. split; [reflexivity|]. split; auto. right. now apply missing_upd. }
  assert (Nd : forall sh cs, incl cs (components (dt_kind (T u))) -> exists q' rb', snd (d_node x q rb u sh cs) = DLoop q' rb' /\ incl q' U /\ (fst (d_node x q rb u sh cs) = x /\ q' = q \/ missing (fst (d_node x q rb u sh cs)) < missing x)).
  { intros sh cs Hc. eexists _, _. split; [reflexivity|]. split; [|right; now apply missing_upd].
    unfold push. intros z Hz. apply in_app_or in Hz. destruct Hz as [Hz|Hz]; auto. rewrite <- in_rev in Hz. apply (U_closed u Hu). auto. }
  destruct (dt_global (T u)); auto. destruct (dt_json (T u)); auto. destruct (dt_text (T u)); auto.
  destruct (dt_kind (T u)) as [na d|[]|[|f [|f2 fs]]|e|e|e|[e|]|] eqn:Ek; auto; try (apply Nd; apply incl_refl).
  destruct (b_new x na); auto.
Qed.
Lemma acc_loop m : forall n x q rb, incl q U -> missing x <= m -> length q <= n -> Acc after (x, DLoop q rb).
Proof.
  induction m as [m IHm] using lt_wf_ind. induction n as [|n IHn]; intros x q rb I Lm Ln; constructor; intros [y b] [acc St]; simpl in St.
  - destruct q; [|simpl in Ln; lia]. inversion St; subst. now apply (acc_build (length rb)).
  - inversion St as [u q' rb'|rb'|]; subst; [|now apply (acc_build (length rb))].
    destruct (visit_less x q' rb u I) as (q2 & rb2 & E & I2 & Ls). rewrite E. destruct Ls as [[-> ->]|Ls].
    + apply IHn; auto. simpl in Ln. lia.
    + apply (IHm (missing (fst (d_visit T x q' rb u)))) with (n := length q2); auto. lia.
Qed.
Lemma dec_ends x t : In t U -> Acc after (x, dstart t).
Proof. intros Ht. apply (acc_loop (missing x) 1); auto. intros z [<-|[]]. exact Ht. Qed.
End Ends.
End Decoders.
