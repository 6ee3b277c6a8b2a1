(** The protocol of the caches: facts that hold for every build. *)
From Coq Require Import List Bool Arith Lia.
From Verif Require Import ModelCache SpecCache.
Import ListNotations.

Lemma upd_same {A} (f : nat -> A) k x : upd f k x k = x.
Proof. unfold upd. now rewrite Nat.eqb_refl. Qed.
Lemma upd_other {A} (f : nat -> A) k x j : j <> k -> upd f k x j = f j.
Proof. unfold upd. intros H. destruct (Nat.eqb_spec j k); [contradiction|reflexivity]. Qed.

Section Protocol.
Context {V O B : Type}.
Variable bstart : nat -> B.
Variable bstep : bmem V O -> B -> list baccess -> bmem V O -> B -> Prop.
Variable bdone : B -> Prop.
Variable target : V -> option nat.
Variable refs : O -> list (option V).
Notation state := (state V O B).
Notation pc := (pc V B).
Notation step := (step V O B bstart bstep bdone target refs).
Notation steps := (steps V O B bstart bstep bdone target refs).
Notation at_pc := (at_pc V O B).
Notation bview := (bview V O B).

(** what a build has to guarantee *)
Record build_ok (okv : (nat -> O) -> nat -> nat -> V -> Prop) (okw : (nat -> O) -> nat -> V -> Prop) (IG : bmem V O -> Prop) (BI : bmem V O -> nat -> bmem V O -> B -> Prop) : Prop := mkBO {
  ok_frame : forall objs k t v objs' k', okv objs k t v -> (forall a, a < k -> objs' a = objs a) -> k <= k' -> okv objs' k' t v;
  ok_use : forall objs k t v, okv objs k t v -> okw objs k v;
  okw_frame : forall objs k v objs' k', okw objs k v -> (forall a, a < k -> objs' a = objs a) -> k <= k' -> okw objs' k' v;
  ok_call : forall objs k v a, okw objs k v -> target v = Some a ->
    a < k /\ forall w, In w (refs (objs a)) -> exists u, w = Some u /\ okw objs k u;
  ig_ok : forall x t v, IG x -> b_new x t = Some v -> okv (b_objs x) (b_nobjs x) t v;
  bi_start : forall x t, IG x -> b_new x t = None -> BI x t x (bstart t);
  bi_step : forall x0 t x b acc x' b', BI x0 t x b -> bstep x b acc x' b' ->
    BI x0 t x' b' /\ (forall a, a < b_nobjs x0 -> b_objs x' a = b_objs x a) /\ (forall a, In (BObj a, true) acc -> b_nobjs x0 <= a);
  bi_nobjs : forall x0 t x b, BI x0 t x b -> b_nobjs x0 <= b_nobjs x;
  bi_done : forall x0 t x b, BI x0 t x b -> bdone b ->
    IG x /\ b_new x t <> None /\ (forall t v, b_new x0 t = Some v -> b_new x t = Some v)
}.
Variable okv : (nat -> O) -> nat -> nat -> V -> Prop.
Variable okw : (nat -> O) -> nat -> V -> Prop.
Variable IG : bmem V O -> Prop.
Variable BI : bmem V O -> nat -> bmem V O -> B -> Prop.
Hypothesis OK : build_ok okv okw IG BI.

Definition holds_lock (p : pc) : Prop :=
  match p with
  | Load2 _ | Look2 _ _ | Copy _ _ | Build _ _ _ | Store _ _ | Result _ _ | Unlock _ _ => True
  | _ => False
  end.
Definition constructs (p : pc) (m : nat) : Prop :=
  match p with Build _ m' _ | Store _ m' => m' = m | _ => False end.
(** a map that is not written any more *)
Definition final (s : state) (m : nat) : Prop := m <> 0 /\ m < s_nmaps s /\ forall i, ~ constructs (s_pc s i) m.
Definition fine (s : state) (K m : nat) : Prop :=
  final s m /\ forall t v, s_maps s m t = Some v -> okv (s_objs s) K t v.
Definition okr (s : state) (K t : nat) (v : option V) : Prop := exists u, v = Some u /\ okv (s_objs s) K t u.
Definition okwr (s : state) (K : nat) (v : option V) : Prop := exists u, v = Some u /\ okw (s_objs s) K u.
Definition TI (s : state) (K : nat) (p : pc) : Prop :=
  match p with
  | Idle | Load _ | Lock _ | Load2 _ => True
  | Look t m => fine s K m
  | Look2 t m => m = s_pub s
  | Copy t m => m = s_pub s /\ s_maps s m t = None
  | Build t m b => m <> 0 /\ m < s_nmaps s /\ m <> s_pub s /\
      exists x0, b_nobjs x0 = K /\ b_new x0 = s_maps s (s_pub s) /\ BI x0 t (bview s m) b
  | Store t m => m <> 0 /\ m < s_nmaps s /\ m <> s_pub s /\ IG (bview s m) /\ s_maps s m t <> None /\
      forall t v, s_maps s (s_pub s) t = Some v -> s_maps s m t = Some v
  | Result t m => m = s_pub s /\ s_maps s m t <> None
  | Unlock t v | Have t v => okr s K t v
  | Use t v w => okr s K t v /\ okwr s K w
  end.
Record Inv (s : state) (K : nat) : Prop := mkInv {
  in_lock : forall i, holds_lock (s_pc s i) -> s_lock s = Some i;
  in_held : forall i, s_lock s = Some i -> holds_lock (s_pc s i);
  in_pub : fine s K (s_pub s);
  in_rest : (forall i m, ~ constructs (s_pc s i) m) -> IG (bview s (s_pub s)) /\ K = s_nobjs s;
  in_k : K <= s_nobjs s;
  in_pc : forall i, TI s K (s_pc s i)
}.

Lemma okr_frame s s' K K' t v : okr s K t v -> (forall a, a < K -> s_objs s' a = s_objs s a) -> K <= K' -> okr s' K' t v.
Proof. intros (u & -> & H) F L. exists u. split; auto. eapply (ok_frame _ _ _ _ OK); eauto. Qed.
Lemma fine_frame s s' K K' m : fine s K m -> final s' m -> s_maps s' m = s_maps s m -> (forall a, a < K -> s_objs s' a = s_objs s a) -> K <= K' -> fine s' K' m.
Proof. intros [_ H] Fi E F L. split; auto. intros t v. rewrite E. intros Hv. eapply (ok_frame _ _ _ _ OK); eauto. Qed.

(** goroutines that do not hold the lock, while memory changes *)
Lemma TI_frame s s' K K' p : ~ holds_lock p -> TI s K p -> (forall m, final s m -> final s' m /\ s_maps s' m = s_maps s m) ->
  (forall a, a < K -> s_objs s' a = s_objs s a) -> K <= K' -> TI s' K' p.
Proof.
  intros N H Fm F L. destruct p as [|t|t m|t|t|t m|t m|t m b|t m|t m|t v|t v|t v w]; simpl in *; auto; try now elim N.
  - destruct (Fm m (proj1 H)) as [F1 F2]. eapply fine_frame; eauto.
  - eapply okr_frame; eauto.
  - destruct H as [H1 (u & -> & H2)]. split; [eapply okr_frame; eauto|]. exists u. split; auto. eapply (okw_frame _ _ _ _ OK); eauto.
Qed.
(** only the program counter of one goroutine changes *)
Lemma constructs_at s i p j m : constructs (s_pc (at_pc s i p) j) m -> j = i /\ constructs p m \/ j <> i /\ constructs (s_pc s j) m.
Proof.
  simpl. destruct (Nat.eq_dec j i) as [->|N]; [rewrite upd_same|rewrite upd_other by auto]; auto.
Qed.
Lemma pc_of s i p : s_pc (at_pc s i p) i = p.
Proof. apply upd_same. Qed.

(** the goroutine's new state is no construction, and it was none before or the build just ended *)
Lemma Inv_local s K i p : Inv s K -> (holds_lock p <-> holds_lock (s_pc s i)) ->
  (forall m, constructs p m -> constructs (s_pc s i) m) -> (forall m, constructs (s_pc s i) m -> constructs p m) ->
  TI s K p -> Inv (at_pc s i p) K.
Proof.
  intros [A1 A2 A3 A4 A5 A6] Hl Hc Hc' Hp.
  assert (Fin : forall m, final s m -> final (at_pc s i p) m).
  { intros m (M1 & M2 & M3). split; auto. split; auto. intros j C. apply constructs_at in C. destruct C as [[-> C]|[_ C]]; [apply (M3 i)|apply (M3 j)]; auto. }
  assert (Fin' : forall m, fine s K m -> fine (at_pc s i p) K m).
  { intros m H. eapply fine_frame; eauto. apply Fin, H. }
  assert (Tr : forall q, TI s K q -> TI (at_pc s i p) K q).
  { intros q. destruct q; simpl; auto. }
  constructor; auto.
  - intros j. simpl. destruct (Nat.eq_dec j i) as [->|N]; [rewrite upd_same|rewrite upd_other by auto]; auto. intros H. apply A1. now apply Hl.
  - intros j. simpl. intros E. destruct (Nat.eq_dec j i) as [->|N]; [rewrite upd_same|rewrite upd_other by auto]; auto. apply Hl. auto.
  - intros N. apply A4. intros j m C. destruct (Nat.eq_dec j i) as [->|Ni].
    + apply (N i m). rewrite pc_of. auto.
    + apply (N j m). simpl. rewrite upd_other by auto. exact C.
  - intros j. simpl s_pc. destruct (Nat.eq_dec j i) as [->|N]; [rewrite upd_same|rewrite upd_other by auto]; auto.
Qed.

Lemma okr_some s K t v : okv (s_objs s) K t v -> okr s K t (Some v).
Proof. intros H. exists v. auto. Qed.

Lemma step_inv s K i acc s' : Inv s K -> step s i acc s' -> exists K', K <= K' /\ Inv s' K'.
Proof.
  intros I St. assert (I' := I). destruct I' as [A1 A2 A3 A4 A5 A6]. assert (Ti := A6 i).
  destruct St as [t E|t E|t m E|t E El|t E|t m E|t m E|t m b acc x b' E Bs|t m b E D|t m E|t m E|t v E|t v E|t v w a w' E Et Hi|t v w E]; rewrite E in Ti; simpl in Ti.
  - exists K. split; auto. apply Inv_local; auto; rewrite ?E; simpl; tauto.
  - exists K. split; auto. apply Inv_local; auto; rewrite ?E; simpl; tauto.
  - exists K. split; auto. destruct (s_maps s m t) as [v|] eqn:Ev; apply Inv_local; auto; rewrite ?E; simpl; try tauto.
    apply okr_some. now apply Ti.
  - (* lock *)
    exists K. split; auto. set (s' := mkS _ _ _ _ _ _ _ _ _ _).
    assert (Nc : forall j m, constructs (s_pc s' j) m -> constructs (s_pc s j) m).
    { intros j m. simpl. destruct (Nat.eq_dec j i) as [->|N]; [rewrite upd_same|rewrite upd_other by auto]; auto. intros []. }
    assert (Fin : forall m, final s m -> final s' m).
    { intros m (M1 & M2 & M3). split; auto. split; auto. intros j C. apply (M3 j). now apply Nc. }
    constructor.
    + intros j. simpl. destruct (Nat.eq_dec j i) as [->|N]; [reflexivity|rewrite upd_other by auto]. intros H. apply A1 in H. congruence.
    + intros j. simpl. intros [= <-]. now rewrite upd_same.
    + eapply fine_frame; eauto. apply Fin, A3.
    + intros N. apply A4. intros j m C. apply (N j m). simpl. destruct (Nat.eq_dec j i) as [->|Ni]; [rewrite E in C; contradiction|now rewrite upd_other].
    + exact A5.
    + intros j. simpl s_pc. destruct (Nat.eq_dec j i) as [->|N]; [rewrite upd_same; exact Logic.I|rewrite upd_other by auto].
      apply (TI_frame s s' K K); auto. intros H. apply A1 in H. congruence.
  - exists K. split; auto. apply Inv_local; auto; rewrite ?E; simpl; tauto.
  - exists K. split; auto. subst m. destruct (s_maps s (s_pub s) t) as [v|] eqn:Ev; apply Inv_local; auto; rewrite ?E; simpl; try tauto.
    apply okr_some. now apply A3.
  - (* copy *)
    destruct Ti as [-> Ev]. set (s' := mkS _ _ _ _ _ _ _ _ _ _).
    assert (Own : s_lock s = Some i) by (apply A1; rewrite E; exact Logic.I).
    assert (Rest : forall j m, ~ constructs (s_pc s j) m).
    { intros j m C. assert (H : holds_lock (s_pc s j)) by (destruct (s_pc s j); simpl in *; auto; contradiction). apply A1 in H.
      assert (j = i) as -> by congruence. rewrite E in C. contradiction. }
    destruct (A4 Rest) as [Ig ->].
    assert (Fin : forall m, final s m -> final s' m /\ s_maps s' m = s_maps s m).
    { intros m (M1 & M2 & M3). split.
      - split; auto. split; [simpl; lia|]. intros j C. simpl in C. destruct (Nat.eq_dec j i) as [->|N].
        + rewrite upd_same in C. simpl in C. lia.
        + rewrite upd_other in C by auto. now apply (M3 j).
      - simpl. apply upd_other. lia. }
    assert (Pub : final s (s_pub s)) by apply A3.
    exists (s_nobjs s). split; auto. constructor.
    + intros j. simpl. destruct (Nat.eq_dec j i) as [->|N]; [auto|rewrite upd_other by auto]. apply A1.
    + intros j. simpl. intros Ej. assert (j = i) as -> by congruence. now rewrite upd_same.
    + destruct (Fin _ Pub). eapply fine_frame; eauto.
    + intros N. exfalso. apply (N i (s_nmaps s)). simpl. rewrite upd_same. reflexivity.
    + auto.
    + intros j. simpl s_pc. destruct (Nat.eq_dec j i) as [->|N]; [rewrite upd_same|rewrite upd_other by auto].
      * destruct Pub as (P1 & P2 & P3). simpl. split; [lia|]. split; [lia|]. split; [lia|].
        exists (bview s (s_pub s)). split; [reflexivity|]. split; [simpl; rewrite upd_other by lia; reflexivity|].
        unfold bview, ModelCache.bview, s'. simpl. rewrite upd_same, upd_other by lia.
        apply (bi_start _ _ _ _ OK (bview s (s_pub s)) t Ig Ev).
      * apply (TI_frame s s' (s_nobjs s) (s_nobjs s)); auto. intros H. apply A1 in H. congruence.
  - (* build *)
    destruct Ti as (M1 & M2 & M3 & x0 & X1 & X2 & X3).
    destruct (bi_step _ _ _ _ OK _ _ _ _ _ _ _ X3 Bs) as (Y1 & Y2 & Y3).
    set (s' := at_pc _ _ _). assert (Own : s_lock s = Some i) by (apply A1; rewrite E; exact Logic.I).
    assert (Pub : final s (s_pub s)) by apply A3.
    assert (Fin : forall m', final s m' -> final s' m' /\ s_maps s' m' = s_maps s m').
    { intros m' (N1 & N2 & N3). assert (m' <> m) by (intros ->; apply (N3 i); rewrite E; reflexivity). split.
      - split; auto. split; auto. intros j C. unfold s' in C. apply constructs_at in C. destruct C as [[-> C]|[_ C]]; [simpl in C; lia|]. now apply (N3 j).
      - unfold s', at_pc, ModelCache.at_pc, bput. simpl. now rewrite !upd_other. }
    assert (Ob : forall a, a < K -> s_objs s' a = s_objs s a) by (intros a Ha; apply Y2; lia).
    exists K. split; auto. constructor.
    + intros j. simpl. destruct (Nat.eq_dec j i) as [->|N]; [auto|rewrite upd_other by auto]. apply A1.
    + intros j. simpl. intros Ej. assert (j = i) as -> by congruence. now rewrite upd_same.
    + destruct (Fin _ Pub). eapply fine_frame; eauto.
    + intros N. exfalso. apply (N i m). simpl. rewrite upd_same. reflexivity.
    + simpl. rewrite <- X1. eapply (bi_nobjs _ _ _ _ OK); eauto.
    + intros j. simpl s_pc. destruct (Nat.eq_dec j i) as [->|N]; [rewrite upd_same|rewrite upd_other by auto].
      * destruct Pub as (P1 & P2 & P3). simpl. split; auto. split; auto. split; auto. exists x0. split; auto. split.
        -- rewrite !upd_other by auto. exact X2.
        -- unfold bview, ModelCache.bview, s', at_pc, ModelCache.at_pc, bput. simpl. rewrite upd_same, upd_other, upd_same by auto. destruct x; exact Y1.
      * apply (TI_frame s s' K K); auto. intros H. apply A1 in H. congruence.
  - (* built *)
    destruct Ti as (M1 & M2 & M3 & x0 & X1 & X2 & X3). destruct (bi_done _ _ _ _ OK _ _ _ _ X3 D) as (Y1 & Y2 & Y3).
    exists K. split; auto. apply Inv_local; auto; rewrite ?E; simpl; try tauto. split; auto. split; auto. split; auto. split; auto. split; auto.
    rewrite <- X2. exact Y3.
  - (* store *)
    destruct Ti as (M1 & M2 & M3 & Ig & Pr & Gr). set (s' := mkS _ _ _ _ _ _ _ _ _ _).
    assert (Own : s_lock s = Some i) by (apply A1; rewrite E; exact Logic.I).
    assert (Nc : forall j m', constructs (s_pc s' j) m' -> False).
    { intros j m'. simpl. destruct (Nat.eq_dec j i) as [->|N]; [rewrite upd_same|rewrite upd_other by auto]; [intros []|].
      intros C. assert (H : holds_lock (s_pc s j)) by (destruct (s_pc s j); simpl in *; auto; contradiction). apply A1 in H. congruence. }
    assert (Fin : forall m', final s m' -> final s' m' /\ s_maps s' m' = s_maps s m').
    { intros m' (N1 & N2 & N3). split; [|reflexivity]. split; auto. split; auto. intros j C. now apply Nc in C. }
    exists (s_nobjs s). split; auto. constructor.
    + intros j. simpl. destruct (Nat.eq_dec j i) as [->|N]; [auto|rewrite upd_other by auto]. apply A1.
    + intros j. simpl. intros Ej. assert (j = i) as -> by congruence. now rewrite upd_same.
    + split; [split; [auto|split; [auto|intros j C; now apply Nc in C]]|]. intros t' v Hv. apply (ig_ok _ _ _ _ OK _ t' v Ig Hv).
    + intros _. split; [exact Ig|reflexivity].
    + auto.
    + intros j. simpl s_pc. destruct (Nat.eq_dec j i) as [->|N]; [rewrite upd_same|rewrite upd_other by auto].
      * simpl. auto.
      * apply (TI_frame s s' K (s_nobjs s)); auto. intros H. apply A1 in H. congruence.
  - destruct Ti as [-> Pr]. exists K. split; auto. apply Inv_local; auto; rewrite ?E; simpl; try tauto.
    destruct (s_maps s (s_pub s) t) as [v|] eqn:Ev; [|congruence]. apply okr_some. now apply A3.
  - (* unlock *)
    set (s' := mkS _ _ _ _ _ _ _ _ _ _). assert (Own : s_lock s = Some i) by (apply A1; rewrite E; exact Logic.I).
    assert (Nc : forall j m, constructs (s_pc s' j) m -> False).
    { intros j m. simpl. destruct (Nat.eq_dec j i) as [->|N]; [rewrite upd_same|rewrite upd_other by auto]; [intros []|].
      intros C. assert (H : holds_lock (s_pc s j)) by (destruct (s_pc s j); simpl in *; auto; contradiction). apply A1 in H. congruence. }
    assert (Fin : forall m', final s m' -> final s' m' /\ s_maps s' m' = s_maps s m').
    { intros m' (N1 & N2 & N3). split; [|reflexivity]. split; auto. split; auto. intros j C. now apply Nc in C. }
    exists K. split; auto. constructor.
    + intros j. simpl. destruct (Nat.eq_dec j i) as [->|N]; [rewrite upd_same; intros []|rewrite upd_other by auto]. intros H. apply A1 in H. congruence.
    + intros j. simpl. discriminate.
    + eapply fine_frame; eauto. apply Fin, A3.
    + intros _. apply A4. intros j m C. assert (H : holds_lock (s_pc s j)) by (destruct (s_pc s j); simpl in *; auto; contradiction). apply A1 in H.
      assert (j = i) as -> by congruence. rewrite E in C. contradiction.
    + auto.
    + intros j. simpl s_pc. destruct (Nat.eq_dec j i) as [->|N]; [rewrite upd_same; exact Ti|rewrite upd_other by auto].
      apply (TI_frame s s' K K); auto. intros H. apply A1 in H. congruence.
  - exists K. split; auto. apply Inv_local; auto; rewrite ?E; simpl; try tauto. split; auto. destruct Ti as (u & -> & H). exists u. split; auto. eapply (ok_use _ _ _ _ OK); eauto.
  - exists K. split; auto. destruct Ti as [T1 (u & [= <-] & T2)]. destruct (ok_call _ _ _ _ OK _ _ _ _ T2 Et) as [_ C].
    destruct (C _ Hi) as (u' & -> & H2). apply Inv_local; auto; rewrite ?E; simpl; try tauto. split; auto. exists u'. auto.
  - exists K. split; auto. apply Inv_local; auto; rewrite ?E; simpl; tauto.
Qed.
Lemma steps_inv s s' K : Inv s K -> steps s s' -> exists K', K <= K' /\ Inv s' K'.
Proof.
  intros I St. induction St as [|i acc s1 s2 _ (K1 & L1 & I1) H]; [eauto|].
  destruct (step_inv _ _ _ _ _ I1 H) as (K2 & L2 & I2). exists K2. split; auto. lia.
Qed.

Lemma constructor_unique s K i j m : Inv s K -> constructs (s_pc s i) m -> holds_lock (s_pc s j) -> i = j.
Proof.
  intros I C H. apply (in_lock _ _ I) in H. assert (H' : holds_lock (s_pc s i)) by (destruct (s_pc s i); simpl in *; auto; contradiction).
  apply (in_lock _ _ I) in H'. congruence.
Qed.
(** what a step leaves alone *)
Lemma step_frame s K i acc s' : Inv s K -> step s i acc s' ->
  (forall m, final s m -> final s' m /\ s_maps s' m = s_maps s m) /\ (forall a, a < K -> s_objs s' a = s_objs s a) /\
  (forall t v, s_maps s (s_pub s) t = Some v -> s_maps s' (s_pub s') t = Some v).
Proof.
  intros I St. assert (I' := I). destruct I' as [A1 A2 A3 A4 A5 A6]. assert (Ti := A6 i).
  assert (Pc : forall p, (forall m, constructs p m -> constructs (s_pc s i) m) -> forall m, final s m -> final (at_pc s i p) m).
  { intros p Hp m (M1 & M2 & M3). split; auto. split; auto. intros j C. apply constructs_at in C. destruct C as [[-> C]|[_ C]]; [apply (M3 i)|apply (M3 j)]; auto. }
  destruct St as [t E|t E|t m E|t E El|t E|t m E|t m E|t m b acc x b' E Bs|t m b E D|t m E|t m E|t v E|t v E|t v w a w' E Et Hi|t v w E]; rewrite E in Ti; simpl in Ti.
  1,2,3,5,6,9,11,13,14,15: split; [|split; [reflexivity|auto]]; intros m' Fm; split; [|reflexivity]; apply Pc; auto; rewrite E; try (destruct (s_maps s m t)); simpl; auto.
  - split; [|split; [reflexivity|auto]]. intros m' (N1 & N2 & N3). split; [|reflexivity]. split; auto. split; auto. intros j C. simpl in C.
    destruct (Nat.eq_dec j i) as [->|N]; [rewrite upd_same in C; contradiction|rewrite upd_other in C by auto; now apply (N3 j)].
  - split; [|split; [reflexivity|]].
    + intros m' (N1 & N2 & N3). split; [|simpl; apply upd_other; lia]. split; auto. split; [simpl; lia|]. intros j C. simpl in C.
      destruct (Nat.eq_dec j i) as [->|N]; [rewrite upd_same in C; simpl in C; lia|rewrite upd_other in C by auto; now apply (N3 j)].
    + intros t' v. simpl. destruct A3 as [(_ & P2 & _) _]. rewrite upd_other by lia. auto.
  - destruct Ti as (M1 & M2 & M3 & x0 & X1 & X2 & X3). destruct (bi_step _ _ _ _ OK _ _ _ _ _ _ _ X3 Bs) as (Y1 & Y2 & Y3). split; [|split].
    + intros m' (N1 & N2 & N3). assert (m' <> m) by (intros ->; apply (N3 i); rewrite E; reflexivity). split.
      * split; auto. split; auto. intros j C. apply constructs_at in C. destruct C as [[-> C]|[_ C]]; [simpl in C; lia|]. now apply (N3 j).
      * simpl. now rewrite !upd_other.
    + intros a Ha. apply Y2. lia.
    + intros t' v. simpl. destruct A3 as [(P1 & _) _]. now rewrite !upd_other by auto.
  - destruct Ti as (M1 & M2 & M3 & Ig & Pr & Gr). split; [|split; [reflexivity|exact Gr]].
    intros m' (N1 & N2 & N3). split; [|reflexivity]. split; auto. split; auto. intros j C. simpl in C.
    destruct (Nat.eq_dec j i) as [->|N]; [rewrite upd_same in C; contradiction|rewrite upd_other in C by auto; now apply (N3 j)].
  - split; [|split; [reflexivity|auto]]. intros m' (N1 & N2 & N3). split; [|reflexivity]. split; auto. split; auto. intros j C. simpl in C.
    destruct (Nat.eq_dec j i) as [->|N]; [rewrite upd_same in C; contradiction|rewrite upd_other in C by auto; now apply (N3 j)].
Qed.
Lemma steps_frame s s' K : Inv s K -> steps s s' ->
  (forall m, final s m -> final s' m /\ s_maps s' m = s_maps s m) /\ (forall a, a < K -> s_objs s' a = s_objs s a) /\
  (forall t v, s_maps s (s_pub s) t = Some v -> s_maps s' (s_pub s') t = Some v).
Proof.
  intros I St. induction St as [|i acc s1 s2 St1 (F1 & F2 & F3) H]; [auto|].
  destruct (steps_inv _ _ _ I St1) as (K1 & L1 & I1). destruct (step_frame _ _ _ _ _ I1 H) as (G1 & G2 & G3). split; [|split].
  - intros m Fm. destruct (F1 m Fm) as [Fa Fb]. destruct (G1 m Fa) as [Ga Gb]. split; auto. congruence.
  - intros a Ha. rewrite G2 by lia. now apply F2.
  - intros t v Hv. apply G3, F3, Hv.
Qed.

Notation leads := (leads target refs).
Lemma leads_below objs K v a : okw objs K v -> leads objs v a -> a < K.
Proof.
  intros H L. induction L as [v a E|v a w b E Hi _ IH]; destruct (ok_call _ _ _ _ OK _ _ _ _ H E) as [H1 H2]; auto.
  destruct (H2 _ Hi) as (u & [= <-] & H3). auto.
Qed.

(** two steps that touch the same memory do not write it *)
Lemma step_reads s K i acc s' l w : Inv s K -> step s i acc s' -> In (l, w) acc ->
  match l with
  | LMap m => m < s_nmaps s /\ w = false /\ final s m \/ holds_lock (s_pc s i) /\ (m = 0 \/ m = s_nmaps s \/ constructs (s_pc s i) m \/ w = false /\ final s m)
  | LObj a => w = false /\ (a < K \/ holds_lock (s_pc s i)) \/ holds_lock (s_pc s i) /\ K <= a
  end.
Proof.
  intros I St Ha. assert (I' := I). destruct I' as [A1 A2 A3 A4 A5 A6]. assert (Ti := A6 i).
  destruct St as [t E|t E|t m E|t E El|t E|t m E|t m E|t m b acc x b' E Bs|t m b E D|t m E|t m E|t v E|t v E|t v w0 a w' E Et Hi|t v w0 E]; rewrite E in Ti; simpl in Ti; try (destruct Ha; fail).
  - destruct Ha as [[= <- <-]|[]]. left. split; [apply Ti|]. split; auto. apply Ti.
  - destruct Ha as [[= <- <-]|[]]. subst m. left. split; [apply A3|]. split; auto. apply A3.
  - destruct Ti as [-> Ev]. destruct Ha as [[= <- <-]|[[= <- <-]|[]]].
    + left. split; [apply A3|]. split; auto. apply A3.
    + right. split; [rewrite E; exact Logic.I|]. auto.
  - destruct Ti as (M1 & M2 & M3 & x0 & X1 & X2 & X3). destruct (bi_step _ _ _ _ OK _ _ _ _ _ _ _ X3 Bs) as (Y1 & Y2 & Y3).
    apply in_map_iff in Ha. destruct Ha as ([bl w'] & Eb & Hb). unfold bacc in Eb. simpl in Eb. injection Eb as <- <-. assert (Hh : holds_lock (s_pc s i)) by (rewrite E; exact Logic.I).
    destruct bl as [| |a].
    + right. split; auto. right. right. left. rewrite E. reflexivity.
    + right. split; auto.
    + destruct w'; [right|left; auto]. split; auto. rewrite <- X1. now apply Y3.
  - destruct Ti as [-> Pr]. destruct Ha as [[= <- <-]|[]]. left. split; [apply A3|]. split; auto. apply A3.
  - destruct Ha as [[= <- <-]|[]]. destruct Ti as [_ (u & [= <-] & H2)]. destruct (ok_call _ _ _ _ OK _ _ _ _ H2 Et) as [H _]. auto.
Qed.
Lemma no_race s K i j acc1 acc2 s1 s2 l w1 w2 : Inv s K -> i <> j -> step s i acc1 s1 -> step s j acc2 s2 ->
  In (l, w1) acc1 -> In (l, w2) acc2 -> w1 = false /\ w2 = false.
Proof.
  intros I N S1 S2 H1 H2. pose proof (step_reads _ _ _ _ _ _ _ I S1 H1) as R1. pose proof (step_reads _ _ _ _ _ _ _ I S2 H2) as R2.
  assert (Ex : holds_lock (s_pc s i) -> holds_lock (s_pc s j) -> False).
  { intros Hi Hj. apply (in_lock _ _ I) in Hi. apply (in_lock _ _ I) in Hj. congruence. }
  destruct l as [m|a].
  - assert (Sep : forall k w, (m = 0 \/ m = s_nmaps s \/ constructs (s_pc s k) m \/ w = false /\ final s m) -> m < s_nmaps s -> final s m -> w = false).
    { intros k w [->|[->|[C|[-> _]]]] Lt (F1 & F2 & F3); auto; try lia. now elim (F3 k). }
    destruct R1 as [(L1 & -> & F1)|(Hi & C1)]; destruct R2 as [(L2 & -> & F2)|(Hj & C2)]; auto.
    + split; auto. eapply Sep; eauto.
    + split; auto. eapply Sep; eauto.
    + exfalso. auto.
  - destruct R1 as [(-> & [L1|L1])|(L1 & G1)]; destruct R2 as [(-> & [L2|L2])|(L2 & G2)]; auto; try lia; exfalso; auto.
Qed.
(** what goroutines hold is published *)
Definition seen (s : state) (p : pc) : Prop :=
  match p with
  | Look _ m => forall t v, s_maps s m t = Some v -> s_maps s (s_pub s) t = Some v
  | Unlock t v | Have t v | Use t v _ => s_maps s (s_pub s) t = v
  | _ => True
  end.
Lemma step_other s i acc s' j : step s i acc s' -> j <> i -> s_pc s' j = s_pc s j.
Proof. intros St N. destruct St; simpl; now apply upd_other. Qed.
Lemma step_seen s K i acc s' : Inv s K -> (forall j, seen s (s_pc s j)) -> step s i acc s' -> forall j, seen s' (s_pc s' j).
Proof.
  intros I Se St j. destruct (step_frame _ _ _ _ _ I St) as (F1 & _ & F3). assert (Tj := in_pc _ _ I j). specialize (Se j).
  destruct (Nat.eq_dec j i) as [->|N].
  - clear F1 F3. assert (Ti := Tj). destruct St as [t E|t E|t m E|t E El|t E|t m E|t m E|t m b acc x b' E Bs|t m b E D|t m E|t m E|t v E|t v E|t v w a w' E Et Hi|t v w E]; rewrite E in Ti, Se; simpl in Ti, Se; simpl; rewrite upd_same; simpl; auto.
    + destruct (s_maps s m t) as [v|] eqn:Ev; simpl; auto.
    + subst m. destruct (s_maps s (s_pub s) t) as [v|] eqn:Ev; simpl; auto.
    + destruct Ti as [-> _]. reflexivity.
  - rewrite (step_other _ _ _ _ _ St N). destruct (s_pc s j) as [|t|t m|t|t|t m|t m|t m b|t m|t m|t v|t v|t v w]; simpl in *; auto.
    + intros t' v. destruct Tj as [Fm _]. destruct (F1 m Fm) as [_ ->]. auto.
    + destruct Tj as (u & -> & _). auto.
    + destruct Tj as (u & -> & _). auto.
    + destruct Tj as [(u & -> & _) _]. auto.
Qed.
Lemma steps_seen s s' K : Inv s K -> (forall j, seen s (s_pc s j)) -> steps s s' -> forall j, seen s' (s_pc s' j).
Proof.
  intros I Se St. induction St as [|i acc s1 s2 St1 IH H]; auto. destruct (steps_inv _ _ _ I St1) as (K1 & _ & I1). eapply step_seen; eauto.
Qed.
(** a goroutine that is not waiting for the lock can go on *)
Lemma progress s K i : Inv s K -> (forall t, s_pc s i <> Lock t) ->
  (forall x0 t x b, BI x0 t x b -> bdone b \/ exists acc x' b', bstep x b acc x' b') ->
  exists acc s', step s i acc s'.
Proof.
  intros I N Bp. assert (Ti := in_pc _ _ I i). destruct (s_pc s i) as [|t|t m|t|t|t m|t m|t m b|t m|t m|t v|t v|t v w] eqn:E.
  - do 2 eexists. eapply (st_begin _ _ _ _ _ _ _ _ _ _ 0); eauto.
  - do 2 eexists. eapply st_load; eauto.
  - do 2 eexists. eapply st_look; eauto.
  - now elim (N t).
  - do 2 eexists. eapply st_load2; eauto.
  - do 2 eexists. eapply st_look2; eauto.
  - do 2 eexists. eapply st_copy; eauto.
  - destruct Ti as (_ & _ & _ & x0 & _ & _ & X). destruct (Bp _ _ _ _ X) as [D|(acc & x' & b' & S')].
    + do 2 eexists. eapply st_built; eauto.
    + do 2 eexists. eapply st_build; eauto.
  - do 2 eexists. eapply st_store; eauto.
  - do 2 eexists. eapply st_result; eauto.
  - do 2 eexists. eapply st_unlock; eauto.
  - do 2 eexists. eapply st_use; eauto.
  - do 2 eexists. eapply st_end; eauto.
Qed.

(** ** Executions from the start *)
Variable s0 : state.
Hypothesis start : Inv s0 0.
Hypothesis idle : forall i, s_pc s0 i = Idle.
Lemma at_start : forall i, seen s0 (s_pc s0 i).
Proof. intros i. rewrite idle. exact I. Qed.
Lemma run_given s i t v : steps s0 s -> given s i t v -> exists u, v = Some u /\ okv (s_objs s) (s_nobjs s) t u /\ published s t = Some u.
Proof.
  intros R G. destruct (steps_inv _ _ _ start R) as (K & _ & I). assert (Ti := in_pc _ _ I i). assert (Si := steps_seen _ _ _ start at_start R i).
  destruct G as [G|[w G]]; rewrite G in Ti, Si; simpl in Ti, Si.
  - destruct Ti as (u & -> & Hu). exists u. split; auto. split; auto. eapply (ok_frame _ _ _ _ OK); eauto. apply I.
  - destruct Ti as [(u & -> & Hu) _]. exists u. split; auto. split; auto. eapply (ok_frame _ _ _ _ OK); eauto. apply I.
Qed.
Lemma run_published s t v : steps s0 s -> published s t = Some v -> okv (s_objs s) (s_nobjs s) t v.
Proof.
  intros R H. destruct (steps_inv _ _ _ start R) as (K & _ & I). eapply (ok_frame _ _ _ _ OK); [apply (in_pub _ _ I); exact H|reflexivity|apply I].
Qed.
Lemma run_stays s s' t v : steps s0 s -> steps s s' -> published s t = Some v ->
  published s' t = Some v /\ forall a, leads (s_objs s) v a -> s_objs s' a = s_objs s a.
Proof.
  intros R R' H. destruct (steps_inv _ _ _ start R) as (K & _ & I). destruct (steps_frame _ _ _ I R') as (_ & F2 & F3). split; [now apply F3|].
  intros a L. apply F2. apply (leads_below (s_objs s) K v a); auto. eapply (ok_use _ _ _ _ OK). apply (in_pub _ _ I). exact H.
Qed.
Lemma run_maps s s' m : steps s0 s -> steps s s' -> readable s m -> s_maps s' m = s_maps s m.
Proof.
  intros R R' H. destruct (steps_inv _ _ _ start R) as (K & _ & I). destruct (steps_frame _ _ _ I R') as (F1 & _ & _). apply F1. destruct H as [->|(i & t & E)].
  - apply (in_pub _ _ I).
  - assert (Ti := in_pc _ _ I i). rewrite E in Ti. apply Ti.
Qed.
Lemma run_used s i t v w : steps s0 s -> s_pc s i = Use t v w -> w <> None.
Proof.
  intros R E. destruct (steps_inv _ _ _ start R) as (K & _ & I). assert (Ti := in_pc _ _ I i). rewrite E in Ti. destruct Ti as [_ (u & -> & _)]. discriminate.
Qed.
Lemma run_no_race s i j acc1 acc2 s1 s2 l w1 w2 : steps s0 s -> i <> j -> step s i acc1 s1 -> step s j acc2 s2 ->
  In (l, w1) acc1 -> In (l, w2) acc2 -> w1 = false /\ w2 = false.
Proof. intros R. destruct (steps_inv _ _ _ start R) as (K & _ & I). eapply no_race; eauto. Qed.
Lemma run_progress s i : (forall x0 t x b, BI x0 t x b -> bdone b \/ exists acc x' b', bstep x b acc x' b') -> steps s0 s ->
  (exists acc s', step s i acc s') \/ exists t j, s_pc s i = Lock t /\ s_lock s = Some j /\ exists acc s', step s j acc s'.
Proof.
  intros Bp R. destruct (steps_inv _ _ _ start R) as (K & _ & I).
  assert (D : (exists t, s_pc s i = Lock t) \/ forall t, s_pc s i <> Lock t) by (destruct (s_pc s i); eauto; right; discriminate).
  destruct D as [[t E]|D]; [|left; eapply progress; eauto].
  destruct (s_lock s) as [j|] eqn:El; [right|left].
  - exists t, j. split; auto. split; auto. eapply progress; eauto. intros t' E'. assert (H := in_held _ _ I j El). rewrite E' in H. exact H.
  - do 2 eexists. eapply st_lock; eauto.
Qed.
End Protocol.
