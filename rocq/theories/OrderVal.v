(** Decoding of reordered members into typed variables. *)
From Coq Require Import String ZArith List Bool Lia Arith Permutation.
From Verif Require Import Base ModelIter ModelStack ModelSkip ModelStr ModelInt ModelFloat ModelRead ModelIterate ModelOps
  ModelFold ModelBase64 Sim SimLib StackFacts Machine SimSkip SimRaw SimStr SimInt SimFloat SimRead SimIterate SimOps SimVal
  NumFacts StrFacts MachineFacts FloatFacts GrammarFacts IntFacts IterateFacts IterFacts ModelVal SpecVal DecFacts DecSound DecComplete
  CutTyped Spec SpecStream TreeFacts EncRound SpecSpell SpellFacts SpellVal SpecOrder OrderFacts.
Import ListNotations.
Local Open Scope Z_scope.

Section Order.
Variables F32 F64 : floatOps.
Variable C : custom.
Notation gval := (gval F32 F64 C).
Variable E : env F32 F64 C.
Notation zero := (zero F32 F64 C E).
Notation under := (under F32 F64 C E).
Variables un dis : bool.
Variable sf : Z -> Z.
Variable cs : bool.
Hypothesis sane32 : float_sane F32.
Hypothesis sane64 : float_sane F64.
Notation lookup := (findField sf cs).
Notation decodes := (decodes F32 F64 C E lookup un dis).
Notation elems := (elems F32 F64 C E lookup un dis).
Notation overwrite := (overwrite F32 F64 C E lookup un dis).
Notation entries := (entries F32 F64 C E lookup un dis).
Notation members := (SpecVal.members F32 F64 C E lookup un dis).
Notation at_path := (at_path F32 F64 C E lookup un dis).
Variable P : bool -> ty -> Prop.
Hypothesis types : forall q t, P q t -> orderless E P q t.
Notation held := (held E P).
Hypothesis named : forall n, held (te_zero F32 F64 C E n).
Notation same := (same F32 F64 C).
Notation get := (get F32 F64 C).
Notation shuffled := (shuffled lookup).
Lemma blinds q t : P q t -> blind E true P q t.
Proof. intros H. apply types, H. Qed.

(** ** What interfaces hold *)
Lemma held_iface j v : iface_of F32 F64 C un j = Some v -> held v.
Proof.
  destruct j; cbn [iface_of]; try (intros [= <-]; exact I).
  - destruct un; [intros [= <-]; exact I|]. destruct (fl_parse F64 t); [intros [= <-]; exact I|discriminate].
  - destruct ((fix go l := match l with [] => _ | j :: r => _ end) l); [intros [= <-]; exact I|discriminate].
  - destruct ((fix go m l := match l with [] => _ | j :: r => _ end) [] l); [intros [= <-]; exact I|discriminate].
Qed.
Theorem held_decodes :
  (forall T o old t v, decodes T o old t v -> P (o_quoted o) T -> held old -> held v) /\
  (forall T ts vs, elems T ts vs -> P false T -> Forall held vs) /\
  (forall T a ts vs, overwrite T a ts vs -> P false T -> Forall held a -> Forall held vs) /\
  (forall k T m ps m', entries k T m ps m' -> True) /\
  (forall fs v ps v', members fs v ps v' -> Forall (fun fd => P (f_quoted fd) (f_type fd)) fs -> held v -> held v') /\
  (forall path T o v t v', at_path path T o v t v' -> P (o_quoted o) T -> held v -> held v').
Proof.
  apply (decodes_mutind F32 F64 C E lookup un dis); intros; try exact I; auto;
    try match goal with H : P _ _ |- _ => assert (B := blinds _ _ H); cbn [blind] in B end; try contradiction.
  - cbn [SpecSpell.held]. auto using held_zero.
  - cbn [SpecSpell.held] in *. auto.
  - apply held_arr. apply held_arr in H3. auto.
  - auto.
  - eapply held_iface; eauto.
  - cbn [SpecSpell.held] in *. match goal with H : _ /\ held _ |- _ => destruct H as [H K]; split; [exact H|] end. auto.
  - cbn [SpecSpell.held] in *. match goal with H : _ /\ held _ |- _ => destruct H as [H K] end. split; [|exact I]. intros t' [= <-]. auto.
  - cbn [SpecSpell.held] in *. match goal with H : _ /\ held _ |- _ => destruct H as [H K]; split; [exact H|] end. auto.
  - auto.
  - constructor; auto using held_zero.
  - match goal with H : Forall held (_ :: _) |- _ => inversion H; subst end. constructor; auto.
  - apply Forall_forall. intros x Hx. apply repeat_spec in Hx. subst. now apply held_zero.
  - match goal with H : Forall held _ -> _ |- _ => idtac | H : _ -> held _ -> held v1 |- _ => idtac end.
    match goal with H : Forall _ fs, K : nth_error fs i = Some fd |- _ => assert (Q := proj1 (Forall_forall _ _) H fd (nth_error_In _ _ K)) end. auto.
  - match goal with H : held (VStruct _) |- _ => apply held_struct in H; apply Forall_app in H; destruct H as [Ha Hb]; inversion Hb; subst end.
    apply held_struct, Forall_app. split; auto.
  - cbn [SpecSpell.held]. auto using held_zero.
Qed.

(** ** The texts that are decoded can only be read as a whole *)
Lemma decodes_whole T o old t v : decodes T o old t v -> P (o_quoted o) T -> o_mapKey o = false -> held old -> whole t.
Proof.
  intros H PT Hk Ho w w' s j r r2 Hw Hw' Hv Hr Hr2 E0.
  destruct (proj1 (decode_complete F32 F64 C E un dis sf cs sane32 sane64) _ _ _ _ _ H) as (n & Hn).
  assert (K := Hn n (le_n _) EEOF w' r2 Hw' (sep_ends t EEOF r2 Hr2)). rewrite <- E0 in K.
  assert (A : alike true s s) by (apply (proj1 (value_alike true eq_refl) s j Hv s Hv)).
  destruct (spell_decode F32 F64 C E un dis sf cs sane32 sane64 true P blinds named n (o_quoted o) T PT o old Hk eq_refl Ho w w s s Hw Hw A EEOF EEOF r r v r2
    (sep_ends s EEOF r Hr) (sep_ends s EEOF r Hr) K) as (_ & u & -> & Hu & _).
  assert (Z0 : u = []) by (eapply sep_numchar; eauto). subst u. cbn [app] in *. split; auto.
  rewrite !app_assoc in E0. apply app_inv_tail in E0.
  destruct (value_head _ _ Hv) as (c & s' & -> & Hc & _). destruct (ltac:(eapply decodes_starts; exact H) : DecComplete.starts t) as (c' & t' & -> & Hc' & _).
  apply CutTyped.ws_split in E0; auto. destruct E0 as (_ & -> & ->). reflexivity.
Qed.
Lemma elems_whole T ts vs : elems T ts vs -> P false T -> Forall whole ts /\ (forall t, In t ts -> DecComplete.starts t).
Proof.
  induction 1 as [T|T t ts v vs H _ IH]; intros PT; [split; [constructor|intros t []]|]. destruct (IH PT) as [A B]. split.
  - constructor; auto. apply (decodes_whole T noOpts (zero T) t v); auto using held_zero.
  - intros t0 [<-|K]; auto. eapply decodes_starts; eauto.
Qed.
Lemma overwrite_whole T a ts vs : overwrite T a ts vs -> P false T -> Forall held a -> Forall whole ts /\ (forall t, In t ts -> DecComplete.starts t).
Proof.
  induction 1 as [T ts H|T a l t ts v vs H _ IH|T l]; intros PT Ha.
  - split; [apply Forall_impl with (2 := H); intros t [j Hj]; eapply value_whole; eauto|].
    intros t K. apply (proj1 (Forall_forall _ _) H) in K. destruct K as [j Hj]. eapply starts_value; eauto.
  - inversion Ha; subst. destruct IH as [A B]; auto. split; [constructor; auto; apply (decodes_whole T noOpts a t v); auto|].
    intros t0 [<-|K]; auto. eapply decodes_starts; eauto.
  - split; [constructor|intros t []].
Qed.
Lemma at_path_decodes path T o v t v' : at_path path T o v t v' -> exists x y, decodes T o x t y /\ (held v -> held x).
Proof.
  induction 1 as [T o old t v H|path T o l1 x l2 t y H IH|path T o alloc x t y H IH|path T o T' t y H IH].
  - exists old, v. auto.
  - destruct IH as (x' & y' & K & L). exists x', y'. split; auto. intros Hs. apply held_struct in Hs. apply Forall_app in Hs. destruct Hs as [_ Hs]. inversion Hs; auto.
  - destruct IH as (x' & y' & K & L). exists x', y'. split; auto.
  - destruct IH as (x' & y' & K & L). exists x', y'. split; auto. intros _. apply L. now apply held_zero.
Qed.
Lemma members_whole fs v ps v' : members fs v ps v' -> Forall (fun fd => P (f_quoted fd) (f_type fd)) fs -> held v -> Forall kwhole ps.
Proof.
  induction 1 as [fs v|fs v b name i fd t v1 ps v2 Hb Hl Hn Hp H IH|fs v b name t j ps v2 Hb Hl Hd Hv H IH]; intros Hf Hh; constructor; auto.
  - assert (Q := proj1 (Forall_forall _ _) Hf fd (nth_error_In _ _ Hn)). cbn beta in Q. destruct (at_path_decodes _ _ _ _ _ _ Hp) as (x & y & K & L).
    split; [|left; cbn; eauto]. cbn [snd]. eapply decodes_whole; eauto.
  - apply IH; auto. eapply (proj2 (proj2 (proj2 (proj2 (proj2 held_decodes))))); eauto. exact (proj1 (Forall_forall _ _) Hf fd (nth_error_In _ _ Hn)).
  - split; [|left; cbn; eauto]. eapply value_whole; eauto.
Qed.
Definition stringKey (k : kty) : Prop := match k with KString | KUser KKString None _ => True | _ => False end.
Lemma stringKey_text k t key : stringKey k -> key_text C k t key -> (exists b s, t = quote b /\ string_body b s /\ key = KS s) \/ (t = bs "null").
Proof.
  intros Hk H. assert (G : forall t key, key_text C KString t key -> (exists b s, t = quote b /\ string_body b s /\ key = KS s) \/ (t = bs "null")).
  { intros t0 key0 K. inversion K; subst; eauto 7. }
  destruct k as [|s w|kd [id|] mar]; cbn in Hk; try contradiction; [auto|destruct kd; contradiction|]. destruct kd; try contradiction. inversion H; subst. auto.
Qed.
Lemma stringKey_body k b s : stringKey k -> string_body b s -> key_text C k (quote b) (KS s).
Proof. intros Hk Hb. destruct k as [|s0 w|kd [id|] mar]; cbn in Hk; try contradiction; [|destruct kd; contradiction|destruct kd; try contradiction]; repeat constructor; auto. Qed.
Lemma entries_whole k T m ps m' : entries k T m ps m' -> P false T -> stringKey k -> Forall kwhole ps.
Proof.
  induction 1 as [k T m|k T m kt key t v ps m' Hk Hd H IH]; intros PT Hs; constructor; auto. split.
  - cbn [snd]. apply (decodes_whole T noOpts (zero T) t v); auto using held_zero.
  - cbn [fst]. destruct (stringKey_text _ _ _ Hs Hk) as [(b & s & -> & Hb & _)|]; eauto.
Qed.

(** ** Values that are the same *)
Definition sameMap (m m' : list (key * gval)) : Prop :=
  (forall k v, get m k = Some v -> exists v', get m' k = Some v' /\ same v v') /\ (forall k, get m k = None -> get m' k = None).
Lemma same_refl v : same v v. Proof. constructor. Qed.
Lemma sames_refl l : Forall2 same l l. Proof. induction l; constructor; auto using same_refl. Qed.
Lemma sameMap_refl m : sameMap m m. Proof. split; eauto using same_refl. Qed.
Lemma inv_ptr x w : same (VPtr (Some x)) w -> exists y, w = VPtr (Some y) /\ same x y.
Proof. intros H; inversion H; subst; eauto using same_refl. Qed.
Lemma inv_nil w : same (VPtr None) w -> w = VPtr None.
Proof. intros H; inversion H; subst; auto. Qed.
Lemma inv_arr l w : same (VArr l) w -> exists l', w = VArr l' /\ Forall2 same l l'.
Proof. intros H; inversion H; subst; eauto using sames_refl. Qed.
Lemma inv_struct l w : same (VStruct l) w -> exists l', w = VStruct l' /\ Forall2 same l l'.
Proof. intros H; inversion H; subst; eauto using sames_refl. Qed.
Lemma inv_map p w : same (VMap p) w -> exists p', w = VMap p' /\ sameMap (match p with Some m => m | None => [] end) (match p' with Some m => m | None => [] end).
Proof.
  intros H; inversion H; subst; [exists p; split; [auto|apply sameMap_refl]|]. exists (Some m'). split; [reflexivity|split; assumption].
Qed.
Lemma inv_iface x w : same (VIface x) w -> w = VIface x \/ exists t y z, x = Some (t, y) /\ w = VIface (Some (t, z)) /\ same y z.
Proof. intros H; inversion H; subst; eauto 9. Qed.
Lemma inv_obj x w : same (VObj x) w -> w = VObj x.
Proof. intros H; inversion H; subst; auto. Qed.

(** ** Maps *)
Notation put := (SpecVal.put F32 F64 C).
Lemma get_put m k v k' : get (put m k v) k' = if key_eq_dec k k' then Some v else get m k'.
Proof.
  induction m as [|[k0 v0] m IH]; cbn [SpecVal.put SpecOrder.get]; [reflexivity|].
  destruct (key_eq_dec k0 k) as [->|N]; cbn [SpecOrder.get]; [destruct (key_eq_dec k k'); reflexivity|].
  destruct (key_eq_dec k0 k') as [->|N']; [destruct (key_eq_dec k k'); congruence|apply IH].
Qed.
Lemma sameMap_put m m' k v v' : sameMap m m' -> same v v' -> sameMap (put m k v) (put m' k v').
Proof.
  intros [A B] S. split.
  - intros k0 v0. rewrite !get_put. destruct (key_eq_dec k k0); [intros [= <-]; eauto|apply A].
  - intros k0. rewrite !get_put. destruct (key_eq_dec k k0); [discriminate|apply B].
Qed.
Definition equal (m m' : list (key * gval)) : Prop := forall k, get m k = get m' k.
Lemma equal_put m m' k v : equal m m' -> equal (put m k v) (put m' k v).
Proof. intros H k0. rewrite !get_put. destruct (key_eq_dec k k0); auto. Qed.
Lemma equal_swap m k v k' v' : k <> k' -> equal (put (put m k v) k' v') (put (put m k' v') k v).
Proof. intros N k0. rewrite !get_put. destruct (key_eq_dec k k0), (key_eq_dec k' k0); congruence. Qed.
Lemma sameMap_equal m m1 m2 : sameMap m m1 -> equal m1 m2 -> sameMap m m2.
Proof. intros [A B] H. split; intros k; [intros v K|intros K]; rewrite <- H; auto. Qed.
Lemma same_map m m' : sameMap m m' -> same (VMap (Some m)) (VMap (Some m')).
Proof. intros [A B]. now constructor. Qed.

(** ** What an interface gets *)
Notation iface_of := (iface_of F32 F64 C un).
Notation putAll := (EncRound.putAll F32 F64 C).
Definition holds (p : bytes * jval) (q : bytes * gval) : Prop := fst p = fst q /\ iface_of (snd p) = Some (snd q).
Lemma iface_obj_inv ms v : iface_of (JObj ms) = Some v -> exists kvs, Forall2 holds ms kvs /\ v = VIface (Some (TMap KString TEface, VMap (Some (putAll [] kvs)))).
Proof.
  simpl. match goal with |- option_map _ (?g [] ms) = _ -> _ => assert (X : forall m m', g m ms = Some m' -> exists kvs, Forall2 holds ms kvs /\ m' = putAll m kvs) end.
  { induction ms as [|[k j] ms IH]; intros m m'; [intros [= <-]; exists []; auto|]. simpl. destruct (iface_of j) as [x|] eqn:Ej; [|discriminate].
    intros H. apply IH in H. destruct H as (kvs & A & ->). exists ((k, x) :: kvs). split; [constructor; [split; auto|auto]|reflexivity]. }
  match goal with |- option_map _ ?g = _ -> _ => destruct g as [m'|] eqn:Em; [|discriminate] end.
  intros [= <-]. apply X in Em. destruct Em as (kvs & A & ->). eauto.
Qed.
Lemma iface_arr_inv l v : iface_of (JArr l) = Some v -> exists vs, Forall2 (fun j x => iface_of j = Some x) l vs /\ v = VIface (Some (TSlice TEface, VSlice (Some vs))).
Proof.
  simpl. match goal with |- option_map _ (?g l) = _ -> _ => assert (X : forall vs, g l = Some vs -> Forall2 (fun j x => iface_of j = Some x) l vs) end.
  { induction l as [|j l IH]; intros vs; [intros [= <-]; constructor|]. destruct (iface_of j) as [x|] eqn:Ej; [|discriminate].
    match goal with |- match ?g with Some _ => _ | None => _ end = _ -> _ => destruct g as [xs|] eqn:Eg; [|discriminate] end. intros [= <-]. constructor; auto. }
  match goal with |- option_map _ ?g = _ -> _ => destruct g as [m'|] eqn:Em; [|discriminate] end.
  intros [= <-]. eauto.
Qed.
Lemma iface_arr l vs : Forall2 (fun j x => iface_of j = Some x) l vs -> iface_of (JArr l) = Some (VIface (Some (TSlice TEface, VSlice (Some vs)))).
Proof.
  intros H. simpl. match goal with |- context[option_map _ (?g l)] => assert (X : g l = Some vs) end.
  { induction H as [|j x l vs Hj H IH]; [reflexivity|]. now rewrite Hj, IH. }
  now rewrite X.
Qed.
Lemma putAll_equal kvs : forall m m', equal m m' -> equal (putAll m kvs) (putAll m' kvs).
Proof. induction kvs as [|[k v] kvs IH]; intros m m' H; [exact H|]. cbn [EncRound.putAll]. apply IH. now apply equal_put. Qed.
Lemma putAll_app a c : forall m, putAll m (a ++ c) = putAll (putAll m a) c.
Proof. induction a as [|[k v] a IH]; intros m; [reflexivity|]. cbn [EncRound.putAll app]. apply IH. Qed.
Lemma equal_refl m : equal m m. Proof. intros k. reflexivity. Qed.
Lemma equal_trans m1 m2 m3 : equal m1 m2 -> equal m2 m3 -> equal m1 m3. Proof. intros A B k. now rewrite A. Qed.
Lemma holds_reordered ms ms' : reordered lookup ms ms' -> forall kvs, Forall2 holds ms kvs -> exists kvs', Forall2 holds ms' kvs' /\ equal (putAll [] kvs) (putAll [] kvs').
Proof.
  induction 1 as [l|l1 a c l2 l [N _] _ IH]; intros kvs H; [exists kvs; split; [auto|apply equal_refl]|].
  apply Forall2_app_inv_l in H. destruct H as (q1 & q2 & H1 & H2 & ->).
  inversion H2 as [|? [ka va] ? q3 Ha H3]; subst. inversion H3 as [|? [kc vc] ? q4 Hc H4]; subst.
  destruct (IH (q1 ++ (kc, vc) :: (ka, va) :: q4)) as (kvs' & A & B); [apply Forall2_app; auto|]. exists kvs'. split; auto.
  eapply equal_trans; [|exact B]. rewrite !putAll_app. cbn [EncRound.putAll]. apply putAll_equal, equal_swap.
  destruct Ha as [Ha _], Hc as [Hc _]. cbn [fst] in *. congruence.
Qed.
Lemma putAll_same kvs kvs' : Forall2 (fun p q => fst p = fst q /\ same (snd p) (snd q)) kvs kvs' -> forall m m', sameMap m m' -> sameMap (putAll m kvs) (putAll m' kvs').
Proof.
  induction 1 as [|[k v] [k' v'] l l' [Hk Hv] H IH]; intros m m' S; [exact S|]. cbn [EncRound.putAll fst snd] in *. subst k'. apply IH. now apply sameMap_put.
Qed.
Lemma iface_shuffled : forall j v, iface_of j = Some v -> forall j', shuffled j j' -> exists v', iface_of j' = Some v' /\ same v v'.
Proof.
  induction j as [| | | |l IH|ms IH] using jval_ind2; intros v Hv j' Hs; try (inversion Hs; subst; eexists; split; [exact Hv|constructor]).
  - inversion Hs as [?|l0 l' Hl|]; subst; [eexists; split; [exact Hv|constructor]|].
    apply iface_arr_inv in Hv. destruct Hv as (vs & Hvs & ->).
    assert (K : exists vs', Forall2 (fun j x => iface_of j = Some x) l' vs' /\ Forall2 same vs vs').
    { clear Hs. revert vs Hvs. induction Hl as [|j j' l l' Hj Hl IHl]; intros vs Hvs; inversion Hvs; subst; [exists []; auto|].
      inversion IH as [|? ? Ij Il]; subst. destruct (IHl Il _ ltac:(eassumption)) as (vs' & A & B). destruct (Ij _ ltac:(eassumption) _ Hj) as (x' & A' & B').
      exists (x' :: vs'). auto. }
    destruct K as (vs' & A & B). eexists. split; [apply iface_arr; eauto|]. constructor. now constructor.
  - inversion Hs as [?| |? ms1 ms' Hl Hr]; subst; [eexists; split; [exact Hv|constructor]|].
    apply iface_obj_inv in Hv. destruct Hv as (kvs & Hvs & ->).
    assert (K : exists kvs1, Forall2 holds ms1 kvs1 /\ Forall2 (fun p q => fst p = fst q /\ same (snd p) (snd q)) kvs kvs1).
    { clear Hs Hr. revert kvs Hvs. induction Hl as [|[k j] [k' j'] l l' [Hk Hj] Hl IHl]; intros kvs Hvs; inversion Hvs as [|? [k0 x] ? q [Hk0 Hx]]; subst; [exists []; auto|].
      cbn [fst snd] in *. subst. inversion IH as [|? ? Ij Il]; subst. destruct (IHl Il _ ltac:(eassumption)) as (vs' & A & B).
      destruct (Ij _ Hx _ Hj) as (x' & A' & B'). exists ((k0, x') :: vs'). split; constructor; auto; split; auto. }
    destruct K as (kvs1 & A & B). destruct (holds_reordered _ _ Hr _ A) as (kvs' & A' & B').
    eexists. split; [apply EncRound.iface_obj; exact A'|]. constructor. apply same_map. eapply sameMap_equal; [|exact B']. apply putAll_same; auto using sameMap_refl.
Qed.

(** ** Fields that are apart are decoded in any order *)
Lemma split_lt {A} (l1 : list A) y l2 : forall m1 x m2, l1 ++ y :: l2 = m1 ++ x :: m2 -> (length l1 < length m1)%nat -> exists k, m1 = l1 ++ y :: k /\ l2 = k ++ x :: m2.
Proof.
  induction l1 as [|a l1 IH]; intros [|b m1] x m2 H L; cbn [length app] in *; try lia; injection H as -> H; [eauto|].
  destruct (IH m1 x m2 H ltac:(lia)) as (k & -> & ->). eauto.
Qed.
Lemma split_eq {A} (l1 : list A) y l2 m1 x m2 : l1 ++ y :: l2 = m1 ++ x :: m2 -> length l1 = length m1 -> l1 = m1 /\ y = x /\ l2 = m2.
Proof. revert m1. induction l1 as [|a l1 IH]; intros [|b m1] H L; cbn [length app] in *; try lia; injection H as -> H; auto. destruct (IH m1 H ltac:(lia)) as (-> & -> & ->). auto. Qed.
Lemma at_swap p1 p2 : apart p1 p2 -> forall T1 o1 T2 o2 v t1 v1 t2 v2, at_path p1 T1 o1 v t1 v1 -> at_path p2 T2 o2 v1 t2 v2 ->
  exists u, at_path p2 T2 o2 v t2 u /\ at_path p1 T1 o1 u t1 v2.
Proof.
  induction 1 as [i j p q N|h p q H IH]; intros T1 o1 T2 o2 v t1 v1 t2 v2 H1 H2.
  - inversion H1 as [|? ? ? l1 x l2 ? y A| |]; subst. inversion H2 as [|? ? ? m1 x' m2 ? y' B| |]; subst. match goal with K : _ ++ _ :: _ = _ ++ _ :: _ |- _ => rename K into Eq end.
    destruct (Nat.lt_ge_cases (length l1) (length m1)) as [L|L].
    + symmetry in Eq. destruct (split_lt _ _ _ _ _ _ Eq L) as (k & -> & ->). exists (VStruct (l1 ++ x :: k ++ y' :: m2)). split.
      * replace (l1 ++ x :: k ++ x' :: m2) with ((l1 ++ x :: k) ++ x' :: m2) by now rewrite <- app_assoc.
        replace (l1 ++ x :: k ++ y' :: m2) with ((l1 ++ x :: k) ++ y' :: m2) by now rewrite <- app_assoc.
        replace (length (l1 ++ y :: k)) with (length (l1 ++ x :: k)) by now rewrite !app_length. now constructor.
      * rewrite <- app_assoc. cbn [app]. now constructor.
    + destruct (split_lt _ _ _ _ _ _ Eq) as (k & -> & ->); [lia|]. exists (VStruct (m1 ++ y' :: k ++ x :: l2)). split.
      * rewrite <- app_assoc. cbn [app]. now constructor.
      * replace (m1 ++ y' :: k ++ x :: l2) with ((m1 ++ y' :: k) ++ x :: l2) by now rewrite <- app_assoc.
        replace (m1 ++ y' :: k ++ y :: l2) with ((m1 ++ y' :: k) ++ y :: l2) by now rewrite <- app_assoc.
        replace (length (m1 ++ x' :: k)) with (length (m1 ++ y' :: k)) by now rewrite !app_length. now constructor.
  - inversion H1 as [|? ? ? l1 x l2 ? y A|? ? ? al x ? y A|? ? ? T' ? y A]; subst.
    + inversion H2 as [|? ? ? m1 x' m2 ? y' B| |]; subst. match goal with K : _ ++ _ :: _ = _ ++ _ :: _ |- _ => rename K into Eq end. match goal with K : length _ = length _ |- _ => rename K into Ei end. destruct (split_eq _ _ _ _ _ _ Eq Ei) as (-> & -> & ->).
      destruct (IH _ _ _ _ _ _ _ _ _ A B) as (u & K & L). exists (VStruct (l1 ++ u :: l2)). split; now constructor.
    + inversion H2 as [| |? ? ? ? ? ? y' B|]; subst. destruct (IH _ _ _ _ _ _ _ _ _ A B) as (u & K & L). exists (VPtr (Some u)). split; now constructor.
    + inversion H2 as [| |? ? ? ? ? ? y' B|]; subst. destruct (IH _ _ _ _ _ _ _ _ _ A B) as (u & K & L). exists (VPtr (Some u)). split; now constructor.
Qed.
Lemma string_det b s s' : string_body b s -> string_body b s' -> s = s'.
Proof.
  intros H H'. assert (K : p_readStringAsSlice EEOF (b ++ 34 :: []) = POk s []) by (apply readString_spec; eauto).
  assert (K' : p_readStringAsSlice EEOF (b ++ 34 :: []) = POk s' []) by (apply readString_spec; eauto). congruence.
Qed.
Lemma quote_inj b b' : quote b = quote b' -> b = b'.
Proof. unfold quote. intros [= H]. now apply app_inv_tail in H. Qed.
Definition disjoint (fs : list (field ty)) : Prop := NoDup (map f_name fs) /\ Forall is_bytes (map f_name fs) /\ forall i j fi fj, i <> j -> nth_error fs i = Some fi -> nth_error fs j = Some fj -> apart (f_path fi) (f_path fj).
Lemma members_inv fs v b t q v' name : string_body b name -> members fs v ((quote b, t) :: q) v' ->
  (exists i fd v1, lookup (map f_name fs) name = Some i /\ nth_error fs i = Some fd /\ at_path (f_path fd) (f_type fd) (mkOpts false (f_quoted fd)) v t v1 /\ members fs v1 q v') \/
  (lookup (map f_name fs) name = None /\ dis = false /\ (exists j, value t j) /\ members fs v q v').
Proof.
  intros Hb H. remember ((quote b, t) :: q) as ps eqn:Ep.
  destruct H as [|? ? b' name' i fd t' v1 ps v2 Hb' Hl Hn Hp H'|? ? b' name' t' j ps v2 Hb' Hl Hd Hv H']; [discriminate| |]; apply (f_equal (fun l => (hd ([], []) l, tl l))) in Ep; cbn [hd tl] in Ep;
    assert (E1 := f_equal snd Ep); assert (E2 := f_equal fst Ep); cbn [fst snd] in E1, E2; subst ps;
    assert (E3 := f_equal fst E2); assert (E4 := f_equal snd E2); cbn [fst snd] in E3, E4; subst t'; apply quote_inj in E3; subst b'; assert (name' = name) by (eapply string_det; eauto); subst; eauto 9.
Qed.
Lemma members_swap fs v pa pc q v' a c : disjoint fs -> differ lookup (fst a) (fst c) -> memberOf pa a -> memberOf pc c ->
  members fs v (pa :: pc :: q) v' -> members fs v (pc :: pa :: q) v'.
Proof.
  intros (Nd & Bn & D) [N Df] (ba & Ea & Ba & Va) (bc & Ec & Bc & Vc) H. destruct pa as [ka ta], pc as [kc tc]. cbn [fst snd] in *. subst.
  destruct (members_inv _ _ _ _ _ _ _ Ba H) as [(i & fd & v1 & Hl & Hn & Hp & H')|(Hl & Hd & Hv & H')];
    destruct (members_inv _ _ _ _ _ _ _ Bc H') as [(i' & fd' & v1' & Hl' & Hn' & Hp' & H'')|(Hl' & Hd' & Hv' & H'')].
  - assert (Ni : i <> i') by (intros ->; eapply Df; eauto). destruct (at_swap _ _ (D _ _ _ _ Ni Hn Hn') _ _ _ _ _ _ _ _ _ Hp Hp') as (u & K & L).
    eapply ms_field; eauto. eapply ms_field; eauto.
  - eapply ms_unknown; eauto. eapply ms_field; eauto.
  - eapply ms_field; eauto. eapply ms_unknown; eauto.
  - eapply ms_unknown; eauto. eapply ms_unknown; eauto.
Qed.
Lemma members_prefix fs q1 q q' : (forall v v', members fs v q v' -> members fs v q' v') -> forall v v', members fs v (q1 ++ q) v' -> members fs v (q1 ++ q') v'.
Proof.
  intros H. induction q1 as [|p q1 IH]; intros v v' K; cbn [app] in *; auto. inversion K; subst; [eapply ms_field; eauto|eapply ms_unknown; eauto].
Qed.
Lemma members_reordered fs ms ms' : disjoint fs -> reordered lookup ms ms' -> forall ps', Forall2 memberOf ps' ms' ->
  exists ps, Forall2 memberOf ps ms /\ forall v v', members fs v ps v' -> members fs v ps' v'.
Proof.
  intros D. induction 1 as [l|l1 a c l2 l Df _ IH]; intros ps' H; [exists ps'; auto|]. destruct (IH _ H) as (ps & A & B).
  apply Forall2_app_inv_r in A. destruct A as (q1 & q2 & A1 & A2 & ->).
  inversion A2 as [|pc ? q3 ? Hc H3]; subst. inversion H3 as [|pa ? q4 ? Ha H4]; subst.
  exists (q1 ++ pa :: pc :: q4). split; [apply Forall2_app; auto|]. intros v v' K. apply B. revert v v' K. apply members_prefix. intros v v'. eapply members_swap; eauto.
Qed.

(** ** Entries of maps *)
Lemma stringKey_det k b s key : stringKey k -> key_text C k (quote b) key -> string_body b s -> key = KS s.
Proof.
  intros Hk H Hb. destruct (stringKey_text _ _ _ Hk H) as [(b' & s' & E0 & Hb' & ->)|E0]; [|discriminate]. apply quote_inj in E0. subst. f_equal. eapply string_det; eauto.
Qed.
Lemma entries_equal k T m ps m' : entries k T m ps m' -> forall m1, equal m m1 -> exists m1', entries k T m1 ps m1' /\ equal m' m1'.
Proof.
  induction 1 as [k T m|k T m kt key t v ps m' Hk Hd H IH]; intros m1 Hm; [exists m1; split; [constructor|auto]|].
  destruct (IH (put m1 key v) (equal_put _ _ _ _ Hm)) as (m1' & A & B). exists m1'. split; auto. econstructor; eauto.
Qed.
Lemma entries_swap k T m pa pc q m' a c : stringKey k -> fst a <> fst c -> memberOf pa a -> memberOf pc c ->
  entries k T m (pa :: pc :: q) m' -> exists m1, entries k T m (pc :: pa :: q) m1 /\ equal m' m1.
Proof.
  intros Sk N (ba & Ea & Ba & Va) (bc & Ec & Bc & Vc) H. destruct pa as [ka ta], pc as [kc tc]. cbn [fst snd] in *. subst.
  inversion H as [|? ? ? ? key t v ps ? Hk Hd H']; subst. inversion H' as [|? ? ? ? key' t' v' ps' ? Hk' Hd' H'']; subst.
  assert (key = KS (fst a)) by (eapply stringKey_det; eauto). assert (key' = KS (fst c)) by (eapply stringKey_det; eauto). subst.
  assert (N' : KS (fst a) <> KS (fst c)) by congruence.
  destruct (entries_equal _ _ _ _ _ H'' _ (equal_swap m _ v _ v' N')) as (m1 & A & B). exists m1. split; auto. econstructor; eauto. econstructor; eauto.
Qed.
Lemma entries_prefix k T q1 q q' : (forall m m', entries k T m q m' -> exists m1, entries k T m q' m1 /\ equal m' m1) ->
  forall m m', entries k T m (q1 ++ q) m' -> exists m1, entries k T m (q1 ++ q') m1 /\ equal m' m1.
Proof.
  intros H. induction q1 as [|p q1 IH]; intros m m' K; cbn [app] in *; auto. inversion K as [|? ? ? ? key t v ps ? Hk Hd H']; subst.
  apply IH in H'. destruct H' as (m1 & A & B). exists m1. split; auto. econstructor; eauto.
Qed.
Lemma entries_reordered k T ms ms' : stringKey k -> reordered lookup ms ms' -> forall ps', Forall2 memberOf ps' ms' ->
  exists ps, Forall2 memberOf ps ms /\ forall m m', entries k T m ps m' -> exists m1, entries k T m ps' m1 /\ equal m' m1.
Proof.
  intros D. induction 1 as [l|l1 a c l2 l [Df _] _ IH]; intros ps' H; [exists ps'; split; eauto using equal_refl|]. destruct (IH _ H) as (ps & A & B).
  apply Forall2_app_inv_r in A. destruct A as (q1 & q2 & A1 & A2 & ->).
  inversion A2 as [|pc ? q3 ? Hc H3]; subst. inversion H3 as [|pa ? q4 ? Ha H4]; subst.
  exists (q1 ++ pa :: pc :: q4). split; [apply Forall2_app; auto|]. intros m m' K.
  destruct (entries_prefix k T q1 _ (pc :: pa :: q4) (fun m m' => entries_swap k T m pa pc q4 m' a c D Df Ha Hc) m m' K) as (m1 & A & E1).
  destruct (B _ _ A) as (m2 & A' & E2). exists m2. split; auto. eapply equal_trans; eauto.
Qed.

(** ** Leaves *)
Definition again (t t' : bytes) : Prop := exists j j', value t j /\ shuffled j j' /\ value t' j'.
Lemma again_null t' : again (bs "null") t' -> t' = bs "null".
Proof. intros (j & j' & Hv & Hs & Hv'). assert (j = JNull) by (eapply value_det; [exact Hv|constructor]). subst. inversion Hs; subst. inversion Hv'; auto. Qed.
Lemma again_not_null t t' : again t t' -> t <> bs "null" -> t' <> bs "null".
Proof. intros (j & j' & Hv & Hs & Hv') N ->. assert (j' = JNull) by (eapply value_det; [exact Hv'|constructor]). subst. inversion Hs; subst. inversion Hv; auto. Qed.
Lemma again_true t' : again (bs "true") t' -> t' = bs "true".
Proof. intros (j & j' & Hv & Hs & Hv'). assert (j = JBool true) by (eapply value_det; [exact Hv|constructor]). subst. inversion Hs; subst. inversion Hv'; auto. Qed.
Lemma again_false t' : again (bs "false") t' -> t' = bs "false".
Proof. intros (j & j' & Hv & Hs & Hv'). assert (j = JBool false) by (eapply value_det; [exact Hv|constructor]). subst. inversion Hs; subst. inversion Hv'; auto. Qed.
Lemma again_number t t' : again t t' -> number t -> t' = t.
Proof. intros (j & j' & Hv & Hs & Hv') N. assert (j = JNum t) by (eapply value_det; [exact Hv|now constructor]). subst. inversion Hs; subst. inversion Hv'; auto. Qed.
Lemma again_string b s t' : again (quote b) t' -> string_body b s -> exists b', t' = quote b' /\ string_body b' s.
Proof.
  intros (j & j' & Hv & Hs & Hv') N. assert (j = JStr s) by (eapply value_det; [exact Hv|now constructor]). subst. inversion Hs; subst. inversion Hv' as [| | | |b' s' Hb'| | | |]; subst; exists b'; split; [reflexivity|assumption].
Qed.

(** ** The members in another order *)
Definition memberAgain (p q : bytes * jval) : Prop := fst p = fst q /\ shuffled (snd p) (snd q).
Definition PD T o old t v : Prop := P (o_quoted o) T -> o_mapKey o = false -> held old -> forall t' old', again t t' -> same old old' ->
  exists v', decodes T o old' t' v' /\ same v v'.
Definition PE T ts vs : Prop := P false T -> forall ts', Forall2 again ts ts' -> exists vs', elems T ts' vs' /\ Forall2 same vs vs'.
Definition PO T a ts vs : Prop := P false T -> Forall held a -> forall ts' a', Forall2 again ts ts' -> Forall2 same a a' -> exists vs', overwrite T a' ts' vs' /\ Forall2 same vs vs'.
Definition PN k T m ps m' : Prop := P false T -> stringKey k -> forall ms ms1 ps1 m1, Forall2 memberOf ps ms -> Forall2 memberAgain ms ms1 -> Forall2 memberOf ps1 ms1 ->
  sameMap m m1 -> exists m1', entries k T m1 ps1 m1' /\ sameMap m' m1'.
Definition PM fs v ps v' : Prop := Forall (fun fd => P (f_quoted fd) (f_type fd)) fs -> held v -> forall ms ms1 ps1 v1,
  Forall2 memberOf ps ms -> Forall2 memberAgain ms ms1 -> Forall2 memberOf ps1 ms1 -> same v v1 -> exists v1', members fs v1 ps1 v1' /\ same v' v1'.
Definition PP (path : list (hop ty)) T o v t v' : Prop := P (o_quoted o) T -> o_mapKey o = false -> held v -> forall t' u, again t t' -> same v u ->
  exists u', at_path path T o u t' u' /\ same v' u'.
Lemma again_array t t' ts : again t t' -> array_text t ts -> Forall whole ts -> (forall t, In t ts -> DecComplete.starts t) -> exists ts', array_text t' ts' /\ Forall2 again ts ts'.
Proof.
  intros (j & j' & Hv & Hs & Hv') Ha Hw Hst. destruct (array_values _ _ _ Hv Ha Hw Hst) as (js & -> & Hjs).
  assert (K : exists js', j' = JArr js' /\ Forall2 shuffled js js').
  { inversion Hs; subst; eauto. exists js. split; auto. clear. induction js; constructor; auto. constructor. }
  destruct K as (js' & -> & Hss). destruct (value_array _ _ Hv') as (ts' & Ha' & Hts'). exists ts'. split; auto. clear - Hjs Hss Hts'.
  revert js' Hss ts' Hts'. induction Hjs; intros js' Hss ts' Hts'; inversion Hss; subst; inversion Hts'; subst; constructor; eauto. unfold again. eauto.
Qed.
Lemma again_object t t' ps : again t t' -> object_text t ps -> Forall kwhole ps ->
  exists ms ms1 ms' ps', Forall2 memberOf ps ms /\ Forall2 memberAgain ms ms1 /\ reordered lookup ms1 ms' /\ object_text t' ps' /\ Forall2 memberOf ps' ms'.
Proof.
  intros (j & j' & Hv & Hs & Hv') Ha Hw. destruct (object_values _ _ _ Hv Ha Hw) as (ms & -> & Hms).
  assert (K : exists ms1 ms', j' = JObj ms' /\ Forall2 memberAgain ms ms1 /\ reordered lookup ms1 ms').
  { inversion Hs; subst; eauto. exists ms, ms. split; auto. split; [|constructor]. clear. induction ms; constructor; auto. split; auto. constructor. }
  destruct K as (ms1 & ms' & -> & Hm & Hr). destruct (value_object _ _ Hv') as (ps' & Ho & Hp). exists ms, ms1, ms', ps'. auto.
Qed.
Lemma same_repeat v n n' : n = n' -> Forall2 same (repeat v n) (repeat v n').
Proof. intros <-. apply sames_refl. Qed.

Lemma same_length l l' : Forall2 same l l' -> length l = length l'.
Proof. induction 1; cbn [length]; auto. Qed.

Lemma order_decodes :
  (forall T o old t v, decodes T o old t v -> PD T o old t v) /\
  (forall T ts vs, elems T ts vs -> PE T ts vs) /\
  (forall T a ts vs, overwrite T a ts vs -> PO T a ts vs) /\
  (forall k T m ps m', entries k T m ps m' -> PN k T m ps m') /\
  (forall fs v ps v', members fs v ps v' -> PM fs v ps v') /\
  (forall path T o v t v', at_path path T o v t v' -> PP path T o v t v').
Proof.
  apply decodes_mutind.
  - intros T o old Hn PT Hk Ho t' old' A S. apply again_null in A. subst. eauto using d_null.
  - intros T o old PT Hk Ho t' old' A S. apply again_null in A. subst. eauto using d_null_ptr, same_refl.
  - intros T o old PT Hk Ho t' old' A S. apply again_null in A. subst. eauto using d_null_slice, same_refl.
  - intros k T o old Hd PT Hk Ho t' old' A S. apply again_null in A. subst. eauto using d_null_map, same_refl.
  - intros o old PT Hk Ho t' old' A S. apply again_null in A. subst. eauto using d_null_iface, same_refl.
  - intros o old PT Hk Ho t' old' A S. apply again_true in A. subst. eauto using d_true, same_refl.
  - intros o old PT Hk Ho t' old' A S. apply again_false in A. subst. eauto using d_false, same_refl.
  - intros o old w Hq Hw PT Hk Ho t' old' A S. apply blinds in PT. cbn in PT. rewrite PT in Hq; auto. discriminate.
  - intros o old w Hq Hw PT Hk Ho t' old' A S. apply blinds in PT. cbn in PT. rewrite PT in Hq; auto. discriminate.
  - intros o old w Hq Hw PT Hk Ho t' old' A S. apply blinds in PT. cbn in PT. rewrite PT in Hq; auto. discriminate.
  - intros sg w o old t z Hq Hm Ht Hr PT Hk Ho t' old' A S. apply again_number in A; [|eapply int_text_number; eauto]. subst. eauto using d_int, same_refl.
  - intros sg w o old t z Hq Ht Hr PT Hk Ho t' old' A S. apply blinds in PT. cbn in PT. rewrite PT in Hq; auto. rewrite Hk in Hq. destruct Hq; discriminate.
  - intros o old t x N Hx PT Hk Ho t' old' A S. apply again_number in A; auto. subst. eauto using d_float32, same_refl.
  - intros o old t x N Hx PT Hk Ho t' old' A S. apply again_number in A; auto. subst. eauto using d_float64, same_refl.
  - intros o old b s Hq Hb PT Hk Ho t' old' A S. destruct (again_string _ _ _ A Hb) as (b' & -> & Hb'). eauto using d_string, same_refl.
  - intros o old b b1 s Hq Hb Hb1 PT Hk Ho t' old' A S. destruct (again_string _ _ _ A Hb) as (b' & -> & Hb'). eauto using d_quoted_string, same_refl.
  - intros o old b Hq Hb PT Hk Ho t' old' A S. destruct (again_string _ _ _ A Hb) as (b' & -> & Hb'). eauto using d_quoted_string_null.
  - intros o old t N PT. apply blinds in PT. discriminate PT.
  - intros o old t N PT. apply blinds in PT. discriminate PT.
  - intros o old t j Hj PT. apply blinds in PT. contradiction.
  - intros id o x t j x' Hj Hc PT. apply blinds in PT. contradiction.
  - intros id o x b s x' Hb Hc PT Hk Ho t' old' A S. destruct (again_string _ _ _ A Hb) as (b' & -> & Hb'). apply inv_obj in S. subst. eauto using d_text, same_refl.
  - intros T o t v N _ IH PT Hk Ho t' old' A S. apply inv_nil in S. subst. apply blinds in PT. cbn in PT.
    destruct (IH PT Hk (held_zero _ _ _ _ _ named T) t' _ A (same_refl _)) as (v' & B & S'). exists (VPtr (Some v')). split; [|now constructor].
    constructor; auto. eapply again_not_null; eauto.
  - intros T o x t v N _ IH PT Hk Ho t' old' A S. apply inv_ptr in S. destruct S as (y & -> & S). apply blinds in PT. cbn in PT.
    destruct (IH PT Hk Ho t' _ A S) as (v' & B & S'). exists (VPtr (Some v')). split; [|now constructor].
    constructor; auto. eapply again_not_null; eauto.
  - intros T o old t ts vs Ha He IH PT Hk Ho t' old' A S. apply blinds in PT. destruct PT as [PT _]. destruct (elems_whole _ _ _ He PT) as [Hw Hs].
    destruct (again_array _ _ _ A Ha Hw Hs) as (ts' & Ha' & Hts). destruct (IH PT _ Hts) as (vs' & B & S'). exists (VSlice (Some vs')). split; [eapply d_slice; eauto|now constructor].
  - intros T o old b s data Hu Hb Hd PT. apply blinds in PT. destruct PT as [_ PT]. now destruct (PT eq_refl).
  - intros n T o a t ts vs Ha Hov IH PT Hk Ho t' old' A S. apply blinds in PT. cbn in PT. apply held_arr in Ho. destruct (overwrite_whole _ _ _ _ Hov PT Ho) as [Hw Hs].
    apply inv_arr in S. destruct S as (a' & -> & S). destruct (again_array _ _ _ A Ha Hw Hs) as (ts' & Ha' & Hts). destruct (IH PT Ho _ _ Hts S) as (vs' & B & S').
    exists (VArr vs'). split; [eapply d_array; eauto|now constructor].
  - intros k T o p t ps m Hd Hot He IH PT Hk Ho t' old' A S. assert (Sk : stringKey k) by (apply types in PT; exact (proj2 PT)).
    apply blinds in PT. destruct PT as [PT _]. apply inv_map in S. destruct S as (p' & -> & S).
    destruct (again_object _ _ _ A Hot (entries_whole _ _ _ _ _ He PT Sk)) as (ms & ms1 & ms' & ps' & A1 & A2 & A3 & A4 & A5).
    destruct (entries_reordered k T _ _ Sk A3 _ A5) as (ps1 & B1 & B2). destruct (IH PT Sk _ _ _ _ A1 A2 B1 S) as (m1 & C1 & C2). destruct (B2 _ _ C1) as (m2 & D1 & D2).
    exists (VMap (Some m2)). split; [eapply d_map; eauto|]. apply same_map. eapply sameMap_equal; eauto.
  - intros layout fields o old t ps new Hot Hm IH PT Hk Ho t' old' A S. assert (Dj : disjoint fields) by (apply types in PT; exact (proj2 PT)).
    apply blinds in PT. cbn in PT. destruct (again_object _ _ _ A Hot (members_whole _ _ _ _ Hm PT Ho)) as (ms & ms1 & ms' & ps' & A1 & A2 & A3 & A4 & A5).
    destruct (members_reordered fields _ _ Dj A3 _ A5) as (ps1 & B1 & B2). destruct (IH PT Ho _ _ _ _ A1 A2 B1 S) as (v1 & C1 & C2).
    exists v1. split; auto. eapply d_struct; eauto.
  - intros o x t j v Hx Hv Hj PT Hk Ho t' old' A S. destruct A as (j1 & j' & Hv1 & Hs & Hv'). assert (j1 = j) by (eapply value_det; eauto). subst.
    destruct (iface_shuffled _ _ Hj _ Hs) as (v' & B & S'). exists v'. split; auto.
    apply inv_iface in S. destruct S as [-> |(T0 & y & z & -> & -> & S)]; [eapply d_eface; eauto|]. eapply d_eface; [|exact Hv'|exact B].
    intros P0 T1 y0 [= <- ->]. inversion S; subst; eapply Hx; reflexivity.
  - intros o P0 T x t v Hu N _ IH PT Hk Ho t' old' A S. cbn [SpecSpell.held] in Ho. destruct Ho as [Hp Ho]. assert (N' := again_not_null _ _ A N).
    assert (S0 : exists y, old' = VIface (Some (P0, VPtr (Some y))) /\ same x y).
    { apply inv_iface in S. destruct S as [-> |(T0 & y & z & [= <- <-] & -> & S)]; [eauto using same_refl|]. apply inv_ptr in S. destruct S as (y' & -> & S). eauto. }
    destruct S0 as (y & -> & S0). destruct (IH (Hp _ Hu) eq_refl Ho _ _ A S0) as (v' & B & S'). eexists. split; [eapply d_eface_held; eauto|]. now repeat constructor.
  - intros o P0 T x Hu Hn PT Hk Ho t' old' A S. apply again_null in A. subst.
    assert (S0 : exists y, old' = VIface (Some (P0, VPtr (Some y))) /\ same x y).
    { apply inv_iface in S. destruct S as [-> |(T0 & y & z & [= <- <-] & -> & S)]; [eauto using same_refl|]. apply inv_ptr in S. destruct S as (y' & -> & S). eauto. }
    destruct S0 as (y & -> & _). eexists. split; [eapply d_eface_null; eauto|apply same_refl].
  - intros o P0 T T' x Hu Hn PT Hk Ho t' old' A S. apply again_null in A. subst.
    assert (S0 : exists y, old' = VIface (Some (P0, VPtr (Some y))) /\ same x y).
    { apply inv_iface in S. destruct S as [-> |(T0 & y & z & [= <- <-] & -> & S)]; [eauto using same_refl|]. apply inv_ptr in S. destruct S as (y' & -> & S). eauto. }
    destruct S0 as (y & -> & _). eexists. split; [eapply d_eface_null_ptr; eauto|apply same_refl].
  - intros o P0 T x t v Hu N _ IH PT Hk Ho t' old' A S. cbn [SpecSpell.held] in Ho. destruct Ho as [Hp Ho]. assert (N' := again_not_null _ _ A N).
    assert (S0 : exists y, old' = VIface (Some (P0, VPtr (Some y))) /\ same x y).
    { apply inv_iface in S. destruct S as [-> |(T0 & y & z & [= <- <-] & -> & S)]; [eauto using same_refl|]. apply inv_ptr in S. destruct S as (y' & -> & S). eauto. }
    destruct S0 as (y & -> & S0). destruct (IH (Hp _ Hu) eq_refl Ho _ _ A S0) as (v' & B & S'). eexists. split; [eapply d_iface_held; eauto|]. now repeat constructor.
  - intros n o old t v _ IH PT Hk Ho t' old' A S. apply blinds in PT. destruct (IH PT Hk Ho _ _ A S) as (v' & B & S'). exists v'. split; auto. now constructor.
  - intros T PT ts' H. inversion H; subst. exists []. split; constructor.
  - intros T t ts v vs _ IH _ IHs PT ts' H. inversion H; subst. destruct (IHs PT _ ltac:(eassumption)) as (vs' & A & B).
    destruct (IH PT eq_refl (held_zero _ _ _ _ _ named T) _ _ ltac:(eassumption) (same_refl _)) as (v' & A' & B'). exists (v' :: vs'). split; constructor; auto.
  - intros T ts Hv PT Ho ts' a' H S. inversion S; subst. exists []. split; [|constructor]. constructor. clear - H. induction H as [|t t' l l' (j & j' & _ & _ & K)]; constructor; eauto.
  - intros T a l t ts v vs _ IH _ IHs PT Ho ts' a' H S. inversion H; subst. inversion S; subst. inversion Ho; subst. destruct (IHs PT ltac:(assumption) _ _ ltac:(eassumption) ltac:(eassumption)) as (vs' & A & B).
    destruct (IH PT eq_refl ltac:(assumption) _ _ ltac:(eassumption) ltac:(eassumption)) as (v' & A' & B'). exists (v' :: vs'). split; constructor; auto.
  - intros T l PT Ho ts' a' H S. inversion H; subst. exists (repeat (zero T) (length a')). split; [apply ov_zero|]. apply same_repeat. clear - S. induction S; cbn [length]; auto.
  - intros k T m PT Sk ms ms1 ps1 m1 A1 A2 A3 S. inversion A1; subst. inversion A2; subst. inversion A3; subst. exists m1. split; [constructor|auto].
  - intros k T m kt key t v ps m' Hk _ IH _ IHs PT Sk ms ms1 ps1 m1 A1 A2 A3 S.
    inversion A1 as [|? [k0 j0] ? ms0 (b & Eb & Hb & Hv) A1']; subst. inversion A2 as [|? [k1 j1] ? ms2 [Ek Hs] A2']; subst. inversion A3 as [|[kt1 t1] ? ps2 ? (b1 & Eb1 & Hb1 & Hv1) A3']; subst.
    cbn [fst snd] in *. subst. assert (key = KS k1) by (eapply stringKey_det; eauto). subst.
    destruct (IH PT eq_refl (held_zero _ _ _ _ _ named T) t1 _ ltac:(unfold again; eauto) (same_refl _)) as (v' & A' & B').
    destruct (IHs PT Sk _ _ _ (put m1 (KS k1) v') A1' A2' A3') as (m1' & B1 & B2); [now apply sameMap_put|]. exists m1'. split; auto. econstructor; eauto. now apply stringKey_body.
  - intros fs v Hf Ho ms ms1 ps1 v1 A1 A2 A3 S. inversion A1; subst. inversion A2; subst. inversion A3; subst. exists v1. split; [constructor|auto].
  - intros fs v b name i fd t v1 ps v2 Hb Hl Hn Hp IH _ IHs Hf Ho ms ms1 ps1 u A1 A2 A3 S.
    inversion A1 as [|? [k0 j0] ? ms0 (b0 & Eb & Hb0 & Hv) A1']; subst. inversion A2 as [|? [k1 j1] ? ms2 [Ek Hs] A2']; subst. inversion A3 as [|[kt1 t1] ? ps2 ? (b1 & Eb1 & Hb1 & Hv1) A3']; subst.
    cbn [fst snd] in *. subst. apply quote_inj in Eb. subst. assert (name = k1) by (eapply string_det; eauto). subst.
    assert (Q := proj1 (Forall_forall _ _) Hf fd (nth_error_In _ _ Hn)). cbn beta in Q.
    assert (Ho1 : held v1) by (eapply (proj2 (proj2 (proj2 (proj2 (proj2 held_decodes))))); eauto).
    destruct (IH Q eq_refl Ho t1 _ ltac:(unfold again; eauto) S) as (u1 & B1 & B2). destruct (IHs Hf Ho1 _ _ _ u1 A1' A2' A3' B2) as (u2 & C1 & C2).
    exists u2. split; auto. eapply ms_field; eauto.
  - intros fs v b name t j ps v2 Hb Hl Hd Hv _ IHs Hf Ho ms ms1 ps1 u A1 A2 A3 S.
    inversion A1 as [|? [k0 j0] ? ms0 (b0 & Eb & Hb0 & Hv0) A1']; subst. inversion A2 as [|? [k1 j1] ? ms2 [Ek Hs] A2']; subst. inversion A3 as [|[kt1 t1] ? ps2 ? (b1 & Eb1 & Hb1 & Hv1) A3']; subst.
    cbn [fst snd] in *. subst. apply quote_inj in Eb. subst. assert (name = k1) by (eapply string_det; eauto). subst.
    destruct (IHs Hf Ho _ _ _ u A1' A2' A3' S) as (u2 & C1 & C2). exists u2. split; auto. eapply ms_unknown; eauto.
  - intros T o old t v _ IH PT Hk Ho t' u A S. destruct (IH PT Hk Ho _ _ A S) as (v' & B & S'). exists v'. split; auto. now constructor.
  - intros path T o l1 x l2 t y _ IH PT Hk Ho t' u A S. apply inv_struct in S. destruct S as (l' & -> & S). apply Forall2_app_inv_l in S. destruct S as (l1' & l2' & S1 & S2 & ->).
    inversion S2 as [|? x' ? l3 Sx S3]; subst. apply held_struct in Ho. apply Forall_app in Ho. destruct Ho as [_ Ho]. inversion Ho; subst.
    destruct (IH PT Hk ltac:(assumption) _ _ A Sx) as (y' & B & S'). exists (VStruct (l1' ++ y' :: l3)). rewrite (same_length _ _ S1). split; constructor; auto. apply Forall2_app; auto.
  - intros path T o alloc x t y _ IH PT Hk Ho t' u A S. apply inv_ptr in S. destruct S as (x' & -> & S). destruct (IH PT Hk Ho _ _ A S) as (y' & B & S').
    exists (VPtr (Some y')). split; now constructor.
  - intros path T o T' t y _ IH PT Hk Ho t' u A S. apply inv_nil in S. subst. destruct (IH PT Hk (held_zero _ _ _ _ _ named T') _ _ A (same_refl _)) as (y' & B & S').
    exists (VPtr (Some y')). split; now constructor.
Qed.
End Order.
