(** Decoding a text a second time into the variable that it was decoded into. *)
From Coq Require Import String ZArith List Bool Lia Arith Permutation.
From Verif Require Import Base ModelIter ModelStack ModelSkip ModelStr ModelInt ModelFloat ModelRead ModelIterate ModelOps
  ModelFold ModelBase64 Sim SimLib StackFacts Machine SimSkip SimRaw SimStr SimInt SimFloat SimRead SimIterate SimOps SimVal
  NumFacts StrFacts MachineFacts FloatFacts GrammarFacts IntFacts IterateFacts IterFacts ModelVal SpecVal DecFacts DecSound DecComplete
  CutTyped Spec SpecStream TreeFacts EncRound SpecSpell SpellFacts SpellVal SpecOrder OrderFacts OrderVal SpecAgain AgainWhole.
Import ListNotations.
Local Open Scope Z_scope.

Section Again.
Variables F32 F64 : floatOps.
Variable C : custom.
Notation gval := (gval F32 F64 C).
Variable E : env F32 F64 C.
Notation zero := (zero F32 F64 C E).
Notation under := (under F32 F64 C E).
Variables un dis : bool.
Variable sf : Z -> Z.
Variable cs : bool.
Notation lookup := (findField sf cs).
Notation decodes := (decodes F32 F64 C E lookup un dis).
Notation elems := (elems F32 F64 C E lookup un dis).
Notation overwrite := (overwrite F32 F64 C E lookup un dis).
Notation entries := (entries F32 F64 C E lookup un dis).
Notation members := (SpecVal.members F32 F64 C E lookup un dis).
Notation at_path := (at_path F32 F64 C E lookup un dis).
Notation iface_of := (iface_of F32 F64 C un).
Notation put := (put F32 F64 C).
Variable P : bool -> ty -> Prop.
Hypothesis types : forall q t, P q t -> steady E P q t.
Notation held := (held E P).
Hypothesis named : forall n, held (te_zero F32 F64 C E n).
Hypothesis texts : forall id x s x', cu_text C id x s = inl x' -> cu_text C id x' s = inl x'.
Hypothesis jsons : forall id x t x', cu_json C id x t = inl x' -> cu_json C id x' t = inl x'.
Notation single := (single lookup).

(** ** Entries of maps *)
Definition keyIn (k : key) (m : list (key * gval)) : Prop := In k (map fst m).
Lemma put_in m k v k' : keyIn k' (put m k v) <-> k' = k \/ keyIn k' m.
Proof.
  unfold keyIn. induction m as [|[k1 v1] m IH]; cbn [SpecVal.put map fst In]; [intuition|]. destruct (key_eq_dec _ _) as [Ek|Ek]; cbn [map fst In]; [subst; intuition|rewrite IH; intuition].
Qed.
Lemma put_put m k v w : put (put m k v) k w = put m k w.
Proof.
  induction m as [|[k1 v1] m IH]; cbn [SpecVal.put].
  - destruct (key_eq_dec k k); congruence.
  - destruct (key_eq_dec k1 k) as [Ek|Ek]; cbn [SpecVal.put]; destruct (key_eq_dec _ _); congruence.
Qed.
Lemma put_swap m k v k' v' : k <> k' -> keyIn k m -> put (put m k v) k' v' = put (put m k' v') k v.
Proof.
  unfold keyIn. intros N. induction m as [|[k1 v1] m IH]; cbn [SpecVal.put map fst In]; [intros []|]. intros H.
  destruct (key_eq_dec k1 k) as [->|E1]; cbn [SpecVal.put].
  - destruct (key_eq_dec k k') as [|_]; [contradiction|]. cbn [SpecVal.put]. destruct (key_eq_dec k k); congruence.
  - destruct (key_eq_dec k1 k') as [->|E2]; cbn [SpecVal.put].
    + destruct (key_eq_dec k' k); congruence.
    + destruct (key_eq_dec k1 k); [contradiction|]. f_equal. apply IH. destruct H; [contradiction|auto].
Qed.
Fixpoint puts (m : list (key * gval)) (l : list (key * gval)) : list (key * gval) := match l with [] => m | (k, v) :: r => puts (put m k v) r end.
Lemma puts_in l : forall m k, keyIn k m -> keyIn k (puts m l).
Proof. induction l as [|[k1 v1] l IH]; intros m k H; cbn [puts]; auto. apply IH, put_in. auto. Qed.
(** an entry that is put again later *)
Lemma puts_absorb l : forall m k v, keyIn k m -> keyIn k l -> puts (put m k v) l = puts m l.
Proof.
  induction l as [|[k1 v1] l IH]; intros m k v Hm Hl; [destruct Hl|]. cbn [puts]. destruct (key_eq_dec k1 k) as [->|N].
  - now rewrite put_put.
  - rewrite put_swap; auto. apply IH; [apply put_in; auto|]. destruct Hl; [contradiction|auto].
Qed.
(** an entry that is not put again later *)
Lemma put_found m k v : put (put m k v) k v = put m k v. Proof. apply put_put. Qed.
Lemma puts_keep l : forall m k v, ~ keyIn k l -> keyIn k m -> put m k v = m -> put (puts m l) k v = puts m l.
Proof.
  induction l as [|[k1 v1] l IH]; intros m k v N Hm H; cbn [puts]; auto.
  assert (N1 : k <> k1) by (intros ->; apply N; now left). apply IH; [intros K; apply N; now right|apply put_in; auto|].
  rewrite <- put_swap; auto. now rewrite H.
Qed.
Lemma keyIn_dec k l : keyIn k l \/ ~ keyIn k l.
Proof. unfold keyIn. destruct (in_dec key_eq_dec k (map fst l)); auto. Qed.
Lemma puts_again l : forall m, puts (puts m l) l = puts m l.
Proof.
  induction l as [|[k v] l IH]; intros m; cbn [puts]; auto.
  assert (Hk : keyIn k (put m k v)) by (apply put_in; auto). destruct (keyIn_dec k l) as [H|H].
  - rewrite puts_absorb; auto using puts_in.
  - rewrite puts_keep; auto using put_found.
Qed.
Lemma entries_puts k T m ps m' : entries k T m ps m' -> exists l, m' = puts m l /\ forall m0, entries k T m0 ps (puts m0 l).
Proof.
  induction 1 as [k T m|k T m kt key t v ps m' Hk Hd H IH]; [exists []; split; [reflexivity|intros; constructor]|].
  destruct IH as (l & -> & IH). exists ((key, v) :: l). split; [reflexivity|]. intros m0. cbn [puts]. econstructor; eauto.
Qed.
Lemma entries_again k T m ps m' : entries k T m ps m' -> entries k T m' ps m'.
Proof. intros H. destruct (entries_puts _ _ _ _ _ H) as (l & -> & K). rewrite <- (puts_again l m) at 2. apply K. Qed.

(** ** Fields of structs *)
(** a field that is left as it is stays so when another field is decoded *)
Lemma at_fixed p1 p2 : apart p1 p2 -> forall T1 o1 T2 o2 v u t1 t2 v2, at_path p1 T1 o1 v t1 u -> v = u -> at_path p2 T2 o2 v t2 v2 -> at_path p1 T1 o1 v2 t1 v2.
Proof.
  induction 1 as [i j p q N|h p q H IH]; intros T1 o1 T2 o2 v u t1 t2 v2 H1 Eu H2.
  - inversion H1 as [|? ? ? l1 x l2 ? y A| |]; subst. match goal with K : VStruct _ = VStruct _ |- _ => injection K as K; apply app_inv_head in K; injection K as <- end.
    inversion H2 as [|? ? ? m1 x' m2 ? y' B| |]; subst. match goal with K : _ ++ _ :: _ = _ ++ _ :: _ |- _ => rename K into Eq end.
    destruct (Nat.lt_ge_cases (length l1) (length m1)) as [L|L].
    + symmetry in Eq. destruct (split_lt _ _ _ _ _ _ Eq L) as (k & -> & ->). rewrite <- app_assoc. cbn [app]. now constructor.
    + destruct (split_lt _ _ _ _ _ _ Eq) as (k & -> & ->); [lia|].
      replace (m1 ++ y' :: k ++ y :: l2) with ((m1 ++ y' :: k) ++ y :: l2) by now rewrite <- app_assoc.
      replace (length (m1 ++ x' :: k)) with (length (m1 ++ y' :: k)) by now rewrite !app_length. now constructor.
  - inversion H1 as [|? ? ? l1 x l2 ? y A|? ? ? al x ? y A|? ? ? T' ? y A]; subst; try discriminate.
    + match goal with K : VStruct _ = VStruct _ |- _ => injection K as K; apply app_inv_head in K; injection K as <- end.
      inversion H2 as [|? ? ? m1 x' m2 ? y' B| |]; subst. match goal with K : _ ++ _ :: _ = _ ++ _ :: _ |- _ => rename K into Eq end. match goal with K : length _ = length _ |- _ => rename K into Ei end. destruct (split_eq _ _ _ _ _ _ Eq Ei) as (-> & -> & ->).
      constructor. eapply IH; eauto.
    + match goal with K : VPtr _ = VPtr _ |- _ => injection K as <- end. inversion H2 as [| |? ? ? ? ? ? y' B|]; subst. constructor. eapply IH; eauto.
Qed.
Lemma members_fixed fs i fd t a : disjoint fs -> lookup (map f_name fs) a = Some i -> nth_error fs i = Some fd ->
  forall v ps v', members fs v ps v' -> forall ms, Forall2 memberOf ps ms -> Forall (fun c => differ lookup a (fst c)) ms ->
  at_path (f_path fd) (f_type fd) (mkOpts false (f_quoted fd)) v t v -> at_path (f_path fd) (f_type fd) (mkOpts false (f_quoted fd)) v' t v'.
Proof.
  intros D Hl Hn v ps. revert v. induction ps as [|[kt t1] ps IH]; intros v v' H ms Hm Hd Hp; [inversion H; now subst|].
  inversion Hm as [|? [k j] ? ms0 (b & Eb & Hb & Hv) Hm']; subst. inversion Hd as [|? ? Hd1 Hd']; subst. cbn [fst snd] in *. subst kt.
  destruct (members_inv _ _ _ _ _ _ _ _ _ _ _ _ _ _ _ Hb H) as [(i' & fd' & v1 & Hl' & Hn' & Hp' & H')|(Hl' & _ & _ & H')].
  - apply (IH v1 v' H' ms0 Hm' Hd'). destruct D as (Nd & Bn & D). destruct Hd1 as [_ Df].
    assert (Ni : i <> i') by (intros ->; eapply Df; eauto). refine (at_fixed _ _ (D _ _ _ _ Ni Hn Hn') _ _ _ _ _ _ _ _ _ Hp eq_refl Hp').
  - eapply IH; eauto.
Qed.

(** values stay such that the pointers in interfaces point to the types of the program *)
Theorem held_steady :
  (forall T o old t v, decodes T o old t v -> P (o_quoted o) T -> held old -> held v) /\
  (forall T ts vs, elems T ts vs -> P false T -> Forall held vs) /\
  (forall T a ts vs, overwrite T a ts vs -> P false T -> Forall held a -> Forall held vs) /\
  (forall k T m ps m', entries k T m ps m' -> True) /\
  (forall fs v ps v', members fs v ps v' -> Forall (fun fd => P (f_quoted fd) (f_type fd)) fs -> held v -> held v') /\
  (forall path T o v t v', at_path path T o v t v' -> P (o_quoted o) T -> held v -> held v').
Proof.
  apply (decodes_mutind F32 F64 C E lookup un dis); intros; try exact I; auto;
    try match goal with H : P _ _ |- _ => assert (B := types _ _ H); cbn [steady] in B end.
  all: try (cbn [SpecSpell.held] in *; auto using held_zero; fail).
  - apply held_arr. match goal with H : held (VArr _) |- _ => apply held_arr in H end. auto.
  - destruct B as (B & _). auto.
  - eapply held_iface; eauto.
  - cbn [SpecSpell.held] in *. match goal with H : _ /\ held _ |- _ => destruct H as [H K]; split; [exact H|] end. auto.
  - cbn [SpecSpell.held] in *. match goal with H : _ /\ held _ |- _ => destruct H as [H K] end. split; [|exact I]. intros t' [= <-]. auto.
  - cbn [SpecSpell.held] in *. match goal with H : _ /\ held _ |- _ => destruct H as [H K]; split; [exact H|] end. auto.
  - match goal with H : Forall held (_ :: _) |- _ => inversion H; subst end. constructor; auto.
  - apply Forall_forall. intros x Hx. apply repeat_spec in Hx. subst. now apply held_zero.
  - match goal with H : Forall _ fs, K : nth_error fs i = Some fd |- _ => assert (Q := proj1 (Forall_forall _ _) H fd (nth_error_In _ _ K)) end. auto.
  - match goal with H : held (VStruct _) |- _ => apply held_struct in H; apply Forall_app in H; destruct H as [Ha Hb]; inversion Hb; subst end.
    apply held_struct, Forall_app. split; auto.
Qed.

Definition PD (T : ty) (o : decOpts) (old : gval) (t : bytes) (v : gval) : Prop :=
  P (o_quoted o) T -> o_mapKey o = false -> held old -> forall j, value t j -> single j -> decodes T o v t v.
Definition PO (T : ty) (a : list gval) (ts : list bytes) (vs : list gval) : Prop :=
  P false T -> Forall held a -> forall js, Forall2 value ts js -> Forall single js -> overwrite T vs ts vs.
Definition PM (fs : list (field ty)) (v : gval) (ps : list (bytes * bytes)) (v' : gval) : Prop :=
  Forall (fun fd => P (f_quoted fd) (f_type fd)) fs -> held v -> disjoint fs -> forall ms, Forall2 memberOf ps ms ->
  ForallOrdPairs (fun a c => differ lookup (fst a) (fst c)) ms -> Forall (fun m => single (snd m)) ms -> members fs v' ps v'.
Definition PP (path : list (hop ty)) (T : ty) (o : decOpts) (v : gval) (t : bytes) (v' : gval) : Prop :=
  P (o_quoted o) T -> o_mapKey o = false -> held v -> forall j, value t j -> single j -> at_path path T o v' t v'.

Lemma iface_plain j v : iface_of j = Some v -> exists x, v = VIface x /\ forall P0 y, x <> Some (P0, VPtr (Some y)).
Proof.
  destruct j; cbn [SpecVal.iface_of]; try (intros [= <-]; eexists; split; [reflexivity|discriminate]).
  - destruct un; [intros [= <-]; eexists; split; [reflexivity|discriminate]|]. destruct (fl_parse F64 t); [intros [= <-]; eexists; split; [reflexivity|discriminate]|discriminate].
  - destruct ((fix go l := match l with [] => _ | j :: r => _ end) l); [intros [= <-]; eexists; split; [reflexivity|discriminate]|discriminate].
  - destruct ((fix go m l := match l with [] => _ | j :: r => _ end) [] l); [intros [= <-]; eexists; split; [reflexivity|discriminate]|discriminate].
Qed.
Lemma again_decodes :
  (forall T o old t v, decodes T o old t v -> PD T o old t v) /\
  (forall T ts vs, elems T ts vs -> True) /\
  (forall T a ts vs, overwrite T a ts vs -> PO T a ts vs) /\
  (forall k T m ps m', entries k T m ps m' -> True) /\
  (forall fs v ps v', members fs v ps v' -> PM fs v ps v') /\
  (forall path T o v t v', at_path path T o v t v' -> PP path T o v t v').
Proof.
  apply decodes_mutind; try (intros; exact I);
    try (intros; intros PT Hk Ho j0 Hj0 Hs; econstructor; now eauto).
  - intros T o t v N Hd IH PT Hk Ho j Hj Hs. apply types in PT. cbn in PT. apply d_ptr_old; auto. eapply IH; eauto. apply held_zero, named.
  - intros T o x t v N Hd IH PT Hk Ho j Hj Hs. apply types in PT. cbn in PT. apply d_ptr_old; auto. eapply IH; eauto.
  - intros n T o a t ts vs Ha Hov IH PT Hk Ho j Hj Hs. apply types in PT. cbn in PT. apply held_arr in Ho.
    destruct (proj1 (proj2 (proj2 (whole_decodes F32 F64 C E un dis sf cs))) _ _ _ _ Hov) as [Hw Hst].
    destruct (array_values _ _ _ Hj Ha Hw Hst) as (js & -> & Hjs). inversion Hs; subst. eapply d_array; eauto.
  - intros k T o p t ps m Hd Hot He _ PT Hk Ho j Hj Hs. eapply d_map; eauto. eapply entries_again; eauto.
  - intros layout fields o old t ps new Hot Hm IH PT Hk Ho j Hj Hs. apply types in PT. destruct PT as [PT Dj]. destruct (object_values _ _ _ Hj Hot (proj1 (proj2 (proj2 (proj2 (proj2 (whole_decodes F32 F64 C E un dis sf cs))))) _ _ _ _ Hm)) as (ms & -> & Hms).
    inversion Hs; subst. eapply d_struct; eauto.
  - intros o x t j v Hx Hv Hj PT Hk Ho j0 Hj0 Hs. destruct (iface_plain _ _ Hj) as (x' & -> & N). eapply d_eface; [|exact Hv|exact Hj]. intros P0 T y Ex. now destruct (N _ _ Ex).
  - intros o P0 T x t v Hu N Hd IH PT Hk Ho j Hj Hs. cbn [SpecSpell.held] in Ho. destruct Ho as [Hp Ho]. eapply d_eface_held; eauto.
  - intros o P0 T x Hu Hn PT Hk Ho j Hj Hs. apply (d_eface F32 F64 C E lookup un dis o None (bs "null") JNull (VIface None)); [discriminate|constructor|reflexivity].
  - intros o P0 T x t v Hu N Hd IH PT Hk Ho j Hj Hs. cbn [SpecSpell.held] in Ho. destruct Ho as [Hp Ho]. eapply d_iface_held; eauto.
  - intros n o old t v Hd IH PT Hk Ho j Hj Hs. apply types in PT. constructor. eapply IH; eauto.
  - intros T ts H PT Ho js Hj Hs. now constructor.
  - intros T a l t ts v vs Hd IH Hov IHs PT Ho js Hj Hs. inversion Hj; subst. inversion Hs; subst. inversion Ho; subst. constructor; eauto.
  - intros T l PT Ho js Hj Hs. rewrite <- (repeat_length (zero T) (length l)) at 2. apply ov_zero.
  - intros fs v b name i fd t v1 ps v2 Hb Hl Hn Hp IH Hm IHs Hf Ho D ms Hms Hd Hs.
    inversion Hms as [|? [k j] ? ms0 (b0 & Eb & Hb0 & Hv) Hms']; subst. cbn [fst snd] in *. apply quote_inj in Eb. subst b0. assert (k = name) by (eapply string_det; eauto). subst k.
    inversion Hd as [|? ? Hd1 Hd2]; subst. inversion Hs; subst. cbn [fst snd] in *.
    assert (Q := proj1 (Forall_forall _ _) Hf fd (nth_error_In _ _ Hn)). cbn beta in Q.
    assert (Ho1 : held v1) by (eapply (proj2 (proj2 (proj2 (proj2 (proj2 held_steady))))); eauto).
    assert (K : at_path (f_path fd) (f_type fd) (mkOpts false (f_quoted fd)) v1 t v1) by (eapply IH; eauto).
    eapply ms_field; [eauto|eauto|eauto| |eapply IHs; eauto]. eapply members_fixed; eauto.
  - intros fs v b name t j ps v2 Hb Hl Hd Hv Hm IHs Hf Ho D ms Hms Hp Hs. inversion Hms; subst. inversion Hp; subst. inversion Hs; subst. eapply ms_unknown; eauto.
  - intros path T o l1 x l2 t y Hp IH PT Hk Ho j Hj Hs. apply held_struct in Ho. apply Forall_app in Ho. destruct Ho as [_ Ho]. inversion Ho; subst. constructor. eapply IH; eauto.
  - intros path T o T' t y Hp IH PT Hk Ho j Hj Hs. apply ap_ptr. eapply IH; eauto. apply held_zero, named.
Qed.
(** a text that is decoded is a JSON value if the document is JSON *)
Lemma text_json T o (old : gval) w1 t w2 v j : ws w1 -> ws w2 -> json_text (w1 ++ t ++ w2) j -> decodes T o old t v -> value t j.
Proof.
  intros H1 H2 (w & s & w' & Es & Hw & Hv & Hw') Hd.
  assert (W := proj1 (whole_decodes F32 F64 C E un dis sf cs) _ _ _ _ _ Hd).
  destruct (W w w1 s j (w' ++ [44]) (w2 ++ [44]) Hw H1 Hv) as [<- _]; [apply ws_sep; auto|apply ws_sep; auto| |exact Hv].
  rewrite !app_assoc in *. now rewrite Es.
Qed.
End Again.
(** the types of C60 are among those *)
Lemma orderless_steady {F32 F64 C} (E : env F32 F64 C) P q t : orderless E P q t -> steady E P q t.
Proof. intros [B D]. destruct t; cbn [blind steady] in *; auto; apply B. Qed.
