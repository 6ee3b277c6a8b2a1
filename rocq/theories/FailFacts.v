(** Facts about failing encoders: the error of the first part without representation stays. *)
From Coq Require Import String ZArith List Bool Lia.
From Verif Require Import Spec SpecStream SpecBase64 StreamIntFacts StreamStrFacts StreamFacts StreamTree Base64Facts.
From Verif Require Import Base ModelInt ModelFloat ModelOps ModelBase64 ModelStream ModelVal ModelEnc SpecVal SpecEnc SpecFail EncFacts.
Import ListNotations.
Local Open Scope Z_scope.

Section FailFacts.
Variables F32 F64 : floatOps.
Variable C : custom.
Notation gval := (gval F32 F64 C).
Variable E : env F32 F64 C.
Notation under := (under F32 F64 C E).
Variable U : marshalers F32 F64 C.
Variables G32 G64 : floatFmt.
Variables (S32 : fmt_sane G32) (S64 : fmt_sane G64).
Variable e32 : fl F32 -> ff G32.
Variable e64 : fl F64 -> ff G64.
Variable cfgHTML : bool.
Notation encoder := (encoder F32 F64 C).
Notation docall := (docall G32 G64).
Notation special := (special F32 F64 C E U G32 G64).
Notation encode := (encode F32 F64 C E U G32 G64 e32 e64 cfgHTML).
Notation Value := (Value F32 F64 C E U G32 G64 e32 e64 cfgHTML).
Notation Marshal := (Marshal F32 F64 C E U G32 G64 e32 e64 cfgHTML).
Notation uses_json := (uses_json F32 F64 C U).
Notation uses_text := (uses_text F32 F64 C U).
Notation no_fields := (no_fields F32 F64 C E U).
Notation empty := (empty F32 F64 C E U G32 G64 e32 e64).
Notation shaped := (shaped F32 F64 C E).
Notation tested := (tested F32 F64 C E U).
Notation no_encoder := (no_encoder F32 F64 C E U).
Notation pref := (pref F32 F64 C E U G32 G64 e32 e64 cfgHTML).
Notation tests := (tests F32 F64 C E U G32 G64 e32 e64 cfgHTML).
Variable quirks : Prop.
Notation encodes := (encodes F32 F64 C E U G32 G64 e32 e64 quirks).
Notation fails := (fails F32 F64 C E U G32 G64 e32 e64 quirks).
Notation fails_list := (fails_list F32 F64 C E U G32 G64 e32 e64 quirks).
Notation fails_map := (fails_map F32 F64 C E U G32 G64 e32 e64 quirks).
Notation fails_fields := (fails_fields F32 F64 C E U G32 G64 e32 e64 quirks).
Notation written := (written F32 F64 C E U G32 G64 e32 e64 quirks).
Notation skipped := (skipped F32 F64 C E U G32 G64 e32 e64 quirks).
Hypothesis NO : names_ok F32 F64 C E U.
Variable h : bool.
Notation puts := (puts h).

(** a step that ends with an error *)
Definition stops (f : stm -> sres) (e : serr) : Prop :=
  forall p w b, exists b' p', f (mkStm w b None p h) = SOk (mkStm w b' (Some e) p' h).
Definition halts (a : bool) (T : ty) (q : bool) (v : gval) (e : serr) : Prop :=
  exists n0, forall n, (n0 <= n)%nat -> stops (en_Encode _ _ _ (pref n a T) (Some v) q) e.
Lemma stops_ext f g e : (forall w b p, f (mkStm w b None p h) = g (mkStm w b None p h)) -> stops g e -> stops f e.
Proof. intros H P p w b. rewrite H. apply P. Qed.
Lemma stops_set e : stops (fun s => SOk (set_error (Some e) s)) e.
Proof. intros p w b. exists b, p. reflexivity. Qed.
Lemma after_error c w b p e : (forall on, c <> SEscapeHTML on) -> docall c (mkStm w b (Some e) p h) = SOk (mkStm w b (Some e) p h).
Proof.
  intros N. destruct (eff_error c e p h) as (h' & K). unfold ModelEnc.docall.
  destruct c as [| |[]| | | | | | | | | | | | | | |]; try reflexivity. exfalso. now apply (N on).
Qed.

(** the first step that fails *)
Inductive first {A} (f : A -> stm -> sres) (e : serr) : list A -> Prop :=
| fi_here x l : stops (f x) e -> first f e (x :: l)
| fi_quiet x l : (forall p w b, f x (mkStm w b None p h) = SOk (mkStm w b None p h)) -> first f e l -> first f e (x :: l)
| fi_put x l t : puts (f x) t -> first f e l -> first f e (x :: l).
Lemma encodeAll_stops {A} (f : A -> stm -> sres) e l : first f e l -> stops (encodeAll f l) e.
Proof.
  intros H. induction H as [x l S|x l Q H IH|x l t Q H IH]; intros p w b; cbn [encodeAll].
  - destruct (S p w b) as (b' & p' & ->). simpl. eauto.
  - rewrite Q. simpl. apply IH.
  - rewrite Q. simpl. apply IH.
Qed.
Lemma list_stops {A} (f : A -> stm -> sres) e l : first f e l ->
  stops (fun s => docall SArrayStart s >>> encodeAll f l >>> docall SArrayEnd) e.
Proof.
  intros H p w b. rewrite (docall_eff _ _ h _ _ _ _ _ _ (eff_arrayStart p h)). cbn [sbind].
  destruct (encodeAll_stops f e l H false w (b ++ comma p ++ [91])) as (b' & p' & ->). cbn [sbind].
  rewrite after_error by discriminate. eauto.
Qed.
Lemma object_stops {A} (f : A -> stm -> sres) e l : first f e l ->
  stops (fun s => docall SObjectStart s >>> encodeAll f l >>> docall SObjectEnd) e.
Proof.
  intros H p w b. rewrite (docall_eff _ _ h _ _ _ _ _ _ (eff_objectStart p h)). cbn [sbind].
  destruct (encodeAll_stops f e l H false w (b ++ comma p ++ [123])) as (b' & p' & ->). cbn [sbind].
  rewrite after_error by discriminate. eauto.
Qed.
Lemma halts_one a T q v e : special T = None -> (forall n, stops (en_Encode _ _ _ (encode (S n) T) (Some v) q) e) -> halts a T q v e.
Proof. intros S H. exists 1%nat. intros [|n] Hn; [lia|]. rewrite pref_plain by auto. apply H. Qed.

Lemma fails_shaped a T q v e : fails a T q v e -> shaped T v.
Proof.
  intros H. induction H using fails_ind4 with (P0 := fun _ _ _ => True) (P1 := fun _ _ _ _ => True) (P2 := fun _ _ _ => True);
    auto; try (constructor; auto; fail); try (match goal with D : user T _ |- _ => destruct D as [-> | ->]; constructor end; fail).
  - destruct H as [-> | ->]; constructor.
  - apply sh_ref. rewrite H1. constructor.
  - apply sh_ref. rewrite (nk_dyn _ _ _ _ _ NO n) by congruence. constructor.
  - apply sh_ref. rewrite (nk_dyn _ _ _ _ _ NO n) by congruence. constructor.
Qed.
(** structs without fields do not fail *)
Lemma fails_fields_some T q v e : fails false T q v e -> ~ no_fields false T.
Proof using NO.
  assert (K : forall T q v e, fails false T q v e -> (forall k, T <> TRef k) -> ~ no_fields false T).
  { clear T q v e. intros T q v e H N Hf. destruct (no_fields_kind F32 F64 C E U NO _ _ Hf N) as [(l & ->)|(id & l & Hu & Hj & Ht & Hl)].
    - inversion H as [| | | |? ? ? ? ? ? D|? ? ? ? ? ? D|? ? ? ? ? ? D| | | | | | | |? ? ? ? ? ? X|? ? ? ? ? ? D| | | |]; subst; try (destruct D; discriminate).
      inversion X.
    - destruct Hu as [-> | ->];
      (inversion H as [| | | |? ? id' ? ? ? D J|? ? id' ? ? ? D J|? ? id' ? ? ? D J1 J2 J| | | | | | | | |? ? ? ? ? ? D| | | |]; subst;
        try (assert (id' = id) as -> by (destruct D; congruence)); try contradiction; [|destruct D; discriminate];
        rewrite Hl in J;
        inversion J as [| | | |? ? ? ? ? ? D'|? ? ? ? ? ? D'|? ? ? ? ? ? D'| | | | | | | |? ? ? ? ? ? X|? ? ? ? ? ? D'| | | |]; subst; try (destruct D'; discriminate);
        inversion X). }
  intros H Hf. destruct (ref_cases F32 F64 C E U NO (no_fields false) T Hf) as [N|(k & -> & D)]; [now apply (K _ _ _ _ H N)|].
  apply (no_fields_ref F32 F64 C E U NO) in Hf. destruct D as [D|D].
  - inversion H as [| | | |? ? ? ? ? ? D'|? ? ? ? ? ? D'|? ? ? ? ? ? D'| | | | | | | | |? ? ? ? ? ? D'|? ? ? ? ? ? ? X|? ? ? ? ? ? ? ? Hk|? ? ? ? ? ? ? ? X|? ? ? ? ? ? ? ? X]; subst; try (destruct D'; discriminate); try congruence.
    { apply (K _ _ _ _ X); auto. intros m. apply (nk_ref _ _ _ _ _ NO). }
    rewrite Hk in Hf. apply (no_fields_kind F32 F64 C E U NO) in Hf; [|discriminate]. destruct Hf as [(l & Hf)|(id & l & [Hf|Hf] & _)]; discriminate.
  - rewrite D in Hf. apply (no_fields_kind F32 F64 C E U NO) in Hf; [|discriminate]. destruct Hf as [(l & Hf)|(id & l & [Hf|Hf] & _)]; discriminate.
Qed.
(** nil pointers to types without encoder *)
Lemma no_encoder_special T : no_encoder T -> special T = None.
Proof using NO e32 e64 cfgHTML.
  intros H. induction H as [|k T Nk|k Hd H IH|T id Hu Hj Ht H IH]; [reflexivity|reflexivity|rewrite special_ref by auto; auto|].
  destruct (user_cases F32 F64 C E U G32 G64 e32 e64 cfgHTML T id Hu) as [-> _].
  unfold SpecEnc.uses_text, SpecEnc.uses_json, has in *.
  destruct (ma_json _ _ _ U id), (ma_text _ _ _ U id); try reflexivity; exfalso; intuition congruence.
Qed.
Lemma nil_halts T : no_encoder T -> exists n0, forall n q, (n0 <= n)%nat -> stops (en_Encode _ _ _ (encode n T) None q) ErrTypeNotSupported.
Proof using NO.
  intros H. induction H as [|k T Nk|k Hd H IH|T id Hu Hj Ht H IH].
  - exists 1%nat. intros [|n] q Hn; [lia|]. intros p w b. exists b, p. reflexivity.
  - exists 1%nat. intros [|n] q Hn; [lia|]. intros p w b. exists b, p. simpl. now rewrite (encodable_none _ _ _ _ _ _ _ Nk).
  - destruct IH as (n0 & R). exists (S n0). intros [|n] q Hn; [lia|]. 
    rewrite encode_ref; [apply R; pose proof (rest_le F32 F64 C E n k); lia|auto|].
    intros P. inversion P as [T' id Hu _ Z|T' id Hu _ _ Z]; rewrite <- Z in H; inversion H as [| | |? ? [D|D]]; discriminate.
  - destruct IH as (n0 & R). exists (S n0). intros [|n] q Hn; [lia|].
    destruct (user_cases F32 F64 C E U G32 G64 e32 e64 cfgHTML T id Hu) as [_ He]. rewrite He.
    unfold SpecEnc.uses_text, SpecEnc.uses_json, has in *.
    destruct (ma_json _ _ _ U id), (ma_text _ _ _ U id); try (exfalso; intuition congruence). simpl. apply R. lia.
Qed.
Lemma written_step fd v x : written fd v x -> shaped (f_type fd) x -> exists n0 body, forall n, (n0 <= n)%nat -> forall w b p,
  encodeField _ _ _ G32 G64 v (addField _ _ _ fd (pref n true (f_type fd))) (mkStm w b None p h) =
    (docall (SRawField (quote body)) (mkStm w b None p h) >>> en_Encode _ _ _ (pref n true (f_type fd)) (Some x) (f_quoted fd)).
Proof using NO.
  intros (Hl & Hb & Ho) Sh. destruct (encodeString_eff (f_name fd) h Hb) as (body & EE & _).
  assert (Te : f_omitEmpty fd = true -> tests (f_type fd) x false).
  { intros O. specialize (Ho O). destruct Ho as [[Ht Hn]|[_ Hn]].
    - destruct (isEmpty_ok F32 F64 C E U G32 G64 e32 e64 cfgHTML NO _ _ Ht Sh) as ([] & B & J); auto. exfalso. apply Hn. now apply J.
    - now apply never_empty. }
  assert (X : exists n2, forall n, (n2 <= n)%nat -> (if f_omitEmpty fd then en_isEmpty _ _ _ (pref n true (f_type fd)) x else Some false) = Some false).
  { destruct (f_omitEmpty fd); [exact (Te eq_refl)|]. now exists O. }
  destruct X as (n2 & X). exists n2, body. intros n Hn w b p. unfold encodeField.
  cbn [ef_path addField ModelEnc.ef_omit ef_enc ef_safe ef_raw ef_quoted sm_html].
  rewrite (leads_reach _ _ _ _ _ _ Hl), X by lia.
  replace (if h then encodeString [] (f_name fd) true else encodeString [] (f_name fd) false) with (Some (quote body)) by (symmetry; destruct h; apply EE).
  reflexivity.
Qed.
Lemma skipped_step fd v : skipped fd v -> exists n0, forall n, (n0 <= n)%nat -> forall p w b,
  encodeField _ _ _ G32 G64 v (addField _ _ _ fd (pref n true (f_type fd))) (mkStm w b None p h) = SOk (mkStm w b None p h).
Proof using NO.
  intros [Hc|(x & Hl & Ho & D)].
  - exists O. intros n _ p w b. unfold encodeField. cbn [ef_path addField]. now rewrite (cut_reach _ _ _ _ _ Hc).
  - assert (X : tests (f_type fd) x true).
    { destruct D as [[Ht He]|(_ & Hf & Sh)]; [|now apply quirk_empty].
      destruct (isEmpty_ok F32 F64 C E U G32 G64 e32 e64 cfgHTML NO _ _ Ht (empty_shaped _ _ _ _ _ _ _ _ _ _ _ He)) as (b & B & I). apply I in He as ->. exact B. }
    destruct X as (n0 & X). exists n0. intros n Hn p w b. unfold encodeField. cbn [ef_path addField ModelEnc.ef_omit ef_enc].
    rewrite (leads_reach _ _ _ _ _ _ Hl), Ho. now rewrite X by lia.
Qed.
Lemma encodes_puts a T q v t : encodes a T q v t -> exists t' n0, forall n, (n0 <= n)%nat -> puts (en_Encode _ _ _ (pref n a T) (Some v) q) t'.
Proof using NO S32 S64.
  intros H. destruct (encode_ok F32 F64 C E U G32 G64 S32 S64 e32 e64 cfgHTML quirks NO h) as [K _].
  destruct (K _ _ _ _ _ H) as (t' & _ & n0 & R). eauto.
Qed.
Lemma key_step k key ke : fits_key F32 F64 C U k key -> newKeyEncoder F32 F64 C U G32 G64 k = Some ke -> exists q, forall p w b,
  ke key (mkStm w b None p h) = SOk (mkStm w (b ++ comma p ++ q ++ [58]) None false h).
Proof.
  intros H Hke. destruct (key_ok F32 F64 C U G32 G64 h k key H) as (q & ke' & _ & Hke' & K).
  assert (ke' = ke) by congruence. subst ke'. exists q. exact K.
Qed.

(** Encoders of values that fail end with the error *)
Theorem encode_fails :
  (forall a T q v e, fails a T q v e -> halts a T q v e) /\
  (forall T l e, fails_list T l e -> exists n0, forall n, (n0 <= n)%nat -> first (fun x => en_Encode _ _ _ (pref n true T) (Some x) false) e l) /\
  (forall k T m e, fails_map k T m e -> forall ke, newKeyEncoder F32 F64 C U G32 G64 k = Some ke ->
     exists n0, forall n, (n0 <= n)%nat -> first (entryStep F32 F64 C ke (encode n T)) e m) /\
  (forall fs v e, fails_fields fs v e -> exists n0, forall n, (n0 <= n)%nat ->
     first (encodeField _ _ _ G32 G64 v) e (map (fun fd => addField _ _ _ fd (pref n true (f_type fd))) fs)).
Proof using NO S32 S64.
  apply fails_mutind.
  - intros a q x Hi. apply halts_one; auto. intros n p w b. exists b, p. simpl. unfold ModelEnc.docall, call, guarded. cbn [sm_error]. now rewrite Hi.
  - intros a q x Hi Hn. apply halts_one; auto. intros n p w b. exists b, p. simpl. unfold ModelEnc.docall, call, guarded. cbn [sm_error]. now rewrite Hi, Hn.
  - intros a q x Hi. apply halts_one; auto. intros n p w b. exists b, p. simpl. unfold ModelEnc.docall, call, guarded. cbn [sm_error]. now rewrite Hi.
  - intros a q x Hi Hn. apply halts_one; auto. intros n p w b. exists b, p. simpl. unfold ModelEnc.docall, call, guarded. cbn [sm_error]. now rewrite Hi, Hn.
  - intros a T id q x e Hu Hj M. exists 1%nat. intros [|n] Hn; [lia|].
    eapply stops_ext; [intros; now apply (user_json F32 F64 C E U G32 G64 e32 e64 cfgHTML h a T id)|]. rewrite M. apply stops_set.
  - intros a T id q x e Hu Hj M. exists 1%nat. intros [|n] Hn; [lia|].
    eapply stops_ext; [intros; now apply (user_text F32 F64 C E U G32 G64 e32 e64 cfgHTML h a T id)|]. rewrite M. apply stops_set.
  - intros a T id q x e Hu Hj Ht _ (n0 & R). exists (S n0). intros [|n] Hn; [lia|].
    rewrite (user_plain F32 F64 C E U G32 G64 e32 e64 cfgHTML a T id) by auto. apply (R n). lia.
  - intros a q v. apply halts_one; auto. intros n p w b. exists b, p. reflexivity.
  - intros a k T q o Nk. apply halts_one; auto. intros n p w b. exists b, p. simpl. now rewrite (encodable_none _ _ _ _ _ _ _ Nk).
  - intros a T q H. pose proof (no_encoder_special T H) as Sp. destruct (nil_halts T H) as (n0 & R).
    exists (S n0). intros [|n] Hm; [lia|]. rewrite pref_plain by reflexivity. simpl. rewrite Sp. apply R. lia.
  - intros a T q v e _ (n0 & R). exists (S n0). intros [|n] Hn; [lia|].
    rewrite pref_plain by reflexivity. specialize (R n ltac:(lia)). unfold EncFacts.pref, ModelEnc.preferPtrEncoder in R. simpl. destruct (special T); exact R.
  - intros a n T q l e L H (n0 & R). exists (S n0). intros [|m] Hn; [lia|]. rewrite pref_plain by reflexivity.
    destruct n as [|n]; [destruct l; [inversion H|discriminate]|]. simpl. apply (list_stops _ e l (R m ltac:(lia))).
  - intros a T q l e Hb H (n0 & R). exists (S n0). intros [|m] Hn; [lia|]. rewrite pref_plain by reflexivity.
    assert (X : encode (S m) (TSlice T) = sliceEncoder _ _ _ G32 G64 (pref m true T)).
    { simpl. destruct (ModelVal.under _ _ _ _ T) as [|[] []| | | | | | | | | | | | | | | |]; try reflexivity. now exfalso. }
    rewrite X. destruct l as [|x l]; [inversion H|].
    eapply stops_ext; [|apply (list_stops _ e (x :: l) (R m ltac:(lia)))]. reflexivity.
  - intros a k T q m e Hk H R0. destruct (encodable_some F32 F64 C U G32 G64 k Hk) as (ke & Hke). destruct (R0 ke Hke) as (n0 & R).
    exists (S n0). intros [|n] Hn; [lia|]. rewrite pref_plain by reflexivity. simpl. rewrite Hke.
    eapply stops_ext; [|apply (object_stops _ e m (R n ltac:(lia)))]. reflexivity.
  - intros a lay fs q v e H (n0 & R). exists (S n0). intros [|n] Hn; [lia|]. rewrite pref_plain by reflexivity.
    destruct fs as [|fd fs]; [inversion H|]. eapply stops_ext; [|apply (object_stops _ e _ (R n ltac:(lia)))]. reflexivity.
  - intros a T q T' v e D H (n0 & R).
    assert (X : halts a TEface q (VIface (Some (T', v))) e).
    { exists (S n0). intros [|n] Hn; [lia|]. rewrite pref_plain by reflexivity. eapply stops_ext; [|apply (R n ltac:(lia))].
      intros w b p. cbn [ModelEnc.encode en_Encode interfaceEncoder orNull]. unfold encValue, ifNoError. cbn [sm_error].
      destruct (isEmptyStruct _ _ _ E U T') eqn:X1; [|reflexivity].
      exfalso. apply (isEmptyStruct_ok F32 F64 C E U) in X1. now apply (fails_fields_some _ _ _ _ H). }
    destruct D as [-> | ->]; auto. destruct X as (n1 & R1). exists (S n1). intros [|n] Hn; [lia|]. exact (R1 (S n) ltac:(lia)).
  - intros a k q v e Hd Hp _ (n0 & R). exists (S n0). intros [|n] Hn; [lia|]. rewrite pref_ref by auto. apply R. pose proof (rest_le F32 F64 C E n k). lia.
  - intros a k q T v e Hd Q Hk Hp _ (n0 & R). exists (S n0). intros [|n] Hn; [lia|].
    assert (Sp : special (TRef k) = None) by (apply special_not_user; simpl; rewrite Hk; intros i [X|X]; discriminate).
    rewrite pref_plain by exact Sp. cbn [ModelEnc.encode]. rewrite Hd, Hk. exact (R n ltac:(lia)).
  - intros a k q T v id x e Hd Hm M.
    assert (N : ma_dyn _ _ _ U k <> None) by congruence. pose proof (special_dyn F32 F64 C E U G32 G64 NO k N) as Sp.
    apply halts_one; auto. intros n. simpl. rewrite Hd. eapply stops_ext; [|apply stops_set]. intros w b p.
    cbn [en_Encode dynamicJSONMarshalerEncoder ifNoError sm_error orNull]. rewrite (method_call _ _ _ _ _ _ _ _ _ _ Hm), M. reflexivity.
  - intros a k q T v id x e Hd Hm M.
    assert (N : ma_dyn _ _ _ U k <> None) by congruence. pose proof (special_dyn F32 F64 C E U G32 G64 NO k N) as Sp.
    apply halts_one; auto. intros n. simpl. rewrite Hd. eapply stops_ext; [|apply stops_set]. intros w b p.
    cbn [en_Encode dynamicTextMarshalerEncoder ifNoError sm_error orNull]. rewrite (method_call _ _ _ _ _ _ _ _ _ _ Hm), M. reflexivity.
  - intros T v l e _ (n0 & R). exists n0. intros n Hn. now apply fi_here, R.
  - intros T v l t e H _ (n0 & R). destruct (encodes_puts _ _ _ _ _ H) as (t' & n1 & P).
    exists (Nat.max n0 n1). intros n Hn. apply fi_put with t'; [apply P; lia|apply R; lia].
  - intros k T key v m e Hk ke Hke. exists O. intros n _. apply fi_here. intros p w b. unfold entryStep. cbn [fst snd].
    destruct Hk as [kd u id sh key e N Hi Hw M]. destruct (text_keys F32 F64 C U G32 G64 h kd u id sh key N Hi Hw) as (ke' & Hke' & K).
    assert (ke' = ke) by congruence. subst ke'. rewrite K, M. exists b, p. reflexivity.
  - intros k T key v m e Hk _ (n0 & R) ke Hke. destruct (key_step _ _ _ Hk Hke) as (body & K). exists n0. intros n Hn. apply fi_here.
    intros p w b. unfold entryStep. cbn [fst snd]. rewrite K. cbn [sbind sm_error]. apply (R n Hn).
  - intros k T key v t m e Hk H _ R0 ke Hke. destruct (R0 ke Hke) as (n0 & R). destruct (key_step _ _ _ Hk Hke) as (body & K). destruct (encodes_puts _ _ _ _ _ H) as (t' & n1 & P).
    exists (Nat.max n0 n1). intros n Hn. apply fi_put with (body ++ 58 :: t'); [|apply R; lia].
    intros p w b. unfold entryStep. cbn [fst snd]. rewrite K. cbn [sbind sm_error]. pose proof (P n ltac:(lia) false w (b ++ comma p ++ body ++ [58])) as X.
    etransitivity; [exact X|]. do 2 f_equal. cbn [comma]. rewrite app_nil_l, <- !app_assoc. reflexivity.
  - intros fd fs v x e Hw H (n0 & R). destruct (written_step _ _ _ Hw (fails_shaped _ _ _ _ _ H)) as (n1 & body & W).
    exists (Nat.max n0 n1). intros n Hn. cbn [map]. apply fi_here. intros p w b. rewrite W by lia.
    rewrite (docall_eff _ _ h _ _ _ _ _ _ (eff_rawField (quote body) p h)). cbn [sbind]. apply (R n ltac:(lia)).
  - intros fd fs v e Hs _ (n0 & R). destruct (skipped_step _ _ Hs) as (n1 & Q). exists (Nat.max n0 n1). intros n Hn. cbn [map].
    apply fi_quiet; [apply Q; lia|apply R; lia].
  - intros fd fs v x t e Hw H _ (n0 & R). destruct (encodes_puts _ _ _ _ _ H) as (t' & n2 & P).
    assert (Sh : shaped (f_type fd) x) by (eapply (encodes_shaped F32 F64 C E U G32 G64 e32 e64 quirks NO); eauto).
    destruct (written_step _ _ _ Hw Sh) as (n1 & body & W).
    exists (Nat.max n0 (Nat.max n1 n2)). intros n Hn. cbn [map]. apply fi_put with (quote body ++ 58 :: t'); [|apply R; lia].
    intros p w b. rewrite W by lia. rewrite (docall_eff _ _ h _ _ _ _ _ _ (eff_rawField (quote body) p h)). cbn [sbind].
    etransitivity; [exact (P n ltac:(lia) false w (b ++ comma p ++ quote body ++ [58]))|]. do 2 f_equal. cbn [comma]. rewrite app_nil_l, <- !app_assoc. reflexivity.
Qed.
End FailFacts.
