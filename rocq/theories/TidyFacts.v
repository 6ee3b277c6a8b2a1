(** Facts about the bytes that the encoders write: they are UTF-8, and safe in HTML if the streamer escapes. *)
From Coq Require Import String ZArith List Bool Lia.
From Verif Require Import Spec SpecStream SpecBase64 StreamIntFacts StreamStrFacts StreamFacts Base64Facts.
From Verif Require Import Base ModelInt ModelFloat ModelOps ModelBase64 ModelStream ModelVal ModelEnc SpecVal SpecEnc SpecTyped EncFacts.
Import ListNotations.
Local Open Scope Z_scope.

(** ** Tidy texts as sequences of code points *)
Definition fine (h : bool) (r : Z) : Prop := scalar r /\ r <> 8232 /\ r <> 8233 /\ (h = true -> r <> 60 /\ r <> 62 /\ r <> 38).
Definition pts (h : bool) (t : bytes) : Prop := exists rs, t = flat_map utf8 rs /\ Forall (fine h) rs.
Lemma pts_app h a b : pts h a -> pts h b -> pts h (a ++ b).
Proof. intros (ra & -> & A) (rb & -> & B). exists (ra ++ rb). split; [now rewrite flat_map_app|now apply Forall_app]. Qed.
Lemma pts_nil h : pts h [].
Proof. exists []. split; [reflexivity|constructor]. Qed.
Lemma pts_points h t : points h t -> pts h t.
Proof. intros (rs & -> & H). exists rs. split; auto. eapply Forall_impl; [|exact H]. intros r. unfold clean, fine. tauto. Qed.
Definition plainc (c : Z) : Prop := 0 <= c < 128 /\ c <> 60 /\ c <> 62 /\ c <> 38.
Lemma pts_plain h l : Forall plainc l -> pts h l.
Proof.
  intros H. induction H as [|c l (A & B) H IH]; [apply pts_nil|]. change (c :: l) with ([c] ++ l). apply pts_app; auto.
  exists [c]. split; [simpl; now rewrite utf8_ascii by lia|]. constructor; [|constructor]. unfold fine, scalar. lia.
Qed.
Lemma plain_b l : forallb (fun c => (0 <=? c) && (c <? 128) && negb (c =? 60) && negb (c =? 62) && negb (c =? 38)) l = true -> Forall plainc l.
Proof. intros H. apply Forall_forall. intros c Hc. apply (proj1 (forallb_forall _ _) H) in Hc. unfold plainc. lia. Qed.
Ltac plainLit := apply plain_b; reflexivity.
Lemma pts_tidy h t : pts h t <-> tidy h t.
Proof.
  split.
  - intros (rs & -> & H). assert (S : Forall scalar rs) by (eapply Forall_impl; [|exact H]; intros r; unfold fine; tauto).
    assert (Q : forall c, c < 128 -> In c (flat_map utf8 rs) -> In c rs).
    { intros c L Hc. apply in_flat_map in Hc. destruct Hc as (r & Hr & Hc). rewrite Forall_forall in S. specialize (S r Hr).
      destruct (Z.lt_ge_cases r 128).
      - rewrite utf8_ascii in Hc by (unfold scalar in S; lia). destruct Hc as [->|[]]. auto.
      - pose proof (utf8_high r S ltac:(lia)) as Hh. rewrite Forall_forall in Hh. apply Hh in Hc. lia. }
    rewrite Forall_forall in H. split; [|split; [|split]].
    + clear - S. induction S; simpl; constructor; auto.
    + intros O. apply occurs_point in O; auto; [|unfold scalar; lia]. apply H in O. unfold fine in O. lia.
    + intros O. apply occurs_point in O; auto; [|unfold scalar; lia]. apply H in O. unfold fine in O. lia.
    + intros Hh. repeat split; intros O; apply Q in O; try lia; apply H in O; unfold fine in O; intuition.
  - intros (T & A & B & D). revert A B D. induction T as [|r l Hr T IH]; intros A B D; [apply pts_nil|].
    assert (I : pts h l).
    { apply IH.
      - intros (x & y & ->). apply A. exists (utf8 r ++ x), y. now rewrite <- app_assoc.
      - intros (x & y & ->). apply B. exists (utf8 r ++ x), y. now rewrite <- app_assoc.
      - intros Hh. destruct (D Hh) as (D1 & D2 & D3). repeat split; intros X; [apply D1|apply D2|apply D3]; apply in_or_app; now right. }
    apply pts_app; auto. exists [r]. split; [simpl; now rewrite app_nil_r|]. constructor; [|constructor].
    split; auto. split; [|split].
    + intros ->. apply A. exists [], l. reflexivity.
    + intros ->. apply B. exists [], l. reflexivity.
    + intros Hh. destruct (D Hh) as (D1 & D2 & D3).
      repeat split; intros ->; [apply D1|apply D2|apply D3]; apply in_or_app; left; rewrite utf8_ascii by lia; now left.
Qed.

Lemma plain_digit c : is_digit c -> plainc c.
Proof. unfold is_digit, plainc. lia. Qed.
Lemma plain_digits l : digits l -> Forall plainc l.
Proof. intros H. eapply Forall_impl; [|exact H]. intros c. apply plain_digit. Qed.
Lemma plain_int t : int_part t -> Forall plainc t.
Proof.
  intros H. destruct H as [|d ds Hd H]; [plainLit|]. constructor; [unfold plainc; lia|now apply plain_digits].
Qed.
Lemma plain_numeral z t : numeral z t -> Forall plainc t.
Proof.
  unfold numeral. destruct (z <? 0).
  - intros (u & -> & H & _). constructor; [unfold plainc; lia|now apply plain_int].
  - intros (H & _). now apply plain_int.
Qed.
Lemma plain_number t : number t -> Forall plainc t.
Proof.
  assert (U : forall t, unsigned_number t -> Forall plainc t).
  { intros u H. destruct H as [i f e Hi Hf He]. apply Forall_app. split; [now apply plain_int|]. apply Forall_app. split.
    - destruct Hf as [|l [_ D]]; constructor; [unfold plainc; lia|now apply plain_digits].
    - destruct He as [|e l He [_ D]|e s l He Hs [_ D]]; repeat constructor; try (unfold plainc; lia); now apply plain_digits. }
  intros H. destruct H as [u H|u H]; [auto|]. constructor; [unfold plainc; lia|auto].
Qed.
Lemma plain_sextet v c : sextet v c -> plainc c.
Proof.
  intros (_ & H). apply nth_error_In in H.
  assert (P : Forall plainc b64_alphabet) by (repeat (constructor; [cbv; intuition congruence|]); constructor).
  rewrite Forall_forall in P. now apply P.
Qed.
Lemma plain_base64 data text : base64 data text -> Forall plainc text.
Proof.
  intros H. induction H; repeat (constructor; [first [eapply plain_sextet; eassumption|unfold plainc; lia]|]); auto.
Qed.

Section Tidy.
Variables F32 F64 : floatOps.
Variable C : custom.
Notation gval := (gval F32 F64 C).
Variable E : env F32 F64 C.
Notation under := (under F32 F64 C E).
Variable U : marshalers F32 F64 C.
Variables G32 G64 : floatFmt.
Variables (S32 : fmt_sane G32) (S64 : fmt_sane G64).
Variable e32 : fl F32 -> ff G32.
Variable e64 : fl F64 -> ff G64.
Variable cfgHTML : bool.
Notation encoder := (encoder F32 F64 C).
Notation scall := (scall G32 G64).
Notation docall := (docall G32 G64).
Notation special := (special F32 F64 C E U G32 G64).
Notation preferPtrEncoder := (preferPtrEncoder F32 F64 C E U G32 G64).
Notation encode := (encode F32 F64 C E U G32 G64 e32 e64 cfgHTML).
Notation sound := (sound F32 F64 C E).
Notation typed := (typed F32 F64 C E).
Notation carries := (carries F32 F64 C E U).
Notation route := (route F32 F64 C E).
Hypothesis NO : names_ok F32 F64 C E U.
Hypothesis SE : sound_env F32 F64 C E.
Hypothesis SU : sound_users F32 F64 C E U.

(** ** Types *)
Lemma typed_under T v : typed T v <-> typed (under T) v.
Proof.
  destruct T; try tauto. simpl. split; [intros H; inversion H; subst; auto; intuition discriminate|now constructor].
Qed.
Lemma sound_under T : sound T -> sound (under T).
Proof. intros H. destruct T; auto. apply SE. Qed.
Lemma sound_layout T layout fs Ti : sound T -> under T = TStruct layout fs -> In Ti layout -> sound Ti.
Proof.
  intros H U1 Hi. apply sound_under in H. rewrite U1 in H. inversion H as [? K| | | | |? ? K]; subst; [destruct K|auto].
Qed.
Lemma sound_elem T T1 : sound T -> under T = TPtr T1 -> sound T1.
Proof. intros H U1. apply sound_under in H. rewrite U1 in H. now inversion H as [? K| | | | |]; subst; [destruct K|]. Qed.
Lemma route_sound T path T' : route T path T' -> sound T -> sound T'.
Proof.
  intros H. induction H as [T|T layout fs i Ti path T' Hu Hn H IH|T T1 alloc path T' Hu Ha H IH]; intros S; auto.
  - apply IH. eapply sound_layout; eauto. eapply nth_error_In; eauto.
  - apply IH. eapply sound_elem; eauto.
Qed.
Lemma forall2_nth {A B} (R : A -> B -> Prop) l m i a b : Forall2 R l m -> nth_error l i = Some a -> nth_error m i = Some b -> R a b.
Proof.
  intros H. revert i. induction H as [|x y l m Hr H IH]; intros [|i]; simpl; try discriminate; [congruence|eauto].
Qed.
Lemma route_typed T path T' : route T path T' -> forall v x, typed T v -> reach F32 F64 C path v = Some (Some x) ->
  typed T' x /\ SpecEnc.leads F32 F64 C path v x.
Proof.
  intros H. induction H as [T|T layout fs i Ti path T' Hu Hn H IH|T T1 alloc path T' Hu Ha H IH]; intros v x Hv R; simpl in R.
  - injection R as <-. split; [auto|constructor].
  - destruct v as [| | | | | | | | | | |l| ]; try discriminate. destruct (nth_error l i) as [y|] eqn:X; [|discriminate].
    apply typed_under in Hv. rewrite Hu in Hv. inversion Hv; subst.
    destruct (IH y x) as (A & B); [eapply forall2_nth; eauto|auto|]. split; auto. econstructor; eauto.
  - destruct v as [| | | | | | |[y|]| | | | | ]; try discriminate. apply typed_under in Hv. rewrite Hu in Hv. inversion Hv; subst.
    destruct (IH y x) as (A & B); auto. split; auto. now constructor.
Qed.

(** ** Steps that add a tidy text *)
Definition grows (s s' : stm) : Prop :=
  exists out, sm_buffer s' = sm_buffer s ++ out /\ pts (sm_html s) out /\ sm_html s' = sm_html s /\ sm_writer s' = sm_writer s.
Lemma grows_refl s : grows s s.
Proof. exists []. split; [now rewrite app_nil_r|]. split; [apply pts_nil|split; reflexivity]. Qed.
Lemma grows_trans a b c : grows a b -> grows b c -> grows a c.
Proof.
  intros (x & A1 & A2 & A3 & A4) (y & B1 & B2 & B3 & B4). exists (x ++ y). split; [rewrite B1, A1; now rewrite app_assoc|].
  split; [|split; congruence]. apply pts_app; auto. now rewrite <- A3.
Qed.
Lemma grows_error s e : grows s (set_error e s).
Proof. exists []. split; [now rewrite app_nil_r|]. split; [apply pts_nil|split; reflexivity]. Qed.
Lemma grows_poped s p : grows s (set_poped p s).
Proof. exists []. split; [now rewrite app_nil_r|]. split; [apply pts_nil|split; reflexivity]. Qed.
Lemma grows_put s t : pts (sm_html s) t -> grows s (ModelStream.put t s).
Proof. intros H. exists t. auto. Qed.
Lemma grows_onVal s : grows s (onVal s).
Proof. unfold onVal. destruct (sm_poped s); [apply grows_put, pts_plain; plainLit|apply grows_poped]. Qed.
Lemma pts_comma h p : pts h (comma p).
Proof. apply pts_plain. destruct p; plainLit. Qed.

(** the arguments that calls may have *)
Definition callok (h : bool) (c : scall) : Prop :=
  match c with
  | SRaw t | SRawField t => pts h t
  | SEscapeHTML _ => False
  | _ => StreamFacts.typed c
  end.
Lemma pts_quote h b : points h b -> pts h (34 :: b ++ [34]).
Proof.
  intros H. change (34 :: b ++ [34]) with ([34] ++ b ++ [34]). apply pts_app; [|apply pts_app; [now apply pts_points|]];
    apply pts_plain; plainLit.
Qed.
Lemma eff_grows c s s' t e' p' : effect c (sm_error s) (sm_poped s) (sm_html s) t e' p' (sm_html s) -> pts (sm_html s) t ->
  docall c s = SOk s' -> grows s s'.
Proof.
  intros H P D. destruct s as [w b e p h]. simpl in *. unfold ModelEnc.docall in D. rewrite H in D. injection D as <-.
  exists t. auto.
Qed.
Lemma docall_grows c s s' : callok (sm_html s) c -> docall c s = SOk s' -> grows s s'.
Proof.
  intros K D. destruct (sm_error s) as [e|] eqn:X.
  { unfold ModelEnc.docall in D. destruct c as [| |[]| | | | | | | | | | | | | | |]; try contradiction; simpl in D; unfold guarded in D; rewrite X in D;
      injection D as <-; apply grows_refl. }
  assert (Pl : forall l, Forall plainc l -> pts (sm_html s) l) by (intros; now apply pts_plain).
  assert (Cm : pts (sm_html s) (comma (sm_poped s))) by apply pts_comma.
  destruct c as [t| |x|k v|k v|k v|k v|f|f|str|str|t| | | | |on|e]; simpl in K.
  - refine (eff_grows _ _ _ _ _ _ _ _ D); [rewrite X; apply eff_raw|apply pts_app; auto].
  - refine (eff_grows _ _ _ _ _ _ _ _ D); [rewrite X; apply eff_null|apply pts_app; auto; apply Pl; plainLit].
  - refine (eff_grows _ _ _ _ _ _ _ _ D); [rewrite X; apply eff_bool|apply pts_app; auto; apply Pl; destruct x; plainLit].
  - destruct (appendInt_numeral k v K) as (t & N & H). refine (eff_grows _ _ _ _ _ _ _ _ D); [rewrite X; apply eff_int; exact H| ].
    apply pts_app; auto. apply Pl. now apply plain_numeral with v.
  - destruct (appendUint_numeral k v K) as (t & N & H). refine (eff_grows _ _ _ _ _ _ _ _ D); [rewrite X; apply eff_uint; exact H| ].
    apply pts_app; auto. apply Pl. now apply plain_numeral with v.
  - destruct (appendInt_numeral k v K) as (t & N & H). refine (eff_grows _ _ _ _ _ _ _ _ D); [rewrite X; apply eff_qint; exact H| ].
    apply pts_app; auto. apply Pl. constructor; [unfold plainc; lia|]. apply Forall_app. split; [now apply plain_numeral with v|plainLit].
  - destruct (appendUint_numeral k v K) as (t & N & H). refine (eff_grows _ _ _ _ _ _ _ _ D); [rewrite X; apply eff_quint; exact H| ].
    apply pts_app; auto. apply Pl. constructor; [unfold plainc; lia|]. apply Forall_app. split; [now apply plain_numeral with v|plainLit].
  - destruct (ff_inf G32 f) eqn:Hi; [|destruct (ff_nan G32 f) eqn:Hn].
    1,2: destruct (eff_float32_bad (F64 := G64) f (sm_poped s) (sm_html s)) as (e & H & _); [auto|];
      refine (eff_grows _ _ _ _ _ _ _ _ D); [rewrite X; exact H|apply pts_nil].
    destruct (appendFloat_ok G32 S32 f Hi Hn) as (t & (N & _) & H). refine (eff_grows _ _ _ _ _ _ _ _ D); [rewrite X; apply eff_float32; auto|apply pts_app; auto; apply Pl; now apply plain_number].
  - destruct (ff_inf G64 f) eqn:Hi; [|destruct (ff_nan G64 f) eqn:Hn].
    1,2: destruct (eff_float64_bad (F32 := G32) f (sm_poped s) (sm_html s)) as (e & H & _); [auto|];
      refine (eff_grows _ _ _ _ _ _ _ _ D); [rewrite X; exact H|apply pts_nil].
    destruct (appendFloat_ok G64 S64 f Hi Hn) as (t & (N & _) & H). refine (eff_grows _ _ _ _ _ _ _ _ D); [rewrite X; apply eff_float64; auto|apply pts_app; auto; apply Pl; now apply plain_number].
  - destruct (encodeString_eff str (sm_html s) K) as (body & H & us & _ & P & _). refine (eff_grows _ _ _ _ _ _ _ _ D); [rewrite X; apply eff_string; exact H| ].
    apply pts_app; auto. now apply pts_quote.
  - destruct (encodeString_eff str (sm_html s) K) as (body & H & us & _ & P & _). refine (eff_grows _ _ _ _ _ _ _ _ D); [rewrite X; apply eff_field; exact H| ].
    apply pts_app; auto. change (34 :: body ++ [34; 58]) with ((34 :: body) ++ [34; 58]).
    replace ((34 :: body) ++ [34; 58]) with ((34 :: body ++ [34]) ++ [58]) by (simpl; now rewrite <- app_assoc).
    apply pts_app; [now apply pts_quote|]. apply Pl. plainLit.
  - refine (eff_grows _ _ _ _ _ _ _ _ D); [rewrite X; apply eff_rawField| ]. apply pts_app; auto. apply pts_app; auto. apply Pl. plainLit.
  - refine (eff_grows _ _ _ _ _ _ _ _ D); [rewrite X; apply eff_objectStart|apply pts_app; auto; apply Pl; plainLit].
  - refine (eff_grows _ _ _ _ _ _ _ _ D); [rewrite X; apply eff_objectEnd|apply Pl; plainLit].
  - refine (eff_grows _ _ _ _ _ _ _ _ D); [rewrite X; apply eff_arrayStart|apply pts_app; auto; apply Pl; plainLit].
  - refine (eff_grows _ _ _ _ _ _ _ _ D); [rewrite X; apply eff_arrayEnd|apply Pl; plainLit].
  - contradiction.
  - refine (eff_grows _ _ _ _ _ _ _ _ D); [rewrite X; apply eff_setError|apply pts_nil].
Qed.

(** ** Encoders *)
Definition safe (T : ty) (h : bool) (v : gval) : Prop := typed T v /\ forall t, carries T v t -> pts h t.
Definition good (e : encoder) (T : ty) : Prop := forall ptr q s s', (forall v, ptr = Some v -> safe T (sm_html s) v) ->
  en_Encode _ _ _ e ptr q s = SOk s' -> grows s s'.
Lemma sbind_grows r f s s' : (r >>> f) = SOk s' -> (forall s1, r = SOk s1 -> grows s s1 /\ forall s2, f s1 = SOk s2 -> grows s1 s2) -> grows s s'.
Proof.
  intros H K. destruct r as [s1| |]; try discriminate. simpl in H. destruct (K s1 eq_refl) as (A & B). eapply grows_trans; eauto.
Qed.
Lemma null_grows s s' : docall SNull s = SOk s' -> grows s s'.
Proof. apply docall_grows. exact I. Qed.
Lemma orNull_grows f ptr q s s' : orNull F32 F64 C G32 G64 f ptr q s = SOk s' ->
  (forall v, ptr = Some v -> f v q s = SOk s' -> grows s s') -> grows s s'.
Proof. intros H K. destruct ptr as [v|]; [now apply (K v)|now apply null_grows]. Qed.
Lemma ifNoError_grows f s s' : ifNoError f s = SOk s' -> (f s = SOk s' -> grows s s') -> grows s s'.
Proof. unfold ifNoError. intros H K. destruct (sm_error s); [injection H as <-; apply grows_refl|auto]. Qed.
Lemma string_grows str s s' : is_bytes str -> docall (SString str) s = SOk s' -> grows s s'.
Proof. intros B. now apply docall_grows. Qed.
Lemma raw_grows t s s' : pts (sm_html s) t -> docall (SRaw t) s = SOk s' -> grows s s'.
Proof. intros B. now apply docall_grows. Qed.
Lemma putJSON_grows r s s' : (forall t, r = inl t -> pts (sm_html s) t) -> putJSON G32 G64 r s = SOk s' -> grows s s'.
Proof. intros H K. destruct r as [t|e]; simpl in K; [apply raw_grows in K; auto|injection K as <-; apply grows_error]. Qed.
Lemma putText_grows r s s' : (forall t, r = inl t -> is_bytes t) -> putText G32 G64 r s = SOk s' -> grows s s'.
Proof. intros H K. destruct r as [t|e]; simpl in K; [apply string_grows in K; auto|injection K as <-; apply grows_error]. Qed.
Lemma encodeAll_grows {A} (f : A -> stm -> sres) l s s' : encodeAll f l s = SOk s' ->
  (forall x s1 s2, In x l -> sm_html s1 = sm_html s -> f x s1 = SOk s2 -> grows s1 s2) -> grows s s'.
Proof.
  revert s. induction l as [|x l IH]; intros s H K; [injection H as <-; apply grows_refl|]. simpl in H.
  destruct (f x s) as [s1| |] eqn:X; try discriminate. simpl in H. assert (G : grows s s1) by (eapply K; eauto; now left).
  destruct (sm_error s1); [injection H as <-; auto|]. apply grows_trans with s1; auto. apply IH; auto.
  intros y a b Hy Ha Hf. apply (K y); auto; [now right|]. destruct G as (? & _ & _ & G & _). congruence.
Qed.
Lemma list_grows e T l s s' : good e T -> (forall v, In v l -> safe T (sm_html s) v) ->
  (docall SArrayStart s >>> encodeAll (fun x => en_Encode _ _ _ e (Some x) false) l >>> docall SArrayEnd) = SOk s' -> grows s s'.
Proof.
  intros Ge Hl H. apply sbind_grows with (s := s) in H; auto. intros s1 H1. split.
  - apply sbind_grows with (s := s) in H1; auto. intros s2 H2. assert (G2 : grows s s2) by (apply docall_grows in H2; [auto|exact I]). split; auto.
    intros s3 H3. apply encodeAll_grows in H3; auto. intros x a b Hx Ha Hf. apply (Ge (Some x)) in Hf; auto. intros v [= <-].
    destruct G2 as (? & _ & _ & G2 & _). rewrite Ha, G2. auto.
  - intros s2 H2. apply docall_grows in H2; [auto|exact I].
Qed.
Lemma range_int signed w z : in_range signed w z -> StreamFacts.typed (F32 := G32) (F64 := G64) (if signed then SInt (toI w) z else SUint (toI w) z).
Proof. destruct signed, w; intros H; exact H. Qed.

Lemma good_bool : good (boolEncoder F32 F64 C G32 G64) TBool.
Proof.
  intros ptr q s s' S H. apply orNull_grows in H; auto. intros v -> K. destruct v; try discriminate.
  destruct q, b; simpl in K; [apply string_grows in K|apply string_grows in K|apply docall_grows in K|apply docall_grows in K]; auto; try exact I; apply bytes_dec; reflexivity.
Qed.
Lemma good_string : good (stringEncoder F32 F64 C G32 G64 cfgHTML) TString.
Proof.
  intros ptr q s s' S H. apply orNull_grows in H; auto. intros v -> K. destruct v; try discriminate.
  destruct (S _ eq_refl) as (Ty & _). inversion Ty as [| | | |? B| | | | | | | | | | | | | |? A|? ? ? A| |]; subst; try (destruct A; discriminate).
  destruct q; simpl in K; [|now apply string_grows in K].
  destruct (docall (SString s0) (newStm cfgHTML)) as [sub| |] eqn:X; try discriminate. simpl in K.
  apply string_grows in X; auto. destruct X as (out & X1 & X2 & _). simpl in X1. destruct (sm_error sub); [injection K as <-; apply grows_error|].
  apply string_grows in K; auto. rewrite X1. destruct X2 as (rs & -> & X2). clear - X2. induction X2 as [|r rs (Hr & _) X2 IH]; [constructor|].
  simpl. apply Forall_app. split; auto. now apply utf8_bytes.
Qed.

Ltac step H := first [apply ifNoError_grows in H; [exact H|]|apply orNull_grows in H; [exact H|]].
Lemma good_int signed w : good (intEncoder F32 F64 C G32 G64 signed w) (TInt signed w).
Proof.
  intros ptr q s s' S H. step H. intros v -> K. destruct v; try discriminate. destruct (S _ eq_refl) as (Ty & _).
  inversion Ty as [|? ? ? R| | | | | | | | | | | | | | | | |? A|? ? ? A| |]; subst; try (destruct A; discriminate).
  apply docall_grows in K; auto. pose proof (range_int _ _ _ R) as Q. destruct signed, q; exact Q.
Qed.
Lemma good_float32 : good (float32Encoder F32 F64 C G32 G64 e32) TFloat32.
Proof. intros ptr q s s' S H. step H. intros v -> K. destruct v; try discriminate. apply docall_grows in K; auto. exact I. Qed.
Lemma good_float64 : good (float64Encoder F32 F64 C G32 G64 e64) TFloat64.
Proof. intros ptr q s s' S H. step H. intros v -> K. destruct v; try discriminate. apply docall_grows in K; auto. exact I. Qed.
Lemma good_number : good (jsonNumberEncoder F32 F64 C G32 G64) TNumber.
Proof.
  intros ptr q s s' S H. step H. intros v -> K. destruct v as [| | | |str| | | | | | | |]; try discriminate. destruct (S _ eq_refl) as (_ & R).
  apply raw_grows in K; auto. destruct str; [apply pts_plain; plainLit|]. apply R. constructor. discriminate.
Qed.
Lemma good_raw : good (jsonRawMessageEncoder F32 F64 C G32 G64) TRaw.
Proof.
  intros ptr q s s' S H. step H. intros v -> K. destruct v as [| | | | |[d|]| | | | | | |]; try discriminate; destruct (S _ eq_refl) as (_ & R);
    apply raw_grows in K; auto; [apply R; constructor|apply pts_nil].
Qed.
Lemma good_bad T : good (notSupportedEncoder F32 F64 C G32 G64) T.
Proof. intros ptr q s s' S H. apply docall_grows in H; auto. exact I. Qed.
Lemma good_json T id : SpecEnc.user T id -> ma_json _ _ _ U id <> RNone -> good (jsonMarshalerEncoder F32 F64 C E U G32 G64 e32 e64 id) T.
Proof.
  intros Hu Hj ptr q s s' S H. step H. intros K. step K. intros v -> K2. destruct v; try discriminate. destruct (S _ eq_refl) as (_ & R).
  apply putJSON_grows in K2; auto. intros t Ht. apply R. eapply ca_json; eauto.
Qed.
Lemma good_text T id : good (textMarshalerEncoder F32 F64 C E U G32 G64 e32 e64 id) T.
Proof.
  intros ptr q s s' S H. step H. intros K. step K. intros v -> K2. destruct v; try discriminate.
  apply putText_grows in K2; auto. intros t Ht. eapply (su_text _ _ _ _ _ SU); eauto.
Qed.
Lemma good_pjson T id : SpecEnc.user (under T) id -> ma_json _ _ _ U id <> RNone -> good (pointerJSONMarshalerEncoder F32 F64 C U G32 G64 id) (TPtr T).
Proof.
  intros Hu Hj ptr q s s' S H. step H. intros K. step K. intros v -> K2. destruct v as [| | | | | | |[v|]| | | | |]; try discriminate; [|now apply null_grows].
  destruct v; try discriminate. destruct (S _ eq_refl) as (_ & R).
  apply putJSON_grows in K2; auto. intros t Ht. apply R. constructor.
  destruct T; try (eapply ca_json; eauto; fail). constructor. eapply ca_json; eauto.
Qed.
Lemma good_ptext T id : good (pointerTextMarshalerEncoder F32 F64 C U G32 G64 id) T.
Proof.
  intros ptr q s s' S H. step H. intros K. step K. intros v -> K2. destruct v as [| | | | | | |[v|]| | | | |]; try discriminate; [|now apply null_grows].
  destruct v; try discriminate. apply putText_grows in K2; auto. intros t Ht. eapply (su_text _ _ _ _ _ SU); eauto.
Qed.
Lemma method_carries has0 m T v r : methodCall F32 F64 C E has0 m T v = Some r ->
  exists id x, r = m id x /\ has0 id <> RNone /\
    forall t, ma_json _ _ _ U id <> RNone -> ma_MarshalJSON _ _ _ U id x = inl t -> carries T v t.
Proof.
  unfold methodCall, userOf. intros H.
  assert (A : forall id x, SpecEnc.user (under T) id -> forall t, ma_json _ _ _ U id <> RNone -> ma_MarshalJSON _ _ _ U id x = inl t -> carries T (VObj x) t).
  { intros id x Hu t H1 H2. destruct T; try (eapply ca_json; eauto; fail). constructor. eapply ca_json; eauto. }
  assert (P : forall T' x t0, T = TPtr T' -> v = VPtr (Some (VObj x)) -> t0 = under T' ->
    match (match t0 with TJson id | TText id => Some id | _ => None end) with Some id => match has0 id with RNone => None | _ => Some (m id x) end | None => None end = Some r ->
    exists id y, r = m id y /\ has0 id <> RNone /\
    forall t, ma_json _ _ _ U id <> RNone -> ma_MarshalJSON _ _ _ U id y = inl t -> carries T v t).
  { intros T' x t0 -> -> Et K. destruct t0 as [| | | | | | |id|id| | | | | | | | |]; try discriminate; exists id, x;
      (destruct (has0 id) eqn:X; [discriminate| |]; injection K as <-; (split; [reflexivity|]); (split; [discriminate|]);
       intros t H1 H2; constructor; (destruct T'; try (eapply ca_json; eauto; (now left) || (now right))); simpl in Et;
       constructor; rewrite <- Et; eapply ca_json; eauto; (now left) || (now right)). }
  destruct (under T) as [| | | | | | |id|id| | | | | | | | |] eqn:X.
  all: try (destruct v as [| | | | | |x|[[| | | | | |y| | | | | |]|]| | | | |]; try discriminate; destruct T; try discriminate; (eapply P; [reflexivity|reflexivity|reflexivity|exact H])).
  all: destruct v as [| | | | | |x|[[| | | | | |y| | | | | |]|]| | | | |]; try discriminate.
  all: try (destruct T; try discriminate; (eapply P; [reflexivity|reflexivity|reflexivity|exact H])).
  all: exists id, x; destruct (has0 id) eqn:Y; try discriminate; injection H as <-; (split; [reflexivity|]); (split; [discriminate|]); intros t; apply A; try rewrite X; ((now left) || (now right)).
Qed.

Lemma iface_inv n T v : ma_dyn _ _ _ U n <> None -> forall t, carries T v t -> carries (TRef n) (VIface (Some (T, v))) t.
Proof. intros H t K. apply ca_ref. rewrite (nk_dyn _ _ _ _ _ NO _ H). apply ca_iface; auto. Qed.
Lemma good_djson n : ma_dyn _ _ _ U n <> None -> good (dynamicJSONMarshalerEncoder F32 F64 C E U G32 G64) (TRef n).
Proof.
  intros Hd ptr q s s' S H. step H. intros K. step K. intros v -> K2. destruct v as [| | | | | | | | | | | |[[T x]|]]; try discriminate; [|now apply null_grows].
  destruct (methodCall _ _ _ _ _ _ T x) as [r|] eqn:X; [|discriminate]. apply method_carries in X as (id & y & -> & A & B). destruct (S _ eq_refl) as (_ & R).
  apply putJSON_grows in K2; auto. intros t Ht. apply R. apply iface_inv; auto.
Qed.
Lemma good_dtext T : good (dynamicTextMarshalerEncoder F32 F64 C E U G32 G64) T.
Proof.
  intros ptr q s s' S H. step H. intros K. destruct ptr as [v|]; [|discriminate]. destruct v as [| | | | | | | | | | | |[[T' x]|]]; try discriminate; [|now apply null_grows].
  destruct (methodCall _ _ _ _ _ _ T' x) as [r|] eqn:X; [|discriminate]. apply method_carries in X as (id & y & -> & A & B).
  apply putText_grows in K; auto. intros t Ht. eapply (su_text _ _ _ _ _ SU); eauto.
Qed.
Lemma good_packed T : good (packedMarshalerEncoder F32 F64 C G32 G64) T.
Proof. intros ptr q s s' S H. step H. intros K. step K. intros v -> K2. discriminate. Qed.
Lemma good_ptr e T : good e T -> good (pointerEncoder F32 F64 C G32 G64 e) (TPtr T).
Proof.
  intros G ptr q s s' S H. step H. intros v -> K. destruct v as [| | | | | | |o| | | | |]; try discriminate. apply G in K; auto.
  intros v ->. destruct (S _ eq_refl) as (Ty & R). split.
  - inversion Ty as [| | | | | | | | | | | | | | | | | |? A|? ? ? A| |]; subst; auto; destruct A; discriminate.
  - intros t Ht. apply R. now constructor.
Qed.
Lemma good_direct e T : good e (TPtr T) -> good (directEncoder F32 F64 C e) T.
Proof.
  intros G ptr q s s' S H. simpl in H. apply G in H; auto. intros v [= <-]. destruct ptr as [v|].
  - destruct (S _ eq_refl) as (Ty & R). split; [now constructor|]. intros t Ht. inversion Ht; subst; auto;
      match goal with K : SpecEnc.user _ _ |- _ => destruct K; discriminate | _ => idtac end.
  - split; [constructor|]. intros t Ht. inversion Ht; subst.
Qed.
Lemma good_prefer e T : good e T -> good (preferPtrEncoder T e) T.
Proof.
  intros G. unfold ModelEnc.preferPtrEncoder, ModelEnc.special, userOf.
  destruct (under T) as [| | | | | | |id|id| | | | | | | | |] eqn:X; auto;
    (destruct (ma_json _ _ _ U id) eqn:J; [destruct (ma_text _ _ _ U id)| |]; auto; apply good_direct;
     [apply good_ptext|apply good_pjson; [rewrite X; (now left) || (now right)|congruence]]).
Qed.
Lemma elem_safe k T l v h : (exists n, k = TArray n T /\ v = VArr l) \/ (k = TSlice T /\ v = VSlice (Some l)) -> safe k h v ->
  forall x, In x l -> safe T h x.
Proof.
  intros [(n & -> & ->)|(-> & ->)] (Ty & R) x Hx.
  - inversion Ty as [| | | | | | | | | | | |? ? A| | | | | |? A|? ? ? A| |]; subst; try (destruct A; discriminate). rewrite Forall_forall in A. split; auto.
    intros t Ht. apply R. eapply ca_array; eauto.
  - inversion Ty as [| | | | | | | | | | | | | |? ? A| | | |? A|? ? ? A| |]; subst; try (destruct A; discriminate). rewrite Forall_forall in A. split; auto.
    intros t Ht. apply R. eapply ca_slice; eauto.
Qed.
Lemma good_array e T n : good e T -> good (arrayEncoder F32 F64 C G32 G64 e) (TArray n T).
Proof.
  intros G ptr q s s' S H. step H. intros v -> K. destruct v as [| | | | | | | |l| | | |]; try discriminate.
  apply (list_grows e T) in K; auto. eapply elem_safe; [|now apply S]. left. exists n. auto.
Qed.
Lemma good_slice e T : good e T -> good (sliceEncoder F32 F64 C G32 G64 e) (TSlice T).
Proof.
  intros G ptr q s s' S H. step H. intros K. step K. intros v -> K2. destruct v as [| | | | | | | | |[[|x l]|]| | |]; try discriminate.
  - apply raw_grows in K2; auto. apply pts_plain. plainLit.
  - apply (list_grows e T (x :: l)) in K2; auto. eapply elem_safe; [|now apply S]. right. auto.
  - now apply null_grows.
Qed.
Lemma bytes_typed T l b : under T = TInt false W8 -> Forall (typed T) l -> bytesOf F32 F64 C l = Some b -> is_bytes b.
Proof.
  intros Hu H. revert b. induction H as [|v l Hv H IH]; intros b K; simpl in K; [injection K as <-; constructor|].
  destruct v; try discriminate. destruct (bytesOf _ _ _ l) as [r|]; [|discriminate]. injection K as <-. constructor; [|now apply IH].
  apply typed_under in Hv. rewrite Hu in Hv. inversion Hv as [|? ? ? R| | | | | | | | | | | | | | | | |? A|? ? ? A| |]; subst; try (destruct A; discriminate). exact R.
Qed.
Lemma good_base64 T : under T = TInt false W8 -> good (base64Encoder F32 F64 C G32 G64) (TSlice T).
Proof.
  intros Hu ptr q s s' S H. step H. intros K. step K. intros v -> K2. destruct v as [| | | | | | | | |[l|]| | |]; try discriminate; [|now apply null_grows].
  destruct (bytesOf _ _ _ l) as [src|] eqn:X; [|discriminate]. injection K2 as <-. destruct (S _ eq_refl) as (Ty & _).
  assert (B : is_bytes src).
  { inversion Ty as [| | | | | | | | | | | | | |? ? A| | | |? A|? ? ? A| |]; subst; try (destruct A; discriminate). eapply bytes_typed; eauto. }
  assert (Q : forall a t, Forall plainc t -> grows s a -> grows s (ModelStream.put t a)).
  { intros a t Ht Ha. eapply grows_trans; [exact Ha|]. apply grows_put. now apply pts_plain. }
  apply Q; [plainLit|]. apply Q; [|apply Q; [plainLit|apply grows_onVal]]. destruct src; [constructor|]. eapply plain_base64. now apply b64encode_spec.
Qed.
(** keys *)
Definition goodKey (k : kty) (e : keyEncoder) : Prop := forall key s s', typed_key k key -> e key s = SOk s' -> grows s s'.
Lemma putKey_grows b s s' : is_bytes b -> putKey G32 G64 b s = SOk s' -> grows s s'.
Proof.
  intros B H. unfold putKey in H. destruct (docall (SString b) s) as [s1| |] eqn:X; try discriminate. injection H as <-.
  apply grows_trans with s1; [now apply string_grows in X|]. eapply grows_trans; [|apply grows_poped]. apply grows_put, pts_plain. plainLit.
Qed.
Lemma putKeyText_grows r s s' : (forall t, r = inl t -> is_bytes t) -> putKeyText G32 G64 r s = SOk s' -> grows s s'.
Proof. intros H K. destruct r as [t|e]; simpl in K; [apply putKey_grows in K; auto|injection K as <-; apply grows_error]. Qed.
Lemma good_key k e : newKeyEncoder F32 F64 C U G32 G64 k = Some e -> goodKey k e.
Proof.
  assert (Str : forall k e, (forall s, typed_key k (KS s) -> is_bytes s) -> kindKeyEncoder G32 G64 KKString = Some e -> goodKey k e).
  { intros k0 e0 Hk [= <-] key s s' Ty H. destruct key; try discriminate. apply docall_grows in H; auto. simpl. auto. }
  assert (Int : forall k e sg w, (forall z, typed_key k (KI z) -> in_range sg w z) -> kindKeyEncoder G32 G64 (KKInt sg w) = Some e -> goodKey k e).
  { intros k0 e0 sg w Hk [= <-] key s s' Ty H. destruct key; try discriminate. step H. intros K. pose proof (range_int _ _ _ (Hk _ Ty)) as R.
    assert (X : exists u, Forall plainc u /\ (if sg then appendInt (toI w) [34] z else appendUint (toI w) [34] z) = Some ([34] ++ u)).
    { destruct sg; [destruct (appendInt_numeral _ _ R) as (u & N & Q)|destruct (appendUint_numeral _ _ R) as (u & N & Q)]; exists u; (split; [now apply plain_numeral with z|apply Q]). }
    destruct X as (u & Pu & X). rewrite X in K. apply docall_grows in K; auto. apply pts_plain. apply Forall_app. split; [apply Forall_app; split; [plainLit|auto]|plainLit]. }
  assert (Txt : forall k id, goodKey k (textMarshalerKeyEncoder F32 F64 C U G32 G64 id)).
  { intros k0 id key s s' Ty H. step H. intros K. apply putKeyText_grows in K; auto. intros t. apply (su_keys _ _ _ _ _ SU). }
  assert (Dir : forall k id, goodKey k (directTextMarshalerKeyEncoder F32 F64 C U G32 G64 id)).
  { intros k0 id key s s' Ty H. step H. intros K. destruct (ma_keyNil _ _ _ U id key); [apply putKey_grows in K; auto; constructor|].
    apply putKeyText_grows in K; auto. intros t. apply (su_keys _ _ _ _ _ SU). }
  assert (Pk : forall k, goodKey k packedKeyEncoder).
  { intros k0 key s s' Ty H. step H. discriminate. }
  intros H. destruct k as [|sg w|[|sg w|] u [[id []]|]]; simpl in H;
    first [discriminate|eapply Str; [|exact H]; intros; assumption|eapply Int; [|exact H]; intros; assumption|injection H as <-; auto].
Qed.
Lemma good_map e ke k T : goodKey k ke -> good e T -> good (mapEncoder F32 F64 C G32 G64 ke e) (TMap k T).
Proof.
  intros Gk G ptr q s s' S H. step H. intros K. step K. intros v -> K2. destruct v as [| | | | | | | | | |[m|]| |]; try discriminate; [|now apply null_grows].
  destruct (S _ eq_refl) as (Ty & R).
  assert (A : forall key v, In (key, v) m -> typed_key k key /\ safe T (sm_html s) v).
  { inversion Ty as [| | | | | | | | | | | | | | | |? ? ? N A1 A2| |? A|? ? ? A| |]; subst; try (destruct A; discriminate). rewrite Forall_forall in A1, A2.
    intros key v Hi. split; [apply A1; now apply in_map with (f := fst) in Hi|]. split; [apply A2; now apply in_map with (f := snd) in Hi|].
    intros t Ht. apply R. eapply ca_map; eauto. }
  apply sbind_grows with (s := s) in K2; auto. intros s1 H1. split.
  - apply sbind_grows with (s := s) in H1; auto. intros s2 H2. assert (G2 : grows s s2) by (apply docall_grows in H2; [auto|exact I]). split; auto.
    intros s3 H3. apply encodeAll_grows in H3; auto. intros [key v] a b Hx Ha Hf. destruct (A _ _ Hx) as (A1 & A2). cbn [fst snd] in Hf.
    apply sbind_grows with (s := a) in Hf; auto. intros c Hc. apply Gk in Hc; auto. split; auto. intros d Hd.
    destruct (sm_error c); [injection Hd as <-; apply grows_refl|]. apply (G (Some v)) in Hd; auto. intros v' [= <-].
    destruct G2 as (? & _ & _ & G2 & _). destruct Hc as (? & _ & _ & Hc & _). rewrite Hc, Ha, G2. auto.
  - intros s2 H2. apply docall_grows in H2; [auto|exact I].
Qed.
Lemma good_struct fs layout n : sound (TStruct layout fs) -> (forall T, sound T -> good (encode n T) T) ->
  good (structEncoder F32 F64 C G32 G64 (map (fun fd => addField F32 F64 C fd (preferPtrEncoder (f_type fd) (encode n (f_type fd)))) fs)) (TStruct layout fs).
Proof.
  intros Sd IH ptr q s s' S H. step H. intros K. step K. intros v -> K2. destruct (S _ eq_refl) as (Ty & R).
  apply sbind_grows with (s := s) in K2; auto. intros s1 H1. split.
  - apply sbind_grows with (s := s) in H1; auto. intros s2 H2. assert (G2 : grows s s2) by (apply docall_grows in H2; [auto|exact I]). split; auto.
    intros s3 H3. apply encodeAll_grows in H3; auto. intros fi a b Hx Ha Hf. apply in_map_iff in Hx as (fd & <- & Hx).
    assert (Q : is_bytes (f_name fd) /\ route (TStruct layout fs) (f_path fd) (f_type fd)).
    { inversion Sd as [? A| | | | |? ? A B]; subst; [destruct A|auto]. }
    destruct Q as (Bn & Ro). unfold encodeField in Hf. cbn [addField ModelEnc.ef_path ModelEnc.ef_omit ModelEnc.ef_enc ModelEnc.ef_safe ModelEnc.ef_raw ModelEnc.ef_quoted] in Hf.
    destruct (reach _ _ _ (f_path fd) v) as [[x|]|] eqn:X; try discriminate; [|injection Hf as <-; apply grows_refl].
    destruct (if f_omitEmpty fd then _ else _) as [[|]|]; try discriminate; [injection Hf as <-; apply grows_refl|].
    destruct (route_typed _ _ _ Ro _ _ Ty X) as (Tx & Lx).
    assert (Nm : forall name, (if sm_html a then encodeString [] (f_name fd) true else encodeString [] (f_name fd) false) = Some name -> pts (sm_html a) name).
    { intros name Hn. destruct (encodeString_eff (f_name fd) (sm_html a) Bn) as (body & Hb & us & _ & P & _). specialize (Hb []).
      change ([] ++ 34 :: body ++ [34]) with (34 :: body ++ [34]) in Hb.
      assert (name = 34 :: body ++ [34]) as -> by (destruct (sm_html a); rewrite Hn in Hb; now injection Hb). now apply pts_quote. }
    destruct (if sm_html a then _ else _) as [name|] eqn:Y; [|discriminate]. specialize (Nm _ eq_refl).
    apply sbind_grows with (s := a) in Hf; auto. intros c Hc. apply docall_grows in Hc; auto. split; auto. intros d Hd.
    apply (good_prefer _ _ (IH (f_type fd) (route_sound _ _ _ Ro Sd)) (Some x)) in Hd; auto. intros v' [= <-].
    destruct G2 as (? & _ & _ & G2 & _). destruct Hc as (? & _ & _ & Hc & _). rewrite Hc, Ha, G2. split; auto.
    intros t Ht. apply R. eapply ca_struct; eauto.
  - intros s2 H2. apply docall_grows in H2; [auto|exact I].
Qed.
Lemma good_kind id e T : SpecEnc.user T id -> good e (ma_under _ _ _ U id) -> good (byKind F32 F64 C U id e) T.
Proof.
  intros Hu G ptr q s s' S H. simpl in H. destruct ptr as [v|]; [destruct v; try discriminate|].
  - apply G in H; auto. intros v [= <-]. destruct (S _ eq_refl) as (_ & R). split; [apply (su_repr _ _ _ _ _ SU)|]. intros t Ht. apply R. eapply ca_user; eauto.
  - apply G in H; auto. discriminate.
Qed.
Lemma value_grows n o q s s' : (forall T, sound T -> good (encode n T) T) -> (forall T v, o = Some (T, v) -> sound T /\ safe T (sm_html s) v) ->
  encValue F32 F64 C E U G32 G64 n (encode n) o q s = SOk s' -> grows s s'.
Proof.
  intros IH S H. unfold encValue in H. step H. intros K. destruct o as [[T v]|]; [|now apply null_grows]. destruct (S _ _ eq_refl) as (Sd & Sv).
  destruct (if isEmptyStruct _ _ _ _ _ T then _ else _) as [[|]|]; try discriminate.
  - apply (IH T Sd None) in K; auto. discriminate.
  - apply (IH T Sd (Some v)) in K; auto. now intros v' [= <-].
Qed.
Lemma good_iface n T : T = TEface \/ T = TIface -> (forall T, sound T -> good (encode n T) T) ->
  good (interfaceEncoder F32 F64 C E U G32 G64 n (encode n)) T.
Proof.
  intros HT IH ptr q s s' S H. step H. intros v -> K. destruct v as [| | | | | | | | | | | |o]; try discriminate. apply value_grows in K; auto.
  intros T' v ->. destruct (S _ eq_refl) as (Ty & R).
  assert (Q : sound T' /\ typed T' v) by (destruct HT as [-> | ->]; inversion Ty; subst; auto). destruct Q as (Q1 & Q2).
  split; auto. split; auto. intros t Ht. apply R. now apply ca_iface.
Qed.
Lemma good_ref e n : good e (te_type _ _ _ E n) -> good e (TRef n).
Proof.
  intros G ptr q s s' S H. apply G in H; auto. intros v ->. destruct (S _ eq_refl) as (Ty & R). split.
  - inversion Ty as [| | | | | | | | | | | | | | | | | |? A|? ? ? A| |]; subst; auto; destruct A; discriminate.
  - intros t Ht. apply R. now apply ca_ref.
Qed.
Theorem encode_tidy n : forall T, sound T -> good (encode n T) T.
Proof.
  induction n as [|n IH]; intros T Sd; [intros ptr q s s' S H; discriminate|].
  assert (Us : forall T id, SpecEnc.user T id -> good
    (match ma_json _ _ _ U id, ma_text _ _ _ U id with
     | RValue, _ => jsonMarshalerEncoder F32 F64 C E U G32 G64 e32 e64 id
     | _, RValue => textMarshalerEncoder F32 F64 C E U G32 G64 e32 e64 id
     | _, _ => byKind F32 F64 C U id (encode n (ma_under _ _ _ U id))
     end) T).
  { intros T0 id Hu. assert (K : good (byKind F32 F64 C U id (encode n (ma_under _ _ _ U id))) T0) by (apply good_kind; auto; apply IH, (su_type _ _ _ _ _ SU)).
    destruct (ma_json _ _ _ U id) eqn:J, (ma_text _ _ _ U id); auto using good_text; apply good_json; congruence || auto. }
  destruct T as [|sg w| | | | | |id|id|T|m T|T|k T|layout fs| | |r|]; cbn [ModelEnc.encode].
  - apply good_bool.
  - apply good_int.
  - apply good_float32.
  - apply good_float64.
  - apply good_string.
  - apply good_number.
  - apply good_raw.
  - apply Us. now left.
  - apply Us. now right.
  - assert (ST : sound T) by (now inversion Sd as [? K| | | | |]; subst; [destruct K|]).
    unfold ModelEnc.special, userOf. destruct (under T) as [| | | | | | |id|id| | | | | | | | |] eqn:X; try (apply good_ptr, IH, ST).
    all: destruct (ma_json _ _ _ U id) eqn:J; [destruct (ma_text _ _ _ U id)| |]; try (apply good_ptr, IH, ST).
    all: (apply good_ptext) || (apply good_pjson; [rewrite X; (now left) || (now right)|congruence]).
  - assert (ST : sound T) by (now inversion Sd as [? K| | | | |]; subst; [destruct K|]).
    destruct m as [|m].
    + intros ptr q s s' S H. step H. intros v -> K. apply raw_grows in K; auto. apply pts_plain. plainLit.
    + apply good_array, good_prefer, IH, ST.
  - assert (ST : sound T) by (now inversion Sd as [? K| | | | |]; subst; [destruct K|]).
    destruct (under T) as [|[] []| | | | | | | | | | | | | | | |] eqn:X; try (apply good_slice, good_prefer, IH, ST). now apply good_base64.
  - assert (ST : sound T) by (now inversion Sd as [? K| | | | |]; subst; [destruct K|]).
    destruct (newKeyEncoder F32 F64 C U G32 G64 k) as [ke|] eqn:X; [|apply good_bad]. apply good_map; [now apply good_key|now apply IH].
  - destruct fs as [|fd fs].
    + intros ptr q s s' S H. step H. intros v -> K. apply raw_grows in K; auto. apply pts_plain. plainLit.
    + now apply good_struct.
  - apply good_iface; auto.
  - apply good_iface; auto.
  - destruct (ma_dyn _ _ _ U r) as [[]|] eqn:X; try apply good_packed.
    + apply good_djson. congruence.
    + apply good_dtext.
    + apply good_ref. pose proof (proj1 (SE r)) as Sr. destruct (te_type _ _ _ E r) as [| | | | | | | | |T| | | | | | | |] eqn:Y; try (now apply IH).
      apply good_ptr, IH. now inversion Sr as [? K| | | | |]; subst; [destruct K|].
  - apply good_bad.
Qed.
End Tidy.
