(** The streamer: floats, calls, trees, Flush, Encoder. *)
From Coq Require Import String ZArith List Bool Lia.
From Verif Require Import Base Spec SpecStream ModelStream StreamIntFacts StreamStrFacts.
Import ListNotations.
Local Open Scope Z_scope.

(** ** Floats *)
(** what strconv.AppendFloat is documented to give *)
Record fmt_sane (F : floatFmt) : Prop := {
  fs_fixed f : ff_inf F f = false -> ff_nan F f = false -> fixed_text (ff_append F f 102);
  fs_expo f : ff_inf F f = false -> ff_nan F f = false -> expo_text (ff_append F f 101)
}.

Lemma split_at_app p a x b : Forall (fun c => p c = false) a -> p x = true -> split_at p (a ++ x :: b) = (a, x :: b).
Proof. intros H X. induction H as [|c a Hc H IH]; simpl; [now rewrite X|]. now rewrite Hc, IH. Qed.
Lemma frac_not f : frac_part f -> Forall (fun c => ((c =? 101) || (c =? 69)) = false) f.
Proof.
  intros [|l [_ H]]; [constructor|]. constructor; [reflexivity|]. eapply Forall_impl; [|exact H].
  unfold is_digit. intros. lia.
Qed.
Lemma digit_int d : is_digit d -> int_part [d].
Proof. unfold is_digit. intros H. destruct (Z.eq_dec d 48) as [->|]; constructor; lia || constructor. Qed.

Lemma unsigned_expo d f s e : is_digit d -> frac_part f ->
  unsigned_value (d :: f ++ 101 :: s :: e)
  = (let '(i, g) := split_at (fun c => c =? 46) (d :: f) in
     (dec (i ++ tl g), exp_value (101 :: s :: e) - Z.of_nat (length (tl g)))).
Proof.
  intros D Fr. unfold unsigned_value.
  change (d :: f ++ 101 :: s :: e) with ((d :: f) ++ 101 :: s :: e). rewrite split_at_app; auto.
  constructor; [unfold is_digit in D; lia|now apply frac_not].
Qed.
Lemma not_minus d l : is_digit d -> num_value (d :: l) = unsigned_value (d :: l).
Proof.
  unfold is_digit. intros H. unfold num_value. destruct d as [|p|p]; auto.
  repeat (destruct p as [p|p|]; auto; try lia).
Qed.

Lemma cleanExponent_tail l p q x y :
  cleanExponent (l ++ [p; q; x; y]) =
  if (0 <? length l)%nat && (p =? 101) && (q =? 45) && (x =? 48) then l ++ [p; q; y] else l ++ [p; q; x; y].
Proof.
  unfold cleanExponent. rewrite app_length. simpl length.
  replace (length l + 4 - 4)%nat with (length l) by lia. replace (length l + 4 - 3)%nat with (length l + 1)%nat by lia.
  replace (length l + 4 - 2)%nat with (length l + 2)%nat by lia. replace (length l + 4 - 1)%nat with (length l + 3)%nat by lia.
  rewrite !app_nth2 by lia. replace (length l - length l)%nat with 0%nat by lia.
  replace (length l + 1 - length l)%nat with 1%nat by lia. replace (length l + 2 - length l)%nat with 2%nat by lia.
  replace (length l + 3 - length l)%nat with 3%nat by lia. cbn [nth].
  replace (4 <? length l + 4)%nat with (0 <? length l)%nat by (destruct (Nat.ltb_spec 0 (length l)), (Nat.ltb_spec 4 (length l + 4)); auto; lia).
  destruct (_ && _ && _ && _); auto.
  rewrite firstn_app. replace (length l + 2 - length l)%nat with 2%nat by lia.
  rewrite firstn_all2 by lia. simpl. now rewrite <- app_assoc.
Qed.

(** the exponent with its leading zero removed *)
Definition cleaned (a t : bytes) : Prop :=
  (exists m d, a = m ++ [101; 45; 48; d] /\ t = m ++ [101; 45; d]) \/
  (t = a /\ forall m d, a <> m ++ [101; 45; 48; d]).

Lemma expo_number t : expo_text t -> number t.
Proof.
  intros [m d f s e Hm Hd Hf Hs He Hl].
  assert (U : unsigned_number ([d] ++ f ++ 101 :: s :: e)).
  { constructor; auto; [now apply digit_int|]. apply ep_sign; auto. split; auto. destruct e; simpl in Hl; [lia|discriminate]. }
  destruct Hm as [-> | ->]; [now apply num_pos|now apply num_neg].
Qed.
Lemma fixed_number t : fixed_text t -> number t.
Proof.
  intros [i f Hi Hf|i f Hi Hf].
  - apply num_pos. rewrite <- (app_nil_r (i ++ f)), <- app_assoc. constructor; auto. constructor.
  - apply num_neg. rewrite <- (app_nil_r (i ++ f)), <- app_assoc. constructor; auto. constructor.
Qed.

Lemma rev_last4 (e : bytes) : (3 <= length e)%nat -> exists e' q x y, e = e' ++ [q; x; y].
Proof.
  intros H. destruct (exists_last (l := e)) as (e1 & y & ->); [destruct e; simpl in H; [lia|discriminate]|].
  rewrite app_length in H. simpl in H.
  destruct (exists_last (l := e1)) as (e2 & x & ->); [destruct e1; simpl in H; [lia|discriminate]|].
  rewrite app_length in H. simpl in H.
  destruct (exists_last (l := e2)) as (e3 & q & ->); [destruct e2; simpl in H; [lia|discriminate]|].
  exists e3, q, x, y. now rewrite <- !app_assoc.
Qed.
Lemma last_split (s : Z) (e : bytes) : exists h p, s :: e = h ++ [p] /\ (p = s \/ In p e).
Proof.
  destruct (exists_last (l := s :: e)) as (h & p & E); [discriminate|]. exists h, p. split; auto.
  assert (In p (s :: e)) by (rewrite E; apply in_or_app; right; now left). simpl in H. intuition.
Qed.

Theorem cleanExponent_ok b a : expo_text a ->
  exists t, cleanExponent (b ++ a) = b ++ t /\ cleaned a t /\ number t /\ num_value t = num_value a.
Proof.
  intros X. pose proof (expo_number _ X) as Na. destruct X as [m d f s e Hm Hd Hf Hs He Hl].
  destruct (Nat.eq_dec (length e) 2) as [L2|L3].
  - destruct e as [|x [|y [|? ?]]]; try discriminate L2.
    assert (E : b ++ m ++ d :: f ++ [101; s; x; y] = (b ++ m ++ d :: f) ++ [101; s; x; y]) by (rewrite <- !app_assoc; reflexivity).
    rewrite E, cleanExponent_tail.
    replace (0 <? length (b ++ m ++ d :: f))%nat with true by (rewrite !app_length; simpl; symmetry; apply Nat.ltb_lt; lia).
    cbn [andb Z.eqb Pos.eqb].
    destruct ((s =? 45) && (x =? 48)) eqn:C.
    + assert (s = 45) by lia. assert (x = 48) by lia. subst s x.
      assert (Hy : is_digit y) by (inversion He as [|? ? _ Hy']; inversion Hy'; auto).
      exists (m ++ d :: f ++ [101; 45; y]). split; [|split; [|split]].
      * rewrite <- !app_assoc. reflexivity.
      * left. exists (m ++ d :: f), y. rewrite <- !app_assoc. auto.
      * assert (U : unsigned_number ([d] ++ f ++ [101; 45; y])).
        { constructor; auto; [now apply digit_int|]. apply ep_sign; auto. split; [discriminate|]. now constructor. }
        destruct Hm as [-> | ->]; [now apply num_pos|now apply num_neg].
      * assert (V : unsigned_value (d :: f ++ [101; 45; y]) = unsigned_value (d :: f ++ [101; 45; 48; y])).
        { rewrite !unsigned_expo by auto. destruct (split_at _ _) as [i g].
          replace (exp_value [101; 45; 48; y]) with (exp_value [101; 45; y]); auto.
          }
        destruct Hm as [-> | ->]; cbn [app]; [rewrite !not_minus by auto; exact V|].
        unfold num_value. now rewrite V.
    + exists (m ++ d :: f ++ [101; s; x; y]). split; [|split; [|split]]; auto.
      * right. split; auto. intros m2 d2 K.
        assert (K' : (m ++ d :: f) ++ [101; s; x; y] = m2 ++ [101; 45; 48; d2]) by (rewrite <- app_assoc; exact K).
        apply app_inj_tail_iff with (a := y) (b := d2) (x := (m ++ d :: f) ++ [101; s; x]) (y := m2 ++ [101; 45; 48]) in K'
          || (rewrite (app_assoc _ [101; s; x] [y]), (app_assoc _ [101; 45; 48] [d2]) in K'; apply app_inj_tail in K').
        destruct K' as [K' _].
        rewrite (app_assoc _ [101; s] [x]), (app_assoc _ [101; 45] [48]) in K'. apply app_inj_tail in K' as [K' ->].
        rewrite (app_assoc _ [101] [s]), (app_assoc _ [101] [45]) in K'. apply app_inj_tail in K' as [_ ->].
        discriminate C.
  - destruct (rev_last4 e ltac:(lia)) as (e' & q & x & y & Ee).
    destruct (last_split s e') as (h & p & Eh & Hp).
    assert (P : p <> 101).
    { destruct Hp as [-> | Hp]; [lia|]. subst e. apply Forall_app in He as [He _].
      rewrite Forall_forall in He. specialize (He p Hp). unfold is_digit in He. lia. }
    assert (E : m ++ d :: f ++ 101 :: s :: e = (m ++ d :: f ++ 101 :: h) ++ [p; q; x; y]).
    { subst e. rewrite <- !app_assoc. f_equal. cbn [app]. f_equal. rewrite <- app_assoc. f_equal. cbn [app]. f_equal.
      change (s :: e' ++ [q; x; y]) with ((s :: e') ++ [q; x; y]). rewrite Eh, <- app_assoc. reflexivity. }
    exists (m ++ d :: f ++ 101 :: s :: e). split; [|split; [|split]]; auto.
    + rewrite E, app_assoc, cleanExponent_tail. replace (p =? 101) with false by lia. now rewrite andb_false_r.
    + right. split; auto. intros m2 d2 K. rewrite E in K.
      change [p; q; x; y] with ([p] ++ [q] ++ [x] ++ [y]) in K. change [101; 45; 48; d2] with ([101] ++ [45] ++ [48] ++ [d2]) in K.
      rewrite !app_assoc in K. apply app_inj_tail in K as [K _]. apply app_inj_tail in K as [K _].
      apply app_inj_tail in K as [K _]. apply app_inj_tail in K as [_ K]. auto.
Qed.

(** text that format 'f' or 'e' gives and what Float32/Float64 write *)
Definition float_text (F : floatFmt) (f : ff F) (t : bytes) : Prop :=
  number t /\ num_value t = num_value (ff_append F f (floatFormat F f)) /\
  cleaned (ff_append F f (floatFormat F f)) t.
Lemma fixed_no_e t : fixed_text t -> ~ In 101 t.
Proof.
  assert (D : forall l, digits l -> ~ In 101 l).
  { intros l H K. unfold digits in H. rewrite Forall_forall in H. specialize (H _ K). unfold is_digit in H. lia. }
  assert (I : forall i, int_part i -> ~ In 101 i).
  { intros i [|d l Hd Hl]; simpl; [intros [?|[]]; lia|intros [?|K]; [lia|exact (D _ Hl K)]]. }
  assert (Fr : forall f, frac_part f -> ~ In 101 f).
  { intros f [|l [_ Hl]]; simpl; [tauto|intros [?|K]; [lia|exact (D _ Hl K)]]. }
  intros [i f Hi Hf|i f Hi Hf]; simpl; rewrite in_app_iff; specialize (I _ Hi); specialize (Fr _ Hf); intuition lia.
Qed.
Theorem appendFloat_ok F (S : fmt_sane F) f : ff_inf F f = false -> ff_nan F f = false ->
  exists t, float_text F f t /\ forall b, appendFloat F b f = b ++ t.
Proof.
  intros Hi Hn. unfold float_text, appendFloat.
  assert (C : floatFormat F f = 101 \/ floatFormat F f = 102).
  { unfold floatFormat. destruct (ff_zero F f), (ff_pos F f), (ff_lt_small F f), (ff_ge_large F f), (ff_gt_neg_small F f), (ff_le_neg_large F f); simpl; auto. }
  destruct C as [-> | ->]; cbn [Z.eqb Pos.eqb].
  - pose proof (fs_expo F S f Hi Hn) as X. destruct (cleanExponent_ok [] _ X) as (t & E & C & N & V).
    exists t. split; auto. intros b. destruct (cleanExponent_ok b _ X) as (t' & E' & C' & _).
    rewrite E'. f_equal. clear - C C'. destruct C as [(m & d & E & ->)|[-> N]], C' as [(m' & d' & E' & ->)|[-> N']]; auto.
    + rewrite E in E'. change [101; 45; 48; d] with ([101; 45; 48] ++ [d]) in E'. change [101; 45; 48; d'] with ([101; 45; 48] ++ [d']) in E'.
      rewrite !app_assoc in E'. apply app_inj_tail in E' as [E' ->]. apply app_inv_tail in E' as ->. reflexivity.
    + now apply N' in E.
    + now apply N in E'.
  - pose proof (fs_fixed F S f Hi Hn) as X. exists (ff_append F f 102). split; auto.
    split; [now apply fixed_number|]. split; auto. right. split; auto. intros m d E.
    apply (fixed_no_e _ X). rewrite E. apply in_or_app. right. now left.
Qed.

(** ** Calls *)
Section Calls.
Context {F32 F64 : floatFmt}.
Variables (S32 : fmt_sane F32) (S64 : fmt_sane F64).
Notation scall := (scall F32 F64).

(** arguments in the range of their Go type *)
Definition in_int (w : iwidth) (v : Z) : Prop := - 2 ^ (ibits w - 1) <= v < 2 ^ (ibits w - 1).
Definition in_uint (w : iwidth) (v : Z) : Prop := 0 <= v < 2 ^ ibits w.
Definition typed (c : scall) : Prop :=
  match c with
  | SInt w v | SQInt w v => in_int w v
  | SUint w v | SQUint w v => in_uint w v
  | SString s | SField s => is_bytes s
  | _ => True
  end.

(** every call appends a text that does not depend on the buffer or the writer *)
Definition effect (c : scall) (e : option serr) (p h : bool) (t : bytes) (e' : option serr) (p' h' : bool) : Prop :=
  forall w b, call c (mkStm w b e p h) = Some (mkStm w (b ++ t) e' p' h').
Definition comma (p : bool) : bytes := if p then [44] else [].
Lemma onVal_eq w b e p h : onVal (mkStm w b e p h) = mkStm w (b ++ comma p) e true h.
Proof. unfold onVal, comma. destruct p; cbn; [reflexivity|]. unfold set_poped. cbn. now rewrite app_nil_r. Qed.

Lemma eff_error c e p h : exists h', effect c (Some e) p h [] (Some e) p h'.
Proof.
  exists (match c with SEscapeHTML on => on | _ => h end). intros w b. rewrite app_nil_r.
  destruct c as [| |[]| | | | | | | | | | | | | | |]; reflexivity.
Qed.
Lemma eff_raw t p h : effect (SRaw t) None p h (comma p ++ t) None true h.
Proof. intros w b. unfold call, guarded. simpl sm_error. cbv iota. rewrite onVal_eq. unfold put, set_buffer. simpl. now rewrite <- app_assoc. Qed.
Lemma eff_null p h : effect SNull None p h (comma p ++ bs "null") None true h.
Proof. intros w b. unfold call, guarded. simpl sm_error. cbv iota. rewrite onVal_eq. unfold put, set_buffer. simpl. now rewrite <- app_assoc. Qed.
Lemma eff_bool x p h : effect (SBool x) None p h (comma p ++ bs (if x then "true" else "false")) None true h.
Proof. intros w b. unfold call, guarded. destruct x; simpl sm_error; cbv iota; rewrite onVal_eq; unfold put, set_buffer; simpl; now rewrite <- app_assoc. Qed.
Lemma eff_int k v t p h : (forall b, appendInt k b v = Some (b ++ t)) -> effect (SInt k v) None p h (comma p ++ t) None true h.
Proof. intros H w b. unfold call, guarded. simpl sm_error. cbv iota. rewrite onVal_eq. unfold putOpt, set_buffer. cbn [sm_buffer]. rewrite H. simpl. now rewrite <- app_assoc. Qed.
Lemma eff_uint k v t p h : (forall b, appendUint k b v = Some (b ++ t)) -> effect (SUint k v) None p h (comma p ++ t) None true h.
Proof. intros H w b. unfold call, guarded. simpl sm_error. cbv iota. rewrite onVal_eq. unfold putOpt, set_buffer. cbn [sm_buffer]. rewrite H. simpl. now rewrite <- app_assoc. Qed.
Lemma eff_qint k v t p h : (forall b, appendInt k b v = Some (b ++ t)) -> effect (SQInt k v) None p h (comma p ++ 34 :: t ++ [34]) None true h.
Proof. intros H w b. unfold call, guarded. simpl sm_error. cbv iota. rewrite onVal_eq. unfold putOpt, put, set_buffer. cbn [sm_buffer]. rewrite H. simpl. now rewrite <- !app_assoc. Qed.
Lemma eff_quint k v t p h : (forall b, appendUint k b v = Some (b ++ t)) -> effect (SQUint k v) None p h (comma p ++ 34 :: t ++ [34]) None true h.
Proof. intros H w b. unfold call, guarded. simpl sm_error. cbv iota. rewrite onVal_eq. unfold putOpt, put, set_buffer. cbn [sm_buffer]. rewrite H. simpl. now rewrite <- !app_assoc. Qed.
Lemma eff_float32 f t p h : ff_inf F32 f = false -> ff_nan F32 f = false -> (forall b, appendFloat F32 b f = b ++ t) ->
  effect (SFloat32 f) None p h (comma p ++ t) None true h.
Proof. intros Hi Hn H w b. unfold call, guarded. simpl sm_error. cbv iota. rewrite Hi, Hn, onVal_eq. unfold set_buffer. cbn [sm_buffer]. cbv zeta. simpl. now rewrite H, <- app_assoc. Qed.
Lemma eff_float64 f t p h : ff_inf F64 f = false -> ff_nan F64 f = false -> (forall b, appendFloat F64 b f = b ++ t) ->
  effect (SFloat64 f) None p h (comma p ++ t) None true h.
Proof. intros Hi Hn H w b. unfold call, guarded. simpl sm_error. cbv iota. rewrite Hi, Hn, onVal_eq. unfold set_buffer. cbn [sm_buffer]. cbv zeta. simpl. now rewrite H, <- app_assoc. Qed.
Lemma eff_float32_bad f p h : ff_inf F32 f = true \/ ff_nan F32 f = true ->
  exists e, effect (SFloat32 f) None p h [] (Some e) p h /\ (e = ErrFloatIsInfinity \/ e = ErrFloatIsNan).
Proof.
  intros H. exists (if ff_inf F32 f then ErrFloatIsInfinity else ErrFloatIsNan).
  split; [|destruct (ff_inf F32 f); auto]. intros w b. unfold call, guarded. simpl sm_error. cbv iota. rewrite app_nil_r.
  destruct (ff_inf F32 f); [reflexivity|]. destruct H as [H|H]; [discriminate|]. now rewrite H.
Qed.
Lemma eff_float64_bad f p h : ff_inf F64 f = true \/ ff_nan F64 f = true ->
  exists e, effect (SFloat64 f) None p h [] (Some e) p h /\ (e = ErrFloatIsInfinity \/ e = ErrFloatIsNan).
Proof.
  intros H. exists (if ff_inf F64 f then ErrFloatIsInfinity else ErrFloatIsNan).
  split; [|destruct (ff_inf F64 f); auto]. intros w b. unfold call, guarded. simpl sm_error. cbv iota. rewrite app_nil_r.
  destruct (ff_inf F64 f); [reflexivity|]. destruct H as [H|H]; [discriminate|]. now rewrite H.
Qed.
Lemma eff_string s body p h : (forall b, encodeString b s h = Some (b ++ 34 :: body ++ [34])) ->
  effect (SString s) None p h (comma p ++ 34 :: body ++ [34]) None true h.
Proof. intros H w b. unfold call, guarded. simpl sm_error. cbv iota. rewrite onVal_eq. unfold putOpt, set_buffer. cbn [sm_buffer sm_html]. rewrite H. simpl. now rewrite <- app_assoc. Qed.
Lemma eff_field s body p h : (forall b, encodeString b s h = Some (b ++ 34 :: body ++ [34])) ->
  effect (SField s) None p h (comma p ++ 34 :: body ++ [34; 58]) None false h.
Proof.
  intros H w b. unfold call, guarded. simpl sm_error. cbv iota. rewrite onVal_eq. unfold putOpt, set_buffer. cbn [sm_buffer sm_html]. rewrite H.
  unfold set_poped, put, set_buffer. simpl. rewrite <- !app_assoc. simpl. now rewrite <- app_assoc.
Qed.
Lemma eff_rawField t p h : effect (SRawField t) None p h (comma p ++ t ++ [58]) None false h.
Proof. intros w b. unfold call, guarded. simpl sm_error. cbv iota. rewrite onVal_eq. unfold set_poped, put, set_buffer. simpl. now rewrite <- app_assoc. Qed.
Lemma eff_objectStart p h : effect SObjectStart None p h (comma p ++ [123]) None false h.
Proof. intros w b. unfold call, guarded. simpl sm_error. cbv iota. rewrite onVal_eq. unfold set_poped, put, set_buffer. simpl. now rewrite <- app_assoc. Qed.
Lemma eff_arrayStart p h : effect SArrayStart None p h (comma p ++ [91]) None false h.
Proof. intros w b. unfold call, guarded. simpl sm_error. cbv iota. rewrite onVal_eq. unfold set_poped, put, set_buffer. simpl. now rewrite <- app_assoc. Qed.
Lemma eff_objectEnd p h : effect SObjectEnd None p h [125] None true h.
Proof. intros w b. reflexivity. Qed.
Lemma eff_arrayEnd p h : effect SArrayEnd None p h [93] None true h.
Proof. intros w b. reflexivity. Qed.
Lemma eff_html on p h : effect (SEscapeHTML on) None p h [] None p on.
Proof. intros w b. rewrite app_nil_r. reflexivity. Qed.
Lemma eff_setError e p h : effect (SSetError e) None p h [] (Some e) p h.
Proof. intros w b. rewrite app_nil_r. reflexivity. Qed.

Lemma encodeString_eff s h : is_bytes s -> exists body, (forall b, encodeString b s h = Some (b ++ 34 :: body ++ [34])) /\ printed h s body.
Proof.
  intros B. destruct (encodeString_ok h [] s B) as (body & E & P). exists body. split; auto.
  intros b. destruct (encodeString_ok h b s B) as (body' & E' & _). rewrite E'.
  f_equal. f_equal. f_equal. f_equal.
  assert (K : forall n rest pend buf, option_map (fun x => b ++ x) (encodeLoop n h rest pend buf) = encodeLoop n h rest pend (b ++ buf)).
  { clear. induction n as [|n IH]; intros rest pend buf; [reflexivity|].
    destruct rest as [|c rest]; [simpl; now rewrite app_assoc|]. rewrite !encodeLoop_S.
    destruct (c <? 128).
    - destruct (32 <=? c); [destruct (safeSet h c)|destruct (safeSet true c)]; rewrite IH, ?app_assoc; reflexivity.
    - destruct (decodeRune (c :: rest)) as [r size]. destruct (_ && _); [|destruct (_ || _)]; rewrite IH, ?app_assoc; reflexivity. }
  unfold encodeString in E, E'. rewrite app_nil_l in E. rewrite <- K in E'.
  destruct (encodeLoop (S (length s)) h s [] [34]) as [x|]; [|discriminate]. simpl in E'.
  injection E as E. injection E' as E'. rewrite E in E' || rewrite <- app_assoc, E in E'.
  apply app_inv_head in E'. injection E' as E'. apply app_inv_tail in E'. congruence.
Qed.

Theorem call_effect c e p h : typed c -> exists t e' p' h', effect c e p h t e' p' h'.
Proof.
  intros T. destruct e as [e|].
  { destruct (eff_error c e p h) as (h' & H). eauto. }
  destruct c as [t| |x|k v|k v|k v|k v|f|f|s|s|t| | | | |on|e]; simpl in T.
  - do 4 eexists; apply eff_raw.
  - do 4 eexists; apply eff_null.
  - do 4 eexists; apply eff_bool.
  - destruct (appendInt_numeral k v T) as (t & _ & H). do 4 eexists; now apply eff_int.
  - destruct (appendUint_numeral k v T) as (t & _ & H). do 4 eexists; now apply eff_uint.
  - destruct (appendInt_numeral k v T) as (t & _ & H). do 4 eexists; now apply eff_qint.
  - destruct (appendUint_numeral k v T) as (t & _ & H). do 4 eexists; now apply eff_quint.
  - destruct (ff_inf F32 f) eqn:Hi; [|destruct (ff_nan F32 f) eqn:Hn].
    1,2: destruct (eff_float32_bad f p h) as (e & H & _); [auto|]; eauto.
    destruct (appendFloat_ok F32 S32 f Hi Hn) as (t & _ & H). do 4 eexists; now apply eff_float32.
  - destruct (ff_inf F64 f) eqn:Hi; [|destruct (ff_nan F64 f) eqn:Hn].
    1,2: destruct (eff_float64_bad f p h) as (e & H & _); [auto|]; eauto.
    destruct (appendFloat_ok F64 S64 f Hi Hn) as (t & _ & H). do 4 eexists; now apply eff_float64.
  - destruct (encodeString_eff s h T) as (body & H & _). do 4 eexists; now apply eff_string.
  - destruct (encodeString_eff s h T) as (body & H & _). do 4 eexists; now apply eff_field.
  - do 4 eexists; apply eff_rawField.
  - do 4 eexists; apply eff_objectStart.
  - do 4 eexists; apply eff_objectEnd.
  - do 4 eexists; apply eff_arrayStart.
  - do 4 eexists; apply eff_arrayEnd.
  - do 4 eexists; apply eff_html.
  - do 4 eexists; apply eff_setError.
Qed.
Definition effects (cs : list scall) (e : option serr) (p h : bool) (t : bytes) (e' : option serr) (p' h' : bool) : Prop :=
  forall w b, calls cs (mkStm w b e p h) = Some (mkStm w (b ++ t) e' p' h').
Lemma effects_nil e p h : effects [] e p h [] e p h.
Proof. intros w b. simpl. now rewrite app_nil_r. Qed.
Lemma effects_cons c cs e p h t e1 p1 h1 u e2 p2 h2 :
  effect c e p h t e1 p1 h1 -> effects cs e1 p1 h1 u e2 p2 h2 -> effects (c :: cs) e p h (t ++ u) e2 p2 h2.
Proof. intros A B w b. simpl. rewrite A, B. now rewrite app_assoc. Qed.
Lemma effects_app cs ds e p h t e1 p1 h1 u e2 p2 h2 :
  effects cs e p h t e1 p1 h1 -> effects ds e1 p1 h1 u e2 p2 h2 -> effects (cs ++ ds) e p h (t ++ u) e2 p2 h2.
Proof.
  assert (K : forall cs s, calls (cs ++ ds) s = match calls cs s with Some s' => calls ds s' | None => None end).
  { clear. induction cs as [|c cs IH]; intros s; simpl; auto. destruct (call c s); auto. }
  intros A B w b. rewrite K, A, B. now rewrite app_assoc.
Qed.
Lemma effects_one c e p h t e1 p1 h1 : effect c e p h t e1 p1 h1 -> effects [c] e p h t e1 p1 h1.
Proof. intros H. rewrite <- (app_nil_r t). eapply effects_cons; eauto. apply effects_nil. Qed.
Theorem calls_effect cs e p h : Forall typed cs -> exists t e' p' h', effects cs e p h t e' p' h'.
Proof.
  intros T. revert e p h. induction T as [|c cs Hc T IH]; intros e p h.
  - do 4 eexists; apply effects_nil.
  - destruct (call_effect c e p h Hc) as (t & e1 & p1 & h1 & H). destruct (IH e1 p1 h1) as (u & e2 & p2 & h2 & H2).
    do 4 eexists; eapply effects_cons; eauto.
Qed.
End Calls.
