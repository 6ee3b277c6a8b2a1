(** Facts about the specification of encoding: the texts are JSON, every value that fits has one, and they
    decode to the value. *)
From Coq Require Import String ZArith List Bool Lia.
From Verif Require Import Spec SpecStream SpecBase64 SpecFold TagFacts StreamIntFacts StreamStrFacts StreamFacts StreamTree Base64Facts FoldFacts.
From Verif Require Import Base ModelInt ModelFloat ModelOps ModelBase64 ModelStream ModelFold ModelVal ModelEnc SpecVal SpecEnc EncFacts StructFacts.
Import ListNotations.
Local Open Scope Z_scope.

(** ** Arrays and objects of JSON texts are JSON *)
Lemma items_values b ts : items b ts -> Forall (fun t => exists j, value t j) ts -> exists js, elements b js.
Proof.
  intros H. induction H as [w1 t w2 H1 H2|w1 t w2 r ts H1 H2 H IH]; intros F; inversion F as [|? ? (j & V) F']; subst.
  - exists [j]. now constructor.
  - destruct (IH F') as (js & V'). exists (j :: js). now constructor.
Qed.
Lemma array_value t ts : array_text t ts -> Forall (fun t => exists j, value t j) ts -> exists j, value t j.
Proof.
  intros [w W|b ts' I] F.
  - exists (JArr []). now constructor.
  - destruct (items_values _ _ I F) as (js & V). exists (JArr js). now constructor.
Qed.
Definition member_ok (p : bytes * bytes) : Prop := (exists b s, fst p = quote b /\ string_body b s) /\ exists j, value (snd p) j.
Lemma pairs_values b ps : pairs b ps -> Forall member_ok ps -> exists ms, Spec.members b ms.
Proof.
  intros H. induction H as [w1 k w2 w3 t w4 H1 H2 H3 H4|w1 k w2 w3 t w4 r ps H1 H2 H3 H4 H IH]; intros F;
    inversion F as [|? ? ((c & s & Ek & Sb) & (j & V)) F']; subst; cbn [fst snd] in *; subst; unfold quote.
  - exists [(s, j)].
    replace (w1 ++ (34 :: c ++ [34]) ++ w2 ++ 58 :: w3 ++ t ++ w4) with (w1 ++ 34 :: c ++ 34 :: w2 ++ 58 :: w3 ++ t ++ w4)
      by (simpl; now rewrite <- app_assoc). now constructor.
  - destruct (IH F') as (ms & V'). exists ((s, j) :: ms).
    replace (w1 ++ (34 :: c ++ [34]) ++ w2 ++ 58 :: w3 ++ t ++ w4 ++ 44 :: r) with (w1 ++ 34 :: c ++ 34 :: w2 ++ 58 :: w3 ++ t ++ w4 ++ 44 :: r)
      by (simpl; now rewrite <- app_assoc). now constructor.
Qed.
Lemma object_value t ps : object_text t ps -> Forall member_ok ps -> exists j, value t j.
Proof.
  intros [w W|b ps' I] F.
  - exists (JObj []). now constructor.
  - destruct (pairs_values _ _ I F) as (ms & V). exists (JObj ms). now constructor.
Qed.

Section EncRound.
Variables F32 F64 : floatOps.
Variable C : custom.
Notation gval := (gval F32 F64 C).
Variable E : env F32 F64 C.
Notation under := (under F32 F64 C E).
Notation zero := (zero F32 F64 C E).
Variable U : marshalers F32 F64 C.
Variables G32 G64 : floatFmt.
Variables (S32 : fmt_sane G32) (S64 : fmt_sane G64).
Variable e32 : fl F32 -> ff G32.
Variable e64 : fl F64 -> ff G64.
Variable quirks : Prop.
Variables useNumber disallow : bool.
Notation uses_json := (uses_json F32 F64 C U).
Notation uses_text := (uses_text F32 F64 C U).
Notation empty := (empty F32 F64 C E U G32 G64 e32 e64).
Notation shaped := (shaped F32 F64 C E).
Notation tested := (tested F32 F64 C E U).
Notation encodes := (encodes F32 F64 C E U G32 G64 e32 e64 quirks).
Notation encodes_list := (encodes_list F32 F64 C E U G32 G64 e32 e64 quirks).
Notation encodes_map := (encodes_map F32 F64 C E U G32 G64 e32 e64 quirks).
Notation encodes_fields := (encodes_fields F32 F64 C E U G32 G64 e32 e64 quirks).
Notation fits := (fits F32 F64 C E U G32 G64 e32 e64 quirks).
Notation fits_list := (fits_list F32 F64 C E U G32 G64 e32 e64 quirks).
Notation fits_map := (fits_map F32 F64 C E U G32 G64 e32 e64 quirks).
Notation fits_fields := (fits_fields F32 F64 C E U G32 G64 e32 e64 quirks).
Notation keeps := (keeps F32 F64 C E U G32 G64 e32 e64 quirks useNumber).
Notation keeps_list := (keeps_list F32 F64 C E U G32 G64 e32 e64 quirks useNumber).
Notation keeps_map := (keeps_map F32 F64 C E U G32 G64 e32 e64 quirks useNumber).
Notation restores := (restores F32 F64 C E U G32 G64 e32 e64 quirks useNumber).
Notation stores := (stores F32 F64 C E).
Hypothesis NO : names_ok F32 F64 C E U.

(** ** The texts are JSON *)
Lemma value_quote b s : string_body b s -> exists j, value (quote b) j.
Proof. intros H. exists (JStr s). now constructor. Qed.
Lemma base64_plain data text : base64 data text -> string_body text text.
Proof.
  intros H. apply plain_body. eapply Forall_impl; [|exact (base64_chars _ _ H)]. simpl. intros c Hc. lia.
Qed.
Lemma plain_dec l : forallb (fun c => (32 <=? c) && negb (c =? 34) && negb (c =? 92)) l = true -> string_body l l.
Proof. intros H. apply plain_body, Forall_forall. intros c I. rewrite forallb_forall in H. specialize (H c I). lia. Qed.
Lemma key_value k key q : encodes_key F32 F64 C U k key q -> exists b s, q = quote b /\ string_body b s.
Proof. intros H. destruct H; eauto; exists n, n; (split; [reflexivity|eapply numeral_plain; eauto]). Qed.
Theorem encodes_value :
  (forall a T q v t, encodes a T q v t -> exists j, value t j) /\
  (forall T l ts, encodes_list T l ts -> Forall (fun t => exists j, value t j) ts) /\
  (forall k T m ps, encodes_map k T m ps -> Forall member_ok ps) /\
  (forall fs v ps, encodes_fields fs v ps -> Forall member_ok ps).
Proof.
  apply encodes_mutind; intros; auto; try (eexists; constructor; fail); try (eapply value_quote; eauto; fail); try (eapply array_value; [eapply array_of_text|]; eauto; fail);
    try (eapply object_value; [eapply object_of_text|]; eauto; fail); try (exists j; assumption).
  - apply value_quote with (bs "true"). now apply plain_dec.
  - apply value_quote with (bs "false"). now apply plain_dec.
  - exists (JNum t). constructor. eapply numeral_number; eauto.
  - eapply value_quote, numeral_plain; eauto.
  - exists (JNum t). constructor. apply H1.
  - exists (JNum t). constructor. apply H1.
  - exists (JNum t). now constructor.
  - exists (JNum (bs "0")). constructor. apply num_pos. apply (un [48] [] []); constructor.
  - eapply value_quote, base64_plain; eauto.
  - constructor; auto. split; cbn [fst snd]; auto. eapply key_value; eauto.
  - constructor; auto. split; cbn [fst snd]; auto. exists b, name. auto.
Qed.

(** ** Values that fit have a text *)
Lemma range_numeral signed w z : in_range signed w z -> exists t, numeral z t.
Proof. intros H. destruct (int_range_text _ _ _ H) as (t & N & _). eauto. Qed.
Lemma string_text s : is_bytes s -> exists b s', sanitized s s' /\ string_body b s'.
Proof. intros B. destruct (encodeString_eff s false B) as (body & _ & us & I & _ & Z). exists body, (denote us). split; auto. now exists us. Qed.
Lemma quoted_text s : is_bytes s -> exists b b' s', sanitized s s' /\ string_body b' s' /\ string_body b (quote b').
Proof.
  intros B. destruct (encodeString_eff s false B) as (body & _ & us & I & P & Z). destruct (points_text _ _ P) as [Tb Bb].
  destruct (string_text (quote body) (bytes_quote _ Bb)) as (b & q & Zq & Sq).
  assert (q = quote body) as -> by (eapply sanitized_valid; [eassumption|now apply utf8_quote]).
  exists b, body, (denote us). repeat split; auto. now exists us.
Qed.
Lemma float32_text x : ff_inf G32 (e32 x) = false -> ff_nan G32 (e32 x) = false -> exists t, float_text G32 (e32 x) t.
Proof using S32. intros Hi Hn. destruct (appendFloat_ok G32 S32 _ Hi Hn) as (t & H & _). eauto. Qed.
Lemma float64_text x : ff_inf G64 (e64 x) = false -> ff_nan G64 (e64 x) = false -> exists t, float_text G64 (e64 x) t.
Proof using S64. intros Hi Hn. destruct (appendFloat_ok G64 S64 _ Hi Hn) as (t & H & _). eauto. Qed.
Lemma array_exists ts : exists t, t = array_of ts.
Proof. eexists. reflexivity. Qed.
Lemma object_exists ps : exists t, t = object_of ps.
Proof. eexists. reflexivity. Qed.
Lemma fits_shaped a T v : fits a T v -> shaped T v.
Proof using NO.
  intros H. induction H; try constructor; auto; try (destruct H as [-> | ->]; constructor).
  1: rewrite H1; constructor.
  all: rewrite (nk_dyn _ _ _ _ _ NO n) by congruence; constructor.
Qed.
(** emptiness is decided for the tested types *)
Lemma empty_dec T v : tested T -> shaped T v -> empty T v \/ ~ empty T v.
Proof using NO.
  intros Ht Sh. destruct (isEmpty_ok F32 F64 C E U G32 G64 e32 e64 false NO T v Ht Sh) as ([] & _ & I).
  - left. now apply I.
  - right. intros K. apply I in K. discriminate.
Qed.
Lemma key_encodes k key : fits_key F32 F64 C U k key -> exists q, encodes_key F32 F64 C U k key q.
Proof.
  intros H. destruct (key_ok F32 F64 C U G32 G64 false k key H) as (q & _ & K & _). eauto.
Qed.
Theorem fits_encodes :
  (forall a T v, fits a T v -> forall q, exists t, encodes a T q v t) /\
  (forall T l, fits_list T l -> exists ts, encodes_list T l ts) /\
  (forall k T m, fits_map k T m -> exists ps, encodes_map k T m ps) /\
  (forall fs v, fits_fields fs v -> exists ps, encodes_fields fs v ps).
Proof using NO S32 S64.
  apply fits_mutind.
  - intros a [] []; eexists; constructor.
  - intros a sg w z R q. destruct (range_numeral _ _ _ R) as (t & N). destruct q; eexists; econstructor; eauto.
  - intros a x Hi Hn q. destruct (float32_text x Hi Hn) as (t & H). exists t. now constructor.
  - intros a x Hi Hn q. destruct (float64_text x Hi Hn) as (t & H). exists t. now constructor.
  - intros a s B q. destruct q.
    + destruct (quoted_text s B) as (b & b' & s' & H1 & H2 & H3). exists (quote b). now apply e_quoted_string with s' b'.
    + destruct (string_text s B) as (b & s' & H1 & H2). exists (quote b). now apply e_string with s'.
  - intros a t [N| ->] q; eexists; now constructor.
  - intros a t j V q. exists t. now apply e_raw with j.
  - intros a T id x t j Hu Hj M V q. exists t. now apply e_json with id j.
  - intros a T id x s Hu Ht M B q. destruct (string_text s B) as (b & s' & H1 & H2). exists (quote b). now apply e_text with id s s'.
  - intros a T id x Hu Hj Ht _ IH q. destruct (IH q) as (t & H). exists t. now apply e_user with id.
  - intros a T Hn q. eexists. now constructor.
  - intros a T v _ IH q. destruct (IH q) as (t & H). exists t. now constructor.
  - intros a n T l L _ (ts & H) q. destruct (array_exists ts) as (t & A). exists t. now apply e_array with ts.
  - intros a T q. eexists. constructor.
  - intros a T l Hb _ (ts & H) q. destruct (array_exists ts) as (t & A). exists t. now apply e_slice with ts.
  - intros a T data Hb B q. exists (quote (b64encode data)). constructor; auto. now apply b64encode_spec.
  - intros a k T Hk q. eexists. now constructor.
  - intros a k T m Hk _ (ps & H) q. destruct (object_exists ps) as (t & A). exists t. now apply e_map with ps.
  - intros a lay fs v _ (ps & H) q. destruct (object_exists ps) as (t & A). exists t. now apply e_struct with ps.
  - intros a T D q. eexists. now constructor.
  - intros a T T' v D W _ IH q. destruct (IH q) as (t & H). destruct W as [W|(Q & Nf & Nw)].
    + exists t. constructor; auto. tauto.
    + exists (bs "null"). now apply e_iface_quirk.
  - intros a n v Hd Hp _ IH q. destruct (IH q) as (t & H). exists t. now constructor.
  - intros a n T v Hd Q Hk Hp _ IH q. destruct (IH q) as (t & H). exists t. now apply e_ref_quirk with T.
  - intros a n d Hdd Hd q. eexists. now apply e_dyn_nil with d.
  - intros a n T v id x t j Hd Hm M V q. exists t. now apply e_dyn_json with id x j.
  - intros a n T v id x s Hd Hm M B q. destruct (string_text s B) as (b & s' & H1 & H2). exists (quote b). now apply e_dyn_text with id x s s'.
  - intros T. eexists. constructor.
  - intros T v l _ IH _ (ts & Hs). destruct (IH false) as (t & H). eexists. constructor; eauto.
  - intros k T. eexists. constructor.
  - intros k T key v m Fk _ IH _ (ps & Hs). destruct (IH false) as (t & H). destruct (key_encodes _ _ Fk) as (qk & Hk).
    exists ((qk, t) :: ps). now constructor.
  - intros v. eexists. constructor.
  - intros fd fs v Hc _ (ps & Hs). exists ps. now apply ef_cut.
  - intros fd fs v x Hl B Hx IH Ho _ (ps & Hs). destruct (IH (f_quoted fd)) as (t & H).
    destruct (string_text _ B) as (b & s' & H1 & H2). pose proof (fits_shaped _ _ _ Hx) as Sh.
    destruct (f_omitEmpty fd) eqn:Om.
    + destruct (Ho eq_refl) as [Ht|(Q & [Nf|Nv])].
      * destruct (empty_dec _ _ Ht Sh) as [Em|Em].
        -- exists ps. now apply ef_omit with x.
        -- exists ((quote b, t) :: ps). apply ef_put with x s'; auto.
      * exists ps. now apply ef_omit_quirk with x.
      * exists ((quote b, t) :: ps). apply ef_put with x s'; auto.
    + exists ((quote b, t) :: ps). apply ef_put with x s'; auto. congruence.
Qed.

(** ** Round trip *)
Lemma utf8_is_bytes s : utf8_text s -> is_bytes s.
Proof. intros H. induction H as [|r l Hr H IH]; [constructor|]. apply Forall_app. split; auto. now apply utf8_bytes. Qed.
Lemma keeps_fits_key k key : keeps_key F32 F64 C U k key -> fits_key F32 F64 C U k key.
Proof. intros H. destruct H; econstructor; eauto using utf8_is_bytes. Qed.
Theorem keeps_encodes :
  (forall a T q v, keeps a T q v -> exists t, encodes a T q v t) /\
  (forall T l, keeps_list T l -> exists ts, encodes_list T l ts) /\
  (forall k T m, keeps_map k T m -> exists ps, encodes_map k T m ps) /\
  (forall fs v cur final, restores fs v cur final -> exists ps, encodes_fields fs v ps).
Proof using S32 S64.
  apply keeps_mutind.
  - intros a [] []; eexists; constructor.
  - intros a sg w q z R. destruct (range_numeral _ _ _ R) as (t & N). destruct q; eexists; econstructor; eauto.
  - intros a q x Hi Hn _. destruct (float32_text x Hi Hn) as (t & H). exists t. now constructor.
  - intros a q x Hi Hn _. destruct (float64_text x Hi Hn) as (t & H). exists t. now constructor.
  - intros a q s B. apply utf8_is_bytes in B. destruct q.
    + destruct (quoted_text s B) as (b & b' & s' & H1 & H2 & H3). exists (quote b). now apply e_quoted_string with s' b'.
    + destruct (string_text s B) as (b & s' & H1 & H2). exists (quote b). now apply e_string with s'.
  - intros a q t N; eexists; now constructor.
  - intros a q t j V. exists t. now apply e_raw with j.
  - intros a id q x t j Hj M V _. exists t. apply e_json with id j; auto. now left.
  - intros a id q x s Ht M B _. apply utf8_is_bytes in B. destruct (string_text s B) as (b & s' & H1 & H2). exists (quote b). apply e_text with id s s'; auto. now right.
  - intros a T q Hn. eexists. now constructor.
  - intros a T q v _ (t & H) _. exists t. now constructor.
  - intros a n T q l L _ (ts & H). destruct (array_exists ts) as (t & A). exists t. now apply e_array with ts.
  - intros a T q. eexists. constructor.
  - intros a T q l Hb _ (ts & H). destruct (array_exists ts) as (t & A). exists t. now apply e_slice with ts.
  - intros a T q data Hb B. exists (quote (b64encode data)). constructor; auto. now apply b64encode_spec.
  - intros a k T q Hk _. eexists. now constructor.
  - intros a k T q m Hk _ _ _ (ps & H). destruct (object_exists ps) as (t & A). exists t. now apply e_map with ps.
  - intros a lay fs q v _ _ _ (ps & H). destruct (object_exists ps) as (t & A). exists t. now apply e_struct with ps.
  - intros a T q D. eexists. now constructor.
  - intros a T v Hg _ _ _ (t & H). exists t. apply e_iface; auto. intros N. exfalso.
    destruct Hg as [->|[->|[[-> _]|[[-> _]|[->| ->]]]]]; inversion N as [? ? K|? ? ? K]; try discriminate; destruct K; discriminate.
  - intros a n q v Hd Hp _ (t & H). exists t. now constructor.
  - intros T. eexists. constructor.
  - intros T v l _ (t & H) _ (ts & Hs). eexists. constructor; eauto.
  - intros k T. eexists. constructor.
  - intros k T key v m Kk _ (t & H) _ (ps & Hs). destruct (key_encodes _ _ (keeps_fits_key _ _ Kk)) as (qk & Hk).
    exists ((qk, t) :: ps). now constructor.
  - intros v cur. eexists. constructor.
  - intros fd fs v cur final Hc _ (ps & Hs). exists ps. now apply ef_cut.
  - intros fd fs v x cur final Hl Om Ht He _ (ps & Hs). exists ps. now apply ef_omit with x.
  - intros fd fs v x cur next final Hl Ho B _ (t & H) _ _ (ps & Hs). apply utf8_is_bytes in B.
    destruct (string_text _ B) as (b & s' & H1 & H2). exists ((quote b, t) :: ps). apply ef_put with x s'; auto.
Qed.

Variable lookup : list bytes -> bytes -> option nat.
Hypothesis lookup_exact : forall names i name, NoDup names -> Forall is_bytes names -> nth_error names i = Some name -> lookup names name = Some i.
Notation decodes := (decodes F32 F64 C E lookup useNumber disallow).
Notation elems := (elems F32 F64 C E lookup useNumber disallow).
Notation entries := (entries F32 F64 C E lookup useNumber disallow).
Notation members := (SpecVal.members F32 F64 C E lookup useNumber disallow).
Notation at_path := (at_path F32 F64 C E lookup useNumber disallow).
(** the zero value of a named type is that of its definition *)
Definition zeros_ok : Prop := forall n, te_zero _ _ _ E n = zero (te_type _ _ _ E n).
Hypothesis ZO : zeros_ok.
Hypothesis noq : ~ quirks.

Lemma numeral_int signed w z t : in_range signed w z -> numeral z t -> int_text signed t z.
Proof.
  intros R N. unfold numeral in N. destruct (z <? 0) eqn:X.
  - destruct N as (u & -> & I & D). replace z with (- dec u) by lia. destruct signed; [now constructor|]. exfalso. simpl in R. lia.
  - destruct N as [I <-]. now constructor.
Qed.
Lemma stores_path path T o old new cur next t : stores path old new cur next -> decodes T o old t new -> at_path path T o cur t next.
Proof. intros H D. induction H; constructor; auto. Qed.
Lemma cut_leads path v x : cut F32 F64 C path v -> leads F32 F64 C path v x -> False.
Proof. intros H L. apply cut_reach in H. apply leads_reach in L. congruence. Qed.
Lemma leads_fun path v x y : leads F32 F64 C path v x -> leads F32 F64 C path v y -> x = y.
Proof. intros H L. apply leads_reach in H. apply leads_reach in L. congruence. Qed.
Lemma put_new m k v : ~ In k (map fst m) -> SpecVal.put F32 F64 C m k v = m ++ [(k, v)].
Proof.
  induction m as [|[k' v'] m IH]; intros H; [reflexivity|]. simpl in *. destruct (key_eq_dec k' k) as [->|N]; [tauto|].
  f_equal. apply IH. tauto.
Qed.
Lemma san_same s s' : utf8_text s -> sanitized s s' -> s' = s.
Proof. intros H S. eapply sanitized_valid; eauto. Qed.
Lemma user_both T id : user T id -> forall i, T = TJson i \/ T = TText i -> i = id.
Proof. intros [-> | ->] i [H|H]; congruence. Qed.

(** ** Values in interface{} variables *)
Notation iface_of := (iface_of F32 F64 C useNumber).
Definition jsons (j : list jval) (l : list gval) : Prop := Forall2 (fun j v => iface_of j = Some v) j l.
Lemma iface_arr js vs : jsons js vs -> iface_of (JArr js) = Some (VIface (Some (TSlice TEface, VSlice (Some vs)))).
Proof.
  intros H. simpl. match goal with |- context[option_map _ (?g js)] => assert (X : g js = Some vs) end.
  { induction H as [|j v js vs Hj H IH]; [reflexivity|]. now rewrite Hj, IH. }
  now rewrite X.
Qed.
Fixpoint putAll (m : list (key * gval)) (kvs : list (bytes * gval)) : list (key * gval) :=
  match kvs with [] => m | (k, v) :: r => putAll (SpecVal.put F32 F64 C m (KS k) v) r end.
Lemma iface_obj ms kvs : Forall2 (fun p q => fst p = fst q /\ iface_of (snd p) = Some (snd q)) ms kvs ->
  iface_of (JObj ms) = Some (VIface (Some (TMap KString TEface, VMap (Some (putAll [] kvs))))).
Proof.
  intros H. simpl. match goal with |- context[option_map _ (?g [] ms)] => assert (X : forall m, g m ms = Some (putAll m kvs)) end.
  { induction H as [|[k j] [k' v] ms kvs [Hk Hj] H IH]; [reflexivity|]. simpl in *. subst. intros m. now rewrite Hj. }
  now rewrite X.
Qed.
Lemma eface_inv o t v : decodes TEface o (VIface None) t v -> exists j, value t j /\ iface_of j = Some v.
Proof.
  intros H. remember TEface as T eqn:ET. remember (VIface None) as old eqn:Eo. destruct H; subst; try discriminate; eauto.
Qed.
Lemma elems_jsons b ts vs : items b ts -> elems TEface ts vs -> exists js, elements b js /\ jsons js vs.
Proof.
  intros H. revert vs. induction H as [w1 t w2 H1 H2|w1 t w2 r ts H1 H2 H IH]; intros vs K; inversion K as [|? ? ? v vs' D K']; subst;
    apply eface_inv in D; destruct D as (j & V & Ij).
  - inversion K'; subst. exists [j]. split; [now constructor|]. repeat constructor; auto.
  - destruct (IH _ K') as (js & V' & J). exists (j :: js). split; [now constructor|]. constructor; auto.
Qed.
Lemma slice_inv o t vs : decodes (TSlice TEface) o (VSlice None) t (VSlice (Some vs)) ->
  exists j, value t j /\ iface_of j = Some (VIface (Some (TSlice TEface, VSlice (Some vs)))).
Proof.
  intros H. remember (TSlice TEface) as T eqn:ET. remember (VSlice None) as old eqn:Eo. remember (VSlice (Some vs)) as new eqn:En.
  destruct H as [? ? ? Hn| | | | | | | | | | | | | | | | | | | | | | | |T o old t ts vs' A L|T o old b s data Hu| | | | | | | | |];
    subst; try discriminate.
  - injection ET as ->. injection En as ->. destruct A as [w W|b ts I].
    + inversion L; subst. exists (JArr []). split; [now constructor|now apply iface_arr; constructor].
    + destruct (elems_jsons _ _ _ I L) as (js & V & J). exists (JArr js). split; [now constructor|now apply iface_arr].
  - injection ET as ->. discriminate.
Qed.
(** the keys written by the encoder are quoted *)
Definition quoted_keys (ps : list (bytes * bytes)) : Prop := Forall (fun p => exists b, fst p = quote b) ps.
Lemma key_inv b k : key_text C KString (quote b) k -> exists s, string_body b s /\ k = KS s.
Proof.
  intros H. remember (quote b) as q eqn:Eq. remember KString as kk eqn:Ek. destruct H as [b' s Sb| | | | | | |]; try discriminate.
  injection Eq as Eq. apply app_inv_tail in Eq. subst. eauto.
Qed.
Lemma entries_jsons b ps m m' : pairs b ps -> quoted_keys ps -> entries KString TEface m ps m' ->
  exists ms kvs, Spec.members b ms /\ Forall2 (fun p q => fst p = fst q /\ iface_of (snd p) = Some (snd q)) ms kvs /\ m' = putAll m kvs.
Proof.
  intros H. revert m m'. induction H as [w1 k w2 w3 t w4 H1 H2 H3 H4|w1 k w2 w3 t w4 r ps H1 H2 H3 H4 H IH]; intros m m' Q K;
    inversion Q as [|? ? (c & Ek) Q']; subst; cbn [fst] in Ek; subst k;
    inversion K as [|? ? ? ? key ? v ? ? Kt D K']; subst; apply eface_inv in D; destruct D as (j & V & Ij);
    apply key_inv in Kt; destruct Kt as (s & Sb & ->).
  - inversion K'; subst. exists [(s, j)], [(s, v)]. split; [|split; [repeat constructor; auto|reflexivity]]. unfold quote.
    replace (w1 ++ (34 :: c ++ [34]) ++ w2 ++ 58 :: w3 ++ t ++ w4) with (w1 ++ 34 :: c ++ 34 :: w2 ++ 58 :: w3 ++ t ++ w4)
      by (simpl; now rewrite <- app_assoc). now constructor.
  - destruct (IH _ _ Q' K') as (ms & kvs & Vm & F & ->). exists ((s, j) :: ms), ((s, v) :: kvs). split; [|split; [constructor; auto|reflexivity]]. unfold quote.
    replace (w1 ++ (34 :: c ++ [34]) ++ w2 ++ 58 :: w3 ++ t ++ w4 ++ 44 :: r) with (w1 ++ 34 :: c ++ 34 :: w2 ++ 58 :: w3 ++ t ++ w4 ++ 44 :: r)
      by (simpl; now rewrite <- app_assoc). now constructor.
Qed.
Lemma map_quoted k T m ps : encodes_map k T m ps -> quoted_keys ps.
Proof. intros H. induction H as [|k T key q v t m ps Hq Hv H IH]; constructor; auto. destruct Hq; simpl; eauto. Qed.
Lemma map_inv t ps m : object_text t ps -> quoted_keys ps -> entries KString TEface [] ps m ->
  exists j, value t j /\ iface_of j = Some (VIface (Some (TMap KString TEface, VMap (Some m)))).
Proof.
  intros A Q L. destruct A as [w W|b ps I].
  - inversion L; subst. exists (JObj []). split; [now constructor|reflexivity].
  - destruct (entries_jsons _ _ _ _ I Q L) as (ms & kvs & V & F & ->). exists (JObj ms). split; [now constructor|now apply iface_obj].
Qed.
Definition map_json (T : ty) (v : gval) (t : bytes) : Prop := T = TMap KString TEface -> forall m, v = VMap (Some m) ->
  exists j, value t j /\ iface_of j = Some (VIface (Some (T, v))).
Lemma keeps_key_text k key q : keeps_key F32 F64 C U k key -> encodes_key F32 F64 C U k key q -> key_text C k q key.
Proof.
  intros K H. destruct K as [s Us|sg w z R|m s Us|sg w z R|id m s x Us Cu Ck|kd id id' sh key s x N Hi Hw M Us Cu Ck];
    inversion H as [s1 s' b B Z Sb|sg1 w1 z1 n Rn Nn|u1 m1 s1 s' b B Z Sb|sg1 w1 u1 z1 n Rn Nn|kd1 u1 id1 key1 b Nk Hn Sb|kd1 u1 id1 sh1 key1 s1 s' b Nk Hi1 Hw1 M1 B Z Sb];
    subst; try congruence; try (rewrite (san_same s s') in Sb by auto).
  - now constructor.
  - constructor; auto. eapply numeral_int; eauto.
  - now apply kt_user_string, kt_string.
  - apply kt_user_int, kt_int; auto. eapply numeral_int; eauto.
  - rewrite <- Ck. now apply kt_text with s.
  - rewrite Hw in Hn by discriminate. discriminate.
  - assert (s1 = s) by congruence. subst s1. rewrite (san_same s s') in Sb by auto. now apply kt_text with s.
Qed.
Theorem keeps_decodes :
  (forall a T q v t, encodes a T q v t -> keeps a T q v -> decodes T (mkOpts false q) (zero T) t v /\ map_json T v t) /\
  (forall T l ts, encodes_list T l ts -> keeps_list T l -> Forall2 (fun t v => decodes T noOpts (zero T) t v) ts l) /\
  (forall k T m ps, encodes_map k T m ps -> keeps_map k T m -> forall m0, NoDup (map fst (m0 ++ m)) -> entries k T m0 ps (m0 ++ m)) /\
  (forall fs v ps, encodes_fields fs v ps -> forall pre cur final, NoDup (map f_name (pre ++ fs)) -> Forall is_bytes (map f_name (pre ++ fs)) ->
     restores fs v cur final -> members (pre ++ fs) cur ps final).
Proof using ZO noq lookup_exact.
  apply encodes_mutind.
  - intros. split; [|intros ET mm Em; discriminate]. constructor.
  - intros. split; [|intros ET mm Em; discriminate]. constructor.
  - intros. split; [|intros ET mm Em; discriminate]. apply (d_quoted_true _ _ _ _ _ _ _ _ _ []); constructor.
  - intros. split; [|intros ET mm Em; discriminate]. apply (d_quoted_false _ _ _ _ _ _ _ _ _ []); constructor.
  - intros a sg w z t R N _. split; [|intros ET mm Em; discriminate]. constructor; auto. eapply numeral_int; eauto.
  - intros a sg w z t R N _. split; [|intros ET mm Em; discriminate]. apply d_quoted_int; auto. eapply numeral_int; eauto.
  - intros a q x t Hi Hn Ht K. split; [|intros ET mm Em; discriminate]. inversion K; subst. constructor; auto. apply Ht.
  - intros a q x t Hi Hn Ht K. split; [|intros ET mm Em; discriminate]. inversion K; subst. constructor; auto. apply Ht.
  - intros a s s' b B Z Sb K. split; [|intros ET mm Em; discriminate]. inversion K; subst. rewrite (san_same s s') in Sb by auto. now constructor.
  - intros a s s' b b' B Z Sb' Sb K. split; [|intros ET mm Em; discriminate]. inversion K; subst. rewrite (san_same s s') in Sb' by auto. now apply d_quoted_string with b'.
  - intros a q t N _. split; [|intros ET mm Em; discriminate]. now constructor.
  - intros a q K. split; [|intros ET mm Em; discriminate]. inversion K as [| | | | |a' q' t' N| | | | | | | | | | | | | | |]; subst. exfalso. now apply number_some in N.
  - intros a q t j V _. split; [|intros ET mm Em; discriminate]. now apply d_raw with j.
  - intros a T id q x t j Hu Hj M V K. split; [|intros ET mm Em; discriminate].
    assert (X : T = TJson id \/ T = TText id) by exact Hu.
    inversion K as [| | | | | | |a' i q' x' t' j' Hj' M' V' Cu|a' i q' x' s' Ht' M' Us Cu| | | | | | | | | |a' T' q' D| |]; subst;
      try (destruct X; discriminate); try (destruct D as [D|D]; rewrite D in X; destruct X; discriminate).
    + assert (i = id) as -> by (eapply user_both; eauto). rewrite M in M'. injection M' as <-. simpl. now apply d_json with j.
    + assert (i = id) as -> by (eapply user_both; eauto). exfalso. now apply Ht'.
  - intros a T id q x s s' b Hu Ht M B Z Sb K. split; [|intros ET mm Em; discriminate].
    assert (X : T = TJson id \/ T = TText id) by exact Hu.
    inversion K as [| | | | | | |a' i q' x' t' j' Hj' M' V' Cu|a' i q' x' s2 Ht' M' Us Cu| | | | | | | | | |a' T' q' D| |]; subst;
      try (destruct X; discriminate); try (destruct D as [D|D]; rewrite D in X; destruct X; discriminate).
    + assert (i = id) as -> by (eapply user_both; eauto). exfalso. now apply Ht.
    + assert (i = id) as -> by (eapply user_both; eauto). rewrite M in M'. injection M' as <-. rewrite (san_same s s') in Sb by auto.
      simpl. now apply d_text with s.
  - intros a T id q x t Hu Hj Ht _ _ K. split; [|intros ET mm Em; discriminate].
    assert (X : T = TJson id \/ T = TText id) by exact Hu.
    inversion K as [| | | | | | |a' i q' x' t' j' Hj' M' V' Cu|a' i q' x' s' Ht' M' Us Cu| | | | | | | | | |a' T' q' D| |]; subst;
      try (destruct X; discriminate); try (destruct D as [D|D]; rewrite D in X; destruct X; discriminate).
    + assert (i = id) as -> by (eapply user_both; eauto). contradiction.
    + assert (i = id) as -> by (eapply user_both; eauto). contradiction.
  - intros. split; [|intros ET mm Em; discriminate]. apply d_null_ptr.
  - intros a T q v t He IH K. split; [|intros ET mm Em; discriminate]. inversion K as [| | | | | | | | | |a' T' q' v' Kv Nn| | | | | | | |a' T' q' D| |]; subst; try (destruct D; discriminate).
    simpl. constructor; [intros ->; contradiction|now apply IH].
  - intros a n T q l t ts L A _ IH K. apply array_of_text in A. split; [|intros ET mm Em; discriminate]. inversion K as [| | | | | | | | | | |a' n' T' q' l' L' Kl| | | | | | |a' T' q' D| |]; subst; try (destruct D; discriminate).
    simpl. apply d_array with ts; auto. specialize (IH Kl). clear - IH.
    assert (X : forall ts l, Forall2 (fun t v => decodes T noOpts (zero T) t v) ts l -> SpecVal.overwrite F32 F64 C E lookup useNumber disallow T (repeat (zero T) (length l)) ts l).
    { clear. intros ts l H. induction H; simpl; constructor; auto. }
    now apply X.
  - intros. split; [|intros ET mm Em; discriminate]. apply d_null_slice.
  - intros a T q l t ts Hb A _ IH K. apply array_of_text in A. split; [|intros ET mm Em; discriminate]. inversion K as [| | | | | | | | | | | | |a' T' q' l' Hb' Kl|a' T' q' data Hb'| | | |a' T' q' D| |]; subst; try contradiction; try (destruct D; discriminate).
    simpl. apply d_slice with ts; auto. apply elems_iff. auto.
  - intros a T q data text Hb B D _. split; [|intros ET mm Em; discriminate]. simpl. apply d_bytes with text; auto; [now apply base64_plain with data|now apply base64_is_lax].
  - intros a k T q Hk K. split; [|intros ET mm Em; discriminate]. apply d_null_map. inversion K; subst; auto.
  - intros a k T q m t ps Hk O He IH K. apply object_of_text in O. inversion K as [| | | | | | | | | | | | | | | |a' k' T' q' m' Hk' Dk Nd Km| |a' T' q' D| |]; subst; try (destruct D; discriminate).
    specialize (IH Km [] Nd). split; [now apply d_map with ps|]. intros [= -> ->] m' [= <-]. apply map_inv with ps; auto. now apply map_quoted in He.
  - intros a lay fs q v t ps O _ IH K. apply object_of_text in O. split; [|intros ET mm Em; discriminate]. inversion K as [| | | | | | | | | | | | | | | | |a' l' f' q' v' Nd Bn R|a' T' q' D| |]; subst; try (destruct D; discriminate).
    apply d_struct with ps; auto. now apply (IH []).
  - intros a T q D _. split; [|intros ET mm Em; discriminate]. destruct D as [-> | ->].
    + simpl. apply d_eface with JNull; [discriminate|constructor|reflexivity].
    + apply d_null_iface.
  - intros a T q T' v t D Nw He IH K. split; [|intros ET mm Em; discriminate].
    inversion K as [| | | | | | | | | | | | | | | | | | |a' T2 v2 Hg N1 N2 Kv|]; subst; try (destruct D; discriminate).
    specialize (IH Kv). destruct IH as [IH IM]. simpl.
    assert (X : exists j, value t j /\ iface_of j = Some (VIface (Some (T', v)))).
    { destruct Hg as [->|[->|[[-> Un]|[[-> Un]|[->| ->]]]]].
      - inversion Kv as [a2 q2 x2| | | | | | | | | | | | | | | | |? ? ? ? ? D'|? ? ? D'| |]; subst; try (destruct D'; discriminate).
        destruct x2; inversion He; subst; [exists (JBool true)|exists (JBool false)]; split; constructor.
      - inversion Kv as [| | | |a2 q2 s Us| | | | | | | | | | | | |? ? ? ? ? D'|? ? ? D'| |]; subst; try (destruct D'; discriminate).
        inversion He as [ | | | | | | | |a1 s1 s' b Bs Z Sb| | | | | | | | | | | | | | | | | | | | | | | | ]; subst.
        rewrite (san_same s s') in Sb by auto. exists (JStr s). split; [now constructor|reflexivity].
      - inversion Kv as [| | |a2 q2 x Hi2 Hn2 Hp| | | | | | | | | | | | | |? ? ? ? ? D'|? ? ? D'| |]; subst; try (destruct D'; discriminate).
        inversion He as [ | | | | | | |a1 q1 x1 t1 Hi Hn Ht| | | | | | | | | | | | | | | | | | | | | | | | | ]; subst.
        exists (JNum t). split; [constructor; apply Ht|]. simpl. now rewrite Un, (Hp _ Ht).
      - inversion Kv as [| | | | |a2 q2 t2 Hn2| | | | | | | | | | | |? ? ? ? ? D'|? ? ? D'| |]; subst; try (destruct D'; discriminate).
        inversion He as [ | | | | | | | | | |a1 q1 t1 Hn| | | | | | | | | | | | | | | | | | | | | | ]; subst; try (exfalso; now apply number_some in Hn2).
        exists (JNum t). split; [now constructor|]. simpl. now rewrite Un.
      - inversion Kv; subst; try congruence; try (match goal with H : _ = TEface \/ _ |- _ => destruct H; discriminate end); now apply slice_inv in IH.
      - inversion Kv; subst; try congruence; try (match goal with H : _ = TEface \/ _ |- _ => destruct H; discriminate end); eapply IM; reflexivity. }
    destruct X as (j & V & Ij). apply d_eface with j; auto. discriminate.
  - intros. contradiction.
  - intros a n q v t Hd Hp _ IH K. split; [|intros ET mm Em; discriminate]. inversion K as [| | | | | | | | | | | | | | | | | |a' T' q' D| |a' n' q' v' Hd' Hp' Kv]; subst; try (destruct D; discriminate).
    constructor. simpl. rewrite ZO. now apply IH.
  - intros a n q T v t Hd Q. contradiction.
  - intros a n q d Hdd Hd K. split; [|intros ET mm Em; discriminate]. exfalso. inversion K as [| | | | | | | | | | | | | | | | | |a' T' q' D| |a' n' q' v' Hd' Hp' Kv]; subst; try (destruct D; discriminate); congruence.
  - intros a n q T v id x t j Hd Hm M V K. split; [|intros ET mm Em; discriminate]. exfalso. inversion K; subst. congruence.
  - intros a n q T v id x s s' b Hd Hm M B Z Sb K. exfalso. inversion K; subst. congruence.
  - intros. constructor.
  - intros T v l t ts _ IH _ IHs K. inversion K; subst. constructor; auto. now apply IH.
  - intros k T _ m0 _. rewrite app_nil_r. constructor.
  - intros k T key q v t m ps Hq _ IH _ IHs K m0 Nd. inversion K; subst.
    apply en_next with key v; [now apply keeps_key_text|now apply IH|]. rewrite put_new.
    + replace (m0 ++ (key, v) :: m) with ((m0 ++ [(key, v)]) ++ m) in * by (now rewrite <- app_assoc). auto.
    + rewrite map_app in Nd. cbn [map fst] in Nd. apply NoDup_remove_2 in Nd. intros I. apply Nd. apply in_or_app. now left.
  - intros v pre cur final _ _ R. inversion R; subst. constructor.
  - intros fd fs v ps Hc _ IH pre cur final Nd Bn R.
    replace (pre ++ fd :: fs) with ((pre ++ [fd]) ++ fs) in * by (now rewrite <- app_assoc). apply IH; auto.
    inversion R; subst; auto. exfalso. eapply cut_leads; eauto.
  - intros fd fs v x ps Hl Om Ht He _ IH pre cur final Nd Bn R.
    replace (pre ++ fd :: fs) with ((pre ++ [fd]) ++ fs) in * by (now rewrite <- app_assoc). apply IH; auto.
    inversion R as [| | |fd' fs' v' y c n f Hl' Ho]; subst; auto. exfalso. assert (y = x) as -> by (eapply leads_fun; eauto). now apply Ho.
  - intros. contradiction.
  - intros fd fs v x b name t ps Hl Ho Bn Z Sb _ IHx _ IH pre cur final Nd Bns R.
    inversion R as [|fd' fs' v' c f Hc|fd' fs' v' y c f Hl' Om Ht He|fd' fs' v' y c n f Hl' Ho' Un Kx St Rn]; subst.
    + exfalso. eapply cut_leads; eauto.
    + exfalso. assert (y = x) as -> by (eapply leads_fun; eauto). destruct (Ho Om) as [[_ Ne]|[Q _]]; contradiction.
    + assert (y = x) as -> by (eapply leads_fun; eauto). rewrite (san_same (f_name fd) name) in Sb by auto.
      apply ms_field with (f_name fd) (length pre) fd n; auto.
      * apply lookup_exact; auto. rewrite map_app. rewrite nth_error_app2; rewrite map_length; auto. now rewrite Nat.sub_diag.
      * rewrite nth_error_app2; auto. now rewrite Nat.sub_diag.
      * eapply stores_path; eauto. now apply IHx.
      * replace (pre ++ fd :: fs) with ((pre ++ [fd]) ++ fs) in * by (now rewrite <- app_assoc). now apply IH.
Qed.
End EncRound.

(** ** Marshal *)
Section MarshalFacts.
Variables F32 F64 : floatOps.
Variable C : custom.
Notation gval := (gval F32 F64 C).
Variable E : env F32 F64 C.
Variable U : marshalers F32 F64 C.
Variables G32 G64 : floatFmt.
Variables (S32 : fmt_sane G32) (S64 : fmt_sane G64).
Variable e32 : fl F32 -> ff G32.
Variable e64 : fl F64 -> ff G64.
Variable cfgHTML : bool.
Variable quirks : Prop.
Notation encodes := (encodes F32 F64 C E U G32 G64 e32 e64 quirks).
Notation Value := (Value F32 F64 C E U G32 G64 e32 e64 cfgHTML).
Notation Marshal := (Marshal F32 F64 C E U G32 G64 e32 e64 cfgHTML).
Hypothesis NO : names_ok F32 F64 C E U.
(** a value in front of which the streamer is without error: one text of it is appended *)
Lemma Value_ok h o t0 : encodes false TEface false (VIface o) t0 ->
  exists t n0, encodes false TEface false (VIface o) t /\
    forall n p w b, (n0 <= n)%nat -> Value n o (mkStm w b None p h) = SOk (mkStm w (b ++ comma p ++ t) None true h).
Proof.
  intros H. destruct (encode_ok F32 F64 C E U G32 G64 S32 S64 e32 e64 cfgHTML quirks NO h) as [K _].
  destruct (K _ _ _ _ _ H) as (t & Ht & n0 & P). exists t, n0. split; auto. intros n p w b Hn.
  assert (P1 := P (S n) ltac:(lia) p w b). exact P1.
Qed.
Lemma Marshal_ok o t0 : encodes false TEface false (VIface o) t0 ->
  exists t n0, encodes false TEface false (VIface o) t /\ forall n, (n0 <= n)%nat -> Marshal n o = MOk t.
Proof.
  intros H. destruct (Value_ok cfgHTML _ _ H) as (t & n0 & Ht & P). exists t, n0. split; auto. intros n Hn.
  unfold ModelEnc.Marshal, newStm. rewrite P by auto. reflexivity.
Qed.
End MarshalFacts.

(** ** Field lookup finds every field by its own name *)
Lemma findField_exact Ef sf cs names i name : folding Ef -> walks Ef sf -> NoDup names -> Forall is_bytes names ->
  nth_error names i = Some name -> findField sf cs names name = Some i.
Proof.
  intros FO WK N B H. assert (Bn : is_bytes name) by (eapply (proj1 (Forall_forall _ _) B); eapply nth_error_In; eauto).
  assert (M : matches Ef names name cs i) by (now left).
  unfold findField. destruct names as [|n0 [|n1 r]]; [destruct i; discriminate| |].
  - destruct i as [|i]; [|destruct i; discriminate]. injection H as ->. unfold findOne. destruct cs.
    + rewrite (proj2 (bytes_eqb_iff name name)) by auto. reflexivity.
    + rewrite (proj2 (foldFunc_spec Ef sf FO WK name name Bn Bn)); [|now apply (fold_refl Ef FO)].
      reflexivity.
  - destruct (_ <=? _)%nat; [eapply findSmall_spec|eapply findLarge_spec]; eauto.
Qed.
