(** Typed decoding accepts only what the specification allows. *)
From Coq Require Import String ZArith List Bool Lia Arith.
From Verif Require Import Base ModelIter ModelStack ModelSkip ModelStr ModelInt ModelFloat ModelRead ModelIterate ModelOps
  ModelFold ModelBase64 Spec Sim SimLib SimSkip SimRaw SimStr SimInt SimFloat SimRead SimIterate SimOps
  NumFacts StrFacts MachineFacts FloatFacts GrammarFacts IntFacts IterateFacts IterFacts SpecBase64 Base64Facts
  FoldFacts ModelVal SimVal SpecVal DecFacts.
Import ListNotations.
Local Open Scope Z_scope.

Lemma items_ws w x ts : ws w -> items x ts -> items (w ++ x) ts.
Proof.
  intros Hw [w1 t w2 H1 H2|w1 t w2 r ts' H1 H2 H3]; rewrite app_assoc; constructor; auto; now apply ws_app.
Qed.
Lemma pairs_ws w x ps : ws w -> pairs x ps -> pairs (w ++ x) ps.
Proof.
  intros Hw H. destruct H; rewrite app_assoc; constructor; auto; now apply ws_app.
Qed.

Ltac app_eq := repeat (progress (rewrite <- ?app_assoc; cbn [app])); reflexivity.
Section Dec.
Variables F32 F64 : floatOps.
Variable C : custom.
Notation gval := (gval F32 F64 C).
Variable E : env F32 F64 C.
Notation zero := (zero F32 F64 C E).
Notation under := (under F32 F64 C E).
Variables b d : bool.
Variable sf : Z -> Z.
Variable cs : bool.
Hypothesis sane32 : float_sane F32.
Hypothesis sane64 : float_sane F64.
Notation lookup := (findField sf cs).
Notation decodes := (decodes F32 F64 C E lookup b d).
Notation elems := (elems F32 F64 C E lookup b d).
Notation overwrite := (overwrite F32 F64 C E lookup b d).
Notation entries := (entries F32 F64 C E lookup b d).
Notation members := (members F32 F64 C E lookup b d).
Notation at_path := (at_path F32 F64 C E lookup b d).
Notation pdecoder := (pdecoder F32 F64 C).

(** ** Maps and interface{} values *)
#[local] Arguments key_eq_dec : simpl never.
Lemma mapassign_put m k (v : gval) : mapassign F32 F64 C m k v = put F32 F64 C m k v.
Proof.
  induction m as [|[k' v'] m IH]; simpl; auto.
  assert (H : key_eqb k' k = if key_eq_dec k' k then true else false).
  { destruct (key_eq_dec k' k) as [->|Hn].
    - destruct k; simpl; [destruct (bytes_eqb_spec s s); congruence|apply Z.eqb_refl|apply Z.eqb_refl].
    - destruct k', k; simpl; auto.
      + destruct (bytes_eqb_spec s s0); congruence.
      + destruct (Z.eqb_spec z z0); congruence.
      + destruct (Z.eqb_spec z z0); congruence. }
  rewrite H. destruct (key_eq_dec k' k); auto. now rewrite IH.
Qed.
Notation of_read := (of_read F32 F64 C).
Definition kv (p : bytes * ModelRead.gval F64) : key * gval := (KS (fst p), of_read (snd p)).
Lemma map_set_put m k v : map kv (map_set F64 m k v) = put F32 F64 C (map kv m) (KS k) (of_read v).
Proof.
  induction m as [|[k' v'] m IH]; simpl; auto. destruct (key_eq_dec (KS k') (KS k)) as [Hk|Hn].
  - injection Hk as ->. destruct (bytes_eqb_spec k k); [reflexivity|congruence].
  - destruct (bytes_eqb_spec k' k); [congruence|]. simpl. now rewrite IH.
Qed.
Lemma iface_gconv j : iface_of F32 F64 C b j = option_map of_read (gconv F64 b j).
Proof.
  induction j as [|x|t|s|l IH|ms IH] using jval_ind2; auto.
  - simpl. destruct b; auto. now destruct (fl_parse F64 t).
  - simpl. rewrite mapS_mapM.
    assert (H : (fix go (l : list jval) := match l with
        | [] => Some []
        | j :: r => match iface_of F32 F64 C b j, go r with Some v, Some vs => Some (v :: vs) | _, _ => None end
        end) l = option_map (map of_read) (mapM (gconv F64 b) l)).
    { induction IH as [|j l Hj _ IHl]; simpl; auto. rewrite Hj, IHl.
      destruct (gconv F64 b j); simpl; auto. now destruct (mapM (gconv F64 b) l). }
    rewrite H. now destruct (mapM (gconv F64 b) l).
  - simpl. rewrite mapS_mapM.
    assert (H : forall m, (fix go (m : list (key * gval)) (ms : list (bytes * jval)) := match ms with
        | [] => Some m
        | (k, j) :: r => match iface_of F32 F64 C b j with Some v => go (put F32 F64 C m (KS k) v) r | None => None end
        end) (map kv m) ms = option_map (fun xs => map kv (fold_left (fun s p => map_set F64 s (fst p) (snd p)) xs m))
          (mapM (fun m0 : bytes * jval => match m0 with (k, j') => match gconv F64 b j' with Some v => Some (k, v) | None => None end end) ms)).
    { induction IH as [|[k j] l Hj _ IHl]; simpl; auto. intros m. simpl in Hj. rewrite Hj.
      destruct (gconv F64 b j) as [v|]; simpl; auto. rewrite <- map_set_put, IHl.
      now destruct (mapM _ l). }
    specialize (H []). change (map kv []) with (@nil (key * gval)) in H. rewrite H. now destruct (mapM _ ms).
Qed.

(** ** Decoders of single values *)
Definition soundD (p : pdecoder) (T : ty) : Prop := forall o old f l v r, p o old f l = POk v r ->
  exists w t, l = w ++ t ++ r /\ ws w /\ decodes T o old t v.

Lemma null_inv (v : gval) f c l a r : p_readNull F32 F64 C v f (c :: l) = POk a r -> l = bs "ull" ++ r /\ a = v.
Proof. unfold p_readNull. rewrite inc_run. apply expect_spec. discriminate. Qed.
Lemma null_run (v : gval) f r : p_readNull F32 F64 C v f (bs "null" ++ r) = POk v r.
Proof. change (bs "null" ++ r) with (110 :: bs "ull" ++ r). unfold p_readNull. rewrite inc_run. apply expect_spec; auto. discriminate. Qed.

Ltac lit H := apply expect_spec in H; [|discriminate]; destruct H as [-> ->].
Lemma sound_bool : soundD (p_boolDecoder F32 F64 C) TBool.
Proof.
  intros o old f l v r H. apply next_inv in H. destruct H as (w & c & l1 & -> & Hw & Hc & H). exists w.
  destruct (Z.eqb_spec c c_n) as [->|Hcn].
  { apply null_inv in H. destruct H as [-> ->]. exists (bs "null"). split; auto. split; auto. now apply d_null. }
  destruct (Z.eqb_spec c c_t) as [->|Hct].
  { rewrite inc_run in H. lit H. exists (bs "true"). split; auto. split; auto. constructor. }
  destruct (Z.eqb_spec c c_f) as [->|Hcf].
  { rewrite inc_run in H. lit H. exists (bs "false"). split; auto. split; auto. constructor. }
  destruct (Z.eqb_spec c cQUOTE) as [->|]; [|discriminate].
  destruct (o_quoted o) eqn:Ho; [|discriminate]. cbv beta iota delta [negb] in H. rewrite inc_run in H.
  apply next_inv in H. destruct H as (w2 & c2 & l2 & -> & Hw2 & Hc2 & H). rewrite inc_run in H.
  destruct (Z.eqb_spec c2 c_t) as [->|]; [|destruct (Z.eqb_spec c2 c_f) as [->|]; [|destruct (Z.eqb_spec c2 c_n) as [->|]; [|discriminate]]];
    lit H; eexists.
  - split; [|split; [auto|apply (d_quoted_true _ _ _ _ _ _ _ o old w2); auto]]. unfold quote. simpl. now rewrite <- !app_assoc.
  - split; [|split; [auto|apply (d_quoted_false _ _ _ _ _ _ _ o old w2); auto]]. unfold quote. simpl. now rewrite <- !app_assoc.
  - split; [|split; [auto|apply (d_quoted_null _ _ _ _ _ _ _ o old w2); auto]]. unfold quote. simpl. now rewrite <- !app_assoc.
Qed.

Lemma nth_last (l : bytes) x y : nth (length (l ++ [x]) - 1) (l ++ [x]) y = x.
Proof. rewrite app_length. simpl. replace (length l + 1 - 1)%nat with (length l + 0)%nat by lia. now rewrite app_nth2_plus. Qed.
Lemma readQuoted_spec s sub : nth 0 s 0 = 34 -> nth (length s - 1) s 0 = 34 ->
  (p_readQuoted s = Some sub <-> exists x, s = quote x /\ string_body x sub).
Proof.
  intros H0 H1. unfold p_readQuoted. split.
  - destruct (p_ReadString EEOF s) as [sub' rest|] eqn:Er; [|discriminate]. apply ReadString_spec in Er.
    destruct Er as (w & x & -> & Hw & Hx). destruct (p_nextToken EEOF rest) as [|e] eqn:En; [discriminate|].
    destruct (err_eqb_eof e) eqn:Ee; [|discriminate]. intros [= ->]. apply eof_iff in Ee. subst e.
    apply nextToken_eof_inv in En. destruct En as [_ Hr].
    destruct w as [|c w]; [|simpl in H0; subst c; inversion Hw as [|? ? Hc _]; subst; exfalso; revert Hc; unfold is_ws; lia].
    exists x. split; [|auto]. unfold quote. simpl. f_equal. f_equal.
    destruct rest as [|c rest]; auto. exfalso.
    destruct (exists_last (l := c :: rest) ltac:(discriminate)) as (q & z & Eq). rewrite Eq in H1, Hr.
    simpl app in H1. replace (34 :: x ++ 34 :: q ++ [z]) with ((34 :: x ++ 34 :: q) ++ [z]) in H1 by (simpl; now rewrite <- app_assoc).
    rewrite nth_last in H1. subst z. apply Forall_app in Hr. destruct Hr as [_ Hr]. inversion Hr as [|? ? Hz _]; subst.
    revert Hz. unfold is_ws. lia.
  - intros (x & -> & Hx). assert (Er : p_ReadString EEOF (quote x) = POk sub []).
    { apply ReadString_spec. exists [], x. split; [reflexivity|]. split; [apply ws_nil|auto]. }
    rewrite Er. rewrite nextToken_end by apply ws_nil. reflexivity.
Qed.
Lemma quote_app x r : quote x ++ r = 34 :: x ++ 34 :: r.
Proof. unfold quote. simpl. now rewrite <- app_assoc. Qed.
Lemma sound_string : soundD (p_stringDecoder F32 F64 C) TString.
Proof.
  intros o old f l v r H. apply next_inv in H. destruct H as (w & c & l1 & -> & Hw & Hc & H). exists w.
  destruct (Z.eqb_spec c cQUOTE) as [->|Hq].
  2:{ destruct (Z.eqb_spec c c_n) as [->|]; [|discriminate].
      apply null_inv in H. destruct H as [-> ->]. exists (bs "null"). split; auto. split; auto. now apply d_null. }
  rewrite inc_run in H. apply pbind_ok in H. destruct H as (s & l2 & Hs & H).
  apply readString_spec in Hs. destruct Hs as (x & -> & Hx). exists (quote x).
  destruct (o_quoted o) eqn:Ho; cbv beta iota delta [negb] in H.
  - destruct (Nat.ltb_spec (length s) 2); [discriminate|].
    destruct (Z.eqb_spec (nth 0 s 0) c_n) as [|Hn].
    { destruct (bytes_eqb_spec s (bs "null")) as [->|]; [|discriminate]. apply POk_inj in H. destruct H as [<- <-].
      rewrite quote_app. split; auto. split; auto. now apply d_quoted_string_null. }
    destruct (Z.eqb_spec (nth 0 s 0) cQUOTE) as [N0|]; [|discriminate].
    destruct (Z.eqb_spec (nth (length s - 1) s 0) cQUOTE) as [N1|]; [|discriminate]. cbv beta iota delta [negb] in H.
    destruct (p_readQuoted s) as [sub|] eqn:Eq; [|discriminate]. apply POk_inj in H. destruct H as [<- <-].
    apply readQuoted_spec in Eq; auto. destruct Eq as (x' & -> & Hx').
    rewrite quote_app. split; auto. split; auto. eapply d_quoted_string; eauto.
  - apply POk_inj in H. destruct H as [<- <-]. rewrite quote_app. split; auto. split; auto. now apply d_string.
Qed.
Lemma sound_int s w : soundD (p_intDecoder F32 F64 C s w) (TInt s w).
Proof.
  intros o old f l v r H. apply next_inv in H. destruct H as (w1 & c & l1 & -> & Hw & Hc & H). exists w1.
  destruct (Z.eqb_spec c c_n) as [->|Hcn].
  { apply null_inv in H. destruct H as [-> ->]. exists (bs "null"). split; auto. split; auto. now apply d_null. }
  destruct (o_quoted o || o_mapKey o) eqn:Ho.
  - destruct (Z.eqb_spec c cQUOTE) as [->|]; [|discriminate]. cbv beta iota delta [negb] in H.
    apply pbind_ok in H. destruct H as (c' & l2 & H1 & H). rewrite inc_run in H1.
    destruct l1 as [|x l1]; [discriminate|]. simpl in H1. injection H1 as <- <-. rewrite inc_run in H.
    apply pbind_ok in H. destruct H as (i & l2 & Hi & H). apply intOf_sound in Hi. destruct Hi as (t & -> & Ht & Hr).
    destruct l2 as [|y l2]; [discriminate|]. rewrite (pbind_run _ _ _ _ y (y :: l2)) in H by reflexivity.
    destruct (Z.eqb_spec y cQUOTE) as [->|]; [|discriminate]. cbv beta iota delta [negb] in H. rewrite inc_run in H.
    apply POk_inj in H. destruct H as [<- <-]. exists (quote (x :: t)). split; [now rewrite quote_app|]. split; auto.
    apply d_quoted_int; auto. now apply orb_true_iff in Ho.
  - rewrite (pbind_run _ _ _ _ c (c :: l1)) in H by reflexivity. rewrite inc_run in H.
    apply pbind_ok in H. destruct H as (i & l2 & Hi & H). apply POk_inj in H. destruct H as [<- <-].
    apply intOf_sound in Hi. destruct Hi as (t & -> & Ht & Hr). exists (c :: t). split; auto. split; auto.
    apply orb_false_iff in Ho. apply d_int; tauto.
Qed.
Lemma sound_float F (sane : float_sane F) inj T :
  null_keeps T = true -> (forall o old t x, number t -> fl_parse F t = inl x -> decodes T o old t (inj x)) ->
  soundD (p_floatDecoder F32 F64 C F inj) T.
Proof.
  intros Hk HT o old f l v r H. apply next_inv in H. destruct H as (w & c & l1 & -> & Hw & Hc & H). exists w.
  destruct (Z.eqb_spec c c_n) as [->|Hcn].
  { apply null_inv in H. destruct H as [-> ->]. exists (bs "null"). split; auto. split; auto. now apply d_null. }
  apply bind_ret in H. destruct H as (x & H & ->). apply ReadFloat_spec in H; auto.
  destruct H as (w2 & t & Et & Hw2 & Hn & _ & Hx). destruct (app_ws_cons _ _ _ _ _ Et Hw2 Hc) as [-> E2]. rewrite E2.
  exists t. split; auto.
Qed.
Lemma isNumber_digit c : isNumberValue (valueTypeMap c) = true -> c = 45 \/ is_digit c.
Proof.
  intros H. destruct (is_digit_dec c); auto. left. destruct (Z.eq_dec c 45); auto.
  assert (Hs : ~ is_ws c -> starts_type c (valueTypeMap c)) by apply starts_type_map.
  destruct (valueTypeMap c) eqn:Ev; try discriminate.
  destruct (is_space c) eqn:Es.
  - apply is_space_ws in Es. exfalso. revert Ev. destruct Es as [->|[->|[->| ->]]]; discriminate.
  - apply is_space_nws in Es. specialize (Hs Es). inversion Hs; subst; tauto.
Qed.
Lemma digit_isNumber c : c = 45 \/ is_digit c -> valueTypeMap c = NumberValue.
Proof. intros H. apply starts_type_fun. destruct H as [->|]; now constructor. Qed.
Lemma sound_number : soundD (p_jsonNumberDecoder F32 F64 C) TNumber.
Proof.
  intros o old f l v r H. apply next_inv in H. destruct H as (w & c & l1 & -> & Hw & Hc & H). exists w.
  assert (Hst := starts_type_map c Hc).
  destruct (valueTypeMap c) eqn:Ev; try discriminate.
  - assert (c = 34) as -> by (inversion Hst; auto). rewrite inc_run in H.
    destruct l1 as [|x l1]; [discriminate|]. rewrite (pbind_run _ _ _ _ x (x :: l1)) in H by reflexivity.
    destruct (isNumberValue (valueTypeMap x)) eqn:Ex; [|discriminate]. cbv beta iota delta [negb] in H.
    apply isNumber_digit in Ex. rewrite inc_run in H. apply pbind_ok in H. destruct H as (s & l2 & Hs & H).
    apply capturedNumber in Hs; auto. destruct Hs as (t & Hn & -> & _ & ->).
    destruct l2 as [|y l2]; [discriminate|]. rewrite (pbind_run _ _ _ _ y (y :: l2)) in H by reflexivity.
    destruct (Z.eqb_spec y cQUOTE) as [->|]; [|discriminate]. cbv beta iota delta [negb] in H. rewrite inc_run in H.
    apply POk_inj in H. destruct H as [<- <-]. exists (quote (x :: t)). split; [now rewrite quote_app|]. split; auto.
    now apply d_number_string.
  - rewrite inc_run in H. apply bind_ret in H. destruct H as (s & Hs & ->).
    assert (Hd : c = 45 \/ is_digit c) by (apply isNumber_digit; now rewrite Ev).
    apply capturedNumber in Hs; auto. destruct Hs as (t & Hn & -> & _ & ->).
    exists (c :: t). split; auto. split; auto. now apply d_number.
  - assert (c = 110) as -> by (inversion Hst; auto). apply null_inv in H. destruct H as [-> ->].
    exists (bs "null"). split; auto. split; auto. now apply d_null.
Qed.
Lemma AppendRaw_spec f l v r : p_AppendRaw [] f l = POk v r <->
  exists w j, l = w ++ v ++ r /\ ws w /\ value v j /\ vends v j f r.
Proof.
  rewrite <- SkipRaw_spec. unfold p_AppendRaw. rewrite bind_ret. simpl. split; [intros (a & H & ->)|]; eauto.
Qed.
Lemma sound_raw : soundD (p_jsonRawMessageDecoder F32 F64 C) TRaw.
Proof.
  intros o old f l v r H. apply bind_ret in H. destruct H as (t & H & ->). apply AppendRaw_spec in H.
  destruct H as (w & j & -> & Hw & Hj & _). exists w, t. split; auto. split; auto. eapply d_raw; eauto.
Qed.
Lemma method_inv m (old : gval) x f l v r : p_method F32 F64 C m old x f l = POk v r ->
  exists s s', old = VObj s /\ m s x = inl s' /\ v = VObj s' /\ l = r.
Proof.
  unfold p_method. destruct old; try discriminate. destruct (m x0 x) as [s'|] eqn:Em; [|discriminate].
  intros H. apply POk_inj in H. destruct H as [<- <-]. exists x0, s'. auto.
Qed.
Lemma sound_json id : soundD (p_jsonUnmarshalerDecoder F32 F64 C id) (TJson id).
Proof.
  intros o old f l v r H. apply pbind_ok in H. destruct H as (t & l2 & H1 & H). apply SkipRaw_spec in H1.
  destruct H1 as (w & j & -> & Hw & Hj & _). apply method_inv in H. destruct H as (s & s' & -> & Hm & -> & ->).
  exists w, t. split; auto. split; auto. eapply d_json; eauto.
Qed.
Lemma sound_text id : soundD (p_textUnmarshalerDecoder F32 F64 C id) (TText id).
Proof.
  intros o old f l v r H. apply next_inv in H. destruct H as (w & c & l1 & -> & Hw & Hc & H). exists w.
  destruct (Z.eqb_spec c cQUOTE) as [->|].
  - rewrite inc_run in H. apply pbind_ok in H. destruct H as (x & l2 & Hx & H). apply readString_spec in Hx.
    destruct Hx as (y & -> & Hy). apply method_inv in H. destruct H as (s & s' & -> & Hm & -> & ->).
    exists (quote y). rewrite quote_app. split; auto. split; auto. eapply d_text; eauto.
  - destruct (Z.eqb_spec c c_n) as [->|]; [|discriminate].
    apply null_inv in H. destruct H as [-> ->]. exists (bs "null"). split; auto. split; auto. now apply d_null.
Qed.

(** ** Pointers, arrays, slices *)
Lemma not_null c t l r w : c <> 110 -> ws w -> ~ is_ws c -> c :: l = w ++ t ++ r -> w = [] /\ t <> bs "null" /\ c :: l = t ++ r.
Proof.
  intros Hc Hw Hs H. destruct (app_ws_cons _ _ _ _ _ H Hw Hs) as [-> E2]. split; auto. split; auto. intros ->.
  change (bs "null" ++ r) with (110 :: bs "ull" ++ r) in E2. congruence.
Qed.
Lemma sound_ptr T p : soundD p T -> soundD (p_pointerDecoder F32 F64 C (zero T) p) (TPtr T).
Proof.
  intros HP o old f l v r H. apply next_inv in H. destruct H as (w & c & l1 & -> & Hw & Hc & H). exists w.
  destruct (Z.eqb_spec c c_n) as [->|Hcn].
  { apply null_inv in H. destruct H as [-> ->]. exists (bs "null"). split; auto. split; auto. constructor. }
  destruct old as [| | | | | | |q| | | | |]; try discriminate. apply bind_ret in H. destruct H as (x & H & ->).
  apply HP in H. destruct H as (w2 & t & Et & Hw2 & HD).
  destruct (not_null _ _ _ _ _ Hcn Hw2 Hc Et) as (-> & Hn & E2). rewrite E2. exists t. split; auto. split; auto.
  destruct q; [now apply d_ptr_old|now apply d_ptr_new].
Qed.

Lemma upd_app {A} (l1 : list A) x l2 y : upd (l1 ++ x :: l2) (length l1) y = l1 ++ y :: l2.
Proof. induction l1 as [|z l1 IH]; simpl; auto. now rewrite IH. Qed.
Lemma nth_error_mid {A} (l1 : list A) x l2 : nth_error (l1 ++ x :: l2) (length l1) = Some x.
Proof. rewrite nth_error_app2 by lia. now rewrite Nat.sub_diag. Qed.
Lemma app_cons_assoc {A} (l1 : list A) x l2 : l1 ++ x :: l2 = (l1 ++ [x]) ++ l2.
Proof. now rewrite <- app_assoc. Qed.
Lemma firstn_app_len {A} (l1 l2 : list A) : firstn (length l1) (l1 ++ l2) = l1.
Proof. now rewrite firstn_app, Nat.sub_diag, firstn_all, app_nil_r. Qed.

Lemma sound_arrayLoop T p n : soundD p T -> forall a1 a2 f l st r,
  p_arrayLoop F32 F64 C n p (length a1) (a1 ++ a2) f l = POk st r ->
  exists body ts vs, l = body ++ 93 :: r /\ items body ts /\ overwrite T a2 ts vs /\
    firstn (fst st) (snd st) ++ repeat (zero T) (length (a1 ++ a2) - fst st) = a1 ++ vs.
Proof.
  intros HP. induction n as [|n IH]; intros a1 a2 f l st r H; [discriminate|]. simpl in H.
  destruct a2 as [|x a2].
  - replace (nth_error (a1 ++ []) (length a1)) with (@None gval) in H
      by (symmetry; apply nth_error_None; rewrite app_nil_r; lia).
    apply pbind_ok in H. destruct H as (st' & l1 & H1 & H). apply bind_ret in H1. destruct H1 as ([] & H1 & ->).
    apply Skip_spec in H1. destruct H1 as (w & t & j & -> & Hw & Hj & _).
    apply next_inv in H. destruct H as (w2 & c & l2 & -> & Hw2 & Hc & H). rewrite inc_run in H.
    destruct (Z.eqb_spec c cRBRACK) as [->|].
    + apply POk_inj in H. destruct H as [<- <-]. exists (w ++ t ++ w2), [t], []. split; [now rewrite <- !app_assoc|].
      split; [now constructor|]. split; [apply ov_skip; eauto|].
      simpl. rewrite app_nil_r, Nat.sub_diag, firstn_all. now rewrite app_nil_r.
    + destruct (Z.eqb_spec c cCOMMA) as [->|]; [|discriminate]. cbv beta iota delta [negb fst snd] in H.
      apply IH in H. destruct H as (body & ts & vs & -> & Hb & Ho & Hv).
      exists (w ++ t ++ w2 ++ 44 :: body), (t :: ts), vs. split; [app_eq|].
      split; [now constructor|]. split; auto.
      inversion Ho; subst; apply ov_skip; constructor; eauto.
  - rewrite nth_error_mid in H.
    apply pbind_ok in H. destruct H as (st' & l1 & H1 & H). apply bind_ret in H1. destruct H1 as (v' & H1 & ->).
    apply HP in H1. destruct H1 as (w & t & -> & Hw & Hd). rewrite upd_app in H.
    apply next_inv in H. destruct H as (w2 & c & l2 & -> & Hw2 & Hc & H). rewrite inc_run in H.
    destruct (Z.eqb_spec c cRBRACK) as [->|].
    + apply POk_inj in H. destruct H as [<- <-]. exists (w ++ t ++ w2), [t], (v' :: repeat (zero T) (length a2)).
      split; [now rewrite <- !app_assoc|]. split; [now constructor|].
      split; [apply ov_next; auto; apply ov_zero|].
      cbv beta iota delta [fst snd]. rewrite (app_cons_assoc a1 v' a2). 
      replace (S (length a1)) with (length (a1 ++ [v'])) by (rewrite app_length; simpl; lia).
      rewrite firstn_app_len, <- app_assoc.
      replace (length (a1 ++ x :: a2) - length (a1 ++ [v']))%nat with (length a2) by (rewrite !app_length; simpl; lia). reflexivity.
    + destruct (Z.eqb_spec c cCOMMA) as [->|]; [|discriminate]. cbv beta iota delta [negb fst snd] in H.
      rewrite (app_cons_assoc a1 v' a2) in H. replace (S (length a1)) with (length (a1 ++ [v'])) in H by (rewrite app_length; simpl; lia).
      apply IH in H. destruct H as (body & ts & vs & -> & Hb & Ho & Hv).
      exists (w ++ t ++ w2 ++ 44 :: body), (t :: ts), (v' :: vs). split; [app_eq|].
      split; [now constructor|]. split; [now constructor|].
      rewrite (app_cons_assoc a1 v' vs), <- Hv.
      replace (length (a1 ++ x :: a2)) with (length ((a1 ++ [v']) ++ a2)) by (rewrite !app_length; simpl; lia). reflexivity.
Qed.
Lemma sound_array n T p : soundD p T -> soundD (p_arrayDecoder F32 F64 C (zero T) p) (TArray n T).
Proof.
  intros HP o old f l v r H. apply next_inv in H. destruct H as (w & c & l1 & -> & Hw & Hc & H). exists w.
  destruct (Z.eqb_spec c c_n) as [->|Hcn].
  { apply null_inv in H. destruct H as [-> ->]. exists (bs "null"). split; auto. split; auto. now constructor. }
  destruct (Z.eqb_spec c cLBRACK) as [->|]; [|discriminate]. cbv beta iota delta [negb] in H.
  destruct old as [| | | | | | | |a| | | |]; try discriminate. rewrite inc_run in H.
  apply next_inv in H. destruct H as (w2 & c2 & l2 & -> & Hw2 & Hc2 & H).
  apply bind_ret in H. destruct H as (st & H & ->).
  destruct (Z.eqb_spec c2 cRBRACK) as [->|Hn2].
  - rewrite inc_run in H. apply POk_inj in H. destruct H as [<- <-]. exists (91 :: w2 ++ [93]).
    split; [simpl; now rewrite <- app_assoc|]. split; auto. eapply d_array; [now constructor|]. simpl. rewrite Nat.sub_0_r. apply ov_zero.
  - rewrite fuel_eq in H. apply (sound_arrayLoop T p _ HP [] a) in H. destruct H as (body & ts & vs & -> & Hb & Ho & Hv).
    apply (items_ws w2) in Hb; auto.
    exists (91 :: (w2 ++ body) ++ [93]). split; [simpl; now rewrite <- !app_assoc|]. split; auto.
    simpl app in Hv. rewrite Hv. eapply d_array; eauto. now constructor.
Qed.
Lemma sound_sliceLoop T p n : soundD p T -> forall acc f l vs r,
  p_sliceLoop F32 F64 C n (zero T) p acc f l = POk vs r ->
  exists body ts vs', l = body ++ 93 :: r /\ items body ts /\ elems T ts vs' /\ vs = acc ++ vs'.
Proof.
  intros HP. induction n as [|n IH]; intros acc f l vs r H; [discriminate|]. simpl in H.
  apply pbind_ok in H. destruct H as (v & l1 & H1 & H).
  apply HP in H1. destruct H1 as (w & t & -> & Hw & Hd).
  apply next_inv in H. destruct H as (w2 & c & l2 & -> & Hw2 & Hc & H). rewrite inc_run in H.
  destruct (Z.eqb_spec c cRBRACK) as [->|].
  - apply POk_inj in H. destruct H as [<- <-]. exists (w ++ t ++ w2), [t], [v].
    split; [app_eq|]. split; [now constructor|]. split; auto. constructor; auto. constructor.
  - destruct (Z.eqb_spec c cCOMMA) as [->|]; [|discriminate]. cbv beta iota delta [negb] in H.
    apply IH in H. destruct H as (body & ts & vs' & -> & Hb & Ho & ->).
    exists (w ++ t ++ w2 ++ 44 :: body), (t :: ts), (v :: vs'). split; [app_eq|].
    split; [now constructor|]. split; [now constructor|]. app_eq.
Qed.
Lemma body_spec f l x r : p_body f l = POk x r <-> exists s, l = x ++ 34 :: r /\ string_body x s.
Proof.
  unfold p_body, p_captured. assert (HS := skipString_body f l).
  destruct (p_skipString f l) as [[] r0|e].
  - split.
    + intros H. apply POk_inj in H. destruct H as [<- <-]. destruct (proj1 (HS r0) eq_refl) as (y & s & -> & Hy). exists s.
      assert (Ey : removelast ([] ++ firstn (length (y ++ 34 :: r0) - length r0) (y ++ 34 :: r0)) = y).
      { rewrite app_length. simpl length. replace (length y + S (length r0) - length r0)%nat with (length (y ++ [34])) by (rewrite app_length; simpl; lia).
        rewrite (app_cons_assoc y 34 r0), firstn_app_len. simpl. apply removelast_last. }
      rewrite Ey. auto.
    + intros (s & -> & Hy). destruct (proj1 (HS r0) eq_refl) as (y & s' & E' & Hy').
      destruct (body_cut _ _ _ _ _ _ Hy Hy' E') as (-> & _ & ->). f_equal.
      rewrite app_length. simpl length. replace (length y + S (length r0) - length r0)%nat with (length (y ++ [34])) by (rewrite app_length; simpl; lia).
      rewrite (app_cons_assoc y 34 r0), firstn_app_len. simpl. apply removelast_last.
  - split; [discriminate|]. intros (s & -> & Hy). assert (K : @PErr unit e = POk tt r) by (apply HS; eauto). discriminate.
Qed.
Lemma hex_ge c v : hex c v -> 32 <= c.
Proof. intros []; lia. Qed.
Lemma body_ge x s : string_body x s -> Forall (fun c => 32 <= c) x.
Proof.
  intros (us & H & _). induction H as [|c l us Hc1 Hc2 Hc3 H IH|e v l us He H IH|h u l us Hh H IH]; auto.
  - constructor; [lia|]. constructor; auto. destruct He; lia.
  - constructor; [lia|]. constructor; [lia|]. apply Forall_app. split; auto.
    destruct Hh as [a0 b0 c0 d0 va vb vc vd Ha Hb Hc Hd]. repeat apply Forall_cons; auto; eapply hex_ge; eauto.
Qed.
Lemma body_no_breaks x s : string_body x s -> no_breaks x = x.
Proof.
  intros H. apply body_ge in H. induction H as [|c l Hc _ IH]; auto. simpl.
  destruct (Z.eqb_spec c 10); [lia|]. destruct (Z.eqb_spec c 13); [lia|]. simpl. now rewrite IH.
Qed.
Lemma sound_slice T p : soundD p T ->
  soundD (p_sliceDecoder F32 F64 C (match under T with TInt false W8 => true | _ => false end) (zero T) p) (TSlice T).
Proof.
  intros HP o old f l v r H. apply next_inv in H. destruct H as (w & c & l1 & -> & Hw & Hc & H). exists w.
  destruct (Z.eqb_spec c c_n) as [->|Hcn].
  { apply null_inv in H. destruct H as [-> ->]. exists (bs "null"). split; auto. split; auto. now constructor. }
  destruct (Z.eqb_spec c cQUOTE) as [->|Hcq].
  { destruct (match under T with TInt false W8 => true | _ => false end) eqn:Eu; [|discriminate].
    assert (HT : under T = TInt false W8) by (destruct (under T) as [|[] []| | | | | | | | | | | | | | | |]; congruence).
    cbv beta iota delta [negb] in H. unfold p_readBase64 in H. rewrite inc_run in H.
    apply pbind_ok in H. destruct H as (x & l2 & Hx & H). apply body_spec in Hx. destruct Hx as (s & -> & Hx).
    destruct (b64decode x) as [data|] eqn:Ed; [|discriminate]. apply POk_inj in H. destruct H as [<- <-].
    apply b64decode_spec in Ed. rewrite (body_no_breaks _ _ Hx) in Ed.
    exists (quote x). rewrite quote_app. split; auto. split; auto. eapply d_bytes; eauto. }
  destruct (Z.eqb_spec c cLBRACK) as [->|]; [|discriminate]. cbv beta iota delta [negb] in H. rewrite inc_run in H.
  apply next_inv in H. destruct H as (w2 & c2 & l2 & -> & Hw2 & Hc2 & H).
  apply bind_ret in H. destruct H as (vs & H & ->).
  destruct (Z.eqb_spec c2 cRBRACK) as [->|Hn2].
  - rewrite inc_run in H. apply POk_inj in H. destruct H as [<- <-]. exists (91 :: w2 ++ [93]).
    split; [app_eq|]. split; auto. eapply d_slice; [now constructor|]. constructor.
  - rewrite fuel_eq in H. apply (sound_sliceLoop T p _ HP []) in H. destruct H as (body & ts & vs' & -> & Hb & Ho & ->).
    apply (items_ws w2) in Hb; auto.
    exists (91 :: (w2 ++ body) ++ [93]). split; [app_eq|]. split; auto.
    eapply d_slice; eauto. now constructor.
Qed.

(** ** Maps *)
Lemma sound_key_string f l v r : p_stringDecoder F32 F64 C (mkOpts true false) (VStr []) f l = POk v r ->
  exists w t s, l = w ++ t ++ r /\ ws w /\ key_text C KString t (KS s) /\ v = VStr s.
Proof.
  intros H. apply sound_string in H. destruct H as (w & t & -> & Hw & H). exists w, t.
  inversion H; subst; try discriminate.
  - exists []. split; auto. split; auto. split; auto. constructor.
  - eexists. split; auto. split; auto. split; [|reflexivity]. now constructor.
Qed.
Lemma sound_key_int sg w0 f l v r : p_intDecoder F32 F64 C sg w0 (mkOpts true false) (VInt 0) f l = POk v r ->
  exists w t z, l = w ++ t ++ r /\ ws w /\ key_text C (KInt sg w0) t (KI z) /\ v = VInt z.
Proof.
  intros H. apply sound_int in H. destruct H as (w & t & -> & Hw & H). exists w, t.
  inversion H; subst; try discriminate.
  - exists 0. split; auto. split; auto. split; auto. constructor.
  - eexists. split; auto. split; auto. split; [|reflexivity]. now constructor.
Qed.
Lemma sound_key k kp f l v r : p_keyDecoder F32 F64 C k = Some kp -> kp (mkOpts true false) (keyZero F32 F64 C k) f l = POk v r ->
  exists w t kk, l = w ++ t ++ r /\ ws w /\ key_text C k t kk /\ toKey F32 F64 C k v = Some kk.
Proof.
  intros E0 H. destruct k as [|s w0|kd [id|] mar]; simpl in E0.
  - injection E0 as <-. apply sound_key_string in H. destruct H as (w & t & x & -> & Hw & H & ->). exists w, t, (KS x). auto.
  - injection E0 as <-. apply sound_key_int in H. destruct H as (w & t & x & -> & Hw & H & ->). exists w, t, (KI x). auto.
  - injection E0 as <-. replace (keyZero F32 F64 C (KUser kd (Some id) mar)) with (@VObj F32 F64 C (cu_zero C id)) in H by now destruct kd.
    apply sound_text in H. destruct H as (w & t & -> & Hw & H). exists w, t. inversion H; subst; eexists; split; auto; split; auto; (split; [|reflexivity]).
    + apply kt_null_text.
    + eapply kt_text; eauto.
  - destruct kd as [|s w0|]; [| |discriminate]; injection E0 as <-.
    + apply sound_key_string in H. destruct H as (w & t & x & -> & Hw & H & ->). exists w, t, (KS x). do 2 (split; auto). split; auto. now constructor.
    + apply sound_key_int in H. destruct H as (w & t & x & -> & Hw & H & ->). exists w, t, (KI x). do 2 (split; auto). split; auto. now constructor.
Qed.
Lemma decodable_in k kp : p_keyDecoder F32 F64 C k = Some kp -> decodable_key k.
Proof. destruct k as [| |[] [] mar]; simpl; auto; discriminate. Qed.
Lemma sound_mapLoop k kp T p n : p_keyDecoder F32 F64 C k = Some kp -> soundD p T -> forall m f l m' r,
  p_mapLoop F32 F64 C n k kp (zero T) p m f l = POk m' r ->
  exists body ps, l = body ++ 125 :: r /\ pairs body ps /\ entries k T m ps m'.
Proof.
  intros HK HP. induction n as [|n IH]; intros m f l m' r H; [discriminate|]. simpl in H.
  apply pbind_ok in H. destruct H as (kv0 & l1 & H1 & H).
  apply (sound_key _ _ _ _ _ _ HK) in H1. destruct H1 as (w1 & kt & kk & -> & Hw1 & Hk & Htk).
  apply next_inv in H. destruct H as (w2 & c & l2 & -> & Hw2 & Hc & H).
  destruct (Z.eqb_spec c cCOLON) as [->|]; [|discriminate]. cbv beta iota delta [negb] in H. rewrite inc_run in H.
  apply pbind_ok in H. destruct H as (v & l3 & H1 & H). apply HP in H1. destruct H1 as (w3 & t & -> & Hw3 & Hd).
  rewrite Htk in H. apply next_inv in H. destruct H as (w4 & c2 & l4 & -> & Hw4 & Hc2 & H).
  destruct (Z.eqb_spec c2 cRBRACE) as [->|]; [|destruct (Z.eqb_spec c2 cCOMMA) as [->|]; [|discriminate]]; rewrite inc_run in H.
  - apply POk_inj in H. destruct H as [<- <-]. exists (w1 ++ kt ++ w2 ++ 58 :: w3 ++ t ++ w4), [(kt, t)].
    split; [app_eq|]. split; [now constructor|]. eapply en_next; eauto. rewrite mapassign_put. constructor.
  - apply IH in H. destruct H as (body & ps & -> & Hb & He).
    exists (w1 ++ kt ++ w2 ++ 58 :: w3 ++ t ++ w4 ++ 44 :: body), ((kt, t) :: ps).
    split; [app_eq|]. split; [now constructor|]. eapply en_next; eauto. now rewrite <- mapassign_put.
Qed.
Lemma sound_map k kp T p : p_keyDecoder F32 F64 C k = Some kp -> soundD p T -> soundD (p_mapDecoder F32 F64 C k kp (zero T) p) (TMap k T).
Proof.
  intros HK HP o old f l v r H. pose proof (decodable_in _ _ HK) as HR. apply next_inv in H. destruct H as (w & c & l1 & -> & Hw & Hc & H). exists w.
  destruct (Z.eqb_spec c c_n) as [->|Hcn].
  { apply null_inv in H. destruct H as [-> ->]. exists (bs "null"). split; auto. split; auto. now constructor. }
  destruct (Z.eqb_spec c cLBRACE) as [->|]; [|discriminate]. cbv beta iota delta [negb] in H.
  destruct old as [| | | | | | | | | |q| |]; try discriminate. rewrite inc_run in H.
  apply next_inv in H. destruct H as (w2 & c2 & l2 & -> & Hw2 & Hc2 & H).
  apply bind_ret in H. destruct H as (m & H & ->).
  destruct (Z.eqb_spec c2 cRBRACE) as [->|Hn2].
  - rewrite inc_run in H. apply POk_inj in H. destruct H as [<- <-]. exists (123 :: w2 ++ [125]).
    split; [app_eq|]. split; auto. eapply d_map; [auto|now constructor|]. constructor.
  - rewrite fuel_eq in H. apply (sound_mapLoop k kp T p _ HK HP) in H. destruct H as (body & ps & -> & Hb & He).
    apply (pairs_ws w2) in Hb; auto.
    exists (123 :: (w2 ++ body) ++ [125]). split; [app_eq|]. split; auto.
    eapply d_map; eauto. now constructor.
Qed.

(** ** Structs *)
Lemma nth_split {A} (l : list A) i x : nth_error l i = Some x -> exists l1 l2, l = l1 ++ x :: l2 /\ i = length l1.
Proof. intros H. apply nth_error_split in H. destruct H as (l1 & l2 & -> & <-). eauto. Qed.
Lemma sound_follow T o p : (forall x f l v r, p x f l = POk v r -> exists w t, l = w ++ t ++ r /\ ws w /\ decodes T o x t v) ->
  forall path x f l v r, p_follow F32 F64 C E path p x f l = POk v r ->
  exists w t, l = w ++ t ++ r /\ ws w /\ at_path path T o x t v.
Proof.
  intros HP. induction path as [|[i|alloc] path IH]; intros x f l v r H; simpl in H.
  - apply HP in H. destruct H as (w & t & -> & Hw & H). exists w, t. split; auto. split; auto. now constructor.
  - destruct x; try discriminate. destruct (nth_error l0 i) as [y|] eqn:En; [|discriminate].
    apply nth_split in En. destruct En as (l1 & l2 & -> & ->).
    apply bind_ret in H. destruct H as (y' & H & ->). apply IH in H. destruct H as (w & t & -> & Hw & H).
    exists w, t. split; auto. split; auto. rewrite upd_app. now constructor.
  - destruct x as [| | | | | | |q| | | | |]; try discriminate. destruct q as [y|].
    + apply bind_ret in H. destruct H as (y' & H & ->). apply IH in H. destruct H as (w & t & -> & Hw & H).
      exists w, t. split; auto. split; auto. now constructor.
    + destruct alloc as [T'|]; [|discriminate].
      apply bind_ret in H. destruct H as (y' & H & ->). apply IH in H. destruct H as (w & t & -> & Hw & H).
      exists w, t. split; auto. split; auto. now constructor.
Qed.
Definition infos (dec : ty -> pdecoder) (fs : list (field ty)) :=
  map (fun fd => pInfo F32 F64 C (f_path fd) (f_quoted fd) (dec (f_type fd))) fs.
Lemma sound_structLoop fs dec n : (forall T, soundD (dec T) T) -> forall v f l v' r,
  p_structLoop F32 F64 C E d n (lookup (map f_name fs)) (infos dec fs) v f l = POk v' r ->
  exists body ps, 34 :: l = body ++ 125 :: r /\ pairs body ps /\ members fs v ps v'.
Proof.
  intros HP. induction n as [|n IH]; intros v f l v' r H; [discriminate|]. simpl in H.
  apply pbind_ok in H. destruct H as (name & l1 & H1 & H). apply field_spec in H1.
  destruct H1 as (x & w2 & Hx & Hw2 & ->).
  apply pbind_ok in H. destruct H as (v1 & l2 & H1 & H).
  assert (HM : exists w3 t, l1 = w3 ++ t ++ l2 /\ ws w3 /\
    forall ps v2, members fs v1 ps v2 -> members fs v ((quote x, t) :: ps) v2).
  { destruct (lookup (map f_name fs) name) as [i|] eqn:El.
    - unfold infos in H1. rewrite nth_error_map in H1. destruct (nth_error fs i) as [fd|] eqn:Ef; [|discriminate]. simpl in H1.
      apply (sound_follow (f_type fd) (mkOpts false (f_quoted fd))) in H1.
      2:{ intros. now apply HP in H0. }
      destruct H1 as (w3 & t & -> & Hw3 & Hp). exists w3, t. split; auto. split; auto. intros. eapply ms_field; eauto.
    - destruct d eqn:Ed; [discriminate|]. apply bind_ret in H1. destruct H1 as ([] & H1 & ->). apply Skip_spec in H1.
      destruct H1 as (w3 & t & j & -> & Hw3 & Hj & _). exists w3, t. split; auto. split; auto. intros. eapply ms_unknown; eauto. }
  destruct HM as (w3 & t & -> & Hw3 & HM).
  apply next_inv in H. destruct H as (w4 & c & l3 & -> & Hw4 & Hc & H).
  destruct (Z.eqb_spec c cRBRACE) as [->|]; [|destruct (Z.eqb_spec c cCOMMA) as [->|]; [|discriminate]]; rewrite inc_run in H.
  - apply POk_inj in H. destruct H as [<- <-].
    exists ([] ++ quote x ++ w2 ++ 58 :: w3 ++ t ++ w4), [(quote x, t)]. split; [simpl; unfold quote; app_eq|].
    split; [constructor; auto; apply ws_nil|]. apply HM. constructor.
  - apply next_inv in H. destruct H as (w5 & c2 & l4 & -> & Hw5 & Hc2 & H).
    destruct (Z.eqb_spec c2 cQUOTE) as [->|]; [|discriminate]. cbv beta iota delta [negb] in H. rewrite inc_run in H.
    apply IH in H. destruct H as (body & ps & Eb & Hb & Hm). rewrite Eb. apply (pairs_ws w5) in Hb; auto.
    exists ([] ++ quote x ++ w2 ++ 58 :: w3 ++ t ++ w4 ++ 44 :: (w5 ++ body)), ((quote x, t) :: ps).
    split; [simpl; unfold quote; app_eq|]. split; [constructor; auto; apply ws_nil|]. now apply HM.
Qed.
Lemma sound_struct layout fs dec : (forall T, soundD (dec T) T) ->
  soundD (p_structDecoder F32 F64 C E d (lookup (map f_name fs)) (infos dec fs)) (TStruct layout fs).
Proof.
  intros HP o old f l v r H. apply next_inv in H. destruct H as (w & c & l1 & -> & Hw & Hc & H). exists w.
  destruct (Z.eqb_spec c c_n) as [->|Hcn].
  { apply null_inv in H. destruct H as [-> ->]. exists (bs "null"). split; auto. split; auto. now constructor. }
  destruct (Z.eqb_spec c cLBRACE) as [->|]; [|discriminate]. cbv beta iota delta [negb] in H. rewrite inc_run in H.
  apply next_inv in H. destruct H as (w2 & c2 & l2 & -> & Hw2 & Hc2 & H).
  destruct (Z.eqb_spec c2 cRBRACE) as [->|Hn2].
  - rewrite inc_run in H. apply POk_inj in H. destruct H as [<- <-]. exists (123 :: w2 ++ [125]).
    split; [app_eq|]. split; auto. eapply d_struct; [now constructor|]. constructor.
  - destruct (Z.eqb_spec c2 cQUOTE) as [->|]; [|discriminate]. cbv beta iota delta [negb] in H. rewrite inc_run in H.
    rewrite fuel_eq in H. apply sound_structLoop in H; auto. destruct H as (body & ps & Eb & Hb & Hm).
    rewrite Eb. apply (pairs_ws w2) in Hb; auto.
    exists (123 :: (w2 ++ body) ++ [125]). split; [app_eq|]. split; auto.
    eapply d_struct; eauto. now constructor.
Qed.
Lemma members_skip v ms x : otail true x ms -> d = false ->
  exists ps, object_text (123 :: x) ps /\ members [] v ps v.
Proof.
  intros H Hd. destruct (otail_members _ _ _ H) as [(-> & w & Hw & ->)|(t & Ht & ->)].
  - exists []. split; [now constructor|constructor].
  - assert (K : exists ps, pairs t ps /\ members [] v ps v).
    { clear H. induction Ht as [w1 x k w2 w3 t j w4 H1 Hx H2 H3 Hj H4|w1 x k w2 w3 t j w4 r ms H1 Hx H2 H3 Hj H4 Hr (ps & IH1 & IH2)].
      - exists [(quote x, t)]. split.
        + replace (w1 ++ 34 :: x ++ 34 :: w2 ++ 58 :: w3 ++ t ++ w4) with (w1 ++ quote x ++ w2 ++ 58 :: w3 ++ t ++ w4) by (unfold quote; app_eq).
          now constructor.
        + eapply ms_unknown; eauto. constructor.
      - exists ((quote x, t) :: ps). split.
        + replace (w1 ++ 34 :: x ++ 34 :: w2 ++ 58 :: w3 ++ t ++ w4 ++ 44 :: r) with (w1 ++ quote x ++ w2 ++ 58 :: w3 ++ t ++ w4 ++ 44 :: r) by (unfold quote; app_eq).
          now constructor.
        + eapply ms_unknown; eauto. }
    destruct K as (ps & K1 & K2). exists ps. split; auto. now constructor.
Qed.
Lemma sound_empty layout : soundD (p_emptyObjectDecoder F32 F64 C d) (TStruct layout []).
Proof.
  intros o old f l v r H. apply next_inv in H. destruct H as (w & c & l1 & -> & Hw & Hc & H). exists w. rewrite inc_run in H.
  destruct (Z.eqb_spec c c_n) as [->|Hcn].
  { lit H. exists (bs "null"). split; auto. split; auto. now constructor. }
  destruct (Z.eqb_spec c cLBRACE) as [->|]; [|discriminate]. destruct d eqn:Ed.
  - apply next_inv in H. destruct H as (w2 & c2 & l2 & -> & Hw2 & Hc2 & H). rewrite inc_run in H.
    destruct (Z.eqb_spec c2 cRBRACE) as [->|]; [|discriminate]. cbv beta iota delta [negb] in H. apply POk_inj in H. destruct H as [<- <-].
    exists (123 :: w2 ++ [125]). split; [app_eq|]. split; auto. eapply d_struct; [now constructor|]. constructor.
  - apply bind_ret in H. destruct H as (u & H & ->). apply skipValue_spec in H. destruct H as (t & j & -> & Hj & _).
    apply value_obj in Hj. destruct Hj as (ms & -> & Ht). exists (123 :: t). split; auto. split; auto.
    destruct (members_skip old ms t Ht) as (ps & H1 & H2); auto. rewrite Ed in H2. eapply d_struct; eauto.
Qed.

(** ** Interfaces *)
Lemma heldPtr_none x P T y : heldPtr F32 F64 C E x = None -> x = Some (P, VPtr (Some y)) -> under P <> TPtr T.
Proof. intros H -> HT. simpl in H. rewrite HT in H. discriminate. Qed.
Lemma heldPtr_some x T y : heldPtr F32 F64 C E x = Some (T, y) -> exists P, x = Some (P, VPtr (Some y)) /\ under P = TPtr T.
Proof.
  destruct x as [[P [| | | | | | |[z|]| | | | |]]|]; try discriminate. simpl. destruct (under P) eqn:EP; try discriminate.
  intros [= <- <-]. exists P. auto.
Qed.
Lemma sound_eface dec : (forall T, soundD (dec T) T) -> soundD (p_efaceDecoder F32 F64 C E b dec) TEface.
Proof.
  intros HP o old f l v r H. unfold p_efaceDecoder in H. destruct old as [| | | | | | | | | | | |x]; try discriminate.
  destruct (heldPtr F32 F64 C E x) as [[T y]|] eqn:Eh.
  - destruct (heldPtr_some _ _ _ Eh) as (P & -> & HT).
    apply next_inv in H. destruct H as (w & c & l1 & -> & Hw & Hc & H). exists w.
    destruct (Z.eqb_spec c c_n) as [->|Hcn].
    + apply null_inv in H. destruct H as [-> ->]. exists (bs "null"). split; auto. split; auto.
      unfold isPtr. destruct (under T) eqn:EU; try (eapply d_eface_null; eauto; congruence).
      eapply d_eface_null_ptr; eauto.
    + apply bind_ret in H. destruct H as (v' & H & ->). apply HP in H. destruct H as (w2 & t & Et & Hw2 & HD).
      destruct (not_null _ _ _ _ _ Hcn Hw2 Hc Et) as (-> & Hn & E2). rewrite E2. exists t. split; auto. split; auto.
      simpl. eapply d_eface_held; eauto.
  - apply bind_ret in H. destruct H as (g & H & ->). apply Read_conv in H; auto.
    destruct H as (w & t & j & -> & Hw & Hj & Hg & _). exists w, t. split; auto. split; auto.
    eapply d_eface; eauto; [intros; eapply heldPtr_none; eauto|]. rewrite iface_gconv, Hg. reflexivity.
Qed.
Lemma sound_iface dec : (forall T, soundD (dec T) T) -> soundD (p_ifaceDecoder F32 F64 C E dec) TIface.
Proof.
  intros HP o old f l v r H. apply next_inv in H. destruct H as (w & c & l1 & -> & Hw & Hc & H). exists w.
  destruct (Z.eqb_spec c c_n) as [->|Hcn].
  { apply null_inv in H. destruct H as [-> ->]. exists (bs "null"). split; auto. split; auto. now constructor. }
  destruct old as [| | | | | | | | | | | |[[P y]|]]; try discriminate.
  destruct (under P) as [| | | | | | | | |T| | | | | | | | ] eqn:EP; try (destruct y as [| | | | | | | | | |[|]| |]; discriminate).
  destruct y as [| | | | | | |[y|]| | | | |]; try discriminate.
  apply bind_ret in H. destruct H as (v' & H & ->). apply HP in H. destruct H as (w2 & t & Et & Hw2 & HD).
  destruct (not_null _ _ _ _ _ Hcn Hw2 Hc Et) as (-> & Hn & E2). rewrite E2. exists t. split; auto. split; auto.
  eapply d_iface_held; eauto.
Qed.

(** ** All types *)
Theorem decode_sound n : forall T, soundD (p_decode F32 F64 C E b d sf cs n T) T.
Proof.
  induction n as [|n IH]; intros T; [discriminate|].
  destruct T as [|s w| | | | | |id|id|T|k T|T|k T|layout fs| | |m|]; simpl.
  - apply sound_bool.
  - apply sound_int.
  - apply sound_float; auto. intros. now apply d_float32.
  - apply sound_float; auto. intros. now apply d_float64.
  - apply sound_string.
  - apply sound_number.
  - apply sound_raw.
  - apply sound_json.
  - apply sound_text.
  - now apply sound_ptr.
  - now apply sound_array.
  - now apply sound_slice.
  - destruct (p_keyDecoder F32 F64 C k) as [kp|] eqn:HK; [now apply sound_map|]. intros o old g l v r H. discriminate.
  - destruct fs as [|fd fs]; [apply sound_empty|]. exact (sound_struct layout (fd :: fs) _ IH).
  - now apply sound_eface.
  - now apply sound_iface.
  - intros o old f l v r H. apply IH in H. destruct H as (w & t & -> & Hw & H). exists w, t. split; auto. split; auto. now constructor.
  - discriminate.
Qed.
End Dec.
