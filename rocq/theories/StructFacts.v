(** Consequences of the specification of typed decoding: struct members, array elements, null, unknown
    members. *)
From Coq Require Import String ZArith List Bool Lia Arith.
From Verif Require Import Base ModelIter ModelStack ModelSkip ModelStr ModelInt ModelFloat ModelRead ModelIterate ModelOps
  ModelFold ModelBase64 Spec Sim SimLib SimSkip SimRaw SimStr SimInt SimFloat SimRead SimIterate SimOps
  NumFacts StrFacts MachineFacts FloatFacts GrammarFacts IntFacts IterateFacts IterFacts SpecBase64 Base64Facts
  FoldFacts ModelVal SimVal SpecVal DecFacts DecSound DecComplete.
Import ListNotations.
Local Open Scope Z_scope.

Lemma nth_ext_error {A} (l m : list A) : (forall i, nth_error l i = nth_error m i) -> l = m.
Proof.
  revert m. induction l as [|x l IH]; intros [|y m] H; auto; [now specialize (H 0%nat)|now specialize (H 0%nat)|].
  f_equal; [now specialize (H 0%nat); injection H|]. apply IH. intros i. apply (H (S i)).
Qed.
(** the texts of the members with a key that stands for the field number [k] of [names] *)
Inductive texts_for (lookup : list bytes -> bytes -> option nat) (names : list bytes) (k : nat) :
  list (bytes * bytes) -> list bytes -> Prop :=
| tf_nil : texts_for lookup names k [] []
| tf_hit x name t ps ts : string_body x name -> lookup names name = Some k -> texts_for lookup names k ps ts ->
    texts_for lookup names k ((quote x, t) :: ps) (t :: ts)
| tf_miss x name t ps ts : string_body x name -> lookup names name <> Some k -> texts_for lookup names k ps ts ->
    texts_for lookup names k ((quote x, t) :: ps) ts.

Section Facts.
Variables F32 F64 : floatOps.
Variable C : custom.
Notation gval := (gval F32 F64 C).
Variable E : env F32 F64 C.
Notation zero := (zero F32 F64 C E).
Notation under := (under F32 F64 C E).
Variable lookup : list bytes -> bytes -> option nat.
Variables b d : bool.
Notation decodes := (decodes F32 F64 C E lookup b d).
Notation elems := (elems F32 F64 C E lookup b d).
Notation overwrite := (overwrite F32 F64 C E lookup b d).
Notation members := (members F32 F64 C E lookup b d).
Notation at_path := (at_path F32 F64 C E lookup b d).

(** ** Elements *)
Lemma elems_iff T ts vs : elems T ts vs <-> Forall2 (fun t v => decodes T noOpts (zero T) t v) ts vs.
Proof.
  split.
  - induction 1; constructor; auto.
  - induction 1; constructor; auto.
Qed.
Lemma overwrite_iff T a ts vs : overwrite T a ts vs <->
  length vs = length a /\
  (forall i x t, nth_error a i = Some x -> nth_error ts i = Some t -> exists v, nth_error vs i = Some v /\ decodes T noOpts x t v) /\
  (forall i, (length ts <= i < length a)%nat -> nth_error vs i = Some (zero T)) /\
  (forall i t, (length a <= i)%nat -> nth_error ts i = Some t -> exists j, value t j).
Proof.
  split.
  - induction 1 as [T ts Hf|T x l t ts v vs Hd Ho IH|T l].
    + split; auto. split; [intros [|i]; discriminate|]. split; [simpl; lia|]. intros i t _ Hi.
      apply (proj1 (Forall_forall _ _) Hf). eapply nth_error_In; eauto.
    + destruct IH as (H1 & H2 & H3 & H4). split; [simpl; congruence|]. split; [|split].
      * intros [|i] x' t' Hx Ht; simpl in *; [|eauto]. injection Hx as <-. injection Ht as <-. eauto.
      * intros [|i] Hi; simpl in *; [lia|]. apply H3. lia.
      * intros [|i] t' Hi Ht; simpl in *; [lia|]. apply (H4 i); auto. lia.
    + split; [apply repeat_length|]. split; [intros [|i]; discriminate|]. split.
      * intros i Hi. apply nth_error_repeat. lia.
      * intros [|i]; discriminate.
  - revert ts vs. induction a as [|x a IH]; intros ts vs (H1 & H2 & H3 & H4).
    + destruct vs; [|discriminate]. apply ov_skip. apply Forall_forall. intros t Ht. apply In_nth_error in Ht. destruct Ht as (i & Hi).
      apply (H4 i); auto. simpl. lia.
    + destruct ts as [|t ts].
      * replace vs with (repeat (zero T) (length (x :: a))); [apply ov_zero|].
        apply nth_ext_error. intros i. destruct (Nat.lt_ge_cases i (length (x :: a))) as [Hi|Hi].
        { rewrite H3 by (simpl in *; lia). apply nth_error_repeat. auto. }
        { rewrite (proj2 (nth_error_None vs i)) by lia. apply nth_error_None. now rewrite repeat_length. }
      * destruct vs as [|v vs]; [discriminate|]. destruct (H2 0%nat x t eq_refl eq_refl) as (v0 & [= <-] & Hd). apply ov_next; auto.
        apply IH. split; [simpl in H1; lia|]. split; [|split].
        { intros i x' t' Hx Ht. exact (H2 (Datatypes.S i) x' t' Hx Ht). }
        { intros i Hi. apply (H3 (Datatypes.S i)). simpl. lia. }
        { intros i t' Hi Ht. apply (H4 (Datatypes.S i)); auto. simpl. lia. }
Qed.

(** ** Members *)
(** decoded one after the other *)
Inductive updates (T : ty) (o : decOpts) : gval -> list bytes -> gval -> Prop :=
| up_nil x : updates T o x [] x
| up_next x t y ts z : decodes T o x t y -> updates T o y ts z -> updates T o x (t :: ts) z.
(** the members that reach into the Go field number [i] of a struct *)
Definition touches (fs : list (field ty)) (ps : list (bytes * bytes)) (i : nat) : Prop :=
  exists x name t k fd path, In (quote x, t) ps /\ string_body x name /\ lookup (map f_name fs) name = Some k /\
    nth_error fs k = Some fd /\ f_path fd = HField i :: path.
Definition in_struct (fs : list (field ty)) : Prop := Forall (fun fd => exists i path, f_path fd = HField i :: path) fs.

Lemma at_path_struct i path T o l t v : at_path (HField i :: path) T o (VStruct l) t v ->
  exists l1 x l2 y, l = l1 ++ x :: l2 /\ length l1 = i /\ v = VStruct (l1 ++ y :: l2) /\ at_path path T o x t y.
Proof. intros H. inversion H; subst. eauto 9. Qed.
Lemma nth_error_other {A} (l1 l2 : list A) x y i : i <> length l1 -> nth_error (l1 ++ y :: l2) i = nth_error (l1 ++ x :: l2) i.
Proof.
  revert i. induction l1 as [|z l1 IH]; intros [|i] H; simpl in *; auto; try congruence.
Qed.
Lemma nth_error_here {A} (l1 l2 : list A) x : nth_error (l1 ++ x :: l2) (length l1) = Some x.
Proof. induction l1; auto. Qed.
Lemma members_frame fs v ps v' : members fs v ps v' -> in_struct fs -> forall l, v = VStruct l ->
  exists l', v' = VStruct l' /\ length l' = length l /\ forall i, ~ touches fs ps i -> nth_error l' i = nth_error l i.
Proof.
  induction 1 as [fs v|fs v x name k fd t v1 ps v2 Hx Hl Hk Hp Hm IH|fs v x name t j ps v2 Hx Hl Hd Hj Hm IH]; intros HF l ->.
  - eauto.
  - assert (HF' := HF). unfold in_struct in HF'. rewrite Forall_forall in HF'. destruct (HF' fd) as (i & path & Ep); [eapply nth_error_In; eauto|].
    rewrite Ep in Hp. apply at_path_struct in Hp. destruct Hp as (l1 & a & l2 & y & -> & <- & -> & Hp).
    destruct (IH HF _ eq_refl) as (l' & -> & Hlen & Hf). exists l'. split; auto. split.
    { rewrite Hlen, !app_length. reflexivity. }
    intros i Hi. rewrite Hf.
    + apply nth_error_other. intros ->. apply Hi. exists x, name, t, k, fd, path. simpl. auto 8.
    + intros (x' & name' & t' & k' & fd' & path' & Hin & Hr). apply Hi. exists x', name', t', k', fd', path'. split; [now right|auto].
  - destruct (IH HF l eq_refl) as (l' & -> & Hlen & Hf). exists l'. split; auto. split; auto. intros i Hi. apply Hf.
    intros (x' & name' & t' & k' & fd' & path' & Hin & Hr). apply Hi. exists x', name', t', k', fd', path'. split; [now right|auto].
Qed.
(** the final value of a field that no other JSON field reaches into *)
Lemma members_field fs v ps v' : members fs v ps v' -> in_struct fs -> forall k fd i, nth_error fs k = Some fd -> f_path fd = [HField i] ->
  (forall k' fd' path, nth_error fs k' = Some fd' -> f_path fd' = HField i :: path -> k' = k) ->
  forall l x, v = VStruct l -> nth_error l i = Some x ->
  exists l' ts y, v' = VStruct l' /\ texts_for lookup (map f_name fs) k ps ts /\ nth_error l' i = Some y /\
    updates (f_type fd) (mkOpts false (f_quoted fd)) x ts y.
Proof.
  induction 1 as [fs v|fs v x name k0 fd0 t v1 ps v2 Hx Hl Hk Hp Hm IH|fs v x name t j ps v2 Hx Hl Hd Hj Hm IH];
    intros HF k fd i Hfd Ep Hu l x0 -> Hx0.
  - exists l, [], x0. repeat split; auto; constructor.
  - assert (HF' := HF). unfold in_struct in HF'. rewrite Forall_forall in HF'. destruct (HF' fd0) as (i0 & path0 & Ep0); [eapply nth_error_In; eauto|].
    assert (Hp' := Hp). rewrite Ep0 in Hp'. apply at_path_struct in Hp'. destruct Hp' as (l1 & a & l2 & y & -> & <- & -> & Hp').
    destruct (Nat.eq_dec (length l1) i) as [<-|Hn].
    + assert (k0 = k) by (eapply Hu; eauto). subst k0. assert (fd0 = fd) by congruence. subst fd0.
      rewrite Ep in Ep0. injection Ep0 as <-. rewrite nth_error_here in Hx0. injection Hx0 as ->.
      destruct (IH HF k fd (length l1) Hfd Ep Hu _ y eq_refl (nth_error_here _ _ _)) as (l' & ts & z & -> & Hts & Hz & Hup).
      exists l', (t :: ts), z. split; auto. split; [eapply tf_hit; eauto|]. split; auto. eapply up_next; eauto.
      inversion Hp'; auto.
    + assert (Hx1 : nth_error (l1 ++ y :: l2) i = Some x0) by (rewrite (nth_error_other l1 l2 a y) by auto; auto).
      destruct (IH HF k fd i Hfd Ep Hu _ x0 eq_refl Hx1) as (l' & ts & z & -> & Hts & Hz & Hup).
      exists l', ts, z. split; auto. split; [|auto]. eapply tf_miss; eauto. rewrite Hl. intros [= ->].
      assert (fd0 = fd) by congruence. subst. rewrite Ep in Ep0. congruence.
  - destruct (IH HF k fd i Hfd Ep Hu l x0 eq_refl Hx0) as (l' & ts & z & -> & Hts & Hz & Hup).
    exists l', ts, z. split; auto. split; [|auto]. eapply tf_miss; eauto. congruence.
Qed.

(** ** null *)
Lemma decodes_null_keeps T o old v : null_keeps T = true -> decodes T o old (bs "null") v -> v = old.
Proof.
  intros HT H. inversion H; subst; try discriminate; auto; try solve
    [match goal with K : int_text _ (bs "null") _ |- _ => apply int_text_first in K; destruct K as (c9 & t9 & [= <- <-] & K); unfold is_digit in K; lia end
    |match goal with K : number (bs "null") |- _ => apply number_first in K; destruct K as (c9 & t9 & [= <- <-] & K); unfold is_digit in K; lia end
    |match goal with K : array_text (bs "null") _ |- _ => inversion K end
    |match goal with K : object_text (bs "null") _ |- _ => inversion K end].
Qed.
Lemma decodes_null_ptr T o old v : decodes (TPtr T) o old (bs "null") v -> v = VPtr None.
Proof. intros H. inversion H; subst; auto; try discriminate; congruence. Qed.
Lemma decodes_null_slice T o old v : decodes (TSlice T) o old (bs "null") v -> v = VSlice None.
Proof. intros H. inversion H; subst; auto; try discriminate. match goal with K : array_text (bs "null") _ |- _ => inversion K end. Qed.
Lemma decodes_null_map k T o old v : decodes (TMap k T) o old (bs "null") v -> v = VMap None.
Proof. intros H. inversion H; subst; auto; try discriminate. match goal with K : object_text (bs "null") _ |- _ => inversion K end. Qed.
Lemma decodes_null_iface o old v : decodes TIface o old (bs "null") v -> v = VIface None.
Proof. intros H. inversion H; subst; auto; try discriminate; congruence. Qed.
End Facts.

(** ** Unknown members *)
Section Unknown.
Variables F32 F64 : floatOps.
Variable C : custom.
Notation gval := (gval F32 F64 C).
Variable E : env F32 F64 C.
Variable b : bool.
Variable sf : Z -> Z.
Variable cs : bool.
Hypothesis sane32 : float_sane F32.
Hypothesis sane64 : float_sane F64.
Notation lookup := (findField sf cs).
Notation decodes := (decodes F32 F64 C E lookup b true).
Notation members := (members F32 F64 C E lookup b true).
Notation at_path := (at_path F32 F64 C E lookup b true).
Notation pd := (p_decode F32 F64 C E b true sf cs).

(** the loop stops with the error *)
Definition errM (fs : list (field ty)) (v : gval) (ps : list (bytes * bytes)) (e : err) : Prop :=
  exists n0, forall n, (n0 <= n)%nat -> forall body f r, pairs body ps ->
  exists w0 l0, body = w0 ++ 34 :: l0 /\ ws w0 /\ forall m, lt (length (l0 ++ 125 :: r)) m ->
    p_structLoop F32 F64 C E true m (lookup (map f_name fs)) (infos F32 F64 C (pd n) fs) v f (l0 ++ 125 :: r) = PErr e.
Lemma errM_here fs v x name t ps : string_body x name -> lookup (map f_name fs) name = None ->
  errM fs v ((quote x, t) :: ps) (EUnknownField name).
Proof.
  intros Hx Hl. exists 0%nat. intros n _ body f r Hb.
  assert (Hf : forall w2 l, ws w2 -> p_readObjectField f (x ++ 34 :: w2 ++ 58 :: l) = POk name l).
  { intros w2 l Hw2. apply field_spec. eauto. }
  inversion Hb as [w1 k0 w2 w3 t0 w4 Hw1 Hw2 Hw3 Hw4|w1 k0 w2 w3 t0 w4 b2 ps0 Hw1 Hw2 Hw3 Hw4 Hp]; subst.
  - exists w1, (x ++ 34 :: w2 ++ 58 :: w3 ++ t ++ w4). split; [unfold quote; app_eq|]. split; auto.
    intros m Hm. destruct m as [|m]; [lia|]. cbn [p_structLoop].
    replace ((x ++ 34 :: w2 ++ 58 :: w3 ++ t ++ w4) ++ 125 :: r) with (x ++ 34 :: w2 ++ 58 :: w3 ++ t ++ w4 ++ 125 :: r) by app_eq.
    rewrite (pbind_run _ _ _ _ name _ (Hf w2 (w3 ++ t ++ w4 ++ 125 :: r) Hw2)). rewrite Hl. reflexivity.
  - exists w1, (x ++ 34 :: w2 ++ 58 :: w3 ++ t ++ w4 ++ 44 :: b2). split; [unfold quote; app_eq|]. split; auto.
    intros m Hm. destruct m as [|m]; [lia|]. cbn [p_structLoop].
    replace ((x ++ 34 :: w2 ++ 58 :: w3 ++ t ++ w4 ++ 44 :: b2) ++ 125 :: r)
      with (x ++ 34 :: w2 ++ 58 :: w3 ++ t ++ w4 ++ 44 :: b2 ++ 125 :: r) in * by app_eq.
    rewrite (pbind_run _ _ _ _ name _ (Hf w2 (w3 ++ t ++ w4 ++ 44 :: b2 ++ 125 :: r) Hw2)). rewrite Hl. reflexivity.
Qed.
Lemma errM_next fs v x name i fd t v1 ps e : string_body x name -> lookup (map f_name fs) name = Some i ->
  nth_error fs i = Some fd -> at_path (f_path fd) (f_type fd) (mkOpts false (f_quoted fd)) v t v1 -> ps <> [] ->
  errM fs v1 ps e -> errM fs v ((quote x, t) :: ps) e.
Proof.
  intros Hx Hl Hi Hp Hne (n2 & H2).
  destruct (decode_complete F32 F64 C E b true sf cs sane32 sane64) as (_ & _ & _ & _ & _ & HP).
  destruct (HP _ _ _ _ _ _ Hp) as (n1 & H1). exists (Nat.max n1 n2). intros n Hn body f r Hb.
  assert (Hf : forall w2 l, ws w2 -> p_readObjectField f (x ++ 34 :: w2 ++ 58 :: l) = POk name l).
  { intros w2 l Hw2. apply field_spec. eauto. }
  inversion Hb as [w1 k0 w2 w3 t0 w4 Hw1 Hw2 Hw3 Hw4|w1 k0 w2 w3 t0 w4 b2 ps0 Hw1 Hw2 Hw3 Hw4 Hps]; subst; [now destruct Hne|].
  exists w1, (x ++ 34 :: w2 ++ 58 :: w3 ++ t ++ w4 ++ 44 :: b2). split; [unfold quote; app_eq|]. split; auto.
  intros m Hm. destruct m as [|m]; [lia|]. cbn [p_structLoop].
  replace ((x ++ 34 :: w2 ++ 58 :: w3 ++ t ++ w4 ++ 44 :: b2) ++ 125 :: r)
    with (x ++ 34 :: w2 ++ 58 :: w3 ++ t ++ w4 ++ 44 :: b2 ++ 125 :: r) in * by app_eq.
  rewrite (pbind_run _ _ _ _ name _ (Hf w2 (w3 ++ t ++ w4 ++ 44 :: b2 ++ 125 :: r) Hw2)). rewrite Hl.
  unfold infos at 1. rewrite nth_error_map, Hi. cbn [option_map pf_path pf_decoder pf_quoted].
  rewrite (pbind_run _ _ _ _ v1 (w4 ++ 44 :: b2 ++ 125 :: r)).
  2:{ apply H1; auto; [lia|]. apply sep_ends, ws_sep; auto. }
  rewrite next_lit by auto. change (44 =? cRBRACE) with false. change (44 =? cCOMMA) with true. cbv iota. rewrite inc_run.
  destruct (H2 n ltac:(lia) b2 f r Hps) as (w0 & l0 & -> & Hw0 & Hl0).
  rewrite <- app_assoc. simpl app. rewrite next_lit by auto. change (negb (34 =? cQUOTE)) with false. cbv iota. rewrite inc_run.
  apply Hl0. revert Hm. repeat (rewrite app_length; cbn [length app]). lia.
Qed.
Lemma errM_after fs v ps1 v1 x name t ps2 : members fs v ps1 v1 -> string_body x name -> lookup (map f_name fs) name = None ->
  errM fs v (ps1 ++ (quote x, t) :: ps2) (EUnknownField name).
Proof.
  intros H Hx Hl. induction H as [fs v|fs v x0 name0 i fd t0 v1 ps v2 Hx0 Hl0 Hi Hp Hm IH|fs v x0 name0 t0 j ps v2 Hx0 Hl0 Hd Hj Hm IH].
  - now apply errM_here.
  - simpl. eapply errM_next; eauto. destruct ps; discriminate.
  - discriminate.
Qed.
Theorem unknown_first layout fs o old t ps1 v1 x name y ps2 : fs <> [] ->
  object_text t (ps1 ++ (quote x, y) :: ps2) -> members fs old ps1 v1 -> string_body x name -> lookup (map f_name fs) name = None ->
  exists n0, forall n, (n0 <= n)%nat -> forall f w r, ws w -> pd n (TStruct layout fs) o old f (w ++ t ++ r) = PErr (EUnknownField name).
Proof.
  intros Hne Ht Hms Hx Hl. destruct (errM_after fs old ps1 v1 x name y ps2 Hms Hx Hl) as (n0 & IH).
  exists (S n0). intros n Hn f w r Hw. destruct n as [|n]; [lia|]. cbn [p_decode].
  destruct fs as [|fd fs]; [congruence|].
  change (map (fun fd0 => pInfo F32 F64 C (f_path fd0) (f_quoted fd0) (pd n (f_type fd0))) (fd :: fs)) with (infos F32 F64 C (pd n) (fd :: fs)).
  remember (fd :: fs) as fs' eqn:Ef. unfold p_structDecoder.
  inversion Ht as [w2 Hw2 E1 E2|body ps Hb]; subst t; [destruct ps1; discriminate|]. subst ps.
  replace (w ++ (123 :: body ++ [125]) ++ r) with (w ++ 123 :: body ++ 125 :: r) by app_eq. rewrite next_lit by auto.
  change (123 =? c_n) with false. change (negb (123 =? cLBRACE)) with false. cbv iota.
  rewrite inc_run.
  destruct (IH n ltac:(lia) body f r Hb) as (w0 & l0 & -> & Hw0 & Hl0).
  rewrite <- app_assoc. simpl app. rewrite next_lit by auto. change (34 =? cRBRACE) with false. change (negb (34 =? cQUOTE)) with false. cbv iota.
  rewrite inc_run, fuel_eq. apply Hl0. lia.
Qed.
End Unknown.
