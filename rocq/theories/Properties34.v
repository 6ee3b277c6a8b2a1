(** C38: the first location is kept.  C40: which floats are written with an exponent. *)
From Coq Require Import String ZArith QArith Qabs List Bool Lia.
From Verif Require Import Base ModelIter ModelStack ModelSkip ModelFloat ModelOps Spec SpecStream Sim SimOps FloatFacts IterFacts ModelStream StreamStrFacts StreamFacts StreamTree
  Properties1 Properties2.
Import ListNotations.
Local Open Scope Z_scope.

(** ** C38 *)
Section Wrapped.
Variables F32 F64 : floatOps.
(** However often an error is wrapped afterwards, by whichever iterators, reason and location stay those of the first time *)
Theorem C38_wrapped e it its : reachable F32 F64 it ->
  exists b, fold_left (fun w i => match w with Some w' => WrapError w' i | None => None end) (it :: its) (Some (WPlain e)) = Some (WDecode e b) /\ WrapError (WPlain e) it = Some (WDecode e b).
Proof.
  intros R. destruct (C38_location F32 F64 e it R) as (b & H & _). exists b. split; [|exact H]. cbn [fold_left]. rewrite H. clear. induction its as [|i its IH]; [reflexivity|exact IH].
Qed.
End Wrapped.
Example C38_wrapped_ex : WrapError (WDecode EIntOverflow (bs "[300")) (snd (Skip (bytesOf "[1,x]"))) = Some (WDecode EIntOverflow (bs "[300")) /\
  WrapError (WPlain EIntOverflow) (snd (Skip (bytesOf "[1,x]"))) <> Some (WDecode EIntOverflow (bs "[300")).
Proof. split; [reflexivity|vm_compute; discriminate]. Qed.

(** ** C40 *)
(** The comparisons of a float type are those of the numbers that its values stand for; [small] and [large] are the constants 1e-6 and 1e21 as values of the type *)
Record ranked (F : floatFmt) (val : ff F -> Q) (small large : Q) : Prop := {
  ra_zero f : ff_inf F f = false -> ff_nan F f = false -> (ff_zero F f = true <-> val f == 0)%Q;
  ra_pos f : ff_inf F f = false -> ff_nan F f = false -> (ff_pos F f = true <-> 0 < val f)%Q;
  ra_small f : ff_inf F f = false -> ff_nan F f = false -> (ff_lt_small F f = true <-> val f < small)%Q;
  ra_large f : ff_inf F f = false -> ff_nan F f = false -> (ff_ge_large F f = true <-> large <= val f)%Q;
  ra_neg_small f : ff_inf F f = false -> ff_nan F f = false -> (ff_gt_neg_small F f = true <-> - small < val f)%Q;
  ra_neg_large f : ff_inf F f = false -> ff_nan F f = false -> (ff_le_neg_large F f = true <-> val f <= - large)%Q
}.
(** not zero, and very small or very large *)
Definition extreme (small large x : Q) : Prop := (~ x == 0 /\ (Qabs x < small \/ large <= Qabs x))%Q.

Lemma format_extreme F val small large f : ranked F val small large -> ff_inf F f = false -> ff_nan F f = false ->
  (floatFormat F f = 101 /\ extreme small large (val f)) \/ (floatFormat F f = 102 /\ ~ extreme small large (val f)).
Proof.
  intros R Hi Hn. destruct R as [Rz Rp Rs Rl Rns Rnl]. specialize (Rz f Hi Hn). specialize (Rp f Hi Hn). specialize (Rs f Hi Hn). specialize (Rl f Hi Hn). specialize (Rns f Hi Hn). specialize (Rnl f Hi Hn).
  unfold floatFormat, extreme. destruct (ff_zero F f); cbn [negb].
  { right. split; auto. intros [K _]. apply K. now apply Rz. }
  assert (Z : ~ (val f == 0)%Q) by (intros K; apply Rz in K; discriminate). destruct (ff_pos F f).
  - assert (P : (0 < val f)%Q) by now apply Rp. rewrite Qabs_pos by now apply Qlt_le_weak.
    destruct (ff_lt_small F f), (ff_ge_large F f); cbn [orb]; [left|left|left|right]; (split; [reflexivity|]); try (split; [exact Z|]; tauto).
    intros [_ [K|K]]; [apply Rs in K|apply Rl in K]; discriminate.
  - assert (P : (val f <= 0)%Q) by (apply Qnot_lt_le; intros K; apply Rp in K; discriminate). rewrite Qabs_neg by auto.
    assert (A : (- val f < small <-> - small < val f)%Q) by (split; intros K; apply Qopp_lt_compat in K; rewrite Qopp_involutive in K; exact K).
    assert (B : (large <= - val f <-> val f <= - large)%Q) by (split; intros K; apply Qopp_le_compat in K; rewrite Qopp_involutive in K; exact K).
    rewrite A, B. destruct (ff_gt_neg_small F f), (ff_le_neg_large F f); cbn [orb]; [left|left|left|right]; (split; [reflexivity|]); try (split; [exact Z|]; tauto).
    intros [_ [K|K]]; [apply Rns in K|apply Rnl in K]; discriminate.
Qed.
Lemma form_text F (S : fmt_sane F) val small large f : ranked F val small large -> ff_inf F f = false -> ff_nan F f = false ->
  exists t, float_text F f t /\ (In 101 t <-> extreme small large (val f)) /\ forall b, appendFloat F b f = b ++ t.
Proof.
  intros R Hi Hn. destruct (appendFloat_ok F S f Hi Hn) as (t & T & H). exists t. split; [exact T|]. split; [|exact H]. destruct T as (_ & _ & C).
  destruct (format_extreme F val small large f R Hi Hn) as [[E X]|[E X]]; rewrite E in C.
  - split; [auto|]. intros _. destruct C as [(m & d & _ & ->)|[-> _]]; [apply in_or_app; right; now left|].
    destruct (fs_expo F S f Hi Hn). rewrite in_app_iff. right. right. apply in_or_app. right. now left.
  - assert (N := fixed_no_e _ (fs_fixed F S f Hi Hn)). split; [|tauto]. intros K. exfalso. destruct C as [(m & d & A & _)|[-> _]]; [|auto].
    apply N. rewrite A. apply in_or_app. right. now left.
Qed.
Section Floats.
Context {G32 G64 : floatFmt}.
Variables (S32 : fmt_sane G32) (S64 : fmt_sane G64).
Theorem C40_form64 val small large f st : ranked G64 val small large -> sm_error st = None -> ff_inf G64 f = false -> ff_nan G64 f = false ->
  exists t, number t /\ (In 101 t <-> extreme small large (val f)) /\
    call (F32 := G32) (F64 := G64) (SFloat64 f) st = Some (mkStm (sm_writer st) (sm_buffer st ++ comma (sm_poped st) ++ t) None true (sm_html st)).
Proof.
  intros R E Hi Hn. destruct (form_text G64 S64 val small large f R Hi Hn) as (t & (N & _) & X & H). exists t. split; [exact N|]. split; [exact X|].
  pose proof (eff_float64 (F32 := G32) (F64 := G64) f t (sm_poped st) (sm_html st) Hi Hn H (sm_writer st) (sm_buffer st)) as Y. destruct st as [w' b e p h]. simpl in *. subst e. exact Y.
Qed.
Theorem C40_form32 val small large f st : ranked G32 val small large -> sm_error st = None -> ff_inf G32 f = false -> ff_nan G32 f = false ->
  exists t, number t /\ (In 101 t <-> extreme small large (val f)) /\
    call (F32 := G32) (F64 := G64) (SFloat32 f) st = Some (mkStm (sm_writer st) (sm_buffer st ++ comma (sm_poped st) ++ t) None true (sm_html st)).
Proof.
  intros R E Hi Hn. destruct (form_text G32 S32 val small large f R Hi Hn) as (t & (N & _) & X & H). exists t. split; [exact N|]. split; [exact X|].
  pose proof (eff_float32 (F32 := G32) (F64 := G64) f t (sm_poped st) (sm_html st) Hi Hn H (sm_writer st) (sm_buffer st)) as Y. destruct st as [w' b e p h]. simpl in *. subst e. exact Y.
Qed.
End Floats.

(** floats in steps of 1e-7, for the examples; the digits that are written are not the point *)
Definition stepG : floatFmt := mkFloatFmt Z (fun _ => false) (fun _ => false) (fun f => f =? 0) (fun f => 0 <? f) (fun f => f <? 10) (fun f => 10 ^ 28 <=? f) (fun f => -10 <? f) (fun f => f <=? - 10 ^ 28)
  (fun f fmt => (if f <? 0 then [45] else []) ++ if fmt =? 101 then bs "1e-07" else if f =? 0 then bs "0" else bs "1").
Definition stepV (f : Z) : Q := (f # 10000000)%Q.
Lemma stepG_sane : fmt_sane stepG.
Proof.
  constructor; intros f _ _; cbn [ff_append stepG]; cbn [Z.eqb Pos.eqb].
  - destruct (f =? 0) eqn:E0; [replace (f <? 0) with false by lia; apply (ft_pos [48] []); constructor|].
    destruct (f <? 0); [apply (ft_neg [49] [])|apply (ft_pos [49] [])]; constructor; try lia; constructor.
  - apply (et _ 49 [] 45 (bs "07")); auto; try (unfold is_digit; lia); try (apply digits_b; reflexivity); [destruct (f <? 0); auto|constructor].
Qed.
Lemma stepG_ranked : ranked stepG stepV (1 # 1000000) (10 ^ 21 # 1).
Proof.
  constructor; intros f _ _; unfold stepV, Qeq, Qlt, Qle, Qopp; cbn [ff_zero ff_pos ff_lt_small ff_ge_large ff_gt_neg_small ff_le_neg_large stepG Qnum Qden];
    change (10 ^ 28) with 10000000000000000000000000000; change (10 ^ 21) with 1000000000000000000000; cbn [Z.opp]; lia.
Qed.
Example C40_form_ex : ranked stepG stepV (1 # 1000000) (10 ^ 21 # 1) /\ fmt_sane stepG /\ extreme (1 # 1000000) (10 ^ 21 # 1) (stepV (-3)) /\ ~ extreme (1 # 1000000) (10 ^ 21 # 1) (stepV (-10)) /\
  appendFloat stepG [] (-3) = bs "-1e-7" /\ appendFloat stepG [] (-10) = bs "-1" /\ appendFloat stepG [] (10 ^ 28) = bs "1e-7".
Proof.
  split; [exact stepG_ranked|]. split; [exact stepG_sane|]. split; [|split; [|repeat split]].
  - split; [discriminate|]. left. reflexivity.
  - intros [_ [K|K]]; [discriminate K|]. apply K. reflexivity.
Qed.

Print Assumptions C38_wrapped.
Print Assumptions C40_form64.
Print Assumptions C40_form32.
