(** What a failed decoding leaves in the variable, against its specification. *)
From Coq Require Import String ZArith List Bool Lia Arith.
From Verif Require Import Base ModelIter ModelStack ModelSkip ModelStr ModelInt ModelFloat ModelRead ModelIterate ModelOps
  ModelFold ModelBase64 Spec Sim SimLib SimSkip SimRaw SimStr SimInt SimFloat SimRead SimIterate SimOps
  NumFacts StrFacts MachineFacts FloatFacts GrammarFacts IntFacts IterateFacts IterFacts SpecBase64 Base64Facts
  FoldFacts ModelVal SimVal SpecVal DecFacts DecSound DecComplete DecMono ModelPart PartAgree SpecPart PartText.
Import ListNotations.
Local Open Scope Z_scope.

(** ** Texts *)
Lemma token_ws w s c : ws w -> token (w ++ s) c <-> token s c.
Proof.
  intros Hw. split.
  - intros (w1 & r & H & Hw1 & Hc). revert w1 H Hw1. induction Hw as [|x w Hx Hw IH]; intros w1 H Hw1; [exists w1, r; auto|].
    destruct w1 as [|y w1]; injection H as -> H; [tauto|]. inversion Hw1; subst. eapply IH; eauto.
  - intros (w1 & r & -> & Hw1 & Hc). exists (w ++ w1), r. rewrite app_assoc. split; auto. split; auto. now apply ws_app.
Qed.
Lemma token_head c l : ~ is_ws c -> token (c :: l) c.
Proof. intros H. exists [], l. split; auto. split; auto. apply ws_nil. Qed.
Lemma token_fun s c c' : token s c -> token s c' -> c = c'.
Proof.
  intros (w & r & -> & Hw & Hc) H. apply token_ws in H; auto. destruct H as ([|x w'] & r' & H & Hw' & Hc').
  - now injection H.
  - injection H as -> _. inversion Hw'; subst. tauto.
Qed.
Lemma token_blank s c : ws s -> ~ token s c.
Proof. intros Hs (w & r & -> & Hw & Hc). apply Forall_app in Hs. destruct Hs as [_ Hs]. inversion Hs; subst. tauto. Qed.
Lemma not_token w c c' l : ws w -> ~ is_ws c -> c <> c' -> ~ token (w ++ c :: l) c'.
Proof. intros Hw Hc Hn H. apply token_ws in H; auto. apply Hn. eapply token_fun; eauto. now apply token_head. Qed.
Lemma nextToken_blank f l e : p_nextToken f l = PErr e -> ws l /\ e = f.
Proof.
  intros H. induction l as [|c l IH]; rewrite p_nextToken_eq in H.
  - injection H as ->. split; auto. apply ws_nil.
  - destruct (is_space c) eqn:Ec; [|discriminate]. apply is_space_ws in Ec. destruct (IH H) as [K ->]. split; auto. now constructor.
Qed.
Lemma quote_starts b r w s : ws w -> w ++ quote b ++ r = s -> token s 34.
Proof. intros Hw <-. exists w, (b ++ 34 :: r). split; [unfold quote; app_eq|]. split; auto. unfold is_ws. lia. Qed.
Lemma value_token t j : value t j -> exists c, t = c :: tl t /\ ~ is_ws c.
Proof. intros H. destruct (starts_value _ _ H) as (c & t' & -> & Hc & _). exists c. auto. Qed.

Section PartFacts.
Variables F32 F64 : floatOps.
Variable C : custom.
Notation gval := (gval F32 F64 C).
Variable E : env F32 F64 C.
Notation zero := (zero F32 F64 C E).
Notation under := (under F32 F64 C E).
Variable R : failures C.
Variables b d : bool.
Variable sf : Z -> Z.
Variable cs : bool.
Hypothesis sane32 : float_sane F32.
Hypothesis sane64 : float_sane F64.
Notation lookup := (findField sf cs).
Notation pd := (p_decode F32 F64 C E b d sf cs).
Notation md := (decode F32 F64 C E sf cs).
Notation dI := (decodeIn F32 F64 C E R sf cs).
Variable f : err.
Notation taken := (taken F32 F64 C E lookup b d f).
Notation taken_at := (taken_at F32 F64 C E lookup b d f).
Notation front := (front f).
Notation leaves := (leaves F32 F64 C E R lookup b d f).
Notation leaves_elems := (leaves_elems F32 F64 C E R lookup b d f).
Notation leaves_entries := (leaves_entries F32 F64 C E R lookup b d f).
Notation leaves_members := (leaves_members F32 F64 C E R lookup b d f).
Notation leaves_at := (leaves_at F32 F64 C E R lookup b d f).
Notation V := (V F32 F64 C).
Notation vbind := (vbind F32 F64 C).
Notation io := (io F32 F64 C).
Notation inside := (inside F32 F64 C).
Definition proper (e : err) : Prop := e <> errDepth /\ e <> errType.

(** ** Runs on clean iterators *)
Definition state (s : bytes) (it : iter) : Prop := wf it /\ ~ dirty it /\ stream it = s /\ fin it = f /\ set b d it.
Lemma run_sim {A B} (Pre : iter -> Prop) (m : M A) (p : P B) Q s it : simR Pre m p Q -> state s it -> Pre it ->
  match p f s with
  | POk c r => exists a it', m it = (Ok a, it') /\ state r it' /\ Q a c it'
  | PErr e => exists it', m it = (Err e, it')
  end.
Proof.
  intros H (W & D & S1 & S2 & S3) HP. specialize (H it W HP). destruct (m it) as [r it']. destruct H as (W' & St & O).
  rewrite S1, S2 in O. destruct O as [O|[O _]]; [|tauto]. destruct (p f s) as [c r0|e]; [|subst; eauto].
  destruct O as (a & -> & K & HQ). exists a, it'. split; auto. split; auto. destruct St as [u M1].
  split; auto. split; [intros Q1; apply D; eapply mv_dirty; eauto|]. split; auto. split; [rewrite (mv_fin _ _ _ M1); auto|].
  eapply stable_set; [eexists; eauto|]. auto.
Qed.
Lemma io_case {A B X} (Pre : iter -> Prop) (m : M A) (p : P B) Q (k : A -> V X) s it v e it' v' :
  simR Pre m p Q -> state s it -> Pre it -> vbind (io m) k v it = ((Err e, it'), v') ->
  (p f s = PErr e /\ v' = v) \/
  (exists a c r it1, p f s = POk c r /\ state r it1 /\ Q a c it1 /\ k a v it1 = ((Err e, it'), v')).
Proof.
  intros H HS HP K. assert (G := run_sim _ _ _ _ _ _ H HS HP). unfold ModelPart.vbind, ModelPart.io in K.
  destruct (p f s) as [c r|e0].
  - destruct G as (a & it1 & G & G1 & G2). rewrite G in K. right. eauto 8.
  - destruct G as (it1 & G). rewrite G in K. injection K as -> -> ->. auto.
Qed.
Lemma io_last {A B} (Pre : iter -> Prop) (m : M A) (p : P B) Q s it v e it' v' :
  simR Pre m p Q -> state s it -> Pre it -> io m v it = ((Err e, it'), v') -> p f s = PErr e /\ v' = v.
Proof.
  intros H HS HP K. assert (G := run_sim _ _ _ _ _ _ H HS HP). unfold ModelPart.io in K.
  destruct (p f s) as [c r|e0].
  - destruct G as (a & it1 & G & _). rewrite G in K. discriminate.
  - destruct G as (it1 & G). rewrite G in K. injection K as -> -> ->. auto.
Qed.
Lemma next_case {X} (k : Z -> V X) s it v e it' v' : state s it -> vbind (io nextToken) k v it = ((Err e, it'), v') ->
  (ws s /\ v' = v) \/
  (exists w c l it1, s = w ++ c :: l /\ ws w /\ ~ is_ws c /\ state (c :: l) it1 /\ peek c it1 /\ k c v it1 = ((Err e, it'), v')).
Proof.
  intros HS K. destruct (io_case _ _ _ _ _ _ _ _ _ _ _ sim_nextToken HS I K) as [[H ->]|(a & c & r & it1 & H & H1 & [<- H2] & H3)].
  - left. apply nextToken_blank in H. tauto.
  - right. apply nextToken_inv in H. destruct H as (w & l & -> & -> & Hw & Hc). exists w, a, l, it1. auto 8.
Qed.
Lemma inc_state c l it : state (c :: l) it -> peek c it -> exists it1, incHead it = (Ok tt, it1) /\ state l it1.
Proof.
  intros HS HP. destruct (run_sim _ _ _ _ _ _ (sim_incHead c) HS HP) as (a & it1 & G & G1 & _). exists it1. destruct a. auto.
Qed.
Lemma inc_case {X} (k : unit -> V X) c l it v q : state (c :: l) it -> peek c it -> vbind (io incHead) k v it = q ->
  exists it1, state l it1 /\ k tt v it1 = q.
Proof.
  intros HS HP K. destruct (inc_state _ _ _ HS HP) as (it1 & G & G1). exists it1. split; auto. rewrite <- K.
  unfold ModelPart.vbind, ModelPart.io. now rewrite G.
Qed.
Lemma inc_ok v it e it' v' : io incHead v it <> ((Err e, it'), v').
Proof. discriminate. Qed.
Lemma ull_case v it e it' v' : ull F32 F64 C v it = ((Err e, it'), v') -> v' = v.
Proof. unfold ull, ModelPart.io. intros H. now injection H as _ ->. Qed.
Lemma ull_store w v it e it' v' : vbind (ull F32 F64 C) (fun _ => store F32 F64 C w) v it = ((Err e, it'), v') -> v' = v.
Proof.
  unfold ModelPart.vbind, ull, ModelPart.io, store. destruct ((incHead ;; expectBytes (bs "ull")) it) as [[a|e0| |] it1]; try discriminate.
  intros H. now injection H as _ _ ->.
Qed.

(** ** Single elements *)
Lemma elem_sim n T o v s it : state s it ->
  match pd n T o v f s with
  | POk v' r => exists it1, dI n T o v it = ((Ok tt, it1), v') /\ state r it1
  | PErr e => exists it1 v', dI n T o v it = ((Err e, it1), v')
  end.
Proof.
  intros HS. assert (HS' := HS). destruct HS' as (_ & _ & _ & _ & ST).
  assert (G := run_sim _ _ _ _ s it (sim_decode F32 F64 C E b d sf cs n T o v) HS ST).
  rewrite <- (decode_agrees F32 F64 C E R sf cs n T o v it) in G. rewrite aside_inv in G.
  destruct (dI n T o v it) as [[r0 it0] v0]. cbn [fst snd] in G. destruct (pd n T o v f s) as [v' r|e].
  - destruct G as (a & it1 & G & G1 & G2). unfold eqR in G2. subst a. destruct r0 as [[]| | |]; try discriminate. injection G as -> ->. eauto.
  - destruct G as (it1 & G). destruct r0 as [[]| | |]; try discriminate. injection G as -> ->. eauto.
Qed.
Lemma elem_ok n T o v s it u it' v' : state s it -> dI n T o v it = ((Ok u, it'), v') -> exists r, taken T o v s r v' /\ state r it'.
Proof.
  intros HS H. assert (G := elem_sim n T o v s it HS). rewrite H in G. destruct (pd n T o v f s) as [v1 r|e] eqn:Ep.
  - destruct G as (it1 & [= _ <- <-] & G). exists r. split; auto. now apply (dec_taken F32 F64 C E b d sf cs sane32 sane64 n).
  - destruct G as (? & ? & G). discriminate.
Qed.
Lemma elem_err n T o v s it e it' v' : state s it -> dI n T o v it = ((Err e, it'), v') -> proper e -> forall r x, ~ taken T o v s r x.
Proof.
  intros HS H [He _]. assert (G := elem_sim n T o v s it HS). rewrite H in G. destruct (pd n T o v f s) as [v1 r|e0] eqn:Ep.
  - destruct G as (it1 & G & _). discriminate.
  - destruct G as (? & ? & [= <- _ _]). now apply (dec_none F32 F64 C E b d sf cs sane32 sane64 n _ _ _ _ _ e).
Qed.
Lemma follow_sim n T o path v s it : state s it ->
  match p_follow F32 F64 C E path (pd n T o) v f s with
  | POk v' r => exists it1, followIn F32 F64 C E path (dI n T o) v it = ((Ok tt, it1), v') /\ state r it1
  | PErr e => exists it1 v', followIn F32 F64 C E path (dI n T o) v it = ((Err e, it1), v')
  end.
Proof.
  intros HS. assert (HS' := HS). destruct HS' as (_ & _ & _ & _ & ST).
  assert (G := run_sim _ _ _ _ s it (sim_follow F32 F64 C E b d (md n T o) (pd n T o) (sim_decode F32 F64 C E b d sf cs n T o) path v) HS ST).
  assert (K := same_follow F32 F64 C E (dI n T o) (md n T o) (agree_view F32 F64 C _ _ (decode_agrees F32 F64 C E R sf cs n T) o) path v it).
  unfold view, bind, ret in K.
  destruct (followIn F32 F64 C E path (dI n T o) v it) as [[r0 it0] v0].
  destruct (p_follow F32 F64 C E path (pd n T o) v f s) as [v' r|e].
  - destruct G as (a & it1 & G & G1 & G2). unfold eqR in G2. subst a. rewrite G in K. destruct r0 as [[]| | |]; try discriminate. injection K as -> ->. eauto.
  - destruct G as (it1 & G). rewrite G in K. destruct r0 as [[]| | |]; try discriminate. injection K as -> ->. eauto.
Qed.
Lemma follow_ok n T o path v s it u it' v' : state s it -> followIn F32 F64 C E path (dI n T o) v it = ((Ok u, it'), v') ->
  exists r, taken_at path T o v s r v' /\ state r it'.
Proof.
  intros HS H. assert (G := follow_sim n T o path v s it HS). rewrite H in G. destruct (p_follow F32 F64 C E path (pd n T o) v f s) as [v1 r|e] eqn:Ep.
  - destruct G as (it1 & [= _ <- <-] & G). exists r. split; auto. now apply (follow_taken F32 F64 C E b d sf cs sane32 sane64 n).
  - destruct G as (? & ? & G). discriminate.
Qed.
Lemma follow_err n T o path v s it e it' v' : state s it -> followIn F32 F64 C E path (dI n T o) v it = ((Err e, it'), v') -> proper e ->
  forall r x, ~ taken_at path T o v s r x.
Proof.
  intros HS H [He _]. assert (G := follow_sim n T o path v s it HS). rewrite H in G. destruct (p_follow F32 F64 C E path (pd n T o) v f s) as [v1 r|e0] eqn:Ep.
  - destruct G as (it1 & G & _). discriminate.
  - destruct G as (? & ? & [= <- _ _]). now apply (follow_none F32 F64 C E b d sf cs sane32 sane64 n _ _ _ _ _ _ e).
Qed.

(** ** Blanks before a text *)
Lemma front_ws w t s r : ws w -> starts t -> front t (w ++ s) r -> front t s r.
Proof.
  intros Hw (c & t' & -> & Hc & _) (w1 & H & Hw1 & Hn). cbn [app] in H. revert w1 H Hw1. induction Hw as [|x w Hx Hw IH]; intros w1 H Hw1.
  - exists w1. auto.
  - destruct w1 as [|y w1]; injection H as -> H; [tauto|]. inversion Hw1; subst. eapply IH; eauto.
Qed.
Lemma front_ws' w t s r : ws w -> front t s r -> front t (w ++ s) r.
Proof. intros Hw (w1 & -> & Hw1 & H). exists (w ++ w1). rewrite app_assoc. split; auto. split; auto. now apply ws_app. Qed.
Lemma taken_ws w T o v s r v' : ws w -> taken T o v (w ++ s) r v' <-> taken T o v s r v'.
Proof.
  intros Hw. split; intros (w1 & t & H & Hw1 & Hd & Hs).
  - assert (St := decodes_starts _ _ _ _ _ _ _ _ _ _ _ _ _ Hd). destruct St as (c & t' & -> & Hc & _). cbn [app] in H.
    revert w1 H Hw1. induction Hw as [|x w Hx Hw IH]; intros w1 H Hw1.
    + exists w1, (c :: t'). auto.
    + destruct w1 as [|y w1]; injection H as -> H; [tauto|]. inversion Hw1; subst. eapply IH; eauto.
  - subst s. exists (w ++ w1), t. rewrite app_assoc. split; auto. split; auto. now apply ws_app.
Qed.
Lemma leaves_ws w T o v s v' : ws w -> leaves T o v s v' -> leaves T o v (w ++ s) v'.
Proof.
  intros Hw H. induction H.
  - now apply l_atomic.
  - eapply l_other; eauto. now rewrite token_ws.
  - apply l_json. intros t r j Hf Hj. apply front_ws in Hf; auto; [|eapply starts_value; eauto]. eapply H; eauto.
  - eapply l_json_method; [apply front_ws'; eauto|eauto|eauto].
  - apply l_text. intros x r s' Hf Hx. apply front_ws in Hf; auto; [|apply starts_quote]. eapply H; eauto.
  - eapply l_text_method; [apply front_ws'; eauto|eauto|eauto].
  - apply l_null; auto. destruct H0 as [H0|H0]; [left; now apply token_ws|right; now apply ws_app].
  - eapply l_ptr; [apply token_ws; eauto|auto|auto].
  - eapply l_held; eauto; now apply token_ws.
  - rewrite app_assoc. apply l_array; auto. now apply ws_app.
  - rewrite app_assoc. apply l_map_end; auto. now apply ws_app.
  - rewrite app_assoc. apply l_map; auto. now apply ws_app.
  - rewrite app_assoc. apply l_struct; auto. now apply ws_app.
  - now apply l_ref.
Qed.
(** ** Decoders of single values *)
Definition lefts (n : nat) (T : ty) : Prop := forall o v s it e it' v', state s it -> dI n T o v it = ((Err e, it'), v') -> proper e -> leaves T o v s v'.
Lemma last_case m o v it e it' v' : last F32 F64 C m o v it = ((Err e, it'), v') -> v' = v.
Proof. unfold last. destruct (m o v it) as [[?|?| |] ?]; try discriminate. intros H. now injection H as _ _ ->. Qed.
Lemma fail_case {A} e v it e' it' v' : vfail F32 F64 C (A := A) e v it = ((Err e', it'), v') -> e' = e /\ v' = v.
Proof. unfold vfail, ModelPart.io, fail. intros H. injection H as <- _ ->. auto. Qed.
Lemma load_case {A} (k : gval -> V A) v it q : vbind (load F32 F64 C) k v it = q -> k v v it = q.
Proof. auto. Qed.
Lemma store_fail {A} w e v it e' it' v' : vbind (store F32 F64 C w) (fun _ => vfail F32 F64 C (A := A) e) v it = ((Err e', it'), v') -> v' = w.
Proof. unfold ModelPart.vbind, store. intros H. apply fail_case in H. tauto. Qed.
Ltac badtype H := apply fail_case in H; exfalso; destruct H as [-> _]; match goal with K : proper _ |- _ => now destruct K end.
Lemma front_vends t s r j : front t s r -> value t j -> exists w, s = w ++ t ++ r /\ ws w /\ vends t j f r.
Proof. intros (w & -> & Hw & Hn) Hj. exists w. split; auto. split; auto. destruct j; simpl; auto. apply Hn. now inversion Hj. Qed.
Lemma vends_front t s r j w : s = w ++ t ++ r -> ws w -> value t j -> vends t j f r -> front t s r.
Proof. intros -> Hw Hj Hv. exists w. split; auto. split; auto. intros Hn. eapply value_num; eauto. Qed.
Lemma left_json n id : lefts (S n) (TJson id).
Proof.
  intros o v s it e it' v' HS H He. cbn [decodeIn] in H. unfold jsonUnmarshalerIn in H.
  destruct (io_case _ _ _ _ _ _ _ _ _ _ _ sim_SkipRaw HS I H) as [[K ->]|(a & t & r & it1 & K & HS1 & EQ & K1)].
  - apply l_json. intros t r j Hf Hj. destruct (front_vends _ _ _ _ Hf Hj) as (w & -> & Hw & Hv).
    assert (Q := proj2 (SkipRaw_spec f (w ++ t ++ r) t r) (ex_intro _ w (ex_intro _ j (conj eq_refl (conj Hw (conj Hj Hv)))))). congruence.
  - unfold eqR in EQ. subst a. apply SkipRaw_spec in K. destruct K as (w & j & -> & Hw & Hj & Hv). apply load_case in K1.
    destruct v as [| | | | | |x| | | | | |]; try (badtype K1). destruct (cu_json C id x t) as [x'|e1] eqn:Ex; [discriminate|].
    apply store_fail in K1. subst v'. eapply l_json_method; eauto. eapply vends_front; eauto.
Qed.
Lemma left_text n id : lefts (S n) (TText id).
Proof.
  intros o v s it e it' v' HS H He. cbn [decodeIn] in H. unfold textUnmarshalerIn in H.
  assert (NoQ : ~ token s 34 -> v' = v -> leaves (TText id) o v s v').
  { intros K ->. apply l_text. intros x r s' (w & Q & Hw & _) _. apply K. eapply quote_starts; eauto. }
  destruct (next_case _ _ _ _ _ _ _ HS H) as [[K ->]|(w & c & l & it1 & -> & Hw & Hc & HS1 & Pk & K)].
  { apply NoQ; auto. now apply token_blank. }
  destruct (Z.eqb_spec c cQUOTE) as [->|Hq].
  - destruct (inc_case _ _ _ _ _ _ HS1 Pk K) as (it2 & HS2 & K1).
    destruct (io_case _ _ _ _ _ _ _ _ _ _ _ (sim_readStringAsSlice anyP) HS2 I K1) as [[Q ->]|(a & t & r & it3 & Q & HS3 & EQ & K2)].
    + apply l_text. intros x r s' (w1 & Q1 & Hw1 & _) Hx.
      destruct (split_start w [34] l w1 (quote x) r Q1 Hw Hw1) as [_ Q2]; [apply starts_lit; unfold is_ws; lia|apply starts_quote|].
      rewrite quote_app in Q2. injection Q2 as ->.
      assert (Q3 := proj2 (readString_spec f (x ++ 34 :: r) s' r) (ex_intro _ x (conj eq_refl Hx))). congruence.
    + unfold eqR in EQ. subst a. apply readString_spec in Q. destruct Q as (x & -> & Hx). apply load_case in K2.
      destruct v as [| | | | | |y| | | | | |]; try (badtype K2). destruct (cu_text C id y t) as [x'|e1] eqn:Ex; [discriminate|].
      apply store_fail in K2. subst v'. eapply l_text_method; eauto. exists w. split; [now rewrite quote_app|]. split; auto.
      intros Hn. exfalso. destruct (number_first _ Hn) as (c & t' & [= <- _] & Hd). unfold is_digit in Hd. lia.
  - assert (NT : ~ token (w ++ c :: l) 34) by now apply not_token. apply NoQ; auto.
    destruct (c =? c_n); [eapply ull_case; eauto|]. apply fail_case in K. tauto.
Qed.
Lemma inside_case {A} put x (m : V A) v it q v' : inside put x m v it = (q, v') -> exists x', m x it = (q, x') /\ v' = put x'.
Proof. unfold ModelPart.inside. destruct (m x it) as [q0 x0]. intros [= <- <-]. eauto. Qed.
Lemma aside_case (dd : inplace F32 F64 C) o z v it (k : gval -> V unit) e it' v' : (forall x v it, exists y, k x v it = ((Ok tt, it), y)) ->
  vbind (io (aside F32 F64 C dd o z)) k v it = ((Err e, it'), v') -> v' = v.
Proof.
  intros Hk. unfold ModelPart.vbind, ModelPart.io, aside. destruct (dd o z it) as [[[?|?| |] it1] y]; try discriminate.
  - destruct (Hk y v it1) as (y' & ->). discriminate.
  - intros H. now injection H as _ _ ->.
Qed.
Lemma left_pointer n T : lefts n T -> lefts (S n) (TPtr T).
Proof.
  intros IH o v s it e it' v' HS H He. cbn [decodeIn] in H. unfold pointerIn in H.
  destruct (next_case _ _ _ _ _ _ _ HS H) as [[K ->]|(w & c & l & it1 & -> & Hw & Hc & HS1 & Pk & K)].
  { apply l_null; eauto. }
  destruct (Z.eqb_spec c c_n) as [->|Hn].
  { apply ull_store in K. subst. apply l_null; eauto. left. apply token_ws; auto. now apply token_head. }
  apply load_case in K. destruct v as [| | | | | | |[x|]| | | | |]; try (badtype K).
  - apply inside_case in K. destruct K as (x' & K & ->). apply l_ptr with (c := c); auto; [apply token_ws; auto; now apply token_head|].
    apply leaves_ws; auto. eapply IH; eauto.
  - apply aside_case in K; [|intros; eexists; reflexivity]. subst. now apply l_atomic.
Qed.
Lemma left_eface n : (forall T, lefts n T) -> lefts (S n) TEface.
Proof.
  intros IH o v s it e it' v' HS H He. cbn [decodeIn] in H. unfold efaceIn in H. apply load_case in H.
  destruct v as [| | | | | | | | | | | |x]; try (badtype H). destruct (heldPtr F32 F64 C E x) as [[T y]|] eqn:Eh.
  - destruct (heldPtr_some F32 F64 C E _ _ _ Eh) as (P & -> & HT).
    destruct (next_case _ _ _ _ _ _ _ HS H) as [[K ->]|(w & c & l & it1 & -> & Hw & Hc & HS1 & Pk & K)].
    { apply l_null; auto. }
    destruct (Z.eqb_spec c c_n) as [->|Hn].
    { apply ull_store in K. subst. apply l_null; auto. left. apply token_ws; auto. now apply token_head. }
    apply inside_case in K. destruct K as (x' & K & ->). cbn [option_map fst]. eapply l_held; eauto; [apply token_ws; auto; now apply token_head|].
    apply leaves_ws; auto. eapply IH; eauto.
  - assert (v' = VIface x) as ->.
    { unfold ModelPart.vbind, ModelPart.io, store in H. destruct (Read F64 it) as [[?|?| |] ?]; try discriminate. now injection H as _ _ ->. }
    apply l_atomic. simpl. intros P T y Q. injection Q as ->. eapply (heldPtr_none F32 F64 C E); eauto.
Qed.
Lemma left_iface n : (forall T, lefts n T) -> lefts (S n) TIface.
Proof.
  intros IH o v s it e it' v' HS H He. cbn [decodeIn] in H. unfold ifaceIn in H.
  destruct (next_case _ _ _ _ _ _ _ HS H) as [[K ->]|(w & c & l & it1 & -> & Hw & Hc & HS1 & Pk & K)].
  { apply l_null; auto. }
  destruct (Z.eqb_spec c c_n) as [->|Hn].
  { apply ull_store in K. subst. apply l_null; auto. left. apply token_ws; auto. now apply token_head. }
  apply load_case in K. destruct v as [| | | | | | | | | | | |[[P x]|]]; try (badtype K).
  - assert (A : (exists T' y, under P = TPtr T' /\ x = VPtr (Some y)) \/ atomic F32 F64 C E TIface (VIface (Some (P, x)))).
    { destruct (under P) as [| | | | | | | | |T'| | | | | | | |] eqn:EP; try (right; simpl; intros P1 T1 y1 [= <- ->]; congruence).
      destruct x as [| | | | | | |[y|]| | | | |]; try (right; simpl; intros P1 T1 y1 [= <- Q]; discriminate). left. eauto. }
    destruct A as [(T' & y & HP & ->)|A].
    + rewrite HP in K. apply inside_case in K. destruct K as (x' & K & ->). eapply l_held; eauto; [apply token_ws; auto; now apply token_head|].
      apply leaves_ws; auto. eapply IH; eauto.
    + assert (v' = VIface (Some (P, x))) as ->; [|now apply l_atomic].
      simpl in A. destruct (under P) as [| | | | | | | | |T'| | | | | | | |] eqn:EP; try (apply fail_case in K; tauto).
      destruct x as [| | | | | | |[y|]| | | | |]; try (apply fail_case in K; tauto). exfalso. eapply A; eauto.
  - apply fail_case in K. destruct K as [_ ->]. apply l_atomic. simpl. congruence.
Qed.

(** ** Arrays *)
Lemma bind_case {A B} (m : V A) (k : A -> V B) v it e it' v' : vbind m k v it = ((Err e, it'), v') ->
  m v it = ((Err e, it'), v') \/ exists a it1 v1, m v it = ((Ok a, it1), v1) /\ k a v1 it1 = ((Err e, it'), v').
Proof.
  unfold ModelPart.vbind. destruct (m v it) as [[[a|e0| |] it1] v1]; try discriminate; [eauto 8|]. intros H. injection H as -> -> ->. auto.
Qed.
Lemma ok_bind {A B} (m : V A) (k : A -> V B) v it x it' v' : vbind m k v it = ((Ok x, it'), v') ->
  exists a it1 v1, m v it = ((Ok a, it1), v1) /\ k a v1 it1 = ((Ok x, it'), v').
Proof. unfold ModelPart.vbind. destruct (m v it) as [[[a|e0| |] it1] v1]; try discriminate; eauto 8. Qed.
Lemma io_ok {A B} (Pre : iter -> Prop) (m : M A) (p : P B) Q s it v a it' v' :
  simR Pre m p Q -> state s it -> Pre it -> io m v it = ((Ok a, it'), v') -> v' = v /\ exists c r, p f s = POk c r /\ state r it' /\ Q a c it'.
Proof.
  intros H HS HP K. assert (G := run_sim _ _ _ _ _ _ H HS HP). unfold ModelPart.io in K.
  destruct (p f s) as [c r|e0].
  - destruct G as (a' & it1 & G & G1). rewrite G in K. injection K as -> -> ->. eauto 8.
  - destruct G as (it1 & G). rewrite G in K. discriminate.
Qed.
Lemma elems_nil T s a : leaves_elems T [] s a -> a = [].
Proof. intros H. inversion H; auto. Qed.
Lemma left_arrayLoop n T : lefts n T -> forall fuel a1 a2 s it e it' v', state s it ->
  arrayLoopIn F32 F64 C fuel (dI n T) (length a1) (VArr (a1 ++ a2)) it = ((Err e, it'), v') -> proper e ->
  exists a3, v' = VArr (a1 ++ a3) /\ leaves_elems T a2 s a3.
Proof.
  intros IH. induction fuel as [|fuel IHf]; intros a1 a2 s it e it' v' HS H He; [discriminate|]. cbn [arrayLoopIn] in H. apply load_case in H.
  destruct a2 as [|x a2].
  - replace (nth_error (a1 ++ []) (length a1)) with (@None gval) in H by (symmetry; apply nth_error_None; rewrite app_nil_r; lia).
    exists []. split; [|apply le_full].
    apply bind_case in H. destruct H as [H|(n1 & it1 & v1 & H1 & H)].
    { apply bind_case in H. destruct H as [H|(u & it1 & v1 & H1 & H)]; [|discriminate]. unfold ModelPart.io in H. now injection H as _ ->. }
    apply ok_bind in H1. destruct H1 as (u & it2 & v2 & H1 & H2). injection H2 as <- <- <-.
    destruct (io_ok _ _ _ _ _ _ _ _ _ _ sim_Skip HS I H1) as (-> & c0 & r & _ & HS1 & _).
    destruct (next_case _ _ _ _ _ _ _ HS1 H) as [[K ->]|(w & c & l & it3 & -> & Hw & Hc & HS2 & Pk & K)]; auto.
    destruct (inc_case _ _ _ _ _ _ HS2 Pk K) as (it4 & HS4 & K1). destruct (c =? cRBRACK); [discriminate|].
    destruct (negb (c =? cCOMMA)); [apply fail_case in K1; tauto|].
    destruct (IHf a1 [] _ _ _ _ _ HS4 K1 He) as (a3 & -> & K2). now rewrite (elems_nil _ _ _ K2).
  - rewrite nth_error_mid in H. apply bind_case in H. destruct H as [H|(n1 & it1 & v1 & H1 & H)].
    { apply bind_case in H. destruct H as [H|(u & it1 & v1 & H1 & H)]; [|discriminate]. apply inside_case in H. destruct H as (y & H & ->).
      exists (y :: a2). rewrite upd_app. split; auto. apply le_here; [eapply elem_err; eauto|eapply IH; eauto]. }
    apply ok_bind in H1. destruct H1 as (u & it2 & v2 & H1 & H2). injection H2 as <- <- <-.
    apply inside_case in H1. destruct H1 as (y & H1 & ->). rewrite upd_app in H. destruct (elem_ok _ _ _ _ _ _ _ _ _ HS H1) as (r & Ht & HS1).
    destruct (next_case _ _ _ _ _ _ _ HS1 H) as [[K ->]|(w & c & l & it3 & -> & Hw & Hc & HS2 & Pk & K)].
    { exists (y :: a2). split; auto. eapply le_last; eauto. now apply token_blank. }
    destruct (inc_case _ _ _ _ _ _ HS2 Pk K) as (it4 & HS4 & K1). destruct (c =? cRBRACK); [discriminate|].
    destruct (Z.eqb_spec c cCOMMA) as [->|Hn]; cbn [negb] in K1.
    + replace (S (length a1)) with (length (a1 ++ [y])) in K1 by (rewrite app_length; simpl; lia). rewrite (app_cons_assoc a1 y a2) in K1.
      destruct (IHf (a1 ++ [y]) a2 _ _ _ _ _ HS4 K1 He) as (a3 & -> & K2). exists (y :: a3). rewrite <- app_cons_assoc. split; auto.
      eapply le_next; eauto.
    + apply fail_case in K1. destruct K1 as [_ ->]. exists (y :: a2). split; auto. eapply le_last; eauto. now apply not_token.
Qed.
Lemma elems_ws w T a s a' : ws w -> leaves_elems T a s a' -> leaves_elems T a (w ++ s) a'.
Proof.
  intros Hw H. inversion H; subst.
  - apply le_blank. now apply ws_app.
  - apply le_full.
  - apply le_here; [intros; now rewrite taken_ws|now apply leaves_ws].
  - eapply le_last; eauto. now apply taken_ws.
  - eapply le_next; eauto. now apply taken_ws.
Qed.
Lemma left_array n k T : lefts n T -> lefts (S n) (TArray k T).
Proof.
  intros IH o v s it e it' v' HS H He. cbn [decodeIn] in H. unfold arrayIn in H.
  destruct (next_case _ _ _ _ _ _ _ HS H) as [[K ->]|(w & c & l & it1 & -> & Hw & Hc & HS1 & Pk & K)].
  { eapply l_other; [reflexivity|]. now apply token_blank. }
  destruct (Z.eqb_spec c c_n) as [->|Hn].
  { apply ull_case in K. subst. eapply l_other; [reflexivity|]. apply not_token; auto. lia. }
  destruct (Z.eqb_spec c cLBRACK) as [->|Hb]; cbn [negb] in K.
  2:{ apply fail_case in K. destruct K as [_ ->]. eapply l_other; [reflexivity|]. now apply not_token. }
  apply load_case in K. destruct v as [| | | | | | | |a| | | |]; try (badtype K).
  destruct (inc_case _ _ _ _ _ _ HS1 Pk K) as (it2 & HS2 & K1).
  destruct (next_case _ _ _ _ _ _ _ HS2 K1) as [[Q ->]|(w2 & c2 & l2 & it3 & -> & Hw2 & Hc2 & HS3 & Pk3 & Q)].
  { apply l_array; auto. now apply le_blank. }
  apply bind_case in Q. destruct Q as [Q|(n1 & it4 & v1 & Q1 & Q)].
  - destruct (c2 =? cRBRACK); [discriminate|]. apply (left_arrayLoop n T IH _ [] a _ _ _ _ _ HS3) in Q; auto.
    destruct Q as (a3 & -> & Q). apply l_array; auto. now apply elems_ws.
  - apply load_case in Q. destruct v1; try (badtype Q). discriminate.
Qed.

(** ** Maps *)
Notation keyed := (keyed C).
Notation kopts := (mkOpts true false).
Lemma starts_nil_ws w c l r t : ws w -> starts t -> w ++ t ++ r = c :: l -> ~ is_ws c -> w = [].
Proof. intros Hw _ H Hc. destruct w as [|x w]; auto. injection H as -> _. inversion Hw; subst. tauto. Qed.
Lemma strip (A : Type) w w1 t r : ws w -> ws w1 -> starts t -> forall s, w ++ s = w1 ++ t ++ r -> exists w2, ws w2 /\ s = w2 ++ t ++ r.
Proof.
  intros Hw Hw1 (c & t' & -> & Hc & _). revert w1 Hw1. induction Hw as [|x w Hx Hw IH]; intros w1 Hw1 s H.
  - exists w1. auto.
  - cbn [app] in H. destruct w1 as [|y w1]; injection H as -> H; [tauto|]. inversion Hw1; subst. eapply IH; eauto.
Qed.
Lemma keyed_ws w k s key s' : ws w -> keyed k (w ++ s) key s' <-> keyed k s key s'.
Proof.
  intros Hw. split; intros (w1 & kt & w' & H & Hw1 & Hw' & Hk).
  - destruct (strip unit w w1 kt (w' ++ 58 :: s') Hw Hw1 (key_starts _ _ _ _ Hk) _ H) as (w2 & Hw2 & ->). exists w2, kt, w'. auto.
  - subst s. exists (w ++ w1), kt, w'. rewrite app_assoc. split; auto. split; auto. now apply ws_app.
Qed.
Lemma keyed_run k kp s key s' : p_keyDecoder F32 F64 C k = Some kp -> keyed k s key s' ->
  exists kv w', toKey F32 F64 C k kv = Some key /\ kp kopts (keyZero F32 F64 C k) f s = POk kv (w' ++ 58 :: s') /\ ws w'.
Proof.
  intros HK (w & kt & w' & -> & Hw & Hw' & Hk). destruct (c_key F32 F64 C E b d sf cs _ _ _ _ HK Hk) as (kv & H1 & H2).
  exists kv, w'. split; auto.
Qed.
Lemma colon_nows : ~ is_ws 58.
Proof. unfold is_ws. lia. Qed.
Lemma colon_split w w' s s' : ws w -> ws w' -> w ++ 58 :: s = w' ++ 58 :: s' -> s = s'.
Proof.
  intros Hw Hw' H. destruct (split_start w [58] s w' [58] s' H Hw Hw') as [_ K]; [apply starts_lit; unfold is_ws; lia..|]. now injection K.
Qed.
Lemma keyed_det k s key s' key1 s1 : keyed k s key s' -> keyed k s key1 s1 -> key1 = key /\ s1 = s'.
Proof.
  intros H H1. assert (HK : exists kp, p_keyDecoder F32 F64 C k = Some kp).
  { apply decodable_some. destruct H as (_ & kt & _ & _ & _ & _ & Hk). destruct k as [| |[] [] mar]; simpl; auto. inversion Hk. }
  destruct HK as (kp & HK). destruct (keyed_run _ _ _ _ _ HK H) as (kv & w & A1 & A2 & A3).
  destruct (keyed_run _ _ _ _ _ HK H1) as (kv1 & w1 & B1 & B2 & B3). rewrite A2 in B2. apply POk_inj in B2. destruct B2 as [<- B2].
  rewrite A1 in B1. injection B1 as <-. split; auto. symmetry. exact (colon_split w w1 s' s1 A3 B3 B2).
Qed.
Lemma entries_ws w k T m s m' : ws w -> leaves_entries k T m s m' -> leaves_entries k T m (w ++ s) m'.
Proof.
  intros Hw H. inversion H; subst.
  - apply ln_here. intros key s' r v Hk. apply keyed_ws in Hk; auto. eauto.
  - eapply ln_last; eauto. now apply keyed_ws.
  - eapply ln_next; eauto. now apply keyed_ws.
Qed.
Lemma aside_run n T o v s it : state s it ->
  match pd n T o v f s with
  | POk v' r => exists it1, aside F32 F64 C (dI n T) o v it = (Ok v', it1) /\ state r it1
  | PErr e => exists it1, aside F32 F64 C (dI n T) o v it = (Err e, it1)
  end.
Proof.
  intros HS. assert (G := elem_sim n T o v s it HS). unfold aside. destruct (pd n T o v f s).
  - destruct G as (it1 & -> & G). eauto.
  - destruct G as (it1 & v' & ->). eauto.
Qed.
Lemma left_mapLoop n k kd kp T : keyDecoder F32 F64 C k = Some kd -> p_keyDecoder F32 F64 C k = Some kp ->
  forall fuel m s it e it' v', state s it -> mapLoopIn F32 F64 C fuel k kd (zero T) (dI n T) (VMap (Some m)) it = ((Err e, it'), v') -> proper e ->
  exists m', v' = VMap (Some m') /\ leaves_entries k T m s m'.
Proof.
  intros HK HKp. assert (SK := sim_keyDecoder F32 F64 C k). rewrite HK, HKp in SK. cbn [simK] in SK.
  induction fuel as [|fuel IH]; intros m s it e it' v' HS H He; [discriminate|]. cbn [mapLoopIn] in H.
  destruct (io_case _ _ _ _ _ _ _ _ _ _ _ (SK anyP kopts (keyZero F32 F64 C k)) HS I H) as [[K ->]|(a & kv & r & it1 & K & HS1 & EQ & K1)].
  { exists m. split; auto. apply ln_here. intros key s' r v Hk _. destruct (keyed_run _ _ _ _ _ HKp Hk) as (kv & w' & _ & Q & _). congruence. }
  unfold eqR in EQ. subst a. clear H.
  destruct (next_case _ _ _ _ _ _ _ HS1 K1) as [[Q ->]|(w & c & l & it2 & -> & Hw & Hc & HS2 & Pk & Q)].
  { exists m. split; auto. apply ln_here. intros key s' r' v Hk _. destruct (keyed_run _ _ _ _ _ HKp Hk) as (kv' & w' & _ & Q1 & _).
    rewrite K in Q1. apply POk_inj in Q1. destruct Q1 as [_ ->]. apply Forall_app in Q. destruct Q as [_ Q]. inversion Q; subst. now apply colon_nows. }
  destruct (Z.eqb_spec c cCOLON) as [->|Hn]; cbn [negb] in Q.
  2:{ apply fail_case in Q. destruct Q as [_ ->]. exists m. split; auto. apply ln_here. intros key s' r' v Hk _.
      destruct (keyed_run _ _ _ _ _ HKp Hk) as (kv' & w' & _ & Q1 & Hw'). rewrite K in Q1. apply POk_inj in Q1. destruct Q1 as [_ Q1].
      apply (not_token w c 58 l Hw Hc Hn). rewrite Q1. apply token_ws; auto. apply token_head, colon_nows. }
  destruct (inc_case _ _ _ _ _ _ HS2 Pk Q) as (it3 & HS3 & Q1). clear Q.
  assert (Hkey : exists kk, toKey F32 F64 C k kv = Some kk /\ keyed k s kk l).
  { destruct (sound_key F32 F64 C E b d sf cs _ _ _ _ _ _ HKp K) as (w1 & kt & kk & -> & Hw1 & Hk & Htk). exists kk. split; auto. exists w1, kt, w. auto. }
  destruct Hkey as (kk & Hkk & Hkey).
  assert (G := aside_run n T noOpts (zero T) l it3 HS3). destruct (pd n T noOpts (zero T) f l) as [x r|e0] eqn:Ep.
  2:{ destruct G as (it4 & G). unfold ModelPart.vbind at 1, ModelPart.io at 1 in Q1. rewrite G in Q1. injection Q1 as <- <- <-. exists m. split; auto.
      apply ln_here. intros key s' r v Hk. destruct (keyed_det _ _ _ _ _ _ Hkey Hk) as [-> ->].
      apply (dec_none F32 F64 C E b d sf cs sane32 sane64 n _ _ _ _ _ e0 Ep). now destruct He. }
  destruct G as (it4 & G & HS4). apply (dec_taken F32 F64 C E b d sf cs sane32 sane64 n) in Ep.
  unfold ModelPart.vbind at 1, ModelPart.io at 1 in Q1. rewrite G in Q1. apply load_case in Q1. rewrite Hkk in Q1.
  unfold ModelPart.vbind at 1, store in Q1. rewrite mapassign_put in Q1.
  destruct (next_case _ _ _ _ _ _ _ HS4 Q1) as [[Q2 ->]|(w4 & c4 & l4 & it5 & -> & Hw4 & Hc4 & HS5 & Pk5 & Q2)].
  { eexists. split; [reflexivity|]. eapply ln_last; eauto. now apply token_blank. }
  destruct (Z.eqb_spec c4 cRBRACE) as [->|Hb4]; [now apply inc_ok in Q2|].
  destruct (Z.eqb_spec c4 cCOMMA) as [->|Hm4].
  - destruct (inc_case _ _ _ _ _ _ HS5 Pk5 Q2) as (it6 & HS6 & Q3). destruct (IH _ _ _ _ _ _ HS6 Q3 He) as (m' & -> & HL).
    exists m'. split; auto. eapply ln_next; eauto.
  - apply fail_case in Q2. destruct Q2 as [_ ->]. eexists. split; [reflexivity|]. eapply ln_last; eauto. now apply not_token.
Qed.
Lemma left_map n k T : lefts n T -> lefts (S n) (TMap k T).
Proof.
  intros _ o v s it e it' v' HS H He. cbn [decodeIn] in H. assert (SK := sim_keyDecoder F32 F64 C k).
  destruct (keyDecoder F32 F64 C k) as [kd|] eqn:HK.
  2:{ apply last_case in H. subst. apply l_atomic. simpl. intros Q. destruct (p_keyDecoder F32 F64 C k) eqn:HKp; [contradiction|].
      destruct k as [| |[] [] mar]; try discriminate; contradiction. }
  destruct (p_keyDecoder F32 F64 C k) as [kp|] eqn:HKp; [|contradiction]. clear SK. assert (HD := decodable_in _ _ _ _ _ HKp).
  unfold mapIn in H.
  destruct (next_case _ _ _ _ _ _ _ HS H) as [[K ->]|(w & c & l & it1 & -> & Hw & Hc & HS1 & Pk & K)].
  { eapply l_other; [reflexivity|]. now apply token_blank. }
  destruct (Z.eqb_spec c c_n) as [->|Hn].
  { apply ull_store in K. subst. eapply l_other; [reflexivity|]. apply not_token; auto. lia. }
  destruct (Z.eqb_spec c cLBRACE) as [->|Hb]; cbn [negb] in K.
  2:{ apply fail_case in K. destruct K as [_ ->]. eapply l_other; [reflexivity|]. now apply not_token. }
  apply load_case in K. destruct v as [| | | | | | | | | |p| |]; try (badtype K).
  destruct (inc_case _ _ _ _ _ _ HS1 Pk K) as (it2 & HS2 & K1).
  destruct (next_case _ _ _ _ _ _ _ HS2 K1) as [[Q ->]|(w2 & c2 & l2 & it3 & -> & Hw2 & Hc2 & HS3 & Pk3 & Q)].
  { now apply l_map_end. }
  assert (NB : ~ ws (w2 ++ c2 :: l2)) by (intros Q1; apply Forall_app in Q1; destruct Q1 as [_ Q1]; inversion Q1; subst; tauto).
  destruct (Z.eqb_spec c2 cRBRACE) as [->|Hb2].
  { exfalso. destruct (inc_case _ _ _ _ _ _ HS3 Pk3 Q) as (it4 & _ & Q1). destruct p; discriminate. }
  assert (Q1 : mapLoopIn F32 F64 C (S (left_total it3)) k kd (zero T) (dI n T) (VMap (Some (match p with Some m => m | None => [] end))) it3 = ((Err e, it'), v')).
  { destruct p; exact Q. }
  apply (left_mapLoop n k kd kp T HK HKp _ _ _ _ _ _ _ HS3) in Q1; auto. destruct Q1 as (m' & -> & HL).
  apply l_map; auto. now apply entries_ws.
Qed.

(** ** Structs *)
Lemma named_quote s name r : named s name r -> token s 34.
Proof. intros (w & x & w' & -> & Hw & _ & _). eapply quote_starts; eauto. Qed.
Lemma named_field w l name r : ws w -> named (w ++ 34 :: l) name r <-> p_readObjectField f l = POk name r.
Proof.
  intros Hw. rewrite field_spec. split.
  - intros (w1 & x & w' & H & Hw1 & Hw' & Hx). destruct (split_start w [34] l w1 (quote x) (w' ++ 58 :: r) H Hw Hw1) as [_ Q2];
      [apply starts_lit; unfold is_ws; lia|apply starts_quote|]. rewrite quote_app in Q2. injection Q2 as ->. eauto.
  - intros (x & w' & Hx & Hw' & ->). exists w, x, w'. split; [rewrite quote_app; app_eq|]. auto.
Qed.
Lemma named_det s name r name1 r1 : named s name r -> named s name1 r1 -> name1 = name /\ r1 = r.
Proof.
  intros H H1. destruct (named_quote _ _ _ H) as (w & l & -> & Hw & _). apply named_field in H; auto. apply named_field in H1; auto.
  rewrite H in H1. injection H1 as -> ->. auto.
Qed.
Lemma left_follow n T o path : lefts n T -> forall v s it e it' v', state s it -> followIn F32 F64 C E path (dI n T o) v it = ((Err e, it'), v') ->
  proper e -> leaves_at path T o v s v'.
Proof.
  intros IH. induction path as [|[i|alloc] path IHp]; intros v s it e it' v' HS H He; cbn [followIn] in H.
  - apply la_here. eapply IH; eauto.
  - apply load_case in H. destruct v as [| | | | | | | | | | |l|]; try (badtype H). destruct (nth_error l i) as [x|] eqn:En; [|badtype H].
    apply nth_split in En. destruct En as (l1 & l2 & -> & ->). apply inside_case in H. destruct H as (y & H & ->). rewrite upd_app.
    apply la_field. eapply IHp; eauto.
  - apply load_case in H. destruct v as [| | | | | | |[x|]| | | | |]; try (badtype H).
    + apply inside_case in H. destruct H as (y & H & ->). apply la_ptr. eapply IHp; eauto.
    + destruct alloc as [T'|]; [|apply fail_case in H; destruct H as [_ ->]; apply la_unexported].
      unfold ModelPart.vbind at 1, store at 1 in H. apply inside_case in H. destruct H as (y & H & ->). apply la_alloc. eapply IHp; eauto.
Qed.
Notation infosI n := (map (fun fd => mkInfoIn F32 F64 C (f_path fd) (f_quoted fd) (dI n (f_type fd)))).
Lemma left_structLoop n fs : (forall T, lefts n T) -> forall fuel v l it e it' v' w, ws w -> state l it ->
  structLoopIn F32 F64 C E fuel (lookup (map f_name fs)) (infosI n fs) v it = ((Err e, it'), v') -> proper e ->
  leaves_members fs v (w ++ 34 :: l) v'.
Proof.
  intros IH. induction fuel as [|fuel IHf]; intros v l it e it' v' w Hw HS H He; [discriminate|]. cbn [structLoopIn] in H.
  destruct (io_case _ _ _ _ _ _ _ _ _ _ _ (sim_readObjectField anyP) HS I H) as [[K ->]|(a & name & r & it1 & K & HS1 & EQ & K1)].
  { apply lm_key. intros name r Hn. apply named_field in Hn; auto. congruence. }
  unfold eqR in EQ. subst a. clear H. apply (named_field w) in K; auto.
  (* what comes after a member *)
  assert (Tail : forall v1 r1 it2,
    state r1 it2 -> vbind (io nextToken) (fun c => if c =? cRBRACE then io incHead else if c =? cCOMMA then
        vbind (io incHead) (fun _ => vbind (io nextToken) (fun c2 => if negb (c2 =? cQUOTE) then vfail F32 F64 C (EUnexpectedByte c2 cQUOTE 0)
          else vbind (io incHead) (fun _ => structLoopIn F32 F64 C E fuel (lookup (map f_name fs)) (infosI n fs))))
      else vfail F32 F64 C (EUnexpectedByte c cRBRACE cCOMMA)) v1 it2 = ((Err e, it'), v') ->
    (~ token r1 44 /\ v' = v1) \/ exists w1 r2, r1 = w1 ++ 44 :: r2 /\ ws w1 /\ leaves_members fs v1 r2 v').
  { intros v1 r1 it2 HS2 H. destruct (next_case _ _ _ _ _ _ _ HS2 H) as [[Q ->]|(w1 & c & l1 & it3 & -> & Hw1 & Hc & HS3 & Pk & Q)].
    { left. split; auto. now apply token_blank. }
    destruct (Z.eqb_spec c cRBRACE) as [->|Hb]; [now apply inc_ok in Q|]. destruct (Z.eqb_spec c cCOMMA) as [->|Hm].
    2:{ apply fail_case in Q. left. split; [now apply not_token|tauto]. }
    right. exists w1, l1. split; auto. split; auto. destruct (inc_case _ _ _ _ _ _ HS3 Pk Q) as (it4 & HS4 & Q1).
    destruct (next_case _ _ _ _ _ _ _ HS4 Q1) as [[Q2 ->]|(w2 & c2 & l2 & it5 & -> & Hw2 & Hc2 & HS5 & Pk5 & Q2)].
    { apply lm_key. intros name1 r3 Hn. apply named_quote in Hn. now apply token_blank in Hn. }
    destruct (Z.eqb_spec c2 cQUOTE) as [->|Hq]; cbn [negb] in Q2.
    - destruct (inc_case _ _ _ _ _ _ HS5 Pk5 Q2) as (it6 & HS6 & Q3). eapply IHf; eauto.
    - apply fail_case in Q2. destruct Q2 as [_ ->]. apply lm_key. intros name1 r3 Hn. apply named_quote in Hn. now apply not_token in Hn. }
  apply bind_case in K1. destruct (lookup (map f_name fs) name) as [i|] eqn:El.
  - destruct K1 as [K1|(u & it2 & v1 & K1 & K2)]; rewrite nth_error_map in K1; destruct (nth_error fs i) as [fd|] eqn:Ef; try discriminate; cbn [option_map di_path di_quoted di_decoder] in K1.
    + eapply lm_here; eauto; [eapply follow_err; eauto|eapply left_follow; eauto].
    + destruct (follow_ok _ _ _ _ _ _ _ _ _ _ HS1 K1) as (r1 & Ht & HS2). destruct (Tail _ _ _ HS2 K2) as [[Q ->]|(w1 & r2 & -> & Hw1 & HL)].
      * eapply lm_last; eauto.
      * eapply lm_next; eauto.
  - assert (DG : getDisallow it1 = (Ok d, it1)) by (destruct HS1 as (_ & _ & _ & _ & _ & Q); unfold getDisallow; now rewrite Q).
    unfold ModelPart.vbind at 1 2, ModelPart.io at 1 3 in K1. rewrite DG in K1. destruct d eqn:Ed.
    + destruct K1 as [K1|(u & it2 & v1 & K1 & K2)]; [|discriminate]. apply fail_case in K1. destruct K1 as [_ ->]. eapply lm_unknown; eauto.
    + destruct K1 as [K1|(u & it2 & v1 & K1 & K2)].
      * destruct (io_last _ _ _ _ _ _ _ _ _ _ sim_Skip HS1 I K1) as [Q ->]. eapply lm_unknown; eauto. right. intros t r' j Hf Hj.
        destruct (front_vends _ _ _ _ Hf Hj) as (w1 & -> & Hw1 & Hv).
        assert (Q1 := proj2 (Skip_spec f (w1 ++ t ++ r') r') (ex_intro _ w1 (ex_intro _ t (ex_intro _ j (conj eq_refl (conj Hw1 (conj Hj Hv))))))). congruence.
      * destruct (io_ok _ _ _ _ _ _ _ _ _ _ sim_Skip HS1 I K1) as (-> & [] & r1 & Q & HS2 & _). apply Skip_spec in Q.
        destruct Q as (w1 & t & j & -> & Hw1 & Hj & Hv). assert (Hf := vends_front _ _ _ _ _ eq_refl Hw1 Hj Hv).
        destruct (Tail _ _ _ HS2 K2) as [[Q ->]|(w2 & r2 & -> & Hw2 & HL)].
        -- eapply lm_unknown_last; eauto.
        -- eapply lm_unknown_next; eauto.
Qed.
Lemma left_struct n layout fs : (forall T, lefts n T) -> lefts (S n) (TStruct layout fs).
Proof.
  intros IH o v s it e it' v' HS H He. cbn [decodeIn] in H. destruct fs as [|fd0 fs0].
  { apply last_case in H. subst. now apply l_atomic. }
  remember (fd0 :: fs0) as fs eqn:Efs. assert (HN : fs <> []) by (subst; discriminate). clear Efs fd0 fs0. unfold structIn in H.
  destruct (next_case _ _ _ _ _ _ _ HS H) as [[K ->]|(w & c & l & it1 & -> & Hw & Hc & HS1 & Pk & K)].
  { eapply l_other; [reflexivity|]. now apply token_blank. }
  destruct (Z.eqb_spec c c_n) as [->|Hn].
  { apply ull_case in K. subst. eapply l_other; [reflexivity|]. apply not_token; auto. lia. }
  destruct (Z.eqb_spec c cLBRACE) as [->|Hb]; cbn [negb] in K.
  2:{ apply fail_case in K. destruct K as [_ ->]. eapply l_other; [reflexivity|]. now apply not_token. }
  destruct (inc_case _ _ _ _ _ _ HS1 Pk K) as (it2 & HS2 & K1). apply l_struct; auto.
  destruct (next_case _ _ _ _ _ _ _ HS2 K1) as [[Q ->]|(w2 & c2 & l2 & it3 & -> & Hw2 & Hc2 & HS3 & Pk3 & Q)].
  { apply lm_key. intros name r Hm. apply named_quote in Hm. now apply token_blank in Hm. }
  destruct (Z.eqb_spec c2 cRBRACE) as [->|Hb2]; [now apply inc_ok in Q|].
  destruct (Z.eqb_spec c2 cQUOTE) as [->|Hq]; cbn [negb] in Q.
  2:{ apply fail_case in Q. destruct Q as [_ ->]. apply lm_key. intros name r Hm. apply named_quote in Hm. now apply not_token in Hm. }
  destruct (inc_case _ _ _ _ _ _ HS3 Pk3 Q) as (it4 & HS4 & Q1). eapply left_structLoop; eauto.
Qed.

(** ** All types *)
Theorem decode_left n : forall T, lefts n T.
Proof.
  induction n as [|n IH]; intros T.
  { intros o v s it e it' v' _ H He. cbn [decodeIn] in H. badtype H. }
  destruct T; try (intros o v s it e it' v' _ H _; cbn [decodeIn] in H; apply last_case in H; subst; now apply l_atomic).
  - apply left_json.
  - apply left_text.
  - apply left_pointer, IH.
  - apply left_array, IH.
  - apply left_map, IH.
  - apply left_struct, IH.
  - apply left_eface, IH.
  - apply left_iface, IH.
  - intros o v s it e it' v' HS H He. apply l_ref. eapply IH; eauto.
Qed.
End PartFacts.
