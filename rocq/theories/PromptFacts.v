(** Consequences of [fol]: a function that does not come to the end of the bytes that are there asks for no others. *)
From Coq Require Import String ZArith List Bool Lia Arith.
From Verif Require Import Base ModelIter ModelStack ModelSkip ModelStr ModelInt ModelFloat ModelRead ModelIterate ModelGrow ModelBase64 ModelVal
  ModelOps Spec SpecPrompt Sim SimLib SimOps IterFacts PromptStep.
Import ListNotations.
Local Open Scope Z_scope.

Lemma withR_id r it : it_reader it = Some r -> withR r it = it.
Proof. destruct it; simpl. now intros ->. Qed.
Lemma wf_withR r r' it : it_reader it = Some r -> wf it -> wf (withR r' it).
Proof. intros R [H1 H2 H3 H4 H5]. constructor; auto. cbn [withR it_buffer]. intros ? _. exact (H3 _ R). Qed.
Lemma dripping_clean d e it : ~ dirty (withR (dripping d e) it).
Proof.
  intros (r & [= <-] & _ & X). cbn [dripping rd_sched] in X. induction (length d) as [|k IH]; simpl in X; [inversion X|].
  inversion X; subst; [discriminate|auto].
Qed.
Lemma dripping_stream d e it : stream (withR (dripping d e) it) = window it ++ d.
Proof. reflexivity. Qed.
Lemma suffix {A} (u w w' d d' : list A) : w ++ d = u ++ w' ++ d' -> (length d' <= length d)%nat -> exists d1, d = d1 ++ d'.
Proof.
  intros H L. exists (skipn (length w) (u ++ w' ++ firstn 0 d')). rewrite firstn_O, app_nil_r.
  assert (K : length (w ++ d) = length (u ++ w' ++ d')) by (now rewrite H). rewrite !app_length in K.
  replace d with (skipn (length w) (w ++ d)) by (rewrite skipn_app, skipn_all, Nat.sub_diag; reflexivity).
  rewrite H, app_assoc, skipn_app. f_equal.
  replace (length w - length (u ++ w'))%nat with 0%nat by (rewrite app_length; lia). reflexivity.
Qed.

Section Prompt.
Context {A : Type}.
Variable m : M A.
Hypothesis F : forall n r2, fol n r2 m m.
Hypothesis Ok1 : forall it, wf it -> step_ok it (snd (m it)).
Lemma prompt it r r2 d n : wf it -> it_reader it = Some r -> arrives r2 r d ->
  let c := withR (dripping d (EIO n)) it in
  fst (m c) <> Err (EIO n) -> fst (m c) <> OutOfFuel ->
  fst (m it) = fst (m c) /\
  exists d1 d' r', d = d1 ++ d' /\ arrives r2 r' d' /\ it_reader (snd (m it)) = Some r' /\ window (snd (m it)) ++ d' = stream (snd (m c)).
Proof.
  intros W R Ar c N1 N2.
  assert (T : twin n r2 c it).
  { assert (K := tw n r2 d r it Ar (wf_rd _ W _ R)). now rewrite (withR_id r it R) in K. }
  destruct (F n r2 c it T) as [?|[?|[E T']]]; try contradiction. split; auto.
  assert (W' : wf c) by (eapply wf_withR; eauto). destruct (Ok1 c W') as [u M].
  assert (S1 := mv_stream _ _ _ M). assert (S2 := mv_left _ _ _ M). unfold c in S1, S2. rewrite dripping_stream in S1.
  inversion T' as [d' r' it' Ar' B Q1 Q2]. fold c in S1, S2. rewrite <- Q1 in S1, S2. rewrite dripping_stream in S1.
  change (rd_left (withR (dripping d' (EIO n)) it')) with (length d') in S2. change (rd_left c) with (length d) in S2.
  destruct (suffix _ _ _ _ _ S1 S2) as [d1 D1]. exists d1, d', r'. auto.
Qed.
(** what is known about the bytes that are there *)
Lemma prompt_yields it r r2 d n a rest : wf it -> it_reader it = Some r -> arrives r2 r d ->
  yields m (withR (dripping d (EIO n)) it) a rest ->
  exists it' d1 d' r', m it = (Ok a, it') /\ d = d1 ++ d' /\ arrives r2 r' d' /\ it_reader it' = Some r' /\ window it' ++ d' = rest.
Proof.
  intros W R Ar [Y1 Y2]. destruct (prompt it r r2 d n W R Ar) as (E & d1 & d' & r' & D & Ar' & R' & S'); try (rewrite Y1; discriminate).
  exists (snd (m it)), d1, d', r'. rewrite Y1 in E. rewrite Y2 in S'. destruct (m it) as [x it']. cbn [fst snd] in *. subst x. auto.
Qed.
End Prompt.
Lemma complete_ends t rest n : complete t rest -> number t -> num_ends t (EIO n) rest.
Proof.
  intros H Hn. destruct (H Hn) as (c & r & -> & K). split; [|discriminate]. intros c' r' x [= <- <-]. apply K.
Qed.
Lemma complete_vends t j rest n : complete t rest -> value t j -> vends t j (EIO n) rest.
Proof. intros H V. destruct j; simpl; auto. apply complete_ends; auto. now inversion V. Qed.
