(** Facts about describeStruct: the breadth-first search over embedded structs, and the selection. *)
From Coq Require Import String ZArith List Bool Lia Arith Permutation Sorted.
From Verif Require Import Base ModelRead ModelTag ModelStruct Spec SpecStream SpecFold TagFacts SpecStruct.
Import ListNotations.
Local Open Scope Z_scope.

(** ** The orders *)
Record total {B} (lt : B -> B -> bool) : Prop := mkTotal {
  to_trich : forall a b, (lt a b = true /\ lt b a = false) \/ a = b \/ (lt a b = false /\ lt b a = true);
  to_irr : forall a, lt a a = false;
  to_trans : forall a b c, lt a b = true -> lt b c = true -> lt a c = true
}.
Lemma bytes_total : total bytes_ltb.
Proof.
  constructor.
  - induction a as [|x a IH]; intros [|y b]; simpl; auto.
    rewrite (Z.eqb_sym y x). destruct (Z.eqb_spec x y) as [->|N].
    + destruct (IH b) as [H|[-> |H]]; auto.
    + destruct (Z.ltb_spec x y), (Z.ltb_spec y x); auto; lia.
  - induction a; simpl; auto. now rewrite Z.eqb_refl.
  - induction a as [|x a IH]; intros [|y b] [|z c]; simpl; try discriminate; auto.
    destruct (Z.eqb_spec x y) as [->|N1], (Z.eqb_spec y z) as [->|N2]; intros H1 H2; auto.
    + eauto.
    + destruct (Z.eqb_spec x z); [|auto]. lia.
    + destruct (Z.eqb_spec x z); [lia|]. lia.
Qed.
Lemma index_total : total indexLess.
Proof.
  constructor.
  - induction a as [|x a IH]; intros [|y b]; simpl; auto.
    rewrite (Nat.eqb_sym y x). destruct (Nat.eqb_spec x y) as [->|N].
    + destruct (IH b) as [H|[-> |H]]; auto.
    + destruct (Nat.ltb_spec x y), (Nat.ltb_spec y x); auto; lia.
  - induction a; simpl; auto. now rewrite Nat.eqb_refl.
  - induction a as [|x a IH]; intros [|y b] [|z c]; simpl; try discriminate; auto.
    destruct (Nat.eqb_spec x y) as [->|N1], (Nat.eqb_spec y z) as [->|N2]; intros H1 H2; auto.
    + eauto.
    + destruct (Nat.eqb_spec x z) as [->|]; [|auto]. contradiction.
    + apply Nat.ltb_lt in H1, H2. destruct (Nat.eqb_spec x z); [lia|]. apply Nat.ltb_lt. lia.
Qed.
Lemma nat_total : total Nat.ltb.
Proof.
  constructor.
  - intros a b. destruct (Nat.ltb_spec a b), (Nat.ltb_spec b a); auto; lia.
  - apply Nat.ltb_irrefl.
  - intros a b c. rewrite !Nat.ltb_lt. lia.
Qed.
(** tagged before untagged *)
Definition tagLt (a b : bool) : bool := a && negb b.
Lemma tag_total : total tagLt.
Proof. constructor; [intros [] []; auto|intros []; auto|intros [] [] []; auto]. Qed.
Definition lex {A B} (l1 : A -> A -> bool) (l2 : B -> B -> bool) (x y : A * B) : bool :=
  if l1 (fst x) (fst y) then true else if l1 (fst y) (fst x) then false else l2 (snd x) (snd y).
Lemma lex_total {A B} (l1 : A -> A -> bool) (l2 : B -> B -> bool) : total l1 -> total l2 -> total (lex l1 l2).
Proof.
  intros T1 T2. constructor; unfold lex.
  - intros [a b] [a' b']. simpl. destruct (to_trich _ T1 a a') as [[H1 H2]|[-> |[H1 H2]]]; rewrite ?H1, ?H2; auto.
    rewrite (to_irr _ T1). destruct (to_trich _ T2 b b') as [H|[-> |H]]; auto.
  - intros [a b]. simpl. rewrite (to_irr _ T1). apply (to_irr _ T2).
  - intros [a b] [a' b'] [a2 b2]. simpl.
    destruct (to_trich _ T1 a a') as [[H1 H2]|[-> |[H1 H2]]]; rewrite ?H1, ?H2, ?(to_irr _ T1); try discriminate.
    + intros _. destruct (to_trich _ T1 a' a2) as [[H3 H4]|[-> |[H3 H4]]]; rewrite ?H3, ?H4, ?(to_irr _ T1), ?H1; try discriminate; auto.
      now rewrite (to_trans _ T1 _ _ _ H1 H3).
    + intros H. destruct (to_trich _ T1 a' a2) as [[H3 H4]|[-> |[H3 H4]]]; rewrite ?H3, ?H4, ?(to_irr _ T1); try discriminate; auto.
      apply (to_trans _ T2 _ _ _ H).
Qed.
Lemma total_weak {A B} (lt : B -> B -> bool) (key : A -> B) : total lt -> strict_weak (fun x y => lt (key x) (key y)).
Proof.
  intros T. split.
  - intros x y H. destruct (to_trich _ T (key x) (key y)) as [[_ H']|[E|[H' _]]]; auto; [rewrite E; apply (to_irr _ T)|congruence].
  - unfold le_of. intros x y z H1 H2. destruct (lt (key z) (key x)) eqn:Z; auto.
    destruct (to_trich _ T (key x) (key y)) as [[H _]|[E|[_ H]]]; [|congruence|congruence].
    rewrite (to_trans _ T _ _ _ Z H) in H2. discriminate.
Qed.
Lemma byIndex_weak : strict_weak byIndex.
Proof. apply (total_weak indexLess d_index), index_total. Qed.
Definition keyOf (x : dfield) : bytes * (nat * (bool * list nat)) := (d_name x, (length (d_index x), (d_tagged x, d_index x))).
Lemma bytes_eqb_refl a : bytes_eqb a a = true.
Proof. now apply bytes_eqb_iff. Qed.
Lemma bytes_eqb_neq a b : a <> b -> bytes_eqb a b = false.
Proof. intros H. destruct (bytes_eqb a b) eqn:E; auto. apply bytes_eqb_iff in E. contradiction. Qed.
Lemma byName_key x y : byName x y = lex bytes_ltb (lex Nat.ltb (lex tagLt indexLess)) (keyOf x) (keyOf y).
Proof.
  unfold byName, lex, keyOf, byIndex. simpl. destruct (bytes_eqb (d_name x) (d_name y)) eqn:E.
  - apply bytes_eqb_iff in E. rewrite E, (to_irr _ bytes_total). cbv [negb].
    destruct (Nat.eqb_spec (length (d_index x)) (length (d_index y))) as [->|N].
    + rewrite Nat.ltb_irrefl. unfold tagLt. destruct (d_tagged x), (d_tagged y); reflexivity.
    + destruct (Nat.ltb_spec (length (d_index x)) (length (d_index y))), (Nat.ltb_spec (length (d_index y)) (length (d_index x))); auto; lia.
  - assert (N : d_name x <> d_name y) by (intros H; rewrite H, bytes_eqb_refl in E; discriminate). cbv [negb].
    destruct (to_trich _ bytes_total (d_name x) (d_name y)) as [[H1 H2]|[H|[H1 H2]]]; rewrite ?H1, ?H2; auto; contradiction.
Qed.
Lemma byName_total : total (lex bytes_ltb (lex Nat.ltb (lex tagLt indexLess))).
Proof. auto using lex_total, bytes_total, nat_total, tag_total, index_total. Qed.
Lemma byName_weak : strict_weak byName.
Proof.
  destruct (total_weak _ keyOf byName_total) as [H1 H2]. split; unfold le_of in *.
  - intros x y. rewrite !byName_key. apply H1.
  - intros x y z. rewrite !byName_key. apply H2.
Qed.
Lemma indexLess_iff a b : indexLess a b = true <-> index_lt a b.
Proof.
  revert b. induction a as [|x a IH]; intros [|y b]; simpl; split; intros H; try discriminate; try (inversion H; fail); auto.
  - constructor.
  - destruct (Nat.eqb_spec x y) as [->|N]; [apply il_same; now apply IH|apply il_less; now apply Nat.ltb_lt].
  - inversion H as [|? ? ? ? L|? ? ? L]; subst.
    + destruct (Nat.eqb_spec x y); [lia|]. now apply Nat.ltb_lt.
    + rewrite Nat.eqb_refl. now apply IH.
Qed.

(** ** The selection *)
Lemma beats_irr x : ~ beats x x.
Proof. intros [H|(_ & H1 & H2)]; [lia|congruence]. Qed.
Lemma beats_trans x y z : beats x y -> beats y z -> beats x z.
Proof. unfold beats. intros [H|(H1 & H2 & H3)] [H'|(H4 & H5 & H6)]; [left; lia|left; lia|left; lia|congruence]. Qed.
(** fields with the same name in the order of the first sort *)
Definition notAfter (x y : dfield) : Prop := le_of byName x y.
Lemma notAfter_cases x y : notAfter x y -> d_name x = d_name y -> beats x y \/ (depth x = depth y /\ d_tagged x = d_tagged y).
Proof.
  unfold notAfter, le_of, beats, depth. rewrite byName_key. unfold lex, keyOf. simpl. intros H E. rewrite E, (to_irr _ bytes_total) in H.
  destruct (Nat.ltb_spec (length (d_index y)) (length (d_index x))); [discriminate|].
  destruct (Nat.ltb_spec (length (d_index x)) (length (d_index y))); [auto|].
  unfold tagLt in H. destruct (d_tagged x), (d_tagged y); simpl in H; try discriminate; [right|left; right|right]; split; auto; lia.
Qed.
Lemma notAfter_names x y z : notAfter x y -> notAfter y z -> d_name x = d_name z -> d_name y = d_name x.
Proof.
  unfold notAfter, le_of. rewrite !byName_key. unfold lex, keyOf. cbn [fst snd]. intros H1 H2 E.
  destruct (to_trich _ bytes_total (d_name x) (d_name y)) as [[A B]|[A|[A B]]]; auto.
  - rewrite <- E, A in H2. discriminate.
  - rewrite B in H1. discriminate.
Qed.

Definition head (l : list dfield) : list dfield :=
  match l with
  | [] => []
  | fi :: r => match sameName (d_name fi) r with
               | [] => [fi]
               | same => match dominantField (fi :: same) with Some d => [d] | None => [] end
               end
  end.
Lemma dominants_step f fi r : dominants (S f) (fi :: r) = head (fi :: r) ++ dominants f (skipn (length (sameName (d_name fi) r)) r).
Proof. simpl. now destruct (sameName (d_name fi) r). Qed.
Lemma sameName_split n l : exists r, l = sameName n l ++ r /\ skipn (length (sameName n l)) l = r /\
  Forall (fun x => d_name x = n) (sameName n l) /\ (forall y r', r = y :: r' -> d_name y <> n).
Proof.
  induction l as [|x l IH]; simpl; [exists []; repeat split; auto; discriminate|].
  destruct (bytes_eqb (d_name x) n) eqn:E.
  - destruct IH as (r & H1 & H2 & H3 & H4). exists r. apply bytes_eqb_iff in E. repeat split; auto; simpl; congruence.
  - exists (x :: l). repeat split; auto. intros y r' [= <- _] H. rewrite H, bytes_eqb_refl in E. discriminate.
Qed.
Lemma sorted_app_r {A} (P : A -> A -> Prop) l1 l2 : StronglySorted P (l1 ++ l2) -> StronglySorted P l2.
Proof. induction l1; simpl; auto. intros H. inversion H; auto. Qed.
Lemma sorted_app_lt {A} (P : A -> A -> Prop) l1 l2 x y : StronglySorted P (l1 ++ l2) -> In x l1 -> In y l2 -> P x y.
Proof.
  induction l1 as [|a l1 IH]; simpl; [tauto|]. intros H [->|Hx] Hy; inversion H as [|? ? H1 H2]; subst; auto.
  rewrite Forall_forall in H2. apply H2, in_or_app. auto.
Qed.
(** the name of the first field does not occur after its group *)
Lemma group_rest fi r : StronglySorted notAfter (fi :: r) -> forall rest, r = sameName (d_name fi) r ++ rest ->
  (forall y r', rest = y :: r' -> d_name y <> d_name fi) -> forall y, In y rest -> d_name y <> d_name fi.
Proof.
  intros S rest E N y Iy Hy. destruct rest as [|z rest]; [destruct Iy|]. apply (N z rest eq_refl).
  inversion S as [|? ? S1 F1]; subst. rewrite Forall_forall in F1.
  assert (A : notAfter fi z) by (apply F1; rewrite E; apply in_or_app; simpl; auto).
  destruct Iy as [->|Iy]; auto. rewrite E in S1. apply sorted_app_r in S1. inversion S1 as [|? ? S2 F2]; subst. rewrite Forall_forall in F2.
  apply (notAfter_names fi z y A (F2 y Iy)). now symmetry.
Qed.
Lemma head_name fi r d : In d (head (fi :: r)) -> d = fi.
Proof.
  simpl. destruct (sameName (d_name fi) r) as [|x s]; simpl; [intuition|].
  destruct (_ && _); simpl; intuition.
Qed.
(** [wins l fd]: [fd] occurs once in [l] and beats the others with its name *)
Definition wins (l : list dfield) (fd : dfield) : Prop :=
  exists rest, Permutation l (fd :: rest) /\ forall g, In g rest -> d_name g = d_name fd -> beats fd g.
Lemma head_wins fi r : StronglySorted notAfter (fi :: r) -> (In fi (head (fi :: r)) <-> wins (fi :: r) fi).
Proof.
  intros S. destruct (sameName_split (d_name fi) r) as (rest & H1 & _ & H3 & H4). pose proof (group_rest fi r S rest H1 H4) as H5.
  inversion S as [|? ? S1 F1]; subst.
  unfold wins. cbn [head]. destruct (sameName (d_name fi) r) as [|x s] eqn:Es.
  - simpl in H1. subst rest. split; [|simpl; auto]. intros _. exists r. split; auto. intros g Ig Hg. exfalso. now apply (H5 g Ig).
  - rewrite Forall_forall in F1. assert (Nx : d_name x = d_name fi) by now inversion H3. assert (Ix : In x r) by (rewrite H1; simpl; auto).
    cbn [dominantField]. split.
    + intros H. exists r. split; auto. intros g Ig Hg.
      assert (B : beats fi x).
      { destruct (notAfter_cases fi x (F1 x Ix) (eq_sym Nx)) as [B|[B1 B2]]; auto. exfalso. unfold depth in B1.
        rewrite B1, B2, Nat.eqb_refl, Bool.eqb_reflx in H. destruct H. }
      rewrite H1 in Ig. apply in_app_or in Ig. destruct Ig as [[->|Ig]|Ig]; auto; [|exfalso; now apply (H5 g Ig)].
      rewrite H1 in S1. cbn in S1. inversion S1 as [|? ? S2 F2]; subst. rewrite Forall_forall in F2.
      destruct (notAfter_cases x g) as [B'|[B1 B2]]; [apply F2, in_or_app; auto|congruence|eauto using beats_trans|].
      destruct B as [B|(B & B3 & B4)]; [left; lia|right]. repeat split; congruence.
    + intros (rest' & P & H). apply Permutation_cons_inv in P. assert (B : beats fi x) by (apply H; auto; eapply Permutation_in; eauto).
      destruct ((length (d_index fi) =? length (d_index x))%nat && Bool.eqb (d_tagged fi) (d_tagged x)) eqn:E; [|simpl; auto].
      apply andb_true_iff in E. destruct E as [E1 E2]. apply Nat.eqb_eq in E1. apply Bool.eqb_prop in E2. exfalso.
      destruct B as [B|(_ & B1 & B2)]; [unfold depth in B; lia|congruence].
Qed.
Lemma dominants_wins f l fd : (length l <= f)%nat -> StronglySorted notAfter l -> (In fd (dominants f l) <-> wins l fd).
Proof.
  revert l. induction f as [|f IH]; intros [|fi r] L S; try (simpl in L; lia).
  1,2: split; [intros []|intros (rest & P & _); now apply Permutation_nil_cons in P].
  rewrite dominants_step, in_app_iff.
  destruct (sameName_split (d_name fi) r) as (rest & H1 & H2 & H3 & H4). pose proof (group_rest fi r S rest H1 H4) as H5. rewrite H2.
  assert (Sr : StronglySorted notAfter rest) by (inversion S as [|? ? S1 F1]; subst; rewrite H1 in S1; now apply sorted_app_r in S1).
  assert (Lr : (length rest <= f)%nat) by (simpl in L; apply (f_equal (@length dfield)) in H1; rewrite app_length in H1; lia).
  rewrite (IH rest Lr Sr). rewrite Forall_forall in H3.
  assert (X : d_name fd <> d_name fi -> (wins rest fd <-> wins (fi :: r) fd)).
  { intros N. set (A := fi :: sameName (d_name fi) r). assert (EA : fi :: r = A ++ rest) by (unfold A; simpl; now rewrite <- H1).
    assert (NA : forall g, In g A -> d_name g = d_name fi) by (intros g [<-|Ig]; auto). rewrite EA. clearbody A. split; intros (r0 & P & H).
    - exists (A ++ r0). split; [rewrite P; symmetry; apply Permutation_middle|]. intros g Ig Hg. apply in_app_or in Ig. destruct Ig as [Ig|Ig]; auto.
      exfalso. apply N. now rewrite <- Hg, (NA g Ig).
    - assert (I : In fd (A ++ rest)) by (eapply Permutation_in; [symmetry; exact P|simpl; auto]). apply in_app_or in I.
      destruct I as [I|I]; [exfalso; apply N, NA, I|]. apply in_split in I. destruct I as (u & v & ->). exists (u ++ v). split; [symmetry; apply Permutation_middle|].
      intros g Ig Hg. apply H; auto. assert (P2 : Permutation (fd :: A ++ u ++ v) (fd :: r0)).
      { rewrite <- P. rewrite Permutation_middle. apply Permutation_app_head, Permutation_middle. }
      apply Permutation_cons_inv in P2. eapply Permutation_in; [exact P2|apply in_or_app; auto]. }
  destruct (list_eq_dec Z.eq_dec (d_name fd) (d_name fi)) as [E|N].
  - assert (Y : ~ wins rest fd) by (intros (r0 & P & _); apply (H5 fd); auto; eapply Permutation_in; [symmetry; exact P|simpl; auto]).
    split.
    + intros [I|I]; [|contradiction]. pose proof (head_name _ _ _ I) as ->. now apply head_wins.
    + intros W. left. assert (fd = fi) as ->; [|now apply head_wins].
      destruct W as (r0 & P & H). assert (I : In fi (fd :: r0)) by (eapply Permutation_in; [exact P|simpl; auto]). destruct I as [->|I]; auto.
      assert (B : beats fd fi) by auto. exfalso.
      assert (I' : In fd r).
      { assert (K : In fd (fi :: r)) by (eapply Permutation_in; [symmetry; exact P|simpl; auto]). destruct K as [->|K]; auto. exfalso. now apply (beats_irr fd). }
      inversion S as [|? ? S1 F1]; subst. rewrite Forall_forall in F1.
      destruct (notAfter_cases fi fd (F1 fd I') (eq_sym E)) as [B'|[B1 B2]]; [eapply beats_irr; eauto using beats_trans|].
      destruct B as [B|(_ & B3 & B4)]; [lia|congruence].
  - rewrite <- (X N). split; auto. intros [I|I]; auto. exfalso. apply N. f_equal. now apply (head_name fi r).
Qed.
Lemma dominants_names f l : (length l <= f)%nat -> StronglySorted notAfter l -> NoDup (map d_name (dominants f l)).
Proof.
  revert l. induction f as [|f IH]; intros [|fi r] L S; try (simpl in L; lia); try constructor.
  rewrite dominants_step.
  destruct (sameName_split (d_name fi) r) as (rest & H1 & H2 & H3 & H4). pose proof (group_rest fi r S rest H1 H4) as H5. rewrite H2.
  assert (Sr : StronglySorted notAfter rest) by (inversion S as [|? ? S1 F1]; subst; rewrite H1 in S1; now apply sorted_app_r in S1).
  assert (Lr : (length rest <= f)%nat) by (simpl in L; apply (f_equal (@length dfield)) in H1; rewrite app_length in H1; lia).
  specialize (IH rest Lr Sr).
  assert (K : head (fi :: r) = [] \/ head (fi :: r) = [fi]).
  { simpl. destruct (sameName (d_name fi) r); auto. simpl. destruct (_ && _); auto. }
  destruct K as [-> | ->]; simpl; auto. constructor; auto. intros I. apply in_map_iff in I. destruct I as (y & Ey & Iy).
  apply (dominants_wins f rest y Lr Sr) in Iy. destruct Iy as (r0 & P & _). apply (H5 y); auto. eapply Permutation_in; [symmetry; exact P|simpl; auto].
Qed.
