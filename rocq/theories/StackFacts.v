(** The bit-packed stack refines a list of booleans (true = array). *)
From Coq Require Import ZArith List Bool Lia Arith.
From Verif Require Import Base ModelStack.
Import ListNotations.
Local Open Scope Z_scope.

Local Opaque Nat.div Nat.modulo.

(** bit [i] of the packed words *)
Definition bit_at (ws : list Z) (i : nat) : option bool :=
  match nth_error ws (i / 64) with
  | None => None
  | Some w => Some (Z.testbit w (Z.of_nat (i mod 64)))
  end.

(** [s] holds the elements [l], top first *)
Definition reps (s : stack) (l : list bool) : Prop :=
  stk_depth s = length l /\
  forall i b, nth_error (rev l) i = Some b -> bit_at (stk_words s) i = Some b.

(** What pop reports for a stored element *)
Definition elem (b : bool) : Z := if b then 3 else 2.

Lemma set_nth_length l n x : length (set_nth l n x) = length l.
Proof. revert n; induction l; intros [|n]; simpl; auto. Qed.
Lemma nth_error_set_nth_same l n x : (n < length l)%nat -> nth_error (set_nth l n x) n = Some x.
Proof. revert n; induction l; intros [|n] H; simpl in *; try lia; auto. apply IHl; lia. Qed.
Lemma nth_error_set_nth_other l n m x : n <> m -> nth_error (set_nth l n x) m = nth_error l m.
Proof. revert n m; induction l; intros [|n] [|m] H; simpl; auto; try lia. Qed.

Lemma reps_init_gen s b :
  reps (mkStack (set_nth (match stk_words s with [] => [0] | w => w end) 0 (if b : bool then 1 else 0)) 1) [b].
Proof.
  split; [reflexivity|]. intros i b' H. simpl in H. destruct i as [|i]; [|destruct i; discriminate].
  injection H as <-. unfold bit_at. simpl.
  destruct (stk_words s); simpl; destruct b; reflexivity.
Qed.
Lemma reps_initObject s : reps (initObject s) [false].
Proof. apply (reps_init_gen s false). Qed.
Lemma reps_initArray s : reps (initArray s) [true].
Proof. apply (reps_init_gen s true). Qed.
Lemma reps_stack_init s : reps (stack_init s) [].
Proof. split; auto. intros [|i]; discriminate. Qed.

Lemma land_1_bit w k : 0 <= k -> Z.land (Z.shiftr w k) 1 = if Z.testbit w k then 1 else 0.
Proof.
  intros K. change 1 with (Z.ones 1). rewrite Z.land_ones by lia.
  change (2 ^ 1) with 2. rewrite <- Z.bit0_mod.
  rewrite Z.shiftr_spec by lia. rewrite Z.add_0_l. destruct (Z.testbit w k); reflexivity.
Qed.

Lemma reps_pop s l : reps s l ->
  match l with
  | [] => pop s = Some (stackElementNone, s)
  | b :: l' => exists s', pop s = Some (elem b, s') /\ reps s' l'
  end.
Proof.
  intros [D H]. unfold pop. rewrite D. destruct l as [|b l]; simpl length; cbv iota; auto.
  assert (B : bit_at (stk_words s) (length l) = Some b).
  { apply H. simpl. rewrite nth_error_app2; rewrite rev_length; auto. now rewrite Nat.sub_diag. }
  unfold bit_at in B. destruct (nth_error (stk_words s) (length l / 64)) as [w|]; [|discriminate].
  eexists. split.
  - rewrite land_1_bit by lia. injection B as ->. destruct b; reflexivity.
  - split; [reflexivity|]. simpl. intros i b' Hi. apply H. simpl.
    rewrite nth_error_app1; auto. apply nth_error_Some. congruence.
Qed.

Lemma reps_top s l : reps s l ->
  stack_top s = Some (match l with [] => stackElementNone | b :: _ => if b : bool then 1 else 0 end).
Proof.
  intros [D H]. unfold stack_top. rewrite D. destruct l as [|b l]; simpl length; cbv iota; auto.
  assert (B : bit_at (stk_words s) (length l) = Some b).
  { apply H. simpl. rewrite nth_error_app2; rewrite rev_length; auto. now rewrite Nat.sub_diag. }
  unfold bit_at in B. destruct (nth_error (stk_words s) (length l / 64)) as [w|]; [|discriminate].
  rewrite land_1_bit by lia. injection B as ->. destruct b; reflexivity.
Qed.

Lemma reps_words s l : reps s l -> (length l / 64 <= length (stk_words s))%nat.
Proof.
  intros [D H]. destruct l as [|b l]; [change (length (@nil bool)) with O; rewrite Nat.div_0_l; lia|].
  assert (B : bit_at (stk_words s) (length l) = Some b).
  { apply H. simpl. rewrite nth_error_app2; rewrite rev_length; auto. now rewrite Nat.sub_diag. }
  unfold bit_at in B. destruct (nth_error (stk_words s) (length l / 64)) as [w|] eqn:E; [|discriminate].
  assert (length l / 64 < length (stk_words s))%nat by (apply nth_error_Some; congruence).
  simpl length.
  assert (S (length l) / 64 <= S (length l / 64))%nat.
  { apply Nat.lt_succ_r. apply Nat.div_lt_upper_bound; [lia|].
    pose proof (Nat.mul_succ_div_gt (length l) 64). lia. }
  lia.
Qed.

(** setting bit [d] to [b] by an operation that keeps the lower bits *)
Lemma reps_push_gen s l b (f : Z -> Z) :
  reps s l ->
  (forall w k j, 0 <= k < 64 -> 0 <= j -> Z.testbit (f w) k = Z.testbit (f w) k) ->
  forall ws', ws' = (if (length l / 64 =? length (stk_words s))%nat
                     then Some (stk_words s ++ [if b : bool then 1 else 0])
                     else match nth_error (stk_words s) (length l / 64) with
                          | None => None
                          | Some w => Some (set_nth (stk_words s) (length l / 64) (f w))
                          end) ->
  (forall w, Z.testbit (f w) (Z.of_nat (length l mod 64)) = b) ->
  (forall w j, (j < length l mod 64)%nat -> Z.testbit (f w) (Z.of_nat j) = Z.testbit w (Z.of_nat j)) ->
  exists w', ws' = Some w' /\ reps (mkStack w' (S (length l))) (b :: l).
Proof.
  intros R _ ws' -> Hb Hlow. pose proof (reps_words _ _ R) as Hw. destruct R as [D H].
  set (n := length l) in *.
  destruct (Nat.eqb_spec (n / 64) (length (stk_words s))) as [E|E].
  - eexists; split; [reflexivity|]. split; [reflexivity|]. simpl stk_words.
    intros i b' Hi. simpl in Hi.
    destruct (Nat.lt_ge_cases i n) as [L|L].
    + rewrite nth_error_app1 in Hi by (rewrite rev_length; auto).
      specialize (H _ _ Hi). unfold bit_at in *.
      destruct (nth_error (stk_words s) (i / 64)) eqn:E1; [|discriminate].
      rewrite nth_error_app1 by (apply nth_error_Some; congruence). now rewrite E1.
    + rewrite nth_error_app2 in Hi by (rewrite rev_length; auto). rewrite rev_length in Hi.
      fold n in Hi. assert (i = n).
      { destruct (i - n)%nat as [|k] eqn:K; [lia|]. simpl in Hi. destruct k; discriminate. }
      subst i. rewrite Nat.sub_diag in Hi. injection Hi as <-.
      unfold bit_at. rewrite E, nth_error_app2, Nat.sub_diag by lia. simpl.
      assert (n mod 64 = 0)%nat as ->.
      { (* n/64 words are full: otherwise bit n-1 would lie in word n/64 *)
        destruct (Nat.eq_dec (n mod 64) 0) as [?|Hne]; auto. exfalso.
        assert (exists m, n = S m) as [m Hm].
        { exists (n - 1)%nat. destruct (Nat.eq_dec n 0) as [Z0|]; [|lia]. rewrite Z0, Nat.mod_0_l in Hne by lia. lia. }
        assert (m / 64 = n / 64)%nat.
        { rewrite (Nat.div_mod n 64) in Hm by lia.
          symmetry. apply (Nat.div_unique m 64 (n / 64) (n mod 64 - 1)); [|lia].
          pose proof (Nat.mod_upper_bound n 64). lia. }
        assert (exists b0, nth_error (rev l) m = Some b0) as [b0 B0].
        { destruct (nth_error (rev l) m) eqn:Q; eauto. apply nth_error_None in Q.
          rewrite rev_length in Q. fold n in Q. lia. }
        specialize (H _ _ B0). unfold bit_at in H. rewrite H0, E in H.
        rewrite (proj2 (nth_error_None _ _)) in H by lia. discriminate. }
      simpl. destruct b; reflexivity.
  - assert (Hlt : (n / 64 < length (stk_words s))%nat) by lia.
    destruct (nth_error (stk_words s) (n / 64)) as [w|] eqn:E1.
    2:{ apply nth_error_None in E1. lia. }
    eexists; split; [reflexivity|]. split; [reflexivity|]. simpl stk_words.
    intros i b' Hi. simpl in Hi.
    destruct (Nat.lt_ge_cases i n) as [L|L].
    + rewrite nth_error_app1 in Hi by (rewrite rev_length; auto).
      specialize (H _ _ Hi). unfold bit_at in *.
      destruct (Nat.eq_dec (n / 64) (i / 64)) as [Q|Q].
      * rewrite Q, nth_error_set_nth_same by lia. rewrite Q in E1. rewrite E1 in H.
        rewrite <- H. f_equal. apply Hlow.
        pose proof (Nat.div_mod n 64). pose proof (Nat.div_mod i 64). lia.
      * rewrite nth_error_set_nth_other by auto. auto.
    + rewrite nth_error_app2 in Hi by (rewrite rev_length; auto). rewrite rev_length in Hi.
      fold n in Hi. assert (i = n).
      { destruct (i - n)%nat as [|k] eqn:K; [lia|]. simpl in Hi. destruct k; discriminate. }
      subst i. rewrite Nat.sub_diag in Hi. injection Hi as <-.
      unfold bit_at. rewrite nth_error_set_nth_same by lia. now rewrite Hb.
Qed.

Lemma reps_pushObject s l : reps s l -> exists s', pushObject s = Some s' /\ reps s' (false :: l).
Proof.
  intros R. assert (D : stk_depth s = length l) by apply R.
  destruct (reps_push_gen s l false
              (fun w => Z.land w (Z.shiftl 1 (Z.of_nat (length l mod 64)) - 1)) R ltac:(auto) _ eq_refl)
    as (w' & E & R').
  - intros w. rewrite Z.shiftl_1_l, Z.land_spec.
    replace (2 ^ Z.of_nat (length l mod 64) - 1) with (Z.ones (Z.of_nat (length l mod 64)))
      by (rewrite Z.ones_equiv; lia).
    rewrite Z.ones_spec_high by lia. apply andb_false_r.
  - intros w j Hj. rewrite Z.shiftl_1_l, Z.land_spec.
    replace (2 ^ Z.of_nat (length l mod 64) - 1) with (Z.ones (Z.of_nat (length l mod 64)))
      by (rewrite Z.ones_equiv; lia).
    rewrite Z.ones_spec_low by lia. apply andb_true_r.
  - exists (mkStack w' (S (length l))). split; auto.
    unfold pushObject. rewrite D.
    destruct (length l / 64 =? length (stk_words s))%nat.
    + now injection E as <-.
    + destruct (nth_error (stk_words s) (length l / 64)); [|discriminate]. now injection E as <-.
Qed.

Lemma reps_pushArray s l : reps s l -> exists s', pushArray s = Some s' /\ reps s' (true :: l).
Proof.
  intros R. assert (D : stk_depth s = length l) by apply R.
  destruct (reps_push_gen s l true
              (fun w => Z.lor w (Z.shiftl 1 (Z.of_nat (length l mod 64)))) R ltac:(auto) _ eq_refl)
    as (w' & E & R').
  - intros w. rewrite Z.shiftl_1_l, Z.lor_spec, Z.pow2_bits_true by lia. apply orb_true_r.
  - intros w j Hj. rewrite Z.shiftl_1_l, Z.lor_spec, Z.pow2_bits_false by lia. apply orb_false_r.
  - exists (mkStack w' (S (length l))). split; auto.
    unfold pushArray. rewrite D.
    destruct (length l / 64 =? length (stk_words s))%nat.
    + now injection E as <-.
    + destruct (nth_error (stk_words s) (length l / 64)); [|discriminate]. now injection E as <-.
Qed.

(** ** Command sequences *)
Inductive scmd := CPushArray | CPushObject | CPop | CTop.
(** the code: outputs of the commands, [None] for an index panic *)
Fixpoint stack_run (cs : list scmd) (s : stack) : option (list Z) :=
  match cs with
  | [] => Some []
  | CPushArray :: r => match pushArray s with None => None | Some s' => stack_run r s' end
  | CPushObject :: r => match pushObject s with None => None | Some s' => stack_run r s' end
  | CPop :: r => match pop s with
                 | None => None
                 | Some (x, s') => match stack_run r s' with None => None | Some l => Some (x :: l) end
                 end
  | CTop :: r => match stack_top s with
                 | None => None
                 | Some x => match stack_run r s with None => None | Some l => Some (x :: l) end
                 end
  end.
(** a list of markers: pop gives 2 (object) or 3 (array), top 0 or 1, both -1 when empty *)
Fixpoint list_run (cs : list scmd) (l : list bool) : list Z :=
  match cs with
  | [] => []
  | CPushArray :: r => list_run r (true :: l)
  | CPushObject :: r => list_run r (false :: l)
  | CPop :: r => match l with
                 | [] => -1 :: list_run r []
                 | b :: l' => (if b then 3 else 2) :: list_run r l'
                 end
  | CTop :: r => match l with
                 | [] => -1 :: list_run r []
                 | b :: _ => (if b then 1 else 0) :: list_run r l
                 end
  end.
Lemma stack_run_ok cs : forall s l, reps s l -> stack_run cs s = Some (list_run cs l).
Proof.
  induction cs as [|c cs IH]; intros s l R; auto. destruct c; cbn [stack_run list_run].
  - destruct (reps_pushArray s l R) as (s' & -> & R'). now apply IH.
  - destruct (reps_pushObject s l R) as (s' & -> & R'). now apply IH.
  - assert (H := reps_pop s l R). destruct l as [|b l].
    + rewrite H. now rewrite (IH _ _ R).
    + destruct H as (s' & -> & R'). rewrite (IH _ _ R'). now destruct b.
  - assert (H := reps_top s l R). destruct l as [|b l]; rewrite H; now rewrite (IH _ _ R).
Qed.
Lemma stack_run_all cs words d :
  stack_run (CPushArray :: cs) (mkStack words 0) = Some (list_run (CPushArray :: cs) []) /\
  stack_run cs (initObject (mkStack words d)) = Some (list_run cs [false]) /\
  stack_run cs (initArray (mkStack words d)) = Some (list_run cs [true]) /\
  stack_run cs (stack_init (mkStack words d)) = Some (list_run cs []).
Proof.
  repeat split.
  - apply stack_run_ok. split; [reflexivity|]. intros i b H. destruct i; discriminate.
  - apply stack_run_ok, reps_initObject.
  - apply stack_run_ok, reps_initArray.
  - apply stack_run_ok, reps_stack_init.
Qed.
