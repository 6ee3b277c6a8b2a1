(** Printing of integers (streamer_int.go). *)
From Coq Require Import String ZArith List Bool Lia.
From Verif Require Import Base Spec SpecStream ModelStream IntFacts.
Import ListNotations.
Local Open Scope Z_scope.

Lemma fold_dec l : forall a, fold_left (fun a c => 10 * a + (c - 48)) l a
  = a * 10 ^ Z.of_nat (length l) + fold_left (fun a c => 10 * a + (c - 48)) l 0.
Proof.
  induction l as [|c l IH]; intros a; [simpl; lia|].
  cbn [fold_left]. rewrite (IH (10 * a + (c - 48))), (IH (10 * 0 + (c - 48))).
  cbn [length]. rewrite Nat2Z.inj_succ, Z.pow_succ_r by lia. ring.
Qed.
Lemma dec_app a b : dec (a ++ b) = dec a * 10 ^ Z.of_nat (length b) + dec b.
Proof. unfold dec. rewrite fold_left_app. apply fold_dec. Qed.

(** ** The digit table *)
Definition int_partb (l : bytes) : bool :=
  match l with
  | [] => false
  | [48] => true
  | d :: r => (49 <=? d) && (d <=? 57) && forallb (fun c => (48 <=? c) && (c <=? 57)) r
  end.
Lemma digitsb l : forallb (fun c => (48 <=? c) && (c <=? 57)) l = true -> digits l.
Proof.
  intros H. apply Forall_forall. intros x Hx. rewrite forallb_forall in H. specialize (H x Hx).
  apply andb_prop in H as [H1 H2]. unfold is_digit. lia.
Qed.
Lemma int_partb_ok l : int_partb l = true -> int_part l.
Proof.
  destruct l as [|d r]; [discriminate|].
  destruct (Z.eq_dec d 48) as [->|N].
  - destruct r; [constructor|discriminate].
  - intros H. assert (K : (49 <=? d) && (d <=? 57) && forallb (fun c => (48 <=? c) && (c <=? 57)) r = true).
    { unfold int_partb in H. destruct d as [|p|p]; auto.
      repeat (destruct p as [p|p|]; try exact H; try congruence). }
    apply andb_prop in K as [K K2]. apply andb_prop in K as [K K1].
    constructor; [lia|now apply digitsb].
Qed.

Definition lead3 (i : Z) : bytes := appendLeadingDigit [] (digitsEntry i).
Definition full3 (i : Z) : bytes := appendDigit [] (digitsEntry i).
Definition table_ok (n : nat) : bool :=
  let i := Z.of_nat n in
  int_partb (lead3 i) && (dec (lead3 i) =? i) && forallb (fun c => (48 <=? c) && (c <=? 57)) (full3 i)
  && (dec (full3 i) =? i) && (length (full3 i) =? 3)%nat.
Lemma table_all : forallb table_ok (seq 0 1000) = true.
Proof. vm_compute. reflexivity. Qed.
Lemma table i : 0 <= i < 1000 ->
  int_part (lead3 i) /\ dec (lead3 i) = i /\ digits (full3 i) /\ dec (full3 i) = i /\ length (full3 i) = 3%nat.
Proof.
  intros H. pose proof (proj1 (forallb_forall _ _) table_all (Z.to_nat i)) as K.
  rewrite in_seq in K. specialize (K ltac:(lia)). unfold table_ok in K. rewrite Z2Nat.id in K by lia.
  repeat (apply andb_prop in K as [K ?]).
  repeat split; try (now apply int_partb_ok); try (now apply digitsb); try (now apply Nat.eqb_eq); try lia.
Qed.
Lemma leading_eq i b : 0 <= i < 1000 -> leading i b = Some (b ++ lead3 i).
Proof.
  intros H. unfold leading, digitsAt, nSmalls. replace (_ && _) with true by lia. f_equal.
  unfold lead3, appendLeadingDigit. destruct (_ =? 0); [reflexivity|]. now destruct (_ =? 1).
Qed.
Lemma group_eq i b : 0 <= i < 1000 -> group i b = Some (b ++ full3 i).
Proof.
  intros H. unfold group, digitsAt, nSmalls. replace (_ && _) with true by lia. reflexivity.
Qed.

(** what the append functions add *)
Definition adds (g : bytes -> option bytes) (v : Z) : Prop :=
  exists t, int_part t /\ dec t = v /\ forall b, g b = Some (b ++ t).
Lemma adds_leading v : 0 <= v < 1000 -> adds (leading v) v.
Proof.
  intros H. destruct (table v H) as (A & B & _). exists (lead3 v). repeat split; auto.
  intros b. now apply leading_eq.
Qed.
Lemma int_part_snoc t l : int_part t -> digits l -> 0 < dec t -> int_part (t ++ l).
Proof.
  intros H L D. destruct H as [|d r Hd Hr]; [now vm_compute in D|].
  simpl. constructor; auto. now apply Forall_app.
Qed.
Lemma adds_group g q r v : adds g q -> 0 < q -> 0 <= r < 1000 -> v = q * 1000 + r ->
  adds (fun b => g b >>= group r) v.
Proof.
  intros (t & A & B & C) Hq Hr ->. destruct (table r Hr) as (_ & _ & D & E & L).
  exists (t ++ full3 r). split; [|split].
  - apply int_part_snoc; auto. lia.
  - rewrite dec_app, L. change (10 ^ Z.of_nat 3) with 1000. lia.
  - intros b. rewrite C. simpl. rewrite group_eq by auto. now rewrite app_assoc.
Qed.
Lemma adds_ext g g' v : adds g v -> (forall b, g' b = g b) -> adds g' v.
Proof. intros (t & A & B & C) H. exists t. repeat split; auto. intros b. now rewrite H. Qed.
Lemma adds_if (b : bool) (g1 g2 : bytes -> option bytes) v :
  (b = true -> adds g1 v) -> (b = false -> adds g2 v) -> adds (fun x => if b then g1 x else g2 x) v.
Proof. destruct b; auto. Qed.

Ltac step := apply adds_if; intros; [apply adds_leading; lia|].
Ltac dm v := pose proof (Z.div_mod v 1000 ltac:(lia)); pose proof (Z.mod_pos_bound v 1000 ltac:(lia)).

Lemma appendUint16_adds v : 0 <= v < 2 ^ 16 -> adds (fun b => appendUint16 b v) v.
Proof.
  intros H. change (2 ^ 16) with 65536 in H. unfold appendUint16, nSmalls. dm v.
  apply adds_if; intros; [apply adds_leading; lia|].
  eapply adds_group; [apply adds_leading|..]; lia.
Qed.
Lemma appendUint32_adds v : 0 <= v < 2 ^ 32 -> adds (fun b => appendUint32 b v) v.
Proof.
  intros H. change (2 ^ 32) with 4294967296 in H. unfold appendUint32, nSmalls. dm v.
  set (q1 := v / 1000) in *. dm q1. set (q2 := q1 / 1000) in *. dm q2. set (q3 := q2 / 1000) in *.
  step.
  apply adds_if; intros; [eapply adds_group; [apply adds_leading|..]; lia|].
  refine (adds_group (fun b => (if q3 =? 0 then leading q2 b
     else group (q2 - q3 * 1000) (b ++ [low8 (q3 + 48)])) >>= group (q1 - q2 * 1000)) q1 _ _ _ _ _ _); try lia.
  refine (adds_group (fun b => (if q3 =? 0 then leading q2 b
     else group (q2 - q3 * 1000) (b ++ [low8 (q3 + 48)]))) q2 _ _ _ _ _ _); try lia.
  step.
  eapply (adds_group (fun b => Some (b ++ [low8 (q3 + 48)])) q3); [|lia..].
  exists [q3 + 48]. repeat split.
  - constructor; [lia|constructor].
  - unfold dec. simpl fold_left. lia.
  - intros b. unfold low8. rewrite Z.mod_small by lia. reflexivity.
Qed.
Lemma appendUint64_adds v : 0 <= v < 2 ^ 64 -> adds (fun b => appendUint64 b v) v.
Proof.
  intros H. change (2 ^ 64) with 18446744073709551616 in H. unfold appendUint64, nSmalls. dm v.
  set (q1 := v / 1000) in *. dm q1. set (q2 := q1 / 1000) in *. dm q2. set (q3 := q2 / 1000) in *.
  dm q3. set (q4 := q3 / 1000) in *. dm q4. set (q5 := q4 / 1000) in *. dm q5. set (q6 := q5 / 1000) in *.
  step.
  match goal with |- adds (fun b => @?g b >>= _) _ => refine (adds_group g q1 _ _ _ _ _ _); try lia end.
  step.
  match goal with |- adds (fun b => @?g b >>= _) _ => refine (adds_group g q2 _ _ _ _ _ _); try lia end.
  step.
  match goal with |- adds (fun b => @?g b >>= _) _ => refine (adds_group g q3 _ _ _ _ _ _); try lia end.
  step.
  match goal with |- adds (fun b => @?g b >>= _) _ => refine (adds_group g q4 _ _ _ _ _ _); try lia end.
  step.
  match goal with |- adds (fun b => @?g b >>= _) _ => refine (adds_group g q5 _ _ _ _ _ _); try lia end.
  step.
  match goal with |- adds (fun b => @?g b >>= _) _ => refine (adds_group g q6 _ _ _ _ _ _); try lia end.
  apply adds_leading; lia.
Qed.
Lemma appendUint_adds w v : 0 <= v < 2 ^ ibits w -> adds (fun b => appendUint w b v) v.
Proof.
  destruct w; simpl ibits; intros H.
  - change (2 ^ 8) with 256 in H. apply adds_leading. lia.
  - now apply appendUint16_adds.
  - now apply appendUint32_adds.
  - now apply appendUint64_adds.
Qed.

Theorem appendUint_numeral w v : 0 <= v < 2 ^ ibits w ->
  exists t, numeral v t /\ forall b, appendUint w b v = Some (b ++ t).
Proof.
  intros H. destruct (appendUint_adds w v H) as (t & A & B & C). exists t. split; auto.
  unfold numeral. replace (v <? 0) with false by lia. auto.
Qed.
Theorem appendInt_numeral w v : - 2 ^ (ibits w - 1) <= v < 2 ^ (ibits w - 1) ->
  exists t, numeral v t /\ forall b, appendInt w b v = Some (b ++ t).
Proof.
  intros H. assert (P : 2 ^ ibits w = 2 * 2 ^ (ibits w - 1)) by (destruct w; reflexivity).
  assert (Q : 0 < 2 ^ (ibits w - 1)) by (destruct w; reflexivity).
  unfold appendInt, numeral. destruct (v <? 0) eqn:E.
  - rewrite Z.mod_small by lia. destruct (appendUint_adds w (- v) ltac:(lia)) as (t & A & B & C).
    exists (45 :: t). split; [eauto|]. intros b. rewrite C. now rewrite <- app_assoc.
  - destruct (appendUint_adds w v ltac:(lia)) as (t & A & B & C). eauto.
Qed.
Lemma numeral_number v t : numeral v t -> number t.
Proof.
  unfold numeral. destruct (v <? 0).
  - intros (u & -> & H & _). apply num_neg. rewrite <- (app_nil_r u). apply (un u [] []); constructor || auto.
  - intros (H & _). apply num_pos. rewrite <- (app_nil_r t). apply (un t [] []); constructor || auto.
Qed.
