(** Rules for composing refinements, and the pure counterparts of the basic actions. *)
From Coq Require Import String ZArith List Bool Lia Arith.
From Verif Require Import Base ModelIter ModelStack ModelSkip Sim.
Import ListNotations.
Local Open Scope Z_scope.

Definition p_inc : P unit := fun _ l => POk tt (tl l).
Definition p_eof {A} : P A := fun f _ => PErr f.          (* the end of input is an error *)

Definition len (n : nat) (it : iter) : Prop := (length (stream it) < n)%nat.

Lemma simR_pure {A B} (Q : Prop) (Pre : iter -> Prop) (m : M A) (p : P B) R :
  (forall it, Pre it -> Q) -> (Q -> simR Pre m p R) -> simR Pre m p R.
Proof. intros H K it W Pr. exact (K (H it Pr) it W Pr). Qed.

Lemma simR_pre {A B} (Pre Pre' : iter -> Prop) (m : M A) (p : P B) R :
  simR Pre m p R -> (forall it, Pre' it -> Pre it) -> simR Pre' m p R.
Proof. intros. eapply simR_weaken; eauto. Qed.
Lemma simR_any {A B} (Pre : iter -> Prop) (m : M A) (p : P B) R :
  simR anyP m p R -> simR Pre m p R.
Proof. intros. eapply simR_pre; eauto. unfold anyP; auto. Qed.

Lemma simR_post {A B} (Pre : iter -> Prop) (m : M A) (p : P B) (R R' : A -> B -> iter -> Prop) :
  simR Pre m p R -> (forall a b it, R a b it -> R' a b it) -> simR Pre m p R'.
Proof. intros. eapply simR_weaken; eauto. Qed.

(** remaining input never grows *)
Lemma step_len it it' n : step_ok it it' -> len n it -> len n it'.
Proof.
  intros [u Hm]. unfold len. rewrite (mv_stream _ _ _ Hm), app_length. lia.
Qed.
Lemma simR_len {A B} (Pre : iter -> Prop) (m : M A) (p : P B) R n :
  simR Pre m p R ->
  simR (fun it => Pre it /\ len n it) m p (fun a b it => R a b it /\ len n it).
Proof.
  intros H it W [Pr L]. specialize (H it W Pr). destruct (m it) as [r it'].
  destruct H as (W' & S & H). split; auto. split; auto.
  destruct H as [H|H]; [left|right; auto]. destruct (p (fin it) (stream it)); auto.
  destruct H as (a0 & -> & Hs & HR). exists a0. split; auto. split; auto. split; auto.
  eapply step_len; eauto.
Qed.

Lemma sim_bind_eq {A B D} Pre (m : M A) (p : P A) (f : A -> M B) (q : A -> P D) R' :
  simR Pre m p eqR -> (forall a, simR anyP (f a) (q a) R') ->
  simR Pre (bind m f) (pbind p q) R'.
Proof.
  intros H K. eapply sim_bind; eauto. intros a c. apply (simR_pure (a = c)); auto.
  intros ->. apply simR_any, K.
Qed.
Lemma sim_bind_peek {B D} Pre (m : M Z) (p : P Z) (f : Z -> M B) (q : Z -> P D) R' :
  simR Pre m p peekR -> (forall c, simR (peek c) (f c) (q c) R') ->
  simR Pre (bind m f) (pbind p q) R'.
Proof.
  intros H K. eapply sim_bind; eauto. intros a c. apply (simR_pure (a = c)).
  - intros it [? ?]; auto.
  - intros ->. eapply simR_pre; [apply K|]. intros it [? ?]; auto.
Qed.
Lemma sim_bind_inc {A B} c (m : M A) (q : P B) R :
  simR (prev c) m q R -> simR (peek c) (bind incHead (fun _ => m)) (pbind p_inc (fun _ => q)) R.
Proof.
  intros H. eapply sim_bind; [apply sim_incHead|]. intros a b.
  eapply simR_pre; [apply H|]. intros it [? ?]; auto.
Qed.
Lemma sim_inc c : simR (peek c) incHead p_inc eqR.
Proof. eapply simR_post; [apply sim_incHead|]. intros a b it [? ?]. auto. Qed.

Lemma sim_ret_eq {A} Pre (a : A) : simR Pre (ret a) (pret a) eqR.
Proof. apply sim_ret. reflexivity. Qed.

(** rules for the branches of a scanning loop *)
Lemma err_ok {S0 A T B} (ab : bytes -> S0 -> T) (R : A -> B -> iter -> Prop) :
  onErr_ok (errReturn (S := S0) (A := A)) (fun _ => p_eof) ab R.
Proof.
  split; [|reflexivity].
  intros s e it W [Hs Hf]. unfold errReturn, fail, p_eof. split; auto. split; [apply step_refl|].
  left. now rewrite Hf.
Qed.
Definition p_eofReturn {T B} (q : T -> P B) (t : T) : P B :=
  fun f l => if err_eqb_eof f then q t f l else PErr f.
Lemma eof_ok {S0 A T B} (g : S0 -> M A) (q : T -> P B) (ab : bytes -> S0 -> T) (R : A -> B -> iter -> Prop) :
  (forall s, simR anyP (g s) (q (ab [] s)) R) ->
  onErr_ok (eofReturn g) (p_eofReturn q) ab R.
Proof.
  intros H. split.
  2:{ intros s e it E. unfold eofReturn. destruct e; try congruence; reflexivity. }
  intros s e it W [Hs Hf]. unfold eofReturn, p_eofReturn. rewrite Hf.
  destruct (err_eqb_eof e) eqn:E.
  - specialize (H s it W I). rewrite Hf in H. exact H.
  - unfold fail. split; auto. split; [apply step_refl|]. left. auto.
Qed.
Lemma noEnd_ok {S0} (it : iter) : atEnd_ok (noEnd (S := S0)) (fun _ s => s).
Proof. intros it' s W. exists s. auto. Qed.
Lemma noEnd_ok' {S0} : atEnd_ok (noEnd (S := S0)) (fun _ s => s).
Proof. intros it' s W. exists s. auto. Qed.

(** pure actions only drop a prefix *)
Lemma shrinks_pret {A} (a : A) : shrinks (pret a).
Proof. intros f l a' r H. injection H as <- <-. now exists []. Qed.
Lemma shrinks_pfail {A} e : shrinks (pfail (A := A) e).
Proof. intros f l a' r H. discriminate. Qed.
Lemma shrinks_eof {A} : shrinks (p_eof (A := A)).
Proof. intros f l a' r H. discriminate. Qed.
Lemma shrinks_inc : shrinks p_inc.
Proof.
  intros f l a r H. injection H as <- <-. destruct l as [|c l]; [now exists [] | now exists [c]].
Qed.
Lemma shrinks_peek : shrinks p_peek.
Proof. intros f [|c l] a r H; [discriminate|]. injection H as <- <-. now exists []. Qed.
Lemma shrinks_pbind {A B} (p : P A) (q : A -> P B) :
  shrinks p -> (forall a, shrinks (q a)) -> shrinks (pbind p q).
Proof.
  intros Hp Hq f l b r H. unfold pbind in H. destruct (p f l) as [a r1|] eqn:E; [|discriminate].
  destruct (Hp _ _ _ _ E) as [u ->]. destruct (Hq _ _ _ _ _ H) as [v ->].
  exists (u ++ v). now rewrite app_assoc.
Qed.
Lemma shrinks_if {A} (b : bool) (p q : P A) : shrinks p -> shrinks q -> shrinks (if b then p else q).
Proof. destruct b; auto. Qed.
Lemma shrinks_pscan {T A} (pb : T -> Z -> psres T A) (pe : T -> P A) t :
  (forall t c k q, pb t c = PStop k q -> shrinks q) ->
  (forall t c q, pb t c = PResume q -> shrinks q) ->
  (forall t, shrinks (pe t)) -> shrinks (p_scan pb pe t).
Proof.
  intros Hs Hr He f l a r. unfold p_scan. generalize (length l) as n. intros n. revert t l.
  induction n as [|n IHn]; intros t l; revert t; induction l as [|c l IHl]; intros t H; cbn [pscan] in H.
  - eapply He; eauto.
  - destruct (pb t c) as [t'|k q|e|q] eqn:E.
    + destruct (IHl t' H) as [u ->]. now exists (c :: u).
    + destruct (Hs _ _ _ _ E _ _ _ _ H) as [u Hu]. exists (firstn k (c :: l) ++ u).
      rewrite <- app_assoc, <- Hu. now rewrite firstn_skipn.
    + discriminate.
    + discriminate.
  - eapply He; eauto.
  - destruct (pb t c) as [t'|k q|e|q] eqn:E.
    + destruct (IHl t' H) as [u ->]. now exists (c :: u).
    + destruct (Hs _ _ _ _ E _ _ _ _ H) as [u Hu]. exists (firstn k (c :: l) ++ u).
      rewrite <- app_assoc, <- Hu. now rewrite firstn_skipn.
    + discriminate.
    + destruct (q f l) as [t' l''|] eqn:Q; [|discriminate].
      destruct (Hr _ _ _ E _ _ _ _ Q) as [u ->]. destruct (IHn _ _ H) as [v ->].
      exists (c :: u ++ v). simpl. now rewrite app_assoc.
Qed.

(** split the conditionals of a loop body *)
Ltac split_ifs :=
  repeat match goal with
         | |- context [if ?b then _ else _] => destruct b eqn:?
         end.
Ltac split_ifs_in H :=
  repeat match type of H with
         | context [if ?b then _ else _] => destruct b eqn:?
         end.
(** no branch of the pure body resumes *)
Ltac no_resume := intros ? ? ? ?H; exfalso; revert H; cbv beta zeta; split_ifs; discriminate.

(** ** nextToken *)
Definition is_space (c : Z) : bool := (c <=? cSPACE) && isWhiteSpaceValue (valueTypeMap c).
Definition p_nextToken : P Z :=
  p_scan (fun (_ : unit) c => if is_space c then PNext tt else PStop 0 (pret c)) (fun _ => p_eof) tt.

Lemma sim_nextToken : simR anyP nextToken p_nextToken peekR.
Proof.
  unfold nextToken, p_nextToken.
  apply (sim_scan _ _ _ _ _ (fun _ (s : unit) => s)).
  - intros it i s c W Hi Hl E. cbv zeta beta. fold (is_space c).
    destruct (is_space c); [now destruct s|]. eexists; split; [reflexivity|].
    apply sim_ret. intros it' Pk. split; auto.
  - apply noEnd_ok'.
  - apply err_ok.
  - no_resume.
Qed.

Definition p_takeToken : P Z := pbind p_nextToken (fun c => pbind p_inc (fun _ => pret c)).
Lemma sim_takeToken : simR anyP takeToken p_takeToken (fun a b it => a = b /\ prev a it).
Proof.
  unfold takeToken, p_takeToken. eapply sim_bind_peek; [apply sim_nextToken|].
  intros c. apply sim_bind_inc. apply sim_ret. auto.
Qed.
Lemma sim_takeToken_eq Pre : simR Pre takeToken p_takeToken eqR.
Proof.
  apply simR_any. eapply simR_post; [apply sim_takeToken|]. intros a b it [? ?]. auto.
Qed.
Lemma sim_nextToken_eq Pre : simR Pre nextToken p_nextToken eqR.
Proof.
  apply simR_any. eapply simR_post; [apply sim_nextToken|]. intros a b it [? ?]. auto.
Qed.

Lemma p_nextToken_eq f l : p_nextToken f l =
  match l with
  | [] => PErr f
  | c :: r => if is_space c then p_nextToken f r else POk c l
  end.
Proof.
  unfold p_nextToken. destruct l as [|c l]; [reflexivity|].
  rewrite p_scan_cons by no_resume. destruct (is_space c); reflexivity.
Qed.
Lemma p_nextToken_ok f l c r : p_nextToken f l = POk c r ->
  exists w r', l = w ++ c :: r' /\ r = c :: r' /\ Forall (fun x => is_space x = true) w /\ is_space c = false.
Proof.
  revert c r; induction l as [|x l IH]; intros c r H; rewrite p_nextToken_eq in H; [discriminate|].
  destruct (is_space x) eqn:E.
  - destruct (IH _ _ H) as (w & r' & -> & -> & ? & ?). exists (x :: w), r'. repeat split; auto.
  - injection H as <- <-. exists [], l. repeat split; auto.
Qed.
Lemma p_takeToken_ok f l c r : p_takeToken f l = POk c r ->
  exists w, l = w ++ c :: r /\ Forall (fun x => is_space x = true) w /\ is_space c = false.
Proof.
  unfold p_takeToken, pbind, p_inc, pret. destruct (p_nextToken f l) as [c' r'|] eqn:E; [|discriminate].
  intros [= <- <-]. apply p_nextToken_ok in E. destruct E as (w & r1 & -> & -> & ? & ?).
  exists w. auto.
Qed.
Lemma shrinks_nextToken : shrinks p_nextToken.
Proof.
  intros f l c r H. apply p_nextToken_ok in H. destruct H as (w & r' & -> & -> & _). now exists w.
Qed.
Lemma shrinks_takeToken : shrinks p_takeToken.
Proof.
  intros f l c r H. apply p_takeToken_ok in H. destruct H as (w & -> & _). exists (w ++ [c]).
  now rewrite <- app_assoc.
Qed.
Lemma sim_takeToken_len n :
  simR (len (S n)) takeToken p_takeToken (fun a b it => a = b /\ len n it).
Proof.
  intros it W L. generalize (sim_takeToken it W I). destruct (takeToken it) as [r it'].
  intros (W' & S & H). split; auto. split; auto.
  destruct H as [H|H]; [left|right; auto]. destruct (p_takeToken (fin it) (stream it)) as [c rest|e] eqn:E; auto.
  destruct H as (a & -> & Hs & -> & _). exists c. split; auto. split; auto. split; auto.
  apply p_takeToken_ok in E. destruct E as (w & Ew & _). unfold len in *. rewrite Hs.
  rewrite Ew, app_length in L. simpl in L. lia.
Qed.

(** ** expectBytes *)
Definition p_expectBytes (s : bytes) : P unit :=
  p_scan (fun (j : bytes) c =>
            match j with
            | [] => PFail (EOther 0)
            | x :: j' =>
                if negb (c =? x) then PFail (EUnexpectedByte c x 0)
                else match j' with [] => PStop 1 (pret tt) | _ => PNext j' end
            end) (fun _ => p_eof) s.
Lemma sim_expectBytes Pre s : simR Pre (expectBytes s) (p_expectBytes s) eqR.
Proof.
  unfold expectBytes, p_expectBytes.
  apply (sim_scan _ _ _ _ _ (fun _ (s : bytes) => s)).
  - intros it i s0 c W Hi Hl E. cbv zeta beta. destruct s0 as [|x j]; auto.
    destruct (negb (c =? x)); auto. destruct j; auto.
    eexists; split; [reflexivity|]. apply sim_ret_eq.
  - apply noEnd_ok'.
  - apply err_ok.
  - intros t c q H. exfalso. revert H. destruct t as [|x [|y j]]; try discriminate; destruct (negb (c =? x)); discriminate.
Qed.
Lemma p_expectBytes_eq s f l : p_expectBytes s f l =
  match l with
  | [] => PErr f
  | c :: r => match s with
              | [] => PErr (EOther 0)
              | x :: j => if c =? x then match j with [] => POk tt r | _ => p_expectBytes j f r end
                          else PErr (EUnexpectedByte c x 0)
              end
  end.
Proof.
  unfold p_expectBytes. destruct l as [|c l]; [reflexivity|].
  rewrite p_scan_cons.
  2:{ intros t c' q H. exfalso. revert H. destruct t as [|x [|y j]]; try discriminate; destruct (negb (c' =? x)); discriminate. }
  destruct s as [|x j]; auto. destruct (c =? x); simpl; auto. destruct j; auto.
Qed.
Lemma p_expectBytes_ok s f l r : s <> [] -> p_expectBytes s f l = POk tt r <-> l = s ++ r.
Proof.
  intros H. revert l. induction s as [|x s IH]; [congruence|]. intros l.
  rewrite p_expectBytes_eq. destruct l as [|c l].
  { split; intros Q; discriminate. }
  destruct (Z.eqb_spec c x) as [->|Hne].
  - destruct s as [|y s].
    + simpl. split; intros Q; [injection Q as ->|injection Q as ->]; auto.
    + rewrite IH by discriminate. simpl. split; intros Q; [now rewrite Q | now injection Q].
  - split; intros Q; [discriminate|]. injection Q as ? ?. congruence.
Qed.
Lemma shrinks_expectBytes s : shrinks (p_expectBytes s).
Proof.
  unfold p_expectBytes. apply shrinks_pscan.
  - intros t c k q H. destruct t as [|x [|y j]]; try discriminate; destruct (negb (c =? x)); try discriminate.
    injection H as <- <-. apply shrinks_pret.
  - intros t c q H. destruct t as [|x [|y j]]; try discriminate; destruct (negb (c =? x)); discriminate.
  - intros. apply shrinks_eof.
Qed.

(** ** peekOrEOF *)
Definition p_peekOrEOF : P (option Z) := fun f l =>
  match l with
  | [] => if err_eqb_eof f then POk None [] else PErr f
  | c :: _ => POk (Some c) l
  end.
Definition peekOptR (a b : option Z) (it : iter) : Prop :=
  a = b /\ match a with Some c => peek c it | None => True end.
Lemma sim_peekOrEOF : simR anyP peekOrEOF p_peekOrEOF peekOptR.
Proof.
  intros it W _. unfold peekOrEOF. destruct (Nat.eqb_spec (it_head it) (it_tail it)) as [E|E].
  - assert (H := readMore_ok it W E). unfold bind, ret.
    destruct (readMore it) as [r it1]. destruct H as (W1 & M1 & _ & [(-> & L & _)|[(-> & Sn & Sn1)|[-> Dd]]]).
    + destruct (peekHead_ok it1 W1 L) as (c & -> & Pk & l & Es).
      split; auto. split; [eexists; eauto|]. left.
      rewrite (mv_stream _ _ _ M1). simpl. rewrite Es. simpl. exists (Some c). rewrite <- Es. repeat split; auto; apply Pk.
    + rewrite Sn. simpl. destruct (err_eqb_eof (fin it)) eqn:Ef.
      * split; auto. split; [eexists; eauto|]. left. exists None. repeat split; auto.
      * split; auto. split; [eexists; eauto|]. left. auto.
    + replace (err_eqb_eof (fin it)) with false.
      * split; auto. split; [eexists; eauto|]. right. auto.
      * destruct Dd as (rd & Er & [Hf _]). unfold fin. rewrite Er. destruct (rd_fin rd); auto; congruence.
  - unfold bind, ret. destruct (peekHead_ok it W) as (c & -> & Pk & l & Es).
    + destruct W; lia.
    + split; auto. split; [apply step_refl|]. left. rewrite Es. simpl. exists (Some c). rewrite <- Es. repeat split; auto; apply Pk.
Qed.
Lemma shrinks_peekOrEOF : shrinks p_peekOrEOF.
Proof.
  intros f [|c l] a r H; simpl in H.
  - destruct (err_eqb_eof f); [|discriminate]. injection H as <- <-. now exists [].
  - injection H as <- <-. now exists [].
Qed.

(** ** Fuel *)
Definition fuel0 {A} : P A := fun _ _ => PErr (EOther (-2)).
Lemma sim_bind_len {A B D} n (m : M A) (p : P A) (f : A -> M B) (q : A -> P D) R :
  simR anyP m p eqR -> (forall a, simR (len n) (f a) (q a) R) ->
  simR (len n) (bind m f) (pbind p q) R.
Proof.
  intros H K. eapply sim_bind.
  - eapply simR_pre; [apply (simR_len _ _ _ _ n H)|]. unfold anyP; auto.
  - intros a c. apply (simR_pure (a = c)); [now intros it [? ?]|]. intros ->.
    eapply simR_pre; [apply K|]. now intros it [? ?].
Qed.
Lemma sim_bind_take {B D} n (f : Z -> M B) (q : Z -> P D) R :
  (forall a, simR (len n) (f a) (q a) R) ->
  simR (len (S n)) (bind takeToken f) (pbind p_takeToken q) R.
Proof.
  intros K. eapply sim_bind; [apply sim_takeToken_len|].
  intros a c. apply (simR_pure (a = c)); [now intros it [? ?]|]. intros ->.
  eapply simR_pre; [apply K|]. now intros it [? ?].
Qed.
Lemma sim_fuel {A B} (m : M A) (p : P B) R : simR (len 0) m p R.
Proof. intros it W L. unfold len in L. lia. Qed.

(** an action given fuel by the amount of remaining input *)
Definition p_fuel {A} (p : nat -> P A) : P A := fun f l => p (S (length l)) f l.
Lemma sim_fuel_total {A B} Pre (m : nat -> M A) (p : nat -> P B) R :
  (forall n, simR (fun it => Pre it /\ len n it) (m n) (p n) R) ->
  simR Pre (fun it => m (S (left_total it)) it) (p_fuel p) R.
Proof.
  intros H it W Pr. unfold p_fuel. rewrite (stream_length it W).
  apply H; auto. split; auto. unfold len. rewrite stream_length by auto. lia.
Qed.
(** an action may look at the state to choose its parameters *)
Lemma sim_state {A B S0} Pre (g : iter -> S0) (m : S0 -> M A) (p : P B) R :
  (forall s, simR Pre (m s) p R) -> simR Pre (fun it => m (g it) it) p R.
Proof. intros H it W Pr. apply H; auto. Qed.

Lemma sim_bind_inc_len {A B} n c (m : M A) (q : P B) R :
  simR (len n) m q R ->
  simR (fun it => peek c it /\ len n it) (bind incHead (fun _ => m)) (pbind p_inc (fun _ => q)) R.
Proof.
  intros H. eapply sim_bind; [apply (simR_len _ _ _ _ n (sim_incHead c))|]. intros a b.
  eapply simR_pre; [apply H|]. now intros it [? ?].
Qed.
Lemma sim_bind_next_len {B D} n (f : Z -> M B) (q : Z -> P D) R :
  (forall c, simR (fun it => peek c it /\ len n it) (f c) (q c) R) ->
  simR (len n) (bind nextToken f) (pbind p_nextToken q) R.
Proof.
  intros H. eapply sim_bind.
  - eapply simR_pre; [apply (simR_len _ _ _ _ n sim_nextToken)|]. unfold anyP; auto.
  - intros a c. apply (simR_pure (a = c)); [now intros it [[? ?] ?]|]. intros ->.
    eapply simR_pre; [apply H|]. now intros it [[? ?] ?].
Qed.

(** ** Preconditions that all actions keep *)
Definition stable (Q : iter -> Prop) : Prop := forall it it', step_ok it it' -> Q it -> Q it'.
Lemma stable_len n : stable (len n).
Proof. intros it it' S L. eapply step_len; eauto. Qed.
Lemma stable_and Q Q' : stable Q -> stable Q' -> stable (fun it => Q it /\ Q' it).
Proof. intros H H' it it' S [? ?]. split; [eapply H|eapply H']; eauto. Qed.
Definition num (b : bool) (it : iter) : Prop := it_useNumber it = b.
Lemma stable_num b : stable (num b).
Proof. intros it it' [u M] H. unfold num in *. rewrite (mv_num _ _ _ M). auto. Qed.
Lemma simR_stable {A B} (Pre Q : iter -> Prop) (m : M A) (p : P B) R : stable Q ->
  simR Pre m p R -> (forall it, Q it -> Pre it) ->
  simR Q m p (fun a b it => R a b it /\ Q it).
Proof.
  intros HQ H HP it W q. specialize (H it W (HP it q)). destruct (m it) as [r it'].
  destruct H as (W' & S & H). split; auto. split; auto.
  destruct H as [H|H]; [left|right; auto]. destruct (p (fin it) (stream it)); auto. destruct H as (a0 & -> & Hs & HR).
  exists a0. split; auto. split; auto. split; auto. eapply HQ; eauto.
Qed.
Lemma sim_bind_st {A B D} (Q : iter -> Prop) (m : M A) (p : P A) (f : A -> M B) (q : A -> P D) R :
  stable Q -> simR Q m p eqR -> (forall a, simR Q (f a) (q a) R) ->
  simR Q (bind m f) (pbind p q) R.
Proof.
  intros HQ H K. eapply sim_bind; [apply (simR_stable Q Q _ _ _ HQ H); auto|].
  intros a c. apply (simR_pure (a = c)); [now intros it [? ?]|]. intros ->.
  eapply simR_pre; [apply K|]. now intros it [? ?].
Qed.
Lemma sim_bind_take_st {B D} (Q : iter -> Prop) n (f : Z -> M B) (q : Z -> P D) R :
  stable Q -> (forall a, simR (fun it => Q it /\ len n it) (f a) (q a) R) ->
  simR (fun it => Q it /\ len (S n) it) (bind takeToken f) (pbind p_takeToken q) R.
Proof.
  intros HQ K it W [HQi L].
  assert (H := sim_bind (fun it => len (S n) it /\ Q it) takeToken p_takeToken
     (fun a b it => (a = b /\ len n it) /\ Q it) f q R).
  apply H; auto.
  - intros it0 W0 [L0 Q0]. generalize (sim_takeToken_len n it0 W0 L0).
    destruct (takeToken it0) as [r it']. intros (W' & S & H1). split; auto. split; auto.
    destruct H1 as [H1|H1]; [left|right; auto]. destruct (p_takeToken (fin it0) (stream it0)); auto. destruct H1 as (a0 & -> & Hs & HR).
    exists a0. split; auto. split; auto. split; auto. eapply HQ; eauto.
  - intros a c. apply (simR_pure (a = c)); [now intros it0 [[? ?] ?]|]. intros ->.
    eapply simR_pre; [apply K|]. now intros it0 [[? ?] ?].
Qed.
Lemma sim_bind_next_st {B D} (Q : iter -> Prop) (f : Z -> M B) (q : Z -> P D) R :
  stable Q -> (forall c, simR (fun it => peek c it /\ Q it) (f c) (q c) R) ->
  simR Q (bind nextToken f) (pbind p_nextToken q) R.
Proof.
  intros HQ H. eapply sim_bind.
  - apply (simR_stable anyP Q _ _ _ HQ sim_nextToken). unfold anyP; auto.
  - intros a c. apply (simR_pure (a = c)); [now intros it [[? ?] ?]|]. intros ->.
    eapply simR_pre; [apply H|]. now intros it [[? ?] ?].
Qed.
Lemma sim_bind_inc_st {A B} (Q : iter -> Prop) c (m : M A) (q : P B) R :
  stable Q -> simR Q m q R ->
  simR (fun it => peek c it /\ Q it) (bind incHead (fun _ => m)) (pbind p_inc (fun _ => q)) R.
Proof.
  intros HQ H. eapply (sim_bind _ incHead p_inc (fun _ _ it => Q it)).
  - intros it W [Pk HQi]. generalize (sim_incHead c it W Pk). unfold incHead.
    intros (W' & S & [(a & Ha & Hs & _)|D0]). 2:{ split; auto. split; auto. right; auto. }
    split; auto. split; auto. left. simpl. exists tt. split; auto.
    split; auto. eapply HQ; eauto.
  - intros a b. exact H.
Qed.
