(** The users of a shared pool do not influence each other. *)
From Coq Require Import String ZArith List Bool Lia Arith.
From Verif Require Import Base ModelIter ModelStack ModelSkip ModelFloat ModelOps ModelVal ModelDecoder ModelStream ModelEnc ModelPool
  Spec SpecVal SpecPool Sim SimLib SimSkip SimOps SimVal NumFacts IterFacts ValFacts.
Import ListNotations.

(** ** Lists *)
Lemma nth_setObj {A} a (x : A) l b : nth_error (setObj A a x l) b = if (b =? a)%nat then option_map (fun _ => x) (nth_error l b) else nth_error l b.
Proof.
  revert a b. induction l as [|y l IH]; intros a b; [destruct a; cbn [setObj]; destruct b; cbn; repeat match goal with |- context [if ?x then _ else _] => destruct x end; auto|].
  destruct a as [|a], b as [|b]; cbn; auto.
Qed.
Lemma len_setObj {A} a (x : A) l : length (setObj A a x l) = length l.
Proof. revert a. induction l as [|y l IH]; intros [|a]; cbn; auto. Qed.
Lemma dropNth_in i l a : In a (dropNth i l) -> In a l.
Proof. revert i. induction l as [|y l IH]; intros [|i]; cbn; auto. intros [->|H]; eauto. Qed.
Lemma dropNth_nodup i l : NoDup l -> NoDup (dropNth i l).
Proof.
  intros H. revert i. induction H as [|y l Hy H IH]; intros [|i]; cbn; auto; [constructor|constructor|].
  constructor; auto. intros Hi. apply Hy. eapply dropNth_in; eauto.
Qed.
Lemma dropNth_out i l a : NoDup l -> nth_error l i = Some a -> ~ In a (dropNth i l).
Proof.
  intros H. revert i. induction H as [|y l Hy H IH]; intros [|i]; cbn; try discriminate.
  - intros [= <-]. auto.
  - intros Hi [->|Hi']; [apply Hy; eapply nth_error_In; eauto|]. eapply IH; eauto.
Qed.

(** ** Any pool *)
Section Pool.
Variables Obj Cfg Env Loc Work Out : Type.
Variable fresh : Obj.
Variable prepare : Cfg -> Env -> Obj -> Obj.
Variable clean : Obj -> Obj.
Variable opening : Cfg -> Loc.
Variable work : Work -> Loc -> Obj -> Out * Loc * Obj.
Variable e0 : Env.
Notation act := (act Cfg Env Work).
Notation event := (event Cfg Env Work).
Notation world := (world Obj Loc).
Notation history := (history Obj Cfg Env Loc Work Out fresh prepare clean opening work).
Notation step := (step Obj Cfg Env Loc Work Out fresh prepare clean opening work).
Notation solo := (solo Obj Cfg Env Loc Work Out fresh prepare opening work e0).
Notation actsOf := (actsOf Cfg Env Work).
Notation staleAfter := (staleAfter Cfg Env Work).
Notation careful := (careful Cfg Env Work).
Notation w_ref := (w_ref Obj Loc).
Notation w_free := (w_free Obj Loc).
Notation w_objs := (w_objs Obj Loc).

(** objects in use, objects in the pool, and what the object of a user has in common with the one the user would have alone *)
Variable J JF : Obj -> Prop.
Variable R : Loc -> Obj -> Obj -> Prop.
Variable good : Work -> Prop.
Hypothesis fresh_ok : JF fresh.
Hypothesis get_ok : forall c e x, JF x -> J (prepare c e x).
Hypothesis put_ok : forall x, J x -> JF (clean x).
Hypothesis work_ok : forall w l x, J x -> J (snd (work w l x)).
Hypothesis get_same : forall c e x, JF x -> R (opening c) (prepare c e x) (prepare c e0 fresh).
Hypothesis work_same : forall w l x y, J x -> R l x y -> good w ->
  fst (work w l x) = fst (work w l y) /\ R (snd (fst (work w l x))) (snd (work w l x)) (snd (work w l y)).

Record inv (stale : nat -> bool) (w : world) : Prop := mkInv {
  iv_nodup : NoDup (w_free w);
  iv_free : forall a, In a (w_free w) -> exists x, nth_error (w_objs w) a = Some x /\ JF x;
  iv_ref : forall k a q, w_ref w k = Some (a, q) -> stale k = false -> exists x, nth_error (w_objs w) a = Some x /\ J x;
  iv_out : forall k a q, w_ref w k = Some (a, q) -> stale k = false -> ~ In a (w_free w);
  iv_one : forall k j a q q', w_ref w k = Some (a, q) -> w_ref w j = Some (a, q') -> stale k = false -> stale j = false -> k = j
}.
Definition matches (w : world) (k : nat) (s : option (Loc * Obj)) : Prop :=
  match w_ref w k, s with
  | Some (a, q), Some (q', y) => q = q' /\ exists x, nth_error (w_objs w) a = Some x /\ R q x y
  | None, None => True
  | _, _ => False
  end.
Definition upStale (stale : nat -> bool) (k : nat) (x : act) : nat -> bool :=
  fun j => if (j =? k)%nat then match x with AGet _ _ _ => false | AWork _ => stale j | APut f => negb f end else stale j.
Definition allowed (stale : nat -> bool) (k : nat) (x : act) : Prop := match x with AGet _ _ _ => True | _ => stale k = false end.

Lemma setRef_eq k x r : setRef Loc k x r k = x.
Proof. unfold setRef. now rewrite Nat.eqb_refl. Qed.
Lemma setRef_neq k x r j : j <> k -> setRef Loc k x r j = r j.
Proof. unfold setRef. intros H. now apply Nat.eqb_neq in H as ->. Qed.
Lemma upStale_eq stale k x : upStale stale k x k = match x with AGet _ _ _ => false | AWork _ => stale k | APut f => negb f end.
Proof. unfold upStale. now rewrite Nat.eqb_refl. Qed.
Lemma upStale_neq stale k x j : j <> k -> upStale stale k x j = stale j.
Proof. unfold upStale. intros H. now apply Nat.eqb_neq in H as ->. Qed.

Lemma step_inv stale k x w : inv stale w -> allowed stale k x -> inv (upStale stale k x) (snd (step k x w)).
Proof.
  intros [Hn Hf Hr Ho H1] Ha. destruct x as [c pick e|v|forget]; cbn [ModelPool.step].
  - unfold ModelPool.get. destruct (nth_error (w_free w) pick) as [a|] eqn:Ep.
    + assert (Hi := nth_error_In _ _ Ep). destruct (Hf _ Hi) as (x & Hx & Jx). rewrite Hx. cbn [snd].
      assert (Hne : forall j b q, j <> k -> w_ref w j = Some (b, q) -> stale j = false -> b <> a).
      { intros j b q Hj Hb Hs ->. now apply (Ho _ _ _ Hb Hs). }
      constructor; cbn.
      * now apply dropNth_nodup.
      * intros b Hb. assert (b <> a) by (intros ->; revert Hb; eapply dropNth_out; eauto).
        rewrite nth_setObj. apply Nat.eqb_neq in H as ->. apply Hf. eapply dropNth_in; eauto.
      * intros j b q Hb Hs. destruct (Nat.eq_dec j k) as [->|Hj].
        -- rewrite setRef_eq in Hb. injection Hb as <- <-. rewrite nth_setObj, Nat.eqb_refl, Hx. cbn. eauto.
        -- rewrite setRef_neq in Hb by auto. rewrite upStale_neq in Hs by auto. rewrite nth_setObj.
           assert (Hb' := Hne _ _ _ Hj Hb Hs). apply Nat.eqb_neq in Hb' as ->. eauto.
      * intros j b q Hb Hs Hin. destruct (Nat.eq_dec j k) as [->|Hj].
        -- rewrite setRef_eq in Hb. injection Hb as <- <-. revert Hin. eapply dropNth_out; eauto.
        -- rewrite setRef_neq in Hb by auto. rewrite upStale_neq in Hs by auto. apply (Ho _ _ _ Hb Hs). eapply dropNth_in; eauto.
      * intros j i b q q' Hj Hi' Sj Si. destruct (Nat.eq_dec j k) as [->|Nj], (Nat.eq_dec i k) as [->|Ni]; auto.
        -- rewrite setRef_eq in Hj. injection Hj as <- <-. rewrite setRef_neq in Hi' by auto. rewrite upStale_neq in Si by auto.
           exfalso. now apply (Hne _ _ _ Ni Hi' Si).
        -- rewrite setRef_eq in Hi'. injection Hi' as <- <-. rewrite setRef_neq in Hj by auto. rewrite upStale_neq in Sj by auto.
           exfalso. now apply (Hne _ _ _ Nj Hj Sj).
        -- rewrite setRef_neq in Hj, Hi' by auto. rewrite upStale_neq in Sj, Si by auto. eauto.
    + cbn [snd].
      assert (Hlt : forall a x, nth_error (w_objs w) a = Some x -> nth_error (w_objs w ++ [prepare c e fresh]) a = Some x /\ a <> length (w_objs w)).
      { intros a x Hx. assert (a < length (w_objs w)) by (apply nth_error_Some; congruence). rewrite nth_error_app1 by auto. split; [auto|lia]. }
      constructor; cbn; auto.
      * intros a Ha'. destruct (Hf a Ha') as (x & Hx & Jx). exists x. split; auto. now apply Hlt.
      * intros j a q Hb Hs. destruct (Nat.eq_dec j k) as [->|Hj].
        -- rewrite setRef_eq in Hb. injection Hb as <- <-. rewrite nth_error_app2, Nat.sub_diag by lia. cbn. eauto.
        -- rewrite setRef_neq in Hb by auto. rewrite upStale_neq in Hs by auto. destruct (Hr _ _ _ Hb Hs) as (x & Hx & Jx).
           exists x. split; auto. now apply Hlt.
      * intros j a q Hb Hs Hin. destruct (Nat.eq_dec j k) as [->|Hj].
        -- rewrite setRef_eq in Hb. injection Hb as <- <-. destruct (Hf _ Hin) as (x & Hx & _). now destruct (Hlt _ _ Hx).
        -- rewrite setRef_neq in Hb by auto. rewrite upStale_neq in Hs by auto. now apply (Ho _ _ _ Hb Hs).
      * intros j i b q q' Hj Hi' Sj Si. destruct (Nat.eq_dec j k) as [->|Nj], (Nat.eq_dec i k) as [->|Ni]; auto.
        -- rewrite setRef_eq in Hj. injection Hj as <- <-. rewrite setRef_neq in Hi' by auto. rewrite upStale_neq in Si by auto.
           destruct (Hr _ _ _ Hi' Si) as (x & Hx & _). now destruct (Hlt _ _ Hx).
        -- rewrite setRef_eq in Hi'. injection Hi' as <- <-. rewrite setRef_neq in Hj by auto. rewrite upStale_neq in Sj by auto.
           destruct (Hr _ _ _ Hj Sj) as (x & Hx & _). now destruct (Hlt _ _ Hx).
        -- rewrite setRef_neq in Hj, Hi' by auto. rewrite upStale_neq in Sj, Si by auto. eauto.
  - cbn in Ha. unfold ModelPool.use. assert (Hst : forall j, upStale stale k (AWork v) j = stale j).
    { intros j. unfold upStale. destruct (Nat.eqb_spec j k); subst; auto. }
    assert (Hid : inv (upStale stale k (AWork v)) w).
    { constructor; auto; intros *; rewrite ?Hst; eauto. }
    destruct (w_ref w k) as [[a q]|] eqn:Ek; [|exact Hid]. destruct (Hr _ _ _ Ek Ha) as (x & Hx & Jx). rewrite Hx.
    assert (Jx' := work_ok v q x Jx). destruct (work v q x) as [[o q'] x'] eqn:Ew. cbn [snd] in *.
    constructor; cbn; auto.
    + intros b Hb. rewrite nth_setObj. destruct (Nat.eqb_spec b a) as [->|]; [|auto]. exfalso. now apply (Ho _ _ _ Ek Ha).
    + intros j b r Hb Hs. rewrite Hst in Hs. rewrite nth_setObj. destruct (Nat.eqb_spec b a) as [->|Nb].
      * rewrite Hx. cbn. eauto.
      * destruct (Nat.eq_dec j k) as [->|Nj]; [rewrite setRef_eq in Hb; congruence|]. rewrite setRef_neq in Hb by auto. eauto.
    + intros j b r Hb Hs. rewrite Hst in Hs. destruct (Nat.eq_dec j k) as [->|Nj].
      * rewrite setRef_eq in Hb. injection Hb as <- <-. eauto.
      * rewrite setRef_neq in Hb by auto. eauto.
    + intros j i b r r' Hj Hi Sj Si. rewrite Hst in Sj, Si.
      assert (Hsome : forall z b r, setRef Loc k (Some (a, q')) (w_ref w) z = Some (b, r) -> exists r2, w_ref w z = Some (b, r2)).
      { intros z b2 r2 Hz. destruct (Nat.eq_dec z k) as [->|Nz]; [rewrite setRef_eq in Hz; injection Hz as <- <-; eauto|rewrite setRef_neq in Hz by auto; eauto]. }
      destruct (Hsome _ _ _ Hj), (Hsome _ _ _ Hi). eauto.
  - cbn in Ha. unfold ModelPool.put. destruct (w_ref w k) as [[a q]|] eqn:Ek.
    2:{ cbn [snd]. assert (Hno : forall j b q, w_ref w j = Some (b, q) -> upStale stale k (APut forget) j = false -> stale j = false).
        { intros j b q Hj. rewrite upStale_neq; auto. intros ->. congruence. }
        constructor; auto.
        - intros j b r Hj Hs. eapply Hr; eauto.
        - intros j b r Hj Hs. eapply Ho; eauto.
        - intros j i b r r' Hj Hi Sj Si. eapply H1; eauto. }
    destruct (Hr _ _ _ Ek Ha) as (x & Hx & Jx). rewrite Hx. cbn [snd].
    assert (Hsome : forall j b r, setRef Loc k (if forget then None else Some (a, q)) (w_ref w) j = Some (b, r) ->
              upStale stale k (APut forget) j = false -> j <> k /\ w_ref w j = Some (b, r) /\ stale j = false /\ b <> a).
    { intros j b r Hj Hs. destruct (Nat.eq_dec j k) as [->|Nj].
      - rewrite setRef_eq in Hj. rewrite upStale_eq in Hs. destruct forget; discriminate.
      - rewrite setRef_neq in Hj by auto. rewrite upStale_neq in Hs by auto. repeat split; auto. intros ->. apply Nj. eapply H1; eauto. }
    constructor; cbn.
    + constructor; auto. eapply Ho; eauto.
    + intros b [<-|Hb]; rewrite nth_setObj.
      * rewrite Nat.eqb_refl, Hx. cbn. eauto.
      * destruct (Nat.eqb_spec b a) as [->|]; [|auto]. rewrite Hx. cbn. eauto.
    + intros j b r Hj Hs. destruct (Hsome _ _ _ Hj Hs) as (Nj & Hj' & Hs' & Nb). rewrite nth_setObj. apply Nat.eqb_neq in Nb as ->. eauto.
    + intros j b r Hj Hs. destruct (Hsome _ _ _ Hj Hs) as (Nj & Hj' & Hs' & Nb). intros [->|Hin]; [auto|]. now apply (Ho _ _ _ Hj' Hs').
    + intros j i b r r' Hj Hi Sj Si. destruct (Hsome _ _ _ Hj Sj) as (? & ? & ? & ?), (Hsome _ _ _ Hi Si) as (? & ? & ? & ?). eauto.
Qed.

Lemma step_other stale k x w j s : inv stale w -> allowed stale k x -> j <> k -> stale j = false -> matches w j s -> matches (snd (step k x w)) j s.
Proof.
  intros [Hn Hf Hr Ho H1] Ha Hj Hs Hm. unfold matches in *. destruct x as [c pick e|v|forget]; cbn [ModelPool.step].
  - unfold ModelPool.get. destruct (nth_error (w_free w) pick) as [a|] eqn:Ep.
    + assert (Hi := nth_error_In _ _ Ep). destruct (Hf _ Hi) as (x & Hx & Jx). rewrite Hx. cbn. rewrite setRef_neq by auto.
      destruct (w_ref w j) as [[b q]|] eqn:Ej; [|auto]. destruct s as [[q' y]|]; [|auto]. destruct Hm as (Eq & z & Hz & Rz). split; auto.
      exists z. split; auto. rewrite nth_setObj. destruct (Nat.eqb_spec b a) as [->|]; auto. exfalso. now apply (Ho _ _ _ Ej Hs).
    + cbn. rewrite setRef_neq by auto. destruct (w_ref w j) as [[b q]|] eqn:Ej; [|auto]. destruct s as [[q' y]|]; [|auto].
      destruct Hm as (Eq & z & Hz & Rz). split; auto. exists z. split; auto. rewrite nth_error_app1; auto. apply nth_error_Some. congruence.
  - unfold ModelPool.use. destruct (w_ref w k) as [[a q]|] eqn:Ek; [|exact Hm]. destruct (nth_error (w_objs w) a) as [x|] eqn:Hx; [|exact Hm].
    destruct (work v q x) as [[o q'] x']. cbn. rewrite setRef_neq by auto. destruct (w_ref w j) as [[b r]|] eqn:Ej; [|auto].
    destruct s as [[r' y]|]; [|auto]. destruct Hm as (Eq & z & Hz & Rz). split; auto. exists z. split; auto. rewrite nth_setObj.
    destruct (Nat.eqb_spec b a) as [->|]; auto. exfalso. apply Hj. eapply H1; eauto.
  - unfold ModelPool.put. destruct (w_ref w k) as [[a q]|] eqn:Ek; [|exact Hm]. destruct (nth_error (w_objs w) a) as [x|] eqn:Hx; [|exact Hm].
    cbn. rewrite setRef_neq by auto. destruct (w_ref w j) as [[b r]|] eqn:Ej; [|auto].
    destruct s as [[r' y]|]; [|auto]. destruct Hm as (Eq & z & Hz & Rz). split; auto. exists z. split; auto. rewrite nth_setObj.
    destruct (Nat.eqb_spec b a) as [->|]; auto. exfalso. apply Hj. eapply H1; eauto.
Qed.

Definition goodAct (x : act) : Prop := match x with AWork w => good w | _ => True end.
(** the state of the user alone after a step *)
Definition soloNext (x : act) (s : option (Loc * Obj)) : option (Loc * Obj) :=
  match x with
  | AGet c _ _ => Some (opening c, prepare c e0 fresh)
  | AWork w => match s with Some (q, y) => Some (snd (fst (work w q y)), snd (work w q y)) | None => None end
  | APut _ => None
  end.
Definition soloOut (x : act) (s : option (Loc * Obj)) : result Out :=
  match x, s with
  | AGet _ _ _, _ => RDone
  | AWork w, Some (q, y) => ROut (fst (fst (work w q y)))
  | APut _, Some _ => RDone
  | _, None => RPanic
  end.
Lemma solo_cons x l s : solo (x :: l) s = soloOut x s :: solo l (soloNext x s).
Proof. destruct x; cbn; auto; destruct s as [[q y]|]; auto. now destruct (work w q y) as [[o q'] y']. Qed.

Lemma step_own stale k x w s : inv stale w -> allowed stale k x -> goodAct x -> (stale k = false -> matches w k s) ->
  fst (step k x w) = soloOut x s /\ (upStale stale k x k = false -> matches (snd (step k x w)) k (soloNext x s)).
Proof.
  intros [Hn Hf Hr Ho H1] Ha Hg Hm. rewrite upStale_eq. unfold matches in *. destruct x as [c pick e|v|forget]; cbn [ModelPool.step].
  - unfold ModelPool.get. destruct (nth_error (w_free w) pick) as [a|] eqn:Ep.
    + assert (Hi := nth_error_In _ _ Ep). destruct (Hf _ Hi) as (x & Hx & Jx). rewrite Hx. cbn. rewrite setRef_eq. split; auto. intros _. split; auto.
      rewrite nth_setObj, Nat.eqb_refl, Hx. cbn. eauto.
    + cbn. rewrite setRef_eq. split; auto. intros _. split; auto. rewrite nth_error_app2, Nat.sub_diag by lia. cbn. eauto.
  - cbn in Ha. specialize (Hm Ha). unfold ModelPool.use. destruct (w_ref w k) as [[a q]|] eqn:Ek.
    + destruct s as [[q' y]|]; [|destruct Hm]. destruct Hm as (<- & x & Hx & Rx). rewrite Hx. destruct (Hr _ _ _ Ek Ha) as (x2 & Hx2 & Jx2).
      assert (x2 = x) by congruence. subst x2. destruct (work_same v q x y Jx2 Rx Hg) as [E2 R2]. cbn [soloOut soloNext].
      rewrite <- E2. destruct (work v q x) as [[o q2] x']. cbn in *. rewrite setRef_eq. split; auto. intros _. split; auto.
      exists x'. rewrite nth_setObj, Nat.eqb_refl, Hx. auto.
    + destruct s; [destruct Hm|]. cbn. rewrite Ek. auto.
  - cbn in Ha. specialize (Hm Ha). unfold ModelPool.put. destruct (w_ref w k) as [[a q]|] eqn:Ek.
    + destruct s as [[q' y]|]; [|destruct Hm]. destruct Hm as (<- & x & Hx & Rx). rewrite Hx. cbn. split; auto. rewrite setRef_eq. destruct forget; [auto|discriminate].
    + destruct s; [destruct Hm|]. cbn. rewrite Ek. auto.
Qed.

Lemma gc_inv stale w i : inv stale w -> inv stale (mkWorld Obj Loc (w_objs w) (dropNth i (w_free w)) (w_ref w)).
Proof.
  intros [Hn Hf Hr Ho H1]. constructor; cbn; eauto; [now apply dropNth_nodup|intros a Ha; apply Hf; eapply dropNth_in; eauto|].
  intros k a q Hk Hs Hi. apply (Ho _ _ _ Hk Hs). eapply dropNth_in; eauto.
Qed.

Lemma history_ok k h : forall stale w s, inv stale w -> (stale k = false -> matches w k s) -> (forall j, careful (stale j) (actsOf j h)) ->
  Forall goodAct (actsOf k h) ->
  outsOf _ k (fst (history h w)) = solo (actsOf k h) s /\ inv (fun j => staleAfter (stale j) (actsOf j h)) (snd (history h w)).
Proof.
  induction h as [|[j x|i] h IH]; intros stale w s Hi Hm Hc Hg.
  - cbn. auto.
  - cbn [ModelPool.history]. destruct (step j x w) as [o w1] eqn:Es. destruct (history h w1) as [os w2] eqn:Eh. cbn [fst snd].
    assert (Ha : allowed stale j x).
    { specialize (Hc j). cbn in Hc. rewrite Nat.eqb_refl in Hc. destruct x; cbn in *; tauto. }
    assert (Hi1 : inv (upStale stale j x) w1). { assert (K := step_inv stale j x w Hi Ha). now rewrite Es in K. }
    assert (Hc1 : forall i, careful (upStale stale j x i) (actsOf i h)).
    { intros i. specialize (Hc i). cbn in Hc. destruct (Nat.eqb_spec j i) as [->|Ni].
      - rewrite upStale_eq. destruct x; cbn in *; auto; [|tauto]. destruct Hc as [-> Hc]. auto.
      - rewrite upStale_neq by auto. auto. }
    assert (Hst : forall i, staleAfter (stale i) (actsOf i (Step j x :: h)) = staleAfter (upStale stale j x i) (actsOf i h)).
    { intros i. cbn. destruct (Nat.eqb_spec j i) as [->|Ni]; [rewrite upStale_eq; now destruct x|now rewrite upStale_neq by auto]. }
    assert (Hm1 : upStale stale j x k = false -> matches w1 k (if (j =? k)%nat then soloNext x s else s)).
    { destruct (Nat.eqb_spec j k) as [->|Nk].
      - assert (Hgx : goodAct x). { cbn in Hg. rewrite Nat.eqb_refl in Hg. now inversion Hg. }
        destruct (step_own stale k x w s Hi Ha Hgx Hm) as [_ K]. rewrite Es in K. auto.
      - rewrite upStale_neq by auto. intros Hs. assert (K := step_other stale j x w k s Hi Ha ltac:(auto) Hs (Hm Hs)). now rewrite Es in K. }
    assert (Hg1 : Forall goodAct (actsOf k h)). { cbn in Hg. destruct (j =? k)%nat; [now inversion Hg|auto]. }
    destruct (IH (upStale stale j x) w1 _ Hi1 Hm1 Hc1 Hg1) as [Eo Hi2]. rewrite Eh in Eo, Hi2. cbn [fst snd] in Eo, Hi2. split.
    + cbn [outsOf SpecPool.actsOf]. destruct (Nat.eqb_spec j k) as [->|Nk]; [|auto]. rewrite solo_cons. f_equal; auto.
      assert (Hgx : goodAct x). { cbn in Hg. rewrite Nat.eqb_refl in Hg. now inversion Hg. }
      destruct (step_own stale k x w s Hi Ha Hgx Hm) as [K _]. now rewrite Es in K.
    + destruct Hi2 as [A1 A2 A3 A4 A5]. constructor; auto; intros *; rewrite ?Hst; eauto.
  - cbn. apply IH; auto. now apply gc_inv.
Qed.
Lemma inv0 : inv (fun _ => false) world0.
Proof. constructor; cbn; try easy. constructor. Qed.

Theorem pool_solo h k : carefulAll _ _ _ h -> Forall goodAct (actsOf k h) -> outsOf _ k (fst (history h world0)) = solo (actsOf k h) None.
Proof. intros Hc Hg. apply (history_ok k h (fun _ => false)); auto using inv0. intros _. exact I. Qed.
(** some user that takes no steps, to use [history_ok] for what does not depend on a user *)
Lemma idle h : exists k : nat, actsOf k h = [].
Proof.
  assert (exists n, forall k, (n <= k)%nat -> actsOf k h = []) as [n H]; [|exists n; auto].
  induction h as [|[j x|i] h [n IH]]; [exists O; auto| |exists n; auto].
  exists (Nat.max n (Datatypes.S j)). intros k Hk. cbn. destruct (Nat.eqb_spec j k); [lia|]. apply IH. lia.
Qed.
Theorem pool_inv h : carefulAll _ _ _ h -> inv (fun j => staleAfter false (actsOf j h)) (snd (history h world0)).
Proof.
  intros Hc. destruct (idle h) as [k Hk]. apply (history_ok k h (fun _ => false) world0 None); auto using inv0; [intros _; exact I|]. rewrite Hk. constructor.
Qed.
Theorem pool_exclusive h : carefulAll _ _ _ h -> exclusive _ _ _ _ _ h (snd (history h world0)).
Proof. intros Hc. destruct (pool_inv h Hc) as [A1 A2 A3 A4 A5]. split; auto. Qed.
Theorem pool_free h a : carefulAll _ _ _ h -> In a (w_free (snd (history h world0))) ->
  exists x, nth_error (w_objs (snd (history h world0))) a = Some x /\ JF x.
Proof. intros Hc. apply (iv_free _ _ (pool_inv h Hc)). Qed.
End Pool.

(** ** nextToken at the end of the input *)
Lemma nextToken_loop_end fuel body : (forall it i s c, (exists s', body it i s c = SNext s') \/ body it i s c = SStop 0 (ret c)) ->
  forall it e it', wf it -> ~ dirty it -> scan_loop fuel body noEnd errReturn tt it = (Err e, it') -> stream it' = [].
Proof.
  intros Hb. induction fuel as [|fuel IH]; intros it e it' W D H; [discriminate|]. cbn [scan_loop] in H.
  assert (Hin : forall n i s, match scan_in body it n i s with IEnd _ | IPanic => True | IExit _ (SStop _ m) => exists c, m = ret c | _ => False end).
  { induction n as [|n IHn]; intros i s; cbn [scan_in]; auto. destruct (nth_error (it_buffer it) i) as [c|]; auto.
    destruct (Hb it i s c) as [[s' ->]| ->]; [apply IHn|]. eauto. }
  specialize (Hin (it_tail it - it_head it)%nat (it_head it) tt).
  destruct (scan_in body it (it_tail it - it_head it) (it_head it) tt) as [s|i [s|k m|e1|m]|]; try easy.
  - cbn [noEnd] in H. set (it0 := set_head (it_tail it) it) in *.
    assert (W0 : wf it0). { destruct W. constructor; subst it0; cbn; auto. }
    assert (K := readMore_ok it0 W0 eq_refl). destruct (readMore it0) as [r it1]. destruct K as (W1 & M1 & _ & K).
    assert (D0 : ~ dirty it0) by exact D. assert (D1 : ~ dirty it1) by (intros X; exact (D0 (mv_dirty _ _ _ M1 X))).
    destruct K as [(-> & _)|[(-> & _ & Es)|[-> X]]]; [destruct s; eapply IH; eauto| |tauto].
    unfold errReturn, fail in H. congruence.
  - destruct Hin as [c ->]. discriminate.
Qed.
Lemma nextToken_end_state it e it' : wf it -> ~ dirty it -> nextToken it = (Err e, it') -> stream it' = [].
Proof.
  intros W D H. unfold nextToken, scan in H. eapply nextToken_loop_end; eauto.
  intros i n s c. cbv zeta beta. destruct (_ && _); eauto.
Qed.
Lemma nextToken_same a c : wf a -> wf c -> ~ dirty a -> ~ dirty c -> stream a = stream c -> fin a = fin c ->
  (forall x, fst (nextToken a) = Ok x <-> fst (nextToken c) = Ok x) /\ stream (snd (nextToken a)) = stream (snd (nextToken c)).
Proof.
  intros Wa Wc Da Dc Es Ef. assert (Ha := sim_nextToken a Wa I). assert (Hc := sim_nextToken c Wc I).
  assert (Ea := fun e => nextToken_end_state a e (snd (nextToken a)) Wa Da). assert (Ec := fun e => nextToken_end_state c e (snd (nextToken c)) Wc Dc).
  destruct (nextToken a) as [x a1]. destruct (nextToken c) as [y c1].
  destruct Ha as (_ & _ & [Ha|[? _]]); [|tauto]. destruct Hc as (_ & _ & [Hc|[? _]]); [|tauto]. cbn [fst snd] in *.
  rewrite Es, Ef in Ha. destruct (p_nextToken (fin c) (stream c)) as [z r|e].
  - destruct Ha as (v & -> & Ha & <- & _). destruct Hc as (v' & -> & Hc & <- & _). split; [tauto|congruence].
  - subst. rewrite (Ea e eq_refl), (Ec e eq_refl). split; [|auto]. intros x. split; discriminate.
Qed.

(** ** Iterators *)
Section Iterators.
Variables F32 F64 : floatOps.
Variable C : custom.
Variable E : env F32 F64 C.
Variable sf : Z -> Z.
Variable cs : bool.
Variable fuel : nat.
Notation ReadVal := (ReadVal F32 F64 C E sf cs).
Notation unmarshal := (unmarshal F32 F64 C E sf cs).
Notation iterWork := (iterWork F32 F64 C E sf cs fuel).

Definition flags (x y : iter) : Prop := it_useNumber x = it_useNumber y /\ it_disallow x = it_disallow y.
(** attached to the same rest of the same input *)
Record alike (x y : iter) : Prop := mkAlike {
  ak_x : wf x; ak_y : wf y; ak_dx : ~ dirty x; ak_dy : ~ dirty y;
  ak_stream : stream x = stream y; ak_fin : fin x = fin y;
  ak_flags : flags x y; ak_offset : InputOffset x = InputOffset y
}.
Definition Rit (l : iloc) (x y : iter) : Prop :=
  match l with LDecoder None => alike x y | _ => wf x /\ wf y /\ flags x y end.
(** an iterator in the pool *)
Definition idleIter (it : iter) : Prop := wf it /\ it = reset it.

Lemma flags_moved x y x1 y1 u v : moved x x1 u -> moved y y1 v -> flags x y -> flags x1 y1.
Proof. intros A B [H1 H2]. split; [rewrite (mv_num _ _ _ A), (mv_num _ _ _ B)|rewrite (mv_dis _ _ _ A), (mv_dis _ _ _ B)]; auto. Qed.
Lemma alike_moved x y x1 y1 : alike x y -> wf x1 -> wf y1 -> step_ok x x1 -> step_ok y y1 -> stream x1 = stream y1 -> alike x1 y1.
Proof.
  intros [] W1 W2 [u A] [v B] Es. constructor; auto.
  - intros D. apply ak_dx0. exact (mv_dirty _ _ _ A D).
  - intros D. apply ak_dy0. exact (mv_dirty _ _ _ B D).
  - rewrite (mv_fin _ _ _ A), (mv_fin _ _ _ B). auto.
  - eapply flags_moved; eauto.
  - rewrite (mv_offset _ _ _ A), (mv_offset _ _ _ B). assert (K := f_equal (@length Z) ak_stream0).
    rewrite (mv_stream _ _ _ A), (mv_stream _ _ _ B), !app_length, Es in K. lia.
Qed.
Lemma ReadVal_step n T old x : wf x -> wf (snd (ReadVal n T old x)) /\ step_ok x (snd (ReadVal n T old x)).
Proof. intros W. assert (H := sim_ReadVal F32 F64 C E sf cs n T old x W). destruct (ReadVal n T old x). tauto. Qed.
Lemma nextToken_step x : wf x -> wf (snd (nextToken x)) /\ step_ok x (snd (nextToken x)).
Proof. intros W. assert (H := sim_nextToken x W I). destruct (nextToken x). tauto. Qed.
Lemma Skip_step x : wf x -> wf (snd (Skip x)) /\ step_ok x (snd (Skip x)).
Proof. intros W. assert (H := sim_Skip x W I). destruct (Skip x). tauto. Qed.
Lemma unmarshal_step n T old x : wf x -> wf (snd (unmarshal n T old x)) /\ step_ok x (snd (unmarshal n T old x)).
Proof.
  intros W. unfold ModelVal.unmarshal, bind. destruct (ReadVal_step n T old x W) as [W1 S1]. destruct (ReadVal n T old x) as [r it1]. cbn [snd] in *.
  destruct r as [v|e| |]; auto. destruct (nextToken_step it1 W1) as [W2 S2]. destruct (nextToken it1) as [r2 it2]. cbn [snd] in *.
  destruct r2; cbn [snd]; split; auto; eapply step_trans; eauto.
Qed.
Lemma ReadVal_alike n T old x y : alike x y -> fst (ReadVal n T old x) = fst (ReadVal n T old y) /\
  (forall v, fst (ReadVal n T old x) = Ok v -> alike (snd (ReadVal n T old x)) (snd (ReadVal n T old y))).
Proof.
  intros A. destruct A as [Wx Wy Dx Dy Es Ef [Fu Fd] Eo] eqn:EA. destruct (ReadVal_same F32 F64 C E sf cs n T old x y Wx Wy Dx Dy Es Ef Fu Fd) as [H1 H2].
  split; auto. intros v Hv. destruct (ReadVal_step n T old x Wx), (ReadVal_step n T old y Wy). eapply alike_moved; eauto.
Qed.
Lemma nextToken_alike x y : alike x y -> (forall c, fst (nextToken x) = Ok c <-> fst (nextToken y) = Ok c) /\ alike (snd (nextToken x)) (snd (nextToken y)).
Proof.
  intros A. destruct A as [Wx Wy Dx Dy Es Ef [Fu Fd] Eo] eqn:EA. destruct (nextToken_same x y Wx Wy Dx Dy Es Ef) as [H1 H2].
  split; auto. destruct (nextToken_step x Wx), (nextToken_step y Wy). eapply alike_moved; eauto.
Qed.
Lemma nextToken_fst x y : alike x y -> fst (nextToken x) = fst (nextToken y).
Proof.
  intros [Wx Wy Dx Dy Es Ef _ _]. assert (Ha := sim_nextToken x Wx I). assert (Hc := sim_nextToken y Wy I).
  destruct (nextToken x) as [r x1]. destruct (nextToken y) as [s y1].
  destruct Ha as (_ & _ & [Ha|[? _]]); [|tauto]. destruct Hc as (_ & _ & [Hc|[? _]]); [|tauto]. cbn [fst].
  rewrite Es, Ef in Ha. destruct (p_nextToken (fin y) (stream y)) as [z r1|e]; [|congruence].
  destruct Ha as (v & -> & Ha & <- & _). destruct Hc as (v' & -> & Hc & <- & _). auto.
Qed.
Lemma unmarshal_alike n T old x y : alike x y -> fst (unmarshal n T old x) = fst (unmarshal n T old y).
Proof.
  intros A. unfold ModelVal.unmarshal, bind. destruct (ReadVal_alike n T old x y A) as [H1 H2].
  destruct (ReadVal n T old x) as [r x1], (ReadVal n T old y) as [r' y1]. cbn [fst snd] in *. subst r'.
  destruct r as [v|e| |]; auto. specialize (H2 v eq_refl). assert (H := nextToken_fst x1 y1 H2).
  destruct (nextToken x1) as [r2 x2], (nextToken y1) as [r2' y2]. cbn [fst] in H. subst r2'. now destruct r2.
Qed.
Lemma attach_alike s x y : wf x -> wf y -> flags x y -> cleanSource s -> alike (ResetFrom s x) (ResetFrom s y).
Proof.
  intros Wx Wy F Hs. constructor; auto using wf_ResetFrom; destruct s as [r|data|]; cbn [ResetFrom] in *; auto.
  1,4: now apply clean_Reset. 1,3: apply clean_ResetBytes. 1,2: intros (r & H & _); discriminate.
Qed.

Lemma iterWork_ok w l x : wf x -> wf (snd (iterWork w l x)).
Proof.
  intros W. destruct l as [|e], w as [t old data|t old r|data|s p|s| | |t old| |]; cbn [ModelPool.iterWork]; auto; try (now destruct e).
  - assert (K := proj1 (unmarshal_step fuel t old _ (wf_ResetBytes data x W))). unfold Unmarshal. now destruct (unmarshal fuel t old (ResetBytes data x)).
  - assert (K := proj1 (unmarshal_step fuel t old _ (wf_Reset r x W))). unfold UnmarshalFromReader. now destruct (unmarshal fuel t old (Reset r x)).
  - unfold Valid. destruct (Skip_step _ (wf_ResetBytes data x W)) as [W1 _]. destruct (Skip (ResetBytes data x)) as [r it1]. cbn [snd] in W1.
    destruct r; auto. destruct (nextToken_step _ W1) as [W2 _]. destruct (nextToken it1) as [r2 it2]. cbn [snd] in W2. now destruct r2.
  - destruct (run_outcome F32 F64 p _ (wf_ResetFrom s x W)) as [W1 _]. now destruct (run p (ResetFrom s x)).
  - cbn. now apply wf_ResetFrom.
  - destruct e; cbn; destruct W; constructor; auto.
  - destruct e; cbn; destruct W; constructor; auto.
  - destruct e as [e|]; [exact W|]. unfold Decode. cbn [de_err de_it]. assert (K := proj1 (ReadVal_step fuel t old x W)).
    destruct (ReadVal fuel t old x) as [r it1]. now destruct r.
  - destruct e as [e|]; [exact W|]. unfold More. cbn [de_err de_it]. assert (K := proj1 (nextToken_step x W)).
    destruct (nextToken x) as [r it1]. now destruct r.
Qed.
Lemma Rit_wf l x y : Rit l x y -> wf x /\ wf y /\ flags x y.
Proof. destruct l as [|[e|]]; cbn; auto. intros []. auto. Qed.
Lemma flags_step x y x1 y1 : flags x y -> step_ok x x1 -> step_ok y y1 -> flags x1 y1.
Proof. intros F [u A] [v B]. eapply flags_moved; eauto. Qed.
Lemma run_step {S} (p : prog F32 F64 S) x : wf x -> wf (snd (run p x)) /\ step_ok x (snd (run p x)).
Proof. intros W. destruct (run_outcome F32 F64 p x W) as (A & B & _). auto. Qed.

Lemma iterWork_same w l x y : wf x -> Rit l x y -> cleanWork w ->
  fst (iterWork w l x) = fst (iterWork w l y) /\ Rit (snd (fst (iterWork w l x))) (snd (iterWork w l x)) (snd (iterWork w l y)).
Proof.
  intros _ HR Hc. destruct (Rit_wf l x y HR) as (Wx & Wy & F).
  destruct l as [|[e|]], w as [t old data|t old r|data|s p|s| | |t old| |]; cbn [ModelPool.iterWork cleanWork] in *; try (split; [reflexivity|exact HR]).
  - assert (A := attach_alike (SBytes data) x y Wx Wy F I). cbn [ResetFrom] in A. unfold Unmarshal.
    assert (K := unmarshal_alike fuel t old _ _ A). destruct (unmarshal_step fuel t old _ (ak_x _ _ A)) as [W1 S1], (unmarshal_step fuel t old _ (ak_y _ _ A)) as [W2 S2].
    destruct (unmarshal fuel t old (ResetBytes data x)) as [r1 x1], (unmarshal fuel t old (ResetBytes data y)) as [r2 y1]. cbn [fst snd] in *. subst r2.
    split; auto. cbn. split; auto. split; auto. exact (flags_step _ _ _ _ (ak_flags _ _ A) S1 S2).
  - assert (A := attach_alike (SReader r) x y Wx Wy F Hc). cbn [ResetFrom] in A. unfold UnmarshalFromReader.
    assert (K := unmarshal_alike fuel t old _ _ A). destruct (unmarshal_step fuel t old _ (ak_x _ _ A)) as [W1 S1], (unmarshal_step fuel t old _ (ak_y _ _ A)) as [W2 S2].
    destruct (unmarshal fuel t old (Reset r x)) as [r1 x1], (unmarshal fuel t old (Reset r y)) as [r2 y1]. cbn [fst snd] in *. subst r2.
    split; auto. cbn. split; auto. split; auto. exact (flags_step _ _ _ _ (ak_flags _ _ A) S1 S2).
  - assert (A := attach_alike (SBytes data) x y Wx Wy F I). cbn [ResetFrom] in A.
    assert (K : fst (Valid data x) = fst (Valid data y)).
    { apply eq_iff_eq_true. now rewrite !Valid_spec. }
    assert (S0 : forall z, wf z -> wf (snd (Valid data z)) /\ step_ok (ResetBytes data z) (snd (Valid data z))).
    { intros z Wz. unfold Valid. destruct (Skip_step _ (wf_ResetBytes data z Wz)) as [W1 S1]. destruct (Skip (ResetBytes data z)) as [r it1]. cbn [snd] in *.
      destruct r; auto. destruct (nextToken_step _ W1) as [W2 S2]. destruct (nextToken it1) as [r2 it2]. cbn [snd] in *.
      destruct r2; split; auto; eapply step_trans; eauto. }
    destruct (S0 x Wx) as [Wx1 S1], (S0 y Wy) as [Wy1 S2]. destruct (Valid data x) as [b x1], (Valid data y) as [b' y1]. cbn [fst snd] in *. subst b'.
    split; auto. cbn. split; auto. split; auto. exact (flags_step _ _ _ _ (ak_flags _ _ A) S1 S2).
  - assert (A := attach_alike s x y Wx Wy F Hc).
    destruct (run_same F32 F64 p _ _ (ak_x _ _ A) (ak_y _ _ A) (ak_dx _ _ A) (ak_dy _ _ A)) as [K _].
    { split; [apply A|]. split; [apply A|apply A]. }
    destruct (run_step p _ (ak_x _ _ A)) as [W1 S1], (run_step p _ (ak_y _ _ A)) as [W2 S2].
    destruct (run p (ResetFrom s x)) as [r1 x1], (run p (ResetFrom s y)) as [r2 y1]. cbn [fst snd] in *. subst r2.
    split; auto. cbn. split; auto. split; auto. exact (flags_step _ _ _ _ (ak_flags _ _ A) S1 S2).
  - split; auto. cbn. now apply attach_alike.
  - split; auto. cbn in *. destruct Wx, Wy, F. split; [constructor; auto|]. split; [constructor; auto|]. split; auto.
  - split; auto. cbn in *. destruct Wx, Wy, F. split; [constructor; auto|]. split; [constructor; auto|]. split; auto.
  - split; auto. cbn in *. destruct HR as [A1 A2 A3 A4 A5 A6 [A7 A8] A9]. destruct A1, A2. constructor; try (constructor; auto); auto.
  - split; auto. cbn in *. destruct HR as [A1 A2 A3 A4 A5 A6 [A7 A8] A9]. destruct A1, A2. constructor; try (constructor; auto); auto.
  - unfold Decode. cbn [de_err de_it Rit] in *.
    destruct (ReadVal_alike fuel t old x y HR) as [K1 K2]. destruct (ReadVal_step fuel t old x Wx) as [W1 S1], (ReadVal_step fuel t old y Wy) as [W2 S2].
    assert (Ns := ReadVal_safe F32 F64 C E sf cs fuel t old x Wx).
    destruct (ReadVal fuel t old x) as [r1 x1], (ReadVal fuel t old y) as [r2 y1]. cbn [fst snd] in *. subst r2.
    destruct r1 as [v|e| |]; cbn; (split; [reflexivity|]).
    + now apply (K2 v).
    + split; auto. split; auto. eapply flags_step; eauto.
    + tauto.
    + tauto.
  - unfold More. cbn [de_err de_it Rit] in *.
    destruct (nextToken_alike x y HR) as [K1 K2]. assert (K3 := nextToken_fst x y HR).
    destruct (nextToken x) as [r1 x1], (nextToken y) as [r2 y1]. cbn [fst snd] in *. subst r2.
    destruct r1; cbn; auto.
  - cbn in *. split; auto. unfold DecoderOffset. cbn. now rewrite (ak_offset _ _ HR).
Qed.
End Iterators.

(** ** Streamers *)
Definition idleStm (s : stm) : Prop := s = sm_reset s.
Lemma prepareStm_same html e s : idleStm s -> prepareStm html e s = prepareStm html tt freshStm.
Proof. intros ->. reflexivity. Qed.
Lemma idle_fresh : idleIter freshIter.
Proof. split; [apply wf_new|reflexivity]. Qed.
Lemma prepareIter_ok c p it : idleIter it -> wf (prepareIter c p it).
Proof. intros [W _]. now apply wf_reuse. Qed.
Lemma reset_idle it : wf it -> idleIter (reset it).
Proof. intros W. split; [now apply wf_reset|reflexivity]. Qed.
Lemma prepareIter_same c p q it : idleIter it -> Rit LIter (prepareIter c p it) (prepareIter c q freshIter).
Proof. intros [W _]. split; [now apply wf_reuse|]. split; [apply wf_reuse, wf_new|]. split; reflexivity. Qed.
