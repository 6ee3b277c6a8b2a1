(** Read refines the pure container machine. *)
From Coq Require Import String ZArith List Bool Lia Arith.
From Verif Require Import Base ModelIter ModelStack ModelSkip ModelStr ModelFloat ModelRead
  Sim SimLib StackFacts Machine SimSkip SimRaw SimStr SimFloat.
Import ListNotations.
Local Open Scope Z_scope.

Section Read.
Variable F : floatOps.
Variable b : bool.                      (* useNumber *)
Notation gval := (gval F).
Notation racc := (acc (list gval) (list (bytes * gval))).

Definition p_readNumberValue (c : Z) : P gval :=
  if b then pbind (p_readNumberAsString c) (fun s => pret (GNumber s))
  else pbind (p_readFloat F c) (fun f => pret (GFloat f)).
Definition p_readLeaf (c : Z) : P gval :=
  if c =? cQUOTE then pbind p_readStringAsSlice (fun s => pret (GString s))
  else if c =? c_n then pbind (p_expectBytes (bs "ull")) (fun _ => pret GNil)
  else if c =? c_t then pbind (p_expectBytes (bs "rue")) (fun _ => pret (GBool true))
  else if c =? c_f then pbind (p_expectBytes (bs "alse")) (fun _ => pret (GBool false))
  else if (c =? cMINUS) || ((cZERO <=? c) && (c <=? cNINE)) then p_readNumberValue c
  else pfail (EUnexpectedByte c 0 0).

Definition readAlg : alg gval bytes (list gval) (list (bytes * gval)) :=
  mkAlg p_readLeaf p_readObjectField [] [] (fun l v => l ++ [v]) [] (fun m k v => map_set F m k v)
    GSlice GMap (fun d => EUnexpectedByte d cCOMMA cRBRACK).

Lemma sim_readNumberValue c :
  simR (fun it => prev c it /\ num b it) (readNumberValue F c) (p_readNumberValue c) eqR.
Proof.
  intros it W [Pv N]. unfold readNumberValue, p_readNumberValue. rewrite N. destruct b.
  - assert (H : simR (prev c) (do s <- readNumberAsString c; ret (@GNumber F s))
        (pbind (p_readNumberAsString c) (fun s => pret (GNumber s))) eqR).
    { eapply sim_bind_eq; [apply sim_readNumberAsString|]. intros; apply sim_ret_eq. }
    exact (H it W Pv).
  - assert (H : simR (prev c) (do f <- readFloat F c; ret (GFloat f))
        (pbind (p_readFloat F c) (fun f => pret (GFloat f))) eqR).
    { eapply sim_bind_eq; [apply sim_readFloat|]. intros; apply sim_ret_eq. }
    exact (H it W Pv).
Qed.
Lemma sim_readLeaf c :
  simR (fun it => prev c it /\ num b it) (readLeaf F c) (p_readLeaf c) eqR.
Proof.
  unfold readLeaf, p_readLeaf.
  apply sim_if; intros. { eapply sim_bind_eq; [apply sim_readStringAsSlice|]. intros; apply sim_ret_eq. }
  apply sim_if; intros. { eapply sim_bind_eq; [apply sim_expectBytes|]. intros; apply sim_ret_eq. }
  apply sim_if; intros. { eapply sim_bind_eq; [apply sim_expectBytes|]. intros; apply sim_ret_eq. }
  apply sim_if; intros. { eapply sim_bind_eq; [apply sim_expectBytes|]. intros; apply sim_ret_eq. }
  apply sim_if; intros; [apply sim_readNumberValue|apply sim_fail].
Qed.

Definition Q (n : nat) (it : iter) : Prop := num b it /\ len n it.
Definition T (c : Z) (n : nat) (it : iter) : Prop := prev c it /\ Q n it.
Lemma stable_Q n : stable (Q n).
Proof. apply stable_and; [apply stable_num|apply stable_len]. Qed.
Lemma Q_S n it : Q n it -> Q (S n) it.
Proof. intros [? ?]. split; auto. unfold len in *. lia. Qed.

Lemma sim_take n : simR (Q (S n)) takeToken p_takeToken (fun a c it => a = c /\ T a n it).
Proof.
  intros it W [N L]. generalize (sim_takeToken it W I). destruct (takeToken it) as [r it'].
  intros (W' & S & H). split; auto. split; auto. destruct H as [H|H]; [left|right; auto].
  destruct (p_takeToken (fin it) (stream it)) as [c rest|e] eqn:E; auto.
  destruct H as (a & -> & Hs & -> & Pv). exists c. split; auto. split; auto. split; auto.
  split; auto. split; [eapply stable_num; eauto|].
  apply p_takeToken_ok in E. destruct E as (w & Ew & _). unfold len in *. rewrite Hs.
  rewrite Ew, app_length in L. simpl in L. lia.
Qed.
Lemma sim_take_bind {B D} n (f : Z -> M B) (q : Z -> P D) R :
  (forall c, simR (T c n) (f c) (q c) R) ->
  simR (Q (S n)) (bind takeToken f) (pbind p_takeToken q) R.
Proof.
  intros K. eapply sim_bind; [apply sim_take|]. intros a c.
  apply (simR_pure (a = c)); [now intros it [? ?]|]. intros ->.
  eapply simR_pre; [apply K|]. now intros it [? ?].
Qed.
Lemma sim_take_bind' {B D} n (f : Z -> M B) (q : Z -> P D) R :
  (forall c, simR (T c n) (f c) (q c) R) ->
  simR (Q n) (bind takeToken f) (pbind p_takeToken q) R.
Proof.
  intros K. eapply simR_pre; [apply (sim_take_bind n); eauto|]. apply Q_S.
Qed.
Lemma sim_leaf_bind {B D} c n (f : gval -> M B) (q : gval -> P D) R :
  (forall v, simR (Q n) (f v) (q v) R) ->
  simR (T c n) (bind (readLeaf F c) f) (pbind (p_readLeaf c) q) R.
Proof.
  intros K it W [Pv [N L]].
  assert (H := sim_bind (T c n) (readLeaf F c) (p_readLeaf c) (fun a v it => a = v /\ Q n it) f q R).
  apply H; [| |auto|split; auto; split; auto].
  - intros it0 W0 [Pv0 [N0 L0]]. generalize (sim_readLeaf c it0 W0 (conj Pv0 N0)).
    destruct (readLeaf F c it0) as [r it']. intros (W' & S & H1). split; auto. split; auto. destruct H1 as [H1|H1]; [left|right; auto].
    destruct (p_readLeaf c (fin it0) (stream it0)); auto. destruct H1 as (a0 & -> & Hs & HR).
    exists a0. split; auto. split; auto. split; auto. eapply stable_Q; eauto. split; auto.
  - intros a v. apply (simR_pure (a = v)); [now intros it0 [? ?]|]. intros ->.
    eapply simR_pre; [apply K|]. now intros it0 [? ?].
Qed.

(** the node stack holds the accumulators of the machine *)
Definition nv (a : racc) : nodeVal F := match a with AArr s => NSlice F s | AObj m => NMap F m end.
Fixpoint nsrep (a : racc) (stk : list (bytes * racc)) (ns : nodeStack F) : Prop :=
  match stk with
  | [] => exists k, ns = [mkNode F (nv a) k]
  | (k, a') :: stk' => exists ns', ns = mkNode F (nv a) k :: ns' /\ nsrep a' stk' ns'
  end.
Lemma nsrep_upd a stk n r a' : nsrep a stk (n :: r) -> nsrep a' stk (mkNode F (nv a') (nd_field F n) :: r).
Proof.
  destruct stk as [|[k x] stk]; simpl.
  - intros [k E]. injection E as -> ->. simpl. eauto.
  - intros (ns' & E & H). injection E as -> ->. simpl. eauto.
Qed.
Lemma nsrep_nonempty a stk ns : nsrep a stk ns -> exists n r, ns = n :: r /\ nd_val F n = nv a.
Proof.
  destruct stk as [|[k x] stk]; simpl.
  - intros [k ->]. eexists _, _; split; reflexivity.
  - intros (ns' & -> & H). eexists _, _; split; reflexivity.
Qed.
Lemma nsrep_popA s stk k x ns : nsrep (AArr s) ((k, x) :: stk) ns ->
  exists ns', ns_popArray F ns = Some ns' /\ nsrep (add readAlg x k (finish readAlg (AArr s))) stk ns'.
Proof.
  intros (ns' & -> & H). destruct (nsrep_nonempty _ _ _ H) as (n & r & -> & E).
  eexists. split; [reflexivity|]. simpl. unfold ns_attach. rewrite E.
  destruct x as [x|x]; [exact (nsrep_upd _ _ _ _ (add readAlg (AArr x) k (GSlice s)) H) | exact (nsrep_upd _ _ _ _ (add readAlg (AObj x) k (GSlice s)) H)].
Qed.
Lemma nsrep_popO s stk k x ns : nsrep (AObj s) ((k, x) :: stk) ns ->
  exists ns', ns_popObject F ns = Some ns' /\ nsrep (add readAlg x k (finish readAlg (AObj s))) stk ns'.
Proof.
  intros (ns' & -> & H). destruct (nsrep_nonempty _ _ _ H) as (n & r & -> & E).
  eexists. split; [reflexivity|]. simpl. unfold ns_attach. rewrite E.
  destruct x as [x|x]; [exact (nsrep_upd _ _ _ _ (add readAlg (AArr x) k (GMap s)) H) | exact (nsrep_upd _ _ _ _ (add readAlg (AObj x) k (GMap s)) H)].
Qed.

Lemma bind_ret {A B} (a : A) (f : A -> M B) it : bind (ret a) f it = f a it.
Proof. reflexivity. Qed.
Lemma simR_eqm {A B} Pre (m m' : M A) (p : P B) R : (forall it, m it = m' it) -> simR Pre m' p R -> simR Pre m p R.
Proof. intros E H it W Pr. rewrite E. apply H; auto. Qed.

Lemma sim_readLoop fuel : forall first (a : racc) stk s ns,
  reps s (kinds stk) -> nsrep a stk ns ->
  simR (Q fuel) (readWithStack_loop F fuel (topOf first a) s ns) (p_loop readAlg fuel first a stk) eqR.
Proof.
  induction fuel as [|f IH]; intros first a stk s ns Hr Hn.
  { eapply simR_pre; [apply sim_fuel|]. now intros it [? ?]. }
  cbn [readWithStack_loop p_loop]. apply sim_take_bind. intros c0.
  destruct a as [sa|so].
  - replace (Z.land (topOf first (AArr sa : racc)) 1 =? 0) with false by (destruct first; reflexivity).
    apply sim_if; intros Hc.
    { apply reps_pop in Hr. destruct stk as [|[k a'] stk].
      - simpl in Hr. rewrite Hr. simpl. destruct Hn as [k ->]. apply sim_ret_eq.
      - simpl in Hr. destruct Hr as (s' & -> & Hr).
        replace (elem (is_arr a') =? stackElementNone) with false by (destruct a'; reflexivity).
        destruct (nsrep_popA _ _ _ _ _ Hn) as (ns' & -> & Hn').
        replace (elem (is_arr a')) with (topOf false (add readAlg a' k (finish readAlg (AArr sa)))) by (destruct a'; reflexivity).
        eapply simR_eqm; [intros it; apply bind_ret|].
        eapply simR_pre; [now apply IH|]. now intros it [? ?]. }
    eapply (sim_bind _ _ _ (fun a c it => a = c /\ T a f it)).
    { replace (topOf first (AArr sa : racc) =? stackElementArray) with (negb first) by (destruct first; reflexivity).
      apply sim_if; intros.
      - apply sim_if; intros; [apply sim_fail|]. eapply simR_pre; [apply sim_take|]. intros it [? ?]. now apply Q_S.
      - apply sim_ret. auto. }
    intros a c. apply (simR_pure (a = c)); [now intros it [? ?]|]. intros ->.
    apply (simR_pre (T c f)); [|now intros it [? ?]].
    destruct (reps_pushArray _ _ Hr) as (s' & -> & Hr').
    apply sim_if; intros.
    { eapply simR_pre; [apply (IH true (AArr []) ((([] : bytes), AArr sa) :: stk)); auto|now intros it [? ?]].
      simpl. eexists; split; [reflexivity|auto]. }
    apply sim_if; intros.
    { eapply simR_pre; [apply (IH true (AObj []) ((([] : bytes), AArr sa) :: stk)); auto|now intros it [? ?]].
      simpl. eexists; split; [reflexivity|auto]. }
    apply sim_leaf_bind. intros v.
    destruct (nsrep_nonempty _ _ _ Hn) as (n & r & -> & E). simpl ns_appendTopArray. rewrite E. simpl nv. cbv iota.
    eapply simR_eqm; [intros it; apply bind_ret|].
    apply (IH false (AArr (sa ++ [v]))); auto. apply (nsrep_upd _ _ _ _ (AArr (sa ++ [v])) Hn).
  - replace (Z.land (topOf first (AObj so : racc)) 1 =? 0) with true by (destruct first; reflexivity).
    apply sim_if; intros Hc.
    { apply reps_pop in Hr. destruct stk as [|[k a'] stk].
      - simpl in Hr. rewrite Hr. simpl. destruct Hn as [k ->]. apply sim_ret_eq.
      - simpl in Hr. destruct Hr as (s' & -> & Hr).
        replace (elem (is_arr a') =? stackElementNone) with false by (destruct a'; reflexivity).
        destruct (nsrep_popO _ _ _ _ _ Hn) as (ns' & -> & Hn').
        replace (elem (is_arr a')) with (topOf false (add readAlg a' k (finish readAlg (AObj so)))) by (destruct a'; reflexivity).
        eapply simR_eqm; [intros it; apply bind_ret|].
        eapply simR_pre; [now apply IH|]. now intros it [? ?]. }
    apply (simR_pre (Q f)); [|now intros it [? ?]].
    apply sim_bind_st; [apply stable_Q| |].
    { replace (topOf first (AObj so : racc) =? stackElementObject) with (negb first) by (destruct first; reflexivity).
      apply sim_if; intros.
      - apply sim_if; intros; [apply sim_fail|apply sim_takeToken_eq].
      - apply sim_ret_eq. }
    intros c. apply sim_if; intros; [apply sim_fail|].
    apply sim_bind_st; [apply stable_Q|apply sim_readObjectField|]. intros k.
    apply sim_take_bind'. intros d.
    destruct (reps_pushObject _ _ Hr) as (s' & -> & Hr').
    apply sim_if; intros.
    { eapply simR_pre; [apply (IH true (AArr []) ((k, AObj so) :: stk)); auto|now intros it [? ?]].
      simpl. eexists; split; [reflexivity|auto]. }
    apply sim_if; intros.
    { eapply simR_pre; [apply (IH true (AObj []) ((k, AObj so) :: stk)); auto|now intros it [? ?]].
      simpl. eexists; split; [reflexivity|auto]. }
    apply sim_leaf_bind. intros v.
    destruct (nsrep_nonempty _ _ _ Hn) as (n & r & -> & E). simpl ns_setTopObject. rewrite E. simpl nv. cbv iota.
    eapply simR_eqm; [intros it; apply bind_ret|].
    apply (IH false (AObj (map_set F so k v))); auto. apply (nsrep_upd _ _ _ _ (AObj (map_set F so k v)) Hn).
Qed.

Lemma sim_readInit n top (init : stack -> stack) first (a : racc) stk ns :
  top = topOf first a -> (forall s, reps (init s) (kinds stk)) -> nsrep a stk ns ->
  simR (Q n) (fun it => readWithStack F top (init (it_pool it)) ns it)
       (p_fuel (fun n => p_loop readAlg n first a stk)) eqR.
Proof.
  intros -> H Hn. apply (simR_pre (num b)); [|now intros it [? ?]].
  apply (sim_state (num b) it_pool (fun s => readWithStack F (topOf first a) (init s) ns)).
  intros s. unfold readWithStack.
  apply (sim_fuel_total (num b) (fun n => readWithStack_loop F n (topOf first a) (init s) ns)). intros m.
  now apply sim_readLoop.
Qed.

Lemma sim_readArrayLoop fuel : forall c s,
  simR (T c fuel) (readArray_loop F fuel c s) (p_arrLoop readAlg fuel c s) eqR.
Proof.
  induction fuel as [|f IH]; intros c s.
  { eapply simR_pre; [apply sim_fuel|]. now intros it [? [? ?]]. }
  cbn [readArray_loop p_arrLoop].
  apply sim_if; intros.
  { eapply simR_pre; [apply (sim_readInit (S f) _ initArray true (AObj []))|now intros it [? ?]];
      [reflexivity|apply reps_initArray|]. simpl. eexists; split; [reflexivity|eexists; reflexivity]. }
  apply sim_if; intros.
  { eapply simR_pre; [apply (sim_readInit (S f) _ initArray true (AArr []))|now intros it [? ?]];
      [reflexivity|apply reps_initArray|]. simpl. eexists; split; [reflexivity|eexists; reflexivity]. }
  apply sim_leaf_bind. intros v. cbv zeta.
  apply sim_take_bind. intros d.
  apply sim_if; intros; [apply sim_ret_eq|]. apply sim_if; intros; [apply sim_fail|].
  eapply simR_pre; [apply (sim_take_bind' f)|now intros it [? ?]]. intros c'. apply IH.
Qed.
Definition p_readArray : P gval := p_array readAlg.
Lemma sim_readArray : simR (num b) (readArrayWithStack F) p_readArray eqR.
Proof.
  intros it W N. assert (H : simR (Q (S (length (stream it)))) (readArrayWithStack F) p_readArray eqR).
  2:{ apply H; auto. split; auto. unfold len. lia. }
  apply sim_take_bind. intros c. apply sim_if; intros; [apply sim_ret_eq|].
  apply (simR_pre (fun it => prev c it /\ num b it)); [|now intros it' [? [? ?]]].
  apply (sim_fuel_total _ (fun n => readArray_loop F n c [])). intros n.
  eapply simR_pre; [apply sim_readArrayLoop|]. intros it' [[? ?] ?]. split; auto. split; auto.
Qed.

Lemma sim_readObjectLoop fuel : forall c s,
  simR (fun it => peek c it /\ Q fuel it) (readObject_loop F fuel c s) (p_objLoop readAlg fuel c s) eqR.
Proof.
  induction fuel as [|f IH]; intros c s.
  { eapply simR_pre; [apply sim_fuel|]. now intros it [? [? ?]]. }
  cbn [readObject_loop p_objLoop].
  apply sim_if; intros; [apply sim_fail|]. apply sim_bind_inc_st; [apply stable_Q|].
  apply sim_bind_st; [apply stable_Q|apply sim_readObjectField|]. intros k.
  apply sim_take_bind. intros d.
  apply sim_if; intros.
  { eapply simR_pre; [apply (sim_readInit f _ initObject true (AObj []))|now intros it [? ?]];
      [reflexivity|apply reps_initObject|]. simpl. eexists; split; [reflexivity|eexists; reflexivity]. }
  apply sim_if; intros.
  { eapply simR_pre; [apply (sim_readInit f _ initObject true (AArr []))|now intros it [? ?]];
      [reflexivity|apply reps_initObject|]. simpl. eexists; split; [reflexivity|eexists; reflexivity]. }
  apply sim_leaf_bind. intros v. cbv zeta.
  apply sim_take_bind'. intros e.
  apply sim_if; intros; [apply sim_ret_eq|]. apply sim_if; intros; [apply sim_fail|].
  apply (simR_pre (Q f)); [|now intros it [? ?]].
  apply sim_bind_next_st; [apply stable_Q|]. intros c'. apply IH.
Qed.
Definition p_readObject : P gval := p_object readAlg.
Lemma sim_readObject : simR (num b) (readObjectWithStack F) p_readObject eqR.
Proof.
  apply sim_bind_next_st; [apply stable_num|]. intros c. apply sim_if; intros.
  - apply sim_bind_inc_st; [apply stable_num|]. apply sim_ret_eq.
  - apply (sim_fuel_total _ (fun n => readObject_loop F n c [])). intros n.
    eapply simR_pre; [apply sim_readObjectLoop|]. intros it' [[? ?] ?]. split; auto. split; auto.
Qed.

Definition p_Read : P gval := pbind p_takeToken (p_value readAlg).
Lemma sim_Read : simR (num b) (Read F) p_Read eqR.
Proof.
  intros it W N. assert (H : simR (Q (S (length (stream it)))) (Read F) p_Read eqR).
  2:{ apply H; auto. split; auto. unfold len. lia. }
  apply sim_take_bind. intros c. unfold readFunctions, p_value.
  apply sim_if; intros. { eapply simR_pre; [apply sim_readArray|]. now intros it' [? [? ?]]. }
  apply sim_if; intros. { eapply simR_pre; [apply sim_readObject|]. now intros it' [? [? ?]]. }
  eapply simR_pre; [apply sim_readLeaf|]. now intros it' [? [? ?]].
Qed.
End Read.
