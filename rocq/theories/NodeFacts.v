(** Read with its memory does what Read on values does. *)
From Coq Require Import ZArith List Bool Lia Permutation.
From Verif Require Import Base ModelIter ModelStack ModelSkip ModelStr ModelFloat ModelRead ModelNode SpecNode StackFacts.
Import ListNotations.
Local Open Scope nat_scope.

(** ** lists *)
Lemma put_length {A} (l : list A) i x : length (put_nth l i x) = length l.
Proof. revert i; induction l as [|y l IH]; intros [|i]; cbn; auto. Qed.
Lemma put_same {A} (l : list A) i x : i < length l -> nth_error (put_nth l i x) i = Some x.
Proof. revert i; induction l as [|y l IH]; intros [|i] H; cbn in *; try lia; auto. apply IH; lia. Qed.
Lemma put_other {A} (l : list A) i j x : i <> j -> nth_error (put_nth l i x) j = nth_error l j.
Proof. revert i j; induction l as [|y l IH]; intros [|i] [|j] H; cbn; auto; try lia. Qed.
Lemma put_right {A} (p t : list A) i x : length p <= i -> put_nth (p ++ t) i x = p ++ put_nth t (i - length p) x.
Proof.
  revert i; induction p as [|y p IH]; intros i H; cbn [app length].
  - f_equal. lia.
  - destruct i as [|i]; cbn in H |- *; [lia|]. f_equal. apply IH. lia.
Qed.
Lemma put_firstn {A} (l : list A) n x : n < length l -> firstn (S n) (put_nth l n x) = firstn n l ++ [x].
Proof. revert n; induction l as [|y l IH]; intros [|n] H; cbn in *; try lia; auto. f_equal. apply IH. lia. Qed.
Lemma put_firstn_low {A} (l : list A) n i x : n <= i -> firstn n (put_nth l i x) = firstn n l.
Proof. revert n i; induction l as [|y l IH]; intros [|n] [|i] H; cbn; auto; try lia. f_equal. apply IH. lia. Qed.
Lemma NoDup_app {A} (l r : list A) : NoDup (l ++ r) <-> NoDup l /\ NoDup r /\ (forall x, In x l -> ~ In x r).
Proof.
  induction l as [|x l IH]; cbn [app].
  - split; [intros H; repeat split; auto; constructor|intros (_ & H & _); exact H].
  - rewrite !NoDup_cons_iff, IH, in_app_iff. cbn [In]. split.
    + intros (N & A1 & A2 & A3). repeat split; auto. intros y [<-|Hy]; auto.
    + intros ((N & A1) & A2 & A3). repeat split; auto. intros [H|H]; [auto|]. apply (A3 x); auto.
Qed.

Section Facts.
Variable F : floatOps.
Variable spare : nat -> nat.
Local Notation heap := (heap F).
Local Notation word := (word F).
Local Notation gval := (gval F).

(** ** what a word stands for depends on its cells only *)
Lemma holds_frame_all (h : heap) :
  (forall fs w g, holds h fs w g -> forall h', (forall a, In a fs -> nth_error h' a = nth_error h a) -> holds h' fs w g) /\
  (forall fs ws gs, each h fs ws gs -> forall h', (forall a, In a fs -> nth_error h' a = nth_error h a) -> each h' fs ws gs) /\
  (forall fs ws gs, every h fs ws gs -> forall h', (forall a, In a fs -> nth_error h' a = nth_error h a) -> every h' fs ws gs).
Proof.
  apply holds_mutind; intros; try (constructor; fail).
  - apply ho_slice with (l := l); auto.
    + rewrite H3; [assumption|left; reflexivity].
    + apply H2. intros; apply H3; right; assumption.
  - apply ho_map with (m := m); auto.
    + rewrite H2; [assumption|left; reflexivity].
    + apply H1. intros; apply H2; right; assumption.
  - constructor; [apply H0|apply H2]; intros; apply H3, in_app_iff; auto.
  - constructor; [apply H0|apply H2]; intros; apply H3, in_app_iff; auto.
Qed.
Lemma holds_frame (h h' : heap) fs w g :
  holds h fs w g -> (forall a, In a fs -> nth_error h' a = nth_error h a) -> holds h' fs w g.
Proof. intros H K. exact (proj1 (holds_frame_all h) fs w g H h' K). Qed.
Lemma each_frame (h h' : heap) fs w g :
  each h fs w g -> (forall a, In a fs -> nth_error h' a = nth_error h a) -> each h' fs w g.
Proof. intros H K. exact (proj1 (proj2 (holds_frame_all h)) fs w g H h' K). Qed.
Lemma every_frame (h h' : heap) fs w g :
  every h fs w g -> (forall a, In a fs -> nth_error h' a = nth_error h a) -> every h' fs w g.
Proof. intros H K. exact (proj2 (proj2 (holds_frame_all h)) fs w g H h' K). Qed.

Lemma each_snoc (h : heap) fs ws gs f w g : each h fs ws gs -> holds h f w g -> each h (fs ++ f) (ws ++ [w]) (gs ++ [g]).
Proof.
  intros E H. induction E as [|f0 fs w0 ws g0 gs H0 E IH]; cbn [app].
  - rewrite <- (app_nil_r f). constructor; [exact H|constructor].
  - rewrite <- app_assoc. constructor; assumption.
Qed.
Lemma every_put (h : heap) fs ws gs : every h fs ws gs -> forall k f w g, holds h f w g ->
  exists fs', every h fs' (map_put F ws k w) (map_set F gs k g) /\ (forall a, In a fs' -> In a (fs ++ f)) /\
    (NoDup (fs ++ f) -> NoDup fs').
Proof.
  intros E k f w g H. induction E as [|k0 f0 fs w0 ws g0 gs H0 E IH]; cbn [app map_put map_set].
  - exists (f ++ []). split; [constructor; [exact H|constructor]|]. rewrite app_nil_r. auto.
  - destruct (bytes_eqb k0 k).
    + exists (f ++ fs). split; [constructor; assumption|]. split.
      * intros a. rewrite !in_app_iff. tauto.
      * rewrite !NoDup_app. intros ((A1 & A2 & A3) & A4 & A5). repeat split; auto.
        intros x X Y. apply (A5 x); auto. apply in_app_iff; auto.
    + destruct IH as (fs' & E' & I & D). exists (f0 ++ fs'). split; [constructor; assumption|]. split.
      * intros a. rewrite !in_app_iff. intros [X|X]; [auto|]. apply I in X. rewrite in_app_iff in X. tauto.
      * rewrite <- app_assoc, !NoDup_app. intros (A1 & A2 & A3). repeat split; auto; [apply D, NoDup_app, A2|].
        intros x X Y. apply I in Y. exact (A3 x X Y).
Qed.

(** ** writing to owned cells.  [p] is the memory that must stay. *)
Definition inside (p h : heap) (fs : list nat) : Prop := forall a, In a fs -> length p <= a < length h.
Definition kept (p h : heap) : Prop := exists t, h = p ++ t.
(** from [h] to [h']: what is neither new nor one of [fs] stays *)
Definition spares (fs : list nat) (h h' : heap) : Prop :=
  length h <= length h' /\ forall a, a < length h -> ~ In a fs -> nth_error h' a = nth_error h a.
(** the cells [fs'] are some of [fs] or new *)
Definition from (fs fs' : list nat) (h h' : heap) : Prop := forall a, In a fs' -> In a fs \/ length h <= a < length h'.

Lemma kept_put p h a c : kept p h -> length p <= a -> kept p (put_nth h a c).
Proof. intros (t & ->) H. exists (put_nth t (a - length p) c). apply put_right, H. Qed.
Lemma kept_app p h t : kept p h -> kept p (h ++ t).
Proof. intros (t0 & ->). exists (t0 ++ t). symmetry. apply app_assoc. Qed.
Lemma spares_put h a c fs : In a fs -> spares fs h (put_nth h a c).
Proof. intros I. split; [rewrite put_length; lia|]. intros b _ N. apply put_other. intros ->; auto. Qed.
Lemma spares_app h t fs : spares fs h (h ++ t).
Proof. split; [rewrite app_length; lia|]. intros b L _. apply nth_error_app1, L. Qed.

Lemma append_ok p h a n gs fs f w g :
  holds h fs (WSlice a n) (GSlice gs) -> holds h f w g -> NoDup (fs ++ f) -> inside p h (fs ++ f) -> kept p h ->
  exists h' a' fs', append F spare h (a, n) w = Some (h', (a', S n)) /\ holds h' fs' (WSlice a' (S n)) (GSlice (gs ++ [g])) /\
    NoDup fs' /\ from (fs ++ f) fs' h h' /\ spares (fs ++ f) h h' /\ kept p h'.
Proof.
  intros H Hf ND IN K. inversion H as [| | | | |a0 n0 l fs0 gs0 E L EA|]; subst.
  unfold append. rewrite E. destruct (Nat.ltb_spec n (length l)) as [Lt|Ge].
  - exists (put_nth h a (CArr (put_nth l n w))), a, ((a :: fs0) ++ f). split; [reflexivity|].
    assert (La : a < length h) by (apply IN; left; reflexivity).
    cbn [app] in ND |- *. apply NoDup_cons_iff in ND as (Na & ND).
    assert (FR : forall b, In b (fs0 ++ f) -> nth_error (put_nth h a (CArr (put_nth l n w))) b = nth_error h b).
    { intros b Hb. apply put_other. intros ->. auto. }
    split; [|split; [|split; [|split]]].
    + apply ho_slice with (l := put_nth l n w); [apply put_same, La|rewrite put_length; lia|].
      rewrite put_firstn by exact Lt. apply each_snoc.
      * eapply each_frame; [exact EA|]. intros b Hb. apply FR, in_app_iff; auto.
      * eapply holds_frame; [exact Hf|]. intros b Hb. apply FR, in_app_iff; auto.
    + constructor; assumption.
    + intros b Hb. left; exact Hb.
    + apply spares_put. left; reflexivity.
    + apply kept_put; [exact K|]. apply IN. left; reflexivity.
  - assert (n = length l) by lia. subst n. rewrite firstn_all in *.
    eexists _, (length h), (length h :: fs0 ++ f). split; [reflexivity|].
    cbn [app] in ND. apply NoDup_cons_iff in ND as (Na & ND).
    assert (FR : forall t b, In b (fs0 ++ f) -> nth_error (h ++ t) b = nth_error h b).
    { intros t b Hb. apply nth_error_app1. apply IN. right; exact Hb. }
    split; [|split; [|split; [|split]]].
    + eapply ho_slice; [rewrite nth_error_app2 by lia; rewrite Nat.sub_diag; reflexivity| |].
      * rewrite app_length. cbn. lia.
      * replace (l ++ w :: repeat WNil (spare (S (length l)))) with ((l ++ [w]) ++ repeat WNil (spare (S (length l)))) by (rewrite <- app_assoc; reflexivity).
        rewrite firstn_app, firstn_all2 by (rewrite app_length; cbn; lia).
        replace (S (length l) - length (l ++ [w])) with 0 by (rewrite app_length; cbn [length]; lia).
        rewrite firstn_O, app_nil_r. apply each_snoc.
        -- eapply each_frame; [exact EA|]. intros b Hb. apply FR, in_app_iff; auto.
        -- eapply holds_frame; [exact Hf|]. intros b Hb. apply FR, in_app_iff; auto.
    + constructor; [|exact ND]. intros Hb. assert (length h < length h) by (apply IN; right; exact Hb). lia.
    + intros b [<-|Hb]; [right; rewrite app_length; cbn; lia|left; right; exact Hb].
    + apply spares_app.
    + apply kept_app, K.
Qed.
Lemma assign_ok p h a gm fs f w g k :
  holds h fs (WMap a) (GMap gm) -> holds h f w g -> NoDup (fs ++ f) -> inside p h (fs ++ f) -> kept p h ->
  exists h' fs', assign F h a k w = Some h' /\ holds h' fs' (WMap a) (GMap (map_set F gm k g)) /\
    NoDup fs' /\ from (fs ++ f) fs' h h' /\ spares (fs ++ f) h h' /\ kept p h'.
Proof.
  intros H Hf ND IN K. inversion H as [| | | | | |a0 m fs0 gm0 E EV]; subst.
  unfold assign. rewrite E. destruct (every_put h fs0 m gm EV k f w g Hf) as (fs' & EV' & I & D).
  assert (La : a < length h) by (apply IN; left; reflexivity).
  cbn [app] in ND. apply NoDup_cons_iff in ND as (Na & ND).
  exists (put_nth h a (CMap (map_put F m k w))), (a :: fs'). split; [reflexivity|]. split; [|split; [|split; [|split]]].
  - apply ho_map with (m := map_put F m k w); [apply put_same, La|]. eapply every_frame; [exact EV'|].
    intros b Hb. apply put_other. intros ->. auto.
  - constructor; auto.
  - intros b [<-|Hb]; left; [left; reflexivity|right; auto].
  - apply spares_put. left; reflexivity.
  - apply kept_put; [exact K|]. apply IN. left; reflexivity.
Qed.

(** ** the node stack *)
(** the container that a node has *)
Definition nodeG (n : readNode F) : gval := match nd_val F n with NMap _ m => GMap m | NSlice _ s => GSlice s end.
Definition slotW (x : slot) : word := match sl_m x with Some a => WMap a | None => sliceWord F (sl_s x) end.
Definition is_slice (n : readNode F) : bool := match nd_val F n with NMap _ _ => false | NSlice _ _ => true end.
Definition noded (h : heap) (fs : list nat) (x : slot) (n : readNode F) : Prop :=
  sl_field x = nd_field F n /\ holds h fs (slotW x) (nodeG n).
Inductive nodes (h : heap) : list nat -> list slot -> list (readNode F) -> Prop :=
| nds_nil : nodes h [] [] []
| nds_cons f fs x xs n ns : noded h f x n -> nodes h fs xs ns -> nodes h (f ++ fs) (x :: xs) (n :: ns).
(** the state in the loop: [fs] are the cells of the nodes, [live] the entries in use from the top *)
Definition inloop (p : heap) (st : mem F) (ns : list (readNode F)) : Prop :=
  exists fs live, nodes (me_heap st) fs live ns /\ NoDup fs /\ inside p (me_heap st) fs /\ kept p (me_heap st) /\
    ns_len (me_ns st) = length live /\ firstn (length live) (ns_slots (me_ns st)) = rev live.

Lemma nodes_frame h h' fs xs ns : nodes h fs xs ns -> (forall a, In a fs -> nth_error h' a = nth_error h a) -> nodes h' fs xs ns.
Proof.
  intros H. induction H as [|f fs x xs n ns (E & Hx) Hxs IH]; intros FR; constructor.
  - split; [exact E|]. eapply holds_frame; [exact Hx|]. intros a Ha. apply FR, in_app_iff; auto.
  - apply IH. intros a Ha. apply FR, in_app_iff; auto.
Qed.
Lemma noded_map h fs x n gm : noded h fs x n -> nd_val F n = NMap F gm -> exists a, sl_m x = Some a /\ holds h fs (WMap a) (GMap gm).
Proof.
  intros (_ & H) E. unfold slotW, nodeG in H. rewrite E in H. destruct (sl_m x) as [a|]; [eauto|].
  destruct (sl_s x) as [(a & n0)|]; inversion H.
Qed.
Lemma noded_slice h fs x n gs : noded h fs x n -> nd_val F n = NSlice F gs ->
  exists a k, sl_m x = None /\ sl_s x = Some (a, k) /\ holds h fs (WSlice a k) (GSlice gs).
Proof.
  intros (_ & H) E. unfold slotW, nodeG in H. rewrite E in H. destruct (sl_m x) as [a|]; [inversion H|].
  destruct (sl_s x) as [(a & n0)|]; [eauto|inversion H].
Qed.
Lemma firstn_rev {A} (l : list A) x r : firstn (S (length r)) l = rev (x :: r) ->
  nth_error l (length r) = Some x /\ firstn (length r) l = rev r /\ length r < length l.
Proof.
  intros H. cbn [rev] in H. assert (L : length (firstn (S (length r)) l) = S (length r)).
  { rewrite H, app_length, rev_length. cbn. lia. }
  rewrite firstn_length in L. assert (length r < length l) by lia. split; [|split]; auto.
  - assert (E : nth_error (firstn (S (length r)) l) (length r) = Some x).
    { rewrite H, nth_error_app2 by (rewrite rev_length; lia). rewrite rev_length, Nat.sub_diag. reflexivity. }
    rewrite <- E. clear. revert l. induction (length r) as [|k IH]; intros [|y l]; cbn; auto. apply IH.
  - assert (E : firstn (length r) (firstn (S (length r)) l) = rev r).
    { rewrite H, firstn_app, firstn_all2 by (rewrite rev_length; lia). rewrite rev_length, Nat.sub_diag. cbn. apply app_nil_r. }
    rewrite firstn_firstn in E. replace (Nat.min (length r) (S (length r))) with (length r) in E by lia. exact E.
Qed.
Lemma slot0 p st n ns : inloop p st (n :: ns) ->
  exists f fs x live, nodes (me_heap st) fs live ns /\ noded (me_heap st) f x n /\ NoDup (f ++ fs) /\
    inside p (me_heap st) (f ++ fs) /\ kept p (me_heap st) /\ ns_len (me_ns st) = S (length live) /\
    nth_error (ns_slots (me_ns st)) (length live) = Some x /\
    firstn (length live) (ns_slots (me_ns st)) = rev live /\ length live < length (ns_slots (me_ns st)).
Proof.
  intros (fs & live & H & ND & IN & K & L & R). inversion H as [|f fs0 x xs n0 ns0 Hx Hxs]; subst.
  destruct (firstn_rev _ _ _ R) as (A1 & A2 & A3). exists f, fs0, x, xs. auto 10.
Qed.

Lemma inside_from p h h' fs fs' : inside p h fs -> from fs fs' h h' -> length h <= length h' -> length p <= length h -> inside p h' fs'.
Proof. intros IN FR L P a Ha. destruct (FR a Ha) as [H|H]; [apply IN in H|]; lia. Qed.
Lemma kept_len p h : kept p h -> length p <= length h.
Proof. intros (t & ->). rewrite app_length. lia. Qed.

(** a value goes into the container of a node *)
Definition store (i : nat) (x : slot) (k : bytes) (w : word) (st : mem F) : option (mem F) :=
  match sl_m x with
  | Some a => option_map (fun h => mkMem h (me_ns st)) (assign F (me_heap st) a k w)
  | None => appendAt F spare i w st
  end.
Lemma store_ok p st f fs e x n ns live k w g :
  nodes (me_heap st) fs live ns -> noded (me_heap st) f x n -> holds (me_heap st) e w g ->
  NoDup ((f ++ e) ++ fs) -> inside p (me_heap st) ((f ++ e) ++ fs) -> kept p (me_heap st) ->
  nth_error (ns_slots (me_ns st)) (length live) = Some x ->
  firstn (length live) (ns_slots (me_ns st)) = rev live ->
  exists st', store (length live) x k w st = Some st' /\ ns_len (me_ns st') = ns_len (me_ns st) /\
    inloop p (mkMem (me_heap st') (mkNs (ns_slots (me_ns st')) (S (length live)))) (ns_attach F g k n :: ns).
Proof.
  destruct st as [h [slots len]]. cbn [me_heap me_ns ns_slots ns_len]. intros Hn Hx Hw ND IN K Hs Hf.
  assert (Ls : length live < length slots) by (apply nth_error_Some; congruence).
  apply NoDup_app in ND as (ND1 & ND2 & ND3).
  assert (IN1 : inside p h (f ++ e)) by (intros a Ha; apply IN, in_app_iff; auto).
  assert (IN2 : inside p h fs) by (intros a Ha; apply IN, in_app_iff; auto).
  assert (FIN : forall h' fs' x', from (f ++ e) fs' h h' -> spares (f ++ e) h h' -> kept p h' -> NoDup fs' ->
            noded h' fs' x' (ns_attach F g k n) -> forall slots', firstn (S (length live)) slots' = rev (x' :: live) ->
            inloop p (mkMem h' (mkNs slots' (S (length live)))) (ns_attach F g k n :: ns)).
  { intros h' fs' x' FR (SL & SP) K' ND' Hx' slots' Hs'. exists (fs' ++ fs), (x' :: live). cbn [me_heap me_ns ns_slots ns_len].
    split; [constructor; [exact Hx'|]|]; [|split; [|split; [|split; [|split]]]]; auto.
    - eapply nodes_frame; [exact Hn|]. intros a Ha. apply SP; [apply IN2, Ha|]. intros Hb. exact (ND3 a Hb Ha).
    - apply NoDup_app. repeat split; auto. intros a Ha Hb. destruct (FR a Ha) as [Hc|Hc]; [exact (ND3 a Hc Hb)|].
      apply IN2 in Hb. lia.
    - intros a Ha. apply in_app_iff in Ha as [Ha|Ha].
      + exact (inside_from _ _ _ _ _ IN1 FR SL (kept_len _ _ K) a Ha).
      + apply IN2 in Ha. lia. }
  destruct (nd_val F n) as [gm|gs] eqn:En; unfold store; cbn [me_heap me_ns].
  - destruct (noded_map _ _ _ _ _ Hx En) as (a & Ea & Ha). rewrite Ea.
    destruct (assign_ok p h a gm f e w g k Ha Hw ND1 IN1 K) as (h' & fs' & -> & H' & ND' & FR & SP & K').
    eexists; split; [reflexivity|]. split; [reflexivity|]. cbn [me_heap me_ns ns_slots].
    eapply FIN with (x' := x); eauto.
    + unfold ns_attach. rewrite En. split; [apply Hx|]. unfold slotW, nodeG. rewrite Ea. exact H'.
    + cbn [rev]. rewrite <- Hf. clear - Hs. revert slots Hs. induction (length live) as [|i IH]; intros [|y l] H; try discriminate.
      * injection H as ->. reflexivity.
      * cbn [firstn app]. f_equal. apply IH, H.
  - destruct (noded_slice _ _ _ _ _ Hx En) as (a & j & Em & Ea & Ha). rewrite Em. unfold appendAt. cbn [me_heap me_ns ns_slots ns_len].
    rewrite Hs, Ea.
    destruct (append_ok p h a j gs f e w g Ha Hw ND1 IN1 K) as (h' & a' & fs' & -> & H' & ND' & FR & SP & K').
    eexists; split; [reflexivity|]. split; [reflexivity|]. cbn [me_heap me_ns ns_slots].
    eapply FIN with (x' := mkSlot (sl_m x) (Some (a', S j)) (sl_field x)); eauto.
    + unfold ns_attach. rewrite En. split; [apply Hx|]. unfold slotW, nodeG. cbn [sl_m sl_s]. rewrite Em. exact H'.
    + rewrite put_firstn by exact Ls. cbn [rev]. rewrite Hf. reflexivity.
Qed.

(** ** the operations of the node stack *)
Lemma new_holds p h c w g :
  kept p h -> (forall h', nth_error h' (length h) = Some c -> holds h' [length h] w g) ->
  holds (h ++ [c]) [length h] w g /\ kept p (h ++ [c]) /\ inside p (h ++ [c]) [length h].
Proof.
  intros K H. split; [apply H; rewrite nth_error_app2, Nat.sub_diag by lia; reflexivity|]. split; [apply kept_app, K|].
  intros a [<-|[]]. rewrite app_length. apply kept_len in K. cbn. lia.
Qed.
Lemma new_slice (h' : heap) a : nth_error h' a = Some (CArr []) -> holds h' [a] (WSlice a 0) (GSlice []).
Proof. intros E. apply ho_slice with (l := []); [exact E|cbn; lia|constructor]. Qed.
Lemma new_map (h' : heap) a : nth_error h' a = Some (CMap []) -> holds h' [a] (WMap a) (GMap []).
Proof. intros E. apply ho_map with (m := []); [exact E|constructor]. Qed.

Lemma ns_append_firstn nst x live :
  ns_len nst = length live -> firstn (length live) (ns_slots nst) = rev live ->
  firstn (S (length live)) (ns_slots (ns_append nst x)) = rev (x :: live).
Proof.
  intros L R. unfold ns_append. cbn [ns_slots rev]. rewrite L. rewrite <- R.
  destruct (Nat.ltb_spec (length live) (length (ns_slots nst))) as [Lt|Ge].
  - apply put_firstn, Lt.
  - assert (length live = length (ns_slots nst)).
    { assert (E : length (firstn (length live) (ns_slots nst)) = length live) by (rewrite R; apply rev_length).
      rewrite firstn_length in E. lia. }
    rewrite H. rewrite firstn_all, firstn_all2 by (rewrite app_length; cbn; lia). reflexivity.
Qed.
Lemma push_ok p st ns x n c :
  inloop p st ns -> sl_field x = nd_field F n ->
  (forall h', nth_error h' (length (me_heap st)) = Some c -> holds h' [length (me_heap st)] (slotW x) (nodeG n)) ->
  inloop p (mkMem (me_heap st ++ [c]) (ns_append (me_ns st) x)) (n :: ns).
Proof.
  intros (fs & live & H & ND & IN & K & L & R) E Hc. destruct (new_holds p _ _ _ _ K Hc) as (H1 & K1 & I1).
  exists ([length (me_heap st)] ++ fs), (x :: live). cbn [me_heap me_ns].
  split; [constructor|]; [split; assumption| |split; [|split; [|split; [|split]]]]; auto.
  - eapply nodes_frame; [exact H|]. intros a Ha. apply nth_error_app1, IN, Ha.
  - cbn [app]. constructor; auto. intros Ha. apply IN in Ha. lia.
  - intros a Ha. apply in_app_iff in Ha as [Ha|Ha]; [apply I1, Ha|]. apply IN in Ha. rewrite app_length. lia.
  - cbn [ns_append ns_len length]. lia.
  - exact (ns_append_firstn _ _ _ L R).
Qed.
Lemma pushArray_ok p st ns field it : inloop p st ns ->
  exists st', hPushArray F field st it = (Ok tt, it, st') /\ inloop p st' (ns_pushArray F field ns).
Proof. intros H. eexists; split; [reflexivity|]. apply push_ok; auto. intros h' E. apply new_slice, E. Qed.
Lemma pushObject_ok p st ns field it : inloop p st ns ->
  exists st', hPushObject F field st it = (Ok tt, it, st') /\ inloop p st' (ns_pushObject F field ns).
Proof. intros H. eexists; split; [reflexivity|]. apply push_ok; auto. intros h' E. apply new_map, E. Qed.
Lemma init_ok p h nst x n fs :
  holds h fs (slotW x) (nodeG n) -> sl_field x = nd_field F n -> NoDup fs -> inside p h fs -> kept p h ->
  inloop p (mkMem h (ns_append (mkNs (ns_slots nst) 0) x)) [n].
Proof.
  intros H E ND IN K. exists (fs ++ []), [x]. cbn [me_heap me_ns]. rewrite app_nil_r. 
  split; [|split; [|split; [|split; [|split]]]]; auto.
  - rewrite <- (app_nil_r fs). constructor; [split; assumption|constructor].
  - apply (ns_append_firstn (mkNs (ns_slots nst) 0) x []); reflexivity.
Qed.

Definition is_leaf (g : gval) : Prop := match g with GSlice _ | GMap _ => False | _ => True end.
Lemma leaf_holds h g : is_leaf g -> holds h [] (leafWord F g) g.
Proof. destruct g; cbn; try tauto; constructor. Qed.
Lemma setTop_ok p st n ns gm k g it : inloop p st (n :: ns) -> nd_val F n = NMap F gm -> is_leaf g ->
  exists st' ns', hSetTopObject F k (leafWord F g) st it = (Ok tt, it, st') /\ ns_setTopObject F k g (n :: ns) = Some ns' /\ inloop p st' ns'
    /\ map is_slice ns' = map is_slice (n :: ns).
Proof.
  intros H En Lg. destruct (slot0 _ _ _ _ H) as (f & fs & x & live & Hn & Hx & ND & IN & K & L & S0 & R & LS).
  destruct (store_ok p st f fs [] x n ns live k (leafWord F g) g Hn Hx (leaf_holds _ _ Lg)) as (st' & E & L' & I'); rewrite ?app_nil_r; auto.
  destruct (noded_map _ _ _ _ _ Hx En) as (a & Ea & _).
  unfold store in E. rewrite Ea in E. destruct (assign F (me_heap st) a k (leafWord F g)) as [h'|] eqn:Eh; [|discriminate].
  injection E as <-. eexists _, _. split; [|split; [|split]].
  - unfold hSetTopObject, slotAt. rewrite L. cbn [Nat.ltb Nat.leb]. replace (S (length live) - 1 - 0) with (length live) by lia.
    rewrite S0, Ea, Eh. reflexivity.
  - unfold ns_setTopObject. rewrite En. reflexivity.
  - unfold ns_attach in I'. rewrite En in I'. cbn [me_heap me_ns] in I'. rewrite <- L in I'. destruct (me_ns st). exact I'.
  - cbn [map]. unfold is_slice at 1 3. rewrite En. reflexivity.
Qed.
Lemma appendTop_ok p st n ns gs g it : inloop p st (n :: ns) -> nd_val F n = NSlice F gs -> is_leaf g ->
  exists st' ns', hAppendTopArray F spare (leafWord F g) st it = (Ok tt, it, st') /\ ns_appendTopArray F g (n :: ns) = Some ns' /\ inloop p st' ns'
    /\ map is_slice ns' = map is_slice (n :: ns).
Proof.
  intros H En Lg. destruct (slot0 _ _ _ _ H) as (f & fs & x & live & Hn & Hx & ND & IN & K & L & S0 & R & LS).
  destruct (store_ok p st f fs [] x n ns live [] (leafWord F g) g Hn Hx (leaf_holds _ _ Lg)) as (st' & E & L' & I'); rewrite ?app_nil_r; auto.
  destruct (noded_slice _ _ _ _ _ Hx En) as (a & j & Em & _ & _). unfold store in E. rewrite Em in E.
  eexists _, _. split; [|split; [|split]].
  - unfold hAppendTopArray. rewrite L, E. reflexivity.
  - unfold ns_appendTopArray. rewrite En. reflexivity.
  - unfold ns_attach in I'. rewrite En in I'. rewrite <- L, <- L' in I'. destruct st' as [h' [sl le]]. exact I'.
  - cbn [map]. unfold is_slice at 1 3. rewrite En. reflexivity.
Qed.
Lemma is_slice_attach g k n : is_slice (ns_attach F g k n) = is_slice n.
Proof. unfold is_slice, ns_attach. destruct (nd_val F n) as [gm|gs]; reflexivity. Qed.
Lemma attach_ok p st n1 n2 ns (wf : slot -> word) it :
  inloop p st (n1 :: n2 :: ns) ->
  (forall f x, noded (me_heap st) f x n1 -> wf x = slotW x) ->
  exists st', hAttach F spare wf st it = (Ok tt, it, st') /\ inloop p st' (ns_attach F (nodeG n1) (nd_field F n1) n2 :: ns).
Proof.
  intros H W. destruct (slot0 _ _ _ _ H) as (f1 & fs1 & x1 & live1 & Hn1 & Hx1 & ND & IN & K & L & S1 & R & LS).
  inversion Hn1 as [|f2 fs x2 live n0 ns0 Hx2 Hn]; subst. cbn [length] in L, S1, R, LS.
  destruct (firstn_rev _ _ _ R) as (S2 & R2 & LS2).
  destruct (store_ok p st f2 fs f1 x2 n2 ns live (nd_field F n1) (wf x1) (nodeG n1)) as (st' & E & L' & I'); auto.
  - rewrite (W _ _ Hx1). apply Hx1.
  - eapply Permutation_NoDup; [|exact ND]. rewrite app_assoc. apply Permutation_app_tail, Permutation_app_comm.
  - intros a Ha. apply IN. rewrite !in_app_iff in *. tauto.
  - exists (mkMem (me_heap st') (mkNs (ns_slots (me_ns st')) (S (length live)))). split; [|exact I'].
    unfold hAttach, slotAt. rewrite L. cbn [Nat.ltb Nat.leb]. replace (S (S (length live)) - 1 - 0) with (S (length live)) by lia.
    replace (S (S (length live)) - 1 - 1) with (length live) by lia. rewrite S1, S2.
    unfold store in E. rewrite (proj1 Hx1). rewrite E. reflexivity.
Qed.
Lemma popObject_ok p st n1 n2 ns it : inloop p st (n1 :: n2 :: ns) -> is_slice n1 = false ->
  exists st' ns', hPopObject F spare st it = (Ok tt, it, st') /\ ns_popObject F (n1 :: n2 :: ns) = Some ns' /\ inloop p st' ns'
    /\ map is_slice ns' = map is_slice (n2 :: ns).
Proof.
  intros H Es. unfold is_slice in Es. destruct (nd_val F n1) as [gm|gs] eqn:En; [|discriminate].
  destruct (attach_ok p st n1 n2 ns (fun x => mapWord F (sl_m x)) it H) as (st' & E & I').
  - intros f x Hx. destruct (noded_map _ _ _ _ _ Hx En) as (a & Ea & _). unfold slotW. rewrite Ea. reflexivity.
  - exists st'. eexists. split; [exact E|]. split; [reflexivity|]. unfold nodeG in I'. rewrite En in *. split; [exact I'|].
    cbn [map]. rewrite is_slice_attach. reflexivity.
Qed.
Lemma popArray_ok p st n1 n2 ns it : inloop p st (n1 :: n2 :: ns) -> is_slice n1 = true ->
  exists st' ns', hPopArray F spare st it = (Ok tt, it, st') /\ ns_popArray F (n1 :: n2 :: ns) = Some ns' /\ inloop p st' ns'
    /\ map is_slice ns' = map is_slice (n2 :: ns).
Proof.
  intros H Es. unfold is_slice in Es. destruct (nd_val F n1) as [gm|gs] eqn:En; [discriminate|].
  destruct (attach_ok p st n1 n2 ns (fun x => sliceWord F (sl_s x)) it H) as (st' & E & I').
  - intros f x Hx. destruct (noded_slice _ _ _ _ _ Hx En) as (a & j & Em & Ea & _). unfold slotW. rewrite Em. reflexivity.
  - exists st'. eexists. split; [exact E|]. split; [reflexivity|]. unfold nodeG in I'. rewrite En in *. split; [exact I'|].
    cbn [map]. rewrite is_slice_attach. reflexivity.
Qed.
Lemma topObject_ok p st n ns it : inloop p st (n :: ns) -> is_slice n = false ->
  exists w g, hTopObject F st it = (Ok w, it, st) /\ ns_topObject F (n :: ns) = Some g /\ apart (me_heap st) p w g.
Proof.
  intros H Es. unfold is_slice in Es. destruct (nd_val F n) as [gm|gs] eqn:En; [|discriminate].
  destruct (slot0 _ _ _ _ H) as (f & fs & x & live & Hn & Hx & ND & IN & K & L & S0 & R & LS).
  destruct (noded_map _ _ _ _ _ Hx En) as (a & Ea & Ha). exists (WMap a), (GMap gm). split; [|split].
  - unfold hTopObject, slotAt. rewrite L. cbn [Nat.ltb Nat.leb]. replace (S (length live) - 1 - 0) with (length live) by lia.
    rewrite S0, Ea. reflexivity.
  - unfold ns_topObject. rewrite En. reflexivity.
  - exists f. split; [exact Ha|]. split; [apply NoDup_app in ND; apply ND|]. apply Forall_forall. intros b Hb. apply IN, in_app_iff; auto.
Qed.
Lemma topArray_ok p st n ns it : inloop p st (n :: ns) -> is_slice n = true ->
  exists w g, hTopArray F st it = (Ok w, it, st) /\ ns_topArray F (n :: ns) = Some g /\ apart (me_heap st) p w g.
Proof.
  intros H Es. unfold is_slice in Es. destruct (nd_val F n) as [gm|gs] eqn:En; [discriminate|].
  destruct (slot0 _ _ _ _ H) as (f & fs & x & live & Hn & Hx & ND & IN & K & L & S0 & R & LS).
  destruct (noded_slice _ _ _ _ _ Hx En) as (a & j & Em & Ea & Ha). exists (WSlice a j), (GSlice gs). split; [|split].
  - unfold hTopArray, slotAt. rewrite L. cbn [Nat.ltb Nat.leb]. replace (S (length live) - 1 - 0) with (length live) by lia.
    rewrite S0, Ea. reflexivity.
  - unfold ns_topArray. rewrite En. reflexivity.
  - exists f. split; [exact Ha|]. split; [apply NoDup_app in ND; apply ND|]. apply Forall_forall. intros b Hb. apply IN, in_app_iff; auto.
Qed.
End Facts.
