(** C55: the maps and slices that Read makes are shared with nobody, whatever is in the node stack of the pool. *)
From Coq Require Import String ZArith List Bool Lia.
From Verif Require Import Base ModelIter ModelStack ModelSkip ModelStr ModelFloat ModelRead ModelNode SpecNode NodeFacts NodeRead Properties1.
Import ListNotations.

Section C55.
Variable F : floatOps.
Variable spare : nat -> nat.

(** Read with its memory is Read on values.  The value is made of cells that are new, each used once, and what was in
    the memory before is still there, whatever the node stack of the pool had left in it. *)
Theorem C55_read h ns it :
  let '(r, it', st') := hRead F spare (mkMem h ns) it in
  it' = snd (Read F it) /\ (exists t, me_heap st' = h ++ t) /\
  match fst (Read F it) with
  | Ok g => exists w, r = Ok w /\ apart (me_heap st') h w g
  | Err e => r = Err e
  | Panic => r = Panic
  | OutOfFuel => r = OutOfFuel
  end.
Proof.
  destruct (follows_read F spare (mkMem h ns) it) as (E & K & H). destruct (hRead F spare (mkMem h ns) it) as [[r it'] st'].
  split; [exact E|]. split; [exact K|exact H].
Qed.

Lemma after_length es : forall h, length h <= length (after F spare es h).
Proof.
  induction es as [|[it ns|a c|c] es IH]; intros h; cbn [after]; [lia| | |].
  - destruct (follows_read F spare (mkMem h ns) it) as (_ & (t & K) & _). etransitivity; [|apply IH]. rewrite K, app_length. cbn [me_heap]. lia.
  - etransitivity; [|apply IH]. rewrite put_length. lia.
  - etransitivity; [|apply IH]. rewrite app_length. lia.
Qed.
Lemma after_cell es : forall h b, b < length h -> (forall c, ~ In (EWrite b c) es) -> nth_error (after F spare es h) b = nth_error h b.
Proof.
  induction es as [|[it ns|a c|c] es IH]; intros h b L N; cbn [after]; [reflexivity| | |].
  - destruct (follows_read F spare (mkMem h ns) it) as (_ & (t & K) & _). cbn [me_heap] in K. rewrite IH, K.
    + apply nth_error_app1, L.
    + rewrite K, app_length. lia.
    + intros c Hc. apply (N c). right; exact Hc.
  - rewrite IH.
    + apply put_other. intros ->. apply (N c). left; reflexivity.
    + rewrite put_length. exact L.
    + intros c' Hc. apply (N c'). right; exact Hc.
  - rewrite IH.
    + apply nth_error_app1, L.
    + rewrite app_length. lia.
    + intros c' Hc. apply (N c'). right; exact Hc.
Qed.
(** A value stays what it is as long as nobody writes to its cells: no later Read does. *)
Theorem C55_lasting h fs w g es : holds h fs w g -> (forall a, In a fs -> a < length h) -> untouched F fs es ->
  holds (after F spare es h) fs w g.
Proof.
  intros H L U. eapply holds_frame; [exact H|]. intros a Ha. apply after_cell; [apply L, Ha|]. intros c Hc. exact (U a c Hc Ha).
Qed.
(** So a result is still there after any number of calls, and the next result has no cell of it. *)
Theorem C55_results h ns it w it1 st1 es ns2 it2 w2 it3 st3 :
  hRead F spare (mkMem h ns) it = (Ok w, it1, st1) ->
  hRead F spare (mkMem (after F spare es (me_heap st1)) ns2) it2 = (Ok w2, it3, st3) ->
  exists g fs g2 fs2, fst (Read F it) = Ok g /\ fst (Read F it2) = Ok g2 /\ NoDup (fs ++ fs2) /\ holds (me_heap st3) fs2 w2 g2 /\
    (untouched F fs es -> holds (me_heap st3) fs w g).
Proof.
  intros H1 H2. assert (A := C55_read h ns it). rewrite H1 in A. destruct A as (_ & _ & A).
  destruct (fst (Read F it)) as [g|e| |]; try discriminate. destruct A as (w0 & E & fs & A & ND & B). injection E as <-.
  assert (A2 := C55_read (after F spare es (me_heap st1)) ns2 it2). rewrite H2 in A2. destruct A2 as (_ & (t & K) & A2).
  destruct (fst (Read F it2)) as [g2|e| |]; try discriminate. destruct A2 as (w0 & E & fs2 & A2 & ND2 & B2). injection E as <-.
  exists g, fs, g2, fs2. split; [reflexivity|]. split; [reflexivity|]. rewrite Forall_forall in B, B2. split; [|split; [exact A2|]].
  - apply NoDup_app. repeat split; auto. intros x X Y. apply B in X. apply B2 in Y. assert (L := after_length es (me_heap st1)). lia.
  - intros U. assert (C : holds (after F spare es (me_heap st1)) fs w g).
    { apply C55_lasting; [exact A| |exact U]. intros a Ha. apply B, Ha. }
    eapply holds_frame; [exact C|]. intros a Ha. rewrite K. apply nth_error_app1. assert (L := after_length es (me_heap st1)).
    apply B in Ha. lia.
Qed.

Lemma each_nth h fs ws gs : each (F := F) h fs ws gs -> NoDup fs -> forall i j wi wj, i <> j -> nth_error ws i = Some wi -> nth_error ws j = Some wj ->
  exists gi gj fi fj, nth_error gs i = Some gi /\ nth_error gs j = Some gj /\ holds h fi wi gi /\ holds h fj wj gj /\
    (forall b, In b fi -> ~ In b fj) /\ incl fi fs /\ incl fj fs.
Proof.
  assert (ONE : forall fs ws gs, each (F := F) h fs ws gs -> forall i wi, nth_error ws i = Some wi ->
            exists gi fi, nth_error gs i = Some gi /\ holds h fi wi gi /\ incl fi fs).
  { clear. intros fs ws gs E. induction E as [|f fs w ws g gs H E IH]; intros [|i] wi Hi; try discriminate; cbn in Hi.
    - injection Hi as <-. exists g, f. split; [reflexivity|]. split; [exact H|]. apply incl_appl, incl_refl.
    - destruct (IH i wi Hi) as (gi & fi & A & B & C). exists gi, fi. split; [exact A|]. split; [exact B|]. apply incl_appr, C. }
  intros E. induction E as [|f fs w ws g gs H E IH]; intros ND i j wi wj N Hi Hj; [destruct i; discriminate|].
  apply NoDup_app in ND as (ND1 & ND2 & ND3). destruct i as [|i], j as [|j]; cbn in Hi, Hj; [lia| | |].
  - injection Hi as <-. destruct (ONE _ _ _ E j wj Hj) as (gj & fj & A & B & C). exists g, gj, f, fj. repeat split; auto.
    + intros b X Y. exact (ND3 b X (C b Y)).
    + apply incl_appl, incl_refl.
    + apply incl_appr, C.
  - injection Hj as <-. destruct (ONE _ _ _ E i wi Hi) as (gi & fi & A & B & C). exists gi, g, fi, f. repeat split; auto.
    + intros b X Y. exact (ND3 b Y (C b X)).
    + apply incl_appr, C.
    + apply incl_appl, incl_refl.
  - destruct (IH ND2 i j wi wj ltac:(lia) Hi Hj) as (gi & gj & fi & fj & A1 & A2 & A3 & A4 & A5 & A6 & A7).
    exists gi, gj, fi, fj. repeat split; auto; apply incl_appr; assumption.
Qed.
Lemma every_each h fs ws gs : every (F := F) h fs ws gs -> each h fs (map snd ws) (map snd gs).
Proof. intros E. induction E; cbn [map snd]; constructor; assumption. Qed.
(** The parts of a result are apart from each other: a write to a cell of one, and to a cell of the whole that is of no
    part, leaves the other as it is. *)
Theorem C55_parts h old w g i j wi wj : apart h old w g -> i <> j ->
  nth_error (parts F h w) i = Some wi -> nth_error (parts F h w) j = Some wj ->
  exists gi gj fi fj, nth_error (partsG F g) i = Some gi /\ nth_error (partsG F g) j = Some gj /\
    holds h fi wi gi /\ holds h fj wj gj /\
    (forall b c, In b fi -> holds (put_nth h b c) fj wj gj) /\
    (forall a n c, w = WSlice a n \/ w = WMap a -> holds (put_nth h a c) fj wj gj).
Proof.
  intros (fs & H & ND & _) N Hi Hj.
  assert (FIN : forall a fs0 ws gs, NoDup (a :: fs0) -> each h fs0 ws gs -> nth_error ws i = Some wi -> nth_error ws j = Some wj ->
     exists gi gj fi fj, nth_error gs i = Some gi /\ nth_error gs j = Some gj /\
        holds h fi wi gi /\ holds h fj wj gj /\ (forall b c, In b fi -> holds (put_nth h b c) fj wj gj) /\
        (forall c, holds (put_nth h a c) fj wj gj)).
  { intros a fs0 ws gs D E Ei Ej. apply NoDup_cons_iff in D as (D1 & D2).
    destruct (each_nth h fs0 ws gs E D2 i j wi wj N Ei Ej) as (gi & gj & fi & fj & A1 & A2 & A3 & A4 & A5 & A6 & A7).
    exists gi, gj, fi, fj. repeat split; auto.
    - intros b c Hb. eapply holds_frame; [exact A4|]. intros x Hx. apply put_other. intros ->. exact (A5 x Hb Hx).
    - intros c. eapply holds_frame; [exact A4|]. intros x Hx. apply put_other. intros ->. apply D1, A7, Hx. }
  destruct H as [| | | | |a n l fs0 gs E L EA|a m fs0 gm E EV]; cbn [parts partsG] in *; try (destruct i; discriminate).
  - rewrite E in Hi, Hj. destruct (FIN a fs0 _ _ ND EA Hi Hj) as (gi & gj & fi & fj & A1 & A2 & A3 & A4 & A5 & A6).
    exists gi, gj, fi, fj. repeat split; auto. intros b k c [X|X]; [injection X as <- <-; apply A6|discriminate].
  - rewrite E in Hi, Hj. destruct (FIN a fs0 _ _ ND (every_each _ _ _ _ EV) Hi Hj) as (gi & gj & fi & fj & A1 & A2 & A3 & A4 & A5 & A6).
    exists gi, gj, fi, fj. repeat split; auto. intros b k c [X|X]; [discriminate|injection X as <-; apply A6].
Qed.
End C55.

(** ** a node stack whose entries still refer to the result of another call *)
Local Open Scope string_scope.
Definition grow1 (n : nat) : nat := n.
Definition stale : nstack := mkNs [mkSlot (Some 0) None (bs "x"); mkSlot None (Some (1, 0)) (bs "y"); mkSlot (Some 0) (Some (1, 1)) []] 0.
Definition older : heap textF := [CMap [(bs "k", WBool true)]; CArr [WMap 0; WNil]].
Definition page := "{""a"":[1,{""b"":null,""b"":[]},true],""a"":[[]],""c"":{}} ".
Definition pageRead := hRead textF grow1 (mkMem older stale) (small page).
Definition pageHeap : heap textF := me_heap (snd pageRead).
Lemma pageRead_eq : hRead textF grow1 (mkMem older stale) (small page) = pageRead.
Proof. unfold pageRead. reflexivity. Qed.
Lemma pageHeap_eq : pageHeap = me_heap (snd pageRead).
Proof. unfold pageHeap. reflexivity. Qed.
Definition oneF : word textF := @WFloat textF (false, bs "1").
Definition oneG : gval textF := @GFloat textF (false, bs "1").
(** the inner array is made twice, in cell 4 with room for one more and then in cell 7; the second member "a" replaces it *)
Example C55_read_ex : fst (fst pageRead) = Ok (WMap 2) /\
  pageHeap = [CMap [(bs "k", WBool true)]; CArr [WMap 0; WNil];
              CMap [(bs "a", WSlice 10 1); (bs "c", WMap 11)]; CArr []; CArr [oneF; WMap 5]; CMap [(bs "b", WSlice 6 0)]; CArr [];
              CArr [oneF; WMap 5; WBool true; WNil; WNil; WNil]; CArr []; CArr []; CArr [WSlice 9 0; WNil]; CMap []] /\
  fst (Read textF (small page)) = Ok (GMap [(bs "a", GSlice [GSlice []]); (bs "c", GMap [])]).
Proof. vm_compute. repeat split. Qed.
Definition pageG : gval textF := GMap [(bs "a", GSlice [GSlice []]); (bs "c", GMap [])].
Lemma page_holds : holds pageHeap ([2; 10; 9; 11]) (WMap 2) pageG.
Proof.
  destruct C55_read_ex as (_ & -> & _).
  change [2; 10; 9; 11] with (2 :: [10; 9] ++ [11] ++ []). eapply ho_map; [reflexivity|].
  constructor; [|constructor; [|constructor]].
  - change [10; 9] with (10 :: [9] ++ []). eapply ho_slice; [reflexivity|cbn; lia|]. cbn [firstn]. constructor; [|constructor].
    eapply ho_slice; [reflexivity|cbn; lia|constructor].
  - eapply ho_map; [reflexivity|constructor].
Qed.
Lemma page_apart : apart pageHeap older (WMap 2) pageG.
Proof.
  exists [2; 10; 9; 11]. split; [exact page_holds|]. split.
  - repeat (constructor; [cbn; lia|]). constructor.
  - destruct C55_read_ex as (_ & -> & _). repeat (constructor; [cbn; lia|]). constructor.
Qed.
(** somebody reads twice with the node stack that the call left behind, and writes to the cell of the other map *)
Definition busy : list (event textF) :=
  [ERead (small "[[1,2],[3]]") (me_ns (snd pageRead)); EWrite 0 (CMap []); ENew (CArr []); ERead (small "{""z"":[1") (me_ns (snd pageRead))].
Example C55_lasting_ex : holds (after textF grow1 busy pageHeap) [2; 10; 9; 11] (WMap 2) pageG /\
  length (after textF grow1 busy pageHeap) > length pageHeap /\ nth_error (after textF grow1 busy pageHeap) 0 = Some (CMap []).
Proof.
  split; [|vm_compute; split; [lia|reflexivity]]. apply C55_lasting; [exact page_holds| |].
  - intros a Ha. cbn in Ha. destruct C55_read_ex as (_ & -> & _). cbn. lia.
  - intros a c Ha. unfold busy in Ha. cbn [In] in Ha. destruct Ha as [E|[E|[E|[E|[]]]]]; try discriminate. injection E as <- <-. cbn. lia.
Qed.
Example C55_results_ex : exists w2 it3 st3 fs fs2,
  hRead textF grow1 (mkMem (after textF grow1 busy pageHeap) (me_ns (snd pageRead))) (small "[[],[{}]]") = (Ok w2, it3, st3) /\
  NoDup (fs ++ fs2) /\ holds (me_heap st3) fs (WMap 2) pageG /\ holds (me_heap st3) fs2 w2 (GSlice [GSlice []; GSlice [GMap []]]).
Proof.
  destruct (hRead textF grow1 (mkMem (after textF grow1 busy pageHeap) (me_ns (snd pageRead))) (small "[[],[{}]]")) as [[r it3] st3] eqn:E.
  assert (R : r = Ok (WSlice 24 2)).
  { replace r with (fst (fst (hRead textF grow1 (mkMem (after textF grow1 busy pageHeap) (me_ns (snd pageRead))) (small "[[],[{}]]")))) by (rewrite E; reflexivity).
    clear E. vm_compute. reflexivity. }
  subst r. exists (WSlice 24 2), it3, st3.

  assert (A := C55_read textF grow1 (after textF grow1 busy pageHeap) (me_ns (snd pageRead)) (small "[[],[{}]]")). rewrite E in A.
  destruct A as (_ & (t & K) & A).
  replace (fst (Read textF (small "[[],[{}]]"))) with (Ok (A := gval textF) (GSlice [GSlice []; GSlice [GMap []]])) in A by (vm_compute; reflexivity).
  destruct A as (w0 & E0 & fs2 & A1 & A2 & A3). injection E0 as <-. exists [2; 10; 9; 11], fs2. split; [reflexivity|].
  assert (L : length (after textF grow1 busy pageHeap) = 22) by (vm_compute; reflexivity).
  split; [|split; [|exact A1]].
  - apply NoDup_app. split; [repeat (constructor; [cbn; lia|]); constructor|]. split; [exact A2|]. intros x X Y.
    rewrite Forall_forall in A3. apply A3 in Y. cbn in X. lia.
  - eapply holds_frame; [apply C55_lasting_ex|]. intros a Ha. rewrite K. apply nth_error_app1. cbn in Ha. lia.
Qed.
Example C55_parts_ex : exists fi fj, holds pageHeap fi (WSlice 10 1) (GSlice [GSlice []]) /\ holds pageHeap fj (WMap 11) (GMap []) /\
  In 10 fi /\ holds (put_nth pageHeap 10 (CArr [])) fj (WMap 11) (GMap []).
Proof.
  assert (E0 : nth_error (parts textF pageHeap (WMap 2)) 0 = Some (WSlice 10 1)) by (vm_compute; reflexivity).
  assert (E1 : nth_error (parts textF pageHeap (WMap 2)) 1 = Some (WMap 11)) by (vm_compute; reflexivity).
  destruct (C55_parts textF pageHeap older (WMap 2) pageG 0 1 _ _ page_apart ltac:(lia) E0 E1)
    as (gi & gj & fi & fj & A1 & A2 & A3 & A4 & A5 & A6).
  cbn in A1, A2. injection A1 as <-. injection A2 as <-. exists fi, fj.
  assert (I : In 10 fi) by (inversion A3; subst; left; reflexivity). split; [exact A3|]. split; [exact A4|]. split; [exact I|]. apply A5, I.
Qed.
Lemma triple {A B C} (r : A * B * C) a : fst (fst r) = a -> r = (a, snd (fst r), snd r).
Proof. destruct r as [[x y] z]. cbn. intros ->. reflexivity. Qed.
(** The pool does not forget: after the call the entries of the node stack still refer to the cells of the result, which
    therefore stay alive as long as nobody overwrites them (node.go:96-99 cuts the length only). *)
Theorem C55_forget_refuted : exists h ns it w it' st' fs g a x,
  hRead textF grow1 (mkMem h ns) it = (Ok w, it', st') /\ ns_len (me_ns st') = 0 /\ holds (me_heap st') fs w g /\ In a fs /\
  In x (ns_slots (me_ns st')) /\ sl_m x = Some a.
Proof.
  exists older, stale, (small page), (WMap 2), (snd (fst pageRead)), (snd pageRead), [2; 10; 9; 11], pageG, 2, (mkSlot (Some 2) None []).
  split; [|split; [vm_compute; reflexivity|split; [rewrite <- pageHeap_eq; exact page_holds|split; [left; reflexivity|split; [|reflexivity]]]]].
  - rewrite pageRead_eq. exact (triple pageRead (Ok (WMap 2)) (proj1 C55_read_ex)).
  - vm_compute. left; reflexivity.
Qed.

Print Assumptions C55_read.
Print Assumptions C55_lasting.
Print Assumptions C55_results.
Print Assumptions C55_parts.
Print Assumptions C55_forget_refuted.
