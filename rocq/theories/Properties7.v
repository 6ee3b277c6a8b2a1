(** C30: the description of struct types. *)
From Coq Require Import String ZArith List Bool Lia Arith Permutation Sorted.
From Verif Require Import Base ModelRead ModelTag ModelStruct Spec SpecStream SpecFold TagFacts SpecStruct DescFacts DescSearch.
Import ListNotations.
Local Open Scope Z_scope.

Section C30.
Variable R : nat -> rtyp.
Variables isLetter isDigit : Z -> bool.
Variable onlyTaggedField : bool.
Variable sort : (dfield -> dfield -> bool) -> list dfield -> list dfield.
Hypothesis sort_ok : sorts sort.
Hypothesis tag_bytes : forall t sf tag, In sf (rt_fields (R t)) -> sf_tag sf = Some tag -> is_bytes tag.
Notation route := (route R isLetter isDigit onlyTaggedField).
Notation is_candidate := (is_candidate R isLetter isDigit onlyTaggedField).
Notation selected := (selected R isLetter isDigit onlyTaggedField).
Notation considered := (considered R isLetter isDigit onlyTaggedField).
Notation twin := (twin R isLetter isDigit onlyTaggedField).
Notation embeds := (embeds R isLetter isDigit onlyTaggedField).
Notation describeStruct := (describeStruct R isLetter isDigit onlyTaggedField sort).

Lemma wins_perm l l' fd : Permutation l l' -> (wins l fd <-> wins l' fd).
Proof.
  intros P. split; intros (rest & P' & H); exists rest; split; auto; [now rewrite <- P|now rewrite P].
Qed.
Lemma described fuel st l : describeStruct fuel st = Some l -> exists seen,
  search_ok R isLetter isDigit onlyTaggedField st seen /\
  (forall fd, In fd l <-> wins (found R isLetter isDigit onlyTaggedField seen) fd) /\ NoDup (map d_name l) /\ StronglySorted (le_of byIndex) l.
Proof.
  unfold ModelStruct.describeStruct. destruct (levels _ _ _ _ fuel _ _ _ _) as [fields|] eqn:E; [|discriminate]. intros [= <-].
  destruct (search_spec R isLetter isDigit onlyTaggedField tag_bytes st fuel fields E) as (seen & S & ->). exists seen. split; [auto|].
  set (L := found _ _ _ _ seen) in *. pose proof (so_perm _ sort_ok byName L) as P. pose proof (so_sorted _ sort_ok byName L byName_weak) as Sn.
  set (D := dominants _ _). split; [|split].
  - intros fd. rewrite (wins_perm _ _ fd P), <- (dominants_wins (length (sort byName L)) (sort byName L) fd (le_n _) Sn). fold D.
    split; apply Permutation_in; [symmetry|]; apply (so_perm _ sort_ok).
  - eapply Permutation_NoDup; [apply Permutation_map, (so_perm _ sort_ok)|]. now apply dominants_names.
  - apply (so_sorted _ sort_ok), byIndex_weak.
Qed.
Lemma wins_in l fd : wins l fd -> In fd l.
Proof. intros (rest & P & _). eapply Permutation_in; [symmetry; exact P|simpl; auto]. Qed.
Lemma wins_others A B fd m : wins (A ++ (if m : bool then [fd; fd] else [fd]) ++ B) fd ->
  m = false /\ forall g, In g (A ++ B) -> d_name g = d_name fd -> beats fd g.
Proof.
  intros (rest & P & H). assert (P2 : Permutation (A ++ (if m then [fd] else []) ++ B) rest).
  { apply Permutation_cons_inv with fd. rewrite <- P. destruct m; simpl; rewrite Permutation_middle; auto. }
  assert (m = false) as ->.
  { destruct m; auto. exfalso. apply (beats_irr fd), H; auto. eapply Permutation_in; [exact P2|]. apply in_or_app. simpl. auto. }
  split; auto. intros g I. apply H. eapply Permutation_in; [exact P2|]. auto.
Qed.

Lemma index_lt_unsnoc a : forall q q', length q = length q' -> index_lt (q ++ [a]) (q' ++ [a]) -> index_lt q q'.
Proof.
  induction q as [|x q IH]; intros [|y q'] L H; try discriminate L; simpl in *.
  - now apply index_lt_irr in H.
  - inversion H as [|? ? ? ? X|? ? ? X]; subst; [now apply il_less|apply il_same; auto].
Qed.

(** ** The result as a set *)
Theorem C30_described fuel st l fd : describeStruct fuel st = Some l ->
  (In fd l <-> is_candidate st fd /\
               forall g, is_candidate st g -> d_name g = d_name fd -> g = fd \/ beats fd g \/ twin st fd g).
Proof.
  intros E. destruct (described _ _ _ E) as (seen & S & W & _ & _). rewrite W. clear E W l.
  set (L := found _ _ _ _ seen) in *. split.
  - intros Wf. pose proof (wins_in _ _ Wf) as If. split; [now apply (found_candidate R isLetter isDigit onlyTaggedField tag_bytes st seen)|].
    intros g Cg Ng. apply in_found in If. destruct If as (f & m & Im & Hf).
    destruct (found_once R isLetter isDigit onlyTaggedField tag_bytes st seen f m fd S Im Hf) as (A & B & EL & NA & NB).
    unfold L in Wf. rewrite EL in Wf. apply wins_others in Wf. destruct Wf as [-> Wf].
    destruct (candidate_found R isLetter isDigit onlyTaggedField tag_bytes st seen g S Cg) as (f' & m' & p & i & offs & sf & n & o & Im' & Nth & D & Hr & -> & Hg').
    set (g' := record R f' i sf n o) in *. set (g := record R (mkD (d_typ f') p offs [] false false false O) i sf n o) in *.
    assert (Sh : (depth g' <= depth g)%nat).
    { unfold depth, g, g'. simpl. rewrite !app_length. simpl. destruct (sr_item _ _ _ _ _ _ S f' m' Im') as (_ & Sh & _). specialize (Sh p offs Hr). lia. }
    assert (IL : In g' L) by (apply in_found; eauto). unfold L in IL. rewrite EL in IL.
    assert (K : g' = fd \/ In g' (A ++ B)) by (rewrite !in_app_iff in *; simpl in IL; intuition).
    destruct K as [K|K].
    + (* the same field of the same struct *)
      assert (f' = f) as ->.
      { apply (item_eq R isLetter isDigit onlyTaggedField tag_bytes st); [apply (sr_item _ _ _ _ _ _ S f' m' Im')|apply (sr_item _ _ _ _ _ _ S f false Im)|].
        apply in_records in Hf. destruct Hf as (j & sf' & n' & o' & _ & _ & Ef). rewrite Ef in K. apply (f_equal d_index) in K. simpl in K.
        now apply app_inj_tail in K. }
      destruct (Nat.eq_dec (depth g) (depth fd)) as [Ed|Nd]; [|right; left; left; subst fd; lia].
      assert (Lp : length p = length (d_index f)).
      { rewrite <- K in Ed. unfold depth, g, g' in Ed. simpl in Ed. rewrite !app_length in Ed. simpl in Ed. lia. }
      destruct (sr_item _ _ _ _ _ _ S f false Im) as ([Rf If] & _ & Fst). specialize (Fst p offs Hr Lp).
      destruct Fst as [<-|Lt].
      * left. rewrite <- K. unfold g, g'. destruct (route_fun R isLetter isDigit onlyTaggedField tag_bytes st _ _ _ _ _ Hr Rf) as [_ ->]. now rewrite If at 4.
      * right; right. destruct (sr_false _ _ _ _ _ _ S f Im p offs Hr Lp) as [Eq|(q & q' & u & a & o1 & o2 & E1 & E2 & R1 & R2)].
        { rewrite Eq in Lt. now apply index_lt_irr in Lt. }
        exists q, q', u, o1, o2, a, i. split; [auto|]. split; [auto|]. split.
        { rewrite E1, E2, !app_length in Lp. simpl in Lp. lia. }
        split.
        { rewrite E1, E2 in Lt. apply index_lt_unsnoc in Lt; auto. rewrite E1, E2, !app_length in Lp. simpl in Lp. lia. }
        split; [rewrite <- K; unfold g'; simpl; now rewrite E1, <- app_assoc|unfold g; simpl; now rewrite E2, <- app_assoc].
    + right; left. assert (B1 : beats fd g') by (apply Wf; auto). destruct B1 as [B1|(B1 & B2 & B3)]; [left; lia|].
      destruct (Nat.eq_dec (depth g) (depth g')) as [Ed|]; [right|left; lia]. rewrite Ed. auto.
  - intros (C & H).
    destruct (candidate_found R isLetter isDigit onlyTaggedField tag_bytes st seen fd S C) as (f & m & p & i & offs & sf & n & o & Im & Nth & D & Hr & Efd & Hg).
    set (g := record R f i sf n o) in *.
    destruct (sr_item _ _ _ _ _ _ S f m Im) as ([Rf If] & Sh & Fst).
    assert (Ng : d_name g = d_name fd) by (rewrite Efd; reflexivity).
    assert (Sd : (depth g <= depth fd)%nat).
    { rewrite Efd. unfold depth, g. simpl. rewrite !app_length. simpl. specialize (Sh p offs Hr). lia. }
    assert (Eg : g = fd).
    { destruct (H g) as [K|[K|K]]; auto.
      - apply (found_candidate R isLetter isDigit onlyTaggedField tag_bytes st seen); auto. apply in_found. eauto.
      - exfalso. destruct K as [K|(_ & K1 & K2)]; [lia|]. rewrite Efd in K1. unfold g in K2. simpl in K1, K2. congruence.
      - exfalso. destruct K as (q & q' & u & o1 & o2 & a & j & R1 & R2 & Lq & Lt & E1 & E2).
        rewrite Efd in E1. unfold g in E2. simpl in E1, E2. change [a; j] with ([a] ++ [j]) in E1, E2. rewrite app_assoc in E1, E2.
        apply app_inj_tail in E1, E2. destruct E1 as [E1 _], E2 as [E2 _].
        assert (Lp : length p = length (d_index f)) by (rewrite E1, E2, !app_length; simpl; lia).
        assert (Lt' : index_lt p (d_index f)) by (rewrite E1, E2; apply index_lt_snoc; auto).
        destruct (Fst p offs Hr Lp) as [K|K]; [rewrite K in Lt'|apply (index_lt_trans _ _ _ Lt') in K; revert K; intros Lt2]; eauto using index_lt_irr.
        + now apply index_lt_irr in Lt'.
        + now apply index_lt_irr in Lt2. }
    assert (m = false) as ->.
    { destruct m; auto. exfalso. destruct (sr_true _ _ _ _ _ _ S f Im) as (p2 & o2 & R2 & L2 & Ne).
      set (g2 := record R (mkD (d_typ f) p2 o2 [] false false false O) i sf n o).
      assert (C2 : is_candidate st g2).
      { exists (d_typ f), i. apply (record_candidate R isLetter isDigit onlyTaggedField tag_bytes st (mkD (d_typ f) p2 o2 [] false false false O)); auto. now split. }
      assert (Ei : d_index fd = d_index f ++ [i]) by (rewrite <- Eg; reflexivity).
      destruct (H g2 C2) as [K|[K|K]]; [now rewrite <- Ng| | |].
      - apply Ne. left. apply (f_equal d_index) in K. rewrite Ei in K. unfold g2 in K. simpl in K. now apply app_inj_tail in K.
      - rewrite <- Eg in K. destruct K as [K|(_ & K1 & K2)]; [|unfold g, g2 in *; simpl in *; congruence].
        unfold depth, g, g2 in K. simpl in K. rewrite !app_length in K. lia.
      - destruct K as (q & q' & u & o1 & o2' & a & j & R1 & R2' & Lq & Lt & E1 & E2). apply Ne. right.
        rewrite Ei in E1. unfold g2 in E2. simpl in E2. change [a; j] with ([a] ++ [j]) in E1, E2. rewrite app_assoc in E1, E2.
        apply app_inj_tail in E1, E2. destruct E1 as [E1 _], E2 as [E2 _]. exists q, q', u, a, o1, o2'. auto. }
    destruct (found_once R isLetter isDigit onlyTaggedField tag_bytes st seen f false g S Im Hg) as (A & B & EL & NA & NB).
    unfold L. rewrite EL, Eg in *. exists (A ++ B). split; [simpl; symmetry; apply Permutation_middle|].
    intros x Ix Nx. assert (Cx : is_candidate st x).
    { apply (found_candidate R isLetter isDigit onlyTaggedField tag_bytes st seen); auto. rewrite EL. apply in_app_or in Ix. rewrite !in_app_iff. tauto. }
    destruct (H x Cx Nx) as [K|[K|K]]; auto.
    + exfalso. subst x. apply in_app_or in Ix. tauto.
    + (* the found structs have the first routes *)
      exfalso. assert (Ix' : In x L) by (unfold L; rewrite EL; apply in_app_or in Ix; rewrite !in_app_iff; tauto).
      apply in_found in Ix'. destruct Ix' as (f2 & m2 & Im2 & Hx). apply in_records in Hx. destruct Hx as (j2 & sf2 & n2 & o2 & _ & _ & Ex).
      destruct K as (q & q' & u & o1 & o1' & a & j & R1 & R2 & Lq & Lt & E1 & E2).
      rewrite <- Eg in E1. rewrite Ex in E2. unfold g in E1. simpl in E1, E2. change [a; j] with ([a] ++ [j]) in E1, E2. rewrite app_assoc in E1, E2.
      apply app_inj_tail in E1, E2. destruct E1 as [E1 _], E2 as [E2 _].
      destruct (sr_item _ _ _ _ _ _ S f2 m2 Im2) as ([Rf2 If2] & Sh2 & Fst2).
      assert (Et : d_typ f2 = d_typ f).
      { rewrite E2 in Rf2. rewrite E1 in Rf. apply route_snoc in Rf, Rf2; auto.
        destruct Rf as (t1 & w1 & s1 & V1 & V2 & V3 & _), Rf2 as (t2 & w2 & s2 & V4 & V5 & V6 & _).
        destruct (route_fun R isLetter isDigit onlyTaggedField tag_bytes st _ _ _ _ _ V1 R1) as [-> _].
        destruct (route_fun R isLetter isDigit onlyTaggedField tag_bytes st _ _ _ _ _ V4 R2) as [-> _]. rewrite V2 in V5. injection V5 as <-.
        apply (embeds_iff R isLetter isDigit onlyTaggedField tag_bytes u) in V3, V6; eauto using nth_error_In. destruct V3 as [_ ->], V6 as [_ ->]. auto. }
      assert (Rp : route st (d_index f) (d_typ f2) (d_offsets f)) by now rewrite Et.
      specialize (Fst2 _ _ Rp). rewrite E1, E2 in Fst2. destruct Fst2 as [K|K]; [rewrite !app_length; simpl; lia| |].
      * apply app_inj_tail in K. destruct K as [K _]. rewrite K in Lt. now apply index_lt_irr in Lt.
      * apply (index_lt_snoc _ _ a a) in Lt; auto. apply (index_lt_trans _ _ _ Lt) in K. now apply index_lt_irr in K.
Qed.

(** ** Names and order *)
Theorem C30_names fuel st l : describeStruct fuel st = Some l -> NoDup (map d_name l).
Proof. intros E. now destruct (described _ _ _ E) as (seen & _ & _ & N & _). Qed.
Theorem C30_order fuel st l : describeStruct fuel st = Some l -> StronglySorted (fun x y => index_lt (d_index x) (d_index y)) l.
Proof.
  intros E. assert (C : forall fd, In fd l -> is_candidate st fd) by (intros fd I; now apply (C30_described fuel st l fd E)).
  destruct (described _ _ _ E) as (seen & S & _ & N & So). clear E. induction So as [|x l So IH F]; constructor.
  - inversion N; subst. apply IH; auto. intros fd I. apply C. simpl. auto.
  - apply Forall_forall. intros y Iy. rewrite Forall_forall in F. specialize (F y Iy). unfold le_of, byIndex in F.
    destruct (to_trich _ index_total (d_index x) (d_index y)) as [[H _]|[H|[_ H]]]; [now apply indexLess_iff| |congruence]. exfalso.
    (* an index sequence determines the field *)
    assert (x = y) as ->.
    { destruct (C x (or_introl eq_refl)) as (t & i & Cx), (C y (or_intror Iy)) as (t' & i' & Cy).
      apply (candidate_inv R isLetter isDigit onlyTaggedField tag_bytes) in Cx, Cy.
      destruct Cx as (p & offs & sf & n & o & H1 & H2 & H3 & ->), Cy as (p' & offs' & sf' & n' & o' & H1' & H2' & H3' & ->).
      simpl in H. apply app_inj_tail in H. destruct H as [<- <-].
      destruct (route_fun R isLetter isDigit onlyTaggedField tag_bytes st _ _ _ _ _ H1 H1') as [<- <-].
      rewrite H2 in H2'. injection H2' as <-. rewrite H3 in H3'. injection H3' as <- <-. reflexivity. }
    inversion N as [|? ? N1 _]; subst. apply N1. now apply in_map.
Qed.

(** ** The rules of encoding/json *)
Lemma selected_beats st fd : (is_candidate st fd /\ forall g, is_candidate st g -> d_name g = d_name fd -> g = fd \/ beats fd g) ->
  selected st fd.
Proof.
  intros [C H]. split.
  - split; [auto|]. split.
    + intros g Cg Ng. destruct (H g Cg Ng) as [->|[K|(K & _)]]; lia.
    + intros g Cg Ng Eg Tg. destruct (H g Cg Ng) as [->|[K|(_ & K & _)]]; auto. lia.
  - intros g (Cg & H1 & H2) Ng. destruct (H g Cg Ng) as [->|[K|(K1 & K2 & K3)]]; auto; exfalso.
    + specialize (H1 fd C (eq_sym Ng)). lia.
    + specialize (H2 fd C (eq_sym Ng) K1 K2). congruence.
Qed.
Theorem C30_complete fuel st l fd : describeStruct fuel st = Some l -> selected st fd -> In fd l.
Proof.
  intros E [(C & H1 & H2) U]. apply (C30_described fuel st l fd E). split; auto. intros g Cg Ng.
  specialize (H1 g Cg Ng) as Hd. destruct (Nat.eq_dec (depth g) (depth fd)) as [Ed|]; [|right; left; left; lia].
  assert (Tx : d_tagged g = true -> d_tagged fd = true) by (apply (H2 g); auto).
  assert (K : d_tagged g = d_tagged fd -> considered st g).
  { intros Et. split; [auto|]. split; [intros x Cx Nx; rewrite Ed; apply H1; congruence|]. intros x Cx Nx Ex T. rewrite Et. apply (H2 x); congruence. }
  destruct (bool_dec (d_tagged g) (d_tagged fd)) as [Et|Et]; [left; apply U; auto|right; left; right].
  destruct (d_tagged g), (d_tagged fd); try contradiction; auto. specialize (Tx eq_refl). discriminate.
Qed.
(** [diamond st]: some struct that embeds a struct is itself embedded at two places, and nowhere less deep *)
Definition diamond (st : nat) : Prop :=
  exists q q' u o o' i sf t, route st q u o /\ route st q' u o' /\ length q = length q' /\ q <> q' /\
    (forall p o'', route st p u o'' -> (length q <= length p)%nat) /\
    nth_error (rt_fields (R u)) i = Some sf /\ embeds sf t.
Theorem C30_exact fuel st l fd : describeStruct fuel st = Some l -> ~ diamond st -> (In fd l <-> selected st fd).
Proof.
  intros E ND. split; [|now apply (C30_complete fuel)]. intros I. apply (C30_described fuel st l fd E) in I. destruct I as [C H].
  apply selected_beats. split; auto. intros g Cg Ng. destruct (H g Cg Ng) as [K|[K|K]]; auto. exfalso. apply ND.
  destruct K as (q & q' & u & o & o' & a & i & R1 & R2 & L & Lt & E1 & E2).
  destruct C as (t & j & C). apply (candidate_inv R isLetter isDigit onlyTaggedField tag_bytes) in C.
  destruct C as (p & offs & sf & n & w & H1 & H2 & H3 & Efd).
  assert (p = q ++ [a] /\ j = i) as [-> ->].
  { rewrite Efd in E1. simpl in E1. change [a; i] with ([a] ++ [i]) in E1. rewrite app_assoc in E1. now apply app_inj_tail in E1. }
  apply (route_snoc R isLetter isDigit onlyTaggedField) in H1. destruct H1 as (u1 & w1 & sf1 & V1 & V2 & V3 & _).
  destruct (route_fun R isLetter isDigit onlyTaggedField tag_bytes st _ _ _ _ _ V1 R1) as [-> _].
  exists q, q', u, o, o', a, sf1, t. split; [auto|]. split; [auto|]. split; [auto|]. split; [intros ->; now apply index_lt_irr in Lt|].
  split; [|auto]. intros p o'' Rp. destruct (Nat.le_gt_cases (length q) (length p)) as [|Less]; auto. exfalso.
  assert (Rt : route st (p ++ [a]) t (extend R o'' sf1)) by (apply route_snoc; eauto 10).
  set (g2 := record R (mkD t (p ++ [a]) (extend R o'' sf1) [] false false false O) i sf n w).
  assert (C2 : is_candidate st g2).
  { exists t, i. apply (record_candidate R isLetter isDigit onlyTaggedField tag_bytes st (mkD t (p ++ [a]) (extend R o'' sf1) [] false false false O)); auto. now split. }
  assert (D2 : (depth g2 < depth fd)%nat) by (rewrite Efd; unfold depth, g2; simpl; rewrite !app_length; simpl; lia).
  destruct (H g2 C2) as [K|[[K|(K & _)]|K]]; try lia; [now rewrite Efd|now rewrite K in D2; apply Nat.lt_irrefl in D2|].
  destruct K as (x & x' & v & y & y' & a' & i' & _ & _ & Lx & _ & E3 & E4). unfold depth in D2. rewrite E3, E4, !app_length in D2. simpl in D2. lia.
Qed.

(** ** Termination *)
Theorem C30_terminates U st : (forall p t o, route st p t o -> In t U) -> describeStruct (S (length U)) st <> None.
Proof.
  intros HU. unfold ModelStruct.describeStruct. pose proof (search_ends R isLetter isDigit onlyTaggedField tag_bytes st U HU) as H. unfold root in H.
  destruct (levels _ _ _ _ _ _ _ _ _); [discriminate|contradiction].
Qed.
End C30.

(** ** Examples *)
(** a sort function *)
Fixpoint insertInto {A} (less : A -> A -> bool) (x : A) (l : list A) : list A :=
  match l with
  | [] => [x]
  | y :: r => if less y x then y :: insertInto less x r else x :: l
  end.
Definition insertSort {A} (less : A -> A -> bool) (l : list A) : list A := fold_right (insertInto less) [] l.
Lemma insertInto_perm {A} less (x : A) l : Permutation (x :: l) (insertInto less x l).
Proof. induction l as [|y l IH]; simpl; auto. destruct (less y x); auto. rewrite perm_swap. now constructor. Qed.
Theorem insertSort_sorts {A} : sorts (@insertSort A).
Proof.
  constructor.
  - intros less l. induction l as [|x l IH]; simpl; auto. rewrite <- insertInto_perm. now constructor.
  - intros less l0 [W1 W2]. induction l0 as [|x l0 IH0]; simpl; [constructor|].
    induction IH0 as [|y l S IH F]; simpl; [repeat constructor|].
    destruct (less y x) eqn:E.
    + constructor; auto. rewrite Forall_forall in *. intros z I. eapply Permutation_in in I; [|symmetry; apply insertInto_perm].
      destruct I as [<-|I]; auto. unfold le_of. auto.
    + constructor; [constructor; auto|]. constructor; auto. rewrite Forall_forall in *. intros z I. apply (W2 x y z); auto.
Qed.

Definition embedded (n : string) (t : nat) (o : Z) : sfield := mkSfield (bs n) true true t None o.
Definition plainF (n : string) (t : nat) (o : Z) : sfield := mkSfield (bs n) true false t None o.
Definition taggedF (n tag : string) (t : nat) (o : Z) : sfield := mkSfield (bs n) true false t (Some (bs tag)) o.
Definition structT (l : list sfield) : rtyp := mkRtyp KiStruct true O l.
(** type S struct { A; B }, A struct { T }, B struct { T }, T struct { U; Y int }, U struct { X int };
    type P struct { ID int; Q; *E; hidden int; Skip int `json:"-"` },
    Q struct { ID int; Name string `json:"name,omitempty"`; *P }, E struct { Name string; Tag string `json:"name"`; Num int `json:",string"` };
    numbers: S 0, A 1, B 2, T 3, U 4, int 5, string 6, P 10, Q 11, E 12, *P 13, *E 14 *)
Definition demoR (t : nat) : rtyp :=
  match t with
  | 0 => structT [embedded "A" 1 0; embedded "B" 2 16]
  | 1 | 2 => structT [embedded "T" 3 0]
  | 3 => structT [embedded "U" 4 0; plainF "Y" 5 8]
  | 4 => structT [plainF "X" 5 0]
  | 5 | 6 => mkRtyp KiBasic true O []
  | 10 => structT [plainF "ID" 5 0; embedded "Q" 11 8; embedded "E" 14 40; mkSfield (bs "hidden") false false 5 None 48; taggedF "Skip" "-" 5 56]
  | 11 => structT [plainF "ID" 5 0; taggedF "Name" "name,omitempty" 6 8; embedded "P" 13 24]
  | 12 => structT [plainF "Name" 6 0; taggedF "Tag" "name" 6 16; taggedF "Num" ",string" 5 32]
  | 13 => mkRtyp KiPtr false 10%nat []
  | 14 => mkRtyp KiPtr false 12%nat []
  | _ => mkRtyp KiOther true O []
  end%nat.
Definition asciiLetter (c : Z) : bool := (65 <=? c) && (c <=? 90) || (97 <=? c) && (c <=? 122).
Definition asciiDigit (c : Z) : bool := (48 <=? c) && (c <=? 57).
Definition bytesb (l : bytes) : bool := forallb (fun c => (0 <=? c) && (c <? 256)) l.
Lemma demo_tags t sf tag : In sf (rt_fields (demoR t)) -> sf_tag sf = Some tag -> is_bytes tag.
Proof.
  intros I E. assert (B : bytesb tag = true).
  { do 15 (destruct t as [|t]; [simpl in I; repeat (destruct I as [<-|I]; [simpl in E; first [discriminate E|injection E as <-; vm_compute; reflexivity]|]); destruct I|]).
    destruct I. }
  apply Forall_forall. intros c Ic. unfold bytesb in B. rewrite forallb_forall in B. specialize (B c Ic). apply andb_true_iff in B.
  destruct B as [B1 B2]. apply Z.leb_le in B1. apply Z.ltb_lt in B2. now split.
Qed.
Notation demoDescribe := (describeStruct demoR asciiLetter asciiDigit false insertSort).

Definition demoResult : list dfield :=
  [mkD 5 [0]%nat [(0, None)] (bs "ID") false false false 5; mkD 6 [2; 0]%nat [(40, None); (0, Some 12%nat)] (bs "Name") false false false 6;
   mkD 5 [2; 2]%nat [(40, None); (32, Some 12%nat)] (bs "Num") false true false 5].
Example C30_described_ex : demoDescribe 6 10 = Some demoResult.
Proof. vm_compute. reflexivity. Qed.
Notation demoRoute := (route demoR asciiLetter asciiDigit false).
Notation demoSelected := (selected demoR asciiLetter asciiDigit false).
Lemma demo_embeds t i sf u : nth_error (rt_fields (demoR t)) i = Some sf -> embeds demoR asciiLetter asciiDigit false sf u ->
  embedsb demoR asciiLetter asciiDigit false sf = true /\ u = fieldType demoR sf.
Proof. intros N E. apply (embeds_iff demoR asciiLetter asciiDigit false demo_tags t sf u) in E; auto. eauto using nth_error_In. Qed.
Lemma demo_step p i u o : demoRoute 10%nat (p ++ [i]) u o -> forall t o', demoRoute 10%nat p t o' ->
  (t = 10%nat -> (i = 1%nat /\ u = 11%nat) \/ (i = 2%nat /\ u = 12%nat)) /\ (t = 11%nat -> i = 2%nat /\ u = 10%nat) /\ t <> 12%nat.
Proof.
  intros H t o' H'. apply route_snoc in H. destruct H as (t1 & o1 & sf & H1 & H2 & H3 & _).
  destruct (route_fun demoR asciiLetter asciiDigit false demo_tags _ _ _ _ _ _ H' H1) as [<- _].
  destruct (demo_embeds _ _ _ _ H2 H3) as [E1 E2].
  split; [intros ->|split; intros ->].
  - do 5 (destruct i as [|i]; [injection H2 as <-; first [discriminate E1|rewrite E2; vm_compute; auto]|]). destruct i; discriminate.
  - do 3 (destruct i as [|i]; [injection H2 as <-; first [discriminate E1|rewrite E2; vm_compute; auto]|]). destruct i; discriminate.
  - do 3 (destruct i as [|i]; [injection H2 as <-; first [discriminate E1|rewrite E2; vm_compute; auto]|]). destruct i; discriminate.
Qed.
Lemma demo_types p : forall t o, demoRoute 10%nat p t o -> In t [10; 11; 12]%nat.
Proof.
  induction p as [|i p IH] using rev_ind; intros t o H.
  - apply route_nil in H. destruct H as [-> _]. simpl. auto.
  - destruct (route_prefix _ _ _ _ _ _ _ _ _ H) as (u & o' & H'). destruct (demo_step p i t o H u o' H') as (H1 & H2 & H3).
    specialize (IH u o' H'). simpl in *. destruct IH as [<-|[<-|[<-|[]]]]; [specialize (H1 eq_refl)|specialize (H2 eq_refl)|contradiction]; intuition.
Qed.
Lemma demo_route p i t sf : forall u o, demoRoute 10%nat p t o -> nth_error (rt_fields (demoR t)) i = Some sf ->
  embedsb demoR asciiLetter asciiDigit false sf = true -> u = fieldType demoR sf -> demoRoute 10%nat (p ++ [i]) u (extend demoR o sf).
Proof.
  intros u o H N E ->. apply route_snoc. exists t, o, sf. split; [auto|]. split; [auto|]. split; [|auto].
  apply (embeds_iff demoR asciiLetter asciiDigit false demo_tags t sf); eauto using nth_error_In.
Qed.
Example C30_terminates_ex : (forall p t o, demoRoute 10%nat p t o -> In t [10; 11; 12]%nat) /\ demoDescribe 4 10 <> None.
Proof.
  split; [exact demo_types|]. apply (C30_terminates demoR asciiLetter asciiDigit false insertSort demo_tags [10; 11; 12]%nat 10%nat demo_types).
Qed.
Example C30_exact_ex : ~ diamond demoR asciiLetter asciiDigit false 10%nat.
Proof.
  intros (q & q' & u & o & o' & i & sf & t & H1 & H2 & L & Ne & Sh & _).
  assert (R0 : demoRoute 10%nat [] 10%nat [(0, None)]) by constructor.
  assert (R1 : demoRoute 10%nat [1%nat] 11%nat (extend demoR [(0, None)] (embedded "Q" 11 8))) by (apply (demo_route [] 1 10); auto).
  assert (R2 : demoRoute 10%nat [2%nat] 12%nat (extend demoR [(0, None)] (embedded "E" 14 40))) by (apply (demo_route [] 2 10); auto).
  assert (One : forall a v w, demoRoute 10%nat [a] v w -> (a = 1%nat /\ v = 11%nat) \/ (a = 2%nat /\ v = 12%nat)).
  { intros a v w H. now apply (demo_step [] a v w H 10%nat _ R0). }
  pose proof (demo_types _ _ _ H1) as I. simpl in I. destruct I as [<-|[<-|[<-|[]]]].
  - specialize (Sh _ _ R0). simpl in Sh. destruct q, q'; simpl in *; try lia. contradiction.
  - specialize (Sh _ _ R1). simpl in Sh. destruct q as [|a [|? ?]]; simpl in Sh; try lia.
    + apply route_nil in H1. destruct H1. discriminate.
    + destruct q' as [|b [|? ?]]; simpl in L; try lia. apply One in H1, H2. apply Ne. destruct H1 as [[-> _]|[_ X]], H2 as [[-> _]|[_ Y]]; auto; discriminate.
  - specialize (Sh _ _ R2). simpl in Sh. destruct q as [|a [|? ?]]; simpl in Sh; try lia.
    + apply route_nil in H1. destruct H1. discriminate.
    + destruct q' as [|b [|? ?]]; simpl in L; try lia. apply One in H1, H2. apply Ne. destruct H1 as [[_ X]|[-> _]], H2 as [[_ Y]|[-> _]]; auto; discriminate.
Qed.
(** the field "name" of [P] is given by tags of two structs embedded equally deep and therefore left out *)
Example C30_complete_ex : (forall fd, In fd demoResult <-> demoSelected 10%nat fd) /\ ~ In (bs "name") (map d_name demoResult).
Proof.
  split.
  - intros fd. exact (C30_exact demoR asciiLetter asciiDigit false insertSort insertSort_sorts demo_tags 6 10 demoResult fd C30_described_ex C30_exact_ex).
  - simpl. intros I. repeat (destruct I as [I|I]; [discriminate I|]). destruct I.
Qed.

(** ** The finding: ambiguity is lost behind a struct embedded twice *)
Definition hiddenX : dfield := mkD 5 [0; 0; 0; 0]%nat [(0, None)] (bs "X") false false false 5.
Definition otherX : dfield := mkD 5 [1; 0; 0; 0]%nat [(16, None)] (bs "X") false false false 5.
Theorem C30_ambiguous_refuted : exists R st l fd, (forall t sf tag, In sf (rt_fields (R t)) -> sf_tag sf = Some tag -> is_bytes tag) /\
  describeStruct R asciiLetter asciiDigit false insertSort 6 st = Some l /\ In fd l /\ ~ selected R asciiLetter asciiDigit false st fd.
Proof.
  exists demoR, 0%nat, [hiddenX], hiddenX. split; [exact demo_tags|]. split; [vm_compute; reflexivity|]. split; [simpl; auto|].
  assert (Step : forall p t o i sf, demoRoute 0%nat p t o -> nth_error (rt_fields (demoR t)) i = Some sf ->
            embedsb demoR asciiLetter asciiDigit false sf = true -> demoRoute 0%nat (p ++ [i]) (fieldType demoR sf) (extend demoR o sf)).
  { intros p t o i sf H N E. apply route_snoc. exists t, o, sf. split; [auto|]. split; [auto|]. split; [|auto].
    apply (embeds_iff demoR asciiLetter asciiDigit false demo_tags t sf); eauto using nth_error_In. }
  assert (R0 : demoRoute 0%nat [] 0%nat [(0, None)]) by constructor.
  assert (C : forall a x, (x = [(0, None)] /\ a = 0%nat) \/ (x = [(16, None)] /\ a = 1%nat) ->
            is_candidate demoR asciiLetter asciiDigit false 0%nat (mkD 5 [a; 0; 0; 0]%nat x (bs "X") false false false 5)).
  { intros a x Ha. assert (Ru : demoRoute 0%nat [a; 0; 0]%nat 4%nat x).
    { destruct Ha as [[-> ->]|[-> ->]].
      - apply (Step [0; 0]%nat 3%nat [(0, None)] 0%nat (embedded "U" 4 0)); auto. apply (Step [0]%nat 1%nat [(0, None)] 0%nat (embedded "T" 3 0)); auto.
        apply (Step []%nat 0%nat [(0, None)] 0%nat (embedded "A" 1 0)); auto.
      - apply (Step [1; 0]%nat 3%nat [(16, None)] 0%nat (embedded "U" 4 0)); auto. apply (Step [1]%nat 2%nat [(16, None)] 0%nat (embedded "T" 3 0)); auto.
        apply (Step []%nat 0%nat [(0, None)] 1%nat (embedded "B" 2 16)); auto. }
    exists 4%nat, 0%nat.
    pose proof (record_candidate demoR asciiLetter asciiDigit false demo_tags 0%nat (mkD 4 [a; 0; 0]%nat x [] false false false 0) 0 (plainF "X" 5 0) [] []) as H.
    destruct Ha as [[-> ->]|[-> ->]]; apply H; auto; now split. }
  intros [(_ & H1 & H2) U].
  assert (Co : considered demoR asciiLetter asciiDigit false 0%nat otherX) by (split; [apply C; auto|split; [exact H1|exact H2]]).
  specialize (U otherX Co eq_refl). discriminate U.
Qed.

Print Assumptions C30_described.
Print Assumptions C30_names.
Print Assumptions C30_order.
Print Assumptions C30_complete.
Print Assumptions C30_exact.
Print Assumptions C30_terminates.
Print Assumptions C30_ambiguous_refuted.
