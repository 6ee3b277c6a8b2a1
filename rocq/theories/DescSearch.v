(** The breadth-first search of describeStruct over embedded structs. *)
From Coq Require Import String ZArith List Bool Lia Arith Permutation Sorted.
From Verif Require Import Base ModelRead ModelTag ModelStruct Spec SpecStream SpecFold TagFacts SpecStruct DescFacts.
Import ListNotations.
Local Open Scope Z_scope.

Section Search.
Variable R : nat -> rtyp.
Variables isLetter isDigit : Z -> bool.
Variable onlyTaggedField : bool.
Hypothesis tag_bytes : forall t sf tag, In sf (rt_fields (R t)) -> sf_tag sf = Some tag -> is_bytes tag.
Notation tagged := (tagged isLetter isDigit onlyTaggedField).
Notation embeds := (embeds R isLetter isDigit onlyTaggedField).
Notation declares := (declares R isLetter isDigit onlyTaggedField).
Notation tagOf := (tagOf isLetter isDigit onlyTaggedField).
Notation route := (route R isLetter isDigit onlyTaggedField).
Notation candidate := (candidate R isLetter isDigit onlyTaggedField).

(** ** Struct fields *)
Lemma kind_struct t : isStruct R t = true <-> rt_kind (R t) = KiStruct.
Proof. unfold isStruct. destruct (rt_kind (R t)); split; congruence. Qed.
Lemma kind_ptr t : isPtr R t = true <-> rt_kind (R t) = KiPtr.
Proof. unfold isPtr. destruct (rt_kind (R t)); split; congruence. Qed.
Lemma kind_basic t : isBasic R t = true <-> rt_kind (R t) = KiBasic.
Proof. unfold isBasic. destruct (rt_kind (R t)); split; congruence. Qed.
Lemma visible_iff sf : unexported R sf = false <-> visible R sf.
Proof.
  unfold unexported, visible. destruct (sf_exported sf); simpl; [tauto|]. destruct (sf_anonymous sf); simpl.
  - rewrite negb_false_iff, kind_struct. destruct (isPtr R (sf_type sf)) eqn:E.
    + apply kind_ptr in E. split; [intros H; right; split; auto|].
      intros [H|[_ [H|[_ H]]]]; try discriminate; try congruence.
    + split; [auto|]. intros [H|[_ [H|[H _]]]]; auto; try discriminate. apply kind_ptr in H. congruence.
  - split; [discriminate|]. intros [H|[H _]]; discriminate.
Qed.
Lemma base_iff sf u : base R sf u <-> u = fieldType R sf.
Proof.
  unfold fieldType. destruct (rt_named (R (sf_type sf))) eqn:N; simpl.
  - split; [intros [H|H1 H2]; congruence|]. intros ->. constructor. auto.
  - destruct (isPtr R (sf_type sf)) eqn:E.
    + apply kind_ptr in E. split; [intros [H|H1 H2]; auto; exfalso; specialize (H E); congruence|]. intros ->. now constructor.
    + assert (X : rt_kind (R (sf_type sf)) <> KiPtr) by (intros H; apply kind_ptr in H; congruence).
      split; [intros [H|H1 H2]; auto; contradiction|]. intros ->. constructor. contradiction.
Qed.
Definition labelOf (name : bytes) : option bytes := match name with [] => None | _ => Some name end.
Lemma tagOf_iff t sf label opts : In sf (rt_fields (R t)) ->
  (tagged sf label opts <-> exists name, tagOf sf = Some (name, opts) /\ label = labelOf name).
Proof.
  intros I. specialize (tag_bytes t sf). unfold ModelStruct.tagOf. split.
  - intros [H1 H2|tag name o H1 H2 [H3 H4] H5|tag name o H1 H2 [H3 H4] H5]; rewrite H1.
    + exists []. split; auto. destruct H2 as [-> | ->]; simpl; auto. now rewrite andb_false_r.
    + rewrite (bytes_eqb_neq _ _ H2), (parseTag_total _ _ _ H3 H4). specialize (tag_bytes _ I H1).
      assert (B : is_bytes name) by (destruct H4 as [->|[-> _]]; auto; apply Forall_app in tag_bytes; apply tag_bytes).
      rewrite (proj2 (isValidTag_spec isLetter isDigit name B) H5). exists name. split; auto. destruct H5 as [H5 _]. destruct name; auto; contradiction.
    + rewrite (bytes_eqb_neq _ _ H2), (parseTag_total _ _ _ H3 H4). specialize (tag_bytes _ I H1).
      assert (B : is_bytes name) by (destruct H4 as [->|[-> _]]; auto; apply Forall_app in tag_bytes; apply tag_bytes).
      destruct (isValidTag isLetter isDigit name) eqn:V; [exfalso; now apply H5, (isValidTag_spec isLetter isDigit name B)|].
      exists []. auto.
  - intros (name & E & ->). destruct (sf_tag sf) as [tag|] eqn:T.
    + destruct (bytes_eqb tag (bs "-")) eqn:D; [discriminate|]. destruct (parseTag tag) as [n o] eqn:P. apply parseTag_spec in P.
      assert (D' : tag <> bs "-") by (intros ->; rewrite bytes_eqb_refl in D; discriminate).
      specialize (tag_bytes _ I eq_refl). assert (B : is_bytes n) by (destruct P as [_ [->|[-> _]]]; auto; apply Forall_app in tag_bytes; apply tag_bytes).
      destruct (isValidTag isLetter isDigit n) eqn:V; injection E as <- <-.
      * apply (isValidTag_spec isLetter isDigit n B) in V. assert (labelOf n = Some n) as -> by (destruct V as [V _]; destruct n; auto; contradiction).
        eapply tg_name; eauto.
      * simpl. eapply tg_opts; eauto. intros H. apply (isValidTag_spec isLetter isDigit n B) in H. congruence.
    + destruct (onlyTaggedField && negb (sf_anonymous sf)) eqn:O; [discriminate|]. injection E as <- <-. simpl. apply tg_none; auto.
      destruct onlyTaggedField, (sf_anonymous sf); auto; discriminate.
Qed.
Definition declsb (sf : sfield) : option (bytes * bytes) :=
  if unexported R sf then None
  else match tagOf sf with
       | Some (name, opts) =>
           if match name with [] => false | _ => true end || negb (sf_anonymous sf) || negb (isStruct R (fieldType R sf))
           then Some (name, opts) else None
       | None => None
       end.
Definition embedsb (sf : sfield) : bool :=
  negb (unexported R sf) &&
  match tagOf sf with Some ([], _) => sf_anonymous sf && isStruct R (fieldType R sf) | _ => false end.
Lemma embeds_iff t sf u : In sf (rt_fields (R t)) -> (embeds sf u <-> embedsb sf = true /\ u = fieldType R sf).
Proof.
  intros I. unfold SpecStruct.embeds, embedsb. rewrite <- visible_iff, base_iff, <- kind_struct, andb_true_iff, negb_true_iff.
  setoid_rewrite (tagOf_iff t sf None); auto. split.
  - intros (H1 & H2 & (o & n & H3 & H4) & -> & H5). repeat split; auto. rewrite H3. destruct n; [|discriminate]. now rewrite H2, H5.
  - intros ((H1 & H2) & ->). destruct (tagOf sf) as [[[|c n] o]|]; try discriminate. apply andb_true_iff in H2. destruct H2 as [H2 H3].
    repeat split; auto. exists o, []. auto.
Qed.
Lemma declares_iff t sf label opts : In sf (rt_fields (R t)) ->
  (declares sf label opts <-> exists name, declsb sf = Some (name, opts) /\ label = labelOf name).
Proof.
  intros I. unfold SpecStruct.declares, declsb. rewrite <- visible_iff, (tagOf_iff t sf label opts I).
  setoid_rewrite (embeds_iff t sf); auto. unfold embedsb. split.
  - intros (H1 & (n & H2 & ->) & H3). rewrite H1, H2 in *. exists n. split; auto.
    destruct n; simpl; auto. destruct (sf_anonymous sf); simpl; auto. destruct (isStruct R (fieldType R sf)) eqn:S; simpl; auto.
    exfalso. apply H3. eexists. split; [|reflexivity]. reflexivity.
  - intros (n & H & ->). destruct (unexported R sf) eqn:U; [discriminate|]. destruct (tagOf sf) as [[n' o']|]; [|discriminate].
    destruct (_ || _) eqn:C in H; [|discriminate]. injection H as -> ->. repeat split; eauto. intros (u & H & ->).
    apply andb_true_iff in H. destruct H as [_ H]. destruct n; [|discriminate]. apply andb_true_iff in H. destruct H as [H1 H2].
    rewrite H1, H2 in C. discriminate.
Qed.
Lemma exploreField_eq m f i sf s : exploreField R isLetter isDigit onlyTaggedField m f i sf s =
  match declsb sf with
  | Some (name, opts) => let field := record R f i sf name opts in
          mkL (l_next s) (l_nextCount s) (l_visited s) (l_fields s ++ if m then [field; field] else [field])
  | None => if embedsb sf then
              let ft := fieldType R sf in
              let count := fun t => if (t =? ft)%nat then S (l_nextCount s t) else l_nextCount s t in
              mkL (if (count ft =? 1)%nat then l_next s ++ [descend R f i sf] else l_next s) count (l_visited s) (l_fields s)
            else s
  end.
Proof.
  unfold exploreField, declsb, embedsb. destruct (unexported R sf); simpl; auto. destruct (tagOf sf) as [[n o]|]; auto.
  destruct n; simpl; auto. destruct (sf_anonymous sf); simpl; auto. destruct (isStruct R (fieldType R sf)); simpl; auto.
Qed.

(** ** Routes *)
Definition extend (offs : list (Z * option nat)) (sf : sfield) : list (Z * option nat) :=
  addOffset offs (sf_offset sf) ++ (if isPtr R (sf_type sf) then [(0, if sf_exported sf then Some (rt_elem (R (sf_type sf))) else None)] else []).
Lemma addOffset_snoc offs o r v : addOffset (offs ++ [(o, r)]) v = offs ++ [(o + v, r)].
Proof. unfold addOffset. rewrite rev_app_distr. simpl. now rewrite rev_involutive. Qed.
Lemma route_last st p t offs : route st p t offs -> exists l o r, offs = l ++ [(o, r)].
Proof.
  intros H. destruct H as [ | q t' l o r i sf u H1 H2 H3 H4| q t' l o r i sf u H1 H2 H3 H4 ].
  - exists [], 0, None. reflexivity.
  - eauto.
  - exists (l ++ [(o + sf_offset sf, r)]). do 2 eexists. rewrite <- app_assoc. reflexivity.
Qed.
Lemma route_nil st t offs : route st [] t offs -> t = st /\ offs = [(0, None)].
Proof. inversion 1 as [| q ? ? ? ? ? ? ? _ _ _ _ E | q ? ? ? ? ? ? ? _ _ _ _ E]; subst; auto; symmetry in E; now apply app_cons_not_nil in E. Qed.
Lemma in_nth {A} (l : list A) i x : nth_error l i = Some x -> In x l.
Proof. apply nth_error_In. Qed.
Lemma route_snoc st p i u offs' : route st (p ++ [i]) u offs' <->
  exists t offs sf, route st p t offs /\ nth_error (rt_fields (R t)) i = Some sf /\ embeds sf u /\ offs' = extend offs sf.
Proof.
  split.
  - intros H. remember (p ++ [i]) as p0. destruct H as [| q t l o r j sf u H1 H2 H3 H4 | q t l o r j sf u H1 H2 H3 H4].
    + now apply app_cons_not_nil in Heqp0.
    + apply app_inj_tail in Heqp0. destruct Heqp0 as [-> ->]. exists t, (l ++ [(o, r)]), sf. split; [auto|]. split; [auto|]. split; [auto|].
      unfold extend. rewrite addOffset_snoc. destruct (isPtr R (sf_type sf)) eqn:E; [apply kind_ptr in E; contradiction|now rewrite app_nil_r].
    + apply app_inj_tail in Heqp0. destruct Heqp0 as [-> ->]. exists t, (l ++ [(o, r)]), sf. split; [auto|]. split; [auto|]. split; [auto|].
      unfold extend. rewrite addOffset_snoc, (proj2 (kind_ptr _) H4), <- app_assoc. simpl. do 4 f_equal.
      destruct (sf_exported sf); auto. f_equal. destruct H3 as (_ & _ & _ & B & K). destruct B as [B|B1 B2]; auto. congruence.
  - intros (t & offs & sf & H1 & H2 & H3 & ->). destruct (route_last _ _ _ _ H1) as (l & o & r & ->). unfold extend. rewrite addOffset_snoc.
    destruct (isPtr R (sf_type sf)) eqn:E.
    + apply kind_ptr in E. rewrite <- app_assoc. simpl. assert (rt_elem (R (sf_type sf)) = u) as ->.
      { destruct H3 as (_ & _ & _ & B & K). destruct B as [B|B1 B2]; auto. congruence. }
      eapply ro_ptr; eauto.
    + rewrite app_nil_r. eapply ro_value; eauto. intros H. apply kind_ptr in H. congruence.
Qed.
Lemma route_fun st p : forall t t' o o', route st p t o -> route st p t' o' -> t = t' /\ o = o'.
Proof.
  induction p as [|i p IH] using rev_ind; intros t t' o o' H H'.
  - apply route_nil in H, H'. destruct H as [-> ->], H' as [-> ->]. auto.
  - apply route_snoc in H, H'. destruct H as (t1 & o1 & sf & H1 & H2 & H3 & ->), H' as (t1' & o1' & sf' & H1' & H2' & H3' & ->).
    destruct (IH _ _ _ _ H1 H1') as [-> ->]. rewrite H2 in H2'. injection H2' as <-. split; auto.
    apply (embeds_iff t1') in H3, H3'; eauto using nth_error_In. destruct H3 as [_ ->], H3' as [_ ->]. auto.
Qed.

(** ** Items of the levels *)
Variable st : nat.
Definition itemAt (f : dfield) : Prop :=
  route st (d_index f) (d_typ f) (d_offsets f) /\ f = mkD (d_typ f) (d_index f) (d_offsets f) [] false false false O.
Lemma item_eq f g : itemAt f -> itemAt g -> d_index f = d_index g -> f = g.
Proof.
  intros [R1 E1] [R2 E2] H. rewrite <- H in R2. destruct (route_fun _ _ _ _ _ _ R1 R2) as [Ht Ho].
  rewrite E1, E2, H, Ht, Ho. reflexivity.
Qed.
Fixpoint childrenFrom (f : dfield) (i : nat) (l : list sfield) : list dfield :=
  match l with
  | [] => []
  | sf :: r => (if embedsb sf then [descend R f i sf] else []) ++ childrenFrom f (S i) r
  end.
Fixpoint recordsFrom (f : dfield) (i : nat) (l : list sfield) : list dfield :=
  match l with
  | [] => []
  | sf :: r => (match declsb sf with Some (n, o) => [record R f i sf n o] | None => [] end) ++ recordsFrom f (S i) r
  end.
Definition children (f : dfield) : list dfield := childrenFrom f 0 (rt_fields (R (d_typ f))).
Definition records (f : dfield) : list dfield := recordsFrom f 0 (rt_fields (R (d_typ f))).
Definition dup (m : bool) (l : list dfield) : list dfield := flat_map (fun x => if m then [x; x] else [x]) l.
Lemma dup_app m l l' : dup m (l ++ l') = dup m l ++ dup m l'.
Proof. apply flat_map_app. Qed.
Lemma in_dup m l x : In x (dup m l) <-> In x l.
Proof. unfold dup. rewrite in_flat_map. split; [intros (y & I & H); destruct m; simpl in H; intuition congruence|]. intros I. exists x. destruct m; simpl; auto. Qed.
Lemma in_childrenFrom f l : forall i x, In x (childrenFrom f i l) <->
  exists j sf, nth_error l j = Some sf /\ embedsb sf = true /\ x = descend R f (i + j) sf.
Proof.
  induction l as [|sf l IH]; intros i x; simpl.
  - split; [intros []|]. intros (j & sf & H & _). destruct j; discriminate.
  - rewrite in_app_iff, IH. split.
    + intros [H|(j & sf' & H1 & H2 & ->)].
      * destruct (embedsb sf) eqn:E; [|destruct H]. destruct H as [<-|[]]. exists O, sf. rewrite Nat.add_0_r. auto.
      * exists (S j), sf'. rewrite Nat.add_succ_r. auto.
    + intros ([|j] & sf' & H1 & H2 & ->); simpl in H1.
      * injection H1 as ->. rewrite H2, Nat.add_0_r. simpl. auto.
      * right. exists j, sf'. rewrite Nat.add_succ_r. auto.
Qed.
Lemma in_recordsFrom f l : forall i x, In x (recordsFrom f i l) <->
  exists j sf n o, nth_error l j = Some sf /\ declsb sf = Some (n, o) /\ x = record R f (i + j) sf n o.
Proof.
  induction l as [|sf l IH]; intros i x; simpl.
  - split; [intros []|]. intros (j & sf & n & o & H & _). destruct j; discriminate.
  - rewrite in_app_iff, IH. split.
    + intros [H|(j & sf' & n & o & H1 & H2 & ->)].
      * destruct (declsb sf) as [[n o]|] eqn:E; [|destruct H]. destruct H as [<-|[]]. exists O, sf, n, o. rewrite Nat.add_0_r. auto.
      * exists (S j), sf', n, o. rewrite Nat.add_succ_r. auto.
    + intros ([|j] & sf' & n & o & H1 & H2 & ->); simpl in H1.
      * injection H1 as ->. rewrite H2, Nat.add_0_r. simpl. auto.
      * right. exists j, sf', n, o. rewrite Nat.add_succ_r. auto.
Qed.
Lemma in_children f x : In x (children f) <->
  exists j sf, nth_error (rt_fields (R (d_typ f))) j = Some sf /\ embedsb sf = true /\ x = descend R f j sf.
Proof. apply (in_childrenFrom f _ 0). Qed.
Lemma in_records f x : In x (records f) <->
  exists j sf n o, nth_error (rt_fields (R (d_typ f))) j = Some sf /\ declsb sf = Some (n, o) /\ x = record R f j sf n o.
Proof. apply (in_recordsFrom f _ 0). Qed.
Lemma descend_item f j sf : itemAt f -> nth_error (rt_fields (R (d_typ f))) j = Some sf -> embedsb sf = true -> itemAt (descend R f j sf).
Proof.
  intros [H _] N E. split; [|reflexivity]. simpl. apply route_snoc. exists (d_typ f), (d_offsets f), sf. split; [auto|]. split; [auto|]. split; [|reflexivity].
  apply (embeds_iff (d_typ f) sf (fieldType R sf)); eauto using nth_error_In.
Qed.
Lemma children_item f x : itemAt f -> In x (children f) -> itemAt x /\ length (d_index x) = S (length (d_index f)).
Proof.
  intros H I. apply in_children in I. destruct I as (j & sf & N & E & ->). split; [now apply descend_item|]. simpl. rewrite app_length. simpl. lia.
Qed.
(** a further step of a route to the type of an item gives a child of the item *)
Lemma route_child f p j u offs' t offs : itemAt f -> route st p t offs -> t = d_typ f -> route st (p ++ [j]) u offs' ->
  exists x, In x (children f) /\ d_typ x = u /\ d_index x = d_index f ++ [j].
Proof.
  intros I Hp -> H. apply route_snoc in H. destruct H as (t1 & o1 & sf & H1 & H2 & H3 & _). destruct (route_fun _ _ _ _ _ _ Hp H1) as [<- _].
  apply (embeds_iff (d_typ f)) in H3; eauto using nth_error_In. destruct H3 as [E ->]. exists (descend R f j sf). split; auto. apply in_children. eauto.
Qed.

(** ** The order of index sequences *)
Lemma index_lt_trans a b c : index_lt a b -> index_lt b c -> index_lt a c.
Proof. rewrite <- !indexLess_iff. apply (to_trans _ index_total). Qed.
Lemma index_lt_irr a : ~ index_lt a a.
Proof. rewrite <- indexLess_iff, (to_irr _ index_total). discriminate. Qed.
Lemma index_lt_snoc a b i j : length a = length b -> index_lt a b -> index_lt (a ++ [i]) (b ++ [j]).
Proof.
  intros L H. induction H as [| |x a b H IH]; simpl in *; [discriminate|now apply il_less|apply il_same; auto].
Qed.
Lemma index_lt_last a i j : (i < j)%nat -> index_lt (a ++ [i]) (a ++ [j]).
Proof. intros H. induction a; simpl; [now apply il_less|now apply il_same]. Qed.
Definition index_le (a b : list nat) : Prop := a = b \/ index_lt a b.
Lemma index_le_snoc a b i : length a = length b -> index_le a b -> index_le (a ++ [i]) (b ++ [i]).
Proof. intros L [->|H]; [left; auto|right; now apply index_lt_snoc]. Qed.
Lemma index_le_trans a b c : index_le a b -> index_le b c -> index_le a c.
Proof. intros [->|H] [->|H']; [left|right|right|right]; auto. eauto using index_lt_trans. Qed.
Definition before (x y : dfield) : Prop := index_lt (d_index x) (d_index y).
Lemma sorted_app {A} (P : A -> A -> Prop) l1 l2 : StronglySorted P l1 -> StronglySorted P l2 -> (forall x y, In x l1 -> In y l2 -> P x y) -> StronglySorted P (l1 ++ l2).
Proof.
  induction l1 as [|a l1 IH]; simpl; auto. intros H1 H2 H. inversion H1; subst. constructor; auto.
  apply Forall_app. split; auto. apply Forall_forall. auto.
Qed.
Lemma sorted_childrenFrom f l : forall i, StronglySorted before (childrenFrom f i l).
Proof.
  induction l as [|sf l IH]; intros i; simpl; [constructor|]. destruct (embedsb sf); simpl; auto. constructor; auto.
  apply Forall_forall. intros x I. apply in_childrenFrom in I. destruct I as (j & sf' & _ & _ & ->). unfold before. simpl. apply index_lt_last. lia.
Qed.
Lemma sorted_recordsFrom f l : forall i, StronglySorted before (recordsFrom f i l).
Proof.
  induction l as [|sf l IH]; intros i; simpl; [constructor|]. destruct (declsb sf) as [[n o]|]; simpl; auto. constructor; auto.
  apply Forall_forall. intros x I. apply in_recordsFrom in I. destruct I as (j & sf' & n' & o' & _ & _ & ->). unfold before. simpl. apply index_lt_last. lia.
Qed.
Lemma children_index f x : In x (children f) -> exists j, d_index x = d_index f ++ [j].
Proof. intros I. apply in_children in I. destruct I as (j & sf & _ & _ & ->). simpl. eauto. Qed.
Lemma sorted_flat news : StronglySorted before news -> (forall f g, In f news -> In g news -> length (d_index f) = length (d_index g)) ->
  StronglySorted before (flat_map children news).
Proof.
  induction news as [|f news IH]; simpl; [constructor|]. intros S L. inversion S as [|? ? S1 F]; subst. apply sorted_app.
  - apply sorted_childrenFrom.
  - apply IH; auto.
  - intros x y Ix Iy. apply in_flat_map in Iy. destruct Iy as (g & Ig & Iy). apply children_index in Ix, Iy. destruct Ix as [i Ex], Iy as [j Ey].
    unfold before. rewrite Ex, Ey. rewrite Forall_forall in F. apply index_lt_snoc; auto. now apply F.
Qed.

(** ** One level *)
(** the state of [next] and [nextCount] after the structs [K] were met in this order *)
Record next_ok (K next : list dfield) (count : nat -> nat) : Prop := mkNext {
  no_count : forall t, count t = count_occ Nat.eq_dec (map d_typ K) t;
  no_sub : forall x, In x next -> In x K;
  no_nodup : NoDup (map d_typ next);
  no_cover : forall x, In x K -> In (d_typ x) (map d_typ next);
  no_sorted : StronglySorted before K -> StronglySorted before next;
  no_first : StronglySorted before K -> forall x y, In x next -> In y K -> d_typ y = d_typ x -> index_le (d_index x) (d_index y)
}.
Lemma count_occ_snoc l t x : count_occ Nat.eq_dec (l ++ [x]) t = if Nat.eq_dec x t then S (count_occ Nat.eq_dec l t) else count_occ Nat.eq_dec l t.
Proof. induction l as [|y l IH]; simpl; auto. destruct (Nat.eq_dec y t), (Nat.eq_dec x t); auto. Qed.
Lemma in_snoc {A} (l : list A) y x : In x (l ++ [y]) <-> In x l \/ x = y.
Proof. rewrite in_app_iff. simpl. intuition. Qed.
Lemma next_step K next count x : next_ok K next count ->
  next_ok (K ++ [x]) (if (S (count (d_typ x)) =? 1)%nat then next ++ [x] else next) (fun t => if (t =? d_typ x)%nat then S (count t) else count t).
Proof.
  intros [H1 H2 H3 H4 H5 H6].
  assert (C : In (d_typ x) (map d_typ next) <-> count (d_typ x) <> O).
  { rewrite H1. split; intros H.
    - apply in_map_iff in H. destruct H as (y & E & I). intros Z. apply (count_occ_not_In Nat.eq_dec) in Z. apply Z. rewrite <- E. apply in_map. auto.
    - assert (I : In (d_typ x) (map d_typ K)) by (apply (count_occ_In Nat.eq_dec); lia). apply in_map_iff in I. destruct I as (y & <- & I). auto. }
  assert (Ct : forall t, (if (t =? d_typ x)%nat then S (count t) else count t) = count_occ Nat.eq_dec (map d_typ (K ++ [x])) t).
  { intros t. rewrite map_app. simpl. rewrite count_occ_snoc, H1. destruct (Nat.eqb_spec t (d_typ x)), (Nat.eq_dec (d_typ x) t); congruence. }
  destruct (Nat.eqb_spec (S (count (d_typ x))) 1) as [E|E].
  - assert (N : ~ In (d_typ x) (map d_typ next)) by (rewrite C; lia). constructor; auto.
    + intros y. rewrite !in_snoc. intuition.
    + rewrite map_app. simpl. rewrite <- (app_nil_r (map d_typ next ++ [d_typ x])), <- app_assoc. simpl.
      apply NoDup_Add with (a := d_typ x) (l := map d_typ next); [|auto]. rewrite <- (app_nil_r (map d_typ next)) at 1. apply Add_app.
    + intros y. rewrite !in_snoc, map_app, in_app_iff. simpl. intros [I| ->]; auto.
    + intros S. assert (SK : StronglySorted before K).
      { clear - S. induction K as [|a K IH]; simpl in *; [constructor|]. inversion S as [|? ? S1 F]; subst. constructor; auto. now apply Forall_app in F. }
      apply sorted_app; auto; [repeat constructor|]. intros a b Ia [<-|[]]. apply (sorted_app_lt before K [x]); simpl; auto.
    + intros S a b. rewrite !in_snoc. assert (SK : StronglySorted before K).
      { clear - S. induction K as [|a K IH]; simpl in *; [constructor|]. inversion S as [|? ? S1 F]; subst. constructor; auto. now apply Forall_app in F. }
      intros [Ia| ->] [Ib| ->] Et; auto.
      * exfalso. apply N. rewrite Et. now apply in_map.
      * exfalso. apply N. rewrite <- Et. auto.
      * left. reflexivity.
  - assert (N : In (d_typ x) (map d_typ next)) by (apply C; lia). constructor; auto.
    + intros y I. rewrite in_snoc. auto.
    + intros y. rewrite in_snoc. intros [I| ->]; auto.
    + intros S. apply H5. clear - S. induction K as [|a K IH]; simpl in *; [constructor|]. inversion S as [|? ? S1 F]; subst. constructor; auto. now apply Forall_app in F.
    + intros S a b Ia. rewrite in_snoc. assert (SK : StronglySorted before K).
      { clear - S. induction K as [|a K IH]; simpl in *; [constructor|]. inversion S as [|? ? S1 F]; subst. constructor; auto. now apply Forall_app in F. }
      intros [Ib| ->] Et; auto. right. apply (sorted_app_lt before K [x]); simpl; auto.
Qed.
Notation exploreFields := (exploreFields R isLetter isDigit onlyTaggedField).
Lemma exploreFields_spec m f l : forall i s K, next_ok K (l_next s) (l_nextCount s) ->
  let s' := exploreFields m f i l s in
  next_ok (K ++ childrenFrom f i l) (l_next s') (l_nextCount s') /\ l_visited s' = l_visited s /\
  l_fields s' = l_fields s ++ dup m (recordsFrom f i l).
Proof.
  induction l as [|sf l IH]; intros i s K N; simpl.
  - rewrite !app_nil_r. auto.
  - rewrite exploreField_eq. destruct (declsb sf) as [[n o]|] eqn:D.
    + assert (embedsb sf = false) as ->.
      { unfold declsb, embedsb in *. destruct (unexported R sf); [discriminate|]. destruct (tagOf sf) as [[[|c n'] o']|]; auto; simpl in *.
        destruct (sf_anonymous sf); auto; simpl in *. destruct (isStruct R (fieldType R sf)); auto; discriminate. }
      edestruct (IH (S i)) as (H1 & H2 & H3); [|split; [exact H1|split; [exact H2|rewrite H3]]]; [exact N|].
      simpl. rewrite <- app_assoc. destruct m; reflexivity.
    + destruct (embedsb sf) eqn:E; [|apply IH; auto].
      edestruct (IH (S i)) as (H1 & H2 & H3); [|split; [rewrite app_assoc; exact H1|split; [exact H2|rewrite H3; auto]]].
      cbn [l_next l_nextCount].
      pose proof (next_step K (l_next s) (l_nextCount s) (descend R f i sf) N) as H. cbn [d_typ descend] in H. now rewrite Nat.eqb_refl.
Qed.
Definition isNew (visited : nat -> bool) (f : dfield) : bool := negb (visited (d_typ f)).
Lemma explore_level count current : NoDup (map d_typ current) -> forall s K, next_ok K (l_next s) (l_nextCount s) ->
  let s' := fold_left (explore R isLetter isDigit onlyTaggedField count) current s in
  let news := filter (isNew (l_visited s)) current in
  next_ok (K ++ flat_map children news) (l_next s') (l_nextCount s') /\
  (forall t, l_visited s' t = true <-> l_visited s t = true \/ In t (map d_typ news)) /\
  l_fields s' = l_fields s ++ flat_map (fun f => dup (1 <? count (d_typ f))%nat (records f)) news.
Proof.
  induction current as [|f current IH]; intros ND s K N; simpl.
  - rewrite !app_nil_r. split; [exact N|]. split; [intros t; tauto|reflexivity].
  - inversion ND as [|? ? Nf ND']; subst. change (isNew (l_visited s) f) with (negb (l_visited s (d_typ f))).
    assert (X : explore R isLetter isDigit onlyTaggedField count s f = if l_visited s (d_typ f) then s
      else exploreFields (1 <? count (d_typ f))%nat f 0 (rt_fields (R (d_typ f)))
         (mkL (l_next s) (l_nextCount s) (fun t => if (t =? d_typ f)%nat then true else l_visited s t) (l_fields s))) by reflexivity.
    rewrite X. clear X. destruct (l_visited s (d_typ f)) eqn:V; cbn [negb flat_map map].
    + apply (IH ND' s K N).
    + set (s1 := mkL (l_next s) (l_nextCount s) (fun t => if (t =? d_typ f)%nat then true else l_visited s t) (l_fields s)).
      destruct (exploreFields_spec (1 <? count (d_typ f))%nat f (rt_fields (R (d_typ f))) 0 s1 K N) as (H1 & H2 & H3).
      set (s2 := exploreFields _ f 0 _ s1) in *. destruct (IH ND' s2 _ H1) as (H4 & H5 & H6).
      assert (E : filter (isNew (l_visited s2)) current = filter (isNew (l_visited s)) current).
      { apply filter_ext_in. intros g Ig. unfold isNew. rewrite H2. simpl. destruct (Nat.eqb_spec (d_typ g) (d_typ f)) as [Eq|]; auto.
        exfalso. apply Nf. rewrite <- Eq. now apply in_map. }
      rewrite E in *. rewrite <- app_assoc in H4. split; [exact H4|]. split.
      * intros t. rewrite H5, H2. simpl. destruct (Nat.eqb_spec t (d_typ f)); intuition congruence.
      * rewrite H6, H3. simpl. now rewrite <- app_assoc.
Qed.

(** ** The invariant of the level loop *)
(** two routes to a struct end with the same embedding *)
Definition same_edge (p p' : list nat) : Prop :=
  p = p' \/ exists q q' u a o o', p = q ++ [a] /\ p' = q' ++ [a] /\ route st q u o /\ route st q' u o'.
(** what is known about an item whose route has the least length for its type *)
Definition single (f : dfield) : Prop :=
  forall p o, route st p (d_typ f) o -> length p = length (d_index f) -> same_edge (d_index f) p.
Definition several (f : dfield) : Prop :=
  exists p o, route st p (d_typ f) o /\ length p = length (d_index f) /\ ~ same_edge (d_index f) p.
Definition first (f : dfield) : Prop :=
  forall p o, route st p (d_typ f) o -> length p = length (d_index f) -> index_le (d_index f) p.
Definition shortest (f : dfield) : Prop :=
  forall p o, route st p (d_typ f) o -> (length (d_index f) <= length p)%nat.
Definition types (seen : list (dfield * bool)) : list nat := map (fun x => d_typ (fst x)) seen.
Definition found (seen : list (dfield * bool)) : list dfield := flat_map (fun x => dup (snd x) (records (fst x))) seen.
Record seen_ok (d : nat) (seen : list (dfield * bool)) : Prop := mkSeen {
  se_item : forall f m, In (f, m) seen -> itemAt f /\ (length (d_index f) < d)%nat /\ shortest f /\ first f;
  se_nodup : NoDup (types seen);
  se_true : forall f, In (f, true) seen -> several f;
  se_false : forall f, In (f, false) seen -> single f
}.
Record level_ok (d : nat) (current : list dfield) (count : nat -> nat) (visited : nat -> bool) (fields : list dfield) (seen : list (dfield * bool)) : Prop := mkLevel {
  le_seen : seen_ok d seen;
  le_fields : fields = found seen;
  le_visited : forall t, visited t = true <-> In t (types seen);
  le_item : forall f, In f current -> itemAt f /\ length (d_index f) = d;
  le_nodup : NoDup (map d_typ current);
  le_sorted : StronglySorted before current;
  le_less : forall p t o, route st p t o -> (length p < d)%nat -> In t (types seen);
  le_same : forall p t o, route st p t o -> length p = d -> In t (types seen) \/ In t (map d_typ current);
  le_first : forall f, In f current -> visited (d_typ f) = false -> first f;
  le_several : forall f, In f current -> visited (d_typ f) = false -> (1 < count (d_typ f))%nat -> several f;
  le_single : forall f, In f current -> visited (d_typ f) = false -> (count (d_typ f) <= 1)%nat -> single f
}.
Lemma in_types t seen : In t (types seen) <-> exists f m, In (f, m) seen /\ d_typ f = t.
Proof.
  unfold types. rewrite in_map_iff. split; [intros ([f m] & E & I); eauto|]. intros (f & m & I & E). exists (f, m). auto.
Qed.
Lemma snoc_cases {A} (l : list A) : l = [] \/ exists q a, l = q ++ [a].
Proof. destruct l as [|a l] using rev_ind; eauto. Qed.
Lemma route_prefix p a t o : route st (p ++ [a]) t o -> exists u o', route st p u o'.
Proof. intros H. apply route_snoc in H. destruct H as (u & o' & sf & H & _). eauto. Qed.
Lemma two_of K t : StronglySorted before K -> (1 < count_occ Nat.eq_dec (map d_typ K) t)%nat ->
  exists x y, In x K /\ In y K /\ d_typ x = t /\ d_typ y = t /\ before x y.
Proof.
  induction K as [|x K IH]; simpl; [lia|]. intros S H. inversion S as [|? ? S1 F]; subst. destruct (Nat.eq_dec (d_typ x) t) as [E|N].
  - assert (I : In t (map d_typ K)) by (apply (count_occ_In Nat.eq_dec); lia). apply in_map_iff in I. destruct I as (y & Ey & Iy).
    exists x, y. rewrite Forall_forall in F. repeat split; auto.
  - destruct (IH S1 H) as (a & b & H1 & H2 & H3). exists a, b. intuition.
Qed.
Lemma one_of K t x y : (count_occ Nat.eq_dec (map d_typ K) t <= 1)%nat -> In x K -> In y K -> d_typ x = t -> d_typ y = t -> x = y.
Proof.
  induction K as [|z K IH]; simpl; [tauto|]. intros H [->|Ix] [->|Iy] Ex Ey; auto.
  - exfalso. destruct (Nat.eq_dec (d_typ x) t); [|contradiction]. assert (I : In t (map d_typ K)) by (rewrite <- Ey; now apply in_map).
    apply (count_occ_In Nat.eq_dec) in I. lia.
  - exfalso. destruct (Nat.eq_dec (d_typ y) t); [|contradiction]. assert (I : In t (map d_typ K)) by (rewrite <- Ex; now apply in_map).
    apply (count_occ_In Nat.eq_dec) in I. lia.
  - destruct (Nat.eq_dec (d_typ z) t); apply IH; auto; lia.
Qed.
Lemma typ_eq (l : list dfield) f g : NoDup (map d_typ l) -> In f l -> In g l -> d_typ f = d_typ g -> f = g.
Proof.
  induction l as [|x l IH]; simpl; [tauto|]. intros N If Ig E. inversion N as [|? ? N1 N2]; subst.
  destruct If as [->|If], Ig as [->|Ig]; auto; exfalso; apply N1; [rewrite E|rewrite <- E]; now apply in_map.
Qed.
Lemma sorted_filter {A} (P : A -> A -> Prop) b l : StronglySorted P l -> StronglySorted P (filter b l).
Proof.
  induction 1 as [|x l S IH F]; simpl; [constructor|]. destruct (b x); auto. constructor; auto. rewrite Forall_forall in *. intros y I. apply filter_In in I. apply F, I.
Qed.
Lemma nodup_filter (b : dfield -> bool) l : NoDup (map d_typ l) -> NoDup (map d_typ (filter b l)).
Proof.
  induction l as [|x l IH]; simpl; auto. intros N. inversion N as [|? ? N1 N2]; subst. destruct (b x); simpl; auto. constructor; auto.
  intros I. apply N1. apply in_map_iff in I. destruct I as (y & <- & I). apply filter_In in I. apply in_map, I.
Qed.

Lemma nodup_app {A} (l l' : list A) : NoDup l -> NoDup l' -> (forall t, In t l' -> ~ In t l) -> NoDup (l ++ l').
Proof.
  induction l as [|t l IH]; simpl; auto. intros N N' X. inversion N as [|? ? N1 N2]; subst. constructor.
  - rewrite in_app_iff. intros [I|I]; [contradiction|]. apply (X _ I). auto.
  - apply IH; auto. intros t' I I'. apply (X t' I). auto.
Qed.

Lemma level_step d current count visited fields seen : level_ok d current count visited fields seen ->
  let s := fold_left (explore R isLetter isDigit onlyTaggedField count) current (mkL [] (fun _ => O) visited fields) in
  let news := filter (isNew visited) current in
  level_ok (S d) (l_next s) (l_nextCount s) (l_visited s) (l_fields s)
    (seen ++ map (fun f => (f, (1 <? count (d_typ f))%nat)) news).
Proof.
  intros [Hseen Hfields Hvis Hitem Hnd Hsort Hless Hsame Hfirst Hsev Hsing] s news.
  set (mark := fun f => (f, (1 <? count (d_typ f))%nat)).
  assert (N0 : next_ok [] (l_next (mkL [] (fun _ => O) visited fields)) (l_nextCount (mkL [] (fun _ => O) visited fields))).
  { constructor; simpl; auto; try tauto; try constructor. }
  destruct (explore_level count current Hnd _ _ N0) as (N & V & F). fold s in N, V, F. cbn [l_visited l_fields app] in N, V, F. fold news in N, V, F.
  set (K := flat_map children news) in *.
  assert (InNews : forall f, In f news <-> In f current /\ visited (d_typ f) = false).
  { intros f. unfold news. rewrite filter_In. unfold isNew. now rewrite negb_true_iff. }
  assert (NDnews : NoDup (map d_typ news)) by now apply nodup_filter.
  assert (Tnews : types (map mark news) = map d_typ news) by (unfold types; rewrite map_map; apply map_ext; reflexivity).
  assert (Tapp : types (seen ++ map mark news) = types seen ++ map d_typ news) by (rewrite <- Tnews; apply map_app).
  assert (SK : StronglySorted before K).
  { apply sorted_flat; [now apply sorted_filter|]. intros f g If Ig. apply InNews in If, Ig. rewrite (proj2 (Hitem f (proj1 If))), (proj2 (Hitem g (proj1 Ig))). auto. }
  assert (KI : forall x, In x K <-> exists f, In f news /\ In x (children f)) by (intros x; apply in_flat_map).
  assert (Kitem : forall x, In x K -> itemAt x /\ length (d_index x) = S d).
  { intros x I. apply KI in I. destruct I as (f & If & Ix). apply InNews in If. destruct (Hitem f (proj1 If)) as [I1 <-]. now apply children_item. }
  assert (New : forall f, In f news -> shortest f).
  { intros f If p o H. apply InNews in If. destruct If as [If Nf]. rewrite (proj2 (Hitem f If)).
    destruct (Nat.le_gt_cases d (length p)) as [|L]; auto. exfalso. apply (Hless p _ o H) in L. apply Hvis in L. congruence. }
  assert (Less : forall p t o, route st p t o -> (length p < S d)%nat -> In t (types (seen ++ map mark news))).
  { intros p t o H L. rewrite Tapp, in_app_iff. destruct (Nat.eq_dec (length p) d) as [E|Ne]; [|left; apply (Hless p t o); auto; lia].
    destruct (Hsame p t o H E) as [I|I]; auto. apply in_map_iff in I. destruct I as (f & <- & If).
    destruct (visited (d_typ f)) eqn:Vf; [left; now apply Hvis|]. right. apply in_map, InNews. auto. }
  (* the last step of a route to a type that is not yet seen starts from a new struct *)
  assert (Step : forall p t o, route st p t o -> length p = S d -> ~ In t (types (seen ++ map mark news)) ->
            exists q a f x, p = q ++ [a] /\ In f news /\ In x (children f) /\ d_typ x = t /\ d_index x = d_index f ++ [a] /\
              (exists o', route st q (d_typ f) o') /\ length q = d).
  { intros p t o H L Nt. destruct (snoc_cases p) as [->|(q & a & ->)]; [discriminate|]. rewrite app_length in L. simpl in L.
    destruct (route_prefix _ _ _ _ H) as (u & o' & Hq). exists q, a.
    assert (Iu : In u (types seen) \/ In u (map d_typ current)) by (apply (Hsame q u o'); auto; lia).
    assert (Nu : ~ In u (types seen)).
    { intros I. apply in_types in I. destruct I as (g & m & Ig & <-). destruct (se_item _ _ Hseen g m Ig) as (Ig1 & Lg & _).
      destruct (route_child g q a t o _ _ Ig1 Hq eq_refl H) as (x & Ix & Ex & Exi). destruct (children_item g x Ig1 Ix) as [[Rx _] Lx].
      apply Nt. apply (Less (d_index x) t (d_offsets x)); [now rewrite <- Ex|lia]. }
    destruct Iu as [I|I]; [contradiction|]. apply in_map_iff in I. destruct I as (f & <- & If).
    assert (Vf : visited (d_typ f) = false) by (destruct (visited (d_typ f)) eqn:E; auto; exfalso; now apply Nu, Hvis).
    destruct (route_child f q a t o _ _ (proj1 (Hitem f If)) Hq eq_refl H) as (x & Ix & Ex & Exi).
    exists f, x. split; [auto|]. split; [now apply InNews|]. split; [auto|]. split; [auto|]. split; [auto|]. split; [eauto|lia]. }
  assert (Fst : forall f, In f (l_next s) -> l_visited s (d_typ f) = false -> first f).
  { intros f If Vf p o H L. rewrite (proj2 (Kitem f (no_sub _ _ _ N f If))) in L.
    assert (Nt : ~ In (d_typ f) (types (seen ++ map mark news))).
    { rewrite Tapp, in_app_iff, <- Hvis. intros I. apply V in I. congruence. }
    destruct (Step p _ o H L Nt) as (q & a & g & x & -> & Ig & Ix & Ex & Exi & [o' Hq] & Lq).
    assert (Gf : index_le (d_index g) q).
    { apply InNews in Ig. apply (Hfirst g (proj1 Ig) (proj2 Ig) q o' Hq). now rewrite (proj2 (Hitem g (proj1 Ig))). }
    apply index_le_trans with (d_index x).
    - apply (no_first _ _ _ N SK f x); auto. apply KI. eauto.
    - rewrite Exi. apply index_le_snoc; auto. apply InNews in Ig. now rewrite (proj2 (Hitem g (proj1 Ig))). }
  constructor.
  - constructor.
    + intros f m I. apply in_app_or in I. destruct I as [I|I].
      * destruct (se_item _ _ Hseen f m I) as (H1 & H2 & H3 & H4). repeat split; auto; try apply H1; lia.
      * apply in_map_iff in I. destruct I as (g & Eg & Ig). injection Eg as <- _. pose proof (New _ Ig) as Sg. apply InNews in Ig. destruct Ig as [Ig Vg].
        destruct (Hitem g Ig) as [H1 H2]. split; [auto|]. split; [lia|]. split; [auto|]. now apply Hfirst.
    + rewrite Tapp. clear - Hseen NDnews InNews Hvis. pose proof (se_nodup _ _ Hseen) as N1.
      assert (X : forall t, In t (map d_typ news) -> ~ In t (types seen)).
      { intros t I. apply in_map_iff in I. destruct I as (f & <- & If). apply InNews in If. rewrite <- Hvis. destruct If. congruence. }
      now apply nodup_app.
    + intros f I. apply in_app_or in I. destruct I as [I|I]; [now apply (se_true _ _ Hseen)|]. apply in_map_iff in I. destruct I as (g & Eg & Ig).
      injection Eg as -> Em. apply Nat.ltb_lt in Em. apply InNews in Ig. now apply Hsev.
    + intros f I. apply in_app_or in I. destruct I as [I|I]; [now apply (se_false _ _ Hseen)|]. apply in_map_iff in I. destruct I as (g & Eg & Ig).
      injection Eg as -> Em. apply Nat.ltb_ge in Em. apply InNews in Ig. now apply Hsing.
  - rewrite F, Hfields. unfold found. rewrite flat_map_app. f_equal. clear. induction news as [|f l IH]; simpl; auto. now rewrite IH.
  - intros t. rewrite V, Hvis, Tapp, in_app_iff. tauto.
  - intros f If. apply Kitem, (no_sub _ _ _ N f If).
  - apply (no_nodup _ _ _ N).
  - apply (no_sorted _ _ _ N SK).
  - exact Less.
  - intros p t o H L. destruct (in_dec Nat.eq_dec t (types (seen ++ map mark news))) as [I|I]; auto. right.
    destruct (Step p t o H L I) as (q & a & g & x & -> & Ig & Ix & <- & Exi & _). apply (no_cover _ _ _ N). apply KI. eauto.
  - exact Fst.
  - intros f If Vf C. rewrite (no_count _ _ _ N) in C. destruct (two_of K (d_typ f) SK C) as (x & y & Ix & Iy & Ex & Ey & B).
    (* [f] ends with an embedding different from that of [x] or of [y] *)
    assert (Diff : forall z z', In z K -> In z' K -> same_edge (d_index z) (d_index z') -> z = z').
    { intros z z' Iz Iz' Se. destruct (Kitem z Iz) as [Zi _], (Kitem z' Iz') as [Zi' _]. apply item_eq; auto.
      destruct Se as [E|(q & q' & u & a & o & o' & E1 & E2 & R1 & R2)]; auto. apply KI in Iz, Iz'. destruct Iz as (g & Ig & Iz), Iz' as (g' & Ig' & Iz').
      destruct (children_index g z Iz) as [j Ej], (children_index g' z' Iz') as [j' Ej']. rewrite Ej in *. rewrite Ej' in *.
      apply app_inj_tail in E1, E2. destruct E1 as [<- ->], E2 as [<- ->]. apply InNews in Ig, Ig'.
      assert (g = g') as ->; auto. apply (typ_eq current); auto; try tauto.
      destruct (Hitem g (proj1 Ig)) as [[Rg _] _], (Hitem g' (proj1 Ig')) as [[Rg' _] _].
      destruct (route_fun _ _ _ _ _ _ Rg R1) as [-> _], (route_fun _ _ _ _ _ _ Rg' R2) as [-> _]. auto. }
    assert (IfK := no_sub _ _ _ N f If). destruct (Kitem f IfK) as [_ Lf].
    assert (G : exists z, In z K /\ d_typ z = d_typ f /\ z <> f).
    { destruct (list_eq_dec Nat.eq_dec (d_index x) (d_index f)) as [E|Ne].
      - exists y. repeat split; auto. intros ->. unfold before in B. rewrite E in B. now apply index_lt_irr in B.
      - exists x. repeat split; auto. intros ->. auto. }
    destruct G as (z & Iz & Ez & Nz). destruct (Kitem z Iz) as [[Rz _] Lz]. exists (d_index z), (d_offsets z). rewrite <- Ez. split; [auto|]. split; [congruence|].
    intros Se. apply Nz. symmetry. now apply Diff.
  - intros f If Vf C p o H L. rewrite (no_count _ _ _ N) in C. assert (IfK := no_sub _ _ _ N f If).
    rewrite (proj2 (Kitem f IfK)) in L.
    assert (Nt : ~ In (d_typ f) (types (seen ++ map mark news))) by (rewrite Tapp, in_app_iff, <- Hvis; intros I; apply V in I; congruence).
    destruct (Step p _ o H L Nt) as (q & a & g & x & -> & Ig & Ix & Ex & Exi & [o' Hq] & Lq).
    assert (x = f) as -> by (apply (one_of K (d_typ f)); auto; apply KI; eauto).
    right. apply InNews in Ig. destruct (Hitem g (proj1 Ig)) as [[Rg _] _]. rewrite Exi. eauto 10.
Qed.

(** ** The whole search *)
Record search_ok (seen : list (dfield * bool)) : Prop := mkSearch {
  sr_item : forall f m, In (f, m) seen -> itemAt f /\ shortest f /\ first f;
  sr_nodup : NoDup (types seen);
  sr_true : forall f, In (f, true) seen -> several f;
  sr_false : forall f, In (f, false) seen -> single f;
  sr_all : forall p t o, route st p t o -> In t (types seen)
}.
Notation levels := (levels R isLetter isDigit onlyTaggedField).
Lemma levels_spec fuel : forall d current count visited fields seen result, level_ok d current count visited fields seen ->
  levels fuel current count visited fields = Some result -> exists seen', search_ok seen' /\ result = found seen'.
Proof.
  induction fuel as [|fuel IH]; intros d current count visited fields seen result L H.
  all: destruct current as [|f current]; [|try discriminate H].
  1,2: simpl in H; injection H as <-; exists seen; destruct L as [Hs Hf Hv Hi Hn Ho Hl He _ _ _]; split; auto.
  1,2: constructor; [intros g m I; destruct (se_item _ _ Hs g m I) as (H1 & H2 & H3 & H4); auto|apply Hs|apply Hs|apply Hs|].
  1,2: intros p; induction p as [|a p IHp] using rev_ind; intros t o H.
  1,3: destruct d; [destruct (He [] t o H eq_refl) as [I|[]]; auto|apply (Hl [] t o H); simpl; lia].
  1,2: destruct (route_prefix _ _ _ _ H) as (u & o' & Hp); specialize (IHp u o' Hp); apply in_types in IHp; destruct IHp as (g & m & Ig & <-).
  1,2: destruct (se_item _ _ Hs g m Ig) as (Gi & Gl & _); destruct (route_child g p a t o _ _ Gi Hp eq_refl H) as (x & Ix & <- & _).
  1,2: destruct (children_item g x Gi Ix) as [[Rx _] Lx]; destruct (Nat.eq_dec (length (d_index x)) d) as [E|N].
  1,3: destruct (He _ _ _ Rx E) as [I|[]]; auto.
  1,2: apply (Hl _ _ _ Rx); lia.
  cbn [ModelStruct.levels] in H. eapply IH; [|exact H]. exact (level_step _ _ _ _ _ _ L).
Qed.
Definition root : dfield := mkD st [] [(0, None)] [] false false false O.
Lemma level_init : level_ok 0 [root] (fun _ => O) (fun _ => false) [] [].
Proof.
  assert (I0 : itemAt root) by (split; [constructor|reflexivity]).
  assert (Z : forall (p : list nat), length p = 0%nat -> p = []) by (intros [|]; auto; discriminate).
  constructor; simpl; try tauto; try lia.
  - constructor; simpl; try tauto. constructor.
  - intros f [<-|[]]. auto.
  - repeat constructor; auto.
  - repeat constructor.
  - intros p t o H L. apply Z in L. subst p. apply route_nil in H. destruct H as [-> _]. auto.
  - intros f [<-|[]] _ p o H L. simpl in L. apply Z in L. subst p. left. reflexivity.
  - intros f [<-|[]] _ _ p o H L. simpl in L. apply Z in L. subst p. left. reflexivity.
Qed.
Theorem search_spec fuel result : levels fuel [root] (fun _ => O) (fun _ => false) [] = Some result ->
  exists seen, search_ok seen /\ result = found seen.
Proof. apply (levels_spec fuel 0 _ _ _ _ []), level_init. Qed.

(** with finitely many types, the search ends *)
Lemma levels_ends U : (forall p t o, route st p t o -> In t U) ->
  forall fuel d current count visited fields seen, level_ok d current count visited fields seen ->
  (length U < fuel + length seen)%nat -> levels fuel current count visited fields <> None.
Proof.
  intros HU. induction fuel as [|fuel IH]; intros d current count visited fields seen L Hl.
  - exfalso. assert (X : (length (types seen) <= length U)%nat).
    { apply NoDup_incl_length; [apply (se_nodup _ _ (le_seen _ _ _ _ _ _ L))|]. intros t I. apply in_types in I. destruct I as (f & m & I & <-).
      destruct (se_item _ _ (le_seen _ _ _ _ _ _ L) f m I) as [[Rf _] _]. eauto. }
    unfold types in X. rewrite map_length in X. lia.
  - destruct current as [|f current]; [discriminate|]. cbn [ModelStruct.levels]. pose proof (level_step _ _ _ _ _ _ L) as L'.
    destruct (filter (isNew visited) (f :: current)) as [|g news] eqn:E.
    + (* no new struct: the next level is empty *)
      set (s := fold_left _ _ _) in *. assert (X : l_next s = []).
      { assert (N0 : next_ok [] (l_next (mkL [] (fun _ => O) visited fields)) (l_nextCount (mkL [] (fun _ => O) visited fields))).
        { constructor; simpl; auto; try tauto; try constructor. }
        destruct (explore_level count (f :: current) (le_nodup _ _ _ _ _ _ L) _ _ N0) as (N & _ & _). cbn [l_visited] in N. rewrite E in N. fold s in N.
        destruct (l_next s) as [|x l] eqn:En; auto. exfalso. apply (no_sub _ _ _ N x). simpl. auto. }
      rewrite X. intros Q. destruct fuel; simpl in Q; discriminate Q.
    + eapply IH; [exact L'|]. rewrite app_length. simpl. lia.
Qed.
Theorem search_ends U : (forall p t o, route st p t o -> In t U) -> levels (S (length U)) [root] (fun _ => O) (fun _ => false) [] <> None.
Proof. intros HU. apply (levels_ends U HU _ 0 _ _ _ _ []); [apply level_init|]. simpl. lia. Qed.

(** ** Candidates *)
Lemma record_candidate f j sf n o : itemAt f -> nth_error (rt_fields (R (d_typ f))) j = Some sf -> declsb sf = Some (n, o) ->
  candidate st (d_typ f) j (record R f j sf n o).
Proof.
  intros [Hr _] N D. unfold record. destruct (route_last _ _ _ _ Hr) as (l & v & r & E). rewrite E in *. rewrite addOffset_snoc.
  assert (Dc : declares sf (labelOf n) o) by (apply (declares_iff (d_typ f)); eauto using nth_error_In).
  assert (E1 : (match n with [] => sf_name sf | _ => n end) = (match labelOf n with Some n' => n' | None => sf_name sf end)) by now destruct n.
  assert (E2 : (match n with [] => false | _ => true end) = (match labelOf n with Some _ => true | None => false end)) by now destruct n.
  rewrite E1, E2. eapply ca_field; eauto.
  - now apply base_iff.
  - rewrite andb_true_iff, Contains_spec, kind_basic by discriminate. tauto.
  - apply Contains_spec. discriminate.
Qed.
Lemma candidate_inv t i fd : candidate st t i fd -> exists p offs sf n o, route st p t offs /\ nth_error (rt_fields (R t)) i = Some sf /\
  declsb sf = Some (n, o) /\ fd = record R (mkD t p offs [] false false false O) i sf n o.
Proof.
  intros [p offs v r sf label opts u quoted omit Hr N D B Q O].
  exists p, (offs ++ [(v, r)]), sf. apply (declares_iff t) in D; eauto using nth_error_In. destruct D as (n & D & ->). exists n, opts.
  split; [auto|]. split; [auto|]. split; [auto|]. unfold record. simpl. rewrite addOffset_snoc. apply base_iff in B. subst u.
  assert (quoted = Contains opts (bs "string") && isBasic R (fieldType R sf)) as ->.
  { apply eq_true_iff_eq. rewrite Q, andb_true_iff, Contains_spec, kind_basic by discriminate. tauto. }
  assert (omit = Contains opts (bs "omitempty")) as -> by (apply eq_true_iff_eq; rewrite O, Contains_spec by discriminate; tauto).
  f_equal; now destruct n.
Qed.
(** the field of the found struct that corresponds to a candidate *)
Lemma candidate_found seen fd : search_ok seen -> is_candidate R isLetter isDigit onlyTaggedField st fd ->
  exists f m p i offs sf n o, In (f, m) seen /\ nth_error (rt_fields (R (d_typ f))) i = Some sf /\ declsb sf = Some (n, o) /\
    route st p (d_typ f) offs /\ fd = record R (mkD (d_typ f) p offs [] false false false O) i sf n o /\ In (record R f i sf n o) (records f).
Proof.
  intros S (t & i & C). apply candidate_inv in C. destruct C as (p & offs & sf & n & o & Hr & N & D & ->).
  pose proof (sr_all _ S p t offs Hr) as I. apply in_types in I. destruct I as (f & m & I & <-).
  exists f, m, p, i, offs, sf, n, o. repeat (split; [solve [auto]|]). apply in_records. eauto 10.
Qed.
Lemma in_found seen fd : In fd (found seen) <-> exists f m, In (f, m) seen /\ In fd (records f).
Proof.
  unfold found. rewrite in_flat_map. split.
  - intros ([f m] & I & H). exists f, m. split; auto. now apply in_dup in H.
  - intros (f & m & I & H). exists (f, m). split; auto. simpl. now apply in_dup.
Qed.
Lemma found_candidate seen fd : search_ok seen -> In fd (found seen) -> is_candidate R isLetter isDigit onlyTaggedField st fd.
Proof.
  intros S I. apply in_found in I. destruct I as (f & m & I & H). apply in_records in H. destruct H as (j & sf & n & o & N & D & ->).
  exists (d_typ f), j. apply record_candidate; auto. apply (sr_item _ S f m I).
Qed.
(** a struct found with one last embedding gives each of its fields once *)
Lemma found_once seen f m fd : search_ok seen -> In (f, m) seen -> In fd (records f) ->
  exists A B, found seen = A ++ (if m then [fd; fd] else [fd]) ++ B /\ ~ In fd A /\ ~ In fd B.
Proof.
  intros S I H. apply in_split in I. destruct I as (s1 & s2 & E).
  assert (Oth : forall g m', In (g, m') (s1 ++ s2) -> ~ In fd (records g)).
  { intros g m' Ig H'. apply in_records in H, H'. destruct H as (j & sf & n & o & N & D & ->), H' as (j' & sf' & n' & o' & N' & D' & E').
    apply (f_equal d_index) in E'. simpl in E'. apply app_inj_tail in E'. destruct E' as [E' _].
    assert (g = f) as ->.
    { apply item_eq; auto; [apply (sr_item _ S g m')|apply (sr_item _ S f m)]; rewrite E; apply in_or_app; apply in_app_or in Ig; simpl; intuition. }
    pose proof (sr_nodup _ S) as ND. rewrite E in ND. unfold types in ND. rewrite map_app in ND. simpl in ND. apply NoDup_remove_2 in ND. apply ND.
    rewrite <- map_app. apply in_map_iff. exists (f, m'). auto. }
  assert (Once : exists a b, records f = a ++ fd :: b /\ ~ In fd a /\ ~ In fd b).
  { pose proof (sorted_recordsFrom f (rt_fields (R (d_typ f))) 0) as Sr. fold (records f) in Sr. apply in_split in H. destruct H as (a & b & Er). exists a, b.
    split; auto. rewrite Er in Sr. clear - Sr. split; intros I.
    - apply (index_lt_irr (d_index fd)). apply (sorted_app_lt before a (fd :: b) fd fd Sr I). simpl. auto.
    - apply sorted_app_r in Sr. inversion Sr as [|? ? S1 F]; subst. rewrite Forall_forall in F. apply (index_lt_irr (d_index fd)), (F fd I). }
  destruct Once as (a & b & Er & Na & Nb). unfold found. rewrite E, flat_map_app. cbn [flat_map fst snd]. rewrite Er, dup_app.
  change (fd :: b) with ([fd] ++ b). rewrite dup_app.
  assert (Out : forall s, (forall g m', In (g, m') s -> ~ In fd (records g)) -> ~ In fd (flat_map (fun x => dup (snd x) (records (fst x))) s)).
  { intros s Hs I. apply in_flat_map in I. destruct I as ([g m'] & Ig & H'). simpl in H'. apply in_dup in H'. now apply (Hs g m' Ig). }
  exists (flat_map (fun x => dup (snd x) (records (fst x))) s1 ++ dup m a), (dup m b ++ flat_map (fun x => dup (snd x) (records (fst x))) s2).
  split; [|split].
  - rewrite <- !app_assoc. unfold dup at 3. simpl. destruct m; reflexivity.
  - rewrite in_app_iff, in_dup. intros [K|K]; [|contradiction]. revert K. apply Out. intros g m' Ig. apply (Oth g m'), in_or_app. auto.
  - rewrite in_app_iff, in_dup. intros [K|K]; [contradiction|]. revert K. apply Out. intros g m' Ig. apply (Oth g m'), in_or_app. auto.
Qed.
End Search.
