(** C36: decoding through chains of pointers and interfaces. *)
From Coq Require Import String ZArith List Bool Lia Arith.
From Verif Require Import Base ModelIter ModelStack ModelSkip ModelFloat ModelRead ModelEface Spec SpecRead SpecEface
  Sim SimOps FloatFacts IterFacts EfaceFacts Properties1.
Import ListNotations.
Local Open Scope Z_scope.

Section C36.
Variable F : floatOps.
Notation V := (gval F).
Variable elem : nat -> cell V.
Variable other : Z -> EM V unit.
Implicit Types s : estate V.
Notation decodeAt := (decodeAt F elem other).
Notation unmarshalAt := (unmarshalAt F elem other).
Definition blank (w : bytes) : bool := match w with [] => false | _ => true end.

(** a cycle is reported when the interface that the others are compared with is on it *)
Theorem C36_finds s a m w c l : fresh F s -> e_heap s 0 = COther -> at_value s w c l ->
  checkpoint (e_heap s) (blank w) a m -> cyclic (e_heap s) m ->
  exists n, forall fuel, (n <= fuel)%nat ->
    exists s', decodeAt fuel a s = (Err ErrEfaceLooping, s') /\ e_heap s' = e_heap s /\ stream (e_it s') = c :: l.
Proof.
  intros Hf H0 Ha Ck Cy.
  assert (Nm : m <> 0). { intros ->. destruct Cy as [n C]. inversion C as [|? ? b ? P K]; subst. destruct P; congruence. }
  assert (Step : w <> [] -> forall b, points (e_heap s) a b -> first_eface (e_heap s) b m ->
    exists n, forall fuel, (n <= fuel)%nat -> exists s', decodeAt fuel a s = (Err ErrEfaceLooping, s') /\ e_heap s' = e_heap s /\ stream (e_it s') = c :: l).
  { intros Nw b P Fe. destruct (finds_first F elem other (e_heap s) b m Nm Fe Cy) as (n & H).
    exists (S n). intros [|fuel] Hfu; [lia|].
    destruct (next_stream F elem other a b s w c l fuel Hf H0 Ha Nw P) as (s1 & S1 & S2 & S3 & [_ Q]). assert (Hh := sa_heap _ _ S3).
    destruct (H fuel s1 c l) as (s' & E & S' & A'); auto; [lia|]. rewrite E in Q. exists s'. split; [apply Q; discriminate|].
    split; [rewrite (sa_heap _ _ S'); auto|apply A']. }
  destruct w as [|w0 w].
  - destruct Ck as [[_ Fe]|(X & _)]; [|discriminate]. destruct (finds_first F elem other (e_heap s) a m Nm Fe Cy) as (n & H).
    exists n. intros fuel Hfu. destruct (H fuel s c l) as (s' & E & S' & A'); auto. exists s'. split; auto. split; [apply S'|apply A'].
  - assert (Nw : w0 :: w <> []) by discriminate. destruct Ck as [[[X|Ne] Fe]|(_ & _ & b & P & Fe)]; [discriminate| |now apply (Step Nw b)].
    destruct Fe as (n & C & E & Av). destruct n as [|n]; [inversion C; subst; contradiction|].
    inversion C as [|? ? b ? P K]; subst. apply (Step Nw b P). exists n. split; auto. split; auto.
    intros k x Hk Cx. apply (Av (S k)); [lia|]. econstructor; eauto.
Qed.
(** otherwise pointers that never end make the decoder recurse for ever *)
Theorem C36_spins s a w c l : fresh F s -> e_heap s 0 = COther -> at_value s w c l -> endless (e_heap s) a ->
  (forall m, checkpoint (e_heap s) (blank w) a m -> ~ cyclic (e_heap s) m) ->
  forall fuel, fst (decodeAt fuel a s) = OutOfFuel.
Proof.
  intros Hf H0 Ha En Ck fuel. destruct w as [|w0 w].
  - apply (spins_first F elem other fuel a s c l); auto. left. split; auto. intros m Fe. apply Ck. left. auto.
  - destruct fuel as [|fuel]; [reflexivity|]. destruct (endless_next _ _ En) as (b & P & En').
    destruct (next_stream F elem other a b s (w0 :: w) c l fuel Hf H0 Ha ltac:(discriminate) P) as (s1 & S1 & S2 & S3 & [-> _]).
    assert (Hh := sa_heap _ _ S3). apply (spins_first F elem other fuel b s1 c l); rewrite ?Hh; auto. left. split; auto.
    intros m Fe. apply Ck. destruct (eface_dec (e_heap s) a) as [E|Ne].
    + right. split; auto. split; auto. exists b. auto.
    + left. split; auto. destruct Fe as (n & C & E & Av). exists (S n). split; [econstructor; eauto|]. split; auto.
      intros [|k] x Hk Cx; inversion Cx as [|? ? b' ? P' K]; subst; auto. apply (Av k); [lia|]. now rewrite (points_fun _ _ _ _ P P').
Qed.
(** pointers that end: the variable at the end is decoded; afterwards the pointers on the way are as that has left them, or as
    they were before *)
Theorem C36_ends s a b n w c l : fresh F s -> e_heap s 0 = COther -> at_value s w c l ->
  chain (e_heap s) n a b -> (forall x, ~ points (e_heap s) b x) ->
  forall fuel, exists s', e_heap s' = e_heap s /\ (exists w', stream (e_it s') = w' ++ c :: l /\ ws w') /\
    fst (decodeAt (n + fuel) a s) = fst (decodeAt fuel b s') /\
    e_it (snd (decodeAt (n + fuel) a s)) = e_it (snd (decodeAt fuel b s')) /\
    forall d, e_heap (snd (decodeAt (n + fuel) a s)) d = e_heap (snd (decodeAt fuel b s')) d \/
      (e_heap (snd (decodeAt (n + fuel) a s)) d = e_heap s d /\ exists x, points (e_heap s) d x).
Proof.
  intros Hf H0 Ha C Nb fuel. destruct (ends_go F elem other n fuel a b s w c l) as (s' & w' & A & S' & P & _); auto.
  - destruct (target (e_heap s) b) as [x|] eqn:E; auto. apply target_points in E. now elim (Nb x).
  - exists s'. split; [apply S'|]. split; [exists w'; split; apply A|]. split; [apply P|]. split; apply P.
Qed.
(** an interface at the end *)
Lemma end_interface s a b n w c l x : fresh F s -> e_heap s 0 = COther -> at_value s w c l ->
  chain (e_heap s) n a b -> e_heap s b = CEface x -> (forall d, x <> HPtr d) ->
  forall fuel, exists s' w', at_value s' w' c l /\ same s s' /\ passes F (e_heap s) (decodeAt (n + S fuel) a s) (decodeAt (S fuel) b s') /\
    exists s2, e_it s2 = e_it s' /\ e_heap s2 = e_heap s' /\
      decodeAt (S fuel) b s' = ebind (onIter (Read F)) (fun v => store b (CEface (hold F v))) s2.
Proof.
  intros Hf H0 Ha C Hb Nx fuel. destruct (ends_go F elem other n (S fuel) a b s w c l) as (s' & w' & A & S' & P & Fm); auto.
  { unfold target. rewrite Hb. destruct x; auto. now elim (Nx b0). }
  exists s', w'. split; [auto|]. split; [auto|]. split; [auto|]. assert (Hh := sa_heap _ _ S').
  assert (Ck : exists s2, checkLoop b s' = (Ok true, s2) /\ e_it s2 = e_it s' /\ e_heap s2 = e_heap s').
  { destruct Fm as [Fr|(m & M & Nm)]; [exists (mark F s' b); split; auto; now apply check_fresh|].
    exists s'. rewrite (check_marked F b m s' M). destruct (Z.eqb_spec b m); [contradiction|auto]. }
  destruct Ck as (s2 & E2 & I2 & I3). exists s2. split; [auto|]. split; [auto|].
  simpl. unfold ebind at 1, load. rewrite Hh, Hb. unfold efaceAt. unfold ebind at 1. rewrite E2.
  destruct x; auto. now elim (Nx b0).
Qed.
(** decoding succeeds on exactly the texts that start with a value *)
Theorem C36_value s a b n w c l x : float_sane F -> fresh F s -> e_heap s 0 = COther -> at_value s w c l ->
  chain (e_heap s) n a b -> e_heap s b = CEface x -> (forall d, x <> HPtr d) ->
  forall fuel, (fst (decodeAt (n + S fuel) a s) = Ok tt <->
    exists t j r, c :: l = t ++ r /\ value t j /\ nums_ok F (it_useNumber (e_it s)) j /\ vends t j (fin (e_it s)) r).
Proof.
  intros Hs Hf H0 Ha C Hb Nx fuel. destruct (end_interface s a b n w c l x Hf H0 Ha C Hb Nx fuel) as (s' & w' & A & S' & P & s2 & I2 & _ & Eq).
  rewrite (pa_res _ _ _ _ P), <- (sa_num _ _ S'), <- (sa_fin _ _ S').
  assert (R : fst (decodeAt (S fuel) b s') = Ok tt <-> exists v, fst (Read F (e_it s')) = Ok v).
  { rewrite Eq. unfold ebind, onIter. rewrite I2.
    destruct (Read F (e_it s')) as [[v| | |] it']; simpl; split; try discriminate; try (intros [? ?]; discriminate); eauto. }
  rewrite R. destruct A as [W D E Hw Hc Hn]. split.
  - intros [v Ev]. assert (Y : yields (Read F) (e_it s') v (stream (snd (Read F (e_it s'))))) by now split.
    destruct (Read_nums F (e_it s') v _ Hs W Y) as (w1 & t & j & E1 & Hw1 & Vt & N & Ve). rewrite E in E1.
    destruct (ws_split w' c l Hw Hc t j w1 _ Hw1 Vt E1) as [-> X]. eauto 10.
  - intros (t & j & r & Et & Vt & N & Ve).
    destruct (Read_yields_complete F Hs (e_it s') w' t j r W D) as (v & [Y _] & _); auto; [congruence|]. eauto.
Qed.
(** then that interface holds the value, and all other variables are as before *)
Theorem C36_stores s a b n w c l x t j r : float_sane F -> fresh F s -> e_heap s 0 = COther -> at_value s w c l ->
  chain (e_heap s) n a b -> e_heap s b = CEface x -> (forall d, x <> HPtr d) ->
  c :: l = t ++ r -> value t j -> nums_ok F (it_useNumber (e_it s)) j -> vends t j (fin (e_it s)) r ->
  forall fuel, exists s' y, decodeAt (n + S fuel) a s = (Ok tt, s') /\ stream (e_it s') = r /\
    e_heap s' b = CEface y /\ holds_json F (it_useNumber (e_it s)) j y /\ forall d, d <> b -> e_heap s' d = e_heap s d.
Proof.
  intros Hs Hf H0 Ha C Hb Nx Et Vt N Ve fuel.
  destruct (end_interface s a b n w c l x Hf H0 Ha C Hb Nx fuel) as (s1 & w' & A & S' & P & s2 & I2 & I3 & Eq).
  rewrite <- (sa_num _ _ S') in N |- *. rewrite <- (sa_fin _ _ S') in Ve. destruct A as [W D E Hw Hc Hn].
  destruct (Read_yields_complete F Hs (e_it s1) w' t j r W D) as (v & [Y1 Y2] & Gv); auto; [congruence|].
  destruct (decodeAt (n + S fuel) a s) as [r1 s'] eqn:Ed. exists s', (hold F v).
  destruct (Read F (e_it s1)) as [r0 it'] eqn:Er. simpl in Y1, Y2. subst r0.
  unfold ebind, onIter in Eq. rewrite I2, Er in Eq. cbn [e_it e_heap e_ptr e_off e_new store] in Eq. unfold store in Eq. cbn [e_it e_heap e_ptr e_off e_new] in Eq.
  rewrite Eq, I3, (sa_heap _ _ S') in P. destruct P as [P1 _ P3 P4]. cbn [fst snd e_it e_heap] in P1, P3, P4.
  split; [now rewrite P1|]. split; [now rewrite P3|].
  assert (Nb : forall x', ~ points (e_heap s) b x') by (intros x' [H|t' H]; rewrite Hb in H; inversion H; subst; now elim (Nx x')).
  split; [|split].
  - destruct (P4 b) as [->|[_ (x' & H)]]; [now rewrite Z.eqb_refl|now elim (Nb x')].
  - inversion Gv; subst; simpl; eauto.
  - intros d Nd. destruct (P4 d) as [->|[H _]]; auto. destruct (Z.eqb_spec d b); [contradiction|reflexivity].
Qed.
(** a nil pointer at the end: a new variable is decoded, and on success stored in the pointer *)
Theorem C36_new s a b n w c l t : fresh F s -> e_heap s 0 = COther -> at_value s w c l ->
  chain (e_heap s) n a b -> e_heap s b = CPtr t None ->
  forall fuel, exists s1, (forall d, e_heap s1 d = if d =? e_new s then elem t else e_heap s d) /\ e_new s1 = e_new s + 1 /\
    at_value s1 [] c l /\
    let inner := decodeAt fuel (e_new s) s1 in
    fst (decodeAt (n + S fuel) a s) = fst inner /\
    (fst inner = Ok tt -> exists s', decodeAt (n + S fuel) a s = (Ok tt, s') /\ e_it s' = e_it (snd inner) /\
      e_heap s' b = CPtr t (Some (e_new s)) /\
      forall d, d <> b -> e_heap s' d = e_heap (snd inner) d \/ (e_heap s' d = e_heap s d /\ exists x, points (e_heap s) d x)).
Proof.
  intros Hf H0 Ha C Hb fuel. destruct (ends_go F elem other n (S fuel) a b s w c l) as (s0 & w' & A & S' & P & _); auto.
  { unfold target. now rewrite Hb. }
  destruct A as [W D E Hw Hc Hn]. destruct (token (e_it s0) w' c l W D E Hw Hc) as (it' & En & W' & D' & E' & O & Ef & Eu & _).
  exists (mkE (fun d => if d =? e_new s then elem t else e_heap s d) it' (e_ptr s0) (e_off s0) (e_new s + 1)).
  split; [reflexivity|]. split; [reflexivity|]. split; [constructor; auto; constructor|]. cbv zeta.
  cbn [ModelEface.decodeAt] in P. unfold ebind at 1 in P. unfold load in P. rewrite (sa_heap _ _ S'), Hb in P. unfold pointerAt in P.
  unfold ebind at 1 in P. unfold onIter in P. rewrite En in P. destruct (Z.eqb_spec c c_n) as [->|_]; [now elim Hn|].
  unfold ebind at 1 in P. unfold allocate in P. cbn [e_it e_heap e_ptr e_off e_new] in P. rewrite (sa_heap _ _ S'), (sa_new _ _ S') in P.
  set (s1 := mkE _ _ _ _ _) in *. unfold ebind in P. destruct (decodeAt fuel (e_new s) s1) as [[[]|e| |] s2] eqn:Ei; cbn [fst snd].
  - destruct P as [P1 _ P3 P4]. cbn [fst snd store e_it e_heap] in P1, P3, P4. split; [exact P1|]. intros _.
    destruct (decodeAt (n + S fuel) a s) as [r1 s']. cbn [fst snd] in P1, P3, P4. exists s'. split; [now rewrite P1|]. split; [exact P3|]. split.
    + destruct (P4 b) as [->|[_ (x' & [H|t' H])]]; [now rewrite Z.eqb_refl|congruence|congruence].
    + intros d Nd. destruct (P4 d) as [->|H]; auto. destruct (Z.eqb_spec d b); [contradiction|auto].
  - split; [apply P|discriminate].
  - split; [apply P|discriminate].
  - split; [apply P|discriminate].
Qed.
(** null replaces the pointer in the first interface, whatever the pointer leads to *)
Theorem C36_null s a b w l fuel : fresh F s -> wf (e_it s) -> ~ dirty (e_it s) -> stream (e_it s) = w ++ bs "null" ++ l -> ws w ->
  e_heap s a = CEface (HPtr b) -> (forall t x, e_heap s b <> CPtr t x) ->
  exists s', decodeAt (S fuel) a s = (Ok tt, s') /\ stream (e_it s') = l /\ e_heap s' a = CEface HNil /\
    forall d, d <> a -> e_heap s' d = e_heap s d.
Proof.
  intros Hf W D E Hw Hh Np. change (bs "null" ++ l) with (110 :: bs "ull" ++ l) in E.
  destruct (token (e_it s) w 110 (bs "ull" ++ l) W D E Hw) as (it1 & En & W1 & D1 & E1 & _ & _ & _ & Pk); [unfold is_ws; lia|].
  destruct (null_rest it1 l W1 D1 Pk E1) as (it2 & it3 & Ei & Ex & Es).
  exists (mkE (fun d => if d =? a then CEface HNil else e_heap s d) it3 a (InputOffset (e_it s)) (e_new s)).
  split; [|split; [exact Es|split]].
  - simpl. unfold ebind, load. rewrite Hh. unfold efaceAt, ebind. rewrite (check_fresh F a s Hf). unfold onIter, mark. cbn [e_it e_heap e_ptr e_off e_new].
    rewrite En. cbn [e_it e_heap e_ptr e_off e_new]. change (110 =? c_n) with true. cbn iota. unfold expectNull, ebind, onIter. cbn [e_it e_heap e_ptr e_off e_new].
    rewrite Ei. cbn [e_it e_heap e_ptr e_off e_new]. rewrite Ex. unfold load. cbn [e_it e_heap e_ptr e_off e_new].
    destruct (e_heap s b) as [x|t x|] eqn:Eb; [reflexivity|now elim (Np t x)|reflexivity].
  - simpl. now rewrite Z.eqb_refl.
  - intros d Nd. simpl. destruct (Z.eqb_spec d a); [contradiction|reflexivity].
Qed.
(** a pointer to a pointer variable is replaced by a pointer to a new variable of the same type *)
Theorem C36_null_new s a b t x w l fuel : fresh F s -> wf (e_it s) -> ~ dirty (e_it s) -> stream (e_it s) = w ++ bs "null" ++ l -> ws w ->
  e_heap s a = CEface (HPtr b) -> e_heap s b = CPtr t x -> a <> e_new s ->
  exists s', decodeAt (S fuel) a s = (Ok tt, s') /\ stream (e_it s') = l /\ e_heap s' a = CEface (HPtr (e_new s)) /\
    e_heap s' (e_new s) = CPtr t None /\ e_new s' = e_new s + 1 /\ forall d, d <> a -> d <> e_new s -> e_heap s' d = e_heap s d.
Proof.
  intros Hf W D E Hw Hh Hb Na. change (bs "null" ++ l) with (110 :: bs "ull" ++ l) in E.
  destruct (token (e_it s) w 110 (bs "ull" ++ l) W D E Hw) as (it1 & En & W1 & D1 & E1 & _ & _ & _ & Pk); [unfold is_ws; lia|].
  destruct (null_rest it1 l W1 D1 Pk E1) as (it2 & it3 & Ei & Ex & Es).
  exists (mkE (fun d => if d =? a then CEface (HPtr (e_new s)) else if d =? e_new s then CPtr t None else e_heap s d) it3 a (InputOffset (e_it s)) (e_new s + 1)).
  split; [|split; [exact Es|split; [|split; [|split]]]].
  - simpl. unfold ebind, load. rewrite Hh. unfold efaceAt, ebind. rewrite (check_fresh F a s Hf). unfold onIter, mark. cbn [e_it e_heap e_ptr e_off e_new].
    rewrite En. cbn [e_it e_heap e_ptr e_off e_new]. change (110 =? c_n) with true. cbn iota. unfold expectNull, ebind, onIter. cbn [e_it e_heap e_ptr e_off e_new].
    rewrite Ei. cbn [e_it e_heap e_ptr e_off e_new]. rewrite Ex. unfold load. cbn [e_it e_heap e_ptr e_off e_new].
    rewrite Hb. reflexivity.
  - simpl. now rewrite Z.eqb_refl.
  - simpl. destruct (Z.eqb_spec (e_new s) a); [congruence|]. now rewrite Z.eqb_refl.
  - reflexivity.
  - intros d Nd Nn. simpl. destruct (Z.eqb_spec d a); [contradiction|]. destruct (Z.eqb_spec d (e_new s)); [contradiction|reflexivity].
Qed.
(** null clears a pointer variable *)
Theorem C36_null_pointer s a t x w l fuel : wf (e_it s) -> ~ dirty (e_it s) -> stream (e_it s) = w ++ bs "null" ++ l -> ws w ->
  e_heap s a = CPtr t x ->
  exists s', decodeAt (S fuel) a s = (Ok tt, s') /\ stream (e_it s') = l /\ e_heap s' a = CPtr t None /\
    forall d, d <> a -> e_heap s' d = e_heap s d.
Proof.
  intros W D E Hw Hh. change (bs "null" ++ l) with (110 :: bs "ull" ++ l) in E.
  destruct (token (e_it s) w 110 (bs "ull" ++ l) W D E Hw) as (it1 & En & W1 & D1 & E1 & _ & _ & _ & Pk); [unfold is_ws; lia|].
  destruct (null_rest it1 l W1 D1 Pk E1) as (it2 & it3 & Ei & Ex & Es).
  exists (mkE (fun d => if d =? a then CPtr t None else e_heap s d) it3 (e_ptr s) (e_off s) (e_new s)).
  split; [|split; [exact Es|split]].
  - simpl. unfold ebind, load. rewrite Hh. unfold pointerAt, ebind. unfold onIter. cbn [e_it e_heap e_ptr e_off e_new].
    rewrite En. cbn [e_it e_heap e_ptr e_off e_new]. change (110 =? c_n) with true. cbn iota. unfold expectNull, ebind, onIter. cbn [e_it e_heap e_ptr e_off e_new].
    rewrite Ei. cbn [e_it e_heap e_ptr e_off e_new]. rewrite Ex. reflexivity.
  - simpl. now rewrite Z.eqb_refl.
  - intros d Nd. simpl. destruct (Z.eqb_spec d a); [contradiction|reflexivity].
Qed.
(** Unmarshal into an interface from which pointers lead back to it *)
Theorem C36_unmarshal s a w c l : wf (e_it s) -> e_heap s 0 = COther -> ws w -> ~ is_ws c -> c <> 110 ->
  is_eface (e_heap s) a -> cyclic (e_heap s) a ->
  exists n, forall fuel, (n <= fuel)%nat ->
    exists s', unmarshalAt fuel a (w ++ c :: l) s = (Err ErrEfaceLooping, s') /\ e_heap s' = e_heap s.
Proof.
  intros W H0 Hw Hc Hn E Cy. destruct (checkpoint_cyclic _ (blank w) _ E Cy) as (m & Ck & Cm).
  destruct (C36_finds (mkE (e_heap s) (ResetBytes (w ++ c :: l) (e_it s)) 0 O (e_new s)) a m w c l) as (n & H); auto.
  - left. reflexivity.
  - constructor; auto; [now apply wf_ResetBytes|apply clean_ResetBytes|apply stream_ResetBytes].
  - exists n. intros fuel Hf. destruct (H fuel Hf) as (s' & H1 & H2 & _). exists s'. auto.
Qed.
End C36.

(** ** Examples *)
Definition demoOther : Z -> EM (gval textF) unit := fun _ => onIter Skip.
(** a pointer type whose element type is itself *)
Definition selfElem (t : nat) : cell (gval textF) := CPtr t None.
(** 1 -> 2 -> 3 -> 1 through the pointer variable 2; 5 -> 6 -> 6; 10 -> 11 -> 12, an empty interface; 20 -> 21 -> 22, two
    pointer variables and another variable; 30 -> 30, a pointer variable; 40, a nil pointer *)
Definition demoHeap (a : Z) : cell (gval textF) :=
  match a with
  | 1 => CEface (HPtr 2) | 2 => CPtr 0 (Some 3) | 3 => CEface (HPtr 1)
  | 5 => CEface (HPtr 6) | 6 => CEface (HPtr 6)
  | 10 => CEface (HPtr 11) | 11 => CPtr 0 (Some 12) | 12 => CEface HNil
  | 20 => CPtr 1 (Some 21) | 21 => CPtr 0 (Some 22)
  | 30 => CPtr 0 (Some 30) | 40 => CPtr 0 None
  | _ => COther
  end.
Definition demoAt (s : string) : estate (gval textF) := mkE demoHeap (small s) 0 O 100.
Lemma demo_fresh s : fresh textF (demoAt s).
Proof. now left. Qed.
Lemma demo_value s w c l : bs s = w ++ c :: l -> ws w -> ~ is_ws c -> c <> 110 -> at_value (demoAt s) w c l.
Proof.
  intros E Hw Hc Hn. constructor; [apply wf_small|apply clean_small| |auto|auto|auto]. simpl e_it. unfold small. rewrite stream_Reset. exact E.
Qed.
Ltac chains := repeat (eapply ch_step; [first [apply po_eface; reflexivity | eapply po_ptr; reflexivity]|]); apply ch_here.
Lemma demo_cycle1 : cyclic demoHeap 1. Proof. exists 2%nat. chains. Qed.
Lemma demo_cycle3 : cyclic demoHeap 3. Proof. exists 2%nat. chains. Qed.
Lemma demo_cycle6 : cyclic demoHeap 6. Proof. exists 0%nat. chains. Qed.
Ltac blanks := repeat constructor; unfold is_ws; lia.

(** with blanks before the value, the second interface is the checkpoint *)
Lemma demo_checkpoint3 : checkpoint demoHeap true 1 3.
Proof.
  right. split; auto. split; [now exists (HPtr 2)|]. exists 2. split; [now apply po_eface|]. exists 1%nat. split; [chains|]. split; [now exists (HPtr 1)|].
  intros [|k] x Hk C; [|lia]. inversion C; subst. intros [y Y]. discriminate.
Qed.
Example C36_finds_example : exists n, forall fuel, (n <= fuel)%nat ->
  exists s', decodeAt textF selfElem demoOther fuel 1 (demoAt "  12 ") = (Err ErrEfaceLooping, s') /\ e_heap s' = demoHeap /\
    stream (e_it s') = bs "12 ".
Proof.
  apply (C36_finds textF selfElem demoOther (demoAt "  12 ") 1 3 (bs "  ") 49 (bs "2 ")); auto.
  - apply demo_fresh.
  - apply demo_value; [reflexivity|blanks|unfold is_ws; lia|lia].
  - apply demo_checkpoint3.
  - apply demo_cycle3.
Qed.
Example C36_finds_run : fst (decodeAt textF selfElem demoOther 6 1 (demoAt "  12 ")) = Err ErrEfaceLooping.
Proof. vm_compute. reflexivity. Qed.
Example C36_unmarshal_example : exists n, forall fuel, (n <= fuel)%nat ->
  exists s', unmarshalAt textF selfElem demoOther fuel 1 (bs "{}") (demoAt "") = (Err ErrEfaceLooping, s') /\ e_heap s' = demoHeap.
Proof.
  apply (C36_unmarshal textF selfElem demoOther (demoAt "") 1 [] 123 [125]); auto; try (unfold is_ws; lia).
  - apply wf_small.
  - constructor.
  - now exists (HPtr 2).
  - apply demo_cycle1.
Qed.

(** the claim that every cycle is reported: 5 holds a pointer to 6, which holds a pointer to itself *)
Lemma endless_6 : endless demoHeap 6.
Proof. intros n. exists 6. induction n; [constructor|]. econstructor; [now apply po_eface|auto]. Qed.
Lemma chain_6 n b : chain demoHeap n 6 b -> b = 6.
Proof.
  intros H. remember 6 as a eqn:E. induction H as [|n a x c P K IH]; auto. subst. destruct P as [P|t P]; [|discriminate]. injection P as <-. auto.
Qed.
Lemma endless_5 : endless demoHeap 5.
Proof. intros [|n]; [exists 5; constructor|]. exists 6. econstructor; [now apply po_eface|]. destruct (endless_6 n) as [b C]. now destruct (chain_6 _ _ C). Qed.
Theorem C36_rho_refuted : exists h a (s : estate (gval textF)), e_heap s = h /\ fresh textF s /\ wf (e_it s) /\ is_eface h a /\ endless h a /\
  (exists m, cyclic h m /\ exists n, chain h n a m) /\
  forall fuel, fst (decodeAt textF selfElem demoOther fuel a s) = OutOfFuel.
Proof.
  exists demoHeap, 5, (demoAt "1"). split; [reflexivity|]. split; [apply demo_fresh|]. split; [apply wf_small|]. split; [now exists (HPtr 6)|].
  split; [apply endless_5|]. split; [exists 6; split; [apply demo_cycle6|exists 1%nat; chains]|].
  apply (C36_spins textF selfElem demoOther (demoAt "1") 5 [] 49 []); auto.
  - apply demo_fresh.
  - apply demo_value; [reflexivity|constructor|unfold is_ws; lia|lia].
  - apply endless_5.
  - intros m [[_ (n & C & E & Av)]|[X _]] [k Ck]; [|discriminate].
    destruct n as [|n].
    + inversion C; subst. inversion Ck as [|? ? x ? P K]; subst. destruct P as [P|t P]; [|discriminate]. injection P as <-. apply chain_6 in K. discriminate.
    + apply (Av O 5); [lia|constructor|now exists (HPtr 6)].
Qed.
(** the same variable and a blank before the value: the cycle is reported *)
Example C36_rho_blank : fst (decodeAt textF selfElem demoOther 5 5 (demoAt " 1")) = Err ErrEfaceLooping.
Proof. vm_compute. reflexivity. Qed.
(** a cycle of pointer variables only *)
Theorem C36_pointer_refuted : exists a (s : estate (gval textF)), fresh textF s /\ wf (e_it s) /\ cyclic (e_heap s) a /\
  forall fuel, fst (decodeAt textF selfElem demoOther fuel a s) = OutOfFuel.
Proof.
  exists 30, (demoAt "1"). split; [apply demo_fresh|]. split; [apply wf_small|]. split; [exists 0%nat; chains|].
  assert (C30 : forall n b, chain demoHeap n 30 b -> b = 30).
  { intros n b H. remember 30 as a eqn:E. induction H as [|n a x c P K IH]; auto. subst. destruct P as [P|t P]; [discriminate|]. injection P as _ <-. auto. }
  apply (C36_spins textF selfElem demoOther (demoAt "1") 30 [] 49 []); auto.
  - apply demo_fresh.
  - apply demo_value; [reflexivity|constructor|unfold is_ws; lia|lia].
  - intros n. exists 30. induction n; [constructor|]. econstructor; [now eapply po_ptr|auto].
  - intros m [[_ (n & C & [x E] & _)]|[X _]]; [|discriminate]. apply C30 in C. subst. discriminate.
Qed.
(** type P *P: a nil pointer is followed by new pointers for ever *)
Theorem C36_type_refuted : forall fuel, fst (decodeAt textF selfElem demoOther fuel 40 (demoAt "1")) = OutOfFuel.
Proof.
  assert (G : forall fuel a s, at_value s [] 49 [] -> e_heap s a = CPtr 0 None -> fst (decodeAt textF selfElem demoOther fuel a s) = OutOfFuel).
  { induction fuel as [|fuel IH]; intros a s Ha Hh; [reflexivity|]. destruct Ha as [W D E Hw Hc Hn].
    destruct (token (e_it s) [] 49 [] W D E Hw Hc) as (it' & En & W' & D' & E' & O & _).
    simpl. unfold ebind, load. rewrite Hh. unfold pointerAt, ebind, onIter. rewrite En. change (49 =? c_n) with false. cbn iota. unfold allocate. cbn [e_it e_heap e_ptr e_off e_new].
    match goal with |- context [decodeAt _ _ _ fuel ?x ?s1] =>
      assert (R : fst (decodeAt textF selfElem demoOther fuel x s1) = OutOfFuel);
      [apply IH; [constructor; auto; constructor|simpl; now rewrite Z.eqb_refl]|destruct (decodeAt textF selfElem demoOther fuel x s1) as [r s2]] end.
    simpl in R. now subst r. }
  intros fuel. apply G; [|reflexivity]. apply demo_value; [reflexivity|constructor|unfold is_ws; lia|lia].
Qed.
(** ReadVal again after an error, on the same input and an interface that holds no pointer *)
Theorem C36_retry_refuted : exists a (s : estate (gval textF)), fresh textF s /\ e_heap s a = CEface HNil /\
  fst (decodeAt textF selfElem demoOther 1 a s) = Err EEOF /\
  fst (decodeAt textF selfElem demoOther 1 a (snd (decodeAt textF selfElem demoOther 1 a s))) = Err ErrEfaceLooping.
Proof. exists 12, (demoAt ""). split; [apply demo_fresh|]. split; [reflexivity|]. split; vm_compute; reflexivity. Qed.

Example C36_spins_example : forall fuel, fst (decodeAt textF selfElem demoOther fuel 5 (demoAt "1")) = OutOfFuel.
Proof.
  apply (C36_spins textF selfElem demoOther (demoAt "1") 5 [] 49 []); auto.
  - apply demo_fresh.
  - apply demo_value; [reflexivity|constructor|unfold is_ws; lia|lia].
  - apply endless_5.
  - intros m [[_ (n & C & E & Av)]|[X _]] [k Ck]; [|discriminate].
    destruct n as [|n]; [|apply (Av O 5); [lia|constructor|now exists (HPtr 6)]].
    inversion C; subst. inversion Ck as [|? ? x ? P K]; subst. destruct P as [P|t P]; [|discriminate]. injection P as <-. apply chain_6 in K. discriminate.
Qed.
Example C36_ends_example fuel : exists s', e_heap s' = demoHeap /\ (exists w', stream (e_it s') = w' ++ bs "[1]" /\ ws w') /\
  let r := decodeAt textF selfElem demoOther (2 + fuel) 20 (demoAt " [1]") in
  fst r = fst (decodeAt textF selfElem demoOther fuel 22 s') /\ e_it (snd r) = e_it (snd (decodeAt textF selfElem demoOther fuel 22 s')) /\
  forall d, e_heap (snd r) d = e_heap (snd (decodeAt textF selfElem demoOther fuel 22 s')) d \/
    (e_heap (snd r) d = demoHeap d /\ exists x, points demoHeap d x).
Proof.
  apply (C36_ends textF selfElem demoOther (demoAt " [1]") 20 22 2 (bs " ") 91 (bs "1]")); auto.
  - apply demo_fresh.
  - apply demo_value; [reflexivity|blanks|unfold is_ws; lia|lia].
  - chains.
  - intros x [H|t H]; discriminate.
Qed.
Lemma demo_array : value (bs "[true]") (JArr [JBool true]).
Proof. apply (v_arr (bs "true")), (el_one [] (bs "true") (JBool true) []); constructor. Qed.
Example C36_value_example fuel : fst (decodeAt textF selfElem demoOther (2 + S fuel) 10 (demoAt " [true]x")) = Ok tt.
Proof.
  apply (C36_value textF selfElem demoOther (demoAt " [true]x") 10 12 2 (bs " ") 91 (bs "true]x") HNil); auto; try discriminate.
  - apply textF_sane.
  - apply demo_fresh.
  - apply demo_value; [reflexivity|blanks|unfold is_ws; lia|lia].
  - chains.
  - exists (bs "[true]"), (JArr [JBool true]), (bs "x"). split; [reflexivity|]. split; [apply demo_array|].
    split; [|exact I]. constructor. constructor; constructor.
Qed.
Example C36_stores_example fuel : exists s' y, decodeAt textF selfElem demoOther (2 + S fuel) 10 (demoAt " [true]x") = (Ok tt, s') /\
  stream (e_it s') = bs "x" /\ e_heap s' 12 = CEface y /\ holds_json textF false (JArr [JBool true]) y /\
  forall d, d <> 12 -> e_heap s' d = demoHeap d.
Proof.
  apply (C36_stores textF selfElem demoOther (demoAt " [true]x") 10 12 2 (bs " ") 91 (bs "true]x") HNil (bs "[true]")); auto; try discriminate.
  - apply textF_sane.
  - apply demo_fresh.
  - apply demo_value; [reflexivity|blanks|unfold is_ws; lia|lia].
  - chains.
  - apply demo_array.
  - constructor. constructor; constructor.
  - exact I.
Qed.
(** 50 is an interface that holds a pointer to 51, a nil pointer of type 1 *)
Definition newHeap (a : Z) : cell (gval textF) :=
  match a with 50 => CEface (HPtr 51) | 51 => CPtr 1 None | _ => COther end.
Definition newElem (t : nat) : cell (gval textF) := match t with S O => CEface HNil | _ => COther end.
Definition newAt (s : string) : estate (gval textF) := mkE newHeap (small s) 0 O 100.
Example C36_new_example : exists s', decodeAt textF newElem demoOther 3 50 (newAt " 1") = (Ok tt, s') /\
  e_heap s' 51 = CPtr 1 (Some 100).
Proof.
  destruct (C36_new textF newElem demoOther (newAt " 1") 50 51 1 (bs " ") 49 [] 1) with (fuel := 1%nat) as (s1 & H1 & H2 & H3 & H4 & H5); auto.
  - left. reflexivity.
  - constructor; [apply wf_small|apply clean_small|reflexivity|blanks|unfold is_ws; lia|lia].
  - chains.
  - rewrite <- H4 in H5. destruct H5 as (s' & K1 & _ & K2 & _); [vm_compute; reflexivity|]. exists s'. auto.
Qed.
Example C36_null_example : exists s', decodeAt textF selfElem demoOther 1 5 (demoAt " null,") = (Ok tt, s') /\ stream (e_it s') = bs "," /\
  e_heap s' 5 = CEface HNil /\ forall d, d <> 5 -> e_heap s' d = demoHeap d.
Proof.
  apply (C36_null textF selfElem demoOther (demoAt " null,") 5 6 (bs " ") (bs ",") 0); auto.
  - apply demo_fresh.
  - apply wf_small.
  - apply clean_small.
  - blanks.
  - intros t x. discriminate.
Qed.
Example C36_null_new_example : exists s', decodeAt textF selfElem demoOther 1 10 (demoAt " null,") = (Ok tt, s') /\ stream (e_it s') = bs "," /\
  e_heap s' 10 = CEface (HPtr 100) /\ e_heap s' 100 = CPtr 0 None /\ e_new s' = 101 /\ forall d, d <> 10 -> d <> 100 -> e_heap s' d = demoHeap d.
Proof.
  apply (C36_null_new textF selfElem demoOther (demoAt " null,") 10 11 0 (Some 12) (bs " ") (bs ",") 0); auto; try discriminate.
  - apply demo_fresh.
  - apply wf_small.
  - apply clean_small.
  - blanks.
Qed.
Example C36_null_pointer_example : exists s', decodeAt textF selfElem demoOther 1 20 (demoAt " null,") = (Ok tt, s') /\ stream (e_it s') = bs "," /\
  e_heap s' 20 = CPtr 1 None /\ forall d, d <> 20 -> e_heap s' d = demoHeap d.
Proof.
  apply (C36_null_pointer textF selfElem demoOther (demoAt " null,") 20 1 (Some 21) (bs " ") (bs ",") 0); auto.
  - apply wf_small.
  - apply clean_small.
  - blanks.
Qed.

Print Assumptions C36_finds.
Print Assumptions C36_spins.
Print Assumptions C36_ends.
Print Assumptions C36_value.
Print Assumptions C36_stores.
Print Assumptions C36_new.
Print Assumptions C36_null.
Print Assumptions C36_null_new.
Print Assumptions C36_null_pointer.
Print Assumptions C36_unmarshal.
Print Assumptions C36_rho_refuted.
Print Assumptions C36_pointer_refuted.
Print Assumptions C36_type_refuted.
Print Assumptions C36_retry_refuted.
