(** Facts about decoding through chains of pointers. *)
From Coq Require Import String ZArith List Bool Lia Arith.
From Verif Require Import Base ModelIter ModelSkip ModelFloat ModelRead ModelEface Spec SpecRead SpecEface Sim SimLib NumFacts SimRead GrammarFacts FloatFacts IterFacts.
Import ListNotations.
Local Open Scope Z_scope.

Section Chains.
Context {V : Type}.
Implicit Types h : Z -> cell V.
Lemma points_fun h a b b' : points h a b -> points h a b' -> b = b'.
Proof. intros [H|t H] [H'|t' H']; congruence. Qed.
Lemma chain_fun h n : forall a b b', chain h n a b -> chain h n a b' -> b = b'.
Proof.
  induction n; intros a b b' H H'; inversion H; inversion H'; subst; auto.
  assert (b0 = b1) as -> by eauto using points_fun. eauto.
Qed.
Lemma chain_trans h n m a b c : chain h n a b -> chain h m b c -> chain h (n + m) a c.
Proof. induction 1; simpl; auto. intros K. econstructor; eauto. Qed.
Lemma chain_split h n m : forall a c, chain h (n + m) a c -> exists b, chain h n a b /\ chain h m b c.
Proof.
  induction n as [|n IH]; simpl; intros a c H; [exists a; split; auto; constructor|].
  inversion H as [|? ? b ? P K]; subst. destruct (IH _ _ K) as (d & K1 & K2). exists d. split; auto. econstructor; eauto.
Qed.

(** ** Following the pointers *)
Definition target (h : Z -> cell V) (a : Z) : option Z := match h a with CEface (HPtr x) => Some x | CPtr _ x => x | _ => None end.
Lemma target_points h a b : target h a = Some b <-> points h a b.
Proof.
  unfold target. split.
  - destruct (h a) as [[|x| |]|t x|] eqn:E; intros H; inversion H; subst; [now apply po_eface|now apply po_ptr with t].
  - intros [-> |t ->]; reflexivity.
Qed.
Fixpoint follow (h : Z -> cell V) (n : nat) (a : Z) : option Z :=
  match n with
  | O => Some a
  | S n => match target h a with Some b => follow h n b | None => None end
  end.
Lemma follow_chain h n : forall a b, follow h n a = Some b <-> chain h n a b.
Proof.
  induction n as [|n IH]; simpl; intros a b.
  - split; [intros [= ->]; constructor|intros H; inversion H; reflexivity].
  - destruct (target h a) as [x|] eqn:E.
    + rewrite IH. split; [intros H; apply target_points in E; econstructor; eauto|].
      intros H. inversion H as [|? ? x' ? P K]; subst. apply target_points in P. congruence.
    + split; [discriminate|]. intros H. inversion H as [|? ? x' ? P K]; subst. apply target_points in P. congruence.
Qed.
(** the first time around a cycle *)
Lemma cycle_first h a : cyclic h a -> exists n, chain h (S n) a a /\ forall k, (k < n)%nat -> ~ chain h (S k) a a.
Proof.
  intros [n H]. induction n as [n IH] using lt_wf_ind.
  assert (D : forall m, (exists k, (k < m)%nat /\ chain h (S k) a a) \/ (forall k, (k < m)%nat -> ~ chain h (S k) a a)).
  { induction m as [|m IHm]; [right; lia|]. destruct IHm as [(k & K1 & K2)|N]; [left; exists k; split; auto; lia|].
    destruct (follow h (S m) a) as [b|] eqn:E.
    - destruct (Z.eq_dec b a) as [->|Nb].
      + left. exists m. split; [lia|]. now apply follow_chain.
      + right. intros k Hk C. destruct (Nat.eq_dec k m) as [->|]; [|apply (N k); auto; lia]. apply follow_chain in C. congruence.
    - right. intros k Hk C. destruct (Nat.eq_dec k m) as [->|]; [|apply (N k); auto; lia]. apply follow_chain in C. congruence. }
  destruct (D n) as [(k & K1 & K2)|N]; [now apply (IH k)|exists n; auto].
Qed.
Lemma cyclic_next h a b : points h a b -> cyclic h a -> cyclic h b.
Proof.
  intros P [n H]. inversion H as [|? ? b' ? P' K]; subst. rewrite (points_fun _ _ _ _ P P') in *. exists n.
  replace (S n) with (n + 1)%nat by lia. eapply chain_trans; [eassumption|]. econstructor; [eassumption|constructor].
Qed.
Lemma endless_next h a : endless h a -> exists b, points h a b /\ endless h b.
Proof.
  intros H. destruct (H 1%nat) as (b & C). inversion C as [|? ? b' ? P K]; subst. inversion K; subst. exists b. split; auto.
  intros n. destruct (H (S n)) as (x & Cx). inversion Cx as [|? ? b' ? P' K']; subst. rewrite (points_fun _ _ _ _ P P'). eauto.
Qed.
(** a chain that ends has no cycle *)
Lemma ends_no_cycle h n : forall a b m, chain h n a b -> target h b = None -> forall k, chain h k a m -> ~ cyclic h m.
Proof.
  intros a b m C T k K [j J].
  assert (B : forall i, exists r, (i <= r)%nat /\ chain h r m m).
  { induction i as [|i (r & R1 & R2)]; [exists O; split; auto; constructor|]. exists (r + S j)%nat. split; [lia|]. eapply chain_trans; eauto. }
  destruct (B (S n)) as (r & R1 & R2). pose proof (chain_trans _ _ _ _ _ _ K R2) as Q.
  replace (k + r)%nat with (n + S (k + r - n - 1))%nat in Q by lia. apply chain_split in Q. destruct Q as (b' & Q1 & Q2).
  rewrite (chain_fun _ _ _ _ _ Q1 C) in *. inversion Q2 as [|? ? x ? P _]; subst. apply target_points in P. congruence.
Qed.
Lemma eface_dec h a : is_eface h a \/ ~ is_eface h a.
Proof. unfold is_eface. destruct (h a) as [x|t x|] eqn:E; [left; eauto|right|right]; intros [y Y]; discriminate. Qed.

Lemma first_exists h n : forall a b, chain h n a b -> is_eface h b -> exists m, first_eface h a m.
Proof.
  induction n as [|n IH]; intros a b C E; inversion C as [|? ? x ? P K]; subst.
  - exists b. exists O. split; [constructor|]. split; auto. lia.
  - destruct (eface_dec h a) as [Ea|Na]; [exists a; exists O; split; [constructor|]; split; auto; lia|].
    destruct (IH _ _ K E) as (m & k & C1 & E1 & Av). exists m, (S k). split; [econstructor; eauto|]. split; auto.
    intros [|j] y Hj Cy; inversion Cy as [|? ? x' ? P' K']; subst; auto. rewrite <- (points_fun _ _ _ _ P P') in K'. apply (Av j); auto. lia.
Qed.
Lemma cyclic_along h n : forall a b, chain h n a b -> cyclic h a -> cyclic h b.
Proof. induction n; intros a b C Cy; inversion C; subst; eauto using cyclic_next. Qed.
Lemma checkpoint_cyclic h bl a : is_eface h a -> cyclic h a -> exists m, checkpoint h bl a m /\ cyclic h m.
Proof.
  intros E Cy. destruct bl.
  - destruct Cy as [n C]. assert (Cy : cyclic h a) by (now exists n). inversion C as [|? ? b ? P K]; subst.
    destruct (first_exists _ _ _ _ K E) as (m & Fm). exists m. split; [right; eauto|]. destruct Fm as (k & Ck & _).
    eapply cyclic_along; [exact Ck|]. eapply cyclic_next; eauto.
  - exists a. split; auto. left. split; auto. exists O. split; [constructor|]. split; auto. lia.
Qed.
End Chains.
(** ** The next byte *)
Lemma token it w c l : wf it -> ~ dirty it -> stream it = w ++ c :: l -> ws w -> ~ is_ws c ->
  exists it', nextToken it = (Ok c, it') /\ wf it' /\ ~ dirty it' /\ stream it' = c :: l /\
    InputOffset it' = (InputOffset it + length w)%nat /\ fin it' = fin it /\ it_useNumber it' = it_useNumber it /\ peek c it'.
Proof.
  intros W D E Hw Hc. pose proof (sim_nextToken it W I) as H. destruct (nextToken it) as [r it'] eqn:En.
  destruct H as (W' & [u M] & [H|[H _]]); [|contradiction].
  assert (P : p_nextToken (fin it) (stream it) = POk c (c :: l)).
  { rewrite E. clear - Hw Hc. induction Hw as [|x w Hx Hw IH]; rewrite p_nextToken_eq; simpl.
    - destruct (is_space c) eqn:S; auto. apply is_space_ws in S. contradiction.
    - apply is_space_ws in Hx. rewrite Hx. exact IH. }
  rewrite P in H. destruct H as (a & -> & Es & Ea & Pk). subst a. exists it'.
  split; [auto|]. split; [auto|]. split; [intros Dd; apply D, (mv_dirty _ _ _ M Dd)|]. split; [auto|]. split.
  - rewrite (mv_offset _ _ _ M). f_equal. pose proof (mv_stream _ _ _ M) as Ms. rewrite E, Es in Ms. apply app_inv_tail in Ms. now subst.
  - split; [apply M|]. split; [apply M|exact Pk].
Qed.
Lemma null_rest it l : wf it -> ~ dirty it -> peek 110 it -> stream it = 110 :: bs "ull" ++ l ->
  exists it1 it2, incHead it = (Ok tt, it1) /\ expectBytes (bs "ull") it1 = (Ok tt, it2) /\ stream it2 = l.
Proof.
  intros W D Pk E. pose proof (sim_inc 110 it W Pk) as H. destruct (incHead it) as [r it1] eqn:En.
  destruct H as (W1 & [u M] & [H|[H _]]); [|contradiction]. rewrite E in H. destruct H as ([] & -> & Es & _).
  assert (D1 : ~ dirty it1) by (intros Dd; apply D, (mv_dirty _ _ _ M Dd)). change (stream it1 = bs "ull" ++ l) in Es.
  pose proof (sim_expectBytes anyP (bs "ull") it1 W1 I) as H. destruct (expectBytes (bs "ull") it1) as [r it2] eqn:Ex.
  destruct H as (_ & _ & [H|[H _]]); [|contradiction]. rewrite Es in H.
  rewrite (proj2 (p_expectBytes_ok (bs "ull") (fin it1) (bs "ull" ++ l) l ltac:(discriminate)) eq_refl) in H.
  destruct H as ([] & -> & Es2 & _). exists it1, it2. auto.
Qed.

Lemma Read_nums F it v r : float_sane F -> wf it -> yields (Read F) it v r ->
  exists w t j, stream it = w ++ t ++ r /\ ws w /\ value t j /\ nums_ok F (it_useNumber it) j /\ vends t j (fin it) r.
Proof.
  intros S W Y. apply (yields_pure _ _ _ (Read_pure F it) _ _ _ W eq_refl) in Y.
  apply Read_conv in Y; auto. destruct Y as (w & t & j & E & Hw & Hv & Hc & He). exists w, t, j. split; auto. split; auto. split; auto. split; auto.
  apply gconv_nums. congruence.
Qed.
Section State.
Context {V : Type}.
Implicit Types s : estate V.
(** the input from here on: blanks, a byte of a value that is not null, the rest *)
Record at_value (s : estate V) (w : bytes) (c : Z) (l : bytes) : Prop := mkAt {
  av_wf : wf (e_it s);
  av_clean : ~ dirty (e_it s);
  av_stream : stream (e_it s) = w ++ c :: l;
  av_ws : ws w;
  av_byte : ~ is_ws c;
  av_null : c <> 110
}.
Record same (s s' : estate V) : Prop := mkSame {
  sa_heap : e_heap s' = e_heap s;
  sa_new : e_new s' = e_new s;
  sa_fin : fin (e_it s') = fin (e_it s);
  sa_num : it_useNumber (e_it s') = it_useNumber (e_it s)
}.
Lemma same_refl s : same s s. Proof. now constructor. Qed.
Lemma same_trans a b c : same a b -> same b c -> same a c.
Proof. intros [] []. constructor; congruence. Qed.
End State.

Section Facts.
Variable F : floatOps.
Notation V := (gval F).
Notation estate := (estate V).
Notation cell := (cell V).
Notation EM := (EM V).
Variable elem : nat -> cell.
Variable other : Z -> EM unit.
Notation decodeAt := (decodeAt F elem other).

(** the loop check has nothing to compare with *)
Definition fresh (s : estate) : Prop := e_ptr s = 0 \/ (e_off s < InputOffset (e_it s))%nat.
(** the interface at [a] has been met at this position *)
Definition marked (s : estate) (a : Z) : Prop := e_ptr s = a /\ a <> 0 /\ e_off s = InputOffset (e_it s).
Definition with_it (s : estate) (it : iter) : estate := mkE (e_heap s) it (e_ptr s) (e_off s) (e_new s).
Definition mark (s : estate) (a : Z) : estate := mkE (e_heap s) (e_it s) a (InputOffset (e_it s)) (e_new s).

(** the result of an inner call, perhaps with an assignment after it *)
Record passes (h : Z -> cell) (r r' : res unit * estate) : Prop := mkPasses {
  pa_res : fst r = fst r';
  pa_fail : fst r' <> Ok tt -> r = r';
  pa_it : e_it (snd r) = e_it (snd r');
  pa_heap : forall d, e_heap (snd r) d = e_heap (snd r') d \/ (e_heap (snd r) d = h d /\ exists x, points h d x)
}.
Lemma passes_refl h r : passes h r r. Proof. constructor; auto. Qed.
Lemma passes_trans h a b c : passes h a b -> passes h b c -> passes h a c.
Proof.
  intros [H1 H2 H3 H4] [K1 K2 K3 K4]. constructor; [congruence| |congruence|].
  - intros N. rewrite H2; [now apply K2|congruence].
  - intros d. destruct (H4 d) as [->|?]; auto.
Qed.
Definition stored (a b : Z) (r : res unit * estate) : res unit * estate :=
  match r with (Ok _, s) => store a (CEface (HPtr b)) s | x => x end.
Lemma stored_passes h a b r : h a = CEface (HPtr b) -> passes h (stored a b r) r.
Proof.
  intros Ha. destruct r as [[[]| | |] s]; constructor; simpl; auto; [now intros []|].
  intros d. destruct (Z.eqb_spec d a) as [->|_]; auto. right. split; auto. exists b. now apply po_eface.
Qed.
Lemma check_fresh a s : fresh s -> checkLoop a s = (Ok true, mark s a).
Proof.
  unfold fresh, checkLoop. intros [-> |H]; simpl; auto. destruct (Nat.eqb_spec (InputOffset (e_it s)) (e_off s)) as [E|N]; [lia|].
  now rewrite orb_true_r.
Qed.
Lemma check_marked a m s : marked s m -> checkLoop a s = (Ok (negb (a =? m)), s).
Proof.
  unfold marked, checkLoop. intros (-> & N & ->). rewrite Nat.eqb_refl, orb_false_r. destruct (Z.eqb_spec m 0); [contradiction|]. reflexivity.
Qed.
Ltac HH := repeat match goal with H : same ?s ?s1, P : passes (e_heap ?s1) _ _ |- _ => rewrite (sa_heap _ _ H) in P; clear H end.
Lemma step_ptr fuel a b t s w c l : at_value s w c l -> e_heap s a = CPtr t (Some b) ->
  exists it', at_value (with_it s it') [] c l /\ same s (with_it s it') /\ InputOffset it' = (InputOffset (e_it s) + length w)%nat /\
  decodeAt (S fuel) a s = decodeAt fuel b (with_it s it').
Proof.
  intros [W D E Hw Hc Hn] Hh. destruct (token (e_it s) w c l W D E Hw Hc) as (it' & En & W' & D' & E' & O & Ef & Eu & _).
  exists it'. split; [constructor; auto; constructor|]. split; [now constructor|]. split; [exact O|]. simpl. unfold ebind, load. rewrite Hh. unfold pointerAt, ebind, onIter. rewrite En.
  destruct (Z.eqb_spec c c_n) as [->|_]; [now elim Hn|]. reflexivity.
Qed.
Lemma step_eface fuel a b s s1 w c l : checkLoop a s = (Ok true, s1) -> e_it s1 = e_it s -> at_value s w c l -> e_heap s a = CEface (HPtr b) ->
  exists it', at_value (with_it s1 it') [] c l /\ fin it' = fin (e_it s) /\ it_useNumber it' = it_useNumber (e_it s) /\
  InputOffset it' = (InputOffset (e_it s) + length w)%nat /\
  decodeAt (S fuel) a s = stored a b (decodeAt fuel b (with_it s1 it')).
Proof.
  intros Hk He [W D E Hw Hc Hn] Hh. destruct (token (e_it s) w c l W D E Hw Hc) as (it' & En & W' & D' & E' & O & Ef & Eu & _).
  exists it'. split; [constructor; auto; constructor|]. split; [auto|]. split; [auto|]. split; [exact O|].
  simpl. unfold ebind, load. rewrite Hh. unfold efaceAt, ebind. rewrite Hk. unfold onIter. rewrite He, En.
  destruct (Z.eqb_spec c c_n) as [->|_]; [now elim Hn|]. fold (with_it s1 it'). unfold stored. destruct (decodeAt fuel b (with_it s1 it')) as [[[]| | |] s2]; reflexivity.
Qed.
Lemma eface_stop fuel m x s : marked s m -> e_heap s m = CEface x -> decodeAt (S fuel) m s = (Err ErrEfaceLooping, s).
Proof.
  intros Hm Hh. simpl. unfold ebind, load. rewrite Hh. unfold efaceAt, ebind. rewrite (check_marked m m s Hm), Z.eqb_refl. reflexivity.
Qed.
(** one pointer at a position where the interface [m] has been met *)
Lemma go_marked fuel a b s m c l : marked s m -> at_value s [] c l -> points (e_heap s) a b -> a <> m ->
  exists s', marked s' m /\ at_value s' [] c l /\ same s s' /\ passes (e_heap s) (decodeAt (S fuel) a s) (decodeAt fuel b s').
Proof.
  intros Hm Ha P Na. assert (Hm' := Hm). destruct Hm' as (M1 & M2 & M3). destruct P as [Hh|t Hh].
  - assert (Ck : checkLoop a s = (Ok true, s)) by (rewrite (check_marked a m s Hm); destruct (Z.eqb_spec a m); [contradiction|reflexivity]).
    destruct (step_eface fuel a b s s [] c l Ck eq_refl Ha Hh) as (it' & A & Ef & Eu & O & Eq). simpl in O.
    exists (with_it s it'). split; [split; [auto|split; [auto|simpl; lia]]|]. split; [auto|]. split; [now constructor|]. rewrite Eq. now apply stored_passes.
  - destruct (step_ptr fuel a b t s [] c l Ha Hh) as (it' & A & Sa & O & Eq). simpl in O.
    exists (with_it s it'). split; [split; [auto|split; [auto|simpl; lia]]|]. split; [auto|]. split; [auto|]. rewrite Eq. apply passes_refl.
Qed.
Lemma chain_marked n : forall fuel a b s m c l, marked s m -> at_value s [] c l -> chain (e_heap s) n a b ->
  (forall k, (k < n)%nat -> ~ chain (e_heap s) k a m) ->
  exists s', marked s' m /\ at_value s' [] c l /\ same s s' /\ passes (e_heap s) (decodeAt (n + fuel) a s) (decodeAt fuel b s').
Proof.
  induction n as [|n IH]; intros fuel a b s m c l Hm Ha H Av; inversion H as [|? ? b0 ? P K]; subst.
  - exists s. split; [auto|]. split; [auto|]. split; [apply same_refl|apply passes_refl].
  - assert (Na : a <> m) by (intros ->; apply (Av O); [lia|constructor]).
    destruct (go_marked (n + fuel) a b0 s m c l Hm Ha P Na) as (s1 & S1 & S2 & S3 & S4).
    assert (Hh := sa_heap _ _ S3).
    destruct (IH fuel b0 b s1 m c l S1 S2) as (s2 & T1 & T2 & T3 & T4).
    + now rewrite Hh.
    + rewrite Hh. intros k Hk C. apply (Av (S k)); [lia|]. econstructor; eauto.
    + exists s2. split; [auto|]. split; [auto|]. split; [eapply same_trans; eauto|]. HH; eapply passes_trans; eauto.
Qed.
(** the first interface at a position *)
Lemma go_fresh fuel a b s w c l : fresh s -> at_value s w c l -> a <> 0 -> e_heap s a = CEface (HPtr b) ->
  exists s', (w = [] -> marked s' a) /\ (w <> [] -> fresh s') /\ at_value s' [] c l /\ same s s' /\ passes (e_heap s) (decodeAt (S fuel) a s) (decodeAt fuel b s').
Proof.
  intros Hf Ha Na Hh. destruct (step_eface fuel a b s (mark s a) w c l (check_fresh a s Hf) eq_refl Ha Hh) as (it' & A & Ef & Eu & O & Eq).
  exists (with_it (mark s a) it'). split; [intros ->; simpl in O; repeat split; auto; simpl; lia|]. split.
  - intros Nw. right. simpl. destruct w; [now elim Nw|]. simpl in O. lia.
  - split; [auto|]. split; [now constructor|]. rewrite Eq. now apply stored_passes.
Qed.
(** a pointer variable at a position where no interface has been met *)
Lemma go_fresh_ptr fuel a b t s w c l : fresh s -> at_value s w c l -> e_heap s a = CPtr t (Some b) ->
  exists s', fresh s' /\ at_value s' [] c l /\ same s s' /\ passes (e_heap s) (decodeAt (S fuel) a s) (decodeAt fuel b s').
Proof.
  intros Hf Ha Hh. destruct (step_ptr fuel a b t s w c l Ha Hh) as (it' & A & Sa & O & Eq).
  exists (with_it s it'). split; [destruct Hf as [Hf|Hf]; [left; auto|right; simpl; lia]|]. split; [auto|]. split; [auto|]. rewrite Eq. apply passes_refl.
Qed.
(** up to the first interface *)
Lemma chain_fresh n : forall fuel a b s c l, fresh s -> at_value s [] c l -> chain (e_heap s) n a b ->
  (forall k x, (k < n)%nat -> chain (e_heap s) k a x -> ~ is_eface (e_heap s) x) ->
  exists s', fresh s' /\ at_value s' [] c l /\ same s s' /\ passes (e_heap s) (decodeAt (n + fuel) a s) (decodeAt fuel b s').
Proof.
  induction n as [|n IH]; intros fuel a b s c l Hf Ha H Av; inversion H as [|? ? b0 ? P K]; subst.
  - exists s. split; [auto|]. split; [auto|]. split; [apply same_refl|apply passes_refl].
  - destruct P as [Hh|t Hh]. { exfalso. apply (Av O a); [lia|constructor|]. red. eauto. }
    destruct (go_fresh_ptr (n + fuel) a b0 t s [] c l Hf Ha Hh) as (s1 & S1 & S2 & S3 & S4).
    assert (Hp := sa_heap _ _ S3).
    destruct (IH fuel b0 b s1 c l S1 S2) as (s2 & T1 & T2 & T3 & T4).
    + now rewrite Hp.
    + rewrite Hp. intros k x Hk C. apply (Av (S k)); [lia|]. econstructor; eauto. now apply po_ptr with t.
    + exists s2. split; [auto|]. split; [auto|]. split; [eapply same_trans; eauto|]. HH; eapply passes_trans; eauto.
Qed.
(** the cycle is found: no blanks *)
Lemma finds_first h a m : m <> 0 -> first_eface h a m -> cyclic h m ->
  exists n, forall fuel s c l, (n <= fuel)%nat -> e_heap s = h -> fresh s -> at_value s [] c l ->
    exists s', decodeAt fuel a s = (Err ErrEfaceLooping, s') /\ same s s' /\ at_value s' [] c l.
Proof.
  intros Nm (n & C & [x X] & Av) Cy. destruct (cycle_first _ _ Cy) as (k & K & Min).
  exists (n + S (k + 1))%nat. intros fuel s c l Hfuel <- Hf Ha. replace fuel with (n + S (k + S (fuel - n - k - 2)))%nat by lia. set (f := (fuel - n - k - 2)%nat).
  destruct (chain_fresh n (S (k + S f)) a m s c l Hf Ha C Av) as (s1 & S1 & S2 & S3 & S4). assert (H1 := sa_heap _ _ S3).
  inversion K as [|? ? b ? P K']; subst. destruct P as [Hh|t Hh]; [|congruence].
  destruct (go_fresh (k + S f) m b s1 [] c l S1 S2 Nm) as (s2 & T1 & _ & T2 & T3 & T4); [congruence|]. specialize (T1 eq_refl).
  assert (H2 := sa_heap _ _ T3).
  destruct (chain_marked k (S f) b m s2 m c l T1 T2) as (s3 & U1 & U2 & U3 & U4).
  - rewrite H2, H1. exact K'.
  - rewrite H2, H1. intros j Hj Cj. apply (Min j Hj). econstructor; [|exact Cj]. now apply po_eface.
  - assert (H3 := sa_heap _ _ U3). assert (Sx : same s s3) by eauto using same_trans.
    rewrite H1 in T4. rewrite H2, H1 in U4.
    pose proof (passes_trans _ _ _ _ (passes_trans _ _ _ _ S4 T4) U4) as [_ Q _ _].
    rewrite (eface_stop f m x s3 U1) in Q by congruence.
    exists s3. split; [|split; auto]. apply Q. discriminate.
Qed.
Lemma next_stream a b s w c l fuel : fresh s -> e_heap s 0 = COther -> at_value s w c l -> w <> [] -> points (e_heap s) a b ->
  exists s', fresh s' /\ at_value s' [] c l /\ same s s' /\ passes (e_heap s) (decodeAt (S fuel) a s) (decodeAt fuel b s').
Proof.
  intros Hf H0 Ha Nw [Hh|t Hh].
  - assert (Na : a <> 0) by congruence. destruct (go_fresh fuel a b s w c l Hf Ha Na Hh) as (s1 & _ & S1 & S2 & S3 & S4).
    exists s1. split; [now apply S1|]. split; [auto|]. split; auto.
  - apply (go_fresh_ptr fuel a b t s w c l Hf Ha Hh).
Qed.
(** the decoder never returns: no blanks *)
Lemma spins_first fuel : forall a s c l, e_heap s 0 = COther -> at_value s [] c l -> endless (e_heap s) a ->
  (fresh s /\ (forall m, first_eface (e_heap s) a m -> ~ cyclic (e_heap s) m)) \/ (exists m, marked s m /\ forall k, ~ chain (e_heap s) k a m) ->
  fst (decodeAt fuel a s) = OutOfFuel.
Proof.
  induction fuel as [|fuel IH]; intros a s c l H0 Ha En St; [reflexivity|].
  destruct (endless_next _ _ En) as (b & P & En').
  assert (Go : exists s', at_value s' [] c l /\ same s s' /\ passes (e_heap s) (decodeAt (S fuel) a s) (decodeAt fuel b s') /\
    ((fresh s' /\ (forall m, first_eface (e_heap s) b m -> ~ cyclic (e_heap s) m)) \/ (exists m, marked s' m /\ forall k, ~ chain (e_heap s) k b m))).
  { destruct St as [[Hf Hc]|(m & Hm & Hc)].
    - destruct P as [Hh|t Hh].
      + assert (Na : a <> 0) by congruence. destruct (go_fresh fuel a b s [] c l Hf Ha Na Hh) as (s1 & S1 & _ & S2 & S3 & S4).
        exists s1. split; [auto|]. split; [auto|]. split; [auto|]. right. exists a. split; [auto|]. intros k C. apply (Hc a).
        * exists O. split; [constructor|]. split; [red; eauto|lia].
        * exists k. econstructor; [|exact C]. now apply po_eface.
      + destruct (go_fresh_ptr fuel a b t s [] c l Hf Ha Hh) as (s1 & S1 & S2 & S3 & S4).
        exists s1. split; [auto|]. split; [auto|]. split; [auto|]. left. split; [auto|]. intros m (n & C & E & Av). apply Hc.
        exists (S n). split; [econstructor; eauto; now apply po_ptr with t|]. split; [auto|]. intros k x Hk Cx [y Y].
        destruct k; inversion Cx as [|? ? b' ? P' K']; subst; [congruence|].
        rewrite <- (points_fun _ _ _ _ (po_ptr _ _ _ _ Hh) P') in K'. apply (Av k x); [lia|auto|red; eauto].
    - assert (Na : a <> m) by (intros ->; apply (Hc O); constructor).
      destruct (go_marked fuel a b s m c l Hm Ha P Na) as (s1 & S1 & S2 & S3 & S4). exists s1. split; [auto|]. split; [auto|]. split; [auto|].
      right. exists m. split; auto. intros k C. apply (Hc (S k)). econstructor; eauto. }
  destruct Go as (s1 & S1 & S2 & [S3 _ _ _] & S4). rewrite S3. assert (Hp := sa_heap _ _ S2). apply (IH b s1 c l); rewrite ?Hp; auto.
Qed.
(** along a chain that ends *)
Lemma ends_go n : forall fuel a b s w c l, e_heap s 0 = COther -> at_value s w c l -> chain (e_heap s) n a b -> target (e_heap s) b = None ->
  fresh s \/ (w = [] /\ exists m, marked s m /\ forall k, ~ chain (e_heap s) k a m) ->
  exists s' w', at_value s' w' c l /\ same s s' /\ passes (e_heap s) (decodeAt (n + fuel) a s) (decodeAt fuel b s') /\
    (fresh s' \/ exists m, marked s' m /\ b <> m).
Proof.
  induction n as [|n IH]; intros fuel a b s w c l H0 Ha C T St; inversion C as [|? ? b0 ? P K]; subst.
  - exists s, w. split; [auto|]. split; [apply same_refl|]. split; [apply passes_refl|]. destruct St as [St|(_ & m & M & Hm)]; [auto|].
    right. exists m. split; auto. intros ->. apply (Hm O). constructor.
  - assert (Go : exists s', at_value s' [] c l /\ same s s' /\ passes (e_heap s) (decodeAt (S (n + fuel)) a s) (decodeAt (n + fuel) b0 s') /\
      (fresh s' \/ exists m, marked s' m /\ forall k, ~ chain (e_heap s) k b0 m)).
    { destruct St as [Hf|(-> & m & Hm & Hc)].
      - destruct P as [Hh|t Hh].
        + assert (Na : a <> 0) by congruence. destruct (go_fresh (n + fuel) a b0 s w c l Hf Ha Na Hh) as (s1 & S1 & S1' & S2 & S3 & S4).
          exists s1. split; [auto|]. split; [auto|]. split; [auto|]. destruct w as [|w0 w]; [|left; now apply S1'].
          right. exists a. split; [auto|]. intros k Ck. apply (ends_no_cycle _ _ _ _ a C T O); [constructor|]. exists k. econstructor; [|exact Ck]. now apply po_eface.
        + destruct (go_fresh_ptr (n + fuel) a b0 t s w c l Hf Ha Hh) as (s1 & S1 & S2 & S3 & S4). exists s1. auto.
      - assert (Na : a <> m) by (intros ->; apply (Hc O); constructor).
        destruct (go_marked (n + fuel) a b0 s m c l Hm Ha P Na) as (s1 & S1 & S2 & S3 & S4). exists s1. split; [auto|]. split; [auto|]. split; [auto|].
        right. exists m. split; auto. intros k Ck. apply (Hc (S k)). econstructor; eauto. }
    destruct Go as (s1 & S1 & S2 & S3 & S4). assert (Hp := sa_heap _ _ S2).
    destruct (IH fuel b0 b s1 [] c l) as (s2 & w2 & T1 & T2 & T3 & T4); rewrite ?Hp; auto.
    { destruct S4 as [S4|(m & M1 & M2)]; [auto|right; split; auto; exists m; auto]. }
    exists s2, w2. split; [auto|]. split; [eapply same_trans; eauto|]. split; [rewrite Hp in T3; eapply passes_trans; eauto|auto].
Qed.
End Facts.
