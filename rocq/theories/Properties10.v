(** C42: the encoders in the caches, applied to the words that interfaces hold. *)
From Coq Require Import String ZArith List Bool Lia Arith.
From Verif Require Import Spec SpecStream StreamFacts ModelRead Properties1 Properties2.
From Verif Require Import Base ModelFloat ModelOps ModelStream ModelVal ModelEnc SpecVal SpecEnc SpecFail EncFacts EncRound Properties4 Properties5 Properties6.
From Verif Require Import ModelCache SpecCache CacheFacts ModelEncCache SpecEncCache EncCache ModelWord SpecWord WordFacts Properties9.
Import ListNotations.

Section Words.
Variables F32 F64 : floatOps.
Variable C : custom.
Variable E : env F32 F64 C.
Variable U : marshalers F32 F64 C.
Variables G32 G64 : floatFmt.
Variable e32 : fl F32 -> ff G32.
Variable e64 : fl F64 -> ff G64.
Variable cfgHTML : bool.
Notation gval := (gval F32 F64 C).
Notation Marshal := (Marshal F32 F64 C E U G32 G64 e32 e64 cfgHTML).
Notation encodes q := (encodes F32 F64 C E U G32 G64 e32 e64 q).
Notation fits q := (fits F32 F64 C E U G32 G64 e32 e64 q).
Notation fails q := (fails F32 F64 C E U G32 G64 e32 e64 q).
Variables (S32 : fmt_sane G32) (S64 : fmt_sane G64).
Hypothesis NO : names_ok F32 F64 C E U.
Variable typ : nat -> ty.
Variable code : ty -> nat.
Variable T : nat -> etype.
Variable ptrTo : nat -> nat.
Variable uint8 : nat.
Variable load : ty -> pword F32 F64 C -> gval.
Variable store : ty -> gval -> pword F32 F64 C.
Variable userEnc : nat -> wenc F32 F64 C.
Hypothesis PR : program F32 F64 C E U typ uint8 T ptrTo load store.
Notation state := (state eval eobj ebuild).
Notation run := (steps eval eobj ebuild estart (estep T ptrTo uint8 uint8Enc) edone e_target e_refs).
Notation start := (econfig noCustom).
(** Marshal with the encoders that are in the caches in state [s] *)
Notation MarshalIn s := (MarshalW F32 F64 C E U G32 G64 e32 e64 cfgHTML typ code T load store userEnc (s_objs s) (published s)).
Notation ready s := (ready F32 F64 C E U typ code store (published s)).

(** Marshal with the encoders in the caches does what ModelEnc.v says, whatever goroutines have filled the caches *)
Theorem C42_marshal (s : state) o m n : run start s -> ready s (VIface o) -> m < n ->
  (forall b, Marshal m o = MOk b -> MarshalIn s n o = MOk b) /\ (forall e, Marshal m o = MErr e -> MarshalIn s n o = MErr e).
Proof.
  intros R Rd Hm. destruct PR as [P1 P2 P3 P4 P5 P6 P7].
  assert (UW : forall t id x, userOf F32 F64 C E t = Some id -> pshape F32 F64 C E U t -> holds F32 F64 C E U t (store t (VObj x)) (VObj x)).
  { intros t id x Hu. apply P6 with id. now apply user_some. }
  destruct (agree F32 F64 C E U G32 G64 e32 e64 cfgHTML T ptrTo uint8 typ code load store userEnc (s_objs s) (s_nobjs s) (published s) P1 P3 P4 NO P5 UW P7 m) as (_ & A).
  assert (Pv : P F32 F64 C E U T ptrTo uint8 typ code store (s_objs s) (s_nobjs s) (published s) (VIface o)).
  { intros t x Hx. destruct (Rd t x Hx) as (H1 & H2 & H3). split; [exact H1|]. split; [exact H2|].
    destruct (published s (code t)) as [v|] eqn:Ev; [|congruence]. exists v. split; [reflexivity|].
    exact (proj1 (C35_enc_published noCustom T ptrTo uint8 uint8Enc P2 P3 s s (code t) v R (ss_refl _ _ _ _ _ _ _ _ _) Ev)). }
  specialize (A n o false (newStm cfgHTML)). unfold ModelEnc.Marshal, Value, MarshalW.
  split; intros b; destruct (encValue _ _ _ _ _ _ _ m _ o false _) as [s'| |] eqn:Es; try discriminate; rewrite (A s' Hm Pv eq_refl); auto.
Qed.
(** so it writes JSON that represents the value *)
Theorem C42_represents (Q : Prop) (s : state) o : run start s -> ready s (VIface o) -> fits Q false TEface (VIface o) ->
  exists t j n0, encodes Q false TEface false (VIface o) t /\ Spec.value t j /\ forall n, n0 <= n -> MarshalIn s n o = MOk t.
Proof.
  intros R Rd H. destruct (C27_marshal F32 F64 C E U G32 G64 e32 e64 cfgHTML S32 S64 NO Q o H) as (t & j & n0 & H1 & H2 & H3).
  exists t, j, (S n0). split; [exact H1|]. split; [exact H2|]. intros n Hn. apply (C42_marshal s o n0 n R Rd Hn). auto.
Qed.
(** and it fails with the error of the first part that has no representation *)
Theorem C42_fails (Q : Prop) (s : state) t v e : run start s -> ready s (VIface (Some (t, v))) -> fails Q false t false v e ->
  exists n0, forall n, n0 <= n -> MarshalIn s n (Some (t, v)) = MErr e.
Proof.
  intros R Rd H. destruct (C41_marshal F32 F64 C E U G32 G64 e32 e64 cfgHTML S32 S64 NO Q t v e H) as (n0 & H1).
  exists (S n0). intros n Hn. apply (C42_marshal s _ n0 n R Rd Hn). auto.
Qed.
End Words.

(** ** Examples *)
(** goroutine 0 alone: it asks for a type and goes on until it has an encoder *)
Section Alone.
Variable T : nat -> etype.
Variable ptrTo : nat -> nat.
Variable uint8 : nat.
Notation state := (state eval eobj ebuild).
Notation mem := (bmem eval eobj).
Notation run := (steps eval eobj ebuild estart (estep T ptrTo uint8 uint8Enc) edone e_target e_refs).
Definition buildNext (x : mem) (b : ebuild) : option (mem * ebuild) :=
  match b with
  | ELoop (t :: q) rb => Some (e_visit T ptrTo x q rb t)
  | ELoop [] rb => Some (x, EBase64 rb [])
  | EBase64 (b :: l) rest =>
      Some (if is_base64 T ptrTo uint8 uint8Enc x b then (e_both x (eb_type b) (ELeaf ELBase64), EBase64 l rest) else (x, EBase64 l (b :: rest)))
  | EBase64 [] rest => Some (x, EPtrs rest [])
  | EPtrs (b :: l) rest => Some (match eb_shape b with EPtr => (e_pointer x b, EPtrs l rest) | _ => (x, EPtrs l (b :: rest)) end)
  | EPtrs [] rest => Some (x, EOthers rest)
  | EOthers (b :: l) => Some (e_other T ptrTo x b, EOthers l)
  | EOthers [] => None
  end.
Lemma buildNext_ok x b x' b' : buildNext x b = Some (x', b') -> exists acc, estep T ptrTo uint8 uint8Enc x b acc x' b'.
Proof.
  destruct b as [[|t q] rb|[|b l] rest|[|b l] rest|[|b l]]; simpl; intros H; try discriminate.
  - injection H as <- <-. eexists. apply es_end.
  - injection H as H. eexists. replace x' with (fst (e_visit T ptrTo x q rb t)) by now rewrite H. replace b' with (snd (e_visit T ptrTo x q rb t)) by now rewrite H. apply es_visit.
  - injection H as <- <-. eexists. apply es_end64.
  - destruct (is_base64 _ _ _ _ x b) eqn:Eb; injection H as <- <-; eexists; [now apply (es_base64 _ _ _ _ _ [])|now apply (es_nobase64 _ _ _ _ _ [])].
  - injection H as <- <-. eexists. apply es_endptr.
  - destruct (eb_shape b) eqn:Eb; injection H as <- <-; eexists; try (apply (es_noptr _ _ _ _ _ []); congruence). now apply (es_ptr _ _ _ _ _ []).
  - injection H as <- <-. eexists. apply (es_other _ _ _ _ _ []).
Qed.
Definition goNext (s : state) : state :=
  match s_pc s 0 with
  | Load t => at_pc _ _ _ s 0 (Look t (s_pub s))
  | Look t m => at_pc _ _ _ s 0 (match s_maps s m t with Some v => Have t (Some v) | None => Lock t end)
  | Lock t => match s_lock s with
              | None => mkS _ _ _ (s_maps s) (s_nmaps s) (s_objs s) (s_nobjs s) (s_pub s) (Some 0) (upd (s_pc s) 0 (Load2 t))
              | _ => s
              end
  | Load2 t => at_pc _ _ _ s 0 (Look2 t (s_pub s))
  | Look2 t m => at_pc _ _ _ s 0 (match s_maps s m t with Some v => Unlock t (Some v) | None => Copy t m end)
  | Copy t m => mkS _ _ _ (upd (s_maps s) (s_nmaps s) (s_maps s m)) (S (s_nmaps s)) (s_objs s) (s_nobjs s) (s_pub s) (s_lock s)
                  (upd (s_pc s) 0 (Build t (s_nmaps s) (estart t)))
  | Build t m b => match buildNext (bview _ _ _ s m) b with
                   | Some (x, b') => at_pc _ _ _ (bput _ _ _ s m x) 0 (Build t m b')
                   | None => at_pc _ _ _ s 0 (Store t m)
                   end
  | Store t m => mkS _ _ _ (s_maps s) (s_nmaps s) (s_objs s) (s_nobjs s) m (s_lock s) (upd (s_pc s) 0 (Result t m))
  | Result t m => at_pc _ _ _ s 0 (Unlock t (s_maps s m t))
  | Unlock t v => mkS _ _ _ (s_maps s) (s_nmaps s) (s_objs s) (s_nobjs s) (s_pub s) None (upd (s_pc s) 0 (Have t v))
  | _ => s
  end.
Lemma goNext_ok s0 s : run s0 s -> run s0 (goNext s).
Proof.
  intros R. unfold goNext. destruct (s_pc s 0) as [|t|t m|t|t|t m|t m|t m b|t m|t m|t v|t v|t v w] eqn:Ep; try exact R; try (eapply ss_step; [exact R|]; first [now apply st_load|now apply st_look|now apply st_load2|now apply st_look2|now apply st_copy|now apply st_store|now apply st_result|now apply st_unlock]).
  - destruct (s_lock s) eqn:El; [exact R|]. eapply ss_step; [exact R|]. now apply st_lock.
  - destruct (buildNext _ b) as [(x & b')|] eqn:En.
    + apply buildNext_ok in En as (acc & En). eapply ss_step; [exact R|]. eapply st_build; eauto.
    + eapply ss_step; [exact R|]. eapply st_built; eauto. destruct b as [[|]|[|]|[|]|[|]]; try discriminate. reflexivity.
Qed.
Definition alone (n : nat) (s : state) (t : nat) : state := Nat.iter n goNext (at_pc _ _ _ s 0 (Load t)).
Lemma alone_ok n s0 s t : run s0 s -> s_pc s 0 = Idle -> run s0 (alone n s t).
Proof.
  intros R Hi. unfold alone. assert (R' : run s0 (at_pc _ _ _ s 0 (Load t))) by (eapply ss_step; [exact R|]; now apply st_begin).
  induction n; [exact R'|]. simpl. apply goNext_ok, IHn.
Qed.
End Alone.

(** Types, by code: 0 type Node struct, 1 interface{}, 2 []byte, 3 uint8, 4 map[string]Node, 5 string with MarshalJSON, 6 string with
    MarshalJSON of the pointer type, 7 map[string]bool with MarshalJSON, 8 string, 9 bool; pointer types are 10 larger *)
Definition nodeFields : list (field ty) :=
  [mkField (bs "Next") [HField 0] false false (TPtr (TRef 0));
   mkField (bs "B") [HField 1] false false (TSlice (TInt false W8));
   mkField (bs "M") [HField 2] false true (TMap KString (TRef 0));
   mkField (bs "U") [HField 3] false false (TJson 1);
   mkField (bs "Any") [HField 4] false true TEface;
   mkField (bs "H") [HField 5] false false (TJson 2)].
Definition nodeT : ty := TStruct (map f_type nodeFields) nodeFields.
Definition wordE : env textF textF demoC := mkEnv _ _ _ (fun n => match n with 0 => nodeT | _ => TBool end)
  (fun n => match n with 0 => VStruct [VPtr None; VSlice None; VMap None; VObj (bs "" : cu_state demoC); VIface None; VObj (bs "" : cu_state demoC)] | _ => VBool false end).
Definition wordU : marshalers textF textF demoC := mkMarshalers textF textF demoC
  (fun id => match id with 0 | 2 => RValue | 1 => RPtr | _ => RNone end)
  (fun _ => RNone)
  (fun _ x => if bytes_eqb x (bs "!") then inr (SErr 7) else inl (quote (x : bytes)))
  (fun _ x => inl (x : bytes))
  (fun id => match id with 0 | 1 => TString | 2 => TMap KString TBool | _ => TBool end)
  (fun id x => match id with 0 | 1 => VStr (x : bytes) | 2 => VMap (Some [(KS (x : bytes), VBool true)]) | _ => VBool false end)
  (fun _ => None) (fun _ _ => inl []) (fun _ _ => false).
Lemma word_names : names_ok textF textF demoC wordE wordU.
Proof.
  constructor.
  - intros [|n] m; discriminate.
  - intros n H. exfalso. now apply H.
  - intros [|[|[|n]]] m; repeat split; discriminate.
  - intros [|[|[|n]]] m; discriminate.
  - intros [|[|[|n]]] x; constructor; reflexivity.
Qed.
Definition wordBase (c : nat) : ty :=
  match c with
  | 0 => TRef 0 | 1 => TEface | 2 => TSlice (TInt false W8) | 3 => TInt false W8 | 4 => TMap KString (TRef 0)
  | 5 => TJson 0 | 6 => TJson 1 | 7 => TJson 2 | 8 => TString | _ => TBool
  end.
Fixpoint wordTyp (c : nat) : ty :=
  match c with
  | S (S (S (S (S (S (S (S (S (S c'))))))))) => TPtr (wordTyp c')
  | _ => wordBase c
  end.
Fixpoint wordCode (t : ty) : nat :=
  match t with
  | TPtr t' => 10 + wordCode t'
  | TEface => 1 | TSlice _ => 2 | TInt _ _ => 3 | TMap _ _ => 4 | TJson id => 5 + id | TString => 8 | TBool => 9
  | _ => 0
  end.
Definition wordT (c : nat) : etype :=
  match c with
  | 0 => mkET None false false true (EKStruct [10; 2; 4; 6; 1; 7])
  | 1 => mkET None false false true (EKInterface false)
  | 2 => mkET None false false true (EKSlice 3)
  | 3 => mkET None false false true (EKBasic 3 8)
  | 4 => mkET None false false false (EKMap (Some 0))
  | 5 => mkET None true false true (EKBasic 8 1)
  | 6 => mkET None false false true (EKBasic 8 1)
  | 7 => mkET None true false false (EKMap (Some 9))
  | 8 => mkET None false false true (EKBasic 8 1)
  | 9 => mkET None false false true (EKBasic 9 0)
  | S (S (S (S (S (S (S (S (S (S e))))))))) => mkET None (match e with 5 | 6 | 7 => true | _ => false end) false false (EKPtr e)
  end.
Fixpoint wordLoad (t : ty) (p : pword textF textF demoC) : gval textF textF demoC :=
  match t with
  | TPtr _ => match p with PVar _ _ _ v => VPtr (Some v) | _ => VPtr None end
  | TMap _ _ => match p with PHmap _ _ _ m => VMap (Some m) | _ => VMap None end
  | TStruct [t'] _ => VStruct [wordLoad t' p]
  | TArray _ t' => VArr [wordLoad t' p]
  | TJson _ | TText _ => match p with PHmap _ _ _ ((KS x, _) :: _) => VObj (x : cu_state demoC) | _ => VBool false end
  | _ => VBool false
  end.
Definition wordStore (t : ty) (v : gval textF textF demoC) : pword textF textF demoC :=
  match t, v with
  | TPtr _, VPtr None | TMap _ _, VMap None => PNil _ _ _
  | TPtr _, VPtr (Some x) => PVar _ _ _ x
  | TMap _ _, VMap (Some m) => PHmap _ _ _ m
  | TJson 2, VObj x | TText 2, VObj x => PHmap _ _ _ [(KS (x : bytes), VBool true)]
  | _, _ => PVar _ _ _ v
  end.
Notation wpshape := (pshape textF textF demoC wordE wordU).
Lemma word_ref n : ~ wpshape (te_type _ _ _ wordE n).
Proof. intros H. destruct n; inversion H as [| | | | |? ? A]; destruct A; discriminate. Qed.
Lemma word_user id : wpshape (ma_under _ _ _ wordU id) -> id = 2.
Proof. intros H. destruct id as [|[|[|id]]]; auto; inversion H as [| | | | |? ? A]; destruct A; discriminate. Qed.
Lemma holds_pshape t p v : holds textF textF demoC wordE wordU t p v -> wpshape t.
Proof. induction 1; econstructor; eauto. Qed.
Lemma word_load t p v : holds textF textF demoC wordE wordU t p v -> wordLoad t p = v.
Proof.
  induction 1 as [t|t v|k t|k t m|t fs p v H IH|t p v H IH|n p v H IH|t id p x Hu H IH]; simpl; try reflexivity.
  - now rewrite IH.
  - now rewrite IH.
  - apply holds_pshape in H. now apply word_ref in H.
  - pose proof (word_user _ (holds_pshape _ _ _ H)) as ->. simpl in H. remember (TMap KString TBool) as t0 eqn:Et. remember (VMap (Some [(KS x, VBool true)])) as v0 eqn:Ev.
    destruct H; try discriminate. injection Ev as ->. destruct Hu; subst; reflexivity.
Qed.
Lemma word_methods m i e : has_method textF textF demoC wordE wordU m i (TPtr (wordTyp e)) <-> exists id, m id <> RNone /\ wordTyp e = TJson id.
Proof.
  assert (A : forall e, (exists n, wordTyp e = TRef n) \/ (forall n, wordTyp e <> TRef n)) by (intros c; destruct (wordTyp c); eauto; right; discriminate).
  assert (B : forall e id, wordTyp e <> TText id).
  { intros c id. do 10 (destruct c as [|c]; [discriminate|]). discriminate. }
  assert (B0 : forall e id, under _ _ _ wordE (wordTyp e) = TJson id -> wordTyp e = TJson id).
  { intros c id. do 10 (destruct c as [|c]; [try discriminate; simpl; auto|]). discriminate. }
  assert (B1 : forall e id, under _ _ _ wordE (wordTyp e) <> TText id).
  { intros c id. do 10 (destruct c as [|c]; [discriminate|]). discriminate. }
  split.
  - intros H. inversion H as [t id H1 H2|t id H1 H2|n d H1]; subst; [destruct H1; discriminate|]. exists id. split; auto. destruct H1 as [H1|H1]; [auto|now apply B1 in H1].
  - intros (id & H1 & H2). apply hm_ptr with id; auto. left. rewrite H2. reflexivity.
Qed.
Lemma word_types c : describes textF textF demoC wordE wordU wordTyp 3 (wordT c) (wordTyp c).
Proof.
  assert (NM : forall m i t, (forall t', t <> TPtr t') -> (forall id, under _ _ _ wordE t <> TJson id /\ under _ _ _ wordE t <> TText id) -> ~ has_method textF textF demoC wordE wordU m i t).
  { intros m i t H1 H2 H. inversion H as [t' id [K|K] _|t' id|n d K]; subst; try discriminate; [apply H2 in K as []|apply H2 in K as []|now apply (H1 t')]. }
  assert (NP : forall t, match t with TPtr _ | TMap _ _ | TStruct _ _ | TArray _ _ | TRef _ | TJson _ | TText _ => False | _ => True end -> ~ wpshape t).
  { intros t H K. destruct K; try (destruct H; fail). destruct H0; subst; destruct H. }
  destruct c as [|[|[|[|[|[|[|[|[|[|c]]]]]]]]]].
  1-10: constructor; simpl; try reflexivity.
  all: try (split; [discriminate|]; intros H; apply NM in H as []; [discriminate|intros id; split; discriminate]).
  all: try (intros _; split; [discriminate|]; intros H; apply NM in H as []; [discriminate|intros id; split; discriminate]).
  all: try (intros _; split; [discriminate|intros H; now apply NP in H]).
  - intros _. split; [discriminate|]. intros H. inversion H as [| | | |n K|? ? K]; [now apply word_ref in K|destruct K; discriminate].
  - intros _. constructor. simpl. unfold nodeT. constructor. reflexivity.
  - intros _. constructor.
  - intros _. apply (ko_slice _ _ _ _ _ wordTyp 3 3).
  - intros _. constructor; [reflexivity|]. unfold uint8Enc. split; auto.
  - intros _. split; [constructor|reflexivity].
  - intros _. apply (ko_map _ _ _ _ _ wordTyp 3 KString 0 I).
  - split; auto. intros _. apply hm_value with 0; [now left|reflexivity].
  - discriminate.
  - intros _. split; [discriminate|]. intros H. inversion H as [| | | | |? ? K K2]; subst. destruct K as [K|K]; [injection K as <-; inversion K2 as [| | | | |? ? K3]; destruct K3; discriminate|discriminate].
  - intros _. apply ko_user with 0; [now left|]. simpl. constructor; [reflexivity|]. unfold uint8Enc. split; discriminate.
  - split; [discriminate|]. intros H. inversion H as [? ? K K2|? ? K|]; subst. destruct K as [K|K]; [injection K as <-; discriminate|discriminate].
  - intros _. split; [discriminate|]. intros H. inversion H as [? ? K K2|? ? K|]; subst. destruct K as [K|K]; [injection K as <-; discriminate|discriminate].
  - intros _. split; [discriminate|]. intros H. inversion H as [| | | | |? ? K K2]; subst. destruct K as [K|K]; [injection K as <-; inversion K2 as [| | | | |? ? K3]; destruct K3; discriminate|discriminate].
  - intros _. apply ko_user with 1; [now left|]. simpl. constructor; [reflexivity|]. unfold uint8Enc. split; discriminate.
  - split; auto. intros _. apply hm_value with 2; [now left|reflexivity].
  - discriminate.
  - intros _. split; [intros _; apply ps_user with 2; [now left|constructor]|reflexivity].
  - intros _. apply ko_user with 2; [now left|]. apply (ko_map _ _ _ _ _ wordTyp 3 KString 9 I).
  - intros _. constructor; [reflexivity|]. unfold uint8Enc. split; discriminate.
  - intros _. constructor; [reflexivity|]. unfold uint8Enc. split; discriminate.
  - change (wordTyp (S (S (S (S (S (S (S (S (S (S c))))))))))) with (TPtr (wordTyp c)). constructor.
    + reflexivity.
    + rewrite word_methods. simpl. split.
      * intros H. destruct c as [|[|[|[|[|[|[|[|c]]]]]]]]; try discriminate; eexists; (split; [|reflexivity]); discriminate.
      * intros (id & H1 & H2). destruct c as [|[|[|[|[|[|[|[|[|[|c]]]]]]]]]]; try discriminate; reflexivity.
    + intros _. rewrite word_methods. split; [discriminate|]. intros (id & H1 & H2). exfalso. now apply H1.
    + intros _. split; [constructor|reflexivity].
    + intros _. apply ko_ptr.
Qed.
Lemma word_program : program textF textF demoC wordE wordU wordTyp 3 wordT demoPtr wordLoad wordStore.
Proof.
  constructor.
  - apply word_types.
  - intros t na d. do 10 (destruct t as [|t]; [simpl; try discriminate; now intros [= <- <-]|]). discriminate.
  - intros t. unfold demoPtr. replace (t + 10) with (10 + t) by lia. reflexivity.
  - intros t. unfold demoPtr. replace (t + 10) with (10 + t) by lia. reflexivity.
  - apply word_load.
  - intros t id x Hu Hp. assert (id = 2 /\ (t = TJson 2 \/ t = TText 2)) as (-> & Ht).
    { destruct Hp as [| | | |n Hp|t id' Hu' Hp]; try (destruct Hu; discriminate); [now apply word_ref in Hp|].
      apply word_user in Hp as ->. destruct Hu' as [-> | ->]; destruct Hu as [Hu|Hu]; try discriminate; injection Hu as <-; auto. }
    apply ho_user with 2; auto. destruct Ht; subst; constructor.
  - intros [|[|[|id]]]; discriminate.
Qed.

Notation wordRun := (steps eval eobj ebuild estart (estep wordT demoPtr 3 uint8Enc) edone e_target e_refs).
Notation wordMarshal s := (MarshalW textF textF demoC wordE wordU demoF demoF encF encF true wordTyp wordCode wordT wordLoad wordStore (fun _ => badW textF textF demoC) (s_objs s) (published s)).
Definition node2 : gval textF textF demoC := VStruct [VPtr None; VSlice None; VMap None; VObj (bs "q" : cu_state demoC);
  VIface (Some (TJson 2, VObj (bs "x" : cu_state demoC))); VObj (bs "k" : cu_state demoC)].
Definition node1 : gval textF textF demoC := VStruct [VPtr (Some node2); VSlice (Some [VInt 1; VInt 2; VInt 255]); VMap (Some [(KS (bs "a"), node2)]); VObj (bs "p" : cu_state demoC);
  VIface (Some (TMap KString (TRef 0), VMap (Some [(KS (bs "b"), node2)]))); VObj (bs "h" : cu_state demoC)].
Definition nodeArg : option (ty * gval textF textF demoC) := Some (TPtr (TRef 0), VPtr (Some node1)).
Definition text2 : string := "{""Next"":null,""B"":null,""U"":""q"",""Any"":""x"",""H"":""k""}".
Definition nodeText : string := "{""Next"":" ++ text2 ++ ",""B"":""AQL/"",""M"":{""a"":" ++ text2 ++ "},""U"":""p"",""Any"":{""b"":" ++ text2 ++ "},""H"":""h""}".
Notation wpart := (part textF textF demoC wordU).
Lemma obj_part t x y : ~ wpart (VIface (Some (t, x))) (VObj y).
Proof.
  intros H. inversion H as [| | | | | | |id z K]; subst. destruct id as [|[|[|id]]]; simpl in K; inversion K as [| | | |k v m A K2| | |]; subst.
  destruct A as [A|[]]. injection A as <- <-. inversion K2.
Qed.
Ltac partStep := match goal with
  | H : wpart _ (VObj _) |- _ => now apply obj_part in H
  | H : In _ (_ :: _) |- _ => destruct H as [H|H]; [try (injection H as <- <-); try subst|]
  | H : In _ [] |- _ => destruct H
  | H : wpart _ _ |- _ => inversion H; clear H; subst
  end.
Lemma node2_parts t x : wpart (VIface (Some (t, x))) node2 -> t = TJson 2 /\ x = VObj (bs "x" : cu_state demoC).
Proof. unfold node2. intros H. repeat partStep. auto. Qed.
Lemma node_parts t x : wpart (VIface (Some (t, x))) (VIface nodeArg) ->
  (t = TJson 2 /\ x = VObj (bs "x" : cu_state demoC)) \/ (t = TPtr (TRef 0) /\ x = VPtr (Some node1)) \/
  (t = TMap KString (TRef 0) /\ x = VMap (Some [(KS (bs "b"), node2)])).
Proof.
  unfold nodeArg. intros H. inversion H as [| | | | | |t' v K|]; clear H; subst; auto. inversion K as [|v' K2| | | | | |]; clear K; subst. unfold node1 in K2.
  inversion K2 as [| | | | |v l Hi K3| |]; clear K2; subst.
  repeat match goal with H : In _ (_ :: _) |- _ => destruct H as [H|H]; [subst|] | H : In _ [] |- _ => destruct H end.
  - inversion K3 as [|v' K4| | | | | |]; clear K3; subst. left. now apply node2_parts.
  - repeat partStep.
  - inversion K3 as [| | | |k v m A K4| | |]; clear K3; subst. destruct A as [A|[]]. injection A as <- <-. left. now apply node2_parts.
  - now apply obj_part in K3.
  - inversion K3 as [| | | | | |t' v K4|]; clear K3; subst; auto. inversion K4 as [| | | |k v m A K5| | |]; clear K4; subst. destruct A as [A|[]]. injection A as <- <-. left. now apply node2_parts.
  - now apply obj_part in K3.
Qed.
(** a goroutine marshals a pointer to Node; the encoders handle the nested values, in interfaces and in variables *)
Definition wordState : state eval eobj ebuild := alone wordT demoPtr 3 70 (econfig noCustom) 10.
Lemma word_run : wordRun (econfig noCustom) wordState.
Proof. apply alone_ok; [apply ss_refl|reflexivity]. Qed.
Lemma word_ready : ready textF textF demoC wordE wordU wordTyp wordCode wordStore (published wordState) (VIface nodeArg).
Proof.
  intros t x H. apply node_parts in H as [(-> & ->)|[(-> & ->)|(-> & ->)]]; (split; [reflexivity|]); (split; [|intros K; vm_compute in K; discriminate]).
  - apply dw_shape; [apply ps_user with 2; [now left|constructor]|]. apply ho_user with 2; [now left|]. constructor.
  - apply dw_shape; constructor.
  - apply dw_shape; constructor.
Qed.
Example C42_marshal_example : names_ok textF textF demoC wordE wordU /\ program textF textF demoC wordE wordU wordTyp 3 wordT demoPtr wordLoad wordStore /\
  wordRun (econfig noCustom) wordState /\ ready textF textF demoC wordE wordU wordTyp wordCode wordStore (published wordState) (VIface nodeArg) /\
  Marshal textF textF demoC wordE wordU demoF demoF encF encF true 12 nodeArg = MOk (bs nodeText) /\
  wordMarshal wordState 13 nodeArg = MOk (bs nodeText).
Proof.
  split; [apply word_names|]. split; [apply word_program|]. split; [apply word_run|]. split; [apply word_ready|]. split; vm_compute; reflexivity.
Qed.

Lemma obj_fits Q a T id (s : bytes) : (T = TJson id \/ T = TText id) -> uses_json textF textF demoC wordU a id -> (exists c, s = [c] /\ 97 <= c < 127)%Z ->
  fits textF textF demoC wordE wordU demoF demoF encF encF Q a T (VObj (s : cu_state demoC)).
Proof.
  intros Hu Hj (c & -> & Hc). apply fi_json with (id := id) (t := quote [c]) (j := JStr [c]); auto.
  - simpl. destruct (Z.eqb_spec c 33) as [->|]; [lia|]. reflexivity.
  - apply (v_str [c]). exists [UByte c]. split; [|reflexivity]. apply si_plain; try lia. constructor.
Qed.
Ltac wordStep := first
  [ fitStep | (apply obj_fits with 1; [now left|right; split; reflexivity|eexists; split; [reflexivity|cbv; split; congruence]]) | (apply obj_fits with 2; [now left|now left|eexists; split; [reflexivity|cbv; split; congruence]])
  | (apply fi_ref; [reflexivity|notPointer|cbn [te_type wordE]; unfold nodeT, nodeFields]) ].
Lemma h_no_fields b : ~ no_fields textF textF demoC wordE wordU b (TJson 2).
Proof.
  intros N. inversion N as [? ? K|? id ? K K1]; [discriminate|]. destruct K as [K|K]; [injection K as <-|discriminate]. apply K1. left. reflexivity.
Qed.
Lemma node2_fits Q a : fits textF textF demoC wordE wordU demoF demoF encF encF Q a (TRef 0) node2.
Proof.
  unfold node2. repeat wordStep. apply fi_iface; [auto|left; left; apply h_no_fields|]. repeat wordStep.
Qed.
Lemma node_fits Q : fits textF textF demoC wordE wordU demoF demoF encF encF Q false TEface (VIface nodeArg).
Proof.
  unfold nodeArg, node1. change [VInt 1; VInt 2; VInt 255] with (map (@VInt textF textF demoC) [1; 2; 255]%Z). repeat first [apply node2_fits|wordStep].
Qed.
Example C42_represents_example : names_ok textF textF demoC wordE wordU /\ program textF textF demoC wordE wordU wordTyp 3 wordT demoPtr wordLoad wordStore /\
  wordRun (econfig noCustom) wordState /\ ready textF textF demoC wordE wordU wordTyp wordCode wordStore (published wordState) (VIface nodeArg) /\
  fits textF textF demoC wordE wordU demoF demoF encF encF False false TEface (VIface nodeArg).
Proof. split; [apply word_names|]. split; [apply word_program|]. split; [apply word_run|]. split; [apply word_ready|apply node_fits]. Qed.
(** MarshalJSON of the third field fails *)
Definition nodeBad : gval textF textF demoC := VMap (Some [(KS (bs "a"), node2); (KS (bs "b"),
  VStruct [VPtr None; VSlice None; VMap None; VObj (bs "!" : cu_state demoC); VIface None; VObj (bs "k" : cu_state demoC)])]).
Example C42_fails_example : ready textF textF demoC wordE wordU wordTyp wordCode wordStore (published wordState) (VIface (Some (TMap KString (TRef 0), nodeBad))) /\
  fails textF textF demoC wordE wordU demoF demoF encF encF False false (TMap KString (TRef 0)) false nodeBad (SErr 7) /\
  wordMarshal wordState 13 (Some (TMap KString (TRef 0), nodeBad)) = MErr (SErr 7).
Proof.
  split; [|split].
  - assert (A : forall t x, wpart (VIface (Some (t, x))) (VIface (Some (TMap KString (TRef 0), nodeBad))) ->
      (t = TJson 2 /\ x = VObj (bs "x" : cu_state demoC)) \/ (t = TMap KString (TRef 0) /\ x = nodeBad)).
    { intros t x H. inversion H as [| | | | | |t' v K|]; clear H; subst; auto. unfold nodeBad in K. inversion K as [| | | |k v m A K4| | |]; clear K; subst.
      destruct A as [A|[A|[]]]; injection A as <- <-; [left; now apply node2_parts|]. exfalso. repeat partStep. }
    intros t x H. apply A in H as [(-> & ->)|(-> & ->)]; (split; [reflexivity|]); (split; [|intros K; vm_compute in K; discriminate]).
    + apply dw_shape; [apply ps_user with 2; [now left|constructor]|]. apply ho_user with 2; [now left|]. constructor.
    + apply dw_shape; constructor.
  - destruct (proj1 (fits_encodes textF textF demoC wordE wordU demoF demoF demoF_sane demoF_sane encF encF False word_names) _ _ _ (node2_fits False false) false) as (t & H).
    unfold nodeBad. apply x_map; [exact I|]. eapply xm_later; [constructor; apply bytes_b; reflexivity|exact H|].
    apply xm_here; [constructor; apply bytes_b; reflexivity|]. apply x_ref; [reflexivity|notPointer|]. cbn [te_type wordE]. unfold nodeT, nodeFields. apply x_struct.
    eapply xf_later; [split; [repeat econstructor|split; [apply bytes_b; reflexivity|discriminate]]|apply e_ptr_nil; apply no_ref; [discriminate|intros _; apply no_other; [discriminate|discriminate|discriminate|intros ? [?|?]; discriminate]]|].
    eapply xf_later; [split; [repeat econstructor|split; [apply bytes_b; reflexivity|discriminate]]|apply e_slice_nil|].
    apply xf_skip; [right; eexists; split; [repeat econstructor|split; [reflexivity|left; split; [plainTested|constructor]]]|].
    eapply xf_here; [split; [repeat econstructor|split; [apply bytes_b; reflexivity|discriminate]]|].
    eapply x_json with (id := 1); [now left|right; split; reflexivity|reflexivity].
  - vm_compute. reflexivity.
Qed.
(** the user's own encoder of a map type, which writes true if it gets the address of a variable *)
Definition customs (c : nat) : option nat := match c with 4 => Some 0 | _ => None end.
Definition seesVar (_ : nat) : wenc textF textF demoC := mkW textF textF demoC (fun _ => Some false)
  (fun p _ => docall demoF demoF (SBool match p with PVar _ _ _ _ => true | _ => false end)).
Notation customMarshal s := (MarshalW textF textF demoC wordE wordU demoF demoF encF encF true wordTyp wordCode wordT wordLoad wordStore seesVar (s_objs s) (published s)).
Theorem C42_custom_refuted : exists s t v, wordRun (econfig customs) s /\
  ready textF textF demoC wordE wordU wordTyp wordCode wordStore (published s) (VIface (Some (t, v))) /\
  ready textF textF demoC wordE wordU wordTyp wordCode wordStore (published s) (VIface (Some (TPtr t, VPtr (Some v)))) /\
  customMarshal s 5 (Some (t, v)) = MOk (bs "false") /\ customMarshal s 5 (Some (TPtr t, VPtr (Some v))) = MOk (bs "true").
Proof.
  exists (alone wordT demoPtr 3 70 (econfig customs) 14), (TMap KString (TRef 0)), (VMap (Some [])).
  split; [apply alone_ok; [apply ss_refl|reflexivity]|].
  split; [|split; [|split; vm_compute; reflexivity]].
  all: intros t x H; repeat partStep; (split; [reflexivity|]); (split; [|intros K; vm_compute in K; discriminate]).
  all: apply dw_shape; constructor.
Qed.

Print Assumptions C42_marshal.
Print Assumptions C42_represents.
Print Assumptions C42_fails.
Print Assumptions C42_custom_refuted.
