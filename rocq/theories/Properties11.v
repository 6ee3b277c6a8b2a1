(** C43: decoding with the decoders in the cache. *)
From Coq Require Import String ZArith List Bool Lia Arith.
From Verif Require Import Base ModelIter ModelSkip ModelFloat ModelOps ModelFold Spec ModelVal SpecVal FloatFacts ValFacts ModelDecoder SpecDecoder Properties1 Properties3 Properties4.
From Verif Require Import ModelCache SpecCache CacheFacts DecCache Properties9 ModelLink SpecLink LinkFacts.
Import ListNotations.

Section Link.
Variables F32 F64 : floatOps.
Variable C : custom.
Variable E : env F32 F64 C.
Notation gval := (gval F32 F64 C).
Notation under := (under F32 F64 C E).
Variable sf : Z -> Z.                    (* unicode.SimpleFold *)
Variable cs : bool.                      (* CaseSensitive *)
Notation ReadVal := (ReadVal F32 F64 C E sf cs).
Notation Unmarshal := (Unmarshal F32 F64 C E sf cs).
Notation UnmarshalFromReader := (UnmarshalFromReader F32 F64 C E sf cs).
Notation vreachable := (vreachable F32 F64 C E sf cs).
Notation decodes b d := (decodes F32 F64 C E (findField sf cs) b d).
Variables (S32 : float_sane F32) (S64 : float_sane F64).
Variable typ : nat -> ty.
Variable code : ty -> nat.
Variable T : nat -> dtype.
Variable userDec : nat -> decoder F32 F64 C.
Hypothesis DP : dprogram F32 F64 C E typ T.
Notation state := (state dval dobj dbuild).
Notation run := (steps dval dobj dbuild dstart (dstep T) ddone d_target d_refs).
Notation start := (dconfig noCustom).
(** ReadVal and Unmarshal with the decoders that are in the cache in state [s] *)
Notation ReadValIn s := (ReadValIn F32 F64 C E sf cs typ code userDec (s_objs s) (published s)).
Notation UnmarshalIn s := (UnmarshalIn F32 F64 C E sf cs typ code userDec (s_objs s) (published s)).
Notation UnmarshalFromReaderIn s := (UnmarshalFromReaderIn F32 F64 C E sf cs typ code userDec (s_objs s) (published s)).
Notation known s := (known F32 F64 C E typ code (published s)).
Notation dready s := (dready F32 F64 C E typ code (published s)).

Let KK (s : state) (p : ty) : Prop := known s p /\ forall t t', under p = TPtr t -> under t = TPtr t' -> known s (TPtr t).
Let complete_of s p : run start s -> known s p ->
  typ (code p) = p /\ exists v, published s (code p) = Some v /\ forall n, fitd (s_objs s) T (s_nobjs s) n (code p) v.
Proof.
  intros R (_ & Hp & Hn). split; [exact Hp|]. destruct (published s (code p)) as [v|] eqn:Ev; [|congruence]. exists v. split; [reflexivity|].
  exact (proj1 (C35_dec_published noCustom T (dp_natives _ _ _ _ _ _ DP) s s (code p) v R (ss_refl _ _ _ _ _ _ _ _ _) Ev)).
Qed.
Let zeros s n : dynamics F32 F64 C E (KK s) (te_zero _ _ _ E n).
Proof. eapply dynamics_weak; [|apply DP]. intros p []. Qed.
Let KPs s p t t' : KK s p -> under p = TPtr t -> under t = TPtr t' -> KK s (TPtr t).
Proof. intros (H1 & H2) Hp Ht. split; [eauto|]. intros t0 t0' Hu Hu'. cbn in Hu. injection Hu as <-. eauto. Qed.

(** ReadVal with the decoders in the cache does what ModelVal.v says, whatever goroutines have filled the cache *)
Theorem C43_readval (s : state) p t old it : run start s -> known s p -> under p = TPtr t -> dready s old ->
  (forall m n, m < n -> fst (ReadVal m t old it) <> Err errDepth -> ReadValIn s n p old it = ReadVal m t old it) /\
  (forall m n, 2 * n <= m -> fst (ReadValIn s n p old it) <> Err errDepth -> ReadVal m t old it = ReadValIn s n p old it).
Proof.
  intros R Hk Hu Hr. destruct (complete_of s p R Hk) as (Hp & v & Hv & Hf).
  assert (KR : forall p, KK s p -> typ (code p) = p /\ exists v, published s (code p) = Some v /\ forall n, fitd (s_objs s) T (s_nobjs s) n (code p) v)
    by (intros p' (H & _); now apply complete_of).
  assert (Ht : ModelLink.pointee F32 F64 C E (typ (code p)) = t) by (rewrite Hp; unfold ModelLink.pointee; now rewrite Hu).
  unfold ModelLink.ReadValIn, ModelLink.readVal, ModelVal.ReadVal. rewrite Hv. split; intros m n Hm Hd.
  - pose proof (agree_from F32 F64 C E sf cs typ code userDec (s_objs s) (published s) T (s_nobjs s) (KK s) (zeros s) (KPs s) DP KR m n n (code p) v Hm (le_n n) (Hf n) noOpts old Hr it) as H.
    rewrite Ht in H. destruct (fst (ModelVal.decode _ _ _ _ _ _ m t noOpts old it)) as [| e | |]; [apply H| |apply H|apply H]. destruct H as [->|H]; [contradiction|exact H].
  - pose proof (agree_to F32 F64 C E sf cs typ code userDec (s_objs s) (published s) T (s_nobjs s) (KK s) (zeros s) (KPs s) DP KR n m n (code p) v Hm (le_n n) (Hf n) noOpts old Hr it) as H.
    rewrite Ht in H. destruct (fst (ModelLink.apply _ _ _ _ _ _ _ _ _ _ _ n v noOpts old it)) as [| e | |]; [apply H| |apply H|apply H]. destruct H as [->|H]; [contradiction|exact H].
Qed.
(** in particular no nil decoder is called *)
Theorem C43_no_panic (s : state) p old it n : run start s -> known s p -> dready s old -> vreachable it ->
  fst (ReadValIn s n p old it) <> Panic /\ fst (ReadValIn s n p old it) <> OutOfFuel.
Proof.
  intros R Hk Hr Hi. destruct (proj1 Hk) as (t & Hu). destruct (C43_readval s p t old it R Hk Hu Hr) as (_ & H). specialize (H (2 * n) n (le_n _)).
  destruct (C03_readval F32 F64 C E sf cs (2 * n) t old it Hi) as (N1 & N2). split; intros He; rewrite He in H; rewrite H in *; congruence.
Qed.
Let unmarshal_both (s : state) p t old it v : run start s -> known s p -> under p = TPtr t -> dready s old ->
  (exists n, fst (unmarshalIn F32 F64 C E sf cs typ code userDec (s_objs s) (published s) n p old it) = Ok v) <->
  (exists n, fst (ModelVal.unmarshal F32 F64 C E sf cs n t old it) = Ok v).
Proof.
  intros R Hk Hu Hr. destruct (C43_readval s p t old it R Hk Hu Hr) as (H1 & H2). unfold unmarshalIn, ModelVal.unmarshal, bind. split; intros (n & H).
  - exists (2 * n). rewrite (H2 (2 * n) n (le_n _)); [exact H|]. intros He. destruct (ReadValIn s n p old it) as [[] it']; discriminate.
  - exists (S n). rewrite (H1 n (S n) (le_n _)); [exact H|]. intros He. destruct (ReadVal n t old it) as [[] it']; discriminate.
Qed.
(** exactly which inputs are accepted, and what is stored *)
Theorem C43_unmarshal (s : state) p t old data it v : run start s -> known s p -> under p = TPtr t -> dready s old -> vreachable it ->
  ((exists n, fst (UnmarshalIn s n p old data it) = Ok v) <->
   exists w1 x w2, data = w1 ++ x ++ w2 /\ ws w1 /\ ws w2 /\ decodes (it_useNumber it) (it_disallow it) t noOpts old x v).
Proof.
  intros R Hk Hu Hr Hi. unfold ModelLink.UnmarshalIn. rewrite (unmarshal_both s p t old _ v R Hk Hu Hr). now apply C26_unmarshal.
Qed.
Theorem C43_reader (s : state) p t old rd it v : run start s -> known s p -> under p = TPtr t -> dready s old -> vreachable it -> rd_fin rd = EEOF ->
  ((exists n, fst (UnmarshalFromReaderIn s n p old rd it) = Ok v) <->
   exists w1 x w2, rd_data rd = w1 ++ x ++ w2 /\ ws w1 /\ ws w2 /\ decodes (it_useNumber it) (it_disallow it) t noOpts old x v).
Proof.
  intros R Hk Hu Hr Hi Hf. unfold ModelLink.UnmarshalFromReaderIn. rewrite (unmarshal_both s p t old _ v R Hk Hu Hr). now apply C26_reader.
Qed.
(** the value that is stored may be decoded into again *)
Theorem C43_again (s : state) p old it n v it' : run start s -> known s p -> dready s old -> ReadValIn s n p old it = (Ok v, it') -> dready s v.
Proof.
  intros R Hk Hr H. destruct (proj1 Hk) as (t & Hu). destruct (complete_of s p R Hk) as (Hp & x & Hv & Hf).
  assert (KR : forall p, KK s p -> typ (code p) = p /\ exists v, published s (code p) = Some v /\ forall n, fitd (s_objs s) T (s_nobjs s) n (code p) v)
    by (intros p' (H' & _); now apply complete_of).
  unfold ModelLink.ReadValIn, ModelLink.readVal in H. rewrite Hv in H.
  pose proof (agree_to F32 F64 C E sf cs typ code userDec (s_objs s) (published s) T (s_nobjs s) (KK s) (zeros s) (KPs s) DP KR n (2 * n) n (code p) x (le_n _) (le_n n) (Hf n) noOpts old Hr it) as A.
  rewrite H in A. apply A.
Qed.
End Link.

(** ** Examples *)
(** goroutine 0 alone: it asks for a type and goes on until it has a decoder *)
Section Alone.
Variable T : nat -> dtype.
Notation state := (state dval dobj dbuild).
Notation mem := (bmem dval dobj).
Notation run := (steps dval dobj dbuild dstart (dstep T) ddone d_target d_refs).
Definition buildNext (x : mem) (b : dbuild) : option (mem * dbuild) :=
  match b with
  | DLoop (t :: q) rb => Some (d_visit T x q rb t)
  | DLoop [] rb => Some (x, DBuild rb)
  | DBuild (b :: l) => Some (d_rebuild x b, DBuild l)
  | DBuild [] => None
  end.
Lemma buildNext_ok x b x' b' : buildNext x b = Some (x', b') -> exists acc, dstep T x b acc x' b'.
Proof.
  destruct b as [[|t q] rb|[|b l]]; simpl; intros H; try discriminate.
  - injection H as <- <-. eexists. apply ds_end.
  - injection H as H. eexists. replace x' with (fst (d_visit T x q rb t)) by now rewrite H. replace b' with (snd (d_visit T x q rb t)) by now rewrite H. apply ds_visit.
  - injection H as <- <-. eexists. apply (ds_build _ _ []).
Qed.
Definition goNext (s : state) : state :=
  match s_pc s 0 with
  | Load t => at_pc _ _ _ s 0 (Look t (s_pub s))
  | Look t m => at_pc _ _ _ s 0 (match s_maps s m t with Some v => Have t (Some v) | None => Lock t end)
  | Lock t => match s_lock s with
              | None => mkS _ _ _ (s_maps s) (s_nmaps s) (s_objs s) (s_nobjs s) (s_pub s) (Some 0) (upd (s_pc s) 0 (Load2 t))
              | _ => s
              end
  | Load2 t => at_pc _ _ _ s 0 (Look2 t (s_pub s))
  | Look2 t m => at_pc _ _ _ s 0 (match s_maps s m t with Some v => Unlock t (Some v) | None => Copy t m end)
  | Copy t m => mkS _ _ _ (upd (s_maps s) (s_nmaps s) (s_maps s m)) (S (s_nmaps s)) (s_objs s) (s_nobjs s) (s_pub s) (s_lock s)
                  (upd (s_pc s) 0 (Build t (s_nmaps s) (dstart t)))
  | Build t m b => match buildNext (bview _ _ _ s m) b with
                   | Some (x, b') => at_pc _ _ _ (bput _ _ _ s m x) 0 (Build t m b')
                   | None => at_pc _ _ _ s 0 (Store t m)
                   end
  | Store t m => mkS _ _ _ (s_maps s) (s_nmaps s) (s_objs s) (s_nobjs s) m (s_lock s) (upd (s_pc s) 0 (Result t m))
  | Result t m => at_pc _ _ _ s 0 (Unlock t (s_maps s m t))
  | Unlock t v => mkS _ _ _ (s_maps s) (s_nmaps s) (s_objs s) (s_nobjs s) (s_pub s) None (upd (s_pc s) 0 (Have t v))
  | _ => s
  end.
Lemma goNext_ok s0 s : run s0 s -> run s0 (goNext s).
Proof.
  intros R. unfold goNext. destruct (s_pc s 0) as [|t|t m|t|t|t m|t m|t m b|t m|t m|t v|t v|t v w] eqn:Ep; try exact R; try (eapply ss_step; [exact R|]; first [now apply st_load|now apply st_look|now apply st_load2|now apply st_look2|now apply st_copy|now apply st_store|now apply st_result|now apply st_unlock]).
  - destruct (s_lock s) eqn:El; [exact R|]. eapply ss_step; [exact R|]. now apply st_lock.
  - destruct (buildNext _ b) as [(x & b')|] eqn:En.
    + apply buildNext_ok in En as (acc & En). eapply ss_step; [exact R|]. eapply st_build; eauto.
    + eapply ss_step; [exact R|]. eapply st_built; eauto. destruct b as [[|]|[|]]; try discriminate. reflexivity.
Qed.
Definition alone (n : nat) (s : state) (t : nat) : state := Nat.iter n goNext (at_pc _ _ _ s 0 (Load t)).
Lemma alone_ok n s0 s t : run s0 s -> s_pc s 0 = Idle -> run s0 (alone n s t).
Proof.
  intros R Hi. unfold alone. assert (R' : run s0 (at_pc _ _ _ s 0 (Load t))) by (eapply ss_step; [exact R|]; now apply st_begin).
  induction n; [exact R'|]. simpl. apply goNext_ok, IHn.
Qed.
End Alone.
(** Pointers to the types 0 type Node struct, 1 interface{}, 2 []byte, 3 uint8, 4 map[string]Node, 5 a type with UnmarshalJSON,
    6 json.Number, 7 [2]int8, 8 int8, 9 bool; pointers to pointer types are 10 larger *)
Definition linkFields : list (field ty) :=
  [mkField (bs "Next") [HField 0] false false (TPtr (TRef 0));
   mkField (bs "B") [HField 1] false false (TSlice (TInt false W8));
   mkField (bs "M") [HField 2] false true (TMap KString (TRef 0));
   mkField (bs "U") [HField 3] false false (TJson 0);
   mkField (bs "Any") [HField 4] false true TEface;
   mkField (bs "N") [HField 5] false false TNumber;
   mkField (bs "A") [HField 6] false false (TArray 2 (TInt true W8))].
Definition linkT : ty := TStruct (map f_type linkFields) linkFields.
Definition linkV (n : option (gval textF textF demoC)) (b : option (list (gval textF textF demoC))) m (u : bytes) x (s : bytes) (i j : Z) : gval textF textF demoC :=
  VStruct [VPtr n; VSlice b; VMap m; VObj (u : cu_state demoC); VIface x; VStr s; VArr [VInt i; VInt j]].
Definition linkE : env textF textF demoC := mkEnv _ _ _ (fun n => match n with 0 => linkT | _ => TBool end)
  (fun n => match n with 0 => linkV None None None (bs "") None (bs "") 0 0 | _ => VBool false end).
Definition linkBase (c : nat) : ty :=
  match c with
  | 0 => TRef 0 | 1 => TEface | 2 => TSlice (TInt false W8) | 3 => TInt false W8 | 4 => TMap KString (TRef 0)
  | 5 => TJson 0 | 6 => TNumber | 7 => TArray 2 (TInt true W8) | 8 => TInt true W8 | _ => TBool
  end.
Fixpoint linkTyp (c : nat) : ty :=
  match c with
  | S (S (S (S (S (S (S (S (S (S c'))))))))) => TPtr (linkTyp c')
  | _ => TPtr (linkBase c)
  end.
Fixpoint linkCode (t : ty) : nat :=
  match t with
  | TPtr (TPtr _ as t') => 10 + linkCode t'
  | TPtr t' =>
      match t' with
      | TEface => 1 | TSlice _ => 2 | TInt false _ => 3 | TMap _ _ => 4 | TJson _ => 5 | TNumber => 6 | TArray _ _ => 7 | TInt true _ => 8 | TBool => 9
      | _ => 0
      end
  | _ => 0
  end.
Definition linkD (c : nat) : dtype :=
  match c with
  | 0 => mkDT None false false (KStruct [10; 2; 4; 5; 1; 6; 7])
  | 1 => mkDT None false false (KInterface false)
  | 2 => mkDT None false false (KSlice 3)
  | 3 => mkDT None false false (KBasic 3 8)
  | 4 => mkDT None false false (KMap (Some 0))
  | 5 => mkDT None true false KOther
  | 6 => mkDT (Some 0) false false KOther
  | 7 => mkDT None false false (KArray 8)
  | 8 => mkDT None false false (KBasic 8 4)
  | 9 => mkDT None false false (KBasic 9 0)
  | S (S (S (S (S (S (S (S (S (S e))))))))) => mkDT None false false (KPtr e)
  end.
Lemma linkTyp_ptr c : exists t, linkTyp c = TPtr t.
Proof. do 10 (destruct c as [|c]; [eexists; reflexivity|]). eexists. reflexivity. Qed.
Lemma link_types c : ddescribes textF textF demoC linkE linkTyp (linkD c) (linkTyp c).
Proof.
  destruct c as [|[|[|[|[|[|[|[|[|[|c]]]]]]]]]].
  1-10: constructor; try reflexivity.
  all: try (intros _; split; [discriminate|]; intros (t & id & H1 & H2); injection H1 as <-; discriminate).
  all: try (split; [discriminate|]; intros (t & id & H1 & H2); injection H1 as <-; discriminate).
  all: try (intros; eexists; (split; [reflexivity|]); simpl; try discriminate).
  - apply dk_ref; [discriminate|]. simpl. constructor. reflexivity.
  - constructor.
  - now constructor.
  - now constructor.
  - now constructor.
  - split; [|reflexivity]. intros _. exists (TJson 0), 0. split; reflexivity.
  - now constructor.
  - now constructor.
  - now constructor.
  - change (linkTyp (S (S (S (S (S (S (S (S (S (S c))))))))))) with (TPtr (linkTyp c)). destruct (linkTyp_ptr c) as (t & Ht). constructor.
    + rewrite Ht. reflexivity.
    + split; [discriminate|]. intros (t' & id & H1 & H2). injection H1 as <-. rewrite Ht in H2. discriminate.
    + intros _. split; [discriminate|]. intros (t' & id & H1 & H2). injection H1 as <-. rewrite Ht in H2. discriminate.
    + intros _ _ _. eexists. split; [reflexivity|]. apply dk_ptr with t; [now rewrite Ht|reflexivity].
Qed.
Lemma link_zero n : dynamics textF textF demoC linkE (fun _ => False) (te_zero _ _ _ linkE n).
Proof. destruct n; simpl; repeat constructor. Qed.
Lemma link_program : dprogram textF textF demoC linkE linkTyp linkD.
Proof.
  constructor.
  - apply link_types.
  - intros t na d. do 10 (destruct t as [|t]; [simpl; try discriminate; now intros [= <- <-]|]). discriminate.
  - intros [|n] m; discriminate.
  - intros [|n] t; discriminate.
  - apply link_zero.
Qed.
Notation linkRun := (steps dval dobj dbuild dstart (dstep linkD) ddone d_target d_refs).
Notation linkReadVal s := (ReadValIn textF textF demoC linkE noFold true linkTyp linkCode (fun _ => badDec textF textF demoC) (s_objs s) (published s)).
Notation linkUnmarshal s := (UnmarshalIn textF textF demoC linkE noFold true linkTyp linkCode (fun _ => badDec textF textF demoC) (s_objs s) (published s)).
(** a goroutine has decoded into a pointer to a pointer to Node *)
Definition linkState : state dval dobj dbuild := alone linkD 60 (dconfig noCustom) 10.
Lemma link_run : linkRun (dconfig noCustom) linkState.
Proof. apply alone_ok; [apply ss_refl|reflexivity]. Qed.
(** the interface in the variable holds a pointer to a pointer to Node, and in that Node it holds a pointer to a Node *)
Definition linkOld : gval textF textF demoC :=
  linkV (Some (linkV None None None (bs "") None (bs "old") 8 9)) None (Some [(KS (bs "k"), linkV None None None (bs "") None (bs "") 0 0)]) (bs "")
    (Some (TPtr (TPtr (TRef 0)), VPtr (Some (VPtr (Some (linkV None None None (bs "") (Some (TPtr (TRef 0), VPtr (Some (linkV None None None (bs "") None (bs "") 0 0)))) (bs "") 1 2)))))) (bs "5") 3 4.
Definition linkText : string :=
  "{""Next"":{""B"":""AQL/"",""Any"":[1]},""B"":[7,8],""M"":{""a"":{""A"":[5]}},""U"":[null],""Any"":{""N"":12,""Any"":{""A"":[6,7]}},""x"":{}}".
Definition linkNew : gval textF textF demoC :=
  linkV (Some (linkV None (Some [VInt 1; VInt 2; VInt 255]) None (bs "") (Some (TSlice TEface, VSlice (Some [VIface (Some (TFloat64, @VFloat64 textF textF demoC (false, bs "1")))]))) (bs "old") 8 9))
    (Some [VInt 7; VInt 8]) (Some [(KS (bs "k"), linkV None None None (bs "") None (bs "") 0 0); (KS (bs "a"), linkV None None None (bs "") None (bs "") 5 0)]) (bs "[null]")
    (Some (TPtr (TPtr (TRef 0)), VPtr (Some (VPtr (Some (linkV None None None (bs "") (Some (TPtr (TRef 0), VPtr (Some (linkV None None None (bs "") None (bs "") 6 7)))) (bs "12") 1 2)))))) (bs "5") 3 4.
Lemma link_known : known textF textF demoC linkE linkTyp linkCode (published linkState) (TPtr (TRef 0)) /\ known textF textF demoC linkE linkTyp linkCode (published linkState) (TPtr (TPtr (TRef 0))).
Proof. split; (split; [eexists; reflexivity|]); (split; [reflexivity|]); intros K; vm_compute in K; discriminate. Qed.
Lemma link_ready : dready textF textF demoC linkE linkTyp linkCode (published linkState) linkOld.
Proof.
  destruct link_known as (K1 & K2). unfold dready, linkOld, linkV. match goal with |- dynamics _ _ _ _ ?P _ => set (K := P) end.
  assert (KK1 : K (TPtr (TRef 0))) by (split; [exact K1|]; intros t t' H1 H2; injection H1 as <-; discriminate).
  assert (KK2 : K (TPtr (TPtr (TRef 0)))) by (split; [exact K2|]; intros t t' H1 H2; injection H1 as <-; exact K2).
  clearbody K. clear K1 K2.
  repeat match goal with
  | |- dynamics _ _ _ _ _ (VIface (Some _)) => apply dy_iface; [intros t' _; assumption|]
  | |- dynamics _ _ _ _ _ _ => constructor
  | |- Forall _ _ => constructor; cbn [snd]
  end.
Qed.
Definition linkIt : iter := ResetBytes (bs linkText) (newIter false false (mkStack [5; 7]%Z 0)).
Lemma link_it : vreachable textF textF demoC linkE noFold true linkIt.
Proof. apply vr_reachable, re_ResetBytes, re_new. Qed.
Example C43_readval_example : dprogram textF textF demoC linkE linkTyp linkD /\ linkRun (dconfig noCustom) linkState /\
  known textF textF demoC linkE linkTyp linkCode (published linkState) (TPtr (TRef 0)) /\ dready textF textF demoC linkE linkTyp linkCode (published linkState) linkOld /\
  fst (ReadVal textF textF demoC linkE noFold true 14 (TRef 0) linkOld linkIt) = Ok linkNew /\
  fst (linkReadVal linkState 15 (TPtr (TRef 0)) linkOld linkIt) = Ok linkNew /\
  fst (linkReadVal linkState 3 (TPtr (TRef 0)) linkOld linkIt) = Err errDepth.
Proof.
  split; [apply link_program|]. split; [apply link_run|]. split; [apply link_known|]. split; [apply link_ready|]. split; [|split]; vm_compute; reflexivity.
Qed.
Example C43_no_panic_example : vreachable textF textF demoC linkE noFold true linkIt /\ fst (linkReadVal linkState 15 (TPtr (TRef 0)) linkOld linkIt) = Ok linkNew /\
  fst (linkReadVal (dconfig noCustom) 10 (TPtr (TRef 0)) linkOld linkIt) = Panic.
Proof. split; [apply link_it|]. split; vm_compute; reflexivity. Qed.
Example C43_unmarshal_example : float_sane textF /\ vreachable textF textF demoC linkE noFold true linkIt /\
  fst (linkUnmarshal linkState 15 (TPtr (TRef 0)) linkOld (bs linkText) linkIt) = Ok linkNew /\
  fst (linkUnmarshal linkState 15 (TPtr (TPtr (TRef 0))) (VPtr None) (bs "{""A"":[1]} 2") linkIt) = Err EDataRemained.
Proof. split; [apply textF_sane|]. split; [apply link_it|]. split; vm_compute; reflexivity. Qed.
Example C43_reader_example : rd_fin (pieces linkText) = EEOF /\
  fst (UnmarshalFromReaderIn textF textF demoC linkE noFold true linkTyp linkCode (fun _ => badDec textF textF demoC) (s_objs linkState) (published linkState)
    15 (TPtr (TRef 0)) linkOld (pieces linkText) linkIt) = Ok linkNew.
Proof. split; vm_compute; reflexivity. Qed.
(** null for the interface that holds a pointer to a pointer: it then holds a new pointer of another type *)
Example C43_again_example : exists v it', linkReadVal linkState 15 (TPtr (TRef 0)) linkOld (ResetBytes (bs "{""Any"":null}") linkIt) = (Ok v, it') /\
  nth_error (match v with VStruct l => l | _ => [] end) 4 = Some (VIface (Some (TPtr (TPtr (TRef 0)), VPtr (Some (VPtr None))))).
Proof.
  exists (match fst (linkReadVal linkState 15 (TPtr (TRef 0)) linkOld (ResetBytes (bs "{""Any"":null}") linkIt)) with Ok v => v | _ => VBool true end),
    (snd (linkReadVal linkState 15 (TPtr (TRef 0)) linkOld (ResetBytes (bs "{""Any"":null}") linkIt))).
  split; vm_compute; reflexivity.
Qed.

Print Assumptions C43_readval.
Print Assumptions C43_no_panic.
Print Assumptions C43_unmarshal.
Print Assumptions C43_reader.
Print Assumptions C43_again.
