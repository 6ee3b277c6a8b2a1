(** Properties C25, C27, C37 and the encoder part of C39: typed encoding.  Each theorem is followed by an
    example that meets its hypotheses. *)
From Coq Require Import String ZArith List Bool Lia Arith.
From Verif Require Import Spec SpecStream SpecBase64 SpecFold StreamFacts StreamStrFacts StreamTree FloatFacts Base64Facts FoldFacts IterFacts Sim Properties1 Properties2.
From Verif Require Import ModelIter ModelStack ModelRead Properties3.
From Verif Require Import Base ModelInt ModelFloat ModelOps ModelBase64 ModelStream ModelFold ModelVal ModelDecoder ModelEnc SpecVal SpecEnc ValFacts EncFacts EncRound Properties4.
Import ListNotations.
Local Open Scope Z_scope.

Section TypedEncoding.
Variables F32 F64 : floatOps.
Variable C : custom.
Notation gval := (gval F32 F64 C).
Variable E : env F32 F64 C.
Notation under := (under F32 F64 C E).
Notation zero := (zero F32 F64 C E).
Variable U : marshalers F32 F64 C.
Variables G32 G64 : floatFmt.
Variable e32 : fl F32 -> ff G32.
Variable e64 : fl F64 -> ff G64.
Variable cfgHTML : bool.
Notation Value := (Value F32 F64 C E U G32 G64 e32 e64 cfgHTML).
Notation Marshal := (Marshal F32 F64 C E U G32 G64 e32 e64 cfgHTML).
Notation encode := (encode F32 F64 C E U G32 G64 e32 e64 cfgHTML).
Notation preferPtrEncoder := (preferPtrEncoder F32 F64 C E U G32 G64).
Notation empty := (empty F32 F64 C E U G32 G64 e32 e64).
Notation shaped := (shaped F32 F64 C E).
Notation tested := (tested F32 F64 C E U).
Notation no_fields := (no_fields F32 F64 C E U).
Notation nil_word := (nil_word F32 F64 C E U).
Notation set_word := (set_word F32 F64 C E U).
Notation encodes q := (encodes F32 F64 C E U G32 G64 e32 e64 q).
Notation encodes_fields q := (encodes_fields F32 F64 C E U G32 G64 e32 e64 q).
Notation fits q := (fits F32 F64 C E U G32 G64 e32 e64 q).
Notation keeps := (keeps F32 F64 C E U G32 G64 e32 e64 False).
Notation restores := (restores F32 F64 C E U G32 G64 e32 e64 False).
Notation leads := (leads F32 F64 C).
Variables (S32 : fmt_sane G32) (S64 : fmt_sane G64).
Hypothesis NO : names_ok F32 F64 C E U.

(** ** C27 *)
(** every value with a representation is encoded as one, with the oddities of the code ([Q] true) or, for
    the values that avoid them, without ([Q] false) *)
Theorem C27_marshal (Q : Prop) o : fits Q false TEface (VIface o) ->
  exists t j n0, encodes Q false TEface false (VIface o) t /\ value t j /\ forall n, (n0 <= n)%nat -> Marshal n o = MOk t.
Proof.
  intros H. destruct (fits_encodes F32 F64 C E U G32 G64 S32 S64 e32 e64 Q NO) as [K _].
  destruct (K _ _ _ H false) as (t0 & H0). destruct (Marshal_ok F32 F64 C E U G32 G64 S32 S64 e32 e64 cfgHTML Q NO _ _ H0) as (t & n0 & Ht & P).
  destruct (proj1 (encodes_value F32 F64 C E U G32 G64 e32 e64 Q) _ _ _ _ _ Ht) as (j & V). exists t, j, n0. auto.
Qed.
(** the same for one more value on a streamer without error: it is appended, after a comma if needed *)
Theorem C27_value (Q : Prop) o h : fits Q false TEface (VIface o) ->
  exists t j n0, encodes Q false TEface false (VIface o) t /\ value t j /\
    forall n p w b, (n0 <= n)%nat -> Value n o (mkStm w b None p h) = SOk (mkStm w (b ++ comma p ++ t) None true h).
Proof.
  intros H. destruct (fits_encodes F32 F64 C E U G32 G64 S32 S64 e32 e64 Q NO) as [K _].
  destruct (K _ _ _ H false) as (t0 & H0). destruct (Value_ok F32 F64 C E U G32 G64 S32 S64 e32 e64 cfgHTML Q NO h _ _ H0) as (t & n0 & Ht & P).
  destruct (proj1 (encodes_value F32 F64 C E U G32 G64 e32 e64 Q) _ _ _ _ _ Ht) as (j & V). exists t, j, n0. auto.
Qed.
(** every text that represents a value is JSON *)
Theorem C27_valid (Q : Prop) a T q v t : encodes Q a T q v t -> exists j, value t j.
Proof. apply encodes_value. Qed.

(** ** C37 *)
(** the emptiness test of the encoder of a variable never fails, and it is right *)
Theorem C37_test T v : tested T -> shaped T v ->
  exists b n0, (forall n, (n0 <= n)%nat -> en_isEmpty _ _ _ (preferPtrEncoder T (encode n T)) v = Some b) /\ (b = true <-> empty T v).
Proof.
  intros Ht Sh. destruct (isEmpty_ok F32 F64 C E U G32 G64 e32 e64 cfgHTML NO T v Ht Sh) as (b & (n0 & K) & I).
  exists b, n0. split; auto.
Qed.
(** the fields that the documentation says are present *)
Definition present (fd : field ty) (v : gval) : Prop :=
  exists x, leads (f_path fd) v x /\ (f_omitEmpty fd = true -> ~ empty (f_type fd) x).
Inductive selects : list (field ty) -> gval -> list (field ty) -> Prop :=
| sel_none v : selects [] v []
| sel_in fd fs v gs : present fd v -> selects fs v gs -> selects (fd :: fs) v (fd :: gs)
| sel_out fd fs v gs : ~ present fd v -> selects fs v gs -> selects (fd :: fs) v gs.
Definition named (fd : field ty) (p : bytes * bytes) : Prop :=
  exists b name, fst p = quote b /\ sanitized (f_name fd) name /\ string_body b name.
Lemma fields_selected fs v ps : encodes_fields False fs v ps -> exists gs, selects fs v gs /\ Forall2 named gs ps.
Proof.
  intros H. induction H as [v|fd fs v ps Hc _ (gs & S & F)|fd fs v x ps Hl Om Ht He _ (gs & S & F)|fd fs v x ps Hl Om [] |
    fd fs v x b name t ps Hl Ho Bn Z Sb _ _ (gs & S & F)].
  - exists []. split; constructor.
  - exists gs. split; auto. apply sel_out; auto. intros (x & Hl & _). eapply cut_leads; eauto.
  - exists gs. split; auto. apply sel_out; auto. intros (y & Hl' & K). apply (K Om). now rewrite (leads_fun _ _ _ _ _ _ _ Hl' Hl).
  - exists (fd :: gs). split; [apply sel_in; auto; exists x; split; auto; intros Om; destruct (Ho Om) as [[_ K]|[[] _]]; exact K|].
    constructor; auto. exists b, name. auto.
Qed.
(** a struct is encoded as an object with exactly these members, in order *)
Theorem C37_members layout fs v : fits False false (TStruct layout fs) v -> fs <> [] \/ set_word (TStruct layout fs) v ->
  exists t ps gs n0, t = object_of ps /\ selects fs v gs /\ Forall2 named gs ps /\
    forall n, (n0 <= n)%nat -> Marshal n (Some (TStruct layout fs, v)) = MOk t.
Proof.
  intros H Nw. destruct (C27_marshal False (Some (TStruct layout fs, v))) as (t & j & n0 & He & _ & P).
  { apply fi_iface; auto. left. destruct Nw as [Nw|Nw]; auto. left. intros N. inversion N as [? ? K|? ? ? K]; [injection K as _ K; auto|destruct K; discriminate]. }
  inversion He as [| | | | | | | | | | | | |? ? ? ? ? ? ? Hu|? ? ? ? ? ? ? ? Hu|? ? ? ? ? ? Hu| | | | | | | | | |? ? ? D|a T q T' v' t' D Nf Hv|? ? ? ? ? ? []| | | | |]; subst.
  inversion Hv as [| | | | | | | | | | | | |? ? ? ? ? ? ? Hu|? ? ? ? ? ? ? ? Hu|? ? ? ? ? ? Hu| | | | | | | | |a l f q v' t' ps O Hf|? ? ? D'|? ? ? ? ? ? D'|? ? ? ? ? D'| | | | |]; subst;
    try (destruct Hu; discriminate); try (destruct D'; discriminate).
  destruct (fields_selected _ _ _ Hf) as (gs & S & F). exists (object_of ps), ps, gs, n0. auto.
Qed.

(** ** C39, encoding *)
Lemma ints_inj (a b : list Z) : map (@VInt F32 F64 C) a = map VInt b -> a = b.
Proof. revert b. induction a as [|x a IH]; intros [|y b] H; try discriminate; auto. injection H as -> H. f_equal. now apply IH. Qed.
Theorem C39_marshal T data : under T = TInt false W8 -> is_bytes data ->
  exists text n0, base64 data text /\ forall n, (n0 <= n)%nat -> Marshal n (Some (TSlice T, VSlice (Some (map VInt data)))) = MOk (quote text).
Proof.
  intros HT B.
  assert (H : encodes False false TEface false (VIface (Some (TSlice T, VSlice (Some (map VInt data))))) (quote (b64encode data))).
  { apply e_iface; auto.
    - intros N. exfalso. inversion N as [? ? K|? ? ? K]; [discriminate|destruct K; discriminate].
    - apply e_bytes; auto. now apply b64encode_spec. }
  destruct (Marshal_ok F32 F64 C E U G32 G64 S32 S64 e32 e64 cfgHTML False NO _ _ H) as (t & n0 & Ht & P).
  inversion Ht as [| | | | | | | | | | | | |? ? ? ? ? ? ? Hu|? ? ? ? ? ? ? ? Hu|? ? ? ? ? ? Hu| | | | | | | | | |? ? ? D|a T1 q T' v' t' D Nf Hv|? ? ? ? ? ? []| | | | |]; subst.
  inversion Hv as [| | | | | | | | | | | | | | | | | | | |? ? ? ? ? ? Hb|a T1 q d1 text Hb Bd Hd| | | | | | | | | | |]; subst; [contradiction|].
  exists text, n0. match goal with X : map VInt d1 = map VInt data |- _ => apply ints_inj in X; subst end. split; auto.
Qed.

(** ** C25 *)
(** a struct whose fields are its own: for every variable of the struct, from number [i] on, a JSON field, or
    none if the variable is zero; omitempty only if the empty values of the variable are zero *)
Inductive direct (useNumber : bool) : nat -> list (field ty) -> list ty -> list gval -> Prop :=
| di_none i : direct useNumber i [] [] []
| di_field i name q om T fs Ts v vs : utf8_text name -> keeps useNumber true T q v ->
    (om = true -> tested T /\ (empty T v -> v = zero T)) -> direct useNumber (S i) fs Ts vs ->
    direct useNumber i (mkField name [HField i] q om T :: fs) (T :: Ts) (v :: vs)
| di_hidden i T fs Ts vs : direct useNumber (S i) fs Ts vs -> direct useNumber i fs (T :: Ts) (zero T :: vs).
Lemma direct_restores b i fs Ts vs : direct b i fs Ts vs -> forall pre, length pre = i ->
  restores b fs (VStruct (pre ++ vs)) (VStruct (pre ++ map zero Ts)) (VStruct (pre ++ vs)).
Proof using NO S32 S64.
  intros H. induction H as [i|i name q om T fs Ts v vs Un K Ho H IH|i T fs Ts vs H IH]; intros pre L.
  - apply rs_none.
  - assert (IH' := IH (pre ++ [v]) ltac:(rewrite app_length; simpl; lia)). rewrite <- !app_assoc in IH'. simpl in IH'.
    assert (Hl : leads [HField i] (VStruct (pre ++ v :: vs)) v).
    { apply le_field with v; [|constructor]. rewrite nth_error_app2 by lia. now replace (i - length pre)%nat with O by lia. }
    assert (X : om = true /\ empty T v \/ (om = true -> tested T /\ ~ empty T v)).
    { destruct om; [|right; discriminate]. destruct (Ho eq_refl) as [Ht _].
      destruct (proj1 (keeps_encodes F32 F64 C E U G32 G64 S32 S64 e32 e64 False b) _ _ _ _ K) as (t & He).
      destruct (empty_dec F32 F64 C E U G32 G64 e32 e64 NO T v Ht) as [X|X]; [|left; auto|right; auto].
      eapply encodes_shaped; eauto. }
    destruct X as [[-> Em]|X].
    + destruct (Ho eq_refl) as [Ht Hz]. specialize (Hz Em). subst v. apply rs_omit with (zero T); auto.
    + apply rs_put with v (VStruct (pre ++ v :: map zero Ts)); auto. subst i. apply so_field. constructor.
  - assert (IH' := IH (pre ++ [zero T]) ltac:(rewrite app_length; simpl; lia)). rewrite <- !app_assoc in IH'. exact IH'.
Qed.
Theorem C25_struct b a fs Ts vs q : NoDup (map f_name fs) -> direct b 0 fs Ts vs -> keeps b a (TStruct Ts fs) q (VStruct vs).
Proof.
  intros N H. apply k_struct; auto.
  - clear N. induction H; simpl; auto. constructor; auto. now apply utf8_is_bytes.
  - now apply (direct_restores _ _ _ _ _ H []).
Qed.
Section RoundTrip.
Variable sf : Z -> Z.                    (* unicode.SimpleFold *)
Variable cs : bool.                      (* CaseSensitive *)
Variable Ef : Z -> Z -> Prop.
Hypothesis FO : folding Ef.
Hypothesis WK : walks Ef sf.
Hypothesis sane32 : float_sane F32.
Hypothesis sane64 : float_sane F64.
Hypothesis ZO : zeros_ok F32 F64 C E.
Notation Unmarshal := (Unmarshal F32 F64 C E sf cs).
Notation vreachable := (vreachable F32 F64 C E sf cs).
Theorem C25_roundtrip T v it : vreachable it -> keeps (it_useNumber it) false T false v -> (no_fields false T -> set_word T v) ->
  exists t n0, forall n, (n0 <= n)%nat -> Marshal n (Some (T, v)) = MOk t /\ fst (Unmarshal n T (zero T) t it) = Ok v.
Proof.
  intros R K Nw. destruct (keeps_encodes F32 F64 C E U G32 G64 S32 S64 e32 e64 False (it_useNumber it)) as [X _].
  destruct (X _ _ _ _ K) as (t0 & H0).
  destruct (Marshal_ok F32 F64 C E U G32 G64 S32 S64 e32 e64 cfgHTML False NO (Some (T, v)) t0) as (t & n1 & Ht & P1); [apply e_iface; auto|].
  assert (He : encodes False false T false v t).
  { inversion Ht as [| | | | | | | | | | | | |? ? ? ? ? ? ? Hu|? ? ? ? ? ? ? ? Hu|? ? ? ? ? ? Hu| | | | | | | | | |? ? ? D|a T1 q T' v' t' D Nf Hv|? ? ? ? ? ? []| | | | |]; subst. exact Hv. }
  destruct (keeps_decodes F32 F64 C E U G32 G64 e32 e64 False (it_useNumber it) (it_disallow it) (findField sf cs)) as [Y _]; auto.
  { intros. now apply (findField_exact Ef). }
  destruct (Y _ _ _ _ _ He K) as [D _].
  assert (Z : exists n, fst (Unmarshal n T (zero T) t it) = Ok v).
  { apply Unmarshal_spec; auto; [now apply (vreachable_wf F32 F64 C E sf cs)|]. exists [], t, []. rewrite app_nil_r. repeat split; auto; constructor. }
  destruct Z as (n & Hn). destruct (C26_fuel F32 F64 C E sf cs sane32 sane64 T (zero T) t it v n R Hn) as (n2 & P2).
  exists t, (Nat.max n1 n2). intros m Hm. split; [apply P1|apply P2]; lia.
Qed.
End RoundTrip.
End TypedEncoding.

(** ** Examples and refutations *)
(** type item struct { ID int `json:"id"`; Tags []string `json:"tags,omitempty"`; Next *item; M map[int8]bool;
    Any interface{}; B []byte; N int8 `json:"n,string"`; hidden int }; the types 1 and 2 are
    encoding.TextMarshaler and json.Marshaler, type 3 is a pointer type with a name, type 4 is
    interface { MarshalJSON() ([]byte, error); M() } *)
Definition itemLayout : list ty :=
  [TInt true W64; TSlice TString; TPtr (TRef 0); TMap (KInt true W8) TBool; TEface; TSlice (TInt false W8); TInt true W8; TInt true W64].
Definition itemFields : list (field ty) :=
  [mkField (bs "id") [HField 0] false false (TInt true W64);
   mkField (bs "tags") [HField 1] false true (TSlice TString);
   mkField (bs "Next") [HField 2] false false (TPtr (TRef 0));
   mkField (bs "M") [HField 3] false false (TMap (KInt true W8) TBool);
   mkField (bs "Any") [HField 4] false false TEface;
   mkField (bs "B") [HField 5] false false (TSlice (TInt false W8));
   mkField (bs "n") [HField 6] true false (TInt true W8)].
Definition itemT : ty := TStruct itemLayout itemFields.
Definition encType (n : nat) : ty := match n with 0 => itemT | 1 | 2 | 4 => TIface | 3 => TPtr (TJson 1) | _ => TBool end%nat.
Definition encE : env textF textF demoC := mkEnv _ _ _ encType
  (fun n => match n with
            | 0 => VStruct [VInt 0; VSlice None; VPtr None; VMap None; VIface None; VSlice None; VInt 0; VInt 0]
            | 1 | 2 | 4 => VIface None
            | 3 => VPtr None
            | _ => VBool false
            end%nat).
(** type 0: string with MarshalJSON of the value type, 1: string with MarshalJSON of the pointer type, 2: bool with
    MarshalText of the value type, 3: struct without methods and fields, others: [0]bool with MarshalJSON; the MarshalText of the keys KO fails for
    negative numbers, and the data word of KO 0 is nil *)
Definition encU : marshalers textF textF demoC := mkMarshalers textF textF demoC
  (fun id => match id with 0 => RValue | 1 => RPtr | 2 | 3 => RNone | _ => RValue end%nat)
  (fun id => match id with 2 => RValue | _ => RNone end%nat)
  (fun _ x => inl (quote (x : bytes)))
  (fun _ x => inl (x : bytes))
  (fun id => match id with 0 | 1 => TString | 2 => TBool | 3 => TStruct [] [] | _ => TArray 0 TBool end%nat)
  (fun id x => match id with 0 | 1 => VStr (x : bytes) | 2 => VBool (bytes_eqb x []) | 3 => VStruct [] | _ => VArr [] end%nat)
  (fun n => match n with 1 => Some DText | 2 => Some DJson | 4 => Some DJsonOther | _ => None end%nat)
  (fun _ key => match key with KO z => if z <? 0 then inr (SErr 9) else inl (repeat 120 (S (Z.to_nat z))) | _ => inl [] end)
  (fun _ key => match key with KO 0 => true | _ => false end).
Definition encF (x : bool * bytes) : Z := if bytes_eqb (snd x) (bs "0") then 0 else 1.
Notation eval := (gval textF textF demoC).
Notation eMarshal := (Marshal textF textF demoC encE encU demoF demoF encF encF true).
Lemma enc_names : names_ok textF textF demoC encE encU.
Proof.
  constructor.
  - intros [|[|[|[|[|n]]]]] m; discriminate.
  - intros [|[|[|[|[|n]]]]] H; auto; exfalso; apply H; reflexivity.
  - intros [|[|[|[|n]]]] m; repeat split; discriminate.
  - intros [|[|[|[|n]]]] T; discriminate.
  - intros [|[|[|[|n]]]] x; constructor; reflexivity.
Qed.
Lemma enc_zeros : zeros_ok textF textF demoC encE.
Proof. intros [|[|[|[|[|n]]]]]; reflexivity. Qed.

Lemma ascii_text l : forallb (fun c => (0 <=? c) && (c <? 128)) l = true -> utf8_text l.
Proof.
  induction l as [|c l IH]; simpl; intros H; [constructor|]. apply andb_true_iff in H. destruct H as [H1 H2].
  change (c :: l) with ([c] ++ l). rewrite <- (utf8_ascii c) by lia. constructor; [unfold scalar; lia|auto].
Qed.

(** a list of two items *)
Definition item1 : eval := VStruct [VInt 7; VSlice (Some []); VPtr None; VMap (Some [(KI (-1), VBool true); (KI 5, VBool false)]);
  VIface (Some (TSlice TEface, VSlice (Some [VIface (Some (TString, VStr (bs "a<b"))); VIface None; VIface (Some (TBool, VBool true))])));
  VSlice (Some (map VInt [1; 2; 255])); VInt (-3); VInt 9].
Definition item0 : eval := VStruct [VInt (-8); VSlice (Some [VStr (bs "x"); VStr []]); VPtr (Some item1); VMap None; VIface None; VSlice None; VInt 127; VInt 0].
Definition itemText : string := "{""id"":-8,""tags"":[""x"",""""],""Next"":{""id"":7,""Next"":null,""M"":{""-1"":true,""5"":false},""Any"":[""a\u003cb"",null,true],""B"":""AQL/"",""n"":""-3""},""M"":null,""Any"":null,""B"":null,""n"":""127""}".
Ltac notUser := let N := fresh in let K := fresh in intros N; inversion N as [? ? K|? ? ? K]; (discriminate || (destruct K; discriminate)).
Ltac notBad := let N := fresh in let K := fresh in let H := fresh in intros N; inversion N as [? ? ? H K|? ? ? ? K]; subst; (discriminate || (destruct K; discriminate) || (try injection H as; subst; now apply K)).
Ltac plainTested := apply te_plain; [intros ? [?|?]; discriminate|notUser|notBad|let N := fresh in intros N; inversion N; discriminate].
Ltac notPointer := let N := fresh in intros N; inversion N.
Ltac fitStep := first
  [ apply fi_bool | (apply fi_int; cbv; split; congruence) | (apply fi_string; apply bytes_b; reflexivity)
  | (apply fi_ptr_nil; apply no_ref; [discriminate|intros _; apply no_other; [discriminate|discriminate|discriminate|intros ? [?|?]; discriminate]]) | apply fi_ptr
  | (apply fi_bytes; [reflexivity|apply bytes_b; reflexivity])
  | apply fi_slice_nil | (apply fi_slice; [discriminate|]) | (apply fi_map_nil; exact I) | (apply fi_map; [exact I|]) | apply fi_struct
  | (apply fi_iface_nil; auto; fail) | (apply fi_iface; [auto|left; left; notUser|]) | (apply fi_ref; [reflexivity|notPointer|cbn [te_type encE encType]])
  | apply fl_none | apply fl_more | apply fm_none | (apply fm_more; [first [apply fk_num; cbv; split; congruence|apply fk_str; apply bytes_b; reflexivity]| |])
  | apply fd_none | (eapply fd_leads; [repeat econstructor|apply bytes_b; reflexivity| |try discriminate; intros _; left; plainTested|]); cbn [f_type] ].
Lemma item_fits Q : fits textF textF demoC encE encU demoF demoF encF encF Q false TEface (VIface (Some (TRef 0, item0))).
Proof. unfold item0, item1. repeat fitStep. Qed.
Example C27_marshal_ex : names_ok textF textF demoC encE encU /\
  fits textF textF demoC encE encU demoF demoF encF encF False false TEface (VIface (Some (TRef 0, item0))) /\
  eMarshal 9 (Some (TRef 0, item0)) = MOk (bs itemText).
Proof. split; [apply enc_names|]. split; [apply item_fits|vm_compute; reflexivity]. Qed.
Example C27_value_ex : fits textF textF demoC encE encU demoF demoF encF encF False false TEface (VIface (Some (TRef 0, item0))) /\
  Value textF textF demoC encE encU demoF demoF encF encF true 9 (Some (TRef 0, item0)) (mkStm None (bs "[1") None true false) =
  SOk (mkStm None (bs "[1," ++ bs (* with HTML characters *) "{""id"":-8,""tags"":[""x"",""""],""Next"":{""id"":7,""Next"":null,""M"":{""-1"":true,""5"":false},""Any"":[""a<b"",null,true],""B"":""AQL/"",""n"":""-3""},""M"":null,""Any"":null,""B"":null,""n"":""127""}") None true false).
Proof. split; [apply item_fits|vm_compute; reflexivity]. Qed.
Example C27_valid_ex : exists t, encodes textF textF demoC encE encU demoF demoF encF encF False false TEface false (VIface (Some (TRef 0, item0))) t.
Proof.
  destruct (C27_marshal textF textF demoC encE encU demoF demoF encF encF true demoF_sane demoF_sane enc_names False _ (item_fits False)) as (t & j & n0 & H & _). eauto.
Qed.
(** a nil json.RawMessage is encoded as nothing (val_encoder_json_rawmessage.go) *)
Theorem C27_rawmessage_refuted : exists T v t, shaped textF textF demoC encE T v /\
  (forall n, (1 <= n)%nat -> eMarshal n (Some (T, v)) = MOk t) /\ forall j, ~ value t j.
Proof.
  exists TRaw, (VRaw None), []. split; [constructor|]. split; [intros [|n] H; [lia|reflexivity]|]. intros j H. inversion H as [| | |t N| | | | |]; try discriminate.
  now apply number_some in N.
Qed.
(** a nil *encoding.TextMarshaler panics (val_encoder_text_marshaler.go:49-65) *)
Theorem C27_textmarshaler_refuted : exists T v, shaped textF textF demoC encE T v /\
  forall n, (2 <= n)%nat -> eMarshal n (Some (T, v)) = MPanic.
Proof. exists (TPtr (TRef 1)), (VPtr None). split; [constructor|]. intros [|[|n]] H; try lia. reflexivity. Qed.
(** a struct without JSON fields that consists of a nil pointer is encoded as null; "{}" is right *)
Theorem C27_nilword_refuted : exists T v, shaped textF textF demoC encE T v /\
  (forall n, (2 <= n)%nat -> eMarshal n (Some (T, v)) = MOk (bs "null")) /\
  encodes textF textF demoC encE encU demoF demoF encF encF False false T false v (bs "{}") /\
  ~ encodes textF textF demoC encE encU demoF demoF encF encF False false T false v (bs "null").
Proof.
  exists (TStruct [TPtr TBool] []), (VStruct [VPtr None]). split; [constructor|]. split; [intros [|[|n]] H; try lia; reflexivity|].
  split; [apply e_struct with []; [reflexivity|constructor]|].
  intros H. remember (bs "null") as t eqn:Et. inversion H; subst. match goal with O : _ = object_of _ |- _ => discriminate O end; discriminate.
Qed.

(** type P *T, where *T has a MarshalJSON method: the method is not called for values of type P.  The text written
    represents a value of T, not one of *T. *)
Theorem C27_named_pointer_refuted : exists n T v t t', te_type _ _ _ encE n = TPtr T /\ shaped textF textF demoC encE (TRef n) v /\
  (forall m, (3 <= m)%nat -> eMarshal m (Some (TPtr T, v)) = MOk t) /\
  (forall m, (3 <= m)%nat -> eMarshal m (Some (TRef n, v)) = MOk t') /\
  encodes textF textF demoC encE encU demoF demoF encF encF False false (TPtr T) false v t /\
  ~ encodes textF textF demoC encE encU demoF demoF encF encF False false (TPtr T) false v t'.
Proof.
  exists 3%nat, (TJson 1), (VPtr (Some (VObj (bs "\n" : cu_state demoC)))), (quote (bs "\n")), (quote (bs "\\n")).
  split; [reflexivity|]. split; [constructor; constructor|].
  split; [intros [|[|[|n]]] H; try lia; reflexivity|]. split; [intros [|[|[|n]]] H; try lia; reflexivity|]. split.
  - apply e_ptr. apply e_json with 1%nat (JStr [10]); [now left|right; split; reflexivity|reflexivity|].
    apply (v_str (bs "\n")). exists [UEsc 10]. split; [|reflexivity]. apply si_short; constructor.
  - intros H. remember (quote (bs "\\n")) as t eqn:Et. inversion H as [| | | | | | | | | | | | |? ? ? ? ? ? ? Hu|? ? ? ? ? ? ? ? Hu|? ? ? ? ? ? Hu| |a T q v t2 Hv| | | | | | | |? ? ? D|? ? ? ? ? ? D| | | | | |]; subst.
    inversion Hv as [| | | | | | | | | | | | |? ? id ? ? ? ? Hu Hj M|? ? id ? ? ? ? ? Hu Hj|? ? id ? ? ? Hu Hj| | | | | | | | | |? ? ? D|? ? ? ? ? ? D|? ? ? ? ? D| | | | |]; subst; try (destruct D; discriminate).
    + discriminate.
    + destruct Hu as [Hu|Hu]; [injection Hu as <-|discriminate]. destruct Hj as [Hj _]. apply Hj. right. split; reflexivity.
    + destruct Hu as [Hu|Hu]; [injection Hu as <-|discriminate]. apply Hj. right. split; reflexivity.
Qed.
(** an interface type with MarshalJSON and another method: Marshal panics *)
Theorem C27_interface_refuted : exists n x, te_type _ _ _ encE n = TIface /\ ma_MarshalJSON _ _ _ encU 0 x = inl (quote (bs "x")) /\
  shaped textF textF demoC encE (TSlice (TRef n)) (VSlice (Some [VIface (Some (TJson 0, VObj x))])) /\
  forall m, (3 <= m)%nat -> eMarshal m (Some (TSlice (TRef n), VSlice (Some [VIface (Some (TJson 0, VObj x))]))) = MPanic.
Proof. exists 4%nat, (bs "x"). split; [reflexivity|]. split; [reflexivity|]. split; [constructor|]. intros [|[|[|m]]] H; try lia. reflexivity. Qed.

(** keys with methods *)
Definition keyV : eval := VMap (Some [(KO 2, VInt 1); (KO 0, VInt 3)]).
Lemma keyV_fits Q : fits textF textF demoC encE encU demoF demoF encF encF Q false TEface (VIface (Some (keyT, keyV))).
Proof.
  apply fi_iface; [auto|left; left; notUser|]. apply fi_map; [exact I|].
  repeat (apply fm_more; [eapply fk_text; [discriminate|discriminate|congruence|reflexivity|apply bytes_b; reflexivity]|apply fi_int; cbv; split; congruence|]). constructor.
Qed.
Example C27_key_ex : fits textF textF demoC encE encU demoF demoF encF encF False false TEface (VIface (Some (keyT, keyV))) /\
  eMarshal 3 (Some (keyT, keyV)) = MOk (bs "{""xxx"":1,""x"":3}") /\
  fits textF textF demoC encE encU demoF demoF encF encF False false (TMap (KUser KKOther None (Some (5%nat, KPointer))) TBool) (VMap (Some [(KO 0, VBool true)])) /\
  eMarshal 3 (Some (TMap (KUser KKOther None (Some (5%nat, KPointer))) TBool, VMap (Some [(KO 0, VBool true)]))) = MOk (bs "{"""":true}").
Proof.
  split; [apply keyV_fits|]. split; [reflexivity|]. split; [|reflexivity].
  apply fi_map; [exact I|]. apply fm_more; [apply fk_nil; [discriminate|reflexivity]|constructor|constructor].
Qed.
(** keys of a type that is no pointer but has the memory of one, like struct{ p *X }: if it is nil, MarshalText is not called *)
Theorem C27_key_word_refuted : exists id key s v, ma_keyText _ _ _ encU id key = inl s /\ s <> [] /\
  forall n, (2 <= n)%nat -> eMarshal n (Some (TMap (KUser KKOther None (Some (id, KWord))) TBool, VMap (Some [(key, v)]))) = MOk (bs "{"""":true}").
Proof. exists 5%nat, (KO 0), [120], (VBool true). split; [reflexivity|]. split; [discriminate|]. intros [|[|n]] H; try lia. reflexivity. Qed.
(** keys of an interface type with MarshalText: Marshal panics *)
Theorem C27_key_interface_refuted : exists id key s v, ma_keyText _ _ _ encU id key = inl s /\
  forall n, (2 <= n)%nat -> eMarshal n (Some (TMap (KUser KKOther None (Some (id, KIface))) TBool, VMap (Some [(key, v)]))) = MPanic.
Proof. exists 5%nat, (KO 0), [120], (VBool true). split; [reflexivity|]. intros [|[|n]] H; try lia. reflexivity. Qed.

(** *** C37 *)
Example C37_test_ex : tested textF textF demoC encE encU (TSlice TString) /\ shaped textF textF demoC encE (TSlice TString) (VSlice (Some [])) /\
  tested textF textF demoC encE encU (TText 2) /\ shaped textF textF demoC encE (TText 2) (VObj (bs "x" : cu_state demoC)) /\
  empty textF textF demoC encE encU demoF demoF encF encF (TText 2) (VObj (bs "x" : cu_state demoC)) /\
  en_isEmpty _ _ _ (preferPtrEncoder textF textF demoC encE encU demoF demoF (TText 2) (encode textF textF demoC encE encU demoF demoF encF encF true 2 (TText 2))) (VObj (bs "x" : cu_state demoC)) = Some true.
Proof.
  split; [plainTested|]. split; [constructor|].
  split; [apply te_method with 2%nat; [now right|right; split; [intros [H|[H _]]; discriminate|split; [intros [H|[H _]]; discriminate|now left]]|exact I]|].
  split; [constructor|]. split; [apply em_user with 2%nat; [now right|constructor]|reflexivity].
Qed.
Example C37_members_ex : fits textF textF demoC encE encU demoF demoF encF encF False false itemT item1 /\
  eMarshal 9 (Some (itemT, item1)) = MOk (bs "{""id"":7,""Next"":null,""M"":{""-1"":true,""5"":false},""Any"":[""a\u003cb"",null,true],""B"":""AQL/"",""n"":""-3""}").
Proof. split; [unfold item1, itemT; repeat fitStep|vm_compute; reflexivity]. Qed.
Definition oneField (T : ty) : ty := TStruct [T] [mkField (bs "f") [HField 0] false true T].
(** omitempty on a string with MarshalJSON of the value type: the emptiness test is a nil function *)
Theorem C37_string_refuted : exists T x, shaped textF textF demoC encE T x /\
  forall n, (2 <= n)%nat -> eMarshal n (Some (oneField T, VStruct [x])) = MPanic.
Proof. exists (TJson 0), (VObj (bs "1" : cu_state demoC)). split; [constructor|]. intros [|[|n]] H; try lia. reflexivity. Qed.
(** structs without fields are omitted *)
Theorem C37_struct_refuted : exists T x, shaped textF textF demoC encE T x /\ ~ empty textF textF demoC encE encU demoF demoF encF encF T x /\
  forall n, (2 <= n)%nat -> eMarshal n (Some (oneField T, VStruct [x])) = MOk (bs "{}").
Proof.
  exists (TStruct [TInt true W8] []), (VStruct [VInt 1]). split; [constructor|]. split; [intros H; inversion H|].
  intros [|[|n]] H; try lia. vm_compute. reflexivity.
Qed.
(** empty strings with MarshalJSON of the pointer type are not omitted, nor are empty arrays with MarshalJSON *)
Theorem C37_method_refuted : exists T1 x1 T2 x2, 
  shaped textF textF demoC encE T1 x1 /\ empty textF textF demoC encE encU demoF demoF encF encF T1 x1 /\
  shaped textF textF demoC encE T2 x2 /\ empty textF textF demoC encE encU demoF demoF encF encF T2 x2 /\
  forall n, (2 <= n)%nat -> eMarshal n (Some (oneField T1, VStruct [x1])) = MOk (bs "{""f"":""""}") /\
                            eMarshal n (Some (oneField T2, VStruct [x2])) = MOk (bs "{""f"":""""}").
Proof.
  exists (TJson 1), (VObj ([] : cu_state demoC)), (TJson 4), (VObj ([] : cu_state demoC)).
  split; [constructor|]. split; [apply em_user with 1%nat; [now left|constructor]|].
  split; [constructor|]. split; [apply em_user with 4%nat; [now left|constructor]|].
  intros [|[|n]] H; try lia. split; vm_compute; reflexivity.
Qed.

(** empty maps whose key type has no encoder are not omitted: Marshal fails *)
Theorem C37_map_refuted : exists T x, shaped textF textF demoC encE T x /\ empty textF textF demoC encE encU demoF demoF encF encF T x /\
  forall n, (2 <= n)%nat -> eMarshal n (Some (oneField T, VStruct [x])) = MErr ErrTypeNotSupported.
Proof.
  exists (TMap (KUser KKOther None None) TBool), (VMap None). split; [constructor|]. split; [constructor|]. intros [|[|n]] H; try lia. reflexivity.
Qed.

(** *** C39 *)
Example C39_marshal_ex : is_bytes [0; 255; 62; 63] /\ eMarshal 3 (Some (TSlice (TInt false W8), VSlice (Some (map VInt [0; 255; 62; 63])))) = MOk (quote (bs "AP8+Pw==")).
Proof. split; [now apply bytes_b|reflexivity]. Qed.

(** *** C25 *)
Definition float1 : eval := VIface (Some (TFloat64, @VFloat64 textF textF demoC (false, bs "120.25"))).
Definition item3 : eval := VStruct [VInt 7; VSlice None; VPtr None; VMap (Some [(KI (-1), VBool true); (KI 5, VBool false)]);
  VIface (Some (TSlice TEface, VSlice (Some [VIface (Some (TString, VStr (bs "a<b"))); VIface None; VIface (Some (TBool, VBool true)); float1])));
  VSlice (Some (map VInt [1; 2; 255])); VInt (-3); VInt 0].
Definition item2 : eval := VStruct [VInt (-8); VSlice (Some [VStr (bs "x"); VStr []]); VPtr (Some item3); VMap None; VIface None; VSlice None; VInt 127; VInt 0].
Definition item2Text : string := "{""id"":-8,""tags"":[""x"",""""],""Next"":{""id"":7,""Next"":null,""M"":{""-1"":true,""5"":false},""Any"":[""a\u003cb"",null,true,120.25],""B"":""AQL/"",""n"":""-3""},""M"":null,""Any"":null,""B"":null,""n"":""127""}".
Lemma float1_text t : float_text demoF 1 t -> t = bs "120.25".
Proof.
  intros (_ & _ & [(m & d & H & _)|[H _]]); [|exact H]. exfalso. change (ff_append demoF 1 (floatFormat demoF 1)) with (bs "120.25") in H.
  assert (K : In 101 (bs "120.25")) by (rewrite H; apply in_or_app; right; now left). simpl in K. lia.
Qed.
Ltac keepStep := first
  [ apply k_bool | (apply k_int; cbv; split; congruence) | (apply k_string; apply ascii_text; reflexivity)
  | (apply k_float64; [reflexivity|reflexivity|intros ? K; apply float1_text in K; subst; reflexivity])
  | (apply k_ptr_nil; apply no_ref; [discriminate|intros _; apply no_other; [discriminate|discriminate|discriminate|intros ? [?|?]; discriminate]])
  | (apply k_bytes; [reflexivity|apply bytes_b; reflexivity])
  | apply k_slice_nil | (apply k_slice; [discriminate|]) | (apply k_map_nil; exact I) | (apply k_map; [exact I|exact I|repeat constructor; simpl; intuition congruence|])
  | (apply k_iface_nil; auto; fail) | (apply k_generic; [unfold generic; tauto|discriminate|discriminate|])
  | (apply k_ref; [reflexivity|cbn [te_type encE encType]])
  | apply kl_none | apply kl_more | apply km_none | (apply km_more; [apply kk_num; cbv; split; congruence| |]) ].
Notation ekeeps := (keeps textF textF demoC encE encU demoF demoF encF encF False false).
Lemma item_names : NoDup (map f_name itemFields).
Proof. repeat constructor; simpl; intuition discriminate. Qed.
Lemma item3_direct : direct textF textF demoC encE encU demoF demoF encF encF false 0 itemFields itemLayout
  [VInt 7; VSlice None; VPtr None; VMap (Some [(KI (-1), VBool true); (KI 5, VBool false)]);
  VIface (Some (TSlice TEface, VSlice (Some [VIface (Some (TString, VStr (bs "a<b"))); VIface None; VIface (Some (TBool, VBool true)); float1])));
  VSlice (Some (map VInt [1; 2; 255])); VInt (-3); VInt 0].
Proof.
  unfold itemFields, itemLayout, float1.
  repeat (apply di_field; [apply ascii_text; reflexivity|repeat keepStep|try discriminate|]).
  - intros _. split; [plainTested|reflexivity].
  - apply (di_hidden textF textF demoC encE encU demoF demoF encF encF false 7 (TInt true W64)). constructor.
Qed.
Example C25_struct_ex : NoDup (map f_name itemFields) /\ ekeeps true itemT false item3.
Proof.
  split; [apply item_names|]. apply C25_struct; [apply demoF_sane|apply demoF_sane|apply enc_names|apply item_names|apply item3_direct].
Qed.
(** an iterator used before *)
Definition used3 : iter :=
  snd (ModelVal.ReadVal textF textF demoC encE demoSf false 5 TBool (VBool false) (ResetBytes (bs "xx") (newIter false true (mkStack [] 0)))).
Example C25_roundtrip_ex : vreachable textF textF demoC encE demoSf false used3 /\ folding Properties3.demoE /\ walks Properties3.demoE demoSf /\
  zeros_ok textF textF demoC encE /\ ekeeps false (TRef 0) false item2 /\ ~ no_fields textF textF demoC encE encU false (TRef 0) /\
  eMarshal 9 (Some (TRef 0, item2)) = MOk (bs item2Text) /\
  fst (Unmarshal textF textF demoC encE demoSf false 9 (TRef 0) (zero textF textF demoC encE (TRef 0)) (bs item2Text) used3) = Ok item2.
Proof.
  split; [apply vr_ReadVal, vr_reachable, re_ResetBytes, re_new|]. split; [apply demo_folding|]. split; [apply demo_walks|].
  split; [apply enc_zeros|]. split; [|split; [notUser|split; vm_compute; reflexivity]]. apply k_ref; [reflexivity|notPointer|]. cbn [te_type encE encType].
  apply C25_struct; [apply demoF_sane|apply demoF_sane|apply enc_names|apply item_names|].
  unfold itemFields, itemLayout.
  repeat (apply di_field; [apply ascii_text; reflexivity|repeat keepStep|try discriminate|]).
  - intros _. split; [plainTested|]. intros H. inversion H.
  - apply k_ptr; [apply k_ref; [reflexivity|notPointer|apply C25_struct_ex]|]. intros H. inversion H; subst.
    match goal with X : encodes _ _ _ _ _ _ _ _ _ _ _ _ _ _ _ |- _ => inversion X; subst end.
    match goal with O : _ = object_of _ |- _ => discriminate O end.
  - apply (di_hidden textF textF demoC encE encU demoF demoF encF encF false 7 (TInt true W64)). constructor.
Qed.

(** keys that MarshalText and UnmarshalText convert *)
Lemma keyV_keeps : ekeeps false keyT false keyV.
Proof.
  apply k_map; [exact I|exact I|repeat constructor; simpl; intuition congruence|].
  apply km_more; [|apply k_int; cbv; split; congruence|apply km_more; [|apply k_int; cbv; split; congruence|constructor]].
  - apply kk_text with (bs "xxx") (bs "xxx" : cu_state demoC); try discriminate; try reflexivity; try congruence; apply ascii_text; reflexivity.
  - apply kk_text with (bs "x") (bs "x" : cu_state demoC); try discriminate; try reflexivity; try congruence; apply ascii_text; reflexivity.
Qed.
Example C25_key_ex : ekeeps false keyT false keyV /\ ~ no_fields textF textF demoC encE encU false keyT /\
  eMarshal 3 (Some (keyT, keyV)) = MOk (bs "{""xxx"":1,""x"":3}") /\
  fst (Unmarshal textF textF demoC encE demoSf false 9 keyT (VMap None) (bs "{""xxx"":1,""x"":3}") used3) = Ok keyV.
Proof. split; [apply keyV_keeps|]. split; [notUser|]. split; vm_compute; reflexivity. Qed.

Print Assumptions C25_struct.
Print Assumptions C25_roundtrip.
Print Assumptions C27_marshal.
Print Assumptions C27_value.
Print Assumptions C27_valid.
Print Assumptions C27_rawmessage_refuted.
Print Assumptions C27_textmarshaler_refuted.
Print Assumptions C27_nilword_refuted.
Print Assumptions C27_named_pointer_refuted.
Print Assumptions C27_interface_refuted.
Print Assumptions C27_key_word_refuted.
Print Assumptions C27_key_interface_refuted.
Print Assumptions C37_test.
Print Assumptions C37_members.
Print Assumptions C37_string_refuted.
Print Assumptions C37_struct_refuted.
Print Assumptions C37_map_refuted.
Print Assumptions C37_method_refuted.
Print Assumptions C39_marshal.
