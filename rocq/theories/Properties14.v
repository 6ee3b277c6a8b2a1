(** Properties C46 (what the library writes is UTF-8, and safe in HTML if HTML escaping is on) and C47 (decoding keeps the types of variables).
    Each theorem is followed by an example that meets its hypotheses. *)
From Coq Require Import String ZArith List Bool Lia Arith.
From Verif Require Import Spec SpecStream SpecBase64 SpecFold StreamFacts StreamStrFacts StreamTree FloatFacts Base64Facts FoldFacts IterFacts Sim Properties1 Properties2.
From Verif Require Import ModelIter ModelStack ModelRead Properties3.
From Verif Require Import Base ModelInt ModelFloat ModelOps ModelBase64 ModelStream ModelFold ModelVal ModelDecoder ModelEnc SpecVal SpecEnc ValFacts EncFacts EncRound Properties4 Properties5.
From Verif Require Import SpecTyped TidyFacts TypedFacts.
Import ListNotations.
Local Open Scope Z_scope.

(** ** C46 *)
Section Tidy.
Variables F32 F64 : floatOps.
Variable C : custom.
Notation gval := (gval F32 F64 C).
Variable E : env F32 F64 C.
Variable U : marshalers F32 F64 C.
Variables G32 G64 : floatFmt.
Variable e32 : fl F32 -> ff G32.
Variable e64 : fl F64 -> ff G64.
Variable cfgHTML : bool.
Notation Value := (Value F32 F64 C E U G32 G64 e32 e64 cfgHTML).
Notation Marshal := (Marshal F32 F64 C E U G32 G64 e32 e64 cfgHTML).
Notation sound := (sound F32 F64 C E).
Notation typed := (typed F32 F64 C E).
Notation carries := (carries F32 F64 C E U).
Variables (S32 : fmt_sane G32) (S64 : fmt_sane G64).
Hypothesis NO : names_ok F32 F64 C E U.
Hypothesis SE : sound_env F32 F64 C E.
Hypothesis SU : sound_users F32 F64 C E U.

(** the argument of a call: a value of a Go type, in which the texts that are JSON by themselves are tidy *)
Definition tidy_arg (h : bool) (o : option (ty * gval)) : Prop :=
  forall T v, o = Some (T, v) -> sound T /\ typed T v /\ forall t, carries T v t -> tidy h t.
Lemma value_tidy n o s s' : tidy_arg (sm_html s) o -> Value n o s = SOk s' -> grows s s'.
Proof using All.
  intros H K. refine (value_grows F32 F64 C E U G32 G64 S32 S64 e32 e64 cfgHTML n o false s s' _ _ K); auto.
  - intros T ST. now apply encode_tidy.
  - intros T v Ho. destruct (H T v Ho) as (A & B & D). split; [exact A|]. split; [exact B|]. intros t Ht. apply pts_tidy. auto.
Qed.
(** Streamer.Value appends a tidy text, whatever the state of the streamer and also if there is an error *)
Theorem C46_value n o s s' : tidy_arg (sm_html s) o -> Value n o s = SOk s' ->
  exists out, sm_buffer s' = sm_buffer s ++ out /\ tidy (sm_html s) out /\ sm_html s' = sm_html s.
Proof using All.
  intros H K. destruct (value_tidy _ _ _ _ H K) as (out & A & B & D & _). exists out. split; [exact A|]. split; [now apply pts_tidy|exact D].
Qed.
Theorem C46_marshal n o t : tidy_arg cfgHTML o -> Marshal n o = MOk t -> tidy cfgHTML t.
Proof using All.
  intros H K. unfold ModelEnc.Marshal in K. destruct (Value n o (newStm cfgHTML)) as [s| |] eqn:X; try discriminate.
  destruct (C46_value n o (newStm cfgHTML) s H X) as (out & A & B & _). destruct (sm_error s); [discriminate|]. injection K as <-. now rewrite A.
Qed.

(** the calls of a program that writes to a streamer itself *)
Definition tidy_call (h : bool) (c : scall G32 G64) : Prop :=
  match c with
  | SRaw t | SRawField t => tidy h t
  | SEscapeHTML _ => False
  | _ => StreamFacts.typed c
  end.
Theorem C46_calls cs s s' : Forall (tidy_call (sm_html s)) cs -> calls cs s = Some s' ->
  exists out, sm_buffer s' = sm_buffer s ++ out /\ tidy (sm_html s) out /\ sm_html s' = sm_html s.
Proof using S32 S64.
  intros H K. assert (G : grows s s').
  { revert s H K. induction cs as [|c cs IH]; intros s H K; simpl in K; [injection K as <-; apply grows_refl|]. inversion H as [|? ? Hc Hs]; subst.
    destruct (call c s) as [s1|] eqn:X; [|discriminate]. assert (G1 : grows s s1).
    { apply (docall_grows G32 G64 S32 S64 c); [|unfold docall; now rewrite X]. destruct c; auto; now apply pts_tidy. }
    apply grows_trans with s1; auto. apply IH; auto. destruct G1 as (? & _ & _ & -> & _). exact Hs. }
  destruct G as (out & A & B & D & _). exists out. split; [exact A|]. split; [now apply pts_tidy|exact D].
Qed.

(** Encoder.Encode of one value after the other *)
Definition encodeValue (n : nat) (o : option (ty * gval)) : ModelStream.encoder -> option (option serr * ModelStream.encoder) :=
  ModelStream.Encode (fun s => match Value n o s with SOk s' => Some s' | _ => None end).
Inductive encodesAll (n : nat) : list (option (ty * gval)) -> ModelStream.encoder -> ModelStream.encoder -> Prop :=
| ea_none en : encodesAll n [] en en
| ea_more o os en en1 en' : encodeValue n o en = Some (None, en1) -> encodesAll n os en1 en' -> encodesAll n (o :: os) en en'.
(** while the encoder returns no error, its writer has got tidy text *)
Theorem C46_encoder n os w h en' : obeys w -> Forall (tidy_arg h) os -> encodesAll n os (mkEncoder (sm_Reset w (newStm h)) None) en' ->
  exists out, encLog en' = w_log w ++ out /\ tidy h out.
Proof using All.
  intros O H K. remember (mkEncoder (sm_Reset w (newStm h)) None) as en eqn:R. revert w O R.
  induction K as [en|o os en en1 en' K1 K IH]; intros w O ->.
  - exists []. split; [unfold encLog, logOf; simpl; now rewrite app_nil_r|]. apply pts_tidy. apply pts_nil.
  - inversion H as [|? ? Ho Hs]; subst. unfold encodeValue, ModelStream.Encode in K1. simpl en_err in K1. cbv iota in K1. unfold encodeInternal in K1. simpl en_s in K1.
    destruct (Value n o (sm_Reset w (newStm h))) as [s1| |] eqn:X; try discriminate. apply value_tidy in X; [|exact Ho].
    destruct X as (out & B1 & P1 & H1 & W1). simpl in B1, P1, H1, W1. unfold Flush in K1. rewrite W1 in K1. destruct (sm_error s1) as [e|]; [discriminate|].
    unfold w_write in K1. rewrite B1 in K1. destruct (O (w_calls w) out) as [L1 L2]. destruct (w_fn w (w_calls w) out) as [m e] eqn:W2. simpl in L1, L2.
    destruct e as [e|]; [discriminate|]. simpl in K1.
    assert (m = length out) as -> by (destruct (Nat.lt_ge_cases m (length out)) as [Q|Q]; [now apply L2 in Q|lia]).
    destruct (O (w_calls w ++ [out]) [10]) as [L3 L4]. 
    match type of K1 with context [w_fn w ?c ?d] => destruct (w_fn w c d) as [m e] eqn:W3 end.
    change (w_fn w (w_calls w ++ [out]) [10] = (m, e)) in W3. rewrite W3 in L3, L4. simpl in L3, L4.
    destruct e as [e|]; [discriminate|]. assert (m = 1%nat) as -> by (destruct (Nat.lt_ge_cases m 1) as [Q|Q]; [now apply L4 in Q|lia]).
    injection K1 as <-. rewrite firstn_all, H1 in IH. simpl firstn in IH. unfold sm_Reset at 1 in IH. cbn [sm_html] in IH.
    destruct (IH Hs (mkWriter (w_fn w) ((w_calls w ++ [out]) ++ [[10]]) ((w_log w ++ out) ++ [10]))) as (out' & E' & P'); [exact O|reflexivity|].
    exists (out ++ [10] ++ out'). simpl in E'. split; [rewrite E'; now rewrite <- !app_assoc|]. apply pts_tidy.
    apply pts_app; [exact P1|]. apply pts_app; [apply pts_plain; plainLit|now apply pts_tidy].
Qed.
End Tidy.

(** *** Examples and refutations *)
(** the types of Properties5, with methods that return bytes *)
Definition lowBytes (l : list Z) : bytes := map (fun c => c mod 256) l.
Definition tidyU : marshalers textF textF demoC := mkMarshalers textF textF demoC (ma_json _ _ _ encU) (ma_text _ _ _ encU)
  (fun _ x => inl (quote (x : bytes))) (fun _ x => inl (lowBytes x)) (ma_under _ _ _ encU)
  (fun id x => match id with 0 | 1 => VStr (lowBytes x) | 2 => VBool (bytes_eqb x []) | 3 => VStruct [] | _ => VArr [] end%nat)
  (ma_dyn _ _ _ encU) (fun _ key => match key with KO z => if z <? 0 then inr (SErr 9) else inl (repeat 120 (S (Z.to_nat z))) | _ => inl [] end) (ma_keyNil _ _ _ encU).
Notation tMarshal := (Marshal textF textF demoC encE tidyU demoF demoF encF encF).
Notation tValue := (Value textF textF demoC encE tidyU demoF demoF encF encF).
Notation tcarries := (carries textF textF demoC encE tidyU).
Notation ttyped := (typed textF textF demoC encE).
Notation tsound := (sound textF textF demoC encE).
Lemma lowBytes_bytes l : is_bytes (lowBytes l).
Proof. unfold is_bytes, lowBytes. apply Forall_map, Forall_forall. intros c _. pose proof (Z.mod_pos_bound c 256 ltac:(lia)). unfold is_byte. lia. Qed.
Lemma tidy_names : names_ok textF textF demoC encE tidyU.
Proof.
  constructor.
  - intros [|[|[|[|[|n]]]]] m; discriminate.
  - intros [|[|[|[|[|n]]]]] H; auto; exfalso; apply H; reflexivity.
  - intros [|[|[|[|n]]]] m; repeat split; discriminate.
  - intros [|[|[|[|n]]]] T; discriminate.
  - intros [|[|[|[|n]]]] x; constructor; reflexivity.
Qed.
Ltac soundStep := first
  [ apply so_ptr | apply so_array | apply so_slice | (apply so_map; [intros; discriminate|]) | (apply so_simple; exact I) ].
Ltac allIn := repeat match goal with H : In _ (_ :: _) |- _ => destruct H as [<-|H] | H : In _ [] |- _ => destruct H end.
Ltac own := split; [apply bytes_b; reflexivity|]; eapply ro_field; [reflexivity|reflexivity|apply ro_here].
Lemma item_sound : tsound itemT.
Proof.
  apply so_struct.
  - intros T H. unfold itemLayout in H. simpl in H. repeat destruct H as [<-|H]; try contradiction; repeat soundStep.
  - intros fd H. unfold itemFields in H. simpl in H. repeat destruct H as [<-|H]; try contradiction; own.
Qed.
Ltac typedStep := first
  [ apply ty_bool | (apply ty_int; cbv; split; congruence) | (apply ty_string; apply bytes_b; reflexivity) | apply ty_ptr_nil | apply ty_ptr
  | apply ty_slice_nil | apply ty_slice | apply ty_map_nil | apply ty_map | apply ty_struct | apply ty_ref
  | (apply ty_iface_nil; auto; fail) | (apply ty_iface; [auto|repeat soundStep|])
  | apply Forall_cons | apply Forall_nil | apply Forall2_cons | apply Forall2_nil | (cbv; split; congruence)
  | (match goal with |- NoDup _ => simpl; repeat constructor; simpl; intuition discriminate end) ].
Lemma enc_sound : sound_env textF textF demoC encE.
Proof.
  intros [|[|[|[|[|n]]]]]; split; cbn [te_type encE encType te_zero];
    try (repeat soundStep; fail); try apply item_sound; unfold itemT, itemLayout; repeat typedStep.
Qed.
Lemma users_sound : sound_users textF textF demoC encE tidyU.
Proof.
  constructor.
  - intros [|[|[|[|n]]]]; simpl; try (apply so_simple; exact I); [|apply so_array, so_simple; exact I].
    apply so_struct; intros ? [].
  - intros [|[|[|[|n]]]] x; simpl; try (repeat constructor; try apply lowBytes_bytes; fail).
    apply (ty_array _ _ _ _ TBool []). constructor.
  - intros id x s [= <-]. apply lowBytes_bytes.
  - intros id [s|z|z] t H; simpl in H; try (injection H as <-; constructor). destruct (z <? 0); [discriminate|]. injection H as <-.
    apply Forall_forall. intros c Hc. assert (c = 120) as -> by (destruct Hc as [<-|Hc]; [reflexivity|now apply repeat_spec in Hc]). unfold is_byte. lia.
Qed.
(** type page struct { Title string `json:"<t>"`; Item *item; Raw json.RawMessage } *)
Definition pageT : ty := TStruct [TString; TPtr (TRef 0); TRaw]
  [mkField (bs "<t>") [HField 0] false false TString; mkField (bs "Item") [HField 1] false false (TPtr (TRef 0)); mkField (bs "Raw") [HField 2] false false TRaw].
(** the title has U+2028 and a byte that is not UTF-8 *)
Definition page1 : eval := VStruct [VStr (bs "</script>&" ++ [226; 128; 168; 255]); VPtr (Some item0); VRaw (Some (bs "{""a"":[1]}"))].
Lemma page_sound : tsound pageT.
Proof.
  apply so_struct.
  - intros T H. simpl in H. repeat destruct H as [<-|H]; try contradiction; repeat soundStep.
  - intros fd H. simpl in H. repeat destruct H as [<-|H]; try contradiction; own.
Qed.
Lemma item_typed : ttyped (TRef 0) item0.
Proof.
  unfold item0, item1. apply ty_ref. cbn [te_type encE encType]. unfold itemT, itemLayout. repeat typedStep.
Qed.
Lemma page_typed : ttyped pageT page1.
Proof.
  unfold pageT, page1. apply ty_struct. constructor; [typedStep|]. constructor; [apply ty_ptr, item_typed|]. constructor; [apply ty_raw, bytes_b; reflexivity|constructor].
Qed.
Ltac carriedStep := match goal with
  | H : False |- _ => destruct H
  | H : SpecEnc.user _ _ |- _ => destruct H; discriminate
  | H : ?T = TEface \/ ?T = TIface |- _ => first [destruct H; discriminate|clear H]
  | H : In _ (map VInt _) |- _ => cbn [map] in H
  | H : In _ [] |- _ => destruct H
  | H : In _ (_ :: _) |- _ => destruct H as [H|H]; [try injection H as <- <-; try subst|]
  | H : In _ itemFields |- _ => unfold itemFields in H
  | H : SpecEnc.leads _ _ _ _ _ _ |- _ => inversion H; clear H; subst
  | H : nth_error _ _ = Some _ |- _ => cbn in H; injection H as <-
  | H : SpecTyped.carries _ _ _ _ _ _ _ _ |- _ => cbn [te_type encE encType f_type] in H; unfold itemT in H; inversion H; clear H; subst
  end; cbn [f_path] in *; try discriminate.
Ltac carried := repeat carriedStep.
Lemma page_carried t : tcarries pageT page1 t -> t = bs "{""a"":[1]}".
Proof.
  intros H. unfold pageT, page1, item0, item1 in H. carried. all: reflexivity.
Qed.
Lemma ascii_tidy h l : forallb (fun c => (0 <=? c) && (c <? 128) && negb (c =? 60) && negb (c =? 62) && negb (c =? 38)) l = true -> tidy h l.
Proof.
  intros H. apply pts_tidy. rewrite forallb_forall in H. apply pts_plain. apply Forall_forall. intros c Hc. specialize (H c Hc).
  unfold plainc. lia.
Qed.
Example C46_marshal_ex : names_ok textF textF demoC encE tidyU /\ sound_env textF textF demoC encE /\ sound_users textF textF demoC encE tidyU /\
  fmt_sane demoF /\ tidy_arg textF textF demoC encE tidyU true (Some (pageT, page1)) /\
  tMarshal true 20 (Some (pageT, page1)) =
    MOk (bs ("{""\u003ct\u003e"":""\u003c/script\u003e\u0026\u2028\ufffd"",""Item"":" ++ itemText ++ ",""Raw"":{""a"":[1]}}")).
Proof.
  split; [exact tidy_names|]. split; [exact enc_sound|]. split; [exact users_sound|]. split; [exact demoF_sane|]. split; [|vm_compute; reflexivity].
  intros T v [= <- <-]. split; [exact page_sound|]. split; [exact page_typed|]. intros t H. apply page_carried in H as ->. apply ascii_tidy. reflexivity.
Qed.
(** with escaping off, the characters of HTML stay as they are, the others do not *)
Example C46_value_ex : tidy_arg textF textF demoC encE tidyU false (Some (pageT, page1)) /\
  exists s', tValue true 9 (Some (pageT, VStruct [VStr (bs "</b>" ++ [226; 128; 169; 255]); VPtr None; VRaw (Some (bs "0"))])) (mkStm None (bs "[0") None true false) = SOk s' /\
  sm_buffer s' = bs "[0,{""<t>"":""</b>\u2029\ufffd"",""Item"":null,""Raw"":0}".
Proof.
  split; [|eexists; split; vm_compute; reflexivity].
  intros T v [= <- <-]. split; [exact page_sound|]. split; [exact page_typed|]. intros t H. apply page_carried in H as ->. apply ascii_tidy. reflexivity.
Qed.
Example C46_calls_ex : Forall (tidy_call demoF demoF true) [SArrayStart; SString (bs "<"); SField (bs "&"); SRaw (bs "{}"); SArrayEnd] /\
  calls (F32 := demoF) (F64 := demoF) [SArrayStart; SString (bs "<"); SField (bs "&"); SRaw (bs "{}"); SArrayEnd] (newStm true) =
    Some (mkStm None (bs "[""\u003c"",""\u0026"":{}]") None true true).
Proof.
  split; [|vm_compute; reflexivity]. do 5 (apply Forall_cons; [first [exact I|exact (ascii_tidy true (bs "{}") eq_refl)|apply bytes_b; reflexivity]|]). apply Forall_nil.
Qed.
Example C46_encoder_ex : let w := mkWriter (fun _ d => (length d, None)) [] [] in obeys w /\
  tidy_arg textF textF demoC encE tidyU true None /\
  exists en', encodesAll textF textF demoC encE tidyU demoF demoF encF encF true 20 [Some (pageT, page1); None; Some (TString, VStr (bs "<"))]
    (mkEncoder (sm_Reset w (newStm true)) None) en' /\ exists t, encLog en' = t ++ bs "null" ++ [10] ++ bs """\u003c""" ++ [10].
Proof.
  intros w. split; [intros h d; simpl; split; [lia|]; intros; lia|]. split; [intros T v; discriminate|].
  eexists. split; [do 3 (eapply ea_more; [vm_compute; reflexivity|]); apply ea_none|].
  exists (bs ("{""\u003ct\u003e"":""\u003c/script\u003e\u0026\u2028\ufffd"",""Item"":" ++ itemText ++ ",""Raw"":{""a"":[1]}}") ++ [10]). vm_compute. reflexivity.
Qed.
(** Texts that are JSON by themselves are written as they are, although HTML escaping is on: the texts that MarshalJSON methods return, json.RawMessage
    and json.Number (encoding/json escapes the first two) *)
Theorem C46_raw_refuted : exists T v t, ttyped T v /\ tsound T /\ tMarshal true 9 (Some (T, v)) = MOk t /\ (exists j, value t j) /\ ~ tidy true t.
Proof.
  exists TRaw, (VRaw (Some (bs """<""" ))), (bs """<"""). split; [apply ty_raw, bytes_b; reflexivity|]. split; [apply so_simple; exact I|]. split; [vm_compute; reflexivity|].
  split.
  - exists (JStr (bs "<")). apply (v_str (bs "<")). now apply plain_dec.
  - intros (_ & _ & _ & H). destruct (H eq_refl) as (H1 & _). apply H1. right. now left.
Qed.
(** A json.Number that is no number is written all the same (encoding/json returns an error): the caller's text makes an object with two members
    out of one with a single field *)
Theorem C27_number_refuted : exists layout fs v t, ttyped (TStruct layout fs) v /\ tsound (TStruct layout fs) /\ length fs = 1%nat /\
  tMarshal true 9 (Some (TStruct layout fs, v)) = MOk t /\ t = bs "{""a"":1,""admin"":true}".
Proof.
  exists [TNumber; TBool], [mkField (bs "a") [HField 0] false false TNumber], (VStruct [VStr (bs "1,""admin"":true"); VBool false]), (bs "{""a"":1,""admin"":true}").
  split; [apply ty_struct; constructor; [apply ty_number, bytes_b; reflexivity|repeat constructor]|]. split; [|split; [reflexivity|split; [vm_compute; reflexivity|reflexivity]]].
  apply so_struct.
  - intros T [<-|[<-|[]]]; repeat soundStep.
  - intros fd [<-|[]]. own.
Qed.

(** ** C47 *)
Section Safe.
Variables F32 F64 : floatOps.
Variable C : custom.
Notation gval := (gval F32 F64 C).
Variable E : env F32 F64 C.
Variable sf : Z -> Z.                    (* unicode.SimpleFold *)
Variable cs : bool.                      (* CaseSensitive *)
Notation vreachable := (vreachable F32 F64 C E sf cs).
Notation ReadVal := (ReadVal F32 F64 C E sf cs).
Notation Unmarshal := (Unmarshal F32 F64 C E sf cs).
Notation UnmarshalFromReader := (UnmarshalFromReader F32 F64 C E sf cs).
Notation sound := (sound F32 F64 C E).
Notation typed := (typed F32 F64 C E).
Hypothesis sane32 : float_sane F32.
Hypothesis sane64 : float_sane F64.
Hypothesis SE : sound_env F32 F64 C E.

(** a successful ReadVal leaves a value of the type of the variable *)
Theorem C47_readval n T old it v r : sound T -> typed T old -> vreachable it -> is_bytes (stream it) -> yields (ReadVal n T old) it v r -> typed T v.
Proof using All.
  intros ST Ty R B Y. apply ReadVal_sound in Y; auto; [|apply (vreachable_wf F32 F64 C E sf cs), R]. destruct Y as (w & t & Es & _ & Hd).
  refine (proj1 (decodes_typed F32 F64 C E _ _ _ SE) _ _ _ _ _ Hd ST _ Ty). rewrite Es in B. apply bytes_app in B as (_ & B). now apply bytes_app in B.
Qed.
Theorem C47_unmarshal n T old data it v : sound T -> typed T old -> vreachable it -> is_bytes data -> fst (Unmarshal n T old data it) = Ok v -> typed T v.
Proof using All.
  intros ST Ty R B H. destruct (proj1 (C26_unmarshal F32 F64 C E sf cs sane32 sane64 T old data it v R)) as (w1 & t & w2 & -> & _ & _ & Hd); [eauto|].
  refine (proj1 (decodes_typed F32 F64 C E _ _ _ SE) _ _ _ _ _ Hd ST _ Ty). apply bytes_app in B as (_ & B). now apply bytes_app in B.
Qed.
Theorem C47_reader n T old rd it v : sound T -> typed T old -> vreachable it -> is_bytes (rd_data rd) -> fst (UnmarshalFromReader n T old rd it) = Ok v -> typed T v.
Proof using All.
  intros ST Ty R B H. assert (Fin : rd_fin rd = EEOF).
  { destruct (rd_fin rd) eqn:K; auto; exfalso; refine (C26_reader_fails F32 F64 C E sf cs n T old rd it v R _ H); congruence. }
  destruct (proj1 (C26_reader F32 F64 C E sf cs sane32 sane64 T old rd it v R Fin)) as (w1 & t & w2 & Ed & _ & _ & Hd); [eauto|].
  refine (proj1 (decodes_typed F32 F64 C E _ _ _ SE) _ _ _ _ _ Hd ST _ Ty). rewrite Ed in B. apply bytes_app in B as (_ & B). now apply bytes_app in B.
Qed.
End Safe.
Notation tUnmarshal := (Unmarshal textF textF demoC encE noFold true).
Definition pageIn : bytes := bs "{""Item"":{""id"":-8,""Next"":{""M"":{""5"":true,""5"":false},""Any"":[1,{""a"":null,""a"":""x""}],""B"":""AQL/""}},""Raw"":[ ],""<t>"":""y""}".
Definition pageOut : eval := VStruct [VStr (bs "y");
  VPtr (Some (VStruct [VInt (-8); VSlice None;
    VPtr (Some (VStruct [VInt 0; VSlice None; VPtr None; VMap (Some [(KI 5, VBool false)]);
      VIface (Some (TSlice TEface, VSlice (Some [VIface (Some (TFloat64, VFloat64 (F64 := textF) (false, bs "1")));
        VIface (Some (TMap KString TEface, VMap (Some [(KS (bs "a"), VIface (Some (TString, VStr (bs "x"))))])))])));
      VSlice (Some [VInt 1; VInt 2; VInt 255]); VInt 0; VInt 0])); VMap None; VIface None; VSlice None; VInt 0; VInt 0]));
  VRaw (Some (bs "[ ]"))].
Example C47_unmarshal_ex : sound_env textF textF demoC encE /\ tsound pageT /\ ttyped pageT (zero _ _ _ encE pageT) /\ is_bytes pageIn /\
  fst (tUnmarshal 20 pageT (zero _ _ _ encE pageT) pageIn (newIter false false (mkStack [] 0))) = Ok pageOut.
Proof.
  split; [exact enc_sound|]. split; [exact page_sound|]. split; [apply zero_typed; [exact enc_sound|exact page_sound]|]. split; [apply bytes_b; reflexivity|].
  vm_compute. reflexivity.
Qed.
Example C47_reader_ex : tsound (TSlice (TInt true W8)) /\ ttyped (TSlice (TInt true W8)) (VSlice (Some [VInt 5])) /\ is_bytes (rd_data (pieces " [1,-128 ] ")) /\
  fst (UnmarshalFromReader textF textF demoC encE noFold true 9 (TSlice (TInt true W8)) (VSlice (Some [VInt 5])) (pieces " [1,-128 ] ")
    (newIter false false (mkStack [] 0))) = Ok (VSlice (Some [VInt 1; VInt (-128)])).
Proof.
  split; [repeat soundStep|]. split; [repeat typedStep|]. split; [apply bytes_b; reflexivity|]. vm_compute. reflexivity.
Qed.
Example C47_readval_ex : ttyped pageT page1 /\
  exists v, yields (ReadVal textF textF demoC encE noFold true 20 pageT page1) (ResetBytes (pageIn ++ bs " 1") (newIter false false (mkStack [] 0))) v (bs " 1") /\ v <> page1.
Proof. split; [exact page_typed|]. eexists. split; [vm_compute; split; reflexivity|discriminate]. Qed.
Print Assumptions C46_value.
Print Assumptions C46_marshal.
Print Assumptions C46_calls.
Print Assumptions C46_encoder.
Print Assumptions C46_raw_refuted.
Print Assumptions C27_number_refuted.
Print Assumptions C47_readval.
Print Assumptions C47_unmarshal.
Print Assumptions C47_reader.
