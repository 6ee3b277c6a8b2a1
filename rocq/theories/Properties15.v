(** Property C48: JSON that is read into interface{} variables can be written again, and what is written reads the same.  Each theorem is followed
    by an example that meets its hypotheses. *)
From Coq Require Import String ZArith List Bool Lia Arith.
From Verif Require Import Spec SpecStream SpecBase64 SpecFold StreamFacts StreamStrFacts StreamTree FloatFacts Base64Facts FoldFacts IterFacts Sim Properties1 Properties2.
From Verif Require Import ModelIter ModelStack ModelRead Properties3.
From Verif Require Import Base ModelInt ModelFloat ModelOps ModelBase64 ModelStream ModelFold ModelVal ModelDecoder ModelEnc SpecVal SpecEnc ValFacts EncFacts EncRound Properties4 Properties5.
From Verif Require Import SpecTyped SpecRound TidyFacts TypedFacts RoundFacts Properties14.
Import ListNotations.
Local Open Scope Z_scope.

Section Generic.
Variables F32 F64 : floatOps.
Variable C : custom.
Notation gval := (gval F32 F64 C).
Variable E : env F32 F64 C.
Variable U : marshalers F32 F64 C.
Variables G32 G64 : floatFmt.
Variable e32 : fl F32 -> ff G32.
Variable e64 : fl F64 -> ff G64.
Variable cfgHTML : bool.
Variable sf : Z -> Z.                    (* unicode.SimpleFold *)
Variable cs : bool.                      (* CaseSensitive *)
Notation Marshal := (Marshal F32 F64 C E U G32 G64 e32 e64 cfgHTML).
Notation Unmarshal := (Unmarshal F32 F64 C E sf cs).
Notation vreachable := (vreachable F32 F64 C E sf cs).
Variables (S32 : fmt_sane G32) (S64 : fmt_sane G64).
Hypothesis sane32 : float_sane F32.
Hypothesis sane64 : float_sane F64.
Hypothesis NO : names_ok F32 F64 C E U.
Variable Ef : Z -> Z -> Prop.
Hypothesis FO : folding Ef.
Hypothesis WK : walks Ef sf.
Hypothesis ZO : zeros_ok F32 F64 C E.

Lemma read_value n data it v : vreachable it -> fst (Unmarshal n TEface (VIface None) data it) = Ok v ->
  exists w1 t w2 j, data = w1 ++ t ++ w2 /\ ws w1 /\ ws w2 /\ value t j /\ iface_of F32 F64 C (it_useNumber it) j = Some v.
Proof using sane32 sane64.
  intros R H. destruct (proj1 (C26_unmarshal F32 F64 C E sf cs sane32 sane64 TEface (VIface None) data it v R)) as (w1 & t & w2 & Ed & W1 & W2 & Hd); [eauto|].
  inversion Hd; subst; try discriminate; eauto 10.
Qed.
(** the floats are not needed if numbers are stored as json.Number *)
Section Back.
Variable un : bool.                      (* UseNumber *)
Hypothesis FS : un = false -> float_stable F64 G64 e64.
(** Whatever is read into an interface{} can be written: the text is JSON, tidy if the named and the user-defined types are what Go has *)
Theorem C48_write n data it v : vreachable it -> it_useNumber it = un -> is_bytes data -> fst (Unmarshal n TEface (VIface None) data it) = Ok v ->
  exists o t j n0, v = VIface o /\ value t j /\ (forall m, (n0 <= m)%nat -> Marshal m o = MOk t) /\
    (sound_env F32 F64 C E -> sound_users F32 F64 C E U -> tidy cfgHTML t).
Proof using S32 S64 sane32 sane64 NO FS.
  intros R Un B H. destruct (read_value n data it v R H) as (w1 & t0 & w2 & j0 & -> & _ & _ & V0 & Hv). rewrite Un in Hv.
  apply bytes_app in B as (_ & B). apply bytes_app in B as (B & _). pose proof (iface_bytes F32 F64 C un t0 j0 v V0 B Hv) as St.
  pose proof (proj1 (stored_fits F32 F64 C un E U G32 G64 e32 e64 FS) v St false) as Fi.
  assert (exists o, v = VIface o) as (o & ->) by (inversion St; eauto).
  destruct (C27_marshal F32 F64 C E U G32 G64 e32 e64 cfgHTML S32 S64 NO False o Fi) as (t & j & n0 & _ & V & P).
  exists o, t, j, n0. split; [reflexivity|]. split; [exact V|]. split; [exact P|]. intros SE SU.
  apply (C46_marshal F32 F64 C E U G32 G64 e32 e64 cfgHTML S32 S64 NO SE SU n0 o t); [|apply P; lia].
  intros T x ->. pose proof (proj1 (iface_typed F32 F64 C E un) t0 j0 V0 B _ Hv) as Ty.
  clear Un. inversion Ty as [| | | | | | | | | | | | | | | | | | |? ? ? ? ST Tx| |]; subst. split; [exact ST|]. split; [exact Tx|]. intros t' Ht'.
  apply pts_tidy, pts_plain, plain_number. apply (proj1 (stored_carries F32 F64 C un E U is_bytes) _ St). apply ca_iface; auto.
Qed.
(** If the input is UTF-8, reading what was written gives the same value *)
Theorem C48_stable n data it v : vreachable it -> it_useNumber it = un -> utf8_text data -> fst (Unmarshal n TEface (VIface None) data it) = Ok v ->
  exists o t, v = VIface o /\ forall it', vreachable it' -> it_useNumber it' = un ->
    exists n0, forall m, (n0 <= m)%nat -> Marshal m o = MOk t /\ fst (Unmarshal m TEface (VIface None) t it') = Ok v.
Proof using S32 S64 sane32 sane64 NO Ef FO WK ZO FS.
  intros R Un B H. destruct (read_value n data it v R H) as (w1 & t0 & w2 & j0 & -> & W1 & W2 & V0 & Hv). rewrite Un in Hv.
  assert (Bt : utf8_text t0).
  { apply (text_ws utf8_text utf8_tail) in B; auto. apply (utf8_split _ B t0 w2 eq_refl). rewrite <- (app_nil_r w2). now apply ws_ahead. }
  pose proof (iface_utf8 F32 F64 C un t0 j0 v V0 Bt Hv) as St.
  pose proof (proj1 (stored_keeps F32 F64 C un E U G32 G64 e32 e64 FS) v St false) as K.
  assert (exists o, v = VIface o) as (o & ->) by (inversion St; eauto).
  destruct (keeps_encodes F32 F64 C E U G32 G64 S32 S64 e32 e64 False un) as [X _]. destruct (X _ _ _ _ K) as (t1 & H1).
  destruct (Marshal_ok F32 F64 C E U G32 G64 S32 S64 e32 e64 cfgHTML False NO o t1 H1) as (t & n1 & Ht & P1).
  exists o, t. split; [reflexivity|]. intros it' R' Un'.
  destruct (keeps_decodes F32 F64 C E U G32 G64 e32 e64 False un (it_disallow it') (findField sf cs)) as [Y _]; auto.
  { intros. now apply (findField_exact Ef). }
  destruct (Y _ _ _ _ _ Ht K) as [D _].
  assert (Z : exists k, fst (Unmarshal k TEface (VIface None) t it') = Ok (VIface o)).
  { apply Unmarshal_spec; auto; [now apply (vreachable_wf F32 F64 C E sf cs)|]. exists [], t, []. rewrite app_nil_r, Un'. repeat split; auto; constructor. }
  destruct Z as (k & Hk). destruct (C26_fuel F32 F64 C E sf cs sane32 sane64 TEface (VIface None) t it' (VIface o) k R' Hk) as (n2 & P2).
  exists (Nat.max n1 n2). intros m Hm. split; [apply P1|apply P2]; lia.
Qed.
End Back.
End Generic.

(** *** Examples and refutations *)
(** floats that are signs only, written 0, 1 and -1 *)
Definition signOf (t : bytes) : Z := if existsb (fun c => (49 <=? c) && (c <=? 57)) t then 1 else 0.
Definition signF : floatOps := mkFloatOps Z (fun t => match t with c :: u => if c =? 45 then inl (- signOf u) else inl (signOf t) | [] => inr 1 end) 0 Z.opp.
Definition signG : floatFmt := mkFloatFmt Z (fun _ => false) (fun _ => false) (fun f => f =? 0) (fun f => 0 <? f) (fun _ => false) (fun _ => false) (fun _ => false) (fun _ => false)
  (fun f fmt => if fmt =? 101 then bs "1e+21" else if f =? 0 then bs "0" else if f <? 0 then bs "-1" else bs "1").
Lemma signF_sane : float_sane signF.
Proof.
  constructor; auto. intros u Hu. destruct (unsigned_first _ Hu) as (d & t & -> & Hd). simpl. unfold is_digit in Hd.
  destruct (Z.eqb_spec d 45); [lia|]. reflexivity.
Qed.
Lemma signG_sane : fmt_sane signG.
Proof.
  constructor; intros f _ _; cbn [ff_append signG].
  - cbn [Z.eqb Pos.eqb]. destruct (f =? 0); [apply (ft_pos [48] []); constructor|].
    destruct (f <? 0); [apply (ft_neg [49] [])|apply (ft_pos [49] [])]; constructor; try lia; constructor.
  - cbn [Z.eqb Pos.eqb]. apply (et [] 49 [] 43 (bs "21")); auto; try (unfold is_digit; lia); try (apply digits_b; reflexivity). constructor.
Qed.
Lemma sign_stable : float_stable signF signG (fun x => x).
Proof.
  intros t x Hn H. split; [reflexivity|]. split; [reflexivity|]. intros t' (_ & _ & K).
  assert (Hx : x = 0 \/ x = 1 \/ x = -1).
  { cbn [fl_parse signF] in H. destruct t as [|c u]; [discriminate|]. unfold signOf in H. destruct (c =? 45); injection H as <-;
      match goal with |- context [if ?b then _ else _] => destruct b end; lia. }
  assert (F : floatFormat signG x = 102) by (unfold floatFormat, signG; cbn [ff_zero ff_pos ff_lt_small ff_ge_large ff_gt_neg_small ff_le_neg_large]; destruct (x =? 0), (0 <? x); reflexivity).
  rewrite F in K. destruct Hx as [->|[->| ->]]; (destruct K as [(m & d & K & _)|(-> & _)]; [exfalso|reflexivity]);
    apply (f_equal (@length Z)) in K; rewrite app_length in K; simpl in K; lia.
Qed.
Definition signU : marshalers signF signF demoC := mkMarshalers signF signF demoC (fun _ => RNone) (fun _ => RNone) (fun _ _ => inr (SErr 1)) (fun _ _ => inr (SErr 1))
  (fun _ => TBool) (fun _ _ => VBool true) (fun _ => None) (fun _ _ => inl []) (fun _ _ => false).
Definition signE : env signF signF demoC := mkEnv signF signF demoC (fun _ => TBool) (fun _ => VBool false).
Notation sMarshal := (Marshal signF signF demoC signE signU signG signG (fun x => x) (fun x => x) true).
Notation sUnmarshal := (Unmarshal signF signF demoC signE demoSf false).
Lemma sign_names : names_ok signF signF demoC signE signU.
Proof.
  constructor; try (intros; discriminate).
  - intros n H. now destruct H.
  - intros id m. repeat split; discriminate.
  - intros id x. constructor.
Qed.
Definition used4 (un : bool) : iter :=
  snd (ReadVal signF signF demoC signE demoSf false 5 TEface (VIface None) (ResetBytes (bs "[1,{") (newIter un false (mkStack [5] 0)))).
Lemma reachable_used4 un : vreachable signF signF demoC signE demoSf false (used4 un).
Proof. apply vr_ReadVal, vr_reachable, re_ResetBytes, re_new. Qed.
Lemma utf8_text_app a b : utf8_text a -> utf8_text b -> utf8_text (a ++ b).
Proof. intros H K. induction H; simpl; auto. rewrite <- app_assoc. now constructor. Qed.
Definition wildIn : bytes := bs " {""a"":[1.50E2,-0,null,true],""" ++ utf8 128512 ++ bs """:""\udead</"",""a"":{""b"":[-7e-3]}} ".
Definition wildOut (n : bytes) : bytes := bs "{""a"":{""b"":[" ++ n ++ bs "]},""" ++ utf8 128512 ++ bs """:""" ++ utf8 65533 ++ bs "\u003c/""}".
Definition wildVal (un : bool) : option (ty * gval signF signF demoC) :=
  Some (TMap KString TEface, VMap (Some [
    (KS (bs "a"), VIface (Some (TMap KString TEface, VMap (Some [(KS (bs "b"), VIface (Some (TSlice TEface, VSlice (Some [
      VIface (Some (if un then (TNumber, VStr (bs "-7e-3")) else (TFloat64, VFloat64 (F64 := signF) (-1))))]))))]))));
    (KS (utf8 128512), VIface (Some (TString, VStr (utf8 65533 ++ bs "</"))))])).
Lemma wild_utf8 : utf8_text wildIn.
Proof.
  unfold wildIn. apply utf8_text_app; [apply ascii_text; reflexivity|]. apply ut_cons; [unfold scalar; lia|]. apply ascii_text. reflexivity.
Qed.
Example C48_stable_ex : (forall un, vreachable signF signF demoC signE demoSf false (used4 un)) /\ float_sane signF /\ fmt_sane signG /\
  names_ok signF signF demoC signE signU /\ float_stable signF signG (fun x => x) /\ zeros_ok signF signF demoC signE /\ utf8_text wildIn /\
  forall un, let o := wildVal un in fst (sUnmarshal 9 TEface (VIface None) wildIn (used4 un)) = Ok (VIface o) /\ sMarshal 9 o = MOk (wildOut (if un then bs "-7e-3" else bs "-1")) /\
    fst (sUnmarshal 9 TEface (VIface None) (wildOut (if un then bs "-7e-3" else bs "-1")) (used4 un)) = Ok (VIface o).
Proof.
  split; [exact reachable_used4|]. split; [exact signF_sane|]. split; [exact signG_sane|]. split; [exact sign_names|]. split; [exact sign_stable|].
  split; [intros n; reflexivity|]. split; [exact wild_utf8|]. intros un o. destruct un; vm_compute; auto.
Qed.
(** bytes that are not UTF-8 are accepted and kept, but written as U+FFFD *)
Theorem C48_utf8_refuted : exists data o t v, is_bytes data /\ fst (sUnmarshal 9 TEface (VIface None) data (used4 true)) = Ok (VIface o) /\
  sMarshal 9 o = MOk t /\ fst (sUnmarshal 9 TEface (VIface None) t (used4 true)) = Ok v /\ v <> VIface o.
Proof.
  exists [34; 255; 34], (Some (TString, VStr [255])), (bs """\ufffd"""), (VIface (Some (TString, VStr [239; 191; 189]))).
  split; [apply bytes_b; reflexivity|]. split; [vm_compute; reflexivity|]. split; [vm_compute; reflexivity|]. split; [vm_compute; reflexivity|]. intros H. discriminate H.
Qed.
Example C48_write_ex : is_bytes [34; 255; 34] /\ sound_env signF signF demoC signE /\ sound_users signF signF demoC signE signU /\
  exists o, fst (sUnmarshal 9 TEface (VIface None) [34; 255; 34] (used4 false)) = Ok (VIface o) /\ sMarshal 9 o = MOk (bs """\ufffd""").
Proof.
  split; [apply bytes_b; reflexivity|]. split; [intros n; split; [apply so_simple; exact I|constructor]|].
  split; [constructor; try discriminate; [intros id; apply so_simple; exact I|constructor|intros id key s [= <-]; constructor]|].
  exists (Some (TString, VStr [255])). split; vm_compute; reflexivity.
Qed.
(** Streamer.Value has no effect after an error, whatever the value is (C21) *)
Theorem C21_value F32 F64 C E U G32 G64 e32 e64 cfgHTML n o s e : sm_error s = Some e ->
  Value F32 F64 C E U G32 G64 e32 e64 cfgHTML n o s = SOk s /\ Flush s = (Some e, s).
Proof. intros H. unfold Value, encValue, ifNoError, Flush. now rewrite H. Qed.
Example C21_value_ex : sm_error (mkStm None (bs "[1") (Some (SErr 5)) true false) = Some (SErr 5) /\
  Value signF signF demoC signE signU signG signG (fun x => x) (fun x => x) true 9 (Some (TSlice TBool, VSlice (Some [VBool true]))) (mkStm None (bs "[1") (Some (SErr 5)) true false) =
    SOk (mkStm None (bs "[1") (Some (SErr 5)) true false).
Proof. split; vm_compute; reflexivity. Qed.
Print Assumptions C21_value.
Print Assumptions C48_write.
Print Assumptions C48_stable.
Print Assumptions C48_utf8_refuted.
