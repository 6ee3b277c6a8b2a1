(** Property C41: Marshal reports the first failure. *)
From Coq Require Import String ZArith List Bool Lia Arith.
From Verif Require Import Spec SpecStream SpecBase64 StreamFacts StreamTree ModelRead Properties1 Properties2 Properties3.
From Verif Require Import Base ModelInt ModelFloat ModelOps ModelStream ModelVal ModelEnc SpecVal SpecEnc SpecFail EncFacts EncRound FailFacts Properties4 Properties5.
Import ListNotations.
Local Open Scope Z_scope.

Section Failing.
Variables F32 F64 : floatOps.
Variable C : custom.
Variable E : env F32 F64 C.
Variable U : marshalers F32 F64 C.
Variables G32 G64 : floatFmt.
Variable e32 : fl F32 -> ff G32.
Variable e64 : fl F64 -> ff G64.
Variable cfgHTML : bool.
Notation Value := (Value F32 F64 C E U G32 G64 e32 e64 cfgHTML).
Notation Marshal := (Marshal F32 F64 C E U G32 G64 e32 e64 cfgHTML).
Notation encodes q := (encodes F32 F64 C E U G32 G64 e32 e64 q).
Notation fails q := (fails F32 F64 C E U G32 G64 e32 e64 q).
Variables (S32 : fmt_sane G32) (S64 : fmt_sane G64).
Hypothesis NO : names_ok F32 F64 C E U.

(** a streamer keeps the error of the first part that has no representation *)
Theorem C41_value (Q : Prop) T v e h : fails Q false T false v e ->
  exists n0, forall n p w b, (n0 <= n)%nat ->
    exists b' p', Value n (Some (T, v)) (mkStm w b None p h) = SOk (mkStm w b' (Some e) p' h).
Proof.
  intros H. destruct (encode_fails F32 F64 C E U G32 G64 S32 S64 e32 e64 cfgHTML Q NO h) as [K _].
  destruct (K _ _ _ _ _ (x_iface _ _ _ _ _ _ _ _ _ _ false TEface false T v e (or_introl eq_refl) H)) as (n0 & P).
  exists n0. intros n p w b Hn. exact (P (S n) ltac:(lia) p w b).
Qed.
(** Marshal returns it, and no text *)
Theorem C41_marshal (Q : Prop) T v e : fails Q false T false v e ->
  exists n0, forall n, (n0 <= n)%nat -> Marshal n (Some (T, v)) = MErr e.
Proof.
  intros H. destruct (C41_value Q T v e cfgHTML H) as (n0 & P). exists n0. intros n Hn. unfold ModelEnc.Marshal, newStm.
  destruct (P n false None [] Hn) as (b' & p' & ->). reflexivity.
Qed.
(** a value that fails has no representation, and it fails with one error only *)
Theorem C41_exclusive (Q : Prop) T v e t : fails Q false T false v e -> ~ encodes Q false TEface false (VIface (Some (T, v))) t.
Proof.
  intros H He. destruct (C41_marshal _ _ _ _ H) as (n0 & P).
  destruct (Marshal_ok F32 F64 C E U G32 G64 S32 S64 e32 e64 cfgHTML Q NO _ _ He) as (t' & n1 & _ & P').
  specialize (P (Nat.max n0 n1) ltac:(lia)). rewrite P' in P by lia. discriminate.
Qed.
Theorem C41_unique (Q : Prop) T v e e' : fails Q false T false v e -> fails Q false T false v e' -> e = e'.
Proof.
  intros H H'. destruct (C41_marshal _ _ _ _ H) as (n0 & P). destruct (C41_marshal _ _ _ _ H') as (n1 & P').
  specialize (P (Nat.max n0 n1) ltac:(lia)). rewrite P' in P by lia. congruence.
Qed.
End Failing.

(** ** Examples *)
(** +Inf is "i" here; the method of type 0 fails for the state "e" *)
Definition failF (x : bool * bytes) : Z := if bytes_eqb (snd x) (bs "i") then 3 else if bytes_eqb (snd x) (bs "0") then 0 else 1.
Definition failU : marshalers textF textF demoC := mkMarshalers textF textF demoC (ma_json _ _ _ encU) (ma_text _ _ _ encU)
  (fun id x => if bytes_eqb x (bs "e") then inr (SErr 7) else ma_MarshalJSON _ _ _ encU id x) (ma_MarshalText _ _ _ encU) (ma_under _ _ _ encU) (ma_repr _ _ _ encU) (ma_dyn _ _ _ encU)
  (ma_keyText _ _ _ encU) (ma_keyNil _ _ _ encU).
Lemma fail_names : names_ok textF textF demoC encE failU.
Proof. destruct enc_names. now constructor. Qed.
(** []interface{}{true, map[string]T{"k": T("e")}, +Inf} *)
Definition failV : eval := VSlice (Some [VIface (Some (TBool, VBool true));
  VIface (Some (TMap KString (TJson 0), VMap (Some [(KS (bs "k"), VObj (bs "e" : cu_state demoC))])));
  VIface (Some (TFloat64, VFloat64 ((true, bs "i") : fl textF)))]).
Lemma failV_fails Q : fails textF textF demoC encE failU demoF demoF failF failF Q false (TSlice TEface) false failV (SErr 7).
Proof.
  apply x_slice; [discriminate|]. eapply xl_later.
  - eapply e_iface; auto; [notUser|]. apply e_true.
  - apply xl_here. apply x_iface; auto. apply x_map; [exact I|]. apply xm_here; [constructor; apply bytes_b; reflexivity|].
    eapply x_json with (id := 0%nat); [now left|now left|reflexivity].
Qed.
Notation fMarshal := (Marshal textF textF demoC encE failU demoF demoF failF failF true).
Example C41_marshal_ex : names_ok textF textF demoC encE failU /\
  fails textF textF demoC encE failU demoF demoF failF failF False false (TSlice TEface) false failV (SErr 7) /\
  fMarshal 5 (Some (TSlice TEface, failV)) = MErr (SErr 7).
Proof. split; [apply fail_names|]. split; [apply failV_fails|vm_compute; reflexivity]. Qed.
(** struct { A int8; B float64 }{5, +Inf} *)
Definition failT : ty := TStruct [TInt true W8; TFloat64] [mkField (bs "A") [HField 0] false true (TInt true W8); mkField (bs "B") [HField 1] false true TFloat64].
Definition failS (z : Z) : eval := VStruct [VInt z; VFloat64 ((true, bs "i") : fl textF)].
Example C41_value_ex :
  fails textF textF demoC encE failU demoF demoF failF failF False false failT false (failS 5) ErrFloatIsInfinity /\
  fails textF textF demoC encE failU demoF demoF failF failF False false failT false (failS 0) ErrFloatIsInfinity /\
  fMarshal 5 (Some (failT, failS 5)) = MErr ErrFloatIsInfinity.
Proof.
  split; [|split; [|vm_compute; reflexivity]].
  - apply x_struct. eapply xf_later with (x := VInt 5).
    + split; [repeat econstructor|]. split; [apply bytes_b; reflexivity|]. intros _. left. split; [plainTested|]. intros H. inversion H.
    + apply e_int with (t := [53]); [cbv; split; congruence|split; [apply ip_pos; [lia|constructor]|reflexivity]].
    + apply xf_here with (VFloat64 ((true, bs "i") : fl textF)); [|now apply x_inf64].
      split; [repeat econstructor|]. split; [apply bytes_b; reflexivity|]. intros _. left. split; [plainTested|]. intros H. inversion H. discriminate.
  - apply x_struct. eapply xf_skip.
    + right. exists (VInt 0). split; [repeat econstructor|]. split; [reflexivity|]. left. split; [plainTested|constructor].
    + apply xf_here with (VFloat64 ((true, bs "i") : fl textF)); [|now apply x_inf64].
      split; [repeat econstructor|]. split; [apply bytes_b; reflexivity|]. intros _. left. split; [plainTested|]. intros H. inversion H. discriminate.
Qed.
Example C41_exclusive_ex : fails textF textF demoC encE failU demoF demoF failF failF False false (TSlice TEface) false failV (SErr 7).
Proof. apply failV_fails. Qed.
Example C41_unique_ex : fails textF textF demoC encE failU demoF demoF failF failF False false (TPtr TBad) false (VPtr None) ErrTypeNotSupported /\
  fMarshal 5 (Some (TPtr TBad, VPtr None)) = MErr ErrTypeNotSupported.
Proof. split; [apply x_ptr_nil; constructor|vm_compute; reflexivity]. Qed.

(** a key whose MarshalText fails, after one that does not; a key type without encoder *)
Example C41_key_ex :
  fails textF textF demoC encE failU demoF demoF failF failF False false keyT false (VMap (Some [(KO 1, VInt 1); (KO (-1), VInt 2)])) (SErr 9) /\
  fMarshal 5 (Some (keyT, VMap (Some [(KO 1, VInt 1); (KO (-1), VInt 2)]))) = MErr (SErr 9) /\
  fails textF textF demoC encE failU demoF demoF failF failF False false (TMap (KUser KKOther (Some 5%nat) None) TBool) false (VMap (Some [])) ErrTypeNotSupported /\
  fMarshal 5 (Some (TMap (KUser KKOther (Some 5%nat) None) TBool, VMap (Some []))) = MErr ErrTypeNotSupported.
Proof.
  split; [|split; [reflexivity|split; [apply x_bad_map; intros []|reflexivity]]].
  apply x_map; [exact I|]. eapply xm_later.
  - apply fk_text with (bs "xx"); try discriminate; try reflexivity; try congruence; apply bytes_b; reflexivity.
  - apply e_int with (t := [49]); [cbv; split; congruence|split; [apply ip_pos; [lia|constructor]|reflexivity]].
  - apply xm_key. apply fk_err; try discriminate; try reflexivity; congruence.
Qed.

Print Assumptions C41_value.
Print Assumptions C41_marshal.
Print Assumptions C41_exclusive.
Print Assumptions C41_unique.
