(** The readers fail only with errors of the code: never with the marks that the model uses for exhausted nesting fuel and for
    values of a wrong type (for C50). *)
From Coq Require Import String ZArith List Bool Lia Arith.
From Verif Require Import Base ModelIter ModelStack ModelSkip ModelStr ModelInt ModelFloat ModelRead ModelIterate ModelOps
  ModelVal Sim SimLib Machine SimSkip SimRaw SimStr SimInt SimFloat SimRead SimVal.
Import ListNotations.
Local Open Scope Z_scope.

Definition marked (e : err) : bool := match e with EOther n => (n =? -3) || (n =? -4) | _ => false end.
Definition never {A} (p : P A) : Prop := forall f l e, marked f = false -> p f l = PErr e -> marked e = false.

Lemma never_ret {A} (a : A) : never (pret a).
Proof. intros f l e _ H. discriminate. Qed.
Lemma never_fail {A} e : marked e = false -> never (pfail (A := A) e).
Proof. intros M f l e' _ [= <-]. exact M. Qed.
Lemma never_bind {A B} (p : P A) (q : A -> P B) : never p -> (forall a, never (q a)) -> never (pbind p q).
Proof.
  intros Hp Hq f l e M. unfold pbind. destruct (p f l) as [a r|e'] eqn:E; [now apply Hq|]. intros [= <-]. now apply (Hp f l).
Qed.
Lemma never_if {A} (b : bool) (p q : P A) : never p -> never q -> never (if b then p else q).
Proof. destruct b; auto. Qed.
Lemma never_inc : never p_inc.
Proof. intros f l e _ H. discriminate. Qed.
Lemma never_eof {A} : never (p_eof (A := A)).
Proof. intros f l e M [= <-]. exact M. Qed.
Lemma never_peek : never p_peek.
Proof. intros f [|c l] e M H; [injection H as <-; exact M|discriminate]. Qed.
Lemma never_peekOrEOF : never p_peekOrEOF.
Proof. intros f [|c l] e M H; [|discriminate]. simpl in H. destruct (err_eqb_eof f); [discriminate|]. injection H as <-. exact M. Qed.
Lemma never_fuel0 {A} : never (fuel0 (A := A)).
Proof. intros f l e _ [= <-]. reflexivity. Qed.
Lemma never_fuel {A} (p : nat -> P A) : (forall n, never (p n)) -> never (p_fuel p).
Proof. intros H f l e M. apply (H _ f l e M). Qed.
Lemma never_eofReturn {T B} (q : T -> P B) t : never (q t) -> never (p_eofReturn q t).
Proof.
  intros H f l e M. unfold p_eofReturn. destruct (err_eqb_eof f); [now apply H|]. intros [= <-]. exact M.
Qed.
Lemma never_captured {A} pre (p : P A) : never p -> never (p_captured pre p).
Proof. intros H f l e M. unfold p_captured. destruct (p f l) eqn:E; [discriminate|]. intros [= <-]. now apply (H f l). Qed.
Definition fine {T A} (r : psres T A) : Prop :=
  match r with PNext _ => True | PStop _ q => never q | PFail e => marked e = false | PResume q => never q end.
Lemma never_scan {T A} (pb : T -> Z -> psres T A) pe t : (forall t c, fine (pb t c)) -> (forall t, never (pe t)) -> never (p_scan pb pe t).
Proof.
  intros Hb He f l e M. unfold p_scan. generalize (length l) as n. intros n. revert t l.
  induction n as [|n IHn]; intros t l; revert t; induction l as [|c l IHl]; intros t H; cbn [pscan] in H; try (eapply He; eassumption).
  - specialize (Hb t c). destruct (pb t c) as [t'|k q|e'|q]; cbn [fine] in Hb; [eapply IHl; eassumption|eapply Hb; eassumption| |];
      injection H as <-; auto.
  - specialize (Hb t c). destruct (pb t c) as [t'|k q|e'|q]; cbn [fine] in Hb; [eapply IHl; eassumption|eapply Hb; eassumption| |].
    + injection H as <-. auto.
    + destruct (q f l) as [t' l'|e'] eqn:Q; [eapply IHn; eassumption|]. injection H as <-. now apply (Hb f l).
Qed.

Create HintDb never.
#[local] Hint Resolve never_ret never_inc never_eof never_peek never_peekOrEOF never_fuel0 : never.
#[local] Hint Extern 1 (never (pfail _)) => (apply never_fail; reflexivity) : never.
Ltac nv := cbv beta zeta; intros;
  match goal with
  | |- never (pbind _ _) => apply never_bind; nv
  | |- never (if _ then _ else _) => apply never_if; nv
  | |- never (match ?x with _ => _ end) => destruct x; nv
  | |- never (p_fuel _) => apply never_fuel; nv
  | |- never (p_captured _ _) => apply never_captured; nv
  | |- never (p_scan _ _ _) => apply never_scan; nv
  | |- never (p_eofReturn _ _) => apply never_eofReturn; nv
  | |- fine (if _ then _ else _) => match goal with |- fine (if ?b then _ else _) => destruct b; nv end
  | |- fine (match ?x with _ => _ end) => destruct x; nv
  | |- fine (let '_ := ?x in _) => destruct x; nv
  | |- fine (PNext _) => exact I
  | |- fine (PStop _ _) => unfold fine; nv
  | |- fine (PResume _) => unfold fine; nv
  | |- fine (PFail _) => reflexivity
  | |- never _ => eauto with never
  end.
Lemma never_nextToken : never p_nextToken.
Proof. unfold p_nextToken. nv. Qed.
#[local] Hint Resolve never_nextToken : never.
Lemma never_takeToken : never p_takeToken.
Proof. unfold p_takeToken. nv. Qed.
#[local] Hint Resolve never_takeToken : never.
Lemma never_expectBytes s : never (p_expectBytes s).
Proof. unfold p_expectBytes. nv. Qed.
#[local] Hint Resolve never_expectBytes : never.

(** ** Numbers *)
Lemma never_ret0 {T} (t : T) : never (p_ret0 t).
Proof. unfold p_ret0. nv. Qed.
#[local] Hint Resolve never_ret0 : never.
Lemma never_skipExponentLoop : never p_skipExponentLoop.
Proof. unfold p_skipExponentLoop. nv. Qed.
#[local] Hint Resolve never_skipExponentLoop : never.
Lemma never_skipExponentPart : never p_skipExponentPart.
Proof. unfold p_skipExponentPart. nv. Qed.
#[local] Hint Resolve never_skipExponentPart : never.
Lemma never_skipFractionLoop : never p_skipFractionLoop.
Proof. unfold p_skipFractionLoop. nv. Qed.
#[local] Hint Resolve never_skipFractionLoop : never.
Lemma never_skipFractionPart : never p_skipFractionPart.
Proof. unfold p_skipFractionPart. nv. Qed.
#[local] Hint Resolve never_skipFractionPart : never.
Lemma never_skipIntegerLoop : never p_skipIntegerLoop.
Proof. unfold p_skipIntegerLoop. nv. Qed.
#[local] Hint Resolve never_skipIntegerLoop : never.
Lemma never_skipNumber c : never (p_skipNumber c).
Proof. unfold p_skipNumber. nv. Qed.
#[local] Hint Resolve never_skipNumber : never.
Lemma never_readU w c : never (p_readU w c).
Proof. unfold p_readU, p_readUint8, p_readUintN, p_uintLoop, pb_uint. destruct (w =? 8), (w =? 16), (w =? 32); nv. Qed.
#[local] Hint Resolve never_readU : never.
Lemma never_readIntOf s w c : never (p_readIntOf s w c).
Proof. unfold p_readIntOf, p_readIntN. destruct s; nv. Qed.
#[local] Hint Resolve never_readIntOf : never.
Lemma never_parseFloat F b : never (p_parseFloat F b).
Proof. unfold p_parseFloat. nv. Qed.
#[local] Hint Resolve never_parseFloat : never.
Lemma never_readExponentLoop F b : never (p_readExponentLoop F b).
Proof. unfold p_readExponentLoop. nv. Qed.
#[local] Hint Resolve never_readExponentLoop : never.
Lemma never_readFloatExponentPart F b : never (p_readFloatExponentPart F b).
Proof. unfold p_readFloatExponentPart. nv. Qed.
#[local] Hint Resolve never_readFloatExponentPart : never.
Lemma never_readFractionLoop F b : never (p_readFractionLoop F b).
Proof. unfold p_readFractionLoop. nv. Qed.
#[local] Hint Resolve never_readFractionLoop : never.
Lemma never_readFloatFractionPart F b : never (p_readFloatFractionPart F b).
Proof. unfold p_readFloatFractionPart. nv. Qed.
#[local] Hint Resolve never_readFloatFractionPart : never.
Lemma never_readIntegerLoop F b : never (p_readIntegerLoop F b).
Proof. unfold p_readIntegerLoop. nv. Qed.
#[local] Hint Resolve never_readIntegerLoop : never.
Lemma never_readPositiveFloat F c : never (p_readPositiveFloat F c).
Proof. unfold p_readPositiveFloat. nv. Qed.
#[local] Hint Resolve never_readPositiveFloat : never.
Lemma never_readFloat F c : never (p_readFloat F c).
Proof. unfold p_readFloat. nv. Qed.
#[local] Hint Resolve never_readFloat : never.
Lemma never_ReadFloat F : never (p_ReadFloat F).
Proof. unfold p_ReadFloat. nv. Qed.

(** ** Strings *)
Lemma never_skipU4 : never p_skipU4.
Proof. unfold p_skipU4. nv. Qed.
#[local] Hint Resolve never_skipU4 : never.
Lemma never_skipEscapedChar : never p_skipEscapedChar.
Proof. unfold p_skipEscapedChar. nv. Qed.
#[local] Hint Resolve never_skipEscapedChar : never.
Lemma never_skipString : never p_skipString.
Proof. unfold p_skipString, pb_skipString. nv. Qed.
#[local] Hint Resolve never_skipString : never.
Lemma never_body : never p_body.
Proof.
  intros f l e M. unfold p_body. destruct (p_captured [] p_skipString f l) eqn:E; [discriminate|]. intros [= <-].
  exact (never_captured [] _ never_skipString f l _ M E).
Qed.
Lemma never_readU4 : never p_readU4.
Proof. unfold p_readU4. nv. Qed.
#[local] Hint Resolve never_readU4 : never.
Lemma never_readSurrogate n : forall b r, never (p_readSurrogate n b r).
Proof. induction n as [|n IH]; intros b r; cbn [p_readSurrogate]; nv. Qed.
#[local] Hint Resolve never_readSurrogate : never.
Lemma never_readEscapedChar b : never (p_readEscapedChar b).
Proof. unfold p_readEscapedChar. nv. Qed.
#[local] Hint Resolve never_readEscapedChar : never.
Lemma never_string b : never (p_string b).
Proof. unfold p_string, pb_string. nv. Qed.
Lemma never_readStringAsSlice : never p_readStringAsSlice.
Proof. apply never_string. Qed.
#[local] Hint Resolve never_readStringAsSlice : never.
Lemma never_readObjectField : never p_readObjectField.
Proof. unfold p_readObjectField. nv. Qed.
#[local] Hint Resolve never_readObjectField : never.
Lemma never_skipObjectField : never p_skipObjectField.
Proof. unfold p_skipObjectField. nv. Qed.
#[local] Hint Resolve never_skipObjectField : never.

(** ** Arrays and objects *)
Section Machine.
Context {V K SA SO : Type}.
Variable X : alg V K SA SO.
Hypothesis HL : forall c, never (leaf X c).
Hypothesis HF : never (field X).
Hypothesis HE : forall c, marked (arrErr X c) = false.
Lemma never_loop n : forall first a stk, never (p_loop X n first a stk).
Proof. induction n as [|n IH]; intros first a stk; cbn [p_loop]; nv. Qed.
#[local] Hint Resolve never_loop : never.
Lemma never_arrLoop n : forall c s, never (p_arrLoop X n c s).
Proof. induction n as [|n IH]; intros c s; cbn [p_arrLoop]; nv. apply never_fail, HE. Qed.
#[local] Hint Resolve never_arrLoop : never.
Lemma never_objLoop n : forall c s, never (p_objLoop X n c s).
Proof. induction n as [|n IH]; intros c s; cbn [p_objLoop]; nv. Qed.
#[local] Hint Resolve never_objLoop : never.
Lemma never_value c : never (p_value X c).
Proof. unfold p_value, p_array, p_object. nv. Qed.
End Machine.
Lemma never_skipFunctions c : never (p_skipFunctions c).
Proof. apply never_value; [intros c0; unfold skipAlg, leaf, p_skipLeaf; nv|exact never_skipObjectField|reflexivity]. Qed.
#[local] Hint Resolve never_skipFunctions : never.
Lemma never_Skip : never p_Skip.
Proof. unfold p_Skip. nv. Qed.
Lemma never_SkipRaw : never p_SkipRaw.
Proof. unfold p_SkipRaw. nv. Qed.
#[local] Hint Resolve never_SkipRaw : never.
Lemma never_AppendRaw b : never (p_AppendRaw b).
Proof. unfold p_AppendRaw. nv. Qed.
Lemma never_readNumberAsString c : never (p_readNumberAsString c).
Proof. unfold p_readNumberAsString. nv. Qed.
#[local] Hint Resolve never_readNumberAsString : never.
Lemma never_Read F b : never (p_Read F b).
Proof.
  unfold p_Read. apply never_bind; [nv|]. intros c. apply never_value; [|exact never_readObjectField|reflexivity].
  intros c0. unfold readAlg, leaf, p_readLeaf, p_readNumberValue. nv.
Qed.
