(** The float reader accepts the numbers of the grammar and hands their text to the parser. *)
From Coq Require Import String ZArith List Bool Lia Arith.
From Verif Require Import Base ModelIter ModelStack ModelSkip ModelStr ModelFloat Sim SimLib SimSkip SimStr SimFloat Spec NumFacts.
Import ListNotations.
Local Open Scope Z_scope.

(** Facts about strconv.ParseFloat used by the code: the text 0 denotes the zero returned
    without a call, the letter case of the exponent does not matter, and a leading minus
    negates the result. *)
Definition map_inl {A B C} (g : A -> B) (x : A + C) : B + C :=
  match x with inl a => inl (g a) | inr c => inr c end.
Record float_sane (F : floatOps) : Prop := {
  fs_zero : fl_parse F [48] = inl (fl_zero F);
  fs_exp : forall x, fl_parse F (48 :: 69 :: x) = fl_parse F (48 :: 101 :: x);
  fs_neg : forall u, unsigned_number u -> fl_parse F (45 :: u) = map_inl (fl_neg F) (fl_parse F u)
}.

Lemma unsigned_first u : unsigned_number u -> exists d t, u = d :: t /\ is_digit d.
Proof.
  intros [i f e Hi _ _]. destruct Hi as [|d l Hd Hl]; eexists _, _; (split; [reflexivity|]); unfold is_digit; lia.
Qed.
Lemma number_minus t : number (45 :: t) -> unsigned_number t.
Proof.
  intros H. inversion H as [? Hu|]; subst; auto. destruct (unsigned_first _ Hu) as (d & t' & [= <- <-] & Hd).
  unfold is_digit in Hd. lia.
Qed.

Section Float.
Variable F : floatOps.
Notation parse := (p_parseFloat F).

(** [q] reads what [p] skips and parses the collected text *)
Definition reads (p : P unit) (q : bytes -> P (fl F)) : Prop := forall f l buf,
  match p f l with
  | POk _ r => exists u, l = u ++ r /\ q buf f l = parse (buf ++ u) f r
  | PErr _ => exists e, q buf f l = PErr e
  end.
Lemma ret0_parse f buf : match p_ret0 tt f [] with
  | POk _ r => exists u, [] = u ++ r /\ p_eofReturn parse buf f [] = parse (buf ++ u) f r
  | PErr _ => exists e, p_eofReturn parse buf f [] = PErr e
  end.
Proof.
  unfold p_ret0, p_eofReturn. destruct (err_eqb_eof f); [|eauto]. exists []. split; [reflexivity|]. now rewrite app_nil_r.
Qed.
Lemma rexpLoop_eq buf f l : p_readExponentLoop F buf f l =
  match l with
  | [] => p_eofReturn parse buf f []
  | c :: r => if intDigits c =? invalidDigit then parse buf f l else p_readExponentLoop F (buf ++ [c]) f r
  end.
Proof.
  unfold p_readExponentLoop. destruct l as [|c l]; [reflexivity|]. rewrite p_scan_cons by presume_none.
  destruct (intDigits c =? invalidDigit); reflexivity.
Qed.
Lemma reads_expLoop : reads p_skipExponentLoop (p_readExponentLoop F).
Proof.
  intros f l. induction l as [|c l IH]; intros buf; rewrite expLoop_eq, rexpLoop_eq; [apply ret0_parse|].
  destruct (intDigits c =? invalidDigit).
  - exists []. split; [reflexivity|]. now rewrite app_nil_r.
  - specialize (IH (buf ++ [c])). destruct (p_skipExponentLoop f l) as [x r|e]; auto.
    destruct IH as (u & -> & ->). exists (c :: u). split; auto. now rewrite <- app_assoc.
Qed.
Lemma reads_expPart : reads p_skipExponentPart (p_readFloatExponentPart F).
Proof.
  intros f l buf. unfold p_skipExponentPart, p_readFloatExponentPart, pbind, p_peek, p_inc, pret, pfail.
  destruct l as [|c l]; [simpl; eauto|]. cbn.
  destruct ((c =? cPLUS) || (c =? cMINUS)).
  - destruct l as [|d l]; [simpl; eauto|]. cbn. destruct (intDigits d =? invalidDigit); [eauto|].
    generalize (reads_expLoop f l (buf ++ [c] ++ [d])).
    destruct (p_skipExponentLoop f l) as [x r|e]; auto. intros (u & -> & E). exists (c :: d :: u). split; auto.
    simpl in E. rewrite E. now rewrite <- app_assoc.
  - cbn. destruct (intDigits c =? invalidDigit); [eauto|].
    generalize (reads_expLoop f l (buf ++ [c])).
    destruct (p_skipExponentLoop f l) as [x r|e]; auto. intros (u & -> & E). exists (c :: u). split; auto.
    rewrite E. now rewrite <- app_assoc.
Qed.
Lemma rfracLoop_eq buf f l : p_readFractionLoop F buf f l =
  match l with
  | [] => p_eofReturn parse buf f []
  | c :: r =>
      if floatDigits c <? 0 then
        if floatDigits c =? expInNumber then p_readFloatExponentPart F (buf ++ [c]) f r else parse buf f l
      else p_readFractionLoop F (buf ++ [c]) f r
  end.
Proof.
  unfold p_readFractionLoop. destruct l as [|c l]; [reflexivity|]. rewrite p_scan_cons by presume_none.
  split_ifs; reflexivity.
Qed.
Lemma reads_cons (x : pres unit) (y : pres (fl F)) c buf f l :
  match x with
  | POk _ r => exists u, l = u ++ r /\ y = parse ((buf ++ [c]) ++ u) f r
  | PErr _ => exists e, y = PErr e
  end ->
  match x with
  | POk _ r => exists u, c :: l = u ++ r /\ y = parse (buf ++ u) f r
  | PErr _ => exists e, y = PErr e
  end.
Proof.
  destruct x as [a r|e]; auto. intros (u & -> & ->). exists (c :: u). split; auto. now rewrite <- app_assoc.
Qed.
Lemma reads_fracLoop : reads p_skipFractionLoop (p_readFractionLoop F).
Proof.
  intros f l. induction l as [|c l IH]; intros buf; rewrite fracLoop_eq, rfracLoop_eq; [apply ret0_parse|].
  destruct (floatDigits c <? 0); [destruct (floatDigits c =? expInNumber)|].
  - apply reads_cons, reads_expPart.
  - exists []. split; [reflexivity|]. now rewrite app_nil_r.
  - apply reads_cons, IH.
Qed.
Lemma reads_fracPart : reads p_skipFractionPart (p_readFloatFractionPart F).
Proof.
  intros f l buf. unfold p_skipFractionPart, p_readFloatFractionPart, pbind, p_peek, p_inc, pret, pfail.
  destruct l as [|c l]; [simpl; eauto|]. cbn. destruct (intDigits c =? invalidDigit); [eauto|]. apply reads_cons, reads_fracLoop.
Qed.
Lemma rintLoop_eq buf f l : p_readIntegerLoop F buf f l =
  match l with
  | [] => p_eofReturn parse buf f []
  | c :: r =>
      if floatDigits c <? 0 then
        if floatDigits c =? dotInNumber then p_readFloatFractionPart F (buf ++ [c]) f r
        else if floatDigits c =? expInNumber then p_readFloatExponentPart F (buf ++ [c]) f r else parse buf f l
      else p_readIntegerLoop F (buf ++ [c]) f r
  end.
Proof.
  unfold p_readIntegerLoop. destruct l as [|c l]; [reflexivity|]. rewrite p_scan_cons by presume_none.
  split_ifs; reflexivity.
Qed.
Lemma reads_intLoop : reads p_skipIntegerLoop (p_readIntegerLoop F).
Proof.
  intros f l. induction l as [|c l IH]; intros buf; rewrite intLoop_eq, rintLoop_eq; [apply ret0_parse|].
  destruct (floatDigits c <? 0); [destruct (floatDigits c =? dotInNumber); [|destruct (floatDigits c =? expInNumber)]|].
  - apply reads_cons, reads_fracPart.
  - apply reads_cons, reads_expPart.
  - exists []. split; [reflexivity|]. now rewrite app_nil_r.
  - apply reads_cons, IH.
Qed.

Hypothesis sane : float_sane F.
Lemma parse_eq buf buf' f r : fl_parse F buf = fl_parse F buf' -> parse buf f r = parse buf' f r.
Proof. intros H. unfold p_parseFloat. now rewrite H. Qed.
Lemma reads_positive c f l : is_digit c ->
  match p_unsigned c f l with
  | POk _ r => exists u, l = u ++ r /\ p_readPositiveFloat F c f l = parse (c :: u) f r
  | PErr _ => exists e, p_readPositiveFloat F c f l = PErr e
  end.
Proof.
  intros Hc. unfold p_unsigned, p_readPositiveFloat. destruct (intDigits_digit _ Hc) as [Ed En]. rewrite En.
  destruct (Z.eqb_spec c cZERO) as [->|Hz].
  - replace (intDigits 48 =? 0) with true by reflexivity. unfold pbind, p_peekOrEOF. destruct l as [|d l].
    + destruct (err_eqb_eof f); [|eauto]. exists []. split; auto. unfold p_parseFloat. rewrite (fs_zero _ sane). reflexivity.
    + destruct (fd_cases d) as [Hd|[->|[Hd|(H1 & H2 & H3)]]].
      * destruct (fd_digit _ Hd) as (_ & -> & ->). exists []. split; auto. unfold p_parseFloat.
        rewrite (fs_zero _ sane). reflexivity.
      * cbn. unfold p_inc. cbn [tl]. generalize (reads_fracPart f l [48; 46]).
        destruct (p_skipFractionPart f l) as [x r|e]; auto. intros (u & -> & E). exists (46 :: u). auto.
      * rewrite (fd_e _ Hd). cbn. unfold p_inc. cbn [tl]. generalize (reads_expPart f l [48; 101]).
        destruct (p_skipExponentPart f l) as [x r|e]; auto. intros (u & -> & E). exists (d :: u). split; auto.
        rewrite E. apply parse_eq. destruct Hd as [->| ->]; [reflexivity|]. symmetry. apply (fs_exp _ sane).
      * rewrite fd_other by auto. cbn. exists []. split; auto. unfold p_parseFloat. rewrite (fs_zero _ sane). reflexivity.
  - replace (intDigits c =? 0) with false by (rewrite Ed; lia).
    generalize (reads_intLoop f l [c]). destruct (p_skipIntegerLoop f l) as [x r|e]; auto.
Qed.
Lemma parse_ok buf f r v r' : parse buf f r = POk v r' <-> fl_parse F buf = inl v /\ r' = r.
Proof.
  unfold p_parseFloat, pret, pfail. destruct (fl_parse F buf) as [x|n]; split.
  - intros [= -> ->]. auto.
  - intros [[= ->] ->]. auto.
  - discriminate.
  - intros [? _]. discriminate.
Qed.
Lemma positive_nodigit c f l : ~ is_digit c -> p_readPositiveFloat F c f l = PErr (EInvalidFloat c).
Proof. intros H. unfold p_readPositiveFloat. now rewrite intDigits_nodigit. Qed.
Lemma positive_spec c f l v r : is_digit c ->
  (p_readPositiveFloat F c f l = POk v r <->
   exists u, l = u ++ r /\ p_unsigned c f l = POk tt r /\ fl_parse F (c :: u) = inl v).
Proof.
  intros Hc. generalize (reads_positive c f l Hc). destruct (p_unsigned c f l) as [[] r0|e].
  - intros (u & -> & ->). rewrite parse_ok. split.
    + intros [H ->]. exists u. auto.
    + intros (u' & E & [= ->] & H). apply app_inv_tail in E. subst u'. auto.
  - intros (e' & ->). split; [discriminate|]. intros (u & _ & H & _). discriminate.
Qed.
Theorem readFloat_spec c f l v r : c = 45 \/ is_digit c ->
  (p_readFloat F c f l = POk v r <->
   exists t, number (c :: t) /\ l = t ++ r /\ num_ends (c :: t) f r /\ fl_parse F (c :: t) = inl v).
Proof.
  intros Hc. unfold p_readFloat. destruct (Z.eqb_spec c cMINUS) as [->|Hm].
  - unfold pbind, p_peek, p_inc, pret. destruct l as [|d l].
    + split; [discriminate|]. intros (t & Hn & E & _). destruct t; [|discriminate].
      apply number_minus, unsigned_first in Hn. destruct Hn as (? & ? & ? & _). discriminate.
    + cbn [tl]. destruct (is_digit_dec d) as [Hd|Hd].
      * assert (HS := skipNumber_spec f 45 (d :: l) r Hc). rewrite skipNumber_minus in HS.
        destruct (intDigits_digit _ Hd) as [_ En]. rewrite En in HS.
        assert (Hneg : forall t x, number (45 :: t) -> fl_parse F t = inl x -> fl_parse F (45 :: t) = inl (fl_neg F x)).
        { intros t x Ht Hx. rewrite (fs_neg _ sane); [now rewrite Hx|]. now apply number_minus. }
        destruct (p_readPositiveFloat F d f l) as [x r0|e] eqn:E.
        -- apply positive_spec in E; auto. destruct E as (u & -> & Eu & Ex). rewrite Eu in HS.
           split.
           ++ intros [= <- <-]. destruct (proj1 HS eq_refl) as (t & Hn & Et & He). exists t.
              assert (t = d :: u) by (apply (app_inv_tail r0); symmetry; exact Et). subst t. repeat split; auto; apply He.
           ++ intros (t & Hn & Et & He & Hv). assert (HS' := proj2 HS (ex_intro _ t (conj Hn (conj Et He)))). injection HS' as ->.
              assert (t = d :: u) by (apply (app_inv_tail r); symmetry; exact Et). subst t. rewrite (Hneg _ _ Hn Ex) in Hv.
              injection Hv as <-. auto.
        -- split; [discriminate|]. intros (t & Hn & Et & He & Hv).
           assert (Eu : p_unsigned d f l = POk tt r) by (apply HS; eauto).
           assert (Hu := number_minus _ Hn). destruct (unsigned_first _ Hu) as (d' & t' & -> & Hd').
           injection Et as <- ->.
           destruct (fl_parse F (d :: t')) as [x|n] eqn:Ex.
           ++ assert (p_readPositiveFloat F d f (t' ++ r) = POk x r) by (apply positive_spec; eauto). congruence.
           ++ rewrite (fs_neg _ sane) in Hv by auto. rewrite Ex in Hv. discriminate.
      * rewrite positive_nodigit by auto. split; [discriminate|]. intros (t & Hn & Et & _).
        assert (Hu := number_minus _ Hn). destruct (unsigned_first _ Hu) as (d' & t' & -> & Hd').
        injection Et as <- ->. contradiction.
  - destruct Hc as [|Hc]; [lia|]. rewrite positive_spec by auto.
    assert (HS := skipNumber_spec f c l r (or_intror Hc)). rewrite skipNumber_unsigned in HS by auto. split.
    + intros (u & El & Eu & Hv). apply HS in Eu. destruct Eu as (t & Hn & Et & He).
      assert (t = u) by (apply (app_inv_tail r); congruence). subst t. exists u. auto.
    + intros (t & Hn & El & He & Hv). exists t. split; auto. split; auto. apply HS. eauto.
Qed.
End Float.
