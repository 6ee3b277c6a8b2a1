(** The typed decoders accept only JSON, but for two relaxations. *)
From Coq Require Import String ZArith List Bool Lia Arith.
From Verif Require Import Base ModelInt ModelFloat ModelOps ModelVal ModelDecoder Spec GrammarFacts SpecVal SpecDecoder DecFacts DecSound DecComplete.
Import ListNotations.
Local Open Scope Z_scope.

(** ** Without the relaxations the grammar is that of JSON *)
Lemma items_elements t ts : items t ts -> Forall (fun t => exists j, value t j) ts -> exists js, elements t js.
Proof.
  induction 1 as [w1 t w2|w1 t w2 r ts H1 H2 H3 IH]; intros Hf; inversion Hf as [|? ? (j & Hj) Hf2]; subst.
  - exists [j]. now constructor.
  - destruct (IH Hf2) as (js & Hjs). exists (j :: js). now constructor.
Qed.
Lemma lax_mono (nk sp nk' sp' : Prop) t : (nk -> nk') -> (sp -> sp') -> lax nk sp t -> lax nk' sp' t.
Proof.
  intros H1 H2. revert t. fix F 2. intros t [t0 j Hj|w t0 Hs Hw Hin|t0 ts Ht Hf|t0 ps Ht Hk Hf].
  - eapply lax_value; eauto.
  - apply lax_bool; auto.
  - eapply lax_array; eauto. clear Ht. induction Hf; constructor; auto.
  - eapply lax_object; eauto.
    + clear -H1 Hk. induction Hk as [|p ps Hp Hk IH]; constructor; auto. destruct Hp as [[? ?]|?]; auto.
    + clear Ht Hk. induction Hf; constructor; auto.
Qed.
Lemma strict_value t : lax False False t -> exists j, value t j.
Proof.
  revert t. fix F 2. intros t [t0 j Hj|w t0 Hs Hw Hin|t0 ts Ht Hf|t0 ps Ht Hk Hf].
  - eauto.
  - destruct Hs.
  - assert (Hv : Forall (fun t => exists j, value t j) ts) by (clear Ht; induction Hf as [|x l Hx Hl IH]; constructor; [exact (F _ Hx)|exact IH]).
    destruct Ht as [w Hw|b ts Hb]; [eexists; now apply v_arr0|].
    destruct (items_elements _ _ Hb Hv) as (js & Hjs). exists (JArr js). now apply v_arr.
  - assert (Hv : Forall (fun p => exists x name j, fst p = quote x /\ string_body x name /\ value (snd p) j) ps).
    { clear Ht. revert Hk. induction Hf as [|p ps Hp Hf IH]; intros Hk; constructor; inversion Hk as [|? ? Hk1 Hk2]; subst; auto.
      destruct (F _ Hp) as (j & Hj). destruct Hk1 as [[[] _]|(x & s & H1 & H2)]. exists x, s, j. auto. }
    destruct Ht as [w Hw|b ps Hb]; [eexists; now apply v_obj0|].
    destruct (pairs_members _ _ Hb Hv) as (js & Hjs). exists (JObj js). now apply v_obj.
Qed.

(** ** Numbers in quotes are strings *)
Definition plain (c : Z) : Prop := 32 <= c /\ c <> 34 /\ c <> 92.
Lemma plain_items t : Forall plain t -> string_items t (map UByte t).
Proof. induction 1 as [|c t (H1 & H2 & H3) Ht IH]; [constructor|]. apply si_plain; auto. Qed.
Lemma plain_body t : Forall plain t -> string_body t t.
Proof.
  intros H. exists (map UByte t). split; [now apply plain_items|]. clear H. induction t as [|c t IH]; [reflexivity|].
  cbn [map denote]. now rewrite <- IH.
Qed.
Lemma digits_plain t : digits t -> Forall plain t.
Proof. apply Forall_impl. unfold is_digit, plain. intros; lia. Qed.
Lemma number_plain t : number t -> Forall plain t.
Proof.
  assert (U : forall u, unsigned_number u -> Forall plain u).
  { intros u [i f e Hi Hf He]. apply Forall_app. split; [|apply Forall_app; split].
    - destruct Hi; [constructor; [unfold plain; lia|constructor]|]. constructor; [unfold plain; lia|now apply digits_plain].
    - destruct Hf as [|l [_ Hl]]; [constructor|]. constructor; [unfold plain; lia|now apply digits_plain].
    - destruct He as [|c l Hc [_ Hl]|c sg l Hc Hs [_ Hl]]; [constructor| |]; repeat (constructor; [unfold plain; lia|]); now apply digits_plain. }
  intros [u Hu|u Hu]; [auto|]. constructor; auto. unfold plain; lia.
Qed.
Lemma quoted_number t : number t -> exists j, value (quote t) j.
Proof. intros H. exists (JStr t). apply v_str, plain_body, number_plain, H. Qed.

Section Strict.
Variables F32 F64 : floatOps.
Variable C : custom.
Notation gval := (gval F32 F64 C).
Variable E : env F32 F64 C.
Notation zero := (zero F32 F64 C E).
Notation under := (under F32 F64 C E).
Variable lookup : list bytes -> bytes -> option nat.
Variables useNumber disallow : bool.
Notation decodes := (decodes F32 F64 C E lookup useNumber disallow).
Notation elems := (elems F32 F64 C E lookup useNumber disallow).
Notation overwrite := (overwrite F32 F64 C E lookup useNumber disallow).
Notation entries := (entries F32 F64 C E lookup useNumber disallow).
Notation members := (members F32 F64 C E lookup useNumber disallow).
Notation at_path := (at_path F32 F64 C E lookup useNumber disallow).
Variables nk sp : Prop.
Variable S : ty -> Prop.
Hypothesis HS : closed F32 F64 C E nk sp S.
Hypothesis HE : forall n, holds_only F32 F64 C E S (te_zero _ _ _ E n).
Notation ok := (holds_only F32 F64 C E S).

Lemma ok_zero T : ok (zero T).
Proof.
  revert T. fix F 1. intros [|s w| | | | | |id|id|T|k T|T|k T|layout fs| | |m|]; cbn [ModelVal.zero]; try constructor.
  - apply Forall_forall. intros x Hx. apply repeat_spec in Hx. subst. apply F.
  - induction layout as [|T l IH]; cbn [map]; constructor; [apply F|exact IH].
  - apply HE.
Qed.
Lemma ok_iface j : forall v, iface_of F32 F64 C useNumber j = Some v -> ok v.
Proof.
  induction j as [| | | |l IH|ms IH] using jval_ind2; cbn [iface_of]; intros v Hv.
  - injection Hv as <-. constructor.
  - injection Hv as <-. constructor; [discriminate|constructor].
  - destruct useNumber; [injection Hv as <-; constructor; [discriminate|constructor]|].
    destruct (fl_parse F64 _); [|discriminate]. injection Hv as <-. constructor; [discriminate|constructor].
  - injection Hv as <-. constructor; [discriminate|constructor].
  - match type of Hv with option_map _ ?x = _ => destruct x as [vs|] eqn:Ev; [|discriminate] end. injection Hv as <-.
    constructor; [discriminate|]. constructor. revert vs Ev. induction IH as [|j l Hj Hl IHl]; intros vs Ev.
    + injection Ev as <-. constructor.
    + destruct (iface_of F32 F64 C useNumber j) as [x|] eqn:Ex; [|discriminate].
      match type of Ev with match ?x with _ => _ end = _ => destruct x as [xs|] eqn:Exs; [|discriminate] end.
      injection Ev as <-. constructor; auto.
  - match type of Hv with option_map _ ?x = _ => destruct x as [vs|] eqn:Ev; [|discriminate] end. injection Hv as <-.
    constructor; [discriminate|]. constructor. revert Ev. assert (Forall (fun p => ok (snd p)) (@nil (key * gval))) as H0 by constructor.
    revert H0. generalize (@nil (key * gval)) as m0. induction IH as [|[k j] l Hj Hl IHl]; intros m0 H0 Ev.
    + injection Ev as <-. auto.
    + simpl in Hj. destruct (iface_of F32 F64 C useNumber j) as [x|] eqn:Ex; [|discriminate]. eapply IHl; [|exact Ev].
      clear - H0 Hj Ex. induction m0 as [|[k' v'] m0 IH]; simpl; [constructor; simpl; auto; constructor|].
      inversion H0; subst. destruct (key_eq_dec k' (KS k)); constructor; simpl; auto.
Qed.
Lemma ok_put m k v : Forall (fun p => ok (snd p)) m -> ok v -> Forall (fun p => ok (snd p)) (put F32 F64 C m k v).
Proof.
  intros H Hv. induction m as [|[k' v'] m IH]; simpl; [constructor; simpl; auto; constructor|].
  inversion H; subst. destruct (key_eq_dec k' k); constructor; simpl; auto.
Qed.
Lemma key_lax k t key : key_text C k t key -> nk -> (nk /\ t = bs "null") \/ exists b s, t = quote b /\ string_body b s.
Proof.
  intros H K. induction H as [x s Hx|s w x z Hx Hz| | | | |kd id mar x s y Hx Hy|]; auto; right.
  - eauto.
  - exists x, x. split; auto. apply plain_body, number_plain. eapply int_text_number; eauto.
  - eauto.
Qed.
Definition keyok (p : bytes * bytes) : Prop := (nk /\ fst p = bs "null") \/ exists b s, fst p = quote b /\ string_body b s.
Definition laxp (p : bytes * bytes) : Prop := lax nk sp (snd p).

Theorem decodes_lax :
  (forall T o old t v, decodes T o old t v -> S T -> (o_quoted o = true -> bool_type F32 F64 C E T -> sp) -> ok old -> lax nk sp t /\ ok v) /\
  (forall T ts vs, elems T ts vs -> S T -> Forall (lax nk sp) ts /\ Forall ok vs) /\
  (forall T a ts vs, overwrite T a ts vs -> S T -> Forall ok a -> Forall (lax nk sp) ts /\ Forall ok vs) /\
  (forall k T m ps m', entries k T m ps m' -> nk -> S T -> Forall (fun p => ok (snd p)) m ->
     Forall keyok ps /\ Forall laxp ps /\ Forall (fun p => ok (snd p)) m') /\
  (forall fs v ps v', members fs v ps v' ->
     Forall (fun fd => S (f_type fd) /\ (f_quoted fd = true -> bool_type F32 F64 C E (f_type fd) -> sp)) fs -> ok v ->
     Forall keyok ps /\ Forall laxp ps /\ ok v') /\
  (forall path T o v t v', at_path path T o v t v' -> S T -> (o_quoted o = true -> bool_type F32 F64 C E T -> sp) -> ok v ->
     lax nk sp t /\ ok v').
Proof.
  assert (V : forall t j, value t j -> lax nk sp t) by (intros; eapply lax_value; eauto).
  assert (Vn : forall t, number t -> lax nk sp t) by (intros; eapply V, v_num; eauto).
  assert (Vq : forall t, number t -> lax nk sp (quote t)) by (intros t Ht; destruct (quoted_number t Ht); eauto).
  assert (Vs : forall b s, string_body b s -> lax nk sp (quote b)) by (intros b s Hb; eapply V; apply v_str; eauto).
  assert (Nl : lax nk sp (bs "null")) by (eapply V; constructor).
  assert (Lt : forall w x, sp -> ws w -> In x [bs "true"; bs "false"; bs "null"] -> lax nk sp (quote (w ++ x))) by (intros; now apply lax_bool).
  apply decodes_mutind; intros.
  - auto.
  - split; auto. constructor.
  - split; auto. constructor.
  - split; auto. constructor.
  - split; auto. constructor.
  - split; [eapply V; constructor|constructor].
  - split; [eapply V; constructor|constructor].
  - split; [apply Lt; auto using bt_bool; simpl; auto|constructor].
  - split; [apply Lt; auto using bt_bool; simpl; auto|constructor].
  - split; [apply Lt; auto using bt_bool; simpl; auto|auto].
  - split; [apply Vn; eapply int_text_number; eauto|constructor].
  - split; [apply Vq; eapply int_text_number; eauto|constructor].
  - split; [auto|constructor].
  - split; [auto|constructor].
  - split; [eauto|constructor].
  - split; [eauto|constructor].
  - split; [eauto|auto].
  - split; [auto|constructor].
  - split; [auto|constructor].
  - split; [eauto|constructor].
  - split; [eauto|constructor].
  - split; [eauto|constructor].
  - (* ptr new *) destruct H1 as [H1a H1b]; auto; [exact (HS _ H2)|intros; apply H3; auto; now constructor|apply ok_zero|]. split; auto. now constructor.
  - (* ptr old *) inversion H4; subst. destruct H1 as [H1a H1b]; auto; [exact (HS _ H2)|intros; apply H3; auto; now constructor|]. split; auto. now constructor.
  - (* slice *) destruct H1 as [H1a H1b]; [exact (HS _ H2)|]. split; [eapply lax_array; eauto|now constructor].
  - (* bytes *) split; [eauto|]. constructor. apply Forall_forall. intros x Hx. apply in_map_iff in Hx. destruct Hx as (y & <- & _). constructor.
  - (* array *) inversion H4; subst. destruct H1 as [H1a H1b]; auto; [exact (HS _ H2)|]. split; [eapply lax_array; eauto|now constructor].
  - (* map *) destruct (HS _ H3) as [K1 K2]. destruct H2 as (H1a & H1b & H1c); auto.
    { destruct p; [now inversion H5|constructor]. }
    split; [eapply lax_object; eauto|now constructor].
  - (* struct *) destruct H1 as (H1a & H1b & H1c); auto; [exact (HS _ H2)|]. split; [eapply lax_object; eauto|auto].
  - (* eface *) split; [eauto|]. eapply ok_iface; eauto.
  - inversion H5 as [| | | | | | | | | | | | | | | |P0 v0 HP Hv]; subst. inversion Hv; subst. destruct H2 as [H2a H2b]; auto; [discriminate|].
    split; auto. constructor; auto. now constructor.
  - split; auto. constructor.
  - inversion H3 as [| | | | | | | | | | | | | | | |P0 v0 HP Hv]; subst. split; auto. constructor; [|repeat constructor].
    intros T2 [= <-]. auto.
  - inversion H5 as [| | | | | | | | | | | | | | | |P0 v0 HP Hv]; subst. inversion Hv; subst. destruct H2 as [H2a H2b]; auto; [discriminate|].
    split; auto. constructor; auto. now constructor.
  - apply H0; auto; [exact (HS _ H1)|]. intros. apply H2; auto. now constructor.
  - auto.
  - destruct H0 as [? ?]; auto using ok_zero; [discriminate|]. destruct H2; auto.
  - split; [|constructor]. revert H. apply Forall_impl. intros t (j & Hj). eauto.
  - inversion H4; subst. destruct H0 as [? ?]; auto; [discriminate|]. destruct H2; auto.
  - split; [constructor|]. apply Forall_forall. intros x Hx. apply repeat_spec in Hx. subst. apply ok_zero.
  - auto.
  - destruct H1 as [H1a H1b]; auto using ok_zero; [discriminate|]. destruct H3 as (A1 & A2 & A3); auto using ok_put.
    split; [|split; auto]; constructor; auto. unfold keyok; simpl. eapply key_lax; eauto.
  - auto.
  - assert (Hfd : S (f_type fd) /\ (f_quoted fd = true -> bool_type F32 F64 C E (f_type fd) -> sp)).
    { eapply (proj1 (Forall_forall _ _) H6). eapply nth_error_In; eauto. }
    destruct Hfd. destruct H3 as [H3a H3b]; auto. destruct H5 as (A1 & A2 & A3); auto.
    split; [|split; auto]; constructor; auto. right. simpl. eauto.
  - destruct H4 as (A1 & A2 & A3); auto. split; [|split; auto]; constructor; auto; [right; simpl; eauto|]. unfold laxp; simpl. eauto.
  - auto.
  - inversion H3; subst. assert (Hl : Forall ok (l1 ++ x :: l2)) by auto. apply Forall_app in Hl. destruct Hl as [Hl1 Hl2]. inversion Hl2; subst.
    destruct H0; auto. split; auto. constructor. apply Forall_app. auto.
  - inversion H3; subst. destruct H0; auto. split; auto. now constructor.
  - destruct H0; auto using ok_zero. split; auto. now constructor.
Qed.
End Strict.
