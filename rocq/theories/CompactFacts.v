(** Facts about compact texts. *)
From Coq Require Import String ZArith List Bool Lia.
From Verif Require Import Base ModelInt ModelFloat ModelOps ModelStream ModelVal ModelEnc SpecStream SpecBase64 StreamIntFacts StreamFacts StreamTree SpecVal SpecEnc EncFacts EncRound
  Spec SpecSpell SpellFacts SpecCompact.
Import ListNotations.
Local Open Scope Z_scope.

(** ** Pieces of texts *)
Lemma sq_ws w r : ws w -> squeeze outside (w ++ r) = squeeze outside r.
Proof.
  intros H. induction H as [|c w Hc H IH]; [reflexivity|]. cbn [app squeeze].
  destruct (c =? 34) eqn:E; [unfold is_ws in Hc; lia|].
  assert (X : (c =? 32) || (c =? 9) || (c =? 10) || (c =? 13) = true) by (unfold is_ws in Hc; lia). now rewrite X.
Qed.
Lemma sq_other c r : ~ is_ws c -> c <> 34 -> squeeze outside (c :: r) = c :: squeeze outside r.
Proof.
  intros H N. cbn [squeeze]. destruct (c =? 34) eqn:E; [lia|].
  assert (X : (c =? 32) || (c =? 9) || (c =? 10) || (c =? 13) = false) by (unfold is_ws in H; lia). now rewrite X.
Qed.
Lemma sq_others l r : Forall (fun c => ~ is_ws c /\ c <> 34) l -> squeeze outside (l ++ r) = l ++ squeeze outside r.
Proof. intros H. induction H as [|c l [Hc Hq] H IH]; [reflexivity|]. cbn [app]. rewrite sq_other by auto. now rewrite IH. Qed.
Lemma sq_inside c r : c <> 34 -> c <> 92 -> squeeze inside (c :: r) = c :: squeeze inside r.
Proof. intros H N. cbn [squeeze]. destruct (c =? 34) eqn:E; [lia|]. destruct (c =? 92) eqn:E2; [lia|]. reflexivity. Qed.
Lemma sq_esc e r : squeeze inside (92 :: e :: r) = 92 :: e :: squeeze inside r.
Proof. reflexivity. Qed.
Lemma sq_body b s r : string_body b s -> squeeze inside (b ++ 34 :: r) = b ++ 34 :: squeeze outside r.
Proof.
  intros (us & H & _). induction H as [|c l us Hc N1 N2 H IH|e v l us He H IH|h u l us Hh H IH].
  - reflexivity.
  - cbn [app]. now rewrite sq_inside, IH by auto.
  - cbn [app]. now rewrite sq_esc, IH.
  - destruct Hh as [a b c d va vb vc vd Ha Hb Hc Hd]. cbn [app].
    rewrite sq_esc.
    assert (X : forall x y, hex x y -> x <> 34 /\ x <> 92) by (intros x y K; inversion K; lia).
    destruct (X _ _ Ha), (X _ _ Hb), (X _ _ Hc), (X _ _ Hd).
    rewrite !sq_inside by auto. now rewrite IH.
Qed.
Lemma sq_quote b s r : string_body b s -> squeeze outside (34 :: b ++ 34 :: r) = 34 :: b ++ 34 :: squeeze outside r.
Proof. intros H. cbn [squeeze Z.eqb Pos.eqb]. f_equal. now apply sq_body with s. Qed.
Lemma number_tight t : number t -> Forall (fun c => ~ is_ws c /\ c <> 34) t.
Proof. intros H. eapply Forall_impl; [|exact (number_chars t H)]. unfold numchar, is_ws. intros c K. lia. Qed.
Lemma sq_number t r : number t -> squeeze outside (t ++ r) = t ++ squeeze outside r.
Proof. intros H. now apply sq_others, number_tight. Qed.
Lemma sq_char c r : In c [91; 93; 123; 125; 44; 58] -> squeeze outside (c :: r) = c :: squeeze outside r.
Proof. intros H. apply sq_other; unfold is_ws; cbn in H; lia. Qed.

(** ** Squeezing a value: what follows is squeezed on its own, and the result differs in white space only *)
Definition tame (t : bytes) : Prop := forall r, squeeze outside (t ++ r) = squeeze outside t ++ squeeze outside r.
Ltac chars := repeat (rewrite sq_char by (cbn; tauto)).
Lemma tame_id t : (forall r, squeeze outside (t ++ r) = t ++ squeeze outside r) -> tame t /\ squeeze outside t = t.
Proof.
  intros H. assert (E : squeeze outside t = t) by (rewrite <- (app_nil_r t) at 1; rewrite H; cbn; apply app_nil_r). split; [|exact E].
  intros r. now rewrite H, E.
Qed.
Lemma tame_word t : Forall (fun c => ~ is_ws c /\ c <> 34) t -> tame t /\ squeeze outside t = t.
Proof. intros H. apply tame_id. intros r. now apply sq_others. Qed.
Lemma tame_quote b s : string_body b s -> tame (34 :: b ++ [34]) /\ squeeze outside (34 :: b ++ [34]) = 34 :: b ++ [34].
Proof. intros H. apply tame_id. intros r. cbn [app]. rewrite <- app_assoc. cbn [app]. rewrite (sq_quote b s) by exact H. now rewrite <- app_assoc. Qed.
Lemma tame_ws w : ws w -> tame w.
Proof. intros H r. rewrite sq_ws by auto. replace (squeeze outside w) with (@nil Z); [reflexivity|]. symmetry. rewrite <- (app_nil_r w). rewrite sq_ws by auto. reflexivity. Qed.
Lemma ws_gone w : ws w -> squeeze outside w = [].
Proof. intros H. rewrite <- (app_nil_r w). now rewrite sq_ws. Qed.
Lemma tame_app t u : tame t -> tame u -> tame (t ++ u).
Proof. intros H K r. rewrite <- app_assoc, H, K, app_assoc. now rewrite <- H. Qed.
Lemma tame_char c t : In c [91; 93; 123; 125; 44; 58] -> tame t -> tame (c :: t).
Proof. intros H K r. cbn [app]. rewrite !sq_char by auto. now rewrite K. Qed.
Lemma tame_one c : In c [91; 93; 123; 125; 44; 58] -> tame [c].
Proof. intros H. apply tame_char; auto. now intros r. Qed.
Lemma tame_key b s r : string_body b s -> tame r -> tame (34 :: b ++ 34 :: r).
Proof.
  intros H K. replace (34 :: b ++ 34 :: r) with ((34 :: b ++ [34]) ++ r) by (cbn; now rewrite <- app_assoc).
  apply tame_app; [apply (tame_quote b s H)|exact K].
Qed.

Theorem squeeze_value :
  (forall t j, value t j -> tame t /\ alike false t (squeeze outside t)) /\
  (forall t js, elements t js -> tame t /\ alike_elements false t (squeeze outside t)) /\
  (forall t ms, Spec.members t ms -> tame t /\ alike_members false t (squeeze outside t)).
Proof.
  assert (N : ws []) by constructor.
  apply value_mutind.
  - split; [apply tame_word, Forall_forall; intros c K; cbn in K; unfold is_ws; lia|constructor].
  - split; [apply tame_word, Forall_forall; intros c K; cbn in K; unfold is_ws; lia|constructor].
  - split; [apply tame_word, Forall_forall; intros c K; cbn in K; unfold is_ws; lia|constructor].
  - intros t H. destruct (tame_word t (number_tight t H)) as [T ->]. split; [exact T|now constructor].
  - intros b s H. destruct (tame_quote b s H) as [T ->]. split; [exact T|]. apply ak_str. exists s. auto.
  - intros w Hw. split.
    + apply tame_char; [cbn; tauto|]. apply tame_app; [now apply tame_ws|apply tame_one; cbn; tauto].
    + chars. rewrite sq_ws by auto. chars. now apply (ak_arr0 false w []).
  - intros t js _ [T A]. split.
    + apply tame_char; [cbn; tauto|]. apply tame_app; [auto|apply tame_one; cbn; tauto].
    + chars. rewrite T. chars. now apply ak_arr.
  - intros w Hw. split.
    + apply tame_char; [cbn; tauto|]. apply tame_app; [now apply tame_ws|apply tame_one; cbn; tauto].
    + chars. rewrite sq_ws by auto. chars. now apply (ak_obj0 false w []).
  - intros t js _ [T A]. split.
    + apply tame_char; [cbn; tauto|]. apply tame_app; [auto|apply tame_one; cbn; tauto].
    + chars. rewrite T. chars. now apply ak_obj.
  - intros w1 t v w2 H1 _ [T A] H2. split; [apply tame_app; [now apply tame_ws|apply tame_app; [auto|now apply tame_ws]]|].
    rewrite sq_ws, T, (ws_gone w2) by auto. now apply (ae_one false w1 t w2 [] (squeeze outside t) []).
  - intros w1 t v w2 r vs H1 _ [T A] H2 _ [Tr Ar].
    split; [apply tame_app; [now apply tame_ws|apply tame_app; [auto|apply tame_app; [now apply tame_ws|apply tame_char; [cbn; tauto|auto]]]]|].
    rewrite sq_ws, T, sq_ws by auto. chars. now apply (ae_cons false w1 t w2 r [] (squeeze outside t) []).
  - intros w1 b k w2 w3 t v w4 H1 Hb H2 H3 _ [T A] H4.
    split; [apply tame_app; [now apply tame_ws|apply tame_key with k; auto; apply tame_app; [now apply tame_ws|
      apply tame_char; [cbn; tauto|apply tame_app; [now apply tame_ws|apply tame_app; [auto|now apply tame_ws]]]]]|].
    rewrite sq_ws, (sq_quote b k), sq_ws by auto. chars. rewrite sq_ws, T, (ws_gone w4) by auto.
    apply (am_one false w1 b w2 w3 t w4 [] b [] [] (squeeze outside t) []); auto. exists k. auto.
  - intros w1 b k w2 w3 t v w4 r ms H1 Hb H2 H3 _ [T A] H4 _ [Tr Ar].
    split; [apply tame_app; [now apply tame_ws|apply tame_key with k; auto; apply tame_app; [now apply tame_ws|
      apply tame_char; [cbn; tauto|apply tame_app; [now apply tame_ws|apply tame_app; [auto|apply tame_app; [now apply tame_ws|apply tame_char; [cbn; tauto|auto]]]]]]]|].
    rewrite sq_ws, (sq_quote b k), sq_ws by auto. chars. rewrite sq_ws, T, sq_ws by auto. chars.
    apply (am_cons false w1 b w2 w3 t w4 r [] b [] [] (squeeze outside t) []); auto. exists k. auto.
Qed.

(** texts that differ in white space only are the same when squeezed *)
Lemma alike_tame : forall t t', alike false t t' -> tame t.
Proof. intros t t' H. destruct (proj1 (alike_value false) _ _ H) as (j & V & _). apply (proj1 squeeze_value t j V). Qed.
Lemma same_text b b' : same_string false b b' -> b' = b /\ exists s, string_body b s.
Proof. intros (s & H & _ & E). rewrite <- E by reflexivity. eauto. Qed.
Theorem alike_squeeze :
  (forall t t', alike false t t' -> squeeze outside t = squeeze outside t') /\
  (forall t t', alike_elements false t t' -> squeeze outside t = squeeze outside t') /\
  (forall t t', alike_members false t t' -> squeeze outside t = squeeze outside t').
Proof.
  assert (El : forall t t', alike_elements false t t' -> tame t /\ tame t').
  { intros t t' H. destruct (proj1 (proj2 (alike_value false)) _ _ H) as (js & V & V'). split; [apply (proj1 (proj2 squeeze_value) _ _ V)|apply (proj1 (proj2 squeeze_value) _ _ V')]. }
  assert (Me : forall t t', alike_members false t t' -> tame t /\ tame t').
  { intros t t' H. destruct (proj2 (proj2 (alike_value false)) _ _ H) as (js & V & V'). split; [apply (proj2 (proj2 squeeze_value) _ _ V)|apply (proj2 (proj2 squeeze_value) _ _ V')]. }
  assert (Va : forall t t', alike false t t' -> tame t /\ tame t').
  { intros t t' H. destruct (proj1 (alike_value false) _ _ H) as (js & V & V'). split; [apply (proj1 squeeze_value _ _ V)|apply (proj1 squeeze_value _ _ V')]. }
  apply alike_mutind; auto.
  - intros b b' H. destruct (same_text _ _ H) as [-> _]. reflexivity.
  - intros w w' H H'. chars. now rewrite !sq_ws by auto.
  - intros t t' A IH. destruct (El _ _ A) as [T T']. chars. now rewrite T, T', IH.
  - intros w w' H H'. chars. now rewrite !sq_ws by auto.
  - intros t t' A IH. destruct (Me _ _ A) as [T T']. chars. now rewrite T, T', IH.
  - intros w1 t w2 w1' t' w2' H1 H2 H1' H2' A IH. destruct (Va _ _ A) as [T T']. rewrite (sq_ws w1), (sq_ws w1'), T, T', (ws_gone w2), (ws_gone w2') by auto. now rewrite IH.
  - intros w1 t w2 r w1' t' w2' r' H1 H2 H1' H2' A IH Ar IHr. destruct (Va _ _ A) as [T T']. rewrite (sq_ws w1), (sq_ws w1'), T, T', (sq_ws w2), (sq_ws w2') by auto. chars. now rewrite IH, IHr.
  - intros w1 b w2 w3 t w4 w1' b' w2' w3' t' w4' H1 H2 H3 H4 H1' H2' H3' H4' Sb A IH. destruct (Va _ _ A) as [T T'].
    destruct (same_text _ _ Sb) as [-> (s & B)]. rewrite (sq_ws w1), (sq_ws w1'), !(sq_quote b s), (sq_ws w2), (sq_ws w2') by auto. chars. rewrite (sq_ws w3), (sq_ws w3'), T, T', (ws_gone w4), (ws_gone w4') by auto. now rewrite IH.
  - intros w1 b w2 w3 t w4 r w1' b' w2' w3' t' w4' r' H1 H2 H3 H4 H1' H2' H3' H4' Sb A IH Ar IHr. destruct (Va _ _ A) as [T T'].
    destruct (same_text _ _ Sb) as [-> (s & B)]. rewrite (sq_ws w1), (sq_ws w1'), !(sq_quote b s), (sq_ws w2), (sq_ws w2') by auto. chars. rewrite (sq_ws w3), (sq_ws w3'), T, T', (sq_ws w4), (sq_ws w4') by auto. chars. now rewrite IH, IHr.
Qed.
Lemma squeeze_length p l : (length (squeeze p l) <= length l)%nat.
Proof.
  revert p. induction l as [|c l IH]; intros p; [reflexivity|]. cbn [squeeze].
  destruct p; [destruct (c =? 34); [|destruct (_ || _)]| |]; cbn [length]; try lia;
    match goal with |- context [squeeze ?q l] => specialize (IH q); lia end.
Qed.

(** ** What the encoder writes *)
Lemma commas_cons t u ts : commas (t :: u :: ts) = t ++ 44 :: commas (u :: ts).
Proof. reflexivity. Qed.
Definition tight (t : bytes) : Prop := tame t /\ compact t.
Lemma tight_commas ts : Forall tight ts -> tight (commas ts).
Proof.
  induction ts as [|t ts IH]; intros F; [split; [now intros r|reflexivity]|]. inversion F as [|? ? [T C] F']; subst.
  destruct ts as [|u ts]; [now split|]. destruct (IH F') as [Tr Cr]. rewrite commas_cons. split.
  - apply tame_app; [exact T|]. apply tame_char; [cbn; tauto|exact Tr].
  - unfold compact. rewrite T, C. chars. now rewrite Cr.
Qed.
Lemma tight_array ts : Forall tight ts -> tight (array_of ts).
Proof.
  intros F. destruct (tight_commas ts F) as [T C]. unfold array_of. split.
  - apply tame_char; [cbn; tauto|]. apply tame_app; [exact T|apply tame_one; cbn; tauto].
  - unfold compact. chars. rewrite T, C. now chars.
Qed.
Definition tight_pair (p : bytes * bytes) : Prop := tight (fst p) /\ tight (snd p).
Lemma tight_object ps : Forall tight_pair ps -> tight (object_of ps).
Proof.
  intros F. assert (X : Forall tight (map (fun p => fst p ++ 58 :: snd p) ps)).
  { apply Forall_map. eapply Forall_impl; [|exact F]. intros [k t] [[Tk Ck] [T C]]. cbn [fst snd] in *. split.
    - apply tame_app; [exact Tk|]. apply tame_char; [cbn; tauto|exact T].
    - unfold compact. rewrite Tk, Ck. chars. now rewrite C. }
  destruct (tight_commas _ X) as [T C]. unfold object_of. split.
  - apply tame_char; [cbn; tauto|]. apply tame_app; [exact T|apply tame_one; cbn; tauto].
  - unfold compact. chars. rewrite T, C. now chars.
Qed.
Lemma tight_quote b s : string_body b s -> tight (quote b).
Proof. apply tame_quote. Qed.
Lemma tight_number t : number t -> tight t.
Proof. intros H. now apply tame_word, number_tight. Qed.
Lemma tight_word (t : bytes) : forallb (fun c => (97 <=? c) && (c <=? 122) || (c =? 48)) t = true -> tight t.
Proof.
  intros H. apply tame_word, Forall_forall. intros c K. rewrite forallb_forall in H. specialize (H c K). unfold is_ws. lia.
Qed.
Lemma tight_value t j : value t j -> compact t -> tight t.
Proof. intros V C. split; [apply (proj1 squeeze_value t j V)|exact C]. Qed.

Section Enc.
Variables F32 F64 : floatOps.
Variable C : custom.
Notation gval := (gval F32 F64 C).
Variable E : env F32 F64 C.
Variable U : marshalers F32 F64 C.
Variables G32 G64 : floatFmt.
Variable e32 : fl F32 -> ff G32.
Variable e64 : fl F64 -> ff G64.
Variable quirks : Prop.
Notation inserted := (inserted U).

Lemma inserted_leads path v x t : leads F32 F64 C path v x -> inserted x t -> inserted v t.
Proof.
  intros H. induction H as [v|a path v x H IH|i path l v x Hn H IH]; intros K; auto.
  - now apply is_ptr, IH.
  - apply is_struct with v; [now apply nth_error_In with i|now apply IH].
Qed.
Definition tidy (v : gval) : Prop := forall u, inserted v u -> compact u.
Lemma tight_key k key q : encodes_key F32 F64 C U k key q -> tight q.
Proof. intros H. destruct H; try (eapply tight_quote; eassumption); eapply tight_quote, numeral_plain; eassumption. Qed.
Theorem encodes_tight :
  (forall a T q v t, encodes F32 F64 C E U G32 G64 e32 e64 quirks a T q v t -> tidy v -> tight t) /\
  (forall T l ts, encodes_list F32 F64 C E U G32 G64 e32 e64 quirks T l ts -> (forall v, In v l -> tidy v) -> Forall tight ts) /\
  (forall k T m ps, encodes_map F32 F64 C E U G32 G64 e32 e64 quirks k T m ps -> (forall k v, In (k, v) m -> tidy v) -> Forall tight_pair ps) /\
  (forall fs v ps, encodes_fields F32 F64 C E U G32 G64 e32 e64 quirks fs v ps -> tidy v -> Forall tight_pair ps).
Proof.
  apply encodes_mutind; intros; try (apply tight_word; reflexivity); try (eapply tight_quote; eassumption); try (apply tight_number; assumption);
    try (now auto).
  - eapply tight_number, numeral_number; eassumption.
  - eapply tight_quote, numeral_plain; eassumption.
  - apply tight_number. match goal with K : float_text _ _ _ |- _ => apply K end.
  - apply tight_number. match goal with K : float_text _ _ _ |- _ => apply K end.
  - eapply tight_value; [eassumption|]. match goal with K : tidy _ |- _ => apply K end. constructor.
  - eapply tight_value; [eassumption|]. match goal with K : tidy _ |- _ => apply K end. eapply is_json; eassumption.
  - match goal with K : tidy _ -> tight _ |- _ => apply K end. intros u Hu. match goal with K : tidy (VObj _) |- _ => apply K end. eapply is_repr; exact Hu.
  - match goal with K : tidy _ -> tight _ |- _ => apply K end. intros u Hu. match goal with K : tidy (VPtr _) |- _ => apply K end. now apply is_ptr.
  - subst. apply tight_array. match goal with K : _ -> Forall tight _ |- _ => apply K end. intros x Hx u Hu. match goal with K : tidy _ |- _ => apply K end. eapply is_array; eassumption.
  - subst. apply tight_array. match goal with K : _ -> Forall tight _ |- _ => apply K end. intros x Hx u Hu. match goal with K : tidy _ |- _ => apply K end. eapply is_slice; eassumption.
  - eapply tight_quote, base64_plain; eassumption.
  - subst. apply tight_object. match goal with K : _ -> Forall tight_pair _ |- _ => apply K end. intros k0 x Hx u Hu. match goal with K : tidy _ |- _ => apply K end. eapply is_map; eassumption.
  - subst. apply tight_object. auto.
  - match goal with K : tidy _ -> tight _ |- _ => apply K end. intros u Hu. match goal with K : tidy (VIface _) |- _ => apply K end. now apply is_iface.
  - match goal with K : tidy _ -> tight _ |- _ => apply K end. intros u Hu. match goal with K : tidy (VPtr _) |- _ => apply K end. now apply is_ptr.
  - eapply tight_value; [eassumption|]. match goal with K : tidy _ |- _ => apply K end. apply is_iface.
    match goal with K : method _ _ _ _ _ _ _ _ _ |- _ => inversion K; subst end; [|apply is_ptr]; eapply is_json; eassumption.
  - constructor; [|match goal with K : _ -> Forall tight _ |- _ => apply K end; intros; match goal with K : forall v, _ -> tidy v |- _ => apply K end; now right].
    match goal with K : tidy _ -> tight _ |- _ => apply K end. match goal with K : forall v, _ -> tidy v |- _ => apply K end. now left.
  - constructor; [|match goal with K : _ -> Forall tight_pair _ |- _ => apply K end; intros; match goal with K : forall k v, _ -> tidy v |- _ => eapply K end; now right; eassumption].
    split; [eapply tight_key; eassumption|].
    match goal with K : tidy _ -> tight _ |- _ => apply K end. match goal with K : forall k v, _ -> tidy v |- _ => eapply K end. now left.
  - constructor; [|now auto]. split; [eapply tight_quote; eassumption|]. match goal with K : tidy _ -> tight _ |- _ => apply K end.
    intros u Hu. match goal with K : tidy _ |- _ => apply K end. eapply inserted_leads; eassumption.
Qed.
End Enc.

(** ** What the calls of a streamer write *)
Section Calls.
Context {F32 F64 : floatFmt}.
Variables (S32 : fmt_sane F32) (S64 : fmt_sane F64).
Notation scall := (scall F32 F64).
Notation tree := (@tree F32 F64).
Definition writes_tight (h : bool) (T : tree) : Prop :=
  exists t, tight t /\ forall p, effects (tree_calls T) None p h (comma p ++ t) None true h.
Lemma tight_list h l : Forall (writes_tight h) l -> exists ts, Forall tight ts /\
    forall p, effects (flat_map tree_calls l) None p h (sepText p ts) None (p || negb (match l with [] => true | _ => false end)) h.
Proof.
  intros H. induction H as [|T l (t & V & E) H (ts & VL & EL)].
  - exists []. split; [constructor|]. intros p. rewrite orb_false_r. apply effects_nil.
  - exists (t :: ts). split; [now constructor|]. intros p. cbn [flat_map sepText negb]. rewrite orb_true_r.
    rewrite app_assoc. eapply effects_app; [apply E|apply (EL true)].
Qed.
Lemma tight_members h (l : list (fname * tree)) :
  Forall (fun m => writes_tight h (snd m) /\ match fst m with FName s => is_bytes s | FRaw b => exists k s, b = 34 :: k ++ [34] /\ string_body k s end) l ->
  exists ts, Forall tight ts /\
    forall p, effects (flat_map (fun m => match fst m with FName s => SField s | FRaw b => SRawField b end :: tree_calls (snd m)) l)
      None p h (sepText p ts) None (p || negb (match l with [] => true | _ => false end)) h.
Proof.
  intros H. induction H as [|[k T] l [(t & V & E) K] H (ts & VL & EL)]; cbn [fst snd] in *.
  - exists []. split; [constructor|]. intros p. rewrite orb_false_r. apply effects_nil.
  - assert (X : exists b s', string_body b s' /\
      forall p, effect (F32 := F32) (F64 := F64) (match k with FName s => SField s | FRaw b => SRawField b end) None p h (comma p ++ 34 :: b ++ [34; 58]) None false h).
    { destruct k as [s|b].
      - destruct (encodeString_eff s h K) as (body & EE & us & I & _ & Z). exists body, (denote us).
        split; [now exists us|]. intros p. now apply eff_field.
      - destruct K as (k & s' & -> & B). exists k, s'. split; auto.
        intros p. replace (34 :: k ++ [34; 58]) with ((34 :: k ++ [34]) ++ [58]) by (simpl; now rewrite <- app_assoc). apply eff_rawField. }
    destruct X as (b & s' & B & EF).
    exists ((34 :: b ++ 34 :: 58 :: t) :: ts). split.
    + constructor; auto. destruct V as [V Ct]. split; [apply tame_key with s'; auto; apply tame_char; [cbn; tauto|exact V]|].
      unfold compact. rewrite (sq_quote b s') by exact B. chars. now rewrite Ct.
    + intros p. cbn [flat_map sepText negb fst snd]. rewrite orb_true_r.
      replace (comma p ++ (34 :: b ++ 34 :: 58 :: t) ++ sepText true ts) with ((comma p ++ 34 :: b ++ [34; 58]) ++ (comma false ++ t) ++ sepText true ts).
      * change ((match k with FName s => SField s | FRaw b0 => SRawField b0 end :: tree_calls T) ++ ?x) with
          (match k with FName s => SField s | FRaw b0 => SRawField b0 end :: (tree_calls T ++ x)).
        eapply effects_cons; [apply EF|]. eapply effects_app; [apply E|apply (EL true)].
      * simpl. rewrite <- !app_assoc. simpl. now rewrite <- !app_assoc.
Qed.
Theorem tree_tight h T : printable T -> tidy_tree T -> writes_tight h T.
Proof using S32 S64.
  revert T. apply (tree_induction (fun T => printable T -> tidy_tree T -> writes_tight h T)); simpl printable.
  - exists (bs "null"). split; [apply tight_word; reflexivity|]. intros p. apply effects_one, eff_null.
  - intros b _ _. exists (bs (if b then "true" else "false")). split; [destruct b; apply tight_word; reflexivity|].
    intros p. apply effects_one, eff_bool.
  - intros w v R _. destruct (appendInt_numeral w v R) as (t & N & E). exists t.
    split; [eapply tight_number, numeral_number; eassumption|]. intros p. now apply effects_one, eff_int.
  - intros w v R _. destruct (appendUint_numeral w v R) as (t & N & E). exists t.
    split; [eapply tight_number, numeral_number; eassumption|]. intros p. now apply effects_one, eff_uint.
  - intros w v R _. destruct (appendInt_numeral w v R) as (t & N & E). exists (34 :: t ++ [34]).
    split; [eapply tight_quote, numeral_plain; eassumption|]. intros p. now apply effects_one, eff_qint.
  - intros w v R _. destruct (appendUint_numeral w v R) as (t & N & E). exists (34 :: t ++ [34]).
    split; [eapply tight_quote, numeral_plain; eassumption|]. intros p. now apply effects_one, eff_quint.
  - intros f [Hi Hn] _. destruct (appendFloat_ok F32 S32 f Hi Hn) as (t & N & E). exists t.
    split; [apply tight_number, N|]. intros p. now apply effects_one, eff_float32.
  - intros f [Hi Hn] _. destruct (appendFloat_ok F64 S64 f Hi Hn) as (t & N & E). exists t.
    split; [apply tight_number, N|]. intros p. now apply effects_one, eff_float64.
  - intros t (j & V) Ct. exists t. split; [now apply tight_value with j|]. intros p. apply effects_one, eff_raw.
  - intros s B _. destruct (encodeString_eff s h B) as (body & E & us & I & _ & Z).
    exists (34 :: body ++ [34]). split; [apply tight_quote with (denote us); now exists us|].
    intros p. now apply effects_one, eff_string.
  - intros l IH Pl Tl.
    assert (W : Forall (writes_tight h) l).
    { induction IH as [|T l HT IH IHl]; constructor; simpl in Pl, Tl; destruct Pl, Tl; auto. }
    destruct (tight_list h l W) as (ts & VL & E).
    exists (91 :: sepText false ts ++ [93]). split; [rewrite sep_array_of; now apply tight_array|].
    intros p. cbn [tree_calls]. change (91 :: sepText false ts ++ [93]) with ([91] ++ sepText false ts ++ [93]). rewrite app_assoc.
    eapply effects_cons; [apply eff_arrayStart|]. eapply effects_app; [apply E|]. apply effects_one, eff_arrayEnd.
  - intros l IH Pl Tl.
    assert (W : Forall (fun m => writes_tight h (snd m) /\ match fst m with FName s => is_bytes s | FRaw b => exists k s, b = 34 :: k ++ [34] /\ string_body k s end) l).
    { induction IH as [|T l HT IH IHl]; constructor; simpl in Pl, Tl; destruct Pl as [[? ?] ?], Tl; auto. }
    destruct (tight_members h l W) as (ts & VL & E).
    exists (123 :: sepText false ts ++ [125]). split.
    { rewrite sep_commas. destruct (tight_commas ts VL) as [T C]. split.
      - apply tame_char; [cbn; tauto|]. apply tame_app; [exact T|apply tame_one; cbn; tauto].
      - unfold compact. chars. rewrite T, C. now chars. }
    intros p. cbn [tree_calls]. change (123 :: sepText false ts ++ [125]) with ([123] ++ sepText false ts ++ [125]). rewrite app_assoc.
    eapply effects_cons; [apply eff_objectStart|]. eapply effects_app; [apply E|]. apply effects_one, eff_objectEnd.
Qed.
End Calls.

(** ** Shortest texts *)
Lemma squeeze_same p l : length (squeeze p l) = length l -> squeeze p l = l.
Proof.
  revert p. induction l as [|c l IH]; intros p; [reflexivity|]. cbn [squeeze].
  destruct p; [destruct (c =? 34); [|destruct (_ || _)]| |]; intros H; try (f_equal; apply IH; cbn [length] in H; lia).
  cbn [length] in H. pose proof (squeeze_length outside l). lia.
Qed.
Lemma squeeze_text l j : json_text l j -> alike_texts false l (squeeze outside l).
Proof.
  intros (w & t & w2 & -> & Hw & V & Hw2). destruct (proj1 squeeze_value t j V) as [T A].
  exists w, t, w2, [], (squeeze outside t), []. rewrite sq_ws, T, (ws_gone w2) by auto. repeat split; auto; constructor.
Qed.
Lemma texts_squeeze l l' : alike_texts false l l' -> squeeze outside l = squeeze outside l'.
Proof.
  intros (w & t & w2 & w' & t' & w2' & -> & -> & Hw & Hw2 & Hw' & Hw2' & A). destruct (proj1 (alike_value false) _ _ A) as (j & V & V').
  rewrite (sq_ws w), (sq_ws w'), (proj1 (proj1 squeeze_value t j V)), (proj1 (proj1 squeeze_value t' j V')), (ws_gone w2), (ws_gone w2') by auto.
  now rewrite (proj1 alike_squeeze _ _ A).
Qed.
