(** Properties C17-C23 and C40: writing.  Each theorem is followed by an example that meets its
    hypotheses. *)
From Coq Require Import String ZArith List Bool Lia Arith.
From Verif Require Import Base ModelIter ModelStack ModelSkip ModelStr ModelInt ModelFloat ModelRead ModelIterate ModelOps Spec SpecRead SpecStream Sim SimOps FloatFacts
  IntFacts IterateFacts IterFacts ModelStream StreamIntFacts StreamStrFacts StreamFacts StreamTree Properties1.
Import ListNotations.
Local Open Scope Z_scope.

(** A float type for the examples, with one value printed with an exponent, an infinity and
    a NaN.  It shows that the hypotheses on AppendFloat can be met. *)
Definition demoF : floatFmt := mkFloatFmt Z (fun f => f =? 3) (fun f => f =? 4) (fun f => f =? 0) (fun f => 0 <? f)
  (fun f => f =? 2) (fun f => f =? 5) (fun f => f =? -2) (fun f => f =? -5)
  (fun f fmt => (if f <? 0 then bs "-" else []) ++
     if fmt =? 101 then (if Z.abs f =? 2 then bs "1.5e-07" else if Z.abs f =? 5 then bs "1e+21" else bs "2.5e-12")
     else (if f =? 0 then bs "0" else bs "120.25")).
Lemma demoF_sane : fmt_sane demoF.
Proof.
  assert (D : forall l, forallb (fun c => (48 <=? c) && (c <=? 57)) l = true -> digits l) by apply digits_b.
  constructor; intros f _ _; simpl.
  - destruct (f =? 0) eqn:E0; [replace (f <? 0) with false by lia; apply (ft_pos [48] []); constructor|].
    destruct (f <? 0); [apply (ft_neg [49; 50; 48] [46; 50; 53])|apply (ft_pos [49; 50; 48] [46; 50; 53])];
      (apply ip_pos; [lia|apply D; reflexivity]) || (apply fp_some; split; [discriminate|apply D; reflexivity]).
  - assert (M : (if f <? 0 then bs "-" else []) = [] \/ (if f <? 0 then bs "-" else []) = [45]) by (destruct (f <? 0); auto).
    destruct (Z.abs f =? 2); [|destruct (Z.abs f =? 5)].
    + apply (et _ 49 (bs ".5") 45 (bs "07")); auto; try (unfold is_digit; lia); try (apply D; reflexivity).
      apply fp_some; split; try discriminate; apply D; reflexivity.
    + apply (et _ 49 [] 43 (bs "21")); auto; try (unfold is_digit; lia); try (apply D; reflexivity). constructor.
    + apply (et _ 50 (bs ".5") 45 (bs "12")); auto; try (unfold is_digit; lia); try (apply D; reflexivity).
      apply fp_some; split; try discriminate; apply D; reflexivity.
Qed.
Lemma bytes_b l : forallb (fun c => (0 <=? c) && (c <? 256)) l = true -> is_bytes l.
Proof.
  intros H. apply Forall_forall. intros c Hc. apply (proj1 (forallb_forall _ _) H) in Hc. unfold is_byte. lia.
Qed.

Section Writing.
Context {G32 G64 : floatFmt}.
Variables (S32 : fmt_sane G32) (S64 : fmt_sane G64).
Notation scall := (scall G32 G64).

(** ** C17 *)
Theorem C17_string s st : is_bytes s -> sm_error st = None ->
  exists body v, call (F32 := G32) (F64 := G64) (SString s) st = Some (mkStm (sm_writer st)
      (sm_buffer st ++ comma (sm_poped st) ++ 34 :: body ++ [34]) None true (sm_html st)) /\
    string_body body v /\ utf8_text body /\
    (forall c, In c body -> 32 <= c) /\
    (sm_html st = true -> ~ In 60 body /\ ~ In 62 body /\ ~ In 38 body) /\
    ~ occurs (utf8 8232) body /\ ~ occurs (utf8 8233) body.
Proof.
  intros B E. destruct (encodeString_eff s (sm_html st) B) as (body & H & us & I & (rs & Eb & C) & Z).
  exists body, (denote us). split.
  - pose proof (eff_string (F32 := G32) (F64 := G64) s body (sm_poped st) (sm_html st) H (sm_writer st) (sm_buffer st)) as X.
    destruct st as [w b e p h]. simpl in *. subst e. exact X.
  - split; [now exists us|].
    assert (Cs : Forall scalar rs) by (eapply Forall_impl; [|exact C]; intros r; unfold clean; tauto).
    assert (Q : forall c, In c body -> 128 <= c \/ In c rs).
    { intros c Hc. rewrite Eb in Hc. apply in_flat_map in Hc. destruct Hc as (r & Hr & Hc).
      rewrite Forall_forall in Cs. specialize (Cs r Hr). destruct (Z.lt_ge_cases r 128).
      - rewrite utf8_ascii in Hc by (unfold scalar in Cs; lia). destruct Hc as [->|[]]. now right.
      - left. pose proof (utf8_high r Cs ltac:(lia)) as Hh. rewrite Forall_forall in Hh. now apply Hh. }
    rewrite Forall_forall in C.
    split; [|split; [|split; [|split]]].
    + rewrite Eb. clear - Cs. induction Cs; simpl; constructor; auto.
    + intros c Hc. destruct (Q c Hc) as [|Hr]; [lia|]. specialize (C c Hr). unfold clean in C. lia.
    + intros Hh. repeat split; intros Hc; destruct (Q _ Hc) as [|Hr]; try lia; specialize (C _ Hr); unfold clean in C; intuition.
    + rewrite Eb. intros Ho. apply occurs_point in Ho; auto; [|unfold scalar; lia]. specialize (C _ Ho). unfold clean in C; intuition.
    + rewrite Eb. intros Ho. apply occurs_point in Ho; auto; [|unfold scalar; lia]. specialize (C _ Ho). unfold clean in C; intuition.
Qed.

(** ** C18 *)
Theorem C18_roundtrip P32 P64 s html st it w r : is_bytes s -> sm_error st = None -> sm_html st = html ->
  exists out s', call (F32 := G32) (F64 := G64) (SString s) st = Some (mkStm (sm_writer st)
      (sm_buffer st ++ comma (sm_poped st) ++ out) None true html) /\
    sanitized s s' /\ (utf8_text s -> s' = s) /\
    (reachable P32 P64 it -> ~ dirty it -> stream it = w ++ out ++ r -> ws w -> yields ReadString it s' r).
Proof.
  intros B E Eh. subst html. destruct (encodeString_eff s (sm_html st) B) as (body & H & us & I & _ & Z).
  exists (34 :: body ++ [34]), (denote us). split.
  - pose proof (eff_string (F32 := G32) (F64 := G64) s body (sm_poped st) (sm_html st) H (sm_writer st) (sm_buffer st)) as X.
    destruct st as [w' b e p h]. simpl in *. subst e. exact X.
  - split; auto. split; [now apply sanitized_valid|]. intros R D Es Hw.
    apply C09_string with (F32 := P32) (F64 := P64); auto. exists w, body. split; [|split; auto; now exists us].
    rewrite Es. simpl. now rewrite <- app_assoc.
Qed.
(** the specification of the replacement determines the result *)
Theorem C18_unique s a b : sanitized s a -> sanitized s b -> a = b.
Proof. apply sanitized_fun. Qed.

(** ** C19 *)
Definition widthOf (w : iwidth) : width := match w with I8 => W8 | I16 => W16 | I32 => W32 | I64 => W64 end.
(** the text is followed by something that ends a number *)
Definition ended (r : bytes) (f : err) : Prop := match r with [] => f = EEOF | c :: _ => ~ is_digit c end.
Lemma int_part_token t r f : int_part t -> ended r f -> uint_token t r f.
Proof. intros [|d l Hd Hl] He; [now left|right; exists d, l; auto]. Qed.
Lemma short_dec t n : int_part t -> (1 <= n < length t)%nat -> 10 ^ Z.of_nat n <= dec t.
Proof.
  intros [|d l Hd Hl] Hn; simpl length in Hn.
  - lia.
  - change (d :: l) with ([d] ++ l). rewrite dec_app. change (dec [d]) with (10 * 0 + (d - 48)).
    assert (0 <= dec l).
    { clear - Hl. unfold dec. assert (K : forall a, 0 <= a -> 0 <= fold_left (fun a c => 10 * a + (c - 48)) l a); [|apply K; lia].
      induction Hl as [|c l Hc Hl IH]; intros a Ha; cbn [fold_left]; [lia|]. apply IH. unfold is_digit in Hc. lia. }
    assert (10 ^ Z.of_nat n <= 10 ^ Z.of_nat (length l)) by (apply Z.pow_le_mono_r; lia).
    assert (0 < 10 ^ Z.of_nat (length l)) by (apply Z.pow_pos_nonneg; lia). nia.
Qed.
Lemma short_dec_len t : int_part t -> dec t < 1000 -> (length t <= 3)%nat.
Proof.
  intros H D. destruct (le_lt_dec (length t) 3); auto. pose proof (short_dec t 3 H ltac:(lia)). change (10 ^ Z.of_nat 3) with 1000 in *. lia.
Qed.
Theorem C19_uint w v st : in_uint w v -> sm_error st = None ->
  exists t, numeral v t /\
  call (F32 := G32) (F64 := G64) (SUint w v) st = Some (mkStm (sm_writer st) (sm_buffer st ++ comma (sm_poped st) ++ t) None true (sm_html st)) /\
  forall P32 P64 it s r, reachable P32 P64 it -> ~ dirty it -> stream it = s ++ t ++ r -> ws s -> ended r (fin it) ->
    yields (readUintOp (widthOf w)) it v r.
Proof.
  intros R E. destruct (appendUint_numeral w v R) as (t & N & H). exists t. split; auto. split.
  - pose proof (eff_uint (F32 := G32) (F64 := G64) w v t (sm_poped st) (sm_html st) H (sm_writer st) (sm_buffer st)) as X.
    destruct st as [w' b e p h]. simpl in *. subst e. exact X.
  - intros P32 P64 it s r Rt D Es Hs He. unfold in_uint in R. unfold numeral in N. replace (v <? 0) with false in N by lia. destruct N as [Hi <-].
    assert (T : uint_token t r (fin it)) by now apply int_part_token.
    destruct w; simpl widthOf.
    + apply (C10_uint8_short P32 P64) with s; auto; [|simpl in R; lia]. apply short_dec_len; auto. simpl in R. lia.
    + apply (C10_uint P32 P64); auto; [discriminate|]. exists s, t. repeat split; auto; apply R.
    + apply (C10_uint P32 P64); auto; [discriminate|]. exists s, t. repeat split; auto; apply R.
    + apply (C10_uint P32 P64); auto; [discriminate|]. exists s, t. repeat split; auto; apply R.
Qed.
Theorem C19_int w v st : in_int w v -> sm_error st = None ->
  exists t, numeral v t /\
  call (F32 := G32) (F64 := G64) (SInt w v) st = Some (mkStm (sm_writer st) (sm_buffer st ++ comma (sm_poped st) ++ t) None true (sm_html st)) /\
  forall P32 P64 it s r, reachable P32 P64 it -> ~ dirty it -> stream it = s ++ t ++ r -> ws s -> ended r (fin it) ->
    yields (readIntOp (widthOf w)) it v r.
Proof.
  intros R E. destruct (appendInt_numeral w v R) as (t & N & H). exists t. split; auto. split.
  - pose proof (eff_int (F32 := G32) (F64 := G64) w v t (sm_poped st) (sm_html st) H (sm_writer st) (sm_buffer st)) as X.
    destruct st as [w' b e p h]. simpl in *. subst e. exact X.
  - intros P32 P64 it s r Rt D Es Hs He. unfold in_int in R.
    assert (T : exists u, (t = u /\ v = dec u \/ t = 45 :: u /\ v = - dec u) /\ uint_token u r (fin it) /\ int_part u).
    { unfold numeral in N. destruct (v <? 0).
      - destruct N as (u & -> & Hu & Hd). exists u. split; [right; split; auto; lia|]. split; auto. now apply int_part_token.
      - destruct N as (Hu & Hd). exists t. split; [left; auto|]. split; auto. now apply int_part_token. }
    destruct T as (u & Hu & Tu & Iu).
    assert (Tk : int_token t v r (fin it)) by (destruct Hu as [[-> ->]|[-> ->]]; now constructor).
    assert (Nn : 0 <= dec u) by (eapply token_nonneg; eauto).
    destruct w; simpl widthOf.
    + apply (pure_yields _ _ _ (sim_int W8)); auto; [now apply (reachable_wf P32 P64)|exact I|]. rewrite Es.
      apply ReadI8_spec. exists s, t. split; auto. split; auto.
      change (2 ^ (ibits I8 - 1)) with 128 in R. split; [|lia].
      assert (C : cut_token u r (fin it)).
      { apply token_cut; auto. apply short_dec_len; auto. destruct Hu as [[_ ->]|[_ ->]]; lia. }
      destruct Hu as [[-> ->]|[-> ->]]; now constructor.
    + apply (C11_int P32 P64); auto; [discriminate|]. exists s, t. repeat split; auto; apply R.
    + apply (C11_int P32 P64); auto; [discriminate|]. exists s, t. repeat split; auto; apply R.
    + apply (C11_int P32 P64); auto; [discriminate|]. exists s, t. repeat split; auto; apply R.
Qed.

(** ** C20 *)
Theorem C20_tree (T : @tree G32 G64) st : printable T -> sm_error st = None ->
  exists t j, shows T j /\ value t j /\
    calls (tree_calls T) st = Some (mkStm (sm_writer st) (sm_buffer st ++ comma (sm_poped st) ++ t) None true (sm_html st)).
Proof.
  intros P E. destruct (tree_ok S32 S64 (sm_html st) T P) as (t & j & Sh & V & X). exists t, j. split; auto. split; auto.
  specialize (X (sm_poped st) (sm_writer st) (sm_buffer st)). destruct st as [w b e p h]. simpl in *. now subst e.
Qed.
(** reading the text back gives the value of the tree *)
Theorem C20_read_back (T : @tree G32 G64) html P32 P64 : float_sane P64 -> printable T ->
  exists s t j, calls (tree_calls T) (newStm html) = Some s /\ sm_buffer s = t /\ shows T j /\
    forall it w r, reachable P32 P64 it -> ~ dirty it -> stream it = w ++ t ++ r -> ws w ->
      nums_ok P64 (it_useNumber it) j -> vends t j (fin it) r ->
      exists v, yields (Read P64) it v r /\ go_value P64 (it_useNumber it) j v.
Proof.
  intros Fs P. destruct (C20_tree T (newStm html) P eq_refl) as (t & j & Sh & V & X).
  eexists _, t, j. split; [exact X|]. split; [reflexivity|]. split; auto.
  intros it w r R D Es Hw Hn He. now apply (C07_read_complete P32 P64 it w t j r).
Qed.
(** and the text is valid *)
Theorem C20_valid (T : @tree G32 G64) html P32 P64 it : printable T -> reachable P32 P64 it ->
  exists s, calls (tree_calls T) (newStm html) = Some s /\ fst (Valid (sm_buffer s) it) = true.
Proof.
  intros P R. destruct (C20_tree T (newStm html) P eq_refl) as (t & j & Sh & V & X).
  eexists. split; [exact X|]. apply (C01_valid P32 P64); auto. exists j. exists [], t, []. simpl.
  rewrite app_nil_r. repeat split; auto; constructor.
Qed.

(** ** C21 *)
Theorem C21_sticky (os : list (sop (F32 := G32) (F64 := G64))) s e : sm_error s = Some e ->
  exists h s', sops os s = Some s' /\ s' = mkStm (sm_writer s) (sm_buffer s) (Some e) (sm_poped s) h /\
    Flush s' = (Some e, s').
Proof.
  destruct s as [w b er p h]. simpl. intros ->. revert h. induction os as [|[c|] os IH]; intros h.
  - exists h. eexists. split; [reflexivity|]. auto.
  - destruct (eff_error c e p h) as (h' & E). cbn [sops]. rewrite E, app_nil_r. apply IH.
  - cbn [sops]. apply IH.
Qed.

(** ** C22 *)
Theorem C22_flush (os : list (sop (F32 := G32) (F64 := G64))) s : Forall typed (callsOf os) -> boundedS s ->
  exists s' s0, sops os s = Some s' /\ calls (callsOf os) s = Some s0 /\
    logOf s' ++ sm_buffer s' = logOf s ++ sm_buffer s0 /\
    sm_error s' = sm_error s0 /\ sm_poped s' = sm_poped s0.
Proof.
  intros T B. destruct (sops_total S32 S64 os s T) as (s' & E). destruct (sops_keep S32 S64 os s s' T B E) as (s0 & H).
  exists s', s0. intuition.
Qed.

(** ** C23 *)
Theorem C23_encoder (Ts : list (@tree G32 G64)) w h : Forall printable Ts -> obeys w ->
  exists ts rs en', Forall2 (fun T t => exists j, shows T j /\ value t j) Ts ts /\
  encodes (map tree_calls Ts) (mkEncoder (sm_Reset w (newStm h)) None) = Some (rs, en') /\
  ((rs = repeat None (length Ts) /\ encLog en' = w_log w ++ flat_map (fun t => t ++ [10]) ts) \/
   exists n m e, (n < length Ts)%nat /\ rs = repeat None n ++ repeat (Some e) (length Ts - n) /\
     encLog en' = w_log w ++ flat_map (fun t => t ++ [10]) (firstn n ts) ++ firstn m (nth n ts [] ++ [10])).
Proof. intros P O. apply (encodes_ok S32 S64 Ts w h); auto. reflexivity. Qed.
Theorem C23_stuck (vs : list (list scall)) en e : en_err en = Some e ->
  encodes vs en = Some (map (fun _ => Some e) vs, en).
Proof. apply encodes_stuck. Qed.

(** ** C40 *)
Theorem C40_float64 f st : sm_error st = None -> ff_inf G64 f = false -> ff_nan G64 f = false ->
  exists a t, (a = ff_append G64 f 101 \/ a = ff_append G64 f 102) /\
    number t /\ num_value t = num_value a /\ (forall m d, t <> m ++ [101; 45; 48; d]) /\
    call (F32 := G32) (F64 := G64) (SFloat64 f) st = Some (mkStm (sm_writer st) (sm_buffer st ++ comma (sm_poped st) ++ t) None true (sm_html st)).
Proof.
  intros E Hi Hn. destruct (appendFloat_ok G64 S64 f Hi Hn) as (t & (N & V & C) & H).
  exists (ff_append G64 f (floatFormat G64 f)), t. split; [|split; [|split; [|split]]]; auto.
  - unfold floatFormat. destruct (ff_zero G64 f), (ff_pos G64 f), (ff_lt_small G64 f), (ff_ge_large G64 f), (ff_gt_neg_small G64 f), (ff_le_neg_large G64 f); simpl; auto.
  - intros m d ->. destruct C as [(m' & d' & _ & K)|[K K']]; [|now apply (K' m d)].
    change [101; 45; 48; d] with ([101; 45] ++ [48] ++ [d]) in K. change [101; 45; d'] with ([101] ++ [45] ++ [d']) in K.
    rewrite !app_assoc in K. apply app_inj_tail in K as [K _]. apply app_inj_tail in K as [_ K]. discriminate.
  - pose proof (eff_float64 (F32 := G32) (F64 := G64) f t (sm_poped st) (sm_html st) Hi Hn H (sm_writer st) (sm_buffer st)) as X.
    destruct st as [w' b e p h]. simpl in *. subst e. exact X.
Qed.
Theorem C40_float32 f st : sm_error st = None -> ff_inf G32 f = false -> ff_nan G32 f = false ->
  exists a t, (a = ff_append G32 f 101 \/ a = ff_append G32 f 102) /\
    number t /\ num_value t = num_value a /\ (forall m d, t <> m ++ [101; 45; 48; d]) /\
    call (F32 := G32) (F64 := G64) (SFloat32 f) st = Some (mkStm (sm_writer st) (sm_buffer st ++ comma (sm_poped st) ++ t) None true (sm_html st)).
Proof.
  intros E Hi Hn. destruct (appendFloat_ok G32 S32 f Hi Hn) as (t & (N & V & C) & H).
  exists (ff_append G32 f (floatFormat G32 f)), t. split; [|split; [|split; [|split]]]; auto.
  - unfold floatFormat. destruct (ff_zero G32 f), (ff_pos G32 f), (ff_lt_small G32 f), (ff_ge_large G32 f), (ff_gt_neg_small G32 f), (ff_le_neg_large G32 f); simpl; auto.
  - intros m d ->. destruct C as [(m' & d' & _ & K)|[K K']]; [|now apply (K' m d)].
    change [101; 45; 48; d] with ([101; 45] ++ [48] ++ [d]) in K. change [101; 45; d'] with ([101] ++ [45] ++ [d']) in K.
    rewrite !app_assoc in K. apply app_inj_tail in K as [K _]. apply app_inj_tail in K as [_ K]. discriminate.
  - pose proof (eff_float32 (F32 := G32) (F64 := G64) f t (sm_poped st) (sm_html st) Hi Hn H (sm_writer st) (sm_buffer st)) as X.
    destruct st as [w' b e p h]. simpl in *. subst e. exact X.
Qed.
(** infinities and NaN are reported and nothing is printed *)
Theorem C40_reject64 f st : sm_error st = None -> ff_inf G64 f = true \/ ff_nan G64 f = true ->
  exists e, call (F32 := G32) (F64 := G64) (SFloat64 f) st = Some (mkStm (sm_writer st) (sm_buffer st) (Some e) (sm_poped st) (sm_html st)) /\
    (e = ErrFloatIsInfinity \/ e = ErrFloatIsNan).
Proof.
  intros E H. destruct (eff_float64_bad (F32 := G32) f (sm_poped st) (sm_html st) H) as (e & X & D). exists e. split; auto.
  specialize (X (sm_writer st) (sm_buffer st)). rewrite app_nil_r in X. destruct st as [w b er p h]. simpl in *. now subst er.
Qed.
Theorem C40_reject32 f st : sm_error st = None -> ff_inf G32 f = true \/ ff_nan G32 f = true ->
  exists e, call (F32 := G32) (F64 := G64) (SFloat32 f) st = Some (mkStm (sm_writer st) (sm_buffer st) (Some e) (sm_poped st) (sm_html st)) /\
    (e = ErrFloatIsInfinity \/ e = ErrFloatIsNan).
Proof.
  intros E H. destruct (eff_float32_bad (F64 := G64) f (sm_poped st) (sm_html st) H) as (e & X & D). exists e. split; auto.
  specialize (X (sm_writer st) (sm_buffer st)). rewrite app_nil_r in X. destruct st as [w b er p h]. simpl in *. now subst er.
Qed.
End Writing.

(** ** Examples *)
Notation dcall := (scall demoF demoF).
Definition f64 (f : Z) : dcall := SFloat64 (F64 := demoF) f.
Definition f32 (f : Z) : dcall := SFloat32 (F32 := demoF) f.
(** a streamer in the middle of an array *)
Definition mid (h : bool) : stm := mkStm None (bs "[1") None true h.
Definition messy : bytes := [60; 255; 97; 226; 128; 168; 10; 1; 34; 195; 169; 240; 159; 152; 128; 237; 160; 128].
Example C17_ex : is_bytes messy /\ exists out, call (F32 := demoF) (F64 := demoF) (SString messy) (mid true) = Some out /\
  sm_buffer out = bs "[1,""\u003c\ufffda\u2028\n\u0001\""" ++ [195; 169; 240; 159; 152; 128] ++ bs "\ufffd\ufffd\ufffd""".
Proof. split; [now apply bytes_b|]. eexists. split; [vm_compute; reflexivity|]. vm_compute. reflexivity. Qed.
(** read back from a reader that delivers small pieces *)
Definition messy_clean : bytes :=
  [60; 239; 191; 189; 97; 226; 128; 168; 10; 1; 34; 195; 169; 240; 159; 152; 128; 239; 191; 189; 239; 191; 189; 239; 191; 189].
Example C18_ex : exists out, call (F32 := demoF) (F64 := demoF) (SString messy) (newStm false) = Some out /\
  yields ReadString (Reset (mkReader (sm_buffer out) [(1%nat, false); (2%nat, false); (0%nat, false); (7%nat, false)] EEOF) used) messy_clean [].
Proof. eexists. split; [vm_compute; reflexivity|]. vm_compute. auto. Qed.
Example C19_ex : in_uint I64 18446744073709551615 /\ in_int I64 (-9223372036854775808) /\ in_int I8 (-128) /\
  exists out, calls (F32 := demoF) (F64 := demoF)
    [SUint I64 18446744073709551615; SInt I64 (-9223372036854775808); SInt I8 (-128); SUint I16 10007; SUint I32 4000000000] (mid true) = Some out /\
  sm_buffer out = bs "[1,18446744073709551615,-9223372036854775808,-128,10007,4000000000".
Proof.
  unfold in_uint, in_int. simpl. repeat split; try lia. eexists. split; [vm_compute; reflexivity|]. reflexivity.
Qed.
Definition demoTree : @tree demoF demoF :=
  TArr [TNull; TObj [(FName (bs "a<b"), TArr []); (FRaw (bs """k"""), TObj []); (FName [], TStr messy)];
        TFloat64 (F64 := demoF) 2; TInt I32 (-7); TQUint I8 255; TRaw (bs "[ ]"); TBool false].
Lemma demoTree_ok : printable demoTree.
Proof.
  simpl. unfold in_int, in_uint. simpl.
  repeat split; try lia; try (now apply bytes_b).
  - exists [107], [107]. split; [reflexivity|]. apply plain_body. repeat constructor; lia.
  - exists (JArr []). apply (v_arr0 [32]). repeat constructor.
Qed.
Example C20_ex : exists s, calls (tree_calls demoTree) (newStm true) = Some s /\
  sm_buffer s = bs "[null,{""a\u003cb"":[],""k"":{},"""":""\u003c\ufffda\u2028\n\u0001\""" ++ [195; 169; 240; 159; 152; 128] ++
    bs "\ufffd\ufffd\ufffd""},1.5e-7,-7,""255"",[ ],false]" /\ fst (Valid (sm_buffer s) used) = true.
Proof. eexists. split; [vm_compute; reflexivity|]. split; vm_compute; reflexivity. Qed.
Example C21_ex : exists s, calls (F32 := demoF) (F64 := demoF) [SArrayStart; SBool true; f64 3; SBool false; SArrayEnd] (newStm true) = Some s /\
  sm_error s = Some ErrFloatIsInfinity /\ sm_buffer s = bs "[true".
Proof. eexists. split; [vm_compute; reflexivity|]. auto. Qed.
(** a writer that takes at most three bytes and then complains, but takes everything at each
    third call *)
Definition lazyW : writer := mkWriter (fun h d => if (length h mod 3 =? 2)%nat then (length d, None)
  else (Nat.min 3 (length d), if (3 <? length d)%nat then Some (SErr 1) else None)) [] (bs "-").
Lemma lazyW_obeys : obeys lazyW.
Proof.
  intros h d. cbn [lazyW w_fn]. destruct (length h mod 3 =? 2)%nat; cbn [fst snd]; [lia|]. split; [lia|].
  destruct (Nat.ltb_spec 3 (length d)); [discriminate|lia].
Qed.
Example C22_ex : exists s, sops (F32 := demoF) (F64 := demoF)
   [OCall SArrayStart; OCall (SBool true); OFlush; OCall (f64 2); OFlush; OCall (f64 2); OFlush; OCall SNull; OFlush; OCall SArrayEnd]
   (sm_Reset lazyW (newStm true)) = Some s /\
  logOf s = bs "-[true,1.5e-7,1.5e-7,nu" /\ sm_buffer s = bs "ll]" /\ boundedS s.
Proof.
  eexists. split; [vm_compute; reflexivity|]. split; [reflexivity|]. split; [reflexivity|].
  intros h d. apply (lazyW_obeys h d).
Qed.
(** a writer that fails at its fifth call *)
Definition fullW : writer := mkWriter (fun h d => if (length h <? 4)%nat then (length d, None) else (1%nat, Some (SErr 28))) [] [].
Example C23_ex : exists en, encodes (map tree_calls [demoTree; TBool true; TBool false; TNull]) (mkEncoder (sm_Reset fullW (newStm false)) None)
    = Some ([None; None; Some (SErr 28); Some (SErr 28)], en) /\ exists l, encLog en = l ++ bs "true" ++ [10] ++ bs "f".
Proof.
  eexists. split; [vm_compute; reflexivity|].
  exists (match calls (tree_calls demoTree) (newStm false) with Some s => sm_buffer s ++ [10] | None => [] end). vm_compute. reflexivity.
Qed.
Example C40_ex : exists s, calls (F32 := demoF) (F64 := demoF) [f64 2; f64 (-2); f32 5; f32 7; f64 0; f64 (-7)] (newStm true) = Some s /\
  sm_buffer s = bs "1.5e-7,-1.5e-7,1e+21,120.25,0,-120.25" /\ sm_error s = None.
Proof. eexists. split; [vm_compute; reflexivity|]. auto. Qed.

Print Assumptions C17_string.
Print Assumptions C18_roundtrip.
Print Assumptions C18_unique.
Print Assumptions C19_uint.
Print Assumptions C19_int.
Print Assumptions C20_tree.
Print Assumptions C20_read_back.
Print Assumptions C20_valid.
Print Assumptions C21_sticky.
Print Assumptions C22_flush.
Print Assumptions C23_encoder.
Print Assumptions C23_stuck.
Print Assumptions C40_float64.
Print Assumptions C40_float32.
Print Assumptions C40_reject64.
Print Assumptions C40_reject32.
