(** Sequences of streamer calls: trees, errors, Flush, Encoder. *)
From Coq Require Import String ZArith List Bool Lia.
From Verif Require Import Base Spec SpecStream ModelStream StreamIntFacts StreamStrFacts StreamFacts.
Import ListNotations.
Local Open Scope Z_scope.

Section Tree.
Context {F32 F64 : floatFmt}.
Variables (S32 : fmt_sane F32) (S64 : fmt_sane F64).
Notation scall := (scall F32 F64).

(** ** Trees of values and the calls that write them *)
Inductive fname := FName (s : bytes) | FRaw (b : bytes).
Inductive tree :=
| TNull | TBool (b : bool)
| TInt (w : iwidth) (v : Z) | TUint (w : iwidth) (v : Z)
| TQInt (w : iwidth) (v : Z) | TQUint (w : iwidth) (v : Z)
| TFloat32 (f : ff F32) | TFloat64 (f : ff F64)
| TRaw (t : bytes)
| TStr (s : bytes)
| TArr (l : list tree)
| TObj (l : list (fname * tree)).

Fixpoint tree_calls (t : tree) : list scall :=
  match t with
  | TNull => [SNull]
  | TBool b => [SBool b]
  | TInt w v => [SInt w v]
  | TUint w v => [SUint w v]
  | TQInt w v => [SQInt w v]
  | TQUint w v => [SQUint w v]
  | TFloat32 f => [SFloat32 f]
  | TFloat64 f => [SFloat64 f]
  | TRaw t => [SRaw t]
  | TStr s => [SString s]
  | TArr l => SArrayStart :: flat_map tree_calls l ++ [SArrayEnd]
  | TObj l => SObjectStart ::
      flat_map (fun m => match fst m with FName s => SField s | FRaw b => SRawField b end :: tree_calls (snd m)) l
      ++ [SObjectEnd]
  end.

(** the JSON value a tree stands for *)
Inductive shows : tree -> jval -> Prop :=
| sh_null : shows TNull JNull
| sh_bool b : shows (TBool b) (JBool b)
| sh_int w v t : in_int w v -> numeral v t -> shows (TInt w v) (JNum t)
| sh_uint w v t : in_uint w v -> numeral v t -> shows (TUint w v) (JNum t)
| sh_qint w v t : in_int w v -> numeral v t -> shows (TQInt w v) (JStr t)
| sh_quint w v t : in_uint w v -> numeral v t -> shows (TQUint w v) (JStr t)
| sh_float32 f t : float_text F32 f t -> shows (TFloat32 f) (JNum t)
| sh_float64 f t : float_text F64 f t -> shows (TFloat64 f) (JNum t)
| sh_raw t j : value t j -> shows (TRaw t) j
| sh_str s s' : sanitized s s' -> shows (TStr s) (JStr s')
| sh_arr l js : shows_list l js -> shows (TArr l) (JArr js)
| sh_obj l ms : shows_members l ms -> shows (TObj l) (JObj ms)
with shows_list : list tree -> list jval -> Prop :=
| shl_nil : shows_list [] []
| shl_cons t l j js : shows t j -> shows_list l js -> shows_list (t :: l) (j :: js)
with shows_members : list (fname * tree) -> list (bytes * jval) -> Prop :=
| shm_nil : shows_members [] []
| shm_name s s' t l j ms : sanitized s s' -> shows t j -> shows_members l ms ->
    shows_members ((FName s, t) :: l) ((s', j) :: ms)
| shm_raw b s' t l j ms : string_body b s' -> shows t j -> shows_members l ms ->
    shows_members ((FRaw (34 :: b ++ [34]), t) :: l) ((s', j) :: ms).

(** trees whose leaves are in range; raw parts must be JSON *)
Fixpoint printable (t : tree) : Prop :=
  match t with
  | TNull | TBool _ => True
  | TInt w v | TQInt w v => in_int w v
  | TUint w v | TQUint w v => in_uint w v
  | TFloat32 f => ff_inf F32 f = false /\ ff_nan F32 f = false
  | TFloat64 f => ff_inf F64 f = false /\ ff_nan F64 f = false
  | TRaw t => exists j, value t j
  | TStr s => is_bytes s
  | TArr l => fold_right (fun t P => printable t /\ P) True l
  | TObj l => fold_right (fun m P =>
      (match fst m with FName s => is_bytes s | FRaw b => exists k s, b = 34 :: k ++ [34] /\ string_body k s end
       /\ printable (snd m)) /\ P) True l
  end.

Lemma tree_induction (P : tree -> Prop) :
  P TNull -> (forall b, P (TBool b)) -> (forall w v, P (TInt w v)) -> (forall w v, P (TUint w v)) ->
  (forall w v, P (TQInt w v)) -> (forall w v, P (TQUint w v)) ->
  (forall f, P (TFloat32 f)) -> (forall f, P (TFloat64 f)) -> (forall t, P (TRaw t)) -> (forall s, P (TStr s)) ->
  (forall l, Forall P l -> P (TArr l)) -> (forall l, Forall (fun m => P (snd m)) l -> P (TObj l)) ->
  forall t, P t.
Proof.
  intros H1 H2 H3 H4 H5 H6 H7 H8 H9 H10 Ha Ho. fix IH 1. intros [].
  - exact H1.
  - apply H2.
  - apply H3.
  - apply H4.
  - apply H5.
  - apply H6.
  - apply H7.
  - apply H8.
  - apply H9.
  - apply H10.
  - apply Ha. induction l as [|t l IHl]; constructor; [apply IH|exact IHl].
  - apply Ho. induction l as [|[k t] l IHl]; constructor; [apply IH|exact IHl].
Qed.

(** texts in sequence, with the commas between them *)
Fixpoint sepText (p : bool) (ts : list bytes) : bytes :=
  match ts with [] => [] | t :: r => comma p ++ t ++ sepText true r end.
Lemma sep_elements ts js : Forall2 value ts js -> ts <> [] -> elements (sepText false ts) js.
Proof.
  intros H. induction H as [|t j ts js V H IH]; intros N; [congruence|].
  destruct ts as [|t2 ts].
  - inversion H. simpl. rewrite app_nil_r.
    replace t with ([] ++ t ++ []) by (simpl; apply app_nil_r). constructor; constructor || auto.
  - change (sepText false (t :: t2 :: ts)) with ([] ++ t ++ [] ++ 44 :: sepText false (t2 :: ts)).
    constructor; try (now constructor); auto. apply IH. discriminate.
Qed.
Lemma sep_array ts js : Forall2 value ts js -> value (91 :: sepText false ts ++ [93]) (JArr js).
Proof.
  intros H. destruct ts as [|t ts].
  - inversion H. apply (v_arr0 []). constructor.
  - apply v_arr. apply sep_elements; auto. discriminate.
Qed.
(** a member text *)
Inductive mtext : bytes -> bytes * jval -> Prop :=
| mt b k t j : string_body b k -> value t j -> mtext (34 :: b ++ 34 :: 58 :: t) (k, j).
Lemma sep_members ts ms : Forall2 mtext ts ms -> ts <> [] -> members (sepText false ts) ms.
Proof.
  intros H. induction H as [|x m ts ms V H IH]; intros N; [congruence|].
  destruct V as [b k t j B V].
  destruct ts as [|t2 ts].
  - inversion H. simpl. rewrite app_nil_r.
    replace (34 :: b ++ 34 :: 58 :: t) with ([] ++ 34 :: b ++ 34 :: [] ++ 58 :: [] ++ t ++ []) by (simpl; now rewrite app_nil_r).
    constructor; constructor || auto.
  - assert (E : sepText false ((34 :: b ++ 34 :: 58 :: t) :: t2 :: ts) = [] ++ 34 :: b ++ 34 :: [] ++ 58 :: [] ++ t ++ [] ++ 44 :: sepText false (t2 :: ts)).
    { simpl. f_equal. rewrite <- !app_assoc. reflexivity. }
    refine (eq_ind_r (fun x => members x _) _ E). apply mb_cons; try (now constructor); auto. apply IH. discriminate.
Qed.
Lemma sep_object ts ms : Forall2 mtext ts ms -> value (123 :: sepText false ts ++ [125]) (JObj ms).
Proof.
  intros H. destruct ts as [|t ts].
  - inversion H. apply (v_obj0 []). constructor.
  - apply v_obj. apply sep_members; auto. discriminate.
Qed.

(** numerals need no escaping *)
Lemma plain_body l : Forall (fun c => 32 <= c /\ c <> 34 /\ c <> 92) l -> string_body l l.
Proof.
  intros H. exists (map UByte l). split.
  - induction H; simpl; constructor; tauto.
  - induction l as [|c l IH]; [reflexivity|]. inversion H.
    change (c :: l = c :: denote (map UByte l)). f_equal. auto.
Qed.
Lemma numeral_plain v t : numeral v t -> string_body t t.
Proof.
  assert (D : forall l, digits l -> Forall (fun c => 32 <= c /\ c <> 34 /\ c <> 92) l).
  { intros l H. eapply Forall_impl; [|exact H]. unfold is_digit. intros. lia. }
  assert (I : forall l, int_part l -> Forall (fun c => 32 <= c /\ c <> 34 /\ c <> 92) l).
  { intros l [|d r Hd Hr]; constructor; try lia; auto. }
  unfold numeral. destruct (v <? 0); intros H; apply plain_body.
  - destruct H as (u & -> & H & _). constructor; [lia|auto].
  - apply I, H.
Qed.

Definition writes (h : bool) (T : tree) : Prop :=
  exists t j, shows T j /\ value t j /\ forall p, effects (tree_calls T) None p h (comma p ++ t) None true h.

Lemma writes_list h l : Forall (writes h) l ->
  exists ts js, shows_list l js /\ Forall2 value ts js /\
    forall p, effects (flat_map tree_calls l) None p h (sepText p ts) None (p || negb (match l with [] => true | _ => false end)) h.
Proof.
  intros H. induction H as [|T l (t & j & S & V & E) H (ts & js & SL & VL & EL)].
  - exists [], []. repeat split; try constructor. intros p. rewrite orb_false_r. apply effects_nil.
  - exists (t :: ts), (j :: js). repeat split; try (now constructor). intros p. cbn [flat_map sepText negb]. rewrite orb_true_r.
    rewrite app_assoc. eapply effects_app; [apply E|apply (EL true)].
Qed.
Lemma writes_members h l :
  Forall (fun m => writes h (snd m) /\ match fst m with FName s => is_bytes s | FRaw b => exists k s, b = 34 :: k ++ [34] /\ string_body k s end) l ->
  exists ts ms, shows_members l ms /\ Forall2 mtext ts ms /\
    forall p, effects (flat_map (fun m => match fst m with FName s => SField s | FRaw b => SRawField b end :: tree_calls (snd m)) l)
      None p h (sepText p ts) None (p || negb (match l with [] => true | _ => false end)) h.
Proof.
  intros H. induction H as [|[k T] l [(t & j & S & V & E) K] H (ts & ms & SL & VL & EL)]; cbn [fst snd] in *.
  - exists [], []. repeat split; try constructor. intros p. rewrite orb_false_r. apply effects_nil.
  - assert (X : exists b s', string_body b s' /\ shows_members ((k, T) :: l) ((s', j) :: ms) /\
      forall p, effect (F32 := F32) (F64 := F64) (match k with FName s => SField s | FRaw b => SRawField b end) None p h (comma p ++ 34 :: b ++ [34; 58]) None false h).
    { destruct k as [s|b].
      - destruct (encodeString_eff s h K) as (body & EE & us & I & _ & Z). exists body, (denote us).
        split; [now exists us|]. split; [now constructor|]. intros p. now apply eff_field.
      - destruct K as (k & s' & -> & B). exists k, s'. split; auto. split; [now constructor|].
        intros p. replace (34 :: k ++ [34; 58]) with ((34 :: k ++ [34]) ++ [58]) by (simpl; now rewrite <- app_assoc). apply eff_rawField. }
    destruct X as (b & s' & B & SM & EF).
    exists ((34 :: b ++ 34 :: 58 :: t) :: ts), ((s', j) :: ms). repeat split; auto; [now constructor; [constructor|]|].
    intros p. cbn [flat_map sepText negb fst snd]. rewrite orb_true_r.
    replace (comma p ++ (34 :: b ++ 34 :: 58 :: t) ++ sepText true ts) with ((comma p ++ 34 :: b ++ [34; 58]) ++ (comma false ++ t) ++ sepText true ts).
    + change ((match k with FName s => SField s | FRaw b0 => SRawField b0 end :: tree_calls T) ++ ?x) with
        (match k with FName s => SField s | FRaw b0 => SRawField b0 end :: (tree_calls T ++ x)).
      eapply effects_cons; [apply EF|]. eapply effects_app; [apply E|apply (EL true)].
    + simpl. rewrite <- !app_assoc. simpl. now rewrite <- !app_assoc.
Qed.

(** Well-nested calls write the text of the tree *)
Theorem tree_ok h T : printable T -> writes h T.
Proof using S32 S64.
  revert T. apply (tree_induction (fun T => printable T -> writes h T)); simpl printable.
  - exists (bs "null"), JNull. repeat split; try constructor. intros p. apply effects_one, eff_null.
  - intros b _. exists (bs (if b then "true" else "false")), (JBool b). repeat split; [constructor|destruct b; constructor|].
    intros p. apply effects_one, eff_bool.
  - intros w v R. destruct (appendInt_numeral w v R) as (t & N & E). exists t, (JNum t).
    split; [now constructor|]. split; [constructor; now apply numeral_number with v|]. intros p. now apply effects_one, eff_int.
  - intros w v R. destruct (appendUint_numeral w v R) as (t & N & E). exists t, (JNum t).
    split; [now constructor|]. split; [constructor; now apply numeral_number with v|]. intros p. now apply effects_one, eff_uint.
  - intros w v R. destruct (appendInt_numeral w v R) as (t & N & E). exists (34 :: t ++ [34]), (JStr t).
    split; [now constructor|]. split; [constructor; now apply numeral_plain with v|]. intros p. now apply effects_one, eff_qint.
  - intros w v R. destruct (appendUint_numeral w v R) as (t & N & E). exists (34 :: t ++ [34]), (JStr t).
    split; [now constructor|]. split; [constructor; now apply numeral_plain with v|]. intros p. now apply effects_one, eff_quint.
  - intros f [Hi Hn]. destruct (appendFloat_ok F32 S32 f Hi Hn) as (t & N & E). exists t, (JNum t).
    split; [now constructor|]. split; [constructor; apply N|]. intros p. now apply effects_one, eff_float32.
  - intros f [Hi Hn]. destruct (appendFloat_ok F64 S64 f Hi Hn) as (t & N & E). exists t, (JNum t).
    split; [now constructor|]. split; [constructor; apply N|]. intros p. now apply effects_one, eff_float64.
  - intros t (j & V). exists t, j. split; [now constructor|]. split; auto. intros p. apply effects_one, eff_raw.
  - intros s B. destruct (encodeString_eff s h B) as (body & E & us & I & _ & Z).
    exists (34 :: body ++ [34]), (JStr (denote us)). split; [now constructor|]. split; [constructor; now exists us|].
    intros p. now apply effects_one, eff_string.
  - intros l IH Pl.
    assert (W : Forall (writes h) l).
    { induction IH as [|T l HT IH IHl]; constructor; simpl in Pl; destruct Pl; auto. }
    destruct (writes_list h l W) as (ts & js & SL & VL & E).
    exists (91 :: sepText false ts ++ [93]), (JArr js). split; [now constructor|]. split; [now apply sep_array|].
    intros p. cbn [tree_calls]. change (91 :: sepText false ts ++ [93]) with ([91] ++ sepText false ts ++ [93]). rewrite app_assoc.
    eapply effects_cons; [apply eff_arrayStart|]. eapply effects_app; [apply E|]. apply effects_one, eff_arrayEnd.
  - intros l IH Pl.
    assert (W : Forall (fun m => writes h (snd m) /\ match fst m with FName s => is_bytes s | FRaw b => exists k s, b = 34 :: k ++ [34] /\ string_body k s end) l).
    { induction IH as [|T l HT IH IHl]; constructor; simpl in Pl; destruct Pl as [[? ?] ?]; auto. }
    destruct (writes_members h l W) as (ts & js & SL & VL & E).
    exists (123 :: sepText false ts ++ [125]), (JObj js). split; [now constructor|]. split; [now apply sep_object|].
    intros p. cbn [tree_calls]. change (123 :: sepText false ts ++ [125]) with ([123] ++ sepText false ts ++ [125]). rewrite app_assoc.
    eapply effects_cons; [apply eff_objectStart|]. eapply effects_app; [apply E|]. apply effects_one, eff_objectEnd.
Qed.

(** ** Errors *)
Theorem calls_error (cs : list scall) s e : sm_error s = Some e ->
  exists h, calls cs s = Some (mkStm (sm_writer s) (sm_buffer s) (Some e) (sm_poped s) h).
Proof.
  destruct s as [w b er p h]. simpl. intros ->. revert h. induction cs as [|c cs IH]; intros h.
  - exists h. reflexivity.
  - destruct (eff_error c e p h) as (h' & E). simpl. rewrite E, app_nil_r. apply IH.
Qed.

(** ** Flush *)
(** calls and flushes *)
Inductive sop := OCall (c : scall) | OFlush.
Fixpoint sops (os : list sop) (s : stm) : option stm :=
  match os with
  | [] => Some s
  | OCall c :: r => match call c s with Some s' => sops r s' | None => None end
  | OFlush :: r => sops r (snd (Flush s))
  end.
Definition callsOf (os : list sop) : list scall :=
  flat_map (fun o => match o with OCall c => [c] | OFlush => [] end) os.
(** the part of the io.Writer contract Flush relies on *)
Definition bounded (w : writer) : Prop := forall h d, (fst (w_fn w h d) <= length d)%nat.
Definition logOf (s : stm) : bytes := match sm_writer s with Some w => w_log w | None => [] end.
Definition boundedS (s : stm) : Prop := match sm_writer s with Some w => bounded w | None => True end.

Lemma Flush_keeps s : boundedS s ->
  logOf (snd (Flush s)) ++ sm_buffer (snd (Flush s)) = logOf s ++ sm_buffer s /\
  boundedS (snd (Flush s)) /\ sm_error (snd (Flush s)) = sm_error s /\
  sm_poped (snd (Flush s)) = sm_poped s /\ sm_html (snd (Flush s)) = sm_html s.
Proof.
  destruct s as [w b e p h]. unfold Flush, boundedS, logOf. simpl. destruct e as [e|]; [simpl; auto|].
  destruct w as [w|]; [|simpl; auto]. intros B. unfold w_write. specialize (B (w_calls w) b) as L.
  destruct (w_fn w (w_calls w) b) as [n er] eqn:E. simpl in L. simpl. repeat split; auto.
  rewrite <- app_assoc. f_equal. destruct (Nat.ltb_spec n (length b)).
  - apply firstn_skipn.
  - rewrite app_nil_r. apply firstn_all2. lia.
Qed.
Theorem sops_keep os s s' : Forall typed (callsOf os) -> boundedS s -> sops os s = Some s' ->
  exists s0, calls (callsOf os) s = Some s0 /\
    logOf s' ++ sm_buffer s' = logOf s ++ sm_buffer s0 /\
    sm_error s' = sm_error s0 /\ sm_poped s' = sm_poped s0 /\ sm_html s' = sm_html s0.
Proof using S32 S64.
  (* the same calls from two streamers that differ in writer and buffer only *)
  assert (K : forall os w b e p h w2 pre b2 s', Forall typed (callsOf os) -> boundedS (mkStm w b e p h) ->
    logOf (mkStm w b e p h) ++ b = pre ++ b2 -> sops os (mkStm w b e p h) = Some s' ->
    exists s0, calls (callsOf os) (mkStm w2 b2 e p h) = Some s0 /\
      logOf s' ++ sm_buffer s' = pre ++ sm_buffer s0 /\ sm_error s' = sm_error s0 /\ sm_poped s' = sm_poped s0 /\ sm_html s' = sm_html s0).
  { clear os s s'. induction os as [|[c|] os IH]; intros w b e p h w2 pre b2 s' T B E R.
    - simpl in *. injection R as <-. eexists. split; [reflexivity|]. auto.
    - simpl in T. inversion T as [|? ? Tc T']. subst. destruct (call_effect S32 S64 c e p h Tc) as (t & e1 & p1 & h1 & X).
      cbn [sops] in R. rewrite X in R. cbn [callsOf flat_map app calls]. rewrite X.
      apply (IH w (b ++ t)) with (pre := pre); auto.
      unfold logOf in *. simpl in *. now rewrite !app_assoc, E.
    - cbn [sops] in R. destruct (Flush_keeps _ B) as (L & B' & E1 & E2 & E3).
      destruct (snd (Flush (mkStm w b e p h))) as [w' b' e' p' h']. simpl in *. subst.
      apply (IH w' b'); auto. unfold logOf in *. simpl in *. congruence. }
  intros T B R. destruct s as [w b e p h]. destruct (K os w b e p h w (logOf (mkStm w b e p h)) b s' T B eq_refl R) as (s0 & X). eauto.
Qed.
(** no sequence of calls and flushes panics *)
Theorem sops_total os s : Forall typed (callsOf os) -> exists s', sops os s = Some s'.
Proof using S32 S64.
  revert s. induction os as [|[c|] os IH]; intros s T.
  - simpl. eauto.
  - simpl in T. inversion T as [|? ? Tc T']. subst. destruct s as [w b e p h].
    destruct (call_effect S32 S64 c e p h Tc) as (t & e1 & p1 & h1 & X). cbn [sops]. rewrite X. auto.
  - cbn [sops]. auto.
Qed.

(** ** Encoder *)
(** the io.Writer contract *)
Definition obeys (w : writer) : Prop :=
  forall h d, (fst (w_fn w h d) <= length d)%nat /\ ((fst (w_fn w h d) < length d)%nat -> snd (w_fn w h d) <> None).
(** an encoder before its next value *)
Definition ready (w : writer) (h : bool) (en : encoder) : Prop :=
  en = mkEncoder (mkStm (Some w) [] None false h) None.
Definition textOf (cs : list scall) (h : bool) : bytes :=
  match calls cs (newStm h) with Some s => sm_buffer s | None => [] end.
Lemma Encode_ready w h en (cs : list scall) t : ready w h en -> obeys w ->
  effects cs None false h t None true h ->
  (exists en' w', Encode (calls cs) en = Some (None, en') /\ ready w' h en' /\ w_fn w' = w_fn w /\ w_log w' = w_log w ++ t ++ [10]) \/
  (exists en' e m, Encode (calls cs) en = Some (Some e, en') /\ en_err en' = Some e /\
     logOf (en_s en') = w_log w ++ firstn m (t ++ [10])).
Proof.
  intros -> O X. unfold Encode. simpl en_err. cbv iota. unfold encodeInternal. simpl en_s. rewrite X. simpl.
  unfold Flush. simpl. unfold w_write. destruct (w_fn w (w_calls w) t) as [n er] eqn:E1.
  destruct (O (w_calls w) t) as [L1 L2]. rewrite E1 in L1, L2. simpl in L1, L2.
  destruct er as [er|].
  { right. eexists _, er, n. split; [reflexivity|]. split; [reflexivity|]. unfold logOf. simpl.
    rewrite firstn_app. replace (n - length t)%nat with 0%nat by lia. simpl. now rewrite app_nil_r. }
  assert (n = length t) by (destruct (Nat.lt_ge_cases n (length t)) as [G|G]; [now destruct (L2 G)|lia]). subst n.
  simpl. destruct (w_fn w (w_calls w ++ [t]) [10]) as [n2 er2] eqn:E2.
  destruct (O (w_calls w ++ [t]) [10]) as [L3 L4]. rewrite E2 in L3, L4. simpl in L3, L4.
  destruct er2 as [er2|].
  { right. eexists _, er2, (length t + n2)%nat. split; [reflexivity|]. split; [reflexivity|]. unfold logOf. simpl.
    rewrite firstn_all, firstn_app. replace (length t + n2 - length t)%nat with n2 by lia.
    rewrite (firstn_all2 (n := length t + n2)) by lia. now rewrite app_assoc. }
  assert (n2 = 1%nat) by (destruct (Nat.lt_ge_cases n2 1) as [G|G]; [now destruct (L4 G)|lia]). subst n2.
  left. eexists _, _. split; [reflexivity|]. split; [reflexivity|]. simpl. split; auto.
  rewrite firstn_all. simpl. now rewrite <- app_assoc.
Qed.
(** a series of Encode calls; the results in order *)
Fixpoint encodes (vs : list (list scall)) (en : encoder) : option (list (option serr) * encoder) :=
  match vs with
  | [] => Some ([], en)
  | v :: r =>
      match Encode (calls v) en with
      | None => None
      | Some (e, en') =>
          match encodes r en' with
          | None => None
          | Some (es, en2) => Some (e :: es, en2)
          end
      end
  end.
Definition encLog (en : encoder) : bytes := logOf (en_s en).
Lemma encodes_stuck vs en e : en_err en = Some e -> encodes vs en = Some (map (fun _ => Some e) vs, en).
Proof.
  intros H. induction vs as [|v vs IH]; auto. cbn [encodes]. unfold Encode at 1. rewrite H, IH. reflexivity.
Qed.
Definition lines (ts : list bytes) : bytes := flat_map (fun t => t ++ [10]) ts.
Theorem encodes_ok Ts w h en : Forall printable Ts -> ready w h en -> obeys w ->
  exists ts rs en', Forall2 (fun T t => exists j, shows T j /\ value t j) Ts ts /\
  encodes (map tree_calls Ts) en = Some (rs, en') /\
  ((rs = repeat None (length Ts) /\ encLog en' = w_log w ++ lines ts) \/
   exists n m e, (n < length Ts)%nat /\ rs = repeat None n ++ repeat (Some e) (length Ts - n) /\
     encLog en' = w_log w ++ lines (firstn n ts) ++ firstn m (nth n ts [] ++ [10])).
Proof using S32 S64.
  intros PT. revert w en. induction PT as [|T Ts PT PTs IH]; intros w en R O.
  - exists [], [], en. split; [constructor|]. split; [reflexivity|]. left. split; auto. rewrite R. unfold encLog, logOf. simpl. now rewrite app_nil_r.
  - destruct (tree_ok h T PT) as (t & j & Sh & V & E). specialize (E false). simpl comma in E. rewrite app_nil_l in E.
    destruct (Encode_ready w h en _ t R O E) as [(en1 & w1 & E1 & R1 & Fn & L1)|(en1 & e & m & E1 & R1 & L1)].
    + assert (O1 : obeys w1) by (unfold obeys in *; now rewrite Fn).
      destruct (IH w1 en1 R1 O1) as (ts & rs & en2 & FT & E2 & D).
      exists (t :: ts), (None :: rs), en2. split; [constructor; eauto|]. split; [cbn [map encodes]; now rewrite E1, E2|].
      destruct D as [[-> L2]|(n & m & e & Ln & -> & L2)].
      * left. split; [reflexivity|]. rewrite L2, L1. unfold lines. simpl. now rewrite <- !app_assoc.
      * right. exists (S n), m, e. split; [simpl; lia|]. split; [reflexivity|]. rewrite L2, L1. unfold lines. simpl. now rewrite <- !app_assoc.
    + assert (FT : exists ts, Forall2 (fun T t => exists j, shows T j /\ value t j) Ts ts).
      { clear IH. induction PTs as [|T' Ts' P' PTs IH]; [exists []; constructor|]. destruct IH as (ts & FT).
        destruct (tree_ok h T' P') as (t' & j' & Sh' & V' & _). exists (t' :: ts). constructor; eauto. }
      destruct FT as (ts & FT). exists (t :: ts), (Some e :: map (fun _ => Some e) (map tree_calls Ts)), en1.
      split; [constructor; eauto|]. split; [cbn [map encodes]; now rewrite E1, (encodes_stuck _ _ e)|].
      right. exists 0%nat, m, e. split; [simpl; lia|]. split.
      * simpl. f_equal. clear. induction Ts; simpl; auto. now f_equal.
      * exact L1.
Qed.
End Tree.
