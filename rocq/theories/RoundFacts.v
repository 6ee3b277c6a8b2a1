(** What decoding into interface{} variables stores, and that it can be encoded and read back (C48). *)
From Coq Require Import String ZArith List Bool Lia Arith.
From Verif Require Import Base ModelInt ModelFloat ModelOps ModelStream ModelVal ModelEnc Spec SpecStream SpecVal SpecEnc SpecTyped SpecRound StreamFacts StreamStrFacts EncFacts TypedFacts.
Import ListNotations.
Local Open Scope Z_scope.

(** ** Parts of UTF-8 texts *)
Definition ahead (l : bytes) : Prop := match l with [] => True | c :: _ => 0 <= c < 128 end.
Lemma utf8_bytes_high r : scalar r -> 128 <= r -> Forall (fun c => 128 <= c) (utf8 r).
Proof.
  intros S H. destruct (utf8_cases r S) as [(A & E)|[(A & E)|[(A & E)|(A & E)]]]; [lia| | |]; rewrite E; clear E;
    repeat constructor; try (pose proof (Z.mod_pos_bound r 64 ltac:(lia)); lia);
    try (pose proof (Z.mod_pos_bound (r / 64) 64 ltac:(lia)); lia); try (pose proof (Z.mod_pos_bound (r / 4096) 64 ltac:(lia)); lia).
  - pose proof (Z.div_pos r 64 ltac:(lia)). lia.
  - pose proof (Z.div_pos r 4096 ltac:(lia)). lia.
  - pose proof (Z.div_pos r 262144 ltac:(lia)). lia.
Qed.
Lemma utf8_split t : utf8_text t -> forall a b, t = a ++ b -> ahead b -> utf8_text a /\ utf8_text b.
Proof.
  induction 1 as [|r l S H IH]; intros a b E B.
  - symmetry in E. apply app_eq_nil in E as [-> ->]. split; constructor.
  - apply app_eq_app in E. destruct E as (x & [[E1 E2]|[E1 E2]]).
    + destruct x as [|c x].
      * simpl in E2. subst b. rewrite app_nil_r in E1. subst a. split; [|exact H]. rewrite <- (app_nil_r (utf8 r)). constructor; [exact S|constructor].
      * subst b. simpl in B. destruct (Z.lt_ge_cases r 128) as [L|L].
        -- rewrite utf8_ascii in E1 by (unfold scalar in S; lia). destruct a as [|y a]; [|destruct a; discriminate].
           simpl in E1. injection E1 as <- <-. split; [constructor|]. change (r :: l) with ([r] ++ l). rewrite <- (utf8_ascii r) by (unfold scalar in S; lia).
           now constructor.
        -- apply utf8_bytes_high in L; auto. rewrite E1 in L. apply Forall_app in L as (_ & L). inversion L; lia.
    + subst a. destruct (IH x b E2 B) as (A1 & A2). split; [|exact A2]. now constructor.
Qed.
Lemma utf8_tail c l : 0 <= c < 128 -> utf8_text (c :: l) -> utf8_text l.
Proof.
  intros L H. inversion H as [|r l' S H' E]. destruct (Z.lt_ge_cases r 128) as [K|K].
  - rewrite utf8_ascii in E by (unfold scalar in S; lia). simpl in E. injection E as _ <-. exact H'.
  - apply utf8_bytes_high in K; auto. destruct (utf8 r) as [|y ys] eqn:U; [exfalso; clear -U S; destruct (utf8_cases r S) as [(_ & E)|[(_ & E)|[(_ & E)|(_ & E)]]]; rewrite E in U; discriminate|].
    simpl in E. injection E as -> _. inversion K; lia.
Qed.
Lemma utf8_one r l : scalar r -> utf8_text l -> utf8_text (utf8 r ++ l).
Proof. now constructor. Qed.
Lemma utf8_cons c l : 0 <= c < 128 -> utf8_text l -> utf8_text (c :: l).
Proof. intros L H. change (c :: l) with ([c] ++ l). rewrite <- (utf8_ascii c) by lia. constructor; auto. unfold scalar. lia. Qed.

Lemma hex_ascii c v : hex c v -> 0 <= c < 128 /\ 0 <= v < 16.
Proof. intros H. inversion H; lia. Qed.
Lemma short_ascii e v : short_escape e v -> 0 <= e < 128 /\ 0 <= v < 128.
Proof. intros H. inversion H; lia. Qed.
(** the plain bytes before the next escape *)
Lemma items_app_plain x b us : Forall (fun c => 128 <= c) x -> string_items (x ++ b) us -> exists us', us = map UByte x ++ us' /\ string_items b us'.
Proof.
  revert us. induction x as [|c x IH]; intros us F H; [exists us; auto|]. inversion F; subst. simpl in H. inversion H; subst; try lia.
  destruct (IH _ H3 H8) as (us' & -> & H'). exists us'. auto.
Qed.
Lemma denote_bytes x us : denote (map UByte x ++ us) = x ++ denote us.
Proof. induction x; simpl; congruence. Qed.
(** a string body in UTF-8 denotes UTF-8 *)
Lemma body_utf8_n n : forall b us, (length b <= n)%nat -> string_items b us -> utf8_text b -> utf8_text (denote us).
Proof.
  induction n as [|n IH]; intros b us L H U.
  { destruct b; [|simpl in L; lia]. inversion H. constructor. }
  inversion U as [|r l S U' E].
  { subst b. inversion H. constructor. }
  destruct (Z.lt_ge_cases r 128) as [K|K].
  - rewrite utf8_ascii in E by (unfold scalar in S; lia). simpl in E. subst b. inversion H as [|c ? us' ? ? ? Hs|e v l' us' He Hs|h u l' us' Hh Hs]; subst.
    + simpl. apply utf8_cons; [unfold scalar in S; lia|]. apply IH with l; auto. simpl in L. lia.
    + simpl. apply short_ascii in He as (He & Hv). apply utf8_cons; auto. apply IH with l'; [simpl in L; lia|auto|]. now apply utf8_tail in U'.
    + inversion Hh as [a b c d va vb vc vd Ha Hb Hc Hd]; subst. apply hex_ascii in Ha as (Ha & Va), Hb as (Hb & Vb), Hc as (Hc & Vc), Hd as (Hd & Vd).
      simpl in U'. apply utf8_tail in U'; [|lia]. do 4 (apply utf8_tail in U'; [|assumption]).
      simpl in L. assert (D : utf8_text (denote us')) by (apply IH with l'; auto; lia).
      set (u := va * 4096 + vb * 256 + vc * 16 + vd). assert (Hu : 0 <= u < 65536) by (unfold u; lia). clearbody u.
      assert (R : utf8_text (utf8 65533 ++ denote us')) by (apply utf8_one; auto; unfold scalar; lia).
      cbn [denote]. destruct (is_high u) eqn:Hi; [|destruct (is_low u) eqn:Lo; [exact R|apply utf8_one; auto; unfold scalar, is_high, is_low in *; lia]].
      destruct us' as [|[?|?|v] us'']; try exact R. destruct (is_low v) eqn:Lv; [|exact R].
      apply utf8_one; [unfold scalar, is_high, is_low in *; lia|].
      inversion Hs as [| | |h' u' l2 us2 Hh' Hs']; subst. inversion Hh' as [a' b' c' d' va' vb' vc' vd' Ha' Hb' Hc' Hd']; subst.
      apply hex_ascii in Ha' as (Ha' & _), Hb' as (Hb' & _), Hc' as (Hc' & _), Hd' as (Hd' & _).
      simpl in U'. apply utf8_tail in U'; [|lia]. apply utf8_tail in U'; [|lia]. do 4 (apply utf8_tail in U'; [|assumption]).
      apply IH with l2; auto. simpl in L. lia.
  - assert (Hh := utf8_bytes_high r S K). rewrite <- E in H. destruct (items_app_plain _ _ _ Hh H) as (us' & -> & H'). rewrite denote_bytes. apply utf8_one; auto.
    apply IH with l; auto. rewrite <- E in L. rewrite app_length in L. assert (utf8 r <> []); [|destruct (utf8 r); [easy|simpl in L; lia]].
    clear -S. intros U. destruct (utf8_cases r S) as [(_ & E)|[(_ & E)|[(_ & E)|(_ & E)]]]; rewrite E in U; discriminate.
Qed.
Lemma body_utf8 b s : string_body b s -> utf8_text b -> utf8_text s.
Proof. intros (us & H & ->) U. now apply (body_utf8_n (length b) b). Qed.
Lemma ws_ahead w l : ws w -> ahead l -> ahead (w ++ l).
Proof. intros W A. destruct W as [|c w H W]; auto. simpl. unfold is_ws in H. lia. Qed.

(** ** What decoding into interface{} stores *)
Section Stored.
Variables F32 F64 : floatOps.
Variable C : custom.
Notation gval := (gval F32 F64 C).
Variable useNumber : bool.
Notation iface_of := (iface_of F32 F64 C useNumber).
Section Text.
Variable text : bytes -> Prop.
Hypothesis text_split : forall a b, ahead b -> text (a ++ b) -> text a /\ text b.
Hypothesis text_tail : forall c l, 0 <= c < 128 -> text (c :: l) -> text l.
Hypothesis text_body : forall b s, string_body b s -> text b -> text s.
Notation stored := (stored F32 F64 C useNumber text).
Notation stored_list := (stored_list F32 F64 C useNumber text).
Notation stored_map := (stored_map F32 F64 C useNumber text).
Lemma text_ws w l : ws w -> text (w ++ l) -> text l.
Proof. induction 1 as [|c w H W IH]; simpl; auto. intros K. apply IH, text_tail with c; auto. unfold is_ws in H. lia. Qed.
Lemma put_stored m s v : text s -> stored v -> NoDup (map fst m) -> stored_map m -> NoDup (map fst (put _ _ _ m (KS s) v)) /\ stored_map (put _ _ _ m (KS s) v).
Proof.
  intros Hs Hv. induction m as [|[k' v'] m IH]; simpl; intros N M; [repeat constructor; auto|].
  inversion N as [|? ? Nk N']; subst. inversion M as [|s' ? ? Hs' Hv' M']; subst.
  destruct (key_eq_dec (KS s') (KS s)) as [D|D]; simpl; [injection D as ->; split; constructor; auto|]. destruct (IH N' M') as (A & B).
  split; constructor; auto. intros H. apply put_keys in H as [K|H]; auto.
Qed.
Lemma iface_stored :
  (forall t j, value t j -> text t -> forall v, iface_of j = Some v -> stored v) /\
  (forall t js, elements t js -> text t -> forall v, iface_of (JArr js) = Some v -> exists l, v = VIface (Some (TSlice TEface, VSlice (Some l))) /\ stored_list l) /\
  (forall t ms, Spec.members t ms -> text t -> forall m0 m, NoDup (map fst m0) -> stored_map m0 ->
     (fix go m ms := match ms with
                     | [] => Some m
                     | (k, j) :: r => match iface_of j with Some v => go (put _ _ _ m (KS k) v) r | None => None end
                     end) m0 ms = Some m -> NoDup (map fst m) /\ stored_map m).
Proof using text_split text_tail text_body.
  assert (Q : forall b, text (b ++ [34]) -> text b) by (intros b H; apply (text_split b [34]); simpl; auto; lia).
  apply value_mutind.
  - intros B v [= <-]. constructor.
  - intros B v [= <-]. constructor.
  - intros B v [= <-]. constructor.
  - intros t Hn B v. simpl. destruct useNumber eqn:Un; [intros [= <-]; now constructor|]. destruct (fl_parse F64 t) eqn:P; [intros [= <-]|discriminate]. now apply st_float with t.
  - intros b s Hs B v [= <-]. constructor. apply (text_body b); auto. apply Q, text_tail with 34; auto. lia.
  - intros w W B v [= <-]. repeat constructor.
  - intros t js H IH B v Hv. assert (Bt : text t). { apply text_tail in B; [|lia]. apply text_split in B; [tauto|simpl; lia]. }
    destruct (IH Bt v Hv) as (l & -> & Fl). now constructor.
  - intros w W B v [= <-]. repeat constructor.
  - intros t ms H IH B v Hv. assert (Bt : text t). { apply text_tail in B; [|lia]. apply text_split in B; [tauto|simpl; lia]. } simpl in Hv.
    match type of Hv with option_map _ ?x = _ => destruct x as [m|] eqn:X end; [|discriminate]. injection Hv as <-.
    apply IH in X; [|auto|constructor|constructor]. destruct X. now constructor.
  - intros w1 t j w2 W1 H IH W2 B v Hv. apply text_ws in B; auto. apply text_split in B as (B & _); [|rewrite <- (app_nil_r w2); now apply ws_ahead].
    simpl in Hv. destruct (iface_of j) as [x|] eqn:X; [|discriminate]. injection Hv as <-.
    eexists. split; [reflexivity|]. constructor; [|constructor]. now apply IH.
  - intros w1 t j w2 r js W1 H IH W2 Hr IHr B v Hv. apply text_ws in B; auto. apply text_split in B as (Bt & B); [|apply ws_ahead; auto; simpl; lia].
    apply text_ws in B; auto. apply text_tail in B; [|lia]. simpl in Hv. destruct (iface_of j) as [x|] eqn:X; [|discriminate].
    match type of Hv with option_map _ (match ?y with _ => _ end) = _ => destruct y as [xs|] eqn:Y end; [|discriminate]. injection Hv as <-.
    eexists. split; [reflexivity|]. constructor; [now apply IH|].
    destruct (IHr B (VIface (Some (TSlice TEface, VSlice (Some xs))))) as (l & [= <-] & Fl); auto. simpl. now rewrite Y.
  - intros w1 b k w2 w3 t j w4 W1 Hk W2 W3 H IH W4 B m0 m N M Hm. destruct (iface_of j) as [x|] eqn:X; [|discriminate]. injection Hm as <-.
    apply text_ws in B; auto. apply text_tail in B; [|lia]. apply text_split in B as (Bk & B); [|simpl; lia]. apply text_tail in B; [|lia]. apply text_ws in B; auto.
    apply text_tail in B; [|lia]. apply text_ws in B; auto. apply text_split in B as (B & _); [|rewrite <- (app_nil_r w4); now apply ws_ahead].
    apply put_stored; auto. now apply (text_body b).
  - intros w1 b k w2 w3 t j w4 r ms W1 Hk W2 W3 H IH W4 Hr IHr B m0 m N M Hm. destruct (iface_of j) as [x|] eqn:X; [|discriminate].
    apply text_ws in B; auto. apply text_tail in B; [|lia]. apply text_split in B as (Bk & B); [|simpl; lia]. apply text_tail in B; [|lia]. apply text_ws in B; auto.
    apply text_tail in B; [|lia]. apply text_ws in B; auto. apply text_split in B as (Bt & B); [|apply ws_ahead; auto; simpl; lia].
    apply text_ws in B; auto. apply text_tail in B; [|lia].
    destruct (put_stored m0 k x) as (N1 & M1); auto; [now apply (text_body b)|]. apply (IHr B _ _ N1 M1 Hm).
Qed.
End Text.
Lemma iface_bytes t j v : value t j -> is_bytes t -> iface_of j = Some v -> stored F32 F64 C useNumber is_bytes v.
Proof.
  intros V B. apply (fun A1 A2 A3 => proj1 (iface_stored is_bytes A1 A2 A3) t j V B).
  - intros a b _ H. now apply bytes_app.
  - intros c l _ H. apply bytes_cons in H. tauto.
  - intros b s. apply body_bytes.
Qed.
Lemma iface_utf8 t j v : value t j -> utf8_text t -> iface_of j = Some v -> stored F32 F64 C useNumber utf8_text v.
Proof.
  intros V B. apply (fun A1 A2 A3 => proj1 (iface_stored utf8_text A1 A2 A3) t j V B).
  - intros a b A H. now apply (utf8_split (a ++ b) H a b).
  - apply utf8_tail.
  - apply body_utf8.
Qed.

Variable E : env F32 F64 C.
Variable U : marshalers F32 F64 C.
Variables G32 G64 : floatFmt.
Variable e32 : fl F32 -> ff G32.
Variable e64 : fl F64 -> ff G64.
Hypothesis FS : useNumber = false -> float_stable F64 G64 e64.
Notation fits := (fits F32 F64 C E U G32 G64 e32 e64 False).
Notation fits_list := (fits_list F32 F64 C E U G32 G64 e32 e64 False).
Notation fits_map := (fits_map F32 F64 C E U G32 G64 e32 e64 False).
Notation keeps := (keeps F32 F64 C E U G32 G64 e32 e64 False useNumber).
Notation keeps_list := (keeps_list F32 F64 C E U G32 G64 e32 e64 False useNumber).
Notation keeps_map := (keeps_map F32 F64 C E U G32 G64 e32 e64 False useNumber).
Lemma stored_fits :
  (forall v, stored F32 F64 C useNumber is_bytes v -> forall a, fits a TEface v) /\
  (forall l, stored_list F32 F64 C useNumber is_bytes l -> fits_list TEface l) /\
  (forall m, stored_map F32 F64 C useNumber is_bytes m -> fits_map KString TEface m).
Proof using FS.
  assert (Nf : forall T a v, match T with TBool | TNumber | TFloat64 | TString | TSlice _ | TMap _ _ => True | _ => False end -> fits false T v -> fits a TEface (VIface (Some (T, v)))).
  { intros T a v HT H. apply fi_iface; auto. left. left. intros K. destruct T; try contradiction; inversion K as [? ? Hu|? ? ? Hu]; try discriminate; destruct Hu; discriminate. }
  apply stored_mutind.
  - intros a. apply fi_iface_nil. auto.
  - intros b a. apply Nf; [exact I|constructor].
  - intros t Un Hn a. apply Nf; [exact I|]. apply fi_number. auto.
  - intros t x Un Hn P a. destruct (FS Un t x Hn P) as (A1 & A2 & _). apply Nf; [exact I|]. now apply fi_float64.
  - intros s B a. apply Nf; [exact I|]. now apply fi_string.
  - intros l _ H a. apply Nf; [exact I|]. apply fi_slice; auto. discriminate.
  - intros m N _ H a. apply Nf; [exact I|]. apply fi_map; auto. exact I.
  - constructor.
  - constructor; auto.
  - constructor.
  - constructor; auto. now constructor.
Qed.
Lemma stored_keeps :
  (forall v, stored F32 F64 C useNumber utf8_text v -> forall a, keeps a TEface false v) /\
  (forall l, stored_list F32 F64 C useNumber utf8_text l -> keeps_list TEface l) /\
  (forall m, stored_map F32 F64 C useNumber utf8_text m -> keeps_map KString TEface m).
Proof using FS.
  apply stored_mutind.
  - intros a. apply k_iface_nil. auto.
  - intros b a. apply k_generic; try discriminate; [unfold generic; auto|constructor].
  - intros t Un Hn a. apply k_generic; try discriminate; [unfold generic; auto 6|]. now apply k_number.
  - intros t x Un Hn P a. destruct (FS Un t x Hn P) as (A1 & A2 & A3). apply k_generic; try discriminate; [unfold generic; auto|]. now apply k_float64.
  - intros s B a. apply k_generic; try discriminate; [unfold generic; auto|]. now apply k_string.
  - intros l _ H a. apply k_generic; try discriminate; [unfold generic; auto 6|]. apply k_slice; auto. discriminate.
  - intros m N _ H a. apply k_generic; try discriminate; [unfold generic; auto 7|]. apply k_map; auto; exact I.
  - constructor.
  - constructor; auto.
  - constructor.
  - constructor; auto. now constructor.
Qed.
(** the only texts in it that are JSON by themselves are numbers *)
Lemma stored_carries text :
  (forall v, stored F32 F64 C useNumber text v -> forall t, carries F32 F64 C E U TEface v t -> number t) /\
  (forall l, stored_list F32 F64 C useNumber text l -> forall v t, In v l -> carries F32 F64 C E U TEface v t -> number t) /\
  (forall m, stored_map F32 F64 C useNumber text m -> forall k v t, In (k, v) m -> carries F32 F64 C E U TEface v t -> number t).
Proof using Type.
  clear FS.
  assert (X : forall T v t, carries F32 F64 C E U TEface (VIface (Some (T, v))) t -> carries F32 F64 C E U T v t) by (intros T v t H; now inversion H; subst).
  apply stored_mutind.
  - intros t H. inversion H; subst.
  - intros b t H. apply X in H. inversion H.
  - intros t0 Un Hn t H. apply X in H. inversion H; subst; auto. 
  - intros t0 x Un Hn P t H. apply X in H. inversion H.
  - intros s B t H. apply X in H. inversion H.
  - intros l _ IH t H. apply X in H. inversion H; subst. eauto.
  - intros m N _ IH t H. apply X in H. inversion H; subst. eauto.
  - intros v t [].
  - intros v l Hv IH _ IHl v' t [<-|K] H; eauto.
  - intros k v t [].
  - intros s v m Bs Hv IH _ IHm k v' t K H. destruct K as [K|K]; [injection K as <- <-|]; eauto.
Qed.
End Stored.
