(** Decoding into a variable of a Go type leaves a value of that type. *)
From Coq Require Import String ZArith List Bool Lia Arith.
From Verif Require Import Spec SpecStream SpecBase64 StreamStrFacts EncFacts.
From Verif Require Import Base ModelInt ModelFloat ModelOps ModelVal ModelEnc SpecVal SpecTyped.
Import ListNotations.
Local Open Scope Z_scope.

(** ** Parts of texts *)
Lemma bytes_app a b : is_bytes (a ++ b) <-> is_bytes a /\ is_bytes b.
Proof. apply Forall_app. Qed.
Lemma bytes_cons c l : is_bytes (c :: l) <-> is_byte c /\ is_bytes l.
Proof. split; [intros H; inversion H; auto|intros []; now constructor]. Qed.
Ltac parts := rewrite ?bytes_app, ?bytes_cons, ?bytes_app, ?bytes_cons, ?bytes_app, ?bytes_cons, ?bytes_app, ?bytes_cons in *.
Lemma items_bytes b ts : items b ts -> is_bytes b -> Forall is_bytes ts.
Proof. intros H. induction H; intros B; parts; constructor; tauto || constructor. Qed.
Lemma array_bytes t ts : array_text t ts -> is_bytes t -> Forall is_bytes ts.
Proof. intros [w W|b ts' H] B; [constructor|]. parts. eapply items_bytes; eauto. tauto. Qed.
Lemma pairs_bytes b ps : pairs b ps -> is_bytes b -> Forall (fun p => is_bytes (fst p) /\ is_bytes (snd p)) ps.
Proof. intros H. induction H; intros B; parts; constructor; simpl; tauto || constructor. Qed.
Lemma object_bytes t ps : object_text t ps -> is_bytes t -> Forall (fun p => is_bytes (fst p) /\ is_bytes (snd p)) ps.
Proof. intros [w W|b ps' H] B; [constructor|]. parts. eapply pairs_bytes; eauto. tauto. Qed.
Lemma quote_bytes b : is_bytes (quote b) -> is_bytes b.
Proof. unfold quote. intros B. parts. tauto. Qed.
Definition unit_ok (u : unit16) : Prop := match u with UByte c | UEsc c => is_byte c | UCode u => 0 <= u < 65536 end.
Lemma hex4_range h u : hex4 h u -> 0 <= u < 65536.
Proof.
  assert (D : forall c v, hex c v -> 0 <= v < 16) by (intros c v H; inversion H; subst; lia).
  intros H. inversion H as [a b c d va vb vc vd A1 B1 C1 D1]; subst. apply D in A1, B1, C1, D1. lia.
Qed.
Lemma items_units b us : string_items b us -> is_bytes b -> Forall unit_ok us.
Proof.
  intros H. induction H as [|c l us H1 H2 H3 H IH|e v l us He H IH|h u l us Hh H IH]; intros B; [constructor| | |]; parts; constructor; try (apply IH; tauto).
  - simpl. tauto.
  - simpl. destruct He; unfold is_byte; lia.
  - simpl. now apply hex4_range with h.
Qed.
Lemma denote_is_bytes n : forall us, (length us <= n)%nat -> Forall unit_ok us -> is_bytes (denote us).
Proof.
  induction n as [|n IH]; intros us L H; [destruct us; [constructor|simpl in L; lia]|]. destruct H as [|u us Hu H]; [constructor|].
  assert (R : is_bytes (denote us)) by (apply IH; [simpl in L; lia|auto]).
  assert (Bad : is_bytes (utf8 65533)) by (apply utf8_bytes; unfold scalar; lia).
  destruct u as [c|c|u]; cbn [denote unit_ok] in *; [now constructor|now constructor|].
  destruct (is_high u) eqn:Hh; unfold is_high in Hh.
  - destruct H as [|[c|c|v] us Hv H]; try (apply bytes_app; split; [exact Bad|exact R]). destruct (is_low v) eqn:Hl; [|apply bytes_app; split; [exact Bad|exact R]].
    unfold is_low in Hl. apply bytes_app. split; [apply utf8_bytes; unfold scalar; lia|]. apply IH; auto. simpl in L. lia.
  - destruct (is_low u) eqn:Hl; unfold is_low in Hl; (apply bytes_app; split; [|exact R]); [exact Bad|]. apply utf8_bytes. unfold scalar. lia.
Qed.
Lemma body_bytes b s : string_body b s -> is_bytes b -> is_bytes s.
Proof. intros (us & H & ->) B. eapply denote_is_bytes; [apply le_n|]. eapply items_units; eauto. Qed.
Lemma lax_bytes data text : base64_lax data text -> is_bytes data.
Proof. intros H. unfold is_bytes. induction H; repeat (apply Forall_cons || apply Forall_nil); auto. Qed.

(** ** Values *)
Section Typed.
Variables F32 F64 : floatOps.
Variable C : custom.
Notation gval := (gval F32 F64 C).
Variable E : env F32 F64 C.
Notation under := (under F32 F64 C E).
Notation zero := (zero F32 F64 C E).
Notation sound := (sound F32 F64 C E).
Notation typed := (typed F32 F64 C E).
Notation typed_key := typed_key.
Notation route := (route F32 F64 C E).
Variable lookup : list bytes -> bytes -> option nat.
Variables useNumber disallow : bool.
Notation decodes := (decodes F32 F64 C E lookup useNumber disallow).
Notation iface_of := (iface_of F32 F64 C useNumber).
Notation put := (put F32 F64 C).
Hypothesis SE : sound_env F32 F64 C E.

Lemma typed_under T v : typed T v <-> typed (under T) v.
Proof.
  destruct T; try tauto. simpl. split; [intros H; inversion H; subst; auto; intuition discriminate|now constructor].
Qed.
Lemma sound_under T : sound T -> sound (under T).
Proof. intros H. destruct T; auto. apply SE. Qed.
Lemma zero_typed T : sound T -> typed T (zero T).
Proof.
  intros H. induction H as [T K|T H IH|n T H IH|T H IH|k T Hk H IH|layout fs Hl IH Hf].
  - destruct T; try contradiction; cbn [ModelVal.zero]; try (constructor; constructor; fail); try (constructor; fail).
    + apply ty_int. destruct signed, w; cbv; split; congruence.
    + apply ty_iface_nil. auto.
    + apply ty_iface_nil. auto.
    + apply ty_ref. apply SE.
  - constructor.
  - cbn [ModelVal.zero]. rewrite <- (repeat_length (zero T) n) at 1. constructor. apply Forall_forall. intros v Hv. apply repeat_spec in Hv. now subst v.
  - constructor.
  - constructor.
  - cbn [ModelVal.zero]. constructor. clear - IH. induction layout as [|T l IHl]; simpl; constructor; [apply IH; now left|]. apply IHl. intros T' HT. apply IH. now right.
Qed.
Lemma put_keys m k v x : In x (map fst (put m k v)) -> x = k \/ In x (map fst m).
Proof.
  induction m as [|[k' v'] m IH]; simpl; [intuition|]. destruct (key_eq_dec k' k); simpl; intuition.
Qed.
Lemma put_typed kt T m k v : typed_key kt k -> typed T v -> NoDup (map fst m) -> Forall (typed_key kt) (map fst m) -> Forall (typed T) (map snd m) ->
  NoDup (map fst (put m k v)) /\ Forall (typed_key kt) (map fst (put m k v)) /\ Forall (typed T) (map snd (put m k v)).
Proof.
  intros Hk Hv. induction m as [|[k' v'] m IH]; simpl; intros N K V; [repeat constructor; auto|].
  inversion N as [|? ? Nk N']; subst. inversion K as [|? ? Hk' K']; subst. inversion V as [|? ? Hv' V']; subst.
  destruct (key_eq_dec k' k) as [->|D]; simpl; [repeat split; constructor; auto|]. destruct (IH N' K' V') as (A & B & D').
  repeat split; constructor; auto. intros H. apply put_keys in H as [->|H]; auto.
Qed.
Lemma typed_map kt T m : NoDup (map fst m) /\ Forall (typed_key kt) (map fst m) /\ Forall (typed T) (map snd m) -> typed (TMap kt T) (VMap (Some m)).
Proof. intros (A & B & D). now constructor. Qed.
Lemma sound_eface : sound TEface.
Proof. apply so_simple. exact I. Qed.
Lemma iface_typed :
  (forall t j, value t j -> is_bytes t -> forall v, iface_of j = Some v -> typed TEface v) /\
  (forall t js, elements t js -> is_bytes t -> forall v, iface_of (JArr js) = Some v -> exists l, v = VIface (Some (TSlice TEface, VSlice (Some l))) /\ Forall (typed TEface) l) /\
  (forall t ms, Spec.members t ms -> is_bytes t -> forall m0 m, NoDup (map fst m0) -> Forall (typed_key KString) (map fst m0) -> Forall (typed TEface) (map snd m0) ->
     (fix go m ms := match ms with
                     | [] => Some m
                     | (k, j) :: r => match iface_of j with Some v => go (put m (KS k) v) r | None => None end
                     end) m0 ms = Some m -> NoDup (map fst m) /\ Forall (typed_key KString) (map fst m) /\ Forall (typed TEface) (map snd m)).
Proof.
  apply value_mutind.
  - intros B v [= <-]. apply ty_iface_nil. auto.
  - intros B v [= <-]. apply ty_iface; auto; [apply so_simple; exact I|constructor].
  - intros B v [= <-]. apply ty_iface; auto; [apply so_simple; exact I|constructor].
  - intros t Hn B v. simpl. destruct useNumber; [intros [= <-]|destruct (fl_parse F64 t); [intros [= <-]|discriminate]];
      (apply ty_iface; auto; [apply so_simple; exact I|now constructor]).
  - intros b s Hs B v [= <-]. apply ty_iface; auto; [apply so_simple; exact I|]. constructor. apply (body_bytes b); auto. now apply quote_bytes.
  - intros w W B v [= <-]. apply ty_iface; auto; [apply so_slice, sound_eface|]. repeat constructor.
  - intros t js H IH B v Hv. destruct (IH ltac:(parts; tauto) v Hv) as (l & -> & Fl). apply ty_iface; auto; [apply so_slice, sound_eface|]. now constructor.
  - intros w W B v [= <-]. apply ty_iface; auto; [apply so_map, sound_eface; discriminate|]. repeat constructor.
  - intros t ms H IH B v Hv. simpl in Hv.
    match type of Hv with option_map _ ?x = _ => destruct x as [m|] eqn:X end; [|discriminate]. injection Hv as <-.
    apply IH in X; [|parts; tauto|constructor|constructor|constructor].
    apply ty_iface; auto; [apply so_map, sound_eface; discriminate|]. now apply typed_map.
  - intros w1 t j w2 W1 H IH W2 B v Hv. simpl in Hv. destruct (iface_of j) as [x|] eqn:X; [|discriminate]. injection Hv as <-.
    eexists. split; [reflexivity|]. constructor; [|constructor]. apply IH; auto. parts. tauto.
  - intros w1 t j w2 r js W1 H IH W2 Hr IHr B v Hv. simpl in Hv. destruct (iface_of j) as [x|] eqn:X; [|discriminate].
    match type of Hv with option_map _ (match ?y with _ => _ end) = _ => destruct y as [xs|] eqn:Y end; [|discriminate]. injection Hv as <-.
    eexists. split; [reflexivity|]. constructor; [apply IH; auto; parts; tauto|].
    destruct (IHr ltac:(parts; tauto) (VIface (Some (TSlice TEface, VSlice (Some xs))))) as (l & [= <-] & Fl); auto. simpl. now rewrite Y.
  - intros w1 b k w2 w3 t j w4 W1 Hk W2 W3 H IH W4 B m0 m N K V Hm. destruct (iface_of j) as [x|] eqn:X; [|discriminate]. injection Hm as <-.
    apply put_typed; auto; [|apply IH; auto; parts; tauto]. simpl. apply (body_bytes b); auto. parts. tauto.
  - intros w1 b k w2 w3 t j w4 r ms W1 Hk W2 W3 H IH W4 Hr IHr B m0 m N K V Hm. destruct (iface_of j) as [x|] eqn:X; [|discriminate].
    destruct (put_typed KString TEface m0 (KS k) x) as (N1 & K1 & V1); auto; [simpl; apply (body_bytes b); auto; parts; tauto|apply IH; auto; parts; tauto|].
    apply (IHr ltac:(parts; tauto) _ _ N1 K1 V1 Hm).
Qed.
Lemma key_typed k t key : (forall kd id m x, k = KUser kd (Some id) m -> typed_key k (cu_key C id x)) -> key_text C k t key -> is_bytes t -> typed_key k key.
Proof.
  assert (Z0 : forall sg w, in_range sg w 0) by (intros [] []; cbv; split; congruence).
  intros Hk H. induction H as [b s Hs|sg w t z Ht Hr| |sg w|mar t key H IH|sg w mar t key H IH|kd id mar b s x Hs Hx|kd id mar]; intros B; simpl; auto.
  - apply (body_bytes b); auto. now apply quote_bytes.
  - constructor.
  - assert (X : typed_key KString key) by (apply IH; auto; discriminate). destruct key; auto.
  - assert (X : typed_key (KInt sg w) key) by (apply IH; auto; discriminate). destruct key; auto.
  - exact (Hk kd id mar x eq_refl).
  - exact (Hk kd id mar (cu_zero C id) eq_refl).
Qed.
Lemma typed_ptr T v : typed (TPtr T) (VPtr (Some v)) -> typed T v.
Proof. intros H. inversion H as [| | | | | | | | | | | | | | | | | |? A|? ? ? A| |]; subst; auto; destruct A; discriminate. Qed.
Lemma typed_held T P v : T = TEface \/ T = TIface -> typed T (VIface (Some (P, v))) -> sound P /\ typed P v.
Proof. intros [-> | ->] H; inversion H; subst; auto. Qed.
Lemma sound_inv T : sound T -> match T with
  | TPtr T | TArray _ T | TSlice T => sound T
  | TMap k T => (forall kd id m x, k = KUser kd (Some id) m -> typed_key k (cu_key C id x)) /\ sound T
  | TStruct layout fs => (forall T, In T layout -> sound T) /\ forall fd, In fd fs -> is_bytes (f_name fd) /\ route (TStruct layout fs) (f_path fd) (f_type fd)
  | _ => True
  end.
Proof. intros [T' K| | | | |]; auto. destruct T'; auto; contradiction. Qed.
Lemma forall2_split {A B} (R : A -> B -> Prop) la l1 x l2 : Forall2 R la (l1 ++ x :: l2) ->
  exists a1 a a2, la = a1 ++ a :: a2 /\ length a1 = length l1 /\ Forall2 R a1 l1 /\ R a x /\ Forall2 R a2 l2.
Proof.
  intros H. apply Forall2_app_inv_r in H as (a1 & a2 & H1 & H2 & ->). inversion H2 as [|a ? a3 ? Ha H3]; subst.
  exists a1, a, a3. split; auto. split; auto. clear - H1. induction H1; simpl; auto.
Qed.
Theorem decodes_typed :
  (forall T o old t v, decodes T o old t v -> sound T -> is_bytes t -> typed T old -> typed T v) /\
  (forall T ts vs, elems F32 F64 C E lookup useNumber disallow T ts vs -> sound T -> Forall is_bytes ts -> Forall (typed T) vs) /\
  (forall T a ts vs, overwrite F32 F64 C E lookup useNumber disallow T a ts vs -> sound T -> Forall is_bytes ts -> Forall (typed T) a ->
     Forall (typed T) vs /\ length vs = length a) /\
  (forall k T m ps m', entries F32 F64 C E lookup useNumber disallow k T m ps m' ->
     (forall kd id mr x, k = KUser kd (Some id) mr -> typed_key k (cu_key C id x)) -> sound T -> Forall (fun p => is_bytes (fst p) /\ is_bytes (snd p)) ps ->
     NoDup (map fst m) /\ Forall (typed_key k) (map fst m) /\ Forall (typed T) (map snd m) ->
     NoDup (map fst m') /\ Forall (typed_key k) (map fst m') /\ Forall (typed T) (map snd m')) /\
  (forall fs v ps v', members F32 F64 C E lookup useNumber disallow fs v ps v' -> forall T, sound T ->
     (forall fd, In fd fs -> route T (f_path fd) (f_type fd)) -> Forall (fun p => is_bytes (fst p) /\ is_bytes (snd p)) ps -> typed T v -> typed T v') /\
  (forall path T o old t v, at_path F32 F64 C E lookup useNumber disallow path T o old t v -> forall T0, route T0 path T -> sound T0 -> is_bytes t ->
     typed T0 old -> typed T0 v).
Proof.
  apply decodes_mutind.
  - auto.
  - constructor.
  - constructor.
  - constructor.
  - intros o old S B Ty. apply ty_iface_nil. auto.
  - constructor.
  - constructor.
  - constructor.
  - constructor.
  - auto.
  - constructor. auto.
  - constructor. auto.
  - constructor.
  - constructor.
  - intros o old b s Q Hs S B Ty. constructor. apply (body_bytes b); auto. now apply quote_bytes.
  - intros o old b b' s Q Hs Hs' S B Ty. constructor. apply (body_bytes b'); auto. apply quote_bytes. apply (body_bytes b); auto. now apply quote_bytes.
  - auto.
  - intros o old t N S B Ty. now constructor.
  - intros o old t N S B Ty. constructor. now apply quote_bytes.
  - intros o old t j V S B Ty. now constructor.
  - constructor.
  - constructor.
  - intros T o t v Nt H IH S B Ty. apply sound_inv in S. constructor. apply IH; auto. now apply zero_typed.
  - intros T o x t v Nt H IH S B Ty. apply sound_inv in S. constructor. apply IH; auto. now apply typed_ptr.
  - intros T o old t ts vs A H IH S B Ty. apply sound_inv in S. constructor. apply IH; auto. eapply array_bytes; eauto.
  - intros T o old b s data Hu Hs Hd S B Ty. constructor. apply Forall_map. apply lax_bytes in Hd. eapply Forall_impl; [|exact Hd].
    intros c Hc. apply typed_under. rewrite Hu. constructor. exact Hc.
  - intros n T o a t ts vs A H IH S B Ty. apply sound_inv in S.
    inversion Ty as [| | | | | | | | | | | |? ? K| | | | | |? K|? ? ? K| |]; subst; try (destruct K; discriminate).
    destruct (IH S (array_bytes _ _ A B) K) as (F & <-). now constructor.
  - intros k T o p t ps m Dk A H IH S B Ty. apply sound_inv in S as (Hk & S). apply typed_map. apply IH; auto; [eapply object_bytes; eauto|].
    inversion Ty as [| | | | | | | | | | | | | | | |? ? ? K1 K2 K3| |? K|? ? ? K| |]; subst; try (destruct K; discriminate); auto.
    repeat constructor.
  - intros layout fields o old t ps new A H IH S B Ty. apply IH; auto; [|eapply object_bytes; eauto]. intros fd Hi. apply sound_inv in S as (_ & S). now apply S.
  - intros o x t j v Nh V Hv S B Ty. eapply (proj1 iface_typed); eauto.
  - intros o P T x t v Hu Nt H IH S B Ty. apply typed_held in Ty as (SP & TP); auto. apply typed_under in TP. rewrite Hu in TP. apply typed_ptr in TP.
    pose proof (sound_under _ SP) as SP'. rewrite Hu in SP'. apply sound_inv in SP'. apply ty_iface; auto. apply typed_under. rewrite Hu. constructor. auto.
  - intros o P T x Hu Nt S B Ty. apply ty_iface_nil. auto.
  - intros o P T T' x Hu Hu' S B Ty. apply typed_held in Ty as (SP & TP); auto. apply sound_under in SP. rewrite Hu in SP. apply ty_iface; auto. constructor.
    apply typed_under. rewrite Hu'. constructor.
  - intros o P T x t v Hu Nt H IH S B Ty. apply typed_held in Ty as (SP & TP); auto. apply typed_under in TP. rewrite Hu in TP. apply typed_ptr in TP.
    pose proof (sound_under _ SP) as SP'. rewrite Hu in SP'. apply sound_inv in SP'. apply ty_iface; auto. apply typed_under. rewrite Hu. constructor. auto.
  - intros n o old t v H IH S B Ty. constructor. apply IH; auto; [apply SE|]. exact (proj1 (typed_under (TRef n) old) Ty).
  - constructor.
  - intros T t ts v vs H IH Hs IHs S B. inversion B; subst. constructor; auto. apply IH; auto. now apply zero_typed.
  - intros T ts K S B Ty. split; auto.
  - intros T a l t ts v vs H IH Hs IHs S B Ty. inversion B; subst. inversion Ty; subst. destruct IHs as (A & L); auto. split; [constructor; auto|simpl; auto].
  - intros T l S B Ty. split; [|apply repeat_length]. apply Forall_forall. intros v Hv. apply repeat_spec in Hv as ->. now apply zero_typed.
  - auto.
  - intros k T m kt key t v ps m' Hk H IH Hs IHs K S B (A1 & A2 & A3). inversion B as [|? ? (B1 & B2) B']; subst. apply IHs; auto.
    apply put_typed; auto; [eapply key_typed; eauto|]. apply IH; auto. now apply zero_typed.
  - auto.
  - intros fs v b name i fd t v1 ps v2 Hs Hl Hn H IH Hm IHm T S R B Ty. inversion B as [|? ? (B1 & B2) B']; subst. apply IHm; auto. apply (IH T); auto.
    apply R. eapply nth_error_In; eauto.
  - intros fs v b name t j ps v2 Hs Hl Hd V Hm IHm T S R B Ty. inversion B; subst. apply IHm; auto.
  - intros T o old t v H IH T0 R S B Ty. inversion R; subst. auto.
  - intros path T o l1 x l2 t y H IH T0 R S B Ty. inversion R as [|? layout fs i Ti ? ? Hu Hn Hr|]; subst. apply typed_under in Ty. rewrite Hu in Ty.
    apply sound_under in S. rewrite Hu in S. apply sound_inv in S as (S & _).
    inversion Ty as [| | | | | | | | | | | | | | | | |? ? ? K|? K|? ? ? K| |]; subst; try (destruct K; discriminate).
    destruct (forall2_split _ _ _ _ _ K) as (a1 & a & a2 & -> & L & K1 & Ka & K2). rewrite <- L, nth_error_app2, Nat.sub_diag in Hn by lia. injection Hn as <-.
    apply typed_under. rewrite Hu. constructor. apply Forall2_app; auto. constructor; auto. apply (IH a); auto. apply S. apply in_or_app. right. now left.
  - intros path T o alloc x t y H IH T0 R S B Ty. inversion R as [| |? T1 ? ? ? Hu Ha Hr]; subst. apply typed_under in Ty. rewrite Hu in Ty. apply typed_ptr in Ty.
    apply sound_under in S. rewrite Hu in S. apply sound_inv in S. apply typed_under. rewrite Hu. constructor. apply (IH T1); auto.
  - intros path T o T' t y H IH T0 R S B Ty. inversion R as [| |? T1 ? ? ? Hu Ha Hr]; subst. destruct Ha as [Ha|Ha]; [discriminate|]. injection Ha as <-.
    apply sound_under in S. rewrite Hu in S. apply sound_inv in S. apply typed_under. rewrite Hu. constructor. apply (IH T'); auto. now apply zero_typed.
Qed.
End Typed.
