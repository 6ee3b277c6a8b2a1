(** A failed decoding leaves a value of the type of the variable. *)
From Coq Require Import String ZArith List Bool Lia Arith.
From Verif Require Import Base ModelInt ModelFloat ModelOps ModelVal ModelPart Spec SpecStream SpecVal SpecPart SpecTyped EncFacts TypedFacts.
Import ListNotations.
Local Open Scope Z_scope.

Section PartTyped.
Variables F32 F64 : floatOps.
Variable C : custom.
Notation gval := (gval F32 F64 C).
Variable E : env F32 F64 C.
Notation zero := (zero F32 F64 C E).
Notation under := (under F32 F64 C E).
Notation sound := (sound F32 F64 C E).
Notation typed := (typed F32 F64 C E).
Notation route := (route F32 F64 C E).
Variable R : failures C.
Variable lookup : list bytes -> bytes -> option nat.
Variables b d : bool.
Variable f : err.
Notation taken := (taken F32 F64 C E lookup b d f).
Notation taken_at := (taken_at F32 F64 C E lookup b d f).
Notation front := (front f).
Notation leaves := (leaves F32 F64 C E R lookup b d f).
Notation leaves_elems := (leaves_elems F32 F64 C E R lookup b d f).
Notation leaves_entries := (leaves_entries F32 F64 C E R lookup b d f).
Notation leaves_members := (leaves_members F32 F64 C E R lookup b d f).
Notation leaves_at := (leaves_at F32 F64 C E R lookup b d f).
Notation keyed := (keyed C).
Notation put := (put F32 F64 C).
Hypothesis SE : sound_env F32 F64 C E.

Lemma bytes_part w c s : is_bytes (w ++ c :: s) -> is_bytes s.
Proof. intros H. apply bytes_app in H. destruct H as [_ H]. now inversion H. Qed.
Lemma taken_typed T o v s r v' : taken T o v s r v' -> sound T -> is_bytes s -> typed T v -> typed T v' /\ is_bytes r.
Proof.
  intros (w & t & -> & _ & H & _) S B Ty. apply bytes_app in B as [_ B]. apply bytes_app in B as [B1 B2]. split; auto.
  eapply (proj1 (decodes_typed F32 F64 C E lookup b d SE)); eauto.
Qed.
Lemma taken_at_typed path T o v s r v' T0 : taken_at path T o v s r v' -> route T0 path T -> sound T0 -> is_bytes s -> typed T0 v -> typed T0 v' /\ is_bytes r.
Proof.
  intros (w & t & -> & _ & H & _) Rt S B Ty. apply bytes_app in B as [_ B]. apply bytes_app in B as [B1 B2]. split; auto.
  destruct (decodes_typed F32 F64 C E lookup b d SE) as (_ & _ & _ & _ & _ & Q). eapply Q; eauto.
Qed.
Lemma keyed_bytes k s key r : keyed k s key r -> is_bytes s -> (forall kd id m x, k = KUser kd (Some id) m -> typed_key k (cu_key C id x)) ->
  typed_key k key /\ is_bytes r.
Proof.
  intros (w & kt & w' & -> & _ & _ & H) B Hk. apply bytes_app in B as [_ B]. apply bytes_app in B as [B1 B2]. split; [eapply key_typed; eauto|].
  now apply bytes_part in B2.
Qed.
Lemma named_bytes s name r : named s name r -> is_bytes s -> is_bytes r.
Proof. intros (w & x & w' & -> & _ & _ & _) B. apply bytes_app in B as [_ B]. apply bytes_app in B as [_ B]. now apply bytes_part in B. Qed.
Lemma front_bytes t s r : front t s r -> is_bytes s -> is_bytes r.
Proof. intros (w & -> & _ & _) B. apply bytes_app in B as [_ B]. apply bytes_app in B as [_ B]. auto. Qed.

Theorem leaves_typed :
  (forall T o v s v', leaves T o v s v' -> sound T -> is_bytes s -> typed T v -> typed T v') /\
  (forall T l s l', leaves_elems T l s l' -> sound T -> is_bytes s -> Forall (typed T) l -> Forall (typed T) l' /\ length l' = length l) /\
  (forall k T m s m', leaves_entries k T m s m' -> (forall kd id mr x, k = KUser kd (Some id) mr -> typed_key k (cu_key C id x)) -> sound T ->
     is_bytes s -> NoDup (map fst m) /\ Forall (typed_key k) (map fst m) /\ Forall (typed T) (map snd m) ->
     NoDup (map fst m') /\ Forall (typed_key k) (map fst m') /\ Forall (typed T) (map snd m')) /\
  (forall fs v s v', leaves_members fs v s v' -> forall T, sound T -> (forall fd, In fd fs -> route T (f_path fd) (f_type fd)) -> is_bytes s ->
     typed T v -> typed T v') /\
  (forall p T o v s v', leaves_at p T o v s v' -> forall T0, route T0 p T -> sound T0 -> is_bytes s -> typed T0 v -> typed T0 v').
Proof.
  apply leaves_mutind; auto.
  - constructor.
  - constructor.
  - intros T o x s c y _ _ _ IH S B Ty. apply sound_inv in S. apply typed_ptr in Ty. constructor. auto.
  - intros T o P T' x s c y HT Hu _ _ _ IH S B Ty. apply typed_held in Ty as (SP & TP); auto. apply typed_under in TP. rewrite Hu in TP. apply typed_ptr in TP.
    pose proof (sound_under _ _ _ _ SE _ SP) as SP'. rewrite Hu in SP'. apply sound_inv in SP'. apply ty_iface; auto. apply typed_under. rewrite Hu. constructor. auto.
  - intros n T o a w s a' _ _ IH S B Ty. apply sound_inv in S. apply bytes_part in B.
    inversion Ty as [| | | | | | | | | | | |? ? K| | | | | |? K|? ? ? K| |]; subst; try (destruct K; discriminate).
    destruct (IH S B K) as (Q & <-). now constructor.
  - intros k T o p w s m _ _ _ _ IH S B Ty. apply sound_inv in S as (Hk & S). apply bytes_part in B. apply typed_map. apply IH; auto.
    inversion Ty as [| | | | | | | | | | | | | | | |? ? ? K1 K2 K3| |? K|? ? ? K| |]; subst; try (destruct K; discriminate); auto.
    repeat constructor.
  - intros layout fs o v w s v' _ _ _ IH S B Ty. apply bytes_part in B. apply IH; auto. intros fd Hi. apply sound_inv in S as (_ & S). now apply S.
  - intros n o v s v' _ IH S B Ty. constructor. apply IH; auto; [apply SE|]. exact (proj1 (typed_under F32 F64 C E (TRef n) v) Ty).
  - intros T x l s y _ _ IH S B Ty. inversion Ty; subst. split; auto.
  - intros T x l s r y Ht _ S B Ty. inversion Ty; subst. destruct (taken_typed _ _ _ _ _ _ Ht S B) as [Q _]; auto.
  - intros T x l s w r y l' Ht _ _ IH S B Ty. inversion Ty; subst. destruct (taken_typed _ _ _ _ _ _ Ht S B) as [Q B']; auto. apply bytes_part in B'.
    destruct (IH S B') as [Q1 Q2]; auto. split; simpl; auto.
  - intros k T m s key s' r v Hk Ht _ K S B (A1 & A2 & A3). destruct (keyed_bytes _ _ _ _ Hk B K) as [Q B1].
    destruct (taken_typed _ _ _ _ _ _ Ht S B1) as [Q1 B2]; [now apply zero_typed|]. now apply put_typed.
  - intros k T m s key s' w r v m' Hk Ht _ _ IH K S B (A1 & A2 & A3). destruct (keyed_bytes _ _ _ _ Hk B K) as [Q B1].
    destruct (taken_typed _ _ _ _ _ _ Ht S B1) as [Q1 B2]; [now apply zero_typed|]. apply bytes_part in B2. apply IH; auto. now apply put_typed.
  - intros fs v s name r t w r' j v' Hn _ _ Hf _ _ _ IH T S Rt B Ty. apply (named_bytes _ _ _ Hn) in B. apply (front_bytes _ _ _ Hf) in B.
    apply bytes_part in B. auto.
  - intros fs v s name r i fd v' Hn _ Hi _ _ IH T S Rt B Ty. apply (named_bytes _ _ _ Hn) in B. apply IH; auto. apply Rt. eapply nth_error_In; eauto.
  - intros fs v s name r i fd r' v1 Hn _ Hi Ht _ T S Rt B Ty. apply (named_bytes _ _ _ Hn) in B.
    apply nth_error_In in Hi. destruct (taken_at_typed _ _ _ _ _ _ _ _ Ht (Rt _ Hi) S B Ty). auto.
  - intros fs v s name r i fd w r' v1 v' Hn _ Hi Ht _ _ IH T S Rt B Ty. apply (named_bytes _ _ _ Hn) in B.
    apply nth_error_In in Hi. destruct (taken_at_typed _ _ _ _ _ _ _ _ Ht (Rt _ Hi) S B Ty) as [Q B']. apply bytes_part in B'. auto.
  - intros T o v s v' _ IH T0 Rt S B Ty. inversion Rt; subst. auto.
  - intros path T o l1 x l2 s y _ IH T0 Rt S B Ty. inversion Rt as [|? layout fs i Ti ? ? Hu Hn Hr|]; subst. apply typed_under in Ty. rewrite Hu in Ty.
    apply (sound_under _ _ _ _ SE) in S. rewrite Hu in S. apply sound_inv in S as (S & _).
    inversion Ty as [| | | | | | | | | | | | | | | | |? ? ? K|? K|? ? ? K| |]; subst; try (destruct K; discriminate).
    destruct (forall2_split _ _ _ _ _ K) as (a1 & a & a2 & -> & L & K1 & Ka & K2). rewrite <- L, nth_error_app2, Nat.sub_diag in Hn by lia. injection Hn as <-.
    apply typed_under. rewrite Hu. constructor. apply Forall2_app; auto. constructor; auto. apply (IH a); auto. apply S. apply in_or_app. right. now left.
  - intros path T o alloc x s y _ IH T0 Rt S B Ty. inversion Rt as [| |? T1 ? ? ? Hu Ha Hr]; subst. apply typed_under in Ty. rewrite Hu in Ty. apply typed_ptr in Ty.
    apply (sound_under _ _ _ _ SE) in S. rewrite Hu in S. apply sound_inv in S. apply typed_under. rewrite Hu. constructor. apply (IH T1); auto.
  - intros path T o T' s y _ IH T0 Rt S B Ty. inversion Rt as [| |? T1 ? ? ? Hu Ha Hr]; subst. destruct Ha as [Ha|Ha]; [discriminate|]. injection Ha as <-.
    apply (sound_under _ _ _ _ SE) in S. rewrite Hu in S. apply sound_inv in S. apply typed_under. rewrite Hu. constructor. apply (IH T'); auto. now apply zero_typed.
Qed.
End PartTyped.
