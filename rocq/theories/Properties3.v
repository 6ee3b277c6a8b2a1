(** Properties C29, C31, C34 and the base64 part of C39.  Each theorem is followed by an example
    that meets its hypotheses. *)
From Coq Require Import String ZArith List Bool Lia Arith.
From Verif Require Import Base Spec SpecStream SpecFold SpecBase64 SpecGrow ModelRead ModelStr ModelStream ModelTag ModelFold
  ModelBase64 ModelGrow StreamStrFacts TagFacts FoldFacts Base64Facts GrowFacts Properties2.
Import ListNotations.
Local Open Scope Z_scope.

(** ** C31 *)
Theorem C31_parseTag tag name opts :
  parseTag tag = (name, opts) <-> ~ In 44 name /\ (tag = name ++ 44 :: opts \/ (tag = name /\ opts = [])).
Proof. split; [apply parseTag_spec|]. intros [H1 H2]. now apply parseTag_total. Qed.
Example C31_parseTag_ex : parseTag (bs "a,omitempty,string") = (bs "a", bs "omitempty,string") /\ parseTag (bs ",x") = ([], bs "x").
Proof. vm_compute. auto. Qed.

Theorem C31_contains o x : x <> [] -> (Contains o x = true <-> item o x).
Proof. apply Contains_spec. Qed.
Example C31_contains_ex : Contains (bs "omitempty,string") (bs "string") = true /\ Contains (bs "omitempty2,string") (bs "omitempty") = false
  /\ item (bs "omitempty,string") (bs "string").
Proof.
  split; [vm_compute; reflexivity|]. split; [vm_compute; reflexivity|]. exists (bs "omitempty,"), []. split; [reflexivity|]. split.
  - vm_compute. intuition discriminate.
  - split; [right; exists (bs "omitempty"); reflexivity|auto].
Qed.
(** For the empty option name, which the code never asks for, the claim fails: the last piece is not
    looked at if it is empty. *)
Theorem C31_contains_refuted : exists o x, item o x /\ Contains o x = false.
Proof.
  exists (bs "a,"), []. split; [|vm_compute; reflexivity]. exists (bs "a,"), []. repeat split; auto. right. exists (bs "a"). reflexivity.
Qed.

Theorem C31_valid isLetter isDigit s : is_bytes s ->
  (isValidTag isLetter isDigit s = true <-> s <> [] /\ exists rs, code_points s rs /\ Forall (tag_char isLetter isDigit) rs).
Proof. apply isValidTag_spec. Qed.
Definition demoLetter (c : Z) : bool := ((65 <=? c) && (c <=? 90)) || ((97 <=? c) && (c <=? 122)) || (c =? 233).
Definition demoDigit (c : Z) : bool := (48 <=? c) && (c <=? 57).
Example C31_valid_ex : is_bytes [97; 195; 169; 45] /\ isValidTag demoLetter demoDigit [97; 195; 169; 45] = true /\
  isValidTag demoLetter demoDigit (bs "a\") = false /\ isValidTag demoLetter demoDigit [] = false.
Proof. split; [apply bytes_b; reflexivity|]. vm_compute. auto. Qed.

(** ** C29 *)
Theorem C29_small E sf names key cs i : folding E -> walks E sf -> NoDup names -> Forall is_bytes names -> is_bytes key ->
  (findSmall sf names key cs = Some i <-> matches E names key cs i).
Proof. intros. now apply findSmall_spec. Qed.
Theorem C29_large E sf names key buf cs i : folding E -> walks E sf -> NoDup names -> Forall is_bytes names -> is_bytes key ->
  (findLarge sf names key buf cs = Some i <-> matches E names key cs i).
Proof. intros. now apply findLarge_spec. Qed.
Theorem C29_one E sf name key cs i : folding E -> walks E sf -> is_bytes name -> is_bytes key -> no_special key ->
  (findOne sf name key cs = Some i <-> matches E [name] key cs i).
Proof. intros. now apply findOne_spec. Qed.
(** with CaseSensitive the restriction is not needed *)
Theorem C29_one_exact E sf name key i : findOne sf name key true = Some i <-> matches E [name] key true i.
Proof.
  rewrite findOne_exact. unfold matches, exact_match. split.
  - intros [-> ->]. left. reflexivity.
  - intros [H|[H _]]; [|discriminate]. destruct i as [|[|i]]; try discriminate. now injection H.
Qed.

(** A folding: the ASCII letters, the long s and the Kelvin sign. *)
Definition demoClass (r : Z) : Z :=
  if (97 <=? r) && (r <=? 122) then r - 32 else if r =? 383 then 83 else if r =? 8490 then 75 else r.
Definition demoE (a b : Z) : Prop := demoClass a = demoClass b.
Definition demoSf (r : Z) : Z :=
  if (65 <=? r) && (r <=? 90) then r + 32
  else if r =? 115 then 383 else if r =? 107 then 8490 else if r =? 383 then 83 else if r =? 8490 then 75
  else if (97 <=? r) && (r <=? 122) then r - 32 else r.
Ltac demo_cases := unfold demoE, demoClass, demoSf, other_case, scalar in *;
  repeat match goal with
  | |- context [if ?b then _ else _] => destruct b eqn:?
  | H : context [if ?b then _ else _] |- _ => destruct b eqn:?
  end; try lia.
Lemma demo_folding : folding demoE.
Proof.
  constructor.
  - reflexivity.
  - intros a b. unfold demoE. auto.
  - intros a b c. unfold demoE. congruence.
  - intros a b. demo_cases.
  - intros a x H. demo_cases.
Qed.
Lemma demo_walks : walks demoE demoSf.
Proof.
  constructor.
  - intros r. demo_cases.
  - intros r x. demo_cases.
  - intros r H x Hx.
    assert (K1 : demoE r (demoClass r)) by (demo_cases).
    assert (K2 : demoE r (demoSf r)) by (demo_cases).
    assert (K3 := H _ K2). revert K3 Hx. clear. demo_cases.
  - exists (fun r => if r <=? 90 then 2%nat else if r <=? 122 then 1%nat else 0%nat). intros r. split; [demo_cases|].
    unfold demoSf. demo_cases.
Qed.
Definition demoNames : list bytes := [bs "kind"; bs "Name"; bs "NAME"; [195; 169]].
Example C29_ex : folding demoE /\ walks demoE demoSf /\ NoDup demoNames /\ Forall is_bytes demoNames /\
  findSmall demoSf demoNames (bs "NAME") false = Some 2%nat /\ findSmall demoSf demoNames (bs "name") false = Some 1%nat /\
  findSmall demoSf demoNames (bs "name") true = None /\ findLarge demoSf demoNames (bs "name") (bs "xy") false = Some 1%nat /\
  findLarge demoSf demoNames (utf8 8490 ++ bs "ind") [] false = Some 0%nat /\
  findSmall demoSf demoNames (utf8 8490 ++ bs "ind") false = Some 0%nat.
Proof.
  split; [apply demo_folding|]. split; [apply demo_walks|]. split.
  { unfold demoNames. repeat constructor; vm_compute; intuition discriminate. }
  split; [|vm_compute; repeat split].
  repeat constructor; vm_compute; intuition discriminate.
Qed.
Example C29_one_ex : no_special (bs "NAME") /\ is_bytes (bs "NAME") /\ findOne demoSf (bs "name") (bs "NAME") false = Some 0%nat /\
  findOne demoSf (bs "name") (bs "nam") false = None.
Proof.
  assert (B : is_bytes (bs "NAME")) by (apply bytes_b; reflexivity). split; [|split; auto; vm_compute; auto].
  intros rs H. apply cp_runes in H; auto. subst. rewrite runes_id; [|repeat constructor; vm_compute; intuition discriminate].
  vm_compute. intuition discriminate.
Qed.
(** The one-field decoder calls the comparison with its arguments swapped: a key that the other
    decoders accept for the name is not found. *)
Theorem C29_one_refuted : exists E sf name key, folding E /\ walks E sf /\ is_bytes name /\ is_bytes key /\
  matches E [name] key false 0 /\ findSmall sf [name] key false = Some 0%nat /\ findOne sf name key false = None.
Proof.
  exists demoE, demoSf, (bs "k"), (utf8 8490). split; [apply demo_folding|]. split; [apply demo_walks|].
  assert (Bn : is_bytes (bs "k")) by (apply bytes_b; reflexivity). assert (Bk : is_bytes (utf8 8490)) by (apply bytes_b; reflexivity).
  split; auto. split; auto. assert (F : findSmall demoSf [bs "k"] (utf8 8490) false = Some 0%nat) by (vm_compute; reflexivity).
  split; [|split; [exact F|vm_compute; reflexivity]].
  apply (C29_small demoE demoSf) in F; auto using demo_folding, demo_walks. constructor; [intros []|constructor].
Qed.
(** at most one field matches *)
Theorem C29_unique E names key cs i j : NoDup names -> matches E names key cs i -> matches E names key cs j -> i = j.
Proof.
  intros N Hi Hj.
  assert (U : forall a b, exact_match names key a -> exact_match names key b -> a = b) by (intros a b; apply nth_unique; auto).
  destruct Hi as [Hi|(_ & Ni & (n & Hn & Fn) & Mi)], Hj as [Hj|(_ & Nj & (m & Hm & Fm) & Mj)]; auto.
  - exfalso. apply Nj. eapply nth_error_In; eauto.
  - exfalso. apply Ni. eapply nth_error_In; eauto.
  - destruct (Nat.lt_trichotomy i j) as [L|[L|L]]; auto; exfalso; [eapply Mj; eauto|eapply Mi; eauto].
Qed.

(** ** C34 *)
Theorem C34_grow {A} (zero : A) s n : valid s -> (sl_len s <= n)%nat ->
  valid (unsafeGrowSlice zero s n) /\ sl_len (unsafeGrowSlice zero s n) = n /\
  firstn (sl_len s) (elems (unsafeGrowSlice zero s n)) = elems s.
Proof. apply grow_keeps. Qed.
Theorem C34_sequence {A} (zero : A) (ops : list (op A)) :
  match runOps zero ops (unsafeMakeSlice zero 0 0) with
  | Some s => listOps zero ops [] = Some (elems s) /\ valid s
  | None => listOps zero ops [] = None
  end.
Proof.
  destruct (make_fresh zero) as (V & F & E). assert (K := runOps_spec zero ops _ V F). rewrite E in K.
  destruct (runOps zero ops (unsafeMakeSlice zero 0 0)); tauto.
Qed.
Theorem C34_capacity {A} (zero : A) s n : (0 < n)%nat -> valid s -> (sl_len s <= n)%nat ->
  (n <= sl_cap (unsafeGrowSlice zero s n) <= Nat.max (sl_cap s) (2 * n))%nat.
Proof. apply grow_cap. Qed.
Example C34_ex : let s := mkSlice [7; 8; 9] 2 in valid s /\ (sl_len s <= 5)%nat /\
  unsafeGrowSlice 0 s 5 = mkSlice [7; 8; 0; 0; 0; 0] 5 /\
  option_map elems (runOps 0 [Grow 1; Write 0 5; Grow 2; Write 1 6; Grow 3; Write 2 7] (unsafeMakeSlice 0 0 0)) = Some [5; 6; 7].
Proof. unfold valid, sl_cap. simpl. split; [lia|]. split; [lia|]. vm_compute. auto. Qed.

(** ** C39, the text *)
Theorem C39_text data : is_bytes data -> base64 data (b64encode data).
Proof. apply b64encode_spec. Qed.
Theorem C39_decode data text : base64 data text -> b64decode text = Some data.
Proof. apply b64decode_complete. Qed.
(** exactly the texts that are decoded: filling bits and line breaks are not checked *)
Theorem C39_accepts text data : b64decode text = Some data <-> base64_lax data (no_breaks text).
Proof. apply b64decode_spec. Qed.
Example C39_accepts_ex : b64decode (bs "Zm9" ++ [10] ++ bs "v/x==") = Some (bs "foo" ++ [255]) /\ b64decode (bs "/x=a") = None /\ b64decode (bs "/x==a") = None.
Proof. vm_compute. auto. Qed.
Example C39_ex : is_bytes (bs "fooba") /\ b64encode (bs "fooba") = bs "Zm9vYmE=" /\ base64 (bs "fooba") (bs "Zm9vYmE=") /\
  b64encode [255; 254] = bs "//4=" /\ b64decode (bs "//4=") = Some [255; 254] /\ b64decode (bs "//4") = None.
Proof.
  assert (B : is_bytes (bs "fooba")) by (apply bytes_b; reflexivity).
  split; auto. split; [vm_compute; reflexivity|]. split; [|vm_compute; auto].
  assert (K := C39_text _ B). vm_compute in K. exact K.
Qed.

Print Assumptions C31_parseTag.
Print Assumptions C31_contains.
Print Assumptions C31_contains_refuted.
Print Assumptions C31_valid.
Print Assumptions C29_small.
Print Assumptions C29_large.
Print Assumptions C29_one.
Print Assumptions C29_one_exact.
Print Assumptions C29_one_refuted.
Print Assumptions C29_unique.
Print Assumptions C34_grow.
Print Assumptions C34_sequence.
Print Assumptions C34_capacity.
Print Assumptions C39_text.
Print Assumptions C39_decode.
Print Assumptions C39_accepts.
