(** The grammar is not ambiguous: a text has one meaning. *)
From Coq Require Import String ZArith List Bool Lia Arith.
From Verif Require Import Base ModelIter ModelStack ModelSkip ModelStr ModelInt ModelFloat ModelRead ModelIterate ModelOps
  Sim SimLib StackFacts Machine SimSkip SimRaw SimStr SimInt SimFloat SimRead SimOps
  NumFacts StrFacts MachineFacts FloatFacts GrammarFacts IterFacts Spec.
Import ListNotations.
Local Open Scope Z_scope.

(** the machine that builds the tree of the specification *)
Definition p_treeLeaf : Z -> P jval :=
  gleaf (pbind p_readStringAsSlice (fun s => pret (JStr s))) (fun c => pbind (p_readNumberAsString c) (fun t => pret (JNum t)))
    (fun s a => pbind (p_expectBytes s) (fun _ => pret a)) JNull (JBool true) (JBool false).
Definition treeAlg : alg jval bytes (list jval) (list (bytes * jval)) :=
  mkAlg p_treeLeaf p_readObjectField [] [] (fun l v => l ++ [v]) [] (fun m k v => m ++ [(k, v)]) JArr JObj (fun d => EUnexpectedByte d cCOMMA cRBRACK).
Definition tconv (j : jval) : option jval := Some j.
Lemma mapM_tconv l : mapM tconv l = Some l.
Proof. induction l as [|x l IH]; simpl; auto. now rewrite IH. Qed.
Lemma fold_add {A B} (g : list A -> B -> list A) (h : B -> A) xs : (forall l x, g l x = l ++ [h x]) -> forall acc, fold_left g xs acc = acc ++ map h xs.
Proof. intros H. induction xs as [|x xs IH]; intros acc; simpl; [now rewrite app_nil_r|]. rewrite IH, H, <- app_assoc. reflexivity. Qed.
Lemma tconv_arr vs : tconv (JArr vs) = option_map (fun xs => finA treeAlg (fold_left (addA treeAlg) xs (emptyA treeAlg))) (mapM tconv vs).
Proof. rewrite mapM_tconv. simpl. rewrite (fold_add _ (fun x => x)) by reflexivity. now rewrite map_id. Qed.
Lemma tconv_obj ms : tconv (JObj ms) =
  option_map (fun xs => finO treeAlg (fold_left (fun s kv => addO treeAlg s (fst kv) (snd kv)) xs (emptyO treeAlg))) (mapM (mconv tconv (fun k => k)) ms).
Proof.
  assert (H : mapM (mconv tconv (fun k => k)) ms = Some ms). { induction ms as [|[k j] ms IH]; simpl; auto. now rewrite IH. }
  rewrite H. simpl. rewrite (fold_add _ (fun x => x)) by now intros l []. now rewrite map_id.
Qed.
Lemma tleaf_ok c f l v r : c <> 91 -> c <> 123 ->
  (leaf treeAlg c f l = POk v r <-> exists t j, value (c :: t) j /\ l = t ++ r /\ tconv j = Some v /\ vends (c :: t) j f r).
Proof.
  apply gleaf_ok; auto.
  - intros f0 l0 v0 r0. rewrite bind_ret. split.
    + intros (s & Hs & ->). apply readString_spec in Hs. destruct Hs as (b & -> & Hb). exists b, s. auto.
    + intros (b & s & -> & Hb & [= <-]). exists s. split; auto. apply readString_spec. eauto.
  - intros c0 f0 l0 v0 r0 Hc. rewrite bind_ret. split.
    + intros (s & Hs & ->). apply capturedNumber in Hs; auto. destruct Hs as (t & Hn & -> & He & ->). exists t. auto.
    + intros (t & Hn & -> & He & [= <-]). exists (c0 :: t). split; auto. apply capturedNumber; eauto.
  - intros s a f0 l0 v0 r0 Hs. now apply expect_spec.
Qed.
Lemma tfield_ok f l k r : field treeAlg f l = POk k r <-> exists b s w, string_body b s /\ ws w /\ l = b ++ 34 :: w ++ 58 :: r /\ k = (fun x => x) s.
Proof.
  apply (gfield_ok p_readStringAsSlice (fun x => x)). intros f0 l0 k0 r0. rewrite readString_spec. split.
  - intros (b & -> & Hb). eauto.
  - intros (b & s & -> & Hb & ->). eauto.
Qed.
Definition p_tree : P jval := pbind p_takeToken (p_value treeAlg).
Theorem tree_spec f l j r : p_tree f l = POk j r <-> exists w t, l = w ++ t ++ r /\ ws w /\ value t j /\ vends t j f r.
Proof.
  unfold p_tree. rewrite (read_value_spec treeAlg tconv (fun x => x) tconv_arr tconv_obj tleaf_ok tfield_ok). unfold tconv. split.
  - intros (w & t & j' & E & Hw & Hv & [= ->] & He). eauto 8.
  - intros (w & t & E & Hw & Hv & He). exists w, t, j. auto.
Qed.
Theorem value_det t j j' : value t j -> value t j' -> j = j'.
Proof.
  intros H H'.
  assert (K : p_tree EEOF ([] ++ t ++ []) = POk j []).
  { apply tree_spec. exists [], t. split; auto. split; [constructor|]. split; auto. destruct j; simpl; auto. split; [discriminate|auto]. }
  assert (K' : p_tree EEOF ([] ++ t ++ []) = POk j' []).
  { apply tree_spec. exists [], t. split; auto. split; [constructor|]. split; auto. destruct j'; simpl; auto. split; [discriminate|auto]. }
  congruence.
Qed.
