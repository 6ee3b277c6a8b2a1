(** C22: what the result of Flush says. *)
From Coq Require Import String ZArith List Bool Lia Arith.
From Verif Require Import Base Spec SpecStream ModelStream StreamIntFacts StreamStrFacts StreamFacts StreamTree Properties1 Properties2.
Import ListNotations.
Local Open Scope Z_scope.

Section Flushed.
Context {G32 G64 : floatFmt}.
Variables (S32 : fmt_sane G32) (S64 : fmt_sane G64).
Notation sop := (@sop G32 G64).
(** calls and flushes keep the writer, as far as its answers are concerned *)
Lemma sops_writer (os : list sop) : forall s s', Forall typed (callsOf os) -> sops os s = Some s' -> option_map w_fn (sm_writer s') = option_map w_fn (sm_writer s).
Proof.
  induction os as [|[c|] os IH]; intros s s' T R.
  - injection R as <-. reflexivity.
  - simpl in T. inversion T as [|? ? Tc T']. subst. destruct s as [w b e p h]. destruct (call_effect S32 S64 c e p h Tc) as (t & e1 & p1 & h1 & X).
    cbn [sops] in R. rewrite X in R. exact (IH _ _ T' R).
  - cbn [sops] in R. rewrite (IH _ _ T R). destruct s as [[w|] b [e|] p h]; try reflexivity. unfold Flush, w_write. cbn [sm_error sm_writer sm_buffer].
    destruct (w_fn w (w_calls w) b). reflexivity.
Qed.
(** After any calls and flushes without an error of the streamer: Flush returns nil only if the writer has accepted everything that was written, and otherwise an error of the writer *)
Theorem C22_outcome (os : list sop) s w s' : Forall typed (callsOf os) -> sm_writer s = Some w -> obeys w -> sops os s = Some s' -> sm_error s' = None ->
  exists s0, calls (callsOf os) s = Some s0 /\
  ((fst (Flush s') = None /\ sm_buffer (snd (Flush s')) = [] /\ logOf (snd (Flush s')) = w_log w ++ sm_buffer s0) \/
   exists e h d, fst (Flush s') = Some e /\ snd (w_fn w h d) = Some e).
Proof.
  intros T Hw O R Ne. assert (B : boundedS s) by (unfold boundedS; rewrite Hw; intros h d; apply O).
  destruct (sops_keep S32 S64 os s s' T B R) as (s0 & Hc & Hl & _). exists s0. split; [exact Hc|].
  assert (Hf := sops_writer os s s' T R). rewrite Hw in Hf. destruct s' as [[w'|] b e p h]; [|discriminate]. injection Hf as Hf. cbn [sm_error] in Ne. subst e.
  unfold logOf in *. rewrite Hw in Hl. cbn [sm_writer sm_buffer] in Hl. unfold Flush, w_write. cbn [sm_error sm_writer sm_buffer]. rewrite Hf.
  destruct (O (w_calls w') b) as [O1 O2]. destruct (w_fn w (w_calls w') b) as [n er] eqn:E. cbn [fst snd] in *. destruct er as [er|].
  - right. exists er, (w_calls w'), b. rewrite E. auto.
  - left. assert (L : n = length b) by (destruct (Nat.lt_ge_cases n (length b)) as [K|K]; [now destruct (O2 K)|lia]). subst n.
    rewrite Nat.ltb_irrefl. split; [reflexivity|]. split; [reflexivity|]. cbn [sm_writer w_log]. now rewrite firstn_all.
Qed.
(** Without a writer nothing is lost, and Flush says so *)
Theorem C22_unattached (os : list sop) s s' : Forall typed (callsOf os) -> sm_writer s = None -> sops os s = Some s' -> sm_error s' = None ->
  Flush s' = (Some ErrNoAttachedWriter, s') /\ exists s0, calls (callsOf os) s = Some s0 /\ sm_buffer s' = sm_buffer s0.
Proof.
  intros T Hw R Ne. assert (B : boundedS s) by (unfold boundedS; now rewrite Hw). assert (Hf := sops_writer os s s' T R). rewrite Hw in Hf.
  destruct (sops_keep S32 S64 os s s' T B R) as (s0 & Hc & Hl & _). destruct s' as [[w'|] b e p h]; [discriminate|]. cbn [sm_error] in Ne. subst e. split; [reflexivity|].
  exists s0. split; [exact Hc|]. unfold logOf in Hl. rewrite Hw in Hl. exact Hl.
Qed.
End Flushed.

(** a writer that takes two bytes at the first call and everything at the later ones *)
Definition slowW : writer := mkWriter (fun h d => match h with [] => (Nat.min 2 (length d), if (2 <? length d)%nat then Some (SErr 5) else None) | _ => (length d, None) end) [] [].
Example C22_outcome_ex : obeys slowW /\
  let os := [OCall SArrayStart; OCall (SBool true); OCall SArrayEnd; OFlush; OCall SNull] : list (@sop demoF demoF) in
  Forall typed (callsOf os) /\
  match sops os (sm_Reset slowW (newStm false)) with Some s' => sm_error s' = None /\ fst (Flush s') = None /\ logOf (snd (Flush s')) = bs "[true],null" | None => False end /\
  match sops (firstn 3 os) (sm_Reset slowW (newStm false)) with Some s' => fst (Flush s') = Some (SErr 5) /\ sm_buffer (snd (Flush s')) = bs "rue]" | None => False end.
Proof.
  split; [|cbv zeta; split; [repeat constructor|split; vm_compute; repeat split]].
  intros h d. unfold slowW. cbn [w_fn]. destruct h as [|x h]; cbn [fst snd]; [|split; [lia|intros K; lia]].
  split; [lia|]. intros K. destruct (Nat.ltb_spec 2 (length d)); [discriminate|lia].
Qed.
Example C22_unattached_ex : match sops ([OCall SNull; OFlush; OCall SNull] : list (@sop demoF demoF)) (newStm false) with
  | Some s' => fst (Flush s') = Some ErrNoAttachedWriter /\ sm_buffer s' = bs "null,null" | None => False end.
Proof. vm_compute. split; reflexivity. Qed.

Print Assumptions C22_outcome.
Print Assumptions C22_unattached.
