(** Property C49: the values that an Encoder writes are the values that a Decoder reads.  The theorem is followed by an example that meets
    its hypotheses. *)
From Coq Require Import String ZArith List Bool Lia Arith.
From Verif Require Import Spec SpecStream SpecBase64 SpecFold StreamFacts StreamStrFacts StreamTree FloatFacts Base64Facts FoldFacts IterFacts Sim Properties1 Properties2.
From Verif Require Import ModelIter ModelStack ModelRead Properties3.
From Verif Require Import Base ModelInt ModelFloat ModelOps ModelBase64 ModelStream ModelFold ModelVal ModelDecoder ModelEnc SpecVal SpecEnc SpecDecoder MachineFacts ValFacts EncFacts EncRound Properties4 Properties5.
From Verif Require Import Properties14.
Import ListNotations.
Local Open Scope Z_scope.

Section Transport.
Variables F32 F64 : floatOps.
Variable C : custom.
Notation gval := (gval F32 F64 C).
Variable E : env F32 F64 C.
Variable U : marshalers F32 F64 C.
Variables G32 G64 : floatFmt.
Variable e32 : fl F32 -> ff G32.
Variable e64 : fl F64 -> ff G64.
Variable cfgHTML : bool.
Variable sf : Z -> Z.                    (* unicode.SimpleFold *)
Variable cs : bool.                      (* CaseSensitive *)
Notation vreachable := (vreachable F32 F64 C E sf cs).
Notation Value := (Value F32 F64 C E U G32 G64 e32 e64 cfgHTML).
Notation encodesAll := (encodesAll F32 F64 C E U G32 G64 e32 e64 cfgHTML).
Notation encodes := (encodes F32 F64 C E U G32 G64 e32 e64 False).
Notation drun := (drun F32 F64 C E sf cs).
Notation keeps := (keeps F32 F64 C E U G32 G64 e32 e64 False).
Notation zero := (zero F32 F64 C E).
Variables (S32 : fmt_sane G32) (S64 : fmt_sane G64).
Hypothesis sane32 : float_sane F32.
Hypothesis sane64 : float_sane F64.
Hypothesis NO : names_ok F32 F64 C E U.
Variable Ef : Z -> Z -> Prop.
Hypothesis FO : folding Ef.
Hypothesis WK : walks Ef sf.
Hypothesis ZO : zeros_ok F32 F64 C E.

(** a value that survives encoding and decoding *)
Definition survives (un : bool) (p : ty * gval) : Prop :=
  keeps un false (fst p) false (snd p) /\ (no_fields F32 F64 C E U false (fst p) -> set_word F32 F64 C E U (fst p) (snd p)).
(** the calls of the receiver: More and Decode into a new variable for each value, and More at the end *)
Definition receive (ps : list (ty * gval)) : list (dop F32 F64 C) := flat_map (fun p => [DMore; DDecode (fst p) (zero (fst p))]) ps ++ [DMore].
Definition received (ps : list (ty * gval)) : list (dout F32 F64 C) := flat_map (fun p => [RMore true; RDecode (Ok (snd p))]) ps ++ [RMore false].
(** a writer that takes everything *)
Definition accepts (w : writer) : Prop := forall h d, w_fn w h d = (length d, None).

Lemma survive_texts un h ps : Forall (survives un) ps ->
  exists ts n0, Forall2 (fun p t => encodes false (fst p) false (snd p) t) ps ts /\
    forall n, (n0 <= n)%nat -> Forall2 (fun p t => forall pop w b, Value n (Some p) (mkStm w b None pop h) = SOk (mkStm w (b ++ comma pop ++ t) None true h)) ps ts.
Proof using S32 S64 NO.
  induction 1 as [|[T v] ps (K & Nw) H (ts & n1 & A & B)]; [exists [], 0%nat; split; [constructor|]; constructor|]. simpl in K, Nw.
  destruct (keeps_encodes F32 F64 C E U G32 G64 S32 S64 e32 e64 False un) as [X _]. destruct (X _ _ _ _ K) as (t0 & H0).
  destruct (Value_ok F32 F64 C E U G32 G64 S32 S64 e32 e64 cfgHTML False NO h (Some (T, v)) t0) as (t & n2 & Ht & P); [apply e_iface; auto|].
  assert (He : encodes false T false v t).
  { inversion Ht as [| | | | | | | | | | | | |? ? ? ? ? ? ? Hu|? ? ? ? ? ? ? ? Hu|? ? ? ? ? ? Hu| | | | | | | | | |? ? ? D|a T1 q T' v' t' D Nf Hv|? ? ? ? ? ? []| | | | |]; subst. exact Hv. }
  exists (t :: ts), (Nat.max n1 n2). split; [constructor; auto|]. intros n Hn. constructor; [|apply B; lia]. intros. apply P. lia.
Qed.
Lemma encodes_all n h ps ts : Forall2 (fun p t => forall pop w b, Value n (Some p) (mkStm w b None pop h) = SOk (mkStm w (b ++ comma pop ++ t) None true h)) ps ts ->
  forall w, accepts w -> exists en', encodesAll n (map Some ps) (mkEncoder (sm_Reset w (newStm h)) None) en' /\
    encLog en' = w_log w ++ flat_map (fun t => t ++ [10]) ts.
Proof.
  induction 1 as [|p t ps ts Hp H IH]; intros w A.
  - eexists. split; [constructor|]. unfold encLog, logOf. simpl. now rewrite app_nil_r.
  - destruct (IH (mkWriter (w_fn w) ((w_calls w ++ [t]) ++ [[10]]) ((w_log w ++ t) ++ [10]))) as (en' & K & L); [exact A|].
    exists en'. split.
    + apply ea_more with (mkEncoder (sm_Reset (mkWriter (w_fn w) ((w_calls w ++ [t]) ++ [[10]]) ((w_log w ++ t) ++ [10])) (newStm h)) None); [|exact K].
      unfold encodeValue, ModelStream.Encode. simpl en_err. cbv iota. unfold encodeInternal. simpl en_s. unfold sm_Reset at 1. cbn [sm_html newStm].
      rewrite Hp. cbn [comma app]. unfold Flush. cbn [sm_error sm_writer sm_buffer]. unfold w_write. rewrite A. cbn [fst snd w_fn w_calls w_log sm_writer].
      rewrite A. cbn [sm_Reset sm_html]. rewrite firstn_all. reflexivity.
    + rewrite L. simpl. now rewrite <- !app_assoc.
Qed.
Lemma lines_stream ts : Forall (fun t => exists j, value t j) ts -> forall w, ws w -> stream_of (w ++ flat_map (fun t => t ++ [10]) ts) ts.
Proof.
  induction 1 as [|t ts (j & V) H IH]; intros w W; simpl; [rewrite app_nil_r; now constructor|]. rewrite <- app_assoc. apply so_next; auto.
  - destruct (value_first t j V) as (c & t' & -> & N & _). eauto.
  - right. eexists _, _. split; [reflexivity|]. unfold is_ws. auto.
  - apply (IH [10]). constructor; [unfold is_ws; auto|constructor].
Qed.
(** what an Encoder writes, in whatever pieces it arrives, the Decoder gives back *)
Theorem C49_transport un ps w h : Forall (survives un) ps -> accepts w ->
  exists data n0, (forall n, (n0 <= n)%nat -> exists en', encodesAll n (map Some ps) (mkEncoder (sm_Reset w (newStm h)) None) en' /\ encLog en' = w_log w ++ data) /\
    forall it s, vreachable it -> it_useNumber it = un ->
      match s with SReader r => rd_fin r = EEOF /\ rd_data r = data | SBytes d => d = data | SNil => False end ->
      exists n1, forall n, (n1 <= n)%nat -> drun n (receive ps) (NewDecoder s it) = received ps.
Proof using All.
  intros K A. destruct (survive_texts un h ps K) as (ts & n0 & Ht & P). exists (flat_map (fun t => t ++ [10]) ts), n0. split.
  - intros n Hn. apply (encodes_all n h ps ts (P n Hn) w A).
  - intros it s R Un Hs. apply C24_session with (s := s) (ts := ts); auto.
    + destruct s; tauto.
    + assert (St : stream_of (flat_map (fun t => t ++ [10]) ts) ts).
      { apply (lines_stream ts) with (w := []); [|constructor]. clear -Ht. induction Ht as [|p t ps ts H _ IH]; constructor; auto.
        apply (encodes_value F32 F64 C E U G32 G64 e32 e64 False) in H. exact H. }
      destruct s as [r|d|]; [destruct Hs as (_ & ->)|subst d|contradiction]; exact St.
    + rewrite Un. unfold receive, received. clear -Ht K FO WK ZO sane32 sane64. induction Ht as [|[T v] t ps ts H Ht IH]; simpl; [apply se_more; constructor|].
      inversion K as [|? ? (K1 & _) Ks]; subst. apply (se_more F32 F64 C E _ _ _ _ (t :: ts)). apply se_decode; [|now apply IH].
      destruct (keeps_decodes F32 F64 C E U G32 G64 e32 e64 False un (it_disallow it) (findField sf cs)) as [Y _]; auto.
      { intros. now apply (findField_exact Ef). }
      now destruct (Y _ _ _ _ _ H K1) as [D _].
Qed.
End Transport.

(** *** Example *)
Notation xsurvives := (survives textF textF demoC encE encU demoF demoF encF encF).
Definition letters : list (ty * eval) :=
  [(TRef 0, item2); (TString, VStr (bs "a ""b"" <c>")); (TInt true W8, VInt (-128)); (TPtr TBool, VPtr None);
   (TMap KString TEface, VMap (Some [(KS (bs "k"), VIface (Some (TSlice TEface, VSlice (Some [VIface None]))))]))].
Definition sink : writer := mkWriter (fun _ d => (length d, None)) [] [].
Definition sentText : bytes := bs item2Text ++ [10] ++ bs """a \""b\"" \u003cc\u003e""" ++ [10] ++ bs "-128" ++ [10] ++ bs "null" ++ [10] ++ bs "{""k"":[null]}" ++ [10].
Lemma letters_survive : Forall (xsurvives false) letters.
Proof.
  destruct C25_roundtrip_ex as (_ & _ & _ & _ & K & N & _).
  repeat (apply Forall_cons; [split; [|try notUser]|]); try apply Forall_nil; cbn [fst snd].
  - exact K.
  - apply k_string, ascii_text. reflexivity.
  - apply k_int. cbv. split; congruence.
  - apply k_ptr_nil. apply no_other; try discriminate. intros ? [?|?]; discriminate.
  - apply k_map; [exact I|exact I|repeat constructor; simpl; tauto|]. apply km_more; [apply kk_str, ascii_text; reflexivity| |constructor].
    apply k_generic; try discriminate; [unfold generic; auto 6|]. apply k_slice; [discriminate|]. apply kl_more; [apply k_iface_nil; auto|constructor].
Qed.
Example C49_transport_ex : Forall (xsurvives false) letters /\ accepts sink /\ vreachable textF textF demoC encE demoSf false used3 /\
  (exists en', encodesAll textF textF demoC encE encU demoF demoF encF encF false 9 (map Some letters) (mkEncoder (sm_Reset sink (newStm true)) None) en' /\ encLog en' = sentText) /\
  drun textF textF demoC encE demoSf false 9 (receive textF textF demoC encE letters)
    (NewDecoder (SReader (mkReader sentText [(1%nat, false); (0%nat, false); (300%nat, false); (1%nat, false)] EEOF)) used3) = received textF textF demoC letters.
Proof.
  split; [exact letters_survive|]. split; [intros h d; reflexivity|]. split; [apply vr_ReadVal, vr_reachable, re_ResetBytes, re_new|]. split; [|vm_compute; reflexivity].
  eexists. split; [do 5 (eapply ea_more; [vm_compute; reflexivity|]); apply ea_none|]. vm_compute. reflexivity.
Qed.
Print Assumptions C49_transport.
