(** * Distribution of ballots and range proofs (C63) *)
From Coq Require Import List NArith ZArith Field Lia Bool String Arith.
From Verif.Model Require Import Base Group Transcript Keys Encryption LogEquality Ring Range Choice Mul Quadratic Sharing Possession.
From Verif.Spec Require Import Encryption LogEquality Possession Sigma Ring Range Choice Quadratic Sharing Uniform.
From Verif.Proofs Require Import Algebra Lists Encryption LogEquality Possession Commitment Ring Range RangeProof Choice SumOfSquares Quadratic Sharing Uniform UniformRing.
Import ListNotations.
Open Scope string_scope.
Open Scope list_scope.

Section Proofs.
Context (E : Env) (L : GroupLaws E) (Ht : ser_total E).
Local Notation scalar := (Scalar E).
Local Notation element := (Element E).
Local Notation gop := (gop E).
Local Notation mkgop := (mkgop E).
Local Notation g_src := (g_src E).
Local Notation g_values := (g_values E).
Local Notation g_index := (g_index E).
Local Notation g_enc := (g_enc E).
Local Notation gop_run := (gop_run E).
Local Notation gshape := (gshape E).
Local Notation gok := (gok E).
Local Notation g_size := (g_size E).
Local Notation g_total := (g_total E).
Add Field s_field_ub : (s_field L).

(** ** calls without precomputed ciphertexts *)
Definition fresh (o : gop) : Prop := g_src o = None.

Lemma gok_fresh (K : PublicKey E) ops : forall hist, Forall fresh ops ->
  Forall (fun o => (g_index o < List.length (g_values o))%nat) ops -> gok K hist ops.
Proof using.
  induction ops as [|o ops IH]; intros hist Hf Hi; cbn; [exact I|].
  apply Forall_cons_iff in Hf as [H1 H2]. apply Forall_cons_iff in Hi as [H3 H4]. split; [exact H3|]. rewrite H1. auto.
Qed.

Lemma gshape_fresh (K : PublicKey E) ops : forall hist es, Forall fresh ops ->
  (gshape K hist ops es <-> Forall2 (g_enc K) ops es).
Proof using.
  induction ops as [|o ops IH]; intros hist es Hf.
  - destruct es; cbn; split; try tauto; [constructor|intros H; inversion H].
  - apply Forall_cons_iff in Hf as [H1 H2]. destruct es as [|e es]; cbn [UniformRing.gshape].
    + split; [intros []|intros H; inversion H].
    + rewrite (IH _ _ H2). unfold g_from. rewrite H1. split.
      * intros (Ha & _ & Hb). constructor; assumption.
      * intros H. inversion H; subst. auto.
Qed.

Lemma gop_run_app ops1 : forall b hist ops2,
  gop_run b hist (ops1 ++ ops2) =
  '(es1, b) <- gop_run b hist ops1 ;; '(es2, b) <- gop_run b (hist ++ es1) ops2 ;; Ret (es1 ++ es2, b).
Proof using.
  induction ops1 as [|o ops1 IH]; intros b hist ops2; cbn [app UniformRing.gop_run bind].
  - rewrite app_nil_r. destruct (gop_run b hist ops2) as [[es b']|k]; reflexivity.
  - match goal with |- bind ?m _ = bind (bind ?m _) _ => destruct m as [[e b1]|k]; cbn [bind]; [|reflexivity] end.
    rewrite IH. destruct (gop_run b1 (hist ++ [e]) ops1) as [[es1 b2]|k]; cbn [bind]; [|reflexivity].
    rewrite <- app_assoc. cbn [app]. destruct (gop_run b2 (hist ++ e :: es1) ops2) as [[es2 b3]|k]; reflexivity.
Qed.

Lemma gok_app (K : PublicKey E) ops1 : forall hist ops2, Forall fresh ops1 ->
  Forall (fun o => (g_index o < List.length (g_values o))%nat) ops1 ->
  (forall es, Forall2 (g_enc K) ops1 es -> gok K (hist ++ es) ops2) -> gok K hist (ops1 ++ ops2).
Proof using.
  induction ops1 as [|o ops1 IH]; intros hist ops2 Hf Hi H; cbn [app UniformRing.gok].
  - rewrite <- (app_nil_r hist). apply H. constructor.
  - apply Forall_cons_iff in Hf as [H1 H2]. apply Forall_cons_iff in Hi as [H3 H4]. split; [exact H3|]. rewrite H1.
    intros e He. apply IH; [assumption..|]. intros es Hes. rewrite <- app_assoc. apply H. constructor; assumption.
Qed.

Lemma gshape_app (K : PublicKey E) ops1 : forall hist ops2 es, Forall fresh ops1 ->
  (gshape K hist (ops1 ++ ops2) es <->
   exists es1 es2, es = es1 ++ es2 /\ Forall2 (g_enc K) ops1 es1 /\ gshape K (hist ++ es1) ops2 es2).
Proof using.
  induction ops1 as [|o ops1 IH]; intros hist ops2 es Hf; cbn [app].
  - split.
    + intros H. exists [], es. rewrite app_nil_r. auto.
    + intros (es1 & es2 & -> & H1 & H2). inversion H1; subst. rewrite app_nil_r in H2. exact H2.
  - apply Forall_cons_iff in Hf as [H1 H2]. destruct es as [|e es]; cbn [UniformRing.gshape].
    + split; [intros []|]. intros (es1 & es2 & H & Hx & _). inversion Hx; subst. discriminate.
    + rewrite (IH _ _ _ H2). unfold g_from. rewrite H1. split.
      * intros (Ha & _ & es1 & es2 & -> & Hb & Hc). exists (e :: es1), es2. rewrite <- app_assoc in Hc.
        split; [reflexivity|]. split; [constructor; assumption|exact Hc].
      * intros (es1 & es2 & H & Hx & Hy). inversion Hx as [|? e' ? es1' Hx1 Hx2]; subst. injection H as -> ->.
        split; [exact Hx1|]. split; [exact I|]. exists es1', es2. rewrite <- app_assoc. auto.
Qed.

(** the ciphertext determines its randomness *)
Lemma enc_inner_inj (K : PublicKey E) ops : forall es es', Forall2 (g_enc K) ops es -> Forall2 (g_enc K) ops es' ->
  map ext_inner es = map ext_inner es' -> es = es'.
Proof using L.
  intros es es' H. revert es'. induction H as [|o e ops es (A & HA & He) H IH]; intros es' H' Heq.
  - inversion H'; reflexivity.
  - inversion H' as [|? e' ? es1 (A' & HA' & He') H1]; subst. cbn in Heq. injection Heq as Hi Heq.
    f_equal; [eapply (ext_eq E L); eassumption|auto].
Qed.

Lemma enc_inner_exists (K : PublicKey E) ops : forall cs,
  Forall2 (fun o c => exists A x, nth_error (g_values o) (g_index o) = Some A /\ encrypts K c A x) ops cs <->
  exists es, Forall2 (g_enc K) ops es /\ map ext_inner es = cs.
Proof using.
  induction ops as [|o ops IH]; intros cs; split.
  - intros H. inversion H; subst. exists []. auto.
  - intros (es & H & <-). inversion H. constructor.
  - intros H. inversion H as [|? c ? cs' (A & x & HA & Hc) H']; subst. apply IH in H' as (es & Hes & <-).
    exists ({| ext_inner := c; ext_random_scalar := x |} :: es). split; [constructor; [exists A; auto|exact Hes]|reflexivity].
  - intros (es & H & <-). inversion H as [|? e ? es' (A & HA & He) H']; subst. cbn [map]. constructor; [eauto|].
    apply IH. eauto.
Qed.

(** a ring proof without the final transcript, which it determines *)
Lemma gop_uniform_proof (K : PublicKey E) buf t ops :
  gok K [] ops -> List.length buf = g_size ops -> zeros_if_debug E buf ->
  uniform_over (g_total ops)
    (fun r => '(es, b) <- gop_run (RingProofBuilder_new K buf t r) [] ops ;;
              '(c, rs, _, r) <- RingProofBuilder_build b ;;
              Ret ((es, {| rp_challenge := c; rp_responses := rs |}), r))
    (fun ep => gshape K [] ops (fst ep) /\
       exists t', RingProof_verify (snd ep) K (map g_values ops) (map ext_inner (fst ep)) t = Ret (Ok tt, t')).
Proof using L Ht.
  intros H1 H2 H3. apply (uniform_image _ _ _ _ _ fst (gop_uniform E L Ht K buf t ops H1 H2 H3)).
  - intros r [[es p] t'] r' _ H. inv_bind H. destruct a as [es1 b]. inv_bind H. destruct a as [[[c rs] t1] r1].
    injection H as -> <- -> ->. rewrite Hm. cbn [bind]. rewrite Hm0. reflexivity.
  - intros [[es p] t'] [Hs Hv]. cbn. eauto.
  - intros [es p] [Hs [t' Hv]]. exists (es, p, t'). auto.
  - intros [ep t1] [ep' t1'] Hp Hp' Heq. cbn in Heq. subst ep'. destruct ep as [es p]. destruct Hp as [_ Hp], Hp' as [_ Hp'].
    congruence.
Qed.

(** ** the public interface of the builder *)
Definition gop_of (o : ring_op (E:=E)) : gop :=
  match o with
  | RAdd vs i => mkgop vs i None
  | RAddPrecomputed ext vs i => mkgop vs i (Some (fun _ => ext))
  end.

(** what a call may return: an encryption of the chosen value, or the ciphertext provided *)
Lemma ring_run_gop ops : forall b hist,
  ring_run b ops = '(es, b) <- gop_run b hist (map gop_of ops) ;; Ret (map ext_inner es, b).
Proof using.
  induction ops as [|[vs i|ext vs i] ops IH]; intros b hist; [reflexivity|..];
    cbn [ring_run map UniformRing.gop_run gop_of UniformRing.g_src UniformRing.g_values UniformRing.g_index].
  - destruct (RingProofBuilder_add_value b vs i) as [[e b1]|k]; cbn [bind]; [|reflexivity].
    rewrite (IH b1 (hist ++ [e])). destruct (gop_run b1 _ _) as [[es b2]|k]; reflexivity.
  - destruct (RingProofBuilder_add_precomputed_value b ext vs i) as [b1|k]; cbn [bind]; [|reflexivity].
    rewrite (IH b1 (hist ++ [ext])). destruct (gop_run b1 _ _) as [[es b2]|k]; reflexivity.
Qed.

Lemma ops_gok (K : PublicKey E) ops : Forall (op_ok K) ops ->
  Forall (fun o => (op_index o < List.length (op_values o))%nat) ops -> forall hist, gok K hist (map gop_of ops).
Proof using.
  induction ops as [|o ops IH]; intros Ho Hi hist; cbn [map UniformRing.gok]; [exact I|].
  apply Forall_cons_iff in Ho as [H1 H2]. apply Forall_cons_iff in Hi as [H3 H4].
  destruct o as [vs i|ext vs i]; cbn in *; (split; [exact H3|]); [auto|]. split; [exact H1|auto].
Qed.

Lemma ops_shape (K : PublicKey E) ops : Forall (op_ok K) ops -> forall hist cs,
  Forall2 (op_result K) ops cs <-> exists es, gshape K hist (map gop_of ops) es /\ map ext_inner es = cs.
Proof using.
  induction ops as [|o ops IH]; intros Ho hist cs.
  - split.
    + intros H. inversion H. exists []. split; [exact I|reflexivity].
    + intros (es & H & <-). destruct es; [constructor|destruct H].
  - apply Forall_cons_iff in Ho as [H1 H2]. split.
    + intros H. inversion H as [|? c ? cs' Hc Hcs]; subst. destruct o as [vs i|ext vs i]; cbn [op_result op_ok] in *.
      * destruct Hc as (A & x & HA & Hx).
        destruct (proj1 (IH H2 (hist ++ [{| ext_inner := c; ext_random_scalar := x |}]) cs') Hcs) as (es & Hes & <-).
        exists ({| ext_inner := c; ext_random_scalar := x |} :: es). split; [|reflexivity].
        cbn. split; [exists A; auto|]. split; [exact I|exact Hes].
      * subst c. apply (IH H2 (hist ++ [ext])) in Hcs as (es & Hes & <-). exists (ext :: es). split; [|reflexivity].
        cbn. split; [exact H1|]. split; [reflexivity|exact Hes].
    + intros (es & H & <-). destruct es as [|e es]; [destruct H|]. cbn [map UniformRing.gshape] in H. destruct H as ((A & HA & He) & Hf & H).
      cbn [map]. constructor; [|apply (IH H2 (hist ++ [e])); eauto].
      destruct o as [vs i|ext vs i]; cbn in *; [eauto|]. unfold g_from in Hf. cbn in Hf. congruence.
Qed.

Lemma shape_inj (K : PublicKey E) ops : forall hist es es', gshape K hist ops es -> gshape K hist ops es' ->
  map ext_inner es = map ext_inner es' -> es = es'.
Proof using L.
  induction ops as [|o ops IH]; intros hist [|e es] [|e' es'] H H' Heq; cbn in H, H'; try tauto.
  cbn in Heq. injection Heq as Hi Heq. destruct H as ((A & HA & He) & _ & H). destruct H' as ((A' & HA' & He') & _ & H').
  assert (e = e') by (eapply (ext_eq E L); eassumption). subst e'. f_equal. eapply IH; eassumption.
Qed.

Lemma ops_total ops : Forall (fun o : ring_op (E:=E) => (op_index o < List.length (op_values o))%nat) ops ->
  g_total (map gop_of ops) = list_sum (map op_draws ops).
Proof using.
  unfold UniformRing.g_total. induction ops as [|o ops IH]; intros Hi; [reflexivity|]. apply Forall_cons_iff in Hi as [H1 H2]. specialize (IH H2).
  cbn [map]. change (list_sum (?a :: ?l)) with (a + list_sum l)%nat.
  assert (Hd : (g_draws E (gop_of o) + g_index (gop_of o) = op_draws o)%nat).
  { unfold g_draws, g_rest. destruct o; cbn in *; lia. }
  lia.
Qed.

Lemma ring_uniform (K : PublicKey E) buf t ops :
  Forall (op_ok K) ops -> Forall (fun o => (op_index o < List.length (op_values o))%nat) ops ->
  List.length buf = list_sum (map (fun o => List.length (op_values o)) ops) -> zeros_if_debug E buf ->
  uniform_over (list_sum (map op_draws ops))
    (fun r => '(cts, b) <- ring_run (RingProofBuilder_new K buf t r) ops ;;
              '(c, rs, t', r) <- RingProofBuilder_build b ;;
              Ret ((cts, {| rp_challenge := c; rp_responses := rs |}, t'), r))
    (fun cpt => let '(cts, p, t') := cpt in
       Forall2 (op_result K) ops cts /\ RingProof_verify p K (map op_values ops) cts t = Ret (Ok tt, t')).
Proof using L Ht.
  intros Ho Hi Hb Hz.
  assert (Hvals : map g_values (map gop_of ops) = map op_values ops).
  { rewrite map_map. apply map_ext. intros [vs i|ext vs i]; reflexivity. }
  assert (H := gop_uniform E L Ht K buf t (map gop_of ops) (ops_gok K ops Ho Hi [])).
  specialize (H ltac:(rewrite Hb; unfold UniformRing.g_size; rewrite <- (map_map g_values (@List.length element)), Hvals, map_map; reflexivity) Hz).
  rewrite (ops_total ops Hi), Hvals in H.
  apply (uniform_image _ _ _ _ _ (fun ept : list (ExtendedCiphertext E) * RingProof E * transcript =>
    let '(es, p, t') := ept in (map ext_inner es, p, t')) H).
  - intros r [[es p] t'] r' _ Hr. rewrite (ring_run_gop ops _ []). inv_bind Hr. destruct a as [es1 b]. rewrite Hm. cbn [bind].
    inv_bind Hr. destruct a as [[[c rs] t1] r1]. injection Hr as -> <- -> ->. rewrite Hm0. reflexivity.
  - intros [[es p] t'] [Hs Hv]. split; [apply (ops_shape K ops Ho []); eauto|exact Hv].
  - intros [[cts p] t'] [Hs Hv]. apply (ops_shape K ops Ho []) in Hs as (es & Hs & <-). exists (es, p, t'). auto.
  - intros [[es p] t'] [[es' p'] t''] [Hs _] [Hs' _] Heq. injection Heq as Hi' -> ->. rewrite (shape_inj K _ [] es es' Hs Hs' Hi'). reflexivity.
Qed.

(** ** bits *)
Definition bit_gop (flag : bool) : gop := mkgop [identity; generator] (if flag then 1 else 0) None.

Lemma bit_enc (K : PublicKey E) flag e : g_enc K (bit_gop flag) e <-> encrypts K (ext_inner e) (bit_element flag) (ext_random_scalar e).
Proof using.
  unfold UniformRing.g_enc. destruct flag; cbn; (split; [intros (A & HA & H); injection HA as <-; exact H|eauto]).
Qed.

Lemma bits_fresh choices : Forall fresh (map bit_gop choices).
Proof using. apply Forall_forall. intros o Ho. apply in_map_iff in Ho as (x & <- & _). reflexivity. Qed.

Lemma bits_index choices : Forall (fun o => (g_index o < List.length (g_values o))%nat) (map bit_gop choices).
Proof using. apply Forall_forall. intros o Ho. apply in_map_iff in Ho as ([|] & <- & _); cbn; lia. Qed.

Lemma bits_size choices : g_size (map bit_gop choices) = (2 * List.length choices)%nat.
Proof using.
  unfold UniformRing.g_size. induction choices as [|x l IH]; [reflexivity|].
  change (2 + list_sum (map (fun o => List.length (g_values o)) (map bit_gop l)) = 2 * List.length (x :: l))%nat. rewrite IH. cbn. lia.
Qed.

Lemma bits_total_draws choices : g_total (map bit_gop choices) = (3 * List.length choices)%nat.
Proof using.
  unfold UniformRing.g_total. induction choices as [|x l IH]; [reflexivity|]. cbn [map].
  change (list_sum (?a :: ?l)) with (a + list_sum l)%nat.
  assert (Hx : (g_draws E (bit_gop x) + g_index (bit_gop x) = 3)%nat) by (destruct x; reflexivity).
  cbn [List.length]. lia.
Qed.

Lemma bits_values choices : map g_values (map bit_gop choices) = repeat [identity; generator] (List.length choices).
Proof using. induction choices as [|x l IH]; [reflexivity|]. cbn [map repeat List.length]. rewrite IH. reflexivity. Qed.

Lemma bits_shape (K : PublicKey E) choices es : gshape K [] (map bit_gop choices) es <->
  Forall2 (fun flag e => encrypts K (ext_inner e) (bit_element flag) (ext_random_scalar e)) choices es.
Proof using.
  rewrite gshape_fresh by apply bits_fresh. revert es. induction choices as [|x l IH]; intros es; cbn [map].
  - split; intros H; inversion H; constructor.
  - split; intros H; inversion H; subst; (constructor; [apply bit_enc; assumption|apply IH; assumption]).
Qed.

Lemma choice_add_values_gop choices : forall b hist,
  choice_add_values b [identity; generator] choices = gop_run b hist (map bit_gop choices).
Proof using.
  induction choices as [|x l IH]; intros b hist; [reflexivity|].
  cbn [choice_add_values map UniformRing.gop_run UniformRing.g_src bit_gop].
  destruct (RingProofBuilder_add_value b _ _) as [[e b1]|k]; cbn [bind]; [|reflexivity].
  rewrite (IH b1 (hist ++ [e])). reflexivity.
Qed.

Lemma zeros_repeat n : zeros_if_debug E (repeat s_default n).
Proof using. intros _. apply Forall_forall. intros s Hs. apply repeat_spec in Hs. exact Hs. Qed.

Lemma bits_inner_inj (K : PublicKey E) choices es es' :
  gshape K [] (map bit_gop choices) es -> gshape K [] (map bit_gop choices) es' -> map ext_inner es = map ext_inner es' -> es = es'.
Proof using L. rewrite !gshape_fresh by apply bits_fresh. apply enc_inner_inj. Qed.

Lemma bits_inner_exists (K : PublicKey E) choices cs :
  Forall2 (fun flag c => exists x, encrypts K c (bit_element flag) x) choices cs <->
  exists es, gshape K [] (map bit_gop choices) es /\ map ext_inner es = cs.
Proof using.
  split.
  - intros H. induction H as [|flag c choices cs [x Hx] H (es & I1 & <-)].
    + exists []. split; [exact I|reflexivity].
    + exists ({| ext_inner := c; ext_random_scalar := x |} :: es). split; [|reflexivity].
      apply bits_shape. apply bits_shape in I1. constructor; assumption.
  - intros (es & H & <-). apply bits_shape in H. induction H as [|flag e choices es He H IH]; cbn [map]; constructor; eauto.
Qed.

Lemma encrypt_bool_uniform (pk : PublicKey E) (value : bool) :
  uniform_over 3
    (fun r => '(c, p, r) <- encrypt_bool pk value r ;; Ret ((c, p), r))
    (fun cp => (exists x, encrypts pk (fst cp) (bit_element value) x) /\ verify_bool pk (fst cp) (snd cp) = Ret (Ok tt)).
Proof using L Ht.
  assert (H := gop_uniform_proof pk (repeat s_default 2) (transcript_new "bool_encryption") (map bit_gop [value])
    (gok_fresh pk _ [] (bits_fresh _) (bits_index _)) ltac:(rewrite bits_size; reflexivity) (zeros_repeat 2)).
  rewrite bits_total_draws in H. cbn [List.length] in H.
  apply (uniform_image _ _ _ _ _ (fun ep : list (ExtendedCiphertext E) * RingProof E =>
    (hd Ciphertext_zero (map ext_inner (fst ep)), snd ep)) H).
  - intros r [es p] r' _ Hr. inv_bind Hr. destruct a as [es1 b]. inv_bind Hr. destruct a as [[[c rs] t1] r1].
    injection Hr as <- <- <-. unfold encrypt_bool. cbn [map UniformRing.gop_run UniformRing.g_src bit_gop] in Hm.
    cbn [UniformRing.g_values UniformRing.g_index] in Hm.
    inv_bind Hm. destruct a as [e b1]. cbn [bind] in Hm. injection Hm as <- <-. unfold bit_gop in Hm1. cbn [UniformRing.g_values UniformRing.g_index] in Hm1. rewrite Hm1. cbn [bind]. rewrite Hm0. reflexivity.
  - intros [es p] [Hs [t' Hv]]. cbn [fst snd] in *. apply bits_shape in Hs. inversion Hs as [|? e ? es' He Hs']; subst.
    inversion Hs'; subst. cbn [map hd] in *. split; [eauto|]. unfold verify_bool. cbn [UniformRing.g_values bit_gop] in Hv.
    rewrite Hv. reflexivity.
  - intros [c p] [[x Hx] Hv]. cbn [fst snd] in *. exists ([{| ext_inner := c; ext_random_scalar := x |}], p). cbn [fst snd].
    split; [|reflexivity]. split; [apply bits_shape; constructor; [exact Hx|constructor]|].
    unfold verify_bool in Hv. inv_bind Hv. destruct a as [res t']. injection Hv as ->. exists t'. exact Hm.
  - intros [es p] [es' p'] [Hs _] [Hs' _] Heq. cbn [fst snd] in *. injection Heq as Hh ->. f_equal.
    apply (bits_inner_inj pk [value]); [assumption..|]. apply bits_shape in Hs, Hs'.
    inversion Hs as [|? e ? l He Hs1]; subst. inversion Hs1; subst. inversion Hs' as [|? e' ? l' He' Hs1']; subst. inversion Hs1'; subst.
    cbn in *. congruence.
Qed.

Lemma choice_uniform (S : ProveSum E) (params : ChoiceParams S) choices m :
  List.length choices = cp_options_count params -> choices <> [] -> (N.of_nat (List.length choices) < 2 ^ 64)%N ->
  (forall ext sum, encrypts (cp_receiver params) (ext_inner ext)
       (generator * phi L (Z.of_nat (count_occ bool_dec choices true)))%E (ext_random_scalar ext) ->
     uniform_over m (ps_prove S {| cwv_ext := ext; cwv_value := sum |} (cp_receiver params))
       (fun p => ps_verify S (ext_inner ext) p (cp_receiver params) = Ret (Ok tt))) ->
  uniform_over (3 * List.length choices + m) (EncryptedChoice_new params choices)
    (fun e => Forall2 (fun flag c => exists x, encrypts (cp_receiver params) c (bit_element flag) x) choices (ec_choices e) /\
              EncryptedChoice_verify e params = Ret (Ok (ec_choices e))).
Proof using L Ht.
  intros Hl Hne Hbig Hps. set (K := cp_receiver params) in *.
  assert (H := gop_uniform_proof K (repeat s_default (2 * List.length choices)) (transcript_new "encrypted_choice_ranges") (map bit_gop choices)
    (gok_fresh K _ [] (bits_fresh _) (bits_index _)) ltac:(rewrite bits_size, repeat_length; reflexivity) (zeros_repeat _)).
  rewrite bits_total_draws, bits_values in H.
  set (sum := N.of_nat (count_occ bool_dec choices true)).
  set (tot (es : list (ExtendedCiphertext E)) := {| ext_inner := ct_total (map ext_inner es); ext_random_scalar := fold_right s_add 0%S (map ext_random_scalar es) |}).
  assert (Hlen : forall es, gshape K [] (map bit_gop choices) es -> List.length es = List.length choices).
  { intros es Hes. apply bits_shape in Hes. symmetry. exact (Forall2_length' _ _ _ Hes). }
  assert (Hnil : forall es, gshape K [] (map bit_gop choices) es -> es <> []).
  { intros es Hes ->. apply Hlen in Hes. destruct choices; [congruence|discriminate]. }
  assert (H2 := uniform_bind _ m _ _ (fun ep => ps_prove S {| cwv_ext := tot (fst ep); cwv_value := sum |} K)
    (fun ep p => ps_verify S (ct_total (map ext_inner (fst ep))) p K = Ret (Ok tt)) H).
  specialize (H2 ltac:(intros [es p] [Hs _]; apply (Hps (tot es)); apply (encrypts_total E L); apply bits_shape; exact Hs)).
  apply (uniform_image _ _ _ _ _ (fun epp : (list (ExtendedCiphertext E) * RingProof E) * ps_Proof S =>
    {| ec_choices := map ext_inner (fst (fst epp)); ec_range_proof := snd (fst epp); ec_sum_proof := snd epp |}) H2).
  - intros r [[es p] sp] r' [[Hs _] _] Hr. cbn [fst snd] in *. inv_bind Hr. destruct a as [[es1 p1] r1]. inv_bind Hr. destruct a as [sp1 r2].
    injection Hr as -> -> -> ->. inv_bind Hm. destruct a as [es2 b]. inv_bind Hm. destruct a as [[[c rs] t1] r3].
    injection Hm as -> <- ->. cbn [fst] in Hm0.
    unfold EncryptedChoice_new, assert. rewrite <- Hl, Nat.eqb_refl.
    replace (List.length choices =? 0)%nat with false by (symmetry; apply Nat.eqb_neq; destruct choices; [congruence|cbn; lia]).
    cbn [negb bind]. rewrite u64_sum_ok.
    2:{ rewrite flags_sum. pose proof (count_occ_bound bool_dec true choices). unfold u64_lim. lia. }
    cbn [bind]. rewrite (choice_add_values_gop choices _ []). fold K. rewrite Hm1. cbn [bind]. rewrite Hm2. cbn [bind].
    rewrite (reduce_ext E L es (Hnil _ Hs)). cbn [unwrap bind]. rewrite flags_sum. fold (tot es). rewrite N.add_0_l. fold sum.
    rewrite Hm0. reflexivity.
  - intros [[es p] sp] [[Hs Hv] Hsp]. cbn [fst snd] in *. cbn [ec_choices]. split; [apply bits_inner_exists; eauto|].
    apply (choice_verify_ok_iff E L). cbn [ec_choices ec_sum_proof ec_range_proof].
    split; [reflexivity|]. rewrite map_length, (Hlen _ Hs). split; [exact Hl|].
    split; [intros Hx; apply map_eq_nil in Hx; apply (Hnil _ Hs Hx)|]. split; [exact Hsp|exact Hv].
  - intros [cs p sp] [Hcs Hv]. cbn [ec_choices] in *. apply bits_inner_exists in Hcs as (es & Hs & <-).
    apply (choice_verify_ok_iff E L) in Hv. cbn [ec_choices ec_sum_proof ec_range_proof] in Hv.
    rewrite map_length, (Hlen _ Hs) in Hv. destruct Hv as (_ & _ & _ & Hsp & Hv).
    exists (es, p, sp). cbn [fst snd]. auto.
  - intros [[es p] sp] [[es' p'] sp'] [[Hs _] _] [[Hs' _] _] Heq. cbn [fst snd] in *. injection Heq as Hi -> ->.
    rewrite (bits_inner_inj K choices es es' Hs Hs' Hi). reflexivity.
Qed.

Lemma multi_choice_uniform (params : ChoiceParams (MultiChoice (E:=E))) choices :
  List.length choices = cp_options_count params -> choices <> [] -> (N.of_nat (List.length choices) < 2 ^ 64)%N ->
  uniform_over (3 * List.length choices) (EncryptedChoice_new params choices)
    (fun e => Forall2 (fun flag c => exists x, encrypts (cp_receiver params) c (bit_element flag) x) choices (ec_choices e) /\
              EncryptedChoice_verify e params = Ret (Ok (ec_choices e))).
Proof using L Ht.
  intros H1 H2 H3. rewrite <- (Nat.add_0_r (3 * _)). apply choice_uniform; [assumption..|].
  intros ext sum _. eapply uniform_ext; [apply (uniform_ret tt)|reflexivity|]. intros []. cbn. tauto.
Qed.

Lemma single_choice_uniform (params : ChoiceParams (SingleChoice (E:=E))) choices :
  List.length choices = cp_options_count params -> (N.of_nat (List.length choices) < 2 ^ 64)%N ->
  count_occ bool_dec choices true = 1%nat ->
  uniform_over (3 * List.length choices + 1) (EncryptedChoice_new params choices)
    (fun e => Forall2 (fun flag c => exists x, encrypts (cp_receiver params) c (bit_element flag) x) choices (ec_choices e) /\
              EncryptedChoice_verify e params = Ret (Ok (ec_choices e))).
Proof using L Ht.
  intros H1 H2 H3. apply choice_uniform; [assumption|intros ->; discriminate|assumption|].
  intros ext sum [Hr Hb]. rewrite H3 in Hb. change (Z.of_nat 1) with 1%Z in Hb. rewrite (phi_1 L) in Hb.
  eapply uniform_ext.
  - apply (le_uniform_proof E L Ht (cp_receiver params) (ext_random_scalar ext) (random_element (ext_inner ext))
      (blinded_element (ext_inner ext) - generator)%E (transcript_new "choice_encryption_sum") Hr).
    rewrite Hb. el_ring L.
  - intros r. cbn [ps_prove SingleChoice SingleChoice_prove]. reflexivity.
  - intros p. cbn [ps_verify SingleChoice SingleChoice_verify]. unfold SingleChoice_verify. split.
    + intros [t' H]. rewrite H. reflexivity.
    + intros H. inv_bind H. destruct a as [[[]|e] t']; [|discriminate]. exists t'. exact Hm.
Qed.

(** ** ranges *)
Definition digit_gop (it : N * list element) : gop := mkgop (snd it) (N.to_nat (fst it)) None.
Definition last_gop (c : ExtendedCiphertext E) (it : N * list element) : gop :=
  mkgop (snd it) (N.to_nat (fst it))
    (Some (fun hist => ExtendedCiphertext_sub c (fold_left ExtendedCiphertext_add hist ExtendedCiphertext_zero))).

Lemma range_add_values_gop items : forall b cum hist,
  range_add_values b items cum =
  '(es, b) <- gop_run b hist (map digit_gop items) ;; Ret (map ext_inner es, fold_left ExtendedCiphertext_add es cum, b).
Proof using.
  induction items as [|[i vs] items IH]; intros b cum hist; [reflexivity|].
  cbn [range_add_values map UniformRing.gop_run UniformRing.g_src digit_gop UniformRing.g_values UniformRing.g_index fst snd].
  destruct (RingProofBuilder_add_value b vs (N.to_nat i)) as [[e b1]|k]; cbn [bind]; [|reflexivity].
  rewrite (IH b1 _ (hist ++ [e])). destruct (gop_run b1 (hist ++ [e]) (map digit_gop items)) as [[es b2]|k]; reflexivity.
Qed.

Lemma fold_ext_encrypts (K : PublicKey E) ops es : Forall2 (g_enc K) ops es ->
  exists As, Forall2 (fun o A => nth_error (g_values o) (g_index o) = Some A) ops As /\
    forall cum M, encrypts K (ext_inner cum) M (ext_random_scalar cum) ->
      encrypts K (ext_inner (fold_left ExtendedCiphertext_add es cum)) (M + e_sum E As)%E
        (ext_random_scalar (fold_left ExtendedCiphertext_add es cum)).
Proof using L.
  induction 1 as [|o e ops es (A & HA & He) H (As & HAs & IH)].
  - exists []. split; [constructor|]. intros cum M Hc. cbn. rewrite (e_add_id_r L). exact Hc.
  - exists (A :: As). split; [constructor; assumption|]. intros cum M Hc. cbn [fold_left e_sum fold_right].
    rewrite (e_add_assoc E L). apply IH. exact (encrypts_add E L K _ _ _ _ _ _ Hc He).
Qed.

Lemma fold_ext_inner (es : list (ExtendedCiphertext E)) : forall cum,
  ext_inner (fold_left ExtendedCiphertext_add es cum) = fold_left Ciphertext_add (map ext_inner es) (ext_inner cum).
Proof using. induction es as [|e es IH]; intros cum; cbn [fold_left map]; [reflexivity|]. rewrite IH. reflexivity. Qed.

Definition ring_of (s : RingSpec) : list element :=
  map (fun i => times (N.of_nat i * rs_step s) generator) (seq 0 (N.to_nat (rs_size s))).
Definition digit_item (p : N * RingSpec) : N * list element := (fst p, ring_of (snd p)).
Definition in_ring (p : N * RingSpec) : Prop := (fst p < rs_size (snd p))%N.

Lemma ring_of_length s : List.length (ring_of s) = N.to_nat (rs_size s).
Proof using. unfold ring_of. rewrite map_length, seq_length. reflexivity. Qed.

Lemma items_eq (d : RangeDecomposition) : forall idx : list N, combine idx (range_values (E:=E) d) = map digit_item (combine idx d).
Proof using.
  induction d as [|s d IH]; intros [|i idx]; try reflexivity.
  change (range_values (s :: d)) with (ring_of s :: range_values d). cbn [combine map]. rewrite IH. reflexivity.
Qed.

Lemma in_rings_items d idx : in_rings d idx -> Forall in_ring (combine idx d).
Proof using. induction 1; cbn [combine]; constructor; assumption. Qed.

Lemma digit_nth p : in_ring p -> nth_error (ring_of (snd p)) (N.to_nat (fst p)) = Some (times (fst p * rs_step (snd p)) generator).
Proof using.
  intros H. unfold in_ring in H. unfold ring_of.
  rewrite nth_error_map, nth_error_nth' with (d := O) by (rewrite seq_length; lia).
  rewrite seq_nth by lia. cbn. rewrite N2Nat.id. reflexivity.
Qed.

Lemma digits_enc (K : PublicKey E) pre : Forall in_ring pre -> forall es,
  Forall2 (g_enc K) (map digit_gop (map digit_item pre)) es <->
  Forall2 (fun it e => encrypts K (ext_inner e) (times (fst it * rs_step (snd it)) generator) (ext_random_scalar e)) pre es.
Proof using.
  induction 1 as [|p pre Hp H IH]; intros es; cbn [map].
  - split; intros Hx; inversion Hx; constructor.
  - assert (Hq : forall e, g_enc K (digit_gop (digit_item p)) e <->
      encrypts K (ext_inner e) (times (fst p * rs_step (snd p)) generator) (ext_random_scalar e)).
    { intros e. unfold UniformRing.g_enc. cbn [UniformRing.g_values UniformRing.g_index digit_gop digit_item fst snd].
      rewrite (digit_nth p Hp). split; [intros (A & HA & He); injection HA as <-; exact He|eauto]. }
    split; intros Hx; inversion Hx; subst; (constructor; [apply Hq; assumption|apply IH; assumption]).
Qed.

Lemma digits_hidden (K : PublicKey E) (pre : list (N * RingSpec)) cs :
  Forall2 (fun it c => exists x, encrypts K c (times (fst it * rs_step (snd it)) generator) x) pre cs <->
  exists es, Forall2 (fun it e => encrypts K (ext_inner e) (times (fst it * rs_step (snd it)) generator) (ext_random_scalar e)) pre es /\
    map ext_inner es = cs.
Proof using.
  split.
  - induction 1 as [|p c pre cs [x Hx] H (es & I1 & <-)]; [exists []; auto|].
    exists ({| ext_inner := c; ext_random_scalar := x |} :: es). split; [constructor; assumption|reflexivity].
  - intros (es & H & <-). induction H; cbn [map]; constructor; eauto.
Qed.

Lemma range_from_uniform (K : PublicKey E) n d (c : CiphertextWithValue E N) t idx :
  doc_form n d -> (n < u64_lim)%N -> (n_sum (map rs_size d) < u64_lim)%N -> (cwv_value c < n)%N ->
  RangeDecomposition_decompose (env_build E) d (cwv_value c) = Ret idx -> in_rings d idx -> composed d idx = cwv_value c ->
  encrypts K (cwv_inner c) (times (cwv_value c) generator) (cwv_randomness c) ->
  uniform_over (N.to_nat (n_sum (map rs_size d)) + (List.length d - 1))
    (fun r => '(p, t', r) <- RangeProof_from_ciphertext K {| pr_inner := d; pr_admissible := range_values d |} c t r ;; Ret ((p, t'), r))
    (fun pt => hides_digits K d idx (rap_partial (fst pt)) /\
       RangeProof_verify (fst pt) K {| pr_inner := d; pr_admissible := range_values d |} (cwv_inner c) t = Ret (Ok tt, snd pt)).
Proof using L Ht.
  intros Hd Hn Hs Hv Hdec Hin Hcomp Henc. pose proof (in_rings_length _ _ Hin) as Hlen.
  assert (Hpos : (0 < List.length d)%nat) by (pose proof (doc_form_nonempty _ _ Hd); destruct d; [contradiction|cbn; lia]).
  set (m := (List.length d - 1)%nat). set (pl := combine idx d).
  assert (Hpl : List.length pl = S m) by (unfold pl, m; rewrite combine_length; lia).
  destruct (last_split pl m Hpl) as (lst & Hskip & Hsplit). set (pre := firstn m pl) in *.
  assert (Hpre : List.length pre = m) by (unfold pre; rewrite firstn_length; lia).
  assert (Hrem : removelast pl = pre) by (rewrite Hsplit; apply removelast_last).
  pose proof (in_rings_items _ _ Hin) as Hall. fold pl in Hall. rewrite Hsplit in Hall. apply Forall_app in Hall as [Hallp Halll].
  apply Forall_cons_iff in Halll as [Hlst _].
  set (ops1 := map digit_gop (map digit_item pre)). set (lop := last_gop (cwv_ext c) (digit_item lst)).
  assert (Hfresh : Forall fresh ops1).
  { apply Forall_forall. intros o Ho. apply in_map_iff in Ho as (x & <- & _). reflexivity. }
  assert (Hidx : Forall (fun o => (g_index o < List.length (g_values o))%nat) ops1).
  { apply Forall_forall. intros o Ho. apply in_map_iff in Ho as (x & <- & Hx). apply in_map_iff in Hx as (p & <- & Hp).
    cbn. rewrite ring_of_length. rewrite Forall_forall in Hallp. specialize (Hallp p Hp). unfold in_ring in Hallp. lia. }
  assert (Hvals : map g_values (ops1 ++ [lop]) = range_values (E:=E) d).
  { rewrite <- (items_values E d idx Hlen), items_eq. fold pl. rewrite Hsplit, !map_app. unfold ops1. rewrite !map_map. reflexivity. }
  assert (Hsize : g_size (ops1 ++ [lop]) = N.to_nat (n_sum (map rs_size d))).
  { rewrite <- (range_values_sum E), <- Hvals. unfold UniformRing.g_size. rewrite map_map. reflexivity. }
  assert (Hlastenc : forall es, Forall2 (g_enc K) ops1 es ->
    g_enc K lop (ExtendedCiphertext_sub (cwv_ext c) (fold_left ExtendedCiphertext_add es ExtendedCiphertext_zero))).
  { intros es Hes. exists (times (fst lst * rs_step (snd lst)) generator). split; [apply (digit_nth lst Hlst)|].
    destruct (fold_ext_encrypts K ops1 es Hes) as (As & HAs & Hfold). specialize (Hfold _ _ (encrypts_zero E L K)).
    rewrite (e_add_id E L) in Hfold. pose proof (encrypts_sub E L K _ _ _ _ _ _ Henc Hfold) as Hsub.
    assert (Hsum : (e_sum E As + times (fst lst * rs_step (snd lst)) generator)%E = times (cwv_value c) generator).
    { rewrite <- Hcomp.
      assert (HA : Forall2 (fun it A => nth_error (snd it) (N.to_nat (fst it)) = Some A) (combine idx (range_values (E:=E) d))
                 (As ++ [times (fst lst * rs_step (snd lst)) generator])).
      { rewrite items_eq. fold pl. rewrite Hsplit, map_app. apply Forall2_app.
        - clear - HAs. unfold ops1 in HAs. revert As HAs. induction (map digit_item pre) as [|x l IH]; intros As HAs; inversion HAs; subst; constructor; auto.
        - constructor; [apply (digit_nth lst Hlst)|constructor]. }
      rewrite <- (chosen_sum E L d idx _ Hin HA), (e_sum_app E L). cbn. rewrite (e_add_id_r L). reflexivity. }
    rewrite <- Hsum in Hsub.
    replace (e_sum E As + times (fst lst * rs_step (snd lst)) generator - e_sum E As)%E with (times (fst lst * rs_step (snd lst)) (@generator E)) in Hsub by el_ring L.
    exact Hsub. }
  assert (Hok : gok K [] (ops1 ++ [lop])).
  { apply gok_app; [assumption..|]. intros es Hes. cbn [app UniformRing.gok]. split.
    - cbn. rewrite ring_of_length. unfold in_ring in Hlst. lia.
    - cbn [UniformRing.g_src lop last_gop]. split; [apply Hlastenc; exact Hes|exact I]. }
  assert (Htot : g_total (ops1 ++ [lop]) = (N.to_nat (n_sum (map rs_size d)) + m)%nat).
  { rewrite <- Hsize, <- Hpre. unfold UniformRing.g_total, UniformRing.g_size. rewrite !map_app, !list_sum_app.
    assert (Hl : (g_draws E lop + g_index lop = List.length (g_values lop))%nat).
    { unfold g_draws, g_rest. cbn. rewrite ring_of_length. unfold in_ring in Hlst. lia. }
    assert (H1 : (list_sum (map (g_draws E) ops1) + list_sum (map g_index ops1) =
                  list_sum (map (fun o => List.length (g_values o)) ops1) + List.length pre)%nat).
    { unfold ops1 in *. clear - Hidx. induction pre as [|p pre IH]; [reflexivity|]. cbn [map] in *. apply Forall_cons_iff in Hidx as [Hp Hidx].
      specialize (IH Hidx). cbn [list_sum fold_right List.length] in *. fold (list_sum (map (g_draws E) (map digit_gop (map digit_item pre)))).
      fold (list_sum (map g_index (map digit_gop (map digit_item pre)))).
      fold (list_sum (map (fun o => List.length (g_values o)) (map digit_gop (map digit_item pre)))).
      assert (Hd : g_draws E (digit_gop (digit_item p)) = (1 + (List.length (g_values (digit_gop (digit_item p))) - g_index (digit_gop (digit_item p))))%nat) by reflexivity.
      lia. }
    cbn [map list_sum fold_right]. lia. }
  assert (H := gop_uniform E L Ht K (repeat s_default (N.to_nat (n_sum (map rs_size d)))) (range_start_transcript t d) (ops1 ++ [lop])
    Hok ltac:(rewrite repeat_length; symmetry; exact Hsize) (zeros_repeat _)).
  rewrite Htot, Hvals in H.
  assert (Hshape : forall es, gshape K [] (ops1 ++ [lop]) es <-> exists es1,
     es = es1 ++ [ExtendedCiphertext_sub (cwv_ext c) (fold_left ExtendedCiphertext_add es1 ExtendedCiphertext_zero)] /\ Forall2 (g_enc K) ops1 es1).
  { intros es. rewrite (gshape_app K ops1 [] [lop] es Hfresh). split.
    - intros (es1 & es2 & -> & H1 & H2). cbn [app] in H2. destruct es2 as [|e [|e2 es2]]; cbn in H2; try tauto.
      destruct H2 as (_ & Hf & _). unfold g_from in Hf. cbn in Hf. subst e. eauto.
    - intros (es1 & -> & H1). eexists es1, _. split; [reflexivity|]. split; [exact H1|]. cbn. split; [apply Hlastenc; exact H1|].
      unfold g_from. cbn. auto. }
  assert (Hcts : forall es1, map ext_inner (es1 ++ [ExtendedCiphertext_sub (cwv_ext c) (fold_left ExtendedCiphertext_add es1 ExtendedCiphertext_zero)])
     = range_ciphertexts (map ext_inner es1) (cwv_inner c)).
  { intros es1. rewrite map_app. unfold range_ciphertexts. f_equal. cbn [map ExtendedCiphertext_sub ext_inner]. rewrite fold_ext_inner.
    cbn [ExtendedCiphertext_zero ext_inner]. rewrite (fold_sub_add E L), (sub_zero E L). reflexivity. }
  assert (Hl1 : forall es1, Forall2 (g_enc K) ops1 es1 -> (List.length (map ext_inner es1) + 1 = List.length d)%nat).
  { intros es1 H1. rewrite map_length, <- (Forall2_length' _ _ _ H1). unfold ops1. rewrite !map_length, Hpre. unfold m. lia. }
  apply (uniform_image _ _ _ _ _ (fun ept : list (ExtendedCiphertext E) * RingProof E * transcript =>
    let '(es, p, t') := ept in ({| rap_partial := map ext_inner (removelast es); rap_inner := p |}, t')) H).
  - intros r [[es p] t'] r' [Hs1 _] Hr. rewrite (from_ciphertext_eq E K n d c t r idx) by assumption. cbv zeta. fold m.
    rewrite items_eq. fold pl. rewrite firstn_map, skipn_map. fold pre. rewrite Hskip. cbn [map].
    rewrite (range_add_values_gop _ _ _ []). fold ops1. rewrite gop_run_app in Hr.
    inv_bind Hr. destruct a as [es1 b1]. inv_bind Hr. destruct a as [[[ch rs] t1] r1]. injection Hr as -> <- -> ->.
    inv_bind Hm. destruct a as [es2 b2]. rewrite Hm1. cbn [bind]. inv_bind Hm. destruct a as [es3 b3]. injection Hm as <- <-.
    cbn [UniformRing.gop_run UniformRing.g_src lop last_gop app UniformRing.g_values UniformRing.g_index bind] in Hm2.
    inv_bind Hm2. destruct a as [e4 b4]. injection Hm2 as <- <-. inv_bind Hm. injection Hm as <- <-.
    unfold digit_item at 1. cbn [digit_item fst snd] in Hm2. rewrite Hm2. cbn [bind]. rewrite Hm0. cbn [bind].
    rewrite removelast_last. reflexivity.
  - intros [[es p] t'] [Hs1 Hver]. apply Hshape in Hs1 as (es1 & -> & H1). rewrite Hcts in Hver. cbn [fst snd rap_partial].
    rewrite removelast_last. split.
    + unfold hides_digits. fold pl. rewrite Hrem. apply digits_hidden. exists es1. split; [apply digits_enc; assumption|reflexivity].
    + rewrite (range_verify_eq E L). cbn [rap_partial rap_inner]. rewrite (Hl1 _ H1), Nat.eqb_refl. exact Hver.
  - intros [[partial p] t'] [Hh Hver]. cbn [fst snd rap_partial] in *. unfold hides_digits in Hh. fold pl in Hh. rewrite Hrem in Hh.
    apply digits_hidden in Hh as (es1 & He & <-). apply digits_enc in He; [|exact Hallp]. fold ops1 in He.
    rewrite (range_verify_eq E L) in Hver. cbn [rap_partial rap_inner] in Hver. rewrite (Hl1 _ He), Nat.eqb_refl in Hver.
    eexists (es1 ++ [_], p, t'). split; [split|].
    + apply Hshape. exists es1. split; [reflexivity|exact He].
    + rewrite Hcts. exact Hver.
    + cbn. rewrite removelast_last. reflexivity.
  - intros [[es p] t'] [[es' p'] t''] [Hs1 _] [Hs1' _] Heq. apply Hshape in Hs1 as (es1 & -> & H1). apply Hshape in Hs1' as (es1' & -> & H1').
    rewrite !removelast_last in Heq. injection Heq as Hi -> ->. rewrite (enc_inner_inj K ops1 es1 es1' H1 H1' Hi). reflexivity.
Qed.


Lemma cwv_uniform (K : PublicKey E) (v : N) : (v < u64_lim)%N ->
  uniform_over 1 (fun r => Ret (CiphertextWithValue_new s_of_u64 v K r))
    (fun c => cwv_value c = v /\ encrypts K (cwv_inner c) (times v generator) (cwv_randomness c)).
Proof using L.
  intros Hv. apply (uniform_image 1 _ _ _ _ (fun e : ExtendedCiphertext E => {| cwv_ext := e; cwv_value := v |})
    (ext_uniform E L (times v generator) K)).
  - intros r e r' _ H. injection H as H. unfold CiphertextWithValue_new. rewrite (mul_generator_ok E L), <- (times_of_u64 E L) by exact Hv.
    rewrite H. reflexivity.
  - intros e He. split; [reflexivity|exact He].
  - intros [e v'] [Hval He]. cbn in Hval. subst v'. exists e. auto.
  - intros e e' _ _ H. congruence.
Qed.

(** the digits of a value *)
Definition digits (d : RangeDecomposition) (v : N) : list N :=
  match RangeDecomposition_decompose (env_build E) d v with Ret idx => idx | Panic _ => [] end.

Lemma digits_ok n d v : doc_form n d -> (n <= u64_lim)%N -> (v < n)%N ->
  RangeDecomposition_decompose (env_build E) d v = Ret (digits d v) /\ in_rings d (digits d v) /\ composed d (digits d v) = v.
Proof using.
  intros Hd Hn Hv. destruct (decompose_ok (env_build E) n d v Hd Hn Hv) as (idx & Hdec & H). unfold digits. rewrite Hdec. auto.
Qed.

Lemma range_new_uniform (K : PublicKey E) n d v t :
  doc_form n d -> (n + 64 < 2 ^ 64)%N -> (v < n)%N ->
  uniform_over (range_draws d)
    (fun r => '(c, p, t', r) <- RangeProof_new K (prepared E d) v t r ;; Ret ((c, p, t'), r))
    (fun cpt => let '(c, p, t') := cpt in
       cwv_value c = v /\ encrypts K (cwv_inner c) (times v generator) (cwv_randomness c) /\
       hides_digits K d (digits d v) (rap_partial p) /\
       RangeProof_verify p K (prepared E d) (cwv_inner c) t = Ret (Ok tt, t')).
Proof using L Ht.
  intros Hd Hn Hv. assert (Hn' : (n < u64_lim)%N) by (unfold u64_lim; lia).
  assert (Hpos : (0 < List.length d)%nat) by (pose proof (doc_form_nonempty _ _ Hd); destruct d; [contradiction|cbn; lia]).
  destruct (digits_ok n d v Hd ltac:(lia) Hv) as (Hdec & Hin & Hcomp).
  assert (H := uniform_bind 1 (N.to_nat (n_sum (map rs_size d)) + (List.length d - 1)) _ _
    (fun c r => '(p, t', r) <- RangeProof_from_ciphertext K (prepared E d) c t r ;; Ret ((p, t'), r))
    (fun c pt => hides_digits K d (digits d v) (rap_partial (fst pt)) /\
       RangeProof_verify (fst pt) K (prepared E d) (cwv_inner c) t = Ret (Ok tt, snd pt)) (cwv_uniform K v ltac:(lia))).
  specialize (H ltac:(intros c [Hval He]; apply (range_from_uniform K n d c t (digits d v)); try assumption;
    [apply (sizes_fit n d Hd Hn)|rewrite Hval; assumption..])).
  replace (range_draws d) with (1 + (N.to_nat (n_sum (map rs_size d)) + (List.length d - 1)))%nat by (unfold range_draws; lia).
  apply (uniform_image _ _ _ _ _ (fun a : CiphertextWithValue E N * (RangeProof E * transcript) => (fst a, fst (snd a), snd (snd a))) H).
  - intros r [c [p t']] r' _ Hr. cbn [bind] in Hr. unfold RangeProof_new. destruct (CiphertextWithValue_new s_of_u64 v K r) as [c1 r1].
    inv_bind Hr. destruct a as [[p1 t1] r2]. injection Hr as -> -> -> ->. inv_bind Hm. destruct a as [[p2 t2] r3]. injection Hm as -> -> ->.
    rewrite Hm0. reflexivity.
  - intros [c [p t']] [[H1 H2] [H3 H4]]. cbn [fst snd] in *. auto.
  - intros [[c p] t'] (H1 & H2 & H3 & H4). exists (c, (p, t')). cbn [fst snd]. auto.
  - intros [c [p t']] [c' [p' t'']] _ _ Heq. cbn in Heq. congruence.
Qed.

(** the ciphertext determines the encrypted value and its randomness *)
Lemma cwv_eq (K : PublicKey E) (a b : CiphertextWithValue E N) M : cwv_value a = cwv_value b ->
  encrypts K (cwv_inner a) M (cwv_randomness a) -> encrypts K (cwv_inner b) M (cwv_randomness b) -> cwv_inner a = cwv_inner b -> a = b.
Proof using L.
  destruct a as [a x], b as [b y]. cbn. intros -> H1 H2 Heq. f_equal. exact (ext_eq E L K a b M M H1 H2 Heq).
Qed.

Lemma range_new_uniform_proof (K : PublicKey E) n d v t :
  doc_form n d -> (n + 64 < 2 ^ 64)%N -> (v < n)%N ->
  uniform_over (range_draws d)
    (fun r => '(c, p, _, r) <- RangeProof_new K (prepared E d) v t r ;; Ret ((c, p), r))
    (fun cp => cwv_value (fst cp) = v /\ encrypts K (cwv_inner (fst cp)) (times v generator) (cwv_randomness (fst cp)) /\
       hides_digits K d (digits d v) (rap_partial (snd cp)) /\
       exists t', RangeProof_verify (snd cp) K (prepared E d) (cwv_inner (fst cp)) t = Ret (Ok tt, t')).
Proof using L Ht.
  intros H1 H2 H3. apply (uniform_image _ _ _ _ _ fst (range_new_uniform K n d v t H1 H2 H3)).
  - intros r [[c p] t'] r' _ H. inv_bind H. destruct a as [[[c1 p1] t1] r1]. injection H as -> -> -> ->. rewrite Hm. reflexivity.
  - intros [[c p] t'] (Ha & Hb & Hc & Hd). cbn [fst snd]. eauto 10.
  - intros [c p] (Ha & Hb & Hc & t' & Hd). exists (c, p, t'). auto.
  - intros [[c p] t1] [[c' p'] t1'] (_ & _ & _ & Hp) (_ & _ & _ & Hp') Heq. cbn in Heq. injection Heq as -> ->. congruence.
Qed.

Lemma encrypt_range_uniform (K : PublicKey E) n d v :
  doc_form n d -> (n + 64 < 2 ^ 64)%N -> (v < n)%N ->
  uniform_over (range_draws d)
    (fun r => '(c, p, r) <- encrypt_range K (prepared E d) v r ;; Ret ((c, p), r))
    (fun cp => (exists x, encrypts K (fst cp) (times v generator) x) /\ hides_digits K d (digits d v) (rap_partial (snd cp)) /\
       verify_range K (prepared E d) (fst cp) (snd cp) = Ret (Ok tt)).
Proof using L Ht.
  intros H1 H2 H3.
  apply (uniform_image _ _ _ _ _ (fun cp : CiphertextWithValue E N * RangeProof E => (cwv_inner (fst cp), snd cp))
    (range_new_uniform_proof K n d v (transcript_new "ciphertext_range") H1 H2 H3)).
  - intros r [c p] r' _ H. inv_bind H. destruct a as [[[c1 p1] t1] r1]. injection H as -> -> ->. unfold encrypt_range. rewrite Hm. reflexivity.
  - intros [c p] (Ha & Hb & Hc & t' & Hd). cbn [fst snd] in *. split; [eauto|]. split; [exact Hc|]. unfold verify_range. rewrite Hd. reflexivity.
  - intros [ct p] ([x Hx] & Hc & Hv). cbn [fst snd] in *.
    exists ({| cwv_ext := {| ext_inner := ct; ext_random_scalar := x |}; cwv_value := v |}, p). cbn [fst snd].
    split; [|reflexivity]. split; [reflexivity|]. split; [exact Hx|]. split; [exact Hc|].
    unfold verify_range in Hv. inv_bind Hv. destruct a as [res t']. injection Hv as ->. exists t'. exact Hm.
  - intros [c p] [c' p'] (Ha & Hb & _) (Ha' & Hb' & _) Heq. cbn [fst snd] in *. injection Heq as Hi ->. f_equal.
    eapply cwv_eq; [congruence|exact Hb|exact Hb'|exact Hi].
Qed.

(** ** quadratic voting *)
Definition vote_hidden (K : PublicKey E) (d : RangeDecomposition) (t : transcript) (v : N)
    (o : CiphertextWithValue E scalar * RangeProof E) : Prop :=
  cwv_value (fst o) = s_of_u64 v /\ encrypts K (cwv_inner (fst o)) (times v generator) (cwv_randomness (fst o)) /\
  hides_digits K d (digits d v) (rap_partial (snd o)) /\
  exists t', RangeProof_verify (snd o) K (prepared E d) (cwv_inner (fst o)) t = Ret (Ok tt, t').

Lemma vote_uniform (K : PublicKey E) n d v t :
  doc_form n d -> (n + 64 < 2 ^ 64)%N -> (v < n)%N ->
  uniform_over (range_draws d)
    (fun r => '(c, p, _, r) <- RangeProof_new K (prepared E d) v t r ;; Ret ((CiphertextWithValue_generalize s_of_u64 c, p), r))
    (vote_hidden K d t v).
Proof using L Ht.
  intros H1 H2 H3.
  apply (uniform_image _ _ _ _ _ (fun cp : CiphertextWithValue E N * RangeProof E => (CiphertextWithValue_generalize s_of_u64 (fst cp), snd cp))
    (range_new_uniform_proof K n d v t H1 H2 H3)).
  - intros r [c p] r' _ H. inv_bind H. destruct a as [[[c1 p1] t1] r1]. injection H as -> -> ->. rewrite Hm. reflexivity.
  - intros [[e v'] p] (Ha & Hb & Hc & Hd). cbn [fst snd] in *. unfold vote_hidden. cbn in *. subst v'. auto.
  - intros [[e v'] p] (Ha & Hb & Hc & Hd). cbn [fst snd cwv_value] in *. subst v'. exists ({| cwv_ext := e; cwv_value := v |}, p). auto.
  - intros [[e v1] p] [[e' v1'] p'] (Ha & _) (Ha' & _) Heq. cbn [fst snd cwv_value] in *. subst v1 v1'.
    unfold CiphertextWithValue_generalize in Heq. cbn [cwv_ext cwv_value] in Heq. injection Heq as -> ->. reflexivity.
Qed.

Lemma votes_uniform (params : QuadraticVotingParams E) n d : qv_vote_count_range params = prepared E d ->
  doc_form n d -> (n + 64 < 2 ^ 64)%N -> forall votes, Forall (fun v => (v < n)%N) votes ->
  uniform_over (List.length votes * range_draws d) (qv_encrypt_votes params votes)
    (Forall2 (vote_hidden (qv_receiver params) d qv_variant_context) votes).
Proof using L Ht.
  intros Hp H1 H2. induction votes as [|v votes IH]; intros Hv.
  - cbn. eapply uniform_ext; [apply (uniform_ret [])|reflexivity|]. intros out. split; [intros ->; constructor|intros H; inversion H; reflexivity].
  - apply Forall_cons_iff in Hv as [Hv Hvs]. specialize (IH Hvs).
    assert (H := uniform_bind _ _ _ _ _ _ (vote_uniform (qv_receiver params) n d v qv_variant_context H1 H2 Hv) (fun _ _ => IH)).
    change (List.length (v :: votes) * range_draws d)%nat with (range_draws d + List.length votes * range_draws d)%nat.
    apply (uniform_image _ _ _ _ _ (fun a : (CiphertextWithValue E scalar * RangeProof E) * list (CiphertextWithValue E scalar * RangeProof E) => fst a :: snd a) H).
    + intros r [o rest] r' _ Hr. inv_bind Hr. destruct a as [o1 r1]. inv_bind Hr. destruct a as [rest1 r2]. injection Hr as -> -> ->.
      inv_bind Hm. destruct a as [[[c p] t1] r3]. injection Hm as <- ->. cbn [qv_encrypt_votes]. rewrite Hp.
      change (transcript_new "quadratic_voting_variant") with qv_variant_context. rewrite Hm1. cbn [bind]. rewrite Hm0. reflexivity.
    + intros [o rest] [Ho Hrest]. constructor; assumption.
    + intros out Hout. inversion Hout as [|? o ? rest Ho Hrest]; subst. exists (o, rest). auto.
    + intros [o rest] [o' rest'] _ _ Heq. cbn in Heq. congruence.
Qed.

Lemma sq_uniform_proof (cts : list (CiphertextWithValue E scalar)) (z : CiphertextWithValue E scalar) (K : PublicKey E) t :
  Forall (fun ct => encrypts K (cwv_inner ct) (generator * cwv_value ct)%E (cwv_randomness ct)) cts ->
  encrypts K (cwv_inner z) (generator * cwv_value z)%E (cwv_randomness z) ->
  cwv_value z = sum_sq (map cwv_value cts) ->
  uniform_over (1 + List.length cts * 2)
    (fun r => '(p, _, r) <- SumOfSquaresProof_new cts z K t r ;; Ret (p, r))
    (fun p => exists t', SumOfSquaresProof_verify p (map cwv_inner cts) (cwv_inner z) K t = Ret (Ok tt, t')).
Proof using L Ht.
  intros H1 H2 H3. apply (uniform_image _ _ _ _ _ fst (sq_uniform E L Ht cts z K t H1 H2 H3)).
  - intros r [p t'] r' _ H. inv_bind H. destruct a as [[p1 t1] r1]. injection H as -> -> ->. rewrite Hm. reflexivity.
  - intros [p t'] H. exists t'. exact H.
  - intros p [t' H]. exists (p, t'). auto.
  - intros [p t'] [p' t''] H H' Heq. cbn in *. subst p'. congruence.
Qed.

Lemma hidden_eq (K : PublicKey E) d t v (o o' : CiphertextWithValue E scalar * RangeProof E) :
  vote_hidden K d t v o -> vote_hidden K d t v o' -> cwv_inner (fst o) = cwv_inner (fst o') -> snd o = snd o' -> o = o'.
Proof using L.
  destruct o as [[e x] p], o' as [[e' x'] p']. intros (Ha & Hb & _) (Ha' & Hb' & _) Hi Hp. cbn in *. subst p'.
  rewrite (ext_eq E L K e e' _ _ Hb Hb' Hi). congruence.
Qed.

Definition crp_of (o : CiphertextWithValue E scalar * RangeProof E) : CiphertextWithRangeProof E :=
  {| crp_ciphertext := cwv_inner (fst o); crp_range_proof := snd o |}.

Lemma hidden_crp (K : PublicKey E) d t v (c : CiphertextWithRangeProof E) :
  (hides_value K d v (digits d v) c /\
   exists t', RangeProof_verify (crp_range_proof c) K (prepared E d) (crp_ciphertext c) t = Ret (Ok tt, t')) <->
  exists o, vote_hidden K d t v o /\ crp_of o = c.
Proof using.
  split.
  - destruct c as [ct p]. unfold hides_value. cbn [crp_ciphertext crp_range_proof]. intros [[[x Hx] Hd] Hv].
    exists ({| cwv_ext := {| ext_inner := ct; ext_random_scalar := x |}; cwv_value := s_of_u64 v |}, p). unfold vote_hidden. cbn. auto.
  - intros ([[e x] p] & (Ha & Hb & Hc & Hd) & <-). unfold hides_value, crp_of. cbn in *. eauto.
Qed.

Lemma hidden_list (K : PublicKey E) d t votes : forall cs : list (CiphertextWithRangeProof E),
  (Forall2 (fun v c => hides_value K d v (digits d v) c) votes cs /\
   forall c, In c cs -> exists t', RangeProof_verify (crp_range_proof c) K (prepared E d) (crp_ciphertext c) t = Ret (Ok tt, t')) <->
  exists os, Forall2 (vote_hidden K d t) votes os /\ map crp_of os = cs.
Proof using.
  induction votes as [|v votes IH]; intros cs; split.
  - intros [H _]. inversion H; subst. exists []. auto.
  - intros (os & H & <-). inversion H; subst. split; [constructor|intros c []].
  - intros [H Hv]. inversion H as [|? c ? cs' Hc Hcs]; subst.
    destruct (proj1 (IH cs')) as (os & Hos & <-); [split; [exact Hcs|intros c' Hc'; apply Hv; right; exact Hc']|].
    destruct (proj1 (hidden_crp K d t v c)) as (o & Ho & <-); [split; [exact Hc|apply Hv; left; reflexivity]|].
    exists (o :: os). split; [constructor; assumption|reflexivity].
  - intros (os & H & <-). inversion H as [|? o ? os' Ho Hos]; subst.
    destruct (proj2 (IH (map crp_of os'))) as [I1 I2]; [eauto|]. destruct (proj2 (hidden_crp K d t v (crp_of o))) as [I3 I4]; [eauto|].
    cbn [map]. split; [constructor; assumption|]. intros c [<-|Hc]; auto.
Qed.

Lemma ballot_uniform receiver options V C p votes : qv_inv E receiver options V C p ->
  List.length votes = options -> Forall (fun v => (v <= V)%N) votes -> (squares votes <= C)%N ->
  exists dv dc, pr_inner (qv_vote_count_range p) = dv /\ pr_inner (qv_credit_range p) = dc /\
  (forall v, (v <= V)%N -> in_rings dv (digits dv v) /\ composed dv (digits dv v) = v) /\
  (forall v, (v <= C)%N -> in_rings dc (digits dc v) /\ composed dc (digits dc v) = v) /\
  uniform_over (options * range_draws dv + range_draws dc + (1 + options * 2)) (QuadraticVotingBallot_new p votes)
    (fun ballot =>
       Forall2 (fun v c => hides_value receiver dv v (digits dv v) c) votes (qb_votes ballot) /\
       hides_value receiver dc (squares votes) (digits dc (squares votes)) (qb_credit ballot) /\
       QuadraticVotingBallot_verify ballot p = Ret (Ok (map crp_ciphertext (qb_votes ballot)))).
Proof using L Ht.
  intros (dv & dc & Hv & Hc & HV & HC & Ho & ->) Hl Hvs Hsq. exists dv, dc.
  cbn [qv_vote_count_range qv_credit_range pr_inner prepared]. split; [reflexivity|]. split; [reflexivity|].
  split; [intros v Hle; apply (digits_ok (V + 1) dv v Hv); unfold u64_lim; lia|].
  split; [intros v Hle; apply (digits_ok (C + 1) dc v Hc); unfold u64_lim; lia|].
  set (p := {| qv_vote_count_range := prepared E dv; qv_credit_range := prepared E dc; qv_options_count := options; qv_receiver := receiver |}).
  assert (Hvs' : Forall (fun v => (v < V + 1)%N) votes) by (eapply Forall_impl; [|exact Hvs]; cbn; intros; lia).
  assert (H1 := votes_uniform p (V + 1) dv eq_refl Hv ltac:(lia) votes Hvs'). rewrite Hl in H1. cbn [qv_receiver p] in H1.
  assert (H2 := uniform_bind _ _ _ _ _ _ H1 (fun _ _ => vote_uniform receiver (C + 1) dc (squares votes) qv_credit_context Hc ltac:(lia) ltac:(lia))).
  assert (H3 := uniform_bind _ (1 + options * 2) _ _
    (fun oc r => '(ep, _, r) <- SumOfSquaresProof_new (map fst (fst oc)) (fst (snd oc)) receiver qv_equiv_context r ;; Ret (ep, r))
    (fun oc ep => exists t', SumOfSquaresProof_verify ep (map cwv_inner (map fst (fst oc))) (cwv_inner (fst (snd oc))) receiver qv_equiv_context = Ret (Ok tt, t'))
    H2).
  assert (Hsqp : forall (os : list (CiphertextWithValue E scalar * RangeProof E)) o,
    Forall2 (vote_hidden receiver dv qv_variant_context) votes os -> vote_hidden receiver dc qv_credit_context (squares votes) o ->
    Forall (fun ct => encrypts receiver (cwv_inner ct) (generator * cwv_value ct)%E (cwv_randomness ct)) (map fst os) /\
    encrypts receiver (cwv_inner (fst o)) (generator * cwv_value (fst o))%E (cwv_randomness (fst o)) /\
    cwv_value (fst o) = sum_sq (map cwv_value (map fst os))).
  { intros os o Hos (Hc1 & Hc2 & _). split; [|split].
    - clear - Hos HV Hvs L. induction Hos as [|v o votes os (Ha & Hb & _) Hos IH]; cbn [map]; constructor.
      + apply Forall_cons_iff in Hvs as [Hle _]. rewrite Ha, <- (times_of_u64 E L) by (unfold u64_lim; lia). exact Hb.
      + apply Forall_cons_iff in Hvs as [_ Hvs]. auto.
    - rewrite Hc1, <- (times_of_u64 E L) by (unfold u64_lim; lia). exact Hc2.
    - rewrite Hc1, (of_u64_phi E L) by (unfold u64_lim; lia). rewrite <- (sum_sq_squares E L). f_equal. rewrite map_map.
      clear - Hos HV Hvs L. induction Hos as [|v o votes os (Ha & Hb & _) Hos IH]; cbn [map]; [reflexivity|].
      apply Forall_cons_iff in Hvs as [Hle Hvs]. rewrite (IH Hvs), Ha. f_equal. symmetry. apply (of_u64_phi E L). unfold u64_lim. lia. }
  specialize (H3 ltac:(intros [os o] [Hos Hoo]; cbn [fst snd] in *; destruct (Hsqp os o Hos Hoo) as (S1 & S2 & S3);
    pose proof (sq_uniform_proof (map fst os) (fst o) receiver qv_equiv_context S1 S2 S3) as Hu;
    rewrite map_length, <- (Forall2_length' _ _ _ Hos), Hl in Hu; exact Hu)).
  apply (uniform_image _ _ _ _ _ (fun a : (list (CiphertextWithValue E scalar * RangeProof E) * (CiphertextWithValue E scalar * RangeProof E)) * SumOfSquaresProof E =>
    {| qb_votes := map crp_of (fst (fst a)); qb_credit := crp_of (snd (fst a)); qb_credit_equivalence_proof := snd a |}) H3).
  - intros r [[os o] ep] r' _ Hr. inv_bind Hr. destruct a as [[os1 o1] r1]. inv_bind Hr. destruct a as [ep1 r2]. injection Hr as -> -> -> ->.
    cbn [fst snd] in Hm0. inv_bind Hm. destruct a as [os2 r3]. inv_bind Hm. destruct a as [o2 r4]. injection Hm as -> -> ->.
    inv_bind Hm2. destruct a as [[[c pr] t1] r5]. injection Hm2 as <- ->. inv_bind Hm0. destruct a as [[ep2 t2] r6]. injection Hm0 as -> ->.
    unfold QuadraticVotingBallot_new, assert. cbn [qv_options_count p]. rewrite Hl, Nat.eqb_refl. cbn [bind].
    destruct (credit_sum_total E votes) as (sq & -> & Hcr); [lia|]. cbn [bind]. rewrite Hcr. cbn [bind].
    fold p. rewrite Hm1. cbn [bind qv_receiver qv_credit_range p].
    change (transcript_new "quadratic_voting_credit_range") with qv_credit_context. rewrite Hm. cbn [bind].
    change (transcript_new "quadratic_voting_credit_equiv") with qv_equiv_context. cbn [fst snd] in Hm2. rewrite Hm2. reflexivity.
  - intros [[os o] ep] [[Hos Hoo] He]. cbn [fst snd] in *. cbn [qb_votes qb_credit].
    destruct (proj2 (hidden_list receiver dv qv_variant_context votes (map crp_of os))) as [I1 I2]; [eauto|].
    destruct (proj2 (hidden_crp receiver dc qv_credit_context (squares votes) (crp_of o))) as [I3 I4]; [eauto|].
    split; [exact I1|]. split; [exact I3|]. apply (qv_verify_ok_iff E). cbn [qb_votes qb_credit qv_options_count p].
    split; [reflexivity|]. split; [rewrite map_length, <- (Forall2_length' _ _ _ Hos); exact Hl|]. split; [exact I2|]. split; [exact I4|].
    unfold equiv_checked. cbn [qb_votes qb_credit qb_credit_equivalence_proof qv_receiver]. rewrite map_map in *. exact He.
  - intros [cs cr ep] (H4 & H5 & H6). cbn [qb_votes qb_credit] in *. apply (qv_verify_ok_iff E) in H6.
    cbn [qb_votes qb_credit qv_options_count p] in H6. destruct H6 as (_ & _ & H7 & H8 & H9).
    destruct (proj1 (hidden_list receiver dv qv_variant_context votes cs)) as (os & Hos & <-); [split; [exact H4|exact H7]|].
    destruct (proj1 (hidden_crp receiver dc qv_credit_context (squares votes) cr)) as (o & Hoo & <-); [split; [exact H5|exact H8]|].
    exists (os, o, ep). cbn [fst snd]. split; [|reflexivity]. split; [auto|].
    unfold equiv_checked in H9. cbn [qb_votes qb_credit qb_credit_equivalence_proof qv_receiver p] in H9. rewrite map_map in *. exact H9.
  - intros [[os o] ep] [[os' o'] ep'] [[Hos Hoo] _] [[Hos' Hoo'] _] Heq. cbn [fst snd] in *. injection Heq as Hv1 Hc1 Hc2 ->.
    f_equal. f_equal.
    + clear - L Hos Hos' Hv1. revert os' Hos' Hv1. induction Hos as [|v x votes os Hx Hos IH]; intros os' Hos' Heq; inversion Hos' as [|? x' ? os1 Hx' Hos1]; subst; [reflexivity|].
      cbn in Heq. injection Heq as Ha Hb Heq. f_equal; [eapply hidden_eq; eassumption|auto].
    + eapply hidden_eq; eassumption.
Qed.

(** ** threshold decryption *)
Lemma decrypt_share_uniform (ks : PublicKeySet E) i share a (ct : Ciphertext E) :
  ActiveParticipant_new ks i share = Ret (Ok a) ->
  uniform_over 1
    (fun r => '(d, p, r) <- ActiveParticipant_decrypt_share a ct r ;; Ret ((d, p), r))
    (fun dp => vd_dh_element (fst dp) = (random_element ct * share)%E /\
       PublicKeySet_verify_share ks {| cd_inner := fst dp |} ct i (snd dp) = Ret (Ok (fst dp))).
Proof using L Ht.
  intros Ha. apply (participant_new_iff E L) in Ha. destruct Ha as (-> & key & Hk & Hs).
  set (base := {| pk_bytes := ser E (random_element ct); pk_element := random_element ct |}).
  assert (Hbase : PublicKey_from_element (random_element ct) = Ret base)
    by (unfold PublicKey_from_element; rewrite (ser_ok E L Ht); reflexivity).
  set (d0 := {| vd_dh_element := (random_element ct * share)%E |} : VerifiableDecryption E).
  apply (uniform_image 1 _ _ _ _ (fun p : LogEqualityProof E => (d0, p))
    (le_uniform_proof E L Ht base share (pk_element key) (random_element ct * share)%E (decryption_share_transcript ks i) Hs eq_refl)).
  - intros r p r' _ H. unfold ActiveParticipant_decrypt_share, ActiveParticipant_public_key_share, index.
    cbn [ap_key_set ap_index ap_secret_share]. rewrite Hk. cbn [bind]. rewrite Hbase. cbn [bind].
    inv_bind H. destruct a as [[p1 t1] r1]. injection H as -> ->. rewrite Hm. reflexivity.
  - intros p [t' Hv]. cbn [fst snd]. split; [reflexivity|]. unfold PublicKeySet_verify_share, index. rewrite Hk. cbn [bind]. rewrite Hbase.
    cbn [bind cd_inner vd_dh_element d0]. rewrite Hv. reflexivity.
  - intros [[D] p] [Hd Hv]. cbn [fst snd vd_dh_element] in *. subst D. fold d0 in Hv. exists p. split; [|reflexivity].
    unfold PublicKeySet_verify_share, index in Hv. rewrite Hk in Hv. cbn [bind] in Hv. rewrite Hbase in Hv. cbn [bind cd_inner vd_dh_element d0] in Hv.
    inv_bind Hv. destruct a as [[[]|e] t1]; [|discriminate]. exists t1. exact Hm.
  - intros p p' _ _ H. congruence.
Qed.

Lemma participant_pop_uniform (ks : PublicKeySet E) i share a :
  ActiveParticipant_new ks i share = Ret (Ok a) ->
  uniform_over 1 (ActiveParticipant_proof_of_possession a)
    (fun p => PublicKeySet_verify_participant ks i p = Ret (Ok tt)).
Proof using L Ht.
  intros Ha. apply (participant_new_iff E L) in Ha. destruct Ha as (-> & key & Hk & Hs).
  assert (H := pop_uniform E L Ht [share] [key] (participant_pop_transcript ks i) ltac:(constructor; [exact Hs|constructor])).
  cbn [List.length] in H. apply (uniform_image 1 _ _ _ _ fst H).
  - intros r [p t'] r' _ Hr. unfold ActiveParticipant_proof_of_possession, ActiveParticipant_public_key_share, index.
    cbn [ap_key_set ap_index ap_secret_share]. rewrite Hk. cbn [bind].
    inv_bind Hr. destruct a as [[p1 t1] r1]. injection Hr as -> -> ->. rewrite Hm. reflexivity.
  - intros [p t'] Hv. unfold PublicKeySet_verify_participant, PublicKeySet_participant_key. rewrite Hk. cbn [fst snd] in *.
    rewrite Hv. reflexivity.
  - intros p Hv. unfold PublicKeySet_verify_participant, PublicKeySet_participant_key in Hv. rewrite Hk in Hv.
    inv_bind Hv. destruct a as [[[]|e] t']; [|discriminate]. exists (p, t'). auto.
  - intros [p t'] [p' t''] Hp Hp' Heq. cbn in *. subst p'. congruence.
Qed.

(** ** keys and dealers *)
Definition pair_of (x : scalar) : Keypair E :=
  {| kp_secret := x; kp_public := {| pk_bytes := ser E (generator * x)%E; pk_element := (generator * x)%E |} |}.

Lemma pair_of_ok (kp : Keypair E) : key_of (kp_secret kp) (kp_public kp) /\ key_bytes_ok (kp_public kp) <-> pair_of (kp_secret kp) = kp.
Proof using L Ht.
  unfold key_of, key_bytes_ok, pair_of. destruct kp as [x [b e]]. cbn. split.
  - intros [-> H]. rewrite (ser_ok E L Ht) in H. congruence.
  - intros H. injection H as <- <-. rewrite (ser_ok E L Ht). auto.
Qed.

Lemma pair_generate r : Keypair_generate r = Ret (pair_of (fst (generate_scalar r)), snd (generate_scalar r)).
Proof using L Ht.
  unfold Keypair_generate, SecretKey_generate, Keypair_from_secret, PublicKey_from_secret, PublicKey_from_element.
  destruct (generate_scalar r) as [x r1]. cbn [fst snd]. rewrite (mul_generator_ok E L), (ser_ok E L Ht). reflexivity.
Qed.

Lemma pairs_generate n : forall r, generate_keypairs n r = Ret (map pair_of (fst (draws n r)), snd (draws n r)).
Proof using L Ht.
  induction n as [|n IH]; intros r; [reflexivity|]. cbn [generate_keypairs draws]. rewrite pair_generate. cbn [bind].
  destruct (generate_scalar r) as [x r1]. cbn [fst snd]. rewrite IH. cbn [bind]. destruct (draws n r1). reflexivity.
Qed.

Lemma map_pair_of (kps : list (Keypair E)) :
  Forall (fun kp => key_of (E:=E) (kp_secret kp) (kp_public kp) /\ key_bytes_ok (E:=E) (kp_public kp)) kps -> map pair_of (map kp_secret kps) = kps.
Proof using L Ht. induction 1 as [|kp kps H _ IH]; [reflexivity|]. cbn [map]. rewrite (proj1 (pair_of_ok kp) H), IH. reflexivity. Qed.

Lemma pair_of_good x : key_of (kp_secret (pair_of x)) (kp_public (pair_of x)) /\ key_bytes_ok (kp_public (pair_of x)).
Proof using L Ht. apply pair_of_ok. reflexivity. Qed.

Lemma keypairs_uniform n : uniform_over n (generate_keypairs n)
  (fun kps => List.length kps = n /\ Forall (fun kp => key_of (E:=E) (kp_secret kp) (kp_public kp) /\ key_bytes_ok (E:=E) (kp_public kp)) kps).
Proof using L Ht.
  apply (uniform_image n _ _ _ _ (map pair_of) (uniform_draws n)).
  - intros r xs r' _ H. rewrite pairs_generate. injection H as H. rewrite H. reflexivity.
  - intros xs H. rewrite map_length. split; [exact H|]. apply Forall_forall. intros kp Hin. apply in_map_iff in Hin as (x & <- & _).
    apply pair_of_good.
  - intros kps [Hl Hf]. exists (map kp_secret kps). rewrite map_length. split; [exact Hl|]. apply map_pair_of. exact Hf.
  - intros xs xs' _ _ H. apply (f_equal (map (@kp_secret E))) in H. rewrite !map_map in H. cbn in H. rewrite !map_id in H. exact H.
Qed.

Lemma keypair_uniform : uniform_over 1 Keypair_generate
  (fun kp => key_of (E:=E) (kp_secret kp) (kp_public kp) /\ key_bytes_ok (E:=E) (kp_public kp)).
Proof using L Ht.
  apply (uniform_image 1 _ _ _ _ (fun xs => pair_of (head E xs)) (uniform_draws 1)).
  - intros r xs r' _ H. apply draws1 in H as (y & -> & H). rewrite pair_generate, H. reflexivity.
  - intros xs _. apply pair_of_good.
  - intros kp H. exists [kp_secret kp]. split; [reflexivity|]. apply pair_of_ok. exact H.
  - intros xs xs' H H' Heq. apply (head_inj E); try assumption. apply (f_equal (@kp_secret E)) in Heq. exact Heq.
Qed.

Lemma dealer_uniform (params : Params) :
  uniform_over (pa_threshold params + pa_threshold params) (Dealer_new params)
    (fun d => de_params d = params /\ List.length (de_polynomial d) = pa_threshold params /\
       Forall (fun kp => key_of (E:=E) (kp_secret kp) (kp_public kp) /\ key_bytes_ok (E:=E) (kp_public kp)) (de_polynomial d) /\
       exists t', ProofOfPossession_verify (de_pop d) (map kp_public (de_polynomial d)) (share_poly_transcript params) = Ret (Ok tt, t')).
Proof using L Ht.
  assert (H := uniform_bind (pa_threshold params) (pa_threshold params) _ _
    (fun kps r => '(p, t', r) <- ProofOfPossession_new kps (share_poly_transcript params) r ;; Ret ((p, t'), r))
    (fun kps pt => ProofOfPossession_verify (fst pt) (map kp_public kps) (share_poly_transcript params) = Ret (Ok tt, snd pt))
    (keypairs_uniform (pa_threshold params))).
  specialize (H ltac:(intros kps [Hl Hf]; rewrite <- Hl, <- (map_length kp_public kps); unfold ProofOfPossession_new;
    apply (pop_uniform E L Ht); clear Hl; induction Hf as [|kp kps [Hk _] _ IH]; cbn [map]; constructor; assumption)).
  apply (uniform_image _ _ _ _ _ (fun a : list (Keypair E) * (ProofOfPossession E * transcript) =>
    {| de_params := params; de_polynomial := fst a; de_pop := fst (snd a) |}) H).
  - intros r [kps [p t']] r' _ Hr. unfold Dealer_new. inv_bind Hr. destruct a as [kps1 r1]. rewrite Hm. cbn [bind].
    inv_bind Hr. destruct a as [[p1 t1] r2]. inv_bind Hm0. destruct a as [[p2 t2] r3]. injection Hm0 as -> -> ->.
    injection Hr as -> -> -> ->. rewrite Hm1. reflexivity.
  - intros [kps [p t']] [[Hl Hf] Hv]. cbn in *. eauto.
  - intros [params' kps p] (Hp & Hl & Hf & t' & Hv). cbn in *. subst params'. exists (kps, (p, t')). auto.
  - intros [kps [p t']] [kps' [p' t'']] [_ Hv] [_ Hv'] Heq. cbn [fst snd] in *. injection Heq as -> ->. rewrite Hv in Hv'. congruence.
Qed.

End Proofs.
