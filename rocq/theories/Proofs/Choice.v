(** * Proofs about encrypted choices *)
From Coq Require Import List NArith ZArith String Lia Arith Field Bool.
From Verif.Model Require Import Base Group Transcript Keys Encryption LogEquality Ring Range Choice.
From Verif.Spec Require Import Encryption LogEquality Sigma Ring Range Choice.
From Verif.Proofs Require Import Lists Algebra Encryption LogEquality Ring Range.
Import ListNotations.
Open Scope string_scope.
Open Scope list_scope.
Open Scope nat_scope.

Lemma flags_sum (choices : list bool) :
  n_sum (map (fun flag : bool => if flag then 1%N else 0%N) choices) = N.of_nat (count_occ bool_dec choices true).
Proof.
  induction choices as [|[|] l IH]; [reflexivity| |]; cbn [map count_occ]; rewrite n_sum_cons, IH.
  - destruct (bool_dec true true); [|congruence]. lia.
  - destruct (bool_dec false true); [congruence|]. lia.
Qed.

Section Choice.
Context (E : Env) (L : GroupLaws E).
Local Notation scalar := (Scalar E).
Local Notation element := (Element E).
Add Field choice_field : (s_field L).

Definition bit_op (flag : bool) : ring_op (E:=E) := RAdd [identity; generator] (if flag then 1 else 0).

Lemma bit_ops_size choices :
  list_sum (map (fun o => List.length (op_values o)) (map bit_op choices)) = 2 * List.length choices.
Proof.
  induction choices as [|x l IH]; [reflexivity|]. cbn [map op_values bit_op List.length].
  match goal with |- list_sum (2 :: ?l) = _ => change (list_sum (2 :: l)) with (2 + list_sum l) end. rewrite IH. lia.
Qed.

Lemma choice_add_values_run choices : forall b exts b',
  choice_add_values b [identity; generator] choices = Ret (exts, b') <->
  exists l : list (ExtendedCiphertext E), l = exts /\
    choice_add_values b [identity; generator] choices = Ret (l, b') /\
    ring_run b (map bit_op choices) = Ret (map ext_inner l, b').
Proof.
  induction choices as [|flag choices IH]; intros b exts b'; cbn [choice_add_values map ring_run bit_op].
  - split; [intros H; injection H as <- <-; exists []; auto|]. intros (l & <- & H & _). exact H.
  - split; [|intros (l & <- & H & _); exact H]. intros H. pose proof H as H'. inv_bind H. destruct a as [ext b1]. inv_bind H.
    destruct a as [rest b2]. injection H as <- <-. apply IH in Hm0. destruct Hm0 as (l & -> & H1 & H2).
    exists (ext :: rest). split; [reflexivity|]. split; [exact H'|].
    change (RingProofBuilder_add_value b [identity; generator] (if flag then 1 else 0) = Ret (ext, b1)) in Hm.
    rewrite Hm. cbn [bind]. rewrite H2. reflexivity.
Qed.

Lemma choice_add_values_ok (K : PublicKey E) choices : forall b exts b',
  rb_receiver b = K ->
  choice_add_values b [identity; generator] choices = Ret (exts, b') ->
  Forall2 (fun flag (ext : ExtendedCiphertext E) => encrypts K (ext_inner ext) (bit_element flag) (ext_random_scalar ext)) choices exts.
Proof.
  induction choices as [|flag choices IH]; intros b exts b' HK H; cbn [choice_add_values] in H.
  - injection H as <- <-. constructor.
  - inv_bind H. destruct a as [ext b1]. inv_bind H. destruct a as [rest b2]. injection H as <- <-.
    unfold RingProofBuilder_add_value in Hm. inv_bind Hm. apply index_inv in Hm1.
    destruct (ExtendedCiphertext_new a (rb_receiver b) (rb_rng b)) as [ext1 r1] eqn:Hext. inv_bind Hm.
    injection Hm as <- <-. apply (ext_new_encrypts E L) in Hext as [Henc _]. rewrite HK in Henc.
    assert (HA : a = bit_element flag) by (destruct flag; cbn in Hm1; injection Hm1 as <-; reflexivity).
    rewrite HA in Henc. constructor; [exact Henc|]. apply (IH a0 rest b2); [|exact Hm0].
    unfold RingProofBuilder_add_precomputed_value in Hm2. inv_bind Hm2. destruct a1 as [x y]. inv_bind Hm2. destruct a1.
    injection Hm2 as <-. exact HK.
Qed.

Lemma choice_add_values_total choices : forall b cts b',
  ring_run b (map bit_op choices) = Ret (cts, b') ->
  exists exts, choice_add_values b [identity; generator] choices = Ret (exts, b').
Proof.
  induction choices as [|flag choices IH]; intros b cts b' H; cbn [choice_add_values map ring_run bit_op] in *.
  - injection H as <- <-. exists []. reflexivity.
  - inv_bind H. destruct a as [ext b1]. inv_bind H. destruct a as [rest b2]. injection H as <- <-.
    rewrite Hm. cbn [bind]. destruct (IH _ _ _ Hm0) as [exts ->]. cbn [bind]. eauto.
Qed.

(** sums *)
Lemma fold_ct_add (cts : list (Ciphertext E)) : forall c,
  fold_left Ciphertext_add cts c = Ciphertext_add c (ct_total cts).
Proof.
  induction cts as [|d cts IH]; intros c; cbn [fold_left].
  - unfold Ciphertext_add, ct_total. cbn. destruct c. cbn. f_equal; symmetry; apply (e_add_id_r L).
  - rewrite IH. unfold Ciphertext_add, ct_total. cbn. f_equal; symmetry; apply (e_add_assoc E L).
Qed.

Lemma reduce_ct (cts : list (Ciphertext E)) : cts <> [] -> reduce Ciphertext_add cts = Some (ct_total cts).
Proof.
  destruct cts as [|c cts]; intros H; [congruence|]. cbn [reduce]. rewrite fold_ct_add. reflexivity.
Qed.

Lemma fold_ext_add (exts : list (ExtendedCiphertext E)) : forall e,
  fold_left ExtendedCiphertext_add exts e =
  {| ext_inner := Ciphertext_add (ext_inner e) (ct_total (map ext_inner exts));
     ext_random_scalar := (ext_random_scalar e + fold_right s_add 0 (map ext_random_scalar exts))%S |}.
Proof.
  induction exts as [|d exts IH]; intros e; cbn [fold_left map fold_right].
  - destruct e as [c r]. unfold Ciphertext_add, ct_total. cbn. f_equal.
    + destruct c. cbn. f_equal; symmetry; apply (e_add_id_r L).
    + assert (H : forall x : scalar, x = (x + 0)%S) by (intros; ring). apply H.
  - rewrite IH. unfold ExtendedCiphertext_add, SecretKey_add. cbn [ext_inner ext_random_scalar]. f_equal.
    + unfold Ciphertext_add, ct_total. cbn. f_equal; symmetry; apply (e_add_assoc E L).
    + assert (H : forall x y z : scalar, (x + y + z = x + (y + z))%S) by (intros; ring). apply H.
Qed.

Lemma reduce_ext (exts : list (ExtendedCiphertext E)) : exts <> [] ->
  reduce ExtendedCiphertext_add exts =
  Some {| ext_inner := ct_total (map ext_inner exts); ext_random_scalar := fold_right s_add 0%S (map ext_random_scalar exts) |}.
Proof.
  destruct exts as [|c cts]; intros H; [congruence|]. cbn [reduce]. rewrite fold_ext_add. reflexivity.
Qed.

Lemma decrypt_total sk (cts : list (Ciphertext E)) :
  dlog L (decrypt_to_element sk (ct_total cts)) = fold_right s_add 0%S (map (fun c => dlog L (decrypt_to_element sk c)) cts).
Proof.
  induction cts as [|c cts IH]; unfold decrypt_to_element, ct_total in *; cbn [map fold_right random_element blinded_element] in *.
  - dlog_simpl L. ring.
  - rewrite <- IH. dlog_simpl L. ring.
Qed.

Lemma bits_total sk (cts : list (Ciphertext E)) (flags : list bool) :
  Forall2 (fun flag c => decrypt_to_element sk c = bit_element flag) flags cts ->
  dlog L (decrypt_to_element sk (ct_total cts)) = phi L (Z.of_nat (count_occ bool_dec flags true)).
Proof.
  intros H. rewrite decrypt_total. induction H as [|flag c flags cts Hc H IH]; cbn [map fold_right count_occ].
  - symmetry. apply (phi_0 L).
  - rewrite IH, Hc. destruct flag; cbn [bit_element].
    + destruct (bool_dec true true); [|congruence]. rewrite Nat2Z.inj_succ, <- Z.add_1_l, (phi_add E L), (phi_1 L), (dlog_generator L). reflexivity.
    + destruct (bool_dec false true); [congruence|]. rewrite (dlog_identity L). ring.
Qed.

Lemma encrypts_total (K : PublicKey E) choices (exts : list (ExtendedCiphertext E)) :
  Forall2 (fun flag ext => encrypts K (ext_inner ext) (bit_element flag) (ext_random_scalar ext)) choices exts ->
  encrypts K (ct_total (map ext_inner exts)) (generator * phi L (Z.of_nat (count_occ bool_dec choices true)))%E
    (fold_right s_add 0%S (map ext_random_scalar exts)).
Proof.
  intros H. unfold encrypts, ct_total. induction H as [|flag ext choices exts [H1 H2] H [I1 I2]]; cbn [map fold_right random_element blinded_element count_occ] in *.
  - split; apply (dlog_inj L); dlog_simpl L; try ring. change (Z.of_nat 0) with 0%Z. rewrite (phi_0 L). ring.
  - rewrite I1, I2, H1, H2. split; [el_ring L|].
    destruct flag; cbn [bit_element].
    + destruct (bool_dec true true); [|congruence]. rewrite Nat2Z.inj_succ, <- Z.add_1_l, (phi_add E L), (phi_1 L). el_ring L.
    + destruct (bool_dec false true); [congruence|]. el_ring L.
Qed.

(** ** prover *)
Lemma choice_new_inv (S : ProveSum E) (params : ChoiceParams S) choices r e r' :
  EncryptedChoice_new params choices r = Ret (e, r') ->
  List.length choices = cp_options_count params /\ choices <> [] /\
  exists (exts : list (ExtendedCiphertext E)) sum r1,
    ec_choices e = map ext_inner exts /\
    Forall2 (fun flag ext => encrypts (cp_receiver params) (ext_inner ext) (bit_element flag) (ext_random_scalar ext)) choices exts /\
    ps_prove S {| cwv_ext := {| ext_inner := ct_total (ec_choices e);
                                ext_random_scalar := fold_right s_add 0%S (map ext_random_scalar exts) |};
                  cwv_value := sum |} (cp_receiver params) r1 = Ret (ec_sum_proof e, r') /\
    exists t', RingProof_verify (ec_range_proof e) (cp_receiver params)
      (repeat [identity; generator] (List.length (ec_choices e))) (ec_choices e) choice_ranges_context = Ret (Ok tt, t').
Proof.
  unfold EncryptedChoice_new. intros H. inv_bind H. unfold assert in Hm.
  destruct (List.length choices =? 0) eqn:H0; cbn [negb] in Hm; [discriminate|]. apply Nat.eqb_neq in H0.
  inv_bind H. unfold assert in Hm0. destruct (List.length choices =? cp_options_count params) eqn:H1; [|discriminate].
  apply Nat.eqb_eq in H1. split; [exact H1|]. split; [intros ->; apply H0; reflexivity|].
  inv_bind H. inv_bind H. destruct a2 as [exts b]. inv_bind H. destruct a2 as [[[c responses] t'] r1].
  assert (Hok := Hm2). apply (choice_add_values_ok (cp_receiver params)) in Hok; [|reflexivity].
  assert (Hne : exts <> []).
  { intros ->. inversion Hok. subst. apply H0. reflexivity. }
  rewrite (reduce_ext exts Hne) in H. cbn [unwrap bind] in H. inv_bind H. destruct a2 as [sp r2]. injection H as <- <-.
  cbn [ec_choices ec_sum_proof ec_range_proof]. exists exts, a1, r1. split; [reflexivity|]. split; [exact Hok|].
  split; [exact Hm4|].
  apply choice_add_values_run in Hm2. destruct Hm2 as (l & -> & _ & Hrun).
  apply (ring_complete E L) with (c := c) (rs := responses) (t' := t') (r' := r1) in Hrun.
  - destruct Hrun as [Hv _]. rewrite map_length, <- (Forall2_length' _ _ _ Hok).
    replace (repeat [identity; generator] (List.length choices)) with (map op_values (map bit_op choices)).
    + exists t'. exact Hv.
    + rewrite map_map. cbn. clear. induction choices as [|x l IH]; cbn; [reflexivity|]. rewrite IH. reflexivity.
  - apply Forall_forall. intros o Ho. apply in_map_iff in Ho. destruct Ho as (x & <- & _). exact I.
  - rewrite repeat_length, <- H1. symmetry. apply bit_ops_size.
  - exact Hm3.
Qed.

Lemma choice_new_total (S : ProveSum E) (params : ChoiceParams S) choices r :
  ser_total E -> (forall c K r, exists p r', ps_prove S c K r = Ret (p, r')) ->
  List.length choices = cp_options_count params -> choices <> [] -> (N.of_nat (List.length choices) < 2 ^ 64)%N ->
  exists e r', EncryptedChoice_new params choices r = Ret (e, r').
Proof.
  intros Hser Hps Hl Hne Hbig. unfold EncryptedChoice_new, assert. rewrite <- Hl, Nat.eqb_refl.
  replace (List.length choices =? 0) with false by (symmetry; apply Nat.eqb_neq; destruct choices; [congruence|cbn; lia]).
  cbn [negb bind]. rewrite u64_sum_ok.
  2:{ rewrite flags_sum. pose proof (count_occ_bound bool_dec true choices). unfold u64_lim. lia. }
  cbn [bind].
  destruct (ring_prover_total E L (cp_receiver params) (repeat s_default (2 * List.length choices))
              (transcript_new "encrypted_choice_ranges") r (map bit_op choices) Hser) as (cts & b & c & rs & t' & r' & H1 & H2).
  - apply Forall_forall. intros o Ho. apply in_map_iff in Ho. destruct Ho as (x & <- & _). exact I.
  - apply Forall_forall. intros o Ho. apply in_map_iff in Ho. destruct Ho as ([|] & <- & _); cbn; lia.
  - rewrite repeat_length. symmetry. apply bit_ops_size.
  - intros _. apply Forall_forall. intros s Hs. apply repeat_spec in Hs. exact Hs.
  - destruct (choice_add_values_total _ _ _ _ H1) as [exts He]. rewrite He. cbn [bind]. rewrite H2. cbn [bind].
    assert (Hok := He). apply (choice_add_values_ok (cp_receiver params)) in Hok; [|reflexivity].
    assert (Hn : exts <> []). { intros ->. inversion Hok. congruence. }
    rewrite (reduce_ext exts Hn). cbn [unwrap bind].
    match goal with |- context [ps_prove S ?c ?K ?r] => destruct (Hps c K r) as (p & r2 & ->) end.
    cbn [bind]. eauto.
Qed.

(** ** verifier *)
Lemma choice_verify_ok_iff (S : ProveSum E) (e : EncryptedChoice S) (params : ChoiceParams S) res :
  EncryptedChoice_verify e params = Ret (Ok res) <->
  res = ec_choices e /\ List.length (ec_choices e) = cp_options_count params /\ ec_choices e <> [] /\
  ps_verify S (ct_total (ec_choices e)) (ec_sum_proof e) (cp_receiver params) = Ret (Ok tt) /\
  exists t', RingProof_verify (ec_range_proof e) (cp_receiver params)
    (repeat [identity; generator] (List.length (ec_choices e))) (ec_choices e) choice_ranges_context = Ret (Ok tt, t').
Proof.
  unfold EncryptedChoice_verify, ChoiceParams_check_options_count.
  destruct (cp_options_count params =? List.length (ec_choices e)) eqn:Hl.
  2:{ apply Nat.eqb_neq in Hl. split; [discriminate|]. intros (_ & H & _). congruence. }
  apply Nat.eqb_eq in Hl. assert (Hc : ec_choices e = [] \/ ec_choices e <> []) by (destruct (ec_choices e); [left; reflexivity|right; discriminate]).
  destruct Hc as [Hc|Hc].
  { rewrite Hc. cbn. split; [discriminate|]. intros (_ & _ & H & _). congruence. }
  rewrite reduce_ct by exact Hc. cbn [unwrap bind].
  change (transcript_new "encrypted_choice_ranges") with choice_ranges_context.
  destruct (ps_verify S (ct_total (ec_choices e)) (ec_sum_proof e) (cp_receiver params)) as [[[]|err]|k] eqn:Hs; cbn [bind].
  - destruct (RingProof_verify _ _ _ _ _) as [[[[]|err] t']|k] eqn:Hr; cbn [bind].
    + split; [intros H; injection H as <-; eauto 10|]. intros (-> & _). reflexivity.
    + split; [discriminate|]. intros (_ & _ & _ & _ & t'' & H). congruence.
    + split; [discriminate|]. intros (_ & _ & _ & _ & t'' & H). congruence.
  - split; [discriminate|]. intros (_ & _ & _ & H & _). congruence.
  - split; [discriminate|]. intros (_ & _ & _ & H & _). congruence.
Qed.

Lemma choice_bits (S : ProveSum E) (e : EncryptedChoice S) (params : ChoiceParams S) res sk :
  key_of sk (cp_receiver params) -> EncryptedChoice_verify e params = Ret (Ok res) ->
  (exists flags, Forall2 (fun flag c => decrypt_to_element sk c = bit_element flag) flags (ec_choices e)) \/
  exists k, bit_hit choice_ranges_context (cp_receiver params) (ec_choices e) k.
Proof.
  intros Hk H. apply choice_verify_ok_iff in H. destruct H as (_ & _ & _ & _ & t' & Hv).
  assert (Hdec : forall l, (exists flags, Forall2 (fun flag c => decrypt_to_element sk c = bit_element flag) flags l) \/
    exists k ct, nth_error l k = Some ct /\ ~ In (decrypt_to_element sk ct) [identity; generator]).
  { induction l as [|c l [[flags IH]|(k & ct & IH)]].
    - left. exists []. constructor.
    - destruct (e_eq_dec L (decrypt_to_element sk c) identity) as [H|H]; [left; exists (false :: flags); constructor; assumption|].
      destruct (e_eq_dec L (decrypt_to_element sk c) generator) as [H'|H']; [left; exists (true :: flags); constructor; assumption|].
      right. exists 0, c. split; [reflexivity|]. cbn. intros [Hx|[Hx|[]]]; congruence.
    - right. exists (Datatypes.S k), ct. exact IH. }
  destruct (Hdec (ec_choices e)) as [Hd|(k & ct & H1 & H2)]; [left; exact Hd|]. right. exists k.
  destruct (ring_sound E L sk _ _ _ _ _ _ k [identity; generator] ct Hk Hv) as (rt & Ts & T & q & R1 & R2 & R3 & R4).
  - assert (Hlt : k < List.length (ec_choices e)) by (apply nth_error_Some; congruence). clear -Hlt.
    revert k Hlt. induction (List.length (ec_choices e)) as [|n IH]; intros [|k] Hlt; cbn; [lia|lia|reflexivity|]. apply IH. lia.
  - exact H1.
  - discriminate.
  - exact H2.
  - exists ct, rt, Ts, T, q. auto.
Qed.

Lemma count_one (flags : list bool) : count_occ bool_dec flags true = 1 ->
  exists k, k < List.length flags /\ forall i b, nth_error flags i = Some b -> b = (i =? k).
Proof.
  induction flags as [|f flags IH]; cbn [count_occ]; [lia|]. destruct (bool_dec f true) as [->|Hf].
  - intros H. assert (H0 : count_occ bool_dec flags true = 0) by lia. exists 0. split; [cbn; lia|].
    intros [|i] b Hi; cbn in Hi; [injection Hi as <-; reflexivity|]. cbn. destruct b; [|reflexivity].
    apply nth_error_In in Hi. apply (count_occ_In bool_dec) in Hi. lia.
  - intros H. destruct (IH H) as (k & Hk & Hall). exists (S k). split; [cbn; lia|].
    intros [|i] b Hi; cbn in Hi; [injection Hi as <-; destruct f; [congruence|reflexivity]|]. cbn. apply Hall. exact Hi.
Qed.

Lemma same_log_one sk (pk : PublicKey E) (c : Ciphertext E) : key_of sk pk ->
  same_log (pk_element pk) (random_element c) (blinded_element c - generator)%E <-> decrypt_to_element sk c = generator.
Proof. apply (same_log_value E L). Qed.

End Choice.
