(** * Proofs about the log-equality proof and its uses (C07-C12, C28) *)
From Coq Require Import List NArith ZArith Field Lia Bool String.
From Verif.Model Require Import Base Group Transcript Keys Encryption LogEquality.
From Verif.Spec Require Import Encryption LogEquality.
From Verif.Proofs Require Import Algebra Encryption.
Import ListNotations.
Open Scope string_scope.
Open Scope list_scope.

(** equal lists with equally long tails *)
Lemma app_inv_tail_len {A : Type} (a b x y : list A) :
  List.length x = List.length y -> a ++ x = b ++ y -> a = b /\ x = y.
Proof.
  intros Hl H. assert (Hab : List.length a = List.length b).
  { apply (f_equal (@List.length A)) in H. rewrite !app_length in H. lia. }
  revert b Hab H; induction a as [|u a IH]; intros [|v b] Hab H; try discriminate; cbn in *; auto.
  injection H as -> H. destruct (IH b) as [-> ->]; auto.
Qed.

Section Proofs.
Context (E : Env) (L : GroupLaws E).
Local Notation scalar := (Scalar E).
Local Notation element := (Element E).
Add Field s_field_le : (s_field L).

Lemma le_commit0 (c s : scalar) (P0 : element) :
  vartime_double_mul_generator (- c)%S P0 s = (generator * s - P0 * c)%E.
Proof. el_ring L. Qed.

Lemma le_commit1 (c s : scalar) (P1 K : element) :
  vartime_multi_mul [(- c)%S; s] [P1; K] = Ret (K * s - P1 * c)%E.
Proof. rewrite (vartime_multi_mul_ok E L) by reflexivity. f_equal. cbn. el_ring L. Qed.

(** *** The exact behaviour of the verifier *)
Lemma le_verify_eq (p : LogEqualityProof E) (K : PublicKey E) (P0 P1 : element) t :
  LogEqualityProof_verify p K (P0, P1) t =
  (let c := le_challenge p in let s := le_response p in
   p0 <- serialize_element P0 ;;
   p1 <- serialize_element P1 ;;
   x0 <- serialize_element (generator * s - P0 * c)%E ;;
   x1 <- serialize_element (pk_element K * s - P1 * c)%E ;;
   let q := le_query t (pk_bytes K) p0 p1 x0 x1 in
   Ret ((if s_eqb (oracle q "c") c then Ok tt else Err ChallengeMismatch), q ++ [TChal "c"])).
Proof.
  unfold LogEqualityProof_verify, append_element, append_element_bytes, start_proof, append_message,
    challenge_scalar, le_query. cbn [fst snd].
  rewrite le_commit0, le_commit1. cbn [bind].
  destruct (serialize_element P0) as [p0|]; cbn [bind]; [|reflexivity].
  destruct (serialize_element P1) as [p1|]; cbn [bind]; [|reflexivity].
  destruct (serialize_element (_ - P0 * _)%E) as [x0|]; cbn [bind]; [|reflexivity].
  destruct (serialize_element (_ - P1 * _)%E) as [x1|]; cbn [bind]; [|reflexivity].
  rewrite <- !app_assoc. cbn [app]. reflexivity.
Qed.

Lemma le_verify_ok_iff (p : LogEqualityProof E) (K : PublicKey E) (P0 P1 : element) t t' :
  LogEqualityProof_verify p K (P0, P1) t = Ret (Ok tt, t') <->
  exists q, le_hashed t K P0 P1 (generator * le_response p - P0 * le_challenge p)%E
                     (pk_element K * le_response p - P1 * le_challenge p)%E q /\
            oracle q "c" = le_challenge p /\ t' = q ++ [TChal "c"].
Proof.
  rewrite le_verify_eq. cbv zeta. unfold le_hashed. split.
  - intros H. inv_bind H. inv_bind H. inv_bind H. inv_bind H.
    destruct (s_eqb _ _) eqn:Hs; [|discriminate]. apply (s_eqb_ok E L) in Hs.
    injection H as <-. eexists. split; [|split; [exact Hs | reflexivity]].
    exists a, a0, a1, a2. auto.
  - intros (q & (p0 & p1 & x0 & x1 & -> & -> & -> & -> & ->) & Hq & ->). cbn [bind].
    rewrite Hq, (s_eqb_refl L). reflexivity.
Qed.

Lemma le_verify_err (p : LogEqualityProof E) (K : PublicKey E) (P0 P1 : element) t e t' :
  LogEqualityProof_verify p K (P0, P1) t = Ret (Err e, t') -> e = ChallengeMismatch.
Proof.
  rewrite le_verify_eq. cbv zeta. intros H. inv_bind H. inv_bind H. inv_bind H. inv_bind H.
  destruct (s_eqb _ _); [discriminate|]. injection H as <- _. reflexivity.
Qed.

(** *** The exact behaviour of the prover *)
Lemma le_new_eq (K : PublicKey E) (r : scalar) (P0 P1 : element) t rng :
  LogEqualityProof_new K r (P0, P1) t rng =
  (p0 <- serialize_element P0 ;;
   p1 <- serialize_element P1 ;;
   let '(x, rng') := generate_scalar rng in
   x0 <- serialize_element (generator * x)%E ;;
   x1 <- serialize_element (pk_element K * x)%E ;;
   let q := le_query t (pk_bytes K) p0 p1 x0 x1 in
   let c := oracle q "c" in
   Ret ({| le_challenge := c; le_response := (c * r + x)%S |}, q ++ [TChal "c"], rng')).
Proof.
  unfold LogEqualityProof_new, append_element, append_element_bytes, start_proof, append_message,
    challenge_scalar, le_query, SecretKey_generate. cbn [fst snd].
  destruct (serialize_element P0) as [p0|]; cbn [bind]; [|reflexivity].
  destruct (serialize_element P1) as [p1|]; cbn [bind]; [|reflexivity].
  destruct (generate_scalar rng) as [x rng']. rewrite (mul_generator_ok E L).
  destruct (serialize_element (generator * x)%E) as [x0|]; cbn [bind]; [|reflexivity].
  destruct (serialize_element (pk_element K * x)%E) as [x1|]; cbn [bind]; [|reflexivity].
  rewrite <- !app_assoc. cbn [app]. reflexivity.
Qed.

(** C07 *)
Lemma le_complete (K : PublicKey E) (r : scalar) t rng p t' rng' :
  LogEqualityProof_new K r ((generator * r)%E, (pk_element K * r)%E) t rng = Ret (p, t', rng') ->
  LogEqualityProof_verify p K ((generator * r)%E, (pk_element K * r)%E) t = Ret (Ok tt, t').
Proof.
  rewrite le_new_eq. intros H. inv_bind H. inv_bind H.
  destruct (generate_scalar rng) as [x rng1]. inv_bind H. inv_bind H. cbv zeta in H.
  injection H as <- <- <-. apply le_verify_ok_iff. cbn [le_challenge le_response].
  set (q := le_query t (pk_bytes K) a a0 a1 a2). exists q. split; [|auto].
  exists a, a0, a1, a2. repeat split; auto.
  - rewrite <- Hm1. f_equal. el_ring L.
  - rewrite <- Hm2. f_equal. el_ring L.
Qed.

Lemma le_new_total (K : PublicKey E) (r : scalar) P0 P1 t rng :
  ser_total E -> exists p t' rng', LogEqualityProof_new K r (P0, P1) t rng = Ret (p, t', rng').
Proof.
  intros Ht. rewrite le_new_eq.
  destruct (ser_total_some L Ht P0) as [p0 ->]. destruct (ser_total_some L Ht P1) as [p1 ->]. cbn [bind].
  destruct (generate_scalar rng) as [x rng'].
  destruct (ser_total_some L Ht (generator * x)%E) as [x0 ->].
  destruct (ser_total_some L Ht (pk_element K * x)%E) as [x1 ->]. cbn. eauto.
Qed.

Lemma le_verify_total (p : LogEqualityProof E) K P0 P1 t :
  ser_total E -> exists r t', LogEqualityProof_verify p K (P0, P1) t = Ret (r, t').
Proof.
  intros Ht. rewrite le_verify_eq. cbv zeta.
  destruct (ser_total_some L Ht P0) as [p0 ->]. destruct (ser_total_some L Ht P1) as [p1 ->]. cbn [bind].
  destruct (ser_total_some L Ht (generator * le_response p - P0 * le_challenge p)%E) as [x0 ->].
  destruct (ser_total_some L Ht (pk_element K * le_response p - P1 * le_challenge p)%E) as [x1 ->].
  cbn. eauto.
Qed.

(** C09 *)
Lemma le_extract (K P0 P1 X0 X1 : element) (c s c' s' : scalar) :
  le_answers K P0 P1 X0 X1 c s -> le_answers K P0 P1 X0 X1 c' s' -> c <> c' ->
  let r := ((s - s') * s_inv L (c - c'))%S in
  P0 = (generator * r)%E /\ P1 = (K * r)%E.
Proof.
  intros [H0 H1] [H0' H1'] Hc r. pose proof (s_sub_neq_0 L _ _ Hc) as Hn.
  rewrite H0 in H0'. rewrite H1 in H1'. apply (f_equal (dlog L)) in H0', H1'.
  dlog_simpl_in L H0'. dlog_simpl_in L H1'.
  split; apply (dlog_inj L); dlog_simpl L; subst r.
  - apply (s_mul_cancel_r L _ _ (c - c')%S Hn).
    transitivity (s - s')%S; [|field; exact Hn].
    transitivity (s - (s - dlog L P0 * c) - dlog L P0 * c')%S; [ring|].
    transitivity (s - (1 * s - dlog L P0 * c) - dlog L P0 * c')%S; [ring|]. rewrite H0'. ring.
  - apply (s_mul_cancel_r L _ _ (c - c')%S Hn).
    transitivity (dlog L K * (s - s'))%S; [|field; exact Hn].
    transitivity (dlog L K * s - (dlog L K * s - dlog L P1 * c) - dlog L P1 * c')%S; [ring|].
    rewrite H1'. ring.
Qed.

Lemma le_unique_challenge (K P0 P1 X0 X1 : element) (c s c' s' : scalar) :
  ~ same_log K P0 P1 ->
  le_answers K P0 P1 X0 X1 c s -> le_answers K P0 P1 X0 X1 c' s' -> c = c'.
Proof.
  intros Hn H H'. destruct (s_eq_dec L c c') as [->|Hc]; [reflexivity|exfalso].
  apply Hn. eexists. exact (le_extract _ _ _ _ _ _ _ _ _ H H' Hc).
Qed.

Lemma le_sound (p : LogEqualityProof E) (K : PublicKey E) P0 P1 t t' :
  LogEqualityProof_verify p K (P0, P1) t = Ret (Ok tt, t') ->
  ~ same_log (pk_element K) P0 P1 ->
  exists X0 X1 q, le_hashed t K P0 P1 X0 X1 q /\
    (exists s, le_answers (pk_element K) P0 P1 X0 X1 (oracle q "c") s) /\
    forall c s, le_answers (pk_element K) P0 P1 X0 X1 c s -> oracle q "c" = c.
Proof.
  intros H Hn. apply le_verify_ok_iff in H as (q & Hq & Ho & _).
  eexists _, _, q. split; [exact Hq|]. rewrite Ho. split.
  - exists (le_response p). split; reflexivity.
  - intros c s Hcs. eapply le_unique_challenge; [exact Hn| |exact Hcs]. split; reflexivity.
Qed.

(** C10 *)
Lemma le_query_inj t k p0 p1 x0 x1 t' k' p0' p1' x0' x1' :
  le_query t k p0 p1 x0 x1 = le_query t' k' p0' p1' x0' x1' ->
  t = t' /\ k = k' /\ p0 = p0' /\ p1 = p1' /\ x0 = x0' /\ x1 = x1'.
Proof.
  unfold le_query. intros H. apply app_inv_tail_len in H as [-> H]; [|reflexivity].
  injection H as -> -> -> -> ->. auto 10.
Qed.

Lemma le_verify_query (p : LogEqualityProof E) (K : PublicKey E) P0 P1 t r tf :
  LogEqualityProof_verify p K (P0, P1) t = Ret (r, tf) ->
  exists q, le_hashed t K P0 P1 (generator * le_response p - P0 * le_challenge p)%E
              (pk_element K * le_response p - P1 * le_challenge p)%E q /\ tf = q ++ [TChal "c"].
Proof.
  rewrite le_verify_eq. cbv zeta. intros H. inv_bind H. inv_bind H. inv_bind H. inv_bind H.
  injection H as _ <-. eexists. split; [|reflexivity]. exists a, a0, a1, a2. auto.
Qed.

Lemma le_hashed_inj t K P0 P1 X0 X1 t' K' P0' P1' X0' X1' q :
  le_hashed (E:=E) t K P0 P1 X0 X1 q -> le_hashed t' K' P0' P1' X0' X1' q ->
  t = t' /\ pk_bytes K = pk_bytes K' /\ P0 = P0' /\ P1 = P1' /\ X0 = X0' /\ X1 = X1'.
Proof.
  intros (p0 & p1 & x0 & x1 & H1 & H2 & H3 & H4 & ->) (p0' & p1' & x0' & x1' & H1' & H2' & H3' & H4' & Hq).
  apply le_query_inj in Hq as (-> & -> & -> & -> & -> & ->).
  repeat split; eapply (ser_element_inj L); eassumption.
Qed.

Lemma snoc_inj {A : Type} (a b : list A) x y : a ++ [x] = b ++ [y] -> a = b /\ x = y.
Proof.
  intros H. apply app_inv_tail_len in H as [-> H]; [|reflexivity]. injection H as ->. auto.
Qed.

Lemma le_binding (p p' : LogEqualityProof E) K K' P0 P1 P0' P1' t t' r r' tf :
  LogEqualityProof_verify p K (P0, P1) t = Ret (r, tf) ->
  LogEqualityProof_verify p' K' (P0', P1') t' = Ret (r', tf) ->
  t = t' /\ pk_bytes K = pk_bytes K' /\ P0 = P0' /\ P1 = P1' /\
  (generator * le_response p - P0 * le_challenge p)%E
  = (generator * le_response p' - P0' * le_challenge p')%E /\
  (pk_element K * le_response p - P1 * le_challenge p)%E
  = (pk_element K' * le_response p' - P1' * le_challenge p')%E.
Proof.
  intros H H'. apply le_verify_query in H as (q & Hq & ->). apply le_verify_query in H' as (q' & Hq' & Ht).
  apply snoc_inj in Ht as [<- _]. apply (le_hashed_inj _ _ _ _ _ _ _ _ _ _ _ _ _ Hq Hq').
Qed.

(** C11 *)
Lemma le_zk_prover (K : element) (r c : scalar) (v : le_conversation) :
  le_accepting K (generator * r)%E (K * r)%E c v <->
  (exists! x, v = le_prover K r c x).
Proof.
  destruct v as [[X0 X1] s]. cbn. unfold le_answers, le_prover. split.
  - intros [-> ->]. exists (s - c * r)%S. split.
    + f_equal; [f_equal|]; [el_ring L|el_ring L|ring].
    + intros x' H. injection H as _ _ ->. ring.
  - intros (x & H & _). injection H as -> -> ->. split; el_ring L.
Qed.

Lemma le_zk_sim (K P0 P1 : element) (c : scalar) (v : le_conversation) :
  le_accepting K P0 P1 c v <-> (exists! s, v = le_simulator K P0 P1 c s).
Proof.
  destruct v as [[X0 X1] s]. cbn. unfold le_answers, le_simulator. split.
  - intros [-> ->]. exists s. split; [reflexivity|]. intros s' H. injection H as _ _ ->. reflexivity.
  - intros (s' & H & _). injection H as -> -> ->. split; reflexivity.
Qed.

(** the bijection between prover coins and simulator coins *)
Lemma le_zk_bijection (K : element) (r c : scalar) :
  forall x, le_prover K r c x = le_simulator K (generator * r)%E (K * r)%E c (c * r + x)%S.
Proof. intros x. unfold le_prover, le_simulator. f_equal. f_equal; el_ring L. Qed.

Lemma le_new_prover (K : PublicKey E) (r : scalar) P0 P1 t rng p t' rng' :
  LogEqualityProof_new K r (P0, P1) t rng = Ret (p, t', rng') ->
  exists x q, generate_scalar rng = (x, rng') /\
    le_hashed t K P0 P1 (generator * x)%E (pk_element K * x)%E q /\ t' = q ++ [TChal "c"] /\
    le_challenge p = oracle q "c" /\
    le_prover (pk_element K) r (le_challenge p) x = ((generator * x)%E, (pk_element K * x)%E, le_response p).
Proof.
  rewrite le_new_eq. intros H. inv_bind H. inv_bind H.
  destruct (generate_scalar rng) as [x rng1]. inv_bind H. inv_bind H. cbv zeta in H.
  injection H as <- <- <-. eexists x, _. split; [reflexivity|]. split; [exists a, a0, a1, a2; auto|].
  split; [reflexivity|]. split; reflexivity.
Qed.

(** C12 *)
Lemma same_log_zero sk pk (c : Ciphertext E) :
  key_of sk pk ->
  (same_log (pk_element pk) (random_element c) (blinded_element c) <-> decrypt_to_element sk c = identity).
Proof.
  unfold key_of, same_log, decrypt_to_element. intros Hk. rewrite Hk. split.
  - intros (r & -> & ->). el_ring L.
  - intros H. exists (dlog L (random_element c)). split; [symmetry; apply (dlog_ok E L)|].
    apply (f_equal (dlog L)) in H. dlog_simpl_in L H. apply (dlog_inj L). dlog_simpl L.
    transitivity (dlog L (blinded_element c) - dlog L (random_element c) * sk + dlog L (random_element c) * sk)%S; [ring|].
    rewrite H. ring.
Qed.

Lemma encrypt_zero_complete sk pk rng (c : Ciphertext E) p rng' :
  key_of sk pk -> encrypt_zero pk rng = Ret (c, p, rng') ->
  decrypt_to_element sk c = identity /\ verify_zero pk c p = Ret (Ok tt).
Proof.
  intros Hk. unfold encrypt_zero, verify_zero, SecretKey_generate.
  destruct (generate_scalar rng) as [x r1]. rewrite (mul_generator_ok E L). intros H.
  inv_bind H. destruct a as [[p1 t1] r2]. injection H as <- <- <-. cbn [random_element blinded_element].
  apply le_complete in Hm. rewrite Hm. cbn. split; [|reflexivity].
  unfold decrypt_to_element. cbn. unfold key_of in Hk. rewrite Hk. el_ring L.
Qed.

Lemma encrypt_zero_total pk rng : ser_total E -> exists (c : Ciphertext E) p rng', encrypt_zero pk rng = Ret (c, p, rng').
Proof.
  intros Ht. unfold encrypt_zero. destruct (SecretKey_generate rng) as [x r1].
  destruct (le_new_total pk x (mul_generator x) (pk_element pk * x)%E (transcript_new "zero_encryption") r1 Ht)
    as (p & t' & r2 & ->). cbn. eauto.
Qed.

Lemma verify_zero_sound sk pk (c : Ciphertext E) p :
  key_of sk pk -> verify_zero pk c p = Ret (Ok tt) -> decrypt_to_element sk c <> identity ->
  exists X0 X1 q,
    le_hashed (transcript_new "zero_encryption") pk (random_element c) (blinded_element c) X0 X1 q /\
    (exists s, le_answers (pk_element pk) (random_element c) (blinded_element c) X0 X1 (oracle q "c") s) /\
    forall ch s, le_answers (pk_element pk) (random_element c) (blinded_element c) X0 X1 ch s ->
      oracle q "c" = ch.
Proof.
  intros Hk H Hne. unfold verify_zero in H. inv_bind H. destruct a as [res t']. injection H as ->.
  apply le_sound in Hm.
  - destruct Hm as (X0 & X1 & q & H1 & H3 & H2). eauto 10.
  - intros Hs. apply Hne. apply (same_log_zero sk pk c Hk). exact Hs.
Qed.

(** C28 *)
Lemma vd_complete (c : Ciphertext E) (kp : Keypair E) t rng d p t' rng' :
  key_of (kp_secret kp) (kp_public kp) ->
  VerifiableDecryption_new c kp t rng = Ret (d, p, t', rng') ->
  VerifiableDecryption_decrypt_to_element d c = decrypt_to_element (kp_secret kp) c /\
  CandidateDecryption_verify {| cd_inner := d |} c (kp_public kp) p t = Ret (Ok d, t').
Proof.
  intros Hk. unfold VerifiableDecryption_new, CandidateDecryption_verify. intros H. inv_bind H.
  pose proof (pk_from_element_ok E _ _ Hm) as [Hel Hby].
  inv_bind H. destruct a0 as [[p1 t1] r1]. injection H as <- <- <- <-.
  split; [reflexivity|]. rewrite Hm. cbn [bind cd_inner vd_dh_element].
  unfold key_of in Hk. rewrite Hk in *. rewrite <- Hel in Hm0.
  apply le_complete in Hm0. rewrite Hel in Hm0. rewrite Hm0. reflexivity.
Qed.

Lemma vd_total (c : Ciphertext E) (kp : Keypair E) t rng :
  ser_total E -> exists d p t' rng', VerifiableDecryption_new c kp t rng = Ret (d, p, t', rng').
Proof.
  intros Ht. unfold VerifiableDecryption_new, PublicKey_from_element.
  destruct (ser_total_some L Ht (random_element c)) as [b ->]. cbn [bind].
  edestruct (le_new_total) as (p & t' & r' & Hp); [exact Ht|]. rewrite Hp. cbn. eauto 10.
Qed.

Lemma same_log_decryption sk pk (c : Ciphertext E) D :
  key_of sk pk -> same_log (random_element c) (pk_element pk) D <-> D = (random_element c * sk)%E.
Proof.
  unfold key_of, same_log. intros ->. split.
  - intros (r & Hr & ->). apply (gen_inj L) in Hr. subst. reflexivity.
  - intros ->. exists sk. auto.
Qed.

Lemma cd_sound sk pk (c : Ciphertext E) d p t d' t' :
  key_of sk pk -> CandidateDecryption_verify d c pk p t = Ret (Ok d', t') ->
  d' = cd_inner d /\
  (VerifiableDecryption_decrypt_to_element d' c <> decrypt_to_element sk c ->
   exists base X0 X1 q, PublicKey_from_element (random_element c) = Ret base /\
    le_hashed (t ++ [TMsg "dom-sep" (str_bytes "decryption_with_custom_key")]) base
      (pk_element pk) (vd_dh_element d') X0 X1 q /\
    (exists s, le_answers (random_element c) (pk_element pk) (vd_dh_element d') X0 X1 (oracle q "c") s) /\
    forall ch s, le_answers (random_element c) (pk_element pk) (vd_dh_element d') X0 X1 ch s ->
      oracle q "c" = ch).
Proof.
  intros Hk. unfold CandidateDecryption_verify. intros H. inv_bind H. inv_bind H.
  destruct a0 as [res t1]. destruct res as [[]|e]; [|discriminate]. injection H as <- <-.
  split; [reflexivity|]. intros Hne.
  pose proof (pk_from_element_ok E _ _ Hm) as [Hel Hby].
  apply le_sound in Hm0.
  - destruct Hm0 as (X0 & X1 & q & H1 & H3 & H2). exists a, X0, X1, q.
    rewrite Hel in H2, H3. auto.
  - rewrite Hel. intros Hs. apply (same_log_decryption sk pk c _ Hk) in Hs. apply Hne.
    unfold VerifiableDecryption_decrypt_to_element, decrypt_to_element. rewrite Hs. reflexivity.
Qed.

End Proofs.
