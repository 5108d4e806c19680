(** * C57, C58: forging proofs in the random oracle model

    An adversary with unbounded computing power, which may choose keys (knowing their secrets),
    contexts, ciphertexts and proofs, and ask the Fiat-Shamir hash [Q] times, makes a verifier accept a
    false statement only with probability about [Q / order] (single-challenge proofs) or
    [Q ^ 2 / (2 * order)] (ring proofs), over the choice of the hash function.  Probabilities are stated
    by counting hash functions ([Spec/Rom.v]). *)
From Coq Require Import List String NArith ZArith Arith Lia Bool.
From Verif.Model Require Import Base Group Transcript Keys Encryption LogEquality Ring Range Mul Sharing Choice Quadratic.
From Verif.Spec Require Import Encryption LogEquality Sigma Ring Range Choice Quadratic Domains Rom Verifiers.
From Verif.Proofs Require Import Algebra Lists Encryption LogEquality Commitment SumOfSquares Ring Range RangeProof Choice Quadratic Rom Verifiers Forgery ForgedBallots.
From Verif.Instance Require Import Primality Zq.
Import ListNotations.
Open Scope string_scope.
Open Scope list_scope.
Open Scope nat_scope.

(** ** the oracle algorithms are the modelled verifiers *)
Theorem C57_verifiers :
  forall (E : Env) (o : transcript -> string -> Scalar E), let H := hashed_by E o in
    (forall p K powers t, run o (log_equality_verifier p K powers t) = LogEqualityProof_verify (E:=H) p K powers t) /\
    (forall pk c p, run o (zero_verifier pk c p) = verify_zero (E:=H) pk c p) /\
    (forall d c key p t, run o (decryption_verifier d c key p t) = CandidateDecryption_verify (E:=H) d c key p t) /\
    (forall ks d c i p, run o (share_verifier ks d c i p) = PublicKeySet_verify_share (E:=H) ks d c i p) /\
    (forall p cs z K t, run o (sum_of_squares_verifier p cs z K t) = SumOfSquaresProof_verify (E:=H) p cs z K t) /\
    (forall p K vals cts t, run o (ring_verifier p K vals cts t) = RingProof_verify (E:=H) p K vals cts t) /\
    (forall pk c p, run o (bool_verifier pk c p) = verify_bool (E:=H) pk c p) /\
    (forall p K pr ct t, run o (range_verifier p K pr ct t) = RangeProof_verify (E:=H) p K pr ct t) /\
    (forall n K cts p, run o (multi_choice_verifier n K cts p) =
       EncryptedChoice_verify (E:=H) (S:=MultiChoice (E:=H)) (mkEncryptedChoice (E:=H) (S:=MultiChoice (E:=H)) cts p tt)
         (mkChoiceParams (E:=H) (S:=MultiChoice (E:=H)) n K)) /\
    (forall n K cts p s, run o (single_choice_verifier n K cts p s) =
       EncryptedChoice_verify (E:=H) (S:=SingleChoice (E:=H)) (mkEncryptedChoice (E:=H) (S:=SingleChoice (E:=H)) cts p s)
         (mkChoiceParams (E:=H) (S:=SingleChoice (E:=H)) n K)) /\
    (forall ballot params, run o (quadratic_verifier ballot params) = QuadraticVotingBallot_verify (E:=H) ballot params).
Proof.
  intros E o H. repeat apply conj; intros.
  - apply log_equality_run.
  - apply zero_run.
  - apply decryption_run.
  - apply share_run.
  - apply sum_of_squares_run.
  - apply ring_run'.
  - apply bool_run.
  - apply range_run.
  - apply multi_choice_run.
  - apply single_choice_run.
  - apply quadratic_run.
Qed.
Print Assumptions C57_verifiers.

(** number of hash computations in each verifier *)
Theorem C57_verifier_cost :
  forall (E : Env),
    (forall p (K : PublicKey E) powers t, at_most 1 (log_equality_verifier p K powers t)) /\
    (forall p cs z (K : PublicKey E) t, at_most 1 (sum_of_squares_verifier p cs z K t)) /\
    (forall p (K : PublicKey E) vals cts t, at_most (ring_queries vals) (ring_verifier p K vals cts t)) /\
    (forall (pk : PublicKey E) c p, at_most 2 (bool_verifier pk c p)) /\
    (forall p (K : PublicKey E) pr ct t, at_most (ring_queries (pr_admissible pr)) (range_verifier p K pr ct t)) /\
    (forall n (K : PublicKey E) cts p, at_most (n + 1) (multi_choice_verifier n K cts p)) /\
    (forall n (K : PublicKey E) cts p s, at_most (n + 2) (single_choice_verifier n K cts p s)) /\
    (forall (ballot : QuadraticVotingBallot E) params, at_most (quadratic_queries params) (quadratic_verifier ballot params)).
Proof.
  intros E. repeat apply conj; intros.
  - apply log_equality_most.
  - apply sum_of_squares_most.
  - apply ring_most.
  - apply bool_most.
  - apply range_most.
  - apply multi_choice_most.
  - apply single_choice_most.
  - apply quadratic_most.
Qed.
Print Assumptions C57_verifier_cost.

(** ** counting hash functions *)

(** On a duplicate-free set of inputs there are exactly [size ^ |D|] functions: this many differ from
    each other and from any given function only on [D], and no set has more. *)
Theorem C57_hash_functions :
  forall (G : Group) (S : source G) (D : list query), NoDup (digests S) ->
    (forall W, hashes_on (digests S) D W -> (Z.of_nat (List.length W) <= size S ^ Z.of_nat (List.length D))%Z) /\
    (NoDup D -> forall o0 : hash (digest S), exists W,
       hashes_on (digests S) D W /\ (Z.of_nat (List.length W) = size S ^ Z.of_nat (List.length D))%Z /\
       (forall o x, In o W -> ~ In x D -> answer o x = answer o0 x) /\
       (forall o, (forall x, In x D -> In (answer o x) (digests S)) -> (forall x, ~ In x D -> answer o x = answer o0 x) ->
          exists o', In o' W /\ forall x, answer o' x = answer o x)).
Proof.
  intros G S D Hnd. split.
  - intros W HW. unfold size. rewrite <- Nat2Z.inj_pow. apply Nat2Z.inj_le. apply (hashes_count _ (digest_dec S)). exact HW.
  - intros HD o0. destruct (hashes_exist _ (digests S) Hnd o0 D HD) as (W & H1 & H2 & H3 & H4).
    exists W. split; [exact H1|]. split; [rewrite H2; apply Nat2Z.inj_pow|]. auto.
Qed.
Print Assumptions C57_hash_functions.

(** The inputs that an algorithm may ask for form a finite set. *)
Theorem C57_finite_domain :
  forall (G : Group) (L : GroupLaws G) (A : Type) n (T : strategy (Scalar G) A), at_most n T ->
    exists D, NoDup D /\ forall o, incl (asked o T) D.
Proof. exact asked_finite. Qed.
Print Assumptions C57_finite_domain.

(** ** C57: one challenge *)

(** Discrete logarithm equality.  The adversary outputs proof, key, powers and context; the key is
    [genuine], that is its bytes decode to its element, as for every key built or parsed by the API. *)
Theorem C57_log_equality :
  forall (E : Env) (L : GroupLaws E) (S : source E) m, balanced S m -> forall Q (A : strategy (Scalar E) (LogEqualityProof E * PublicKey E * (Element E * Element E) * transcript)),
    at_most Q A ->
    success_at_most S A (fun '(p, K, powers, t) => log_equality_verifier p K powers t)
      (fun o '(p, K, powers, t) =>
         genuine K /\ ~ same_log (E:=E) (pk_element K) (fst powers) (snd powers) /\
         exists t', LogEqualityProof_verify (E:=hashed_by E o) p K powers t = Ret (Ok tt, t'))
      (m * (Z.of_nat Q + 1)) (size S).
Proof.
  intros E L S m Hbal Q A HA. apply (log_success E L S m Hbal Q A _ _ HA).
  - intros [[[p K] powers] t]. apply log_equality_most.
  - intros o D T [[[p K] [P0 P1]] t] (HK & Hn & t' & Hv) Hi HD. rewrite <- log_equality_run in Hv.
    exact (le_verifier_hits E L _ o D T p K P0 P1 t tt t' (fun _ _ _ H => H) HK Hv Hn Hi HD).
Qed.
Print Assumptions C57_log_equality.

(** Zero encryption: the decryption is not zero. *)
Theorem C57_zero :
  forall (E : Env) (L : GroupLaws E) (S : source E) m, balanced S m -> forall Q (A : strategy (Scalar E) (PublicKey E * Ciphertext E * LogEqualityProof E)),
    at_most Q A ->
    success_at_most S A (fun '(pk, c, p) => zero_verifier pk c p)
      (fun o '(pk, c, p) =>
         genuine pk /\ (exists sk, key_of sk pk /\ decrypt_to_element sk c <> identity) /\
         verify_zero (E:=hashed_by E o) pk c p = Ret (Ok tt))
      (m * (Z.of_nat Q + 1)) (size S).
Proof.
  intros E L S m Hbal Q A HA. apply (log_success E L S m Hbal Q A _ _ HA).
  - intros [[pk c] p]. apply zero_most.
  - intros o D T [[pk c] p] (HK & (sk & Hk & Hn) & Hv) Hi HD. rewrite <- zero_run in Hv. unfold zero_verifier in *.
    apply run_after_inv in Hv as ([[[]|e] t'] & Hv & Hr); [|discriminate].
    refine (le_verifier_hits E L _ o D T p pk _ _ _ tt t' (fun _ _ _ H => H) HK Hv _ _ HD).
    + intros Hs. apply Hn. apply (same_log_zero E L sk pk c Hk). exact Hs.
    + intros y Hy. apply Hi. apply asked_after1. exact Hy.
Qed.
Print Assumptions C57_zero.

(** Decryption with a key: the decrypted element is not the decryption. *)
Theorem C57_decryption :
  forall (E : Env) (L : GroupLaws E) (S : source E) m, balanced S m -> forall Q
    (A : strategy (Scalar E) (CandidateDecryption E * Ciphertext E * PublicKey E * LogEqualityProof E * transcript)),
    at_most Q A ->
    success_at_most S A (fun '(d, c, key, p, t) => decryption_verifier d c key p t)
      (fun o '(d, c, key, p, t) => exists sk d' t', key_of sk key /\
         VerifiableDecryption_decrypt_to_element d' c <> decrypt_to_element sk c /\
         CandidateDecryption_verify (E:=hashed_by E o) d c key p t = Ret (Ok d', t'))
      (m * (Z.of_nat Q + 1)) (size S).
Proof.
  intros E L S m Hbal Q A HA. apply (log_success E L S m Hbal Q A _ _ HA).
  - intros [[[[d c] key] p] t]. apply decryption_most.
  - intros o D T [[[[d c] key] p] t] (sk & d' & t' & Hk & Hn & Hv) Hi HD. rewrite <- decryption_run in Hv. unfold decryption_verifier in *.
    destruct (PublicKey_from_element (random_element c)) as [base|] eqn:Hb; cbn [doing] in *; [|discriminate].
    apply run_after_inv in Hv as ([[[]|e] t1] & Hv & Hr); [|discriminate]. cbn in Hr. injection Hr as <- <-.
    pose proof (pk_from_element_ok E _ _ Hb) as [Hel Hby]. apply (ser_element_ok _ L) in Hby as [_ HK].
    refine (le_verifier_hits E L _ o D T p base _ _ _ tt t1 (fun _ _ _ H => H) HK Hv _ _ HD).
    + rewrite Hel. intros Hs. apply (same_log_decryption E L sk key c _ Hk) in Hs. apply Hn.
      unfold VerifiableDecryption_decrypt_to_element, decrypt_to_element. rewrite Hs. reflexivity.
    + intros y Hy. apply Hi. apply asked_after1. exact Hy.
Qed.
Print Assumptions C57_decryption.

(** Decryption shares: the share is not the one of the participant's key. *)
Theorem C57_share :
  forall (E : Env) (L : GroupLaws E) (S : source E) m, balanced S m -> forall Q
    (A : strategy (Scalar E) (PublicKeySet E * CandidateDecryption E * Ciphertext E * nat * LogEqualityProof E)),
    at_most Q A ->
    success_at_most S A (fun '(ks, d, c, i, p) => share_verifier ks d c i p)
      (fun o '(ks, d, c, i, p) => exists key share d',
         nth_error (ks_participant_keys ks) i = Some key /\ pk_element key = (generator * share)%E /\
         vd_dh_element d' <> (random_element c * share)%E /\
         PublicKeySet_verify_share (E:=hashed_by E o) ks d c i p = Ret (Ok d'))
      (m * (Z.of_nat Q + 1)) (size S).
Proof.
  intros E L S m Hbal Q A HA. apply (log_success E L S m Hbal Q A _ _ HA).
  - intros [[[[ks d] c] i] p]. apply share_most.
  - intros o D T [[[[ks d] c] i] p] (key & share & d' & Hkey & Hk & Hn & Hv) Hi HD. rewrite <- share_run in Hv. unfold share_verifier, index in *.
    rewrite Hkey in *. cbn [doing] in *.
    destruct (PublicKey_from_element (random_element c)) as [base|] eqn:Hb; cbn [doing] in *; [|discriminate].
    apply run_after_inv in Hv as ([[[]|e] t1] & Hv & Hr); [|discriminate]. cbn in Hr. injection Hr as <-.
    pose proof (pk_from_element_ok E _ _ Hb) as [Hel Hby]. apply (ser_element_ok _ L) in Hby as [_ HK].
    refine (le_verifier_hits E L _ o D T p base _ _ _ tt t1 (fun _ _ _ H => H) HK Hv _ _ HD).
    + rewrite Hel. intros Hs. apply (same_log_decryption E L share key c _ Hk) in Hs. contradiction.
    + intros y Hy. apply Hi. apply asked_after1. exact Hy.
Qed.
Print Assumptions C57_share.

(** Sum of squares: no values have these ciphertexts and this sum of squares. *)
Theorem C57_sum_of_squares :
  forall (E : Env) (L : GroupLaws E) (S : source E) m, balanced S m -> forall Q
    (A : strategy (Scalar E) (SumOfSquaresProof E * list (Ciphertext E) * Ciphertext E * PublicKey E * transcript)),
    at_most Q A ->
    success_at_most S A (fun '(p, cs, z, K, t) => sum_of_squares_verifier p cs z K t)
      (fun o '(p, cs, z, K, t) =>
         genuine K /\ (forall xs, ~ sq_statement K cs z xs) /\
         exists t', SumOfSquaresProof_verify (E:=hashed_by E o) p cs z K t = Ret (Ok tt, t'))
      (m * (Z.of_nat Q + 1)) (size S).
Proof.
  intros E L S m Hbal Q A HA. apply (square_success E L S m Hbal Q A _ _ HA).
  - intros [[[[p cs] z] K] t]. apply sum_of_squares_most.
  - intros o D T [[[[p cs] z] K] t] (HK & Hn & t' & Hv) Hi HD. rewrite <- sum_of_squares_run in Hv.
    exact (sq_verifier_hits E L _ o D T p cs z K t tt t' (fun _ _ _ H => H) HK Hv Hn Hi HD).
Qed.
Print Assumptions C57_sum_of_squares.

(** ** C58: rings *)

(** Rings in a fixed context with fixed admissible values; each ring has at least two values (a ring
    with a single value does not include the ciphertext in the hash, see DESIGN.md). *)
Theorem C58_ring :
  forall (E : Env) (L : GroupLaws E) (S : source E) m, balanced S m -> forall (t : transcript) (vals : list (list (Element E))),
    (N.of_nat (List.length vals) < 2 ^ 64)%N ->
    Forall (fun vs => 2 <= List.length vs /\ (N.of_nat (List.length vs) < 2 ^ 64)%N) vals ->
  forall Q (A : strategy (Scalar E) (RingProof E * PublicKey E * list (Ciphertext E))), at_most Q A ->
    let N := Z.of_nat (Q + ring_queries vals) in
    success_at_most S A (fun '(p, K, cts) => ring_verifier p K vals cts t)
      (fun o '(p, K, cts) => genuine K /\
         (exists sk k vs ct, key_of sk K /\ nth_error vals k = Some vs /\ nth_error cts k = Some ct /\
            ~ In (decrypt_to_element sk ct) vs) /\
         exists t', RingProof_verify (E:=hashed_by E o) p K vals cts t = Ret (Ok tt, t'))
      (m * (N * (N - 1))) (2 * size S).
Proof.
  intros E L S m Hbal t vals Hlen Hvals Q A HA N.
  set (vals_of := fun t' i vs => t' = t /\ nth_error vals i = Some vs).
  assert (Hfun : forall t i vs vs', vals_of t i vs -> vals_of t i vs' -> vs = vs') by (unfold vals_of; intros ? ? ? ? [_ H] [_ H']; congruence).
  assert (Hbound : forall t i vs, vals_of t i vs -> (N.of_nat i < u64_lim)%N /\ (N.of_nat (List.length vs) < u64_lim)%N /\ 2 <= List.length vs).
  { intros t0 i vs [_ Hi]. assert (i < List.length vals) by (apply nth_error_Some; congruence).
    rewrite Forall_forall in Hvals. apply nth_error_In in Hi. destruct (Hvals vs Hi). unfold u64_lim. lia. }
  apply (ring_success E L S m Hbal vals_of Hfun Hbound Q (ring_queries vals) A _ _ HA).
  - intros [[p K] cts]. apply ring_most.
  - intros o D T [[p K] cts] (HK & (sk & k & vs & ct & Hk & Hv & Hc & Hn) & t' & Hver) Hi HD. rewrite <- ring_run' in Hver.
    refine (ring_verifier_hits E L vals_of Hbound _ o D T p K vals cts t tt t' k vs ct _ HK Hver (conj eq_refl Hv) Hv Hc _ Hi HD).
    + intros h x y c Hy Hb. exists y. auto.
    + intros v Hin Hs. apply (same_log_value E L sk K ct v Hk) in Hs. rewrite Hs in Hn. contradiction.
Qed.
Print Assumptions C58_ring.

(** Boolean encryption: the value is neither 0 nor 1. *)
Theorem C58_bool :
  forall (E : Env) (L : GroupLaws E) (S : source E) m, balanced S m -> forall Q (A : strategy (Scalar E) (PublicKey E * Ciphertext E * RingProof E)), at_most Q A ->
    let N := Z.of_nat (Q + 2) in
    success_at_most S A (fun '(pk, c, p) => bool_verifier pk c p)
      (fun o '(pk, c, p) => genuine pk /\
         (exists sk, key_of sk pk /\ decrypt_to_element sk c <> identity /\ decrypt_to_element sk c <> generator) /\
         verify_bool (E:=hashed_by E o) pk c p = Ret (Ok tt))
      (m * (N * (N - 1))) (2 * size S).
Proof.
  intros E L S m Hbal Q A HA N. apply (ring_success E L S m Hbal _ (api_values_fun E) (api_values_bound E) Q 2 A _ _ HA).
  - intros [[pk c] p]. apply bool_most.
  - intros o D T [[pk c] p] (HK & (sk & Hk & H0 & H1) & Hver) Hi HD. rewrite <- bool_run in Hver.
    refine (bool_hits E L _ o D T sk pk c p tt _ Hk HK Hver H0 H1 Hi HD).
    intros h x y ch Hy Hb. exists y. auto.
Qed.
Print Assumptions C58_bool.

(** Range proofs: the value is not in [0..n]. *)
Theorem C58_range :
  forall (E : Env) (L : GroupLaws E) (S : source E) m, balanced S m -> forall est (n : N) d pr,
    (n + 4 < 2 ^ 64)%N -> RangeDecomposition_optimal (env_build E) est n = Ret d -> PreparedRange_new d = Ret pr ->
  forall Q (A : strategy (Scalar E) (RangeProof E * PublicKey E * Ciphertext E * transcript)), at_most Q A ->
    let N := Z.of_nat (Q + ring_queries (pr_admissible pr)) in
    success_at_most S A (fun '(p, K, ct, t) => range_verifier p K pr ct t)
      (fun o '(p, K, ct, t) => genuine K /\
         (exists sk, key_of sk K /\ forall v, (v < n)%N -> decrypt_to_element sk ct <> times v generator) /\
         exists t', RangeProof_verify (E:=hashed_by E o) p K pr ct t = Ret (Ok tt, t'))
      (m * (N * (N - 1))) (2 * size S).
Proof.
  intros E L S m Hbal est n d pr Hn H Hpr Q A HA N. pose proof (optimal_valid _ est n d Hn H) as Hd.
  rewrite (prepared_ok E L n d Hd) in Hpr by (unfold u64_lim; lia). injection Hpr as <-.
  apply (ring_success E L S m Hbal _ (api_values_fun E) (api_values_bound E) Q _ A _ _ HA).
  - intros [[[p K] ct] t]. apply range_most.
  - intros o D T [[[p K] ct] t] (HK & (sk & Hk & Hno) & t' & Hver) Hi HD. rewrite <- range_run in Hver.
    refine (range_hits E L _ o D T sk p K n d ct t tt t' _ Hk HK Hd _ Hver _ Hi HD).
    + intros h x y ch Hy Hb. exists y. auto.
    + unfold u64_lim. lia.
    + intros (v & Hv & Hv'). exact (Hno v Hv Hv').
Qed.
Print Assumptions C58_range.

(** Multi-choice ballots with [n] options: some choice is neither 0 nor 1. *)
Theorem C58_multi_choice :
  forall (E : Env) (L : GroupLaws E) (S : source E) m, balanced S m -> forall n, (N.of_nat n < 2 ^ 64)%N ->
  forall Q (A : strategy (Scalar E) (PublicKey E * list (Ciphertext E) * RingProof E)), at_most Q A ->
    let N := Z.of_nat (Q + (n + 1)) in
    success_at_most S A (fun '(K, cts, p) => multi_choice_verifier n K cts p)
      (fun o '(K, cts, p) => let H := hashed_by E o in genuine K /\
         (exists sk ct, key_of sk K /\ In ct cts /\ decrypt_to_element sk ct <> identity /\ decrypt_to_element sk ct <> generator) /\
         EncryptedChoice_verify (E:=H) (S:=MultiChoice (E:=H)) (mkEncryptedChoice (E:=H) (S:=MultiChoice (E:=H)) cts p tt)
           (mkChoiceParams (E:=H) (S:=MultiChoice (E:=H)) n K) = Ret (Ok cts))
      (m * (N * (N - 1))) (2 * size S).
Proof.
  intros E L S m Hbal n Hn Q A HA N. apply (ring_success E L S m Hbal _ (api_values_fun E) (api_values_bound E) Q _ A _ _ HA).
  - intros [[K cts] p]. apply multi_choice_most.
  - intros o D T [[K cts] p] (HK & (sk & ct & Hk & Hin & H0 & H1) & Hver) Hi HD. rewrite <- multi_choice_run in Hver.
    refine (multi_hits E L _ o D T sk n K cts p cts _ Hk HK Hn Hver _ Hi HD).
    + intros h x y ch Hy Hb. exists y. auto.
    + intros [flags Hf]. clear -Hf Hin H0 H1. induction Hf as [|f c flags cts Hc _ IH]; [destruct Hin|].
      destruct Hin as [->|Hin]; [|auto]. rewrite Hc in H0, H1. destruct f; cbn in *; congruence.
Qed.
Print Assumptions C58_multi_choice.

(** Single-choice ballots with [n] options: not exactly one choice encrypts 1, or some encrypts neither. *)
Theorem C58_single_choice :
  forall (E : Env) (L : GroupLaws E) (S : source E) m, balanced S m -> forall n, (N.of_nat n < 2 ^ 64)%N -> (Z.of_nat n < order L)%Z ->
  forall Q (A : strategy (Scalar E) (PublicKey E * list (Ciphertext E) * RingProof E * LogEqualityProof E)), at_most Q A ->
    let N := Z.of_nat (Q + (n + 2)) in
    success_at_most S A (fun '(K, cts, p, s) => single_choice_verifier n K cts p s)
      (fun o '(K, cts, p, s) => let H := hashed_by E o in genuine K /\
         (exists sk, key_of sk K /\ forall k, ~ one_hot sk cts k) /\
         EncryptedChoice_verify (E:=H) (S:=SingleChoice (E:=H)) (mkEncryptedChoice (E:=H) (S:=SingleChoice (E:=H)) cts p s)
           (mkChoiceParams (E:=H) (S:=SingleChoice (E:=H)) n K) = Ret (Ok cts))
      (m * (N * (N + 1))) (2 * size S).
Proof.
  intros E L S m Hbal n Hn Hbig Q A HA N. apply (any_success E L S m Hbal _ (api_values_fun E) (api_values_bound E) Q _ A _ _ HA).
  - intros [[[K cts] p] s]. apply single_choice_most.
  - intros o D T [[[K cts] p] s] (HK & (sk & Hk & Hno) & Hver) Hi HD. rewrite <- single_choice_run in Hver.
    refine (single_hits E L _ o D T sk n K cts p s cts _ _ Hk HK Hn Hbig Hver _ Hi HD).
    + intros h x y ch Hy Hb. left. exists y. auto.
    + intros h x c Hb. right. left. exact Hb.
    + intros [k Hone]. exact (Hno k Hone).
Qed.
Print Assumptions C58_single_choice.

(** Quadratic voting: the votes are not integers up to the vote limit whose squares sum up to at most
    the credit. *)
Theorem C58_quadratic :
  forall (E : Env) (L : GroupLaws E) (S : source E) m, balanced S m -> forall (sk : SecretKey E) (receiver : PublicKey E) options credits votes params,
    (credits + 65 < 2 ^ 64)%N -> qv_params receiver options credits votes params -> key_of sk receiver -> genuine receiver ->
    (Z.of_nat options * (Z.of_N votes * Z.of_N votes) < order L)%Z -> (Z.of_N credits < order L)%Z ->
  forall Q (A : strategy (Scalar E) (QuadraticVotingBallot E)), at_most Q A ->
    let N := Z.of_nat (Q + quadratic_queries params) in
    success_at_most S A (fun ballot => quadratic_verifier ballot params)
      (fun o ballot => exists cts,
         (forall vs, Forall2 (fun v ct => (v <= votes)%N /\ decrypt_to_element sk ct = times v generator) vs cts ->
            (credits < squares vs)%N) /\
         QuadraticVotingBallot_verify (E:=hashed_by E o) ballot params = Ret (Ok cts))
      (m * (N * (N + 1))) (2 * size S).
Proof.
  intros E L S m Hbal sk receiver options credits votes params Hc Hp Hk HK Hbig Hco Q A HA N. apply (qv_params_inv E L) in Hp; [|exact Hc].
  apply (any_success E L S m Hbal _ (api_values_fun E) (api_values_bound E) Q _ A _ _ HA).
  - intros ballot. apply quadratic_most.
  - intros o D T ballot (cts & Hno & Hver) Hi HD. rewrite <- quadratic_run in Hver. pose proof Hp as Hp'.
    destruct Hp' as (dv & dc & _ & _ & HV & HC & _).
    refine (quadratic_hits E L _ o D T sk receiver options votes credits params ballot cts _ _ Hp Hk HK Hbig Hco _ _ Hver _ Hi HD).
    + intros h x y ch Hy Hb. left. exists y. auto.
    + intros h x c Hb. right. right. exact Hb.
    + unfold u64_lim. lia.
    + unfold u64_lim. lia.
    + intros (vs & Hv & Hs). specialize (Hno vs Hv). lia.
Qed.
Print Assumptions C58_quadratic.

(** ** Concrete attacks

    The hash that always answers 3 accepts proofs made by simulation for the challenge 3.  An adversary
    that asks nothing and outputs such a proof succeeds for this hash function, so the bound of
    [C57_zero] is attained: one function out of [order]. *)
Definition constant_hash : hash (Scalar RE) := fun _ _ => rs 3.
Definition ex_pk2 : PublicKey RE := {| pk_bytes := zbytes qx 9 (re 2); pk_element := re 2 |}.

Lemma ex_pk2_ok : genuine ex_pk2 /\ key_of (rs 2) ex_pk2.
Proof.
  split; [|apply re_eq; vm_compute; reflexivity].
  apply (fun H => proj2 (ser_element_ok _ RL (re 2) (zbytes qx 9 (re 2)) H)). reflexivity.
Qed.

Example C57_tight :
  let A : strategy (Scalar RE) (PublicKey RE * Ciphertext RE * LogEqualityProof RE) :=
    Output (ex_pk2, {| random_element := re 5; blinded_element := re 11 |}, {| le_challenge := rs 3; le_response := rs 10 |}) in
  let V := fun '(pk, c, p) => zero_verifier (E:=RE) pk c p in
  let D := asked constant_hash (andthen A V) in
  at_most 0 A /\ NoDup D /\ hashes_on (digests (uniform_source RL)) D [constant_hash] /\
  (forall o, In o [constant_hash] -> incl (asked (challenges (uniform_source RL) o) (andthen A V)) D /\
     let '(pk, c, p) := run o A in
     genuine pk /\ (exists sk, key_of sk pk /\ decrypt_to_element sk c <> identity) /\
     verify_zero (E:=hashed_by RE o) pk c p = Ret (Ok tt)) /\
  (order RL * Z.of_nat (List.length [constant_hash]) = (Z.of_nat 0 + 1) * order RL ^ Z.of_nat (List.length D))%Z.
Proof.
  intros A V D. assert (HD : List.length D = 1) by (vm_compute; reflexivity).
  split; [constructor|]. split; [|split; [|split]].
  - destruct D as [|x [|y D']]; try discriminate. constructor; [intros []|constructor].
  - split; [constructor; constructor|]. split; [intros o x _ _; apply (uniform_all RE RL)|]. intros o o' x [<-|[]] [<-|[]] _. reflexivity.
  - intros o [<-|[]]. rewrite uniform_challenges. split; [apply incl_refl|]. cbn [run A]. split; [apply ex_pk2_ok|]. split.
    + exists (rs 2). split; [apply ex_pk2_ok|]. apply re_neq. vm_compute. reflexivity.
    + vm_compute. reflexivity.
  - rewrite HD. cbn [List.length Z.of_nat]. lia.
Qed.

(** A forged Boolean encryption (of 90). *)
Example C58_bool_example :
  let A : strategy (Scalar RE) (PublicKey RE * Ciphertext RE * RingProof RE) :=
    Output (ex_pk2, {| random_element := re 5; blinded_element := re 100 |}, {| rp_challenge := rs 3; rp_responses := [rs 1; rs 2] |}) in
  let V := fun '(pk, c, p) => bool_verifier (E:=RE) pk c p in
  let D := asked constant_hash (andthen A V) in
  at_most 0 A /\ List.length D = 2 /\ hashes_on (digests (uniform_source RL)) D [constant_hash] /\
  (forall o, In o [constant_hash] -> incl (asked (challenges (uniform_source RL) o) (andthen A V)) D /\
     let '(pk, c, p) := run o A in
     genuine pk /\
     (exists sk, key_of sk pk /\ decrypt_to_element sk c <> identity /\ decrypt_to_element sk c <> generator) /\
     verify_bool (E:=hashed_by RE o) pk c p = Ret (Ok tt)).
Proof.
  intros A V D. split; [constructor|]. split; [vm_compute; reflexivity|]. split.
  - split; [constructor; constructor|]. split; [intros o x _ _; apply (uniform_all RE RL)|]. intros o o' x [<-|[]] [<-|[]] _. reflexivity.
  - intros o [<-|[]]. rewrite uniform_challenges. split; [apply incl_refl|]. cbn [run A]. split; [apply ex_pk2_ok|]. split.
    + exists (rs 2). split; [apply ex_pk2_ok|]. split; apply re_neq; vm_compute; reflexivity.
    + vm_compute. reflexivity.
Qed.
