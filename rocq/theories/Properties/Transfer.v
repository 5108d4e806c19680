(** * C62: Curve25519Subgroup behaves like a group of prime order

    The points of [Curve25519Subgroup] are all points of the curve, so the properties proved for
    [GroupLaws] do not apply to it as they stand.  They apply to the points of the prime-order
    subgroup, and the crate neither lets other points in nor leaves the subgroup. *)
From Coq Require Import List NArith ZArith String Lia.
From Verif.Model Require Import Base Group Transcript Keys Encryption LogEquality Possession Ring
  Range Commitment Mul Sharing Dkg Choice Quadratic Serde Backends.
From Verif.Spec Require Import Transfer Backends Subgroup.
From Verif.Proofs Require Import Parametricity Transfer Backends Subgroup.
From Verif.Properties Require Import Backends.
Import ListNotations.
Open Scope list_scope.

Lemma unit_codec_rel {E E' : Env} :
  @rel (Codec (ps_Proof (@MultiChoice E))) (Codec (ps_Proof (@MultiChoice E'))) _ unit_codec unit_codec.
Proof.
  split.
  - intros h h' Hh u u' Hu. hnf in Hh, Hu. subst. apply is_refl.
  - intros h h' Hh v v' Hv. hnf in Hh, Hv. subst. destruct v'; first [exact I|exact (eq_refl tt)].
Qed.

Theorem C62_simulation_keys_encryption :
  forall (E E' : Env) (ER : EnvRel E E'), Corresponding E E' ->
    rel (@SecretKey_generate E) (@SecretKey_generate E') /\
    rel (@SecretKey_from_bytes E) (@SecretKey_from_bytes E') /\
    rel (@SecretKey_add E) (@SecretKey_add E') /\
    rel (@SecretKey_sub E) (@SecretKey_sub E') /\
    rel (@SecretKey_mul E) (@SecretKey_mul E') /\
    rel (@PublicKey_eqb E) (@PublicKey_eqb E') /\
    rel (@PublicKey_from_bytes E) (@PublicKey_from_bytes E') /\
    rel (@PublicKey_add E) (@PublicKey_add E') /\
    rel (@PublicKey_mul E) (@PublicKey_mul E') /\
    rel (@PublicKey_mul_u64 E) (@PublicKey_mul_u64 E') /\
    rel (@Keypair_from_secret E) (@Keypair_from_secret E') /\
    rel (@Keypair_generate E) (@Keypair_generate E') /\
    rel (@Keypair_mul E) (@Keypair_mul E') /\
    rel (@Ciphertext_zero E) (@Ciphertext_zero E') /\
    rel (@Ciphertext_non_blinded E) (@Ciphertext_non_blinded E') /\
    rel (@Ciphertext_to_bytes E) (@Ciphertext_to_bytes E') /\
    rel (@Ciphertext_add E) (@Ciphertext_add E') /\
    rel (@Ciphertext_sub E) (@Ciphertext_sub E') /\
    rel (@Ciphertext_mul E) (@Ciphertext_mul E') /\
    rel (@Ciphertext_mul_u64 E) (@Ciphertext_mul_u64 E') /\
    rel (@Ciphertext_neg E) (@Ciphertext_neg E') /\
    rel (@DiscreteLogTable_new E) (@DiscreteLogTable_new E') /\
    rel (@DiscreteLogTable_get E) (@DiscreteLogTable_get E') /\
    rel (@encrypt E) (@encrypt E') /\
    rel (@encrypt_element E) (@encrypt_element E') /\
    rel (@decrypt_to_element E) (@decrypt_to_element E') /\
    rel (@decrypt E) (@decrypt E') /\
    rel (@CiphertextWithValue_new E N) (@CiphertextWithValue_new E' N) /\
    rel (@CiphertextWithValue_generalize E N) (@CiphertextWithValue_generalize E' N).
Proof.
  intros E E' ER CO.
  split; [exact p_SecretKey_generate|].
  split; [exact p_SecretKey_from_bytes|].
  split; [exact p_SecretKey_add|].
  split; [exact p_SecretKey_sub|].
  split; [exact p_SecretKey_mul|].
  split; [exact p_PublicKey_eqb|].
  split; [exact p_PublicKey_from_bytes|].
  split; [exact p_PublicKey_add|].
  split; [exact p_PublicKey_mul|].
  split; [exact p_PublicKey_mul_u64|].
  split; [exact p_Keypair_from_secret|].
  split; [exact p_Keypair_generate|].
  split; [exact p_Keypair_mul|].
  split; [exact p_Ciphertext_zero|].
  split; [exact p_Ciphertext_non_blinded|].
  split; [exact p_Ciphertext_to_bytes|].
  split; [exact p_Ciphertext_add|].
  split; [exact p_Ciphertext_sub|].
  split; [exact p_Ciphertext_mul|].
  split; [exact p_Ciphertext_mul_u64|].
  split; [exact p_Ciphertext_neg|].
  split; [exact p_DiscreteLogTable_new|].
  split; [exact p_DiscreteLogTable_get|].
  split; [exact p_encrypt|].
  split; [exact p_encrypt_element|].
  split; [exact p_decrypt_to_element|].
  split; [exact p_decrypt|].
  split; [exact p_CiphertextWithValue_new|].
  exact p_CiphertextWithValue_generalize.
Qed.
Print Assumptions C62_simulation_keys_encryption.

Theorem C62_simulation_proofs :
  forall (E E' : Env) (ER : EnvRel E E'), Corresponding E E' ->
    rel (@LogEqualityProof_new E) (@LogEqualityProof_new E') /\
    rel (@LogEqualityProof_verify E) (@LogEqualityProof_verify E') /\
    rel (@LogEqualityProof_to_bytes E) (@LogEqualityProof_to_bytes E') /\
    rel (@LogEqualityProof_from_bytes E) (@LogEqualityProof_from_bytes E') /\
    rel (@encrypt_zero E) (@encrypt_zero E') /\
    rel (@verify_zero E) (@verify_zero E') /\
    rel (@VerifiableDecryption_new E) (@VerifiableDecryption_new E') /\
    rel (@VerifiableDecryption_to_bytes E) (@VerifiableDecryption_to_bytes E') /\
    rel (@VerifiableDecryption_decrypt_to_element E) (@VerifiableDecryption_decrypt_to_element E') /\
    rel (@VerifiableDecryption_decrypt E) (@VerifiableDecryption_decrypt E') /\
    rel (@CandidateDecryption_from_bytes E) (@CandidateDecryption_from_bytes E') /\
    rel (@CandidateDecryption_verify E) (@CandidateDecryption_verify E') /\
    rel (@ProofOfPossession_new E) (@ProofOfPossession_new E') /\
    rel (@ProofOfPossession_verify E) (@ProofOfPossession_verify E') /\
    rel (@RingProof_verify E) (@RingProof_verify E') /\
    rel (@RingProof_to_bytes E) (@RingProof_to_bytes E') /\
    rel (@RingProof_from_bytes E) (@RingProof_from_bytes E') /\
    rel (@RingProofBuilder_new E) (@RingProofBuilder_new E') /\
    rel (@RingProofBuilder_add_value E) (@RingProofBuilder_add_value E') /\
    rel (@RingProofBuilder_build E) (@RingProofBuilder_build E') /\
    rel (@encrypt_bool E) (@encrypt_bool E') /\
    rel (@verify_bool E) (@verify_bool E') /\
    rel (@PreparedRange_new E) (@PreparedRange_new E') /\
    rel (@RangeProof_from_ciphertext E) (@RangeProof_from_ciphertext E') /\
    rel (@RangeProof_new E) (@RangeProof_new E') /\
    rel (@RangeProof_verify E) (@RangeProof_verify E') /\
    rel (@encrypt_range E) (@encrypt_range E') /\
    rel (@verify_range E) (@verify_range E') /\
    rel (@CommitmentEquivalenceProof_new E) (@CommitmentEquivalenceProof_new E') /\
    rel (@CommitmentEquivalenceProof_verify E) (@CommitmentEquivalenceProof_verify E') /\
    rel (@SumOfSquaresProof_new E) (@SumOfSquaresProof_new E') /\
    rel (@SumOfSquaresProof_verify E) (@SumOfSquaresProof_verify E').
Proof.
  intros E E' ER CO.
  split; [exact p_LogEqualityProof_new|].
  split; [exact p_LogEqualityProof_verify|].
  split; [exact p_LogEqualityProof_to_bytes|].
  split; [exact p_LogEqualityProof_from_bytes|].
  split; [exact p_encrypt_zero|].
  split; [exact p_verify_zero|].
  split; [exact p_VerifiableDecryption_new|].
  split; [exact p_VerifiableDecryption_to_bytes|].
  split; [exact p_VerifiableDecryption_decrypt_to_element|].
  split; [exact p_VerifiableDecryption_decrypt|].
  split; [exact p_CandidateDecryption_from_bytes|].
  split; [exact p_CandidateDecryption_verify|].
  split; [exact p_ProofOfPossession_new|].
  split; [exact p_ProofOfPossession_verify|].
  split; [exact p_RingProof_verify|].
  split; [exact p_RingProof_to_bytes|].
  split; [exact p_RingProof_from_bytes|].
  split; [exact p_RingProofBuilder_new|].
  split; [exact p_RingProofBuilder_add_value|].
  split; [exact p_RingProofBuilder_build|].
  split; [exact p_encrypt_bool|].
  split; [exact p_verify_bool|].
  split; [exact p_PreparedRange_new|].
  split; [exact p_RangeProof_from_ciphertext|].
  split; [exact p_RangeProof_new|].
  split; [exact p_RangeProof_verify|].
  split; [exact p_encrypt_range|].
  split; [exact p_verify_range|].
  split; [exact p_CommitmentEquivalenceProof_new|].
  split; [exact p_CommitmentEquivalenceProof_verify|].
  split; [exact p_SumOfSquaresProof_new|].
  exact p_SumOfSquaresProof_verify.
Qed.
Print Assumptions C62_simulation_proofs.

Theorem C62_simulation_sharing :
  forall (E E' : Env) (ER : EnvRel E E'), Corresponding E E' ->
    rel (@lagrange_coefficients E) (@lagrange_coefficients E') /\
    rel (@PublicPolynomial_value_at_zero E) (@PublicPolynomial_value_at_zero E') /\
    rel (@PublicPolynomial_value_at E) (@PublicPolynomial_value_at E') /\
    rel (@combine_shares E) (@combine_shares E') /\
    rel (@PublicKeySet_new E) (@PublicKeySet_new E') /\
    rel (@PublicKeySet_from_participants E) (@PublicKeySet_from_participants E') /\
    rel (@PublicKeySet_participant_key E) (@PublicKeySet_participant_key E') /\
    rel (@PublicKeySet_verify_participant E) (@PublicKeySet_verify_participant E') /\
    rel (@PublicKeySet_verify_share E) (@PublicKeySet_verify_share E') /\
    rel (@Dealer_new E) (@Dealer_new E') /\
    rel (@Dealer_public_info E) (@Dealer_public_info E') /\
    rel (@Dealer_secret_share_for_participant E) (@Dealer_secret_share_for_participant E') /\
    rel (@ActiveParticipant_new E) (@ActiveParticipant_new E') /\
    rel (@ActiveParticipant_public_key_share E) (@ActiveParticipant_public_key_share E') /\
    rel (@ActiveParticipant_proof_of_possession E) (@ActiveParticipant_proof_of_possession E') /\
    rel (@ActiveParticipant_decrypt_share E) (@ActiveParticipant_decrypt_share E') /\
    rel (@PCC_new E) (@PCC_new E') /\
    rel (@PCC_commitment E) (@PCC_commitment E') /\
    rel (@PCC_insert_commitment E) (@PCC_insert_commitment E') /\
    rel (@PCC_missing_commitments E) (@PCC_missing_commitments E') /\
    rel (@PCC_finish_commitment_phase E) (@PCC_finish_commitment_phase E') /\
    rel (@PCP_public_info E) (@PCP_public_info E') /\
    rel (@PCP_missing_public_polynomials E) (@PCP_missing_public_polynomials E') /\
    rel (@PCP_insert_public_polynomial E) (@PCP_insert_public_polynomial E') /\
    rel (@PCP_finish_polynomials_phase E) (@PCP_finish_polynomials_phase E') /\
    rel (@PES_secret_share_for_participant E) (@PES_secret_share_for_participant E') /\
    rel (@PES_missing_shares E) (@PES_missing_shares E') /\
    rel (@PES_insert_secret_share E) (@PES_insert_secret_share E') /\
    rel (@PES_complete E) (@PES_complete E').
Proof.
  intros E E' ER CO.
  split; [exact p_lagrange_coefficients|].
  split; [exact p_PublicPolynomial_value_at_zero|].
  split; [exact p_PublicPolynomial_value_at|].
  split; [exact p_combine_shares|].
  split; [exact p_PublicKeySet_new|].
  split; [exact p_PublicKeySet_from_participants|].
  split; [exact p_PublicKeySet_participant_key|].
  split; [exact p_PublicKeySet_verify_participant|].
  split; [exact p_PublicKeySet_verify_share|].
  split; [exact p_Dealer_new|].
  split; [exact p_Dealer_public_info|].
  split; [exact p_Dealer_secret_share_for_participant|].
  split; [exact p_ActiveParticipant_new|].
  split; [exact p_ActiveParticipant_public_key_share|].
  split; [exact p_ActiveParticipant_proof_of_possession|].
  split; [exact p_ActiveParticipant_decrypt_share|].
  split; [exact p_PCC_new|].
  split; [exact p_PCC_commitment|].
  split; [exact p_PCC_insert_commitment|].
  split; [exact p_PCC_missing_commitments|].
  split; [exact p_PCC_finish_commitment_phase|].
  split; [exact p_PCP_public_info|].
  split; [exact p_PCP_missing_public_polynomials|].
  split; [exact p_PCP_insert_public_polynomial|].
  split; [exact p_PCP_finish_polynomials_phase|].
  split; [exact p_PES_secret_share_for_participant|].
  split; [exact p_PES_missing_shares|].
  split; [exact p_PES_insert_secret_share|].
  exact p_PES_complete.
Qed.
Print Assumptions C62_simulation_sharing.

Theorem C62_simulation_apps :
  forall (E E' : Env) (ER : EnvRel E E'), Corresponding E E' ->
    rel (@ChoiceParams_single E) (@ChoiceParams_single E') /\
    rel (@ChoiceParams_multi E) (@ChoiceParams_multi E') /\
    rel (@EncryptedChoice_single E) (@EncryptedChoice_single E') /\
    rel (@QuadraticVotingParams_new E) (@QuadraticVotingParams_new E') /\
    rel (@QuadraticVotingParams_credits E) (@QuadraticVotingParams_credits E') /\
    rel (@QuadraticVotingParams_max_votes E) (@QuadraticVotingParams_max_votes E') /\
    rel (@QuadraticVotingParams_set_max_votes E) (@QuadraticVotingParams_set_max_votes E') /\
    rel (@QuadraticVotingBallot_new E) (@QuadraticVotingBallot_new E') /\
    rel (@QuadraticVotingBallot_verify E) (@QuadraticVotingBallot_verify E') /\
    rel (@EncryptedChoice_new E SingleChoice) (@EncryptedChoice_new E' SingleChoice) /\
    rel (@EncryptedChoice_verify E SingleChoice) (@EncryptedChoice_verify E' SingleChoice) /\
    rel (@EncryptedChoice_new E MultiChoice) (@EncryptedChoice_new E' MultiChoice) /\
    rel (@EncryptedChoice_verify E MultiChoice) (@EncryptedChoice_verify E' MultiChoice).
Proof.
  intros E E' ER CO.
  split; [exact p_ChoiceParams_single|].
  split; [exact p_ChoiceParams_multi|].
  split; [exact p_EncryptedChoice_single|].
  split; [exact p_QuadraticVotingParams_new|].
  split; [exact p_QuadraticVotingParams_credits|].
  split; [exact p_QuadraticVotingParams_max_votes|].
  split; [exact p_QuadraticVotingParams_set_max_votes|].
  split; [exact p_QuadraticVotingBallot_new|].
  split; [exact p_QuadraticVotingBallot_verify|].
  split; [exact p_EncryptedChoice_new|].
  split; [exact p_EncryptedChoice_verify|].
  split; [exact p_EncryptedChoice_new|].
  exact p_EncryptedChoice_verify.
Qed.
Print Assumptions C62_simulation_apps.

Theorem C62_simulation_encodings :
  forall (E E' : Env) (ER : EnvRel E E'), Corresponding E E' ->
    rel (@PublicKey_codec E) (@PublicKey_codec E') /\
    rel (@SecretKey_codec E) (@SecretKey_codec E') /\
    rel (@Keypair_codec E) (@Keypair_codec E') /\
    rel (@Ciphertext_codec E) (@Ciphertext_codec E') /\
    rel (@VerifiableDecryption_codec E) (@VerifiableDecryption_codec E') /\
    rel (@CandidateDecryption_codec E) (@CandidateDecryption_codec E') /\
    rel (@LogEqualityProof_codec E) (@LogEqualityProof_codec E') /\
    rel (@ProofOfPossession_codec E) (@ProofOfPossession_codec E') /\
    rel (@RingProof_codec E) (@RingProof_codec E') /\
    rel (@RangeProof_codec E) (@RangeProof_codec E') /\
    rel (@CommitmentEquivalenceProof_codec E) (@CommitmentEquivalenceProof_codec E') /\
    rel (@SumOfSquaresProof_codec E) (@SumOfSquaresProof_codec E') /\
    rel (@PublicPolynomial_codec E) (@PublicPolynomial_codec E') /\
    rel (@PublicKeySet_codec E) (@PublicKeySet_codec E') /\
    rel (@Dealer_codec E) (@Dealer_codec E') /\
    rel (@ActiveParticipant_codec E) (@ActiveParticipant_codec E') /\
    rel (@PublicInfo_codec E) (@PublicInfo_codec E') /\
    rel (@PCC_codec E) (@PCC_codec E') /\
    rel (@PCP_codec E) (@PCP_codec E') /\
    rel (@PES_codec E) (@PES_codec E') /\
    rel (@CiphertextWithRangeProof_codec E) (@CiphertextWithRangeProof_codec E') /\
    rel (@QuadraticVotingBallot_codec E) (@QuadraticVotingBallot_codec E') /\
    rel (EncryptedChoice_codec (@SingleChoice E) LogEqualityProof_codec)
        (EncryptedChoice_codec (@SingleChoice E') LogEqualityProof_codec) /\
    rel (EncryptedChoice_codec (@MultiChoice E) unit_codec)
        (EncryptedChoice_codec (@MultiChoice E') unit_codec).
Proof.
  intros E E' ER CO.
  split; [exact p_PublicKey_codec|].
  split; [exact p_SecretKey_codec|].
  split; [exact p_Keypair_codec|].
  split; [exact p_Ciphertext_codec|].
  split; [exact p_VerifiableDecryption_codec|].
  split; [exact p_CandidateDecryption_codec|].
  split; [exact p_LogEqualityProof_codec|].
  split; [exact p_ProofOfPossession_codec|].
  split; [exact p_RingProof_codec|].
  split; [exact p_RangeProof_codec|].
  split; [exact p_CommitmentEquivalenceProof_codec|].
  split; [exact p_SumOfSquaresProof_codec|].
  split; [exact p_PublicPolynomial_codec|].
  split; [exact p_PublicKeySet_codec|].
  split; [exact p_Dealer_codec|].
  split; [exact p_ActiveParticipant_codec|].
  split; [exact p_PublicInfo_codec|].
  split; [exact p_PCC_codec|].
  split; [exact p_PCP_codec|].
  split; [exact p_PES_codec|].
  split; [exact p_CiphertextWithRangeProof_codec|].
  split; [exact p_QuadraticVotingBallot_codec|].
  split; [exact (p_EncryptedChoice_codec (S := @SingleChoice E) (S' := @SingleChoice E') _ _ p_LogEqualityProof_codec)|].
  exact (p_EncryptedChoice_codec (S := @MultiChoice E) (S' := @MultiChoice E') unit_codec unit_codec unit_codec_rel).
Qed.
Print Assumptions C62_simulation_encodings.


(** ** The prime-order subgroup represents [Curve25519Subgroup] *)
Section Curve25519.
Context (D : Dalek) (L : DalekLaws D) (R : Type) (fill : nat -> R -> bytes * R)
  (squeeze : transcript -> string -> nat -> bytes) (sha : bytes -> bytes) (estimate : N -> N) (build : Build).
Local Notation E' := (subgroup_env L R fill squeeze sha estimate build).
Local Notation E := (curve25519_env D R fill squeeze sha estimate build).

Theorem C62_curve25519 :
  Corresponding E' E /\ (exists GL : GroupLaws E', order GL = dl_order L) /\ ser_total E' /\
  forall (P : Element E') (Q : Element E), rel P Q <-> proj1_sig P = Q.
Proof.
  split; [exact corresponding|]. destruct (C60_curve25519 D L) as (H1 & H2 & _).
  split; [exact H1|]. split; [exact H2|]. reflexivity.
Qed.

(** everything that is parsed consists of points of the subgroup *)
Theorem C62_parsed :
  (forall b (x : PublicKey E), PublicKey_from_bytes b = Ok x -> inside L x) /\
  (forall b (x : CandidateDecryption E), CandidateDecryption_from_bytes b = Some x -> inside L x) /\
  forall h v,
  (forall x, dec (@PublicKey_codec E) h v = Ret (Some x) -> inside L x) /\
  (forall x, dec (@Keypair_codec E) h v = Ret (Some x) -> inside L x) /\
  (forall x, dec (@Ciphertext_codec E) h v = Ret (Some x) -> inside L x) /\
  (forall x, dec (@VerifiableDecryption_codec E) h v = Ret (Some x) -> inside L x) /\
  (forall x, dec (@CandidateDecryption_codec E) h v = Ret (Some x) -> inside L x) /\
  (forall x, dec (@RangeProof_codec E) h v = Ret (Some x) -> inside L x) /\
  (forall x, dec (@PublicPolynomial_codec E) h v = Ret (Some x) -> inside L x) /\
  (forall x, dec (@PublicKeySet_codec E) h v = Ret (Some x) -> inside L x) /\
  (forall x, dec (@Dealer_codec E) h v = Ret (Some x) -> inside L x) /\
  (forall x, dec (@ActiveParticipant_codec E) h v = Ret (Some x) -> inside L x) /\
  (forall x, dec (@PublicInfo_codec E) h v = Ret (Some x) -> inside L x) /\
  (forall x, dec (@PCC_codec E) h v = Ret (Some x) -> inside L x) /\
  (forall x, dec (@PCP_codec E) h v = Ret (Some x) -> inside L x) /\
  (forall x, dec (@PES_codec E) h v = Ret (Some x) -> inside L x) /\
  (forall x, dec (EncryptedChoice_codec (@SingleChoice E) LogEqualityProof_codec) h v = Ret (Some x) -> inside L x) /\
  (forall x, dec (EncryptedChoice_codec (@MultiChoice E) unit_codec) h v = Ret (Some x) -> inside L x) /\
  (forall x, dec (@CiphertextWithRangeProof_codec E) h v = Ret (Some x) -> inside L x) /\
  (forall x, dec (@QuadraticVotingBallot_codec E) h v = Ret (Some x) -> inside L x).
Proof.
  assert (Hdec : forall (A A' : Type) (RA : Rel A' A) (P : Points (Curve25519Subgroup D) A) (I : Inside (L := L) A' A)
    (c' : Codec A') (c : Codec A), rel c' c -> forall h v x, dec c h v = Ret (Some x) -> inside L x).
  { intros A A' RA P I c' c [_ Hc] h v x Hx. apply (inside_iff (A := A') x).
    pose proof (Hc h h eq_refl v v eq_refl) as H. rewrite Hx in H.
    destruct (dec c' h v) as [[y|]|]; try contradiction. exists y. exact H. }
  split; [|split].
  - intros b x Hx. apply (inside_iff (A := PublicKey E') x).
    pose proof (p_PublicKey_from_bytes (E := E') (E' := E) b b (is_refl b)) as H. rewrite Hx in H.
    destruct (PublicKey_from_bytes (E := E') b) as [y|]; [|contradiction]. exists y. exact H.
  - intros b x Hx. apply (inside_iff (A := CandidateDecryption E') x).
    pose proof (p_CandidateDecryption_from_bytes (E := E') (E' := E) b b (is_refl b)) as H. rewrite Hx in H.
    destruct (CandidateDecryption_from_bytes (E := E') b) as [y|]; [|contradiction]. exists y. exact H.
  - intros h v.
    split; [exact (Hdec _ _ _ _ _ _ _ (p_PublicKey_codec (E := E') (E' := E)) h v)|].
    split; [exact (Hdec _ _ _ _ _ _ _ (p_Keypair_codec (E := E') (E' := E)) h v)|].
    split; [exact (Hdec _ _ _ _ _ _ _ (p_Ciphertext_codec (E := E') (E' := E)) h v)|].
    split; [exact (Hdec _ _ _ _ _ _ _ (p_VerifiableDecryption_codec (E := E') (E' := E)) h v)|].
    split; [exact (Hdec _ _ _ _ _ _ _ (p_CandidateDecryption_codec (E := E') (E' := E)) h v)|].
    split; [exact (Hdec _ _ _ _ _ _ _ (p_RangeProof_codec (E := E') (E' := E)) h v)|].
    split; [exact (Hdec _ _ _ _ _ _ _ (p_PublicPolynomial_codec (E := E') (E' := E)) h v)|].
    split; [exact (Hdec _ _ _ _ _ _ _ (p_PublicKeySet_codec (E := E') (E' := E)) h v)|].
    split; [exact (Hdec _ _ _ _ _ _ _ (p_Dealer_codec (E := E') (E' := E)) h v)|].
    split; [exact (Hdec _ _ _ _ _ _ _ (p_ActiveParticipant_codec (E := E') (E' := E)) h v)|].
    split; [exact (Hdec _ _ _ _ _ _ _ (p_PublicInfo_codec (E := E') (E' := E)) h v)|].
    split; [exact (Hdec _ _ _ _ _ _ _ (p_PCC_codec (E := E') (E' := E)) h v)|].
    split; [exact (Hdec _ _ _ _ _ _ _ (p_PCP_codec (E := E') (E' := E)) h v)|].
    split; [exact (Hdec _ _ _ _ _ _ _ (p_PES_codec (E := E') (E' := E)) h v)|].
    split; [exact (Hdec _ _ _ _ _ _ _ (p_EncryptedChoice_codec (S := @SingleChoice E') (S' := @SingleChoice E) _ _
                     (p_LogEqualityProof_codec (E := E') (E' := E))) h v)|].
    split; [exact (Hdec _ _ _ _ _ _ _ (p_EncryptedChoice_codec (S := @MultiChoice E') (S' := @MultiChoice E) _ _
                     (unit_codec_rel (E := E') (E' := E))) h v)|].
    split; [exact (Hdec _ _ _ _ _ _ _ (p_CiphertextWithRangeProof_codec (E := E') (E' := E)) h v)|].
    exact (Hdec _ _ _ _ _ _ _ (p_QuadraticVotingBallot_codec (E := E') (E' := E)) h v).
Qed.


(** no operation leaves the subgroup *)
Theorem C62_closed :
  (forall sk (pk : PublicKey E), PublicKey_from_secret sk = Ret pk -> inside L pk) /\
  (forall pk v r (c : Ciphertext E) r', inside L pk -> encrypt pk v r = (c, r') -> inside L c) /\
  (forall a b : Ciphertext E, inside L a -> inside L b ->
     inside L (Ciphertext_add a b) /\ inside L (Ciphertext_sub a b) /\ inside L (Ciphertext_neg a)) /\
  (forall (a : Ciphertext E) s, inside L a -> inside L (Ciphertext_mul a s)) /\
  (forall sk (c : Ciphertext E), inside L c -> in_subgroup L (decrypt_to_element sk c)) /\
  (forall pk r (c : Ciphertext E) p r', inside L pk -> encrypt_zero pk r = Ret (c, p, r') -> inside L c) /\
  (forall pk v r (c : Ciphertext E) p r', inside L pk -> encrypt_bool pk v r = Ret (c, p, r') -> inside L c) /\
  (forall params r (d : Dealer E) r', Dealer_new params r = Ret (d, r') -> inside L d) /\
  (forall params poly pop (ks : PublicKeySet E), inside L poly ->
     PublicKeySet_new params poly pop = Ret (Ok ks) -> inside L ks) /\
  (forall (params : ChoiceParams (@SingleChoice E)) cs r e r', inside L params ->
     EncryptedChoice_new params cs r = Ret (e, r') -> inside L e) /\
  (forall (params : ChoiceParams (@MultiChoice E)) cs r e r', inside L params ->
     EncryptedChoice_new params cs r = Ret (e, r') -> inside L e) /\
  (forall (receiver : PublicKey E) n credits p, inside L receiver ->
     QuadraticVotingParams_new receiver n credits = Ret p -> inside L p) /\
  (forall (p : QuadraticVotingParams E) votes r b r', inside L p ->
     QuadraticVotingBallot_new p votes r = Ret (b, r') -> inside L b).
Proof.
  split.
  { intros sk pk H. apply (inside_iff (A := PublicKey E') pk).
    pose proof (p_PublicKey_from_secret (E := E') (E' := E) sk sk eq_refl) as Hr. rewrite H in Hr.
    destruct (PublicKey_from_secret (E := E') sk) as [y|]; [exists y; exact Hr|contradiction]. }
  split.
  { intros pk v r c r' Hpk H. apply (inside_iff (A := PublicKey E') pk) in Hpk as [pk0 Hpk].
    apply (inside_iff (A := Ciphertext E') c).
    pose proof (p_encrypt (E := E') (E' := E) pk0 pk Hpk v v eq_refl r r eq_refl) as Hr. rewrite H in Hr.
    eexists. exact (proj1 Hr). }
  split.
  { intros a b Ha Hb. apply (inside_iff (A := Ciphertext E') a) in Ha as [a0 Ha].
    apply (inside_iff (A := Ciphertext E') b) in Hb as [b0 Hb].
    split; [|split].
    - apply (inside_iff (A := Ciphertext E')). eexists. exact (p_Ciphertext_add a0 a Ha b0 b Hb).
    - apply (inside_iff (A := Ciphertext E')). eexists. exact (p_Ciphertext_sub a0 a Ha b0 b Hb).
    - apply (inside_iff (A := Ciphertext E')). eexists. exact (p_Ciphertext_neg a0 a Ha). }
  split.
  { intros a s Ha. apply (inside_iff (A := Ciphertext E') a) in Ha as [a0 Ha].
    apply (inside_iff (A := Ciphertext E')). eexists. exact (p_Ciphertext_mul a0 a Ha s s eq_refl). }
  split.
  { intros sk c Hc. apply (inside_iff (A := Ciphertext E') c) in Hc as [c0 Hc].
    apply (inside_element (R := R) (fill := fill) (squeeze := squeeze) (sha := sha) (estimate := estimate) (build := build)).
    eexists. exact (p_decrypt_to_element (E := E') (E' := E) sk sk eq_refl c0 c Hc). }
  split.
  { intros pk r c p r' Hpk H. apply (inside_iff (A := PublicKey E') pk) in Hpk as [pk0 Hpk].
    apply (inside_iff (A := Ciphertext E') c).
    pose proof (p_encrypt_zero (E := E') (E' := E) pk0 pk Hpk r r eq_refl) as Hr. rewrite H in Hr.
    destruct (encrypt_zero (E := E') pk0 r) as [[[y p'] r0]|]; [|contradiction].
    exists y. exact (proj1 (proj1 Hr)). }
  split.
  { intros pk v r c p r' Hpk H. apply (inside_iff (A := PublicKey E') pk) in Hpk as [pk0 Hpk].
    apply (inside_iff (A := Ciphertext E') c).
    pose proof (p_encrypt_bool (E := E') (E' := E) pk0 pk Hpk v v eq_refl r r eq_refl) as Hr. rewrite H in Hr.
    destruct (encrypt_bool (E := E') pk0 v r) as [[[y p'] r0]|]; [|contradiction].
    exists y. exact (proj1 (proj1 Hr)). }
  split.
  { intros params r d r' H. apply (inside_iff (A := Dealer E') d).
    pose proof (p_Dealer_new (E := E') (E' := E) params params eq_refl r r eq_refl) as Hr. rewrite H in Hr.
    destruct (Dealer_new (E := E') params r) as [[y r0]|]; [|contradiction]. exists y. exact (proj1 Hr). }
  split.
  { intros params poly pop ks Hp H. apply (inside_iff (A := PublicPolynomial E') poly) in Hp as [poly0 Hp].
    destruct (ProofOfPossession_inside (L := L) (R := R) (fill := fill) (squeeze := squeeze) (sha := sha)
      (estimate := estimate) (build := build) pop) as [pop0 Hpop].
    apply (inside_iff (A := PublicKeySet E') ks).
    pose proof (p_PublicKeySet_new (E := E') (E' := E) params params eq_refl poly0 poly Hp pop0 pop Hpop) as Hr.
    rewrite H in Hr. destruct (PublicKeySet_new (E := E') params poly0 pop0) as [[y|]|]; try contradiction.
    exists y. exact Hr. }
  split.
  { intros params cs r e r' Hp H. apply (inside_iff (A := ChoiceParams (@SingleChoice E')) params) in Hp as [p0 Hp].
    apply (inside_iff (A := EncryptedChoice (@SingleChoice E')) e).
    pose proof (p_EncryptedChoice_new (E := E') (E' := E) (S := SingleChoice) (S' := SingleChoice)
      p0 params Hp cs cs (is_refl cs) r r eq_refl) as Hr. rewrite H in Hr.
    destruct (EncryptedChoice_new (E := E') p0 cs r) as [[y r0]|]; [|contradiction]. exists y. exact (proj1 Hr). }
  split.
  { intros params cs r e r' Hp H. apply (inside_iff (A := ChoiceParams (@MultiChoice E')) params) in Hp as [p0 Hp].
    apply (inside_iff (A := EncryptedChoice (@MultiChoice E')) e).
    pose proof (p_EncryptedChoice_new (E := E') (E' := E) (S := MultiChoice) (S' := MultiChoice)
      p0 params Hp cs cs (is_refl cs) r r eq_refl) as Hr. rewrite H in Hr.
    destruct (EncryptedChoice_new (E := E') p0 cs r) as [[y r0]|]; [|contradiction]. exists y. exact (proj1 Hr). }
  split.
  { intros K n credits p Hk H. apply (inside_iff (A := PublicKey E') K) in Hk as [K0 Hk].
    apply (inside_iff (A := QuadraticVotingParams E') p).
    pose proof (p_QuadraticVotingParams_new (E := E') (E' := E) K0 K Hk n n eq_refl credits credits eq_refl) as Hr.
    rewrite H in Hr. destruct (QuadraticVotingParams_new (E := E') K0 n credits) as [y|]; [|contradiction].
    exists y. exact Hr. }
  intros p votes r b r' Hp H. apply (inside_iff (A := QuadraticVotingParams E') p) in Hp as [p0 Hp].
  apply (inside_iff (A := QuadraticVotingBallot E') b).
  pose proof (p_QuadraticVotingBallot_new (E := E') (E' := E) p0 p Hp votes votes (is_refl votes) r r eq_refl) as Hr.
  rewrite H in Hr. destruct (QuadraticVotingBallot_new (E := E') p0 votes r) as [[y r0]|]; [|contradiction].
  exists y. exact (proj1 Hr).
Qed.

End Curve25519.
Print Assumptions C62_curve25519.
Print Assumptions C62_parsed.
Print Assumptions C62_closed.
