(** * The functions of the model preserve [rel] *)
From Coq Require Import List NArith String Arith Lia.
From Verif.Model Require Import Base Group Transcript Keys Encryption LogEquality Possession Ring
  Range Commitment Mul Sharing Dkg Choice Quadratic Serde.
From Verif.Spec Require Import Transfer.
From Verif.Proofs Require Import Parametricity.
Import ListNotations.

(** ** Constructors and fields *)
Section Fields.
Context {G G' : Group} {GR : GroupRel G G'}.

Ltac field :=
  repeat intro;
  match goal with
  | H : rel _ _ |- rel (_ _) (_ _) => exact H || (hnf in H; decompose [and] H; assumption)
  | _ => hnf; repeat match goal with |- _ /\ _ => split end; assumption
  end.

Lemma p_mkPublicKey : rel (@mkPublicKey G) (@mkPublicKey G'). Proof. field. Qed.
Lemma p_pk_bytes : rel (@pk_bytes G) (@pk_bytes G'). Proof. field. Qed.
Lemma p_pk_element : rel (@pk_element G) (@pk_element G'). Proof. field. Qed.
Lemma p_mkKeypair : rel (@mkKeypair G) (@mkKeypair G'). Proof. field. Qed.
Lemma p_kp_secret : rel (@kp_secret G) (@kp_secret G'). Proof. field. Qed.
Lemma p_kp_public : rel (@kp_public G) (@kp_public G'). Proof. field. Qed.
Lemma p_mkCiphertext : rel (@mkCiphertext G) (@mkCiphertext G'). Proof. field. Qed.
Lemma p_random_element : rel (@random_element G) (@random_element G'). Proof. field. Qed.
Lemma p_blinded_element : rel (@blinded_element G) (@blinded_element G'). Proof. field. Qed.
Lemma p_mkExtendedCiphertext : rel (@mkExtendedCiphertext G) (@mkExtendedCiphertext G'). Proof. field. Qed.
Lemma p_ext_inner : rel (@ext_inner G) (@ext_inner G'). Proof. field. Qed.
Lemma p_ext_random_scalar : rel (@ext_random_scalar G) (@ext_random_scalar G'). Proof. field. Qed.
Lemma p_mkLogEqualityProof : rel (@mkLogEqualityProof G) (@mkLogEqualityProof G'). Proof. field. Qed.
Lemma p_le_challenge : rel (@le_challenge G) (@le_challenge G'). Proof. field. Qed.
Lemma p_le_response : rel (@le_response G) (@le_response G'). Proof. field. Qed.
Lemma p_mkVerifiableDecryption : rel (@mkVerifiableDecryption G) (@mkVerifiableDecryption G'). Proof. field. Qed.
Lemma p_vd_dh_element : rel (@vd_dh_element G) (@vd_dh_element G'). Proof. field. Qed.
Lemma p_mkCandidateDecryption : rel (@mkCandidateDecryption G) (@mkCandidateDecryption G'). Proof. field. Qed.
Lemma p_cd_inner : rel (@cd_inner G) (@cd_inner G'). Proof. field. Qed.
Lemma p_mkProofOfPossession : rel (@mkProofOfPossession G) (@mkProofOfPossession G'). Proof. field. Qed.
Lemma p_pop_challenge : rel (@pop_challenge G) (@pop_challenge G'). Proof. field. Qed.
Lemma p_pop_responses : rel (@pop_responses G) (@pop_responses G'). Proof. field. Qed.
Lemma p_mkRing : rel (@mkRing G) (@mkRing G'). Proof. field. Qed.
Lemma p_rg_index : rel (@rg_index G) (@rg_index G'). Proof. field. Qed.
Lemma p_rg_admissible : rel (@rg_admissible G) (@rg_admissible G'). Proof. field. Qed.
Lemma p_rg_ciphertext : rel (@rg_ciphertext G) (@rg_ciphertext G'). Proof. field. Qed.
Lemma p_rg_transcript : rel (@rg_transcript G) (@rg_transcript G'). Proof. field. Qed.
Lemma p_rg_responses : rel (@rg_responses G) (@rg_responses G'). Proof. field. Qed.
Lemma p_rg_terminal : rel (@rg_terminal G) (@rg_terminal G'). Proof. field. Qed.
Lemma p_rg_value_index : rel (@rg_value_index G) (@rg_value_index G'). Proof. field. Qed.
Lemma p_rg_discrete_log : rel (@rg_discrete_log G) (@rg_discrete_log G'). Proof. field. Qed.
Lemma p_rg_random_scalar : rel (@rg_random_scalar G) (@rg_random_scalar G'). Proof. field. Qed.
Lemma p_mkRingProof : rel (@mkRingProof G) (@mkRingProof G'). Proof. field. Qed.
Lemma p_rp_challenge : rel (@rp_challenge G) (@rp_challenge G'). Proof. field. Qed.
Lemma p_rp_responses : rel (@rp_responses G) (@rp_responses G'). Proof. field. Qed.
Lemma p_mkPreparedRange : rel (@mkPreparedRange G) (@mkPreparedRange G'). Proof. field. Qed.
Lemma p_pr_inner : rel (@pr_inner G) (@pr_inner G'). Proof. field. Qed.
Lemma p_pr_admissible : rel (@pr_admissible G) (@pr_admissible G'). Proof. field. Qed.
Lemma p_mkRangeProof : rel (@mkRangeProof G) (@mkRangeProof G'). Proof. field. Qed.
Lemma p_rap_partial : rel (@rap_partial G) (@rap_partial G'). Proof. field. Qed.
Lemma p_rap_inner : rel (@rap_inner G) (@rap_inner G'). Proof. field. Qed.
Lemma p_mkCommitmentEquivalenceProof : rel (@mkCommitmentEquivalenceProof G) (@mkCommitmentEquivalenceProof G'). Proof. field. Qed.
Lemma p_ce_challenge : rel (@ce_challenge G) (@ce_challenge G'). Proof. field. Qed.
Lemma p_ce_randomness_response : rel (@ce_randomness_response G) (@ce_randomness_response G'). Proof. field. Qed.
Lemma p_ce_value_response : rel (@ce_value_response G) (@ce_value_response G'). Proof. field. Qed.
Lemma p_ce_commitment_response : rel (@ce_commitment_response G) (@ce_commitment_response G'). Proof. field. Qed.
Lemma p_mkSumOfSquaresProof : rel (@mkSumOfSquaresProof G) (@mkSumOfSquaresProof G'). Proof. field. Qed.
Lemma p_sq_challenge : rel (@sq_challenge G) (@sq_challenge G'). Proof. field. Qed.
Lemma p_sq_ciphertext_responses : rel (@sq_ciphertext_responses G) (@sq_ciphertext_responses G'). Proof. field. Qed.
Lemma p_sq_sum_response : rel (@sq_sum_response G) (@sq_sum_response G'). Proof. field. Qed.
Lemma p_mkPublicKeySet : rel (@mkPublicKeySet G) (@mkPublicKeySet G'). Proof. field. Qed.
Lemma p_ks_params : rel (@ks_params G) (@ks_params G'). Proof. field. Qed.
Lemma p_ks_shared_key : rel (@ks_shared_key G) (@ks_shared_key G'). Proof. field. Qed.
Lemma p_ks_participant_keys : rel (@ks_participant_keys G) (@ks_participant_keys G'). Proof. field. Qed.
Lemma p_mkDealer : rel (@mkDealer G) (@mkDealer G'). Proof. field. Qed.
Lemma p_de_params : rel (@de_params G) (@de_params G'). Proof. field. Qed.
Lemma p_de_polynomial : rel (@de_polynomial G) (@de_polynomial G'). Proof. field. Qed.
Lemma p_de_pop : rel (@de_pop G) (@de_pop G'). Proof. field. Qed.
Lemma p_mkActiveParticipant : rel (@mkActiveParticipant G) (@mkActiveParticipant G'). Proof. field. Qed.
Lemma p_ap_key_set : rel (@ap_key_set G) (@ap_key_set G'). Proof. field. Qed.
Lemma p_ap_index : rel (@ap_index G) (@ap_index G'). Proof. field. Qed.
Lemma p_ap_secret_share : rel (@ap_secret_share G) (@ap_secret_share G'). Proof. field. Qed.
Lemma p_mkPCC : rel (@mkPCC G) (@mkPCC G'). Proof. field. Qed.
Lemma p_pcc_params : rel (@pcc_params G) (@pcc_params G'). Proof. field. Qed.
Lemma p_pcc_index : rel (@pcc_index G) (@pcc_index G'). Proof. field. Qed.
Lemma p_pcc_dealer : rel (@pcc_dealer G) (@pcc_dealer G'). Proof. field. Qed.
Lemma p_pcc_commitments : rel (@pcc_commitments G) (@pcc_commitments G'). Proof. field. Qed.
Lemma p_pcc_opening : rel (@pcc_opening G) (@pcc_opening G'). Proof. field. Qed.
Lemma p_mkPCP : rel (@mkPCP G) (@mkPCP G'). Proof. field. Qed.
Lemma p_pcp_params : rel (@pcp_params G) (@pcp_params G'). Proof. field. Qed.
Lemma p_pcp_index : rel (@pcp_index G) (@pcp_index G'). Proof. field. Qed.
Lemma p_pcp_dealer : rel (@pcp_dealer G) (@pcp_dealer G'). Proof. field. Qed.
Lemma p_pcp_opening : rel (@pcp_opening G) (@pcp_opening G'). Proof. field. Qed.
Lemma p_pcp_commitments : rel (@pcp_commitments G) (@pcp_commitments G'). Proof. field. Qed.
Lemma p_pcp_public_polynomials : rel (@pcp_public_polynomials G) (@pcp_public_polynomials G'). Proof. field. Qed.
Lemma p_mkPublicInfo : rel (@mkPublicInfo G) (@mkPublicInfo G'). Proof. field. Qed.
Lemma p_pi_polynomial : rel (@pi_polynomial G) (@pi_polynomial G'). Proof. field. Qed.
Lemma p_pi_pop : rel (@pi_pop G) (@pi_pop G'). Proof. field. Qed.
Lemma p_pi_opening : rel (@pi_opening G) (@pi_opening G'). Proof. field. Qed.
Lemma p_mkPES : rel (@mkPES G) (@mkPES G'). Proof. field. Qed.
Lemma p_pes_params : rel (@pes_params G) (@pes_params G'). Proof. field. Qed.
Lemma p_pes_index : rel (@pes_index G) (@pes_index G'). Proof. field. Qed.
Lemma p_pes_dealer : rel (@pes_dealer G) (@pes_dealer G'). Proof. field. Qed.
Lemma p_pes_public_polynomials : rel (@pes_public_polynomials G) (@pes_public_polynomials G'). Proof. field. Qed.
Lemma p_pes_accumulated_share : rel (@pes_accumulated_share G) (@pes_accumulated_share G'). Proof. field. Qed.
Lemma p_pes_shares_received : rel (@pes_shares_received G) (@pes_shares_received G'). Proof. field. Qed.
Lemma p_mkQVParams : rel (@mkQVParams G) (@mkQVParams G'). Proof. field. Qed.
Lemma p_qv_vote_count_range : rel (@qv_vote_count_range G) (@qv_vote_count_range G'). Proof. field. Qed.
Lemma p_qv_credit_range : rel (@qv_credit_range G) (@qv_credit_range G'). Proof. field. Qed.
Lemma p_qv_options_count : rel (@qv_options_count G) (@qv_options_count G'). Proof. field. Qed.
Lemma p_qv_receiver : rel (@qv_receiver G) (@qv_receiver G'). Proof. field. Qed.
Lemma p_mkCiphertextWithRangeProof : rel (@mkCiphertextWithRangeProof G) (@mkCiphertextWithRangeProof G'). Proof. field. Qed.
Lemma p_crp_ciphertext : rel (@crp_ciphertext G) (@crp_ciphertext G'). Proof. field. Qed.
Lemma p_crp_range_proof : rel (@crp_range_proof G) (@crp_range_proof G'). Proof. field. Qed.
Lemma p_mkQVBallot : rel (@mkQVBallot G) (@mkQVBallot G'). Proof. field. Qed.
Lemma p_qb_votes : rel (@qb_votes G) (@qb_votes G'). Proof. field. Qed.
Lemma p_qb_credit : rel (@qb_credit G) (@qb_credit G'). Proof. field. Qed.
Lemma p_qb_credit_equivalence_proof : rel (@qb_credit_equivalence_proof G) (@qb_credit_equivalence_proof G'). Proof. field. Qed.
Lemma p_mkCiphertextWithValue {V V'} (RV : Rel V V') : rel (@mkCiphertextWithValue G V) (@mkCiphertextWithValue G' V'). Proof. field. Qed.
Lemma p_cwv_ext {V V'} (RV : Rel V V') : rel (@cwv_ext G V) (@cwv_ext G' V'). Proof. field. Qed.
Lemma p_cwv_value {V V'} (RV : Rel V V') : rel (@cwv_value G V) (@cwv_value G' V'). Proof. field. Qed.
Lemma p_mkRingProofBuilder {R R'} (RR : Rel R R') : rel (@mkRingProofBuilder G R) (@mkRingProofBuilder G' R'). Proof. field. Qed.
Lemma p_rb_receiver {R R'} (RR : Rel R R') : rel (@rb_receiver G R) (@rb_receiver G' R'). Proof. field. Qed.
Lemma p_rb_transcript {R R'} (RR : Rel R R') : rel (@rb_transcript G R) (@rb_transcript G' R'). Proof. field. Qed.
Lemma p_rb_rings {R R'} (RR : Rel R R') : rel (@rb_rings G R) (@rb_rings G' R'). Proof. field. Qed.
Lemma p_rb_rest {R R'} (RR : Rel R R') : rel (@rb_rest G R) (@rb_rest G' R'). Proof. field. Qed.
Lemma p_rb_rng {R R'} (RR : Rel R R') : rel (@rb_rng G R) (@rb_rng G' R'). Proof. field. Qed.

End Fields.

Global Hint Resolve p_mkPublicKey p_pk_bytes p_pk_element p_mkKeypair p_kp_secret p_kp_public
  p_mkCiphertext p_random_element p_blinded_element p_mkExtendedCiphertext p_ext_inner
  p_ext_random_scalar p_mkLogEqualityProof p_le_challenge p_le_response p_mkVerifiableDecryption
  p_vd_dh_element p_mkCandidateDecryption p_cd_inner p_mkProofOfPossession p_pop_challenge
  p_pop_responses p_mkRing p_rg_index p_rg_admissible p_rg_ciphertext p_rg_transcript
  p_rg_responses p_rg_terminal p_rg_value_index p_rg_discrete_log p_rg_random_scalar p_mkRingProof
  p_rp_challenge p_rp_responses p_mkPreparedRange p_pr_inner p_pr_admissible p_mkRangeProof
  p_rap_partial p_rap_inner p_mkCommitmentEquivalenceProof p_ce_challenge p_ce_randomness_response
  p_ce_value_response p_ce_commitment_response p_mkSumOfSquaresProof p_sq_challenge
  p_sq_ciphertext_responses p_sq_sum_response p_mkPublicKeySet p_ks_params p_ks_shared_key
  p_ks_participant_keys p_mkDealer p_de_params p_de_polynomial p_de_pop p_mkActiveParticipant
  p_ap_key_set p_ap_index p_ap_secret_share p_mkPCC p_pcc_params p_pcc_index p_pcc_dealer
  p_pcc_commitments p_pcc_opening p_mkPCP p_pcp_params p_pcp_index p_pcp_dealer p_pcp_opening
  p_pcp_commitments p_pcp_public_polynomials p_mkPublicInfo p_pi_polynomial p_pi_pop p_pi_opening
  p_mkPES p_pes_params p_pes_index p_pes_dealer p_pes_public_polynomials p_pes_accumulated_share
  p_pes_shares_received p_mkQVParams p_qv_vote_count_range p_qv_credit_range p_qv_options_count
  p_qv_receiver p_mkCiphertextWithRangeProof p_crp_ciphertext p_crp_range_proof p_mkQVBallot
  p_qb_votes p_qb_credit p_qb_credit_equivalence_proof p_mkCiphertextWithValue p_cwv_ext
  p_cwv_value p_mkRingProofBuilder p_rb_receiver p_rb_transcript p_rb_rings p_rb_rest p_rb_rng : par.

Section SumProofFields.
Context {E E' : Env} {GR : GroupRel E E'} {S : ProveSum E} {S' : ProveSum E'} {RP : Rel (ps_Proof S) (ps_Proof S')}.

Ltac field :=
  repeat intro;
  match goal with
  | H : rel _ _ |- rel (_ _) (_ _) => exact H || (hnf in H; decompose [and] H; assumption)
  | _ => hnf; repeat match goal with |- _ /\ _ => split end; assumption
  end.

Lemma p_mkChoiceParams : rel (@mkChoiceParams E S) (@mkChoiceParams E' S'). Proof. field. Qed.
Lemma p_cp_options_count : rel (@cp_options_count E S) (@cp_options_count E' S'). Proof. field. Qed.
Lemma p_cp_receiver : rel (@cp_receiver E S) (@cp_receiver E' S'). Proof. field. Qed.
Lemma p_mkEncryptedChoice : rel (@mkEncryptedChoice E S) (@mkEncryptedChoice E' S'). Proof. field. Qed.
Lemma p_ec_choices : rel (@ec_choices E S) (@ec_choices E' S'). Proof. field. Qed.
Lemma p_ec_range_proof : rel (@ec_range_proof E S) (@ec_range_proof E' S'). Proof. field. Qed.
Lemma p_ec_sum_proof : rel (@ec_sum_proof E S) (@ec_sum_proof E' S'). Proof. field. Qed.

End SumProofFields.

Global Hint Resolve p_mkChoiceParams p_cp_options_count p_cp_receiver p_mkEncryptedChoice
  p_ec_choices p_ec_range_proof p_ec_sum_proof : par.

Global Hint Resolve sr_prove sr_verify co_s_default co_s_of_u64 co_s_neg co_s_add co_s_sub co_s_mul co_s_eqb
  co_invert_scalar co_invert_scalars co_serialize_scalar co_deserialize_scalar
  co_e_add co_e_sub co_e_neg co_e_mul co_e_eqb co_identity co_is_identity
  co_generator co_serialize_element co_deserialize_element co_mul_generator
  co_vartime_mul_generator co_multi_mul co_vartime_double_mul_generator co_vartime_multi_mul
  co_generate_scalar co_fill_bytes co_oracle co_sha256 : par.

Lemma p_vec_codec {A A'} {RA : Rel A A'} : rel (@vec_codec A) (@vec_codec A').
Proof. unfold vec_codec. par. Qed.
Lemma p_option_codec {A A'} {RA : Rel A A'} : rel (@option_codec A) (@option_codec A').
Proof. unfold option_codec. par. Qed.
Global Hint Resolve p_vec_codec p_option_codec : par.

(** ** Functions *)
Section Functions.
Context {E E' : Env} {ER : EnvRel E E'} {CO : Corresponding E E'}.

Lemma p_SCALAR_SIZE : rel (SCALAR_SIZE E) (SCALAR_SIZE E').
Proof. exact co_SCALAR_SIZE. Qed.
Lemma p_ELEMENT_SIZE : rel (ELEMENT_SIZE E) (ELEMENT_SIZE E').
Proof. exact co_ELEMENT_SIZE. Qed.
Lemma p_env_build : rel (env_build E) (env_build E').
Proof. exact co_env_build. Qed.
Lemma p_RangeDecomposition_optimal :
  rel (RangeDecomposition_optimal (env_build E) (@len_estimate E))
      (RangeDecomposition_optimal (env_build E') (@len_estimate E')).
Proof. rewrite co_env_build, co_len_estimate. apply is_refl. Qed.
Hint Resolve p_SCALAR_SIZE p_ELEMENT_SIZE p_env_build p_RangeDecomposition_optimal : par.


(* Transcript *)
Lemma p_append_element : rel (@append_element E) (@append_element E').
Proof. unfold append_element. par. Qed.
Hint Resolve p_append_element : par.
Lemma p_challenge_scalar : rel (@challenge_scalar E) (@challenge_scalar E').
Proof. unfold challenge_scalar. par. Qed.
Hint Resolve p_challenge_scalar : par.

(* Keys *)
Lemma p_SecretKey_generate : rel (@SecretKey_generate E) (@SecretKey_generate E').
Proof. unfold SecretKey_generate. par. Qed.
Hint Resolve p_SecretKey_generate : par.
Lemma p_SecretKey_from_bytes : rel (@SecretKey_from_bytes E) (@SecretKey_from_bytes E').
Proof. unfold SecretKey_from_bytes. par. Qed.
Hint Resolve p_SecretKey_from_bytes : par.
Lemma p_SecretKey_add : rel (@SecretKey_add E) (@SecretKey_add E').
Proof. unfold SecretKey_add. par. Qed.
Hint Resolve p_SecretKey_add : par.
Lemma p_SecretKey_sub : rel (@SecretKey_sub E) (@SecretKey_sub E').
Proof. unfold SecretKey_sub. par. Qed.
Hint Resolve p_SecretKey_sub : par.
Lemma p_SecretKey_mul : rel (@SecretKey_mul E) (@SecretKey_mul E').
Proof. unfold SecretKey_mul. par. Qed.
Hint Resolve p_SecretKey_mul : par.
Lemma p_PublicKey_eqb : rel (@PublicKey_eqb E) (@PublicKey_eqb E').
Proof. unfold PublicKey_eqb. par. Qed.
Hint Resolve p_PublicKey_eqb : par.
Lemma p_PublicKey_from_bytes : rel (@PublicKey_from_bytes E) (@PublicKey_from_bytes E').
Proof. unfold PublicKey_from_bytes. par. Qed.
Hint Resolve p_PublicKey_from_bytes : par.
Lemma p_PublicKey_from_element : rel (@PublicKey_from_element E) (@PublicKey_from_element E').
Proof. unfold PublicKey_from_element. par. Qed.
Hint Resolve p_PublicKey_from_element : par.
Lemma p_PublicKey_from_secret : rel (@PublicKey_from_secret E) (@PublicKey_from_secret E').
Proof. unfold PublicKey_from_secret. par. Qed.
Hint Resolve p_PublicKey_from_secret : par.
Lemma p_PublicKey_add : rel (@PublicKey_add E) (@PublicKey_add E').
Proof. unfold PublicKey_add. par. Qed.
Hint Resolve p_PublicKey_add : par.
Lemma p_PublicKey_mul : rel (@PublicKey_mul E) (@PublicKey_mul E').
Proof. unfold PublicKey_mul. par. Qed.
Hint Resolve p_PublicKey_mul : par.
Lemma p_PublicKey_mul_u64 : rel (@PublicKey_mul_u64 E) (@PublicKey_mul_u64 E').
Proof. unfold PublicKey_mul_u64. par. Qed.
Hint Resolve p_PublicKey_mul_u64 : par.
Lemma p_Keypair_from_secret : rel (@Keypair_from_secret E) (@Keypair_from_secret E').
Proof. unfold Keypair_from_secret. par. Qed.
Hint Resolve p_Keypair_from_secret : par.
Lemma p_Keypair_generate : rel (@Keypair_generate E) (@Keypair_generate E').
Proof. unfold Keypair_generate. par. Qed.
Hint Resolve p_Keypair_generate : par.
Lemma p_Keypair_mul : rel (@Keypair_mul E) (@Keypair_mul E').
Proof. unfold Keypair_mul. par. Qed.
Hint Resolve p_Keypair_mul : par.

(* Encryption *)
Lemma p_Ciphertext_zero : rel (@Ciphertext_zero E) (@Ciphertext_zero E').
Proof. unfold Ciphertext_zero. par. Qed.
Hint Resolve p_Ciphertext_zero : par.
Lemma p_Ciphertext_non_blinded : rel (@Ciphertext_non_blinded E) (@Ciphertext_non_blinded E').
Proof. unfold Ciphertext_non_blinded. par. Qed.
Hint Resolve p_Ciphertext_non_blinded : par.
Lemma p_Ciphertext_to_bytes : rel (@Ciphertext_to_bytes E) (@Ciphertext_to_bytes E').
Proof. unfold Ciphertext_to_bytes. par. Qed.
Hint Resolve p_Ciphertext_to_bytes : par.
Lemma p_Ciphertext_add : rel (@Ciphertext_add E) (@Ciphertext_add E').
Proof. unfold Ciphertext_add. par. Qed.
Hint Resolve p_Ciphertext_add : par.
Lemma p_Ciphertext_sub : rel (@Ciphertext_sub E) (@Ciphertext_sub E').
Proof. unfold Ciphertext_sub. par. Qed.
Hint Resolve p_Ciphertext_sub : par.
Lemma p_Ciphertext_mul : rel (@Ciphertext_mul E) (@Ciphertext_mul E').
Proof. unfold Ciphertext_mul. par. Qed.
Hint Resolve p_Ciphertext_mul : par.
Lemma p_Ciphertext_mul_u64 : rel (@Ciphertext_mul_u64 E) (@Ciphertext_mul_u64 E').
Proof. unfold Ciphertext_mul_u64. par. Qed.
Hint Resolve p_Ciphertext_mul_u64 : par.
Lemma p_Ciphertext_neg : rel (@Ciphertext_neg E) (@Ciphertext_neg E').
Proof. unfold Ciphertext_neg. par. Qed.
Hint Resolve p_Ciphertext_neg : par.
Lemma p_DiscreteLogTable_insert_all : rel (@DiscreteLogTable_insert_all E) (@DiscreteLogTable_insert_all E').
Proof. intros l l' Hl. norm. induction l' as [|x l IH]; cbn [DiscreteLogTable_insert_all]; par. Qed.
Hint Resolve p_DiscreteLogTable_insert_all : par.
Lemma p_DiscreteLogTable_new : rel (@DiscreteLogTable_new E) (@DiscreteLogTable_new E').
Proof. unfold DiscreteLogTable_new. par. Qed.
Hint Resolve p_DiscreteLogTable_new : par.
Lemma p_DiscreteLogTable_get : rel (@DiscreteLogTable_get E) (@DiscreteLogTable_get E').
Proof. unfold DiscreteLogTable_get. par. Qed.
Hint Resolve p_DiscreteLogTable_get : par.
Lemma p_ExtendedCiphertext_new : rel (@ExtendedCiphertext_new E) (@ExtendedCiphertext_new E').
Proof. unfold ExtendedCiphertext_new. par. Qed.
Hint Resolve p_ExtendedCiphertext_new : par.
Lemma p_ExtendedCiphertext_zero : rel (@ExtendedCiphertext_zero E) (@ExtendedCiphertext_zero E').
Proof. unfold ExtendedCiphertext_zero. par. Qed.
Hint Resolve p_ExtendedCiphertext_zero : par.
Lemma p_ExtendedCiphertext_add : rel (@ExtendedCiphertext_add E) (@ExtendedCiphertext_add E').
Proof. unfold ExtendedCiphertext_add. par. Qed.
Hint Resolve p_ExtendedCiphertext_add : par.
Lemma p_ExtendedCiphertext_sub : rel (@ExtendedCiphertext_sub E) (@ExtendedCiphertext_sub E').
Proof. unfold ExtendedCiphertext_sub. par. Qed.
Hint Resolve p_ExtendedCiphertext_sub : par.
Lemma p_cwv_inner {V V'} {RV : Rel V V'} : rel (@cwv_inner E V) (@cwv_inner E' V').
Proof. unfold cwv_inner. par. Qed.
Hint Resolve p_cwv_inner : par.
Lemma p_cwv_randomness {V V'} {RV : Rel V V'} : rel (@cwv_randomness E V) (@cwv_randomness E' V').
Proof. unfold cwv_randomness. par. Qed.
Hint Resolve p_cwv_randomness : par.
Lemma p_CiphertextWithValue_new {V V'} {RV : Rel V V'} : rel (@CiphertextWithValue_new E V) (@CiphertextWithValue_new E' V').
Proof. unfold CiphertextWithValue_new. par. Qed.
Hint Resolve p_CiphertextWithValue_new : par.
Lemma p_CiphertextWithValue_generalize {V V'} {RV : Rel V V'} : rel (@CiphertextWithValue_generalize E V) (@CiphertextWithValue_generalize E' V').
Proof. unfold CiphertextWithValue_generalize. par. Qed.
Hint Resolve p_CiphertextWithValue_generalize : par.
Lemma p_encrypt : rel (@encrypt E) (@encrypt E').
Proof. unfold encrypt. par. Qed.
Hint Resolve p_encrypt : par.
Lemma p_encrypt_element : rel (@encrypt_element E) (@encrypt_element E').
Proof. unfold encrypt_element. par. Qed.
Hint Resolve p_encrypt_element : par.
Lemma p_decrypt_to_element : rel (@decrypt_to_element E) (@decrypt_to_element E').
Proof. unfold decrypt_to_element. par. Qed.
Hint Resolve p_decrypt_to_element : par.
Lemma p_decrypt : rel (@decrypt E) (@decrypt E').
Proof. unfold decrypt. par. Qed.
Hint Resolve p_decrypt : par.

(* LogEquality *)
Lemma p_LogEqualityProof_new : rel (@LogEqualityProof_new E) (@LogEqualityProof_new E').
Proof. unfold LogEqualityProof_new. par. Qed.
Hint Resolve p_LogEqualityProof_new : par.
Lemma p_LogEqualityProof_verify : rel (@LogEqualityProof_verify E) (@LogEqualityProof_verify E').
Proof. unfold LogEqualityProof_verify. par. Qed.
Hint Resolve p_LogEqualityProof_verify : par.
Lemma p_LogEqualityProof_to_bytes : rel (@LogEqualityProof_to_bytes E) (@LogEqualityProof_to_bytes E').
Proof. unfold LogEqualityProof_to_bytes. par. Qed.
Hint Resolve p_LogEqualityProof_to_bytes : par.
Lemma p_LogEqualityProof_from_bytes : rel (@LogEqualityProof_from_bytes E) (@LogEqualityProof_from_bytes E').
Proof. unfold LogEqualityProof_from_bytes. par. Qed.
Hint Resolve p_LogEqualityProof_from_bytes : par.
Lemma p_encrypt_zero : rel (@encrypt_zero E) (@encrypt_zero E').
Proof. unfold encrypt_zero. par. Qed.
Hint Resolve p_encrypt_zero : par.
Lemma p_verify_zero : rel (@verify_zero E) (@verify_zero E').
Proof. unfold verify_zero. par. Qed.
Hint Resolve p_verify_zero : par.
Lemma p_VerifiableDecryption_new : rel (@VerifiableDecryption_new E) (@VerifiableDecryption_new E').
Proof. unfold VerifiableDecryption_new. par. Qed.
Hint Resolve p_VerifiableDecryption_new : par.
Lemma p_VerifiableDecryption_to_bytes : rel (@VerifiableDecryption_to_bytes E) (@VerifiableDecryption_to_bytes E').
Proof. unfold VerifiableDecryption_to_bytes. par. Qed.
Hint Resolve p_VerifiableDecryption_to_bytes : par.
Lemma p_VerifiableDecryption_decrypt_to_element : rel (@VerifiableDecryption_decrypt_to_element E) (@VerifiableDecryption_decrypt_to_element E').
Proof. unfold VerifiableDecryption_decrypt_to_element. par. Qed.
Hint Resolve p_VerifiableDecryption_decrypt_to_element : par.
Lemma p_VerifiableDecryption_decrypt : rel (@VerifiableDecryption_decrypt E) (@VerifiableDecryption_decrypt E').
Proof. unfold VerifiableDecryption_decrypt. par. Qed.
Hint Resolve p_VerifiableDecryption_decrypt : par.
Lemma p_CandidateDecryption_from_bytes : rel (@CandidateDecryption_from_bytes E) (@CandidateDecryption_from_bytes E').
Proof. unfold CandidateDecryption_from_bytes. par. Qed.
Hint Resolve p_CandidateDecryption_from_bytes : par.
Lemma p_CandidateDecryption_verify : rel (@CandidateDecryption_verify E) (@CandidateDecryption_verify E').
Proof. unfold CandidateDecryption_verify. par. Qed.
Hint Resolve p_CandidateDecryption_verify : par.

(* Possession *)
Lemma p_pop_append_keys : rel (@pop_append_keys E) (@pop_append_keys E').
Proof. unfold pop_append_keys. par. Qed.
Hint Resolve p_pop_append_keys : par.
Lemma p_pop_commit : rel (@pop_commit E) (@pop_commit E').
Proof. intros n n' Hn. norm. induction n' as [|n IH]; cbn [pop_commit]; par. Qed.
Hint Resolve p_pop_commit : par.
Lemma p_ProofOfPossession_from_keys : rel (@ProofOfPossession_from_keys E) (@ProofOfPossession_from_keys E').
Proof. unfold ProofOfPossession_from_keys. par. Qed.
Hint Resolve p_ProofOfPossession_from_keys : par.
Lemma p_ProofOfPossession_new : rel (@ProofOfPossession_new E) (@ProofOfPossession_new E').
Proof. unfold ProofOfPossession_new. par. Qed.
Hint Resolve p_ProofOfPossession_new : par.
Lemma p_pop_recommit : rel (@pop_recommit E) (@pop_recommit E').
Proof. intros a0 b0 H0 l l' Hl. norm. induction Hl as [|x x' l l' Hx _ IH]; cbn [pop_recommit]; par. Qed.
Hint Resolve p_pop_recommit : par.
Lemma p_ProofOfPossession_verify : rel (@ProofOfPossession_verify E) (@ProofOfPossession_verify E').
Proof. unfold ProofOfPossession_verify. par. Qed.
Hint Resolve p_ProofOfPossession_verify : par.

(* Ring *)
Lemma p_ring_eq_challenge : rel (@ring_eq_challenge E) (@ring_eq_challenge E').
Proof. unfold ring_eq_challenge. par. Qed.
Hint Resolve p_ring_eq_challenge : par.
Lemma p_ring_prover_commitments : rel (@ring_prover_commitments E) (@ring_prover_commitments E').
Proof. unfold ring_prover_commitments. par. Qed.
Hint Resolve p_ring_prover_commitments : par.
Lemma p_ring_init_transcript : rel (@ring_init_transcript E) (@ring_init_transcript E').
Proof. unfold ring_init_transcript. par. Qed.
Hint Resolve p_ring_init_transcript : par.
Lemma p_ring_forward : rel (@ring_forward E) (@ring_forward E').
Proof. intros a0 b0 H0 a1 b1 H1 a2 b2 H2 l l' Hl. norm. induction Hl as [|x x' l l' Hx _ IH]; cbn [ring_forward]; par. Qed.
Hint Resolve p_ring_forward : par.
Lemma p_Ring_new : rel (@Ring_new E) (@Ring_new E').
Proof. unfold Ring_new. par. Qed.
Hint Resolve p_Ring_new : par.
Lemma p_ring_backward : rel (@ring_backward E) (@ring_backward E').
Proof. intros a0 b0 H0 a1 b1 H1 a2 b2 H2 l l' Hl. norm. induction Hl as [|x x' l l' Hx _ IH]; cbn [ring_backward]; par. Qed.
Hint Resolve p_ring_backward : par.
Lemma p_Ring_finalize : rel (@Ring_finalize E) (@Ring_finalize E').
Proof. unfold Ring_finalize. par. Qed.
Hint Resolve p_Ring_finalize : par.
Lemma p_ring_append_terminals : rel (@ring_append_terminals E) (@ring_append_terminals E').
Proof. intros t t' Ht l l' Hl. norm. revert t'. induction Hl as [|x x' l l' Hx _ IH]; intros t; cbn [ring_append_terminals]; par. Qed.
Hint Resolve p_ring_append_terminals : par.
Lemma p_ring_finalize_all : rel (@ring_finalize_all E) (@ring_finalize_all E').
Proof. intros  l l' Hl. norm. induction Hl as [|x x' l l' Hx _ IH]; cbn [ring_finalize_all]; par. Qed.
Hint Resolve p_ring_finalize_all : par.
Lemma p_Ring_aggregate : rel (@Ring_aggregate E) (@Ring_aggregate E').
Proof. unfold Ring_aggregate. par. Qed.
Hint Resolve p_Ring_aggregate : par.
Lemma p_ring_initialize_transcript : rel (@ring_initialize_transcript E) (@ring_initialize_transcript E').
Proof. unfold ring_initialize_transcript. par. Qed.
Hint Resolve p_ring_initialize_transcript : par.
Lemma p_ring_verify_loop : rel (@ring_verify_loop E) (@ring_verify_loop E').
Proof. intros t t' Ht k k' Hk c c' Hc n n' Hn i i' Hi l l' Hl. norm. revert i'. induction Hl as [|x x' l l' Hx _ IH]; intros i; cbn [ring_verify_loop]; par. Qed.
Hint Resolve p_ring_verify_loop : par.
Lemma p_ring_verify_rings : rel (@ring_verify_rings E) (@ring_verify_rings E').
Proof. intros t t' Ht k k' Hk p p' Hp n n' Hn i i' Hi l l' Hl. norm. revert n' i'.
  induction Hl as [|[v c] [v' c'] l l' Hx _ IH]; intros n i; cbn [ring_verify_rings]; [par|].
  assert (IH' : forall n n' i i', rel n n' -> rel i i' ->
    rel (ring_verify_rings t' k p n i l) (ring_verify_rings t' k' p' n' i' l')) by (intros; norm; apply IH).
  clear IH. par. Qed.
Hint Resolve p_ring_verify_rings : par.
Lemma p_RingProof_verify : rel (@RingProof_verify E) (@RingProof_verify E').
Proof. unfold RingProof_verify. par. Qed.
Hint Resolve p_RingProof_verify : par.
Lemma p_RingProof_to_bytes : rel (@RingProof_to_bytes E) (@RingProof_to_bytes E').
Proof. unfold RingProof_to_bytes. par. Qed.
Hint Resolve p_RingProof_to_bytes : par.
Lemma p_RingProof_from_bytes : rel (@RingProof_from_bytes E) (@RingProof_from_bytes E').
Proof. unfold RingProof_from_bytes. par. Qed.
Hint Resolve p_RingProof_from_bytes : par.
Lemma p_RingProofBuilder_new : rel (@RingProofBuilder_new E) (@RingProofBuilder_new E').
Proof. unfold RingProofBuilder_new. par. Qed.
Hint Resolve p_RingProofBuilder_new : par.
Lemma p_RingProofBuilder_add_precomputed_value : rel (@RingProofBuilder_add_precomputed_value E) (@RingProofBuilder_add_precomputed_value E').
Proof. unfold RingProofBuilder_add_precomputed_value. par. Qed.
Hint Resolve p_RingProofBuilder_add_precomputed_value : par.
Lemma p_RingProofBuilder_add_value : rel (@RingProofBuilder_add_value E) (@RingProofBuilder_add_value E').
Proof. unfold RingProofBuilder_add_value. par. Qed.
Hint Resolve p_RingProofBuilder_add_value : par.
Lemma p_RingProofBuilder_build : rel (@RingProofBuilder_build E) (@RingProofBuilder_build E').
Proof. unfold RingProofBuilder_build. par. Qed.
Hint Resolve p_RingProofBuilder_build : par.
Lemma p_encrypt_bool : rel (@encrypt_bool E) (@encrypt_bool E').
Proof. unfold encrypt_bool. par. Qed.
Hint Resolve p_encrypt_bool : par.
Lemma p_verify_bool : rel (@verify_bool E) (@verify_bool E').
Proof. unfold verify_bool. par. Qed.
Hint Resolve p_verify_bool : par.

(* Range *)
Lemma p_PreparedRange_new : rel (@PreparedRange_new E) (@PreparedRange_new E').
Proof. unfold PreparedRange_new. par. Qed.
Hint Resolve p_PreparedRange_new : par.
Lemma p_PreparedRange_decompose : rel (@PreparedRange_decompose E) (@PreparedRange_decompose E').
Proof. unfold PreparedRange_decompose. par. Qed.
Hint Resolve p_PreparedRange_decompose : par.
Lemma p_range_add_values : rel (@range_add_values E) (@range_add_values E').
Proof. intros t t' Ht l l' Hl. norm. revert t t' Ht. induction Hl as [|x x' l l' Hx _ IH]; intros t t' Ht; cbn [range_add_values]; par. Qed.
Hint Resolve p_range_add_values : par.
Lemma p_RangeProof_from_ciphertext : rel (@RangeProof_from_ciphertext E) (@RangeProof_from_ciphertext E').
Proof. unfold RangeProof_from_ciphertext. par. Qed.
Hint Resolve p_RangeProof_from_ciphertext : par.
Lemma p_RangeProof_new : rel (@RangeProof_new E) (@RangeProof_new E').
Proof. unfold RangeProof_new. par. Qed.
Hint Resolve p_RangeProof_new : par.
Lemma p_RangeProof_verify : rel (@RangeProof_verify E) (@RangeProof_verify E').
Proof. unfold RangeProof_verify. par. Qed.
Hint Resolve p_RangeProof_verify : par.
Lemma p_encrypt_range : rel (@encrypt_range E) (@encrypt_range E').
Proof. unfold encrypt_range. par. Qed.
Hint Resolve p_encrypt_range : par.
Lemma p_verify_range : rel (@verify_range E) (@verify_range E').
Proof. unfold verify_range. par. Qed.
Hint Resolve p_verify_range : par.

(* Commitment *)
Lemma p_CommitmentEquivalenceProof_new : rel (@CommitmentEquivalenceProof_new E) (@CommitmentEquivalenceProof_new E').
Proof. unfold CommitmentEquivalenceProof_new. par. Qed.
Hint Resolve p_CommitmentEquivalenceProof_new : par.
Lemma p_CommitmentEquivalenceProof_verify : rel (@CommitmentEquivalenceProof_verify E) (@CommitmentEquivalenceProof_verify E').
Proof. unfold CommitmentEquivalenceProof_verify. par. Qed.
Hint Resolve p_CommitmentEquivalenceProof_verify : par.

(* Mul *)
Lemma p_sq_initialize_transcript : rel (@sq_initialize_transcript E) (@sq_initialize_transcript E').
Proof. unfold sq_initialize_transcript. par. Qed.
Hint Resolve p_sq_initialize_transcript : par.
Lemma p_sq_commit : rel (@sq_commit E) (@sq_commit E').
Proof. intros a0 b0 H0 l l' Hl. norm. induction Hl as [|x x' l l' Hx _ IH]; cbn [sq_commit]; par. Qed.
Hint Resolve p_sq_commit : par.
Lemma p_SumOfSquaresProof_new : rel (@SumOfSquaresProof_new E) (@SumOfSquaresProof_new E').
Proof. unfold SumOfSquaresProof_new. par. Qed.
Hint Resolve p_SumOfSquaresProof_new : par.
Lemma p_sq_recommit : rel (@sq_recommit E) (@sq_recommit E').
Proof. intros a0 b0 H0 a1 b1 H1 l l' Hl. norm. induction Hl as [|x x' l l' Hx _ IH]; cbn [sq_recommit]; par. Qed.
Hint Resolve p_sq_recommit : par.
Lemma p_SumOfSquaresProof_verify : rel (@SumOfSquaresProof_verify E) (@SumOfSquaresProof_verify E').
Proof. unfold SumOfSquaresProof_verify. par. Qed.
Hint Resolve p_SumOfSquaresProof_verify : par.

(* Sharing *)
Lemma p_scalar_of_usize : rel (@scalar_of_usize E) (@scalar_of_usize E').
Proof. unfold scalar_of_usize. par. Qed.
Hint Resolve p_scalar_of_usize : par.
Lemma p_lagrange_factor : rel (@lagrange_factor E) (@lagrange_factor E').
Proof. unfold lagrange_factor. par. Qed.
Hint Resolve p_lagrange_factor : par.
Lemma p_lagrange_denominator : rel (@lagrange_denominator E) (@lagrange_denominator E').
Proof. unfold lagrange_denominator. par. Qed.
Hint Resolve p_lagrange_denominator : par.
Lemma p_lagrange_coefficients : rel (@lagrange_coefficients E) (@lagrange_coefficients E').
Proof. unfold lagrange_coefficients. par. Qed.
Hint Resolve p_lagrange_coefficients : par.
Lemma p_PublicPolynomial_value_at_zero : rel (@PublicPolynomial_value_at_zero E) (@PublicPolynomial_value_at_zero E').
Proof. unfold PublicPolynomial_value_at_zero. par. Qed.
Hint Resolve p_PublicPolynomial_value_at_zero : par.
Lemma p_scalar_powers : rel (@scalar_powers E) (@scalar_powers E').
Proof. intros n n' Hn. norm. induction n' as [|n IH]; cbn [scalar_powers]; par. Qed.
Hint Resolve p_scalar_powers : par.
Lemma p_PublicPolynomial_value_at : rel (@PublicPolynomial_value_at E) (@PublicPolynomial_value_at E').
Proof. unfold PublicPolynomial_value_at. par. Qed.
Hint Resolve p_PublicPolynomial_value_at : par.
Lemma p_add_zip : rel (@add_zip E) (@add_zip E').
Proof. intros l l' Hl. induction Hl as [|x x' l l' Hx Hl IH]; intros k k' Hk; [constructor|].
  destruct Hk as [|y y' k k' Hy Hk]; cbn [add_zip]; [constructor; assumption|].
  constructor; [par|apply IH; assumption]. Qed.
Hint Resolve p_add_zip : par.
Lemma p_PublicPolynomial_add_assign : rel (@PublicPolynomial_add_assign E) (@PublicPolynomial_add_assign E').
Proof. unfold PublicPolynomial_add_assign. par. Qed.
Hint Resolve p_PublicPolynomial_add_assign : par.
Lemma p_combine_shares : rel (@combine_shares E) (@combine_shares E').
Proof. unfold combine_shares. par. Qed.
Hint Resolve p_combine_shares : par.
Lemma p_PublicKeySet_validate : rel (@PublicKeySet_validate E) (@PublicKeySet_validate E').
Proof. unfold PublicKeySet_validate. par. Qed.
Hint Resolve p_PublicKeySet_validate : par.
Lemma p_PublicKeySet_new : rel (@PublicKeySet_new E) (@PublicKeySet_new E').
Proof. unfold PublicKeySet_new. par. Qed.
Hint Resolve p_PublicKeySet_new : par.
Lemma p_check_participant_key : rel (@check_participant_key E) (@check_participant_key E').
Proof. unfold check_participant_key. par. Qed.
Hint Resolve p_check_participant_key : par.
Lemma p_check_participant_keys : rel (@check_participant_keys E) (@check_participant_keys E').
Proof. intros a0 b0 H0 a1 b1 H1 a2 b2 H2 a3 b3 H3 a4 b4 H4 l l' Hl. norm. induction Hl as [|x x' l l' Hx _ IH]; cbn [check_participant_keys]; par. Qed.
Hint Resolve p_check_participant_keys : par.
Lemma p_PublicKeySet_from_participants : rel (@PublicKeySet_from_participants E) (@PublicKeySet_from_participants E').
Proof. unfold PublicKeySet_from_participants. par. Qed.
Hint Resolve p_PublicKeySet_from_participants : par.
Lemma p_PublicKeySet_participant_key : rel (@PublicKeySet_participant_key E) (@PublicKeySet_participant_key E').
Proof. unfold PublicKeySet_participant_key. par. Qed.
Hint Resolve p_PublicKeySet_participant_key : par.
Lemma p_PublicKeySet_commit : rel (@PublicKeySet_commit E) (@PublicKeySet_commit E').
Proof. unfold PublicKeySet_commit. par. Qed.
Hint Resolve p_PublicKeySet_commit : par.
Lemma p_participant_pop_transcript : rel (@participant_pop_transcript E) (@participant_pop_transcript E').
Proof. unfold participant_pop_transcript. par. Qed.
Hint Resolve p_participant_pop_transcript : par.
Lemma p_decryption_share_transcript : rel (@decryption_share_transcript E) (@decryption_share_transcript E').
Proof. unfold decryption_share_transcript. par. Qed.
Hint Resolve p_decryption_share_transcript : par.
Lemma p_PublicKeySet_verify_participant : rel (@PublicKeySet_verify_participant E) (@PublicKeySet_verify_participant E').
Proof. unfold PublicKeySet_verify_participant. par. Qed.
Hint Resolve p_PublicKeySet_verify_participant : par.
Lemma p_PublicKeySet_verify_share : rel (@PublicKeySet_verify_share E) (@PublicKeySet_verify_share E').
Proof. unfold PublicKeySet_verify_share. par. Qed.
Hint Resolve p_PublicKeySet_verify_share : par.
Lemma p_generate_keypairs : rel (@generate_keypairs E) (@generate_keypairs E').
Proof. intros n n' Hn. norm. induction n' as [|n IH]; cbn [generate_keypairs]; par. Qed.
Hint Resolve p_generate_keypairs : par.
Lemma p_Dealer_new : rel (@Dealer_new E) (@Dealer_new E').
Proof. unfold Dealer_new. par. Qed.
Hint Resolve p_Dealer_new : par.
Lemma p_Dealer_public_info : rel (@Dealer_public_info E) (@Dealer_public_info E').
Proof. unfold Dealer_public_info. par. Qed.
Hint Resolve p_Dealer_public_info : par.
Lemma p_Dealer_secret_share_for_participant : rel (@Dealer_secret_share_for_participant E) (@Dealer_secret_share_for_participant E').
Proof. unfold Dealer_secret_share_for_participant. par. Qed.
Hint Resolve p_Dealer_secret_share_for_participant : par.
Lemma p_ActiveParticipant_new : rel (@ActiveParticipant_new E) (@ActiveParticipant_new E').
Proof. unfold ActiveParticipant_new. par. Qed.
Hint Resolve p_ActiveParticipant_new : par.
Lemma p_ActiveParticipant_public_key_share : rel (@ActiveParticipant_public_key_share E) (@ActiveParticipant_public_key_share E').
Proof. unfold ActiveParticipant_public_key_share. par. Qed.
Hint Resolve p_ActiveParticipant_public_key_share : par.
Lemma p_ActiveParticipant_proof_of_possession : rel (@ActiveParticipant_proof_of_possession E) (@ActiveParticipant_proof_of_possession E').
Proof. unfold ActiveParticipant_proof_of_possession. par. Qed.
Hint Resolve p_ActiveParticipant_proof_of_possession : par.
Lemma p_ActiveParticipant_decrypt_share : rel (@ActiveParticipant_decrypt_share E) (@ActiveParticipant_decrypt_share E').
Proof. unfold ActiveParticipant_decrypt_share. par. Qed.
Hint Resolve p_ActiveParticipant_decrypt_share : par.

(* Dkg *)
Lemma p_create_commitment : rel (@create_commitment E) (@create_commitment E').
Proof. unfold create_commitment. par. Qed.
Hint Resolve p_create_commitment : par.
Lemma p_PCC_new : rel (@PCC_new E) (@PCC_new E').
Proof. unfold PCC_new. par. Qed.
Hint Resolve p_PCC_new : par.
Lemma p_PCC_commitment : rel (@PCC_commitment E) (@PCC_commitment E').
Proof. unfold PCC_commitment. par. Qed.
Hint Resolve p_PCC_commitment : par.
Lemma p_PCC_insert_commitment : rel (@PCC_insert_commitment E) (@PCC_insert_commitment E').
Proof. unfold PCC_insert_commitment. par. Qed.
Hint Resolve p_PCC_insert_commitment : par.
Lemma p_PCC_missing_commitments : rel (@PCC_missing_commitments E) (@PCC_missing_commitments E').
Proof. unfold PCC_missing_commitments. par. Qed.
Hint Resolve p_PCC_missing_commitments : par.
Lemma p_PCC_finish_commitment_phase : rel (@PCC_finish_commitment_phase E) (@PCC_finish_commitment_phase E').
Proof. unfold PCC_finish_commitment_phase. par. Qed.
Hint Resolve p_PCC_finish_commitment_phase : par.
Lemma p_PCP_public_info : rel (@PCP_public_info E) (@PCP_public_info E').
Proof. unfold PCP_public_info. par. Qed.
Hint Resolve p_PCP_public_info : par.
Lemma p_PCP_missing_public_polynomials : rel (@PCP_missing_public_polynomials E) (@PCP_missing_public_polynomials E').
Proof. unfold PCP_missing_public_polynomials. par. Qed.
Hint Resolve p_PCP_missing_public_polynomials : par.
Lemma p_PCP_insert_public_polynomial : rel (@PCP_insert_public_polynomial E) (@PCP_insert_public_polynomial E').
Proof. unfold PCP_insert_public_polynomial. par. Qed.
Hint Resolve p_PCP_insert_public_polynomial : par.
Lemma p_PCP_finish_polynomials_phase : rel (@PCP_finish_polynomials_phase E) (@PCP_finish_polynomials_phase E').
Proof. unfold PCP_finish_polynomials_phase. par. Qed.
Hint Resolve p_PCP_finish_polynomials_phase : par.
Lemma p_PES_secret_share_for_participant : rel (@PES_secret_share_for_participant E) (@PES_secret_share_for_participant E').
Proof. unfold PES_secret_share_for_participant. par. Qed.
Hint Resolve p_PES_secret_share_for_participant : par.
Lemma p_PES_missing_shares : rel (@PES_missing_shares E) (@PES_missing_shares E').
Proof. unfold PES_missing_shares. par. Qed.
Hint Resolve p_PES_missing_shares : par.
Lemma p_PES_insert_secret_share : rel (@PES_insert_secret_share E) (@PES_insert_secret_share E').
Proof. unfold PES_insert_secret_share. par. Qed.
Hint Resolve p_PES_insert_secret_share : par.
Lemma p_accumulate_polynomials : rel (@accumulate_polynomials E) (@accumulate_polynomials E').
Proof. intros a a' Ha l l' Hl. revert a a' Ha. induction Hl as [|x x' l l' Hx _ IH]; intros a a' Ha; cbn [accumulate_polynomials]; par. Qed.
Hint Resolve p_accumulate_polynomials : par.
Lemma p_PES_complete : rel (@PES_complete E) (@PES_complete E').
Proof. unfold PES_complete. par. Qed.
Hint Resolve p_PES_complete : par.

(* Choice *)
Lemma p_SingleChoice_prove : rel (@SingleChoice_prove E) (@SingleChoice_prove E').
Proof. unfold SingleChoice_prove. par. Qed.
Hint Resolve p_SingleChoice_prove : par.
Lemma p_SingleChoice_verify : rel (@SingleChoice_verify E) (@SingleChoice_verify E').
Proof. unfold SingleChoice_verify. par. Qed.
Hint Resolve p_SingleChoice_verify : par.
Global Instance sr_single : SumRel (@SingleChoice E) (@SingleChoice E').
Proof. split; [exact p_SingleChoice_prove|exact p_SingleChoice_verify]. Qed.
Global Instance sr_multi : SumRel (@MultiChoice E) (@MultiChoice E').
Proof. split; cbn; par. Qed.
Hint Resolve sr_single sr_multi : par.
Lemma p_ChoiceParams_check_options_count {S : ProveSum E} {S' : ProveSum E'} {RP : Rel (ps_Proof S) (ps_Proof S')} {SR : SumRel S S'} :
  rel (@ChoiceParams_check_options_count E S) (@ChoiceParams_check_options_count E' S').
Proof. unfold ChoiceParams_check_options_count. par. Qed.
Hint Resolve p_ChoiceParams_check_options_count : par.
Lemma p_ChoiceParams_single : rel (@ChoiceParams_single E) (@ChoiceParams_single E').
Proof. unfold ChoiceParams_single. par. Qed.
Hint Resolve p_ChoiceParams_single : par.
Lemma p_ChoiceParams_multi : rel (@ChoiceParams_multi E) (@ChoiceParams_multi E').
Proof. unfold ChoiceParams_multi. par. Qed.
Hint Resolve p_ChoiceParams_multi : par.
Lemma p_choice_add_values : rel (@choice_add_values E) (@choice_add_values E').
Proof. intros b b' Hb v v' Hv l l' Hl. norm. revert b b' Hb. induction l' as [|x l IH]; intros b b' Hb; cbn [choice_add_values]; par. Qed.
Hint Resolve p_choice_add_values : par.
Lemma p_EncryptedChoice_new {S : ProveSum E} {S' : ProveSum E'} {RP : Rel (ps_Proof S) (ps_Proof S')} {SR : SumRel S S'} :
  rel (@EncryptedChoice_new E S) (@EncryptedChoice_new E' S').
Proof. unfold EncryptedChoice_new. par. Qed.
Hint Resolve p_EncryptedChoice_new : par.
Lemma p_EncryptedChoice_single : rel (@EncryptedChoice_single E) (@EncryptedChoice_single E').
Proof. unfold EncryptedChoice_single. par. Qed.
Hint Resolve p_EncryptedChoice_single : par.
Lemma p_EncryptedChoice_verify {S : ProveSum E} {S' : ProveSum E'} {RP : Rel (ps_Proof S) (ps_Proof S')} {SR : SumRel S S'} :
  rel (@EncryptedChoice_verify E S) (@EncryptedChoice_verify E' S').
Proof. unfold EncryptedChoice_verify. par. Qed.
Hint Resolve p_EncryptedChoice_verify : par.

(* Quadratic *)
Lemma p_optimal_range : rel (@optimal_range E) (@optimal_range E').
Proof. unfold optimal_range. par. Qed.
Hint Resolve p_optimal_range : par.
Lemma p_QuadraticVotingParams_new : rel (@QuadraticVotingParams_new E) (@QuadraticVotingParams_new E').
Proof. unfold QuadraticVotingParams_new. par. Qed.
Hint Resolve p_QuadraticVotingParams_new : par.
Lemma p_QuadraticVotingParams_credits : rel (@QuadraticVotingParams_credits E) (@QuadraticVotingParams_credits E').
Proof. unfold QuadraticVotingParams_credits. par. Qed.
Hint Resolve p_QuadraticVotingParams_credits : par.
Lemma p_QuadraticVotingParams_max_votes : rel (@QuadraticVotingParams_max_votes E) (@QuadraticVotingParams_max_votes E').
Proof. unfold QuadraticVotingParams_max_votes. par. Qed.
Hint Resolve p_QuadraticVotingParams_max_votes : par.
Lemma p_QuadraticVotingParams_set_max_votes : rel (@QuadraticVotingParams_set_max_votes E) (@QuadraticVotingParams_set_max_votes E').
Proof. unfold QuadraticVotingParams_set_max_votes. par. Qed.
Hint Resolve p_QuadraticVotingParams_set_max_votes : par.
Lemma p_QuadraticVotingParams_check_options_count : rel (@QuadraticVotingParams_check_options_count E) (@QuadraticVotingParams_check_options_count E').
Proof. unfold QuadraticVotingParams_check_options_count. par. Qed.
Hint Resolve p_QuadraticVotingParams_check_options_count : par.
Lemma p_qv_encrypt_votes : rel (@qv_encrypt_votes E) (@qv_encrypt_votes E').
Proof. intros b b' Hb l l' Hl. norm. induction l' as [|x l IH]; cbn [qv_encrypt_votes]; par. Qed.
Hint Resolve p_qv_encrypt_votes : par.
Lemma p_QuadraticVotingBallot_new : rel (@QuadraticVotingBallot_new E) (@QuadraticVotingBallot_new E').
Proof. unfold QuadraticVotingBallot_new. par. Qed.
Hint Resolve p_QuadraticVotingBallot_new : par.
Lemma p_qv_verify_votes : rel (@qv_verify_votes E) (@qv_verify_votes E').
Proof. intros b b' Hb i i' Hi l l' Hl. norm. revert i'. induction Hl as [|x x' l l' Hx _ IH]; intros i; cbn [qv_verify_votes]; par. Qed.
Hint Resolve p_qv_verify_votes : par.
Lemma p_QuadraticVotingBallot_verify : rel (@QuadraticVotingBallot_verify E) (@QuadraticVotingBallot_verify E').
Proof. unfold QuadraticVotingBallot_verify. par. Qed.
Hint Resolve p_QuadraticVotingBallot_verify : par.

(* Serde *)
Lemma p_PublicKey_codec : rel (@PublicKey_codec E) (@PublicKey_codec E').
Proof. unfold PublicKey_codec. par. Qed.
Hint Resolve p_PublicKey_codec : par.
Lemma p_SecretKey_codec : rel (@SecretKey_codec E) (@SecretKey_codec E').
Proof. unfold SecretKey_codec. par. Qed.
Hint Resolve p_SecretKey_codec : par.
Lemma p_Keypair_codec : rel (@Keypair_codec E) (@Keypair_codec E').
Proof. unfold Keypair_codec. par. Qed.
Hint Resolve p_Keypair_codec : par.
Lemma p_ScalarHelper : rel (@ScalarHelper E) (@ScalarHelper E').
Proof. unfold ScalarHelper. par. Qed.
Hint Resolve p_ScalarHelper : par.
Lemma p_ElementHelper : rel (@ElementHelper E) (@ElementHelper E').
Proof. unfold ElementHelper. par. Qed.
Hint Resolve p_ElementHelper : par.
Lemma p_VecHelper {A A'} {RA : Rel A A'} : rel (@VecHelper E A) (@VecHelper E' A').
Proof. unfold VecHelper. par. Qed.
Hint Resolve p_VecHelper : par.
Lemma p_Ciphertext_codec : rel (@Ciphertext_codec E) (@Ciphertext_codec E').
Proof. unfold Ciphertext_codec. par. Qed.
Hint Resolve p_Ciphertext_codec : par.
Lemma p_VerifiableDecryption_codec : rel (@VerifiableDecryption_codec E) (@VerifiableDecryption_codec E').
Proof. unfold VerifiableDecryption_codec. par. Qed.
Hint Resolve p_VerifiableDecryption_codec : par.
Lemma p_CandidateDecryption_codec : rel (@CandidateDecryption_codec E) (@CandidateDecryption_codec E').
Proof. unfold CandidateDecryption_codec. par. Qed.
Hint Resolve p_CandidateDecryption_codec : par.
Lemma p_LogEqualityProof_codec : rel (@LogEqualityProof_codec E) (@LogEqualityProof_codec E').
Proof. unfold LogEqualityProof_codec. par. Qed.
Hint Resolve p_LogEqualityProof_codec : par.
Lemma p_ProofOfPossession_codec : rel (@ProofOfPossession_codec E) (@ProofOfPossession_codec E').
Proof. unfold ProofOfPossession_codec. par. Qed.
Hint Resolve p_ProofOfPossession_codec : par.
Lemma p_RingProof_enc_fields : rel (@RingProof_enc_fields E) (@RingProof_enc_fields E').
Proof. unfold RingProof_enc_fields. par. Qed.
Hint Resolve p_RingProof_enc_fields : par.
Lemma p_RingProof_codec : rel (@RingProof_codec E) (@RingProof_codec E').
Proof. unfold RingProof_codec. par. Qed.
Hint Resolve p_RingProof_codec : par.
Lemma p_RangeProof_codec : rel (@RangeProof_codec E) (@RangeProof_codec E').
Proof. unfold RangeProof_codec. par. Qed.
Hint Resolve p_RangeProof_codec : par.
Lemma p_CommitmentEquivalenceProof_codec : rel (@CommitmentEquivalenceProof_codec E) (@CommitmentEquivalenceProof_codec E').
Proof. unfold CommitmentEquivalenceProof_codec. par. Qed.
Hint Resolve p_CommitmentEquivalenceProof_codec : par.
Lemma p_SumOfSquaresProof_codec : rel (@SumOfSquaresProof_codec E) (@SumOfSquaresProof_codec E').
Proof. unfold SumOfSquaresProof_codec. par. Qed.
Hint Resolve p_SumOfSquaresProof_codec : par.
Lemma p_PublicPolynomial_codec : rel (@PublicPolynomial_codec E) (@PublicPolynomial_codec E').
Proof. unfold PublicPolynomial_codec. par. Qed.
Hint Resolve p_PublicPolynomial_codec : par.
Lemma p_PublicKeySet_codec : rel (@PublicKeySet_codec E) (@PublicKeySet_codec E').
Proof. unfold PublicKeySet_codec. par. Qed.
Hint Resolve p_PublicKeySet_codec : par.
Lemma p_Dealer_codec : rel (@Dealer_codec E) (@Dealer_codec E').
Proof. unfold Dealer_codec. par. Qed.
Hint Resolve p_Dealer_codec : par.
Lemma p_ActiveParticipant_codec : rel (@ActiveParticipant_codec E) (@ActiveParticipant_codec E').
Proof. unfold ActiveParticipant_codec. par. Qed.
Hint Resolve p_ActiveParticipant_codec : par.
Lemma p_PublicInfo_codec : rel (@PublicInfo_codec E) (@PublicInfo_codec E').
Proof. unfold PublicInfo_codec. par. Qed.
Hint Resolve p_PublicInfo_codec : par.
Lemma p_PCC_codec : rel (@PCC_codec E) (@PCC_codec E').
Proof. unfold PCC_codec. par. Qed.
Hint Resolve p_PCC_codec : par.
Lemma p_PCP_codec : rel (@PCP_codec E) (@PCP_codec E').
Proof. unfold PCP_codec. par. Qed.
Hint Resolve p_PCP_codec : par.
Lemma p_PES_codec : rel (@PES_codec E) (@PES_codec E').
Proof. unfold PES_codec. par. Qed.
Hint Resolve p_PES_codec : par.
Lemma p_EncryptedChoice_codec {S : ProveSum E} {S' : ProveSum E'} {RP : Rel (ps_Proof S) (ps_Proof S')} {SR : SumRel S S'} :
  rel (@EncryptedChoice_codec E S) (@EncryptedChoice_codec E' S').
Proof. unfold EncryptedChoice_codec. par. Qed.
Hint Resolve p_EncryptedChoice_codec : par.
Lemma p_CiphertextWithRangeProof_codec : rel (@CiphertextWithRangeProof_codec E) (@CiphertextWithRangeProof_codec E').
Proof. unfold CiphertextWithRangeProof_codec. par. Qed.
Hint Resolve p_CiphertextWithRangeProof_codec : par.
Lemma p_QuadraticVotingBallot_codec : rel (@QuadraticVotingBallot_codec E) (@QuadraticVotingBallot_codec E').
Proof. unfold QuadraticVotingBallot_codec. par. Qed.
Hint Resolve p_QuadraticVotingBallot_codec : par.
End Functions.
