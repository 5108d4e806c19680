(** * Environments that differ in the representation of scalars, elements and RNG states.

    [rel x x'] says that [x] (of a type over the first environment) and [x'] (of the same type over
    the second one) represent the same thing: scalars, elements and RNG states are related by the
    given relations, functions map related arguments to related results, containers and structs
    are related componentwise, and everything else is equal. *)
From Coq Require Import List NArith String.
From Verif.Model Require Import Base Group Transcript Keys Encryption LogEquality Possession Ring
  Range Commitment Mul Sharing Dkg Choice Quadratic Serde.
Import ListNotations.

Class Rel (A A' : Type) : Type := rel : A -> A' -> Prop.

Global Instance Rel_eq (A : Type) : Rel A A | 100 := eq.
Global Instance Rel_fun {A A' B B'} (RA : Rel A A') (RB : Rel B B') : Rel (A -> B) (A' -> B') | 1 :=
  fun f f' => forall x x', rel x x' -> rel (f x) (f' x').
Global Instance Rel_prod {A A' B B'} (RA : Rel A A') (RB : Rel B B') : Rel (A * B) (A' * B') | 1 :=
  fun p p' => rel (fst p) (fst p') /\ rel (snd p) (snd p').
Global Instance Rel_list {A A'} (RA : Rel A A') : Rel (list A) (list A') | 1 := Forall2 rel.
Global Instance Rel_option {A A'} (RA : Rel A A') : Rel (option A) (option A') | 1 :=
  fun o o' => match o, o' with
              | Some a, Some a' => rel a a'
              | None, None => True
              | _, _ => False
              end.
Global Instance Rel_outcome {A A'} (RA : Rel A A') : Rel (outcome A) (outcome A') | 1 :=
  fun o o' => match o, o' with
              | Ret a, Ret a' => rel a a'
              | Panic k, Panic k' => k = k'
              | _, _ => False
              end.
Global Instance Rel_result {A A' B B'} (RA : Rel A A') (RB : Rel B B') : Rel (result A B) (result A' B') | 1 :=
  fun o o' => match o, o' with
              | Ok a, Ok a' => rel a a'
              | Err e, Err e' => rel e e'
              | _, _ => False
              end.

(** How scalars and elements correspond *)
Class GroupRel (G G' : Group) : Type := mkGroupRel {
  scalar_rel : Scalar G -> Scalar G' -> Prop;
  element_rel : Element G -> Element G' -> Prop
}.

(** ** Data types *)
Section Data.
Context {G G' : Group} {GR : GroupRel G G'}.

Global Instance Rel_Scalar : Rel (Scalar G) (Scalar G') | 1 := scalar_rel.
Global Instance Rel_Element : Rel (Element G) (Element G') | 1 := element_rel.
Global Instance Rel_SecretKey : Rel (SecretKey G) (SecretKey G') | 1 := scalar_rel.
Global Instance Rel_PublicKey : Rel (PublicKey G) (PublicKey G') | 1 := fun a b =>
  rel (pk_bytes a) (pk_bytes b) /\ rel (pk_element a) (pk_element b).
Global Instance Rel_Keypair : Rel (Keypair G) (Keypair G') | 1 := fun a b =>
  rel (kp_secret a) (kp_secret b) /\ rel (kp_public a) (kp_public b).
Global Instance Rel_Ciphertext : Rel (Ciphertext G) (Ciphertext G') | 1 := fun a b =>
  rel (random_element a) (random_element b) /\ rel (blinded_element a) (blinded_element b).
Global Instance Rel_ExtendedCiphertext : Rel (ExtendedCiphertext G) (ExtendedCiphertext G') | 1 := fun a b =>
  rel (ext_inner a) (ext_inner b) /\ rel (ext_random_scalar a) (ext_random_scalar b).
Global Instance Rel_CiphertextWithValue {V V'} (RV : Rel V V')
    : Rel (CiphertextWithValue G V) (CiphertextWithValue G' V') | 1 := fun a b =>
  rel (cwv_ext a) (cwv_ext b) /\ rel (cwv_value a) (cwv_value b).
Global Instance Rel_LogEqualityProof : Rel (LogEqualityProof G) (LogEqualityProof G') | 1 := fun a b =>
  rel (le_challenge a) (le_challenge b) /\ rel (le_response a) (le_response b).
Global Instance Rel_VerifiableDecryption : Rel (VerifiableDecryption G) (VerifiableDecryption G') | 1 :=
  fun a b => rel (vd_dh_element a) (vd_dh_element b).
Global Instance Rel_CandidateDecryption : Rel (CandidateDecryption G) (CandidateDecryption G') | 1 :=
  fun a b => rel (cd_inner a) (cd_inner b).
Global Instance Rel_ProofOfPossession : Rel (ProofOfPossession G) (ProofOfPossession G') | 1 := fun a b =>
  rel (pop_challenge a) (pop_challenge b) /\ rel (pop_responses a) (pop_responses b).
Global Instance Rel_Ring : Rel (Ring G) (Ring G') | 1 := fun a b =>
  rel (rg_index a) (rg_index b) /\ rel (rg_admissible a) (rg_admissible b) /\
  rel (rg_ciphertext a) (rg_ciphertext b) /\ rel (rg_transcript a) (rg_transcript b) /\
  rel (rg_responses a) (rg_responses b) /\ rel (rg_terminal a) (rg_terminal b) /\
  rel (rg_value_index a) (rg_value_index b) /\ rel (rg_discrete_log a) (rg_discrete_log b) /\
  rel (rg_random_scalar a) (rg_random_scalar b).
Global Instance Rel_RingProof : Rel (RingProof G) (RingProof G') | 1 := fun a b =>
  rel (rp_challenge a) (rp_challenge b) /\ rel (rp_responses a) (rp_responses b).
Global Instance Rel_RingProofBuilder {R R'} (RR : Rel R R')
    : Rel (RingProofBuilder G R) (RingProofBuilder G' R') | 1 := fun a b =>
  rel (rb_receiver a) (rb_receiver b) /\ rel (rb_transcript a) (rb_transcript b) /\
  rel (rb_rings a) (rb_rings b) /\ rel (rb_rest a) (rb_rest b) /\ rel (rb_rng a) (rb_rng b).
Global Instance Rel_PreparedRange : Rel (PreparedRange G) (PreparedRange G') | 1 := fun a b =>
  rel (pr_inner a) (pr_inner b) /\ rel (pr_admissible a) (pr_admissible b).
Global Instance Rel_RangeProof : Rel (RangeProof G) (RangeProof G') | 1 := fun a b =>
  rel (rap_partial a) (rap_partial b) /\ rel (rap_inner a) (rap_inner b).
Global Instance Rel_CommitmentEquivalenceProof
    : Rel (CommitmentEquivalenceProof G) (CommitmentEquivalenceProof G') | 1 := fun a b =>
  rel (ce_challenge a) (ce_challenge b) /\ rel (ce_randomness_response a) (ce_randomness_response b) /\
  rel (ce_value_response a) (ce_value_response b) /\ rel (ce_commitment_response a) (ce_commitment_response b).
Global Instance Rel_SumOfSquaresProof : Rel (SumOfSquaresProof G) (SumOfSquaresProof G') | 1 := fun a b =>
  rel (sq_challenge a) (sq_challenge b) /\
  rel (sq_ciphertext_responses a) (sq_ciphertext_responses b) /\
  rel (sq_sum_response a) (sq_sum_response b).
Global Instance Rel_PublicPolynomial : Rel (PublicPolynomial G) (PublicPolynomial G') | 1 := Forall2 rel.
Global Instance Rel_PublicKeySet : Rel (PublicKeySet G) (PublicKeySet G') | 1 := fun a b =>
  rel (ks_params a) (ks_params b) /\ rel (ks_shared_key a) (ks_shared_key b) /\
  rel (ks_participant_keys a) (ks_participant_keys b).
Global Instance Rel_Dealer : Rel (Dealer G) (Dealer G') | 1 := fun a b =>
  rel (de_params a) (de_params b) /\ rel (de_polynomial a) (de_polynomial b) /\
  rel (de_pop a) (de_pop b).
Global Instance Rel_ActiveParticipant : Rel (ActiveParticipant G) (ActiveParticipant G') | 1 := fun a b =>
  rel (ap_key_set a) (ap_key_set b) /\ rel (ap_index a) (ap_index b) /\
  rel (ap_secret_share a) (ap_secret_share b).
Global Instance Rel_PCC
    : Rel (ParticipantCollectingCommitments G) (ParticipantCollectingCommitments G') | 1 := fun a b =>
  rel (pcc_params a) (pcc_params b) /\ rel (pcc_index a) (pcc_index b) /\
  rel (pcc_dealer a) (pcc_dealer b) /\ rel (pcc_commitments a) (pcc_commitments b) /\
  rel (pcc_opening a) (pcc_opening b).
Global Instance Rel_PCP
    : Rel (ParticipantCollectingPolynomials G) (ParticipantCollectingPolynomials G') | 1 := fun a b =>
  rel (pcp_params a) (pcp_params b) /\ rel (pcp_index a) (pcp_index b) /\
  rel (pcp_dealer a) (pcp_dealer b) /\ rel (pcp_opening a) (pcp_opening b) /\
  rel (pcp_commitments a) (pcp_commitments b) /\
  rel (pcp_public_polynomials a) (pcp_public_polynomials b).
Global Instance Rel_PublicInfo : Rel (PublicInfo G) (PublicInfo G') | 1 := fun a b =>
  rel (pi_polynomial a) (pi_polynomial b) /\ rel (pi_pop a) (pi_pop b) /\
  rel (pi_opening a) (pi_opening b).
Global Instance Rel_PES
    : Rel (ParticipantExchangingSecrets G) (ParticipantExchangingSecrets G') | 1 := fun a b =>
  rel (pes_params a) (pes_params b) /\ rel (pes_index a) (pes_index b) /\
  rel (pes_dealer a) (pes_dealer b) /\ rel (pes_public_polynomials a) (pes_public_polynomials b) /\
  rel (pes_accumulated_share a) (pes_accumulated_share b) /\
  rel (pes_shares_received a) (pes_shares_received b).
Global Instance Rel_QuadraticVotingParams
    : Rel (QuadraticVotingParams G) (QuadraticVotingParams G') | 1 := fun a b =>
  rel (qv_vote_count_range a) (qv_vote_count_range b) /\ rel (qv_credit_range a) (qv_credit_range b) /\
  rel (qv_options_count a) (qv_options_count b) /\ rel (qv_receiver a) (qv_receiver b).
Global Instance Rel_CiphertextWithRangeProof
    : Rel (CiphertextWithRangeProof G) (CiphertextWithRangeProof G') | 1 := fun a b =>
  rel (crp_ciphertext a) (crp_ciphertext b) /\ rel (crp_range_proof a) (crp_range_proof b).
Global Instance Rel_QuadraticVotingBallot
    : Rel (QuadraticVotingBallot G) (QuadraticVotingBallot G') | 1 := fun a b =>
  rel (qb_votes a) (qb_votes b) /\ rel (qb_credit a) (qb_credit b) /\
  rel (qb_credit_equivalence_proof a) (qb_credit_equivalence_proof b).

End Data.

Global Instance Rel_Codec {A A'} (RA : Rel A A') : Rel (Codec A) (Codec A') | 1 := fun a b =>
  rel (enc a) (enc b) /\ rel (dec a) (dec b).

Section SumProofs.
Context {E E' : Env} {GR : GroupRel E E'} {S : ProveSum E} {S' : ProveSum E'}.

Global Instance Rel_ChoiceParams : Rel (ChoiceParams S) (ChoiceParams S') | 1 := fun a b =>
  rel (cp_options_count a) (cp_options_count b) /\ rel (cp_receiver a) (cp_receiver b).
Global Instance Rel_EncryptedChoice (RP : Rel (ps_Proof S) (ps_Proof S'))
    : Rel (EncryptedChoice S) (EncryptedChoice S') | 1 := fun a b =>
  rel (ec_choices a) (ec_choices b) /\ rel (ec_range_proof a) (ec_range_proof b) /\
  rel (ec_sum_proof a) (ec_sum_proof b).

End SumProofs.

(** ** Corresponding environments *)
Class EnvRel (E E' : Env) : Type := mkEnvRel {
  er_group : GroupRel E E';
  er_rng : Rng E -> Rng E' -> Prop
}.
Global Existing Instance er_group.
Global Instance Rel_Rng {E E' : Env} {ER : EnvRel E E'} : Rel (Rng E) (Rng E') | 1 := er_rng.

(** the proofs of the two [ProveSum] implementations, src/app/choice.rs *)
Global Instance Rel_single {E E' : Env} {GR : GroupRel E E'}
    : Rel (ps_Proof (@SingleChoice E)) (ps_Proof (@SingleChoice E')) | 1 :=
  fun a b : LogEqualityProof _ => rel a b.
Global Instance Rel_multi {E E' : Env}
    : Rel (ps_Proof (@MultiChoice E)) (ps_Proof (@MultiChoice E')) | 1 := fun a b : unit => a = b.

Class SumRel {E E' : Env} {ER : EnvRel E E'} (S : ProveSum E) (S' : ProveSum E')
    {RP : Rel (ps_Proof S) (ps_Proof S')} : Prop := mkSumRel {
  sr_prove : rel (ps_prove S) (ps_prove S');
  sr_verify : rel (ps_verify S) (ps_verify S')
}.

(** all operations of the two environments correspond *)
Class Corresponding (E E' : Env) {ER : EnvRel E E'} : Prop := mkCorresponding {
  co_s_default : rel (@s_default E) (@s_default E');
  co_s_of_u64 : rel (@s_of_u64 E) (@s_of_u64 E');
  co_s_neg : rel (@s_neg E) (@s_neg E');
  co_s_add : rel (@s_add E) (@s_add E');
  co_s_sub : rel (@s_sub E) (@s_sub E');
  co_s_mul : rel (@s_mul E) (@s_mul E');
  co_s_eqb : rel (@s_eqb E) (@s_eqb E');
  co_SCALAR_SIZE : SCALAR_SIZE E = SCALAR_SIZE E';
  co_invert_scalar : rel (@invert_scalar E) (@invert_scalar E');
  co_invert_scalars : rel (@invert_scalars E) (@invert_scalars E');
  co_serialize_scalar : rel (@serialize_scalar E) (@serialize_scalar E');
  co_deserialize_scalar : rel (@deserialize_scalar E) (@deserialize_scalar E');
  co_e_add : rel (@e_add E) (@e_add E');
  co_e_sub : rel (@e_sub E) (@e_sub E');
  co_e_neg : rel (@e_neg E) (@e_neg E');
  co_e_mul : rel (@e_mul E) (@e_mul E');
  co_e_eqb : rel (@e_eqb E) (@e_eqb E');
  co_ELEMENT_SIZE : ELEMENT_SIZE E = ELEMENT_SIZE E';
  co_identity : rel (@identity E) (@identity E');
  co_is_identity : rel (@is_identity E) (@is_identity E');
  co_generator : rel (@generator E) (@generator E');
  co_serialize_element : rel (@serialize_element E) (@serialize_element E');
  co_deserialize_element : rel (@deserialize_element E) (@deserialize_element E');
  co_mul_generator : rel (@mul_generator E) (@mul_generator E');
  co_vartime_mul_generator : rel (@vartime_mul_generator E) (@vartime_mul_generator E');
  co_multi_mul : rel (@multi_mul E) (@multi_mul E');
  co_vartime_double_mul_generator :
    rel (@vartime_double_mul_generator E) (@vartime_double_mul_generator E');
  co_vartime_multi_mul : rel (@vartime_multi_mul E) (@vartime_multi_mul E');
  co_generate_scalar : rel (@generate_scalar E) (@generate_scalar E');
  co_fill_bytes : rel (@fill_bytes E) (@fill_bytes E');
  co_oracle : rel (@oracle E) (@oracle E');
  co_sha256 : rel (@sha256 E) (@sha256 E');
  co_len_estimate : @len_estimate E = @len_estimate E';
  co_env_build : env_build E = env_build E'
}.
