(** * Equivalence of a ciphertext and a Pedersen commitment: src/proofs/commitment.rs *)
From Coq Require Import List NArith Bool String.
From Verif.Model Require Import Base Group Transcript Keys Encryption.
Import ListNotations.
Open Scope string_scope.
Open Scope list_scope.

Section CommitmentTypes.
Context {G : Group}.
Local Notation scalar := (Scalar G).
Local Notation element := (Element G).

(** src/proofs/commitment.rs 115-124 *)
Record CommitmentEquivalenceProof : Type := mkCommitmentEquivalenceProof {
  ce_challenge : scalar;
  ce_randomness_response : scalar;
  ce_value_response : scalar;
  ce_commitment_response : scalar
}.

End CommitmentTypes.
Arguments CommitmentEquivalenceProof : clear implicits.

Section Commitment.
Context {E : Env}.
Local Notation scalar := (Scalar E).
Local Notation element := (Element E).
Local Notation rng := (Rng E).
Local Notation CommitmentEquivalenceProof := (CommitmentEquivalenceProof E).

(** src/proofs/commitment.rs 134-181 *)
Definition CommitmentEquivalenceProof_new (ciphertext : CiphertextWithValue E scalar)
    (receiver : PublicKey E) (commitment_blinding : SecretKey E)
    (commitment_blinding_base : element) (t : transcript) (r : rng)
    : outcome (CommitmentEquivalenceProof * element * transcript * rng) :=
  commitment <- multi_mul [cwv_value ciphertext; commitment_blinding]
                          [generator; commitment_blinding_base] ;;
  let t := start_proof t "commitment_equivalence" in
  let t := append_element_bytes t "K" (pk_bytes receiver) in
  t <- append_element t "R" (random_element (cwv_inner ciphertext)) ;;
  t <- append_element t "B" (blinded_element (cwv_inner ciphertext)) ;;
  t <- append_element t "C" commitment ;;
  let '(random_scalar, r) := SecretKey_generate r in
  let '(value_scalar, r) := SecretKey_generate r in
  let '(commitment_scalar, r) := SecretKey_generate r in
  let random_commitment := mul_generator random_scalar in
  t <- append_element t "[e_r]G" random_commitment ;;
  let value_element := mul_generator value_scalar in
  let enc_blinding_commitment := (value_element + pk_element receiver * random_scalar)%E in
  t <- append_element t "[e_v]G + [e_r]K" enc_blinding_commitment ;;
  let commitment_commitment := (value_element + commitment_blinding_base * commitment_scalar)%E in
  t <- append_element t "[e_v]G + [e_c]H" commitment_commitment ;;
  let '(challenge, t) := challenge_scalar t "c" in
  let randomness_response := (challenge * cwv_randomness ciphertext + random_scalar)%S in
  let value_response := (challenge * cwv_value ciphertext + value_scalar)%S in
  let commitment_response := (challenge * commitment_blinding + commitment_scalar)%S in
  Ret ({| ce_challenge := challenge;
          ce_randomness_response := randomness_response;
          ce_value_response := value_response;
          ce_commitment_response := commitment_response |}, commitment, t, r).

(** src/proofs/commitment.rs 186-238 *)
Definition CommitmentEquivalenceProof_verify (p : CommitmentEquivalenceProof)
    (ciphertext : Ciphertext E) (receiver : PublicKey E)
    (commitment commitment_blinding_base : element) (t : transcript)
    : outcome (result unit VerificationError * transcript) :=
  let t := start_proof t "commitment_equivalence" in
  let t := append_element_bytes t "K" (pk_bytes receiver) in
  t <- append_element t "R" (random_element ciphertext) ;;
  t <- append_element t "B" (blinded_element ciphertext) ;;
  t <- append_element t "C" commitment ;;
  let neg_challenge := (- ce_challenge p)%S in
  let random_commitment :=
    vartime_double_mul_generator neg_challenge (random_element ciphertext)
      (ce_randomness_response p) in
  t <- append_element t "[e_r]G" random_commitment ;;
  enc_blinding_commitment <-
    vartime_multi_mul [ce_value_response p; ce_randomness_response p; neg_challenge]
                      [generator; pk_element receiver; blinded_element ciphertext] ;;
  t <- append_element t "[e_v]G + [e_r]K" enc_blinding_commitment ;;
  commitment_commitment <-
    vartime_multi_mul [ce_value_response p; ce_commitment_response p; neg_challenge]
                      [generator; commitment_blinding_base; commitment] ;;
  t <- append_element t "[e_v]G + [e_c]H" commitment_commitment ;;
  let '(expected, t) := challenge_scalar t "c" in
  Ret ((if s_eqb expected (ce_challenge p) then Ok tt else Err ChallengeMismatch), t).

End Commitment.
