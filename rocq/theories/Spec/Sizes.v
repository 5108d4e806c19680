(** * Specification vocabulary for sizes (C85): numbers of scalars and group elements of what is published *)
From Coq Require Import List NArith.
From Verif.Model Require Import Base Group Encryption LogEquality Possession Ring Range Mul Choice Quadratic.

Section Sizes.
Context {G : Group}.
Open Scope nat_scope.

(** a challenge and the responses *)
Definition ring_scalars (p : RingProof G) : nat := 1 + List.length (rp_responses p).
Definition pop_scalars (p : ProofOfPossession G) : nat := 1 + List.length (pop_responses p).
(** a challenge, the responses for the ciphertexts and the one for the sum *)
Definition sq_scalars (p : SumOfSquaresProof G) : nat := 2 + List.length (sq_ciphertext_responses p).
(** two elements per partial ciphertext *)
Definition range_size (p : RangeProof G) : nat := ring_scalars (rap_inner p) + 2 * List.length (rap_partial p).
(** a ciphertext with its proof *)
Definition crp_size (v : CiphertextWithRangeProof G) : nat := 2 + range_size (crp_range_proof v).
Definition quadratic_size (b : QuadraticVotingBallot G) : nat :=
  fold_right Nat.add 0 (map crp_size (qb_votes b)) + crp_size (qb_credit b) + sq_scalars (qb_credit_equivalence_proof b).

End Sizes.
