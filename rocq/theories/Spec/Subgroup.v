(** * Specification vocabulary for C62: Curve25519Subgroup and the points of its prime-order subgroup *)
From Coq Require Import List NArith String.
From Verif.Model Require Import Base Group Transcript Keys Encryption LogEquality Possession Ring
  Range Commitment Mul Sharing Dkg Choice Quadratic Serde Backends.
From Verif.Spec Require Import Transfer Backends.
Import ListNotations.
Open Scope list_scope.

(** Scalars and RNG states are the same in both environments; points of the subgroup represent
    themselves. *)
Definition point_group_rel {D : Dalek} (L : DalekLaws D)
    : GroupRel (prime_subgroup L) (Curve25519Subgroup D) :=
  mkGroupRel (prime_subgroup L) (Curve25519Subgroup D)
    (fun s s' : DScalar D => s = s') (fun P P' => point P = P').
Global Instance point_rel {D : Dalek} {L : DalekLaws D} {R fill squeeze sha estimate build}
    : EnvRel (subgroup_env L R fill squeeze sha estimate build)
             (curve25519_env D R fill squeeze sha estimate build) :=
  mkEnvRel (subgroup_env L R fill squeeze sha estimate build)
           (curve25519_env D R fill squeeze sha estimate build)
           (point_group_rel L) (fun r r' : R => r = r').

(** All group elements inside of a value *)
Class Points (G : Group) (A : Type) : Type := points : A -> list (Element G).

Section Points.
Context {G : Group}.

Global Instance Pt_Element : Points G (Element G) := fun P => [P].
Global Instance Pt_list {A} {P : Points G A} : Points G (list A) := flat_map points.
Global Instance Pt_option {A} {P : Points G A} : Points G (option A) := fun o =>
  match o with Some a => points a | None => [] end.
Global Instance Pt_PublicKey : Points G (PublicKey G) := fun k => [pk_element k].
Global Instance Pt_Keypair : Points G (Keypair G) := fun k => points (kp_public k).
Global Instance Pt_Ciphertext : Points G (Ciphertext G) := fun c =>
  [random_element c; blinded_element c].
Global Instance Pt_VerifiableDecryption : Points G (VerifiableDecryption G) := fun d => [vd_dh_element d].
Global Instance Pt_CandidateDecryption : Points G (CandidateDecryption G) := fun d =>
  points (cd_inner d).
Global Instance Pt_PreparedRange : Points G (PreparedRange G) := fun r => points (pr_admissible r).
Global Instance Pt_RangeProof : Points G (RangeProof G) := fun p => points (rap_partial p).
Global Instance Pt_PublicPolynomial : Points G (PublicPolynomial G) := Pt_list.
Global Instance Pt_PublicKeySet : Points G (PublicKeySet G) := fun s =>
  points (ks_shared_key s) ++ points (ks_participant_keys s).
Global Instance Pt_Dealer : Points G (Dealer G) := fun d => points (de_polynomial d).
Global Instance Pt_ActiveParticipant : Points G (ActiveParticipant G) := fun a => points (ap_key_set a).
Global Instance Pt_PublicInfo : Points G (PublicInfo G) := fun i => points (pi_polynomial i).
Global Instance Pt_PCC : Points G (ParticipantCollectingCommitments G) := fun p => points (pcc_dealer p).
Global Instance Pt_PCP : Points G (ParticipantCollectingPolynomials G) := fun p =>
  points (pcp_dealer p) ++ points (pcp_public_polynomials p).
Global Instance Pt_PES : Points G (ParticipantExchangingSecrets G) := fun p =>
  points (pes_dealer p) ++ points (pes_public_polynomials p).
Global Instance Pt_QuadraticVotingParams : Points G (QuadraticVotingParams G) := fun p =>
  points (qv_vote_count_range p) ++ points (qv_credit_range p) ++ points (qv_receiver p).
Global Instance Pt_CiphertextWithRangeProof : Points G (CiphertextWithRangeProof G) := fun c =>
  points (crp_ciphertext c) ++ points (crp_range_proof c).
Global Instance Pt_QuadraticVotingBallot : Points G (QuadraticVotingBallot G) := fun b =>
  points (qb_votes b) ++ points (qb_credit b).

End Points.

Section ChoicePoints.
Context {D : Dalek} {R : Type} {fill : nat -> R -> bytes * R}
  {squeeze : transcript -> string -> nat -> bytes} {sha : bytes -> bytes} {estimate : N -> N} {build : Build}
  {S : ProveSum (curve25519_env D R fill squeeze sha estimate build)}.

Global Instance Pt_ChoiceParams : Points (Curve25519Subgroup D) (ChoiceParams S) := fun p =>
  points (G := Curve25519Subgroup D) (cp_receiver p).
Global Instance Pt_EncryptedChoice : Points (Curve25519Subgroup D) (EncryptedChoice S) := fun e =>
  points (G := Curve25519Subgroup D) (ec_choices e).

End ChoicePoints.

(** all points of the value are in the prime-order subgroup *)
Definition inside {D : Dalek} (L : DalekLaws D) {A : Type} {P : Points (Curve25519Subgroup D) A} (x : A) : Prop :=
  Forall (in_subgroup L) (points (G := Curve25519Subgroup D) x).
