(** * Specification vocabulary for C83: several proofs in one transcript *)
From Coq Require Import List NArith ZArith String.
From Verif.Model Require Import Base Group Transcript Keys Encryption LogEquality Possession
  Ring Range Commitment Mul.
From Verif.Spec Require Import Encryption Sigma.
Import ListNotations.
Open Scope string_scope.
Open Scope list_scope.

Section Chain.
Context {E : Env}.

(** What is proved, as seen by the verifier *)
Inductive claim : Type :=
| ClLog (K : PublicKey E) (P0 P1 : Element E)
| ClPossession (keys : list (PublicKey E))
| ClRange (K : PublicKey E) (range : PreparedRange E) (ct : Ciphertext E)
| ClSquares (cts : list (Ciphertext E)) (z : Ciphertext E) (K : PublicKey E)
| ClCommitment (ct : Ciphertext E) (K : PublicKey E) (C base : Element E).

Inductive any_proof : Type :=
| PfLog (p : LogEqualityProof E)
| PfPossession (p : ProofOfPossession E)
| PfRange (p : RangeProof E)
| PfSquares (p : SumOfSquaresProof E)
| PfCommitment (p : CommitmentEquivalenceProof E).

(** the challenge a proof carries *)
Definition carried (p : any_proof) : Scalar E :=
  match p with
  | PfLog p => le_challenge p
  | PfPossession p => pop_challenge p
  | PfRange p => rp_challenge (rap_inner p)
  | PfSquares p => sq_challenge p
  | PfCommitment p => ce_challenge p
  end.

(** The prover makes a proof of the claim from matching secrets, in the transcript [t] *)
Inductive made : claim -> any_proof -> transcript -> Rng E -> transcript -> Rng E -> Prop :=
| made_log K r t g p t' g' :
    LogEqualityProof_new K r ((generator * r)%E, (pk_element K * r)%E) t g = Ret (p, t', g') ->
    made (ClLog K (generator * r)%E (pk_element K * r)%E) (PfLog p) t g t' g'
| made_possession kps t g p t' g' :
    (forall kp, In kp kps -> key_of (kp_secret kp) (kp_public kp)) ->
    ProofOfPossession_new kps t g = Ret (p, t', g') ->
    made (ClPossession (map kp_public kps)) (PfPossession p) t g t' g'
| made_range K est n d pr (c : CiphertextWithValue E N) t g p t' g' :
    (n + 64 < 2 ^ 64)%N ->
    RangeDecomposition_optimal (env_build E) est n = Ret d -> PreparedRange_new d = Ret pr ->
    encrypts K (cwv_inner c) (times (cwv_value c) generator) (cwv_randomness c) ->
    RangeProof_from_ciphertext K pr c t g = Ret (p, t', g') ->
    made (ClRange K pr (cwv_inner c)) (PfRange p) t g t' g'
| made_squares cts (z : CiphertextWithValue E (Scalar E)) K t g p t' g' :
    Forall (fun ct => encrypts K (cwv_inner ct) (generator * cwv_value ct)%E (cwv_randomness ct)) cts ->
    encrypts K (cwv_inner z) (generator * cwv_value z)%E (cwv_randomness z) ->
    cwv_value z = sum_sq (map cwv_value cts) ->
    SumOfSquaresProof_new cts z K t g = Ret (p, t', g') ->
    made (ClSquares (map cwv_inner cts) (cwv_inner z) K) (PfSquares p) t g t' g'
| made_commitment (ct : CiphertextWithValue E (Scalar E)) K rc base t g p C t' g' :
    encrypts K (cwv_inner ct) (generator * cwv_value ct)%E (cwv_randomness ct) ->
    CommitmentEquivalenceProof_new ct K rc base t g = Ret (p, C, t', g') ->
    made (ClCommitment (cwv_inner ct) K C base) (PfCommitment p) t g t' g'.

(** ... and one after the other *)
Inductive made_all : list (claim * any_proof) -> transcript -> Rng E -> transcript -> Rng E -> Prop :=
| made_nil t g : made_all [] t g t g
| made_cons c p rest t g t1 g1 t2 g2 :
    made c p t g t1 g1 -> made_all rest t1 g1 t2 g2 -> made_all ((c, p) :: rest) t g t2 g2.

(** The verifier accepts the proof of the claim in the transcript [t], which becomes [t'] *)
Inductive accepted : claim -> any_proof -> transcript -> transcript -> Prop :=
| accepted_log K P0 P1 p t t' :
    LogEqualityProof_verify p K (P0, P1) t = Ret (Ok tt, t') -> accepted (ClLog K P0 P1) (PfLog p) t t'
| accepted_possession keys p t t' :
    ProofOfPossession_verify p keys t = Ret (Ok tt, t') -> accepted (ClPossession keys) (PfPossession p) t t'
| accepted_range K pr ct p t t' :
    RangeProof_verify p K pr ct t = Ret (Ok tt, t') -> accepted (ClRange K pr ct) (PfRange p) t t'
| accepted_squares cts z K p t t' :
    SumOfSquaresProof_verify p cts z K t = Ret (Ok tt, t') -> accepted (ClSquares cts z K) (PfSquares p) t t'
| accepted_commitment ct K C base p t t' :
    CommitmentEquivalenceProof_verify p ct K C base t = Ret (Ok tt, t') ->
    accepted (ClCommitment ct K C base) (PfCommitment p) t t'.

Inductive accepted_all : list (claim * any_proof) -> transcript -> transcript -> Prop :=
| accepted_nil t : accepted_all [] t t
| accepted_cons c p rest t t1 t2 :
    accepted c p t t1 -> accepted_all rest t1 t2 -> accepted_all ((c, p) :: rest) t t2.

End Chain.
Arguments claim : clear implicits.
Arguments any_proof : clear implicits.

(** ranges made by [RangeDecomposition::optimal] and [PreparedRange] *)
Definition proper {E : Env} (c : claim E) : Prop :=
  match c with
  | ClRange _ pr _ => exists est n d, (n + 4 < 2 ^ 64)%N /\
      RangeDecomposition_optimal (env_build E) est n = Ret d /\ PreparedRange_new d = Ret pr
  | _ => True
  end.

(** two different hash inputs with the same challenge *)
Definition challenge_collision {E : Env} (p : any_proof E) : Prop :=
  exists q q', q <> q' /\ @oracle E q "c" = carried p /\ @oracle E q' "c" = carried p.
