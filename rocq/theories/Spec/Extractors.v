(** * Verifiers with one challenge as algorithms, and what is computed from two proofs (vocabulary for C64)

    As in Spec/Verifiers.v, the verifiers are the modelled ones in which [challenge_scalar] is a
    query; the theorem [C64_verifiers] states that, so these definitions are not trusted. *)
From Coq Require Import List String NArith ZArith Arith.
From Verif.Model Require Import Base Group Transcript Keys Encryption LogEquality Possession Commitment Mul Sharing.
From Verif.Spec Require Import Rom Verifiers.
Import ListNotations.
Open Scope string_scope.
Open Scope list_scope.
Open Scope nat_scope.

Definition ok {A B : Type} (m : outcome (result A B)) : bool :=
  match m with Ret (Ok _) => true | _ => false end.
Definition ok_t {A B T : Type} (m : outcome (result A B * T)) : bool :=
  match m with Ret (Ok _, _) => true | _ => false end.

Section Extractors.
Context {E : Env}.
Local Notation scalar := (Scalar E).
Local Notation element := (Element E).
Local Notation algorithm A := (strategy (Scalar E) (outcome A)).

Definition possession_verifier (p : ProofOfPossession E) (keys : list (PublicKey E)) (t : transcript)
    : algorithm (result unit VerificationError * transcript) :=
  let t := pop_append_keys (start_proof t "multi_pop") keys in
  match check_lengths "public keys" (List.length (pop_responses p)) (List.length keys) with
  | Err e => Output (Ret (Err e, t))
  | Ok _ =>
      doing (pop_recommit (pop_challenge p) (combine keys (pop_responses p)) t) (fun t =>
      asking t (fun expected =>
      Output (Ret ((if s_eqb expected (pop_challenge p) then Ok tt else Err ChallengeMismatch), t ++ [TChal "c"]))))
  end.

Definition participant_verifier (ks : PublicKeySet E) (i : nat) (p : ProofOfPossession E)
    : algorithm (result unit VerificationError) :=
  match PublicKeySet_participant_key ks i with
  | None => Output (Panic PAssert)
  | Some key => after (possession_verifier p [key] (participant_pop_transcript ks i)) (fun r => Output (Ret (fst r)))
  end.

Definition dealer_verifier (params : Params) (polynomial : list element) (p : ProofOfPossession E)
    : algorithm (result unit SharingError) :=
  if negb (List.length polynomial =? pa_threshold params) then Output (Ret (Err MalformedDealerPolynomial))
  else
    doing (mapM PublicKey_from_element polynomial) (fun keys =>
    after (possession_verifier p keys (share_poly_transcript params)) (fun r =>
    Output (Ret (match fst r with Ok _ => Ok tt | Err e => Err (InvalidDealerProof e) end)))).

Definition commitment_verifier (p : CommitmentEquivalenceProof E) (c : Ciphertext E) (receiver : PublicKey E)
    (commitment base : element) (t : transcript) : algorithm (result unit VerificationError * transcript) :=
  let t := append_element_bytes (start_proof t "commitment_equivalence") "K" (pk_bytes receiver) in
  doing (append_element t "R" (random_element c)) (fun t =>
  doing (append_element t "B" (blinded_element c)) (fun t =>
  doing (append_element t "C" commitment) (fun t =>
  let n := (- ce_challenge p)%S in
  doing (append_element t "[e_r]G" (vartime_double_mul_generator n (random_element c) (ce_randomness_response p))) (fun t =>
  doing (vartime_multi_mul [ce_value_response p; ce_randomness_response p; n]
           [generator; pk_element receiver; blinded_element c]) (fun x =>
  doing (append_element t "[e_v]G + [e_r]K" x) (fun t =>
  doing (vartime_multi_mul [ce_value_response p; ce_commitment_response p; n] [generator; base; commitment]) (fun x =>
  doing (append_element t "[e_v]G + [e_c]H" x) (fun t =>
  asking t (fun expected =>
  Output (Ret ((if s_eqb expected (ce_challenge p) then Ok tt else Err ChallengeMismatch), t ++ [TChal "c"]))))))))))).

Context (L : GroupLaws E).

(** the slope of the line through two responses *)
Definition slope (c s c' s' : scalar) : scalar := ((s - s') * s_inv L (c - c'))%S.

Definition logarithm_from (p p' : LogEqualityProof E) : scalar :=
  slope (le_challenge p) (le_response p) (le_challenge p') (le_response p').

Definition secrets_from (p p' : ProofOfPossession E) : list scalar :=
  map (fun r : scalar * scalar => slope (pop_challenge p) (fst r) (pop_challenge p') (snd r))
    (combine (pop_responses p) (pop_responses p')).

(** randomness, value and blinding *)
Definition opening_from (p p' : CommitmentEquivalenceProof E) : scalar * scalar * scalar :=
  (slope (ce_challenge p) (ce_randomness_response p) (ce_challenge p') (ce_randomness_response p'),
   slope (ce_challenge p) (ce_value_response p) (ce_challenge p') (ce_value_response p'),
   slope (ce_challenge p) (ce_commitment_response p) (ce_challenge p') (ce_commitment_response p')).

(** every second response belongs to a value *)
Fixpoint values_from (c c' : scalar) (ss ss' : list scalar) : list scalar :=
  match ss, ss' with
  | _ :: s :: ss, _ :: s' :: ss' => slope c s c' s' :: values_from c c' ss ss'
  | _, _ => []
  end.

End Extractors.
