(** * Proof of possession of secret keys: src/proofs/possession.rs *)
From Coq Require Import List NArith Bool String.
From Verif.Model Require Import Base Group Transcript Keys.
Import ListNotations.
Open Scope string_scope.
Open Scope list_scope.

Section PossessionTypes.
Context {G : Group}.
Local Notation scalar := (Scalar G).
Local Notation element := (Element G).

(** src/proofs/possession.rs 71-76 *)
Record ProofOfPossession : Type := mkProofOfPossession {
  pop_challenge : scalar;
  pop_responses : list scalar
}.

End PossessionTypes.
Arguments ProofOfPossession : clear implicits.

Section Possession.
Context {E : Env}.
Local Notation scalar := (Scalar E).
Local Notation element := (Element E).
Local Notation rng := (Rng E).
Local Notation ProofOfPossession := (ProofOfPossession E).

(** src/proofs/possession.rs 101-104 and 142-145 *)
Definition pop_append_keys (t : transcript) (keys : list (PublicKey E)) : transcript :=
  fold_left (fun t k => append_element_bytes t "K" (pk_bytes k)) keys t.

(** src/proofs/possession.rs 106-113 *)
Fixpoint pop_commit (key_count : nat) (t : transcript) (r : rng)
    : outcome (list (SecretKey E) * transcript * rng) :=
  match key_count with
  | O => Ret ([], t, r)
  | S n =>
      let '(randomness, r) := SecretKey_generate r in
      t <- append_element t "R" (mul_generator randomness) ;;
      '(rest, t, r) <- pop_commit n t r ;;
      Ret (randomness :: rest, t, r)
  end.

(** src/proofs/possession.rs 93-128 *)
Definition ProofOfPossession_from_keys (secrets : list (SecretKey E))
    (public_keys : list (PublicKey E)) (t : transcript) (r : rng)
    : outcome (ProofOfPossession * transcript * rng) :=
  let t := start_proof t "multi_pop" in
  let t := pop_append_keys t public_keys in
  '(random_scalars, t, r) <- pop_commit (List.length public_keys) t r ;;
  let '(c, t) := challenge_scalar t "c" in
  let responses :=
    map (fun p : SecretKey E * SecretKey E =>
           let '(log, randomness) := p in
           SecretKey_add randomness (SecretKey_mul log c))
        (combine secrets random_scalars) in
  Ret ({| pop_challenge := c; pop_responses := responses |}, t, r).

(** src/proofs/possession.rs 80-91 *)
Definition ProofOfPossession_new (keypairs : list (Keypair E)) (t : transcript) (r : rng)
    : outcome (ProofOfPossession * transcript * rng) :=
  ProofOfPossession_from_keys (map kp_secret keypairs) (map kp_public keypairs) t r.

(** src/proofs/possession.rs 148-155 *)
Fixpoint pop_recommit (c : scalar) (items : list (PublicKey E * scalar)) (t : transcript)
    : outcome transcript :=
  match items with
  | [] => Ret t
  | (k, s) :: items' =>
      let random_el := vartime_double_mul_generator (- c)%S (pk_element k) s in
      t <- append_element t "R" random_el ;;
      pop_recommit c items' t
  end.

(** src/proofs/possession.rs 135-163 *)
Definition ProofOfPossession_verify (p : ProofOfPossession) (public_keys : list (PublicKey E))
    (t : transcript) : outcome (result unit VerificationError * transcript) :=
  let t := start_proof t "multi_pop" in
  let t := pop_append_keys t public_keys in
  match check_lengths "public keys" (List.length (pop_responses p)) (List.length public_keys) with
  | Err e => Ret (Err e, t)
  | Ok _ =>
      t <- pop_recommit (pop_challenge p) (combine public_keys (pop_responses p)) t ;;
      let '(expected, t) := challenge_scalar t "c" in
      Ret ((if s_eqb expected (pop_challenge p) then Ok tt else Err ChallengeMismatch), t)
  end.

End Possession.
