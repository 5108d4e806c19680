(** * Proof of equality of discrete logs: src/proofs/log_equality.rs, with its uses in
    src/keys/impls.rs (zero encryption) and src/decryption.rs. *)
From Coq Require Import List NArith Bool String.
From Verif.Model Require Import Base Group Transcript Keys Encryption.
Import ListNotations.
Open Scope string_scope.
Open Scope list_scope.

Section LogEqualityTypes.
Context {G : Group}.
Local Notation scalar := (Scalar G).
Local Notation element := (Element G).

(** src/proofs/log_equality.rs 96-101 *)
Record LogEqualityProof : Type := mkLogEqualityProof {
  le_challenge : scalar;
  le_response : scalar
}.

(** src/decryption.rs 75-78; [from_element] (81-83) is the constructor *)
Record VerifiableDecryption : Type := mkVerifiableDecryption { vd_dh_element : element }.

(** src/decryption.rs 162-164; conversions 210-219 are projections / constructor *)
Record CandidateDecryption : Type := mkCandidateDecryption { cd_inner : VerifiableDecryption }.

End LogEqualityTypes.
Arguments LogEqualityProof : clear implicits.
Arguments VerifiableDecryption : clear implicits.
Arguments CandidateDecryption : clear implicits.

Section LogEquality.
Context {E : Env}.
Local Notation scalar := (Scalar E).
Local Notation element := (Element E).
Local Notation rng := (Rng E).
Local Notation LogEqualityProof := (LogEqualityProof E).
Local Notation VerifiableDecryption := (VerifiableDecryption E).
Local Notation CandidateDecryption := (CandidateDecryption E).

(** src/proofs/log_equality.rs 114-139 *)
Definition LogEqualityProof_new (log_base : PublicKey E) (secret : SecretKey E)
    (powers : element * element) (t : transcript) (r : rng)
    : outcome (LogEqualityProof * transcript * rng) :=
  let t := start_proof t "log_eq" in
  let t := append_element_bytes t "K" (pk_bytes log_base) in
  t <- append_element t "[r]G" (fst powers) ;;
  t <- append_element t "[r]K" (snd powers) ;;
  let '(x, r) := SecretKey_generate r in
  t <- append_element t "[x]G" (mul_generator x) ;;
  t <- append_element t "[x]K" (pk_element log_base * x)%E ;;
  let '(c, t) := challenge_scalar t "c" in
  let response := (c * secret + x)%S in
  Ret ({| le_challenge := c; le_response := response |}, t, r).

(** src/proofs/log_equality.rs 153-180 *)
Definition LogEqualityProof_verify (p : LogEqualityProof) (log_base : PublicKey E)
    (powers : element * element) (t : transcript)
    : outcome (result unit VerificationError * transcript) :=
  let commitment0 := vartime_double_mul_generator (- le_challenge p)%S (fst powers) (le_response p) in
  commitment1 <- vartime_multi_mul [(- le_challenge p)%S; le_response p]
                                   [snd powers; pk_element log_base] ;;
  let t := start_proof t "log_eq" in
  let t := append_element_bytes t "K" (pk_bytes log_base) in
  t <- append_element t "[r]G" (fst powers) ;;
  t <- append_element t "[r]K" (snd powers) ;;
  t <- append_element t "[x]G" commitment0 ;;
  t <- append_element t "[x]K" commitment1 ;;
  let '(expected, t) := challenge_scalar t "c" in
  Ret ((if s_eqb expected (le_challenge p) then Ok tt else Err ChallengeMismatch), t).

(** src/proofs/log_equality.rs 184-189 *)
Definition LogEqualityProof_to_bytes (p : LogEqualityProof) : bytes :=
  (serialize_scalar (le_challenge p) ++ serialize_scalar (le_response p))%list.

(** src/proofs/log_equality.rs 193-204 *)
Definition LogEqualityProof_from_bytes (b : bytes) : option LogEqualityProof :=
  if negb (Nat.eqb (List.length b) (2 * SCALAR_SIZE E)) then None
  else
    match deserialize_scalar (firstn (SCALAR_SIZE E) b) with
    | None => None
    | Some c =>
        match deserialize_scalar (skipn (SCALAR_SIZE E) b) with
        | None => None
        | Some s => Some {| le_challenge := c; le_response := s |}
        end
    end.

(** ** Zero encryption *)

(** src/keys/impls.rs 31-52 *)
Definition encrypt_zero (pk : PublicKey E) (r : rng)
    : outcome (Ciphertext E * LogEqualityProof * rng) :=
  let '(random_scalar, r) := SecretKey_generate r in
  let random_el := mul_generator random_scalar in
  let blinded_el := (pk_element pk * random_scalar)%E in
  '(proof, _, r) <- LogEqualityProof_new pk random_scalar (random_el, blinded_el)
                      (transcript_new "zero_encryption") r ;;
  Ret ({| random_element := random_el; blinded_element := blinded_el |}, proof, r).

(** src/keys/impls.rs 59-69 *)
Definition verify_zero (pk : PublicKey E) (c : Ciphertext E) (p : LogEqualityProof)
    : outcome (result unit VerificationError) :=
  '(res, _) <- LogEqualityProof_verify p pk (random_element c, blinded_element c)
                 (transcript_new "zero_encryption") ;;
  Ret res.

(** ** Verifiable decryption: src/decryption.rs *)

(** src/decryption.rs 89-110 *)
Definition VerifiableDecryption_new (c : Ciphertext E) (keys : Keypair E) (t : transcript) (r : rng)
    : outcome (VerifiableDecryption * LogEqualityProof * transcript * rng) :=
  let t := start_proof t "decryption_with_custom_key" in
  let dh_element := (random_element c * kp_secret keys)%E in
  base <- PublicKey_from_element (random_element c) ;;
  '(proof, t, r) <- LogEqualityProof_new base (kp_secret keys)
                      (pk_element (kp_public keys), dh_element) t r ;;
  Ret ({| vd_dh_element := dh_element |}, proof, t, r).

(** src/decryption.rs 118-122 *)
Definition VerifiableDecryption_to_bytes (d : VerifiableDecryption) : outcome bytes :=
  serialize_element (vd_dh_element d).

(** src/decryption.rs 129-131 *)
Definition VerifiableDecryption_decrypt_to_element (d : VerifiableDecryption) (c : Ciphertext E)
    : element := (blinded_element c - vd_dh_element d)%E.

(** src/decryption.rs 138-144 *)
Definition VerifiableDecryption_decrypt (d : VerifiableDecryption) (c : Ciphertext E)
    (tbl : DiscreteLogTable) : outcome (option N) :=
  DiscreteLogTable_get tbl (VerifiableDecryption_decrypt_to_element d c).

(** src/decryption.rs 168-177 *)
Definition CandidateDecryption_from_bytes (b : bytes) : option CandidateDecryption :=
  if Nat.eqb (List.length b) (ELEMENT_SIZE E) then
    match deserialize_element b with
    | Some e => Some {| cd_inner := {| vd_dh_element := e |} |}
    | None => None
    end
  else None.

(** src/decryption.rs 189-205 *)
Definition CandidateDecryption_verify (d : CandidateDecryption) (c : Ciphertext E)
    (key : PublicKey E) (p : LogEqualityProof) (t : transcript)
    : outcome (result VerifiableDecryption VerificationError * transcript) :=
  let t := start_proof t "decryption_with_custom_key" in
  let dh_element := vd_dh_element (cd_inner d) in
  base <- PublicKey_from_element (random_element c) ;;
  '(res, t) <- LogEqualityProof_verify p base (pk_element key, dh_element) t ;;
  Ret (match res with
       | Ok _ => Ok (cd_inner d)
       | Err e => Err e
       end, t).

End LogEquality.
