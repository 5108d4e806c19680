(** * Keys: src/keys/mod.rs *)
From Coq Require Import List NArith Bool.
From Verif.Model Require Import Base Group Transcript.
Import ListNotations.

Section KeysTypes.
Context {G : Group}.
Local Notation scalar := (Scalar G).
Local Notation element := (Element G).

(** src/keys/mod.rs 17: newtype over a scalar.  Zeroization on drop is not modelled. *)
Definition SecretKey : Type := scalar.

(** src/keys/mod.rs 122-125 *)
Record PublicKey : Type := mkPublicKey {
  pk_bytes : bytes;
  pk_element : element
}.

(** src/keys/mod.rs 260-263 *)
Record Keypair : Type := mkKeypair {
  kp_secret : SecretKey;
  kp_public : PublicKey
}.

End KeysTypes.
Arguments SecretKey : clear implicits.
Arguments PublicKey : clear implicits.
Arguments Keypair : clear implicits.

Section Keys.
Context {E : Env}.
Local Notation scalar := (Scalar E).
Local Notation element := (Element E).
Local Notation rng := (Rng E).
Local Notation SecretKey := (SecretKey E).
Local Notation PublicKey := (PublicKey E).
Local Notation Keypair := (Keypair E).

(** src/keys/mod.rs 52-54 *)
Definition SecretKey_generate (r : rng) : SecretKey * rng := generate_scalar r.

(** src/keys/mod.rs 58-63 *)
Definition SecretKey_from_bytes (b : bytes) : option SecretKey :=
  if Nat.eqb (length b) (SCALAR_SIZE E) then deserialize_scalar b else None.

(** src/keys/mod.rs 71-77 *)
Definition SecretKey_add (a b : SecretKey) : SecretKey := s_add a b.
(** src/keys/mod.rs 85-91 *)
Definition SecretKey_sub (a b : SecretKey) : SecretKey := s_sub a b.
(** src/keys/mod.rs 99-113: [Mul<&Scalar>] for [SecretKey] and [&SecretKey] *)
Definition SecretKey_mul (a : SecretKey) (k : scalar) : SecretKey := s_mul a k.

(** src/keys/mod.rs 145-152: equality compares the stored bytes *)
Definition PublicKey_eqb (a b : PublicKey) : bool := bytes_eqb (pk_bytes a) (pk_bytes b).

(** src/keys/mod.rs 208-215 *)
Inductive PublicKeyConversionError : Type :=
| InvalidByteSize
| InvalidGroupElement
| IdentityKey.

(** src/keys/mod.rs 161-176 *)
Definition PublicKey_from_bytes (b : bytes) : result PublicKey PublicKeyConversionError :=
  if negb (Nat.eqb (length b) (ELEMENT_SIZE E)) then Err InvalidByteSize
  else match deserialize_element b with
       | None => Err InvalidGroupElement
       | Some e =>
           if is_identity e then Err IdentityKey
           else Ok {| pk_bytes := b; pk_element := e |}
       end.

(** src/keys/mod.rs 178-185 *)
Definition PublicKey_from_element (e : element) : outcome PublicKey :=
  b <- serialize_element e ;;
  Ret {| pk_bytes := b; pk_element := e |}.

(** src/keys/mod.rs 198-203 *)
Definition PublicKey_from_secret (sk : SecretKey) : outcome PublicKey :=
  PublicKey_from_element (mul_generator sk).

(** src/keys/mod.rs 232-239 *)
Definition PublicKey_add (a b : PublicKey) : outcome PublicKey :=
  PublicKey_from_element (pk_element a + pk_element b)%E.

(** src/keys/mod.rs 241-248 *)
Definition PublicKey_mul (a : PublicKey) (k : scalar) : outcome PublicKey :=
  PublicKey_from_element (pk_element a * k)%E.

(** src/keys/mod.rs 250-256 *)
Definition PublicKey_mul_u64 (a : PublicKey) (k : N) : outcome PublicKey :=
  PublicKey_mul a (s_of_u64 k).

(** src/keys/mod.rs 309-316 *)
Definition Keypair_from_secret (sk : SecretKey) : outcome Keypair :=
  pk <- PublicKey_from_secret sk ;;
  Ret {| kp_secret := sk; kp_public := pk |}.

(** src/keys/mod.rs 285-291 *)
Definition Keypair_generate (r : rng) : outcome (Keypair * rng) :=
  let '(sk, r) := SecretKey_generate r in
  kp <- Keypair_from_secret sk ;;
  Ret (kp, r).

(** src/keys/mod.rs 318-327 *)
Definition Keypair_mul (kp : Keypair) (k : scalar) : outcome Keypair :=
  pk <- PublicKey_mul (kp_public kp) k ;;
  Ret {| kp_secret := SecretKey_mul (kp_secret kp) k; kp_public := pk |}.

End Keys.
