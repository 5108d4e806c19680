(** * ElGamal encryption: src/encryption.rs and the plain encryption methods of
    src/keys/impls.rs *)
From Coq Require Import List NArith Bool.
From Verif.Model Require Import Base Group Transcript Keys.
Import ListNotations.

Section EncryptionTypes.
Context {G : Group}.
Local Notation scalar := (Scalar G).
Local Notation element := (Element G).

(** src/encryption.rs 96-101; [Ciphertext_from_elements] (115-120) is the constructor *)
Record Ciphertext : Type := mkCiphertext {
  random_element : element;
  blinded_element : element
}.

(** src/encryption.rs 303-306 *)
Record ExtendedCiphertext : Type := mkExtendedCiphertext {
  ext_inner : Ciphertext;
  ext_random_scalar : SecretKey G
}.

(** src/encryption.rs 383-386; the value type [V] is [u64] or the scalar type *)
Record CiphertextWithValue (V : Type) : Type := mkCiphertextWithValue {
  cwv_ext : ExtendedCiphertext;
  cwv_value : V
}.
Arguments mkCiphertextWithValue {V}.
Arguments cwv_ext {V}.
Arguments cwv_value {V}.

End EncryptionTypes.
Arguments Ciphertext : clear implicits.
Arguments ExtendedCiphertext : clear implicits.
Arguments CiphertextWithValue : clear implicits.
Arguments mkCiphertextWithValue {G V}.
Arguments cwv_ext {G V}.
Arguments cwv_value {G V}.

Section Encryption.
Context {E : Env}.
Local Notation scalar := (Scalar E).
Local Notation element := (Element E).
Local Notation rng := (Rng E).
Local Notation Ciphertext := (Ciphertext E).
Local Notation ExtendedCiphertext := (ExtendedCiphertext E).
Local Notation CiphertextWithValue := (CiphertextWithValue E).

(** src/encryption.rs 123-128 *)
Definition Ciphertext_zero : Ciphertext :=
  {| random_element := identity; blinded_element := identity |}.

(** src/encryption.rs 132-141 *)
Definition Ciphertext_non_blinded (v : scalar) : Ciphertext :=
  {| random_element := identity; blinded_element := mul_generator v |}.

(** src/encryption.rs 155-160 *)
Definition Ciphertext_to_bytes (c : Ciphertext) : outcome bytes :=
  b1 <- serialize_element (random_element c) ;;
  b2 <- serialize_element (blinded_element c) ;;
  Ret (b1 ++ b2).

(** src/encryption.rs 163-178 ([Add], [AddAssign]) *)
Definition Ciphertext_add (a b : Ciphertext) : Ciphertext :=
  {| random_element := random_element a + random_element b;
     blinded_element := blinded_element a + blinded_element b |}.

(** src/encryption.rs 180-195 ([Sub], [SubAssign]) *)
Definition Ciphertext_sub (a b : Ciphertext) : Ciphertext :=
  {| random_element := random_element a - random_element b;
     blinded_element := blinded_element a - blinded_element b |}.

(** src/encryption.rs 197-206 *)
Definition Ciphertext_mul (a : Ciphertext) (k : scalar) : Ciphertext :=
  {| random_element := random_element a * k;
     blinded_element := blinded_element a * k |}.

(** src/encryption.rs 208-215 *)
Definition Ciphertext_mul_u64 (a : Ciphertext) (k : N) : Ciphertext :=
  Ciphertext_mul a (s_of_u64 k).

(** src/encryption.rs 217-226 *)
Definition Ciphertext_neg (a : Ciphertext) : Ciphertext :=
  {| random_element := - random_element a;
     blinded_element := - blinded_element a |}.

(** ** Lookup table: src/encryption.rs 259-298

    The [HashMap<Vec<u8>, u64>] is an association list; a later insertion of the
    same key shadows the earlier one, as [collect] into a map does. *)
Definition DiscreteLogTable : Type := list (bytes * N).

(** src/encryption.rs 267-283 *)
Fixpoint DiscreteLogTable_insert_all (values : list N) (acc : DiscreteLogTable)
    : outcome DiscreteLogTable :=
  match values with
  | [] => Ret acc
  | i :: values' =>
      b <- serialize_element (@vartime_mul_generator E (s_of_u64 i)) ;;
      DiscreteLogTable_insert_all values' ((b, i) :: acc)
  end.

Definition DiscreteLogTable_new (values : list N) : outcome DiscreteLogTable :=
  DiscreteLogTable_insert_all (filter (fun v => negb (N.eqb v 0)) values) [].

(** src/encryption.rs 287-297 *)
Definition DiscreteLogTable_get (t : DiscreteLogTable) (e : element) : outcome (option N) :=
  if is_identity e then Ret (Some 0%N)
  else
    b <- serialize_element e ;;
    Ret (match find (fun p => bytes_eqb (fst p) b) t with
         | Some p => Some (snd p)
         | None => None
         end).

(** src/encryption.rs 310-327 *)
Definition ExtendedCiphertext_new (value : element) (receiver : PublicKey E) (r : rng)
    : ExtendedCiphertext * rng :=
  let '(random_scalar, r) := SecretKey_generate r in
  let random_el := mul_generator random_scalar in
  let dh_element := (pk_element receiver * random_scalar)%E in
  ({| ext_inner := {| random_element := random_el;
                      blinded_element := value + dh_element |};
      ext_random_scalar := random_scalar |}, r).

(** src/encryption.rs 329-334 *)
Definition ExtendedCiphertext_zero : ExtendedCiphertext :=
  {| ext_inner := Ciphertext_zero; ext_random_scalar := s_of_u64 0 |}.

(** src/encryption.rs 348-364 ([Add], [AddAssign]) *)
Definition ExtendedCiphertext_add (a b : ExtendedCiphertext) : ExtendedCiphertext :=
  {| ext_inner := Ciphertext_add (ext_inner a) (ext_inner b);
     ext_random_scalar := SecretKey_add (ext_random_scalar a) (ext_random_scalar b) |}.

(** src/encryption.rs 366-375 *)
Definition ExtendedCiphertext_sub (a b : ExtendedCiphertext) : ExtendedCiphertext :=
  {| ext_inner := Ciphertext_sub (ext_inner a) (ext_inner b);
     ext_random_scalar := SecretKey_sub (ext_random_scalar a) (ext_random_scalar b) |}.

(** src/encryption.rs 388-392 and 424-426 *)
Definition cwv_inner {V : Type} (c : CiphertextWithValue V) : Ciphertext := ext_inner (cwv_ext c).
(** src/encryption.rs 432-434 *)
Definition cwv_randomness {V : Type} (c : CiphertextWithValue V) : SecretKey E :=
  ext_random_scalar (cwv_ext c).

(** src/encryption.rs 403-407, for [V] with conversion [into] to scalars *)
Definition CiphertextWithValue_new {V : Type} (into : V -> scalar) (value : V)
    (receiver : PublicKey E) (r : rng) : CiphertextWithValue V * rng :=
  let '(ext, r) := ExtendedCiphertext_new (mul_generator (into value)) receiver r in
  ({| cwv_ext := ext; cwv_value := value |}, r).

(** src/encryption.rs 410-415 *)
Definition CiphertextWithValue_generalize {V : Type} (into : V -> scalar)
    (c : CiphertextWithValue V) : CiphertextWithValue scalar :=
  {| cwv_ext := cwv_ext c; cwv_value := into (cwv_value c) |}.

(** ** src/keys/impls.rs *)

(** src/keys/impls.rs 16-23 *)
Definition encrypt (pk : PublicKey E) (value : scalar) (r : rng) : Ciphertext * rng :=
  let '(ext, r) := ExtendedCiphertext_new (mul_generator value) pk r in
  (ext_inner ext, r).

(** src/keys/impls.rs 26-28 *)
Definition encrypt_element (pk : PublicKey E) (value : element) (r : rng) : Ciphertext * rng :=
  let '(ext, r) := ExtendedCiphertext_new value pk r in
  (ext_inner ext, r).

(** src/keys/impls.rs 160-163 *)
Definition decrypt_to_element (sk : SecretKey E) (c : Ciphertext) : element :=
  (blinded_element c - random_element c * sk)%E.

(** src/keys/impls.rs 170-176 *)
Definition decrypt (sk : SecretKey E) (c : Ciphertext) (t : DiscreteLogTable) : outcome (option N) :=
  DiscreteLogTable_get t (decrypt_to_element sk c).

End Encryption.
