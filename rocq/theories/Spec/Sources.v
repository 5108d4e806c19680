(** * Specification vocabulary for C65: the challenges of the backends

    The sources of challenges (Spec/Rom.v) of the shipped backends: the hash gives bytes, of which the
    backend makes a scalar. *)
From Coq.Strings Require Import Byte.
From Coq Require Import List NArith ZArith String.
From Verif.Model Require Import Base Group Transcript Backends.
From Verif.Spec Require Import Backends Rom.
Import ListNotations.
Open Scope list_scope.

(** all strings of [n] bytes *)
Definition all_bytes : list byte := map (fun n => byte_of_N_mod (N.of_nat n)) (seq 0 256).
Fixpoint byte_strings (n : nat) : list bytes :=
  match n with
  | O => [[]]
  | S n => flat_map (fun b => map (cons b) (byte_strings n)) all_bytes
  end.
Definition bytes_dec : forall a b : bytes, {a = b} + {a <> b} := list_eq_dec Byte.byte_eq_dec.

(** ristretto.rs 34-38, curve25519.rs 45-49: 64 bytes *)
Definition dalek_source (D : Dalek) (deserialize : bytes -> option (DPoint D)) : source (dalek_group D deserialize) :=
  {| digest := bytes; digest_dec := bytes_dec; digests := byte_strings 64;
     challenge_of := (fun b => d_from_bytes_mod_order_wide b) : bytes -> Scalar (dalek_group D deserialize) |}.

(** the same for the prime-order subgroup on its own *)
Definition subgroup_source {D : Dalek} (L : DalekLaws D) : source (prime_subgroup L) :=
  {| digest := bytes; digest_dec := bytes_dec; digests := byte_strings 64;
     challenge_of := (fun b => d_from_bytes_mod_order_wide b) : bytes -> Scalar (prime_subgroup L) |}.

(** src/group/mod.rs 98-103: 32 bytes that seed ChaCha *)
Definition seeded_source (C : Curve) {ChaCha : Type} (from_seed : bytes -> ChaCha) (chacha_fill : nat -> ChaCha -> bytes * ChaCha)
    : source (Generic C) :=
  {| digest := bytes; digest_dec := bytes_dec; digests := byte_strings 32;
     challenge_of := (fun b => fst (c_random ChaCha chacha_fill (from_seed b))) : bytes -> Scalar (Generic C) |}.
