(** * Specification vocabulary for C55: the same program with another hash function *)
From Coq Require Import List String.
From Verif.Model Require Import Base Group Transcript.
Import ListNotations.
Open Scope string_scope.
Open Scope list_scope.

(** the backend, RNG and build of [E], with the Fiat-Shamir hash [o] *)
Definition hashed_by (E : Env) (o : transcript -> string -> Scalar E) : Env :=
  {| env_group := env_group E; Rng := Rng E; generate_scalar := @generate_scalar E;
     fill_bytes := @fill_bytes E; oracle := o; sha256 := @sha256 E;
     len_estimate := @len_estimate E; env_build := env_build E |}.

(** hash inputs that start with the messages [t0] *)
Definition extends (t0 q : transcript) : Prop := exists rest, q = t0 ++ rest.

(** hash inputs of the protocol named [label] run in the context [t] *)
Definition domain (t : transcript) (label : string) : transcript :=
  t ++ [TMsg "dom-sep" (str_bytes label)].

(** [o] answers like the hash of [E] on all inputs that start with [t0] *)
Definition agrees (E : Env) (o : transcript -> string -> Scalar E) (t0 : transcript) : Prop :=
  forall q l, extends t0 q -> o q l = @oracle E q l.

(** [o] answers like the hash of [E] except, possibly, on inputs that start with [t0] *)
Definition agrees_outside (E : Env) (o : transcript -> string -> Scalar E) (t0 : transcript) : Prop :=
  forall q l, ~ extends t0 q -> o q l = @oracle E q l.

(** names of the protocols (start_proof calls) and of the contexts (Transcript::new calls) *)
Definition protocol_labels : list string :=
  ["log_eq"; "multi_pop"; "multi_ring_enc"; "encryption_range_proof"; "sum_of_squares";
   "commitment_equivalence"; "decryption_with_custom_key"].
Definition context_labels : list string :=
  ["zero_encryption"; "bool_encryption"; "ciphertext_range"; "choice_encryption_sum";
   "encrypted_choice_ranges"; "quadratic_voting_variant"; "quadratic_voting_credit_range";
   "quadratic_voting_credit_equiv"; "elgamal_share_poly"; "elgamal_participant_pop";
   "elgamal_decryption_share"].
