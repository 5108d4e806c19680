(** * Specification of encrypted choices (C41, C42) *)
From Coq Require Import List NArith ZArith String.
From Verif.Model Require Import Base Group Transcript Keys Encryption LogEquality Ring.
From Verif.Spec Require Import Encryption LogEquality Sigma Ring.
Import ListNotations.
Open Scope string_scope.
Open Scope list_scope.
Open Scope nat_scope.

Section Spec.
Context {E : Env}.

Definition bit_element (b : bool) : Element E := if b then generator else identity.

(** componentwise sum of ciphertexts *)
Definition ct_total (cts : list (Ciphertext E)) : Ciphertext E :=
  {| random_element := fold_right e_add identity (map random_element cts);
     blinded_element := fold_right e_add identity (map blinded_element cts) |}.

(** Cheating in the ring of the [k]-th ciphertext: both challenges of a ring over the values
    [0], [G] are the only ones which the commitments absorbed before them can answer. *)
Definition bit_hit (t : transcript) (K : PublicKey E) (cts : list (Ciphertext E)) (k : nat) : Prop :=
  exists ct rt Ts T q, nth_error cts k = Some ct /\
    ring_local (ring_context t K) ct k rt /\ nth_error Ts k = Some T /\ ring_common (ring_context t K) Ts q /\
    ring_all_hits rt (pk_element K) ct 0 (oracle q "c") [identity; generator] T.

(** Cheating in a proof of log equality of [P0], [P1]. *)
Definition log_hit (t : transcript) (K : PublicKey E) (P0 P1 : Element E) : Prop :=
  exists X0 X1 q, le_hashed t K P0 P1 X0 X1 q /\
    (exists s, le_answers (pk_element K) P0 P1 X0 X1 (oracle q "c") s) /\
    forall c s, le_answers (pk_element K) P0 P1 X0 X1 c s -> oracle q "c" = c.

Definition choice_sum_context : transcript := [TMsg "dom-sep" (str_bytes "choice_encryption_sum")].
Definition choice_ranges_context : transcript := [TMsg "dom-sep" (str_bytes "encrypted_choice_ranges")].

(** exactly the [k]-th ciphertext encrypts one, all others zero *)
Definition one_hot (sk : SecretKey E) (cts : list (Ciphertext E)) (k : nat) : Prop :=
  k < List.length cts /\
  forall i ct, nth_error cts i = Some ct -> decrypt_to_element sk ct = bit_element (Nat.eqb i k).

End Spec.
