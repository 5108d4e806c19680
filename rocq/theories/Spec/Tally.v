(** * Specification vocabulary for tallying (C54) *)
From Coq Require Import List NArith ZArith String.
From Verif.Model Require Import Base Group Transcript Keys Encryption LogEquality Sharing.
From Verif.Spec Require Import Encryption LogEquality Sigma Sharing.
Import ListNotations.
Open Scope string_scope.
Open Scope list_scope.

Section Tally.
Context {E : Env}.

(** What the users of the crate do with the ciphertexts returned by the verifiers: start from zero
    ciphertexts and add each ballot to the totals of its options (src/encryption.rs 174-178). *)
Definition tally (options : nat) (ballots : list (list (Ciphertext E))) : list (Ciphertext E) :=
  fold_left (fun totals cts => map (fun p => Ciphertext_add (fst p) (snd p)) (combine totals cts))
            ballots (repeat Ciphertext_zero options).

(** the ciphertexts of one ballot decrypt to these numbers *)
Definition votes_of (sk : SecretKey E) (votes : list N) (cts : list (Ciphertext E)) : Prop :=
  Forall2 (fun v ct => decrypt_to_element sk ct = times v generator) votes cts.

(** votes for option [i], over all ballots *)
Definition column (i : nat) (votes : list (list N)) : N := fold_right N.add 0%N (map (fun vs => nth i vs 0%N) votes).

(** the votes of a single choice of option [k] *)
Definition choice_votes (options k : nat) : list N := map (fun i => if Nat.eqb i k then 1%N else 0%N) (seq 0 options).

(** Cheating in the proof of a decryption share of participant [i] *)
Definition share_hit (ks : PublicKeySet E) (ct : Ciphertext E) (i : nat) (dh : Element E) : Prop :=
  exists key base X0 X1 q,
    nth_error (ks_participant_keys ks) i = Some key /\
    PublicKey_from_element (random_element ct) = Ret base /\
    le_hashed (share_context "elgamal_decryption_share" ks i) base (pk_element key) dh X0 X1 q /\
    (exists s, le_answers (random_element ct) (pk_element key) dh X0 X1 (oracle q "c") s) /\
    forall c s, le_answers (random_element ct) (pk_element key) dh X0 X1 c s -> oracle q "c" = c.

(** a share for [ct] accepted by the key set's verifier *)
Definition accepted_share (ks : PublicKeySet E) (ct : Ciphertext E) (s : nat * VerifiableDecryption E) : Prop :=
  exists cand pf, PublicKeySet_verify_share ks cand ct (fst s) pf = Ret (Ok (snd s)).

End Tally.
