(** * Specification vocabulary for threshold encryption (C29-C35) *)
From Coq Require Import List NArith ZArith String.
From Verif.Model Require Import Base Group Transcript Keys Encryption LogEquality Possession Sharing.
Import ListNotations.
Open Scope string_scope.
Open Scope list_scope.

(** value at [x] of the polynomial with coefficients [p], constant term first *)
Fixpoint peval {G : Group} (p : list (Scalar G)) (x : Scalar G) : Scalar G :=
  match p with
  | [] => 0%S
  | a :: p' => (a + x * peval p' x)%S
  end.

(** Participant [i] (0-based) gets the value of the secret polynomial at the scalar [i + 1]
    (src/sharing/mod.rs 53-60, participant.rs 64-82). *)
Definition node {G : Group} (i : nat) : Scalar G := s_of_u64 (N.of_nat (i + 1)).

(** Parameters which [Params::new] accepts; [n] is a 64-bit [usize]. *)
Definition params_ok (params : Params) : Prop :=
  (1 <= pa_threshold params <= pa_shares params)%nat /\ (N.of_nat (pa_shares params) < 2 ^ 64)%N.

(** The public polynomial [ [a_0]G, [a_1]G, ... ] *)
Definition in_exponent {G : Group} (p : list (Scalar G)) : list (Element G) :=
  map (fun a => (generator * a)%E) p.

(** [keys] are the participant keys of the polynomial [p]: key [i] is [p(i+1)]G. *)
Definition keys_of_poly {E : Env} (p : list (Scalar E)) (keys : list (PublicKey E)) : Prop :=
  forall i key, nth_error keys i = Some key -> pk_element key = (generator * peval p (node i))%E.

(** A decryption share for [c] of participant [fst s] w.r.t. the secret polynomial [p] *)
Definition valid_share {E : Env} (p : list (Scalar E)) (c : Ciphertext E)
    (s : nat * VerifiableDecryption E) : Prop :=
  vd_dh_element (snd s) = (random_element c * peval p (node (fst s)))%E.

(** Hash input prefixes fixed by the key set and the participant's index *)
Definition share_context {E : Env} (domain : string) (ks : PublicKeySet E) (i : nat) : transcript :=
  [TMsg "dom-sep" (str_bytes domain);
   TMsg "n" (u64_le_bytes (N.of_nat (pa_shares (ks_params ks))));
   TMsg "t" (u64_le_bytes (N.of_nat (pa_threshold (ks_params ks))));
   TMsg "K" (pk_bytes (ks_shared_key ks));
   TMsg "i" (u64_le_bytes (N.of_nat i))].
