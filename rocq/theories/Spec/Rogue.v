(** * Specification vocabulary for C86: keys chosen after the keys of the others

    [PublicKeySet::from_participants] (src/sharing/key_set.rs 80-145) gets only public keys.  A group of participants that
    announces its keys last may compute them from the keys of the others. *)
From Coq Require Import List NArith ZArith.
From Verif.Model Require Import Base Group Transcript Keys Sharing.
From Verif.Spec Require Import Encryption Sharing Coalition.
Import ListNotations.
Open Scope list_scope.

Section Rogue.
Context {E : Env} (L : GroupLaws E).
Local Notation scalar := (Scalar E).
Local Notation element := (Element E).

(** the key of participant [i], computed from the keys of the others and the secret key [x] that the group wants; there are
    no secrets of others here *)
Definition rogue_key (others : list (nat * PublicKey E)) (x : scalar) (i : nat) : element :=
  evaluate (interpolate L ((0%S, (generator * x)%E) :: map (fun p => (node (fst p), pk_element (snd p))) others)) (node i).

(** ** the secret key of participant [j] from the secret keys of the other participants and of the shared key *)

(** 0 is the shared key and [i + 1] is participant [i] *)
Definition point (i : nat) : scalar := s_of_u64 (N.of_nat i).
Definition known (n j : nat) : list nat := remove Nat.eq_dec (S j) (seq 0 (S n)).
Definition product (l : list scalar) : scalar := fold_right s_mul 1%S l.
Definition weight (n j i : nat) : scalar :=
  let rest := remove Nat.eq_dec i (known n j) in
  (product (map (fun k => point k - point (S j))%S rest) * s_inv L (product (map (fun k => point k - point i)%S rest)))%S.
Definition recover_share (n j : nat) (x : scalar) (shares : nat -> scalar) : scalar :=
  fold_right s_add 0%S
    (map (fun i => (match i with O => x | S i' => shares i' end * weight n j i)%S) (known n j)).
End Rogue.
