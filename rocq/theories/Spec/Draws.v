(** * How much randomness an operation draws *)
From Coq Require Import List NArith.
From Verif.Model Require Import Base Group Transcript Range.
Import ListNotations.

(** The state of the RNG after [n] calls of [generate_scalar]. *)
Fixpoint draws {E : Env} (n : nat) (r : Rng E) : Rng E :=
  match n with
  | O => r
  | S n' => draws n' (snd (generate_scalar r))
  end.

(** Scalars drawn for one encryption with a range proof: the blinding of the ciphertext,
    the blindings of all partial ciphertexts but the last, and one scalar per item of
    each ring.  Sizes of the rings are public. *)
Definition range_draws (d : RangeDecomposition) : nat :=
  List.length d + list_sum (map (fun spec => N.to_nat (rs_size spec)) d).
