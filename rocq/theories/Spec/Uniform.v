(** * Distribution of the values a randomized function returns (C63)

    The model's RNG is arbitrary, so distributions are described through the scalars drawn from it. *)
From Coq Require Import List NArith.
From Verif.Model Require Import Base Group Transcript Keys Encryption Ring Range Quadratic.
From Verif.Spec Require Import Encryption Ring Range.
Import ListNotations.

Section Spec.
Context {E : Env}.
Local Notation scalar := (Scalar E).

(** the next [n] scalars of an RNG *)
Fixpoint draws (n : nat) (r : Rng E) : list scalar * Rng E :=
  match n with
  | O => ([], r)
  | S n' => let '(x, r) := generate_scalar r in
            let '(xs, r) := draws n' r in (x :: xs, r)
  end.

(** [run] draws exactly [n] scalars, whatever the RNG yields.  Everything it returns satisfies [P], and
    everything that satisfies [P] is returned for one and only one sequence of [n] scalars.  So, for
    independent uniform scalars, the result is uniformly distributed over [P]. *)
Definition uniform_over {A : Type} (n : nat) (run : Rng E -> outcome (A * Rng E)) (P : A -> Prop) : Prop :=
  (forall r, exists a, run r = Ret (a, snd (draws n r)) /\ P a) /\
  (forall a, P a -> exists xs, List.length xs = n /\
     forall r, (exists r', run r = Ret (a, r')) <-> fst (draws n r) = xs).

(** the ciphertexts of a range proof hide the digits [idx] of a value, except for the last digit, whose
    ciphertext is not part of the proof *)
Definition hides_digits (K : PublicKey E) (d : RangeDecomposition) (idx : list N) (partial : list (Ciphertext E)) : Prop :=
  Forall2 (fun it c => exists x, encrypts K c (times (fst it * rs_step (snd it)) generator) x)
    (removelast (combine idx d)) partial.

(** one option of a quadratic voting ballot, or its credit: the ciphertext holds [v] *)
Definition hides_value (K : PublicKey E) (d : RangeDecomposition) (v : N) (idx : list N) (c : CiphertextWithRangeProof E) : Prop :=
  (exists x, encrypts K (crp_ciphertext c) (times v generator) x) /\
  hides_digits K d idx (rap_partial (crp_range_proof c)).

(** A call of the ring builder draws one scalar for the ciphertext, unless it is given, and one per ring
    element.  It returns the given ciphertext or an encryption of the chosen element. *)
Definition op_draws (o : ring_op (E:=E)) : nat :=
  match o with RAdd vs _ => 1 + List.length vs | RAddPrecomputed _ vs _ => List.length vs end%nat.

Definition op_result (K : PublicKey E) (o : ring_op (E:=E)) (c : Ciphertext E) : Prop :=
  match o with
  | RAdd vs i => exists A x, nth_error vs i = Some A /\ encrypts K c A x
  | RAddPrecomputed ext _ _ => c = ext_inner ext
  end.

(** a new range proof: one scalar for the ciphertext of each digit, but for the last, one for the ciphertext of the
    value and one per element of each ring *)
Definition range_draws (d : RangeDecomposition) : nat := (N.to_nat (n_sum (map rs_size d)) + List.length d)%nat.

End Spec.
