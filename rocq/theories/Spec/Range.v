(** * Specification of range decompositions (C18-C21) and range proofs (C22-C23)

    From the documentation of [RangeDecomposition] (src/proofs/range.rs 24-70):
    [0..n = 0..t_0 + k_0 * (0..t_1 + k_1 * (0..t_2 + ...))] where all [t_i], [k_i] are greater than 1,
    [t_i >= k_i] and [n = t_0 + k_0 * (t_1 - 1 + k_1 * ...)]. *)
From Coq Require Import List NArith.
From Verif.Model Require Import Base Range.
Import ListNotations.
Open Scope N_scope.

(** [k * d] *)
Definition spec_scale (k : N) (s : RingSpec) : RingSpec :=
  {| rs_size := rs_size s; rs_step := rs_step s * k |}.

(** [doc_form n d]: [d] is a decomposition of [0..n] of the documented form.  Rings are listed as in
    the code, the one with the largest step first. *)
Inductive doc_form : N -> RangeDecomposition -> Prop :=
| doc_one : forall t, 2 <= t -> doc_form t [{| rs_size := t; rs_step := 1 |}]
| doc_nested : forall T d t k,
    doc_form T d -> 2 <= k -> k <= t ->
    doc_form (t + k * (T - 1)) (map (spec_scale k) d ++ [{| rs_size := t; rs_step := 1 |}]).

Definition n_sum (l : list N) : N := fold_right N.add 0 l.

(** one index per ring, each inside its ring *)
Definition in_rings (d : RangeDecomposition) (idx : list N) : Prop :=
  Forall2 (fun i s => i < rs_size s) idx d.

(** the value [sum idx_i * step_i] *)
Definition composed (d : RangeDecomposition) (idx : list N) : N :=
  n_sum (map (fun p => fst p * rs_step (snd p)) (combine idx d)).

(** number of scalars and group elements of a proof, except the one ciphertext that is recomputed:
    one scalar per ring member, the common challenge, two elements per remaining ring *)
Definition proof_length (d : RangeDecomposition) : N :=
  n_sum (map rs_size d) + 1 + 2 * (N.of_nat (length d) - 1).

(** [est] never exceeds the cost [sum (t_i + 2)] of a decomposition of [0..m], for [m <= n] *)
Definition valid_estimate (est : N -> N) (n : N) : Prop :=
  forall m d, m <= n -> doc_form m d -> est m <= n_sum (map (fun s => rs_size s + 2) d).

(** ** Range proofs *)
From Coq Require Import ZArith.
From Verif.Model Require Import Group Transcript Keys Encryption Ring.
From Verif.Spec Require Import Encryption.

(** the values a ring stands for: [0, step, .., (size - 1) * step], times the generator *)
Definition range_values {E : Env} (d : RangeDecomposition) : list (list (Element E)) :=
  map (fun s => map (fun i => times (N.of_nat i * rs_step s) generator) (seq 0 (N.to_nat (rs_size s)))) d.

(** the remaining ciphertext, such that all partial ciphertexts and it sum up to [ct] *)
Definition range_ciphertexts {E : Env} (partial : list (Ciphertext E)) (ct : Ciphertext E) : list (Ciphertext E) :=
  partial ++ [fold_left Ciphertext_sub partial ct].
