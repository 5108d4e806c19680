(** * Specification of ring proofs (C14-C17)

    The protocol documented in src/proofs/ring.rs 206-281: a ring with admissible values
    [A_0 .. A_(n-1)] for a ciphertext [(R, B)] is a cycle of [n] log-equality equations, the
    challenge of each being the hash of the commitments of the previous one; the last commitments
    of all rings are hashed into the common challenge, which is the challenge of every first
    equation. *)
From Coq Require Import List NArith ZArith String.
From Verif.Model Require Import Base Group Transcript Keys Encryption Ring.
From Verif.Spec Require Import Encryption LogEquality Sigma.
Import ListNotations.
Open Scope string_scope.
Open Scope list_scope.

Section Spec.
Context {E : Env}.
Local Notation scalar := (Scalar E).
Local Notation element := (Element E).

(** context of all rings of a proof *)
Definition ring_context (t : transcript) (K : PublicKey E) : transcript :=
  t ++ [TMsg "dom-sep" (str_bytes "multi_ring_enc"); TMsg "K" (pk_bytes K)].

(** context of the [i]-th ring *)
Definition ring_local (t0 : transcript) (ct : Ciphertext E) (i : nat) (rt : transcript) : Prop :=
  exists rb bb, serialize_element (random_element ct) = Ret rb /\
    serialize_element (blinded_element ct) = Ret bb /\
    rt = t0 ++ [TMsg "dom-sep" (str_bytes "ring_enc"); TMsg "enc" (rb ++ bb);
                TMsg "i" (u64_le_bytes (N.of_nat i))].

(** hash input following the [j]-th equation with commitments [X] *)
Definition ring_query (rt : transcript) (j : nat) (X : element * element) (q : transcript) : Prop :=
  exists b0 b1, serialize_element (fst X) = Ret b0 /\ serialize_element (snd X) = Ret b1 /\
    q = rt ++ [TMsg "j" (u64_le_bytes (N.of_nat j)); TMsg "R_G" b0; TMsg "R_K" b1].

(** commitments of the equation "the ciphertext encrypts [A]" for challenge [c] and response [s] *)
Definition ring_commitments (K : element) (ct : Ciphertext E) (A : element) (c s : scalar) : element * element :=
  ((generator * s - random_element ct * c)%E, (K * s - (blinded_element ct - A) * c)%E).

(** [X] are the commitments of equation [j]; the following equations [eqs] (admissible value and
    response) end in the terminal commitments [T]. *)
Fixpoint ring_from (rt : transcript) (K : element) (ct : Ciphertext E) (j : nat) (X : element * element)
    (eqs : list (element * scalar)) (T : element * element) : Prop :=
  match eqs with
  | [] => T = X
  | (A, s) :: rest =>
      exists q, ring_query rt j X q /\
        ring_from rt K ct (S j) (ring_commitments K ct A (oracle q "c") s) rest T
  end.

(** A whole ring started with the challenge [c].  (For an empty ring, which no caller uses, the code
    hashes the generator twice.) *)
Definition ring_closed (rt : transcript) (K : element) (ct : Ciphertext E) (c : scalar)
    (eqs : list (element * scalar)) (T : element * element) : Prop :=
  match eqs with
  | [] => T = (generator, generator)
  | (A, s) :: rest => ring_from rt K ct 0 (ring_commitments K ct A c s) rest T
  end.

(** All rings, with the responses [rss] and terminal commitments [Ts] of each; the [i]-th ring has
    the [i]-th admissible values and ciphertext. *)
Fixpoint rings_closed (t0 : transcript) (K : element) (c : scalar) (i : nat)
    (vals : list (list element)) (cts : list (Ciphertext E)) (rss : list (list scalar))
    (Ts : list (element * element)) : Prop :=
  match vals, cts, rss, Ts with
  | vs :: vals', ct :: cts', rs :: rss', T :: Ts' =>
      (exists rt, ring_local t0 ct i rt /\ ring_closed rt K ct c (combine vs rs) T) /\
      rings_closed t0 K c (S i) vals' cts' rss' Ts'
  | _ :: _, _ :: _, _, _ => False
  | _, _, _, _ => Ts = []
  end.

(** the hash input of the common challenge *)
Definition ring_common (t0 : transcript) (Ts : list (element * element)) (q : transcript) : Prop :=
  exists msgs, absorbed (flat_map (fun T => [("R_G", fst T); ("R_K", snd T)]) Ts) msgs /\ q = t0 ++ msgs.

(** Consequence of a ring none of whose equations is true: every challenge in the ring is the one and
    only challenge that the commitments it is used with can answer.  The first one is the common challenge, and
    each following one is the hash of the previous commitments. *)
Fixpoint ring_all_hits (rt : transcript) (K : element) (ct : Ciphertext E) (j : nat) (c : scalar)
    (vals : list element) (T : element * element) : Prop :=
  match vals with
  | [] => False
  | A :: rest =>
      exists X,
        (exists s, le_answers K (random_element ct) (blinded_element ct - A)%E (fst X) (snd X) c s) /\
        (forall c' s', le_answers K (random_element ct) (blinded_element ct - A)%E (fst X) (snd X) c' s' -> c' = c) /\
        match rest with
        | [] => T = X
        | _ :: _ => exists q, ring_query rt j X q /\ ring_all_hits rt K ct (S j) (oracle q "c") rest T
        end
  end.

(** ** Use of the builder: any sequence of [add_value] and [add_precomputed_value] calls *)
Inductive ring_op : Type :=
| RAdd (values : list element) (value_index : nat)
| RAddPrecomputed (ct : ExtendedCiphertext E) (values : list element) (value_index : nat).

Definition op_values (o : ring_op) : list element :=
  match o with RAdd vs _ => vs | RAddPrecomputed _ vs _ => vs end.
Definition op_index (o : ring_op) : nat :=
  match o with RAdd _ i => i | RAddPrecomputed _ _ i => i end.

Fixpoint ring_run (b : RingProofBuilder E (Rng E)) (ops : list ring_op)
    : outcome (list (Ciphertext E) * RingProofBuilder E (Rng E)) :=
  match ops with
  | [] => Ret ([], b)
  | RAdd vs i :: ops' =>
      '(ext, b) <- RingProofBuilder_add_value b vs i ;;
      '(cts, b) <- ring_run b ops' ;;
      Ret (ext_inner ext :: cts, b)
  | RAddPrecomputed ext vs i :: ops' =>
      b <- RingProofBuilder_add_precomputed_value b ext vs i ;;
      '(cts, b) <- ring_run b ops' ;;
      Ret (ext_inner ext :: cts, b)
  end.

(** A precomputed ciphertext must encrypt the chosen value. *)
Definition op_ok (K : PublicKey E) (o : ring_op) : Prop :=
  match o with
  | RAdd _ _ => True
  | RAddPrecomputed ext vs i =>
      exists A, nth_error vs i = Some A /\ encrypts K (ext_inner ext) A (ext_random_scalar ext)
  end.

End Spec.
