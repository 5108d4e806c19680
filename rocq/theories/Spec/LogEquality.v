(** * Specification of the proof of equality of discrete logs (C07-C12, C28)

    The protocol as documented in src/proofs/log_equality.rs 16-58. *)
From Coq Require Import List NArith ZArith String.
From Verif.Model Require Import Base Group Transcript Keys Encryption LogEquality.
Import ListNotations.
Open Scope string_scope.
Open Scope list_scope.

Section Spec.
Context {E : Env}.
Local Notation scalar := (Scalar E).
Local Notation element := (Element E).

(** The statement: [P0] and [P1] have the same discrete log w.r.t. [G] and [K]. *)
Definition same_log (K : element) (P0 P1 : element) : Prop :=
  exists r : scalar, P0 = (generator * r)%E /\ P1 = (K * r)%E.

(** The response [s] answers the challenge [c] for the commitments [X0], [X1]. *)
Definition le_answers (K P0 P1 X0 X1 : element) (c s : scalar) : Prop :=
  X0 = (generator * s - P0 * c)%E /\ X1 = (K * s - P1 * c)%E.

(** The whole hash input: prior transcript, then exactly these messages. *)
Definition le_query (t : transcript) (k p0 p1 x0 x1 : bytes) : transcript :=
  t ++ [TMsg "dom-sep" (str_bytes "log_eq"); TMsg "K" k; TMsg "[r]G" p0; TMsg "[r]K" p1;
        TMsg "[x]G" x0; TMsg "[x]K" x1].

(** Hash input for group elements (when they can be serialized). *)
Definition le_hashed (t : transcript) (K : PublicKey E) (P0 P1 X0 X1 : element) (q : transcript) : Prop :=
  exists p0 p1 x0 x1,
    serialize_element P0 = Ret p0 /\ serialize_element P1 = Ret p1 /\
    serialize_element X0 = Ret x0 /\ serialize_element X1 = Ret x1 /\
    q = le_query t (pk_bytes K) p0 p1 x0 x1.

(** A conversation of the interactive protocol with challenge [c]. *)
Definition le_conversation : Type := element * element * scalar.

(** what an honest prover with secret [r] and random scalar [x] sends *)
Definition le_prover (K : element) (r c x : scalar) : le_conversation :=
  ((generator * x)%E, (K * x)%E, (c * r + x)%S).

(** a simulator, which picks the response and knows no secret *)
Definition le_simulator (K P0 P1 : element) (c s : scalar) : le_conversation :=
  ((generator * s - P0 * c)%E, (K * s - P1 * c)%E, s).

Definition le_accepting (K P0 P1 : element) (c : scalar) (v : le_conversation) : Prop :=
  let '(X0, X1, s) := v in le_answers K P0 P1 X0 X1 c s.

End Spec.
