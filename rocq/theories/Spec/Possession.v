(** * Specification of the proof of possession of secret keys (C13)

    Schnorr proofs for several keys with a common challenge, src/proofs/possession.rs 14-40. *)
From Coq Require Import List NArith ZArith String.
From Verif.Model Require Import Base Group Transcript Keys.
Import ListNotations.
Open Scope string_scope.
Open Scope list_scope.

Section Spec.
Context {E : Env}.
Local Notation scalar := (Scalar E).
Local Notation element := (Element E).

(** All elements of [es] have the encodings [bs]. *)
Definition encoded (es : list element) (bs : list bytes) : Prop :=
  Forall2 (fun e b => serialize_element e = Ret b) es bs.

(** The responses [ss] answer the challenge [c] for the keys [ks] and commitments [xs]. *)
Definition pop_answers (ks xs : list element) (c : scalar) (ss : list scalar) : Prop :=
  List.length ss = List.length ks /\
  xs = map (fun p : element * scalar => (generator * snd p - fst p * c)%E) (combine ks ss).

(** The whole hash input. *)
Definition pop_query (t : transcript) (keys xs : list bytes) : transcript :=
  t ++ [TMsg "dom-sep" (str_bytes "multi_pop")] ++ map (TMsg "K") keys ++ map (TMsg "R") xs.

End Spec.
