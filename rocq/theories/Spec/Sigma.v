(** * Specification of the commitment-equivalence (C26, C27) and sum-of-squares (C24, C25) proofs *)
From Coq Require Import List NArith ZArith String.
From Verif.Model Require Import Base Group Transcript Keys Encryption Commitment Mul.
From Verif.Spec Require Import Encryption.
Import ListNotations.
Open Scope string_scope.
Open Scope list_scope.

(** Labelled group elements and the transcript messages carrying their encodings. *)
Definition absorbed {E : Env} (items : list (string * Element E)) (msgs : transcript) : Prop :=
  Forall2 (fun it ev => exists b, serialize_element (snd it) = Ret b /\ ev = TMsg (fst it) b) items msgs.

(** ** OddItems (src/proofs/mul.rs 262-299) *)

(** States reachable from [new] by calls of [next], with the items returned so far *)
Inductive oi_reach {A : Type} (l : list A) : OddItems A -> list A -> Prop :=
| oi_start : oi_reach l (OddItems_new l) []
| oi_step_some s out x s' : oi_reach l s out -> OddItems_next s = (Some x, s') -> oi_reach l s' (out ++ [x])
| oi_step_none s out s' : oi_reach l s out -> OddItems_next s = (None, s') -> oi_reach l s' out.

Section Spec.
Context {E : Env}.
Local Notation scalar := (Scalar E).
Local Notation element := (Element E).

(** ** Commitment equivalence (src/proofs/commitment.rs 14-60) *)

(** [R = [r]G], [B = [v]G + [r]K], [C = [v]G + [r_c]H] *)
Definition ce_statement (K H : element) (R B C : element) (r v rc : scalar) : Prop :=
  R = (generator * r)%E /\ B = (generator * v + K * r)%E /\ C = (generator * v + H * rc)%E.

Definition ce_answers (K H R B C : element) (X1 X2 X3 : element) (c sr sv sc : scalar) : Prop :=
  X1 = (generator * sr - R * c)%E /\
  X2 = (generator * sv + K * sr - B * c)%E /\
  X3 = (generator * sv + H * sc - C * c)%E.

Definition ce_items (R B C X1 X2 X3 : element) : list (string * element) :=
  [("R", R); ("B", B); ("C", C); ("[e_r]G", X1); ("[e_v]G + [e_r]K", X2); ("[e_v]G + [e_c]H", X3)].

Definition ce_hashed (t : transcript) (K : PublicKey E) (R B C X1 X2 X3 : element) (q : transcript) : Prop :=
  exists msgs, absorbed (ce_items R B C X1 X2 X3) msgs /\
    q = t ++ [TMsg "dom-sep" (str_bytes "commitment_equivalence"); TMsg "K" (pk_bytes K)] ++ msgs.

(** ** Sum of squares (src/proofs/mul.rs 18-66) *)

(** [sum_i  a_i * s_i] *)
Fixpoint esum (l : list (element * scalar)) : element :=
  match l with
  | [] => identity
  | (a, s) :: l' => (a * s + esum l')%E
  end.

Fixpoint sum_sq (xs : list scalar) : scalar :=
  match xs with
  | [] => 0%S
  | x :: xs' => (x * x + sum_sq xs')%S
  end.

(** ciphertexts [cs] encrypt values [xs], [z] encrypts the sum of their squares *)
Definition sq_statement (K : PublicKey E) (cs : list (Ciphertext E)) (z : Ciphertext E) (xs : list scalar) : Prop :=
  Forall2 (fun c x => exists r, encrypts K c (generator * x)%E r) cs xs /\
  exists r, encrypts K z (generator * sum_sq xs)%E r.

(** Commitments: one pair per ciphertext and a pair for the sum.
    Responses: one pair [(s_r, s_x)] per ciphertext and [s_z]. *)
Definition sq_answers (K : element) (cs : list (Ciphertext E)) (z : Ciphertext E)
    (As : list (element * element)) (Z : element * element)
    (c : scalar) (rs : list (scalar * scalar)) (sz : scalar) : Prop :=
  List.length rs = List.length cs /\
  As = map (fun p : Ciphertext E * (scalar * scalar) => let '(ct, (sr, sx)) := p in
              ((generator * sr - random_element ct * c)%E,
               (generator * sx + K * sr - blinded_element ct * c)%E)) (combine cs rs) /\
  fst Z = (esum (combine (map random_element cs) (map snd rs)) + generator * sz - random_element z * c)%E /\
  snd Z = (esum (combine (map blinded_element cs) (map snd rs)) + K * sz - blinded_element z * c)%E.

Definition sq_items (cs : list (Ciphertext E)) (z : Ciphertext E)
    (As : list (element * element)) (Z : element * element) : list (string * element) :=
  flat_map (fun p : Ciphertext E * (element * element) => let '(ct, (a, b)) := p in
    [("R_x", random_element ct); ("X", blinded_element ct); ("[e_r]G", a); ("[e_x]G + [e_r]K", b)])
    (combine cs As) ++
  [("R_z", random_element z); ("Z", blinded_element z);
   ("[e_x]R_x + [e_z]G", fst Z); ("[e_x]X + [e_z]K", snd Z)].

Definition sq_hashed (t : transcript) (K : PublicKey E) (cs : list (Ciphertext E)) (z : Ciphertext E)
    (As : list (element * element)) (Z : element * element) (q : transcript) : Prop :=
  exists msgs, absorbed (sq_items cs z As Z) msgs /\
    q = t ++ [TMsg "dom-sep" (str_bytes "sum_of_squares"); TMsg "K" (pk_bytes K)] ++ msgs.

(** the flat list of responses stored in the proof *)
Definition sq_flat (rs : list (scalar * scalar)) : list scalar :=
  flat_map (fun p => [fst p; snd p]) rs.

End Spec.
