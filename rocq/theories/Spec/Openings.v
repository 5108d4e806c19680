(** * Specification vocabulary for C79: who makes an accepted ring proof knows the encrypted values

    The challenges of a ring with [n] admissible values form a cycle: the challenge of equation [j + 1] is
    the hash of the commitments of equation [j], and the challenge of equation 0 is the hash of the
    commitments of the last equations of all rings.  So some equation gets its challenge after its
    commitments were hashed.  The prover is run twice: the second time the hash function is drawn anew
    from that challenge on.  The two responses for this equation give the randomness of the ciphertext. *)
From Coq Require Import List String NArith ZArith Arith.
From Verif.Model Require Import Base Group Transcript Keys Encryption Ring.
From Verif.Spec Require Import Encryption Rom Verifiers Forking Extractors.
Import ListNotations.
Open Scope list_scope.
Open Scope nat_scope.

(** number of hash inputs asked before [x] *)
Definition position (x : query) (l : list query) : nat := List.length (before x l).

Section Openings.
Context {E : Env}.
Local Notation scalar := (Scalar E).
Local Notation element := (Element E).

(** where the hash inputs and the responses of ring [k] begin *)
Definition inputs_before (vals : list (list element)) (k : nat) : nat :=
  list_sum (map (fun vs => List.length vs - 1) (firstn k vals)).
Definition responses_before (vals : list (list element)) (k : nat) : nat :=
  list_sum (map (@List.length element) (firstn k vals)).

(** [l]: the inputs hashed by the verifier, in order.  The input whose hash is the challenge of
    equation [j] of ring [k]. *)
Definition challenge_input (vals : list (list element)) (k j : nat) (l : list query) : query :=
  match j with
  | O => last l ([], EmptyString)
  | S i => nth (inputs_before vals k + i) l ([], EmptyString)
  end.

(** The first equation of ring [k] whose commitments were hashed before its challenge, if [all] are all
    inputs hashed. *)
Definition open_equation (vals : list (list element)) (k : nat) (l all : list query) : nat :=
  let n := List.length (nth k vals []) in
  let at_ j := position (challenge_input vals k j l) all in
  match find (fun j => at_ ((j + 1) mod n) <? at_ j) (seq 0 n) with Some j => j | None => 0 end.

(** The output of the prover contains a ring proof, the key, the ciphertexts and the context. *)
Definition ring_check {X : Type} (statement : X -> RingProof E * PublicKey E * list (Ciphertext E) * transcript)
    (vals : list (list element)) (x : X) : strategy scalar (outcome (result unit VerificationError * transcript)) :=
  let '(p, K, cts, t) := statement x in ring_verifier p K vals cts t.

Context (L : GroupLaws E) (S : source E).

(** [o'] replaces [o] from the challenge of the first suitable equation on; the responses of the two runs
    give the randomness of ciphertext [k], which encrypts the value of that equation. *)
Definition opened {X : Type} (A : strategy scalar X)
    (statement : X -> RingProof E * PublicKey E * list (Ciphertext E) * transcript)
    (vals : list (list element)) (k : nat) (o o' : hash (digest S)) : Prop :=
  let V := ring_check statement vals in
  let c := challenges S o in
  let all := asked c (andthen A V) in
  let l := asked c (V (run c A)) in
  let j := open_equation vals k l all in
  let y := challenge_input vals k j l in
  let c2 := challenges S (splice (before y all) o o') in
  let '(p, K, cts, _) := statement (run c A) in
  let '(p2, _, _, _) := statement (run c2 A) in
  exists ct M s s2,
    nth_error cts k = Some ct /\ nth_error (nth k vals []) j = Some M /\
    nth_error (rp_responses p) (responses_before vals k + j) = Some s /\
    nth_error (rp_responses p2) (responses_before vals k + j) = Some s2 /\
    encrypts K ct M (slope L (answer c y) s (answer c2 y) s2).

(** Let [W] be the number of
    hash functions [o] on [D] for which the output is accepted, and [F] the number of pairs [(o, o')] for
    which the value and the randomness of ciphertext [k] are computed from the two runs.  If
    [e = W / size ^ |D|] is the probability of acceptance, then this succeeds with probability
    [F / size ^ (2 |D|) >= e ^ 2 / n - e * m / size], where [m] is the maximal number of hash values for
    one challenge. *)
Definition opening_extractable (m : Z) {X : Type} (A : strategy scalar X)
    (statement : X -> RingProof E * PublicKey E * list (Ciphertext E) * transcript)
    (vals : list (list element)) (k : nat) (accepted : hash scalar -> X -> bool) (n : Z) : Prop :=
  forall D (o0 : hash (digest S)), NoDup D -> (forall o, incl (asked (challenges S o) (andthen A (ring_check statement vals))) D) ->
  forall found : hash (digest S) -> hash (digest S) -> bool,
    (forall o o', opened A statement vals k o o' -> found o o' = true) ->
    let all := all_hashes (digests S) D o0 in
    let W := Z.of_nat (List.length (filter (fun o => accepted (challenges S o) (run (challenges S o) A)) all)) in
    let F := Z.of_nat (List.length (filter (fun p => found (fst p) (snd p)) (list_prod all all))) in
    (size S * (W * W) <= n * (size S * F + m * W * size S ^ Z.of_nat (List.length D)))%Z.

End Openings.
