(** * Specification vocabulary for C64: proofs of knowledge in the random oracle model

    An adversary whose proofs are accepted is run twice: the second time with a hash function that
    agrees with the first one on everything asked before the challenge of the first proof, and is
    drawn anew elsewhere.  From the two outputs the witness is computed. *)
From Coq Require Import List String NArith ZArith.
From Verif.Model Require Import Base Group Transcript Keys.
From Verif.Spec Require Import Rom.
Import ListNotations.
Open Scope list_scope.

Definition tev_dec (a b : tev) : {a = b} + {a <> b}.
Proof. decide equality; try apply string_dec; apply list_eq_dec; apply Byte.byte_eq_dec. Defined.

Definition query_dec (a b : query) : {a = b} + {a <> b}.
Proof. decide equality; [apply string_dec | apply list_eq_dec, tev_dec]. Defined.

(** the hash inputs asked before [x] *)
Fixpoint before (x : query) (l : list query) : list query :=
  match l with
  | [] => []
  | y :: l' => if query_dec x y then [] else y :: before x l'
  end.

Section Forking.
Context {R : Type}.
Local Notation hash := (hash R).

(** as [o] on [l], as [o'] elsewhere *)
Definition splice (l : list query) (o o' : hash) : hash :=
  fun t s => if in_dec query_dec (t, s) l then o t s else o' t s.

(** All functions on [D] with the given values that are equal to [o] outside of [D]. *)
Definition set_hash (o : hash) (x : query) (c : R) : hash :=
  fun t s => if query_dec x (t, s) then c else o t s.
Fixpoint all_hashes (values : list R) (D : list query) (o : hash) : list hash :=
  match D with
  | [] => [o]
  | x :: D' => flat_map (fun c => all_hashes values D' (set_hash o x c)) values
  end.

End Forking.

Section Extractable.
Context {G : Group} (S : source G).
Local Notation scalar := (Scalar G).

(** The hash function for the second run of [T]: kept up to the last hash input of the first run (for
    an adversary followed by a verifier with one challenge, this is the input of the challenge). *)
Definition rewound {A : Type} (T : strategy scalar A) (o o' : hash (digest S)) : hash (digest S) :=
  let l := asked (challenges S o) T in
  match rev l with
  | [] => o'
  | x :: _ => splice (before x l) o o'
  end.

(** Let [W] be the number of hash functions [o] on [D] for which the output of the adversary [A] is
    accepted, and [F] the number of pairs [(o, o')] for which a witness is computed from the outputs
    of the two runs.  If [e = W / size ^ |D|] is the probability of acceptance, then the witness is
    found with probability [F / size ^ (2 |D|) >= e ^ 2 / n - e * m / size], where [m] is the maximal
    number of hash values for one challenge. *)
Definition extractable (m : Z) {X Y : Type} (A : strategy scalar X) (V : X -> strategy scalar Y)
    (accepted : hash scalar -> X -> bool) (extracted : X -> X -> Prop) (n : Z) : Prop :=
  forall D (o0 : hash (digest S)), NoDup D -> (forall o, incl (asked (challenges S o) (andthen A V)) D) ->
  forall found : hash (digest S) -> hash (digest S) -> bool,
    (forall o o', extracted (run (challenges S o) A) (run (challenges S (rewound (andthen A V) o o')) A) -> found o o' = true) ->
    let all := all_hashes (digests S) D o0 in
    let W := Z.of_nat (List.length (filter (fun o => accepted (challenges S o) (run (challenges S o) A)) all)) in
    let F := Z.of_nat (List.length (filter (fun p => found (fst p) (snd p)) (list_prod all all))) in
    (size S * (W * W) <= n * (size S * F + m * W * size S ^ Z.of_nat (List.length D)))%Z.

End Extractable.
