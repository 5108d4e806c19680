(** * Specification vocabulary for C57, C58: forging in the random oracle model

    An adversary is an arbitrary adaptive algorithm with access to the Fiat-Shamir hash.  The hash is
    a random function: the statements count, among all functions with values in the scalar field on a
    finite set [D] of hash inputs, those for which the adversary succeeds. *)
From Coq Require Import List String NArith ZArith.
From Verif.Model Require Import Base Group Transcript Keys.
Import ListNotations.
Open Scope list_scope.

(** a hash input: transcript and label of the challenge *)
Definition query : Type := transcript * string.

Section Rom.
Context {R : Type}.

Definition hash : Type := transcript -> string -> R.
Definition answer (o : hash) (x : query) : R := o (fst x) (snd x).

(** Algorithms with oracle access: a tree of queries.  What happens between queries is arbitrary (any
    function of the answers), so there is no bound on computation. *)
Inductive strategy (A : Type) : Type :=
| Output (a : A)
| Ask (x : query) (k : R -> strategy A).
Arguments Output {A}.
Arguments Ask {A}.

Fixpoint run {A : Type} (o : hash) (T : strategy A) : A :=
  match T with
  | Output a => a
  | Ask x k => run o (k (answer o x))
  end.

(** hash inputs asked for, in order *)
Fixpoint asked {A : Type} (o : hash) (T : strategy A) : list query :=
  match T with
  | Output _ => []
  | Ask x k => x :: asked o (k (answer o x))
  end.

(** never asks more than [n] times *)
Inductive at_most {A : Type} : nat -> strategy A -> Prop :=
| am_output n a : at_most n (Output a)
| am_ask n x k : (forall c, at_most n (k c)) -> at_most (S n) (Ask x k).

(** one algorithm after another *)
Fixpoint andthen {A B : Type} (T : strategy A) (f : A -> strategy B) : strategy B :=
  match T with
  | Output a => f a
  | Ask x k => Ask x (fun c => andthen (k c) f)
  end.

(** A set of hash functions with the given values: any two differ somewhere, and all are equal outside
    of [D].  All functions from [D] to the values together are [|values| ^ |D|] many. *)
Definition differ (o o' : hash) : Prop := exists x, answer o x <> answer o' x.
Definition hashes_on (values : list R) (D : list query) (W : list hash) : Prop :=
  ForallOrdPairs differ W /\
  (forall o x, In o W -> In x D -> In (answer o x) values) /\
  forall o o' x, In o W -> In o' W -> ~ In x D -> answer o x = answer o' x.

End Rom.
Arguments strategy R A : clear implicits.
Arguments Output {R A}.
Arguments Ask {R A}.
Arguments hash R : clear implicits.

(** ** where challenges come from

    The code hashes to bytes and makes a scalar of them ([TranscriptForGroup::challenge_scalar],
    [ScalarOps::scalar_from_random_bytes]: src/proofs/mod.rs 54-56, src/group/mod.rs 98-102).  A source
    consists of the possible hash values and of this conversion. *)
Record source (G : Group) : Type := mkSource {
  digest : Type;
  digest_dec : forall a b : digest, {a = b} + {a <> b};
  digests : list digest;
  challenge_of : digest -> Scalar G
}.
Arguments digest {G}.
Arguments digest_dec {G}.
Arguments digests {G}.
Arguments challenge_of {G}.

(** uniform scalars: the hash values are the challenges *)
Definition scalar_dec {G : Group} (L : GroupLaws G) (a b : Scalar G) : {a = b} + {a <> b} :=
  match s_eqb a b as r return (r = true <-> a = b) -> {a = b} + {a <> b} with
  | true => fun H => left (proj1 H eq_refl)
  | false => fun H => right (fun e => match proj2 H e in _ = r return (if r then False else True) with eq_refl => I end)
  end (s_eqb_ok G L a b).
Definition all_scalars {G : Group} (L : GroupLaws G) : list (Scalar G) :=
  map (fun n => phi L (Z.of_nat n)) (seq 0 (Z.to_nat (order L))).
Definition uniform_source {G : Group} (L : GroupLaws G) : source G :=
  {| digest := Scalar G; digest_dec := scalar_dec L; digests := all_scalars L; challenge_of := fun c => c |}.

(** no challenge has more than [m] preimages among the hash values *)
Definition balanced {G : Group} (S : source G) (m : Z) : Prop :=
  NoDup (digests S) /\
  forall c l, NoDup l -> (forall d, In d l -> In d (digests S) /\ challenge_of S d = c) ->
    (Z.of_nat (List.length l) <= m)%Z.

(** number of hash values *)
Definition size {G : Group} (S : source G) : Z := Z.of_nat (List.length (digests S)).

(** the challenges for a hash function *)
Definition challenges {G : Group} (S : source G) (o : hash (digest S)) : hash (Scalar G) :=
  fun t label => challenge_of S (o t label).

(** a key as built by the API: the stored bytes are those of the stored element *)
Definition genuine {G : Group} (K : PublicKey G) : Prop := deserialize_element (pk_bytes K) = Some (pk_element K).

(** The adversary [A], followed by the checks [V] on its output, achieves [wins] for at most
    [num * size ^ |D| / den] of the [size ^ |D|] hash functions on [D], whatever finite set [D] contains
    all inputs that are hashed in the attack.  That is, with probability at most [num / den] over the
    choice of a random function. *)
Definition success_at_most {G : Group} (S : source G) {X Y : Type} (A : strategy (Scalar G) X) (V : X -> strategy (Scalar G) Y)
    (wins : hash (Scalar G) -> X -> Prop) (num den : Z) : Prop :=
  forall D W, hashes_on (digests S) D W ->
    (forall o, In o W -> let c := challenges S o in incl (asked c (andthen A V)) D /\ wins c (run c A)) ->
    (den * Z.of_nat (List.length W) <= num * size S ^ Z.of_nat (List.length D))%Z.
