(** * Fiat-Shamir transcripts, randomness and the environment of the model. *)
From Coq Require Import List NArith String.
From Verif.Model Require Import Base Group.
Import ListNotations.
Open Scope string_scope.
Open Scope list_scope.

(** ** merlin::Transcript

    A transcript is the list of operations applied to it so far.  merlin absorbs
    each operation with an unambiguous label/length framing, so its internal STROBE
    state is a function of this list.  [TChal l] records that a challenge labelled
    [l] was squeezed (which also advances the STROBE state).  The number of squeezed
    bytes is fixed by the backend and not recorded. *)
Inductive tev : Type :=
| TMsg (label : string) (msg : bytes)
| TChal (label : string).

Definition transcript : Type := list tev.

(** merlin: [Transcript::append_message] *)
Definition append_message (t : transcript) (label : string) (msg : bytes) : transcript :=
  t ++ [TMsg label msg].

(** merlin: [Transcript::append_u64] appends the little-endian bytes *)
Definition append_u64 (t : transcript) (label : string) (x : N) : transcript :=
  append_message t label (u64_le_bytes x).

(** merlin: [Transcript::new(label)] appends ("dom-sep", label) to the initial state *)
Definition transcript_new (label : string) : transcript :=
  append_message [] "dom-sep" (str_bytes label).

(** ** The environment: backend, RNG, hash functions, build profile.

    - [generate_scalar] (src/group/mod.rs 87) with an arbitrary RNG; the RNG state is
      threaded explicitly.
    - [fill_bytes]: [RngCore::fill_bytes] for [n] bytes.
    - [oracle t label]: the scalar obtained by [TranscriptForGroup::challenge_scalar]
      (src/proofs/mod.rs 54-56, src/group/mod.rs 98-103) in transcript state [t]:
      merlin's [challenge_bytes] followed by the backend's [scalar_from_random_bytes].
    - [sha256]: the hash of src/dkg.rs 170-177.
    - [len_estimate]: src/proofs/range.rs 303-323 [lower_len_estimate] (floating point
      with [std], integer without). *)
Record Env : Type := mkEnv {
  env_group : Group;
  Rng : Type;
  generate_scalar : Rng -> Scalar env_group * Rng;
  fill_bytes : nat -> Rng -> bytes * Rng;
  oracle : transcript -> string -> Scalar env_group;
  sha256 : bytes -> bytes;
  len_estimate : N -> N;
  env_build : Build
}.
Coercion env_group : Env >-> Group.
Arguments generate_scalar {e}.
Arguments fill_bytes {e}.
Arguments oracle {e}.
Arguments sha256 {e}.
Arguments len_estimate {e}.

Section TranscriptForGroup.
Context {E : Env}.

(** src/proofs/mod.rs 40-42 *)
Definition start_proof (t : transcript) (label : string) : transcript :=
  append_message t "dom-sep" (str_bytes label).

(** src/proofs/mod.rs 44-46 *)
Definition append_element_bytes (t : transcript) (label : string) (b : bytes) : transcript :=
  append_message t label b.

(** src/proofs/mod.rs 48-52 *)
Definition append_element (t : transcript) (label : string) (e : Element E) : outcome transcript :=
  b <- serialize_element e ;;
  Ret (append_message t label b).

(** src/proofs/mod.rs 54-56 *)
Definition challenge_scalar (t : transcript) (label : string) : Scalar E * transcript :=
  (oracle t label, (t ++ [TChal label])%list).

End TranscriptForGroup.

(** src/proofs/mod.rs 63-81 *)
Inductive VerificationError : Type :=
| ChallengeMismatch
| LenMismatch (collection : string) (expected actual : nat).

(** src/proofs/mod.rs 84-98 *)
Definition check_lengths (collection : string) (expected actual : nat)
    : result unit VerificationError :=
  if Nat.eqb expected actual then Ok tt else Err (LenMismatch collection expected actual).
