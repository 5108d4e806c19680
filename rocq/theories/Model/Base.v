(** * Basic vocabulary of the model.

    Panics are explicit values, Rust's [Result] is data, machine integers are
    unbounded [N] with the wrap / overflow-panic written out. *)
From Coq Require Import List NArith ZArith Lia String Ascii Bool.
From Coq.Strings Require Import Byte.
Import ListNotations.
Open Scope N_scope.

(** ** Outcomes: a Rust call either returns or panics.

    The kinds distinguish what Rust construct panicked. *)
Inductive panic_kind : Type :=
| PAssert        (* assert! / panic! *)
| PDebugAssert   (* debug_assert! *)
| PIndex         (* slice / Vec index out of bounds, split_at_mut *)
| PUnwrap        (* Option::unwrap / expect *)
| POverflow      (* integer overflow with overflow checks on *)
| PBackend       (* a panic inside a crypto backend, e.g. copy_from_slice *)
| PFuel.         (* model artefact: loop fuel exhausted; excluded by theorems *)

Inductive outcome (A : Type) : Type :=
| Ret (a : A)
| Panic (k : panic_kind).
Arguments Ret {A} a.
Arguments Panic {A} k.

Definition bind {A B : Type} (m : outcome A) (f : A -> outcome B) : outcome B :=
  match m with
  | Ret a => f a
  | Panic k => Panic k
  end.

Declare Scope outcome_scope.
Delimit Scope outcome_scope with outcome.
Notation "x <- m ;; k" := (bind m (fun x => k))
  (at level 61, m at next level, right associativity) : outcome_scope.
Notation "' p <- m ;; k" := (bind m (fun p => k))
  (at level 61, p pattern, m at next level, right associativity) : outcome_scope.
Open Scope outcome_scope.

(** Rust's [Result]. *)
Inductive result (A Err : Type) : Type :=
| Ok (a : A)
| Err (e : Err).
Arguments Ok {A Err} a.
Arguments Err {A Err} e.

(** Monadic traversals ([Iterator::map] with a possibly panicking closure). *)
Fixpoint mapM {A B : Type} (f : A -> outcome B) (l : list A) : outcome (list B) :=
  match l with
  | [] => Ret []
  | x :: l' =>
      y <- f x ;;
      ys <- mapM f l' ;;
      Ret (y :: ys)
  end.

(** ** Build profile: [debug_assertions] and [overflow_checks] of Cargo profiles. *)
Record Build : Type := mkBuild {
  debug_assertions : bool;
  overflow_checks : bool
}.

Definition debug_build : Build := mkBuild true true.
Definition release_build : Build := mkBuild false false.

(** [assert!(c)] *)
Definition assert (c : bool) : outcome unit := if c then Ret tt else Panic PAssert.

(** [debug_assert!(c)] *)
Definition debug_assert (b : Build) (c : bool) : outcome unit :=
  if debug_assertions b then (if c then Ret tt else Panic PDebugAssert) else Ret tt.

(** ** [u64] / [usize] arithmetic (64-bit target assumed for [usize]). *)
Definition u64_lim : N := 2 ^ 64.

Definition u64_fit (b : Build) (r : N) : outcome N :=
  if r <? u64_lim then Ret r
  else if overflow_checks b then Panic POverflow else Ret (r mod u64_lim).

Definition u64_add (b : Build) (x y : N) : outcome N := u64_fit b (x + y).
Definition u64_mul (b : Build) (x y : N) : outcome N := u64_fit b (x * y).
Definition u64_sub (b : Build) (x y : N) : outcome N :=
  if y <=? x then Ret (x - y)
  else if overflow_checks b then Panic POverflow else Ret (x + u64_lim - y).

(** ** Bytes *)
Definition bytes : Type := list byte.

Definition bytes_eqb (a b : bytes) : bool :=
  (fix go (a b : bytes) : bool :=
     match a, b with
     | [], [] => true
     | x :: a', y :: b' => Byte.eqb x y && go a' b'
     | _, _ => false
     end) a b.

(** The bytes of an ASCII string literal ([b"..."]). *)
Definition str_bytes (s : string) : bytes := list_byte_of_string s.

Definition byte_of_N_mod (n : N) : byte :=
  match Byte.of_N (n mod 256) with
  | Some b => b
  | None => x00
  end.

(** Little-endian encoding on [k] bytes. *)
Fixpoint le_bytes (k : nat) (n : N) : bytes :=
  match k with
  | O => []
  | S k' => byte_of_N_mod n :: le_bytes k' (n / 256)
  end.

(** [u64::to_le_bytes] *)
Definition u64_le_bytes (n : N) : bytes := le_bytes 8 n.

(** ** Slices *)

(** [v[i]] *)
Definition index {A : Type} (l : list A) (i : nat) : outcome A :=
  match nth_error l i with
  | Some x => Ret x
  | None => Panic PIndex
  end.

Fixpoint list_set {A : Type} (l : list A) (i : nat) (x : A) : list A :=
  match l, i with
  | [], _ => []
  | _ :: l', O => x :: l'
  | y :: l', S i' => y :: list_set l' i' x
  end.

(** [v[i] = x] *)
Definition index_set {A : Type} (l : list A) (i : nat) (x : A) : outcome (list A) :=
  if (i <? List.length l)%nat then Ret (list_set l i x) else Panic PIndex.

(** [&v[i..]] *)
Definition slice_from {A : Type} (l : list A) (i : nat) : outcome (list A) :=
  if (i <=? List.length l)%nat then Ret (skipn i l) else Panic PIndex.

(** [v.split_at_mut(i)] *)
Definition split_at {A : Type} (l : list A) (i : nat) : outcome (list A * list A) :=
  if (i <=? List.length l)%nat then Ret (firstn i l, skipn i l) else Panic PIndex.

(** [iter().enumerate()] *)
Definition enumerate {A : Type} (l : list A) : list (nat * A) :=
  combine (seq 0 (List.length l)) l.
