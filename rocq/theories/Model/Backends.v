(** * The three backends: src/group/{ristretto,curve25519,generic}.rs

    These files only connect the [Group] trait to external crates.  What they use of
    those crates is a record of operations ([Dalek], [Curve]); the adapters around the
    records are modelled line by line. *)
From Coq Require Import List NArith Bool String.
From Verif.Model Require Import Base Group Transcript.
Import ListNotations.

(** [slice::copy_from_slice] into a buffer of [n] bytes *)
Definition copy_from_slice (n : nat) (src : bytes) : outcome bytes :=
  if Nat.eqb (List.length src) n then Ret src else Panic PBackend.

(** ** curve25519-dalek

    The operations on scalars and on one type of points ([RistrettoPoint] or
    [EdwardsPoint]) used by ristretto.rs and curve25519.rs. *)
Record Dalek : Type := mkDalek {
  DScalar : Type;
  d_zero : DScalar;
  d_from_u64 : N -> DScalar;
  d_neg : DScalar -> DScalar;
  d_add : DScalar -> DScalar -> DScalar;
  d_sub : DScalar -> DScalar -> DScalar;
  d_mul : DScalar -> DScalar -> DScalar;
  d_eqb : DScalar -> DScalar -> bool;
  d_invert : DScalar -> DScalar;                              (* Scalar::invert *)
  d_invert_batch : list DScalar -> outcome (list DScalar);    (* Scalar::invert_batch_alloc *)
  d_to_bytes : DScalar -> bytes;                              (* Scalar::to_bytes *)
  d_from_canonical_bytes : bytes -> option DScalar;
  d_from_bytes_mod_order_wide : bytes -> DScalar;
  DPoint : Type;
  p_identity : DPoint;
  p_is_identity : DPoint -> bool;
  p_basepoint : DPoint;
  p_add : DPoint -> DPoint -> DPoint;
  p_sub : DPoint -> DPoint -> DPoint;
  p_neg : DPoint -> DPoint;
  p_mul : DPoint -> DScalar -> DPoint;
  p_eqb : DPoint -> DPoint -> bool;
  p_compress : DPoint -> bytes;
  p_decompress : bytes -> option DPoint;                      (* of a 32-byte string *)
  p_is_torsion_free : DPoint -> bool;                         (* EdwardsPoint only *)
  p_table_mul : DScalar -> DPoint;                            (* s * BASEPOINT_TABLE *)
  p_double_mul_basepoint : DScalar -> DPoint -> DScalar -> DPoint;
  p_multiscalar_mul : list DScalar -> list DPoint -> outcome DPoint;
  p_vartime_multiscalar_mul : list DScalar -> list DPoint -> outcome DPoint
}.
Arguments d_zero {d}.
Arguments d_from_u64 {d}.
Arguments d_neg {d}.
Arguments d_add {d}.
Arguments d_sub {d}.
Arguments d_mul {d}.
Arguments d_eqb {d}.
Arguments d_invert {d}.
Arguments d_invert_batch {d}.
Arguments d_to_bytes {d}.
Arguments d_from_canonical_bytes {d}.
Arguments d_from_bytes_mod_order_wide {d}.
Arguments p_identity {d}.
Arguments p_is_identity {d}.
Arguments p_basepoint {d}.
Arguments p_add {d}.
Arguments p_sub {d}.
Arguments p_neg {d}.
Arguments p_mul {d}.
Arguments p_eqb {d}.
Arguments p_compress {d}.
Arguments p_decompress {d}.
Arguments p_is_torsion_free {d}.
Arguments p_table_mul {d}.
Arguments p_double_mul_basepoint {d}.
Arguments p_multiscalar_mul {d}.
Arguments p_vartime_multiscalar_mul {d}.

Section Dalek.
Context (D : Dalek).

(** ristretto.rs 58-62, curve25519.rs 69-73: [expect]s 32 bytes.  All callers check the
    length first, so the panic of a wrong length is not modelled ([None] instead). *)
Definition dalek_deserialize_scalar (b : bytes) : option (DScalar D) :=
  if Nat.eqb (List.length b) 32 then d_from_canonical_bytes b else None.

(** [CompressedRistretto::from_slice], [CompressedEdwardsY::from_slice] with feature
    [curve25519-dalek]: an error unless there are 32 bytes.  (The [-ng] variant panics
    instead; callers check the length first.) *)
Definition compressed_from_slice (b : bytes) : option bytes :=
  if Nat.eqb (List.length b) 32 then Some b else None.

(** ristretto.rs 92-95 *)
Definition ristretto_deserialize_element (b : bytes) : option (DPoint D) :=
  match compressed_from_slice b with
  | Some b => p_decompress b
  | None => None
  end.

(** curve25519.rs 103-109 *)
Definition curve25519_deserialize_element (b : bytes) : option (DPoint D) :=
  match compressed_from_slice b with
  | Some b =>
      match p_decompress b with
      | Some P => if p_is_torsion_free P then Some P else None
      | None => None
      end
  | None => None
  end.

(** The parts which ristretto.rs and curve25519.rs have in common (they differ in the point
    type and in [deserialize_element]). *)
Definition dalek_group (deserialize : bytes -> option (DPoint D)) : Group := {|
  Scalar := DScalar D; Element := DPoint D;
  s_default := d_zero; s_of_u64 := d_from_u64; s_neg := d_neg; s_add := d_add; s_sub := d_sub;
  s_mul := d_mul; s_eqb := d_eqb;
  SCALAR_SIZE := 32;                                             (* 26 / 37 *)
  invert_scalar := fun s => Ret (d_invert s);                    (* 40-42 / 51-53 *)
  invert_scalars := d_invert_batch;                              (* 44-47 / 55-58 *)
  serialize_scalar := d_to_bytes;                                (* 54-56 / 65-67 *)
  deserialize_scalar := dalek_deserialize_scalar;
  e_add := p_add; e_sub := p_sub; e_neg := p_neg; e_mul := p_mul; e_eqb := p_eqb;
  ELEMENT_SIZE := 32;                                            (* 74 / 85 *)
  identity := p_identity;                                        (* 76-78 / 87-89 *)
  is_identity := p_is_identity;                                  (* 80-82 / 91-93 *)
  generator := p_basepoint;                                      (* 84-86 / 95-97 *)
  serialize_element := fun P => copy_from_slice 32 (p_compress P); (* 88-90 / 99-101 *)
  deserialize_element := deserialize;
  mul_generator := p_table_mul;                                  (* 104-107 / 120-123 *)
  (* 114-121 / 130-137 *)
  vartime_mul_generator := fun k => p_double_mul_basepoint d_zero p_identity k;
  multi_mul := p_multiscalar_mul;                                (* 123-129 / 139-145 *)
  vartime_double_mul_generator := p_double_mul_basepoint;        (* 131-137 / 147-153 *)
  vartime_multi_mul := p_vartime_multiscalar_mul                 (* 139-145 / 155-161 *)
|}.

(** src/group/ristretto.rs 23-146 *)
Definition Ristretto : Group := dalek_group ristretto_deserialize_element.

(** src/group/curve25519.rs 34-162; [Element] is the type of all curve points *)
Definition Curve25519Subgroup : Group := dalek_group curve25519_deserialize_element.

(** ristretto.rs 28-32, curve25519.rs 39-43 *)
Definition dalek_generate_scalar {R : Type} (fill : nat -> R -> bytes * R) (r : R)
    : DScalar D * R :=
  let '(scalar_bytes, r) := fill 64%nat r in
  (d_from_bytes_mod_order_wide scalar_bytes, r).

(** ristretto.rs 34-38, curve25519.rs 45-49; [source n] is [RandomBytesProvider::fill_bytes]
    (mod.rs 59-61), i.e. [n] bytes squeezed from a transcript *)
Definition dalek_scalar_from_random_bytes (source : nat -> bytes) : DScalar D :=
  d_from_bytes_mod_order_wide (source 64%nat).

(** The environment of the crate with one of these backends.  [fill] is the caller's RNG,
    [squeeze t label n] are [n] bytes of merlin's [challenge_bytes] in transcript state [t]. *)
Definition dalek_env (deserialize : bytes -> option (DPoint D)) (R : Type)
    (fill : nat -> R -> bytes * R) (squeeze : transcript -> string -> nat -> bytes)
    (sha : bytes -> bytes) (estimate : N -> N) (b : Build) : Env := {|
  env_group := dalek_group deserialize; Rng := R;
  generate_scalar := dalek_generate_scalar fill : R -> Scalar (dalek_group deserialize) * R;
  fill_bytes := fill;
  oracle := fun t l => dalek_scalar_from_random_bytes (squeeze t l);
  sha256 := sha; len_estimate := estimate; env_build := b |}.

End Dalek.

(** ** elliptic-curve

    The items of the traits [CurveArithmetic], [Field], [PrimeField], [Group],
    [ToSec1Point], [FromSec1Point] used by generic.rs. *)
Record Curve : Type := mkCurve {
  CScalar : Type;
  c_default : CScalar;
  c_from_u64 : N -> CScalar;
  c_neg : CScalar -> CScalar;
  c_add : CScalar -> CScalar -> CScalar;
  c_sub : CScalar -> CScalar -> CScalar;
  c_mul : CScalar -> CScalar -> CScalar;
  c_eqb : CScalar -> CScalar -> bool;
  c_field_size : nat;                                       (* FieldBytesSize<C>::USIZE *)
  c_random : forall R, (nat -> R -> bytes * R) -> R -> CScalar * R; (* Field::random *)
  c_invert : CScalar -> option CScalar;                     (* Field::invert *)
  c_to_repr : CScalar -> bytes;
  c_from_repr : bytes -> option CScalar;
  CPoint : Type;
  cp_identity : CPoint;
  cp_is_identity : CPoint -> bool;
  cp_generator : CPoint;
  cp_add : CPoint -> CPoint -> CPoint;
  cp_sub : CPoint -> CPoint -> CPoint;
  cp_neg : CPoint -> CPoint;
  cp_mul : CPoint -> CScalar -> CPoint;
  cp_eqb : CPoint -> CPoint -> bool;
  CSec1 : Type;                                             (* Sec1Point<C> *)
  cp_to_sec1_point : CPoint -> bool -> CSec1;
  sec1_as_bytes : CSec1 -> bytes;
  sec1_from_bytes : bytes -> option CSec1;
  cp_from_sec1_point : CSec1 -> option CPoint
}.
Arguments c_default {c}.
Arguments c_from_u64 {c}.
Arguments c_neg {c}.
Arguments c_add {c}.
Arguments c_sub {c}.
Arguments c_mul {c}.
Arguments c_eqb {c}.
Arguments c_random {c}.
Arguments c_invert {c}.
Arguments c_to_repr {c}.
Arguments c_from_repr {c}.
Arguments cp_identity {c}.
Arguments cp_is_identity {c}.
Arguments cp_generator {c}.
Arguments cp_add {c}.
Arguments cp_sub {c}.
Arguments cp_neg {c}.
Arguments cp_mul {c}.
Arguments cp_eqb {c}.
Arguments cp_to_sec1_point {c}.
Arguments sec1_as_bytes {c}.
Arguments sec1_from_bytes {c}.
Arguments cp_from_sec1_point {c}.

Section Generic.
Context (C : Curve).

(** src/group/generic.rs 47-49 *)
Definition generic_invert_scalar (s : CScalar C) : outcome (CScalar C) :=
  match c_invert s with
  | Some i => Ret i
  | None => Panic PUnwrap
  end.

(** src/group/generic.rs 55-58: [unwrap]s the conversion to an array of [SCALAR_SIZE] bytes.
    All callers check the length first, so that panic is not modelled. *)
Definition generic_deserialize_scalar (b : bytes) : option (CScalar C) :=
  if Nat.eqb (List.length b) (c_field_size C) then c_from_repr b else None.

(** src/group/generic.rs 87-90 *)
Definition generic_serialize_element (P : CPoint C) : outcome bytes :=
  copy_from_slice (c_field_size C + 1) (sec1_as_bytes (cp_to_sec1_point P true)).

(** src/group/generic.rs 92-95 *)
Definition generic_deserialize_element (b : bytes) : option (CPoint C) :=
  match sec1_from_bytes b with
  | Some s => cp_from_sec1_point s
  | None => None
  end.

(** src/group/generic.rs 34-106; [trait Group] is implemented by its provided methods.
    (The values of the fields replaced by [with_defaults] are irrelevant.) *)
Definition Generic : Group := with_defaults {|
  Scalar := CScalar C; Element := CPoint C;
  s_default := c_default; s_of_u64 := c_from_u64; s_neg := c_neg; s_add := c_add; s_sub := c_sub;
  s_mul := c_mul; s_eqb := c_eqb;
  SCALAR_SIZE := c_field_size C;                       (* 41 *)
  invert_scalar := generic_invert_scalar;
  invert_scalars := default_invert_scalars generic_invert_scalar;
  serialize_scalar := c_to_repr;                       (* 51-53 *)
  deserialize_scalar := generic_deserialize_scalar;
  e_add := cp_add; e_sub := cp_sub; e_neg := cp_neg; e_mul := cp_mul; e_eqb := cp_eqb;
  ELEMENT_SIZE := c_field_size C + 1;                  (* 70 *)
  identity := cp_identity;                             (* 72-75 *)
  is_identity := cp_is_identity;                       (* 77-80 *)
  generator := cp_generator;                           (* 82-85 *)
  serialize_element := generic_serialize_element;
  deserialize_element := generic_deserialize_element;
  mul_generator := fun k => cp_mul cp_generator k;
  vartime_mul_generator := fun k => cp_mul cp_generator k;
  multi_mul := default_multi_mul cp_identity cp_add cp_mul;
  vartime_double_mul_generator := fun k K r => cp_add (cp_mul K k) (cp_mul cp_generator r);
  vartime_multi_mul := default_multi_mul cp_identity cp_add cp_mul
|}.

(** src/group/mod.rs 98-103 (provided method, used by [Generic]) with 43-45 of generic.rs:
    a ChaCha RNG seeded with 32 bytes of the source *)
Definition default_scalar_from_random_bytes {R : Type} (from_seed : bytes -> R)
    (fill : nat -> R -> bytes * R) (source : nat -> bytes) : CScalar C :=
  fst (c_random R fill (from_seed (source 32%nat))).

Definition generic_env (R : Type) (fill : nat -> R -> bytes * R)
    (ChaCha : Type) (from_seed : bytes -> ChaCha) (chacha_fill : nat -> ChaCha -> bytes * ChaCha)
    (squeeze : transcript -> string -> nat -> bytes)
    (sha : bytes -> bytes) (estimate : N -> N) (b : Build) : Env := {|
  env_group := Generic; Rng := R;
  generate_scalar := c_random R fill : R -> Scalar Generic * R;
  fill_bytes := fill;
  oracle := fun t l => default_scalar_from_random_bytes from_seed chacha_fill (squeeze t l);
  sha256 := sha; len_estimate := estimate; env_build := b |}.

End Generic.
