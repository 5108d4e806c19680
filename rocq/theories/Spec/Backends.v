(** * Specification vocabulary for C59-C61: what the external curve crates promise

    [DalekLaws] and [CurveLaws] are the documented behaviour of curve25519-dalek and of an
    implementation of the elliptic-curve traits.  In contrast to [GroupLaws], the points of
    [DalekLaws] form any abelian group: the points of Curve25519 are eight times as many as those
    of its prime-order subgroup. *)
From Coq Require Import List NArith ZArith Znumtheory Field_theory Bool String.
From Verif.Model Require Import Base Group Transcript Backends.
From Verif.Instance Require Import Zq.
Import ListNotations.
Open Scope list_scope.

Definition out_map {A B : Type} (f : A -> B) (x : outcome A) : outcome B :=
  match x with
  | Ret a => Ret (f a)
  | Panic k => Panic k
  end.

(** [n]-fold addition *)
Fixpoint nmul {A : Type} (add : A -> A -> A) (id : A) (n : nat) (P : A) : A :=
  match n with
  | O => id
  | S n => add P (nmul add id n P)
  end.

Section Dalek.
Context (D : Dalek).

Definition times (n : nat) (P : DPoint D) : DPoint D := nmul p_add p_identity n P.

Fixpoint p_lin_comb (ss : list (DScalar D)) (es : list (DPoint D)) : DPoint D :=
  match ss, es with
  | s :: ss', e :: es' => p_add (p_mul e s) (p_lin_comb ss' es')
  | _, _ => p_identity
  end.

Record DalekLaws : Type := mkDalekLaws {
  (* scalars are the integers modulo the prime [dl_order]; encodings are little-endian *)
  dl_order : Z;
  dl_prime : prime dl_order;
  dl_small : (dl_order <= 256 ^ 32)%Z;
  dl_field : field_theory (@d_zero D) (d_from_u64 1) d_add d_mul d_sub d_neg
               (fun a b => d_mul a (d_invert b)) d_invert (@eq (DScalar D));
  dl_phi : Z -> DScalar D;
  dl_phi_add : forall a b, dl_phi (a + b) = d_add (dl_phi a) (dl_phi b);
  dl_phi_mul : forall a b, dl_phi (a * b) = d_mul (dl_phi a) (dl_phi b);
  dl_phi_eq : forall a b, dl_phi a = dl_phi b <-> (a mod dl_order = b mod dl_order)%Z;
  dl_phi_surj : forall s, exists z, s = dl_phi z;
  dl_u64 : forall n, (n < u64_lim)%N -> d_from_u64 n = dl_phi (Z.of_N n);
  dl_eqb : forall a b : DScalar D, d_eqb a b = true <-> a = b;
  dl_batch : forall ss, (forall s, In s ss -> s <> d_zero) ->
    d_invert_batch ss = Ret (map (@d_invert D) ss);
  dl_to_bytes : forall z, d_to_bytes (dl_phi z) = le_bytes 32 (Z.to_N (z mod dl_order));
  dl_canonical : forall b, List.length b = 32%nat ->
    d_from_canonical_bytes b =
      if (Z.of_N (le_val b) <? dl_order)%Z then Some (dl_phi (Z.of_N (le_val b))) else None;
  dl_wide : forall b, List.length b = 64%nat ->
    d_from_bytes_mod_order_wide b = dl_phi (Z.of_N (le_val b));
  (* points form an abelian group; scalars act by repeated addition *)
  dl_add_comm : forall P Q : DPoint D, p_add P Q = p_add Q P;
  dl_add_assoc : forall P Q R : DPoint D, p_add P (p_add Q R) = p_add (p_add P Q) R;
  dl_add_id : forall P : DPoint D, p_add p_identity P = P;
  dl_add_neg : forall P : DPoint D, p_add P (p_neg P) = p_identity;
  dl_sub : forall P Q : DPoint D, p_sub P Q = p_add P (p_neg Q);
  dl_mul : forall (P : DPoint D) z, p_mul P (dl_phi z) = times (Z.to_nat (z mod dl_order)) P;
  dl_peqb : forall P Q : DPoint D, p_eqb P Q = true <-> P = Q;
  dl_is_identity : forall P : DPoint D, p_is_identity P = true <-> P = p_identity;
  (* the base point generates the points of order [dl_order] *)
  dl_base_nontrivial : @p_basepoint D <> p_identity;
  dl_base_order : times (Z.to_nat dl_order) p_basepoint = p_identity;
  dl_log : DPoint D -> DScalar D;
  dl_log_ok : forall P, times (Z.to_nat dl_order) P = p_identity -> p_mul p_basepoint (dl_log P) = P;
  dl_torsion_free : forall P,
    p_is_torsion_free P = true <-> times (Z.to_nat dl_order) P = p_identity;
  (* optimized multiplications *)
  dl_table : forall s, p_table_mul s = p_mul (@p_basepoint D) s;
  dl_double : forall k (P : DPoint D) r,
    p_double_mul_basepoint k P r = p_add (p_mul P k) (p_mul p_basepoint r);
  dl_multi : forall (ss : list (DScalar D)) es, List.length ss = List.length es ->
    p_multiscalar_mul ss es = Ret (p_lin_comb ss es);
  dl_vartime_multi : forall (ss : list (DScalar D)) es, List.length ss = List.length es ->
    p_vartime_multiscalar_mul ss es = Ret (p_lin_comb ss es);
  dl_multi_mismatch : forall (ss : list (DScalar D)) (es : list (DPoint D)),
    List.length ss <> List.length es -> p_multiscalar_mul ss es = Panic PBackend;
  dl_vartime_multi_mismatch : forall (ss : list (DScalar D)) (es : list (DPoint D)),
    List.length ss <> List.length es -> p_vartime_multiscalar_mul ss es = Panic PBackend;
  (* encodings *)
  dl_compress_len : forall P : DPoint D, List.length (p_compress P) = 32%nat;
  dl_decompress : forall P : DPoint D, p_decompress (p_compress P) = Some P
}.

(** Ristretto: no points besides those generated by the base point, and [decompress] accepts
    canonical encodings only *)
Definition prime_order (L : DalekLaws) : Prop :=
  forall P, times (Z.to_nat (dl_order L)) P = p_identity.
Definition canonical_decompress : Prop :=
  forall b (P : DPoint D), p_decompress b = Some P -> p_compress P = b.

(** ** The prime-order subgroup as a group of its own *)
Section Subgroup.
Context (L : DalekLaws).

Definition in_subgroup (P : DPoint D) : Prop := times (Z.to_nat (dl_order L)) P = p_identity.

Definition SubPoint : Type := { P : DPoint D | p_is_torsion_free P = true }.

Lemma nmul_identity n : times n p_identity = p_identity.
Proof.
  unfold times. induction n as [|n IH]; cbn [nmul]; [reflexivity|]. rewrite IH. apply (dl_add_id L).
Qed.

(** points outside of the subgroup (which never occur below) are sent to the identity *)
Definition sub_of (P : DPoint D) : SubPoint :=
  match bool_dec (p_is_torsion_free P) true with
  | left H => exist _ P H
  | right _ => exist _ p_identity (proj2 (dl_torsion_free L p_identity) (nmul_identity _))
  end.

(** [Curve25519Subgroup D] with its operations restricted to the subgroup *)
Definition prime_subgroup : Group :=
  let G := Curve25519Subgroup D in {|
  Scalar := Scalar G; Element := SubPoint;
  s_default := s_default (g := G); s_of_u64 := s_of_u64 (g := G); s_neg := s_neg (g := G);
  s_add := s_add (g := G); s_sub := s_sub (g := G); s_mul := s_mul (g := G); s_eqb := s_eqb (g := G);
  SCALAR_SIZE := SCALAR_SIZE G; invert_scalar := invert_scalar (g := G);
  invert_scalars := invert_scalars (g := G);
  serialize_scalar := serialize_scalar (g := G); deserialize_scalar := deserialize_scalar (g := G);
  e_add := fun P Q => sub_of (e_add (g := G) (proj1_sig P) (proj1_sig Q));
  e_sub := fun P Q => sub_of (e_sub (g := G) (proj1_sig P) (proj1_sig Q));
  e_neg := fun P => sub_of (e_neg (g := G) (proj1_sig P));
  e_mul := fun P s => sub_of (e_mul (g := G) (proj1_sig P) s);
  e_eqb := fun P Q => e_eqb (g := G) (proj1_sig P) (proj1_sig Q);
  ELEMENT_SIZE := ELEMENT_SIZE G;
  identity := sub_of (identity (g := G));
  is_identity := fun P => is_identity (g := G) (proj1_sig P);
  generator := sub_of (generator (g := G));
  serialize_element := fun P => serialize_element (g := G) (proj1_sig P);
  deserialize_element := fun b => option_map sub_of (deserialize_element (g := G) b);
  mul_generator := fun s => sub_of (mul_generator (g := G) s);
  vartime_mul_generator := fun s => sub_of (vartime_mul_generator (g := G) s);
  multi_mul := fun ss es => out_map sub_of (multi_mul (g := G) ss (map (@proj1_sig _ _) es));
  vartime_double_mul_generator := fun k P r =>
    sub_of (vartime_double_mul_generator (g := G) k (proj1_sig P) r);
  vartime_multi_mul := fun ss es =>
    out_map sub_of (vartime_multi_mul (g := G) ss (map (@proj1_sig _ _) es))
|}.

(** the subgroup's points among all points *)
Definition point : Element prime_subgroup -> Element (Curve25519Subgroup D) :=
  @proj1_sig _ _.

(** The environments of the crate with the two groups: same RNG, same hash functions, and the same
    reduction of random bytes to scalars *)
Definition curve25519_env := dalek_env D (curve25519_deserialize_element D).

Definition subgroup_env (R : Type)
    (fill : nat -> R -> bytes * R) (squeeze : transcript -> string -> nat -> bytes)
    (sha : bytes -> bytes) (estimate : N -> N) (b : Build) : Env := {|
  env_group := prime_subgroup; Rng := R;
  generate_scalar := dalek_generate_scalar D fill : R -> Scalar prime_subgroup * R;
  fill_bytes := fill;
  oracle := fun t l => dalek_scalar_from_random_bytes D (squeeze t l);
  sha256 := sha; len_estimate := estimate; env_build := b |}.

End Subgroup.
End Dalek.
Arguments times {D}.
Arguments p_lin_comb {D}.
Arguments dl_order {D}.
Arguments dl_phi {D}.
Arguments in_subgroup {D}.
Arguments prime_subgroup {D}.
Arguments point {D L}.
Arguments prime_order {D}.
Arguments sub_of {D}.
Arguments subgroup_env {D}.

(** ** elliptic-curve *)
Section Generic.
Context (C : Curve).

Record CurveLaws : Type := mkCurveLaws {
  cl_order : Z;
  cl_prime : prime cl_order;
  cl_inv : CScalar C -> CScalar C;
  cl_field : field_theory (@c_default C) (c_from_u64 1) c_add c_mul c_sub c_neg
               (fun a b => c_mul a (cl_inv b)) cl_inv (@eq (CScalar C));
  cl_phi : Z -> CScalar C;
  cl_phi_add : forall a b, cl_phi (a + b) = c_add (cl_phi a) (cl_phi b);
  cl_phi_mul : forall a b, cl_phi (a * b) = c_mul (cl_phi a) (cl_phi b);
  cl_phi_eq : forall a b, cl_phi a = cl_phi b <-> (a mod cl_order = b mod cl_order)%Z;
  cl_phi_surj : forall s, exists z, s = cl_phi z;
  cl_u64 : forall n, (n < u64_lim)%N -> c_from_u64 n = cl_phi (Z.of_N n);
  cl_eqb : forall a b : CScalar C, c_eqb a b = true <-> a = b;
  cl_invert : forall s : CScalar C, c_invert s = None <-> s = c_default;
  cl_invert_ok : forall s i : CScalar C, c_invert s = Some i -> c_mul i s = c_from_u64 1;
  cl_size : (0 < c_field_size C)%nat;
  cl_repr_len : forall s : CScalar C, List.length (c_to_repr s) = c_field_size C;
  cl_from_to_repr : forall s : CScalar C, c_from_repr (c_to_repr s) = Some s;
  cl_to_from_repr : forall b (s : CScalar C), c_from_repr b = Some s -> c_to_repr s = b;
  (* points form a cyclic group of order [cl_order] *)
  cl_add_comm : forall P Q : CPoint C, cp_add P Q = cp_add Q P;
  cl_add_assoc : forall P Q R : CPoint C, cp_add P (cp_add Q R) = cp_add (cp_add P Q) R;
  cl_add_id : forall P : CPoint C, cp_add cp_identity P = P;
  cl_add_neg : forall P : CPoint C, cp_add P (cp_neg P) = cp_identity;
  cl_sub : forall P Q : CPoint C, cp_sub P Q = cp_add P (cp_neg Q);
  cl_mul : forall (P : CPoint C) z,
    cp_mul P (cl_phi z) = nmul cp_add cp_identity (Z.to_nat (z mod cl_order)) P;
  cl_peqb : forall P Q : CPoint C, cp_eqb P Q = true <-> P = Q;
  cl_is_identity : forall P : CPoint C, cp_is_identity P = true <-> P = cp_identity;
  cl_generator_nontrivial : @cp_generator C <> cp_identity;
  cl_points_order : forall P : CPoint C,
    nmul cp_add cp_identity (Z.to_nat cl_order) P = cp_identity;
  cl_log : CPoint C -> CScalar C;
  cl_log_ok : forall P, cp_mul cp_generator (cl_log P) = P;
  (* SEC1: compressed points have a tag byte and one coordinate, the identity a single byte *)
  cl_sec1_len : forall P : CPoint C, P <> cp_identity ->
    List.length (sec1_as_bytes (cp_to_sec1_point P true)) = (c_field_size C + 1)%nat;
  cl_sec1_identity : List.length (sec1_as_bytes (cp_to_sec1_point (@cp_identity C) true)) = 1%nat;
  cl_sec1_bytes : forall s : CSec1 C, sec1_from_bytes (sec1_as_bytes s) = Some s;
  cl_sec1_point : forall P : CPoint C, cp_from_sec1_point (cp_to_sec1_point P true) = Some P
}.

End Generic.
Arguments cl_order {C}.
Arguments cl_phi {C}.
