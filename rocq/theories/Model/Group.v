(** * The [Group] trait: src/group/mod.rs.

    A backend is a record of carriers and operations; its documented contract is
    the separate record [GroupLaws].  The curve arithmetic inside the external
    crates (curve25519-dalek, elliptic-curve) is not modelled. *)
From Coq Require Import List NArith ZArith Znumtheory Field_theory.
From Verif.Model Require Import Base.
Import ListNotations.

(** src/group/mod.rs 65-255: traits [ScalarOps], [ElementOps] and [Group] merged
    into one record.  Operations which may panic in some backend return [outcome]:
    - [invert_scalar] ([Generic]: [unwrap] on zero, generic.rs 47-49);
    - [invert_scalars] (dalek batch inversion requires non-zero inputs);
    - [serialize_element] ([Generic]: [copy_from_slice] of a 1-byte SEC1 identity
      into an [ELEMENT_SIZE] buffer, generic.rs 87-90);
    - [multi_mul], [vartime_multi_mul] (dalek asserts equally long inputs).
    Writing into a caller-provided buffer is modelled as returning the bytes. *)
Record Group : Type := mkGroup {
  Scalar : Type;
  Element : Type;
  (* mod.rs 68-80: bounds of the associated type [Scalar] *)
  s_default : Scalar;                       (* Default::default() *)
  s_of_u64 : N -> Scalar;                   (* From<u64> *)
  s_neg : Scalar -> Scalar;
  s_add : Scalar -> Scalar -> Scalar;
  s_sub : Scalar -> Scalar -> Scalar;
  s_mul : Scalar -> Scalar -> Scalar;
  s_eqb : Scalar -> Scalar -> bool;         (* PartialEq *)
  SCALAR_SIZE : nat;                        (* mod.rs 83 *)
  invert_scalar : Scalar -> outcome Scalar;             (* mod.rs 107 *)
  invert_scalars : list Scalar -> outcome (list Scalar); (* mod.rs 114-118 *)
  serialize_scalar : Scalar -> bytes;                   (* mod.rs 122 *)
  deserialize_scalar : bytes -> option Scalar;          (* mod.rs 127 *)
  (* mod.rs 135-141: bounds of the associated type [Element] *)
  e_add : Element -> Element -> Element;
  e_sub : Element -> Element -> Element;
  e_neg : Element -> Element;
  e_mul : Element -> Scalar -> Element;
  e_eqb : Element -> Element -> bool;
  ELEMENT_SIZE : nat;                                   (* mod.rs 144 *)
  identity : Element;                                   (* mod.rs 147 *)
  is_identity : Element -> bool;                        (* mod.rs 150 *)
  generator : Element;                                  (* mod.rs 153 *)
  serialize_element : Element -> outcome bytes;         (* mod.rs 157 *)
  deserialize_element : bytes -> option Element;        (* mod.rs 162 *)
  (* mod.rs 183-255: trait [Group] *)
  mul_generator : Scalar -> Element;                    (* mod.rs 191 *)
  vartime_mul_generator : Scalar -> Element;            (* mod.rs 203 *)
  multi_mul : list Scalar -> list Element -> outcome Element;         (* 214 *)
  vartime_double_mul_generator : Scalar -> Element -> Scalar -> Element; (* 232 *)
  vartime_multi_mul : list Scalar -> list Element -> outcome Element  (* 248 *)
}.

Arguments s_default {g}.
Arguments s_of_u64 {g}.
Arguments s_neg {g}.
Arguments s_add {g}.
Arguments s_sub {g}.
Arguments s_mul {g}.
Arguments s_eqb {g}.
Arguments invert_scalar {g}.
Arguments invert_scalars {g}.
Arguments serialize_scalar {g}.
Arguments deserialize_scalar {g}.
Arguments e_add {g}.
Arguments e_sub {g}.
Arguments e_neg {g}.
Arguments e_mul {g}.
Arguments e_eqb {g}.
Arguments identity {g}.
Arguments is_identity {g}.
Arguments generator {g}.
Arguments serialize_element {g}.
Arguments deserialize_element {g}.
Arguments mul_generator {g}.
Arguments vartime_mul_generator {g}.
Arguments multi_mul {g}.
Arguments vartime_double_mul_generator {g}.
Arguments vartime_multi_mul {g}.

Declare Scope sc_scope.
Delimit Scope sc_scope with S.
Bind Scope sc_scope with Scalar.
Notation "a + b" := (s_add a b) : sc_scope.
Notation "a - b" := (s_sub a b) : sc_scope.
Notation "a * b" := (s_mul a b) : sc_scope.
Notation "- a" := (s_neg a) : sc_scope.
Notation "0" := s_default : sc_scope.
Notation "1" := (s_of_u64 1) : sc_scope.

Declare Scope el_scope.
Delimit Scope el_scope with E.
Bind Scope el_scope with Element.
Notation "a + b" := (e_add a b) : el_scope.
Notation "a - b" := (e_sub a b) : el_scope.
Notation "a * s" := (e_mul a s%S) : el_scope.
Notation "- a" := (e_neg a) : el_scope.

(** The scalar combination [sum_i  elements_i * scalars_i] which the multi-scalar
    multiplication methods are documented to compute (mod.rs 207-213). *)
Fixpoint lin_comb {G : Group} (ss : list (Scalar G)) (es : list (Element G)) : Element G :=
  match ss, es with
  | s :: ss', e :: es' => (e * s + lin_comb ss' es')%E
  | _, _ => identity
  end.

(** ** The contract of a backend (mod.rs 61-64, 130-131, 165-182 and the method docs):
    scalars form the prime field Z_q, elements form a cyclic group of order q with
    the given generator, conversions and encodings are faithful.

    [order], [s_inv], [phi] and [dlog] are mathematical objects used to state the
    contract; no code computes them.  (A discrete logarithm exists for every element
    of a cyclic group; nothing is said about its cost.) *)
Record GroupLaws (G : Group) : Type := mkGroupLaws {
  (* the scalar field is Z_order *)
  order : Z;
  order_prime : prime order;
  s_inv : Scalar G -> Scalar G;
  s_field : field_theory (@s_default G) (s_of_u64 1) s_add s_mul s_sub s_neg
              (fun a b => s_mul a (s_inv b)) s_inv (@eq (Scalar G));
  phi : Z -> Scalar G;
  phi_add : forall a b, phi (a + b) = s_add (phi a) (phi b);
  phi_mul : forall a b, phi (a * b) = s_mul (phi a) (phi b);
  phi_eq : forall a b, phi a = phi b <-> (a mod order = b mod order)%Z;
  phi_surj : forall s, exists z, s = phi z;
  of_u64_phi : forall n, (n < u64_lim)%N -> s_of_u64 n = phi (Z.of_N n);
  s_eqb_ok : forall a b : Scalar G, s_eqb a b = true <-> a = b;
  (* elements form an abelian group and a vector space over the scalars *)
  e_add_comm : forall a b : Element G, e_add a b = e_add b a;
  e_add_assoc : forall a b c : Element G, e_add a (e_add b c) = e_add (e_add a b) c;
  e_add_id : forall a : Element G, e_add identity a = a;
  e_add_neg : forall a : Element G, e_add a (e_neg a) = identity;
  e_sub_def : forall a b : Element G, e_sub a b = e_add a (e_neg b);
  e_mul_1 : forall a : Element G, e_mul a (s_of_u64 1) = a;
  e_mul_add : forall (a : Element G) s t, e_mul a (s_add s t) = e_add (e_mul a s) (e_mul a t);
  e_mul_mul : forall (a : Element G) s t, e_mul a (s_mul s t) = e_mul (e_mul a s) t;
  e_mul_e_add : forall (a b : Element G) s, e_mul (e_add a b) s = e_add (e_mul a s) (e_mul b s);
  e_eqb_ok : forall a b : Element G, e_eqb a b = true <-> a = b;
  is_identity_ok : forall a : Element G, is_identity a = true <-> a = identity;
  (* the generator generates the whole group and has full order *)
  dlog : Element G -> Scalar G;
  dlog_ok : forall a : Element G, e_mul generator (dlog a) = a;
  generator_order : forall s, e_mul (@generator G) s = identity -> s = s_default;
  (* named methods agree with the operators *)
  mul_generator_ok : forall s, mul_generator s = e_mul (@generator G) s;
  vartime_mul_generator_ok : forall s, vartime_mul_generator s = e_mul (@generator G) s;
  multi_mul_ok : forall (ss : list (Scalar G)) es, List.length ss = List.length es ->
    multi_mul ss es = Ret (lin_comb ss es);
  vartime_double_mul_generator_ok : forall k K r,
    vartime_double_mul_generator k K r = e_add (e_mul K k) (e_mul (@generator G) r);
  vartime_multi_mul_ok : forall (ss : list (Scalar G)) es, List.length ss = List.length es ->
    vartime_multi_mul ss es = Ret (lin_comb ss es);
  invert_scalar_ok : forall s, s <> s_default -> invert_scalar s = Ret (s_inv s);
  invert_scalars_ok : forall ss, (forall s, In s ss -> s <> s_default) ->
    invert_scalars ss = Ret (map s_inv ss);
  (* encodings *)
  scalar_size_pos : (0 < SCALAR_SIZE G)%nat;
  element_size_pos : (0 < ELEMENT_SIZE G)%nat;
  ser_scalar_len : forall s : Scalar G, List.length (serialize_scalar s) = SCALAR_SIZE G;
  deser_ser_scalar : forall s : Scalar G, deserialize_scalar (serialize_scalar s) = Some s;
  ser_deser_scalar : forall b (s : Scalar G), List.length b = SCALAR_SIZE G ->
    deserialize_scalar b = Some s -> serialize_scalar s = b;
  ser_element_some : forall e : Element G, e <> identity -> exists b, serialize_element e = Ret b;
  ser_element_ok : forall (e : Element G) b, serialize_element e = Ret b ->
    List.length b = ELEMENT_SIZE G /\ deserialize_element b = Some e
}.

Arguments order {G}.
Arguments order_prime {G}.
Arguments s_inv {G}.
Arguments s_field {G}.
Arguments phi {G}.
Arguments dlog {G}.

(** Backends whose [serialize_element] never panics (Ristretto, Curve25519Subgroup);
    [Generic] (SEC1) fails this exactly at the identity. *)
Definition ser_total (G : Group) : Prop :=
  exists b, @serialize_element G identity = Ret b.

(** Backends whose element decoder accepts only the canonical encoding (Ristretto). *)
Definition deser_canonical (G : Group) : Prop :=
  forall b (e : Element G), List.length b = ELEMENT_SIZE G ->
    deserialize_element b = Some e -> serialize_element e = Ret b.

(** ** Provided methods of the traits. *)

(** src/group/mod.rs 114-118 *)
Fixpoint default_invert_scalars {S : Type} (inv : S -> outcome S) (l : list S) : outcome (list S) :=
  match l with
  | [] => Ret []
  | s :: l' =>
      s' <- inv s ;;
      l'' <- default_invert_scalars inv l' ;;
      Ret (s' :: l'')
  end.

(** src/group/mod.rs 214-224: [zip] stops at the shorter iterator. *)
Definition default_multi_mul {S E : Type} (id : E) (add : E -> E -> E) (mul : E -> S -> E)
    (ss : list S) (es : list E) : outcome E :=
  Ret (fold_left (fun out (p : S * E) => let '(s, e) := p in add out (mul e s)) (combine ss es) id).

(** src/group/mod.rs 183-255: replace the methods of [trait Group] (and
    [invert_scalars]) by their provided bodies; [Generic] uses exactly these
    (generic.rs 98-106). *)
Definition with_defaults (G : Group) : Group :=
  {| Scalar := Scalar G; Element := Element G;
     s_default := s_default; s_of_u64 := s_of_u64; s_neg := s_neg; s_add := s_add;
     s_sub := s_sub; s_mul := s_mul; s_eqb := s_eqb; SCALAR_SIZE := SCALAR_SIZE G;
     invert_scalar := invert_scalar;
     invert_scalars := default_invert_scalars invert_scalar;
     serialize_scalar := serialize_scalar; deserialize_scalar := deserialize_scalar;
     e_add := e_add; e_sub := e_sub; e_neg := e_neg; e_mul := e_mul; e_eqb := e_eqb;
     ELEMENT_SIZE := ELEMENT_SIZE G; identity := identity; is_identity := is_identity;
     generator := generator; serialize_element := serialize_element;
     deserialize_element := deserialize_element;
     (* mod.rs 191-193 *)
     mul_generator := fun k => e_mul generator k;
     (* mod.rs 203-205 *)
     vartime_mul_generator := fun k => e_mul generator k;
     multi_mul := default_multi_mul identity e_add e_mul;
     (* mod.rs 232-238 *)
     vartime_double_mul_generator := fun k K r => e_add (e_mul K k) (e_mul generator r);
     (* mod.rs 248-254 *)
     vartime_multi_mul := default_multi_mul identity e_add e_mul |}.
