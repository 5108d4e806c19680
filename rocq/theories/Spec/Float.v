(** * Specification vocabulary for the floating-point estimate (C67) *)
From Coq Require Import NArith ZArith Bool.
From Coq.Floats Require Import SpecFloat.
From Verif.Model Require Import Float.
Open Scope Z_scope.

(** The value of a positive finite number is [numerator / denominator]. *)
Definition numerator (m : positive) (e : Z) : Z := Zpos m * 2 ^ (Z.max e 0).
Definition denominator (e : Z) : Z := 2 ^ (Z.max (- e) 0).

(** [x] is an [f64] whose value is the positive integer [v] *)
Definition f64_integer (x : spec_float) (v : Z) : Prop :=
  exists m e, x = S754_finite false m e /\ valid_binary f64_prec f64_emax x = true /\
    0 < v /\ numerator m e = v * denominator e.

(** [y] is finite, and if it is positive then [y <= k]; [log2 v + 1/100] is not below [y] *)
Definition finite (y : spec_float) : Prop :=
  match y with S754_zero _ | S754_finite _ _ _ => True | _ => False end.
Definition at_most (y : spec_float) (k : Z) : Prop :=
  forall m e, y = S754_finite false m e -> numerator m e <= k * denominator e.
Definition at_most_log2 (y : spec_float) (v : Z) : Prop :=
  forall m e, y = S754_finite false m e ->
    2 ^ (100 * numerator m e) <= 2 ^ denominator e * v ^ (100 * denominator e).

(** What is assumed about [f64::log2]: for an integer [v] it exceeds the binary logarithm by at most 1/100, and it does not
    exceed [k] if [v <= 2^k].  (Mathematical libraries err by about 2^-46 for these arguments, and are exact for powers
    of two.) *)
Record log2_accurate (log2 : spec_float -> spec_float) : Prop := {
  log2_finite : forall x v, f64_integer x v -> finite (log2 x);
  log2_near : forall x v, f64_integer x v -> at_most_log2 (log2 x) v;
  log2_powers : forall x v k, f64_integer x v -> 0 <= k -> v <= 2 ^ k -> at_most (log2 x) k
}.
