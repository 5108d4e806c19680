(** * The floating-point estimate of builds with [std]: src/proofs/range.rs 302-305

    [f64] is IEEE 754 binary64 as specified by the standard library's [SpecFloat].  The
    logarithm comes from the platform's mathematical library and is a parameter. *)
From Coq Require Import NArith ZArith Bool.
From Coq.Floats Require Import SpecFloat.
Open Scope Z_scope.

Definition f64_prec : Z := 53.
Definition f64_emax : Z := 1024.

(** [x as f64] for [x : u64]: rounds to nearest, ties to even *)
Definition u64_as_f64 (x : N) : spec_float := binary_normalize f64_prec f64_emax (Z.of_N x) 0 false.

(** [a * b] *)
Definition f64_mul : spec_float -> spec_float -> spec_float := SFmul f64_prec f64_emax.

(** [3.0] *)
Definition f64_three : spec_float := S754_finite false (3 * 2 ^ 51) (-51).

(** [x.ceil() as u64].  [ceil] is exact; the cast saturates and maps NaN to 0. *)
Definition f64_ceil_as_u64 (x : spec_float) : N :=
  match x with
  | S754_zero _ | S754_nan => 0%N
  | S754_infinity s => if s then 0%N else (2 ^ 64 - 1)%N
  | S754_finite s m e =>
      if s then 0%N
      else
        let z := if 0 <=? e then Zpos m * 2 ^ e
                 else (Zpos m + 2 ^ (- e) - 1) / 2 ^ (- e) in
        Z.to_N (Z.min z (2 ^ 64 - 1))
  end.

(** src/proofs/range.rs 302-305: [((upper_bound as f64).log2() * 3.0).ceil() as u64] *)
Definition std_lower_len_estimate (log2 : spec_float -> spec_float) (upper_bound : N) : N :=
  f64_ceil_as_u64 (f64_mul (log2 (u64_as_f64 upper_bound)) f64_three).
