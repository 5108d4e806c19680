(** * Range decompositions and range proofs: src/proofs/range.rs *)
From Coq Require Import List NArith Bool String Arith DecimalString DecimalN.
From Verif.Model Require Import Base Group Transcript Keys Encryption Ring.
Import ListNotations.
Open Scope string_scope.
Open Scope list_scope.
Open Scope N_scope.

(** src/proofs/range.rs 20-23 *)
Record RingSpec : Type := mkRingSpec { rs_size : N; rs_step : N }.

(** src/proofs/range.rs 106-108 *)
Definition RangeDecomposition : Type := list RingSpec.

(** Decimal rendering of a [u64] by [core::fmt] *)
Definition N_decimal (n : N) : string := NilZero.string_of_uint (N.to_uint n).

(** src/proofs/range.rs 113-116 *)
Definition RingSpec_display (s : RingSpec) : string :=
  ((if (1 <? rs_step s)%N then N_decimal (rs_step s) ++ " * " else "") ++ "0.." ++ N_decimal (rs_size s))%string.

(** src/proofs/range.rs 110-124: specs separated by [" + "] *)
Fixpoint RangeDecomposition_display (d : RangeDecomposition) : string :=
  match d with
  | [] => ""
  | [s] => RingSpec_display s
  | s :: d' => (RingSpec_display s ++ " + " ++ RangeDecomposition_display d')%string
  end.

(** src/proofs/range.rs 128-131 *)
Record OptimalDecomposition : Type := mkOptimalDecomposition {
  od_decomposition : RangeDecomposition;
  od_len : N
}.

(** src/proofs/range.rs 155-161 *)
Definition range_just (capacity : N) : RangeDecomposition :=
  [{| rs_size := capacity; rs_step := 1 |}].

Section Integers.
(** Build profile, for the overflow behaviour of the integer computations *)
Variable b : Build.
(** [Self::lower_len_estimate] (303-310): floating point with [std]; arbitrary here *)
Variable estimate : N -> N.

(** src/proofs/range.rs 163-176 *)
Definition range_combine_mul (d : RangeDecomposition) (new_ring_size multiplier : N)
    : outcome RangeDecomposition :=
  d' <- mapM (fun s => step <- u64_mul b (rs_step s) multiplier ;;
                       Ret {| rs_size := rs_size s; rs_step := step |}) d ;;
  Ret (d' ++ [{| rs_size := new_ring_size; rs_step := 1 |}]).

(** [Iterator::sum::<u64>()] *)
Fixpoint u64_sum (acc : N) (l : list N) : outcome N :=
  match l with
  | [] => Ret acc
  | x :: l' => acc' <- u64_add b acc x ;; u64_sum acc' l'
  end.

(** src/proofs/range.rs 179-185 *)
Definition RangeDecomposition_upper_bound (d : RangeDecomposition) : outcome N :=
  terms <- mapM (fun s => m <- u64_sub b (rs_size s) 1 ;; u64_mul b m (rs_step s)) d ;;
  total <- u64_sum 0 terms ;;
  u64_add b total 1.

(** src/proofs/range.rs 188-190 *)
Definition RangeDecomposition_rings_size (d : RangeDecomposition) : outcome N :=
  u64_sum 0 (map rs_size d).

(** src/proofs/range.rs 195-197 *)
Definition RangeDecomposition_proof_size (d : RangeDecomposition) : outcome N :=
  rs <- RangeDecomposition_rings_size d ;;
  two <- u64_mul b 2 (N.of_nat (List.length d)) ;;
  x <- u64_add b rs two ;;
  u64_sub b x 1.

(** src/proofs/range.rs 199-210; the constant-time selection is a minimum.  Division
    by a zero step panics. *)
Fixpoint RangeDecomposition_decompose (d : RangeDecomposition) (secret_value : N)
    : outcome (list N) :=
  match d with
  | [] => _ <- debug_assert b (secret_value =? 0) ;; Ret []
  | s :: d' =>
      _ <- (if rs_step s =? 0 then Panic POverflow else Ret tt) ;;
      let value_index := secret_value / rs_step s in
      ring_max_value <- u64_sub b (rs_size s) 1 ;;
      let value_index := if ring_max_value <? value_index then ring_max_value else value_index in
      p <- u64_mul b value_index (rs_step s) ;;
      secret_value <- u64_sub b secret_value p ;;
      rest <- RangeDecomposition_decompose d' secret_value ;;
      Ret (value_index :: rest)
  end.

(** The memo table [HashMap<u64, OptimalDecomposition>] as an association list *)
Definition opt_memo : Type := list (N * OptimalDecomposition).

Definition memo_get (m : opt_memo) (n : N) : option OptimalDecomposition :=
  match find (fun p => fst p =? n) m with
  | Some p => Some (snd p)
  | None => None
  end.

(** src/proofs/range.rs 258-288: loop over multipliers; [rec] is the recursive call *)
Fixpoint optimize_inner (rec : N -> opt_memo -> outcome (OptimalDecomposition * opt_memo))
    (first_ring_size remaining_capacity : N) (multipliers : list N)
    (opt : OptimalDecomposition) (m : opt_memo) : outcome (OptimalDecomposition * opt_memo) :=
  match multipliers with
  | [] => Ret (opt, m)
  | multiplier :: rest =>
      if negb (remaining_capacity mod multiplier =? 0) then
        optimize_inner rec first_ring_size remaining_capacity rest opt m
      else
        inner_upper_bound <- u64_add b (remaining_capacity / multiplier) 1 ;;
        if inner_upper_bound <? 2 then Ret (opt, m) (* break *)
        else
          x <- u64_add b first_ring_size 2 ;;
          best_estimate <- u64_add b x (estimate inner_upper_bound) ;;
          if od_len opt <? best_estimate then
            optimize_inner rec first_ring_size remaining_capacity rest opt m
          else
            '(inner_opt, m) <- rec inner_upper_bound m ;;
            x <- u64_add b first_ring_size 2 ;;
            candidate_len <- u64_add b x (od_len inner_opt) ;;
            let candidate_rings := (1 + List.length (od_decomposition inner_opt))%nat in
            if (candidate_len <? od_len opt)
               || ((candidate_len =? od_len opt)
                   && (candidate_rings <? List.length (od_decomposition opt))%nat)
            then
              d <- range_combine_mul (od_decomposition inner_opt) first_ring_size multiplier ;;
              optimize_inner rec first_ring_size remaining_capacity rest
                {| od_decomposition := d; od_len := candidate_len |} m
            else optimize_inner rec first_ring_size remaining_capacity rest opt m
  end.

(** The range [lo..=hi] *)
Definition N_range (lo hi : N) : list N :=
  map N.of_nat (seq (N.to_nat lo) (N.to_nat (hi + 1) - N.to_nat lo)).

(** src/proofs/range.rs 251-289: unbounded loop over the first ring size; [fuel]
    bounds the number of iterations *)
Fixpoint optimize_outer (rec : N -> opt_memo -> outcome (OptimalDecomposition * opt_memo))
    (fuel : nat) (upper_bound first_ring_size : N) (opt : OptimalDecomposition) (m : opt_memo)
    : outcome (OptimalDecomposition * opt_memo) :=
  match fuel with
  | O => Panic PFuel
  | S fuel' =>
      x <- u64_add b first_ring_size 2 ;;
      if od_len opt <? x then Ret (opt, m) (* break *)
      else
        remaining_capacity <- u64_sub b upper_bound first_ring_size ;;
        '(opt, m) <- optimize_inner rec first_ring_size remaining_capacity
                       (N_range 2 first_ring_size) opt m ;;
        optimize_outer rec fuel' upper_bound (first_ring_size + 1) opt m
  end.

(** src/proofs/range.rs 238-300; [depth] bounds the recursion depth *)
Fixpoint optimize (depth : nat) (upper_bound : N) (m : opt_memo)
    : outcome (OptimalDecomposition * opt_memo) :=
  match depth with
  | O => Panic PFuel
  | S depth' =>
      match memo_get m upper_bound with
      | Some opt => Ret (opt, m)
      | None =>
          len <- u64_add b upper_bound 2 ;;
          '(opt, m) <- optimize_outer (optimize depth') (S (N.to_nat upper_bound)) upper_bound 2
                         {| od_decomposition := range_just upper_bound; od_len := len |} m ;;
          _ <- debug_assert b (estimate upper_bound <=? od_len opt) ;;
          Ret (opt, (upper_bound, opt) :: m)
      end
  end.

(** src/proofs/range.rs 148-153 *)
Definition RangeDecomposition_optimal (upper_bound : N) : outcome RangeDecomposition :=
  _ <- assert (2 <=? upper_bound) ;;
  '(opt, _) <- optimize (S (N.size_nat upper_bound)) upper_bound [] ;;
  Ret (od_decomposition opt).

End Integers.

(** src/proofs/range.rs 316-323: [63 - leading_zeros] is the rounded-down binary logarithm *)
Definition int_lower_len_estimate (upper_bound : N) : N :=
  (if upper_bound =? 0 then 0 else N.log2 upper_bound) * 3.

Section RangeProofsTypes.
Context {G : Group}.
Local Notation scalar := (Scalar G).
Local Notation element := (Element G).

(** src/proofs/range.rs 329-332 *)
Record PreparedRange : Type := mkPreparedRange {
  pr_inner : RangeDecomposition;
  pr_admissible : list (list element)
}.

(** src/proofs/range.rs 446-450 *)
Record RangeProof : Type := mkRangeProof {
  rap_partial : list (Ciphertext G);
  rap_inner : RingProof G
}.

End RangeProofsTypes.
Arguments PreparedRange : clear implicits.
Arguments RangeProof : clear implicits.

Section RangeProofs.
Context {E : Env}.
Local Notation scalar := (Scalar E).
Local Notation element := (Element E).
Local Notation rng := (Rng E).
Local Notation PreparedRange := (PreparedRange E).
Local Notation RangeProof := (RangeProof E).

(** src/proofs/range.rs 341-355 *)
Definition PreparedRange_new (inner : RangeDecomposition) : outcome PreparedRange :=
  adm <- mapM (fun spec =>
           mapM (fun i => x <- u64_mul (env_build E) i (rs_step spec) ;;
                          Ret (vartime_mul_generator (s_of_u64 x)))
                (map N.of_nat (seq 0 (N.to_nat (rs_size spec))))) inner ;;
  Ret {| pr_inner := inner; pr_admissible := adm |}.

(** src/proofs/range.rs 363-373 *)
Definition PreparedRange_decompose (range : PreparedRange) (secret_value : N) : outcome (list N) :=
  ub <- RangeDecomposition_upper_bound (env_build E) (pr_inner range) ;;
  _ <- assert (secret_value <? ub) ;;
  RangeDecomposition_decompose (env_build E) (pr_inner range) secret_value.

(** src/proofs/range.rs 509-518: the closure run for all rings but the last *)
Fixpoint range_add_values (builder : RingProofBuilder E (Rng E)) (items : list (N * list element))
    (cumulative : ExtendedCiphertext E)
    : outcome (list (Ciphertext E) * ExtendedCiphertext E * RingProofBuilder E (Rng E)) :=
  match items with
  | [] => Ret ([], cumulative, builder)
  | (value_index, admissible) :: items' =>
      '(ext, builder) <- RingProofBuilder_add_value builder admissible (N.to_nat value_index) ;;
      '(rest, cumulative, builder) <-
        range_add_values builder items' (ExtendedCiphertext_add cumulative ext) ;;
      Ret (ext_inner ext :: rest, cumulative, builder)
  end.

(** src/proofs/range.rs 491-492 / 561-562 *)
Definition range_start_transcript (t : transcript) (d : RangeDecomposition) : transcript :=
  let t := start_proof t "encryption_range_proof" in
  append_message t "range" (str_bytes (RangeDecomposition_display d)).

(** src/proofs/range.rs 482-534 *)
Definition RangeProof_from_ciphertext (receiver : PublicKey E) (range : PreparedRange)
    (ciphertext : CiphertextWithValue E N) (t : transcript) (r : rng)
    : outcome (RangeProof * transcript * rng) :=
  value_indexes <- PreparedRange_decompose range (cwv_value ciphertext) ;;
  _ <- debug_assert (env_build E)
         (List.length value_indexes =? List.length (pr_admissible range))%nat ;;
  let t := range_start_transcript t (pr_inner range) in
  ring_responses_size <- RangeDecomposition_rings_size (env_build E) (pr_inner range) ;;
  let ring_responses := repeat s_default (N.to_nat ring_responses_size) in
  let builder := RingProofBuilder_new receiver ring_responses t r in
  let it := combine value_indexes (pr_admissible range) in
  n <- u64_sub (env_build E) (N.of_nat (List.length value_indexes)) 1 ;;
  '(partial, cumulative, builder) <-
    range_add_values builder (firstn (N.to_nat n) it) ExtendedCiphertext_zero ;;
  let last_partial := ExtendedCiphertext_sub (cwv_ext ciphertext) cumulative in
  match skipn (N.to_nat n) it with
  | [] => Panic PUnwrap
  | (value_index, admissible) :: _ =>
      builder <- RingProofBuilder_add_precomputed_value builder last_partial admissible
                   (N.to_nat value_index) ;;
      '(c, responses, t, r) <- RingProofBuilder_build builder ;;
      Ret ({| rap_partial := partial;
              rap_inner := {| rp_challenge := c; rp_responses := responses |} |}, t, r)
  end.

(** src/proofs/range.rs 462-472 *)
Definition RangeProof_new (receiver : PublicKey E) (range : PreparedRange) (value : N)
    (t : transcript) (r : rng)
    : outcome (CiphertextWithValue E N * RangeProof * transcript * rng) :=
  let '(ciphertext, r) := CiphertextWithValue_new s_of_u64 value receiver r in
  '(proof, t, r) <- RangeProof_from_ciphertext receiver range ciphertext t r ;;
  Ret (ciphertext, proof, t, r).

(** src/proofs/range.rs 547-577 *)
Definition RangeProof_verify (p : RangeProof) (receiver : PublicKey E) (range : PreparedRange)
    (ciphertext : Ciphertext E) (t : transcript)
    : outcome (result unit VerificationError * transcript) :=
  match check_lengths "admissible values" (List.length (rap_partial p) + 1)
          (List.length (pr_admissible range)) with
  | Err e => Ret (Err e, t)
  | Ok _ =>
      let t := range_start_transcript t (pr_inner range) in
      let ciphertext_sum := fold_left Ciphertext_add (rap_partial p) Ciphertext_zero in
      let ciphertexts := rap_partial p ++ [Ciphertext_sub ciphertext ciphertext_sum] in
      RingProof_verify (rap_inner p) receiver (pr_admissible range) ciphertexts t
  end.

(** src/keys/impls.rs 124-133 *)
Definition encrypt_range (pk : PublicKey E) (range : PreparedRange) (value : N) (r : rng)
    : outcome (Ciphertext E * RangeProof * rng) :=
  '(c, proof, _, r) <- RangeProof_new pk range value (transcript_new "ciphertext_range") r ;;
  Ret (cwv_inner c, proof, r).

(** src/keys/impls.rs 143-151 *)
Definition verify_range (pk : PublicKey E) (range : PreparedRange) (c : Ciphertext E)
    (p : RangeProof) : outcome (result unit VerificationError) :=
  '(res, _) <- RangeProof_verify p pk range c (transcript_new "ciphertext_range") ;;
  Ret res.

End RangeProofs.
