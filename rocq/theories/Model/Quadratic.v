(** * Quadratic voting: src/app/quadratic_voting.rs *)
From Coq Require Import List NArith Bool String Arith.
From Verif.Model Require Import Base Group Transcript Keys Encryption Ring Range Mul.
Import ListNotations.
Open Scope string_scope.
Open Scope list_scope.
Open Scope N_scope.

(** src/app/quadratic_voting.rs 130-132; [fuel] bounds the iterations *)
Fixpoint isqrt_scale (fuel : nat) (power_of_4 x : N) : outcome N :=
  match fuel with
  | O => Panic PFuel
  | S fuel' => if x <? power_of_4 then isqrt_scale fuel' (power_of_4 / 4) x else Ret power_of_4
  end.

(** src/app/quadratic_voting.rs 133-141 *)
Fixpoint isqrt_loop (b : Build) (fuel : nat) (power_of_4 x root : N) : outcome N :=
  match fuel with
  | O => Panic PFuel
  | S fuel' =>
      if 0 <? power_of_4 then
        s <- u64_add b root power_of_4 ;;
        if s <=? x then
          x <- u64_sub b x s ;;
          root <- u64_add b (root / 2) power_of_4 ;;
          isqrt_loop b fuel' (power_of_4 / 4) x root
        else isqrt_loop b fuel' (power_of_4 / 4) x (root / 2)
      else Ret root
  end.

(** src/app/quadratic_voting.rs 127-143 *)
Definition isqrt (b : Build) (x : N) : outcome N :=
  power_of_4 <- isqrt_scale 34 (2 ^ 62) x ;;
  isqrt_loop b 34 power_of_4 x 0.

(** src/app/quadratic_voting.rs 335-354 *)
Inductive QuadraticVotingError : Type :=
| QVVariant (index : nat) (error : VerificationError)
| QVCreditRange (e : VerificationError)
| QVCreditEquivalence (e : VerificationError)
| QVOptionsLenMismatch (expected actual : nat).

Section QuadraticTypes.
Context {G : Group}.
Local Notation scalar := (Scalar G).
Local Notation element := (Element G).

(** src/app/quadratic_voting.rs 47-52; getters 79-86 are projections *)
Record QuadraticVotingParams : Type := mkQVParams {
  qv_vote_count_range : PreparedRange G;
  qv_credit_range : PreparedRange G;
  qv_options_count : nat;
  qv_receiver : PublicKey G
}.

(** src/app/quadratic_voting.rs 214-217 *)
Record CiphertextWithRangeProof : Type := mkCiphertextWithRangeProof {
  crp_ciphertext : Ciphertext G;
  crp_range_proof : RangeProof G
}.

(** src/app/quadratic_voting.rs 205-209 *)
Record QuadraticVotingBallot : Type := mkQVBallot {
  qb_votes : list CiphertextWithRangeProof;
  qb_credit : CiphertextWithRangeProof;
  qb_credit_equivalence_proof : SumOfSquaresProof G
}.

End QuadraticTypes.
Arguments QuadraticVotingParams : clear implicits.
Arguments CiphertextWithRangeProof : clear implicits.
Arguments QuadraticVotingBallot : clear implicits.

Section Quadratic.
Context {E : Env}.
Local Notation scalar := (Scalar E).
Local Notation element := (Element E).
Local Notation rng := (Rng E).
Local Notation b := (env_build E).
Local Notation QuadraticVotingParams := (QuadraticVotingParams E).
Local Notation CiphertextWithRangeProof := (CiphertextWithRangeProof E).
Local Notation QuadraticVotingBallot := (QuadraticVotingBallot E).

(** [RangeDecomposition::optimal(ub).into()] (range.rs 148-153, 334-339) *)
Definition optimal_range (ub : N) : outcome (PreparedRange E) :=
  d <- RangeDecomposition_optimal b (@len_estimate E) ub ;;
  PreparedRange_new d.

(** src/app/quadratic_voting.rs 63-76.  The conversions into prepared ranges happen
    after both decompositions; neither has a side effect. *)
Definition QuadraticVotingParams_new (receiver : PublicKey E) (options : nat) (credits : N)
    : outcome QuadraticVotingParams :=
  _ <- assert (0 <? options)%nat ;;
  _ <- assert (0 <? credits) ;;
  max_votes <- isqrt b credits ;;
  vote_ub <- u64_add b max_votes 1 ;;
  vote_count_range <- RangeDecomposition_optimal b (@len_estimate E) vote_ub ;;
  credit_ub <- u64_add b credits 1 ;;
  credit_range <- RangeDecomposition_optimal b (@len_estimate E) credit_ub ;;
  vote_count_range <- PreparedRange_new vote_count_range ;;
  credit_range <- PreparedRange_new credit_range ;;
  Ret {| qv_vote_count_range := vote_count_range; qv_credit_range := credit_range;
         qv_options_count := options; qv_receiver := receiver |}.

(** src/app/quadratic_voting.rs 89-91 *)
Definition QuadraticVotingParams_credits (p : QuadraticVotingParams) : outcome N :=
  ub <- RangeDecomposition_upper_bound b (pr_inner (qv_credit_range p)) ;;
  u64_sub b ub 1.

(** src/app/quadratic_voting.rs 94-96 *)
Definition QuadraticVotingParams_max_votes (p : QuadraticVotingParams) : outcome N :=
  ub <- RangeDecomposition_upper_bound b (pr_inner (qv_vote_count_range p)) ;;
  u64_sub b ub 1.

(** src/app/quadratic_voting.rs 104-111 *)
Definition QuadraticVotingParams_set_max_votes (p : QuadraticVotingParams) (max_votes : N)
    : outcome QuadraticVotingParams :=
  sq <- u64_mul b max_votes max_votes ;;
  credits <- QuadraticVotingParams_credits p ;;
  _ <- assert (sq <=? credits) ;;
  ub <- u64_add b max_votes 1 ;;
  range <- optimal_range ub ;;
  Ret {| qv_vote_count_range := range; qv_credit_range := qv_credit_range p;
         qv_options_count := qv_options_count p; qv_receiver := qv_receiver p |}.

(** src/app/quadratic_voting.rs 113-122 *)
Definition QuadraticVotingParams_check_options_count (p : QuadraticVotingParams)
    (actual_count : nat) : result unit QuadraticVotingError :=
  if (qv_options_count p =? actual_count)%nat then Ok tt
  else Err (QVOptionsLenMismatch (qv_options_count p) actual_count).

(** src/app/quadratic_voting.rs 246-258 *)
Fixpoint qv_encrypt_votes (params : QuadraticVotingParams) (votes : list N) (r : rng)
    : outcome (list (CiphertextWithValue E scalar * RangeProof E) * rng) :=
  match votes with
  | [] => Ret ([], r)
  | vote_count :: votes' =>
      '(c, proof, _, r) <- RangeProof_new (qv_receiver params) (qv_vote_count_range params)
                             vote_count (transcript_new "quadratic_voting_variant") r ;;
      '(rest, r) <- qv_encrypt_votes params votes' r ;;
      Ret ((CiphertextWithValue_generalize s_of_u64 c, proof) :: rest, r)
  end.

(** src/app/quadratic_voting.rs 234-284 *)
Definition QuadraticVotingBallot_new (params : QuadraticVotingParams) (votes : list N) (r : rng)
    : outcome (QuadraticVotingBallot * rng) :=
  _ <- assert (List.length votes =? qv_options_count params)%nat ;;
  squares <- mapM (fun x => u64_mul b x x) votes ;;
  credit <- u64_sum b 0 squares ;;
  '(votes, r) <- qv_encrypt_votes params votes r ;;
  '(credit, credit_range_proof, _, r) <-
    RangeProof_new (qv_receiver params) (qv_credit_range params) credit
      (transcript_new "quadratic_voting_credit_range") r ;;
  let credit := CiphertextWithValue_generalize s_of_u64 credit in
  '(credit_equivalence_proof, _, r) <-
    SumOfSquaresProof_new (map fst votes) credit (qv_receiver params)
      (transcript_new "quadratic_voting_credit_equiv") r ;;
  Ret ({| qb_votes := map (fun p => {| crp_ciphertext := cwv_inner (fst p);
                                       crp_range_proof := snd p |}) votes;
          qb_credit := {| crp_ciphertext := cwv_inner credit;
                          crp_range_proof := credit_range_proof |};
          qb_credit_equivalence_proof := credit_equivalence_proof |}, r).

(** src/app/quadratic_voting.rs 297-307 *)
Fixpoint qv_verify_votes (params : QuadraticVotingParams) (i : nat)
    (votes : list CiphertextWithRangeProof) : outcome (result unit QuadraticVotingError) :=
  match votes with
  | [] => Ret (Ok tt)
  | v :: votes' =>
      '(res, _) <- RangeProof_verify (crp_range_proof v) (qv_receiver params)
                     (qv_vote_count_range params) (crp_ciphertext v)
                     (transcript_new "quadratic_voting_variant") ;;
      match res with
      | Err e => Ret (Err (QVVariant i e))
      | Ok _ => qv_verify_votes params (S i) votes'
      end
  end.

(** src/app/quadratic_voting.rs 291-329 *)
Definition QuadraticVotingBallot_verify (ballot : QuadraticVotingBallot)
    (params : QuadraticVotingParams)
    : outcome (result (list (Ciphertext E)) QuadraticVotingError) :=
  match QuadraticVotingParams_check_options_count params (List.length (qb_votes ballot)) with
  | Err e => Ret (Err e)
  | Ok _ =>
      votes_ok <- qv_verify_votes params 0 (qb_votes ballot) ;;
      match votes_ok with
      | Err e => Ret (Err e)
      | Ok _ =>
          '(res, _) <- RangeProof_verify (crp_range_proof (qb_credit ballot)) (qv_receiver params)
                         (qv_credit_range params) (crp_ciphertext (qb_credit ballot))
                         (transcript_new "quadratic_voting_credit_range") ;;
          match res with
          | Err e => Ret (Err (QVCreditRange e))
          | Ok _ =>
              '(res, _) <- SumOfSquaresProof_verify (qb_credit_equivalence_proof ballot)
                             (map crp_ciphertext (qb_votes ballot))
                             (crp_ciphertext (qb_credit ballot)) (qv_receiver params)
                             (transcript_new "quadratic_voting_credit_equiv") ;;
              match res with
              | Err e => Ret (Err (QVCreditEquivalence e))
              | Ok _ => Ret (Ok (map crp_ciphertext (qb_votes ballot)))
              end
          end
      end
  end.

End Quadratic.
