(** * Specification of quadratic voting (C43-C47) *)
From Coq Require Import List NArith ZArith String.
From Verif.Model Require Import Base Group Transcript Keys Encryption Ring Range Mul Quadratic.
From Verif.Spec Require Import Encryption LogEquality Sigma Ring Range.
Import ListNotations.
Open Scope string_scope.
Open Scope list_scope.
Open Scope N_scope.

(** sum of squares over the integers *)
Definition squares (votes : list N) : N := n_sum (map (fun v => v * v) votes).

Section Spec.
Context {E : Env}.

(** Parameters obtained through the API: [new], then any number of [set_max_votes]; the index is the
    vote limit that was configured last. *)
Inductive qv_params (receiver : PublicKey E) (options : nat) (credits : N) : N -> QuadraticVotingParams E -> Prop :=
| qv_created : forall p m,
    QuadraticVotingParams_new receiver options credits = Ret p ->
    m * m <= credits -> credits < (m + 1) * (m + 1) ->
    qv_params receiver options credits m p
| qv_limited : forall p m m' p',
    qv_params receiver options credits m p ->
    m' + 65 < 2 ^ 64 -> QuadraticVotingParams_set_max_votes p m' = Ret p' ->
    qv_params receiver options credits m' p'.

(** Cheating in a range proof for [ct] with decomposition [d]: in one of the rings, each challenge is
    the only one that the commitments absorbed before it can answer. *)
Definition range_hit (sk : SecretKey E) (t : transcript) (K : PublicKey E) (d : RangeDecomposition)
    (partial : list (Ciphertext E)) (ct : Ciphertext E) : Prop :=
  exists k s pct rt Ts T q,
    let t0 := ring_context (range_start_transcript t d) K in
    let vs := map (fun i => times (N.of_nat i * rs_step s) generator) (seq 0 (N.to_nat (rs_size s))) in
    nth_error d k = Some s /\ nth_error (range_ciphertexts partial ct) k = Some pct /\
    ~ In (decrypt_to_element sk pct) vs /\
    ring_local t0 pct k rt /\ nth_error Ts k = Some T /\ ring_common t0 Ts q /\
    ring_all_hits rt (pk_element K) pct 0 (oracle q "c") vs T.

(** Cheating in a sum-of-squares proof. *)
Definition sq_hit (t : transcript) (K : PublicKey E) (cs : list (Ciphertext E)) (z : Ciphertext E) : Prop :=
  exists As Z q, sq_hashed t K cs z As Z q /\
    (exists rs sz, sq_answers (pk_element K) cs z As Z (oracle q "c") rs sz) /\
    forall c rs sz, sq_answers (pk_element K) cs z As Z c rs sz -> oracle q "c" = c.

Definition qv_variant_context : transcript := [TMsg "dom-sep" (str_bytes "quadratic_voting_variant")].
Definition qv_credit_context : transcript := [TMsg "dom-sep" (str_bytes "quadratic_voting_credit_range")].
Definition qv_equiv_context : transcript := [TMsg "dom-sep" (str_bytes "quadratic_voting_credit_equiv")].

(** the proof of one vote, and the proofs about credits *)
Definition vote_checked (p : QuadraticVotingParams E) (v : CiphertextWithRangeProof E) (res : result unit VerificationError) : Prop :=
  exists t, RangeProof_verify (crp_range_proof v) (qv_receiver p) (qv_vote_count_range p) (crp_ciphertext v)
              qv_variant_context = Ret (res, t).
Definition credit_checked (p : QuadraticVotingParams E) (ballot : QuadraticVotingBallot E) (res : result unit VerificationError) : Prop :=
  exists t, RangeProof_verify (crp_range_proof (qb_credit ballot)) (qv_receiver p) (qv_credit_range p)
              (crp_ciphertext (qb_credit ballot)) qv_credit_context = Ret (res, t).
Definition equiv_checked (p : QuadraticVotingParams E) (ballot : QuadraticVotingBallot E) (res : result unit VerificationError) : Prop :=
  exists t, SumOfSquaresProof_verify (qb_credit_equivalence_proof ballot) (map crp_ciphertext (qb_votes ballot))
              (crp_ciphertext (qb_credit ballot)) (qv_receiver p) qv_equiv_context = Ret (res, t).

(** what each reported error means *)
Definition qv_reported (p : QuadraticVotingParams E) (ballot : QuadraticVotingBallot E) (e : QuadraticVotingError) : Prop :=
  let n := List.length (qb_votes ballot) in
  let all_ok := forall v, In v (qb_votes ballot) -> vote_checked p v (Ok tt) in
  match e with
  | QVOptionsLenMismatch expected actual =>
      expected = qv_options_count p /\ actual = n /\ expected <> actual
  | QVVariant i ve =>
      qv_options_count p = n /\
      (forall j v, (j < i)%nat -> nth_error (qb_votes ballot) j = Some v -> vote_checked p v (Ok tt)) /\
      exists v, nth_error (qb_votes ballot) i = Some v /\ vote_checked p v (Err ve)
  | QVCreditRange ve => qv_options_count p = n /\ all_ok /\ credit_checked p ballot (Err ve)
  | QVCreditEquivalence ve =>
      qv_options_count p = n /\ all_ok /\ credit_checked p ballot (Ok tt) /\ equiv_checked p ballot (Err ve)
  end.

End Spec.
