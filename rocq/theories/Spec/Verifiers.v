(** * Verifiers as algorithms with oracle access (vocabulary for C57, C58)

    Each definition is the modelled verifier in which every [challenge_scalar] call is a query.  The
    theorem [C57_verifiers] states that running the algorithm with the hash [o] is the modelled
    verifier in the environment with hash [o]; so these definitions are not trusted. *)
From Coq Require Import List String NArith ZArith Arith.
From Verif.Model Require Import Base Group Transcript Keys Encryption LogEquality Ring Range Mul Sharing Choice Quadratic.
From Verif.Spec Require Import Rom.
Import ListNotations.
Open Scope string_scope.
Open Scope list_scope.
Open Scope nat_scope.

Section Verifiers.
Context {E : Env}.
Local Notation scalar := (Scalar E).
Local Notation element := (Element E).
Local Notation algorithm A := (strategy (Scalar E) (outcome A)).

(** a step without queries, then an algorithm *)
Definition doing {A B : Type} (m : outcome A) (f : A -> algorithm B) : algorithm B :=
  match m with Ret a => f a | Panic p => Output (Panic p) end.
(** sequence of two algorithms *)
Definition after {A B : Type} (T : algorithm A) (f : A -> algorithm B) : algorithm B :=
  andthen T (fun m => doing m f).
Definition asking {B : Type} (t : transcript) (f : scalar -> algorithm B) : algorithm B := Ask (t, "c") f.

Definition log_equality_verifier (p : LogEqualityProof E) (log_base : PublicKey E)
    (powers : element * element) (t : transcript) : algorithm (result unit VerificationError * transcript) :=
  let commitment0 := vartime_double_mul_generator (- le_challenge p)%S (fst powers) (le_response p) in
  doing (vartime_multi_mul [(- le_challenge p)%S; le_response p] [snd powers; pk_element log_base]) (fun commitment1 =>
  let t := start_proof t "log_eq" in
  let t := append_element_bytes t "K" (pk_bytes log_base) in
  doing (append_element t "[r]G" (fst powers)) (fun t =>
  doing (append_element t "[r]K" (snd powers)) (fun t =>
  doing (append_element t "[x]G" commitment0) (fun t =>
  doing (append_element t "[x]K" commitment1) (fun t =>
  asking t (fun expected =>
  Output (Ret ((if s_eqb expected (le_challenge p) then Ok tt else Err ChallengeMismatch), t ++ [TChal "c"])))))))).

Definition zero_verifier (pk : PublicKey E) (c : Ciphertext E) (p : LogEqualityProof E)
    : algorithm (result unit VerificationError) :=
  after (log_equality_verifier p pk (random_element c, blinded_element c) (transcript_new "zero_encryption"))
    (fun r => Output (Ret (fst r))).

Definition decryption_verifier (d : CandidateDecryption E) (c : Ciphertext E) (key : PublicKey E)
    (p : LogEqualityProof E) (t : transcript) : algorithm (result (VerifiableDecryption E) VerificationError * transcript) :=
  doing (PublicKey_from_element (random_element c)) (fun base =>
  after (log_equality_verifier p base (pk_element key, vd_dh_element (cd_inner d))
           (start_proof t "decryption_with_custom_key"))
    (fun r => Output (Ret (match fst r with Ok _ => Ok (cd_inner d) | Err e => Err e end, snd r)))).

Definition share_verifier (ks : PublicKeySet E) (candidate : CandidateDecryption E) (c : Ciphertext E) (idx : nat)
    (p : LogEqualityProof E) : algorithm (result (VerifiableDecryption E) VerificationError) :=
  doing (index (ks_participant_keys ks) idx) (fun key =>
  doing (PublicKey_from_element (random_element c)) (fun base =>
  after (log_equality_verifier p base (pk_element key, vd_dh_element (cd_inner candidate))
           (decryption_share_transcript ks idx))
    (fun r => Output (Ret (match fst r with
                           | Ok _ => Ok {| vd_dh_element := vd_dh_element (cd_inner candidate) |}
                           | Err e => Err e end))))).

(** the input of the hash in [ring_eq_challenge] *)
Definition ring_hash_input (rt : transcript) (j : nat) (X : element * element) : outcome transcript :=
  let t := append_u64 rt "j" (N.of_nat j) in
  t <- append_element t "R_G" (fst X) ;;
  append_element t "R_K" (snd X).

Fixpoint ring_loop_verifier (t : transcript) (receiver : element) (c : Ciphertext E) (len : nat)
    (eq_index : nat) (items : list (element * scalar)) (challenge : scalar) (commitments : element * element)
    : algorithm (element * element) :=
  match items with
  | [] => Output (Ret commitments)
  | (admissible, response) :: items' =>
      let c0 := vartime_double_mul_generator (- challenge)%S (random_element c) response in
      doing (vartime_multi_mul [response; (- challenge)%S] [receiver; (blinded_element c - admissible)%E]) (fun c1 =>
      if (eq_index + 1 <? len) then
        doing (ring_hash_input t eq_index (c0, c1)) (fun q =>
        asking q (fun challenge =>
        ring_loop_verifier t receiver c len (S eq_index) items' challenge (c0, c1)))
      else ring_loop_verifier t receiver c len (S eq_index) items' challenge (c0, c1))
  end.

Fixpoint rings_verifier (initial : transcript) (receiver : PublicKey E) (p : RingProof E)
    (ring_index starting_response : nat) (it : list (list element * Ciphertext E)) (t : transcript)
    : algorithm transcript :=
  match it with
  | [] => Output (Ret t)
  | (values, c) :: it' =>
      doing (ring_init_transcript initial c ring_index) (fun ring_transcript =>
      doing (slice_from (rp_responses p) starting_response) (fun tail =>
      after (ring_loop_verifier ring_transcript (pk_element receiver) c (List.length values) 0
               (combine values tail) (rp_challenge p) (generator, generator)) (fun commitments =>
      doing (append_element t "R_G" (fst commitments)) (fun t =>
      doing (append_element t "R_K" (snd commitments)) (fun t =>
      rings_verifier initial receiver p (S ring_index) (starting_response + List.length values) it' t)))))
  end.

Definition ring_verifier (p : RingProof E) (receiver : PublicKey E) (admissible_values : list (list element))
    (ciphertexts : list (Ciphertext E)) (t : transcript) : algorithm (result unit VerificationError * transcript) :=
  match check_lengths "items in all rings" (List.length (rp_responses p))
          (list_sum (map (@List.length element) admissible_values)) with
  | Err e => Output (Ret (Err e, t))
  | Ok _ =>
      let t := ring_initialize_transcript t receiver in
      after (rings_verifier t receiver p 0 0 (combine admissible_values ciphertexts) t) (fun t =>
      asking t (fun expected =>
      Output (Ret ((if s_eqb expected (rp_challenge p) then Ok tt else Err ChallengeMismatch), t ++ [TChal "c"]))))
  end.

Definition bool_verifier (pk : PublicKey E) (c : Ciphertext E) (p : RingProof E) : algorithm (result unit VerificationError) :=
  after (ring_verifier p pk [[identity; generator]] [c] (transcript_new "bool_encryption"))
    (fun r => Output (Ret (fst r))).

Definition range_verifier (p : RangeProof E) (receiver : PublicKey E) (range : PreparedRange E)
    (ciphertext : Ciphertext E) (t : transcript) : algorithm (result unit VerificationError * transcript) :=
  match check_lengths "admissible values" (List.length (rap_partial p) + 1) (List.length (pr_admissible range)) with
  | Err e => Output (Ret (Err e, t))
  | Ok _ =>
      ring_verifier (rap_inner p) receiver (pr_admissible range)
        (rap_partial p ++ [Ciphertext_sub ciphertext (fold_left Ciphertext_add (rap_partial p) Ciphertext_zero)])
        (range_start_transcript t (pr_inner range))
  end.

Definition sum_of_squares_verifier (p : SumOfSquaresProof E) (ciphertexts : list (Ciphertext E))
    (z : Ciphertext E) (receiver : PublicKey E) (t : transcript) : algorithm (result unit VerificationError * transcript) :=
  match check_lengths "ciphertext responses" (List.length (sq_ciphertext_responses p)) (List.length ciphertexts * 2) with
  | Err e => Output (Ret (Err e, t))
  | Ok _ =>
      doing (sq_recommit receiver (sq_challenge p)
               (combine (chunks (List.length (sq_ciphertext_responses p)) 2 (sq_ciphertext_responses p)) ciphertexts)
               (sq_initialize_transcript t receiver)) (fun t =>
      let scalars := odd_items (sq_ciphertext_responses p) ++ [sq_sum_response p; (- sq_challenge p)%S] in
      doing (vartime_multi_mul scalars (map random_element ciphertexts ++ [generator; random_element z])) (fun rc =>
      doing (vartime_multi_mul scalars (map blinded_element ciphertexts ++ [pk_element receiver; blinded_element z])) (fun vc =>
      doing (append_element t "R_z" (random_element z)) (fun t =>
      doing (append_element t "Z" (blinded_element z)) (fun t =>
      doing (append_element t "[e_x]R_x + [e_z]G" rc) (fun t =>
      doing (append_element t "[e_x]X + [e_z]K" vc) (fun t =>
      asking t (fun expected =>
      Output (Ret ((if s_eqb expected (sq_challenge p) then Ok tt else Err ChallengeMismatch), t ++ [TChal "c"]))))))))))
  end.

(** Ballots: [n] options, receiver [K]; the parts of the ballot are given separately. *)
Definition choice_ranges_verifier (K : PublicKey E) (choices : list (Ciphertext E)) (p : RingProof E)
    : algorithm (result (list (Ciphertext E)) ChoiceVerificationError) :=
  after (ring_verifier p K (repeat [identity; generator] (List.length choices)) choices
           (transcript_new "encrypted_choice_ranges")) (fun r =>
  Output (Ret (match fst r with Ok _ => Ok choices | Err err => Err (ChoiceRange err) end))).

Definition multi_choice_verifier (n : nat) (K : PublicKey E) (choices : list (Ciphertext E)) (p : RingProof E)
    : algorithm (result (list (Ciphertext E)) ChoiceVerificationError) :=
  if n =? List.length choices then
    doing (unwrap (reduce Ciphertext_add choices)) (fun _ => choice_ranges_verifier K choices p)
  else Output (Ret (Err (ChoiceOptionsLenMismatch n (List.length choices)))).

Definition single_choice_verifier (n : nat) (K : PublicKey E) (choices : list (Ciphertext E)) (p : RingProof E)
    (sum_proof : LogEqualityProof E) : algorithm (result (list (Ciphertext E)) ChoiceVerificationError) :=
  if n =? List.length choices then
    doing (unwrap (reduce Ciphertext_add choices)) (fun total =>
    after (log_equality_verifier sum_proof K (random_element total, (blinded_element total - generator)%E)
             (transcript_new "choice_encryption_sum")) (fun r =>
    match fst r with
    | Err e => Output (Ret (Err (ChoiceSum e)))
    | Ok _ => choice_ranges_verifier K choices p
    end))
  else Output (Ret (Err (ChoiceOptionsLenMismatch n (List.length choices)))).

Fixpoint votes_verifier (params : QuadraticVotingParams E) (i : nat) (votes : list (CiphertextWithRangeProof E))
    : algorithm (result unit QuadraticVotingError) :=
  match votes with
  | [] => Output (Ret (Ok tt))
  | v :: votes' =>
      after (range_verifier (crp_range_proof v) (qv_receiver params) (qv_vote_count_range params) (crp_ciphertext v)
               (transcript_new "quadratic_voting_variant")) (fun r =>
      match fst r with
      | Err e => Output (Ret (Err (QVVariant i e)))
      | Ok _ => votes_verifier params (S i) votes'
      end)
  end.

Definition quadratic_verifier (ballot : QuadraticVotingBallot E) (params : QuadraticVotingParams E)
    : algorithm (result (list (Ciphertext E)) QuadraticVotingError) :=
  match QuadraticVotingParams_check_options_count params (List.length (qb_votes ballot)) with
  | Err e => Output (Ret (Err e))
  | Ok _ =>
      after (votes_verifier params 0 (qb_votes ballot)) (fun r =>
      match r with
      | Err e => Output (Ret (Err e))
      | Ok _ =>
          after (range_verifier (crp_range_proof (qb_credit ballot)) (qv_receiver params) (qv_credit_range params)
                   (crp_ciphertext (qb_credit ballot)) (transcript_new "quadratic_voting_credit_range")) (fun r =>
          match fst r with
          | Err e => Output (Ret (Err (QVCreditRange e)))
          | Ok _ =>
              after (sum_of_squares_verifier (qb_credit_equivalence_proof ballot) (map crp_ciphertext (qb_votes ballot))
                       (crp_ciphertext (qb_credit ballot)) (qv_receiver params)
                       (transcript_new "quadratic_voting_credit_equiv")) (fun r =>
              match fst r with
              | Err e => Output (Ret (Err (QVCreditEquivalence e)))
              | Ok _ => Output (Ret (Ok (map crp_ciphertext (qb_votes ballot))))
              end)
          end)
      end)
  end.

(** number of queries for rings with the given values, and for a quadratic voting ballot *)
Definition ring_queries (vals : list (list element)) : nat := list_sum (map (fun vs => List.length vs - 1) vals) + 1.
Definition quadratic_queries (params : QuadraticVotingParams E) : nat :=
  qv_options_count params * ring_queries (pr_admissible (qv_vote_count_range params)) +
  (ring_queries (pr_admissible (qv_credit_range params)) + 1).

End Verifiers.
