(** * Sum-of-squares proof: src/proofs/mul.rs *)
From Coq Require Import List NArith Bool String.
From Verif.Model Require Import Base Group Transcript Keys Encryption Ring.
Import ListNotations.
Open Scope string_scope.
Open Scope list_scope.

(** src/proofs/mul.rs 266-270: [OddItems] with its inner iterator as the list of the
    remaining items *)
Record OddItems (A : Type) : Type := mkOddItems { oi_iter : list A; oi_ended : bool }.
Arguments mkOddItems {A}.
Arguments oi_iter {A}.
Arguments oi_ended {A}.

(** src/proofs/mul.rs 273-275 *)
Definition OddItems_new {A : Type} (l : list A) : OddItems A := mkOddItems l false.

(** [Iterator::next] of a slice iterator *)
Definition list_next {A : Type} (l : list A) : option A * list A :=
  match l with
  | [] => (None, [])
  | x :: l' => (Some x, l')
  end.

(** src/proofs/mul.rs 281-293 *)
Definition OddItems_next {A : Type} (s : OddItems A) : option A * OddItems A :=
  if oi_ended s then (None, s)
  else
    let '(first, it) := list_next (oi_iter s) in
    match first with
    | None => (None, mkOddItems it true)
    | Some _ =>
        let '(item, it) := list_next it in
        (item, mkOddItems it (match item with None => true | Some _ => false end))
    end.

(** src/proofs/mul.rs 295-298, for an inner iterator with an exact size hint *)
Definition OddItems_size_hint {A : Type} (s : OddItems A) : nat * option nat :=
  let n := List.length (oi_iter s) in (Nat.div n 2, Some (Nat.div n 2)).

(** [Iterator::collect]: call [next] until [None]; [fuel] bounds the number of calls *)
Fixpoint OddItems_collect {A : Type} (fuel : nat) (s : OddItems A) : list A :=
  match fuel with
  | O => []
  | S fuel' =>
      match OddItems_next s with
      | (None, _) => []
      | (Some x, s') => x :: OddItems_collect fuel' s'
      end
  end.

Definition odd_items {A : Type} (l : list A) : list A :=
  OddItems_collect (S (List.length l)) (OddItems_new l).

Section SumOfSquaresTypes.
Context {G : Group}.
Local Notation scalar := (Scalar G).
Local Notation element := (Element G).

(** src/proofs/mul.rs 86-93 *)
Record SumOfSquaresProof : Type := mkSumOfSquaresProof {
  sq_challenge : scalar;
  sq_ciphertext_responses : list scalar;
  sq_sum_response : scalar
}.

End SumOfSquaresTypes.
Arguments SumOfSquaresProof : clear implicits.

Section SumOfSquares.
Context {E : Env}.
Local Notation scalar := (Scalar E).
Local Notation element := (Element E).
Local Notation rng := (Rng E).
Local Notation SumOfSquaresProof := (SumOfSquaresProof E).

(** src/proofs/mul.rs 96-99 *)
Definition sq_initialize_transcript (t : transcript) (receiver : PublicKey E) : transcript :=
  let t := start_proof t "sum_of_squares" in
  append_element_bytes t "K" (pk_bytes receiver).

(** src/proofs/mul.rs 119-136: returns the triples [(ciphertext, random_scalar,
    value_scalar)] and the final [sum_random_scalar] *)
Fixpoint sq_commit (receiver : PublicKey E) (ciphertexts : list (CiphertextWithValue E scalar))
    (sum_random_scalar : SecretKey E) (t : transcript) (r : rng)
    : outcome (list (CiphertextWithValue E scalar * scalar * scalar) * SecretKey E * transcript * rng) :=
  match ciphertexts with
  | [] => Ret ([], sum_random_scalar, t, r)
  | c :: rest =>
      t <- append_element t "R_x" (random_element (cwv_inner c)) ;;
      t <- append_element t "X" (blinded_element (cwv_inner c)) ;;
      let '(random_scalar, r) := SecretKey_generate r in
      let random_commitment := mul_generator random_scalar in
      t <- append_element t "[e_r]G" random_commitment ;;
      let '(value_scalar, r) := SecretKey_generate r in
      let value_commitment := (mul_generator value_scalar + pk_element receiver * random_scalar)%E in
      t <- append_element t "[e_x]G + [e_r]K" value_commitment ;;
      let neg_value := (- cwv_value c)%S in
      let sum_random_scalar :=
        SecretKey_add sum_random_scalar (SecretKey_mul (cwv_randomness c) neg_value) in
      '(out, sum_random_scalar, t, r) <- sq_commit receiver rest sum_random_scalar t r ;;
      Ret ((c, random_scalar, value_scalar) :: out, sum_random_scalar, t, r)
  end.

(** src/proofs/mul.rs 107-181 *)
Definition SumOfSquaresProof_new (ciphertexts : list (CiphertextWithValue E scalar))
    (sum_of_squares_ciphertext : CiphertextWithValue E scalar) (receiver : PublicKey E)
    (t : transcript) (r : rng) : outcome (SumOfSquaresProof * transcript * rng) :=
  let t := sq_initialize_transcript t receiver in
  let '(sum_scalar, r) := SecretKey_generate r in
  '(partial_scalars, sum_random_scalar, t, r) <-
    sq_commit receiver ciphertexts (cwv_randomness sum_of_squares_ciphertext) t r ;;
  let scalars := map (fun p => snd p) partial_scalars ++ [sum_scalar] in
  random_sum_commitment <-
    multi_mul scalars
      (map (fun p => random_element (cwv_inner (fst (fst p)))) partial_scalars ++ [generator]) ;;
  value_sum_commitment <-
    multi_mul scalars
      (map (fun p => blinded_element (cwv_inner (fst (fst p)))) partial_scalars
         ++ [pk_element receiver]) ;;
  t <- append_element t "R_z" (random_element (cwv_inner sum_of_squares_ciphertext)) ;;
  t <- append_element t "Z" (blinded_element (cwv_inner sum_of_squares_ciphertext)) ;;
  t <- append_element t "[e_x]R_x + [e_z]G" random_sum_commitment ;;
  t <- append_element t "[e_x]X + [e_z]K" value_sum_commitment ;;
  let '(challenge, t) := challenge_scalar t "c" in
  let ciphertext_responses :=
    flat_map (fun p : CiphertextWithValue E scalar * scalar * scalar =>
      let '(c, random_scalar, value_scalar) := p in
      [(challenge * cwv_randomness c + random_scalar)%S;
       (challenge * cwv_value c + value_scalar)%S]) partial_scalars in
  let sum_response := (challenge * sum_random_scalar + sum_scalar)%S in
  Ret ({| sq_challenge := challenge;
          sq_ciphertext_responses := ciphertext_responses;
          sq_sum_response := sum_response |}, t, r).

(** src/proofs/mul.rs 207-230 *)
Fixpoint sq_recommit (receiver : PublicKey E) (challenge : scalar)
    (items : list (list scalar * Ciphertext E)) (t : transcript) : outcome transcript :=
  match items with
  | [] => Ret t
  | (response_chunk, c) :: items' =>
      t <- append_element t "R_x" (random_element c) ;;
      t <- append_element t "X" (blinded_element c) ;;
      r_response <- index response_chunk 0 ;;
      v_response <- index response_chunk 1 ;;
      let random_commitment :=
        vartime_double_mul_generator (- challenge)%S (random_element c) r_response in
      t <- append_element t "[e_r]G" random_commitment ;;
      value_commitment <-
        vartime_multi_mul [v_response; r_response; (- challenge)%S]
                          [generator; pk_element receiver; blinded_element c] ;;
      t <- append_element t "[e_x]G + [e_r]K" value_commitment ;;
      sq_recommit receiver challenge items' t
  end.

(** src/proofs/mul.rs 190-260 *)
Definition SumOfSquaresProof_verify (p : SumOfSquaresProof) (ciphertexts : list (Ciphertext E))
    (sum_of_squares_ciphertext : Ciphertext E) (receiver : PublicKey E) (t : transcript)
    : outcome (result unit VerificationError * transcript) :=
  match check_lengths "ciphertext responses" (List.length (sq_ciphertext_responses p))
          (List.length ciphertexts * 2) with
  | Err e => Ret (Err e, t)
  | Ok _ =>
      let t := sq_initialize_transcript t receiver in
      let neg_challenge := (- sq_challenge p)%S in
      t <- sq_recommit receiver (sq_challenge p)
             (combine (chunks (List.length (sq_ciphertext_responses p)) 2
                         (sq_ciphertext_responses p)) ciphertexts) t ;;
      let scalars := odd_items (sq_ciphertext_responses p)
                       ++ [sq_sum_response p; neg_challenge] in
      random_sum_commitment <-
        vartime_multi_mul scalars
          (map random_element ciphertexts
             ++ [generator; random_element sum_of_squares_ciphertext]) ;;
      value_sum_commitment <-
        vartime_multi_mul scalars
          (map blinded_element ciphertexts
             ++ [pk_element receiver; blinded_element sum_of_squares_ciphertext]) ;;
      t <- append_element t "R_z" (random_element sum_of_squares_ciphertext) ;;
      t <- append_element t "Z" (blinded_element sum_of_squares_ciphertext) ;;
      t <- append_element t "[e_x]R_x + [e_z]G" random_sum_commitment ;;
      t <- append_element t "[e_x]X + [e_z]K" value_sum_commitment ;;
      let '(expected, t) := challenge_scalar t "c" in
      Ret ((if s_eqb expected (sq_challenge p) then Ok tt else Err ChallengeMismatch), t)
  end.

End SumOfSquares.
