(** * Ring proofs: src/proofs/ring.rs, and Boolean encryption of src/keys/impls.rs *)
From Coq Require Import List NArith Bool String Arith.
From Verif.Model Require Import Base Group Transcript Keys Encryption.
Import ListNotations.
Open Scope string_scope.
Open Scope list_scope.

Section RingTypes.
Context {G : Group}.
Local Notation scalar := (Scalar G).
Local Notation element := (Element G).

(** src/proofs/ring.rs 22-37.  [responses] is a disjoint mutable slice of one shared
    buffer; here each ring owns its part of the buffer. *)
Record Ring : Type := mkRing {
  rg_index : nat;
  rg_admissible : list element;
  rg_ciphertext : Ciphertext G;
  rg_transcript : transcript;
  rg_responses : list scalar;
  rg_terminal : element * element;
  rg_value_index : nat;
  rg_discrete_log : SecretKey G;
  rg_random_scalar : SecretKey G
}.

(** src/proofs/ring.rs 282-287; [new] (295-300) is the constructor *)
Record RingProof : Type := mkRingProof {
  rp_challenge : scalar;
  rp_responses : list scalar
}.

(** src/proofs/ring.rs 421-427: the builder.  [rb_rest] is the yet unused part of the
    response buffer. *)
Record RingProofBuilder (R : Type) : Type := mkRingProofBuilder {
  rb_receiver : PublicKey G;
  rb_transcript : transcript;
  rb_rings : list Ring;
  rb_rest : list scalar;
  rb_rng : R
}.

End RingTypes.
Arguments Ring : clear implicits.
Arguments RingProof : clear implicits.
Arguments RingProofBuilder : clear implicits.
Arguments mkRingProofBuilder {G R}.
Arguments rb_receiver {G R}.
Arguments rb_transcript {G R}.
Arguments rb_rings {G R}.
Arguments rb_rest {G R}.
Arguments rb_rng {G R}.

Section Ring.
Context {E : Env}.
Local Notation scalar := (Scalar E).
Local Notation element := (Element E).
Local Notation rng := (Rng E).
Local Notation Ring := (Ring E).
Local Notation RingProof := (RingProof E).
Local Notation RingProofBuilder := (RingProofBuilder E (Rng E)).

(** src/proofs/ring.rs 105-109 / 182-186 / 355-359: challenge following equation [j] *)
Definition ring_eq_challenge (ring_transcript : transcript) (j : nat) (commitments : element * element)
    : outcome scalar :=
  let t := append_u64 ring_transcript "j" (N.of_nat j) in
  t <- append_element t "R_G" (fst commitments) ;;
  t <- append_element t "R_K" (snd commitments) ;;
  Ret (fst (challenge_scalar t "c")).

(** src/proofs/ring.rs 113-117 / 176-180: prover's commitments for a simulated equation *)
Definition ring_prover_commitments (log_base : element) (c : Ciphertext E) (admissible : element)
    (challenge response : scalar) : outcome (element * element) :=
  let dh_element := (blinded_element c - admissible)%E in
  let c0 := (mul_generator response - random_element c * challenge)%E in
  c1 <- multi_mul [response; (- challenge)%S] [log_base; dh_element] ;;
  Ret (c0, c1).

(** src/proofs/ring.rs 89-94 / 328-331 *)
Definition ring_init_transcript (t : transcript) (c : Ciphertext E) (index : nat)
    : outcome transcript :=
  let t := start_proof t "ring_enc" in
  b <- Ciphertext_to_bytes c ;;
  let t := append_message t "enc" b in
  Ret (append_u64 t "i" (N.of_nat index)).

(** src/proofs/ring.rs 103-118: loop over the equations after the known one.
    [eq_index - 1] cannot underflow since the loop starts at [value_index + 1]. *)
Fixpoint ring_forward (t : transcript) (log_base : element) (c : Ciphertext E)
    (it : list (nat * element)) (commitments : element * element)
    (responses : list scalar) (r : rng)
    : outcome (element * element * list scalar * rng) :=
  match it with
  | [] => Ret (commitments, responses, r)
  | (eq_index, admissible) :: it' =>
      challenge <- ring_eq_challenge t (eq_index - 1) commitments ;;
      let '(response, r) := generate_scalar r in
      responses <- index_set responses eq_index response ;;
      commitments <- ring_prover_commitments log_base c admissible challenge response ;;
      ring_forward t log_base c it' commitments responses r
  end.

(** src/proofs/ring.rs 54-131 *)
Definition Ring_new (index_ : nat) (log_base : element) (ciphertext : ExtendedCiphertext E)
    (admissible_values : list element) (value_index : nat) (t : transcript)
    (responses : list scalar) (r : rng) : outcome (Ring * rng) :=
  _ <- assert (negb (List.length admissible_values =? 0)%nat) ;;
  _ <- assert (value_index <? List.length admissible_values)%nat ;;
  _ <- debug_assert (env_build E) (List.length responses =? List.length admissible_values)%nat ;;
  _ <- (if debug_assertions (env_build E) then
          adm <- index admissible_values value_index ;;
          let expected := (log_base * ext_random_scalar ciphertext + adm)%E in
          debug_assert (env_build E) (e_eqb expected (blinded_element (ext_inner ciphertext)))
        else Ret tt) ;;
  t <- ring_init_transcript t (ext_inner ciphertext) index_ ;;
  let '(random_scalar, r) := SecretKey_generate r in
  let commitments := (mul_generator random_scalar, (log_base * random_scalar)%E) in
  '(commitments, responses, r) <-
    ring_forward t log_base (ext_inner ciphertext)
      (skipn (value_index + 1) (enumerate admissible_values)) commitments responses r ;;
  Ret ({| rg_index := index_;
          rg_admissible := admissible_values;
          rg_ciphertext := ext_inner ciphertext;
          rg_transcript := t;
          rg_responses := responses;
          rg_terminal := commitments;
          rg_value_index := value_index;
          rg_discrete_log := ext_random_scalar ciphertext;
          rg_random_scalar := random_scalar |}, r).

(** src/proofs/ring.rs 173-187 *)
Fixpoint ring_backward (t : transcript) (log_base : element) (c : Ciphertext E)
    (it : list (nat * element)) (challenge : scalar) (responses : list scalar) (r : rng)
    : outcome (scalar * list scalar * rng) :=
  match it with
  | [] => Ret (challenge, responses, r)
  | (eq_index, admissible) :: it' =>
      let '(response, r) := generate_scalar r in
      responses <- index_set responses eq_index response ;;
      commitments <- ring_prover_commitments log_base c admissible challenge response ;;
      challenge <- ring_eq_challenge t eq_index commitments ;;
      ring_backward t log_base c it' challenge responses r
  end.

(** src/proofs/ring.rs 162-194; returns the final contents of [responses] *)
Definition Ring_finalize (ring : Ring) (log_base : element) (common_challenge : scalar) (r : rng)
    : outcome (list scalar * rng) :=
  '(challenge, responses, r) <-
    ring_backward (rg_transcript ring) log_base (rg_ciphertext ring)
      (enumerate (firstn (rg_value_index ring) (rg_admissible ring)))
      common_challenge (rg_responses ring) r ;;
  _ <- (if debug_assertions (env_build E) then
          old <- index responses (rg_value_index ring) ;;
          debug_assert (env_build E) (s_eqb old (s_of_u64 0))
        else Ret tt) ;;
  responses <- index_set responses (rg_value_index ring)
                 (challenge * rg_discrete_log ring + rg_random_scalar ring)%S ;;
  Ret (responses, r).

(** src/proofs/ring.rs 149-153 *)
Fixpoint ring_append_terminals (t : transcript) (terminals : list (element * element))
    : outcome transcript :=
  match terminals with
  | [] => Ret t
  | (c0, c1) :: rest =>
      t <- append_element t "R_G" c0 ;;
      t <- append_element t "R_K" c1 ;;
      ring_append_terminals t rest
  end.

(** src/proofs/ring.rs 156-158 *)
Fixpoint ring_finalize_all (rings : list Ring) (log_base : element) (common_challenge : scalar)
    (r : rng) : outcome (list (list scalar) * rng) :=
  match rings with
  | [] => Ret ([], r)
  | ring :: rings' =>
      '(resp, r) <- Ring_finalize ring log_base common_challenge r ;;
      '(rest, r) <- ring_finalize_all rings' log_base common_challenge r ;;
      Ret (resp :: rest, r)
  end.

(** src/proofs/ring.rs 138-160; returns the challenge and the final responses per ring *)
Definition Ring_aggregate (rings : list Ring) (log_base : element) (t : transcript) (r : rng)
    : outcome (scalar * list (list scalar) * transcript * rng) :=
  _ <- debug_assert (env_build E)
         (forallb (fun p : nat * Ring => (fst p =? rg_index (snd p))%nat) (enumerate rings)) ;;
  t <- ring_append_terminals t (map rg_terminal rings) ;;
  let '(common_challenge, t) := challenge_scalar t "c" in
  '(responses, r) <- ring_finalize_all rings log_base common_challenge r ;;
  Ret (common_challenge, responses, t, r).

(** src/proofs/ring.rs 290-293 *)
Definition ring_initialize_transcript (t : transcript) (receiver : PublicKey E) : transcript :=
  let t := start_proof t "multi_ring_enc" in
  append_element_bytes t "K" (pk_bytes receiver).

(** src/proofs/ring.rs 333-361: inner verification loop over the equations of a ring;
    [len] is [values.len()] *)
Fixpoint ring_verify_loop (t : transcript) (receiver : element) (c : Ciphertext E) (len : nat)
    (eq_index : nat) (items : list (element * scalar)) (challenge : scalar)
    (commitments : element * element) : outcome (element * element) :=
  match items with
  | [] => Ret commitments
  | (admissible, response) :: items' =>
      let dh_element := (blinded_element c - admissible)%E in
      let neg_challenge := (- challenge)%S in
      let c0 := vartime_double_mul_generator neg_challenge (random_element c) response in
      c1 <- vartime_multi_mul [response; neg_challenge] [receiver; dh_element] ;;
      let commitments := (c0, c1) in
      challenge <- (if (eq_index + 1 <? len)%nat then ring_eq_challenge t eq_index commitments
                    else Ret challenge) ;;
      ring_verify_loop t receiver c len (S eq_index) items' challenge commitments
  end.

(** src/proofs/ring.rs 324-366: loop over rings *)
Fixpoint ring_verify_rings (initial : transcript) (receiver : PublicKey E) (p : RingProof)
    (ring_index : nat) (starting_response : nat) (it : list (list element * Ciphertext E))
    (t : transcript) : outcome transcript :=
  match it with
  | [] => Ret t
  | (values, c) :: it' =>
      ring_transcript <- ring_init_transcript initial c ring_index ;;
      tail <- slice_from (rp_responses p) starting_response ;;
      commitments <- ring_verify_loop ring_transcript (pk_element receiver) c (List.length values) 0
                       (combine values tail) (rp_challenge p) (generator, generator) ;;
      t <- append_element t "R_G" (fst commitments) ;;
      t <- append_element t "R_K" (snd commitments) ;;
      ring_verify_rings initial receiver p (S ring_index)
        (starting_response + List.length values) it' t
  end.

(** src/proofs/ring.rs 302-374 *)
Definition RingProof_verify (p : RingProof) (receiver : PublicKey E)
    (admissible_values : list (list element)) (ciphertexts : list (Ciphertext E)) (t : transcript)
    : outcome (result unit VerificationError * transcript) :=
  let total_rings_size := list_sum (map (@List.length element) admissible_values) in
  match check_lengths "items in all rings" (List.length (rp_responses p)) total_rings_size with
  | Err e => Ret (Err e, t)
  | Ok _ =>
      let t := ring_initialize_transcript t receiver in
      t <- ring_verify_rings t receiver p 0 0 (combine admissible_values ciphertexts) t ;;
      let '(expected, t) := challenge_scalar t "c" in
      Ret ((if s_eqb expected (rp_challenge p) then Ok tt else Err ChallengeMismatch), t)
  end.

(** src/proofs/ring.rs 383-392 *)
Definition RingProof_to_bytes (p : RingProof) : bytes :=
  serialize_scalar (rp_challenge p) ++ flat_map serialize_scalar (rp_responses p).

(** [slice::chunks(n)] for [n > 0] (core library); [fuel] bounds the number of chunks *)
Fixpoint chunks {A : Type} (fuel : nat) (n : nat) (l : list A) : list (list A) :=
  match fuel with
  | O => []
  | S fuel' =>
      match l with
      | [] => []
      | _ => firstn n l :: chunks fuel' n (skipn n l)
      end
  end.

(** collecting an iterator of [Option]s *)
Fixpoint option_all {A B : Type} (f : A -> option B) (l : list A) : option (list B) :=
  match l with
  | [] => Some []
  | x :: l' =>
      match f x with
      | None => None
      | Some y => match option_all f l' with
                  | None => None
                  | Some ys => Some (y :: ys)
                  end
      end
  end.

(** src/proofs/ring.rs 397-414 *)
Definition RingProof_from_bytes (b : bytes) : outcome (option RingProof) :=
  let n := SCALAR_SIZE E in
  if negb (Nat.modulo (List.length b) n =? 0)%nat || (List.length b <? 3 * n)%nat then Ret None
  else
    match deserialize_scalar (firstn n b) with
    | None => Ret None
    | Some c =>
        let rest := skipn n b in
        match option_all deserialize_scalar (chunks (List.length rest) n rest) with
        | None => Ret None
        | Some responses =>
            _ <- debug_assert (env_build E) (2 <=? List.length responses)%nat ;;
            Ret (Some {| rp_challenge := c; rp_responses := responses |})
        end
    end.

(** src/proofs/ring.rs 442-457; [ring_count] is only a capacity hint *)
Definition RingProofBuilder_new (receiver : PublicKey E) (ring_responses : list scalar)
    (t : transcript) (r : rng) : RingProofBuilder :=
  {| rb_receiver := receiver;
     rb_transcript := ring_initialize_transcript t receiver;
     rb_rings := [];
     rb_rest := ring_responses;
     rb_rng := r |}.

(** src/proofs/ring.rs 471-492 *)
Definition RingProofBuilder_add_precomputed_value (b : RingProofBuilder)
    (ciphertext : ExtendedCiphertext E) (admissible_values : list element) (value_index : nat)
    : outcome RingProofBuilder :=
  '(responses_for_ring, rest) <- split_at (rb_rest b) (List.length admissible_values) ;;
  '(ring, r) <- Ring_new (List.length (rb_rings b)) (pk_element (rb_receiver b)) ciphertext
                  admissible_values value_index (rb_transcript b) responses_for_ring (rb_rng b) ;;
  Ret {| rb_receiver := rb_receiver b;
         rb_transcript := rb_transcript b;
         rb_rings := rb_rings b ++ [ring];
         rb_rest := rest;
         rb_rng := r |}.

(** src/proofs/ring.rs 460-469 *)
Definition RingProofBuilder_add_value (b : RingProofBuilder) (admissible_values : list element)
    (value_index : nat) : outcome (ExtendedCiphertext E * RingProofBuilder) :=
  v <- index admissible_values value_index ;;
  let '(ext, r) := ExtendedCiphertext_new v (rb_receiver b) (rb_rng b) in
  b' <- RingProofBuilder_add_precomputed_value
          {| rb_receiver := rb_receiver b; rb_transcript := rb_transcript b;
             rb_rings := rb_rings b; rb_rest := rb_rest b; rb_rng := r |}
          ext admissible_values value_index ;;
  Ret (ext, b').

(** src/proofs/ring.rs 495-506, followed by reading back the response buffer: the
    slices of all rings in order, then the unused tail. *)
Definition RingProofBuilder_build (b : RingProofBuilder)
    : outcome (scalar * list scalar * transcript * rng) :=
  _ <- debug_assert (env_build E) (List.length (rb_rest b) =? 0)%nat ;;
  '(c, responses, t, r) <- Ring_aggregate (rb_rings b) (pk_element (rb_receiver b))
                             (rb_transcript b) (rb_rng b) ;;
  Ret (c, List.concat responses ++ rb_rest b, t, r).

(** ** Boolean encryption *)

(** src/keys/impls.rs 77-89 *)
Definition encrypt_bool (pk : PublicKey E) (value : bool) (r : rng)
    : outcome (Ciphertext E * RingProof * rng) :=
  let admissible_values := [identity; generator] in
  let b := RingProofBuilder_new pk (repeat s_default 2) (transcript_new "bool_encryption") r in
  '(ext, b) <- RingProofBuilder_add_value b admissible_values (if value then 1 else 0) ;;
  '(c, responses, _, r) <- RingProofBuilder_build b ;;
  Ret (ext_inner ext, {| rp_challenge := c; rp_responses := responses |}, r).

(** src/keys/impls.rs 101-113 *)
Definition verify_bool (pk : PublicKey E) (c : Ciphertext E) (p : RingProof)
    : outcome (result unit VerificationError) :=
  '(res, _) <- RingProof_verify p pk [[identity; generator]] [c] (transcript_new "bool_encryption") ;;
  Ret res.

End Ring.
