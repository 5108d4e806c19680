(** * Encrypted m-of-n choice: src/app/choice.rs *)
From Coq Require Import List NArith Bool String Arith.
From Verif.Model Require Import Base Group Transcript Keys Encryption LogEquality Ring Range.
Import ListNotations.
Open Scope string_scope.
Open Scope list_scope.
Open Scope nat_scope.

(** src/app/choice.rs 407-419 *)
Inductive ChoiceVerificationError : Type :=
| ChoiceOptionsLenMismatch (expected actual : nat)
| ChoiceSum (e : VerificationError)
| ChoiceRange (e : VerificationError).

Section Choice.
Context {E : Env}.
Local Notation scalar := (Scalar E).
Local Notation element := (Element E).
Local Notation rng := (Rng E).

(** src/app/choice.rs 22-44: trait [ProveSum] as a dictionary *)
Record ProveSum : Type := mkProveSum {
  ps_Proof : Type;
  ps_prove : CiphertextWithValue E N -> PublicKey E -> rng -> outcome (ps_Proof * rng);
  ps_verify : Ciphertext E -> ps_Proof -> PublicKey E ->
              outcome (result unit ChoiceVerificationError)
}.

(** src/app/choice.rs 59-75 *)
Definition SingleChoice_prove (c : CiphertextWithValue E N) (receiver : PublicKey E) (r : rng)
    : outcome (LogEqualityProof E * rng) :=
  '(proof, _, r) <-
    LogEqualityProof_new receiver (cwv_randomness c)
      (random_element (cwv_inner c), (blinded_element (cwv_inner c) - generator)%E)
      (transcript_new "choice_encryption_sum") r ;;
  Ret (proof, r).

(** src/app/choice.rs 77-94 *)
Definition SingleChoice_verify (c : Ciphertext E) (proof : LogEqualityProof E)
    (receiver : PublicKey E) : outcome (result unit ChoiceVerificationError) :=
  let powers := (random_element c, (blinded_element c - generator)%E) in
  '(res, _) <- LogEqualityProof_verify proof receiver powers
                 (transcript_new "choice_encryption_sum") ;;
  Ret (match res with
       | Ok _ => Ok tt
       | Err e => Err (ChoiceSum e)
       end).

(** src/app/choice.rs 52-95 *)
Definition SingleChoice : ProveSum := mkProveSum _ SingleChoice_prove SingleChoice_verify.

(** src/app/choice.rs 104-128 *)
Definition MultiChoice : ProveSum :=
  mkProveSum unit (fun _ _ r => Ret (tt, r)) (fun _ _ _ => Ret (Ok tt)).

(** src/app/choice.rs 132-136; getters 161-168 are projections *)
Record ChoiceParams (S : ProveSum) : Type := mkChoiceParams {
  cp_options_count : nat;
  cp_receiver : PublicKey E
}.
Arguments cp_options_count {S}.
Arguments cp_receiver {S}.

(** src/app/choice.rs 149-158 *)
Definition ChoiceParams_check_options_count {S : ProveSum} (p : ChoiceParams S)
    (actual_count : nat) : result unit ChoiceVerificationError :=
  if cp_options_count p =? actual_count then Ok tt
  else Err (ChoiceOptionsLenMismatch (cp_options_count p) actual_count).

(** src/app/choice.rs 177-184 *)
Definition ChoiceParams_single (receiver : PublicKey E) (options_count : nat)
    : outcome (ChoiceParams SingleChoice) :=
  _ <- assert (0 <? options_count) ;;
  Ret (mkChoiceParams SingleChoice options_count receiver).

(** src/app/choice.rs 193-200 *)
Definition ChoiceParams_multi (receiver : PublicKey E) (options_count : nat)
    : outcome (ChoiceParams MultiChoice) :=
  _ <- assert (0 <? options_count) ;;
  Ret (mkChoiceParams MultiChoice options_count receiver).

(** src/app/choice.rs 276-280; getters 384-401 are projections *)
Record EncryptedChoice (S : ProveSum) : Type := mkEncryptedChoice {
  ec_choices : list (Ciphertext E);
  ec_range_proof : RingProof E;
  ec_sum_proof : ps_Proof S
}.
Arguments ec_choices {S}.
Arguments ec_range_proof {S}.
Arguments ec_sum_proof {S}.

(** src/app/choice.rs 333-336 *)
Fixpoint choice_add_values (b : RingProofBuilder E (Rng E)) (admissible_values : list element)
    (choices : list bool) : outcome (list (ExtendedCiphertext E) * RingProofBuilder E (Rng E)) :=
  match choices with
  | [] => Ret ([], b)
  | flag :: choices' =>
      '(ext, b) <- RingProofBuilder_add_value b admissible_values (if flag : bool then 1 else 0) ;;
      '(rest, b) <- choice_add_values b admissible_values choices' ;;
      Ret (ext :: rest, b)
  end.

(** [Iterator::reduce] *)
Definition reduce {A : Type} (f : A -> A -> A) (l : list A) : option A :=
  match l with
  | [] => None
  | x :: l' => Some (fold_left f l' x)
  end.

Definition unwrap {A : Type} (o : option A) : outcome A :=
  match o with
  | Some x => Ret x
  | None => Panic PUnwrap
  end.

(** src/app/choice.rs 313-349.  The RNG borrowed by the builder continues to be used
    for the sum proof. *)
Definition EncryptedChoice_new {S : ProveSum} (params : ChoiceParams S) (choices : list bool)
    (r : rng) : outcome (EncryptedChoice S * rng) :=
  _ <- assert (negb (List.length choices =? 0)) ;;
  _ <- assert (List.length choices =? cp_options_count params) ;;
  let admissible_values := [identity; generator] in
  let ring_responses := repeat s_default (2 * cp_options_count params) in
  let builder := RingProofBuilder_new (cp_receiver params) ring_responses
                   (transcript_new "encrypted_choice_ranges") r in
  sum <- u64_sum (env_build E) 0 (map (fun flag : bool => if flag then 1%N else 0%N) choices) ;;
  '(choices, builder) <- choice_add_values builder admissible_values choices ;;
  '(c, responses, _, r) <- RingProofBuilder_build builder ;;
  let range_proof := {| rp_challenge := c; rp_responses := responses |} in
  sum_ciphertext <- unwrap (reduce ExtendedCiphertext_add choices) ;;
  let sum_ciphertext := {| cwv_ext := sum_ciphertext; cwv_value := sum |} in
  '(sum_proof, r) <- ps_prove S sum_ciphertext (cp_receiver params) r ;;
  Ret ({| ec_choices := map ext_inner choices;
          ec_range_proof := range_proof;
          ec_sum_proof := sum_proof |}, r).

(** src/app/choice.rs 288-300 *)
Definition EncryptedChoice_single (params : ChoiceParams SingleChoice) (choice : nat) (r : rng)
    : outcome (EncryptedChoice SingleChoice * rng) :=
  _ <- assert (choice <? cp_options_count params) ;;
  EncryptedChoice_new params (map (fun i => choice =? i) (seq 0 (cp_options_count params))) r.

(** src/app/choice.rs 358-380 *)
Definition EncryptedChoice_verify {S : ProveSum} (e : EncryptedChoice S) (params : ChoiceParams S)
    : outcome (result (list (Ciphertext E)) ChoiceVerificationError) :=
  match ChoiceParams_check_options_count params (List.length (ec_choices e)) with
  | Err err => Ret (Err err)
  | Ok _ =>
      sum_of_ciphertexts <- unwrap (reduce Ciphertext_add (ec_choices e)) ;;
      sum <- ps_verify S sum_of_ciphertexts (ec_sum_proof e) (cp_receiver params) ;;
      match sum with
      | Err err => Ret (Err err)
      | Ok _ =>
          '(res, _) <- RingProof_verify (ec_range_proof e) (cp_receiver params)
                         (repeat [identity; generator] (List.length (ec_choices e)))
                         (ec_choices e) (transcript_new "encrypted_choice_ranges") ;;
          Ret (match res with
               | Ok _ => Ok (ec_choices e)
               | Err err => Err (ChoiceRange err)
               end)
      end
  end.

End Choice.
Arguments ProveSum : clear implicits.
Arguments ChoiceParams : clear implicits.
Arguments ChoiceParams {E}.
Arguments EncryptedChoice : clear implicits.
Arguments EncryptedChoice {E}.
Arguments mkChoiceParams {E S}.
Arguments cp_options_count {E S}.
Arguments cp_receiver {E S}.
Arguments mkEncryptedChoice {E S}.
Arguments ec_choices {E S}.
Arguments ec_range_proof {E S}.
Arguments ec_sum_proof {E S}.
