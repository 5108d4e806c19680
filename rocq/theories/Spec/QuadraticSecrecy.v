(** * Specification vocabulary for C72: secrecy of quadratic voting ballots

    A ballot consists of one encrypted number with a range proof per option, the same for the credits spent, and the proof
    that the credits are the sum of the squares.  The attackers on DDH change one encrypted number at a time. *)
From Coq Require Import List String NArith ZArith.
From Verif.Model Require Import Base Group Transcript Keys Encryption LogEquality Ring Range Mul Quadratic.
From Verif.Spec Require Import Encryption Range Domains Rom Forking Verifiers Uniform Secrecy Election.
Import ListNotations.
Open Scope string_scope.
Open Scope list_scope.

(** the encrypted numbers of a ballot *)
Inductive part : Type :=
| Vote (v : N)
| Credit (v : N).

Definition parts (votes : list N) : list part := map Vote votes ++ [Credit (fold_right N.add 0%N (map (fun v => v * v)%N votes))].

Definition for_vote (p : part) : bool := match p with Vote _ => true | Credit _ => false end.
Definition number (p : part) : N := match p with Vote v => v | Credit v => v end.

Section Quadratic.
Context {E : Env} (L : GroupLaws E).
Local Notation scalar := (Scalar E).
Local Notation element := (Element E).
Local Notation hash := (hash scalar).
Local Notation encrypted := (Ciphertext E * RangeProof E)%type.

(** the parameters [p], with another receiver *)
Definition with_receiver (p : QuadraticVotingParams E) (K : PublicKey E) : QuadraticVotingParams E :=
  {| qv_vote_count_range := qv_vote_count_range p; qv_credit_range := qv_credit_range p;
     qv_options_count := qv_options_count p; qv_receiver := K |}.

(** the client: a ballot for [votes], src/app/quadratic_voting.rs 234-284 *)
Definition real_quadratic (p : QuadraticVotingParams E) (votes : list N) (o : hash) (K : PublicKey E) (r : Rng E)
    : outcome (QuadraticVotingBallot E * Rng E) :=
  QuadraticVotingBallot_new (E:=hashed_by E o) (with_receiver p K) votes r.

Context (p : QuadraticVotingParams E).

Definition range_of (x : part) : PreparedRange E := if for_vote x then qv_vote_count_range p else qv_credit_range p.
Definition context_of (x : part) : transcript :=
  transcript_new (if for_vote x then "quadratic_voting_variant" else "quadratic_voting_credit_range").

(** one of the encrypted numbers as [RangeProof::new] makes it *)
Definition real_part (x : part) (o : hash) (K : PublicKey E) (r : Rng E) : outcome (encrypted * Rng E) :=
  '(c, pf, _, r) <- RangeProof_new (E:=hashed_by E o) K (range_of x) (number x) (context_of x) r ;;
  Ret ((cwv_inner c, pf), r).

(** the same made up, as in [simulate_range] *)
Definition simulate_part (x : part) (K : PublicKey E) (c : list (Ciphertext E)) (s : list scalar) (o : hash) : encrypted * hash :=
  let pf := {| rap_partial := tl c; rap_inner := ring_proof_of s |} in
  ((first_of c, pf), answering (range_verifier pf K (range_of x) (first_of c) (context_of x)) (rp_challenge (rap_inner pf)) o).

(** The proof of the sum of squares made up from the scalars [s]: all of them are chosen freely.  The verifier's question
    is then given the right answer. *)
Definition equivalence_proof_of (s : list scalar) : SumOfSquaresProof E :=
  {| sq_challenge := hd 0%S s; sq_ciphertext_responses := tl (tl s); sq_sum_response := hd 0%S (tl s) |}.

Definition equivalence_verifier (K : PublicKey E) (c : list (Ciphertext E)) (s : list scalar)
    : strategy scalar (outcome (result unit VerificationError * transcript)) :=
  sum_of_squares_verifier (equivalence_proof_of s) (removelast c) (last c Ciphertext_zero) K
    (transcript_new "quadratic_voting_credit_equiv").

Definition ballot_of (l : list encrypted) (s : list scalar) : QuadraticVotingBallot E :=
  let crp := fun x : encrypted => {| crp_ciphertext := fst x; crp_range_proof := snd x |} in
  {| qb_votes := map crp (removelast l);
     qb_credit := crp (last l (Ciphertext_zero, {| rap_partial := []; rap_inner := ring_proof_of [] |}));
     qb_credit_equivalence_proof := equivalence_proof_of s |}.

Definition with_equivalence {B : Type} (D : PublicKey E -> B * QuadraticVotingBallot E -> hash -> bool) (s : list scalar)
    (K : PublicKey E) (x : B * list encrypted) (o : hash) : bool :=
  D K (fst x, ballot_of (snd x) s) (answering (equivalence_verifier K (map fst (snd x)) s) (hd 0%S s) o).

(** what the attacker makes up is one of the encrypted numbers; with a shared key see [all_dealt] *)
Definition all_parts (a : encrypted) (l1 l2 : list encrypted) : unit * list encrypted := (tt, l1 ++ a :: l2).

(** The attacker makes up one of the encrypted numbers of one voter's ballot.  It runs [RangeProof::new] for the other numbers,
    [parts_before] and [parts_after] this one, with the scalars [others]; makes up the proof of the sum of squares from [s]; and
    runs the client for the other voters, with the scalars [voters]. *)
Definition quadratic_attacker {B X : Type} (seed : list scalar -> Rng E) (Ms : PublicKey E -> list element)
    (simulate : PublicKey E -> list (Ciphertext E) -> list scalar -> hash -> X * hash)
    (view : X -> list encrypted -> list encrypted -> B * list encrypted)
    (parts_before parts_after : list part) (before after : list (list N))
    (D : PublicKey E -> B * list (QuadraticVotingBallot E) -> hash -> bool) (T : triple)
    (coins : list scalar * (list scalar * (list scalar * (list scalar * list scalar * hash)))) : bool :=
  let '(voters, (s, c)) := coins in
  election_attacker_by real_part seed Ms simulate view parts_before parts_after
    (with_equivalence (others_view (real_quadratic p) seed before after D voters) s) T c.

(** ** numbers of scalars *)
Definition decomposition (x : part) : RangeDecomposition := pr_inner (range_of x).
Definition proof_scalars (x : part) : nat := 1 + N.to_nat (n_sum (map rs_size (decomposition x))).
Definition parts_scalars (l : list part) : nat := list_sum (map (fun x => range_draws (decomposition x)) l).
Definition ballot_scalars : nat :=
  qv_options_count p * range_draws (pr_inner (qv_vote_count_range p)) + range_draws (pr_inner (qv_credit_range p)) +
  (1 + qv_options_count p * 2).

(** the size of the proof of the other kind of numbers *)
Definition weight (x : part) : Z :=
  (order L ^ Z.of_nat (List.length (pr_inner (if for_vote x then qv_credit_range p else qv_vote_count_range p))))%Z.

(** hash inputs, see [covers] *)
Definition covers_quadratic (dom : list query) : Prop :=
  covers dom (qv_options_count p + 1) (2 + 2 * qv_options_count p) equivalence_verifier /\
  forall x, covers dom (List.length (decomposition x)) (proof_scalars x) (fun K c s =>
    range_verifier {| rap_partial := tl c; rap_inner := ring_proof_of s |} K (range_of x) (first_of c) (context_of x)).

End Quadratic.

(** votes within the limits *)
Definition allowed (options : nat) (credits max : N) (votes : list N) : Prop :=
  List.length votes = options /\ Forall (fun v => (v <= max)%N) votes /\
  (fold_right N.add 0 (map (fun v => v * v) votes) <= credits)%N.
