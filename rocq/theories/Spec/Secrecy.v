(** * Specification vocabulary for C68, C69: secrecy of encryptions and ballots

    A distinguisher is given a public key and what a client publishes (a ciphertext, or a ballot with its
    proofs), may query the hash, and outputs a bit.  Its success is compared to that of an attacker on the
    decisional Diffie-Hellman problem (DDH).  All probabilities are numbers of cases: keys, the scalars drawn
    from the RNG and hash functions are counted. *)
From Coq Require Import List String NArith ZArith.
From Verif.Model Require Import Base Group Transcript Keys Encryption LogEquality Ring Range Choice.
From Verif.Spec Require Import Encryption Choice Domains Rom Forking Verifiers Uniform.
Import ListNotations.
Open Scope string_scope.
Open Scope list_scope.

(** number of items with [f] *)
Definition tally {A : Type} (l : list A) (f : A -> bool) : Z := Z.of_nat (List.length (filter f l)).

Section Secrecy.
Context {E : Env} (L : GroupLaws E).
Local Notation scalar := (Scalar E).
Local Notation element := (Element E).
Local Notation hash := (hash scalar).

(** all sequences of [n] scalars *)
Fixpoint tapes (n : nat) : list (list scalar) :=
  match n with
  | O => [[]]
  | S n' => flat_map (fun x => map (cons x) (tapes n')) (all_scalars L)
  end.

(** [seed xs] is an RNG state that yields the scalars [xs] first *)
Definition seeds (seed : list scalar -> Rng E) : Prop := forall xs, fst (draws (List.length xs) (seed xs)) = xs.

(** ** DDH

    The attacker [A] is given three group elements and coins.  In the first experiment these are
    [[x]G, [r]G, [x r]G], in the second [[x]G, [r]G, [z]G] for random scalars.  The difference of the probabilities
    that [A] answers [true] is [ddh_gap / (q ^ 3 * |coins|)]. *)
Definition triple : Type := element * element * element.
Definition ddh_real {C : Type} (coins : list C) (A : triple -> C -> bool) : Z :=
  tally (list_prod (tapes 2) coins) (fun p =>
    match fst p with
    | [x; r] => A (generator * x, generator * r, generator * (x * r)%S)%E (snd p)
    | _ => false
    end).
Definition ddh_random {C : Type} (coins : list C) (A : triple -> C -> bool) : Z :=
  tally (list_prod (tapes 3) coins) (fun p =>
    match fst p with
    | [x; r; z] => A (generator * x, generator * r, generator * z)%E (snd p)
    | _ => false
    end).
Definition ddh_gap {C : Type} (coins : list C) (A : triple -> C -> bool) : Z :=
  (order L * ddh_real coins A - ddh_random coins A)%Z.

(** ** the experiment of the distinguisher

    The receiver makes a key pair; the client runs [prover], which draws [n] scalars.  Both take randomness from the
    same RNG.  This is the number of cases in which the distinguisher [D] outputs [true]; the probability is this number
    divided by [q ^ (1 + n) * |hashes|]. *)
Definition returns (m : outcome bool) : bool := match m with Ret b => b | Panic _ => false end.
Definition guesses {A : Type} (n : nat) (seed : list scalar -> Rng E) (hashes : list hash)
    (prover : hash -> PublicKey E -> Rng E -> outcome (A * Rng E)) (D : PublicKey E -> A -> strategy scalar bool) : Z :=
  tally (list_prod (tapes (1 + n)) hashes) (fun p =>
    let o := snd p in
    returns ('(kp, r) <- Keypair_generate (seed (fst p)) ;;
             '(a, _) <- prover o (kp_public kp) r ;;
             Ret (run o (D (kp_public kp) a)))).

(** ** the attacker on DDH

    From [(X, R, Z)] the attacker takes [X] as the public key and makes ciphertexts of the messages [Ms X], with two
    scalars [a], [b] each: [([a]R + [b]G, M + [a]Z + [b]X)].  It makes up the rest of what the client publishes: the
    scalars of the proofs are random, and the hash function is changed so that the proofs are correct.  It then runs the
    distinguisher once, answers its queries to the hash with the changed hash function, and outputs the same bit. *)
Fixpoint ddh_ciphertexts (T : triple) (coins : list scalar) (Ms : list element) : list (Ciphertext E) :=
  match coins, Ms with
  | a :: b :: coins', M :: Ms' =>
      let '(X, R, Z) := T in
      {| random_element := R * a + generator * b; blinded_element := M + (Z * a + X * b) |}%E
      :: ddh_ciphertexts T coins' Ms'
  | _, _ => []
  end.

Definition attacker {A : Type} (Ms : PublicKey E -> list element)
    (simulate : PublicKey E -> list (Ciphertext E) -> list scalar -> hash -> A * hash)
    (D : PublicKey E -> A -> strategy scalar bool) (T : triple) (coins : list scalar * list scalar * hash) : bool :=
  let '(c, proof_scalars, o) := coins in
  returns (K <- PublicKey_from_element (fst (fst T)) ;;
           let '(a, o) := simulate K (ddh_ciphertexts T c (Ms K)) proof_scalars o in
           Ret (run o (D K a))).

(** coins of the attacker for [n] ciphertexts and proofs with [k] scalars *)
Definition attacker_coins (n k : nat) (hashes : list hash) : list (list scalar * list scalar * hash) :=
  list_prod (list_prod (tapes (2 * n)) (tapes k)) hashes.

(** the hash function [o], changed so that the last question of the verifier [V] is answered by [c] *)
Definition answering {A : Type} (V : strategy scalar A) (c : scalar) (o : hash) : hash :=
  match rev (asked o V) with
  | [] => o
  | x :: _ => set_hash o x c
  end.

(** *** what the attacker makes up in each case *)
Definition first_of (c : list (Ciphertext E)) : Ciphertext E := hd {| random_element := identity; blinded_element := identity |} c.
Definition ring_proof_of (s : list scalar) : RingProof E := {| rp_challenge := hd 0%S s; rp_responses := tl s |}.

Definition simulate_encryption (K : PublicKey E) (c : list (Ciphertext E)) (s : list scalar) (o : hash) : Ciphertext E * hash :=
  (first_of c, o).

Definition simulate_bool (K : PublicKey E) (c : list (Ciphertext E)) (s : list scalar) (o : hash)
    : (Ciphertext E * RingProof E) * hash :=
  let p := ring_proof_of s in
  ((first_of c, p), answering (bool_verifier K (first_of c) p) (rp_challenge p) o).

Definition simulate_range (range : PreparedRange E) (K : PublicKey E) (c : list (Ciphertext E)) (s : list scalar) (o : hash)
    : (Ciphertext E * RangeProof E) * hash :=
  let p := {| rap_partial := tl c; rap_inner := ring_proof_of s |} in
  ((first_of c, p),
   answering (range_verifier p K range (first_of c) (transcript_new "ciphertext_range")) (rp_challenge (rap_inner p)) o).

(** a ballot: encrypted choices, proof for the choices, proof for their sum (none for a poll with multiple choices) *)
Definition simulate_multi (K : PublicKey E) (c : list (Ciphertext E)) (s : list scalar) (o : hash)
    : (list (Ciphertext E) * RingProof E * unit) * hash :=
  let p := ring_proof_of s in
  ((c, p, tt), answering (choice_ranges_verifier K c p) (rp_challenge p) o).

Definition sum_verifier (K : PublicKey E) (c : list (Ciphertext E)) (p : LogEqualityProof E) :=
  doing (unwrap (reduce Ciphertext_add c)) (fun total =>
  log_equality_verifier p K (random_element total, (blinded_element total - generator)%E) (transcript_new "choice_encryption_sum")).

Definition simulate_single (K : PublicKey E) (c : list (Ciphertext E)) (s : list scalar) (o : hash)
    : (list (Ciphertext E) * RingProof E * LogEqualityProof E) * hash :=
  let sum := {| le_challenge := hd 0%S s; le_response := hd 0%S (tl s) |} in
  let p := ring_proof_of (tl (tl s)) in
  ((c, p, sum), answering (sum_verifier K c sum) (le_challenge sum) (answering (choice_ranges_verifier K c p) (rp_challenge p) o)).

(** the messages in a range proof for [v] with digits [idx]: the value and all digits but the last *)
Definition range_messages (d : RangeDecomposition) (v : N) (idx : list N) : list element :=
  times v generator :: map (fun it => times (fst it * rs_step (snd it)) generator) (removelast (combine idx d)).

(** ** the provers, for the hash [o] *)
Definition real_encryption (M : PublicKey E -> element) (o : hash) (K : PublicKey E) (r : Rng E) : outcome (Ciphertext E * Rng E) :=
  Ret (encrypt_element K (M K) r).

Definition real_bool (v : PublicKey E -> bool) (o : hash) (K : PublicKey E) (r : Rng E)
    : outcome ((Ciphertext E * RingProof E) * Rng E) :=
  '(c, p, r) <- encrypt_bool (E:=hashed_by E o) K (v K) r ;; Ret ((c, p), r).

Definition real_range (range : PreparedRange E) (v : N) (o : hash) (K : PublicKey E) (r : Rng E)
    : outcome ((Ciphertext E * RangeProof E) * Rng E) :=
  '(c, p, r) <- encrypt_range (E:=hashed_by E o) K range v r ;; Ret ((c, p), r).

Definition real_multi (options : nat) (v : PublicKey E -> list bool) (o : hash) (K : PublicKey E) (r : Rng E)
    : outcome ((list (Ciphertext E) * RingProof E * unit) * Rng E) :=
  '(e, r) <- EncryptedChoice_new (E:=hashed_by E o) 
       (@mkChoiceParams (hashed_by E o) (MultiChoice (E:=hashed_by E o)) options K) (v K) r ;;
  Ret ((ec_choices e, ec_range_proof e, ec_sum_proof e), r).

Definition real_single (options : nat) (v : PublicKey E -> list bool) (o : hash) (K : PublicKey E) (r : Rng E)
    : outcome ((list (Ciphertext E) * RingProof E * LogEqualityProof E) * Rng E) :=
  '(e, r) <- EncryptedChoice_new (E:=hashed_by E o) 
       (@mkChoiceParams (hashed_by E o) (SingleChoice (E:=hashed_by E o)) options K) (v K) r ;;
  Ret ((ec_choices e, ec_range_proof e, ec_sum_proof e), r).

(** ** hash inputs

    The hash functions are those on a finite set [dom] that contains the inputs asked for when ballots are verified:
    for each key and all ciphertexts and scalars. *)
Definition covers {A : Type} (dom : list query) (n k : nat) (V : PublicKey E -> list (Ciphertext E) -> list scalar -> strategy scalar A) : Prop :=
  forall x K c s o, key_of x K -> key_bytes_ok K -> List.length c = n -> List.length s = k -> incl (asked o (V K c s)) dom.

End Secrecy.
