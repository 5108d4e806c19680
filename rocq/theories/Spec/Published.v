(** * Specification vocabulary for C73: an election with a published result

    After all ballots are cast, participants decrypt the totals: each publishes its decryption shares together with the
    proofs of their correctness.  The attackers on DDH compute the shares from the result and make up the proofs. *)
From Coq Require Import List String NArith ZArith.
From Verif.Model Require Import Base Group Transcript Keys Encryption LogEquality Possession Sharing.
From Verif.Spec Require Import Encryption Sharing Domains Rom Forking Verifiers Uniform Secrecy Coalition.
Import ListNotations.
Open Scope string_scope.
Open Scope list_scope.

Section Published.
Context {E : Env} (L : GroupLaws E).
Local Notation scalar := (Scalar E).
Local Notation element := (Element E).
Local Notation hash := (hash scalar).
Local Notation publication := (list (VerifiableDecryption E * LogEqualityProof E)).

(** For each pair [(j, c)], participant [j] gets its share from the dealer [d] and decrypts the ciphertext [c]. *)
Fixpoint publish (o : hash) (d : Dealer E) (ks : PublicKeySet E) (items : list (nat * Ciphertext E)) (r : Rng E)
    : outcome (publication * Rng E) :=
  match items with
  | [] => Ret ([], r)
  | (j, c) :: items' =>
      s <- Dealer_secret_share_for_participant d j ;;
      p <- ActiveParticipant_new (E:=hashed_by E o) ks j s ;;
      match p with
      | Err _ => Panic PUnwrap
      | Ok p =>
          '(vd, pf, r) <- ActiveParticipant_decrypt_share (E:=hashed_by E o) p c r ;;
          '(l, r) <- publish o d ks items' r ;;
          Ret ((vd, pf) :: l, r)
      end
  end.

(** ** the experiment

    As [dealt_guesses]; after the client's part, each participant in [hs] decrypts each of the ciphertexts [totals a].
    [n]: number of scalars for the client, [N]: number of decryption shares *)
Definition published_guesses {A : Type} (params : Params) (is_ hs : list nat) (n N : nat) (seed : list scalar -> Rng E) (hashes : list hash)
    (client : hash -> PublicKey E -> Rng E -> outcome (A * Rng E)) (totals : A -> list (Ciphertext E))
    (D : list element -> ProofOfPossession E -> list scalar -> A -> publication -> strategy scalar bool) : Z :=
  tally (list_prod (tapes L (2 * pa_threshold params + (n + N))) hashes) (fun p =>
    let o := snd p in
    returns ('(d, r) <- Dealer_new (E:=hashed_by E o) params (seed (fst p)) ;;
             let '(poly, pop) := Dealer_public_info d in
             set <- PublicKeySet_new (E:=hashed_by E o) params poly pop ;;
             shares <- mapM (Dealer_secret_share_for_participant d) is_ ;;
             match set with
             | Ok ks =>
                 '(a, r) <- client o (ks_shared_key ks) r ;;
                 '(pub, _) <- publish o d ks (list_prod hs (totals a)) r ;;
                 Ret (run o (D poly pop shares a pub))
             | Err _ => Ret false
             end)).

(** ** the attacker on DDH makes up the publication *)

(** the decryption share of participant [j] for a ciphertext of [M], see [C70_decryption_shares] *)
Definition share_from (is_ : list nat) (shares : list scalar) (c : Ciphertext E) (M : element) (j : nat) : VerifiableDecryption E :=
  {| vd_dh_element := evaluate (interpolate L ((0%S, (blinded_element c - M)%E) ::
       map (fun p => (node (fst p), random_element c * snd p)%E) (combine is_ shares))) (node j) |}.

(** For each share a made-up proof, with the hash input asked for when it is verified *)
Fixpoint make_up (o : hash) (ks : PublicKeySet E) (is_ : list nat) (shares : list scalar)
    (items : list (nat * (Ciphertext E * element))) (challenges responses : list scalar)
    : list (VerifiableDecryption E * (query * LogEqualityProof E)) :=
  match items, challenges, responses with
  | (j, (c, M)) :: items', e :: challenges', z :: responses' =>
      let vd := share_from is_ shares c M j in
      let pf := {| le_challenge := e; le_response := z |} in
      (vd, (last (asked o (share_verifier ks {| cd_inner := vd |} c j pf)) ([], ""), pf))
      :: make_up o ks is_ shares items' challenges' responses'
  | _, _, _ => []
  end.

(** Proofs with the same hash input are the same: the first one counts.  The hash function is changed to answer by the
    challenges. *)
Definition proof_for (table : list (query * LogEqualityProof E)) (x : query) (default : LogEqualityProof E) : LogEqualityProof E :=
  match find (fun e => if query_dec (fst e) x then true else false) table with
  | Some e => snd e
  | None => default
  end.
Definition simulate_publication (o : hash) (ks : PublicKeySet E) (is_ : list nat) (shares : list scalar)
    (items : list (nat * (Ciphertext E * element))) (challenges responses : list scalar) : publication * hash :=
  let made := make_up o ks is_ shares items challenges responses in
  let table := map snd made in
  (map (fun m => (fst m, proof_for table (fst (snd m)) (snd (snd m)))) made,
   fold_right (fun e o => set_hash o (fst e) (le_challenge (snd e))) o table).

(** What the distinguisher [D] says about the ballots [a] and made-up decryption shares with the given [result] *)
Definition published_view {A : Type} (params : Params) (is_ hs : list nat) (totals : A -> list (Ciphertext E)) (result : list element)
    (D : list element -> ProofOfPossession E -> list scalar -> A -> publication -> strategy scalar bool)
    (coins : list scalar * list scalar) (K : PublicKey E) (v : list scalar * ProofOfPossession E * A) (o : hash) : bool :=
  let '(shares, pop, a) := v in
  let poly := public_polynomial L is_ K shares in
  returns (set <- PublicKeySet_new (E:=hashed_by E o) params poly pop ;;
           match set with
           | Ok ks =>
               let '(pub, o') := simulate_publication o ks is_ shares (list_prod hs (combine (totals a) result)) (fst coins) (snd coins) in
               Ret (run o' (D poly pop shares a pub))
           | Err _ => Ret false
           end).

(** voters for option [i], and the messages of the totals for all options *)
Definition votes_for (i : nat) (votes : list (list bool)) : nat := List.length (filter (fun v => nth i v false) votes).
Definition published_result (options : nat) (votes : list (list bool)) : list element :=
  map (fun i => times (N.of_nat (votes_for i votes)) generator) (seq 0 options).

(** hash inputs, see [covers] *)
Definition covers_shares (dom : list query) (params : Params) (hs : list nat) : Prop :=
  forall (ks : PublicKeySet E) (d : CandidateDecryption E) c j p o, ks_params ks = params -> key_bytes_ok (E:=E) (ks_shared_key ks) -> In j hs ->
    incl (asked o (share_verifier ks d c j p)) dom.

End Published.
