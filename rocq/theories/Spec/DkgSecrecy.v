(** * Specification vocabulary for C77: ballots for a key from a distributed key generation

    One honest participant, [idx], runs the key generation with an attacker that controls [t - 1] participants, the
    coalition [is_], and plays all participants but [idx].  The other honest participants, among them the [t] ones in
    [hs], are no limitation for the attacker except that they check the secret shares they get. *)
From Coq Require Import List String NArith ZArith Arith Bool.
From Verif.Model Require Import Base Group Transcript Keys Encryption LogEquality Possession Sharing Dkg.
From Verif.Spec Require Import Encryption Sharing Dkg Domains Rom Forking Verifiers Uniform Secrecy Coalition Election Unbiased.
Import ListNotations.
Open Scope string_scope.
Open Scope list_scope.

(** all questions of the algorithm are in [P], whatever the answers are *)
Inductive asks_only {R A : Type} (P : query -> Prop) : strategy R A -> Prop :=
| asks_output a : asks_only P (Output a)
| asks_ask x k : P x -> (forall c, asks_only P (k c)) -> asks_only P (Ask x k).

(** hash inputs of proofs for dealers' polynomials, src/sharing/key_set.rs 38-40 *)
Definition about_dealers (y : query) : Prop := hd (TChal "") (fst y) = TMsg "dom-sep" (str_bytes "elgamal_share_poly").

Section DkgSecrecy.
Context {E : Env} (L : GroupLaws E) (params : Params) (idx : nat) (is_ hs : list nat).
Local Notation scalar := (Scalar E).
Local Notation element := (Element E).
Local Notation hash := (hash scalar).
Local Notation t := (pa_threshold params).
Local Notation n := (pa_shares params).

(** ** the attacker in the key generation

    It gets the commitment of the honest participant and chooses all other commitments; it gets the polynomial, proof and
    opening of the honest participant and chooses all other ones; it gets the secret shares for the coalition and chooses
    the secret shares for the honest participant and for the participants in [hs] ([sent j m]: for [j] from [m]). *)
Definition sent_shares : Type := nat -> nat -> SecretKey E.
Definition third_step : Type := list (SecretKey E) -> strategy scalar (list (nat * SecretKey E) * sent_shares).
Definition second_step : Type := PublicInfo E -> strategy scalar (list (nat * PublicInfo E) * third_step).
Definition malicious : Type := bytes -> strategy scalar (list (nat * bytes) * second_step).

(** The attacker queries the hash for inputs of dealers' proofs only. *)
Definition malicious_asks (P : query -> Prop) (A : malicious) : Prop :=
  forall c, asks_only P (A c) /\
    forall commitments A2, yields (A c) (commitments, A2) ->
    forall info, asks_only P (A2 info) /\
      forall infos A3, yields (A2 info) (infos, A3) -> forall shares, asks_only P (A3 shares).

(** The three phases for a participant in the first state.  It does not send messages to itself.  [reveal] yields the
    shares for the coalition. *)
Definition from_others {X : Type} (msgs : list (nat * X)) : list (nat * X) := filter (fun m => negb (Nat.eqb (fst m) idx)) msgs.

Definition exchange (reveal : ParticipantExchangingSecrets E -> outcome (list (SecretKey E))) (A : malicious) (o : hash)
    (p : ParticipantCollectingCommitments E)
    : outcome (PublicInfo E * list (SecretKey E) * ParticipantExchangingSecrets E * ParticipantExchangingSecrets E * sent_shares) :=
  commitment <- PCC_commitment (E:=hashed_by E o) p ;;
  let '(commitments, A2) := run o (A commitment) in
  p <- deliver_commitments (E:=hashed_by E o) p (from_others commitments) ;;
  p <- PCC_finish_commitment_phase (E:=hashed_by E o) p ;;
  let own := PCP_public_info (E:=hashed_by E o) p in
  let '(infos, A3) := run o (A2 own) in
  p <- offer_polynomials (E:=hashed_by E o) p (from_others infos) ;;
  p <- PCP_finish_polynomials_phase (E:=hashed_by E o) p ;;
  shares <- reveal p ;;
  let '(mine, sent) := run o (A3 shares) in
  p' <- offer_shares (E:=hashed_by E o) p mine ;;
  Ret (own, shares, p, p', sent).

(** The check of a secret share by participant [j], which has the same polynomials as [p] *)
Definition receiver (p : ParticipantExchangingSecrets E) (j : nat) : ParticipantExchangingSecrets E :=
  {| pes_params := pes_params p; pes_index := j; pes_dealer := pes_dealer p;
     pes_public_polynomials := pes_public_polynomials p; pes_accumulated_share := 0%S; pes_shares_received := repeat false n |}.
Definition accepts (p : ParticipantExchangingSecrets E) (j m : nat) (share : SecretKey E) : bool :=
  match PES_insert_secret_share (receiver p j) m share with
  | Ret (Ok _, _) => true
  | _ => false
  end.
Definition other_dealers : list nat := filter (fun m => negb (Nat.eqb m idx)) (seq 0 n).
Definition all_accept (p : ParticipantExchangingSecrets E) (sent : sent_shares) : bool :=
  forallb (fun m => forallb (fun j => accepts p j m (sent j m)) hs) other_dealers.

(** ** the experiment

    If the key generation is completed, i.e. [PES_complete] succeeds and the participants in [hs] accept their shares,
    then the clients publish something for the shared key.  The distinguisher sees the polynomial, proof and opening
    of the honest participant, the shares of the coalition, the shared key and what the clients publish.  What the attacker has
    sent is a function of that and of the hash. *)
Definition key_generated (A : malicious) (o : hash) (r : Rng E) : outcome (option (PublicInfo E * list scalar * PublicKey E)) :=
  '(p, _) <- PCC_new (E:=hashed_by E o) params idx r ;;
  '(own, shares, p, p', sent) <- exchange (fun p => mapM (PES_secret_share_for_participant (E:=hashed_by E o) p) is_) A o p ;;
  done <- PES_complete (E:=hashed_by E o) p' ;;
  match done with
  | Ok a => Ret (if all_accept p sent then Some (own, shares, ks_shared_key (ap_key_set a)) else None)
  | Err _ => Ret None
  end.

(** [b]: opening of the honest participant's commitment; [seed], [vseed]: randomness of this participant and of the clients *)
Definition dkg_guesses {B : Type} (m : nat) (seed : list scalar -> bytes -> Rng E) (b : bytes) (vseed : list scalar -> Rng E)
    (hashes : list hash) (client : hash -> PublicKey E -> Rng E -> outcome (B * Rng E)) (A : malicious)
    (D : PublicInfo E -> list scalar -> PublicKey E -> B -> strategy scalar bool) : Z :=
  tally (list_prod (tapes L (2 * t + m)) hashes) (fun p =>
    let o := snd p in
    returns (g <- key_generated A o (seed (firstn (2 * t) (fst p)) b) ;;
             match g with
             | Some (own, shares, K) => '(a, _) <- client o K (vseed (skipn (2 * t) (fst p))) ;; Ret (run o (D own shares K a))
             | None => Ret false
             end)).

(** ** the attacker on DDH

    It takes [X] as the constant term of the honest participant's polynomial and makes up the rest as in C70.  Then it
    plays this participant, with secrets 0, in the key generation. *)
Definition hollow (own : PublicInfo E) : outcome (ParticipantCollectingCommitments E) :=
  keys <- mapM PublicKey_from_element (pi_polynomial own) ;;
  e0 <- index (pi_polynomial own) 0 ;;
  c <- create_commitment (E:=E) e0 (pi_opening own) ;;
  commitments <- index_set (repeat None n) idx (Some c) ;;
  Ret {| pcc_params := params; pcc_index := idx;
         pcc_dealer := {| de_params := params; de_polynomial := map (fun k => {| kp_secret := 0%S; kp_public := k |}) keys; de_pop := pi_pop own |};
         pcc_commitments := commitments; pcc_opening := pi_opening own |}.

(** The secrets of the other dealers, from the shares they have sent to the participants in [hs]: interpolation as in
    [combine_shares] *)
Definition secret_of (shares : list scalar) : scalar :=
  match lagrange_coefficients hs with
  | Ret (coefficients, scale) => (fold_right s_add 0 (map (fun cs => fst cs * snd cs) (combine coefficients shares)) * scale)%S
  | Panic _ => 0%S
  end.
Definition other_secrets (sent : sent_shares) : scalar :=
  fold_right s_add 0%S (map (fun m => secret_of (map (fun j => sent j m) hs)) other_dealers).

(** sum of the other dealers' secrets, if the key generation is completed *)
Definition played (A : malicious) (own : PublicInfo E) (shares : list scalar) (o : hash) : option scalar :=
  match p <- hollow own ;; exchange (fun _ => Ret shares) A o p with
  | Ret (_, _, p, p', sent) =>
      match PES_missing_shares p' with
      | [] => if all_accept p sent then Some (other_secrets sent) else None
      | _ :: _ => None
      end
  | Panic _ => None
  end.

(** the key [K + [w]G]; a ciphertext for [K] turned into one for [K + [w]G] *)
Definition move_key (w : scalar) (K : PublicKey E) : PublicKey E :=
  let e := (pk_element K + generator * w)%E in
  {| pk_bytes := match serialize_element e with Ret b => b | Panic _ => [] end; pk_element := e |}.
Definition move_ciphertext (w : scalar) (c : Ciphertext E) : Ciphertext E :=
  {| random_element := random_element c; blinded_element := (blinded_element c + random_element c * w)%E |}.

(** One voter's ballot is made up from ciphertexts for the shared key; the others are cast; see [election_attacker_by].
    [proof_scalars]: the shares of the coalition, the scalars of the dealer's proof, the scalars for the ballot *)
Definition dkg_election_attacker {V B : Type} (client : V -> hash -> PublicKey E -> Rng E -> outcome (B * Rng E)) (b : bytes)
    (vseed : list scalar -> Rng E) (Ms : PublicKey E -> list element)
    (simulate : PublicKey E -> list (Ciphertext E) -> list scalar -> hash -> B * hash)
    (before after : list V) (A : malicious) (D : PublicInfo E -> list scalar -> PublicKey E -> list B -> strategy scalar bool)
    (T : triple) (coins : list scalar * (list scalar * list scalar * hash)) : bool :=
  let '(others, (c, proof_scalars, o)) := coins in
  returns (X <- PublicKey_from_element (fst (fst T)) ;;
           let shares := firstn (t - 1) proof_scalars in
           let own := {| pi_polynomial := public_polynomial L is_ X shares;
                         pi_pop := pop_of (firstn (t + 1) (skipn (t - 1) proof_scalars)); pi_opening := b |} in
           let o := answering (dealing_verifier params (pi_polynomial own) (pi_pop own)) (pop_challenge (pi_pop own)) o in
           match played A own shares o with
           | None => Ret false
           | Some w =>
               let K := move_key w X in
               let '(a, o) := simulate K (map (move_ciphertext w) (ddh_ciphertexts T c (Ms K))) (skipn (2 * t) proof_scalars) o in
               '(l1, r) <- cast client before o K (vseed others) ;;
               '(l2, _) <- cast client after o K r ;;
               Ret (run o (D own shares K (l1 ++ a :: l2)))
           end).

End DkgSecrecy.
