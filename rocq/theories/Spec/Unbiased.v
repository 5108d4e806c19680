(** * Specification vocabulary for C74: nobody chooses the key of a distributed key generation

    One participant is honest, all others are controlled by an attacker.  SHA-256 is a random function, to which the
    attacker has query access.  As in C57-C73, probabilities are numbers of cases: the scalars and the opening drawn by the
    honest participant and hash functions are counted. *)
From Coq Require Import List String NArith ZArith Strings.Byte.
From Verif.Model Require Import Base Group Transcript Keys Encryption LogEquality Possession Sharing Dkg.
From Verif.Spec Require Import Sharing Dkg Rom Forking Uniform Secrecy.
Import ListNotations.
Open Scope string_scope.
Open Scope list_scope.

(** ** byte strings and hash functions *)
Definition all_bytes : list Byte.byte :=
  flat_map (fun n => match Byte.of_nat n with Some b => [b] | None => [] end) (seq 0 256).
Fixpoint byte_strings (n : nat) : list bytes :=
  match n with
  | O => [[]]
  | S n' => flat_map (fun b => map (cons b) (byte_strings n')) all_bytes
  end.

(** values of SHA-256; openings have the same length *)
Definition digests32 : list bytes := byte_strings 32.

(** An input of SHA-256, as a hash input in the sense of [Spec/Rom.v]. *)
Definition sha_input (b : bytes) : query := ([TMsg "" b], "").

(** the environment [E] with the function [o] in place of SHA-256 *)
Definition with_sha256 (E : Env) (o : hash bytes) : Env :=
  {| env_group := env_group E; Rng := Rng E; generate_scalar := @generate_scalar E;
     fill_bytes := @fill_bytes E; oracle := @oracle E; sha256 := fun b => answer o (sha_input b);
     len_estimate := @len_estimate E; env_build := env_build E |}.

Section Offers.
Context {E : Env}.
(** Messages to a participant; rejected ones are ignored. *)
Fixpoint offer_polynomials (p : ParticipantCollectingPolynomials E) (msgs : list (nat * PublicInfo E))
    : outcome (ParticipantCollectingPolynomials E) :=
  match msgs with
  | [] => Ret p
  | (j, info) :: msgs' => '(_, p') <- PCP_insert_public_polynomial p j info ;; offer_polynomials p' msgs'
  end.
Fixpoint offer_shares (p : ParticipantExchangingSecrets E) (msgs : list (nat * SecretKey E))
    : outcome (ParticipantExchangingSecrets E) :=
  match msgs with
  | [] => Ret p
  | (j, share) :: msgs' => '(_, p') <- PES_insert_secret_share p j share ;; offer_shares p' msgs'
  end.
End Offers.

(** the possible outputs of an algorithm with oracle access, whatever the answers are *)
Inductive yields {R A : Type} : strategy R A -> A -> Prop :=
| yields_output a : yields (Output a) a
| yields_ask x k c a : yields (k c) a -> yields (Ask x k) a.

Section Unbiased.
Context {E : Env} (L : GroupLaws E) (params : Params) (idx : nat).
Local Notation scalar := (Scalar E).
Local Notation element := (Element E).

(** [seed xs b] is an RNG state that yields the scalars [xs] first, and then 32 bytes [b] *)
Definition seeds_bytes (seed : list scalar -> bytes -> Rng E) : Prop :=
  forall xs b, List.length b = 32%nat ->
    let '(ys, r) := draws (List.length xs) (seed xs b) in ys = xs /\ fst (fill_bytes 32 r) = b.

(** ** the attacker

    It gets the commitment of the honest participant and chooses the commitments of all others; then it gets the
    polynomial, proof and opening of the honest participant and chooses those of the others; then it gets its secret shares
    and chooses those for the honest participant.  In each phase it may query the hash; what it has learned so far is
    available later. *)
Definition last_phase : Type := list (SecretKey E) -> strategy bytes (list (nat * SecretKey E)).
Definition second_phase : Type := PublicInfo E -> strategy bytes (list (nat * PublicInfo E) * last_phase).
Definition dkg_attacker : Type := bytes -> strategy bytes (list (nat * bytes) * second_phase).

(** The honest participant number [idx], run with the attacker. *)
Definition attacked (A : dkg_attacker) (o : hash bytes) (r : Rng E) : outcome (Base.result (ActiveParticipant E) DkgError) :=
  let E' := with_sha256 E o in
  '(p, _) <- PCC_new (E:=E') params idx r ;;
  commitment <- PCC_commitment (E:=E') p ;;
  let '(commitments, A2) := run o (A commitment) in
  p <- deliver_commitments (E:=E') p commitments ;;
  p <- PCC_finish_commitment_phase (E:=E') p ;;
  let '(infos, A3) := run o (A2 (PCP_public_info (E:=E') p)) in
  p <- offer_polynomials (E:=E') p infos ;;
  p <- PCP_finish_polynomials_phase (E:=E') p ;;
  shares <- mapM (PES_secret_share_for_participant (E:=E') p) (filter (fun i => negb (Nat.eqb i idx)) (seq 0 (pa_shares params))) ;;
  p <- offer_shares (E:=E') p (run o (A3 shares)) ;;
  PES_complete (E:=E') p.

(** the key generation is completed, with a shared key in [target] *)
Definition attains (target : element -> bool) (A : dkg_attacker) (o : hash bytes) (r : Rng E) : bool :=
  match attacked A o r with
  | Ret (Ok a) => target (pk_element (ks_shared_key (ap_key_set a)))
  | _ => false
  end.

(** ** hash inputs of the attack up to the end of the second phase *)
Definition opened (info : PublicInfo E) : list query :=
  match pi_polynomial info with
  | e0 :: _ => match serialize_element e0 with Ret b => [sha_input (b ++ pi_opening info)] | Panic _ => [] end
  | [] => []
  end.

Definition attack_inputs (A : dkg_attacker) (o : hash bytes) (r : Rng E) : outcome (list query) :=
  '(p, _) <- PCC_new (E:=with_sha256 E o) params idx r ;;
  commitment <- PCC_commitment (E:=with_sha256 E o) p ;;
  let '(polynomial, pop) := Dealer_public_info (E:=E) (pcc_dealer p) in
  let info := {| pi_polynomial := polynomial; pi_pop := pop; pi_opening := pcc_opening p |} in
  let A2 := snd (run o (A commitment)) in
  Ret (opened info ++ asked o (A commitment) ++ asked o (A2 info) ++ flat_map (fun m => opened (snd m)) (fst (run o (A2 info)))).

(** [A] makes at most [Q1] queries before it commits, at most [Q2] queries in the second phase, and sends at most [M]
    polynomials.  (Nothing else is limited; in particular, queries in the last phase are not.) *)
Definition attack_limits (A : dkg_attacker) (Q1 Q2 M : nat) : Prop :=
  forall c, at_most Q1 (A c) /\
    forall commitments A2, yields (A c) (commitments, A2) ->
    forall info, at_most Q2 (A2 info) /\
      forall infos A3, yields (A2 info) (infos, A3) -> (List.length infos <= M)%nat.

(** [dom] contains all hash inputs of the attack, for hash functions with values in [digests32] *)
Definition contains_inputs (seed : list scalar -> bytes -> Rng E) (A : dkg_attacker) (dom : list query) : Prop :=
  forall o xs b, (forall x, In x dom -> In (answer o x) digests32) ->
    List.length xs = (2 * pa_threshold params)%nat -> List.length b = 32%nat ->
    exists l, attack_inputs A o (seed xs b) = Ret l /\ incl l dom.

(** The number of cases, and the number of cases in which the attacker attains its target. *)
Definition dkg_cases (hashes : list (hash bytes)) : list (list scalar * bytes * hash bytes) :=
  list_prod (list_prod (tapes L (2 * pa_threshold params)) digests32) hashes.
Definition successes (seed : list scalar -> bytes -> Rng E) (hashes : list (hash bytes)) (target : element -> bool)
    (A : dkg_attacker) : Z :=
  tally (dkg_cases hashes) (fun p => attains target A (snd p) (seed (fst (fst p)) (snd (fst p)))).

(** keys in [target], among all [order L] keys *)
Definition targets (target : element -> bool) : Z := tally (all_scalars L) (fun x => target (generator * x)%E).

End Unbiased.
