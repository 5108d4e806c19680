(** * C81: the amount of randomness drawn does not depend on secret data *)
From Coq Require Import List NArith ZArith Bool String Lia.
From Verif.Model Require Import Base Group Transcript Keys Encryption LogEquality Possession
  Commitment Mul Ring Range Sharing Choice Quadratic Dkg.
From Verif.Spec Require Import Draws.
From Verif.Proofs Require Import Algebra Draws.
From Verif.Instance Require Import Zq.
From Verif.Properties Require Import LogEquality Ring.
Import ListNotations.
Open Scope nat_scope.

(** [draws n r] is the state of the RNG after exactly [n] scalars.  In every statement the
    number of scalars depends on public parameters only. *)

(** Keys, encryption, decryption and proofs of knowledge. *)
Theorem C81_basic :
  forall (E : Env) (r r' : Rng E),
  (forall kp, Keypair_generate r = Ret (kp, r') -> r' = draws 1 r) /\
  (forall (pk : PublicKey E) v c, encrypt pk v r = (c, r') -> r' = draws 1 r) /\
  (forall (pk : PublicKey E) M c, encrypt_element pk M r = (c, r') -> r' = draws 1 r) /\
  (forall (pk : PublicKey E) c q, encrypt_zero pk r = Ret (c, q, r') -> r' = draws 2 r) /\
  (forall (c : Ciphertext E) keys t d q t',
     VerifiableDecryption_new c keys t r = Ret (d, q, t', r') -> r' = draws 1 r) /\
  (forall (base : PublicKey E) sk powers t q t',
     LogEqualityProof_new base sk powers t r = Ret (q, t', r') -> r' = draws 1 r) /\
  (forall (keypairs : list (Keypair E)) t q t',
     ProofOfPossession_new keypairs t r = Ret (q, t', r') -> r' = draws (List.length keypairs) r) /\
  (forall (c : CiphertextWithValue E (Scalar E)) pk b H t q e t',
     CommitmentEquivalenceProof_new c pk b H t r = Ret (q, e, t', r') -> r' = draws 3 r) /\
  (forall (cs : list (CiphertextWithValue E (Scalar E))) c pk t q t',
     SumOfSquaresProof_new cs c pk t r = Ret (q, t', r') ->
     r' = draws (1 + 2 * List.length cs) r).
Proof.
  intros E r r'.
  split; [intros kp H; exact (d_keypair _ _ _ H)|].
  split; [intros pk v c H; exact (d_encrypt _ _ _ _ _ H)|].
  split; [intros pk v c H; exact (d_encrypt_element _ _ _ _ _ H)|].
  split; [intros pk c q H; exact (d_encrypt_zero _ _ _ _ _ H)|].
  split; [intros c keys t d q t' H; exact (d_verifiable _ _ _ _ _ _ _ _ H)|].
  split; [intros base sk powers t q t' H; exact (d_log_eq _ _ _ _ _ _ _ _ H)|].
  split; [intros keypairs t q t' H; exact (d_pop _ _ _ _ _ _ H)|].
  split; [intros c pk b H0 t q e t' H; exact (d_commitment _ _ _ _ _ _ _ _ _ _ H)|].
  intros cs c pk t q t' H. exact (d_squares _ _ _ _ _ _ _ _ H).
Qed.
Print Assumptions C81_basic.

(** Flags and numbers in a range: the encrypted value does not influence the count, although
    the position of the value in its ring decides how many scalars are drawn before the common
    challenge is computed. *)
Theorem C81_bool_and_range :
  forall (E : Env) (pk : PublicKey E) (r : Rng E),
  (forall v c q r', encrypt_bool pk v r = Ret (c, q, r') -> r' = draws 3 r) /\
  (forall d (range : PreparedRange E) v c q r', PreparedRange_new d = Ret range ->
     encrypt_range pk range v r = Ret (c, q, r') -> r' = draws (range_draws d) r).
Proof.
  intros E pk r. split.
  - intros v c q r' H. exact (d_encrypt_bool _ _ _ _ _ _ H).
  - intros d range v c q r' P H. exact (d_encrypt_range _ _ _ _ _ _ _ _ P H).
Qed.
Print Assumptions C81_bool_and_range.

(** Ballots with choices. *)
Theorem C81_choice_ballots :
  forall (E : Env) (r : Rng E),
  (forall (params : ChoiceParams (@SingleChoice E)) choice e r',
     EncryptedChoice_single params choice r = Ret (e, r') ->
     r' = draws (3 * cp_options_count params + 1) r) /\
  (forall (params : ChoiceParams (@MultiChoice E)) choices e r',
     EncryptedChoice_new params choices r = Ret (e, r') ->
     r' = draws (3 * cp_options_count params) r).
Proof.
  intros E r. split.
  - intros params choice e r' H. exact (d_single _ _ _ _ _ H).
  - intros params choices e r' H. exact (d_multi _ _ _ _ _ H).
Qed.
Print Assumptions C81_choice_ballots.

(** Quadratic voting, for all parameters obtained through the API. *)
Definition qv_ranges {E : Env} (params : QuadraticVotingParams E) (dv dc : RangeDecomposition) : Prop :=
  PreparedRange_new dv = Ret (qv_vote_count_range params) /\
  PreparedRange_new dc = Ret (qv_credit_range params).

Theorem C81_quadratic_ballots :
  forall (E : Env),
  (forall (receiver : PublicKey E) options credits params,
     QuadraticVotingParams_new receiver options credits = Ret params ->
     exists dv dc, qv_ranges params dv dc) /\
  (forall (params params' : QuadraticVotingParams E) max_votes dv dc,
     qv_ranges params dv dc -> QuadraticVotingParams_set_max_votes params max_votes = Ret params' ->
     exists dv', qv_ranges params' dv' dc) /\
  (forall (params : QuadraticVotingParams E) dv dc votes r e r',
     qv_ranges params dv dc -> QuadraticVotingBallot_new params votes r = Ret (e, r') ->
     r' = draws (qv_options_count params * (range_draws dv + 2) + range_draws dc + 1) r).
Proof.
  intro E. split; [|split].
  - intros receiver options credits params H. unfold QuadraticVotingParams_new in H.
    do 9 inv_bind H. injection H as <-.
    eexists _, _. split; cbn; eassumption.
  - intros params params' max_votes dv dc (Pv & Pc) H. unfold QuadraticVotingParams_set_max_votes in H.
    do 5 inv_bind H. injection H as <-.
    match goal with K : optimal_range _ = _ |- _ => unfold optimal_range in K; inv_bind K end.
    eexists. split; cbn; eassumption.
  - intros params dv dc votes r e r' (Pv & Pc) H. exact (d_qv _ _ _ _ _ _ _ Pv Pc H).
Qed.
Print Assumptions C81_quadratic_ballots.

(** So two voters who start from the same RNG state end in the same state, whatever they vote. *)
Theorem C81_votes_not_visible :
  forall (E : Env) (r : Rng E),
  (forall (pk : PublicKey E) v1 v2 c1 q1 r1 c2 q2 r2,
     encrypt_bool pk v1 r = Ret (c1, q1, r1) -> encrypt_bool pk v2 r = Ret (c2, q2, r2) -> r1 = r2) /\
  (forall (params : ChoiceParams (@SingleChoice E)) v1 v2 e1 r1 e2 r2,
     EncryptedChoice_single params v1 r = Ret (e1, r1) ->
     EncryptedChoice_single params v2 r = Ret (e2, r2) -> r1 = r2) /\
  (forall (params : ChoiceParams (@MultiChoice E)) v1 v2 e1 r1 e2 r2,
     EncryptedChoice_new params v1 r = Ret (e1, r1) ->
     EncryptedChoice_new params v2 r = Ret (e2, r2) -> r1 = r2) /\
  (forall (receiver : PublicKey E) options credits params v1 v2 e1 r1 e2 r2,
     QuadraticVotingParams_new receiver options credits = Ret params ->
     QuadraticVotingBallot_new params v1 r = Ret (e1, r1) ->
     QuadraticVotingBallot_new params v2 r = Ret (e2, r2) -> r1 = r2).
Proof.
  intros E r. split; [|split; [|split]].
  - intros pk v1 v2 c1 q1 r1 c2 q2 r2 H1 H2.
    rewrite (d_encrypt_bool _ _ _ _ _ _ H1), (d_encrypt_bool _ _ _ _ _ _ H2). reflexivity.
  - intros params v1 v2 e1 r1 e2 r2 H1 H2.
    rewrite (d_single _ _ _ _ _ H1), (d_single _ _ _ _ _ H2). reflexivity.
  - intros params v1 v2 e1 r1 e2 r2 H1 H2.
    rewrite (d_multi _ _ _ _ _ H1), (d_multi _ _ _ _ _ H2). reflexivity.
  - intros receiver options credits params v1 v2 e1 r1 e2 r2 HP H1 H2.
    destruct (proj1 (C81_quadratic_ballots E) _ _ _ _ HP) as (dv & dc & Pv & Pc).
    rewrite (d_qv _ _ _ _ _ _ _ Pv Pc H1), (d_qv _ _ _ _ _ _ _ Pv Pc H2). reflexivity.
Qed.
Print Assumptions C81_votes_not_visible.

(** The dealer, the participants and the first stage of distributed key generation. *)
Theorem C81_sharing :
  forall (E : Env) (r r' : Rng E),
  (forall params (d : Dealer E), Dealer_new params r = Ret (d, r') ->
     r' = draws (2 * pa_threshold params) r) /\
  (forall (a : ActiveParticipant E) q,
     ActiveParticipant_proof_of_possession a r = Ret (q, r') -> r' = draws 1 r) /\
  (forall (a : ActiveParticipant E) c d q,
     ActiveParticipant_decrypt_share a c r = Ret (d, q, r') -> r' = draws 1 r) /\
  (forall params i (p : ParticipantCollectingCommitments E), PCC_new params i r = Ret (p, r') ->
     r' = snd (fill_bytes 32 (draws (2 * pa_threshold params) r))).
Proof.
  intros E r r'.
  split; [intros params d H; exact (d_dealer _ _ _ _ H)|].
  split; [intros a q H; exact (d_active_pop _ _ _ _ H)|].
  split; [intros a c d q H; exact (d_active_share _ _ _ _ _ _ H)|].
  intros params i p H. exact (d_pcc _ _ _ _ _ H).
Qed.
Print Assumptions C81_sharing.

(** The hypotheses are met: a single-choice ballot for five options draws 16 scalars for every
    choice, and the RNG of the example does move with each. *)
Example C81_example :
  match ChoiceParams_single (E := RE) ex_key 5 with
  | Ret params =>
      match EncryptedChoice_single params 0 21%Z, EncryptedChoice_single params 4 21%Z with
      | Ret (_, r1), Ret (_, r2) =>
          r1 = draws (E := RE) 16 21%Z /\ r2 = draws (E := RE) 16 21%Z /\
          Z.eqb (draws (E := RE) 15 21%Z) (draws (E := RE) 16 21%Z) = false
      | _, _ => False
      end
  | Panic _ => False
  end.
Proof. vm_compute. auto. Qed.

Example C81_range_example :
  match PreparedRange_new (E := RE) [mkRingSpec 3 4; mkRingSpec 4 1] with
  | Ret range =>
      match encrypt_range (E := RE) ex_key range 0 21%Z, encrypt_range (E := RE) ex_key range 11 21%Z with
      | Ret (_, _, r1), Ret (_, _, r2) =>
          r1 = draws (E := RE) 9 21%Z /\ r2 = draws (E := RE) 9 21%Z
      | _, _ => False
      end
  | Panic _ => False
  end.
Proof. vm_compute. auto. Qed.
