(** * Replacing the variable-time operations of a backend

    The trait [Group] (src/group/mod.rs 183-255) has operations which must be
    constant-time and three which are documented as not needing to be:
    [vartime_mul_generator], [vartime_double_mul_generator] and [vartime_multi_mul].
    Only public data may be passed to the latter.  [env_vartime E f g h] is the environment [E] with these three
    replaced by arbitrary functions [f], [g], [h]; everything else (carriers,
    constant-time operations, encodings, RNG, hashes, build profile) is as in [E].

    The record types of the model mention the backend, so a value over [E] is carried
    over to [env_vartime E f g h] field by field by the functions [cv_*]; none of them
    changes a scalar, an element, a byte or a number. *)
From Coq Require Import List NArith Bool.
From Verif.Model Require Import Base Group Transcript Keys Encryption LogEquality Possession
  Commitment Mul Ring Range Sharing Choice Quadratic Dkg.
Import ListNotations.

(** The result of a computation with its value carried over by [cv]; a panic is the
    same panic. *)
Definition omap {A B : Type} (cv : A -> B) (m : outcome A) : outcome B :=
  match m with
  | Ret a => Ret (cv a)
  | Panic p => Panic p
  end.

Definition rmap {A B X : Type} (cv : A -> B) (m : result A X) : result B X :=
  match m with
  | Ok a => Ok (cv a)
  | Err e => Err e
  end.

Definition with_vartime (G : Group) (f : Scalar G -> Element G)
    (g : Scalar G -> Element G -> Scalar G -> Element G)
    (h : list (Scalar G) -> list (Element G) -> outcome (Element G)) : Group :=
  {| Scalar := Scalar G; Element := Element G;
     s_default := s_default; s_of_u64 := s_of_u64; s_neg := s_neg; s_add := s_add;
     s_sub := s_sub; s_mul := s_mul; s_eqb := s_eqb; SCALAR_SIZE := SCALAR_SIZE G;
     invert_scalar := invert_scalar; invert_scalars := invert_scalars;
     serialize_scalar := serialize_scalar; deserialize_scalar := deserialize_scalar;
     e_add := e_add; e_sub := e_sub; e_neg := e_neg; e_mul := e_mul; e_eqb := e_eqb;
     ELEMENT_SIZE := ELEMENT_SIZE G; identity := identity; is_identity := is_identity;
     generator := generator; serialize_element := serialize_element;
     deserialize_element := deserialize_element; mul_generator := mul_generator;
     multi_mul := multi_mul;
     vartime_mul_generator := f;
     vartime_double_mul_generator := g;
     vartime_multi_mul := h |}.

Definition env_vartime (E : Env) (f : Scalar E -> Element E)
    (g : Scalar E -> Element E -> Scalar E -> Element E)
    (h : list (Scalar E) -> list (Element E) -> outcome (Element E)) : Env :=
  {| env_group := with_vartime E f g h;
     Rng := Rng E; generate_scalar := @generate_scalar E; fill_bytes := @fill_bytes E;
     oracle := @oracle E; sha256 := @sha256 E; len_estimate := @len_estimate E;
     env_build := env_build E |}.

Section Conversions.
Context {E : Env}.
Context {f : Scalar E -> Element E}.
Context {g : Scalar E -> Element E -> Scalar E -> Element E}.
Context {h : list (Scalar E) -> list (Element E) -> outcome (Element E)}.
Local Notation E' := (env_vartime E f g h).

Definition cv_pk (k : PublicKey E) : PublicKey E' :=
  {| pk_bytes := pk_bytes k; pk_element := pk_element k : Element E' |}.
Definition cv_kp (k : Keypair E) : Keypair E' :=
  {| kp_secret := kp_secret k : SecretKey E'; kp_public := cv_pk (kp_public k) |}.
Definition cv_ct (c : Ciphertext E) : Ciphertext E' :=
  {| random_element := random_element c : Element E';
     blinded_element := blinded_element c : Element E' |}.
Definition cv_ext (c : ExtendedCiphertext E) : ExtendedCiphertext E' :=
  {| ext_inner := cv_ct (ext_inner c);
     ext_random_scalar := ext_random_scalar c : SecretKey E' |}.
Definition cv_cwv {V : Type} (c : CiphertextWithValue E V) : CiphertextWithValue E' V :=
  {| cwv_ext := cv_ext (cwv_ext c); cwv_value := cwv_value c |}.
Definition cv_le (p : LogEqualityProof E) : LogEqualityProof E' :=
  {| le_challenge := le_challenge p : Scalar E'; le_response := le_response p : Scalar E' |}.
Definition cv_vd (d : VerifiableDecryption E) : VerifiableDecryption E' :=
  {| vd_dh_element := vd_dh_element d : Element E' |}.
Definition cv_pop (p : ProofOfPossession E) : ProofOfPossession E' :=
  {| pop_challenge := pop_challenge p : Scalar E';
     pop_responses := pop_responses p : list (Scalar E') |}.
Definition cv_ce (p : CommitmentEquivalenceProof E) : CommitmentEquivalenceProof E' :=
  {| ce_challenge := ce_challenge p : Scalar E';
     ce_randomness_response := ce_randomness_response p : Scalar E';
     ce_value_response := ce_value_response p : Scalar E';
     ce_commitment_response := ce_commitment_response p : Scalar E' |}.
Definition cv_sq (p : SumOfSquaresProof E) : SumOfSquaresProof E' :=
  {| sq_challenge := sq_challenge p : Scalar E';
     sq_ciphertext_responses := sq_ciphertext_responses p : list (Scalar E');
     sq_sum_response := sq_sum_response p : Scalar E' |}.
Definition cv_rp (p : RingProof E) : RingProof E' :=
  {| rp_challenge := rp_challenge p : Scalar E';
     rp_responses := rp_responses p : list (Scalar E') |}.
Definition cv_ring (x : Ring E) : Ring E' :=
  {| rg_index := rg_index x; rg_admissible := rg_admissible x : list (Element E');
     rg_ciphertext := cv_ct (rg_ciphertext x); rg_transcript := rg_transcript x;
     rg_responses := rg_responses x : list (Scalar E');
     rg_terminal := rg_terminal x : Element E' * Element E';
     rg_value_index := rg_value_index x;
     rg_discrete_log := rg_discrete_log x : SecretKey E';
     rg_random_scalar := rg_random_scalar x : SecretKey E' |}.
Definition cv_rb (b : RingProofBuilder E (Rng E)) : RingProofBuilder E' (Rng E') :=
  {| rb_receiver := cv_pk (rb_receiver b); rb_transcript := rb_transcript b;
     rb_rings := map cv_ring (rb_rings b); rb_rest := rb_rest b : list (Scalar E');
     rb_rng := rb_rng b : Rng E' |}.
Definition cv_range (p : PreparedRange E) : PreparedRange E' :=
  {| pr_inner := pr_inner p; pr_admissible := pr_admissible p : list (list (Element E')) |}.
Definition cv_rap (p : RangeProof E) : RangeProof E' :=
  {| rap_partial := map cv_ct (rap_partial p); rap_inner := cv_rp (rap_inner p) |}.
Definition cv_single (p : @ChoiceParams E SingleChoice)
    : @ChoiceParams E' SingleChoice :=
  @mkChoiceParams E' SingleChoice (cp_options_count p) (cv_pk (cp_receiver p)).
Definition cv_multi (p : @ChoiceParams E MultiChoice)
    : @ChoiceParams E' MultiChoice :=
  @mkChoiceParams E' MultiChoice (cp_options_count p) (cv_pk (cp_receiver p)).
Definition cv_single_choice (x : @EncryptedChoice E SingleChoice)
    : @EncryptedChoice E' SingleChoice :=
  @mkEncryptedChoice E' SingleChoice (map cv_ct (ec_choices x))
    (cv_rp (ec_range_proof x)) (cv_le (ec_sum_proof x)).
Definition cv_multi_choice (x : @EncryptedChoice E MultiChoice)
    : @EncryptedChoice E' MultiChoice :=
  @mkEncryptedChoice E' MultiChoice (map cv_ct (ec_choices x))
    (cv_rp (ec_range_proof x)) (ec_sum_proof x).
Definition cv_qv (p : QuadraticVotingParams E) : QuadraticVotingParams E' :=
  {| qv_vote_count_range := cv_range (qv_vote_count_range p);
     qv_credit_range := cv_range (qv_credit_range p);
     qv_options_count := qv_options_count p; qv_receiver := cv_pk (qv_receiver p) |}.
Definition cv_crp (x : CiphertextWithRangeProof E) : CiphertextWithRangeProof E' :=
  {| crp_ciphertext := cv_ct (crp_ciphertext x); crp_range_proof := cv_rap (crp_range_proof x) |}.
Definition cv_qb (x : QuadraticVotingBallot E) : QuadraticVotingBallot E' :=
  {| qb_votes := map cv_crp (qb_votes x); qb_credit := cv_crp (qb_credit x);
     qb_credit_equivalence_proof := cv_sq (qb_credit_equivalence_proof x) |}.
Definition cv_ks (k : PublicKeySet E) : PublicKeySet E' :=
  {| ks_params := ks_params k; ks_shared_key := cv_pk (ks_shared_key k);
     ks_participant_keys := map cv_pk (ks_participant_keys k) |}.
Definition cv_dealer (d : Dealer E) : Dealer E' :=
  {| de_params := de_params d; de_polynomial := map cv_kp (de_polynomial d);
     de_pop := cv_pop (de_pop d) |}.
Definition cv_active (a : ActiveParticipant E) : ActiveParticipant E' :=
  {| ap_key_set := cv_ks (ap_key_set a); ap_index := ap_index a;
     ap_secret_share := ap_secret_share a : SecretKey E' |}.
Definition cv_pcc (p : ParticipantCollectingCommitments E)
    : ParticipantCollectingCommitments E' :=
  {| pcc_params := pcc_params p; pcc_index := pcc_index p;
     pcc_dealer := cv_dealer (pcc_dealer p); pcc_commitments := pcc_commitments p;
     pcc_opening := pcc_opening p |}.
Definition cv_pcp (p : ParticipantCollectingPolynomials E)
    : ParticipantCollectingPolynomials E' :=
  {| pcp_params := pcp_params p; pcp_index := pcp_index p;
     pcp_dealer := cv_dealer (pcp_dealer p); pcp_opening := pcp_opening p;
     pcp_commitments := pcp_commitments p;
     pcp_public_polynomials := pcp_public_polynomials p : list (option (PublicPolynomial E')) |}.
Definition cv_pi (p : PublicInfo E) : PublicInfo E' :=
  {| pi_polynomial := pi_polynomial p : list (Element E'); pi_pop := cv_pop (pi_pop p);
     pi_opening := pi_opening p |}.
Definition cv_pes (p : ParticipantExchangingSecrets E) : ParticipantExchangingSecrets E' :=
  {| pes_params := pes_params p; pes_index := pes_index p; pes_dealer := cv_dealer (pes_dealer p);
     pes_public_polynomials := pes_public_polynomials p : list (PublicPolynomial E');
     pes_accumulated_share := pes_accumulated_share p : SecretKey E';
     pes_shares_received := pes_shares_received p |}.

End Conversions.

(** Equality of the variable-time multi-multiplication with its replacement on the
    given public data. *)
Definition agrees_on {E : Env}
    (h : list (Scalar E) -> list (Element E) -> outcome (Element E))
    (ss : list (Scalar E)) (es : list (Element E)) : Prop :=
  h ss es = vartime_multi_mul ss es.
