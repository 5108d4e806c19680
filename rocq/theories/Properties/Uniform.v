(** * C63: what provers return is uniform over what verifiers accept *)
From Coq Require Import List NArith ZArith String Bool Lia.
From Verif.Model Require Import Base Group Transcript Keys Encryption LogEquality Possession Ring Range Choice Mul Commitment Sharing Quadratic.
From Verif.Spec Require Import Encryption LogEquality Possession Sigma Ring Range Choice Quadratic Sharing Uniform.
From Verif.Proofs Require Import Algebra Encryption Ring Range RangeProof Quadratic Uniform UniformRing UniformBallots.
From Verif.Instance Require Import Primality Zq.
From Verif.Properties Require Import LogEquality.
Import ListNotations.
Open Scope string_scope.
Open Scope list_scope.

(** ** keys and ciphertexts *)
Theorem C63_keypair :
  forall (E : Env) (L : GroupLaws E), ser_total E ->
    uniform_over (E:=E) 1 Keypair_generate
      (fun kp => key_of (kp_secret kp) (kp_public kp) /\ key_bytes_ok (E:=E) (kp_public kp)).
Proof. exact keypair_uniform. Qed.
Print Assumptions C63_keypair.

Theorem C63_encrypt_element :
  forall (E : Env) (L : GroupLaws E) (M : Element E) (pk : PublicKey E),
    uniform_over 1 (fun r => Ret (encrypt_element pk M r)) (fun c => exists x, encrypts pk c M x).
Proof. exact encrypt_element_uniform. Qed.
Print Assumptions C63_encrypt_element.

Theorem C63_encrypt :
  forall (E : Env) (L : GroupLaws E) (m : Scalar E) (pk : PublicKey E),
    uniform_over 1 (fun r => Ret (encrypt pk m r)) (fun c => exists x, encrypts pk c (generator * m)%E x).
Proof. exact encrypt_uniform. Qed.
Print Assumptions C63_encrypt.

(** ** proofs of knowledge *)
Theorem C63_log_equality :
  forall (E : Env) (L : GroupLaws E), ser_total E ->
  forall (K : PublicKey E) (x : SecretKey E) t,
    let powers := ((generator * x)%E, (pk_element K * x)%E) in
    uniform_over 1
      (fun r => '(p, t', r) <- LogEqualityProof_new K x powers t r ;; Ret ((p, t'), r))
      (fun pt => LogEqualityProof_verify (fst pt) K powers t = Ret (Ok tt, snd pt)).
Proof. exact le_uniform. Qed.
Print Assumptions C63_log_equality.

Theorem C63_encrypt_zero :
  forall (E : Env) (L : GroupLaws E), ser_total E -> forall (pk : PublicKey E),
    uniform_over 2
      (fun r => '(c, p, r) <- encrypt_zero pk r ;; Ret ((c, p), r))
      (fun cp => (exists x, encrypts pk (fst cp) identity x) /\ verify_zero pk (fst cp) (snd cp) = Ret (Ok tt)).
Proof. exact encrypt_zero_uniform. Qed.
Print Assumptions C63_encrypt_zero.

Theorem C63_verifiable_decryption :
  forall (E : Env) (L : GroupLaws E), ser_total E ->
  forall (c : Ciphertext E) (kp : Keypair E) t, key_of (kp_secret kp) (kp_public kp) ->
    uniform_over 1
      (fun r => '(d, p, t', r) <- VerifiableDecryption_new c kp t r ;; Ret ((d, p, t'), r))
      (fun dpt => let '(d, p, t') := dpt in
         VerifiableDecryption_decrypt_to_element d c = decrypt_to_element (kp_secret kp) c /\
         CandidateDecryption_verify {| cd_inner := d |} c (kp_public kp) p t = Ret (Ok d, t')).
Proof. exact vd_uniform. Qed.
Print Assumptions C63_verifiable_decryption.

Theorem C63_possession :
  forall (E : Env) (L : GroupLaws E), ser_total E ->
  forall (secrets : list (SecretKey E)) (keys : list (PublicKey E)) t, Forall2 key_of secrets keys ->
    uniform_over (List.length keys)
      (fun r => '(p, t', r) <- ProofOfPossession_from_keys secrets keys t r ;; Ret ((p, t'), r))
      (fun pt => ProofOfPossession_verify (fst pt) keys t = Ret (Ok tt, snd pt)).
Proof. exact pop_uniform. Qed.
Print Assumptions C63_possession.

Theorem C63_commitment_equivalence :
  forall (E : Env) (L : GroupLaws E), ser_total E ->
  forall (ct : CiphertextWithValue E (Scalar E)) (K : PublicKey E) (rc : SecretKey E) (H : Element E) t,
    encrypts K (cwv_inner ct) (generator * cwv_value ct)%E (cwv_randomness ct) ->
    uniform_over 3
      (fun r => '(p, C, t', r) <- CommitmentEquivalenceProof_new ct K rc H t r ;; Ret ((p, C, t'), r))
      (fun pct => let '(p, C, t') := pct in
         C = (generator * cwv_value ct + H * rc)%E /\
         CommitmentEquivalenceProof_verify p (cwv_inner ct) K C H t = Ret (Ok tt, t')).
Proof. exact ce_uniform. Qed.
Print Assumptions C63_commitment_equivalence.

Theorem C63_sum_of_squares :
  forall (E : Env) (L : GroupLaws E), ser_total E ->
  forall (cts : list (CiphertextWithValue E (Scalar E))) (z : CiphertextWithValue E (Scalar E)) (K : PublicKey E) t,
    Forall (fun ct => encrypts K (cwv_inner ct) (generator * cwv_value ct)%E (cwv_randomness ct)) cts ->
    encrypts K (cwv_inner z) (generator * cwv_value z)%E (cwv_randomness z) ->
    cwv_value z = sum_sq (map cwv_value cts) ->
    uniform_over (1 + List.length cts * 2)
      (fun r => '(p, t', r) <- SumOfSquaresProof_new cts z K t r ;; Ret ((p, t'), r))
      (fun pt => SumOfSquaresProof_verify (fst pt) (map cwv_inner cts) (cwv_inner z) K t = Ret (Ok tt, snd pt)).
Proof. exact sq_uniform. Qed.
Print Assumptions C63_sum_of_squares.

(** ** rings: the position of the chosen values does not show *)
Theorem C63_ring :
  forall (E : Env) (L : GroupLaws E), ser_total E ->
  forall (K : PublicKey E) buf t (ops : list (ring_op (E:=E))),
    Forall (op_ok K) ops -> Forall (fun o => (op_index o < List.length (op_values o))%nat) ops ->
    List.length buf = list_sum (map (fun o => List.length (op_values o)) ops) -> zeros_if_debug E buf ->
    uniform_over (list_sum (map op_draws ops))
      (fun r => '(cts, b) <- ring_run (RingProofBuilder_new K buf t r) ops ;;
                '(c, rs, t', r) <- RingProofBuilder_build b ;;
                Ret ((cts, {| rp_challenge := c; rp_responses := rs |}, t'), r))
      (fun cpt => let '(cts, p, t') := cpt in
         Forall2 (op_result K) ops cts /\ RingProof_verify p K (map op_values ops) cts t = Ret (Ok tt, t')).
Proof. exact ring_uniform. Qed.
Print Assumptions C63_ring.

Theorem C63_encrypt_bool :
  forall (E : Env) (L : GroupLaws E), ser_total E -> forall (pk : PublicKey E) (value : bool),
    uniform_over 3
      (fun r => '(c, p, r) <- encrypt_bool pk value r ;; Ret ((c, p), r))
      (fun cp => (exists x, encrypts pk (fst cp) (bit_element value) x) /\ verify_bool pk (fst cp) (snd cp) = Ret (Ok tt)).
Proof. exact encrypt_bool_uniform. Qed.
Print Assumptions C63_encrypt_bool.

(** ** ballots *)
Theorem C63_multi_choice :
  forall (E : Env) (L : GroupLaws E), ser_total E ->
  forall (params : ChoiceParams (MultiChoice (E:=E))) choices,
    List.length choices = cp_options_count params -> choices <> [] -> (N.of_nat (List.length choices) < 2 ^ 64)%N ->
    uniform_over (3 * List.length choices) (EncryptedChoice_new params choices)
      (fun e => Forall2 (fun flag c => exists x, encrypts (cp_receiver params) c (bit_element flag) x) choices (ec_choices e) /\
                EncryptedChoice_verify e params = Ret (Ok (ec_choices e))).
Proof. exact multi_choice_uniform. Qed.
Print Assumptions C63_multi_choice.

Theorem C63_single_choice :
  forall (E : Env) (L : GroupLaws E), ser_total E ->
  forall (params : ChoiceParams (SingleChoice (E:=E))) choices,
    List.length choices = cp_options_count params -> (N.of_nat (List.length choices) < 2 ^ 64)%N ->
    count_occ bool_dec choices true = 1%nat ->
    uniform_over (3 * List.length choices + 1) (EncryptedChoice_new params choices)
      (fun e => Forall2 (fun flag c => exists x, encrypts (cp_receiver params) c (bit_element flag) x) choices (ec_choices e) /\
                EncryptedChoice_verify e params = Ret (Ok (ec_choices e))).
Proof. exact single_choice_uniform. Qed.
Print Assumptions C63_single_choice.

(** ** ranges *)
Theorem C63_encrypt_range :
  forall (E : Env) (L : GroupLaws E), ser_total E ->
  forall (K : PublicKey E) est n d pr v,
    (n + 64 < 2 ^ 64)%N -> RangeDecomposition_optimal (env_build E) est n = Ret d -> PreparedRange_new d = Ret pr -> (v < n)%N ->
    exists idx, in_rings d idx /\ composed d idx = v /\
    uniform_over (range_draws d)
      (fun r => '(c, p, r) <- encrypt_range K pr v r ;; Ret ((c, p), r))
      (fun cp => (exists x, encrypts K (fst cp) (times v generator) x) /\ hides_digits K d idx (rap_partial (snd cp)) /\
         verify_range K pr (fst cp) (snd cp) = Ret (Ok tt)).
Proof.
  intros E L Ht K est n d pr v Hn H Hpr Hv. pose proof (optimal_valid _ est n d ltac:(unfold u64_lim; lia) H) as Hd.
  rewrite (prepared_ok E L n d Hd) in Hpr by (unfold u64_lim; lia). injection Hpr as <-.
  destruct (digits_ok E n d v Hd ltac:(unfold u64_lim; lia) Hv) as (_ & Hin & Hc).
  exists (digits E d v). split; [exact Hin|]. split; [exact Hc|]. exact (encrypt_range_uniform E L Ht K n d v Hd Hn Hv).
Qed.
Print Assumptions C63_encrypt_range.

Theorem C63_from_ciphertext :
  forall (E : Env) (L : GroupLaws E), ser_total E ->
  forall (K : PublicKey E) est n d pr (c : CiphertextWithValue E N) t,
    (n + 64 < 2 ^ 64)%N -> RangeDecomposition_optimal (env_build E) est n = Ret d -> PreparedRange_new d = Ret pr ->
    (cwv_value c < n)%N -> encrypts K (cwv_inner c) (times (cwv_value c) generator) (cwv_randomness c) ->
    exists idx, in_rings d idx /\ composed d idx = cwv_value c /\
    uniform_over (range_draws d - 1)
      (fun r => '(p, t', r) <- RangeProof_from_ciphertext K pr c t r ;; Ret ((p, t'), r))
      (fun pt => hides_digits K d idx (rap_partial (fst pt)) /\
         RangeProof_verify (fst pt) K pr (cwv_inner c) t = Ret (Ok tt, snd pt)).
Proof.
  intros E L Ht K est n d pr c t Hn H Hpr Hv Henc. pose proof (optimal_valid _ est n d ltac:(unfold u64_lim; lia) H) as Hd.
  rewrite (prepared_ok E L n d Hd) in Hpr by (unfold u64_lim; lia). injection Hpr as <-.
  destruct (digits_ok E n d (cwv_value c) Hd ltac:(unfold u64_lim; lia) Hv) as (Hdec & Hin & Hc).
  exists (digits E d (cwv_value c)). split; [exact Hin|]. split; [exact Hc|].
  assert (Hpos : (0 < List.length d)%nat) by (pose proof (doc_form_nonempty _ _ Hd); destruct d; [contradiction|cbn; lia]).
  replace (range_draws d - 1)%nat with (N.to_nat (n_sum (map rs_size d)) + (List.length d - 1))%nat by (unfold range_draws; lia).
  apply (range_from_uniform E L Ht K n d c t _ Hd); try assumption; [unfold u64_lim; lia|exact (sizes_fit n d Hd Hn)].
Qed.
Print Assumptions C63_from_ciphertext.

(** ** quadratic voting *)
Theorem C63_quadratic_ballot :
  forall (E : Env) (L : GroupLaws E), ser_total E ->
  forall (receiver : PublicKey E) options credits m p votes,
    (credits + 65 < 2 ^ 64)%N -> qv_params receiver options credits m p ->
    List.length votes = options -> Forall (fun v => (v <= m)%N) votes -> (squares votes <= credits)%N ->
    exists (vote_digits credit_digits : N -> list N),
    let dv := pr_inner (qv_vote_count_range p) in
    let dc := pr_inner (qv_credit_range p) in
    (forall v, (v <= m)%N -> in_rings dv (vote_digits v) /\ composed dv (vote_digits v) = v) /\
    (forall v, (v <= credits)%N -> in_rings dc (credit_digits v) /\ composed dc (credit_digits v) = v) /\
    uniform_over (options * range_draws dv + range_draws dc + (1 + options * 2)) (QuadraticVotingBallot_new p votes)
      (fun ballot =>
         Forall2 (fun v c => hides_value receiver dv v (vote_digits v) c) votes (qb_votes ballot) /\
         hides_value receiver dc (squares votes) (credit_digits (squares votes)) (qb_credit ballot) /\
         QuadraticVotingBallot_verify ballot p = Ret (Ok (map crp_ciphertext (qb_votes ballot)))).
Proof.
  intros E L Ht receiver options credits m p votes Hc Hp Hl Hv Hs.
  destruct (ballot_uniform E L Ht receiver options m credits p votes (qv_params_inv E L _ _ _ _ _ Hc Hp) Hl Hv Hs)
    as (dv & dc & <- & <- & H1 & H2 & H3).
  eexists _, _. split; [exact H1|]. split; [exact H2|exact H3].
Qed.
Print Assumptions C63_quadratic_ballot.

(** ** threshold decryption *)
Theorem C63_dealer :
  forall (E : Env) (L : GroupLaws E), ser_total E -> forall (params : Params),
    uniform_over (pa_threshold params + pa_threshold params) (Dealer_new params)
      (fun d => de_params d = params /\ List.length (de_polynomial d) = pa_threshold params /\
         Forall (fun kp => key_of (E:=E) (kp_secret kp) (kp_public kp) /\ key_bytes_ok (E:=E) (kp_public kp)) (de_polynomial d) /\
         exists t', ProofOfPossession_verify (de_pop d) (map kp_public (de_polynomial d)) (share_poly_transcript params) = Ret (Ok tt, t')).
Proof. exact dealer_uniform. Qed.
Print Assumptions C63_dealer.

Theorem C63_decryption_share :
  forall (E : Env) (L : GroupLaws E), ser_total E ->
  forall (ks : PublicKeySet E) i share a (ct : Ciphertext E),
    ActiveParticipant_new ks i share = Ret (Ok a) ->
    uniform_over 1
      (fun r => '(d, p, r) <- ActiveParticipant_decrypt_share a ct r ;; Ret ((d, p), r))
      (fun dp => vd_dh_element (fst dp) = (random_element ct * share)%E /\
         PublicKeySet_verify_share ks {| cd_inner := fst dp |} ct i (snd dp) = Ret (Ok (fst dp))).
Proof. exact decrypt_share_uniform. Qed.
Print Assumptions C63_decryption_share.

Theorem C63_participant_possession :
  forall (E : Env) (L : GroupLaws E), ser_total E ->
  forall (ks : PublicKeySet E) i share a,
    ActiveParticipant_new ks i share = Ret (Ok a) ->
    uniform_over 1 (ActiveParticipant_proof_of_possession a)
      (fun p => PublicKeySet_verify_participant ks i p = Ret (Ok tt)).
Proof. exact participant_pop_uniform. Qed.
Print Assumptions C63_participant_possession.

(** ** Examples *)

(** an RNG that can yield every sequence of scalars *)
Definition SE : Env := {|
  env_group := RE; Rng := nat -> Scalar RE; generate_scalar := fun s => (s 0%nat, fun n => s (Datatypes.S n));
  fill_bytes := fun _ s => ([], s);
  oracle := @oracle RE; sha256 := @sha256 RE; len_estimate := @len_estimate RE; env_build := env_build RE |}.

Lemma draws_stream n : forall (s : Rng SE), fst (draws n s) = map s (seq 0 n).
Proof.
  induction n as [|n IH]; intros s; [reflexivity|]. cbn [draws generate_scalar SE].
  specialize (IH (fun n => s (Datatypes.S n))). destruct (draws (E:=SE) n _) as [xs r1]. cbn [fst] in *. rewrite IH.
  cbn [seq map]. f_equal. rewrite <- seq_shift, map_map. reflexivity.
Qed.

Lemma stream_of (xs : list (Scalar SE)) : exists s : Rng SE, fst (draws (List.length xs) s) = xs.
Proof.
  exists (fun i => nth i xs (rs 0)). rewrite draws_stream. induction xs as [|x xs IH]; [reflexivity|]. cbn [List.length seq map].
  f_equal. rewrite <- seq_shift, map_map. exact IH.
Qed.

(** there, all that satisfies the predicate is returned *)
Lemma uniform_reached {A : Type} n (run : Rng SE -> outcome (A * Rng SE)) (P : A -> Prop) :
  uniform_over n run P -> forall a, P a -> exists r r', run r = Ret (a, r').
Proof.
  intros [_ H] a Ha. destruct (H a Ha) as (xs & <- & Hx). destruct (stream_of xs) as [s Hs].
  apply Hx in Hs as [r' Hr]. eauto.
Qed.

Definition se_key : PublicKey SE := ex_key.

(** every encrypted [true] that passes verification is what [encrypt_bool] returns for some RNG state *)
Example C63_example_reached :
  forall c p, (exists x, encrypts se_key c generator x) -> verify_bool se_key c p = Ret (Ok tt) ->
    exists r r', encrypt_bool se_key true r = Ret (c, p, r').
Proof.
  intros c p Hc Hv. destruct (uniform_reached _ _ _ (C63_encrypt_bool SE RL RE_ser_total se_key true) (c, p) (conj Hc Hv)) as (r & r' & H).
  exists r, r'. destruct (encrypt_bool se_key true r) as [[[c1 p1] r1]|]; [|discriminate]. cbn [bind] in H. congruence.
Qed.

(** a constant nonce is noticed *)
Definition constant_encrypt (M : Element SE) (pk : PublicKey SE) (r : Rng SE) : Ciphertext SE * Rng SE :=
  let '(_, r) := generate_scalar r in
  ({| random_element := (generator * rs 5)%E; blinded_element := (M + pk_element pk * rs 5)%E |}, r).

Definition first_of {A : Type} (f : A -> Element SE) (o : outcome (A * Rng SE)) : Element SE :=
  match o with Ret (c, _) => f c | Panic _ => identity end.

Lemma gen_times_inj (x y : Scalar SE) : (@generator SE * x = generator * y)%E -> x = y.
Proof. intros H. apply (f_equal (dlog RL)) in H. rewrite !(dlog_gen RL) in H. exact H. Qed.

Lemma mul_gen_inj (x y : Scalar SE) : (@mul_generator SE x = generator * y)%E -> x = y.
Proof. rewrite (mul_generator_ok SE RL). apply gen_times_inj. Qed.

Example C63_constant_nonce_not_uniform : forall M n,
  ~ uniform_over n (fun r => Ret (constant_encrypt M se_key r)) (fun c => exists x, encrypts se_key c M x).
Proof.
  intros M n H.
  destruct (uniform_reached _ _ _ H {| random_element := (generator * rs 6)%E; blinded_element := (M + pk_element se_key * rs 6)%E |})
    as (r & r' & Hr); [exists (rs 6); split; reflexivity|].
  apply (f_equal (first_of random_element)) in Hr. apply (gen_times_inj (rs 5) (rs 6)) in Hr. revert Hr. apply rs_neq. vm_compute. reflexivity.
Qed.

(** so is a nonce used for two ciphertexts *)
Definition shared_encrypt (M M' : Element SE) (pk : PublicKey SE) (r : Rng SE) : (Ciphertext SE * Ciphertext SE) * Rng SE :=
  ((fst (encrypt_element pk M r), fst (encrypt_element pk M' r)), snd (encrypt_element pk M r)).

Example C63_shared_nonce_not_uniform : forall M M' n,
  ~ uniform_over n (fun r => Ret (shared_encrypt M M' se_key r))
      (fun cc => (exists x, encrypts se_key (fst cc) M x) /\ (exists x, encrypts se_key (snd cc) M' x)).
Proof.
  intros M M' n H.
  destruct (uniform_reached _ _ _ H
      ({| random_element := (generator * rs 6)%E; blinded_element := (M + pk_element se_key * rs 6)%E |},
       {| random_element := (generator * rs 7)%E; blinded_element := (M' + pk_element se_key * rs 7)%E |}))
    as (r & r' & Hr); [split; eexists; split; reflexivity|].
  pose proof (f_equal (first_of (fun cc => random_element (fst cc))) Hr) as H1. apply (mul_gen_inj (r 0%nat) (rs 6)) in H1.
  pose proof (f_equal (first_of (fun cc => random_element (snd cc))) Hr) as H2. apply (mul_gen_inj (r 0%nat) (rs 7)) in H2.
  rewrite H1 in H2. revert H2.
  apply rs_neq. vm_compute. reflexivity.
Qed.

(** and so is leaving the RNG as it was, even though the ciphertext itself is fine *)
Lemma rest_stream n : forall (s : Rng SE), snd (draws n s) 0%nat = s n.
Proof.
  induction n as [|n IH]; intros s; [reflexivity|]. cbn [draws generate_scalar SE].
  specialize (IH (fun n => s (Datatypes.S n))). destruct (draws (E:=SE) n _) as [xs r1]. exact IH.
Qed.

Example C63_rng_not_advanced_not_uniform : forall M n,
  ~ uniform_over n (fun r : Rng SE => Ret (fst (encrypt_element se_key M r), r)) (fun c => exists x, encrypts se_key c M x).
Proof.
  intros M n [H H']. destruct n as [|n].
  - destruct (H' {| random_element := (generator * rs 6)%E; blinded_element := (M + pk_element se_key * rs 6)%E |}) as (xs & Hl & Hx);
      [eexists; split; reflexivity|]. destruct xs; [|discriminate].
    destruct (proj2 (Hx (fun _ => rs 7)) eq_refl) as [r' Hr]. apply (f_equal (first_of random_element)) in Hr.
    apply (mul_gen_inj (rs 7) (rs 6)) in Hr. revert Hr.
    apply rs_neq. vm_compute. reflexivity.
  - set (s := fun i : nat => match i with O => rs 0 | Datatypes.S _ => rs 1 end). destruct (H s) as (c & Hc & _).
    apply (f_equal (fun o : outcome (Ciphertext SE * Rng SE) => match o with Ret (_, f) => f 0%nat | Panic _ => rs 0 end)) in Hc.
    cbv beta iota in Hc. rewrite rest_stream in Hc. revert Hc.
    apply rs_neq. vm_compute. reflexivity.
Qed.

(** the other hypotheses hold for ordinary parameters *)
Example C63_example_range :
  exists d pr, RangeDecomposition_optimal (env_build SE) int_lower_len_estimate 100 = Ret d /\
    PreparedRange_new (E:=SE) d = Ret pr /\ range_draws d = 17%nat /\
    forall v, (v < 100)%N -> exists idx, in_rings d idx /\ composed d idx = v /\
    uniform_over 17
      (fun r => '(c, p, r) <- encrypt_range se_key pr v r ;; Ret ((c, p), r))
      (fun cp => (exists x, encrypts se_key (fst cp) (times v generator) x) /\ hides_digits se_key d idx (rap_partial (snd cp)) /\
         verify_range se_key pr (fst cp) (snd cp) = Ret (Ok tt)).
Proof.
  assert (Hret : match RangeDecomposition_optimal (env_build SE) int_lower_len_estimate 100 with
                 | Ret d => Nat.eqb (range_draws d) 17 | Panic _ => false end = true) by (vm_compute; reflexivity).
  destruct (RangeDecomposition_optimal (env_build SE) int_lower_len_estimate 100) as [d|] eqn:Hd; [|discriminate].
  pose proof (optimal_valid _ int_lower_len_estimate 100 d ltac:(unfold u64_lim; lia) Hd) as Hf.
  eexists d, _. split; [reflexivity|]. split; [apply (prepared_ok SE RL 100 d Hf); unfold u64_lim; lia|].
  apply Nat.eqb_eq in Hret as Hn.
  split; [exact Hn|]. intros v Hv. rewrite <- Hn.
  apply (C63_encrypt_range SE RL RE_ser_total se_key int_lower_len_estimate 100 d); [lia|exact Hd| |exact Hv].
  apply (prepared_ok SE RL 100 d Hf); unfold u64_lim; lia.
Qed.

Example C63_example_ballot :
  exists p, QuadraticVotingParams_new se_key 3 20 = Ret p /\
    exists n, forall votes, List.length votes = 3%nat -> Forall (fun v => (v <= 4)%N) votes -> (squares votes <= 20)%N ->
      exists P, uniform_over n (QuadraticVotingBallot_new p votes) P.
Proof.
  assert (Hret : match QuadraticVotingParams_new se_key 3 20 with Ret _ => true | Panic _ => false end = true) by (vm_compute; reflexivity).
  destruct (QuadraticVotingParams_new se_key 3 20) as [p|] eqn:Hp; [|discriminate].
  exists p. split; [reflexivity|]. eexists. intros votes Hl Hv Hs.
  destruct (C63_quadratic_ballot SE RL RE_ser_total se_key 3 20 4 p votes ltac:(lia)) as (f & g & _ & _ & H); try assumption;
    [apply qv_created; [exact Hp|lia|lia]|]. eexists. exact H.
Qed.
