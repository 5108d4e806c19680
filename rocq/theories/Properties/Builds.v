(** * C49: debug and release builds agree *)
From Coq Require Import List NArith ZArith Arith Bool String Lia.
From Verif.Model Require Import Base Group Transcript Keys Encryption LogEquality Possession
  Ring Range Commitment Mul Sharing Dkg Choice Quadratic Serde.
From Verif.Spec Require Import Encryption Range Quadratic Sharing Dkg Builds.
From Verif.Proofs Require Import Range RangeProof Quadratic Dkg Builds.
From Verif.Instance Require Import Zq.
From Verif.Properties Require Import LogEquality Ring Range Choice Quadratic Dkg.
Import ListNotations.
Open Scope string_scope.
Open Scope list_scope.
Open Scope N_scope.

(** ** Verification is the same function in all builds *)

(** for arbitrary arguments, including the panics *)
Theorem C49_verifiers :
  forall (E : Env) (b : Build), let B := built E b in
    (forall p K pw t, LogEqualityProof_verify (E:=B) p K pw t = LogEqualityProof_verify (E:=E) p K pw t) /\
    (forall p Ks t, ProofOfPossession_verify (E:=B) p Ks t = ProofOfPossession_verify (E:=E) p Ks t) /\
    (forall p K vals cts t, RingProof_verify (E:=B) p K vals cts t = RingProof_verify (E:=E) p K vals cts t) /\
    (forall p K range c t, RangeProof_verify (E:=B) p K range c t = RangeProof_verify (E:=E) p K range c t) /\
    (forall p K c com H t, CommitmentEquivalenceProof_verify (E:=B) p K c com H t
                           = CommitmentEquivalenceProof_verify (E:=E) p K c com H t) /\
    (forall p cs c K t, SumOfSquaresProof_verify (E:=B) p cs c K t = SumOfSquaresProof_verify (E:=E) p cs c K t) /\
    (forall K c p, verify_zero (E:=B) K c p = verify_zero (E:=E) K c p) /\
    (forall K c p, verify_bool (E:=B) K c p = verify_bool (E:=E) K c p) /\
    (forall K range c p, verify_range (E:=B) K range c p = verify_range (E:=E) K range c p) /\
    (forall d c K p t, CandidateDecryption_verify (E:=B) d c K p t = CandidateDecryption_verify (E:=E) d c K p t) /\
    (forall n (K : PublicKey E) (cts : list (Ciphertext E)) (rp : RingProof E) (sp : LogEqualityProof E),
       EncryptedChoice_verify (E:=B) (S:=SingleChoice) (mkEncryptedChoice (E:=B) (S:=SingleChoice) cts rp sp) (mkChoiceParams (E:=B) n K)
       = EncryptedChoice_verify (E:=E) (S:=SingleChoice) (mkEncryptedChoice (E:=E) (S:=SingleChoice) cts rp sp) (mkChoiceParams (E:=E) n K)) /\
    (forall n (K : PublicKey E) (cts : list (Ciphertext E)) (rp : RingProof E) (sp : unit),
       EncryptedChoice_verify (E:=B) (S:=MultiChoice) (mkEncryptedChoice (E:=B) (S:=MultiChoice) cts rp sp) (mkChoiceParams (E:=B) n K)
       = EncryptedChoice_verify (E:=E) (S:=MultiChoice) (mkEncryptedChoice (E:=E) (S:=MultiChoice) cts rp sp) (mkChoiceParams (E:=E) n K)) /\
    (forall ballot params, QuadraticVotingBallot_verify (E:=B) ballot params = QuadraticVotingBallot_verify (E:=E) ballot params).
Proof.
  intros E b B. repeat split; reflexivity.
Qed.
Print Assumptions C49_verifiers.

(** the messages of the sharing protocols, and everything read from bytes *)
Theorem C49_messages :
  forall (E : Env) (b : Build), let B := built E b in
    (forall params poly pop, PublicKeySet_new (E:=B) params poly pop = PublicKeySet_new (E:=E) params poly pop) /\
    (forall params keys, PublicKeySet_from_participants (E:=B) params keys = PublicKeySet_from_participants (E:=E) params keys) /\
    (forall ks i p, PublicKeySet_verify_participant (E:=B) ks i p = PublicKeySet_verify_participant (E:=E) ks i p) /\
    (forall ks d c i p, PublicKeySet_verify_share (E:=B) ks d c i p = PublicKeySet_verify_share (E:=E) ks d c i p) /\
    (forall params shares, combine_shares (E:=B) params shares = combine_shares (E:=E) params shares) /\
    (forall ks i s, ActiveParticipant_new (E:=B) ks i s = ActiveParticipant_new (E:=E) ks i s) /\
    (forall p j c, PCC_insert_commitment (E:=B) p j c = PCC_insert_commitment (E:=E) p j c) /\
    (forall p j info, PCP_insert_public_polynomial (E:=B) p j info = PCP_insert_public_polynomial (E:=E) p j info) /\
    (forall p j s, PES_insert_secret_share (E:=B) p j s = PES_insert_secret_share (E:=E) p j s) /\
    (forall bs, PublicKey_from_bytes (E:=B) bs = PublicKey_from_bytes (E:=E) bs) /\
    (forall bs, SecretKey_from_bytes (E:=B) bs = SecretKey_from_bytes (E:=E) bs) /\
    (forall bs, CandidateDecryption_from_bytes (E:=B) bs = CandidateDecryption_from_bytes (E:=E) bs) /\
    (forall bs, LogEqualityProof_from_bytes (E:=B) bs = LogEqualityProof_from_bytes (E:=E) bs) /\
    (forall h v, dec (Ciphertext_codec (E:=B)) h v = dec (Ciphertext_codec (E:=E)) h v /\
       dec (LogEqualityProof_codec (E:=B)) h v = dec (LogEqualityProof_codec (E:=E)) h v /\
       dec (ProofOfPossession_codec (E:=B)) h v = dec (ProofOfPossession_codec (E:=E)) h v /\
       dec (RingProof_codec (E:=B)) h v = dec (RingProof_codec (E:=E)) h v /\
       dec (RangeProof_codec (E:=B)) h v = dec (RangeProof_codec (E:=E)) h v /\
       dec (SumOfSquaresProof_codec (E:=B)) h v = dec (SumOfSquaresProof_codec (E:=E)) h v /\
       dec (PublicKeySet_codec (E:=B)) h v = dec (PublicKeySet_codec (E:=E)) h v /\
       dec (PublicInfo_codec (E:=B)) h v = dec (PublicInfo_codec (E:=E)) h v /\
       dec (PCC_codec (E:=B)) h v = dec (PCC_codec (E:=E)) h v /\
       dec (PCP_codec (E:=B)) h v = dec (PCP_codec (E:=E)) h v /\
       dec (PES_codec (E:=B)) h v = dec (PES_codec (E:=E)) h v /\
       dec (QuadraticVotingBallot_codec (E:=B)) h v = dec (QuadraticVotingBallot_codec (E:=E)) h v).
Proof.
  intros E b B. repeat split; reflexivity.
Qed.
Print Assumptions C49_messages.

(** ** Anything a debug build returns, every other build returns as well *)
Theorem C49_debug_results_kept :
  forall (E : Env) (b : Build), let D := built E debug_build in let B := built E b in
    (forall est ub, keeps (RangeDecomposition_optimal debug_build est ub) (RangeDecomposition_optimal b est ub)) /\
    (forall d, keeps (RangeDecomposition_upper_bound debug_build d) (RangeDecomposition_upper_bound b d)) /\
    (forall d, keeps (RangeDecomposition_proof_size debug_build d) (RangeDecomposition_proof_size b d)) /\
    (forall d v, keeps (RangeDecomposition_decompose debug_build d v) (RangeDecomposition_decompose b d v)) /\
    (forall bu adm i, keeps (RingProofBuilder_add_value (E:=D) bu adm i) (RingProofBuilder_add_value (E:=B) bu adm i)) /\
    (forall bu, keeps (RingProofBuilder_build (E:=D) bu) (RingProofBuilder_build (E:=B) bu)) /\
    (forall K v r, keeps (encrypt_bool (E:=D) K v r) (encrypt_bool (E:=B) K v r)) /\
    (forall d, keeps (PreparedRange_new (E:=D) d) (PreparedRange_new (E:=B) d)) /\
    (forall K range c t r, keeps (RangeProof_from_ciphertext (E:=D) K range c t r) (RangeProof_from_ciphertext (E:=B) K range c t r)) /\
    (forall K range v t r, keeps (RangeProof_new (E:=D) K range v t r) (RangeProof_new (E:=B) K range v t r)) /\
    (forall K range v r, keeps (encrypt_range (E:=D) K range v r) (encrypt_range (E:=B) K range v r)) /\
    (forall K n credits, keeps (QuadraticVotingParams_new (E:=D) K n credits) (QuadraticVotingParams_new (E:=B) K n credits)) /\
    (forall p m, keeps (QuadraticVotingParams_set_max_votes (E:=D) p m) (QuadraticVotingParams_set_max_votes (E:=B) p m)) /\
    (forall p, keeps (QuadraticVotingParams_credits (E:=D) p) (QuadraticVotingParams_credits (E:=B) p)) /\
    (forall p, keeps (QuadraticVotingParams_max_votes (E:=D) p) (QuadraticVotingParams_max_votes (E:=B) p)) /\
    (forall p votes r, keeps (QuadraticVotingBallot_new (E:=D) p votes r) (QuadraticVotingBallot_new (E:=B) p votes r)) /\
    (forall p, keeps (PES_complete (E:=D) p) (PES_complete (E:=B) p)) /\
    (forall bs, keeps (RingProof_from_bytes (E:=D) bs) (RingProof_from_bytes (E:=B) bs)).
Proof.
  intros E b D B. unfold D, B.
  split; [exact (keeps_optimal b)|]. split; [exact (keeps_upper_bound b)|]. split; [exact (keeps_proof_size b)|].
  split; [exact (keeps_decompose b)|]. split; [exact (keeps_add_value E b)|]. split; [exact (keeps_build E b)|].
  split; [exact (keeps_encrypt_bool E b)|]. split; [exact (keeps_prepared E b)|]. split; [exact (keeps_from_ciphertext E b)|].
  split; [exact (keeps_range_new E b)|]. split; [exact (keeps_encrypt_range E b)|]. split; [exact (keeps_qv_new E b)|].
  split; [exact (keeps_qv_set_max E b)|]. split; [exact (keeps_qv_credits E b)|]. split; [exact (keeps_qv_max E b)|].
  split; [exact (keeps_ballot_new E b)|]. split; [exact (keeps_complete E b)|]. exact (keeps_ring_from_bytes E b).
Qed.
Print Assumptions C49_debug_results_kept.

(** encoders *)
Theorem C49_debug_encodings_kept :
  forall (E : Env) (b : Build) (h : bool), let D := built E debug_build in let B := built E b in
    (forall p, keeps (enc (ProofOfPossession_codec (E:=D)) h p) (enc (ProofOfPossession_codec (E:=B)) h p)) /\
    (forall p, keeps (enc (RingProof_codec (E:=D)) h p) (enc (RingProof_codec (E:=B)) h p)) /\
    (forall p, keeps (enc (RangeProof_codec (E:=D)) h p) (enc (RangeProof_codec (E:=B)) h p)) /\
    (forall p, keeps (enc (SumOfSquaresProof_codec (E:=D)) h p) (enc (SumOfSquaresProof_codec (E:=B)) h p)) /\
    (forall p, keeps (enc (Dealer_codec (E:=D)) h p) (enc (Dealer_codec (E:=B)) h p)) /\
    (forall p, keeps (enc (PublicInfo_codec (E:=D)) h p) (enc (PublicInfo_codec (E:=B)) h p)) /\
    (forall p, keeps (enc (PCC_codec (E:=D)) h p) (enc (PCC_codec (E:=B)) h p)) /\
    (forall p, keeps (enc (PCP_codec (E:=D)) h p) (enc (PCP_codec (E:=B)) h p)) /\
    (forall p, keeps (enc (PES_codec (E:=D)) h p) (enc (PES_codec (E:=B)) h p)) /\
    (forall p, keeps (enc (QuadraticVotingBallot_codec (E:=D)) h p) (enc (QuadraticVotingBallot_codec (E:=B)) h p)).
Proof.
  intros E b h D B. unfold D, B.
  split; [exact (keeps_enc_pop E b h)|]. split; [exact (keeps_enc_ring E b h)|]. split; [exact (keeps_enc_range E b h)|].
  split; [exact (keeps_enc_sq E b h)|]. split; [exact (keeps_enc_dealer E b h)|]. split; [exact (keeps_enc_info E b h)|].
  split; [exact (keeps_enc_pcc E b h)|]. split; [exact (keeps_enc_pcp E b h)|]. split; [exact (keeps_enc_pes E b h)|].
  exact (keeps_enc_ballot E b h).
Qed.
Print Assumptions C49_debug_encodings_kept.

(** ** Calls within the documented contract have the same result in any two builds *)

Lemma agree {A : Type} (m : outcome A) (m1 m2 : outcome A) :
  (exists x, m = Ret x) -> keeps m m1 -> keeps m m2 -> m1 = m2.
Proof. intros [x H] H1 H2. rewrite (H1 x H), (H2 x H). reflexivity. Qed.

(** what an encrypted choice consists of *)
Definition choice_parts {E : Env} {S : ProveSum E} (m : outcome (EncryptedChoice S * Rng E)) :=
  match m with
  | Ret (e, r) => Ret (ec_choices e, ec_range_proof e, ec_sum_proof e, r)
  | Panic k => Panic k
  end.

Lemma keeps_parts {A B B' C : Type} (m m' : outcome A) (f : A -> outcome B) (f' : A -> outcome B')
    (g : outcome B -> outcome C) (g' : outcome B' -> outcome C) :
  keeps m m' -> (forall k, g (Panic k) = Panic k) -> (forall k, g' (Panic k) = Panic k) ->
  (forall x, keeps (g (f x)) (g' (f' x))) -> keeps (g (bind m f)) (g' (bind m' f')).
Proof.
  intros Hm Hg Hg' Hf y H. destruct m as [x|k]; [|cbn [bind] in H; rewrite Hg in H; discriminate].
  rewrite (Hm x eq_refl). cbn [bind] in *. apply Hf. exact H.
Qed.

Section KeepsChoice.
Context (E : Env) (b : Build) (n : nat) (K : PublicKey E).
Local Notation D := (built E debug_build).
Local Notation B := (built E b).
Lemma keeps_choice_single choices r :
  keeps (choice_parts (EncryptedChoice_new (E:=D) (S:=SingleChoice) (mkChoiceParams (E:=D) n K) choices r))
        (choice_parts (EncryptedChoice_new (E:=B) (S:=SingleChoice) (mkChoiceParams (E:=B) n K) choices r)).
Proof.
  unfold EncryptedChoice_new. cbn [cp_options_count cp_receiver ps_prove SingleChoice].
  apply (keeps_parts _ _ _ _ (choice_parts (E:=D) (S:=SingleChoice)) (choice_parts (E:=B) (S:=SingleChoice))); [apply keeps_refl|reflexivity|reflexivity|intros _].
  apply (keeps_parts _ _ _ _ (choice_parts (E:=D) (S:=SingleChoice)) (choice_parts (E:=B) (S:=SingleChoice))); [apply keeps_refl|reflexivity|reflexivity|intros _]. cbv zeta.
  apply (keeps_parts _ _ _ _ (choice_parts (E:=D) (S:=SingleChoice)) (choice_parts (E:=B) (S:=SingleChoice))); [apply keeps_u64_sum|reflexivity|reflexivity|intros sum].
  apply (keeps_parts _ _ _ _ (choice_parts (E:=D) (S:=SingleChoice)) (choice_parts (E:=B) (S:=SingleChoice))); [apply keeps_choice_add|reflexivity|reflexivity|intros [exts bu]].
  apply (keeps_parts _ _ _ _ (choice_parts (E:=D) (S:=SingleChoice)) (choice_parts (E:=B) (S:=SingleChoice))); [apply keeps_build|reflexivity|reflexivity|intros [[[c rs] t] r']].
  apply (keeps_parts _ _ _ _ (choice_parts (E:=D) (S:=SingleChoice)) (choice_parts (E:=B) (S:=SingleChoice))); [apply keeps_refl|reflexivity|reflexivity|intros sc].
  apply (keeps_parts _ _ _ _ (choice_parts (E:=D) (S:=SingleChoice)) (choice_parts (E:=B) (S:=SingleChoice))); [apply keeps_refl|reflexivity|reflexivity|intros [sp r'']].
  apply keeps_refl.
Qed.
Lemma keeps_choice_multi choices r :
  keeps (choice_parts (EncryptedChoice_new (E:=D) (S:=MultiChoice) (mkChoiceParams (E:=D) n K) choices r))
        (choice_parts (EncryptedChoice_new (E:=B) (S:=MultiChoice) (mkChoiceParams (E:=B) n K) choices r)).
Proof.
  unfold EncryptedChoice_new. cbn [cp_options_count cp_receiver ps_prove MultiChoice].
  apply (keeps_parts _ _ _ _ (choice_parts (E:=D) (S:=MultiChoice)) (choice_parts (E:=B) (S:=MultiChoice))); [apply keeps_refl|reflexivity|reflexivity|intros _].
  apply (keeps_parts _ _ _ _ (choice_parts (E:=D) (S:=MultiChoice)) (choice_parts (E:=B) (S:=MultiChoice))); [apply keeps_refl|reflexivity|reflexivity|intros _]. cbv zeta.
  apply (keeps_parts _ _ _ _ (choice_parts (E:=D) (S:=MultiChoice)) (choice_parts (E:=B) (S:=MultiChoice))); [apply keeps_u64_sum|reflexivity|reflexivity|intros sum].
  apply (keeps_parts _ _ _ _ (choice_parts (E:=D) (S:=MultiChoice)) (choice_parts (E:=B) (S:=MultiChoice))); [apply keeps_choice_add|reflexivity|reflexivity|intros [exts bu]].
  apply (keeps_parts _ _ _ _ (choice_parts (E:=D) (S:=MultiChoice)) (choice_parts (E:=B) (S:=MultiChoice))); [apply keeps_build|reflexivity|reflexivity|intros [[[c rs] t] r']].
  apply (keeps_parts _ _ _ _ (choice_parts (E:=D) (S:=MultiChoice)) (choice_parts (E:=B) (S:=MultiChoice))); [apply keeps_refl|reflexivity|reflexivity|intros sc].
  apply keeps_refl.
Qed.
End KeepsChoice.

Theorem C49_in_contract :
  forall (E : Env) (L : GroupLaws E) (b b' : Build), let B := built E b in let B' := built E b' in
    ser_total E ->
    (forall K v r, encrypt_bool (E:=B) K v r = encrypt_bool (E:=B') K v r) /\
    (forall K est n d v r, n + 64 < 2 ^ 64 -> RangeDecomposition_optimal (env_build E) est n = Ret d -> v < n ->
       PreparedRange_new (E:=B) d = PreparedRange_new (E:=B') d /\
       forall pr, PreparedRange_new (E:=E) d = Ret pr ->
         encrypt_range (E:=B) K pr v r = encrypt_range (E:=B') K pr v r) /\
    (forall (K : PublicKey E) n choices r, (0 < n)%nat -> N.of_nat n < 2 ^ 64 -> List.length choices = n ->
       choice_parts (EncryptedChoice_new (E:=B) (S:=SingleChoice) (mkChoiceParams (E:=B) n K) choices r)
       = choice_parts (EncryptedChoice_new (E:=B') (S:=SingleChoice) (mkChoiceParams (E:=B') n K) choices r) /\
       choice_parts (EncryptedChoice_new (E:=B) (S:=MultiChoice) (mkChoiceParams (E:=B) n K) choices r)
       = choice_parts (EncryptedChoice_new (E:=B') (S:=MultiChoice) (mkChoiceParams (E:=B') n K) choices r)) /\
    (forall K n credits, (forall k, k < 2 ^ 64 -> valid_estimate (@len_estimate E) k) -> credits + 65 < 2 ^ 64 ->
       QuadraticVotingParams_new (E:=B) K n credits = QuadraticVotingParams_new (E:=B') K n credits) /\
    (forall K n credits m p, (forall k, k < 2 ^ 64 -> valid_estimate (@len_estimate E) k) -> credits + 65 < 2 ^ 64 ->
       qv_params (E:=E) K n credits m p ->
       (forall m', m' * m' <= credits ->
          QuadraticVotingParams_set_max_votes (E:=B) p m' = QuadraticVotingParams_set_max_votes (E:=B') p m') /\
       (forall votes r, List.length votes = n -> Forall (fun v => v <= m) votes -> squares votes <= credits ->
          QuadraticVotingBallot_new (E:=B) p votes r = QuadraticVotingBallot_new (E:=B') p votes r)) /\
    (forall params idx p hist sup, (2 ^ 64 <= order L)%Z -> params_ok params -> pes_run (E:=E) params idx p hist sup ->
       PES_complete (E:=B) p = PES_complete (E:=B') p).
Proof.
  intros E L b b' B B' Ht. unfold B, B'. clear B B'. pose (D := built E debug_build). pose (LD := L : GroupLaws D).
  split; [|split; [|split; [|split; [|split]]]].
  - intros K v r. apply (agree (encrypt_bool (E:=D) K v r)); [|exact (keeps_encrypt_bool E b K v r)|exact (keeps_encrypt_bool E b' K v r)].
    destruct (proj1 (C17_never_panics D LD Ht) K v r) as (ct & p & r' & H). eauto.
  - intros K est n d v r Hn Hd Hv. pose proof (optimal_valid _ est n d ltac:(unfold u64_lim; lia) Hd) as Hf.
    assert (Hp : forall c, PreparedRange_new (E:=built E c) d = Ret {| pr_inner := d; pr_admissible := range_values (E:=E) d |}).
    { intros c. exact (prepared_ok (built E c) L n d Hf ltac:(unfold u64_lim; lia)). }
    split; [rewrite (Hp b), (Hp b'); reflexivity|]. intros pr Hpr.
    assert (Hpr' : pr = {| pr_inner := d; pr_admissible := range_values (E:=E) d |}).
    { pose proof (prepared_ok E L n d Hf ltac:(unfold u64_lim; lia)). congruence. }
    subst pr.
    apply (agree (encrypt_range (E:=D) K {| pr_inner := d; pr_admissible := range_values (E:=E) d |} v r));
      [|exact (keeps_encrypt_range E b K _ v r)|exact (keeps_encrypt_range E b' K _ v r)].
    destruct (encrypt_range_total D LD K n d v r Ht Hf) as (ct & p & r' & H);
      [unfold u64_lim; lia|exact (sizes_fit n d Hf Hn)|exact Hv|eauto].
  - intros K n choices r Hn Hb Hl. destruct (C41_never_panics D LD Ht K n r Hn Hb) as ((pm & Hpm & Hm) & (ps & Hps & Hs & _)).
    split.
    + apply (agree (choice_parts (EncryptedChoice_new (E:=D) (S:=SingleChoice) (mkChoiceParams (E:=D) n K) choices r)));
        [|apply keeps_choice_single|apply keeps_choice_single].
      unfold ChoiceParams_single, assert in Hps. destruct (0 <? n)%nat; [|discriminate]. injection Hps as <-.
      destruct (Hs choices Hl) as (e & r' & ->). eexists. reflexivity.
    + apply (agree (choice_parts (EncryptedChoice_new (E:=D) (S:=MultiChoice) (mkChoiceParams (E:=D) n K) choices r)));
        [|apply keeps_choice_multi|apply keeps_choice_multi].
      unfold ChoiceParams_multi, assert in Hpm. destruct (0 <? n)%nat; [|discriminate]. injection Hpm as <-.
      destruct (Hm choices Hl) as (e & r' & ->). eexists. reflexivity.
  - intros K n credits He Hc.
    destruct (Nat.eq_dec n 0) as [->|Hn]; [reflexivity|]. destruct (N.eq_dec credits 0) as [->|Hc0].
    { unfold QuadraticVotingParams_new, assert. destruct (0 <? n)%nat; reflexivity. }
    apply (agree (QuadraticVotingParams_new (E:=D) K n credits)); [|exact (keeps_qv_new E b K n credits)|exact (keeps_qv_new E b' K n credits)].
    apply (qv_new_total D LD K n credits He Hc); lia.
  - intros K n credits m p He Hc Hp. apply (qv_params_inv E L) in Hp; [|exact Hc].
    assert (HpD : qv_inv D K n m credits p) by exact Hp.
    assert (H0 : forall F : Env, forall (K : PublicKey F) p, qv_inv F K n m credits p ->
              QuadraticVotingParams_set_max_votes (E:=F) p 0 = Panic PAssert).
    { intros F K' q Hq. unfold QuadraticVotingParams_set_max_votes. rewrite u64_mul_ok by reflexivity. cbn [bind].
      rewrite (qv_credits_ok F _ _ _ _ _ Hq). cbn [bind].
      unfold assert. destruct (N.leb_spec (0 * 0) credits); [|lia]. cbn [bind]. rewrite u64_add_ok by reflexivity. reflexivity. }
    split.
    + intros m' Hm. destruct (N.eq_dec m' 0) as [->|Hm0].
      { transitivity (Panic (A:=QuadraticVotingParams E) PAssert); [|symmetry];
        [exact (H0 (built E b) K p Hp)|exact (H0 (built E b') K p Hp)]. }
      apply (agree (QuadraticVotingParams_set_max_votes (E:=D) p m')); [|exact (keeps_qv_set_max E b p m')|exact (keeps_qv_set_max E b' p m')].
      apply (qv_set_total D LD K n m credits p m' He HpD); [lia|nia|left; exact Hm].
    + intros votes r H1 H2 H3.
      apply (agree (QuadraticVotingBallot_new (E:=D) p votes r)); [|exact (keeps_ballot_new E b p votes r)|exact (keeps_ballot_new E b' p votes r)].
      destruct (qv_ballot_total D LD K n m credits p votes r Ht HpD H1 H2 H3) as (ballot & r' & H). eauto.
  - intros params idx p hist sup Hbig Hpar Hr. apply (pes_run_inv E L) in Hr.
    transitivity (PES_complete (E:=E) p); [|symmetry].
    + rewrite (pes_complete_eq E L Hbig params idx Hpar p hist sup Hr).
      exact (pes_complete_eq (built E b) L Hbig params idx Hpar p hist sup Hr).
    + rewrite (pes_complete_eq E L Hbig params idx Hpar p hist sup Hr).
      exact (pes_complete_eq (built E b') L Hbig params idx Hpar p hist sup Hr).
Qed.
Print Assumptions C49_in_contract.

(** Without the restrictions the claim is false: [set_max_votes(2^32)] panics with overflow checks, and
    succeeds without them. *)
Theorem C49_refuted :
  forall (E : Env) (L : GroupLaws E) (K : PublicKey E) n credits m p,
    (forall k, k < 2 ^ 64 -> valid_estimate (@len_estimate E) k) -> credits + 65 < 2 ^ 64 -> qv_params K n credits m p ->
    QuadraticVotingParams_set_max_votes (E:=built E debug_build) p (2 ^ 32) = Panic POverflow /\
    exists p', QuadraticVotingParams_set_max_votes (E:=built E release_build) p (2 ^ 32) = Ret p'.
Proof.
  intros E L K n credits m p He Hc Hp. apply (qv_params_inv E L) in Hp; [|exact Hc]. split; [reflexivity|].
  apply (qv_set_total (built E release_build) L K n m credits p (2 ^ 32) He Hp); [lia|lia|].
  right. split; [reflexivity|]. change ((2 ^ 32 * 2 ^ 32) mod 2 ^ 64) with 0. lia.
Qed.
Print Assumptions C49_refuted.

(** the hypotheses can be met; the two profiles differ *)
Example C49_example :
  ser_total RE /\ (2 ^ 64 <= order RL)%Z /\ debug_build <> release_build /\
  built RE release_build = RR /\
  (forall k, k < 2 ^ 64 -> valid_estimate (@len_estimate RE) k) /\
  (exists m p, qv_params ex_key 3 20 m p) /\
  (List.length [2; 0; 3] = 3%nat /\ Forall (fun v => v <= 4) [2; 0; 3] /\ squares [2; 0; 3] <= 20) /\
  (exists d, RangeDecomposition_optimal (env_build RE) (@len_estimate RE) 21 = Ret d) /\
  (exists p hist sup a, pes_run (E:=RE) ex_dkg_params 1 p hist sup /\ PES_complete p = Ret (Ok a)).
Proof.
  split; [exact RE_ser_total|]. split; [exact RE_order_big|]. split; [discriminate|]. split; [reflexivity|].
  split; [intros ? _; apply int_estimate_valid|]. split; [|split; [|split]].
  - destruct (qv_new_total RE RL ex_key 3 20 (fun n _ => int_estimate_valid n)) as [p Hp]; [lia|lia|lia|]. exists 4, p. constructor; [exact Hp|lia|lia].
  - split; [reflexivity|]. split; [repeat constructor; lia|]. vm_compute. discriminate.
  - apply (proj1 (C18_optimal_total (env_build RE) (@len_estimate RE) 21 ltac:(lia))); [lia|apply int_estimate_valid].
  - destruct C37_example as (p & hist & sup & a & Hr & Ha & _). exists p, hist, sup, a. auto.
Qed.
