(** * C62 (continued): the guarantees of the crate with [Curve25519Subgroup]

    All statements are about the environment [curve25519_env] of the crate, whose elements are all
    points of the curve.  Hypotheses [inside] say that a value received from elsewhere has its points
    in the prime-order subgroup; all values that the crate parses do ([C62_parsed]). *)
From Coq Require Import List NArith ZArith String Lia.
From Verif.Model Require Import Base Group Transcript Keys Encryption LogEquality Possession Ring
  Range Commitment Mul Sharing Dkg Choice Quadratic Serde Backends.
From Verif.Spec Require Import Transfer Backends Encryption LogEquality Sigma Ring Range Choice Quadratic Sharing Subgroup.
From Verif.Proofs Require Import Parametricity Transfer Backends Subgroup SubgroupHits.
From Verif.Properties Require Import Keys LogEquality Choice Quadratic Sharing Backends Transfer.
Import ListNotations.
Open Scope string_scope.
Open Scope list_scope.
Open Scope nat_scope.

Section Curve25519.
Context (D : Dalek) (L : DalekLaws D) (R : Type) (fill : nat -> R -> bytes * R)
  (squeeze : transcript -> string -> nat -> bytes) (sha : bytes -> bytes) (estimate : N -> N) (build : Build).
Local Notation E' := (subgroup_env L R fill squeeze sha estimate build).
Local Notation E := (curve25519_env D R fill squeeze sha estimate build).
Local Notation GL := (subgroup_laws D L : GroupLaws E').

Theorem C62_decrypt_encrypt :
  forall (sk : SecretKey E) (pk : PublicKey E), key_of sk pk ->
    (forall v r c r', encrypt (E := E) pk v r = (c, r') -> decrypt_to_element (E := E) sk c = (@generator E * v)%E) /\
    (forall M r c r', in_subgroup L M -> encrypt_element (E := E) pk M r = (c, r') -> decrypt_to_element (E := E) sk c = M).
Proof.
  intros sk pk Hk. destruct (key_inside (L := L) sk pk Hk) as [Hin Hkey].
  apply (inside_iff (A := PublicKey E') pk) in Hin as [pk0 Hpk]. apply (Hkey pk0) in Hpk as Hk0.
  destruct (C01_decrypt_encrypt E' GL sk pk0 Hk0) as (H1 & H2 & _). split.
  - intros v r c r' He.
    pose proof (p_encrypt (E := E') (E' := E) pk0 pk Hpk v v eq_refl r r eq_refl) as Hr. rewrite He in Hr.
    destruct (encrypt (E := E') pk0 v r) as [c0 r0] eqn:He0. destruct Hr as [Hc _].
    pose proof (rel_decrypt sk c0 c Hc) as Hd. rewrite (H1 v r c0 r0 He0) in Hd. symmetry. rewrite <- Hd.
    symmetry. exact (rel_mul _ _ v co_generator).
  - intros M r c r' HM He.
    apply (inside_element (R := R) (fill := fill) (squeeze := squeeze) (sha := sha) (estimate := estimate) (build := build)) in HM as [M0 HM].
    pose proof (p_encrypt_element (E := E') (E' := E) pk0 pk Hpk M0 M HM r r eq_refl) as Hr. rewrite He in Hr.
    destruct (encrypt_element (E := E') pk0 M0 r) as [c0 r0] eqn:He0. destruct Hr as [Hc _].
    pose proof (rel_decrypt sk c0 c Hc) as Hd. rewrite (H2 M0 r c0 r0 He0) in Hd. rewrite <- Hd. exact HM.
Qed.

Theorem C62_zero_complete :
  forall (sk : SecretKey E) (pk : PublicKey E) rng, key_of sk pk ->
    exists c p rng', encrypt_zero (E := E) pk rng = Ret (c, p, rng') /\
      decrypt_to_element (E := E) sk c = identity /\ verify_zero (E := E) pk c p = Ret (Ok tt).
Proof.
  intros sk pk rng Hk. destruct (key_inside (L := L) sk pk Hk) as [Hin Hkey].
  apply (inside_iff (A := PublicKey E') pk) in Hin as [pk0 Hpk]. apply (Hkey pk0) in Hpk as Hk0.
  destruct (C60_curve25519 D L) as (_ & Hser & _).
  destruct (C12_prover_never_panics E' GL Hser pk0 rng) as (c0 & p0 & rng0 & He0).
  destruct (C12_complete E' GL sk pk0 rng c0 p0 rng0 Hk0 He0) as (Hd & Hv).
  pose proof (p_encrypt_zero (E := E') (E' := E) pk0 pk Hpk rng rng eq_refl) as Hr. rewrite He0 in Hr.
  destruct (encrypt_zero (E := E) pk rng) as [[[c p] rng']|]; [|contradiction].
  destruct Hr as [[Hc Hp] _]. exists c, p, rng'. split; [reflexivity|]. split.
  - pose proof (rel_decrypt sk c0 c Hc) as H. rewrite Hd in H. rewrite <- H. exact co_identity.
  - pose proof (p_verify_zero (E := E') (E' := E) pk0 pk Hpk c0 c Hc p0 p Hp) as H. rewrite Hv in H.
    destruct (verify_zero (E := E) pk c p) as [[[]|]|]; try contradiction. reflexivity.
Qed.

Theorem C62_zero_sound :
  forall (sk : SecretKey E) (pk : PublicKey E) (c : Ciphertext E) p,
    key_of sk pk -> inside L c ->
    verify_zero (E := E) pk c p = Ret (Ok tt) -> decrypt_to_element (E := E) sk c <> identity ->
    log_hit (E := E) [TMsg "dom-sep" (str_bytes "zero_encryption")] pk (random_element c) (blinded_element c).
Proof.
  intros sk pk c p Hk Hc Hv Hd. destruct (key_inside (L := L) sk pk Hk) as [Hin Hkey].
  apply (inside_iff (A := PublicKey E') pk) in Hin as [pk0 Hpk]. apply (Hkey pk0) in Hpk as Hk0.
  apply (inside_iff (A := Ciphertext E') c) in Hc as [c0 Hc].
  destruct (LogEqualityProof_inside (L := L) (R := R) (fill := fill) (squeeze := squeeze) (sha := sha) (estimate := estimate) (build := build) p) as [p0 Hp].
  pose proof (p_verify_zero (E := E') (E' := E) pk0 pk Hpk c0 c Hc p0 p Hp) as H. rewrite Hv in H.
  apply (rel_log_hit _ pk0 pk _ _ _ _ Hpk (p_random_element c0 c Hc) (p_blinded_element c0 c Hc)).
  apply (C12_sound E' GL sk pk0 c0 p0 Hk0).
  - destruct (verify_zero (E := E') pk0 c0 p0) as [[[]|]|]; try contradiction. reflexivity.
  - intros H0. apply Hd. apply (rel_inj _ _ _ _ (rel_decrypt sk c0 c Hc) co_identity). exact H0.
Qed.

Theorem C62_decryption_sound :
  forall (sk : SecretKey E) (pk : PublicKey E) (c : Ciphertext E) (d : CandidateDecryption E) p t d' t',
    key_of sk pk -> inside L c -> inside L d ->
    CandidateDecryption_verify (E := E) d c pk p t = Ret (Ok d', t') ->
    d' = cd_inner d /\
    (VerifiableDecryption_decrypt_to_element (E := E) d' c <> decrypt_to_element (E := E) sk c ->
     exists base, PublicKey_from_element (E := E) (random_element c) = Ret base /\
       log_hit (E := E) (t ++ [TMsg "dom-sep" (str_bytes "decryption_with_custom_key")]) base
         (pk_element pk) (vd_dh_element d')).
Proof.
  intros sk pk c d p t d' t' Hk Hc Hd Hv. destruct (key_inside (L := L) sk pk Hk) as [Hin Hkey].
  apply (inside_iff (A := PublicKey E') pk) in Hin as [pk0 Hpk]. apply (Hkey pk0) in Hpk as Hk0.
  apply (inside_iff (A := Ciphertext E') c) in Hc as [c0 Hc].
  apply (inside_iff (A := CandidateDecryption E') d) in Hd as [d0 Hd].
  destruct (LogEqualityProof_inside (L := L) (R := R) (fill := fill) (squeeze := squeeze) (sha := sha) (estimate := estimate) (build := build) p) as [p0 Hp].
  pose proof (p_CandidateDecryption_verify (E := E') (E' := E) d0 d Hd c0 c Hc pk0 pk Hpk p0 p Hp t t (is_refl t)) as H.
  rewrite Hv in H.
  destruct (CandidateDecryption_verify (E := E') d0 c0 pk0 p0 t) as [[[d0'|] t0']|] eqn:Hv0; try (destruct H; contradiction); try contradiction.
  destruct H as [Hd' _].
  destruct (C28_sound E' GL sk pk0 c0 d0 p0 t d0' t0' Hk0 Hv0) as (He & Hs).
  assert (HE : d' = cd_inner d).
  { subst d0'. pose proof (p_vd_dh_element _ _ (p_cd_inner d0 d Hd)) as H1.
    pose proof (p_vd_dh_element _ _ Hd') as H2. hnf in H1, H2. rewrite H1 in H2.
    destruct (cd_inner d) as [x], d' as [y]. cbn in H2. congruence. }
  split; [exact HE|]. intros Hne.
  assert (Hne0 : VerifiableDecryption_decrypt_to_element (E := E') d0' c0 <> decrypt_to_element (E := E') sk c0).
  { intros H. apply Hne.
    apply (rel_inj _ _ _ _ (p_VerifiableDecryption_decrypt_to_element (E := E') (E' := E) d0' d' Hd' c0 c Hc) (rel_decrypt sk c0 c Hc)).
    exact H. }
  destruct (Hs Hne0) as (base0 & X0 & X1 & q & Hb & Hhit).
  pose proof (p_PublicKey_from_element (E := E') (E' := E) _ _ (p_random_element c0 c Hc)) as Hbr. rewrite Hb in Hbr.
  destruct (PublicKey_from_element (E := E) (random_element c)) as [base|]; [|contradiction].
  exists base. split; [reflexivity|].
  assert (Hbase : pk_element base0 = random_element c0).
  { unfold PublicKey_from_element in Hb. destruct (serialize_element (random_element c0)); [|discriminate].
    injection Hb as <-. reflexivity. }
  apply (rel_log_hit _ base0 base _ _ _ _ Hbr (p_pk_element pk0 pk Hpk) (p_vd_dh_element d0' d' Hd')).
  exists X0, X1, q. rewrite Hbase. exact Hhit.
Qed.

Theorem C62_multi_choice_sound :
  forall (sk : SecretKey E) (receiver : PublicKey E) n params (e : EncryptedChoice (@MultiChoice E)) cts,
    key_of sk receiver -> inside L e -> ChoiceParams_multi (E := E) receiver n = Ret params ->
    EncryptedChoice_verify e params = Ret (Ok cts) ->
    List.length cts = n /\
    ((forall ct, In ct cts -> decrypt_to_element (E := E) sk ct = identity \/ decrypt_to_element (E := E) sk ct = generator) \/
     exists k, bit_hit (E := E) choice_ranges_context receiver cts k).
Proof.
  intros sk pk n params e cts Hk He Hparams Hv. destruct (key_inside (L := L) sk pk Hk) as [Hin Hkey].
  apply (inside_iff (A := PublicKey E') pk) in Hin as [pk0 Hpk]. apply (Hkey pk0) in Hpk as Hk0.
  apply (inside_iff (A := EncryptedChoice (@MultiChoice E')) e) in He as [e0 He].
  pose proof (p_ChoiceParams_multi (E := E') (E' := E) pk0 pk Hpk n n (is_refl n)) as H. rewrite Hparams in H.
  destruct (ChoiceParams_multi (E := E') pk0 n) as [params0|] eqn:Hp0; [|contradiction]. rename H into Hpr.
  pose proof (p_EncryptedChoice_verify (S := @MultiChoice E') (S' := @MultiChoice E) e0 e He params0 params Hpr) as H. rewrite Hv in H.
  destruct (EncryptedChoice_verify e0 params0) as [[cts0|]|] eqn:Hv0; try contradiction. rename H into Hcts.
  destruct (C42_multi_sound E' GL sk pk0 n params0 e0 cts0 Hk0 Hp0 Hv0) as (Hl & Hs).
  split; [rewrite <- (rel_length cts0 cts Hcts); exact Hl|]. destruct Hs as [Hs|[k Hs]].
  - left. intros ct Hct. destruct (rel_in' cts0 cts ct Hcts Hct) as (ct0 & Hin0 & Hr).
    destruct (Hs ct0 Hin0) as [H|H]; [left|right].
    + apply (rel_inj _ _ _ _ (rel_decrypt sk ct0 ct Hr) co_identity). exact H.
    + apply (rel_inj _ _ _ _ (rel_decrypt sk ct0 ct Hr) co_generator). exact H.
  - right. exists k. exact (rel_bit_hit _ pk0 pk cts0 cts k Hpk Hcts Hs).
Qed.

Theorem C62_single_choice_sound :
  forall (sk : SecretKey E) (receiver : PublicKey E) n params (e : EncryptedChoice (@SingleChoice E)) cts,
    (Z.of_nat n < dl_order L)%Z ->
    key_of sk receiver -> inside L e -> ChoiceParams_single (E := E) receiver n = Ret params ->
    EncryptedChoice_verify e params = Ret (Ok cts) ->
    List.length cts = n /\
    ((exists k, one_hot (E := E) sk cts k) \/
     (exists k, bit_hit (E := E) choice_ranges_context receiver cts k) \/
     log_hit (E := E) choice_sum_context receiver (random_element (ct_total (E := E) cts))
       (@e_sub E (blinded_element (ct_total (E := E) cts)) (@generator E))).
Proof.
  intros sk pk n params e cts Hbig Hk He Hparams Hv. destruct (key_inside (L := L) sk pk Hk) as [Hin Hkey].
  apply (inside_iff (A := PublicKey E') pk) in Hin as [pk0 Hpk]. apply (Hkey pk0) in Hpk as Hk0.
  apply (inside_iff (A := EncryptedChoice (@SingleChoice E')) e) in He as [e0 He].
  pose proof (p_ChoiceParams_single (E := E') (E' := E) pk0 pk Hpk n n (is_refl n)) as H. rewrite Hparams in H.
  destruct (ChoiceParams_single (E := E') pk0 n) as [params0|] eqn:Hp0; [|contradiction]. rename H into Hpr.
  pose proof (p_EncryptedChoice_verify (S := @SingleChoice E') (S' := @SingleChoice E) e0 e He params0 params Hpr) as H. rewrite Hv in H.
  destruct (EncryptedChoice_verify e0 params0) as [[cts0|]|] eqn:Hv0; try contradiction. rename H into Hcts.
  destruct (C42_single_sound E' GL sk pk0 n params0 e0 cts0 Hbig Hk0 Hp0 Hv0) as (Hl & Hs).
  split; [rewrite <- (rel_length cts0 cts Hcts); exact Hl|]. destruct Hs as [[k [Hkl Hs]]|[[k Hs]|Hs]].
  - left. exists k. split; [rewrite <- (rel_length cts0 cts Hcts); exact Hkl|].
    intros i ct Hct.
    assert (Hback : exists ct0, nth_error cts0 i = Some ct0 /\ rel ct0 ct).
    { clear - Hcts Hct. revert i Hct. induction Hcts as [|a a' l l' Ha _ IH]; intros [|i]; cbn; try discriminate.
      - intros [= <-]. exists a. split; [reflexivity|exact Ha].
      - apply IH. }
    destruct Hback as (ct0 & Hct0 & Hr).
    refine (proj1 (rel_inj _ _ _ _ (rel_decrypt sk ct0 ct Hr) _) (Hs i ct0 Hct0)).
    destruct (Nat.eqb i k); [exact co_generator|exact co_identity].
  - right. left. exists k. exact (rel_bit_hit _ pk0 pk cts0 cts k Hpk Hcts Hs).
  - right. right.
    assert (Ht : rel (ct_total (E := E') cts0) (ct_total (E := E) cts)).
    { clear - Hcts. induction Hcts as [|a a' l l' Ha _ IH]; [split; exact co_identity|].
      split; cbn [ct_total map fold_right random_element blinded_element].
      - exact (co_e_add _ _ (p_random_element a a' Ha) _ _ (p_random_element _ _ IH)).
      - exact (co_e_add _ _ (p_blinded_element a a' Ha) _ _ (p_blinded_element _ _ IH)). }
    exact (rel_log_hit _ pk0 pk _ _ _ _ Hpk (p_random_element _ _ Ht) (co_e_sub _ _ (p_blinded_element _ _ Ht) _ _ co_generator) Hs).
Qed.

Lemma qv_params_back (receiver : PublicKey E) (receiver0 : PublicKey E') options credits m p :
  rel receiver0 receiver -> qv_params (E := E) receiver options credits m p ->
  exists p0, rel p0 p /\ qv_params (E := E') receiver0 options credits m p0.
Proof.
  intros Hr H. induction H as [p m Hp H1 H2|p m m' p' H (p0 & Hp0 & IH) Hm Hs].
  - pose proof (p_QuadraticVotingParams_new (E := E') (E' := E) receiver0 receiver Hr options options (is_refl options)
      credits credits (is_refl credits)) as H. rewrite Hp in H.
    destruct (QuadraticVotingParams_new (E := E') receiver0 options credits) as [p0|] eqn:Hp0; [|contradiction].
    exists p0. split; [exact H|]. exact (qv_created receiver0 options credits p0 m Hp0 H1 H2).
  - pose proof (p_QuadraticVotingParams_set_max_votes (E := E') (E' := E) p0 p Hp0 m' m' (is_refl m')) as Hq.
    rewrite Hs in Hq.
    destruct (QuadraticVotingParams_set_max_votes (E := E') p0 m') as [p0'|] eqn:Hp0'; [|contradiction].
    exists p0'. split; [exact Hq|]. exact (qv_limited receiver0 options credits p0 m m' p0' IH Hm Hp0').
Qed.

Theorem C62_quadratic_sound :
  forall (sk : SecretKey E) (receiver : PublicKey E) options credits m p (ballot : QuadraticVotingBallot E) cts,
    (credits + 65 < 2 ^ 64)%N -> qv_params (E := E) receiver options credits m p -> key_of sk receiver ->
    inside L ballot ->
    (Z.of_nat options * (Z.of_N m * Z.of_N m) < dl_order L)%Z -> (Z.of_N credits < dl_order L)%Z ->
    QuadraticVotingBallot_verify (E := E) ballot p = Ret (Ok cts) ->
    List.length cts = options /\
    ((exists votes, Forall2 (fun v ct => (v <= m)%N /\
          decrypt_to_element (E := E) sk ct = Encryption.times (E := E) v generator) votes cts /\
        (squares votes <= credits)%N) \/
     (exists v, In v (qb_votes ballot) /\
        range_hit (E := E) sk qv_variant_context receiver (pr_inner (qv_vote_count_range p))
          (rap_partial (crp_range_proof v)) (crp_ciphertext v)) \/
     range_hit (E := E) sk qv_credit_context receiver (pr_inner (qv_credit_range p))
       (rap_partial (crp_range_proof (qb_credit ballot))) (crp_ciphertext (qb_credit ballot)) \/
     sq_hit (E := E) qv_equiv_context receiver cts (crp_ciphertext (qb_credit ballot))).
Proof.
  intros sk pk options credits m p ballot cts Hc Hp Hk Hb Hbig Hco Hv.
  destruct (key_inside (L := L) sk pk Hk) as [Hin Hkey].
  apply (inside_iff (A := PublicKey E') pk) in Hin as [pk0 Hpk]. apply (Hkey pk0) in Hpk as Hk0.
  apply (inside_iff (A := QuadraticVotingBallot E') ballot) in Hb as [b0 Hb].
  destruct (qv_params_back pk pk0 options credits m p Hpk Hp) as (p0 & Hpr & Hp0).
  pose proof (p_QuadraticVotingBallot_verify (E := E') (E' := E) b0 ballot Hb p0 p Hpr) as H. rewrite Hv in H.
  destruct (QuadraticVotingBallot_verify (E := E') b0 p0) as [[cts0|]|] eqn:Hv0; try contradiction. rename H into Hcts.
  destruct (C47_sound E' GL sk pk0 options credits m p0 b0 cts0 Hc Hp0 Hk0 Hbig Hco Hv0) as (Hl & Hs).
  split; [rewrite <- (rel_length cts0 cts Hcts); exact Hl|].
  assert (Hd1 : pr_inner (qv_vote_count_range p0) = pr_inner (qv_vote_count_range p)).
  { pose proof (p_pr_inner _ _ (p_qv_vote_count_range p0 p Hpr)) as H. apply is_eq in H. exact H. }
  assert (Hd2 : pr_inner (qv_credit_range p0) = pr_inner (qv_credit_range p)).
  { pose proof (p_pr_inner _ _ (p_qv_credit_range p0 p Hpr)) as H. apply is_eq in H. exact H. }
  pose proof (p_qb_credit b0 ballot Hb) as Hcr. pose proof (p_crp_ciphertext _ _ Hcr) as Hcc.
  destruct Hs as [(votes & Hvotes & Hsq)|[(v0 & Hv0' & Hs)|[Hs|Hs]]].
  - left. exists votes. split; [|exact Hsq].
    clear - Hvotes Hcts. revert votes Hvotes. induction Hcts as [|a a' l l' Ha _ IH]; intros votes Hvotes; inversion Hvotes; subst; constructor.
    + match goal with H : _ /\ decrypt_to_element sk a = _ |- _ => destruct H as [H1 H2] end. split; [exact H1|].
      exact (proj1 (rel_inj _ _ _ _ (rel_decrypt sk a a' Ha) (rel_times _ _ _ co_generator)) H2).
    + apply IH. assumption.
  - right. left. destruct (rel_in _ _ v0 (p_qb_votes b0 ballot Hb) Hv0') as (v & Hvin & Hvr).
    exists v. split; [exact Hvin|]. rewrite <- Hd1.
    exact (rel_range_hit sk _ pk0 pk _ _ _ _ _ Hpk (p_rap_partial _ _ (p_crp_range_proof v0 v Hvr)) (p_crp_ciphertext v0 v Hvr) Hs).
  - right. right. left. rewrite <- Hd2.
    exact (rel_range_hit sk _ pk0 pk _ _ _ _ _ Hpk (p_rap_partial _ _ (p_crp_range_proof _ _ Hcr)) Hcc Hs).
  - right. right. right. exact (rel_sq_hit _ pk0 pk cts0 cts _ _ Hpk Hcts Hcc Hs).
Qed.

Lemma produced_share_back (d : Dealer E) (d0 : Dealer E') ks ks0 ct ct0 s :
  rel d0 d -> rel ks0 ks -> rel ct0 ct -> produced_share (E := E) d ks ct s ->
  exists s0, rel s0 s /\ produced_share (E := E') d0 ks0 ct0 s0.
Proof.
  intros Hd Hks Hct (share & a & rng & cand & pf & rng' & H1 & H2 & H3 & H4).
  pose proof (p_Dealer_secret_share_for_participant (E := E') (E' := E) d0 d Hd (fst s) (fst s) (is_refl (fst s))) as Q1.
  rewrite H1 in Q1. destruct (Dealer_secret_share_for_participant (E := E') d0 (fst s)) as [share0|] eqn:K1; [|contradiction].
  pose proof (p_ActiveParticipant_new (E := E') (E' := E) ks0 ks Hks (fst s) (fst s) (is_refl (fst s)) share0 share Q1) as Q2.
  rewrite H2 in Q2. destruct (ActiveParticipant_new (E := E') ks0 (fst s) share0) as [[a0|]|] eqn:K2; try contradiction.
  pose proof (p_ActiveParticipant_decrypt_share (E := E') (E' := E) a0 a Q2 ct0 ct Hct rng rng eq_refl) as Q3.
  rewrite H3 in Q3. destruct (ActiveParticipant_decrypt_share (E := E') a0 ct0 rng) as [[[cand0 pf0] rng0]|] eqn:K3; [|contradiction].
  destruct Q3 as [[Qc Qp] _].
  assert (Qcd : @rel (CandidateDecryption E') (CandidateDecryption E) _ (mkCandidateDecryption (G := E') cand0) (mkCandidateDecryption (G := E) cand)).
  { exact (p_mkCandidateDecryption cand0 cand Qc). }
  pose proof (p_PublicKeySet_verify_share (E := E') (E' := E) ks0 ks Hks _ _ Qcd ct0 ct Hct (fst s) (fst s) (is_refl (fst s)) pf0 pf Qp) as Q4.
  rewrite H4 in Q4. destruct (PublicKeySet_verify_share (E := E') ks0 {| cd_inner := cand0 |} ct0 (fst s) pf0) as [[dd|]|] eqn:K4; try contradiction.
  exists (fst s, dd). split.
  - destruct s as [i x]. split; [apply is_refl|exact Q4].
  - exists share0, a0, rng, cand0, pf0, rng0. repeat split; assumption.
Qed.

Theorem C62_threshold_decryption : (2 ^ 64 <= dl_order L)%Z ->
  forall (params : Params) r (d : Dealer E) r' ks (v : N) rng ct rng' taken rest values,
    params_ok params ->
    Dealer_new (E := E) params r = Ret (d, r') ->
    PublicKeySet_new (E := E) params (fst (Dealer_public_info (E := E) d)) (snd (Dealer_public_info (E := E) d)) = Ret (Ok ks) ->
    encrypt (E := E) (ks_shared_key ks) (@s_of_u64 E v) rng = (ct, rng') ->
    List.length taken = pa_threshold params -> NoDup (map fst taken) ->
    (forall s, In s taken -> produced_share (E := E) d ks ct s) ->
    (forall i dd, In (i, dd) rest -> inside L dd) ->
    (forall x, In x values -> (x < 2 ^ 64)%N) -> (v = 0%N \/ In v values) ->
    exists dec tbl, combine_shares (E := E) params (taken ++ rest) = Ret (Some dec) /\
      VerifiableDecryption_decrypt_to_element (E := E) dec ct = (@generator E * @s_of_u64 E v)%E /\
      DiscreteLogTable_new (E := E) values = Ret tbl /\
      VerifiableDecryption_decrypt (E := E) dec ct tbl = Ret (Some v).
Proof.
  intros Hbig params r d r' ks v rng ct rng' taken rest values Hok Hd Hks He Hlen Hnd Hprod Hrest Hvals Hv.
  pose proof (p_Dealer_new (E := E') (E' := E) params params (is_refl params) r r eq_refl) as Q1. rewrite Hd in Q1.
  destruct (Dealer_new (E := E') params r) as [[d0 r0]|] eqn:K1; [|contradiction]. destruct Q1 as [Qd _].
  pose proof (p_Dealer_public_info (E := E') (E' := E) d0 d Qd) as Qi.
  pose proof (p_PublicKeySet_new (E := E') (E' := E) params params (is_refl params)
    (fst (Dealer_public_info (E := E') d0)) (fst (Dealer_public_info (E := E) d)) (proj1 Qi)
    (snd (Dealer_public_info (E := E') d0)) (snd (Dealer_public_info (E := E) d)) (proj2 Qi)) as Q2.
  rewrite Hks in Q2.
  destruct (PublicKeySet_new (E := E') params (fst (Dealer_public_info (E := E') d0)) (snd (Dealer_public_info (E := E') d0)))
    as [[ks0|]|] eqn:K2; try contradiction.
  pose proof (p_encrypt (E := E') (E' := E) _ _ (p_ks_shared_key ks0 ks Q2) (@s_of_u64 E' v) (@s_of_u64 E v) eq_refl rng rng eq_refl) as Q3.
  rewrite He in Q3. destruct (encrypt (E := E') (ks_shared_key ks0) (@s_of_u64 E' v) rng) as [ct0 rng0] eqn:K3. destruct Q3 as [Qc _].
  assert (Ht : exists taken0, rel taken0 taken /\ (forall s, In s taken0 -> produced_share (E := E') d0 ks0 ct0 s) /\
                map fst taken0 = map fst taken).
  { clear - Qd Q2 Qc Hprod. induction taken as [|s taken IH].
    - exists []. split; [constructor|]. split; [contradiction|reflexivity].
    - destruct (produced_share_back d d0 ks ks0 ct ct0 s Qd Q2 Qc (Hprod s (or_introl eq_refl))) as (s0 & Hs & Hp).
      destruct IH as (t0 & Ht & Hpt & Hm); [intros x Hx; apply Hprod; right; exact Hx|].
      exists (s0 :: t0). split; [constructor; assumption|]. split.
      + intros x [<-|Hx]; [exact Hp|exact (Hpt x Hx)].
      + cbn [map]. rewrite Hm. f_equal. destruct s0, s. destruct Hs as [Hs _]. cbn [fst]. apply is_eq in Hs. exact Hs. }
  destruct Ht as (taken0 & Qt & Hprod0 & Hm0).
  assert (Hrs : exists rest0, @rel (list (nat * VerifiableDecryption E')) (list (nat * VerifiableDecryption E)) _ rest0 rest).
  { clear - Hrest. induction rest as [|[i dd] rest IH]; [exists []; constructor|].
    pose proof (Hrest i dd (or_introl eq_refl)) as Hdd.
    apply (inside_iff (A := VerifiableDecryption E') dd) in Hdd as [dd0 Hdd].
    destruct IH as [rest0 IH]; [intros j e Hj; exact (Hrest j e (or_intror Hj))|].
    exists ((i, dd0) :: rest0). constructor; [split; [apply is_refl|exact Hdd]|exact IH]. }
  destruct Hrs as (rest0 & Qr).
  assert (Hlen0 : List.length taken0 = pa_threshold params) by (rewrite (rel_length taken0 taken Qt); exact Hlen).
  assert (Hnd0 : NoDup (map fst taken0)) by (rewrite Hm0; exact Hnd).
  destruct (C35_threshold_decryption E' GL Hbig params r d0 r0 ks0 v rng ct0 rng0 taken0 rest0 values
              Hok K1 K2 K3 Hlen0 Hnd0 Hprod0 Hvals Hv) as (dec0 & tbl0 & R1 & R2 & R3 & R4).
  assert (Qtr : @rel (list (nat * VerifiableDecryption E')) (list (nat * VerifiableDecryption E)) _ (taken0 ++ rest0) (taken ++ rest)).
  { apply Forall2_app; [exact Qt|exact Qr]. }
  pose proof (p_combine_shares (E := E') (E' := E) params params (is_refl params) _ _ Qtr) as Q5. rewrite R1 in Q5.
  destruct (combine_shares (E := E) params (taken ++ rest)) as [[dec|]|]; try contradiction.
  pose proof (p_DiscreteLogTable_new (E := E') (E' := E) values values (is_refl values)) as Q6. rewrite R3 in Q6.
  destruct (DiscreteLogTable_new (E := E) values) as [tbl|]; [|contradiction].
  exists dec, tbl. split; [reflexivity|]. split; [|split; [reflexivity|]].
  - pose proof (p_VerifiableDecryption_decrypt_to_element (E := E') (E' := E) dec0 dec Q5 ct0 ct Qc) as Q7.
    exact (proj1 (rel_inj _ _ _ _ Q7 (rel_mul _ _ (@s_of_u64 E' v) co_generator)) R2).
  - pose proof (p_VerifiableDecryption_decrypt (E := E') (E' := E) dec0 dec Q5 ct0 ct Qc tbl0 tbl Q6) as Q8.
    rewrite R4 in Q8. apply is_eq in Q8. symmetry. exact Q8.
Qed.

End Curve25519.
Print Assumptions C62_decrypt_encrypt.
Print Assumptions C62_zero_complete.
Print Assumptions C62_zero_sound.
Print Assumptions C62_decryption_sound.
Print Assumptions C62_multi_choice_sound.
Print Assumptions C62_single_choice_sound.
Print Assumptions C62_quadratic_sound.
Print Assumptions C62_threshold_decryption.

(** ** A curve of order [8 * qx], with a hash that depends on the whole transcript *)
From Verif.Instance Require Import Primality Zq Curves.
Definition csqueeze (t : transcript) (label : string) (n : nat) : bytes :=
  let m := (2 ^ 61 - 1)%Z in le_bytes n (Z.to_N (zval m (toy_oracle m t label))).
Definition CE : Env := curve25519_env TD Z toy_fill csqueeze (toy_sha qx) int_lower_len_estimate debug_build.

Example C62_example_order : (2 ^ 64 <= dl_order TL)%Z /\ (Z.of_nat 4 < dl_order TL)%Z.
Proof. change (dl_order TL) with qx. split; vm_compute; discriminate || reflexivity. Qed.

(** an election: the choice verifies and decrypts, and a tampered one does not *)
Definition c_choice (choices : list bool) (f : Ciphertext CE -> Ciphertext CE) : outcome (bool * list bool) :=
  key <- PublicKey_from_secret (E := CE) (zq qx 987654321) ;;
  params <- ChoiceParams_single (E := CE) key (List.length choices) ;;
  '(e, _) <- EncryptedChoice_new params choices 17%Z ;;
  res <- EncryptedChoice_verify {| ec_choices := match ec_choices e with c :: l => f c :: l | [] => [] end;
            ec_range_proof := ec_range_proof e; ec_sum_proof := ec_sum_proof e |} params ;;
  Ret (match res with Ok _ => true | Err _ => false end,
       map (fun c => @e_eqb CE (decrypt_to_element (E := CE) (zq qx 987654321) c) (tpoint 8)) (ec_choices e)).
Example C62_example_choice :
  c_choice [false; false; true; false] (fun c => c) = Ret (true, [false; false; true; false]) /\
  c_choice [false; true] (fun c => Ciphertext_add (E := CE) c c) = Ret (false, [false; true]).
Proof. vm_compute. split; reflexivity. Qed.

Example C62_example_ballot :
  (key <- PublicKey_from_secret (E := CE) (zq qx 987654321) ;;
   params <- QuadraticVotingParams_new (E := CE) key 3 10 ;;
   '(b, _) <- QuadraticVotingBallot_new (E := CE) params [1; 0; 2]%N 17%Z ;;
   res <- QuadraticVotingBallot_verify (E := CE) b params ;;
   Ret (match res with
        | Ok cts => map (fun c => @e_eqb CE (decrypt_to_element (E := CE) (zq qx 987654321) c) (tpoint 16)) cts
        | Err _ => []
        end)) = Ret [false; false; true].
Proof. vm_compute. reflexivity. Qed.

(** a 2-of-3 threshold decryption *)
Example C62_example_threshold :
  (params <- Ret {| pa_shares := 3; pa_threshold := 2 |} ;;
   '(d, _) <- Dealer_new (E := CE) params 4%Z ;;
   ks <- PublicKeySet_new (E := CE) params (fst (Dealer_public_info (E := CE) d)) (snd (Dealer_public_info (E := CE) d)) ;;
   match ks with
   | Ok ks =>
       let '(ct, _) := encrypt (E := CE) (ks_shared_key ks) (@s_of_u64 CE 42) 6%Z in
       shares <- mapM (fun i => share <- Dealer_secret_share_for_participant (E := CE) d i ;;
                               a <- ActiveParticipant_new (E := CE) ks i share ;;
                               match a with
                               | Ok a => '(c, pf, _) <- ActiveParticipant_decrypt_share (E := CE) a ct 11%Z ;;
                                         res <- PublicKeySet_verify_share (E := CE) ks {| cd_inner := c |} ct i pf ;;
                                         match res with Ok s => Ret (i, s) | Err _ => Panic PAssert end
                               | Err _ => Panic PAssert
                               end) [2; 0]%nat ;;
       dec <- combine_shares (E := CE) params shares ;;
       tbl <- DiscreteLogTable_new (E := CE) [41; 42]%N ;;
       match dec with Some dec => VerifiableDecryption_decrypt (E := CE) dec ct tbl | None => Ret None end
   | Err _ => Ret None
   end) = Ret (Some 42%N).
Proof. vm_compute. reflexivity. Qed.

(** ** Points outside of the subgroup

    The ciphertext [([5]G, [5]K + T)] with [T] of order 2 is not an encryption of zero.  The commitments of
    the honest prover answer every second challenge, so such a ciphertext is accepted by [verify_zero] with
    probability 1/2: the hypothesis [inside] of [C62_zero_sound] is needed. *)
Definition bad_ct : Ciphertext CE :=
  {| random_element := tpoint 40 : Element CE; blinded_element := tpoint (80 + 4 * qx) : Element CE |}.
Definition bad_proof (rng : Z) : outcome (bool * bool) :=
  key <- PublicKey_from_secret (E := CE) (zq qx 2) ;;
  '(p, _, _) <- LogEqualityProof_new (E := CE) key (zq qx 5) (random_element bad_ct, blinded_element bad_ct)
       [TMsg "dom-sep" (str_bytes "zero_encryption")] rng ;;
  res <- verify_zero (E := CE) key bad_ct p ;;
  Ret (match res with Ok _ => true | Err _ => false end,
       @is_identity CE (decrypt_to_element (E := CE) (zq qx 2) bad_ct)).
Example C62_example_outside : map bad_proof [1; 2; 3; 4; 5]%Z =
  [Ret (true, false); Ret (false, false); Ret (true, false); Ret (true, false); Ret (false, false)].
Proof. vm_compute. reflexivity. Qed.

Lemma sub_mul k a : zq (8 * qx) (8 * k * (a mod qx)) = zq (8 * qx) (8 * k * a).
Proof.
  assert (Hq : (0 < qx)%Z) by reflexivity.
  apply zq_eq. rewrite (Z.mod_eq a qx) by lia.
  replace (8 * k * (a - qx * (a / qx)))%Z with (8 * k * a + (- (k * (a / qx))) * (8 * qx))%Z by ring.
  apply Z.mod_add. lia.
Qed.

Lemma bad_no_hit t (pk : PublicKey CE) : pk_element pk = tpoint 16 ->
  ~ log_hit (E := CE) t pk (random_element bad_ct) (blinded_element bad_ct).
Proof.
  intros Hpk (X0 & X1 & q & _ & [s Hs] & Hu). set (c := oracle (e := CE) q "c") in *. clearbody c.
  rewrite Hpk in Hs, Hu. change (Zq qx) in s. change (Zq qx) in c.
  assert (Hq : (0 < qx)%Z) by reflexivity.
  assert (Hc : (0 <= zval qx c < qx)%Z) by (rewrite <- (zval_mod qx c); apply Z.mod_pos_bound; exact Hq).
  (* another challenge with the same parity, and its response *)
  set (delta := if (zval qx c + 2 <? qx)%Z then 2%Z else (-2)%Z).
  assert (Hd : (0 <= zval qx c + delta < qx)%Z /\ (delta = 2 \/ delta = -2)%Z).
  { unfold delta. assert (4 < qx)%Z by reflexivity. destruct (Z.ltb_spec (zval qx c + 2) qx); lia. }
  assert (Ha : le_answers (E := CE) (tpoint 16) (random_element bad_ct) (blinded_element bad_ct) X0 X1
                 (zq qx (zval qx c + delta)) (zq qx (zval qx s + 5 * delta))).
  { destruct Hs as [H0 H1]. split; [rewrite H0|rewrite H1];
      change (@e_sub CE) with (zsub (8 * qx)); change (@e_mul CE) with (tp_mul 8); unfold tp_mul, tpoint, bad_ct;
      cbn [random_element blinded_element]; change (@generator CE) with (zq (8 * qx) 8); unfold tpoint; cbn [zval zq];
      rewrite ?(Z.mod_small (zval qx c + delta) qx) by lia;
      rewrite ?(Z.mod_small 8 (8 * qx)), ?(Z.mod_small 16 (8 * qx)), ?(Z.mod_small 40 (8 * qx)),
        ?(Z.mod_small (80 + 4 * qx) (8 * qx)) by (split; reflexivity || (vm_compute; discriminate)).
    - replace (8 * ((zval qx s + 5 * delta) mod qx))%Z with (8 * 1 * ((zval qx s + 5 * delta) mod qx))%Z by ring. rewrite sub_mul, !(zq_sub (8 * qx)). f_equal. ring.
    - replace (16 * ((zval qx s + 5 * delta) mod qx))%Z with (8 * 2 * ((zval qx s + 5 * delta) mod qx))%Z by ring. rewrite sub_mul, !(zq_sub (8 * qx)). apply zq_eq.
      destruct Hd as [_ [-> | ->]].
      + rewrite <- (Z.mod_add _ (-1)) by lia. f_equal. ring.
      + rewrite <- (Z.mod_add _ 1) by lia. f_equal. ring. }
  pose proof (Hu _ _ Ha) as He. apply (f_equal (zval qx)) in He. cbn [zval zq] in He.
  rewrite Z.mod_small in He by lia. lia.
Qed.

Theorem C62_outside_refuted :
  ~ (forall (D : Dalek) (L : DalekLaws D) R fill squeeze sha estimate build,
      let E := curve25519_env D R fill squeeze sha estimate build in
      forall (sk : SecretKey E) (pk : PublicKey E) (c : Ciphertext E) p,
        key_of sk pk -> verify_zero (E := E) pk c p = Ret (Ok tt) ->
        decrypt_to_element (E := E) sk c <> identity ->
        log_hit (E := E) [TMsg "dom-sep" (str_bytes "zero_encryption")] pk (random_element c) (blinded_element c)).
Proof.
  intros H. specialize (H TD TL Z toy_fill csqueeze (toy_sha qx) int_lower_len_estimate debug_build).
  cbv zeta in H. change (curve25519_env TD Z toy_fill csqueeze (toy_sha qx) int_lower_len_estimate debug_build) with CE in H.
  destruct (PublicKey_from_secret (E := CE) (zq qx 2)) as [pk|] eqn:Hpk; [|discriminate].
  assert (Hk : pk_element pk = tpoint 16).
  { injection Hpk as <-. apply Zq_eq. vm_compute. reflexivity. }
  assert (Hacc : match LogEqualityProof_new (E := CE) pk (zq qx 5) (random_element bad_ct, blinded_element bad_ct)
                     [TMsg "dom-sep" (str_bytes "zero_encryption")] 1%Z with
                 | Ret (p, _, _) => verify_zero (E := CE) pk bad_ct p = Ret (Ok tt)
                 | Panic _ => False
                 end).
  { injection Hpk as <-. vm_compute. reflexivity. }
  destruct (LogEqualityProof_new (E := CE) pk _ _ _ _) as [[[p ?] ?]|]; [|contradiction].
  apply (bad_no_hit [TMsg "dom-sep" (str_bytes "zero_encryption")] pk Hk).
  apply (H (zq qx 2) pk bad_ct p); [|exact Hacc|].
  - unfold key_of. rewrite Hk. apply Zq_eq. vm_compute. reflexivity.
  - intros Hd. apply (f_equal (zval (8 * qx))) in Hd. vm_compute in Hd. discriminate.
Qed.
Print Assumptions C62_outside_refuted.
