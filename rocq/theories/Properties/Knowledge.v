(** * C64: proofs of knowledge in the random oracle model

    Whoever gets a proof accepted can be made to reveal the witness: run them twice, with hash
    functions that agree up to the challenge, and compute the witness from the two proofs.  If they
    ask the hash [Q] times and are accepted with probability [e], the witness is found with
    probability at least [e ^ 2 / (Q + 1) - e * m / size] ([extractable] in Spec/Forking.v), where [m / size] is
    the maximal probability of a challenge: about [1 / order].  So an
    accepted proof of possession comes from somebody who could compute the secret keys, and so on. *)
From Coq Require Import List String NArith ZArith Arith Lia Bool.
From Verif.Model Require Import Base Group Transcript Keys Encryption LogEquality Possession Commitment Mul Sharing.
From Verif.Spec Require Import Encryption LogEquality Sigma Possession Domains Rom Verifiers Forking Extractors.
From Verif.Proofs Require Import Algebra Lists Encryption LogEquality Possession Commitment SumOfSquares Rom Verifiers Forgery Forking Extractors.
From Verif.Instance Require Import Primality Zq.
From Verif.Properties Require Import Forgery.
Import ListNotations.
Open Scope string_scope.
Open Scope list_scope.
Open Scope nat_scope.

(** The oracle algorithms used below that are not covered by [C57_verifiers]. *)
Theorem C64_verifiers :
  forall (E : Env) (o : transcript -> string -> Scalar E), let H := hashed_by E o in
    (forall p keys t, run o (possession_verifier p keys t) = ProofOfPossession_verify (E:=H) p keys t) /\
    (forall ks i p, run o (participant_verifier ks i p) = PublicKeySet_verify_participant (E:=H) ks i p) /\
    (forall params poly p, run o (dealer_verifier params poly p) = PublicKeySet_validate (E:=H) params poly p) /\
    (forall p c K C B t, run o (commitment_verifier p c K C B t) = CommitmentEquivalenceProof_verify (E:=H) p c K C B t).
Proof.
  intros E o H. repeat apply conj; intros.
  - apply possession_run.
  - apply participant_run.
  - apply dealer_run.
  - apply commitment_run.
Qed.
Print Assumptions C64_verifiers.

(** [all_hashes] lists every function from [D] to the hash values once. *)
Theorem C64_hash_functions :
  forall (R : Type) (values : list R) (D : list query) (o0 : hash R), NoDup values -> NoDup D ->
    hashes_on values D (all_hashes values D o0) /\
    (Z.of_nat (List.length (all_hashes values D o0)) = Z.of_nat (List.length values) ^ Z.of_nat (List.length D))%Z /\
    (forall o x, In o (all_hashes values D o0) -> ~ In x D -> answer o x = answer o0 x) /\
    (forall o, (forall x, In x D -> In (answer o x) values) -> (forall x, ~ In x D -> answer o x = answer o0 x) ->
       exists o', In o' (all_hashes values D o0) /\ forall x, answer o' x = answer o x).
Proof. exact all_hashes_spec. Qed.
Print Assumptions C64_hash_functions.

(** If the probability of acceptance is above [n * m / size], the witness is found for some pair. *)
Theorem C64_knowledge_error :
  forall (G : Group) (S : source G) m (X Y : Type) (A : strategy (Scalar G) X) (V : X -> strategy (Scalar G) Y) accepted extracted n,
    (0 <= n)%Z -> (0 <= m)%Z -> extractable S m A V accepted extracted n ->
  forall D (o0 : hash (digest S)), NoDup D -> (forall o, incl (asked (challenges S o) (andthen A V)) D) ->
    (n * (m * size S ^ Z.of_nat (List.length D)) <
     size S * Z.of_nat (List.length (filter (fun o => accepted (challenges S o) (run (challenges S o) A)) (all_hashes (digests S) D o0))))%Z ->
    ~ forall o o', ~ extracted (run (challenges S o) A) (run (challenges S (rewound S (andthen A V) o o')) A).
Proof.
  intros G S m X Y A V accepted extracted n Hn Hm H D o0 Hnd Hinc Hmore Hno.
  specialize (H D o0 Hnd Hinc (fun _ _ => false) ltac:(intros o o' He; destruct (Hno o o' He))). cbv zeta beta in H.
  set (W := all_hashes (digests S) D o0) in *.
  assert (Hf : forall (T : Type) (l : list T), List.length (filter (fun _ => false) l) = 0)
    by (intros T l; induction l as [|a l IH]; [reflexivity|exact IH]).
  rewrite (Hf _ (list_prod W W)) in H. change (Z.of_nat 0) with 0%Z in H.
  set (s := Z.of_nat (List.length (filter _ W))) in *. rewrite Z.mul_0_r, Z.add_0_l in H.
  assert (Hsz : (0 <= size S)%Z) by (unfold size; lia).
  assert (Hp : (0 <= m * size S ^ Z.of_nat (List.length D))%Z) by (apply Z.mul_nonneg_nonneg; [exact Hm|apply Z.pow_nonneg; exact Hsz]).
  replace (m * s * size S ^ Z.of_nat (List.length D))%Z with (m * size S ^ Z.of_nat (List.length D) * s)%Z in H by ring.
  set (N := (m * size S ^ Z.of_nat (List.length D))%Z) in *. clearbody N s.
  assert (Hs : (0 < s)%Z) by nia. nia.
Qed.
Print Assumptions C64_knowledge_error.

(** ** secret keys *)

(** Proof of possession: the secret of every key is computed, whatever keys and context the adversary
    chooses. *)
Theorem C64_possession :
  forall (E : Env) (L : GroupLaws E) (S : source E) m Q (A : strategy (Scalar E) (ProofOfPossession E * list (PublicKey E) * transcript)),
    balanced S m -> at_most Q A -> (forall o, let '(_, keys, _) := run o A in Forall genuine keys) ->
    extractable S m A (fun '(p, keys, t) => possession_verifier p keys t)
      (fun o '(p, keys, t) => ok_t (ProofOfPossession_verify (E:=hashed_by E o) p keys t))
      (fun '(p, keys, _) '(p', _, _) => Forall2 key_of (secrets_from L p p') keys)
      (Z.of_nat Q + 1).
Proof.
  intros E L S m Q A Hbal HA HK. apply (extractable_one E L S m Hbal A _ Q _ _ (fun _ => ok_t)); [exact HA| | | |].
  - intros [[p keys] t]. apply possession_most.
  - intros o [[p keys] t]. rewrite possession_run. reflexivity.
  - intros o [[p keys] t] Ho. apply (possession_nonempty E L). rewrite possession_run. exact Ho.
  - intros o o2 d. cbv zeta. pose proof (HK o) as HK1. pose proof (HK o2) as HK2.
    destruct (run o A) as [[p keys] t], (run o2 A) as [[p2 keys2] t2]. cbv beta iota. intros H1 H2 H3 H4.
    rewrite <- possession_run in H1, H2. exact (pop_two E L o o2 d p keys t p2 keys2 t2 HK1 HK2 H1 H2 H3 H4).
Qed.
Print Assumptions C64_possession.

(** Dealer's proof ([PublicKeySet::validate]): the dealer's whole polynomial is computed. *)
Theorem C64_dealer :
  forall (E : Env) (L : GroupLaws E) (S : source E) m Q (A : strategy (Scalar E) (Params * list (Element E) * ProofOfPossession E)),
    balanced S m -> at_most Q A ->
    extractable S m A (fun '(params, poly, p) => dealer_verifier params poly p)
      (fun o '(params, poly, p) => ok (PublicKeySet_validate (E:=hashed_by E o) params poly p))
      (fun '(_, poly, p) '(_, _, p') => poly = map (fun x => generator * x)%E (secrets_from L p p'))
      (Z.of_nat Q + 1).
Proof.
  intros E L S m Q A Hbal HA. apply (extractable_one E L S m Hbal A _ Q _ _ (fun _ => ok)); [exact HA| | | |].
  - intros [[params poly] p]. apply dealer_most.
  - intros o [[params poly] p]. rewrite dealer_run. reflexivity.
  - intros o [[params poly] p] Ho. rewrite <- dealer_run in Ho.
    destruct (dealer_inv E L o _ _ _ Ho) as (keys & _ & _ & -> & Hp). apply (possession_nonempty E L). exact Hp.
  - intros o o2 d. cbv zeta. destruct (run o A) as [[params poly] p], (run o2 A) as [[params2 poly2] p2]. cbv beta iota. intros H1 H2 H3 H4.
    rewrite <- dealer_run in H1, H2.
    destruct (dealer_inv E L o _ _ _ H1) as (keys & Hg & Hk & Hq & Hp). destruct (dealer_inv E L o2 _ _ _ H2) as (keys2 & Hg2 & Hk2 & Hq2 & Hp2).
    rewrite Hq, Hq2 in H3. rewrite Hq in H4. pose proof (pop_two E L o o2 d p keys _ p2 keys2 _ Hg Hg2 Hp Hp2 H3 H4) as Hx.
    rewrite <- Hk. clear -Hx. induction Hx as [|x k xs ks Hx Hxs IH]; [reflexivity|]. cbn. rewrite Hx, IH. reflexivity.
Qed.
Print Assumptions C64_dealer.

(** Participants ([PublicKeySet::verify_participant]): the secret share is computed. *)
Theorem C64_participant :
  forall (E : Env) (L : GroupLaws E) (S : source E) m Q (A : strategy (Scalar E) (PublicKeySet E * nat * ProofOfPossession E)),
    balanced S m -> at_most Q A -> (forall o, let '(ks, _, _) := run o A in Forall genuine (ks_participant_keys ks)) ->
    extractable S m A (fun '(ks, i, p) => participant_verifier ks i p)
      (fun o '(ks, i, p) => ok (PublicKeySet_verify_participant (E:=hashed_by E o) ks i p))
      (fun '(ks, i, p) '(_, _, p') => exists key share, nth_error (ks_participant_keys ks) i = Some key /\
         secrets_from L p p' = [share] /\ key_of share key)
      (Z.of_nat Q + 1).
Proof.
  intros E L S m Q A Hbal HA HK. apply (extractable_one E L S m Hbal A _ Q _ _ (fun _ => ok)); [exact HA| | | |].
  - intros [[ks i] p]. apply participant_most.
  - intros o [[ks i] p]. rewrite participant_run. reflexivity.
  - intros o [[ks i] p] Ho. rewrite <- participant_run in Ho.
    destruct (participant_inv E o _ _ _ Ho) as (key & _ & -> & Hp). apply (possession_nonempty E L). exact Hp.
  - intros o o2 d. cbv zeta. pose proof (HK o) as HK1. pose proof (HK o2) as HK2.
    destruct (run o A) as [[ks i] p], (run o2 A) as [[ks2 i2] p2]. cbv beta iota. intros H1 H2 H3 H4.
    rewrite <- participant_run in H1, H2.
    destruct (participant_inv E o _ _ _ H1) as (key & Hk & Hq & Hp). destruct (participant_inv E o2 _ _ _ H2) as (key2 & Hk2 & Hq2 & Hp2).
    rewrite Hq, Hq2 in H3. rewrite Hq in H4.
    assert (Hg : Forall genuine [key]) by (constructor; [|constructor]; rewrite Forall_forall in HK1; apply HK1; eapply nth_error_In; exact Hk).
    assert (Hg2 : Forall genuine [key2]) by (constructor; [|constructor]; rewrite Forall_forall in HK2; apply HK2; eapply nth_error_In; exact Hk2).
    pose proof (pop_two E L o o2 d p [key] _ p2 [key2] _ Hg Hg2 Hp Hp2 H3 H4) as Hx.
    inversion Hx as [|share k xs ks' Hs Hn He]; subst. inversion Hn; subst. exists key, share. auto.
Qed.
Print Assumptions C64_participant.

(** ** equal logarithms *)
Theorem C64_log_equality :
  forall (E : Env) (L : GroupLaws E) (S : source E) m Q (A : strategy (Scalar E) (LogEqualityProof E * PublicKey E * (Element E * Element E) * transcript)),
    balanced S m -> at_most Q A -> (forall o, let '(_, K, _, _) := run o A in genuine K) ->
    extractable S m A (fun '(p, K, powers, t) => log_equality_verifier p K powers t)
      (fun o '(p, K, powers, t) => ok_t (LogEqualityProof_verify (E:=hashed_by E o) p K powers t))
      (fun '(p, K, powers, _) '(p', _, _, _) => let r := logarithm_from L p p' in
         fst powers = (generator * r)%E /\ snd powers = (pk_element K * r)%E)
      (Z.of_nat Q + 1).
Proof.
  intros E L S m Q A Hbal HA HK. apply (extractable_one E L S m Hbal A _ Q _ _ (fun _ => ok_t)); [exact HA| | | |].
  - intros [[[p K] powers] t]. apply log_equality_most.
  - intros o [[[p K] powers] t]. rewrite log_equality_run. reflexivity.
  - intros o [[[p K] powers] t] Ho. apply (log_equality_nonempty E L). rewrite log_equality_run. exact Ho.
  - intros o o2 d. cbv zeta. pose proof (HK o) as HK1. pose proof (HK o2) as HK2.
    destruct (run o A) as [[[p K] [P0 P1]] t], (run o2 A) as [[[p2 K2] [P02 P12]] t2]. cbv beta iota. intros H1 H2 H3 H4.
    rewrite <- log_equality_run in H1, H2. destruct (le_two E L o o2 d _ _ _ _ _ _ _ _ _ _ HK1 HK2 H1 H2 H3 H4) as (_ & _ & _ & _ & Hx). exact Hx.
Qed.
Print Assumptions C64_log_equality.

(** Zero encryption: the randomness is computed. *)
Theorem C64_zero :
  forall (E : Env) (L : GroupLaws E) (S : source E) m Q (A : strategy (Scalar E) (PublicKey E * Ciphertext E * LogEqualityProof E)),
    balanced S m -> at_most Q A -> (forall o, let '(pk, _, _) := run o A in genuine pk) ->
    extractable S m A (fun '(pk, c, p) => zero_verifier pk c p)
      (fun o '(pk, c, p) => ok (verify_zero (E:=hashed_by E o) pk c p))
      (fun '(pk, c, p) '(_, _, p') => encrypts pk c identity (logarithm_from L p p'))
      (Z.of_nat Q + 1).
Proof.
  intros E L S m Q A Hbal HA HK. apply (extractable_one E L S m Hbal A _ Q _ _ (fun _ => ok)); [exact HA| | | |].
  - intros [[pk c] p]. apply zero_most.
  - intros o [[pk c] p]. rewrite zero_run. reflexivity.
  - intros o [[pk c] p] Ho. rewrite <- zero_run in Ho.
    destruct (zero_inv E o _ _ _ Ho) as [-> Hp]. apply (log_equality_nonempty E L). exact Hp.
  - intros o o2 d. cbv zeta. pose proof (HK o) as HK1. pose proof (HK o2) as HK2.
    destruct (run o A) as [[pk c] p], (run o2 A) as [[pk2 c2] p2]. cbv beta iota. intros H1 H2 H3 H4.
    rewrite <- zero_run in H1, H2. destruct (zero_inv E o _ _ _ H1) as [Hq Hp]. destruct (zero_inv E o2 _ _ _ H2) as [Hq2 Hp2].
    rewrite Hq, Hq2 in H3. rewrite Hq in H4.
    destruct (le_two E L o o2 d _ _ _ _ _ _ _ _ _ _ HK1 HK2 Hp Hp2 H3 H4) as (_ & _ & _ & _ & Hx1 & Hx2).
    split; [exact Hx1|]. rewrite Hx2. symmetry. apply (e_add_id _ L).
Qed.
Print Assumptions C64_zero.

(** Verifiable decryption: the secret key is computed. *)
Theorem C64_decryption :
  forall (E : Env) (L : GroupLaws E) (S : source E) m Q
    (A : strategy (Scalar E) (CandidateDecryption E * Ciphertext E * PublicKey E * LogEqualityProof E * transcript)),
    balanced S m -> at_most Q A ->
    extractable S m A (fun '(d, c, key, p, t) => decryption_verifier d c key p t)
      (fun o '(d, c, key, p, t) => ok_t (CandidateDecryption_verify (E:=hashed_by E o) d c key p t))
      (fun '(d, c, key, p, _) '(_, _, _, p', _) => let sk := logarithm_from L p p' in
         key_of sk key /\ VerifiableDecryption_decrypt_to_element (cd_inner d) c = decrypt_to_element sk c)
      (Z.of_nat Q + 1).
Proof.
  intros E L S m Q A Hbal HA. apply (extractable_one E L S m Hbal A _ Q _ _ (fun _ => ok_t)); [exact HA| | | |].
  - intros [[[[d c] key] p] t]. apply decryption_most.
  - intros o [[[[d c] key] p] t]. rewrite decryption_run. reflexivity.
  - intros o [[[[d c] key] p] t] Ho. rewrite <- decryption_run in Ho.
    destruct (decryption_inv E L o _ _ _ _ _ Ho) as (base & _ & _ & -> & Hp). apply (log_equality_nonempty E L). exact Hp.
  - intros o o2 q. cbv zeta. destruct (run o A) as [[[[d c] key] p] t], (run o2 A) as [[[[d2 c2] key2] p2] t2]. cbv beta iota. intros H1 H2 H3 H4.
    rewrite <- decryption_run in H1, H2.
    destruct (decryption_inv E L o _ _ _ _ _ H1) as (base & Hg & Hb & Hq & Hp).
    destruct (decryption_inv E L o2 _ _ _ _ _ H2) as (base2 & Hg2 & Hb2 & Hq2 & Hp2).
    rewrite Hq, Hq2 in H3. rewrite Hq in H4.
    destruct (le_two E L o o2 q _ _ _ _ _ _ _ _ _ _ Hg Hg2 Hp Hp2 H3 H4) as (_ & _ & _ & _ & Hx1 & Hx2).
    cbv zeta. split; [exact Hx1|]. unfold VerifiableDecryption_decrypt_to_element, decrypt_to_element.
    rewrite Hx2, Hb. reflexivity.
Qed.
Print Assumptions C64_decryption.

(** Decryption shares: the participant's secret share is computed. *)
Theorem C64_share :
  forall (E : Env) (L : GroupLaws E) (S : source E) m Q
    (A : strategy (Scalar E) (PublicKeySet E * CandidateDecryption E * Ciphertext E * nat * LogEqualityProof E)),
    balanced S m -> at_most Q A ->
    extractable S m A (fun '(ks, d, c, i, p) => share_verifier ks d c i p)
      (fun o '(ks, d, c, i, p) => ok (PublicKeySet_verify_share (E:=hashed_by E o) ks d c i p))
      (fun '(ks, d, c, i, p) '(_, _, _, _, p') => exists key, let share := logarithm_from L p p' in
         nth_error (ks_participant_keys ks) i = Some key /\ key_of share key /\
         vd_dh_element (cd_inner d) = (random_element c * share)%E)
      (Z.of_nat Q + 1).
Proof.
  intros E L S m Q A Hbal HA. apply (extractable_one E L S m Hbal A _ Q _ _ (fun _ => ok)); [exact HA| | | |].
  - intros [[[[ks d] c] i] p]. apply share_most.
  - intros o [[[[ks d] c] i] p]. rewrite share_run. reflexivity.
  - intros o [[[[ks d] c] i] p] Ho. rewrite <- share_run in Ho.
    destruct (share_inv E L o _ _ _ _ _ Ho) as (key & base & _ & _ & _ & -> & Hp). apply (log_equality_nonempty E L). exact Hp.
  - intros o o2 q. cbv zeta. destruct (run o A) as [[[[ks d] c] i] p], (run o2 A) as [[[[ks2 d2] c2] i2] p2]. cbv beta iota. intros H1 H2 H3 H4.
    rewrite <- share_run in H1, H2.
    destruct (share_inv E L o _ _ _ _ _ H1) as (key & base & Hk & Hg & Hb & Hq & Hp).
    destruct (share_inv E L o2 _ _ _ _ _ H2) as (key2 & base2 & Hk2 & Hg2 & Hb2 & Hq2 & Hp2).
    rewrite Hq, Hq2 in H3. rewrite Hq in H4.
    destruct (le_two E L o o2 q _ _ _ _ _ _ _ _ _ _ Hg Hg2 Hp Hp2 H3 H4) as (_ & _ & _ & _ & Hx1 & Hx2).
    exists key. cbv zeta. split; [exact Hk|]. split; [exact Hx1|]. rewrite Hx2, Hb. reflexivity.
Qed.
Print Assumptions C64_share.

(** ** values *)

(** Sum of squares: the encrypted values are computed. *)
Theorem C64_sum_of_squares :
  forall (E : Env) (L : GroupLaws E) (S : source E) m Q
    (A : strategy (Scalar E) (SumOfSquaresProof E * list (Ciphertext E) * Ciphertext E * PublicKey E * transcript)),
    balanced S m -> at_most Q A -> (forall o, let '(_, _, _, K, _) := run o A in genuine K) ->
    extractable S m A (fun '(p, cs, z, K, t) => sum_of_squares_verifier p cs z K t)
      (fun o '(p, cs, z, K, t) => ok_t (SumOfSquaresProof_verify (E:=hashed_by E o) p cs z K t))
      (fun '(p, cs, z, K, _) '(p', _, _, _, _) => sq_statement K cs z
         (values_from L (sq_challenge p) (sq_challenge p') (sq_ciphertext_responses p) (sq_ciphertext_responses p')))
      (Z.of_nat Q + 1).
Proof.
  intros E L S m Q A Hbal HA HK. apply (extractable_one E L S m Hbal A _ Q _ _ (fun _ => ok_t)); [exact HA| | | |].
  - intros [[[[p cs] z] K] t]. apply sum_of_squares_most.
  - intros o [[[[p cs] z] K] t]. rewrite sum_of_squares_run. reflexivity.
  - intros o [[[[p cs] z] K] t] Ho. apply (sum_of_squares_nonempty E L). rewrite sum_of_squares_run. exact Ho.
  - intros o o2 d. cbv zeta. pose proof (HK o) as HK1. pose proof (HK o2) as HK2.
    destruct (run o A) as [[[[p cs] z] K] t], (run o2 A) as [[[[p2 cs2] z2] K2] t2]. cbv beta iota. intros H1 H2 H3 H4.
    rewrite <- sum_of_squares_run in H1, H2. exact (sq_two E L o o2 d _ _ _ _ _ _ _ _ _ _ HK1 HK2 H1 H2 H3 H4).
Qed.
Print Assumptions C64_sum_of_squares.

(** Commitment equivalence, for a fixed blinding base [H]: randomness, value and blinding are computed. *)
Theorem C64_commitment :
  forall (E : Env) (L : GroupLaws E) (S : source E) m (H : Element E) Q
    (A : strategy (Scalar E) (CommitmentEquivalenceProof E * Ciphertext E * PublicKey E * Element E * transcript)),
    balanced S m -> at_most Q A -> (forall o, let '(_, _, K, _, _) := run o A in genuine K) ->
    extractable S m A (fun '(p, c, K, C, t) => commitment_verifier p c K C H t)
      (fun o '(p, c, K, C, t) => ok_t (CommitmentEquivalenceProof_verify (E:=hashed_by E o) p c K C H t))
      (fun '(p, c, K, C, _) '(p', _, _, _, _) => let '(r, v, rc) := opening_from L p p' in
         encrypts K c (generator * v)%E r /\ C = (generator * v + H * rc)%E)
      (Z.of_nat Q + 1).
Proof.
  intros E L S m H Q A Hbal HA HK. apply (extractable_one E L S m Hbal A _ Q _ _ (fun _ => ok_t)); [exact HA| | | |].
  - intros [[[[p c] K] C] t]. apply commitment_most.
  - intros o [[[[p c] K] C] t]. rewrite commitment_run. reflexivity.
  - intros o [[[[p c] K] C] t] Ho. apply (commitment_nonempty E L). rewrite commitment_run. exact Ho.
  - intros o o2 d. cbv zeta. pose proof (HK o) as HK1. pose proof (HK o2) as HK2.
    destruct (run o A) as [[[[p c] K] C] t], (run o2 A) as [[[[p2 c2] K2] C2] t2]. cbv beta iota. intros H1 H2 H3 H4.
    rewrite <- commitment_run in H1, H2. pose proof (ce_two E L o o2 d H _ _ _ _ _ _ _ _ _ _ HK1 HK2 H1 H2 H3 H4) as Hx.
    destruct (opening_from L p p2) as [[r v] rc]. destruct Hx as (Hx1 & Hx2 & Hx3). split; [split; assumption|exact Hx3].
Qed.
Print Assumptions C64_commitment.

(** ** the blinding base

    [CommitmentEquivalenceProof] does not hash the blinding base [H] ([C10_commitment]).  A prover who
    may choose it along with the proof gets a commitment to [w] (which they open as [w], with blinding
    0) accepted as equivalent to an encryption of another value [v], for every hash function and with
    one query.  [H] is a given element [P], of unknown logarithm say, plus a multiple of the generator. *)
Theorem C64_commitment_base_refuted :
  forall (E : Env) (L : GroupLaws E) (K : PublicKey E) (t q : transcript) (r v w x y : Scalar E) (P : Element E),
    let c := {| random_element := (generator * r)%E; blinded_element := (generator * v + pk_element K * r)%E |} in
    let C := (generator * w)%E in
    ce_hashed t K (random_element c) (blinded_element c) C
      (generator * x)%E (generator * y + pk_element K * x)%E P q ->
  exists A : strategy (Scalar E) (CommitmentEquivalenceProof E * Element E), at_most 1 A /\
    forall o, let '(p, H) := run o A in
      ok_t (CommitmentEquivalenceProof_verify (E:=hashed_by E o) p c K C H t) = true /\
      encrypts K c (generator * v)%E r /\ C = (generator * w + H * s_default)%E /\ exists h, H = (P + generator * h)%E.
Proof.
  intros E L K t q r v w x y P c C Hq.
  exists (Ask (q, "c") (fun z => Output
    ({| ce_challenge := z; ce_randomness_response := (x + r * z)%S; ce_value_response := (y + v * z)%S; ce_commitment_response := s_of_u64 1 |},
     (P + generator * (w * z - (y + v * z))%S)%E))).
  split; [constructor; intros z; constructor|]. intros o. cbn [run]. unfold answer. cbn [fst snd].
  split; [|split; [split; reflexivity|split]].
  - enough (Hv : exists t', CommitmentEquivalenceProof_verify (E:=hashed_by E o)
        {| ce_challenge := o q "c"; ce_randomness_response := (x + r * o q "c")%S; ce_value_response := (y + v * o q "c")%S; ce_commitment_response := s_of_u64 1 |}
        c K C (P + generator * (w * o q "c" - (y + v * o q "c"))%S)%E t = Ret (Ok tt, t'))
      by (destruct Hv as [t' Hv]; unfold ok_t; rewrite Hv; reflexivity).
    exists (q ++ [TChal "c"]). apply (ce_verify_ok_iff (hashed_by E o) L). exists (generator * x)%E, (generator * y + pk_element K * x)%E, P, q.
    split; [|split; [exact Hq|split; reflexivity]]. cbn [random_element blinded_element ce_challenge ce_randomness_response ce_value_response ce_commitment_response c].
    exact (ce_base_answers (hashed_by E o) L (pk_element K) P r v w x y (o q "c")).
  - symmetry. apply commit_zero. exact L.
  - eexists. reflexivity.
Qed.
Print Assumptions C64_commitment_base_refuted.

(** ** Example

    The honest prover with a fixed nonce, knowing that (5, 10) encrypts zero with randomness 5 for the
    key 2, is accepted for every hash function with one query, so [C64_zero] and [C64_knowledge_error]
    apply with the one-element set of inputs. *)
Definition ex_zero : Ciphertext RE := {| random_element := (generator * rs 5)%E; blinded_element := (pk_element ex_pk2 * rs 5)%E |}.
Definition ex_input : transcript :=
  le_query (transcript_new "zero_encryption") (pk_bytes ex_pk2)
    (zbytes qx 9 (re 5)) (zbytes qx 9 (re 10)) (zbytes qx 9 (re 7)) (zbytes qx 9 (re 14)).
Definition ex_prover : strategy (Scalar RE) (PublicKey RE * Ciphertext RE * LogEqualityProof RE) :=
  Ask (ex_input, "c") (fun x => Output (ex_pk2, ex_zero, {| le_challenge := x; le_response := (rs 7 + rs 5 * x)%S |})).

Lemma ex_prover_run (o : hash (Scalar RE)) :
  exists x, run o ex_prover = (ex_pk2, ex_zero, {| le_challenge := x; le_response := (rs 7 + rs 5 * x)%S |}) /\
    LogEqualityProof_verify (E:=hashed_by RE o) {| le_challenge := x; le_response := (rs 7 + rs 5 * x)%S |} ex_pk2
      (random_element ex_zero, blinded_element ex_zero) (transcript_new "zero_encryption") = Ret (Ok tt, ex_input ++ [TChal "c"]).
Proof.
  exists (o ex_input "c"). split; [reflexivity|]. apply (le_verify_ok_iff (hashed_by RE o) RL). exists ex_input. split; [|split; reflexivity].
  cbn [le_response le_challenge]. generalize (o ex_input "c") as x. intros x.
  destruct (le_base_answers _ RL (pk_element ex_pk2) (rs 5) (rs 7) x) as [H1 H2].
  exists (zbytes qx 9 (re 5)), (zbytes qx 9 (re 10)), (zbytes qx 9 (re 7)), (zbytes qx 9 (re 14)).
  repeat apply conj; [vm_compute; reflexivity|vm_compute; reflexivity| | |reflexivity].
  - transitivity (serialize_element (g:=RE) (generator * rs 7)%E); [f_equal; exact H1|vm_compute; reflexivity].
  - transitivity (serialize_element (g:=RE) (pk_element ex_pk2 * rs 7)%E); [f_equal; exact H2|vm_compute; reflexivity].
Qed.

Example C64_example :
  let V := fun '(pk, c, p) => zero_verifier (E:=RE) pk c p in
  let accepted := fun o '(pk, c, p) => ok (verify_zero (E:=hashed_by RE o) pk c p) in
  let D := [(ex_input, "c")] in
  at_most 1 ex_prover /\ (forall o, let '(pk, _, _) := run o ex_prover in genuine pk) /\
  NoDup D /\ (forall o, incl (asked (challenges (uniform_source RL) o) (andthen ex_prover V)) D) /\
  (forall o, accepted o (run o ex_prover) = true) /\ balanced (uniform_source RL) 1 /\
  (2 * (1 * size (uniform_source RL) ^ Z.of_nat (List.length D)) <
   size (uniform_source RL) * Z.of_nat (List.length (filter
     (fun o => accepted (challenges (uniform_source RL) o) (run (challenges (uniform_source RL) o) ex_prover))
     (all_hashes (digests (uniform_source RL)) D constant_hash))))%Z.
Proof.
  intros V accepted D.
  assert (Ha : forall o, accepted o (run o ex_prover) = true).
  { intros o. destruct (ex_prover_run o) as (x & -> & Hv). 
    enough (Hz : verify_zero (E:=hashed_by RE o) ex_pk2 ex_zero {| le_challenge := x; le_response := (rs 7 + rs 5 * x)%S |} = Ret (Ok tt))
      by (transitivity (ok (A:=unit) (B:=VerificationError) (Ret (Ok tt))); [exact (f_equal ok Hz)|reflexivity]).
    refine (eq_trans (f_equal (fun m => bind m _) Hv) _). reflexivity. }
  split; [constructor; intros x; constructor|]. split; [intros o; apply ex_pk2_ok|].
  split; [constructor; [intros []|constructor]|]. split; [|split; [exact Ha|split; [apply uniform_balanced|]]].
  - intros o. rewrite uniform_challenges. destruct (ex_prover_run o) as (x & Hr & Hv). rewrite asked_andthen. apply incl_app.
    + intros y [<-|[]]. left. reflexivity.
    + rewrite Hr. cbn [V]. unfold zero_verifier. rewrite asked_after_pure.
      rewrite <- (log_equality_run RE o) in Hv. rewrite (log_equality_one RE o _ _ _ _ _ _ Hv). apply incl_refl.
  - assert (Hf : forall l, filter (fun o => accepted (challenges (uniform_source RL) o) (run (challenges (uniform_source RL) o) ex_prover)) l = l).
    { induction l as [|o l IH]; [reflexivity|]. cbn [filter]. rewrite (Ha (challenges (uniform_source RL) o)), IH. reflexivity. }
    rewrite Hf, uniform_size. apply Z.lt_le_trans with (order RL * order RL ^ Z.of_nat (List.length D))%Z; [vm_compute; reflexivity|].
    apply Z.mul_le_mono_nonneg_l; [pose proof (order_gt_1 RL); lia|]. apply Z.eq_le_incl. symmetry.
    rewrite <- uniform_size.
    exact (proj1 (proj2 (C64_hash_functions _ (digests (uniform_source RL)) D constant_hash (proj1 (uniform_balanced RE RL))
      ltac:(constructor; [intros []|constructor])))).
Qed.

(** A commitment to 4 and an encryption of 1 meet the hypothesis of [C64_commitment_base_refuted]. *)
Example C64_base_example :
  let K := ex_pk2 in
  exists q, ce_hashed (E:=RE) [] K (generator * rs 5)%E (generator * rs 1 + pk_element K * rs 5)%E (generator * rs 4)%E
    (generator * rs 7)%E (generator * rs 8 + pk_element K * rs 7)%E (re 9) q.
Proof.
  intros K. eexists. eexists. split; [|reflexivity].
  repeat (constructor; [eexists; split; [vm_compute; reflexivity|reflexivity]|]). constructor.
Qed.
