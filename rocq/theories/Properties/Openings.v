(** * C79: whoever makes an accepted ring proof or ballot knows the encrypted values

    The random oracle model, as in C64.  The adversary [A] asks the hash at most [Q] times and chooses the
    ciphertexts, the proofs and (except for ballots) the key and the context.  If its output is accepted with
    probability [e], then from two runs of [A] one computes, for any given ciphertext, the encrypted value and
    the randomness of the encryption, with probability at least [e ^ 2 / (Q + v) ^ 2 - e * m / size], where
    [v] is the number of hash inputs of the verifier ([opening_extractable] in Spec/Openings.v).  In
    particular nobody can cast a ballot, valid with a fresh hash, for options they do not know. *)
From Coq Require Import List String NArith ZArith Arith Lia Bool.
From Verif.Model Require Import Base Group Transcript Keys Encryption LogEquality Ring Range Choice Quadratic.
From Verif.Spec Require Import Encryption Ring Range Choice Quadratic Domains Rom Verifiers Forking Extractors Openings.
From Verif.Proofs Require Import Algebra Lists Encryption LogEquality Ring Range RangeProof Sharing Choice Quadratic Rom Verifiers Forgery ForgedBallots Forking Extractors Rigid Openings.
From Verif.Instance Require Import Primality Zq.
From Verif.Properties Require Import Forgery.
Import ListNotations.
Open Scope string_scope.
Open Scope list_scope.
Open Scope nat_scope.

(** If the probability of acceptance is above [n * m / size], there are two runs which give the opening. *)
Theorem C79_knowledge_error :
  forall (E : Env) (L : GroupLaws E) (S : source E) m (X : Type) (A : strategy (Scalar E) X) statement vals k accepted n,
    (0 <= n)%Z -> (0 <= m)%Z -> opening_extractable L S m A statement vals k accepted n ->
  forall D (o0 : hash (digest S)), NoDup D -> (forall o, incl (asked (challenges S o) (andthen A (ring_check statement vals))) D) ->
    (n * (m * size S ^ Z.of_nat (List.length D)) <
     size S * Z.of_nat (List.length (filter (fun o => accepted (challenges S o) (run (challenges S o) A)) (all_hashes (digests S) D o0))))%Z ->
    ~ forall o o', ~ opened L S A statement vals k o o'.
Proof.
  intros E L S m X A statement vals k accepted n Hn Hm H D o0 Hnd Hinc Hmore Hno.
  specialize (H D o0 Hnd Hinc (fun _ _ => false) ltac:(intros o o' He; destruct (Hno o o' He))). cbv zeta beta in H.
  set (W := all_hashes (digests S) D o0) in *.
  assert (Hf : forall (T : Type) (l : list T), List.length (filter (fun _ => false) l) = 0)
    by (intros T l; induction l as [|a l IH]; [reflexivity|exact IH]).
  rewrite (Hf _ (list_prod W W)) in H. change (Z.of_nat 0) with 0%Z in H.
  set (s := Z.of_nat (List.length (filter _ W))) in *. rewrite Z.mul_0_r, Z.add_0_l in H.
  assert (Hsz : (0 <= size S)%Z) by (unfold size; lia).
  assert (Hp : (0 <= m * size S ^ Z.of_nat (List.length D))%Z) by (apply Z.mul_nonneg_nonneg; [exact Hm|apply Z.pow_nonneg; exact Hsz]).
  replace (m * s * size S ^ Z.of_nat (List.length D))%Z with (m * size S ^ Z.of_nat (List.length D) * s)%Z in H by ring.
  set (N := (m * size S ^ Z.of_nat (List.length D))%Z) in *. clearbody N s.
  assert (Hs : (0 < s)%Z) by nia. nia.
Qed.
Print Assumptions C79_knowledge_error.

Local Lemma nth_error_some_lt {T : Type} (l : list T) k : k < List.length l -> exists x, nth_error l k = Some x.
Proof. intros H. destruct (nth_error l k) eqn:E; [eauto|apply nth_error_None in E; lia]. Qed.

(** ** ring proofs *)
Theorem C79_ring_proof :
  forall (E : Env) (L : GroupLaws E) (S : source E) m Q (vals : list (list (Element E))) k
      (A : strategy (Scalar E) (RingProof E * PublicKey E * list (Ciphertext E) * transcript)),
    Forall (fun vs => 2 <= List.length vs /\ usize (List.length vs)) vals -> usize (List.length vals) -> k < List.length vals ->
    balanced S m -> at_most Q A -> (forall o, let '(_, K, _, _) := run o A in genuine K) ->
    opening_extractable L S m A (fun x => x) vals k
      (fun o '(p, K, cts, t) => (List.length cts =? List.length vals) && ok_t (RingProof_verify (E:=hashed_by E o) p K vals cts t))
      (Z.of_nat (Q + ring_queries vals) ^ 2).
Proof.
  intros E L S m Q vals k A H2 H3 Hk Hbal HA HK. destruct (nth_error vals k) as [vs|] eqn:Ek; [|apply nth_error_None in Ek; lia].
  rewrite Z.pow_2_r, <- Nat2Z.inj_mul.
  refine (openings E L S m Hbal vals k vs _ Ek A (fun x => x) Q HA HK _ _).
  - split; [destruct vals; [cbn in Hk; lia|discriminate]|]. split; [exact H2|exact H3].
  - intros o [[[p K] cts] t] Ho. unfold ring_accepted. rewrite ring_run'. exact Ho.
Qed.
Print Assumptions C79_ring_proof.

(** [PublicKey::encrypt_bool] / [verify_bool] *)
Theorem C79_bool_encryption :
  forall (E : Env) (L : GroupLaws E) (S : source E) m Q (A : strategy (Scalar E) (PublicKey E * Ciphertext E * RingProof E)),
    balanced S m -> at_most Q A -> (forall o, let '(pk, _, _) := run o A in genuine pk) ->
    opening_extractable L S m A (fun '(pk, c, p) => (p, pk, [c], transcript_new "bool_encryption")) [[identity; generator]] 0
      (fun o '(pk, c, p) => ok (verify_bool (E:=hashed_by E o) pk c p))
      (Z.of_nat (Q + 2) ^ 2).
Proof.
  intros E L S m Q A Hbal HA HK. rewrite Z.pow_2_r, <- Nat2Z.inj_mul.
  refine (openings E L S m Hbal [[identity; generator]] 0 [identity; generator] _ eq_refl A _ Q HA _ _ _).
  - apply (bool_rings E 1); [lia|reflexivity].
  - intros o. specialize (HK o). destruct (run o A) as [[pk c] p]. exact HK.
  - intros o [[pk c] p] Ho. unfold ring_accepted. rewrite <- bool_run in Ho. unfold bool_verifier in Ho. destruct (ok_inv _ Ho) as [a Ha].
    apply run_after_inv in Ha as ([r tf] & Ha & Hf). cbn [fst run] in Hf. injection Hf as ->. rewrite Ha. reflexivity.
Qed.
Print Assumptions C79_bool_encryption.

(** ** range proofs

    The ciphertexts of the rings are the partial ciphertexts of the proof and what is left of the
    ciphertext after subtracting them. *)
Definition range_statement {E : Env} (p : RangeProof E) (K : PublicKey E) (pr : PreparedRange E) (ct : Ciphertext E) (t : transcript) :=
  (rap_inner p, K, rap_partial p ++ [Ciphertext_sub ct (fold_left Ciphertext_add (rap_partial p) Ciphertext_zero)],
   range_start_transcript t (pr_inner pr)).

Lemma range_accepted (E : Env) (o : hash (Scalar E)) (p : RangeProof E) (K : PublicKey E) pr ct t :
  ok_t (run o (range_verifier p K pr ct t)) = true ->
  let '(p', K', cts, t') := range_statement p K pr ct t in
  (List.length cts =? List.length (pr_admissible pr)) && ok_t (run o (ring_verifier p' K' (pr_admissible pr) cts t')) = true.
Proof.
  intros H. unfold range_verifier, check_lengths, range_statement in *. rewrite app_length. cbn [List.length].
  destruct (List.length (rap_partial p) + 1 =? List.length (pr_admissible pr)); [exact H|discriminate].
Qed.

Theorem C79_range_proof :
  forall (E : Env) (L : GroupLaws E) (S : source E) m Q est (n : N) d (pr : PreparedRange E),
    (n + 4 < 2 ^ 64)%N -> RangeDecomposition_optimal (env_build E) est n = Ret d -> PreparedRange_new (E:=E) d = Ret pr ->
  forall k (A : strategy (Scalar E) (RangeProof E * PublicKey E * Ciphertext E * transcript)), k < List.length (pr_admissible pr) ->
    balanced S m -> at_most Q A -> (forall o, let '(_, K, _, _) := run o A in genuine K) ->
    opening_extractable L S m A (fun '(p, K, ct, t) => range_statement p K pr ct t) (pr_admissible pr) k
      (fun o '(p, K, ct, t) => ok_t (RangeProof_verify (E:=hashed_by E o) p K pr ct t))
      (Z.of_nat (Q + ring_queries (pr_admissible pr)) ^ 2).
Proof.
  intros E L S m Q est n d pr Hn Hd0 Hpr k A Hk Hbal HA HK. pose proof (optimal_valid _ est n d Hn Hd0) as Hd.
  rewrite (prepared_ok E L n d Hd) in Hpr by (unfold u64_lim; lia). injection Hpr as <-.
  destruct (nth_error_some_lt _ _ Hk) as [vs Ek]. rewrite Z.pow_2_r, <- Nat2Z.inj_mul.
  refine (openings E L S m Hbal _ k vs _ Ek A _ Q HA _ _ _).
  - cbn [pr_admissible]. apply (doc_rings E n d Hd). unfold u64_lim. lia.
  - intros o. specialize (HK o). destruct (run o A) as [[[p K] ct] t]. exact HK.
  - intros o [[[p K] ct] t] Ho. unfold ring_accepted. rewrite <- range_run in Ho. exact (range_accepted E o _ _ _ _ _ Ho).
Qed.
Print Assumptions C79_range_proof.

(** ** ballots *)
Theorem C79_multi_choice_ballot :
  forall (E : Env) (L : GroupLaws E) (S : source E) m Q n (K : PublicKey E) k (A : strategy (Scalar E) (list (Ciphertext E) * RingProof E)),
    usize n -> genuine K -> k < n -> balanced S m -> at_most Q A ->
    opening_extractable L S m A (fun '(cts, p) => (p, K, cts, transcript_new "encrypted_choice_ranges")) (repeat [identity; generator] n) k
      (fun o '(cts, p) => let H := hashed_by E o in let M := MultiChoice (E:=H) in
         ok (EncryptedChoice_verify (E:=H) (S:=M) (mkEncryptedChoice (E:=H) (S:=M) cts p tt) (mkChoiceParams (E:=H) (S:=M) n K)))
      (Z.of_nat (Q + (n + 1)) ^ 2).
Proof.
  intros E L S m Q n K k A Hn HK Hk Hbal HA. rewrite Z.pow_2_r, <- Nat2Z.inj_mul.
  replace (n + 1) with (ring_queries (repeat [@identity E; generator] n)).
  2: { unfold ring_queries. f_equal. clear. induction n as [|n IH]; [reflexivity|]. cbn [repeat map List.length Nat.sub list_sum fold_right] in *. fold (list_sum (map (fun vs : list (Element E) => List.length vs - 1) (repeat [identity; generator] n))). rewrite IH. reflexivity. }
  refine (openings E L S m Hbal _ k [identity; generator] _ _ A _ Q HA _ _ _).
  - apply bool_rings; [lia|exact Hn].
  - apply nth_error_repeat. exact Hk.
  - intros o. destruct (run o A) as [cts p]. exact HK.
  - intros o [cts p] Ho. unfold ring_accepted. cbv zeta in Ho. rewrite <- multi_choice_run in Ho.
    destruct (multi_inv E o n K cts p Ho) as (Hl & _ & tf & Hr & _). rewrite repeat_length, Hl, Nat.eqb_refl, Hr. reflexivity.
Qed.
Print Assumptions C79_multi_choice_ballot.

Theorem C79_single_choice_ballot :
  forall (E : Env) (L : GroupLaws E) (S : source E) m Q n (K : PublicKey E) k
      (A : strategy (Scalar E) (list (Ciphertext E) * RingProof E * LogEqualityProof E)),
    usize n -> genuine K -> k < n -> balanced S m -> at_most Q A ->
    opening_extractable L S m A (fun '(cts, p, _) => (p, K, cts, transcript_new "encrypted_choice_ranges")) (repeat [identity; generator] n) k
      (fun o '(cts, p, s) => let H := hashed_by E o in let M := SingleChoice (E:=H) in
         ok (EncryptedChoice_verify (E:=H) (S:=M) (mkEncryptedChoice (E:=H) (S:=M) cts p s) (mkChoiceParams (E:=H) (S:=M) n K)))
      (Z.of_nat (Q + (n + 1)) ^ 2).
Proof.
  intros E L S m Q n K k A Hn HK Hk Hbal HA. rewrite Z.pow_2_r, <- Nat2Z.inj_mul.
  replace (n + 1) with (ring_queries (repeat [@identity E; generator] n)).
  2: { unfold ring_queries. f_equal. clear. induction n as [|n IH]; [reflexivity|]. cbn [repeat map List.length Nat.sub list_sum fold_right] in *. fold (list_sum (map (fun vs : list (Element E) => List.length vs - 1) (repeat [identity; generator] n))). rewrite IH. reflexivity. }
  refine (openings E L S m Hbal _ k [identity; generator] _ _ A _ Q HA _ _ _).
  - apply bool_rings; [lia|exact Hn].
  - apply nth_error_repeat. exact Hk.
  - intros o. destruct (run o A) as [[cts p] s]. exact HK.
  - intros o [[cts p] s] Ho. unfold ring_accepted. cbv zeta in Ho. rewrite <- single_choice_run in Ho.
    destruct (single_inv E o n K cts p s Ho) as (Hl & _ & total & tf & tf' & _ & Hr & _). rewrite repeat_length, Hl, Nat.eqb_refl, Hr. reflexivity.
Qed.
Print Assumptions C79_single_choice_ballot.

Lemma votes_accepted (E : Env) (o : hash (Scalar E)) params : forall vs i k v,
  run o (votes_verifier (E:=E) params i vs) = Ret (Ok tt) -> nth_error vs k = Some v ->
  ok_t (run o (range_verifier (crp_range_proof v) (qv_receiver params) (qv_vote_count_range params) (crp_ciphertext v) (transcript_new "quadratic_voting_variant"))) = true.
Proof.
  induction vs as [|w vs IH]; intros i k v Hr Hk; [destruct k; discriminate|].
  cbn [votes_verifier] in Hr. apply run_after_inv in Hr as ([[u|e] t1] & Hr & Hf); cbn [fst] in Hf; [|discriminate].
  destruct k as [|k]; [injection Hk as <-; rewrite Hr; reflexivity|exact (IH _ k v Hf Hk)].
Qed.

Lemma quadratic_accepted (E : Env) (o : hash (Scalar E)) params b :
  ok (run o (quadratic_verifier (E:=E) b params)) = true ->
  qv_options_count params = List.length (qb_votes b) /\ run o (votes_verifier params 0 (qb_votes b)) = Ret (Ok tt) /\
  ok_t (run o (range_verifier (crp_range_proof (qb_credit b)) (qv_receiver params) (qv_credit_range params)
    (crp_ciphertext (qb_credit b)) (transcript_new "quadratic_voting_credit_range"))) = true.
Proof.
  intros Ho. unfold quadratic_verifier, QuadraticVotingParams_check_options_count in *.
  destruct (Nat.eqb_spec (qv_options_count params) (List.length (qb_votes b))) as [Hl|]; cbn [negb] in *; [|discriminate].
  destruct (ok_inv _ Ho) as [x Hx].
  apply run_after_inv in Hx as ([[]|e] & R1 & Hx); [|discriminate].
  apply run_after_inv in Hx as ([[[]|e] t2] & R2 & Hx); cbn [fst] in Hx; [|discriminate].
  split; [exact Hl|]. split; [exact R1|]. rewrite R2. reflexivity.
Qed.

(** The votes for option [i] (all rings [k] of its range proof) and the credits. *)
Theorem C79_quadratic_ballot :
  forall (E : Env) (L : GroupLaws E) (S : source E) m Q (receiver : PublicKey E) options credits votes params,
    (credits + 65 < 2 ^ 64)%N -> qv_params receiver options credits votes params -> genuine receiver ->
  forall (A : strategy (Scalar E) (QuadraticVotingBallot E)), balanced S m -> at_most Q A ->
    let accepted o b := ok (QuadraticVotingBallot_verify (E:=hashed_by E o) b params) in
    (forall i k, i < options -> k < List.length (pr_admissible (qv_vote_count_range params)) ->
       opening_extractable L S m A (fun b => let v := nth i (qb_votes b) (qb_credit b) in
           range_statement (crp_range_proof v) receiver (qv_vote_count_range params) (crp_ciphertext v) (transcript_new "quadratic_voting_variant"))
         (pr_admissible (qv_vote_count_range params)) k accepted
         (Z.of_nat (Q + ring_queries (pr_admissible (qv_vote_count_range params))) ^ 2)) /\
    (forall k, k < List.length (pr_admissible (qv_credit_range params)) ->
       opening_extractable L S m A (fun b => let v := qb_credit b in
           range_statement (crp_range_proof v) receiver (qv_credit_range params) (crp_ciphertext v) (transcript_new "quadratic_voting_credit_range"))
         (pr_admissible (qv_credit_range params)) k accepted
         (Z.of_nat (Q + ring_queries (pr_admissible (qv_credit_range params))) ^ 2)).
Proof.
  intros E L S m Q receiver options credits votes params Hc Hp HK A Hbal HA accepted. apply (qv_params_inv E L) in Hp; [|exact Hc].
  destruct Hp as (dv & dc & Hv & Hcr & HV & HC & Hr & ->). rewrite !Z.pow_2_r, <- !Nat2Z.inj_mul.
  cbn [qv_vote_count_range qv_credit_range qv_receiver prepared pr_admissible] in *. split.
  - intros i k Hi Hk. destruct (nth_error_some_lt _ _ Hk) as [vs Ek].
    refine (openings E L S m Hbal _ k vs _ Ek A _ Q HA _ _ _).
    + refine (doc_rings E _ _ Hv _). unfold u64_lim; lia.
    + intros o. exact HK.
    + intros o b Ho. unfold ring_accepted, accepted in *. rewrite <- quadratic_run in Ho. destruct (quadratic_accepted E o _ b Ho) as (Hl & Hvs & _).
      cbn [qv_options_count] in Hl. refine (range_accepted E o _ _ _ _ _ (votes_accepted E o _ _ 0 i _ Hvs _)). apply nth_error_nth'. lia.
  - intros k Hk. destruct (nth_error_some_lt _ _ Hk) as [vs Ek].
    refine (openings E L S m Hbal _ k vs _ Ek A _ Q HA _ _ _).
    + refine (doc_rings E _ _ Hcr _). unfold u64_lim; lia.
    + intros o. exact HK.
    + intros o b Ho. unfold ring_accepted, accepted in *. rewrite <- quadratic_run in Ho. destruct (quadratic_accepted E o _ b Ho) as (_ & _ & Hr2).
      exact (range_accepted E o _ _ _ _ _ Hr2).
Qed.
Print Assumptions C79_quadratic_ballot.

(** ** Example

    The honest prover with fixed nonces, encrypting 1 with randomness 5 for the key 2: it is accepted for
    every hash function with two queries, so [C79_bool_encryption] and [C79_knowledge_error] apply (the
    second input depends on the first challenge, so [D] is large: one input for each scalar, at least). *)
Definition ex_one : Ciphertext RE :=
  {| random_element := (generator * rs 5)%E; blinded_element := (generator + pk_element ex_pk2 * rs 5)%E |}.
Definition ex_local : transcript :=
  ring_context (transcript_new "bool_encryption") ex_pk2 ++
  [TMsg "dom-sep" (str_bytes "ring_enc"); TMsg "enc" (zbytes qx 9 (random_element ex_one) ++ zbytes qx 9 (blinded_element ex_one));
   TMsg "i" (u64_le_bytes (N.of_nat 0))].
Definition ex_first : transcript :=
  ring_context (transcript_new "bool_encryption") ex_pk2 ++
  [TMsg "R_G" (zbytes qx 9 (generator * rs 7)%E); TMsg "R_K" (zbytes qx 9 (pk_element ex_pk2 * rs 7)%E)].
Definition ex_second (e : Scalar RE) : transcript :=
  let X := ring_commitments (E:=RE) (pk_element ex_pk2) ex_one identity e (rs 4) in
  ex_local ++ [TMsg "j" (u64_le_bytes (N.of_nat 0)); TMsg "R_G" (zbytes qx 9 (fst X)); TMsg "R_K" (zbytes qx 9 (snd X))].
Definition ex_bool_proof (e0 e1 : Scalar RE) : RingProof RE :=
  {| rp_challenge := e0; rp_responses := [rs 4; (rs 7 + rs 5 * e1)%S] |}.
Definition ex_bool_prover : strategy (Scalar RE) (PublicKey RE * Ciphertext RE * RingProof RE) :=
  Ask (ex_first, "c") (fun e0 => Ask (ex_second e0, "c") (fun e1 => Output (ex_pk2, ex_one, ex_bool_proof e0 e1))).

Lemma ex_bool_accepted (o : hash (Scalar RE)) :
  let '(pk, c, p) := run o ex_bool_prover in ok (verify_bool (E:=hashed_by RE o) pk c p) = true.
Proof.
  cbn [ex_bool_prover run answer fst snd]. set (e0 := o ex_first "c"). set (e1 := o (ex_second e0) "c").
  enough (Hv : RingProof_verify (E:=hashed_by RE o) (ex_bool_proof e0 e1) ex_pk2 [[identity; generator]] [ex_one] (transcript_new "bool_encryption")
               = Ret (Ok tt, ex_first ++ [TChal "c"])).
  { transitivity (ok (A:=unit) (B:=VerificationError) (Ret (Ok tt))); [|reflexivity]. apply f_equal.
    refine (eq_trans (f_equal (fun m => bind m _) Hv) _). reflexivity. }
  apply (ring_verify_ok_iff (hashed_by RE o) RL).
  exists [[rs 4; (rs 7 + rs 5 * e1)%S]], [((generator * rs 7)%E, (pk_element ex_pk2 * rs 7)%E)], ex_first.
  split; [reflexivity|]. split; [reflexivity|]. split; [|split; [|split; reflexivity]].
  - split; [|reflexivity]. exists ex_local. split.
    + exists (zbytes qx 9 (random_element ex_one)), (zbytes qx 9 (blinded_element ex_one)). split; [reflexivity|]. split; [reflexivity|]. reflexivity.
    + exists (ex_second e0). split; [eexists; eexists; split; [reflexivity|]; split; reflexivity|].
      change (((generator * rs 7)%E, (pk_element ex_pk2 * rs 7)%E) = ring_commitments (E:=RE) (pk_element ex_pk2) ex_one generator e1 (rs 7 + rs 5 * e1)%S).
      unfold ring_commitments. cbn [ex_one random_element blinded_element].
      destruct (le_base_answers RE RL (pk_element ex_pk2) (rs 5) (rs 7) e1) as [H1 H2].
      f_equal; [symmetry; exact H1|]. transitivity ((pk_element ex_pk2 * (rs 7 + rs 5 * e1) - pk_element ex_pk2 * rs 5 * e1)%E); [symmetry; exact H2|].
      do 2 f_equal.
  - eexists. split; [|reflexivity]. repeat (constructor; [eexists; split; reflexivity|]). constructor.
Qed.

Example C79_example :
  let statement := fun '(pk, c, p) => (p, pk, [c], transcript_new "bool_encryption") in
  let accepted := fun o '(pk, c, p) => ok (verify_bool (E:=hashed_by RE o) pk c p) in
  at_most 2 ex_bool_prover /\ (forall o, let '(pk, _, _) := run o ex_bool_prover in genuine pk) /\
  (forall o, accepted o (run o ex_bool_prover) = true) /\ balanced (uniform_source RL) 1 /\
  exists D, NoDup D /\
    (forall o, incl (asked (challenges (uniform_source RL) o) (andthen ex_bool_prover (ring_check statement [[identity; generator]]))) D) /\
    (Z.of_nat (2 + 2) ^ 2 * (1 * size (uniform_source RL) ^ Z.of_nat (List.length D)) <
     size (uniform_source RL) * Z.of_nat (List.length (filter
       (fun o => accepted (challenges (uniform_source RL) o) (run (challenges (uniform_source RL) o) ex_bool_prover))
       (all_hashes (digests (uniform_source RL)) D constant_hash))))%Z.
Proof.
  intros statement accepted.
  assert (Ha : forall o, accepted o (run o ex_bool_prover) = true).
  { intros o. pose proof (ex_bool_accepted o) as H. unfold accepted. destruct (run o ex_bool_prover) as [[pk c] p]. exact H. }
  assert (HA : at_most 2 ex_bool_prover) by (constructor; intros e0; constructor; intros e1; constructor).
  split; [exact HA|]. split; [intros o; apply ex_pk2_ok|]. split; [exact Ha|]. split; [apply uniform_balanced|].
  destruct (asked_finite RE RL _ (2 + ring_queries [[@identity RE; generator]]) (andthen ex_bool_prover (ring_check statement [[identity; generator]]))) as (D & Hnd & HD).
  { apply at_most_andthen; [exact HA|]. intros [[pk c] p]. apply ring_most. }
  exists D. split; [exact Hnd|]. split; [intros o; apply HD|].
  assert (Hf : forall l, filter (fun o => accepted (challenges (uniform_source RL) o) (run (challenges (uniform_source RL) o) ex_bool_prover)) l = l).
  { induction l as [|o l IH]; [reflexivity|]. cbn [filter]. rewrite (Ha (challenges (uniform_source RL) o)), IH. reflexivity. }
  rewrite Hf.
  assert (Hc : (Z.of_nat (List.length (all_hashes (digests (uniform_source RL)) D constant_hash)) = size (uniform_source RL) ^ Z.of_nat (List.length D))%Z)
    by exact (proj1 (proj2 (all_hashes_spec _ (digests (uniform_source RL)) D constant_hash (proj1 (uniform_balanced RE RL)) Hnd))).
  rewrite Hc, uniform_size, Z.mul_1_l.
  apply Z.mul_lt_mono_pos_r; [apply Z.pow_pos_nonneg; [pose proof (order_gt_1 RL); lia|lia]|vm_compute; reflexivity].
Qed.
