(** * C48: verification of untrusted data does not panic *)
From Coq Require Import List NArith ZArith Arith Bool String Ascii Lia Strings.Byte.
From Verif.Model Require Import Base Group Transcript Keys Encryption LogEquality Possession
  Ring Range Commitment Mul Sharing Dkg Choice Quadratic Serde.
From Verif.Spec Require Import Encryption Sigma Sharing Dkg.
From Verif.Proofs Require Import Lists Algebra Codec LogEquality Possession Ring RangeProof Commitment
  SumOfSquares Sharing Dkg Choice.
From Verif.Instance Require Import Primality Zq.
From Verif.Properties Require Import LogEquality Dkg.
Import ListNotations.
Open Scope string_scope.
Open Scope list_scope.
Open Scope nat_scope.

(** The call comes back with a value *)
Definition returns {A : Type} (m : outcome A) : Prop := exists x, m = Ret x.

Lemma returns_bind {A B : Type} (m : outcome A) (f : A -> outcome B) :
  returns m -> (forall x, returns (f x)) -> returns (bind m f).
Proof. intros [x ->] Hf. exact (Hf x). Qed.
Lemma returns_ret {A : Type} (x : A) : returns (Ret x).
Proof. exists x. reflexivity. Qed.
Lemma returns_ex2 {A B : Type} (m : outcome (A * B)) : (exists a b, m = Ret (a, b)) -> returns m.
Proof. intros (a & b & H). exists (a, b). exact H. Qed.

(** ** Backends which encode every element (Ristretto, Curve25519Subgroup) *)

(** every standalone proof, for arbitrary contents, statements and transcripts *)
Theorem C48_proofs :
  forall (E : Env) (L : GroupLaws E), ser_total E ->
    (forall (p : LogEqualityProof E) K P t, returns (LogEqualityProof_verify p K P t)) /\
    (forall (p : ProofOfPossession E) keys t, returns (ProofOfPossession_verify p keys t)) /\
    (forall (p : RingProof E) K values cs t, returns (RingProof_verify p K values cs t)) /\
    (forall (p : RangeProof E) K range c t, returns (RangeProof_verify p K range c t)) /\
    (forall (p : CommitmentEquivalenceProof E) c K C H t,
       returns (CommitmentEquivalenceProof_verify p c K C H t)) /\
    (forall (p : SumOfSquaresProof E) cs z K t, returns (SumOfSquaresProof_verify p cs z K t)).
Proof.
  intros E L Ht. repeat split; intros.
  - destruct P. apply returns_ex2, (le_verify_total E L). exact Ht.
  - apply returns_ex2, (pop_verify_total E L). exact Ht.
  - apply returns_ex2, (ring_verify_total E L). exact Ht.
  - unfold RangeProof_verify. destruct (check_lengths _ _ _); [|apply returns_ret].
    apply returns_ex2, (ring_verify_total E L). exact Ht.
  - apply returns_ex2, (ce_verify_total E L). exact Ht.
  - apply returns_ex2, (sq_verify_total E L). exact Ht.
Qed.
Print Assumptions C48_proofs.

Lemma from_element_returns (E : Env) (L : GroupLaws E) : ser_total E ->
  forall e : Element E, returns (PublicKey_from_element e).
Proof.
  intros Ht e. unfold PublicKey_from_element. destruct (ser_total_some L Ht e) as [b ->]. apply returns_ret.
Qed.

(** encryption of zero / of a bit / of a range value, decryption proofs, choices and ballots *)
Theorem C48_applications :
  forall (E : Env) (L : GroupLaws E), ser_total E ->
    (forall K c (p : LogEqualityProof E), returns (verify_zero K c p)) /\
    (forall K c (p : RingProof E), returns (verify_bool K c p)) /\
    (forall K range c (p : RangeProof E), returns (verify_range K range c p)) /\
    (forall (d : CandidateDecryption E) c K p t, returns (CandidateDecryption_verify d c K p t)) /\
    (forall K n params (e : EncryptedChoice SingleChoice), ChoiceParams_single (E:=E) K n = Ret params ->
       returns (EncryptedChoice_verify e params)) /\
    (forall K n params (e : EncryptedChoice MultiChoice), ChoiceParams_multi (E:=E) K n = Ret params ->
       returns (EncryptedChoice_verify e params)) /\
    (forall params (ballot : QuadraticVotingBallot E), returns (QuadraticVotingBallot_verify ballot params)).
Proof.
  intros E L Ht. destruct (C48_proofs E L Ht) as (Hle & _ & Hri & Hra & _ & Hsq).
  assert (Hch : forall (S : ProveSum E) (e : EncryptedChoice S) (params : ChoiceParams S),
            (forall c p K, returns (ps_verify S c p K)) -> 0 < cp_options_count params ->
            returns (EncryptedChoice_verify e params)).
  { intros S e params HS Hn. unfold EncryptedChoice_verify, ChoiceParams_check_options_count.
    destruct (Nat.eqb_spec (cp_options_count params) (List.length (ec_choices e))) as [Hl|]; [|apply returns_ret].
    destruct (ec_choices e) as [|c cs] eqn:Hc; [cbn in Hl; lia|]. cbn [reduce unwrap bind].
    apply returns_bind; [apply HS|]. intros [u|err]; [|apply returns_ret].
    apply returns_bind; [apply Hri|]. intros [res t]. apply returns_ret. }
  split; [|split; [|split; [|split; [|split; [|split]]]]].
  - intros. apply returns_bind; [apply Hle|]. intros [res t]. apply returns_ret.
  - intros. apply returns_bind; [apply Hri|]. intros [res t]. apply returns_ret.
  - intros. apply returns_bind; [apply Hra|]. intros [res t]. apply returns_ret.
  - intros. unfold CandidateDecryption_verify. apply returns_bind; [apply (from_element_returns E L Ht)|].
    intros base. apply returns_bind; [apply Hle|]. intros [res t']. apply returns_ret.
  - intros K n params e Hp. unfold ChoiceParams_single, assert in Hp.
    destruct (Nat.ltb_spec 0 n); [|discriminate]. cbn in Hp. injection Hp as <-. apply Hch; [|exact H].
    intros c p K'. cbn. unfold SingleChoice_verify. apply returns_bind; [apply Hle|].
    intros [res t']. apply returns_ret.
  - intros K n params e Hp. unfold ChoiceParams_multi, assert in Hp.
    destruct (Nat.ltb_spec 0 n); [|discriminate]. cbn in Hp. injection Hp as <-. apply Hch; [|exact H].
    intros c p K'. apply returns_ret.
  - intros params ballot. unfold QuadraticVotingBallot_verify.
    destruct (QuadraticVotingParams_check_options_count _ _); [|apply returns_ret].
    apply returns_bind.
    { generalize 0 as i. induction (qb_votes ballot) as [|v vs IH]; intros i; [apply returns_ret|].
      cbn [qv_verify_votes]. apply returns_bind; [apply Hra|]. intros [[u|err] t]; [apply IH|apply returns_ret]. }
    intros [u|err]; [|apply returns_ret].
    apply returns_bind; [apply Hra|]. intros [[u'|err] t]; [|apply returns_ret].
    apply returns_bind; [apply Hsq|]. intros [[u''|err] t']; apply returns_ret.
Qed.
Print Assumptions C48_applications.

(** threshold encryption: dealer's messages, participants' keys, proofs and shares *)
Theorem C48_sharing :
  forall (E : Env) (L : GroupLaws E), ser_total E ->
    (forall params poly (pop : ProofOfPossession E), params_ok params ->
       returns (PublicKeySet_new params poly pop)) /\
    (forall params (keys : list (PublicKey E)), (2 ^ 64 <= order L)%Z -> params_ok params ->
       returns (PublicKeySet_from_participants params keys)) /\
    (forall (ks : PublicKeySet E) i p, i < List.length (ks_participant_keys ks) ->
       returns (PublicKeySet_verify_participant ks i p)) /\
    (forall (ks : PublicKeySet E) d c i p, i < List.length (ks_participant_keys ks) ->
       returns (PublicKeySet_verify_share ks d c i p)) /\
    (forall (ks : PublicKeySet E) i share, i < List.length (ks_participant_keys ks) ->
       returns (ActiveParticipant_new ks i share)).
Proof.
  intros E L Ht. destruct (C48_proofs E L Ht) as (Hle & Hpop & _).
  split; [|split; [|split; [|split]]].
  - intros. apply (pks_new_total E L); assumption.
  - intros. apply (from_participants_total E L); assumption.
  - intros ks i p Hi. unfold PublicKeySet_verify_participant, PublicKeySet_participant_key.
    destruct (nth_error _ _) as [k|] eqn:Hk; [|apply nth_error_None in Hk; lia].
    apply returns_bind; [apply Hpop|]. intros [res t]. apply returns_ret.
  - intros ks d c i p Hi. unfold PublicKeySet_verify_share, index.
    destruct (nth_error _ _) as [k|] eqn:Hk; [|apply nth_error_None in Hk; lia]. cbn [bind].
    apply returns_bind; [apply (from_element_returns E L Ht)|]. intros base.
    apply returns_bind; [apply Hle|]. intros [res t]. apply returns_ret.
  - intros ks i share Hi. unfold ActiveParticipant_new, index.
    destruct (nth_error _ _) as [k|] eqn:Hk; [|apply nth_error_None in Hk; lia]. cbn [bind].
    destruct (e_eqb _ _); apply returns_ret.
Qed.
Print Assumptions C48_sharing.

(** distributed key generation: every message, in every reachable state.  The sender's index must be in
    range (documented), and a polynomial must not be empty (the decoder of [PublicInfo] guarantees it). *)
Theorem C48_dkg :
  forall (E : Env) (L : GroupLaws E), ser_total E ->
  forall params idx,
    (forall (q : ParticipantCollectingPolynomials E) coms hist j info,
       pcp_run params idx q coms hist -> j < pa_shares params -> pi_polynomial info <> [] ->
       returns (PCP_insert_public_polynomial q j info)) /\
    (forall (p : ParticipantExchangingSecrets E) hist sup j share,
       pes_run params idx p hist sup -> j < pa_shares params ->
       returns (PES_insert_secret_share p j share)) /\
    (forall (p : ParticipantExchangingSecrets E) hist sup, (2 ^ 64 <= order L)%Z -> params_ok params ->
       pes_run params idx p hist sup -> PES_missing_shares p = [] -> returns (PES_complete p)).
Proof.
  intros E L Ht params idx. destruct (C48_proofs E L Ht) as (_ & Hpop & _). split; [|split].
  - intros q coms hist j info Hr Hj Hne. apply (pcp_run_inv E L) in Hr.
    destruct Hr as (H1 & H2 & H3 & H4 & H5 & H5' & H6 & (H7 & _) & H8).
    unfold PCP_insert_public_polynomial, index.
    destruct (pi_polynomial info) as [|e0 rest] eqn:Hpoly; [congruence|]. cbn [nth_error bind].
    unfold create_commitment. destruct (ser_total_some L Ht e0) as [b ->]. cbn [bind].
    destruct (nth_error (pcp_commitments q) j) as [c|] eqn:Hc; [|apply nth_error_None in Hc; lia]. cbn [bind].
    destruct (negb _); [apply returns_ret|].
    apply returns_bind.
    { unfold PublicKeySet_validate. destruct (negb _); [apply returns_ret|].
      apply returns_bind.
      - clear -L Ht. induction (e0 :: rest) as [|e l IH]; [apply returns_ret|]. cbn [mapM].
        apply returns_bind; [apply (from_element_returns E L Ht)|]. intros k.
        apply returns_bind; [exact IH|]. intros ks. apply returns_ret.
      - intros ks. apply returns_bind; [apply Hpop|]. intros [res t]. apply returns_ret. }
    intros [u|e]; [|apply returns_ret]. rewrite index_set_ok by lia. apply returns_ret.
  - intros p hist sup j share Hr Hj. apply (pes_run_inv E L) in Hr.
    destruct Hr as (H1 & H2 & H3 & H4 & H5 & H6 & H6' & H7 & H8 & H9 & H10 & H11 & _).
    unfold PES_insert_secret_share, index.
    destruct (nth_error (pes_shares_received p) j) as [rc|] eqn:Hc; [|apply nth_error_None in Hc; lia]. cbn [bind].
    destruct rc; [apply returns_ret|].
    destruct (nth_error (pes_public_polynomials p) j) as [P|] eqn:HP; [|apply nth_error_None in HP; lia]. cbn [bind].
    rewrite (value_at_dlog E L). cbn [bind]. apply returns_bind; [apply (from_element_returns E L Ht)|]. intros k.
    destruct (negb _); [apply returns_ret|]. rewrite index_set_ok by lia. apply returns_ret.
  - intros p hist sup Hbig Hp Hr Hm.
    destruct (C37_complete_ok_iff E L Hbig Ht params idx p hist sup Hp Hr) as (own & s & _ & _ & _ & [[a Ha]|He]).
    + apply not_supplied_nil. rewrite <- Hm. symmetry.
      exact (pes_missing_inv E L params idx p hist sup (pes_run_inv E L params idx p hist sup Hr)).
    + exists (Ok a). exact Ha.
    + eexists. exact He.
Qed.
Print Assumptions C48_dkg.

(** ** SEC1 backends: [serialize_element] panics at the identity *)

Section Sec1.
Context (E : Env) (L : GroupLaws E).
Local Notation scalar := (Scalar E).
Local Notation element := (Element E).
Add Field s_field_panics : (s_field L).

Lemma e_sub_identity (a b : element) : (a - b)%E = identity <-> a = b.
Proof.
  rewrite (dlog_identity_iff L), (dlog_sub L). split; intros H.
  - apply (dlog_inj L). apply (s_sub_eq_0 L). exact H.
  - subst b. ring.
Qed.
End Sec1.

(** exactly when the verifier of a logarithm equality panics *)
Theorem C48_sec1_log_equality :
  forall (E : Env) (L : GroupLaws E) k, serialize_element (identity : Element E) = Panic k ->
  forall (p : LogEqualityProof E) K P0 P1 t,
    let lhs0 := (generator * le_response p)%E in let rhs0 := (P0 * le_challenge p)%E in
    let lhs1 := (pk_element K * le_response p)%E in let rhs1 := (P1 * le_challenge p)%E in
    (P0 = identity \/ P1 = identity \/ lhs0 = rhs0 \/ lhs1 = rhs1 <->
       LogEqualityProof_verify p K (P0, P1) t = Panic k) /\
    (P0 <> identity /\ P1 <> identity /\ lhs0 <> rhs0 /\ lhs1 <> rhs1 <->
       returns (LogEqualityProof_verify p K (P0, P1) t)).
Proof.
  intros E L k Hk p K P0 P1 t lhs0 rhs0 lhs1 rhs1.
  assert (Hs : forall e : Element E, (e = identity /\ serialize_element e = Panic k) \/
                (e <> identity /\ exists b, serialize_element e = Ret b)).
  { intros e. destruct (e_eq_dec L e identity) as [->|He]; [left; auto|right; split; [exact He|]].
    apply (ser_element_some E L). exact He. }
  pose proof (e_sub_identity E L) as Hsub.
  rewrite (le_verify_eq E L). cbv zeta. fold lhs0 rhs0 lhs1 rhs1.
  destruct (Hs P0) as [[H0 ->]|[H0 [b0 ->]]]; cbn [bind].
  { split; split; try tauto. intros [x Hx]. discriminate. }
  destruct (Hs P1) as [[H1 ->]|[H1 [b1 ->]]]; cbn [bind].
  { split; split; try tauto. intros [x Hx]. discriminate. }
  destruct (Hs (lhs0 - rhs0)%E) as [[H2 ->]|[H2 [b2 ->]]]; cbn [bind]; rewrite Hsub in H2.
  { split; split; try tauto. intros [x Hx]. discriminate. }
  destruct (Hs (lhs1 - rhs1)%E) as [[H3 ->]|[H3 [b3 ->]]]; cbn [bind]; rewrite Hsub in H3.
  { split; split; try tauto. intros [x Hx]. discriminate. }
  split; split; try tauto.
  - discriminate.
  - intros _. apply returns_ret.
Qed.
Print Assumptions C48_sec1_log_equality.

(** So a proof consisting of zeros -- which every decoder accepts -- crashes the verifiers. *)
Section ZeroProofs.
Context (E : Env) (L : GroupLaws E) (k : panic_kind).
Context (Hk : serialize_element (identity : Element E) = Panic k).
Local Notation scalar := (Scalar E).
Local Notation element := (Element E).
Add Field s_field_zero : (s_field L).

Definition zero_le : LogEqualityProof E := {| le_challenge := 0%S; le_response := 0%S |}.
Definition zero_pop (n : nat) : ProofOfPossession E := {| pop_challenge := 0%S; pop_responses := repeat 0%S n |}.
Definition zero_ring (n : nat) : RingProof E := {| rp_challenge := 0%S; rp_responses := repeat 0%S n |}.
Definition zero_ce : CommitmentEquivalenceProof E :=
  {| ce_challenge := 0%S; ce_randomness_response := 0%S; ce_value_response := 0%S; ce_commitment_response := 0%S |}.
Definition zero_sq (n : nat) : SumOfSquaresProof E :=
  {| sq_challenge := 0%S; sq_ciphertext_responses := repeat 0%S (2 * n); sq_sum_response := 0%S |}.

Lemma zero_le_panics K P t : LogEqualityProof_verify zero_le K P t = Panic k.
Proof.
  destruct P as [P0 P1]. apply (C48_sec1_log_equality E L k Hk zero_le K P0 P1 t).
  right. right. left. cbn. el_ring L.
Qed.

Lemma zero_lin (a b : element) : (a * 0 - b * 0)%E = identity.
Proof. el_ring L. Qed.

Lemma zero_pop_panics (keys : list (PublicKey E)) t : keys <> [] ->
  ProofOfPossession_verify (zero_pop (List.length keys)) keys t = Panic k.
Proof.
  intros Hne. rewrite (pop_verify_eq E L). cbn [zero_pop pop_responses pop_challenge].
  rewrite repeat_length, Nat.eqb_refl. destruct keys as [|key keys]; [congruence|].
  cbn [List.length repeat map combine mapM fst snd]. rewrite zero_lin, Hk. reflexivity.
Qed.

Lemma ser_cases (e : element) : serialize_element e = Panic k \/ exists b, serialize_element e = Ret b.
Proof.
  destruct (e_eq_dec L e identity) as [->|He]; [left; exact Hk|right]. apply (ser_element_some E L). exact He.
Qed.

Lemma absorb_identity (items : list (string * element)) l : In (l, identity) items ->
  mapM (absorb1 E) items = Panic k.
Proof.
  induction items as [|[l' e] items IH]; intros Hin; [destruct Hin|]. cbn [mapM].
  unfold absorb1 at 1. cbn [fst snd]. destruct (ser_cases e) as [He|[b He]]; rewrite He; [reflexivity|].
  cbn [bind]. destruct Hin as [Hin|Hin]; [injection Hin as _ ->; congruence|].
  rewrite (IH Hin). reflexivity.
Qed.

Lemma zero_ce_panics c K C H t : CommitmentEquivalenceProof_verify zero_ce c K C H t = Panic k.
Proof.
  rewrite (ce_verify_eq E L). cbv zeta. cbn [zero_ce ce_challenge ce_randomness_response ce_value_response ce_commitment_response].
  rewrite (zero_lin generator (random_element c)).
  rewrite (absorb_identity _ "[e_r]G"); [reflexivity|]. unfold ce_items. cbn [In]. auto 10.
Qed.

Lemma zero_sq_panics cs z K t : SumOfSquaresProof_verify (zero_sq (List.length cs)) cs z K t = Panic k.
Proof.
  rewrite (sq_verify_eq E L (zero_sq (List.length cs)) (repeat (0%S, 0%S) (List.length cs))).
  - cbv zeta. cbn [zero_sq sq_challenge sq_sum_response].
    rewrite (absorb_identity _ "[e_x]R_x + [e_z]G"); [reflexivity|].
    rewrite sq_items_eq. apply in_or_app. right. right. right. left. cbn [fst]. f_equal.
    unfold sq_sum_commitment.
    replace (esum (combine (map random_element cs) (map snd (repeat (0%S, 0%S) (List.length cs)))))
      with (identity : element); [el_ring L|].
    clear -L. induction cs as [|c cs IH]; [reflexivity|]. cbn [List.length repeat map combine esum fst snd].
    rewrite <- IH. el_ring L.
  - cbn [zero_sq sq_ciphertext_responses]. generalize (List.length cs) as n. clear. induction n as [|n IH]; [reflexivity|].
    replace (2 * Datatypes.S n) with (Datatypes.S (Datatypes.S (2 * n))) by lia. cbn [repeat]. rewrite IH. reflexivity.
  - apply repeat_length.
Qed.

Lemma zero_ring_panics (K : PublicKey E) v vs vals c cs t :
  RingProof_verify (zero_ring (S (List.length vs) + list_sum (map (@List.length element) vals))) K
    ((v :: vs) :: vals) (c :: cs) t = Panic k.
Proof.
  unfold RingProof_verify, check_lengths. cbn [zero_ring rp_responses]. rewrite repeat_length.
  cbn [map list_sum fold_right List.length]. change (fold_right Nat.add 0 ?l) with (list_sum l).
  rewrite Nat.eqb_refl. cbn [combine ring_verify_rings].
  assert (Hinit : forall t0 i, ring_init_transcript t0 c i = Panic k \/ exists rt, ring_init_transcript t0 c i = Ret rt).
  { intros t0 i. unfold ring_init_transcript, Ciphertext_to_bytes.
    destruct (ser_cases (random_element c)) as [->|[b0 ->]]; [left; reflexivity|]. cbn [bind].
    destruct (ser_cases (blinded_element c)) as [->|[b1 ->]]; [left; reflexivity|]. right. eexists. reflexivity. }
  match goal with |- context [ring_init_transcript ?a c ?b] => destruct (Hinit a b) as [->|[rt ->]] end; [reflexivity|].
  cbn [bind]. unfold slice_from. unfold zero_ring.
  cbn [Nat.leb rp_responses skipn bind repeat plus combine ring_verify_loop rp_challenge].
  rewrite (vartime_multi_mul_ok E L) by reflexivity. cbn [bind lin_comb].
  rewrite (vartime_double_mul_generator_ok E L).
  replace (random_element c * - 0 + generator * 0)%E with (identity : element) by el_ring L.
  destruct vs as [|v' vs].
  - cbn [List.length plus Nat.ltb Nat.leb bind combine ring_verify_loop fst]. unfold append_element. rewrite Hk. reflexivity.
  - cbn [List.length plus Nat.ltb Nat.leb]. unfold ring_eq_challenge, append_element. cbn [fst]. rewrite Hk. reflexivity.
Qed.
End ZeroProofs.

(** The claim is therefore false for backends whose identity has no fixed-size encoding: whoever may submit
    a proof can crash its verifier, regardless of keys, ciphertexts and the hash function. *)
Theorem C48_sec1_refuted :
  forall (E : Env) (L : GroupLaws E) k, serialize_element (identity : Element E) = Panic k ->
    (** bytes accepted by the decoder ... *)
    (exists b (p : LogEqualityProof E), LogEqualityProof_from_bytes b = Some p /\
       (forall K P t, LogEqualityProof_verify p K P t = Panic k) /\
       (forall K c, verify_zero K c p = Panic k) /\
       (forall d c K t, CandidateDecryption_verify d c K p t = Panic k) /\
       (forall ks d c i, i < List.length (ks_participant_keys ks) -> PublicKeySet_verify_share ks d c i p = Panic k) /\
       (forall (params : ChoiceParams SingleChoice) (e : EncryptedChoice SingleChoice), List.length (ec_choices e) = cp_options_count params ->
          ec_choices e <> [] -> ec_sum_proof e = p -> EncryptedChoice_verify e params = Panic k)) /\
    (exists b (p : RingProof E), RingProof_from_bytes b = Ret (Some p) /\ forall K c, verify_bool K c p = Panic k) /\
    (** ... and proofs which can be deserialized *)
    (forall (keys : list (PublicKey E)), keys <> [] -> exists p : ProofOfPossession E,
       1 <= List.length (pop_responses p) /\ forall t, ProofOfPossession_verify p keys t = Panic k) /\
    (exists p : CommitmentEquivalenceProof E, forall c K C H t, CommitmentEquivalenceProof_verify p c K C H t = Panic k) /\
    (forall cs : list (Ciphertext E), exists p : SumOfSquaresProof E,
       List.length (sq_ciphertext_responses p) = 2 * List.length cs /\
       forall z K t, SumOfSquaresProof_verify p cs z K t = Panic k).
Proof.
  intros E L k Hk. split; [|split; [|split; [|split]]].
  - exists (LogEqualityProof_to_bytes (zero_le E)), (zero_le E).
    split; [apply (le_codec E L)|]. pose proof (zero_le_panics E L k Hk) as Hz.
    assert (Hfe : forall e : Element E, PublicKey_from_element e = Panic k \/ returns (PublicKey_from_element e)).
    { intros e. unfold PublicKey_from_element. destruct (ser_cases E L k Hk e) as [->|[b ->]]; [left; reflexivity|].
      right. apply returns_ret. }
    split; [exact Hz|]. split; [|split; [|split]].
    + intros K c. unfold verify_zero. rewrite Hz. reflexivity.
    + intros d c K t. unfold CandidateDecryption_verify. destruct (Hfe (random_element c)) as [->|[x ->]]; [reflexivity|].
      cbn [bind]. rewrite Hz. reflexivity.
    + intros ks d c i Hi. unfold PublicKeySet_verify_share, index.
      destruct (nth_error _ _) as [key|] eqn:Hn; [|apply nth_error_None in Hn; lia]. cbn [bind].
      destruct (Hfe (random_element c)) as [->|[x ->]]; [reflexivity|]. cbn [bind]. rewrite Hz. reflexivity.
    + intros params e Hl Hne Hp. unfold EncryptedChoice_verify, ChoiceParams_check_options_count.
      rewrite Hl, Nat.eqb_refl. destruct (ec_choices e) as [|c cs]; [congruence|]. cbn [reduce unwrap bind].
      rewrite Hp. cbn [ps_verify SingleChoice]. unfold SingleChoice_verify. rewrite Hz. reflexivity.
  - exists (RingProof_to_bytes (zero_ring E 2)), (zero_ring E 2). split; [|].
    + rewrite (rp_codec E L). reflexivity.
    + intros K c. unfold verify_bool.
      pose proof (zero_ring_panics E L k Hk K identity [generator] [] c [] (transcript_new "bool_encryption")) as H.
      cbn [List.length plus list_sum map fold_right] in H. rewrite H. reflexivity.
  - intros keys Hne. exists (zero_pop E (List.length keys)). split.
    + cbn. rewrite repeat_length. destruct keys; [congruence|cbn; lia].
    + intros t. apply (zero_pop_panics E L k Hk). exact Hne.
  - exists (zero_ce E). intros. apply (zero_ce_panics E L k Hk).
  - intros cs. exists (zero_sq E (List.length cs)). split; [apply repeat_length|].
    intros. apply (zero_sq_panics E L k Hk).
Qed.
Print Assumptions C48_sec1_refuted.

(** ** Examples *)

(** a backend of the first kind; a garbage proof is merely rejected *)
Example C48_example_total : ser_total RE /\ (2 ^ 64 <= order RL)%Z /\
  match verify_bool ex_key {| random_element := re 5; blinded_element := re 6 |}
          {| rp_challenge := rs 0; rp_responses := [rs 0] |} with
  | Ret (Err (LenMismatch _ _ _)) => True | _ => False end.
Proof. split; [exact RE_ser_total|]. split; [exact RE_order_big|]. vm_compute. exact I. Qed.

(** a backend of the second kind *)
Example C48_example_sec1 : exists k, serialize_element (identity : Element KE) = Panic k.
Proof. eexists. vm_compute. reflexivity. Qed.
