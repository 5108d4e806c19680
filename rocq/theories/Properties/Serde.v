(** * C50, C51: serialization *)
From Coq Require Import List NArith ZArith Arith Bool String Ascii Lia Strings.Byte.
From Verif.Model Require Import Base Group Transcript Keys Encryption LogEquality Possession
  Ring Range Commitment Mul Sharing Dkg Choice Quadratic Serde.
From Verif.Spec Require Import Encryption Range Quadratic Serde.
From Verif.Proofs Require Import Lists Algebra Codec RangeProof SumOfSquares Choice Quadratic Serde.
From Verif.Instance Require Import Primality Zq.
From Verif.Properties Require Import LogEquality.
Import ListNotations.
Open Scope string_scope.
Open Scope list_scope.
Open Scope nat_scope.

Lemma rt {A : Type} {T U : Prop} {c : Codec A} {wf} : lawful T U c wf -> round_trips U c wf.
Proof.
  intros H h x Hx. split.
  - intros v Hv. exact (law_round_trip H h h x v ltac:(destruct h; reflexivity) Hx Hv).
  - intros Hu. exact (law_enc_total H Hu h x Hx).
Qed.
Lemma ro {A : Type} {T U : Prop} {c : Codec A} {wf} : lawful T U c wf -> reads_only T c wf.
Proof.
  intros H h v. split.
  - exact (law_accepts H h v).
  - intros Ht. exact (law_dec_total H Ht h v).
Qed.

(** ** C50: round trips *)

(** base64url without padding *)
Theorem C50_base64 :
  forall s l, base64_decode s = Some l <-> s = base64_encode l.
Proof. intros s l. split; [apply base64_canonical|]. intros ->. apply base64_round_trip. Qed.
Print Assumptions C50_base64.

(** scalars, elements, keys and everything made of them with a fixed shape *)
Theorem C50_round_trip_basic :
  forall (E : Env) (L : GroupLaws E),
    round_trips True (ScalarHelper (E:=E)) (fun _ => True) /\
    round_trips (ser_total E) (ElementHelper (E:=E)) (fun _ => True) /\
    round_trips True (SecretKey_codec (E:=E)) (fun _ => True) /\
    round_trips True (PublicKey_codec (E:=E)) valid_key /\
    round_trips True (Keypair_codec (E:=E)) valid_keypair /\
    round_trips (ser_total E) (Ciphertext_codec (E:=E)) (fun _ => True) /\
    round_trips (ser_total E) (VerifiableDecryption_codec (E:=E)) (fun _ => True) /\
    round_trips (ser_total E) (CandidateDecryption_codec (E:=E)) (fun _ => True) /\
    round_trips True (LogEqualityProof_codec (E:=E)) (fun _ => True) /\
    round_trips True (CommitmentEquivalenceProof_codec (E:=E)) (fun _ => True).
Proof.
  intros E L.
  split; [exact (rt (scalar_lawful E L))|].
  split; [exact (rt (element_lawful E L))|].
  split; [exact (rt (secret_key_lawful E L))|].
  split; [exact (rt (public_key_lawful E L))|].
  split; [exact (rt (keypair_lawful E L))|].
  split; [exact (rt (ciphertext_lawful E L))|].
  split; [exact (rt (decryption_lawful E L))|].
  split; [exact (rt (candidate_lawful E L))|].
  split; [exact (rt (log_equality_lawful E L))|].
  exact (rt (commitment_lawful E L)).
Qed.
Print Assumptions C50_round_trip_basic.

(** proofs with a variable number of responses *)
Theorem C50_round_trip_proofs :
  forall (E : Env) (L : GroupLaws E),
    round_trips True (ProofOfPossession_codec (E:=E)) (fun p => 1 <= List.length (pop_responses p)) /\
    round_trips True (RingProof_codec (E:=E)) (fun p => 2 <= List.length (rp_responses p)) /\
    round_trips (ser_total E) (RangeProof_codec (E:=E)) (fun p => 2 <= List.length (rp_responses (rap_inner p))) /\
    round_trips True (SumOfSquaresProof_codec (E:=E)) (fun p => 2 <= List.length (sq_ciphertext_responses p)).
Proof.
  intros E L.
  split; [exact (rt (possession_lawful E L))|].
  split; [exact (rt (ring_proof_lawful E L))|].
  split; [exact (rt (range_proof_lawful E L))|].
  exact (rt (sq_lawful E L)).
Qed.
Print Assumptions C50_round_trip_proofs.

(** secret sharing and distributed key generation, including the states of participants *)
Theorem C50_round_trip_sharing :
  forall (E : Env) (L : GroupLaws E),
    round_trips True Params_codec valid_params /\
    round_trips (ser_total E) (PublicPolynomial_codec (E:=E)) (fun l => 1 <= List.length l) /\
    round_trips True (PublicKeySet_codec (E:=E)) valid_key_set /\
    round_trips True (Dealer_codec (E:=E)) valid_dealer /\
    round_trips True (ActiveParticipant_codec (E:=E)) valid_active /\
    round_trips True Opening_codec (fun b => List.length b = 32) /\
    round_trips (ser_total E) (PublicInfo_codec (E:=E)) valid_info /\
    round_trips True (PCC_codec (E:=E)) valid_pcc /\
    round_trips (ser_total E) (PCP_codec (E:=E)) valid_pcp /\
    round_trips (ser_total E) (PES_codec (E:=E)) valid_pes.
Proof.
  intros E L.
  split; [exact (rt (params_lawful))|].
  split; [exact (rt (elements_lawful E L 1))|].
  split; [exact (rt (key_set_lawful E L))|].
  split; [exact (rt (dealer_lawful E L))|].
  split; [exact (rt (active_lawful E L))|].
  split; [exact (rt (opening_lawful))|].
  split; [exact (rt (info_lawful E L))|].
  split; [exact (rt (pcc_lawful E L))|].
  split; [exact (rt (pcp_lawful E L))|].
  exact (rt (pes_lawful E L)).
Qed.
Print Assumptions C50_round_trip_sharing.

(** voting *)
Theorem C50_round_trip_voting :
  forall (E : Env) (L : GroupLaws E),
    round_trips (ser_total E) (EncryptedChoice_codec MultiChoice (unit_codec : Codec (ps_Proof (MultiChoice (E:=E))))) valid_choice /\
    round_trips (ser_total E) (EncryptedChoice_codec SingleChoice (LogEqualityProof_codec : Codec (ps_Proof (SingleChoice (E:=E))))) valid_choice /\
    round_trips (ser_total E) (CiphertextWithRangeProof_codec (E:=E)) valid_crp /\
    round_trips (ser_total E) (QuadraticVotingBallot_codec (E:=E)) valid_ballot.
Proof.
  intros E L.
  split; [exact (rt (choice_lawful E L MultiChoice unit_codec unit_lawful))|].
  split; [exact (rt (choice_lawful E L SingleChoice LogEqualityProof_codec (log_equality_lawful E L)))|].
  split; [exact (rt (crp_lawful E L))|]. exact (rt (ballot_lawful E L)).
Qed.
Print Assumptions C50_round_trip_voting.

(** The conditions above hold for values obtained from the API. *)
Theorem C50_api_keys :
  forall (E : Env) (L : GroupLaws E),
    (forall b (k : PublicKey E), PublicKey_from_bytes b = Ok k -> valid_key k) /\
    (forall sk k, PublicKey_from_secret sk = Ret k -> sk <> s_default -> valid_key (E:=E) k) /\
    (forall sk k, Keypair_from_secret sk = Ret k -> valid_keypair (E:=E) k).
Proof.
  intros E L. split; [|split].
  - intros b k H. apply (from_bytes_iff E L) in H. apply H.
  - intros sk k H Hs. unfold PublicKey_from_secret, PublicKey_from_element in H. inv_bind H. injection H as <-.
    destruct (ser_element_ok E L _ _ Hm) as [Hl Hd]. split; [exact Hl|]. split; [exact Hd|]. cbn [pk_element].
    rewrite (mul_generator_ok E L). intros H. apply Hs. exact (generator_order E L sk H).
  - intros sk k H. apply (keypair_iff E L) in H. apply H.
Qed.
Print Assumptions C50_api_keys.

(** Whatever a verifier accepts (so also whatever an honest prover makes, C41 and C46) can be stored and reread. *)
Theorem C50_accepted_choices :
  forall (E : Env) (S : ProveSum E) (e : EncryptedChoice S) params cts,
    EncryptedChoice_verify e params = Ret (Ok cts) -> valid_choice e.
Proof.
  intros E S e params cts H. unfold EncryptedChoice_verify in H. destruct (ChoiceParams_check_options_count _ _); [|discriminate].
  inv_bind H. inv_bind H. destruct a1 as [[]|]; [|discriminate]. inv_bind H. destruct a1 as [[[]|] t1]; [|discriminate].
  apply ring_verify_length in Hm1. unfold valid_choice, valid_ring_proof, at_least. rewrite Hm1.
  destruct (ec_choices e) as [|x l]; [discriminate Hm|]. cbn [List.length repeat map].
  change (2 <= 2 + list_sum (map (@List.length (Element E)) (repeat [identity; generator] (List.length l)))). lia.
Qed.
Print Assumptions C50_accepted_choices.

Theorem C50_accepted_ballots :
  forall (E : Env) (L : GroupLaws E) (receiver : PublicKey E) options credits m p ballot cts,
    (credits + 65 < 2 ^ 64)%N -> qv_params receiver options credits m p ->
    QuadraticVotingBallot_verify ballot p = Ret (Ok cts) -> valid_ballot ballot.
Proof.
  intros E L receiver options credits m p ballot cts Hc Hp H. apply (qv_params_inv E L) in Hp; [|exact Hc].
  apply qv_verify_ok_iff in H. destruct H as (_ & Hl & Hv & (t1 & H1) & t2 & H2).
  destruct Hp as (dv & dc & Hdv & Hdc & _ & _ & Ho & ->). cbn [qv_options_count qv_credit_range] in *.
  assert (Hsum : forall n d, doc_form n d -> 2 <= list_sum (map (@List.length (Element E)) (range_values d))).
  { intros n d Hd. destruct Hd as [t Ht|T d t k _ Hk2 Hk]; unfold range_values.
    - cbn [map rs_size]. match goal with |- _ <= list_sum [?x] => change (2 <= x + 0) end. rewrite map_length, seq_length. lia.
    - rewrite map_app, map_app, list_sum_app. cbn [map rs_size]. match goal with |- _ <= _ + list_sum [?x] => change (list_sum [x]) with (x + 0) end.
      rewrite map_length, seq_length. lia. }
  split; [|split].
  - apply Forall_forall. intros v Hin. destruct (Hv v Hin) as (t & Ht). apply range_verify_length in Ht.
    unfold valid_crp, valid_range_proof, valid_ring_proof, at_least. rewrite Ht. exact (Hsum _ _ Hdv).
  - apply range_verify_length in H1. unfold valid_crp, valid_range_proof, valid_ring_proof, at_least. rewrite H1. exact (Hsum _ _ Hdc).
  - apply sq_verify_length in H2. rewrite map_length, Hl in H2. unfold valid_sq, at_least. lia.
Qed.
Print Assumptions C50_accepted_ballots.

(** Exceptions.  A proof about zero squares verifies, but cannot be serialized in debug builds nor reread
    in release builds. *)
Theorem C50_empty_sum_refuted :
  forall (E : Env) (L : GroupLaws E) (z : CiphertextWithValue E (Scalar E)) (K : PublicKey E) t r,
    ser_total E -> encrypts K (cwv_inner z) identity (cwv_randomness z) -> cwv_value z = s_default ->
    exists p t' r', SumOfSquaresProof_new [] z K t r = Ret (p, t', r') /\
      SumOfSquaresProof_verify p [] (cwv_inner z) K t = Ret (Ok tt, t') /\
      forall h,
        if debug_assertions (env_build E) then enc SumOfSquaresProof_codec h p = Panic PDebugAssert
        else exists v, enc SumOfSquaresProof_codec h p = Ret v /\ dec (SumOfSquaresProof_codec (E:=E)) h v = Ret None.
Proof.
  intros E L z K t r Ht Hz Hv. destruct (sq_new_total E L [] z K t r Ht) as (p & t' & r' & Hp). exists p, t', r'. split; [exact Hp|].
  assert (Ho : SumOfSquaresProof_verify p [] (cwv_inner z) K t = Ret (Ok tt, t')).
  { apply (sq_complete E L [] z K t r p t' r'); [constructor| |exact Hv|exact Hp].
    rewrite Hv, (e_mul_0 L). exact Hz. }
  split; [exact Ho|]. apply sq_verify_length in Ho. destruct p as [c [|] s]; [|discriminate Ho]. intros h.
  cbn [enc SumOfSquaresProof_codec sq_challenge sq_ciphertext_responses sq_sum_response]. unfold debug_assert. cbn [ScalarHelper enc bind VecHelper].
  unfold debug_assert. destruct (debug_assertions (env_build E)); cbn [List.length Nat.leb bind mapM]; [reflexivity|].
  eexists. split; [reflexivity|]. cbn [dec SumOfSquaresProof_codec]. cbn [struct_fields struct_map_fields].
  match goal with |- match ?m with _ => _ end = _ => let m' := eval cbn in m in change m with m' end. cbn iota beta.
  rewrite (law_round_trip (scalar_lawful E L) h h c _ ltac:(destruct h; reflexivity) I eq_refl). reflexivity.
Qed.
Print Assumptions C50_empty_sum_refuted.

(** The zero secret is accepted by [SecretKey::from_bytes]; its public key serializes (with backends that can encode
    the identity), but is rejected when reread. *)
Theorem C50_identity_key_refuted :
  forall (E : Env) (L : GroupLaws E) (k : PublicKey E) h,
    PublicKey_from_secret s_default = Ret k ->
    SecretKey_from_bytes (E:=E) (serialize_scalar (s_default : Scalar E)) = Some s_default /\
    exists v, enc PublicKey_codec h k = Ret v /\ dec (PublicKey_codec (E:=E)) h v = Ret None.
Proof.
  intros E L k h H. split; [apply (sk_codec E L)|]. eexists. split; [reflexivity|]. cbn [dec PublicKey_codec].
  rewrite bytes_round_trip by (destruct h; reflexivity). destruct (PublicKey_from_bytes (pk_bytes k)) as [k'|e] eqn:Hk; [exfalso|reflexivity].
  apply (from_bytes_iff E L) in Hk. destruct Hk as (Hb & _ & Hd & Hn). unfold PublicKey_from_secret, PublicKey_from_element in H.
  inv_bind H. injection H as <-. cbn [pk_bytes] in Hb. destruct (ser_element_ok E L _ _ Hm) as [_ Hd']. rewrite Hb, Hd' in Hd. injection Hd as Hd.
  apply Hn. rewrite <- Hd, (mul_generator_ok E L). apply (e_mul_0 L).
Qed.
Print Assumptions C50_identity_key_refuted.

(** With SEC1 backends the identity has no encoding of the required size: ciphertexts containing it, e.g.
    [Ciphertext::zero()], cannot be serialized. *)
Theorem C50_sec1_refuted :
  forall (E : Env) k h, serialize_element (identity : Element E) = Panic k ->
    enc Ciphertext_codec h (Ciphertext_zero : Ciphertext E) = Panic k.
Proof. intros E k h H. cbn [enc Ciphertext_codec Ciphertext_zero random_element ElementHelper]. rewrite H. reflexivity. Qed.
Print Assumptions C50_sec1_refuted.

(** ** C51: rejection *)
Theorem C51_documents :
  forall human v b, deserialize_bytes human v = Some b <-> carries human v b.
Proof.
  intros h v b. split; [apply deserialize_bytes_inv|]. intros [->|(-> & ->)]; [reflexivity|]. apply base64_round_trip.
Qed.
Print Assumptions C51_documents.

(** leaves are accepted exactly if they carry a proper encoding *)
Theorem C51_scalars :
  forall (E : Env) (L : GroupLaws E) human v (s : Scalar E),
    dec ScalarHelper human v = Ret (Some s) <-> carries human v (serialize_scalar s).
Proof.
  intros E L h v s. split.
  - cbn [dec ScalarHelper]. destruct (deserialize_bytes h v) as [b|] eqn:Hb; [|discriminate].
    destruct (Nat.eqb_spec (List.length b) (SCALAR_SIZE E)); [|discriminate]. intros H. injection H as H.
    apply C51_documents in Hb. rewrite (ser_deser_scalar E L b s); assumption.
  - intros H. apply C51_documents in H. cbn [dec ScalarHelper]. rewrite H, (ser_scalar_len E L), Nat.eqb_refl, (deser_ser_scalar E L). reflexivity.
Qed.
Print Assumptions C51_scalars.

Theorem C51_secret_keys :
  forall (E : Env) (L : GroupLaws E) human v (s : SecretKey E),
    dec SecretKey_codec human v = Ret (Some s) <-> carries human v (serialize_scalar s).
Proof.
  intros E L h v s. split.
  - cbn [dec SecretKey_codec]. destruct (deserialize_bytes h v) as [b|] eqn:Hb; [|discriminate]. intros H. injection H as H.
    apply C51_documents in Hb. rewrite (sk_codec_inv E L b s H). exact Hb.
  - intros H. apply C51_documents in H. cbn [dec SecretKey_codec]. rewrite H, (sk_codec E L). reflexivity.
Qed.
Print Assumptions C51_secret_keys.

Theorem C51_elements :
  forall (E : Env) human v (e : Element E),
    dec ElementHelper human v = Ret (Some e) <->
    exists b, carries human v b /\ List.length b = ELEMENT_SIZE E /\ deserialize_element b = Some e.
Proof.
  intros E h v e. split.
  - cbn [dec ElementHelper]. destruct (deserialize_bytes h v) as [b|] eqn:Hb; [|discriminate].
    destruct (Nat.eqb_spec (List.length b) (ELEMENT_SIZE E)); [|discriminate]. intros H. injection H as H.
    apply C51_documents in Hb. eauto.
  - intros (b & H & Hl & He). apply C51_documents in H. cbn [dec ElementHelper]. rewrite H, Hl, Nat.eqb_refl, He. reflexivity.
Qed.
Print Assumptions C51_elements.

Theorem C51_public_keys :
  forall (E : Env) (L : GroupLaws E) human v (k : PublicKey E),
    dec PublicKey_codec human v = Ret (Some k) <->
    carries human v (pk_bytes k) /\ List.length (pk_bytes k) = ELEMENT_SIZE E /\
    deserialize_element (pk_bytes k) = Some (pk_element k) /\ pk_element k <> identity.
Proof.
  intros E L h v k. split.
  - cbn [dec PublicKey_codec]. destruct (deserialize_bytes h v) as [b|] eqn:Hb; [|discriminate]. intros H.
    destruct (PublicKey_from_bytes b) as [k'|] eqn:Hk; [|discriminate]. injection H as <-. apply (from_bytes_iff E L) in Hk as [<- Hk].
    apply C51_documents in Hb. split; [exact Hb|exact Hk].
  - intros [H Hk]. apply C51_documents in H. cbn [dec PublicKey_codec]. rewrite H.
    rewrite (proj2 (from_bytes_iff E L _ k) (conj eq_refl Hk)). reflexivity.
Qed.
Print Assumptions C51_public_keys.

(** vectors: every item is read, and there are at least [MIN] of them *)
Theorem C51_vectors :
  forall (E : Env) (A : Type) (c : Codec A) MIN human v xs,
    dec (VecHelper (E:=E) c MIN) human v = Ret (Some xs) <->
    exists items, v = SSeq items /\ MIN <= List.length xs /\
      Forall2 (fun item x => dec c human item = Ret (Some x)) items xs.
Proof.
  intros E A c MIN h v xs.
  assert (Hall : forall items ys, dec_all (dec c h) items = Ret (Some ys) <-> Forall2 (fun item x => dec c h item = Ret (Some x)) items ys).
  { induction items as [|i items IH]; intros ys; cbn [dec_all].
    - split; [intros H; injection H as <-; constructor|]. intros H. inversion H. reflexivity.
    - split.
      + intros H. inv_obind H. inv_obind H. injection H as <-. constructor; [exact Hm|apply IH; exact Hm0].
      + intros H. inversion H as [|? ? ? ? H1 H2]; subst. rewrite H1, obind_some. apply IH in H2. rewrite H2. reflexivity. }
  cbn [dec VecHelper]. split.
  - destruct v; try discriminate. destruct (_ <? _) eqn:Hlt; [discriminate|]. intros H. inv_obind H.
    destruct (Nat.leb_spec MIN (List.length y)); [|discriminate]. injection H as <-. exists l. split; [reflexivity|]. split; [assumption|].
    apply Hall. exact Hm.
  - intros (items & -> & Hl & H). apply Forall2_length' in H as Hlen. apply Hall in H.
    destruct (Nat.ltb_spec (List.length items) MIN); [lia|]. rewrite H, obind_some. apply Nat.leb_le in Hl. rewrite Hl. reflexivity.
Qed.
Print Assumptions C51_vectors.

(** Arbitrary documents never lead to a panic, and what is read satisfies the invariants of its type. *)
Theorem C51_messages :
  forall (E : Env) (L : GroupLaws E),
    reads_only True (PublicKey_codec (E:=E)) valid_key /\
    reads_only True (Ciphertext_codec (E:=E)) (fun _ => True) /\
    reads_only True (CandidateDecryption_codec (E:=E)) (fun _ => True) /\
    reads_only True (LogEqualityProof_codec (E:=E)) (fun _ => True) /\
    reads_only True (ProofOfPossession_codec (E:=E)) (fun p => 1 <= List.length (pop_responses p)) /\
    reads_only True (RingProof_codec (E:=E)) (fun p => 2 <= List.length (rp_responses p)) /\
    reads_only True (RangeProof_codec (E:=E)) (fun p => 2 <= List.length (rp_responses (rap_inner p))) /\
    reads_only True (CommitmentEquivalenceProof_codec (E:=E)) (fun _ => True) /\
    reads_only True (SumOfSquaresProof_codec (E:=E)) (fun p => 2 <= List.length (sq_ciphertext_responses p)) /\
    reads_only True (PublicKeySet_codec (E:=E)) valid_key_set /\
    reads_only True (ActiveParticipant_codec (E:=E)) valid_active /\
    reads_only True (PublicInfo_codec (E:=E)) valid_info /\
    reads_only True (EncryptedChoice_codec MultiChoice (unit_codec : Codec (ps_Proof (MultiChoice (E:=E))))) valid_choice /\
    reads_only True (EncryptedChoice_codec SingleChoice (LogEqualityProof_codec : Codec (ps_Proof (SingleChoice (E:=E))))) valid_choice /\
    reads_only True (QuadraticVotingBallot_codec (E:=E)) valid_ballot.
Proof.
  intros E L.
  split; [exact (ro (public_key_lawful E L))|].
  split; [exact (ro (ciphertext_lawful E L))|].
  split; [exact (ro (candidate_lawful E L))|].
  split; [exact (ro (log_equality_lawful E L))|].
  split; [exact (ro (possession_lawful E L))|].
  split; [exact (ro (ring_proof_lawful E L))|].
  split; [exact (ro (range_proof_lawful E L))|].
  split; [exact (ro (commitment_lawful E L))|].
  split; [exact (ro (sq_lawful E L))|].
  split; [exact (ro (key_set_lawful E L))|].
  split; [exact (ro (active_lawful E L))|].
  split; [exact (ro (info_lawful E L))|].
  split; [exact (ro (choice_lawful E L MultiChoice unit_codec unit_lawful))|].
  split; [exact (ro (choice_lawful E L SingleChoice LogEqualityProof_codec (log_equality_lawful E L)))|].
  exact (ro (ballot_lawful E L)).
Qed.
Print Assumptions C51_messages.

(** Key pairs, dealers and participants of the key generation recompute public keys; reading them does not panic
    with backends that can encode the identity. *)
Theorem C51_secrets :
  forall (E : Env) (L : GroupLaws E),
    reads_only (ser_total E) (Keypair_codec (E:=E)) valid_keypair /\
    reads_only (ser_total E) (Dealer_codec (E:=E)) valid_dealer /\
    reads_only (ser_total E) (PCC_codec (E:=E)) valid_pcc /\
    reads_only (ser_total E) (PCP_codec (E:=E)) valid_pcp /\
    reads_only (ser_total E) (PES_codec (E:=E)) valid_pes.
Proof.
  intros E L.
  split; [exact (ro (keypair_lawful E L))|].
  split; [exact (ro (dealer_lawful E L))|].
  split; [exact (ro (pcc_lawful E L))|].
  split; [exact (ro (pcp_lawful E L))|].
  exact (ro (pes_lawful E L)).
Qed.
Print Assumptions C51_secrets.

(** With SEC1 backends a document with a zero secret makes reading a key pair panic. *)
Theorem C51_sec1_refuted :
  forall (E : Env) (L : GroupLaws E) k h, serialize_element (identity : Element E) = Panic k ->
    dec (Keypair_codec (E:=E)) h (serialize_bytes h (serialize_scalar (s_default : Scalar E))) = Panic k.
Proof.
  intros E L k h H. cbn [dec Keypair_codec SecretKey_codec]. rewrite bytes_round_trip by (destruct h; reflexivity).
  rewrite (sk_codec E L), obind_some. unfold Keypair_from_secret, PublicKey_from_secret, PublicKey_from_element.
  rewrite (mul_generator_ok E L), (e_mul_0 L), H. reflexivity.
Qed.
Print Assumptions C51_sec1_refuted.

(** ** Examples *)
Definition str (s : string) : list ascii := list_ascii_of_string s.
Example C50_example_base64 :
  base64_encode [x00; x10; x83; xff] = str "ABCD_w" /\ base64_decode (str "ABCD_w") = Some [x00; x10; x83; xff] /\
  (* unused bits, padding, the standard alphabet, a dangling character *)
  base64_decode (str "ABCD_x") = None /\ base64_decode (str "ABCD_w==") = None /\ base64_decode (str "ABCD/w") = None /\
  base64_decode (str "ABCDE") = None.
Proof. vm_compute. repeat split. Qed.

Definition ex_lep : LogEqualityProof RE := {| le_challenge := rs 5; le_response := rs 7 |}.
(** the fields may come in any order; duplicate and missing ones are rejected *)
Example C50_example_proof :
  enc LogEqualityProof_codec true ex_lep = Ret (SMap [("challenge", SStr (str "BQAAAAAAAAAA")); ("response", SStr (str "BwAAAAAAAAAA"))]) /\
  dec (LogEqualityProof_codec (E:=RE)) true (SMap [("response", SStr (str "BwAAAAAAAAAA")); ("x", SNull); ("challenge", SStr (str "BQAAAAAAAAAA"))]) =
    Ret (Some ex_lep) /\
  match dec (LogEqualityProof_codec (E:=RE)) true (SMap [("response", SStr (str "BwAAAAAAAAAA"))]) with Ret None => True | _ => False end.
Proof.
  split; [vm_compute; reflexivity|]. split; [|vm_compute; exact I].
  cbn [dec LogEqualityProof_codec].
  match goal with |- match ?m with _ => _ end = _ => let m' := eval cbn in m in change m with m' end. cbn iota beta.
  rewrite (proj2 (C51_scalars RE RL true _ (rs 5))) by (right; split; [reflexivity|vm_compute; reflexivity]).
  rewrite obind_some.
  rewrite (proj2 (C51_scalars RE RL true _ (rs 7))) by (right; split; [reflexivity|vm_compute; reflexivity]).
  reflexivity.
Qed.

(** a valid key; SEC1 backends do not encode the identity.  Ballots accepted by a verifier: see C41 and C46. *)
Example C50_example_key : valid_key ex_key /\ ~ ser_total KE /\ exists k, serialize_element (identity : Element KE) = Panic k.
Proof.
  split; [|split].
  - split; [vm_compute; reflexivity|]. split; [|apply re_neq; vm_compute; reflexivity].
    apply (proj2 (ser_element_ok RE RL (re 987654321) (zbytes qx 9 (re 987654321)) eq_refl)).
  - intros [b H]. vm_compute in H. discriminate.
  - eexists. vm_compute. reflexivity.
Qed.
