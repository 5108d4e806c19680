(** * Specification vocabulary for serialization (C50, C51): which values round-trip *)
From Coq Require Import List NArith Arith Bool Ascii Strings.Byte.
From Verif.Model Require Import Base Group Transcript Keys Encryption LogEquality Possession
  Ring Range Commitment Mul Sharing Dkg Choice Quadratic Serde.
From Verif.Spec Require Import Encryption.
Import ListNotations.

(** A codec on the values satisfying [wf]; [T] is what totality of decoding needs and [U] what
    totality of encoding needs.  [h] and [h'] tell whether the serializer and the deserializer are human
    readable; serde's [flatten] makes them differ. *)
Record lawful {A : Type} (T U : Prop) (c : Codec A) (wf : A -> Prop) : Prop := {
  law_round_trip : forall h h' x v, implb h h' = true -> wf x ->
    enc c h x = Ret v -> dec c h' v = Ret (Some x);
  law_accepts : forall h v x, dec c h v = Ret (Some x) -> wf x;
  law_dec_total : T -> forall h v, exists o, dec c h v = Ret o;
  law_enc_total : U -> forall h x, wf x -> exists v, enc c h x = Ret v
}.
Arguments law_round_trip {A T U c wf}.
Arguments law_accepts {A T U c wf}.
Arguments law_dec_total {A T U c wf}.
Arguments law_enc_total {A T U c wf}.

Section Wf.
Context {E : Env}.

Definition any {A : Type} (_ : A) : Prop := True.

(** The stored bytes of a public key encode its element, which is not the identity. *)
Definition valid_key (k : PublicKey E) : Prop :=
  List.length (pk_bytes k) = ELEMENT_SIZE E /\ deserialize_element (pk_bytes k) = Some (pk_element k) /\
  pk_element k <> identity.

(** The public half of a key pair belongs to the secret half. *)
Definition valid_keypair (k : Keypair E) : Prop :=
  key_of (kp_secret k) (kp_public k) /\ key_bytes_ok (kp_public k).

Definition is_u64 (n : nat) : Prop := (N.of_nat n < 2 ^ 64)%N.
Definition at_least {A : Type} (k : nat) (l : list A) : Prop := (k <= List.length l)%nat.

Definition valid_pop (p : ProofOfPossession E) : Prop := at_least 1 (pop_responses p).
Definition valid_ring_proof (p : RingProof E) : Prop := at_least 2 (rp_responses p).
Definition valid_range_proof (p : RangeProof E) : Prop := valid_ring_proof (rap_inner p).
Definition valid_sq (p : SumOfSquaresProof E) : Prop := at_least 2 (sq_ciphertext_responses p).
Definition valid_params (p : Params) : Prop := is_u64 (pa_shares p) /\ is_u64 (pa_threshold p).
Definition valid_key_set (s : PublicKeySet E) : Prop :=
  valid_params (ks_params s) /\ valid_key (ks_shared_key s) /\ Forall valid_key (ks_participant_keys s).
Definition valid_dealer (d : Dealer E) : Prop :=
  valid_params (de_params d) /\ Forall valid_keypair (de_polynomial d) /\ valid_pop (de_pop d).
Definition valid_active (p : ActiveParticipant E) : Prop :=
  valid_key_set (ap_key_set p) /\ is_u64 (ap_index p).
Definition bytes32 (b : bytes) : Prop := List.length b = 32%nat.
Definition valid_info (i : PublicInfo E) : Prop :=
  at_least 1 (pi_polynomial i) /\ valid_pop (pi_pop i) /\ bytes32 (pi_opening i).
Definition opt {A : Type} (P : A -> Prop) (o : option A) : Prop :=
  match o with Some x => P x | None => True end.
Definition valid_pcc (p : ParticipantCollectingCommitments E) : Prop :=
  valid_params (pcc_params p) /\ is_u64 (pcc_index p) /\ valid_dealer (pcc_dealer p) /\
  Forall (opt bytes32) (pcc_commitments p) /\ bytes32 (pcc_opening p).
Definition valid_pcp (p : ParticipantCollectingPolynomials E) : Prop :=
  valid_params (pcp_params p) /\ is_u64 (pcp_index p) /\ valid_dealer (pcp_dealer p) /\
  bytes32 (pcp_opening p) /\ Forall bytes32 (pcp_commitments p) /\
  Forall (opt (at_least 1)) (pcp_public_polynomials p).
Definition valid_pes (p : ParticipantExchangingSecrets E) : Prop :=
  valid_params (pes_params p) /\ is_u64 (pes_index p) /\ valid_dealer (pes_dealer p) /\
  Forall (at_least 1) (pes_public_polynomials p).
Definition valid_choice {S : ProveSum E} (c : EncryptedChoice S) : Prop := valid_ring_proof (ec_range_proof c).
Definition valid_crp (c : CiphertextWithRangeProof E) : Prop := valid_range_proof (crp_range_proof c).
Definition valid_ballot (b : QuadraticVotingBallot E) : Prop :=
  Forall valid_crp (qb_votes b) /\ valid_crp (qb_credit b) /\ valid_sq (qb_credit_equivalence_proof b).
End Wf.

(** Every value satisfying [wf] deserializes from its own serialization, in formats of both kinds; given [U],
    serialization does not panic. *)
Definition round_trips {A : Type} (U : Prop) (c : Codec A) (wf : A -> Prop) : Prop :=
  forall human x, wf x ->
    (forall v, enc c human x = Ret v -> dec c human v = Ret (Some x)) /\
    (U -> exists v, enc c human x = Ret v).

(** Whatever document is read, the result satisfies [wf]; given [T], reading does not panic. *)
Definition reads_only {A : Type} (T : Prop) (c : Codec A) (wf : A -> Prop) : Prop :=
  forall human v,
    (forall x, dec c human v = Ret (Some x) -> wf x) /\
    (T -> exists o, dec c human v = Ret o).

(** Documents that carry the byte string [b] *)
Definition carries (human : bool) (v : sval) (b : bytes) : Prop :=
  v = SBytes b \/ (human = true /\ v = SStr (base64_encode b)).
