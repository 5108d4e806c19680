(** * Specification vocabulary for the wire format (C66)

    What the documents produced and accepted by serde look like, in terms of names, order and
    bytes.  The layout of each type is given once, over the parts of a document; a part is read
    either as what the library writes or as what it accepts. *)
From Coq Require Import List NArith Arith Bool Ascii String Strings.Byte.
From Verif.Model Require Import Base Group Transcript Keys Encryption LogEquality Possession
  Ring Range Commitment Mul Sharing Dkg Choice Quadratic Serde.
From Verif.Spec Require Import Encryption Serde.
Import ListNotations.
Open Scope string_scope.
Open Scope list_scope.

(** ** Base64url without padding (RFC 4648, sections 4 and 5): the bits of the bytes, most
    significant first, in groups of six, the last group filled up with zeros *)
Definition bits_of_byte (x : byte) : list bool :=
  map (N.testbit (Byte.to_N x)) [7; 6; 5; 4; 3; 2; 1; 0]%N.

Definition bits (l : bytes) : list bool := flat_map bits_of_byte l.

Definition number (l : list bool) : N :=
  fold_left (fun n (x : bool) => (2 * n + if x then 1 else 0)%N) l 0%N.

(** Table 2 of the RFC by code point: A-Z, a-z, 0-9, minus, underline *)
Definition b64url_code_point (n : N) : N :=
  (if n <? 26 then 65 + n
   else if n <? 52 then 97 + (n - 26)
   else if n <? 62 then 48 + (n - 52)
   else if n =? 62 then 45
   else 95)%N.

Inductive base64url_of_bits : list bool -> list ascii -> Prop :=
| B64_end : base64url_of_bits [] []
| B64_last : forall l pad, l <> [] -> (List.length l < 6)%nat -> (List.length l + pad = 6)%nat ->
    base64url_of_bits l [ascii_of_N (b64url_code_point (number (l ++ repeat false pad)))]
| B64_group : forall g l s, List.length g = 6%nat -> base64url_of_bits l s ->
    base64url_of_bits (g ++ l) (ascii_of_N (b64url_code_point (number g)) :: s).

Definition base64url (b : bytes) (s : list ascii) : Prop := base64url_of_bits (bits b) s.

(** ** Documents *)
Definition doc : Type := sval -> Prop.

(** A byte string: base64url in human-readable formats, raw bytes otherwise *)
Definition writes_bytes (human : bool) (b : bytes) : doc := fun v =>
  if human then exists s, base64url b s /\ v = SStr s else v = SBytes b.
(** Readers of human-readable formats also take raw bytes. *)
Definition accepts_bytes (human : bool) (b : bytes) : doc := fun v =>
  v = SBytes b \/ (human = true /\ exists s, base64url b s /\ v = SStr s).

(** A struct is written as the map of its fields, in order. *)
Definition writes_struct (fields : list (string * doc)) : doc := fun v =>
  exists vs, Forall2 (fun f w => snd f w) fields vs /\ v = SMap (combine (map fst fields) vs).

(** It is read from a map with exactly one entry for each field, other entries being
    ignored, *)
Definition the_entry (l : list (string * sval)) (name : string) (w : sval) : Prop :=
  exists l1 l2, l = l1 ++ (name, w) :: l2 /\ ~ In name (map fst l1) /\ ~ In name (map fst l2).
Definition accepts_map (fields : list (string * doc)) : doc := fun v =>
  exists l, v = SMap l /\ Forall (fun f => exists w, the_entry l (fst f) w /\ snd f w) fields.
(** or from the sequence of its fields. *)
Definition accepts_struct (fields : list (string * doc)) : doc := fun v =>
  accepts_map fields v \/ exists vs, v = SSeq vs /\ Forall2 (fun f w => snd f w) fields vs.

Definition seq_doc {A : Type} (d : A -> doc) (l : list A) : doc := fun v =>
  exists vs, v = SSeq vs /\ Forall2 d l vs.
Definition option_doc {A : Type} (d : A -> doc) (o : option A) : doc := fun v =>
  match o with
  | None => v = SNull
  | Some x => v <> SNull /\ d x v
  end.
Definition nat_doc (n : nat) : doc := fun v => v = SNum (N.of_nat n).
Definition bool_doc (x : bool) : doc := fun v => v = SBool x.
Definition digest_doc : bytes -> doc := seq_doc (fun x v => v = SNum (Byte.to_N x)).

(** ** Parts: what differs between writing and reading *)
Section Layouts.
Context {E : Env}.

Record parts : Type := mkParts {
  bytes_part : bytes -> doc;
  scalar_part : Scalar E -> doc;
  element_part : Element E -> doc;
  key_part : PublicKey E -> doc;
  keypair_part : Keypair E -> doc;
  struct_part : list (string * doc) -> doc;
  (** a number of fixed width, a byte string of 32 bytes, and a sequence with a least length *)
  nat_part : nat -> doc;
  opening_part : bytes -> doc;
  digest_part : bytes -> doc;
  seq_part : forall A, nat -> (A -> doc) -> list A -> doc
}.

Definition writing (h : bool) : parts :=
  mkParts
    (writes_bytes h)
    (fun s => writes_bytes h (serialize_scalar s))
    (fun e v => exists b, serialize_element e = Ret b /\ writes_bytes h b v)
    (fun k => writes_bytes h (pk_bytes k))
    (fun k => writes_bytes h (serialize_scalar (kp_secret k)))
    writes_struct
    nat_doc
    (writes_bytes h)
    digest_doc
    (** shorter sequences panic in builds with debug assertions *)
    (fun A least d l v => seq_doc d l v /\ (debug_assertions (env_build E) = true -> (least <= List.length l)%nat)).

Definition reading (h : bool) : parts :=
  mkParts
    (accepts_bytes h)
    (fun s v => exists b, accepts_bytes h b v /\ List.length b = SCALAR_SIZE E /\ deserialize_scalar b = Some s)
    (fun e v => exists b, accepts_bytes h b v /\ List.length b = ELEMENT_SIZE E /\ deserialize_element b = Some e)
    (fun k v => accepts_bytes h (pk_bytes k) v /\ valid_key k)
    (fun k v => exists b, accepts_bytes h b v /\ List.length b = SCALAR_SIZE E /\
                          deserialize_scalar b = Some (kp_secret k) /\
                          key_of (kp_secret k) (kp_public k) /\ key_bytes_ok (kp_public k))
    accepts_struct
    (fun n v => nat_doc n v /\ is_u64 n)
    (fun b v => accepts_bytes h b v /\ List.length b = 32%nat)
    (fun b v => digest_doc b v /\ List.length b = 32%nat)
    (fun A least d l v => seq_doc d l v /\ (least <= List.length l)%nat).

(** ** Layouts *)
Definition seqs (p : parts) {A : Type} (d : A -> doc) : list A -> doc := seq_part p A 0 d.

Definition ciphertext_doc (p : parts) (c : Ciphertext E) : doc :=
  struct_part p [("random_element", element_part p (random_element c));
                 ("blinded_element", element_part p (blinded_element c))].
Definition decryption_doc (p : parts) (d : VerifiableDecryption E) : doc :=
  struct_part p [("dh_element", element_part p (vd_dh_element d))].
Definition log_equality_doc (p : parts) (x : LogEqualityProof E) : doc :=
  struct_part p [("challenge", scalar_part p (le_challenge x)); ("response", scalar_part p (le_response x))].
Definition possession_doc (p : parts) (x : ProofOfPossession E) : doc :=
  struct_part p [("challenge", scalar_part p (pop_challenge x));
                 ("responses", seq_part p _ 1 (scalar_part p) (pop_responses x))].
Definition ring_fields (p : parts) (x : RingProof E) : list (string * doc) :=
  [("common_challenge", scalar_part p (rp_challenge x));
   ("ring_responses", seq_part p _ 2 (scalar_part p) (rp_responses x))].
Definition ring_doc (p : parts) (x : RingProof E) : doc := struct_part p (ring_fields p x).
(** The ring proof is flattened into the range proof; [q] are its parts and [map] the way such a
    struct is written or read *)
Definition range_doc (map : list (string * doc) -> doc) (p q : parts) (x : RangeProof E) : doc :=
  map (("partial_ciphertexts", seqs p (ciphertext_doc p) (rap_partial x)) :: ring_fields q (rap_inner x)).
Definition commitment_doc (p : parts) (x : CommitmentEquivalenceProof E) : doc :=
  struct_part p [("challenge", scalar_part p (ce_challenge x));
                 ("randomness_response", scalar_part p (ce_randomness_response x));
                 ("value_response", scalar_part p (ce_value_response x));
                 ("commitment_response", scalar_part p (ce_commitment_response x))].
Definition squares_doc (p : parts) (x : SumOfSquaresProof E) : doc :=
  struct_part p [("challenge", scalar_part p (sq_challenge x));
                 ("ciphertext_responses", seq_part p _ 2 (scalar_part p) (sq_ciphertext_responses x));
                 ("sum_response", scalar_part p (sq_sum_response x))].
Definition params_doc (p : parts) (x : Params) : doc :=
  struct_part p [("shares", nat_part p (pa_shares x)); ("threshold", nat_part p (pa_threshold x))].
Definition polynomial_doc (p : parts) (x : PublicPolynomial E) : doc := seq_part p _ 1 (element_part p) x.
Definition key_set_doc (p : parts) (x : PublicKeySet E) : doc :=
  struct_part p [("params", params_doc p (ks_params x)); ("shared_key", key_part p (ks_shared_key x));
                 ("participant_keys", seqs p (key_part p) (ks_participant_keys x))].
Definition dealer_doc (p : parts) (x : Dealer E) : doc :=
  struct_part p [("params", params_doc p (de_params x));
                 ("polynomial", seqs p (keypair_part p) (de_polynomial x));
                 ("proof_of_possession", possession_doc p (de_pop x))].
Definition active_doc (p : parts) (x : ActiveParticipant E) : doc :=
  struct_part p [("key_set", key_set_doc p (ap_key_set x)); ("index", nat_part p (ap_index x));
                 ("secret_share", scalar_part p (ap_secret_share x))].
Definition info_doc (p : parts) (x : PublicInfo E) : doc :=
  struct_part p [("polynomial", polynomial_doc p (pi_polynomial x));
                 ("proof_of_possession", possession_doc p (pi_pop x));
                 ("opening", opening_part p (pi_opening x))].
Definition commitments_doc (p : parts) (x : ParticipantCollectingCommitments E) : doc :=
  struct_part p [("params", params_doc p (pcc_params x)); ("index", nat_part p (pcc_index x));
                 ("dealer", dealer_doc p (pcc_dealer x));
                 ("commitments", seqs p (option_doc (digest_part p)) (pcc_commitments x));
                 ("opening", opening_part p (pcc_opening x))].
Definition polynomials_doc (p : parts) (x : ParticipantCollectingPolynomials E) : doc :=
  struct_part p [("params", params_doc p (pcp_params x)); ("index", nat_part p (pcp_index x));
                 ("dealer", dealer_doc p (pcp_dealer x)); ("opening", opening_part p (pcp_opening x));
                 ("commitments", seqs p (digest_part p) (pcp_commitments x));
                 ("public_polynomials", seqs p (option_doc (polynomial_doc p)) (pcp_public_polynomials x))].
Definition secrets_doc (p : parts) (x : ParticipantExchangingSecrets E) : doc :=
  struct_part p [("params", params_doc p (pes_params x)); ("index", nat_part p (pes_index x));
                 ("dealer", dealer_doc p (pes_dealer x));
                 ("public_polynomials", seqs p (polynomial_doc p) (pes_public_polynomials x));
                 ("accumulated_share", scalar_part p (pes_accumulated_share x));
                 ("shares_received", seqs p bool_doc (pes_shares_received x))].
Definition choice_doc (p : parts) {S : ProveSum E} (sum : ps_Proof S -> doc) (x : EncryptedChoice S) : doc :=
  struct_part p [("choices", seqs p (ciphertext_doc p) (ec_choices x));
                 ("range_proof", ring_doc p (ec_range_proof x)); ("sum_proof", sum (ec_sum_proof x))].
Definition ranged_doc (map : list (string * doc) -> doc) (p q : parts) (x : CiphertextWithRangeProof E) : doc :=
  struct_part p [("ciphertext", ciphertext_doc p (crp_ciphertext x));
                 ("range_proof", range_doc map p q (crp_range_proof x))].
Definition ballot_doc (map : list (string * doc) -> doc) (p q : parts) (x : QuadraticVotingBallot E) : doc :=
  struct_part p [("votes", seqs p (ranged_doc map p q) (qb_votes x)); ("credit", ranged_doc map p q (qb_credit x));
                 ("credit_equivalence_proof", squares_doc p (qb_credit_equivalence_proof x))].
End Layouts.
Arguments parts : clear implicits.

(** ** What a codec does, against a layout *)
Definition writes {A : Type} (c : Codec A) (layout : bool -> A -> doc) : Prop :=
  forall human x v, enc c human x = Ret v <-> layout human x v.
Definition reads {A : Type} (c : Codec A) (layout : bool -> A -> doc) : Prop :=
  forall human v x, dec c human v = Ret (Some x) <-> layout human x v.
