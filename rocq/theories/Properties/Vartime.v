(** * C80: secret data never reaches the variable-time operations of the backend *)
From Coq Require Import List NArith ZArith Bool String.
From Verif.Model Require Import Base Group Transcript Keys Encryption LogEquality Possession
  Commitment Mul Ring Range Sharing Choice Quadratic Dkg.
From Verif.Spec Require Import Vartime.
From Verif.Proofs Require Import Vartime.
From Verif.Instance Require Import Zq.
From Verif.Properties Require Import LogEquality Ring.
Import ListNotations.

(** In every statement [E] is an arbitrary environment and [f], [g], [h] are arbitrary
    replacements for its variable-time operations (src/group/mod.rs 203, 232, 248); [h] may
    even panic.  Each operation on secret data gives the same result, panic for panic, in
    both environments: no output, and so no call leading to one, depends on the
    variable-time operations.  [cv_*] carry values over field by field. *)

(** Key generation and encryption. *)
Theorem C80_keys_and_encryption :
  forall (E : Env) (f : Scalar E -> Element E) (g : Scalar E -> Element E -> Scalar E -> Element E)
    (h : list (Scalar E) -> list (Element E) -> outcome (Element E)) (r : Rng E) (sk : SecretKey E)
    (pk : PublicKey E) (kp : Keypair E) (v : Scalar E) (M : Element E),
  let E' := env_vartime E f g h in
  Keypair_generate (E := E') r = omap (fun p => (cv_kp (fst p), snd p)) (Keypair_generate r) /\
  Keypair_from_secret (E := E') sk = omap cv_kp (Keypair_from_secret sk) /\
  Keypair_mul (E := E') (cv_kp kp) v = omap cv_kp (Keypair_mul kp v) /\
  encrypt (E := E') (cv_pk pk) v r = (let '(c, r') := encrypt pk v r in (cv_ct c, r')) /\
  encrypt_element (E := E') (cv_pk pk) M r
    = (let '(c, r') := encrypt_element pk M r in (cv_ct c, r')) /\
  encrypt_zero (E := E') (cv_pk pk) r
    = omap (fun p => let '(c, q, r') := p in (cv_ct c, cv_le q, r')) (encrypt_zero pk r).
Proof.
  intros E f g h r sk pk kp v M E'.
  split; [apply vt_keypair_generate|]. split; [apply vt_keypair_from_secret|].
  split; [apply vt_keypair_mul|]. split; [apply vt_encrypt|].
  split; [apply vt_encrypt_element|]. apply vt_encrypt_zero.
Qed.
Print Assumptions C80_keys_and_encryption.

(** Decryption; the lookup table is public, its construction may use [f]. *)
Theorem C80_decryption :
  forall (E : Env) (f : Scalar E -> Element E) (g : Scalar E -> Element E -> Scalar E -> Element E)
    (h : list (Scalar E) -> list (Element E) -> outcome (Element E)) (sk : SecretKey E)
    (keys : Keypair E) (c : Ciphertext E) (tbl : DiscreteLogTable) (t : transcript) (r : Rng E),
  let E' := env_vartime E f g h in
  decrypt_to_element (E := E') sk (cv_ct c) = decrypt_to_element sk c /\
  decrypt (E := E') sk (cv_ct c) tbl = decrypt sk c tbl /\
  VerifiableDecryption_new (E := E') (cv_ct c) (cv_kp keys) t r
    = omap (fun p => let '(d, q, t', r') := p in (cv_vd d, cv_le q, t', r'))
           (VerifiableDecryption_new c keys t r).
Proof.
  intros E f g h sk keys c tbl t r E'. split; [reflexivity|]. split; [reflexivity|].
  apply vt_verifiable_decryption.
Qed.
Print Assumptions C80_decryption.

(** Proofs of knowledge. *)
Theorem C80_proofs :
  forall (E : Env) (f : Scalar E -> Element E) (g : Scalar E -> Element E -> Scalar E -> Element E)
    (h : list (Scalar E) -> list (Element E) -> outcome (Element E)) (pk : PublicKey E)
    (sk : SecretKey E) (powers : Element E * Element E) (keypairs : list (Keypair E))
    (cs : list (CiphertextWithValue E (Scalar E))) (c : CiphertextWithValue E (Scalar E))
    (H : Element E) (t : transcript) (r : Rng E),
  let E' := env_vartime E f g h in
  LogEqualityProof_new (E := E') (cv_pk pk) sk powers t r
    = omap (fun p => let '(q, t', r') := p in (cv_le q, t', r'))
           (LogEqualityProof_new pk sk powers t r) /\
  ProofOfPossession_new (E := E') (map cv_kp keypairs) t r
    = omap (fun p => let '(q, t', r') := p in (cv_pop q, t', r'))
           (ProofOfPossession_new keypairs t r) /\
  CommitmentEquivalenceProof_new (E := E') (cv_cwv c) (cv_pk pk) sk H t r
    = omap (fun p => let '(q, e, t', r') := p in (cv_ce q, e, t', r'))
           (CommitmentEquivalenceProof_new c pk sk H t r) /\
  SumOfSquaresProof_new (E := E') (map cv_cwv cs) (cv_cwv c) (cv_pk pk) t r
    = omap (fun p => let '(q, t', r') := p in (cv_sq q, t', r'))
           (SumOfSquaresProof_new cs c pk t r).
Proof.
  intros E f g h pk sk powers keypairs cs c H t r E'.
  split; [apply vt_log_equality|]. split; [apply vt_pop_new|].
  split; [apply vt_commitment|]. apply vt_sum_of_squares.
Qed.
Print Assumptions C80_proofs.

(** Ring and range proofs; the admissible values of a prepared range are public. *)
Theorem C80_ring_and_range :
  forall (E : Env) (f : Scalar E -> Element E) (g : Scalar E -> Element E -> Scalar E -> Element E)
    (h : list (Scalar E) -> list (Element E) -> outcome (Element E)) (pk : PublicKey E)
    (b : RingProofBuilder E (Rng E)) (adm : list (Element E)) (index : nat) (flag : bool)
    (range : PreparedRange E) (v : N) (c : CiphertextWithValue E N) (t : transcript) (r : Rng E),
  let E' := env_vartime E f g h in
  RingProofBuilder_add_value (E := E') (cv_rb b) adm index
    = omap (fun p => (cv_ext (fst p), cv_rb (snd p))) (RingProofBuilder_add_value b adm index) /\
  RingProofBuilder_add_precomputed_value (E := E') (cv_rb b) (cv_ext (cwv_ext c)) adm index
    = omap cv_rb (RingProofBuilder_add_precomputed_value b (cwv_ext c) adm index) /\
  RingProofBuilder_build (E := E') (cv_rb b) = RingProofBuilder_build b /\
  encrypt_bool (E := E') (cv_pk pk) flag r
    = omap (fun p => let '(c, q, r') := p in (cv_ct c, cv_rp q, r')) (encrypt_bool pk flag r) /\
  RangeProof_from_ciphertext (E := E') (cv_pk pk) (cv_range range) (cv_cwv c) t r
    = omap (fun p => let '(q, t', r') := p in (cv_rap q, t', r'))
           (RangeProof_from_ciphertext pk range c t r) /\
  encrypt_range (E := E') (cv_pk pk) (cv_range range) v r
    = omap (fun p => let '(c, q, r') := p in (cv_ct c, cv_rap q, r')) (encrypt_range pk range v r).
Proof.
  intros E f g h pk b adm index flag range v c t r E'.
  split; [apply vt_add_value|]. split; [apply vt_add_precomputed|]. split; [apply vt_build|].
  split; [apply vt_encrypt_bool|]. split; [apply vt_range_from|]. apply vt_encrypt_range.
Qed.
Print Assumptions C80_ring_and_range.

(** Ballots. *)
Theorem C80_ballots :
  forall (E : Env) (f : Scalar E -> Element E) (g : Scalar E -> Element E -> Scalar E -> Element E)
    (h : list (Scalar E) -> list (Element E) -> outcome (Element E))
    (single : ChoiceParams (@SingleChoice E)) (multi : ChoiceParams (@MultiChoice E))
    (quadratic : QuadraticVotingParams E) (choice : nat) (choices : list bool) (votes : list N)
    (r : Rng E),
  let E' := env_vartime E f g h in
  EncryptedChoice_single (E := E') (cv_single single) choice r
    = omap (fun p => (cv_single_choice (fst p), snd p)) (EncryptedChoice_single single choice r) /\
  EncryptedChoice_new (E := E') (cv_multi multi) choices r
    = omap (fun p => (cv_multi_choice (fst p), snd p)) (EncryptedChoice_new multi choices r) /\
  QuadraticVotingBallot_new (E := E') (cv_qv quadratic) votes r
    = omap (fun p => (cv_qb (fst p), snd p)) (QuadraticVotingBallot_new quadratic votes r).
Proof.
  intros E f g h single multi quadratic choice choices votes r E'.
  split; [apply vt_choice_single|]. split; [apply vt_choice_new_multi|]. apply vt_qv_new.
Qed.
Print Assumptions C80_ballots.

(** The dealer and the participants of threshold decryption. *)
Theorem C80_sharing :
  forall (E : Env) (f : Scalar E -> Element E) (g : Scalar E -> Element E -> Scalar E -> Element E)
    (h : list (Scalar E) -> list (Element E) -> outcome (Element E)) (params : Params)
    (d : Dealer E) (ks : PublicKeySet E) (i : nat) (share : SecretKey E) (a : ActiveParticipant E)
    (c : Ciphertext E) (r : Rng E),
  let E' := env_vartime E f g h in
  Dealer_new (E := E') params r = omap (fun p => (cv_dealer (fst p), snd p)) (Dealer_new params r) /\
  Dealer_secret_share_for_participant (E := E') (cv_dealer d) i
    = Dealer_secret_share_for_participant d i /\
  ActiveParticipant_new (E := E') (cv_ks ks) i share
    = omap (rmap cv_active) (ActiveParticipant_new ks i share) /\
  ActiveParticipant_proof_of_possession (E := E') (cv_active a) r
    = omap (fun p => (cv_pop (fst p), snd p)) (ActiveParticipant_proof_of_possession a r) /\
  ActiveParticipant_decrypt_share (E := E') (cv_active a) (cv_ct c) r
    = omap (fun p => let '(d, q, r') := p in (cv_vd d, cv_le q, r'))
           (ActiveParticipant_decrypt_share a c r).
Proof.
  intros E f g h params d ks i share a c r E'.
  split; [apply vt_dealer_new|]. split; [apply vt_dealer_share|].
  split; [apply vt_active_new|]. split; [apply vt_active_pop|]. apply vt_active_decrypt.
Qed.
Print Assumptions C80_sharing.

(** Distributed key generation.  A received secret share is checked against a public
    polynomial evaluated at the participant's public index with [vartime_multi_mul]
    (src/dkg.rs 474-496): only these public operands matter. *)
Theorem C80_dkg :
  forall (E : Env) (f : Scalar E -> Element E) (g : Scalar E -> Element E -> Scalar E -> Element E)
    (h : list (Scalar E) -> list (Element E) -> outcome (Element E)) (params : Params) (i : nat)
    (p1 : ParticipantCollectingCommitments E) (p2 : ParticipantCollectingPolynomials E)
    (p3 : ParticipantExchangingSecrets E) (share : SecretKey E) (r : Rng E),
  let E' := env_vartime E f g h in
  PCC_new (E := E') params i r = omap (fun p => (cv_pcc (fst p), snd p)) (PCC_new params i r) /\
  PCC_finish_commitment_phase (E := E') (cv_pcc p1)
    = omap cv_pcp (PCC_finish_commitment_phase p1) /\
  PCP_public_info (E := E') (cv_pcp p2) = cv_pi (PCP_public_info p2) /\
  PCP_finish_polynomials_phase (E := E') (cv_pcp p2)
    = omap cv_pes (PCP_finish_polynomials_phase p2) /\
  PES_secret_share_for_participant (E := E') (cv_pes p3) i
    = PES_secret_share_for_participant p3 i /\
  ((forall poly, nth_error (pes_public_polynomials p3) i = Some poly ->
      agrees_on h (scalar_powers (List.length poly) (s_of_u64 1)
                     (scalar_of_usize (pes_index p3 + 1))) poly) ->
   PES_insert_secret_share (E := E') (cv_pes p3) i share
   = omap (fun q => (fst q, cv_pes (snd q))) (PES_insert_secret_share p3 i share)).
Proof.
  intros E f g h params i p1 p2 p3 share r E'.
  split; [apply vt_pcc_new|]. split; [apply vt_pcc_finish|]. split; [apply vt_pcp_info|].
  split; [apply vt_pcp_finish|]. split; [apply vt_pes_share|]. apply vt_pes_insert.
Qed.
Print Assumptions C80_dkg.

(** A backend whose variable-time operations are wrong or panic: a flag is encrypted as
    before, with the same ciphertext, while the verifier does notice. *)
Definition broken : Env :=
  env_vartime RE (fun _ => identity) (fun _ _ _ => identity) (fun _ _ => Panic PAssert).

Example C80_example :
  let key : PublicKey broken := cv_pk ex_key in
  match encrypt_bool (E := broken) key true 21%Z, encrypt_bool ex_key true 21%Z with
  | Ret (ct', p', _), Ret (ct, p, _) =>
      ct' = cv_ct ct /\ p' = cv_rp p /\
      match verify_bool ex_key ct p with Ret (Ok _) => True | _ => False end /\
      verify_bool (E := broken) key ct' p' = Panic PAssert
  | _, _ => False
  end.
Proof.
  destruct (C80_ring_and_range RE (fun _ => identity) (fun _ _ _ => identity) (fun _ _ => Panic PAssert)
              ex_key (RingProofBuilder_new ex_key [] [] 0%Z) [] 0 true
              {| pr_inner := []; pr_admissible := [] |} 0%N
              {| cwv_ext := ExtendedCiphertext_zero; cwv_value := 0%N |} [] 21%Z)
    as (_ & _ & _ & H & _).
  assert (V : match encrypt_bool ex_key true 21%Z with
              | Ret (ct, p, _) =>
                  match verify_bool ex_key ct p with Ret (Ok _) => True | _ => False end /\
                  verify_bool (E := broken) (cv_pk ex_key) (cv_ct ct) (cv_rp p) = Panic PAssert
              | _ => False
              end) by (vm_compute; auto).
  cbv zeta. unfold broken in *. rewrite H.
  destruct (encrypt_bool ex_key true 21%Z) as [[[ct p] r']|]; [|exact V].
  cbn [omap]. destruct V as (V1 & V2). auto.
Qed.
