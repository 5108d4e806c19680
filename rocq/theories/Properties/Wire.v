(** * C66: the wire format *)
From Coq Require Import List NArith ZArith Arith Bool String Ascii Lia Strings.Byte.
From Verif.Model Require Import Base Group Transcript Keys Encryption LogEquality Possession
  Ring Range Commitment Mul Sharing Dkg Choice Quadratic Serde.
From Verif.Spec Require Import Encryption Serde Wire.
From Verif.Proofs Require Import Lists Algebra Codec Serde Wire.
From Verif.Instance Require Import Primality Zq.
From Verif.Properties Require Import LogEquality Serde.
Import ListNotations.
Open Scope string_scope.
Open Scope list_scope.
Open Scope nat_scope.

(** Base64url strings: every byte string has exactly one, and no two have the same. *)
Theorem C66_base64 :
  (forall b, exists s, base64url b s /\ forall s', base64url b s' -> s' = s) /\
  (forall b b' s, base64url b s -> base64url b' s -> b = b') /\
  (forall b s, base64url b s <-> s = base64_encode b).
Proof.
  split; [|split].
  - intros b. exists (base64_encode b). split; [apply base64_encode_spec|]. intros s' H. apply base64url_iff. exact H.
  - intros b b' s H H'. apply base64url_iff in H, H'. pose proof (base64_round_trip b) as Hb. pose proof (base64_round_trip b') as Hb'.
    congruence.
  - exact base64url_iff.
Qed.
Print Assumptions C66_base64.

(** A map is taken for a struct only if each of its fields occurs exactly once in it. *)
Theorem C66_strict :
  forall fields l name d, accepts_struct fields (SMap l) -> In (name, d) fields ->
    count_occ string_dec (map fst l) name = 1 /\ exists w, In (name, w) l /\ d w.
Proof.
  intros fields l name d H Hi. destruct H as [(l' & [= <-] & H)|(vs & [=] & _)].
  rewrite Forall_forall in H. destruct (H _ Hi) as (w & (l1 & l2 & -> & H1 & H2) & Hd). cbn [fst snd] in *. split.
  - rewrite map_app, count_occ_app. cbn [map fst]. rewrite (proj1 (count_occ_not_In string_dec _ _) H1).
    rewrite (count_occ_cons_eq string_dec _ eq_refl), (proj1 (count_occ_not_In string_dec _ _) H2). reflexivity.
  - exists w. split; [|exact Hd]. apply in_or_app. right. left. reflexivity.
Qed.
Print Assumptions C66_strict.

(** Byte strings, keys and secrets: what is written *)
Theorem C66_writes_values :
  forall (E : Env),
    writes Opening_codec (fun h => opening_part (writing (E:=E) h)) /\
    writes (PublicKey_codec (E:=E)) (fun h => key_part (writing (E:=E) h)) /\
    writes (SecretKey_codec (E:=E)) (fun h => scalar_part (writing (E:=E) h)) /\
    writes (Keypair_codec (E:=E)) (fun h => keypair_part (writing (E:=E) h)).
Proof.
  intros E.
  split; [exact opening_w|].
  split; [exact public_key_w|].
  split; [exact secret_key_w|].
  exact keypair_w.
Qed.
Print Assumptions C66_writes_values.

(** Ciphertexts, decryptions and proofs: what is written *)
Theorem C66_writes_proofs :
  forall (E : Env),
    writes (Ciphertext_codec (E:=E)) (fun h => ciphertext_doc (writing (E:=E) h)) /\
    writes (VerifiableDecryption_codec (E:=E)) (fun h => decryption_doc (writing (E:=E) h)) /\
    writes (CandidateDecryption_codec (E:=E)) (fun h c => decryption_doc (writing (E:=E) h) (cd_inner c)) /\
    writes (LogEqualityProof_codec (E:=E)) (fun h => log_equality_doc (writing (E:=E) h)) /\
    writes (ProofOfPossession_codec (E:=E)) (fun h => possession_doc (writing (E:=E) h)) /\
    writes (RingProof_codec (E:=E)) (fun h => ring_doc (writing (E:=E) h)) /\
    writes (RangeProof_codec (E:=E)) (fun h => range_doc writes_struct (writing (E:=E) h) (writing (E:=E) h)) /\
    writes (CommitmentEquivalenceProof_codec (E:=E)) (fun h => commitment_doc (writing (E:=E) h)) /\
    writes (SumOfSquaresProof_codec (E:=E)) (fun h => squares_doc (writing (E:=E) h)).
Proof.
  intros E.
  split; [exact ciphertext_w|].
  split; [exact decryption_w|].
  split; [exact candidate_w|].
  split; [exact log_equality_w|].
  split; [exact possession_w|].
  split; [exact ring_w|].
  split; [exact range_w|].
  split; [exact commitment_w|].
  exact squares_w.
Qed.
Print Assumptions C66_writes_proofs.

(** Secret sharing and distributed key generation: what is written *)
Theorem C66_writes_sharing :
  forall (E : Env),
    writes Params_codec (fun h => params_doc (writing (E:=E) h)) /\
    writes (PublicKeySet_codec (E:=E)) (fun h => key_set_doc (writing (E:=E) h)) /\
    writes (Dealer_codec (E:=E)) (fun h => dealer_doc (writing (E:=E) h)) /\
    writes (ActiveParticipant_codec (E:=E)) (fun h => active_doc (writing (E:=E) h)) /\
    writes (PublicInfo_codec (E:=E)) (fun h => info_doc (writing (E:=E) h)) /\
    writes (PCC_codec (E:=E)) (fun h => commitments_doc (writing (E:=E) h)) /\
    writes (PCP_codec (E:=E)) (fun h => polynomials_doc (writing (E:=E) h)) /\
    writes (PES_codec (E:=E)) (fun h => secrets_doc (writing (E:=E) h)).
Proof.
  intros E.
  split; [exact params_w|].
  split; [exact key_set_w|].
  split; [exact dealer_w|].
  split; [exact active_w|].
  split; [exact info_w|].
  split; [exact pcc_w|].
  split; [exact pcp_w|].
  exact pes_w.
Qed.
Print Assumptions C66_writes_sharing.

(** Ballots.  The flattened fields of a range proof are always read as in a human-readable format, and only from maps: what is written *)
Theorem C66_writes_voting :
  forall (E : Env),
    writes (EncryptedChoice_codec MultiChoice (unit_codec : Codec (ps_Proof (MultiChoice (E:=E))))) (fun h => choice_doc (S:=MultiChoice) (writing (E:=E) h) (fun _ v => v = SNull)) /\
    writes (EncryptedChoice_codec SingleChoice (LogEqualityProof_codec : Codec (ps_Proof (SingleChoice (E:=E))))) (fun h => choice_doc (S:=SingleChoice) (writing (E:=E) h) (log_equality_doc (writing (E:=E) h))) /\
    writes (CiphertextWithRangeProof_codec (E:=E)) (fun h => ranged_doc writes_struct (writing (E:=E) h) (writing (E:=E) h)) /\
    writes (QuadraticVotingBallot_codec (E:=E)) (fun h => ballot_doc writes_struct (writing (E:=E) h) (writing (E:=E) h)).
Proof.
  intros E.
  split.
  { intros h x v. apply (choice_w MultiChoice unit_codec h (fun _ v => v = SNull)). intros [] w. split; [intros [= <-]|intros ->]; reflexivity. }
  split; [intros h x v; apply (choice_w SingleChoice LogEqualityProof_codec h _ (log_equality_w h))|].
  split; [exact crp_w|].
  exact ballot_w.
Qed.
Print Assumptions C66_writes_voting.

(** Byte strings, keys and secrets: what is accepted, and as which value *)
Theorem C66_reads_values :
  forall (E : Env) (L : GroupLaws E),
    reads Opening_codec (fun h => opening_part (reading (E:=E) h)) /\
    reads (PublicKey_codec (E:=E)) (fun h => key_part (reading (E:=E) h)) /\
    reads (SecretKey_codec (E:=E)) (fun h => scalar_part (reading (E:=E) h)) /\
    reads (Keypair_codec (E:=E)) (fun h => keypair_part (reading (E:=E) h)).
Proof.
  intros E L.
  split; [exact opening_r|].
  split; [exact (public_key_r L)|].
  split; [exact secret_key_r|].
  exact (keypair_r L).
Qed.
Print Assumptions C66_reads_values.

(** Ciphertexts, decryptions and proofs: what is accepted, and as which value *)
Theorem C66_reads_proofs :
  forall (E : Env) (L : GroupLaws E),
    reads (Ciphertext_codec (E:=E)) (fun h => ciphertext_doc (reading (E:=E) h)) /\
    reads (VerifiableDecryption_codec (E:=E)) (fun h => decryption_doc (reading (E:=E) h)) /\
    reads (CandidateDecryption_codec (E:=E)) (fun h c => decryption_doc (reading (E:=E) h) (cd_inner c)) /\
    reads (LogEqualityProof_codec (E:=E)) (fun h => log_equality_doc (reading (E:=E) h)) /\
    reads (ProofOfPossession_codec (E:=E)) (fun h => possession_doc (reading (E:=E) h)) /\
    reads (RingProof_codec (E:=E)) (fun h => ring_doc (reading (E:=E) h)) /\
    reads (RangeProof_codec (E:=E)) (fun h => range_doc accepts_map (reading (E:=E) h) (reading (E:=E) true)) /\
    reads (CommitmentEquivalenceProof_codec (E:=E)) (fun h => commitment_doc (reading (E:=E) h)) /\
    reads (SumOfSquaresProof_codec (E:=E)) (fun h => squares_doc (reading (E:=E) h)).
Proof.
  intros E L.
  split; [exact ciphertext_r|].
  split; [exact decryption_r|].
  split; [exact candidate_r|].
  split; [exact log_equality_r|].
  split; [exact possession_r|].
  split; [exact ring_r|].
  split; [exact range_r|].
  split; [exact commitment_r|].
  exact squares_r.
Qed.
Print Assumptions C66_reads_proofs.

(** Secret sharing and distributed key generation: what is accepted, and as which value *)
Theorem C66_reads_sharing :
  forall (E : Env) (L : GroupLaws E),
    reads Params_codec (fun h => params_doc (reading (E:=E) h)) /\
    reads (PublicKeySet_codec (E:=E)) (fun h => key_set_doc (reading (E:=E) h)) /\
    reads (Dealer_codec (E:=E)) (fun h => dealer_doc (reading (E:=E) h)) /\
    reads (ActiveParticipant_codec (E:=E)) (fun h => active_doc (reading (E:=E) h)) /\
    reads (PublicInfo_codec (E:=E)) (fun h => info_doc (reading (E:=E) h)) /\
    reads (PCC_codec (E:=E)) (fun h => commitments_doc (reading (E:=E) h)) /\
    reads (PCP_codec (E:=E)) (fun h => polynomials_doc (reading (E:=E) h)) /\
    reads (PES_codec (E:=E)) (fun h => secrets_doc (reading (E:=E) h)).
Proof.
  intros E L.
  split; [exact params_r|].
  split; [exact (key_set_r L)|].
  split; [exact (dealer_r L)|].
  split; [exact (active_r L)|].
  split; [exact info_r|].
  split; [exact (pcc_r L)|].
  split; [exact (pcp_r L)|].
  exact (pes_r L).
Qed.
Print Assumptions C66_reads_sharing.

(** Ballots.  The flattened fields of a range proof are always read as in a human-readable format, and only from maps: what is accepted, and as which value *)
Theorem C66_reads_voting :
  forall (E : Env) (L : GroupLaws E),
    reads (EncryptedChoice_codec MultiChoice (unit_codec : Codec (ps_Proof (MultiChoice (E:=E))))) (fun h => choice_doc (S:=MultiChoice) (reading (E:=E) h) (fun _ v => v = SNull)) /\
    reads (EncryptedChoice_codec SingleChoice (LogEqualityProof_codec : Codec (ps_Proof (SingleChoice (E:=E))))) (fun h => choice_doc (S:=SingleChoice) (reading (E:=E) h) (log_equality_doc (reading (E:=E) h))) /\
    reads (CiphertextWithRangeProof_codec (E:=E)) (fun h => ranged_doc accepts_map (reading (E:=E) h) (reading (E:=E) true)) /\
    reads (QuadraticVotingBallot_codec (E:=E)) (fun h => ballot_doc accepts_map (reading (E:=E) h) (reading (E:=E) true)).
Proof.
  intros E L.
  split.
  { intros h v x. apply (choice_r MultiChoice unit_codec h (fun _ v => v = SNull)). intros w []. split; [|intros ->; reflexivity]. intros H; destruct w; try discriminate H; reflexivity. }
  split; [intros h x v; apply (choice_r SingleChoice LogEqualityProof_codec h _ (log_equality_r h))|].
  split; [exact crp_r|].
  exact ballot_r.
Qed.
Print Assumptions C66_reads_voting.

(** ** Examples *)

(** The test vectors of RFC 4648, and the two characters that differ from plain base64 *)
Example C66_example_base64 :
  base64url (list_byte_of_string "") (str "") /\ base64url (list_byte_of_string "f") (str "Zg") /\
  base64url (list_byte_of_string "fo") (str "Zm8") /\ base64url (list_byte_of_string "foo") (str "Zm9v") /\
  base64url (list_byte_of_string "foob") (str "Zm9vYg") /\ base64url (list_byte_of_string "fooba") (str "Zm9vYmE") /\
  base64url (list_byte_of_string "foobar") (str "Zm9vYmFy") /\ base64url [xff; xef; xbe] (str "_---") /\ ~ base64url [x00] (str "AB").
Proof.
  repeat split; try (apply base64url_iff; vm_compute; reflexivity). intros H. apply base64url_iff in H. discriminate H.
Qed.

(** A proof as written in a human-readable format and read from one with the fields swapped and an unknown entry;
    with a field given twice it is not accepted. *)
Example C66_example_proof :
  log_equality_doc (writing true) ex_lep
    (SMap [("challenge", SStr (str "BQAAAAAAAAAA")); ("response", SStr (str "BwAAAAAAAAAA"))]) /\
  log_equality_doc (reading true) ex_lep
    (SMap [("response", SStr (str "BwAAAAAAAAAA")); ("x", SNull); ("challenge", SStr (str "BQAAAAAAAAAA"))]) /\
  (forall p, ~ log_equality_doc (reading (E:=RE) true) p
    (SMap [("challenge", SStr (str "BQAAAAAAAAAA")); ("response", SStr (str "BwAAAAAAAAAA")); ("challenge", SStr (str "BQAAAAAAAAAA"))])).
Proof.
  split; [|split].
  - apply log_equality_w. exact (proj1 C50_example_proof).
  - apply log_equality_r. exact (proj1 (proj2 C50_example_proof)).
  - intros p H. destruct (C66_strict _ _ "challenge" _ H ltac:(left; reflexivity)) as [Hc _]. discriminate Hc.
Qed.
