(** * C55: domain separation between protocols and between contexts

    "A protocol hashes only its own domain" is stated observably: its results do not change when the
    hash function is replaced by one that differs only outside of the domain. *)
From Coq Require Import List NArith ZArith Arith Bool String Lia.
From Verif.Model Require Import Base Group Transcript Keys Encryption LogEquality Possession
  Ring Range Commitment Mul Sharing Dkg Choice Quadratic.
From Verif.Spec Require Import Domains.
From Verif.Proofs Require Import RangeProof Domains.
From Verif.Instance Require Import Primality Zq.
From Verif.Properties Require Import LogEquality Possession Builds.
Import ListNotations.
Open Scope string_scope.
Open Scope list_scope.

(** ** Every proof hashes only inputs starting with its context and its own name, and leaves the
    transcript in that domain (so that later proofs in the same transcript have another context). *)
Theorem C55_protocols :
  forall (E : Env) (o : transcript -> string -> Scalar E) (t : transcript), let W := hashed_by E o in
    (agrees E o (domain t "log_eq") ->
       (forall K sk p r, LogEqualityProof_new (E:=W) K sk p t r = LogEqualityProof_new (E:=E) K sk p t r) /\
       (forall P K p, LogEqualityProof_verify (E:=W) P K p t = LogEqualityProof_verify (E:=E) P K p t)) /\
    (agrees E o (domain t "multi_pop") ->
       (forall kps r, ProofOfPossession_new (E:=W) kps t r = ProofOfPossession_new (E:=E) kps t r) /\
       (forall P keys, ProofOfPossession_verify (E:=W) P keys t = ProofOfPossession_verify (E:=E) P keys t)) /\
    (agrees E o (domain t "multi_ring_enc") ->
       (forall P K adm cs, RingProof_verify (E:=W) P K adm cs t = RingProof_verify (E:=E) P K adm cs t)) /\
    (agrees E o (domain t "encryption_range_proof") ->
       (forall K rg v r, RangeProof_new (E:=W) K rg v t r = RangeProof_new (E:=E) K rg v t r) /\
       (forall P K rg c, RangeProof_verify (E:=W) P K rg c t = RangeProof_verify (E:=E) P K rg c t)) /\
    (agrees E o (domain t "sum_of_squares") ->
       (forall cs z K r, SumOfSquaresProof_new (E:=W) cs z K t r = SumOfSquaresProof_new (E:=E) cs z K t r) /\
       (forall P cs z K, SumOfSquaresProof_verify (E:=W) P cs z K t = SumOfSquaresProof_verify (E:=E) P cs z K t)) /\
    (agrees E o (domain t "commitment_equivalence") ->
       (forall c K b H r, CommitmentEquivalenceProof_new (E:=W) c K b H t r
                          = CommitmentEquivalenceProof_new (E:=E) c K b H t r) /\
       (forall P c K C H, CommitmentEquivalenceProof_verify (E:=W) P c K C H t
                          = CommitmentEquivalenceProof_verify (E:=E) P c K C H t)) /\
    (agrees E o (domain t "decryption_with_custom_key") ->
       (forall c kp r, VerifiableDecryption_new (E:=W) c kp t r = VerifiableDecryption_new (E:=E) c kp t r) /\
       (forall d c K P, CandidateDecryption_verify (E:=W) d c K P t = CandidateDecryption_verify (E:=E) d c K P t)).
Proof.
  intros E o t W.
  refine (conj _ (conj _ (conj _ (conj _ (conj _ (conj _ _)))))); intros H.
  - split; intros; [exact (same_eq _ _ _ (same_le_new E o _ H _ _ _ _ _ (extends_refl _)))
                   |exact (same_eq _ _ _ (same_le_verify E o _ H _ _ _ _ (extends_refl _)))].
  - split; intros; [exact (same_eq _ _ _ (same_pop_new E o _ H _ _ _ _ (extends_refl _)))
                   |exact (same_eq _ _ _ (same_pop_verify E o _ H _ _ _ (extends_refl _)))].
  - intros. exact (same_eq _ _ _ (same_ring_verify E o _ H _ _ _ _ _ (extends_refl _))).
  - split; intros; [exact (same_eq _ _ _ (same_range_new E o _ H _ _ _ _ _ (extends_refl _)))
                   |exact (same_eq _ _ _ (same_range_verify E o _ H _ _ _ _ _ (extends_refl _)))].
  - split; intros; [exact (same_eq _ _ _ (same_sq_new E o _ H _ _ _ _ _ (extends_refl _)))
                   |exact (same_eq _ _ _ (same_sq_verify E o _ H _ _ _ _ _ (extends_refl _)))].
  - split; intros; [exact (same_eq _ _ _ (same_ce_new E o _ H _ _ _ _ _ _ (extends_refl _)))
                   |exact (same_eq _ _ _ (same_ce_verify E o _ H _ _ _ _ _ _ (extends_refl _)))].
  - split; intros; [exact (same_eq _ _ _ (same_vd_new E o _ H _ _ _ _ (extends_refl _)))
                   |exact (same_eq _ _ _ (same_cd_verify E o _ H _ _ _ _ _ (extends_refl _)))].
Qed.
Print Assumptions C55_protocols.

Lemma self_agrees E t : agrees E (@oracle E) t.
Proof. intros q l _. reflexivity. Qed.

Theorem C55_transcripts :
  forall (E : Env) (t t' : transcript),
    (forall K sk p r P r', LogEqualityProof_new (E:=E) K sk p t r = Ret (P, t', r') -> extends (domain t "log_eq") t') /\
    (forall P K p res, LogEqualityProof_verify (E:=E) P K p t = Ret (res, t') -> extends (domain t "log_eq") t') /\
    (forall kps r P r', ProofOfPossession_new (E:=E) kps t r = Ret (P, t', r') -> extends (domain t "multi_pop") t') /\
    (forall P keys res, ProofOfPossession_verify (E:=E) P keys t = Ret (res, t') -> extends (domain t "multi_pop") t') /\
    (forall K rg v r c P r', RangeProof_new (E:=E) K rg v t r = Ret (c, P, t', r') ->
       extends (domain t "encryption_range_proof") t') /\
    (forall cs z K r P r', SumOfSquaresProof_new (E:=E) cs z K t r = Ret (P, t', r') -> extends (domain t "sum_of_squares") t') /\
    (forall c K b H r P C r', CommitmentEquivalenceProof_new (E:=E) c K b H t r = Ret (P, C, t', r') ->
       extends (domain t "commitment_equivalence") t') /\
    (forall P c K C H res, CommitmentEquivalenceProof_verify (E:=E) P c K C H t = Ret (res, t') ->
       extends (domain t "commitment_equivalence") t') /\
    (forall c kp r d P r', VerifiableDecryption_new (E:=E) c kp t r = Ret (d, P, t', r') ->
       extends (domain t "decryption_with_custom_key") t') /\
    (forall d c K P res, CandidateDecryption_verify (E:=E) d c K P t = Ret (res, t') ->
       extends (domain t "decryption_with_custom_key") t').
Proof.
  intros E t t'.
  repeat match goal with |- _ /\ _ => split end; intros;
    match goal with
    | H : LogEqualityProof_new _ _ _ _ _ = _ |- _ =>
        exact (proj2 (same_le_new E _ _ (self_agrees E _) _ _ _ _ _ (extends_refl _)) _ H)
    | H : LogEqualityProof_verify _ _ _ _ = _ |- _ =>
        exact (proj2 (same_le_verify E _ _ (self_agrees E _) _ _ _ _ (extends_refl _)) _ H)
    | H : ProofOfPossession_new _ _ _ = _ |- _ =>
        exact (proj2 (same_pop_new E _ _ (self_agrees E _) _ _ _ _ (extends_refl _)) _ H)
    | H : ProofOfPossession_verify _ _ _ = _ |- _ =>
        exact (proj2 (same_pop_verify E _ _ (self_agrees E _) _ _ _ (extends_refl _)) _ H)
    | H : RangeProof_new _ _ _ _ _ = _ |- _ =>
        exact (proj2 (same_range_new E _ _ (self_agrees E _) _ _ _ _ _ (extends_refl _)) _ H)
    | H : SumOfSquaresProof_new _ _ _ _ _ = _ |- _ =>
        exact (proj2 (same_sq_new E _ _ (self_agrees E _) _ _ _ _ _ (extends_refl _)) _ H)
    | H : CommitmentEquivalenceProof_new _ _ _ _ _ _ = _ |- _ =>
        exact (proj2 (same_ce_new E _ _ (self_agrees E _) _ _ _ _ _ _ (extends_refl _)) _ H)
    | H : CommitmentEquivalenceProof_verify _ _ _ _ _ _ = _ |- _ =>
        exact (proj2 (same_ce_verify E _ _ (self_agrees E _) _ _ _ _ _ _ (extends_refl _)) _ H)
    | H : VerifiableDecryption_new _ _ _ _ = _ |- _ =>
        exact (proj2 (same_vd_new E _ _ (self_agrees E _) _ _ _ _ (extends_refl _)) _ H)
    | H : CandidateDecryption_verify _ _ _ _ _ = _ |- _ =>
        exact (proj2 (same_cd_verify E _ _ (self_agrees E _) _ _ _ _ _ (extends_refl _)) _ H)
    end.
Qed.
Print Assumptions C55_transcripts.

(** ** Domains of different protocols (in one context), and different contexts, are disjoint. *)
Theorem C55_disjoint :
  (forall t l l', l <> l' -> forall q, extends (domain t l) q -> extends (domain t l') q -> False) /\
  (forall l l', l <> l' -> forall q, extends (transcript_new l) q -> extends (transcript_new l') q -> False) /\
  NoDup protocol_labels /\ NoDup context_labels.
Proof.
  assert (H : forall t l l', l <> l' -> forall q, extends (domain t l) q -> extends (domain t l') q -> False).
  { intros t l l' Hne q [r ->] [r' H]. unfold domain in H. rewrite <- !app_assoc in H.
    apply app_inv_head in H. injection H as H _. apply Hne, RangeProof.str_bytes_inj, H. }
  split; [exact H|]. split; [exact (H [])|].
  split; repeat constructor; cbn; intuition discriminate.
Qed.
Print Assumptions C55_disjoint.

Lemma outside_agrees E o t l l' : l' <> l -> agrees_outside E o (domain t l) -> agrees E o (domain t l').
Proof.
  intros Hne H q lb Hq. apply H. intros Hq'. exact (proj1 C55_disjoint t l l' (fun e => Hne (eq_sym e)) q Hq' Hq).
Qed.

(** ** Whatever happens to the hashes of one protocol does not affect any other protocol. *)
Theorem C55_no_interference :
  forall (E : Env) (o : transcript -> string -> Scalar E) (t : transcript) (l : string), let W := hashed_by E o in
    agrees_outside E o (domain t l) ->
    (l <> "log_eq" ->
       forall P K p, LogEqualityProof_verify (E:=W) P K p t = LogEqualityProof_verify (E:=E) P K p t) /\
    (l <> "multi_pop" ->
       forall P keys, ProofOfPossession_verify (E:=W) P keys t = ProofOfPossession_verify (E:=E) P keys t) /\
    (l <> "multi_ring_enc" ->
       forall P K adm cs, RingProof_verify (E:=W) P K adm cs t = RingProof_verify (E:=E) P K adm cs t) /\
    (l <> "encryption_range_proof" ->
       forall P K rg c, RangeProof_verify (E:=W) P K rg c t = RangeProof_verify (E:=E) P K rg c t) /\
    (l <> "sum_of_squares" ->
       forall P cs z K, SumOfSquaresProof_verify (E:=W) P cs z K t = SumOfSquaresProof_verify (E:=E) P cs z K t) /\
    (l <> "commitment_equivalence" ->
       forall P c K C H, CommitmentEquivalenceProof_verify (E:=W) P c K C H t
                         = CommitmentEquivalenceProof_verify (E:=E) P c K C H t) /\
    (l <> "decryption_with_custom_key" ->
       forall d c K P, CandidateDecryption_verify (E:=W) d c K P t = CandidateDecryption_verify (E:=E) d c K P t).
Proof.
  intros E o t l W Ho. destruct (C55_protocols E o t) as (H1 & H2 & H3 & H4 & H5 & H6 & H7).
  repeat match goal with |- _ /\ _ => split end; intros Hl; assert (Hl' := not_eq_sym Hl).
  - apply H1, (outside_agrees E o t l); assumption.
  - apply H2, (outside_agrees E o t l); assumption.
  - apply H3, (outside_agrees E o t l); assumption.
  - apply H4, (outside_agrees E o t l); assumption.
  - apply H5, (outside_agrees E o t l); assumption.
  - apply H6, (outside_agrees E o t l); assumption.
  - apply H7, (outside_agrees E o t l); assumption.
Qed.
Print Assumptions C55_no_interference.

(** ** The library's own uses of proofs have a context each. *)
Lemma ext_ctx l l' : extends (transcript_new l) (domain (transcript_new l) l').
Proof. apply extends_app, extends_refl. Qed.
Lemma ext_share_poly pa l : extends (transcript_new "elgamal_share_poly") (domain (share_poly_transcript pa) l).
Proof. eexists. unfold domain, share_poly_transcript, transcript_new, append_u64, append_message. rewrite <- !app_assoc. reflexivity. Qed.
Lemma ext_participant {E : Env} (ks : PublicKeySet E) i l :
  extends (transcript_new "elgamal_participant_pop") (domain (participant_pop_transcript ks i) l).
Proof.
  eexists. unfold domain, participant_pop_transcript, PublicKeySet_commit, append_element_bytes, transcript_new, append_u64, append_message.
  rewrite <- !app_assoc. reflexivity.
Qed.
Lemma ext_decshare {E : Env} (ks : PublicKeySet E) i l :
  extends (transcript_new "elgamal_decryption_share") (domain (decryption_share_transcript ks i) l).
Proof.
  eexists. unfold domain, decryption_share_transcript, PublicKeySet_commit, append_element_bytes, transcript_new, append_u64, append_message.
  rewrite <- !app_assoc. reflexivity.
Qed.

Section Contexts.
Context (E : Env) (o : transcript -> string -> Scalar E).
Local Notation W := (hashed_by E o).

Lemma same_encrypt_zero : agrees E o (transcript_new "zero_encryption") ->
  forall K r, encrypt_zero (E:=W) K r = encrypt_zero (E:=E) K r.
Proof.
  intros H K r. unfold encrypt_zero. apply (same_eq (fun _ => True)). apply same_let. intros x r'. cbv zeta.
  eapply same_bind; [apply (same_le_new E o _ H), ext_ctx|]. intros [[p t'] r''] _. apply same_triv.
Qed.
Lemma same_verify_zero : agrees E o (transcript_new "zero_encryption") ->
  forall K c P, verify_zero (E:=W) K c P = verify_zero (E:=E) K c P.
Proof.
  intros H K c P. unfold verify_zero. apply (same_eq (fun _ => True)).
  eapply same_bind; [apply (same_le_verify E o _ H), ext_ctx|]. intros [res t'] _. apply same_triv.
Qed.
Lemma same_encrypt_bool : agrees E o (transcript_new "bool_encryption") ->
  forall K v r, encrypt_bool (E:=W) K v r = encrypt_bool (E:=E) K v r.
Proof.
  intros H K v r. unfold encrypt_bool. apply (same_eq (fun _ => True)). cbv zeta.
  eapply same_bind; [apply (same_add_value E o _ H); exact (builder_new_ext E _ K _ _ _ (ext_ctx _ _))|]. intros [e b] Hb.
  eapply same_bind; [apply (same_build E o _ H), Hb|]. intros [[[c rs] t] r'] _. apply same_triv.
Qed.
Lemma same_verify_bool : agrees E o (transcript_new "bool_encryption") ->
  forall K c P, verify_bool (E:=W) K c P = verify_bool (E:=E) K c P.
Proof.
  intros H K c P. unfold verify_bool. apply (same_eq (fun _ => True)).
  eapply same_bind; [apply (same_ring_verify E o _ H), ext_ctx|]. intros [res t'] _. apply same_triv.
Qed.
Lemma same_encrypt_range : agrees E o (transcript_new "ciphertext_range") ->
  forall K rg v r, encrypt_range (E:=W) K rg v r = encrypt_range (E:=E) K rg v r.
Proof.
  intros H K rg v r. unfold encrypt_range. apply (same_eq (fun _ => True)).
  eapply same_bind; [apply (same_range_new E o _ H), ext_ctx|]. intros [[[c p] t'] r''] _. apply same_triv.
Qed.
Lemma same_verify_range : agrees E o (transcript_new "ciphertext_range") ->
  forall K rg c P, verify_range (E:=W) K rg c P = verify_range (E:=E) K rg c P.
Proof.
  intros H K rg c P. unfold verify_range. apply (same_eq (fun _ => True)).
  eapply same_bind; [apply (same_range_verify E o _ H), ext_ctx|]. intros [res t'] _. apply same_triv.
Qed.

Lemma same_single_prove : agrees E o (transcript_new "choice_encryption_sum") ->
  forall c K r, SingleChoice_prove (E:=W) c K r = SingleChoice_prove (E:=E) c K r.
Proof.
  intros H c K r. unfold SingleChoice_prove. apply (same_eq (fun _ => True)).
  eapply same_bind; [apply (same_le_new E o _ H), ext_ctx|]. intros [[p t'] r''] _. apply same_triv.
Qed.
Lemma same_single_verify : agrees E o (transcript_new "choice_encryption_sum") ->
  forall c P K, SingleChoice_verify (E:=W) c P K = SingleChoice_verify (E:=E) c P K.
Proof.
  intros H c P K. unfold SingleChoice_verify. apply (same_eq (fun _ => True)).
  eapply same_bind; [apply (same_le_verify E o _ H), ext_ctx|]. intros [res t'] _. apply same_triv.
Qed.

Lemma parts_bind {S : ProveSum E} {S' : ProveSum W} {A : Type} (P : A -> Prop)
    (m m' : outcome A) (f : A -> outcome (EncryptedChoice S * Rng E)) (f' : A -> outcome (EncryptedChoice S' * Rng W))
    (Z : Type) (g : outcome (EncryptedChoice S * Rng E) -> outcome Z) (g' : outcome (EncryptedChoice S' * Rng W) -> outcome Z) :
  same P m m' -> (forall k, g (Panic k) = Panic k) -> (forall k, g' (Panic k) = Panic k) ->
  (forall x, P x -> g' (f' x) = g (f x)) -> g' (bind m' f') = g (bind m f).
Proof.
  intros [-> Hp] H1 H2 Hf. destruct m as [x|k]; cbn; [apply Hf, Hp; reflexivity|]. now rewrite H1, H2.
Qed.

Lemma same_choice_single n K : agrees E o (transcript_new "choice_encryption_sum") ->
  agrees E o (transcript_new "encrypted_choice_ranges") -> forall choices r,
  choice_parts (EncryptedChoice_new (E:=W) (S:=SingleChoice) (mkChoiceParams (E:=W) n K) choices r) =
  choice_parts (EncryptedChoice_new (E:=E) (S:=SingleChoice) (mkChoiceParams (E:=E) n K) choices r).
Proof.
  intros Hs Hr choices r. unfold EncryptedChoice_new. cbn [cp_options_count cp_receiver ps_prove SingleChoice].
  Ltac pstep := match goal with |- choice_parts (E:=_) (S:=?S') _ = choice_parts (E:=_) (S:=?S) _ =>
    eapply (parts_bind _ _ _ _ _ _ (choice_parts (S:=S)) (choice_parts (S:=S')));
      [|intros; reflexivity|intros; reflexivity|] end.
  pstep; [apply same_triv|intros _ _]. pstep; [apply same_triv|intros _ _]. cbv zeta.
  pstep; [apply same_triv|intros sum _].
  pstep; [apply (same_choice_add E o _ Hr); exact (builder_new_ext E _ K _ _ _ (ext_ctx _ _))|intros [exts b] Hb].
  pstep; [apply (same_build E o _ Hr), Hb|intros [[[c rs] t'] r'] _].
  pstep; [apply same_triv|intros sc _].
  rewrite same_single_prove by exact Hs.
  pstep; [apply same_triv|intros [sp r''] _]. reflexivity.
Qed.
Lemma same_choice_multi n K : agrees E o (transcript_new "encrypted_choice_ranges") -> forall choices r,
  choice_parts (EncryptedChoice_new (E:=W) (S:=MultiChoice) (mkChoiceParams (E:=W) n K) choices r) =
  choice_parts (EncryptedChoice_new (E:=E) (S:=MultiChoice) (mkChoiceParams (E:=E) n K) choices r).
Proof.
  intros Hr choices r. unfold EncryptedChoice_new. cbn [cp_options_count cp_receiver ps_prove MultiChoice].
  pstep; [apply same_triv|intros _ _]. pstep; [apply same_triv|intros _ _]. cbv zeta.
  pstep; [apply same_triv|intros sum _].
  pstep; [apply (same_choice_add E o _ Hr); exact (builder_new_ext E _ K _ _ _ (ext_ctx _ _))|intros [exts b] Hb].
  pstep; [apply (same_build E o _ Hr), Hb|intros [[[c rs] t'] r'] _].
  pstep; [apply same_triv|intros sc _]. reflexivity.
Qed.
Lemma same_verify_single n K cs rp sp : agrees E o (transcript_new "choice_encryption_sum") ->
  agrees E o (transcript_new "encrypted_choice_ranges") ->
  EncryptedChoice_verify (mkEncryptedChoice (E:=W) (S:=SingleChoice) cs rp sp) (mkChoiceParams (E:=W) n K) =
  EncryptedChoice_verify (mkEncryptedChoice (E:=E) (S:=SingleChoice) cs rp sp) (mkChoiceParams (E:=E) n K).
Proof.
  intros Hs Hr. unfold EncryptedChoice_verify. cbn [ec_choices ec_range_proof ec_sum_proof cp_receiver ps_verify SingleChoice].
  unfold ChoiceParams_check_options_count. cbn [cp_options_count]. destruct (n =? _)%nat; [|reflexivity].
  apply (same_eq (fun _ => True)). apply (same_bind (fun _ => True)); [apply same_triv|intros s _].
  rewrite same_single_verify by exact Hs.
  apply (same_bind (fun _ => True)); [apply same_triv|intros res _]. destruct res; [|apply same_triv].
  eapply same_bind; [apply (same_ring_verify E o _ Hr), ext_ctx|]. intros [res t'] _. apply same_triv.
Qed.
Lemma same_verify_multi n K cs rp sp : agrees E o (transcript_new "encrypted_choice_ranges") ->
  EncryptedChoice_verify (mkEncryptedChoice (E:=W) (S:=MultiChoice) cs rp sp) (mkChoiceParams (E:=W) n K) =
  EncryptedChoice_verify (mkEncryptedChoice (E:=E) (S:=MultiChoice) cs rp sp) (mkChoiceParams (E:=E) n K).
Proof.
  intros Hr. unfold EncryptedChoice_verify. cbn [ec_choices ec_range_proof ec_sum_proof cp_receiver ps_verify MultiChoice].
  unfold ChoiceParams_check_options_count. cbn [cp_options_count]. destruct (n =? _)%nat; [|reflexivity].
  apply (same_eq (fun _ => True)). apply (same_bind (fun _ => True)); [apply same_triv|intros s _].
  apply (same_bind (fun _ => True)); [apply same_triv|intros res _]. destruct res; [|apply same_triv].
  eapply same_bind; [apply (same_ring_verify E o _ Hr), ext_ctx|]. intros [res t'] _. apply same_triv.
Qed.

Section Quadratic.
Context (Hv : agrees E o (transcript_new "quadratic_voting_variant"))
        (Hc : agrees E o (transcript_new "quadratic_voting_credit_range"))
        (He : agrees E o (transcript_new "quadratic_voting_credit_equiv")).
Lemma same_qv_votes p votes : forall r, qv_encrypt_votes (E:=W) p votes r = qv_encrypt_votes (E:=E) p votes r.
Proof.
  induction votes as [|v votes IH]; intros r; [reflexivity|]. cbn [qv_encrypt_votes]. apply (same_eq (fun _ => True)).
  eapply same_bind; [apply (same_range_new E o _ Hv), ext_ctx|]. intros [[[c P] t'] r'] _. rewrite IH. apply same_triv.
Qed.
Lemma same_qv_ballot p votes r :
  QuadraticVotingBallot_new (E:=W) p votes r = QuadraticVotingBallot_new (E:=E) p votes r.
Proof.
  unfold QuadraticVotingBallot_new. apply (same_eq (fun _ => True)).
  do 3 (apply (same_bind (fun _ => True)); [apply same_triv|intros ? _]).
  rewrite same_qv_votes. apply (same_bind (fun _ => True)); [apply same_triv|intros [vs r'] _].
  eapply same_bind; [apply (same_range_new E o _ Hc), ext_ctx|]. intros [[[c P] t'] r''] _. cbv zeta.
  eapply same_bind; [apply (same_sq_new E o _ He), ext_ctx|]. intros [[Q t''] r'''] _. apply same_triv.
Qed.
Lemma same_qv_verify_votes p votes : forall i, qv_verify_votes (E:=W) p i votes = qv_verify_votes (E:=E) p i votes.
Proof.
  induction votes as [|v votes IH]; intros i; [reflexivity|]. cbn [qv_verify_votes]. apply (same_eq (fun _ => True)).
  eapply same_bind; [apply (same_range_verify E o _ Hv), ext_ctx|]. intros [[] t'] _; [|apply same_triv].
  rewrite IH. apply same_triv.
Qed.
Lemma same_qv_verify b p : QuadraticVotingBallot_verify (E:=W) b p = QuadraticVotingBallot_verify (E:=E) b p.
Proof.
  unfold QuadraticVotingBallot_verify.
  change (QuadraticVotingParams_check_options_count (E:=W) p (List.length (qb_votes b)))
    with (QuadraticVotingParams_check_options_count (E:=E) p (List.length (qb_votes b))).
  destruct (QuadraticVotingParams_check_options_count _ _); [|reflexivity]. apply (same_eq (fun _ => True)).
  rewrite same_qv_verify_votes. apply (same_bind (fun _ => True)); [apply same_triv|intros [] _]; [|apply same_triv].
  eapply same_bind; [apply (same_range_verify E o _ Hc), ext_ctx|]. intros [[] t'] _; [|apply same_triv].
  eapply same_bind; [apply (same_sq_verify E o _ He), ext_ctx|]. intros [[] t''] _; apply same_triv.
Qed.
End Quadratic.

Lemma same_dealer : agrees E o (transcript_new "elgamal_share_poly") ->
  forall pa r, Dealer_new (E:=W) pa r = Dealer_new (E:=E) pa r.
Proof.
  intros H pa r. unfold Dealer_new. apply (same_eq (fun _ => True)).
  apply (same_bind (fun _ => True)); [split; [|trivial]|intros [poly r'] _].
  - generalize (pa_threshold pa). intros n. revert r. induction n as [|n IH]; intros r; [reflexivity|].
    cbn [generate_keypairs]. apply (same_eq (fun _ => True)).
    apply (same_bind (fun _ => True)); [apply same_triv|intros [kp r'] _]. rewrite IH. apply same_triv.
  - eapply same_bind; [apply (same_pop_new E o _ H), ext_share_poly|]. intros [[p t'] r''] _. apply same_triv.
Qed.
Lemma same_key_set : agrees E o (transcript_new "elgamal_share_poly") ->
  forall pa poly P, PublicKeySet_new (E:=W) pa poly P = PublicKeySet_new (E:=E) pa poly P.
Proof.
  intros H pa poly P. unfold PublicKeySet_new. apply (same_eq (fun _ => True)).
  apply (same_bind (fun _ => True)); [split; [|trivial]|intros res _; apply same_triv].
  unfold PublicKeySet_validate. destruct (negb _); [reflexivity|]. apply (same_eq (fun _ => True)).
  apply (same_bind (fun _ => True)); [apply same_triv|intros keys _].
  eapply same_bind; [apply (same_pop_verify E o _ H), ext_share_poly|]. intros [res t'] _. apply same_triv.
Qed.
Lemma same_participant_new : agrees E o (transcript_new "elgamal_participant_pop") ->
  forall a r, ActiveParticipant_proof_of_possession (E:=W) a r = ActiveParticipant_proof_of_possession (E:=E) a r.
Proof.
  intros H a r. unfold ActiveParticipant_proof_of_possession. apply (same_eq (fun _ => True)).
  apply (same_bind (fun _ => True)); [apply same_triv|intros pk _].
  eapply same_bind; [apply (same_pop_new E o _ H), (@ext_participant E)|]. intros [[p t'] r''] _. apply same_triv.
Qed.
Lemma same_participant_verify : agrees E o (transcript_new "elgamal_participant_pop") ->
  forall ks i P, PublicKeySet_verify_participant (E:=W) ks i P = PublicKeySet_verify_participant (E:=E) ks i P.
Proof.
  intros H ks i P. unfold PublicKeySet_verify_participant.
  change (PublicKeySet_participant_key (E:=W) ks i) with (PublicKeySet_participant_key (E:=E) ks i).
  destruct (PublicKeySet_participant_key (E:=E) ks i); [|reflexivity]. apply (same_eq (fun _ => True)).
  eapply same_bind; [apply (same_pop_verify E o _ H), (@ext_participant E)|]. intros [res t'] _. apply same_triv.
Qed.
Lemma same_share_new : agrees E o (transcript_new "elgamal_decryption_share") ->
  forall a c r, ActiveParticipant_decrypt_share (E:=W) a c r = ActiveParticipant_decrypt_share (E:=E) a c r.
Proof.
  intros H a c r. unfold ActiveParticipant_decrypt_share. apply (same_eq (fun _ => True)). cbv zeta.
  do 2 (apply (same_bind (fun _ => True)); [apply same_triv|intros ? _]).
  eapply same_bind; [apply (same_le_new E o _ H), (@ext_decshare E)|]. intros [[p t'] r''] _. apply same_triv.
Qed.
Lemma same_share_verify : agrees E o (transcript_new "elgamal_decryption_share") ->
  forall ks d c i P, PublicKeySet_verify_share (E:=W) ks d c i P = PublicKeySet_verify_share (E:=E) ks d c i P.
Proof.
  intros H ks d c i P. unfold PublicKeySet_verify_share. apply (same_eq (fun _ => True)).
  apply (same_bind (fun _ => True)); [apply same_triv|intros key _]. cbv zeta.
  apply (same_bind (fun _ => True)); [apply same_triv|intros base _].
  eapply same_bind; [apply (same_le_verify E o _ H), (@ext_decshare E)|]. intros [res t'] _. apply same_triv.
Qed.
End Contexts.

Theorem C55_contexts :
  forall (E : Env) (o : transcript -> string -> Scalar E), let W := hashed_by E o in
  let kept l := agrees E o (transcript_new l) in
    (kept "zero_encryption" ->
       (forall K r, encrypt_zero (E:=W) K r = encrypt_zero (E:=E) K r) /\
       (forall K c P, verify_zero (E:=W) K c P = verify_zero (E:=E) K c P)) /\
    (kept "bool_encryption" ->
       (forall K v r, encrypt_bool (E:=W) K v r = encrypt_bool (E:=E) K v r) /\
       (forall K c P, verify_bool (E:=W) K c P = verify_bool (E:=E) K c P)) /\
    (kept "ciphertext_range" ->
       (forall K rg v r, encrypt_range (E:=W) K rg v r = encrypt_range (E:=E) K rg v r) /\
       (forall K rg c P, verify_range (E:=W) K rg c P = verify_range (E:=E) K rg c P)) /\
    (kept "encrypted_choice_ranges" ->
       (forall K n choices r,
          choice_parts (EncryptedChoice_new (E:=W) (S:=MultiChoice) (mkChoiceParams (E:=W) n K) choices r) =
          choice_parts (EncryptedChoice_new (E:=E) (S:=MultiChoice) (mkChoiceParams (E:=E) n K) choices r)) /\
       (forall K n cs rp sp,
          EncryptedChoice_verify (mkEncryptedChoice (E:=W) (S:=MultiChoice) cs rp sp) (mkChoiceParams (E:=W) n K) =
          EncryptedChoice_verify (mkEncryptedChoice (E:=E) (S:=MultiChoice) cs rp sp) (mkChoiceParams (E:=E) n K))) /\
    (kept "choice_encryption_sum" -> kept "encrypted_choice_ranges" ->
       (forall K n choices r,
          choice_parts (EncryptedChoice_new (E:=W) (S:=SingleChoice) (mkChoiceParams (E:=W) n K) choices r) =
          choice_parts (EncryptedChoice_new (E:=E) (S:=SingleChoice) (mkChoiceParams (E:=E) n K) choices r)) /\
       (forall K n cs rp sp,
          EncryptedChoice_verify (mkEncryptedChoice (E:=W) (S:=SingleChoice) cs rp sp) (mkChoiceParams (E:=W) n K) =
          EncryptedChoice_verify (mkEncryptedChoice (E:=E) (S:=SingleChoice) cs rp sp) (mkChoiceParams (E:=E) n K))) /\
    (kept "quadratic_voting_variant" -> kept "quadratic_voting_credit_range" ->
     kept "quadratic_voting_credit_equiv" ->
       (forall p votes r, QuadraticVotingBallot_new (E:=W) p votes r = QuadraticVotingBallot_new (E:=E) p votes r) /\
       (forall b p, QuadraticVotingBallot_verify (E:=W) b p = QuadraticVotingBallot_verify (E:=E) b p)) /\
    (kept "elgamal_share_poly" ->
       (forall pa r, Dealer_new (E:=W) pa r = Dealer_new (E:=E) pa r) /\
       (forall pa poly P, PublicKeySet_new (E:=W) pa poly P = PublicKeySet_new (E:=E) pa poly P)) /\
    (kept "elgamal_participant_pop" ->
       (forall a r, ActiveParticipant_proof_of_possession (E:=W) a r
                    = ActiveParticipant_proof_of_possession (E:=E) a r) /\
       (forall ks i P, PublicKeySet_verify_participant (E:=W) ks i P
                       = PublicKeySet_verify_participant (E:=E) ks i P)) /\
    (kept "elgamal_decryption_share" ->
       (forall a c r, ActiveParticipant_decrypt_share (E:=W) a c r = ActiveParticipant_decrypt_share (E:=E) a c r) /\
       (forall ks d c i P, PublicKeySet_verify_share (E:=W) ks d c i P = PublicKeySet_verify_share (E:=E) ks d c i P)).
Proof.
  intros E o W kept.
  refine (conj _ (conj _ (conj _ (conj _ (conj _ (conj _ (conj _ (conj _ _)))))))).
  - intros H. exact (conj (same_encrypt_zero E o H) (same_verify_zero E o H)).
  - intros H. exact (conj (same_encrypt_bool E o H) (same_verify_bool E o H)).
  - intros H. exact (conj (same_encrypt_range E o H) (same_verify_range E o H)).
  - intros H. split; intros K n; intros; [exact (same_choice_multi E o n K H _ _)|exact (same_verify_multi E o n K _ _ _ H)].
  - intros Hs H. split; intros K n; intros; [exact (same_choice_single E o n K Hs H _ _)|exact (same_verify_single E o n K _ _ _ Hs H)].
  - intros Hv Hc He. exact (conj (same_qv_ballot E o Hv Hc He) (same_qv_verify E o Hv Hc He)).
  - intros H. exact (conj (same_dealer E o H) (same_key_set E o H)).
  - intros H. exact (conj (same_participant_new E o H) (same_participant_verify E o H)).
  - intros H. exact (conj (same_share_new E o H) (same_share_verify E o H)).
Qed.
Print Assumptions C55_contexts.

(** ** Example: adding one to every hash of the log equality protocol in the context "x" *)
Definition tev_eq_dec (a b : tev) : {a = b} + {a <> b}.
Proof.
  decide equality; try apply string_dec; apply (list_eq_dec Byte.byte_eq_dec).
Defined.
Definition shifted (t0 : transcript) (q : transcript) (l : string) : Scalar RE :=
  if list_eq_dec tev_eq_dec (firstn (List.length t0) q) t0 then (oracle (e:=RE) q l + rs 1)%S else oracle (e:=RE) q l.

Lemma shifted_outside t0 : agrees_outside RE (shifted t0) t0.
Proof.
  intros q l Hq. unfold shifted. destruct (list_eq_dec _ _ _) as [e|]; [|reflexivity].
  exfalso. apply Hq. exists (skipn (List.length t0) q). rewrite <- e at 1. now rewrite firstn_skipn.
Qed.

(** it breaks existing log equality proofs, but not proofs of possession *)
Example C55_example :
  let t := transcript_new "x" in
  let o := shifted (domain t "log_eq") in
  agrees_outside RE o (domain t "log_eq") /\ ~ agrees RE o (domain t "log_eq") /\
  match LogEqualityProof_new (E:=RE) (kp_public (ex_keypair 5)) (rs 7) (re 7, re 35) t 3%Z with
  | Ret (p, _, _) =>
      accepts (LogEqualityProof_verify (E:=RE) p (kp_public (ex_keypair 5)) (re 7, re 35) t) = true /\
      accepts (LogEqualityProof_verify (E:=hashed_by RE o) p (kp_public (ex_keypair 5)) (re 7, re 35) t) = false
  | Panic _ => False
  end /\
  match ProofOfPossession_new (E:=RE) [ex_keypair 5] t 3%Z with
  | Ret (p, _, _) =>
      accepts (ProofOfPossession_verify (E:=hashed_by RE o) p [kp_public (ex_keypair 5)] t) = true
  | Panic _ => False
  end.
Proof.
  cbv zeta. split; [apply shifted_outside|]. split.
  - intros H. specialize (H (domain (transcript_new "x") "log_eq") "c" (extends_refl _)).
    assert (Hf : s_eqb (oracle (e:=RE) (domain (transcript_new "x") "log_eq") "c")
                       (shifted (domain (transcript_new "x") "log_eq") (domain (transcript_new "x") "log_eq") "c") = true).
    { rewrite H. apply (s_eqb_ok _ RL). reflexivity. }
    revert Hf. vm_compute. discriminate.
  - vm_compute. auto.
Qed.
