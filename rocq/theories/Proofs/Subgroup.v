(** * Curve25519Subgroup behaves like a group of prime order on the points of the subgroup *)
From Coq Require Import List NArith ZArith String Lia.
From Verif.Model Require Import Base Group Transcript Keys Encryption LogEquality Possession Ring
  Range Commitment Mul Sharing Dkg Choice Quadratic Serde Backends.
From Verif.Spec Require Import Transfer Backends Subgroup.
From Verif.Proofs Require Import Parametricity Transfer Backends.
From Verif.Properties Require Import Backends.
Import ListNotations.
Open Scope list_scope.

Section Subgroup.
Context {D : Dalek} {L : DalekLaws D} {R : Type} {fill : nat -> R -> bytes * R}
  {squeeze : transcript -> string -> nat -> bytes} {sha : bytes -> bytes} {estimate : N -> N} {build : Build}.
Local Notation E := (subgroup_env L R fill squeeze sha estimate build).
Local Notation E' := (curve25519_env D R fill squeeze sha estimate build).

Lemma rel_points (l : list (Element E)) (l' : list (Element E')) : rel l l' -> map point l = l'.
Proof. intros H. induction H as [|a a' l l' Ha _ IH]; [reflexivity|]. cbn [map]. rewrite IH. f_equal. exact Ha. Qed.
Lemma rel_scalars (l : list (Scalar E)) (l' : list (Scalar E')) : rel l l' -> l = l'.
Proof. intros H. induction H as [|a a' l l' Ha _ IH]; [reflexivity|]. rewrite IH. f_equal. exact Ha. Qed.
Lemma scalars_rel (l : list (Scalar E)) : @rel (list (Scalar E)) (list (Scalar E')) _ l l.
Proof. induction l; constructor; [reflexivity|assumption]. Qed.

Global Instance corresponding : Corresponding E E'.
Proof.
  destruct (C60_curve25519 D L) as (_ & _ & _ & _ & Hadd & Hsub & Hneg & Hmul & Hid & Hgen & Hmg & Hvm & Hdm & Hmm & Hvmm & Hser & Hdes).
  assert (Hout : forall (o : outcome (Element E)) (o' : outcome (Element E')),
    out_map point o = o' -> rel o o').
  { intros [P|k] o' <-; reflexivity. }
  split; try reflexivity; repeat intro.
  all: repeat match goal with
    | H : @rel (Scalar _) (Scalar _) _ _ _ |- _ => hnf in H; subst
    | H : @rel (Element _) (Element _) _ _ _ |- _ => hnf in H; subst
    | H : @rel (Rng _) (Rng _) _ _ _ |- _ => hnf in H; subst
    | H : @rel (list (Scalar _)) _ _ _ _ |- _ => apply rel_scalars in H; subst
    | H : @rel (list (Element _)) _ _ _ _ |- _ => apply rel_points in H; subst
    | H : @rel bytes bytes _ _ _ |- _ => apply is_eq in H; subst
    | H : @rel _ _ (Rel_eq _) _ _ |- _ => hnf in H; subst
    end.
  all: try reflexivity.
  - cbn [invert_scalars E prime_subgroup]. change (@invert_scalars E') with (@invert_scalars E).
    destruct (@invert_scalars E x') as [l|k]; [apply scalars_rel|reflexivity].
  - apply is_refl.
  - change (@deserialize_scalar E') with (@deserialize_scalar E).
    destruct (@deserialize_scalar E x'); reflexivity.
  - apply Hadd.
  - apply Hsub.
  - apply Hneg.
  - apply Hmul.
  - exact Hid.
  - exact Hgen.
  - exact (is_refl (@serialize_element E' (point x))).
  - pose proof (Hdes x') as Hx. change (@deserialize_element E') with (@deserialize_element (Curve25519Subgroup D)).
    rewrite <- Hx. change (@deserialize_element E) with (@deserialize_element (prime_subgroup L)).
    destruct (@deserialize_element (prime_subgroup L) x'); reflexivity.
  - apply Hmg.
  - apply Hvm.
  - apply Hout. apply Hmm.
  - apply Hdm.
  - apply Hout. apply Hvmm.
  - change (@generate_scalar E') with (@generate_scalar E). destruct (@generate_scalar E x'). split; reflexivity.
  - change (@fill_bytes E') with (@fill_bytes E). apply is_refl.
  - match goal with H : rel x x' |- _ => apply is_eq in H; subst end. reflexivity.
  - apply is_refl.
Qed.

(** ** Values inside of the subgroup are those represented over it *)
Lemma inside_element (P : Element E') : in_subgroup L P <-> exists Q : Element E, rel Q P.
Proof.
  destruct (C60_curve25519 D L) as (_ & _ & _ & H & _). exact (H P).
Qed.

Class Inside (A A' : Type) {RA : Rel A A'} {P : Points (Curve25519Subgroup D) A'} : Prop :=
  inside_iff : forall x' : A', inside L x' <-> exists x : A, rel x x'.

Global Instance in_Element : Inside (Element E) (Element E').
Proof.
  intros P. unfold inside, points, Pt_Element. rewrite Forall_cons_iff. rewrite inside_element.
  intuition.
Qed.

Lemma inside_nil {A'} {P : Points (Curve25519Subgroup D) A'} : inside L (@nil A').
Proof. constructor. Qed.
Lemma inside_cons {A'} {P : Points (Curve25519Subgroup D) A'} (a : A') l :
  inside L (a :: l) <-> inside L a /\ inside L l.
Proof. apply Forall_app. Qed.

Global Instance in_list {A A'} {RA : Rel A A'} {P : Points (Curve25519Subgroup D) A'} {I : Inside A A'}
  : Inside (list A) (list A').
Proof.
  intros l. induction l as [|a l IH].
  - split; [exists []; constructor|intros _; apply inside_nil].
  - rewrite inside_cons, IH, (inside_iff a). split.
    + intros [[x Hx] [xs Hxs]]. exists (x :: xs). constructor; assumption.
    + intros [xs H]. inversion H; subst. eauto.
Qed.

Global Instance in_option {A A'} {RA : Rel A A'} {P : Points (Curve25519Subgroup D) A'} {I : Inside A A'}
  : Inside (option A) (option A').
Proof.
  intros [a|].
  - change (inside L (Some a)) with (inside L a). rewrite (inside_iff a). split.
    + intros [x Hx]. exists (Some x). exact Hx.
    + intros [[x|] Hx]; [exists x; exact Hx|contradiction].
  - split; [exists None; exact Logic.I|constructor].
Qed.

Lemma in_one {A A' B B'} {RA : Rel A A'} {RB : Rel B B'}
  {PA : Points (Curve25519Subgroup D) A'} {PB : Points (Curve25519Subgroup D) B'} {I : Inside B B'}
  (f : A -> B) (f' : A' -> B') :
  (forall x', inside L x' <-> inside L (f' x')) ->
  rel f f' ->
  (forall x' b, rel b (f' x') -> exists x, rel x x') -> Inside A A'.
Proof.
  intros Hi Hf Hc x'. rewrite Hi, (inside_iff (f' x')). split.
  - intros [b Hb]. exact (Hc x' b Hb).
  - intros [x Hx]. exists (f x). apply Hf. exact Hx.
Qed.

Lemma in_two {A A' B B' C C'} {RA : Rel A A'} {RB : Rel B B'} {RC : Rel C C'}
  {PA : Points (Curve25519Subgroup D) A'} {PB : Points (Curve25519Subgroup D) B'}
  {PC : Points (Curve25519Subgroup D) C'} {IB : Inside B B'} {IC : Inside C C'}
  (f : A -> B) (f' : A' -> B') (g : A -> C) (g' : A' -> C') :
  (forall x', inside L x' <-> inside L (f' x') /\ inside L (g' x')) ->
  rel f f' -> rel g g' ->
  (forall x' b c, rel b (f' x') -> rel c (g' x') -> exists x, rel x x') -> Inside A A'.
Proof.
  intros Hi Hf Hg Hc x'. rewrite Hi, (inside_iff (f' x')), (inside_iff (g' x')). split.
  - intros [[b Hb] [c Hc']]. exact (Hc x' b c Hb Hc').
  - intros [x Hx]. split; [exists (f x); apply Hf; exact Hx|exists (g x); apply Hg; exact Hx].
Qed.

Lemma LogEqualityProof_inside (p : LogEqualityProof E') : exists q : LogEqualityProof E, rel q p.
Proof. exists (mkLogEqualityProof (G := E) (le_challenge p) (le_response p)). split; reflexivity. Qed.
Lemma ProofOfPossession_inside (p : ProofOfPossession E') : exists q : ProofOfPossession E, rel q p.
Proof. exists (mkProofOfPossession (G := E) (pop_challenge p) (pop_responses p)). split; [reflexivity|apply scalars_rel]. Qed.
Lemma RingProof_inside (p : RingProof E') : exists q : RingProof E, rel q p.
Proof. exists (mkRingProof (G := E) (rp_challenge p) (rp_responses p)). split; [reflexivity|apply scalars_rel]. Qed.
Lemma SumOfSquaresProof_inside (p : SumOfSquaresProof E') : exists q : SumOfSquaresProof E, rel q p.
Proof.
  exists (mkSumOfSquaresProof (G := E) (sq_challenge p) (sq_ciphertext_responses p) (sq_sum_response p)).
  split; [reflexivity|]. split; [|reflexivity]. cbn [sq_ciphertext_responses].
  induction (sq_ciphertext_responses p); constructor; [split; reflexivity|assumption].
Qed.

Ltac fields := hnf; cbn; repeat match goal with |- _ /\ _ => split end; first [reflexivity|eassumption|apply is_refl].

Global Instance in_PublicKey : Inside (PublicKey E) (PublicKey E').
Proof.
  apply (in_one pk_element pk_element); [reflexivity|exact p_pk_element|].
  intros [b P] Q H. exists (mkPublicKey (G := E) b Q). fields.
Qed.
Global Instance in_Keypair : Inside (Keypair E) (Keypair E').
Proof.
  apply (in_one kp_public kp_public); [reflexivity|exact p_kp_public|].
  intros [s K] K' H. exists (mkKeypair (G := E) s K'). fields.
Qed.
Global Instance in_Ciphertext : Inside (Ciphertext E) (Ciphertext E').
Proof.
  apply (in_two random_element random_element blinded_element blinded_element);
    [|exact p_random_element|exact p_blinded_element|].
  - intros x. exact (Forall_app (in_subgroup L) [random_element x] [blinded_element x]).
  - intros [P Q] P' Q' HP HQ. exists (mkCiphertext (G := E) P' Q'). fields.
Qed.
Global Instance in_VerifiableDecryption : Inside (VerifiableDecryption E) (VerifiableDecryption E').
Proof.
  apply (in_one vd_dh_element vd_dh_element); [reflexivity|exact p_vd_dh_element|].
  intros [P] Q H. exists (mkVerifiableDecryption (G := E) Q). fields.
Qed.
Global Instance in_CandidateDecryption : Inside (CandidateDecryption E) (CandidateDecryption E').
Proof.
  apply (in_one cd_inner cd_inner); [reflexivity|exact p_cd_inner|].
  intros [P] Q H. exists (mkCandidateDecryption (G := E) Q). fields.
Qed.
Global Instance in_PreparedRange : Inside (PreparedRange E) (PreparedRange E').
Proof.
  apply (in_one pr_admissible pr_admissible); [reflexivity|exact p_pr_admissible|].
  intros [d P] Q H. exists (mkPreparedRange (G := E) d Q). fields.
Qed.
Global Instance in_RangeProof : Inside (RangeProof E) (RangeProof E').
Proof.
  apply (in_one rap_partial rap_partial); [reflexivity|exact p_rap_partial|].
  intros [P p] Q H. destruct (RingProof_inside p) as [p' Hp]. exists (mkRangeProof (G := E) Q p'). fields.
Qed.
Global Instance in_PublicPolynomial : Inside (PublicPolynomial E) (PublicPolynomial E').
Proof.
  exact in_list.
Qed.
Global Instance in_PublicKeySet : Inside (PublicKeySet E) (PublicKeySet E').
Proof.
  apply (in_two ks_shared_key ks_shared_key ks_participant_keys ks_participant_keys);
    [|exact p_ks_shared_key|exact p_ks_participant_keys|].
  - intros x. apply Forall_app.
  - intros [d P Q] P' Q' HP HQ. exists (mkPublicKeySet (G := E) d P' Q'). fields.
Qed.
Global Instance in_Dealer : Inside (Dealer E) (Dealer E').
Proof.
  apply (in_one de_polynomial de_polynomial); [reflexivity|exact p_de_polynomial|].
  intros [d P p] Q H. destruct (ProofOfPossession_inside p) as [p' Hp]. exists (mkDealer (G := E) d Q p'). fields.
Qed.
Global Instance in_ActiveParticipant : Inside (ActiveParticipant E) (ActiveParticipant E').
Proof.
  apply (in_one ap_key_set ap_key_set); [reflexivity|exact p_ap_key_set|].
  intros [P i s] Q H. exists (mkActiveParticipant (G := E) Q i s). fields.
Qed.
Global Instance in_PublicInfo : Inside (PublicInfo E) (PublicInfo E').
Proof.
  apply (in_one (pi_polynomial (G := E)) (pi_polynomial (G := E'))); [reflexivity|exact p_pi_polynomial|].
  intros [P p o] Q H. destruct (ProofOfPossession_inside p) as [p' Hp]. exists (mkPublicInfo (G := E) Q p' o). fields.
Qed.
Global Instance in_PCC : Inside (ParticipantCollectingCommitments E) (ParticipantCollectingCommitments E').
Proof.
  apply (in_one pcc_dealer pcc_dealer); [reflexivity|exact p_pcc_dealer|].
  intros [d i P c o] Q H. exists (mkPCC (G := E) d i Q c o). fields.
Qed.
Global Instance in_PCP : Inside (ParticipantCollectingPolynomials E) (ParticipantCollectingPolynomials E').
Proof.
  apply (in_two pcp_dealer pcp_dealer pcp_public_polynomials pcp_public_polynomials);
    [|exact p_pcp_dealer|exact p_pcp_public_polynomials|].
  - intros x. apply Forall_app.
  - intros [d i P o c Q] P' Q' HP HQ. exists (mkPCP (G := E) d i P' o c Q'). fields.
Qed.
Global Instance in_PES : Inside (ParticipantExchangingSecrets E) (ParticipantExchangingSecrets E').
Proof.
  apply (in_two pes_dealer pes_dealer pes_public_polynomials pes_public_polynomials);
    [|exact p_pes_dealer|exact p_pes_public_polynomials|].
  - intros x. apply Forall_app.
  - intros [d i P Q s b] P' Q' HP HQ. exists (mkPES (G := E) d i P' Q' s b). fields.
Qed.
Global Instance in_QuadraticVotingParams : Inside (QuadraticVotingParams E) (QuadraticVotingParams E').
Proof.
  intros [P Q n K]. unfold inside, points, Pt_QuadraticVotingParams. rewrite !Forall_app. cbn.
  change (inside L P /\ inside L Q /\ inside L K <->
    exists x, @rel (QuadraticVotingParams E) (QuadraticVotingParams E') _ x (mkQVParams (G := E') P Q n K)).
  rewrite (inside_iff P), (inside_iff Q), (inside_iff K). split.
  - intros ((P' & HP) & (Q' & HQ) & (K' & HK)). exists (mkQVParams (G := E) P' Q' n K'). fields.
  - intros [x (HP & HQ & _ & HK)].
    split; [exists (qv_vote_count_range x); exact HP|]. split; [exists (qv_credit_range x); exact HQ|].
    exists (qv_receiver x). exact HK.
Qed.
Global Instance in_CiphertextWithRangeProof : Inside (CiphertextWithRangeProof E) (CiphertextWithRangeProof E').
Proof.
  apply (in_two crp_ciphertext crp_ciphertext crp_range_proof crp_range_proof);
    [|exact p_crp_ciphertext|exact p_crp_range_proof|].
  - intros x. apply Forall_app.
  - intros [P Q] P' Q' HP HQ. exists (mkCiphertextWithRangeProof (G := E) P' Q'). fields.
Qed.
Global Instance in_QuadraticVotingBallot : Inside (QuadraticVotingBallot E) (QuadraticVotingBallot E').
Proof.
  apply (in_two qb_votes qb_votes qb_credit qb_credit); [|exact p_qb_votes|exact p_qb_credit|].
  - intros x. apply Forall_app.
  - intros [P Q p] P' Q' HP HQ. destruct (SumOfSquaresProof_inside p) as [p' Hp].
    exists (mkQVBallot (G := E) P' Q' p'). fields.
Qed.
Global Instance in_ChoiceParams {S : ProveSum E} {S' : ProveSum E'} : Inside (ChoiceParams S) (ChoiceParams S').
Proof.
  apply (in_one cp_receiver cp_receiver); [reflexivity|exact p_cp_receiver|].
  intros [n P] Q H. exists (mkChoiceParams (S := S) n Q). fields.
Qed.
Global Instance in_single : Inside (EncryptedChoice (@SingleChoice E)) (EncryptedChoice (@SingleChoice E')).
Proof.
  apply (in_one ec_choices ec_choices); [reflexivity|exact p_ec_choices|].
  intros [P p s] Q H. destruct (RingProof_inside p) as [p' Hp], (LogEqualityProof_inside s) as [s' Hs].
  exists (mkEncryptedChoice (S := @SingleChoice E) Q p' s'). fields.
Qed.
Global Instance in_multi : Inside (EncryptedChoice (@MultiChoice E)) (EncryptedChoice (@MultiChoice E')).
Proof.
  apply (in_one ec_choices ec_choices); [reflexivity|exact p_ec_choices|].
  intros [P p s] Q H. destruct (RingProof_inside p) as [p' Hp].
  exists (mkEncryptedChoice (S := @MultiChoice E) Q p' tt). destruct s. fields.
Qed.

End Subgroup.
