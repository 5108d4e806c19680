(** * Debug builds only add panics *)
From Coq Require Import List NArith ZArith Arith Bool String Lia.
From Verif.Model Require Import Base Group Transcript Keys Encryption LogEquality Possession
  Ring Range Commitment Mul Sharing Dkg Choice Quadratic Serde.
From Verif.Spec Require Import Builds.
Import ListNotations.
Open Scope list_scope.

Lemma keeps_refl {A : Type} (m : outcome A) : keeps m m.
Proof. intros x H. exact H. Qed.
Lemma keeps_bind {A B : Type} (m m' : outcome A) (f f' : A -> outcome B) :
  keeps m m' -> (forall x, keeps (f x) (f' x)) -> keeps (bind m f) (bind m' f').
Proof.
  intros Hm Hf y H. destruct m as [x|k]; [|discriminate]. rewrite (Hm x eq_refl). cbn in *. apply Hf. exact H.
Qed.
Lemma keeps_panic {A : Type} k (m : outcome A) : keeps (Panic k) m.
Proof. intros x H. discriminate. Qed.
Lemma keeps_mapM {A B : Type} (f f' : A -> outcome B) l : (forall x, keeps (f x) (f' x)) -> keeps (mapM f l) (mapM f' l).
Proof.
  intros Hf. induction l as [|x l IH]; [apply keeps_refl|]. cbn [mapM].
  apply keeps_bind; [apply Hf|]. intros y. apply keeps_bind; [exact IH|]. intros ys. apply keeps_refl.
Qed.

Section Integers.
Context (b : Build).
Notation d := debug_build.

Lemma keeps_debug_assert c : keeps (debug_assert d c) (debug_assert b c).
Proof.
  unfold debug_assert. cbn. destruct c; [|apply keeps_panic]. destruct (debug_assertions b); apply keeps_refl.
Qed.
Lemma keeps_fit r : keeps (u64_fit d r) (u64_fit b r).
Proof. unfold u64_fit. destruct (r <? u64_lim)%N; [apply keeps_refl|apply keeps_panic]. Qed.
Lemma keeps_add x y : keeps (u64_add d x y) (u64_add b x y).
Proof. apply keeps_fit. Qed.
Lemma keeps_mul x y : keeps (u64_mul d x y) (u64_mul b x y).
Proof. apply keeps_fit. Qed.
Lemma keeps_sub x y : keeps (u64_sub d x y) (u64_sub b x y).
Proof. unfold u64_sub. destruct (y <=? x)%N; [apply keeps_refl|apply keeps_panic]. Qed.
End Integers.

#[global] Hint Resolve keeps_refl keeps_panic keeps_debug_assert keeps_fit keeps_add keeps_mul keeps_sub : keeps.

Ltac keeps1 :=
  match goal with
  | |- keeps ?m ?m => apply keeps_refl
  | |- keeps (Panic _) _ => apply keeps_panic
  | |- keeps (bind _ _) (bind _ _) => apply keeps_bind; [|intro]
  | |- keeps (mapM _ _) (mapM _ _) => apply keeps_mapM; intro
  | |- keeps (if ?c then _ else _) (if ?c then _ else _) => destruct c
  | |- keeps (match ?x with _ => _ end) (match ?x with _ => _ end) => destruct x
  | |- keeps (let _ := _ in _) _ => cbv zeta
  | |- keeps _ _ => solve [auto with keeps]
  end.
Ltac keeps := cbn beta; repeat keeps1.

Section Integers2.
Context (b : Build).
Notation d := debug_build.

Lemma keeps_u64_sum acc l : keeps (u64_sum d acc l) (u64_sum b acc l).
Proof. revert acc; induction l as [|x l IH]; intros acc; cbn [u64_sum]; keeps. Qed.
Hint Resolve keeps_u64_sum : keeps.

Lemma keeps_isqrt_loop fuel : forall p x root, keeps (isqrt_loop d fuel p x root) (isqrt_loop b fuel p x root).
Proof. induction fuel as [|fuel IH]; intros p x root; cbn [isqrt_loop]; keeps. Qed.
Lemma keeps_isqrt x : keeps (isqrt d x) (isqrt b x).
Proof. unfold isqrt. apply keeps_bind; [apply keeps_refl|]. intros p. apply keeps_isqrt_loop. Qed.
Lemma keeps_upper_bound r : keeps (RangeDecomposition_upper_bound d r) (RangeDecomposition_upper_bound b r).
Proof. unfold RangeDecomposition_upper_bound. keeps. Qed.
Lemma keeps_rings_size r : keeps (RangeDecomposition_rings_size d r) (RangeDecomposition_rings_size b r).
Proof. unfold RangeDecomposition_rings_size. keeps. Qed.
Hint Resolve keeps_rings_size : keeps.
Lemma keeps_proof_size r : keeps (RangeDecomposition_proof_size d r) (RangeDecomposition_proof_size b r).
Proof. unfold RangeDecomposition_proof_size. keeps. Qed.
Lemma keeps_decompose r : forall v, keeps (RangeDecomposition_decompose d r v) (RangeDecomposition_decompose b r v).
Proof. induction r as [|s r IH]; intros v; cbn [RangeDecomposition_decompose]; keeps. Qed.
Lemma keeps_combine_mul r n m : keeps (range_combine_mul d r n m) (range_combine_mul b r n m).
Proof. unfold range_combine_mul. keeps. Qed.
Hint Resolve keeps_combine_mul : keeps.

Lemma keeps_optimize_inner est rec rec' f c : (forall ub m, keeps (rec ub m) (rec' ub m)) ->
  forall ms opt m, keeps (optimize_inner d est rec f c ms opt m) (optimize_inner b est rec' f c ms opt m).
Proof.
  intros Hr. induction ms as [|x ms IH]; intros opt m; cbn [optimize_inner]; keeps.
Qed.
Lemma keeps_optimize_outer est rec rec' ub : (forall ub m, keeps (rec ub m) (rec' ub m)) ->
  forall fuel f opt m, keeps (optimize_outer d est rec fuel ub f opt m) (optimize_outer b est rec' fuel ub f opt m).
Proof.
  intros Hr. induction fuel as [|fuel IH]; intros f opt m; cbn [optimize_outer]; keeps; auto using keeps_optimize_inner.
Qed.
Lemma keeps_optimize est depth : forall ub m, keeps (optimize d est depth ub m) (optimize b est depth ub m).
Proof.
  induction depth as [|depth IH]; intros ub m; [apply keeps_panic|]. cbn [optimize].
  destruct (memo_get m ub); [apply keeps_refl|]. apply keeps_bind; [apply keeps_add|]. intros len.
  apply keeps_bind; [apply keeps_optimize_outer; exact IH|]. intros [opt m'].
  apply keeps_bind; [apply keeps_debug_assert|]. intros _. apply keeps_refl.
Qed.
Lemma keeps_optimal est ub : keeps (RangeDecomposition_optimal d est ub) (RangeDecomposition_optimal b est ub).
Proof. unfold RangeDecomposition_optimal. keeps. apply keeps_optimize. Qed.
End Integers2.

#[global] Hint Resolve keeps_u64_sum keeps_isqrt keeps_upper_bound keeps_rings_size keeps_proof_size keeps_decompose
  keeps_optimal : keeps.

Section Protocols.
Context (E : Env) (b : Build).
Notation D := (built E debug_build).
Notation B := (built E b).

Lemma keeps_ring_new i lb c adm vi t rs r :
  keeps (Ring_new (E:=D) i lb c adm vi t rs r) (Ring_new (E:=B) i lb c adm vi t rs r).
Proof.
  unfold Ring_new. keeps. cbn [env_build built debug_assertions debug_build].
  destruct (debug_assertions b).
  - keeps.
  - intros []. intros _. reflexivity.
Qed.

(** build-independent pieces are convertible *)
Lemma keeps_finalize ring lb c r : keeps (Ring_finalize (E:=D) ring lb c r) (Ring_finalize (E:=B) ring lb c r).
Proof.
  unfold Ring_finalize. apply keeps_bind; [apply keeps_refl|]. intros [[ch rs] r'].
  apply keeps_bind; [|intros []; apply keeps_refl].
  cbn [env_build built debug_assertions debug_build]. destruct (debug_assertions b).
  - keeps.
  - intros [] _. reflexivity.
Qed.
Lemma keeps_finalize_all rings lb c : forall r,
  keeps (ring_finalize_all (E:=D) rings lb c r) (ring_finalize_all (E:=B) rings lb c r).
Proof.
  induction rings as [|ring rings IH]; intros r; [apply keeps_refl|]. cbn [ring_finalize_all].
  apply keeps_bind; [apply keeps_finalize|]. intros [x r']. apply keeps_bind; [apply IH|]. intros [y r'']. apply keeps_refl.
Qed.
Lemma keeps_aggregate rings lb t r : keeps (Ring_aggregate (E:=D) rings lb t r) (Ring_aggregate (E:=B) rings lb t r).
Proof.
  unfold Ring_aggregate. apply keeps_bind; [apply keeps_debug_assert|]. intros _.
  apply keeps_bind; [apply keeps_refl|]. intros t'. cbn [challenge_scalar oracle built].
  apply keeps_bind; [apply keeps_finalize_all|]. intros [x r']. apply keeps_refl.
Qed.
Lemma keeps_add_precomputed bu c adm i :
  keeps (RingProofBuilder_add_precomputed_value (E:=D) bu c adm i) (RingProofBuilder_add_precomputed_value (E:=B) bu c adm i).
Proof.
  unfold RingProofBuilder_add_precomputed_value. apply keeps_bind; [apply keeps_refl|]. intros [x y].
  apply keeps_bind; [apply keeps_ring_new|]. intros [z r]. apply keeps_refl.
Qed.
Lemma keeps_add_value bu adm i :
  keeps (RingProofBuilder_add_value (E:=D) bu adm i) (RingProofBuilder_add_value (E:=B) bu adm i).
Proof.
  unfold RingProofBuilder_add_value. apply keeps_bind; [apply keeps_refl|]. intros v.
  change (ExtendedCiphertext_new (E:=D) v (rb_receiver bu) (rb_rng bu))
    with (ExtendedCiphertext_new (E:=B) v (rb_receiver bu) (rb_rng bu)).
  destruct (ExtendedCiphertext_new _ _ _) as [ext r].
  apply keeps_bind; [apply keeps_add_precomputed|]. intros bu'. apply keeps_refl.
Qed.
Lemma keeps_build bu : keeps (RingProofBuilder_build (E:=D) bu) (RingProofBuilder_build (E:=B) bu).
Proof.
  unfold RingProofBuilder_build. apply keeps_bind; [apply keeps_debug_assert|]. intros _.
  apply keeps_bind; [apply keeps_aggregate|]. intros [[[x y] z] r]. apply keeps_refl.
Qed.
Lemma keeps_encrypt_bool pk v r : keeps (encrypt_bool (E:=D) pk v r) (encrypt_bool (E:=B) pk v r).
Proof.
  unfold encrypt_bool. apply keeps_bind; [apply keeps_add_value|]. intros [ext bu].
  apply keeps_bind; [apply keeps_build|]. intros [[[x y] z] r']. apply keeps_refl.
Qed.
Lemma keeps_ring_from_bytes bs : keeps (RingProof_from_bytes (E:=D) bs) (RingProof_from_bytes (E:=B) bs).
Proof.
  unfold RingProof_from_bytes. cbn zeta. change (SCALAR_SIZE D) with (SCALAR_SIZE B).
  destruct (_ || _); [apply keeps_refl|].
  change (@deserialize_scalar D) with (@deserialize_scalar B).
  destruct (deserialize_scalar _); [|apply keeps_refl].
  change (@deserialize_scalar D) with (@deserialize_scalar B).
  destruct (option_all _ _); [|apply keeps_refl].
  apply keeps_bind; [apply keeps_debug_assert|]. intros _. apply keeps_refl.
Qed.

(** range proofs *)
Lemma keeps_prepared inner : keeps (PreparedRange_new (E:=D) inner) (PreparedRange_new (E:=B) inner).
Proof.
  unfold PreparedRange_new. apply keeps_bind; [|intros; apply keeps_refl].
  apply keeps_mapM. intros s. apply keeps_mapM. intros i. apply keeps_bind; [apply keeps_mul|]. intros; apply keeps_refl.
Qed.
Lemma keeps_prepared_decompose range v :
  keeps (PreparedRange_decompose (E:=D) range v) (PreparedRange_decompose (E:=B) range v).
Proof.
  unfold PreparedRange_decompose. apply keeps_bind; [apply keeps_upper_bound|]. intros ub.
  apply keeps_bind; [apply keeps_refl|]. intros _. apply keeps_decompose.
Qed.
Lemma keeps_range_add items : forall bu cum,
  keeps (range_add_values (E:=D) bu items cum) (range_add_values (E:=B) bu items cum).
Proof.
  induction items as [|[i adm] items IH]; intros bu cum; [apply keeps_refl|]. cbn [range_add_values].
  apply keeps_bind; [apply keeps_add_value|]. intros [ext bu'].
  apply keeps_bind; [apply IH|]. intros [[rest cum'] bu'']. apply keeps_refl.
Qed.
Lemma keeps_from_ciphertext pk range c t r :
  keeps (RangeProof_from_ciphertext (E:=D) pk range c t r) (RangeProof_from_ciphertext (E:=B) pk range c t r).
Proof.
  unfold RangeProof_from_ciphertext. apply keeps_bind; [apply keeps_prepared_decompose|]. intros vi.
  apply keeps_bind; [apply keeps_debug_assert|]. intros _.
  apply keeps_bind; [apply keeps_rings_size|]. intros sz. cbv zeta.
  apply keeps_bind; [apply keeps_sub|]. intros n.
  apply keeps_bind; [apply keeps_range_add|]. intros [[part cum] bu].
  change (Element (env_group D)) with (Element (env_group B)).
  destruct (skipn _ _) as [|[i adm] rest]; [apply keeps_panic|].
  apply keeps_bind; [apply keeps_add_precomputed|]. intros bu'.
  apply keeps_bind; [apply keeps_build|]. intros [[[x y] z] r']. apply keeps_refl.
Qed.
Lemma keeps_range_new pk range v t r :
  keeps (RangeProof_new (E:=D) pk range v t r) (RangeProof_new (E:=B) pk range v t r).
Proof.
  unfold RangeProof_new.
  change (CiphertextWithValue_new (E:=D) s_of_u64 v pk r) with (CiphertextWithValue_new (E:=B) s_of_u64 v pk r).
  destruct (CiphertextWithValue_new _ _ _ _) as [c r'].
  apply keeps_bind; [apply keeps_from_ciphertext|]. intros [[p t'] r'']. apply keeps_refl.
Qed.
Lemma keeps_encrypt_range pk range v r :
  keeps (encrypt_range (E:=D) pk range v r) (encrypt_range (E:=B) pk range v r).
Proof.
  unfold encrypt_range. apply keeps_bind; [apply keeps_range_new|]. intros [[[c p] t] r']. apply keeps_refl.
Qed.

(** choices *)
Lemma keeps_choice_add adm choices : forall bu,
  keeps (choice_add_values (E:=D) bu adm choices) (choice_add_values (E:=B) bu adm choices).
Proof.
  induction choices as [|f choices IH]; intros bu; [apply keeps_refl|]. cbn [choice_add_values].
  apply keeps_bind; [apply keeps_add_value|]. intros [ext bu'].
  apply keeps_bind; [apply IH|]. intros [rest bu'']. apply keeps_refl.
Qed.

(** quadratic voting *)
Lemma keeps_qv_new pk n credits :
  keeps (QuadraticVotingParams_new (E:=D) pk n credits) (QuadraticVotingParams_new (E:=B) pk n credits).
Proof.
  unfold QuadraticVotingParams_new.
  apply keeps_bind; [apply keeps_refl|]. intros _. apply keeps_bind; [apply keeps_refl|]. intros _.
  apply keeps_bind; [apply keeps_isqrt|]. intros mv. apply keeps_bind; [apply keeps_add|]. intros ub.
  apply keeps_bind; [apply keeps_optimal|]. intros vr. apply keeps_bind; [apply keeps_add|]. intros ub'.
  apply keeps_bind; [apply keeps_optimal|]. intros cr.
  apply keeps_bind; [apply keeps_prepared|]. intros x. apply keeps_bind; [apply keeps_prepared|]. intros y. apply keeps_refl.
Qed.
Lemma keeps_qv_credits p :
  keeps (QuadraticVotingParams_credits (E:=D) p) (QuadraticVotingParams_credits (E:=B) p).
Proof.
  unfold QuadraticVotingParams_credits. apply keeps_bind; [apply keeps_upper_bound|]. intros ub. apply keeps_sub.
Qed.
Lemma keeps_qv_max p :
  keeps (QuadraticVotingParams_max_votes (E:=D) p) (QuadraticVotingParams_max_votes (E:=B) p).
Proof.
  unfold QuadraticVotingParams_max_votes. apply keeps_bind; [apply keeps_upper_bound|]. intros ub. apply keeps_sub.
Qed.
Lemma keeps_qv_set_max p m :
  keeps (QuadraticVotingParams_set_max_votes (E:=D) p m) (QuadraticVotingParams_set_max_votes (E:=B) p m).
Proof.
  unfold QuadraticVotingParams_set_max_votes, optimal_range.
  apply keeps_bind; [apply keeps_mul|]. intros sq. apply keeps_bind; [apply keeps_qv_credits|]. intros c.
  apply keeps_bind; [apply keeps_refl|]. intros _. apply keeps_bind; [apply keeps_add|]. intros ub.
  apply keeps_bind; [|intros; apply keeps_refl].
  apply keeps_bind; [apply keeps_optimal|]. intros d. apply keeps_prepared.
Qed.
Lemma keeps_qv_encrypt p votes : forall r,
  keeps (qv_encrypt_votes (E:=D) p votes r) (qv_encrypt_votes (E:=B) p votes r).
Proof.
  induction votes as [|v votes IH]; intros r; [apply keeps_refl|]. cbn [qv_encrypt_votes].
  apply keeps_bind; [apply keeps_range_new|]. intros [[[c pf] t] r'].
  apply keeps_bind; [apply IH|]. intros [rest r'']. apply keeps_refl.
Qed.
Lemma keeps_ballot_new p votes r :
  keeps (QuadraticVotingBallot_new (E:=D) p votes r) (QuadraticVotingBallot_new (E:=B) p votes r).
Proof.
  unfold QuadraticVotingBallot_new. apply keeps_bind; [apply keeps_refl|]. intros _.
  apply keeps_bind; [apply keeps_mapM; intros x; apply keeps_mul|]. intros sqs.
  apply keeps_bind; [apply keeps_u64_sum|]. intros credit.
  apply keeps_bind; [apply keeps_qv_encrypt|]. intros [vs r'].
  apply keeps_bind; [apply keeps_range_new|]. intros [[[c pf] t] r''].
  apply keeps_refl.
Qed.

(** DKG *)
Lemma keeps_accumulate l : forall acc,
  keeps (accumulate_polynomials (E:=D) acc l) (accumulate_polynomials (E:=B) acc l).
Proof.
  induction l as [|p l IH]; intros acc; [apply keeps_refl|]. cbn [accumulate_polynomials].
  apply keeps_bind; [|intros acc'; apply IH].
  unfold PublicPolynomial_add_assign. apply keeps_bind; [apply keeps_debug_assert|]. intros _. apply keeps_refl.
Qed.
Lemma keeps_complete p : keeps (PES_complete (E:=D) p) (PES_complete (E:=B) p).
Proof.
  unfold PES_complete. change (PES_missing_shares (E:=D) p) with (PES_missing_shares (E:=E) p).
  change (PES_missing_shares (E:=B) p) with (PES_missing_shares (E:=E) p).
  destruct (PES_missing_shares (E:=E) p); [|apply keeps_panic].
  apply keeps_bind; [|intros acc; apply keeps_refl].
  change (pes_public_polynomials (G:=D) p) with (pes_public_polynomials (G:=E) p).
  change (pes_public_polynomials (G:=B) p) with (pes_public_polynomials (G:=E) p).
  destruct (pes_public_polynomials (G:=E) p); [apply keeps_panic|apply keeps_accumulate].
Qed.
(** encodings *)
Lemma keeps_vec_helper {A : Type} (c c' : Codec A) min h l :
  (forall x, keeps (enc c h x) (enc c' h x)) ->
  keeps (enc (VecHelper (E:=D) c min) h l) (enc (VecHelper (E:=B) c' min) h l).
Proof.
  intros Hc. cbn [enc VecHelper]. apply keeps_bind; [apply keeps_debug_assert|]. intros _.
  apply keeps_bind; [apply keeps_mapM; exact Hc|]. intros vs. apply keeps_refl.
Qed.
Lemma keeps_vec {A : Type} (c c' : Codec A) h l :
  (forall x, keeps (enc c h x) (enc c' h x)) -> keeps (enc (vec_codec c) h l) (enc (vec_codec c') h l).
Proof.
  intros Hc. cbn [enc vec_codec]. apply keeps_bind; [apply keeps_mapM; exact Hc|]. intros vs. apply keeps_refl.
Qed.
Lemma keeps_option {A : Type} (c c' : Codec A) h o :
  (forall x, keeps (enc c h x) (enc c' h x)) -> keeps (enc (option_codec c) h o) (enc (option_codec c') h o).
Proof. intros Hc. destruct o; [apply Hc|apply keeps_refl]. Qed.
Lemma keeps_ring_fields h p : keeps (RingProof_enc_fields (E:=D) h p) (RingProof_enc_fields (E:=B) h p).
Proof.
  apply keeps_bind; [apply keeps_refl|]. intros a.
  apply keeps_bind; [apply keeps_vec_helper; intros x; apply keeps_refl|]. intros bb. apply keeps_refl.
Qed.
Lemma keeps_enc_ring h p : keeps (enc (RingProof_codec (E:=D)) h p) (enc (RingProof_codec (E:=B)) h p).
Proof. apply keeps_bind; [apply keeps_ring_fields|]. intros. apply keeps_refl. Qed.
Lemma keeps_enc_range h p : keeps (enc (RangeProof_codec (E:=D)) h p) (enc (RangeProof_codec (E:=B)) h p).
Proof.
  apply keeps_bind; [apply keeps_refl|]. intros a. apply keeps_bind; [apply keeps_ring_fields|]. intros. apply keeps_refl.
Qed.
Lemma keeps_enc_sq h p : keeps (enc (SumOfSquaresProof_codec (E:=D)) h p) (enc (SumOfSquaresProof_codec (E:=B)) h p).
Proof.
  apply keeps_bind; [apply keeps_refl|]. intros a.
  apply keeps_bind; [apply keeps_vec_helper; intros x; apply keeps_refl|]. intros. apply keeps_refl.
Qed.
Lemma keeps_enc_pop h p : keeps (enc (ProofOfPossession_codec (E:=D)) h p) (enc (ProofOfPossession_codec (E:=B)) h p).
Proof.
  apply keeps_bind; [apply keeps_refl|]. intros a.
  apply keeps_bind; [apply keeps_vec_helper; intros x; apply keeps_refl|]. intros. apply keeps_refl.
Qed.
Lemma keeps_enc_poly h p : keeps (enc (PublicPolynomial_codec (E:=D)) h p) (enc (PublicPolynomial_codec (E:=B)) h p).
Proof. apply keeps_vec_helper. intros x. apply keeps_refl. Qed.
Lemma keeps_enc_dealer h p : keeps (enc (Dealer_codec (E:=D)) h p) (enc (Dealer_codec (E:=B)) h p).
Proof.
  apply keeps_bind; [apply keeps_refl|]. intros a. apply keeps_bind; [apply keeps_refl|]. intros c.
  apply keeps_bind; [apply keeps_enc_pop|]. intros. apply keeps_refl.
Qed.
Lemma keeps_enc_info h p : keeps (enc (PublicInfo_codec (E:=D)) h p) (enc (PublicInfo_codec (E:=B)) h p).
Proof.
  apply keeps_bind; [apply keeps_enc_poly|]. intros a.
  apply keeps_bind; [apply keeps_enc_pop|]. intros. apply keeps_refl.
Qed.
Lemma keeps_enc_pcc h p : keeps (enc (PCC_codec (E:=D)) h p) (enc (PCC_codec (E:=B)) h p).
Proof.
  apply keeps_bind; [apply keeps_refl|]. intros a. apply keeps_bind; [apply keeps_refl|]. intros c.
  apply keeps_bind; [apply keeps_enc_dealer|]. intros. apply keeps_refl.
Qed.
Lemma keeps_enc_pcp h p : keeps (enc (PCP_codec (E:=D)) h p) (enc (PCP_codec (E:=B)) h p).
Proof.
  apply keeps_bind; [apply keeps_refl|]. intros a. apply keeps_bind; [apply keeps_refl|]. intros c.
  apply keeps_bind; [apply keeps_enc_dealer|]. intros x. apply keeps_bind; [apply keeps_refl|]. intros y.
  apply keeps_bind; [apply keeps_refl|]. intros z.
  apply keeps_bind; [apply keeps_vec; intros o; apply keeps_option; apply keeps_enc_poly|]. intros. apply keeps_refl.
Qed.
Lemma keeps_enc_pes h p : keeps (enc (PES_codec (E:=D)) h p) (enc (PES_codec (E:=B)) h p).
Proof.
  apply keeps_bind; [apply keeps_refl|]. intros a. apply keeps_bind; [apply keeps_refl|]. intros c.
  apply keeps_bind; [apply keeps_enc_dealer|]. intros x.
  apply keeps_bind; [apply keeps_vec; apply keeps_enc_poly|]. intros y. apply keeps_refl.
Qed.
Lemma keeps_enc_crp h p :
  keeps (enc (CiphertextWithRangeProof_codec (E:=D)) h p) (enc (CiphertextWithRangeProof_codec (E:=B)) h p).
Proof.
  apply keeps_bind; [apply keeps_refl|]. intros a. apply keeps_bind; [apply keeps_enc_range|]. intros. apply keeps_refl.
Qed.
Lemma keeps_enc_ballot h p :
  keeps (enc (QuadraticVotingBallot_codec (E:=D)) h p) (enc (QuadraticVotingBallot_codec (E:=B)) h p).
Proof.
  apply keeps_bind; [apply keeps_vec; apply keeps_enc_crp|]. intros a.
  apply keeps_bind; [apply keeps_enc_crp|]. intros c. apply keeps_bind; [apply keeps_enc_sq|]. intros. apply keeps_refl.
Qed.

End Protocols.
