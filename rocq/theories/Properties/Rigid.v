(** * C78: an accepted proof or ballot cannot be altered without hashing anew

    [asked o V] lists the inputs of the Fiat-Shamir hash [o] when the verifier [V] runs (the algorithms
    are the modelled verifiers: [C57_verifiers], [C64_verifiers]).  Two proofs are accepted under the same
    hash, and everything hashed when the second is verified has been hashed when the first was.  Then they
    are one proof, for one statement: not a byte of it can be changed.  So whoever alters a published
    ballot must have the hash answer a new question favourably; with [C57], [C58] this is a forgery from
    scratch. *)
From Coq Require Import List String NArith ZArith Arith Lia Bool.
From Verif.Model Require Import Base Group Transcript Keys Encryption LogEquality Possession Commitment Ring Range Mul Sharing Choice Quadratic.
From Verif.Spec Require Import Encryption LogEquality Sigma Possession Ring Range Sharing Choice Quadratic Domains Rom Verifiers Extractors.
From Verif.Proofs Require Import Algebra Lists Encryption LogEquality Possession Commitment SumOfSquares Ring Range RangeProof Sharing Choice Quadratic Rom Verifiers Forgery Extractors Rigid.
From Verif.Instance Require Import Primality Zq.
From Verif.Properties Require Import Forgery.
Import ListNotations.
Open Scope string_scope.
Open Scope list_scope.
Open Scope nat_scope.

(** ** proofs with one challenge *)
Theorem C78_log_equality :
  forall (E : Env) (L : GroupLaws E) (o : hash (Scalar E)) p (K : PublicKey E) P t p' (K' : PublicKey E) P' t',
    ok_t (LogEqualityProof_verify (E:=hashed_by E o) p K P t) = true ->
    ok_t (LogEqualityProof_verify (E:=hashed_by E o) p' K' P' t') = true ->
    incl (asked o (log_equality_verifier p' K' P' t')) (asked o (log_equality_verifier p K P t)) ->
    t' = t /\ pk_bytes K' = pk_bytes K /\ P' = P /\ p' = p.
Proof.
  intros E L o p K P t p' K' P' t' H H' Hi. rewrite <- log_equality_run in H, H'.
  destruct (ok_t_inv _ H) as ([] & tf & Hr). destruct (ok_t_inv _ H') as ([] & tf' & Hr').
  exact (le_rigid E L o _ _ _ _ _ _ _ _ _ _ Hr Hr' Hi).
Qed.
Print Assumptions C78_log_equality.

Theorem C78_zero_encryption :
  forall (E : Env) (L : GroupLaws E) (o : hash (Scalar E)) (pk : PublicKey E) (c : Ciphertext E) p (pk' : PublicKey E) (c' : Ciphertext E) p',
    verify_zero (E:=hashed_by E o) pk c p = Ret (Ok tt) -> verify_zero (E:=hashed_by E o) pk' c' p' = Ret (Ok tt) ->
    incl (asked o (zero_verifier pk' c' p')) (asked o (zero_verifier pk c p)) ->
    pk_bytes pk' = pk_bytes pk /\ c' = c /\ p' = p.
Proof.
  intros E L o pk c p pk' c' p' H H' Hi. rewrite <- zero_run in H, H'.
  destruct (zero_inv E o pk c p ltac:(rewrite H; reflexivity)) as [Ha Ho]. destruct (zero_inv E o pk' c' p' ltac:(rewrite H'; reflexivity)) as [Ha' Ho'].
  rewrite Ha, Ha' in Hi. rewrite log_equality_run in Ho, Ho'.
  destruct (C78_log_equality E L o _ _ _ _ _ _ _ _ Ho Ho' Hi) as (_ & Hb & HP & Hp). injection HP as H1 H2.
  split; [exact Hb|]. split; [|exact Hp]. destruct c, c'. cbn in *. congruence.
Qed.
Print Assumptions C78_zero_encryption.

(** The blinded element of a ciphertext takes no part in the decryption. *)
Theorem C78_decryption :
  forall (E : Env) (L : GroupLaws E) (o : hash (Scalar E)) (d : CandidateDecryption E) (c : Ciphertext E) (K : PublicKey E) p t
      (d' : CandidateDecryption E) (c' : Ciphertext E) (K' : PublicKey E) p' t',
    ok_t (CandidateDecryption_verify (E:=hashed_by E o) d c K p t) = true ->
    ok_t (CandidateDecryption_verify (E:=hashed_by E o) d' c' K' p' t') = true ->
    incl (asked o (decryption_verifier d' c' K' p' t')) (asked o (decryption_verifier d c K p t)) ->
    t' = t /\ d' = d /\ random_element c' = random_element c /\ pk_element K' = pk_element K /\ p' = p.
Proof.
  intros E L o d c K p t d' c' K' p' t' H H' Hi. rewrite <- decryption_run in H, H'.
  destruct (decryption_inv E L o d c K p t H) as (b & Hg & Hb & Ha & Ho). destruct (decryption_inv E L o d' c' K' p' t' H') as (b' & Hg' & Hb' & Ha' & Ho').
  rewrite Ha, Ha' in Hi. rewrite log_equality_run in Ho, Ho'.
  destruct (C78_log_equality E L o _ _ _ _ _ _ _ _ Ho Ho' Hi) as (Ht & Hbb & HP & Hp). injection HP as H1 H2.
  pose proof (genuine_eq E b' b Hg' Hg Hbb) as Hbe. subst b'.
  split; [unfold start_proof, append_message in Ht; apply app_inj_tail in Ht; apply Ht|].
  split; [destruct d as [[x]], d' as [[x']]; cbn in *; congruence|]. split; [congruence|]. auto.
Qed.
Print Assumptions C78_decryption.

Theorem C78_share :
  forall (E : Env) (L : GroupLaws E) (o : hash (Scalar E)) (ks : PublicKeySet E) (d : CandidateDecryption E) (c : Ciphertext E) i p
      (d' : CandidateDecryption E) (c' : Ciphertext E) i' p',
    usize (pa_shares (ks_params ks)) -> usize (pa_threshold (ks_params ks)) -> usize i -> usize i' ->
    ok (PublicKeySet_verify_share (E:=hashed_by E o) ks d c i p) = true ->
    ok (PublicKeySet_verify_share (E:=hashed_by E o) ks d' c' i' p') = true ->
    incl (asked o (share_verifier ks d' c' i' p')) (asked o (share_verifier ks d c i p)) ->
    i' = i /\ d' = d /\ random_element c' = random_element c /\ p' = p.
Proof.
  intros E L o ks d c i p d' c' i' p' Hn Ht Hi0 Hi0' H H' Hi. rewrite <- share_run in H, H'.
  destruct (share_inv E L o ks d c i p H) as (k & b & Hk & Hg & Hb & Ha & Ho).
  destruct (share_inv E L o ks d' c' i' p' H') as (k' & b' & Hk' & Hg' & Hb' & Ha' & Ho').
  rewrite Ha, Ha' in Hi. rewrite log_equality_run in Ho, Ho'.
  destruct (C78_log_equality E L o _ _ _ _ _ _ _ _ Ho Ho' Hi) as (Htt & Hbb & HP & Hp). injection HP as H1 H2.
  pose proof (genuine_eq E b' b Hg' Hg Hbb) as Hbe. subst b'.
  change (share_context (E:=E) "elgamal_decryption_share" ks i' = share_context "elgamal_decryption_share" ks i) in Htt.
  apply (f_equal (fun l => l ++ [])) in Htt. apply (share_context_inj E) in Htt as (_ & _ & _ & Hii & _); try assumption.
  split; [exact Hii|]. split; [destruct d as [[x]], d' as [[x']]; cbn in *; congruence|]. split; [congruence|]. auto.
Qed.
Print Assumptions C78_share.

Theorem C78_possession :
  forall (E : Env) (L : GroupLaws E) (o : hash (Scalar E)) p (keys : list (PublicKey E)) t p' (keys' : list (PublicKey E)) t',
    Forall genuine keys -> Forall genuine keys' ->
    ok_t (ProofOfPossession_verify (E:=hashed_by E o) p keys t) = true ->
    ok_t (ProofOfPossession_verify (E:=hashed_by E o) p' keys' t') = true ->
    incl (asked o (possession_verifier p' keys' t')) (asked o (possession_verifier p keys t)) ->
    t' = t /\ map pk_element keys' = map pk_element keys /\ map pk_bytes keys' = map pk_bytes keys /\ p' = p.
Proof.
  intros E L o p keys t p' keys' t' HK HK' H H' Hi. rewrite <- possession_run in H, H'.
  destruct (ok_t_inv _ H) as ([] & tf & Hr). destruct (ok_t_inv _ H') as ([] & tf' & Hr').
  exact (pop_rigid E L o _ _ _ _ _ _ _ _ HK HK' Hr Hr' Hi).
Qed.
Print Assumptions C78_possession.

(** The dealer's proof belongs to one polynomial and one pair of parameters. *)
Theorem C78_dealer :
  forall (E : Env) (L : GroupLaws E) (o : hash (Scalar E)) params (poly : list (Element E)) (p : ProofOfPossession E) params' (poly' : list (Element E)) (p' : ProofOfPossession E),
    usize (pa_shares params) -> usize (pa_threshold params) -> usize (pa_shares params') -> usize (pa_threshold params') ->
    ok (PublicKeySet_validate (E:=hashed_by E o) params poly p) = true ->
    ok (PublicKeySet_validate (E:=hashed_by E o) params' poly' p') = true ->
    incl (asked o (dealer_verifier (E:=E) params' poly' p')) (asked o (dealer_verifier params poly p)) ->
    params' = params /\ poly' = poly /\ p' = p.
Proof.
  intros E L o params poly p params' poly' p' U1 U2 U3 U4 H H' Hi. rewrite <- dealer_run in H, H'.
  destruct (dealer_inv E L o _ _ _ H) as (keys & Hg & Hm & Ha & Ho). destruct (dealer_inv E L o _ _ _ H') as (keys' & Hg' & Hm' & Ha' & Ho').
  rewrite Ha, Ha' in Hi. rewrite possession_run in Ho, Ho'.
  destruct (C78_possession E L o _ _ _ _ _ _ Hg Hg' Ho Ho' Hi) as (Ht & Hk & _ & Hp).
  split; [|split; [congruence|exact Hp]].
  unfold share_poly_transcript, append_u64, append_message in Ht. apply app_inj_tail in Ht as [Ht Htt]. apply app_inj_tail in Ht as [_ Hn].
  assert (Hmsg : forall l m m', TMsg l m = TMsg l m' -> m = m') by congruence.
  apply Hmsg in Hn, Htt. apply le_bytes_inj in Hn; [|assumption..]. apply le_bytes_inj in Htt; [|assumption..].
  destruct params, params'. cbn in *. f_equal; lia.
Qed.
Print Assumptions C78_dealer.

Theorem C78_participant :
  forall (E : Env) (L : GroupLaws E) (o : hash (Scalar E)) (ks : PublicKeySet E) i p (ks' : PublicKeySet E) i' p',
    usize (pa_shares (ks_params ks)) -> usize (pa_threshold (ks_params ks)) ->
    usize (pa_shares (ks_params ks')) -> usize (pa_threshold (ks_params ks')) -> usize i -> usize i' ->
    Forall genuine (ks_participant_keys ks) -> Forall genuine (ks_participant_keys ks') ->
    ok (PublicKeySet_verify_participant (E:=hashed_by E o) ks i p) = true ->
    ok (PublicKeySet_verify_participant (E:=hashed_by E o) ks' i' p') = true ->
    incl (asked o (participant_verifier ks' i' p')) (asked o (participant_verifier ks i p)) ->
    ks_params ks' = ks_params ks /\ pk_bytes (ks_shared_key ks') = pk_bytes (ks_shared_key ks) /\ i' = i /\
    option_map pk_element (nth_error (ks_participant_keys ks') i') = option_map pk_element (nth_error (ks_participant_keys ks) i) /\ p' = p.
Proof.
  intros E L o ks i p ks' i' p' U1 U2 U3 U4 U5 U6 HG HG' H H' Hi. rewrite <- participant_run in H, H'.
  destruct (participant_inv E o _ _ _ H) as (k & Hk & Ha & Ho). destruct (participant_inv E o _ _ _ H') as (k' & Hk' & Ha' & Ho').
  rewrite Ha, Ha' in Hi. rewrite possession_run in Ho, Ho'. rewrite Forall_forall in HG, HG'.
  destruct (fun A B => C78_possession E L o _ _ _ _ _ _ A B Ho Ho' Hi) as (Htt & He & _ & Hp).
  - constructor; [exact (HG _ (nth_error_In _ _ Hk))|constructor].
  - constructor; [exact (HG' _ (nth_error_In _ _ Hk'))|constructor].
  - change (share_context (E:=E) "elgamal_participant_pop" ks' i' = share_context "elgamal_participant_pop" ks i) in Htt.
    apply (f_equal (fun l => l ++ [])) in Htt. apply (share_context_inj E) in Htt as (_ & H1 & H2 & H3 & _); try assumption.
    split; [exact H1|]. split; [exact H2|]. split; [exact H3|]. split; [|exact Hp]. rewrite Hk, Hk'. cbn in *. congruence.
Qed.
Print Assumptions C78_participant.

Theorem C78_sum_of_squares :
  forall (E : Env) (L : GroupLaws E) (o : hash (Scalar E)) p cs z (K : PublicKey E) t p' cs' z' (K' : PublicKey E) t',
    genuine K -> genuine K' ->
    ok_t (SumOfSquaresProof_verify (E:=hashed_by E o) p cs z K t) = true ->
    ok_t (SumOfSquaresProof_verify (E:=hashed_by E o) p' cs' z' K' t') = true ->
    incl (asked o (sum_of_squares_verifier p' cs' z' K' t')) (asked o (sum_of_squares_verifier p cs z K t)) ->
    t' = t /\ K' = K /\ cs' = cs /\ z' = z /\ p' = p.
Proof.
  intros E L o p cs z K t p' cs' z' K' t' HK HK' H H' Hi. rewrite <- sum_of_squares_run in H, H'.
  destruct (ok_t_inv _ H) as ([] & tf & Hr). destruct (ok_t_inv _ H') as ([] & tf' & Hr').
  exact (sq_rigid E L o _ _ _ _ _ _ _ _ _ _ _ _ HK HK' Hr Hr' Hi).
Qed.
Print Assumptions C78_sum_of_squares.

Theorem C78_commitment :
  forall (E : Env) (L : GroupLaws E) (o : hash (Scalar E)) (base : Element E) p (c : Ciphertext E) (K : PublicKey E) (C : Element E) t
      p' (c' : Ciphertext E) (K' : PublicKey E) (C' : Element E) t',
    genuine K -> genuine K' -> base <> identity ->
    ok_t (CommitmentEquivalenceProof_verify (E:=hashed_by E o) p c K C base t) = true ->
    ok_t (CommitmentEquivalenceProof_verify (E:=hashed_by E o) p' c' K' C' base t') = true ->
    incl (asked o (commitment_verifier p' c' K' C' base t')) (asked o (commitment_verifier p c K C base t)) ->
    t' = t /\ K' = K /\ c' = c /\ C' = C /\ p' = p.
Proof.
  intros E L o base p c K C t p' c' K' C' t' HK HK' HB H H' Hi. rewrite <- commitment_run in H, H'.
  destruct (ok_t_inv _ H) as ([] & tf & Hr). destruct (ok_t_inv _ H') as ([] & tf' & Hr').
  exact (ce_rigid E L o _ _ _ _ _ _ _ _ _ _ _ _ _ HK HK' HB Hr Hr' Hi).
Qed.
Print Assumptions C78_commitment.

(** With the identity as blinding base (which the code does not reject), the response for the blinding
    is not determined: an accepted proof stays accepted with any other. *)
Theorem C78_commitment_identity_base_refuted :
  forall (E : Env) (L : GroupLaws E) (o : hash (Scalar E)) (p : CommitmentEquivalenceProof E) (c : Ciphertext E) (K : PublicKey E) (C : Element E) t (w : Scalar E),
    let p' := {| ce_challenge := ce_challenge p; ce_randomness_response := ce_randomness_response p;
                 ce_value_response := ce_value_response p; ce_commitment_response := w |} in
    CommitmentEquivalenceProof_verify (E:=hashed_by E o) p' c K C identity t =
      CommitmentEquivalenceProof_verify (E:=hashed_by E o) p c K C identity t /\
    asked o (commitment_verifier p' c K C identity t) = asked o (commitment_verifier p c K C identity t).
Proof.
  intros E L o p c K C t w p'.
  assert (He : commitment_verifier p' c K C identity t = commitment_verifier p c K C identity t).
  { unfold commitment_verifier. subst p'. cbn [ce_challenge ce_randomness_response ce_value_response ce_commitment_response].
    rewrite (mul_identity E L w (ce_commitment_response p)). reflexivity. }
  split; [|exact (f_equal (asked o) He)]. rewrite <- !commitment_run. exact (f_equal (run o) He).
Qed.
Print Assumptions C78_commitment_identity_base_refuted.

(** ** proofs over rings *)
Theorem C78_ring_proof :
  forall (E : Env) (L : GroupLaws E) (o : hash (Scalar E)) vals p (K : PublicKey E) cts t p' (K' : PublicKey E) cts' t',
    vals <> [] -> Forall (fun vs => 2 <= List.length vs /\ usize (List.length vs)) vals -> usize (List.length vals) ->
    List.length cts = List.length vals -> List.length cts' = List.length vals ->
    ok_t (RingProof_verify (E:=hashed_by E o) p K vals cts t) = true ->
    ok_t (RingProof_verify (E:=hashed_by E o) p' K' vals cts' t') = true ->
    incl (asked o (ring_verifier p' K' vals cts' t')) (asked o (ring_verifier p K vals cts t)) ->
    t' = t /\ pk_bytes K' = pk_bytes K /\ cts' = cts /\ p' = p.
Proof.
  intros E L o vals p K cts t p' K' cts' t' H1 H2 H3 H4 H5 H H' Hi. rewrite <- ring_run' in H, H'.
  destruct (ok_t_inv _ H) as ([] & tf & Hr). destruct (ok_t_inv _ H') as ([] & tf' & Hr').
  exact (ring_rigid E L o _ _ _ _ _ _ _ _ _ _ _ _ _ H1 H2 H3 H4 H5 Hr Hr' Hi).
Qed.
Print Assumptions C78_ring_proof.

(** A ring with one admissible value is not covered: its ciphertext is never hashed.  For every key and
    value there is one hash input with which infinitely many (as many as there are scalars) ciphertexts are
    accepted, and none of them contains the value.  (The crate has no such rings: [C13]; [RingProof]'s
    functions are not public.) *)
Theorem C78_single_value_refuted :
  forall (E : Env) (L : GroupLaws E), ser_total E ->
  forall (o : hash (Scalar E)) (sk : SecretKey E) (K : PublicKey E) (A : Element E) t, key_of sk K ->
  exists q, o q "c" <> s_default -> forall s : Scalar E, exists ct,
    let p := {| rp_challenge := o q "c"; rp_responses := [s] |} in
    random_element ct = (generator * (s * s_inv L (o q "c")))%E /\
    RingProof_verify (E:=hashed_by E o) p K [[A]] [ct] t = Ret (Ok tt, q ++ [TChal "c"]) /\
    asked o (ring_verifier p K [[A]] [ct] t) = [(q, "c")] /\
    decrypt_to_element sk ct <> A.
Proof.
  intros E L Hser o sk K A t Hk. pose proof (ser_total_some L Hser) as Hs. clear Hser.
  destruct (Hs identity) as [b0 H0]. destruct (Hs generator) as [b1 H1].
  exists ((ring_context t K ++ [TMsg "R_G" b0]) ++ [TMsg "R_K" b1]).
  set (q := (ring_context t K ++ [TMsg "R_G" b0]) ++ [TMsg "R_K" b1]). set (c := o q "c"). intros Hc s.
  pose (R := (generator * (s * s_inv L c))%E). pose (B := (A + (pk_element K * s - generator) * s_inv L c)%E).
  exists {| random_element := R; blinded_element := B |}. cbv zeta. cbn [random_element]. split; [reflexivity|].
  destruct (Hs R) as [bR HR]. destruct (Hs B) as [bB HB].
  pose proof (single_first E L c s Hc : vartime_double_mul_generator (- c)%S R s = identity) as HX.
  pose proof (single_second E L c s (pk_element K) A Hc : vartime_multi_mul (g:=E) [s; (- c)%S] [pk_element K; (B - A)%E] = Ret generator) as HY.
  assert (Hctx : ring_initialize_transcript t K = ring_context t K).
  { unfold ring_initialize_transcript, start_proof, append_element_bytes, append_message, ring_context. rewrite <- app_assoc. reflexivity. }
  assert (Hq : forall rt, ring_init_transcript (ring_context t K) {| random_element := R; blinded_element := B |} 0 = Ret rt ->
    ring_verifier {| rp_challenge := c; rp_responses := [s] |} K [[A]] [{| random_element := R; blinded_element := B |}] t =
    asking q (fun expected => Output (Ret ((if s_eqb expected c then Ok tt else Err ChallengeMismatch), q ++ [TChal "c"])))).
  { intros rt Hrt. unfold ring_verifier. cbn [rp_responses rp_challenge map list_sum fold_right List.length check_lengths Nat.add Nat.eqb combine].
    rewrite Hctx. cbn [rings_verifier]. rewrite Hrt. cbn [doing slice_from Nat.leb skipn combine rp_responses rp_challenge ring_loop_verifier random_element blinded_element].
    rewrite HX, HY. cbn [doing List.length Nat.add Nat.ltb Nat.leb andthen after]. unfold append_element. cbn [fst snd].
    rewrite H0. cbn [bind doing]. rewrite H1. cbn [bind doing andthen after]. reflexivity. }
  destruct (ring_init_transcript (ring_context t K) {| random_element := R; blinded_element := B |} 0) as [rt|k] eqn:Hrt.
  2: { exfalso. unfold ring_init_transcript, Ciphertext_to_bytes in Hrt. cbn [random_element blinded_element] in Hrt. rewrite HR, HB in Hrt. discriminate. }
  specialize (Hq rt eq_refl). rewrite <- ring_run', Hq. cbn [asking run asked answer fst snd].
  change (answer o (q, "c")) with c. rewrite (proj2 (s_eqb_ok E L c c) eq_refl). split; [reflexivity|]. split; [reflexivity|].
  unfold decrypt_to_element. cbn [random_element blinded_element]. unfold R, B. unfold key_of in Hk. rewrite Hk. apply (single_plain E L). exact Hc.
Qed.
Print Assumptions C78_single_value_refuted.

Theorem C78_bool_encryption :
  forall (E : Env) (L : GroupLaws E) (o : hash (Scalar E)) (pk : PublicKey E) (c : Ciphertext E) p (pk' : PublicKey E) (c' : Ciphertext E) p',
    verify_bool (E:=hashed_by E o) pk c p = Ret (Ok tt) -> verify_bool (E:=hashed_by E o) pk' c' p' = Ret (Ok tt) ->
    incl (asked o (bool_verifier pk' c' p')) (asked o (bool_verifier pk c p)) ->
    pk_bytes pk' = pk_bytes pk /\ c' = c /\ p' = p.
Proof.
  intros E L o pk c p pk' c' p' H H' Hi. rewrite <- bool_run in H, H'.
  apply (bool_rigid E L o _ _ _ _ _ _); [rewrite H; reflexivity|rewrite H'; reflexivity|exact Hi].
Qed.
Print Assumptions C78_bool_encryption.

Theorem C78_range_proof :
  forall (E : Env) (L : GroupLaws E) (o : hash (Scalar E)) est (n : N) d (pr : PreparedRange E),
    (n + 4 < 2 ^ 64)%N -> RangeDecomposition_optimal (env_build E) est n = Ret d -> PreparedRange_new (E:=E) d = Ret pr ->
  forall p (K : PublicKey E) (ct : Ciphertext E) t p' (K' : PublicKey E) (ct' : Ciphertext E) t',
    ok_t (RangeProof_verify (E:=hashed_by E o) p K pr ct t) = true ->
    ok_t (RangeProof_verify (E:=hashed_by E o) p' K' pr ct' t') = true ->
    incl (asked o (range_verifier p' K' pr ct' t')) (asked o (range_verifier p K pr ct t)) ->
    t' = t /\ pk_bytes K' = pk_bytes K /\ ct' = ct /\ p' = p.
Proof.
  intros E L o est n d pr Hn Hd0 Hpr p K ct t p' K' ct' t' H H' Hi. pose proof (optimal_valid _ est n d Hn Hd0) as Hd.
  rewrite (prepared_ok E L n d Hd) in Hpr by (unfold u64_lim; lia). injection Hpr as <-.
  rewrite <- range_run in H, H'. destruct (ok_t_inv _ H) as ([] & tf & Hr). destruct (ok_t_inv _ H') as ([] & tf' & Hr').
  refine (range_rigid E L o _ _ _ _ _ _ _ _ _ _ _ _ _ _ Hr Hr' Hi). cbn [pr_admissible]. apply (doc_rings E n d Hd). unfold u64_lim. lia.
Qed.
Print Assumptions C78_range_proof.

(** ** ballots *)
Theorem C78_multi_choice_ballot :
  forall (E : Env) (L : GroupLaws E) (o : hash (Scalar E)) n (K : PublicKey E) (cts cts' : list (Ciphertext E)) (p p' : RingProof E), usize n ->
    let H := hashed_by E o in let S := MultiChoice (E:=H) in
    ok (EncryptedChoice_verify (E:=H) (S:=S) (mkEncryptedChoice (E:=H) (S:=S) cts p tt) (mkChoiceParams (E:=H) (S:=S) n K)) = true ->
    ok (EncryptedChoice_verify (E:=H) (S:=S) (mkEncryptedChoice (E:=H) (S:=S) cts' p' tt) (mkChoiceParams (E:=H) (S:=S) n K)) = true ->
    incl (asked o (multi_choice_verifier n K cts' p')) (asked o (multi_choice_verifier n K cts p)) ->
    cts' = cts /\ p' = p.
Proof.
  intros E L o n K cts cts' p p' Hn H S Ho Ho' Hi. unfold H, S in Ho, Ho'. rewrite <- multi_choice_run in Ho, Ho'.
  apply (multi_rigid E L o n K cts p K cts' p' Hn Ho Ho' Hi).
Qed.
Print Assumptions C78_multi_choice_ballot.

Theorem C78_single_choice_ballot :
  forall (E : Env) (L : GroupLaws E) (o : hash (Scalar E)) n (K : PublicKey E) (cts cts' : list (Ciphertext E)) (p p' : RingProof E)
      (s s' : LogEqualityProof E), usize n ->
    let H := hashed_by E o in let S := SingleChoice (E:=H) in
    ok (EncryptedChoice_verify (E:=H) (S:=S) (mkEncryptedChoice (E:=H) (S:=S) cts p s) (mkChoiceParams (E:=H) (S:=S) n K)) = true ->
    ok (EncryptedChoice_verify (E:=H) (S:=S) (mkEncryptedChoice (E:=H) (S:=S) cts' p' s') (mkChoiceParams (E:=H) (S:=S) n K)) = true ->
    incl (asked o (single_choice_verifier n K cts' p' s')) (asked o (single_choice_verifier n K cts p s)) ->
    cts' = cts /\ p' = p /\ s' = s.
Proof.
  intros E L o n K cts cts' p p' s s' Hn H S Ho Ho' Hi. unfold H, S in Ho, Ho'. rewrite <- single_choice_run in Ho, Ho'.
  apply (single_rigid E L o n K cts p s K cts' p' s' Hn Ho Ho' Hi).
Qed.
Print Assumptions C78_single_choice_ballot.

(** Here the inputs must be the same in the same order: the range proofs for the options share their
    context. *)
Theorem C78_quadratic_ballot :
  forall (E : Env) (L : GroupLaws E) (o : hash (Scalar E)) (receiver : PublicKey E) options credits votes params,
    (credits + 65 < 2 ^ 64)%N -> qv_params receiver options credits votes params -> genuine receiver ->
  forall b b' : QuadraticVotingBallot E,
    ok (QuadraticVotingBallot_verify (E:=hashed_by E o) b params) = true ->
    ok (QuadraticVotingBallot_verify (E:=hashed_by E o) b' params) = true ->
    asked o (quadratic_verifier b' params) = asked o (quadratic_verifier b params) -> b' = b.
Proof.
  intros E L o receiver options credits votes params Hc Hp HK b b' Ho Ho' Ha. apply (qv_params_inv E L) in Hp; [|exact Hc].
  destruct Hp as (dv & dc & Hv & Hcr & HV & HC & _ & ->). rewrite <- quadratic_run in Ho, Ho'.
  refine (quadratic_rigid E L o _ b b' _ _ _ Ho Ho' Ha); cbn [qv_vote_count_range qv_credit_range qv_receiver prepared pr_admissible];
    [refine (doc_rings E _ _ Hv _)|refine (doc_rings E _ _ Hcr _)|exact HK]; unfold u64_lim; lia.
Qed.
Print Assumptions C78_quadratic_ballot.

(** ** Examples: with the hash that always answers 3 every proof with challenge 3 is accepted, whatever
    its responses; so the theorems say that proofs with different responses have different hash inputs. *)
Example C78_log_equality_example :
  let p s : LogEqualityProof RE := {| le_challenge := rs 3; le_response := rs s |} in
  let P := (re 5, re 11) in
  ok_t (LogEqualityProof_verify (E:=hashed_by RE constant_hash) (p 7%Z) ex_pk2 P []) = true /\
  ok_t (LogEqualityProof_verify (E:=hashed_by RE constant_hash) (p 8%Z) ex_pk2 P []) = true /\
  ~ incl (asked constant_hash (log_equality_verifier (p 8%Z) ex_pk2 P [])) (asked constant_hash (log_equality_verifier (p 7%Z) ex_pk2 P [])).
Proof.
  intros p P. assert (H7 : ok_t (LogEqualityProof_verify (E:=hashed_by RE constant_hash) (p 7%Z) ex_pk2 P []) = true) by (vm_compute; reflexivity).
  assert (H8 : ok_t (LogEqualityProof_verify (E:=hashed_by RE constant_hash) (p 8%Z) ex_pk2 P []) = true) by (vm_compute; reflexivity).
  split; [exact H7|]. split; [exact H8|]. intros Hi.
  destruct (C78_log_equality RE RL constant_hash _ _ _ _ _ _ _ _ H7 H8 Hi) as (_ & _ & _ & He).
  apply (f_equal (fun p : LogEqualityProof RE => zeqb qx (le_response p) (rs 7))) in He. vm_compute in He. discriminate.
Qed.

Definition ex_ring (rs' : list Z) : RingProof RE := {| rp_challenge := rs 3; rp_responses := map rs rs' |}.

Example C78_bool_example :
  let c := {| random_element := re 5; blinded_element := re 100 |} in
  verify_bool (E:=hashed_by RE constant_hash) ex_pk2 c (ex_ring [1; 2]%Z) = Ret (Ok tt) /\
  verify_bool (E:=hashed_by RE constant_hash) ex_pk2 c (ex_ring [1; 4]%Z) = Ret (Ok tt) /\
  ~ incl (asked constant_hash (bool_verifier ex_pk2 c (ex_ring [1; 4]%Z))) (asked constant_hash (bool_verifier ex_pk2 c (ex_ring [1; 2]%Z))).
Proof.
  intros c. assert (H1 : verify_bool (E:=hashed_by RE constant_hash) ex_pk2 c (ex_ring [1; 2]%Z) = Ret (Ok tt)) by (vm_compute; reflexivity).
  assert (H2 : verify_bool (E:=hashed_by RE constant_hash) ex_pk2 c (ex_ring [1; 4]%Z) = Ret (Ok tt)) by (vm_compute; reflexivity).
  split; [exact H1|]. split; [exact H2|]. intros Hi.
  destruct (C78_bool_encryption RE RL constant_hash _ _ _ _ _ _ H1 H2 Hi) as (_ & _ & He).
  apply (f_equal (fun p : RingProof RE => zeqb qx (nth 1 (rp_responses p) (rs 0)) (rs 2))) in He. vm_compute in He. discriminate.
Qed.

(** two ballots with three options *)
Example C78_single_choice_example :
  let c k : Ciphertext RE := {| random_element := re k; blinded_element := re (k + 1) |} in
  let H := hashed_by RE constant_hash in let S := SingleChoice (E:=H) in
  let cts := [c 5%Z; c 6%Z; c 7%Z] in
  let s : LogEqualityProof RE := {| le_challenge := rs 3; le_response := rs 10 |} in
  let V rs' := EncryptedChoice_verify (E:=H) (S:=S) (mkEncryptedChoice (E:=H) (S:=S) cts (ex_ring rs') s) (mkChoiceParams (E:=H) (S:=S) 3 ex_pk2) in
  ok (V [1; 2; 3; 4; 5; 6]%Z) = true /\ ok (V [1; 2; 3; 4; 5; 7]%Z) = true /\ usize 3 /\
  ~ incl (asked constant_hash (single_choice_verifier 3 ex_pk2 cts (ex_ring [1; 2; 3; 4; 5; 7]%Z) s))
         (asked constant_hash (single_choice_verifier 3 ex_pk2 cts (ex_ring [1; 2; 3; 4; 5; 6]%Z) s)).
Proof.
  intros c H S cts s V. assert (H1 : ok (V [1; 2; 3; 4; 5; 6]%Z) = true) by (vm_compute; reflexivity).
  assert (H2 : ok (V [1; 2; 3; 4; 5; 7]%Z) = true) by (vm_compute; reflexivity).
  split; [exact H1|]. split; [exact H2|]. split; [reflexivity|]. intros Hi.
  destruct (C78_single_choice_ballot RE RL constant_hash 3 ex_pk2 cts cts _ _ s s eq_refl H1 H2 Hi) as (_ & He & _).
  apply (f_equal (fun p : RingProof RE => zeqb qx (nth 5 (rp_responses p) (rs 0)) (rs 6))) in He. vm_compute in He. discriminate.
Qed.

(** two quadratic voting ballots which differ in one response *)
Definition ex_quadratic (x : Z) : QuadraticVotingBallot RE :=
  let c k : Ciphertext RE := {| random_element := re k; blinded_element := re (k + 1) |} in
  {| qb_votes := [{| crp_ciphertext := c 5%Z; crp_range_proof := {| rap_partial := []; rap_inner := ex_ring [1; 2; 3; x]%Z |} |};
                  {| crp_ciphertext := c 6%Z; crp_range_proof := {| rap_partial := []; rap_inner := ex_ring [1; 2; 3; 4]%Z |} |}];
     qb_credit := {| crp_ciphertext := c 7%Z; crp_range_proof := {| rap_partial := [c 8%Z]; rap_inner := ex_ring [1; 2; 3; 4; 5; 6; 7]%Z |} |};
     qb_credit_equivalence_proof := {| sq_challenge := rs 3; sq_ciphertext_responses := map rs [1; 2; 3; 4]%Z; sq_sum_response := rs 5 |} |}.

Example C78_quadratic_example :
  exists params, qv_params (E:=RE) ex_pk2 2 9 3 params /\ genuine ex_pk2 /\
    ok (QuadraticVotingBallot_verify (E:=hashed_by RE constant_hash) (ex_quadratic 4) params) = true /\
    ok (QuadraticVotingBallot_verify (E:=hashed_by RE constant_hash) (ex_quadratic 8) params) = true /\
    asked constant_hash (quadratic_verifier (ex_quadratic 8) params) <> asked constant_hash (quadratic_verifier (ex_quadratic 4) params).
Proof.
  pose (V b := match QuadraticVotingParams_new (E:=RE) ex_pk2 2 9 with
               | Ret params => ok (QuadraticVotingBallot_verify (E:=hashed_by RE constant_hash) b params) | _ => false end).
  assert (H4 : V (ex_quadratic 4) = true) by (vm_compute; reflexivity). assert (H8 : V (ex_quadratic 8) = true) by (vm_compute; reflexivity).
  unfold V in H4, H8. destruct (QuadraticVotingParams_new (E:=RE) ex_pk2 2 9) as [params|] eqn:Hp; [|discriminate].
  exists params. assert (Hq : qv_params (E:=RE) ex_pk2 2 9 3 params) by (constructor; [exact Hp|lia|lia]).
  assert (Hg : genuine ex_pk2) by apply ex_pk2_ok.
  split; [exact Hq|]. split; [exact Hg|]. split; [exact H4|]. split; [exact H8|]. intros Ha.
  pose proof (C78_quadratic_ballot RE RL constant_hash ex_pk2 2 9 3 params eq_refl Hq Hg _ _ H4 H8 Ha) as He.
  apply (f_equal (fun b : QuadraticVotingBallot RE => match qb_votes b with v :: _ => zeqb qx (nth 3 (rp_responses (rap_inner (crp_range_proof v))) (rs 0)) (rs 4) | _ => false end)) in He.
  vm_compute in He. discriminate.
Qed.

(** sharing: the dealer's proof for a polynomial of length 2, a participant's proof, a decryption share *)
Example C78_sharing_example :
  let poly := [re 2; re 4] in
  let pop (l : list Z) : ProofOfPossession RE := {| pop_challenge := rs 3; pop_responses := map rs l |} in
  let params n := {| pa_shares := n; pa_threshold := 2 |} in
  ok (PublicKeySet_validate (E:=hashed_by RE constant_hash) (params 3) poly (pop [1; 2]%Z)) = true /\
  ok (PublicKeySet_validate (E:=hashed_by RE constant_hash) (params 4) poly (pop [1; 2]%Z)) = true /\
  ~ incl (asked constant_hash (dealer_verifier (E:=RE) (params 4) poly (pop [1; 2]%Z)))
         (asked constant_hash (dealer_verifier (E:=RE) (params 3) poly (pop [1; 2]%Z))) /\
  let ks : PublicKeySet RE := {| ks_params := params 3; ks_shared_key := ex_pk2; ks_participant_keys := [ex_pk2; ex_pk2; ex_pk2] |} in
  let d : CandidateDecryption RE := {| cd_inner := {| vd_dh_element := re 9 |} |} in
  let c : Ciphertext RE := {| random_element := re 5; blinded_element := re 6 |} in
  let p : LogEqualityProof RE := {| le_challenge := rs 3; le_response := rs 10 |} in
  ok (PublicKeySet_verify_participant (E:=hashed_by RE constant_hash) ks 1 (pop [1]%Z)) = true /\
  ok (PublicKeySet_verify_participant (E:=hashed_by RE constant_hash) ks 2 (pop [1]%Z)) = true /\
  ~ incl (asked constant_hash (participant_verifier ks 2 (pop [1]%Z))) (asked constant_hash (participant_verifier ks 1 (pop [1]%Z))) /\
  ok (PublicKeySet_verify_share (E:=hashed_by RE constant_hash) ks d c 1 p) = true /\
  ok (PublicKeySet_verify_share (E:=hashed_by RE constant_hash) ks d c 2 p) = true /\
  ~ incl (asked constant_hash (share_verifier ks d c 2 p)) (asked constant_hash (share_verifier ks d c 1 p)).
Proof.
  intros poly pop params.
  assert (H3 : ok (PublicKeySet_validate (E:=hashed_by RE constant_hash) (params 3) poly (pop [1; 2]%Z)) = true) by (vm_compute; reflexivity).
  assert (H4 : ok (PublicKeySet_validate (E:=hashed_by RE constant_hash) (params 4) poly (pop [1; 2]%Z)) = true) by (vm_compute; reflexivity).
  split; [exact H3|]. split; [exact H4|]. split.
  { intros Hi. destruct (C78_dealer RE RL constant_hash (params 3) poly _ (params 4) poly _ eq_refl eq_refl eq_refl eq_refl H3 H4 Hi) as (He & _). discriminate. }
  intros ks d c p.
  assert (P1 : ok (PublicKeySet_verify_participant (E:=hashed_by RE constant_hash) ks 1 (pop [1]%Z)) = true) by (vm_compute; reflexivity).
  assert (P2 : ok (PublicKeySet_verify_participant (E:=hashed_by RE constant_hash) ks 2 (pop [1]%Z)) = true) by (vm_compute; reflexivity).
  assert (S1 : ok (PublicKeySet_verify_share (E:=hashed_by RE constant_hash) ks d c 1 p) = true) by (vm_compute; reflexivity).
  assert (S2 : ok (PublicKeySet_verify_share (E:=hashed_by RE constant_hash) ks d c 2 p) = true) by (vm_compute; reflexivity).
  assert (Hg : Forall genuine (ks_participant_keys ks)) by (repeat constructor; apply ex_pk2_ok).
  split; [exact P1|]. split; [exact P2|]. split.
  { intros Hi. destruct (C78_participant RE RL constant_hash ks 1 _ ks 2 _ eq_refl eq_refl eq_refl eq_refl eq_refl eq_refl Hg Hg P1 P2 Hi) as (_ & _ & He & _). discriminate. }
  split; [exact S1|]. split; [exact S2|].
  intros Hi. destruct (C78_share RE RL constant_hash ks d c 1 p d c 2 p eq_refl eq_refl eq_refl eq_refl S1 S2 Hi) as (He & _). discriminate.
Qed.

(** commitment equivalence, with a base and with the identity as base; and the ring with one value *)
Example C78_commitment_example :
  let p w : CommitmentEquivalenceProof RE := {| ce_challenge := rs 3; ce_randomness_response := rs 1; ce_value_response := rs 2; ce_commitment_response := rs w |} in
  let c : Ciphertext RE := {| random_element := re 5; blinded_element := re 6 |} in
  let V base w := ok_t (CommitmentEquivalenceProof_verify (E:=hashed_by RE constant_hash) (p w) c ex_pk2 (re 8) base []) in
  V (re 7) 4%Z = true /\ V (re 7) 5%Z = true /\ re 7 <> identity /\
  ~ incl (asked constant_hash (commitment_verifier (p 5%Z) c ex_pk2 (re 8) (re 7) [])) (asked constant_hash (commitment_verifier (p 4%Z) c ex_pk2 (re 8) (re 7) [])) /\
  V identity 4%Z = true /\ V identity 5%Z = true.
Proof.
  intros p c V. assert (H4 : V (re 7) 4%Z = true) by (vm_compute; reflexivity). assert (H5 : V (re 7) 5%Z = true) by (vm_compute; reflexivity).
  assert (Hb : re 7 <> identity) by (apply re_neq; vm_compute; reflexivity).
  split; [exact H4|]. split; [exact H5|]. split; [exact Hb|]. split; [|split; vm_compute; reflexivity]. intros Hi.
  destruct (C78_commitment RE RL constant_hash (re 7) _ _ _ _ _ _ _ _ _ _ (proj1 ex_pk2_ok) (proj1 ex_pk2_ok) Hb H4 H5 Hi) as (_ & _ & _ & _ & He).
  apply (f_equal (fun p : CommitmentEquivalenceProof RE => zeqb qx (ce_commitment_response p) (rs 4))) in He. vm_compute in He. discriminate.
Qed.

Example C78_single_value_example :
  exists q, forall s : Scalar RE, exists ct,
    RingProof_verify (E:=hashed_by RE constant_hash) {| rp_challenge := rs 3; rp_responses := [s] |} ex_pk2 [[re 1]] [ct] [] = Ret (Ok tt, q ++ [TChal "c"]) /\
    decrypt_to_element (rs 2) ct <> re 1.
Proof.
  destruct (C78_single_value_refuted RE RL RE_ser_total constant_hash (rs 2) ex_pk2 (re 1) [] (proj2 ex_pk2_ok)) as [q Hq].
  exists q. intros s. destruct (Hq ltac:(unfold constant_hash; intros H; apply (f_equal (fun x => zeqb qx x (rs 3))) in H; vm_compute in H; discriminate) s) as (ct & _ & H1 & _ & H2).
  exists ct. auto.
Qed.
