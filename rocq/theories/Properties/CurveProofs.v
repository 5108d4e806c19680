(** * C65, continued: the bounds for proofs made for the Curve25519 code

    Attackers produce points of the curve and the code for the whole curve checks their proofs.  The points received are in the
    prime-order subgroup, as everything parsed is (C62). *)
From Coq.Strings Require Import Byte.
From Coq Require Import List String NArith ZArith Arith Lia Bool.
From Verif.Model Require Import Base Group Transcript Keys Encryption LogEquality Ring Range Mul Sharing Choice Quadratic Backends.
From Verif.Spec Require Import Encryption Sharing Choice Quadratic Tally Collect Backends Domains Rom Verifiers Sources RomElection Transfer Subgroup.
From Verif.Proofs Require Import Algebra Backends Rom Sources Parametricity Transfer Subgroup ElectionTransfer VerifierTransfer.
From Verif.Instance Require Import Primality Zq Curves FullSize.
From Verif.Properties Require Import Backends Forgery Sources CurveCode CurveKeys.
Import ListNotations.
Open Scope string_scope.
Open Scope list_scope.
Open Scope nat_scope.

Section Verifiers.
Context {E E' : Env} {ER : EnvRel E E'} {C : Corresponding E E'}.
Hint Resolve p_log_equality_verifier p_ring_verifier p_after p_doing p_PublicKey_from_element p_append_element : par.
Lemma p_zero_verifier : rel (@zero_verifier E) (@zero_verifier E').
Proof. unfold zero_verifier. par. Qed.
Lemma p_bool_verifier : rel (@bool_verifier E) (@bool_verifier E').
Proof. unfold bool_verifier. par. Qed.
Lemma p_decryption_verifier : rel (@decryption_verifier E) (@decryption_verifier E').
Proof. unfold decryption_verifier. par. Qed.
End Verifiers.

Section Curve.
Context (D : Dalek) (L : DalekLaws D) (R : Type) (fill : nat -> R -> bytes * R)
  (squeeze : transcript -> string -> nat -> bytes) (sha : bytes -> bytes) (estimate : N -> N) (b : Build).
Local Notation E := (subgroup_env L R fill squeeze sha estimate b).
Local Notation E' := (curve25519_env D R fill squeeze sha estimate b).
Existing Instance hashed_rel.
Existing Instance hashed_corresponding.
Local Notation down_key := (down_key D L R fill squeeze sha estimate b).
Local Notation down_ct := (down_ct D L R fill squeeze sha estimate b).
Local Notation down_le := (down_le D L R fill squeeze sha estimate b).
Local Notation down_ring := (down_ring D L R fill squeeze sha estimate b).
Local Notation functional := (point_functional D L R fill squeeze sha estimate b).
Definition down_candidate (d : CandidateDecryption E') : CandidateDecryption E :=
  mkCandidateDecryption (G := E) (mkVerifiableDecryption (G := E) (sub_of L (vd_dh_element (cd_inner d)))).

Lemma genuine_inside (K : PublicKey E') : genuine (G := E') K -> inside L K.
Proof.
  intros H. constructor; [|constructor]. apply (inside_element (L := L)). unfold genuine in H.
  destruct (C60_curve25519 D L) as (_ & _ & _ & _ & _ & _ & _ & _ & _ & _ & _ & _ & _ & _ & _ & _ & Hdes).
  pose proof (eq_trans (Hdes (pk_bytes K)) H) as Hx.
  destruct (@deserialize_element (prime_subgroup L) (pk_bytes K)) as [P|]; [|discriminate Hx]. cbn in Hx. injection Hx as Hx. exists P. exact Hx.
Qed.

Lemma genuine_down (K : PublicKey E') : genuine (G := E') K -> genuine (G := E) (down_key K).
Proof. intros H. unfold genuine in *. change (option_map (sub_of L) (@deserialize_element E' (pk_bytes K)) = Some (sub_of L (pk_element K))). rewrite H. reflexivity. Qed.

Lemma scaled {X Y} (A : strategy (Scalar E) X) (V : X -> strategy (Scalar E) Y) wins k (f : Z -> Z) : (0 <= k)%Z ->
  (forall m, balanced (subgroup_source L) m -> success_at_most (subgroup_source L) A V wins (m * k) (f (size (subgroup_source L)))) ->
  success_at_most (subgroup_source L) A V wins (k * (256 ^ 64 + dl_order L)) (dl_order L * f (256 ^ 64)%Z).
Proof.
  intros Hk H. destruct (C65_dalek D L) as (m & Hm & _ & Hbal & Hsize). specialize (H m Hbal). rewrite Hsize in H.
  refine (success_scale _ _ _ m _ _ _ _ _ _ Hk (Z.lt_le_incl _ _ Hm) H). pose proof (dl_q_pos D L). lia.
Qed.

Theorem C65_curve25519_code :
  let S := dalek_source D (curve25519_deserialize_element D) in
  (forall Q (A : strategy (Scalar E') (PublicKey E' * Ciphertext E' * LogEqualityProof E')), at_most Q A ->
    success_at_most S A (fun '(pk, c, p) => zero_verifier pk c p)
      (fun o '(pk, c, p) => inside L c /\
         genuine pk /\ (exists sk, key_of (E:=E') sk pk /\ decrypt_to_element (E:=E') sk c <> identity) /\
         verify_zero (E:=hashed_by E' o) pk c p = Ret (Ok tt))
      ((Z.of_nat Q + 1) * (256 ^ 64 + dl_order L)) (dl_order L * 256 ^ 64)) /\
  (forall Q (A : strategy (Scalar E') (PublicKey E' * Ciphertext E' * RingProof E')), at_most Q A ->
    let N := Z.of_nat (Q + 2) in
    success_at_most S A (fun '(pk, c, p) => bool_verifier pk c p)
      (fun o '(pk, c, p) => inside L c /\ genuine pk /\
         (exists sk, key_of (E:=E') sk pk /\ decrypt_to_element (E:=E') sk c <> identity /\ decrypt_to_element (E:=E') sk c <> generator) /\
         verify_bool (E:=hashed_by E' o) pk c p = Ret (Ok tt))
      (N * (N - 1) * (256 ^ 64 + dl_order L)) (dl_order L * (2 * 256 ^ 64))) /\
  (forall Q (A : strategy (Scalar E') (CandidateDecryption E' * Ciphertext E' * PublicKey E' * LogEqualityProof E' * transcript)), at_most Q A ->
    success_at_most S A (fun '(d, c, key, p, t) => decryption_verifier d c key p t)
      (fun o '(d, c, key, p, t) => inside L d /\ inside L c /\ inside L key /\
         exists sk d' t', key_of (E:=E') sk key /\
           VerifiableDecryption_decrypt_to_element (E:=E') d' c <> decrypt_to_element (E:=E') sk c /\
           CandidateDecryption_verify (E:=hashed_by E' o) d c key p t = Ret (Ok d', t'))
      ((Z.of_nat Q + 1) * (256 ^ 64 + dl_order L)) (dl_order L * 256 ^ 64)).
Proof.
  intros S. split; [|split].
  - intros Q A HA. pose (conv := fun x : PublicKey E' * Ciphertext E' * LogEqualityProof E' => (down_key (fst (fst x)), down_ct (snd (fst x)), down_le (snd x))).
    pose proof (down_most D Q A conv HA) as HA'.
    refine (success_down D L A conv (fun '(pk, c, p) => zero_verifier (E:=E) pk c p) _ _ _ _ _ _
      (scaled _ _ _ _ (fun z => z) _ (fun m Hbal => C57_zero E (subgroup_laws D L) (subgroup_source L) m Hbal Q _ HA'))); [|lia].
    intros o [[pk c] p] (Hc & HK & (sk & Hsk & Hd) & Hv). pose proof (genuine_inside pk HK) as Hin.
    pose proof (down_key_rel D L R fill squeeze sha estimate b pk Hin) as RK. pose proof (down_ct_rel D L R fill squeeze sha estimate b c Hc) as Rc.
    pose proof (down_le_rel D L R fill squeeze sha estimate b p) as Rp.
    subst conv. cbn [fst snd]. split.
    + split; [exact (genuine_down pk HK)|]. split.
      * exists sk. split; [exact (key_of_inside D L R fill squeeze sha estimate b sk _ pk RK Hsk)|]. intros He. apply Hd.
        exact (decrypts_rel (E := E) (E' := E') functional sk sk _ c _ _ eq_refl Rc co_identity He).
      * pose proof (p_verify_zero (E := hashed_by E o) (E' := hashed_by E' o) _ pk RK _ c Rc _ p Rp) as Hr.
        set (v' := verify_zero (E := hashed_by E' o) pk c p) in *. clearbody v'. subst v'.
        apply rel_returned in Hr as ([[]|e] & Hr & H); [exact Hr|contradiction].
    + apply (asked_rel (RR := Rel_Scalar (G := E) (G' := E'))); [intros x; reflexivity|].
      exact (p_zero_verifier (E := E) (E' := E') _ pk RK _ c Rc _ p Rp).
  - intros Q A HA N. pose (conv := fun x : PublicKey E' * Ciphertext E' * RingProof E' => (down_key (fst (fst x)), down_ct (snd (fst x)), down_ring (snd x))).
    pose proof (down_most D Q A conv HA) as HA'.
    refine (success_down D L A conv (fun '(pk, c, p) => bool_verifier (E:=E) pk c p) _ _ _ _ _ _
      (scaled _ _ _ _ (fun z => (2 * z)%Z) _ (fun m Hbal => C58_bool E (subgroup_laws D L) (subgroup_source L) m Hbal Q _ HA'))); [|subst N; nia].
    intros o [[pk c] p] (Hc & HK & (sk & Hsk & Hd & Hd') & Hv). pose proof (genuine_inside pk HK) as Hin.
    pose proof (down_key_rel D L R fill squeeze sha estimate b pk Hin) as RK. pose proof (down_ct_rel D L R fill squeeze sha estimate b c Hc) as Rc.
    pose proof (down_ring_rel D L R fill squeeze sha estimate b p) as Rp.
    subst conv. cbn [fst snd]. split.
    + split; [exact (genuine_down pk HK)|]. split.
      * exists sk. split; [exact (key_of_inside D L R fill squeeze sha estimate b sk _ pk RK Hsk)|]. split; intros He; [apply Hd|apply Hd'].
        -- exact (decrypts_rel (E := E) (E' := E') functional sk sk _ c _ _ eq_refl Rc co_identity He).
        -- exact (decrypts_rel (E := E) (E' := E') functional sk sk _ c _ _ eq_refl Rc co_generator He).
      * pose proof (p_verify_bool (E := hashed_by E o) (E' := hashed_by E' o) _ pk RK _ c Rc _ p Rp) as Hr.
        set (v' := verify_bool (E := hashed_by E' o) pk c p) in *. clearbody v'. subst v'.
        apply rel_returned in Hr as ([[]|e] & Hr & H); [exact Hr|contradiction].
    + apply (asked_rel (RR := Rel_Scalar (G := E) (G' := E'))); [intros x; reflexivity|].
      exact (p_bool_verifier (E := E) (E' := E') _ pk RK _ c Rc _ p Rp).
  - intros Q A HA. pose (conv := fun x : CandidateDecryption E' * Ciphertext E' * PublicKey E' * LogEqualityProof E' * transcript =>
      (down_candidate (fst (fst (fst (fst x)))), down_ct (snd (fst (fst (fst x)))), down_key (snd (fst (fst x))), down_le (snd (fst x)), snd x)).
    pose proof (down_most D Q A conv HA) as HA'.
    refine (success_down D L A conv (fun '(d, c, key, p, t) => decryption_verifier (E:=E) d c key p t) _ _ _ _ _ _
      (scaled _ _ _ _ (fun z => z) _ (fun m Hbal => C57_decryption E (subgroup_laws D L) (subgroup_source L) m Hbal Q _ HA'))); [|lia].
    intros o [[[[d c] key] p] t] (Hdi & Hc & Hin & sk & d' & t' & Hsk & Hd & Hv).
    pose proof (down_key_rel D L R fill squeeze sha estimate b key Hin) as RK. pose proof (down_ct_rel D L R fill squeeze sha estimate b c Hc) as Rc.
    pose proof (down_le_rel D L R fill squeeze sha estimate b p) as Rp.
    assert (Rd : rel (down_candidate d) d) by (apply Forall_cons_iff in Hdi as [Hdi _]; apply down_point; exact Hdi).
    subst conv. cbn [fst snd]. split.
    + pose proof (p_CandidateDecryption_verify (E := hashed_by E o) (E' := hashed_by E' o) _ d Rd _ c Rc _ key RK _ p Rp t t (is_refl t)) as Hr.
      set (v' := CandidateDecryption_verify (E := hashed_by E' o) d c key p t) in *. clearbody v'. subst v'.
      apply rel_returned in Hr as ([[d2|e] t2] & Hr & [H1 H2]); [|contradiction].
      exists sk, d2, t2. split; [exact (key_of_inside D L R fill squeeze sha estimate b sk _ key RK Hsk)|]. split; [|exact Hr].
      intros He. apply Hd. symmetry. refine (decrypts_rel (E := E) (E' := E') functional sk sk _ c _ _ eq_refl Rc _ (eq_sym He)).
      exact (p_VerifiableDecryption_decrypt_to_element (E := E) (E' := E') d2 d' H1 _ c Rc).
    + apply (asked_rel (RR := Rel_Scalar (G := E) (G' := E'))); [intros x; reflexivity|].
      exact (p_decryption_verifier (E := E) (E' := E') _ d Rd _ c Rc _ key RK _ p Rp t t (is_refl t)).
Qed.
Lemma cts_unique (l l0 : list (Ciphertext E)) (l' : list (Ciphertext E')) : rel l l' -> rel l0 l' -> l = l0.
Proof.
  intros H. revert l0. induction H as [|[x y] c l l' [H1 H2] _ IH]; intros l0 H0; inversion H0 as [|[x0 y0] ? ? ? [H3 H4] Hl]; subst; [reflexivity|].
  f_equal; [|apply IH; exact Hl].
  assert (x = x0) as -> by (apply (sub_eq D); etransitivity; [exact H1|symmetry; exact H3]).
  assert (y = y0) as -> by (apply (sub_eq D); etransitivity; [exact H2|symmetry; exact H4]). reflexivity.
Qed.

(** Ballots with [n] options for the Curve25519 code: without exactly one selected option, or with a choice that is neither 0 nor 1. *)
Theorem C65_curve25519_ballots :
  let S := dalek_source D (curve25519_deserialize_element D) in
  forall n, (N.of_nat n < 2 ^ 64)%N ->
  ((Z.of_nat n < dl_order L)%Z ->
   forall Q (A : strategy (Scalar E') (PublicKey E' * list (Ciphertext E') * RingProof E' * LogEqualityProof E')), at_most Q A ->
    let N := Z.of_nat (Q + (n + 2)) in
    success_at_most S A (fun '(K, cts, p, s) => single_choice_verifier n K cts p s)
      (fun o '(K, cts, p, s) => let H := hashed_by E' o in inside L cts /\ genuine K /\
         (exists sk, key_of (E:=E') sk K /\ forall k, ~ one_hot (E:=E') sk cts k) /\
         EncryptedChoice_verify (E:=H) (S:=SingleChoice (E:=H)) (mkEncryptedChoice (E:=H) (S:=SingleChoice (E:=H)) cts p s)
           (mkChoiceParams (E:=H) (S:=SingleChoice (E:=H)) n K) = Ret (Ok cts))
      (N * (N + 1) * (256 ^ 64 + dl_order L)) (dl_order L * (2 * 256 ^ 64))) /\
  (forall Q (A : strategy (Scalar E') (PublicKey E' * list (Ciphertext E') * RingProof E')), at_most Q A ->
    let N := Z.of_nat (Q + (n + 1)) in
    success_at_most S A (fun '(K, cts, p) => multi_choice_verifier n K cts p)
      (fun o '(K, cts, p) => let H := hashed_by E' o in inside L cts /\ genuine K /\
         (exists sk ct, key_of (E:=E') sk K /\ In ct cts /\ decrypt_to_element (E:=E') sk ct <> identity /\ decrypt_to_element (E:=E') sk ct <> generator) /\
         EncryptedChoice_verify (E:=H) (S:=MultiChoice (E:=H)) (mkEncryptedChoice (E:=H) (S:=MultiChoice (E:=H)) cts p tt)
           (mkChoiceParams (E:=H) (S:=MultiChoice (E:=H)) n K) = Ret (Ok cts))
      (N * (N - 1) * (256 ^ 64 + dl_order L)) (dl_order L * (2 * 256 ^ 64))).
Proof.
  intros S n Hn. split.
  - intros Hbig Q A HA N. pose (conv := fun x : PublicKey E' * list (Ciphertext E') * RingProof E' * LogEqualityProof E' =>
      (down_key (fst (fst (fst x))), map down_ct (snd (fst (fst x))), down_ring (snd (fst x)), down_le (snd x))).
    pose proof (down_most D Q A conv HA) as HA'.
    refine (success_down D L A conv (fun '(K, cts, p, s) => single_choice_verifier (E:=E) n K cts p s) _ _ _ _ _ _
      (scaled _ _ _ _ (fun z => (2 * z)%Z) _ (fun m Hbal => C58_single_choice E (subgroup_laws D L) (subgroup_source L) m Hbal n Hn Hbig Q _ HA'))); [|subst N; nia].
    intros o [[[K cts] p] s] (Hc & HK & (sk & Hsk & Hno) & Hv). pose proof (genuine_inside K HK) as Hin.
    pose proof (down_key_rel D L R fill squeeze sha estimate b K Hin) as RK. pose proof (down_cts_rel D L R fill squeeze sha estimate b cts Hc) as Rc.
    pose proof (down_ring_rel D L R fill squeeze sha estimate b p) as Rp. pose proof (down_le_rel D L R fill squeeze sha estimate b s) as Rs.
    subst conv. cbn [fst snd]. split.
    + split; [exact (genuine_down K HK)|]. split.
      * exists sk. split; [exact (key_of_inside D L R fill squeeze sha estimate b sk _ K RK Hsk)|]. intros k Hk. apply (Hno k).
        exact (one_hot_rel (E := E) (E' := E') functional sk sk _ cts k eq_refl Rc Hk).
      * pose proof (p_EncryptedChoice_verify (E := hashed_by E o) (E' := hashed_by E' o) (S := @SingleChoice (hashed_by E o)) (S' := @SingleChoice (hashed_by E' o))
          (mkEncryptedChoice (E:=hashed_by E o) (S:=SingleChoice (E:=hashed_by E o)) (map down_ct cts) (down_ring p) (down_le s))
          (mkEncryptedChoice (E:=hashed_by E' o) (S:=SingleChoice (E:=hashed_by E' o)) cts p s)
          (conj Rc (conj Rp Rs))
          (mkChoiceParams (E:=hashed_by E o) (S:=SingleChoice (E:=hashed_by E o)) n (down_key K))
          (mkChoiceParams (E:=hashed_by E' o) (S:=SingleChoice (E:=hashed_by E' o)) n K) (conj eq_refl RK)) as Hr.
        set (v' := EncryptedChoice_verify (E := hashed_by E' o) _ _) in *. clearbody v'. subst v'.
        apply rel_returned in Hr as ([l|e] & Hr & H); [|contradiction]. rewrite <- (cts_unique l (map down_ct cts) cts H Rc) at 2. exact Hr.
    + apply (asked_rel (RR := Rel_Scalar (G := E) (G' := E'))); [intros x; reflexivity|].
      exact (p_single_choice_verifier (E := E) (E' := E') n n eq_refl _ K RK _ cts Rc _ p Rp _ s Rs).
  - intros Q A HA N. pose (conv := fun x : PublicKey E' * list (Ciphertext E') * RingProof E' =>
      (down_key (fst (fst x)), map down_ct (snd (fst x)), down_ring (snd x))).
    pose proof (down_most D Q A conv HA) as HA'.
    refine (success_down D L A conv (fun '(K, cts, p) => multi_choice_verifier (E:=E) n K cts p) _ _ _ _ _ _
      (scaled _ _ _ _ (fun z => (2 * z)%Z) _ (fun m Hbal => C58_multi_choice E (subgroup_laws D L) (subgroup_source L) m Hbal n Hn Q _ HA'))); [|subst N; nia].
    intros o [[K cts] p] (Hc & HK & (sk & ct & Hsk & Hct & Hd & Hd') & Hv). pose proof (genuine_inside K HK) as Hin.
    pose proof (down_key_rel D L R fill squeeze sha estimate b K Hin) as RK. pose proof (down_cts_rel D L R fill squeeze sha estimate b cts Hc) as Rc.
    pose proof (down_ring_rel D L R fill squeeze sha estimate b p) as Rp.
    assert (Rct : rel (down_ct ct) ct).
    { apply down_ct_rel. clear -Hc Hct. induction cts as [|c cts IH]; [destruct Hct|]. apply inside_cons in Hc as [H1 H2].
      destruct Hct as [->|Hct]; [exact H1|exact (IH H2 Hct)]. }
    subst conv. cbn [fst snd]. split.
    + split; [exact (genuine_down K HK)|]. split.
      * exists sk, (down_ct ct). split; [exact (key_of_inside D L R fill squeeze sha estimate b sk _ K RK Hsk)|]. split; [apply in_map; exact Hct|].
        split; intros He; [apply Hd|apply Hd'].
        -- exact (decrypts_rel (E := E) (E' := E') functional sk sk _ ct _ _ eq_refl Rct co_identity He).
        -- exact (decrypts_rel (E := E) (E' := E') functional sk sk _ ct _ _ eq_refl Rct co_generator He).
      * pose proof (p_EncryptedChoice_verify (E := hashed_by E o) (E' := hashed_by E' o) (S := @MultiChoice (hashed_by E o)) (S' := @MultiChoice (hashed_by E' o))
          (mkEncryptedChoice (E:=hashed_by E o) (S:=MultiChoice (E:=hashed_by E o)) (map down_ct cts) (down_ring p) tt)
          (mkEncryptedChoice (E:=hashed_by E' o) (S:=MultiChoice (E:=hashed_by E' o)) cts p tt)
          (conj Rc (conj Rp eq_refl))
          (mkChoiceParams (E:=hashed_by E o) (S:=MultiChoice (E:=hashed_by E o)) n (down_key K))
          (mkChoiceParams (E:=hashed_by E' o) (S:=MultiChoice (E:=hashed_by E' o)) n K) (conj eq_refl RK)) as Hr.
        set (v' := EncryptedChoice_verify (E := hashed_by E' o) _ _) in *. clearbody v'. subst v'.
        apply rel_returned in Hr as ([l|e] & Hr & H); [|contradiction]. rewrite <- (cts_unique l (map down_ct cts) cts H Rc) at 2. exact Hr.
    + apply (asked_rel (RR := Rel_Scalar (G := E) (G' := E'))); [intros x; reflexivity|].
      exact (p_multi_choice_verifier (E := E) (E' := E') n n eq_refl _ K RK _ cts Rc _ p Rp).
Qed.
(** Range proofs and decryption shares for the Curve25519 code. *)
Definition down_range (p : RangeProof E') : RangeProof E := mkRangeProof (G := E) (map down_ct (rap_partial p)) (down_ring (rap_inner p)).
Definition down_set (ks : PublicKeySet E') : PublicKeySet E :=
  mkPublicKeySet (G := E) (ks_params ks) (down_key (ks_shared_key ks)) (map down_key (ks_participant_keys ks)).
Lemma down_set_rel ks : inside L ks -> rel (down_set ks) ks.
Proof.
  intros H. apply Forall_app in H as [H1 H2]. split; [apply is_refl|]. split; [apply down_key_rel; exact H1|]. apply down_keys_rel. exact H2.
Qed.
Lemma ring_queries_same (vs : list (list (Element E))) (vs' : list (list (Element E'))) : rel vs vs' -> ring_queries (E:=E) vs = ring_queries (E:=E') vs'.
Proof.
  intros H. unfold ring_queries. do 2 f_equal. induction H as [|x x' vs vs' Hx _ IH]; [reflexivity|]. cbn [map].
  rewrite IH, (Forall2_length _ _ _ Hx). reflexivity.
Qed.

Theorem C65_curve25519_ranges :
  let S := dalek_source D (curve25519_deserialize_element D) in
  forall est (n : N) d (pr : PreparedRange E'),
    (n + 4 < 2 ^ 64)%N -> RangeDecomposition_optimal (env_build E') est n = Ret d -> PreparedRange_new (E:=E') d = Ret pr ->
  forall Q (A : strategy (Scalar E') (RangeProof E' * PublicKey E' * Ciphertext E' * transcript)), at_most Q A ->
    let N := Z.of_nat (Q + ring_queries (E:=E') (pr_admissible pr)) in
    success_at_most S A (fun '(p, K, ct, t) => range_verifier p K pr ct t)
      (fun o '(p, K, ct, t) => inside L p /\ inside L ct /\ genuine K /\
         (exists sk, key_of (E:=E') sk K /\ forall v, (v < n)%N -> decrypt_to_element (E:=E') sk ct <> Encryption.times v generator) /\
         exists t', RangeProof_verify (E:=hashed_by E' o) p K pr ct t = Ret (Ok tt, t'))
      (N * (N - 1) * (256 ^ 64 + dl_order L)) (dl_order L * (2 * 256 ^ 64)).
Proof.
  intros S est n d pr' Hn Hopt Hpr' Q A HA N.
  pose proof (p_PreparedRange_new (E := E) (E' := E') d d (is_refl d)) as Rpr. rewrite Hpr' in Rpr. apply rel_returned in Rpr as (pr & Hpr & Rpr).
  subst N. rewrite <- (ring_queries_same _ _ (proj2 Rpr)).
  pose (conv := fun x : RangeProof E' * PublicKey E' * Ciphertext E' * transcript =>
    (down_range (fst (fst (fst x))), down_key (snd (fst (fst x))), down_ct (snd (fst x)), snd x)).
  pose proof (down_most D Q A conv HA) as HA'.
  refine (success_down D L A conv (fun '(p, K, ct, t) => range_verifier (E:=E) p K pr ct t) _ _ _ _ _ _
    (scaled _ _ _ _ (fun z => (2 * z)%Z) _ (fun m Hbal => C58_range E (subgroup_laws D L) (subgroup_source L) m Hbal est n d pr Hn Hopt Hpr Q _ HA'))); [|nia].
  intros o [[[p K] ct] t] (Hp & Hc & HK & (sk & Hsk & Hno) & t' & Hv). pose proof (genuine_inside K HK) as Hin.
  pose proof (down_key_rel D L R fill squeeze sha estimate b K Hin) as RK. pose proof (down_ct_rel D L R fill squeeze sha estimate b ct Hc) as Rc.
  assert (Rp : rel (down_range p) p) by (split; [apply down_cts_rel; exact Hp|apply down_ring_rel]).
  subst conv. cbn [fst snd]. split.
  - split; [exact (genuine_down K HK)|]. split.
    + exists sk. split; [exact (key_of_inside D L R fill squeeze sha estimate b sk _ K RK Hsk)|]. intros v Hlt He. apply (Hno v Hlt).
      refine (decrypts_rel (E := E) (E' := E') functional sk sk _ ct _ _ eq_refl Rc _ He). apply (p_times (E := E) (E' := E')); [reflexivity|apply co_generator].
    + pose proof (p_RangeProof_verify (E := hashed_by E o) (E' := hashed_by E' o) _ p Rp _ K RK pr pr' Rpr _ ct Rc t t (is_refl t)) as Hr.
      set (v' := RangeProof_verify (E := hashed_by E' o) p K pr' ct t) in *. clearbody v'. subst v'.
      apply rel_returned in Hr as ([[[]|e] t2] & Hr & [H1 _]); [|contradiction]. exists t2. exact Hr.
  - apply (asked_rel (RR := Rel_Scalar (G := E) (G' := E'))); [intros x; reflexivity|].
    exact (p_range_verifier (E := E) (E' := E') _ p Rp _ K RK pr pr' Rpr _ ct Rc t t (is_refl t)).
Qed.

Theorem C65_curve25519_shares :
  let S := dalek_source D (curve25519_deserialize_element D) in
  forall Q (A : strategy (Scalar E') (PublicKeySet E' * CandidateDecryption E' * Ciphertext E' * nat * LogEqualityProof E')), at_most Q A ->
    success_at_most S A (fun '(ks, d, c, i, p) => share_verifier ks d c i p)
      (fun o '(ks, d, c, i, p) => inside L ks /\ inside L d /\ inside L c /\
         exists key share d',
         nth_error (ks_participant_keys ks) i = Some key /\ pk_element key = e_mul (g := E') generator share /\
         vd_dh_element d' <> e_mul (g := E') (random_element c) share /\
         PublicKeySet_verify_share (E:=hashed_by E' o) ks d c i p = Ret (Ok d'))
      ((Z.of_nat Q + 1) * (256 ^ 64 + dl_order L)) (dl_order L * 256 ^ 64).
Proof.
  intros S Q A HA. pose (conv := fun x : PublicKeySet E' * CandidateDecryption E' * Ciphertext E' * nat * LogEqualityProof E' =>
    (down_set (fst (fst (fst (fst x)))), down_candidate (snd (fst (fst (fst x)))), down_ct (snd (fst (fst x))), snd (fst x), down_le (snd x))).
  pose proof (down_most D Q A conv HA) as HA'.
  refine (success_down D L A conv (fun '(ks, d, c, i, p) => share_verifier (E:=E) ks d c i p) _ _ _ _ _ _
    (scaled _ _ _ _ (fun z => z) _ (fun m Hbal => C57_share E (subgroup_laws D L) (subgroup_source L) m Hbal Q _ HA'))); [|lia].
  intros o [[[[ks d] c] i] p] (Hks & Hdi & Hc & key & share & d' & Hn & Hk & Hd & Hv).
  pose proof (down_set_rel ks Hks) as RK. pose proof (down_ct_rel D L R fill squeeze sha estimate b c Hc) as Rc.
  pose proof (down_le_rel D L R fill squeeze sha estimate b p) as Rp.
  assert (Rd : rel (down_candidate d) d) by (apply Forall_cons_iff in Hdi as [Hdi _]; apply down_point; exact Hdi).
  subst conv. cbn [fst snd]. split.
  - pose proof (p_PublicKeySet_verify_share (E := hashed_by E o) (E' := hashed_by E' o) _ ks RK _ d Rd _ c Rc i i eq_refl _ p Rp) as Hr.
    set (v' := PublicKeySet_verify_share (E := hashed_by E' o) ks d c i p) in *. clearbody v'. subst v'.
    apply rel_returned in Hr as ([d2|e] & Hr & H1); [|contradiction].
    exists (down_key key), share, d2. split; [cbn [down_set ks_participant_keys]; rewrite nth_error_map, Hn; reflexivity|].
    assert (Rkey : rel (down_key key) key).
    { pose proof (p_nth_error _ _ (proj2 (proj2 RK)) i i eq_refl) as Hx. rewrite Hn in Hx. cbn [down_set ks_participant_keys] in Hx.
      rewrite nth_error_map, Hn in Hx. exact Hx. }
    split; [exact (key_of_inside D L R fill squeeze sha estimate b share _ key Rkey Hk)|]. split; [|exact Hr].
    intros He. apply Hd. refine (functional _ _ _ H1 _).
    exact (eq_trans (f_equal (@proj1_sig _ _) He) (co_e_mul (E := E) (E' := E') _ _ (proj1 Rc) share share eq_refl)).
  - apply (asked_rel (RR := Rel_Scalar (G := E) (G' := E'))); [intros x; reflexivity|].
    exact (p_share_verifier (E := E) (E' := E') _ ks RK _ d Rd _ c Rc i i eq_refl _ p Rp).
Qed.
End Curve.
Print Assumptions C65_curve25519_ranges.
Print Assumptions C65_curve25519_shares.
Print Assumptions C65_curve25519_code.
Print Assumptions C65_curve25519_ballots.

(** ** Examples

    Over the curve library of full size with cofactor 8, where all points are numbers modulo [8 * ell]: for a hash function with
    one value, an encryption of the generator, rather than of zero, passes, so the event that is bounded does happen. *)
Definition lucky : hash (Scalar code_env) := fun _ _ => zq ell 3.
Definition one_ct : Ciphertext code_env :=
  mkCiphertext (G := code_env) (zq (8 * ell) 8) (zq (8 * ell) (8 * 12 + 8)).
Example C65_curve25519_code_example :
  let L := full_dalek_laws 8 eq_refl ltac:(discriminate) in
  inside L one_ct /\ genuine (code_key 12) /\
  (exists sk, key_of (E := code_env) sk (code_key 12) /\ decrypt_to_element (E := code_env) sk one_ct <> identity) /\
  verify_zero (E := hashed_by code_env lucky) (code_key 12) one_ct (mkLogEqualityProof (G := code_env) (zq ell 3) (zq ell 4)) = Ret (Ok tt).
Proof.
  intros L. split; [|split; [|split]].
  - unfold inside. repeat (apply Forall_cons; [|]); try apply Forall_nil; unfold in_subgroup; rewrite full_times; apply Zq_eq;
      change (dl_order _) with ell; rewrite Z2Nat.id by (vm_compute; discriminate); vm_compute; reflexivity.
  - assert (H : match @deserialize_element code_env (pk_bytes (code_key 12)) with
                | Some P => e_eqb (g := code_env) P (pk_element (code_key 12)) | None => false end = true) by (vm_compute; reflexivity).
    unfold genuine. destruct (@deserialize_element code_env (pk_bytes (code_key 12))) as [P|]; [|discriminate H].
    f_equal. apply (zeqb_ok (8 * ell)). exact H.
  - exists (zq ell 12). split.
    + apply (zeqb_ok (8 * ell)). vm_compute. reflexivity.
    + intros H. apply (f_equal (zval (8 * ell))) in H. vm_compute in H. discriminate H.
  - vm_compute. reflexivity.
Qed.

(** A ballot with both of two options selected passes for this hash function, too. *)
Example C65_curve25519_ballots_example :
  let L := full_dalek_laws 8 eq_refl ltac:(discriminate) in let H := hashed_by code_env lucky in
  inside L [one_ct; one_ct] /\ genuine (code_key 12) /\
  (exists sk, key_of (E := code_env) sk (code_key 12) /\ forall k, ~ one_hot (E := code_env) sk [one_ct; one_ct] k) /\
  EncryptedChoice_verify (E:=H) (S:=SingleChoice (E:=H))
    (mkEncryptedChoice (E:=H) (S:=SingleChoice (E:=H)) [one_ct; one_ct]
       (mkRingProof (G := code_env) (zq ell 3) [zq ell 4; zq ell 5; zq ell 6; zq ell 7]) (mkLogEqualityProof (G := code_env) (zq ell 3) (zq ell 4)))
    (mkChoiceParams (E:=H) (S:=SingleChoice (E:=H)) 2 (code_key 12)) = Ret (Ok [one_ct; one_ct]).
Proof.
  intros L H. destruct C65_curve25519_code_example as (H1 & H2 & (sk & Hsk & Hd) & _). split; [|split; [exact H2|split]].
  - apply inside_cons. split; [exact H1|]. apply inside_cons. split; [exact H1|apply inside_nil].
  - exists sk. split; [exact Hsk|]. intros k [Hk Hone]. destruct k as [|[|k]]; [| |cbn in Hk; lia].
    + apply Hd. exact (Hone 1 one_ct eq_refl).
    + apply Hd. exact (Hone 0 one_ct eq_refl).
  - match goal with |- ?v = _ =>
      assert (Hv : match v with
                   | Ret (Ok [x; y]) => andb (andb (e_eqb (g := code_env) (random_element x) (random_element one_ct)) (e_eqb (g := code_env) (blinded_element x) (blinded_element one_ct)))
                                             (andb (e_eqb (g := code_env) (random_element y) (random_element one_ct)) (e_eqb (g := code_env) (blinded_element y) (blinded_element one_ct)))
                   | _ => false end = true) by (vm_compute; reflexivity);
      destruct v as [[[|[x1 x2] [|[y1 y2] [|]]]|]|]; try discriminate Hv
    end.
    apply andb_true_iff in Hv as [Hx Hy]. apply andb_true_iff in Hx as [Hx1 Hx2]. apply andb_true_iff in Hy as [Hy1 Hy2].
    apply (zeqb_ok (8 * ell)) in Hx1, Hx2, Hy1, Hy2. cbn [random_element blinded_element] in Hx1, Hx2, Hy1, Hy2. rewrite Hx1, Hx2, Hy1, Hy2. reflexivity.
Qed.

(** So does a wrong share. *)
Definition code_set : PublicKeySet code_env := mkPublicKeySet (G := code_env) (mkParams 3 2) (code_key 5) code_keys.
Definition wrong_share : CandidateDecryption code_env := mkCandidateDecryption (G := code_env) (mkVerifiableDecryption (G := code_env) (zq (8 * ell) 16)).
Example C65_curve25519_shares_example :
  let L := full_dalek_laws 8 eq_refl ltac:(discriminate) in
  inside L code_set /\ inside L wrong_share /\ inside L one_ct /\
  exists key share d',
    nth_error (ks_participant_keys code_set) 0 = Some key /\ pk_element key = e_mul (g := code_env) generator share /\
    vd_dh_element d' <> e_mul (g := code_env) (random_element one_ct) share /\
    PublicKeySet_verify_share (E:=hashed_by code_env lucky) code_set wrong_share one_ct 0 (mkLogEqualityProof (G := code_env) (zq ell 3) (zq ell 4)) = Ret (Ok d').
Proof.
  intros L. split; [|split; [|split]].
  1-3: unfold inside; repeat (apply Forall_cons; [|]); try apply Forall_nil; unfold in_subgroup; rewrite full_times; apply Zq_eq;
      change (dl_order _) with ell; rewrite Z2Nat.id by (vm_compute; discriminate); vm_compute; reflexivity.
  exists (code_key 12), (zq ell 12).
  match goal with |- exists d', _ /\ _ /\ _ /\ ?v = _ =>
    assert (Hv : match v with Ret (Ok d') => negb (e_eqb (g := code_env) (vd_dh_element d') (e_mul (g := code_env) (random_element one_ct) (zq ell 12))) | _ => false end = true)
      by (vm_compute; reflexivity);
    destruct v as [[d'|]|]; try discriminate Hv
  end.
  exists d'. split; [reflexivity|]. split; [apply (zeqb_ok (8 * ell)); vm_compute; reflexivity|]. split; [|reflexivity].
  intros He. apply negb_true_iff in Hv. apply (zeqb_ok (8 * ell)) in He. exact (eq_true_false_abs _ He Hv).
Qed.

(** So does a proof for an encryption of five in the range of two values. *)
Definition five_ct : Ciphertext code_env := mkCiphertext (G := code_env) (zq (8 * ell) 8) (zq (8 * ell) (8 * 12 + 8 * 5)).
Definition five_proof : RangeProof code_env := mkRangeProof (G := code_env) [] (mkRingProof (G := code_env) (zq ell 3) [zq ell 4; zq ell 5]).
Example C65_curve25519_ranges_example :
  let L := full_dalek_laws 8 eq_refl ltac:(discriminate) in
  exists d (pr : PreparedRange code_env),
    RangeDecomposition_optimal (env_build code_env) (fun n => n) 2 = Ret d /\ PreparedRange_new (E := code_env) d = Ret pr /\
    inside L five_proof /\ inside L five_ct /\ genuine (code_key 12) /\
    (exists sk, key_of (E := code_env) sk (code_key 12) /\
       forall v, (v < 2)%N -> decrypt_to_element (E := code_env) sk five_ct <> Encryption.times v generator) /\
    exists t', RangeProof_verify (E := hashed_by code_env lucky) five_proof (code_key 12) pr five_ct [] = Ret (Ok tt, t').
Proof.
  intros L. destruct (RangeDecomposition_optimal (env_build code_env) (fun n => n) 2) as [d|] eqn:Hd; [|vm_compute in Hd; discriminate Hd].
  vm_compute in Hd. injection Hd as Hd. exists d. rewrite <- Hd. clear d Hd.
  match goal with |- exists pr, _ /\ ?v = _ /\ _ =>
    assert (Hv : match v with Ret pr => match RangeProof_verify (E := hashed_by code_env lucky) five_proof (code_key 12) pr five_ct [] with
                                        | Ret (Ok tt, _) => true | _ => false end | _ => false end = true)
      by (vm_compute; reflexivity);
    destruct v as [pr|]; [|discriminate Hv]
  end.
  exists pr. split; [reflexivity|]. split; [reflexivity|]. split; [constructor|]. split; [|split; [exact (proj1 (proj2 C65_curve25519_code_example))|split]].
  - unfold inside; repeat (apply Forall_cons; [|]); try apply Forall_nil; unfold in_subgroup; rewrite full_times; apply Zq_eq;
      change (dl_order _) with ell; rewrite Z2Nat.id by (vm_compute; discriminate); vm_compute; reflexivity.
  - exists (zq ell 12). split; [apply (zeqb_ok (8 * ell)); vm_compute; reflexivity|].
    intros v Hlt He. assert (Hc : v = 0%N \/ v = 1%N) by lia. destruct Hc as [-> | ->];
      apply (f_equal (zval (8 * ell))) in He; vm_compute in He; discriminate He.
  - destruct (RangeProof_verify _ _ _ _ _) as [[[[]|] t']|]; try discriminate Hv. exists t'. reflexivity.
Qed.
