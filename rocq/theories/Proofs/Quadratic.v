(** * Proofs about quadratic voting *)
From Coq Require Import List NArith ZArith String Lia Arith Field Bool.
From Verif.Model Require Import Base Group Transcript Keys Encryption Ring Range Mul Quadratic.
From Verif.Spec Require Import Encryption LogEquality Sigma Ring Range Quadratic.
From Verif.Proofs Require Import Lists Algebra Encryption LogEquality Ring Range RangeProof SumOfSquares.
Import ListNotations.
Open Scope string_scope.
Open Scope list_scope.
Open Scope N_scope.

(** ** integer square root *)
Definition pow4 (j : nat) : N := match j with O => 0 | S k => 4 ^ N.of_nat k end.

Lemma pow4_div j : pow4 (S j) / 4 = pow4 j.
Proof.
  destruct j as [|j]; [reflexivity|]. unfold pow4. rewrite Nat2N.inj_succ, N.pow_succ_r'.
  rewrite (N.mul_comm 4). apply N.div_mul. discriminate.
Qed.

Lemma isqrt_scale_ok x : forall j fuel, (S j < fuel)%nat -> x < pow4 (S j) * 4 ->
  exists j', (j' <= S j)%nat /\ isqrt_scale fuel (pow4 (S j)) x = Ret (pow4 j') /\ x < (2 ^ N.of_nat j') * (2 ^ N.of_nat j').
Proof.
  assert (Hsq : forall j, pow4 (S j) * 4 = 2 ^ N.of_nat (S j) * 2 ^ N.of_nat (S j)).
  { intros j. unfold pow4. rewrite Nat2N.inj_succ, N.pow_succ_r'.
    replace (4 ^ N.of_nat j) with (2 ^ N.of_nat j * 2 ^ N.of_nat j); [lia|].
    rewrite <- N.pow_mul_l. reflexivity. }
  induction j as [|j IH]; intros [|fuel] Hf Hx; try lia; cbn [isqrt_scale].
  - destruct (N.ltb_spec x (pow4 1)) as [Hlt|Hge].
    + rewrite pow4_div. assert (x = 0) by (cbn in Hlt; lia). subst x.
      exists 0%nat. split; [lia|]. destruct fuel; [lia|]. cbn. split; [reflexivity|lia].
    + exists 1%nat. split; [lia|]. split; [reflexivity|]. rewrite <- Hsq. exact Hx.
  - destruct (N.ltb_spec x (pow4 (S (S j)))) as [Hlt|Hge].
    + rewrite pow4_div. destruct (IH fuel) as (j' & H1 & H2 & H3); [lia| |].
      * replace (pow4 (S j) * 4) with (pow4 (S (S j))); [exact Hlt|]. unfold pow4. rewrite Nat2N.inj_succ, N.pow_succ_r'. lia.
      * exists j'. split; [lia|]. split; assumption.
    + exists (S (S j)). split; [lia|]. split; [reflexivity|]. rewrite <- Hsq. exact Hx.
Qed.

Lemma isqrt_loop_ok b X : X < u64_lim -> forall j fuel Sq, (j < fuel)%nat ->
  Sq * Sq <= X -> X < (Sq + 2 ^ N.of_nat j) * (Sq + 2 ^ N.of_nat j) -> Sq + 2 ^ N.of_nat j <= 2 ^ 32 ->
  exists r, isqrt_loop b fuel (pow4 j) (X - Sq * Sq) (Sq * 2 ^ N.of_nat j) = Ret r /\ r * r <= X /\ X < (r + 1) * (r + 1).
Proof.
  intros HX. induction j as [|j IH]; intros [|fuel] Sq Hf H1 H2 H3; try lia; cbn [isqrt_loop].
  - change (pow4 0) with 0. cbn [N.ltb]. exists Sq. change (2 ^ N.of_nat 0) with 1 in *. rewrite N.mul_1_r. auto.
  - set (m := 2 ^ N.of_nat j) in *.
    assert (Hm : 2 ^ N.of_nat (S j) = 2 * m) by (rewrite Nat2N.inj_succ; apply N.pow_succ_r').
    assert (Hp : pow4 (S j) = m * m) by (unfold pow4, m; rewrite <- N.pow_mul_l; reflexivity).
    assert (Hm1 : 1 <= m) by (unfold m; pose proof (N.pow_nonzero 2 (N.of_nat j)); lia).
    rewrite Hm in *. replace (0 <? pow4 (S j)) with true by (symmetry; apply N.ltb_lt; rewrite Hp; nia).
    assert (Hb : (Sq + m) * (Sq + m) < u64_lim).
    { assert (Sq + m < 2 ^ 32) by lia. assert ((Sq + m) * (Sq + m) < 2 ^ 32 * 2 ^ 32) by nia. unfold u64_lim. exact H0. }
    rewrite Hp. rewrite u64_add_ok by nia. cbn [bind].
    replace (Sq * (2 * m) / 2) with (Sq * m) by (replace (Sq * (2 * m)) with (Sq * m * 2) by lia; rewrite N.div_mul; [reflexivity|discriminate]).
    rewrite <- Hp, pow4_div, Hp.
    destruct (N.leb_spec (Sq * (2 * m) + m * m) (X - Sq * Sq)) as [Hle|Hgt].
    + rewrite u64_sub_ok by exact Hle. cbn [bind]. rewrite u64_add_ok by nia. cbn [bind].
      replace (X - Sq * Sq - (Sq * (2 * m) + m * m)) with (X - (Sq + m) * (Sq + m)) by nia.
      replace (Sq * m + m * m) with ((Sq + m) * m) by lia. apply IH; [lia|nia| |lia]. fold m. nia.
    + apply IH; [lia|exact H1| |]; fold m; [nia|lia].
Qed.

Lemma isqrt_ok b x : x < 2 ^ 64 -> exists r, isqrt b x = Ret r /\ r * r <= x /\ x < (r + 1) * (r + 1).
Proof.
  intros Hx. unfold isqrt.
  destruct (isqrt_scale_ok x 31 34) as (j & Hj & Hs & Hlt); [lia|exact Hx|].
  change (2 ^ 62) with (pow4 32). rewrite Hs. cbn [bind].
  destruct (isqrt_loop_ok b x ltac:(exact Hx) j 34 0) as (r & Hr & H1 & H2).
  - lia.
  - lia.
  - rewrite N.add_0_l. exact Hlt.
  - rewrite N.add_0_l. apply N.pow_le_mono_r; lia.
  - exists r. replace (x - 0 * 0) with x in Hr by lia. rewrite N.mul_0_l in Hr. auto.
Qed.

Section Proofs.
Context (E : Env) (L : GroupLaws E).
Local Notation scalar := (Scalar E).
Local Notation element := (Element E).
Local Notation b := (env_build E).
Add Field qv_field : (s_field L).

Definition prepared (d : RangeDecomposition) : PreparedRange E := {| pr_inner := d; pr_admissible := range_values d |}.

(** ** parameters *)
Definition qv_inv (receiver : PublicKey E) (options : nat) (V C : N) (p : QuadraticVotingParams E) : Prop :=
  exists dv dc, doc_form (V + 1) dv /\ doc_form (C + 1) dc /\ V + 65 < 2 ^ 64 /\ C + 65 < 2 ^ 64 /\ (0 < options)%nat /\
    p = {| qv_vote_count_range := prepared dv; qv_credit_range := prepared dc;
           qv_options_count := options; qv_receiver := receiver |}.

Lemma qv_new_inv receiver options credits p : credits + 65 < 2 ^ 64 ->
  QuadraticVotingParams_new receiver options credits = Ret p ->
  0 < credits /\ exists m, m * m <= credits /\ credits < (m + 1) * (m + 1) /\ qv_inv receiver options m credits p.
Proof.
  intros Hc H. unfold QuadraticVotingParams_new, assert in H.
  destruct (Nat.ltb_spec 0 options) as [Ho|Ho]; cbn [bind] in H; [|discriminate].
  destruct (N.ltb_spec 0 credits) as [Hc0|Hc0]; cbn [bind] in H; [|discriminate].
  destruct (isqrt_ok b credits) as (m & Hm & H1 & H2); [lia|]. rewrite Hm in H. cbn [bind] in H.
  assert (Hmc : m <= credits) by nia.
  rewrite u64_add_ok in H by (unfold u64_lim; lia). cbn [bind] in H. inv_bind H.
  rewrite u64_add_ok in H by (unfold u64_lim; lia). cbn [bind] in H. inv_bind H.
  apply optimal_valid in Hm0; [|unfold u64_lim; lia]. apply optimal_valid in Hm1; [|unfold u64_lim; lia].
  rewrite (prepared_ok E L (m + 1)) in H by (try assumption; unfold u64_lim; lia). cbn [bind] in H.
  rewrite (prepared_ok E L (credits + 1)) in H by (try assumption; unfold u64_lim; lia). cbn [bind] in H.
  injection H as <-. split; [exact Hc0|]. exists m. split; [exact H1|]. split; [exact H2|].
  exists a, a0. unfold prepared. repeat split; try assumption; lia.
Qed.

Lemma qv_new_total (receiver : PublicKey E) options credits :
  (forall n, n < 2 ^ 64 -> valid_estimate (@len_estimate E) n) -> credits + 65 < 2 ^ 64 -> (0 < options)%nat -> 0 < credits ->
  exists p, QuadraticVotingParams_new receiver options credits = Ret p.
Proof.
  intros He Hc Ho Hc0. unfold QuadraticVotingParams_new, assert. apply Nat.ltb_lt in Ho. rewrite Ho. cbn [bind].
  apply N.ltb_lt in Hc0 as Hc0'. rewrite Hc0'. cbn [bind].
  destruct (isqrt_ok b credits) as (m & -> & H1 & H2); [lia|]. cbn [bind].
  assert (Hmc : m <= credits) by nia. assert (Hm1 : 1 <= m) by nia.
  rewrite u64_add_ok by (unfold u64_lim; lia). cbn [bind].
  destruct (RangeDecomposition_optimal b (@len_estimate E) (m + 1)) as [dv|k] eqn:Hv.
  2:{ rewrite (optimal_ref b (@len_estimate E) (m + 1)) in Hv; [discriminate|lia|unfold u64_lim; lia|apply He; lia]. }
  cbn [bind]. rewrite u64_add_ok by (unfold u64_lim; lia). cbn [bind].
  destruct (RangeDecomposition_optimal b (@len_estimate E) (credits + 1)) as [dc|k] eqn:Hd.
  2:{ rewrite (optimal_ref b (@len_estimate E) (credits + 1)) in Hd; [discriminate|lia|unfold u64_lim; lia|apply He; lia]. }
  cbn [bind]. apply optimal_valid in Hv; [|unfold u64_lim; lia]. apply optimal_valid in Hd; [|unfold u64_lim; lia].
  rewrite (prepared_ok E L (m + 1)) by (try assumption; unfold u64_lim; lia). cbn [bind].
  rewrite (prepared_ok E L (credits + 1)) by (try assumption; unfold u64_lim; lia). cbn [bind]. eauto.
Qed.

Lemma qv_credits_ok receiver options V C p : qv_inv receiver options V C p -> QuadraticVotingParams_credits p = Ret C.
Proof.
  intros (dv & dc & Hv & Hc & H1 & H2 & _ & ->). unfold QuadraticVotingParams_credits. cbn [qv_credit_range pr_inner prepared].
  rewrite (upper_bound_ok _ (C + 1)) by (try assumption; unfold u64_lim; lia). cbn [bind].
  rewrite u64_sub_ok by lia. f_equal. lia.
Qed.

Lemma qv_max_votes_ok receiver options V C p : qv_inv receiver options V C p -> QuadraticVotingParams_max_votes p = Ret V.
Proof.
  intros (dv & dc & Hv & Hc & H1 & H2 & _ & ->). unfold QuadraticVotingParams_max_votes. cbn [qv_vote_count_range pr_inner prepared].
  rewrite (upper_bound_ok _ (V + 1)) by (try assumption; unfold u64_lim; lia). cbn [bind].
  rewrite u64_sub_ok by lia. f_equal. lia.
Qed.

Lemma qv_set_inv receiver options V C p m p' : qv_inv receiver options V C p -> m + 65 < 2 ^ 64 ->
  QuadraticVotingParams_set_max_votes p m = Ret p' -> qv_inv receiver options m C p'.
Proof.
  intros Hi Hm H. pose proof (qv_credits_ok _ _ _ _ _ Hi) as Hcr. unfold QuadraticVotingParams_set_max_votes in H.
  inv_bind H. rewrite Hcr in H. cbn [bind] in H. inv_bind H. rewrite u64_add_ok in H by (unfold u64_lim; lia). cbn [bind] in H.
  inv_bind H. injection H as <-. unfold optimal_range in Hm2. inv_bind Hm2.
  apply optimal_valid in Hm3; [|unfold u64_lim; lia].
  rewrite (prepared_ok E L (m + 1)) in Hm2 by (try assumption; unfold u64_lim; lia). injection Hm2 as <-.
  destruct Hi as (dv & dc & Hv & Hc & H1 & H2 & H3 & ->). exists a2, dc. cbn. repeat split; assumption.
Qed.

(** what is checked, with and without overflow checks *)
Lemma qv_set_checked receiver options V C p m p' : qv_inv receiver options V C p ->
  QuadraticVotingParams_set_max_votes p m = Ret p' ->
  (m * m < 2 ^ 64 \/ overflow_checks b = true -> m * m <= C) /\ (m * m) mod 2 ^ 64 <= C.
Proof.
  intros Hi H. pose proof (qv_credits_ok _ _ _ _ _ Hi) as Hcr. unfold QuadraticVotingParams_set_max_votes in H.
  inv_bind H. rewrite Hcr in H. cbn [bind] in H. inv_bind H. unfold assert in Hm0.
  destruct (N.leb_spec a C) as [Hle|]; [|discriminate]. unfold u64_mul, u64_fit in Hm.
  destruct (N.ltb_spec (m * m) u64_lim) as [Hl|Hl].
  - injection Hm as <-. split; [auto|]. rewrite N.mod_small by exact Hl. exact Hle.
  - destruct (overflow_checks b); [discriminate|]. injection Hm as <-. split; [|exact Hle]. intros [H'|H']; [unfold u64_lim in Hl; lia|discriminate].
Qed.

Lemma qv_set_total receiver options V C p m : (forall n, n < 2 ^ 64 -> valid_estimate (@len_estimate E) n) ->
  qv_inv receiver options V C p -> 1 <= m -> m + 65 < 2 ^ 64 ->
  m * m <= C \/ (overflow_checks b = false /\ (m * m) mod 2 ^ 64 <= C) ->
  exists p', QuadraticVotingParams_set_max_votes p m = Ret p'.
Proof.
  intros He Hi H1 Hm Hc. pose proof (qv_credits_ok _ _ _ _ _ Hi) as Hcr.
  assert (HC : C + 65 < 2 ^ 64) by (destruct Hi as (dv & dc & _ & _ & _ & HC & _); exact HC).
  unfold QuadraticVotingParams_set_max_votes.
  assert (Hsq : exists sq, u64_mul b m m = Ret sq /\ sq <= C).
  { unfold u64_mul, u64_fit. destruct (N.ltb_spec (m * m) u64_lim) as [Hl|Hl].
    - exists (m * m). split; [reflexivity|]. destruct Hc as [Hc|[_ Hc]]; [exact Hc|]. rewrite N.mod_small in Hc by exact Hl. exact Hc.
    - destruct Hc as [Hc|[Ho Hc]]; [unfold u64_lim in Hl; lia|]. rewrite Ho. eauto. }
  destruct Hsq as (sq & -> & Hle). cbn [bind]. rewrite Hcr. cbn [bind]. unfold assert. apply N.leb_le in Hle. rewrite Hle. cbn [bind].
  rewrite u64_add_ok by (unfold u64_lim; lia). cbn [bind]. unfold optimal_range.
  destruct (RangeDecomposition_optimal b (@len_estimate E) (m + 1)) as [d|k] eqn:Hd.
  2:{ rewrite (optimal_ref b (@len_estimate E) (m + 1)) in Hd; [discriminate|lia|unfold u64_lim; lia|apply He; lia]. }
  cbn [bind]. apply optimal_valid in Hd; [|unfold u64_lim; lia].
  rewrite (prepared_ok E L (m + 1)) by (try assumption; unfold u64_lim; lia). cbn [bind]. eauto.
Qed.

Lemma qv_params_inv receiver options C V p : C + 65 < 2 ^ 64 -> qv_params receiver options C V p -> qv_inv receiver options V C p.
Proof.
  intros HC. induction 1 as [p m Hp H1 H2|p m m' p' Hp IH Hm Hs].
  - apply qv_new_inv in Hp; [|exact HC]. destruct Hp as (_ & m' & H3 & H4 & H5). replace m with m' by nia. exact H5.
  - exact (qv_set_inv _ _ _ _ _ _ _ IH Hm Hs).
Qed.

Lemma qv_inv_positive receiver options V C p : qv_inv receiver options V C p -> 1 <= V /\ 1 <= C.
Proof. intros (dv & dc & Hv & Hc & _). apply doc_form_ge2 in Hv. apply doc_form_ge2 in Hc. lia. Qed.

(** ** honest ballots *)
Lemma range_new_ok (K : PublicKey E) n d v t r c p t' r' :
  doc_form n d -> n + 64 < 2 ^ 64 ->
  RangeProof_new K (prepared d) v t r = Ret (c, p, t', r') ->
  v < n /\ cwv_value c = v /\ encrypts K (cwv_inner c) (times v generator) (cwv_randomness c) /\
  RangeProof_verify p K (prepared d) (cwv_inner c) t = Ret (Ok tt, t').
Proof.
  intros Hd Hn H. unfold RangeProof_new, prepared in *. assert (Hn' : n < u64_lim) by (unfold u64_lim; lia).
  destruct (CiphertextWithValue_new s_of_u64 v K r) as [c' r1] eqn:Hc. inv_bind H. destruct a as [[p1 t1] r3].
  injection H as <- <- <- <-.
  assert (Hval : cwv_value c' = v).
  { unfold CiphertextWithValue_new in Hc. destruct (ExtendedCiphertext_new _ _ _). injection Hc as <- <-. reflexivity. }
  destruct (N.lt_ge_cases v n) as [Hv|Hv];
    [|rewrite (range_out_of_range E) with (n := n) in Hm by (try assumption; lia); discriminate].
  apply (cwv_new_encrypts E L) in Hc. destruct Hc as [Hc _].
  assert (Henc : encrypts K (cwv_inner c') (times v generator) (cwv_randomness c')).
  { rewrite (times_of_u64 E L) by lia. exact Hc. }
  split; [exact Hv|]. split; [exact Hval|]. split; [exact Henc|]. rewrite <- Hval in Henc.
  exact (proj1 (range_complete E L K n d c' _ r1 p1 t1 r3 Hd Hn' (sizes_fit n d Hd Hn) ltac:(lia) Henc Hm)).
Qed.

Lemma range_new_total (K : PublicKey E) n d v t r :
  ser_total E -> doc_form n d -> n + 64 < 2 ^ 64 -> v < n ->
  exists c p t' r', RangeProof_new K (prepared d) v t r = Ret (c, p, t', r').
Proof.
  intros Ht Hd Hn Hv. unfold RangeProof_new. assert (Hn' : n < u64_lim) by (unfold u64_lim; lia).
  destruct (CiphertextWithValue_new s_of_u64 v K r) as [c' r1] eqn:Hc.
  assert (Hval : cwv_value c' = v).
  { unfold CiphertextWithValue_new in Hc. destruct (ExtendedCiphertext_new _ _ _). injection Hc as <- <-. reflexivity. }
  apply (cwv_new_encrypts E L) in Hc. destruct Hc as [Hc _].
  assert (Henc : encrypts K (cwv_inner c') (times (cwv_value c') generator) (cwv_randomness c')).
  { rewrite Hval, (times_of_u64 E L) by lia. exact Hc. }
  destruct (range_total E L K n d c' t r1 Ht Hd Hn' (sizes_fit n d Hd Hn) ltac:(lia) Henc) as (p & t' & r' & Hp).
  unfold prepared. rewrite Hp. cbn [bind]. eauto 10.
Qed.

Lemma qv_encrypt_ok receiver options V C p : qv_inv receiver options V C p ->
  forall votes r out r', qv_encrypt_votes p votes r = Ret (out, r') ->
  Forall2 (fun v (o : CiphertextWithValue E scalar * RangeProof E) => v <= V /\ cwv_value (fst o) = s_of_u64 v /\
     encrypts receiver (cwv_inner (fst o)) (times v generator) (cwv_randomness (fst o)) /\
     exists t, RangeProof_verify (snd o) receiver (qv_vote_count_range p) (cwv_inner (fst o)) qv_variant_context = Ret (Ok tt, t)) votes out.
Proof.
  intros (dv & dc & Hv & Hc & HV & HC & Ho & ->). cbn [qv_vote_count_range].
  induction votes as [|v votes IH]; intros r out r' H; cbn [qv_encrypt_votes] in H.
  - injection H as <- <-. constructor.
  - inv_bind H. destruct a as [[[c pr] t] r1]. inv_bind H. destruct a as [rest r2]. injection H as <- <-.
    cbn [qv_receiver qv_vote_count_range] in Hm.
    apply (range_new_ok receiver (V + 1)) in Hm; [|exact Hv|lia]. destruct Hm as (H1 & H2 & H3 & H4).
    constructor; [|exact (IH _ _ _ Hm0)]. cbn [fst snd]. split; [lia|]. split; [cbn; rewrite H2; reflexivity|].
    split; [exact H3|]. exists t. exact H4.
Qed.

Lemma qv_encrypt_total receiver options V C p : ser_total E -> qv_inv receiver options V C p ->
  forall votes r, Forall (fun v => v <= V) votes -> exists out r', qv_encrypt_votes p votes r = Ret (out, r').
Proof.
  intros Ht (dv & dc & Hv & Hc & HV & HC & Ho & ->).
  induction votes as [|v votes IH]; intros r H; cbn [qv_encrypt_votes qv_receiver qv_vote_count_range]; [eauto|].
  inversion H as [|? ? H1 H2]; subst.
  destruct (range_new_total receiver (V + 1) dv v (transcript_new "quadratic_voting_variant") r Ht Hv) as (c & pr & t & r1 & ->); [lia|lia|].
  cbn [bind]. destruct (IH r1 H2) as (out & r2 & ->). cbn [bind]. eauto.
Qed.

Lemma squares_cons v votes : squares (v :: votes) = v * v + squares votes.
Proof. reflexivity. Qed.

Lemma credit_sum votes sq credit :
  overflow_checks b = true \/ squares votes < 2 ^ 64 ->
  mapM (fun x => u64_mul b x x) votes = Ret sq -> u64_sum b 0 sq = Ret credit -> credit = squares votes.
Proof.
  intros Hc. enough (Hg : forall votes sq acc credit, overflow_checks b = true \/ acc + squares votes < 2 ^ 64 ->
    mapM (fun x => u64_mul b x x) votes = Ret sq -> u64_sum b acc sq = Ret credit -> credit = acc + squares votes).
  { intros H1 H2. rewrite (Hg votes sq 0 credit); [reflexivity|exact Hc|exact H1|exact H2]. }
  clear. induction votes as [|v votes IH]; intros sq acc credit Hc H1 H2; cbn [mapM] in H1.
  - injection H1 as <-. cbn in H2. injection H2 as <-. unfold squares. cbn. lia.
  - inv_bind H1. inv_bind H1. injection H1 as <-. rewrite squares_cons in *. cbn [u64_sum] in H2. inv_bind H2.
    assert (Ha : a = v * v).
    { unfold u64_mul, u64_fit in Hm. destruct (N.ltb_spec (v * v) u64_lim) as [|Hl]; [congruence|].
      destruct Hc as [Hc|Hc]; [rewrite Hc in Hm; discriminate|unfold u64_lim in Hl; lia]. }
    assert (Ha1 : a1 = acc + a).
    { unfold u64_add, u64_fit in Hm1. destruct (N.ltb_spec (acc + a) u64_lim) as [|Hl]; [congruence|].
      destruct Hc as [Hc|Hc]; [rewrite Hc in Hm1; discriminate|unfold u64_lim in Hl; lia]. }
    subst a a1. assert (Hc' : overflow_checks b = true \/ acc + v * v + squares votes < 2 ^ 64) by (destruct Hc as [Hc|Hc]; [left; exact Hc|right; lia]).
    rewrite (IH _ _ _ Hc' Hm0 H2). lia.
Qed.

Lemma credit_sum_total votes : squares votes < 2 ^ 64 ->
  exists sq, mapM (fun x => u64_mul b x x) votes = Ret sq /\ u64_sum b 0 sq = Ret (squares votes).
Proof.
  intros Hs. exists (map (fun x => x * x) votes). split.
  - apply mapM_total. intros x Hx. apply u64_mul_ok.
    assert (x * x <= squares votes) by (apply n_sum_in; apply in_map_iff; eauto). unfold u64_lim. lia.
  - rewrite u64_sum_ok; [reflexivity|]. exact Hs.
Qed.

Lemma sum_sq_squares votes : sum_sq (map (fun v => phi L (Z.of_N v)) votes) = phi L (Z.of_N (squares votes)).
Proof.
  induction votes as [|v votes IH]; [cbn; symmetry; apply (phi_0 L)|].
  rewrite squares_cons, N2Z.inj_add, N2Z.inj_mul, (phi_add E L), (phi_mul E L). cbn [map sum_sq]. rewrite IH. reflexivity.
Qed.

(** what [verify] accepts *)
Lemma qv_verify_votes_ok (p : QuadraticVotingParams E) : forall votes i,
  qv_verify_votes p i votes = Ret (Ok tt) <-> forall v, In v votes -> vote_checked p v (Ok tt).
Proof.
  unfold vote_checked. change (transcript_new "quadratic_voting_variant") with qv_variant_context.
  induction votes as [|v votes IH]; intros i; cbn [qv_verify_votes]; [split; [intros _ v []|reflexivity]|].
  change (transcript_new "quadratic_voting_variant") with qv_variant_context.
  destruct (RangeProof_verify _ _ _ _ _) as [[[[]|e] t]|k] eqn:Hv; cbn [bind].
  - rewrite IH. split; [|intros H v' Hv'; apply H; right; exact Hv'].
    intros H v' [<-|Hin]; [exists t; exact Hv|exact (H v' Hin)].
  - split; [discriminate|]. intros H. destruct (H v (or_introl eq_refl)) as [t' H']. congruence.
  - split; [discriminate|]. intros H. destruct (H v (or_introl eq_refl)) as [t' H']. congruence.
Qed.

Lemma qv_verify_votes_err (p : QuadraticVotingParams E) : forall votes i e,
  qv_verify_votes p i votes = Ret (Err e) <->
  exists k ve, e = QVVariant (i + k) ve /\
    (forall j v, (j < k)%nat -> nth_error votes j = Some v -> vote_checked p v (Ok tt)) /\
    exists v, nth_error votes k = Some v /\ vote_checked p v (Err ve).
Proof.
  unfold vote_checked.
  induction votes as [|v votes IH]; intros i e; cbn [qv_verify_votes].
  { split; [discriminate|]. intros (k & ve & _ & _ & v & Hv & _). destruct k; discriminate. }
  change (transcript_new "quadratic_voting_variant") with qv_variant_context.
  destruct (RangeProof_verify _ _ _ _ _) as [[[[]|ve0] t]|kd] eqn:Hv; cbn [bind].
  - rewrite IH. split.
    + intros (k & ve & -> & H1 & H2). exists (S k), ve. split; [f_equal; lia|]. split; [|exact H2].
      intros [|j] v' Hj Hn; cbn in Hn; [injection Hn as <-; exists t; exact Hv|]. apply (H1 j); [lia|exact Hn].
    + intros (k & ve & -> & H1 & H2). destruct k as [|k].
      * destruct H2 as (v' & Hn & t' & H2). injection Hn as <-. congruence.
      * exists k, ve. split; [f_equal; lia|]. split; [|exact H2]. intros j v' Hj Hn. apply (H1 (S j)); [lia|exact Hn].
  - split.
    + intros H. injection H as <-. exists 0%nat, ve0. split; [f_equal; lia|]. split; [intros; lia|]. exists v. split; [reflexivity|]. exists t. exact Hv.
    + intros (k & ve & -> & H1 & H2). destruct k as [|k].
      * destruct H2 as (v' & Hn & t' & H2). injection Hn as <-. rewrite Nat.add_0_r. congruence.
      * destruct (H1 0%nat v ltac:(lia) eq_refl) as [t' H']. congruence.
  - split; [discriminate|]. intros (k & ve & -> & H1 & H2). destruct k as [|k].
    + destruct H2 as (v' & Hn & t' & H2). injection Hn as <-. congruence.
    + destruct (H1 0%nat v ltac:(lia) eq_refl) as [t' H']. congruence.
Qed.

Lemma qv_verify_ok_iff (ballot : QuadraticVotingBallot E) p cts :
  QuadraticVotingBallot_verify ballot p = Ret (Ok cts) <->
  cts = map crp_ciphertext (qb_votes ballot) /\ List.length (qb_votes ballot) = qv_options_count p /\
  (forall v, In v (qb_votes ballot) -> vote_checked p v (Ok tt)) /\
  credit_checked p ballot (Ok tt) /\ equiv_checked p ballot (Ok tt).
Proof.
  unfold QuadraticVotingBallot_verify, QuadraticVotingParams_check_options_count.
  destruct (Nat.eqb_spec (qv_options_count p) (List.length (qb_votes ballot))) as [Hl|Hl].
  2:{ split; [discriminate|]. intros (_ & H & _). congruence. }
  rewrite <- (qv_verify_votes_ok p (qb_votes ballot) 0).
  destruct (qv_verify_votes p 0 (qb_votes ballot)) as [[[]|e]|k]; cbn [bind].
  2,3: (split; [discriminate|]; intros (_ & _ & H & _); discriminate).
  unfold credit_checked, equiv_checked.
  change (transcript_new "quadratic_voting_credit_range") with qv_credit_context.
  change (transcript_new "quadratic_voting_credit_equiv") with qv_equiv_context.
  destruct (RangeProof_verify _ _ _ _ _) as [[[[]|e] t]|k]; cbn [bind].
  2,3: (split; [discriminate|]; intros (_ & _ & _ & (t' & H) & _); discriminate).
  destruct (SumOfSquaresProof_verify _ _ _ _ _) as [[[[]|e] t']|k]; cbn [bind].
  2,3: (split; [discriminate|]; intros (_ & _ & _ & _ & (t'' & H)); discriminate).
  split; [intros H; injection H as <-; eauto 10|]. intros (-> & _). reflexivity.
Qed.

Lemma qv_verify_err_iff (ballot : QuadraticVotingBallot E) p e :
  QuadraticVotingBallot_verify ballot p = Ret (Err e) <-> qv_reported p ballot e.
Proof.
  unfold QuadraticVotingBallot_verify, QuadraticVotingParams_check_options_count, qv_reported.
  destruct (Nat.eqb_spec (qv_options_count p) (List.length (qb_votes ballot))) as [Hl|Hl].
  2:{ split.
      - intros H. injection H as <-. auto.
      - destruct e; try (intros [H _]; congruence). intros (-> & -> & _). reflexivity. }
  pose proof (qv_verify_votes_ok p (qb_votes ballot) 0) as Hok. pose proof (qv_verify_votes_err p (qb_votes ballot) 0) as Herr.
  destruct (qv_verify_votes p 0 (qb_votes ballot)) as [[[]|e0]|k]; cbn [bind].
  - assert (Hall : forall v, In v (qb_votes ballot) -> vote_checked p v (Ok tt)) by (apply Hok; reflexivity).
    assert (Hvar : forall i ve, ~ ((forall j v, (j < i)%nat -> nth_error (qb_votes ballot) j = Some v -> vote_checked p v (Ok tt)) /\
      exists v, nth_error (qb_votes ballot) i = Some v /\ vote_checked p v (Err ve))).
    { intros i ve [H1 H2]. enough (Ret (Ok tt) = Ret (Err (QVVariant i ve))) by discriminate. apply Herr. exists i, ve. auto. }
    unfold credit_checked, equiv_checked.
    change (transcript_new "quadratic_voting_credit_range") with qv_credit_context.
    change (transcript_new "quadratic_voting_credit_equiv") with qv_equiv_context.
    destruct (RangeProof_verify _ _ _ _ _) as [[[[]|ce] t]|k]; cbn [bind].
    + destruct (SumOfSquaresProof_verify _ _ _ _ _) as [[[[]|ee] t']|k]; cbn [bind].
      * split; [discriminate|]. destruct e; [intros (_ & H); exfalso; exact (Hvar _ _ H)|intros (_ & _ & t'' & H); discriminate
          |intros (_ & _ & _ & t'' & H); discriminate|intros (-> & -> & H); congruence].
      * split; [intros H; injection H as <-; eauto 10|]. destruct e; [intros (_ & H); exfalso; exact (Hvar _ _ H)|intros (_ & _ & t'' & H); discriminate
          |intros (_ & _ & _ & t'' & H); congruence|intros (-> & -> & H); congruence].
      * split; [discriminate|]. destruct e; [intros (_ & H); exfalso; exact (Hvar _ _ H)|intros (_ & _ & t'' & H); discriminate
          |intros (_ & _ & _ & t'' & H); discriminate|intros (-> & -> & H); congruence].
    + split; [intros H; injection H as <-; eauto 10|]. destruct e; [intros (_ & H); exfalso; exact (Hvar _ _ H)|intros (_ & _ & t'' & H); congruence
          |intros (_ & _ & (t'' & H) & _); discriminate|intros (-> & -> & H); congruence].
    + split; [discriminate|]. destruct e; [intros (_ & H); exfalso; exact (Hvar _ _ H)|intros (_ & _ & t'' & H); congruence
          |intros (_ & _ & (t'' & H) & _); discriminate|intros (-> & -> & H); congruence].
  - assert (Hno : ~ forall v, In v (qb_votes ballot) -> vote_checked p v (Ok tt)).
    { intros H. apply Hok in H. discriminate. }
    split.
    + intros H. injection H as <-. destruct (proj1 (Herr e0) eq_refl) as (k & ve & -> & H). exact (conj Hl H).
    + destruct e as [i ve|ve|ve|x y].
      * intros (_ & H). assert (H' : Ret (Err e0) = Ret (Err (QVVariant i ve))) by (apply Herr; exists i, ve; auto). injection H' as ->. reflexivity.
      * intros (_ & H & _). contradiction.
      * intros (_ & H & _). contradiction.
      * intros (-> & -> & H). contradiction.
  - assert (Hno : ~ forall v, In v (qb_votes ballot) -> vote_checked p v (Ok tt)).
    { intros H. apply Hok in H. discriminate. }
    split; [discriminate|]. destruct e as [i ve|ve|ve|x y].
    + intros (_ & H). assert (H' : Panic k = Ret (Err (QVVariant i ve))) by (apply Herr; exists i, ve; auto). discriminate.
    + intros (_ & H & _). contradiction.
    + intros (_ & H & _). contradiction.
    + intros (-> & -> & H). contradiction.
Qed.

Lemma qv_ballot_complete receiver options V C p votes r ballot r' :
  qv_inv receiver options V C p -> overflow_checks b = true \/ squares votes < 2 ^ 64 ->
  QuadraticVotingBallot_new p votes r = Ret (ballot, r') ->
  List.length votes = options /\ Forall (fun v => v <= V) votes /\ squares votes <= C /\
  QuadraticVotingBallot_verify ballot p = Ret (Ok (map crp_ciphertext (qb_votes ballot))) /\
  forall sk, key_of sk receiver ->
    Forall2 (fun v ct => decrypt_to_element sk ct = times v generator) votes (map crp_ciphertext (qb_votes ballot)).
Proof.
  intros Hi Hov H. unfold QuadraticVotingBallot_new, assert in H.
  destruct (Nat.eqb_spec (List.length votes) (qv_options_count p)) as [Hl|]; [|discriminate]. cbn [bind] in H.
  inv_bind H. inv_bind H. inv_bind H. destruct a1 as [out r1]. inv_bind H. destruct a1 as [[[credit cproof] t1] r2].
  inv_bind H. destruct a1 as [[eproof t2] r3]. injection H as <- <-.
  apply (credit_sum _ _ _ Hov Hm) in Hm0. subst a0.
  apply (qv_encrypt_ok _ _ _ _ _ Hi) in Hm1. pose proof Hi as Hi'.
  destruct Hi as (dv & dc & Hv & Hc & HV & HC & Ho & ->). cbn [qv_options_count qv_receiver qv_credit_range qv_vote_count_range] in *.
  apply (range_new_ok receiver (C + 1)) in Hm2; [|exact Hc|lia]. destruct Hm2 as (H1 & H2 & H3 & H4).
  split; [exact Hl|].
  split; [clear -Hm1; induction Hm1 as [|v o votes out (Ho & _) _ IH]; constructor; assumption|].
  split; [lia|]. split.
  - apply qv_verify_ok_iff. cbn [qb_votes qv_options_count qb_credit].
    split; [reflexivity|]. split; [rewrite map_length, <- Hl; symmetry; exact (Forall2_length' _ _ _ Hm1)|]. split.
    + intros w Hw. apply in_map_iff in Hw. destruct Hw as (o & <- & Hin). unfold vote_checked. cbn.
      clear -Hm1 Hin. induction Hm1 as [|v o' votes out (_ & _ & _ & Ho) _ IH]; [destruct Hin|].
      destruct Hin as [<-|Hin]; [exact Ho|exact (IH Hin)].
    + split; [exists t1; exact H4|]. exists t2. cbn.
      apply (sq_complete E L) in Hm3.
      * rewrite map_map in Hm3 |- *. exact Hm3.
      * clear -Hm1 L HV. induction Hm1 as [|v o votes out (Hle & Hval & Henc & _) _ IH]; constructor; [|exact IH].
        rewrite Hval, <- (times_of_u64 E L) by (unfold u64_lim; lia). exact Henc.
      * cbn. rewrite H2, <- (times_of_u64 E L) by (unfold u64_lim; lia). exact H3.
      * cbn. rewrite H2, (of_u64_phi E L) by (unfold u64_lim; lia). rewrite <- sum_sq_squares. f_equal.
        rewrite map_map. clear -Hm1 L HV. induction Hm1 as [|v o votes out (Hle & Hval & _) _ IH]; [reflexivity|].
        cbn [map]. rewrite IH. f_equal. rewrite Hval. symmetry. apply (of_u64_phi E L). unfold u64_lim. lia.
  - intros sk Hk. cbn [qb_votes]. rewrite map_map. cbn. clear -Hm1 Hk L.
    induction Hm1 as [|v o votes out (_ & _ & Henc & _) _ IH]; cbn [map]; constructor; [|exact IH].
    exact (encrypts_decrypt E L sk receiver _ _ _ Hk Henc).
Qed.

Lemma qv_ballot_total receiver options V C p votes r : ser_total E -> qv_inv receiver options V C p ->
  List.length votes = options -> Forall (fun v => v <= V) votes -> squares votes <= C ->
  exists ballot r', QuadraticVotingBallot_new p votes r = Ret (ballot, r').
Proof.
  intros Ht Hi Hl Hvs Hs. unfold QuadraticVotingBallot_new, assert.
  assert (HC : C + 65 < 2 ^ 64) by (destruct Hi as (dv & dc & _ & _ & _ & HC & _); exact HC).
  assert (Hop : qv_options_count p = options) by (destruct Hi as (dv & dc & _ & _ & _ & _ & _ & ->); reflexivity).
  rewrite Hop, Hl, Nat.eqb_refl. cbn [bind].
  destruct (credit_sum_total votes) as (sq & -> & H2); [lia|]. cbn [bind]. rewrite H2. cbn [bind].
  destruct (qv_encrypt_total _ _ _ _ _ Ht Hi votes r Hvs) as (out & r1 & ->). cbn [bind].
  destruct Hi as (dv & dc & Hv & Hc & HV & _ & Ho & ->). cbn [qv_receiver qv_credit_range].
  destruct (range_new_total receiver (C + 1) dc (squares votes) (transcript_new "quadratic_voting_credit_range") r1 Ht Hc) as (c & pr & t & r2 & ->); [lia|lia|].
  cbn [bind].
  match goal with |- context [SumOfSquaresProof_new ?a ?b ?c ?d ?e] =>
    destruct (sq_new_total E L a b c d e Ht) as (ep & t' & r3 & ->) end.
  cbn [bind]. eauto.
Qed.

(** ** adversarial ballots *)
Lemma qv_sound sk receiver options V C p ballot cts :
  qv_inv receiver options V C p -> key_of sk receiver ->
  (Z.of_nat options * (Z.of_N V * Z.of_N V) < order L)%Z ->
  (Z.of_N C < order L)%Z ->
  QuadraticVotingBallot_verify ballot p = Ret (Ok cts) ->
  List.length cts = options /\
  ((exists votes, Forall2 (fun v ct => v <= V /\ decrypt_to_element sk ct = times v generator) votes cts /\ squares votes <= C) \/
   (exists v, In v (qb_votes ballot) /\ range_hit sk qv_variant_context receiver (pr_inner (qv_vote_count_range p))
                 (rap_partial (crp_range_proof v)) (crp_ciphertext v)) \/
   range_hit sk qv_credit_context receiver (pr_inner (qv_credit_range p))
     (rap_partial (crp_range_proof (qb_credit ballot))) (crp_ciphertext (qb_credit ballot)) \/
   sq_hit qv_equiv_context receiver cts (crp_ciphertext (qb_credit ballot))).
Proof.
  intros Hi Hk Hbig HCo H. apply qv_verify_ok_iff in H. destruct H as (-> & Hl & Hvotes & [tc Hcr] & [te Heq]).
  destruct Hi as (dv & dc & Hv & Hc & HV & HC & Ho & ->). unfold vote_checked in Hvotes. cbn [qv_options_count qv_receiver qv_credit_range qv_vote_count_range pr_inner prepared] in *.
  split; [rewrite map_length; exact Hl|].
  assert (Hall : (exists votes, Forall2 (fun v ct => v <= V /\ decrypt_to_element sk ct = times v generator) votes (map crp_ciphertext (qb_votes ballot))) \/
    exists v, In v (qb_votes ballot) /\ range_hit sk qv_variant_context receiver dv (rap_partial (crp_range_proof v)) (crp_ciphertext v)).
  { clear -Hvotes Hk Hv L. induction (qb_votes ballot) as [|w ws IH]; [left; exists []; constructor|].
    destruct (Hvotes w (or_introl eq_refl)) as [t Hw].
    destruct (range_sound E L sk _ receiver (V + 1) dv _ _ _ Hk Hv Hw) as [(v & Hlt & Hd)|Hh].
    - destruct IH as [[votes IH]|(x & Hx & Hh)].
      + intros x Hx. apply Hvotes. right. exact Hx.
      + left. exists (v :: votes). constructor; [split; [lia|exact Hd]|exact IH].
      + right. exists x. split; [right; exact Hx|exact Hh].
    - right. exists w. split; [left; reflexivity|exact Hh]. }
  destruct Hall as [[votes Hf]|Hh]; [|right; left; exact Hh].
  destruct (range_sound E L sk _ receiver (C + 1) dc _ _ _ Hk Hc Hcr) as [(c & Hlt & Hd)|Hh]; [|right; right; left; exact Hh].
  assert (Hmap : map (decrypt_to_element sk) (map crp_ciphertext (qb_votes ballot)) = map (fun x => generator * x)%E (map (fun v => phi L (Z.of_N v)) votes)).
  { clear -Hf L. induction Hf as [|v ct votes cts [_ Hd] _ IH]; [reflexivity|]. cbn [map]. rewrite IH, Hd, (times_phi E L). reflexivity. }
  destruct (e_eq_dec L (decrypt_to_element sk (crp_ciphertext (qb_credit ballot))) (generator * phi L (Z.of_N (squares votes)))%E) as [Hz|Hz].
  - left. exists votes. split; [exact Hf|]. rewrite Hd, (times_phi E L) in Hz. apply (gen_inj L) in Hz.
    apply (phi_inj_small L) in Hz; [lia| |].
    + lia.
    + split; [lia|]. eapply Z.le_lt_trans; [|exact Hbig].
      pose proof (Forall2_length' _ _ _ Hf) as Hlen. rewrite map_length, Hl in Hlen. rewrite <- Hlen. clear -Hf.
      induction Hf as [|v ct votes cts [Hle _] _ IH]; [cbn; lia|]. rewrite squares_cons, N2Z.inj_add, N2Z.inj_mul.
      cbn [List.length]. rewrite Nat2Z.inj_succ. nia.
  - right. right. right. pose proof Heq as Heq'. apply (sq_verify_ok_iff E L) in Heq'. destruct Heq' as (rs & As & Z & q & Hr & Ha & Hh & Hor & _).
    exists As, Z, q. split; [exact Hh|]. rewrite Hor. split; [eauto|]. intros c' rs' sz' Ha'.
    refine (sq_unique_challenge E L _ _ _ _ _ _ _ _ _ _ _ _ Ha Ha').
    intros xs Hst. destruct (proj1 (sq_statement_iff E L sk receiver _ _ Hk) (ex_intro _ xs Hst)) as (ys & Y1 & Y2).
    apply Hz. rewrite Y2, <- sum_sq_squares. f_equal. f_equal. rewrite Hmap in Y1. clear -Y1 L.
    revert Y1. generalize (map (fun v => phi L (Z.of_N v)) votes). induction ys as [|y ys IH]; intros [|x xs] Y1; try discriminate; [reflexivity|].
    cbn in Y1. injection Y1 as H1 H2. apply (gen_inj L) in H1. f_equal; [congruence|]. apply IH. exact H2.
Qed.

End Proofs.
