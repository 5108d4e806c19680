(** * C85: sizes of proofs and ballots *)
From Coq Require Import List NArith ZArith Arith Bool String Lia.
From Verif.Model Require Import Base Group Transcript Keys Encryption LogEquality Possession
  Ring Range Commitment Mul Choice Quadratic.
From Verif.Spec Require Import Encryption Sigma Ring Range Possession Choice Quadratic Sizes.
From Verif.Proofs Require Import Lists Algebra Range RangeProof Quadratic.
From Verif.Instance Require Import Primality Zq.
From Verif.Properties Require Import LogEquality Possession Ring Range SumOfSquares Choice Quadratic.
Import ListNotations.
Open Scope string_scope.
Open Scope list_scope.
Open Scope N_scope.

(** ** The size is logarithmic in the range *)

(** a decomposition in base 4: [n = t + 4 * (n / 4 - 1)] with [t = 4 + n mod 4] *)
Lemma base4 : forall k n, 2 <= n -> N.log2 n < N.of_nat k -> exists d, doc_form n d /\ 2 * cost d <= 9 * N.log2 n + 1.
Proof.
  induction k as [k IH] using lt_wf_ind. intros n Hn Hk.
  destruct (N.lt_ge_cases n 8) as [Hs|Hl].
  - exists [{| rs_size := n; rs_step := 1 |}]. split; [constructor; exact Hn|]. unfold cost. cbn [map n_sum fold_right rs_size].
    assert (Hc : n = 2 \/ n = 3 \/ n = 4 \/ n = 5 \/ n = 6 \/ n = 7) by lia.
    destruct Hc as [-> |[-> |[-> |[-> |[-> | ->]]]]]; vm_compute; discriminate.
  - assert (Hq : 2 <= n / 4) by (apply N.div_le_lower_bound; lia).
    assert (Hlog : N.log2 n = N.log2 (n / 4) + 2).
    { change 4 with (2 ^ 2). rewrite <- N.shiftr_div_pow2, N.log2_shiftr. pose proof (N.log2_le_mono 8 n Hl) as H3. change (N.log2 8) with 3 in H3. lia. }
    destruct k as [|[|k]]; [lia|lia|].
    destruct (IH k ltac:(lia) (n / 4) Hq ltac:(lia)) as (d & Hd & Hc).
    pose proof (N.div_mod n 4 ltac:(lia)) as Hdm. pose proof (N.mod_lt n 4 ltac:(lia)) as Hm.
    exists (map (spec_scale 4) d ++ [{| rs_size := 4 + n mod 4; rs_step := 1 |}]). split.
    + assert (Hn4 : 4 + n mod 4 + 4 * (n / 4 - 1) = n) by lia. rewrite <- Hn4 at 1. apply doc_nested; [exact Hd|discriminate|].
      clear. generalize (n mod 4). intros x. lia.
    + rewrite cost_nested. lia.
Qed.

Lemma proof_length_bounds n d : doc_form n d -> (forall d', doc_form n d' -> proof_length d <= proof_length d') ->
  3 * N.log2 n <= proof_length d + 1 /\ 2 * proof_length d + 1 <= 9 * N.log2 n.
Proof.
  intros Hd Hmin. pose proof (doc_form_ge2 _ _ Hd) as Hn. split.
  - rewrite <- cost_proof_length by exact (doc_form_nonempty _ _ Hd). pose proof (doc_form_pow _ _ Hd) as Hp.
    pose proof (N.log2_spec n ltac:(lia)) as [Hl _].
    assert (H3 : 2 ^ (3 * N.log2 n) <= n * n * n).
    { replace (3 * N.log2 n) with (N.log2 n + N.log2 n + N.log2 n) by lia. rewrite !N.pow_add_r.
      apply N.mul_le_mono; [apply N.mul_le_mono|]; assumption. }
    apply (N.pow_le_mono_r_iff 2); lia.
  - destruct (base4 (S (N.to_nat (N.log2 n))) n Hn ltac:(lia)) as (d' & Hd' & Hc).
    rewrite (cost_proof_length d') in Hc by exact (doc_form_nonempty _ _ Hd'). pose proof (Hmin d' Hd'). lia.
Qed.

(** "range proofs with size O(log n)": between 3 and 4.5 scalars and elements per bit *)
Theorem C85_logarithmic :
  forall b est n d, n + 4 < 2 ^ 64 -> valid_estimate est n -> RangeDecomposition_optimal b est n = Ret d ->
  exists s, RangeDecomposition_proof_size b d = Ret s /\ 3 * N.log2 n <= s + 1 /\ 2 * s + 1 <= 9 * N.log2 n.
Proof.
  intros b est n d Hn He H. destruct (C20_minimal b est n d Hn He H) as [Hs Hmin]. exists (proof_length d). split; [exact Hs|].
  apply proof_length_bounds; [exact (optimal_valid b est n d Hn H)|]. intros d' Hd'. destruct (Hmin d' Hd') as [Hlt|[Heq _]]; lia.
Qed.
Print Assumptions C85_logarithmic.

(** ** Accepted proofs have exactly the documented size *)
Theorem C85_range_proofs :
  forall (E : Env) (L : GroupLaws E) (p : RangeProof E) (K : PublicKey E) est n d pr ct t t',
    n + 4 < 2 ^ 64 -> valid_estimate est n ->
    RangeDecomposition_optimal (env_build E) est n = Ret d -> PreparedRange_new d = Ret pr ->
    RangeProof_verify p K pr ct t = Ret (Ok tt, t') ->
    RangeDecomposition_proof_size (env_build E) d = Ret (N.of_nat (range_size p)).
Proof.
  intros E L p K est n d pr ct t t' Hn He H Hpr Hver.
  destruct (C20_minimal _ est n d Hn He H) as [Hs _]. rewrite Hs. f_equal.
  destruct (C23_wrong_lengths E L p K est n d pr ct t _ t' Hn H Hpr Hver) as [W1 W2].
  destruct (Nat.eq_dec (List.length (rap_partial p) + 1) (List.length d)) as [H1|H1]; [|discriminate (W1 H1)].
  destruct (Nat.eq_dec (List.length (rp_responses (rap_inner p))) (N.to_nat (n_sum (map rs_size d)))) as [H2|H2]; [|discriminate (W2 H1 H2)].
  unfold proof_length, range_size, ring_scalars. lia.
Qed.
Print Assumptions C85_range_proofs.

Lemma concat_length {A B : Type} (l : list (list A)) (l' : list (list B)) :
  map (@List.length A) l = map (@List.length B) l' -> List.length (List.concat l) = List.length (List.concat l').
Proof.
  revert l'. induction l as [|x l IH]; intros [|y l'] H; try discriminate; [reflexivity|]. injection H as H1 H2.
  cbn [List.concat]. rewrite !app_length, H1, (IH l' H2). reflexivity.
Qed.

Lemma sq_flat_length {E : Env} (rs : list (Scalar E * Scalar E)) : List.length (sq_flat rs) = (2 * List.length rs)%nat.
Proof. unfold sq_flat. induction rs as [|[x y] rs IH]; [reflexivity|]. cbn [flat_map List.length app]. rewrite IH. lia. Qed.

(** rings: a scalar per value and one more; possession: one per key and one more; sums of squares of [n] values: [2 n + 2] *)
Theorem C85_other_proofs :
  forall (E : Env) (L : GroupLaws E) (K : PublicKey E) t t',
    (forall (p : RingProof E) vals cts, RingProof_verify p K vals cts t = Ret (Ok tt, t') ->
       ring_scalars p = (1 + List.length (List.concat vals))%nat) /\
    (forall (p : ProofOfPossession E) keys, ProofOfPossession_verify p keys t = Ret (Ok tt, t') ->
       pop_scalars p = (1 + List.length keys)%nat) /\
    (forall (p : SumOfSquaresProof E) cs z, SumOfSquaresProof_verify p cs z K t = Ret (Ok tt, t') ->
       sq_scalars p = (2 * List.length cs + 2)%nat).
Proof.
  intros E L K t t'. split; [|split].
  - intros p vals cts H. apply (C15_accepts_iff E L) in H. destruct H as (rss & Ts & q & H1 & H2 & _).
    unfold ring_scalars. rewrite H1, (concat_length _ _ H2). reflexivity.
  - intros p keys H. apply (C13_accepts_iff E L) in H. destruct H as (xs & bs & [H1 _] & _).
    unfold pop_scalars. rewrite H1, map_length. reflexivity.
  - intros p cs z H. apply (C25_accepts_iff E L) in H. destruct H as (rs & As & Z & q & H1 & [H2 _] & _).
    unfold sq_scalars. rewrite H1, sq_flat_length, H2. lia.
Qed.
Print Assumptions C85_other_proofs.

(** ** Ballots *)

(** [n] ciphertexts and [2 n + 1] scalars *)
Theorem C85_choices :
  forall (E : Env) (L : GroupLaws E) (K : PublicKey E) n,
    (forall params (e : EncryptedChoice SingleChoice) cts, ChoiceParams_single K n = Ret params ->
       EncryptedChoice_verify e params = Ret (Ok cts) ->
       List.length (ec_choices e) = n /\ ring_scalars (ec_range_proof e) = (2 * n + 1)%nat) /\
    (forall params (e : EncryptedChoice MultiChoice) cts, ChoiceParams_multi K n = Ret params ->
       EncryptedChoice_verify e params = Ret (Ok cts) ->
       List.length (ec_choices e) = n /\ ring_scalars (ec_range_proof e) = (2 * n + 1)%nat).
Proof.
  intros E L K n.
  assert (Hr : forall (p : RingProof E) cts t t', RingProof_verify p K (repeat [identity; generator] n) cts t = Ret (Ok tt, t') ->
    ring_scalars p = (2 * n + 1)%nat).
  { intros p cts t t' H. rewrite (proj1 (C85_other_proofs E L K t t') p _ _ H). clear.
    induction n as [|n IH]; [reflexivity|]. cbn [repeat List.concat app List.length]. lia. }
  split; intros params e cts Hp H.
  - apply (proj1 (C42_accepts_iff E L K n) params e cts Hp) in H. destruct H as (_ & H1 & _ & t & H2). split; [exact H1|exact (Hr _ _ _ _ H2)].
  - apply (proj2 (C42_accepts_iff E L K n) params e cts Hp) in H. destruct H as (_ & H1 & t & H2). split; [exact H1|exact (Hr _ _ _ _ H2)].
Qed.
Print Assumptions C85_choices.

(** the ranges of parameters are the optimal ones *)
Lemma qv_ranges (E : Env) (L : GroupLaws E) (K : PublicKey E) options credits m p : credits + 65 < 2 ^ 64 -> qv_params K options credits m p ->
  (m + 65 < 2 ^ 64 /\ exists d, RangeDecomposition_optimal (env_build E) (@len_estimate E) (m + 1) = Ret d /\ PreparedRange_new (E:=E) d = Ret (qv_vote_count_range p)) /\
  (exists d, RangeDecomposition_optimal (env_build E) (@len_estimate E) (credits + 1) = Ret d /\ PreparedRange_new (E:=E) d = Ret (qv_credit_range p)).
Proof.
  intros Hc H. induction H as [p m H H1 H2|p m m' p' H IH Hm H'].
  - unfold QuadraticVotingParams_new in H. inv_bind H. inv_bind H.
    destruct (isqrt_ok (env_build E) credits) as (k & Hk & K1 & K2); [unfold u64_lim; lia|]. rewrite Hk in H. cbn [bind] in H.
    assert (k = m) by nia. subst k. assert (Hmc : m <= credits) by nia.
    rewrite u64_add_ok in H by (unfold u64_lim; lia). cbn [bind] in H. inv_bind H.
    rewrite u64_add_ok in H by (unfold u64_lim; lia). cbn [bind] in H. inv_bind H. inv_bind H. inv_bind H. injection H as <-.
    cbn [qv_vote_count_range qv_credit_range]. split; [split; [lia|]|]; eauto.
  - destruct IH as [_ IH]. unfold QuadraticVotingParams_set_max_votes in H'. inv_bind H'. inv_bind H'. inv_bind H'.
    rewrite u64_add_ok in H' by (unfold u64_lim; lia). cbn [bind] in H'. inv_bind H'. injection H' as <-.
    cbn [qv_vote_count_range qv_credit_range]. split; [split; [exact Hm|]|exact IH]. unfold optimal_range in Hm3. inv_bind Hm3. eauto.
Qed.

Lemma Ret_inj {A : Type} (x y : A) : Ret x = Ret y -> x = y.
Proof. congruence. Qed.

(** votes and credit with their range proofs, and the sum-of-squares proof *)
Theorem C85_quadratic :
  forall (E : Env) (L : GroupLaws E) (K : PublicKey E) options credits m p,
    (forall n, n < 2 ^ 64 -> valid_estimate (@len_estimate E) n) ->
    credits + 65 < 2 ^ 64 -> qv_params K options credits m p ->
  exists sv sc,
    2 * sv + 1 <= 9 * N.log2 (m + 1) /\ 2 * sc + 1 <= 9 * N.log2 (credits + 1) /\
    forall ballot cts, QuadraticVotingBallot_verify ballot p = Ret (Ok cts) ->
      N.of_nat (quadratic_size ballot) = N.of_nat options * (sv + 4) + sc + 4.
Proof.
  intros E L K options credits m p He Hc Hp. destruct (C44_set_max_votes E L K options credits m p Hc Hp) as (_ & _ & Ho & Hrec).
  destruct (qv_ranges E L K options credits m p Hc Hp) as [(Hm & dv & V1 & V2) (dc & C1 & C2)].
  destruct (C85_logarithmic _ _ (m + 1) dv ltac:(lia) (He (m + 1) ltac:(lia)) V1) as (sv & Sv & _ & Lv).
  destruct (C85_logarithmic _ _ (credits + 1) dc ltac:(lia) (He (credits + 1) ltac:(lia)) C1) as (sc & Sc & _ & Lc).
  exists sv, sc. split; [exact Lv|]. split; [exact Lc|]. intros ballot cts H. apply C47_accepts_iff in H. destruct H as (_ & H1 & H2 & [t3 H3] & [t4 H4]).
  unfold quadratic_size. rewrite (proj2 (proj2 (C85_other_proofs E L _ _ _)) _ _ _ H4), map_length, H1, Ho.
  pose proof (C85_range_proofs E L _ _ _ (credits + 1) dc _ _ _ _ ltac:(lia) (He (credits + 1) ltac:(lia)) C1 C2 H3) as R3. rewrite Sc in R3. apply Ret_inj in R3.
  assert (Hv : N.of_nat (fold_right Nat.add 0%nat (map crp_size (qb_votes ballot))) = N.of_nat (List.length (qb_votes ballot)) * (2 + sv)).
  { clear H1 H3 H4. induction (qb_votes ballot) as [|v vs IH]; [reflexivity|]. cbn [map fold_right List.length].
    destruct (H2 v (or_introl eq_refl)) as [t Hv].
    pose proof (C85_range_proofs E L _ _ _ (m + 1) dv _ _ _ _ ltac:(lia) (He (m + 1) ltac:(lia)) V1 V2 Hv) as R. rewrite Sv in R. apply Ret_inj in R.
    specialize (IH (fun v Hin => H2 v (or_intror Hin))). rewrite Nat2N.inj_succ, N.mul_succ_l, <- IH, Nat2N.inj_add.
    change (crp_size v) with (2 + range_size (crp_range_proof v))%nat. lia. }
  rewrite H1, Ho in Hv. change (crp_size (qb_credit ballot)) with (2 + range_size (crp_range_proof (qb_credit ballot)))%nat. lia.
Qed.
Print Assumptions C85_quadratic.

(** the table in the documentation: sizes of proofs for some ranges; and a ballot of 3 options and 20 credits *)
Example C85_example :
  map (fun n => match RangeDecomposition_optimal debug_build int_lower_len_estimate n with Ret d => RangeDecomposition_proof_size debug_build d | Panic k => Panic k end)
      [5; 10; 20; 50; 64; 100; 256; 1000]
  = map (fun s => Ret s) [6; 10; 12; 17; 17; 19; 23; 30] /\
  (forall n, valid_estimate int_lower_len_estimate n) /\ (exists m p, qv_params ex_key 3 20 m p).
Proof. split; [vm_compute; reflexivity|]. split; [exact int_estimate_valid|]. exact (proj1 (proj2 (proj2 (proj2 (proj2 C45_example))))). Qed.
