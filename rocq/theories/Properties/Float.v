(** * C67: the floating-point estimate used by builds with [std] is valid *)
From Coq Require Import List NArith ZArith Lia Bool.
From Coq.Floats Require Import SpecFloat.
From Verif.Model Require Import Base Range Float.
From Verif.Spec Require Import Range Float.
From Verif.Proofs Require Import Range Float.
From Verif.Properties Require Import Range.
Import ListNotations.
Open Scope N_scope.

(** [lower_len_estimate] of builds with [std] never exceeds the length of a decomposition of the documented form,
    for all [u64] bounds, if the mathematical library's [log2] is accurate to 1/100 and does not overshoot the logarithms of
    powers of two. *)
Theorem C67_std_estimate_valid :
  forall log2 n, log2_accurate log2 -> n < 2 ^ 64 -> valid_estimate (std_lower_len_estimate log2) n.
Proof. exact std_valid. Qed.
Print Assumptions C67_std_estimate_valid.

(** Hence [RangeDecomposition::optimal] returns, and returns what builds without [std] return. *)
Theorem C67_same_as_no_std :
  forall log2 b b' n, log2_accurate log2 -> 2 <= n -> n + 4 < 2 ^ 64 ->
    exists d, RangeDecomposition_optimal b (std_lower_len_estimate log2) n = Ret d /\
      RangeDecomposition_optimal b' int_lower_len_estimate n = Ret d.
Proof.
  intros log2 b b' n L H2 Hn. assert (Hv : valid_estimate (std_lower_len_estimate log2) n) by (apply std_valid; [exact L|lia]).
  destruct (proj1 (C18_optimal_total b (std_lower_len_estimate log2) n Hn) H2 Hv) as [d Hd]. exists d. split; [exact Hd|].
  rewrite <- (C20_estimate_irrelevant b b' _ _ n H2 Hn Hv (C20_int_estimate_valid n)). exact Hd.
Qed.
Print Assumptions C67_same_as_no_std.

(** It is a shortest decomposition of the documented form. *)
Theorem C67_std_minimal :
  forall log2 b n d, log2_accurate log2 -> n + 4 < 2 ^ 64 ->
    RangeDecomposition_optimal b (std_lower_len_estimate log2) n = Ret d ->
    doc_form n d /\ forall d', doc_form n d' ->
      proof_length d < proof_length d' \/ (proof_length d = proof_length d' /\ (List.length d <= List.length d')%nat).
Proof.
  intros log2 b n d L Hn H. split; [exact (optimal_valid b _ n d Hn H)|].
  apply (C20_minimal b (std_lower_len_estimate log2) n d Hn); [apply std_valid; [exact L|lia]|exact H].
Qed.
Print Assumptions C67_std_minimal.

(** *** The hypotheses can be met: the logarithm rounded down to a multiple of 1/64 *)
Open Scope Z_scope.
Definition floor_log2 (x : spec_float) : spec_float :=
  match x with
  | S754_finite false m e =>
      let l := Z.log2 ((numerator m e / denominator e) ^ 64) in
      if l <? 2 ^ 52 then
        match u64_as_f64 (Z.to_N l) with
        | S754_finite s m e => S754_finite s m (e - 6)
        | y => y
        end
      else S754_zero false
  | _ => S754_zero false
  end.

Lemma floor_log2_spec : forall x v, f64_integer x v ->
  floor_log2 x = S754_zero false \/
  exists m e, floor_log2 x = S754_finite false m e /\ 64 * numerator m e <= Z.log2 (v ^ 64) * denominator e.
Proof.
  intros x v (m & e & -> & _ & Hv & Hn). unfold floor_log2.
  assert (Hd : 0 < denominator e) by (unfold denominator; apply Z.pow_pos_nonneg; lia).
  rewrite Hn, Z.div_mul by lia. set (l := Z.log2 (v ^ 64)). pose proof (Z.log2_nonneg (v ^ 64)) as Hl. fold l in Hl.
  destruct (Z.ltb_spec l (2 ^ 52)) as [Hlt|]; [|left; reflexivity].
  destruct (Z.eq_dec l 0) as [H0|H0]; [left; rewrite H0; reflexivity|].
  destruct (convert (Z.to_N l) ltac:(lia)) as (v' & (m' & e' & -> & _ & _ & Hn') & Hle & _). right.
  exists m', (e' - 6). split; [reflexivity|]. rewrite Z2N.id in Hle by lia. assert (Hv' : v' <= l) by nia. clear Hle.
  assert (Hd' : 0 < denominator e') by (unfold denominator; apply Z.pow_pos_nonneg; lia).
  apply Z.le_trans with (v' * denominator (e' - 6)).
  2: apply Z.mul_le_mono_nonneg_r; [unfold denominator; apply Z.pow_nonneg; lia|exact Hv'].
  apply Z.eq_le_incl. unfold numerator, denominator in *.
  destruct (Z.le_gt_cases 6 e').
  - rewrite Z.max_l in * by lia. rewrite (Z.max_r (- e') 0) in Hn' by lia. rewrite (Z.max_r (- (e' - 6)) 0) by lia.
    replace e' with (6 + (e' - 6)) in Hn' by lia. rewrite Z.pow_add_r in Hn' by lia. lia.
  - rewrite (Z.max_r (e' - 6) 0), (Z.max_l (- (e' - 6)) 0) by lia. destruct (Z.le_gt_cases 0 e').
    + rewrite (Z.max_l e' 0), (Z.max_r (- e') 0) in Hn' by lia.
      assert (H64 : 64 = 2 ^ e' * 2 ^ (- (e' - 6))) by (rewrite <- Z.pow_add_r by lia; replace (e' + - (e' - 6)) with 6 by lia; reflexivity).
      rewrite Z.pow_0_r, Z.mul_1_r in *. rewrite H64, <- Hn'. lia.
    + rewrite (Z.max_r e' 0), (Z.max_l (- e') 0) in Hn' by lia. replace (- (e' - 6)) with (6 + - e') by lia.
      rewrite Z.pow_add_r by lia. lia.
Qed.

Example C67_example_log2 : log2_accurate floor_log2.
Proof.
  split.
  - intros x v H. destruct (floor_log2_spec x v H) as [->|(m & e & -> & _)]; exact I.
  - intros x v H m e He. destruct (floor_log2_spec x v H) as [H0|(m' & e' & H' & Hle)]; [rewrite H0 in He; discriminate|].
    rewrite He in H'. injection H' as <- <-. destruct H as (_ & _ & _ & _ & Hv & _).
    assert (Hd : 0 < denominator e) by (unfold denominator; apply Z.pow_pos_nonneg; lia).
    assert (Hn : 0 <= numerator m e) by (unfold numerator; apply Z.mul_nonneg_nonneg; [lia|apply Z.pow_nonneg; lia]).
    set (n' := numerator m e) in *. set (D := denominator e) in *. clearbody n' D.
    assert (Hv64 : 0 < v ^ 64) by (apply Z.pow_pos_nonneg; lia). pose proof (Z.log2_spec _ Hv64) as [Hl _].
    set (l := Z.log2 (v ^ 64)) in *. assert (Hl0 : 0 <= l) by apply Z.log2_nonneg.
    assert (Hroot : 2 ^ (100 * n') <= v ^ (100 * D)).
    { assert (0 <= v ^ (100 * D)) by (apply Z.pow_nonneg; lia). destruct (Z.le_gt_cases (2 ^ (100 * n')) (v ^ (100 * D))) as [?|Hgt]; [assumption|exfalso].
      apply (fun Hx => Z.pow_lt_mono_l _ _ 64 ltac:(lia) (conj H Hx)) in Hgt. revert Hgt. apply Z.le_ngt.
      rewrite <- !Z.pow_mul_r by lia. apply Z.le_trans with (2 ^ (l * (100 * D))); [apply Z.pow_le_mono_r; lia|].
      rewrite (Z.pow_mul_r 2) by lia. replace (100 * D * 64) with (64 * (100 * D)) by lia. rewrite (Z.pow_mul_r v) by lia.
      apply Z.pow_le_mono_l. split; [apply Z.pow_nonneg; lia|exact Hl]. }
    assert (0 < 2 ^ D) by (apply Z.pow_pos_nonneg; lia). assert (0 <= v ^ (100 * D)) by (apply Z.pow_nonneg; lia). nia.
  - intros x v k H Hk Hvk m e He. destruct (floor_log2_spec x v H) as [H0|(m' & e' & H' & Hle)]; [rewrite H0 in He; discriminate|].
    rewrite He in H'. injection H' as <- <-. destruct H as (_ & _ & _ & _ & Hv & _).
    assert (Hl : Z.log2 (v ^ 64) <= 64 * k).
    { rewrite <- (Z.log2_pow2 (64 * k)) by lia. apply Z.log2_le_mono. replace (64 * k) with (k * 64) by lia. rewrite Z.pow_mul_r by lia.
      apply Z.pow_le_mono_l. lia. }
    assert (Hd : 0 < denominator e) by (unfold denominator; apply Z.pow_pos_nonneg; lia). nia.
Qed.

(** the estimates this gives are those of the real logarithm up to rounding: [3 * log2 21 = 13.18], [3 * log2 (2^64 - 1)] *)
Example C67_example_values :
  map (fun n => std_lower_len_estimate floor_log2 n) [2; 3; 4; 21; 1000; 2 ^ 64 - 1]%N = [3; 5; 6; 14; 30; 192]%N.
Proof. vm_compute. reflexivity. Qed.

(** conversions round to nearest, ties to even *)
Example C67_example_f64 :
  u64_as_f64 21 = S754_finite false (21 * 2 ^ 48) (-48) /\
  u64_as_f64 (2 ^ 53 + 1) = S754_finite false (2 ^ 52) 1 /\
  u64_as_f64 (2 ^ 53 + 3) = S754_finite false (2 ^ 52 + 2) 1 /\
  u64_as_f64 (2 ^ 64 - 1) = S754_finite false (2 ^ 52) 12 /\
  f64_mul (u64_as_f64 7) f64_three = u64_as_f64 21.
Proof. repeat split; vm_compute; reflexivity. Qed.

(** *** The requirement on powers of two is needed

    The documentation of [f64::log2] leaves its precision unspecified.  A result for 4.0 that is too large by one unit
    in the last place makes the debug assertion of [optimize] fail. *)
Definition log2_one_ulp_off (x : spec_float) : spec_float :=
  match x with
  | S754_finite false m e => if (m =? 2 ^ 52)%positive && (e =? -50) then S754_finite false (2 ^ 52 + 1) (-51) else floor_log2 x
  | _ => floor_log2 x
  end.

Theorem C67_ulp_refuted :
  ~ (forall log2 b n,
      (forall x v, f64_integer x v -> finite (log2 x)) -> (forall x v, f64_integer x v -> at_most_log2 (log2 x) v) ->
      (2 <= n)%N -> (n + 4 < 2 ^ 64)%N ->
      exists d, RangeDecomposition_optimal b (std_lower_len_estimate log2) n = Ret d).
Proof.
  intros H. destruct (H log2_one_ulp_off dbg 4%N) as [d Hd].
  - intros x v Hx. destruct C67_example_log2 as [Hf _ _]. specialize (Hf x v Hx). destruct x as [s|s| |s m e]; try exact Hf.
    destruct s; [exact Hf|]. unfold log2_one_ulp_off. destruct ((m =? 2 ^ 52)%positive && (e =? -50)); [exact I|exact Hf].
  - intros x v Hx. destruct C67_example_log2 as [_ Hf _]. specialize (Hf x v Hx). destruct x as [s|s| |s m e]; try exact Hf.
    destruct s; [exact Hf|]. unfold log2_one_ulp_off. destruct ((m =? 2 ^ 52)%positive && (e =? -50)) eqn:He; [|exact Hf].
    apply andb_prop in He. destruct He as [Hm He]. apply Pos.eqb_eq in Hm. apply Z.eqb_eq in He. subst m e.
    destruct Hx as (m & e & Hx & _ & Hv & Hn). injection Hx as <- <-. clear Hf. intros m e Hx. injection Hx as <- <-.
    assert (v = 4).
    { unfold numerator, denominator in Hn. change (Z.max (-50) 0) with 0 in Hn. change (Z.max (- -50) 0) with 50 in Hn.
      change (2 ^ 0) with 1 in Hn. change (2 ^ 50) with 1125899906842624 in Hn. change (Zpos (2 ^ 52)) with 4503599627370496 in Hn. lia. }
    subst v. unfold numerator, denominator. change (Z.max (-51) 0) with 0. change (Z.max (- -51) 0) with 51.
    match goal with |- 2 ^ (100 * ?n) <= _ => change n with (2 * 2 ^ 51 + 1) end. set (D := 2 ^ 51). assert (HD : 100 < D) by reflexivity. clearbody D.
    change 4 with (2 ^ 2). rewrite <- Z.pow_mul_r, <- Z.pow_add_r by lia. apply Z.pow_le_mono_r; lia.
  - lia.
  - reflexivity.
  - vm_compute in Hd. discriminate.
Qed.
Print Assumptions C67_ulp_refuted.
