(** * Proofs for the floating-point estimate *)
From Coq Require Import List NArith ZArith Bool Lia.
From Coq.Floats Require Import SpecFloat.
From Verif.Model Require Import Base Range Float.
From Verif.Spec Require Import Range Float.
From Verif.Proofs Require Import Range.
Import ListNotations.
Open Scope Z_scope.

(** ** Digits and shifts *)
Lemma digits_bound : forall p, 2 ^ (Zpos (digits2_pos p) - 1) <= Zpos p < 2 ^ Zpos (digits2_pos p).
Proof.
  induction p as [p IH|p IH|]; cbn [digits2_pos]; [| |vm_compute; split; [discriminate|reflexivity]];
    rewrite Pos2Z.inj_succ; replace (Z.succ (Zpos (digits2_pos p)) - 1) with (Z.succ (Zpos (digits2_pos p) - 1)) by lia;
    rewrite !Z.pow_succ_r by lia; lia.
Qed.

Lemma digits_unique : forall p d, 2 ^ (d - 1) <= Zpos p < 2 ^ d -> 0 < d -> Zpos (digits2_pos p) = d.
Proof.
  intros p d [H1 H2] Hd. pose proof (digits_bound p) as [H3 H4].
  assert (Zpos (digits2_pos p) - 1 < d) by (apply (Z.pow_lt_mono_r_iff 2); lia).
  assert (d - 1 < Zpos (digits2_pos p)) by (apply (Z.pow_lt_mono_r_iff 2); lia). lia.
Qed.

Lemma shr_1_spec : forall mrs, 0 <= shr_m mrs ->
  shr_m (shr_1 mrs) = shr_m mrs / 2 /\
  (shr_r mrs = false -> shr_s mrs = false -> shr_m mrs mod 2 = 0 -> shr_r (shr_1 mrs) = false /\ shr_s (shr_1 mrs) = false).
Proof.
  intros [m r s] Hm. cbn [shr_m shr_r shr_s] in *. destruct m as [|[p|p|]|p]; [cbn| | | |lia]; (split; [|intros -> -> H]).
  - reflexivity.
  - auto.
  - cbn [shr_1 shr_m]. replace (Zpos p~1) with (1 + Zpos p * 2) by lia. rewrite Z.div_add by lia. reflexivity.
  - exfalso. replace (Zpos p~1) with (1 + Zpos p * 2) in H by lia. rewrite Z.mod_add in H by lia. discriminate H.
  - cbn [shr_1 shr_m]. replace (Zpos p~0) with (Zpos p * 2) by lia. rewrite Z.div_mul by lia. reflexivity.
  - cbn. auto.
  - reflexivity.
  - discriminate H.
Qed.

Lemma iter_pos_nat : forall (A : Type) (f : A -> A) p x, iter_pos f p x = Nat.iter (Pos.to_nat p) f x.
Proof.
  intros A f. assert (Hadd : forall n k x, Nat.iter (n + k) f x = Nat.iter n f (Nat.iter k f x)).
  { induction n as [|n IH]; intros k x; cbn; [reflexivity|]. f_equal. apply IH. }
  induction p as [p IH|p IH|]; intros x; cbn [iter_pos].
  - rewrite !IH. replace (Pos.to_nat p~1) with (Pos.to_nat p + (Pos.to_nat p + 1))%nat by lia. rewrite !Hadd. reflexivity.
  - rewrite !IH. replace (Pos.to_nat p~0) with (Pos.to_nat p + Pos.to_nat p)%nat by lia. rewrite Hadd. reflexivity.
  - reflexivity.
Qed.

Lemma shr_iter : forall n m, 0 <= m ->
  let r := Nat.iter n shr_1 (Build_shr_record m false false) in
  shr_m r = m / 2 ^ Z.of_nat n /\ (m mod 2 ^ Z.of_nat n = 0 -> shr_r r = false /\ shr_s r = false).
Proof.
  intros n m Hm. cbv zeta. induction n as [|n [IH1 IH2]].
  - cbn [Nat.iter shr_m shr_r shr_s]. rewrite Z.div_1_r. auto.
  - assert (Hp : 0 < 2 ^ Z.of_nat n) by (apply Z.pow_pos_nonneg; lia).
    rewrite Nat2Z.inj_succ, Z.pow_succ_r by lia. cbn [Nat.iter nat_rect]. fold (Nat.iter n shr_1 (Build_shr_record m false false)).
    set (r := Nat.iter n shr_1 (Build_shr_record m false false)) in *.
    assert (H0 : 0 <= shr_m r) by (rewrite IH1; apply Z.div_pos; lia).
    destruct (shr_1_spec r H0) as [H1 H2]. split.
    + rewrite H1, IH1, Z.div_div by lia. f_equal. lia.
    + intros Hd. replace (2 * 2 ^ Z.of_nat n) with (2 ^ Z.of_nat n * 2) in Hd by lia. rewrite Z.rem_mul_r in Hd by lia.
      pose proof (Z.mod_pos_bound m (2 ^ Z.of_nat n) Hp). pose proof (Z.mod_pos_bound (m / 2 ^ Z.of_nat n) 2 ltac:(lia)).
      destruct (IH2 ltac:(nia)) as [Hr Hs]. apply H2; auto. rewrite IH1. nia.
Qed.

(** ** Rounding never passes a representable upper bound *)
Lemma shr_spec : forall m e n, 0 <= m ->
  let '(r, e') := shr (Build_shr_record m false false) e n in
  e' = e + Z.max n 0 /\ shr_m r = m / 2 ^ Z.max n 0 /\
  (m mod 2 ^ Z.max n 0 = 0 -> loc_of_shr_record r = loc_Exact).
Proof.
  intros m e n Hm. destruct n as [|p|p]; cbn [shr].
  - cbn. rewrite Z.div_1_r, Z.add_0_r. auto.
  - rewrite iter_pos_nat. destruct (shr_iter (Pos.to_nat p) m Hm) as [H1 H2]. rewrite positive_nat_Z in H1, H2.
    rewrite Z.max_l by lia. split; [reflexivity|]. split; [exact H1|]. intros Hd. destruct (H2 Hd) as [Hr Hs].
    destruct (Nat.iter _ _ _) as [m' r s]. cbn in Hr, Hs. subst. reflexivity.
  - rewrite Z.max_r by lia. cbn. rewrite Z.div_1_r, Z.add_0_r. auto.
Qed.

Lemma round_up_bound : forall m l, m <= round_nearest_even m l <= m + 1 /\ (l = loc_Exact -> round_nearest_even m l = m).
Proof.
  intros m l. split; [|intros ->; reflexivity]. destruct l as [|[| |]]; cbn; [|destruct (Z.even m)| |]; lia.
Qed.

(** The rounded mantissa of [m / 2^k] is at most any integer that is at least [m / 2^k]. *)
Lemma rounded_le : forall m e n, 0 <= m ->
  let '(r, e') := shr (Build_shr_record m false false) e n in
  forall B, m <= B * 2 ^ Z.max n 0 -> round_nearest_even (shr_m r) (loc_of_shr_record r) <= B.
Proof.
  intros m e n Hm. pose proof (shr_spec m e n Hm) as H. destruct (shr _ e n) as [r e']. destruct H as (_ & Hq & Hx).
  intros B HB. set (P := 2 ^ Z.max n 0) in *. assert (HP : 0 < P) by (apply Z.pow_pos_nonneg; lia).
  destruct (round_up_bound (shr_m r) (loc_of_shr_record r)) as [Hr He].
  assert (Hqb : m / P <= B) by (apply Z.div_le_upper_bound; lia).
  destruct (Z.eq_dec (m / P) B) as [Heq|Hne]; [|lia].
  assert (Hz : m mod P = 0).
  { pose proof (Z.div_mod m P ltac:(lia)). pose proof (Z.mod_pos_bound m P HP). nia. }
  rewrite (He (Hx Hz)). lia.
Qed.

(** [value (m, e) <= c] as integers, for a common scale *)
Lemma scale_le : forall m e c, numerator m e <= c * denominator e <-> forall K, 0 <= K -> 0 <= e + K -> Zpos m * 2 ^ (e + K) <= c * 2 ^ K.
Proof.
  intros m e c. unfold numerator, denominator. split.
  - intros H K HK HeK. destruct (Z.le_ge_cases 0 e) as [He|He].
    + rewrite Z.max_l, Z.max_r in H by lia. rewrite Z.pow_add_r by lia. rewrite Z.pow_0_r in H.
      rewrite Z.mul_assoc. apply Z.mul_le_mono_nonneg_r; [apply Z.pow_nonneg; lia|lia].
    + rewrite Z.max_r, Z.max_l in H by lia. replace (2 ^ K) with (2 ^ (- e) * 2 ^ (e + K)) by (rewrite <- Z.pow_add_r by lia; f_equal; lia).
      rewrite Z.pow_0_r in H. rewrite Z.mul_assoc. apply Z.mul_le_mono_nonneg_r; [apply Z.pow_nonneg; lia|lia].
  - intros H. destruct (Z.le_ge_cases 0 e) as [He|He].
    + specialize (H 0 ltac:(lia) ltac:(lia)). rewrite Z.max_l, Z.max_r by lia. rewrite Z.add_0_r in H. exact H.
    + specialize (H (- e) ltac:(lia) ltac:(lia)). rewrite Z.max_r, Z.max_l by lia. rewrite Z.add_opp_diag_r in H. exact H.
Qed.

Lemma pow_pos : forall k, 0 <= k -> 0 < 2 ^ k.
Proof. intros k Hk. apply Z.pow_pos_nonneg; lia. Qed.

(** Rounding a positive number that is at most the integer [c < 2^53] gives a finite number that is at most [c]. *)
Lemma round_aux_le : forall m e c, 0 < c < 2 ^ 53 -> numerator m e <= c * denominator e ->
  (exists s, binary_round_aux f64_prec f64_emax false (Zpos m) e loc_Exact = S754_zero s) \/
  (exists m' e', binary_round_aux f64_prec f64_emax false (Zpos m) e loc_Exact = S754_finite false m' e' /\
                 numerator m' e' <= c * denominator e').
Proof.
  intros m e c Hc Hv. pose proof (proj1 (scale_le m e c) Hv) as Hs. clear Hv. pose proof (digits_bound m) as [Hd1 Hd2].
  unfold binary_round_aux, shr_fexp. cbn [shr_record_of_loc Zdigits2].
  set (d := Zpos (digits2_pos m)) in *. set (n := fexp f64_prec f64_emax (d + e) - e).
  pose proof (shr_spec (Zpos m) e n ltac:(lia)) as H1. pose proof (rounded_le (Zpos m) e n ltac:(lia)) as H2.
  destruct (shr _ e n) as [r e1]. destruct H1 as (He1 & Hq & _).
  set (q := round_nearest_even (shr_m r) (loc_of_shr_record r)) in *.
  (* the unit 2^e1 divides c *)
  assert (Hu : n <= 0 \/ e1 <= 0).
  { destruct (Z.le_gt_cases n 0) as [|Hn]; [auto|right]. rewrite He1, Z.max_l by lia. unfold n, fexp, f64_prec, f64_emax, emin in *.
    assert (d + e - 1 < 53).
    { destruct (Z.lt_ge_cases (d + e - 1) 53) as [|Hge]; [assumption|exfalso].
      specialize (Hs (Z.max 0 (- e)) ltac:(lia) ltac:(lia)). set (K := Z.max 0 (- e)) in *.
      assert (2 ^ (53 + K) <= Zpos m * 2 ^ (e + K)).
      { apply Z.le_trans with (2 ^ (d - 1) * 2 ^ (e + K)).
        - rewrite <- Z.pow_add_r by lia. apply Z.pow_le_mono_r; lia.
        - apply Z.mul_le_mono_nonneg_r; [apply Z.pow_nonneg; lia|lia]. }
      rewrite Z.pow_add_r in H by lia. pose proof (pow_pos K ltac:(lia)).
      assert (c * 2 ^ K < 2 ^ 53 * 2 ^ K) by (apply Z.mul_lt_mono_pos_r; lia). lia. }
    lia. }
  assert (Hqc : forall K, 0 <= K -> 0 <= e1 + K -> q * 2 ^ (e1 + K) <= c * 2 ^ K).
  { destruct (Z.le_gt_cases n 0) as [Hn|Hn].
    - rewrite Z.max_r in He1, H2 by lia. rewrite Z.add_0_r in He1. subst e1. specialize (H2 (Zpos m) ltac:(lia)).
      intros K HK HeK. eapply Z.le_trans; [|apply (Hs K HK HeK)]. apply Z.mul_le_mono_nonneg_r; [apply Z.pow_nonneg; lia|exact H2].
    - destruct Hu as [Hu|Hu]; [lia|]. rewrite Z.max_l in He1, H2 by lia.
      assert (Hq1 : q <= c * 2 ^ (- e1)).
      { apply H2. rewrite <- Z.mul_assoc, <- Z.pow_add_r by lia. replace (- e1 + n) with (- e) by lia.
        specialize (Hs (- e) ltac:(lia) ltac:(lia)). rewrite Z.add_opp_diag_r in Hs. lia. }
      intros K HK HeK. replace (2 ^ K) with (2 ^ (- e1) * 2 ^ (e1 + K)) by (rewrite <- Z.pow_add_r by lia; f_equal; lia).
      rewrite Z.mul_assoc. apply Z.mul_le_mono_nonneg_r; [apply Z.pow_nonneg; lia|exact Hq1]. }
  assert (Hq0 : 0 <= q).
  { destruct (round_up_bound (shr_m r) (loc_of_shr_record r)) as [[Hl _] _]. fold q in Hl. rewrite Hq in Hl.
    pose proof (Z.div_pos (Zpos m) (2 ^ Z.max n 0) ltac:(lia) (pow_pos (Z.max n 0) ltac:(lia))). lia. }
  set (n2 := fexp f64_prec f64_emax (Zdigits2 q + e1) - e1).
  pose proof (shr_spec q e1 n2 Hq0) as H3. destruct (shr _ e1 n2) as [r2 e2]. destruct H3 as (He2 & Hq2 & _).
  assert (Hfin : forall K, 0 <= K -> 0 <= e1 + K -> 0 <= e2 + K -> shr_m r2 * 2 ^ (e2 + K) <= c * 2 ^ K).
  { intros K HK HK1 HK2. eapply Z.le_trans; [|apply (Hqc K HK HK1)]. rewrite Hq2, He2.
    replace (e1 + Z.max n2 0 + K) with (Z.max n2 0 + (e1 + K)) by lia. rewrite Z.pow_add_r, Z.mul_assoc by lia.
    apply Z.mul_le_mono_nonneg_r; [apply Z.pow_nonneg; lia|]. rewrite Z.mul_comm. apply Z.mul_div_le. apply pow_pos. lia. }
  assert (Hpos : 0 <= shr_m r2) by (rewrite Hq2; apply Z.div_pos; [lia|apply pow_pos; lia]).
  destruct (shr_m r2) as [|m2|m2]; [left; eauto| |lia]. right.
  assert (He12 : e1 <= e2) by lia.
  assert (Hle : e2 <= f64_emax - f64_prec).
  { unfold f64_emax, f64_prec. destruct (Z.le_gt_cases e2 (1024 - 53)) as [|Hgt]; [assumption|exfalso].
    set (K := Z.max 0 (- e1)). specialize (Hfin K ltac:(lia) ltac:(lia) ltac:(lia)).
    rewrite Z.pow_add_r in Hfin by lia. pose proof (pow_pos K ltac:(lia)).
    assert (H53 : 2 ^ 53 <= 2 ^ e2) by (apply Z.pow_le_mono_r; lia).
    assert (c * 2 ^ K < 2 ^ 53 * 2 ^ K) by (apply Z.mul_lt_mono_pos_r; lia).
    assert (2 ^ 53 * 2 ^ K <= 2 ^ e2 * 2 ^ K) by (apply Z.mul_le_mono_nonneg_r; lia).
    assert (1 * (2 ^ e2 * 2 ^ K) <= Zpos m2 * (2 ^ e2 * 2 ^ K)) by (apply Z.mul_le_mono_nonneg_r; [|lia]; apply Z.mul_nonneg_nonneg; lia). lia. }
  rewrite (proj2 (Z.leb_le _ _) Hle). exists m2, e2. split; [reflexivity|]. apply scale_le. intros K HK HeK.
  (* enlarge the scale so that it fits e1, too *)
  set (J := K + Z.max 0 (- (e1 + K))). specialize (Hfin J ltac:(lia) ltac:(lia) ltac:(lia)).
  unfold J in Hfin. set (j := Z.max 0 (- (e1 + K))) in *. assert (Hj : 0 <= j) by lia.
  replace (e2 + (K + j)) with (e2 + K + j) in Hfin by lia. rewrite (Z.pow_add_r 2 (e2 + K) j), (Z.pow_add_r 2 K j) in Hfin by lia.
  pose proof (pow_pos j Hj). rewrite !Z.mul_assoc in Hfin. apply Z.mul_le_mono_pos_r in Hfin; assumption.
Qed.

Lemma ceil_le : forall m e c, 0 <= c < 2 ^ 64 -> numerator m e <= c * denominator e ->
  (f64_ceil_as_u64 (S754_finite false m e) <= Z.to_N c)%N.
Proof.
  intros m e c Hc H. unfold f64_ceil_as_u64, numerator, denominator in *. apply Z2N.inj_le; [|lia|].
  - apply Z.min_glb; [|lia]. destruct (Z.leb_spec 0 e) as [He|He].
    + pose proof (Z.pow_nonneg 2 e ltac:(lia)). lia.
    + pose proof (pow_pos (- e) ltac:(lia)). apply Z.div_pos; lia.
  - eapply Z.le_trans; [apply Z.le_min_l|]. destruct (Z.leb_spec 0 e) as [He|He].
    + rewrite Z.max_l, Z.max_r in H by lia. lia.
    + rewrite Z.max_r, Z.max_l in H by lia. rewrite Z.pow_0_r in H. pose proof (pow_pos (- e) ltac:(lia)).
      apply Z.lt_succ_r, Z.div_lt_upper_bound; [assumption|]. lia.
Qed.

(** The estimate is at most [c] if three times the logarithm is. *)
Lemma estimate_le : forall y c, finite y -> 0 < c < 2 ^ 53 ->
  (forall m e, y = S754_finite false m e -> 3 * numerator m e <= c * denominator e) ->
  (f64_ceil_as_u64 (f64_mul y f64_three) <= Z.to_N c)%N.
Proof.
  intros y c Hf Hc H. destruct y as [s|s| |s m e]; try contradiction.
  - cbn. lia.
  - unfold f64_mul, f64_three. cbn [SFmul]. destruct s; cbn [xorb].
    + unfold f64_ceil_as_u64. set (r := binary_round_aux _ _ _ _ _ _).
      assert (Hr : forall s m e, r = S754_finite s m e -> s = true).
      { intros s m' e' Hr. unfold r, binary_round_aux in Hr. destruct (shr_fexp _ _ _ _ _) as [a b]. destruct (shr_fexp _ _ _ _ _) as [a' b'].
        destruct (shr_m a'); try discriminate Hr. destruct (b' <=? _); [|discriminate Hr]. congruence. }
      assert (Hi : forall s, r = S754_infinity s -> s = true).
      { intros s Hr'. unfold r, binary_round_aux in Hr'. destruct (shr_fexp _ _ _ _ _) as [a b]. destruct (shr_fexp _ _ _ _ _) as [a' b'].
        destruct (shr_m a'); try discriminate Hr'. destruct (b' <=? _); [discriminate Hr'|]. congruence. }
      destruct r as [s|s| |s m' e']; [lia|rewrite (Hi s eq_refl); lia|lia|rewrite (Hr _ _ _ eq_refl); lia].
    + specialize (H m e eq_refl).
      assert (Hv : numerator (m * (3 * 2 ^ 51)) (e + -51) <= c * denominator (e + -51)).
      { apply scale_le. intros K HK HeK. pose proof (proj1 (scale_le m e (c)) ) as Hs.
        assert (H3 : Zpos m * 3 * 2 ^ (e + K) <= c * 2 ^ K).
        { destruct (Z.le_ge_cases 0 e) as [He|He]; unfold numerator, denominator in H.
          - rewrite Z.max_l, Z.max_r in H by lia. rewrite Z.pow_0_r in H. rewrite Z.pow_add_r, Z.mul_assoc by lia.
            apply Z.mul_le_mono_nonneg_r; [apply Z.pow_nonneg; lia|lia].
          - rewrite Z.max_r, Z.max_l in H by lia. rewrite Z.pow_0_r in H.
            replace (2 ^ K) with (2 ^ (- e) * 2 ^ (e + K)) by (rewrite <- Z.pow_add_r by lia; f_equal; lia).
            rewrite Z.mul_assoc. apply Z.mul_le_mono_nonneg_r; [apply Z.pow_nonneg; lia|lia]. }
        replace (2 ^ (e + K)) with (2 ^ 51 * 2 ^ (e + -51 + K)) in H3 by (rewrite <- Z.pow_add_r by lia; f_equal; lia).
        rewrite Pos2Z.inj_mul. change (Zpos (3 * 2 ^ 51)) with (3 * 2 ^ 51). lia. }
      destruct (round_aux_le _ _ c Hc Hv) as [[s ->]|(m' & e' & -> & H')]; [cbn; lia|].
      apply ceil_le; [lia|exact H'].
Qed.

(** ** Conversion of integers *)
Lemma fexp_53 : forall d, -1021 <= d -> fexp f64_prec f64_emax d = d - 53.
Proof. intros d Hd. unfold fexp, emin, f64_prec, f64_emax. lia. Qed.

Lemma shr_fexp_none : forall m e, 0 < m -> fexp f64_prec f64_emax (Zdigits2 m + e) = e ->
  shr_fexp f64_prec f64_emax m e loc_Exact = (Build_shr_record m false false, e).
Proof. intros m e Hm H. unfold shr_fexp. rewrite H, Z.sub_diag. reflexivity. Qed.

Lemma round_aux_canonical : forall m e, Zpos (digits2_pos m) = 53 -> -1074 <= e <= 971 ->
  binary_round_aux f64_prec f64_emax false (Zpos m) e loc_Exact = S754_finite false m e /\
  valid_binary f64_prec f64_emax (S754_finite false m e) = true.
Proof.
  intros m e Hd He. assert (Hf : fexp f64_prec f64_emax (Zdigits2 (Zpos m) + e) = e) by (cbn [Zdigits2]; rewrite Hd, fexp_53; lia).
  unfold binary_round_aux. rewrite shr_fexp_none by (try exact Hf; lia). cbn [shr_m loc_of_shr_record round_nearest_even].
  rewrite shr_fexp_none by (try exact Hf; lia). cbn [shr_m].
  assert (Hl : (e <=? f64_emax - f64_prec) = true) by (apply Z.leb_le; unfold f64_emax, f64_prec; lia).
  split; [rewrite Hl; reflexivity|]. cbn [valid_binary]. unfold bounded, canonical_mantissa. cbn [Zdigits2] in Hf. rewrite Hf, Hl.
  rewrite (proj1 (Zeq_is_eq_bool e e) eq_refl). reflexivity.
Qed.

Lemma shift_pos_val : forall d m, Zpos (shift_pos d m) = Zpos m * 2 ^ Zpos d.
Proof. intros d m. rewrite shift_pos_correct. rewrite Z.mul_comm. reflexivity. Qed.

Lemma convert : forall n, (0 < n < 2 ^ 64)%N ->
  exists v, f64_integer (u64_as_f64 n) v /\ v * 2 ^ 52 <= Z.of_N n * (2 ^ 52 + 1) /\
    forall k, 0 <= k -> Z.of_N n <= 2 ^ k -> v <= 2 ^ k.
Proof.
  intros n Hn. destruct n as [|p]; [lia|]. unfold u64_as_f64, binary_normalize. cbn [Z.of_N]. unfold binary_round.
  pose proof (digits_bound p) as [Hd1 Hd2]. assert (Hd0 : 0 < Zpos (digits2_pos p)) by lia. set (d := Zpos (digits2_pos p)) in *.
  assert (Hd64 : d <= 64).
  { destruct (Z.le_gt_cases d 64); [assumption|exfalso]. assert (2 ^ 64 <= 2 ^ (d - 1)) by (apply Z.pow_le_mono_r; lia). lia. }
  rewrite Z.add_0_r, fexp_53 by lia. unfold shl_align. rewrite Z.sub_0_r.
  destruct (Z.lt_trichotomy d 53) as [Hd|[Hd|Hd]].
  - (* fewer than 53 digits: exact *)
    destruct (d - 53) as [|?|t] eqn:Ht; try lia.
    assert (Hm : Zpos (digits2_pos (shift_pos t p)) = 53).
    { apply digits_unique; [|lia]. rewrite shift_pos_val. pose proof (pow_pos (Zpos t) ltac:(lia)).
      replace (2 ^ (53 - 1)) with (2 ^ (d - 1) * 2 ^ Zpos t) by (rewrite <- Z.pow_add_r by lia; f_equal; lia).
      replace (2 ^ 53) with (2 ^ d * 2 ^ Zpos t) by (rewrite <- Z.pow_add_r by lia; f_equal; lia).
      split; [apply Z.mul_le_mono_nonneg_r; lia|apply Z.mul_lt_mono_pos_r; lia]. }
    destruct (round_aux_canonical _ (Zneg t) Hm ltac:(lia)) as [-> Hv]. exists (Zpos p).
    split; [|split; [lia|auto]]. exists (shift_pos t p), (Zneg t). split; [reflexivity|]. split; [exact Hv|]. split; [lia|].
    unfold numerator, denominator. rewrite shift_pos_val. rewrite Z.max_r, Z.max_l by lia. cbn [Z.opp]. lia.
  - (* 53 digits: exact *)
    rewrite Hd. cbn [Z.sub Z.opp Z.add Z.pos_sub Pos.pred_double].
    match goal with |- context [let '(_, _) := ?t in _] => change t with (p, 0) end.
    destruct (round_aux_canonical p 0 Hd ltac:(lia)) as [-> Hv]. exists (Zpos p).
    split; [|split; [lia|auto]]. exists p, 0. split; [reflexivity|]. split; [exact Hv|]. split; [lia|]. unfold numerator, denominator. cbn. lia.
  - (* more: rounded *)
    destruct (d - 53) as [|t|?] eqn:Ht; try lia. unfold binary_round_aux. unfold shr_fexp at 1. cbn [shr_record_of_loc Zdigits2]. fold d.
    rewrite Z.add_0_r, fexp_53, Z.sub_0_r, Ht by lia.
    pose proof (shr_spec (Zpos p) 0 (Zpos t) ltac:(lia)) as H1. pose proof (rounded_le (Zpos p) 0 (Zpos t) ltac:(lia)) as H2.
    destruct (shr _ 0 (Zpos t)) as [r e1]. destruct H1 as (He1 & Hq & _). rewrite Z.max_l in * by lia. cbn [Z.add] in He1. subst e1.
    destruct (round_up_bound (shr_m r) (loc_of_shr_record r)) as [Hr _].
    set (q := round_nearest_even (shr_m r) (loc_of_shr_record r)) in *. rewrite Hq in Hr. clear Hq.
    pose proof (pow_pos (Zpos t) ltac:(lia)) as HP. set (P := 2 ^ Zpos t) in *.
    assert (HA : 2 ^ (d - 1) = 2 ^ 52 * P) by (unfold P; rewrite <- Z.pow_add_r by lia; f_equal; lia).
    assert (HB : 2 ^ d = 2 ^ 53 * P) by (unfold P; rewrite <- Z.pow_add_r by lia; f_equal; lia).
    assert (Hlo : 2 ^ 52 <= Zpos p / P) by (apply Z.div_le_lower_bound; lia).
    assert (Hhi : Zpos p / P < 2 ^ 53) by (apply Z.div_lt_upper_bound; lia).
    assert (Hval : forall m e, numerator m e = q * P * denominator e -> S754_finite false m e = S754_finite false m e ->
      valid_binary f64_prec f64_emax (S754_finite false m e) = true ->
      exists v, f64_integer (S754_finite false m e) v /\ v * 2 ^ 52 <= Zpos p * (2 ^ 52 + 1) /\
        (forall k, 0 <= k -> Zpos p <= 2 ^ k -> v <= 2 ^ k)).
    { intros m e Hne _ Hv. exists (q * P). split; [exists m, e; split; [reflexivity|]; split; [exact Hv|]; split; [nia|exact Hne]|]. split.
      - pose proof (Z.mul_div_le (Zpos p) P HP). nia.
      - intros k Hk Hpk. assert (Htk : Zpos t <= k).
        { assert (2 ^ (d - 1) <= 2 ^ k) by lia. apply Z.pow_le_mono_r_iff in H; lia. }
        assert (HQ : q <= 2 ^ (k - Zpos t)).
        { apply H2. unfold P. rewrite <- Z.pow_add_r by lia. replace (k - Zpos t + Zpos t) with k by lia. exact Hpk. }
        replace (2 ^ k) with (2 ^ (k - Zpos t) * P) by (unfold P; rewrite <- Z.pow_add_r by lia; f_equal; lia).
        apply Z.mul_le_mono_nonneg_r; lia. }
    destruct (Z.eq_dec q (2 ^ 53)) as [Hq53|Hq53].
    + rewrite Hq53. unfold shr_fexp. change (Zdigits2 (2 ^ 53)) with 54. cbn [shr_record_of_loc].
      rewrite fexp_53 by lia. replace (54 + Zpos t - 53 - Zpos t) with 1 by lia. cbn [shr].
      match goal with |- context [iter_pos shr_1 1 ?x] => change (iter_pos shr_1 1 x) with (Build_shr_record (2 ^ 52) false false) end.
      cbn [shr_m].
      match goal with |- context [match ?z with Z0 => _ | _ => _ end] => change z with (Zpos (2 ^ 52)%positive) end. cbv iota beta.
      assert (Hl : (Zpos t + 1 <=? f64_emax - f64_prec) = true) by (apply Z.leb_le; unfold f64_emax, f64_prec; lia).
      rewrite Hl. apply Hval; [|reflexivity|].
      * unfold numerator, denominator. rewrite Z.max_l, Z.max_r by lia. rewrite Z.pow_add_r by lia. fold P. rewrite Hq53. change (2 ^ 53) with (2 * Zpos (2 ^ 52)). change (2 ^ 0) with 1. change (2 ^ 1) with 2. lia.
      * apply (round_aux_canonical (2 ^ 52) (Zpos t + 1)); [reflexivity|lia].
    + assert (Hqp : 0 < q) by lia. destruct q as [|q'|q'] eqn:Hqe; try lia.
      assert (Hdq : Zpos (digits2_pos q') = 53) by (apply digits_unique; [|lia]; change (53 - 1) with 52; lia).
      destruct (round_aux_canonical q' (Zpos t) Hdq ltac:(lia)) as [_ Hv].
      rewrite shr_fexp_none by (cbn [Zdigits2]; try rewrite Hdq, fexp_53; lia). cbn [shr_m].
      assert (Hl : (Zpos t <=? f64_emax - f64_prec) = true) by (apply Z.leb_le; unfold f64_emax, f64_prec; lia).
      rewrite Hl. apply Hval; [|reflexivity|exact Hv]. unfold numerator, denominator. rewrite Z.max_l, Z.max_r by lia. fold P. cbn. lia.
Qed.

(** ** The estimate *)
Lemma cube_pow_strict : forall x, (2 <= x)%N -> x <> 4%N -> (128 * (x * x * x) <= 125 * 2 ^ (x + 2))%N.
Proof.
  intros x Hx H4. destruct (N.le_gt_cases x 7) as [Hs|Hl].
  - assert (x = 2 \/ x = 3 \/ x = 5 \/ x = 6 \/ x = 7)%N as H by lia.
    destruct H as [->|[->|[->|[->| ->]]]]; vm_compute; discriminate.
  - assert (H : forall y, (128 * ((y + 8) * (y + 8) * (y + 8)) <= 125 * 2 ^ (y + 10))%N).
    { induction y as [|y IH] using N.peano_ind; [vm_compute; discriminate|].
      replace (N.succ y + 10)%N with (N.succ (y + 10)) by lia. rewrite N.pow_succ_r'. nia. }
    specialize (H (x - 8)%N). replace (x - 8 + 8)%N with x in H by lia. replace (x - 8 + 10)%N with (x + 2)%N in H by lia. exact H.
Qed.

(** Either all rings have 4 elements, or there is a gap between the cost and [3 * log2 n]. *)
Lemma doc_form_gap : forall n d, doc_form n d ->
  (exists r, (n <= 4 ^ r)%N /\ cost d = (6 * r)%N) \/ (128 * (n * n * n) <= 125 * 2 ^ cost d)%N.
Proof.
  induction 1 as [t Ht|T d t k H IH Hk Hkt].
  - assert (Hc : cost [{| rs_size := t; rs_step := 1 |}] = (t + 2)%N) by (unfold cost; nsum; lia). rewrite Hc.
    destruct (N.eq_dec t 4) as [->|Hn]; [left; exists 1%N; split; [vm_compute; discriminate|reflexivity]|].
    right. apply cube_pow_strict; assumption.
  - rewrite cost_nested. pose proof (doc_form_ge2 _ _ H) as HT. assert (Hle : (t + k * (T - 1) <= t * T)%N) by nia.
    set (n := (t + k * (T - 1))%N) in *.
    assert (Hn3 : (n * n * n <= (t * t * t) * (T * T * T))%N).
    { replace ((t * t * t) * (T * T * T))%N with ((t * T) * (t * T) * (t * T))%N by lia.
      apply N.mul_le_mono; [apply N.mul_le_mono|]; assumption. }
    pose proof (cube_pow t ltac:(lia)) as Hc. pose proof (doc_form_pow _ _ H) as Hp.
    destruct (N.eq_dec t 4) as [->|Hn].
    + destruct IH as [(r & Hr & Hcr)|IH].
      * left. exists (N.succ r). rewrite N.pow_succ_r'. split; lia.
      * right. rewrite N.pow_add_r. change (4 * 4 * 4)%N with 64%N in *. change (2 ^ (4 + 2))%N with 64%N. lia.
    + right. pose proof (cube_pow_strict t ltac:(lia) Hn) as Hs. rewrite N.pow_add_r.
      apply N.le_trans with ((128 * (t * t * t)) * (T * T * T))%N; [lia|].
      rewrite (N.mul_assoc 125). apply N.mul_le_mono; assumption.
Qed.

Lemma succ_pow : forall k j, 0 <= j -> j <= k -> (k + 1) ^ j * (k - j) <= k ^ j * k.
Proof.
  intros k j Hj. revert j Hj. refine (natlike_ind _ _ _).
  - intros _. rewrite !Z.pow_0_r. lia.
  - intros j Hj IH Hk. specialize (IH ltac:(lia)). rewrite !Z.pow_succ_r by lia.
    assert (HP : 0 <= (k + 1) ^ j) by (apply Z.pow_nonneg; lia).
    apply Z.le_trans with ((k + 1) ^ j * (k - j) * k).
    + replace ((k + 1) * (k + 1) ^ j * (k - Z.succ j)) with ((k + 1) ^ j * ((k + 1) * (k - Z.succ j))) by ring.
      rewrite <- Z.mul_assoc. apply Z.mul_le_mono_nonneg_l; [exact HP|nia].
    + replace (k * k ^ j * k) with (k ^ j * k * k) by ring. apply Z.mul_le_mono_nonneg_r; lia.
Qed.

Lemma big_gap : 8 * 125 ^ 100 * (2 ^ 52 + 1) ^ 300 < 128 ^ 100 * (2 ^ 52) ^ 300.
Proof.
  assert (H1 : 8 * 125 ^ 100 * 2 ^ 52 < 128 ^ 100 * (2 ^ 52 - 300)) by (apply Z.ltb_lt; vm_compute; reflexivity).
  assert (HK : 300 < 2 ^ 52) by reflexivity. set (k := 2 ^ 52) in *. clearbody k.
  pose proof (succ_pow k 300 ltac:(lia) ltac:(lia)) as H2.
  assert (HR : 0 < k ^ 300) by (apply Z.pow_pos_nonneg; lia). assert (HQ : 0 < (k + 1) ^ 300) by (apply Z.pow_pos_nonneg; lia).
  assert (HA : 0 < 125 ^ 100) by (apply Z.pow_pos_nonneg; lia).
  revert H1 H2 HR HQ HA. generalize (125 ^ 100) (128 ^ 100) (k ^ 300) ((k + 1) ^ 300). intros F A R Q H1 H2 HR HQ HA.
  apply Z.mul_lt_mono_pos_r with (p := k - 300); [lia|].
  assert (8 * F * (Q * (k - 300)) <= 8 * F * (R * k)) by (apply Z.mul_le_mono_nonneg_l; lia).
  assert (8 * F * k * R < A * (k - 300) * R) by (apply Z.mul_lt_mono_pos_r; lia). lia.
Qed.

Lemma big_pos_1 : 0 < 128 ^ 100.
Proof. apply Z.pow_pos_nonneg; lia. Qed.
Lemma big_pos_2 : 0 < (2 ^ 52) ^ 300.
Proof. apply Z.pow_pos_nonneg; lia. Qed.
Lemma big_pos_3 : 0 < (2 ^ 52 + 1) ^ 300.
Proof. apply Z.pow_pos_nonneg; lia. Qed.

Lemma three_le : forall y n c v, at_most_log2 y v -> 0 < v -> 0 <= c -> 0 < n ->
  v * 2 ^ 52 <= n * (2 ^ 52 + 1) -> 128 * (n * n * n) <= 125 * 2 ^ c ->
  forall m e, y = S754_finite false m e -> 3 * numerator m e <= c * denominator e.
Proof.
  intros y n c v Hy Hv Hc Hn Hvn Hgap m e He. specialize (Hy m e He).
  assert (Hnum : 0 < numerator m e) by (unfold numerator; apply Z.mul_pos_pos; [lia|apply Z.pow_pos_nonneg; lia]).
  assert (Hden : 0 < denominator e) by (unfold denominator; apply Z.pow_pos_nonneg; lia).
  set (N' := numerator m e) in *. set (D := denominator e) in *. clearbody N' D.
  destruct (Z.le_gt_cases (3 * N') (c * D)) as [Hle|Hgt]; [exact Hle|exfalso].
  assert (H1 : (2 ^ (100 * c)) ^ D < (8 * v ^ 300) ^ D).
  { rewrite <- Z.pow_mul_r by lia. apply Z.lt_le_trans with (2 ^ (300 * N')).
    - apply Z.pow_lt_mono_r; lia.
    - rewrite Z.pow_mul_l, <- Z.pow_mul_r by lia. replace (300 * N') with (100 * N' * 3) by lia. rewrite Z.pow_mul_r by lia.
      apply Z.le_trans with ((2 ^ D * v ^ (100 * D)) ^ 3).
      + apply Z.pow_le_mono_l. split; [apply Z.pow_nonneg; lia|exact Hy].
      + rewrite Z.pow_mul_l, <- !Z.pow_mul_r by lia. apply Z.eq_le_incl. f_equal.
        * change 8 with (2 ^ 3). rewrite <- Z.pow_mul_r by lia. f_equal. lia.
        * f_equal. lia. }
  assert (H2 : 2 ^ (100 * c) < 8 * v ^ 300).
  { assert (0 < v ^ 300) by (apply Z.pow_pos_nonneg; lia). apply (Z.pow_lt_mono_l_iff _ _ D); solve [lia|exact H1|apply Z.pow_nonneg; lia]. }
  assert (H3 : v ^ 300 * (2 ^ 52) ^ 300 <= n ^ 300 * (2 ^ 52 + 1) ^ 300).
  { clear - Hv Hvn. rewrite <- !Z.pow_mul_l. apply Z.pow_le_mono_l. split; [apply Z.mul_nonneg_nonneg; lia|exact Hvn]. }
  assert (H4 : 128 ^ 100 * n ^ 300 <= 125 ^ 100 * 2 ^ (100 * c)).
  { clear - Hgap Hn Hc. replace (n ^ 300) with ((n ^ 3) ^ 100) by (rewrite <- Z.pow_mul_r by lia; reflexivity).
    replace (100 * c) with (c * 100) by lia. rewrite (Z.pow_mul_r 2 c 100) by lia. rewrite <- !Z.pow_mul_l.
    apply Z.pow_le_mono_l. split.
    - apply Z.mul_nonneg_nonneg; [lia|apply Z.pow_nonneg; lia].
    - replace (n ^ 3) with (n * n * n) by ring. exact Hgap. }
  assert (HE : 0 < 2 ^ (100 * c)) by (clear - Hc; apply Z.pow_pos_nonneg; lia).
  set (X := 2 ^ (100 * c)) in *. set (V := v ^ 300) in *. set (W := n ^ 300) in *.
  assert (Harith : forall A F R Q, 0 < A -> 0 < R -> 0 < Q -> V * R <= W * Q -> A * W <= F * X -> 8 * F * Q < A * R -> False).
  { clear - H2 HE. intros A F R Q HA HR HQ H3 H4 HG.
    assert (A * R * X < A * R * (8 * V)) by (apply Z.mul_lt_mono_pos_l; [apply Z.mul_pos_pos; assumption|exact H2]).
    assert (A * (V * R) <= A * (W * Q)) by (apply Z.mul_le_mono_nonneg_l; lia).
    assert (A * W * Q <= F * X * Q) by (apply Z.mul_le_mono_nonneg_r; lia).
    assert (8 * F * Q * X < A * R * X) by (apply Z.mul_lt_mono_pos_r; lia). lia. }
  exact (Harith _ _ _ _ big_pos_1 big_pos_2 big_pos_3 H3 H4 big_gap).
Qed.

Lemma std_estimate_le : forall lg n d, log2_accurate lg -> (n < 2 ^ 64)%N -> doc_form n d -> (std_lower_len_estimate lg n <= cost d)%N.
Proof.
  intros lg n d L Hn Hd. pose proof (doc_form_ge2 _ _ Hd) as Hn2. destruct (convert n ltac:(lia)) as (v & Hv & Hvn & Hvk).
  unfold std_lower_len_estimate. pose proof (log2_finite _ L _ _ Hv) as Hf. pose proof (log2_near _ L _ _ Hv) as Hnear.
  pose proof (fun k => log2_powers _ L _ v k Hv) as Hpow. set (y := lg (u64_as_f64 n)) in *.
  assert (H64 : at_most y 64) by (apply Hpow; [lia|]; apply Hvk; lia).
  assert (Hc : forall m e, y = S754_finite false m e -> 3 * numerator m e <= Z.of_N (cost d) * denominator e).
  { destruct (doc_form_gap _ _ Hd) as [(r & Hr & Hcr)|Hg].
    - intros m e He. assert (Hp : at_most y (2 * Z.of_N r)).
      { apply Hpow; [lia|]. apply Hvk; [lia|]. rewrite Z.pow_mul_r by lia. apply N2Z.inj_le in Hr. rewrite N2Z.inj_pow in Hr. exact Hr. }
      specialize (Hp m e He). rewrite Hcr. lia.
    - destruct Hv as (m0 & e0 & _ & _ & Hv0 & _). apply (three_le y (Z.of_N n) _ v Hnear Hv0); try lia. }
  assert (Hcpos : (0 < cost d)%N).
  { destruct Hd; [unfold cost; nsum; lia|rewrite cost_nested; lia]. }
  apply N.le_trans with (Z.to_N (Z.min (Z.of_N (cost d)) 192)); [|lia].
  apply estimate_le; [exact Hf|lia|]. intros m e He. specialize (Hc m e He). specialize (H64 m e He).
  destruct (Z.min_spec (Z.of_N (cost d)) 192) as [[_ ->]|[_ ->]]; lia.
Qed.

Lemma std_valid : forall lg n, log2_accurate lg -> (n < 2 ^ 64)%N -> valid_estimate (std_lower_len_estimate lg) n.
Proof. intros lg n L Hn m d Hm Hd. apply std_estimate_le; [exact L|lia|exact Hd]. Qed.
