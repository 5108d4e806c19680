(** * C43-C47: quadratic voting *)
From Coq Require Import List NArith ZArith String Lia Arith Bool.
From Verif.Model Require Import Base Group Transcript Keys Encryption Ring Range Mul Quadratic.
From Verif.Spec Require Import Encryption LogEquality Sigma Ring Range Quadratic.
From Verif.Proofs Require Import Lists Algebra Encryption LogEquality Ring Range RangeProof SumOfSquares Quadratic.
From Verif.Instance Require Import Primality Zq.
From Verif.Properties Require Import LogEquality.
Import ListNotations.
Open Scope string_scope.
Open Scope list_scope.
Open Scope N_scope.

(** ** C43: integer square root *)
Theorem C43_isqrt :
  forall b x, x < 2 ^ 64 -> exists r, isqrt b x = Ret r /\ r * r <= x /\ x < (r + 1) * (r + 1).
Proof. exact isqrt_ok. Qed.
Print Assumptions C43_isqrt.

Example C43_example :
  isqrt debug_build 0 = Ret 0 /\ isqrt debug_build 99 = Ret 9 /\ isqrt debug_build 100 = Ret 10 /\
  isqrt release_build (2 ^ 64 - 1) = Ret (2 ^ 32 - 1).
Proof. vm_compute. auto. Qed.

(** ** C44: parameters *)
Theorem C44_new :
  forall (E : Env) (L : GroupLaws E) (receiver : PublicKey E) options credits p,
    credits + 65 < 2 ^ 64 -> QuadraticVotingParams_new receiver options credits = Ret p ->
    QuadraticVotingParams_credits p = Ret credits /\
    (exists m, QuadraticVotingParams_max_votes p = Ret m /\ m * m <= credits /\ credits < (m + 1) * (m + 1)) /\
    qv_options_count p = options /\ qv_receiver p = receiver.
Proof.
  intros E L receiver options credits p Hc H. apply (qv_new_inv E L) in H; [|exact Hc].
  destruct H as (_ & m & H1 & H2 & Hi). split; [exact (qv_credits_ok E _ _ _ _ _ Hi)|].
  split; [exists m; split; [exact (qv_max_votes_ok E _ _ _ _ _ Hi)|auto]|].
  destruct Hi as (dv & dc & _ & _ & _ & _ & _ & ->). auto.
Qed.
Print Assumptions C44_new.

Theorem C44_new_total :
  forall (E : Env) (L : GroupLaws E) (receiver : PublicKey E) options credits,
    (forall n, n < 2 ^ 64 -> valid_estimate (@len_estimate E) n) -> credits + 65 < 2 ^ 64 ->
    ((0 < options)%nat -> 0 < credits -> exists p, QuadraticVotingParams_new receiver options credits = Ret p) /\
    (options = 0%nat \/ credits = 0 -> QuadraticVotingParams_new receiver options credits = Panic PAssert).
Proof.
  intros E L receiver options credits He Hc. split; [exact (qv_new_total E L receiver options credits He Hc)|].
  intros [->| ->]; unfold QuadraticVotingParams_new, assert; [reflexivity|]. destruct (0 <? options)%nat; reflexivity.
Qed.
Print Assumptions C44_new_total.

(** After any sequence of successful [set_max_votes] calls, the last limit is reported and all else is unchanged. *)
Theorem C44_set_max_votes :
  forall (E : Env) (L : GroupLaws E) (receiver : PublicKey E) options credits m p,
    credits + 65 < 2 ^ 64 -> qv_params receiver options credits m p ->
    QuadraticVotingParams_max_votes p = Ret m /\ QuadraticVotingParams_credits p = Ret credits /\
    qv_options_count p = options /\ qv_receiver p = receiver.
Proof.
  intros E L receiver options credits m p Hc H. apply (qv_params_inv E L) in H; [|exact Hc].
  split; [exact (qv_max_votes_ok E _ _ _ _ _ H)|]. split; [exact (qv_credits_ok E _ _ _ _ _ H)|].
  destruct H as (dv & dc & _ & _ & _ & _ & _ & ->). auto.
Qed.
Print Assumptions C44_set_max_votes.

Example C44_example :
  match QuadraticVotingParams_new ex_key 3 20 with
  | Ret p =>
      QuadraticVotingParams_credits p = Ret 20 /\ QuadraticVotingParams_max_votes p = Ret 4 /\
      match QuadraticVotingParams_set_max_votes p 2 with
      | Ret p' => QuadraticVotingParams_credits p' = Ret 20 /\ QuadraticVotingParams_max_votes p' = Ret 2
      | Panic _ => False
      end /\
      match QuadraticVotingParams_set_max_votes p 5 with Ret _ => False | Panic k => k = PAssert end
  | Panic _ => False
  end.
Proof. vm_compute. auto 10. Qed.

(** ** C45: vote limits *)

(** Limits are accepted if their square does not exceed the credits; a limit of 0 is the exception. *)
Theorem C45_accepted :
  forall (E : Env) (L : GroupLaws E) (receiver : PublicKey E) options credits m p m',
    (forall n, n < 2 ^ 64 -> valid_estimate (@len_estimate E) n) ->
    credits + 65 < 2 ^ 64 -> qv_params receiver options credits m p ->
    (1 <= m' -> m' * m' <= credits -> exists p', QuadraticVotingParams_set_max_votes p m' = Ret p') /\
    QuadraticVotingParams_set_max_votes p 0 = Panic PAssert.
Proof.
  intros E L receiver options credits m p m' He Hc H. apply (qv_params_inv E L) in H; [|exact Hc]. split.
  - intros H1 H2. apply (qv_set_total E L receiver options m credits p m' He H H1); [nia|left; exact H2].
  - unfold QuadraticVotingParams_set_max_votes. rewrite u64_mul_ok by reflexivity. cbn [bind].
    rewrite (qv_credits_ok E _ _ _ _ _ H). cbn [bind].
    unfold assert. destruct (N.leb_spec (0 * 0) credits); [|lia]. cbn [bind]. rewrite u64_add_ok by reflexivity. reflexivity.
Qed.
Print Assumptions C45_accepted.

(** Larger limits panic if the square fits [u64] or overflow checks are on; otherwise the square is
    compared after wrapping. *)
Theorem C45_rejected :
  forall (E : Env) (L : GroupLaws E) (receiver : PublicKey E) options credits m p m',
    credits + 65 < 2 ^ 64 -> qv_params receiver options credits m p -> credits < m' * m' ->
    m' * m' < 2 ^ 64 \/ overflow_checks (env_build E) = true ->
    QuadraticVotingParams_set_max_votes p m' = Panic (if m' * m' <? 2 ^ 64 then PAssert else POverflow).
Proof.
  intros E L receiver options credits m p m' Hc H Hm Hov. apply (qv_params_inv E L) in H; [|exact Hc].
  unfold QuadraticVotingParams_set_max_votes, u64_mul, u64_fit. change u64_lim with (2 ^ 64).
  destruct (N.ltb_spec (m' * m') (2 ^ 64)) as [Hl|Hl].
  - cbn [bind]. rewrite (qv_credits_ok E _ _ _ _ _ H). cbn [bind]. unfold assert. apply N.leb_gt in Hm. rewrite Hm. reflexivity.
  - destruct Hov as [Hov|Hov]; [lia|]. rewrite Hov. reflexivity.
Qed.
Print Assumptions C45_rejected.

(** Without overflow checks the documented panic is missing: for any parameters with fewer than [2^64 - 65]
    credits, the limit [2^32] is accepted although its square exceeds the credits. *)
Theorem C45_release_refuted :
  forall (E : Env) (L : GroupLaws E) (receiver : PublicKey E) options credits m p,
    overflow_checks (env_build E) = false -> (forall n, n < 2 ^ 64 -> valid_estimate (@len_estimate E) n) ->
    credits + 65 < 2 ^ 64 -> qv_params receiver options credits m p ->
    credits < 2 ^ 32 * 2 ^ 32 /\
    exists p', QuadraticVotingParams_set_max_votes p (2 ^ 32) = Ret p' /\ QuadraticVotingParams_max_votes p' = Ret (2 ^ 32).
Proof.
  intros E L receiver options credits m p Hov He Hc H. split; [lia|]. pose proof H as H'. apply (qv_params_inv E L) in H; [|exact Hc].
  destruct (qv_set_total E L receiver options m credits p (2 ^ 32) He H) as (p' & Hp); [lia|lia| |].
  - right. split; [exact Hov|]. change ((2 ^ 32 * 2 ^ 32) mod 2 ^ 64) with 0. lia.
  - exists p'. split; [exact Hp|]. apply (qv_set_inv E L _ _ _ _ _ _ _ H) in Hp; [|lia]. exact (qv_max_votes_ok E _ _ _ _ _ Hp).
Qed.
Print Assumptions C45_release_refuted.

(** the environments of the theorems of this file *)
Definition RR : Env := plain_env qx 9 release_build.
Definition RRL : GroupLaws RR := RL.
Definition rr_key : PublicKey RR :=
  {| pk_bytes := zbytes qx 9 (zq qx 987654321); pk_element := (zq qx 987654321 : Element RR) |}.
Example C45_example :
  (forall n, n < 2 ^ 64 -> valid_estimate (@len_estimate RE) n) /\ (forall n, n < 2 ^ 64 -> valid_estimate (@len_estimate RR) n) /\
  overflow_checks (env_build RE) = true /\ overflow_checks (env_build RR) = false /\
  (exists m p, qv_params ex_key 3 20 m p) /\ (exists m p, qv_params rr_key 3 20 m p).
Proof.
  split; [intros ? _; apply int_estimate_valid|]. split; [intros ? _; apply int_estimate_valid|]. split; [reflexivity|]. split; [reflexivity|]. split.
  - destruct (qv_new_total RE RL ex_key 3 20 (fun n _ => int_estimate_valid n)) as [p Hp]; [lia|lia|lia|]. exists 4, p. constructor; [exact Hp|lia|lia].
  - destruct (qv_new_total RR RRL rr_key 3 20 (fun n _ => int_estimate_valid n)) as [p Hp]; [lia|lia|lia|]. exists 4, p. constructor; [exact Hp|lia|lia].
Qed.

(** ** C46: honest ballots *)
Theorem C46_complete :
  forall (E : Env) (L : GroupLaws E) (receiver : PublicKey E) options credits m p votes rng ballot rng',
    credits + 65 < 2 ^ 64 -> qv_params receiver options credits m p ->
    overflow_checks (env_build E) = true \/ squares votes < 2 ^ 64 ->
    QuadraticVotingBallot_new p votes rng = Ret (ballot, rng') ->
    List.length votes = options /\ Forall (fun v => v <= m) votes /\ squares votes <= credits /\
    exists cts, QuadraticVotingBallot_verify ballot p = Ret (Ok cts) /\
      forall sk, key_of sk receiver -> Forall2 (fun v ct => decrypt_to_element sk ct = times v generator) votes cts.
Proof.
  intros E L receiver options credits m p votes rng ballot rng' Hc H Hov Hb. apply (qv_params_inv E L) in H; [|exact Hc].
  destruct (qv_ballot_complete E L _ _ _ _ _ _ _ _ _ H Hov Hb) as (H1 & H2 & H3 & H4 & H5). eauto 10.
Qed.
Print Assumptions C46_complete.

Theorem C46_never_panics :
  forall (E : Env) (L : GroupLaws E) (receiver : PublicKey E) options credits m p votes rng,
    ser_total E -> credits + 65 < 2 ^ 64 -> qv_params receiver options credits m p ->
    List.length votes = options -> Forall (fun v => v <= m) votes -> squares votes <= credits ->
    exists ballot rng', QuadraticVotingBallot_new p votes rng = Ret (ballot, rng').
Proof.
  intros E L receiver options credits m p votes rng Ht Hc H. apply (qv_params_inv E L) in H; [|exact Hc].
  exact (qv_ballot_total E L _ _ _ _ _ _ _ Ht H).
Qed.
Print Assumptions C46_never_panics.

(** A wrong number of options, a vote above the limit, and (if the sum of squares is computed without
    wrapping) overspending panic. *)
Theorem C46_panics :
  forall (E : Env) (L : GroupLaws E) (receiver : PublicKey E) options credits m p votes rng,
    credits + 65 < 2 ^ 64 -> qv_params receiver options credits m p ->
    (List.length votes <> options -> QuadraticVotingBallot_new p votes rng = Panic PAssert) /\
    ((exists v, In v votes /\ m < v) -> exists k, QuadraticVotingBallot_new p votes rng = Panic k) /\
    (credits < squares votes -> overflow_checks (env_build E) = true \/ squares votes < 2 ^ 64 ->
     exists k, QuadraticVotingBallot_new p votes rng = Panic k).
Proof.
  intros E L receiver options credits m p votes rng Hc H. apply (qv_params_inv E L) in H; [|exact Hc]. split; [|split].
  - intros Hl. unfold QuadraticVotingBallot_new, assert. destruct H as (dv & dc & _ & _ & _ & _ & _ & ->). cbn [qv_options_count].
    apply Nat.eqb_neq in Hl. rewrite Hl. reflexivity.
  - intros (v & Hin & Hv). destruct (QuadraticVotingBallot_new p votes rng) as [[ballot rng']|k] eqn:Hb; [exfalso|eauto].
    unfold QuadraticVotingBallot_new in Hb. inv_bind Hb. inv_bind Hb. inv_bind Hb. inv_bind Hb. destruct a2 as [out r1].
    apply (qv_encrypt_ok E L _ _ _ _ _ H) in Hm2. clear -Hm2 Hin Hv.
    induction Hm2 as [|x o votes out (Hx & _) _ IH]; [destruct Hin|]. destruct Hin as [<-|Hin]; [lia|exact (IH Hin)].
  - intros Hs Hov. destruct (QuadraticVotingBallot_new p votes rng) as [[ballot rng']|k] eqn:Hb; [exfalso|eauto].
    destruct (qv_ballot_complete E L _ _ _ _ _ _ _ _ _ H Hov Hb) as (_ & _ & Hle & _). lia.
Qed.
Print Assumptions C46_panics.

(** Without overflow checks overspending may go unnoticed by the prover: with [2^62] credits, four
    votes of [2^31] cost [2^64] credits, which wraps to 0. *)
Theorem C46_release_refuted :
  forall (E : Env) (L : GroupLaws E) (receiver : PublicKey E) p rng,
    ser_total E -> overflow_checks (env_build E) = false ->
    QuadraticVotingParams_new receiver 4 (2 ^ 62) = Ret p ->
    let votes := repeat (2 ^ 31) 4 in
    2 ^ 62 < squares votes /\ exists ballot rng', QuadraticVotingBallot_new p votes rng = Ret (ballot, rng').
Proof.
  intros E L receiver p rng Ht Hov H votes. split; [vm_compute; reflexivity|].
  apply (qv_new_inv E L) in H; [|lia]. destruct H as (_ & m & H1 & H2 & Hi). assert (Hm : m = 2 ^ 31) by nia. subst m.
  unfold QuadraticVotingBallot_new, assert.
  assert (Hop : qv_options_count p = 4%nat) by (destruct Hi as (dv & dc & _ & _ & _ & _ & _ & ->); reflexivity).
  rewrite Hop. subst votes. cbn [repeat List.length Nat.eqb bind mapM]. rewrite u64_mul_ok by reflexivity. cbn [bind u64_sum].
  rewrite u64_add_ok by reflexivity. cbn [bind]. rewrite u64_add_ok by reflexivity. cbn [bind].
  rewrite u64_add_ok by reflexivity. cbn [bind].
  assert (Hw : u64_add (env_build E) (0 + 2 ^ 31 * 2 ^ 31 + 2 ^ 31 * 2 ^ 31 + 2 ^ 31 * 2 ^ 31) (2 ^ 31 * 2 ^ 31) = Ret 0).
  { unfold u64_add, u64_fit. rewrite Hov. reflexivity. }
  rewrite Hw. cbn [bind].
  destruct (qv_encrypt_total E L _ _ _ _ _ Ht Hi (repeat (2 ^ 31) 4) rng) as (out & r1 & Hout).
  { repeat constructor; lia. }
  cbn [repeat] in Hout. rewrite Hout. cbn [bind].
  destruct Hi as (dv & dc & Hv & Hc & HV & _ & Ho & ->). cbn [qv_receiver qv_credit_range].
  destruct (range_new_total E L receiver (2 ^ 62 + 1) dc 0 (transcript_new "quadratic_voting_credit_range") r1 Ht Hc) as (c & pr & t & r2 & ->); [lia|lia|].
  cbn [bind].
  match goal with |- context [SumOfSquaresProof_new ?a ?b ?c ?d ?e] =>
    destruct (sq_new_total E L a b c d e Ht) as (ep & t' & r3 & ->) end.
  cbn [bind]. eauto.
Qed.
Print Assumptions C46_release_refuted.

(** The verdict and the decrypted votes of a small election: votes 2 and 1 with 9 credits.  The ballot
    is rejected if votes are swapped (each has a proof of its own, but the sum of squares is about
    all of them), one is dropped, or the limit is lowered. *)
Definition ex_ballot (f : QuadraticVotingBallot RE -> QuadraticVotingBallot RE) (g : QuadraticVotingParams RE -> outcome (QuadraticVotingParams RE))
    : outcome (result (list bool) QuadraticVotingError) :=
  p <- QuadraticVotingParams_new ex_key 2 9 ;;
  '(ballot, _) <- QuadraticVotingBallot_new p [2; 1] 17%Z ;;
  p <- g p ;;
  res <- QuadraticVotingBallot_verify (f ballot) p ;;
  Ret (match res with
       | Ok cts => Ok (map (fun p => e_eqb (decrypt_to_element (rs 987654321) (fst p)) (re (snd p))) (combine cts [2; 1]%Z))
       | Err e => Err e
       end).
Example C46_example :
  ex_ballot (fun x => x) Ret = Ret (Ok [true; true]) /\
  ex_ballot (fun x => mkQVBallot (rev (qb_votes x)) (qb_credit x) (qb_credit_equivalence_proof x)) Ret =
    Ret (Err (QVCreditEquivalence ChallengeMismatch)) /\
  ex_ballot (fun x => mkQVBallot (tl (qb_votes x)) (qb_credit x) (qb_credit_equivalence_proof x)) Ret =
    Ret (Err (QVOptionsLenMismatch 2 1)).
Proof. split; [vm_compute; reflexivity|]. split; vm_compute; reflexivity. Qed.

(** ** C47: adversarial ballots *)
Theorem C47_accepts_iff :
  forall (E : Env) (ballot : QuadraticVotingBallot E) p cts,
    QuadraticVotingBallot_verify ballot p = Ret (Ok cts) <->
    cts = map crp_ciphertext (qb_votes ballot) /\ List.length (qb_votes ballot) = qv_options_count p /\
    (forall v, In v (qb_votes ballot) -> vote_checked p v (Ok tt)) /\
    credit_checked p ballot (Ok tt) /\ equiv_checked p ballot (Ok tt).
Proof. exact qv_verify_ok_iff. Qed.
Print Assumptions C47_accepts_iff.

Theorem C47_errors :
  forall (E : Env) (ballot : QuadraticVotingBallot E) p e,
    QuadraticVotingBallot_verify ballot p = Ret (Err e) <-> qv_reported p ballot e.
Proof. exact qv_verify_err_iff. Qed.
Print Assumptions C47_errors.

Theorem C47_sound :
  forall (E : Env) (L : GroupLaws E) (sk : SecretKey E) (receiver : PublicKey E) options credits m p ballot cts,
    credits + 65 < 2 ^ 64 -> qv_params receiver options credits m p -> key_of sk receiver ->
    (Z.of_nat options * (Z.of_N m * Z.of_N m) < order L)%Z -> (Z.of_N credits < order L)%Z ->
    QuadraticVotingBallot_verify ballot p = Ret (Ok cts) ->
    List.length cts = options /\
    ((exists votes, Forall2 (fun v ct => v <= m /\ decrypt_to_element sk ct = times v generator) votes cts /\
        squares votes <= credits) \/
     (exists v, In v (qb_votes ballot) /\
        range_hit sk qv_variant_context receiver (pr_inner (qv_vote_count_range p))
          (rap_partial (crp_range_proof v)) (crp_ciphertext v)) \/
     range_hit sk qv_credit_context receiver (pr_inner (qv_credit_range p))
       (rap_partial (crp_range_proof (qb_credit ballot))) (crp_ciphertext (qb_credit ballot)) \/
     sq_hit qv_equiv_context receiver cts (crp_ciphertext (qb_credit ballot))).
Proof.
  intros E L sk receiver options credits m p ballot cts Hc H Hk Hbig Hco Hv. apply (qv_params_inv E L) in H; [|exact Hc].
  exact (qv_sound E L sk receiver options m credits p ballot cts H Hk Hbig Hco Hv).
Qed.
Print Assumptions C47_sound.

(** In particular no ballot whose ciphertexts decrypt to votes that overspend is accepted, even if made by
    the crate's own prover. *)
Theorem C47_overspending_rejected :
  forall (E : Env) (L : GroupLaws E) (sk : SecretKey E) (receiver : PublicKey E) options credits m p ballot cts votes,
    credits + 65 < 2 ^ 64 -> qv_params receiver options credits m p -> key_of sk receiver ->
    (Z.of_nat options * (Z.of_N m * Z.of_N m) < order L)%Z -> (Z.of_N credits < order L)%Z ->
    QuadraticVotingBallot_verify ballot p = Ret (Ok cts) ->
    Forall2 (fun v ct => (Z.of_N v < order L)%Z /\ decrypt_to_element sk ct = times v generator) votes cts ->
    credits < squares votes ->
    (exists v, In v (qb_votes ballot) /\
       range_hit sk qv_variant_context receiver (pr_inner (qv_vote_count_range p))
         (rap_partial (crp_range_proof v)) (crp_ciphertext v)) \/
    range_hit sk qv_credit_context receiver (pr_inner (qv_credit_range p))
      (rap_partial (crp_range_proof (qb_credit ballot))) (crp_ciphertext (qb_credit ballot)) \/
    sq_hit qv_equiv_context receiver cts (crp_ciphertext (qb_credit ballot)).
Proof.
  intros E L sk receiver options credits m p ballot cts votes Hc H Hk Hbig Hco Hv Hd Hs.
  destruct (C47_sound E L sk receiver options credits m p ballot cts Hc H Hk Hbig Hco Hv) as [Hl [(vs & Hvs & Hle)|Hh]]; [exfalso|exact Hh].
  assert (vs = votes); [|subst; lia]. assert (Ho : (0 < options)%nat).
  { apply (qv_params_inv E L) in H; [|exact Hc]. destruct H as (dv & dc & _ & _ & _ & _ & Ho & _). exact Ho. }
  assert (Hmo : (Z.of_N m < order L)%Z) by nia. clear -Hd Hvs Hmo.
  revert votes Hd. induction Hvs as [|v ct vs cts [Hm Hdec] _ IH]; intros votes Hd; inversion Hd as [|v' ct' votes' cts' [Hm' Hdec'] Hd']; subst; [reflexivity|].
  rewrite (IH _ Hd'). f_equal. rewrite Hdec, !(times_phi E L) in Hdec'. apply (gen_inj L) in Hdec'.
  apply (phi_inj_small L) in Hdec'; lia.
Qed.
Print Assumptions C47_overspending_rejected.

(** the bounds hold for the example group and the ballot accepted above *)
Example C47_example :
  key_of (rs 987654321) ex_key /\ (Z.of_nat 2 * (Z.of_N 3 * Z.of_N 3) < order RL)%Z /\ (Z.of_N 9 < order RL)%Z /\
  exists p, qv_params ex_key 2 9 3 p.
Proof.
  split; [apply re_eq; vm_compute; reflexivity|]. split; [vm_compute; reflexivity|]. split; [vm_compute; reflexivity|].
  destruct (qv_new_total RE RL ex_key 2 9 (fun n _ => int_estimate_valid n)) as [p Hp]; [lia|lia|lia|]. exists p. constructor; [exact Hp|lia|lia].
Qed.
