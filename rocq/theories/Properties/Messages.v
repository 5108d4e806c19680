(** * C87: messages of errors tell the errors apart *)
From Coq Require Import List String Ascii NArith ZArith Bool Lia.
From Verif.Properties Require Import Quadratic.
From Verif.Model Require Import Base Group Transcript Keys Encryption Range Choice Quadratic Sharing Dkg Messages.
From Verif.Spec Require Import Quadratic.
From Verif.Proofs Require Import Algebra RangeProof Quadratic.
Import ListNotations.
Open Scope string_scope.

(** ** parts of strings *)
Lemma append_length (a b : string) : String.length (a ++ b) = (String.length a + String.length b)%nat.
Proof. induction a as [|c a IH]; cbn; [reflexivity|rewrite IH; reflexivity]. Qed.

Lemma append_inj_r (a b c : string) : a ++ c = b ++ c -> a = b.
Proof.
  revert b. induction a as [|x a IH]; intros [|y b] H; cbn in H.
  - reflexivity.
  - exfalso. apply (f_equal String.length) in H. cbn in H. rewrite append_length in H. lia.
  - exfalso. apply (f_equal String.length) in H. cbn in H. rewrite append_length in H. lia.
  - injection H as -> H. f_equal. exact (IH b H).
Qed.

Lemma append_inj_l (a b c : string) : a ++ b = a ++ c -> b = c.
Proof. induction a as [|x a IH]; cbn; intros H; [exact H|]. injection H as H. exact (IH H). Qed.

(** digits at the end, after a parenthesis *)
Lemma digits_end (d d' : string) : all_digits d = true -> all_digits d' = true ->
  forall a a', a ++ "(" ++ d = a' ++ "(" ++ d' -> a = a' /\ d = d'.
Proof.
  intros Hd Hd'.
  assert (Hno : forall s x, all_digits (s ++ "(" ++ x) = false).
  { intros s x. induction s as [|c s IH]; [reflexivity|]. change (all_digits (String c s ++ "(" ++ x)) with (is_digit c && all_digits (s ++ "(" ++ x)).
    rewrite IH. apply andb_false_r. }
  induction a as [|c a IH]; intros [|c' a'] H.
  - cbn in H. injection H as H. auto.
  - exfalso. cbn in H. injection H as _ H. rewrite H in Hd. change (all_digits (a' ++ "(" ++ d') = true) in Hd. rewrite Hno in Hd. discriminate.
  - exfalso. cbn in H. injection H as _ H. rewrite <- H in Hd'. change (all_digits (a ++ "(" ++ d) = true) in Hd'. rewrite Hno in Hd'. discriminate.
  - change (String c (a ++ "(" ++ d) = String c' (a' ++ "(" ++ d')) in H. injection H as -> H. apply IH in H as [-> ->]. auto.
Qed.

Lemma ret_inj {A : Type} (x y : A) : Ret x = Ret y -> x = y.
Proof. congruence. Qed.

Lemma usize_display_inj n m : usize_display n = usize_display m -> n = m.
Proof. intros H. apply N_decimal_inj in H. lia. Qed.

Lemma counts_inj (p p' : string) a e a' e' :
  p ++ "(" ++ usize_display a ++ ") differs from expected (" ++ usize_display e ++ ")" =
  p' ++ "(" ++ usize_display a' ++ ") differs from expected (" ++ usize_display e' ++ ")" -> p = p' /\ a = a' /\ e = e'.
Proof.
  intros H.
  assert (Heq : forall q x y, q ++ "(" ++ usize_display x ++ ") differs from expected (" ++ usize_display y ++ ")" =
    ((q ++ "(" ++ usize_display x ++ ") differs from expected ") ++ "(" ++ usize_display y) ++ ")").
  { intros q x y. rewrite !sapp_assoc. reflexivity. }
  rewrite !Heq in H. apply append_inj_r in H. apply digits_end in H as [H He]; try apply N_decimal_digits.
  assert (Heq' : forall q x, q ++ "(" ++ usize_display x ++ ") differs from expected " = (q ++ "(" ++ usize_display x) ++ ") differs from expected ").
  { intros q x. rewrite !sapp_assoc. reflexivity. }
  rewrite !Heq' in H. apply append_inj_r in H. apply digits_end in H as [H Ha]; try apply N_decimal_digits.
  apply usize_display_inj in He, Ha. auto.
Qed.

Lemma verification_inj e e' : VerificationError_display e = VerificationError_display e' -> e = e'.
Proof.
  destruct e as [|c x y], e' as [|c' x' y']; cbn [VerificationError_display]; intros H; try (cbn in H; discriminate H); [reflexivity|].
  apply append_inj_l in H.
  assert (Heq : forall c z r, c ++ " (" ++ z ++ r = (c ++ " ") ++ "(" ++ z ++ r) by (intros; rewrite sapp_assoc; reflexivity).
  rewrite !Heq in H. apply counts_inj in H as (H & -> & ->). apply append_inj_r in H as ->. reflexivity.
Qed.

Lemma sharing_inj e e' : SharingError_display e = SharingError_display e' -> e = e'.
Proof.
  destruct e, e'; cbn [SharingError_display]; intros H; try (cbn in H; discriminate H); try reflexivity.
  apply append_inj_l, verification_inj in H as ->. reflexivity.
Qed.

(** An error of the crate can be told from its message: different errors of one type have different messages, including
    the numbers in them, the names of the collections and the errors inside. *)
Theorem C87_messages_identify_errors :
  (forall e e', VerificationError_display e = VerificationError_display e' -> e = e') /\
  (forall e e', PublicKeyConversionError_display e = PublicKeyConversionError_display e' -> e = e') /\
  (forall e e', ChoiceVerificationError_display e = ChoiceVerificationError_display e' -> e = e') /\
  (forall e e', SharingError_display e = SharingError_display e' -> e = e') /\
  (forall e e', DkgError_display e = DkgError_display e' -> e = e') /\
  (forall b e e' s, (forall i err, e = QVVariant i err \/ e' = QVVariant i err -> (N.of_nat i + 1 < 2 ^ 64)%N) ->
     QuadraticVotingError_display b e = Ret s -> QuadraticVotingError_display b e' = Ret s -> e = e').
Proof.
  split; [exact verification_inj|]. split; [|split; [|split; [exact sharing_inj|split]]].
  - intros [] []; cbn; intros H; try discriminate H; reflexivity.
  - intros [x y|e|e] [x' y'|e'|e']; cbn [ChoiceVerificationError_display]; intros H; try (cbn in H; discriminate H).
    + change ("number of options in the ballot (" ++ ?r) with ("number of options in the ballot " ++ "(" ++ r) in H.
      apply (counts_inj "number of options in the ballot " "number of options in the ballot ") in H as (_ & -> & ->). reflexivity.
    + apply append_inj_l, verification_inj in H as ->. reflexivity.
    + apply append_inj_l, verification_inj in H as ->. reflexivity.
  - intros [] []; cbn [DkgError_display]; intros H; try (cbn in H; discriminate H); try reflexivity;
      apply append_inj_l, sharing_inj in H as ->; reflexivity.
  - intros b e e' s Hi H H'.
    assert (Hv : forall i err, e = QVVariant i err \/ e' = QVVariant i err ->
      QuadraticVotingError_display b (QVVariant i err) =
      Ret ("error verifying range proof for option #" ++ N_decimal (N.of_nat i + 1) ++ ": " ++ VerificationError_display err)).
    { intros i err He. apply Hi in He. cbn [QuadraticVotingError_display]. unfold u64_add, u64_fit, u64_lim.
      destruct (N.ltb_spec (N.of_nat i + 1) (2 ^ 64)); [reflexivity|lia]. }
    assert (Hss : QuadraticVotingError_display b e = QuadraticVotingError_display b e') by congruence. clear H H' s.
    destruct e as [i err|err|err|x y], e' as [i' err'|err'|err'|x' y'];
      try rewrite (Hv i err) in Hss by auto; try rewrite (Hv i' err') in Hss by auto; cbn [QuadraticVotingError_display] in Hss;
      apply ret_inj in Hss; try (cbn in Hss; discriminate Hss).
    + apply append_inj_l, digits_split in Hss as [H1 H2]; try reflexivity; try apply N_decimal_digits.
      apply N_decimal_inj in H1. apply append_inj_l, verification_inj in H2 as ->. f_equal. lia.
    + apply append_inj_l, verification_inj in Hss as ->. reflexivity.
    + apply append_inj_l, verification_inj in Hss as ->. reflexivity.
    + apply (counts_inj "number of options in the ballot " "number of options in the ballot ") in Hss as (_ & -> & ->). reflexivity.
Qed.
Print Assumptions C87_messages_identify_errors.

(** an error with a source ends with the message of the source, and an error without a source has none inside *)
Theorem C87_sources :
  (forall e, ChoiceVerificationError_source e = None <-> exists x y, e = ChoiceOptionsLenMismatch x y) /\
  (forall e, SharingError_source e = None <-> forall err, e <> InvalidDealerProof err) /\
  (forall e, DkgError_source e = None <-> In e [DkgInvalidSecret; InvalidCommitment; DuplicateShare]) /\
  (forall e, QuadraticVotingError_source e = None <-> exists x y, e = QVOptionsLenMismatch x y) /\
  (forall e err, ChoiceVerificationError_source e = Some err ->
     exists p, ChoiceVerificationError_display e = p ++ ": " ++ VerificationError_display err) /\
  (forall e err, SharingError_source e = Some err -> exists p, SharingError_display e = p ++ ": " ++ VerificationError_display err) /\
  (forall e err, DkgError_source e = Some err -> exists p, DkgError_display e = p ++ ": " ++ SharingError_display err) /\
  (forall b e err s, QuadraticVotingError_source e = Some err -> QuadraticVotingError_display b e = Ret s ->
     exists p, s = p ++ ": " ++ VerificationError_display err).
Proof.
  split; [intros []; cbn; split; intros H; try discriminate H; try (destruct H as (x & y & H); discriminate H); eauto|].
  split; [intros []; cbn; split; intros H; try discriminate H; try reflexivity; try (intros err; discriminate); exfalso; exact (H _ eq_refl)|].
  split; [intros []; cbn; split; intros H; try discriminate H; try reflexivity; auto; repeat destruct H as [H|H]; try discriminate H; destruct H|].
  split; [intros []; cbn; split; intros H; try discriminate H; try (destruct H as (x & y & H); discriminate H); eauto|].
  split; [|split; [|split]].
  - intros [x y|e|e] err H; try discriminate H; injection H as ->; [exists "cannot verify sum proof"|exists "cannot verify range proofs"]; reflexivity.
  - intros [] err H; try discriminate H; injection H as ->.
    exists "proof of possession supplied with the dealer's public polynomial is invalid". reflexivity.
  - intros [] err H; try discriminate H; injection H as ->.
    + exists "provided proof of possession or public polynomial is malformed". reflexivity.
    + exists "public shares obtained from accumulated public polynomial are inconsistent". reflexivity.
  - intros b [i e|e|e|x y] err s H Hs; try discriminate H; injection H as ->; cbn [QuadraticVotingError_display] in Hs.
    + destruct (u64_add b (N.of_nat i) 1) as [k|]; [|discriminate Hs]. cbn [bind] in Hs. apply ret_inj in Hs. subst s.
      exists ("error verifying range proof for option #" ++ N_decimal k). rewrite sapp_assoc. reflexivity.
    + apply ret_inj in Hs. subst s. exists "error verifying range proof for credits". reflexivity.
    + apply ret_inj in Hs. subst s. exists "error verifying credit equivalence proof". reflexivity.
Qed.
Print Assumptions C87_sources.

Lemma nth_error_firstn' {A : Type} (l : list A) : forall n j, (j < n)%nat -> nth_error (firstn n l) j = nth_error l j.
Proof.
  induction l as [|x l IH]; intros [|n] [|j] Hj; try lia; try reflexivity. cbn. apply IH. lia.
Qed.

(** The message about an option of a quadratic voting ballot never panics and counts options from 1: option [k] is the first
    one with a wrong range proof. *)
Theorem C87_option_number :
  forall (E : Env) (ballot : QuadraticVotingBallot E) p e, (N.of_nat (List.length (qb_votes ballot)) < 2 ^ 64)%N ->
    QuadraticVotingBallot_verify ballot p = Ret (Err e) ->
    exists s, QuadraticVotingError_display (env_build E) e = Ret s /\
    forall k ve, (1 <= k)%nat ->
      s = "error verifying range proof for option #" ++ usize_display k ++ ": " ++ VerificationError_display ve <->
      qv_options_count p = List.length (qb_votes ballot) /\
      (forall v, In v (firstn (k - 1) (qb_votes ballot)) -> vote_checked p v (Ok tt)) /\
      exists v, nth_error (qb_votes ballot) (k - 1) = Some v /\ vote_checked p v (Err ve).
Proof.
  intros E ballot p e Hlen H. assert (Hrep := H). apply C47_errors in Hrep.
  set (text k ve := "error verifying range proof for option #" ++ usize_display k ++ ": " ++ VerificationError_display ve).
  assert (Hvar : forall i ve, e = QVVariant i ve -> QuadraticVotingError_display (env_build E) e = Ret (text (i + 1)%nat ve)).
  { intros i ve ->. destruct Hrep as (_ & _ & v & Hv & _). assert (Hi : (i < List.length (qb_votes ballot))%nat) by (apply nth_error_Some; congruence).
    cbn [QuadraticVotingError_display]. unfold u64_add, u64_fit, u64_lim. destruct (N.ltb_spec (N.of_nat i + 1) (2 ^ 64)); [|lia].
    cbn [bind]. unfold text, usize_display. do 4 f_equal. lia. }
  assert (Hother : forall k ve i err, text k ve = text i err -> k = i /\ ve = err).
  { intros k ve i err Ht. unfold text in Ht. apply append_inj_l, digits_split in Ht as [H1 H2]; try reflexivity; try apply N_decimal_digits.
    apply usize_display_inj in H1. apply append_inj_l, verification_inj in H2. auto. }
  assert (Hs : exists s, QuadraticVotingError_display (env_build E) e = Ret s /\
    forall k ve, (1 <= k)%nat -> s = text k ve <-> e = QVVariant (k - 1) ve).
  { destruct e as [i err|err|err|x y].
    - exists (text (i + 1)%nat err). split; [apply Hvar; reflexivity|]. intros k ve Hk. split.
      + intros Ht. apply Hother in Ht as [Ht ->]. f_equal. lia.
      + intros He. injection He as -> ->. f_equal. lia.
    - eexists. split; [reflexivity|]. intros k ve Hk. split; [intros Ht; cbn in Ht; discriminate Ht|discriminate].
    - eexists. split; [reflexivity|]. intros k ve Hk. split; [intros Ht; cbn in Ht; discriminate Ht|discriminate].
    - eexists. split; [reflexivity|]. intros k ve Hk. split; [intros Ht; cbn in Ht; discriminate Ht|discriminate]. }
  destruct Hs as (s & Hs & Hiff). exists s. split; [exact Hs|]. intros k ve Hk. fold (text k ve). rewrite (Hiff k ve Hk). clear Hvar Hs Hiff s.
  assert (Hfirst : forall n, (forall j v, (j < n)%nat -> nth_error (qb_votes ballot) j = Some v -> vote_checked p v (Ok tt)) <->
    (forall v, In v (firstn n (qb_votes ballot)) -> vote_checked p v (Ok tt))).
  { intros n. split.
    - intros Hj v Hin. apply In_nth_error in Hin as [j Hn]. assert (Hlt : (j < List.length (firstn n (qb_votes ballot)))%nat) by (apply nth_error_Some; congruence).
      rewrite firstn_length in Hlt. apply (Hj j v); [lia|]. rewrite <- Hn. symmetry. apply nth_error_firstn'. lia.
    - intros Hin j v Hj Hn. apply Hin. apply (nth_error_In _ j). rewrite nth_error_firstn' by exact Hj. exact Hn. }
  rewrite <- Hfirst. split.
  - intros ->. exact Hrep.
  - intros Hc. change (qv_reported p ballot (QVVariant (k - 1) ve)) in Hc. apply C47_errors in Hc. congruence.
Qed.
Print Assumptions C87_option_number.

Example C87_example :
  DkgError_display (MalformedParticipantProof (InvalidDealerProof (LenMismatch "public keys" 3 2))) =
    "provided proof of possession or public polynomial is malformed: proof of possession supplied with the dealer's public polynomial is invalid: number of public keys (2) differs from expected (3)" /\
  QuadraticVotingError_display {| debug_assertions := true; overflow_checks := true |} (QVVariant 11 ChallengeMismatch) =
    Ret "error verifying range proof for option #12: restored challenge scalar does not match the one provided in the proof".
Proof. split; reflexivity. Qed.
