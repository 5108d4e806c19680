(** * Witnesses from two accepted proofs: lemmas for C64 *)
From Coq Require Import List String NArith ZArith Field Arith Lia Bool.
From Verif.Model Require Import Base Group Transcript Keys Encryption LogEquality Possession Commitment Mul Sharing.
From Verif.Spec Require Import Encryption LogEquality Sigma Possession Domains Rom Verifiers Forking Extractors.
From Verif.Proofs Require Import Algebra Lists Encryption LogEquality Possession Commitment SumOfSquares Rom Verifiers Forgery Forking.
Import ListNotations.
Open Scope string_scope.
Open Scope list_scope.
Open Scope nat_scope.

Section Run.
Context (E : Env) (o : hash (Scalar E)).
Local Notation H := (hashed_by E o).

Lemma possession_run p keys t : run o (possession_verifier p keys t) = ProofOfPossession_verify (E:=H) p keys t.
Proof.
  unfold possession_verifier, ProofOfPossession_verify. cbv zeta. destruct (check_lengths _ _ _); [|reflexivity].
  rewrite run_doing. apply bind_ext. intros t1. reflexivity.
Qed.

Lemma participant_run ks i p : run o (participant_verifier ks i p) = PublicKeySet_verify_participant (E:=H) ks i p.
Proof.
  unfold participant_verifier, PublicKeySet_verify_participant. change (PublicKeySet_participant_key (E:=H) ks i) with (PublicKeySet_participant_key (E:=E) ks i).
  destruct (PublicKeySet_participant_key ks i) as [key|]; [|reflexivity].
  rewrite run_after, possession_run. apply bind_ext. intros [r t1]. reflexivity.
Qed.

Lemma dealer_run params poly p : run o (dealer_verifier params poly p) = PublicKeySet_validate (E:=H) params poly p.
Proof.
  unfold dealer_verifier, PublicKeySet_validate. destruct (negb _); [reflexivity|].
  rewrite run_doing. apply bind_ext. intros keys. rewrite run_after, possession_run. apply bind_ext. intros [r t1]. reflexivity.
Qed.

Lemma commitment_run p c K C B t : run o (commitment_verifier p c K C B t) = CommitmentEquivalenceProof_verify (E:=H) p c K C B t.
Proof.
  unfold commitment_verifier, CommitmentEquivalenceProof_verify. cbv zeta.
  repeat (rewrite run_doing; apply bind_ext; intros ?). reflexivity.
Qed.

End Run.

Section Most.
Context (E : Env).

Lemma possession_most p (keys : list (PublicKey E)) t : at_most 1 (possession_verifier p keys t).
Proof.
  unfold possession_verifier. cbv zeta. destruct (check_lengths _ _ _); [|constructor].
  destruct (pop_recommit _ _ _); cbn [doing]; [|constructor]. constructor. intros c. constructor.
Qed.

Lemma participant_most (ks : PublicKeySet E) i p : at_most 1 (participant_verifier ks i p).
Proof.
  unfold participant_verifier. destruct (PublicKeySet_participant_key ks i) as [key|]; [|constructor].
  unfold after. apply (at_most_andthen _ 1 0); [apply possession_most|]. intros [a|]; cbn [doing]; constructor.
Qed.

Lemma dealer_most params poly (p : ProofOfPossession E) : at_most 1 (dealer_verifier params poly p).
Proof.
  unfold dealer_verifier. destruct (negb _); [constructor|]. destruct (mapM _ _) as [keys|]; cbn [doing]; [|constructor].
  unfold after. apply (at_most_andthen _ 1 0); [apply possession_most|]. intros [a|]; cbn [doing]; constructor.
Qed.

Lemma commitment_most p c (K : PublicKey E) C B t : at_most 1 (commitment_verifier p c K C B t).
Proof.
  unfold commitment_verifier. cbv zeta.
  do 8 (match goal with |- context [doing ?m _] => destruct m as [?|?]; cbn [doing]; [|constructor] end).
  constructor. intros x. constructor.
Qed.

End Most.

(** ** the input of the challenge *)
Section Asked.
Context (E : Env) (o : hash (Scalar E)).

Lemma log_equality_one (p : LogEqualityProof E) K powers t r q :
  run o (log_equality_verifier p K powers t) = Ret (r, q ++ [TChal "c"]) ->
  asked o (log_equality_verifier p K powers t) = [(q, "c")].
Proof.
  unfold log_equality_verifier. cbv zeta.
  do 5 (match goal with |- context [doing ?m _] => destruct m as [?|?]; cbn [doing]; [|discriminate] end).
  cbn. intros H. injection H as _ H. apply app_inj_tail in H as [-> _]. reflexivity.
Qed.

Lemma sum_of_squares_one p cs z K t r q :
  run o (sum_of_squares_verifier p cs z K t) = Ret (Ok r, q ++ [TChal "c"]) ->
  asked o (sum_of_squares_verifier (E:=E) p cs z K t) = [(q, "c")].
Proof.
  unfold sum_of_squares_verifier. destruct (check_lengths _ _ _); [|discriminate]. cbv zeta.
  do 7 (match goal with |- context [doing ?m _] => destruct m as [?|?]; cbn [doing]; [|discriminate] end).
  cbn. intros H. injection H as _ H. apply app_inj_tail in H as [-> _]. reflexivity.
Qed.

Lemma possession_one p keys t r q :
  run o (possession_verifier p keys t) = Ret (Ok r, q ++ [TChal "c"]) ->
  asked o (possession_verifier (E:=E) p keys t) = [(q, "c")].
Proof.
  unfold possession_verifier. cbv zeta. destruct (check_lengths _ _ _); [|discriminate].
  match goal with |- context [doing ?m _] => destruct m as [?|?]; cbn [doing]; [|discriminate] end.
  cbn. intros H. injection H as _ H. apply app_inj_tail in H as [-> _]. reflexivity.
Qed.

Lemma commitment_one p c K C B t r q :
  run o (commitment_verifier p c K C B t) = Ret (Ok r, q ++ [TChal "c"]) ->
  asked o (commitment_verifier (E:=E) p c K C B t) = [(q, "c")].
Proof.
  unfold commitment_verifier. cbv zeta.
  do 8 (match goal with |- context [doing ?m _] => destruct m as [?|?]; cbn [doing]; [|discriminate] end).
  cbn. intros H. injection H as _ H. apply app_inj_tail in H as [-> _]. reflexivity.
Qed.

Lemma asked_after_pure {A B : Type} (T : strategy (Scalar E) (outcome A)) (f : A -> outcome B) :
  asked o (after T (fun a => Output (f a))) = asked o T.
Proof. unfold after. rewrite asked_andthen. destruct (run o T); cbn; apply app_nil_r. Qed.

End Asked.

(** ** two accepted proofs *)
Section Two.
Context (E : Env) (L : GroupLaws E).
Add Field s_field_two : (s_field L).
Local Notation scalar := (Scalar E).
Local Notation element := (Element E).

Lemma le_two (o o2 : hash (Scalar E)) d p (K : PublicKey E) P0 P1 t p2 (K2 : PublicKey E) P02 P12 t2 :
  genuine K -> genuine K2 ->
  ok_t (run o (log_equality_verifier p K (P0, P1) t)) = true ->
  ok_t (run o2 (log_equality_verifier p2 K2 (P02, P12) t2)) = true ->
  let y := last (asked o (log_equality_verifier p K (P0, P1) t)) d in
  last (asked o2 (log_equality_verifier p2 K2 (P02, P12) t2)) d = y ->
  answer o y <> answer o2 y ->
  P02 = P0 /\ P12 = P1 /\ K2 = K /\ t2 = t /\
  P0 = (generator * logarithm_from L p p2)%E /\ P1 = (pk_element K * logarithm_from L p p2)%E.
Proof.
  intros HK HK2 Ho Ho2 y Hy Hne. unfold ok_t in Ho, Ho2.
  destruct (run o _) as [[[[]|e] t']|] eqn:Hr; try discriminate. destruct (run o2 _) as [[[[]|e] t2']|] eqn:Hr2; try discriminate.
  pose proof Hr as Hv. pose proof Hr2 as Hv2. rewrite log_equality_run in Hv, Hv2.
  apply (le_verify_ok_iff (hashed_by E o) L) in Hv as (q & Hq & Hc & ->). cbn in Hc.
  apply (le_verify_ok_iff (hashed_by E o2) L) in Hv2 as (q2 & Hq2 & Hc2 & ->). cbn in Hc2.
  apply log_equality_one in Hr. apply log_equality_one in Hr2. unfold y in *. rewrite Hr, Hr2 in *. cbn [last] in *.
  injection Hy as ->. unfold answer in Hne. cbn [fst snd] in Hne. rewrite Hc, Hc2 in Hne.
  destruct (le_hashed_inj E L _ _ _ _ _ _ _ _ _ _ _ _ _ Hq Hq2) as (Ht & Hb & HP0 & HP1 & HX0 & HX1). subst P02 P12 t2.
  pose proof (genuine_eq E K K2 HK HK2 Hb) as Hel. rewrite <- Hel in HX1.
  split; [reflexivity|]. split; [reflexivity|]. split; [symmetry; exact Hel|]. split; [reflexivity|].
  unfold logarithm_from, slope. eapply (le_extract E L); [split; reflexivity|split; [exact HX0|exact HX1]|exact Hne].
Qed.

Lemma genuine_eqs (keys keys2 : list (PublicKey E)) : Forall genuine keys -> Forall genuine keys2 ->
  map pk_bytes keys = map pk_bytes keys2 -> map pk_element keys = map pk_element keys2.
Proof.
  intros H. revert keys2. induction H as [|k keys Hk H IH]; intros [|k2 keys2] H2 He; try discriminate; [reflexivity|].
  cbn in He |- *. injection He as Hb He. inversion H2 as [|? ? Hk2 H2']; subst.
  f_equal; [rewrite (genuine_eq E k k2 Hk Hk2 Hb); reflexivity|apply IH; assumption].
Qed.

Lemma key_of_combine (ks : list (PublicKey E)) (xs : list scalar) :
  map pk_element ks = map (fun x => generator * x)%E xs -> Forall2 key_of xs ks.
Proof.
  revert xs; induction ks as [|k ks IH]; intros [|x xs] He; try discriminate; constructor.
  - cbn in He. injection He as He _. exact He.
  - apply IH. cbn in He. injection He as _ He. exact He.
Qed.

Lemma pop_two (o o2 : hash (Scalar E)) d p (keys : list (PublicKey E)) t p2 (keys2 : list (PublicKey E)) t2 :
  Forall genuine keys -> Forall genuine keys2 ->
  ok_t (run o (possession_verifier p keys t)) = true ->
  ok_t (run o2 (possession_verifier p2 keys2 t2)) = true ->
  let y := last (asked o (possession_verifier p keys t)) d in
  last (asked o2 (possession_verifier p2 keys2 t2)) d = y ->
  answer o y <> answer o2 y ->
  Forall2 key_of (secrets_from L p p2) keys.
Proof.
  intros HK HK2 Ho Ho2 y Hy Hne. unfold ok_t in Ho, Ho2.
  destruct (run o _) as [[[[]|e] t']|] eqn:Hr; try discriminate. destruct (run o2 _) as [[[[]|e] t2']|] eqn:Hr2; try discriminate.
  pose proof Hr as Hv. pose proof Hr2 as Hv2. rewrite possession_run in Hv, Hv2.
  apply (pop_verify_ok_iff (hashed_by E o) L) in Hv as (xs & bs & Ha & Hb & Hc & ->). cbn in Hc.
  apply (pop_verify_ok_iff (hashed_by E o2) L) in Hv2 as (xs2 & bs2 & Ha2 & Hb2 & Hc2 & ->). cbn in Hc2.
  change (pop_answers (E:=E) (map pk_element keys) xs (pop_challenge p) (pop_responses p)) in Ha.
  change (pop_answers (E:=E) (map pk_element keys2) xs2 (pop_challenge p2) (pop_responses p2)) in Ha2.
  change (encoded (E:=E) xs bs) in Hb. change (encoded (E:=E) xs2 bs2) in Hb2.
  apply possession_one in Hr. apply possession_one in Hr2. unfold y in *. rewrite Hr, Hr2 in *. cbn [last] in *.
  injection Hy as Hq. unfold answer in Hne. cbn [fst snd] in Hne.
  assert (Hne' : pop_challenge p <> pop_challenge p2).
  { intros He. apply Hne. transitivity (pop_challenge p); [exact Hc|]. rewrite He.
    transitivity (o2 (pop_query t2 (map pk_bytes keys2) bs2) "c"); [symmetry; exact Hc2|]. exact (f_equal (fun q => o2 q "c") Hq). }
  assert (Hlen : forall ks xs bs c ss, pop_answers (E:=E) ks xs c ss -> encoded (E:=E) xs bs -> List.length ks = List.length bs).
  { intros ks0 xs0 bs0 c0 ss0 [H1 ->] H2. apply Forall2_length' in H2. rewrite map_length, combine_length in H2. lia. }
  pose proof (Hlen _ _ _ _ _ Ha Hb) as Hl. pose proof (Hlen _ _ _ _ _ Ha2 Hb2) as Hl2. rewrite map_length in Hl, Hl2.
  apply pop_query_inj in Hq; [|rewrite map_length; exact Hl2|rewrite map_length; exact Hl].
  destruct Hq as (_ & Hk & ->). pose proof (encoded_inj E L _ _ _ Hb Hb2) as ->.
  rewrite <- (genuine_eqs keys keys2 HK HK2 (eq_sym Hk)) in Ha2.
  pose proof (pop_extract E L _ _ _ _ _ _ Ha Ha2 Hne') as Hx.
  apply key_of_combine. rewrite Hx. unfold secrets_from. rewrite map_map. apply map_ext. intros [a b]. reflexivity.
Qed.

Lemma ce_two (o o2 : hash (Scalar E)) d H p c (K : PublicKey E) C t p2 c2 (K2 : PublicKey E) C2 t2 :
  genuine K -> genuine K2 ->
  ok_t (run o (commitment_verifier p c K C H t)) = true ->
  ok_t (run o2 (commitment_verifier p2 c2 K2 C2 H t2)) = true ->
  let y := last (asked o (commitment_verifier p c K C H t)) d in
  last (asked o2 (commitment_verifier p2 c2 K2 C2 H t2)) d = y ->
  answer o y <> answer o2 y ->
  let '(r, v, rc) := opening_from L p p2 in
  ce_statement (E:=E) (pk_element K) H (random_element c) (blinded_element c) C r v rc.
Proof.
  intros HK HK2 Ho Ho2 y Hy Hne. unfold ok_t in Ho, Ho2.
  destruct (run o _) as [[[[]|e] t']|] eqn:Hr; try discriminate. destruct (run o2 _) as [[[[]|e] t2']|] eqn:Hr2; try discriminate.
  pose proof Hr as Hv. pose proof Hr2 as Hv2. rewrite commitment_run in Hv, Hv2.
  apply (ce_verify_ok_iff (hashed_by E o) L) in Hv as (X1 & X2 & X3 & q & Ha & Hq & Hc & ->). cbn in Hc.
  apply (ce_verify_ok_iff (hashed_by E o2) L) in Hv2 as (Y1 & Y2 & Y3 & q2 & Ha2 & Hq2 & Hc2 & ->). cbn in Hc2.
  apply commitment_one in Hr. apply commitment_one in Hr2. unfold y in *. rewrite Hr, Hr2 in *. cbn [last] in *.
  injection Hy as ->. unfold answer in Hne. cbn [fst snd] in Hne. rewrite Hc, Hc2 in Hne.
  destruct (ce_hashed_inj E L _ _ _ _ _ _ _ _ _ _ _ _ _ _ _ _ _ Hq Hq2) as (_ & Hb & HR & HB & -> & -> & -> & ->).
  rewrite <- HR, <- HB, <- (genuine_eq E K K2 HK HK2 Hb) in Ha2.
  unfold opening_from, slope. exact (ce_extract E L _ _ _ _ _ _ _ _ _ _ _ _ _ _ _ _ Ha Ha2 Hne).
Qed.

Lemma values_flat c c' rs rs' : List.length rs = List.length rs' ->
  values_from L c c' (sq_flat rs) (sq_flat rs') =
  map (fun p : (scalar * scalar) * (scalar * scalar) => ((snd (fst p) - snd (snd p)) * s_inv L (c - c'))%S) (combine rs rs').
Proof.
  revert rs'; induction rs as [|[a b] rs IH]; intros [|[a' b'] rs'] Hl; try discriminate; [reflexivity|].
  cbn in Hl |- *. f_equal. apply IH. lia.
Qed.

Lemma sq_two (o o2 : hash (Scalar E)) d p cs z (K : PublicKey E) t p2 cs2 z2 (K2 : PublicKey E) t2 :
  genuine K -> genuine K2 ->
  ok_t (run o (sum_of_squares_verifier p cs z K t)) = true ->
  ok_t (run o2 (sum_of_squares_verifier p2 cs2 z2 K2 t2)) = true ->
  let y := last (asked o (sum_of_squares_verifier p cs z K t)) d in
  last (asked o2 (sum_of_squares_verifier p2 cs2 z2 K2 t2)) d = y ->
  answer o y <> answer o2 y ->
  sq_statement (E:=E) K cs z (values_from L (sq_challenge p) (sq_challenge p2) (sq_ciphertext_responses p) (sq_ciphertext_responses p2)).
Proof.
  intros HK HK2 Ho Ho2 y Hy Hne. unfold ok_t in Ho, Ho2.
  destruct (run o _) as [[[[]|e] t']|] eqn:Hr; try discriminate. destruct (run o2 _) as [[[[]|e] t2']|] eqn:Hr2; try discriminate.
  pose proof Hr as Hv. pose proof Hr2 as Hv2. rewrite sum_of_squares_run in Hv, Hv2.
  apply (sq_verify_ok_iff (hashed_by E o) L) in Hv as (rs & As & Z & q & Hf & Ha & Hq & Hc & ->). cbn in Hc.
  apply (sq_verify_ok_iff (hashed_by E o2) L) in Hv2 as (rs2 & As2 & Z2 & q2 & Hf2 & Ha2 & Hq2 & Hc2 & ->). cbn in Hc2.
  apply sum_of_squares_one in Hr. apply sum_of_squares_one in Hr2. unfold y in *. rewrite Hr, Hr2 in *. cbn [last] in *.
  injection Hy as ->. unfold answer in Hne. cbn [fst snd] in Hne. rewrite Hc, Hc2 in Hne.
  destruct (sq_hashed_inj E L _ _ _ _ _ _ _ _ _ _ _ _ _ (sq_answers_length E _ _ _ _ _ _ _ _ Ha) (sq_answers_length E _ _ _ _ _ _ _ _ Ha2) Hq Hq2)
    as (_ & Hb & <- & <- & <- & <-).
  rewrite <- (genuine_eq E K K2 HK HK2 Hb) in Ha2.
  change (@sq_ciphertext_responses E p = sq_flat (E:=E) rs) in Hf. change (@sq_ciphertext_responses E p2 = sq_flat (E:=E) rs2) in Hf2.
  rewrite Hf, Hf2, values_flat.
  - exact (sq_extract E L _ _ _ _ _ _ _ _ _ _ _ Ha Ha2 Hne).
  - destruct Ha as [H1 _], Ha2 as [H2 _]. transitivity (List.length cs); [exact H1|symmetry; exact H2].
Qed.

End Two.

(** ** verifiers built from others *)
Section Inverse.
Context (E : Env) (L : GroupLaws E) (o : hash (Scalar E)).

Lemma ok_t_inv {A B T : Type} (m : outcome (result A B * T)) : ok_t m = true -> exists a t, m = Ret (Ok a, t).
Proof. destruct m as [[[a|e] t]|]; cbn; try discriminate. eauto. Qed.
Lemma ok_inv {A B : Type} (m : outcome (result A B)) : ok m = true -> exists a, m = Ret (Ok a).
Proof. destruct m as [[a|e]|]; cbn; try discriminate. eauto. Qed.

Lemma log_equality_nonempty p K powers t :
  ok_t (run o (log_equality_verifier p K powers t)) = true -> asked o (log_equality_verifier (E:=E) p K powers t) <> [].
Proof.
  intros Ho. destruct (ok_t_inv _ Ho) as ([] & t' & Hr). pose proof Hr as Hv. destruct powers as [P0 P1].
  rewrite log_equality_run in Hv. apply (le_verify_ok_iff (hashed_by E o) L) in Hv as (q & _ & _ & ->).
  rewrite (log_equality_one E o _ _ _ _ _ _ Hr). discriminate.
Qed.

Lemma possession_nonempty p keys t :
  ok_t (run o (possession_verifier p keys t)) = true -> asked o (possession_verifier (E:=E) p keys t) <> [].
Proof.
  intros Ho. destruct (ok_t_inv _ Ho) as ([] & t' & Hr). pose proof Hr as Hv.
  rewrite possession_run in Hv. apply (pop_verify_ok_iff (hashed_by E o) L) in Hv as (xs & bs & _ & _ & _ & ->).
  rewrite (possession_one E o _ _ _ _ _ Hr). discriminate.
Qed.

Lemma sum_of_squares_nonempty p cs z K t :
  ok_t (run o (sum_of_squares_verifier p cs z K t)) = true -> asked o (sum_of_squares_verifier (E:=E) p cs z K t) <> [].
Proof.
  intros Ho. destruct (ok_t_inv _ Ho) as ([] & t' & Hr). pose proof Hr as Hv.
  rewrite sum_of_squares_run in Hv. apply (sq_verify_ok_iff (hashed_by E o) L) in Hv as (rs & As & Z & q & _ & _ & _ & _ & ->).
  rewrite (sum_of_squares_one E o _ _ _ _ _ _ _ Hr). discriminate.
Qed.

Lemma commitment_nonempty p c K C B t :
  ok_t (run o (commitment_verifier p c K C B t)) = true -> asked o (commitment_verifier (E:=E) p c K C B t) <> [].
Proof.
  intros Ho. destruct (ok_t_inv _ Ho) as ([] & t' & Hr). pose proof Hr as Hv.
  rewrite commitment_run in Hv. apply (ce_verify_ok_iff (hashed_by E o) L) in Hv as (X1 & X2 & X3 & q & _ & _ & _ & ->).
  rewrite (commitment_one E o _ _ _ _ _ _ _ _ Hr). discriminate.
Qed.

Lemma from_element_genuine (e : Element E) key : PublicKey_from_element e = Ret key -> pk_element key = e /\ genuine key.
Proof.
  intros H. destruct (pk_from_element_ok E _ _ H) as [Hel Hby]. apply (ser_element_ok _ L) in Hby as [_ HK]. auto.
Qed.

Lemma from_elements_genuine (es : list (Element E)) keys :
  mapM PublicKey_from_element es = Ret keys -> Forall genuine keys /\ map pk_element keys = es.
Proof.
  revert keys; induction es as [|e es IH]; intros keys H; cbn [mapM] in H.
  - injection H as <-. auto.
  - inv_bind H. inv_bind H. injection H as <-. apply from_element_genuine in Hm as [H1 H2]. destruct (IH _ Hm0) as [H3 H4].
    split; [constructor; assumption|]. cbn. congruence.
Qed.

Lemma dealer_inv params poly p :
  ok (run o (dealer_verifier params poly p)) = true ->
  exists keys, Forall genuine keys /\ map pk_element keys = poly /\
    asked o (dealer_verifier params poly p) = asked o (possession_verifier (E:=E) p keys (share_poly_transcript params)) /\
    ok_t (run o (possession_verifier (E:=E) p keys (share_poly_transcript params))) = true.
Proof.
  intros Ho. unfold dealer_verifier in *. destruct (negb _); [discriminate|].
  destruct (mapM _ poly) as [keys|] eqn:Hm; cbn [doing] in *; [|discriminate].
  destruct (from_elements_genuine _ _ Hm) as [H1 H2]. exists keys. split; [exact H1|]. split; [exact H2|].
  split; [apply asked_after_pure|]. destruct (ok_inv _ Ho) as [a Ha]. apply run_after_inv in Ha as ([[[]|e] t'] & Hr & Hf); [|discriminate].
  rewrite Hr. reflexivity.
Qed.

Lemma participant_inv ks i p :
  ok (run o (participant_verifier ks i p)) = true ->
  exists key, nth_error (ks_participant_keys ks) i = Some key /\
    asked o (participant_verifier ks i p) = asked o (possession_verifier (E:=E) p [key] (participant_pop_transcript ks i)) /\
    ok_t (run o (possession_verifier (E:=E) p [key] (participant_pop_transcript ks i))) = true.
Proof.
  intros Ho. unfold participant_verifier, PublicKeySet_participant_key in *.
  destruct (nth_error (ks_participant_keys ks) i) as [key|]; [|discriminate]. exists key. split; [reflexivity|].
  split; [apply asked_after_pure|]. destruct (ok_inv _ Ho) as [a Ha]. apply run_after_inv in Ha as ([[[]|e] t'] & Hr & Hf); [|discriminate].
  rewrite Hr. reflexivity.
Qed.

Lemma zero_inv pk c p :
  ok (run o (zero_verifier pk c p)) = true ->
  asked o (zero_verifier pk c p) =
    asked o (log_equality_verifier (E:=E) p pk (random_element c, blinded_element c) (transcript_new "zero_encryption")) /\
  ok_t (run o (log_equality_verifier (E:=E) p pk (random_element c, blinded_element c) (transcript_new "zero_encryption"))) = true.
Proof.
  intros Ho. unfold zero_verifier in *. split; [apply asked_after_pure|]. destruct (ok_inv _ Ho) as [a Ha].
  apply run_after_inv in Ha as ([[[]|e] t'] & Hr & Hf); [|discriminate]. rewrite Hr. reflexivity.
Qed.

Lemma decryption_inv d c key p t :
  ok_t (run o (decryption_verifier d c key p t)) = true ->
  exists base, genuine base /\ pk_element base = random_element c /\
    let V := log_equality_verifier (E:=E) p base (pk_element key, vd_dh_element (cd_inner d)) (start_proof t "decryption_with_custom_key") in
    asked o (decryption_verifier d c key p t) = asked o V /\ ok_t (run o V) = true.
Proof.
  intros Ho. unfold decryption_verifier in *. destruct (PublicKey_from_element (random_element c)) as [base|] eqn:Hb; cbn [doing] in *; [|discriminate].
  destruct (from_element_genuine _ _ Hb) as [H1 H2]. exists base. split; [exact H2|]. split; [exact H1|]. cbv zeta.
  split; [apply asked_after_pure|]. destruct (ok_t_inv _ Ho) as (a & t1 & Ha).
  apply run_after_inv in Ha as ([[[]|e] t'] & Hr & Hf); [|discriminate]. rewrite Hr. reflexivity.
Qed.

Lemma share_inv ks d c i p :
  ok (run o (share_verifier ks d c i p)) = true ->
  exists key base, nth_error (ks_participant_keys ks) i = Some key /\ genuine base /\ pk_element base = random_element c /\
    let V := log_equality_verifier (E:=E) p base (pk_element key, vd_dh_element (cd_inner d)) (decryption_share_transcript ks i) in
    asked o (share_verifier ks d c i p) = asked o V /\ ok_t (run o V) = true.
Proof.
  intros Ho. unfold share_verifier, index in *. destruct (nth_error (ks_participant_keys ks) i) as [key|]; cbn [doing] in *; [|discriminate].
  destruct (PublicKey_from_element (random_element c)) as [base|] eqn:Hb; cbn [doing] in *; [|discriminate].
  destruct (from_element_genuine _ _ Hb) as [H1 H2]. exists key, base. split; [reflexivity|]. split; [exact H2|]. split; [exact H1|]. cbv zeta.
  split; [apply asked_after_pure|]. destruct (ok_inv _ Ho) as (a & Ha).
  apply run_after_inv in Ha as ([[[]|e] t'] & Hr & Hf); [|discriminate]. rewrite Hr. reflexivity.
Qed.

End Inverse.

Section Answers.
Context (G : Group) (L : GroupLaws G).
Add Field ext_field : (s_field L).

Lemma le_base_answers (K : Element G) (r x c : Scalar G) :
  ((generator * (x + r * c)%S - generator * r * c)%E = (generator * x)%E) /\
  ((K * (x + r * c)%S - K * r * c)%E = (K * x)%E).
Proof. split; el_ring L. Qed.

Lemma commit_zero (w : Scalar G) (H : Element G) : (generator * w + H * s_default)%E = (generator * w)%E.
Proof. el_ring L. Qed.

End Answers.

Section CommitmentAnswers.
Context (E : Env) (L : GroupLaws E).
Add Field ext_field2 : (s_field L).

Lemma ce_base_answers (K P : Element E) (r v w x y c : Scalar E) :
  ce_answers K (P + generator * (w * c - (y + v * c))%S)%E (generator * r)%E (generator * v + K * r)%E (generator * w)%E
    (generator * x)%E (generator * y + K * x)%E P c (x + r * c)%S (y + v * c)%S (s_of_u64 1).
Proof. unfold ce_answers. repeat apply conj; el_ring L. Qed.

End CommitmentAnswers.
