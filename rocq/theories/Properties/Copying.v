(** * C82: ballots are not tied to voters, and ciphertexts are malleable *)
From Coq Require Import List NArith ZArith Arith Bool String Lia.
From Verif.Model Require Import Base Group Transcript Keys Encryption LogEquality Possession
  Ring Range Commitment Mul Sharing Choice Quadratic.
From Verif.Spec Require Import Encryption Sigma Sharing Choice Quadratic Tally.
From Verif.Proofs Require Import Lists Algebra Encryption RangeProof Sharing Choice Quadratic.
From Verif.Instance Require Import Primality Zq.
From Verif.Properties Require Import Keys LogEquality Ring Choice Quadratic Tally.
Import ListNotations.
Open Scope string_scope.
Open Scope list_scope.
Open Scope nat_scope.

(** What somebody who cast [m] copies of a ballot computes from the published totals. *)
Definition peek (m : nat) (totals : list N) : list N := map (fun t => (t / N.of_nat m)%N) totals.

(** These are the totals of the ballots in the box: the numbers below the order of the group that
    the tallied ciphertexts decrypt to. *)
Definition totals_of {E : Env} (L : GroupLaws E) (sk : SecretKey E) (n : nat)
    (ballots : list (list (Ciphertext E))) (totals : list N) : Prop :=
  Forall2 (fun t ct => (Z.of_N t < order L)%Z /\ decrypt_to_element sk ct = times t generator)
          totals (tally n ballots).

Lemma Forall2_repeat {A B : Type} (R : A -> B -> Prop) a b m : R a b -> Forall2 R (repeat a m) (repeat b m).
Proof. intros H. induction m; cbn; constructor; assumption. Qed.

Lemma column_app i (u v : list (list N)) : column i (u ++ v) = (column i u + column i v)%N.
Proof. unfold column. induction u as [|x u IH]; cbn [app map fold_right]; [reflexivity|]. rewrite IH. lia. Qed.

Lemma column_repeat i (vs : list N) m : column i (repeat vs m) = (N.of_nat m * nth i vs 0)%N.
Proof.
  unfold column. induction m as [|m IH]; [reflexivity|]. cbn [repeat map fold_right]. rewrite IH. lia.
Qed.

Lemma column_bound i (votes : list (list N)) b :
  Forall (fun vs => Forall (fun v => (v <= b)%N) vs) votes ->
  (column i votes <= N.of_nat (List.length votes) * b)%N.
Proof.
  unfold column. induction 1 as [|vs votes Hv _ IH]; cbn [map fold_right List.length]; [lia|].
  assert ((nth i vs 0 <= b)%N).
  { destruct (Nat.lt_ge_cases i (List.length vs)) as [Hi|Hi].
    - rewrite Forall_forall in Hv. apply Hv, nth_In, Hi.
    - rewrite nth_overflow by exact Hi. lia. }
  lia.
Qed.

Lemma Forall2_nth_l {A B : Type} (R : A -> B -> Prop) l l' : Forall2 R l l' ->
  forall i x, nth_error l i = Some x -> exists y, nth_error l' i = Some y /\ R x y.
Proof.
  induction 1 as [|x y l l' H _ IH]; intros [|i] z Hz; cbn in *; try discriminate.
  - injection Hz as <-. eauto.
  - exact (IH i z Hz).
Qed.

Section Copies.
Context (E : Env) (L : GroupLaws E).
Add Field s_field_copies : (s_field L).

Lemma s_add_cancel (a x : Scalar E) : (a + x)%S = a -> x = 0%S.
Proof. intros H. transitivity (a + x - a)%S; [ring|]. rewrite H. ring. Qed.

Lemma times_generator_inj u v :
  (Z.of_N u < order L)%Z -> (Z.of_N v < order L)%Z ->
  times u (@generator E) = times v generator -> u = v.
Proof.
  intros Hu Hv H. rewrite !(times_phi E L) in H. apply (f_equal (dlog L)) in H.
  rewrite <- !(mul_generator_ok E L), !(dlog_mul_generator L) in H.
  apply (phi_inj_small L) in H; lia.
Qed.

Lemma copies_reveal (sk : SecretKey E) n votes ballots k vs cts m b :
  Forall2 (votes_of sk) votes ballots -> Forall (fun cts => List.length cts = n) ballots ->
  Forall (fun vs => Forall (fun v => (v <= b)%N) vs) votes ->
  nth_error votes k = Some vs -> nth_error ballots k = Some cts ->
  (N.of_nat (List.length votes) * b < N.of_nat m)%N ->
  (Z.of_N (N.of_nat (List.length votes + m) * b) < order L)%Z ->
  (exists totals, totals_of L sk n (ballots ++ repeat cts m) totals) /\
  forall totals, totals_of L sk n (ballots ++ repeat cts m) totals -> peek m totals = vs.
Proof.
  intros H Hn Hb Hvs Hcts Hm Ho.
  assert (Hv : votes_of sk vs cts).
  { destruct (Forall2_nth_r _ _ _ H k cts Hcts) as (vs' & Hv' & Hr). congruence. }
  assert (Hlc : List.length cts = n).
  { rewrite Forall_forall in Hn. apply Hn. exact (nth_error_In _ _ Hcts). }
  assert (Hlv : List.length vs = n) by (rewrite (Forall2_length' _ _ _ Hv); exact Hlc).
  destruct (tally_ok E L sk (votes ++ repeat vs m) (ballots ++ repeat cts m) n) as [T1 T2].
  { apply Forall2_app; [exact H|]. apply Forall2_repeat. exact Hv. }
  { apply Forall_app. split; [exact Hn|]. apply Forall_forall. intros x Hx.
    apply repeat_spec in Hx. congruence. }
  assert (Hcol : forall i, (Z.of_N (column i (votes ++ repeat vs m)) < order L)%Z).
  { intros i. eapply Z.le_lt_trans; [|exact Ho]. apply N2Z.inj_le.
    rewrite <- (repeat_length vs m) at 2. rewrite <- app_length. apply column_bound.
    apply Forall_app. split; [exact Hb|]. apply Forall_forall. intros x Hx. apply repeat_spec in Hx. subst x.
    rewrite Forall_forall in Hb. apply Hb. exact (nth_error_In _ _ Hvs). }
  assert (Hex : totals_of L sk n (ballots ++ repeat cts m) (map (fun i => column i (votes ++ repeat vs m)) (seq 0 n))).
  { apply Forall2_nth_intro; [rewrite map_length, seq_length; symmetry; exact T1|].
    intros i t ct Ht Hct.
    assert (Hi : i < n) by (rewrite <- T1; apply nth_error_Some; congruence).
    rewrite nth_error_map, (nth_error_nth' (seq 0 n) 0) in Ht by (rewrite seq_length; exact Hi).
    rewrite seq_nth in Ht by exact Hi. cbn in Ht. injection Ht as <-.
    split; [apply Hcol|exact (T2 i ct Hct)]. }
  split; [eexists; exact Hex|]. intros totals Ht.
  assert (totals = map (fun i => column i (votes ++ repeat vs m)) (seq 0 n)) as ->.
  { revert Ht Hex. unfold totals_of. clear. generalize (tally n (ballots ++ repeat cts m)).
    generalize (map (fun i => column i (votes ++ repeat vs m)) (seq 0 n)). intros l' l Ht. revert l'.
    induction Ht as [|t ct totals cs [Ht1 Ht2] Ht IH]; intros l' Hl; inversion Hl as [|t' ? l'' ? [H1 H2] Hl']; subst; [reflexivity|].
    f_equal; [|exact (IH _ Hl')]. apply times_generator_inj; congruence. }
  unfold peek. rewrite map_map.
  transitivity (map (fun i => nth i vs 0%N) (seq 0 n)).
  - apply map_ext. intros i. rewrite column_app, column_repeat.
    pose proof (column_bound i votes b Hb) as Hc.
    symmetry. apply (N.div_unique _ _ _ (column i votes)); lia.
  - rewrite <- Hlv. clear. induction vs as [|v vs IH]; [reflexivity|].
    cbn [List.length seq map nth]. f_equal. rewrite <- seq_shift, map_map. exact IH.
Qed.

End Copies.

(** Honest multi-choice ballots, one of them cast again by somebody else often enough: all
    ballots are accepted, and the totals give away the copied ballot. *)
Theorem C82_multi_choice_refuted :
  forall (E : Env) (L : GroupLaws E) (sk : SecretKey E) (receiver : PublicKey E) n params
         (choices : list (list bool)) (es : list (EncryptedChoice MultiChoice)) k e flags m,
    key_of sk receiver -> ChoiceParams_multi receiver n = Ret params ->
    Forall2 (fun flags e => exists rng rng', EncryptedChoice_new params flags rng = Ret (e, rng')) choices es ->
    nth_error es k = Some e -> nth_error choices k = Some flags -> List.length choices < m ->
    (Z.of_nat (List.length choices + m) < order L)%Z ->
    exists ballots,
      Forall2 (fun e cts => EncryptedChoice_verify e params = Ret (Ok cts)) (es ++ repeat e m) ballots /\
      (exists totals, totals_of L sk n ballots totals) /\
      forall totals, totals_of L sk n ballots totals -> peek m totals = map (fun f : bool => if f then 1%N else 0%N) flags.
Proof.
  intros E L sk receiver n params choices es k e flags m Hk Hp H He Hf Hm Ho.
  set (bits := map (fun f : bool => if f then 1%N else 0%N)) in *.
  assert (Hv : Forall2 (votes_of sk) (map bits choices) (map ec_choices es) /\
               Forall (fun cts => List.length cts = n) (map ec_choices es) /\
               Forall2 (fun e cts => EncryptedChoice_verify e params = Ret (Ok cts)) es (map ec_choices es)).
  { clear k e flags He Hf Hm Ho.
    induction H as [|flags e choices es (rng & rng' & He) H (IH1 & IH2 & IH3)]; cbn [map]; [repeat constructor|].
    destruct (C41_multi_complete E L receiver n params flags rng e rng' Hp He) as [V1 V2].
    destruct (C42_multi_sound E L sk receiver n params e _ Hk Hp V1) as [V3 _].
    split; [constructor; [exact (flags_votes E sk _ _ L (V2 sk Hk))|exact IH1]|].
    split; constructor; assumption. }
  destruct Hv as (V1 & V2 & V3).
  destruct (copies_reveal E L sk n (map bits choices) (map ec_choices es) k (bits flags) (ec_choices e) m 1)
    as (T1 & T2); [exact V1|exact V2| | | | | |].
  - apply Forall_forall. intros vs Hvs. apply in_map_iff in Hvs. destruct Hvs as (fl & <- & _).
    apply Forall_forall. intros v Hv. apply in_map_iff in Hv. destruct Hv as ([|] & <- & _); lia.
  - rewrite nth_error_map, Hf. reflexivity.
  - rewrite nth_error_map, He. reflexivity.
  - rewrite map_length. lia.
  - rewrite map_length. rewrite N.mul_1_r, nat_N_Z. exact Ho.
  - exists (map ec_choices es ++ repeat (ec_choices e) m). split; [|split; [exact T1|exact T2]].
    apply Forall2_app; [exact V3|]. apply Forall2_repeat.
    destruct (Forall2_nth_l _ _ _ V3 k e He) as (cts & Hc & Hr).
    rewrite nth_error_map, He in Hc. cbn in Hc. congruence.
Qed.
Print Assumptions C82_multi_choice_refuted.

(** The same for single-choice ballots: exactly the chosen option has a total of at least [m]. *)
Theorem C82_single_choice_refuted :
  forall (E : Env) (L : GroupLaws E) (sk : SecretKey E) (receiver : PublicKey E) n params
         (chosen : list nat) (es : list (EncryptedChoice SingleChoice)) k e v m,
    key_of sk receiver -> ChoiceParams_single receiver n = Ret params ->
    Forall2 (fun v e => exists rng rng', EncryptedChoice_single params v rng = Ret (e, rng')) chosen es ->
    nth_error es k = Some e -> nth_error chosen k = Some v -> List.length chosen < m ->
    (Z.of_nat (List.length chosen + m) < order L)%Z ->
    exists ballots,
      Forall2 (fun e cts => EncryptedChoice_verify e params = Ret (Ok cts)) (es ++ repeat e m) ballots /\
      (exists totals, totals_of L sk n ballots totals) /\
      forall totals, totals_of L sk n ballots totals -> peek m totals = choice_votes n v.
Proof.
  intros E L sk receiver n params chosen es k e v m Hk Hp H He Hf Hm Ho.
  assert (Hv : Forall2 (votes_of sk) (map (choice_votes n) chosen) (map ec_choices es) /\
               Forall (fun cts => List.length cts = n) (map ec_choices es) /\
               Forall2 (fun e cts => EncryptedChoice_verify e params = Ret (Ok cts)) es (map ec_choices es)).
  { clear k e v He Hf Hm Ho.
    induction H as [|v e chosen es (rng & rng' & He) H (IH1 & IH2 & IH3)]; cbn [map]; [repeat constructor|].
    destruct (C41_single_index_complete E L receiver n params v rng e rng' Hp He) as (_ & V1 & Hl & V2).
    split; [constructor; [|exact IH1]|split; constructor; assumption].
    unfold votes_of, choice_votes. apply Forall2_nth_intro; [rewrite map_length, seq_length; congruence|].
    intros i x ct Hx Hct. rewrite (V2 sk Hk i ct Hct).
    assert (Hi : i < n). { rewrite <- Hl. apply nth_error_Some. congruence. }
    rewrite nth_error_map, (nth_error_nth' (seq 0 n) 0) in Hx by (rewrite seq_length; exact Hi).
    rewrite seq_nth in Hx by exact Hi. cbn in Hx. injection Hx as <-. destruct (i =? v); [|reflexivity].
    unfold times. cbn. symmetry. apply (e_add_id_r L). }
  destruct Hv as (V1 & V2 & V3).
  destruct (copies_reveal E L sk n (map (choice_votes n) chosen) (map ec_choices es) k (choice_votes n v) (ec_choices e) m 1)
    as (T1 & T2); [exact V1|exact V2| | | | | |].
  - apply Forall_forall. intros vs Hvs. apply in_map_iff in Hvs. destruct Hvs as (fl & <- & _).
    apply Forall_forall. intros x Hx. apply in_map_iff in Hx. destruct Hx as (i & <- & _).
    destruct (i =? fl); lia.
  - rewrite nth_error_map, Hf. reflexivity.
  - rewrite nth_error_map, He. reflexivity.
  - rewrite map_length. lia.
  - rewrite map_length. rewrite N.mul_1_r, nat_N_Z. exact Ho.
  - exists (map ec_choices es ++ repeat (ec_choices e) m). split; [|split; [exact T1|exact T2]].
    apply Forall2_app; [exact V3|]. apply Forall2_repeat.
    destruct (Forall2_nth_l _ _ _ V3 k e He) as (cts & Hc & Hr).
    rewrite nth_error_map, He in Hc. cbn in Hc. congruence.
Qed.
Print Assumptions C82_single_choice_refuted.

(** And for quadratic voting. *)
Theorem C82_quadratic_refuted :
  forall (E : Env) (L : GroupLaws E) (sk : SecretKey E) (receiver : PublicKey E) options credits mv p
         (votes : list (list N)) (bs : list (QuadraticVotingBallot E)) k b vs m,
    (credits + 65 < 2 ^ 64)%N -> qv_params receiver options credits mv p -> key_of sk receiver ->
    Forall2 (fun vs b => (squares vs < 2 ^ 64)%N /\
                         exists rng rng', QuadraticVotingBallot_new p vs rng = Ret (b, rng')) votes bs ->
    nth_error bs k = Some b -> nth_error votes k = Some vs ->
    (N.of_nat (List.length votes) * mv < N.of_nat m)%N ->
    (Z.of_N (N.of_nat (List.length votes + m) * mv) < order L)%Z ->
    exists ballots,
      Forall2 (fun b cts => QuadraticVotingBallot_verify b p = Ret (Ok cts)) (bs ++ repeat b m) ballots /\
      (exists totals, totals_of L sk options ballots totals) /\
      forall totals, totals_of L sk options ballots totals -> peek m totals = vs.
Proof.
  intros E L sk receiver options credits mv p votes bs k b vs m Hc Hp Hk H Hb Hvs Hm Ho.
  assert (Hv : exists ballots, Forall2 (votes_of sk) votes ballots /\
               Forall (fun cts => List.length cts = options) ballots /\
               Forall (fun vs => Forall (fun v => (v <= mv)%N) vs) votes /\
               Forall2 (fun b cts => QuadraticVotingBallot_verify b p = Ret (Ok cts)) bs ballots).
  { clear k b vs Hb Hvs Hm Ho.
    induction H as [|vs b votes bs (Hs & rng & rng' & He) H (ballots & IH1 & IH2 & IH3 & IH4)].
    - exists []. repeat constructor.
    - destruct (C46_complete E L receiver options credits mv p vs rng b rng' Hc Hp (or_intror Hs) He)
        as (Hl & Hmax & _ & cts & V1 & V2).
      exists (cts :: ballots). split; [constructor; [exact (V2 sk Hk)|exact IH1]|].
      split; [constructor; [|exact IH2]; rewrite <- (Forall2_length' _ _ _ (V2 sk Hk)); exact Hl|].
      split; constructor; assumption. }
  destruct Hv as (ballots & V1 & V2 & V3 & V4).
  destruct (Forall2_nth_l _ _ _ V4 k b Hb) as (cts & Hcts & Hr).
  destruct (copies_reveal E L sk options votes ballots k vs cts m mv V1 V2 V3 Hvs Hcts Hm Ho) as (T1 & T2).
  exists (ballots ++ repeat cts m). split; [|split; assumption].
  apply Forall2_app; [exact V4|]. apply Forall2_repeat. exact Hr.
Qed.
Print Assumptions C82_quadratic_refuted.

(** ** Ciphertexts are malleable: whoever decrypts ciphertexts that others supply, even if the
    ciphertext in question itself is refused, gives its plaintext away. *)
Theorem C82_rerandomized :
  forall (E : Env) (L : GroupLaws E) (sk : SecretKey E) (pk : PublicKey E) (c : Ciphertext E) r x r',
    key_of sk pk -> generate_scalar r = (x, r') -> x <> 0%S ->
    exists z, encrypt pk 0%S r = (z, r') /\ Ciphertext_add c z <> c /\
      decrypt_to_element sk (Ciphertext_add c z) = decrypt_to_element sk c.
Proof.
  intros E L sk pk c r x r' Hk Hr Hx.
  destruct (encrypt pk 0%S r) as [z r1] eqn:Hz.
  pose proof (proj1 (C01_decrypt_encrypt E L sk pk Hk) 0%S r z r1 Hz) as Hd.
  unfold encrypt, ExtendedCiphertext_new, SecretKey_generate in Hz. rewrite Hr in Hz. cbn [ext_inner] in Hz.
  injection Hz as Hz <-. exists z. split; [reflexivity|]. split.
  - intros Hc. apply Hx. apply (f_equal random_element) in Hc. rewrite <- Hz in Hc. cbn in Hc.
    apply (f_equal (dlog L)) in Hc. dlog_simpl_in L Hc.
    exact (s_add_cancel E L _ _ Hc).
  - pose proof (decrypt_hom E L sk (XAdd (XCipher c) (XCipher z)) (conj I I)) as H. cbn in H.
    rewrite H, Hd. rewrite (e_mul_0 L). apply (e_add_id_r L).
Qed.
Print Assumptions C82_rerandomized.

(** ** Examples: the premises are met *)
Example C82_example :
  exists (params : @ChoiceParams RE SingleChoice) (es : list (EncryptedChoice SingleChoice)) e,
    key_of (rs 987654321) ex_key /\ ChoiceParams_single ex_key 3 = Ret params /\
    Forall2 (fun v e => exists rng rng', EncryptedChoice_single params v rng = Ret (e, rng')) [1; 0; 2] es /\
    nth_error es 2 = Some e /\ nth_error [1; 0; 2] 2 = Some 2 /\ List.length [1; 0; 2] < 4 /\
    (Z.of_nat (List.length [1; 0; 2] + 4) < order RL)%Z /\
    peek 4 [1; 1; 5]%N = choice_votes 3 2.
Proof.
  destruct (proj2 (C41_never_panics RE RL RE_ser_total ex_key 3 5%Z ltac:(lia) ltac:(vm_compute; reflexivity)))
    as (cp & Hcp & _ & Hone).
  destruct (Hone 1 ltac:(lia)) as (e1 & r1 & H1). destruct (Hone 0 ltac:(lia)) as (e0 & r0 & H0).
  destruct (Hone 2 ltac:(lia)) as (e2 & r2 & H2).
  exists cp, [e1; e0; e2], e2.
  split; [apply re_eq; vm_compute; reflexivity|]. split; [exact Hcp|].
  split; [repeat constructor; eexists; eexists; eassumption|].
  repeat split; cbn; try lia; vm_compute; reflexivity.
Qed.

Example C82_rerandomized_example :
  let c := {| random_element := re 5; blinded_element := re 77 |} in
  let '(z, _) := encrypt ex_key (rs 0) 9%Z in
  e_eqb (random_element (Ciphertext_add c z)) (random_element c) = false /\
  e_eqb (decrypt_to_element (rs 987654321) (Ciphertext_add c z)) (decrypt_to_element (rs 987654321) c) = true /\
  s_eqb (fst (generate_scalar (e := RE) 9%Z)) (rs 0) = false.
Proof. vm_compute. auto. Qed.
