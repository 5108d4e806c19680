(** * C41, C42: encrypted choices *)
From Coq Require Import List NArith ZArith String Lia Arith Field Bool.
From Verif.Model Require Import Base Group Transcript Keys Encryption LogEquality Ring Range Choice.
From Verif.Spec Require Import Encryption LogEquality Sigma Ring Range Choice.
From Verif.Proofs Require Import Lists Algebra Encryption LogEquality Ring Range Choice.
From Verif.Instance Require Import Primality Zq.
From Verif.Properties Require Import LogEquality.
Import ListNotations.
Open Scope string_scope.
Open Scope list_scope.
Open Scope nat_scope.

Section Single.
Context (E : Env) (L : GroupLaws E).
Add Field choice_field : (s_field L).
Local Lemma sub_generator (x : Scalar E) (K : Element E) : (generator * 1 + K * x - generator = K * x)%E.
Proof. el_ring L. Qed.
End Single.

(** ** C41: honest choices *)

(** Multi-choice polling: any choices are accepted and decrypt to what was chosen. *)
Theorem C41_multi_complete :
  forall (E : Env) (L : GroupLaws E) (receiver : PublicKey E) n params choices rng e rng',
    ChoiceParams_multi receiver n = Ret params ->
    EncryptedChoice_new params choices rng = Ret (e, rng') ->
    EncryptedChoice_verify e params = Ret (Ok (ec_choices e)) /\
    forall sk, key_of sk receiver ->
      Forall2 (fun flag ct => decrypt_to_element sk ct = if flag : bool then generator else identity) choices (ec_choices e).
Proof.
  intros E L receiver n params choices rng e rng' Hp H. unfold ChoiceParams_multi in Hp. inv_bind Hp. injection Hp as <-.
  apply (choice_new_inv E L) in H. destruct H as (H1 & H2 & exts & sum & r1 & H3 & H4 & H5 & t' & H6).
  cbn [cp_options_count cp_receiver] in *. rewrite H3 in *. split.
  - apply (choice_verify_ok_iff E L). cbn [cp_options_count cp_receiver]. rewrite H3.
    split; [reflexivity|]. split; [rewrite map_length, <- H1; symmetry; exact (Forall2_length' _ _ _ H4)|].
    split; [intros Hc; apply map_eq_nil in Hc; subst exts; inversion H4; congruence|]. split; [reflexivity|]. eauto.
  - intros sk Hk. clear -H4 Hk L. induction H4 as [|flag ext choices exts He H4 IH]; cbn [map]; constructor; [|exact IH].
    exact (encrypts_decrypt E L sk receiver _ _ _ Hk He).
Qed.
Print Assumptions C41_multi_complete.

(** Single-choice polling with exactly one option chosen. *)
Theorem C41_single_complete :
  forall (E : Env) (L : GroupLaws E) (receiver : PublicKey E) n params choices rng e rng',
    ChoiceParams_single receiver n = Ret params ->
    EncryptedChoice_new params choices rng = Ret (e, rng') ->
    count_occ bool_dec choices true = 1 ->
    EncryptedChoice_verify e params = Ret (Ok (ec_choices e)) /\
    forall sk, key_of sk receiver ->
      Forall2 (fun flag ct => decrypt_to_element sk ct = if flag : bool then generator else identity) choices (ec_choices e).
Proof.
  intros E L receiver n params choices rng e rng' Hp H Hone. unfold ChoiceParams_single in Hp. inv_bind Hp. injection Hp as <-.
  apply (choice_new_inv E L) in H. destruct H as (H1 & H2 & exts & sum & r1 & H3 & H4 & H5 & t' & H6).
  cbn [cp_options_count cp_receiver] in *. split.
  - apply (choice_verify_ok_iff E L). cbn [cp_options_count cp_receiver].
    split; [reflexivity|]. split; [rewrite H3, map_length, <- H1; symmetry; exact (Forall2_length' _ _ _ H4)|].
    split; [rewrite H3; intros Hc; apply map_eq_nil in Hc; subst exts; inversion H4; congruence|]. split; [|eauto].
    cbn [SingleChoice ps_prove ps_verify] in *. unfold SingleChoice_prove, SingleChoice_verify in *.
    inv_bind H5. destruct a0 as [[proof t1] r2]. injection H5 as <- <-.
    apply (encrypts_total E L) in H4. rewrite Hone, <- H3 in H4. destruct H4 as [E1 E2].
    change (Z.of_nat 1) with 1%Z in E2. rewrite (phi_1 L) in E2.
    unfold cwv_randomness, cwv_inner in Hm0. cbn [cwv_ext ext_inner ext_random_scalar] in Hm0.
    set (r := fold_right s_add 0%S (map ext_random_scalar exts)) in *.
    rewrite E2, E1 in Hm0 |- *. rewrite (sub_generator E L) in Hm0 |- *. rewrite (le_complete E L _ _ _ _ _ _ _ Hm0). reflexivity.
  - intros sk Hk. rewrite H3. clear -H4 Hk L. induction H4 as [|flag ext choices exts He H4 IH]; cbn [map]; constructor; [|exact IH].
    exact (encrypts_decrypt E L sk receiver _ _ _ Hk He).
Qed.
Print Assumptions C41_single_complete.

Theorem C41_single_index_complete :
  forall (E : Env) (L : GroupLaws E) (receiver : PublicKey E) n params k rng e rng',
    ChoiceParams_single receiver n = Ret params ->
    EncryptedChoice_single params k rng = Ret (e, rng') ->
    k < n /\ EncryptedChoice_verify e params = Ret (Ok (ec_choices e)) /\ List.length (ec_choices e) = n /\
    forall sk, key_of sk receiver ->
      forall i ct, nth_error (ec_choices e) i = Some ct ->
        decrypt_to_element sk ct = if i =? k then generator else identity.
Proof.
  intros E L receiver n params k rng e rng' Hp H. unfold EncryptedChoice_single in H. inv_bind H. unfold assert in Hm.
  pose proof Hp as Hp'. unfold ChoiceParams_single in Hp'. inv_bind Hp'. injection Hp' as Hp'.
  assert (Hn : cp_options_count params = n) by (rewrite <- Hp'; reflexivity). rewrite Hn in *. clear Hp' Hm0.
  destruct (k <? n) eqn:Hk; [|discriminate]. apply Nat.ltb_lt in Hk. split; [exact Hk|].
  destruct (C41_single_complete E L receiver n params _ rng e rng' Hp H) as [Hv Hd].
  - assert (Hc : forall m s, count_occ bool_dec (map (fun i => k =? i) (seq s m)) true = if (s <=? k) && (k <? s + m) then 1 else 0).
    { clear. induction m as [|m IH]; intros s; cbn [seq map count_occ].
      - destruct (Nat.leb_spec s k); destruct (Nat.ltb_spec k (s + 0)); cbn; lia.
      - rewrite IH. destruct (Nat.eqb_spec k s); destruct (Nat.leb_spec s k); destruct (Nat.ltb_spec k (s + S m));
        destruct (Nat.leb_spec (S s) k); destruct (Nat.ltb_spec k (S s + m)); cbn; try lia;
        (destruct (bool_dec _ _); congruence || lia). }
    rewrite Hc. apply Nat.ltb_lt in Hk. rewrite Nat.add_0_l, Hk. reflexivity.
  - split; [exact Hv|]. split.
    + apply (choice_verify_ok_iff E L) in Hv. destruct Hv as (_ & Hl & _). congruence.
    + intros sk Hsk i ct Hi. specialize (Hd sk Hsk).
      assert (Hlt : i < n).
      { apply Forall2_length' in Hd. rewrite map_length, seq_length in Hd. rewrite Hd. apply nth_error_Some. congruence. }
      clear -Hd Hi Hlt.
      assert (Hg : forall (l : list bool) (cts : list (Ciphertext E)),
        Forall2 (fun flag ct => decrypt_to_element sk ct = if flag : bool then generator else identity) l cts ->
        forall i ct b, nth_error cts i = Some ct -> nth_error l i = Some b -> decrypt_to_element sk ct = if b then generator else identity).
      { induction 1 as [|f c l cts Hf H IH]; intros [|j] d b H1 H2; cbn in *; try discriminate.
        - injection H1 as <-. injection H2 as <-. exact Hf.
        - exact (IH j d b H1 H2). }
      rewrite (Hg _ _ Hd i ct (k =? i) Hi); [rewrite Nat.eqb_sym; reflexivity|].
      rewrite (map_nth_error (fun i => k =? i) i (seq 0 n) (d:=i)); [reflexivity|].
      rewrite (nth_error_nth' _ 0) by (rewrite seq_length; exact Hlt). rewrite seq_nth by exact Hlt. reflexivity.
Qed.
Print Assumptions C41_single_index_complete.

(** The functions return for all arguments within the documented bounds, ... *)
Theorem C41_never_panics :
  forall (E : Env) (L : GroupLaws E), ser_total E ->
  forall (receiver : PublicKey E) n rng, 0 < n -> (N.of_nat n < 2 ^ 64)%N ->
    (exists params, ChoiceParams_multi receiver n = Ret params /\
       forall choices, List.length choices = n -> exists e rng', EncryptedChoice_new params choices rng = Ret (e, rng')) /\
    (exists params, ChoiceParams_single receiver n = Ret params /\
       (forall choices, List.length choices = n -> exists e rng', EncryptedChoice_new params choices rng = Ret (e, rng')) /\
       (forall k, k < n -> exists e rng', EncryptedChoice_single params k rng = Ret (e, rng'))).
Proof.
  intros E L Hser receiver n rng Hn Hbig.
  assert (Hne : forall choices : list bool, List.length choices = n -> choices <> []) by (intros [|]; cbn; [lia|discriminate]).
  assert (Hs : forall c K r, exists p r', ps_prove (@SingleChoice E) c K r = Ret (p, r')).
  { intros c K r. cbn. unfold SingleChoice_prove.
    match goal with |- context [LogEqualityProof_new ?a ?b (?p0, ?p1) ?t ?r] =>
      destruct (le_new_total E L a b p0 p1 t r Hser) as (p & t' & r' & Hp) end.
    rewrite Hp. cbn. eauto. }
  assert (Hm : forall c K r, exists p r', ps_prove (@MultiChoice E) c K r = Ret (p, r')) by (intros; cbn; eauto).
  unfold ChoiceParams_multi, ChoiceParams_single, assert. apply Nat.ltb_lt in Hn. rewrite Hn. cbn [bind]. split.
  - eexists. split; [reflexivity|]. intros choices Hl.
    apply (choice_new_total E L MultiChoice (mkChoiceParams n receiver) choices rng Hser Hm Hl (Hne _ Hl)). rewrite Hl. exact Hbig.
  - eexists. split; [reflexivity|]. split.
    + intros choices Hl. apply (choice_new_total E L SingleChoice (mkChoiceParams n receiver) choices rng Hser Hs Hl (Hne _ Hl)). rewrite Hl. exact Hbig.
    + intros k Hk. unfold EncryptedChoice_single, assert. cbn [cp_options_count]. apply Nat.ltb_lt in Hk. rewrite Hk. cbn [bind].
      assert (Hl : List.length (map (fun i => k =? i) (seq 0 n)) = n) by (rewrite map_length, seq_length; reflexivity).
      apply (choice_new_total E L SingleChoice (mkChoiceParams n receiver) _ rng Hser Hs Hl (Hne _ Hl)). rewrite Hl. exact Hbig.
Qed.
Print Assumptions C41_never_panics.

(** ... and panic as documented outside of them. *)
Theorem C41_documented_panics :
  forall (E : Env) (receiver : PublicKey E) rng,
    ChoiceParams_single receiver 0 = Panic PAssert /\ ChoiceParams_multi receiver 0 = Panic PAssert /\
    (forall n params k, ChoiceParams_single receiver n = Ret params -> n <= k ->
       EncryptedChoice_single params k rng = Panic PAssert) /\
    (forall n params choices, ChoiceParams_single receiver n = Ret params -> List.length choices <> n ->
       EncryptedChoice_new params choices rng = Panic PAssert) /\
    (forall n params choices, ChoiceParams_multi receiver n = Ret params -> List.length choices <> n ->
       EncryptedChoice_new params choices rng = Panic PAssert).
Proof.
  intros E receiver rng. split; [reflexivity|]. split; [reflexivity|].
  assert (Hg : forall (S : ProveSum E) n choices, List.length choices <> n ->
    EncryptedChoice_new (mkChoiceParams (S:=S) n receiver) choices rng = Panic PAssert).
  { intros S n choices Hl. unfold EncryptedChoice_new, assert. cbn [cp_options_count]. apply Nat.eqb_neq in Hl. rewrite Hl.
    destruct (List.length choices =? 0); reflexivity. }
  split; [|split].
  - intros n params k Hp Hk. unfold ChoiceParams_single in Hp. inv_bind Hp. injection Hp as <-.
    unfold EncryptedChoice_single, assert. cbn [cp_options_count].
    replace (k <? n) with false by (symmetry; apply Nat.ltb_ge; exact Hk). reflexivity.
  - intros n params choices Hp Hl. unfold ChoiceParams_single in Hp. inv_bind Hp. injection Hp as <-. apply Hg. exact Hl.
  - intros n params choices Hp Hl. unfold ChoiceParams_multi in Hp. inv_bind Hp. injection Hp as <-. apply Hg. exact Hl.
Qed.
Print Assumptions C41_documented_panics.

Definition ex_choice (choices : list bool) (f : Ciphertext RE -> Ciphertext RE) : outcome (bool * list bool) :=
  params <- ChoiceParams_single ex_key (List.length choices) ;;
  '(e, _) <- EncryptedChoice_new params choices 17%Z ;;
  res <- EncryptedChoice_verify {| ec_choices := match ec_choices e with c :: l => f c :: l | [] => [] end;
            ec_range_proof := ec_range_proof e; ec_sum_proof := ec_sum_proof e |} params ;;
  Ret (match res with Ok _ => true | Err _ => false end,
       map (fun c => e_eqb (decrypt_to_element (rs 987654321) c) (re 1)) (ec_choices e)).
Example C41_example :
  ex_choice [false; false; true; false] (fun c => c) = Ret (true, [false; false; true; false]) /\
  ex_choice [true] (fun c => c) = Ret (true, [true]) /\
  ex_choice [true; false; true] (fun c => c) = Ret (false, [true; false; true]) /\
  ex_choice [false; true] (fun c => Ciphertext_add c c) = Ret (false, [false; true]).
Proof. vm_compute. repeat split. Qed.

(** ** C42: adversarial choices *)

(** exactly what is checked *)
Theorem C42_accepts_iff :
  forall (E : Env) (L : GroupLaws E) (receiver : PublicKey E) n,
    (forall params (e : EncryptedChoice SingleChoice) cts, ChoiceParams_single receiver n = Ret params ->
       EncryptedChoice_verify e params = Ret (Ok cts) <->
       cts = ec_choices e /\ List.length (ec_choices e) = n /\
       (exists t, LogEqualityProof_verify (ec_sum_proof e) receiver
          (random_element (ct_total (ec_choices e)), (blinded_element (ct_total (ec_choices e)) - generator)%E)
          choice_sum_context = Ret (Ok tt, t)) /\
       (exists t, RingProof_verify (ec_range_proof e) receiver (repeat [identity; generator] n) (ec_choices e)
          choice_ranges_context = Ret (Ok tt, t))) /\
    (forall params (e : EncryptedChoice MultiChoice) cts, ChoiceParams_multi receiver n = Ret params ->
       EncryptedChoice_verify e params = Ret (Ok cts) <->
       cts = ec_choices e /\ List.length (ec_choices e) = n /\
       (exists t, RingProof_verify (ec_range_proof e) receiver (repeat [identity; generator] n) (ec_choices e)
          choice_ranges_context = Ret (Ok tt, t))).
Proof.
  intros E L receiver n. split.
  - intros params e cts Hp. unfold ChoiceParams_single in Hp. inv_bind Hp. injection Hp as <-.
    unfold assert in Hm. destruct (0 <? n) eqn:Hn; [|discriminate]. apply Nat.ltb_lt in Hn.
    rewrite (choice_verify_ok_iff E L). cbn [cp_options_count cp_receiver SingleChoice ps_verify]. unfold SingleChoice_verify.
    change (transcript_new "choice_encryption_sum") with choice_sum_context.
    split.
    + intros (H1 & H2 & H3 & H4 & t & H5). split; [exact H1|]. split; [exact H2|]. inv_bind H4. destruct a0 as [[[]|err] t0]; [|discriminate].
      split; [exists t0; exact Hm0|]. exists t. rewrite <- H2. exact H5.
    + intros (H1 & H2 & [t0 H4] & t & H5). split; [exact H1|]. split; [exact H2|].
      split; [intros Hc; rewrite Hc in H2; cbn in H2; lia|]. rewrite H4. split; [reflexivity|]. exists t. rewrite H2. exact H5.
  - intros params e cts Hp. unfold ChoiceParams_multi in Hp. inv_bind Hp. injection Hp as <-.
    unfold assert in Hm. destruct (0 <? n) eqn:Hn; [|discriminate]. apply Nat.ltb_lt in Hn.
    rewrite (choice_verify_ok_iff E L). cbn [cp_options_count cp_receiver MultiChoice ps_verify]. split.
    + intros (H1 & H2 & H3 & H4 & t & H5). split; [exact H1|]. split; [exact H2|]. exists t. rewrite <- H2. exact H5.
    + intros (H1 & H2 & t & H5). split; [exact H1|]. split; [exact H2|].
      split; [intros Hc; rewrite Hc in H2; cbn in H2; lia|]. split; [reflexivity|]. exists t. rewrite H2. exact H5.
Qed.
Print Assumptions C42_accepts_iff.

(** and how each failure is reported *)
Theorem C42_errors :
  forall (E : Env) (L : GroupLaws E) (receiver : PublicKey E) n params (e : EncryptedChoice SingleChoice) err,
    ChoiceParams_single receiver n = Ret params ->
    EncryptedChoice_verify e params = Ret (Err err) <->
    (List.length (ec_choices e) <> n /\ err = ChoiceOptionsLenMismatch n (List.length (ec_choices e))) \/
    (List.length (ec_choices e) = n /\
       let sum := LogEqualityProof_verify (ec_sum_proof e) receiver
          (random_element (ct_total (ec_choices e)), (blinded_element (ct_total (ec_choices e)) - generator)%E)
          choice_sum_context in
       (exists ve t, sum = Ret (Err ve, t) /\ err = ChoiceSum ve) \/
       (exists ve t t', sum = Ret (Ok tt, t') /\
          RingProof_verify (ec_range_proof e) receiver (repeat [identity; generator] n) (ec_choices e)
            choice_ranges_context = Ret (Err ve, t) /\ err = ChoiceRange ve)).
Proof.
  intros E L receiver n params e err Hp. unfold ChoiceParams_single in Hp. inv_bind Hp. injection Hp as <-.
  unfold assert in Hm. destruct (0 <? n) eqn:Hn; [|discriminate]. apply Nat.ltb_lt in Hn.
  unfold EncryptedChoice_verify, ChoiceParams_check_options_count. cbn [cp_options_count cp_receiver].
  destruct (n =? List.length (ec_choices e)) eqn:Hl.
  2:{ apply Nat.eqb_neq in Hl. split.
      - intros H. injection H as <-. left. auto.
      - intros [[_ ->]|[Hc _]]; [reflexivity|congruence]. }
  apply Nat.eqb_eq in Hl. rewrite (reduce_ct E L) by (intros Hc; rewrite Hc in Hl; cbn in Hl; lia). cbn [unwrap bind].
  cbn [SingleChoice ps_verify]. unfold SingleChoice_verify.
  change (transcript_new "choice_encryption_sum") with choice_sum_context.
  change (transcript_new "encrypted_choice_ranges") with choice_ranges_context. cbv zeta. rewrite <- !Hl.
  set (sum := LogEqualityProof_verify _ _ _ _). destruct sum as [[[[]|ve] t0]|k]; cbn [bind].
  - set (ring := RingProof_verify _ _ _ _ _). destruct ring as [[[[]|ve] t1]|k]; cbn [bind].
    + split; [discriminate|]. intros [[Hc _]|(_ & [(ve & t & Hc & _)|(ve & t & t' & _ & Hc & _)])]; [congruence|discriminate|discriminate].
    + split.
      * intros H. injection H as <-. right. split; [congruence|]. right. eauto 10.
      * intros [[Hc _]|(_ & [(ve' & t & Hc & _)|(ve' & t & t' & _ & Hc & ->)])]; [congruence|discriminate|]. injection Hc as -> ->. reflexivity.
    + split; [discriminate|]. intros [[Hc _]|(_ & [(ve & t & Hc & _)|(ve & t & t' & _ & Hc & _)])]; [congruence|discriminate|discriminate].
  - split.
    + intros H. injection H as <-. right. split; [congruence|]. left. eauto 10.
    + intros [[Hc _]|(_ & [(ve' & t & Hc & ->)|(ve' & t & t' & Hc & _)])]; [congruence| |discriminate]. injection Hc as -> ->. reflexivity.
  - split; [discriminate|]. intros [[Hc _]|(_ & [(ve & t & Hc & _)|(ve & t & t' & Hc & _)])]; [congruence|discriminate|discriminate].
Qed.
Print Assumptions C42_errors.

(** Multi-choice: every accepted ciphertext encrypts 0 or 1, unless the hash function hits the only bad
    challenge of both equations of a ring. *)
Theorem C42_multi_sound :
  forall (E : Env) (L : GroupLaws E) (sk : SecretKey E) (receiver : PublicKey E) n params (e : EncryptedChoice MultiChoice) cts,
    key_of sk receiver -> ChoiceParams_multi receiver n = Ret params ->
    EncryptedChoice_verify e params = Ret (Ok cts) ->
    List.length cts = n /\
    ((forall ct, In ct cts -> decrypt_to_element sk ct = identity \/ decrypt_to_element sk ct = generator) \/
     exists k, bit_hit choice_ranges_context receiver cts k).
Proof.
  intros E L sk receiver n params e cts Hk Hp H. pose proof Hp as Hp'. unfold ChoiceParams_multi in Hp'. inv_bind Hp'. injection Hp' as <-.
  pose proof H as H'. apply (choice_verify_ok_iff E L) in H'. destruct H' as (-> & Hl & _).
  split; [exact Hl|]. destruct (choice_bits E L _ e (mkChoiceParams n receiver) _ sk Hk H) as [[flags Hf]|Hh]; [left|right; exact Hh].
  intros ct Hin. clear H Hl. induction Hf as [|f c flags cts Hc Hf IH]; [destruct Hin|]. destruct Hin as [<-|Hin]; [|apply IH; exact Hin].
  rewrite Hc. destruct f; auto.
Qed.
Print Assumptions C42_multi_sound.

(** Single-choice: moreover exactly one of them encrypts 1. *)
Theorem C42_single_sound :
  forall (E : Env) (L : GroupLaws E) (sk : SecretKey E) (receiver : PublicKey E) n params (e : EncryptedChoice SingleChoice) cts,
    (Z.of_nat n < order L)%Z ->
    key_of sk receiver -> ChoiceParams_single receiver n = Ret params ->
    EncryptedChoice_verify e params = Ret (Ok cts) ->
    List.length cts = n /\
    ((exists k, one_hot sk cts k) \/
     (exists k, bit_hit choice_ranges_context receiver cts k) \/
     log_hit choice_sum_context receiver (random_element (ct_total cts)) (blinded_element (ct_total cts) - generator)%E).
Proof.
  intros E L sk receiver n params e cts Hbig Hk Hp H.
  pose proof (proj1 (proj1 (C42_accepts_iff E L receiver n) params e cts Hp) H) as (-> & Hl & [t0 Hs] & _).
  split; [exact Hl|].
  assert (Hk' : key_of sk (cp_receiver params)).
  { unfold ChoiceParams_single in Hp. inv_bind Hp. injection Hp as <-. exact Hk. }
  assert (Hr : cp_receiver params = receiver).
  { unfold ChoiceParams_single in Hp. inv_bind Hp. injection Hp as <-. reflexivity. }
  destruct (choice_bits E L _ e _ _ sk Hk' H) as [[flags Hf]|Hh]; [|right; left; rewrite Hr in Hh; exact Hh].
  destruct (e_eq_dec L (decrypt_to_element sk (ct_total (ec_choices e))) generator) as [Hg|Hg].
  - left. pose proof (bits_total E L sk _ _ Hf) as Hb. rewrite Hg, (dlog_generator L), <- (phi_1 L) in Hb.
    pose proof (count_occ_bound bool_dec true flags) as Hcb. pose proof (Forall2_length' _ _ _ Hf) as Hlen.
    apply (phi_inj_small L) in Hb; [|pose proof (order_gt_1 L); lia|lia].
    destruct (count_one flags) as (k & Hk1 & Hall); [lia|].
    exists k. split; [lia|]. intros i ct Hi.
    assert (Hfi : exists b, nth_error flags i = Some b).
    { destruct (nth_error flags i) eqn:Hn; [eauto|]. apply nth_error_None in Hn.
      assert (i < List.length (ec_choices e)) by (apply nth_error_Some; congruence). lia. }
    destruct Hfi as [b Hb']. rewrite <- (Hall i b Hb').
    clear -Hf Hi Hb'. revert i Hi Hb'. induction Hf as [|f c l cts Hf0 Hf IH]; intros [|i] Hi Hb'; cbn in *; try discriminate.
    + injection Hi as <-. injection Hb' as <-. exact Hf0.
    + exact (IH i Hi Hb').
  - right. right.
    apply (le_sound E L _ _ _ _ _ _ Hs). intros Hsl. apply Hg. apply (same_log_one E L sk receiver); assumption.
Qed.
Print Assumptions C42_single_sound.

(** An honest prover who selects a number of options other than one: the choice is rejected, unless the
    hash function hits the only bad challenge of the sum proof. *)
Theorem C42_single_wrong_count :
  forall (E : Env) (L : GroupLaws E) (sk : SecretKey E) (receiver : PublicKey E) n params choices rng e rng' cts,
    (Z.of_nat n < order L)%Z -> key_of sk receiver ->
    ChoiceParams_single receiver n = Ret params ->
    EncryptedChoice_new params choices rng = Ret (e, rng') ->
    count_occ bool_dec choices true <> 1 ->
    EncryptedChoice_verify e params = Ret (Ok cts) ->
    log_hit choice_sum_context receiver (random_element (ct_total cts)) (blinded_element (ct_total cts) - generator)%E.
Proof.
  intros E L sk receiver n params choices rng e rng' cts Hbig Hk Hp H Hc Hv.
  pose proof (proj1 (proj1 (C42_accepts_iff E L receiver n) params e cts Hp) Hv) as (-> & Hl & [t0 Hs] & _).
  apply (le_sound E L _ _ _ _ _ _ Hs). intros Hsl. apply Hc.
  apply (same_log_one E L sk receiver) in Hsl; [|exact Hk].
  apply (choice_new_inv E L) in H. destruct H as (H1 & _ & exts & sum & r1 & H3 & H4 & _).
  assert (Hr : cp_receiver params = receiver /\ cp_options_count params = n).
  { unfold ChoiceParams_single in Hp. inv_bind Hp. injection Hp as <-. auto. }
  destruct Hr as [Hr Hn]. rewrite Hr in H4. rewrite Hn in H1.
  pose proof (encrypts_total E L _ _ _ H4) as Ht. rewrite <- H3 in Ht.
  rewrite (encrypts_decrypt E L sk receiver _ _ _ Hk Ht) in Hsl.
  apply (f_equal (dlog L)) in Hsl. rewrite (dlog_gen L), (dlog_generator L), <- (phi_1 L) in Hsl.
  pose proof (count_occ_bound bool_dec true choices) as Hcb.
  apply (phi_inj_small L) in Hsl; [lia|lia|]. pose proof (order_gt_1 L). lia.
Qed.
Print Assumptions C42_single_wrong_count.

(** How an accepted ballot is rejected after it is tampered with. *)
Definition ex_verify (n : nat) (f : EncryptedChoice (@SingleChoice RE) -> EncryptedChoice SingleChoice)
    : outcome (result unit ChoiceVerificationError) :=
  params <- ChoiceParams_single ex_key n ;;
  '(e, _) <- EncryptedChoice_single params 1 17%Z ;;
  res <- EncryptedChoice_verify (f e) params ;;
  Ret (match res with Ok _ => Ok tt | Err e => Err e end).
Example C42_example :
  ex_verify 3 (fun e => e) = Ret (Ok tt) /\
  ex_verify 3 (fun e => mkEncryptedChoice (tl (ec_choices e)) (ec_range_proof e) (ec_sum_proof e)) =
    Ret (Err (ChoiceOptionsLenMismatch 3 2)) /\
  ex_verify 3 (fun e => mkEncryptedChoice (S:=SingleChoice) (ec_choices e) (ec_range_proof e)
                          (mkLogEqualityProof (le_challenge (ec_sum_proof e)) (rs 5))) =
    Ret (Err (ChoiceSum ChallengeMismatch)) /\
  ex_verify 3 (fun e => mkEncryptedChoice (rev (ec_choices e)) (ec_range_proof e) (ec_sum_proof e)) =
    Ret (Err (ChoiceRange ChallengeMismatch)) /\
  (Z.of_nat 3 < order RL)%Z /\ key_of (rs 987654321) ex_key.
Proof.
  split; [vm_compute; reflexivity|]. split; [vm_compute; reflexivity|]. split; [vm_compute; reflexivity|].
  split; [vm_compute; reflexivity|]. split; [vm_compute; reflexivity|]. apply re_eq; vm_compute; reflexivity.
Qed.
