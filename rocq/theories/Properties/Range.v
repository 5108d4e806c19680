(** * C18-C23: range decompositions and range proofs *)
From Coq Require Import List NArith ZArith String Bool Lia.
From Verif.Model Require Import Base Group Transcript Keys Encryption Ring Range.
From Verif.Spec Require Import Encryption LogEquality Sigma Ring Range.
From Verif.Proofs Require Import Encryption Ring Range RangeProof.
From Verif.Instance Require Import Primality Zq.
From Verif.Properties Require Import LogEquality.
Import ListNotations.
Open Scope string_scope.
Open Scope list_scope.
Open Scope N_scope.

(** the build profiles *)
Definition dbg : Build := debug_build.
Definition rel : Build := release_build.

(** ** C18: [optimal] covers exactly the requested range, whatever the pruning estimate *)
Theorem C18_optimal_covers :
  forall b est n d, n + 4 < 2 ^ 64 -> RangeDecomposition_optimal b est n = Ret d ->
    doc_form n d /\
    RangeDecomposition_upper_bound b d = Ret n /\
    Forall (fun s => 2 <= rs_size s /\ 1 <= rs_step s) d /\
    forall v, (exists idx, in_rings d idx /\ composed d idx = v) <-> v < n.
Proof.
  intros b est n d Hn H. pose proof (optimal_valid b est n d Hn H) as Hd.
  split; [exact Hd|]. split; [apply upper_bound_ok; [exact Hd|unfold u64_lim; lia]|].
  split; [exact (doc_form_rings n d Hd)|exact (covers_exactly n d Hd)].
Qed.
Print Assumptions C18_optimal_covers.

(** With an estimate that is a lower bound (C20 below) it always returns; below 2 it panics. *)
Theorem C18_optimal_total :
  forall b est n, n + 4 < 2 ^ 64 ->
    (2 <= n -> valid_estimate est n -> exists d, RangeDecomposition_optimal b est n = Ret d) /\
    (n < 2 -> RangeDecomposition_optimal b est n = Panic PAssert).
Proof.
  intros b est n Hn. split.
  - intros H2 He. eexists. exact (optimal_ref b est n H2 Hn He).
  - intros H2. unfold RangeDecomposition_optimal, assert. apply N.leb_gt in H2. rewrite H2. reflexivity.
Qed.
Print Assumptions C18_optimal_total.

(** The documented limit is sharp: 2 below [u64::MAX] debug builds overflow. *)
Theorem C18_overflow :
  forall est n, 2 ^ 64 - 2 <= n -> RangeDecomposition_optimal dbg est n = Panic POverflow.
Proof.
  intros est n Hn. unfold RangeDecomposition_optimal, assert.
  replace (2 <=? n) with true by (symmetry; apply N.leb_le; lia).
  destruct n as [|p]; [lia|].
  cbn [bind optimize memo_get find]. unfold u64_add, u64_fit.
  replace (N.pos p + 2 <? u64_lim) with false by (symmetry; apply N.ltb_ge; unfold u64_lim; lia). reflexivity.
Qed.
Print Assumptions C18_overflow.

Definition ring (size step : N) : RingSpec := {| rs_size := size; rs_step := step |}.

Example C18_example :
  RangeDecomposition_optimal dbg int_lower_len_estimate 100 = Ret [ring 5 20; ring 5 4; ring 4 1] /\
  RangeDecomposition_optimal rel (fun _ => 0) 16 = Ret [ring 4 4; ring 4 1] /\
  RangeDecomposition_optimal dbg int_lower_len_estimate 5 = Ret [ring 5 1].
Proof. vm_compute. auto. Qed.

(** ** C19: values decompose correctly *)
Theorem C19_decompose :
  forall b est n d v, n + 4 < 2 ^ 64 -> RangeDecomposition_optimal b est n = Ret d -> v < n ->
    exists idx, RangeDecomposition_decompose b d v = Ret idx /\ in_rings d idx /\ composed d idx = v.
Proof.
  intros b est n d v Hn H Hv. apply (decompose_ok b n); [exact (optimal_valid b est n d Hn H)|unfold u64_lim; lia|exact Hv].
Qed.
Print Assumptions C19_decompose.

Theorem C19_prepared :
  forall (E : Env) (L : GroupLaws E) est n d pr v, n + 4 < 2 ^ 64 ->
    RangeDecomposition_optimal (env_build E) est n = Ret d -> PreparedRange_new (E:=E) d = Ret pr ->
    (v < n -> exists idx, PreparedRange_decompose pr v = Ret idx /\ in_rings d idx /\ composed d idx = v) /\
    (n <= v -> PreparedRange_decompose pr v = Panic PAssert).
Proof.
  intros E L est n d pr v Hn H Hpr. pose proof (optimal_valid _ est n d Hn H) as Hd.
  rewrite (prepared_ok E L n d Hd) in Hpr by (unfold u64_lim; lia). injection Hpr as <-.
  unfold PreparedRange_decompose, assert. cbn [pr_inner]. rewrite (upper_bound_ok _ n d Hd) by (unfold u64_lim; lia). cbn [bind]. split.
  - intros Hv. apply N.ltb_lt in Hv as Hv'. rewrite Hv'. cbn [bind]. apply (decompose_ok _ n); [exact Hd|unfold u64_lim; lia|exact Hv].
  - intros Hv. apply N.ltb_ge in Hv. rewrite Hv. reflexivity.
Qed.
Print Assumptions C19_prepared.

(** Preparing a range from [optimal] never panics, and lists the values each ring stands for. *)
Theorem C19_prepared_total :
  forall (E : Env) (L : GroupLaws E) est n d, n + 4 < 2 ^ 64 ->
    RangeDecomposition_optimal (env_build E) est n = Ret d ->
    PreparedRange_new (E:=E) d = Ret {| pr_inner := d; pr_admissible := range_values d |}.
Proof.
  intros E L est n d Hn H. apply (prepared_ok E L n); [exact (optimal_valid _ est n d Hn H)|unfold u64_lim; lia].
Qed.
Print Assumptions C19_prepared_total.

Example C19_example :
  RangeDecomposition_decompose dbg [ring 5 20; ring 5 4; ring 4 1] 99 = Ret [4; 4; 3] /\
  RangeDecomposition_decompose dbg [ring 5 20; ring 5 4; ring 4 1] 57 = Ret [2; 4; 1].
Proof. vm_compute. auto. Qed.

(** ** C20: [optimal] minimises the size of proofs *)
Theorem C20_minimal :
  forall b est n d, n + 4 < 2 ^ 64 -> valid_estimate est n -> RangeDecomposition_optimal b est n = Ret d ->
    RangeDecomposition_proof_size b d = Ret (proof_length d) /\
    forall d', doc_form n d' ->
      proof_length d < proof_length d' \/ (proof_length d = proof_length d' /\ (List.length d <= List.length d')%nat).
Proof. exact optimal_minimal. Qed.
Print Assumptions C20_minimal.

(** The result depends neither on the estimate nor on the build profile; in particular builds with and
    without [std] agree, so the committed text of the decomposition does, too. *)
Theorem C20_estimate_irrelevant :
  forall b b' est est' n, 2 <= n -> n + 4 < 2 ^ 64 -> valid_estimate est n -> valid_estimate est' n ->
    RangeDecomposition_optimal b est n = RangeDecomposition_optimal b' est' n.
Proof. intros b b' est est' n H2 Hn He He'. rewrite !optimal_ref by assumption. reflexivity. Qed.
Print Assumptions C20_estimate_irrelevant.

(** "P(n) >= 3 * log2(n)": an estimate that exceeds [3 * log2 m] by less than 1 is valid *)
Theorem C20_log_estimate_valid :
  forall est n, (forall m, 2 <= m -> m <= n -> est m = 0 \/ 2 ^ (est m - 1) < m * m * m) -> valid_estimate est n.
Proof. exact estimate_valid. Qed.
Print Assumptions C20_log_estimate_valid.

Theorem C20_int_estimate_valid : forall n, valid_estimate int_lower_len_estimate n.
Proof. exact int_estimate_valid. Qed.
Print Assumptions C20_int_estimate_valid.

Example C20_example :
  (* a decomposition of the documented form that is not optimal *)
  doc_form 100 [ring 10 10; ring 10 1] /\
  proof_length [ring 10 10; ring 10 1] = 23 /\
  RangeDecomposition_proof_size dbg [ring 5 20; ring 5 4; ring 4 1] = Ret 19 /\
  (* an invalid estimate changes the result *)
  RangeDecomposition_optimal rel (fun _ => 1000) 100 = Ret [ring 100 1].
Proof.
  split; [|vm_compute; auto].
  exact (doc_nested 10 [ring 10 1] 10 10 (doc_one 10 ltac:(lia)) ltac:(lia) ltac:(lia)).
Qed.

(** ** C21: the printed decomposition identifies the range *)
Theorem C21_display_injective :
  forall d d', Forall (fun s => 1 <= rs_step s) d -> Forall (fun s => 1 <= rs_step s) d' ->
    str_bytes (RangeDecomposition_display d) = str_bytes (RangeDecomposition_display d') -> d = d'.
Proof. intros d d' Hd Hd' H. apply str_bytes_inj in H. exact (display_inj d d' Hd Hd' H). Qed.
Print Assumptions C21_display_injective.

Theorem C21_optimal_ranges :
  forall b b' est est' n n' d d', n + 4 < 2 ^ 64 -> n' + 4 < 2 ^ 64 ->
    RangeDecomposition_optimal b est n = Ret d -> RangeDecomposition_optimal b' est' n' = Ret d' ->
    RangeDecomposition_display d = RangeDecomposition_display d' -> n = n' /\ d = d'.
Proof.
  intros b b' est est' n n' d d' Hn Hn' H H' Hs.
  pose proof (optimal_valid _ _ _ _ Hn H) as Hd. pose proof (optimal_valid _ _ _ _ Hn' H') as Hd'.
  apply display_inj in Hs.
  - subst d'. split; [|reflexivity]. pose proof (doc_form_bound _ _ Hd). pose proof (doc_form_bound _ _ Hd'). congruence.
  - eapply Forall_impl; [|exact (doc_form_rings n d Hd)]. cbn. tauto.
  - eapply Forall_impl; [|exact (doc_form_rings n' d' Hd')]. cbn. tauto.
Qed.
Print Assumptions C21_optimal_ranges.

Example C21_example :
  RangeDecomposition_display [ring 5 20; ring 5 4; ring 4 1] = "20 * 0..5 + 4 * 0..5 + 0..4" /\
  RangeDecomposition_display [ring 100 1] = "0..100".
Proof. vm_compute. auto. Qed.

(** ** C22: completeness *)
Theorem C22_encrypt_range_complete :
  forall (E : Env) (L : GroupLaws E) (sk : SecretKey E) (K : PublicKey E) est n d pr v rng ct p rng',
    key_of sk K -> n + 64 < 2 ^ 64 ->
    RangeDecomposition_optimal (env_build E) est n = Ret d -> PreparedRange_new d = Ret pr ->
    encrypt_range K pr v rng = Ret (ct, p, rng') ->
    v < n /\ decrypt_to_element sk ct = times v generator /\ verify_range K pr ct p = Ret (Ok tt).
Proof.
  intros E L sk K est n d pr v rng ct p rng' Hk Hn H Hpr. pose proof (optimal_valid _ est n d ltac:(unfold u64_lim; lia) H) as Hd.
  rewrite (prepared_ok E L n d Hd) in Hpr by (unfold u64_lim; lia). injection Hpr as <-.
  apply (encrypt_range_complete E L sk K n d v rng ct p rng' Hk Hd); [unfold u64_lim; lia|exact (sizes_fit n d Hd Hn)].
Qed.
Print Assumptions C22_encrypt_range_complete.

Theorem C22_encrypt_range_panics :
  forall (E : Env) (L : GroupLaws E) (K : PublicKey E) est n d pr v rng,
    ser_total E -> n + 64 < 2 ^ 64 ->
    RangeDecomposition_optimal (env_build E) est n = Ret d -> PreparedRange_new d = Ret pr ->
    (v < n -> exists ct p rng', encrypt_range K pr v rng = Ret (ct, p, rng')) /\
    (n <= v -> encrypt_range K pr v rng = Panic PAssert).
Proof.
  intros E L K est n d pr v rng Ht Hn H Hpr. pose proof (optimal_valid _ est n d ltac:(unfold u64_lim; lia) H) as Hd.
  rewrite (prepared_ok E L n d Hd) in Hpr by (unfold u64_lim; lia). injection Hpr as <-. split.
  - apply (encrypt_range_total E L K n d v rng Ht Hd); [unfold u64_lim; lia|exact (sizes_fit n d Hd Hn)].
  - apply (encrypt_range_out E K n d v rng Hd). unfold u64_lim; lia.
Qed.
Print Assumptions C22_encrypt_range_panics.

(** [RangeProof::from_ciphertext] for a ciphertext made earlier, in any transcript *)
Theorem C22_from_ciphertext_complete :
  forall (E : Env) (L : GroupLaws E) (K : PublicKey E) est n d pr (c : CiphertextWithValue E N) t rng p t' rng',
    n + 64 < 2 ^ 64 ->
    RangeDecomposition_optimal (env_build E) est n = Ret d -> PreparedRange_new d = Ret pr ->
    encrypts K (cwv_inner c) (times (cwv_value c) generator) (cwv_randomness c) ->
    RangeProof_from_ciphertext K pr c t rng = Ret (p, t', rng') ->
    cwv_value c < n /\ RangeProof_verify p K pr (cwv_inner c) t = Ret (Ok tt, t').
Proof.
  intros E L K est n d pr c t rng p t' rng' Hn H Hpr Henc Hp. pose proof (optimal_valid _ est n d ltac:(unfold u64_lim; lia) H) as Hd.
  rewrite (prepared_ok E L n d Hd) in Hpr by (unfold u64_lim; lia). injection Hpr as <-.
  assert (Hn' : n < u64_lim) by (unfold u64_lim; lia).
  destruct (N.lt_ge_cases (cwv_value c) n) as [Hv|Hv];
    [|rewrite (range_out_of_range E K n d c t rng Hd Hn' Hv) in Hp; discriminate].
  split; [exact Hv|].
  exact (proj1 (range_complete E L K n d c t rng p t' rng' Hd Hn' (sizes_fit n d Hd Hn) Hv Henc Hp)).
Qed.
Print Assumptions C22_from_ciphertext_complete.

Theorem C22_from_ciphertext_panics :
  forall (E : Env) (L : GroupLaws E) (K : PublicKey E) est n d pr (c : CiphertextWithValue E N) t rng,
    ser_total E -> n + 64 < 2 ^ 64 ->
    RangeDecomposition_optimal (env_build E) est n = Ret d -> PreparedRange_new d = Ret pr ->
    encrypts K (cwv_inner c) (times (cwv_value c) generator) (cwv_randomness c) ->
    (cwv_value c < n -> exists res, RangeProof_from_ciphertext K pr c t rng = Ret res) /\
    (n <= cwv_value c -> RangeProof_from_ciphertext K pr c t rng = Panic PAssert).
Proof.
  intros E L K est n d pr c t rng Ht Hn H Hpr Henc. pose proof (optimal_valid _ est n d ltac:(unfold u64_lim; lia) H) as Hd.
  rewrite (prepared_ok E L n d Hd) in Hpr by (unfold u64_lim; lia). injection Hpr as <-.
  assert (Hn' : n < u64_lim) by (unfold u64_lim; lia). split; intros Hv.
  - destruct (range_total E L K n d c t rng Ht Hd Hn' (sizes_fit n d Hd Hn) Hv Henc) as (p & t' & r' & Hp). eauto.
  - exact (range_out_of_range E K n d c t rng Hd Hn' Hv).
Qed.
Print Assumptions C22_from_ciphertext_panics.

Example C22_example :
  match RangeDecomposition_optimal dbg int_lower_len_estimate 20 with
  | Ret d =>
      match PreparedRange_new (E:=RE) d with
      | Ret pr =>
          match encrypt_range ex_key pr 17 31%Z with
          | Ret (ct, p, _) =>
              e_eqb (decrypt_to_element (rs 987654321) ct) (re 17) = true /\
              List.length (rap_partial p) = 1%nat /\
              match verify_range ex_key pr ct p with Ret (Ok _) => True | _ => False end /\
              match verify_range ex_key pr (Ciphertext_add ct ct) p with Ret (Ok _) => False | _ => True end
          | Panic _ => False
          end
      | Panic _ => False
      end
  | Panic _ => False
  end.
Proof. vm_compute. auto. Qed.

(** ** C23: soundness *)
Theorem C23_sound :
  forall (E : Env) (L : GroupLaws E) (sk : SecretKey E) (p : RangeProof E) (K : PublicKey E) est n d pr ct t t',
    key_of sk K -> n + 4 < 2 ^ 64 ->
    RangeDecomposition_optimal (env_build E) est n = Ret d -> PreparedRange_new d = Ret pr ->
    RangeProof_verify p K pr ct t = Ret (Ok tt, t') ->
    (exists v, v < n /\ decrypt_to_element sk ct = times v generator) \/
    exists k s pct rt Ts T q,
      let t0 := ring_context (range_start_transcript t d) K in
      let vs := map (fun i => times (N.of_nat i * rs_step s) generator) (seq 0 (N.to_nat (rs_size s))) in
      nth_error d k = Some s /\ nth_error (range_ciphertexts (rap_partial p) ct) k = Some pct /\
      ~ In (decrypt_to_element sk pct) vs /\
      ring_local t0 pct k rt /\ nth_error Ts k = Some T /\ ring_common t0 Ts q /\
      ring_all_hits rt (pk_element K) pct 0 (oracle q "c") vs T.
Proof.
  intros E L sk p K est n d pr ct t t' Hk Hn H Hpr Hver. pose proof (optimal_valid _ est n d Hn H) as Hd.
  rewrite (prepared_ok E L n d Hd) in Hpr by (unfold u64_lim; lia). injection Hpr as <-.
  exact (range_sound E L sk p K n d ct t t' Hk Hd Hver).
Qed.
Print Assumptions C23_sound.

Theorem C23_wrong_lengths :
  forall (E : Env) (L : GroupLaws E) (p : RangeProof E) (K : PublicKey E) est n d pr ct t res t',
    n + 4 < 2 ^ 64 ->
    RangeDecomposition_optimal (env_build E) est n = Ret d -> PreparedRange_new d = Ret pr ->
    RangeProof_verify p K pr ct t = Ret (res, t') ->
    ((List.length (rap_partial p) + 1 <> List.length d)%nat ->
       res = Err (LenMismatch "admissible values" (List.length (rap_partial p) + 1) (List.length d))) /\
    ((List.length (rap_partial p) + 1 = List.length d)%nat ->
     List.length (rp_responses (rap_inner p)) <> N.to_nat (n_sum (map rs_size d)) ->
       res = Err (LenMismatch "items in all rings" (List.length (rp_responses (rap_inner p))) (N.to_nat (n_sum (map rs_size d))))).
Proof.
  intros E L p K est n d pr ct t res t' Hn H Hpr. pose proof (optimal_valid _ est n d Hn H) as Hd.
  rewrite (prepared_ok E L n d Hd) in Hpr by (unfold u64_lim; lia). injection Hpr as <-.
  exact (range_verify_lengths E L p K d ct t res t').
Qed.
Print Assumptions C23_wrong_lengths.

Theorem C23_verify_never_panics :
  forall (E : Env) (L : GroupLaws E) (p : RangeProof E) (K : PublicKey E) est n d pr ct t,
    ser_total E -> n + 4 < 2 ^ 64 ->
    RangeDecomposition_optimal (env_build E) est n = Ret d -> PreparedRange_new d = Ret pr ->
    exists res t', RangeProof_verify p K pr ct t = Ret (res, t').
Proof.
  intros E L p K est n d pr ct t Ht Hn H Hpr. pose proof (optimal_valid _ est n d Hn H) as Hd.
  rewrite (prepared_ok E L n d Hd) in Hpr by (unfold u64_lim; lia). injection Hpr as <-.
  exact (range_verify_total E L p K d ct t Ht).
Qed.
Print Assumptions C23_verify_never_panics.

(** with the oracle that always answers 3 a proof for a value out of range is accepted *)
Example C23_example :
  let K := {| pk_bytes := zbytes qx 9 (re 2); pk_element := c3e 2 |} in
  let ct := {| random_element := c3e 5; blinded_element := c3e 100 |} in
  key_of (c3s 2) K /\
  match RangeDecomposition_optimal (env_build C3) int_lower_len_estimate 8 with
  | Ret d =>
      match PreparedRange_new (E:=C3) d with
      | Ret pr =>
          match verify_range K pr ct {| rap_partial := []; rap_inner :=
                 {| rp_challenge := c3s 3; rp_responses := repeat (c3s 1) 8 |} |} with Ret (Ok _) => True | _ => False end
      | Panic _ => False
      end
  | Panic _ => False
  end /\
  e_eqb (decrypt_to_element (c3s 2) ct) (c3e 90) = true.
Proof. intros K ct. split; [apply re_eq; vm_compute; reflexivity|]. split; vm_compute; auto. Qed.

(** ** C10 for range proofs: the hash input of a verification determines the preceding transcript, the key
    and the range. *)
Theorem C10_range_binding :
  forall (E : Env) (L : GroupLaws E) (p p' : RangeProof E) (K K' : PublicKey E) est est' n n' d d' pr pr' ct ct' t t' res res' tf,
    n + 4 < 2 ^ 64 -> n' + 4 < 2 ^ 64 ->
    RangeDecomposition_optimal (env_build E) est n = Ret d -> PreparedRange_new d = Ret pr ->
    RangeDecomposition_optimal (env_build E) est' n' = Ret d' -> PreparedRange_new d' = Ret pr' ->
    (List.length (rap_partial p) + 1 = List.length d)%nat -> (List.length (rap_partial p') + 1 = List.length d')%nat ->
    List.length (rp_responses (rap_inner p)) = N.to_nat (n_sum (map rs_size d)) ->
    List.length (rp_responses (rap_inner p')) = N.to_nat (n_sum (map rs_size d')) ->
    RangeProof_verify p K pr ct t = Ret (res, tf) -> RangeProof_verify p' K' pr' ct' t' = Ret (res', tf) ->
    t = t' /\ pk_bytes K = pk_bytes K' /\ n = n'.
Proof.
  intros E L p p' K K' est est' n n' d d' pr pr' ct ct' t t' res res' tf Hn Hn' H Hpr H' Hpr' Hl Hl' Hr Hr' Hv Hv'.
  pose proof (optimal_valid _ est n d Hn H) as Hd. pose proof (optimal_valid _ est' n' d' Hn' H') as Hd'.
  rewrite (prepared_ok E L n d Hd) in Hpr by (unfold u64_lim; lia). injection Hpr as <-.
  rewrite (prepared_ok E L n' d' Hd') in Hpr' by (unfold u64_lim; lia). injection Hpr' as <-.
  assert (Hs : Forall (fun s => 1 <= rs_step s) d) by (eapply Forall_impl; [|exact (doc_form_rings n d Hd)]; cbn; tauto).
  assert (Hs' : Forall (fun s => 1 <= rs_step s) d') by (eapply Forall_impl; [|exact (doc_form_rings n' d' Hd')]; cbn; tauto).
  destruct (range_binding E L p p' K K' d d' ct ct' t t' res res' tf Hs Hs' Hl Hl' Hr Hr' Hv Hv') as (Ht & Hk & Hdd).
  split; [exact Ht|]. split; [exact Hk|]. subst d'.
  pose proof (doc_form_bound _ _ Hd). pose proof (doc_form_bound _ _ Hd'). congruence.
Qed.
Print Assumptions C10_range_binding.
