(** * C70: fewer than [t] participants learn nothing about ballots

    A dealer shares a key with threshold [t].  The distinguisher knows what the dealer publishes and the secret shares of
    [t - 1] participants; a client publishes a ciphertext or a ballot for one of two inputs.  As in C68 and C69, telling
    the inputs apart is breaking DDH: the attackers (Spec/Coalition.v) run the distinguisher once. *)
From Coq Require Import List NArith ZArith String Bool Lia.
From Verif.Properties Require Import Keys Uniform Sharing Secrecy.
From Verif.Model Require Import Base Group Transcript Keys Encryption LogEquality Possession Ring Range Choice Sharing.
From Verif.Spec Require Import Encryption Range Choice Sharing Domains Rom Forking Verifiers Uniform Secrecy Coalition.
From Verif.Proofs Require Import Algebra Range RangeProof Quadratic Rom UniformRing UniformBallots Sharing Secrecy SecrecyBallots Coalition.
From Verif.Instance Require Import Primality Zq.
Import ListNotations.
Open Scope string_scope.
Open Scope list_scope.

(** [t - 1] different participants *)
Definition coalition (params : Params) (is_ : list nat) : Prop :=
  NoDup is_ /\ (forall i, In i is_ -> (i < pa_shares params)%nat) /\ (List.length is_ + 1 = pa_threshold params)%nat.

Theorem C70_encrypt_element :
  forall (E : Env) (L : GroupLaws E), ser_total E -> (2 ^ 64 <= order L)%Z ->
  forall params is_, params_ok params -> coalition params is_ ->
  forall seed, seeds seed -> forall dom o0, NoDup dom -> covers_dealing L dom params is_ ->
  forall (M M' : PublicKey E -> Element E) D,
    let hashes := all_hashes (all_scalars L) dom o0 in
    let coins := attacker_coins L 1 (2 * pa_threshold params) hashes in
    (order L ^ 3 * (order L - 1) *
       (dealt_guesses L params is_ 1 seed hashes (real_encryption M) D - dealt_guesses L params is_ 1 seed hashes (real_encryption M') D) =
     ddh_gap L coins (attacker (fun K => [M K]) (simulate_dealing L params is_ simulate_encryption) (coalition_view L is_ D)) -
     ddh_gap L coins (attacker (fun K => [M' K]) (simulate_dealing L params is_ simulate_encryption) (coalition_view L is_ D)))%Z.
Proof.
  intros E L Ht Hb params is_ Hp (H1 & H2 & H3) seed Hs dom o0 Hd Hc M M' D hashes coins. unfold coins. rewrite <- (Nat.add_0_r (2 * pa_threshold params)).
  destruct (encryption_scheme E L Ht dom o0) as (assemble & acc & Hsim & Hside).
  exact (coalition_secret E L Ht Hb params Hp is_ H1 H2 H3 seed Hs dom o0 Hd Hc 1 1 0 0 _ _ _ _ _ _ _ D Hsim (Hside M) (Hside M')).
Qed.
Print Assumptions C70_encrypt_element.

Theorem C70_encrypt_bool :
  forall (E : Env) (L : GroupLaws E), ser_total E -> (2 ^ 64 <= order L)%Z ->
  forall params is_, params_ok params -> coalition params is_ ->
  forall seed, seeds seed -> forall dom o0, NoDup dom -> covers_dealing L dom params is_ ->
  covers dom 1 3 (fun K c s => bool_verifier (E:=E) K (first_of (E:=E) c) (ring_proof_of (E:=E) s)) ->
  forall (v v' : PublicKey E -> bool) D,
    let hashes := all_hashes (all_scalars L) dom o0 in
    let coins := attacker_coins L 1 (2 * pa_threshold params + 3) hashes in
    (order L ^ 4 * (order L - 1) *
       (dealt_guesses L params is_ 3 seed hashes (real_bool v) D - dealt_guesses L params is_ 3 seed hashes (real_bool v') D) =
     ddh_gap L coins (attacker (fun K => [bit_element (v K)]) (simulate_dealing L params is_ simulate_bool) (coalition_view L is_ D)) -
     ddh_gap L coins (attacker (fun K => [bit_element (v' K)]) (simulate_dealing L params is_ simulate_bool) (coalition_view L is_ D)))%Z.
Proof.
  intros E L Ht Hb params is_ Hp (H1 & H2 & H3) seed Hs dom o0 Hd Hc Hv v v' D.
  destruct (bool_scheme E L Ht dom o0 Hd Hv) as (assemble & acc & Hsim & Hside).
  exact (coalition_secret E L Ht Hb params Hp is_ H1 H2 H3 seed Hs dom o0 Hd Hc 3 1 3 1 _ _ _ _ _ _ _ D Hsim (Hside v) (Hside v')).
Qed.
Print Assumptions C70_encrypt_bool.

Theorem C70_multi_choice :
  forall (E : Env) (L : GroupLaws E), ser_total E -> (2 ^ 64 <= order L)%Z ->
  forall params is_, params_ok params -> coalition params is_ ->
  forall seed, seeds seed -> forall dom o0, NoDup dom -> covers_dealing L dom params is_ ->
  forall n, (0 < n)%nat -> (N.of_nat n < 2 ^ 64)%N ->
  covers dom n (1 + 2 * n) (fun K c s => choice_ranges_verifier (E:=E) K c (ring_proof_of (E:=E) s)) ->
  forall (v v' : PublicKey E -> list bool) D,
    (forall K, List.length (v K) = n) -> (forall K, List.length (v' K) = n) ->
    let hashes := all_hashes (all_scalars L) dom o0 in
    let coins := attacker_coins L n (2 * pa_threshold params + (1 + 2 * n)) hashes in
    (order L ^ Z.of_nat (n + 3) * (order L - 1) *
       (dealt_guesses L params is_ (3 * n) seed hashes (real_multi n v) D - dealt_guesses L params is_ (3 * n) seed hashes (real_multi n v') D) =
     ddh_gap L coins (attacker (fun K => map bit_element (v K)) (simulate_dealing L params is_ simulate_multi) (coalition_view L is_ D)) -
     ddh_gap L coins (attacker (fun K => map bit_element (v' K)) (simulate_dealing L params is_ simulate_multi) (coalition_view L is_ D)))%Z.
Proof.
  intros E L Ht Hb params is_ Hp (H1 & H2 & H3) seed Hs dom o0 Hd Hc n Hn Hn' Hcn v v' D Hv Hv'.
  destruct (multi_scheme E L Ht dom o0 Hd n Hn Hn' Hcn) as (assemble & acc & Hsim & Hside).
  replace (n + 3)%nat with (n + 1 + 2)%nat by lia.
  exact (coalition_secret E L Ht Hb params Hp is_ H1 H2 H3 seed Hs dom o0 Hd Hc (3 * n) n (1 + 2 * n) 1 _ _ _ _ _ _ _ D Hsim (Hside v Hv) (Hside v' Hv')).
Qed.
Print Assumptions C70_multi_choice.

Theorem C70_single_choice :
  forall (E : Env) (L : GroupLaws E), ser_total E -> (2 ^ 64 <= order L)%Z ->
  forall params is_, params_ok params -> coalition params is_ ->
  forall seed, seeds seed -> forall dom o0, NoDup dom -> covers_dealing L dom params is_ ->
  forall n, (0 < n)%nat -> (N.of_nat n < 2 ^ 64)%N ->
  covers dom n (3 + 2 * n) (fun K c s => choice_ranges_verifier (E:=E) K c (ring_proof_of (E:=E) (tl (tl s)))) ->
  covers dom n (3 + 2 * n) (fun K c s => sum_verifier (E:=E) K c {| le_challenge := hd 0%S s; le_response := hd 0%S (tl s) |}) ->
  forall (v v' : PublicKey E -> list bool) D,
    (forall K, List.length (v K) = n /\ count_occ bool_dec (v K) true = 1%nat) ->
    (forall K, List.length (v' K) = n /\ count_occ bool_dec (v' K) true = 1%nat) ->
    let hashes := all_hashes (all_scalars L) dom o0 in
    let coins := attacker_coins L n (2 * pa_threshold params + (3 + 2 * n)) hashes in
    (order L ^ Z.of_nat (n + 4) * (order L - 1) *
       (dealt_guesses L params is_ (3 * n + 1) seed hashes (real_single n v) D - dealt_guesses L params is_ (3 * n + 1) seed hashes (real_single n v') D) =
     ddh_gap L coins (attacker (fun K => map bit_element (v K)) (simulate_dealing L params is_ simulate_single) (coalition_view L is_ D)) -
     ddh_gap L coins (attacker (fun K => map bit_element (v' K)) (simulate_dealing L params is_ simulate_single) (coalition_view L is_ D)))%Z.
Proof.
  intros E L Ht Hb params is_ Hp (H1 & H2 & H3) seed Hs dom o0 Hd Hc n Hn Hn' Hcn Hcs v v' D Hv Hv'.
  destruct (single_scheme E L Ht dom o0 Hd n Hn Hn' Hcn Hcs) as (assemble & acc & Hsim & Hside).
  replace (n + 4)%nat with (n + 2 + 2)%nat by lia.
  exact (coalition_secret E L Ht Hb params Hp is_ H1 H2 H3 seed Hs dom o0 Hd Hc (3 * n + 1) n (3 + 2 * n) 2 _ _ _ _ _ _ _ D Hsim (Hside v Hv) (Hside v' Hv')).
Qed.
Print Assumptions C70_single_choice.

Theorem C70_encrypt_range :
  forall (E : Env) (L : GroupLaws E), ser_total E -> (2 ^ 64 <= order L)%Z ->
  forall params is_, params_ok params -> coalition params is_ ->
  forall seed, seeds seed -> forall dom o0, NoDup dom -> covers_dealing L dom params is_ ->
  forall est n d pr, (n + 64 < 2 ^ 64)%N -> RangeDecomposition_optimal (env_build E) est n = Ret d -> PreparedRange_new d = Ret pr ->
  let k := (1 + N.to_nat (n_sum (map rs_size d)))%nat in
  covers dom (List.length d) k (fun K c s =>
    range_verifier (E:=E) {| rap_partial := tl c; rap_inner := ring_proof_of (E:=E) s |} K pr (first_of (E:=E) c) (transcript_new "ciphertext_range")) ->
  forall v v' D, (v < n)%N -> (v' < n)%N ->
  exists idx idx', in_rings d idx /\ composed d idx = v /\ in_rings d idx' /\ composed d idx' = v' /\
    let hashes := all_hashes (all_scalars L) dom o0 in
    let coins := attacker_coins L (List.length d) (2 * pa_threshold params + k) hashes in
    (order L ^ Z.of_nat (List.length d + 3) * (order L - 1) *
       (dealt_guesses L params is_ (range_draws d) seed hashes (real_range pr v) D -
        dealt_guesses L params is_ (range_draws d) seed hashes (real_range pr v') D) =
     ddh_gap L coins (attacker (fun _ => range_messages d v idx) (simulate_dealing L params is_ (simulate_range pr)) (coalition_view L is_ D)) -
     ddh_gap L coins (attacker (fun _ => range_messages d v' idx') (simulate_dealing L params is_ (simulate_range pr)) (coalition_view L is_ D)))%Z.
Proof.
  intros E L Ht Hb params is_ Hp (H1 & H2 & H3) seed Hs dom o0 Hdom Hcd est n d pr Hn H Hpr k Hc v v' D Hv Hv'.
  pose proof (optimal_valid _ est n d ltac:(unfold u64_lim; lia) H) as Hd.
  rewrite (prepared_ok E L n d Hd) in Hpr by (unfold u64_lim; lia). injection Hpr as <-.
  destruct (digits_ok E n d v Hd ltac:(unfold u64_lim; lia) Hv) as (_ & Hin & Hco).
  destruct (digits_ok E n d v' Hd ltac:(unfold u64_lim; lia) Hv') as (_ & Hin' & Hco').
  exists (digits E d v), (digits E d v'). do 4 (split; [assumption|]).
  destruct (range_scheme E L Ht dom o0 Hdom n d Hd Hn Hc) as (assemble & acc & Hsim & Hside).
  replace (List.length d + 3)%nat with (List.length d + 1 + 2)%nat by lia.
  exact (coalition_secret E L Ht Hb params Hp is_ H1 H2 H3 seed Hs dom o0 Hdom Hcd (range_draws d) (List.length d) k 1 _ _ _ _ _ _ _ D Hsim (Hside v Hv) (Hside v' Hv')).
Qed.
Print Assumptions C70_encrypt_range.

(** There are finite sets of hash inputs as required above. *)
Theorem C70_hash_inputs :
  forall (E : Env) (L : GroupLaws E), ser_total E -> (2 ^ 64 <= order L)%Z ->
  forall params is_, params_ok params -> coalition params is_ ->
  forall (A B : Type) n k (V : PublicKey E -> list (Ciphertext E) -> list (Scalar E) -> strategy (Scalar E) A)
    (V' : PublicKey E -> list (Ciphertext E) -> list (Scalar E) -> strategy (Scalar E) B),
  exists dom, NoDup dom /\ covers_dealing L dom params is_ /\ covers dom n k V /\ covers dom n k V'.
Proof.
  intros E L Ht Hb params is_ Hp (H1 & H2 & H3) A B n k V V'. exact (covers_all E L Ht Hb params Hp is_ H1 H2 H3 n k V V').
Qed.
Print Assumptions C70_hash_inputs.

(** ** decryption shares

    From its own shares and the plaintext [M], the coalition can compute the decryption share of any participant.  So the
    decryption shares of the others do not tell it more than the plaintext. *)
Theorem C70_decryption_shares :
  forall (E : Env) (L : GroupLaws E), (2 ^ 64 <= order L)%Z ->
  forall (ks : PublicKeySet E) p is_ shares, params_ok (ks_params ks) -> coalition (ks_params ks) is_ ->
    List.length p = pa_threshold (ks_params ks) -> keys_of_poly p (ks_participant_keys ks) ->
    Forall2 (fun j s => exists a, ActiveParticipant_new ks j s = Ret (Ok a)) is_ shares ->
  forall i s a c r d pf r' M,
    ActiveParticipant_new ks i s = Ret (Ok a) -> ActiveParticipant_decrypt_share a c r = Ret (d, pf, r') ->
    blinded_element c = (M + random_element c * peval p 0%S)%E ->
    vd_dh_element d =
    evaluate (interpolate L ((0%S, (blinded_element c - M)%E) :: map (fun js => (node (fst js), random_element c * snd js)%E) (combine is_ shares))) (node i).
Proof.
  intros E L Hb ks p is_ shares Hp (H1 & H2 & H3) Hl Hk HF i s a c r d pf r' M Ha Hd HM.
  destruct (decrypt_share_complete E L ks i s a c r d pf r' Ha Hd) as [-> _].
  assert (Hs : forall j x b, ActiveParticipant_new ks j x = Ret (Ok b) -> x = peval p (node j)).
  { intros j x b Hx. apply (participant_new_iff E L) in Hx as (_ & key & Hn & Hx). apply Hk in Hn. rewrite Hn in Hx. apply (gen_inj L) in Hx. congruence. }
  rewrite (Hs _ _ _ Ha). symmetry. apply (other_shares E L Hb (ks_params ks) Hp is_ H1 H2 H3); [exact Hl| |].
  - unfold shares_of. clear - HF Hs. induction HF as [|j x is_ shares (b & Hx) _ IH]; [reflexivity|]. cbn [map]. rewrite (Hs _ _ _ Hx), IH. reflexivity.
  - rewrite HM. apply (add_sub E L).
Qed.
Print Assumptions C70_decryption_shares.

(** ** Examples *)

(** participants 0 and 3 of 5 for the threshold 3 *)
Example C70_example_coalition : params_ok ex_params /\ coalition ex_params [0; 3]%nat /\ (2 ^ 64 <= order RL)%Z.
Proof.
  split; [split; [cbn; lia|reflexivity]|]. split; [|vm_compute; discriminate]. split; [|split; [|reflexivity]].
  - repeat constructor; cbn; lia.
  - intros i [<-|[<-|[]]]; cbn; lia.
Qed.

(** they do not tell ballots for different options apart *)
Example C70_example_single :
  exists dom, NoDup dom /\
  forall o0 (D : list (Element SE) -> ProofOfPossession SE -> list (Scalar SE) -> list (Ciphertext SE) * RingProof SE * LogEqualityProof SE -> strategy (Scalar SE) bool),
    let hashes := all_hashes (all_scalars RL) dom o0 in
    let coins := attacker_coins (E:=SE) RL 5 19 hashes in
    (order RL ^ 9 * (order RL - 1) *
       Z.abs (dealt_guesses (E:=SE) RL ex_params [0; 3]%nat 16 se_seed hashes (real_single 5 (fun _ => first_option)) D -
              dealt_guesses (E:=SE) RL ex_params [0; 3]%nat 16 se_seed hashes (real_single 5 (fun _ => last_option)) D) <=
     Z.abs (ddh_gap (E:=SE) RL coins (attacker (fun _ => map bit_element first_option) (simulate_dealing (E:=SE) RL ex_params [0; 3]%nat simulate_single) (coalition_view (E:=SE) RL [0; 3]%nat D))) +
     Z.abs (ddh_gap (E:=SE) RL coins (attacker (fun _ => map bit_element last_option) (simulate_dealing (E:=SE) RL ex_params [0; 3]%nat simulate_single) (coalition_view (E:=SE) RL [0; 3]%nat D))))%Z.
Proof.
  destruct C70_example_coalition as (Hp & Hc & Hb).
  destruct (C70_hash_inputs SE RL RE_ser_total Hb ex_params [0; 3]%nat Hp Hc _ _ 5 13 (fun K c s => choice_ranges_verifier (E:=SE) K c (ring_proof_of (E:=SE) (tl (tl s))))
    (fun K c s => sum_verifier (E:=SE) K c {| le_challenge := hd 0%S s; le_response := hd 0%S (tl s) |})) as (dom & Hd & H0 & H1 & H2).
  exists dom. split; [exact Hd|]. intros o0 D hashes coins. apply abs_bound.
  - apply factor_ok.
  - exact (C70_single_choice SE RL RE_ser_total Hb ex_params [0; 3]%nat Hp Hc se_seed se_seeds dom o0 Hd H0 5 ltac:(lia) eq_refl H1 H2 (fun _ => first_option) (fun _ => last_option) D
      (fun _ => conj eq_refl eq_refl) (fun _ => conj eq_refl eq_refl)).
Qed.

(** the same coalition computes the decryption share of participant 2 *)
Example C70_example_shares :
  keys_of_poly [rs 10; rs 20; rs 30] (ks_participant_keys ex_ks) /\
  Forall2 (fun j s => exists a, ActiveParticipant_new ex_ks j s = Ret (Ok a)) [0; 3]%nat [rs 60; rs 570] /\
  exists a d pf r', ActiveParticipant_new ex_ks 2 (rs 340) = Ret (Ok a) /\ ActiveParticipant_decrypt_share a ex_ct 8%Z = Ret (d, pf, r').
Proof.
  assert (Hb : forall x y : Element RE, e_eqb x y = true -> x = y) by (intros x y; apply (e_eqb_ok RE RL)).
  assert (Ha : forall j key s, nth_error ex_keys j = Some key -> e_eqb (pk_element key) (generator * s)%E = true -> exists a, ActiveParticipant_new ex_ks j s = Ret (Ok a)).
  { intros j key s Hk Hs. eexists. apply (participant_new_iff RE RL). split; [reflexivity|]. exists key. auto. }
  split; [|split].
  - intros i key H. apply Hb. do 5 (destruct i as [|i]; [injection H as <-; vm_compute; reflexivity|]). destruct i; discriminate.
  - constructor; [|constructor; [|constructor]]; (eapply Ha; [reflexivity|vm_compute; reflexivity]).
  - destruct (Ha 2%nat _ (rs 340) eq_refl) as [a H]; [vm_compute; reflexivity|].
    destruct (C34_share_never_panics RE RL RE_ser_total ex_ks 2 (rs 340) a ex_ct 8%Z H) as (d & pf & r' & Hd). eauto 10.
Qed.
