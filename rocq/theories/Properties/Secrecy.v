(** * C68, C69: breaking the secrecy of encryptions and ballots is breaking DDH

    Each theorem takes an arbitrary distinguisher [D] between what a client publishes for one of two inputs.  The
    difference in the numbers of cases in which [D] outputs [true] equals, up to a factor, the difference in the success
    of two explicit attackers on DDH (Spec/Secrecy.v), each of which runs [D] once. *)
From Coq Require Import List NArith ZArith String Bool Lia.
From Verif.Properties Require Import Keys Uniform.
From Verif.Model Require Import Base Group Transcript Keys Encryption LogEquality Ring Range Choice.
From Verif.Spec Require Import Encryption Range Choice Domains Rom Forking Verifiers Uniform Secrecy.
From Verif.Proofs Require Import Algebra Range RangeProof Quadratic Rom UniformRing UniformBallots Secrecy SecrecyBallots.
From Verif.Instance Require Import Primality Zq.
Import ListNotations.
Open Scope string_scope.
Open Scope list_scope.

(** ** encryptions *)
Theorem C68_encrypt_element :
  forall (E : Env) (L : GroupLaws E), ser_total E ->
  forall seed, seeds seed -> forall dom o0 (M M' : PublicKey E -> Element E) (D : PublicKey E -> Ciphertext E -> strategy (Scalar E) bool),
    let hashes := all_hashes (all_scalars L) dom o0 in
    let coins := attacker_coins L 1 0 hashes in
    (order L ^ 2 * (order L - 1) * (guesses L 1 seed hashes (real_encryption M) D - guesses L 1 seed hashes (real_encryption M') D) =
     ddh_gap L coins (attacker (fun K => [M K]) simulate_encryption D) -
     ddh_gap L coins (attacker (fun K => [M' K]) simulate_encryption D))%Z.
Proof. intros E L Ht seed Hs dom o0 M M' D. exact (encryption_secret E L Ht seed Hs dom o0 M M' D). Qed.
Print Assumptions C68_encrypt_element.

Theorem C68_encrypt :
  forall (E : Env) (L : GroupLaws E), ser_total E ->
  forall seed, seeds seed -> forall dom o0 (m m' : PublicKey E -> Scalar E) (D : PublicKey E -> Ciphertext E -> strategy (Scalar E) bool),
    let hashes := all_hashes (all_scalars L) dom o0 in
    let coins := attacker_coins L 1 0 hashes in
    (order L ^ 2 * (order L - 1) *
       (guesses L 1 seed hashes (fun _ K r => Ret (encrypt K (m K) r)) D - guesses L 1 seed hashes (fun _ K r => Ret (encrypt K (m' K) r)) D) =
     ddh_gap L coins (attacker (fun K => [generator * m K])%E simulate_encryption D) -
     ddh_gap L coins (attacker (fun K => [generator * m' K])%E simulate_encryption D))%Z.
Proof.
  intros E L Ht seed Hs dom o0 m m' D hashes coins.
  rewrite (gap_ext L coins (attacker (fun K => [generator * m K])%E simulate_encryption D) (attacker (fun K => [mul_generator (m K)]) simulate_encryption D)).
  rewrite (gap_ext L coins (attacker (fun K => [generator * m' K])%E simulate_encryption D) (attacker (fun K => [mul_generator (m' K)]) simulate_encryption D)).
  - exact (encryption_secret E L Ht seed Hs dom o0 (fun K => mul_generator (m K)) (fun K => mul_generator (m' K)) D).
  - intros T [[c s] o]. unfold attacker. destruct (PublicKey_from_element (fst (fst T))) as [K|]; [|reflexivity]. cbn [bind].
    rewrite (mul_generator_ok E L). reflexivity.
  - intros T [[c s] o]. unfold attacker. destruct (PublicKey_from_element (fst (fst T))) as [K|]; [|reflexivity]. cbn [bind].
    rewrite (mul_generator_ok E L). reflexivity.
Qed.
Print Assumptions C68_encrypt.

(** without a bound on the computations of [D], ciphertexts do determine the message; so the attackers then solve DDH *)
Definition brute_force {E : Env} (L : GroupLaws E) (M : Element E) (K : PublicKey E) (c : Ciphertext E) : strategy (Scalar E) bool :=
  Output (e_eqb (decrypt_to_element (dlog L (pk_element K)) c) M).

Theorem C68_not_unconditional :
  forall (E : Env) (L : GroupLaws E), ser_total E ->
  forall seed hashes (M M' : Element E), M <> M' ->
    guesses L 1 seed hashes (real_encryption (fun _ => M)) (brute_force L M) = (order L ^ 2 * Z.of_nat (List.length hashes))%Z /\
    guesses L 1 seed hashes (real_encryption (fun _ => M')) (brute_force L M) = 0%Z.
Proof.
  intros E L Ht seed hashes M M' Hne.
  assert (H : forall N0 xs o, returns ('(kp, r) <- Keypair_generate (seed xs) ;; '(a, _) <- real_encryption (fun _ => N0) o (kp_public kp) r ;;
                Ret (run o (brute_force L M (kp_public kp) a))) = e_eqb N0 M).
  { intros N0 xs o. rewrite (pair_generate E L Ht). cbn [bind]. unfold real_encryption.
    set (kp := pair_of E (fst (generate_scalar (seed xs)))). destruct (encrypt_element (kp_public kp) N0 (snd (generate_scalar (seed xs)))) as [c r'] eqn:He.
    cbn [bind returns run brute_force]. f_equal.
    destruct (pair_of_good E L Ht (fst (generate_scalar (seed xs)))) as [Hk _]. fold kp in Hk.
    refine (proj1 (proj2 (C01_decrypt_encrypt E L _ (kp_public kp) _)) N0 _ _ _ He). symmetry. apply (dlog_ok E L). }
  unfold guesses. split.
  - rewrite (tally_ext _ _ (fun _ => true)); [|intros [xs o]; cbn [fst snd]; rewrite H; apply (e_eqb_refl L)].
    rewrite tally_true, prod_length, (tapes_len E L), Nat2Z.inj_mul, Nat2Z.inj_pow, Z2Nat.id by (pose proof (order_gt_1 L); lia). reflexivity.
  - rewrite (tally_ext _ _ (fun _ => false)); [|intros [xs o]; cbn [fst snd]; rewrite H; apply (e_eqb_false L); congruence].
    apply tally_false.
Qed.
Print Assumptions C68_not_unconditional.

(** ** ballots *)
Theorem C69_encrypt_bool :
  forall (E : Env) (L : GroupLaws E), ser_total E ->
  forall seed, seeds seed -> forall dom o0, NoDup dom ->
  covers dom 1 3 (fun K c s => bool_verifier (E:=E) K (first_of (E:=E) c) (ring_proof_of (E:=E) s)) ->
  forall (v v' : PublicKey E -> bool) (D : PublicKey E -> Ciphertext E * RingProof E -> strategy (Scalar E) bool),
    let hashes := all_hashes (all_scalars L) dom o0 in
    let coins := attacker_coins L 1 3 hashes in
    (order L ^ 3 * (order L - 1) * (guesses L 3 seed hashes (real_bool v) D - guesses L 3 seed hashes (real_bool v') D) =
     ddh_gap L coins (attacker (fun K => [bit_element (v K)]) simulate_bool D) -
     ddh_gap L coins (attacker (fun K => [bit_element (v' K)]) simulate_bool D))%Z.
Proof. intros E L Ht seed Hs dom o0 Hd Hc v v' D. exact (bool_secret E L Ht seed Hs dom o0 Hd v v' D Hc). Qed.
Print Assumptions C69_encrypt_bool.

Theorem C69_multi_choice :
  forall (E : Env) (L : GroupLaws E), ser_total E ->
  forall seed, seeds seed -> forall dom o0, NoDup dom ->
  forall n, (0 < n)%nat -> (N.of_nat n < 2 ^ 64)%N ->
  covers dom n (1 + 2 * n) (fun K c s => choice_ranges_verifier (E:=E) K c (ring_proof_of (E:=E) s)) ->
  forall (v v' : PublicKey E -> list bool) (D : PublicKey E -> list (Ciphertext E) * RingProof E * unit -> strategy (Scalar E) bool),
    (forall K, List.length (v K) = n) -> (forall K, List.length (v' K) = n) ->
    let hashes := all_hashes (all_scalars L) dom o0 in
    let coins := attacker_coins L n (1 + 2 * n) hashes in
    (order L ^ Z.of_nat (n + 2) * (order L - 1) *
       (guesses L (3 * n) seed hashes (real_multi n v) D - guesses L (3 * n) seed hashes (real_multi n v') D) =
     ddh_gap L coins (attacker (fun K => map bit_element (v K)) simulate_multi D) -
     ddh_gap L coins (attacker (fun K => map bit_element (v' K)) simulate_multi D))%Z.
Proof. intros E L Ht seed Hs dom o0 Hd n H1 H2 Hc v v' D Hv Hv'. exact (multi_secret E L Ht seed Hs dom o0 Hd n v v' D H1 H2 Hv Hv' Hc). Qed.
Print Assumptions C69_multi_choice.

Theorem C69_single_choice :
  forall (E : Env) (L : GroupLaws E), ser_total E ->
  forall seed, seeds seed -> forall dom o0, NoDup dom ->
  forall n, (N.of_nat n < 2 ^ 64)%N ->
  covers dom n (3 + 2 * n) (fun K c s => choice_ranges_verifier (E:=E) K c (ring_proof_of (E:=E) (tl (tl s)))) ->
  covers dom n (3 + 2 * n) (fun K c s => sum_verifier (E:=E) K c {| le_challenge := hd 0%S s; le_response := hd 0%S (tl s) |}) ->
  forall (v v' : PublicKey E -> list bool) (D : PublicKey E -> list (Ciphertext E) * RingProof E * LogEqualityProof E -> strategy (Scalar E) bool),
    (forall K, List.length (v K) = n /\ count_occ bool_dec (v K) true = 1%nat) ->
    (forall K, List.length (v' K) = n /\ count_occ bool_dec (v' K) true = 1%nat) ->
    let hashes := all_hashes (all_scalars L) dom o0 in
    let coins := attacker_coins L n (3 + 2 * n) hashes in
    (order L ^ Z.of_nat (n + 3) * (order L - 1) *
       (guesses L (3 * n + 1) seed hashes (real_single n v) D - guesses L (3 * n + 1) seed hashes (real_single n v') D) =
     ddh_gap L coins (attacker (fun K => map bit_element (v K)) simulate_single D) -
     ddh_gap L coins (attacker (fun K => map bit_element (v' K)) simulate_single D))%Z.
Proof. intros E L Ht seed Hs dom o0 Hd n H2 Hc Hc' v v' D Hv Hv'. exact (single_secret E L Ht seed Hs dom o0 Hd n v v' D H2 Hv Hv' Hc Hc'). Qed.
Print Assumptions C69_single_choice.

Theorem C69_encrypt_range :
  forall (E : Env) (L : GroupLaws E), ser_total E ->
  forall seed, seeds seed -> forall dom o0, NoDup dom ->
  forall est n d pr, (n + 64 < 2 ^ 64)%N -> RangeDecomposition_optimal (env_build E) est n = Ret d -> PreparedRange_new d = Ret pr ->
  let k := (1 + N.to_nat (n_sum (map rs_size d)))%nat in
  covers dom (List.length d) k (fun K c s =>
    range_verifier (E:=E) {| rap_partial := tl c; rap_inner := ring_proof_of (E:=E) s |} K pr (first_of (E:=E) c) (transcript_new "ciphertext_range")) ->
  forall v v' (D : PublicKey E -> Ciphertext E * RangeProof E -> strategy (Scalar E) bool), (v < n)%N -> (v' < n)%N ->
  exists idx idx', in_rings d idx /\ composed d idx = v /\ in_rings d idx' /\ composed d idx' = v' /\
    let hashes := all_hashes (all_scalars L) dom o0 in
    let coins := attacker_coins L (List.length d) k hashes in
    (order L ^ Z.of_nat (List.length d + 2) * (order L - 1) *
       (guesses L (range_draws d) seed hashes (real_range pr v) D - guesses L (range_draws d) seed hashes (real_range pr v') D) =
     ddh_gap L coins (attacker (fun _ => range_messages d v idx) (simulate_range pr) D) -
     ddh_gap L coins (attacker (fun _ => range_messages d v' idx') (simulate_range pr) D))%Z.
Proof.
  intros E L Ht seed Hs dom o0 Hdom est n d pr Hn H Hpr k Hc v v' D Hv Hv'.
  pose proof (optimal_valid _ est n d ltac:(unfold u64_lim; lia) H) as Hd.
  rewrite (prepared_ok E L n d Hd) in Hpr by (unfold u64_lim; lia). injection Hpr as <-.
  destruct (digits_ok E n d v Hd ltac:(unfold u64_lim; lia) Hv) as (_ & Hin & Hco).
  destruct (digits_ok E n d v' Hd ltac:(unfold u64_lim; lia) Hv') as (_ & Hin' & Hco').
  exists (digits E d v), (digits E d v'). do 4 (split; [assumption|]).
  exact (range_secret E L Ht seed Hs dom o0 Hdom n d v v' D Hd Hn Hv Hv' Hc).
Qed.
Print Assumptions C69_encrypt_range.

(** There is a finite set of hash inputs as required above for every pair of verifiers. *)
Theorem C69_hash_inputs :
  forall (E : Env) (L : GroupLaws E), ser_total E ->
  forall (A B : Type) n k (V : PublicKey E -> list (Ciphertext E) -> list (Scalar E) -> strategy (Scalar E) A)
    (V' : PublicKey E -> list (Ciphertext E) -> list (Scalar E) -> strategy (Scalar E) B),
  exists dom, NoDup dom /\ covers dom n k V /\ covers dom n k V'.
Proof. intros E L Ht A B n k V V'. exact (covers_both E L Ht n k V V'). Qed.
Print Assumptions C69_hash_inputs.

(** ** Examples *)
Definition se_seed (xs : list (Scalar SE)) : Rng SE := fun i => nth i xs (rs 0).
Lemma se_seeds : seeds (E:=SE) se_seed.
Proof.
  intros xs. rewrite draws_stream. unfold se_seed. induction xs as [|x xs IH]; [reflexivity|]. cbn [List.length seq map].
  f_equal. rewrite <- seq_shift, map_map. exact IH.
Qed.

(** [factor * (difference in guesses)] is bounded by the success of the attackers *)
Lemma abs_bound a x y z : (0 <= a -> a * x = y - z -> a * Z.abs x <= Z.abs y + Z.abs z)%Z.
Proof. intros Ha H. rewrite <- (Z.abs_eq a) at 1 by exact Ha. rewrite <- Z.abs_mul. lia. Qed.

Lemma factor_ok n : (0 <= order RL ^ n * (order RL - 1))%Z.
Proof. pose proof (order_gt_1 RL). apply Z.mul_nonneg_nonneg; [apply Z.pow_nonneg|]; lia. Qed.

(** ballots for different options in a poll with 5 options *)
Definition first_option : list bool := [true; false; false; false; false].
Definition last_option : list bool := [false; false; false; false; true].
Example C69_example_single :
  exists dom, NoDup dom /\
  forall o0 (D : PublicKey SE -> list (Ciphertext SE) * RingProof SE * LogEqualityProof SE -> strategy (Scalar SE) bool),
    let hashes := all_hashes (all_scalars RL) dom o0 in
    let coins := attacker_coins (E:=SE) RL 5 13 hashes in
    (order RL ^ 8 * (order RL - 1) *
       Z.abs (guesses (E:=SE) RL 16 se_seed hashes (real_single 5 (fun _ => first_option)) D -
              guesses (E:=SE) RL 16 se_seed hashes (real_single 5 (fun _ => last_option)) D) <=
     Z.abs (ddh_gap (E:=SE) RL coins (attacker (fun _ => map bit_element first_option) simulate_single D)) +
     Z.abs (ddh_gap (E:=SE) RL coins (attacker (fun _ => map bit_element last_option) simulate_single D)))%Z.
Proof.
  destruct (C69_hash_inputs SE RL RE_ser_total _ _ 5 13 (fun K c s => choice_ranges_verifier (E:=SE) K c (ring_proof_of (E:=SE) (tl (tl s))))
    (fun K c s => sum_verifier (E:=SE) K c {| le_challenge := hd 0%S s; le_response := hd 0%S (tl s) |})) as (dom & Hd & H1 & H2).
  exists dom. split; [exact Hd|]. intros o0 D hashes coins. apply abs_bound.
  - apply factor_ok.
  - exact (C69_single_choice SE RL RE_ser_total se_seed se_seeds dom o0 Hd 5 eq_refl H1 H2 (fun _ => first_option) (fun _ => last_option) D
      (fun _ => conj eq_refl eq_refl) (fun _ => conj eq_refl eq_refl)).
Qed.

(** [encrypt_bool] *)
Example C69_example_bool :
  exists dom, NoDup dom /\
  forall o0 (D : PublicKey SE -> Ciphertext SE * RingProof SE -> strategy (Scalar SE) bool),
    let hashes := all_hashes (all_scalars RL) dom o0 in
    let coins := attacker_coins (E:=SE) RL 1 3 hashes in
    (order RL ^ 3 * (order RL - 1) *
       Z.abs (guesses (E:=SE) RL 3 se_seed hashes (real_bool (fun _ => true)) D - guesses (E:=SE) RL 3 se_seed hashes (real_bool (fun _ => false)) D) <=
     Z.abs (ddh_gap (E:=SE) RL coins (attacker (fun _ => [generator]) simulate_bool D)) +
     Z.abs (ddh_gap (E:=SE) RL coins (attacker (fun _ => [identity]) simulate_bool D)))%Z.
Proof.
  destruct (C69_hash_inputs SE RL RE_ser_total _ _ 1 3 (fun K c s => bool_verifier (E:=SE) K (first_of (E:=SE) c) (ring_proof_of (E:=SE) s))
    (fun K c s => bool_verifier (E:=SE) K (first_of (E:=SE) c) (ring_proof_of (E:=SE) s))) as (dom & Hd & H1 & _).
  exists dom. split; [exact Hd|]. intros o0 D hashes coins. apply abs_bound.
  - apply factor_ok.
  - exact (C69_encrypt_bool SE RL RE_ser_total se_seed se_seeds dom o0 Hd H1 (fun _ => true) (fun _ => false) D).
Qed.

(** the values 3 and 77 in the range [0..100) *)
Example C69_example_range :
  exists d pr dom, RangeDecomposition_optimal (env_build SE) int_lower_len_estimate 100 = Ret d /\ PreparedRange_new (E:=SE) d = Ret pr /\ NoDup dom /\
  forall o0 (D : PublicKey SE -> Ciphertext SE * RangeProof SE -> strategy (Scalar SE) bool), exists idx idx',
    in_rings d idx /\ composed d idx = 3%N /\ in_rings d idx' /\ composed d idx' = 77%N /\
    let hashes := all_hashes (all_scalars RL) dom o0 in
    let coins := attacker_coins (E:=SE) RL (List.length d) (1 + N.to_nat (n_sum (map rs_size d))) hashes in
    (order RL ^ Z.of_nat (List.length d + 2) * (order RL - 1) *
       (guesses (E:=SE) RL (range_draws d) se_seed hashes (real_range pr 3) D - guesses (E:=SE) RL (range_draws d) se_seed hashes (real_range pr 77) D) =
     ddh_gap (E:=SE) RL coins (attacker (fun _ => range_messages d 3 idx) (simulate_range pr) D) -
     ddh_gap (E:=SE) RL coins (attacker (fun _ => range_messages d 77 idx') (simulate_range pr) D))%Z.
Proof.
  assert (Hret : match RangeDecomposition_optimal (env_build SE) int_lower_len_estimate 100 with Ret _ => true | Panic _ => false end = true) by (vm_compute; reflexivity).
  destruct (RangeDecomposition_optimal (env_build SE) int_lower_len_estimate 100) as [d|] eqn:Hd; [|discriminate].
  pose proof (optimal_valid _ _ 100 d ltac:(unfold u64_lim; lia) Hd) as Hf.
  assert (Hp : PreparedRange_new (E:=SE) d = Ret (prepared SE d)) by (apply (prepared_ok SE RL 100 d Hf); unfold u64_lim; lia).
  set (V := fun (K : PublicKey SE) c s => range_verifier (E:=SE) {| rap_partial := tl c; rap_inner := ring_proof_of (E:=SE) s |} K (prepared SE d) (first_of (E:=SE) c) (transcript_new "ciphertext_range")).
  destruct (C69_hash_inputs SE RL RE_ser_total _ _ (List.length d) (1 + N.to_nat (n_sum (map rs_size d))) V V) as (dom & Hdom & H1 & _).
  exists d, (prepared SE d), dom. split; [reflexivity|]. split; [exact Hp|]. split; [exact Hdom|]. intros o0 D.
  exact (C69_encrypt_range SE RL RE_ser_total se_seed se_seeds dom o0 Hdom int_lower_len_estimate 100 d (prepared SE d) eq_refl Hd Hp H1 3 77 D eq_refl eq_refl).
Qed.
