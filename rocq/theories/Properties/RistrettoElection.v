(** * C92, continued: elections with the Ristretto backend

    The challenges are 64 bytes of the transcript, reduced modulo the order.  With at most [2 ^ 60] evaluations of the hash, in the
    attack and in the checks together, a wrong result has probability at most [2 ^ -132]. *)
From Coq Require Import List String NArith ZArith Arith Lia Bool.
From Verif.Model Require Import Base Group Transcript Keys Encryption LogEquality Ring Range Mul Sharing Choice Quadratic Backends.
From Verif.Spec Require Import Encryption Sharing Choice Quadratic Tally Collect Backends Domains Rom Verifiers Sources RomElection.
From Verif.Proofs Require Import Algebra Backends Rom Sources.
From Verif.Instance Require Import Primality Zq Curves FullSize.
From Verif.Properties Require Import Backends Sources RomElection.
Import ListNotations.
Open Scope string_scope.
Open Scope list_scope.
Open Scope nat_scope.

Lemma success_relax {G : Group} (S : source G) {X Y} (A : strategy (Scalar G) X) (V : X -> strategy (Scalar G) Y) wins (num den num' den' : Z) :
  (0 < den)%Z -> (0 <= den')%Z -> (den' * num <= den * num')%Z -> success_at_most S A V wins num den -> success_at_most S A V wins num' den'.
Proof.
  intros Hd Hd' Hle H D W HW Hall. specialize (H D W HW Hall).
  assert (HX : (0 <= size S ^ Z.of_nat (List.length D))%Z) by (apply Z.pow_nonneg; unfold size; lia).
  set (X0 := (size S ^ Z.of_nat (List.length D))%Z) in *. set (w := Z.of_nat (List.length W)) in *.
  apply (Z.mul_le_mono_pos_l _ _ den); [exact Hd|].
  apply (Z.le_trans _ (den' * (num * X0))).
  - replace (den * (den' * w))%Z with (den' * (den * w))%Z by ring. apply Z.mul_le_mono_nonneg_l; assumption.
  - replace (den' * (num * X0))%Z with (den' * num * X0)%Z by ring. replace (den * (num' * X0))%Z with (den * num' * X0)%Z by ring.
    apply Z.mul_le_mono_nonneg_r; assumption.
Qed.

Lemma wide_bound (q m N : Z) : (2 ^ 252 <= q)%Z -> (q * m < 256 ^ 64 + q)%Z -> (0 <= m)%Z -> (0 <= N <= 2 ^ 60)%Z ->
  (2 ^ 132 * (m * (N * (N + 1))) <= 2 * 256 ^ 64 * 1)%Z.
Proof.
  intros Hq Hm Hm0 HN.
  assert (H1 : (m <= 2 ^ 260)%Z).
  { apply Z.lt_succ_r. apply (Z.mul_lt_mono_pos_l q); [lia|]. replace (256 ^ 64)%Z with (2 ^ 252 * 2 ^ 260)%Z in Hm by reflexivity.
    apply (Z.lt_le_trans _ _ _ Hm). rewrite <- Z.add_1_r, Z.mul_add_distr_l, Z.mul_1_r. apply Z.add_le_mono_r. apply Z.mul_le_mono_nonneg_r; [discriminate|exact Hq]. }
  assert (H2 : (N * (N + 1) <= 2 ^ 60 * (2 ^ 60 + 1))%Z) by (apply Z.mul_le_mono_nonneg; lia).
  assert (H3 : (m * (N * (N + 1)) <= 2 ^ 260 * (2 ^ 60 * (2 ^ 60 + 1)))%Z) by (apply Z.mul_le_mono_nonneg; nia).
  apply (Z.le_trans _ (2 ^ 132 * (2 ^ 260 * (2 ^ 60 * (2 ^ 60 + 1))))); [apply Z.mul_le_mono_nonneg_l; [discriminate|exact H3]|].
  vm_compute. discriminate.
Qed.

Section Bound.
Context (D : Dalek) (L : DalekLaws D) (HO : prime_order L) (Hq : (2 ^ 252 <= dl_order L)%Z).
Let G := dalek_group D (ristretto_deserialize_element D).

Lemma ristretto_bound {X Y} (A : strategy (Scalar G) X) (V : X -> strategy (Scalar G) Y) wins (N : Z) :
  (0 <= N <= 2 ^ 60)%Z ->
  (forall m, balanced (dalek_source D (ristretto_deserialize_element D)) m ->
     success_at_most (dalek_source D (ristretto_deserialize_element D)) A V wins (m * (N * (N + 1)))
       (2 * size (dalek_source D (ristretto_deserialize_element D)))) ->
  success_at_most (dalek_source D (ristretto_deserialize_element D)) A V wins 1 (2 ^ 132).
Proof.
  intros HN H. destruct (C65_dalek D L) as (m & Hm & Hb & _). destruct (Hb (ristretto_deserialize_element D)) as [Hbal Hsize].
  assert (Hm0 : (0 <= m)%Z) by (apply (proj2 Hbal (@s_default G) []); [constructor|intros d []]).
  specialize (H m Hbal). rewrite Hsize in H. refine (success_relax _ _ _ _ _ _ _ _ _ _ _ H); [reflexivity|discriminate|].
  exact (wide_bound (dl_order L) m N Hq Hm Hm0 HN).
Qed.
End Bound.

Theorem C92_ristretto_elections :
  forall (D : Dalek) (L : DalekLaws D), prime_order L -> (2 ^ 252 <= dl_order L)%Z ->
  forall R fill squeeze sha estimate b,
  let E := dalek_env D (ristretto_deserialize_element D) R fill squeeze sha estimate b in
  let S := dalek_source D (ristretto_deserialize_element D) in
  forall params keys (ks : PublicKeySet E) (sk : SecretKey E) B M Q,
    params_ok params -> PublicKeySet_from_participants params keys = Ret (Ok ks) -> key_of sk (ks_shared_key ks) ->
    (forall n, (N.of_nat n < 2 ^ 64)%N -> (Z.of_nat (Q + (B * (n + 2) + M)) <= 2 ^ 60)%Z ->
     forall A : strategy (Scalar E) (list (single_ballot E) * list (message E)), at_most Q A ->
       success_at_most S A (election_checker (single_checker n ks) (fun b => fst (fst b)) n B M ks)
         (fun o '(es, msgs) => List.length es <= B /\ List.length msgs <= M /\
            ~ exists chosen, let cts := map (fun b => fst (fst b)) (filter (single_accepted E n (ks_shared_key ks) o) es) in
                Forall2 (fun k l => one_hot sk l k) chosen cts /\
                announced_right E o params ks n (map (choice_votes n) chosen) cts msgs)
         1 (2 ^ 132)) /\
    (forall n, (N.of_nat n < 2 ^ 64)%N -> (Z.of_nat (Q + (B * (n + 1) + M)) <= 2 ^ 60)%Z ->
     forall A : strategy (Scalar E) (list (multi_ballot E) * list (message E)), at_most Q A ->
       success_at_most S A (election_checker (multi_checker n ks) fst n B M ks)
         (fun o '(es, msgs) => List.length es <= B /\ List.length msgs <= M /\
            ~ exists votes, let cts := map fst (filter (multi_accepted E n (ks_shared_key ks) o) es) in
                Forall2 (Forall2 (fun v ct => (v <= 1)%N /\ decrypt_to_element sk ct = Encryption.times v generator)) votes cts /\
                announced_right E o params ks n votes cts msgs)
         1 (2 ^ 132)) /\
    (forall options credits max p, (credits + 65 < 2 ^ 64)%N -> qv_params (ks_shared_key ks) options credits max p ->
     (Z.of_nat options * (Z.of_N max * Z.of_N max) < dl_order L)%Z ->
     (Z.of_nat (Q + (B * quadratic_queries p + M)) <= 2 ^ 60)%Z ->
     forall A : strategy (Scalar E) (list (QuadraticVotingBallot E) * list (message E)), at_most Q A ->
       success_at_most S A (election_checker (quadratic_checker p) quadratic_choices options B M ks)
         (fun o '(es, msgs) => List.length es <= B /\ List.length msgs <= M /\
            ~ exists votes, let cts := map quadratic_choices (filter (quadratic_accepted E p o) es) in
                Forall2 (fun vs l => Forall2 (fun v ct => (v <= max)%N /\ decrypt_to_element sk ct = Encryption.times v generator) vs l /\
                                     (squares vs <= credits)%N) votes cts /\
                announced_right E o params ks options votes cts msgs)
         1 (2 ^ 132)).
Proof.
  intros D L HO Hq R fill squeeze sha estimate b E S params keys ks sk B M Q Hp Hks Hsk.
  assert (Hbig : (2 ^ 64 <= order (ristretto_group_laws D L HO))%Z) by (apply (Z.le_trans _ (2 ^ 252)); [discriminate|exact Hq]).
  split; [|split].
  - intros n Hn HN A HA. apply (ristretto_bound D L Hq A _ _ (Z.of_nat (Q + (B * (n + 2) + M)))); [lia|]. intros m Hbal.
    exact (C92_election E (ristretto_group_laws D L HO) Hbig S m Hbal params keys ks sk n B M Hp Hks Hsk Hn Q A HA).
  - intros n Hn HN A HA. apply (ristretto_bound D L Hq A _ _ (Z.of_nat (Q + (B * (n + 1) + M)))); [lia|]. intros m Hbal.
    exact (C92_multi_election E (ristretto_group_laws D L HO) Hbig S m Hbal params keys ks sk n B M Hp Hks Hsk Hn Q A HA).
  - intros options credits max p Hc Hqv Hb HN A HA. apply (ristretto_bound D L Hq A _ _ (Z.of_nat (Q + (B * quadratic_queries p + M)))); [lia|]. intros m Hbal.
    exact (C92_quadratic_election E (ristretto_group_laws D L HO) Hbig S m Hbal params keys ks sk options credits max p B M Hp Hks Hsk Hc Hqv Hb Q A HA).
Qed.
Print Assumptions C92_ristretto_elections.

(** a stand-in for the curve crate with the order of Ristretto meets the assumptions *)
Example C92_ristretto_example : exists L : DalekLaws (full_dalek 1), prime_order L /\ dl_order L = ell /\ (2 ^ 252 <= dl_order L)%Z.
Proof.
  exists (full_dalek_laws 1 eq_refl ltac:(discriminate)). split; [exact full_prime_order|]. split; [reflexivity|].
  change (2 ^ 252 <= ell)%Z. apply Z.leb_le. vm_compute. reflexivity.
Qed.
