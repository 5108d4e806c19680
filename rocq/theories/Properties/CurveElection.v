(** * C92, continued: elections with the Curve25519 backend

    Everything the crate parses consists of points of the prime-order subgroup (C59, C62), and on these points it works as
    described by [subgroup_env] (C62).  There, a wrong result has probability at most [2 ^ -132], as for Ristretto. *)
From Coq Require Import List String NArith ZArith Arith Lia Bool.
From Verif.Model Require Import Base Group Transcript Keys Encryption LogEquality Ring Range Mul Sharing Choice Quadratic Backends.
From Verif.Spec Require Import Encryption Sharing Choice Quadratic Tally Collect Backends Domains Rom Verifiers Sources RomElection.
From Verif.Proofs Require Import Algebra Backends Rom Sources.
From Verif.Instance Require Import Primality Zq Curves FullSize.
From Verif.Properties Require Import Backends Sources RomElection RistrettoElection.
Import ListNotations.
Open Scope string_scope.
Open Scope list_scope.
Open Scope nat_scope.

Section Bound.
Context (D : Dalek) (L : DalekLaws D) (Hq : (2 ^ 252 <= dl_order L)%Z).
Let G := prime_subgroup L.

Lemma curve25519_bound {X Y} (A : strategy (Scalar G) X) (V : X -> strategy (Scalar G) Y) wins (N : Z) :
  (0 <= N <= 2 ^ 60)%Z ->
  (forall m, balanced (subgroup_source L) m ->
     success_at_most (subgroup_source L) A V wins (m * (N * (N + 1)))
       (2 * size (subgroup_source L))) ->
  success_at_most (subgroup_source L) A V wins 1 (2 ^ 132).
Proof.
  intros HN H. destruct (C65_dalek D L) as (m & Hm & _ & Hbal & Hsize).
  assert (Hm0 : (0 <= m)%Z) by (apply (proj2 Hbal (@s_default G) []); [constructor|intros d []]).
  specialize (H m Hbal). rewrite Hsize in H. refine (success_relax _ _ _ _ _ _ _ _ _ _ _ H); [reflexivity|discriminate|].
  exact (wide_bound (dl_order L) m N Hq Hm Hm0 HN).
Qed.
End Bound.

Theorem C92_curve25519_elections :
  forall (D : Dalek) (L : DalekLaws D), (2 ^ 252 <= dl_order L)%Z ->
  forall R fill squeeze sha estimate b,
  let E := subgroup_env L R fill squeeze sha estimate b in
  let S := subgroup_source L in
  forall params keys (ks : PublicKeySet E) (sk : SecretKey E) B M Q,
    params_ok params -> PublicKeySet_from_participants params keys = Ret (Ok ks) -> key_of sk (ks_shared_key ks) ->
    (forall n, (N.of_nat n < 2 ^ 64)%N -> (Z.of_nat (Q + (B * (n + 2) + M)) <= 2 ^ 60)%Z ->
     forall A : strategy (Scalar E) (list (single_ballot E) * list (message E)), at_most Q A ->
       success_at_most S A (election_checker (single_checker n ks) (fun b => fst (fst b)) n B M ks)
         (fun o '(es, msgs) => List.length es <= B /\ List.length msgs <= M /\
            ~ exists chosen, let cts := map (fun b => fst (fst b)) (filter (single_accepted E n (ks_shared_key ks) o) es) in
                Forall2 (fun k l => one_hot sk l k) chosen cts /\
                announced_right E o params ks n (map (choice_votes n) chosen) cts msgs)
         1 (2 ^ 132)) /\
    (forall n, (N.of_nat n < 2 ^ 64)%N -> (Z.of_nat (Q + (B * (n + 1) + M)) <= 2 ^ 60)%Z ->
     forall A : strategy (Scalar E) (list (multi_ballot E) * list (message E)), at_most Q A ->
       success_at_most S A (election_checker (multi_checker n ks) fst n B M ks)
         (fun o '(es, msgs) => List.length es <= B /\ List.length msgs <= M /\
            ~ exists votes, let cts := map fst (filter (multi_accepted E n (ks_shared_key ks) o) es) in
                Forall2 (Forall2 (fun v ct => (v <= 1)%N /\ decrypt_to_element sk ct = Encryption.times v generator)) votes cts /\
                announced_right E o params ks n votes cts msgs)
         1 (2 ^ 132)) /\
    (forall options credits max p, (credits + 65 < 2 ^ 64)%N -> qv_params (ks_shared_key ks) options credits max p ->
     (Z.of_nat options * (Z.of_N max * Z.of_N max) < dl_order L)%Z ->
     (Z.of_nat (Q + (B * quadratic_queries p + M)) <= 2 ^ 60)%Z ->
     forall A : strategy (Scalar E) (list (QuadraticVotingBallot E) * list (message E)), at_most Q A ->
       success_at_most S A (election_checker (quadratic_checker p) quadratic_choices options B M ks)
         (fun o '(es, msgs) => List.length es <= B /\ List.length msgs <= M /\
            ~ exists votes, let cts := map quadratic_choices (filter (quadratic_accepted E p o) es) in
                Forall2 (fun vs l => Forall2 (fun v ct => (v <= max)%N /\ decrypt_to_element sk ct = Encryption.times v generator) vs l /\
                                     (squares vs <= credits)%N) votes cts /\
                announced_right E o params ks options votes cts msgs)
         1 (2 ^ 132)).
Proof.
  intros D L Hq R fill squeeze sha estimate b E S params keys ks sk B M Q Hp Hks Hsk.
  assert (Hbig : (2 ^ 64 <= order (subgroup_laws D L))%Z) by (apply (Z.le_trans _ (2 ^ 252)); [discriminate|exact Hq]).
  split; [|split].
  - intros n Hn HN A HA. apply (curve25519_bound D L Hq A _ _ (Z.of_nat (Q + (B * (n + 2) + M)))); [lia|]. intros m Hbal.
    exact (C92_election E (subgroup_laws D L) Hbig S m Hbal params keys ks sk n B M Hp Hks Hsk Hn Q A HA).
  - intros n Hn HN A HA. apply (curve25519_bound D L Hq A _ _ (Z.of_nat (Q + (B * (n + 1) + M)))); [lia|]. intros m Hbal.
    exact (C92_multi_election E (subgroup_laws D L) Hbig S m Hbal params keys ks sk n B M Hp Hks Hsk Hn Q A HA).
  - intros options credits max p Hc Hqv Hb HN A HA. apply (curve25519_bound D L Hq A _ _ (Z.of_nat (Q + (B * quadratic_queries p + M)))); [lia|]. intros m Hbal.
    exact (C92_quadratic_election E (subgroup_laws D L) Hbig S m Hbal params keys ks sk options credits max p B M Hp Hks Hsk Hc Hqv Hb Q A HA).
Qed.
Print Assumptions C92_curve25519_elections.

(** a stand-in for the curve crate with the order and the cofactor of Curve25519 meets the assumptions, and has points outside *)
Example C92_curve25519_example : exists L : DalekLaws (full_dalek 8), dl_order L = ell /\ (2 ^ 252 <= dl_order L)%Z /\ ~ prime_order L.
Proof.
  exists (full_dalek_laws 8 eq_refl ltac:(discriminate)). split; [reflexivity|]. split.
  - change (2 ^ 252 <= ell)%Z. apply Z.leb_le. vm_compute. reflexivity.
  - intros H. specialize (H (zq (8 * ell) 1)). rewrite full_times in H. change (dl_order _) with ell in H.
    rewrite Z2Nat.id in H by (vm_compute; discriminate). apply (f_equal (zval (8 * ell))) in H.
    change ((ell * (1 mod (8 * ell))) mod (8 * ell) = 0 mod (8 * ell))%Z in H. vm_compute in H. discriminate H.
Qed.
