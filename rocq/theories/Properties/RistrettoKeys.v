(** * C92, continued: elections with the Ristretto backend in which cheaters choose the keys

    The keys of the participants, the ballots and the decryption shares all come from the attackers; a wrong result has probability
    at most [2 ^ -132]. *)
From Coq Require Import List String NArith ZArith Arith Lia Bool.
From Coq.Strings Require Import Byte.
From Verif.Model Require Import Base Group Transcript Keys Encryption LogEquality Ring Range Mul Sharing Choice Quadratic Backends.
From Verif.Spec Require Import Encryption Sharing Choice Quadratic Tally Collect Backends Domains Rom Verifiers Sources RomElection.
From Verif.Proofs Require Import Algebra Backends Rom Sources.
From Verif.Instance Require Import Primality Zq Curves FullSize.
From Verif.Properties Require Import Backends Sources RomElection RistrettoElection ChosenKeys.
Import ListNotations.
Open Scope list_scope.
Open Scope nat_scope.

Theorem C92_ristretto_chosen_keys :
  forall (D : Dalek) (L : DalekLaws D), prime_order L -> (2 ^ 252 <= dl_order L)%Z ->
  forall R fill squeeze sha estimate b,
  let E := dalek_env D (ristretto_deserialize_element D) R fill squeeze sha estimate b in
  let S := dalek_source D (ristretto_deserialize_element D) in
  forall params B M Q, params_ok params ->
    (forall n, (N.of_nat n < 2 ^ 64)%N -> (Z.of_nat (Q + (B * (n + 2) + M)) <= 2 ^ 60)%Z ->
     forall A : strategy (Scalar E) (list (PublicKey E) * (list (single_ballot E) * list (message E))), at_most Q A ->
       success_at_most S A (keyed_checker params (fun ks => election_checker (single_checker n ks) (fun b => fst (fst b)) n B M ks))
         (fun o '(keys, (es, msgs)) => exists (ks : PublicKeySet E) (sk : SecretKey E),
            PublicKeySet_from_participants params keys = Ret (Ok ks) /\ key_of sk (ks_shared_key ks) /\
            List.length es <= B /\ List.length msgs <= M /\
            ~ exists chosen, let cts := map (fun b => fst (fst b)) (filter (single_accepted E n (ks_shared_key ks) o) es) in
                Forall2 (fun k l => one_hot sk l k) chosen cts /\
                announced_right E o params ks n (map (choice_votes n) chosen) cts msgs)
         1 (2 ^ 132)) /\
    (forall n, (N.of_nat n < 2 ^ 64)%N -> (Z.of_nat (Q + (B * (n + 1) + M)) <= 2 ^ 60)%Z ->
     forall A : strategy (Scalar E) (list (PublicKey E) * (list (multi_ballot E) * list (message E))), at_most Q A ->
       success_at_most S A (keyed_checker params (fun ks => election_checker (multi_checker n ks) fst n B M ks))
         (fun o '(keys, (es, msgs)) => exists (ks : PublicKeySet E) (sk : SecretKey E),
            PublicKeySet_from_participants params keys = Ret (Ok ks) /\ key_of sk (ks_shared_key ks) /\
            List.length es <= B /\ List.length msgs <= M /\
            ~ exists votes, let cts := map fst (filter (multi_accepted E n (ks_shared_key ks) o) es) in
                Forall2 (Forall2 (fun v ct => (v <= 1)%N /\ decrypt_to_element sk ct = Encryption.times v generator)) votes cts /\
                announced_right E o params ks n votes cts msgs)
         1 (2 ^ 132)) /\
    (forall K0 options credits max p, (credits + 65 < 2 ^ 64)%N -> qv_params K0 options credits max p ->
     (Z.of_nat options * (Z.of_N max * Z.of_N max) < dl_order L)%Z ->
     (Z.of_nat (Q + (B * quadratic_queries p + M)) <= 2 ^ 60)%Z ->
     forall A : strategy (Scalar E) (list (PublicKey E) * (list (QuadraticVotingBallot E) * list (message E))), at_most Q A ->
       success_at_most S A
         (keyed_checker params (fun ks => election_checker (quadratic_checker (with_receiver (ks_shared_key ks) p)) quadratic_choices options B M ks))
         (fun o '(keys, (es, msgs)) => exists (ks : PublicKeySet E) (sk : SecretKey E),
            PublicKeySet_from_participants params keys = Ret (Ok ks) /\ key_of sk (ks_shared_key ks) /\
            List.length es <= B /\ List.length msgs <= M /\
            ~ exists votes, let cts := map quadratic_choices (filter (quadratic_accepted E (with_receiver (ks_shared_key ks) p) o) es) in
                Forall2 (fun vs l => Forall2 (fun v ct => (v <= max)%N /\ decrypt_to_element sk ct = Encryption.times v generator) vs l /\
                                     (squares vs <= credits)%N) votes cts /\
                announced_right E o params ks options votes cts msgs)
         1 (2 ^ 132)).
Proof.
  intros D L HO Hq R fill squeeze sha estimate b E S params B M Q Hp.
  assert (Hbig : (2 ^ 64 <= order (ristretto_group_laws D L HO))%Z) by (apply (Z.le_trans _ (2 ^ 252)); [discriminate|exact Hq]).
  split; [|split].
  - intros n Hn HN A HA. apply (ristretto_bound D L Hq A _ _ (Z.of_nat (Q + (B * (n + 2) + M)))); [lia|]. intros m Hbal.
    exact (C92_chosen_keys E (ristretto_group_laws D L HO) Hbig S m Hbal params n B M Hp Hn Q A HA).
  - intros n Hn HN A HA. apply (ristretto_bound D L Hq A _ _ (Z.of_nat (Q + (B * (n + 1) + M)))); [lia|]. intros m Hbal.
    exact (C92_multi_chosen_keys E (ristretto_group_laws D L HO) Hbig S m Hbal params n B M Hp Hn Q A HA).
  - intros K0 options credits max p Hc Hqv Hb HN A HA. apply (ristretto_bound D L Hq A _ _ (Z.of_nat (Q + (B * quadratic_queries p + M)))); [lia|]. intros m Hbal.
    exact (C92_quadratic_chosen_keys E (ristretto_group_laws D L HO) Hbig S m Hbal params K0 options credits max p B M Hp Hc Hqv Hb Q A HA).
Qed.
Print Assumptions C92_ristretto_chosen_keys.

(** three participants with threshold two, over the stand-in with the order of Ristretto: attackers may choose these keys *)
Definition ristretto_example_env : Env := dalek_env (full_dalek 1) (ristretto_deserialize_element (full_dalek 1)) nat
  (fun n r => (repeat x00 n, r)) (fun _ _ n => repeat x00 n) (fun x => x) (fun n => n) debug_build.
Definition ristretto_example_keys : list (PublicKey ristretto_example_env) :=
  map (fun k => let P : DPoint (full_dalek 1) := zq (1 * ell) k in mkPublicKey (G := ristretto_example_env) (p_compress P) P) [12; 19; 26]%Z.

Example C92_ristretto_chosen_keys_example :
  (exists L : DalekLaws (full_dalek 1), prime_order L /\ (2 ^ 252 <= dl_order L)%Z) /\ params_ok (mkParams 3 2) /\
  exists ks : PublicKeySet ristretto_example_env, PublicKeySet_from_participants (mkParams 3 2) ristretto_example_keys = Ret (Ok ks) /\
    key_of (E := ristretto_example_env) (zq ell 5) (ks_shared_key ks).
Proof.
  split; [destruct C92_ristretto_example as (L & H1 & _ & H2); exists L; split; assumption|].
  split; [vm_compute; repeat split; repeat constructor|].
  assert (H : match PublicKeySet_from_participants (mkParams 3 2) ristretto_example_keys with
              | Ret (Ok ks) => e_eqb (g := ristretto_example_env) (pk_element (ks_shared_key ks)) (e_mul (g := ristretto_example_env) (@generator ristretto_example_env) (zq ell 5))
              | _ => false end = true) by (vm_compute; reflexivity).
  destruct (PublicKeySet_from_participants (mkParams 3 2) ristretto_example_keys) as [[ks|e]|k]; try discriminate H.
  exists ks. split; [reflexivity|]. apply (zeqb_ok (1 * ell)). exact H.
Qed.
