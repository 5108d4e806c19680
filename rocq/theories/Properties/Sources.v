(** * C65: the challenges of the backends are close enough to uniform

    The bounds of C57, C58 and C64 are for any source of challenges.  Here are the sources of the
    backends, where challenges are computed from bytes of the transcript, and what the bounds become for
    them.  For curve25519-dalek (64 bytes, reduced modulo the order) a challenge has probability at most
    [1 / order + 1 / 256 ^ 64]. *)
From Coq Require Import List String NArith ZArith Arith Lia Bool.
From Verif.Model Require Import Base Group Transcript Keys Encryption LogEquality Possession Ring Choice Backends.
From Verif.Spec Require Import Encryption Choice Backends Domains Rom Verifiers Forking Extractors Sources.
From Verif.Proofs Require Import Algebra Backends Rom Forking Sources.
From Verif.Instance Require Import Primality Zq Curves.
From Verif.Properties Require Import Backends Forgery Knowledge.
Import ListNotations.
Open Scope string_scope.
Open Scope list_scope.
Open Scope nat_scope.

(** ** the sources are those of the model *)

(** Hashing with the bytes squeezed by [squeeze'] gives the environment with [squeeze']. *)
Theorem C65_environments :
  (forall (D : Dalek) deserialize R fill squeeze squeeze' sha estimate b,
     hashed_by (dalek_env D deserialize R fill squeeze sha estimate b)
       (challenges (dalek_source D deserialize) (fun t label => squeeze' t label 64)) =
     dalek_env D deserialize R fill squeeze' sha estimate b) /\
  (forall (D : Dalek) (L : DalekLaws D) R fill squeeze squeeze' sha estimate b,
     hashed_by (subgroup_env L R fill squeeze sha estimate b)
       (challenges (subgroup_source L) (fun t label => squeeze' t label 64)) =
     subgroup_env L R fill squeeze' sha estimate b) /\
  (forall (C : Curve) R fill ChaCha from_seed chacha_fill squeeze squeeze' sha estimate b,
     hashed_by (generic_env C R fill ChaCha from_seed chacha_fill squeeze sha estimate b)
       (challenges (seeded_source C from_seed chacha_fill) (fun t label => squeeze' t label 32)) =
     generic_env C R fill ChaCha from_seed chacha_fill squeeze' sha estimate b).
Proof. split; [|split]; intros; reflexivity. Qed.
Print Assumptions C65_environments.

(** The hash values are all strings of 64 (32) bytes. *)
Theorem C65_byte_strings :
  forall n, NoDup (byte_strings n) /\ (forall b, In b (byte_strings n) <-> List.length b = n) /\
    Z.of_nat (List.length (byte_strings n)) = (256 ^ Z.of_nat n)%Z.
Proof. intros n. split; [apply byte_strings_nodup|]. split; [apply byte_strings_in|apply byte_strings_len]. Qed.
Print Assumptions C65_byte_strings.

(** ** how likely a challenge is *)

Theorem C65_uniform :
  forall (G : Group) (L : GroupLaws G), balanced (uniform_source L) 1 /\ size (uniform_source L) = order L.
Proof. intros G L. split; [apply uniform_balanced|apply uniform_size]. Qed.
Print Assumptions C65_uniform.

Theorem C65_dalek :
  forall (D : Dalek) (L : DalekLaws D), exists m,
    (dl_order L * m < 256 ^ 64 + dl_order L)%Z /\
    (forall deserialize, balanced (dalek_source D deserialize) m /\ size (dalek_source D deserialize) = (256 ^ 64)%Z) /\
    balanced (subgroup_source L) m /\ size (subgroup_source L) = (256 ^ 64)%Z.
Proof.
  intros D L. destruct (wide_balanced D L) as (m & Hm & Hb). exists m. split; [exact Hm|].
  pose proof (byte_strings_nodup 64) as Hnd. pose proof (byte_strings_len 64) as Hl.
  split; [intros des; split|split].
  - split; [exact Hnd|]. exact Hb.
  - exact Hl.
  - split; [exact Hnd|]. exact Hb.
  - exact Hl.
Qed.
Print Assumptions C65_dalek.

(** ** the bounds for Ristretto *)

(** Zero encryption: with [Q] hash computations, at most [(Q + 1) * (1 / order + 1 / 256 ^ 64)]. *)
Theorem C65_ristretto_zero :
  forall (D : Dalek) (L : DalekLaws D), prime_order L ->
  forall R fill squeeze sha estimate b,
  let E := dalek_env D (ristretto_deserialize_element D) R fill squeeze sha estimate b in
  forall Q (A : strategy (Scalar E) (PublicKey E * Ciphertext E * LogEqualityProof E)), at_most Q A ->
    success_at_most (dalek_source D (ristretto_deserialize_element D)) A (fun '(pk, c, p) => zero_verifier pk c p)
      (fun o '(pk, c, p) =>
         genuine pk /\ (exists sk, key_of sk pk /\ decrypt_to_element sk c <> identity) /\
         verify_zero (E:=hashed_by E o) pk c p = Ret (Ok tt))
      ((Z.of_nat Q + 1) * (256 ^ 64 + dl_order L)) (dl_order L * 256 ^ 64).
Proof.
  intros D L HO R fill squeeze sha estimate b E Q A HA.
  destruct (C65_dalek D L) as (m & Hm & Hb & _). destruct (Hb (ristretto_deserialize_element D)) as [Hbal Hsize].
  refine (success_scale _ _ _ m _ _ _ _ _ _ _ (Z.lt_le_incl _ _ Hm) _); [|lia|rewrite <- Hsize].
  - pose proof (dl_q_pos D L). lia.
  - exact (C57_zero E (ristretto_group_laws D L HO) _ m Hbal Q A HA).
Qed.
Print Assumptions C65_ristretto_zero.

(** Single-choice ballots with [n] options: at most [N * (N + 1) / 2 * (1 / order + 1 / 256 ^ 64)], where
    [N = Q + n + 2]. *)
Theorem C65_ristretto_single_choice :
  forall (D : Dalek) (L : DalekLaws D), prime_order L ->
  forall R fill squeeze sha estimate b,
  let E := dalek_env D (ristretto_deserialize_element D) R fill squeeze sha estimate b in
  forall n, (N.of_nat n < 2 ^ 64)%N -> (Z.of_nat n < dl_order L)%Z ->
  forall Q (A : strategy (Scalar E) (PublicKey E * list (Ciphertext E) * RingProof E * LogEqualityProof E)), at_most Q A ->
    let N := Z.of_nat (Q + (n + 2)) in
    success_at_most (dalek_source D (ristretto_deserialize_element D)) A (fun '(K, cts, p, s) => single_choice_verifier n K cts p s)
      (fun o '(K, cts, p, s) => let H := hashed_by E o in genuine K /\
         (exists sk, key_of sk K /\ forall k, ~ one_hot sk cts k) /\
         EncryptedChoice_verify (E:=H) (S:=SingleChoice (E:=H)) (mkEncryptedChoice (E:=H) (S:=SingleChoice (E:=H)) cts p s)
           (mkChoiceParams (E:=H) (S:=SingleChoice (E:=H)) n K) = Ret (Ok cts))
      (N * (N + 1) * (256 ^ 64 + dl_order L)) (dl_order L * (2 * 256 ^ 64)).
Proof.
  intros D L HO R fill squeeze sha estimate b E n Hn Hbig Q A HA N.
  destruct (C65_dalek D L) as (m & Hm & Hb & _). destruct (Hb (ristretto_deserialize_element D)) as [Hbal Hsize].
  refine (success_scale _ _ _ m _ _ _ _ _ _ _ (Z.lt_le_incl _ _ Hm) _); [|lia|rewrite <- Hsize].
  - pose proof (dl_q_pos D L). lia.
  - exact (C58_single_choice E (ristretto_group_laws D L HO) _ m Hbal n Hn Hbig Q A HA).
Qed.
Print Assumptions C65_ristretto_single_choice.

(** Proof of possession: if accepted with probability [e], the secrets are found with probability at least
    [e ^ 2 / (Q + 1) - e * (1 / order + 1 / 256 ^ 64)]; in particular they are found at all if [e] is above
    [(Q + 1) * (1 / order + 1 / 256 ^ 64)]. *)
Theorem C65_ristretto_possession :
  forall (D : Dalek) (L : DalekLaws D) (HO : prime_order L),
  forall R fill squeeze sha estimate b,
  let E := dalek_env D (ristretto_deserialize_element D) R fill squeeze sha estimate b in
  let S := dalek_source D (ristretto_deserialize_element D) in
  forall Q (A : strategy (Scalar E) (ProofOfPossession E * list (PublicKey E) * transcript)), at_most Q A ->
    (forall o, let '(_, keys, _) := run o A in Forall genuine keys) ->
  let V := fun '(p, keys, t) => possession_verifier p keys t in
  let accepted := fun (o : hash (Scalar E)) '((p, keys, t) : ProofOfPossession E * list (PublicKey E) * transcript) => ok_t (ProofOfPossession_verify (E:=hashed_by E o) p keys t) in
  let secrets_found := fun '((p, keys, _) : ProofOfPossession E * list (PublicKey E) * transcript)
      '((p', _, _) : ProofOfPossession E * list (PublicKey E) * transcript) =>
    Forall2 key_of (secrets_from (E:=E) (ristretto_group_laws D L HO) p p') keys in
  forall Dom (o0 : hash bytes), NoDup Dom -> (forall o, incl (asked (challenges S o) (andthen A V)) Dom) ->
    ((Z.of_nat Q + 1) * (256 ^ 64 + dl_order L) * (256 ^ 64) ^ Z.of_nat (List.length Dom) <
     dl_order L * 256 ^ 64 * Z.of_nat (List.length
       (filter (fun o => accepted (challenges S o) (run (challenges S o) A)) (all_hashes (byte_strings 64) Dom o0))))%Z ->
    ~ forall o o', ~ secrets_found (run (challenges S o) A) (run (challenges S (rewound S (andthen A V) o o')) A).
Proof.
  intros D L HO R fill squeeze sha estimate b E S Q A HA HK V accepted secrets_found Dom o0 Hnd Hinc Hmore Hno.
  destruct (C65_dalek D L) as (m & Hm & Hb & _). destruct (Hb (ristretto_deserialize_element D)) as [Hbal Hsize].
  fold S in Hbal, Hsize. set (GL := ristretto_group_laws D L HO) in *.
  assert (Hm0 : (0 <= m)%Z) by exact (balanced_nonneg _ _ Hbal).
  pose proof (C64_possession E GL S m Q A Hbal HA HK) as Hx.
  refine (C64_knowledge_error E S m _ _ A V accepted _ _ _ Hm0 Hx Dom o0 Hnd Hinc _ _); [lia| |].
  - pose proof (dl_q_pos D L). set (w := Z.of_nat (List.length (filter _ _))) in Hmore. change (Z.of_nat (List.length (filter _ _))) with w.
    enough (Hgoal : ((Z.of_nat Q + 1) * (m * (256 ^ 64) ^ Z.of_nat (List.length Dom)) < 256 ^ 64 * w)%Z).
    { refine (eq_ind_r (fun z => ((Z.of_nat Q + 1) * (m * z ^ Z.of_nat (List.length Dom)) < z * w)%Z) Hgoal Hsize). }
    set (P := ((256 ^ 64) ^ Z.of_nat (List.length Dom))%Z) in *. assert (0 <= P)%Z by (apply Z.pow_nonneg; lia).
    set (B := (256 ^ 64)%Z) in *. set (q := dl_order L) in *. clearbody P B q w.
    assert (Hle : (q * ((Z.of_nat Q + 1) * (m * P)) <= (Z.of_nat Q + 1) * (B + q) * P)%Z).
    { replace (q * ((Z.of_nat Q + 1) * (m * P)))%Z with ((Z.of_nat Q + 1) * (q * m) * P)%Z by ring.
      apply Z.mul_le_mono_nonneg_r; [assumption|]. apply Z.mul_le_mono_nonneg_l; lia. }
    apply (Z.mul_lt_mono_pos_l q); lia.
  - exact Hno.
Qed.
Print Assumptions C65_ristretto_possession.

(** ** the generic backend

    The scalar is made by a generator seeded with 32 bytes.  Its quality is a property of the generator:
    if no scalar is made from more than [m] seeds, the bounds hold with [m / 256 ^ 32] (there always is
    such an [m]). *)
Theorem C65_generic :
  forall (C : Curve) (ChaCha : Type) (from_seed : bytes -> ChaCha) chacha_fill,
    let S := seeded_source C from_seed chacha_fill in
    size S = (256 ^ 32)%Z /\ (exists m, balanced S m) /\
    forall m, balanced S m <->
      forall c l, NoDup l ->
        (forall seed, In seed l -> List.length seed = 32 /\ fst (c_random (c:=C) ChaCha chacha_fill (from_seed seed)) = c) ->
        (Z.of_nat (List.length l) <= m)%Z.
Proof.
  intros C ChaCha from_seed chacha_fill S. pose proof (byte_strings_nodup 32) as Hnd.
  split; [exact (byte_strings_len 32)|]. split.
  - exists (size S). split; [exact Hnd|]. intros c l Hl Hin. apply Nat2Z.inj_le. apply NoDup_incl_length; [exact Hl|].
    intros d Hd. exact (proj1 (Hin d Hd)).
  - intros m. split.
    + intros [_ H] c l Hl Hin. apply (H c l Hl). intros d Hd. destruct (Hin d Hd) as [H1 H2]. split; [|exact H2].
      apply byte_strings_in. exact H1.
    + intros H. split; [exact Hnd|]. intros c l Hl Hin. apply (H c l Hl). intros d Hd. destruct (Hin d Hd) as [H1 H2].
      split; [|exact H2]. apply byte_strings_in. exact H1.
Qed.
Print Assumptions C65_generic.

Theorem C65_generic_zero :
  forall (C : Curve) (L : CurveLaws C) R fill ChaCha from_seed chacha_fill squeeze sha estimate b,
  let E := generic_env C R fill ChaCha from_seed chacha_fill squeeze sha estimate b in
  let S := seeded_source C from_seed chacha_fill in
  forall m, balanced S m ->
  forall Q (A : strategy (Scalar E) (PublicKey E * Ciphertext E * LogEqualityProof E)), at_most Q A ->
    success_at_most S A (fun '(pk, c, p) => zero_verifier pk c p)
      (fun o '(pk, c, p) =>
         genuine pk /\ (exists sk, key_of sk pk /\ decrypt_to_element sk c <> identity) /\
         verify_zero (E:=hashed_by E o) pk c p = Ret (Ok tt))
      (m * (Z.of_nat Q + 1)) (256 ^ 32).
Proof.
  intros C L R fill ChaCha from_seed chacha_fill squeeze sha estimate b E S m Hbal Q A HA.
  replace (256 ^ 32)%Z with (size S) by exact (byte_strings_len 32).
  exact (C57_zero E (generic_laws C L) S m Hbal Q A HA).
Qed.
Print Assumptions C65_generic_zero.

(** ** Examples *)

(** the toy curve library of prime order satisfies the hypotheses, and challenges are not all different *)
Example C65_example :
  let D := toy_dalek 1 in
  (exists L : DalekLaws D, prime_order L /\ dl_order L = qx) /\
  (exists a b, a <> b /\ In a (byte_strings 64) /\ In b (byte_strings 64) /\
     challenge_of (dalek_source D (ristretto_deserialize_element D)) a = challenge_of (dalek_source D (ristretto_deserialize_element D)) b).
Proof.
  split; [eexists; split; [exact toy_prime_order|reflexivity]|].
  exists (le_bytes 64 5), (le_bytes 64 (Z.to_N (5 + qx * 3))). split; [|split; [|split]].
  - assert (H : bytes_eqb (le_bytes 64 5) (le_bytes 64 (Z.to_N (5 + qx * 3))) = false) by (vm_compute; reflexivity).
    intros He. rewrite He in H. vm_compute in H. discriminate.
  - apply byte_strings_in. reflexivity.
  - apply byte_strings_in. reflexivity.
  - exact (eq_trans (proj1 (proj2 C61_example)) (eq_sym (proj2 (proj2 C61_example)))).
Qed.
