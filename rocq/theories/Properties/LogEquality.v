(** * C07-C12, C28: proof of equality of discrete logs, zero encryption, verifiable decryption *)
From Coq Require Import List NArith ZArith String.
From Verif.Model Require Import Base Group Transcript Keys Encryption LogEquality.
From Verif.Spec Require Import Encryption LogEquality.
From Verif.Proofs Require Import Encryption LogEquality.
From Verif.Instance Require Import Primality Zq.
Import ListNotations.
Open Scope string_scope.
Open Scope list_scope.

Definition accepts {A B C : Type} (o : outcome (result A B * C)) : bool :=
  match o with Ret (Ok _, _) => true | _ => false end.

(** ** C07: completeness *)
Theorem C07_complete :
  forall (E : Env) (L : GroupLaws E) (K : PublicKey E) (r : SecretKey E) t rng p t' rng',
    LogEqualityProof_new K r ((generator * r)%E, (pk_element K * r)%E) t rng = Ret (p, t', rng') ->
    LogEqualityProof_verify p K ((generator * r)%E, (pk_element K * r)%E) t = Ret (Ok tt, t').
Proof. exact le_complete. Qed.
Print Assumptions C07_complete.

Theorem C07_prover_never_panics :
  forall (E : Env) (L : GroupLaws E), ser_total E ->
  forall (K : PublicKey E) (r : SecretKey E) P0 P1 t rng,
    exists p t' rng', LogEqualityProof_new K r (P0, P1) t rng = Ret (p, t', rng').
Proof. intros E L Ht K r P0 P1 t rng. exact (le_new_total E L K r P0 P1 t rng Ht). Qed.
Print Assumptions C07_prover_never_panics.

Definition ex_key : PublicKey RE := {| pk_bytes := zbytes qx 9 (re 987654321); pk_element := re 987654321 |}.

Example C07_example :
  match LogEqualityProof_new ex_key (rs 31337) (re 31337, re (987654321 * 31337)) (transcript_new "test") 5%Z with
  | Ret (p, t', _) =>
      accepts (LogEqualityProof_verify p ex_key (re 31337, re (987654321 * 31337)) (transcript_new "test")) = true /\
      accepts (LogEqualityProof_verify p ex_key (re 31337, re (987654321 * 31336)) (transcript_new "test")) = false /\
      accepts (LogEqualityProof_verify p ex_key (re 31337, re (987654321 * 31337)) (transcript_new "tes")) = false
  | Panic _ => False
  end.
Proof. vm_compute. auto. Qed.

(** ** C08: the exact acceptance condition, including when it panics *)
Theorem C08_verify_exact :
  forall (E : Env) (L : GroupLaws E) (p : LogEqualityProof E) (K : PublicKey E) (P0 P1 : Element E) t,
    LogEqualityProof_verify p K (P0, P1) t =
    (let c := le_challenge p in
     let s := le_response p in
     p0 <- serialize_element P0 ;;
     p1 <- serialize_element P1 ;;
     x0 <- serialize_element (generator * s - P0 * c)%E ;;
     x1 <- serialize_element (pk_element K * s - P1 * c)%E ;;
     let q := t ++ [TMsg "dom-sep" (str_bytes "log_eq"); TMsg "K" (pk_bytes K);
                    TMsg "[r]G" p0; TMsg "[r]K" p1; TMsg "[x]G" x0; TMsg "[x]K" x1] in
     Ret ((if s_eqb (oracle q "c") c then Ok tt else Err ChallengeMismatch), q ++ [TChal "c"])).
Proof. exact le_verify_eq. Qed.
Print Assumptions C08_verify_exact.

Theorem C08_accepts_iff :
  forall (E : Env) (L : GroupLaws E) (p : LogEqualityProof E) (K : PublicKey E) P0 P1 t t',
    LogEqualityProof_verify p K (P0, P1) t = Ret (Ok tt, t') <->
    exists X0 X1 q,
      le_answers (pk_element K) P0 P1 X0 X1 (le_challenge p) (le_response p) /\
      le_hashed t K P0 P1 X0 X1 q /\
      oracle q "c" = le_challenge p /\ t' = q ++ [TChal "c"].
Proof.
  intros E L p K P0 P1 t t'. rewrite (le_verify_ok_iff E L). unfold le_answers. split.
  - intros (q & H1 & H2 & H3). eexists _, _, q. split; [split; reflexivity|]. auto.
  - intros (X0 & X1 & q & [-> ->] & H). exists q. exact H.
Qed.
Print Assumptions C08_accepts_iff.

(** ** C09: soundness *)

(** a false statement can be answered for at most one challenge per commitment pair *)
Theorem C09_one_challenge :
  forall (E : Env) (L : GroupLaws E) (K P0 P1 X0 X1 : Element E) c s c' s',
    ~ (exists r, P0 = (generator * r)%E /\ P1 = (K * r)%E) ->
    le_answers K P0 P1 X0 X1 c s -> le_answers K P0 P1 X0 X1 c' s' -> c = c'.
Proof. exact le_unique_challenge. Qed.
Print Assumptions C09_one_challenge.

(** so the verifier accepts a false statement only if the hash hits a value fixed by its input *)
Theorem C09_sound :
  forall (E : Env) (L : GroupLaws E) (p : LogEqualityProof E) (K : PublicKey E) P0 P1 t t',
    LogEqualityProof_verify p K (P0, P1) t = Ret (Ok tt, t') ->
    ~ (exists r, P0 = (generator * r)%E /\ P1 = (pk_element K * r)%E) ->
    exists X0 X1 q, le_hashed t K P0 P1 X0 X1 q /\
      (exists s, le_answers (pk_element K) P0 P1 X0 X1 (oracle q "c") s) /\
      forall c s, le_answers (pk_element K) P0 P1 X0 X1 c s -> oracle q "c" = c.
Proof. exact le_sound. Qed.
Print Assumptions C09_sound.

(** two answers to different challenges give the secret *)
Theorem C09_extract :
  forall (E : Env) (L : GroupLaws E) (K P0 P1 X0 X1 : Element E) c s c' s',
    le_answers K P0 P1 X0 X1 c s -> le_answers K P0 P1 X0 X1 c' s' -> c <> c' ->
    let r := ((s - s') * s_inv L (c - c'))%S in
    P0 = (generator * r)%E /\ P1 = (K * r)%E.
Proof. exact le_extract. Qed.
Print Assumptions C09_extract.

(** The hypotheses of [C09_sound] can be met: for the oracle that always answers 3 there
    is an accepted proof of a false statement (the hash does hit the bad challenge). *)
Example C09_sound_example :
  accepts (LogEqualityProof_verify {| le_challenge := c3s 3; le_response := c3s 10 |}
     {| pk_bytes := zbytes qx 9 (re 2); pk_element := c3e 2 |} (c3e 5, c3e 11) []) = true /\
  ~ (exists r : Scalar RE, re 5 = (generator * r)%E /\ re 11 = (re 2 * r)%E).
Proof.
  split; [vm_compute; reflexivity|]. intros (r & H1 & H2).
  assert (Hr : r = rs 5).
  { apply (Algebra.gen_inj RL). rewrite <- H1. apply re_eq. vm_compute. reflexivity. }
  subst r. apply (f_equal (zval qx)) in H2. vm_compute in H2. discriminate.
Qed.

Example C09_extract_example :
  le_answers (re 2) (re 5) (re 10) (re 7) (re 14) (rs 3) (rs 22) /\
  le_answers (re 2) (re 5) (re 10) (re 7) (re 14) (rs 4) (rs 27) /\ rs 3 <> rs 4.
Proof.
  split; [split; apply re_eq; vm_compute; reflexivity|].
  split; [split; apply re_eq; vm_compute; reflexivity|].
  apply rs_neq. vm_compute. reflexivity.
Qed.

(** ** C10: the hash input binds context and statement (log equality) *)
Theorem C10_log_equality_binding :
  forall (E : Env) (L : GroupLaws E) (p p' : LogEqualityProof E) K K' P0 P1 P0' P1' t t' r r' tf,
    LogEqualityProof_verify p K (P0, P1) t = Ret (r, tf) ->
    LogEqualityProof_verify p' K' (P0', P1') t' = Ret (r', tf) ->
    t = t' /\ pk_bytes K = pk_bytes K' /\ P0 = P0' /\ P1 = P1' /\
    (generator * le_response p - P0 * le_challenge p)%E
    = (generator * le_response p' - P0' * le_challenge p')%E /\
    (pk_element K * le_response p - P1 * le_challenge p)%E
    = (pk_element K' * le_response p' - P1' * le_challenge p')%E.
Proof. exact le_binding. Qed.
Print Assumptions C10_log_equality_binding.

Example C10_log_equality_example :
  exists r tf, LogEqualityProof_verify (E:=RE) {| le_challenge := rs 3; le_response := rs 10 |}
     {| pk_bytes := zbytes qx 9 (re 2); pk_element := re 2 |} (re 5, re 11) [] = Ret (r, tf).
Proof. apply (le_verify_total RE RL). exact RE_ser_total. Qed.

(** ** C11: honest-verifier zero knowledge *)

(** the honest prover produces, over its random scalar, every accepting conversation exactly once *)
Theorem C11_prover_uniform :
  forall (E : Env) (L : GroupLaws E) (K : Element E) (r c : Scalar E) (v : le_conversation),
    le_accepting K (generator * r)%E (K * r)%E c v <-> (exists! x, v = le_prover K r c x).
Proof. exact le_zk_prover. Qed.
Print Assumptions C11_prover_uniform.

(** and so does the simulator, which is not given the secret *)
Theorem C11_simulator_uniform :
  forall (E : Env) (K P0 P1 : Element E) (c : Scalar E) (v : le_conversation),
    le_accepting K P0 P1 c v <-> (exists! s, v = le_simulator K P0 P1 c s).
Proof. exact le_zk_sim. Qed.
Print Assumptions C11_simulator_uniform.

(** the crate's prover sends exactly [le_prover] for the scalar drawn from its RNG *)
Theorem C11_prover_is_new :
  forall (E : Env) (L : GroupLaws E) (K : PublicKey E) (r : SecretKey E) P0 P1 t rng p t' rng',
    LogEqualityProof_new K r (P0, P1) t rng = Ret (p, t', rng') ->
    exists x q, generate_scalar rng = (x, rng') /\
      le_hashed t K P0 P1 (generator * x)%E (pk_element K * x)%E q /\ t' = q ++ [TChal "c"] /\
      le_challenge p = oracle q "c" /\
      le_prover (pk_element K) r (le_challenge p) x
      = ((generator * x)%E, (pk_element K * x)%E, le_response p).
Proof. exact le_new_prover. Qed.
Print Assumptions C11_prover_is_new.

Example C11_example :
  le_accepting (re 2) (generator * rs 5)%E (re 2 * rs 5)%E (rs 3) (re 7, re 14, rs 22).
Proof. split; apply re_eq; vm_compute; reflexivity. Qed.

(** ** C12: zero encryption *)
Theorem C12_complete :
  forall (E : Env) (L : GroupLaws E) (sk : SecretKey E) (pk : PublicKey E) rng c p rng',
    pk_element pk = (generator * sk)%E ->
    encrypt_zero pk rng = Ret (c, p, rng') ->
    decrypt_to_element sk c = identity /\ verify_zero pk c p = Ret (Ok tt).
Proof. exact encrypt_zero_complete. Qed.
Print Assumptions C12_complete.

Theorem C12_prover_never_panics :
  forall (E : Env) (L : GroupLaws E), ser_total E ->
  forall (pk : PublicKey E) rng, exists c p rng', encrypt_zero pk rng = Ret (c, p, rng').
Proof. intros E L Ht pk rng. exact (encrypt_zero_total E L pk rng Ht). Qed.
Print Assumptions C12_prover_never_panics.

Theorem C12_sound :
  forall (E : Env) (L : GroupLaws E) (sk : SecretKey E) (pk : PublicKey E) (c : Ciphertext E) p,
    pk_element pk = (generator * sk)%E ->
    verify_zero pk c p = Ret (Ok tt) -> decrypt_to_element sk c <> identity ->
    exists X0 X1 q,
      le_hashed [TMsg "dom-sep" (str_bytes "zero_encryption")] pk
        (random_element c) (blinded_element c) X0 X1 q /\
      (exists s, le_answers (pk_element pk) (random_element c) (blinded_element c) X0 X1 (oracle q "c") s) /\
      forall ch s, le_answers (pk_element pk) (random_element c) (blinded_element c) X0 X1 ch s ->
        oracle q "c" = ch.
Proof. exact verify_zero_sound. Qed.
Print Assumptions C12_sound.

Example C12_example :
  pk_element ex_key = (generator * rs 987654321)%E /\
  match encrypt_zero ex_key 9%Z with
  | Ret (c, p, _) => e_eqb (random_element c) (re 0) = false /\
       match verify_zero ex_key c p with Ret (Ok _) => True | _ => False end
  | Panic _ => False
  end.
Proof. split; [apply re_eq; vm_compute; reflexivity | vm_compute; auto]. Qed.

Example C12_sound_example :
  match verify_zero {| pk_bytes := zbytes qx 9 (re 2); pk_element := c3e 2 |}
          {| random_element := c3e 5; blinded_element := c3e 11 |}
          {| le_challenge := c3s 3; le_response := c3s 10 |} with Ret (Ok _) => True | _ => False end
  /\ re 2 = (generator * rs 2)%E
  /\ decrypt_to_element (c3s 2) {| random_element := c3e 5; blinded_element := c3e 11 |} <> c3e 0.
Proof.
  split; [vm_compute; exact I|]. split; [apply re_eq; vm_compute; reflexivity|].
  apply re_neq. vm_compute. reflexivity.
Qed.

(** ** C28: verifiable decryption *)
Theorem C28_complete :
  forall (E : Env) (L : GroupLaws E) (c : Ciphertext E) (kp : Keypair E) t rng d p t' rng',
    pk_element (kp_public kp) = (generator * kp_secret kp)%E ->
    VerifiableDecryption_new c kp t rng = Ret (d, p, t', rng') ->
    VerifiableDecryption_decrypt_to_element d c = decrypt_to_element (kp_secret kp) c /\
    CandidateDecryption_verify {| cd_inner := d |} c (kp_public kp) p t = Ret (Ok d, t').
Proof. exact vd_complete. Qed.
Print Assumptions C28_complete.

Theorem C28_prover_never_panics :
  forall (E : Env) (L : GroupLaws E), ser_total E ->
  forall (c : Ciphertext E) (kp : Keypair E) t rng,
    exists d p t' rng', VerifiableDecryption_new c kp t rng = Ret (d, p, t', rng').
Proof. intros E L Ht c kp t rng. exact (vd_total E L c kp t rng Ht). Qed.
Print Assumptions C28_prover_never_panics.

Theorem C28_sound :
  forall (E : Env) (L : GroupLaws E) (sk : SecretKey E) (pk : PublicKey E) (c : Ciphertext E) d p t d' t',
    pk_element pk = (generator * sk)%E ->
    CandidateDecryption_verify d c pk p t = Ret (Ok d', t') ->
    d' = cd_inner d /\
    (VerifiableDecryption_decrypt_to_element d' c <> decrypt_to_element sk c ->
     exists base X0 X1 q, PublicKey_from_element (random_element c) = Ret base /\
      le_hashed (t ++ [TMsg "dom-sep" (str_bytes "decryption_with_custom_key")]) base
        (pk_element pk) (vd_dh_element d') X0 X1 q /\
      (exists s, le_answers (random_element c) (pk_element pk) (vd_dh_element d') X0 X1 (oracle q "c") s) /\
      forall ch s, le_answers (random_element c) (pk_element pk) (vd_dh_element d') X0 X1 ch s ->
        oracle q "c" = ch).
Proof. exact cd_sound. Qed.
Print Assumptions C28_sound.

Example C28_example :
  match Keypair_from_secret (rs 77) with
  | Ret kp =>
      let c := {| random_element := re 1000; blinded_element := re (77000 + 5) |} in
      match VerifiableDecryption_new c kp (transcript_new "x") 3%Z with
      | Ret (d, p, _, _) =>
          e_eqb (VerifiableDecryption_decrypt_to_element d c) (re 5) = true /\
          accepts (CandidateDecryption_verify {| cd_inner := d |} c (kp_public kp) p (transcript_new "x")) = true /\
          accepts (CandidateDecryption_verify {| cd_inner := {| vd_dh_element := re 9 |} |} c (kp_public kp) p
                     (transcript_new "x")) = false
      | Panic _ => False
      end
  | Panic _ => False
  end.
Proof. vm_compute. auto. Qed.
