(** * C01-C05: keys, encryption, lookup tables *)
From Coq Require Import List NArith ZArith.
From Verif.Model Require Import Base Group Transcript Keys Encryption.
From Verif.Spec Require Import Encryption.
From Verif.Proofs Require Import Algebra Encryption.
From Verif.Instance Require Import Primality Zq.
Import ListNotations.

(** ** C01: decryption inverts encryption *)
Theorem C01_decrypt_encrypt :
  forall (E : Env) (L : GroupLaws E) (sk : SecretKey E) (pk : PublicKey E),
    pk_element pk = (generator * sk)%E ->
    (forall v r c r', encrypt pk v r = (c, r') -> decrypt_to_element sk c = (generator * v)%E) /\
    (forall M r c r', encrypt_element pk M r = (c, r') -> decrypt_to_element sk c = M) /\
    (forall (V : Type) (into : V -> Scalar E) (v : V) r c r',
        CiphertextWithValue_new into v pk r = (c, r') ->
        decrypt_to_element sk (cwv_inner c) = (generator * into v)%E /\ cwv_value c = v).
Proof.
  intros E L sk pk Hk. split; [|split].
  - intros v r c r'. exact (decrypt_encrypt E L sk pk v r c r' Hk).
  - intros M r c r'. exact (decrypt_encrypt_element E L sk pk M r c r' Hk).
  - intros V into v r c r' H. split.
    + exact (decrypt_cwv E L sk pk into v r c r' Hk H).
    + exact (proj2 (cwv_new_encrypts E L into v pk r c r' H)).
Qed.
Print Assumptions C01_decrypt_encrypt.

(** the public key computed from a secret key always satisfies the premise *)
Theorem C01_public_key_matches :
  forall (E : Env) (L : GroupLaws E) (sk : SecretKey E) (pk : PublicKey E),
    PublicKey_from_secret sk = Ret pk -> pk_element pk = (generator * sk)%E.
Proof. intros E L sk pk H. exact (proj1 (pk_from_secret_ok E L sk pk H)). Qed.
Print Assumptions C01_public_key_matches.

Example C01_example :
  exists pk, PublicKey_from_secret (rs 123456789) = Ret pk /\
    let '(c, _) := encrypt pk (rs 424242) 1%Z in
    e_eqb (random_element c) (re 0) = false /\
    e_eqb (blinded_element c) (re 424242) = false /\
    e_eqb (decrypt_to_element (rs 123456789) c) (re 424242) = true.
Proof. eexists. split; [reflexivity|]. vm_compute. auto. Qed.

(** ** C02: ciphertext arithmetic is homomorphic *)
Theorem C02_homomorphic :
  forall (E : Env) (L : GroupLaws E) (sk : SecretKey E) (x : cexpr E),
    u64_literals x ->
    decrypt_to_element sk (ct_eval x) = pt_eval (decrypt_to_element sk) x.
Proof. exact decrypt_hom. Qed.
Print Assumptions C02_homomorphic.

Example C02_example :
  let c := {| random_element := re 5; blinded_element := re 77 |} in
  let x := XSub (XMulU64 (XAdd (XCipher c) (XNonBlinded (rs 3))) 7) (XNeg (XMul XZero (rs 9))) in
  u64_literals x /\ e_eqb (decrypt_to_element (rs 11) (ct_eval x)) (re ((77 + 3 - 55) * 7)) = true.
Proof. split; [repeat split | vm_compute; reflexivity]. Qed.

(** ** C03: lookup tables answer exactly *)
Theorem C03_table_exact :
  forall (E : Env) (L : GroupLaws E), (2 ^ 64 <= order L)%Z ->
  forall values : list N, (forall v, In v values -> (v < 2 ^ 64)%N) ->
  exists tbl, DiscreteLogTable_new (E:=E) values = Ret tbl /\
    (forall x, x = 0%N \/ In x values ->
       DiscreteLogTable_get (E:=E) tbl (generator * s_of_u64 x)%E = Ret (Some x)) /\
    (forall e : Element E,
       (forall x, x = 0%N \/ In x values -> e <> (generator * s_of_u64 x)%E) ->
       DiscreteLogTable_get (E:=E) tbl e = Ret None).
Proof. intros E L H values. exact (table_new_ok E L H values). Qed.
Print Assumptions C03_table_exact.

Theorem C03_decrypt_with_table :
  forall (E : Env) (L : GroupLaws E), (2 ^ 64 <= order L)%Z ->
  forall (sk : SecretKey E) (pk : PublicKey E) values v r c r',
    (forall x, In x values -> (x < 2 ^ 64)%N) -> (v = 0%N \/ In v values) ->
    pk_element pk = (generator * sk)%E -> encrypt pk (s_of_u64 v) r = (c, r') ->
    exists tbl, DiscreteLogTable_new (E:=E) values = Ret tbl /\ decrypt sk c tbl = Ret (Some v).
Proof. intros E L H sk pk values v r c r'. exact (decrypt_table E L H sk pk values v r c r'). Qed.
Print Assumptions C03_decrypt_with_table.

Example C03_example :
  (2 ^ 64 <= order RL)%Z /\
  (forall v, In v [3; 1; 1000; 3; 0; 18446744073709551615]%N -> (v < 2 ^ 64)%N) /\
  match DiscreteLogTable_new (E:=RE) [3; 1; 1000; 3; 0; 18446744073709551615]%N with
  | Ret tbl => DiscreteLogTable_get (E:=RE) tbl (re 1000) = Ret (Some 1000%N) /\
               DiscreteLogTable_get (E:=RE) tbl (re 999) = Ret None
  | Panic _ => False
  end.
Proof.
  split; [vm_compute; discriminate|]. split.
  - intros v H. repeat (destruct H as [<-|H]; [vm_compute; reflexivity|]). destruct H.
  - vm_compute. auto.
Qed.

(** Finding: the table answers [Some 0] for the identity even when 0 was not tabulated. *)
Theorem C03_zero_always_found :
  forall (E : Env) (L : GroupLaws E) tbl, DiscreteLogTable_get (E:=E) tbl identity = Ret (Some 0%N).
Proof.
  intros E L tbl. unfold DiscreteLogTable_get.
  rewrite (proj2 (is_identity_ok E L identity) eq_refl). reflexivity.
Qed.
Print Assumptions C03_zero_always_found.

(** ** C04: key arithmetic keeps secret and public parts matched *)
Theorem C04_keypair_matched :
  forall (E : Env) (L : GroupLaws E) (kp : Keypair E), reachable_keypair kp ->
    pk_element (kp_public kp) = (generator * kp_secret kp)%E /\
    serialize_element (pk_element (kp_public kp)) = Ret (pk_bytes (kp_public kp)).
Proof. intros E L kp H. exact (reachable_keypair_ok E L kp H). Qed.
Print Assumptions C04_keypair_matched.

Theorem C04_public_key_expressions :
  forall (E : Env) (L : GroupLaws E) (x : kexpr E) (pk : PublicKey E),
    pk_eval x = Ret pk -> PublicKey_from_secret (sk_eval x) = Ret pk.
Proof. exact pk_eval_from_secret. Qed.
Print Assumptions C04_public_key_expressions.

(** on backends that can serialize the identity no key operation panics *)
Theorem C04_public_key_expressions_total :
  forall (E : Env) (L : GroupLaws E), ser_total E ->
  forall x : kexpr E, exists pk, pk_eval x = Ret pk /\ PublicKey_from_secret (sk_eval x) = Ret pk.
Proof.
  intros E L Ht x. destruct (pk_eval_total E L x Ht) as [pk H]. exists pk.
  split; [exact H | exact (pk_eval_from_secret E L x pk H)].
Qed.
Print Assumptions C04_public_key_expressions_total.

(** Two public keys computed in any of the ways the API offers compare equal exactly if they belong
    to the same secret key. *)
Theorem C04_key_equality :
  forall (E : Env) (L : GroupLaws E) (x y : kexpr E) (a b : PublicKey E),
    pk_eval x = Ret a -> pk_eval y = Ret b ->
    (PublicKey_eqb a b = true <-> sk_eval x = sk_eval y).
Proof.
  intros E L x y a b Ha Hb. unfold PublicKey_eqb. rewrite bytes_eqb_ok.
  destruct (pk_eval_sound E L x a Ha) as [A1 A2]. destruct (pk_eval_sound E L y b Hb) as [B1 B2].
  unfold key_of in A1, B1. unfold key_bytes_ok in A2, B2. split.
  - intros H. rewrite H in A2. pose proof (ser_element_inj L _ _ _ A2 B2) as He. rewrite A1, B1 in He.
    rewrite <- !(mul_generator_ok E L) in He. apply (f_equal (dlog L)) in He.
    rewrite !(dlog_mul_generator L) in He. exact He.
  - intros H. rewrite A1, H, <- B1, B2 in A2. congruence.
Qed.
Print Assumptions C04_key_equality.

(** The same for keys read from bytes, on backends that accept canonical encodings only. *)
Theorem C04_parsed_key_equality :
  forall (E : Env) (L : GroupLaws E) (a b : PublicKey E) ba bb, deser_canonical E ->
    PublicKey_from_bytes ba = Ok a -> PublicKey_from_bytes bb = Ok b ->
    (PublicKey_eqb a b = true <-> pk_element a = pk_element b).
Proof.
  intros E L a b ba bb Hc Ha Hb. unfold PublicKey_eqb. rewrite bytes_eqb_ok.
  pose proof (from_bytes_canonical E L _ _ Hc Ha) as A. pose proof (from_bytes_canonical E L _ _ Hc Hb) as B.
  unfold key_bytes_ok in A, B. split.
  - intros H. rewrite H in A. exact (ser_element_inj L _ _ _ A B).
  - intros H. rewrite H, B in A. congruence.
Qed.
Print Assumptions C04_parsed_key_equality.

Example C04_key_equality_example :
  match pk_eval (KMul (KOf (rs 5)) (rs 3)), pk_eval (KAdd (KOf (rs 7)) (KOf (rs 8))),
        pk_eval (KOf (rs 16)) with
  | Ret a, Ret b, Ret c => PublicKey_eqb a b = true /\ PublicKey_eqb a c = false
  | _, _, _ => False
  end.
Proof. vm_compute. auto. Qed.

Example C04_example :
  exists kp kp', Keypair_generate (E:=RE) 42%Z = Ret (kp, 43%Z) /\ Keypair_mul kp (rs 7) = Ret kp' /\
    reachable_keypair kp' /\ e_eqb (pk_element (kp_public kp')) (re 0) = false.
Proof.
  eexists. eexists. split; [reflexivity|]. split; [reflexivity|]. split.
  - eapply RK_mul; [eapply RK_generate; reflexivity | reflexivity].
  - vm_compute. reflexivity.
Qed.

Example C04_expr_example :
  match pk_eval (KAdd (KMul (KOf (ks 5)) (ks 8)) (KMulU64 (KOf (ks 3)) 4)) with
  | Ret pk => e_eqb (pk_element pk) (ke 52) = true
  | Panic _ => False
  end.
Proof. vm_compute. reflexivity. Qed.

(** ** C05: [PublicKey::from_bytes] accepts exactly valid non-identity encodings *)
Theorem C05_from_bytes :
  forall (E : Env) (L : GroupLaws E) (b : bytes),
    (PublicKey_from_bytes (E:=E) b = Err InvalidByteSize <-> length b <> ELEMENT_SIZE E) /\
    (PublicKey_from_bytes (E:=E) b = Err InvalidGroupElement <->
       length b = ELEMENT_SIZE E /\ deserialize_element (g:=E) b = None) /\
    (PublicKey_from_bytes (E:=E) b = Err IdentityKey <->
       length b = ELEMENT_SIZE E /\ deserialize_element (g:=E) b = Some identity) /\
    (forall pk, PublicKey_from_bytes (E:=E) b = Ok pk <->
       length b = ELEMENT_SIZE E /\ deserialize_element b = Some (pk_element pk) /\
       pk_element pk <> identity /\ pk_bytes pk = b).
Proof.
  intros E L b. split; [|split; [|split]].
  - exact (from_bytes_wrong_size E b).
  - exact (from_bytes_invalid E b).
  - exact (from_bytes_identity E L b).
  - intros pk. exact (from_bytes_ok E L b pk).
Qed.
Print Assumptions C05_from_bytes.

Theorem C05_roundtrip :
  forall (E : Env) (L : GroupLaws E) (pk : PublicKey E),
    serialize_element (pk_element pk) = Ret (pk_bytes pk) -> pk_element pk <> identity ->
    PublicKey_from_bytes (pk_bytes pk) = Ok pk.
Proof. exact from_bytes_roundtrip. Qed.
Print Assumptions C05_roundtrip.

Definition is_err {A B : Type} (r : result A B) : bool := match r with Ok _ => false | Err _ => true end.

Example C05_example :
  exists pk, PublicKey_from_secret (rs (qx - 1)) = Ret pk /\
    serialize_element (pk_element pk) = Ret (pk_bytes pk) /\ pk_element pk <> identity /\
    is_err (PublicKey_from_bytes (E:=RE) (le_bytes 32 0)) = true /\
    is_err (PublicKey_from_bytes (E:=RE) (le_bytes 32 (2 ^ 256 - 1))) = true /\
    is_err (PublicKey_from_bytes (E:=RE) (le_bytes 31 1)) = true.
Proof.
  eexists. split; [reflexivity|]. split; [vm_compute; reflexivity|].
  split; [apply re_neq; vm_compute; reflexivity|].
  vm_compute. auto.
Qed.
