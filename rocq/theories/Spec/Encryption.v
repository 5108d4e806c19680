(** * Specification vocabulary for keys and encryption (C01-C06)

    Independent of the model's helpers: only group operations and the documented
    meaning of the types. *)
From Coq Require Import List NArith ZArith.
From Verif.Model Require Import Base Group Transcript Keys Encryption.
Import ListNotations.

(** [pk] is the public key of the secret scalar [sk]: its element is [sk]G. *)
Definition key_of {E : Env} (sk : Scalar E) (pk : PublicKey E) : Prop :=
  pk_element pk = (generator * sk)%E.

(** The stored bytes of a public key are the serialization of its element. *)
Definition key_bytes_ok {E : Env} (pk : PublicKey E) : Prop :=
  serialize_element (pk_element pk) = Ret (pk_bytes pk).

(** [n]A as iterated addition *)
Definition times {E : Env} (n : N) (a : Element E) : Element E :=
  N.iter n (e_add a) identity.

(** ElGamal: [c] encrypts the group element [M] under [pk] with randomness [r]. *)
Definition encrypts {E : Env} (pk : PublicKey E) (c : Ciphertext E) (M : Element E) (r : Scalar E) : Prop :=
  random_element c = (generator * r)%E /\
  blinded_element c = (M + pk_element pk * r)%E.

(** ** Expressions over ciphertexts (C02) *)
Inductive cexpr (E : Env) : Type :=
| XCipher (c : Ciphertext E)           (* any ciphertext *)
| XZero                                (* Ciphertext::zero() *)
| XNonBlinded (v : Scalar E)           (* Ciphertext::non_blinded(v) *)
| XAdd (a b : cexpr E)
| XSub (a b : cexpr E)
| XNeg (a : cexpr E)
| XMul (a : cexpr E) (k : Scalar E)
| XMulU64 (a : cexpr E) (k : N).
Arguments XCipher {E}.
Arguments XZero {E}.
Arguments XNonBlinded {E}.
Arguments XAdd {E}.
Arguments XSub {E}.
Arguments XNeg {E}.
Arguments XMul {E}.
Arguments XMulU64 {E}.

(** evaluation with the crate's operators *)
Fixpoint ct_eval {E : Env} (x : cexpr E) : Ciphertext E :=
  match x with
  | XCipher c => c
  | XZero => Ciphertext_zero
  | XNonBlinded v => Ciphertext_non_blinded v
  | XAdd a b => Ciphertext_add (ct_eval a) (ct_eval b)
  | XSub a b => Ciphertext_sub (ct_eval a) (ct_eval b)
  | XNeg a => Ciphertext_neg (ct_eval a)
  | XMul a k => Ciphertext_mul (ct_eval a) k
  | XMulU64 a k => Ciphertext_mul_u64 (ct_eval a) k
  end.

(** the same expression on plaintext group elements; [dec] gives the plaintext of a leaf *)
Fixpoint pt_eval {E : Env} (dec : Ciphertext E -> Element E) (x : cexpr E) : Element E :=
  match x with
  | XCipher c => dec c
  | XZero => identity
  | XNonBlinded v => (generator * v)%E
  | XAdd a b => (pt_eval dec a + pt_eval dec b)%E
  | XSub a b => (pt_eval dec a + - pt_eval dec b)%E
  | XNeg a => (- pt_eval dec a)%E
  | XMul a k => (pt_eval dec a * k)%E
  | XMulU64 a k => times k (pt_eval dec a)
  end.

(** all literal multipliers are [u64]s *)
Fixpoint u64_literals {E : Env} (x : cexpr E) : Prop :=
  match x with
  | XCipher _ | XZero | XNonBlinded _ => True
  | XAdd a b | XSub a b => u64_literals a /\ u64_literals b
  | XNeg a | XMul a _ => u64_literals a
  | XMulU64 a k => (k < u64_lim)%N /\ u64_literals a
  end.

(** ** Key expressions (C04) *)

(** keypairs obtainable through the API without deserialization *)
Inductive reachable_keypair {E : Env} : Keypair E -> Prop :=
| RK_generate r kp r' : Keypair_generate r = Ret (kp, r') -> reachable_keypair kp
| RK_from_secret sk kp : Keypair_from_secret sk = Ret kp -> reachable_keypair kp
| RK_mul kp k kp' : reachable_keypair kp -> Keypair_mul kp k = Ret kp' -> reachable_keypair kp'.

Inductive kexpr (E : Env) : Type :=
| KOf (sk : Scalar E)
| KAdd (a b : kexpr E)
| KMul (a : kexpr E) (k : Scalar E)
| KMulU64 (a : kexpr E) (k : N).
Arguments KOf {E}.
Arguments KAdd {E}.
Arguments KMul {E}.
Arguments KMulU64 {E}.

(** on public keys *)
Fixpoint pk_eval {E : Env} (x : kexpr E) : outcome (PublicKey E) :=
  match x with
  | KOf sk => PublicKey_from_secret sk
  | KAdd a b => pa <- pk_eval a ;; pb <- pk_eval b ;; PublicKey_add pa pb
  | KMul a k => pa <- pk_eval a ;; PublicKey_mul pa k
  | KMulU64 a k => pa <- pk_eval a ;; PublicKey_mul_u64 pa k
  end.

(** on secret keys *)
Fixpoint sk_eval {E : Env} (x : kexpr E) : SecretKey E :=
  match x with
  | KOf sk => sk
  | KAdd a b => SecretKey_add (sk_eval a) (sk_eval b)
  | KMul a k => SecretKey_mul (sk_eval a) k
  | KMulU64 a k => SecretKey_mul (sk_eval a) (s_of_u64 k)
  end.
