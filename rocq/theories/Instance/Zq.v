(** * Concrete backends meeting the group contract

    The additive group Z_q as a group of order q, for any prime q.  Two encodings
    mirror the two families of backends in /repo:
    - "plain" : like src/group/ristretto.rs and curve25519.rs, every element has an
      encoding of [k] bytes, multi-scalar multiplication panics on different lengths;
    - "SEC1-like": like src/group/generic.rs, the identity has no encoding of the
      element size, so serializing it panics; provided methods of the trait are used.
    They witness that the hypotheses of the theorems can be met; discrete logs are
    trivial in them, so they are of course not cryptographic groups. *)
From Coq Require Import List NArith ZArith Znumtheory Field_theory Eqdep_dec Bool Lia String.
From Coq.Strings Require Import Byte.
From Verif.Model Require Import Base Group Transcript Range.
From Verif.Instance Require Import Primality.
Import ListNotations.
Open Scope Z_scope.

(** little-endian decoding, the inverse of [le_bytes] *)
Fixpoint le_val (b : bytes) : N :=
  match b with
  | [] => 0
  | x :: b' => (Byte.to_N x + 256 * le_val b')%N
  end.

Lemma byte_of_N_mod_val n : Byte.to_N (byte_of_N_mod n) = (n mod 256)%N.
Proof.
  unfold byte_of_N_mod. destruct (Byte.of_N (n mod 256)) as [b|] eqn:H.
  - apply Byte.to_of_N. exact H.
  - exfalso. apply Byte.of_N_None_iff in H. pose proof (N.mod_upper_bound n 256). lia.
Qed.

Lemma byte_of_N_mod_byte x m : byte_of_N_mod (Byte.to_N x + 256 * m) = x.
Proof.
  unfold byte_of_N_mod. rewrite N.mul_comm, N.mod_add by discriminate.
  rewrite N.mod_small by (pose proof (Byte.to_N_bounded x); lia).
  rewrite Byte.of_to_N. reflexivity.
Qed.

Lemma le_bytes_length k n : List.length (le_bytes k n) = k.
Proof. revert n; induction k; intros; cbn; auto. Qed.

Lemma le_val_bytes k n : (n < 256 ^ N.of_nat k)%N -> le_val (le_bytes k n) = n.
Proof.
  revert n; induction k as [|k IH]; intros n Hn.
  - cbn in *. lia.
  - cbn [le_bytes le_val]. rewrite byte_of_N_mod_val, IH.
    + rewrite N.add_comm. symmetry. apply N.div_mod. discriminate.
    + rewrite Nat2N.inj_succ, N.pow_succ_r' in Hn. apply N.div_lt_upper_bound; lia.
Qed.

Lemma le_bytes_val b : le_bytes (List.length b) (le_val b) = b.
Proof.
  induction b as [|x b IH]; [reflexivity|]. cbn [List.length le_bytes le_val].
  rewrite byte_of_N_mod_byte. f_equal.
  replace ((Byte.to_N x + 256 * le_val b) / 256)%N with (le_val b); [exact IH|].
  apply (N.div_unique _ 256 _ (Byte.to_N x)); [pose proof (Byte.to_N_bounded x); lia|lia].
Qed.

Section Zq.
Context (q : Z) (q_prime : prime q) (k : nat) (q_size : q <= 256 ^ Z.of_nat k).

Record Zq : Type := mkZq { zval : Z; zok : (zval mod q =? zval) = true }.

Lemma Zq_eq (a b : Zq) : zval a = zval b -> a = b.
Proof.
  destruct a as [a Ha], b as [b Hb]; cbn; intros <-. f_equal. apply UIP_dec. apply bool_dec.
Qed.

Lemma zmod_ok z : ((z mod q) mod q =? z mod q) = true.
Proof. apply Z.eqb_eq. apply Zmod_mod. Qed.

Definition zq (z : Z) : Zq := mkZq (z mod q) (zmod_ok z).

Lemma q_pos : 1 < q. Proof. destruct q_prime; assumption. Qed.

Lemma zval_mod (a : Zq) : zval a mod q = zval a.
Proof. apply Z.eqb_eq. exact (zok a). Qed.

Lemma zval_range (a : Zq) : 0 <= zval a < q.
Proof. rewrite <- zval_mod. apply Z.mod_pos_bound. pose proof q_pos; lia. Qed.

(** Inverses: extended Euclid with fuel; should the fuel not suffice (it does), search.
    ([q + (a - a)] keeps the search list from being computed ahead of time.) *)
Fixpoint egcd (fuel : nat) (r0 s0 r1 s1 : Z) : Z :=
  match fuel with
  | O => s0
  | S f => if r1 =? 0 then s0 else egcd f r1 s1 (r0 mod r1) (s0 - (r0 / r1) * s1)
  end.

Definition zinv_raw (a : Z) : Z :=
  let u := egcd 1000 q 0 a 1 in
  if (u * a) mod q =? 1 then u
  else match find (fun u => (u * a) mod q =? 1) (map Z.of_nat (seq 0 (Z.to_nat (q + (a - a))))) with
       | Some u => u
       | None => 0
       end.

Definition zinv (a : Zq) : Zq := zq (zinv_raw (zval a)).

Lemma zinv_raw_ok a : 0 < a < q -> (zinv_raw a * a) mod q = 1.
Proof.
  intros Ha. unfold zinv_raw. set (u0 := egcd 1000 q 0 a 1).
  destruct ((u0 * a) mod q =? 1) eqn:H; [apply Z.eqb_eq; exact H|].
  destruct (find _ _) as [u|] eqn:Hf.
  - apply find_some in Hf as [_ Hf]. apply Z.eqb_eq. exact Hf.
  - exfalso.
    assert (Hrel : rel_prime a q).
    { apply rel_prime_sym. apply prime_rel_prime; [exact q_prime|]. intros Hd.
      apply Z.divide_pos_le in Hd; lia. }
    apply rel_prime_bezout in Hrel. destruct Hrel as [u v Huv].
    replace (q + (a - a)) with q in Hf by lia.
    assert (Hin : In (u mod q) (map Z.of_nat (seq 0 (Z.to_nat q)))).
    { pose proof (Z.mod_pos_bound u q ltac:(lia)). apply in_map_iff. exists (Z.to_nat (u mod q)).
      split; [lia|]. apply in_seq. lia. }
    pose proof (find_none _ _ Hf _ Hin) as Hn. cbv beta in Hn. apply Z.eqb_neq in Hn.
    apply Hn. rewrite Z.mul_mod_idemp_l by lia.
    replace (u * a) with (1 + - v * q) by lia. rewrite Z.mod_add by lia. apply Z.mod_small; lia.
Qed.

Definition zadd (a b : Zq) : Zq := zq (zval a + zval b).
Definition zsub (a b : Zq) : Zq := zq (zval a - zval b).
Definition zmul (a b : Zq) : Zq := zq (zval a * zval b).
Definition zneg (a : Zq) : Zq := zq (- zval a).
Definition zeqb (a b : Zq) : bool := zval a =? zval b.

Lemma zeqb_ok a b : zeqb a b = true <-> a = b.
Proof.
  unfold zeqb. rewrite Z.eqb_eq. split; [apply Zq_eq | congruence].
Qed.

Definition zbytes (a : Zq) : bytes := le_bytes k (Z.to_N (zval a)).
Definition zparse (b : bytes) : option Zq :=
  let v := Z.of_N (le_val b) in
  if v <? q then Some (zq v) else None.

Definition zcheck_len {A B} (ss : list A) (es : list B) (x : outcome Zq) : outcome Zq :=
  if Nat.eqb (List.length ss) (List.length es) then x else Panic PBackend.

Definition zmulti (ss es : list Zq) : outcome Zq :=
  default_multi_mul (zq 0) zadd zmul ss es.

(** Plain backend *)
Definition plain_group : Group := {|
  Scalar := Zq; Element := Zq;
  s_default := zq 0; s_of_u64 := fun n => zq (Z.of_N n);
  s_neg := zneg; s_add := zadd; s_sub := zsub; s_mul := zmul; s_eqb := zeqb;
  SCALAR_SIZE := k;
  invert_scalar := fun a => Ret (zinv a);
  invert_scalars := fun l => if existsb (fun a => zval a =? 0) l then Panic PBackend else Ret (map zinv l);
  serialize_scalar := zbytes;
  deserialize_scalar := zparse;
  e_add := zadd; e_sub := zsub; e_neg := zneg; e_mul := zmul; e_eqb := zeqb;
  ELEMENT_SIZE := k; identity := zq 0; is_identity := fun a => zval a =? 0;
  generator := zq 1;
  serialize_element := fun a => Ret (zbytes a);
  deserialize_element := zparse;
  mul_generator := fun a => a;
  vartime_mul_generator := fun a => a;
  multi_mul := fun ss es => zcheck_len ss es (zmulti ss es);
  vartime_double_mul_generator := fun a K r => zadd (zmul K a) r;
  vartime_multi_mul := fun ss es => zcheck_len ss es (zmulti ss es)
|}.

(** SEC1-like backend *)
Definition sec1_group : Group := with_defaults {|
  Scalar := Zq; Element := Zq;
  s_default := zq 0; s_of_u64 := fun n => zq (Z.of_N n);
  s_neg := zneg; s_add := zadd; s_sub := zsub; s_mul := zmul; s_eqb := zeqb;
  SCALAR_SIZE := k;
  invert_scalar := fun a => if zval a =? 0 then Panic PUnwrap else Ret (zinv a);
  invert_scalars := fun l => Ret [];
  serialize_scalar := zbytes;
  deserialize_scalar := zparse;
  e_add := zadd; e_sub := zsub; e_neg := zneg; e_mul := zmul; e_eqb := zeqb;
  ELEMENT_SIZE := S k; identity := zq 0; is_identity := fun a => zval a =? 0;
  generator := zq 1;
  serialize_element := fun a => if zval a =? 0 then Panic PBackend else Ret (x02 :: zbytes a);
  deserialize_element := fun b =>
    match b with
    | x02 :: b' => match zparse b' with
                   | Some a => if zval a =? 0 then None else Some a
                   | None => None
                   end
    | _ => None
    end;
  mul_generator := fun a => a; vartime_mul_generator := fun a => a;
  multi_mul := zmulti; vartime_double_mul_generator := fun a K r => zadd (zmul K a) r;
  vartime_multi_mul := zmulti
|}.

Ltac zsolve :=
  intros; apply Zq_eq; cbn [zval zq zadd zmul zsub zneg];
  repeat first [rewrite Zplus_mod_idemp_l | rewrite Zplus_mod_idemp_r | rewrite Zmult_mod_idemp_l
               | rewrite Zmult_mod_idemp_r | rewrite Zminus_mod_idemp_l | rewrite Zminus_mod_idemp_r].

Lemma zq_zval a : zq (zval a) = a.
Proof. apply Zq_eq. apply zval_mod. Qed.

Lemma zq_eq a b : zq a = zq b <-> a mod q = b mod q.
Proof. split; intros H; [exact (f_equal zval H) | apply Zq_eq; exact H]. Qed.

Lemma zq_add a b : zadd (zq a) (zq b) = zq (a + b).
Proof. apply Zq_eq. cbn. symmetry. apply Zplus_mod. Qed.
Lemma zq_mul a b : zmul (zq a) (zq b) = zq (a * b).
Proof. apply Zq_eq. cbn. symmetry. apply Zmult_mod. Qed.
Lemma zq_sub a b : zsub (zq a) (zq b) = zq (a - b).
Proof. apply Zq_eq. cbn. symmetry. apply Zminus_mod. Qed.
Lemma zq_neg a : zneg (zq a) = zq (- a).
Proof.
  apply Zq_eq. cbn. pose proof q_pos. rewrite <- (Z.sub_0_l (a mod q)), <- (Z.sub_0_l a).
  apply Zminus_mod_idemp_r.
Qed.

Ltac zn a := rewrite <- (zq_zval a).

Ltac zring :=
  intros;
  repeat match goal with
  | x : Zq |- _ => rewrite <- (zq_zval x); generalize (zval x); clear x; intros x
  end;
  rewrite ?zq_add, ?zq_mul, ?zq_sub, ?zq_neg, ?zq_add, ?zq_mul, ?zq_sub, ?zq_neg;
  f_equal; ring.

Lemma zmul_inv a : a <> zq 0 -> zmul (zinv a) a = zq 1.
Proof.
  intros Ha. apply Zq_eq. cbn [zmul zval zinv zq]. rewrite Zmult_mod_idemp_l.
  pose proof (zval_range a). pose proof q_pos.
  rewrite zinv_raw_ok.
  - symmetry. apply Z.mod_small. lia.
  - assert (zval a <> 0); [|lia]. intros Hz. apply Ha. apply Zq_eq. cbn. exact Hz.
Qed.

Lemma z_field : field_theory (zq 0) (zq 1) zadd zmul zsub zneg
    (fun a b => zmul a (zinv b)) zinv (@eq Zq).
Proof.
  constructor.
  - constructor; try (zring; fail).
  - intros H. apply zq_eq in H. pose proof q_pos.
    rewrite Z.mod_0_l, Z.mod_small in H by lia. discriminate.
  - reflexivity.
  - exact zmul_inv.
Qed.

Lemma zbytes_len a : List.length (zbytes a) = k.
Proof. apply le_bytes_length. Qed.

Lemma zval_size a : (Z.to_N (zval a) < 256 ^ N.of_nat k)%N.
Proof.
  pose proof (zval_range a). apply N2Z.inj_lt. rewrite Z2N.id by lia.
  rewrite N2Z.inj_pow, nat_N_Z. change (Z.of_N 256) with 256. lia.
Qed.

Lemma zparse_bytes a : zparse (zbytes a) = Some a.
Proof.
  unfold zparse, zbytes. rewrite le_val_bytes by apply zval_size.
  pose proof (zval_range a). rewrite Z2N.id by lia.
  destruct (zval a <? q) eqn:H'; [|apply Z.ltb_ge in H'; lia]. rewrite zq_zval. reflexivity.
Qed.

Lemma zbytes_parse b a : List.length b = k -> zparse b = Some a -> zbytes a = b.
Proof.
  intros Hb H. unfold zparse in H. destruct (Z.of_N (le_val b) <? q) eqn:Hlt; [|discriminate].
  injection H as <-. unfold zbytes. cbn [zval zq]. apply Z.ltb_lt in Hlt.
  rewrite Z.mod_small by lia. rewrite N2Z.id. rewrite <- Hb. apply le_bytes_val.
Qed.

Fixpoint zlc (ss es : list Zq) : Zq :=
  match ss, es with
  | s :: ss', e :: es' => zadd (zmul e s) (zlc ss' es')
  | _, _ => zq 0
  end.

Lemma zmulti_ok (ss es : list Zq) : zmulti ss es = Ret (zlc ss es).
Proof.
  unfold zmulti, default_multi_mul. f_equal.
  assert (H : forall l acc, fold_left (fun out (p : Zq * Zq) => let '(s, e) := p in zadd out (zmul e s)) l acc
            = zadd acc (fold_right (fun p out => zadd (zmul (snd p) (fst p)) out) (zq 0) l)).
  { induction l as [|[s e] l IH]; intros acc; cbn [fold_left fold_right fst snd].
    - zring.
    - rewrite IH. generalize (fold_right (fun p out => zadd (zmul (snd p) (fst p)) out) (zq 0) l).
      clear. zring. }
  rewrite H. clear H.
  transitivity (fold_right (fun p out => zadd (zmul (snd p) (fst p)) out) (zq 0) (combine ss es)).
  - generalize (fold_right (fun p out => zadd (zmul (snd p) (fst p)) out) (zq 0) (combine ss es)).
    clear. zring.
  - revert es; induction ss as [|s ss IH]; intros [|e es]; cbn; try reflexivity.
    rewrite IH. reflexivity.
Qed.

Ltac zlcs ss es :=
  clear; revert es; induction ss as [|s ss IH]; intros [|e es]; cbn; try reflexivity;
  rewrite IH; reflexivity.

Definition plain_laws : GroupLaws plain_group.
Proof.
  refine {| order := q; order_prime := q_prime;
            s_inv := zinv : Scalar plain_group -> Scalar plain_group;
            s_field := z_field;
            phi := zq : Z -> Scalar plain_group;
            dlog := (fun a => a) : Element plain_group -> Scalar plain_group |};
    cbn [plain_group Scalar Element s_default s_of_u64 s_neg s_add s_sub s_mul s_eqb SCALAR_SIZE
         invert_scalar invert_scalars serialize_scalar deserialize_scalar e_add e_sub e_neg e_mul e_eqb
         ELEMENT_SIZE identity is_identity generator serialize_element deserialize_element
         mul_generator vartime_mul_generator multi_mul vartime_double_mul_generator vartime_multi_mul].
  - intros. symmetry. apply zq_add.
  - intros. symmetry. apply zq_mul.
  - exact zq_eq.
  - intros s. exists (zval s). symmetry. apply zq_zval.
  - reflexivity.
  - exact zeqb_ok.
  - zring.
  - zring.
  - zring.
  - zring.
  - zring.
  - zring.
  - zring.
  - zring.
  - zring.
  - exact zeqb_ok.
  - intros a. rewrite Z.eqb_eq. pose proof q_pos. split.
    + intros H'. apply Zq_eq. rewrite H'. symmetry. apply Z.mod_0_l. lia.
    + intros ->. apply Z.mod_0_l. lia.
  - zring.
  - intros s H. rewrite <- H. clear H. zring.
  - intros s. zring.
  - intros s. zring.
  - intros ss es H. unfold zcheck_len. rewrite H, Nat.eqb_refl. rewrite zmulti_ok. f_equal. zlcs ss es.
  - intros a K r. zring.
  - intros ss es H. unfold zcheck_len. rewrite H, Nat.eqb_refl. rewrite zmulti_ok. f_equal. zlcs ss es.
  - reflexivity.
  - intros ss H. destruct (existsb _ ss) eqn:Hex; [exfalso|reflexivity].
    apply existsb_exists in Hex as (x & Hin & Hx). apply (H x Hin). apply Zq_eq.
    apply Z.eqb_eq in Hx. rewrite Hx. symmetry. apply Z.mod_0_l. pose proof q_pos; lia.
  - pose proof q_pos. destruct k; [cbn in q_size; lia | lia].
  - pose proof q_pos. destruct k; [cbn in q_size; lia | lia].
  - exact zbytes_len.
  - exact zparse_bytes.
  - exact zbytes_parse.
  - intros e _. eexists. reflexivity.
  - intros e b H. injection H as <-. split; [apply zbytes_len | apply zparse_bytes].
Defined.

Lemma plain_ser_total : ser_total plain_group.
Proof. eexists. reflexivity. Qed.

Lemma plain_canonical : deser_canonical plain_group.
Proof. intros b e Hb H. cbn in *. f_equal. apply zbytes_parse; assumption. Qed.

Lemma default_invert_ok (f : Zq -> outcome Zq) (l : list Zq) :
  (forall s, In s l -> f s = Ret (zinv s)) -> default_invert_scalars f l = Ret (map zinv l).
Proof.
  induction l as [|s l IH]; intros H; [reflexivity|]. cbn.
  rewrite H by (left; reflexivity). cbn. rewrite IH; [reflexivity|]. intros; apply H; right; assumption.
Qed.

Definition sec1_laws : GroupLaws sec1_group.
Proof.
  refine {| order := q; order_prime := q_prime;
            s_inv := zinv : Scalar sec1_group -> Scalar sec1_group;
            s_field := z_field;
            phi := zq : Z -> Scalar sec1_group;
            dlog := (fun a => a) : Element sec1_group -> Scalar sec1_group |};
    cbn [sec1_group with_defaults Scalar Element s_default s_of_u64 s_neg s_add s_sub s_mul s_eqb SCALAR_SIZE
         invert_scalar invert_scalars serialize_scalar deserialize_scalar e_add e_sub e_neg e_mul e_eqb
         ELEMENT_SIZE identity is_identity generator serialize_element deserialize_element
         mul_generator vartime_mul_generator multi_mul vartime_double_mul_generator vartime_multi_mul].
  - intros. symmetry. apply zq_add.
  - intros. symmetry. apply zq_mul.
  - exact zq_eq.
  - intros s. exists (zval s). symmetry. apply zq_zval.
  - reflexivity.
  - exact zeqb_ok.
  - zring.
  - zring.
  - zring.
  - zring.
  - zring.
  - zring.
  - zring.
  - zring.
  - zring.
  - exact zeqb_ok.
  - intros a. rewrite Z.eqb_eq. pose proof q_pos. split.
    + intros H'. apply Zq_eq. rewrite H'. symmetry. apply Z.mod_0_l. lia.
    + intros ->. apply Z.mod_0_l. lia.
  - zring.
  - intros s H. rewrite <- H. clear H. zring.
  - reflexivity.
  - reflexivity.
  - intros ss es _. rewrite zmulti_ok. f_equal. zlcs ss es.
  - reflexivity.
  - intros ss es _. rewrite zmulti_ok. f_equal. zlcs ss es.
  - intros s Hs. destruct (zval s =? 0) eqn:H0; [exfalso|reflexivity]. apply Hs.
    apply Z.eqb_eq in H0. apply Zq_eq. rewrite H0. symmetry. apply Z.mod_0_l. pose proof q_pos; lia.
  - intros ss H. apply default_invert_ok. intros s Hin. specialize (H s Hin).
    destruct (zval s =? 0) eqn:H0; [exfalso|reflexivity]. apply H.
    apply Z.eqb_eq in H0. apply Zq_eq. rewrite H0. symmetry. apply Z.mod_0_l. pose proof q_pos; lia.
  - pose proof q_pos. destruct k; [cbn in q_size; lia | lia].
  - lia.
  - exact zbytes_len.
  - exact zparse_bytes.
  - exact zbytes_parse.
  - intros e He. destruct (zval e =? 0) eqn:H0; [exfalso|eexists; reflexivity]. apply He.
    apply Z.eqb_eq in H0. apply Zq_eq. rewrite H0. symmetry. apply Z.mod_0_l. pose proof q_pos; lia.
  - intros e b. destruct (zval e =? 0) eqn:H0; [discriminate|]. intros H. injection H as <-.
    split; [cbn; rewrite zbytes_len; reflexivity|]. rewrite zparse_bytes, H0. reflexivity.
Defined.

(** ** Environments: a counter as RNG, polynomial hashing of the transcript as oracle. *)
Definition hash_bytes (seed : Z) (b : bytes) : Z :=
  (seed * 1000003 + Z.of_N (le_val b) * 31 + Z.of_nat (List.length b) * 7 + 1) mod q.

Definition toy_oracle (t : transcript) (label : string) : Zq :=
  zq (hash_bytes
    (fold_left (fun h ev =>
       match ev with
       | TMsg l m => hash_bytes (hash_bytes (h + 7) (str_bytes l) + 11) m
       | TChal l => hash_bytes (h + 13) (str_bytes l)
       end) t 17) (str_bytes label)).

Definition toy_generate (r : Z) : Zq * Z := (zq (r * r * r + 5 * r + 3), r + 1).

Definition toy_fill (n : nat) (r : Z) : bytes * Z := (le_bytes n (Z.to_N (r * 1234567 + 89)), r + 1).

Definition toy_sha (b : bytes) : bytes := le_bytes 32 (Z.to_N (hash_bytes 23 b)).

Definition plain_env (b : Build) : Env := {|
  env_group := plain_group; Rng := Z;
  generate_scalar := toy_generate; fill_bytes := toy_fill; oracle := toy_oracle;
  sha256 := toy_sha; len_estimate := int_lower_len_estimate; env_build := b |}.

Definition sec1_env (b : Build) : Env := {|
  env_group := sec1_group; Rng := Z;
  generate_scalar := toy_generate; fill_bytes := toy_fill; oracle := toy_oracle;
  sha256 := toy_sha; len_estimate := int_lower_len_estimate; env_build := b |}.

End Zq.

(** ** The instance with q = the order of Ristretto / Curve25519's subgroup, 32-byte encodings *)
Lemma ell_size : ell <= 256 ^ Z.of_nat 32.
Proof. vm_compute. discriminate. Qed.

Definition ristretto_env (b : Build) : Env := plain_env ell 32 b.
Definition ristretto_laws (b : Build) : GroupLaws (ristretto_env b) := plain_laws ell prime_ell 32 ell_size.
Definition k256_env (b : Build) : Env := sec1_env ell 32 b.
Definition k256_laws (b : Build) : GroupLaws (k256_env b) := sec1_laws ell prime_ell 32 ell_size.

Lemma ristretto_ser_total b : ser_total (ristretto_env b).
Proof. apply plain_ser_total. Qed.

Lemma ristretto_canonical b : deser_canonical (ristretto_env b).
Proof. apply plain_canonical. Qed.

Lemma k256_not_ser_total b : ~ ser_total (k256_env b).
Proof. intros [x Hx]. vm_compute in Hx. discriminate. Qed.

(** ** Environments for the examples

    Debug builds with typed literals. The order is a 65-bit prime and encodings take 9 bytes:
    examples are re-checked by a kernel without a virtual machine, which is slow on large numbers. *)
Lemma qx_size : qx <= 256 ^ Z.of_nat 9.
Proof. vm_compute. discriminate. Qed.

Definition RE : Env := plain_env qx 9 debug_build.
Definition RL : GroupLaws RE := plain_laws qx prime_qx 9 qx_size.
Definition rs (z : Z) : Scalar RE := zq qx z.
Definition re (z : Z) : Element RE := zq qx z.
Definition KE : Env := sec1_env qx 9 debug_build.
Definition KL : GroupLaws KE := sec1_laws qx prime_qx 9 qx_size.
Definition ks (z : Z) : Scalar KE := zq qx z.
Definition ke (z : Z) : Element KE := zq qx z.

Lemma RE_ser_total : ser_total RE. Proof. apply plain_ser_total. Qed.
Lemma RE_order_big : 2 ^ 64 <= order RL. Proof. vm_compute. discriminate. Qed.

Lemma re_neq (a b : Element RE) : zeqb qx a b = false -> a <> b.
Proof. intros H ->. rewrite (proj2 (zeqb_ok qx b b) eq_refl) in H. discriminate. Qed.
Lemma re_eq (a b : Element RE) : zeqb qx a b = true -> a = b.
Proof. apply zeqb_ok. Qed.
Lemma rs_neq (a b : Scalar RE) : zeqb qx a b = false -> a <> b.
Proof. intros H ->. rewrite (proj2 (zeqb_ok qx b b) eq_refl) in H. discriminate. Qed.
Lemma rs_eq (a b : Scalar RE) : zeqb qx a b = true -> a = b.
Proof. apply zeqb_ok. Qed.

(** The same backend with a chosen oracle (to exhibit oracles that hit bad challenges) *)
Definition OE (o : transcript -> string -> Zq qx) : Env := {|
  env_group := RE; Rng := Z; generate_scalar := toy_generate qx; fill_bytes := toy_fill;
  oracle := o; sha256 := toy_sha qx; len_estimate := int_lower_len_estimate;
  env_build := debug_build |}.
Definition C3 : Env := OE (fun _ _ => rs 3).
Definition c3s (z : Z) : Scalar C3 := zq qx z.
Definition c3e (z : Z) : Element C3 := zq qx z.
