(** * C59-C61: the backends Ristretto, Curve25519Subgroup and Generic *)
From Coq Require Import List NArith ZArith Znumtheory String Lia.
From Verif.Model Require Import Base Group Transcript Range Keys Encryption LogEquality Backends.
From Verif.Spec Require Import Backends.
From Verif.Proofs Require Import Backends.
From Verif.Instance Require Import Primality Zq Curves.
Import ListNotations.
Open Scope list_scope.

(** ** C59: Curve25519Subgroup only lets points of the prime-order subgroup in *)
Theorem C59_decoder_exact :
  forall (D : Dalek) (L : DalekLaws D) (b : bytes) (P : DPoint D),
    deserialize_element (g := Curve25519Subgroup D) b = Some P <->
    List.length b = 32%nat /\ p_decompress b = Some P /\
    times (Z.to_nat (dl_order L)) P = p_identity.
Proof. exact decoder_exact. Qed.
Print Assumptions C59_decoder_exact.

(** points with a torsion component are rejected wherever points are parsed *)
Theorem C59_torsion_rejected :
  forall (D : Dalek) (L : DalekLaws D) (R : Type) fill squeeze sha estimate build,
  let E := curve25519_env D R fill squeeze sha estimate build in
  forall (P T : DPoint D) (h : nat),
    times (Z.to_nat (dl_order L)) P = p_identity ->
    T <> p_identity -> times h T = p_identity -> rel_prime (Z.of_nat h) (dl_order L) ->
    PublicKey_from_bytes (E := E) (p_compress (p_add P T)) = Err InvalidGroupElement /\
    CandidateDecryption_from_bytes (E := E) (p_compress (p_add P T)) = None.
Proof.
  intros D L R fill squeeze sha estimate build E P T h HP HT Hh Hr.
  pose proof (mangled_none D L P T h HP HT Hh Hr) as Hn.
  unfold PublicKey_from_bytes, CandidateDecryption_from_bytes.
  change (ELEMENT_SIZE E) with 32%nat. rewrite (dl_compress_len _ L). cbn [Nat.eqb negb].
  change (@deserialize_element E) with (@deserialize_element (Curve25519Subgroup D)).
  rewrite Hn. auto.
Qed.
Print Assumptions C59_torsion_rejected.

(** so accepted public keys are the non-zero multiples of the generator *)
Theorem C59_accepted_keys :
  forall (D : Dalek) (L : DalekLaws D) (R : Type) fill squeeze sha estimate build,
  let E := curve25519_env D R fill squeeze sha estimate build in
  forall (b : bytes) (pk : PublicKey E),
    PublicKey_from_bytes (E := E) b = Ok pk ->
    pk_bytes pk = b /\ exists s : DScalar D, s <> d_zero /\ pk_element pk = p_mul p_basepoint s.
Proof.
  intros D L R fill squeeze sha estimate build E b pk. unfold PublicKey_from_bytes.
  destruct (negb _); [discriminate|].
  change (@deserialize_element E) with (@deserialize_element (Curve25519Subgroup D)).
  destruct (deserialize_element b) as [P|] eqn:HP; [|discriminate].
  apply (decoder_exact D L) in HP as (_ & _ & HP).
  match goal with |- context [if ?c then _ else _] => destruct c eqn:Hi end; [discriminate|].
  intros H. injection H as <-.
  cbn [pk_bytes pk_element]. split; [reflexivity|].
  exists (dl_log _ L P). rewrite (dl_log_ok _ L P HP). split; [|reflexivity].
  intros Hz. pose proof (dl_log_ok _ L P HP) as Hl. rewrite Hz, (mul_zero_pt D L) in Hl.
  assert (Hid : p_is_identity P = true) by (apply (dl_is_identity _ L); auto).
  change (p_is_identity P = false) in Hi. congruence.
Qed.
Print Assumptions C59_accepted_keys.

(** An instance with cofactor 8: the point [8 * 5 + qx] has a component of order 8 *)
Definition TD : Dalek := toy_dalek 8.
Definition TL : DalekLaws TD := toy_dalek_laws 8 eq_refl ltac:(discriminate).
Definition TE : Env :=
  curve25519_env TD Z toy_fill (fun _ _ n => le_bytes n 77) (fun b => b) int_lower_len_estimate debug_build.
Definition tpoint (z : Z) : DPoint TD := zq (8 * qx) z.

Example C59_example :
  times (Z.to_nat (dl_order TL)) (tpoint 40) = p_identity /\
  tpoint qx <> p_identity /\ times 8 (tpoint qx) = p_identity /\
  rel_prime (Z.of_nat 8) (dl_order TL) /\
  PublicKey_from_bytes (E := TE) (p_compress (p_add (tpoint 40) (tpoint qx))) = Err InvalidGroupElement /\
  match PublicKey_from_bytes (E := TE) (p_compress (tpoint 40)) with
  | Ok pk => e_eqb (g := TE) (pk_element pk) (tpoint 40) = true
  | Err _ => False
  end.
Proof.
  assert (Hr : rel_prime (Z.of_nat 8) (dl_order TL)).
  { change (dl_order TL) with qx. apply Zgcd_1_rel_prime. vm_compute. reflexivity. }
  assert (H40 : times (Z.to_nat (dl_order TL)) (tpoint 40) = p_identity).
  { unfold TD, tpoint. rewrite toy_times. change (dl_order TL) with qx.
    rewrite Z2Nat.id by (vm_compute; discriminate). apply Zq_eq. vm_compute. reflexivity. }
  assert (HT : tpoint qx <> p_identity).
  { intros H. apply (f_equal (zval (8 * qx))) in H. vm_compute in H. discriminate. }
  assert (H8 : times 8 (tpoint qx) = p_identity).
  { unfold TD, tpoint. rewrite toy_times. apply Zq_eq. vm_compute. reflexivity. }
  repeat (split; [assumption|]). split.
  - apply (C59_torsion_rejected TD TL Z toy_fill _ _ _ _ _ _ 8%nat H40 HT H8 Hr).
  - vm_compute. reflexivity.
Qed.

(** Without the check, encryption for such a key does not decrypt: the decoder of [Ristretto] on the
    same curve accepts the key [2 * 8 + qx], and the decryption with the secret key 2 is wrong. *)
Definition TE_unchecked : Env :=
  dalek_env TD (ristretto_deserialize_element TD) Z toy_fill (fun _ _ n => le_bytes n 77) (fun b => b)
    int_lower_len_estimate debug_build.

Example C59_check_needed :
  match PublicKey_from_bytes (E := TE_unchecked) (p_compress (tpoint (16 + qx))) with
  | Ok pk =>
      let '(c, _) := encrypt (E := TE_unchecked) pk (zq qx 3) 2%Z in
      e_eqb (g := TE_unchecked) (decrypt_to_element (E := TE_unchecked) (zq qx 2) c) (tpoint 24) = false
  | Err _ => False
  end.
Proof. vm_compute. reflexivity. Qed.

(** ** C60: the backends meet the contract of the [Group] trait *)
Theorem C60_ristretto :
  forall (D : Dalek) (L : DalekLaws D), prime_order L ->
    (exists GL : GroupLaws (Ristretto D), order GL = dl_order L) /\
    ser_total (Ristretto D) /\
    (canonical_decompress D -> deser_canonical (Ristretto D)).
Proof.
  intros D L HO. split; [exists (ristretto_group_laws D L HO); reflexivity|]. split.
  - eexists. apply (d_copy D L).
  - intros HC b P _ H. cbn [serialize_element deserialize_element Ristretto dalek_group] in *.
    rewrite (d_copy D L). f_equal. apply HC.
    unfold ristretto_deserialize_element, compressed_from_slice in H.
    destruct (Nat.eqb _ _); [exact H|discriminate].
Qed.
Print Assumptions C60_ristretto.

(** the points of the subgroup, with the operations of [Curve25519Subgroup] restricted to them, meet
    the contract; the restriction is invisible (no operation leaves the subgroup) *)
Theorem C60_curve25519 :
  forall (D : Dalek) (L : DalekLaws D),
    let G := Curve25519Subgroup D in
    let H := prime_subgroup L in
    (exists GL : GroupLaws H, order GL = dl_order L) /\
    ser_total H /\
    (forall P Q : Element H, point P = point Q -> P = Q) /\
    (forall P : Element G, times (Z.to_nat (dl_order L)) P = p_identity <-> exists P' : Element H, point P' = P) /\
    (forall P Q : Element H, point (e_add P Q) = e_add (g := G) (point P) (point Q)) /\
    (forall P Q : Element H, point (e_sub P Q) = e_sub (g := G) (point P) (point Q)) /\
    (forall P : Element H, point (e_neg P) = e_neg (g := G) (point P)) /\
    (forall (P : Element H) (s : Scalar H), point (e_mul P s) = e_mul (g := G) (point P) s) /\
    point (@identity H) = @identity G /\
    point (@generator H) = @generator G /\
    (forall s : Scalar H, point (mul_generator s) = mul_generator (g := G) s) /\
    (forall s : Scalar H, point (vartime_mul_generator s) = vartime_mul_generator (g := G) s) /\
    (forall (k : Scalar H) P (r : Scalar H),
       point (vartime_double_mul_generator k P r) = vartime_double_mul_generator (g := G) k (point P) r) /\
    (forall (ss : list (Scalar H)) es,
       out_map point (multi_mul ss es) = multi_mul (g := G) ss (map point es)) /\
    (forall (ss : list (Scalar H)) es,
       out_map point (vartime_multi_mul ss es) = vartime_multi_mul (g := G) ss (map point es)) /\
    (forall P : Element H, serialize_element P = serialize_element (g := G) (point P)) /\
    (forall b, option_map point (@deserialize_element H b) = @deserialize_element G b).
Proof.
  intros D L G H. split; [exists (subgroup_laws D L); reflexivity|].
  split; [eexists; apply (d_copy D L)|].
  split; [intros P Q; apply sub_eq|].
  split.
  { intros P. split.
    - intros HP. exists (sub_of L P). apply (sub_of_ok D L). exact HP.
    - intros [P' <-]. apply (sub_in D L). }
  split; [intros; apply (sub_of_ok D L); apply (sub_add D L); apply (sub_in D L)|].
  split; [intros; apply (sub_of_ok D L); apply (sub_sub D L); apply (sub_in D L)|].
  split; [intros; apply (sub_of_ok D L); apply (sub_neg D L); apply (sub_in D L)|].
  split; [intros; apply (sub_of_ok D L); apply (sub_mul D L); apply (sub_in D L)|].
  split; [apply (sub_of_ok D L); apply (sub_identity D L)|].
  split; [apply (sub_of_ok D L); apply (sub_base D L)|].
  split.
  { intros s. apply (sub_of_ok D L). subst G. cbn [mul_generator Curve25519Subgroup dalek_group].
    rewrite (dl_table _ L). apply (sub_mul D L), (sub_base D L). }
  split.
  { intros s. apply (sub_of_ok D L). subst G. cbn [vartime_mul_generator Curve25519Subgroup dalek_group].
    rewrite (dl_double _ L). apply (sub_add D L); apply (sub_mul D L);
      [apply (sub_identity D L)|apply (sub_base D L)]. }
  split.
  { intros k P r. apply (sub_of_ok D L). subst G. cbn [vartime_double_mul_generator Curve25519Subgroup dalek_group].
    rewrite (dl_double _ L). apply (sub_add D L); apply (sub_mul D L);
      [apply (sub_in D L)|apply (sub_base D L)]. }
  split.
  { intros ss es. subst G H. cbn [multi_mul prime_subgroup Curve25519Subgroup dalek_group]. unfold point.
    destruct (Nat.eq_dec (List.length ss) (List.length es)) as [He|He].
    - etransitivity; [|symmetry; apply (dl_multi _ L); rewrite map_length; exact He].
      rewrite (dl_multi _ L) by (rewrite map_length; exact He). cbn [out_map]. f_equal.
      apply (sub_of_ok D L). apply (sub_lin D L), (sub_all D L).
    - etransitivity; [|symmetry; apply (dl_multi_mismatch _ L); rewrite map_length; exact He].
      rewrite (dl_multi_mismatch _ L) by (rewrite map_length; exact He). reflexivity. }
  split.
  { intros ss es. subst G H. cbn [vartime_multi_mul prime_subgroup Curve25519Subgroup dalek_group]. unfold point.
    destruct (Nat.eq_dec (List.length ss) (List.length es)) as [He|He].
    - etransitivity; [|symmetry; apply (dl_vartime_multi _ L); rewrite map_length; exact He].
      rewrite (dl_vartime_multi _ L) by (rewrite map_length; exact He). cbn [out_map]. f_equal.
      apply (sub_of_ok D L). apply (sub_lin D L), (sub_all D L).
    - etransitivity; [|symmetry; apply (dl_vartime_multi_mismatch _ L); rewrite map_length; exact He].
      rewrite (dl_vartime_multi_mismatch _ L) by (rewrite map_length; exact He). reflexivity. }
  split; [reflexivity|].
  intros b. subst G H. cbn [deserialize_element prime_subgroup].
  destruct (@deserialize_element (Curve25519Subgroup D) b) as [P|] eqn:HP; [|reflexivity]. cbn [option_map]. f_equal.
  apply (sub_of_ok D L). apply (decoder_exact D L) in HP. apply HP.
Qed.
Print Assumptions C60_curve25519.

(** [Generic]: the contract holds, except that the identity cannot be serialized *)
Theorem C60_generic :
  forall (C : Curve) (L : CurveLaws C),
    (exists GL : GroupLaws (Generic C), order GL = cl_order L) /\
    (forall P : Element (Generic C),
       (exists k, serialize_element P = Panic k) <-> P = identity) /\
    (forall s : Scalar (Generic C), (exists k, invert_scalar s = Panic k) <-> s = s_default).
Proof.
  intros C L. split; [exists (generic_laws C L); reflexivity|]. split.
  - exact (generic_serialize_panics C L).
  - intros s. split.
    + intros [k Hk]. destruct (c_eqb s c_default) eqn:He; [apply (cl_eqb _ L); exact He|].
      exfalso. assert (Hs : s <> c_default).
      { intros ->. rewrite (proj2 (cl_eqb _ L _ _) eq_refl) in He. discriminate. }
      pose proof (generic_invert_ok C L s Hs) as Hi. change (generic_invert_scalar C s = Panic k) in Hk.
      congruence.
    + intros ->. exists PUnwrap. apply (generic_invert_zero C L).
Qed.
Print Assumptions C60_generic.

Example C60_example :
  (exists L : DalekLaws (toy_dalek 1), prime_order L) /\
  (exists L : DalekLaws (toy_dalek 8), ~ prime_order L) /\
  (exists L : CurveLaws toy_curve, cl_order L = qx).
Proof.
  split; [eexists; exact toy_prime_order|]. split; [|exists toy_curve_laws; reflexivity].
  exists TL. intros H. pose proof (eq_trans (eq_sym (toy_times 8 (Z.to_nat qx) (tpoint 1))) (H (tpoint 1))) as H1.
  rewrite Z2Nat.id in H1 by (vm_compute; discriminate).
  apply (f_equal (zval (8 * qx))) in H1. vm_compute in H1. discriminate.
Qed.

(** ** C61: secret keys and challenges are close to uniform

    [l] lists the 64-byte strings for which the scalar falls into the set [S].  Of the [256 ^ 64]
    strings, these are a fraction of [|S| / order], up to an error of [|S| / 256 ^ 64]. *)
Theorem C61_scalars :
  forall (D : Dalek) (L : DalekLaws D) (deserialize : bytes -> option (DPoint D))
         (R : Type) fill squeeze sha estimate build,
  let E := dalek_env D deserialize R fill squeeze sha estimate build in
  forall S : list (Scalar E), NoDup S ->
  exists l : list bytes,
    NoDup l /\ (forall b, In b l -> List.length b = 64%nat) /\
    (Z.abs (dl_order L * Z.of_nat (List.length l) - Z.of_nat (List.length S) * 256 ^ 64)
       <= dl_order L * Z.of_nat (List.length S))%Z /\
    (forall r b r', fill 64%nat r = (b, r') -> List.length b = 64%nat ->
       exists sk, SecretKey_generate (E := E) r = (sk, r') /\ (In sk S <-> In b l)) /\
    (forall t label, List.length (squeeze t label 64%nat) = 64%nat ->
       In (fst (challenge_scalar (E := E) t label)) S <-> In (squeeze t label 64%nat) l).
Proof.
  intros D L deserialize R fill squeeze sha estimate build E S HS.
  destruct (wide_event D L S HS) as (l & Hnd & Hin & Hb).
  exists l. split; [exact Hnd|]. split; [intros b H; apply Hin in H; apply H|]. split; [exact Hb|].
  split.
  - intros r b r' Hr Hl. exists (d_from_bytes_mod_order_wide b). split.
    + unfold SecretKey_generate. cbn [generate_scalar E dalek_env]. unfold dalek_generate_scalar.
      rewrite Hr. reflexivity.
    + rewrite Hin. tauto.
  - intros t label Hl. rewrite Hin. cbn. unfold dalek_scalar_from_random_bytes. tauto.
Qed.
Print Assumptions C61_scalars.

(** in particular every scalar is possible, and none is more likely than [(1 + e) / order] *)
Theorem C61_no_scalar_preferred :
  forall (D : Dalek) (L : DalekLaws D) (s : DScalar D),
  exists l : list bytes,
    NoDup l /\
    (forall b, In b l <-> List.length b = 64%nat /\ d_from_bytes_mod_order_wide b = s) /\
    l <> [] /\
    (256 ^ 64 - dl_order L < dl_order L * Z.of_nat (List.length l) < 256 ^ 64 + dl_order L)%Z.
Proof.
  intros D L s. destruct (wide_fibre D L s) as (l & Hnd & Hin & Hb). exists l.
  split; [exact Hnd|]. split; [exact Hin|].
  pose proof (dl_q_pos D L). pose proof (dl_small _ L).
  assert (256 ^ 32 < 256 ^ 64)%Z by (apply Z.pow_lt_mono_r; lia).
  split; [|lia]. intros ->. cbn [List.length] in Hb. lia.
Qed.
Print Assumptions C61_no_scalar_preferred.

(** The bias is real: in the toy instance 0 is the image of one string more than [qx - 1] would be if
    all scalars were equally likely; two strings with the same image are exhibited. *)
Example C61_example :
  NoDup [rs 1; rs 2] /\
  d_from_bytes_mod_order_wide (d := toy_dalek 1) (le_bytes 64 5) = zq qx 5 /\
  d_from_bytes_mod_order_wide (d := toy_dalek 1) (le_bytes 64 (Z.to_N (5 + qx * 3))) = zq qx 5.
Proof.
  split; [|split].
  - constructor; [intros [H|[]]; revert H; apply rs_neq; vm_compute; reflexivity|].
    constructor; [intros []|constructor].
  - apply Zq_eq. vm_compute. reflexivity.
  - apply Zq_eq. vm_compute. reflexivity.
Qed.
