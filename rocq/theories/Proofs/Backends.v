(** * The adapters of src/group meet the contract of the [Group] trait (C59-C61) *)
From Coq Require Import List NArith ZArith Znumtheory Field Ring Bool Lia Eqdep_dec.
From Verif.Model Require Import Base Group Transcript Keys Encryption LogEquality Backends.
From Verif.Spec Require Import Backends.
From Verif.Instance Require Import Zq.
Import ListNotations.

(** ** Multiples in an abelian group *)
Section Multiples.
Context {A : Type} (add : A -> A -> A) (id : A) (neg : A -> A).
Context (comm : forall a b, add a b = add b a)
        (assoc : forall a b c, add a (add b c) = add (add a b) c)
        (add_id : forall a, add id a = a)
        (add_neg : forall a, add a (neg a) = id).
Local Notation nm := (nmul add id).

Lemma nm_id n : nm n id = id.
Proof. induction n as [|n IH]; cbn [nmul]; [reflexivity|]. rewrite IH. apply add_id. Qed.

Lemma nm_plus m n P : nm (m + n) P = add (nm m P) (nm n P).
Proof.
  induction m as [|m IH]; cbn [nmul Nat.add]; [symmetry; apply add_id|]. rewrite IH. apply assoc.
Qed.

Lemma nm_add n P Q : nm n (add P Q) = add (nm n P) (nm n Q).
Proof.
  induction n as [|n IH]; cbn [nmul]; [symmetry; apply add_id|]. rewrite IH.
  rewrite <- !assoc. f_equal. rewrite !assoc. f_equal. apply comm.
Qed.

Lemma nm_mult m n P : nm (m * n) P = nm m (nm n P).
Proof.
  induction m as [|m IH]; cbn [nmul Nat.mul]; [reflexivity|]. rewrite nm_plus, IH. reflexivity.
Qed.

Lemma nm_comm m n P : nm m (nm n P) = nm n (nm m P).
Proof. rewrite <- !nm_mult, Nat.mul_comm. reflexivity. Qed.

Lemma cancel_id P Q : add P Q = P -> Q = id.
Proof.
  intros H. rewrite <- (add_id Q), <- (add_neg P), (comm P (neg P)), <- assoc, H. reflexivity.
Qed.

Lemma neg_unique P Q : add P Q = id -> Q = neg P.
Proof.
  intros H. rewrite <- (add_id Q), <- (add_neg P), (comm P (neg P)), <- assoc, H, comm. apply add_id.
Qed.

Lemma nm_neg n P : nm n (neg P) = neg (nm n P).
Proof. apply neg_unique. rewrite <- nm_add, add_neg. apply nm_id. Qed.

Lemma nm_coprime m n P :
  rel_prime (Z.of_nat m) (Z.of_nat n) -> nm m P = id -> nm n P = id -> P = id.
Proof.
  intros Hr Hm Hn.
  assert (Hg : Nat.gcd m n = 1%nat).
  { destruct (Nat.gcd_divide m n) as [[a Ha] [b Hb]]. apply rel_prime_bezout in Hr.
    destruct Hr as [u v Huv]. generalize dependent (Nat.gcd m n). intros g Ha Hb.
    assert (H1 : (Z.of_nat g | 1)%Z).
    { exists (u * Z.of_nat a + v * Z.of_nat b)%Z. rewrite <- Huv, Ha, Hb, !Nat2Z.inj_mul. ring. }
    apply Z.divide_1_r_nonneg in H1; lia. }
  destruct m as [|m].
  - cbn in Hg. subst n. cbn [nmul] in Hn. rewrite comm, add_id in Hn. exact Hn.
  - destruct (Nat.gcd_bezout_pos (S m) n ltac:(lia)) as (u & v & Huv). rewrite Hg in Huv.
    assert (H : nm (u * S m) P = id) by (rewrite nm_mult, Hm; apply nm_id).
    rewrite Huv, nm_plus, nm_mult, Hn, nm_id in H. cbn [nmul] in H.
    rewrite comm, add_id, comm, add_id in H. exact H.
Qed.

(** multiples of a point of order dividing [q] by integers modulo [q] *)
Context (q : Z) (q_pos : (1 < q)%Z).
Local Notation zm z P := (nm (Z.to_nat (z mod q)) P).

Lemma nm_reduce n P : nm (Z.to_nat q) P = id -> nm n P = zm (Z.of_nat n) P.
Proof.
  intros Hq. rewrite (Nat.div_mod n (Z.to_nat q)) at 1 by lia.
  rewrite nm_plus, Nat.mul_comm, nm_mult, Hq, nm_id, add_id. f_equal.
  apply Nat2Z.inj. rewrite Nat2Z.inj_mod. rewrite !Z2Nat.id; [reflexivity|apply Z.mod_pos_bound; lia|lia].
Qed.

Lemma zm_plus a b P : nm (Z.to_nat q) P = id -> zm (a + b)%Z P = add (zm a P) (zm b P).
Proof.
  intros Hq. rewrite <- nm_plus. symmetry. rewrite (nm_reduce _ P Hq).
  rewrite Nat2Z.inj_add, !Z2Nat.id by (apply Z.mod_pos_bound; lia).
  rewrite <- Z.add_mod by lia. reflexivity.
Qed.

Lemma zm_mult a b P : nm (Z.to_nat q) P = id -> zm (a * b)%Z P = zm b (zm a P).
Proof.
  intros Hq. rewrite <- nm_mult. symmetry. rewrite (nm_reduce _ P Hq).
  rewrite Nat2Z.inj_mul, !Z2Nat.id by (apply Z.mod_pos_bound; lia).
  rewrite <- Z.mul_mod by lia. rewrite Z.mul_comm. reflexivity.
Qed.

Lemma zm_1 P : zm 1%Z P = P.
Proof. rewrite Z.mod_small by lia. change (Z.to_nat 1) with 1%nat. cbn [nmul]. rewrite comm. apply add_id. Qed.

Lemma zm_zero z P : prime q -> nm (Z.to_nat q) P = id -> P <> id -> zm z P = id -> (z mod q = 0)%Z.
Proof.
  intros Hp Hq HP Hz. destruct (Z.eq_dec (z mod q) 0) as [|Hne]; [assumption|exfalso].
  apply HP. refine (nm_coprime _ _ P _ Hz Hq).
  pose proof (Z.mod_pos_bound z q ltac:(lia)) as Hb. rewrite !Z2Nat.id by lia.
  apply rel_prime_sym, prime_rel_prime; [exact Hp|]. intros Hd. apply Z.divide_pos_le in Hd; lia.
Qed.

End Multiples.

(** ** curve25519-dalek *)
Section Dalek.
Context (D : Dalek) (L : DalekLaws D).
Local Notation q := (dl_order L).
Local Notation phi := (dl_phi L).
Local Notation tm n P := (nmul p_add (@p_identity D) n P).
Add Field d_field : (dl_field D L).

Lemma dl_q_pos : (1 < q)%Z. Proof. destruct (dl_prime _ L). assumption. Qed.

Lemma phi_0 : phi 0 = d_zero.
Proof.
  assert (H : phi 0 = d_add (phi 0) (phi 0)) by (rewrite <- (dl_phi_add _ L); reflexivity).
  transitivity (d_sub (d_add (phi 0) (phi 0)) (phi 0)); [ring|]. rewrite <- H. ring.
Qed.

Lemma phi_1 : phi 1 = d_from_u64 1.
Proof. symmetry. apply (dl_u64 _ L 1%N). vm_compute. reflexivity. Qed.

Lemma phi_mod z : phi (z mod q) = phi z.
Proof. apply (dl_phi_eq _ L). apply Z.mod_mod. pose proof dl_q_pos; lia. Qed.

Lemma mul_zero_pt (P : DPoint D) : p_mul P d_zero = p_identity.
Proof. rewrite <- phi_0, (dl_mul _ L). rewrite Z.mod_0_l by (pose proof dl_q_pos; lia). reflexivity. Qed.

Lemma d_scalar_len (s : DScalar D) : List.length (d_to_bytes s) = 32%nat.
Proof. destruct (dl_phi_surj _ L s) as [z ->]. rewrite (dl_to_bytes _ L). apply le_bytes_length. Qed.

Lemma d_small z : (Z.to_N (z mod q) < 256 ^ N.of_nat 32)%N.
Proof.
  pose proof dl_q_pos. pose proof (Z.mod_pos_bound z q ltac:(lia)). pose proof (dl_small _ L).
  apply N2Z.inj_lt. rewrite Z2N.id by lia. rewrite N2Z.inj_pow, nat_N_Z.
  change (Z.of_N 256) with 256%Z. change (Z.of_nat 32) with 32%Z. lia.
Qed.

Lemma d_deser_ser (s : DScalar D) : dalek_deserialize_scalar D (d_to_bytes s) = Some s.
Proof.
  unfold dalek_deserialize_scalar. rewrite d_scalar_len. cbn [Nat.eqb].
  rewrite (dl_canonical _ L) by apply d_scalar_len.
  destruct (dl_phi_surj _ L s) as [z ->]. rewrite (dl_to_bytes _ L).
  rewrite le_val_bytes by apply d_small.
  pose proof dl_q_pos. pose proof (Z.mod_pos_bound z q ltac:(lia)). rewrite Z2N.id by lia.
  rewrite (proj2 (Z.ltb_lt _ _)) by lia. rewrite phi_mod. reflexivity.
Qed.

Lemma d_ser_deser b (s : DScalar D) :
  dalek_deserialize_scalar D b = Some s -> d_to_bytes s = b.
Proof.
  unfold dalek_deserialize_scalar. destruct (Nat.eqb_spec (List.length b) 32) as [Hb|]; [|discriminate].
  rewrite (dl_canonical _ L) by exact Hb.
  destruct (Z.ltb_spec (Z.of_N (le_val b)) q) as [Hlt|]; [|discriminate].
  intros H. injection H as <-. rewrite (dl_to_bytes _ L). rewrite Z.mod_small by lia.
  rewrite N2Z.id. rewrite <- Hb. apply le_bytes_val.
Qed.

Lemma d_copy (P : DPoint D) : copy_from_slice 32 (p_compress P) = Ret (p_compress P).
Proof. unfold copy_from_slice. rewrite (dl_compress_len _ L). reflexivity. Qed.

(** multiples *)
Lemma d_plus m n (P : DPoint D) : tm (m + n) P = p_add (tm m P) (tm n P).
Proof. apply nm_plus; apply L. Qed.
Lemma d_nm_add n (P Q : DPoint D) : tm n (p_add P Q) = p_add (tm n P) (tm n Q).
Proof. apply nm_add; apply L. Qed.

Lemma sub_identity : in_subgroup L p_identity.
Proof. apply nm_id. apply L. Qed.
Lemma sub_add P Q : in_subgroup L P -> in_subgroup L Q -> in_subgroup L (p_add P Q).
Proof. unfold in_subgroup, times. intros HP HQ. rewrite d_nm_add, HP, HQ. apply (dl_add_id _ L). Qed.
Lemma sub_neg P : in_subgroup L P -> in_subgroup L (p_neg P).
Proof.
  unfold in_subgroup, times. intros HP.
  rewrite (nm_neg p_add p_identity p_neg (dl_add_comm _ L) (dl_add_assoc _ L) (dl_add_id _ L)
             (dl_add_neg _ L)).
  rewrite HP. rewrite <- (dl_add_id _ L (p_neg p_identity)). apply (dl_add_neg _ L).
Qed.
Lemma sub_sub P Q : in_subgroup L P -> in_subgroup L Q -> in_subgroup L (p_sub P Q).
Proof. intros. rewrite (dl_sub _ L). apply sub_add; [assumption|]. apply sub_neg. assumption. Qed.
Lemma sub_mul P s : in_subgroup L P -> in_subgroup L (p_mul P s).
Proof.
  destruct (dl_phi_surj _ L s) as [z ->]. unfold in_subgroup, times. intros HP.
  rewrite (dl_mul _ L). unfold times. rewrite nm_comm by apply L. rewrite HP. apply nm_id. apply L.
Qed.
Lemma sub_base : in_subgroup L p_basepoint.
Proof. apply (dl_base_order _ L). Qed.
Lemma sub_lin ss es : Forall (in_subgroup L) es -> in_subgroup L (p_lin_comb ss es).
Proof.
  revert es; induction ss as [|s ss IH]; intros [|e es] H; cbn; try apply sub_identity.
  inversion H; subst. apply sub_add; [apply sub_mul; assumption|apply IH; assumption].
Qed.

(** scalar multiplication on the subgroup *)
Lemma d_mul_1 (P : DPoint D) : p_mul P (d_from_u64 1) = P.
Proof.
  rewrite <- phi_1, (dl_mul _ L). unfold times. apply zm_1; first [exact dl_q_pos | apply L].
Qed.

Lemma d_mul_add P s t : in_subgroup L P ->
  p_mul P (d_add s t) = p_add (p_mul P s) (p_mul P t).
Proof.
  intros HP. destruct (dl_phi_surj _ L s) as [a ->], (dl_phi_surj _ L t) as [b ->].
  rewrite <- (dl_phi_add _ L), !(dl_mul _ L). unfold times.
  apply zm_plus; first [exact dl_q_pos | exact HP | apply L].
Qed.

Lemma d_mul_mul P s t : in_subgroup L P -> p_mul P (d_mul s t) = p_mul (p_mul P s) t.
Proof.
  intros HP. destruct (dl_phi_surj _ L s) as [a ->], (dl_phi_surj _ L t) as [b ->].
  rewrite <- (dl_phi_mul _ L), !(dl_mul _ L). unfold times.
  apply zm_mult; first [exact dl_q_pos | exact HP | apply L].
Qed.

Lemma d_mul_p_add (P Q : DPoint D) s : p_mul (p_add P Q) s = p_add (p_mul P s) (p_mul Q s).
Proof.
  destruct (dl_phi_surj _ L s) as [a ->]. rewrite !(dl_mul _ L). apply d_nm_add.
Qed.

Lemma d_base_free s : p_mul (@p_basepoint D) s = p_identity -> s = d_zero.
Proof.
  destruct (dl_phi_surj _ L s) as [z ->]. rewrite (dl_mul _ L). intros H.
  rewrite <- phi_0. apply (dl_phi_eq _ L). rewrite Z.mod_0_l by (pose proof dl_q_pos; lia).
  unfold times in H. refine (zm_zero p_add p_identity _ _ _ q dl_q_pos z p_basepoint _ _ _ H);
    first [exact (dl_prime _ L) | exact (dl_base_order _ L) | exact (dl_base_nontrivial _ L)
          | exact (dl_add_comm _ L) | exact (dl_add_assoc _ L) | exact (dl_add_id _ L)].
Qed.

(** the decoders *)
Lemma d_decode_ristretto (P : DPoint D) :
  ristretto_deserialize_element D (p_compress P) = Some P.
Proof.
  unfold ristretto_deserialize_element, compressed_from_slice.
  rewrite (dl_compress_len _ L). cbn [Nat.eqb]. apply (dl_decompress _ L).
Qed.

Lemma d_decode_curve P : in_subgroup L P -> curve25519_deserialize_element D (p_compress P) = Some P.
Proof.
  intros HP. unfold curve25519_deserialize_element, compressed_from_slice.
  rewrite (dl_compress_len _ L). cbn [Nat.eqb]. rewrite (dl_decompress _ L).
  rewrite (proj2 (dl_torsion_free _ L P) HP). reflexivity.
Qed.

Lemma decoder_exact b P :
  deserialize_element (g := Curve25519Subgroup D) b = Some P <->
  List.length b = 32%nat /\ p_decompress b = Some P /\ times (Z.to_nat q) P = p_identity.
Proof.
  cbn [deserialize_element Curve25519Subgroup dalek_group].
  unfold curve25519_deserialize_element, compressed_from_slice.
  destruct (Nat.eqb_spec (List.length b) 32) as [Hb|Hb].
  - destruct (p_decompress b) as [Q|]; [|split; [discriminate|intros (_ & ? & _); discriminate]].
    destruct (p_is_torsion_free Q) eqn:HQ.
    + apply (dl_torsion_free _ L) in HQ. split.
      * intros H. injection H as <-. auto.
      * intros (_ & H & _). exact H.
    + split; [discriminate|]. intros (_ & H & Ht). injection H as ->.
      apply (dl_torsion_free _ L) in Ht. congruence.
  - split; [discriminate|]. intros (H & _). contradiction.
Qed.

Lemma mangled_none P T (h : nat) :
  in_subgroup L P -> T <> p_identity -> times h T = p_identity -> rel_prime (Z.of_nat h) q ->
  deserialize_element (g := Curve25519Subgroup D) (p_compress (p_add P T)) = None.
Proof.
  intros HP HT Hh Hr. destruct (deserialize_element _) as [Q|] eqn:H; [exfalso|reflexivity].
  apply decoder_exact in H as (_ & Hd & Ht). rewrite (dl_decompress _ L) in Hd. injection Hd as <-.
  unfold in_subgroup, times in *. rewrite d_nm_add, HP, (dl_add_id _ L) in Ht.
  apply HT. refine (nm_coprime p_add p_identity _ _ _ h (Z.to_nat q) T _ Hh Ht); try apply L.
  rewrite Z2Nat.id; [exact Hr|]. pose proof dl_q_pos; lia.
Qed.

(** ** Ristretto *)
Definition ristretto_group_laws (HO : prime_order L) : GroupLaws (Ristretto D).
Proof.
  refine {| order := q; order_prime := dl_prime _ L;
            s_inv := d_invert : Scalar (Ristretto D) -> Scalar (Ristretto D);
            s_field := dl_field _ L;
            Group.phi := dl_phi L : Z -> Scalar (Ristretto D);
            dlog := dl_log _ L : Element (Ristretto D) -> Scalar (Ristretto D) |};
    cbn [Ristretto dalek_group Scalar Element s_default s_of_u64 s_neg s_add s_sub s_mul s_eqb SCALAR_SIZE
         invert_scalar invert_scalars serialize_scalar deserialize_scalar e_add e_sub e_neg e_mul e_eqb
         ELEMENT_SIZE identity is_identity generator serialize_element deserialize_element
         mul_generator vartime_mul_generator multi_mul vartime_double_mul_generator vartime_multi_mul].
  - apply (dl_phi_add _ L).
  - apply (dl_phi_mul _ L).
  - apply (dl_phi_eq _ L).
  - apply (dl_phi_surj _ L).
  - apply (dl_u64 _ L).
  - apply (dl_eqb _ L).
  - apply (dl_add_comm _ L).
  - apply (dl_add_assoc _ L).
  - apply (dl_add_id _ L).
  - apply (dl_add_neg _ L).
  - apply (dl_sub _ L).
  - apply d_mul_1.
  - intros. apply d_mul_add. apply HO.
  - intros. apply d_mul_mul. apply HO.
  - apply d_mul_p_add.
  - apply (dl_peqb _ L).
  - apply (dl_is_identity _ L).
  - intros a. apply (dl_log_ok _ L). apply HO.
  - apply d_base_free.
  - apply (dl_table _ L).
  - intros s. rewrite (dl_double _ L), mul_zero_pt. apply (dl_add_id _ L).
  - intros ss es H. rewrite (dl_multi _ L) by exact H. f_equal. clear.
    revert es; induction ss as [|s ss IH]; intros [|e es]; cbn; try reflexivity. rewrite IH. reflexivity.
  - intros. apply (dl_double _ L).
  - intros ss es H. rewrite (dl_vartime_multi _ L) by exact H. f_equal. clear.
    revert es; induction ss as [|s ss IH]; intros [|e es]; cbn; try reflexivity. rewrite IH. reflexivity.
  - reflexivity.
  - apply (dl_batch _ L).
  - lia.
  - lia.
  - apply d_scalar_len.
  - apply d_deser_ser.
  - intros b s _. apply d_ser_deser.
  - intros e _. rewrite d_copy. eexists. reflexivity.
  - intros e b. rewrite d_copy. intros H. injection H as <-.
    split; [apply (dl_compress_len _ L) | apply d_decode_ristretto].
Defined.

(** ** Curve25519Subgroup *)
Lemma sub_eq (P Q : SubPoint D) : proj1_sig P = proj1_sig Q -> P = Q.
Proof.
  destruct P as [P HP], Q as [Q HQ]; cbn. intros <-. f_equal. apply UIP_dec. apply bool_dec.
Qed.

Lemma sub_in (P : SubPoint D) : in_subgroup L (proj1_sig P).
Proof. apply (dl_torsion_free _ L). exact (proj2_sig P). Qed.

Lemma sub_of_ok P : in_subgroup L P -> proj1_sig (sub_of L P) = P.
Proof.
  intros HP. unfold sub_of. destruct (bool_dec _ _) as [H|H]; [reflexivity|].
  exfalso. apply H. apply (dl_torsion_free _ L). exact HP.
Qed.

Lemma sub_of_sig (P : SubPoint D) : sub_of L (proj1_sig P) = P.
Proof. apply sub_eq. apply sub_of_ok. apply sub_in. Qed.

Lemma sub_all (es : list (SubPoint D)) : Forall (in_subgroup L) (map (@proj1_sig _ _) es).
Proof. induction es; cbn; constructor; [apply sub_in|assumption]. Qed.

Lemma sub_lin_comb ss es :
  proj1_sig (lin_comb (G := prime_subgroup L) ss es) = p_lin_comb ss (map (@proj1_sig _ _) es).
Proof.
  revert es; induction ss as [|s ss IH]; intros [|e es]; cbn [lin_comb p_lin_comb map];
    try (apply sub_of_ok; apply sub_identity).
  cbn [e_add prime_subgroup e_mul]. cbn [e_add e_mul Curve25519Subgroup dalek_group].
  rewrite sub_of_ok.
  - rewrite IH. rewrite sub_of_ok by (apply sub_mul, sub_in). reflexivity.
  - rewrite IH. rewrite sub_of_ok by (apply sub_mul, sub_in).
    apply sub_add; [apply sub_mul, sub_in | apply sub_lin, sub_all].
Qed.

Ltac subs :=
  repeat match goal with
  | |- context [proj1_sig (sub_of L ?x)] =>
      rewrite (sub_of_ok x) by
        (repeat first [apply sub_identity | apply sub_base | apply sub_add | apply sub_neg
                      | apply sub_sub | apply sub_mul | apply sub_in])
  end.

Definition subgroup_laws : GroupLaws (prime_subgroup L).
Proof.
  refine {| order := q; order_prime := dl_prime _ L;
            s_inv := d_invert : Scalar (prime_subgroup L) -> Scalar (prime_subgroup L);
            s_field := dl_field _ L;
            Group.phi := dl_phi L : Z -> Scalar (prime_subgroup L);
            dlog := (fun P => dl_log _ L (proj1_sig P))
                      : Element (prime_subgroup L) -> Scalar (prime_subgroup L) |};
    cbn [prime_subgroup Scalar Element s_default s_of_u64 s_neg s_add s_sub s_mul s_eqb SCALAR_SIZE
         invert_scalar invert_scalars serialize_scalar deserialize_scalar e_add e_sub e_neg e_mul e_eqb
         ELEMENT_SIZE identity is_identity generator serialize_element deserialize_element
         mul_generator vartime_mul_generator multi_mul vartime_double_mul_generator vartime_multi_mul
         Curve25519Subgroup dalek_group].
  - apply (dl_phi_add _ L).
  - apply (dl_phi_mul _ L).
  - apply (dl_phi_eq _ L).
  - apply (dl_phi_surj _ L).
  - apply (dl_u64 _ L).
  - apply (dl_eqb _ L).
  - intros a b. rewrite (dl_add_comm _ L). reflexivity.
  - intros a b c. apply sub_eq. subs. apply (dl_add_assoc _ L).
  - intros a. apply sub_eq. subs. apply (dl_add_id _ L).
  - intros a. apply sub_eq. subs. apply (dl_add_neg _ L).
  - intros a b. apply sub_eq. subs. apply (dl_sub _ L).
  - intros a. apply sub_eq. subs. apply d_mul_1.
  - intros a s t. apply sub_eq. subs. apply d_mul_add. apply sub_in.
  - intros a s t. apply sub_eq. subs. apply d_mul_mul. apply sub_in.
  - intros a b s. apply sub_eq. subs. apply d_mul_p_add.
  - intros a b. rewrite (dl_peqb _ L). split; [apply sub_eq|congruence].
  - intros a. rewrite (dl_is_identity _ L). split.
    + intros H. apply sub_eq. subs. exact H.
    + intros ->. subs. reflexivity.
  - intros a. apply sub_eq. subs. apply (dl_log_ok _ L). apply sub_in.
  - intros s H. apply d_base_free. apply (f_equal (@proj1_sig _ _)) in H. revert H. subs. auto.
  - intros s. rewrite (dl_table _ L). apply sub_eq. subs. reflexivity.
  - intros s. rewrite (dl_double _ L), mul_zero_pt, (dl_add_id _ L). apply sub_eq. subs. reflexivity.
  - intros ss es H. rewrite (dl_multi _ L) by (rewrite map_length; exact H). cbn [out_map]. f_equal.
    rewrite <- sub_lin_comb. apply sub_of_sig.
  - intros k K r. rewrite (dl_double _ L). apply sub_eq. subs. reflexivity.
  - intros ss es H. rewrite (dl_vartime_multi _ L) by (rewrite map_length; exact H). cbn [out_map].
    f_equal. rewrite <- sub_lin_comb. apply sub_of_sig.
  - reflexivity.
  - apply (dl_batch _ L).
  - lia.
  - lia.
  - apply d_scalar_len.
  - apply d_deser_ser.
  - intros b s _. apply d_ser_deser.
  - intros e _. rewrite d_copy. eexists. reflexivity.
  - intros e b. rewrite d_copy. intros H. injection H as <-.
    split; [apply (dl_compress_len _ L)|]. rewrite d_decode_curve by apply sub_in.
    cbn [option_map]. f_equal. apply sub_of_sig.
Defined.

End Dalek.

(** ** Generic *)
Section Generic.
Context (C : Curve) (L : CurveLaws C).
Local Notation q := (cl_order L).
Add Field c_field : (cl_field C L).

Lemma cl_q_pos : (1 < q)%Z. Proof. destruct (cl_prime _ L). assumption. Qed.

Local Ltac claw :=
  first [ exact cl_q_pos | exact (cl_add_comm _ L) | exact (cl_add_assoc _ L) | exact (cl_add_id _ L)
        | exact (cl_points_order _ L _) ].

Lemma c_phi_0 : cl_phi L 0 = c_default.
Proof.
  assert (H : cl_phi L 0 = c_add (cl_phi L 0) (cl_phi L 0)) by (rewrite <- (cl_phi_add _ L); reflexivity).
  transitivity (c_sub (c_add (cl_phi L 0) (cl_phi L 0)) (cl_phi L 0)); [ring|]. rewrite <- H. ring.
Qed.

Lemma c_phi_1 : cl_phi L 1 = c_from_u64 1.
Proof. symmetry. apply (cl_u64 _ L 1%N). vm_compute. reflexivity. Qed.

Lemma generic_invert_ok (s : CScalar C) :
  s <> c_default -> generic_invert_scalar C s = Ret (cl_inv _ L s).
Proof.
  intros Hs. unfold generic_invert_scalar. destruct (c_invert s) as [i|] eqn:Hi.
  - f_equal. apply (cl_invert_ok _ L) in Hi.
    transitivity (c_mul (c_mul i s) (cl_inv _ L s)); [field; exact Hs|]. rewrite Hi. field. exact Hs.
  - apply (cl_invert _ L) in Hi. contradiction.
Qed.

Lemma generic_invert_zero : generic_invert_scalar C c_default = Panic PUnwrap.
Proof.
  unfold generic_invert_scalar. rewrite (proj2 (cl_invert _ L c_default) eq_refl). reflexivity.
Qed.

Lemma generic_batch_ok (l : list (CScalar C)) :
  (forall s, In s l -> s <> c_default) ->
  default_invert_scalars (generic_invert_scalar C) l = Ret (map (cl_inv _ L) l).
Proof.
  induction l as [|s l IH]; intros H; [reflexivity|]. cbn [default_invert_scalars map].
  rewrite generic_invert_ok by (apply H; left; reflexivity). cbn [bind].
  rewrite IH; [reflexivity|]. intros; apply H; right; assumption.
Qed.

Lemma c_mul_1 (P : CPoint C) : cp_mul P (c_from_u64 1) = P.
Proof.
  rewrite <- c_phi_1, (cl_mul _ L). apply zm_1; claw.
Qed.
Lemma c_mul_add (P : CPoint C) s t : cp_mul P (c_add s t) = cp_add (cp_mul P s) (cp_mul P t).
Proof.
  destruct (cl_phi_surj _ L s) as [a ->], (cl_phi_surj _ L t) as [b ->].
  rewrite <- (cl_phi_add _ L), !(cl_mul _ L).
  apply zm_plus; claw.
Qed.
Lemma c_mul_mul (P : CPoint C) s t : cp_mul P (c_mul s t) = cp_mul (cp_mul P s) t.
Proof.
  destruct (cl_phi_surj _ L s) as [a ->], (cl_phi_surj _ L t) as [b ->].
  rewrite <- (cl_phi_mul _ L), !(cl_mul _ L).
  apply zm_mult; claw.
Qed.
Lemma c_mul_p_add (P Q : CPoint C) s : cp_mul (cp_add P Q) s = cp_add (cp_mul P s) (cp_mul Q s).
Proof.
  destruct (cl_phi_surj _ L s) as [a ->]. rewrite !(cl_mul _ L). apply nm_add; claw.
Qed.
Lemma c_base_free s : cp_mul (@cp_generator C) s = cp_identity -> s = c_default.
Proof.
  destruct (cl_phi_surj _ L s) as [z ->]. rewrite (cl_mul _ L). intros H.
  rewrite <- c_phi_0. apply (cl_phi_eq _ L). rewrite Z.mod_0_l by (pose proof cl_q_pos; lia).
  refine (zm_zero cp_add cp_identity _ _ _ q cl_q_pos z cp_generator _ _ _ H);
    first [exact (cl_prime _ L) | exact (cl_points_order _ L _) | exact (cl_generator_nontrivial _ L)
          | exact (cl_add_comm _ L) | exact (cl_add_assoc _ L) | exact (cl_add_id _ L)].
Qed.

Lemma c_multi ss es :
  default_multi_mul (@cp_identity C) cp_add cp_mul ss es = Ret (lin_comb (G := Generic C) ss es).
Proof.
  unfold default_multi_mul. f_equal.
  assert (H : forall ss es acc,
    fold_left (fun out (p : CScalar C * CPoint C) => let '(s, e) := p in cp_add out (cp_mul e s))
      (combine ss es) acc = cp_add acc (lin_comb (G := Generic C) ss es)).
  { clear ss es. intros ss. induction ss as [|s ss IH]; intros [|e es] acc;
      cbn [combine fold_left lin_comb];
      try (change (@identity (Generic C)) with (@cp_identity C);
           rewrite (cl_add_comm _ L), (cl_add_id _ L); reflexivity).
    rewrite IH. cbn [e_add e_mul Generic with_defaults]. symmetry. apply (cl_add_assoc _ L). }
  rewrite H. apply (cl_add_id _ L).
Qed.

Lemma generic_serialize P : P <> cp_identity ->
  generic_serialize_element C P = Ret (sec1_as_bytes (cp_to_sec1_point P true)).
Proof.
  intros HP. unfold generic_serialize_element, copy_from_slice.
  rewrite (cl_sec1_len _ L P HP), Nat.eqb_refl. reflexivity.
Qed.

Lemma generic_serialize_identity : generic_serialize_element C cp_identity = Panic PBackend.
Proof.
  unfold generic_serialize_element, copy_from_slice. rewrite (cl_sec1_identity _ L).
  pose proof (cl_size _ L). destruct (c_field_size C) as [|n]; [lia|]. cbn.
  rewrite Nat.add_comm. reflexivity.
Qed.

Lemma c_id_dec (P : CPoint C) : {P = cp_identity} + {P <> cp_identity}.
Proof.
  destruct (cp_is_identity P) eqn:H; [left; apply (cl_is_identity _ L); exact H|right].
  intros ->. rewrite (proj2 (cl_is_identity _ L _) eq_refl) in H. discriminate.
Qed.

Definition generic_laws : GroupLaws (Generic C).
Proof.
  refine {| order := q; order_prime := cl_prime _ L;
            s_inv := cl_inv _ L : Scalar (Generic C) -> Scalar (Generic C);
            s_field := cl_field _ L;
            Group.phi := cl_phi L : Z -> Scalar (Generic C);
            dlog := cl_log _ L : Element (Generic C) -> Scalar (Generic C) |};
    cbn [Generic with_defaults Scalar Element s_default s_of_u64 s_neg s_add s_sub s_mul s_eqb SCALAR_SIZE
         invert_scalar invert_scalars serialize_scalar deserialize_scalar e_add e_sub e_neg e_mul e_eqb
         ELEMENT_SIZE identity is_identity generator serialize_element deserialize_element
         mul_generator vartime_mul_generator multi_mul vartime_double_mul_generator vartime_multi_mul].
  - apply (cl_phi_add _ L).
  - apply (cl_phi_mul _ L).
  - apply (cl_phi_eq _ L).
  - apply (cl_phi_surj _ L).
  - apply (cl_u64 _ L).
  - apply (cl_eqb _ L).
  - apply (cl_add_comm _ L).
  - apply (cl_add_assoc _ L).
  - apply (cl_add_id _ L).
  - apply (cl_add_neg _ L).
  - apply (cl_sub _ L).
  - apply c_mul_1.
  - apply c_mul_add.
  - apply c_mul_mul.
  - apply c_mul_p_add.
  - apply (cl_peqb _ L).
  - apply (cl_is_identity _ L).
  - apply (cl_log_ok _ L).
  - apply c_base_free.
  - reflexivity.
  - reflexivity.
  - intros ss es _. apply c_multi.
  - reflexivity.
  - intros ss es _. apply c_multi.
  - apply generic_invert_ok.
  - apply generic_batch_ok.
  - apply (cl_size _ L).
  - lia.
  - apply (cl_repr_len _ L).
  - intros s. unfold generic_deserialize_scalar. rewrite (cl_repr_len _ L), Nat.eqb_refl.
    apply (cl_from_to_repr _ L).
  - intros b s Hb. unfold generic_deserialize_scalar. rewrite Hb, Nat.eqb_refl.
    apply (cl_to_from_repr _ L).
  - intros e He. eexists. apply generic_serialize. exact He.
  - intros e b. destruct (c_id_dec e) as [->|He].
    + rewrite generic_serialize_identity. discriminate.
    + rewrite generic_serialize by exact He. intros H. injection H as <-. split.
      * apply (cl_sec1_len _ L e He).
      * unfold generic_deserialize_element. rewrite (cl_sec1_bytes _ L). apply (cl_sec1_point _ L).
Defined.

Lemma generic_serialize_panics (P : CPoint C) :
  (exists k, serialize_element (g := Generic C) P = Panic k) <-> P = cp_identity.
Proof.
  cbn [serialize_element Generic with_defaults]. split.
  - intros [k H]. destruct (c_id_dec P) as [|He]; [assumption|].
    rewrite generic_serialize in H by exact He. discriminate.
  - intros ->. exists PBackend. apply generic_serialize_identity.
Qed.

End Generic.

(** ** Reduction of 64 random bytes *)
Section Wide.
Context (D : Dalek) (L : DalekLaws D).
Local Notation q := (dl_order L).
Local Notation wide_lim := (256 ^ 64)%Z.

Lemma le_val_lim b : (le_val b < 256 ^ N.of_nat (List.length b))%N.
Proof.
  induction b as [|x b IH]; [vm_compute; reflexivity|].
  cbn [le_val List.length]. rewrite Nat2N.inj_succ, N.pow_succ_r'.
  pose proof (Strings.Byte.to_N_bounded x). lia.
Qed.

Lemma le_val_inj b b' : List.length b = List.length b' -> le_val b = le_val b' -> b = b'.
Proof. intros Hl Hv. rewrite <- (le_bytes_val b), <- (le_bytes_val b'), Hl, Hv. reflexivity. Qed.

(** the strings reduced to a given scalar *)
Lemma wide_fibre (s : DScalar D) :
  exists l : list bytes,
    NoDup l /\
    (forall b, In b l <-> List.length b = 64%nat /\ d_from_bytes_mod_order_wide b = s) /\
    (Z.abs (q * Z.of_nat (List.length l) - wide_lim) < q)%Z.
Proof.
  destruct (dl_phi_surj _ L s) as [z ->]. pose proof (dl_q_pos D L) as Hq.
  pose proof (Z.mod_pos_bound z q ltac:(lia)) as Hz. set (z0 := (z mod q)%Z) in *.
  pose proof (dl_small _ L) as Hs.
  assert (Hlim : (q < wide_lim)%Z).
  { eapply Z.le_lt_trans; [exact Hs|]. apply Z.pow_lt_mono_r; lia. }
  set (n := ((wide_lim - 1 - z0) / q + 1)%Z).
  assert (Hn : (q * n >= wide_lim - z0 /\ q * (n - 1) < wide_lim - z0)%Z).
  { unfold n. pose proof (Z.div_mod (wide_lim - 1 - z0) q ltac:(lia)) as Hd.
    pose proof (Z.mod_pos_bound (wide_lim - 1 - z0) q ltac:(lia)). lia. }
  assert (Hn0 : (0 <= n)%Z) by nia.
  set (f := fun i : nat => le_bytes 64 (Z.to_N (z0 + Z.of_nat i * q))).
  assert (Hf : forall i, (Z.of_nat i < n)%Z -> le_val (f i) = Z.to_N (z0 + Z.of_nat i * q)).
  { intros i Hi. apply le_val_bytes. apply N2Z.inj_lt. rewrite Z2N.id by nia.
    rewrite N2Z.inj_pow. change (Z.of_N 256) with 256%Z. change (Z.of_N (N.of_nat 64)) with 64%Z. nia. }
  exists (map f (seq 0 (Z.to_nat n))). split; [|split].
  - assert (Hnd : forall m, (Z.of_nat m <= n)%Z -> NoDup (map f (seq 0 m))).
    { induction m as [|m IH]; intros Hm; [constructor|].
      rewrite seq_S, map_app. cbn [map Nat.add]. apply NoDup_Add with (a := f m) (l := map f (seq 0 m)).
      - rewrite <- (app_nil_r (map f (seq 0 m))) at 1. apply Add_app.
      - split; [apply IH; lia|]. intros Hin. apply in_map_iff in Hin as (i & He & Hi).
        apply in_seq in Hi. apply (f_equal le_val) in He. rewrite !Hf in He by lia.
        apply (f_equal Z.of_N) in He. rewrite !Z2N.id in He by nia. nia. }
    apply Hnd. lia.
  - intros b. rewrite in_map_iff. split.
    + intros (i & <- & Hi). apply in_seq in Hi.
      assert (Hl : List.length (f i) = 64%nat) by apply le_bytes_length. split; [exact Hl|].
      rewrite (dl_wide _ L) by exact Hl. rewrite Hf by lia. rewrite Z2N.id by nia.
      apply (dl_phi_eq _ L). rewrite Z.mod_add by lia. unfold z0. apply Z.mod_mod. lia.
    + intros [Hl Hw]. rewrite (dl_wide _ L) in Hw by exact Hl. apply (dl_phi_eq _ L) in Hw.
      fold z0 in Hw. set (v := Z.of_N (le_val b)) in *.
      assert (Hv : (0 <= v < wide_lim)%Z).
      { unfold v. pose proof (le_val_lim b) as Hb. rewrite Hl in Hb. split; [lia|].
        apply N2Z.inj_lt in Hb. rewrite N2Z.inj_pow in Hb. exact Hb. }
      pose proof (Z.div_mod v q ltac:(lia)) as Hd. rewrite Hw in Hd.
      assert (Hi0 : (0 <= v / q)%Z) by (apply Z.div_pos; lia).
      exists (Z.to_nat (v / q)).
      assert (Hlt : (v / q < n)%Z) by nia.
      split.
      * apply le_val_inj; [rewrite Hl; apply le_bytes_length|].
        rewrite Hf by lia. rewrite Z2Nat.id by lia. replace (z0 + v / q * q)%Z with v by lia.
        unfold v. apply N2Z.id.
      * apply in_seq. lia.
  - rewrite map_length, seq_length, Z2Nat.id by exact Hn0. lia.
Qed.

(** ... and to a scalar in a given set *)
Lemma wide_event (S : list (DScalar D)) : NoDup S ->
  exists l : list bytes,
    NoDup l /\
    (forall b, In b l <-> List.length b = 64%nat /\ In (d_from_bytes_mod_order_wide b) S) /\
    (Z.abs (q * Z.of_nat (List.length l) - Z.of_nat (List.length S) * wide_lim)
       <= q * Z.of_nat (List.length S))%Z.
Proof.
  induction S as [|s S IH]; intros HS.
  - exists []. split; [constructor|]. split; [|cbn [List.length]; lia].
    intros b. split; [intros []|intros [_ []]].
  - inversion HS as [|s' S' Hs HS']; subst. destruct (IH HS') as (l & Hnd & Hin & Hb).
    destruct (wide_fibre s) as (l1 & Hnd1 & Hin1 & Hb1).
    exists (l1 ++ l). split; [|split].
    + clear - Hnd Hnd1 Hin Hin1 Hs.
      assert (Hdis : forall b, In b l1 -> ~ In b l).
      { intros b H1 H2. apply Hin1 in H1 as [_ <-]. apply Hin in H2 as [_ H2]. contradiction. }
      clear Hin Hin1. induction l1 as [|b l1 IH]; [exact Hnd|].
      inversion Hnd1; subst. cbn [app]. constructor.
      * intros H. apply in_app_iff in H as [H|H]; [contradiction|].
        exact (Hdis b (or_introl eq_refl) H).
      * apply IH; [assumption|]. intros b' H'. apply Hdis. right. exact H'.
    + intros b. rewrite in_app_iff, Hin, Hin1. cbn [In]. split.
      * intros [[H <-]|[H H']]; auto.
      * intros [H [<-|H']]; auto.
    + rewrite app_length. cbn [List.length]. lia.
Qed.

End Wide.
