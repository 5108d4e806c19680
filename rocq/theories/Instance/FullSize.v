(** * Stand-ins for the curve crates at full size

    The same as [toy_dalek] ([Instance/Curves.v]), but with the group order [ell] of curve25519-dalek itself:
    [h = 1] has the order of Ristretto, [h = 8] the order and cofactor of Curve25519.
    It witnesses that the laws can be met together with bounds that need a 252-bit order. *)
From Coq Require Import List NArith ZArith Znumtheory Field_theory Bool Lia String.
From Coq.Strings Require Import Byte.
From Verif.Model Require Import Base Group Transcript Range Backends.
From Verif.Spec Require Import Backends.
From Verif.Instance Require Import Primality Zq Curves.
Import ListNotations.
Open Scope Z_scope.
Open Scope list_scope.

Local Opaque ell.

Section FullDalek.
Context (h : Z).
Local Notation n := (h * ell).
Local Notation pt := (Zq n).
Local Notation sc := (Zq ell).

Definition ftp_mul (P : pt) (s : sc) : pt := zq n (zval n P * zval ell s).
Fixpoint ftp_lin (ss : list sc) (es : list pt) : pt :=
  match ss, es with
  | s :: ss', e :: es' => zadd n (ftp_mul e s) (ftp_lin ss' es')
  | _, _ => zq n 0
  end.

Definition full_dalek : Dalek := {|
  DScalar := sc; d_zero := zq ell 0; d_from_u64 := fun x => zq ell (Z.of_N x);
  d_neg := zneg ell; d_add := zadd ell; d_sub := zsub ell; d_mul := zmul ell; d_eqb := zeqb ell;
  d_invert := zinv ell;
  d_invert_batch := fun l =>
    if existsb (fun a => zval ell a =? 0) l then Panic PBackend else Ret (map (zinv ell) l);
  d_to_bytes := fun a => le_bytes 32 (Z.to_N (zval ell a));
  d_from_canonical_bytes := zparse ell;
  d_from_bytes_mod_order_wide := fun b => zq ell (Z.of_N (le_val b));
  DPoint := pt; p_identity := zq n 0; p_is_identity := fun P => zval n P =? 0;
  p_basepoint := zq n h; p_add := zadd n; p_sub := zsub n; p_neg := zneg n; p_mul := ftp_mul;
  p_eqb := zeqb n;
  p_compress := fun P => le_bytes 32 (Z.to_N (zval n P));
  p_decompress := zparse n;
  p_is_torsion_free := fun P => (zval n P * ell) mod n =? 0;
  p_table_mul := fun s => ftp_mul (zq n h) s;
  p_double_mul_basepoint := fun k P r => zadd n (ftp_mul P k) (ftp_mul (zq n h) r);
  p_multiscalar_mul := fun ss es => zcheck ss es (ftp_lin ss es);
  p_vartime_multiscalar_mul := fun ss es => zcheck ss es (ftp_lin ss es)
|}.

Context (h_pos : 0 < h) (h_size : h <= 8).

Lemma fn_pos : 1 < n. Proof. pose proof (q_pos ell prime_ell). nia. Qed.

Lemma fpt_neg a : zneg n (zq n a) = zq n (- a).
Proof.
  apply Zq_eq. cbn. rewrite <- (Z.sub_0_l (a mod n)), <- (Z.sub_0_l a). apply Zminus_mod_idemp_r.
Qed.

Ltac pring :=
  intros;
  repeat match goal with
  | x : pt |- _ => rewrite <- (zq_zval n x); generalize (zval n x); clear x; intros x
  end;
  rewrite ?(zq_add n), ?(zq_sub n), ?fpt_neg, ?(zq_add n), ?(zq_sub n), ?fpt_neg;
  f_equal; ring.

Lemma full_times k P : times (D := full_dalek) k P = zq n (Z.of_nat k * zval n P).
Proof.
  induction k as [|k IH]; [reflexivity|]. unfold times in *. cbn [nmul]. rewrite IH.
  cbn [p_add full_dalek]. rewrite <- (zq_zval n P) at 1. rewrite (zq_add n). f_equal. lia.
Qed.

Lemma fpt_range (P : pt) : 0 <= zval n P < n.
Proof. rewrite <- (zval_mod n). apply Z.mod_pos_bound. pose proof fn_pos; lia. Qed.

Lemma fpt_size (P : pt) : (Z.to_N (zval n P) < 256 ^ N.of_nat 32)%N.
Proof.
  pose proof (fpt_range P). apply N2Z.inj_lt. rewrite Z2N.id by lia.
  rewrite N2Z.inj_pow, nat_N_Z. change (Z.of_N 256) with 256. change (Z.of_nat 32) with 32.
  assert (8 * ell <= 256 ^ 32) by (vm_compute; discriminate). nia.
Qed.

Lemma fpt_order (P : pt) : zq n (ell * zval n P) = zq n 0 <-> (h | zval n P).
Proof.
  pose proof (q_pos ell prime_ell). rewrite zq_eq, (Z.mod_0_l n) by lia. rewrite Z.mod_divide by lia.
  split; intros [c Hc]; exists c; nia.
Qed.

Definition full_dalek_laws : DalekLaws full_dalek.
Proof.
  pose proof (q_pos ell prime_ell) as Hq.
  refine {| dl_order := ell; dl_prime := prime_ell; dl_field := (z_field ell prime_ell 9 : field_theory (@d_zero full_dalek) (d_from_u64 1) d_add d_mul d_sub d_neg
               (fun a b => d_mul a (d_invert b)) d_invert (@eq (DScalar full_dalek)));
            dl_phi := zq ell : Z -> DScalar full_dalek;
            dl_log := (fun P => zq ell (zval n P / h)) : DPoint full_dalek -> DScalar full_dalek |};
    cbn [full_dalek DScalar DPoint d_zero d_from_u64 d_neg d_add d_sub d_mul d_eqb d_invert d_invert_batch
         d_to_bytes d_from_canonical_bytes d_from_bytes_mod_order_wide p_identity p_is_identity p_basepoint
         p_add p_sub p_neg p_mul p_eqb p_compress p_decompress p_is_torsion_free p_table_mul
         p_double_mul_basepoint p_multiscalar_mul p_vartime_multiscalar_mul].
  - vm_compute. discriminate.
  - intros. symmetry. apply zq_add.
  - intros. symmetry. apply zq_mul.
  - exact (zq_eq ell).
  - intros s. exists (zval ell s). symmetry. apply zq_zval.
  - reflexivity.
  - exact (zeqb_ok ell).
  - intros ss H. destruct (existsb _ ss) eqn:Hex; [exfalso|reflexivity].
    apply existsb_exists in Hex as (x & Hin & Hx). apply (H x Hin). apply Zq_eq.
    apply Z.eqb_eq in Hx. rewrite Hx. reflexivity.
  - reflexivity.
  - reflexivity.
  - reflexivity.
  - pring.
  - pring.
  - pring.
  - pring.
  - pring.
  - intros P z. rewrite full_times. unfold ftp_mul. f_equal. cbn [zval zq].
    rewrite Z2Nat.id by (apply Z.mod_pos_bound; lia). apply Z.mul_comm.
  - exact (zeqb_ok n).
  - intros P. rewrite Z.eqb_eq. split.
    + intros H. apply Zq_eq. rewrite H. symmetry. apply Z.mod_0_l. lia.
    + intros ->. apply Z.mod_0_l. lia.
  - intros H. apply zq_eq in H. rewrite Z.mod_0_l in H by lia. apply Z.mod_divide in H; [|lia].
    apply Z.divide_pos_le in H; nia.
  - rewrite full_times, Z2Nat.id by lia. apply fpt_order. cbn [zval zq].
    exists (1 mod ell). rewrite <- (Z.mul_1_l h) at 1.
    rewrite (Z.mul_comm h ell), Z.mul_mod_distr_r by lia. reflexivity.
  - intros P. rewrite full_times, Z2Nat.id by lia. intros H. apply fpt_order in H.
    destruct H as [c Hc]. unfold ftp_mul. cbn [zval zq]. rewrite Hc, Z.div_mul by lia.
    apply Zq_eq. cbn [zval zq]. rewrite Hc. pose proof (fpt_range P).
    assert (0 <= c < ell) by nia.
    rewrite Z.mul_mod_idemp_l by lia. rewrite (Z.mod_small c ell) by lia.
    rewrite Z.mod_small by nia. first [lia | reflexivity].
  - intros P. rewrite full_times, Z2Nat.id by lia. rewrite Z.eqb_eq, zq_eq, (Z.mod_0_l n), Z.mul_comm by lia.
    reflexivity.
  - reflexivity.
  - reflexivity.
  - intros ss es H. unfold zcheck. rewrite H, Nat.eqb_refl. reflexivity.
  - intros ss es H. unfold zcheck. rewrite H, Nat.eqb_refl. reflexivity.
  - intros ss es H. unfold zcheck. rewrite (proj2 (Nat.eqb_neq _ _) H). reflexivity.
  - intros ss es H. unfold zcheck. rewrite (proj2 (Nat.eqb_neq _ _) H). reflexivity.
  - intros P. apply le_bytes_length.
  - intros P. unfold zparse. rewrite le_val_bytes by apply fpt_size. pose proof (fpt_range P).
    rewrite Z2N.id by lia. rewrite (proj2 (Z.ltb_lt _ _)) by lia. rewrite zq_zval. reflexivity.
Defined.

End FullDalek.

Lemma full_prime_order : prime_order (full_dalek_laws 1 eq_refl ltac:(discriminate)).
Proof.
  intros P. rewrite full_times. cbn [dl_order full_dalek_laws].
  rewrite Z2Nat.id by (pose proof (q_pos ell prime_ell); lia).
  apply (fpt_order 1 eq_refl ltac:(discriminate)). exists (zval (1 * ell) P). lia.
Qed.

