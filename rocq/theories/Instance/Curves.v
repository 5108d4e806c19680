(** * Stand-ins for the external curve crates

    [toy_dalek h]: points are the integers modulo [h * qx], with base point [h] (of prime order [qx]);
    [h = 1] has the shape of Ristretto, [h = 8] that of Curve25519 with its cofactor.
    [toy_curve]: points are the integers modulo [qx] with SEC1-shaped encodings.
    They witness that the laws assumed of the crates can be met. *)
From Coq Require Import List NArith ZArith Znumtheory Field_theory Bool Lia String.
From Coq.Strings Require Import Byte.
From Verif.Model Require Import Base Group Transcript Range Backends.
From Verif.Spec Require Import Backends.
From Verif.Instance Require Import Primality Zq.
Import ListNotations.
Open Scope Z_scope.
Open Scope list_scope.

Definition zcheck {A B C} (ss : list A) (es : list B) (x : C) : outcome C :=
  if Nat.eqb (List.length ss) (List.length es) then Ret x else Panic PBackend.

Section ToyDalek.
Context (h : Z).
Local Notation n := (h * qx).
Local Notation pt := (Zq n).
Local Notation sc := (Zq qx).

Definition tp_mul (P : pt) (s : sc) : pt := zq n (zval n P * zval qx s).
Fixpoint tp_lin (ss : list sc) (es : list pt) : pt :=
  match ss, es with
  | s :: ss', e :: es' => zadd n (tp_mul e s) (tp_lin ss' es')
  | _, _ => zq n 0
  end.

Definition toy_dalek : Dalek := {|
  DScalar := sc; d_zero := zq qx 0; d_from_u64 := fun x => zq qx (Z.of_N x);
  d_neg := zneg qx; d_add := zadd qx; d_sub := zsub qx; d_mul := zmul qx; d_eqb := zeqb qx;
  d_invert := zinv qx;
  d_invert_batch := fun l =>
    if existsb (fun a => zval qx a =? 0) l then Panic PBackend else Ret (map (zinv qx) l);
  d_to_bytes := fun a => le_bytes 32 (Z.to_N (zval qx a));
  d_from_canonical_bytes := zparse qx;
  d_from_bytes_mod_order_wide := fun b => zq qx (Z.of_N (le_val b));
  DPoint := pt; p_identity := zq n 0; p_is_identity := fun P => zval n P =? 0;
  p_basepoint := zq n h; p_add := zadd n; p_sub := zsub n; p_neg := zneg n; p_mul := tp_mul;
  p_eqb := zeqb n;
  p_compress := fun P => le_bytes 32 (Z.to_N (zval n P));
  p_decompress := zparse n;
  p_is_torsion_free := fun P => (zval n P * qx) mod n =? 0;
  p_table_mul := fun s => tp_mul (zq n h) s;
  p_double_mul_basepoint := fun k P r => zadd n (tp_mul P k) (tp_mul (zq n h) r);
  p_multiscalar_mul := fun ss es => zcheck ss es (tp_lin ss es);
  p_vartime_multiscalar_mul := fun ss es => zcheck ss es (tp_lin ss es)
|}.

Context (h_pos : 0 < h) (h_size : h <= 256).

Lemma n_pos : 1 < n. Proof. pose proof (q_pos qx prime_qx). nia. Qed.

Lemma pt_neg a : zneg n (zq n a) = zq n (- a).
Proof.
  apply Zq_eq. cbn. rewrite <- (Z.sub_0_l (a mod n)), <- (Z.sub_0_l a). apply Zminus_mod_idemp_r.
Qed.

Ltac pring :=
  intros;
  repeat match goal with
  | x : pt |- _ => rewrite <- (zq_zval n x); generalize (zval n x); clear x; intros x
  end;
  rewrite ?(zq_add n), ?(zq_sub n), ?pt_neg, ?(zq_add n), ?(zq_sub n), ?pt_neg;
  f_equal; ring.

Lemma toy_times k P : times (D := toy_dalek) k P = zq n (Z.of_nat k * zval n P).
Proof.
  induction k as [|k IH]; [reflexivity|]. unfold times in *. cbn [nmul]. rewrite IH.
  cbn [p_add toy_dalek]. rewrite <- (zq_zval n P) at 1. rewrite (zq_add n). f_equal. lia.
Qed.

Lemma pt_range (P : pt) : 0 <= zval n P < n.
Proof. rewrite <- (zval_mod n). apply Z.mod_pos_bound. pose proof n_pos; lia. Qed.

Lemma pt_size (P : pt) : (Z.to_N (zval n P) < 256 ^ N.of_nat 32)%N.
Proof.
  pose proof (pt_range P). apply N2Z.inj_lt. rewrite Z2N.id by lia.
  rewrite N2Z.inj_pow, nat_N_Z. change (Z.of_N 256) with 256. change (Z.of_nat 32) with 32.
  assert (qx <= 256 ^ 9) by exact qx_size.
  assert (Hp : 256 ^ 32 = 256 * 256 ^ 9 * 256 ^ 22) by (vm_compute; reflexivity).
  assert (1 <= 256 ^ 22) by (vm_compute; discriminate). rewrite Hp. nia.
Qed.

Lemma pt_order (P : pt) : zq n (qx * zval n P) = zq n 0 <-> (h | zval n P).
Proof.
  pose proof (q_pos qx prime_qx). rewrite zq_eq, (Z.mod_0_l n) by lia. rewrite Z.mod_divide by lia.
  split; intros [c Hc]; exists c; nia.
Qed.

Definition toy_dalek_laws : DalekLaws toy_dalek.
Proof.
  pose proof (q_pos qx prime_qx) as Hq.
  refine {| dl_order := qx; dl_prime := prime_qx; dl_field := (z_field qx prime_qx 9 : field_theory (@d_zero toy_dalek) (d_from_u64 1) d_add d_mul d_sub d_neg
               (fun a b => d_mul a (d_invert b)) d_invert (@eq (DScalar toy_dalek)));
            dl_phi := zq qx : Z -> DScalar toy_dalek;
            dl_log := (fun P => zq qx (zval n P / h)) : DPoint toy_dalek -> DScalar toy_dalek |};
    cbn [toy_dalek DScalar DPoint d_zero d_from_u64 d_neg d_add d_sub d_mul d_eqb d_invert d_invert_batch
         d_to_bytes d_from_canonical_bytes d_from_bytes_mod_order_wide p_identity p_is_identity p_basepoint
         p_add p_sub p_neg p_mul p_eqb p_compress p_decompress p_is_torsion_free p_table_mul
         p_double_mul_basepoint p_multiscalar_mul p_vartime_multiscalar_mul].
  - vm_compute. discriminate.
  - intros. symmetry. apply zq_add.
  - intros. symmetry. apply zq_mul.
  - exact (zq_eq qx).
  - intros s. exists (zval qx s). symmetry. apply zq_zval.
  - reflexivity.
  - exact (zeqb_ok qx).
  - intros ss H. destruct (existsb _ ss) eqn:Hex; [exfalso|reflexivity].
    apply existsb_exists in Hex as (x & Hin & Hx). apply (H x Hin). apply Zq_eq.
    apply Z.eqb_eq in Hx. rewrite Hx. reflexivity.
  - reflexivity.
  - reflexivity.
  - reflexivity.
  - pring.
  - pring.
  - pring.
  - pring.
  - pring.
  - intros P z. rewrite toy_times. unfold tp_mul. f_equal. cbn [zval zq].
    rewrite Z2Nat.id by (apply Z.mod_pos_bound; lia). apply Z.mul_comm.
  - exact (zeqb_ok n).
  - intros P. rewrite Z.eqb_eq. split.
    + intros H. apply Zq_eq. rewrite H. symmetry. apply Z.mod_0_l. lia.
    + intros ->. apply Z.mod_0_l. lia.
  - intros H. apply zq_eq in H. rewrite Z.mod_0_l in H by lia. apply Z.mod_divide in H; [|lia].
    apply Z.divide_pos_le in H; nia.
  - rewrite toy_times, Z2Nat.id by lia. apply pt_order. cbn [zval zq].
    exists (1 mod qx). rewrite <- (Z.mul_1_l h) at 1.
    rewrite (Z.mul_comm h qx), Z.mul_mod_distr_r by lia. reflexivity.
  - intros P. rewrite toy_times, Z2Nat.id by lia. intros H. apply pt_order in H.
    destruct H as [c Hc]. unfold tp_mul. cbn [zval zq]. rewrite Hc, Z.div_mul by lia.
    apply Zq_eq. cbn [zval zq]. rewrite Hc. pose proof (pt_range P).
    assert (0 <= c < qx) by nia.
    rewrite Z.mul_mod_idemp_l by lia. rewrite (Z.mod_small c qx) by lia.
    rewrite Z.mod_small by nia. first [lia | reflexivity].
  - intros P. rewrite toy_times, Z2Nat.id by lia. rewrite Z.eqb_eq, zq_eq, (Z.mod_0_l n), Z.mul_comm by lia.
    reflexivity.
  - reflexivity.
  - reflexivity.
  - intros ss es H. unfold zcheck. rewrite H, Nat.eqb_refl. reflexivity.
  - intros ss es H. unfold zcheck. rewrite H, Nat.eqb_refl. reflexivity.
  - intros ss es H. unfold zcheck. rewrite (proj2 (Nat.eqb_neq _ _) H). reflexivity.
  - intros ss es H. unfold zcheck. rewrite (proj2 (Nat.eqb_neq _ _) H). reflexivity.
  - intros P. apply le_bytes_length.
  - intros P. unfold zparse. rewrite le_val_bytes by apply pt_size. pose proof (pt_range P).
    rewrite Z2N.id by lia. rewrite (proj2 (Z.ltb_lt _ _)) by lia. rewrite zq_zval. reflexivity.
Defined.

End ToyDalek.

Lemma toy_prime_order : prime_order (toy_dalek_laws 1 eq_refl ltac:(discriminate)).
Proof.
  intros P. rewrite toy_times. cbn [dl_order toy_dalek_laws].
  rewrite Z2Nat.id by (pose proof (q_pos qx prime_qx); lia).
  apply (pt_order 1 eq_refl ltac:(discriminate)). exists (zval (1 * qx) P). lia.
Qed.

(** ** SEC1 *)
Definition toy_curve : Curve := {|
  CScalar := Zq qx; c_default := zq qx 0; c_from_u64 := fun x => zq qx (Z.of_N x);
  c_neg := zneg qx; c_add := zadd qx; c_sub := zsub qx; c_mul := zmul qx; c_eqb := zeqb qx;
  c_field_size := 9;
  c_random := fun R fill r => let '(b, r) := fill 32%nat r in (zq qx (Z.of_N (le_val b)), r);
  c_invert := fun a => if zval qx a =? 0 then None else Some (zinv qx a);
  c_to_repr := fun a => le_bytes 9 (Z.to_N (zval qx a));
  c_from_repr := fun b => if Nat.eqb (List.length b) 9 then zparse qx b else None;
  CPoint := Zq qx; cp_identity := zq qx 0; cp_is_identity := fun a => zval qx a =? 0;
  cp_generator := zq qx 1; cp_add := zadd qx; cp_sub := zsub qx; cp_neg := zneg qx; cp_mul := zmul qx;
  cp_eqb := zeqb qx;
  CSec1 := Zq qx;
  cp_to_sec1_point := fun a _ => a;
  sec1_as_bytes := fun a => if zval qx a =? 0 then [x00] else x02 :: le_bytes 9 (Z.to_N (zval qx a));
  sec1_from_bytes := fun b =>
    match b with
    | [x00] => Some (zq qx 0)
    | x02 :: b' =>
        match zparse qx b' with
        | Some a => if zval qx a =? 0 then None else Some a
        | None => None
        end
    | _ => None
    end;
  cp_from_sec1_point := fun a => Some a
|}.

Definition toy_curve_laws : CurveLaws toy_curve.
Proof.
  pose proof (q_pos qx prime_qx) as Hq. pose proof (plain_laws qx prime_qx 9 qx_size) as PL.
  refine {| cl_order := qx; cl_prime := prime_qx; cl_inv := zinv qx : CScalar toy_curve -> CScalar toy_curve;
            cl_field := (z_field qx prime_qx 9 : field_theory (@c_default toy_curve) (c_from_u64 1) c_add c_mul c_sub c_neg
               (fun a b => c_mul a (zinv qx b)) (zinv qx) (@eq (CScalar toy_curve)));
            cl_phi := zq qx : Z -> CScalar toy_curve;
            cl_log := (fun P => P) : CPoint toy_curve -> CScalar toy_curve |};
    cbn [toy_curve CScalar CPoint CSec1 c_default c_from_u64 c_neg c_add c_sub c_mul c_eqb c_field_size
         c_random c_invert c_to_repr c_from_repr cp_identity cp_is_identity cp_generator cp_add cp_sub
         cp_neg cp_mul cp_eqb cp_to_sec1_point sec1_as_bytes sec1_from_bytes cp_from_sec1_point].
  - intros. symmetry. apply zq_add.
  - intros. symmetry. apply zq_mul.
  - exact (zq_eq qx).
  - intros s. exists (zval qx s). symmetry. apply zq_zval.
  - reflexivity.
  - exact (zeqb_ok qx).
  - intros s. destruct (Z.eqb_spec (zval qx s) 0) as [H|H]; split; intros H'; try discriminate; auto.
    + apply Zq_eq. rewrite H. reflexivity.
    + exfalso. apply H. rewrite H'. reflexivity.
  - intros s i. destruct (Z.eqb_spec (zval qx s) 0) as [H|H]; [discriminate|].
    intros H'. assert (Hi : i = zinv qx s) by congruence. rewrite Hi.
    apply (zmul_inv qx prime_qx 9). intros Hz. apply H. rewrite Hz. reflexivity.
  - lia.
  - intros s. apply le_bytes_length.
  - intros s. rewrite le_bytes_length. cbn [Nat.eqb]. exact (zparse_bytes qx prime_qx 9 qx_size s).
  - intros b s. destruct (Nat.eqb_spec (List.length b) 9) as [Hb|]; [|discriminate].
    exact (zbytes_parse qx 9 b s Hb).
  - exact (e_add_comm _ PL).
  - exact (e_add_assoc _ PL).
  - exact (e_add_id _ PL).
  - exact (e_add_neg _ PL).
  - exact (e_sub_def _ PL).
  - intros P z. assert (H : forall k, nmul (zadd qx) (zq qx 0) k P = zq qx (Z.of_nat k * zval qx P)).
    { induction k as [|k IH]; [reflexivity|]. cbn [nmul]. rewrite IH.
      rewrite <- (zq_zval qx P) at 1. rewrite zq_add. f_equal. lia. }
    rewrite H, Z2Nat.id by (apply Z.mod_pos_bound; lia). rewrite <- (zq_zval qx P) at 1.
    rewrite zq_mul. apply zq_eq. rewrite Z.mul_mod_idemp_l by lia. f_equal. ring.
  - exact (zeqb_ok qx).
  - exact (is_identity_ok _ PL).
  - intros H. vm_compute in H. discriminate.
  - intros P. assert (H : forall k, nmul (zadd qx) (zq qx 0) k P = zq qx (Z.of_nat k * zval qx P)).
    { induction k as [|k IH]; [reflexivity|]. cbn [nmul]. rewrite IH.
      rewrite <- (zq_zval qx P) at 1. rewrite zq_add. f_equal. lia. }
    rewrite H, Z2Nat.id by lia. apply zq_eq. rewrite Z.mul_comm, Z.mod_mul by lia. reflexivity.
  - intros P. rewrite <- (zq_zval qx P) at 1. rewrite zq_mul, Z.mul_1_l. apply zq_zval.
  - intros P HP. destruct (Z.eqb_spec (zval qx P) 0) as [H|H].
    + exfalso. apply HP. apply Zq_eq. rewrite H. reflexivity.
    + cbn [List.length]. rewrite le_bytes_length. reflexivity.
  - reflexivity.
  - intros s. destruct (Z.eqb_spec (zval qx s) 0) as [H|H].
    + f_equal. apply Zq_eq. rewrite H. reflexivity.
    + change (le_bytes 9 (Z.to_N (zval qx s))) with (zbytes qx 9 s).
      rewrite (zparse_bytes qx prime_qx 9 qx_size s).
      rewrite (proj2 (Z.eqb_neq _ _) H). reflexivity.
  - reflexivity.
Defined.
