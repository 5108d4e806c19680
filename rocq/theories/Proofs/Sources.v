(** * Lemmas for C65 *)
From Coq.Strings Require Import Byte.
From Coq Require Import List NArith ZArith Lia Bool String.
From Verif.Model Require Import Base Group Transcript Serde Backends.
From Verif.Spec Require Import Backends Rom Forking Sources.
From Verif.Proofs Require Import Serde Backends Rom.
Import ListNotations.
Open Scope list_scope.

Lemma NoDup_app_intro {A : Type} (l l' : list A) : NoDup l -> NoDup l' -> (forall a, In a l -> ~ In a l') -> NoDup (l ++ l').
Proof.
  induction 1 as [|a l Ha Hl IH]; intros Hl' Hd; [exact Hl'|]. cbn. constructor.
  - intros H. apply in_app_iff in H as [H|H]; [contradiction|]. exact (Hd a (or_introl eq_refl) H).
  - apply IH; [exact Hl'|]. intros b Hb. apply Hd. right. exact Hb.
Qed.

Lemma all_bytes_in b : In b all_bytes.
Proof.
  apply in_map_iff. exists (N.to_nat (Byte.to_N b)). rewrite N2Nat.id. split; [apply byte_of_bn|].
  apply in_seq. pose proof (bn_lt b) as H. unfold bn in H. lia.
Qed.
Lemma all_bytes_nodup : NoDup all_bytes.
Proof.
  apply (NoDup_map_inv Byte.to_N). replace (map Byte.to_N all_bytes) with (map N.of_nat (seq 0 256)) by (vm_compute; reflexivity).
  apply FinFun.Injective_map_NoDup; [intros a b; apply Nat2N.inj|apply seq_NoDup].
Qed.

Lemma byte_strings_in n : forall b, In b (byte_strings n) <-> List.length b = n.
Proof.
  induction n as [|n IH]; intros b; cbn [byte_strings].
  - split; [intros [<-|[]]; reflexivity|]. destruct b; [left; reflexivity|discriminate].
  - rewrite in_flat_map. split.
    + intros (x & _ & Hb). apply in_map_iff in Hb as (c & <- & Hc). cbn. f_equal. apply IH. exact Hc.
    + destruct b as [|x b]; [discriminate|]. intros H. injection H as H. exists x. split; [apply all_bytes_in|].
      apply in_map. apply IH. exact H.
Qed.
Lemma byte_strings_nodup n : NoDup (byte_strings n).
Proof.
  induction n as [|n IH]; cbn [byte_strings]; [constructor; [intros []|constructor]|].
  pose proof all_bytes_nodup as Hb. induction Hb as [|x l Hx Hl IHl]; [constructor|]. cbn [flat_map].
  apply NoDup_app_intro; [apply FinFun.Injective_map_NoDup; [intros a b H; injection H; auto|exact IH]|exact IHl|].
  intros b H1 H2. apply in_map_iff in H1 as (c & <- & _). apply in_flat_map in H2 as (y & Hy & H2).
  apply in_map_iff in H2 as (d & He & _). injection He as He _. congruence.
Qed.
Lemma byte_strings_len n : Z.of_nat (List.length (byte_strings n)) = (256 ^ Z.of_nat n)%Z.
Proof.
  induction n as [|n IH]; [reflexivity|]. cbn [byte_strings].
  assert (H : forall l : list byte, List.length (flat_map (fun b => map (cons b) (byte_strings n)) l) = (List.length l * List.length (byte_strings n))%nat).
  { generalize (byte_strings n). intros bs. induction l as [|x l IHl]; [reflexivity|]. cbn [flat_map List.length].
    rewrite app_length, map_length, IHl. reflexivity. }
  rewrite H, Nat2Z.inj_mul, IH. change (Z.of_nat (List.length all_bytes)) with 256%Z.
  rewrite Nat2Z.inj_succ, Z.pow_succ_r by lia. reflexivity.
Qed.

(** the most likely scalar *)
Lemma wide_balanced (D : Dalek) (L : DalekLaws D) :
  exists m, (dl_order L * m < 256 ^ 64 + dl_order L)%Z /\
  forall (s : DScalar D) l, NoDup l -> (forall b, In b l -> In b (byte_strings 64) /\ d_from_bytes_mod_order_wide b = s) ->
    (Z.of_nat (List.length l) <= m)%Z.
Proof.
  pose proof (dl_q_pos D L) as Hq. set (q := dl_order L) in *.
  exists ((256 ^ 64 + q - 1) / q)%Z. pose proof (Z.div_mod (256 ^ 64 + q - 1) q ltac:(lia)) as Hd.
  pose proof (Z.mod_pos_bound (256 ^ 64 + q - 1) q ltac:(lia)) as Hr. split; [lia|].
  intros s l Hnd Hl. destruct (wide_fibre D L s) as (f & Hf & Hin & Hb). fold q in Hb.
  assert (Hle : (List.length l <= List.length f)%nat).
  { apply NoDup_incl_length; [exact Hnd|]. intros b H. apply Hin. destruct (Hl b H) as [H1 H2]. split; [|exact H2].
    apply byte_strings_in. exact H1. }
  assert (Hq' : (q * Z.of_nat (List.length l) <= q * Z.of_nat (List.length f))%Z) by (apply Z.mul_le_mono_nonneg_l; lia).
  apply Z.div_le_lower_bound; lia.
Qed.

Lemma success_scale {G : Group} (S : source G) {X Y : Type} (A : strategy (Scalar G) X) (V : X -> strategy (Scalar G) Y) m wins q k d c :
  (0 < q)%Z -> (0 <= k)%Z -> (q * m <= c)%Z ->
  success_at_most S A V wins (m * k) d -> success_at_most S A V wins (k * c) (q * d).
Proof.
  intros Hq Hk Hm H D W HW Hw. specialize (H D W HW Hw).
  assert (Hs : (0 <= size S ^ Z.of_nat (List.length D))%Z) by (apply Z.pow_nonneg; unfold size; lia).
  set (P := (size S ^ Z.of_nat (List.length D))%Z) in *. set (w := Z.of_nat (List.length W)) in *. clearbody P w.
  apply (Z.mul_le_mono_nonneg_l _ _ q) in H; [|lia].
  assert (q * (m * k * P) <= k * c * P)%Z; [|lia].
  replace (q * (m * k * P))%Z with (q * m * (k * P))%Z by ring. replace (k * c * P)%Z with (c * (k * P))%Z by ring.
  apply Z.mul_le_mono_nonneg_r; [nia|exact Hm].
Qed.

Lemma balanced_nonneg {G : Group} (S : source G) m : balanced S m -> (0 <= m)%Z.
Proof. intros [_ H]. apply (H s_default []); [constructor|intros ? []]. Qed.
