(** * C84: ciphertexts form a module over the scalars; the order of tallying does not matter *)
From Coq Require Import List NArith ZArith Arith Bool Permutation String Lia.
From Verif.Model Require Import Base Group Transcript Keys Encryption LogEquality Sharing.
From Verif.Spec Require Import Encryption Tally.
From Verif.Proofs Require Import Lists Algebra Encryption.
From Verif.Instance Require Import Primality Zq.
Import ListNotations.
Open Scope list_scope.
Open Scope nat_scope.

Section Laws.
Context (E : Env) (L : GroupLaws E).
Add Field s_field_ct : (s_field L).

Lemma ct_eq (a b : Ciphertext E) :
  random_element a = random_element b -> blinded_element a = blinded_element b -> a = b.
Proof. destruct a, b; cbn. congruence. Qed.

Lemma add_comm (a b : Ciphertext E) : Ciphertext_add a b = Ciphertext_add b a.
Proof. apply ct_eq; cbn; el_ring L. Qed.
Lemma add_assoc (a b c : Ciphertext E) : Ciphertext_add a (Ciphertext_add b c) = Ciphertext_add (Ciphertext_add a b) c.
Proof. apply ct_eq; cbn; el_ring L. Qed.
Lemma add_zero (a : Ciphertext E) : Ciphertext_add a Ciphertext_zero = a.
Proof. apply ct_eq; cbn; el_ring L. Qed.
Lemma sub_neg (a b : Ciphertext E) : Ciphertext_sub a b = Ciphertext_add a (Ciphertext_neg b).
Proof. apply ct_eq; cbn; el_ring L. Qed.
Lemma add_neg (a : Ciphertext E) : Ciphertext_add a (Ciphertext_neg a) = Ciphertext_zero.
Proof. apply ct_eq; cbn; el_ring L. Qed.
Lemma mul_add_l (a b : Ciphertext E) k :
  Ciphertext_mul (Ciphertext_add a b) k = Ciphertext_add (Ciphertext_mul a k) (Ciphertext_mul b k).
Proof. apply ct_eq; cbn; el_ring L. Qed.
Lemma mul_add_r (a : Ciphertext E) k l :
  Ciphertext_mul a (k + l)%S = Ciphertext_add (Ciphertext_mul a k) (Ciphertext_mul a l).
Proof. apply ct_eq; cbn; el_ring L. Qed.
Lemma mul_mul (a : Ciphertext E) k l : Ciphertext_mul (Ciphertext_mul a k) l = Ciphertext_mul a (k * l)%S.
Proof. apply ct_eq; cbn; el_ring L. Qed.
Lemma mul_one (a : Ciphertext E) : Ciphertext_mul a 1%S = a.
Proof. apply ct_eq; cbn; el_ring L. Qed.
Lemma non_blinded_add x y :
  @Ciphertext_non_blinded E (x + y)%S = Ciphertext_add (Ciphertext_non_blinded x) (Ciphertext_non_blinded y).
Proof. apply ct_eq; cbn; el_ring L. Qed.
Lemma mul_u64 (a : Ciphertext E) k : (k < 2 ^ 64)%N ->
  Ciphertext_mul_u64 a k = N.iter k (Ciphertext_add a) Ciphertext_zero.
Proof.
  intros Hk. 
  assert (H : forall k, N.iter k (Ciphertext_add a) Ciphertext_zero = {| random_element := times k (random_element a); blinded_element := times k (blinded_element a) |}).
  { clear k Hk. intros k. induction k as [|k IH] using N.peano_ind; [reflexivity|].
    rewrite N.iter_succ, IH. unfold Ciphertext_add, times. cbn [random_element blinded_element].
    rewrite !N.iter_succ. reflexivity. }
  rewrite H, !(times_of_u64 E L) by exact Hk. reflexivity.
Qed.

Definition plus2 (a b : list (Ciphertext E)) : list (Ciphertext E) :=
  map (fun p => Ciphertext_add (fst p) (snd p)) (combine a b).

Lemma plus2_length n a b : List.length a = n -> List.length b = n -> List.length (plus2 a b) = n.
Proof. intros Ha Hb. unfold plus2. rewrite map_length, combine_length. lia. Qed.

Lemma plus2_comm a b : List.length a = List.length b -> plus2 a b = plus2 b a.
Proof.
  revert b. induction a as [|x a IH]; intros [|y b] H; try discriminate; [reflexivity|].
  unfold plus2 in *. cbn [combine map fst snd]. rewrite add_comm. f_equal. apply IH. cbn in H. lia.
Qed.

Lemma plus2_assoc a b c : plus2 a (plus2 b c) = plus2 (plus2 a b) c.
Proof.
  revert b c. induction a as [|x a IH]; intros [|y b] [|z c]; try reflexivity.
  unfold plus2 in *. cbn [combine map fst snd]. rewrite add_assoc. f_equal. apply IH.
Qed.

Lemma plus2_zero n a : List.length a = n -> plus2 a (repeat Ciphertext_zero n) = a.
Proof.
  intros <-. induction a as [|x a IH]; [reflexivity|]. unfold plus2 in *. cbn [List.length repeat combine map fst snd].
  rewrite add_zero. f_equal. exact IH.
Qed.

Lemma tally_acc n ballots acc : List.length acc = n -> Forall (fun cts => List.length cts = n) ballots ->
  fold_left plus2 ballots acc = plus2 acc (fold_left plus2 ballots (repeat Ciphertext_zero n)) /\
  List.length (fold_left plus2 ballots acc) = n.
Proof.
  intros Ha H. revert acc Ha. induction H as [|b ballots Hb H IH]; intros acc Ha.
  - cbn. rewrite plus2_zero by exact Ha. auto.
  - cbn [fold_left]. destruct (IH (plus2 acc b) (plus2_length n _ _ Ha Hb)) as [I1 I2].
    destruct (IH (plus2 (repeat Ciphertext_zero n) b) (plus2_length n _ _ (repeat_length _ _) Hb)) as [J1 J2].
    split; [|exact I2]. rewrite I1, J1, (plus2_comm (repeat _ n) b) by (rewrite repeat_length; congruence).
    rewrite plus2_zero by exact Hb. symmetry. apply plus2_assoc.
Qed.

Lemma tally_cons n b ballots : Forall (fun cts => List.length cts = n) (b :: ballots) ->
  tally n (b :: ballots) = plus2 b (tally n ballots) /\ List.length (tally n ballots) = n.
Proof.
  intros H. inversion H as [|? ? Hb Hr]; subst. 
  change (tally (List.length b) (b :: ballots)) with (fold_left plus2 ballots (plus2 (repeat Ciphertext_zero (List.length b)) b)).
  change (tally (List.length b) ballots) with (fold_left plus2 ballots (repeat Ciphertext_zero (List.length b))).
  rewrite (plus2_comm (repeat _ _) b) by apply repeat_length. rewrite plus2_zero by reflexivity.
  split; [apply tally_acc; [reflexivity|exact Hr]|]. apply tally_acc; [apply repeat_length|exact Hr].
Qed.

End Laws.

(** ** The operators of ciphertexts obey the laws of a module, as equations between ciphertexts *)
Theorem C84_module :
  forall (E : Env) (L : GroupLaws E),
    (forall a b : Ciphertext E, Ciphertext_add a b = Ciphertext_add b a) /\
    (forall a b c : Ciphertext E, Ciphertext_add a (Ciphertext_add b c) = Ciphertext_add (Ciphertext_add a b) c) /\
    (forall a : Ciphertext E, Ciphertext_add a Ciphertext_zero = a) /\
    (forall a b : Ciphertext E, Ciphertext_sub a b = Ciphertext_add a (Ciphertext_neg b)) /\
    (forall a : Ciphertext E, Ciphertext_add a (Ciphertext_neg a) = Ciphertext_zero) /\
    (forall (a b : Ciphertext E) k,
        Ciphertext_mul (Ciphertext_add a b) k = Ciphertext_add (Ciphertext_mul a k) (Ciphertext_mul b k)) /\
    (forall (a : Ciphertext E) k l,
        Ciphertext_mul a (k + l)%S = Ciphertext_add (Ciphertext_mul a k) (Ciphertext_mul a l)) /\
    (forall (a : Ciphertext E) k l, Ciphertext_mul (Ciphertext_mul a k) l = Ciphertext_mul a (k * l)%S) /\
    (forall a : Ciphertext E, Ciphertext_mul a 1%S = a) /\
    (forall x y, @Ciphertext_non_blinded E (x + y)%S = Ciphertext_add (Ciphertext_non_blinded x) (Ciphertext_non_blinded y)) /\
    (forall (a : Ciphertext E) k, (k < 2 ^ 64)%N ->
        Ciphertext_mul_u64 a k = N.iter k (Ciphertext_add a) Ciphertext_zero).
Proof.
  intros E L. repeat (split; [solve [eauto using add_comm, add_assoc, add_zero, sub_neg, add_neg, mul_add_l, mul_add_r,
                                      mul_mul, mul_one, non_blinded_add]|]).
  intros a k. apply (mul_u64 E L).
Qed.
Print Assumptions C84_module.

(** ** Totals do not depend on the order of the ballots ... *)
Theorem C84_tally_order :
  forall (E : Env) (L : GroupLaws E) n (ballots ballots' : list (list (Ciphertext E))),
    Forall (fun cts => List.length cts = n) ballots -> Permutation ballots ballots' ->
    tally n ballots = tally n ballots'.
Proof.
  intros E L n ballots ballots' Hn H.
  induction H as [|b l l' H IH|x y l|l l' l'' H IH H' IH'].
  - reflexivity.
  - pose proof (Forall_inv_tail Hn) as Hl.
    rewrite (proj1 (tally_cons E L n b l Hn)).
    rewrite (proj1 (tally_cons E L n b l' (Permutation_Forall (perm_skip b H) Hn))).
    rewrite (IH Hl). reflexivity.
  - pose proof (Permutation_Forall (perm_swap x y l) Hn) as Hn'.
    rewrite (proj1 (tally_cons E L n y (x :: l) Hn)), (proj1 (tally_cons E L n x (y :: l) Hn')).
    rewrite (proj1 (tally_cons E L n x l (Forall_inv_tail Hn))), (proj1 (tally_cons E L n y l (Forall_inv_tail Hn'))).
    rewrite !(plus2_assoc E L). f_equal. apply (plus2_comm E L).
    rewrite (Forall_inv Hn), (Forall_inv Hn'). reflexivity.
  - rewrite (IH Hn). apply IH'. exact (Permutation_Forall H Hn).
Qed.
Print Assumptions C84_tally_order.

(** ... parts of the ballots may be tallied separately and added ... *)
Theorem C84_tally_split :
  forall (E : Env) (L : GroupLaws E) n (ballots ballots' : list (list (Ciphertext E))),
    Forall (fun cts => List.length cts = n) ballots -> Forall (fun cts => List.length cts = n) ballots' ->
    forall i a b, nth_error (tally n ballots) i = Some a -> nth_error (tally n ballots') i = Some b ->
      nth_error (tally n (ballots ++ ballots')) i = Some (Ciphertext_add a b).
Proof.
  intros E L n ballots ballots' H H' i a b Ha Hb.
  assert (Hs : tally n (ballots ++ ballots') = plus2 E (tally n ballots) (tally n ballots')).
  { change (tally n (ballots ++ ballots')) with (fold_left (plus2 E) (ballots ++ ballots') (repeat Ciphertext_zero n)).
    rewrite fold_left_app. apply (tally_acc E L n); [|exact H'].
    apply (tally_acc E L n ballots); [apply repeat_length|exact H]. }
  rewrite Hs. unfold plus2. rewrite nth_error_map.
  assert (Hc : nth_error (combine (tally n ballots) (tally n ballots')) i = Some (a, b)).
  { revert Ha Hb. generalize (tally n ballots) (tally n ballots'). clear. intros u v. revert i v.
    induction u as [|x u IH]; intros [|i] [|y v] Ha Hb; try discriminate; cbn in *; [congruence|]. apply IH; assumption. }
  rewrite Hc. reflexivity.
Qed.
Print Assumptions C84_tally_split.

(** ... and a ballot may be taken out again. *)
Theorem C84_tally_remove :
  forall (E : Env) (L : GroupLaws E) n (b : list (Ciphertext E)) ballots,
    Forall (fun cts => List.length cts = n) (b :: ballots) ->
    map (fun p => Ciphertext_sub (fst p) (snd p)) (combine (tally n (b :: ballots)) b) = tally n ballots.
Proof.
  intros E L n b ballots H. destruct (tally_cons E L n b ballots H) as [-> Hl].
  pose proof (Forall_inv H) as Hb. cbn in Hb. rewrite <- Hb in Hl at 2. clear -L Hl. revert Hl.
  generalize (tally n ballots). intros t. revert t. induction b as [|x b IH]; intros [|y t] Hl; try discriminate; [reflexivity|].
  unfold plus2 in *. cbn [combine map fst snd]. f_equal; [|apply IH; cbn in Hl; lia].
  rewrite (sub_neg E L), (add_comm E L x y), <- (add_assoc E L), (add_neg E L). apply (add_zero E L).
Qed.
Print Assumptions C84_tally_remove.

Example C84_example :
  let ct (x y : Z) : Ciphertext RE := {| random_element := re x; blinded_element := re y |} in
  let bs := [[ct 1 2; ct 3 4]; [ct 5 6; ct 7 8]; [ct 9 10; ct 11 12]]%Z in
  let t := tally 2 bs in
  Forall (fun cts => List.length cts = 2) bs /\
  map (fun p => e_eqb (random_element (fst p)) (re (snd p))) (combine t [15; 21]%Z) = [true; true] /\
  map (fun p => e_eqb (blinded_element (fst p)) (re (snd p))) (combine t [18; 24]%Z) = [true; true] /\
  map (fun p => e_eqb (blinded_element (fst p)) (re (snd p))) (combine t [18; 25]%Z) = [true; false].
Proof. cbv zeta. split; [repeat constructor|]. vm_compute. auto. Qed.
