(** * Primality of the order of Curve25519's prime subgroup (and of Ristretto) *)
From Coq Require Import ZArith Znumtheory Lia List Bool.
From Verif.Instance Require Import Fermat.
Import ListNotations.
Open Scope Z_scope.

(** ** Modular powers *)
Fixpoint powmod (a : Z) (e : positive) (n : Z) : Z :=
  match e with
  | xH => a mod n
  | xO e' => let x := powmod a e' n in (x * x) mod n
  | xI e' => let x := powmod a e' n in ((x * x) mod n * a) mod n
  end.

Lemma powmod_spec a e n : 0 < n -> powmod a e n = a ^ Zpos e mod n.
Proof.
  intros Hn. induction e as [e IH|e IH|]; cbn [powmod].
  - rewrite IH. rewrite Pos2Z.inj_xI, Z.pow_add_r, Z.pow_1_r by lia.
    replace (2 * Z.pos e) with (Z.pos e + Z.pos e) by lia. rewrite Z.pow_add_r by lia.
    rewrite <- Z.mul_mod by lia. rewrite Z.mul_mod_idemp_l by lia. reflexivity.
  - rewrite IH. rewrite Pos2Z.inj_xO.
    replace (2 * Z.pos e) with (Z.pos e + Z.pos e) by lia. rewrite Z.pow_add_r by lia.
    rewrite <- Z.mul_mod by lia. reflexivity.
  - rewrite Z.pow_1_r. reflexivity.
Qed.

Lemma pow_mod_1 a k n : 1 < n -> 0 <= k -> a mod n = 1 -> a ^ k mod n = 1.
Proof.
  intros Hn Hk H. pattern k. apply natlike_ind; [| |exact Hk].
  - rewrite Z.pow_0_r. apply Z.mod_small. lia.
  - intros x Hx IH. rewrite Z.pow_succ_r by exact Hx.
    rewrite Z.mul_mod, H, IH by lia. apply Z.mod_small. lia.
Qed.

(** ** Pocklington's criterion: every prime divisor of [n] is 1 modulo [p] *)
Lemma pocklington_divisor n p R a q :
  1 < n -> Znumtheory.prime p -> 0 < R -> n - 1 = p * R -> 0 <= a ->
  a ^ (n - 1) mod n = 1 -> Z.gcd (a ^ R - 1) n = 1 ->
  Znumtheory.prime q -> (q | n) -> (p | q - 1).
Proof.
  intros Hn Hp HR Hfac Ha Hpow Hgcd Hq Hqn.
  assert (Hq1 : 1 < q) by (destruct Hq; assumption).
  assert (Hp1 : 1 < p) by (destruct Hp; assumption).
  assert (Hpowq : a ^ (n - 1) mod q = 1).
  { destruct Hqn as [k Hk]. rewrite (Z.div_mod (a ^ (n - 1)) n) by lia. rewrite Hpow, Hk.
    replace (k * q * (a ^ (k * q - 1) / (k * q)) + 1)
      with (1 + (k * (a ^ (k * q - 1) / (k * q))) * q) by ring.
    rewrite Z.mod_add by lia. apply Z.mod_small. lia. }
  assert (Hqa : ~ (q | a)).
  { intros Hd. assert (Hd' : (q | a ^ (n - 1))).
    { replace (n - 1) with (Z.succ (n - 2)) by lia. rewrite Z.pow_succ_r by lia.
      apply Z.divide_mul_l. exact Hd. }
    apply Z.mod_divide in Hd'; [|lia]. lia. }
  assert (Hferm : a ^ (q - 1) mod q = 1) by (apply fermat_Z_1; assumption).
  destruct (Zdivide_dec p (q - 1)) as [Hd|Hd]; [exact Hd|exfalso].
  assert (Hrel : rel_prime p (q - 1)) by (apply prime_rel_prime; assumption).
  apply rel_prime_bezout in Hrel. destruct Hrel as [u v Huv].
  (* make both exponents non-negative: u' p = 1 + v' (q-1) *)
  set (u' := u mod (q - 1) + (q - 1)).
  assert (Hu' : 0 <= u') by (unfold u'; pose proof (Z.mod_pos_bound u (q - 1)); lia).
  assert (Hv' : exists v', 0 <= v' /\ u' * p = 1 + v' * (q - 1)).
  { exists ((u' * p - 1) / (q - 1)).
    assert (Hdiv : (q - 1 | u' * p - 1)).
    { exists (- v - (u / (q - 1)) * p + p). unfold u'.
      pose proof (Z.div_mod u (q - 1)). nia. }
    split.
    - apply Z.div_pos; [|lia]. unfold u'. pose proof (Z.mod_pos_bound u (q - 1)). nia.
    - destruct Hdiv as [w Hw]. rewrite Hw. rewrite Z.div_mul by lia. lia. }
  destruct Hv' as (v' & Hv0 & Hv).
  assert (HR1 : a ^ R mod q = 1).
  { assert (H1 : (a ^ (n - 1)) ^ u' mod q = 1) by (apply pow_mod_1; assumption).
    rewrite <- Z.pow_mul_r in H1 by lia.
    replace ((n - 1) * u') with (R + (q - 1) * (v' * R)) in H1 by nia.
    rewrite Z.pow_add_r in H1 by nia. rewrite Z.pow_mul_r in H1 by nia.
    rewrite Z.mul_mod in H1 by lia.
    rewrite (pow_mod_1 (a ^ (q - 1)) (v' * R) q) in H1; [|lia|nia|exact Hferm].
    rewrite Z.mul_1_r, Z.mod_mod in H1 by lia. exact H1. }
  assert (Hqd : (q | a ^ R - 1)).
  { apply Z.mod_divide; [lia|]. rewrite Zminus_mod, HR1. rewrite (Z.mod_small 1) by lia. reflexivity. }
  assert (Hq' : (q | 1)) by (rewrite <- Hgcd; apply Z.gcd_greatest; assumption).
  apply Z.divide_1_r in Hq'. lia.
Qed.

(** A number whose prime divisors all exceed its square root is prime *)
Lemma prime_by_divisors n :
  1 < n -> (forall q, Znumtheory.prime q -> (q | n) -> n < q * q) -> Znumtheory.prime n.
Proof.
  intros Hn H. destruct (prime_dec n) as [Hp|Hp]; [exact Hp|exfalso].
  destruct (not_prime_divide n Hn Hp) as (d & Hd & Hdn).
  destruct Hdn as [k Hk].
  assert (Hk1 : 1 < k < n) by nia.
  (* a prime divisor of each cofactor *)
  assert (Hpd : forall m, 1 < m -> exists q, Znumtheory.prime q /\ (q | m)).
  { intros m Hm. assert (Hm0 : 0 <= m) by lia. revert Hm. pattern m.
    apply Zlt_0_ind; [|exact Hm0]. intros x IH _ Hx.
    destruct (prime_dec x) as [Hpx|Hpx].
    - exists x. split; [exact Hpx|apply Z.divide_refl].
    - destruct (not_prime_divide x Hx Hpx) as (e & He & Hex).
      destruct (IH e) as (q & Hq & Hqe); [lia|lia|].
      exists q. split; [exact Hq|]. eapply Z.divide_trans; eassumption. }
  destruct (Hpd d) as (q1 & Hq1 & Hq1d); [lia|].
  destruct (Hpd k) as (q2 & Hq2 & Hq2k); [lia|].
  assert (H1 : n < q1 * q1).
  { apply H; [exact Hq1|]. eapply Z.divide_trans; [exact Hq1d|]. exists k. exact Hk. }
  assert (H2 : n < q2 * q2).
  { apply H; [exact Hq2|]. eapply Z.divide_trans; [exact Hq2k|]. exists d. lia. }
  assert (q1 <= d) by (apply Z.divide_pos_le; [lia|assumption]).
  assert (q2 <= k) by (apply Z.divide_pos_le; [lia|assumption]).
  assert (1 < q1) by (destruct Hq1; assumption). assert (1 < q2) by (destruct Hq2; assumption).
  assert (q1 * q2 <= d * k) by (apply Z.mul_le_mono_nonneg; lia).
  destruct (Z_le_gt_dec q1 q2).
  - assert (q1 * q1 <= q1 * q2) by (apply Z.mul_le_mono_nonneg_l; lia). lia.
  - assert (q2 * q2 <= q1 * q2) by (apply Z.mul_le_mono_nonneg_r; lia). lia.
Qed.

(** Boolean certificate check for one step: [n - 1 = p * R], witness [a] *)
Definition pock_check (n p a : Z) (R e : positive) : bool :=
  (n - 1 =? p * Zpos R) && (Zpos e =? n - 1) && (powmod a e n =? 1)
  && (Z.gcd (powmod a R n - 1) n =? 1) && (1 <? n) && (0 <=? a).

Lemma pock_check_ok n p a R e q :
  pock_check n p a R e = true -> Znumtheory.prime p ->
  Znumtheory.prime q -> (q | n) -> (p | q - 1).
Proof.
  unfold pock_check. intros H Hp Hq Hqn.
  apply andb_prop in H as [H H6]. apply andb_prop in H as [H H5]. apply andb_prop in H as [H H4].
  apply andb_prop in H as [H H3]. apply andb_prop in H as [H1 H2].
  apply Z.eqb_eq in H1, H2, H3, H4. apply Z.ltb_lt in H5. apply Z.leb_le in H6.
  rewrite powmod_spec in H3 by lia. rewrite powmod_spec in H4 by lia.
  apply (pocklington_divisor n p (Zpos R) a q); try assumption; try lia.
  - rewrite <- H2. exact H3.
  - assert (Hg : Z.gcd (a ^ Z.pos R - 1) n = Z.gcd (a ^ Z.pos R mod n - 1) n).
    { rewrite (Z.gcd_comm (a ^ Z.pos R - 1)), (Z.gcd_comm (_ mod _ - 1)).
      rewrite <- (Z.gcd_mod (a ^ Z.pos R mod n - 1)) by lia.
      rewrite Zminus_mod_idemp_l. rewrite Z.gcd_mod by lia. reflexivity. }
    rewrite Hg. exact H4.
Qed.

Lemma pock_prime n p a R e :
  pock_check n p a R e = true -> Znumtheory.prime p -> n < p * p -> Znumtheory.prime n.
Proof.
  intros H Hp Hlt. assert (Hn : 1 < n).
  { unfold pock_check in H. apply andb_prop in H as [H _]. apply andb_prop in H as [_ H].
    apply Z.ltb_lt. exact H. }
  apply prime_by_divisors; [exact Hn|]. intros q Hq Hqn.
  pose proof (pock_check_ok n p a R e q H Hp Hq Hqn) as Hd.
  assert (Hq1 : 1 < q) by (destruct Hq; assumption).
  assert (Hp1 : 1 < p) by (destruct Hp; assumption).
  assert (p <= q - 1) by (apply Z.divide_pos_le; [lia|exact Hd]). nia.
Qed.

(** Small primes by trial division *)
Fixpoint no_divisor (fuel : nat) (d n : Z) : bool :=
  match fuel with
  | O => false
  | S f => if n <? d * d then true else if n mod d =? 0 then false else no_divisor f (d + 1) n
  end.

Lemma no_divisor_ok fuel d n :
  no_divisor fuel d n = true -> 1 < d -> (forall x, 1 < x < d -> ~ (x | n)) ->
  forall x, 1 < x -> x * x <= n -> ~ (x | n).
Proof.
  revert d; induction fuel as [|f IH]; intros d H Hd Hsmall x Hx Hxx; cbn in H; [discriminate|].
  destruct (n <? d * d) eqn:Hlt.
  - apply Z.ltb_lt in Hlt. apply Hsmall. nia.
  - destruct (n mod d =? 0) eqn:Hmod; [discriminate|].
    apply (IH (d + 1)); try assumption; [lia|].
    intros y Hy Hdiv. destruct (Z.eq_dec y d) as [->|Hyd].
    + apply Z.mod_divide in Hdiv; [|lia]. apply Z.eqb_neq in Hmod. contradiction.
    + apply (Hsmall y); [lia|exact Hdiv].
Qed.

Lemma small_prime fuel n : no_divisor fuel 2 n = true -> 1 < n -> Znumtheory.prime n.
Proof.
  intros H Hn. apply prime_by_divisors; [exact Hn|]. intros q Hq Hqn.
  destruct (Z_lt_le_dec n (q * q)) as [Hlt|Hle]; [exact Hlt|exfalso].
  assert (1 < q) by (destruct Hq; assumption).
  apply (no_divisor_ok fuel 2 n H ltac:(lia) ltac:(intros; lia) q); [lia|lia|exact Hqn].
Qed.

Lemma prime_531581 : Znumtheory.prime 531581.
Proof. apply (small_prime 2000); [vm_compute; reflexivity | lia]. Qed.

Lemma prime_1224481 : Znumtheory.prime 1224481.
Proof. apply (small_prime 2000); [vm_compute; reflexivity | lia]. Qed.

(** 1257559732178653 = 1 + 2^2 * 3 * 7 * 23 * 531581 * 1224481: both large factors are needed *)
Lemma prime_1257559732178653 : Znumtheory.prime 1257559732178653.
Proof.
  apply prime_by_divisors; [lia|]. intros q Hq Hqn.
  assert (H1 : (531581 | q - 1)).
  { apply (pock_check_ok 1257559732178653 531581 2 2365697292 (1257559732178652) q); try assumption.
    - vm_compute; reflexivity.
    - exact prime_531581. }
  assert (H2 : (1224481 | q - 1)).
  { apply (pock_check_ok 1257559732178653 1224481 2 1027014492 (1257559732178652) q); try assumption.
    - vm_compute; reflexivity.
    - exact prime_1224481. }
  assert (Hq1 : 1 < q) by (destruct Hq; assumption).
  assert (H3 : (531581 * 1224481 | q - 1)).
  { destruct H1 as [k Hk]. assert (Hg : (1224481 | 531581 * k)) by (rewrite Z.mul_comm, <- Hk; exact H2).
    apply Gauss in Hg; [|apply rel_prime_sym; apply Zgcd_1_rel_prime; vm_compute; reflexivity].
    destruct Hg as [k' Hk']. exists k'. lia. }
  assert (531581 * 1224481 <= q - 1) by (apply Z.divide_pos_le; [lia|exact H3]). nia.
Qed.

Lemma prime_4434155615661930479 : Znumtheory.prime 4434155615661930479.
Proof. apply (pock_prime 4434155615661930479 1257559732178653 2 3526 4434155615661930478);
    [vm_compute; reflexivity | | lia]. exact prime_1257559732178653. Qed.

Lemma prime_172054593956031949258510691 : Znumtheory.prime 172054593956031949258510691.
Proof. apply (pock_prime 172054593956031949258510691 4434155615661930479 2 38802110 172054593956031949258510690);
    [vm_compute; reflexivity | | lia]. exact prime_4434155615661930479. Qed.

Lemma prime_19757330305831588566944191468367130476339 :
  Znumtheory.prime 19757330305831588566944191468367130476339.
Proof.
  apply (pock_prime 19757330305831588566944191468367130476339 172054593956031949258510691 2 114831751082918 19757330305831588566944191468367130476338);
    [vm_compute; reflexivity | | lia].
  exact prime_172054593956031949258510691.
Qed.

Lemma prime_276602624281642239937218680557139826668747 :
  Znumtheory.prime 276602624281642239937218680557139826668747.
Proof.
  apply (pock_prime 276602624281642239937218680557139826668747 19757330305831588566944191468367130476339 2 14 276602624281642239937218680557139826668746);
    [vm_compute; reflexivity | | lia].
  exact prime_19757330305831588566944191468367130476339.
Qed.

(** The order of the prime-order subgroup of Curve25519 *)
Definition ell : Z := 2 ^ 252 + 27742317777372353535851937790883648493.

Lemma prime_ell : Znumtheory.prime ell.
Proof.
  replace ell with 7237005577332262213973186563042994240857116359379907606001950938285454250989 by (vm_compute; reflexivity).
  apply (pock_prime 7237005577332262213973186563042994240857116359379907606001950938285454250989 276602624281642239937218680557139826668747 2 26163907866482859529727157400808004 7237005577332262213973186563042994240857116359379907606001950938285454250988);
    [vm_compute; reflexivity | | lia].
  exact prime_276602624281642239937218680557139826668747.
Qed.

(** A 65-bit prime: the order of the group used by the examples *)
Definition qx : Z := 18446744073709551923.

Lemma prime_721351 : Znumtheory.prime 721351.
Proof. apply (small_prime 2000); [vm_compute; reflexivity | lia]. Qed.

Lemma prime_152024723251 : Znumtheory.prime 152024723251.
Proof. apply (pock_prime 152024723251 721351 2 210750 152024723250); [vm_compute; reflexivity | | lia].
  exact prime_721351. Qed.

Lemma prime_qx : Znumtheory.prime qx.
Proof. apply (pock_prime qx 152024723251 2 121340422 18446744073709551922); [vm_compute; reflexivity | | unfold qx; lia].
  exact prime_152024723251. Qed.
