(** * Fermat's little theorem over [Z], by permuting the non-zero residues *)
From Coq Require Import ZArith Znumtheory Lia List Permutation.
Import ListNotations.
Open Scope Z_scope.

Section Fermat.
Context (q a : Z) (Hq : prime q) (Hqa : ~ (q | a)).

Let q_gt_1 : 1 < q. Proof. destruct Hq; assumption. Qed.

Definition residues : list Z := map Z.of_nat (seq 1 (Z.to_nat (q - 1))).

Lemma residues_In z : In z residues <-> 1 <= z <= q - 1.
Proof.
  unfold residues. rewrite in_map_iff. split.
  - intros (n & <- & Hn). apply in_seq in Hn. lia.
  - intros H. exists (Z.to_nat z). split; [lia|]. apply in_seq. lia.
Qed.

Lemma residues_NoDup : NoDup residues.
Proof.
  unfold residues. apply FinFun.Injective_map_NoDup; [|apply seq_NoDup].
  intros x y H. lia.
Qed.

Definition prod (l : list Z) : Z := fold_right Z.mul 1 l.

Lemma prod_perm l l' : Permutation l l' -> prod l = prod l'.
Proof. unfold prod. induction 1; cbn; nia. Qed.

Lemma not_div_mul x : 1 <= x <= q - 1 -> ~ (q | x).
Proof. intros Hx Hd. apply Z.divide_pos_le in Hd; lia. Qed.

Lemma prod_not_div l : (forall x, In x l -> 1 <= x <= q - 1) -> ~ (q | prod l).
Proof.
  induction l as [|x l IH]; cbn; intros H Hd.
  - apply Z.divide_1_r in Hd. lia.
  - apply prime_mult in Hd; [|exact Hq]. destruct Hd as [Hd|Hd].
    + apply (not_div_mul x); [apply H; left; reflexivity | exact Hd].
    + apply IH; [intros; apply H; right; assumption | exact Hd].
Qed.

Definition shifted : list Z := map (fun x => (a * x) mod q) residues.

Lemma shifted_range z : In z shifted -> 1 <= z <= q - 1.
Proof.
  unfold shifted. rewrite in_map_iff. intros (x & <- & Hx). apply residues_In in Hx.
  pose proof (Z.mod_pos_bound (a * x) q). assert ((a * x) mod q <> 0); [|lia].
  intros H0. apply Z.mod_divide in H0; [|lia]. apply prime_mult in H0; [|exact Hq].
  destruct H0 as [H0|H0]; [contradiction|]. apply (not_div_mul x Hx H0).
Qed.

Lemma NoDup_map_inj (f : Z -> Z) l :
  NoDup l -> (forall x y, In x l -> In y l -> f x = f y -> x = y) -> NoDup (map f l).
Proof.
  induction 1 as [|x l Hx Hl IH]; intros Hf; cbn; constructor.
  - rewrite in_map_iff. intros (y & Hy & Hin). apply Hx.
    rewrite <- (Hf y x); [exact Hin|right; exact Hin|left; reflexivity|exact Hy].
  - apply IH. intros; apply Hf; auto; right; assumption.
Qed.

Lemma shifted_NoDup : NoDup shifted.
Proof.
  unfold shifted. apply NoDup_map_inj; [apply residues_NoDup|].
  intros x y Hx Hy H. apply residues_In in Hx, Hy.
  assert (Hd : (q | a * (x - y))).
  { apply Z.mod_divide; [lia|]. replace (a * (x - y)) with (a * x - a * y) by ring.
    rewrite Zminus_mod, H, Z.sub_diag. apply Z.mod_0_l. lia. }
  apply prime_mult in Hd; [|exact Hq]. destruct Hd as [Hd|Hd]; [contradiction|].
  destruct Hd as [k Hk]. assert (k = 0) by nia. lia.
Qed.

Lemma shifted_perm : Permutation shifted residues.
Proof.
  apply NoDup_Permutation_bis; [apply shifted_NoDup| |].
  - unfold shifted. rewrite map_length. lia.
  - intros z Hz. apply residues_In. apply shifted_range. exact Hz.
Qed.

Lemma prod_map_mod l : prod (map (fun x => (a * x) mod q) l) mod q = (a ^ Z.of_nat (length l) * prod l) mod q.
Proof.
  induction l as [|x l IH]; [reflexivity|].
  cbn [map prod fold_right length]. fold (prod l). fold (prod (map (fun x => (a * x) mod q) l)).
  rewrite Z.mul_mod, IH by lia. rewrite Z.mod_mod, <- Z.mul_mod by lia.
  rewrite Nat2Z.inj_succ, Z.pow_succ_r by lia. f_equal. ring.
Qed.

Lemma fermat_Z_1 : a ^ (q - 1) mod q = 1.
Proof.
  pose proof (prod_map_mod residues) as H. fold shifted in H.
  rewrite (prod_perm _ _ shifted_perm) in H.
  assert (Hlen : Z.of_nat (length residues) = q - 1).
  { unfold residues. rewrite map_length, seq_length. lia. }
  rewrite Hlen in H.
  assert (Hd : (q | (a ^ (q - 1) - 1) * prod residues)).
  { apply Z.mod_divide; [lia|].
    replace ((a ^ (q - 1) - 1) * prod residues) with (a ^ (q - 1) * prod residues - prod residues) by ring.
    rewrite Zminus_mod, <- H, Z.sub_diag. apply Z.mod_0_l. lia. }
  apply prime_mult in Hd; [|exact Hq]. destruct Hd as [Hd|Hd].
  - destruct Hd as [k Hk]. replace (a ^ (q - 1)) with (1 + k * q) by lia.
    rewrite Z.mod_add by lia. apply Z.mod_small. lia.
  - exfalso. apply (prod_not_div residues); [|exact Hd]. intros x Hx. apply residues_In. exact Hx.
Qed.

End Fermat.
