(** * Polynomials over the scalar field, Lagrange interpolation *)
From Coq Require Import List NArith ZArith Lia Bool Arith Field.
From Verif.Model Require Import Base Group.
From Verif.Spec Require Import Sharing.
From Verif.Proofs Require Import Algebra.
Import ListNotations.

Section Poly.
Context {G : Group} (L : GroupLaws G).
Local Notation scalar := (Scalar G).
Add Field poly_field : (s_field L).
Local Notation peval := (@Spec.Sharing.peval G).

(** ** synthetic division *)
Fixpoint quot (a : scalar) (p : list scalar) : list scalar :=
  match p with
  | [] => []
  | _ :: p' => match p' with [] => [] | _ => peval p' a :: quot a p' end
  end.

Lemma quot_length a p : length (quot a p) = pred (length p).
Proof.
  induction p as [|c p IH]; [reflexivity|]. cbn [quot]. destruct p as [|c' p]; [reflexivity|].
  cbn [length] in *. rewrite IH. cbn. reflexivity.
Qed.

Lemma quot_spec a p x : peval p x = ((x - a) * peval (quot a p) x + peval p a)%S.
Proof.
  induction p as [|c p IH]; [cbn; ring|]. cbn [quot]. destruct p as [|c' p]; [cbn; ring|].
  remember (c' :: p) as p' eqn:Hp. cbn [peval]. rewrite IH at 1. ring.
Qed.

Lemma quot_zero a p : peval p a = 0%S -> Forall (fun c => c = 0%S) (quot a p) -> Forall (fun c => c = 0%S) p.
Proof.
  induction p as [|c p IH]; [constructor|]. cbn [quot]. destruct p as [|c' p].
  - cbn. intros H _. constructor; [|constructor]. rewrite <- H. ring.
  - remember (c' :: p) as p' eqn:Hp. cbn [peval]. intros H Hq. inversion Hq as [|? ? H1 H2]; subst x l.
    constructor; [|auto]. rewrite <- H, H1. ring.
Qed.

(** a polynomial with at most as many coefficients as distinct roots is zero *)
Lemma roots_zero xs : NoDup xs -> forall p, (length p <= length xs)%nat ->
  (forall x, In x xs -> peval p x = 0%S) -> Forall (fun c => c = 0%S) p.
Proof.
  induction 1 as [|a xs Ha _ IH]; intros p Hl H.
  - destruct p; [constructor|cbn in Hl; lia].
  - apply (quot_zero a); [apply H; left; reflexivity|]. apply IH; [rewrite quot_length; cbn in Hl; lia|].
    intros x Hx. assert (Hne : (x - a)%S <> 0%S).
    { intros Hz. apply (s_sub_eq_0 L) in Hz. subst. contradiction. }
    pose proof (quot_spec a p x) as Hq. rewrite (H x) in Hq by (right; exact Hx).
    rewrite (H a) in Hq by (left; reflexivity).
    destruct (s_mul_integral L (x - a)%S (peval (quot a p) x)) as [Hz|Hz]; [|contradiction|exact Hz].
    rewrite Hq. ring.
Qed.

Lemma peval_zero p x : Forall (fun c => c = 0%S) p -> peval p x = 0%S.
Proof. induction 1 as [|c p -> _ IH]; [reflexivity|]. cbn. rewrite IH. ring. Qed.

(** ** operations *)
Fixpoint padd (p q : list scalar) : list scalar :=
  match p, q with
  | [], _ => q
  | _, [] => p
  | a :: p', b :: q' => (a + b)%S :: padd p' q'
  end.

Definition pscale (k : scalar) (p : list scalar) : list scalar := map (fun a => (k * a)%S) p.

(** [(a - X) * p] *)
Definition plin (a : scalar) (p : list scalar) : list scalar :=
  padd (pscale a p) (0%S :: pscale (- (1))%S p).

Lemma peval_padd p q x : peval (padd p q) x = (peval p x + peval q x)%S.
Proof.
  revert q; induction p as [|a p IH]; intros [|b q]; cbn; try ring. rewrite IH. ring.
Qed.
Lemma padd_length p q : length (padd p q) = Nat.max (length p) (length q).
Proof. revert q; induction p as [|a p IH]; intros [|b q]; cbn; try lia. rewrite IH. reflexivity. Qed.
Lemma peval_pscale k p x : peval (pscale k p) x = (k * peval p x)%S.
Proof.
  induction p as [|a p IH]; [cbn; ring|].
  change (k * a + x * peval (pscale k p) x = k * (a + x * peval p x))%S. rewrite IH. ring.
Qed.
Lemma pscale_length k p : length (pscale k p) = length p.
Proof. apply map_length. Qed.
Lemma peval_plin a p x : peval (plin a p) x = ((a - x) * peval p x)%S.
Proof. unfold plin. rewrite peval_padd. cbn [peval]. rewrite !peval_pscale. ring. Qed.
Lemma plin_length a p : length (plin a p) = S (length p).
Proof. unfold plin. rewrite padd_length. cbn [length]. rewrite !pscale_length. lia. Qed.

(** polynomials of the same length that agree on enough points are equal *)
Lemma peval_unique xs p q : NoDup xs -> length p = length q -> (length p <= length xs)%nat ->
  (forall x, In x xs -> peval p x = peval q x) -> p = q.
Proof.
  intros Hnd Hl Hlen H.
  assert (Hz : Forall (fun c => c = 0%S) (padd p (pscale (- (1))%S q))).
  { apply (roots_zero xs Hnd); [rewrite padd_length, pscale_length; lia|].
    intros x Hx. rewrite peval_padd, peval_pscale, (H x Hx). ring. }
  clear - Hz Hl L. revert q Hl Hz. induction p as [|a p IH]; intros [|b q] Hl Hz; try discriminate; [reflexivity|].
  cbn in Hz. inversion Hz as [|? ? H1 H2]; subst. f_equal; [|apply IH; auto].
  transitivity (a + (- (1)) * b + b)%S; [ring|]. rewrite H1. ring.
Qed.

Lemma peval_agree xs p q : NoDup xs -> (length p <= length xs)%nat -> (length q <= length xs)%nat ->
  (forall x, In x xs -> peval p x = peval q x) -> forall x, peval p x = peval q x.
Proof.
  intros Hnd Hp Hq H x.
  assert (Hz : Forall (fun c => c = 0%S) (padd p (pscale (- (1))%S q))).
  { apply (roots_zero xs Hnd); [rewrite padd_length, pscale_length; lia|].
    intros y Hy. rewrite peval_padd, peval_pscale, (H y Hy). ring. }
  apply (peval_zero _ x) in Hz. rewrite peval_padd, peval_pscale in Hz.
  transitivity (peval p x + (- (1)) * peval q x + peval q x)%S; [ring|]. rewrite Hz. ring.
Qed.

(** ** sums and products *)
Definition s_prod (l : list scalar) : scalar := fold_right s_mul 1%S l.
Definition s_sum (l : list scalar) : scalar := fold_right s_add 0%S l.

Lemma s_prod_cons x l : s_prod (x :: l) = (x * s_prod l)%S. Proof. reflexivity. Qed.
Lemma s_sum_cons x l : s_sum (x :: l) = (x + s_sum l)%S. Proof. reflexivity. Qed.

Lemma s_prod_neq_0 l : (forall x, In x l -> x <> 0%S) -> s_prod l <> 0%S.
Proof.
  induction l as [|x l IH]; intros H; [exact (s_1_neq_0 L)|]. rewrite s_prod_cons. apply (s_mul_neq_0 L); [apply H; left; reflexivity|].
  apply IH. intros; apply H; right; assumption.
Qed.

Lemma fold_left_prod l : forall a, fold_left s_mul l a = (a * s_prod l)%S.
Proof. induction l as [|x l IH]; intros a; [cbn; ring|]. cbn [fold_left]. rewrite IH, s_prod_cons. ring. Qed.

Definition others (i : nat) (is_ : list nat) : list nat := remove Nat.eq_dec i is_.

Lemma others_notin i l : ~ In i l -> others i l = l.
Proof. apply notin_remove. Qed.

Lemma s_prod_others (f : nat -> scalar) i l : NoDup l -> In i l ->
  s_prod (map f l) = (f i * s_prod (map f (others i l)))%S.
Proof.
  induction 1 as [|j l Hj Hnd IH]; intros Hin; [contradiction|]. unfold others. cbn [remove].
  destruct (Nat.eq_dec i j) as [->|Hne].
  - fold (others j l). rewrite others_notin by exact Hj. reflexivity.
  - destruct Hin as [->|Hin]; [congruence|]. cbn [map]. rewrite !s_prod_cons, (IH Hin). unfold others. ring.
Qed.

Lemma others_length i l : NoDup l -> In i l -> S (length (others i l)) = length l.
Proof.
  induction 1 as [|j l Hj Hnd IH]; intros Hin; [contradiction|]. unfold others. cbn [remove].
  destruct (Nat.eq_dec i j) as [->|Hne].
  - fold (others j l). rewrite others_notin by exact Hj. reflexivity.
  - destruct Hin as [->|Hin]; [congruence|]. cbn. rewrite <- (IH Hin). reflexivity.
Qed.

Lemma in_others j i l : In j (others i l) <-> In j l /\ j <> i.
Proof.
  unfold others. split.
  - intros H. apply in_remove in H. tauto.
  - intros [H1 H2]. apply in_in_remove; auto.
Qed.

(** ** interpolation *)
Section Interpolation.
Variable nd : nat -> scalar.
Variable is_ : list nat.
Hypothesis Hnodup : NoDup is_.
Hypothesis Hinj : forall i j, In i is_ -> In j is_ -> nd i = nd j -> i = j.

Definition lag_num (i : nat) (x : scalar) : scalar := s_prod (map (fun j => nd j - x)%S (others i is_)).
Definition lag_den (i : nat) : scalar := s_prod (map (fun j => nd j - nd i)%S (others i is_)).
Definition lag_poly (i : nat) : list scalar :=
  pscale (s_inv L (lag_den i)) (fold_right (fun j p => plin (nd j) p) [1%S] (others i is_)).
Definition lag_basis (i : nat) (x : scalar) : scalar := (lag_num i x * s_inv L (lag_den i))%S.

Lemma lag_den_neq_0 i : In i is_ -> lag_den i <> 0%S.
Proof.
  intros Hi. apply s_prod_neq_0. intros x Hx. apply in_map_iff in Hx as (j & <- & Hj). apply in_others in Hj as [Hj Hne].
  intros Hz. apply (s_sub_eq_0 L) in Hz. apply Hne. apply Hinj; assumption.
Qed.

Lemma lag_poly_eval i x : peval (lag_poly i) x = lag_basis i x.
Proof.
  unfold lag_poly, lag_basis, lag_num. rewrite peval_pscale.
  assert (H : forall l, peval (fold_right (fun j p => plin (nd j) p) [1%S] l) x = s_prod (map (fun j => nd j - x)%S l)).
  { induction l as [|j l IH]; [cbn; ring|]. cbn [fold_right map]. rewrite s_prod_cons, peval_plin, IH. reflexivity. }
  rewrite H. ring.
Qed.

Lemma lag_poly_length i : In i is_ -> length (lag_poly i) = length is_.
Proof.
  intros Hi. unfold lag_poly. rewrite pscale_length, <- (others_length i is_ Hnodup Hi).
  induction (others i is_) as [|j l IH]; [reflexivity|]. cbn [fold_right length]. rewrite plin_length, IH. reflexivity.
Qed.

Lemma lag_basis_same i : In i is_ -> lag_basis i (nd i) = 1%S.
Proof. intros Hi. unfold lag_basis. fold (lag_den i). change (lag_num i (nd i)) with (lag_den i).
  rewrite <- (s_inv_l L (lag_den i) (lag_den_neq_0 i Hi)). ring. Qed.

Lemma lag_basis_other i j : In j is_ -> j <> i -> lag_basis i (nd j) = 0%S.
Proof.
  intros Hj Hne. unfold lag_basis, lag_num.
  assert (H : forall l, In j l -> s_prod (map (fun k => nd k - nd j)%S l) = 0%S).
  { induction l as [|k l IH]; intros Hin; [contradiction|]. cbn [map]. rewrite s_prod_cons.
    destruct Hin as [->|Hin]; [ring|]. rewrite (IH Hin). ring. }
  rewrite H by (apply in_others; auto). ring.
Qed.

(** the interpolating polynomial *)
Definition lag_interp (y : nat -> scalar) : list scalar :=
  fold_right (fun i p => padd (pscale (y i) (lag_poly i)) p) [] is_.

Lemma lag_interp_eval y x : peval (lag_interp y) x = s_sum (map (fun i => (y i * lag_basis i x)%S) is_).
Proof.
  unfold lag_interp.
  enough (H : forall l, peval (fold_right (fun i p => padd (pscale (y i) (lag_poly i)) p) [] l) x =
    s_sum (map (fun i => (y i * lag_basis i x)%S) l)) by apply H.
  induction l as [|i l IH]; [reflexivity|].
  cbn [fold_right map]. rewrite s_sum_cons, peval_padd, peval_pscale, lag_poly_eval, IH. reflexivity.
Qed.

Lemma lag_interp_length y : length (lag_interp y) = length is_.
Proof.
  unfold lag_interp.
  assert (H : forall l, (forall i, In i l -> In i is_) ->
    (length (fold_right (fun i p => padd (pscale (y i) (lag_poly i)) p) [] l) <= length is_)%nat /\
    (l <> [] -> length (fold_right (fun i p => padd (pscale (y i) (lag_poly i)) p) [] l) = length is_)).
  { induction l as [|i l IH]; intros Hl; [cbn; split; [lia|congruence]|].
    destruct (IH (fun j Hj => Hl j (or_intror Hj))) as [H1 _].
    assert (Heq : length (fold_right (fun i p => padd (pscale (y i) (lag_poly i)) p) [] (i :: l)) = length is_).
    { cbn [fold_right]. rewrite padd_length, pscale_length, lag_poly_length by (apply Hl; left; reflexivity). lia. }
    rewrite Heq. auto. }
  destruct is_ as [|i l] eqn:Hl; [reflexivity|]. rewrite <- Hl in *. apply H; [auto|]. rewrite Hl. discriminate.
Qed.

Lemma lag_interp_node y j : In j is_ -> peval (lag_interp y) (nd j) = y j.
Proof.
  intros Hj. rewrite lag_interp_eval.
  assert (H : forall l, NoDup l -> (forall i, In i l -> In i is_) ->
    (In j l -> s_sum (map (fun i => (y i * lag_basis i (nd j))%S) l) = y j) /\
    (~ In j l -> s_sum (map (fun i => (y i * lag_basis i (nd j))%S) l) = 0%S)).
  { induction 1 as [|i l Hi Hnd IH]; intros Hl; [split; [contradiction|reflexivity]|].
    destruct (IH (fun k Hk => Hl k (or_intror Hk))) as [I1 I2]. cbn [map]. rewrite s_sum_cons. split.
    - intros [->|Hin].
      + rewrite (lag_basis_same j Hj), I2 by exact Hi. ring.
      + rewrite (lag_basis_other i j Hj) by (intros ->; contradiction). rewrite I1 by exact Hin. ring.
    - intros Hn. rewrite (lag_basis_other i j Hj) by (intros ->; apply Hn; left; reflexivity).
      rewrite I2 by (intros Hin; apply Hn; right; exact Hin). ring. }
  apply H; auto.
Qed.

Lemma nodes_nodup : NoDup (map nd is_).
Proof.
  clear - Hnodup Hinj. induction Hnodup as [|i l Hi Hnd IH]; [constructor|]. cbn. constructor.
  - intros Hin. apply in_map_iff in Hin as (j & Hj & Hin). apply Hinj in Hj; [subst; contradiction|right; exact Hin|left; reflexivity].
  - apply IH; [exact Hnd|]. intros; apply Hinj; auto; right; assumption.
Qed.

Lemma lagrange p x : (length p <= length is_)%nat ->
  peval p x = s_sum (map (fun i => (peval p (nd i) * lag_basis i x)%S) is_).
Proof.
  intros Hl. rewrite <- (lag_interp_eval (fun i => peval p (nd i))).
  apply (peval_agree (map nd is_)).
  - exact nodes_nodup.
  - rewrite map_length. exact Hl.
  - rewrite map_length, lag_interp_length. lia.
  - intros z Hz. apply in_map_iff in Hz as (j & <- & Hj). rewrite (lag_interp_node (fun i => peval p (nd i)) j Hj). reflexivity.
Qed.

(** a function on the nodes is given by exactly one polynomial with that many coefficients *)
Lemma interp_unique p q : length p = length is_ -> length q = length is_ ->
  (forall i, In i is_ -> peval p (nd i) = peval q (nd i)) -> p = q.
Proof.
  intros Hp Hq H. apply (peval_unique (map nd is_)); [exact nodes_nodup|congruence|rewrite map_length; lia|].
  intros z Hz. apply in_map_iff in Hz as (j & <- & Hj). apply H. exact Hj.
Qed.
End Interpolation.
End Poly.
