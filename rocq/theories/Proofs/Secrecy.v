(** * Secrecy of encryptions and ballots from DDH: counting *)
From Coq Require Import List String NArith ZArith Arith Bool Lia Field Permutation.
From Verif.Model Require Import Base Group Transcript Keys Encryption LogEquality Ring Range Choice.
From Verif.Spec Require Import Encryption Choice Domains Rom Forking Verifiers Uniform Secrecy.
From Verif.Proofs Require Import Algebra Rom Forking Uniform UniformBallots.
Import ListNotations.
Open Scope string_scope.
Open Scope list_scope.
Open Scope nat_scope.

(** ** sums *)
Lemma lsum_map {A B : Type} (f : B -> nat) (g : A -> B) l : lsum f (map g l) = lsum (fun a => f (g a)) l.
Proof. unfold lsum. rewrite map_map. reflexivity. Qed.

Lemma lsum_perm {A : Type} (f : A -> nat) l l' : Permutation l l' -> lsum f l = lsum f l'.
Proof. induction 1 as [|x l l' _ IH|x y l|l l1 l2 _ IH1 _ IH2]; rewrite ?lsum_cons; lia. Qed.

Lemma lsum_prod {A B : Type} (f : A * B -> nat) l l' : lsum f (list_prod l l') = lsum (fun a => lsum (fun b => f (a, b)) l') l.
Proof. induction l as [|a l IH]; [reflexivity|]. cbn [list_prod]. rewrite lsum_app, lsum_cons, lsum_map, IH. reflexivity. Qed.

Lemma lsum_filter {A : Type} (f : A -> nat) (p : A -> bool) l : lsum f (filter p l) = lsum (fun a => b2n (p a) * f a) l.
Proof. induction l as [|a l IH]; [reflexivity|]. cbn [filter]. rewrite (lsum_cons (fun a => b2n (p a) * f a)). destruct (p a); cbn [b2n]; rewrite ?lsum_cons, IH; lia. Qed.

Lemma lsum_mul_r {A : Type} (f : A -> nat) k l : lsum (fun a => f a * k) l = lsum f l * k.
Proof. induction l as [|a l IH]; [reflexivity|]. rewrite !lsum_cons, IH. lia. Qed.

Lemma tally_lsum {A : Type} (l : list A) f : tally l f = Z.of_nat (lsum (fun a => b2n (f a)) l).
Proof. unfold tally. rewrite length_filter. reflexivity. Qed.

Lemma tally_ext {A : Type} (l : list A) f g : (forall a, f a = g a) -> tally l f = tally l g.
Proof. intros H. unfold tally. rewrite (filter_ext _ _ H). reflexivity. Qed.
Lemma tally_true {A : Type} (l : list A) : tally l (fun _ => true) = Z.of_nat (List.length l).
Proof. unfold tally. f_equal. induction l as [|a l IH]; [reflexivity|]. cbn. congruence. Qed.
Lemma tally_false {A : Type} (l : list A) : tally l (fun _ => false) = 0%Z.
Proof. unfold tally. induction l as [|a l IH]; [reflexivity|]. exact IH. Qed.

Lemma gap_ext {E : Env} (L : GroupLaws E) {C : Type} (coins : list C) (A A' : triple -> C -> bool) :
  (forall T c, A T c = A' T c) -> ddh_gap L coins A = ddh_gap L coins A'.
Proof.
  intros H. unfold ddh_gap, ddh_real, ddh_random. f_equal; [f_equal|]; apply tally_ext; intros [xs c]; cbn [fst snd].
  - destruct xs as [|x [|r [|]]]; auto.
  - destruct xs as [|x [|r [|z [|]]]]; auto.
Qed.

Section Secrecy.
Context (E : Env) (L : GroupLaws E).
Local Notation scalar := (Scalar E).
Local Notation element := (Element E).
Local Notation scalars := (all_scalars L).
Local Notation q := (Z.to_nat (order L)).
Add Field s_field_secrecy : (s_field L).

Lemma all_len : List.length scalars = q.
Proof. exact (scalars_length E L). Qed.
Lemma all_in s : In s scalars.
Proof. exact (scalars_all E L s). Qed.
Lemma all_nodup : NoDup scalars.
Proof. exact (scalars_NoDup E L). Qed.
Lemma q_gt1 : 1 < q.
Proof. exact (q_pos E L). Qed.

(** change of variables *)
Lemma lsum_bij (h : scalar -> scalar) (f : scalar -> nat) : (forall x y, h x = h y -> x = y) ->
  lsum (fun x => f (h x)) scalars = lsum f scalars.
Proof.
  intros Hh. rewrite <- lsum_map. apply lsum_perm. apply NoDup_Permutation_bis.
  - apply NoDup_map_in; [|apply all_nodup]. intros x y _ _. apply Hh.
  - rewrite map_length. lia.
  - intros x _. apply all_in.
Qed.

Lemma lsum_one (s : scalar) a b : lsum (fun z => if scalar_dec L z s then a else b) scalars = a + (q - 1) * b.
Proof.
  pose proof (all_in s) as Hin. apply in_split in Hin as (l1 & l2 & Heq).
  pose proof all_nodup as Hnd. pose proof all_len as Hl. rewrite Heq in *. clear Heq.
  apply NoDup_remove_2 in Hnd. rewrite app_length in Hl. cbn [List.length] in Hl.
  rewrite lsum_app, lsum_cons. destruct (scalar_dec L s s); [|congruence].
  rewrite (lsum_ext _ (fun _ => b) l1), (lsum_ext _ (fun _ => b) l2), !lsum_const.
  - nia.
  - intros z Hz. destruct (scalar_dec L z s) as [->|]; [|reflexivity]. destruct Hnd. apply in_or_app. right. exact Hz.
  - intros z Hz. destruct (scalar_dec L z s) as [->|]; [|reflexivity]. destruct Hnd. apply in_or_app. left. exact Hz.
Qed.

(** ** tapes *)
Local Notation tapes := (tapes L).

Lemma tapes_in n : forall xs, In xs (tapes n) <-> List.length xs = n.
Proof.
  induction n as [|n IH]; intros xs; cbn [Secrecy.tapes].
  - split; [intros [<-|[]]; reflexivity|]. intros H. left. destruct xs; [reflexivity|discriminate].
  - rewrite in_flat_map. split.
    + intros (x & _ & H). apply in_map_iff in H as (t & <- & Ht). apply IH in Ht. cbn. congruence.
    + intros H. destruct xs as [|x t]; [discriminate|]. exists x. split; [apply all_in|]. apply in_map, IH. cbn in H. congruence.
Qed.

Lemma flat_map_nodup {A B : Type} (f : A -> list B) l : NoDup l -> (forall a, In a l -> NoDup (f a)) ->
  (forall a a' b, In b (f a) -> In b (f a') -> a = a') -> NoDup (flat_map f l).
Proof.
  induction 1 as [|a l Ha Hl IH]; intros Hf Hd; cbn; [constructor|].
  assert (Happ : forall l1 l2 : list B, NoDup l1 -> NoDup l2 -> (forall b, In b l1 -> ~ In b l2) -> NoDup (l1 ++ l2)).
  { intros l1 l2 H1 H2 H. induction H1 as [|b l1 Hb H1 IH1]; [exact H2|]. cbn. constructor.
    - intros Hin. apply in_app_iff in Hin as [Hin|Hin]; [exact (Hb Hin)|exact (H b (or_introl eq_refl) Hin)].
    - apply IH1. intros c Hc. apply H. right. exact Hc. }
  apply Happ; [apply Hf; left; reflexivity|apply IH; [intros; apply Hf; right; assumption|exact Hd]|].
  intros b Hb Hin. apply in_flat_map in Hin as (a' & Ha' & Hb'). rewrite (Hd a a' b Hb Hb') in Ha. exact (Ha Ha').
Qed.

Lemma tapes_nodup n : NoDup (tapes n).
Proof.
  induction n as [|n IH]; cbn [Secrecy.tapes]; [constructor; [intros []|constructor]|].
  apply flat_map_nodup; [apply all_nodup| |].
  - intros x _. apply NoDup_map_in; [|exact IH]. intros a b _ _ H. congruence.
  - intros x x' b H H'. apply in_map_iff in H as (t & <- & _). apply in_map_iff in H' as (t' & H' & _). congruence.
Qed.

Lemma tapes_len n : List.length (tapes n) = Z.to_nat (order L) ^ n.
Proof.
  induction n as [|n IH]; [reflexivity|]. cbn [Secrecy.tapes]. rewrite (flat_map_len _ (Z.to_nat (order L) ^ n)).
  - unfold all_scalars. rewrite map_length, seq_length. reflexivity.
  - intros x. rewrite map_length. exact IH.
Qed.

Definition tsum (n : nat) (f : list scalar -> nat) : nat := lsum f (tapes n).

Lemma tsum_0 f : tsum 0 f = f [].
Proof. unfold tsum. cbn. lia. Qed.
Lemma tsum_S n f : tsum (S n) f = lsum (fun x => tsum n (fun t => f (x :: t))) scalars.
Proof. unfold tsum. cbn [Secrecy.tapes]. rewrite lsum_flat_map. apply lsum_ext. intros x _. apply lsum_map. Qed.
Lemma tsum_ext n f g : (forall t, List.length t = n -> f t = g t) -> tsum n f = tsum n g.
Proof. intros H. apply lsum_ext. intros t Ht. apply H, tapes_in, Ht. Qed.
Lemma tsum_scale n k f : tsum n (fun t => k * f t) = k * tsum n f.
Proof. apply lsum_scale. Qed.
Lemma tsum_swap {A : Type} n (f : list scalar -> A -> nat) l : tsum n (fun t => lsum (f t) l) = lsum (fun a => tsum n (fun t => f t a)) l.
Proof. apply lsum_swap. Qed.

(** ** ciphertexts *)
Definition ct (x r : scalar) (M : element) : Ciphertext E :=
  {| random_element := generator * r; blinded_element := M + (generator * x) * r |}%E.
Fixpoint cts (x : scalar) (rs : list scalar) (Ms : list element) : list (Ciphertext E) :=
  match rs, Ms with r :: rs', M :: Ms' => ct x r M :: cts x rs' Ms' | _, _ => [] end.
Fixpoint pairs_of (zs : list scalar) (Ms : list element) : list (Ciphertext E) :=
  match zs, Ms with
  | r :: z :: zs', M :: Ms' => {| random_element := generator * r; blinded_element := M + generator * z |}%E :: pairs_of zs' Ms'
  | _, _ => []
  end.

Lemma tsum_2S n f : tsum (2 * S n) f = lsum (fun a => lsum (fun b => tsum (2 * n) (fun t => f (a :: b :: t))) scalars) scalars.
Proof. replace (2 * S n) with (S (S (2 * n))) by lia. rewrite tsum_S. apply lsum_ext. intros a _. apply tsum_S. Qed.

(** random pairs say nothing about the messages *)
Lemma pairs_hide : forall Ms Ms' (f : list (Ciphertext E) -> nat), List.length Ms = List.length Ms' ->
  tsum (2 * List.length Ms) (fun zs => f (pairs_of zs Ms)) = tsum (2 * List.length Ms) (fun zs => f (pairs_of zs Ms')).
Proof using L.
  induction Ms as [|M Ms IH]; intros [|M' Ms'] f Hl; try discriminate Hl; [reflexivity|].
  cbn [List.length] in *. rewrite !tsum_2S. apply lsum_ext. intros r _.
  rewrite <- (lsum_bij (fun z => z + (dlog L M' - dlog L M))%S).
  - apply lsum_ext. intros z _. cbn [pairs_of].
    replace (M + generator * (z + (dlog L M' - dlog L M))%S)%E with (M' + generator * z)%E by (apply (dlog_inj L); dlog_simpl L; ring).
    apply (IH Ms' (fun l => f (_ :: l))). congruence.
  - intros x y H. assert (H' : ((x + (dlog L M' - dlog L M)) - (dlog L M' - dlog L M) = (y + (dlog L M' - dlog L M)) - (dlog L M' - dlog L M))%S) by (rewrite H; reflexivity).
    replace x with ((x + (dlog L M' - dlog L M)) - (dlog L M' - dlog L M))%S by ring. rewrite H'. ring.
Qed.

(** from a Diffie-Hellman triple: proper ciphertexts *)
Lemma ddh_cts_real x r : forall Ms (f : list (Ciphertext E) -> nat),
  tsum (2 * List.length Ms) (fun c => f (ddh_ciphertexts (generator * x, generator * r, generator * (x * r)%S)%E c Ms)) =
  q ^ List.length Ms * tsum (List.length Ms) (fun rs => f (cts x rs Ms)).
Proof using L.
  induction Ms as [|M Ms IH]; intros f; [cbn [List.length]; rewrite !tsum_0; cbn; lia|].
  cbn [List.length]. rewrite tsum_2S, tsum_S. cbn [ddh_ciphertexts cts Nat.pow].
  rewrite (lsum_ext _ (fun _ => lsum (fun r' => q ^ List.length Ms * tsum (List.length Ms) (fun t => f (ct x r' M :: cts x t Ms))) scalars)).
  - rewrite lsum_const, all_len, lsum_scale. lia.
  - intros a _. rewrite <- (lsum_bij (fun b => r * a + b)%S (fun r' => q ^ _ * _)).
    + apply lsum_ext. intros b _. rewrite (IH (fun l => f (_ :: l))).
      replace {| random_element := (generator * r * a + generator * b)%E;
                 blinded_element := (M + (generator * (x * r)%S * a + generator * x * b))%E |} with (ct x (r * a + b)%S M); [reflexivity|].
      unfold ct. f_equal; el_ring L.
    + intros b b' H. replace b with ((r * a + b) - r * a)%S by ring. rewrite H. ring.
Qed.

Lemma s_mul_cancel (d a a' : scalar) : d <> 0%S -> (d * a = d * a')%S -> a = a'.
Proof using L.
  intros Hd H. transitivity (s_inv L d * d * a)%S; [rewrite (s_inv_l L d Hd); ring|].
  transitivity (s_inv L d * (d * a))%S; [ring|]. rewrite H. transitivity (s_inv L d * d * a')%S; [ring|]. rewrite (s_inv_l L d Hd). ring.
Qed.

(** from any other triple: random pairs *)
Lemma ddh_cts_random x r z : z <> (x * r)%S -> forall Ms (f : list (Ciphertext E) -> nat),
  tsum (2 * List.length Ms) (fun c => f (ddh_ciphertexts (generator * x, generator * r, generator * z)%E c Ms)) =
  tsum (2 * List.length Ms) (fun zs => f (pairs_of zs Ms)).
Proof using L.
  intros Hz. assert (Hd : (z - x * r)%S <> 0%S).
  { intros H. apply Hz. replace z with ((z - x * r) + x * r)%S by ring. rewrite H. ring. }
  induction Ms as [|M Ms IH]; intros f; [reflexivity|].
  cbn [List.length]. rewrite !tsum_2S. cbn [ddh_ciphertexts pairs_of].
  set (g (u v : scalar) := tsum (2 * List.length Ms) (fun t =>
    f ({| random_element := (generator * u)%E; blinded_element := (M + generator * v)%E |} :: pairs_of t Ms))).
  match goal with |- ?l = _ => change (l = lsum (fun u => lsum (fun v => g u v) scalars) scalars) end.
  rewrite (lsum_ext _ (fun a => lsum (fun u => g u (z * a + x * (u - r * a))%S) scalars)).
  - rewrite lsum_swap. apply lsum_ext. intros u _.
    rewrite <- (lsum_bij (fun a => z * a + x * (u - r * a))%S (fun v => g u v)); [reflexivity|].
    intros a a' H. apply (s_mul_cancel (z - x * r)%S); [exact Hd|].
    replace ((z - x * r) * a)%S with ((z * a + x * (u - r * a)) - x * u)%S by ring. rewrite H. ring.
  - intros a _. rewrite <- (lsum_bij (fun b => r * a + b)%S (fun u => g u _)).
    + apply lsum_ext. intros b _. unfold g. rewrite <- (IH (fun l => f (_ :: l))). apply tsum_ext. intros t _. f_equal. f_equal.
      f_equal; el_ring L.
    + intros b b' H. replace b with ((r * a + b) - r * a)%S by ring. rewrite H. ring.
Qed.

(** ** the two experiments of an attacker that makes ciphertexts *)
Section Reduction.
Context (n : nat) (Ms : scalar -> list element) (HMs : forall x, List.length (Ms x) = n).
Context (w : scalar -> list (Ciphertext E) -> nat).

Definition Real : nat := lsum (fun x => tsum n (fun rs => w x (cts x rs (Ms x)))) scalars.
Definition Ideal : nat := lsum (fun x => tsum (2 * n) (fun zs => w x (pairs_of zs (repeat identity n)))) scalars.

Lemma real_total :
  lsum (fun x => lsum (fun r => tsum (2 * n) (fun c =>
    w x (ddh_ciphertexts (generator * x, generator * r, generator * (x * r)%S)%E c (Ms x)))) scalars) scalars = q ^ (n + 1) * Real.
Proof using L HMs.
  unfold Real. rewrite <- lsum_scale. apply lsum_ext. intros x _.
  rewrite (lsum_ext _ (fun _ => q ^ n * tsum n (fun rs => w x (cts x rs (Ms x))))).
  - rewrite lsum_const, all_len, Nat.pow_add_r. cbn [Nat.pow]. lia.
  - intros r _. rewrite <- (HMs x). apply ddh_cts_real.
Qed.

Lemma random_total :
  lsum (fun x => lsum (fun r => lsum (fun z => tsum (2 * n) (fun c =>
    w x (ddh_ciphertexts (generator * x, generator * r, generator * z)%E c (Ms x)))) scalars) scalars) scalars =
  q * (q - 1) * Ideal + q ^ (n + 1) * Real.
Proof using L HMs.
  unfold Real, Ideal. rewrite <- !lsum_scale, <- lsum_plus. apply lsum_ext. intros x _.
  rewrite (lsum_ext _ (fun _ => q ^ n * tsum n (fun rs => w x (cts x rs (Ms x))) +
    (q - 1) * tsum (2 * n) (fun zs => w x (pairs_of zs (repeat identity n))))).
  - rewrite lsum_const, all_len, Nat.pow_add_r. cbn [Nat.pow]. lia.
  - intros r _. rewrite <- (lsum_one (x * r)%S). apply lsum_ext. intros z _. destruct (scalar_dec L z (x * r)%S) as [->|Hz].
    + rewrite <- (HMs x). apply ddh_cts_real.
    + pose proof (ddh_cts_random x r z Hz (Ms x) (w x)) as H. rewrite (pairs_hide (Ms x) (repeat identity n)) in H.
      * rewrite (HMs x) in H. exact H.
      * rewrite repeat_length. apply HMs.
Qed.

End Reduction.

(** ** distributions of results *)
Lemma uniform_sum {A : Type} nd n k (x : scalar) (K : PublicKey E) (Ms : list element) (prover : Rng E -> outcome (A * Rng E)) (P : A -> Prop)
    (rr : list scalar -> Rng E) (assemble : list (Ciphertext E) -> list scalar -> A)
    (acc : list (Ciphertext E) -> list scalar -> bool) (phi : A -> bool) :
  pk_element K = (generator * x)%E -> List.length Ms = n ->
  uniform_over nd prover P ->
  (forall t, List.length t = nd -> fst (draws nd (rr t)) = t) ->
  (forall a, P a <-> exists c s, List.length s = k /\ Forall2 (fun M c => exists r, encrypts K c M r) Ms c /\ a = assemble c s /\ acc c s = true) ->
  (forall c c' s s', List.length c = n -> List.length c' = n -> List.length s = k -> List.length s' = k ->
     assemble c s = assemble c' s' -> c = c' /\ s = s') ->
  tsum nd (fun t => b2n (returns ('(a, _) <- prover (rr t) ;; Ret (phi a)))) =
  tsum n (fun rs => tsum k (fun s => b2n (acc (cts x rs Ms) s) * b2n (phi (assemble (cts x rs Ms) s)))).
Proof using L.
  intros HK HMs [Hu1 Hu2] Hrr HP Hinj.
  set (res t := match prover (rr t) with Ret (a, _) => a | Panic _ => assemble [] [] end).
  assert (Hres : forall t, exists r', prover (rr t) = Ret (res t, r') /\ P (res t)).
  { intros t. destruct (Hu1 (rr t)) as (a & Ha & HPa). unfold res. rewrite Ha. eauto. }
  assert (Henc : forall rs Ms', List.length rs = List.length Ms' -> Forall2 (fun M c => exists r, encrypts K c M r) Ms' (cts x rs Ms')).
  { intros rs Ms'. revert rs. induction Ms' as [|M Ms' IH]; intros [|r rs] Hl; try discriminate Hl; cbn [cts]; [constructor|].
    constructor; [|apply IH; cbn in Hl; congruence]. exists r. unfold encrypts, ct. rewrite HK. split; reflexivity. }
  assert (Henc' : forall Ms' c, Forall2 (fun M c => exists r, encrypts K c M r) Ms' c -> exists rs, List.length rs = List.length Ms' /\ c = cts x rs Ms').
  { induction 1 as [|M c Ms' cl [r [H1 H2]] _ (rs & Hl & ->)]; [exists []; auto|]. exists (r :: rs). cbn [List.length cts]. split; [congruence|].
    f_equal. destruct c as [c0 c1]. cbn in *. unfold ct. rewrite H1, H2, HK. reflexivity. }
  assert (Hclen : forall rs Ms', List.length rs = List.length Ms' -> List.length (cts x rs Ms') = List.length Ms').
  { intros rs Ms' Hl. apply Henc in Hl. clear -Hl. induction Hl; cbn; congruence. }
  assert (Hcinj : forall Ms' rs rs', List.length rs = List.length Ms' -> List.length rs' = List.length Ms' -> cts x rs Ms' = cts x rs' Ms' -> rs = rs').
  { induction Ms' as [|M Ms' IH]; intros [|r rs] [|r' rs'] H1 H2; try discriminate; [reflexivity|]. cbn [cts]. intros H. injection H as H _ H3. f_equal.
    - apply (f_equal (dlog L)) in H. rewrite !(dlog_gen L) in H. exact H.
    - apply IH; [cbn in *; congruence..|exact H3]. }
  transitivity (lsum (fun a => b2n (phi a)) (map res (tapes nd))).
  { unfold tsum. rewrite lsum_map. apply lsum_ext. intros t _. destruct (Hres t) as (r' & -> & _). reflexivity. }
  transitivity (lsum (fun a => b2n (phi a)) (map (fun p => assemble (cts x (fst p) Ms) (snd p))
    (filter (fun p => acc (cts x (fst p) Ms) (snd p)) (list_prod (tapes n) (tapes k))))).
  2:{ rewrite lsum_map, lsum_filter, lsum_prod. reflexivity. }
  apply lsum_perm. apply NoDup_Permutation.
  - apply NoDup_map_in; [|apply tapes_nodup]. intros t t' Hin Hin' Heq. apply tapes_in in Hin, Hin'.
    destruct (Hres t) as (r1 & H1 & HP1). destruct (Hres t') as (r2 & H2 & _). rewrite <- Heq in H2.
    destruct (Hu2 _ HP1) as (xs & _ & Hxs).
    transitivity xs; [|symmetry].
    + rewrite <- (Hrr t Hin). apply Hxs. eauto.
    + rewrite <- (Hrr t' Hin'). apply Hxs. eauto.
  - apply NoDup_map_in.
    + intros [rs s] [rs' s'] Hin Hin'. apply filter_In in Hin as [Hin _]. apply filter_In in Hin' as [Hin' _].
      apply in_prod_iff in Hin as [H1 H2]. apply in_prod_iff in Hin' as [H1' H2']. apply tapes_in in H1, H2, H1', H2'. cbn [fst snd].
      intros Heq. apply Hinj in Heq as [Hc ->]; try (rewrite Hclen; congruence); try assumption. f_equal. apply (Hcinj Ms); congruence.
    + apply NoDup_filter. clear. generalize (tapes_nodup n) (tapes_nodup k). generalize (tapes n) (tapes k). intros l l' Hl Hl'.
      induction Hl as [|a l Ha Hl IH]; [constructor|]. cbn [list_prod].
      assert (Happ : forall l1 l2 : list (list scalar * list scalar), NoDup l1 -> NoDup l2 -> (forall b, In b l1 -> ~ In b l2) -> NoDup (l1 ++ l2)).
      { intros l1 l2 H1 H2 H. induction H1 as [|b l1 Hb H1 IH1]; [exact H2|]. cbn. constructor.
        - intros Hin. apply in_app_iff in Hin as [Hin|Hin]; [exact (Hb Hin)|exact (H b (or_introl eq_refl) Hin)].
        - apply IH1. intros c Hc. apply H. right. exact Hc. }
      apply Happ; [|exact IH|].
      * apply NoDup_map_in; [|exact Hl']. intros u v _ _ H. congruence.
      * intros [u v] H1 H2. apply in_map_iff in H1 as (y & H1 & _). injection H1 as <- <-. apply in_prod_iff in H2 as [H2 _]. exact (Ha H2).
  - intros a. rewrite !in_map_iff. split.
    + intros (t & <- & _). destruct (Hres t) as (_ & _ & HPa). apply HP in HPa as (c & s & Hs & Hc & -> & Hacc).
      apply Henc' in Hc as (rs & Hl & ->). exists (rs, s). cbn [fst snd]. split; [reflexivity|]. apply filter_In. split; [|exact Hacc].
      apply in_prod; apply tapes_in; congruence.
    + intros ([rs s] & <- & Hin). apply filter_In in Hin as [Hin Hacc]. apply in_prod_iff in Hin as [H1 H2]. apply tapes_in in H1, H2. cbn [fst snd] in *.
      assert (HPa : P (assemble (cts x rs Ms) s)) by (apply HP; exists (cts x rs Ms), s; repeat split; auto; apply Henc; congruence).
      destruct (Hu2 _ HPa) as (xs & Hxl & Hxs). exists xs. split; [|apply tapes_in; exact Hxl].
      destruct (proj2 (Hxs (rr xs)) (Hrr xs Hxl)) as [r' Hr]. unfold res. rewrite Hr. reflexivity.
Qed.

(** ** changing the hash function *)
Section Program.
Context (dom : list query) (o0 : hash scalar) (Hdom : NoDup dom).
Local Notation hsum := (hsum scalar scalars dom o0).
Local Notation reads := (reads scalar).
Local Notation anything := anything.

Lemma set_reads {B : Type} (f : hash scalar -> B) x c : reads anything f -> reads (fun y => x <> y) (fun o => f (set_hash o x c)).
Proof.
  intros Hf o o' H. apply Hf. intros y _. destruct (query_dec x y) as [<-|Hne]; [rewrite !set_same; reflexivity|].
  rewrite !set_other by exact Hne. apply H. exact Hne.
Qed.

Lemma set_set o x (c c' : scalar) y : answer (set_hash (set_hash o x c) x c') y = answer (set_hash o x c') y.
Proof. destruct (query_dec x y) as [<-|Hne]; [rewrite !set_same; reflexivity|]. rewrite !set_other by exact Hne. reflexivity. Qed.

Lemma set_back o x (c : scalar) y : answer (set_hash (set_hash o x c) x (answer o x)) y = answer o y.
Proof. rewrite set_set. destruct (query_dec x y) as [<-|Hne]; [rewrite set_same; reflexivity|]. rewrite set_other by exact Hne. reflexivity. Qed.

(** If the hash input [F o] does not depend on the hash value there, giving this input a new value is the same as
    choosing among the functions with this value. *)
Lemma program_one (F : hash scalar -> query) (c : scalar) (f : hash scalar -> nat) :
  (forall o, In (F o) dom) -> reads anything F -> (forall o c, F (set_hash o (F o) c) = F o) -> reads anything f ->
  hsum (fun o => f (set_hash o (F o) c)) = q * hsum (fun o => b2n (s_eqb (answer o (F o)) c) * f o).
Proof using Hdom L.
  intros Hin HF Hself Hf.
  assert (Hsplit : forall g : hash scalar -> nat, hsum g = lsum (fun x => hsum (fun o => (if query_dec (F o) x then 1 else 0) * g o)) dom).
  { intros g. unfold Forking.hsum. rewrite lsum_swap. apply lsum_ext. intros o _. rewrite lsum_mul_r.
    replace (lsum (fun x => if query_dec (F o) x then 1 else 0) dom) with 1; [lia|].
    pose proof (Hin o) as Hi. revert Hi Hdom. clear. intros Hi Hd. induction Hd as [|y l Hy Hd IH]; [destruct Hi|].
    rewrite lsum_cons. destruct (query_dec (F o) y) as [<-|Hne].
    - rewrite (lsum_ext _ (fun _ => 0)); [rewrite lsum_const; lia|]. intros z Hz. destruct (query_dec (F o) z) as [He|]; [rewrite He in Hy; contradiction|reflexivity].
    - destruct Hi as [->|Hi]; [congruence|]. rewrite <- (IH Hi). reflexivity. }
  assert (Hstab : forall o x d, (F o = x) <-> (F (set_hash o x d) = x)).
  { intros o x d. split; [intros <-; apply Hself|]. intros H.
    pose proof (Hself (set_hash o x d) (answer o x)) as Hb. rewrite H in Hb. rewrite <- Hb. apply HF. intros y _. symmetry. apply set_back. }
  rewrite (Hsplit (fun o => f (set_hash o (F o) c))), (Hsplit (fun o => b2n (s_eqb _ _) * f o)), <- lsum_scale. apply lsum_ext. intros x Hx.
  set (g o := (if query_dec (F o) x then 1 else 0) * f o).
  assert (Hg : reads anything g).
  { intros o o' H. unfold g. rewrite (HF o o' H), (Hf o o' H). reflexivity. }
  transitivity (hsum (fun o => g (set_hash o x c))).
  { apply lsum_ext. intros o _. unfold g. destruct (query_dec (F o) x) as [He|Hne]; destruct (query_dec (F (set_hash o x c)) x) as [He'|Hne'].
    - rewrite He. reflexivity.
    - destruct Hne'. apply Hstab. exact He.
    - destruct Hne. apply Hstab in He'. exact He'.
    - reflexivity. }
  transitivity (q * hsum (fun o => b2n (s_eqb (answer o x) c) * g o)).
  2:{ f_equal. apply lsum_ext. intros o _. unfold g. destruct (query_dec (F o) x) as [<-|Hne]; lia. }
  rewrite (hsum_pull scalar scalars x dom o0 (fun o => g (set_hash o x c))).
  2:{ intros o o' H. apply (set_reads g x c Hg). intros y _. apply H. exact I. }
  2:{ exact Hdom. } 2:{ exact Hx. }
  rewrite (hsum_pull scalar scalars x dom o0 (fun o => b2n (s_eqb (answer o x) c) * g o)).
  2:{ intros o o' H. rewrite (H x I), (Hg o o' H). reflexivity. }
  2:{ exact Hdom. } 2:{ exact Hx. }
  set (base := Forking.hsum scalar scalars (without x dom) (set_hash o0 x c) g).
  rewrite (lsum_ext _ (fun _ => base)).
  2:{ intros d _. unfold base.
      rewrite (hsum_base scalar scalars (fun y => x <> y) (without x dom) (set_hash o0 x d) (set_hash o0 x c)).
      - apply hsum_ext. intros o Ho. apply Hg. intros y _. destruct (query_dec x y) as [<-|Hne].
        + rewrite set_same. rewrite Ho; [rewrite set_same; reflexivity|]. intros Hi. apply without_in in Hi. tauto.
        + apply set_other. exact Hne.
      - apply set_reads. exact Hg.
      - intros y Hy. right. rewrite !set_other by exact Hy. reflexivity. }
  rewrite lsum_const, all_len. f_equal.
  rewrite (lsum_ext _ (fun d => if scalar_dec L d c then base else 0)).
  - rewrite lsum_one. lia.
  - intros d _. destruct (scalar_dec L d c) as [->|Hne].
    + unfold base. apply hsum_ext. intros o Ho. rewrite Ho, set_same; [|intros Hi; apply without_in in Hi; tauto].
      rewrite (proj2 (s_eqb_ok _ L c c) eq_refl). cbn [b2n]. lia.
    + transitivity (Forking.hsum scalar scalars (without x dom) (set_hash o0 x d) (fun _ => 0)); [|rewrite hsum_const; lia].
      apply hsum_ext. intros o Ho. rewrite Ho, set_same; [|intros Hi; apply without_in in Hi; tauto].
      destruct (s_eqb d c) eqn:He; [apply (s_eqb_ok _ L) in He; congruence|reflexivity].
Qed.

End Program.

End Secrecy.
