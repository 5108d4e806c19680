(** * Secrecy of encryptions and ballots from DDH: the reduction and its instances *)
From Coq Require Import List String NArith ZArith Arith Bool Lia.
From Verif.Model Require Import Base Group Transcript Keys Encryption LogEquality Ring Range Choice.
From Verif.Spec Require Import Encryption Range Choice Domains Rom Forking Verifiers Uniform Secrecy.
From Verif.Proofs Require Import Algebra Rom Forking Verifiers Choice Range RangeProof Quadratic Uniform UniformRing UniformBallots Secrecy.
Import ListNotations.
Open Scope string_scope.
Open Scope list_scope.
Open Scope nat_scope.

Section Secrecy.
Context (E : Env) (L : GroupLaws E) (Ht : ser_total E).
Local Notation scalar := (Scalar E).
Local Notation element := (Element E).
Local Notation scalars := (all_scalars L).
Local Notation q := (Z.to_nat (order L)).
Local Notation reads := (reads scalar).
Local Notation pk x := (kp_public (pair_of E x)).

(** [guesses] and [attacker] of Spec/Secrecy.v for any function of the hash in place of the distinguisher *)
Definition guesses_by {A : Type} (n : nat) (seed : list scalar -> Rng E) (hashes : list (hash scalar))
    (prover : hash scalar -> PublicKey E -> Rng E -> outcome (A * Rng E)) (D : PublicKey E -> A -> hash scalar -> bool) : Z :=
  tally (list_prod (tapes L (1 + n)) hashes) (fun p =>
    let o := snd p in
    returns ('(kp, r) <- Keypair_generate (seed (fst p)) ;;
             '(a, _) <- prover o (kp_public kp) r ;;
             Ret (D (kp_public kp) a o))).

Definition attacker_by {A : Type} (Ms : PublicKey E -> list element)
    (simulate : PublicKey E -> list (Ciphertext E) -> list scalar -> hash scalar -> A * hash scalar)
    (D : PublicKey E -> A -> hash scalar -> bool) (T : triple) (coins : list scalar * list scalar * hash scalar) : bool :=
  let '(c, proof_scalars, o) := coins in
  returns (K <- PublicKey_from_element (fst (fst T)) ;;
           let '(a, o) := simulate K (ddh_ciphertexts T c (Ms K)) proof_scalars o in
           Ret (D K a o)).

Section Generic.
Context (seed : list scalar -> Rng E) (Hseed : seeds seed).
Context (dom : list query) (o0 : hash scalar).
Local Notation hashes := (all_hashes scalars dom o0).
Local Notation hsum := (hsum scalar scalars dom o0).
Context {A : Type} (nd n k h : nat) (D : PublicKey E -> A -> hash scalar -> bool).
Context (HD : forall K a, reads anything (D K a)).
Context (simulate : PublicKey E -> list (Ciphertext E) -> list scalar -> hash scalar -> A * hash scalar).
Context (assemble : list (Ciphertext E) -> list scalar -> A).
Context (Hsim : forall K c s o, fst (simulate K c s o) = assemble c s).
Context (acc : PublicKey E -> list (Ciphertext E) -> list scalar -> hash scalar -> bool).
Context (Hinj : forall c c' s s', List.length c = n -> List.length c' = n -> List.length s = k -> List.length s' = k ->
     assemble c s = assemble c' s' -> c = c' /\ s = s').
Context (Hprog : forall x c s (f : hash scalar -> nat), List.length c = n -> List.length s = k -> reads anything f ->
     hsum (fun o => f (snd (simulate (pk x) c s o))) = q ^ h * hsum (fun o => b2n (acc (pk x) c s o) * f o)).

Definition weight (x : scalar) (c : list (Ciphertext E)) : nat :=
  tsum E L k (fun s => hsum (fun o => b2n (D (pk x) (assemble c s) (snd (simulate (pk x) c s o))))).

Section Side.
Context (Ms : PublicKey E -> list element) (HMs : forall K, List.length (Ms K) = n).
Context (prover : hash scalar -> PublicKey E -> Rng E -> outcome (A * Rng E)).
Context (P : scalar -> hash scalar -> A -> Prop).
Context (Hprover : forall x o, uniform_over nd (prover o (pk x)) (P x o)).
Context (HP : forall x o a, P x o a <-> exists c s, List.length s = k /\
  Forall2 (fun M c => exists r, encrypts (pk x) c M r) (Ms (pk x)) c /\ a = assemble c s /\ acc (pk x) c s o = true).

Local Notation real := (Real E L n (fun x => Ms (pk x)) weight).

Lemma guesses_real : (Z.of_nat (q ^ h) * guesses_by nd seed hashes prover D = Z.of_nat real)%Z.
Proof using L Ht Hseed Hinj Hprog HMs Hprover HP HD.
  unfold guesses_by. rewrite tally_lsum, lsum_prod, <- Nat2Z.inj_mul. f_equal.
  change (lsum ?f (tapes L (1 + nd))) with (tsum E L (S nd) f). rewrite tsum_S, <- lsum_scale.
  unfold Real. apply lsum_ext. intros x _. cbn [fst snd].
  rewrite (tsum_swap E L nd (fun t o => b2n (returns ('(kp, r) <- Keypair_generate (seed (x :: t)) ;;
    '(a, _) <- prover o (kp_public kp) r ;; Ret (D (kp_public kp) a o))))).
  set (rr t := snd (generate_scalar (seed (x :: t)))).
  assert (Hgen : forall t, generate_scalar (seed (x :: t)) = (x, rr t) /\ fst (draws (List.length t) (rr t)) = t).
  { intros t. pose proof (Hseed (x :: t)) as H. cbn [List.length draws] in H. unfold rr.
    destruct (generate_scalar (seed (x :: t))) as [y r1]. cbn [snd]. destruct (draws (List.length t) r1) as [ys r2]. cbn [fst] in *.
    injection H as -> ->. auto. }
  rewrite (lsum_ext _ (fun o => tsum E L n (fun rs => tsum E L k (fun s =>
     b2n (acc (pk x) (cts E x rs (Ms (pk x))) s o) * b2n (D (pk x) (assemble (cts E x rs (Ms (pk x))) s) o))))).
  2:{ intros o _.
      rewrite <- (uniform_sum E L nd n k x (pk x) (Ms (pk x)) (prover o (pk x)) (P x o) rr assemble (fun c s => acc (pk x) c s o)
        (fun a => D (pk x) a o) eq_refl (HMs _) (Hprover x o)).
      - apply tsum_ext. intros t _. rewrite (pair_generate E L Ht). destruct (Hgen t) as [-> _]. cbn [fst snd bind]. reflexivity.
      - intros t Hl. rewrite <- Hl at 1. apply Hgen.
      - apply HP.
      - exact Hinj. }
  rewrite <- (tsum_swap E L n (fun rs o => tsum E L k (fun s =>
     b2n (acc (pk x) (cts E x rs (Ms (pk x))) s o) * b2n (D (pk x) (assemble (cts E x rs (Ms (pk x))) s) o)))).
  rewrite <- tsum_scale. apply tsum_ext. intros rs Hrs. unfold weight.
  rewrite <- (tsum_swap E L k (fun s o => b2n (acc (pk x) (cts E x rs (Ms (pk x))) s o) * b2n (D (pk x) (assemble (cts E x rs (Ms (pk x))) s) o))).
  rewrite <- tsum_scale. apply tsum_ext. intros s Hs. symmetry.
  apply (Hprog x (cts E x rs (Ms (pk x))) s (fun o => b2n (D (pk x) (assemble (cts E x rs (Ms (pk x))) s) o))); [|exact Hs|].
  - clear - HMs Hrs. specialize (HMs (pk x)). subst n. generalize dependent (Ms (pk x)). clear Ms.
    induction rs as [|r rs IH]; intros [|M Ms]; cbn; try discriminate; [reflexivity|]. intros H. f_equal. apply IH. congruence.
  - intros o o' H. rewrite (HD _ _ o o' H). reflexivity.
Qed.

Local Notation attack := (attacker_by Ms simulate D).
Local Notation coins := (attacker_coins L n k hashes).

Lemma attack_sum T c : PublicKey_from_element (fst (fst T)) = Ret c -> forall ab,
  lsum (fun s => lsum (fun o => b2n (attack T (ab, s, o))) hashes) (tapes L k) =
  tsum E L k (fun s => hsum (fun o => b2n (D c (assemble (ddh_ciphertexts T ab (Ms c)) s) (snd (simulate c (ddh_ciphertexts T ab (Ms c)) s o))))).
Proof using Hsim.
  intros HK ab. apply tsum_ext. intros s _. apply lsum_ext. intros o _. unfold attacker_by. rewrite HK. cbn [bind].
  rewrite <- (Hsim c (ddh_ciphertexts T ab (Ms c)) s o). destruct (simulate _ _ _ _). reflexivity.
Qed.

Lemma coins_sum T x : fst (fst T) = (generator * x)%E ->
  lsum (fun b => b2n (attack T b)) coins = tsum E L (2 * n) (fun ab => weight x (ddh_ciphertexts T ab (Ms (pk x)))).
Proof using Hsim Ht L.
  intros HT. unfold attacker_coins. rewrite !lsum_prod. apply lsum_ext. intros ab _. apply attack_sum.
  rewrite HT. unfold PublicKey_from_element. rewrite (ser_ok E L Ht). reflexivity.
Qed.

Lemma gap_real :
  ddh_gap L coins attack = (order L * (order L - 1) * (order L ^ Z.of_nat n * Z.of_nat real - Z.of_nat (Ideal E L n weight)))%Z.
Proof using Hsim Ht L HMs.
  assert (HR : ddh_real L coins attack = Z.of_nat (q ^ (n + 1) * real)).
  { rewrite <- (real_total E L n (fun x => Ms (pk x)) (fun x => HMs (pk x)) weight).
    unfold ddh_real. rewrite tally_lsum, lsum_prod. f_equal. change (lsum ?f (tapes L 2)) with (tsum E L 2 f).
    rewrite tsum_S. apply lsum_ext. intros x _. rewrite tsum_S. apply lsum_ext. intros r _. rewrite tsum_0. cbn [fst snd].
    apply coins_sum. reflexivity. }
  assert (HI : ddh_random L coins attack = Z.of_nat (q * (q - 1) * Ideal E L n weight + q ^ (n + 1) * real)).
  { rewrite <- (random_total E L n (fun x => Ms (pk x)) (fun x => HMs (pk x)) weight).
    unfold ddh_random. rewrite tally_lsum, lsum_prod. f_equal. change (lsum ?f (tapes L 3)) with (tsum E L 3 f).
    rewrite tsum_S. apply lsum_ext. intros x _. rewrite tsum_S. apply lsum_ext. intros r _. rewrite tsum_S. apply lsum_ext. intros z _.
    rewrite tsum_0. cbn [fst snd]. apply coins_sum. reflexivity. }
  unfold ddh_gap. rewrite HR, HI. pose proof (q_gt1 E L) as Hq. pose proof (order_gt_1 L) as Ho.
  rewrite !Nat2Z.inj_add, !Nat2Z.inj_mul, Nat2Z.inj_pow, Nat2Z.inj_add, Nat2Z.inj_sub, Z2Nat.id by lia.
  rewrite Z.pow_add_r by lia. cbn [Z.of_nat]. change (Z.of_nat 1) with 1%Z. rewrite Z.pow_1_r. nia.
Qed.

End Side.

Theorem secrecy
  (Ms Ms' : PublicKey E -> list element) (prover prover' : hash scalar -> PublicKey E -> Rng E -> outcome (A * Rng E))
  (P P' : scalar -> hash scalar -> A -> Prop) :
  (forall K, List.length (Ms K) = n) -> (forall K, List.length (Ms' K) = n) ->
  (forall x o, uniform_over nd (prover o (pk x)) (P x o)) -> (forall x o, uniform_over nd (prover' o (pk x)) (P' x o)) ->
  (forall x o a, P x o a <-> exists c s, List.length s = k /\
     Forall2 (fun M c => exists r, encrypts (pk x) c M r) (Ms (pk x)) c /\ a = assemble c s /\ acc (pk x) c s o = true) ->
  (forall x o a, P' x o a <-> exists c s, List.length s = k /\
     Forall2 (fun M c => exists r, encrypts (pk x) c M r) (Ms' (pk x)) c /\ a = assemble c s /\ acc (pk x) c s o = true) ->
  (order L ^ Z.of_nat (n + h + 1) * (order L - 1) * (guesses_by nd seed hashes prover D - guesses_by nd seed hashes prover' D) =
   ddh_gap L (attacker_coins L n k hashes) (attacker_by Ms simulate D) - ddh_gap L (attacker_coins L n k hashes) (attacker_by Ms' simulate D))%Z.
Proof using Hsim Ht L Hseed Hinj Hprog HD.
  intros H1 H1' H2 H2' H3 H3'.
  pose proof (guesses_real Ms H1 prover P H2 H3) as G1. pose proof (guesses_real Ms' H1' prover' P' H2' H3') as G2.
  rewrite (gap_real Ms H1), (gap_real Ms' H1'), <- G1, <- G2.
  pose proof (order_gt_1 L) as Ho. rewrite Nat2Z.inj_pow, Z2Nat.id by lia.
  rewrite !Nat2Z.inj_add, !Z.pow_add_r by lia. change (Z.of_nat 1) with 1%Z. rewrite Z.pow_1_r. ring.
Qed.

End Generic.

(** ** verifiers with one challenge: answering their last question *)
Section One.
Context (dom : list query) (o0 : hash scalar) (Hdom : NoDup dom).
Local Notation hsum := (hsum scalar scalars dom o0).
Context {B : Type} (V : strategy scalar B) (T : strategy scalar (outcome transcript)).
Context (Hret : forall o, exists t, run o T = Ret t).
Context (Hask : forall o t, run o T = Ret t -> asked o V = asked o T ++ [(t, "c")]).
Context (Hnew : forall o o' t, run o T = Ret t -> ~ In (t, "c") (asked o' T)).
Context (Hcov : forall o, incl (asked o V) dom).

(** the hash input of the challenge *)
Definition point (o : hash scalar) : query := (match run o T with Ret t => t | Panic _ => [] end, "c").

Lemma point_last o : asked o V = asked o T ++ [point o].
Proof using Hret Hask. unfold point. destruct (Hret o) as [t H]. rewrite H. apply Hask. exact H. Qed.

Lemma point_answering c o : answering V c o = set_hash o (point o) c.
Proof using Hret Hask. unfold answering. rewrite point_last, rev_app_distr. reflexivity. Qed.

Lemma point_new o o' : ~ In (point o) (asked o' T).
Proof using Hret Hnew. unfold point. destruct (Hret o) as [t H]. rewrite H. apply (Hnew o o' t H). Qed.

Lemma point_in o : In (point o) dom.
Proof using Hret Hask Hcov. apply (Hcov o). rewrite point_last. apply in_or_app. right. left. reflexivity. Qed.

Lemma point_agree o o' : (forall x, In x (asked o T) -> answer o x = answer o' x) -> point o' = point o.
Proof. intros H. unfold point. rewrite (proj1 (run_ext scalar o o' T H)). reflexivity. Qed.

Lemma point_reads : reads anything point.
Proof. intros o o' H. symmetry. apply point_agree. intros x _. apply H. exact I. Qed.

Lemma point_set o x c : ~ In x (asked o T) -> point (set_hash o x c) = point o.
Proof. intros H. apply point_agree. intros y Hy. symmetry. apply set_other. intros ->. exact (H Hy). Qed.

Lemma answer_one c (f : hash scalar -> nat) : reads anything f ->
  hsum (fun o => f (answering V c o)) = q * hsum (fun o => b2n (s_eqb (answer o (point o)) c) * f o).
Proof using Hret Hask Hnew Hcov Hdom L.
  intros Hf. rewrite <- (program_one E L dom o0 Hdom point c f); [|exact point_in|exact point_reads| |exact Hf].
  - apply lsum_ext. intros o _. rewrite point_answering. reflexivity.
  - intros o d. apply point_set. apply point_new.
Qed.

End One.

(** ** the questions of ring verifiers *)
Definition in_ring (t0 : transcript) (x : query) : Prop :=
  exists rest, x = (t0 ++ TMsg "dom-sep" (str_bytes "ring_enc") :: rest, "c").

Lemma in_ring_rtr t0 (c : Ciphertext E) i rest : in_ring t0 (rtr E t0 c i ++ rest, "c").
Proof. unfold in_ring, rtr. rewrite <- app_assoc. eexists. reflexivity. Qed.

Lemma asked_doing {X Y : Type} o (m : outcome X) (f : X -> strategy scalar (outcome Y)) a : m = Ret a -> asked o (doing m f) = asked o (f a).
Proof. intros ->. reflexivity. Qed.

Lemma hash_input_eq rt j (X : element * element) :
  ring_hash_input rt j X = Ret (rt ++ [TMsg "j" (u64_le_bytes (N.of_nat j)); TMsg "R_G" (ser E (fst X)); TMsg "R_K" (ser E (snd X))]).
Proof using L Ht.
  unfold ring_hash_input, append_element, append_u64, append_message. rewrite !(ser_ok E L Ht). cbn [bind]. rewrite <- !app_assoc. reflexivity.
Qed.

Lemma loop_shape t0 (K : element) (c : Ciphertext E) i len : forall items j ch X o,
  (exists Y, run o (ring_loop_verifier (rtr E t0 c i) K c len j items ch X) = Ret Y) /\
  (forall x, In x (asked o (ring_loop_verifier (rtr E t0 c i) K c len j items ch X)) -> in_ring t0 x).
Proof using L Ht.
  induction items as [|[M s] items IH]; intros j ch X o; cbn [ring_loop_verifier].
  - split; [eexists; reflexivity|intros x []].
  - rewrite (vartime_multi_mul_ok _ L [s; (- ch)%S]) by reflexivity. cbn [doing]. destruct (j + 1 <? len); [|apply IH].
    rewrite hash_input_eq. cbn [doing]. split; [exact (proj1 (IH _ _ _ o))|]. intros x [<-|Hx]; [|exact (proj2 (IH _ _ _ o) x Hx)].
    apply in_ring_rtr.
Qed.

Lemma rings_shape t0 K (p : RingProof E) : forall it i start t o,
  start + list_sum (map (fun vc : list element * Ciphertext E => List.length (fst vc)) it) <= List.length (rp_responses p) ->
  (exists rest, run o (rings_verifier t0 K p i start it t) = Ret (t ++ rest) /\ (rest = [] \/ exists b rest', rest = TMsg "R_G" b :: rest')) /\
  (forall x, In x (asked o (rings_verifier t0 K p i start it t)) -> in_ring t0 x).
Proof using L Ht.
  induction it as [|[vs c] it IH]; intros i start t o Hlen; cbn [rings_verifier].
  - split; [|intros x []]. exists []. rewrite app_nil_r. cbn. auto.
  - cbn [map fst] in Hlen. cbn [list_sum fold_right] in Hlen.
    change (fold_right Init.Nat.add 0 ?l) with (list_sum l) in Hlen.
    rewrite (ring_init_eq E L Ht). cbn [doing]. unfold slice_from.
    destruct (start <=? List.length (rp_responses p)) eqn:Hs; [|apply Nat.leb_gt in Hs; lia]. cbn [doing].
    set (loop := ring_loop_verifier _ _ _ _ _ _ _ _). unfold after. rewrite run_andthen, asked_andthen.
    destruct (loop_shape t0 (pk_element K) c i (List.length vs) (combine vs (skipn start (rp_responses p))) 0 (rp_challenge p) (generator, generator) o)
      as [[Y HY] Hq]. fold loop in HY, Hq. rewrite HY. cbn [doing]. unfold append_element. rewrite !(ser_ok E L Ht). cbn [bind doing].
    destruct (IH (S i) (start + List.length vs) (append_message (append_message t "R_G" (ser E (fst Y))) "R_K" (ser E (snd Y))) o ltac:(lia))
      as [(rest & Hr & _) Hq']. split.
    + exists ([TMsg "R_G" (ser E (fst Y)); TMsg "R_K" (ser E (snd Y))] ++ rest). split.
      * rewrite Hr. f_equal. unfold append_message. rewrite <- !app_assoc. reflexivity.
      * right. eexists _, _. reflexivity.
    + intros x Hx. apply in_app_iff in Hx as [Hx|Hx]; [exact (Hq x Hx)|exact (Hq' x Hx)].
Qed.

(** [T] of section [One] for a ring proof *)
Definition ring_points (p : RingProof E) K (vals : list (list element)) (c : list (Ciphertext E)) t : strategy scalar (outcome transcript) :=
  let t0 := ring_initialize_transcript t K in rings_verifier t0 K p 0 0 (combine vals c) t0.

Definition responses_ok (p : RingProof E) (vals : list (list element)) : Prop :=
  List.length (rp_responses p) = list_sum (map (@List.length element) vals).

Lemma combine_le : forall (vals : list (list element)) (c : list (Ciphertext E)),
  list_sum (map (fun vc : list element * Ciphertext E => List.length (fst vc)) (combine vals c)) <= list_sum (map (@List.length element) vals).
Proof.
  induction vals as [|v vals IH]; intros [|c l]; cbn; try lia. specialize (IH l). cbn in IH. unfold list_sum in *. lia.
Qed.

Lemma ring_points_shape p K vals c t o : responses_ok p vals ->
  exists rest, run o (ring_points p K vals c t) = Ret (ring_initialize_transcript t K ++ rest) /\
    (rest = [] \/ exists b rest', rest = TMsg "R_G" b :: rest').
Proof using L Ht.
  intros Hr. unfold ring_points. apply rings_shape. pose proof (combine_le vals c). unfold responses_ok in Hr. lia.
Qed.

Lemma ring_points_asked p K vals c t o x : responses_ok p vals -> In x (asked o (ring_points p K vals c t)) -> in_ring (ring_initialize_transcript t K) x.
Proof using L Ht.
  intros Hr. unfold ring_points. apply rings_shape. pose proof (combine_le vals c). unfold responses_ok in Hr. lia.
Qed.

Lemma ring_points_ret p K vals c t : responses_ok p vals -> forall o, exists t', run o (ring_points p K vals c t) = Ret t'.
Proof using L Ht. intros Hr o. destruct (ring_points_shape p K vals c t o Hr) as (rest & H & _). eauto. Qed.

Lemma ring_points_new p K vals c t : responses_ok p vals -> forall o o' t', run o (ring_points p K vals c t) = Ret t' ->
  ~ In (t', "c") (asked o' (ring_points p K vals c t)).
Proof using L Ht.
  intros Hr o o' t' H Hin. destruct (ring_points_shape p K vals c t o Hr) as (rest & H' & Hrest). rewrite H in H'. injection H' as ->.
  apply ring_points_asked in Hin as (rest' & Heq); [|exact Hr]. injection Heq as Heq. apply app_inv_head in Heq.
  destruct Hrest as [->|(b & r & ->)]; discriminate.
Qed.

Lemma ring_points_ask p K vals c t : responses_ok p vals -> forall o t', run o (ring_points p K vals c t) = Ret t' ->
  asked o (ring_verifier p K vals c t) = asked o (ring_points p K vals c t) ++ [(t', "c")].
Proof.
  intros Hr o t' H. unfold ring_verifier, check_lengths. unfold responses_ok in Hr. rewrite Hr, Nat.eqb_refl.
  unfold after. rewrite asked_andthen. unfold ring_points in *. rewrite H. reflexivity.
Qed.

Lemma ring_points_accept (p : RingProof E) (K : PublicKey E) (vals : list (list element)) (c : list (Ciphertext E)) t o : responses_ok p vals ->
  ((exists t', RingProof_verify (E:=hashed_by E o) p K vals c t = Ret (Ok tt, t')) <->
   s_eqb (answer o (point (ring_points p K vals c t) o)) (rp_challenge p) = true).
Proof using L Ht.
  intros Hr. rewrite <- ring_run'. unfold ring_verifier, check_lengths. unfold responses_ok in Hr. rewrite Hr, Nat.eqb_refl.
  rewrite run_after. unfold point. destruct (ring_points_ret p K vals c t Hr o) as [t' H].
  unfold ring_points in H |- *. rewrite H. cbn [bind]. rewrite run_asking. cbn [run]. unfold answer. cbn [fst snd].
  destruct (s_eqb _ _); split; [reflexivity|eauto|intros (t2 & H2); discriminate|discriminate].
Qed.

Lemma ring_verify_responses o (p : RingProof E) (K : PublicKey E) (vals : list (list element)) (c : list (Ciphertext E)) t t' : RingProof_verify (E:=hashed_by E o) p K vals c t = Ret (Ok tt, t') -> responses_ok p vals.
Proof.
  unfold RingProof_verify, check_lengths, responses_ok. intros H.
  match type of H with context[if ?b then _ else _] => destruct b eqn:Hb end; [|discriminate].
  apply Nat.eqb_eq in Hb. exact Hb.
Qed.

(** ** lists of the right length *)
Lemma one_ct (c : list (Ciphertext E)) : List.length c = 1 -> c = [first_of c].
Proof. destruct c as [|a [|b c]]; cbn; intros H; try discriminate. reflexivity. Qed.

Lemma ring_proof_inj (s s' : list scalar) k : List.length s = S k -> List.length s' = S k -> ring_proof_of s = ring_proof_of s' -> s = s'.
Proof. destruct s, s'; cbn; intros H H' Heq; try discriminate. injection Heq as -> ->. reflexivity. Qed.

Lemma ring_proof_of_cons (p : RingProof E) : ring_proof_of (rp_challenge p :: rp_responses p) = p.
Proof. destruct p. reflexivity. Qed.

Lemma ring_proof_responses (s : list scalar) : List.length (rp_responses (ring_proof_of s)) = List.length s - 1.
Proof. destruct s; cbn; lia. Qed.

Lemma pk_good x : key_of x (pk x) /\ key_bytes_ok (pk x).
Proof using L Ht. apply (pair_of_good E L Ht). Qed.

Lemma Forall2_single {A B : Type} (R : A -> B -> Prop) a l : Forall2 R [a] l <-> exists b, l = [b] /\ R a b.
Proof.
  split.
  - intros H. inversion H as [|? b ? l' Hb Hl]; subst. inversion Hl; subst. eauto.
  - intros (b & -> & Hb). constructor; [exact Hb|constructor].
Qed.

Section Instances.
Context (seed : list scalar -> Rng E) (Hseed : seeds seed).
Context (dom : list query) (o0 : hash scalar) (Hdom : NoDup dom).
Local Notation hashes := (all_hashes scalars dom o0).
Local Notation hsum := (hsum scalar scalars dom o0).

(** The parts of an instance: the simulation, and what the client does for one input *)
Definition foreign (y : query) : Prop := hd (TChal "") (fst y) = TMsg "dom-sep" (str_bytes "elgamal_share_poly").

Definition sim_ok {A : Type} (n k h : nat) (simulate : PublicKey E -> list (Ciphertext E) -> list scalar -> hash scalar -> A * hash scalar)
    (assemble : list (Ciphertext E) -> list scalar -> A) (acc : PublicKey E -> list (Ciphertext E) -> list scalar -> hash scalar -> bool) : Prop :=
  (forall K c s o, fst (simulate K c s o) = assemble c s) /\
  (forall c c' s s', List.length c = n -> List.length c' = n -> List.length s = k -> List.length s' = k ->
     assemble c s = assemble c' s' -> c = c' /\ s = s') /\
  (forall x c s (f : hash scalar -> nat), List.length c = n -> List.length s = k -> reads anything f ->
     hsum (fun o => f (snd (simulate (pk x) c s o))) = q ^ h * hsum (fun o => b2n (acc (pk x) c s o) * f o)) /\
  (forall x c s o y, List.length c = n -> List.length s = k -> foreign y -> answer (snd (simulate (pk x) c s o)) y = answer o y) /\
  (forall x c s o o', (forall y, answer o y = answer o' y) -> forall y, answer (snd (simulate (pk x) c s o)) y = answer (snd (simulate (pk x) c s o')) y).

(** without the last two parts *)
Definition sim_core {A : Type} (n k h : nat) (simulate : PublicKey E -> list (Ciphertext E) -> list scalar -> hash scalar -> A * hash scalar)
    (assemble : list (Ciphertext E) -> list scalar -> A) (acc : PublicKey E -> list (Ciphertext E) -> list scalar -> hash scalar -> bool) : Prop :=
  (forall K c s o, fst (simulate K c s o) = assemble c s) /\
  (forall c c' s s', List.length c = n -> List.length c' = n -> List.length s = k -> List.length s' = k ->
     assemble c s = assemble c' s' -> c = c' /\ s = s') /\
  (forall x c s (f : hash scalar -> nat), List.length c = n -> List.length s = k -> reads anything f ->
     hsum (fun o => f (snd (simulate (pk x) c s o))) = q ^ h * hsum (fun o => b2n (acc (pk x) c s o) * f o)).

Lemma sim_ok_core {A : Type} n k h (simulate : PublicKey E -> list (Ciphertext E) -> list scalar -> hash scalar -> A * hash scalar) assemble acc :
  sim_ok n k h simulate assemble acc -> sim_core n k h simulate assemble acc.
Proof. unfold sim_ok, sim_core. tauto. Qed.

Definition side_ok {A : Type} (nd n k : nat) (assemble : list (Ciphertext E) -> list scalar -> A)
    (acc : PublicKey E -> list (Ciphertext E) -> list scalar -> hash scalar -> bool) (Ms : PublicKey E -> list element)
    (prover : hash scalar -> PublicKey E -> Rng E -> outcome (A * Rng E)) : Prop :=
  (forall K, List.length (Ms K) = n) /\
  exists P, (forall x o, uniform_over nd (prover o (pk x)) (P x o)) /\
    forall x o a, P x o a <-> exists c s, List.length s = k /\
      Forall2 (fun M c => exists r, encrypts (pk x) c M r) (Ms (pk x)) c /\ a = assemble c s /\ acc (pk x) c s o = true.

Lemma scheme_secret_by {A : Type} nd n k h simulate assemble acc Ms Ms' prover prover' (D : PublicKey E -> A -> hash scalar -> bool) :
  sim_core n k h simulate assemble acc -> side_ok nd n k assemble acc Ms prover -> side_ok nd n k assemble acc Ms' prover' ->
  (forall K a, reads anything (D K a)) ->
  (order L ^ Z.of_nat (n + h + 1) * (order L - 1) * (guesses_by nd seed hashes prover D - guesses_by nd seed hashes prover' D) =
   ddh_gap L (attacker_coins L n k hashes) (attacker_by Ms simulate D) - ddh_gap L (attacker_coins L n k hashes) (attacker_by Ms' simulate D))%Z.
Proof using Ht Hseed.
  intros (H1 & H2 & H3) (H4 & P & H5 & H6) (H4' & P' & H5' & H6') HD.
  apply (secrecy seed Hseed dom o0 nd n k h D HD simulate assemble H1 acc H2 H3 Ms Ms' prover prover' P P'); assumption.
Qed.

Lemma scheme_secret {A : Type} nd n k h simulate assemble acc Ms Ms' prover prover' (D : PublicKey E -> A -> strategy scalar bool) :
  sim_core n k h simulate assemble acc -> side_ok nd n k assemble acc Ms prover -> side_ok nd n k assemble acc Ms' prover' ->
  (order L ^ Z.of_nat (n + h + 1) * (order L - 1) * (guesses L nd seed hashes prover D - guesses L nd seed hashes prover' D) =
   ddh_gap L (attacker_coins L n k hashes) (attacker Ms simulate D) - ddh_gap L (attacker_coins L n k hashes) (attacker Ms' simulate D))%Z.
Proof using Ht Hseed.
  intros H1 H2 H3. apply (scheme_secret_by nd n k h simulate assemble acc Ms Ms' prover prover' (fun K a o => run o (D K a)) H1 H2 H3).
  intros K a o o' H. apply (run_ext' scalar (D K a)). intros y. apply H. exact I.
Qed.

Lemma answering_other {B : Type} (V : strategy scalar B) c o y : ~ In y (asked o V) -> answer (answering V c o) y = answer o y.
Proof.
  intros H. unfold answering. destruct (rev (asked o V)) as [|x l] eqn:Hr; [reflexivity|]. apply set_other. intros ->.
  apply H, in_rev. rewrite Hr. left. reflexivity.
Qed.

Lemma answering_ext {B : Type} (V : strategy scalar B) c o o' : (forall y, answer o y = answer o' y) ->
  forall y, answer (answering V c o) y = answer (answering V c o') y.
Proof.
  intros H y. unfold answering. rewrite <- (proj2 (run_ext scalar o o' V (fun x _ => H x))).
  destruct (rev (asked o V)) as [|x l]; [apply H|]. destruct (query_dec x y) as [<-|Hne]; [rewrite !set_same; reflexivity|].
  rewrite !set_other by exact Hne. apply H.
Qed.

Lemma ring_asked_hd (p : RingProof E) (K : PublicKey E) vals c t o y : responses_ok p vals -> t <> [] ->
  In y (asked o (ring_verifier p K vals c t)) -> hd (TChal "") (fst y) = hd (TChal "") t.
Proof using L Ht.
  intros Hr Hne Hin. destruct (ring_points_shape p K vals c t o Hr) as (rest & H & _). rewrite (ring_points_ask p K vals c t Hr o _ H) in Hin.
  destruct t as [|m t]; [congruence|].
  apply in_app_iff in Hin as [Hin|[<-|[]]]; [|reflexivity]. apply ring_points_asked in Hin as (rest' & ->); [|exact Hr]. reflexivity.
Qed.

Lemma encryption_scheme : exists assemble acc, sim_ok 1 0 0 simulate_encryption assemble acc /\
  forall M : PublicKey E -> element, side_ok 1 1 0 assemble acc (fun K => [M K]) (real_encryption M).
Proof using Ht.
  exists (fun c _ => first_of c), (fun _ _ _ _ => true). split.
  - split; [reflexivity|]. split; [|split; [|split]].
    + intros c c' s s' H1 H2 H3 H4 H. rewrite (one_ct c H1), (one_ct c' H2), H. destruct s, s'; try discriminate. auto.
    + intros x c s f _ _ _. cbn [simulate_encryption snd Nat.pow]. rewrite Nat.mul_1_l. apply lsum_ext. intros o _. cbn [b2n]. lia.
    + reflexivity.
    + intros x c s o o' H. exact H.
  - intros M. split; [reflexivity|]. exists (fun x _ c => exists r, encrypts (pk x) c (M (pk x)) r). split.
    + intros x o. exact (encrypt_element_uniform E L (M (pk x)) (pk x)).
    + intros x o a. split.
      * intros H. exists [a], []. rewrite Forall2_single. eauto 10.
      * intros (c & s & _ & Hc & -> & _). apply Forall2_single in Hc as (b & -> & Hb). exact Hb.
Qed.

Lemma encryption_secret (M M' : PublicKey E -> element) (D : PublicKey E -> Ciphertext E -> strategy scalar bool) :
  (order L ^ 2 * (order L - 1) * (guesses L 1 seed hashes (real_encryption M) D - guesses L 1 seed hashes (real_encryption M') D) =
   ddh_gap L (attacker_coins L 1 0 hashes) (attacker (fun K => [M K]) simulate_encryption D) -
   ddh_gap L (attacker_coins L 1 0 hashes) (attacker (fun K => [M' K]) simulate_encryption D))%Z.
Proof using Ht Hseed.
  destruct encryption_scheme as (assemble & acc & Hs & Hc). exact (scheme_secret 1 1 0 0 _ _ _ _ _ _ _ D (sim_ok_core _ _ _ _ _ _ Hs) (Hc M) (Hc M')).
Qed.

(** verifiers that do nothing but check a ring proof *)
Lemma ring_program {B : Type} (x : scalar) (V : strategy scalar (outcome B)) (p : RingProof E) vals c t (f : hash scalar -> nat) :
  responses_ok p vals -> (forall o, asked o V = asked o (ring_verifier p (pk x) vals c t)) -> (forall o, incl (asked o V) dom) ->
  reads anything f ->
  hsum (fun o => f (answering V (rp_challenge p) o)) =
  q ^ 1 * hsum (fun o => b2n (s_eqb (answer o (point (ring_points p (pk x) vals c t) o)) (rp_challenge p)) * f o).
Proof using L Ht Hdom.
  intros Hr HV Hcov Hf. rewrite Nat.pow_1_r. apply (answer_one dom o0 Hdom V (ring_points p (pk x) vals c t)); try assumption.
  - apply ring_points_ret. exact Hr.
  - intros o t' H. rewrite HV. apply ring_points_ask; assumption.
  - apply ring_points_new. exact Hr.
Qed.

Lemma asked_after_output {X Y : Type} o (T : strategy scalar (outcome X)) (g : X -> outcome Y) :
  asked o (after T (fun a => Output (g a))) = asked o T.
Proof. unfold after. rewrite asked_andthen. destruct (run o T); cbn; apply app_nil_r. Qed.

Definition bool_vals : list (list element) := [[identity; generator]].

Lemma bool_scheme : covers dom 1 3 (fun K c s => bool_verifier K (first_of (E:=E) c) (ring_proof_of (E:=E) s)) ->
  exists assemble acc, sim_ok 1 3 1 simulate_bool assemble acc /\
  forall v : PublicKey E -> bool, side_ok 3 1 3 assemble acc (fun K => [bit_element (v K)]) (real_bool v).
Proof using Ht Hdom.
  intros Hcov.
  set (acc := fun (K : PublicKey E) (c : list (Ciphertext E)) (s : list scalar) (o : hash scalar) =>
    s_eqb (answer o (point (ring_points (ring_proof_of s) K bool_vals [first_of c] (transcript_new "bool_encryption")) o)) (rp_challenge (ring_proof_of s))).
  set (P := fun (v : PublicKey E -> bool) x o (cp : Ciphertext E * RingProof E) =>
    (exists r, encrypts (pk x) (fst cp) (bit_element (v (pk x))) r) /\ verify_bool (E:=hashed_by E o) (pk x) (fst cp) (snd cp) = Ret (Ok tt)).
  assert (HP : forall v x o a, P v x o a <-> exists c s, List.length s = 3 /\
     Forall2 (fun M c => exists r, encrypts (pk x) c M r) [bit_element (v (pk x))] c /\ a = (first_of c, ring_proof_of s) /\ acc (pk x) c s o = true).
  { intros u x o [c p]. unfold P, verify_bool. cbn [fst snd]. split.
    - intros [Hc Hv]. inv_bind Hv. destruct a as [res t']. injection Hv as ->.
      exists [c], (rp_challenge p :: rp_responses p). rewrite ring_proof_of_cons. pose proof (ring_verify_responses o p _ _ _ _ _ Hm) as Hr.
      split; [cbn [List.length]; rewrite Hr; reflexivity|]. rewrite Forall2_single. split; [eauto|]. split; [reflexivity|].
      unfold acc. rewrite ring_proof_of_cons. apply ring_points_accept; [exact Hr|]. exists t'. exact Hm.
    - intros (cl & s & Hs & Hc & Heq & Hacc). apply Forall2_single in Hc as (b & -> & Hb). injection Heq as -> ->. split; [exact Hb|].
      apply ring_points_accept in Hacc as [t' Hv]; [|unfold responses_ok; rewrite ring_proof_responses, Hs; reflexivity].
      cbn [first_of hd] in *. change (RingProof_verify (ring_proof_of s) (pk x) [[identity; generator]] [b] (transcript_new "bool_encryption"))
        with (RingProof_verify (E:=hashed_by E o) (ring_proof_of s) (pk x) bool_vals [b] (transcript_new "bool_encryption")). rewrite Hv. reflexivity. }
  assert (HV : forall x c s o, List.length s = 3 ->
    asked o (bool_verifier (pk x) (first_of c) (ring_proof_of s)) = asked o (ring_verifier (ring_proof_of s) (pk x) bool_vals [first_of c] (transcript_new "bool_encryption"))).
  { intros x c s o _. unfold bool_verifier. apply asked_after_output. }
  assert (Hrs : forall s, List.length s = 3 -> responses_ok (ring_proof_of s) bool_vals) by (intros s Hs; unfold responses_ok; rewrite ring_proof_responses, Hs; reflexivity).
  exists (fun c s => (first_of c, ring_proof_of s)), acc. split.
  - split; [reflexivity|]. split; [|split; [|split]].
    + intros c c' s s' H1 H2 H3 H4 H. injection H as H H5 H6. split; [rewrite (one_ct c H1), (one_ct c' H2), H; reflexivity|].
      apply (ring_proof_inj s s' 2 H3 H4). unfold ring_proof_of. congruence.
    + intros x c s f Hc Hs Hf. cbn [simulate_bool snd].
      apply (ring_program x (bool_verifier (pk x) (first_of c) (ring_proof_of s)) (ring_proof_of s) bool_vals [first_of c]); [exact (Hrs s Hs)| | |exact Hf].
      * intros o. apply HV. exact Hs.
      * intros o. destruct (pk_good x) as [Hk Hb]. exact (Hcov x (pk x) c s o Hk Hb Hc Hs).
    + intros x c s o y Hc Hs Hy. cbn [simulate_bool snd]. apply answering_other. rewrite (HV x c s o Hs). intros Hin.
      apply ring_asked_hd in Hin; [|exact (Hrs s Hs)|discriminate]. unfold foreign in Hy. rewrite Hy in Hin. discriminate.
    + intros x c s o o' H. cbn [simulate_bool snd]. apply answering_ext. exact H.
  - intros v. split; [reflexivity|]. exists (P v). split; [|apply HP]. intros x o. exact (encrypt_bool_uniform (hashed_by E o) L Ht (pk x) (v (pk x))).
Qed.

Lemma bool_secret (v v' : PublicKey E -> bool) (D : PublicKey E -> Ciphertext E * RingProof E -> strategy scalar bool) :
  covers dom 1 3 (fun K c s => bool_verifier K (first_of (E:=E) c) (ring_proof_of (E:=E) s)) ->
  (order L ^ 3 * (order L - 1) * (guesses L 3 seed hashes (real_bool v) D - guesses L 3 seed hashes (real_bool v') D) =
   ddh_gap L (attacker_coins L 1 3 hashes) (attacker (fun K => [bit_element (v K)]) simulate_bool D) -
   ddh_gap L (attacker_coins L 1 3 hashes) (attacker (fun K => [bit_element (v' K)]) simulate_bool D))%Z.
Proof using Ht Hseed Hdom.
  intros Hcov. destruct (bool_scheme Hcov) as (assemble & acc & Hs & Hc). exact (scheme_secret 3 1 3 1 _ _ _ _ _ _ _ D (sim_ok_core _ _ _ _ _ _ Hs) (Hc v) (Hc v')).
Qed.

(** ** ballots *)
Definition bit_vals (n : nat) : list (list element) := repeat [identity; generator] n.

Lemma bit_vals_size n : list_sum (map (@List.length element) (bit_vals n)) = 2 * n.
Proof. induction n as [|n IH]; [reflexivity|]. cbn [bit_vals repeat map list_sum fold_right] in *. change (fold_right Init.Nat.add 0 ?l) with (list_sum l). unfold bit_vals in IH. rewrite IH. cbn. lia. Qed.

Lemma bits_len (v : PublicKey E -> list bool) n : (forall K, List.length (v K) = n) -> forall K, List.length (map (bit_element (E:=E)) (v K)) = n.
Proof. intros H K. rewrite map_length. apply H. Qed.

Lemma Forall2_map_l {A B C : Type} (R : B -> C -> Prop) (g : A -> B) l l' : Forall2 R (map g l) l' <-> Forall2 (fun a => R (g a)) l l'.
Proof.
  split.
  - revert l'. induction l as [|a l IH]; intros l' H; inversion H; subst; constructor; auto.
  - induction 1; constructor; auto.
Qed.

Lemma Forall2_len {A B : Type} (R : A -> B -> Prop) l l' : Forall2 R l l' -> List.length l = List.length l'.
Proof. induction 1; cbn; congruence. Qed.

Lemma multi_scheme n : 0 < n -> (N.of_nat n < 2 ^ 64)%N ->
  covers dom n (1 + 2 * n) (fun K c s => choice_ranges_verifier (E:=E) K c (ring_proof_of (E:=E) s)) ->
  exists assemble acc, sim_ok n (1 + 2 * n) 1 simulate_multi assemble acc /\
  forall v : PublicKey E -> list bool, (forall K, List.length (v K) = n) ->
    side_ok (3 * n) n (1 + 2 * n) assemble acc (fun K => map bit_element (v K)) (real_multi n v).
Proof using Ht Hdom.
  intros Hn Hbig Hcov.
  set (acc := fun (K : PublicKey E) (c : list (Ciphertext E)) (s : list scalar) (o : hash scalar) =>
    s_eqb (answer o (point (ring_points (ring_proof_of s) K (bit_vals n) c (transcript_new "encrypted_choice_ranges")) o)) (rp_challenge (ring_proof_of s))).
  set (P := fun (v : PublicKey E -> list bool) x o (b : list (Ciphertext E) * RingProof E * unit) =>
    Forall2 (fun flag c => exists r, encrypts (pk x) c (bit_element flag) r) (v (pk x)) (fst (fst b)) /\
    exists t', RingProof_verify (E:=hashed_by E o) (snd (fst b)) (pk x) (bit_vals n) (fst (fst b)) (transcript_new "encrypted_choice_ranges") = Ret (Ok tt, t')).
  assert (HP : forall v x o a, P v x o a <-> exists c s, List.length s = 1 + 2 * n /\
     Forall2 (fun M c => exists r, encrypts (pk x) c M r) (map bit_element (v (pk x))) c /\ a = (c, ring_proof_of s, tt) /\ acc (pk x) c s o = true).
  { intros u x o [[c p] []]. unfold P. cbn [fst snd]. split.
    - intros [Hc [t' Hm]]. exists c, (rp_challenge p :: rp_responses p). unfold acc. rewrite ring_proof_of_cons.
      pose proof (ring_verify_responses o p _ _ _ _ _ Hm) as Hr.
      split; [cbn [List.length]; rewrite Hr, bit_vals_size; reflexivity|]. rewrite Forall2_map_l. split; [exact Hc|]. split; [reflexivity|].
      apply ring_points_accept; [exact Hr|]. exists t'. exact Hm.
    - intros (cl & s & Hs & Hc & Heq & Hacc). apply Forall2_map_l in Hc. injection Heq as -> ->. split; [exact Hc|].
      apply ring_points_accept; [|exact Hacc]. unfold responses_ok. rewrite ring_proof_responses, Hs, bit_vals_size. lia. }
  assert (HU : forall v, (forall K, List.length (v K) = n) -> forall x o, uniform_over (3 * n) (real_multi n v o (pk x)) (P v x o)).
  { intros u Hu x o.
    pose proof (multi_choice_uniform (hashed_by E o) L Ht (@mkChoiceParams (hashed_by E o) (MultiChoice (E:=hashed_by E o)) n (pk x)) (u (pk x))) as H.
    rewrite Hu in H. cbn [cp_options_count cp_receiver] in H.
    specialize (H eq_refl ltac:(intros H0; specialize (Hu (pk x)); rewrite H0 in Hu; cbn in Hu; lia) Hbig).
    refine (uniform_image (3 * n) _ _ (real_multi n u o (pk x)) (P u x o)
      (fun e : EncryptedChoice (E:=hashed_by E o) (MultiChoice (E:=hashed_by E o)) => (ec_choices e, ec_range_proof e, ec_sum_proof e)) H _ _ _ _).
    - intros r e r' _ Hr. unfold real_multi. rewrite Hr. reflexivity.
    - intros e [Hc Hver]. unfold P. cbn [fst snd]. split; [exact Hc|].
      apply (choice_verify_ok_iff (hashed_by E o) L) in Hver as (_ & Hl & _ & _ & Hr). cbn [cp_options_count cp_receiver] in *.
      rewrite Hl in Hr. exact Hr.
    - intros [[c p] []] [Hc Hr]. cbn [fst snd] in *.
      exists (mkEncryptedChoice (E:=hashed_by E o) (S:=MultiChoice (E:=hashed_by E o)) c p tt). split; [|reflexivity]. cbn [ec_choices]. split; [exact Hc|].
      apply (choice_verify_ok_iff (hashed_by E o) L). cbn [ec_choices ec_range_proof ec_sum_proof cp_options_count cp_receiver].
      assert (Hl : List.length c = n) by (rewrite <- (Forall2_len _ _ _ Hc); apply Hu).
      split; [reflexivity|]. split; [exact Hl|]. split; [intros ->; cbn in Hl; lia|]. split; [reflexivity|]. unfold bit_vals in Hr. rewrite <- Hl in Hr. exact Hr.
    - intros [c p []] [c' p' []] _ _ Heq. cbn in Heq. congruence. }
  assert (HV : forall x c s o, List.length c = n ->
    asked o (choice_ranges_verifier (pk x) c (ring_proof_of s)) = asked o (ring_verifier (ring_proof_of s) (pk x) (bit_vals n) c (transcript_new "encrypted_choice_ranges"))).
  { intros x c s o Hc. unfold choice_ranges_verifier. rewrite Hc.
    exact (asked_after_output o _ (fun r => Ret (match fst r with Ok _ => Ok c | Err err => Err (ChoiceRange err) end))). }
  assert (Hrs : forall s, List.length s = 1 + 2 * n -> responses_ok (ring_proof_of s) (bit_vals n))
    by (intros s Hs; unfold responses_ok; rewrite ring_proof_responses, Hs, bit_vals_size; lia).
  exists (fun c s => (c, ring_proof_of s, tt)), acc. split.
  - split; [reflexivity|]. split; [|split; [|split]].
    + intros c c' s s' H1 H2 H3 H4 H. injection H as -> H5 H6. split; [reflexivity|].
      apply (ring_proof_inj s s' (2 * n) H3 H4). unfold ring_proof_of. congruence.
    + intros x c s f Hc Hs Hf. cbn [simulate_multi snd].
      apply (ring_program x (choice_ranges_verifier (pk x) c (ring_proof_of s)) (ring_proof_of s) (bit_vals n) c); [exact (Hrs s Hs)| | |exact Hf].
      * intros o. apply HV. exact Hc.
      * intros o. destruct (pk_good x) as [Hk Hb]. exact (Hcov x (pk x) c s o Hk Hb Hc Hs).
    + intros x c s o y Hc Hs Hy. cbn [simulate_multi snd]. apply answering_other. rewrite (HV x c s o Hc). intros Hin.
      apply ring_asked_hd in Hin; [|exact (Hrs s Hs)|discriminate]. unfold foreign in Hy. rewrite Hy in Hin. discriminate.
    + intros x c s o o' H. cbn [simulate_multi snd]. apply answering_ext. exact H.
  - intros v Hv. split; [apply bits_len, Hv|]. exists (P v). split; [apply HU, Hv|apply HP].
Qed.

Lemma multi_secret n (v v' : PublicKey E -> list bool) (D : PublicKey E -> list (Ciphertext E) * RingProof E * unit -> strategy scalar bool) :
  0 < n -> (N.of_nat n < 2 ^ 64)%N -> (forall K, List.length (v K) = n) -> (forall K, List.length (v' K) = n) ->
  covers dom n (1 + 2 * n) (fun K c s => choice_ranges_verifier (E:=E) K c (ring_proof_of (E:=E) s)) ->
  (order L ^ Z.of_nat (n + 2) * (order L - 1) * (guesses L (3 * n) seed hashes (real_multi n v) D - guesses L (3 * n) seed hashes (real_multi n v') D) =
   ddh_gap L (attacker_coins L n (1 + 2 * n) hashes) (attacker (fun K => map bit_element (v K)) simulate_multi D) -
   ddh_gap L (attacker_coins L n (1 + 2 * n) hashes) (attacker (fun K => map bit_element (v' K)) simulate_multi D))%Z.
Proof using Ht Hseed Hdom.
  intros Hn Hbig Hv Hv' Hcov. destruct (multi_scheme n Hn Hbig Hcov) as (assemble & acc & Hs & Hc). replace (n + 2) with (n + 1 + 1) by lia.
  exact (scheme_secret (3 * n) n (1 + 2 * n) 1 _ _ _ _ _ _ _ D (sim_ok_core _ _ _ _ _ _ Hs) (Hc v Hv) (Hc v' Hv')).
Qed.

(** the sum proof has one challenge *)
Lemma sum_shape (K : PublicKey E) (c : list (Ciphertext E)) (p : LogEqualityProof E) : c <> [] ->
  exists rest, let t := TMsg "dom-sep" (str_bytes "choice_encryption_sum") :: rest in
    forall o, asked o (sum_verifier K c p) = [(t, "c")] /\
      ((SingleChoice_verify (E:=hashed_by E o) (ct_total c) p K = Ret (Ok tt)) <-> s_eqb (o t "c") (le_challenge p) = true).
Proof using L Ht.
  intros Hc. unfold sum_verifier. rewrite (reduce_ct E L c Hc). cbn [unwrap doing].
  set (total := ct_total c). set (powers := (random_element total, (blinded_element total - generator)%E)).
  assert (Hs : exists rest, let t := TMsg "dom-sep" (str_bytes "choice_encryption_sum") :: rest in
    forall o, asked o (log_equality_verifier p K powers (transcript_new "choice_encryption_sum")) = [(t, "c")] /\
      run o (log_equality_verifier p K powers (transcript_new "choice_encryption_sum")) =
        Ret (if s_eqb (o t "c") (le_challenge p) then Ok tt else Err ChallengeMismatch, t ++ [TChal "c"])).
  { unfold log_equality_verifier. rewrite (vartime_multi_mul_ok _ L [(- le_challenge p)%S; le_response p]) by reflexivity. cbn [doing].
    unfold append_element. rewrite !(ser_ok E L Ht). cbn [bind doing]. eexists. cbv zeta. intros o. split.
    - unfold asking, append_message, append_element_bytes, start_proof, transcript_new, append_message. cbn [asked app]. reflexivity.
    - unfold asking, append_message, append_element_bytes, start_proof, transcript_new, append_message. cbn [run app answer fst snd]. reflexivity. }
  destruct Hs as (rest & Hs). exists rest. set (t := TMsg "dom-sep" (str_bytes "choice_encryption_sum") :: rest) in *. cbv zeta in *. intros o. destruct (Hs o) as [Ha Hr]. split; [exact Ha|].
  unfold SingleChoice_verify. rewrite log_equality_run in Hr. fold t in Hr.
  change (random_element (ct_total c), (blinded_element (ct_total c) - generator)%E) with powers.
  match goal with |- context[bind ?m _] => change m with (LogEqualityProof_verify (E:=hashed_by E o) p K powers (transcript_new "choice_encryption_sum")) end.
  rewrite Hr. cbn [bind]. destruct (s_eqb (o t "c") (le_challenge p)); split; congruence.
Qed.

Definition sum_proof_of (s : list scalar) : LogEqualityProof E := {| le_challenge := hd 0%S s; le_response := hd 0%S (tl s) |}.

Lemma single_scheme n : 0 < n -> (N.of_nat n < 2 ^ 64)%N ->
  covers dom n (3 + 2 * n) (fun K c s => choice_ranges_verifier (E:=E) K c (ring_proof_of (E:=E) (tl (tl s)))) ->
  covers dom n (3 + 2 * n) (fun K c s => sum_verifier (E:=E) K c {| le_challenge := hd 0%S s; le_response := hd 0%S (tl s) |}) ->
  exists assemble acc, sim_ok n (3 + 2 * n) 2 simulate_single assemble acc /\
  forall v : PublicKey E -> list bool, (forall K, List.length (v K) = n /\ count_occ bool_dec (v K) true = 1) ->
    side_ok (3 * n + 1) n (3 + 2 * n) assemble acc (fun K => map bit_element (v K)) (real_single n v).
Proof using Ht Hdom.
  intros Hn Hbig Hcov Hcov2.
  set (racc := fun (K : PublicKey E) (c : list (Ciphertext E)) (s : list scalar) (o : hash scalar) =>
    s_eqb (answer o (point (ring_points (ring_proof_of (tl (tl s))) K (bit_vals n) c (transcript_new "encrypted_choice_ranges")) o))
      (rp_challenge (ring_proof_of (tl (tl s))))).
  set (sacc := fun (K : PublicKey E) (c : list (Ciphertext E)) (s : list scalar) (o : hash scalar) =>
    match SingleChoice_verify (E:=hashed_by E o) (ct_total c) (sum_proof_of s) K with Ret (Ok tt) => true | _ => false end).
  assert (Hsacc : forall K c s o, sacc K c s o = true <-> SingleChoice_verify (E:=hashed_by E o) (ct_total c) (sum_proof_of s) K = Ret (Ok tt)).
  { intros K c s o. unfold sacc. destruct (SingleChoice_verify _ _ _) as [[[]|e]|k]; split; congruence. }
  set (acc := fun (K : PublicKey E) c s (o : hash scalar) => sacc K c s o && racc K c s o).
  set (P := fun (v : PublicKey E -> list bool) x o (b : list (Ciphertext E) * RingProof E * LogEqualityProof E) =>
    Forall2 (fun flag c => exists r, encrypts (pk x) c (bit_element flag) r) (v (pk x)) (fst (fst b)) /\
    SingleChoice_verify (E:=hashed_by E o) (ct_total (fst (fst b))) (snd b) (pk x) = Ret (Ok tt) /\
    exists t', RingProof_verify (E:=hashed_by E o) (snd (fst b)) (pk x) (bit_vals n) (fst (fst b)) (transcript_new "encrypted_choice_ranges") = Ret (Ok tt, t')).
  assert (HP : forall v x o a, P v x o a <-> exists c s, List.length s = 3 + 2 * n /\
     Forall2 (fun M c => exists r, encrypts (pk x) c M r) (map bit_element (v (pk x))) c /\
     a = (c, ring_proof_of (tl (tl s)), sum_proof_of s) /\ acc (pk x) c s o = true).
  { intros u x o [[c p] [sc sr]]. unfold P. cbn [fst snd]. split.
    - intros (Hc & Hsum & [t' Hm]). exists c, (sc :: sr :: rp_challenge p :: rp_responses p). unfold acc, racc. cbn [tl]. rewrite ring_proof_of_cons.
      pose proof (ring_verify_responses o p _ _ _ _ _ Hm) as Hr.
      split; [cbn [List.length]; rewrite Hr, bit_vals_size; reflexivity|]. rewrite Forall2_map_l. split; [exact Hc|]. split; [reflexivity|].
      apply andb_true_iff. split; [apply Hsacc; exact Hsum|]. apply ring_points_accept; [exact Hr|]. exists t'. exact Hm.
    - intros (cl & s & Hs & Hc & Heq & Hacc). apply Forall2_map_l in Hc.
      assert (c = cl /\ p = ring_proof_of (tl (tl s)) /\ {| le_challenge := sc; le_response := sr |} = sum_proof_of s) as (-> & -> & ->)
        by (repeat split; congruence).
      split; [exact Hc|]. apply andb_true_iff in Hacc as [H1 H2]. split; [apply Hsacc; exact H1|].
      apply ring_points_accept; [|exact H2]. unfold responses_ok. rewrite ring_proof_responses, bit_vals_size.
      destruct s as [|? [|? s]]; cbn in Hs |- *; lia. }
  assert (HU : forall v, (forall K, List.length (v K) = n /\ count_occ bool_dec (v K) true = 1) ->
    forall x o, uniform_over (3 * n + 1) (real_single n v o (pk x)) (P v x o)).
  { intros u Hu x o. destruct (Hu (pk x)) as [Hu1 Hu2].
    pose proof (single_choice_uniform (hashed_by E o) L Ht (@mkChoiceParams (hashed_by E o) (SingleChoice (E:=hashed_by E o)) n (pk x)) (u (pk x))) as H.
    rewrite Hu1 in H. cbn [cp_options_count cp_receiver] in H. specialize (H eq_refl Hbig Hu2).
    refine (uniform_image (3 * n + 1) _ _ (real_single n u o (pk x)) (P u x o)
      (fun e : EncryptedChoice (E:=hashed_by E o) (SingleChoice (E:=hashed_by E o)) => (ec_choices e, ec_range_proof e, ec_sum_proof e)) H _ _ _ _).
    - intros r e r' _ Hr. unfold real_single. rewrite Hr. reflexivity.
    - intros e [Hc Hver]. unfold P. cbn [fst snd]. split; [exact Hc|].
      apply (choice_verify_ok_iff (hashed_by E o) L) in Hver as (_ & Hl & _ & Hsum & Hr). cbn [cp_options_count cp_receiver] in *.
      split; [exact Hsum|]. rewrite Hl in Hr. exact Hr.
    - intros [[c p] sp] (Hc & Hsum & Hr). cbn [fst snd] in *.
      exists (mkEncryptedChoice (E:=hashed_by E o) (S:=SingleChoice (E:=hashed_by E o)) c p sp). split; [|reflexivity]. cbn [ec_choices]. split; [exact Hc|].
      apply (choice_verify_ok_iff (hashed_by E o) L). cbn [ec_choices ec_range_proof ec_sum_proof cp_options_count cp_receiver].
      assert (Hl : List.length c = n) by (rewrite <- (Forall2_len _ _ _ Hc); exact Hu1).
      split; [reflexivity|]. split; [exact Hl|]. split; [intros ->; cbn in Hl; lia|]. split; [exact Hsum|].
      unfold bit_vals in Hr. rewrite <- Hl in Hr. exact Hr.
    - intros [c p sp] [c' p' sp'] _ _ Heq. cbn in Heq. congruence. }
  exists (fun c s => (c, ring_proof_of (tl (tl s)), sum_proof_of s)), acc. split.
  - split; [reflexivity|]. split; [|split; [|split]].
    + intros c c' s s' H1 H2 H3 H4 H. injection H as -> H5 H6 H7 H8. split; [reflexivity|].
      destruct s as [|a [|b [|d s]]], s' as [|a' [|b' [|d' s']]]; cbn in *; try lia. congruence.
    + intros x c s f Hc Hs Hf. cbn [simulate_single snd]. fold (sum_proof_of s).
      destruct (pk_good x) as [Hk Hb].
      assert (Hcn : c <> []) by (intros ->; cbn in Hc; lia).
      destruct (sum_shape (pk x) c (sum_proof_of s) Hcn) as (rest & Hsum). set (ts := TMsg "dom-sep" (str_bytes "choice_encryption_sum") :: rest) in *. cbv zeta in Hsum.
      set (T := Output (Ret ts) : strategy scalar (outcome transcript)).
      assert (Hr : responses_ok (ring_proof_of (tl (tl s))) (bit_vals n)).
      { unfold responses_ok. rewrite ring_proof_responses, bit_vals_size. destruct s as [|? [|? s]]; cbn in Hs |- *; lia. }
      set (R := ring_points (ring_proof_of (tl (tl s))) (pk x) (bit_vals n) c (transcript_new "encrypted_choice_ranges")).
      assert (Hsep : forall o, point R o <> (ts, "c") /\ ~ In (ts, "c") (asked o R)).
      { intros o. split.
        - unfold point. destruct (ring_points_shape (ring_proof_of (tl (tl s))) (pk x) (bit_vals n) c (transcript_new "encrypted_choice_ranges") o Hr) as (r & H & _).
          fold R in H. rewrite H. intros Heq. apply (f_equal (fun y : query => hd (TChal "") (fst y))) in Heq. cbn in Heq. discriminate.
        - intros Hin. apply ring_points_asked in Hin as (r & Heq); [|exact Hr].
          apply (f_equal (fun y : query => hd (TChal "") (fst y))) in Heq. cbn in Heq. discriminate. }
      assert (HsaccT : forall o, sacc (pk x) c s o = s_eqb (answer o (point T o)) (le_challenge (sum_proof_of s))).
      { intros o. apply eq_true_iff_eq. rewrite Hsacc. apply Hsum. }
      assert (Hans : forall o, answering (sum_verifier (pk x) c (sum_proof_of s)) (le_challenge (sum_proof_of s)) o =
          set_hash o (ts, "c") (le_challenge (sum_proof_of s))).
      { intros o. unfold answering. destruct (Hsum o) as [-> _]. reflexivity. }
      assert (Hf' : reads anything (fun o => f (answering (sum_verifier (pk x) c (sum_proof_of s)) (le_challenge (sum_proof_of s)) o))).
      { intros o o' H. rewrite !Hans. apply Hf. intros y _. destruct (query_dec (ts, "c") y) as [<-|Hne]; [rewrite !set_same; reflexivity|].
        rewrite !set_other by exact Hne. apply H. exact I. }
      rewrite (ring_program x (choice_ranges_verifier (pk x) c (ring_proof_of (tl (tl s)))) (ring_proof_of (tl (tl s))) (bit_vals n) c
         (transcript_new "encrypted_choice_ranges") (fun o => f (answering (sum_verifier (pk x) c (sum_proof_of s)) (le_challenge (sum_proof_of s)) o)));
        [| exact Hr | | |exact Hf'].
      2:{ intros o. unfold choice_ranges_verifier. rewrite Hc.
          exact (asked_after_output o _ (fun r => Ret (match fst r with Ok _ => Ok c | Err err => Err (ChoiceRange err) end))). }
      2:{ intros o. exact (Hcov x (pk x) c s o Hk Hb Hc Hs). }
      fold R.
      set (g := fun o => b2n (racc (pk x) c s o) * f o).
      assert (Hg : reads anything g).
      { intros o o' H. unfold g, racc. fold R. rewrite (point_reads R o o' H), (Hf o o' H), (H _ I). reflexivity. }
      rewrite (hsum_ext scalar scalars dom o0 _ (fun o => g (answering (sum_verifier (pk x) c (sum_proof_of s)) (le_challenge (sum_proof_of s)) o))).
      2:{ intros o _. unfold g, racc. fold R. rewrite Hans. destruct (Hsep o) as [H1 H2]. rewrite (point_set R) by exact H2.
          rewrite set_other by congruence. reflexivity. }
      rewrite (answer_one dom o0 Hdom (sum_verifier (pk x) c (sum_proof_of s)) T); [| | | | |exact Hg].
      * rewrite Nat.pow_1_r, Nat.pow_2_r, Nat.mul_assoc. f_equal. apply lsum_ext. intros o _. rewrite <- HsaccT. unfold g, acc.
        destruct (sacc (pk x) c s o), (racc (pk x) c s o); cbn [b2n andb]; lia.
      * intros o. eexists. reflexivity.
      * intros o t H. injection H as <-. apply Hsum.
      * intros o o' t H [].
      * intros o. exact (Hcov2 x (pk x) c s o Hk Hb Hc Hs).
    + intros x c s o y Hc Hs Hy. cbn [simulate_single snd]. rewrite !answering_other; [reflexivity| |].
      * unfold choice_ranges_verifier. rewrite Hc.
        rewrite (asked_after_output o _ (fun r => Ret (match fst r with Ok _ => Ok c | Err err => Err (ChoiceRange err) end))). intros Hin.
        apply ring_asked_hd in Hin; [|unfold responses_ok; rewrite ring_proof_responses; fold (bit_vals n); rewrite bit_vals_size; destruct s as [|? [|? s]]; cbn in Hs |- *; lia|discriminate].
        unfold foreign in Hy. rewrite Hy in Hin. discriminate.
      * assert (Hcn : c <> []) by (intros ->; cbn in Hc; lia).
        destruct (sum_shape (pk x) c (sum_proof_of s) Hcn) as (rest & Hsum). cbv zeta in Hsum. unfold sum_proof_of in Hsum. rewrite (proj1 (Hsum _)).
        intros [<-|[]]. unfold foreign in Hy. cbn in Hy. discriminate.
    + intros x c s o o' H. cbn [simulate_single snd]. apply answering_ext, answering_ext. exact H.
  - intros v Hv. split; [apply bits_len; intros K; apply Hv|]. exists (P v). split; [apply HU, Hv|apply HP].
Qed.

Lemma single_secret n (v v' : PublicKey E -> list bool)
    (D : PublicKey E -> list (Ciphertext E) * RingProof E * LogEqualityProof E -> strategy scalar bool) :
  (N.of_nat n < 2 ^ 64)%N ->
  (forall K, List.length (v K) = n /\ count_occ bool_dec (v K) true = 1) -> (forall K, List.length (v' K) = n /\ count_occ bool_dec (v' K) true = 1) ->
  covers dom n (3 + 2 * n) (fun K c s => choice_ranges_verifier (E:=E) K c (ring_proof_of (E:=E) (tl (tl s)))) ->
  covers dom n (3 + 2 * n) (fun K c s => sum_verifier (E:=E) K c {| le_challenge := hd 0%S s; le_response := hd 0%S (tl s) |}) ->
  (order L ^ Z.of_nat (n + 3) * (order L - 1) *
     (guesses L (3 * n + 1) seed hashes (real_single n v) D - guesses L (3 * n + 1) seed hashes (real_single n v') D) =
   ddh_gap L (attacker_coins L n (3 + 2 * n) hashes) (attacker (fun K => map bit_element (v K)) simulate_single D) -
   ddh_gap L (attacker_coins L n (3 + 2 * n) hashes) (attacker (fun K => map bit_element (v' K)) simulate_single D))%Z.
Proof using Ht Hseed Hdom.
  intros Hbig Hv Hv' Hcov Hcov2.
  assert (Hn : 0 < n).
  { pose proof (Hv (pk 0%S)) as [H1 H2]. destruct (v (pk 0%S)); [discriminate|]. cbn in H1. lia. }
  destruct (single_scheme n Hn Hbig Hcov Hcov2) as (assemble & acc & Hs & Hc). replace (n + 3) with (n + 2 + 1) by lia.
  exact (scheme_secret (3 * n + 1) n (3 + 2 * n) 2 _ _ _ _ _ _ _ D (sim_ok_core _ _ _ _ _ _ Hs) (Hc v Hv) (Hc v' Hv')).
Qed.

(** ** ranges *)
Lemma removelast_len {A : Type} (l : list A) : List.length (removelast l) = List.length l - 1.
Proof. induction l as [|a l IH]; [reflexivity|]. cbn [removelast List.length]. destruct l; [reflexivity|]. cbn [List.length] in *. lia. Qed.

Lemma range_messages_len d v idx : in_rings d idx -> d <> [] -> List.length (range_messages (E:=E) d v idx) = List.length d.
Proof.
  intros H Hd. unfold range_messages. cbn [List.length]. rewrite map_length, removelast_len, combine_length, (Forall2_len _ _ _ H).
  destruct d; [congruence|]. cbn [List.length]. lia.
Qed.

(** [RangeProof::new] and its simulation for any transcript *)
Definition real_range_at (t : transcript) (range : PreparedRange E) (v : N) (o : hash scalar) (K : PublicKey E) (r : Rng E)
    : outcome ((Ciphertext E * RangeProof E) * Rng E) :=
  '(c, p, _, r) <- RangeProof_new (E:=hashed_by E o) K range v t r ;; Ret ((cwv_inner c, p), r).
Definition simulate_range_at (t : transcript) (range : PreparedRange E) (K : PublicKey E) (c : list (Ciphertext E)) (s : list scalar) (o : hash scalar)
    : (Ciphertext E * RangeProof E) * hash scalar :=
  let p := {| rap_partial := tl c; rap_inner := ring_proof_of s |} in
  ((first_of c, p), answering (range_verifier p K range (first_of c) t) (rp_challenge (rap_inner p)) o).

Lemma range_at_uniform o (K : PublicKey E) t n d v :
  doc_form n d -> (n + 64 < 2 ^ 64)%N -> (v < n)%N ->
  uniform_over (range_draws d) (real_range_at t (prepared E d) v o K)
    (fun cp => (exists x, encrypts K (fst cp) (times v generator) x) /\ hides_digits K d (digits E d v) (rap_partial (snd cp)) /\
       exists t', RangeProof_verify (E:=hashed_by E o) (snd cp) K (prepared E d) (fst cp) t = Ret (Ok tt, t')).
Proof using L Ht.
  intros H1 H2 H3.
  apply (uniform_image (E:=hashed_by E o) _ _ _ _ _ (fun cp : CiphertextWithValue E N * RangeProof E => (cwv_inner (fst cp), snd cp))
    (range_new_uniform_proof (hashed_by E o) L Ht K n d v t H1 H2 H3)).
  - intros r [c p] r' _ H. inv_bind H. destruct a as [[[c1 p1] t1] r1]. injection H as -> -> ->.
    exact (f_equal (fun m => bind m (fun x => let '(c, p, _, r) := x in Ret ((cwv_inner c, p), r))) Hm).
  - intros [c p] (Ha & Hb & Hc & t' & Hd). cbn [fst snd] in *. split; [exists (cwv_randomness c); exact Hb|]. split; [exact Hc|]. exists t'. exact Hd.
  - intros [ct p] ([x Hx] & Hc & t' & Hv). cbn [fst snd] in *.
    exists ({| cwv_ext := {| ext_inner := ct; ext_random_scalar := x |}; cwv_value := v |}, p). cbn [fst snd].
    split; [|reflexivity]. split; [reflexivity|]. split; [exact Hx|]. split; [exact Hc|]. exists t'. exact Hv.
  - intros [c p] [c' p'] (Ha & Hb & _) (Ha' & Hb' & _) Heq. cbn [fst snd] in *. injection Heq as Hi ->. f_equal.
    eapply (cwv_eq (hashed_by E o) L); [exact (eq_trans Ha (eq_sym Ha'))|exact Hb|exact Hb'|exact Hi].
Qed.

Lemma range_scheme_at t nmax d :
  let k := 1 + N.to_nat (n_sum (map rs_size d)) in
  t <> [] -> hd (TChal "") t <> TMsg "dom-sep" (str_bytes "elgamal_share_poly") ->
  doc_form nmax d -> (nmax + 64 < 2 ^ 64)%N ->
  covers dom (List.length d) k (fun K c s =>
    range_verifier (E:=E) {| rap_partial := tl c; rap_inner := ring_proof_of (E:=E) s |} K (prepared E d) (first_of (E:=E) c) t) ->
  exists assemble acc, sim_ok (List.length d) k 1 (simulate_range_at t (prepared E d)) assemble acc /\
  forall v, (v < nmax)%N -> side_ok (range_draws d) (List.length d) k assemble acc (fun _ => range_messages d v (digits E d v)) (real_range_at t (prepared E d) v).
Proof using Ht Hdom.
  intros k Hnil Hhd Hd Hn Hcov. pose proof (doc_form_nonempty _ _ Hd) as Hne.
  set (rp := fun (c : list (Ciphertext E)) (s : list scalar) => {| rap_partial := tl c; rap_inner := ring_proof_of s |}).
  set (rc := fun (c : Ciphertext E) (partial : list (Ciphertext E)) => partial ++ [Ciphertext_sub c (fold_left Ciphertext_add partial Ciphertext_zero)]).
  set (t0 := range_start_transcript t d).
  set (acc := fun (K : PublicKey E) (c : list (Ciphertext E)) (s : list scalar) (o : hash scalar) =>
    s_eqb (answer o (point (ring_points (ring_proof_of s) K (range_values d) (rc (first_of c) (tl c)) t0) o)) (rp_challenge (ring_proof_of s))).
  set (P := fun (v : N) x o (cp : Ciphertext E * RangeProof E) =>
    (exists r, encrypts (pk x) (fst cp) (times v generator) r) /\ hides_digits (pk x) d (digits E d v) (rap_partial (snd cp)) /\
    exists t', RangeProof_verify (E:=hashed_by E o) (snd cp) (pk x) (prepared E d) (fst cp) t = Ret (Ok tt, t')).
  assert (Hrs : forall s, List.length s = k -> responses_ok (ring_proof_of s) (range_values d)).
  { intros s Hs. unfold responses_ok. rewrite ring_proof_responses, Hs, (range_values_sum E). unfold k. lia. }
  assert (Hdig : forall v, (v < nmax)%N -> in_rings d (digits E d v)).
  { intros u Hu. apply (digits_ok E nmax d u Hd); [unfold u64_lim; lia|exact Hu]. }
  assert (Hver : forall x o c (p : RangeProof E), List.length (rap_partial p) + 1 = List.length d ->
    ((exists t', RangeProof_verify (E:=hashed_by E o) p (pk x) (prepared E d) c t = Ret (Ok tt, t')) <->
     exists t', RingProof_verify (E:=hashed_by E o) (rap_inner p) (pk x) (range_values d) (rc c (rap_partial p)) t0 = Ret (Ok tt, t'))).
  { intros x o c p Hl. unfold RangeProof_verify, check_lengths. cbn [pr_admissible prepared].
    match goal with |- context[if ?b then _ else _] => change b with (List.length (rap_partial p) + 1 =? List.length (range_values (E:=E) d)) end.
    rewrite (range_values_length E), Hl, Nat.eqb_refl. reflexivity. }
  assert (HP : forall v, (v < nmax)%N -> forall x o a, P v x o a <-> exists c s, List.length s = k /\
     Forall2 (fun M c => exists r, encrypts (pk x) c M r) (range_messages d v (digits E d v)) c /\ a = (first_of c, rp c s) /\ acc (pk x) c s o = true).
  { intros u Hu x o [c [partial p]]. unfold P, hides_digits. cbn [fst snd rap_partial].
    assert (Hpl : forall partial, Forall2 (fun it c => exists r, encrypts (pk x) c (times (fst it * rs_step (snd it)) generator) r) (removelast (combine (digits E d u) d)) partial ->
      List.length partial + 1 = List.length d).
    { intros pl H. apply Forall2_len in H. rewrite <- H, removelast_len, combine_length, (Forall2_len _ _ _ (Hdig u Hu)).
      destruct d; [congruence|]. cbn [List.length]. lia. }
    split.
    - intros (Hc & Hh & Hvr). apply Hver in Hvr as [t' Hm]; [|exact (Hpl partial Hh)]. cbn [rap_partial rap_inner] in Hm.
      pose proof (ring_verify_responses o p _ _ _ _ _ Hm) as Hr.
      exists (c :: partial), (rp_challenge p :: rp_responses p). unfold acc, rp. rewrite ring_proof_of_cons. cbn [first_of hd tl].
      split; [exact (f_equal S (eq_trans Hr (range_values_sum E d)))|].
      split; [unfold range_messages; constructor; [exact Hc|]; apply Forall2_map_l; exact Hh|]. split; [reflexivity|].
      apply ring_points_accept; [exact Hr|]. exists t'. exact Hm.
    - intros (cl & s & Hs & Hc & Heq & Hacc). unfold range_messages in Hc. inversion Hc as [|? c1 ? cl1 Hc1 Hcl]; subst. apply (Forall2_map_l _ _ _ _) in Hcl.
      unfold rp in Heq. cbn [first_of hd tl] in Heq. injection Heq as -> -> ->. split; [exact Hc1|]. split; [exact Hcl|].
      apply Hver; [exact (Hpl _ Hcl)|]. cbn [rap_partial rap_inner].
      apply ring_points_accept; [exact (Hrs s Hs)|exact Hacc]. }
  assert (HV : forall x c s o, List.length c = List.length d ->
    asked o (range_verifier (rp c s) (pk x) (prepared E d) (first_of c) t) =
    asked o (ring_verifier (ring_proof_of s) (pk x) (range_values d) (rc (first_of c) (tl c)) t0)).
  { intros x c s o Hc. unfold range_verifier, check_lengths. cbn [rp rap_partial pr_admissible prepared rap_inner].
    rewrite (range_values_length E). destruct c as [|c0 c]; [destruct d; [congruence|discriminate]|]. cbn [tl] in *.
    cbn [List.length] in Hc. rewrite <- Hc, Nat.add_1_r, Nat.eqb_refl. reflexivity. }
  exists (fun c s => (first_of c, rp c s)), acc. split.
  - split; [reflexivity|]. split; [|split; [|split]].
    + intros c c' s s' H1 H2 H3 H4 H. unfold rp in H. injection H as H5 H6 H7 H8. destruct c as [|c0 c], c' as [|c0' c']; try (destruct d; [congruence|discriminate]).
      cbn [first_of hd tl] in *. split; [congruence|]. apply (ring_proof_inj s s' _ H3 H4). unfold ring_proof_of. congruence.
    + intros x c s f Hc Hs Hf. cbn [simulate_range_at snd]. fold (rp c s). cbn [rp rap_inner].
      apply (ring_program x (range_verifier (rp c s) (pk x) (prepared E d) (first_of c) t) (ring_proof_of s) (range_values d) (rc (first_of c) (tl c)) t0); [| | |exact Hf].
      * exact (Hrs s Hs).
      * intros o. exact (HV x c s o Hc).
      * intros o. destruct (pk_good x) as [Hk Hb]. exact (Hcov x (pk x) c s o Hk Hb Hc Hs).
    + intros x c s o y Hc Hs Hy. cbn [simulate_range_at snd]. fold (rp c s). apply answering_other. rewrite (HV x c s o Hc). intros Hin.
      assert (Ht0 : hd (TChal "") t0 = hd (TChal "") t /\ t0 <> []) by (unfold t0; destruct t; [contradiction|split; [reflexivity|discriminate]]).
      apply ring_asked_hd in Hin; [|exact (Hrs s Hs)|exact (proj2 Ht0)]. unfold foreign in Hy. rewrite Hy, (proj1 Ht0) in Hin. congruence.
    + intros x c s o o' H. cbn [simulate_range_at snd]. apply answering_ext. exact H.
  - intros v Hv. split; [intros _; apply range_messages_len; [apply Hdig; exact Hv|exact Hne]|].
    exists (P v). split; [intros x o; exact (range_at_uniform o (pk x) t nmax d v Hd Hn Hv)|apply HP, Hv].
Qed.

Lemma range_scheme nmax d :
  let k := 1 + N.to_nat (n_sum (map rs_size d)) in
  doc_form nmax d -> (nmax + 64 < 2 ^ 64)%N ->
  covers dom (List.length d) k (fun K c s =>
    range_verifier (E:=E) {| rap_partial := tl c; rap_inner := ring_proof_of (E:=E) s |} K (prepared E d) (first_of (E:=E) c) (transcript_new "ciphertext_range")) ->
  exists assemble acc, sim_ok (List.length d) k 1 (simulate_range (prepared E d)) assemble acc /\
  forall v, (v < nmax)%N -> side_ok (range_draws d) (List.length d) k assemble acc (fun _ => range_messages d v (digits E d v)) (real_range (prepared E d) v).
Proof using Ht Hdom.
  intros k Hd Hn Hcov. destruct (range_scheme_at (transcript_new "ciphertext_range") nmax d ltac:(discriminate) ltac:(discriminate) Hd Hn Hcov) as (assemble & acc & Hs & Hside).
  exists assemble, acc. split; [exact Hs|]. intros v Hv. destruct (Hside v Hv) as (H1 & P & H2 & H3). split; [exact H1|]. exists P. split; [|exact H3].
  intros x o. apply (uniform_ext (range_draws d) (real_range_at (transcript_new "ciphertext_range") (prepared E d) v o (pk x)) _ (P x o)); [exact (H2 x o)| |tauto].
  intros r. unfold real_range_at, real_range, encrypt_range.
  destruct (RangeProof_new (E:=hashed_by E o) (pk x) (prepared E d) v (transcript_new "ciphertext_range") r) as [[[[c p] t1] r1]|e]; reflexivity.
Qed.

Lemma range_secret nmax d (v v' : N) (D : PublicKey E -> Ciphertext E * RangeProof E -> strategy scalar bool) :
  let k := 1 + N.to_nat (n_sum (map rs_size d)) in
  doc_form nmax d -> (nmax + 64 < 2 ^ 64)%N -> (v < nmax)%N -> (v' < nmax)%N ->
  covers dom (List.length d) k (fun K c s =>
    range_verifier (E:=E) {| rap_partial := tl c; rap_inner := ring_proof_of (E:=E) s |} K (prepared E d) (first_of (E:=E) c) (transcript_new "ciphertext_range")) ->
  (order L ^ Z.of_nat (List.length d + 2) * (order L - 1) *
     (guesses L (range_draws d) seed hashes (real_range (prepared E d) v) D - guesses L (range_draws d) seed hashes (real_range (prepared E d) v') D) =
   ddh_gap L (attacker_coins L (List.length d) k hashes) (attacker (fun _ => range_messages d v (digits E d v)) (simulate_range (prepared E d)) D) -
   ddh_gap L (attacker_coins L (List.length d) k hashes) (attacker (fun _ => range_messages d v' (digits E d v')) (simulate_range (prepared E d)) D))%Z.
Proof using Ht Hseed Hdom.
  intros k Hd Hn Hv Hv' Hcov. destruct (range_scheme nmax d Hd Hn Hcov) as (assemble & acc & Hs & Hc).
  replace (List.length d + 2) with (List.length d + 1 + 1) by lia.
  exact (scheme_secret (range_draws d) (List.length d) k 1 _ _ _ _ _ _ _ D (sim_ok_core _ _ _ _ _ _ Hs) (Hc v Hv) (Hc v' Hv')).
Qed.

End Instances.

(** ** hash inputs *)
Fixpoint reach {A : Type} (T : strategy scalar A) : list query :=
  match T with
  | Output _ => []
  | Ask x f => x :: flat_map (fun c => reach (f c)) scalars
  end.

Lemma reach_asked {A : Type} o (T : strategy scalar A) : incl (asked o T) (reach T).
Proof.
  induction T as [a|x f IH]; cbn; [intros x []|]. intros y [<-|Hy]; [left; reflexivity|]. right.
  apply in_flat_map. exists (answer o x). split; [apply all_in|]. apply IH. exact Hy.
Qed.

Definition all_cts (n : nat) : list (list (Ciphertext E)) := map (fun zs => pairs_of E zs (repeat identity n)) (tapes L (2 * n)).

Lemma all_cts_in : forall c : list (Ciphertext E), In c (all_cts (List.length c)).
Proof using L.
  intros c. apply in_map_iff.
  exists (flat_map (fun a : Ciphertext E => [dlog L (random_element a); dlog L (blinded_element a)]) c). split.
  - induction c as [|[R B] c IH]; [reflexivity|]. cbn [List.length repeat flat_map app pairs_of random_element blinded_element]. rewrite IH. f_equal.
    rewrite !(e_add_id E L), !(dlog_ok E L). reflexivity.
  - apply tapes_in. rewrite (flat_map_len _ 2); [lia|reflexivity].
Qed.

Lemma covers_exist {A : Type} n k (V : PublicKey E -> list (Ciphertext E) -> list scalar -> strategy scalar A) : exists dom, covers dom n k V.
Proof using L Ht.
  exists (flat_map (fun x => flat_map (fun c => flat_map (fun s => reach (V (pk x) c s)) (tapes L k)) (all_cts n)) scalars).
  intros x K c s o Hk Hb Hc Hs y Hy. apply in_flat_map. exists x. split; [apply all_in|].
  apply in_flat_map. exists c. split; [rewrite <- Hc; apply all_cts_in|]. apply in_flat_map. exists s. split; [apply tapes_in; exact Hs|].
  apply (reach_asked o).
  assert (HK : pair_of E x = {| kp_secret := x; kp_public := K |}) by (apply (pair_of_ok E L Ht {| kp_secret := x; kp_public := K |}); auto).
  rewrite HK. exact Hy.
Qed.

Lemma covers_both {A B : Type} n k (V : PublicKey E -> list (Ciphertext E) -> list scalar -> strategy scalar A)
    (V' : PublicKey E -> list (Ciphertext E) -> list scalar -> strategy scalar B) :
  exists dom, NoDup dom /\ covers dom n k V /\ covers dom n k V'.
Proof using L Ht.
  destruct (covers_exist n k V) as [d1 H1]. destruct (covers_exist n k V') as [d2 H2].
  exists (nodup query_dec (d1 ++ d2)). split; [apply NoDup_nodup|].
  split; intros x K c s o Hk Hb Hc Hs y Hy; apply nodup_In, in_or_app; [left; exact (H1 x K c s o Hk Hb Hc Hs y Hy)|right; exact (H2 x K c s o Hk Hb Hc Hs y Hy)].
Qed.

End Secrecy.
