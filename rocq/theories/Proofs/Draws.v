(** * The number of scalars drawn by the operations on secret data *)
From Coq Require Import List NArith Bool String Arith Lia.
From Verif.Model Require Import Base Group Transcript Keys Encryption LogEquality Possession
  Commitment Mul Ring Range Sharing Choice Quadratic Dkg.
From Verif.Spec Require Import Draws.
From Verif.Proofs Require Import Algebra.
Import ListNotations.
Open Scope nat_scope.

Section Draws.
Context {E : Env}.
Local Notation scalar := (Scalar E).
Local Notation element := (Element E).

Lemma draws_add : forall n m (r : Rng E), draws (n + m) r = draws m (draws n r).
Proof. induction n as [|n IH]; intros m r; [reflexivity|]. cbn. apply IH. Qed.

Lemma draws_1 : forall (r r' : Rng E) x, generate_scalar r = (x, r') -> r' = draws 1 r.
Proof. intros r r' x H. cbn. rewrite H. reflexivity. Qed.

(** [g ...]: rewrite a drawn scalar as one step of [draws] *)
Ltac draw H :=
  match type of H with
  | context [@generate_scalar ?E ?r] =>
      let x := fresh "x" in let r' := fresh "r" in let Hr := fresh "Hr" in
      destruct (@generate_scalar E r) as [x r'] eqn:Hr;
      apply draws_1 in Hr
  end.

Lemma d_keypair : forall r kp r', Keypair_generate (E := E) r = Ret (kp, r') -> r' = draws 1 r.
Proof.
  intros r kp r' H. unfold Keypair_generate, SecretKey_generate in H. draw H.
  inv_bind H. injection H as <- <-. exact Hr.
Qed.

Lemma d_ext : forall v pk r c r', ExtendedCiphertext_new (E := E) v pk r = (c, r') -> r' = draws 1 r.
Proof.
  intros v pk r c r' H. unfold ExtendedCiphertext_new, SecretKey_generate in H. draw H.
  injection H as <- <-. exact Hr.
Qed.

Lemma d_encrypt : forall pk v r c r', encrypt (E := E) pk v r = (c, r') -> r' = draws 1 r.
Proof.
  intros pk v r c r' H. unfold encrypt in H.
  destruct (ExtendedCiphertext_new (mul_generator v) pk r) as [e r1] eqn:He. apply d_ext in He.
  injection H as <- <-. exact He.
Qed.

Lemma d_encrypt_element : forall pk v r c r', encrypt_element (E := E) pk v r = (c, r') -> r' = draws 1 r.
Proof.
  intros pk v r c r' H. unfold encrypt_element in H.
  destruct (ExtendedCiphertext_new v pk r) as [e r1] eqn:He. apply d_ext in He.
  injection H as <- <-. exact He.
Qed.

Lemma d_cwv : forall {V : Type} (into : V -> scalar) v pk r c r',
  CiphertextWithValue_new (E := E) into v pk r = (c, r') -> r' = draws 1 r.
Proof.
  intros V into v pk r c r' H. unfold CiphertextWithValue_new in H.
  destruct (ExtendedCiphertext_new (mul_generator (into v)) pk r) as [e r1] eqn:He.
  apply d_ext in He. injection H as <- <-. exact He.
Qed.

Lemma d_log_eq : forall base sk powers t r q t' r',
  LogEqualityProof_new (E := E) base sk powers t r = Ret (q, t', r') -> r' = draws 1 r.
Proof.
  intros base sk powers t r q t' r' H. unfold LogEqualityProof_new, SecretKey_generate in H.
  inv_bind H. inv_bind H. draw H. inv_bind H. inv_bind H.
  unfold challenge_scalar in H. injection H as <- <- <-. exact Hr.
Qed.

Lemma d_encrypt_zero : forall pk r c q r', encrypt_zero (E := E) pk r = Ret (c, q, r') -> r' = draws 2 r.
Proof.
  intros pk r c q r' H. unfold encrypt_zero, SecretKey_generate in H. draw H.
  inv_bind H. destruct a as [[p t1] r1]. apply d_log_eq in Hm. injection H as <- <- <-.
  subst. rewrite <- draws_add. reflexivity.
Qed.

Lemma d_verifiable : forall c keys t r d q t' r',
  VerifiableDecryption_new (E := E) c keys t r = Ret (d, q, t', r') -> r' = draws 1 r.
Proof.
  intros c keys t r d q t' r' H. unfold VerifiableDecryption_new in H. inv_bind H. inv_bind H.
  destruct a0 as [[p t1] r1]. apply d_log_eq in Hm0. injection H as <- <- <- <-. exact Hm0.
Qed.

Lemma d_pop_commit : forall n t r xs t' r',
  pop_commit (E := E) n t r = Ret (xs, t', r') -> r' = draws n r.
Proof.
  induction n as [|n IH]; intros t r xs t' r' H; cbn [pop_commit] in H.
  - injection H as <- <- <-. reflexivity.
  - unfold SecretKey_generate in H. draw H. inv_bind H. inv_bind H.
    destruct a0 as [[ys t1] r1]. apply IH in Hm0. injection H as <- <- <-.
    subst. change (S n) with (1 + n). rewrite draws_add. reflexivity.
Qed.

Lemma d_pop : forall keypairs t r q t' r',
  ProofOfPossession_new (E := E) keypairs t r = Ret (q, t', r') ->
  r' = draws (List.length keypairs) r.
Proof.
  intros keypairs t r q t' r' H. unfold ProofOfPossession_new, ProofOfPossession_from_keys in H.
  cbv zeta in H. inv_bind H. destruct a as [[xs t1] r1]. apply d_pop_commit in Hm.
  unfold challenge_scalar in H. injection H as <- <- <-. rewrite map_length in Hm. exact Hm.
Qed.

Lemma d_commitment : forall c pk b H0 t r q e t' r',
  CommitmentEquivalenceProof_new (E := E) c pk b H0 t r = Ret (q, e, t', r') -> r' = draws 3 r.
Proof.
  intros c pk b H0 t r q e t' r' H.
  unfold CommitmentEquivalenceProof_new, SecretKey_generate in H. cbv zeta in H.
  do 4 inv_bind H. draw H. draw H. draw H. do 3 inv_bind H.
  unfold challenge_scalar in H. injection H as <- <- <- <-.
  subst. rewrite <- !draws_add. reflexivity.
Qed.

Lemma d_sq_commit : forall pk cs s t r l s' t' r',
  sq_commit (E := E) pk cs s t r = Ret (l, s', t', r') -> r' = draws (2 * List.length cs) r.
Proof.
  intros pk cs. induction cs as [|c cs IH]; intros s t r l s' t' r' H; cbn [sq_commit] in H.
  - injection H as <- <- <- <-. reflexivity.
  - unfold SecretKey_generate in H. do 2 inv_bind H. draw H. inv_bind H. draw H. inv_bind H.
    inv_bind H. match goal with a : (_ * _ * _ * _)%type |- _ => destruct a as [[[l1 s1] t1] r3] end.
    match goal with K : sq_commit _ _ _ _ _ = _ |- _ => apply IH in K end.
    injection H as <- <- <- <-. subst. rewrite <- !draws_add. f_equal. cbn. lia.
Qed.

Lemma d_squares : forall cs c pk t r q t' r',
  SumOfSquaresProof_new (E := E) cs c pk t r = Ret (q, t', r') ->
  r' = draws (1 + 2 * List.length cs) r.
Proof.
  intros cs c pk t r q t' r' H. unfold SumOfSquaresProof_new, SecretKey_generate in H.
  cbv zeta in H. draw H. inv_bind H. destruct a as [[[l s1] t1] r1]. apply d_sq_commit in Hm.
  do 6 inv_bind H. unfold challenge_scalar in H. injection H as <- <- <-.
  subst. rewrite <- draws_add. reflexivity.
Qed.

(** ** Rings *)

Lemma d_forward : forall t b c it cm rs r cm' rs' r',
  ring_forward (E := E) t b c it cm rs r = Ret (cm', rs', r') -> r' = draws (List.length it) r.
Proof.
  intros t b c it. induction it as [|[i a] it IH]; intros cm rs r cm' rs' r' H;
    cbn [ring_forward] in H.
  - injection H as <- <- <-. reflexivity.
  - inv_bind H. draw H. inv_bind H. inv_bind H. apply IH in H. subst.
    cbn [List.length]. change (S (List.length it)) with (1 + List.length it).
    rewrite draws_add. reflexivity.
Qed.

Lemma d_backward : forall t b c it ch rs r ch' rs' r',
  ring_backward (E := E) t b c it ch rs r = Ret (ch', rs', r') -> r' = draws (List.length it) r.
Proof.
  intros t b c it. induction it as [|[i a] it IH]; intros ch rs r ch' rs' r' H;
    cbn [ring_backward] in H.
  - injection H as <- <- <-. reflexivity.
  - draw H. inv_bind H. inv_bind H. inv_bind H. apply IH in H. subst.
    cbn [List.length]. change (S (List.length it)) with (1 + List.length it).
    rewrite draws_add. reflexivity.
Qed.

Lemma enumerate_length' : forall {A : Type} (l : list A), List.length (enumerate l) = List.length l.
Proof. intros A l. unfold enumerate. rewrite combine_length, seq_length. lia. Qed.

Lemma assert_true : forall c u, assert c = Ret u -> c = true.
Proof. intros [|] u H; [reflexivity | discriminate]. Qed.

Lemma d_ring_new : forall i b c adm v t rs r x r',
  Ring_new (E := E) i b c adm v t rs r = Ret (x, r') ->
  r' = draws (List.length adm - v) r /\ v < List.length adm /\
  rg_value_index x = v /\ rg_admissible x = adm.
Proof.
  intros i b c adm v t rs r x r' H. unfold Ring_new, SecretKey_generate in H.
  inv_bind H. inv_bind H. inv_bind H. inv_bind H. inv_bind H. draw H. inv_bind H.
  match goal with a : (_ * _ * _)%type |- _ => destruct a as [[cm rs'] r1] end.
  match goal with K : ring_forward _ _ _ _ _ _ _ = _ |- _ => apply d_forward in K end.
  apply assert_true, Nat.ltb_lt in Hm0. injection H as <- <-. cbn.
  repeat split; [|exact Hm0]. subst. rewrite <- draws_add. f_equal.
  rewrite skipn_length, enumerate_length'. lia.
Qed.

Lemma d_finalize : forall (x : Ring E) b ch r rs r',
  Ring_finalize (E := E) x b ch r = Ret (rs, r') ->
  rg_value_index x <= List.length (rg_admissible x) ->
  r' = draws (rg_value_index x) r.
Proof.
  intros x b ch r rs r' H L. unfold Ring_finalize in H. inv_bind H. destruct a as [[c1 rs1] r1].
  apply d_backward in Hm. inv_bind H. inv_bind H. injection H as <- <-. rewrite Hm.
  rewrite enumerate_length', firstn_length. f_equal. lia.
Qed.

Definition pending (l : list (Ring E)) : nat := list_sum (map rg_value_index l).
Definition in_range (x : Ring E) : Prop := rg_value_index x <= List.length (rg_admissible x).

Lemma d_finalize_all : forall l b ch r rs r',
  ring_finalize_all (E := E) l b ch r = Ret (rs, r') -> Forall in_range l ->
  r' = draws (pending l) r.
Proof.
  induction l as [|x l IH]; intros b ch r rs r' H F; cbn [ring_finalize_all] in H.
  - injection H as <- <-. reflexivity.
  - inversion F as [|? ? F1 F2]; subst. inv_bind H. destruct a as [rs1 r1].
    apply d_finalize in Hm; [|exact F1]. inv_bind H. destruct a as [rs2 r2].
    apply IH in Hm0; [|exact F2]. injection H as <- <-. subst.
    unfold pending. cbn [map list_sum fold_right]. rewrite draws_add. reflexivity.
Qed.

(** A builder which, started in state [r0], draws [n] scalars up to the end of [build]. *)
Definition counted (r0 : Rng E) (n : nat) (b : RingProofBuilder E (Rng E)) : Prop :=
  Forall in_range (rb_rings b) /\
  exists k, rb_rng b = draws k r0 /\ k + pending (rb_rings b) = n.

Lemma d_rb_new : forall pk rs t r, counted r 0 (RingProofBuilder_new (E := E) pk rs t r).
Proof. intros pk rs t r. split; [constructor|]. exists 0. split; reflexivity. Qed.

Lemma pending_app : forall l x, pending (l ++ [x]) = pending l + rg_value_index x.
Proof. intros l x. unfold pending. rewrite map_app, list_sum_app. cbn. lia. Qed.

Lemma d_add_precomputed : forall r0 n (b : RingProofBuilder E (Rng E)) c adm v b',
  RingProofBuilder_add_precomputed_value (E := E) b c adm v = Ret b' -> counted r0 n b ->
  counted r0 (n + List.length adm) b'.
Proof.
  intros r0 n b c adm v b' H (F & k & Hk & Hn).
  unfold RingProofBuilder_add_precomputed_value in H. inv_bind H. destruct a as [rs rest].
  inv_bind H. destruct a as [x r1]. apply d_ring_new in Hm0.
  destruct Hm0 as (Hr & Hv & Hi & Ha). injection H as <-. split; cbn [rb_rings rb_rng].
  - apply Forall_app. split; [exact F|]. constructor; [|constructor]. unfold in_range.
    rewrite Hi, Ha. lia.
  - exists (k + (List.length adm - v)). rewrite pending_app, Hi, Hr, Hk. split.
    + rewrite draws_add. reflexivity.
    + lia.
Qed.

Lemma d_add_value : forall r0 n (b : RingProofBuilder E (Rng E)) adm v c b',
  RingProofBuilder_add_value (E := E) b adm v = Ret (c, b') -> counted r0 n b ->
  counted r0 (n + (1 + List.length adm)) b'.
Proof.
  intros r0 n b adm v c b' H (F & k & Hk & Hn). unfold RingProofBuilder_add_value in H.
  inv_bind H. destruct (ExtendedCiphertext_new a (rb_receiver b) (rb_rng b)) as [e r1] eqn:He.
  apply d_ext in He. inv_bind H. injection H as <- <-.
  apply (d_add_precomputed r0 (n + 1)) in Hm0.
  - replace (n + (1 + List.length adm)) with (n + 1 + List.length adm) by lia. exact Hm0.
  - split; [exact F|]. cbn [rb_rings rb_rng]. exists (k + 1). rewrite He, Hk, draws_add. split; [reflexivity|]. lia.
Qed.

Lemma d_build : forall r0 n (b : RingProofBuilder E (Rng E)) c rs t r,
  RingProofBuilder_build (E := E) b = Ret (c, rs, t, r) -> counted r0 n b -> r = draws n r0.
Proof.
  intros r0 n b c rs t r H (F & k & Hk & Hn). unfold RingProofBuilder_build in H.
  inv_bind H. inv_bind H. destruct a0 as [[[c1 rs1] t1] r1]. injection H as <- <- <- <-.
  unfold Ring_aggregate in Hm0. inv_bind Hm0. inv_bind Hm0. unfold challenge_scalar in Hm0.
  inv_bind Hm0. destruct a2 as [rs2 r2]. injection Hm0 as <- <- <- <-.
  apply d_finalize_all in Hm3; [|exact F]. rewrite Hm3, Hk, <- draws_add, Hn. reflexivity.
Qed.

Lemma d_encrypt_bool : forall pk v r c q r',
  encrypt_bool (E := E) pk v r = Ret (c, q, r') -> r' = draws 3 r.
Proof.
  intros pk v r c q r' H. unfold encrypt_bool in H. inv_bind H. destruct a as [e b].
  apply (d_add_value r 0) in Hm; [|apply d_rb_new]. inv_bind H.
  destruct a as [[[x rs] t] r1]. apply (d_build _ _ _ _ _ _ _ Hm0) in Hm.
  injection H as <- <- <-. exact Hm.
Qed.

(** ** Ranges *)

Lemma decompose_length : forall b d v l,
  RangeDecomposition_decompose b d v = Ret l -> List.length l = List.length d.
Proof.
  intros b d. induction d as [|s d IH]; intros v l H; cbn [RangeDecomposition_decompose] in H.
  - inv_bind H. injection H as <-. reflexivity.
  - inv_bind H. cbv zeta in H. inv_bind H. inv_bind H. inv_bind H. inv_bind H.
    match goal with K : RangeDecomposition_decompose _ _ _ = _ |- _ => apply IH in K end.
    injection H as <-. cbn. congruence.
Qed.

Lemma mapM_len : forall {A B : Type} (u : A -> outcome B) l ys,
  mapM u l = Ret ys -> List.length ys = List.length l.
Proof.
  intros A B u l ys H. apply mapM_Ret_inv in H.
  induction H as [|x y l ys _ _ IH]; [reflexivity|]. cbn. congruence.
Qed.

Lemma prepared_sizes : forall d (range : PreparedRange E),
  PreparedRange_new (E := E) d = Ret range ->
  pr_inner range = d /\
  map (@List.length element) (pr_admissible range) = map (fun s => N.to_nat (rs_size s)) d.
Proof.
  intros d range H. unfold PreparedRange_new in H. inv_bind H. injection H as <-. cbn.
  split; [reflexivity|]. apply mapM_Ret_inv in Hm.
  induction Hm as [|s l d ls Hs _ IH]; [reflexivity|]. cbn. rewrite IH. f_equal.
  apply mapM_len in Hs. rewrite Hs, map_length, seq_length. reflexivity.
Qed.

Definition sizes (items : list (N * list element)) : nat :=
  list_sum (map (fun p => List.length (snd p)) items).

Lemma sizes_cons : forall v adm items,
  sizes ((v, adm) :: items) = List.length adm + sizes items.
Proof. reflexivity. Qed.

Lemma d_range_add : forall r0 items n (b : RingProofBuilder E (Rng E)) c l c' b',
  range_add_values (E := E) b items c = Ret (l, c', b') -> counted r0 n b ->
  counted r0 (n + (List.length items + sizes items)) b'.
Proof.
  intros r0 items. induction items as [|[v adm] items IH]; intros n b c l c' b' H C;
    cbn [range_add_values] in H.
  - injection H as <- <- <-. cbn. rewrite Nat.add_0_r. exact C.
  - inv_bind H. destruct a as [e b1]. apply (d_add_value r0 n) in Hm; [|exact C].
    inv_bind H. destruct a as [[l1 c1] b2]. apply (IH _ _ _ _ _ _ Hm0) in Hm.
    injection H as <- <- <-. rewrite sizes_cons. cbn [List.length].
    match goal with |- counted _ ?a _ => match type of Hm with counted _ ?b _ =>
      replace a with b by lia end end. exact Hm.
Qed.

Lemma sizes_combine : forall (vs : list N) (adms : list (list element)),
  List.length vs = List.length adms ->
  sizes (combine vs adms) = list_sum (map (@List.length element) adms).
Proof.
  induction vs as [|v vs IH]; intros [|a adms] H; try discriminate H; [reflexivity|].
  cbn [combine]. rewrite sizes_cons, IH; [reflexivity|]. cbn in H. congruence.
Qed.

Lemma d_range_from : forall d (range : PreparedRange E) pk c t r q t' r',
  PreparedRange_new (E := E) d = Ret range ->
  RangeProof_from_ciphertext (E := E) pk range c t r = Ret (q, t', r') ->
  d <> [] /\ r' = draws (List.length d - 1 + list_sum (map (fun s => N.to_nat (rs_size s)) d)) r.
Proof.
  intros d range pk c t r q t' r' P H. apply prepared_sizes in P. destruct P as (Pi & Pa).
  assert (Pl : List.length (pr_admissible range) = List.length d).
  { apply (f_equal (@List.length nat)) in Pa. rewrite !map_length in Pa. exact Pa. }
  unfold RangeProof_from_ciphertext in H. inv_bind H. rename a into vs.
  unfold PreparedRange_decompose in Hm. inv_bind Hm. inv_bind Hm. apply decompose_length in Hm.
  rewrite Pi in Hm.
  inv_bind H. cbv zeta in H. inv_bind H. inv_bind H. rename a3 into n. inv_bind H.
  destruct a3 as [[l c1] b1].
  apply (d_range_add r _ 0) in Hm5; [|apply d_rb_new].
  set (it := combine vs (pr_admissible range)) in *.
  assert (Li : List.length it = List.length d).
  { unfold it. rewrite combine_length, Hm, Pl. apply Nat.min_id. }
  assert (Si : sizes it = list_sum (map (fun s => N.to_nat (rs_size s)) d)).
  { unfold it. rewrite sizes_combine; [|congruence]. rewrite Pa. reflexivity. }
  destruct (skipn (N.to_nat n) it) as [|[v adm] rest] eqn:Hs; [discriminate H|].
  assert (Ne : d <> []).
  { intros ->. destruct it; [rewrite skipn_nil in Hs; discriminate Hs | discriminate Li]. }
  split; [exact Ne|].
  assert (Nn : N.to_nat n = List.length d - 1).
  { rewrite Hm in Hm4. unfold u64_sub in Hm4. destruct d as [|s d]; [contradiction|].
    destruct (1 <=? N.of_nat (List.length (s :: d)))%N eqn:Hle.
    - assert (Hn : (N.of_nat (List.length (s :: d)) - 1 = n)%N) by congruence. lia.
    - apply N.leb_gt in Hle. cbn [List.length] in Hle. lia. }
  assert (Hrest : rest = []).
  { apply (f_equal (@List.length _)) in Hs. rewrite skipn_length in Hs. cbn [List.length] in Hs.
    destruct rest; [reflexivity|]. cbn [List.length] in Hs. rewrite Li, Nn in Hs.
    destruct d; [contradiction|]. cbn [List.length] in Hs. lia. }
  subst rest.
  inv_bind H. apply (d_add_precomputed r _ _ _ _ _ _ Hm6) in Hm5. inv_bind H.
  destruct a4 as [[[x rs] t1] r1]. apply (d_build _ _ _ _ _ _ _ Hm7) in Hm5.
  injection H as <- <- <-. rewrite Hm5. f_equal.
  rewrite firstn_length, Li, Nn, <- Si.
  assert (Hsum : sizes it = sizes (firstn (N.to_nat n) it) + List.length adm).
  { rewrite <- (firstn_skipn (N.to_nat n) it) at 1. rewrite Hs. unfold sizes.
    rewrite map_app, list_sum_app. cbn. lia. }
  rewrite Hsum, Nn. lia.
Qed.

Lemma d_range_new : forall d (range : PreparedRange E) pk v t r c q t' r',
  PreparedRange_new (E := E) d = Ret range ->
  RangeProof_new (E := E) pk range v t r = Ret (c, q, t', r') -> r' = draws (range_draws d) r.
Proof.
  intros d range pk v t r c q t' r' P H. unfold RangeProof_new in H.
  destruct (CiphertextWithValue_new s_of_u64 v pk r) as [c1 r1] eqn:Hc. apply d_cwv in Hc.
  inv_bind H. destruct a as [[q1 t1] r2]. apply (d_range_from d) in Hm; [|exact P].
  destruct Hm as (Ne & Hr). injection H as <- <- <- <-. subst r1.
  rewrite Hr, <- draws_add. f_equal. unfold range_draws.
  destruct d; [contradiction|]. cbn [List.length]. lia.
Qed.

Lemma d_encrypt_range : forall d (range : PreparedRange E) pk v r c q r',
  PreparedRange_new (E := E) d = Ret range ->
  encrypt_range (E := E) pk range v r = Ret (c, q, r') -> r' = draws (range_draws d) r.
Proof.
  intros d range pk v r c q r' P H. unfold encrypt_range in H. inv_bind H.
  destruct a as [[[c1 q1] t1] r1]. apply (d_range_new d) in Hm; [|exact P].
  injection H as <- <- <-. exact Hm.
Qed.

(** ** Ballots *)

Lemma d_choice_add : forall r0 adm choices n (b : RingProofBuilder E (Rng E)) l b',
  choice_add_values (E := E) b adm choices = Ret (l, b') -> counted r0 n b ->
  counted r0 (n + List.length choices * (1 + List.length adm)) b'.
Proof.
  intros r0 adm choices. induction choices as [|v choices IH]; intros n b l b' H C;
    cbn [choice_add_values] in H.
  - injection H as <- <-. cbn. rewrite Nat.add_0_r. exact C.
  - inv_bind H. destruct a as [e b1]. apply (d_add_value r0 n) in Hm; [|exact C].
    inv_bind H. destruct a as [l1 b2]. apply (IH _ _ _ _ Hm0) in Hm. injection H as <- <-.
    cbn [List.length].
    match goal with |- counted _ ?a _ => match type of Hm with counted _ ?b _ =>
      replace a with b by lia end end. exact Hm.
Qed.

Lemma d_choice : forall (S : @ProveSum E) k (params : ChoiceParams S) choices r e r',
  (forall c pk r q r', ps_prove S c pk r = Ret (q, r') -> r' = draws k r) ->
  EncryptedChoice_new (E := E) params choices r = Ret (e, r') ->
  r' = draws (3 * cp_options_count params + k) r.
Proof.
  intros S k params choices r e r' HS H. unfold EncryptedChoice_new in H.
  inv_bind H. inv_bind H. cbv zeta in H. inv_bind H. inv_bind H. destruct a2 as [l b1].
  apply assert_true, Nat.eqb_eq in Hm0.
  apply (d_choice_add r _ _ 0) in Hm2; [|apply d_rb_new]. inv_bind H.
  destruct a2 as [[[x rs] t1] r1]. apply (d_build _ _ _ _ _ _ _ Hm3) in Hm2.
  inv_bind H. inv_bind H. destruct a3 as [q r2]. apply HS in Hm5. injection H as <- <-.
  subst r1 r2. rewrite <- draws_add. f_equal. rewrite <- Hm0. cbn [List.length]. lia.
Qed.

Lemma d_single_prove : forall c pk r q r',
  ps_prove (@SingleChoice E) c pk r = Ret (q, r') -> r' = draws 1 r.
Proof.
  intros c pk r q r' H. cbn in H. unfold SingleChoice_prove in H. inv_bind H.
  destruct a as [[p t] r1]. apply d_log_eq in Hm. injection H as <- <-. exact Hm.
Qed.

Lemma d_multi_prove : forall c pk r q r',
  ps_prove (@MultiChoice E) c pk r = Ret (q, r') -> r' = draws 0 r.
Proof. intros c pk r q r' H. cbn in H. injection H as <- <-. reflexivity. Qed.

Lemma d_single : forall (params : ChoiceParams (@SingleChoice E)) choice r e r',
  EncryptedChoice_single params choice r = Ret (e, r') ->
  r' = draws (3 * cp_options_count params + 1) r.
Proof.
  intros params choice r e r' H. unfold EncryptedChoice_single in H. inv_bind H.
  exact (d_choice _ 1 _ _ _ _ _ d_single_prove H).
Qed.

Lemma d_multi : forall (params : ChoiceParams (@MultiChoice E)) choices r e r',
  EncryptedChoice_new params choices r = Ret (e, r') ->
  r' = draws (3 * cp_options_count params) r.
Proof.
  intros params choices r e r' H. apply (d_choice _ 0 _ _ _ _ _ d_multi_prove) in H.
  rewrite Nat.add_0_r in H. exact H.
Qed.

Lemma d_qv_votes : forall d params votes r l r',
  PreparedRange_new (E := E) d = Ret (qv_vote_count_range params) ->
  qv_encrypt_votes (E := E) params votes r = Ret (l, r') ->
  r' = draws (List.length votes * range_draws d) r /\ List.length l = List.length votes.
Proof.
  intros d params votes. induction votes as [|v votes IH]; intros r l r' P H;
    cbn [qv_encrypt_votes] in H.
  - injection H as <- <-. split; reflexivity.
  - inv_bind H. destruct a as [[[c q] t] r1]. apply (d_range_new d) in Hm; [|exact P].
    inv_bind H. destruct a as [l1 r2]. apply IH in Hm0; [|exact P]. destruct Hm0 as (Hr & Hl).
    injection H as <- <-. subst. rewrite <- draws_add. split; [reflexivity|]. cbn. congruence.
Qed.

Lemma d_qv : forall dv dc params votes r e r',
  PreparedRange_new (E := E) dv = Ret (qv_vote_count_range params) ->
  PreparedRange_new (E := E) dc = Ret (qv_credit_range params) ->
  QuadraticVotingBallot_new (E := E) params votes r = Ret (e, r') ->
  r' = draws (qv_options_count params * (range_draws dv + 2) + range_draws dc + 1) r.
Proof.
  intros dv dc params votes r e r' Pv Pc H. unfold QuadraticVotingBallot_new in H.
  inv_bind H. inv_bind H. inv_bind H. inv_bind H. destruct a2 as [l r1].
  apply assert_true, Nat.eqb_eq in Hm. apply (d_qv_votes dv) in Hm2; [|exact Pv].
  destruct Hm2 as (Hr1 & Hl). inv_bind H. destruct a2 as [[[c q] t] r2].
  apply (d_range_new dc) in Hm2; [|exact Pc]. cbv zeta in H. inv_bind H.
  destruct a2 as [[sq t2] r3]. apply d_squares in Hm3. injection H as <- <-.
  rewrite map_length, Hl in Hm3. subst. rewrite <- !draws_add. f_equal. lia.
Qed.

(** ** Sharing *)

Lemma d_keypairs : forall n r l r',
  generate_keypairs (E := E) n r = Ret (l, r') -> r' = draws n r /\ List.length l = n.
Proof.
  induction n as [|n IH]; intros r l r' H; cbn [generate_keypairs] in H.
  - injection H as <- <-. split; reflexivity.
  - inv_bind H. destruct a as [kp r1]. apply d_keypair in Hm. inv_bind H.
    destruct a as [l1 r2]. apply IH in Hm0. destruct Hm0 as (Hr & Hl). injection H as <- <-.
    subst. split; [|cbn; reflexivity]. rewrite <- draws_add. reflexivity.
Qed.

Lemma d_dealer : forall params r d r',
  Dealer_new (E := E) params r = Ret (d, r') -> r' = draws (2 * pa_threshold params) r.
Proof.
  intros params r d r' H. unfold Dealer_new in H. inv_bind H. destruct a as [l r1].
  apply d_keypairs in Hm. destruct Hm as (Hr & Hl). inv_bind H. destruct a as [[q t] r2].
  apply d_pop in Hm. injection H as <- <-. rewrite Hl in Hm. subst. rewrite <- draws_add.
  f_equal. lia.
Qed.

Lemma d_active_pop : forall (a : ActiveParticipant E) r q r',
  ActiveParticipant_proof_of_possession a r = Ret (q, r') -> r' = draws 1 r.
Proof.
  intros a r q r' H. unfold ActiveParticipant_proof_of_possession in H. inv_bind H. inv_bind H.
  destruct a1 as [[p t] r1]. unfold ProofOfPossession_from_keys in Hm0. cbv zeta in Hm0.
  inv_bind Hm0. destruct a1 as [[xs t1] r2]. apply d_pop_commit in Hm1.
  unfold challenge_scalar in Hm0. injection Hm0 as <- <- <-. injection H as <- <-. exact Hm1.
Qed.

Lemma d_active_share : forall (a : ActiveParticipant E) c r d q r',
  ActiveParticipant_decrypt_share a c r = Ret (d, q, r') -> r' = draws 1 r.
Proof.
  intros a c r d q r' H. unfold ActiveParticipant_decrypt_share in H. cbv zeta in H.
  inv_bind H. inv_bind H. inv_bind H. destruct a2 as [[p t] r1]. apply d_log_eq in Hm1.
  injection H as <- <- <-. exact Hm1.
Qed.

Lemma d_pcc : forall params i r p r',
  PCC_new (E := E) params i r = Ret (p, r') ->
  r' = snd (fill_bytes 32 (draws (2 * pa_threshold params) r)).
Proof.
  intros params i r p r' H. unfold PCC_new in H. inv_bind H. inv_bind H. destruct a0 as [d r1].
  apply d_dealer in Hm0. subst r1.
  destruct (fill_bytes 32 (draws (2 * pa_threshold params) r)) as [o r2]. cbv zeta in H.
  inv_bind H. inv_bind H. inv_bind H. injection H as <- <-. reflexivity.
Qed.

End Draws.
