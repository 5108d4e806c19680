(** * C88: what repeated random numbers reveal

    All random numbers come from the [rng] argument alone: nothing that is secret or public is mixed into them (merlin offers
    a way, [TranscriptRng], which the crate does not use).  If a generator repeats itself, say because the state of a
    virtual machine was restored, then encryptions reveal the difference of the messages, ballots reveal votes, and proofs
    reveal secret keys.  In other words, C63 and C68-C73 do need fresh random numbers. *)
From Coq Require Import List NArith ZArith Arith String Bool Lia Field.
From Verif.Model Require Import Base Group Transcript Keys Encryption LogEquality Possession Ring Choice Sharing.
From Verif.Spec Require Import Encryption Choice Sharing.
From Verif.Proofs Require Import Algebra.
From Verif.Properties Require Import LogEquality.
From Verif.Instance Require Import Primality Zq.
Import ListNotations.
Open Scope string_scope.
Open Scope list_scope.

(** the secret key from two responses *)
Definition secret_from_responses {E : Env} (L : GroupLaws E) (c s c' s' : Scalar E) : Scalar E := ((s - s') * s_inv L (c - c'))%S.

Section Lemmas.
Context (E : Env) (L : GroupLaws E).
Local Notation scalar := (Scalar E).
Local Notation element := (Element E).
Add Field s_field_reuse : (s_field L).

Lemma responses_give_secret (x k c c' : scalar) : c <> c' ->
  secret_from_responses L c (c * x + k)%S c' (c' * x + k)%S = x.
Proof using.
  intros Hc. unfold secret_from_responses. field. intros H. apply Hc. apply (s_sub_eq_0 L). exact H.
Qed.

Lemma blinded_difference (M M' K : element) : (M + K - (M' + K))%E = (M - M')%E.
Proof using L. el_ring L. Qed.

Lemma generator_difference (v v' : scalar) : (generator * v - generator * v')%E = (generator * (v - v')%S)%E.
Proof using L. el_ring L. Qed.

Lemma sub_identity (A : element) : (A - identity)%E = A.
Proof using L. el_ring L. Qed.

Lemma sub_diag (v : scalar) : (v - v)%S = 0%S.
Proof using L. ring. Qed.

Lemma pop_response_form (x k c : scalar) : (k + x * c)%S = (c * x + k)%S.
Proof using L. ring. Qed.

Lemma pop_commit_same n : forall (t t' : transcript) r ks t1 r1 ks' t1' r1',
  pop_commit (E:=E) n t r = Ret (ks, t1, r1) -> pop_commit n t' r = Ret (ks', t1', r1') -> ks = ks' /\ List.length ks = n.
Proof using.
  induction n as [|n IH]; intros t t' r ks t1 r1 ks' t1' r1' H H'; cbn [pop_commit] in *.
  - injection H as <- <- <-. injection H' as <- <- <-. auto.
  - destruct (SecretKey_generate r) as [x r0]. inv_bind H. inv_bind H. destruct a0 as [[rest t2] r2]. injection H as <- <- <-.
    inv_bind H'. inv_bind H'. destruct a1 as [[rest' t2'] r2']. injection H' as <- <- <-.
    destruct (IH _ _ _ _ _ _ _ _ _ Hm0 Hm2) as [-> <-]. auto.
Qed.
End Lemmas.

(** two ciphertexts for one key made from the same state of the generator *)
Theorem C88_encryptions_refuted :
  forall (E : Env) (L : GroupLaws E) (pk : PublicKey E) v v' r c c' r1 r2,
    encrypt pk v r = (c, r1) -> encrypt pk v' r = (c', r2) ->
    random_element c = random_element c' /\
    (blinded_element c - blinded_element c' = generator * (v - v')%S)%E /\
    (c = c' <-> v = v').
Proof.
  intros E L pk v v' r c c' r1 r2 H H'. unfold encrypt, ExtendedCiphertext_new in *. destruct (SecretKey_generate r) as [x r0].
  injection H as <- <-. injection H' as <- <-. cbn [random_element blinded_element ext_inner]. split; [reflexivity|].
  assert (Hd : forall K : Element E, (mul_generator v + K - (mul_generator v' + K) = generator * (v - v')%S)%E).
  { intros K. rewrite !(mul_generator_ok E L), (blinded_difference E L). apply (generator_difference E L). }
  split; [apply Hd|]. split; [|intros ->; reflexivity].
  intros Heq. injection Heq as Heq. specialize (Hd (pk_element pk * x)%E). rewrite Heq, (blinded_difference E L), !(mul_generator_ok E L), (generator_difference E L) in Hd.
  apply (f_equal (dlog L)) in Hd. rewrite !(dlog_gen L) in Hd. apply (s_sub_eq_0 L). rewrite <- Hd. apply (sub_diag E L).
Qed.
Print Assumptions C88_encryptions_refuted.

(** two proofs about the same secret, with the same state of the generator and different challenges; the bases, the
    statements and the contexts may be different *)
Theorem C88_log_equality_refuted :
  forall (E : Env) (L : GroupLaws E) (base base' : PublicKey E) secret powers powers' t t' r p p' t1 t1' r1 r1',
    LogEqualityProof_new base secret powers t r = Ret (p, t1, r1) ->
    LogEqualityProof_new base' secret powers' t' r = Ret (p', t1', r1') ->
    le_challenge p <> le_challenge p' ->
    secret_from_responses L (le_challenge p) (le_response p) (le_challenge p') (le_response p') = secret.
Proof.
  intros E L base base' secret powers powers' t t' r p p' t1 t1' r1 r1' H H' Hc. unfold LogEqualityProof_new in *.
  destruct (SecretKey_generate r) as [x r0].
  do 4 inv_bind H. destruct (challenge_scalar _ _) as [c t2] in H. injection H as <- <- <-.
  do 4 inv_bind H'. destruct (challenge_scalar _ _) as [c' t2'] in H'. injection H' as <- <- <-.
  cbn [le_challenge le_response] in *. apply (responses_give_secret E L). exact Hc.
Qed.
Print Assumptions C88_log_equality_refuted.

(** a participant that decrypts two ciphertexts with the same state of the generator loses the secret share *)
Theorem C88_decryption_shares_refuted :
  forall (E : Env) (L : GroupLaws E) (a : ActiveParticipant E) ct ct' r d d' p p' r1 r1',
    ActiveParticipant_decrypt_share a ct r = Ret (d, p, r1) ->
    ActiveParticipant_decrypt_share a ct' r = Ret (d', p', r1') ->
    le_challenge p <> le_challenge p' ->
    secret_from_responses L (le_challenge p) (le_response p) (le_challenge p') (le_response p') = ap_secret_share a.
Proof.
  intros E L a ct ct' r d d' p p' r1 r1' H H' Hc. unfold ActiveParticipant_decrypt_share in *.
  do 3 inv_bind H. destruct a2 as [[q t] r2]. injection H as <- <- <-.
  do 3 inv_bind H'. destruct a4 as [[q' t'] r2']. injection H' as <- <- <-.
  exact (C88_log_equality_refuted E L _ _ _ _ _ _ _ _ _ _ _ _ _ _ Hm1 Hm4 Hc).
Qed.
Print Assumptions C88_decryption_shares_refuted.

Theorem C88_possession_refuted :
  forall (E : Env) (L : GroupLaws E) (keys : list (Keypair E)) t t' r p p' t1 t1' r1 r1',
    ProofOfPossession_new keys t r = Ret (p, t1, r1) ->
    ProofOfPossession_new keys t' r = Ret (p', t1', r1') ->
    pop_challenge p <> pop_challenge p' ->
    forall i s s', nth_error (pop_responses p) i = Some s -> nth_error (pop_responses p') i = Some s' ->
    exists k, nth_error keys i = Some k /\
      secret_from_responses L (pop_challenge p) s (pop_challenge p') s' = kp_secret k.
Proof.
  intros E L keys t t' r p p' t1 t1' r1 r1' H H' Hc i s s' Hs Hs'. unfold ProofOfPossession_new, ProofOfPossession_from_keys in *.
  inv_bind H. destruct a as [[ks t2] r2]. destruct (challenge_scalar _ _) as [c t3] in H. injection H as <- <- <-.
  inv_bind H'. destruct a as [[ks' t2'] r2']. destruct (challenge_scalar _ _) as [c' t3'] in H'. injection H' as <- <- <-.
  destruct (pop_commit_same E _ _ _ _ _ _ _ _ _ _ Hm Hm0) as [-> _]. cbn [pop_challenge pop_responses] in *. clear Hm Hm0 t2 t2' t3 t3'.
  revert keys ks' Hs Hs'. induction i as [|i IH]; intros [|k keys] [|x ks] Hs Hs'; try discriminate Hs.
  - cbn in Hs, Hs'. injection Hs as <-. injection Hs' as <-. exists k. split; [reflexivity|].
    rewrite <- (responses_give_secret E L (kp_secret k) x c c' Hc) at 3. f_equal; apply (pop_response_form E L).
  - exact (IH keys ks Hs Hs').
Qed.
Print Assumptions C88_possession_refuted.

(** ** ballots *)
Lemma add_values_common (E : Env) (L : GroupLaws E) pre : forall (b : RingProofBuilder E (Rng E)) flag flag' rest rest' l b1 l' b1',
  choice_add_values b [identity; generator] (pre ++ flag :: rest) = Ret (l, b1) ->
  choice_add_values b [identity; generator] (pre ++ flag' :: rest') = Ret (l', b1') ->
  exists same c c' tl tl', l = same ++ c :: tl /\ l' = same ++ c' :: tl' /\ List.length same = List.length pre /\
    random_element (ext_inner c) = random_element (ext_inner c') /\
    (blinded_element (ext_inner c) - blinded_element (ext_inner c') = bit_element flag - bit_element flag')%E.
Proof.
  induction pre as [|x pre IH]; intros b flag flag' rest rest' l b1 l' b1' H H'; cbn [app choice_add_values] in H, H'.
  - inv_bind H. destruct a as [c b2]. inv_bind H. destruct a as [tl b3]. injection H as <- <-.
    inv_bind H'. destruct a as [c' b2']. inv_bind H'. destruct a as [tl' b3']. injection H' as <- <-.
    exists [], c, c', tl, tl'. do 3 (split; [reflexivity|]). clear Hm0 Hm2. unfold RingProofBuilder_add_value in Hm, Hm1.
    unfold ExtendedCiphertext_new in *. destruct (SecretKey_generate (rb_rng b)) as [x r0].
    assert (Hbit : forall f : bool, index [identity; generator] (if f then 1 else 0)%nat = Ret (bit_element f : Element E)) by (intros []; reflexivity).
    rewrite Hbit in Hm, Hm1. cbn [bind] in Hm, Hm1. inv_bind Hm. injection Hm as <- <-. inv_bind Hm1. injection Hm1 as <- <-.
    cbn [ext_inner random_element blinded_element]. split; [reflexivity|]. apply (blinded_difference E L).
  - inv_bind H. destruct a as [c b2]. inv_bind H. destruct a as [tl b3]. injection H as <- <-.
    inv_bind H'. destruct a as [c' b2']. inv_bind H'. destruct a as [tl' b3']. injection H' as <- <-.
    rewrite Hm in Hm1. injection Hm1 as <- <-.
    destruct (IH _ _ _ _ _ _ _ _ _ Hm0 Hm2) as (same & d & d' & u & u' & -> & -> & Hl & H1 & H2).
    exists (c :: same), d, d', u, u'. do 2 (split; [reflexivity|]). cbn [List.length]. auto.
Qed.

Lemma nth_error_middle {A : Type} (l : list A) x l' : nth_error (l ++ x :: l') (List.length l) = Some x.
Proof. induction l as [|y l IH]; [reflexivity|exact IH]. Qed.

(** Two ballots for choices that are equal up to some option and differ there, by the same or different voters: the
    ciphertexts agree up to that option, and the next ones reveal both votes. *)
Theorem C88_ballots_refuted :
  forall (E : Env) (L : GroupLaws E) (S : ProveSum E) (params : ChoiceParams S) common flag flag' rest rest' r e e' r1 r1',
    EncryptedChoice_new params (common ++ flag :: rest) r = Ret (e, r1) ->
    EncryptedChoice_new params (common ++ flag' :: rest') r = Ret (e', r1') ->
    let n := List.length common in
    firstn n (ec_choices e) = firstn n (ec_choices e') /\
    exists c c', nth_error (ec_choices e) n = Some c /\ nth_error (ec_choices e') n = Some c' /\
      random_element c = random_element c' /\
      (blinded_element c - blinded_element c' = bit_element flag - bit_element flag')%E.
Proof.
  intros E L S params common flag flag' rest rest' r e e' r1 r1' H H' n. unfold EncryptedChoice_new in *.
  do 4 inv_bind H. destruct a2 as [l b]. inv_bind H. destruct a2 as [[[ch resp] t] r2]. do 2 inv_bind H. destruct a3 as [sp r3]. injection H as <- <-.
  do 4 inv_bind H'. destruct a6 as [l' b']. inv_bind H'. destruct a6 as [[[ch' resp'] t'] r2']. do 2 inv_bind H'. destruct a7 as [sp' r3']. injection H' as <- <-.
  cbn [ec_choices].
  match goal with
  | H1 : choice_add_values _ _ (common ++ flag :: rest) = _, H2 : choice_add_values _ _ (common ++ flag' :: rest') = _ |- _ =>
      destruct (add_values_common E L _ _ _ _ _ _ _ _ _ _ H1 H2) as (same & c & c' & tl & tl' & -> & -> & Hl & Hr & Hb)
  end.
  rewrite !map_app. cbn [map]. unfold n. rewrite <- Hl, <- (map_length ext_inner same). split.
  - rewrite !firstn_app, Nat.sub_diag. reflexivity.
  - exists (ext_inner c), (ext_inner c'). rewrite !nth_error_middle. auto.
Qed.
Print Assumptions C88_ballots_refuted.

(** two single choices [i < j]: the ciphertexts for option [i] tell which of the voters has chosen it *)
Theorem C88_single_choices_refuted :
  forall (E : Env) (L : GroupLaws E) (params : ChoiceParams (@SingleChoice E)) i j r (e e' : EncryptedChoice (@SingleChoice E)) r1 r1',
    (i < j)%nat ->
    EncryptedChoice_single params i r = Ret (e, r1) -> EncryptedChoice_single params j r = Ret (e', r1') ->
    firstn i (ec_choices e) = firstn i (ec_choices e') /\
    exists c c', nth_error (ec_choices e) i = Some c /\ nth_error (ec_choices e') i = Some c' /\
      random_element c = random_element c' /\ (blinded_element c - blinded_element c' = generator)%E.
Proof.
  intros E L params i j r e e' r1 r1' Hij H H'. unfold EncryptedChoice_single in *. inv_bind H. inv_bind H'.
  unfold assert in Hm0. destruct (Nat.ltb_spec j (cp_options_count params)) as [Hj|]; [|discriminate].
  assert (Hseq : seq 0 (cp_options_count params) = seq 0 i ++ i :: seq (Datatypes.S i) (cp_options_count params - Datatypes.S i)).
  { change (i :: seq (Datatypes.S i) (cp_options_count params - Datatypes.S i)) with (seq i (Datatypes.S (cp_options_count params - Datatypes.S i))).
    rewrite <- (seq_app i _ 0). f_equal. lia. }
  rewrite Hseq, map_app in H, H'. cbn [map] in H, H'.
  assert (Hpre : forall m, (i <= m)%nat -> map (fun k => (m =? k)%nat) (seq 0 i) = repeat false i).
  { intros m Hm'. clear -Hm'. assert (Hg : forall s, (s + i <= m)%nat -> map (fun k => (m =? k)%nat) (seq s i) = repeat false i).
    { clear Hm'. induction i as [|i IH]; intros s Hs; [reflexivity|]. cbn [seq map repeat]. rewrite (IH (Datatypes.S s)) by lia.
      f_equal. apply Nat.eqb_neq. lia. }
    apply Hg. exact Hm'. }
  rewrite Hpre in H, H' by lia. rewrite Nat.eqb_refl in H. replace (j =? i)%nat with false in H' by (symmetry; apply Nat.eqb_neq; lia).
  destruct (C88_ballots_refuted E L _ params _ _ _ _ _ _ _ _ _ _ H H') as (H1 & c & c' & H2 & H3 & H4 & H5).
  rewrite repeat_length in H1, H2, H3. split; [exact H1|]. exists c, c'. do 3 (split; [assumption|]). rewrite H5. cbn [bit_element]. apply (sub_identity E L).
Qed.
Print Assumptions C88_single_choices_refuted.

(** proofs of possession of one key pair in two contexts, and ballots for options 1 and 2 of 3, from the same states *)
Definition ex_proofs : bool :=
  match Keypair_from_secret (E:=RE) (s_of_u64 77) with
  | Ret kp =>
      match ProofOfPossession_new [kp] (transcript_new "first") 4%Z, ProofOfPossession_new [kp] (transcript_new "second") 4%Z with
      | Ret (p, _, _), Ret (p', _, _) =>
          negb (s_eqb (pop_challenge p) (pop_challenge p')) && (List.length (pop_responses p) =? 1)%nat && (List.length (pop_responses p') =? 1)%nat
      | _, _ => false
      end
  | Panic _ => false
  end.
Definition ex_ballots : bool :=
  match ChoiceParams_single ex_key 3 with
  | Ret params =>
      match EncryptedChoice_single params 1 4%Z, EncryptedChoice_single params 2 4%Z with
      | Ret _, Ret _ => true
      | _, _ => false
      end
  | Panic _ => false
  end.
Example C88_example : ex_proofs = true /\ ex_ballots = true.
Proof. split; vm_compute; reflexivity. Qed.
