(** * Which computations do not use the variable-time operations *)
From Coq Require Import List NArith Bool String Arith.
From Verif.Model Require Import Base Group Transcript Keys Encryption LogEquality Possession
  Commitment Mul Ring Range Sharing Choice Quadratic Dkg.
From Verif.Spec Require Import Vartime.
Import ListNotations.

Lemma bind_same : forall {A B B' : Type} (cv : B -> B') (X' X : outcome A)
    (k' : A -> outcome B') (k : A -> outcome B),
  X' = X -> (forall a, k' a = omap cv (k a)) -> bind X' k' = omap cv (bind X k).
Proof. intros A B B' cv X' X k' k -> H. destruct X; cbn; [apply H | reflexivity]. Qed.

Lemma bind_cv : forall {A A' B B' : Type} (cva : A -> A') (cv : B -> B')
    (X' : outcome A') (X : outcome A) (k' : A' -> outcome B') (k : A -> outcome B),
  X' = omap cva X -> (forall a, k' (cva a) = omap cv (k a)) ->
  bind X' k' = omap cv (bind X k).
Proof. intros A A' B B' cva cv X' X k' k -> H. destruct X; cbn; [apply H | reflexivity]. Qed.

Lemma bind_cv_same : forall {A A' B : Type} (cva : A -> A')
    (X' : outcome A') (X : outcome A) (k' : A' -> outcome B) (k : A -> outcome B),
  X' = omap cva X -> (forall a, k' (cva a) = k a) -> bind X' k' = bind X k.
Proof. intros A A' B cva X' X k' k -> H. destruct X; cbn; [apply H | reflexivity]. Qed.

Lemma index_map : forall {A B : Type} (cv : A -> B) (l : list A) i,
  index (map cv l) i = omap cv (index l i).
Proof.
  intros A B cv l i. unfold index. rewrite nth_error_map.
  destruct (nth_error l i); reflexivity.
Qed.

Section Vartime.
Context {E : Env}.
Variable f : Scalar E -> Element E.
Variable g : Scalar E -> Element E -> Scalar E -> Element E.
Variable h : list (Scalar E) -> list (Element E) -> outcome (Element E).
Local Notation E' := (env_vartime E f g h).

Local Ltac same := refine (bind_same _ _ _ _ _ eq_refl _); intro.

(** ** Keys and encryption *)

Lemma vt_from_element : forall e : Element E,
  PublicKey_from_element (E := E') e = omap cv_pk (PublicKey_from_element (E := E) e).
Proof. intro e. unfold PublicKey_from_element. same. reflexivity. Qed.

Lemma vt_from_secret : forall sk : SecretKey E,
  PublicKey_from_secret (E := E') sk = omap cv_pk (PublicKey_from_secret (E := E) sk).
Proof. intro sk. apply vt_from_element. Qed.

Lemma vt_keypair_from_secret : forall sk : SecretKey E,
  Keypair_from_secret (E := E') sk = omap cv_kp (Keypair_from_secret (E := E) sk).
Proof.
  intro sk. unfold Keypair_from_secret.
  apply (bind_cv cv_pk); [apply vt_from_secret | intro pk; reflexivity].
Qed.

Lemma vt_keypair_generate : forall r : Rng E,
  Keypair_generate (E := E') r
  = omap (fun p => (cv_kp (fst p), snd p)) (Keypair_generate (E := E) r).
Proof.
  intro r. unfold Keypair_generate, SecretKey_generate.
  change (@generate_scalar E' r) with (@generate_scalar E r).
  destruct (@generate_scalar E r) as [sk r'].
  apply (bind_cv cv_kp); [apply vt_keypair_from_secret | intro kp; reflexivity].
Qed.

Lemma vt_keypair_mul : forall (kp : Keypair E) (k : Scalar E),
  Keypair_mul (E := E') (cv_kp kp) k = omap cv_kp (Keypair_mul (E := E) kp k).
Proof.
  intros kp k. unfold Keypair_mul.
  apply (bind_cv cv_pk); [apply vt_from_element | intro pk; reflexivity].
Qed.

Lemma vt_ext_new : forall (v : Element E) (pk : PublicKey E) (r : Rng E),
  ExtendedCiphertext_new (E := E') v (cv_pk pk) r
  = let '(c, r') := ExtendedCiphertext_new (E := E) v pk r in (cv_ext c, r').
Proof.
  intros v pk r. unfold ExtendedCiphertext_new, SecretKey_generate.
  change (@generate_scalar E' r) with (@generate_scalar E r).
  destruct (@generate_scalar E r) as [sk r']. reflexivity.
Qed.

Lemma vt_encrypt : forall (pk : PublicKey E) (v : Scalar E) (r : Rng E),
  encrypt (E := E') (cv_pk pk) v r
  = let '(c, r') := encrypt (E := E) pk v r in (cv_ct c, r').
Proof.
  intros pk v r. unfold encrypt.
  change (@mul_generator E' v) with (@mul_generator E v). rewrite vt_ext_new.
  destruct (ExtendedCiphertext_new _ pk r) as [c r']. reflexivity.
Qed.

Lemma vt_encrypt_element : forall (pk : PublicKey E) (v : Element E) (r : Rng E),
  encrypt_element (E := E') (cv_pk pk) v r
  = let '(c, r') := encrypt_element (E := E) pk v r in (cv_ct c, r').
Proof.
  intros pk v r. unfold encrypt_element. rewrite vt_ext_new.
  destruct (ExtendedCiphertext_new _ pk r) as [c r']. reflexivity.
Qed.

Lemma vt_cwv_new : forall {V : Type} (into : V -> Scalar E) (v : V) (pk : PublicKey E) (r : Rng E),
  CiphertextWithValue_new (E := E') into v (cv_pk pk) r
  = let '(c, r') := CiphertextWithValue_new (E := E) into v pk r in (cv_cwv c, r').
Proof.
  intros V into v pk r. unfold CiphertextWithValue_new.
  change (@mul_generator E' (into v)) with (@mul_generator E (into v)). rewrite vt_ext_new.
  destruct (ExtendedCiphertext_new _ pk r) as [c r']. reflexivity.
Qed.

Lemma vt_table_get : forall (tbl : DiscreteLogTable) (e : Element E),
  DiscreteLogTable_get (E := E') tbl e = DiscreteLogTable_get (E := E) tbl e.
Proof. reflexivity. Qed.

(** ** Proofs about keys *)

Lemma vt_append : forall (t : transcript) (l : string) (e : Element E),
  append_element (E := E') t l e = append_element (E := E) t l e.
Proof. reflexivity. Qed.

Definition cv_le3 (p : LogEqualityProof E * transcript * Rng E)
  : LogEqualityProof E' * transcript * Rng E' :=
  let '(q, t, r) := p in (cv_le q, t, r).

Lemma vt_log_equality : forall (base : PublicKey E) (sk : SecretKey E)
    (powers : Element E * Element E) (t : transcript) (r : Rng E),
  LogEqualityProof_new (E := E') (cv_pk base) sk powers t r
  = omap cv_le3 (LogEqualityProof_new (E := E) base sk powers t r).
Proof.
  intros base sk powers t r. unfold LogEqualityProof_new, SecretKey_generate. cbv zeta.
  same. same.
  change (@generate_scalar E' r) with (@generate_scalar E r).
  destruct (@generate_scalar E r) as [x r'].
  same. same. reflexivity.
Qed.

Lemma vt_encrypt_zero : forall (pk : PublicKey E) (r : Rng E),
  encrypt_zero (E := E') (cv_pk pk) r
  = omap (fun p => let '(c, q, r') := p in (cv_ct c, cv_le q, r'))
         (encrypt_zero (E := E) pk r).
Proof.
  intros pk r. unfold encrypt_zero, SecretKey_generate.
  change (@generate_scalar E' r) with (@generate_scalar E r).
  destruct (@generate_scalar E r) as [x r']. cbv zeta.
  apply (bind_cv cv_le3); [apply vt_log_equality | intros [[q t] r'']; reflexivity].
Qed.

Lemma vt_verifiable_decryption : forall (c : Ciphertext E) (keys : Keypair E) (t : transcript)
    (r : Rng E),
  VerifiableDecryption_new (E := E') (cv_ct c) (cv_kp keys) t r
  = omap (fun p => let '(d, q, t', r') := p in (cv_vd d, cv_le q, t', r'))
         (VerifiableDecryption_new (E := E) c keys t r).
Proof.
  intros c keys t r. unfold VerifiableDecryption_new. cbv zeta.
  apply (bind_cv cv_pk); [apply vt_from_element | intro base].
  apply (bind_cv cv_le3); [apply vt_log_equality | intros [[q t'] r'']; reflexivity].
Qed.

Lemma vt_pop_append : forall (keys : list (PublicKey E)) (t : transcript),
  pop_append_keys (E := E') t (map cv_pk keys) = pop_append_keys (E := E) t keys.
Proof.
  induction keys as [|k keys IH]; intro t; [reflexivity|].
  exact (IH (append_element_bytes t "K" (pk_bytes k))).
Qed.

Lemma vt_pop_commit : forall n (t : transcript) (r : Rng E),
  pop_commit (E := E') n t r = pop_commit (E := E) n t r.
Proof.
  induction n as [|n IH]; intros t r; [reflexivity|].
  cbn [pop_commit]. unfold SecretKey_generate.
  change (@generate_scalar E' r) with (@generate_scalar E r).
  destruct (@generate_scalar E r) as [x r'].
  rewrite vt_append. change (@mul_generator E' x) with (@mul_generator E x).
  destruct (append_element t "R" (mul_generator x)) as [t'|]; [|reflexivity].
  cbn [bind]. rewrite IH. reflexivity.
Qed.

Definition cv_pop3 (p : ProofOfPossession E * transcript * Rng E)
  : ProofOfPossession E' * transcript * Rng E' :=
  let '(q, t, r) := p in (cv_pop q, t, r).

Lemma vt_pop_from_keys : forall (sks : list (SecretKey E)) (pks : list (PublicKey E))
    (t : transcript) (r : Rng E),
  ProofOfPossession_from_keys (E := E') sks (map cv_pk pks) t r
  = omap cv_pop3 (ProofOfPossession_from_keys (E := E) sks pks t r).
Proof.
  intros sks pks t r. unfold ProofOfPossession_from_keys. cbv zeta.
  rewrite vt_pop_append, map_length, vt_pop_commit.
  same. destruct a as [[xs t'] r']. reflexivity.
Qed.

Lemma vt_pop_new : forall (kps : list (Keypair E)) (t : transcript) (r : Rng E),
  ProofOfPossession_new (E := E') (map cv_kp kps) t r
  = omap cv_pop3 (ProofOfPossession_new (E := E) kps t r).
Proof.
  intros kps t r. unfold ProofOfPossession_new. rewrite <- vt_pop_from_keys, !map_map.
  reflexivity.
Qed.

Lemma vt_commitment : forall (c : CiphertextWithValue E (Scalar E)) (pk : PublicKey E)
    (blinding : SecretKey E) (base : Element E) (t : transcript) (r : Rng E),
  CommitmentEquivalenceProof_new (E := E') (cv_cwv c) (cv_pk pk) blinding base t r
  = omap (fun p => let '(q, e, t', r') := p in (cv_ce q, e, t', r'))
         (CommitmentEquivalenceProof_new (E := E) c pk blinding base t r).
Proof.
  intros c pk blinding base t r. unfold CommitmentEquivalenceProof_new, SecretKey_generate.
  same. cbv zeta. do 3 same.
  change (@generate_scalar E' r) with (@generate_scalar E r).
  destruct (@generate_scalar E r) as [x r1].
  change (@generate_scalar E' r1) with (@generate_scalar E r1).
  destruct (@generate_scalar E r1) as [y r2].
  change (@generate_scalar E' r2) with (@generate_scalar E r2).
  destruct (@generate_scalar E r2) as [z r3].
  do 3 same. reflexivity.
Qed.

Definition cv_trip (p : CiphertextWithValue E (Scalar E) * Scalar E * Scalar E)
  : CiphertextWithValue E' (Scalar E') * Scalar E' * Scalar E' :=
  let '(c, x, y) := p in (cv_cwv c, x, y).

Definition cv_sqc (p : list (CiphertextWithValue E (Scalar E) * Scalar E * Scalar E)
                       * SecretKey E * transcript * Rng E)
  : list (CiphertextWithValue E' (Scalar E') * Scalar E' * Scalar E')
    * SecretKey E' * transcript * Rng E' :=
  let '(l, s, t, r) := p in (map cv_trip l, s, t, r).

Lemma vt_sq_commit : forall (pk : PublicKey E) (cs : list (CiphertextWithValue E (Scalar E)))
    (s : SecretKey E) (t : transcript) (r : Rng E),
  sq_commit (E := E') (cv_pk pk) (map cv_cwv cs) s t r
  = omap cv_sqc (sq_commit (E := E) pk cs s t r).
Proof.
  intros pk cs. induction cs as [|c cs IH]; intros s t r; [reflexivity|].
  cbn [map sq_commit]. unfold SecretKey_generate.
  do 2 same.
  change (@generate_scalar E' r) with (@generate_scalar E r).
  destruct (@generate_scalar E r) as [x r1]. cbv zeta.
  same.
  change (@generate_scalar E' r1) with (@generate_scalar E r1).
  destruct (@generate_scalar E r1) as [y r2].
  same. cbv zeta.
  apply (bind_cv cv_sqc); [apply IH | intros [[[l s'] t'] r']; reflexivity].
Qed.

Definition cv_sq3 (p : SumOfSquaresProof E * transcript * Rng E)
  : SumOfSquaresProof E' * transcript * Rng E' :=
  let '(q, t, r) := p in (cv_sq q, t, r).

Lemma vt_sum_of_squares : forall (cs : list (CiphertextWithValue E (Scalar E)))
    (c : CiphertextWithValue E (Scalar E)) (pk : PublicKey E) (t : transcript) (r : Rng E),
  SumOfSquaresProof_new (E := E') (map cv_cwv cs) (cv_cwv c) (cv_pk pk) t r
  = omap cv_sq3 (SumOfSquaresProof_new (E := E) cs c pk t r).
Proof.
  intros cs c pk t r. unfold SumOfSquaresProof_new, SecretKey_generate.
  change (@generate_scalar E' r) with (@generate_scalar E r).
  destruct (@generate_scalar E r) as [x r1]. cbv zeta.
  apply (bind_cv cv_sqc); [apply vt_sq_commit | intros [[[l s] t'] r']].
  cbn [cv_sqc]. rewrite !map_map.
  assert (H1 : map (fun p => snd (cv_trip p)) l = map (fun p => snd p) l).
  { apply map_ext. intros [[? ?] ?]. reflexivity. }
  assert (H2 : map (fun p => random_element (cwv_inner (fst (fst (cv_trip p))))) l
               = map (fun p => random_element (cwv_inner (fst (fst p)))) l).
  { apply map_ext. intros [[? ?] ?]. reflexivity. }
  assert (H3 : map (fun p => blinded_element (cwv_inner (fst (fst (cv_trip p))))) l
               = map (fun p => blinded_element (cwv_inner (fst (fst p)))) l).
  { apply map_ext. intros [[? ?] ?]. reflexivity. }
  rewrite H1, H2, H3. clear H1 H2 H3.
  do 6 same.
  assert (H4 : forall ch : Scalar E,
    flat_map (fun p : CiphertextWithValue E' (Scalar E') * Scalar E' * Scalar E' =>
      let '(c, random_scalar, value_scalar) := p in
      [@s_add E' (@s_mul E' ch (cwv_randomness c)) random_scalar;
       @s_add E' (@s_mul E' ch (cwv_value c)) value_scalar]) (map cv_trip l)
    = flat_map (fun p : CiphertextWithValue E (Scalar E) * Scalar E * Scalar E =>
      let '(c, random_scalar, value_scalar) := p in
      [@s_add E (@s_mul E ch (cwv_randomness c)) random_scalar;
       @s_add E (@s_mul E ch (cwv_value c)) value_scalar]) l).
  { intro ch. induction l as [|[[? ?] ?] l IHl]; [reflexivity|].
    cbn [map flat_map]. rewrite IHl. reflexivity. }
  cbn [challenge_scalar omap cv_sq3 cv_sq]. unfold challenge_scalar.
  cbn [omap]. unfold cv_sq3, cv_sq.
  cbn [sq_challenge sq_ciphertext_responses sq_sum_response].
  rewrite <- H4. reflexivity.
Qed.

(** ** Rings *)

Lemma vt_eq_challenge : forall (t : transcript) j (c : Element E * Element E),
  ring_eq_challenge (E := E') t j c = ring_eq_challenge (E := E) t j c.
Proof. reflexivity. Qed.

Lemma vt_prover_commitments : forall (b : Element E) (c : Ciphertext E) (a : Element E)
    (ch s : Scalar E),
  ring_prover_commitments (E := E') b (cv_ct c) a ch s
  = ring_prover_commitments (E := E) b c a ch s.
Proof. reflexivity. Qed.

Lemma vt_init_transcript : forall (t : transcript) (c : Ciphertext E) i,
  ring_init_transcript (E := E') t (cv_ct c) i = ring_init_transcript (E := E) t c i.
Proof. reflexivity. Qed.

Lemma vt_ring_forward : forall (t : transcript) (b : Element E) (c : Ciphertext E)
    (it : list (nat * Element E)) (cm : Element E * Element E) (rs : list (Scalar E)) (r : Rng E),
  ring_forward (E := E') t b (cv_ct c) it cm rs r = ring_forward (E := E) t b c it cm rs r.
Proof.
  intros t b c it. induction it as [|[i a] it IH]; intros cm rs r; [reflexivity|].
  cbn [ring_forward]. rewrite vt_eq_challenge.
  destruct (ring_eq_challenge t (i - 1) cm) as [ch|]; [|reflexivity]. cbn [bind].
  change (@generate_scalar E' r) with (@generate_scalar E r).
  destruct (@generate_scalar E r) as [x r1].
  change (@index_set (Scalar E') rs i x) with (@index_set (Scalar E) rs i x).
  destruct (@index_set (Scalar E) rs i x) as [rs'|]; [|reflexivity]. cbn [bind].
  rewrite vt_prover_commitments.
  destruct (ring_prover_commitments b c a ch x) as [cm'|]; [|reflexivity]. cbn [bind].
  apply IH.
Qed.

Lemma vt_ring_backward : forall (t : transcript) (b : Element E) (c : Ciphertext E)
    (it : list (nat * Element E)) (ch : Scalar E) (rs : list (Scalar E)) (r : Rng E),
  ring_backward (E := E') t b (cv_ct c) it ch rs r = ring_backward (E := E) t b c it ch rs r.
Proof.
  intros t b c it. induction it as [|[i a] it IH]; intros ch rs r; [reflexivity|].
  cbn [ring_backward].
  change (@generate_scalar E' r) with (@generate_scalar E r).
  destruct (@generate_scalar E r) as [x r1].
  change (@index_set (Scalar E') rs i x) with (@index_set (Scalar E) rs i x).
  destruct (@index_set (Scalar E) rs i x) as [rs'|]; [|reflexivity]. cbn [bind].
  rewrite vt_prover_commitments.
  destruct (ring_prover_commitments b c a ch x) as [cm'|]; [|reflexivity]. cbn [bind].
  rewrite vt_eq_challenge.
  destruct (ring_eq_challenge t i cm') as [ch'|]; [|reflexivity]. cbn [bind].
  apply IH.
Qed.

Definition cv_ring2 (p : Ring E * Rng E) : Ring E' * Rng E' := (cv_ring (fst p), snd p).

Lemma vt_Ring_new : forall i (b : Element E) (c : ExtendedCiphertext E) (adm : list (Element E))
    v (t : transcript) (rs : list (Scalar E)) (r : Rng E),
  Ring_new (E := E') i b (cv_ext c) adm v t rs r
  = omap cv_ring2 (Ring_new (E := E) i b c adm v t rs r).
Proof.
  intros i b c adm v t rs r. unfold Ring_new, SecretKey_generate.
  do 4 same.
  refine (bind_same _ _ _ _ _ (vt_init_transcript _ _ _) _). intro t'.
  change (@generate_scalar E' r) with (@generate_scalar E r).
  destruct (@generate_scalar E r) as [x r1]. cbv zeta.
  refine (bind_same _ _ _ _ _ (vt_ring_forward _ _ _ _ _ _ _) _).
  intros [[cm rs'] r']. reflexivity.
Qed.

Lemma vt_Ring_finalize : forall (x : Ring E) (b : Element E) (ch : Scalar E) (r : Rng E),
  Ring_finalize (E := E') (cv_ring x) b ch r = Ring_finalize (E := E) x b ch r.
Proof.
  intros x b ch r. unfold Ring_finalize. cbn [cv_ring rg_transcript rg_ciphertext
    rg_value_index rg_admissible rg_responses rg_discrete_log rg_random_scalar].
  rewrite (vt_ring_backward (rg_transcript x) b (rg_ciphertext x)). reflexivity.
Qed.

Lemma vt_finalize_all : forall (l : list (Ring E)) (b : Element E) (ch : Scalar E) (r : Rng E),
  ring_finalize_all (E := E') (map cv_ring l) b ch r = ring_finalize_all (E := E) l b ch r.
Proof.
  induction l as [|x l IH]; intros b ch r; [reflexivity|].
  cbn [map ring_finalize_all]. rewrite vt_Ring_finalize.
  destruct (Ring_finalize x b ch r) as [[rs r']|]; [|reflexivity]. cbn [bind].
  rewrite IH. reflexivity.
Qed.

Lemma vt_append_terminals : forall (l : list (Element E * Element E)) (t : transcript),
  ring_append_terminals (E := E') t l = ring_append_terminals (E := E) t l.
Proof.
  induction l as [|[a b] l IH]; intro t; [reflexivity|].
  cbn [ring_append_terminals]. rewrite vt_append.
  destruct (append_element t "R_G" a) as [t1|]; [|reflexivity]. cbn [bind].
  rewrite vt_append.
  destruct (append_element t1 "R_K" b) as [t2|]; [|reflexivity]. cbn [bind]. apply IH.
Qed.

Lemma combine_map_snd : forall {A B C : Type} (u : B -> C) (l : list A) (m : list B),
  combine l (map u m) = map (fun p => (fst p, u (snd p))) (combine l m).
Proof.
  induction l as [|a l IH]; intros [|b m]; [reflexivity..|]. cbn. rewrite IH. reflexivity.
Qed.

Lemma vt_enumerate : forall {A B : Type} (u : A -> B) (l : list A),
  enumerate (map u l) = map (fun p => (fst p, u (snd p))) (enumerate l).
Proof. intros A B u l. unfold enumerate. rewrite map_length. apply combine_map_snd. Qed.

Lemma forallb_map' : forall {A B : Type} (u : A -> B) (P : B -> bool) (l : list A),
  forallb P (map u l) = forallb (fun x => P (u x)) l.
Proof. induction l as [|a l IH]; [reflexivity|]. cbn. rewrite IH. reflexivity. Qed.

Lemma vt_aggregate : forall (l : list (Ring E)) (b : Element E) (t : transcript) (r : Rng E),
  Ring_aggregate (E := E') (map cv_ring l) b t r = Ring_aggregate (E := E) l b t r.
Proof.
  intros l b t r. unfold Ring_aggregate.
  rewrite vt_enumerate, forallb_map', map_map.
  change (env_build E') with (env_build E). cbn [cv_ring rg_index fst snd].
  change (map (fun x => rg_terminal (cv_ring x)) l) with (map (fun x => rg_terminal x) l).
  destruct (debug_assert _ _) as [u|]; [|reflexivity]. cbn [bind].
  change (map (fun x => rg_terminal x) l) with (map rg_terminal l).
  rewrite vt_append_terminals.
  destruct (ring_append_terminals t (map rg_terminal l)) as [t'|]; [|reflexivity]. cbn [bind].
  unfold challenge_scalar. rewrite vt_finalize_all. reflexivity.
Qed.

Lemma vt_rb_new : forall (pk : PublicKey E) (rs : list (Scalar E)) (t : transcript) (r : Rng E),
  RingProofBuilder_new (E := E') (cv_pk pk) rs t r = cv_rb (RingProofBuilder_new (E := E) pk rs t r).
Proof. reflexivity. Qed.

Lemma vt_add_precomputed : forall (b : RingProofBuilder E (Rng E)) (c : ExtendedCiphertext E)
    (adm : list (Element E)) v,
  RingProofBuilder_add_precomputed_value (E := E') (cv_rb b) (cv_ext c) adm v
  = omap cv_rb (RingProofBuilder_add_precomputed_value (E := E) b c adm v).
Proof.
  intros b c adm v. unfold RingProofBuilder_add_precomputed_value.
  same. destruct a as [rs rest].
  cbn [cv_rb rb_rings rb_receiver rb_transcript rb_rest rb_rng]. rewrite map_length.
  apply (bind_cv cv_ring2); [apply vt_Ring_new | intros [x r']].
  cbn. unfold cv_rb. cbn. rewrite map_app. reflexivity.
Qed.

Definition cv_add (p : ExtendedCiphertext E * RingProofBuilder E (Rng E))
  : ExtendedCiphertext E' * RingProofBuilder E' (Rng E') := (cv_ext (fst p), cv_rb (snd p)).

Lemma vt_add_value : forall (b : RingProofBuilder E (Rng E)) (adm : list (Element E)) v,
  RingProofBuilder_add_value (E := E') (cv_rb b) adm v
  = omap cv_add (RingProofBuilder_add_value (E := E) b adm v).
Proof.
  intros b adm v. unfold RingProofBuilder_add_value. same.
  cbn [cv_rb rb_rings rb_receiver rb_transcript rb_rest rb_rng].
  rewrite vt_ext_new. destruct (ExtendedCiphertext_new (E := E) a (rb_receiver b) (rb_rng b)) as [c r'].
  apply (bind_cv cv_rb); [|intro b'; reflexivity].
  exact (vt_add_precomputed
           {| rb_receiver := rb_receiver b; rb_transcript := rb_transcript b;
              rb_rings := rb_rings b; rb_rest := rb_rest b; rb_rng := r' |} c adm v).
Qed.

Lemma vt_build : forall (b : RingProofBuilder E (Rng E)),
  RingProofBuilder_build (E := E') (cv_rb b) = RingProofBuilder_build (E := E) b.
Proof.
  intro b. unfold RingProofBuilder_build.
  cbn [cv_rb rb_rings rb_receiver rb_transcript rb_rest rb_rng cv_pk pk_element].
  change (env_build E') with (env_build E).
  destruct (debug_assert _ _) as [u|]; [|reflexivity]. cbn [bind].
  rewrite (vt_aggregate (rb_rings b)). reflexivity.
Qed.

Lemma vt_encrypt_bool : forall (pk : PublicKey E) (v : bool) (r : Rng E),
  encrypt_bool (E := E') (cv_pk pk) v r
  = omap (fun p => let '(c, q, r') := p in (cv_ct c, cv_rp q, r'))
         (encrypt_bool (E := E) pk v r).
Proof.
  intros pk v r. unfold encrypt_bool.
  apply (bind_cv cv_add); [apply (vt_add_value (RingProofBuilder_new pk (repeat s_default 2)
                                    (transcript_new "bool_encryption") r)) | intros [c b]].
  cbn [cv_add fst snd]. rewrite vt_build.
  same. destruct a as [[[x rs] t'] r']. reflexivity.
Qed.

(** ** Range proofs *)

Definition cv_rav (p : list (Ciphertext E) * ExtendedCiphertext E * RingProofBuilder E (Rng E))
  : list (Ciphertext E') * ExtendedCiphertext E' * RingProofBuilder E' (Rng E') :=
  let '(l, c, b) := p in (map cv_ct l, cv_ext c, cv_rb b).

Lemma vt_range_add : forall (items : list (N * list (Element E)))
    (b : RingProofBuilder E (Rng E)) (c : ExtendedCiphertext E),
  range_add_values (E := E') (cv_rb b) items (cv_ext c)
  = omap cv_rav (range_add_values (E := E) b items c).
Proof.
  induction items as [|[v adm] items IH]; intros b c; [reflexivity|].
  cbn [range_add_values].
  apply (bind_cv cv_add); [apply vt_add_value | intros [c' b']].
  cbn [cv_add fst snd].
  apply (bind_cv cv_rav);
    [exact (IH b' (ExtendedCiphertext_add c c')) | intros [[l c''] b'']; reflexivity].
Qed.

Definition cv_rap3 (p : RangeProof E * transcript * Rng E)
  : RangeProof E' * transcript * Rng E' := let '(q, t, r) := p in (cv_rap q, t, r).

Lemma vt_range_from : forall (pk : PublicKey E) (range : PreparedRange E)
    (c : CiphertextWithValue E N) (t : transcript) (r : Rng E),
  RangeProof_from_ciphertext (E := E') (cv_pk pk) (cv_range range) (cv_cwv c) t r
  = omap cv_rap3 (RangeProof_from_ciphertext (E := E) pk range c t r).
Proof.
  intros pk range c t r. unfold RangeProof_from_ciphertext.
  same. same. cbv zeta. same. same.
  match goal with
  | |- context [firstn ?k ?it] =>
      apply (bind_cv cv_rav);
        [exact (vt_range_add (firstn k it)
                  (RingProofBuilder_new pk _ (range_start_transcript t (pr_inner range)) r)
                  ExtendedCiphertext_zero)
        | intros [[l c'] b']; cbn [cv_rav];
          change (pr_admissible (cv_range range)) with (pr_admissible range)]
  end.
  match goal with
  | |- match ?S with _ => _ end = _ =>
      change S with (@skipn (N * list (Element E)) (N.to_nat a2) (combine a (pr_admissible range)));
      destruct (@skipn (N * list (Element E)) (N.to_nat a2) (combine a (pr_admissible range)))
        as [|[v adm] rest]; [reflexivity|]
  end.
  apply (bind_cv cv_rb).
  { exact (vt_add_precomputed b' (ExtendedCiphertext_sub (cwv_ext c) c') adm (N.to_nat v)). }
  intro b''. rewrite vt_build. same. destruct a3 as [[[x rs] t'] r']. reflexivity.
Qed.

Definition cv_rapn (p : CiphertextWithValue E N * RangeProof E * transcript * Rng E)
  : CiphertextWithValue E' N * RangeProof E' * transcript * Rng E' :=
  let '(c, q, t, r) := p in (cv_cwv c, cv_rap q, t, r).

Lemma vt_range_new : forall (pk : PublicKey E) (range : PreparedRange E) (v : N)
    (t : transcript) (r : Rng E),
  RangeProof_new (E := E') (cv_pk pk) (cv_range range) v t r
  = omap cv_rapn (RangeProof_new (E := E) pk range v t r).
Proof.
  intros pk range v t r. unfold RangeProof_new.
  change (@s_of_u64 E') with (@s_of_u64 E). rewrite vt_cwv_new.
  destruct (CiphertextWithValue_new s_of_u64 v pk r) as [c r'].
  apply (bind_cv cv_rap3); [apply vt_range_from | intros [[q t'] r'']; reflexivity].
Qed.

Lemma vt_encrypt_range : forall (pk : PublicKey E) (range : PreparedRange E) (v : N) (r : Rng E),
  encrypt_range (E := E') (cv_pk pk) (cv_range range) v r
  = omap (fun p => let '(c, q, r') := p in (cv_ct c, cv_rap q, r'))
         (encrypt_range (E := E) pk range v r).
Proof.
  intros pk range v r. unfold encrypt_range.
  apply (bind_cv cv_rapn); [apply vt_range_new | intros [[[c q] t'] r']; reflexivity].
Qed.

(** ** Ballots *)

Definition cv_cav (p : list (ExtendedCiphertext E) * RingProofBuilder E (Rng E))
  : list (ExtendedCiphertext E') * RingProofBuilder E' (Rng E') :=
  (map cv_ext (fst p), cv_rb (snd p)).

Lemma vt_choice_add : forall (adm : list (Element E)) (choices : list bool)
    (b : RingProofBuilder E (Rng E)),
  choice_add_values (E := E') (cv_rb b) adm choices
  = omap cv_cav (choice_add_values (E := E) b adm choices).
Proof.
  intros adm choices. induction choices as [|v choices IH]; intro b; [reflexivity|].
  cbn [choice_add_values].
  apply (bind_cv cv_add); [apply vt_add_value | intros [c' b']]. cbn [cv_add fst snd].
  apply (bind_cv cv_cav); [apply IH | intros [l b'']; reflexivity].
Qed.

Lemma vt_reduce : forall (l : list (ExtendedCiphertext E)),
  unwrap (reduce (ExtendedCiphertext_add (E := E')) (map cv_ext l))
  = omap cv_ext (unwrap (reduce (ExtendedCiphertext_add (E := E)) l)).
Proof.
  intros [|c l]; [reflexivity|]. cbn [map reduce unwrap omap]. f_equal.
  revert c. induction l as [|d l IH]; intro c; [reflexivity|].
  cbn [map fold_left]. rewrite <- IH. reflexivity.
Qed.

Lemma vt_single_prove : forall (c : CiphertextWithValue E N) (pk : PublicKey E) (r : Rng E),
  SingleChoice_prove (E := E') (cv_cwv c) (cv_pk pk) r
  = omap (fun p => (cv_le (fst p), snd p)) (SingleChoice_prove (E := E) c pk r).
Proof.
  intros c pk r. unfold SingleChoice_prove.
  apply (bind_cv cv_le3); [apply vt_log_equality | intros [[q t'] r']; reflexivity].
Qed.

Local Ltac choice_steps params choices r :=
  same; same; cbv zeta; same;
  apply (bind_cv cv_cav);
  [ exact (vt_choice_add [identity; generator] choices
             (RingProofBuilder_new (cp_receiver params)
                (repeat s_default (2 * cp_options_count params))
                (transcript_new "encrypted_choice_ranges") r))
  | intros [l b']; cbn [cv_cav fst snd]; rewrite vt_build; same;
    match goal with a : (Scalar _ * _ * _ * _)%type |- _ => destruct a as [[[x rs] t'] r'] end;
    apply (bind_cv cv_ext); [apply vt_reduce | intro sum] ].

Lemma vt_choice_new_single : forall (params : @ChoiceParams E SingleChoice) (choices : list bool)
    (r : Rng E),
  EncryptedChoice_new (E := E') (cv_single params) choices r
  = omap (fun p => (cv_single_choice (fst p), snd p))
         (EncryptedChoice_new (E := E) params choices r).
Proof.
  intros params choices r. unfold EncryptedChoice_new.
  choice_steps params choices r.
  apply (bind_cv (fun p : LogEqualityProof E * Rng E => (cv_le (fst p), snd p) : _ * Rng E')).
  { exact (vt_single_prove {| cwv_ext := sum; cwv_value := a1 |} (cp_receiver params) r'). }
  intros [q r'']. cbn. unfold cv_single_choice. cbn. rewrite !map_map. reflexivity.
Qed.

Lemma vt_choice_new_multi : forall (params : @ChoiceParams E MultiChoice) (choices : list bool)
    (r : Rng E),
  EncryptedChoice_new (E := E') (cv_multi params) choices r
  = omap (fun p => (cv_multi_choice (fst p), snd p))
         (EncryptedChoice_new (E := E) params choices r).
Proof.
  intros params choices r. unfold EncryptedChoice_new.
  choice_steps params choices r.
  cbn. unfold cv_multi_choice. cbn. rewrite !map_map. reflexivity.
Qed.

Lemma vt_choice_single : forall (params : @ChoiceParams E SingleChoice) (choice : nat)
    (r : Rng E),
  EncryptedChoice_single (E := E') (cv_single params) choice r
  = omap (fun p => (cv_single_choice (fst p), snd p))
         (EncryptedChoice_single (E := E) params choice r).
Proof.
  intros params choice r. unfold EncryptedChoice_single. same. apply vt_choice_new_single.
Qed.

Definition cv_qev (p : list (CiphertextWithValue E (Scalar E) * RangeProof E) * Rng E)
  : list (CiphertextWithValue E' (Scalar E') * RangeProof E') * Rng E' :=
  (map (fun q => (cv_cwv (fst q), cv_rap (snd q))) (fst p), snd p).

Lemma vt_qv_votes : forall (params : QuadraticVotingParams E) (votes : list N) (r : Rng E),
  qv_encrypt_votes (E := E') (cv_qv params) votes r
  = omap cv_qev (qv_encrypt_votes (E := E) params votes r).
Proof.
  intros params votes. induction votes as [|v votes IH]; intro r; [reflexivity|].
  cbn [qv_encrypt_votes].
  apply (bind_cv cv_rapn); [apply vt_range_new | intros [[[c q] t'] r']]. cbn [cv_rapn].
  apply (bind_cv cv_qev); [apply IH | intros [l r'']; reflexivity].
Qed.

Lemma vt_qv_new : forall (params : QuadraticVotingParams E) (votes : list N) (r : Rng E),
  QuadraticVotingBallot_new (E := E') (cv_qv params) votes r
  = omap (fun p => (cv_qb (fst p), snd p)) (QuadraticVotingBallot_new (E := E) params votes r).
Proof.
  intros params votes r. unfold QuadraticVotingBallot_new.
  same. same. same.
  apply (bind_cv cv_qev); [apply vt_qv_votes | intros [l r']]. cbn [cv_qev fst snd].
  apply (bind_cv cv_rapn); [apply vt_range_new | intros [[[c q] t'] r'']]. cbn [cv_rapn].
  cbv zeta.
  apply (bind_cv cv_sq3).
  { rewrite map_map. cbn [fst].
    rewrite <- (map_map fst cv_cwv).
    exact (vt_sum_of_squares (map fst l) (CiphertextWithValue_generalize s_of_u64 c)
             (qv_receiver params) (transcript_new "quadratic_voting_credit_equiv") r''). }
  intros [[sq t''] r3]. cbn. unfold cv_qb. cbn. rewrite !map_map. reflexivity.
Qed.

(** ** Sharing *)

Definition cv_kps (p : list (Keypair E) * Rng E) : list (Keypair E') * Rng E' :=
  (map cv_kp (fst p), snd p).

Lemma vt_keypairs : forall n (r : Rng E),
  generate_keypairs (E := E') n r = omap cv_kps (generate_keypairs (E := E) n r).
Proof.
  induction n as [|n IH]; intro r; [reflexivity|]. cbn [generate_keypairs].
  eapply (bind_cv _); [apply vt_keypair_generate | intros [kp r']]. cbn [fst snd].
  apply (bind_cv cv_kps); [apply IH | intros [l r'']; reflexivity].
Qed.

Lemma vt_dealer_new : forall (params : Params) (r : Rng E),
  Dealer_new (E := E') params r
  = omap (fun p => (cv_dealer (fst p), snd p)) (Dealer_new (E := E) params r).
Proof.
  intros params r. unfold Dealer_new.
  apply (bind_cv cv_kps); [apply vt_keypairs | intros [l r']]. cbn [cv_kps fst snd].
  apply (bind_cv cv_pop3); [apply vt_pop_new | intros [[q t] r'']; reflexivity].
Qed.

Lemma vt_dealer_info : forall d : Dealer E,
  Dealer_public_info (E := E') (cv_dealer d)
  = let '(poly, pop) := Dealer_public_info (E := E) d in (poly, cv_pop pop).
Proof.
  intro d. unfold Dealer_public_info. cbn [cv_dealer de_polynomial de_pop].
  rewrite map_map. reflexivity.
Qed.

Lemma vt_dealer_share : forall (d : Dealer E) i,
  Dealer_secret_share_for_participant (E := E') (cv_dealer d) i
  = Dealer_secret_share_for_participant (E := E) d i.
Proof.
  intros d i. unfold Dealer_secret_share_for_participant.
  cbn [cv_dealer de_params de_polynomial].
  destruct (assert _); [|reflexivity]. cbn [bind]. f_equal.
  rewrite <- map_rev. change (@scalar_of_usize E' (i + 1)) with (@scalar_of_usize E (i + 1)).
  change (@s_of_u64 E' 0) with (@s_of_u64 E 0). generalize (@s_of_u64 E 0).
  induction (rev (de_polynomial d)) as [|kp l IH]; intro s; [reflexivity|].
  cbn [map fold_left]. apply IH.
Qed.

Lemma vt_active_new : forall (ks : PublicKeySet E) i (sk : SecretKey E),
  ActiveParticipant_new (E := E') (cv_ks ks) i sk
  = omap (rmap cv_active) (ActiveParticipant_new (E := E) ks i sk).
Proof.
  intros ks i sk. unfold ActiveParticipant_new.
  apply (bind_cv cv_pk); [apply index_map | intro key].
  change (@e_eqb E' (@mul_generator E' sk) (pk_element (cv_pk key)))
    with (@e_eqb E (@mul_generator E sk) (pk_element key)).
  destruct (@e_eqb E (@mul_generator E sk) (pk_element key)); reflexivity.
Qed.

Lemma vt_active_share_key : forall a : ActiveParticipant E,
  ActiveParticipant_public_key_share (E := E') (cv_active a)
  = omap cv_pk (ActiveParticipant_public_key_share (E := E) a).
Proof. intro a. apply index_map. Qed.

Lemma vt_active_pop : forall (a : ActiveParticipant E) (r : Rng E),
  ActiveParticipant_proof_of_possession (E := E') (cv_active a) r
  = omap (fun p => (cv_pop (fst p), snd p)) (ActiveParticipant_proof_of_possession (E := E) a r).
Proof.
  intros a r. unfold ActiveParticipant_proof_of_possession.
  apply (bind_cv cv_pk); [apply vt_active_share_key | intro pk].
  apply (bind_cv cv_pop3); [exact (vt_pop_from_keys [ap_secret_share a] [pk]
      (participant_pop_transcript (ap_key_set a) (ap_index a)) r) | intros [[q t] r'']; reflexivity].
Qed.

Lemma vt_active_decrypt : forall (a : ActiveParticipant E) (c : Ciphertext E) (r : Rng E),
  ActiveParticipant_decrypt_share (E := E') (cv_active a) (cv_ct c) r
  = omap (fun p => let '(d, q, r') := p in (cv_vd d, cv_le q, r'))
         (ActiveParticipant_decrypt_share (E := E) a c r).
Proof.
  intros a c r. unfold ActiveParticipant_decrypt_share. cbv zeta.
  apply (bind_cv cv_pk); [apply vt_active_share_key | intro pk].
  apply (bind_cv cv_pk); [apply vt_from_element | intro base].
  apply (bind_cv cv_le3); [exact (vt_log_equality base (ap_secret_share a) _
      (decryption_share_transcript (ap_key_set a) (ap_index a)) r)
    | intros [[q t] r'']; reflexivity].
Qed.

(** ** Distributed key generation *)

Lemma vt_pcc_new : forall (params : Params) i (r : Rng E),
  PCC_new (E := E') params i r
  = omap (fun p => (cv_pcc (fst p), snd p)) (PCC_new (E := E) params i r).
Proof.
  intros params i r. unfold PCC_new. same.
  eapply (bind_cv _); [apply vt_dealer_new | intros [d r']]. cbn [fst snd].
  change (@fill_bytes E' 32 r') with (@fill_bytes E 32 r').
  destruct (@fill_bytes E 32 r') as [o r'']. cbv zeta.
  rewrite vt_dealer_info. destruct (Dealer_public_info d) as [poly pop]. cbn [fst].
  do 3 same. reflexivity.
Qed.

Lemma vt_pcc_finish : forall p : ParticipantCollectingCommitments E,
  PCC_finish_commitment_phase (E := E') (cv_pcc p)
  = omap cv_pcp (PCC_finish_commitment_phase (E := E) p).
Proof.
  intro p. unfold PCC_finish_commitment_phase.
  change (PCC_missing_commitments (E := E') (cv_pcc p)) with (PCC_missing_commitments (E := E) p).
  destruct (PCC_missing_commitments p); [|reflexivity]. cbv zeta.
  change (pcc_dealer (cv_pcc p)) with (cv_dealer (f := f) (g := g) (h := h) (pcc_dealer p)).
  rewrite vt_dealer_info. destruct (Dealer_public_info (pcc_dealer p)) as [poly pop]. cbn [fst].
  do 2 same. reflexivity.
Qed.

Lemma vt_pcp_info : forall p : ParticipantCollectingPolynomials E,
  PCP_public_info (E := E') (cv_pcp p) = cv_pi (PCP_public_info (E := E) p).
Proof.
  intro p. unfold PCP_public_info, cv_pi.
  change (pcp_dealer (cv_pcp p)) with (cv_dealer (f := f) (g := g) (h := h) (pcp_dealer p)).
  rewrite vt_dealer_info. reflexivity.
Qed.

Lemma vt_pcp_finish : forall p : ParticipantCollectingPolynomials E,
  PCP_finish_polynomials_phase (E := E') (cv_pcp p)
  = omap cv_pes (PCP_finish_polynomials_phase (E := E) p).
Proof.
  intro p. unfold PCP_finish_polynomials_phase.
  change (PCP_missing_public_polynomials (E := E') (cv_pcp p))
    with (PCP_missing_public_polynomials (E := E) p).
  destruct (PCP_missing_public_polynomials p); [|reflexivity].
  same.
  refine (bind_same _ _ _ _ _ (vt_dealer_share (pcp_dealer p) (pcp_index p)) _).
  intro acc. reflexivity.
Qed.

Lemma vt_pes_share : forall (p : ParticipantExchangingSecrets E) i,
  PES_secret_share_for_participant (E := E') (cv_pes p) i
  = PES_secret_share_for_participant (E := E) p i.
Proof. intros p i. exact (vt_dealer_share (pes_dealer p) i). Qed.

Lemma vt_pes_insert : forall (p : ParticipantExchangingSecrets E) i (sk : SecretKey E),
  (forall poly, nth_error (pes_public_polynomials p) i = Some poly ->
     agrees_on h (scalar_powers (List.length poly) (s_of_u64 1) (scalar_of_usize (pes_index p + 1)))
       poly) ->
  PES_insert_secret_share (E := E') (cv_pes p) i sk
  = omap (fun q => (fst q, cv_pes (snd q))) (PES_insert_secret_share (E := E) p i sk).
Proof.
  intros p i sk H. unfold PES_insert_secret_share. same.
  destruct a; [reflexivity|].
  change (pes_public_polynomials (cv_pes p)) with (pes_public_polynomials p).
  unfold index.
  destruct (nth_error (pes_public_polynomials p) i) as [poly|] eqn:Ep.
  2:{ change (@nth_error (PublicPolynomial E') (pes_public_polynomials p) i)
        with (@nth_error (PublicPolynomial E) (pes_public_polynomials p) i).
      rewrite Ep. reflexivity. }
  change (@nth_error (PublicPolynomial E') (pes_public_polynomials p) i)
    with (@nth_error (PublicPolynomial E) (pes_public_polynomials p) i).
  rewrite Ep. cbn [bind]. cbv zeta.
  refine (bind_same _ _ _ _ _ _ _).
  { exact (H poly eq_refl). }
  intro e. apply (bind_cv cv_pk); [apply vt_from_element | intro pk].
  change (@e_eqb E' (pk_element (cv_pk pk)) (@mul_generator E' sk))
    with (@e_eqb E (pk_element pk) (@mul_generator E sk)).
  destruct (@e_eqb E (pk_element pk) (@mul_generator E sk)); cbn [negb]; [|reflexivity].
  same. reflexivity.
Qed.

End Vartime.
