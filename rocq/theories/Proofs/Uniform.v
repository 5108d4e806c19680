(** * Proofs about distributions: combinators and single-challenge protocols (C63) *)
From Coq Require Import List NArith ZArith Field Lia Bool String Arith.
From Verif.Model Require Import Base Group Transcript Keys Encryption LogEquality Possession Commitment Mul Sharing.
From Verif.Spec Require Import Encryption LogEquality Possession Sigma Uniform.
From Verif.Proofs Require Import Algebra Lists Encryption LogEquality Possession Commitment SumOfSquares Sharing.
Import ListNotations.
Open Scope string_scope.
Open Scope list_scope.

Section Combinators.
Context {E : Env}.
Local Notation scalar := (Scalar E).

Lemma draws_length n (r : Rng E) : List.length (fst (draws n r)) = n.
Proof.
  revert r; induction n as [|n IH]; intros r; cbn; [reflexivity|]. destruct (generate_scalar r) as [x r1].
  specialize (IH r1). destruct (draws n r1). cbn in *. congruence.
Qed.

Lemma draws_app n m (r : Rng E) :
  draws (n + m) r = (fst (draws n r) ++ fst (draws m (snd (draws n r))), snd (draws m (snd (draws n r)))).
Proof.
  revert r; induction n as [|n IH]; intros r; cbn.
  - destruct (draws m r); reflexivity.
  - destruct (generate_scalar r) as [x r1]. rewrite IH. destruct (draws n r1) as [xs r2]. cbn.
    destruct (draws m r2). reflexivity.
Qed.

Lemma uniform_draws n : uniform_over (E:=E) n (fun r => Ret (draws n r)) (fun xs => List.length xs = n).
Proof.
  split.
  - intros r. exists (fst (draws n r)). split; [destruct (draws n r); reflexivity|apply draws_length].
  - intros xs Hxs. exists xs. split; [exact Hxs|]. intros r. split.
    + intros [r' H]. destruct (draws n r) as [ys r1]. cbn. congruence.
    + intros H. exists (snd (draws n r)). rewrite <- H. destruct (draws n r); reflexivity.
Qed.

Lemma uniform_ret {A : Type} (a : A) : uniform_over (E:=E) 0 (fun r => Ret (a, r)) (fun x => x = a).
Proof.
  split.
  - intros r. exists a. cbn. auto.
  - intros x ->. exists []. split; [reflexivity|]. intros r. cbn. split; [reflexivity|]. intros _. eauto.
Qed.

(** the master rule: an injective image of a uniform value *)
Lemma uniform_image {A B : Type} n (run : Rng E -> outcome (A * Rng E)) (P : A -> Prop)
    (run' : Rng E -> outcome (B * Rng E)) (Q : B -> Prop) (f : A -> B) :
  uniform_over n run P ->
  (forall r a r', P a -> run r = Ret (a, r') -> run' r = Ret (f a, r')) ->
  (forall a, P a -> Q (f a)) ->
  (forall b, Q b -> exists a, P a /\ f a = b) ->
  (forall a a', P a -> P a' -> f a = f a' -> a = a') ->
  uniform_over n run' Q.
Proof.
  intros [H1 H2] Hr Hq Hs Hi. split.
  - intros r. destruct (H1 r) as (a & Ha & HP). exists (f a). split; [apply (Hr _ _ _ HP Ha)|auto].
  - intros b Hb. destruct (Hs b Hb) as (a & HP & <-). destruct (H2 a HP) as (xs & Hl & Hxs).
    exists xs. split; [exact Hl|]. intros r. rewrite <- Hxs. split.
    + intros [r' H]. destruct (H1 r) as (a' & Ha' & HP'). pose proof (Hr _ _ _ HP' Ha') as H'. rewrite H in H'.
      injection H' as Heq _. apply Hi in Heq; [|assumption..]. subst a'. eauto.
    + intros [r' H]. exists r'. apply (Hr _ _ _ HP H).
Qed.

Lemma uniform_ext {A : Type} n (run run' : Rng E -> outcome (A * Rng E)) (P Q : A -> Prop) :
  uniform_over n run P -> (forall r, run' r = run r) -> (forall a, P a <-> Q a) -> uniform_over n run' Q.
Proof.
  intros H Hr HP. apply (uniform_image n run P run' Q (fun a => a) H).
  - intros r a r' _ <-. apply Hr.
  - intros a. apply HP.
  - intros b Hb. exists b. split; [apply HP; exact Hb|reflexivity].
  - auto.
Qed.

Lemma uniform_bind {A B : Type} n m (run : Rng E -> outcome (A * Rng E)) (P : A -> Prop)
    (run2 : A -> Rng E -> outcome (B * Rng E)) (P2 : A -> B -> Prop) :
  uniform_over n run P -> (forall a, P a -> uniform_over m (run2 a) (P2 a)) ->
  uniform_over (n + m)
    (fun r => '(a, r) <- run r ;; '(b, r) <- run2 a r ;; Ret ((a, b), r))
    (fun ab => P (fst ab) /\ P2 (fst ab) (snd ab)).
Proof.
  intros [H1 H2] Hm. split.
  - intros r. destruct (H1 r) as (a & Ha & HP). destruct (Hm a HP) as [K1 _].
    destruct (K1 (snd (draws n r))) as (b & Hb & HP2). exists (a, b). rewrite Ha. cbn [bind]. rewrite Hb. cbn [bind].
    rewrite draws_app. cbn. auto.
  - intros [a b] [HP HP2]. cbn [fst snd] in *. destruct (H2 a HP) as (xs & Hl & Hxs).
    destruct (Hm a HP) as [K1 K2]. destruct (K2 b HP2) as (ys & Hl2 & Hys).
    exists (xs ++ ys). split; [rewrite app_length; lia|]. intros r. rewrite draws_app. cbn [fst]. split.
    + intros [r' H]. inv_bind H. destruct a0 as [a1 r1]. inv_bind H. destruct a0 as [b1 r2].
      injection H as -> -> ->. f_equal; [apply Hxs; eauto|].
      destruct (H1 r) as (a' & Ha' & _). rewrite Ha' in Hm0. injection Hm0 as -> Hr1. rewrite Hr1. apply Hys. eauto.
    + intros H. apply app_inv_tail_len in H as [Hx Hy]; [|rewrite draws_length; lia].
      apply Hxs in Hx as [r1 Hx]. destruct (H1 r) as (a' & Ha' & _). rewrite Hx in Ha'. injection Ha' as <- Hr1.
      rewrite Hx. cbn [bind]. rewrite <- Hr1 in Hy. apply Hys in Hy as [r2 Hy]. rewrite Hy. cbn. eauto.
Qed.

End Combinators.

Section Proofs.
Context (E : Env) (L : GroupLaws E) (Ht : ser_total E).
Local Notation scalar := (Scalar E).
Local Notation element := (Element E).
Add Field s_field_unif : (s_field L).

(** serialization and absorption as total functions *)
Definition ser (e : element) : bytes := match serialize_element e with Ret b => b | Panic _ => [] end.
Lemma ser_ok e : serialize_element e = Ret (ser e).
Proof using L Ht. destruct (ser_total_some L Ht e) as [b H]. unfold ser. rewrite H. reflexivity. Qed.

Definition absorb (items : list (string * element)) : transcript :=
  map (fun it => TMsg (fst it) (ser (snd it))) items.
Lemma absorb_ok items : mapM (absorb1 E) items = Ret (absorb items).
Proof using L Ht.
  induction items as [|it items IH]; [reflexivity|]. cbn [mapM]. unfold absorb1 at 1. rewrite ser_ok. cbn [bind].
  rewrite IH. reflexivity.
Qed.

Lemma draws1 (r : Rng E) x r' : Ret (draws 1 r) = Ret (x, r') -> exists y, x = [y] /\ generate_scalar r = (y, r').
Proof using. cbn. destruct (generate_scalar r) as [y r1]. intros H. injection H as <- <-. eauto. Qed.

Definition head (xs : list scalar) : scalar := hd 0%S xs.

Lemma head_inj xs xs' : List.length xs = 1%nat -> List.length xs' = 1%nat -> head xs = head xs' -> xs = xs'.
Proof using.
  destruct xs as [|x [|? ?]]; intros H; try discriminate. destruct xs' as [|y [|? ?]]; intros H'; try discriminate.
  cbn. congruence.
Qed.

(** ** encryption *)
Lemma ext_uniform (M : element) (pk : PublicKey E) :
  uniform_over 1 (fun r => Ret (ExtendedCiphertext_new M pk r))
    (fun ext => encrypts pk (ext_inner ext) M (ext_random_scalar ext)).
Proof using L.
  apply (uniform_image 1 _ _ _ _ (fun xs : list scalar =>
    {| ext_inner := {| random_element := (generator * head xs)%E; blinded_element := (M + pk_element pk * head xs)%E |};
       ext_random_scalar := head xs |}) (uniform_draws 1)).
  - intros r xs r' _ H. apply draws1 in H as (y & -> & H). unfold ExtendedCiphertext_new, SecretKey_generate.
    rewrite H, (mul_generator_ok E L). reflexivity.
  - intros xs _. split; reflexivity.
  - intros [[R B] x] [H1 H2]. cbn in H1, H2. exists [x]. split; [reflexivity|]. cbn. rewrite H1, H2. reflexivity.
  - intros xs xs' H H' Heq. injection Heq as _ _ Hx. apply head_inj; assumption.
Qed.

Lemma encrypts_fun (pk : PublicKey E) c M M' r r' : encrypts pk c M r -> encrypts pk c M' r' -> r = r' /\ M = M'.
Proof using L.
  intros [H1 H2] [H3 H4]. assert (r = r').
  { apply (f_equal (dlog L)) in H1, H3. rewrite (dlog_gen L) in H1, H3. congruence. }
  subst r'. split; [reflexivity|]. rewrite H2 in H4. apply (f_equal (fun x => x - pk_element pk * r)%E) in H4.
  replace (M + pk_element pk * r - pk_element pk * r)%E with M in H4 by el_ring L.
  replace (M' + pk_element pk * r - pk_element pk * r)%E with M' in H4 by el_ring L. exact H4.
Qed.

Lemma ext_eq (pk : PublicKey E) (a b : ExtendedCiphertext E) M M' :
  encrypts pk (ext_inner a) M (ext_random_scalar a) -> encrypts pk (ext_inner b) M' (ext_random_scalar b) ->
  ext_inner a = ext_inner b -> a = b.
Proof using L.
  destruct a as [a x], b as [b y]. cbn. intros H1 H2 ->. destruct (encrypts_fun _ _ _ _ _ _ H1 H2) as [-> _]. reflexivity.
Qed.

Lemma encrypt_element_uniform (M : element) (pk : PublicKey E) :
  uniform_over 1 (fun r => Ret (encrypt_element pk M r)) (fun c => exists x, encrypts pk c M x).
Proof using L.
  apply (uniform_image 1 _ _ _ _ ext_inner (ext_uniform M pk)).
  - intros r ext r' _ H. unfold encrypt_element. injection H as H. rewrite H. reflexivity.
  - intros ext H. eauto.
  - intros c [x H]. exists {| ext_inner := c; ext_random_scalar := x |}. auto.
  - intros a b Ha Hb. apply (ext_eq pk a b M M Ha Hb).
Qed.

Lemma encrypt_uniform (m : scalar) (pk : PublicKey E) :
  uniform_over 1 (fun r => Ret (encrypt pk m r)) (fun c => exists x, encrypts pk c (generator * m)%E x).
Proof using L.
  eapply uniform_ext; [apply (encrypt_element_uniform (generator * m)%E pk)| |reflexivity].
  intros r. unfold encrypt, encrypt_element. rewrite (mul_generator_ok E L). reflexivity.
Qed.

(** ** log equality *)
Definition le_q (K : PublicKey E) t (P0 P1 X0 X1 : element) : transcript :=
  le_query t (pk_bytes K) (ser P0) (ser P1) (ser X0) (ser X1).

Lemma le_hashed_ser t (K : PublicKey E) P0 P1 X0 X1 q : le_hashed t K P0 P1 X0 X1 q <-> q = le_q K t P0 P1 X0 X1.
Proof using L Ht.
  unfold le_hashed, le_q. split.
  - intros (p0 & p1 & x0 & x1 & H). rewrite !ser_ok in H. destruct H as (H0 & H1 & H2 & H3 & ->). congruence.
  - intros ->. exists (ser P0), (ser P1), (ser X0), (ser X1). rewrite !ser_ok. auto.
Qed.

Lemma le_uniform (K : PublicKey E) (x : scalar) t :
  uniform_over 1
    (fun r => '(p, t', r) <- LogEqualityProof_new K x ((generator * x)%E, (pk_element K * x)%E) t r ;; Ret ((p, t'), r))
    (fun pt => LogEqualityProof_verify (fst pt) K ((generator * x)%E, (pk_element K * x)%E) t = Ret (Ok tt, snd pt)).
Proof using L Ht.
  set (q k := le_q K t (generator * x) (pk_element K * x) (generator * k) (pk_element K * k)).
  apply (uniform_image 1 _ _ _ _ (fun xs : list scalar =>
    ({| le_challenge := oracle (q (head xs)) "c"; le_response := (oracle (q (head xs)) "c" * x + head xs)%S |},
     q (head xs) ++ [TChal "c"])) (uniform_draws 1)).
  - intros r xs r' _ H. apply draws1 in H as (k & -> & H). rewrite (le_new_eq E L). rewrite !ser_ok. cbn [bind]. rewrite H.
    rewrite !ser_ok. reflexivity.
  - intros xs _. cbn [fst snd]. apply (le_verify_ok_iff E L). exists (q (head xs)). split; [|split; reflexivity].
    apply le_hashed_ser. unfold q. f_equal; cbn; el_ring L.
  - intros [[c s] t'] H. cbn [fst snd] in H. apply (le_verify_ok_iff E L) in H as (q' & Hq & Hc & ->). cbn [le_challenge le_response] in *.
    apply le_hashed_ser in Hq. exists [(s - c * x)%S]. split; [reflexivity|]. cbn [head hd].
    assert (Hqq : q (s - c * x)%S = q'). { unfold q. rewrite Hq. f_equal; el_ring L. }
    rewrite Hqq, Hc. f_equal. f_equal. ring.
  - intros xs xs' H H' Heq. injection Heq as Hc Hs _. rewrite Hc in Hs. apply head_inj; [assumption..|].
    apply (f_equal (fun z => z - oracle (q (head xs')) "c" * x)%S) in Hs.
    replace (oracle (q (head xs')) "c" * x + head xs - oracle (q (head xs')) "c" * x)%S with (head xs) in Hs by ring.
    rewrite Hs. ring.
Qed.


(** a proof for any pair of powers *)
Lemma le_uniform_at (K : PublicKey E) (x : scalar) (P0 P1 : element) t :
  P0 = (generator * x)%E -> P1 = (pk_element K * x)%E ->
  uniform_over 1
    (fun r => '(p, t', r) <- LogEqualityProof_new K x (P0, P1) t r ;; Ret ((p, t'), r))
    (fun pt => LogEqualityProof_verify (fst pt) K (P0, P1) t = Ret (Ok tt, snd pt)).
Proof using L Ht. intros -> ->. apply le_uniform. Qed.

(** without the transcript, which the proof determines *)
Lemma le_uniform_proof (K : PublicKey E) (x : scalar) (P0 P1 : element) t :
  P0 = (generator * x)%E -> P1 = (pk_element K * x)%E ->
  uniform_over 1
    (fun r => '(p, _, r) <- LogEqualityProof_new K x (P0, P1) t r ;; Ret (p, r))
    (fun p => exists t', LogEqualityProof_verify p K (P0, P1) t = Ret (Ok tt, t')).
Proof using L Ht.
  intros H0 H1. apply (uniform_image 1 _ _ _ _ fst (le_uniform_at K x P0 P1 t H0 H1)).
  - intros r [p t'] r' _ H. inv_bind H. destruct a as [[p1 t1] r1]. injection H as -> -> ->. rewrite Hm. reflexivity.
  - intros [p t'] H. exists t'. exact H.
  - intros p [t' H]. exists (p, t'). auto.
  - intros [p t'] [p' t''] H H' Heq. cbn in *. subst p'. congruence.
Qed.

Lemma encrypt_zero_uniform (pk : PublicKey E) :
  uniform_over 2
    (fun r => '(c, p, r) <- encrypt_zero pk r ;; Ret ((c, p), r))
    (fun cp => (exists x, encrypts pk (fst cp) identity x) /\ verify_zero pk (fst cp) (snd cp) = Ret (Ok tt)).
Proof using L Ht.
  assert (H := uniform_bind 1 1 _ _
    (fun ext r => '(p, _, r) <- LogEqualityProof_new pk (ext_random_scalar ext)
       (random_element (ext_inner ext), blinded_element (ext_inner ext)) (transcript_new "zero_encryption") r ;; Ret (p, r))
    (fun ext p => exists t', LogEqualityProof_verify p pk (random_element (ext_inner ext), blinded_element (ext_inner ext))
       (transcript_new "zero_encryption") = Ret (Ok tt, t'))
    (ext_uniform identity pk)).
  specialize (H ltac:(intros ext [H1 H2]; apply le_uniform_proof; [exact H1|rewrite H2; el_ring L])).
  apply (uniform_image 2 _ _ _ _ (fun ep : ExtendedCiphertext E * LogEqualityProof E => (ext_inner (fst ep), snd ep)) H).
  - intros r [ext p] r' _ Hr. cbn [bind] in Hr. unfold encrypt_zero. unfold ExtendedCiphertext_new in Hr.
    destruct (SecretKey_generate r) as [x r1]. cbn [ext_inner ext_random_scalar random_element blinded_element] in Hr.
    inv_bind Hr. destruct a as [p1 r2]. injection Hr as <- <- <-. inv_bind Hm. destruct a as [[p2 t2] r3]. injection Hm as -> ->.
    rewrite (e_add_id E L) in Hm0. rewrite Hm0. cbn. rewrite (e_add_id E L). reflexivity.
  - intros [ext p] [He [t' Hv]]. cbn [fst snd] in *. split; [eauto|]. unfold verify_zero. rewrite Hv. reflexivity.
  - intros [c p] [[x He] Hv]. cbn [fst snd] in *. exists ({| ext_inner := c; ext_random_scalar := x |}, p). split; [|reflexivity].
    cbn [fst snd ext_inner ext_random_scalar]. split; [exact He|]. unfold verify_zero in Hv. inv_bind Hv. destruct a as [res t']. injection Hv as ->. eauto.
  - intros [a p] [b p'] [Ha _] [Hb _] Heq. cbn in *. injection Heq as Hi ->. f_equal. eapply ext_eq; eassumption.
Qed.

(** ** verifiable decryption *)
Lemma vd_uniform (c : Ciphertext E) (kp : Keypair E) t :
  key_of (kp_secret kp) (kp_public kp) ->
  uniform_over 1
    (fun r => '(d, p, t', r) <- VerifiableDecryption_new c kp t r ;; Ret ((d, p, t'), r))
    (fun dpt => let '(d, p, t') := dpt in
       VerifiableDecryption_decrypt_to_element d c = decrypt_to_element (kp_secret kp) c /\
       CandidateDecryption_verify {| cd_inner := d |} c (kp_public kp) p t = Ret (Ok d, t')).
Proof using L Ht.
  intros Hk. set (base := {| pk_bytes := ser (random_element c); pk_element := random_element c |}).
  assert (Hbase : PublicKey_from_element (random_element c) = Ret base)
    by (unfold PublicKey_from_element; rewrite ser_ok; reflexivity).
  set (d0 := {| vd_dh_element := (random_element c * kp_secret kp)%E |} : VerifiableDecryption E).
  apply (uniform_image 1 _ _ _ _ (fun pt : LogEqualityProof E * transcript => (d0, fst pt, snd pt))
    (le_uniform_at base (kp_secret kp) (pk_element (kp_public kp)) (random_element c * kp_secret kp)%E
       (start_proof t "decryption_with_custom_key") Hk eq_refl)).
  - intros r [p t'] r' _ H. unfold VerifiableDecryption_new. rewrite Hbase. cbn [bind].
    inv_bind H. destruct a as [[p1 t1] r1]. injection H as -> -> ->. rewrite Hm. reflexivity.
  - intros [p t'] H. cbn [fst snd] in *. split; [reflexivity|]. unfold CandidateDecryption_verify. rewrite Hbase.
    cbn [bind cd_inner d0 vd_dh_element]. rewrite H. reflexivity.
  - intros [[d p] t'] [Hd Hv]. unfold CandidateDecryption_verify in Hv. rewrite Hbase in Hv. cbn [bind cd_inner] in Hv.
    assert (Hdd : d = d0).
    { destruct d as [D]. unfold d0. f_equal. unfold VerifiableDecryption_decrypt_to_element, decrypt_to_element in Hd. cbn in Hd.
      apply (f_equal (fun e => blinded_element c - e)%E) in Hd.
      replace (blinded_element c - (blinded_element c - D))%E with D in Hd by el_ring L. rewrite Hd. el_ring L. }
    subst d. inv_bind Hv. destruct a as [[u|e] t1]; [|discriminate]. injection Hv as <-. destruct u.
    exists (p, t1). split; [exact Hm|reflexivity].
  - intros [p t'] [p' t''] _ _ H. cbn in H. congruence.
Qed.

(** ** possession *)
Lemma mapM_ser (l : list element) : mapM serialize_element l = Ret (map ser l).
Proof using L Ht. induction l as [|e l IH]; [reflexivity|]. cbn [mapM]. rewrite ser_ok, IH. reflexivity. Qed.

Lemma encoded_ser (l : list element) bs : encoded l bs <-> bs = map ser l.
Proof using L Ht.
  unfold encoded. revert bs; induction l as [|e l IH]; intros bs; cbn.
  - split; [intros H; inversion H; reflexivity|intros ->; constructor].
  - split.
    + intros H. inversion H as [|? b ? bs' Hb Hbs]; subst. apply IH in Hbs. rewrite ser_ok in Hb. congruence.
    + intros ->. constructor; [apply ser_ok|]. apply IH. reflexivity.
Qed.

Lemma pop_uniform (secrets : list scalar) (keys : list (PublicKey E)) t :
  Forall2 key_of secrets keys ->
  uniform_over (List.length keys)
    (fun r => '(p, t', r) <- ProofOfPossession_from_keys secrets keys t r ;; Ret ((p, t'), r))
    (fun pt => ProofOfPossession_verify (fst pt) keys t = Ret (Ok tt, snd pt)).
Proof using L Ht.
  intros Hk.
  set (q xs := pop_query t (map pk_bytes keys) (map ser (map (fun x => (@generator E * x)%E) xs))).
  set (f xs := ({| pop_challenge := oracle (q xs) "c";
      pop_responses := map (fun p => (snd p + fst p * oracle (q xs) "c")%S) (combine secrets xs) |}, q xs ++ [TChal "c"])).
  assert (Hrun : forall r xs r', draws (List.length keys) r = (xs, r') ->
    ProofOfPossession_from_keys secrets keys t r = Ret (fst (f xs), snd (f xs), r')).
  { intros r xs r' H. rewrite (pop_new_eq E L). change (draw E (List.length keys) r) with (draws (List.length keys) r).
    rewrite H, mapM_ser. reflexivity. }
  apply (uniform_image (List.length keys) _ _ _ _ f (uniform_draws (List.length keys))).
  - intros r xs r' _ H. injection H as H. rewrite (Hrun _ _ _ H). cbn [bind]. rewrite <- surjective_pairing. reflexivity.
  - intros xs Hl. unfold f. cbn [fst snd]. apply (pop_verify_ok_iff E L). cbn [pop_challenge pop_responses].
    exists (map (fun x => (@generator E * x)%E) xs), (map ser (map (fun x => (@generator E * x)%E) xs)).
    split; [|split; [apply encoded_ser; reflexivity|split; reflexivity]].
    fold (q xs). generalize (oracle (e:=E) (q xs) "c"). intros c.
    unfold pop_answers. clear - Hk Hl L. split.
    + rewrite !map_length, combine_length, (Forall2_length' _ _ _ Hk), Hl. lia.
    + revert xs Hl; induction Hk as [|s k secrets keys Hs Hk IH]; intros [|x xs] Hl; try discriminate; cbn; [reflexivity|].
      f_equal; [|apply IH; cbn in Hl; lia]. unfold key_of in Hs. rewrite Hs. el_ring L.
  - intros [[c ss] t'] H. cbn [fst snd] in H. apply (pop_verify_ok_iff E L) in H as (Xs & bs & [Hl HX] & Hb & Hc & ->).
    cbn [pop_challenge pop_responses] in *. apply encoded_ser in Hb. rewrite map_length in Hl.
    set (xs := map (fun p : scalar * scalar => (snd p - fst p * c)%S) (combine secrets ss)).
    assert (HXs : map (fun x => (@generator E * x)%E) xs = Xs /\
                  map (fun p => (snd p + fst p * c)%S) (combine secrets xs) = ss /\ List.length xs = List.length keys).
    { subst Xs. unfold xs. clear - Hk Hl L. revert ss Hl.
      induction Hk as [|s k secrets keys Hs Hk IH]; intros [|x ss] Hl; try discriminate; cbn; [auto|].
      destruct (IH ss) as (I1 & I2 & I3); [cbn in Hl; lia|]. unfold key_of in Hs. rewrite I1, I2, I3. repeat split.
      - f_equal. rewrite Hs. el_ring L.
      - f_equal. ring. }
    destruct HXs as (HXs & Hss & Hlen). exists xs. split; [exact Hlen|]. unfold f.
    assert (Hq : q xs = pop_query t (map pk_bytes keys) bs) by (unfold q; rewrite HXs, Hb; reflexivity).
    rewrite Hq, Hc, Hss. reflexivity.
  - intros xs xs' Hl Hl' Heq. unfold f in Heq. injection Heq as Hc Hs _. rewrite Hc in Hs. revert Hs.
    generalize (oracle (e:=E) (q xs') "c"). intros c Hs. clear - Hk Hl Hl' Hs L. revert xs xs' Hl Hl' Hs.
    induction Hk as [|s k secrets keys Hk1 Hk IH]; intros [|x xs] [|x' xs'] Hl Hl' Hs; try discriminate; [reflexivity|].
    cbn in Hs. injection Hs as Hx Hs. f_equal; [|apply IH; [cbn in Hl; lia|cbn in Hl'; lia|exact Hs]].
    apply (f_equal (fun z => z - s * c)%S) in Hx. replace (x + s * c - s * c)%S with x in Hx by ring. rewrite Hx. ring.
Qed.

(** ** commitment equivalence *)
Lemma draws3 (r : Rng E) x r' : Ret (draws 3 r) = Ret (x, r') ->
  exists a b c r1 r2, x = [a; b; c] /\ generate_scalar r = (a, r1) /\ generate_scalar r1 = (b, r2) /\ generate_scalar r2 = (c, r').
Proof using.
  cbn. destruct (generate_scalar r) as [a r1] eqn:H1. destruct (generate_scalar r1) as [b r2] eqn:H2.
  destruct (generate_scalar r2) as [c r3] eqn:H3. intros H. injection H as <- <-. eauto 10.
Qed.

Lemma ce_uniform (ct : CiphertextWithValue E scalar) (K : PublicKey E) (rc : scalar) (H : element) t :
  encrypts K (cwv_inner ct) (generator * cwv_value ct)%E (cwv_randomness ct) ->
  uniform_over 3
    (fun r => '(p, C, t', r) <- CommitmentEquivalenceProof_new ct K rc H t r ;; Ret ((p, C, t'), r))
    (fun pct => let '(p, C, t') := pct in
       C = (generator * cwv_value ct + H * rc)%E /\
       CommitmentEquivalenceProof_verify p (cwv_inner ct) K C H t = Ret (Ok tt, t')).
Proof using L Ht.
  intros [He1 He2]. set (C0 := (generator * cwv_value ct + H * rc)%E).
  set (qq X1 X2 X3 := t ++ [TMsg "dom-sep" (str_bytes "commitment_equivalence"); TMsg "K" (pk_bytes K)] ++
     absorb (ce_items (random_element (cwv_inner ct)) (blinded_element (cwv_inner ct)) C0 X1 X2 X3)).
  set (q er ev ec := qq (generator * er)%E (generator * ev + pk_element K * er)%E (generator * ev + H * ec)%E).
  set (f xs := match xs with
    | [er; ev; ec] => let c := oracle (q er ev ec) "c" in
      ({| ce_challenge := c; ce_randomness_response := (c * cwv_randomness ct + er)%S;
          ce_value_response := (c * cwv_value ct + ev)%S; ce_commitment_response := (c * rc + ec)%S |}, C0,
       q er ev ec ++ [TChal "c"])
    | _ => ({| ce_challenge := 0%S; ce_randomness_response := 0%S; ce_value_response := 0%S; ce_commitment_response := 0%S |}, C0, [])
    end).
  assert (Hans : forall c er ev ec, 
    (generator * (c * cwv_randomness ct + er) - random_element (cwv_inner ct) * c = generator * er)%E /\
    (generator * (c * cwv_value ct + ev) + pk_element K * (c * cwv_randomness ct + er) - blinded_element (cwv_inner ct) * c
       = generator * ev + pk_element K * er)%E /\
    (generator * (c * cwv_value ct + ev) + H * (c * rc + ec) - C0 * c = generator * ev + H * ec)%E).
  { intros c er ev ec. rewrite He1, He2. unfold C0. repeat split; el_ring L. }
  assert (Hver : forall c er ev ec t', CommitmentEquivalenceProof_verify
     {| ce_challenge := c; ce_randomness_response := (c * cwv_randomness ct + er)%S;
        ce_value_response := (c * cwv_value ct + ev)%S; ce_commitment_response := (c * rc + ec)%S |}
     (cwv_inner ct) K C0 H t = Ret (Ok tt, t') <-> oracle (q er ev ec) "c" = c /\ t' = q er ev ec ++ [TChal "c"]).
  { intros c er ev ec t'. rewrite (ce_verify_eq E L). cbn [ce_challenge ce_randomness_response ce_value_response ce_commitment_response].
    cbv zeta. rewrite absorb_ok. cbn [bind]. destruct (Hans c er ev ec) as (-> & -> & ->).
    change (t ++ _ ++ absorb _) with (q er ev ec).
    destruct (s_eqb (oracle (q er ev ec) "c") c) eqn:Hs.
    - apply (s_eqb_ok E L) in Hs. split; [intros Hi; injection Hi as <-; auto|intros [_ ->]; reflexivity].
    - split; [discriminate|]. intros [Hc _]. rewrite Hc, (s_eqb_refl L) in Hs. discriminate. }
  apply (uniform_image 3 _ _ _ _ f (uniform_draws 3)).
  - intros r xs r' _ Hd. apply draws3 in Hd as (a & b & c & r1 & r2 & -> & H1 & H2 & H3).
    rewrite (ce_new_eq E L). cbv zeta. rewrite H1, H2, H3, absorb_ok. reflexivity.
  - intros [|er [|ev [|ec [|? ?]]]] Hl; try discriminate. unfold f. cbv zeta. split; [reflexivity|]. apply Hver. auto.
  - intros [[[c sr sv sc] C] t'] [-> Hv].
    exists [(sr - c * cwv_randomness ct)%S; (sv - c * cwv_value ct)%S; (sc - c * rc)%S]. split; [reflexivity|].
    unfold f. cbv zeta.
    specialize (Hver c (sr - c * cwv_randomness ct)%S (sv - c * cwv_value ct)%S (sc - c * rc)%S t').
    replace (c * cwv_randomness ct + (sr - c * cwv_randomness ct))%S with sr in Hver by ring.
    replace (c * cwv_value ct + (sv - c * cwv_value ct))%S with sv in Hver by ring.
    replace (c * rc + (sc - c * rc))%S with sc in Hver by ring.
    fold C0 in Hv. apply Hver in Hv as [-> ->]. do 3 f_equal; ring.
  - intros [|er [|ev [|ec [|? ?]]]] [|er' [|ev' [|ec' [|? ?]]]] Hl Hl' Heq; try discriminate.
    unfold f in Heq. cbv zeta in Heq. injection Heq as Hc Hr Hv Hcm _. rewrite Hc in Hr, Hv, Hcm.
    assert (Hadd : forall z x y : scalar, (z + x = z + y)%S -> x = y).
    { intros z x y Hz. apply (f_equal (fun w => w - z)%S) in Hz. replace (z + x - z)%S with x in Hz by ring.
      rewrite Hz. ring. }
    apply Hadd in Hr, Hv, Hcm. congruence.
Qed.


(** ** sum of squares *)
Fixpoint pairs (l : list scalar) : list (scalar * scalar) :=
  match l with a :: b :: l' => (a, b) :: pairs l' | _ => [] end.

Lemma pairs_flat rs : pairs (sq_flat rs) = rs.
Proof using. induction rs as [|[a b] rs IH]; [reflexivity|]. cbn. f_equal. exact IH. Qed.

Lemma sq_draw_draws n (r : Rng E) : draws (n * 2) r = (sq_flat (fst (sq_draw E n r)), snd (sq_draw E n r)).
Proof using.
  revert r; induction n as [|n IH]; intros r; [reflexivity|]. cbn.
  destruct (generate_scalar r) as [a r1]. destruct (generate_scalar r1) as [b r2]. rewrite IH.
  destruct (sq_draw E n r2). reflexivity.
Qed.

Lemma sq_draw_uniform n : uniform_over (n * 2) (fun r => Ret (sq_draw E n r)) (fun es => List.length es = n).
Proof using.
  apply (uniform_image (n * 2) _ _ _ _ pairs (uniform_draws (n * 2))).
  - intros r xs r' _ H. injection H as H. rewrite sq_draw_draws in H. injection H as <- <-. rewrite pairs_flat, <- surjective_pairing. reflexivity.
  - intros xs H. destruct (sq_flat_exists E xs n H) as (rs & -> & Hl). rewrite pairs_flat. exact Hl.
  - intros es H. exists (sq_flat es). rewrite pairs_flat, sq_flat_length, H. auto.
  - intros xs xs' H H' Heq. destruct (sq_flat_exists E xs n H) as (rs & -> & Hl). destruct (sq_flat_exists E xs' n H') as (rs' & -> & Hl').
    rewrite !pairs_flat in Heq. congruence.
Qed.

Lemma s_add_cancel (z x y : scalar) : (z + x = z + y)%S -> x = y.
Proof using L.
  intros Hz. apply (f_equal (fun w => w - z)%S) in Hz. replace (z + x - z)%S with x in Hz by ring. rewrite Hz. ring.
Qed.

Lemma sq_flat_inj (a b : list (scalar * scalar)) : sq_flat a = sq_flat b -> a = b.
Proof using. intros H. rewrite <- (pairs_flat a), H. apply pairs_flat. Qed.

Lemma sq_uniform (cts : list (CiphertextWithValue E scalar)) (z : CiphertextWithValue E scalar) (K : PublicKey E) t :
  Forall (fun ct => encrypts K (cwv_inner ct) (generator * cwv_value ct)%E (cwv_randomness ct)) cts ->
  encrypts K (cwv_inner z) (generator * cwv_value z)%E (cwv_randomness z) ->
  cwv_value z = sum_sq (map cwv_value cts) ->
  uniform_over (1 + List.length cts * 2)
    (fun r => '(p, t', r) <- SumOfSquaresProof_new cts z K t r ;; Ret ((p, t'), r))
    (fun pt => SumOfSquaresProof_verify (fst pt) (map cwv_inner cts) (cwv_inner z) K t = Ret (Ok tt, snd pt)).
Proof using L Ht.
  intros Hc [Hz1 Hz2] Hz. set (cs := map cwv_inner cts). set (z' := cwv_inner z).
  set (qq As Z := t ++ [TMsg "dom-sep" (str_bytes "sum_of_squares"); TMsg "K" (pk_bytes K)] ++ absorb (sq_items cs z' As Z)).
  set (q ez es := qq (sq_nonce_commitments E (pk_element K) es)
     ((esum (combine (map random_element cs) (map snd es)) + generator * ez)%E,
      (esum (combine (map blinded_element cs) (map snd es)) + pk_element K * ez)%E)).
  set (R := sq_rsum E cts (cwv_randomness z)).
  set (f (xe : list scalar * list (scalar * scalar)) :=
    let ez := head (fst xe) in let es := snd xe in let c := oracle (q ez es) "c" in
    ({| sq_challenge := c; sq_ciphertext_responses := sq_flat (sq_responses E c cts es);
        sq_sum_response := (c * R + ez)%S |}, q ez es ++ [TChal "c"])).
  assert (Hver : forall c ez es t', List.length es = List.length cts ->
    SumOfSquaresProof_verify {| sq_challenge := c; sq_ciphertext_responses := sq_flat (sq_responses E c cts es);
        sq_sum_response := (c * R + ez)%S |} cs z' K t = Ret (Ok tt, t') <->
    oracle (q ez es) "c" = c /\ t' = q ez es ++ [TChal "c"]).
  { intros c ez es t' Hl.
    rewrite (sq_verify_eq E L _ (sq_responses E c cts es)); [|reflexivity|unfold cs, sq_responses; rewrite !map_length, combine_length; lia].
    cbn [sq_challenge sq_sum_response]. cbv zeta. rewrite absorb_ok. cbn [bind].
    pose proof (sq_complete_commitments E L K cts es c Hl Hc) as Hcc. fold cs in Hcc. rewrite <- Hcc. clear Hcc.
    replace (sq_sum_commitment E generator (random_element z') (map random_element cs) c (sq_responses E c cts es) (c * R + ez)%S,
             sq_sum_commitment E (pk_element K) (blinded_element z') (map blinded_element cs) c (sq_responses E c cts es) (c * R + ez)%S)
      with ((esum (combine (map random_element cs) (map snd es)) + generator * ez)%E,
            (esum (combine (map blinded_element cs) (map snd es)) + pk_element K * ez)%E).
    2: { unfold sq_sum_commitment. destruct (sq_complete_sums E L K cts es c Hl Hc) as [H1 H2]. cbv zeta in H1, H2.
         fold cs in H1, H2. rewrite H1, H2. unfold z', R. rewrite Hz1, Hz2, Hz, (sq_rsum_shift E L cts (cwv_randomness z)).
         f_equal; el_ring L. }
    change (t ++ _ ++ absorb _) with (q ez es).
    destruct (s_eqb (oracle (q ez es) "c") c) eqn:Hs.
    - apply (s_eqb_ok E L) in Hs. split; [intros Hi; injection Hi as <-; auto|intros [_ ->]; reflexivity].
    - split; [discriminate|]. intros [Hcc _]. rewrite Hcc, (s_eqb_refl L) in Hs. discriminate. }
  assert (Hresp : forall c (es : list (scalar * scalar)), List.length es = List.length cts ->
    exists es0, List.length es0 = List.length cts /\ sq_responses E c cts es0 = es).
  { intros c. clear - L. induction cts as [|ct cts IH]; intros [|[sr sx] es] Hl; try discriminate; [exists []; auto|].
    destruct (IH es) as (es0 & Hl0 & He); [cbn in Hl; lia|].
    exists (((sr - c * cwv_randomness ct)%S, (sx - c * cwv_value ct)%S) :: es0). split; [cbn; lia|].
    cbn. unfold sq_responses in He. rewrite He. do 2 f_equal; ring. }
  assert (Hresp_inj : forall c es es', List.length es = List.length cts -> List.length es' = List.length cts ->
    sq_responses E c cts es = sq_responses E c cts es' -> es = es').
  { intros c. clear - L. induction cts as [|ct cts IH]; intros [|[a b] es] [|[a' b'] es'] Hl Hl' H; try discriminate; [reflexivity|].
    cbn in H. injection H as H1 H2 H. apply s_add_cancel in H1, H2. subst. f_equal.
    apply IH; [cbn in Hl; lia|cbn in Hl'; lia|exact H]. }
  apply (uniform_image (1 + List.length cts * 2) _ _ _ _ f (uniform_bind 1 (List.length cts * 2) _ _
    (fun _ r => Ret (sq_draw E (List.length cts) r)) (fun _ es => List.length es = List.length cts)
    (uniform_draws 1) (fun _ _ => sq_draw_uniform (List.length cts)))).
  - intros r [xs es] r' _ H. cbn [bind] in H. destruct (draws 1 r) as [xs1 r1] eqn:Hd.
    destruct (draws1 r xs1 r1 ltac:(rewrite Hd; reflexivity)) as (ez & -> & Hg).
    destruct (sq_draw E (List.length cts) r1) as [es1 r2] eqn:Hs. injection H as <- <- <-.
    rewrite (sq_new_eq E L), Hg, Hs. cbv zeta. rewrite absorb_ok. reflexivity.
  - intros [xs es] [Hx He]. cbn [fst snd] in *. unfold f. cbv zeta. cbn [fst snd]. apply Hver; auto.
  - intros [[c ss sz] t'] Hv. cbn [fst snd] in Hv.
    destruct (Nat.eq_dec (List.length ss) (List.length cs * 2)) as [Hl|Hl].
    2: { rewrite (sq_verify_len E) in Hv by exact Hl. discriminate. }
    destruct (sq_flat_exists E ss _ Hl) as (rs & -> & Hrl). unfold cs in Hrl. rewrite map_length in Hrl.
    destruct (Hresp c rs Hrl) as (es & Hel & <-).
    exists ([(sz - c * R)%S], es). split; [split; [reflexivity|exact Hel]|]. unfold f. cbv zeta. cbn [fst snd head hd].
    specialize (Hver c (sz - c * R)%S es t' Hel). replace (c * R + (sz - c * R))%S with sz in Hver by ring.
    apply Hver in Hv as [-> ->]. do 2 f_equal. ring.
  - intros [xs es] [xs' es'] [Hx He] [Hx' He'] Heq. cbn [fst snd] in *. unfold f in Heq. cbv zeta in Heq. cbn [fst snd] in Heq.
    injection Heq as Hcc Hs Hsz _. rewrite Hcc in Hs, Hsz. apply sq_flat_inj, Hresp_inj in Hs; [|assumption..]. subst es'.
    apply s_add_cancel in Hsz. f_equal. apply head_inj; assumption.
Qed.

End Proofs.
