(** * Proofs about keys and encryption (C01-C05) *)
From Coq Require Import List NArith ZArith Znumtheory Field Lia Bool.
From Verif.Model Require Import Base Group Transcript Keys Encryption.
From Verif.Spec Require Import Encryption.
From Verif.Proofs Require Import Algebra.
Import ListNotations.

Section Proofs.
Context (E : Env) (L : GroupLaws E).
Local Notation scalar := (Scalar E).
Local Notation element := (Element E).
Add Field s_field_enc : (s_field L).

Lemma ext_new_encrypts (M : element) (pk : PublicKey E) r ext r' :
  ExtendedCiphertext_new M pk r = (ext, r') ->
  encrypts pk (ext_inner ext) M (ext_random_scalar ext) /\ generate_scalar r = (ext_random_scalar ext, r').
Proof.
  unfold ExtendedCiphertext_new, SecretKey_generate, encrypts.
  destruct (generate_scalar r) as [s r1]. intros H. injection H as <- <-. cbn.
  rewrite (mul_generator_ok E L). auto.
Qed.

Lemma encrypts_decrypt sk pk (c : Ciphertext E) M r :
  key_of sk pk -> encrypts pk c M r -> decrypt_to_element sk c = M.
Proof.
  unfold key_of, encrypts, decrypt_to_element. intros Hk [-> ->]. rewrite Hk. el_ring L.
Qed.

(** every ciphertext encrypts its decryption *)
Lemma encrypts_exists sk pk (c : Ciphertext E) :
  key_of sk pk -> encrypts pk c (decrypt_to_element sk c) (dlog L (random_element c)).
Proof.
  unfold key_of, encrypts, decrypt_to_element. intros Hk. split.
  - symmetry. apply (dlog_ok E L).
  - rewrite Hk. el_ring L.
Qed.

Lemma decrypt_encrypt_element sk pk M r (c : Ciphertext E) r' :
  key_of sk pk -> encrypt_element pk M r = (c, r') -> decrypt_to_element sk c = M.
Proof.
  intros Hk. unfold encrypt_element. destruct (ExtendedCiphertext_new M pk r) as [ext r1] eqn:H.
  intros Hc. injection Hc as <- <-. apply ext_new_encrypts in H as [H _].
  eapply encrypts_decrypt; eassumption.
Qed.

Lemma decrypt_encrypt sk pk v r (c : Ciphertext E) r' :
  key_of sk pk -> encrypt pk v r = (c, r') -> decrypt_to_element sk c = (generator * v)%E.
Proof.
  intros Hk. unfold encrypt.
  destruct (ExtendedCiphertext_new (mul_generator v) pk r) as [ext r1] eqn:H.
  intros Hc. injection Hc as <- <-. apply ext_new_encrypts in H as [H _].
  rewrite (mul_generator_ok E L) in H. eapply encrypts_decrypt; eassumption.
Qed.

Lemma cwv_new_encrypts {V : Type} (into : V -> scalar) (v : V) pk r (c : CiphertextWithValue E V) r' :
  CiphertextWithValue_new into v pk r = (c, r') ->
  encrypts pk (cwv_inner c) (generator * into v)%E (cwv_randomness c) /\ cwv_value c = v.
Proof.
  unfold CiphertextWithValue_new.
  destruct (ExtendedCiphertext_new (mul_generator (into v)) pk r) as [ext r1] eqn:H.
  intros Hc. injection Hc as <- <-. apply ext_new_encrypts in H as [H _].
  rewrite (mul_generator_ok E L) in H. split; [exact H | reflexivity].
Qed.

Lemma decrypt_cwv {V : Type} sk pk (into : V -> scalar) (v : V) r (c : CiphertextWithValue E V) r' :
  key_of sk pk -> CiphertextWithValue_new into v pk r = (c, r') ->
  decrypt_to_element sk (cwv_inner c) = (generator * into v)%E.
Proof.
  intros Hk H. apply cwv_new_encrypts in H as [H _]. eapply encrypts_decrypt; eassumption.
Qed.

(** ** C02 *)
Lemma times_phi n (a : element) : times n a = (a * phi L (Z.of_N n))%E.
Proof.
  unfold times. induction n as [|n IH] using N.peano_ind.
  - cbn. rewrite (phi_0 L). symmetry. apply (e_mul_0 L).
  - rewrite N.iter_succ, IH, N2Z.inj_succ. unfold Z.succ.
    rewrite (phi_add E L), (phi_1 L). el_ring L.
Qed.

Lemma times_of_u64 n (a : element) : (n < u64_lim)%N -> times n a = (a * s_of_u64 n)%E.
Proof. intros H. rewrite times_phi, (of_u64_phi E L) by exact H. reflexivity. Qed.

Lemma decrypt_hom sk (x : cexpr E) :
  u64_literals x -> decrypt_to_element sk (ct_eval x) = pt_eval (decrypt_to_element sk) x.
Proof.
  induction x as [c| |v|a IHa b IHb|a IHa b IHb|a IHa|a IHa k|a IHa k]; cbn [u64_literals ct_eval pt_eval];
    intros Hx.
  - reflexivity.
  - unfold decrypt_to_element; cbn. el_ring L.
  - unfold decrypt_to_element; cbn. el_ring L.
  - destruct Hx as [Ha Hb]. rewrite <- (IHa Ha), <- (IHb Hb). unfold decrypt_to_element; cbn. el_ring L.
  - destruct Hx as [Ha Hb]. rewrite <- (IHa Ha), <- (IHb Hb). unfold decrypt_to_element; cbn. el_ring L.
  - rewrite <- (IHa Hx). unfold decrypt_to_element; cbn. el_ring L.
  - rewrite <- (IHa Hx). unfold decrypt_to_element; cbn. el_ring L.
  - destruct Hx as [Hk Ha]. rewrite times_of_u64 by exact Hk. rewrite <- (IHa Ha).
    unfold decrypt_to_element; cbn. el_ring L.
Qed.

(** ** C03 *)
Hypothesis order_big : (Z.of_N u64_lim <= order L)%Z.

Lemma of_u64_inj x y : (x < u64_lim)%N -> (y < u64_lim)%N -> s_of_u64 (g:=E) x = s_of_u64 y -> x = y.
Proof.
  intros Hx Hy H. rewrite !(of_u64_phi E L) in H by assumption.
  apply (phi_inj_small L) in H; lia.
Qed.

Lemma of_u64_nonzero x : (x < u64_lim)%N -> x <> 0%N -> s_of_u64 (g:=E) x <> 0%S.
Proof.
  intros Hx Hn H. apply Hn. apply of_u64_inj; [exact Hx|reflexivity|].
  rewrite H. symmetry. apply (of_u64_0 L).
Qed.

Lemma vmg_nonzero x : (x < u64_lim)%N -> x <> 0%N -> @vartime_mul_generator E (s_of_u64 x) <> identity.
Proof.
  intros Hx Hn H. apply (of_u64_nonzero x Hx Hn). rewrite (vartime_mul_generator_ok E L) in H.
  apply (generator_order E L). exact H.
Qed.

Definition table_entry (e : element) (b : bytes) : Prop := serialize_element e = Ret b.

Lemma insert_all_spec values acc :
  (forall v, In v values -> (v < u64_lim)%N /\ v <> 0%N) ->
  (forall b v, In (b, v) acc -> (v < u64_lim)%N /\
     serialize_element (@vartime_mul_generator E (s_of_u64 v)) = Ret b) ->
  exists tbl, DiscreteLogTable_insert_all (E:=E) values acc = Ret tbl /\
    (forall b v, In (b, v) tbl -> (In v values \/ In v (map snd acc)) /\ (v < u64_lim)%N /\
       serialize_element (@vartime_mul_generator E (s_of_u64 v)) = Ret b) /\
    (forall v, In v values \/ In v (map snd acc) -> In v (map snd tbl)).
Proof.
  revert acc; induction values as [|v values IH]; intros acc Hv Hacc; cbn [DiscreteLogTable_insert_all].
  - exists acc. split; [reflexivity|]. split.
    + intros b v Hin. destruct (Hacc b v Hin) as [H1 H2]. repeat split; auto.
      right. change v with (snd (b, v)). apply in_map. exact Hin.
    + intros v [[]|H]; exact H.
  - destruct (Hv v (or_introl eq_refl)) as [Hv1 Hv2].
    destruct (ser_element_some E L _ (vmg_nonzero v Hv1 Hv2)) as [b Hb]. rewrite Hb. cbn [bind].
    destruct (IH ((b, v) :: acc)) as (tbl & Htbl & Hin & Hcov).
    + intros; apply Hv; right; assumption.
    + intros b' v' [H|H]; [injection H as <- <-; auto | apply Hacc; exact H].
    + exists tbl. split; [exact Htbl|]. split.
      * intros b' v' H. destruct (Hin b' v' H) as (H1 & H2 & H3). repeat split; auto.
        cbn in H1 |- *. tauto.
      * intros v' [[->|H]|H]; apply Hcov; cbn; auto.
Qed.

Lemma table_new_ok values :
  (forall v, In v values -> (v < u64_lim)%N) ->
  exists tbl, DiscreteLogTable_new (E:=E) values = Ret tbl /\
    (forall x, x = 0%N \/ In x values ->
       DiscreteLogTable_get (E:=E) tbl (generator * s_of_u64 x)%E = Ret (Some x)) /\
    (forall e : element, (forall x, x = 0%N \/ In x values -> e <> (generator * s_of_u64 x)%E) ->
       DiscreteLogTable_get (E:=E) tbl e = Ret None).
Proof.
  intros Hv. unfold DiscreteLogTable_new.
  destruct (insert_all_spec (filter (fun v => negb (N.eqb v 0)) values) [])
    as (tbl & Htbl & Hin & Hcov).
  { intros v Hf. apply filter_In in Hf as [H1 H2]. split; [apply Hv; exact H1|].
    intros ->. discriminate. }
  { intros b v []. }
  exists tbl. split; [exact Htbl|].
  assert (Hin' : forall b v, In (b, v) tbl -> In v values /\ v <> 0%N /\ (v < u64_lim)%N /\
       serialize_element (@vartime_mul_generator E (s_of_u64 v)) = Ret b).
  { intros b v H. destruct (Hin b v H) as ([H1|[]] & H2 & H3).
    apply filter_In in H1 as [H1 H1']. repeat split; auto. intros ->. discriminate. }
  split.
  - intros x Hx. unfold DiscreteLogTable_get. destruct (is_identity _) eqn:Hid.
    + apply (is_identity_ok E L) in Hid. apply (generator_order E L) in Hid.
      destruct (N.eq_dec x 0) as [->|Hx0]; [reflexivity|exfalso].
      destruct Hx as [Hx|Hx]; [contradiction|]. apply (of_u64_nonzero x (Hv x Hx) Hx0 Hid).
    + assert (Hx0 : x <> 0%N).
      { intros ->. assert (is_identity (@generator E * s_of_u64 0)%E = true); [|congruence].
        apply (is_identity_ok E L). rewrite (of_u64_0 L). apply (e_mul_0 L). }
      destruct Hx as [Hx|Hx]; [contradiction|].
      assert (Hne : (@generator E * s_of_u64 x)%E <> identity).
      { intros H. apply (is_identity_ok E L) in H. congruence. }
      destruct (ser_element_some E L _ Hne) as [b Hb]. rewrite Hb. cbn [bind]. f_equal.
      assert (Hmem : In x (map snd tbl)).
      { apply Hcov. left. apply filter_In. split; [exact Hx|].
        destruct (N.eqb_spec x 0); [contradiction|reflexivity]. }
      apply in_map_iff in Hmem as ([b' x'] & Hx' & Hmem). cbn in Hx'. subst x'.
      destruct (Hin' b' x Hmem) as (_ & _ & _ & Hb').
      rewrite (vartime_mul_generator_ok E L), Hb in Hb'. injection Hb' as ->.
      destruct (find (fun p => bytes_eqb (fst p) b') tbl) as [[b2 x2]|] eqn:Hf.
      * apply find_some in Hf as [Hf1 Hf2]. cbn in Hf2. apply bytes_eqb_ok in Hf2. subst b2.
        destruct (Hin' b' x2 Hf1) as (Hx2 & _ & Hlt & Hb2). cbn [snd].
        f_equal. apply of_u64_inj; [exact Hlt|apply Hv; exact Hx|].
        rewrite (vartime_mul_generator_ok E L) in Hb2.
        apply (gen_inj L). eapply (ser_element_inj L); eassumption.
      * exfalso. pose proof (find_none _ _ Hf _ Hmem) as H. cbn in H. rewrite bytes_eqb_refl in H. discriminate.
  - intros e He. unfold DiscreteLogTable_get. destruct (is_identity e) eqn:Hid.
    + exfalso. apply (is_identity_ok E L) in Hid. apply (He 0%N); [left; reflexivity|].
      rewrite Hid, (of_u64_0 L). symmetry. apply (e_mul_0 L).
    + assert (Hne : e <> identity).
      { intros H. apply (is_identity_ok E L) in H. congruence. }
      destruct (ser_element_some E L _ Hne) as [b Hb]. rewrite Hb. cbn [bind]. f_equal.
      destruct (find (fun p => bytes_eqb (fst p) b) tbl) as [[b2 x2]|] eqn:Hf; [exfalso|reflexivity].
      apply find_some in Hf as [Hf1 Hf2]. cbn in Hf2. apply bytes_eqb_ok in Hf2. subst b2.
      destruct (Hin' b x2 Hf1) as (Hx2 & _ & _ & Hb2).
      apply (He x2); [right; exact Hx2|]. rewrite (vartime_mul_generator_ok E L) in Hb2.
      eapply (ser_element_inj L); eassumption.
Qed.

Lemma decrypt_table sk pk values v r (c : Ciphertext E) r' :
  (forall x, In x values -> (x < u64_lim)%N) -> (v = 0%N \/ In v values) ->
  key_of sk pk -> encrypt pk (s_of_u64 v) r = (c, r') ->
  exists tbl, DiscreteLogTable_new (E:=E) values = Ret tbl /\ decrypt sk c tbl = Ret (Some v).
Proof.
  intros Hv Hin Hk Henc. destruct (table_new_ok values Hv) as (tbl & Htbl & Hget & _).
  exists tbl. split; [exact Htbl|]. unfold decrypt.
  rewrite (decrypt_encrypt _ _ _ _ _ _ Hk Henc). apply Hget. exact Hin.
Qed.

End Proofs.

Section Keys.
Context (E : Env) (L : GroupLaws E).
Local Notation scalar := (Scalar E).
Local Notation element := (Element E).
Add Field s_field_keys : (s_field L).

Lemma pk_from_element_ok (e : element) pk :
  PublicKey_from_element e = Ret pk -> pk_element pk = e /\ key_bytes_ok pk.
Proof.
  unfold PublicKey_from_element, key_bytes_ok. intros H. inv_bind H. injection H as <-. cbn. auto.
Qed.

Lemma pk_from_secret_ok (sk : scalar) pk :
  PublicKey_from_secret sk = Ret pk -> key_of sk pk /\ key_bytes_ok pk.
Proof.
  unfold PublicKey_from_secret, key_of. intros H. apply pk_from_element_ok in H as [H1 H2].
  rewrite (mul_generator_ok E L) in H1. auto.
Qed.

Lemma pk_eq (a b : PublicKey E) : pk_element a = pk_element b -> key_bytes_ok a -> key_bytes_ok b -> a = b.
Proof.
  unfold key_bytes_ok. destruct a as [ba ea], b as [bb eb]; cbn. intros <- Ha Hb.
  rewrite Ha in Hb. injection Hb as <-. reflexivity.
Qed.

Lemma reachable_keypair_ok (kp : Keypair E) :
  reachable_keypair kp -> key_of (kp_secret kp) (kp_public kp) /\ key_bytes_ok (kp_public kp).
Proof.
  induction 1 as [r kp r' H|sk kp H|kp k kp' _ [IH1 IH2] H].
  - unfold Keypair_generate in H. destruct (SecretKey_generate r) as [sk r1]. inv_bind H.
    injection H as <- <-. unfold Keypair_from_secret in Hm. inv_bind Hm. injection Hm as <-. cbn.
    apply pk_from_secret_ok. exact Hm0.
  - unfold Keypair_from_secret in H. inv_bind H. injection H as <-. cbn. apply pk_from_secret_ok. exact Hm.
  - unfold Keypair_mul in H. inv_bind H. injection H as <-. cbn. unfold PublicKey_mul in Hm.
    apply pk_from_element_ok in Hm as [H1 H2]. split; [|exact H2].
    unfold key_of in *. rewrite H1, IH1. unfold SecretKey_mul. el_ring L.
Qed.

Lemma pk_eval_sound (x : kexpr E) pk :
  pk_eval x = Ret pk -> key_of (sk_eval x) pk /\ key_bytes_ok pk.
Proof.
  revert pk; induction x as [sk|a IHa b IHb|a IHa k|a IHa k]; cbn; intros pk H.
  - apply pk_from_secret_ok. exact H.
  - inv_bind H. inv_bind H. destruct (IHa _ Hm) as [Ha _]. destruct (IHb _ Hm0) as [Hb _].
    unfold PublicKey_add in H. apply pk_from_element_ok in H as [H1 H2]. split; [|exact H2].
    unfold key_of in *. rewrite H1, Ha, Hb. unfold SecretKey_add. el_ring L.
  - inv_bind H. destruct (IHa _ Hm) as [Ha _].
    unfold PublicKey_mul in H. apply pk_from_element_ok in H as [H1 H2]. split; [|exact H2].
    unfold key_of in *. rewrite H1, Ha. unfold SecretKey_mul. el_ring L.
  - inv_bind H. destruct (IHa _ Hm) as [Ha _].
    unfold PublicKey_mul_u64, PublicKey_mul in H. apply pk_from_element_ok in H as [H1 H2].
    split; [|exact H2]. unfold key_of in *. rewrite H1, Ha. unfold SecretKey_mul. el_ring L.
Qed.

Lemma key_of_from_secret (sk : scalar) pk :
  key_of sk pk -> key_bytes_ok pk -> PublicKey_from_secret sk = Ret pk.
Proof.
  unfold key_of, key_bytes_ok, PublicKey_from_secret, PublicKey_from_element. intros H1 H2.
  rewrite (mul_generator_ok E L), <- H1, H2. cbn. destruct pk; reflexivity.
Qed.

Lemma pk_eval_from_secret (x : kexpr E) pk :
  pk_eval x = Ret pk -> PublicKey_from_secret (sk_eval x) = Ret pk.
Proof. intros H. apply pk_eval_sound in H as [H1 H2]. apply key_of_from_secret; assumption. Qed.

Lemma pk_eval_total (x : kexpr E) :
  ser_total E -> exists pk, pk_eval x = Ret pk.
Proof.
  intros Ht. induction x as [sk|a [pa IHa] b [pb IHb]|a [pa IHa] k|a [pa IHa] k]; cbn;
    rewrite ?IHa, ?IHb; cbn;
    unfold PublicKey_from_secret, PublicKey_add, PublicKey_mul_u64, PublicKey_mul, PublicKey_from_element;
    match goal with |- exists _, bind (serialize_element ?e) _ = _ =>
      destruct (ser_total_some L Ht e) as [by_ Hb]; rewrite Hb; cbn; eauto end.
Qed.

(** C05 *)
Lemma from_bytes_wrong_size (b : bytes) :
  PublicKey_from_bytes (E:=E) b = Err InvalidByteSize <-> length b <> ELEMENT_SIZE E.
Proof.
  unfold PublicKey_from_bytes. destruct (Nat.eqb_spec (length b) (ELEMENT_SIZE E)); cbn [negb].
  - destruct (deserialize_element b); [destruct (is_identity e0)|]; split; try discriminate; congruence.
  - split; auto.
Qed.

Lemma from_bytes_invalid (b : bytes) :
  PublicKey_from_bytes (E:=E) b = Err InvalidGroupElement <->
  length b = ELEMENT_SIZE E /\ deserialize_element (g:=E) b = None.
Proof.
  unfold PublicKey_from_bytes. destruct (Nat.eqb_spec (length b) (ELEMENT_SIZE E)); cbn [negb].
  - destruct (deserialize_element b); [destruct (is_identity e0)|]; split; try discriminate; intuition congruence.
  - split; [discriminate | intuition].
Qed.

Lemma from_bytes_identity (b : bytes) :
  PublicKey_from_bytes (E:=E) b = Err IdentityKey <->
  length b = ELEMENT_SIZE E /\ deserialize_element (g:=E) b = Some identity.
Proof.
  unfold PublicKey_from_bytes. destruct (Nat.eqb_spec (length b) (ELEMENT_SIZE E)); cbn [negb].
  - destruct (deserialize_element b) as [e0|]; [destruct (is_identity e0) eqn:Hid|].
    + apply (is_identity_ok E L) in Hid. subst. intuition.
    + split; [discriminate|]. intros [_ H]. injection H as ->.
      assert (is_identity (@identity E) = true) by (apply (is_identity_ok E L); reflexivity). congruence.
    + split; [discriminate | intuition discriminate].
  - split; [discriminate | intuition].
Qed.

Lemma from_bytes_ok (b : bytes) pk :
  PublicKey_from_bytes (E:=E) b = Ok pk <->
  length b = ELEMENT_SIZE E /\ deserialize_element b = Some (pk_element pk) /\
  pk_element pk <> identity /\ pk_bytes pk = b.
Proof.
  unfold PublicKey_from_bytes. destruct (Nat.eqb_spec (length b) (ELEMENT_SIZE E)); cbn [negb].
  - destruct (deserialize_element b) as [e0|]; [destruct (is_identity e0) eqn:Hid|].
    + apply (is_identity_ok E L) in Hid. subst. split; [discriminate|].
      intros (_ & H & H' & _). injection H as H. congruence.
    + split.
      * intros H. injection H as <-. cbn. repeat split; auto. intros ->.
        assert (is_identity (@identity E) = true) by (apply (is_identity_ok E L); reflexivity). congruence.
      * intros (_ & H & _ & H'). injection H as ->. destruct pk; cbn in *. subst. reflexivity.
    + split; [discriminate | intuition discriminate].
  - split; [discriminate | intuition].
Qed.

Lemma from_bytes_roundtrip (pk : PublicKey E) :
  key_bytes_ok pk -> pk_element pk <> identity -> PublicKey_from_bytes (pk_bytes pk) = Ok pk.
Proof.
  intros Hb Hne. apply from_bytes_ok. unfold key_bytes_ok in Hb.
  apply (ser_element_ok E L) in Hb as [H1 H2]. auto.
Qed.

(** keys parsed by a canonical decoder carry canonical bytes *)
Lemma from_bytes_canonical (b : bytes) (pk : PublicKey E) :
  deser_canonical E -> PublicKey_from_bytes b = Ok pk -> key_bytes_ok pk.
Proof.
  intros Hc H. apply from_bytes_ok in H as (H1 & H2 & _ & H4). unfold key_bytes_ok.
  rewrite H4. apply Hc; assumption.
Qed.

End Keys.
