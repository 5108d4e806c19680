(** * C76: what printing a value with [{:?}] reveals

    For the types that hold keys, shares and encryption randomness the printed values are listed exactly, and the list is
    computed from public data: secret scalars never appear.  This fails for three types: a ciphertext with its value
    prints the value, a participant in the first stage of the key generation prints what its commitment hides, and a
    ring proof under construction prints a list of responses from which the encrypted value can be read off. *)
From Coq Require Import List NArith ZArith Arith String Ascii Bool Lia.
From Verif.Properties Require Import Keys LogEquality Uniform Sharing.
From Verif.Model Require Import Base Group Transcript Keys Encryption LogEquality Possession Ring Sharing Dkg Serde Debug.
From Verif.Spec Require Import Encryption Sharing Uniform.
From Verif.Proofs Require Import Lists Algebra Encryption Sharing Dkg Uniform UniformRing.
From Verif.Instance Require Import Primality Zq.
Import ListNotations.
Open Scope string_scope.
Open Scope list_scope.
Open Scope nat_scope.

Section Shown.
Context {E : Env}.

(** a group element printed as a key: the encoding in base64 *)
Definition shown_as_key (e : Element E) (l : leaf E) : Prop :=
  exists b, serialize_element e = Ret b /\ l = LString (base64_encode b).

Definition shown_nat (n : nat) : leaf E := LNumber (N.of_nat n).
Definition shown_params (p : Params) : list (leaf E) := [shown_nat (pa_shares p); shown_nat (pa_threshold p)].
Definition shown_proof (p : ProofOfPossession E) : list (leaf E) :=
  LScalar (pop_challenge p) :: map LScalar (pop_responses p).
Definition shown_ciphertext (c : Ciphertext E) : list (leaf E) := [LElement (random_element c); LElement (blinded_element c)].

Lemma flat_map_leaf {A : Type} (f : A -> leaf E) l : flat_map leaves (map (fun x => DLeaf (f x)) l) = map f l.
Proof. induction l; cbn; congruence. Qed.

Lemma flat_map_keys l : flat_map leaves (map (debug_PublicKey (E:=E)) l) = map (fun k => LString (base64_encode (pk_bytes k))) l.
Proof. induction l; cbn; congruence. Qed.

Lemma flat_map_pairs l : flat_map leaves (map (debug_Keypair (E:=E)) l) = map (fun k => LString (base64_encode (pk_bytes (kp_public k)))) l.
Proof. induction l; cbn; congruence. Qed.

Lemma pop_leaves (p : ProofOfPossession E) : leaves (debug_ProofOfPossession p) = shown_proof p.
Proof. cbn. rewrite flat_map_leaf, app_nil_r. reflexivity. Qed.

Lemma dealer_leaves (d : Dealer E) : leaves (debug_Dealer d) =
  shown_params (de_params d) ++ map (fun k => LString (base64_encode (pk_bytes (kp_public k)))) (de_polynomial d) ++ shown_proof (de_pop d).
Proof.
  unfold debug_Dealer. cbn [leaves flat_map snd]. rewrite flat_map_pairs, pop_leaves, app_nil_r. reflexivity.
Qed.

Lemma secret_key_leaves (L : GroupLaws E) (sk : SecretKey E) d : debug_SecretKey sk = Ret d ->
  exists l, leaves d = [l] /\ shown_as_key (generator * sk)%E l.
Proof.
  unfold debug_SecretKey. intros H. inv_bind H. injection H as <-.
  destruct (pk_from_secret_ok E L _ _ Hm) as [K1 K2]. exists (LString (base64_encode (pk_bytes a))). split; [reflexivity|].
  exists (pk_bytes a). split; [|reflexivity]. unfold key_of in K1. rewrite <- K1. exact K2.
Qed.

End Shown.

(** ** Keys *)
Theorem C76_keys :
  forall (E : Env) (L : GroupLaws E),
    (** a secret key is printed as its public key *)
    (forall (sk : SecretKey E) d, debug_SecretKey sk = Ret d ->
       exists l, leaves d = [l] /\ shown_as_key (generator * sk)%E l) /\
    (** so is a key pair *)
    (forall (r : Rng E) kp r', Keypair_generate r = Ret (kp, r') ->
       exists l, leaves (debug_Keypair kp) = [l] /\ shown_as_key (pk_element (kp_public kp)) l).
Proof.
  intros E L. split; [exact (secret_key_leaves L)|].
  intros r kp r' H. unfold Keypair_generate, SecretKey_generate in H. destruct (generate_scalar r) as [sk r1].
  inv_bind H. injection H as -> _. unfold Keypair_from_secret in Hm. inv_bind Hm. injection Hm as <-.
  destruct (pk_from_secret_ok E L _ _ Hm0) as [K1 K2]. eexists. split; [reflexivity|]. exists (pk_bytes a). split; [exact K2|reflexivity].
Qed.
Print Assumptions C76_keys.

(** printing never panics if all elements have an encoding, and for other back ends it does for the key zero *)
Theorem C76_panics :
  forall (E : Env) (L : GroupLaws E) (sk : SecretKey E),
    (ser_total E -> exists d, debug_SecretKey sk = Ret d) /\
    (forall k, debug_SecretKey sk = Panic k <-> serialize_element (generator * sk)%E = Panic k).
Proof.
  intros E L sk. unfold debug_SecretKey, PublicKey_from_secret, PublicKey_from_element. rewrite (mul_generator_ok E L). split.
  - intros Ht. destruct (ser_total_some L Ht (generator * sk)%E) as [b Hb]. rewrite Hb. cbn. eauto.
  - intros k. destruct (serialize_element (generator * sk)%E); cbn; split; congruence.
Qed.
Print Assumptions C76_panics.

(** ** Encryption with retained randomness: nothing but the ciphertext *)
Theorem C76_extended_ciphertext :
  forall (E : Env) (L : GroupLaws E) (v : Element E) (pk : PublicKey E) r c r' d,
    ExtendedCiphertext_new v pk r = (c, r') -> debug_ExtendedCiphertext c = Ret d ->
    exists l, leaves d = shown_ciphertext (ext_inner c) ++ [l] /\ shown_as_key (random_element (ext_inner c)) l.
Proof.
  intros E L v pk r c r' d Hc Hd. unfold ExtendedCiphertext_new, SecretKey_generate in Hc. destruct (generate_scalar r) as [x r1].
  injection Hc as <- _. unfold debug_ExtendedCiphertext in Hd. cbn [ext_random_scalar ext_inner] in Hd. inv_bind Hd. injection Hd as <-.
  destruct (secret_key_leaves L _ _ Hm) as (l & Hl & Hs). exists l. cbn [leaves flat_map snd]. rewrite Hl.
  split; [reflexivity|]. cbn [ext_inner random_element]. rewrite (mul_generator_ok E L). exact Hs.
Qed.
Print Assumptions C76_extended_ciphertext.

(** ** A ciphertext with its value: the value is printed *)
Theorem C76_ciphertext_with_value_refuted :
  forall (E : Env) (L : GroupLaws E) (v : N) (pk : PublicKey E) r c r' d,
    CiphertextWithValue_new s_of_u64 v pk r = (c, r') -> debug_CiphertextWithValue (fun n => DLeaf (LNumber n)) c = Ret d ->
    exists l, leaves d = shown_ciphertext (ext_inner (cwv_ext c)) ++ [l; LNumber v].
Proof.
  intros E L v pk r c r' d Hc Hd. unfold CiphertextWithValue_new in Hc.
  destruct (ExtendedCiphertext_new (mul_generator (s_of_u64 v)) pk r) as [e r1] eqn:He. injection Hc as <- _.
  unfold debug_CiphertextWithValue in Hd. cbn [cwv_ext cwv_value] in Hd. inv_bind Hd. injection Hd as <-.
  destruct (C76_extended_ciphertext E L _ _ _ _ _ _ He Hm) as (l & Hl & _). exists l.
  cbn [leaves flat_map snd cwv_ext]. rewrite Hl. reflexivity.
Qed.
Print Assumptions C76_ciphertext_with_value_refuted.

(** ** Dealers and participants: the parameters, the public polynomial or key set, and the proof *)
Theorem C76_dealer :
  forall (E : Env) (L : GroupLaws E) (params : Params) r (d : Dealer E) r', Dealer_new params r = Ret (d, r') ->
    exists ls, leaves (debug_Dealer d) = shown_params params ++ ls ++ shown_proof (snd (Dealer_public_info d)) /\
      Forall2 shown_as_key (fst (Dealer_public_info d)) ls.
Proof.
  intros E L params r d r' H. rewrite dealer_leaves. unfold Dealer_new in H. inv_bind H. destruct a as [kps r1].
  inv_bind H. destruct a as [[pop tf] r2]. injection H as <- _. cbn [de_params de_polynomial de_pop Dealer_public_info fst snd].
  destruct (generate_keypairs_ok E L _ _ _ _ Hm) as [_ Hk]. eexists. split; [reflexivity|].
  clear -Hk. induction kps as [|kp kps IH]; cbn [map]; constructor.
  - exists (pk_bytes (kp_public kp)). split; [|reflexivity]. apply (Hk kp). left; reflexivity.
  - apply IH. intros kp' Hin. apply Hk. right; exact Hin.
Qed.
Print Assumptions C76_dealer.

Theorem C76_active_participant :
  forall (E : Env) (L : GroupLaws E) (ks : PublicKeySet E) i share p d,
    ActiveParticipant_new ks i share = Ret (Ok p) -> debug_ActiveParticipant p = Ret d ->
    exists l key, nth_error (ks_participant_keys ks) i = Some key /\ shown_as_key (pk_element key) l /\
      leaves d = shown_params (ks_params ks) ++ map (fun k => LString (base64_encode (pk_bytes k))) (ks_shared_key ks :: ks_participant_keys ks)
                 ++ [shown_nat i; l].
Proof.
  intros E L ks i share p d Hp Hd. apply (participant_new_iff E L) in Hp. destruct Hp as (-> & key & Hk & He).
  unfold debug_ActiveParticipant in Hd. cbn [ap_secret_share ap_key_set ap_index] in Hd. inv_bind Hd. injection Hd as <-.
  destruct (secret_key_leaves L _ _ Hm) as (l & Hl & Hs). exists l, key. split; [exact Hk|]. split; [rewrite He; exact Hs|].
  cbn [leaves flat_map snd]. rewrite Hl. unfold debug_PublicKeySet. cbn [leaves flat_map snd]. rewrite flat_map_keys.
  cbn. rewrite app_nil_r, <- ?app_assoc. reflexivity.
Qed.
Print Assumptions C76_active_participant.

(** ** Distributed key generation *)

(** In the third stage everything has been published, up to the public counterpart of the accumulated share. *)
Theorem C76_third_stage :
  forall (E : Env) (L : GroupLaws E) (p : ParticipantExchangingSecrets E) params r r' d,
    Dealer_new params r = Ret (pes_dealer p, r') -> debug_PES p = Ret d ->
    exists ls l,
      Forall2 shown_as_key (fst (Dealer_public_info (pes_dealer p))) ls /\
      shown_as_key (generator * pes_accumulated_share p)%E l /\
      leaves d = shown_params (pes_params p) ++ [shown_nat (pes_index p)]
                 ++ (shown_params params ++ ls ++ shown_proof (snd (Dealer_public_info (pes_dealer p))))
                 ++ map LElement (List.concat (pes_public_polynomials p)) ++ [l] ++ map LBool (pes_shares_received p).
Proof.
  intros E L p params r r' d Hn Hd. destruct (C76_dealer E L _ _ _ _ Hn) as (ls & Hls & Hf).
  unfold debug_PES in Hd. inv_bind Hd. injection Hd as <-. destruct (secret_key_leaves L _ _ Hm) as (l & Hl & Hs).
  exists ls, l. split; [exact Hf|]. split; [exact Hs|]. cbn [leaves flat_map snd]. rewrite Hls, Hl, flat_map_leaf.
  assert (Hp : flat_map leaves (map (debug_PublicPolynomial (E:=E)) (pes_public_polynomials p)) = map LElement (List.concat (pes_public_polynomials p))).
  { induction (pes_public_polynomials p) as [|x xs IH]; [reflexivity|]. cbn [map flat_map List.concat]. rewrite map_app, IH. f_equal.
    cbn. rewrite flat_map_leaf, app_nil_r. rewrite ?app_nil_r. reflexivity. }
  rewrite Hp. cbn. rewrite ?app_nil_r. reflexivity.
Qed.
Print Assumptions C76_third_stage.

(** In the second stage, the opening is published as well ([PCP_public_info]); everything else was received. *)
Theorem C76_second_stage :
  forall (E : Env) (L : GroupLaws E) (p : ParticipantCollectingPolynomials E) params r r',
    Dealer_new params r = Ret (pcp_dealer p, r') ->
    exists ls,
      Forall2 shown_as_key (pi_polynomial (PCP_public_info p)) ls /\
      leaves (debug_PCP p) =
        shown_params (pcp_params p) ++ [shown_nat (pcp_index p)] ++ (shown_params params ++ ls ++ shown_proof (pi_pop (PCP_public_info p)))
        ++ map (fun x => LNumber (bn x)) (pi_opening (PCP_public_info p))
        ++ map (fun x => LNumber (bn x)) (List.concat (pcp_commitments p))
        ++ map LElement (List.concat (map (fun o => match o with Some poly => poly | None => [] end) (pcp_public_polynomials p))).
Proof.
  intros E L p params r r' Hn. destruct (C76_dealer E L _ _ _ _ Hn) as (ls & Hls & Hf). exists ls. split; [exact Hf|].
  unfold debug_PCP, debug_Opening. cbn [leaves flat_map snd]. rewrite Hls.
  assert (Hc : flat_map leaves (map (dbytes (G:=E)) (pcp_commitments p)) =
    map (fun x => LNumber (bn x)) (List.concat (pcp_commitments p))).
  { induction (pcp_commitments p) as [|x xs IH]; [reflexivity|]. cbn [map flat_map List.concat]. unfold dbytes at 1. cbn [leaves]. rewrite map_app, IH, flat_map_leaf. reflexivity. }
  assert (Hp : flat_map leaves (map (doption (debug_PublicPolynomial (E:=E))) (pcp_public_polynomials p)) =
    map LElement (List.concat (map (fun o => match o with Some poly => poly | None => [] end) (pcp_public_polynomials p)))).
  { induction (pcp_public_polynomials p) as [|x xs IH]; [reflexivity|]. cbn [map flat_map List.concat]. rewrite map_app, IH. f_equal.
    destruct x as [poly|]; [|reflexivity]. cbn. rewrite flat_map_leaf, ?app_nil_r. reflexivity. }
  rewrite Hc, Hp. unfold dbytes. cbn [leaves flat_map]. rewrite flat_map_leaf. cbn. rewrite ?app_nil_r. reflexivity.
Qed.
Print Assumptions C76_second_stage.

(** In the first stage the others must not learn the constant term yet (C74), but it is printed, with the opening. *)
Theorem C76_first_stage_refuted :
  forall (E : Env) (L : GroupLaws E) (params : Params) i r (p : ParticipantCollectingCommitments E) r',
    PCC_new params i r = Ret (p, r') ->
    exists key b c before after,
      nth_error (fst (Dealer_public_info (pcc_dealer p))) 0 = Some key /\ serialize_element key = Ret b /\
      PCC_commitment p = Ret c /\ c = @sha256 E (b ++ pcc_opening p) /\
      leaves (debug_PCC p) = shown_params params ++ [shown_nat i] ++ shown_params params
                             ++ LString (base64_encode b) :: before ++ map LNumber (map bn (pcc_opening p)) ++ after.
Proof.
  intros E L params i r p r' H. unfold PCC_new in H. inv_bind H. inv_bind H. destruct a0 as [dl r1].
  destruct (fill_bytes 32 r1) as [opening r2]. inv_bind H. inv_bind H. inv_bind H. injection H as <- _.
  cbn [pcc_dealer pcc_opening].
  destruct (C76_dealer E L _ _ _ _ Hm0) as (ls & Hls & Hf).
  unfold index in Hm1. destruct (nth_error (fst (Dealer_public_info dl)) 0) as [key|] eqn:Hkey; [|discriminate].
  injection Hm1 as ->. unfold create_commitment in Hm2. inv_bind Hm2. injection Hm2 as <-.
  destruct (fst (Dealer_public_info dl)) as [|e0 es] eqn:Hpoly; [discriminate|]. cbn in Hkey. injection Hkey as ->.
  inversion Hf as [|? l0 ? ls' [b [Hb ->]] Hf' ]; subst. rewrite Hm1 in Hb. injection Hb as ->.
  exists a0, b, (@sha256 E (b ++ opening)), (ls' ++ shown_proof (snd (Dealer_public_info dl)) ++ flat_map leaves (map (doption dbytes) a2)), []. split; [reflexivity|]. split; [exact Hm1|]. split.
  { unfold PCC_commitment. cbn [pcc_commitments pcc_index]. unfold index_set in Hm3.
    destruct (i <? List.length (repeat None (pa_shares params))) eqn:Hi; [|discriminate]. injection Hm3 as <-.
    unfold index. apply Nat.ltb_lt in Hi. rewrite nth_error_list_set, Nat.eqb_refl by exact Hi. reflexivity. }
  split; [reflexivity|]. unfold debug_PCC. cbn [leaves flat_map snd pcc_params pcc_index pcc_dealer pcc_commitments pcc_opening].
  rewrite Hls. unfold debug_Opening, dbytes. cbn [leaves flat_map]. rewrite flat_map_leaf, !app_nil_r, map_map.
  change (leaves (debug_Params params)) with (shown_params (E:=E) params). cbn [leaves dnat app]. rewrite <- ?app_assoc. cbn [app]. rewrite <- ?app_assoc. reflexivity.
Qed.
Print Assumptions C76_first_stage_refuted.

(** ** Ring proofs under construction: the responses after the encrypted value are random, the others are still zero *)
Theorem C76_ring_refuted :
  forall (E : Env) (L : GroupLaws E), ser_total E ->
  forall (K : PublicKey E) t r vs vi ext b xs r', vi < List.length vs ->
    RingProofBuilder_add_value (RingProofBuilder_new K (repeat s_default (List.length vs)) t r) vs vi = Ret (ext, b) ->
    draws (List.length vs - vi + 1) r = (xs, r') ->
    exists g, rb_rings b = [g] /\
      exists before after,
        leaves (debug_Ring g) = shown_nat 0 :: map LElement vs ++ shown_ciphertext (ext_inner ext) ++ before ++ after /\
        before = map LScalar (repeat s_default (S vi) ++ skipn 2 xs) /\ List.length after = 2.
Proof.
  intros E L Ht K t r vs vi ext b xs r' Hvi H Hd. unfold RingProofBuilder_add_value, RingProofBuilder_new in H.
  cbn [rb_receiver rb_transcript rb_rings rb_rest rb_rng] in H. inv_bind H.
  unfold index in Hm. destruct (nth_error vs vi) as [A|] eqn:HA; [|discriminate]. injection Hm as ->.
  replace (List.length vs - vi + 1) with (S (List.length vs - vi)) in Hd by lia. cbn [draws] in Hd.
  unfold ExtendedCiphertext_new, SecretKey_generate in H. destruct (generate_scalar r) as [x r1].
  destruct (draws (List.length vs - vi) r1) as [ks r2] eqn:Hks. injection Hd as <- <-.
  inv_bind H. injection H as <- <-.
  rewrite (add_precomputed_eq E L Ht K _ _ _ _ _ vs vi a ks r2 HA) in Hm;
    [|split; cbn [ext_inner ext_random_scalar random_element blinded_element]; [apply (mul_generator_ok E L)|reflexivity]
     |rewrite repeat_length; lia|exact Hks].
  injection Hm as <-. cbn [rb_rings app]. eexists. split; [reflexivity|].
  eexists _, _. split; [|split; [reflexivity|]]; cycle 1.
  { instantiate (1 := [LElement _; LElement _]). reflexivity. }
  unfold debug_Ring, rmk. cbn [leaves flat_map snd rg_index rg_admissible rg_ciphertext rg_responses rg_terminal ext_inner].
  unfold delements, dscalars. cbn [leaves]. rewrite !flat_map_leaf.
  rewrite (firstn_all2 (n := List.length vs)) by (rewrite repeat_length; lia).
  replace (firstn (S vi) (repeat 0%S (List.length vs))) with (repeat (0%S : Scalar E) (S vi)).
  - cbn [skipn]. cbn. reflexivity.
  - replace (List.length vs) with (S vi + (List.length vs - S vi)) at 1 by lia. rewrite repeat_app, firstn_app, repeat_length, Nat.sub_diag.
    rewrite firstn_all2 by (rewrite repeat_length; lia). cbn [firstn]. rewrite app_nil_r. reflexivity.
Qed.
Print Assumptions C76_ring_refuted.

(** The builder prints all of its rings, and the random number generator in whatever way that prints itself. *)
Theorem C76_builder :
  forall (E : Env) (debug_rng : Rng E -> doc E) (b : RingProofBuilder E (Rng E)),
    leaves (debug_RingProofBuilder debug_rng b) =
      LString (base64_encode (pk_bytes (rb_receiver b))) :: List.concat (map (fun g => leaves (debug_Ring g)) (rb_rings b)) ++ leaves (debug_rng (rb_rng b)).
Proof.
  intros E dr b. unfold debug_RingProofBuilder. cbn [leaves flat_map snd app]. rewrite app_nil_r, flat_map_concat_map, map_map.
  unfold debug_PublicKey. reflexivity.
Qed.
Print Assumptions C76_builder.

(** ** Examples *)

(** A printed dealer: 2 numbers, 3 keys, a challenge and 3 responses; a key of 9 bytes is printed as 12 characters. *)
Definition leaf_kind {G : Group} (l : leaf G) : nat * nat :=
  match l with
  | LNumber n => (0, N.to_nat n) | LBool b => (1, if b then 1 else 0) | LString s => (2, List.length s)
  | LScalar _ => (3, 0) | LElement _ => (4, 0)
  end.
Example C76_example_dealer :
  match Dealer_new (E:=RE) ex_params 4%Z with
  | Ret (d, _) => map leaf_kind (leaves (debug_Dealer d)) = [(0, 5); (0, 3); (2, 12); (2, 12); (2, 12); (3, 0); (3, 0); (3, 0); (3, 0)]
  | Panic _ => False
  end.
Proof. vm_compute. reflexivity. Qed.

(** An encrypted vote whose value is printed *)
Example C76_example_value :
  match debug_CiphertextWithValue (E:=RE) (fun n => DLeaf (LNumber n)) (fst (CiphertextWithValue_new (E:=RE) s_of_u64 7%N ex_key 4%Z)) with
  | Ret d => map leaf_kind (leaves d) = [(4, 0); (4, 0); (2, 12); (0, 7)]
  | Panic _ => False
  end.
Proof. vm_compute. reflexivity. Qed.

(** Which of four values is being encrypted can be told from the number of zeros. *)
Example C76_example_ring :
  map (fun vi =>
    match RingProofBuilder_add_value (RingProofBuilder_new (E:=RE) ex_key (repeat s_default 4) (transcript_new "test") 4%Z)
            [re 0; re 1; re 2; re 3] vi with
    | Ret (_, b) => map (fun g => List.length (filter (fun l => match l with LScalar x => s_eqb x s_default | _ => false end)
                                              (leaves (debug_Ring (E:=RE) g)))) (rb_rings b)
    | Panic _ => []
    end) [0; 1; 2; 3] = [[1]; [2]; [3]; [4]].
Proof. vm_compute. reflexivity. Qed.

Example C76_example_first_stage :
  match PCC_new (E:=RE) ex_params 1 4%Z with
  | Ret (p, _) => List.length (pcc_opening p) = 32 /\ List.length (leaves (debug_PCC p)) = 2 + 1 + 9 + 32 + 32
  | Panic _ => False
  end.
Proof. vm_compute. split; reflexivity. Qed.
