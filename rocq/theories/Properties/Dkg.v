(** * C36-C40: distributed key generation *)
From Coq Require Import List NArith ZArith String Lia Arith Permutation Field.
From Verif.Model Require Import Base Group Transcript Keys Encryption LogEquality Possession Sharing Dkg.
From Verif.Spec Require Import Encryption LogEquality Possession Sharing Dkg.
From Verif.Proofs Require Import Lists Algebra Encryption LogEquality Possession Poly Sharing Dkg DkgHonest.
From Verif.Instance Require Import Primality Zq.
Import ListNotations.
Open Scope string_scope.
Open Scope list_scope.
Open Scope nat_scope.

(** ** C36: honest participants agree *)

Lemma app_inj_len {A : Type} (a b c d : list A) : List.length a = List.length b -> a ++ c = b ++ d -> a = b /\ c = d.
Proof.
  revert b; induction a as [|x a IH]; intros [|y b] Hl H; cbn in Hl; try discriminate; [auto|].
  cbn in H. injection H as -> H. destruct (IH b ltac:(lia) H) as [-> ->]. auto.
Qed.

Section FieldFacts.
Context (E : Env) (L : GroupLaws E).
Add Field s_field_dkgp : (s_field L).
Lemma peval_0 (a0 : Scalar E) a : peval (a0 :: a) 0%S = a0.
Proof. cbn. ring. Qed.
Lemma sum_swap (a x y z : Scalar E) : (a + x = z + y)%S -> (a = y <-> x = z).
Proof.
  intros Hx. split; intros ->.
  - transitivity (y + x - y)%S; [ring|]. rewrite Hx. ring.
  - transitivity (a + z - z)%S; [ring|]. rewrite Hx. ring.
Qed.
End FieldFacts.

Lemma mapM_ser_ok {E : Env} {A : Type} (f : A -> Element E) l :
  (forall x, In x l -> ser_ok E (f x)) -> exists ks, mapM (fun x => PublicKey_from_element (f x)) l = Ret ks.
Proof.
  induction l as [|x l IH]; intros H; [exists []; reflexivity|].
  destruct (H x (or_introl eq_refl)) as [b Hb]. destruct IH as [ks Hks]; [intros y Hy; apply H; right; exact Hy|].
  cbn [mapM]. unfold PublicKey_from_element at 1. rewrite Hb. cbn [bind]. rewrite Hks. cbn [bind]. eauto.
Qed.

Lemma e_sum_exp (E : Env) (L : GroupLaws E) (f : nat -> Scalar E) l :
  (generator * s_sum (map f l))%E = fold_right e_add identity (map (fun j => generator * f j)%E l).
Proof.
  induction l as [|j l IH]; cbn [map fold_right].
  - cbn. apply (e_mul_0 L).
  - rewrite s_sum_cons, (e_mul_add E L), IH. reflexivity.
Qed.

(** [ps i] is the initial state of participant [i]. In every phase, participant [i] gets the messages of all
    others, in an order of its own. The exchanged messages are exactly what the API methods of the senders
    return: [PCC_commitment], [PCP_public_info], [PES_secret_share_for_participant]. *)
Definition honest_agreement {E : Env} (params : Params) (ps : nat -> ParticipantCollectingCommitments E) : Prop :=
  let n := pa_shares params in
  exists (com : nat -> bytes) (qs : nat -> ParticipantCollectingPolynomials E)
         (es : nat -> ParticipantExchangingSecrets E) (sh : nat -> nat -> SecretKey E)
         (ks : PublicKeySet E) (share : nat -> SecretKey E),
    (* first phase *)
    (forall i, i < n -> PCC_commitment (ps i) = Ret (com i)) /\
    (forall i order, delivery_order n i order ->
       exists p', deliver_commitments (ps i) (map (fun j => (j, com j)) order) = Ret p' /\
         PCC_missing_commitments p' = [] /\ PCC_finish_commitment_phase p' = Ret (qs i)) /\
    (* second phase *)
    (forall i order, delivery_order n i order ->
       exists q', deliver_polynomials (qs i) (map (fun j => (j, PCP_public_info (qs j))) order) = Ret (Ok q') /\
         PCP_missing_public_polynomials q' = [] /\ PCP_finish_polynomials_phase q' = Ret (es i)) /\
    (* third phase *)
    (forall j i, j < n -> i < n -> PES_secret_share_for_participant (es j) i = Ret (sh j i)) /\
    (forall i order, delivery_order n i order ->
       exists e', deliver_shares (es i) (map (fun j => (j, sh j i)) order) = Ret (Ok e') /\
         PES_missing_shares e' = [] /\
         PES_complete e' = Ret (Ok {| ap_key_set := ks; ap_index := i; ap_secret_share := share i |})) /\
    (* the key set *)
    ks_params ks = params /\ List.length (ks_participant_keys ks) = n /\
    pk_element (ks_shared_key ks)
      = fold_right e_add identity (map (fun j => hd identity (pi_polynomial (PCP_public_info (qs j)))) (seq 0 n)) /\
    (forall i, i < n -> share i = fold_right s_add 0%S (map (fun j => sh j i) (seq 0 n))) /\
    (forall i key, nth_error (ks_participant_keys ks) i = Some key -> pk_element key = (generator * share i)%E).

Lemma honest_agreement_ok (E : Env) (L : GroupLaws E) : (2 ^ 64 <= order L)%Z ->
  forall (params : Params) (ps : nat -> ParticipantCollectingCommitments E), params_ok params ->
  (forall i, i < pa_shares params -> exists r r', PCC_new params i r = Ret (ps i, r')) ->
  (forall i j, i < pa_shares params -> j < pa_shares params ->
     ser_ok E (generator * peval (h_poly E ps j) (node i))%E) ->
  (forall i, i < pa_shares params -> ser_ok E (generator * peval (h_total E L params ps) (node i))%E) ->
  ser_ok E (generator * peval (h_total E L params ps) 0%S)%E ->
  honest_agreement params ps.
Proof.
  intros Hbig params ps Hp Hps Hs1 Hs2 [b0 Hb0].
  destruct (mapM_ser_ok (fun i => generator * peval (h_total E L params ps) (node i))%E (seq 0 (pa_shares params))) as [keys Hkeys].
  { intros i Hi. apply in_seq in Hi. apply Hs2. lia. }
  pose (shared := {| pk_bytes := b0; pk_element := (generator * peval (h_total E L params ps) 0%S)%E |}).
  assert (Hshared : PublicKey_from_element (generator * peval (h_total E L params ps) 0%S)%E = Ret shared).
  { unfold PublicKey_from_element. rewrite Hb0. reflexivity. }
  assert (Hlk : List.length keys = pa_shares params) by (apply mapM_length in Hkeys; rewrite seq_length in Hkeys; exact Hkeys).
  exists (h_com E ps), (h_pcp E params ps), (h_pes E params ps), (fun j i => peval (h_poly E ps j) (node i)),
    {| ks_params := params; ks_shared_key := shared; ks_participant_keys := keys |},
    (fun i => peval (h_total E L params ps) (node i)).
  split. { intros i Hi. apply (h_start E params ps Hps i Hi). }
  split. { intros i o Ho. destruct (phase1 E params ps Hps i o Ho) as (p' & H1 & H2 & H3 & _). exists p'. auto. }
  split. { intros i o Ho. destruct (phase2 E L params ps Hps i o Ho) as (p' & H1 & H2 & H3 & _). exists p'. auto. }
  split. { intros j i Hj Hi. exact (h_share E L params ps Hps j i Hj Hi). }
  split.
  { intros i o Ho. destruct (phase3 E L Hbig params Hp ps Hps keys shared i o Hkeys Hshared) as (p' & H1 & H2 & H3).
    - intros j Hj. apply Hs1; [exact (order_own _ _ _ Ho)|exact Hj].
    - exact Ho.
    - exists p'. auto. }
  cbn [ks_params ks_participant_keys ks_shared_key]. split; [reflexivity|]. split; [exact Hlk|]. split.
  { cbn [shared pk_element]. rewrite (h_total_eval E L params ps Hps), (e_sum_exp E L). f_equal. apply map_ext_in.
    intros j Hj. apply in_seq in Hj. cbn [h_pcp PCP_public_info pi_polynomial pcp_dealer].
    destruct (h_start E params ps Hps j ltac:(lia)) as (S1 & _).
    destruct (own_dealer_ok E L params _ S1) as (_ & D2 & D3). rewrite D3. unfold h_poly.
    destruct (dealer_poly E (h_dealer E ps j)) as [|a0 a].
    - cbn in D2. destruct Hp as [[Ht _] _]. lia.
    - cbn [in_exponent map hd]. f_equal. apply (peval_0 E L). }
  split. { intros i Hi. exact (h_total_eval E L params ps Hps (node i)). }
  intros i key Hk. destruct (mapM_nth _ _ _ _ _ Hkeys Hk) as (j & Hj & Hf). apply nth_error_seq in Hj. destruct Hj as [-> _].
  apply pk_from_element_ok in Hf. tauto.
Qed.

Theorem C36_honest_agreement :
  forall (E : Env) (L : GroupLaws E), (2 ^ 64 <= order L)%Z -> ser_total E ->
  forall (params : Params) (ps : nat -> ParticipantCollectingCommitments E), params_ok params ->
    (forall i, i < pa_shares params -> exists r r', PCC_new params i r = Ret (ps i, r')) ->
    honest_agreement params ps.
Proof.
  intros E L Hbig Hser params ps Hp Hps.
  apply (honest_agreement_ok E L Hbig params ps Hp Hps); intros; apply (ser_total_some L Hser).
Qed.
Print Assumptions C36_honest_agreement.

(** Backends which cannot serialize the identity: the same, unless one of the exchanged secret shares,
    final shares or the shared secret is zero. *)
Theorem C36_honest_agreement_sec1 :
  forall (E : Env) (L : GroupLaws E), (2 ^ 64 <= order L)%Z ->
  forall (params : Params) (ps : nat -> ParticipantCollectingCommitments E), params_ok params ->
    (forall i, i < pa_shares params -> exists r r', PCC_new params i r = Ret (ps i, r')) ->
    (forall i j s, i < pa_shares params -> j < pa_shares params ->
       Dealer_secret_share_for_participant (pcc_dealer (ps j)) i = Ret s -> s <> 0%S) ->
    (forall i s, i < pa_shares params ->
       mapM (fun j => Dealer_secret_share_for_participant (pcc_dealer (ps j)) i) (seq 0 (pa_shares params)) = Ret s ->
       fold_right s_add 0%S s <> 0%S) ->
    fold_right s_add 0%S (map (fun j => hd 0%S (map kp_secret (de_polynomial (pcc_dealer (ps j)))))
                              (seq 0 (pa_shares params))) <> 0%S ->
    honest_agreement params ps.
Proof.
  intros E L Hbig params ps Hp Hps H1 H2 H3.
  assert (Hsh : forall j i, j < pa_shares params -> i < pa_shares params ->
    Dealer_secret_share_for_participant (pcc_dealer (ps j)) i = Ret (peval (h_poly E ps j) (node i))).
  { intros j i Hj Hi. exact (h_share E L params ps Hps j i Hj Hi). }
  assert (Hnz : forall s : Scalar E, s <> 0%S -> ser_ok E (generator * s)%E).
  { intros s Hs. apply (ser_element_some E L). intros Hc. apply Hs. exact (generator_order E L s Hc). }
  apply (honest_agreement_ok E L Hbig params ps Hp Hps).
  - intros i j Hi Hj. apply Hnz. exact (H1 i j _ Hi Hj (Hsh j i Hj Hi)).
  - intros i Hi. apply Hnz. rewrite (h_total_eval E L params ps Hps).
    apply (H2 i _ Hi). apply mapM_total. intros j Hj. apply in_seq in Hj. apply Hsh; lia.
  - apply Hnz. rewrite (h_total_eval E L params ps Hps).
    replace (map (fun j => peval (h_poly E ps j) 0%S) (seq 0 (pa_shares params)))
      with (map (fun j => hd 0%S (map kp_secret (de_polynomial (pcc_dealer (ps j))))) (seq 0 (pa_shares params))); [exact H3|].
    apply map_ext_in. intros j Hj. apply in_seq in Hj. unfold h_poly, dealer_poly, h_dealer.
    destruct (map kp_secret (de_polynomial (pcc_dealer (ps j)))) as [|a0 a]; [reflexivity|]. cbn [hd]. symmetry. apply (peval_0 E L).
Qed.
Print Assumptions C36_honest_agreement_sec1.

(** public polynomials are added coefficient by coefficient; extra coefficients are kept, and debug builds refuse them *)
Theorem C36_polynomial_sum :
  forall (E : Env) (a b : PublicPolynomial E),
    ((exists k, PublicPolynomial_add_assign a b = Panic k) <->
     debug_assertions (env_build E) = true /\ List.length a <> List.length b) /\
    (forall c, PublicPolynomial_add_assign a b = Ret c ->
       List.length c = List.length a /\
       forall i A, nth_error a i = Some A ->
         nth_error c i = Some (match nth_error b i with Some B => (A + B)%E | None => A end)).
Proof.
  intros E a b. unfold PublicPolynomial_add_assign, debug_assert.
  assert (Hsum : List.length (add_zip a b) = List.length a /\ forall i A, nth_error a i = Some A ->
    nth_error (add_zip a b) i = Some (match nth_error b i with Some B => (A + B)%E | None => A end)).
  { revert b. induction a as [|x a IH]; intros b; [split; [destruct b; reflexivity|intros [|i] A H; discriminate]|].
    destruct b as [|y b]; [split; [reflexivity|intros [|i] A H; cbn in *; exact H]|].
    destruct (IH b) as [H1 H2]. split; [cbn; rewrite H1; reflexivity|]. intros [|i] A H; cbn in *; [injection H as ->; reflexivity|exact (H2 i A H)]. }
  destruct (debug_assertions (env_build E)); [destruct (Nat.eqb_spec (List.length a) (List.length b))|]; cbn [bind].
  - split; [split; [intros [k H]; discriminate H|intros [_ H]; contradiction]|]. intros c H. injection H as <-. exact Hsum.
  - split; [split; [auto|eauto]|]. intros c H. discriminate H.
  - split; [split; [intros [k H]; discriminate H|intros [H _]; discriminate H]|]. intros c H. injection H as <-. exact Hsum.
Qed.
Print Assumptions C36_polynomial_sum.

(** Participants can always be created (within bounds). *)
Theorem C36_start_never_panics :
  forall (E : Env) (L : GroupLaws E), ser_total E ->
  forall (params : Params) i r, params_ok params -> i < pa_shares params ->
    exists p r', PCC_new (E:=E) params i r = Ret (p, r').
Proof.
  intros E L Hser params i r Hp Hi. unfold PCC_new, assert.
  replace (i <? pa_shares params) with true by (symmetry; apply Nat.ltb_lt; exact Hi). cbn [bind].
  destruct (dealer_new_total E L params r Hser) as (d & r1 & Hd). rewrite Hd. cbn [bind].
  destruct (fill_bytes 32 r1) as [op r2].
  destruct (dealer_new_ok E L params r d r1 Hd) as (D1 & D2 & D3 & _).
  assert (He : exists e0, index (fst (Dealer_public_info d)) 0 = Ret e0).
  { rewrite D3. destruct (dealer_poly E d) as [|a0 a]; [cbn in D2; destruct Hp as [[Ht _] _]; lia|]. eexists. reflexivity. }
  destruct He as [e0 He]. rewrite He. cbn [bind]. unfold create_commitment.
  destruct (ser_total_some L Hser e0) as [b Hb]. rewrite Hb. cbn [bind].
  rewrite index_set_ok by (rewrite repeat_length; exact Hi). cbn [bind]. eauto.
Qed.
Print Assumptions C36_start_never_panics.

(** ** C37: completed participants are consistent, whatever they were sent *)

Lemma complete_facts (E : Env) (L : GroupLaws E) : (2 ^ 64 <= order L)%Z ->
  forall params idx (p : ParticipantExchangingSecrets E) hist sup a, params_ok params ->
  pes_run params idx p hist sup -> PES_complete p = Ret (Ok a) ->
  ap_index a = idx /\ idx < pa_shares params /\ ks_params (ap_key_set a) = params /\
  List.length (ks_participant_keys (ap_key_set a)) = pa_shares params /\
  exists A, List.length A = pa_threshold params /\
    keys_of_poly A (ks_participant_keys (ap_key_set a)) /\
    pk_element (ks_shared_key (ap_key_set a)) = (generator * peval A 0%S)%E /\
    ap_secret_share a = peval A (node idx) /\
    exists Ps, List.length Ps = pa_shares params /\
      (forall i, nth_error Ps i = latest hist i) /\
      (forall x, peval A x = fold_right s_add 0%S (map (fun P => peval (map (dlog L) P) x) Ps)).
Proof.
  intros Hbig params idx p hist sup a Hp Hr Hc. apply (pes_run_inv E L) in Hr.
  rewrite (pes_complete_eq E L Hbig params idx Hp p hist sup Hr) in Hc.
  destruct (not_supplied (pa_shares params) sup); [|discriminate]. cbv zeta in Hc.
  inv_bind Hc. inv_bind Hc. destruct (s_eqb _ _) eqn:Hs; [|discriminate]. injection Hc as <-.
  apply (s_eqb_ok E L) in Hs. cbn [ap_index ap_key_set ap_secret_share ks_params ks_participant_keys ks_shared_key].
  destruct Hr as (H1 & H2 & H3 & H4 & H5 & H6 & H6' & H7 & _).
  split; [reflexivity|]. split; [exact H3|]. split; [reflexivity|].
  split; [apply mapM_length in Hm; rewrite seq_length in Hm; exact Hm|].
  exists (total_poly E L params (pes_public_polynomials p)). split.
  { apply psum_length. intros q Hq. apply in_map_iff in Hq. destruct Hq as (Q & <- & HQ). rewrite map_length.
    apply In_nth_error in HQ. destruct HQ as [i Hi]. exact (H7 i Q Hi). }
  split.
  { intros i key Hi. destruct (mapM_nth _ _ _ _ _ Hm Hi) as (j & Hj & Hf). apply nth_error_seq in Hj. destruct Hj as [-> _].
    apply pk_from_element_ok in Hf. tauto. }
  split; [apply pk_from_element_ok in Hm0; tauto|]. split; [exact Hs|].
  exists (pes_public_polynomials p). split; [exact H6|]. split; [exact H6'|].
  intros x. exact (total_poly_eval E L params _ x).
Qed.

(** The key set comes from the sum of the latest accepted polynomials of all participants, and the
    secret share matches the participant's own key in it. *)
Theorem C37_completed_consistent :
  forall (E : Env) (L : GroupLaws E), (2 ^ 64 <= order L)%Z ->
  forall params idx (p : ParticipantExchangingSecrets E) hist sup a, params_ok params ->
    pes_run params idx p hist sup -> PES_complete p = Ret (Ok a) ->
    ap_index a = idx /\ ks_params (ap_key_set a) = params /\
    (exists key, nth_error (ks_participant_keys (ap_key_set a)) idx = Some key /\
       pk_element key = (generator * ap_secret_share a)%E) /\
    exists Ps, List.length Ps = pa_shares params /\ (forall i, nth_error Ps i = latest hist i) /\
      pk_element (ks_shared_key (ap_key_set a)) = fold_right e_add identity (map (fun P => hd identity P) Ps) /\
      (forall i key, nth_error (ks_participant_keys (ap_key_set a)) i = Some key ->
         Ret (pk_element key) = (vs <- mapM (fun P => PublicPolynomial_value_at P (s_of_u64 (N.of_nat (i + 1)))) Ps ;;
                                 Ret (fold_right e_add identity vs))).
Proof.
  intros E L Hbig params idx p hist sup a Hp Hr Hc.
  pose proof (pes_run_inv E L params idx p hist sup Hr) as Hinv.
  destruct (complete_facts E L Hbig params idx p hist sup a Hp Hr Hc)
    as (C1 & C2 & C3 & C4 & A & A1 & A2 & A3 & A4 & Ps & P1 & P2 & P3).
  assert (Hlen : forall P, In P Ps -> List.length P = pa_threshold params).
  { destruct Hinv as (_ & _ & _ & _ & _ & _ & H6' & H7 & _). intros P HP. apply In_nth_error in HP. destruct HP as [i Hi].
    apply (H7 i P). rewrite H6', <- P2. exact Hi. }
  split; [exact C1|]. split; [exact C3|]. split.
  { destruct (nth_error (ks_participant_keys (ap_key_set a)) idx) as [key|] eqn:Hk; [|apply nth_error_None in Hk; lia].
    exists key. split; [reflexivity|]. rewrite A4. exact (A2 idx key Hk). }
  exists Ps. split; [exact P1|]. split; [exact P2|].
  assert (Hsum : forall x, (generator * peval A x)%E
    = fold_right e_add identity (map (fun P => generator * peval (map (dlog L) P) x)%E Ps)).
  { intros x. rewrite P3. clear. induction Ps as [|P Ps IH]; cbn [map fold_right]; [apply (e_mul_0 L)|].
    rewrite (e_mul_add E L), IH. reflexivity. }
  split.
  - rewrite A3, Hsum. f_equal. apply map_ext_in. intros P HP. specialize (Hlen P HP).
    destruct P as [|e0 P]; [destruct Hp as [[Ht _] _]; cbn in Hlen; lia|]. cbn [map hd].
    rewrite (peval_0 E L). apply (dlog_ok E L).
  - intros i key Hk. rewrite (A2 i key Hk), Hsum.
    replace (mapM (fun P => PublicPolynomial_value_at P (s_of_u64 (N.of_nat (i + 1)))) Ps)
      with (Ret (map (fun P => generator * peval (map (dlog L) P) (node i))%E Ps)); [reflexivity|].
    symmetry. apply mapM_total. intros P _. exact (value_at_dlog E L P (node i)).
Qed.
Print Assumptions C37_completed_consistent.

(** The verdict on a secret share: accepted iff it is the first one from this sender and matches the
    sender's latest accepted polynomial. *)
Theorem C37_share_verdict :
  forall (E : Env) (L : GroupLaws E) params idx (p p' : ParticipantExchangingSecrets E) hist sup j share res,
    pes_run params idx p hist sup -> PES_insert_secret_share p j share = Ret (res, p') ->
    exists P, latest hist j = Some P /\
    (res = Ok tt <-> ~ In j sup /\ PublicPolynomial_value_at P (s_of_u64 (N.of_nat (idx + 1))) = Ret (generator * share)%E) /\
    (res = Err DuplicateShare <-> In j sup) /\
    (res = Err DkgInvalidSecret <->
       ~ In j sup /\ PublicPolynomial_value_at P (s_of_u64 (N.of_nat (idx + 1))) <> Ret (generator * share)%E).
Proof.
  intros E L params idx p p' hist sup j share res Hr H. apply (pes_run_inv E L) in Hr.
  destruct (pes_insert_Ret E L params idx p p' hist sup j share res Hr H) as (Hj & Hcases).
  pose proof Hr as (H1 & H2 & H3 & H4 & H5 & H6 & H6' & _).
  assert (HP : exists P, nth_error (pes_public_polynomials p) j = Some P).
  { destruct (nth_error (pes_public_polynomials p) j) as [P|] eqn:HP; [eauto|]. apply nth_error_None in HP.
    exfalso. apply (Nat.lt_irrefl j). eapply Nat.lt_le_trans; [exact Hj|]. rewrite <- H6. exact HP. }
  destruct HP as [P HP]. exists P. split; [rewrite <- H6'; exact HP|].
  assert (Hval : PublicPolynomial_value_at P (s_of_u64 (N.of_nat (idx + 1))) = Ret (generator * pub_share E L idx P)%E)
    by exact (value_at_dlog E L P (node idx)).
  rewrite Hval.
  destruct Hcases as [(Hin & -> & _)|(Hin & P' & HP' & Hc)].
  - split; [split; [discriminate|tauto]|]. split; [tauto|]. split; [discriminate|tauto].
  - rewrite HP in HP'. injection HP' as <-. destruct Hc as [(Hne & -> & _)|(He & -> & _)].
    + assert (Hd : Ret (generator * pub_share E L idx P)%E <> Ret (generator * share)%E).
      { intros Hx. injection Hx as Hx. apply (gen_inj L) in Hx. congruence. }
      split; [split; [discriminate|tauto]|]. split; [split; [discriminate|tauto]|]. tauto.
    + subst share. split; [tauto|]. split; [split; [discriminate|tauto]|]. split; [discriminate|tauto].
Qed.
Print Assumptions C37_share_verdict.

(** With all shares received, [complete] succeeds iff the polynomial last accepted for the participant's own
    index has the same value at its own node as the polynomial it generated; the only error is the
    inconsistency of the own share. *)
Theorem C37_complete_ok_iff :
  forall (E : Env) (L : GroupLaws E), (2 ^ 64 <= order L)%Z -> ser_total E ->
  forall params idx (p : ParticipantExchangingSecrets E) hist sup, params_ok params ->
    pes_run params idx p hist sup -> (forall i, i < pa_shares params -> In i sup) ->
    exists own s, latest hist idx = Some own /\ PES_secret_share_for_participant p idx = Ret s /\
      ((exists a, PES_complete p = Ret (Ok a)) <->
         PublicPolynomial_value_at own (s_of_u64 (N.of_nat (idx + 1))) = Ret (generator * s)%E) /\
      ((exists a, PES_complete p = Ret (Ok a)) \/
       PES_complete p = Ret (Err (InconsistentPublicShares SharingInvalidSecret))).
Proof.
  intros E L Hbig Hser params idx p hist sup Hp Hr Hall. apply (pes_run_inv E L) in Hr.
  assert (Hns : not_supplied (pa_shares params) sup = []) by (apply not_supplied_nil; exact Hall).
  destruct (pes_complete_share E L params idx p hist sup Hr Hns) as (own & O1 & O2).
  rewrite (pes_complete_eq E L Hbig params idx Hp p hist sup Hr), Hns. cbv zeta.
  set (A := total_poly E L params (pes_public_polynomials p)) in *.
  destruct (mapM_ser_ok (fun i => generator * peval A (node i))%E (seq 0 (pa_shares params))) as [keys Hkeys].
  { intros i _. apply (ser_total_some L Hser). }
  rewrite Hkeys. cbn [bind]. destruct (ser_total_some L Hser (generator * peval A 0%S)%E) as [b0 Hb0].
  unfold PublicKey_from_element at 1 2 3. rewrite Hb0. cbn [bind].
  destruct Hr as (H1 & H2 & H3 & H4 & H5 & H6 & H6' & _).
  destruct (own_dealer_ok E L params _ H4) as (D1 & _).
  exists own, (peval (dealer_poly E (pes_dealer p)) (node idx)).
  split; [rewrite <- H6'; exact O1|]. split.
  { unfold PES_secret_share_for_participant. rewrite (dealer_share_eq E L), D1.
    replace (idx <? pa_shares params) with true by (symmetry; apply Nat.ltb_lt; exact H3). reflexivity. }
  assert (Hval : PublicPolynomial_value_at own (s_of_u64 (N.of_nat (idx + 1))) = Ret (generator * pub_share E L idx own)%E)
    by exact (value_at_dlog E L own (node idx)).
  rewrite Hval.
  assert (Hiff : pes_accumulated_share p = peval A (node idx) <->
                 pub_share E L idx own = peval (dealer_poly E (pes_dealer p)) (node idx)).
  { exact (sum_swap E L _ _ _ _ O2). }
  destruct (s_eqb (pes_accumulated_share p) (peval A (node idx))) eqn:Hs.
  - apply (s_eqb_ok E L) in Hs. split; [|left; eauto]. split; [|eauto]. intros _. rewrite (proj1 Hiff Hs). reflexivity.
  - apply (s_eqb_false L) in Hs. split; [|right; reflexivity]. split; [intros [a Ha]; discriminate|].
    intros Hx. exfalso. apply Hs, Hiff. injection Hx as Hx. exact (gen_inj L _ _ Hx).
Qed.
Print Assumptions C37_complete_ok_iff.

Theorem C37_complete_ok_unless_replaced :
  forall (E : Env) (L : GroupLaws E), (2 ^ 64 <= order L)%Z -> ser_total E ->
  forall params idx (p : ParticipantExchangingSecrets E) hist sup, params_ok params ->
    pes_run params idx p hist sup -> PES_missing_shares p = [] ->
    (forall P, In (idx, P) hist -> P = fst (Dealer_public_info (pes_dealer p))) ->
    exists a, PES_complete p = Ret (Ok a).
Proof.
  intros E L Hbig Hser params idx p hist sup Hp Hr Hm Hown.
  pose proof (pes_run_inv E L params idx p hist sup Hr) as Hinv.
  rewrite (pes_missing_inv E L params idx p hist sup Hinv) in Hm.
  destruct (C37_complete_ok_iff E L Hbig Hser params idx p hist sup Hp Hr) as (own & s & O1 & O2 & O3 & _).
  { apply not_supplied_nil. exact Hm. }
  apply O3. apply latest_In in O1. rewrite (Hown own O1).
  destruct Hinv as (H1 & H2 & H3 & H4 & _). destruct (own_dealer_ok E L params _ H4) as (D1 & D2 & D3).
  rewrite D3. unfold PES_secret_share_for_participant in O2. rewrite (dealer_share_eq E L), D1 in O2.
  destruct (idx <? pa_shares params); [|discriminate]. injection O2 as <-. exact (value_at_eq E L _ (node idx)).
Qed.
Print Assumptions C37_complete_ok_unless_replaced.

(** Any [t] participants that completed with the same key set decrypt together. *)
Theorem C37_completed_participants_decrypt :
  forall (E : Env) (L : GroupLaws E), (2 ^ 64 <= order L)%Z ->
  forall params (ks : PublicKeySet E) m rng ct rng' taken rest, params_ok params ->
    encrypt (ks_shared_key ks) m rng = (ct, rng') ->
    List.length taken = pa_threshold params -> NoDup (map fst taken) ->
    (forall i d, In (i, d) taken -> exists p hist sup a r pf r',
       pes_run params i p hist sup /\ PES_complete p = Ret (Ok a) /\ ap_key_set a = ks /\
       ActiveParticipant_decrypt_share a ct r = Ret (d, pf, r')) ->
    exists dec, combine_shares params (taken ++ rest) = Ret (Some dec) /\
      VerifiableDecryption_decrypt_to_element dec ct = (generator * m)%E.
Proof.
  intros E L Hbig params ks m rng ct rng' taken rest Hp Henc Hlen Hnd Hs.
  assert (Hne : exists i d, In (i, d) taken).
  { destruct taken as [|[i d] taken]; [destruct Hp as [[Ht _] _]; cbn in Hlen; lia|]. exists i, d. left. reflexivity. }
  destruct Hne as (i0 & d0 & Hin0). destruct (Hs i0 d0 Hin0) as (p0 & h0 & s0 & a0 & r0 & pf0 & r0' & R0 & C0 & K0 & _).
  destruct (complete_facts E L Hbig params i0 p0 h0 s0 a0 Hp R0 C0) as (_ & _ & K1 & K2 & A & A1 & A2 & A3 & _).
  rewrite K0 in *.
  assert (Hc : combine_shares params (taken ++ rest) = Ret (Some {| vd_dh_element := (random_element ct * peval A 0%S)%E |})).
  { apply (combine_shares_correct E L Hbig params A ct taken rest); [apply Hp|lia|exact Hlen|exact Hnd|].
    intros [i d] Hin. destruct (Hs i d Hin) as (p & h & s & a & r & pf & r' & R & C & K & D).
    destruct (complete_facts E L Hbig params i p h s a Hp R C) as (I1 & I2 & _ & _ & B & B1 & B2 & _ & B4 & _).
    rewrite K in *. split; [exact I2|].
    assert (HAB : A = B).
    { rewrite (keys_of_poly_unique E L Hbig params _ A Hp K2 A1 A2). symmetry. exact (keys_of_poly_unique E L Hbig params _ B Hp K2 B1 B2). }
    subst B. unfold valid_share. cbn [fst snd].
    unfold ActiveParticipant_decrypt_share in D. inv_bind D. inv_bind D. inv_bind D. destruct a3 as [[p3 t3] r3]. injection D as <- _ _.
    cbn [vd_dh_element]. rewrite B4. reflexivity. }
  eexists. split; [exact Hc|].
  exact (decrypt_encrypt E L (peval A 0%S) (ks_shared_key ks) m rng ct rng' A3 Henc).
Qed.
Print Assumptions C37_completed_participants_decrypt.

(** ** C38: bookkeeping *)

Theorem C38_missing_lists_exact :
  forall (E : Env) (L : GroupLaws E) params idx,
    (forall (p : ParticipantCollectingCommitments E) coms, pcc_run params idx p coms ->
       PCC_missing_commitments p = not_supplied (pa_shares params) (map fst coms)) /\
    (forall (q : ParticipantCollectingPolynomials E) coms hist, pcp_run params idx q coms hist ->
       PCP_missing_public_polynomials q = not_supplied (pa_shares params) (map fst hist)) /\
    (forall (p : ParticipantExchangingSecrets E) hist sup, pes_run params idx p hist sup ->
       PES_missing_shares p = not_supplied (pa_shares params) sup).
Proof.
  intros E L params idx. split; [|split].
  - exact (pcc_missing E params idx).
  - exact (pcp_missing E L params idx).
  - intros p hist sup H. apply (pes_run_inv E L) in H. exact (pes_missing_inv E L params idx p hist sup H).
Qed.
Print Assumptions C38_missing_lists_exact.

Theorem C38_finish_panics_iff_missing :
  forall (E : Env) (L : GroupLaws E) params idx,
    (forall (p : ParticipantCollectingCommitments E) coms, pcc_run params idx p coms ->
       (exists k, PCC_finish_commitment_phase p = Panic k) <-> PCC_missing_commitments p <> []) /\
    (forall (q : ParticipantCollectingPolynomials E) coms hist, pcp_run params idx q coms hist ->
       (exists k, PCP_finish_polynomials_phase q = Panic k) <-> PCP_missing_public_polynomials q <> []).
Proof.
  intros E L params idx. split.
  - intros p coms H. rewrite (pcc_finish_eq E params idx p coms H), (pcc_missing E params idx p coms H).
    destruct (not_supplied _ _); split; intros Hx; [destruct Hx; discriminate|congruence|discriminate|eauto].
  - intros q coms hist H. rewrite (pcp_finish_eq E L params idx q coms hist H), (pcp_missing E L params idx q coms hist H).
    destruct (not_supplied _ _); split; intros Hx; [destruct Hx; discriminate|congruence|discriminate|eauto].
Qed.
Print Assumptions C38_finish_panics_iff_missing.

Theorem C38_complete_panics_iff_missing :
  forall (E : Env) (L : GroupLaws E), (2 ^ 64 <= order L)%Z -> ser_total E ->
  forall params idx (p : ParticipantExchangingSecrets E) hist sup, params_ok params -> pes_run params idx p hist sup ->
    (exists k, PES_complete p = Panic k) <-> PES_missing_shares p <> [].
Proof.
  intros E L Hbig Hser params idx p hist sup Hp Hr.
  pose proof (pes_run_inv E L params idx p hist sup Hr) as Hinv.
  rewrite (pes_missing_inv E L params idx p hist sup Hinv).
  destruct (not_supplied (pa_shares params) sup) as [|x l] eqn:Hn.
  - split; [|congruence]. intros [k Hk].
    destruct (C37_complete_ok_iff E L Hbig Hser params idx p hist sup Hp Hr (proj1 (not_supplied_nil _ _) Hn))
      as (own & s & _ & _ & _ & [[a Ha]|He]); congruence.
  - split; [discriminate|]. intros _. exists PAssert.
    rewrite (pes_complete_eq E L Hbig params idx Hp p hist sup Hinv), Hn. reflexivity.
Qed.
Print Assumptions C38_complete_panics_iff_missing.

(** A commitment is stored iff the index is in bounds and has none yet; anything else panics. *)
Theorem C38_commitments_cannot_be_replaced :
  forall (E : Env) (L : GroupLaws E) params idx (p : ParticipantCollectingCommitments E) coms j c,
    pcc_run params idx p coms ->
    (j < pa_shares params -> ~ In j (map fst coms) ->
       exists p', PCC_insert_commitment p j c = Ret p' /\
         forall k, k <> j -> nth_error (pcc_commitments p') k = nth_error (pcc_commitments p) k) /\
    (In j (map fst coms) -> PCC_insert_commitment p j c = Panic PAssert) /\
    (pa_shares params <= j -> PCC_insert_commitment p j c = Panic PIndex) /\
    PCC_commitment p = match latest coms idx with Some c => Ret c | None => Panic PUnwrap end.
Proof.
  intros E L params idx p coms j c H. apply (pcc_run_inv E params idx) in H.
  destruct H as (H1 & H2 & H3 & H4 & H5 & Hl & Hlt & Hh). split; [|split; [|split]].
  - intros Hj Hin. apply latest_none in Hin. specialize (Hh j Hj). rewrite Hin in Hh.
    eexists. split; [apply pcc_insert_Ret; split; [exact Hh|reflexivity]|]. cbn [pcc_commitments]. intros k Hk.
    rewrite nth_error_list_set by lia. apply Nat.eqb_neq in Hk. rewrite Hk. reflexivity.
  - intros Hin. assert (Hj := Hlt j Hin). specialize (Hh j Hj).
    destruct (latest coms j) as [c'|] eqn:Hc; [|apply latest_none in Hc; contradiction].
    unfold PCC_insert_commitment, index. rewrite Hh. reflexivity.
  - intros Hj. unfold PCC_insert_commitment, index.
    replace (nth_error (pcc_commitments p) j) with (@None (option bytes)) by (symmetry; apply nth_error_None; lia). reflexivity.
  - unfold PCC_commitment, index. rewrite H2, (Hh idx H3). cbn [bind]. destruct (latest coms idx); reflexivity.
Qed.
Print Assumptions C38_commitments_cannot_be_replaced.

Theorem C38_rejected_inserts_change_nothing :
  forall (E : Env) (L : GroupLaws E) params idx,
    (forall (q q' : ParticipantCollectingPolynomials E) j info e,
       PCP_insert_public_polynomial q j info = Ret (Err e, q') -> q' = q) /\
    (forall (p p' : ParticipantExchangingSecrets E) hist sup j share e, pes_run params idx p hist sup ->
       PES_insert_secret_share p j share = Ret (Err e, p') -> p' = p).
Proof.
  intros E L params idx. split; [exact (pcp_insert_rejected E)|].
  intros p p' hist sup j share e Hr H. apply (pes_run_inv E L) in Hr.
  destruct (pes_insert_Ret E L params idx p p' hist sup j share _ Hr H)
    as (_ & [(_ & _ & ->)|(_ & P & _ & [(_ & _ & ->)|(_ & Hc & _)])]); [reflexivity|reflexivity|discriminate].
Qed.
Print Assumptions C38_rejected_inserts_change_nothing.

(** An accepted polynomial or share changes the record for its sender only. *)
Theorem C38_accepted_inserts_change_one_entry :
  forall (E : Env) (L : GroupLaws E) params idx,
    (forall (q q' : ParticipantCollectingPolynomials E) coms hist j info, pcp_run params idx q coms hist ->
       PCP_insert_public_polynomial q j info = Ret (Ok tt, q') ->
       PCP_public_info q' = PCP_public_info q /\
       forall k, nth_error (pcp_public_polynomials q') k
                 = if k =? j then Some (Some (pi_polynomial info)) else nth_error (pcp_public_polynomials q) k) /\
    (forall (p p' : ParticipantExchangingSecrets E) hist sup j share, pes_run params idx p hist sup ->
       PES_insert_secret_share p j share = Ret (Ok tt, p') ->
       PES_missing_shares p' = filter (fun i => negb (i =? j)) (PES_missing_shares p) /\
       forall i, PES_secret_share_for_participant p' i = PES_secret_share_for_participant p i).
Proof.
  intros E L params idx. split.
  - intros q q' coms hist j info Hr H. apply (pcp_run_inv E L) in Hr.
    destruct Hr as (H1 & H2 & H3 & H4 & H5 & H5' & H6 & (H7 & H7' & H7'') & _).
    apply (pcp_insert_ok_iff E params) in H; [|exact H1|exact H7|exact H5].
    destruct H as ((e0 & rest & b & P1 & P2 & P3) & Hv & ->). split; [reflexivity|]. intros k.
    apply nth_error_list_set. rewrite H7, <- H5. apply nth_error_Some. congruence.
  - intros p p' hist sup j share Hr H. pose proof (pes_run_insert params idx p hist sup j share _ p' Hr H) as Hr'.
    apply (pes_run_inv E L) in Hr, Hr'.
    rewrite (pes_missing_inv E L params idx p hist sup Hr), (pes_missing_inv E L params idx p' hist _ Hr').
    destruct (pes_insert_Ret E L params idx p p' hist sup j share _ Hr H)
      as (_ & [(_ & Hc & _)|(_ & P & _ & [(_ & Hc & _)|(_ & _ & ->)])]); [discriminate|discriminate|].
    split; [|reflexivity]. unfold not_supplied. generalize (seq 0 (pa_shares params)). intros l.
    induction l as [|i l IH]; [reflexivity|]. cbn [filter existsb]. destruct (i =? j) eqn:Hij; cbn [orb negb].
    + destruct (existsb (Nat.eqb i) sup); cbn [negb filter]; [exact IH|]. rewrite Hij. exact IH.
    + destruct (existsb (Nat.eqb i) sup); cbn [negb filter]; [exact IH|]. rewrite Hij. cbn [negb]. f_equal. exact IH.
Qed.
Print Assumptions C38_accepted_inserts_change_one_entry.

(** ** C39: polynomials match commitments *)

(** the published constant term and opening match the commitment supplied for [j] in the first phase *)
Definition opens {E : Env} (coms : list (nat * bytes)) (j : nat) (info : PublicInfo E) : Prop :=
  exists e0 rest b, pi_polynomial info = e0 :: rest /\ serialize_element e0 = Ret b /\
    latest coms j = Some (@sha256 E (b ++ pi_opening info)).

(** [info] has an encodable constant term and [j] is a participant *)
Definition openable {E : Env} (coms : list (nat * bytes)) (j : nat) (info : PublicInfo E) : Prop :=
  exists e0 rest b c, pi_polynomial info = e0 :: rest /\ serialize_element e0 = Ret b /\ latest coms j = Some c.

Theorem C39_accepts_iff :
  forall (E : Env) (L : GroupLaws E) params idx (q : ParticipantCollectingPolynomials E) coms hist j info,
    pcp_run params idx q coms hist ->
    (exists q', PCP_insert_public_polynomial q j info = Ret (Ok tt, q')) <->
    opens coms j info /\ List.length (pi_polynomial info) = pa_threshold params /\
    exists keys tf, mapM PublicKey_from_element (pi_polynomial info) = Ret keys /\
      ProofOfPossession_verify (pi_pop info) keys (share_poly_transcript params) = Ret (Ok tt, tf).
Proof.
  intros E L params idx q coms hist j info Hr. apply (pcp_run_inv E L) in Hr.
  destruct Hr as (H1 & H2 & H3 & H4 & H5 & H5' & H6 & (H7 & _) & _).
  rewrite <- (validate_ok_iff E params (pi_polynomial info) (pi_pop info)). split.
  - intros [q' H]. apply (pcp_insert_ok_iff E params) in H; [|exact H1|exact H7|exact H5].
    destruct H as ((e0 & rest & b & P1 & P2 & P3) & Hv & _). split; [|exact Hv].
    exists e0, rest, b. rewrite <- H5'. auto.
  - intros [(e0 & rest & b & P1 & P2 & P3) Hv]. eexists. apply (pcp_insert_ok_iff E params q _ j info H1 H7 H5).
    split; [exists e0, rest, b; rewrite H5'; auto|]. split; [exact Hv|reflexivity].
Qed.
Print Assumptions C39_accepts_iff.

Theorem C39_invalid_commitment_iff :
  forall (E : Env) (L : GroupLaws E) params idx (q : ParticipantCollectingPolynomials E) coms hist j info,
    pcp_run params idx q coms hist ->
    PCP_insert_public_polynomial q j info = Ret (Err InvalidCommitment, q) <->
    openable coms j info /\ ~ opens coms j info.
Proof.
  intros E L params idx q coms hist j info Hr. apply (pcp_run_inv E L) in Hr.
  destruct Hr as (H1 & H2 & H3 & H4 & H5 & H5' & H6 & (H7 & _) & _). split.
  - intros H. destruct (pcp_insert_Ret E q q j info _ H) as (e0 & rest & b & c & P1 & P2 & P3).
    split; [exists e0, rest, b, c; rewrite <- H5'; auto|].
    intros (e0' & rest' & b' & Q1 & Q2 & Q3). assert (e0' = e0) by congruence. subst e0'. assert (b' = b) by congruence. subst b'.
    rewrite (pcp_insert_eq E q j info e0 rest b c P1 P2 P3) in H. rewrite H5' in P3.
    assert (c = @sha256 E (b ++ pi_opening info)) by congruence. subst c. rewrite bytes_eqb_refl in H.
    inv_bind H. destruct a; [inv_bind H|]; discriminate.
  - intros [(e0 & rest & b & c & P1 & P2 & P3) Hno]. rewrite <- H5' in P3.
    rewrite (pcp_insert_eq E q j info e0 rest b c P1 P2 P3).
    destruct (bytes_eqb c (@sha256 E (b ++ pi_opening info))) eqn:Hc; [|reflexivity].
    apply bytes_eqb_ok in Hc. subst c. exfalso. apply Hno. exists e0, rest, b. rewrite <- H5'. auto.
Qed.
Print Assumptions C39_invalid_commitment_iff.

Theorem C39_malformed_proof_iff :
  forall (E : Env) (L : GroupLaws E) params idx (q : ParticipantCollectingPolynomials E) coms hist j info e,
    pcp_run params idx q coms hist ->
    PCP_insert_public_polynomial q j info = Ret (Err (MalformedParticipantProof e), q) <->
    opens coms j info /\
    ((List.length (pi_polynomial info) <> pa_threshold params /\ e = MalformedDealerPolynomial) \/
     (List.length (pi_polynomial info) = pa_threshold params /\
      exists keys tf ve, mapM PublicKey_from_element (pi_polynomial info) = Ret keys /\
        ProofOfPossession_verify (pi_pop info) keys (share_poly_transcript params) = Ret (Err ve, tf) /\
        e = InvalidDealerProof ve)).
Proof.
  intros E L params idx q coms hist j info e Hr. apply (pcp_run_inv E L) in Hr.
  destruct Hr as (H1 & H2 & H3 & H4 & H5 & H5' & H6 & (H7 & _) & _).
  assert (Hval : PublicKeySet_validate params (pi_polynomial info) (pi_pop info) = Ret (Err e) <->
    ((List.length (pi_polynomial info) <> pa_threshold params /\ e = MalformedDealerPolynomial) \/
     (List.length (pi_polynomial info) = pa_threshold params /\
      exists keys tf ve, mapM PublicKey_from_element (pi_polynomial info) = Ret keys /\
        ProofOfPossession_verify (pi_pop info) keys (share_poly_transcript params) = Ret (Err ve, tf) /\
        e = InvalidDealerProof ve))).
  { unfold PublicKeySet_validate. destruct (List.length (pi_polynomial info) =? pa_threshold params) eqn:Hl; cbn [negb].
    - apply Nat.eqb_eq in Hl. destruct (mapM PublicKey_from_element (pi_polynomial info)) as [keys|k]; cbn [bind].
      2:{ split; [discriminate|]. intros [[Hc _]|(_ & keys & tf & ve & Hc & _)]; [contradiction|discriminate]. }
      destruct (ProofOfPossession_verify (pi_pop info) keys _) as [[[u|ve] tf]|k] eqn:Hv; cbn [bind].
      + split; [discriminate|]. intros [[Hc _]|(_ & keys' & tf' & ve & Hc & Hd & _)]; [contradiction|].
        injection Hc as <-. congruence.
      + split.
        * intros H. injection H as <-. right. split; [exact Hl|]. exists keys, tf, ve. auto.
        * intros [[Hc _]|(_ & keys' & tf' & ve' & Hc & Hd & ->)]; [contradiction|]. injection Hc as <-. congruence.
      + split; [discriminate|]. intros [[Hc _]|(_ & keys' & tf' & ve & Hc & Hd & _)]; [contradiction|].
        injection Hc as <-. congruence.
    - apply Nat.eqb_neq in Hl. split.
      + intros H. injection H as <-. left. auto.
      + intros [[_ ->]|[Hc _]]; [reflexivity|contradiction]. }
  rewrite <- Hval. split.
  - intros H. destruct (pcp_insert_Ret E q q j info _ H) as (e0 & rest & b & c & P1 & P2 & P3).
    rewrite (pcp_insert_eq E q j info e0 rest b c P1 P2 P3), H1 in H.
    destruct (bytes_eqb c (@sha256 E (b ++ pi_opening info))) eqn:Hc; [|discriminate].
    apply bytes_eqb_ok in Hc. subst c. split; [exists e0, rest, b; rewrite <- H5'; auto|].
    inv_bind H. destruct a as [u|e']; [inv_bind H; discriminate|]. congruence.
  - intros [(e0 & rest & b & P1 & P2 & P3) Hv]. rewrite <- H5' in P3.
    rewrite (pcp_insert_eq E q j info e0 rest b _ P1 P2 P3), H1, bytes_eqb_refl, Hv. reflexivity.
Qed.
Print Assumptions C39_malformed_proof_iff.

(** ** C40: finality of published polynomials *)

(** Full statement, refuted below: after [insert_public_polynomial(j, info)] was accepted, another
    [info'] for the same [j] is accepted only with the same polynomial. *)

(** What is final: two accepted polynomials of one participant have equal constant terms, or exhibit
    a collision of SHA-256. *)
Theorem C40_constant_term_final :
  forall (E : Env) (L : GroupLaws E) params idx (q q' q1 q1' : ParticipantCollectingPolynomials E) coms hist hist' j info info',
    pcp_run params idx q coms hist -> PCP_insert_public_polynomial q j info = Ret (Ok tt, q1) ->
    pcp_run params idx q' coms hist' -> PCP_insert_public_polynomial q' j info' = Ret (Ok tt, q1') ->
    (nth_error (pi_polynomial info) 0 = nth_error (pi_polynomial info') 0 /\ pi_opening info = pi_opening info') \/
    exists x y, x <> y /\ @sha256 E x = @sha256 E y.
Proof.
  intros E L params idx q q' q1 q1' coms hist hist' j info info' Hr H Hr' H'.
  destruct (proj1 (C39_accepts_iff E L params idx q coms hist j info Hr) (ex_intro _ q1 H)) as [(e0 & rest & b & P1 & P2 & P3) _].
  destruct (proj1 (C39_accepts_iff E L params idx q' coms hist' j info' Hr') (ex_intro _ q1' H')) as [(e1 & rest1 & b1 & Q1 & Q2 & Q3) _].
  rewrite P1, Q1. cbn [nth_error].
  destruct (bytes_eqb (b ++ pi_opening info) (b1 ++ pi_opening info')) eqn:Hb.
  - left. apply bytes_eqb_ok in Hb. destruct (ser_element_ok E L e0 b P2) as [Hl Hd]. destruct (ser_element_ok E L e1 b1 Q2) as [Hl1 Hd1].
    assert (Hlb : List.length b = List.length b1) by congruence.
    destruct (app_inj_len b b1 _ _ Hlb Hb) as [-> Ho]. split; [congruence|exact Ho].
  - right. exists (b ++ pi_opening info), (b1 ++ pi_opening info'). split; [|congruence].
    intros Hc. rewrite Hc, bytes_eqb_refl in Hb. discriminate.
Qed.
Print Assumptions C40_constant_term_final.

(** Replacing a polynomial is possible in every backend, for every participant (even for the receiver's
    own index) and all parameters with threshold at least 2: [info] and [info'] have different
    polynomials, and both are accepted, one after the other. *)
Section PlusOne.
Context (E : Env) (L : GroupLaws E).
Add Field plus_one_field : (s_field L).
Lemma plus_one_neq (x : Scalar E) : x = (x + 1)%S -> False.
Proof.
  intros H. apply (F_1_neq_0 (s_field L)). transitivity ((x + 1) - x)%S; [ring|]. rewrite <- H. ring.
Qed.
End PlusOne.

Lemma other_info (E : Env) (L : GroupLaws E) (params : Params) (a : list (Scalar E)) (r : Rng E) : ser_total E ->
  List.length a = pa_threshold params ->
  exists keys pop tf, mapM PublicKey_from_element (in_exponent a) = Ret keys /\
    ProofOfPossession_verify pop keys (share_poly_transcript params) = Ret (Ok tt, tf).
Proof.
  intros Hser Hl.
  destruct (mapM_ser_ok (fun s : Scalar E => generator * s)%E a) as [keys Hk]; [intros s _; apply (ser_total_some L Hser)|].
  destruct (pop_new_total E L a keys (share_poly_transcript params) r Hser) as (pop & tf & r2 & Hp).
  exists keys, pop, tf. split.
  - unfold in_exponent. clear Hp Hl. revert keys Hk. induction a as [|s a IH]; intros keys Hk; cbn [map mapM] in *; [exact Hk|].
    inv_bind Hk. inv_bind Hk. rewrite Hm. cbn [bind]. rewrite (IH _ Hm0). exact Hk.
  - apply (pop_complete_keys E L a keys _ r pop tf r2); [|exact Hp].
    apply mapM_Ret_inv in Hk. clear Hp Hl. induction Hk as [|s k a keys Hs Hk IH]; constructor; [|exact IH].
    apply pk_from_element_ok in Hs. exact (proj1 Hs).
Qed.

Theorem C40_final_refuted :
  forall (E : Env) (L : GroupLaws E), ser_total E ->
  forall (params : Params) idx j (r : Rng E), params_ok params -> 2 <= pa_threshold params ->
    idx < pa_shares params -> j < pa_shares params ->
    exists (q : ParticipantCollectingPolynomials E) coms hist (info info' : PublicInfo E) q1 q2,
      pcp_run params idx q coms hist /\
      PCP_insert_public_polynomial q j info = Ret (Ok tt, q1) /\
      PCP_insert_public_polynomial q1 j info' = Ret (Ok tt, q2) /\
      pi_polynomial info <> pi_polynomial info' /\
      nth_error (pcp_public_polynomials q2) j = Some (Some (pi_polynomial info')).
Proof.
  intros E L Hser params idx j r Hp Ht Hidx Hj.
  destruct (C36_start_never_panics E L Hser params idx r Hp Hidx) as (p0 & r0 & Hp0).
  pose (ps := fun i => match PCC_new params i r with Ret (p, _) => p | Panic _ => p0 end).
  assert (Hps : forall i, i < pa_shares params -> exists r r', PCC_new params i r = Ret (ps i, r')).
  { intros i Hi. destruct (C36_start_never_panics E L Hser params i r Hp Hi) as (p & r' & H). exists r, r'.
    unfold ps. rewrite H. reflexivity. }
  destruct (h_pcp_run E params ps Hps idx Hidx) as [coms Hr].
  destruct (h_start E params ps Hps j Hj) as (S1 & _ & _ & _ & _ & (e0 & rest & b & P1 & P2 & P3) & _).
  destruct (own_dealer_ok E L params _ S1) as (_ & D2 & D3).
  change (fst (Dealer_public_info (h_dealer E ps j))) with (h_public E ps j) in D3.
  destruct (dealer_poly E (h_dealer E ps j)) as [|a0 [|a1 a]] eqn:Ha; [cbn in D2; lia|cbn in D2; lia|].
  destruct (other_info E L params (a0 :: (a1 + 1)%S :: a) r Hser D2) as (keys & pop & tf & K1 & K2).
  pose (info' := {| pi_polynomial := in_exponent (a0 :: (a1 + 1)%S :: a); pi_pop := pop; pi_opening := pcc_opening (ps j) |}).
  assert (Hins := h_insert_polynomial E L params ps Hps (h_pcp E params ps idx) j Hj eq_refl eq_refl).
  match type of Hins with ?A -> _ => assert (Hn : A) end.
  { cbn [h_pcp pcp_public_polynomials]. rewrite list_set_length, repeat_length. reflexivity. }
  specialize (Hins Hn).
  match type of Hins with _ = Ret (_, ?x) => set (q1 := x) in * end.
  pose proof (pcp_run_insert params idx _ coms _ j _ _ _ Hr Hins) as Hr1.
  apply (pcp_run_inv E L) in Hr1. destruct Hr1 as (I1 & I2 & I3 & I4 & I5 & I5' & I6 & (I7 & I7') & _).
  eexists _, coms, _, (h_info E params ps j), info', q1, _.
  split; [exact Hr|]. split; [exact Hins|]. split; [|split].
  - apply (pcp_insert_ok_iff E params _ _ j info' I1 I7 I5). split.
    + exists e0, (map (fun c => generator * c)%E ((a1 + 1)%S :: a)), b. split.
      * cbn [info' pi_polynomial in_exponent map]. f_equal. rewrite P1 in D3. cbn [in_exponent map] in D3. injection D3 as -> _. reflexivity.
      * split; [exact P2|]. cbn [q1 h_pcp pcp_commitments info' pi_opening].
        rewrite (map_nth_error (h_com E ps) j (seq 0 (pa_shares params)) (d:=j)); [rewrite P3; reflexivity|].
        rewrite (nth_error_nth' _ 0) by (rewrite seq_length; exact Hj). rewrite seq_nth by exact Hj. reflexivity.
    + split; [|reflexivity]. apply validate_ok_iff. split; [cbn [info' pi_polynomial]; rewrite in_exponent_length; exact D2|].
      exists keys, tf. auto.
  - change (pi_polynomial (h_info E params ps j)) with (h_public E ps j). rewrite D3. cbn [info' pi_polynomial in_exponent map].
    intros Hc. injection Hc as Hc. apply (gen_inj L) in Hc. exact (plus_one_neq E L a1 Hc).
  - cbn [pcp_public_polynomials]. rewrite nth_error_list_set by (rewrite I7; exact Hj). rewrite Nat.eqb_refl. reflexivity.
Qed.
Print Assumptions C40_final_refuted.

(** ** Examples: a 2-of-3 run *)
Definition ex_dkg_params : Params := {| pa_shares := 3; pa_threshold := 2 |}.

(** participant [i] seeded with [seed + 100 * i] *)
Definition ex_start (seed : Z) (i : nat) : outcome (ParticipantCollectingCommitments RE) :=
  '(p, _) <- PCC_new (E:=RE) ex_dkg_params i (seed + 100 * Z.of_nat i)%Z ;; Ret p.

(** state of participant [i] after the first phase *)
Definition ex_phase1 (seed : Z) (i : nat) : outcome (ParticipantCollectingPolynomials RE) :=
  p <- ex_start seed i ;;
  msgs <- mapM (fun j => q <- ex_start seed j ;; c <- PCC_commitment q ;; Ret (j, c))
               (filter (fun j => negb (j =? i)) [2; 0; 1]) ;;
  p <- deliver_commitments p msgs ;;
  PCC_finish_commitment_phase p.

Definition ex_info (seed : Z) (j : nat) : outcome (PublicInfo RE) :=
  q <- ex_phase1 seed j ;; Ret (PCP_public_info q).

(** the rest of the run for participant [i]; [extra] is delivered after the honest polynomials *)
Definition ex_phase2 (seed : Z) (i : nat) (extra : list (nat * PublicInfo RE))
    : outcome (result (ParticipantExchangingSecrets RE) DkgError) :=
  p <- ex_phase1 seed i ;;
  msgs <- mapM (fun j => info <- ex_info seed j ;; Ret (j, info)) (filter (fun j => negb (j =? i)) [1; 2; 0]) ;;
  res <- deliver_polynomials p (msgs ++ extra) ;;
  match res with
  | Ok p => p <- PCP_finish_polynomials_phase p ;; Ret (Ok p)
  | Err e => Ret (Err e)
  end.

Definition ex_shares (seed : Z) (i : nat) : outcome (list (nat * SecretKey RE)) :=
  mapM (fun j => q <- ex_start seed j ;; s <- Dealer_secret_share_for_participant (pcc_dealer q) i ;; Ret (j, s))
       (filter (fun j => negb (j =? i)) [2; 1; 0]).

Definition ex_dkg (seed : Z) (i : nat) (extra : list (nat * PublicInfo RE))
    : outcome (result (ActiveParticipant RE) DkgError) :=
  res <- ex_phase2 seed i extra ;;
  match res with
  | Err e => Ret (Err e)
  | Ok p =>
      shares <- ex_shares seed i ;;
      res <- deliver_shares p shares ;;
      match res with
      | Ok p => PES_complete p
      | Err e => Ret (Err e)
      end
  end.

Definition same_key_set (a b : outcome (result (ActiveParticipant RE) DkgError)) : bool :=
  match a, b with
  | Ret (Ok a), Ret (Ok b) =>
      e_eqb (pk_element (ks_shared_key (ap_key_set a))) (pk_element (ks_shared_key (ap_key_set b))) &&
      forallb (fun p : PublicKey RE * PublicKey RE => e_eqb (pk_element (fst p)) (pk_element (snd p)))
        (combine (ks_participant_keys (ap_key_set a)) (ks_participant_keys (ap_key_set b))) &&
      negb (s_eqb (ap_secret_share a) (ap_secret_share b))
  | _, _ => false
  end%bool.

(** all three participants complete with the same key set and different shares *)
Example C36_example :
  same_key_set (ex_dkg 5 0 []) (ex_dkg 5 1 []) = true /\ same_key_set (ex_dkg 5 2 []) (ex_dkg 5 1 []) = true.
Proof. vm_compute. auto. Qed.

(** the premises of the C37 - C39 theorems are met by this run *)
Example C37_example :
  exists (p : ParticipantExchangingSecrets RE) hist sup a,
    pes_run ex_dkg_params 1 p hist sup /\ PES_complete p = Ret (Ok a) /\ (forall i, i < 3 -> In i sup).
Proof.
  assert (Hser : ser_total RE) by exact RE_ser_total.
  assert (Hbig : (2 ^ 64 <= order RL)%Z) by (vm_compute; discriminate).
  assert (Hp : params_ok ex_dkg_params) by (split; [cbn; lia|vm_compute; reflexivity]).
  destruct (C36_start_never_panics RE RL Hser ex_dkg_params 0 5%Z Hp ltac:(cbn; lia)) as (p0 & r0 & H0).
  pose (ps := fun i => match PCC_new (E:=RE) ex_dkg_params i 5%Z with Ret (p, _) => p | Panic _ => p0 end).
  assert (Hps : forall i, i < pa_shares ex_dkg_params -> exists r r', PCC_new ex_dkg_params i r = Ret (ps i, r')).
  { intros i Hi. destruct (C36_start_never_panics RE RL Hser ex_dkg_params i 5%Z Hp Hi) as (p & r' & H).
    exists 5%Z, r'. unfold ps. rewrite H. reflexivity. }
  assert (Ho : delivery_order 3 1 [0; 2]).
  { unfold delivery_order. cbn. apply perm_swap. }
  destruct (h_pes_run RE RL ex_dkg_params ps Hps 1 ltac:(cbn; lia)) as [hist Hr].
  destruct (mapM_ser_ok (fun i => generator * peval (h_total RE RL ex_dkg_params ps) (node i))%E
              (seq 0 (pa_shares ex_dkg_params))) as [keys Hkeys]; [intros; apply (ser_total_some RL Hser)|].
  destruct (ser_total_some RL Hser (generator * peval (h_total RE RL ex_dkg_params ps) 0%S)%E) as [b0 Hb0].
  destruct (phase3 RE RL Hbig ex_dkg_params Hp ps Hps keys
              {| pk_bytes := b0; pk_element := (generator * peval (h_total RE RL ex_dkg_params ps) 0%S)%E |} 1 [0; 2] Hkeys)
    as (p' & D1 & D2 & D3).
  - unfold PublicKey_from_element. rewrite Hb0. reflexivity.
  - intros. apply (ser_total_some RL Hser).
  - exact Ho.
  - pose proof (deliver_shares_run RE ex_dkg_params 1 _ _ _ hist _ Hr D1) as Hr'.
    exists p', hist. eexists _, _. split; [exact Hr'|]. split; [exact D3|].
    apply (pes_run_inv RE RL) in Hr'. rewrite (pes_missing_inv RE RL _ _ _ _ _ Hr') in D2.
    exact (proj1 (not_supplied_nil 3 _) D2).
Qed.

(** wrong messages in the same run: a wrong share, a duplicate share, a polynomial of another participant,
    a polynomial of a wrong degree, a proof for another polynomial *)
Definition ex_verdict (seed : Z) (f : PublicInfo RE -> PublicInfo RE) : outcome (result unit DkgError) :=
  p <- ex_phase1 seed 0 ;; info <- ex_info seed 1 ;;
  '(res, _) <- PCP_insert_public_polynomial p 1 (f info) ;; Ret res.
Definition ex_share_verdict (seed : Z) (j : nat) (f : Scalar RE -> Scalar RE) : outcome (result unit DkgError) :=
  res <- ex_phase2 seed 0 [] ;;
  match res with
  | Err e => Ret (Err e)
  | Ok p => q <- ex_start seed j ;; s <- Dealer_secret_share_for_participant (pcc_dealer q) 0 ;;
            '(res, _) <- PES_insert_secret_share p j (f s) ;; Ret res
  end.
Definition with_polynomial (info : PublicInfo RE) (P : list (Element RE)) : PublicInfo RE :=
  {| pi_polynomial := P; pi_pop := pi_pop info; pi_opening := pi_opening info |}.
Example C39_example :
  ex_verdict 5 (fun i => i) = Ret (Ok tt) /\
  ex_verdict 5 (fun i => with_polynomial i (re 1 :: tl (pi_polynomial i))) = Ret (Err InvalidCommitment) /\
  ex_verdict 5 (fun i => {| pi_polynomial := pi_polynomial i; pi_pop := pi_pop i; pi_opening := [] |})
    = Ret (Err InvalidCommitment) /\
  ex_verdict 5 (fun i => with_polynomial i (pi_polynomial i ++ [re 1]))
    = Ret (Err (MalformedParticipantProof MalformedDealerPolynomial)) /\
  ex_verdict 5 (fun i => with_polynomial i [hd (re 0) (pi_polynomial i); re 1])
    = Ret (Err (MalformedParticipantProof (InvalidDealerProof ChallengeMismatch))) /\
  ex_verdict 5 (fun i => with_polynomial i []) = Panic PIndex.
Proof. vm_compute. repeat split. Qed.
Example C38_example :
  ex_share_verdict 5 1 (fun s => s) = Ret (Ok tt) /\
  ex_share_verdict 5 1 (fun s => (s + 1)%S) = Ret (Err DkgInvalidSecret) /\
  ex_share_verdict 5 0 (fun s => s) = Ret (Err DuplicateShare) /\
  match (res <- ex_phase2 5 0 [] ;; match res with Ok p => Ret (PES_missing_shares p) | Err _ => Ret [] end) with
  | Ret l => l = [1; 2] | _ => False end.
Proof. vm_compute. repeat split. Qed.

(** C40: replacing the receiver's own polynomial after the honest messages makes an otherwise honest run fail *)
Definition ex_replaced (seed : Z) (i : nat) : outcome (PublicInfo RE) :=
  q <- ex_start seed i ;;
  let a := map kp_secret (de_polynomial (pcc_dealer q)) in
  let a' := hd 0%S a :: map (fun s => s + 1)%S (tl a) in
  keys <- mapM PublicKey_from_element (in_exponent a') ;;
  '(pop, _, _) <- ProofOfPossession_from_keys a' keys (share_poly_transcript ex_dkg_params) 77%Z ;;
  Ret {| pi_polynomial := in_exponent a'; pi_pop := pop; pi_opening := pcc_opening q |}.
Example C40_example :
  match (info <- ex_replaced 5 1 ;; ex_dkg 5 1 [(1, info)]) with
  | Ret (Err (InconsistentPublicShares SharingInvalidSecret)) => True
  | _ => False
  end.
Proof. vm_compute. exact I. Qed.
