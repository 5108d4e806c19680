(** * C75: elections with a distributed key

    C54 for keys of a distributed key generation with arbitrary messages: participants that have accepted the same
    polynomials have the same key set, and what any [t] of them decrypt are the totals of accepted ballots.  Participants
    that have accepted different polynomials of somebody for the same commitment have the same shared key, too, but cannot
    decrypt together ([C75_equivocation_refuted]). *)
From Coq Require Import List NArith ZArith Arith String Bool Lia.
From Verif.Model Require Import Base Group Transcript Keys Encryption LogEquality Possession Ring Range Choice Sharing Dkg Quadratic.
From Verif.Spec Require Import Encryption Sigma Range Choice Sharing Dkg Tally Quadratic.
From Verif.Proofs Require Import Lists Algebra Poly Encryption Choice Sharing Dkg DkgHonest.
From Verif.Properties Require Import LogEquality Keys Sharing Choice Quadratic Dkg Tally.
From Verif.Instance Require Import Primality Zq.
Import ListNotations.
Open Scope string_scope.
Open Scope list_scope.
Open Scope nat_scope.

Lemma Forall2_in_r {A B : Type} (R : A -> B -> Prop) l l' : Forall2 R l l' -> forall b, In b l' -> exists a, In a l /\ R a b.
Proof.
  intros H. induction H as [|a b l l' HR H IH]; intros b' []; [subst b'; exists a; split; [left; reflexivity|exact HR]|].
  destruct (IH b' ltac:(assumption)) as (a' & Ha & HR'). exists a'. split; [right; exact Ha|exact HR'].
Qed.

Lemma complete_key_set (E : Env) (p p' : ParticipantExchangingSecrets E) a a' :
  pes_params p = pes_params p' -> pes_public_polynomials p = pes_public_polynomials p' ->
  PES_complete p = Ret (Ok a) -> PES_complete p' = Ret (Ok a') -> ap_key_set a = ap_key_set a'.
Proof.
  intros Hp Hq H H'. unfold PES_complete in H, H'. rewrite <- Hp, <- Hq in H'.
  destruct (PES_missing_shares p); [|discriminate]. destruct (PES_missing_shares p'); [|discriminate].
  inv_bind H. rewrite Hm in H'. cbn [bind] in H'. inv_bind H. rewrite Hm0 in H'. cbn [bind] in H'.
  inv_bind H. rewrite Hm1 in H'. cbn [bind] in H'. destruct a2 as [ks|e]; [|discriminate].
  inv_bind H. inv_bind H'. destruct a2 as [b|]; [|discriminate]. destruct a3 as [b'|]; [|discriminate]. injection H as <-. injection H' as <-.
  unfold ActiveParticipant_new in Hm2, Hm3. inv_bind Hm2. inv_bind Hm3.
  destruct (e_eqb _ _) in Hm2; [|discriminate]. destruct (e_eqb _ _) in Hm3; [|discriminate]. injection Hm2 as <-. injection Hm3 as <-. reflexivity.
Qed.

Theorem C75_same_key_set :
  forall (E : Env) (L : GroupLaws E) params idx idx' (p p' : ParticipantExchangingSecrets E) hist hist' sup sup' a a',
    pes_run params idx p hist sup -> pes_run params idx' p' hist' sup' ->
    PES_complete p = Ret (Ok a) -> PES_complete p' = Ret (Ok a') ->
    (forall i, i < pa_shares params -> latest hist i = latest hist' i) -> ap_key_set a = ap_key_set a'.
Proof.
  intros E L params idx idx' p p' hist hist' sup sup' a a' Hr Hr' Ha Ha' Hl.
  destruct (pes_run_inv E L params idx p hist sup Hr) as (H1 & _ & _ & _ & _ & H6 & H7 & _).
  destruct (pes_run_inv E L params idx' p' hist' sup' Hr') as (H1' & _ & _ & _ & _ & H6' & H7' & _).
  apply (complete_key_set E p p' a a'); [congruence| |exact Ha|exact Ha'].
  apply nth_error_ext. intros i. destruct (Nat.lt_ge_cases i (pa_shares params)) as [Hi|Hi].
  - rewrite H7, H7'. apply Hl. exact Hi.
  - rewrite !(proj2 (nth_error_None _ _)) by lia. reflexivity.
Qed.
Print Assumptions C75_same_key_set.

(** the key of a completed key generation, whatever the messages were; and verified shares of [t] participants, whoever
    they are *)
Theorem C75_threshold :
  forall (E : Env) (L : GroupLaws E), (2 ^ 64 <= order L)%Z ->
  forall params idx (p : ParticipantExchangingSecrets E) hist sup a, params_ok params ->
    pes_run params idx p hist sup -> PES_complete p = Ret (Ok a) ->
  let ks := ap_key_set a in
  exists sk, key_of sk (ks_shared_key ks) /\
  forall (ct : Ciphertext E) (v : N) taken rest values,
    decrypt_to_element sk ct = times v generator ->
    List.length taken = pa_threshold params -> NoDup (map fst taken) ->
    (forall s, In s taken -> fst s < pa_shares params /\ accepted_share ks ct s) ->
    (forall x, In x values -> (x < 2 ^ 64)%N) -> v = 0%N \/ In v values ->
    (exists dec tbl, combine_shares params (taken ++ rest) = Ret (Some dec) /\
       DiscreteLogTable_new (E:=E) values = Ret tbl /\
       VerifiableDecryption_decrypt dec ct tbl = Ret (Some v)) \/
    exists s, In s taken /\ share_hit ks ct (fst s) (vd_dh_element (snd s)).
Proof.
  intros E L Hbig params idx p hist sup act Hp Hr Hc ks.
  destruct (complete_facts E L Hbig params idx p hist sup act Hp Hr Hc) as (_ & _ & K1 & A4 & a & A1 & A5 & A3 & _). fold ks in K1, A3, A4, A5.
  exists (peval a 0%S). split; [exact A3|]. intros ct v taken rest values Hd Hlen Hnd Hs Hvals Hv.
  assert (Hcases : (forall s, In s taken -> vd_dh_element (snd s) = (random_element ct * peval a (s_of_u64 (N.of_nat (fst s + 1))))%E) \/
                   exists s, In s taken /\ share_hit ks ct (fst s) (vd_dh_element (snd s))).
  { clear Hlen Hnd. induction taken as [|s taken IH]; [left; intros s []|].
    destruct IH as [IH|(s' & Hin & Hh)]; [intros s' Hin; apply Hs; right; exact Hin| |right; exists s'; split; [right; exact Hin|exact Hh]].
    destruct (e_eq_dec L (vd_dh_element (snd s)) (random_element ct * peval a (s_of_u64 (N.of_nat (fst s + 1))))%E) as [He|He].
    - left. intros s' [<-|Hin]; [exact He|exact (IH s' Hin)].
    - right. exists s. split; [left; reflexivity|].
      destruct (Hs s (or_introl eq_refl)) as (Hi & cand & pf & Hver).
      destruct (nth_error (ks_participant_keys ks) (fst s)) as [key|] eqn:Hkey; [|apply nth_error_None in Hkey; lia].
      destruct (C34_share_sound E L ks cand ct (fst s) pf (snd s) key _ Hver Hkey (A5 _ _ Hkey)) as [_ Hsound].
      destruct (Hsound He) as (base & X0 & X1 & q & S1 & S2 & S3 & S4). exists key, base, X0, X1, q. auto. }
  destruct Hcases as [Hgood|Hh]; [left|right; exact Hh].
  destruct Hp as [[Ht1 Ht2] Hn].
  destruct (C29_combine_correct E L Hbig params a ct taken rest Hn) as (dec & D1 & _ & D2);
    [lia|exact Hlen|exact Hnd|intros i d Hin; split; [exact (proj1 (Hs (i, d) Hin))|exact (Hgood (i, d) Hin)]|].
  destruct (table_new_ok E L Hbig values Hvals) as (tbl & Ht & Hget & _).
  exists dec, tbl. split; [exact D1|]. split; [exact Ht|]. unfold VerifiableDecryption_decrypt. rewrite D2, Hd.
  rewrite (times_of_u64 E L) by (destruct Hv as [->|Hv]; [reflexivity|exact (Hvals _ Hv)]). apply Hget. exact Hv.
Qed.
Print Assumptions C75_threshold.

(** [t] participants that have completed the key generation (with others that may have sent anything) and have accepted
    the same polynomials as the first one: for any ciphertext, each of them can compute a share; the first one accepts the
    shares; and together they decrypt exactly the number that the ciphertext encrypts for the shared key. *)
Definition can_tally {E : Env} params hist (a : ActiveParticipant E) (ct : Ciphertext E) values (v : N) : Prop :=
  forall talliers,
    List.length talliers = pa_threshold params -> NoDup (map ap_index talliers) ->
    (forall a', In a' talliers -> exists p' hist' sup',
       pes_run params (ap_index a') p' hist' sup' /\ PES_complete p' = Ret (Ok a') /\
       forall j, j < pa_shares params -> latest hist j = latest hist' j) ->
    (forall a' r, In a' talliers -> exists d pf r', ActiveParticipant_decrypt_share a' ct r = Ret (d, pf, r')) /\
    forall shares,
      Forall2 (fun a' s => fst s = ap_index a' /\ exists r pf r', ActiveParticipant_decrypt_share a' ct r = Ret (snd s, pf, r')) talliers shares ->
      (forall s, In s shares -> accepted_share (ap_key_set a) ct s) /\
      exists dec tbl, combine_shares params shares = Ret (Some dec) /\
        DiscreteLogTable_new (E:=E) values = Ret tbl /\
        VerifiableDecryption_decrypt dec ct tbl = Ret (Some v).

Theorem C75_talliers :
  forall (E : Env) (L : GroupLaws E), (2 ^ 64 <= order L)%Z -> ser_total E ->
  forall params idx (p : ParticipantExchangingSecrets E) hist sup a, params_ok params ->
    pes_run params idx p hist sup -> PES_complete p = Ret (Ok a) ->
  exists sk, key_of sk (ks_shared_key (ap_key_set a)) /\
  forall (ct : Ciphertext E) values v,
    decrypt_to_element sk ct = times v generator ->
    (forall x, In x values -> (x < 2 ^ 64)%N) -> v = 0%N \/ In v values ->
    can_tally params hist a ct values v.
Proof.
  intros E L Hbig Hser params idx p hist sup a Hp Hr Hc.
  set (ks := ap_key_set a) in *.
  destruct (complete_facts E L Hbig params idx p hist sup a Hp Hr Hc) as (_ & _ & K1 & A4 & A & A1 & A5 & A3 & _). fold ks in K1, A3, A4, A5.
  exists (peval A 0%S). split; [exact A3|]. intros ct values v Hv Hv64 Hin talliers Ht Hnd Htal. fold ks.
  assert (Hact : forall a', In a' talliers -> ap_key_set a' = ks /\ ap_index a' < pa_shares params /\ ap_secret_share a' = peval A (node (ap_index a')) /\
    ActiveParticipant_new ks (ap_index a') (ap_secret_share a') = Ret (Ok a')).
  { intros a' Ha'. destruct (Htal a' Ha') as (p' & hist' & sup' & Hr' & Hc' & Hsame).
    assert (Hks : ap_key_set a' = ks) by (symmetry; exact (C75_same_key_set E L params idx _ p p' hist hist' sup sup' a a' Hr Hr' Hc Hc' Hsame)).
    destruct (complete_facts E L Hbig params _ p' hist' sup' a' Hp Hr' Hc') as (_ & I2 & _ & _ & B & B1 & B2 & _ & B4 & _).
    rewrite Hks in B2.
    assert (HAB : A = B).
    { rewrite (keys_of_poly_unique E L Hbig params _ A Hp A4 A1 A5). symmetry. exact (keys_of_poly_unique E L Hbig params _ B Hp A4 B1 B2). }
    subst B. split; [exact Hks|]. split; [exact I2|]. split; [exact B4|].
    destruct (nth_error (ks_participant_keys ks) (ap_index a')) as [key|] eqn:Hkey; [|apply nth_error_None in Hkey; lia].
    unfold ActiveParticipant_new, index. rewrite Hkey. cbn [bind].
    rewrite (A5 _ _ Hkey), B4, (mul_generator_ok E L). change (s_of_u64 (N.of_nat (ap_index a' + 1))) with (node (G:=E) (ap_index a')).
    rewrite (e_eqb_refl L), <- B4, <- Hks. destruct a'; reflexivity. }
  split.
  - intros a' r Ha'. destruct (Hact a' Ha') as (_ & _ & _ & Hnew). exact (C34_share_never_panics E L Hser ks _ _ a' ct r Hnew).
  - intros shares Hsh.
    assert (Hfst : map fst shares = map ap_index talliers).
    { clear - Hsh. induction Hsh as [|a' s ts ss [H _] _ IH]; [reflexivity|]. cbn [map]. congruence. }
    assert (Hgood : forall s, In s shares -> fst s < pa_shares params /\ vd_dh_element (snd s) = (random_element ct * peval A (s_of_u64 (N.of_nat (fst s + 1))))%E /\
      accepted_share ks ct s).
    { intros s Hs. destruct (Forall2_in_r _ _ _ Hsh s Hs) as (a' & Ha' & Hf & r & pf & r' & Hd).
      destruct (Hact a' Ha') as (_ & I2 & B4 & Hnew). destruct (C34_share_complete E L ks _ _ a' ct r _ pf r' Hnew Hd) as [S1 S2].
      rewrite Hf. split; [exact I2|]. split; [rewrite S1, B4; reflexivity|]. exists {| cd_inner := snd s |}, pf. rewrite Hf. exact S2. }
    split; [intros s Hs; exact (proj2 (proj2 (Hgood s Hs)))|].
    assert (Hls : List.length shares = pa_threshold params) by (rewrite <- (map_length fst), Hfst, map_length; exact Ht).
    destruct (C29_combine_correct E L Hbig params A ct shares [] (proj2 Hp)) as (dec & D1 & _ & D2);
      [lia|exact Hls|rewrite Hfst; exact Hnd|intros j d Hjd; destruct (Hgood (j, d) Hjd) as (G1 & G2 & _); split; assumption|].
    rewrite app_nil_r in D1.
    destruct (table_new_ok E L Hbig values Hv64) as (tbl & Htb & Hget & _).
    exists dec, tbl. split; [exact D1|]. split; [exact Htb|]. unfold VerifiableDecryption_decrypt. rewrite D2, Hv.
    rewrite (times_of_u64 E L) by (destruct Hin as [->|Hin]; [reflexivity|exact (Hv64 _ Hin)]). apply Hget. exact Hin.
Qed.
Print Assumptions C75_talliers.

(** A complete election without a dealer: [t] participants that have completed the key generation (with others that may
    have sent anything) and have accepted the same polynomials decrypt the totals of the ballots that were accepted with
    the key of the first one.  They are the numbers of ballots that chose the options, or some voter cheated in a proof. *)
Theorem C75_election :
  forall (E : Env) (L : GroupLaws E), (2 ^ 64 <= order L)%Z -> ser_total E ->
  forall params idx (p : ParticipantExchangingSecrets E) hist sup a, params_ok params ->
    pes_run params idx p hist sup -> PES_complete p = Ret (Ok a) ->
  forall n cp (es : list (EncryptedChoice SingleChoice)) ballots values,
    ChoiceParams_single (ks_shared_key (ap_key_set a)) n = Ret cp -> (Z.of_nat n < order L)%Z ->
    Forall2 (fun e cts => EncryptedChoice_verify e cp = Ret (Ok cts)) es ballots ->
    (forall x, In x values <-> (x <= N.of_nat (List.length es))%N) -> (N.of_nat (List.length es) < 2 ^ 64)%N ->
    (exists chosen, List.length chosen = List.length es /\ (forall k, In k chosen -> k < n) /\
       forall i ct, nth_error (tally n ballots) i = Some ct ->
         can_tally params hist a ct values (N.of_nat (count_occ Nat.eq_dec chosen i))) \/
    (exists cts, In cts ballots /\
       ((exists k, bit_hit choice_ranges_context (ks_shared_key (ap_key_set a)) cts k) \/
        log_hit choice_sum_context (ks_shared_key (ap_key_set a)) (random_element (ct_total cts)) (blinded_element (ct_total cts) - generator)%E)).
Proof.
  intros E L Hbig Hser params idx p hist sup a Hp Hr Hc n cp es ballots values Hcp Hn Hes Hvals Hlen.
  destruct (C75_talliers E L Hbig Hser params idx p hist sup a Hp Hr Hc) as (sk & Hk & Htal).
  destruct (C54_single_choices E L sk _ n cp es ballots Hn Hk Hcp Hes) as [(chosen & C1 & C2 & C3 & C4)|Hh]; [left|right; exact Hh].
  exists chosen. split; [exact C1|]. split; [exact C2|]. intros i ct Hi. apply (Htal ct values _ (C4 i ct Hi)).
  - intros x Hx. apply Hvals in Hx. lia.
  - right. apply Hvals. pose proof (count_occ_bound Nat.eq_dec i chosen). lia.
Qed.
Print Assumptions C75_election.

(** the same with multi-choice ballots: any number of options per ballot *)
Theorem C75_multi_election :
  forall (E : Env) (L : GroupLaws E), (2 ^ 64 <= order L)%Z -> ser_total E ->
  forall params idx (p : ParticipantExchangingSecrets E) hist sup a, params_ok params ->
    pes_run params idx p hist sup -> PES_complete p = Ret (Ok a) ->
  forall n cp (es : list (EncryptedChoice MultiChoice)) ballots values,
    ChoiceParams_multi (ks_shared_key (ap_key_set a)) n = Ret cp ->
    Forall2 (fun e cts => EncryptedChoice_verify e cp = Ret (Ok cts)) es ballots ->
    (forall x, In x values <-> (x <= N.of_nat (List.length es))%N) -> (N.of_nat (List.length es) < 2 ^ 64)%N ->
    (exists chosen : list (list bool), List.length chosen = List.length es /\ (forall flags, In flags chosen -> List.length flags = n) /\
       forall i ct, nth_error (tally n ballots) i = Some ct ->
         can_tally params hist a ct values (N.of_nat (List.length (filter (fun flags => nth i flags false) chosen)))) \/
    (exists cts k, In cts ballots /\ bit_hit choice_ranges_context (ks_shared_key (ap_key_set a)) cts k).
Proof.
  intros E L Hbig Hser params idx p hist sup a Hp Hr Hc n cp es ballots values Hcp Hes Hvals Hlen.
  destruct (C75_talliers E L Hbig Hser params idx p hist sup a Hp Hr Hc) as (sk & Hk & Htal).
  destruct (C54_multi_choices E L sk _ n cp es ballots Hk Hcp Hes) as [(chosen & C1 & C2 & C3 & C4)|Hh]; [left|right; exact Hh].
  exists chosen. split; [exact C1|]. split; [exact C2|]. intros i ct Hi. apply (Htal ct values _ (C4 i ct Hi)).
  - intros x Hx. apply Hvals in Hx. lia.
  - right. apply Hvals. rewrite <- C1. clear. induction chosen as [|f chosen IH]; cbn [filter List.length]; [lia|].
    destruct (nth i f false); cbn [List.length]; lia.
Qed.
Print Assumptions C75_multi_election.

(** the same with quadratic-voting ballots: the totals are at most the number of ballots times the greatest vote *)
Theorem C75_quadratic_election :
  forall (E : Env) (L : GroupLaws E), (2 ^ 64 <= order L)%Z -> ser_total E ->
  forall params idx (p : ParticipantExchangingSecrets E) hist sup a, params_ok params ->
    pes_run params idx p hist sup -> PES_complete p = Ret (Ok a) ->
  forall options credits m qp (bs : list (QuadraticVotingBallot E)) ballots values,
    (credits + 65 < 2 ^ 64)%N -> qv_params (ks_shared_key (ap_key_set a)) options credits m qp ->
    (Z.of_nat options * (Z.of_N m * Z.of_N m) < order L)%Z ->
    Forall2 (fun b cts => QuadraticVotingBallot_verify b qp = Ret (Ok cts)) bs ballots ->
    (forall x, In x values <-> (x <= N.of_nat (List.length bs) * m)%N) -> (N.of_nat (List.length bs) * m < 2 ^ 64)%N ->
    (exists votes, List.length votes = List.length bs /\
       Forall (fun vs => List.length vs = options /\ Forall (fun v => (v <= m)%N) vs /\ (squares vs <= credits)%N) votes /\
       forall i ct, nth_error (tally options ballots) i = Some ct -> can_tally params hist a ct values (column i votes)) \/
    (exists sk b, key_of sk (ks_shared_key (ap_key_set a)) /\ In b bs /\
       ((exists v, In v (qb_votes b) /\
          range_hit sk qv_variant_context (ks_shared_key (ap_key_set a)) (pr_inner (qv_vote_count_range qp))
            (rap_partial (crp_range_proof v)) (crp_ciphertext v)) \/
        range_hit sk qv_credit_context (ks_shared_key (ap_key_set a)) (pr_inner (qv_credit_range qp))
          (rap_partial (crp_range_proof (qb_credit b))) (crp_ciphertext (qb_credit b)) \/
        sq_hit qv_equiv_context (ks_shared_key (ap_key_set a)) (map crp_ciphertext (qb_votes b)) (crp_ciphertext (qb_credit b)))).
Proof.
  intros E L Hbig Hser params idx p hist sup a Hp Hr Hc options credits m qp bs ballots values Hcr Hq Hb Hbs Hvals Hlen.
  destruct (C75_talliers E L Hbig Hser params idx p hist sup a Hp Hr Hc) as (sk & Hk & Htal).
  destruct (C54_quadratic E L sk _ options credits m qp bs ballots Hcr Hq Hk Hb ltac:(lia) Hbs) as [(votes & C1 & C2 & C3 & C4)|(b & Hin & Hh)];
    [left|right; exists sk, b; auto].
  exists votes. split; [exact C1|]. split; [exact C2|]. intros i ct Hi. apply (Htal ct values _ (C4 i ct Hi)).
  - intros x Hx. apply Hvals in Hx. lia.
  - right. apply Hvals. rewrite <- C1. clear - C2. unfold column. induction C2 as [|vs votes (_ & Hm & _) _ IH]; cbn [map fold_right List.length]; [lia|].
    assert (Hn : (nth i vs 0 <= m)%N).
    { destruct (nth_in_or_default i vs 0%N) as [Hin| ->]; [exact (proj1 (Forall_forall _ _) Hm _ Hin)|lia]. }
    lia.
Qed.
Print Assumptions C75_quadratic_election.

(** ** What the commitments ensure: those who have the same commitments have the same shared key *)
Lemma own_opened (E : Env) params idx (p : ParticipantCollectingCommitments E) coms : pcc_run params idx p coms ->
  exists e0 rest b, fst (Dealer_public_info (pcc_dealer p)) = e0 :: rest /\ serialize_element e0 = Ret b /\
    latest coms idx = Some (@sha256 E (b ++ pcc_opening p)).
Proof.
  intros Hr. induction Hr as [r p r' c H Hc|p coms j c p' Hr IH H].
  - destruct (pcc_new_ok E params idx r p r' H) as (d & r1 & op & e0 & b & _ & _ & He & Hb & -> & Hc').
    cbn [pcc_dealer pcc_opening]. destruct (fst (Dealer_public_info d)) as [|e rest]; [discriminate|]. injection He as ->.
    exists e0, rest, b. split; [reflexivity|]. split; [exact Hb|]. rewrite latest_cons, Nat.eqb_refl. congruence.
  - pose proof H as H'. apply (pcc_insert_Ret E) in H as [Hj ->]. cbn [pcc_dealer pcc_opening].
    destruct IH as (e0 & rest & b & H1 & H2 & H3). exists e0, rest, b. split; [exact H1|]. split; [exact H2|].
    rewrite latest_cons. destruct (Nat.eqb_spec idx j) as [<-|_]; [|exact H3].
    apply (pcc_run_inv E) in Hr. destruct Hr as (_ & _ & Hi & _ & _ & _ & _ & Hh). rewrite (Hh idx Hi), H3 in Hj. discriminate.
Qed.

Lemma accepted_opened (E : Env) (L : GroupLaws E) params idx (q : ParticipantCollectingPolynomials E) coms hist : pcp_run params idx q coms hist ->
  forall j P, In (j, P) hist -> exists e0 rest b op, P = e0 :: rest /\ serialize_element e0 = Ret b /\ latest coms j = Some (@sha256 E (b ++ op)).
Proof.
  intros Hr. induction Hr as [p coms q Hr Hf|q coms hist j info res q' Hr IH H]; intros i P Hin.
  - destruct Hin as [Hin|[]]. apply pair_equal_spec in Hin as [<- <-]. destruct (own_opened E params idx p coms Hr) as (e0 & rest & b & H1 & H2 & H3).
    rewrite (pcc_finish_eq E params idx p coms Hr) in Hf. destruct (not_supplied _ _); [|discriminate]. injection Hf as <-.
    exists e0, rest, b, (pcc_opening p). split; [exact H1|]. auto.
  - destruct res as [[]|e]; [|exact (IH i P Hin)]. destruct Hin as [Hin|Hin]; [|exact (IH i P Hin)]. injection Hin as <- <-.
    destruct (proj1 (C39_accepts_iff E L params idx q coms hist j info Hr) (ex_intro _ q' H)) as [(e0 & rest & b & P1 & P2 & P3) _].
    exists e0, rest, b, (pi_opening info). auto.
Qed.

Theorem C75_same_commitments_same_key :
  forall (E : Env) (L : GroupLaws E), (2 ^ 64 <= order L)%Z ->
  forall params idx idx' (q q' : ParticipantCollectingPolynomials E) coms coms' (p p' : ParticipantExchangingSecrets E) hist hist' sup sup' a a',
    params_ok params ->
    pcp_run params idx q coms hist -> pes_run params idx p hist sup -> PES_complete p = Ret (Ok a) ->
    pcp_run params idx' q' coms' hist' -> pes_run params idx' p' hist' sup' -> PES_complete p' = Ret (Ok a') ->
    (forall i, i < pa_shares params -> latest coms i = latest coms' i) ->
    pk_element (ks_shared_key (ap_key_set a)) = pk_element (ks_shared_key (ap_key_set a')) \/
    exists x y, x <> y /\ @sha256 E x = @sha256 E y.
Proof.
  intros E L Hbig params idx idx' q q' coms coms' p p' hist hist' sup sup' a a' Hp Hq Hr Ha Hq' Hr' Ha' Hc.
  destruct (C37_completed_consistent E L Hbig params idx p hist sup a Hp Hr Ha) as (_ & _ & _ & Ps & P1 & P2 & P3 & _).
  destruct (C37_completed_consistent E L Hbig params idx' p' hist' sup' a' Hp Hr' Ha') as (_ & _ & _ & Ps' & P1' & P2' & P3' & _).
  assert (Hheads : forall i P P', nth_error Ps i = Some P -> nth_error Ps' i = Some P' -> hd identity P = hd identity P' \/ exists x y, x <> y /\ @sha256 E x = @sha256 E y).
  { intros i P P' HP HP'. assert (Hi : i < pa_shares params) by (rewrite <- P1; apply nth_error_Some; congruence).
    rewrite P2 in HP. rewrite P2' in HP'. apply latest_In in HP, HP'.
    destruct (accepted_opened E L params idx q coms hist Hq i P HP) as (e0 & rest & b & op & -> & S1 & O1).
    destruct (accepted_opened E L params idx' q' coms' hist' Hq' i P' HP') as (e0' & rest' & b' & op' & -> & S1' & O1').
    rewrite (Hc i Hi), O1' in O1. injection O1 as O1. cbn [hd].
    destruct (bytes_eqb (b ++ op) (b' ++ op')) eqn:Hb.
    - left. apply bytes_eqb_ok in Hb. destruct (ser_element_ok E L e0 b S1) as [Hl Hd]. destruct (ser_element_ok E L e0' b' S1') as [Hl' Hd'].
      assert (Hlb : List.length b = List.length b') by congruence. destruct (app_inj_len b b' _ _ Hlb Hb) as [-> _]. congruence.
    - right. exists (b ++ op), (b' ++ op'). split; [|congruence]. intros Heq. rewrite Heq, bytes_eqb_refl in Hb. discriminate. }
  rewrite P3, P3'. clear - Hheads P1 P1'. rewrite <- P1 in P1'. clear P1. revert Ps' P1' Hheads.
  induction Ps as [|P Ps IH]; intros [|P' Ps'] Hl Hheads; try discriminate; [left; reflexivity|].
  destruct (Hheads 0 P P' eq_refl eq_refl) as [Hh|Hcol]; [|right; exact Hcol].
  destruct (IH Ps' ltac:(cbn in Hl; congruence) (fun i => Hheads (S i))) as [Ht|Hcol]; [|right; exact Hcol].
  left. cbn [map fold_right]. rewrite Hh, Ht. reflexivity.
Qed.
Print Assumptions C75_same_commitments_same_key.

(** ** Equivocation

    The hash commitment covers the constant term only.  So a participant can send polynomials with different other
    coefficients, and shares that fit them, to the others.  In the 2-of-3 example below, participants 0 and 1 are honest and
    receive the same commitments; both complete, with the same shared key; but they have different key sets, their
    decryption shares do not decrypt, and each of them rejects the share of the other. *)
(** participant [i] receives the commitments of all, polynomials and shares *)
Record completed := { cm_q : ParticipantCollectingPolynomials RE; cm_p : ParticipantExchangingSecrets RE; cm_a : ActiveParticipant RE }.
Definition ex_receive (i : nat) (infos : list (nat * PublicInfo RE)) (shares : list (nat * SecretKey RE)) : outcome (option completed) :=
  q <- ex_phase1 5 i ;;
  res <- deliver_polynomials q infos ;;
  match res with
  | Err _ => Ret None
  | Ok q =>
      p <- PCP_finish_polynomials_phase q ;;
      res <- deliver_shares p shares ;;
      match res with
      | Err _ => Ret None
      | Ok p =>
          res <- PES_complete p ;;
          match res with Err _ => Ret None | Ok a => Ret (Some {| cm_q := q; cm_p := p; cm_a := a |}) end
      end
  end.

Definition ex_two : outcome (option (completed * completed)) :=
  info0 <- ex_info 5 0 ;;
  info1 <- ex_info 5 1 ;;
  info2 <- ex_info 5 2 ;;
  info2' <- ex_replaced 5 2 ;;
  shares0 <- ex_shares 5 0 ;;
  shares1 <- ex_shares 5 1 ;;
  c0 <- ex_receive 0 [(1, info1); (2, info2)] shares0 ;;
  c1 <- ex_receive 1 [(0, info0); (2, info2')] (map (fun s => (fst s, if fst s =? 2 then (snd s + s_of_u64 2)%S else snd s)) shares1) ;;
  match c0, c1 with Some c0, Some c1 => Ret (Some (c0, c1)) | _, _ => Ret None end.

Fixpoint same_bytes (l l' : list bytes) : bool :=
  match l, l' with [], [] => true | b :: l, b' :: l' => bytes_eqb b b' && same_bytes l l' | _, _ => false end.

Definition ex_disagree (c0 c1 : completed) : bool :=
  same_bytes (pcp_commitments (cm_q c0)) (pcp_commitments (cm_q c1)) &&
  e_eqb (pk_element (ks_shared_key (ap_key_set (cm_a c0)))) (pk_element (ks_shared_key (ap_key_set (cm_a c1)))) &&
  (let '(ct, rng) := encrypt (ks_shared_key (ap_key_set (cm_a c0))) (s_of_u64 7) 99%Z in
   match ActiveParticipant_decrypt_share (cm_a c0) ct rng, ActiveParticipant_decrypt_share (cm_a c1) ct rng with
   | Ret (d0, pf0, _), Ret (d1, pf1, _) =>
       match combine_shares ex_dkg_params [(0, d0); (1, d1)] with
       | Ret (Some dec) => negb (e_eqb (VerifiableDecryption_decrypt_to_element dec ct) (generator * s_of_u64 7)%E)
       | _ => false
       end &&
       match PublicKeySet_verify_share (ap_key_set (cm_a c0)) {| cd_inner := d1 |} ct 1 pf1 with Ret (Err _) => true | _ => false end &&
       match PublicKeySet_verify_share (ap_key_set (cm_a c1)) {| cd_inner := d0 |} ct 0 pf0 with Ret (Err _) => true | _ => false end
   | _, _ => false
   end).

Lemma find_result {A : Type} (m : outcome (option A)) (f : A -> bool) :
  match m with Ret (Some c) => f c | _ => false end = true -> exists c, m = Ret (Some c) /\ f c = true.
Proof. destruct m as [[c|]|]; try discriminate. eauto. Qed.
Lemma find_error {A B : Type} (m : outcome (result A B)) : match m with Ret (Err _) => true | _ => false end = true -> exists e, m = Ret (Err e).
Proof. destruct m as [[|e]|]; try discriminate. eauto. Qed.
Lemma ex_two_disagree : exists c, ex_two = Ret (Some c) /\ ex_disagree (fst c) (snd c) = true.
Proof. apply find_result. vm_compute. reflexivity. Qed.

Lemma same_bytes_eq l : forall l', same_bytes l l' = true -> l = l'.
Proof.
  induction l as [|b l IH]; intros [|b' l'] H; try discriminate; [reflexivity|]. cbn in H. apply andb_true_iff in H as [H1 H2].
  apply bytes_eqb_ok in H1. rewrite H1, (IH l' H2). reflexivity.
Qed.

Lemma ex_receive_runs i infos shares c : ex_receive i infos shares = Ret (Some c) ->
  exists coms hist sup, pcp_run ex_dkg_params i (cm_q c) coms hist /\ pes_run ex_dkg_params i (cm_p c) hist sup /\ PES_complete (cm_p c) = Ret (Ok (cm_a c)).
Proof.
  intros H. unfold ex_receive in H. inv_bind H. inv_bind H. destruct a0 as [q|]; [|discriminate]. inv_bind H. inv_bind H.
  destruct a1 as [p|]; [|discriminate]. inv_bind H. destruct a1 as [a1|]; [|discriminate]. injection H as <-. cbn [cm_q cm_p cm_a].
  unfold ex_phase1 in Hm. inv_bind Hm. inv_bind Hm. inv_bind Hm. unfold ex_start in Hm4. inv_bind Hm4. destruct a5 as [p0 r0]. injection Hm4 as <-.
  destruct (pcc_new_ok RE ex_dkg_params i _ _ _ Hm7) as (d & r1 & op & e0 & b & _ & _ & _ & _ & _ & Hc).
  pose proof (deliver_commitments_run RE ex_dkg_params i _ _ _ _ (pcc_run_new ex_dkg_params i _ _ _ _ Hm7 Hc) Hm6) as R1.
  pose proof (pcp_run_start ex_dkg_params i _ _ _ R1 Hm) as R2.
  pose proof (deliver_polynomials_run RE ex_dkg_params i _ _ _ _ _ R2 Hm0) as R3.
  pose proof (pes_run_start ex_dkg_params i _ _ _ _ R3 Hm1) as R4.
  pose proof (deliver_shares_run RE ex_dkg_params i _ _ _ _ _ R4 Hm2) as R5.
  eexists _, _, _. split; [exact R3|]. split; [exact R5|exact Hm3].
Qed.

Theorem C75_equivocation_refuted :
  exists (E : Env) (L : GroupLaws E), (2 ^ 64 <= order L)%Z /\ ser_total E /\
  exists params q q' coms coms' (p p' : ParticipantExchangingSecrets E) hist hist' sup sup' a a', params_ok params /\
    pcp_run params 0 q coms hist /\ pcp_run params 1 q' coms' hist' /\ pcp_commitments q = pcp_commitments q' /\
    pes_run params 0 p hist sup /\ pes_run params 1 p' hist' sup' /\
    PES_complete p = Ret (Ok a) /\ PES_complete p' = Ret (Ok a') /\
    pk_element (ks_shared_key (ap_key_set a)) = pk_element (ks_shared_key (ap_key_set a')) /\
    pa_threshold params = 2 /\
    exists m r ct r' d d' pf pf' r1 r2 dec,
      encrypt (ks_shared_key (ap_key_set a)) m r = (ct, r') /\
      ActiveParticipant_decrypt_share a ct r' = Ret (d, pf, r1) /\ ActiveParticipant_decrypt_share a' ct r' = Ret (d', pf', r2) /\
      combine_shares params [(0, d); (1, d')] = Ret (Some dec) /\
      VerifiableDecryption_decrypt_to_element dec ct <> (generator * m)%E /\
      (exists e, PublicKeySet_verify_share (ap_key_set a) {| cd_inner := d' |} ct 1 pf' = Ret (Err e)) /\
      (exists e, PublicKeySet_verify_share (ap_key_set a') {| cd_inner := d |} ct 0 pf = Ret (Err e)).
Proof.
  exists RE, RL. split; [exact RE_order_big|]. split; [exact RE_ser_total|].
  destruct ex_two_disagree as ([c0 c1] & Htwo & H). cbn [fst snd] in H.
  assert (Hc : exists i0 s0 i1 s1, ex_receive 0 i0 s0 = Ret (Some c0) /\ ex_receive 1 i1 s1 = Ret (Some c1)).
  { clear H. unfold ex_two in Htwo. do 8 inv_bind Htwo. destruct a5 as [x|]; [|discriminate]. destruct a6 as [y|]; [|discriminate].
    injection Htwo as <- <-. eauto 10. }
  destruct Hc as (i0 & s0 & i1 & s1 & H0 & H1).
  destruct (ex_receive_runs _ _ _ _ H0) as (coms & hist & sup & R1 & R2 & R3).
  destruct (ex_receive_runs _ _ _ _ H1) as (coms' & hist' & sup' & R1' & R2' & R3').
  unfold ex_disagree in H. apply andb_true_iff in H as [H Hrest]. apply andb_true_iff in H as [Hcoms Hkey].
  exists ex_dkg_params, (cm_q c0), (cm_q c1), coms, coms', (cm_p c0), (cm_p c1), hist, hist', sup, sup', (cm_a c0), (cm_a c1).
  split; [split; [cbn; lia|vm_compute; reflexivity]|]. do 2 (split; [assumption|]). split; [exact (same_bytes_eq _ _ Hcoms)|].
  do 4 (split; [assumption|]). split; [apply (e_eqb_ok RE RL); exact Hkey|]. split; [reflexivity|].
  destruct (encrypt (ks_shared_key (ap_key_set (cm_a c0))) (s_of_u64 7) 99%Z) as [ct rng] eqn:Henc.
  destruct (ActiveParticipant_decrypt_share (cm_a c0) ct rng) as [[[d pf] r1]|] eqn:Hd; [|discriminate].
  destruct (ActiveParticipant_decrypt_share (cm_a c1) ct rng) as [[[d' pf'] r2]|] eqn:Hd'; [|discriminate].
  apply andb_true_iff in Hrest as [Hrest Hv1]. apply andb_true_iff in Hrest as [Hdec Hv0].
  apply find_result in Hdec. destruct Hdec as (dec & Hcomb & Hdec).
  exists (s_of_u64 7), 99%Z, ct, rng, d, d', pf, pf', r1, r2, dec. do 3 (split; [assumption|]). split; [exact Hcomb|].
  split; [|split].
  - apply negb_true_iff, (e_eqb_false RL) in Hdec. exact Hdec.
  - apply find_error in Hv0. exact Hv0.
  - apply find_error in Hv1. exact Hv1.
Qed.
Print Assumptions C75_equivocation_refuted.

(** ** Example: participants 0 and 1 that have received the same messages, and ballots for their key *)
Definition ex_honest : outcome (option (completed * completed)) :=
  info0 <- ex_info 5 0 ;;
  info1 <- ex_info 5 1 ;;
  info2 <- ex_info 5 2 ;;
  shares0 <- ex_shares 5 0 ;;
  shares1 <- ex_shares 5 1 ;;
  c0 <- ex_receive 0 [(1, info1); (2, info2)] shares0 ;;
  c1 <- ex_receive 1 [(2, info2); (0, info0)] shares1 ;;
  match c0, c1 with Some c0, Some c1 => Ret (Some (c0, c1)) | _, _ => Ret None end.

Fixpoint same_elements (l l' : list (Element RE)) : bool :=
  match l, l' with [], [] => true | x :: l, y :: l' => e_eqb x y && same_elements l l' | _, _ => false end.
Fixpoint same_polynomials (l l' : list (list (Element RE))) : bool :=
  match l, l' with [], [] => true | x :: l, y :: l' => same_elements x y && same_polynomials l l' | _, _ => false end.
Lemma same_elements_eq l : forall l', same_elements l l' = true -> l = l'.
Proof.
  induction l as [|x l IH]; intros [|y l'] H; try discriminate; [reflexivity|]. cbn in H. apply andb_true_iff in H as [H1 H2].
  apply (e_eqb_ok RE RL) in H1. rewrite H1, (IH l' H2). reflexivity.
Qed.
Lemma same_polynomials_eq l : forall l', same_polynomials l l' = true -> l = l'.
Proof.
  induction l as [|x l IH]; intros [|y l'] H; try discriminate; [reflexivity|]. cbn in H. apply andb_true_iff in H as [H1 H2].
  apply same_elements_eq in H1. rewrite H1, (IH l' H2). reflexivity.
Qed.
Lemma ex_honest_agree : exists c, ex_honest = Ret (Some c) /\
  (same_polynomials (pes_public_polynomials (cm_p (fst c))) (pes_public_polynomials (cm_p (snd c))) &&
   ((ap_index (cm_a (fst c)) =? 0) && (ap_index (cm_a (snd c)) =? 1))) = true.
Proof. apply (find_result ex_honest (fun c => same_polynomials _ _ && _)). vm_compute. reflexivity. Qed.

Example C75_example :
  (2 ^ 64 <= order RL)%Z /\ ser_total RE /\ params_ok ex_dkg_params /\
  exists (p p' : ParticipantExchangingSecrets RE) hist hist' sup sup' a a',
    pes_run ex_dkg_params 0 p hist sup /\ PES_complete p = Ret (Ok a) /\
    pes_run ex_dkg_params 1 p' hist' sup' /\ PES_complete p' = Ret (Ok a') /\
    (forall j, j < pa_shares ex_dkg_params -> latest hist j = latest hist' j) /\
    List.length [a; a'] = pa_threshold ex_dkg_params /\ NoDup (map ap_index [a; a']) /\
    exists cp (es : list (EncryptedChoice SingleChoice)) ballots,
      ChoiceParams_single (ks_shared_key (ap_key_set a)) 2 = Ret cp /\
      Forall2 (fun k e => exists rng rng', EncryptedChoice_single cp k rng = Ret (e, rng')) [1; 0; 1] es /\
      Forall2 (fun e cts => EncryptedChoice_verify e cp = Ret (Ok cts)) es ballots.
Proof.
  split; [exact RE_order_big|]. split; [exact RE_ser_total|]. split; [split; [cbn; lia|vm_compute; reflexivity]|].
  destruct ex_honest_agree as ([c0 c1] & Htwo & H). cbn [fst snd] in H. apply andb_true_iff in H as [H Hidx]. apply same_polynomials_eq in H.
  apply andb_true_iff in Hidx as [I0 I1]. apply Nat.eqb_eq in I0, I1.
  assert (Hc : exists i0 s0 i1 s1, ex_receive 0 i0 s0 = Ret (Some c0) /\ ex_receive 1 i1 s1 = Ret (Some c1)).
  { clear H I0 I1. unfold ex_honest in Htwo. do 7 inv_bind Htwo. destruct a4 as [x|]; [|discriminate]. destruct a5 as [y|]; [|discriminate].
    injection Htwo as <- <-. eauto 10. }
  destruct Hc as (i0 & s0 & i1 & s1 & H0 & H1).
  destruct (ex_receive_runs _ _ _ _ H0) as (coms & hist & sup & R1 & R2 & R3).
  destruct (ex_receive_runs _ _ _ _ H1) as (coms' & hist' & sup' & R1' & R2' & R3').
  exists (cm_p c0), (cm_p c1), hist, hist', sup, sup', (cm_a c0), (cm_a c1). do 4 (split; [assumption|]).
  split.
  { intros j _. destruct (pes_run_inv RE RL _ _ _ _ _ R2) as (_ & _ & _ & _ & _ & _ & H7 & _).
    destruct (pes_run_inv RE RL _ _ _ _ _ R2') as (_ & _ & _ & _ & _ & _ & H7' & _). rewrite <- H7, <- H7', H. reflexivity. }
  split; [reflexivity|]. split; [cbn [map]; rewrite I0, I1; repeat constructor; intros []; [discriminate|contradiction]|].
  set (K := ks_shared_key (ap_key_set (cm_a c0))).
  destruct (proj2 (C41_never_panics RE RL RE_ser_total K 2 5%Z ltac:(lia) ltac:(vm_compute; reflexivity))) as (cp & Hcp & _ & Hone).
  assert (Hk : forall k, k < 2 -> exists e, (exists rng rng', EncryptedChoice_single cp k rng = Ret (e, rng')) /\
                                           EncryptedChoice_verify e cp = Ret (Ok (ec_choices e))).
  { intros k Hk. destruct (Hone k Hk) as (e & rng' & He). exists e. split; [eauto|].
    apply (C41_single_index_complete RE RL K 2 cp k 5%Z e rng' Hcp He). }
  destruct (Hk 1 ltac:(lia)) as (e1 & E1 & V1). destruct (Hk 0 ltac:(lia)) as (e0 & E0 & V0).
  exists cp, [e1; e0; e1], (map ec_choices [e1; e0; e1]).
  split; [exact Hcp|]. split; repeat constructor; assumption.
Qed.

(** with any key there are multi-choice and quadratic-voting ballots that meet the hypotheses of the other elections *)
Example C75_ballots_example :
  forall K : PublicKey RE,
    (exists cp (es : list (EncryptedChoice MultiChoice)) ballots,
       ChoiceParams_multi K 2 = Ret cp /\ List.length es = 2 /\
       Forall2 (fun e cts => EncryptedChoice_verify e cp = Ret (Ok cts)) es ballots) /\
    exists m qp (bs : list (QuadraticVotingBallot RE)) ballots,
      (10 + 65 < 2 ^ 64)%N /\ qv_params K 2 10 m qp /\ (Z.of_nat 2 * (Z.of_N m * Z.of_N m) < order RL)%Z /\ List.length bs = 2 /\
      Forall2 (fun b cts => QuadraticVotingBallot_verify b qp = Ret (Ok cts)) bs ballots.
Proof.
  intros K. split.
  - destruct (proj1 (C41_never_panics RE RL RE_ser_total K 2 5%Z ltac:(lia) ltac:(vm_compute; reflexivity))) as (cp & Hcp & Hnew).
    destruct (Hnew [true; true] eq_refl) as (e & r & He). destruct (Hnew [false; true] eq_refl) as (e' & r' & He').
    destruct (C41_multi_complete RE RL K 2 cp _ _ e r Hcp He) as [V _]. destruct (C41_multi_complete RE RL K 2 cp _ _ e' r' Hcp He') as [V' _].
    exists cp, [e; e'], (map ec_choices [e; e']). split; [exact Hcp|]. split; [reflexivity|]. repeat constructor; assumption.
  - destruct (proj1 (C44_new_total RE RL K 2 10%N (proj1 C45_example) ltac:(vm_compute; reflexivity)) ltac:(lia) ltac:(lia)) as (qp & Hqp).
    destruct (C44_new RE RL K 2 10%N qp ltac:(vm_compute; reflexivity) Hqp) as (_ & (m & Hm & M1 & M2) & _).
    assert (Hm3 : m = 3%N) by nia. subst m.
    assert (Hq : qv_params K 2 10 3 qp) by (apply qv_created; [exact Hqp|exact M1|exact M2]).
    assert (Hb : forall votes, List.length votes = 2 -> Forall (fun v => (v <= 3)%N) votes -> (squares votes <= 10)%N ->
      exists b cts, QuadraticVotingBallot_verify b qp = Ret (Ok cts)).
    { intros votes H1 H2 H3.
      destruct (C46_never_panics RE RL K 2 10%N 3%N qp votes 7%Z RE_ser_total ltac:(vm_compute; reflexivity) Hq H1 H2 H3) as (b & r & Hb).
      destruct (C46_complete RE RL K 2 10%N 3%N qp votes 7%Z b r ltac:(vm_compute; reflexivity) Hq ltac:(right; lia) Hb) as (_ & _ & _ & cts & Hv & _). eauto. }
    destruct (Hb [3; 1]%N eq_refl ltac:(repeat constructor; lia) ltac:(vm_compute; discriminate)) as (b & cts & Hv).
    destruct (Hb [0; 2]%N eq_refl ltac:(repeat constructor; lia) ltac:(vm_compute; discriminate)) as (b' & cts' & Hv').
    exists 3%N, qp, [b; b'], [cts; cts']. split; [vm_compute; reflexivity|]. split; [exact Hq|]. split; [pose proof RE_order_big; lia|].
    split; [reflexivity|]. repeat constructor; assumption.
Qed.
