(** * C90, continued: an election with cheating voters and cheating talliers

    Anybody may send anything as a ballot or as a decryption share.  Ballots which are not accepted are dropped, shares are
    collected as in [C90_robust_decryption].  The published numbers count the accepted ballots, honest ballots among them
    unchanged, or somebody hit the hash by chance. *)
From Coq Require Import List NArith ZArith String Lia Arith Bool.
From Verif.Model Require Import Base Group Transcript Keys Encryption LogEquality Possession Sharing Ring Range Mul Choice Quadratic.
From Verif.Spec Require Import Encryption LogEquality Sigma Possession Sharing Ring Range Choice Quadratic Tally Collect.
From Verif.Proofs Require Import Lists Algebra Encryption LogEquality Ring Sharing Choice Quadratic.
From Verif.Instance Require Import Primality Zq.
From Verif.Properties Require Import LogEquality Sharing Panics Choice Quadratic Tally Collect Binding.
Import ListNotations.
Open Scope string_scope.
Open Scope list_scope.
Open Scope nat_scope.

Definition accepts {E : Env} (cp : ChoiceParams (SingleChoice (E := E))) (e : EncryptedChoice SingleChoice) : bool :=
  match EncryptedChoice_verify e cp with Ret (Ok _) => true | _ => false end.

(** [e] is a ballot of the client for option [k] *)
Definition honest_ballot {E : Env} (cp : ChoiceParams (SingleChoice (E := E))) (k : nat) (e : EncryptedChoice SingleChoice) : Prop :=
  exists rng rng', EncryptedChoice_single cp k rng = Ret (e, rng').

Section Lemmas.
Context (E : Env) (L : GroupLaws E).

Lemma accepts_iff receiver n cp e : ChoiceParams_single receiver n = Ret cp ->
  accepts (E := E) cp e = true <-> EncryptedChoice_verify e cp = Ret (Ok (ec_choices e)).
Proof.
  intros Hp. unfold accepts. split; [|intros ->; reflexivity].
  destruct (EncryptedChoice_verify e cp) as [[cts|]|] eqn:Hv; try discriminate. intros _.
  destruct (proj1 (proj1 (C42_accepts_iff E L receiver n) cp e cts Hp) Hv) as (-> & _). reflexivity.
Qed.
End Lemmas.

Theorem C90_election :
  forall (E : Env) (L : GroupLaws E), (2 ^ 64 <= order L)%Z -> ser_total E ->
  forall params keys (ks : PublicKeySet E) n cp (es : list (EncryptedChoice (SingleChoice (E := E)))) values,
    params_ok params -> PublicKeySet_from_participants params keys = Ret (Ok ks) ->
    ChoiceParams_single (ks_shared_key ks) n = Ret cp -> (Z.of_nat n < order L)%Z ->
    (forall x, In x values <-> (x <= N.of_nat (List.length es))%N) -> (N.of_nat (List.length es) < 2 ^ 64)%N ->
    let accepted := filter (accepts cp) es in
    (forall k e, honest_ballot cp k e -> In e es -> In e accepted) /\
    ((exists chosen,
        Forall2 (fun k e => k < n /\ forall k', honest_ballot cp k' e -> k = k') chosen accepted /\
        List.length (tally n (map ec_choices accepted)) = n /\
        forall i ct (subs : list (submission E)) (honest : list nat), nth_error (tally n (map ec_choices accepted)) i = Some ct ->
          NoDup honest -> pa_threshold params <= List.length honest ->
          (forall j, In j honest -> exists share a r d pf r',
             ActiveParticipant_new ks j share = Ret (Ok a) /\ ActiveParticipant_decrypt_share a ct r = Ret (d, pf, r') /\
             In (j, {| cd_inner := d |}, pf) subs) ->
          exists shares dec tbl, collect ks ct subs [] = Ret shares /\ combine_shares params shares = Ret (Some dec) /\
            DiscreteLogTable_new (E:=E) values = Ret tbl /\
            (VerifiableDecryption_decrypt dec ct tbl = Ret (Some (N.of_nat (count_occ Nat.eq_dec chosen i))) \/
             exists j cand pf, In (j, cand, pf) subs /\ Collect.share_hit ks ct j (vd_dh_element (cd_inner cand)))) \/
     (exists e, In e accepted /\
        ((exists k, bit_hit choice_ranges_context (ks_shared_key ks) (ec_choices e) k) \/
         log_hit choice_sum_context (ks_shared_key ks) (random_element (ct_total (ec_choices e)))
           (blinded_element (ct_total (ec_choices e)) - generator)%E))).
Proof.
  intros E L Hbig Hser params keys ks n cp es values Hp Hks Hcp Hn Hvals Hlen accepted.
  destruct (C54_threshold_from_participants E L Hbig params keys ks Hp Hks) as (sk & Hk & _).
  split.
  { intros k e (rng & rng' & He) Hin. apply filter_In. split; [exact Hin|]. apply (accepts_iff E L _ n cp e Hcp).
    exact (proj1 (proj2 (C41_single_index_complete E L _ n cp k rng e rng' Hcp He))). }
  assert (Hacc : forall e, In e accepted -> EncryptedChoice_verify e cp = Ret (Ok (ec_choices e))).
  { intros e He. apply filter_In in He as [_ He]. exact (proj1 (accepts_iff E L _ n cp e Hcp) He). }
  assert (Hal : List.length accepted <= List.length es).
  { unfold accepted. clear. induction es as [|e es IH]; [reflexivity|]. cbn [filter]. destruct (accepts cp e); cbn [List.length]; lia. }
  assert (Hv : (exists chosen,
      Forall2 (fun k e => k < n /\ forall k', honest_ballot cp k' e -> k = k') chosen accepted /\
      Forall2 (votes_of sk) (map (choice_votes n) chosen) (map ec_choices accepted) /\
      Forall (fun cts => List.length cts = n) (map ec_choices accepted)) \/
     (exists e, In e accepted /\
        ((exists k, bit_hit choice_ranges_context (ks_shared_key ks) (ec_choices e) k) \/
         log_hit choice_sum_context (ks_shared_key ks) (random_element (ct_total (ec_choices e)))
           (blinded_element (ct_total (ec_choices e)) - generator)%E))).
  { clear Hal. induction accepted as [|e acc IH].
    - left. exists []. repeat constructor.
    - destruct IH as [(chosen & C1 & C2 & C3)|(e' & He' & Hh)]; [intros e' He'; apply Hacc; right; exact He'| |right; exists e'; split; [right; exact He'|exact Hh]].
      destruct (C42_single_sound E L sk (ks_shared_key ks) n cp e _ Hn Hk Hcp (Hacc e (or_introl eq_refl))) as [Hl [[k [Hk1 Hk2]]|Hh]];
        [left|right; exists e; split; [left; reflexivity|exact Hh]].
      exists (k :: chosen). split; [constructor; [|exact C1]|split; [|constructor; [exact Hl|exact C3]]].
      + split; [lia|]. intros k' (rng & rng' & He).
        destruct (C41_single_index_complete E L _ n cp k' rng e rng' Hcp He) as (Hk' & _ & _ & Hd). specialize (Hd sk Hk).
        destruct (nth_error (ec_choices e) k) as [ct|] eqn:Hct; [|apply nth_error_None in Hct; lia].
        specialize (Hd k ct Hct). rewrite (Hk2 k ct Hct), Nat.eqb_refl in Hd. unfold bit_element in Hd.
        destruct (k =? k') eqn:Hkk; [apply Nat.eqb_eq; exact Hkk|]. exfalso.
        apply (f_equal (dlog L)) in Hd. rewrite dlog_generator, dlog_identity in Hd. exact (Field_theory.F_1_neq_0 (s_field L) Hd).
      + cbn [map]. constructor; [|exact C2].
        unfold votes_of, choice_votes. apply Forall2_nth_intro; [rewrite map_length, seq_length; congruence|].
        intros i v ct Hv Hct. specialize (Hk2 i ct Hct). rewrite Hk2. unfold bit_element.
        assert (Hi : i < n). { rewrite <- Hl. apply nth_error_Some. congruence. }
        rewrite nth_error_map, (nth_error_nth' (seq 0 n) 0) in Hv by (rewrite seq_length; exact Hi).
        rewrite seq_nth in Hv by exact Hi. cbn in Hv. injection Hv as <-. destruct (i =? k); [|reflexivity].
        unfold times. cbn. symmetry. apply (e_add_id_r L). }
  destruct Hv as [(chosen & C1 & C2 & C3)|Hh]; [left|right; exact Hh].
  exists chosen. split; [exact C1|]. destruct (tally_ok E L sk _ _ n C2 C3) as [T1 T2]. split; [exact T1|].
  intros i ct subs honest Hi Hnd Hhl Hh.
  destruct (C90_robust_decryption E L Hbig Hser params keys ks sk ct subs Hp Hks Hk) as (shares & R1 & R2 & R3 & _).
  destruct (R3 honest Hnd Hhl Hh) as [dec Hdec].
  assert (Hvals64 : forall x, In x values -> (x < u64_lim)%N) by (intros x Hx; apply Hvals in Hx; unfold u64_lim; lia).
  destruct (table_new_ok E L Hbig values Hvals64) as (tbl & Ht & Hget & _).
  exists shares, dec, tbl. split; [exact R1|]. split; [exact Hdec|]. split; [exact Ht|].
  destruct (R2 dec Hdec) as [Hd|Hhit]; [left|right; exact Hhit].
  assert (Hin : i < n). { rewrite <- T1. apply nth_error_Some. congruence. }
  assert (Hcol : column i (map (choice_votes n) chosen) = N.of_nat (count_occ Nat.eq_dec chosen i)).
  { clear -Hin. unfold column. induction chosen as [|k chosen IH]; [reflexivity|]. cbn [map fold_right count_occ]. rewrite IH.
    assert (Hn : nth i (choice_votes n k) 0%N = if i =? k then 1%N else 0%N).
    { unfold choice_votes. rewrite (nth_indep _ 0%N ((fun j => if j =? k then 1%N else 0%N) 0)) by (rewrite map_length, seq_length; exact Hin).
      rewrite (map_nth (fun j => if j =? k then 1%N else 0%N)), seq_nth by exact Hin. reflexivity. }
    rewrite Hn. destruct (Nat.eq_dec k i) as [->|Hne].
    - rewrite Nat.eqb_refl. lia.
    - replace (i =? k) with false by (symmetry; apply Nat.eqb_neq; congruence). reflexivity. }
  assert (Hx : In (N.of_nat (count_occ Nat.eq_dec chosen i)) values).
  { apply Hvals. pose proof (count_occ_bound Nat.eq_dec i chosen). pose proof (Forall2_length' _ _ _ C1). lia. }
  unfold VerifiableDecryption_decrypt. rewrite Hd, (T2 i ct Hi), Hcol.
  rewrite (times_of_u64 E L) by exact (Hvals64 _ Hx). apply Hget. right. exact Hx.
Qed.
Print Assumptions C90_election.

(** ** multi-choice and quadratic voting ballots *)

(** what talliers publish for a ciphertext of the number [v], with any messages *)
Definition published {E : Env} (params : Params) (ks : PublicKeySet E) (values : list N) (ct : Ciphertext E) (v : N) : Prop :=
  forall (subs : list (submission E)) (honest : list nat),
    NoDup honest -> pa_threshold params <= List.length honest ->
    (forall j, In j honest -> exists share a r d pf r',
       ActiveParticipant_new ks j share = Ret (Ok a) /\ ActiveParticipant_decrypt_share a ct r = Ret (d, pf, r') /\
       In (j, {| cd_inner := d |}, pf) subs) ->
    exists shares dec tbl, collect ks ct subs [] = Ret shares /\ combine_shares params shares = Ret (Some dec) /\
      DiscreteLogTable_new (E:=E) values = Ret tbl /\
      (VerifiableDecryption_decrypt dec ct tbl = Ret (Some v) \/
       exists j cand pf, In (j, cand, pf) subs /\ Collect.share_hit ks ct j (vd_dh_element (cd_inner cand))).

Lemma published_number (E : Env) (L : GroupLaws E) : (2 ^ 64 <= order L)%Z -> ser_total E ->
  forall params keys (ks : PublicKeySet E) sk values ct v,
    params_ok params -> PublicKeySet_from_participants params keys = Ret (Ok ks) -> key_of sk (ks_shared_key ks) ->
    (forall x, In x values -> (x < 2 ^ 64)%N) -> v = 0%N \/ In v values -> decrypt_to_element sk ct = times v generator ->
    published params ks values ct v.
Proof.
  intros Hbig Hser params keys ks sk values ct v Hp Hks Hk Hvals Hv Hd subs honest Hnd Hhl Hh.
  destruct (C90_robust_decryption E L Hbig Hser params keys ks sk ct subs Hp Hks Hk) as (shares & R1 & R2 & R3 & _).
  destruct (R3 honest Hnd Hhl Hh) as [dec Hdec]. destruct (table_new_ok E L Hbig values Hvals) as (tbl & Ht & Hget & _).
  exists shares, dec, tbl. split; [exact R1|]. split; [exact Hdec|]. split; [exact Ht|].
  destruct (R2 dec Hdec) as [He|Hhit]; [left|right; exact Hhit]. unfold VerifiableDecryption_decrypt. rewrite He, Hd.
  rewrite (times_of_u64 E L) by (destruct Hv as [->|Hv]; [reflexivity|exact (Hvals _ Hv)]). apply Hget. exact Hv.
Qed.

Definition accepts_multi {E : Env} (cp : ChoiceParams (MultiChoice (E := E))) (e : EncryptedChoice MultiChoice) : bool :=
  match EncryptedChoice_verify e cp with Ret (Ok _) => true | _ => false end.
Definition honest_multi {E : Env} (cp : ChoiceParams (MultiChoice (E := E))) (flags : list bool) (e : EncryptedChoice MultiChoice) : Prop :=
  exists rng rng', EncryptedChoice_new cp flags rng = Ret (e, rng').

Theorem C90_multi_election :
  forall (E : Env) (L : GroupLaws E), (2 ^ 64 <= order L)%Z -> ser_total E ->
  forall params keys (ks : PublicKeySet E) n cp (es : list (EncryptedChoice (MultiChoice (E := E)))) values,
    params_ok params -> PublicKeySet_from_participants params keys = Ret (Ok ks) ->
    ChoiceParams_multi (ks_shared_key ks) n = Ret cp ->
    (forall x, In x values <-> (x <= N.of_nat (List.length es))%N) -> (N.of_nat (List.length es) < 2 ^ 64)%N ->
    let accepted := filter (accepts_multi cp) es in
    (forall flags e, honest_multi cp flags e -> In e es -> In e accepted) /\
    ((exists chosen,
        Forall2 (fun flags e => List.length flags = n /\ forall flags', honest_multi cp flags' e -> flags = flags') chosen accepted /\
        List.length (tally n (map ec_choices accepted)) = n /\
        forall i ct, nth_error (tally n (map ec_choices accepted)) i = Some ct ->
          published params ks values ct (N.of_nat (List.length (filter (fun flags => nth i flags false) chosen)))) \/
     (exists e k, In e accepted /\ bit_hit choice_ranges_context (ks_shared_key ks) (ec_choices e) k)).
Proof.
  intros E L Hbig Hser params keys ks n cp es values Hp Hks Hcp Hvals Hlen accepted.
  destruct (C54_threshold_from_participants E L Hbig params keys ks Hp Hks) as (sk & Hk & _).
  split.
  { intros flags e (rng & rng' & He) Hin. apply filter_In. split; [exact Hin|]. unfold accepts_multi.
    rewrite (proj1 (C41_multi_complete E L _ n cp flags rng e rng' Hcp He)). reflexivity. }
  assert (Hacc : forall e, In e accepted -> EncryptedChoice_verify e cp = Ret (Ok (ec_choices e))).
  { intros e He. apply filter_In in He as [_ He]. unfold accepts_multi in He.
    destruct (EncryptedChoice_verify e cp) as [[cts|]|] eqn:Hv; try discriminate. apply (choice_verify_ok_iff E L) in Hv as (-> & _). reflexivity. }
  assert (Hal : List.length accepted <= List.length es).
  { unfold accepted. clear. induction es as [|e es IH]; [reflexivity|]. cbn [filter]. destruct (accepts_multi cp e); cbn [List.length]; lia. }
  assert (Hv : (exists chosen,
      Forall2 (fun flags e => List.length flags = n /\ forall flags', honest_multi cp flags' e -> flags = flags') chosen accepted /\
      Forall2 (votes_of sk) (map (map (fun f : bool => if f then 1%N else 0%N)) chosen) (map ec_choices accepted) /\
      Forall (fun cts => List.length cts = n) (map ec_choices accepted)) \/
     (exists e k, In e accepted /\ bit_hit choice_ranges_context (ks_shared_key ks) (ec_choices e) k)).
  { clear Hal. induction accepted as [|e acc IH].
    - left. exists []. repeat constructor.
    - destruct IH as [(chosen & C1 & C2 & C3)|(e' & k & He' & Hh)]; [intros e' He'; apply Hacc; right; exact He'| |right; exists e', k; split; [right; exact He'|exact Hh]].
      destruct (C42_multi_sound E L sk (ks_shared_key ks) n cp e _ Hk Hcp (Hacc e (or_introl eq_refl))) as [Hl [Hbits|[k Hh]]];
        [left|right; exists e, k; split; [left; reflexivity|exact Hh]].
      assert (Hflags : exists flags, Forall2 (fun (flag : bool) ct => decrypt_to_element sk ct = if flag then generator else identity) flags (ec_choices e)).
      { clear - Hbits. induction (ec_choices e) as [|ct cts IH]; [exists []; constructor|].
        destruct IH as [flags Hf]; [intros c Hc; apply Hbits; right; exact Hc|].
        destruct (Hbits ct (or_introl eq_refl)) as [Hb|Hb]; [exists (false :: flags)|exists (true :: flags)]; constructor; assumption. }
      destruct Hflags as [flags Hf]. exists (flags :: chosen). split; [constructor; [|exact C1]|split; [|constructor; [exact Hl|exact C3]]].
      + split; [rewrite (Forall2_length' _ _ _ Hf); exact Hl|]. intros flags' (rng & rng' & He).
        pose proof (proj2 (C41_multi_complete E L _ n cp flags' rng e rng' Hcp He) sk Hk) as Hd. clear -Hf Hd L.
        revert flags' Hd. induction Hf as [|f ct flags cts Hx Hf IH]; intros flags' Hd; inversion Hd as [|f' ct' l l' Hx' Hd' E1 E2]; subst; [reflexivity|].
        f_equal; [|exact (IH _ Hd')]. rewrite Hx in Hx'.
        destruct f, f'; try reflexivity; exfalso; [|symmetry in Hx']; exact (generator_neq_identity E L Hx').
      + cbn [map]. constructor; [exact (flags_votes E sk _ _ L Hf)|exact C2]. }
  destruct Hv as [(chosen & C1 & C2 & C3)|Hh]; [left|right; exact Hh].
  exists chosen. split; [exact C1|]. destruct (tally_ok E L sk _ _ n C2 C3) as [T1 T2]. split; [exact T1|].
  intros i ct Hi. apply (published_number E L Hbig Hser params keys ks sk values ct _ Hp Hks Hk).
  - intros x Hx. apply Hvals in Hx. lia.
  - right. apply Hvals. pose proof (Forall2_length' _ _ _ C1) as Hl1.
    assert (Hfl : forall (P : list bool -> bool) l, List.length (filter P l) <= List.length l).
    { clear. intros P l. induction l as [|x l IH]; [reflexivity|]. cbn [filter]. destruct (P x); cbn [List.length]; lia. }
    specialize (Hfl (fun flags => nth i flags false) chosen). lia.
  - rewrite (T2 i ct Hi). f_equal.
    clear. unfold column. induction chosen as [|flags chosen IH]; [reflexivity|]. cbn [map fold_right filter]. rewrite IH.
    assert (Hn : nth i (map (fun f : bool => if f then 1%N else 0%N) flags) 0%N = if nth i flags false then 1%N else 0%N).
    { change 0%N with ((fun f : bool => if f then 1%N else 0%N) false) at 2. rewrite map_nth. reflexivity. }
    rewrite Hn. destruct (nth i flags false); cbn [List.length]; lia.
Qed.
Print Assumptions C90_multi_election.

Definition accepts_quadratic {E : Env} (p : QuadraticVotingParams E) (b : QuadraticVotingBallot E) : bool :=
  match QuadraticVotingBallot_verify b p with Ret (Ok _) => true | _ => false end.
(** a ballot of the client, in builds with overflow checks or with votes that do not overflow (C46) *)
Definition honest_quadratic {E : Env} (p : QuadraticVotingParams E) (votes : list N) (b : QuadraticVotingBallot E) : Prop :=
  (overflow_checks (env_build E) = true \/ (squares votes < 2 ^ 64)%N) /\
  exists rng rng', QuadraticVotingBallot_new p votes rng = Ret (b, rng').

Theorem C90_quadratic_election :
  forall (E : Env) (L : GroupLaws E), (2 ^ 64 <= order L)%Z -> ser_total E ->
  forall params keys (ks : PublicKeySet E) options credits m p (bs : list (QuadraticVotingBallot E)) values,
    params_ok params -> PublicKeySet_from_participants params keys = Ret (Ok ks) ->
    (credits + 65 < 2 ^ 64)%N -> qv_params (ks_shared_key ks) options credits m p ->
    (Z.of_nat options * (Z.of_N m * Z.of_N m) < order L)%Z -> (Z.of_N credits < order L)%Z ->
    (forall x, In x values <-> (x <= N.of_nat (List.length bs) * m)%N) -> (N.of_nat (List.length bs) * m < 2 ^ 64)%N ->
    let accepted := filter (accepts_quadratic p) bs in
    let ballots := map (fun b => map crp_ciphertext (qb_votes b)) accepted in
    (forall votes b, honest_quadratic p votes b -> In b bs -> In b accepted) /\
    ((exists votes,
        Forall2 (fun vs b => List.length vs = options /\ Forall (fun v => (v <= m)%N) vs /\ (squares vs <= credits)%N /\
                             forall vs', honest_quadratic p vs' b -> vs = vs') votes accepted /\
        List.length (tally options ballots) = options /\
        forall i ct, nth_error (tally options ballots) i = Some ct -> published params ks values ct (column i votes)) \/
     (exists b, In b accepted /\
       ((exists v, In v (qb_votes b) /\
          range_hit (dlog L (pk_element (ks_shared_key ks))) qv_variant_context (ks_shared_key ks) (pr_inner (qv_vote_count_range p))
            (rap_partial (crp_range_proof v)) (crp_ciphertext v)) \/
        range_hit (dlog L (pk_element (ks_shared_key ks))) qv_credit_context (ks_shared_key ks) (pr_inner (qv_credit_range p))
          (rap_partial (crp_range_proof (qb_credit b))) (crp_ciphertext (qb_credit b)) \/
        sq_hit qv_equiv_context (ks_shared_key ks) (map crp_ciphertext (qb_votes b)) (crp_ciphertext (qb_credit b))))).
Proof.
  intros E L Hbig Hser params keys ks options credits m p bs values Hp Hks Hc Hqv Hb Hco Hvals Hlen accepted ballots.
  set (sk := dlog L (pk_element (ks_shared_key ks))). assert (Hk : key_of sk (ks_shared_key ks)) by apply key_of_dlog.
  assert (Hhon : forall votes b, honest_quadratic p votes b -> QuadraticVotingBallot_verify b p = Ret (Ok (map crp_ciphertext (qb_votes b))) /\
    (squares votes <= credits)%N /\ Forall2 (fun v ct => decrypt_to_element sk ct = times v generator) votes (map crp_ciphertext (qb_votes b))).
  { intros votes b (Hov & rng & rng' & Hnew).
    destruct (C46_complete E L _ options credits m p votes rng b rng' Hc Hqv Hov Hnew) as (_ & _ & Hs & cts & Hv & Hd).
    pose proof Hv as Hv'. apply C47_accepts_iff in Hv' as [-> _]. split; [exact Hv|]. split; [exact Hs|exact (Hd sk Hk)]. }
  split.
  { intros votes b Hh Hin. apply filter_In. split; [exact Hin|]. unfold accepts_quadratic. rewrite (proj1 (Hhon votes b Hh)). reflexivity. }
  assert (Hacc : forall b, In b accepted -> QuadraticVotingBallot_verify b p = Ret (Ok (map crp_ciphertext (qb_votes b)))).
  { intros b Hin. apply filter_In in Hin as [_ Hin]. unfold accepts_quadratic in Hin.
    destruct (QuadraticVotingBallot_verify b p) as [[cts|]|] eqn:Hv; try discriminate. apply C47_accepts_iff in Hv as [-> _]. reflexivity. }
  assert (Hal : List.length accepted <= List.length bs).
  { unfold accepted. clear. induction bs as [|e bs IH]; [reflexivity|]. cbn [filter]. destruct (accepts_quadratic p e); cbn [List.length]; lia. }
  assert (Hsmall : forall l, (squares l <= credits)%N -> Forall (fun v => (v < u64_lim)%N) l).
  { clear -Hc. unfold u64_lim. induction l as [|x l IH]; intros Hl; constructor.
    - rewrite squares_cons in Hl. destruct (N.eq_dec x 0) as [->|Hx]; [lia|]. assert (x <= x * x)%N by nia. lia.
    - apply IH. rewrite squares_cons in Hl. lia. }
  match goal with |- _ \/ ?B => assert (Hv : (exists votes,
      Forall2 (fun vs b => List.length vs = options /\ Forall (fun v => (v <= m)%N) vs /\ (squares vs <= credits)%N /\
                           forall vs', honest_quadratic p vs' b -> vs = vs') votes accepted /\
      Forall2 (votes_of sk) votes ballots /\ Forall (fun cts => List.length cts = options) ballots) \/ B) end.
  { clear Hal. subst ballots. induction accepted as [|b acc IH].
    - left. exists []. repeat constructor.
    - destruct IH as [(votes & C1 & C2 & C3)|(b' & Hb' & Hh)]; [intros b' Hb'; apply Hacc; right; exact Hb'| |right; exists b'; split; [right; exact Hb'|exact Hh]].
      destruct (C47_sound E L sk (ks_shared_key ks) options credits m p b _ Hc Hqv Hk Hb Hco (Hacc b (or_introl eq_refl))) as [Hl [(vs & V1 & V2)|Hh]];
        [left|right; exists b; split; [left; reflexivity|exact Hh]].
      assert (Vd : Forall2 (fun v ct => decrypt_to_element sk ct = times v generator) vs (map crp_ciphertext (qb_votes b))).
      { clear -V1. induction V1 as [|v ct vs cts [_ Hv] _ IH]; constructor; assumption. }
      exists (vs :: votes). split; [constructor; [|exact C1]|split; [constructor; [exact Vd|exact C2]|constructor; [exact Hl|exact C3]]].
      split; [rewrite (Forall2_length' _ _ _ V1); exact Hl|].
      split; [clear -V1; induction V1 as [|v ct vs cts [Hv _] _ IH]; constructor; assumption|]. split; [exact V2|].
      intros vs' Hh. destruct (Hhon vs' b Hh) as (_ & Hs' & Hd'). apply Hsmall in V2, Hs'. clear -Vd Hd' V2 Hs' L Hbig.
      revert vs' Hd' Hs'. induction Vd as [|v ct vs cts Hv Hd IH]; intros vs' Hd' Hs'; inversion Hd' as [|v' ct' l l' Hv' Hd'' E1 E2]; subst; [reflexivity|].
      inversion V2 as [|? ? Hx Hs1]; subst. inversion Hs' as [|? ? Hx' Hs1']; subst. f_equal; [|exact (IH Hs1 _ Hd'' Hs1')].
      rewrite Hv in Hv'. rewrite !(times_of_u64 E L) in Hv' by assumption. apply (gen_inj L) in Hv'. exact (of_u64_inj E L Hbig _ _ Hx Hx' Hv'). }
  destruct Hv as [(votes & C1 & C2 & C3)|Hh]; [left|right; exact Hh].
  exists votes. split; [exact C1|]. destruct (tally_ok E L sk _ _ options C2 C3) as [T1 T2]. split; [exact T1|].
  intros i ct Hi. apply (published_number E L Hbig Hser params keys ks sk values ct _ Hp Hks Hk).
  - intros x Hx. apply Hvals in Hx. lia.
  - right. apply Hvals. pose proof (Forall2_length' _ _ _ C1) as Hl1.
    assert (Hcol : (column i votes <= N.of_nat (List.length votes) * m)%N).
    { clear -C1. unfold column. induction C1 as [|vs b votes acc (_ & Hm & _) C1 IH]; cbn [map fold_right List.length]; [lia|].
      assert (Hnth : (nth i vs 0 <= m)%N).
      { destruct (nth_in_or_default i vs 0%N) as [Hin| ->]; [rewrite Forall_forall in Hm; exact (Hm _ Hin)|lia]. }
      rewrite Nat2N.inj_succ. nia. }
    assert (N.of_nat (List.length votes) * m <= N.of_nat (List.length bs) * m)%N by (apply N.mul_le_mono_r; lia). lia.
  - exact (T2 i ct Hi).
Qed.
Print Assumptions C90_quadratic_election.

(** the key set of [C33_example] and [C90_example]: ballots for the options 1, 0 and 1, between them one with swapped ciphertexts;
    shares of talliers 2, 0 and 4 and, before them, the share of tallier 2 in the names of 3 and 0 *)
Definition ex_election : option (list bool * list bool) :=
  match ChoiceParams_single (ks_shared_key ex_ks) 2 with
  | Ret cp =>
      match EncryptedChoice_single cp 1 21%Z, EncryptedChoice_single cp 0 22%Z, EncryptedChoice_single cp 1 23%Z with
      | Ret (e1, _), Ret (e2, _), Ret (e3, _) =>
          let bad : EncryptedChoice (SingleChoice (E := RE)) :=
            {| ec_choices := rev (ec_choices e1); ec_range_proof := ec_range_proof e1; ec_sum_proof := ec_sum_proof e1 |} in
          let es := [e1; bad; e2; e3] in
          let msg ct i z :=
            match ActiveParticipant_new ex_ks i (rs (10 + 20 * z + 30 * z * z)) with
            | Ret (Ok a) => match ActiveParticipant_decrypt_share a ct 8%Z with Ret (d, pf, _) => [(i, {| cd_inner := d |}, pf)] | _ => [] end
            | _ => []
            end in
          Some (map (accepts cp) es,
                map (fun p => let '(ct, v) := p in
                       let m2 := msg ct 2 3%Z in
                       let forged i := map (fun m => let '(_, d, pf) := m in (i, d, pf)) m2 in
                       match collect ex_ks ct (forged 3 ++ forged 0 ++ m2 ++ msg ct 0 1%Z ++ msg ct 4 5%Z) [] with
                       | Ret shares => match combine_shares ex_params shares with
                                       | Ret (Some dec) => e_eqb (VerifiableDecryption_decrypt_to_element dec ct) (re v)
                                       | _ => false end
                       | _ => false end)
                    (combine (tally 2 (map ec_choices (filter (accepts cp) es))) [1; 2]%Z))
      | _, _, _ => None
      end
  | _ => None
  end.
Example C90_election_example : ex_election = Some ([true; false; true; true], [true; true]).
Proof. vm_compute. reflexivity. Qed.

(** multi-choice and quadratic ballots for this key set, and altered ones *)
Definition ex_multi : option (list bool) :=
  match ChoiceParams_multi (ks_shared_key ex_ks) 2 with
  | Ret cp => match EncryptedChoice_new cp [true; true] 21%Z, EncryptedChoice_new cp [false; true] 22%Z with
              | Ret (e1, _), Ret (e2, _) =>
                  let bad : EncryptedChoice (MultiChoice (E := RE)) :=
                    {| ec_choices := ec_choices e2; ec_range_proof := ec_range_proof e1; ec_sum_proof := ec_sum_proof e1 |} in
                  Some (map (accepts_multi cp) [e1; bad; e2])
              | _, _ => None end
  | _ => None
  end.
Definition ex_quadratic : option (list bool) :=
  match QuadraticVotingParams_new (ks_shared_key ex_ks) 2 9 with
  | Ret p => match QuadraticVotingBallot_new p [2; 1]%N 17%Z with
             | Ret (b, _) => Some (map (accepts_quadratic p) [b; mkQVBallot (rev (qb_votes b)) (qb_credit b) (qb_credit_equivalence_proof b)])
             | _ => None end
  | _ => None
  end.
Example C90_ballots_example : ex_multi = Some [true; false; true] /\ ex_quadratic = Some [true; false].
Proof. split; vm_compute; reflexivity. Qed.
