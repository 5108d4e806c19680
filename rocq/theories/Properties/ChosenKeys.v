(** * C92, continued: the cheaters may choose the keys as well

    In [C92_election] the key set is given before the attack.  Here the keys of the participants are part of what the cheaters send,
    and may depend on answers of the hash.  The bound is the same: for all but a small fraction of the hash functions, whatever keys
    pass [PublicKeySet::from_participants], the announced numbers count the accepted ballots. *)
From Coq Require Import List String NArith ZArith Arith Lia Bool.
From Verif.Model Require Import Base Group Transcript Keys Encryption LogEquality Ring Range Mul Sharing Choice Quadratic.
From Verif.Spec Require Import Encryption LogEquality Sigma Sharing Ring Range Choice Quadratic Tally Collect Domains Rom Verifiers RomElection.
From Verif.Proofs Require Import Algebra Lists Encryption LogEquality Sharing Choice Quadratic Rom Verifiers Forgery ForgedBallots.
From Verif.Instance Require Import Primality Zq.
From Verif.Properties Require Import Sharing Quadratic Tally Collect RobustElection Forgery RomElection.
Import ListNotations.
Open Scope string_scope.
Open Scope list_scope.
Open Scope nat_scope.

(** The keys are checked first; without a key set there is no election. *)
Definition keyed_checker {E : Env} {X : Type} (params : Params) (check : PublicKeySet E -> X -> strategy (Scalar E) (list bool))
    (x : list (PublicKey E) * X) : strategy (Scalar E) (list bool) :=
  match PublicKeySet_from_participants params (fst x) with
  | Ret (Ok ks) => check ks (snd x)
  | _ => Output []
  end.

Lemma keyed_most {E : Env} {X} params (check : PublicKeySet E -> X -> strategy (Scalar E) (list bool)) c :
  (forall ks x, at_most c (check ks x)) -> forall x, at_most c (keyed_checker params check x).
Proof.
  intros H x. unfold keyed_checker. destruct (PublicKeySet_from_participants params (fst x)) as [[ks|]|]; [apply H|constructor|constructor].
Qed.

Theorem C92_chosen_keys :
  forall (E : Env) (L : GroupLaws E), (2 ^ 64 <= order L)%Z -> forall (S : source E) m, balanced S m ->
  forall params n B M, params_ok params -> (N.of_nat n < 2 ^ 64)%N ->
  forall Q (A : strategy (Scalar E) (list (PublicKey E) * (list (single_ballot E) * list (message E)))), at_most Q A ->
    let N := Z.of_nat (Q + (B * (n + 2) + M)) in
    success_at_most S A (keyed_checker params (fun ks => election_checker (single_checker n ks) (fun b => fst (fst b)) n B M ks))
      (fun o '(keys, (es, msgs)) => exists ks sk,
         PublicKeySet_from_participants params keys = Ret (Ok ks) /\ key_of sk (ks_shared_key ks) /\
         List.length es <= B /\ List.length msgs <= M /\
         ~ exists chosen, let cts := map (fun b => fst (fst b)) (filter (single_accepted E n (ks_shared_key ks) o) es) in
             Forall2 (fun k l => one_hot sk l k) chosen cts /\
             announced_right E o params ks n (map (choice_votes n) chosen) cts msgs)
      (m * (N * (N + 1))) (2 * size S).
Proof.
  intros E L Hbig S m Hbal params n B M Hp Hn Q A HA N.
  apply (any_success E L S m Hbal _ (api_values_fun E) (api_values_bound E) Q _ A _ _ HA).
  { apply keyed_most. intros ks x. apply election_most. intros b. apply checking_most, single_choice_most. }
  intros o D T [keys [es msgs]] (ks & sk & Hks & Hsk & HB & HM & Hbad) Hi HD.
  unfold keyed_checker in Hi. cbn [fst snd] in Hi. rewrite Hks in Hi.
  refine (election_hits E L Hbig params keys ks sk n B M (single_checker n ks)
    (single_accepted E n (ks_shared_key ks)) (fun b => fst (fst b)) (fun vs l => exists k, one_hot sk l k /\ vs = choice_votes n k)
    Hp Hks Hsk _ _ _ _ o D T es msgs HB HM _ Hi HD).
  - intros o' b. unfold single_checker, checking, single_accepted. rewrite run_andthen, single_choice_run. reflexivity.
  - intros o' b H. unfold single_accepted in H. rewrite <- single_choice_run in H. unfold single_choice_verifier in H.
    destruct (Nat.eqb_spec n (List.length (fst (fst b)))) as [->|]; [reflexivity|discriminate].
  - intros vs l Hl (k & Hk & ->). exact (one_hot_votes E L sk n k l Hl Hk).
  - intros HK o' b H. destruct (one_hot_or_not E L sk (fst (fst b))) as [[k Hk]|Hno]; [left; eauto|right].
    intros D' T' Hi' HD'. unfold single_accepted in H. rewrite <- single_choice_run in H. unfold is_ok in H.
    destruct (run o' _) as [[res|e]|x] eqn:Hrun; try discriminate. unfold single_checker in Hi'. rewrite checking_asked in Hi'.
    refine (single_hits E L _ o' D' T' sk n (ks_shared_key ks) _ _ _ res _ _ Hsk HK Hn _ Hrun Hno Hi' HD').
    + intros h x y ch Hy Hb'. left. exists y. auto.
    + intros h x c Hb'. right. left. exact Hb'.
    + lia.
  - intros (votes & Hv & Hr). apply Hbad.
    assert (Hch : forall cts : list (list (Ciphertext E)), Forall2 (fun vs l => exists k, one_hot sk l k /\ vs = choice_votes n k) votes cts ->
      exists chosen, Forall2 (fun k l => one_hot sk l k) chosen cts /\ votes = map (choice_votes n) chosen).
    { clear. intros cts Hv. induction Hv as [|vs l votes cts (k & Hk & ->) Hv (chosen & IH & ->)]; [exists []; split; [constructor|reflexivity]|].
      exists (k :: chosen). split; [constructor; assumption|reflexivity]. }
    destruct (Hch _ Hv) as (chosen & Hch' & ->). exists chosen. split; [exact Hch'|exact Hr].
Qed.
Print Assumptions C92_chosen_keys.

(** Multi-choice ballots. *)
Theorem C92_multi_chosen_keys :
  forall (E : Env) (L : GroupLaws E), (2 ^ 64 <= order L)%Z -> forall (S : source E) m, balanced S m ->
  forall params n B M, params_ok params -> (N.of_nat n < 2 ^ 64)%N ->
  forall Q (A : strategy (Scalar E) (list (PublicKey E) * (list (multi_ballot E) * list (message E)))), at_most Q A ->
    let N := Z.of_nat (Q + (B * (n + 1) + M)) in
    success_at_most S A (keyed_checker params (fun ks => election_checker (multi_checker n ks) fst n B M ks))
      (fun o '(keys, (es, msgs)) => exists ks sk,
         PublicKeySet_from_participants params keys = Ret (Ok ks) /\ key_of sk (ks_shared_key ks) /\
         List.length es <= B /\ List.length msgs <= M /\
         ~ exists votes, let cts := map fst (filter (multi_accepted E n (ks_shared_key ks) o) es) in
             Forall2 (Forall2 (fun v ct => (v <= 1)%N /\ decrypt_to_element sk ct = times v generator)) votes cts /\
             announced_right E o params ks n votes cts msgs)
      (m * (N * (N + 1))) (2 * size S).
Proof.
  intros E L Hbig S m Hbal params n B M Hp Hn Q A HA N.
  apply (any_success E L S m Hbal _ (api_values_fun E) (api_values_bound E) Q _ A _ _ HA).
  { apply keyed_most. intros ks x. apply election_most. intros b. apply checking_most, multi_choice_most. }
  intros o D T [keys [es msgs]] (ks & sk & Hks & Hsk & HB & HM & Hbad) Hi HD.
  unfold keyed_checker in Hi. cbn [fst snd] in Hi. rewrite Hks in Hi.
  refine (election_hits E L Hbig params keys ks sk n B M (multi_checker n ks)
    (multi_accepted E n (ks_shared_key ks)) fst (Forall2 (fun v ct => (v <= 1)%N /\ decrypt_to_element sk ct = times v generator))
    Hp Hks Hsk _ _ _ _ o D T es msgs HB HM Hbad Hi HD).
  - intros o' b. unfold multi_checker, checking, multi_accepted. rewrite run_andthen, multi_choice_run. reflexivity.
  - intros o' b H. unfold multi_accepted in H. rewrite <- multi_choice_run in H. unfold multi_choice_verifier in H.
    destruct (Nat.eqb_spec n (List.length (fst b))) as [->|]; [reflexivity|discriminate].
  - intros vs l _ Hv. induction Hv as [|v ct vs l [_ Hv] _ IH]; constructor; assumption.
  - intros HK o' b H. destruct (bits_or_not E L sk (fst b)) as [[flags Hf]|(k & ct & H1 & H2)].
    + left. exists (map (fun f : bool => if f then 1%N else 0%N) flags). clear -L Hf. induction Hf as [|f ct flags l Hf _ IH]; [constructor|].
      cbn [map]. constructor; [|exact IH]. rewrite Hf. destruct f; (split; [lia|]); [|reflexivity]. unfold times. cbn. symmetry. apply (e_add_id_r L).
    + right. intros D' T' Hi' HD'. unfold multi_accepted in H. rewrite <- multi_choice_run in H. unfold is_ok in H.
      destruct (run o' _) as [[res|e]|x] eqn:Hrun; try discriminate. unfold multi_checker in Hi'. rewrite checking_asked in Hi'.
      refine (multi_hits E L _ o' D' T' sk n (ks_shared_key ks) _ _ res _ Hsk HK Hn Hrun _ Hi' HD').
      * intros h x y ch Hy Hb'. left. exists y. auto.
      * intros [flags Hf]. apply H2. clear -Hf H1. revert k H1. induction Hf as [|f c flags cts Hc _ IH]; intros [|k] H1; try discriminate.
        -- injection H1 as ->. rewrite Hc. destruct f; cbn; auto.
        -- exact (IH k H1).
Qed.
Print Assumptions C92_multi_chosen_keys.

(** Quadratic voting.  [with_receiver K p] are the parameters of the vote [p], for the key [K]. *)
Definition with_receiver {E : Env} (K : PublicKey E) (p : QuadraticVotingParams E) : QuadraticVotingParams E :=
  {| qv_vote_count_range := qv_vote_count_range p; qv_credit_range := qv_credit_range p;
     qv_options_count := qv_options_count p; qv_receiver := K |}.

Lemma qv_params_receiver (E : Env) (K0 K : PublicKey E) options credits max p :
  qv_params K0 options credits max p -> qv_params K options credits max (with_receiver K p).
Proof.
  induction 1 as [p m Hp H1 H2|p m m' p' Hp IH Hm Hs].
  - apply qv_created; [|exact H1|exact H2]. unfold QuadraticVotingParams_new in *. unfold bind in *.
    repeat match type of Hp with match ?x with _ => _ end = _ => destruct x as [?|]; [|discriminate Hp] end.
    injection Hp as <-. reflexivity.
  - refine (qv_limited _ _ _ _ _ _ _ IH Hm _). unfold QuadraticVotingParams_set_max_votes, QuadraticVotingParams_credits, with_receiver, bind in *.
    cbn [qv_vote_count_range qv_credit_range qv_options_count qv_receiver] in *.
    repeat match type of Hs with match ?x with _ => _ end = _ => destruct x as [?|]; [|discriminate Hs] end.
    injection Hs as <-. reflexivity.
Qed.

Theorem C92_quadratic_chosen_keys :
  forall (E : Env) (L : GroupLaws E), (2 ^ 64 <= order L)%Z -> forall (S : source E) m, balanced S m ->
  forall params K0 options credits max p B M, params_ok params ->
    (credits + 65 < 2 ^ 64)%N -> qv_params K0 options credits max p ->
    (Z.of_nat options * (Z.of_N max * Z.of_N max) < order L)%Z ->
  forall Q (A : strategy (Scalar E) (list (PublicKey E) * (list (QuadraticVotingBallot E) * list (message E)))), at_most Q A ->
    let N := Z.of_nat (Q + (B * quadratic_queries p + M)) in
    success_at_most S A
      (keyed_checker params (fun ks => election_checker (quadratic_checker (with_receiver (ks_shared_key ks) p)) quadratic_choices options B M ks))
      (fun o '(keys, (es, msgs)) => exists ks sk,
         PublicKeySet_from_participants params keys = Ret (Ok ks) /\ key_of sk (ks_shared_key ks) /\
         List.length es <= B /\ List.length msgs <= M /\
         ~ exists votes, let cts := map quadratic_choices (filter (quadratic_accepted E (with_receiver (ks_shared_key ks) p) o) es) in
             Forall2 (fun vs l => Forall2 (fun v ct => (v <= max)%N /\ decrypt_to_element sk ct = times v generator) vs l /\
                                  (squares vs <= credits)%N) votes cts /\
             announced_right E o params ks options votes cts msgs)
      (m * (N * (N + 1))) (2 * size S).
Proof.
  intros E L Hbig S m Hbal params K0 options credits max p0 B M Hp Hc Hqv0 Hb Q A HA N.
  apply (any_success E L S m Hbal _ (api_values_fun E) (api_values_bound E) Q _ A _ _ HA).
  { apply keyed_most. intros ks x. apply election_most. intros b. apply checking_most.
    exact (quadratic_most E b (with_receiver (ks_shared_key ks) p0)). }
  intros o D T [keys [es msgs]] (ks & sk & Hks & Hsk & HB & HM & Hbad) Hi HD.
  unfold keyed_checker in Hi. cbn [fst snd] in Hi. rewrite Hks in Hi. pose proof (qv_params_receiver E K0 (ks_shared_key ks) _ _ _ _ Hqv0) as Hqv. set (p := with_receiver (ks_shared_key ks) p0) in *.
  pose proof (qv_params_inv E L _ _ _ _ _ Hc Hqv) as Hinv. pose proof Hinv as Hinv'. destruct Hinv' as (dv & dc & _ & _ & HV & HC & _ & Hpeq).
  assert (Hacc : forall o b, quadratic_accepted E p o b = true ->
    QuadraticVotingBallot_verify (E:=hashed_by E o) b p = Ret (Ok (quadratic_choices b)) /\ List.length (quadratic_choices b) = options).
  { intros o' b H. unfold quadratic_accepted, is_ok in H.
    destruct (QuadraticVotingBallot_verify (E:=hashed_by E o') b p) as [[cts|]|] eqn:Hv; try discriminate.
    pose proof Hv as Hv'. rewrite <- quadratic_run in Hv'. apply (C47_accepts_iff (hashed_by E o')) in Hv as [-> _]. split; [reflexivity|].
    unfold quadratic_verifier, QuadraticVotingParams_check_options_count in Hv'. rewrite Hpeq in Hv'. cbn [qv_options_count] in Hv'.
    unfold quadratic_choices. rewrite map_length.
    destruct (Nat.eqb_spec options (List.length (qb_votes b))) as [->|]; [reflexivity|discriminate]. }
  refine (election_hits E L Hbig params keys ks sk options B M (quadratic_checker p)
    (quadratic_accepted E p) quadratic_choices
    (fun vs l => Forall2 (fun v ct => (v <= max)%N /\ decrypt_to_element sk ct = times v generator) vs l /\ (squares vs <= credits)%N)
    Hp Hks Hsk _ _ _ _ o D T es msgs HB HM Hbad Hi HD).
  - intros o' b. unfold quadratic_checker, checking, quadratic_accepted. rewrite run_andthen, quadratic_run. reflexivity.
  - intros o' b H. exact (proj2 (Hacc o' b H)).
  - intros vs l _ [Hv _]. induction Hv as [|v ct vs l [_ Hv] _ IH]; constructor; assumption.
  - intros HK o' b H. assert (Hmax : (max < u64_lim)%N) by (unfold u64_lim; lia).
    destruct (votes_or_not E L Hbig sk max credits (quadratic_choices b) Hmax) as [H'|Hno]; [left; exact H'|right].
    intros D' T' Hi' HD'. pose proof (proj1 (Hacc o' b H)) as Hrun. rewrite <- quadratic_run in Hrun. unfold quadratic_checker in Hi'. rewrite checking_asked in Hi'.
    refine (quadratic_hits E L _ o' D' T' sk (ks_shared_key ks) options max credits p b _ _ _ Hinv Hsk HK Hb _ _ _ Hrun Hno Hi' HD').
    + intros h x y ch Hy Hb'. left. exists y. auto.
    + intros h x c' Hb'. right. right. exact Hb'.
    + lia.
    + unfold u64_lim. lia.
    + unfold u64_lim. lia.
Qed.
Print Assumptions C92_quadratic_chosen_keys.

(** [ex_keys] are accepted; wrong results for them are shown in [C92_example]. *)
Example C92_chosen_keys_example :
  params_ok ex_params /\
  (exists ks, PublicKeySet_from_participants ex_params ex_keys = Ret (Ok ks) /\ key_of (rs 10) (ks_shared_key ks)) /\
  (exists p m, qv_params (E:=RE) (ks_shared_key ex_ks) 3 10 m p).
Proof.
  split; [split; cbn; lia|]. split; [exact (proj2 C90_example)|].
  assert (H : match QuadraticVotingParams_new (E:=RE) (ks_shared_key ex_ks) 3 10 with Ret _ => true | _ => false end = true) by (vm_compute; reflexivity).
  match type of H with match ?x with _ => _ end = _ => destruct x as [p|] eqn:Hx; [|discriminate H] end.
  exists p, 3%N. apply qv_created; [exact Hx| |]; vm_compute; [discriminate|reflexivity].
Qed.
