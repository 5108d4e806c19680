(** * C92: the result of an election in the random oracle model

    Voters and talliers who cheat together, with unbounded computing power and with knowledge of all secrets, ask the hash [Q]
    times and send at most [B] ballots and [M] messages with decryption shares.  The talliers announce numbers that do not count
    the accepted ballots with probability at most [N * (N + 1) / (2 * order)], where [N] is the number of hash evaluations in the
    attack and in the checks. *)
From Coq Require Import List String NArith ZArith Arith Lia Bool.
From Verif.Model Require Import Base Group Transcript Keys Encryption LogEquality Ring Range Mul Sharing Choice Quadratic.
From Verif.Spec Require Import Encryption LogEquality Sigma Sharing Ring Range Choice Quadratic Tally Collect Domains Rom Verifiers RomElection.
From Verif.Proofs Require Import Algebra Lists Encryption LogEquality Sharing Choice Quadratic Rom Verifiers Forgery ForgedBallots.
From Verif.Instance Require Import Primality Zq.
From Verif.Properties Require Import Sharing Quadratic Tally Collect RobustElection Forgery.
Import ListNotations.
Open Scope string_scope.
Open Scope list_scope.
Open Scope nat_scope.

Section All.
Context {R A : Type}.

Lemma all_run (o : hash R) (Ts : list (strategy R A)) : run o (all Ts) = map (run o) Ts.
Proof. induction Ts as [|T Ts IH]; [reflexivity|]. cbn [all map]. rewrite !run_andthen, IH. reflexivity. Qed.

Lemma all_asked (o : hash R) (Ts : list (strategy R A)) : asked o (all Ts) = flat_map (asked o) Ts.
Proof.
  induction Ts as [|T Ts IH]; [reflexivity|]. cbn [all flat_map]. rewrite !asked_andthen, IH. cbn [asked]. rewrite app_nil_r. reflexivity.
Qed.

Lemma all_most k (Ts : list (strategy R A)) : (forall T, In T Ts -> at_most k T) -> at_most (List.length Ts * k) (all Ts).
Proof.
  induction Ts as [|T Ts IH]; intros H; [constructor|]. cbn [all List.length Nat.mul].
  apply at_most_andthen; [apply H; left; reflexivity|]. intros a.
  replace (List.length Ts * k) with (List.length Ts * k + 0) by lia. apply at_most_andthen; [apply IH; intros T' HT; apply H; right; exact HT|].
  intros l. constructor.
Qed.
End All.

Lemma filter_combine {A} (f : A -> bool) l : map fst (filter snd (combine l (map f l))) = filter f l.
Proof. induction l as [|x l IH]; [reflexivity|]. cbn [map combine filter snd]. destruct (f x); cbn [map fst]; rewrite IH; reflexivity. Qed.

Section Lemmas.
Context (E : Env) (L : GroupLaws E).

Lemma each_or_not {A} (P : nat -> A -> Prop) : (forall i a, P i a \/ ~ P i a) ->
  forall l, (forall i a, nth_error l i = Some a -> P i a) \/ ~ (forall i a, nth_error l i = Some a -> P i a).
Proof.
  intros HP l. revert P HP. induction l as [|x l IH]; intros P HP; [left; intros [|i] a; discriminate|].
  destruct (HP 0 x) as [H0|H0]; [|right; intros H; apply H0, H; reflexivity].
  destruct (IH (fun i => P (S i)) (fun i => HP (S i))) as [H|H]; [left|right].
  - intros [|i] a Ha; [injection Ha as <-; exact H0|exact (H i a Ha)].
  - intros Hall. apply H. intros i a Ha. exact (Hall (S i) a Ha).
Qed.

Lemma one_hot_or_not (sk : SecretKey E) cts : (exists k, one_hot sk cts k) \/ ~ (exists k, one_hot sk cts k).
Proof.
  assert (Hd : forall k, (forall i ct, nth_error cts i = Some ct -> decrypt_to_element sk ct = bit_element (Nat.eqb i k)) \/
                         ~ (forall i ct, nth_error cts i = Some ct -> decrypt_to_element sk ct = bit_element (Nat.eqb i k))).
  { intros k. apply (each_or_not (fun i ct => decrypt_to_element sk ct = bit_element (Nat.eqb i k))). intros i ct.
    destruct (e_eq_dec L (decrypt_to_element sk ct) (bit_element (i =? k))); auto. }
  assert (Hb : forall m, m <= List.length cts -> (exists k, one_hot sk cts k) \/ ~ (exists k, k < m /\ one_hot sk cts k)).
  { induction m as [|m IH]; intros Hm; [right; intros (k & Hk & _); lia|].
    destruct IH as [IH|IH]; [lia|left; exact IH|]. destruct (Hd m) as [H|H]; [left; exists m; split; [lia|exact H]|right].
    intros (k & Hk & Ho). destruct (Nat.eq_dec k m) as [->|Hne]; [exact (H (proj2 Ho))|]. apply IH. exists k. split; [lia|exact Ho]. }
  destruct (Hb _ (le_n _)) as [H|H]; [left; exact H|right]. intros [k Hk]. apply H. exists k. split; [exact (proj1 Hk)|exact Hk].
Qed.

Lemma one_hot_votes sk n k (cts : list (Ciphertext E)) : List.length cts = n -> one_hot sk cts k -> votes_of sk (choice_votes n k) cts.
Proof.
  intros Hl [Hk Hd]. unfold votes_of, choice_votes. apply Forall2_nth_intro; [rewrite map_length, seq_length; congruence|].
  intros i v ct Hv Hct. rewrite (Hd i ct Hct). unfold bit_element.
  assert (Hi : i < n). { rewrite <- Hl. apply nth_error_Some. congruence. }
  rewrite nth_error_map, (nth_error_nth' (seq 0 n) 0) in Hv by (rewrite seq_length; exact Hi).
  rewrite seq_nth in Hv by exact Hi. cbn in Hv. injection Hv as <-. destruct (i =? k); [|reflexivity].
  unfold times. cbn. symmetry. apply (e_add_id_r L).
Qed.

Lemma column_votes n i chosen : i < n -> column i (map (choice_votes n) chosen) = N.of_nat (count_occ Nat.eq_dec chosen i).
Proof.
  intros Hin. unfold column. induction chosen as [|k chosen IH]; [reflexivity|]. cbn [map fold_right count_occ]. rewrite IH.
  assert (Hn : nth i (choice_votes n k) 0%N = if i =? k then 1%N else 0%N).
  { unfold choice_votes. rewrite (nth_indep _ 0%N ((fun j => if j =? k then 1%N else 0%N) 0)) by (rewrite map_length, seq_length; exact Hin).
    rewrite (map_nth (fun j => if j =? k then 1%N else 0%N)), seq_nth by exact Hin. reflexivity. }
  rewrite Hn. destruct (Nat.eq_dec k i) as [->|Hne].
  - rewrite Nat.eqb_refl. lia.
  - replace (i =? k) with false by (symmetry; apply Nat.eqb_neq; congruence). reflexivity.
Qed.

Lemma checking_most {A X} c (T : strategy (Scalar E) (outcome (result A X))) : at_most c T -> at_most c (checking T).
Proof. intros H. unfold checking. rewrite <- (Nat.add_0_r c). apply at_most_andthen; [exact H|]. intros a. constructor. Qed.

Lemma checking_asked {A X} o (T : strategy (Scalar E) (outcome (result A X))) : asked o (checking T) = asked o T.
Proof. unfold checking. rewrite asked_andthen. cbn [asked]. apply app_nil_r. Qed.

Section Election.
Context {Ballot : Type} (check : Ballot -> strategy (Scalar E) bool) (choices : Ballot -> list (Ciphertext E)) (cost : nat).
Context (check_most : forall b, at_most cost (check b)).

Lemma election_most n B M ks x : at_most (B * cost + M) (election_checker check choices n B M ks x).
Proof.
  destruct x as [es msgs]. unfold election_checker. destruct (List.length es <=? B) eqn:HB; [|constructor].
  destruct (List.length msgs <=? M) eqn:HM; [|constructor]. cbn [andb]. apply Nat.leb_le in HB, HM. apply at_most_andthen.
  - apply (at_most_mono _ (List.length es * cost)); [|apply Nat.mul_le_mono_r; exact HB].
    rewrite <- (map_length check es). apply all_most. intros T HT. apply in_map_iff in HT as (b & <- & _). apply check_most.
  - intros oks. apply (at_most_mono _ (List.length msgs * 1)); [|lia].
    match goal with |- at_most _ (all (map ?f msgs)) => rewrite <- (map_length f msgs) end.
    apply all_most. intros T HT. apply in_map_iff in HT as ([i [[j cand] pf]] & <- & _). unfold message_checker.
    destruct (nth_error _ i); [|constructor]. apply checking_most, share_most.
Qed.

(** where the checks of one ballot and of one message are *)
Lemma election_asked o n B M ks (es : list Ballot) (msgs : list (message E)) : List.length es <= B -> List.length msgs <= M ->
  (forall b, In b es -> incl (asked o (check b)) (asked o (election_checker check choices n B M ks (es, msgs)))) /\
  (forall i j cand pf ct, In (i, (j, cand, pf)) msgs ->
     nth_error (tally n (map choices (filter (fun b => run o (check b)) es))) i = Some ct ->
     incl (asked o (share_verifier ks cand ct j pf)) (asked o (election_checker check choices n B M ks (es, msgs)))).
Proof.
  intros HB HM. apply Nat.leb_le in HB, HM. unfold election_checker. rewrite HB, HM. cbn [andb]. rewrite asked_andthen, all_run, !all_asked. split.
  - intros b Hb y Hy. apply in_app_iff. left. apply in_flat_map. exists (check b). split; [apply in_map; exact Hb|exact Hy].
  - intros i j cand pf ct Hm Hct y Hy. apply in_app_iff. right.
    rewrite (map_map check (run o)), (filter_combine (fun b => run o (check b))). apply in_flat_map. eexists. split; [apply in_map; exact Hm|].
    unfold message_checker. rewrite Hct, checking_asked. exact Hy.
Qed.
End Election.

(** right shares are combined to the decryption *)
Lemma combined_right (Hbig : (2 ^ 64 <= order L)%Z) params (p : list (Scalar E)) sk ct shares dec :
  usize (pa_shares params) -> List.length p = pa_threshold params -> (generator * peval p 0%S)%E = (generator * sk)%E ->
  NoDup (map fst shares) -> (forall s, In s shares -> fst s < pa_shares params /\ valid_share p ct s) ->
  combine_shares params shares = Ret (Some dec) -> VerifiableDecryption_decrypt_to_element dec ct = decrypt_to_element sk ct.
Proof.
  intros Hn Hpl Hsk Hnd Hs Hdec.
  assert (Hl : pa_threshold params <= List.length shares).
  { destruct (Nat.lt_ge_cases (List.length shares) (pa_threshold params)) as [Hlt|Hge]; [|exact Hge].
    rewrite combine_shares_short in Hdec by exact Hlt. discriminate. }
  set (taken := firstn (pa_threshold params) shares). set (rest := skipn (pa_threshold params) shares).
  assert (Heq : shares = taken ++ rest) by (symmetry; apply firstn_skipn).
  assert (Htl : List.length taken = pa_threshold params) by (unfold taken; rewrite firstn_length; lia).
  assert (Hsub : forall s, In s taken -> In s shares) by (intros s Hin; rewrite Heq; apply in_app_iff; auto).
  rewrite Heq in Hdec. rewrite (combine_shares_correct E L Hbig params p ct taken rest) in Hdec.
  - injection Hdec as <-. unfold VerifiableDecryption_decrypt_to_element, decrypt_to_element. cbn [vd_dh_element]. do 2 f_equal.
    exact (gen_inj L _ _ Hsk).
  - exact Hn.
  - lia.
  - exact Htl.
  - rewrite Heq, map_app in Hnd. exact (nodup_prefix _ _ Hnd).
  - intros s Hin. exact (Hs s (Hsub s Hin)).
Qed.

(** A wrong result hits a bad challenge, for any kind of ballots. *)
Lemma election_hits (Hbig : (2 ^ 64 <= order L)%Z) params keys (ks : PublicKeySet E) (sk : SecretKey E) n B M
    {Ballot : Type} (check : Ballot -> strategy (Scalar E) bool) (accepted : hash (Scalar E) -> Ballot -> bool)
    (choices : Ballot -> list (Ciphertext E)) (valid : list N -> list (Ciphertext E) -> Prop) :
  params_ok params -> PublicKeySet_from_participants params keys = Ret (Ok ks) -> key_of sk (ks_shared_key ks) ->
  (forall o b, run o (check b) = accepted o b) ->
  (forall o b, accepted o b = true -> List.length (choices b) = n) ->
  (forall vs cts, List.length cts = n -> valid vs cts -> votes_of sk vs cts) ->
  (genuine (ks_shared_key ks) -> forall o b, accepted o b = true -> (exists vs, valid vs (choices b)) \/
     forall D (T : strategy (Scalar E) (list bool)), incl (asked o (check b)) (asked o T) -> incl (asked o T) D ->
       hits (Scalar E) (bad_all E (api_values E)) D o [] T) ->
  forall o D (T : strategy (Scalar E) (list bool)) es msgs, List.length es <= B -> List.length msgs <= M ->
    (~ exists votes, let cts := map choices (filter (accepted o) es) in
         Forall2 valid votes cts /\ announced_right E o params ks n votes cts msgs) ->
    incl (asked o (election_checker check choices n B M ks (es, msgs))) (asked o T) -> incl (asked o T) D ->
    hits (Scalar E) (bad_all E (api_values E)) D o [] T.
Proof.
  intros Hp Hks Hsk Hrun Hlen Hvalid Hcase o D T es msgs HB HM Hbad Hi HD.
  destruct (proj1 (C33_accepts_iff E L Hbig params keys ks Hp) Hks) as (Hkl & p & Hpl & Hkeys & Hshared & Hpar & Hpk).
  assert (HK : genuine (ks_shared_key ks)).
  { pose proof (pk_from_element_ok E _ _ Hshared) as [Hel Hby]. exact (proj2 (ser_element_ok _ L _ _ Hby)). }
  specialize (Hcase HK).
  assert (Hp0 : (generator * peval p 0%S)%E = (generator * sk)%E).
  { unfold key_of in Hsk. rewrite <- Hsk. apply pk_from_element_ok in Hshared. symmetry. apply Hshared. }
  destruct (election_asked check choices o n B M ks es msgs HB HM) as [Hask1 Hask2].
  rewrite (filter_ext _ _ (Hrun o)) in Hask2.
  set (cts := map choices (filter (accepted o) es)) in *.
  (* ballots *)
  assert (Hd : (exists votes, Forall2 valid votes cts) \/
    exists b, In b es /\ forall D (T : strategy (Scalar E) (list bool)), incl (asked o (check b)) (asked o T) -> incl (asked o T) D ->
       hits (Scalar E) (bad_all E (api_values E)) D o [] T).
  { unfold cts. clear -Hcase. induction es as [|b es IH]; [left; exists []; constructor|].
    cbn [filter]. destruct (accepted o b) eqn:Hb.
    - destruct (Hcase o b Hb) as [[vs Hvs]|Hh]; [|right; exists b; split; [left; reflexivity|exact Hh]].
      destruct IH as [[votes IH]|(b' & Hin & H')]; [left; exists (vs :: votes); cbn [map]; constructor; assumption|].
      right. exists b'. split; [right; exact Hin|exact H'].
    - destruct IH as [IH|(b' & Hin & H')]; [left; exact IH|right; exists b'; split; [right; exact Hin|exact H']]. }
  destruct Hd as [[votes Hvs]|(b & Hb & Hh)].
  2: { apply (Hh D T); [|exact HD]. intros y Hy. apply Hi, (Hask1 b Hb y Hy). }
  (* messages *)
  assert (Hd : (forall i j cand pf ct d, In (i, (j, cand, pf)) msgs -> nth_error (tally n cts) i = Some ct ->
      j < pa_shares params -> PublicKeySet_verify_share (E:=hashed_by E o) ks cand ct j pf = Ret (Ok d) -> valid_share p ct (j, d)) \/
    exists i j cand pf ct d, In (i, (j, cand, pf)) msgs /\ nth_error (tally n cts) i = Some ct /\
      j < pa_shares params /\ PublicKeySet_verify_share (E:=hashed_by E o) ks cand ct j pf = Ret (Ok d) /\ ~ valid_share p ct (j, d)).
  { clear -L. induction msgs as [|[i [[j cand] pf]] msgs IH]; [left; intros i j cand pf ct d []|].
    destruct IH as [IH|(i' & j' & c' & p' & ct & d & Hin & H')]; [|right; exists i', j', c', p', ct, d; split; [right; exact Hin|exact H']].
    assert (Hone : (forall ct d, nth_error (tally n cts) i = Some ct -> j < pa_shares params ->
        PublicKeySet_verify_share (E:=hashed_by E o) ks cand ct j pf = Ret (Ok d) -> valid_share p ct (j, d)) \/
      exists ct d, nth_error (tally n cts) i = Some ct /\ j < pa_shares params /\
        PublicKeySet_verify_share (E:=hashed_by E o) ks cand ct j pf = Ret (Ok d) /\ ~ valid_share p ct (j, d)).
    { destruct (nth_error (tally n cts) i) as [ct|]; [|left; intros; discriminate].
      destruct (Nat.lt_ge_cases j (pa_shares params)) as [Hj|Hj]; [|left; intros; lia].
      destruct (PublicKeySet_verify_share (E:=hashed_by E o) ks cand ct j pf) as [[d|e]|k] eqn:Hv; try (left; intros; congruence).
      destruct (e_eq_dec L (vd_dh_element d) (random_element ct * peval p (node j))%E) as [He|He].
      - left. intros ct' d' H1 _ H2. injection H1 as <-. rewrite Hv in H2. injection H2 as <-. exact He.
      - right. exists ct, d. split; [reflexivity|]. split; [exact Hj|]. split; [exact Hv|exact He]. }
    destruct Hone as [Hone|(ct & d & H')].
    - left. intros i' j' c' p' ct d [Heq|Hin]; [injection Heq as <- <- <- <-; apply Hone|exact (IH i' j' c' p' ct d Hin)].
    - right. exists i, j, cand, pf, ct, d. split; [left; reflexivity|exact H']. }
  destruct Hd as [Hgood|(i & j & cand & pf & ct & d & Hm & Hct & Hj & Hv & Hbd)].
  - (* the result is right *)
    exfalso. apply Hbad. exists votes. split; [exact Hvs|].
    assert (Hlens : Forall (fun l => List.length l = n) cts).
    { apply Forall_forall. intros l Hin. unfold cts in Hin. apply in_map_iff in Hin as (b & <- & Hin).
      apply filter_In in Hin as [_ Hacc]. exact (Hlen o b Hacc). }
    assert (Hvotes : Forall2 (votes_of sk) votes cts).
    { clear -Hvs Hlens Hvalid. induction Hvs as [|vs l votes acc Hv Hvs IH]; [constructor|].
      pose proof (Forall_inv Hlens) as H1. pose proof (Forall_inv_tail Hlens) as H2. constructor; [exact (Hvalid _ _ H1 Hv)|exact (IH H2)]. }
    destruct (tally_ok E L sk _ _ n Hvotes Hlens) as [T1 T2]. intros i ct shares dec Hct Hcol Hcomb.
    destruct (collect_spec (hashed_by E o) ks ct (messages_for i msgs) [] shares Hcol) as (new & Hnew & Hnd & Hin & _); [constructor|].
    cbn [app] in Hnew. subst new. rewrite <- (T2 i ct Hct).
    refine (combined_right Hbig params p sk ct shares dec (proj2 Hp) Hpl Hp0 Hnd _ Hcomb).
    intros [j d] Hs. destruct (Hin j d Hs) as (Hlt0 & cand & pf & Hsub & Hv).
    assert (Hlt : j < pa_shares params) by (rewrite <- Hpar; exact Hlt0). split; [exact Hlt|].
    unfold messages_for in Hsub. apply in_map_iff in Hsub as ([i' sub] & Heq & Hsub). cbn [snd] in Heq. subst sub.
    apply filter_In in Hsub as [Hsub Hi']. apply Nat.eqb_eq in Hi'. cbn [fst] in Hi'. subst i'.
    exact (Hgood i j cand pf ct d Hsub Hct Hlt Hv).
  - (* a wrong share *)
    destruct (nth_error keys j) as [key|] eqn:Hkey; [|apply nth_error_None in Hkey; lia].
    pose proof (Hkeys j key Hkey) as Hk. pose proof (Hask2 i j cand pf ct Hm Hct) as Hask.
    rewrite <- share_run in Hv. unfold share_verifier, index in *. rewrite Hpk, Hkey in *. cbn [doing] in *.
    destruct (PublicKey_from_element (random_element ct)) as [base|] eqn:Hb; cbn [doing] in *; [|discriminate].
    apply run_after_inv in Hv as ([[[]|e] t1] & Hv & Hr); [|discriminate]. cbn in Hr. injection Hr as <-.
    pose proof (pk_from_element_ok E _ _ Hb) as [Hel Hby]. apply (ser_element_ok _ L) in Hby as [_ HKb].
    refine (le_verifier_hits E L _ o D T pf base _ _ _ tt t1 _ HKb Hv _ _ HD).
    + intros h x c Hb'. right. left. exact Hb'.
    + rewrite Hel. intros Hs. apply (same_log_decryption E L _ key ct _ Hk) in Hs. apply Hbd. exact Hs.
    + intros y Hy. apply Hi, Hask. apply asked_after1. exact Hy.
Qed.


(** The result is right unless a bad challenge is hit, for any kind of ballots. *)
Lemma election_success (Hbig : (2 ^ 64 <= order L)%Z) (S : source E) m (Hbal : balanced S m) params keys (ks : PublicKeySet E) (sk : SecretKey E) n B M
    {Ballot : Type} (check : Ballot -> strategy (Scalar E) bool) (accepted : hash (Scalar E) -> Ballot -> bool)
    (choices : Ballot -> list (Ciphertext E)) (cost : nat) (valid : list N -> list (Ciphertext E) -> Prop) :
  params_ok params -> PublicKeySet_from_participants params keys = Ret (Ok ks) -> key_of sk (ks_shared_key ks) ->
  (forall b, at_most cost (check b)) -> (forall o b, run o (check b) = accepted o b) ->
  (forall o b, accepted o b = true -> List.length (choices b) = n) ->
  (forall vs cts, List.length cts = n -> valid vs cts -> votes_of sk vs cts) ->
  (genuine (ks_shared_key ks) -> forall o b, accepted o b = true -> (exists vs, valid vs (choices b)) \/
     forall D (T : strategy (Scalar E) (list bool)), incl (asked o (check b)) (asked o T) -> incl (asked o T) D ->
       hits (Scalar E) (bad_all E (api_values E)) D o [] T) ->
  forall Q (A : strategy (Scalar E) (list Ballot * list (message E))), at_most Q A ->
    let N := Z.of_nat (Q + (B * cost + M)) in
    success_at_most S A (election_checker check choices n B M ks)
      (fun o '(es, msgs) => List.length es <= B /\ List.length msgs <= M /\
         ~ exists votes, let cts := map choices (filter (accepted o) es) in
             Forall2 valid votes cts /\ announced_right E o params ks n votes cts msgs)
      (m * (N * (N + 1))) (2 * size S).
Proof.
  intros Hp Hks Hsk Hcost Hrun Hlen Hvalid Hcase Q A HA N.
  apply (any_success E L S m Hbal _ (api_values_fun E) (api_values_bound E) Q _ A _ _ HA).
  { intros x. apply election_most. exact Hcost. }
  intros o D T [es msgs] (HB & HM & Hbad) Hi HD.
  exact (election_hits Hbig params keys ks sk n B M check accepted choices valid Hp Hks Hsk Hrun Hlen Hvalid Hcase o D T es msgs HB HM Hbad Hi HD).
Qed.

(** wins for a stronger notion of right results *)
Lemma success_weaken (S : source E) {X Y} (A : strategy (Scalar E) X) (V : X -> strategy (Scalar E) Y) (wins wins' : hash (Scalar E) -> X -> Prop) num den :
  (forall o x, wins o x -> wins' o x) -> success_at_most S A V wins' num den -> success_at_most S A V wins num den.
Proof.
  intros Hw H D W HW Hall. apply (H D W HW). intros o Ho. destruct (Hall o Ho) as [H1 H2]. split; [exact H1|exact (Hw _ _ H2)].
Qed.

(** votes up to [m] are determined by the ciphertexts, and can be looked for *)
Lemma votes_or_not (Hbig : (2 ^ 64 <= order L)%Z) sk m C (cts : list (Ciphertext E)) : (m < u64_lim)%N ->
  let ok vs := Forall2 (fun v ct => (v <= m)%N /\ decrypt_to_element sk ct = times v generator) vs cts in
  (exists vs, ok vs /\ (squares vs <= C)%N) \/ ~ (exists vs, ok vs /\ (squares vs <= C)%N).
Proof.
  intros Hm ok.
  assert (Hone : forall ct : Ciphertext E, (exists v, (v <= m)%N /\ decrypt_to_element sk ct = times v generator) \/
    ~ (exists v, (v <= m)%N /\ decrypt_to_element sk ct = times v generator)).
  { intros ct. assert (Hk : forall k : nat, (exists v, (v < N.of_nat k)%N /\ decrypt_to_element sk ct = times v generator) \/
      ~ (exists v, (v < N.of_nat k)%N /\ decrypt_to_element sk ct = times v generator)).
    { induction k as [|k IH]; [right; intros (v & Hv & _); lia|].
      destruct IH as [(v & H1 & H2)|IH]; [left; exists v; split; [lia|exact H2]|].
      destruct (e_eq_dec L (decrypt_to_element sk ct) (times (N.of_nat k) generator)) as [He|He]; [left; exists (N.of_nat k); split; [lia|exact He]|right].
      intros (v & H1 & H2). destruct (N.eq_dec v (N.of_nat k)) as [->|Hne]; [exact (He H2)|]. apply IH. exists v. split; [lia|exact H2]. }
    destruct (Hk (S (N.to_nat m))) as [(v & H1 & H2)|H]; [left; exists v; split; [lia|exact H2]|right].
    intros (v & H1 & H2). apply H. exists v. split; [lia|exact H2]. }
  assert (Hall : (exists vs, ok vs) \/ ~ (exists vs, ok vs)).
  { unfold ok. clear ok. induction cts as [|ct cts IH]; [left; exists []; constructor|].
    destruct (Hone ct) as [[v Hv]|Hv]; [|right; intros [vs H]; inversion H; subst; apply Hv; eauto].
    destruct IH as [[vs IH]|IH]; [left; exists (v :: vs); constructor; assumption|].
    right. intros [vs' H]. inversion H; subst. apply IH. eauto. }
  destruct Hall as [[vs Hvs]|H]; [|right; intros (vs & Hvs & _); apply H; exists vs; exact Hvs].
  destruct (N.le_gt_cases (squares vs) C) as [Hle|Hgt]; [left; exists vs; split; [exact Hvs|exact Hle]|right].
  intros (vs' & Hvs' & Hle). assert (vs = vs'); [|subst; lia]. clear -Hvs Hvs' L Hbig Hm. unfold ok in *. clear ok. revert vs' Hvs'.
  induction Hvs as [|v ct vs cts [H1 H2] Hvs IH]; intros vs' H'; inversion H' as [|v' ct' l l' [H1' H2'] H'' E1 E2]; subst; [reflexivity|].
  f_equal; [|exact (IH _ H'')]. rewrite H2 in H2'. rewrite !(times_of_u64 E L) in H2' by lia. apply (gen_inj L) in H2'.
  apply (of_u64_inj E L Hbig); [lia|lia|exact H2'].
Qed.

End Lemmas.

(** Single choice: there is one chosen option for each accepted ballot, which is the vote in the ballot, and the results count them. *)
Theorem C92_election :
  forall (E : Env) (L : GroupLaws E), (2 ^ 64 <= order L)%Z -> forall (S : source E) m, balanced S m ->
  forall params keys (ks : PublicKeySet E) (sk : SecretKey E) n B M,
    params_ok params -> PublicKeySet_from_participants params keys = Ret (Ok ks) -> key_of sk (ks_shared_key ks) ->
    (N.of_nat n < 2 ^ 64)%N ->
  forall Q (A : strategy (Scalar E) (list (single_ballot E) * list (message E))), at_most Q A ->
    let N := Z.of_nat (Q + (B * (n + 2) + M)) in
    success_at_most S A (election_checker (single_checker n ks) (fun b => fst (fst b)) n B M ks)
      (fun o '(es, msgs) => List.length es <= B /\ List.length msgs <= M /\
         ~ exists chosen, let cts := map (fun b => fst (fst b)) (filter (single_accepted E n (ks_shared_key ks) o) es) in
             Forall2 (fun k l => one_hot sk l k) chosen cts /\
             announced_right E o params ks n (map (choice_votes n) chosen) cts msgs)
      (m * (N * (N + 1))) (2 * size S).
Proof.
  intros E L Hbig S m Hbal params keys ks sk n B M Hp Hks Hsk Hn Q A HA N.
  eapply success_weaken; [|refine (election_success E L Hbig S m Hbal params keys ks sk n B M (single_checker n ks)
    (single_accepted E n (ks_shared_key ks)) (fun b => fst (fst b)) (n + 2) (fun vs l => exists k, one_hot sk l k /\ vs = choice_votes n k)
    Hp Hks Hsk _ _ _ _ _ Q A HA)].
  - intros o [es msgs] (HB & HM & Hbad). split; [exact HB|]. split; [exact HM|]. intros (votes & Hv & Hr). apply Hbad.
    assert (Hch : forall cts : list (list (Ciphertext E)), Forall2 (fun vs l => exists k, one_hot sk l k /\ vs = choice_votes n k) votes cts ->
      exists chosen, Forall2 (fun k l => one_hot sk l k) chosen cts /\ votes = map (choice_votes n) chosen).
    { clear. intros cts Hv. induction Hv as [|vs l votes cts (k & Hk & ->) Hv (chosen & IH & ->)]; [exists []; split; [constructor|reflexivity]|].
      exists (k :: chosen). split; [constructor; assumption|reflexivity]. }
    destruct (Hch _ Hv) as (chosen & Hch' & ->). exists chosen. split; [exact Hch'|exact Hr].
  - intros b. apply checking_most, single_choice_most.
  - intros o b. unfold single_checker, checking, single_accepted. rewrite run_andthen, single_choice_run. reflexivity.
  - intros o b H. unfold single_accepted in H. rewrite <- single_choice_run in H. unfold single_choice_verifier in H.
    destruct (Nat.eqb_spec n (List.length (fst (fst b)))) as [->|]; [reflexivity|discriminate].
  - intros vs l Hl (k & Hk & ->). exact (one_hot_votes E L sk n k l Hl Hk).
  - intros HK o b H. destruct (one_hot_or_not E L sk (fst (fst b))) as [[k Hk]|Hno]; [left; eauto|right].
    intros D T Hi HD. unfold single_accepted in H. rewrite <- single_choice_run in H. unfold is_ok in H.
    destruct (run o _) as [[res|e]|x] eqn:Hrun; try discriminate. unfold single_checker in Hi. rewrite checking_asked in Hi.
    refine (single_hits E L _ o D T sk n (ks_shared_key ks) _ _ _ res _ _ Hsk HK Hn _ Hrun Hno Hi HD).
    + intros h x y ch Hy Hb'. left. exists y. auto.
    + intros h x c Hb'. right. left. exact Hb'.
    + lia.
Qed.
Print Assumptions C92_election.

(** Multi-choice ballots. *)
Theorem C92_multi_election :
  forall (E : Env) (L : GroupLaws E), (2 ^ 64 <= order L)%Z -> forall (S : source E) m, balanced S m ->
  forall params keys (ks : PublicKeySet E) (sk : SecretKey E) n B M,
    params_ok params -> PublicKeySet_from_participants params keys = Ret (Ok ks) -> key_of sk (ks_shared_key ks) ->
    (N.of_nat n < 2 ^ 64)%N ->
  forall Q (A : strategy (Scalar E) (list (multi_ballot E) * list (message E))), at_most Q A ->
    let N := Z.of_nat (Q + (B * (n + 1) + M)) in
    success_at_most S A (election_checker (multi_checker n ks) fst n B M ks)
      (fun o '(es, msgs) => List.length es <= B /\ List.length msgs <= M /\
         ~ exists votes, let cts := map fst (filter (multi_accepted E n (ks_shared_key ks) o) es) in
             Forall2 (Forall2 (fun v ct => (v <= 1)%N /\ decrypt_to_element sk ct = times v generator)) votes cts /\
             announced_right E o params ks n votes cts msgs)
      (m * (N * (N + 1))) (2 * size S).
Proof.
  intros E L Hbig S m Hbal params keys ks sk n B M Hp Hks Hsk Hn Q A HA N.
  refine (election_success E L Hbig S m Hbal params keys ks sk n B M (multi_checker n ks)
    (multi_accepted E n (ks_shared_key ks)) fst (n + 1) (Forall2 (fun v ct => (v <= 1)%N /\ decrypt_to_element sk ct = times v generator))
    Hp Hks Hsk _ _ _ _ _ Q A HA).
  - intros b. apply checking_most, multi_choice_most.
  - intros o b. unfold multi_checker, checking, multi_accepted. rewrite run_andthen, multi_choice_run. reflexivity.
  - intros o b H. unfold multi_accepted in H. rewrite <- multi_choice_run in H. unfold multi_choice_verifier in H.
    destruct (Nat.eqb_spec n (List.length (fst b))) as [->|]; [reflexivity|discriminate].
  - intros vs l _ Hv. induction Hv as [|v ct vs l [_ Hv] _ IH]; constructor; assumption.
  - intros HK o b H. destruct (bits_or_not E L sk (fst b)) as [[flags Hf]|(k & ct & H1 & H2)].
    + left. exists (map (fun f : bool => if f then 1%N else 0%N) flags). clear -L Hf. induction Hf as [|f ct flags l Hf _ IH]; [constructor|].
      cbn [map]. constructor; [|exact IH]. rewrite Hf. destruct f; (split; [lia|]); [|reflexivity]. unfold times. cbn. symmetry. apply (e_add_id_r L).
    + right. intros D T Hi HD. unfold multi_accepted in H. rewrite <- multi_choice_run in H. unfold is_ok in H.
      destruct (run o _) as [[res|e]|x] eqn:Hrun; try discriminate. unfold multi_checker in Hi. rewrite checking_asked in Hi.
      refine (multi_hits E L _ o D T sk n (ks_shared_key ks) _ _ res _ Hsk HK Hn Hrun _ Hi HD).
      * intros h x y ch Hy Hb'. left. exists y. auto.
      * intros [flags Hf]. apply H2. clear -Hf H1. revert k H1. induction Hf as [|f c flags cts Hc _ IH]; intros [|k] H1; try discriminate.
        -- injection H1 as ->. rewrite Hc. destruct f; cbn; auto.
        -- exact (IH k H1).
Qed.
Print Assumptions C92_multi_election.

(** Quadratic voting. *)
Theorem C92_quadratic_election :
  forall (E : Env) (L : GroupLaws E), (2 ^ 64 <= order L)%Z -> forall (S : source E) m, balanced S m ->
  forall params keys (ks : PublicKeySet E) (sk : SecretKey E) options credits max p B M,
    params_ok params -> PublicKeySet_from_participants params keys = Ret (Ok ks) -> key_of sk (ks_shared_key ks) ->
    (credits + 65 < 2 ^ 64)%N -> qv_params (ks_shared_key ks) options credits max p ->
    (Z.of_nat options * (Z.of_N max * Z.of_N max) < order L)%Z ->
  forall Q (A : strategy (Scalar E) (list (QuadraticVotingBallot E) * list (message E))), at_most Q A ->
    let N := Z.of_nat (Q + (B * quadratic_queries p + M)) in
    success_at_most S A (election_checker (quadratic_checker p) quadratic_choices options B M ks)
      (fun o '(es, msgs) => List.length es <= B /\ List.length msgs <= M /\
         ~ exists votes, let cts := map quadratic_choices (filter (quadratic_accepted E p o) es) in
             Forall2 (fun vs l => Forall2 (fun v ct => (v <= max)%N /\ decrypt_to_element sk ct = times v generator) vs l /\
                                  (squares vs <= credits)%N) votes cts /\
             announced_right E o params ks options votes cts msgs)
      (m * (N * (N + 1))) (2 * size S).
Proof.
  intros E L Hbig S m Hbal params keys ks sk options credits max p B M Hp Hks Hsk Hc Hqv Hb Q A HA N.
  pose proof (qv_params_inv E L _ _ _ _ _ Hc Hqv) as Hinv. pose proof Hinv as Hinv'. destruct Hinv' as (dv & dc & _ & _ & HV & HC & _ & Hpeq).
  assert (Hacc : forall o b, quadratic_accepted E p o b = true ->
    QuadraticVotingBallot_verify (E:=hashed_by E o) b p = Ret (Ok (quadratic_choices b)) /\ List.length (quadratic_choices b) = options).
  { intros o b H. unfold quadratic_accepted, is_ok in H.
    destruct (QuadraticVotingBallot_verify (E:=hashed_by E o) b p) as [[cts|]|] eqn:Hv; try discriminate.
    pose proof Hv as Hv'. rewrite <- quadratic_run in Hv'. apply (C47_accepts_iff (hashed_by E o)) in Hv as [-> _]. split; [reflexivity|].
    unfold quadratic_verifier, QuadraticVotingParams_check_options_count in Hv'. rewrite Hpeq in Hv'. cbn [qv_options_count] in Hv'.
    unfold quadratic_choices. rewrite map_length.
    destruct (Nat.eqb_spec options (List.length (qb_votes b))) as [->|]; [reflexivity|discriminate]. }
  refine (election_success E L Hbig S m Hbal params keys ks sk options B M (quadratic_checker p)
    (quadratic_accepted E p) quadratic_choices (quadratic_queries p)
    (fun vs l => Forall2 (fun v ct => (v <= max)%N /\ decrypt_to_element sk ct = times v generator) vs l /\ (squares vs <= credits)%N)
    Hp Hks Hsk _ _ _ _ _ Q A HA).
  - intros b. apply checking_most, quadratic_most.
  - intros o b. unfold quadratic_checker, checking, quadratic_accepted. rewrite run_andthen, quadratic_run. reflexivity.
  - intros o b H. exact (proj2 (Hacc o b H)).
  - intros vs l _ [Hv _]. induction Hv as [|v ct vs l [_ Hv] _ IH]; constructor; assumption.
  - intros HK o b H. assert (Hmax : (max < u64_lim)%N) by (unfold u64_lim; lia).
    destruct (votes_or_not E L Hbig sk max credits (quadratic_choices b) Hmax) as [H'|Hno]; [left; exact H'|right].
    intros D T Hi HD. pose proof (proj1 (Hacc o b H)) as Hrun. rewrite <- quadratic_run in Hrun. unfold quadratic_checker in Hi. rewrite checking_asked in Hi.
    refine (quadratic_hits E L _ o D T sk (ks_shared_key ks) options max credits p b _ _ _ Hinv Hsk HK Hb _ _ _ Hrun Hno Hi HD).
    + intros h x y ch Hy Hb'. left. exists y. auto.
    + intros h x c Hb'. right. right. exact Hb'.
    + lia.
    + unfold u64_lim. lia.
    + unfold u64_lim. lia.
Qed.
Print Assumptions C92_quadratic_election.

(** The hash that always answers 3, one honest ballot, and three talliers who send wrong shares with simulated proofs for the
    challenge 3: the announced number is neither 0 nor 1.  So wrong results do occur, for some hash functions. *)
Definition ex_ballots : list (single_ballot RE) :=
  let H := hashed_by RE constant_hash in
  match ChoiceParams_single (E:=H) (ks_shared_key ex_ks) 2 with
  | Ret cp => match EncryptedChoice_single (E:=H) cp 1 21%Z with
              | Ret (e, _) => [(ec_choices e, ec_range_proof e, ec_sum_proof e)]
              | _ => [] end
  | _ => []
  end.
Definition ex_messages : list (message RE) :=
  map (fun j => (0, (j, {| cd_inner := {| vd_dh_element := re (7 + Z.of_nat j) |} |}, {| le_challenge := rs 3; le_response := rs 1 |}))) [0; 1; 2].
Definition ex_accepted : list (list (Ciphertext RE)) :=
  map (fun b => fst (fst b)) (filter (single_accepted RE 2 (ks_shared_key ex_ks) constant_hash) ex_ballots).
Definition ex_wrong : bool :=
  match nth_error (tally 2 ex_accepted) 0 with
  | Some ct =>
      match collect (E:=hashed_by RE constant_hash) ex_ks ct (messages_for 0 ex_messages) [] with
      | Ret shares =>
          match combine_shares (E:=hashed_by RE constant_hash) ex_params shares with
          | Ret (Some dec) => negb (e_eqb (VerifiableDecryption_decrypt_to_element (E:=RE) dec ct) (times (N.of_nat 0) generator)) &&
                              negb (e_eqb (VerifiableDecryption_decrypt_to_element (E:=RE) dec ct) (times (N.of_nat 1) generator))
          | _ => false end
      | _ => false end
  | _ => false
  end.
Lemma ex_wrong_ok : ex_wrong = true.
Proof. vm_compute. reflexivity. Qed.

Example C92_example :
  let A : strategy (Scalar RE) (list (single_ballot RE) * list (message RE)) := Output (ex_ballots, ex_messages) in
  let V := election_checker (single_checker 2 ex_ks) (fun b => fst (fst b)) 2 1 3 ex_ks in
  let D := nodup query_eq_dec (asked constant_hash (andthen A V)) in
  at_most 0 A /\ hashes_on (digests (uniform_source RL)) D [constant_hash] /\
  List.length ex_accepted = 1 /\
  (forall o, In o [constant_hash] -> incl (asked (challenges (uniform_source RL) o) (andthen A V)) D /\
     let '(es, msgs) := run o A in
     List.length es <= 1 /\ List.length msgs <= 3 /\
       ~ exists chosen, let cts := map (fun b => fst (fst b)) (filter (single_accepted RE 2 (ks_shared_key ex_ks) o) es) in
           Forall2 (fun k l => one_hot (E:=RE) (rs 10) l k) chosen cts /\
           announced_right RE o ex_params ex_ks 2 (map (choice_votes 2) chosen) cts msgs).
Proof.
  intros A V D. split; [constructor|]. split; [|split].
  - split; [constructor; constructor|]. split; [intros o x _ _; apply (uniform_all RE RL)|]. intros o o' x [<-|[]] [<-|[]] _. reflexivity.
  - vm_compute. reflexivity.
  - intros o [<-|[]]. rewrite uniform_challenges. split; [intros y Hy; apply nodup_In; exact Hy|]. cbn [run A].
    split; [apply Nat.leb_le; vm_compute; reflexivity|]. split; [apply Nat.leb_le; vm_compute; reflexivity|].
    intros (chosen & Hch & Hall). change (Forall2 (fun k l => one_hot (E:=RE) (rs 10) l k) chosen ex_accepted) in Hch.
    change (announced_right RE constant_hash ex_params ex_ks 2 (map (choice_votes 2) chosen) ex_accepted ex_messages) in Hall.
    unfold announced_right in Hall.
    assert (Hl : List.length chosen = 1) by (rewrite (Forall2_length' _ _ _ Hch); vm_compute; reflexivity).
    pose proof ex_wrong_ok as Hw. unfold ex_wrong in Hw.
    destruct (nth_error _ 0) as [ct|] eqn:H1; [|discriminate Hw].
    match type of Hw with match ?x with _ => _ end = _ => destruct x as [shares|] eqn:H2; [|discriminate Hw] end.
    match type of Hw with match ?x with _ => _ end = _ => destruct x as [[dec|]|] eqn:H3; [|discriminate Hw|discriminate Hw] end.
    specialize (Hall 0 ct shares dec H1 H2 H3). apply andb_true_iff in Hw as [Hn0 Hn1]. apply negb_true_iff in Hn0, Hn1.
    assert (Hx : forall a b : Element RE, a = b -> e_eqb a b = true) by (intros a b Hab; apply (e_eqb_ok _ RL); exact Hab).
    destruct chosen as [|k [|k' chosen]]; [discriminate Hl| |discriminate Hl]. rewrite (column_votes 2 0 [k]) in Hall by lia. unfold count_occ in Hall.
    destruct (Nat.eq_dec k 0); [rewrite (Hx _ _ Hall) in Hn1; discriminate Hn1|rewrite (Hx _ _ Hall) in Hn0; discriminate Hn0].
Qed.
