(** * Forged encryptions and ballots: lemmas for C58 *)
From Coq Require Import List String NArith ZArith Field Arith Lia Bool.
From Verif.Model Require Import Base Group Transcript Keys Encryption LogEquality Ring Range Mul Sharing Choice Quadratic.
From Verif.Spec Require Import Encryption LogEquality Sigma Ring Range Choice Quadratic Domains Rom Verifiers.
From Verif.Proofs Require Import Algebra Lists Encryption LogEquality Commitment SumOfSquares Ring Range RangeProof Choice Quadratic Rom Verifiers Forgery.
Import ListNotations.
Open Scope string_scope.
Open Scope list_scope.
Open Scope nat_scope.

Section Ballots.
Context (E : Env) (L : GroupLaws E).
Add Field s_field_ballots : (s_field L).
Local Notation element := (Element E).
Local Notation scalar := (Scalar E).

(** the admissible values of the [i]-th ring of a proof made by the API in the context [t] *)
Definition api_values (t : transcript) (i : nat) (vs : list element) : Prop :=
  (N.of_nat i < u64_lim)%N /\
  ((vs = [identity; generator] /\ exists l b, t = [TMsg l b]) \/
   (exists t' d n, t = range_start_transcript t' d /\ doc_form n d /\ (n < u64_lim)%N /\ nth_error (range_values (E:=E) d) i = Some vs)).

Lemma range_start_long t d l b : range_start_transcript t d <> [TMsg l b].
Proof.
  unfold range_start_transcript, start_proof, append_message. intros H.
  apply (f_equal (@List.length _)) in H. rewrite !app_length in H. cbn in H. lia.
Qed.

Lemma api_values_fun t i vs vs' : api_values t i vs -> api_values t i vs' -> vs = vs'.
Proof.
  intros [_ [[-> (l & b & Ht)]|(t1 & d & n & Ht & Hd & Hn & Hv)]] [_ [[-> (l' & b' & Ht')]|(t1' & d' & n' & Ht' & Hd' & Hn' & Hv')]].
  - reflexivity.
  - rewrite Ht in Ht'. symmetry in Ht'. destruct (range_start_long _ _ _ _ Ht').
  - rewrite Ht in Ht'. destruct (range_start_long _ _ _ _ Ht').
  - rewrite Ht in Ht'. apply range_start_inj in Ht' as [_ <-].
    + congruence.
    + eapply Forall_impl; [|exact (doc_form_rings _ _ Hd)]. cbn. tauto.
    + eapply Forall_impl; [|exact (doc_form_rings _ _ Hd')]. cbn. tauto.
Qed.

Lemma ring_size_bound n d s : doc_form n d -> In s d -> (rs_size s <= n)%N.
Proof.
  intros Hd Hs. pose proof (doc_form_bound n d Hd) as Hb. pose proof (doc_form_rings n d Hd) as Hr.
  rewrite Forall_forall in Hr. destruct (Hr s Hs) as [H2 H1]. clear Hd Hr.
  assert (Hle : ((rs_size s - 1) * rs_step s <= n_sum (map (fun s => (rs_size s - 1) * rs_step s) d))%N).
  { apply n_sum_in. exact (in_map (fun s => (rs_size s - 1) * rs_step s)%N _ _ Hs). }
  nia.
Qed.

Lemma api_values_bound t i vs : api_values t i vs ->
  (N.of_nat i < u64_lim)%N /\ (N.of_nat (List.length vs) < u64_lim)%N /\ 2 <= List.length vs.
Proof.
  intros [Hi [[-> _]|(t' & d & n & _ & Hd & Hn & Hv)]]; (split; [exact Hi|]).
  - cbn. unfold u64_lim. lia.
  - apply range_values_nth in Hv as (s & Hs & ->). rewrite map_length, seq_length.
    apply nth_error_In in Hs. pose proof (ring_size_bound n d s Hd Hs). pose proof (doc_form_rings n d Hd) as Hr.
    rewrite Forall_forall in Hr. destruct (Hr s Hs). lia.
Qed.

Local Notation ring_bad := (ring_bad E api_values).
Local Notation bad_ring := (bad_ring E api_values).
Local Notation bad_all := (bad_all E api_values).

Lemma bad_all_ring h x y c : In y h -> ring_bad y x c -> bad_all h x c.
Proof. intros Hy Hb. left. exists y. auto. Qed.

(** a ring proof accepted for a ciphertext whose value is not admissible *)
Lemma ring_hits {B : Type} (bad : list query -> query -> scalar -> Prop) (o : hash (Scalar E)) D (T : strategy (Scalar E) B)
    sk p (K : PublicKey E) vals cts t r t' k vs ct :
  (forall h x y c, In y h -> ring_bad y x c -> bad h x c) -> key_of sk K ->
  genuine K -> run o (ring_verifier p K vals cts t) = Ret (Ok r, t') ->
  api_values t k vs -> nth_error vals k = Some vs -> nth_error cts k = Some ct -> ~ In (decrypt_to_element sk ct) vs ->
  incl (asked o (ring_verifier p K vals cts t)) (asked o T) -> incl (asked o T) D ->
  hits (Scalar E) bad D o [] T.
Proof.
  intros Hb Hk HK Hrun Hv Hn Hc Hd. refine (ring_verifier_hits E L api_values api_values_bound bad o D T p K vals cts t r t' k vs ct Hb HK Hrun Hv Hn Hc _).
  intros A Hin Hs. apply (same_log_value E L sk K ct A Hk) in Hs. rewrite Hs in Hd. contradiction.
Qed.

Lemma range_hits {B : Type} (bad : list query -> query -> scalar -> Prop) (o : hash (Scalar E)) D (T : strategy (Scalar E) B)
    sk p (K : PublicKey E) n d ct t r t' :
  (forall h x y c, In y h -> ring_bad y x c -> bad h x c) -> key_of sk K -> genuine K ->
  doc_form n d -> (n < u64_lim)%N ->
  run o (range_verifier p K {| pr_inner := d; pr_admissible := range_values d |} ct t) = Ret (Ok r, t') ->
  ~ (exists v, (v < n)%N /\ decrypt_to_element sk ct = times v generator) ->
  incl (asked o (range_verifier p K {| pr_inner := d; pr_admissible := range_values d |} ct t)) (asked o T) -> incl (asked o T) D ->
  hits (Scalar E) bad D o [] T.
Proof.
  intros Hb Hk HK Hd Hn Hrun Hno Hi HD. unfold range_verifier, check_lengths in *. cbn [pr_inner pr_admissible] in *.
  rewrite range_values_length in *.
  destruct (Nat.eqb_spec (List.length (rap_partial p) + 1) (List.length d)) as [Hl|]; [|discriminate].
  rewrite (fold_sub_add E L), (sub_zero E L) in *. fold (range_ciphertexts (rap_partial p) ct) in *.
  destruct (all_or_not E L sk (range_values d) (range_ciphertexts (rap_partial p) ct)) as [Hall|(k & vs & pct & H1 & H2 & H3)].
  - unfold range_ciphertexts. rewrite app_length, range_values_length. exact Hl.
  - destruct Hno. destruct (all_in_values E L sk d _ Hall) as (idx & Hidx & Hsum). exists (composed d idx).
    split; [eapply composed_bound; eassumption|]. rewrite <- Hsum. unfold range_ciphertexts. apply (decrypt_remaining E L).
  - refine (ring_hits bad o D T sk _ K _ _ _ r t' k vs pct Hb Hk HK Hrun _ H1 H2 H3 Hi HD).
    split.
    + assert (Hkd : k < List.length d) by (rewrite <- (range_values_length E); apply nth_error_Some; congruence).
      pose proof (doc_form_log n d Hd) as Hlog. pose proof (N.pow_gt_lin_r 2 (N.of_nat (List.length d)) ltac:(lia)). lia.
    + right. exists t, d, n. auto.
Qed.

(** bits *)
Lemma bits_or_not sk (l : list (Ciphertext E)) :
  (exists flags, Forall2 (fun flag c => decrypt_to_element sk c = bit_element flag) flags l) \/
  exists k ct, nth_error l k = Some ct /\ ~ In (decrypt_to_element sk ct) [identity; generator].
Proof.
  induction l as [|c l [[flags IH]|(k & ct & IH)]].
  - left. exists []. constructor.
  - destruct (e_eq_dec L (decrypt_to_element sk c) identity) as [H|H]; [left; exists (false :: flags); constructor; assumption|].
    destruct (e_eq_dec L (decrypt_to_element sk c) generator) as [H'|H']; [left; exists (true :: flags); constructor; assumption|].
    right. exists 0, c. split; [reflexivity|]. cbn. intros [Hx|[Hx|[]]]; congruence.
  - right. exists (Datatypes.S k), ct. exact IH.
Qed.

Lemma bits_one_hot sk (cts : list (Ciphertext E)) flags :
  Forall2 (fun flag c => decrypt_to_element sk c = bit_element flag) flags cts ->
  (Z.of_nat (List.length cts) < order L)%Z -> decrypt_to_element sk (ct_total cts) = generator -> exists k, one_hot sk cts k.
Proof.
  intros Hf Hbig Hg. pose proof (bits_total E L sk _ _ Hf) as Hb. rewrite Hg, (dlog_generator L), <- (phi_1 L) in Hb.
  pose proof (count_occ_bound bool_dec true flags) as Hcb. pose proof (Forall2_length' _ _ _ Hf) as Hlen.
  apply (phi_inj_small L) in Hb; [|pose proof (order_gt_1 L); lia|lia].
  destruct (count_one flags) as (k & Hk1 & Hall); [lia|].
  exists k. split; [lia|]. intros i ct Hi.
  assert (Hfi : exists b, nth_error flags i = Some b).
  { destruct (nth_error flags i) eqn:Hn; [eauto|]. apply nth_error_None in Hn.
    assert (i < List.length cts) by (apply nth_error_Some; congruence). lia. }
  destruct Hfi as [b Hb']. rewrite <- (Hall i b Hb').
  clear -Hf Hi Hb'. revert i Hi Hb'. induction Hf as [|f c l cts Hf0 Hf IH]; intros [|i] Hi Hb'; cbn in *; try discriminate.
  - injection Hi as <-. injection Hb' as <-. exact Hf0.
  - exact (IH i Hi Hb').
Qed.

Lemma nth_repeat {A : Type} (a : A) n k : k < n -> nth_error (repeat a n) k = Some a.
Proof. revert k. induction n as [|n IH]; intros [|k] H; cbn; [lia|lia|reflexivity|]. apply IH. lia. Qed.

Lemma choice_ranges_hits {B : Type} (bad : list query -> query -> scalar -> Prop) (o : hash (Scalar E)) D (T : strategy (Scalar E) B)
    sk (K : PublicKey E) cts p res :
  (forall h x y c, In y h -> ring_bad y x c -> bad h x c) -> key_of sk K -> genuine K ->
  (N.of_nat (List.length cts) < u64_lim)%N ->
  run o (choice_ranges_verifier K cts p) = Ret (Ok res) ->
  ~ (exists flags, Forall2 (fun flag c => decrypt_to_element sk c = bit_element flag) flags cts) ->
  incl (asked o (choice_ranges_verifier K cts p)) (asked o T) -> incl (asked o T) D ->
  hits (Scalar E) bad D o [] T.
Proof.
  intros Hb Hk HK Hlen Hrun Hno Hi HD. unfold choice_ranges_verifier in *. apply run_after_inv in Hrun as ([[u|e] t'] & Hrun & Hr); [|discriminate].
  destruct (bits_or_not sk cts) as [Hf|(k & ct & H1 & H2)]; [contradiction|].
  assert (Hkl : k < List.length cts) by (apply nth_error_Some; congruence).
  refine (ring_hits bad o D T sk p K _ cts _ u t' k [identity; generator] ct Hb Hk HK Hrun _ (nth_repeat _ _ _ Hkl) H1 H2 _ HD).
  - split; [lia|]. left. split; [reflexivity|]. eexists _, _. reflexivity.
  - intros y Hy. apply Hi. apply asked_after1. exact Hy.
Qed.

Lemma bool_hits {B : Type} (bad : list query -> query -> scalar -> Prop) (o : hash (Scalar E)) D (T : strategy (Scalar E) B)
    sk (K : PublicKey E) ct p r :
  (forall h x y c, In y h -> ring_bad y x c -> bad h x c) -> key_of sk K -> genuine K ->
  run o (bool_verifier K ct p) = Ret (Ok r) ->
  decrypt_to_element sk ct <> identity -> decrypt_to_element sk ct <> generator ->
  incl (asked o (bool_verifier K ct p)) (asked o T) -> incl (asked o T) D ->
  hits (Scalar E) bad D o [] T.
Proof.
  intros Hb Hk HK Hrun H0 H1 Hi HD. unfold bool_verifier in *. apply run_after_inv in Hrun as ([[u|e] t'] & Hrun & Hr); [|discriminate].
  refine (ring_hits bad o D T sk p K _ [ct] _ u t' 0 [identity; generator] ct Hb Hk HK Hrun _ eq_refl eq_refl _ _ HD).
  - split; [reflexivity|]. left. split; [reflexivity|]. eexists _, _. reflexivity.
  - intros [H|[H|[]]]; congruence.
  - intros y Hy. apply Hi. apply asked_after1. exact Hy.
Qed.

Lemma multi_hits {B : Type} (bad : list query -> query -> scalar -> Prop) (o : hash (Scalar E)) D (T : strategy (Scalar E) B)
    sk n (K : PublicKey E) cts p res :
  (forall h x y c, In y h -> ring_bad y x c -> bad h x c) -> key_of sk K -> genuine K -> (N.of_nat n < u64_lim)%N ->
  run o (multi_choice_verifier n K cts p) = Ret (Ok res) ->
  ~ (exists flags, Forall2 (fun flag c => decrypt_to_element sk c = bit_element flag) flags cts) ->
  incl (asked o (multi_choice_verifier n K cts p)) (asked o T) -> incl (asked o T) D ->
  hits (Scalar E) bad D o [] T.
Proof.
  intros Hb Hk HK Hn Hrun Hno Hi HD. unfold multi_choice_verifier in *.
  destruct (Nat.eqb_spec n (List.length cts)) as [->|]; [|discriminate].
  destruct (unwrap (reduce Ciphertext_add cts)) as [total|]; cbn [doing] in *; [|discriminate].
  exact (choice_ranges_hits bad o D T sk K cts p res Hb Hk HK Hn Hrun Hno Hi HD).
Qed.

Lemma single_hits {B : Type} (bad : list query -> query -> scalar -> Prop) (o : hash (Scalar E)) D (T : strategy (Scalar E) B)
    sk n (K : PublicKey E) cts p s res :
  (forall h x y c, In y h -> ring_bad y x c -> bad h x c) -> (forall h x c, le_bad E x c -> bad h x c) ->
  key_of sk K -> genuine K -> (N.of_nat n < u64_lim)%N -> (Z.of_nat n < order L)%Z ->
  run o (single_choice_verifier n K cts p s) = Ret (Ok res) -> ~ (exists k, one_hot sk cts k) ->
  incl (asked o (single_choice_verifier n K cts p s)) (asked o T) -> incl (asked o T) D ->
  hits (Scalar E) bad D o [] T.
Proof.
  intros Hb Hb' Hk HK Hn Hbig Hrun Hno Hi HD. unfold single_choice_verifier in *.
  destruct (Nat.eqb_spec n (List.length cts)) as [->|]; [|discriminate].
  destruct (unwrap (reduce Ciphertext_add cts)) as [total|] eqn:Htot; cbn [doing] in *; [|discriminate].
  assert (Htotal : total = ct_total cts).
  { unfold unwrap in Htot. destruct (reduce Ciphertext_add cts) eqn:Hr; [|discriminate]. injection Htot as ->.
    destruct cts as [|c0 l0]; [discriminate|]. rewrite (reduce_ct E L (c0 :: l0)) in Hr by congruence. congruence. }
  subst total. apply run_after_inv in Hrun as ([[u|e] t'] & Hle & Hrun); cbn [fst] in Hrun; [|discriminate].
  destruct (bits_or_not sk cts) as [[flags Hf]|(k & ct & H1 & H2)].
  - refine (le_verifier_hits E L bad o D T s K _ _ _ u t' Hb' HK Hle _ _ HD).
    + intros Hs. apply (same_log_one E L sk K _ Hk) in Hs. apply Hno. exact (bits_one_hot sk cts flags Hf Hbig Hs).
    + intros y Hy. apply Hi. apply asked_after1. exact Hy.
  - refine (choice_ranges_hits bad o D T sk K cts p res Hb Hk HK Hn Hrun _ _ HD).
    + intros [flags Hf]. apply H2. clear -Hf H1. revert k H1. induction Hf as [|f c flags cts Hc _ IH]; intros [|k] H1; try discriminate.
      * injection H1 as ->. rewrite Hc. destruct f; cbn; auto.
      * exact (IH k H1).
    + intros y Hy. apply Hi. eapply asked_after2; [exact Hle|]. exact Hy.
Qed.

(** quadratic voting *)
Lemma bounded_dec (sk : SecretKey E) ct n :
  (exists v, (v < n)%N /\ decrypt_to_element sk ct = times v generator) \/
  ~ (exists v, (v < n)%N /\ decrypt_to_element sk ct = times v generator).
Proof.
  induction n as [|n IH] using N.peano_ind.
  - right. intros (v & Hv & _). lia.
  - destruct IH as [(v & Hv & Hd)|IH]; [left; exists v; split; [lia|exact Hd]|].
    destruct (e_eq_dec L (decrypt_to_element sk ct) (times n generator)) as [Hd|Hd].
    + left. exists n. split; [lia|exact Hd].
    + right. intros (v & Hv & Hv'). destruct (N.eq_dec v n) as [->|]; [contradiction|]. apply IH. exists v. split; [lia|exact Hv'].
Qed.

Lemma votes_hits {B : Type} (bad : list query -> query -> scalar -> Prop) (o : hash (Scalar E)) D (T : strategy (Scalar E) B)
    sk n d params :
  (forall h x y c, In y h -> ring_bad y x c -> bad h x c) -> key_of sk (qv_receiver params) -> genuine (qv_receiver params) ->
  qv_vote_count_range params = {| pr_inner := d; pr_admissible := range_values d |} -> doc_form n d -> (n < u64_lim)%N ->
  incl (asked o T) D ->
  forall votes i u, run o (votes_verifier params i votes) = Ret (Ok u) -> incl (asked o (votes_verifier params i votes)) (asked o T) ->
  (exists vs, Forall2 (fun v ct => (v < n)%N /\ decrypt_to_element sk ct = times v generator) vs (map crp_ciphertext votes)) \/
  hits (Scalar E) bad D o [] T.
Proof.
  intros Hb Hk HK Hr Hd Hn HD. induction votes as [|v votes IH]; intros i u Hrun Hi.
  - left. exists []. constructor.
  - cbn [votes_verifier] in *. pose proof Hrun as Hrun'. apply run_after_inv in Hrun' as ([[u1|e] t'] & H1 & H2); cbn [fst] in H2; [|discriminate].
    destruct (bounded_dec sk (crp_ciphertext v) n) as [(x & Hx & Hdx)|Hno1].
    + destruct (IH (Datatypes.S i) u H2) as [[vs Hvs]|Hhit]; [| |right; exact Hhit].
      * intros y Hy. apply Hi. eapply asked_after2; [exact H1|]. exact Hy.
      * left. exists (x :: vs). cbn [map]. constructor; [auto|exact Hvs].
    + right. rewrite Hr in *. refine (range_hits bad o D T sk _ _ n d _ _ _ _ Hb Hk HK Hd Hn H1 Hno1 _ HD).
      intros y Hy. apply Hi. apply asked_after1. exact Hy.
Qed.

Lemma quadratic_hits {B : Type} (bad : list query -> query -> scalar -> Prop) (o : hash (Scalar E)) D (T : strategy (Scalar E) B)
    sk receiver options V C params ballot cts :
  (forall h x y c, In y h -> ring_bad y x c -> bad h x c) -> (forall h x c, sq_bad E x c -> bad h x c) ->
  qv_inv E receiver options V C params -> key_of sk receiver -> genuine receiver ->
  (Z.of_nat options * (Z.of_N V * Z.of_N V) < order L)%Z -> (Z.of_N C < order L)%Z ->
  (V + 1 < u64_lim)%N -> (C + 1 < u64_lim)%N ->
  run o (quadratic_verifier ballot params) = Ret (Ok cts) ->
  ~ (exists votes, Forall2 (fun v ct => (v <= V)%N /\ decrypt_to_element sk ct = times v generator) votes cts /\ (squares votes <= C)%N) ->
  incl (asked o (quadratic_verifier ballot params)) (asked o T) -> incl (asked o T) D ->
  hits (Scalar E) bad D o [] T.
Proof.
  intros Hb Hb' Hinv Hk HK Hbig HCo HV HC Hrun Hno Hi HD.
  destruct Hinv as (dv & dc & Hv & Hc & _ & _ & _ & Hp). subst params.
  unfold quadratic_verifier, QuadraticVotingParams_check_options_count in *. cbn [qv_options_count qv_receiver qv_credit_range qv_vote_count_range] in *.
  destruct (Nat.eqb_spec options (List.length (qb_votes ballot))) as [Hl|]; [|discriminate].
  apply run_after_inv in Hrun as ([u1|e] & H1 & Hrun); [|discriminate].
  set (P := {| qv_vote_count_range := _; qv_credit_range := _ |}) in *.
  assert (I1 : incl (asked o (votes_verifier P 0 (qb_votes ballot))) (asked o T))
    by (intros y Hy; apply Hi; apply asked_after1; exact Hy).
  match type of Hi with incl (asked o (after _ ?k)) _ => assert (I2 : incl (asked o (k (Ok u1))) (asked o T)) by
    (intros y Hy; apply Hi; eapply asked_after2; [exact H1|]; exact Hy) end. clear Hi. cbv beta iota in I2.
  apply run_after_inv in Hrun as ([[u2|e2] tc] & H2 & Hrun); cbn [fst] in Hrun; [|discriminate].
  match type of I2 with incl (asked o (after ?m ?k)) _ => assert (I3 : incl (asked o m) (asked o T)) by
    (intros y Hy; apply I2; apply asked_after1; exact Hy);
    assert (I4 : incl (asked o (k (Ok u2, tc))) (asked o T)) by
    (intros y Hy; apply I2; eapply asked_after2; [exact H2|]; exact Hy) end. clear I2. cbn [fst] in I4.
  apply run_after_inv in Hrun as ([[u3|e3] te] & H3 & Hrun); cbn [fst] in Hrun; [|discriminate].
  injection Hrun as <-.
  match type of I4 with incl (asked o (after ?m ?k)) _ => assert (I5 : incl (asked o m) (asked o T)) by
    (intros y Hy; apply I4; apply asked_after1; exact Hy) end. clear I4.
  destruct (votes_hits bad o D T sk (V + 1) dv P Hb Hk HK eq_refl Hv HV HD _ _ _ H1 I1) as [[votes Hf]|Hh]; [|exact Hh].
  destruct (bounded_dec sk (crp_ciphertext (qb_credit ballot)) (C + 1)) as [(c & Hlt & Hd)|Hnc].
  2: { exact (range_hits bad o D T sk _ _ (C + 1) dc _ _ _ _ Hb Hk HK Hc HC H2 Hnc I3 HD). }
  assert (Hmap : map (decrypt_to_element sk) (map crp_ciphertext (qb_votes ballot)) = map (fun x => generator * x)%E (map (fun v => phi L (Z.of_N v)) votes)).
  { clear -Hf L. induction Hf as [|v ct votes cts [_ Hd] _ IH]; [reflexivity|]. cbn [map]. rewrite IH, Hd, (times_phi E L). reflexivity. }
  refine (sq_verifier_hits E L bad o D T _ _ _ _ _ u3 te Hb' HK H3 _ I5 HD).
  intros xs Hst. apply Hno. exists votes. split.
  { clear -Hf. induction Hf as [|a b l l' [Ha1 Ha2] _ IH]; constructor; [split; [lia|exact Ha2]|exact IH]. }
  destruct (proj1 (sq_statement_iff E L sk receiver _ _ Hk) (ex_intro _ xs Hst)) as (ys & Y1 & Y2).
  assert (Hys : ys = map (fun v => phi L (Z.of_N v)) votes).
  { rewrite Hmap in Y1. clear -Y1 L. revert Y1. generalize (map (fun v => phi L (Z.of_N v)) votes).
    induction ys as [|y ys IH]; intros [|x xs] Y1; try discriminate; [reflexivity|].
    cbn in Y1. injection Y1 as H1 H2. apply (gen_inj L) in H1. f_equal; [congruence|]. apply IH. exact H2. }
  subst ys. rewrite (sum_sq_squares E L), Hd, (times_phi E L) in Y2. apply (gen_inj L) in Y2.
  apply (phi_inj_small L) in Y2; [lia|lia|].
  split; [lia|]. eapply Z.le_lt_trans; [|exact Hbig].
  pose proof (Forall2_length' _ _ _ Hf) as Hlen. rewrite map_length, <- Hl in Hlen. rewrite <- Hlen. clear -Hf.
  induction Hf as [|v ct votes cts [Hle _] _ IH]; [cbn; lia|]. rewrite squares_cons, N2Z.inj_add, N2Z.inj_mul.
  cbn [List.length]. rewrite Nat2Z.inj_succ. nia.
Qed.

End Ballots.

(** ** bounds on success *)
Section Success.
Context (E : Env) (L : GroupLaws E).
Local Notation scalar := (Scalar E).

Lemma asked_finite_aux (G : Group) (LG : GroupLaws G) (A : Type) (k : Scalar G -> strategy (Scalar G) A) :
  (forall c, exists D, forall o, incl (asked o (k c)) D) -> exists D, forall o c, incl (asked o (k c)) D.
Proof.
  intros H. assert (Hl : forall l, exists D, forall o c, In c l -> incl (asked o (k c)) D).
  { induction l as [|c l [D IH]]; [exists []; intros o c []|]. destruct (H c) as [D' Hc]. exists (D' ++ D).
    intros o c' [<-|Hin] x Hx; apply in_app_iff; [left; exact (Hc o x Hx)|right; exact (IH o c' Hin x Hx)]. }
  destruct (Hl (scalars G LG)) as [D HD]. exists D. intros o c. apply HD. apply scalars_all.
Qed.

Context (S : source E) (mu : Z) (Hbal : balanced S mu).

Lemma success_bound (bad : list query -> query -> scalar -> Prop) (m : nat -> nat) {X Y : Type} Q n (A : strategy (Scalar E) X) (V : X -> strategy (Scalar E) Y)
    (wins : hash (Scalar E) -> X -> Prop) :
  (forall a b, a <= b -> m a <= m b) ->
  (forall h x cs, NoDup cs -> Forall (bad h x) cs -> List.length cs <= m (List.length h)) ->
  at_most Q A -> (forall x, at_most n (V x)) ->
  (forall o D (T : strategy (Scalar E) Y) x, wins o x -> incl (asked o (V x)) (asked o T) -> incl (asked o T) D -> hits (Scalar E) bad D o [] T) ->
  success_at_most S A V wins (mu * Z.of_nat (total m 0 (Q + n))) (size S).
Proof.
  intros Hm Hbad HA HV Hw D W HW Hall.
  assert (Hmu : (0 <= mu)%Z) by (apply (proj2 Hbal s_default []); [constructor|intros d []]).
  assert (Hbal' : balanced S (Z.of_nat (Z.to_nat mu))) by (rewrite Z2Nat.id by exact Hmu; exact Hbal).
  pose proof (source_count E L S bad m Hm Hbad (Z.to_nat mu) Hbal' (Q + n) (andthen A V) D W (at_most_andthen _ _ _ _ _ HA HV) HW) as H.
  assert (Hf : Forall (fun o => hits (Scalar E) bad D (challenges S o) [] (andthen A V)) W).
  { apply Forall_forall. intros o Ho. destruct (Hall o Ho) as [Hi Hwin]. apply (Hw (challenges S o) D (andthen A V) (run (challenges S o) A) Hwin); [|exact Hi].
    rewrite asked_andthen. intros y Hy. apply in_app_iff. right. exact Hy. }
  specialize (H Hf). apply Nat2Z.inj_le in H. rewrite !Nat2Z.inj_mul, Nat2Z.inj_pow, Z2Nat.id in H by exact Hmu. exact H.
Qed.

Lemma success_scale (a k : Z) {X Y : Type} (A : strategy (Scalar E) X) (V : X -> strategy (Scalar E) Y) wins num :
  (0 <= k)%Z -> success_at_most S A V wins num a -> success_at_most S A V wins (k * num)%Z (k * a)%Z.
Proof. intros Hk H D W HW Hall. specialize (H D W HW Hall). rewrite <- !Z.mul_assoc. apply Z.mul_le_mono_nonneg_l; assumption. Qed.

Lemma log_success {X Y : Type} Q (A : strategy (Scalar E) X) (V : X -> strategy (Scalar E) Y) (wins : hash (Scalar E) -> X -> Prop) :
  at_most Q A -> (forall x, at_most 1 (V x)) ->
  (forall o D (T : strategy (Scalar E) Y) x, wins o x -> incl (asked o (V x)) (asked o T) -> incl (asked o T) D -> hits (Scalar E) (fun _ => le_bad E) D o [] T) ->
  success_at_most S A V wins (mu * (Z.of_nat Q + 1)) (size S).
Proof.
  intros HA HV Hw. replace (Z.of_nat Q + 1)%Z with (Z.of_nat (total (fun _ => 1) 0 (Q + 1))) by (rewrite total_one; lia).
  refine (success_bound _ _ Q 1 A V wins _ _ HA HV Hw); [lia|]. intros h x cs. apply (bad_log_count E L h x).
Qed.

Lemma sq_bad_count (x : query) cs : NoDup cs -> Forall (sq_bad E x) cs -> List.length cs <= 1.
Proof.
  intros Hnd Hf. apply (functional_count (fun (_ : unit) c => sq_bad E x c)) with (l := [tt]).
  - intros _ c c'. apply (sq_bad_fun E L).
  - exact Hnd.
  - revert Hf. apply Forall_impl. intros c Hc. exists tt. split; [left; reflexivity|exact Hc].
Qed.

Lemma square_success {X Y : Type} Q (A : strategy (Scalar E) X) (V : X -> strategy (Scalar E) Y) (wins : hash (Scalar E) -> X -> Prop) :
  at_most Q A -> (forall x, at_most 1 (V x)) ->
  (forall o D (T : strategy (Scalar E) Y) x, wins o x -> incl (asked o (V x)) (asked o T) -> incl (asked o T) D -> hits (Scalar E) (fun _ => sq_bad E) D o [] T) ->
  success_at_most S A V wins (mu * (Z.of_nat Q + 1)) (size S).
Proof.
  intros HA HV Hw. replace (Z.of_nat Q + 1)%Z with (Z.of_nat (total (fun _ => 1) 0 (Q + 1))) by (rewrite total_one; lia).
  refine (success_bound _ _ Q 1 A V wins _ _ HA HV Hw); [lia|]. intros h x cs. apply sq_bad_count.
Qed.

Context (vals_of : transcript -> nat -> list (Element E) -> Prop).
Context (vals_fun : forall t i vs vs', vals_of t i vs -> vals_of t i vs' -> vs = vs').
Context (vals_bound : forall t i vs, vals_of t i vs ->
  (N.of_nat i < u64_lim)%N /\ (N.of_nat (List.length vs) < u64_lim)%N /\ 2 <= List.length vs).

Lemma ring_success {X Y : Type} Q n (A : strategy (Scalar E) X) (V : X -> strategy (Scalar E) Y) (wins : hash (Scalar E) -> X -> Prop) :
  at_most Q A -> (forall x, at_most n (V x)) ->
  (forall o D (T : strategy (Scalar E) Y) x, wins o x -> incl (asked o (V x)) (asked o T) -> incl (asked o T) D -> hits (Scalar E) (bad_ring E vals_of) D o [] T) ->
  success_at_most S A V wins (mu * (Z.of_nat (Q + n) * (Z.of_nat (Q + n) - 1))) (2 * size S).
Proof.
  intros HA HV Hw.
  replace (Z.of_nat (Q + n) * (Z.of_nat (Q + n) - 1))%Z with (2 * Z.of_nat (total (fun k => k) 0 (Q + n)))%Z.
  - rewrite Z.mul_assoc, (Z.mul_comm mu 2), <- Z.mul_assoc. apply success_scale; [lia|]. refine (success_bound _ _ Q n A V wins _ _ HA HV Hw); [lia|].
    exact (bad_ring_count E L vals_of vals_fun vals_bound).
  - pose proof (total_id (Q + n)) as Ht. apply (f_equal Z.of_nat) in Ht. rewrite !Nat2Z.inj_mul in Ht.
    change 2%Z with (Z.of_nat 2). rewrite Ht. destruct (Q + n); [reflexivity|]. rewrite Nat2Z.inj_sub by lia. reflexivity.
Qed.

Lemma any_success {X Y : Type} Q n (A : strategy (Scalar E) X) (V : X -> strategy (Scalar E) Y) (wins : hash (Scalar E) -> X -> Prop) :
  at_most Q A -> (forall x, at_most n (V x)) ->
  (forall o D (T : strategy (Scalar E) Y) x, wins o x -> incl (asked o (V x)) (asked o T) -> incl (asked o T) D -> hits (Scalar E) (bad_all E vals_of) D o [] T) ->
  success_at_most S A V wins (mu * (Z.of_nat (Q + n) * (Z.of_nat (Q + n) + 1))) (2 * size S).
Proof.
  intros HA HV Hw.
  replace (Z.of_nat (Q + n) * (Z.of_nat (Q + n) + 1))%Z with (2 * Z.of_nat (total Datatypes.S 0 (Q + n)))%Z.
  - rewrite Z.mul_assoc, (Z.mul_comm mu 2), <- Z.mul_assoc. apply success_scale; [lia|]. refine (success_bound _ _ Q n A V wins _ _ HA HV Hw); [lia|].
    exact (bad_all_count E L vals_of vals_fun vals_bound).
  - pose proof (total_succ (Q + n)) as Ht. apply (f_equal Z.of_nat) in Ht. rewrite !Nat2Z.inj_mul in Ht.
    change 2%Z with (Z.of_nat 2). rewrite Ht, (Nat2Z.inj_add (Q + n) 1). reflexivity.
Qed.

End Success.

Lemma asked_finite (G : Group) (L : GroupLaws G) (A : Type) n (T : strategy (Scalar G) A) : at_most n T ->
  exists D, NoDup D /\ forall o, incl (asked o T) D.
Proof.
  intros H. assert (Hd : exists D, forall o, incl (asked o T) D).
  { induction H as [n a|n x k H IH]; [exists []; intros o y []|].
    destruct (asked_finite_aux G L A k IH) as [D HD]. exists (x :: D). intros o y [<-|Hy]; [left; reflexivity|right; exact (HD o _ y Hy)]. }
  destruct Hd as [D HD]. exists (nodup query_eq_dec D). split; [apply NoDup_nodup|]. intros o y Hy. apply nodup_In. exact (HD o y Hy).
Qed.
