(** * Algorithms with access to the hash, in corresponding environments *)
From Coq Require Import List String NArith ZArith Arith Bool.
From Verif.Model Require Import Base Group Transcript Keys Encryption LogEquality Ring Range Mul Sharing Choice Quadratic.
From Verif.Spec Require Import Encryption Choice Tally Collect Transfer Domains Rom Verifiers RomElection.
From Verif.Proofs Require Import Parametricity Transfer ElectionTransfer.
Import ListNotations.
Open Scope string_scope.
Open Scope list_scope.
Open Scope nat_scope.

(** the same questions, and related results *)
Inductive strategy_rel {R R' A A' : Type} {RR : Rel R R'} {RA : Rel A A'} : strategy R A -> strategy R' A' -> Prop :=
| sr_output a a' : rel a a' -> strategy_rel (Output a) (Output a')
| sr_ask x k k' : (forall c c', rel c c' -> strategy_rel (k c) (k' c')) -> strategy_rel (Ask x k) (Ask x k').
Global Instance Rel_strategy {R R' A A'} (RR : Rel R R') (RA : Rel A A') : Rel (strategy R A) (strategy R' A') | 1 := strategy_rel.

Section Algorithms.
Context {R R' A A' B B' : Type} {RR : Rel R R'} {RA : Rel A A'} {RB : Rel B B'}.
Lemma p_Output : rel (@Output R A) (@Output R' A').
Proof. intros a a' H. constructor. exact H. Qed.
Lemma p_andthen : rel (@andthen R A B) (@andthen R' A' B').
Proof. intros T T' HT f f' Hf. induction HT as [a a' Ha|x k k' _ IH]; cbn [andthen]; [apply Hf; exact Ha|]. constructor. exact IH. Qed.
End Algorithms.
Global Hint Resolve p_Output p_andthen : par.

Lemma p_all {R R' A A' : Type} {RR : Rel R R'} {RA : Rel A A'} : rel (@all R A) (@all R' A').
Proof.
  intros l l' H. induction H as [|T T' l l' HT _ IH]; cbn [all]; [apply p_Output; constructor|].
  apply p_andthen; [exact HT|]. intros a a' Ha. apply p_andthen; [exact IH|]. intros x x' Hx. apply p_Output. constructor; [exact Ha|exact Hx].
Qed.

Section Verifiers.
Context {E E' : Env} {ER : EnvRel E E'} {C : Corresponding E E'}.
Hint Resolve p_append_element p_decryption_share_transcript p_PublicKey_from_element p_ring_init_transcript p_ring_initialize_transcript p_Ciphertext_add p_Ciphertext_sub p_Ciphertext_zero p_sq_recommit p_sq_initialize_transcript p_QuadraticVotingParams_check_options_count : par.

Lemma p_doing {A A' B B'} {RA : Rel A A'} {RB : Rel B B'} : rel (@doing E A B) (@doing E' A' B').
Proof. intros [a|k] [a'|k'] H f f' Hf; try contradiction; [apply Hf; exact H|]. apply p_Output. exact H. Qed.
Hint Resolve p_doing : par.
Lemma p_after {A A' B B'} {RA : Rel A A'} {RB : Rel B B'} : rel (@after E A B) (@after E' A' B').
Proof. intros T T' HT f f' Hf. unfold after. apply p_andthen; [exact HT|]. intros m m' Hm. apply p_doing; assumption. Qed.
Hint Resolve p_after : par.
Lemma p_asking {B B'} {RB : Rel B B'} : rel (@asking E B) (@asking E' B').
Proof. intros t t' Ht f f' Hf. apply is_eq in Ht. subst t'. unfold asking. constructor. exact Hf. Qed.
Hint Resolve p_asking : par.

Lemma p_log_equality_verifier : rel (@log_equality_verifier E) (@log_equality_verifier E').
Proof. unfold log_equality_verifier. par. Qed.
Hint Resolve p_log_equality_verifier : par.
Lemma p_share_verifier : rel (@share_verifier E) (@share_verifier E').
Proof. unfold share_verifier. par. Qed.
Hint Resolve p_share_verifier : par.
Lemma p_ring_hash_input : rel (@ring_hash_input E) (@ring_hash_input E').
Proof. unfold ring_hash_input. par. Qed.
Hint Resolve p_ring_hash_input : par.
Lemma p_ring_loop_verifier : rel (@ring_loop_verifier E) (@ring_loop_verifier E').
Proof.
  intros t t' Ht K K' HK c c' Hc len len' Hlen i i' Hi items items' Hitems. norm. revert i'.
  induction Hitems as [|[a r] [a' r'] items items' [Ha Hr] Hitems IH]; intros i; cbn [ring_loop_verifier]; [par|].
  cbn [fst snd] in Ha, Hr. intros ch ch' Hch X X' HX. apply p_doing; [par|]. intros c1 c1' Hc1.
  destruct (i + 1 <? len'); [|apply IH; [exact Hch|par]].
  apply p_doing; [par|]. intros q q' Hq. apply p_asking; [exact Hq|]. intros d d' Hd. apply IH; [exact Hd|par].
Qed.
Hint Resolve p_ring_loop_verifier : par.
Lemma p_rings_verifier : rel (@rings_verifier E) (@rings_verifier E').
Proof.
  intros t0 t0' Ht0 K K' HK p p' Hp i i' Hi s s' Hs it it' Hit. norm. revert i' s'.
  induction Hit as [|[vs c] [vs' c'] it it' [Hvs Hc] Hit IH]; intros i s; cbn [rings_verifier]; [par|].
  cbn [fst snd] in Hvs, Hc. intros t t' Ht. norm. rewrite (Forall2_length _ _ _ Hvs).
  apply p_doing; [par|]. intros rt rt' Hrt. norm. apply p_doing; [par|]. intros tail tail' Htail.
  apply p_after; [par|]. intros X X' HX. apply p_doing; [par|]. intros u u' Hu. apply p_doing; [par|]. intros v v' Hv. apply IH. exact Hv.
Qed.
Hint Resolve p_rings_verifier : par.
Lemma p_ring_verifier : rel (@ring_verifier E) (@ring_verifier E').
Proof. unfold ring_verifier. par. Qed.
Hint Resolve p_ring_verifier : par.
Lemma p_range_verifier : rel (@range_verifier E) (@range_verifier E').
Proof. unfold range_verifier. par. Qed.
Hint Resolve p_range_verifier : par.
Lemma p_sum_of_squares_verifier : rel (@sum_of_squares_verifier E) (@sum_of_squares_verifier E').
Proof. unfold sum_of_squares_verifier. par. Qed.
Hint Resolve p_sum_of_squares_verifier : par.
Lemma p_choice_ranges_verifier : rel (@choice_ranges_verifier E) (@choice_ranges_verifier E').
Proof. unfold choice_ranges_verifier. par. Qed.
Hint Resolve p_choice_ranges_verifier : par.
Lemma p_multi_choice_verifier : rel (@multi_choice_verifier E) (@multi_choice_verifier E').
Proof. unfold multi_choice_verifier. par. Qed.
Hint Resolve p_multi_choice_verifier : par.
Lemma p_single_choice_verifier : rel (@single_choice_verifier E) (@single_choice_verifier E').
Proof. unfold single_choice_verifier. par. Qed.
Hint Resolve p_single_choice_verifier : par.
Lemma p_votes_verifier : rel (@votes_verifier E) (@votes_verifier E').
Proof.
  intros p p' Hp i i' Hi vs vs' Hvs. norm. revert i'. induction Hvs as [|v v' vs vs' Hv Hvs IH]; intros i; cbn [votes_verifier]; par.
Qed.
Hint Resolve p_votes_verifier : par.
Lemma p_quadratic_verifier : rel (@quadratic_verifier E) (@quadratic_verifier E').
Proof. unfold quadratic_verifier. par. Qed.

Lemma p_checking {A A' X X'} {RA : Rel A A'} {RX : Rel X X'} :
  rel (@checking (Scalar E) A X) (@checking (Scalar E') A' X').
Proof.
  intros T T' HT. unfold checking. apply p_andthen; [exact HT|]. intros [[a|x]|k] [[a'|x']|k'] H; try contradiction; apply p_Output; reflexivity.
Qed.

Lemma p_single_checker : rel (@single_checker E) (@single_checker E').
Proof.
  intros n n' Hn ks ks' Hks b b' [[H1 H2] H3]. unfold single_checker. apply p_checking.
  apply p_single_choice_verifier; [exact Hn|exact (p_ks_shared_key ks ks' Hks)|exact H1|exact H2|exact H3].
Qed.
Lemma p_multi_checker : rel (@multi_checker E) (@multi_checker E').
Proof.
  intros n n' Hn ks ks' Hks b b' [H1 H2]. unfold multi_checker. apply p_checking.
  apply p_multi_choice_verifier; [exact Hn|exact (p_ks_shared_key ks ks' Hks)|exact H1|exact H2].
Qed.
Lemma p_quadratic_checker : rel (@quadratic_checker E) (@quadratic_checker E').
Proof. intros p p' Hp b b' Hb. unfold quadratic_checker. apply p_checking. apply p_quadratic_verifier; assumption. Qed.

Lemma p_message_checker : rel (@message_checker E) (@message_checker E').
Proof.
  intros ks ks' Hks ts ts' Hts [i [[j cand] pf]] [i' [[j' cand'] pf']] [Hi [[Hj Hc] Hpf]]. cbn [fst snd] in *. hnf in Hi. subst i'.
  cbn [message_checker]. pose proof (p_nth_error ts ts' Hts i i eq_refl) as Hn.
  destruct (nth_error ts i) as [ct|], (nth_error ts' i) as [ct'|]; try contradiction; [|apply p_Output; reflexivity].
  apply p_checking. exact (p_share_verifier ks ks' Hks cand cand' Hc ct ct' Hn j j' Hj pf pf' Hpf).
Qed.

Lemma p_election_checker {B B'} {RB : Rel B B'} : rel (@election_checker E B) (@election_checker E' B').
Proof.
  intros f f' Hf c c' Hc n n' Hn b b' Hb m m' Hm ks ks' Hks [es msgs] [es' msgs'] [Hes Hmsgs]. cbn [fst snd] in *.
  hnf in Hn, Hb, Hm. subst n' b' m'. unfold election_checker.
  rewrite (Forall2_length _ _ _ Hes), (Forall2_length _ _ _ Hmsgs). destruct (_ && _); [|apply p_Output; constructor].
  apply p_andthen; [exact (p_all _ _ (p_map f f' Hf es es' Hes))|]. intros oks oks' Hoks. apply p_all.
  apply (p_map _ _); [|exact Hmsgs]. apply p_message_checker; [exact Hks|]. apply p_tally; [reflexivity|]. apply (p_map c c' Hc).
  apply (p_map fst fst); [intros x x' Hx; exact (proj1 Hx)|]. apply (p_filter snd snd); [intros x x' Hx; exact (proj2 Hx)|].
  exact (p_combine es es' Hes oks oks' Hoks).
Qed.
End Verifiers.

(** related algorithms ask the same *)
Lemma asked_rel {R R' A A'} {RR : Rel R R'} {RA : Rel A A'} (o : hash R) (o' : hash R') (T : strategy R A) (T' : strategy R' A') :
  (forall x, rel (answer o x) (answer o' x)) -> rel T T' -> asked o T = asked o' T'.
Proof. intros Ho H. induction H as [a a' _|x k k' _ IH]; [reflexivity|]. cbn [asked]. f_equal. apply IH, Ho. Qed.
