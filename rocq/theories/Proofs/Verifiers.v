(** * The oracle algorithms of Spec/Verifiers.v are the modelled verifiers *)
From Coq Require Import List String NArith ZArith Arith Lia.
From Verif.Model Require Import Base Group Transcript Keys Encryption LogEquality Ring Range Mul Sharing Choice Quadratic.
From Verif.Spec Require Import Domains Rom Verifiers.
From Verif.Proofs Require Import Rom.
Import ListNotations.
Open Scope string_scope.
Open Scope list_scope.
Open Scope nat_scope.

Section Verifiers.
Context (E : Env) (o : hash (Scalar E)).
Local Notation H := (hashed_by E o).
Local Notation algorithm A := (strategy (Scalar E) (outcome A)).

Lemma run_doing {A B : Type} (m : outcome A) (f : A -> algorithm B) :
  run o (doing m f) = (a <- m ;; run o (f a)).
Proof. destruct m; reflexivity. Qed.

Lemma run_after {A B : Type} (T : algorithm A) (f : A -> algorithm B) :
  run o (after T f) = (a <- run o T ;; run o (f a)).
Proof. unfold after. rewrite run_andthen, run_doing. reflexivity. Qed.

Lemma run_asking {B : Type} t (f : Scalar E -> algorithm B) : run o (asking t f) = run o (f (o t "c")).
Proof. reflexivity. Qed.

Lemma bind_ext {A B : Type} (m : outcome A) (f g : A -> outcome B) : (forall a, f a = g a) -> bind m f = bind m g.
Proof. intros Hf. destruct m; cbn; auto. Qed.

Lemma bind_assoc {A B C : Type} (m : outcome A) (f : A -> outcome B) (g : B -> outcome C) :
  bind (bind m f) g = bind m (fun a => bind (f a) g).
Proof. destruct m; reflexivity. Qed.

Lemma log_equality_run (p : LogEqualityProof E) K powers t :
  run o (log_equality_verifier p K powers t) = LogEqualityProof_verify (E:=H) p K powers t.
Proof.
  unfold log_equality_verifier, LogEqualityProof_verify. rewrite run_doing. apply bind_ext. intros c1.
  repeat (rewrite run_doing; apply bind_ext; intros ?). reflexivity.
Qed.

Lemma zero_run pk c p : run o (zero_verifier pk c p) = verify_zero (E:=H) pk c p.
Proof. unfold zero_verifier, verify_zero. rewrite run_after, log_equality_run. apply bind_ext. intros [? ?]. reflexivity. Qed.

Lemma decryption_run d c key p t : run o (decryption_verifier d c key p t) = CandidateDecryption_verify (E:=H) d c key p t.
Proof.
  unfold decryption_verifier, CandidateDecryption_verify. rewrite run_doing. apply bind_ext. intros base.
  rewrite run_after, log_equality_run. apply bind_ext. intros [? ?]. reflexivity.
Qed.

Lemma share_run ks d c i p : run o (share_verifier ks d c i p) = PublicKeySet_verify_share (E:=H) ks d c i p.
Proof.
  unfold share_verifier, PublicKeySet_verify_share. rewrite run_doing. apply bind_ext. intros key.
  rewrite run_doing. apply bind_ext. intros base. rewrite run_after, log_equality_run. apply bind_ext. intros [? ?]. reflexivity.
Qed.

Lemma ring_loop_run rt K c len items : forall j ch X,
  run o (ring_loop_verifier rt K c len j items ch X) = ring_verify_loop (E:=H) rt K c len j items ch X.
Proof.
  induction items as [|[A r] items IH]; intros j ch X; [reflexivity|]. cbn [ring_loop_verifier ring_verify_loop].
  rewrite run_doing. apply bind_ext. intros c1. destruct (j + 1 <? len); [|apply IH].
  rewrite run_doing. unfold ring_hash_input, ring_eq_challenge. rewrite !bind_assoc. apply bind_ext. intros t1.
  rewrite bind_assoc. apply bind_ext. intros t2. rewrite run_asking, IH. reflexivity.
Qed.

Lemma rings_run t0 K p it : forall i start t,
  run o (rings_verifier t0 K p i start it t) = ring_verify_rings (E:=H) t0 K p i start it t.
Proof.
  induction it as [|[vs c] it IH]; intros i start t; [reflexivity|]. cbn [rings_verifier ring_verify_rings].
  rewrite run_doing. apply bind_ext. intros rt. rewrite run_doing. apply bind_ext. intros tl.
  rewrite run_after, ring_loop_run. apply bind_ext. intros X. rewrite run_doing. apply bind_ext. intros t1.
  rewrite run_doing. apply bind_ext. intros t2. apply IH.
Qed.

Lemma ring_run' p K vals cts t : run o (ring_verifier p K vals cts t) = RingProof_verify (E:=H) p K vals cts t.
Proof.
  unfold ring_verifier, RingProof_verify. destruct (check_lengths _ _ _); [|reflexivity].
  rewrite run_after, rings_run. apply bind_ext. intros t1. reflexivity.
Qed.

Lemma bool_run pk c p : run o (bool_verifier pk c p) = verify_bool (E:=H) pk c p.
Proof. unfold bool_verifier, verify_bool. rewrite run_after, ring_run'. apply bind_ext. intros [? ?]. reflexivity. Qed.

Lemma range_run p K pr ct t : run o (range_verifier p K pr ct t) = RangeProof_verify (E:=H) p K pr ct t.
Proof. unfold range_verifier, RangeProof_verify. destruct (check_lengths _ _ _); [|reflexivity]. apply ring_run'. Qed.

Lemma sum_of_squares_run p cs z K t : run o (sum_of_squares_verifier p cs z K t) = SumOfSquaresProof_verify (E:=H) p cs z K t.
Proof.
  unfold sum_of_squares_verifier, SumOfSquaresProof_verify. destruct (check_lengths _ _ _); [|reflexivity].
  repeat (rewrite run_doing; apply bind_ext; intros ?). reflexivity.
Qed.

Lemma choice_ranges_run K cts p :
  run o (choice_ranges_verifier K cts p) =
  ('(res, _) <- RingProof_verify (E:=H) p K (repeat [identity; generator] (List.length cts)) cts (transcript_new "encrypted_choice_ranges") ;;
   Ret (match res with Ok _ => Ok cts | Err err => Err (ChoiceRange err) end)).
Proof. unfold choice_ranges_verifier. rewrite run_after, ring_run'. apply bind_ext. intros [? ?]. reflexivity. Qed.

Lemma multi_choice_run n K cts p :
  run o (multi_choice_verifier n K cts p) =
  EncryptedChoice_verify (E:=H) (S:=MultiChoice (E:=H)) (mkEncryptedChoice (E:=H) (S:=MultiChoice (E:=H)) cts p tt)
    (mkChoiceParams (E:=H) (S:=MultiChoice (E:=H)) n K).
Proof.
  unfold multi_choice_verifier, EncryptedChoice_verify, ChoiceParams_check_options_count. cbn [ec_choices cp_options_count].
  match goal with |- _ = match (if ?b then _ else _) with _ => _ end => change b with (n =? List.length cts) end.
  destruct (n =? List.length cts); [|reflexivity]. rewrite run_doing. apply bind_ext. intros total.
  cbn [ps_verify MultiChoice bind]. rewrite choice_ranges_run. reflexivity.
Qed.

Lemma single_choice_run n K cts p s :
  run o (single_choice_verifier n K cts p s) =
  EncryptedChoice_verify (E:=H) (S:=SingleChoice (E:=H)) (mkEncryptedChoice (E:=H) (S:=SingleChoice (E:=H)) cts p s)
    (mkChoiceParams (E:=H) (S:=SingleChoice (E:=H)) n K).
Proof.
  unfold single_choice_verifier, EncryptedChoice_verify, ChoiceParams_check_options_count. cbn [ec_choices cp_options_count].
  match goal with |- _ = match (if ?b then _ else _) with _ => _ end => change b with (n =? List.length cts) end.
  destruct (n =? List.length cts); [|reflexivity]. rewrite run_doing. apply bind_ext. intros total.
  cbn [ps_verify SingleChoice ec_sum_proof cp_receiver ec_range_proof]. unfold SingleChoice_verify.
  rewrite run_after, log_equality_run, bind_assoc. apply bind_ext. intros [[?|?] ?]; [|reflexivity].
  cbn [fst bind]. rewrite choice_ranges_run. reflexivity.
Qed.

Lemma votes_run params votes : forall i, run o (votes_verifier params i votes) = qv_verify_votes (E:=H) params i votes.
Proof.
  induction votes as [|v votes IH]; intros i; [reflexivity|]. cbn [votes_verifier qv_verify_votes].
  rewrite run_after, range_run. apply bind_ext. intros [[?|?] ?]; [|reflexivity]. apply IH.
Qed.

Lemma quadratic_run ballot params : run o (quadratic_verifier ballot params) = QuadraticVotingBallot_verify (E:=H) ballot params.
Proof.
  unfold quadratic_verifier, QuadraticVotingBallot_verify.
  match goal with |- _ = match ?b with _ => _ end =>
    change b with (QuadraticVotingParams_check_options_count (E:=E) params (List.length (qb_votes ballot))) end.
  destruct (QuadraticVotingParams_check_options_count params _) as [u|e]; [|reflexivity].
  rewrite run_after, votes_run. apply bind_ext. intros [?|?]; [|reflexivity].
  rewrite run_after, range_run. apply bind_ext. intros [[?|?] ?]; [|reflexivity]. cbn [fst].
  rewrite run_after, sum_of_squares_run. apply bind_ext. intros [[?|?] ?]; reflexivity.
Qed.

End Verifiers.

(** ** number of queries *)
Section Queries.
Context (E : Env).
Local Notation algorithm A := (strategy (Scalar E) (outcome A)).

Lemma doing_most {A B : Type} n (m : outcome A) (f : A -> algorithm B) : (forall a, at_most n (f a)) -> at_most n (doing m f).
Proof. intros Hf. destruct m; [apply Hf|constructor]. Qed.

Lemma after_most {A B : Type} n m (T : algorithm A) (f : A -> algorithm B) :
  at_most n T -> (forall a, at_most m (f a)) -> at_most (n + m) (after T f).
Proof. intros HT Hf. apply at_most_andthen; [exact HT|]. intros a. apply doing_most. exact Hf. Qed.

Lemma asking_most {B : Type} n t (f : Scalar E -> algorithm B) : (forall a, at_most n (f a)) -> at_most (S n) (asking t f).
Proof. intros Hf. constructor. exact Hf. Qed.

Lemma after_ret_most {A B : Type} n (T : algorithm A) (f : A -> outcome B) :
  at_most n T -> at_most n (after T (fun a => Output (f a))).
Proof. intros HT. replace n with (n + 0) by lia. apply after_most; [exact HT|]. constructor. Qed.

Lemma log_equality_most (p : LogEqualityProof E) K powers t : at_most 1 (log_equality_verifier p K powers t).
Proof. unfold log_equality_verifier. repeat (apply doing_most; intros ?). apply asking_most. constructor. Qed.

Lemma zero_most pk (c : Ciphertext E) p : at_most 1 (zero_verifier pk c p).
Proof. apply after_ret_most, log_equality_most. Qed.

Lemma decryption_most d (c : Ciphertext E) key p t : at_most 1 (decryption_verifier d c key p t).
Proof. apply doing_most. intros base. apply after_ret_most, log_equality_most. Qed.

Lemma share_most ks d (c : Ciphertext E) i p : at_most 1 (share_verifier ks d c i p).
Proof. apply doing_most. intros key. apply doing_most. intros base. apply after_ret_most, log_equality_most. Qed.

Lemma ring_loop_most rt K (c : Ciphertext E) len items : forall j ch X,
  j <= len -> at_most (len - j - 1) (ring_loop_verifier rt K c len j items ch X).
Proof.
  induction items as [|[A r] items IH]; intros j ch X Hj; [constructor|]. cbn [ring_loop_verifier].
  apply doing_most. intros c1. destruct (Nat.ltb_spec (j + 1) len) as [Hlt|Hge].
  - apply doing_most. intros q. replace (len - j - 1) with (S (len - S j - 1)) by lia. apply asking_most. intros ch'. apply IH. lia.
  - destruct items as [|[A' r'] items]; [constructor|].
    destruct (Nat.leb_spec (S j) len) as [Hle|Hgt]; [replace (len - j - 1) with (len - S j - 1) by lia; apply IH; exact Hle|].
    assert (Hno : forall items j ch X, len <= j -> at_most 0 (ring_loop_verifier rt K c len j items ch X)).
    { clear. induction items as [|[A r] items IH]; intros j ch X Hj; [constructor|]. cbn [ring_loop_verifier].
      apply doing_most. intros c1. destruct (Nat.ltb_spec (j + 1) len); [lia|]. apply IH. lia. }
    replace (len - j - 1) with 0 by lia. apply Hno. lia.
Qed.

Lemma rings_most t0 K p it : forall i start t,
  at_most (list_sum (map (fun x => List.length (fst x) - 1) it)) (@rings_verifier E t0 K p i start it t).
Proof.
  induction it as [|[vs c] it IH]; intros i start t; [constructor|]. cbn [rings_verifier map list_sum fold_right fst].
  apply doing_most. intros rt. apply doing_most. intros tl. apply after_most.
  - eapply at_most_mono; [apply ring_loop_most; lia|lia].
  - intros X. apply doing_most. intros t1. apply doing_most. intros t2. apply IH.
Qed.

Lemma combine_sum (f : list (Element E) -> nat) vals (cts : list (Ciphertext E)) :
  list_sum (map (fun x => f (fst x)) (combine vals cts)) <= list_sum (map f vals).
Proof. revert cts. induction vals as [|v vals IH]; intros [|c cts]; cbn; try lia. specialize (IH cts). unfold list_sum in IH. lia. Qed.

Lemma ring_most p K vals (cts : list (Ciphertext E)) t : at_most (ring_queries vals) (ring_verifier p K vals cts t).
Proof.
  unfold ring_verifier, ring_queries. destruct (check_lengths _ _ _); [|constructor]. cbv zeta.
  apply after_most; [|intros t1; apply asking_most; constructor].
  eapply at_most_mono; [apply rings_most|]. apply (combine_sum (fun vs => List.length vs - 1)).
Qed.

Lemma bool_most pk (c : Ciphertext E) p : at_most 2 (bool_verifier pk c p).
Proof. apply after_ret_most. exact (ring_most p pk [[identity; generator]] [c] _). Qed.

Lemma range_most p K (pr : PreparedRange E) ct t : at_most (ring_queries (pr_admissible pr)) (range_verifier p K pr ct t).
Proof. unfold range_verifier. destruct (check_lengths _ _ _); [apply ring_most|constructor]. Qed.

Lemma sum_of_squares_most p cs z K t : at_most 1 (@sum_of_squares_verifier E p cs z K t).
Proof.
  unfold sum_of_squares_verifier. destruct (check_lengths _ _ _); [|constructor].
  repeat (apply doing_most; intros ?). apply asking_most. constructor.
Qed.

Lemma choice_ranges_most K cts p : at_most (List.length cts + 1) (@choice_ranges_verifier E K cts p).
Proof.
  apply after_ret_most. eapply at_most_mono; [apply ring_most|]. unfold ring_queries.
  generalize (List.length cts) as n. clear. intros n. induction n as [|n IH]; cbn in *; [lia|]. unfold list_sum in IH. lia.
Qed.

Lemma multi_choice_most n K cts p : at_most (n + 1) (@multi_choice_verifier E n K cts p).
Proof.
  unfold multi_choice_verifier. destruct (Nat.eqb_spec n (List.length cts)) as [->|]; [|constructor].
  apply doing_most. intros total. apply choice_ranges_most.
Qed.

Lemma single_choice_most n K cts p s : at_most (n + 2) (@single_choice_verifier E n K cts p s).
Proof.
  unfold single_choice_verifier. destruct (Nat.eqb_spec n (List.length cts)) as [->|]; [|constructor].
  apply doing_most. intros total. replace (List.length cts + 2) with (1 + (List.length cts + 1)) by lia.
  apply after_most; [apply log_equality_most|]. intros r. destruct (fst r); [apply choice_ranges_most|constructor].
Qed.

Lemma votes_most (params : QuadraticVotingParams E) votes : forall i,
  at_most (List.length votes * ring_queries (pr_admissible (qv_vote_count_range params))) (votes_verifier params i votes).
Proof.
  induction votes as [|v votes IH]; intros i; [constructor|]. cbn [votes_verifier List.length Nat.mul].
  apply after_most; [apply range_most|]. intros r. destruct (fst r); [apply IH|constructor].
Qed.

Lemma quadratic_most ballot params : at_most (quadratic_queries params) (@quadratic_verifier E ballot params).
Proof.
  unfold quadratic_verifier, quadratic_queries, QuadraticVotingParams_check_options_count.
  destruct (Nat.eqb_spec (qv_options_count params) (List.length (qb_votes ballot))) as [->|]; [|constructor].
  apply after_most; [apply votes_most|]. intros [u|e]; [|constructor].
  apply after_most; [apply range_most|]. intros r. destruct (fst r); [|constructor].
  replace 1 with (1 + 0) by lia. apply after_most; [apply sum_of_squares_most|]. intros r'. destruct (fst r'); constructor.
Qed.

End Queries.
