(** * Quadratic voting ballots *)
From Coq Require Import List NArith ZArith Arith Bool String Lia.
From Verif.Model Require Import Base Group Transcript Keys Encryption LogEquality Possession Ring Range Mul Quadratic Sharing.
From Verif.Spec Require Import Sharing Encryption Range Sigma Quadratic Domains Rom Forking Verifiers Uniform Secrecy Coalition Election.
From Verif.Proofs Require Import Algebra Lists Encryption Range RangeProof Quadratic SumOfSquares Rom Forking Verifiers Uniform UniformRing UniformBallots Domains Secrecy SecrecyBallots Coalition Election.
From Verif.Spec Require Import QuadraticSecrecy.
Import ListNotations.
Open Scope string_scope.
Open Scope list_scope.
Open Scope nat_scope.

Lemma sos_uniform (W : Env) (LW : GroupLaws W) (HW : ser_total W) (K : PublicKey W) dv dc (V C : N) tv tc t votes
    (os : list (CiphertextWithValue W (Scalar W) * RangeProof W)) (c : CiphertextWithValue W (Scalar W) * RangeProof W) :
  (V + 65 < 2 ^ 64)%N -> (C + 65 < 2 ^ 64)%N -> Forall (fun v => (v <= V)%N) votes -> (squares votes <= C)%N ->
  Forall2 (vote_hidden W K dv tv) votes os -> vote_hidden W K dc tc (squares votes) c ->
  uniform_over (1 + List.length votes * 2)
    (fun r => '(ep, _, r) <- SumOfSquaresProof_new (map fst os) (fst c) K t r ;; Ret (ep, r))
    (fun ep => exists t', SumOfSquaresProof_verify ep (map cwv_inner (map fst os)) (cwv_inner (fst c)) K t = Ret (Ok tt, t')).
Proof.
  intros HV HC Hvs Hs Hos (Hc1 & Hc2 & _).
  assert (Hlen : List.length (map fst os) = List.length votes) by (rewrite map_length, <- (Forall2_len _ _ _ Hos); reflexivity).
  rewrite <- Hlen. apply (sq_uniform_proof W LW HW).
  - clear - Hos HV Hvs LW. induction Hos as [|v o votes os (Ha & Hb & _) Hos IH]; cbn [map]; constructor.
    + apply Forall_cons_iff in Hvs as [Hle _]. rewrite Ha, <- (times_of_u64 W LW) by (unfold u64_lim; lia). exact Hb.
    + apply Forall_cons_iff in Hvs as [_ Hvs]. auto.
  - rewrite Hc1, <- (times_of_u64 W LW) by (unfold u64_lim; lia). exact Hc2.
  - rewrite Hc1, (of_u64_phi W LW) by (unfold u64_lim; lia). rewrite <- (sum_sq_squares W LW). f_equal. rewrite map_map.
    clear - Hos HV Hvs LW. induction Hos as [|v o votes os (Ha & Hb & _) Hos IH]; cbn [map]; [reflexivity|].
    apply Forall_cons_iff in Hvs as [Hle Hvs]. rewrite (IH Hvs), Ha. f_equal. symmetry. apply (of_u64_phi W LW). unfold u64_lim. lia.
Qed.

Section Quadratic.
Context (E : Env) (L : GroupLaws E) (Ht : ser_total E).
Local Notation scalar := (Scalar E).
Local Notation element := (Element E).
Local Notation scalars := (all_scalars L).
Local Notation q := (Z.to_nat (order L)).
Local Notation pk x := (kp_public (pair_of E x)).
Local Notation reads := (Forking.reads scalar).
Local Notation encrypted := (Ciphertext E * RangeProof E)%type.
Local Notation opened := (CiphertextWithValue E scalar * RangeProof E)%type.

(** ** the proof of the sum of squares *)
Fixpoint pairs (l : list scalar) : list (scalar * scalar) :=
  match l with a :: b :: l => (a, b) :: pairs l | _ => [] end.
Lemma pairs_flat n : forall l, List.length l = n * 2 -> sq_flat (E:=E) (pairs l) = l /\ List.length (pairs l) = n.
Proof.
  induction n as [|n IH]; intros [|a [|b l]] H; try discriminate H; [auto|].
  destruct (IH l ltac:(cbn in H; lia)) as [H1 H2]. cbn [pairs]. unfold sq_flat in *. cbn [flat_map app fst snd List.length]. rewrite H1, H2. auto.
Qed.

Lemma doing_ret {X Y : Type} (m : outcome X) (f : X -> strategy scalar (outcome Y)) a : m = Ret a -> doing m f = f a.
Proof. intros ->. reflexivity. Qed.

Local Notation equiv_ctx := (transcript_new "quadratic_voting_credit_equiv").

Lemma equivalence_shape (K : PublicKey E) (c : list (Ciphertext E)) (s : list scalar) n :
  List.length c = n + 1 -> List.length s = 2 + 2 * n ->
  exists t, hd (TChal "") t = TMsg "dom-sep" (str_bytes "quadratic_voting_credit_equiv") /\
    equivalence_verifier K c s = asking t (fun e =>
      Output (Ret ((if s_eqb e (hd 0%S s) then Ok tt else Err ChallengeMismatch), t ++ [TChal "c"]))).
Proof using L Ht.
  intros Hc Hs. unfold equivalence_verifier, sum_of_squares_verifier, check_lengths.
  set (cs := removelast c). set (z := last c Ciphertext_zero).
  assert (Hcs : List.length cs = n) by (unfold cs; rewrite removelast_len; lia).
  assert (Hr : List.length (sq_ciphertext_responses (equivalence_proof_of s)) = n * 2).
  { cbn [equivalence_proof_of sq_ciphertext_responses]. destruct s as [|a [|b s]]; cbn in Hs |- *; lia. }
  rewrite Hr, Hcs, Nat.eqb_refl. destruct (pairs_flat n _ Hr) as [Hp1 Hp2]. set (rs := pairs _) in *.
  rewrite <- Hp1. rewrite (sq_flat_odds E), (sq_flat_chunks E) by (rewrite Hp2; lia).
  rewrite (sq_recommit_eq E L) by congruence. rewrite (absorb_ok E L Ht). cbn [bind doing].
  rewrite !(sq_sum_eq E L) by (rewrite map_length; congruence). cbn [doing].
  unfold append_element. rewrite !(ser_ok E L Ht). cbn [bind doing].
  eexists. split; [|reflexivity]. reflexivity.
Qed.

(** the question of the verifier *)
Definition equivalence_query (K : PublicKey E) (c : list (Ciphertext E)) (s : list scalar) (o : hash scalar) : query :=
  hd ([], "") (asked o (equivalence_verifier K c s)).

Definition at_equivalence (y : query) : Prop := hd (TChal "") (fst y) = TMsg "dom-sep" (str_bytes "quadratic_voting_credit_equiv").

Lemma equivalence_asked K c s n o : List.length c = n + 1 -> List.length s = 2 + 2 * n ->
  asked o (equivalence_verifier K c s) = [equivalence_query K c s o] /\ at_equivalence (equivalence_query K c s o) /\
  (forall o', equivalence_query K c s o' = equivalence_query K c s o) /\
  answering (equivalence_verifier K c s) (hd 0%S s) o = set_hash o (equivalence_query K c s o) (hd 0%S s).
Proof using L Ht.
  intros Hc Hs. destruct (equivalence_shape K c s n Hc Hs) as (t & H1 & H2). unfold equivalence_query, answering. rewrite H2. cbn. auto.
Qed.

Lemma equivalence_accepts (K : PublicKey E) (c : list (Ciphertext E)) (s : list scalar) n o : List.length c = n + 1 -> List.length s = 2 + 2 * n ->
  ((exists t', SumOfSquaresProof_verify (E:=hashed_by E o) (equivalence_proof_of s) (removelast c) (last c Ciphertext_zero) K equiv_ctx = Ret (Ok tt, t')) <->
   s_eqb (answer o (equivalence_query K c s o)) (hd 0%S s) = true).
Proof using L Ht.
  intros Hc Hs. destruct (equivalence_shape K c s n Hc Hs) as (t & H1 & H2). unfold equivalence_query.
  rewrite <- (sum_of_squares_run E o). fold (equivalence_verifier K c s). rewrite H2. cbn [asked asking hd run]. unfold answer. cbn [fst snd].
  destruct (s_eqb _ _); split; [reflexivity|eauto|intros (t' & H); discriminate|discriminate].
Qed.

Lemma equivalence_proof_cons (ep : SumOfSquaresProof E) : equivalence_proof_of (sq_challenge ep :: sq_sum_response ep :: sq_ciphertext_responses ep) = ep.
Proof. destruct ep. reflexivity. Qed.
Lemma equivalence_proof_inj (s s' : list scalar) k : List.length s = 2 + k -> List.length s' = 2 + k -> equivalence_proof_of s = equivalence_proof_of s' -> s = s'.
Proof.
  destruct s as [|a [|b s]], s' as [|a' [|b' s']]; intros H H'; try discriminate H; try discriminate H'.
  unfold equivalence_proof_of. cbn [hd tl]. intros Heq. injection Heq as -> -> ->. reflexivity.
Qed.

(** ** the parts of a ballot *)
Context (options : nat) (V C : N) (dv dc : RangeDecomposition) (K0 : PublicKey E).
Context (Hv : doc_form (V + 1) dv) (Hc : doc_form (C + 1) dc) (HV : (V + 65 < 2 ^ 64)%N) (HC : (C + 65 < 2 ^ 64)%N).
Local Notation p := {| qv_vote_count_range := prepared E dv; qv_credit_range := prepared E dc; qv_options_count := options; qv_receiver := K0 |}.

Definition decomposition_of (x : part) : RangeDecomposition := if for_vote x then dv else dc.
Definition limit_of (x : part) : N := if for_vote x then (V + 1)%N else (C + 1)%N.
Definition part_ok (x : part) : Prop := (number x < limit_of x)%N.
Definition part_draws (x : part) : nat := range_draws (decomposition_of x).

Definition opened_part (x : part) (o : hash scalar) (K : PublicKey E) (r : Rng E) : outcome (opened * Rng E) :=
  '(c, pf, _, r) <- RangeProof_new (E:=hashed_by E o) K (range_of p x) (number x) (context_of x) r ;;
  Ret ((CiphertextWithValue_generalize s_of_u64 c, pf), r).
Definition closed (x : opened) : encrypted := (cwv_inner (fst x), snd x).

Lemma opened_uniform x o (K : PublicKey E) : part_ok x ->
  uniform_over (part_draws x) (opened_part x o K) (vote_hidden (hashed_by E o) K (decomposition_of x) (context_of x) (number x)).
Proof using L Ht Hv Hc HV HC.
  intros Hx. destruct x as [v|v].
  - exact (vote_uniform (hashed_by E o) L Ht K (V + 1) dv v (context_of (Vote v)) Hv ltac:(lia) Hx).
  - exact (vote_uniform (hashed_by E o) L Ht K (C + 1) dc v (context_of (Credit v)) Hc ltac:(lia) Hx).
Qed.

Lemma part_closed x o (K : PublicKey E) r : real_part p x o K r = '(cp, r) <- opened_part x o K r ;; Ret (closed cp, r).
Proof.
  unfold real_part, opened_part.
  match goal with |- context[@RangeProof_new ?e ?a ?b ?c ?d ?f] => destruct (@RangeProof_new e a b c d f) as [[[[c1 p1] t1] r1]|e1] end; reflexivity.
Qed.
Lemma parts_closed o (K : PublicKey E) : forall l r, cast (real_part p) l o K r = '(cps, r) <- cast opened_part l o K r ;; Ret (map closed cps, r).
Proof.
  induction l as [|x l IH]; intros r; [reflexivity|]. cbn [cast]. rewrite part_closed.
  destruct (opened_part x o K r) as [[cp r1]|e]; [|reflexivity]. cbn [bind]. rewrite IH. destruct (cast opened_part l o K r1) as [[cps r2]|e]; reflexivity.
Qed.

Lemma opened_hidden o (K : PublicKey E) : forall l, Forall part_ok l -> forall r cps r', cast opened_part l o K r = Ret (cps, r') ->
  Forall2 (fun x cp => vote_hidden (hashed_by E o) K (decomposition_of x) (context_of x) (number x) cp) l cps.
Proof using L Ht Hv Hc HV HC.
  induction 1 as [|x l Hx Hl IH]; intros r cps r' H; cbn [cast] in H; [injection H as <- <-; constructor|].
  destruct (proj1 (opened_uniform x o K Hx) r) as (cp & Hr & HP). rewrite Hr in H. cbn [bind] in H.
  destruct (cast opened_part l o K (snd (draws (part_draws x) r))) as [[cps1 r2]|e] eqn:Hcast; [|discriminate]. cbn [bind] in H. injection H as <- <-.
  constructor; [exact HP|]. exact (IH _ _ _ Hcast).
Qed.

Lemma parts_ok votes : Forall (fun v => (v <= V)%N) votes -> (squares votes <= C)%N -> Forall part_ok (parts votes).
Proof.
  intros H1 H2. unfold parts. apply Forall_app. split; [|constructor; [|constructor]; change (squares votes < C + 1)%N; lia].
  apply Forall_map. eapply Forall_impl; [|exact H1]. intros v Hle. cbv beta in Hle. change (v < V + 1)%N. lia.
Qed.

Lemma parts_squares votes : parts votes = map Vote votes ++ [Credit (squares votes)].
Proof. reflexivity. Qed.

(** the ballot as the client makes it: the parts, then the proof of the sum of squares *)
Definition no_part : opened := ({| cwv_ext := {| ext_inner := Ciphertext_zero; ext_random_scalar := 0%S |}; cwv_value := 0%S |}, {| rap_partial := []; rap_inner := ring_proof_of [] |}).
Definition ballot_with (l : list encrypted) (ep : SumOfSquaresProof E) : QuadraticVotingBallot E :=
  let crp := fun x : encrypted => {| crp_ciphertext := fst x; crp_range_proof := snd x |} in
  {| qb_votes := map crp (removelast l);
     qb_credit := crp (last l (Ciphertext_zero, {| rap_partial := []; rap_inner := ring_proof_of [] |}));
     qb_credit_equivalence_proof := ep |}.
Definition equivalence_prover (l : list opened) (o : hash scalar) (K : PublicKey E) (r : Rng E) : outcome (SumOfSquaresProof E * Rng E) :=
  '(ep, _, r) <- SumOfSquaresProof_new (E:=hashed_by E o) (map fst (removelast l)) (fst (last l no_part)) K equiv_ctx r ;; Ret (ep, r).

Lemma encrypt_cast o (K : PublicKey E) : forall votes r,
  qv_encrypt_votes (E:=hashed_by E o) (with_receiver p K) votes r = cast opened_part (map Vote votes) o K r.
Proof.
  induction votes as [|v votes IH]; intros r; [reflexivity|]. cbn [qv_encrypt_votes map cast]. unfold opened_part at 1.
  match goal with |- bind ?m _ = bind (bind ?m' _) _ => change m' with m; destruct m as [[[[c1 p1] t1] r1]|e1] end; [|reflexivity]. cbn [bind].
  rewrite IH. reflexivity.
Qed.

Lemma ballot_split votes o (K : PublicKey E) r : List.length votes = options -> (squares votes <= C)%N ->
  real_quadratic p votes o K r =
  '(l, r) <- cast opened_part (parts votes) o K r ;; '(ep, r) <- equivalence_prover l o K r ;; Ret (ballot_with (map closed l) ep, r).
Proof using HV HC.
  intros Hl Hs. unfold real_quadratic, QuadraticVotingBallot_new, assert. cbn [qv_options_count with_receiver]. rewrite Hl, Nat.eqb_refl. cbn [bind].
  destruct (credit_sum_total (hashed_by E o) votes) as (sq & Hsq & Hcr); [lia|].
  change (env_build (hashed_by E o)) with (env_build E) in *. rewrite Hsq. cbn [bind]. rewrite Hcr. cbn [bind].
  rewrite encrypt_cast, parts_squares, cast_app.
  destruct (cast opened_part (map Vote votes) o K r) as [[l1 r1]|e]; [|reflexivity]. cbn [bind cast]. unfold opened_part.
  match goal with |- bind ?m _ = bind (bind (bind (bind ?m' _) _) _) _ => change m' with m; destruct m as [[[[c1 p1] t1] r2]|e1] end; [|reflexivity]. cbn [bind].
  unfold equivalence_prover. rewrite removelast_last, last_last. cbn [fst].
  match goal with |- bind ?m _ = bind (bind ?m' _) _ => change m' with m; destruct m as [[[ep t2] r3]|e1] end; [|reflexivity]. cbn [bind].
  unfold ballot_with. rewrite map_app. cbn [map]. rewrite removelast_last, last_last, map_map. reflexivity.
Qed.

Lemma opened_squares votes o (K : PublicKey E) (l : list opened) : Forall (fun v => (v <= V)%N) votes -> (squares votes <= C)%N ->
  Forall2 (fun x cp => vote_hidden (hashed_by E o) K (decomposition_of x) (context_of x) (number x) cp) (parts votes) l ->
  uniform_over (1 + List.length votes * 2) (equivalence_prover l o K)
    (fun ep => exists t', SumOfSquaresProof_verify (E:=hashed_by E o) ep (removelast (map fst (map closed l))) (last (map fst (map closed l)) Ciphertext_zero) K equiv_ctx = Ret (Ok tt, t')).
Proof using L Ht HV HC.
  intros Hvs Hs Hl. rewrite parts_squares in Hl. apply Forall2_app_inv_l in Hl as (os & ol & Hos & Hol & ->).
  inversion Hol as [|? c ? nil_ Hc1 Hn]; subst. inversion Hn; subst. clear Hol Hn.
  assert (Hos' : Forall2 (vote_hidden (hashed_by E o) K dv (transcript_new "quadratic_voting_variant")) votes os).
  { clear -Hos. revert os Hos. induction votes as [|v votes IH]; intros os H; inversion H; subst; constructor; auto. }
  unfold equivalence_prover. rewrite removelast_last, last_last, !map_app. cbn [map]. rewrite removelast_last, last_last, map_map.
  pose proof (sos_uniform (hashed_by E o) L Ht K dv dc V C _ _ equiv_ctx votes os c HV HC Hvs Hs Hos' Hc1) as Hu. rewrite map_map in Hu. exact Hu.
Qed.

(** ** replacing the proof of the sum of squares *)
Lemma context_extends x t : extends (context_of x) t -> forall l, ~ at_equivalence (t, l).
Proof. intros (t' & ->) l H. unfold at_equivalence in H. destruct x; discriminate. Qed.

Lemma context_domain x : extends (context_of x) (domain (context_of x) "encryption_range_proof").
Proof. eexists. reflexivity. Qed.

Lemma part_reads x (K : PublicKey E) r : reads (fun y => ~ at_equivalence y) (fun o => real_part p x o K r).
Proof.
  intros o o' H. unfold real_part.
  assert (Ha : agrees (hashed_by E o') o (context_of x)).
  { intros t l Hx. exact (H (t, l) (context_extends x t Hx l)). }
  exact (f_equal (fun m => bind m (fun x => let '(c, pf, _, r) := x in Ret ((cwv_inner c, pf), r)))
    (same_eq _ _ _ (same_range_new (hashed_by E o') o (context_of x) Ha K (range_of p x) (number x) (context_of x) r (context_domain x)))).
Qed.

Lemma parts_reads l (K : PublicKey E) r : reads (fun y => ~ at_equivalence y) (fun o => cast (real_part p) l o K r).
Proof.
  intros o o' H. revert r. induction l as [|v l IH]; intros r; [reflexivity|]. cbn [cast]. rewrite (part_reads v K r o o' H).
  destruct (real_part p v o' K r) as [[a r1]|e]; [|reflexivity]. cbn [bind]. rewrite IH. reflexivity.
Qed.

Section Step.
Context (seed : list scalar -> Rng E) (Hseed : seeds seed) (dom : list query) (o0 : hash scalar) (Hdom : NoDup dom).
Local Notation hashes := (all_hashes scalars dom o0).
Local Notation hsum := (hsum scalar scalars dom o0).
Context {B : Type} (setup : hash scalar -> PublicKey E -> Rng E -> outcome (B * Rng E)) (m : nat).
Context (Hsetup : forall x o, exists f, det E m (setup o (pk x)) f).
Context (Hreads : forall x r, reads (fun y => ~ at_equivalence y) (fun o => setup o (pk x) r)).
Context (Hcov : covers dom (options + 1) (2 + 2 * options) (equivalence_verifier (E:=E))).
Context (votes : list N) (Hlen : List.length votes = options) (Hvs : Forall (fun v => (v <= V)%N) votes) (Hs : (squares votes <= C)%N).
Local Notation tot := (total part_draws (parts votes)).

Definition made (x : scalar) (xs : list scalar) (o : hash scalar) : list encrypted :=
  match cast (real_part p) (parts votes) o (pk x) (seed xs) with Ret (l, _) => l | Panic _ => [] end.

Lemma opened_det x o : exists F, det E tot (cast opened_part (parts votes) o (pk x)) F.
Proof using L Ht Hv Hc HV HC Hseed Hvs Hs.
  apply (cast_det E opened_part part_draws part_ok); [|exact (parts_ok votes Hvs Hs)].
  intros y x' o' Hy. exact (uniform_det E seed _ _ _ Hseed (opened_uniform y o' (pk x') Hy)).
Qed.

Lemma made_opened x o xs l r : cast opened_part (parts votes) o (pk x) (seed xs) = Ret (l, r) -> made x xs o = map closed l.
Proof. intros H. unfold made. rewrite parts_closed, H. reflexivity. Qed.

Lemma made_length x o xs : List.length (map fst (made x xs o)) = options + 1.
Proof using L Ht Hv Hc HV HC Hseed Hvs Hs Hlen.
  destruct (opened_det x o) as [F HF]. rewrite (made_opened x o xs _ _ (HF (seed xs))).
  pose proof (opened_hidden o (pk x) _ (parts_ok votes Hvs Hs) _ _ _ (HF (seed xs))) as H. apply Forall2_len in H.
  rewrite !map_length. etransitivity; [symmetry; exact H|]. unfold parts. rewrite app_length, map_length, Hlen. reflexivity.
Qed.

Definition shown (x : scalar) (s0 xs s : list scalar) (D : PublicKey E -> B * QuadraticVotingBallot E -> hash scalar -> bool) (o : hash scalar) : bool :=
  returns ('(b, _) <- setup o (pk x) (seed s0) ;; Ret (D (pk x) (b, ballot_of (made x xs o) s) o)).

Lemma proof_sum x o D :
  tsum E L (m + (tot + (1 + options * 2))) (fun xs => b2n (returns ('(a, _) <- one E (real_quadratic p) setup votes o (pk x) (seed xs) ;; Ret (D (pk x) a o)))) =
  tsum E L m (fun s0 => tsum E L tot (fun xs => tsum E L (2 + 2 * options) (fun s =>
    b2n (s_eqb (answer o (equivalence_query (pk x) (map fst (made x xs o)) s o)) (hd 0%S s)) * b2n (shown x s0 xs s D o)))).
Proof using L Ht Hv Hc HV HC Hseed Hvs Hs Hlen Hsetup.
  rewrite tsum_app. apply tsum_ext. intros s0 L0. rewrite tsum_app. apply tsum_ext. intros xs Lx.
  destruct (Hsetup x o) as [fs Hfs]. destruct (opened_det x o) as [F HF].
  assert (Hmade : made x xs o = map closed (F xs)).
  { rewrite (made_opened x o xs _ _ (HF (seed xs))), <- Lx, (Hseed xs). reflexivity. }
  assert (Hhid : Forall2 (fun y cp => vote_hidden (hashed_by E o) (pk x) (decomposition_of y) (context_of y) (number y) cp) (parts votes) (F xs)).
  { pose proof (opened_hidden o (pk x) _ (parts_ok votes Hvs Hs) _ _ _ (HF (seed xs))) as H. rewrite <- Lx, (Hseed xs) in H. exact H. }
  pose proof (opened_squares votes o (pk x) (F xs) Hvs Hs Hhid) as Hu. rewrite Hlen in Hu. rewrite <- Hmade in Hu.
  set (rr := fun t => snd (draws tot (snd (draws m (seed (s0 ++ xs ++ t)))))).
  assert (Hrr : forall t, List.length t = 1 + options * 2 -> fst (draws m (seed (s0 ++ xs ++ t))) = s0 /\
    fst (draws tot (snd (draws m (seed (s0 ++ xs ++ t))))) = xs /\ fst (draws (1 + options * 2) (rr t)) = t).
  { intros t Lt. pose proof (Hseed (s0 ++ xs ++ t)) as Hd. rewrite !app_length, L0, Lx, Lt in Hd.
    destruct (draws_split E m (tot + (1 + options * 2)) (seed (s0 ++ xs ++ t))) as [D1 _]. rewrite Hd in D1.
    destruct (draws_split E tot (1 + options * 2) (snd (draws m (seed (s0 ++ xs ++ t))))) as [D2 _]. rewrite D2 in D1.
    apply app_inj in D1 as [E1 D1]; [|rewrite draws_length; congruence].
    apply app_inj in D1 as [E2 E3]; [|rewrite draws_length; congruence]. fold (rr t) in E3. auto. }
  transitivity (tsum E L (1 + options * 2) (fun t => b2n (returns ('(ep, _) <- equivalence_prover (F xs) o (pk x) (rr t) ;;
    Ret (D (pk x) (fs s0, ballot_with (made x xs o) ep) o))))).
  { apply tsum_ext. intros t Lt. destruct (Hrr t Lt) as (R1 & R2 & R3). f_equal. unfold one. rewrite Hfs. cbn [bind].
    rewrite (ballot_split votes o (pk x) _ Hlen Hs), HF. cbn [bind]. fold (rr t). rewrite R1, R2, Hmade.
    destruct (equivalence_prover (F xs) o (pk x) (rr t)) as [[ep r3]|e]; reflexivity. }
  rewrite (uniform_sum E L (1 + options * 2) 0 (2 + 2 * options) x (pk x) [] (equivalence_prover (F xs) o (pk x)) _ rr
    (fun _ s => equivalence_proof_of s) (fun _ s => s_eqb (answer o (equivalence_query (pk x) (map fst (made x xs o)) s o)) (hd 0%S s))
    (fun ep => D (pk x) (fs s0, ballot_with (made x xs o) ep) o) eq_refl eq_refl Hu).
  - rewrite tsum_0. apply tsum_ext. intros s _. f_equal. f_equal. unfold shown. rewrite Hfs. cbn [bind returns]. pose proof (Hseed s0) as Hs0. rewrite L0 in Hs0. rewrite Hs0. reflexivity.
  - intros t Lt. apply Hrr, Lt.
  - intros ep. split.
    + intros (t' & Hver). exists [], (sq_challenge ep :: sq_sum_response ep :: sq_ciphertext_responses ep).
      assert (Hr : List.length (sq_ciphertext_responses ep) = options * 2).
      { destruct (Nat.eq_dec (List.length (sq_ciphertext_responses ep)) (options * 2)) as [Heq|Hne]; [exact Heq|exfalso].
        pose proof (sq_verify_len (hashed_by E o) ep (removelast (map fst (made x xs o))) (last (map fst (made x xs o)) Ciphertext_zero) (pk x) equiv_ctx) as Hv0.
        rewrite removelast_len, made_length in Hv0. rewrite Nat.add_sub in Hv0. specialize (Hv0 Hne).
        pose proof (eq_trans (eq_sym Hver) Hv0) as Hf. discriminate Hf. }
      split; [cbn [List.length]; lia|]. split; [constructor|]. split; [symmetry; apply equivalence_proof_cons|].
      apply (equivalence_accepts (pk x) _ _ options); [apply made_length|cbn [List.length]; lia|]. rewrite equivalence_proof_cons. eauto.
    + intros (c & s & Lsn & _ & -> & Hacc). apply (equivalence_accepts (pk x) _ _ options); [apply made_length|exact Lsn|exact Hacc].
  - intros c c' s s' H1 H2 H3 H4 Heq. split; [destruct c, c'; try discriminate; reflexivity|]. exact (equivalence_proof_inj s s' (2 * options) H3 H4 Heq).
Qed.

Lemma part_det x o y : part_ok y -> exists f, det E (part_draws y) (real_part p y o (pk x)) f.
Proof using L Ht Hv Hc HV HC Hseed.
  intros Hy. destruct (uniform_det E seed _ _ _ Hseed (opened_uniform y o (pk x) Hy)) as [f Hf]. exists (fun xs => closed (f xs)).
  intros r. rewrite part_closed, Hf. reflexivity.
Qed.

Lemma whole_sum x o (D' : PublicKey E -> B * list encrypted -> hash scalar -> bool) :
  tsum E L (m + tot) (fun ys => b2n (returns ('(a, _) <- whole E (real_part p) setup (parts votes) o (pk x) (seed ys) ;; Ret (D' (pk x) a o)))) =
  tsum E L m (fun s0 => tsum E L tot (fun xs => b2n (returns ('(b, _) <- setup o (pk x) (seed s0) ;; Ret (D' (pk x) (b, made x xs o) o))))).
Proof using L Ht Hv Hc HV HC Hseed Hvs Hs Hsetup.
  rewrite tsum_app. apply tsum_ext. intros s0 L0. apply tsum_ext. intros xs Lx. f_equal.
  destruct (Hsetup x o) as [fs Hfs]. destruct (opened_det x o) as [F HF].
  pose proof (Hseed s0) as Hs0. rewrite L0 in Hs0. pose proof (Hseed xs) as Hsx. rewrite Lx in Hsx.
  pose proof (Hseed (s0 ++ xs)) as Hd. rewrite app_length, L0, Lx in Hd.
  destruct (draws_split E m tot (seed (s0 ++ xs))) as [D1 _]. rewrite Hd in D1.
  apply app_inj in D1 as [E1 E2]; [|rewrite draws_length; congruence].
  unfold whole. rewrite !Hfs. cbn [bind]. rewrite parts_closed, HF. cbn [bind returns].
  rewrite (made_opened x o xs _ _ (HF (seed xs))), Hs0, Hsx, <- E1, <- E2. reflexivity.
Qed.

Lemma quadratic_det x o : exists f, det E (tot + (1 + options * 2)) (real_quadratic p votes o (pk x)) f.
Proof using L Ht Hv Hc HV HC Hseed Hvs Hs Hlen.
  destruct (opened_det x o) as [F HF].
  assert (Hf : forall l, Forall2 (fun y cp => vote_hidden (hashed_by E o) (pk x) (decomposition_of y) (context_of y) (number y) cp) (parts votes) l ->
    exists f, det E (1 + options * 2) (equivalence_prover l o (pk x)) f).
  { intros l Hl. pose proof (opened_squares votes o (pk x) l Hvs Hs Hl) as Hu. rewrite Hlen in Hu. exact (uniform_det E seed _ _ _ Hseed Hu). }
  set (run := fun xs => real_quadratic p votes o (pk x) (seed xs)).
  assert (Hrun : forall r, exists a, real_quadratic p votes o (pk x) r = Ret (a, snd (draws (tot + (1 + options * 2)) r)) /\
     exists r', run (fst (draws (tot + (1 + options * 2)) r)) = Ret (a, r')).
  { intros r. unfold run. rewrite !(ballot_split votes o (pk x) _ Hlen Hs), !HF. cbn [bind].
    destruct (draws_split E tot (1 + options * 2) r) as [D1 D2]. rewrite D1, D2.
    set (xs := fst (draws tot r)). set (r1 := snd (draws tot r)). set (t := fst (draws (1 + options * 2) r1)).
    assert (Hxt : List.length (xs ++ t) = tot + (1 + options * 2)) by (unfold xs, t; rewrite app_length, !draws_length; reflexivity).
    pose proof (Hseed (xs ++ t)) as Hd. rewrite Hxt in Hd.
    destruct (draws_split E tot (1 + options * 2) (seed (xs ++ t))) as [D3 _]. rewrite Hd in D3.
    apply app_inj in D3 as [E1 E2]; [|unfold xs; rewrite !draws_length; reflexivity].
    rewrite <- E1. destruct (Hf (F xs)) as [f Hfx].
    { exact (opened_hidden o (pk x) _ (parts_ok votes Hvs Hs) _ _ _ (HF r)). }
    rewrite !Hfx. cbn [bind]. rewrite <- E2. fold t. eauto. }
  destruct (Hrun (seed [])) as (a0 & _).
  exists (fun xs => match run xs with Ret (a, _) => a | Panic _ => a0 end). intros r. destruct (Hrun r) as (a & H1 & r' & H2). rewrite H1, H2. reflexivity.
Qed.

Theorem quadratic_step D : (forall K a, reads anything (D K a)) ->
  (order L * guesses_by E L (m + (tot + (1 + options * 2))) seed hashes (one E (real_quadratic p) setup votes) D =
   fold_right Z.add 0 (map (fun s => guesses_by E L (m + tot) seed hashes (whole E (real_part p) setup (parts votes)) (with_equivalence D s))
                           (tapes L (2 + 2 * options))))%Z.
Proof using L Ht Hv Hc HV HC Hseed Hvs Hs Hlen Hsetup Hreads Hcov Hdom.
  intros HD.
  rewrite (guesses_sum E L Ht seed Hseed).
  2:{ intros x o. destruct (Hsetup x o) as [f Hf]. destruct (quadratic_det x o) as [g Hg]. eexists.
      exact (det_bind E m _ _ (fun _ => real_quadratic p votes o (pk x)) f (fun _ => g) pair Hf (fun _ => Hg)). }
  rewrite (fold_ext _ (fun s => Z.of_nat (lsum (fun x => lsum (fun o => tsum E L (m + tot) (fun ys =>
    b2n (returns ('(a, _) <- whole E (real_part p) setup (parts votes) o (pk x) (seed ys) ;; Ret (with_equivalence D s (pk x) a o))))) hashes) scalars))).
  2:{ intros s. apply (guesses_sum E L Ht seed Hseed). intros x o.
      apply (whole_det E (real_part p) part_draws part_ok (fun y x' o' Hy => part_det x' o' y Hy) setup m Hsetup). exact (parts_ok votes Hvs Hs). }
  rewrite fold_sum. pose proof (order_gt_1 L) as Ho. rewrite <- (Z2Nat.id (order L)) at 1 by lia. rewrite <- Nat2Z.inj_mul. f_equal.
  rewrite (lsum_swap (fun s x => lsum (fun o => tsum E L (m + tot) (fun ys =>
    b2n (returns ('(a, _) <- whole E (real_part p) setup (parts votes) o (pk x) (seed ys) ;; Ret (with_equivalence D s (pk x) a o))))) hashes)).
  rewrite <- lsum_scale. apply lsum_ext. intros x _.
  set (g := fun s0 xs s o => b2n (s_eqb (answer o (equivalence_query (pk x) (map fst (made x xs o)) s o)) (hd 0%S s)) * b2n (shown x s0 xs s D o)).
  set (g' := fun s0 xs s o => b2n (returns ('(b, _) <- setup o (pk x) (seed s0) ;; Ret (with_equivalence D s (pk x) (b, made x xs o) o)))).
  rewrite (lsum_ext _ (fun o => tsum E L m (fun s0 => tsum E L tot (fun xs => tsum E L (2 + 2 * options) (fun s => g s0 xs s o))))) by (intros o _; apply proof_sum).
  transitivity (tsum E L (2 + 2 * options) (fun s => lsum (fun o => tsum E L m (fun s0 => tsum E L tot (fun xs => g' s0 xs s o))) hashes)).
  2:{ apply tsum_ext. intros s _. apply lsum_ext. intros o _. symmetry. exact (whole_sum x o (with_equivalence D s)). }
  transitivity (tsum E L m (fun s0 => tsum E L tot (fun xs => tsum E L (2 + 2 * options) (fun s => q * lsum (g s0 xs s) hashes)))).
  { rewrite <- (tsum_swap E L m (fun s0 o => tsum E L tot (fun xs => tsum E L (2 + 2 * options) (fun s => g s0 xs s o)))). rewrite <- tsum_scale. apply tsum_ext. intros s0 _.
    rewrite <- (tsum_swap E L tot (fun xs o => tsum E L (2 + 2 * options) (fun s => g s0 xs s o))). rewrite <- tsum_scale. apply tsum_ext. intros xs _.
    rewrite <- (tsum_swap E L (2 + 2 * options) (fun s o => g s0 xs s o)). rewrite <- tsum_scale. reflexivity. }
  transitivity (tsum E L m (fun s0 => tsum E L tot (fun xs => tsum E L (2 + 2 * options) (fun s => lsum (g' s0 xs s) hashes)))).
  2:{ transitivity (tsum E L (2 + 2 * options) (fun s => tsum E L m (fun s0 => tsum E L tot (fun xs => lsum (g' s0 xs s) hashes)))).
      - transitivity (tsum E L m (fun s0 => tsum E L (2 + 2 * options) (fun s => tsum E L tot (fun xs => lsum (g' s0 xs s) hashes)))).
        + apply tsum_ext. intros s0 _. apply (tsum_tsum E L tot (2 + 2 * options) (fun xs s => lsum (g' s0 xs s) hashes)).
        + apply (tsum_tsum E L m (2 + 2 * options) (fun s0 s => tsum E L tot (fun xs => lsum (g' s0 xs s) hashes))).
      - apply tsum_ext. intros s _. rewrite <- (tsum_swap E L m (fun s0 o => tsum E L tot (fun xs => g' s0 xs s o))). apply tsum_ext. intros s0 _.
        rewrite <- (tsum_swap E L tot (fun xs o => g' s0 xs s o)). reflexivity. }
  apply tsum_ext. intros s0 _. apply tsum_ext. intros xs _. apply tsum_ext. intros s Ls.
  set (F := fun o => equivalence_query (pk x) (map fst (made x xs o)) s o).
  assert (Hmade : reads (fun y => ~ at_equivalence y) (made x xs)).
  { intros o o' H. unfold made. rewrite (parts_reads (parts votes) (pk x) (seed xs) o o' H). reflexivity. }
  assert (Hat : forall o, at_equivalence (F o)).
  { intros o. apply (equivalence_asked (pk x) _ s options o (made_length x o xs) Ls). }
  assert (Hset : forall o c, forall y, ~ at_equivalence y -> answer (set_hash o (F o) c) y = answer o y).
  { intros o c y Hy. apply set_other. intros <-. exact (Hy (Hat o)). }
  assert (HF : forall o o', made x xs o = made x xs o' -> F o = F o').
  { intros o o' H. unfold F. rewrite H. apply (equivalence_asked (pk x) _ s options o' (made_length x o' xs) Ls). }
  transitivity (lsum (fun o => b2n (shown x s0 xs s D (set_hash o (F o) (hd 0%S s)))) hashes).
  - symmetry. apply (program_one E L dom o0 Hdom F (hd 0%S s) (fun o => b2n (shown x s0 xs s D o))).
    + intros o. destruct (pk_good E L Ht x) as [Hk Hb]. apply (Hcov x (pk x) (map fst (made x xs o)) s o Hk Hb (made_length x o xs) Ls).
      destruct (equivalence_asked (pk x) _ s options o (made_length x o xs) Ls) as [-> _]. left. reflexivity.
    + intros o o' H. apply HF, Hmade. intros y _. apply H. exact I.
    + intros o c. apply HF, Hmade. apply Hset.
    + intros o o' H. unfold shown. rewrite (Hmade o o' (fun y _ => H y I)), (Hreads x (seed s0) o o' (fun y _ => H y I)).
      destruct (setup o' (pk x) (seed s0)) as [[b r]|e]; [|reflexivity]. cbn [bind]. rewrite (HD _ _ o o' H). reflexivity.
  - apply lsum_ext. intros o _. unfold g', shown. rewrite (Hmade _ _ (Hset o (hd 0%S s))), (Hreads x (seed s0) _ _ (Hset o (hd 0%S s))).
    unfold with_equivalence. cbn [fst snd].
    destruct (equivalence_asked (pk x) _ s options o (made_length x o xs) Ls) as (_ & _ & _ & ->). reflexivity.
Qed.

End Step.

(** ** one encrypted number at a time *)
Definition same_kind (x x' : part) : Prop := for_vote x = for_vote x'.

Lemma chain_parts (f : Z) (w : part -> Z) (G : list part -> Z) (gap : part -> list part -> list part -> Z) :
  (forall before x x' after, Forall part_ok before -> part_ok x -> part_ok x' -> same_kind x x' -> Forall part_ok after ->
    f * (G (before ++ x :: after) - G (before ++ x' :: after)) = gap x before after - gap x' before after)%Z ->
  forall l l' before, Forall part_ok before -> Forall part_ok l -> Forall part_ok l' -> Forall2 same_kind l l' ->
  (f * (G (before ++ l) - G (before ++ l')) = hybrids gap before l l')%Z.
Proof.
  intros Hstep. induction l as [|v l IH]; intros [|v' l'] before Hb H H' Hk; inversion Hk as [|? ? ? ? Hk1 Hk2]; subst; [cbn; lia|].
  inversion H as [|? ? Hx Hrest]; subst. inversion H' as [|? ? Hx' Hrest']; subst. cbn [hybrids].
  rewrite <- (Hstep before v v' l Hb Hx Hx' Hk1 Hrest), <- (IH l' (before ++ [v'])).
  - rewrite <- !app_assoc. cbn [app]. lia.
  - apply Forall_app. auto.
  - exact Hrest.
  - exact Hrest'.
  - exact Hk2.
Qed.

Lemma parts_kind votes votes' : List.length votes = List.length votes' -> Forall2 same_kind (parts votes) (parts votes').
Proof.
  intros H. unfold parts. apply Forall2_app; [|repeat constructor]. revert votes' H.
  induction votes as [|v l IH]; intros [|v' l'] H; try discriminate H; cbn [map]; constructor; [reflexivity|]. apply IH. injection H. auto.
Qed.

Lemma chain_ext {T : Type} (step step' : T -> T -> list T -> list T -> Z) : (forall v v' b a, step v v' b a = step' v v' b a) ->
  forall l l' before, chain step before l l' = chain step' before l l'.
Proof. intros H. induction l as [|v l IH]; intros [|v' l'] before; cbn [chain]; try reflexivity. rewrite H, IH. reflexivity. Qed.

Section Secret.
Context (seed : list scalar -> Rng E) (Hseed : seeds seed) (dom : list query) (o0 : hash scalar) (Hdom : NoDup dom).
Local Notation hashes := (all_hashes scalars dom o0).
Context {B : Type} (setup : hash scalar -> PublicKey E -> Rng E -> outcome (B * Rng E)) (m : nat).
Context (Hsetup : forall x o, exists f, det E m (setup o (pk x)) f).
Context (Hreads : forall x r, reads (fun y => ~ at_equivalence y) (fun o => setup o (pk x) r)).
Context (Hcov : covers dom (options + 1) (2 + 2 * options) (equivalence_verifier (E:=E))).

(** telling apart two numbers in the same place *)
Context {S : Type} (coins : part -> list S) (A : part -> (PublicKey E -> B * encrypted -> hash scalar -> bool) -> @triple E -> S -> bool) (f : Z) (w : part -> Z).
Context (Hpart : forall x x' D, part_ok x -> part_ok x' -> same_kind x x' -> (forall K a, reads anything (D K a)) ->
  (f * (guesses_by E L (m + part_draws x) seed hashes (one E (real_part p) setup x) D - guesses_by E L (m + part_draws x') seed hashes (one E (real_part p) setup x') D) =
   w x * ddh_gap L (coins x) (A x D) - w x' * ddh_gap L (coins x') (A x' D))%Z).

Lemma real_part_ext y K r : reads anything (fun o => real_part p y o K r).
Proof. intros o o' H. apply part_reads. intros z _. apply H. exact I. Qed.

Lemma parts_secret l l' (D : PublicKey E -> B * list encrypted -> hash scalar -> bool) :
  Forall part_ok l -> Forall part_ok l' -> Forall2 same_kind l l' -> (forall K a, reads anything (D K a)) ->
  (f * (guesses_by E L (m + total part_draws l) seed hashes (whole E (real_part p) setup l) D -
        guesses_by E L (m + total part_draws l') seed hashes (whole E (real_part p) setup l') D) =
   hybrids (fun x before after =>
     w x * ddh_gap L (list_prod (tapes L (total part_draws before + total part_draws after)) (coins x))
       (fun T c => A x (others_view (real_part p) seed before after D (fst c)) T (snd c))) [] l l')%Z.
Proof using L Ht Hv Hc HV HC Hseed Hsetup Hpart.
  intros Hl Hl' Hk HD.
  apply (chain_parts f w (fun l => guesses_by E L (m + total part_draws l) seed hashes (whole E (real_part p) setup l) D)) with (before := []); try assumption; [|constructor].
  clear l l' Hl Hl' Hk. intros before x x' after H1 H2 H2' Hk H3.
  assert (Hd : forall y x o, part_ok y -> exists f, det E (part_draws y) (real_part p y o (pk x)) f).
  { intros y z o Hy. destruct (uniform_det E seed _ _ _ Hseed (opened_uniform y o (pk z) Hy)) as [g Hg]. exists (fun xs => closed (g xs)).
    intros r. rewrite part_closed, Hg. reflexivity. }
  rewrite !(guesses_others E L Ht seed Hseed (real_part p) part_draws part_ok Hd setup m Hsetup) by assumption.
  rewrite !gap_prod, <- !fold_scale, <- !fold_plus, <- fold_scale. apply fold_ext. intros others. cbn [fst snd].
  apply Hpart; try assumption. apply (others_ext E seed (real_part p) real_part_ext). exact HD.
Qed.

Definition ballot_draws : nat := options * range_draws dv + range_draws dc + (1 + options * 2).
Definition votes_ok (votes : list N) : Prop := List.length votes = options /\ Forall (fun v => (v <= V)%N) votes /\ (squares votes <= C)%N.

Lemma parts_total votes : List.length votes = options -> total part_draws (parts votes) + (1 + options * 2) = ballot_draws.
Proof.
  intros H. unfold total, parts, ballot_draws. rewrite map_app, list_sum_app, <- H. cbn [map].
  change (list_sum [part_draws (Credit (fold_right N.add 0%N (map (fun v => (v * v)%N) votes)))]) with (range_draws dc + 0).
  rewrite Nat.add_0_r, !Nat.add_assoc. do 4 f_equal. clear H.
  induction votes as [|v l IH]; [reflexivity|]. cbn [map List.length]. change (list_sum (part_draws (Vote v) :: map part_draws (map Vote l))) with (range_draws dv + list_sum (map part_draws (map Vote l))).
  rewrite IH. reflexivity.
Qed.

Lemma with_equivalence_ext (D : PublicKey E -> B * QuadraticVotingBallot E -> hash scalar -> bool) s : (forall K a, reads anything (D K a)) ->
  forall K a, reads anything (with_equivalence D s K a).
Proof.
  intros HD K a o o' H. unfold with_equivalence. apply HD. intros y _. apply answering_ext. intros z. apply H. exact I.
Qed.

Theorem quadratic_secret votes votes' D : votes_ok votes -> votes_ok votes' -> (forall K a, reads anything (D K a)) ->
  (f * order L * (guesses_by E L (m + ballot_draws) seed hashes (one E (real_quadratic p) setup votes) D -
                  guesses_by E L (m + ballot_draws) seed hashes (one E (real_quadratic p) setup votes') D) =
   hybrids (fun x before after =>
     w x * ddh_gap L (list_prod (tapes L (2 + 2 * options)) (list_prod (tapes L (total part_draws before + total part_draws after)) (coins x)))
       (fun T c => A x (others_view (real_part p) seed before after (with_equivalence D (fst c)) (fst (snd c))) T (snd (snd c)))) [] (parts votes) (parts votes'))%Z.
Proof using L Ht Hv Hc HV HC Hseed Hdom Hsetup Hreads Hcov Hpart.
  intros (H1 & H2 & H3) (H1' & H2' & H3') HD.
  rewrite <- (parts_total votes H1) at 1. rewrite <- (parts_total votes' H1') at 1.
  pose proof (quadratic_step seed Hseed dom o0 Hdom setup m Hsetup Hreads Hcov votes H1 H2 H3 D HD) as S1.
  pose proof (quadratic_step seed Hseed dom o0 Hdom setup m Hsetup Hreads Hcov votes' H1' H2' H3' D HD) as S2.
  rewrite <- Z.mul_assoc, Z.mul_sub_distr_l. rewrite S1, S2. rewrite <- fold_plus, <- fold_scale.
  rewrite (fold_ext _ (fun s => hybrids (fun x before after =>
     w x * ddh_gap L (list_prod (tapes L (total part_draws before + total part_draws after)) (coins x))
       (fun T c => A x (others_view (real_part p) seed before after (with_equivalence D s) (fst c)) T (snd c))) [] (parts votes) (parts votes'))%Z).
  - rewrite <- hybrids_sum. apply hybrids_ext. intros x b a. rewrite fold_scale, (gap_prod E L (tapes L (2 + 2 * options))). reflexivity.
  - intros s. apply parts_secret; [exact (parts_ok votes H2 H3)|exact (parts_ok votes' H2' H3')|apply parts_kind; congruence|].
    exact (with_equivalence_ext D s HD).
Qed.

(** *** all voters *)
Context (Hqext : forall votes K r, reads anything (fun o => real_quadratic p votes o K r)).

Lemma ballots_det votes x o : votes_ok votes -> exists g, det E ballot_draws (real_quadratic p votes o (pk x)) g.
Proof using L Ht Hv Hc HV HC Hseed.
  intros (H1 & H2 & H3). rewrite <- (parts_total votes H1). exact (quadratic_det seed Hseed votes H1 H2 H3 x o).
Qed.

Lemma chain_votes (G : list (list N) -> Z) (step : list N -> list N -> list (list N) -> list (list N) -> Z) (c : Z) :
  (forall before v v' after, Forall votes_ok before -> votes_ok v -> votes_ok v' -> Forall votes_ok after ->
    c * (G (before ++ v :: after) - G (before ++ v' :: after)) = step v v' before after)%Z ->
  forall l l' before, Forall votes_ok before -> Forall votes_ok l -> Forall votes_ok l' -> List.length l = List.length l' ->
  (c * (G (before ++ l) - G (before ++ l')) = chain step before l l')%Z.
Proof.
  intros Hstep. induction l as [|v l IH]; intros [|v' l'] before Hb H H' Hl; try discriminate Hl; [cbn; lia|].
  inversion H as [|? ? Hx Hrest]; subst. inversion H' as [|? ? Hx' Hrest']; subst. cbn [chain].
  rewrite <- (Hstep before v v' l Hb Hx Hx' Hrest), <- (IH l' (before ++ [v'])).
  - rewrite <- !app_assoc. cbn [app]. lia.
  - apply Forall_app. auto.
  - exact Hrest.
  - exact Hrest'.
  - injection Hl. auto.
Qed.

Theorem quadratic_election l l' D : Forall votes_ok l -> Forall votes_ok l' -> List.length l = List.length l' -> (forall K a, reads anything (D K a)) ->
  (f * order L * (guesses_by E L (m + ballot_draws * List.length l) seed hashes (whole E (real_quadratic p) setup l) D -
                  guesses_by E L (m + ballot_draws * List.length l') seed hashes (whole E (real_quadratic p) setup l') D) =
   chain (fun votes votes' before after => hybrids (fun x parts_before parts_after =>
     w x * ddh_gap L (list_prod (tapes L (ballot_draws * (List.length before + List.length after)))
                       (list_prod (tapes L (2 + 2 * options)) (list_prod (tapes L (total part_draws parts_before + total part_draws parts_after)) (coins x))))
       (fun T c => A x (others_view (real_part p) seed parts_before parts_after
          (with_equivalence (others_view (real_quadratic p) seed before after D (fst c)) (fst (snd c))) (fst (snd (snd c)))) T (snd (snd (snd c))))) [] (parts votes) (parts votes')) [] l l')%Z.
Proof using L Ht Hv Hc HV HC Hseed Hdom Hsetup Hreads Hcov Hpart Hqext.
  intros Hl Hl' Hn HD.
  apply (chain_votes (fun l => guesses_by E L (m + ballot_draws * List.length l) seed hashes (whole E (real_quadratic p) setup l) D)) with (before := []); try assumption; [|constructor].
  clear l l' Hl Hl' Hn. intros before v v' after H1 H2 H2' H3.
  rewrite !(guesses_others' E L Ht seed Hseed (real_quadratic p) ballot_draws votes_ok (fun v x o Hv => ballots_det v x o Hv) setup m Hsetup) by assumption.
  rewrite <- fold_plus, <- fold_scale.
  rewrite (fold_ext _ (fun others => hybrids (fun x parts_before parts_after =>
     w x * ddh_gap L (list_prod (tapes L (2 + 2 * options)) (list_prod (tapes L (total part_draws parts_before + total part_draws parts_after)) (coins x)))
       (fun T c => A x (others_view (real_part p) seed parts_before parts_after
          (with_equivalence (others_view (real_quadratic p) seed before after D others) (fst c)) (fst (snd c))) T (snd (snd c)))) [] (parts v) (parts v'))%Z).
  - rewrite <- hybrids_sum. apply hybrids_ext. intros x b a. rewrite fold_scale.
    rewrite (gap_prod E L (tapes L (ballot_draws * (List.length before + List.length after)))). reflexivity.
  - intros others. apply quadratic_secret; try assumption. apply (others_ext E seed (real_quadratic p) Hqext). exact HD.
Qed.

End Secret.

(** ** without and with shared keys *)
Section Instances.
Context (seed : list scalar -> Rng E) (Hseed : seeds seed) (dom : list query) (o0 : hash scalar) (Hdom : NoDup dom).
Local Notation hashes := (all_hashes scalars dom o0).
Context (Hqext : forall votes K r, reads anything (fun o => real_quadratic p votes o K r)).
Context (Hcov : covers dom (options + 1) (2 + 2 * options) (equivalence_verifier (E:=E))).

Definition part_scalars (x : part) : nat := 1 + N.to_nat (n_sum (map rs_size (decomposition_of x))).
Definition part_messages (x : part) : list element := range_messages (decomposition_of x) (number x) (digits E (decomposition_of x) (number x)).

Context (Hcov_parts : forall x, covers dom (List.length (decomposition_of x)) (part_scalars x) (fun K c s =>
  range_verifier (E:=E) {| rap_partial := tl c; rap_inner := ring_proof_of (E:=E) s |} K (range_of p x) (first_of (E:=E) c) (context_of x))).

Lemma part_scheme (kind : part) :
  exists assemble acc, sim_ok E L dom o0 (List.length (decomposition_of kind)) (part_scalars kind) 1 (simulate_part p kind) assemble acc /\
  forall x, part_ok x -> same_kind x kind ->
    side_ok E (part_draws x) (List.length (decomposition_of kind)) (part_scalars kind) assemble acc (fun _ => part_messages x) (real_part p x).
Proof using L Ht Hdom Hv Hc HV HC Hcov_parts.
  destruct kind as [v0|v0].
  - destruct (range_scheme_at E L Ht dom o0 Hdom (context_of (Vote v0)) (V + 1) dv ltac:(discriminate) ltac:(discriminate) Hv ltac:(lia) (Hcov_parts (Vote v0)))
      as (assemble & acc & H1 & H2). exists assemble, acc. split; [exact H1|]. intros [v|v] Hx Hk; [|discriminate Hk]. exact (H2 v Hx).
  - destruct (range_scheme_at E L Ht dom o0 Hdom (context_of (Credit v0)) (C + 1) dc ltac:(discriminate) ltac:(discriminate) Hc ltac:(lia) (Hcov_parts (Credit v0)))
      as (assemble & acc & H1 & H2). exists assemble, acc. split; [exact H1|]. intros [v|v] Hx Hk; [discriminate Hk|]. exact (H2 v Hx).
Qed.

(** the weight makes the factors of both kinds of numbers equal *)
Definition part_weight (x : part) : Z := (order L ^ Z.of_nat (List.length (if for_vote x then dc else dv)))%Z.

Lemma weight_factor x h : (order L ^ Z.of_nat (List.length dv + List.length dc + h) * (order L - 1) =
  part_weight x * (order L ^ Z.of_nat (List.length (decomposition_of x) + h) * (order L - 1)))%Z.
Proof.
  unfold part_weight, decomposition_of. pose proof (order_gt_1 L) as Ho. rewrite !Nat2Z.inj_add, !Z.pow_add_r by lia. destruct (for_vote x); ring.
Qed.

Lemma kind_simulate x x' : same_kind x x' -> simulate_part p x' = simulate_part p x /\ part_scalars x' = part_scalars x /\ part_weight x' = part_weight x /\
  decomposition_of x' = decomposition_of x /\ part_draws x' = part_draws x.
Proof. destruct x, x'; intros H; try discriminate H; repeat split; reflexivity. Qed.

Theorem quadratic_plain l l' D : Forall votes_ok l -> Forall votes_ok l' -> List.length l = List.length l' ->
  (order L ^ Z.of_nat (List.length dv + List.length dc + 3) * (order L - 1) *
     (guesses L (ballot_draws * List.length l) seed hashes (cast (real_quadratic p) l) D -
      guesses L (ballot_draws * List.length l') seed hashes (cast (real_quadratic p) l') D) =
   chain (fun votes votes' before after => hybrids (fun x parts_before parts_after =>
     part_weight x * ddh_gap L (list_prod (tapes L (ballot_draws * (List.length before + List.length after)))
                       (list_prod (tapes L (2 + 2 * options)) (list_prod (tapes L (total part_draws parts_before + total part_draws parts_after))
                         (attacker_coins L (List.length (decomposition_of x)) (part_scalars x) hashes))))
       (quadratic_attacker p seed (fun _ => part_messages x) (simulate_part p x) all_parts parts_before parts_after before after
          (fun K v o => run o (D K (snd v))))) [] (parts votes) (parts votes')) [] l l')%Z.
Proof using L Ht Hv Hc HV HC Hseed Hdom Hcov Hcov_parts Hqext.
  intros Hl Hl' Hn. set (D' := fun (K : PublicKey E) (v : unit * list (QuadraticVotingBallot E)) (o : hash scalar) => run o (D K (snd v))).
  set (setup := fun (_ : hash scalar) (_ : PublicKey E) (r : Rng E) => Ret (tt, r)).
  set (A := fun x (D : PublicKey E -> unit * encrypted -> hash scalar -> bool) => attacker_by E (fun _ => part_messages x) (simulate_part p x) (fun K a => D K (tt, a))).
  assert (Hd0 : forall x o, exists f, det E 0 (setup o (pk x)) f) by (intros x o; exists (fun _ => tt); intros r; reflexivity).
  assert (Hr0 : forall x r, reads (fun y => ~ at_equivalence y) (fun o => setup o (pk x) r)) by (intros x r o o' _; reflexivity).
  assert (HG : forall l, guesses L (ballot_draws * List.length l) seed hashes (cast (real_quadratic p) l) D =
    guesses_by E L (0 + ballot_draws * List.length l) seed hashes (whole E (real_quadratic p) setup l) D').
  { intros vs. unfold guesses, guesses_by. apply tally_ext. intros [xs o]. cbn [fst snd Nat.add].
    destruct (Keypair_generate (seed xs)) as [[kp r]|e]; [|reflexivity]. cbn [bind]. unfold whole, setup. cbn [bind].
    destruct (cast (real_quadratic p) vs o (kp_public kp) r) as [[a r1]|e]; reflexivity. }
  rewrite !HG. replace (List.length dv + List.length dc + 3) with (List.length dv + List.length dc + 2 + 1) by lia.
  rewrite Nat2Z.inj_add, Z.pow_add_r by lia. change (Z.of_nat 1) with 1%Z. rewrite Z.pow_1_r.
  replace (order L ^ Z.of_nat (List.length dv + List.length dc + 2) * order L * (order L - 1))%Z
    with (order L ^ Z.of_nat (List.length dv + List.length dc + 2) * (order L - 1) * order L)%Z by ring.
  rewrite (quadratic_election seed Hseed dom o0 Hdom setup 0 Hd0 Hr0 Hcov
    (fun x => attacker_coins L (List.length (decomposition_of x)) (part_scalars x) hashes) A
    (order L ^ Z.of_nat (List.length dv + List.length dc + 2) * (order L - 1))%Z part_weight); try assumption.
  - apply chain_ext. intros v v' b a. apply hybrids_ext. intros x pb pa. f_equal. apply gap_ext. intros T [os [s [oth [[c ps] o]]]].
    unfold A, quadratic_attacker, election_attacker_by, attacker_by. cbn [fst snd].
    destruct (PublicKey_from_element (fst (fst T))) as [K|e]; [|reflexivity]. cbn [bind]. destruct (simulate_part p x K _ ps o) as [y o']. reflexivity.
  - intros x x' D0 Hx Hx' Hk HD0. destruct (part_scheme x) as (assemble & acc & H1 & H2). destruct (kind_simulate x x' Hk) as (K1 & K2 & K3 & K4 & K5).
    pose proof (scheme_secret_by E L Ht seed Hseed dom o0 (part_draws x) _ _ 1 _ _ _ (fun _ => part_messages x) (fun _ => part_messages x') (real_part p x) (real_part p x')
      (fun K a => D0 K (tt, a)) (sim_ok_core _ _ _ _ _ _ _ _ _ _ H1) (H2 x Hx eq_refl)) as Hsec.
    pose proof (H2 x' Hx' (eq_sym Hk)) as Hside'. rewrite K5 in Hside'. specialize (Hsec Hside' (fun K a => HD0 K (tt, a))).
    assert (HG1 : forall y, guesses_by E L (0 + part_draws y) seed hashes (one E (real_part p) setup y) D0 =
      guesses_by E L (part_draws y) seed hashes (real_part p y) (fun K a => D0 K (tt, a))).
    { intros y. unfold guesses_by. apply tally_ext. intros [xs o]. cbn [fst snd Nat.add].
      destruct (Keypair_generate (seed xs)) as [[kp r]|e]; [|reflexivity]. cbn [bind]. unfold one, setup. cbn [bind].
      destruct (real_part p y o (kp_public kp) r) as [[a r1]|e]; reflexivity. }
    rewrite !HG1, K3, K5, K4, K2. unfold A. rewrite K1.
    rewrite (weight_factor x), <- Z.mul_assoc, <- Z.mul_sub_distr_l. f_equal. replace (List.length (decomposition_of x) + 2) with (List.length (decomposition_of x) + 1 + 1) by lia. exact Hsec.
  - intros K a o o' H. unfold D'. apply (run_ext' scalar). intros y. apply H. exact I.
Qed.

(** *** with a shared key *)
Section Shared.
Context (Hbig : (2 ^ 64 <= order L)%Z) (params : Params) (Hparams : params_ok params) (is_ : list nat).
Context (Hnd : NoDup is_) (His : forall i, In i is_ -> i < pa_shares params) (Hlen : List.length is_ + 1 = pa_threshold params).
Context (Hcov_dealing : covers_dealing L dom params is_).
Local Notation t := (pa_threshold params).

Lemma dealing_reads K r : reads (fun y => ~ at_equivalence y) (fun o => dealing E L params is_ o K r).
Proof.
  intros o o' H. unfold dealing, dealt_prover. destruct (generate_keypairs (t - 1) r) as [[kps r1]|e]; [|reflexivity]. cbn [bind].
  assert (Ha : agrees (hashed_by E o') o (share_poly_transcript params)).
  { intros u l (u' & ->). apply (H (_, l)). intros Hx. discriminate Hx. }
  pose proof (same_eq _ _ _ (same_pop_new (hashed_by E o') o (share_poly_transcript params) Ha (map kp_secret (pair_of E (dlog L (pk_element K)) :: kps))
    (map kp_public (pair_of E (dlog L (pk_element K)) :: kps)) (share_poly_transcript params) r1 ltac:(eexists; reflexivity))) as Hp.
  refine (f_equal (fun m => bind (bind m _) _) _). exact Hp.
Qed.

Theorem quadratic_dealt_by l l' D : (forall poly pop shares a, reads anything (D poly pop shares a)) -> Forall votes_ok l -> Forall votes_ok l' -> List.length l = List.length l' ->
  (order L ^ Z.of_nat (List.length dv + List.length dc + 4) * (order L - 1) *
     (dealt_guesses_by E L params is_ (ballot_draws * List.length l) seed hashes (cast (real_quadratic p) l) D -
      dealt_guesses_by E L params is_ (ballot_draws * List.length l') seed hashes (cast (real_quadratic p) l') D) =
   chain (fun votes votes' before after => hybrids (fun x parts_before parts_after =>
     part_weight x * ddh_gap L (list_prod (tapes L (ballot_draws * (List.length before + List.length after)))
                       (list_prod (tapes L (2 + 2 * options)) (list_prod (tapes L (total part_draws parts_before + total part_draws parts_after))
                         (attacker_coins L (List.length (decomposition_of x)) (2 * t + part_scalars x) hashes))))
       (quadratic_attacker p seed (fun _ => part_messages x) (simulate_dealing L params is_ (simulate_part p x)) all_dealt parts_before parts_after before after
          (coalition_view_by E L is_ D))) [] (parts votes) (parts votes')) [] l l')%Z.
Proof using L Ht Hv Hc HV HC Hseed Hdom Hcov Hcov_parts Hqext Hbig Hparams Hnd His Hlen Hcov_dealing.
  intros HD Hl Hl' Hn.
  set (D' := coalition_view_by E L is_ D).
  set (A := fun x (D : PublicKey E -> list scalar * ProofOfPossession E * encrypted -> hash scalar -> bool) =>
    attacker_by E (fun _ => part_messages x) (simulate_dealing L params is_ (simulate_part p x)) D).
  assert (Hd0 : forall x o, exists f, det E (2 * t - 1) (dealing E L params is_ o (pk x)) f).
  { intros x o. exact (dealing_det E L Ht seed Hseed Hbig params Hparams is_ Hnd His Hlen x o). }
  assert (HG : forall l, dealt_guesses_by E L params is_ (ballot_draws * List.length l) seed hashes (cast (real_quadratic p) l) D =
    guesses_by E L (2 * t - 1 + ballot_draws * List.length l) seed hashes (whole E (real_quadratic p) (dealing E L params is_) l) D').
  { intros vs. rewrite (dealt_guesses_by_eq E L Ht Hbig params Hparams is_ Hnd His Hlen). unfold guesses_by.
    replace (t - 1 + (t + ballot_draws * List.length vs)) with (2 * t - 1 + ballot_draws * List.length vs) by (destruct Hparams; lia).
    apply tally_ext. intros [xs o]. cbn [fst snd].
    destruct (Keypair_generate (seed xs)) as [[kp r]|e]; [|reflexivity]. cbn [bind]. unfold whole. rewrite dealt_split. reflexivity. }
  rewrite !HG. replace (List.length dv + List.length dc + 4) with (List.length dv + List.length dc + 3 + 1) by lia.
  rewrite Nat2Z.inj_add, Z.pow_add_r by lia. change (Z.of_nat 1) with 1%Z. rewrite Z.pow_1_r.
  replace (order L ^ Z.of_nat (List.length dv + List.length dc + 3) * order L * (order L - 1))%Z
    with (order L ^ Z.of_nat (List.length dv + List.length dc + 3) * (order L - 1) * order L)%Z by ring.
  rewrite (quadratic_election seed Hseed dom o0 Hdom (dealing E L params is_) (2 * t - 1) Hd0 (fun x r => dealing_reads _ r) Hcov
    (fun x => attacker_coins L (List.length (decomposition_of x)) (2 * t + part_scalars x) hashes) A
    (order L ^ Z.of_nat (List.length dv + List.length dc + 3) * (order L - 1))%Z part_weight); try assumption.
  - apply chain_ext. intros v v' b a. apply hybrids_ext. intros x pb pa. f_equal. apply gap_ext. intros T [os [s [oth [[c ps] o]]]].
    unfold A, quadratic_attacker, election_attacker_by, attacker_by. cbn [fst snd].
    destruct (PublicKey_from_element (fst (fst T))) as [K|e]; [|reflexivity]. cbn [bind]. destruct (simulate_dealing _ _ _ _ K _ ps o) as [[[sh pp] y] o']. reflexivity.
  - intros x x' D0 Hx Hx' Hk HD0. destruct (part_scheme x) as (assemble & acc & H1 & H2). destruct (kind_simulate x x' Hk) as (K1 & K2 & K3 & K4 & K5).
    pose proof (H2 x' Hx' (eq_sym Hk)) as Hside'. rewrite K5 in Hside'.
    pose proof (scheme_secret_by E L Ht seed Hseed dom o0 _ _ (2 * t + part_scalars x) 2 _ _ _ (fun _ => part_messages x) (fun _ => part_messages x') _ _ D0
      (dealing_sim E L Ht Hbig params Hparams is_ Hnd His Hlen dom o0 Hdom Hcov_dealing _ _ 1 _ assemble acc H1)
      (dealt_side E L Ht Hbig params Hparams is_ Hnd His Hlen _ _ _ assemble acc (real_part p x) (fun _ => part_messages x) (H2 x Hx eq_refl))
      (dealt_side E L Ht Hbig params Hparams is_ Hnd His Hlen _ _ _ assemble acc (real_part p x') (fun _ => part_messages x') Hside') HD0) as Hsec.
    assert (HG1 : forall y, guesses_by E L (2 * t - 1 + part_draws y) seed hashes (one E (real_part p) (dealing E L params is_) y) D0 =
      guesses_by E L (t - 1 + (t + part_draws y)) seed hashes (dealt_prover E L params is_ (real_part p y)) D0).
    { intros y. unfold guesses_by. replace (t - 1 + (t + part_draws y)) with (2 * t - 1 + part_draws y) by (destruct Hparams; lia).
      apply tally_ext. intros [xs o]. cbn [fst snd].
      destruct (Keypair_generate (seed xs)) as [[kp r]|e]; [|reflexivity]. cbn [bind]. unfold one. rewrite dealt_split. reflexivity. }
    rewrite !HG1, K3, K5, K4, K2. unfold A. rewrite K1.
    rewrite (weight_factor x), <- Z.mul_assoc, <- Z.mul_sub_distr_l. f_equal. replace (List.length (decomposition_of x) + 3) with (List.length (decomposition_of x) + 2 + 1) by lia. exact Hsec.
  - intros K [[sh pp] a] o o' H. apply HD, H.
Qed.

Theorem quadratic_dealt l l' D : Forall votes_ok l -> Forall votes_ok l' -> List.length l = List.length l' ->
  (order L ^ Z.of_nat (List.length dv + List.length dc + 4) * (order L - 1) *
     (dealt_guesses L params is_ (ballot_draws * List.length l) seed hashes (cast (real_quadratic p) l) D -
      dealt_guesses L params is_ (ballot_draws * List.length l') seed hashes (cast (real_quadratic p) l') D) =
   chain (fun votes votes' before after => hybrids (fun x parts_before parts_after =>
     part_weight x * ddh_gap L (list_prod (tapes L (ballot_draws * (List.length before + List.length after)))
                       (list_prod (tapes L (2 + 2 * options)) (list_prod (tapes L (total part_draws parts_before + total part_draws parts_after))
                         (attacker_coins L (List.length (decomposition_of x)) (2 * t + part_scalars x) hashes))))
       (quadratic_attacker p seed (fun _ => part_messages x) (simulate_dealing L params is_ (simulate_part p x)) all_dealt parts_before parts_after before after
          (fun K v o => run o (coalition_view L is_ D K v)))) [] (parts votes) (parts votes')) [] l l')%Z.
Proof using L Ht Hv Hc HV HC Hseed Hdom Hcov Hcov_parts Hqext Hbig Hparams Hnd His Hlen Hcov_dealing.
  intros Hl Hl' Hn. etransitivity.
  - refine (quadratic_dealt_by l l' (fun poly pop shares a o => run o (D poly pop shares a)) _ Hl Hl' Hn).
    intros poly pop shares a o o' H. apply (run_ext' scalar). intros y. apply H. exact I.
  - reflexivity.
Qed.

End Shared.

End Instances.

End Quadratic.
