(** * Secrecy of ballots against a coalition of [t - 1] participants (C70) *)
From Coq Require Import List String NArith ZArith Arith Bool Lia Field.
From Verif.Model Require Import Base Group Transcript Keys Encryption LogEquality Possession Ring Range Choice Sharing.
From Verif.Spec Require Import Encryption Possession Range Choice Sharing Domains Rom Forking Verifiers Uniform Secrecy Coalition.
From Verif.Proofs Require Import Algebra Lists Possession Poly Sharing Rom Forking Verifiers Uniform UniformBallots Secrecy SecrecyBallots.
Import ListNotations.
Open Scope string_scope.
Open Scope list_scope.
Open Scope nat_scope.

(** ** interpolation *)
Section Interpolation.
Context (E : Env) (L : GroupLaws E).
Local Notation scalar := (Scalar E).
Local Notation element := (Element E).
Add Field s_field_coal : (s_field L).

Lemma evaluate_dlog (Q : list element) x : evaluate Q x = (generator * peval (map (dlog L) Q) x)%E.
Proof using L.
  induction Q as [|A Q IH]; [cbn; el_ring L|]. unfold evaluate in *. cbn [fold_right map peval]. rewrite IH. el_ring L.
Qed.

Lemma add_multiple_eval D : forall (Q : list element) N x, evaluate (add_multiple Q D N) x = (evaluate Q x + D * peval N x)%E.
Proof using L.
  induction Q as [|A Q IH]; intros N x.
  - cbn [add_multiple]. induction N as [|a N IH]; [cbn; el_ring L|]. unfold evaluate in *. cbn [map fold_right peval] in *. rewrite IH. el_ring L.
  - destruct N as [|a N]; [cbn [add_multiple peval]; unfold evaluate; el_ring L|].
    cbn [add_multiple]. unfold evaluate in *. cbn [fold_right peval]. rewrite IH. el_ring L.
Qed.

Lemma add_multiple_length (D : element) : forall Q N, List.length (add_multiple Q D N) = Nat.max (List.length Q) (List.length N).
Proof.
  induction Q as [|A Q IH]; intros N; cbn [add_multiple]; [apply map_length|]. destruct N as [|a N]; [reflexivity|]. cbn [List.length Nat.max].
  rewrite IH. reflexivity.
Qed.

Lemma times_linear_eval x : forall N (carry z : scalar), peval (times_linear x carry N) z = (carry + (z - x) * peval N z)%S.
Proof using L.
  induction N as [|a N IH]; intros carry z; cbn [times_linear peval]; [ring|]. rewrite IH. ring.
Qed.

Lemma times_linear_length x : forall N (carry : scalar), List.length (times_linear x carry N) = S (List.length N).
Proof. induction N as [|a N IH]; intros carry; cbn [times_linear List.length]; [reflexivity|]. rewrite IH. reflexivity. Qed.

Lemma interpolate_ok (points : list (scalar * element)) : NoDup (map fst points) ->
  List.length (interpolate L points) = List.length points /\
  forall x Y, In (x, Y) points -> evaluate (interpolate L points) x = Y.
Proof using.
  unfold interpolate. set (step := fun QN (p : scalar * element) => let '(Q, N) := QN in let '(x, Y) := p in _).
  intros Hnd.
  enough (H : let '(Q, N) := fold_left step points ([], [1%S]) in
    List.length Q = List.length points /\ List.length N = S (List.length points) /\
    (forall x Y, In (x, Y) points -> evaluate Q x = Y) /\ (forall z, peval N z = 0%S <-> In z (map fst points))).
  { destruct (fold_left step points ([], [1%S])) as [Q N]. cbn [fst]. tauto. }
  induction points as [|[x Y] points IH] using rev_ind.
  - cbn [fold_left List.length map In]. repeat split; try tauto. intros H. cbn [peval] in H.
    apply (F_1_neq_0 (s_field L)). transitivity (1 + z * 0)%S; [ring|exact H].
  - rewrite fold_left_app. cbn [fold_left]. rewrite map_app in Hnd. cbn [map fst] in Hnd. apply NoDup_remove in Hnd as [Hnd Hx]. rewrite app_nil_r in Hnd, Hx.
    specialize (IH Hnd). destruct (fold_left step points ([], [1%S])) as [Q N]. destruct IH as (H1 & H2 & H3 & H4). unfold step.
    rewrite add_multiple_length, times_linear_length, app_length. cbn [List.length].
    split; [lia|]. split; [lia|]. split.
    + intros z Z Hin. rewrite add_multiple_eval. apply in_app_iff in Hin as [Hin|[Heq|[]]].
      * rewrite (H3 _ _ Hin). assert (Hz : peval N z = 0%S) by (apply H4; apply (in_map fst) in Hin; exact Hin). rewrite Hz. el_ring L.
      * injection Heq as -> ->. assert (Hn : peval N z <> 0%S) by (intros H; apply H4 in H; contradiction).
        apply (dlog_inj L). dlog_simpl L. field. exact Hn.
    + intros z. rewrite times_linear_eval, map_app, in_app_iff, <- H4. cbn [map fst In]. split.
      * intros H. destruct (s_mul_integral L (z - x)%S (peval N z)) as [Hz|Hz]; [|right; left|left; exact Hz].
        -- transitivity (0 + (z - x) * peval N z)%S; [ring|exact H].
        -- transitivity ((z - x) + x)%S; [rewrite Hz|]; ring.
      * intros [H|[<-|[]]]; [rewrite H|]; ring.
Qed.

End Interpolation.

Section Coalition.
Context (E : Env) (L : GroupLaws E) (Ht : ser_total E) (Hbig : (2 ^ 64 <= order L)%Z).
Local Notation scalar := (Scalar E).
Local Notation element := (Element E).
Local Notation scalars := (all_scalars L).
Local Notation q := (Z.to_nat (order L)).
Local Notation reads := (reads scalar).
Local Notation pk x := (kp_public (pair_of E x)).
Local Notation ser := (ser E).
Add Field s_field_coal2 : (s_field L).

Context (params : Params) (Hparams : params_ok params).
Context (is_ : list nat) (Hnd : NoDup is_) (His : forall i, In i is_ -> i < pa_shares params) (Hlen : List.length is_ + 1 = pa_threshold params).
Local Notation t := (pa_threshold params).
Local Notation T := (share_poly_transcript params).

Definition shares_of (coeffs : list scalar) : list scalar := map (fun i => peval coeffs (node i)) is_.

(** ** shares and polynomials *)
Definition known_nodes : list scalar := 0%S :: map node is_.

Lemma known_nodup : NoDup known_nodes.
Proof using L Hbig Hparams Hnd His Hlen.
  destruct Hparams as [_ Hs]. unfold known_nodes. constructor.
  - intros Hin. apply in_map_iff in Hin as (i & Hi & Hin). apply His in Hin. apply (node_neq_0 E L Hbig i) in Hi; [exact Hi|]. unfold usize. lia.
  - apply NoDup_map_in; [|exact Hnd]. intros i j Hi Hj H. apply (node_inj E L Hbig); try exact H; unfold usize; [apply His in Hi|apply His in Hj]; lia.
Qed.

Lemma known_points (x : scalar) shares : List.length shares = t - 1 ->
  map fst ((0%S, pk_element (pk x)) :: map (fun p : nat * scalar => (node (fst p), (@generator E * snd p)%E)) (combine is_ shares)) = known_nodes.
Proof using Hlen.
  intros Hs. unfold known_nodes. cbn [map fst]. f_equal. rewrite map_map. cbn [fst]. rewrite <- (map_map fst (@node E)).
  f_equal. assert (H : List.length is_ = List.length shares) by lia. clear Hs. revert shares H. clear. induction is_ as [|i l IH]; intros [|s shares] H; try discriminate; [reflexivity|].
  cbn. f_equal. apply (IH shares); cbn in H; lia.
Qed.

(** the polynomial the coalition computes goes through the key and the shares *)
Lemma public_poly_exists (x : scalar) shares : List.length shares = t - 1 ->
  exists coeffs, List.length coeffs = t - 1 /\ public_polynomial L is_ (pk x) shares = in_exponent (x :: coeffs) /\ shares_of (x :: coeffs) = shares.
Proof using Hbig Hparams Hnd His Hlen.
  intros Hs. set (Q0 := public_polynomial L is_ (pk x) shares).
  destruct (interpolate_ok E L _ ltac:(rewrite (known_points x shares Hs); apply known_nodup)) as [HQ1 HQ2].
  change (interpolate L _) with Q0 in HQ1.
  assert (Hev : forall z Y, In (z, Y) ((0%S, pk_element (pk x)) :: map (fun p : nat * scalar => (node (fst p), (@generator E * snd p)%E)) (combine is_ shares)) ->
    peval (map (dlog L) Q0) z = dlog L Y).
  { intros z Y Hin. apply HQ2 in Hin. change (interpolate L _) with Q0 in Hin. rewrite (evaluate_dlog E L) in Hin. rewrite <- Hin, (dlog_gen L). reflexivity. }
  cbn [List.length] in HQ1. rewrite map_length, combine_length in HQ1.
  clearbody Q0. destruct Q0 as [|A Q]; [cbn in HQ1; lia|]. cbn [List.length] in HQ1.
  exists (map (dlog L) Q). rewrite map_length. split; [lia|].
  assert (HA : dlog L A = x).
  { specialize (Hev 0%S _ (or_introl eq_refl)). cbn [map peval pair_of kp_public pk_element] in Hev. rewrite (dlog_gen L) in Hev. rewrite <- Hev. ring. }
  rewrite <- HA. change (dlog L A :: map (dlog L) Q) with (map (dlog L) (A :: Q)). split.
  - symmetry. apply (in_exponent_dlog E L).
  - unfold shares_of. assert (Hl : List.length is_ = List.length shares) by lia.
    assert (Hin : forall p, In p (combine is_ shares) -> peval (map (dlog L) (A :: Q)) (node (fst p)) = snd p).
    { intros p Hp. rewrite <- (dlog_gen L (snd p)). apply Hev. right. apply in_map_iff. exists p. auto. }
    clear - Hin Hl. revert shares Hin Hl. induction is_ as [|i l IH]; intros [|s shares] Hin Hl; try discriminate; [reflexivity|].
    cbn [map]. f_equal; [exact (Hin (i, s) (or_introl eq_refl))|]. apply IH; [|cbn in Hl; lia]. intros p Hp. apply Hin. right. exact Hp.
Qed.

Lemma shares_determine (x : scalar) coeffs coeffs' : List.length coeffs = t - 1 -> List.length coeffs' = t - 1 ->
  shares_of (x :: coeffs) = shares_of (x :: coeffs') -> coeffs = coeffs'.
Proof using L Hbig Hparams Hnd His Hlen.
  intros H H' Heq. enough (x :: coeffs = x :: coeffs') by congruence.
  apply (peval_unique L known_nodes); [apply known_nodup|cbn; lia|unfold known_nodes; cbn; rewrite map_length; lia|].
  intros z [<-|Hz]; [cbn [peval]; ring|]. apply in_map_iff in Hz as (i & <- & Hi). unfold shares_of in Heq.
  revert Hi Heq. clear. induction is_ as [|j l IH]; intros Hi Heq; [destruct Hi|]. cbn [map] in Heq. injection Heq as H1 H2.
  destruct Hi as [<-|Hi]; [exact H1|exact (IH Hi H2)].
Qed.

Lemma public_poly_shares (x : scalar) coeffs : List.length coeffs = t - 1 ->
  public_polynomial L is_ (pk x) (shares_of (x :: coeffs)) = in_exponent (x :: coeffs).
Proof using Hbig Hparams Hnd His Hlen.
  intros H. destruct (public_poly_exists x (shares_of (x :: coeffs))) as (c' & H1 & -> & H2); [unfold shares_of; rewrite map_length; lia|].
  apply shares_determine in H2; [congruence|exact H1|exact H].
Qed.

(** ** the dealer's proof *)
Definition key_from (e : element) : PublicKey E := {| pk_bytes := ser e; pk_element := e |}.

Definition recommitments (poly : list element) (p : ProofOfPossession E) : list element :=
  map (fun kp : element * scalar => (generator * snd kp - fst kp * pop_challenge p)%E) (combine poly (pop_responses p)).

Definition pop_point (poly : list element) (p : ProofOfPossession E) : query :=
  (pop_query T (map ser poly) (map ser (recommitments poly p)), "c").

Lemma pop_point_foreign poly p : foreign (pop_point poly p).
Proof. reflexivity. Qed.

Lemma mapM_key_from (poly : list element) : mapM PublicKey_from_element poly = Ret (map key_from poly).
Proof using L Ht.
  induction poly as [|e poly IH]; [reflexivity|]. cbn [mapM map]. unfold PublicKey_from_element at 1. rewrite (ser_ok E L Ht). cbn [bind]. rewrite IH. reflexivity.
Qed.

Lemma dealing_asked poly (p : ProofOfPossession E) o : List.length (pop_responses p) = List.length poly ->
  asked o (dealing_verifier params poly p) = [pop_point poly p].
Proof using L Ht.
  intros Hl. unfold dealing_verifier. rewrite mapM_key_from. cbn [doing]. unfold check_lengths. rewrite map_length, Hl, Nat.eqb_refl.
  rewrite (pop_append_keys_eq E), (pop_recommit_eq E L), (combine_map_l key_from), map_map. cbn [fst snd key_from pk_element].
  change (map (fun x : element * scalar => (generator * snd x - fst x * pop_challenge p)%E) (combine poly (pop_responses p))) with (recommitments poly p).
  rewrite (mapM_ser E L Ht). cbn [bind doing asking asked]. unfold pop_point, pop_query, start_proof, append_message. rewrite !map_map, <- !app_assoc. reflexivity.
Qed.

Lemma dealing_accept poly (p : ProofOfPossession E) o :
  (exists t', ProofOfPossession_verify (E:=hashed_by E o) p (map key_from poly) T = Ret (Ok tt, t')) <->
  List.length (pop_responses p) = List.length poly /\ s_eqb (answer o (pop_point poly p)) (pop_challenge p) = true.
Proof using L Ht.
  pose proof (pop_verify_eq (hashed_by E o) L p (map key_from poly) T) as Heq. rewrite Heq. clear Heq. rewrite map_length.
  destruct (Nat.eqb_spec (List.length (pop_responses p)) (List.length poly)) as [Hl|Hl].
  - match goal with |- context[if ?b then _ else _] => replace b with true by (symmetry; apply Nat.eqb_eq; exact Hl) end.
    rewrite map_map. cbn [key_from pk_element]. rewrite map_id.
    match goal with |- context[mapM serialize_element ?l] => change l with (recommitments poly p) end.
    pose proof (mapM_ser E L Ht (recommitments poly p)) as Hm. change (mapM (@serialize_element (hashed_by E o)) (recommitments poly p)) with (mapM (@serialize_element E) (recommitments poly p)).
    rewrite Hm. cbn [bind]. rewrite map_map. cbn [key_from pk_bytes].
    change (oracle (e:=hashed_by E o) ?x ?l) with (answer o (x, l)). fold (pop_point poly p).
    change (answer o (pop_query T (map (fun x : element => ser x) poly) (map ser (recommitments poly p)), "c")) with (answer o (pop_point poly p)).
    destruct (s_eqb _ _); split; [eauto|eauto|intros (t' & H); discriminate|intros [_ H]; discriminate].
  - match goal with |- context[if ?b then _ else _] => replace b with false by (symmetry; apply Nat.eqb_neq; exact Hl) end.
    split; [intros (t' & H); discriminate|tauto].
Qed.

(** ** the simulation *)
Lemma skip_more {X : Type} a : forall b (l : list X), skipn a (skipn b l) = skipn (b + a) l.
Proof. induction b as [|b IH]; intros l; [reflexivity|]. destruct l as [|x l]; [destruct a; reflexivity|]. cbn [skipn Nat.add]. apply IH. Qed.

Lemma split_scalars (s : list scalar) : s = firstn (t - 1) s ++ firstn (t + 1) (skipn (t - 1) s) ++ skipn (2 * t) s.
Proof using Hlen.
  rewrite <- (firstn_skipn (t - 1) s) at 1. f_equal. rewrite <- (firstn_skipn (t + 1) (skipn (t - 1) s)) at 1. f_equal.
  rewrite skip_more. f_equal. lia.
Qed.

Lemma pop_of_inj (s s' : list scalar) n : List.length s = S n -> List.length s' = S n -> pop_of s = pop_of s' -> s = s'.
Proof. destruct s, s'; cbn; intros H H' Heq; try discriminate. injection Heq as -> ->. reflexivity. Qed.

Lemma pop_of_cons (p : ProofOfPossession E) : pop_of (pop_challenge p :: pop_responses p) = p.
Proof. destruct p. reflexivity. Qed.

(** [dealt_guesses] and [coalition_view] of Spec/Coalition.v for any function of the hash in place of the distinguisher *)
Definition dealt_guesses_by {A : Type} (n : nat) (seed : list scalar -> Rng E) (hashes : list (hash scalar))
    (client : hash scalar -> PublicKey E -> Rng E -> outcome (A * Rng E))
    (D : list element -> ProofOfPossession E -> list scalar -> A -> hash scalar -> bool) : Z :=
  tally (list_prod (tapes L (2 * t + n)) hashes) (fun p =>
    let o := snd p in
    returns ('(d, r) <- Dealer_new (E:=hashed_by E o) params (seed (fst p)) ;;
             let '(poly, pop) := Dealer_public_info d in
             set <- PublicKeySet_new (E:=hashed_by E o) params poly pop ;;
             shares <- mapM (Dealer_secret_share_for_participant d) is_ ;;
             match set with
             | Ok ks => '(a, _) <- client o (ks_shared_key ks) r ;; Ret (D poly pop shares a o)
             | Err _ => Ret false
             end)).
Definition coalition_view_by {A : Type} (D : list element -> ProofOfPossession E -> list scalar -> A -> hash scalar -> bool)
    (K : PublicKey E) (v : list scalar * ProofOfPossession E * A) (o : hash scalar) : bool :=
  let '(shares, pop, a) := v in D (public_polynomial L is_ K shares) pop shares a o.

Section Scheme.
Context (seed : list scalar -> Rng E) (Hseed : seeds seed).
Context (dom : list query) (o0 : hash scalar) (Hdom : NoDup dom).
Local Notation hashes := (all_hashes scalars dom o0).
Local Notation hsum := (hsum scalar scalars dom o0).
Context (Hcov : covers_dealing L dom params is_).
Context {A : Type} (nd n k h : nat).
Context (simulate : PublicKey E -> list (Ciphertext E) -> list scalar -> hash scalar -> A * hash scalar).
Context (assemble : list (Ciphertext E) -> list scalar -> A) (acc : PublicKey E -> list (Ciphertext E) -> list scalar -> hash scalar -> bool).
Context (Hsim : sim_ok E L dom o0 n k h simulate assemble acc).

Definition shares_part (s : list scalar) : list scalar := firstn (t - 1) s.
Definition pop_part (s : list scalar) : ProofOfPossession E := pop_of (firstn (t + 1) (skipn (t - 1) s)).
Definition rest_part (s : list scalar) : list scalar := skipn (2 * t) s.

Definition assemble_dealt (c : list (Ciphertext E)) (s : list scalar) : list scalar * ProofOfPossession E * A :=
  (shares_part s, pop_part s, assemble c (rest_part s)).
Definition acc_dealt (K : PublicKey E) (c : list (Ciphertext E)) (s : list scalar) (o : hash scalar) : bool :=
  s_eqb (answer o (pop_point (public_polynomial L is_ K (shares_part s)) (pop_part s))) (pop_challenge (pop_part s)) && acc K c (rest_part s) o.

Lemma parts_length (s : list scalar) : List.length s = 2 * t + k ->
  List.length (shares_part s) = t - 1 /\ List.length (pop_responses (pop_part s)) = t /\ List.length (rest_part s) = k.
Proof using Hlen.
  intros H. unfold shares_part, pop_part, rest_part. rewrite firstn_length, skipn_length. split; [lia|]. split; [|lia].
  unfold pop_of. cbn [pop_responses]. assert (Hl : List.length (firstn (t + 1) (skipn (t - 1) s)) = t + 1) by (rewrite firstn_length, skipn_length; lia).
  destruct (firstn _ _); cbn in *; lia.
Qed.

Lemma public_poly_length (x : scalar) shares : List.length shares = t - 1 -> List.length (public_polynomial L is_ (pk x) shares) = t.
Proof using Hbig Hparams Hnd His Hlen.
  intros H. destruct (public_poly_exists x shares H) as (co & H1 & -> & _). rewrite in_exponent_length. cbn. lia.
Qed.

Lemma dealing_answering (x : scalar) s o : List.length s = 2 * t + k ->
  answering (dealing_verifier params (public_polynomial L is_ (pk x) (shares_part s)) (pop_part s)) (pop_challenge (pop_part s)) o =
  set_hash o (pop_point (public_polynomial L is_ (pk x) (shares_part s)) (pop_part s)) (pop_challenge (pop_part s)).
Proof using Ht Hbig Hparams Hnd His Hlen.
  intros Hs. destruct (parts_length s Hs) as (H1 & H2 & _). unfold answering. rewrite dealing_asked; [reflexivity|].
  rewrite public_poly_length by exact H1. exact H2.
Qed.

Lemma dealing_sim : sim_core E L dom o0 n (2 * t + k) (S h) (simulate_dealing L params is_ simulate) assemble_dealt acc_dealt.
Proof using Ht Hbig Hparams Hnd His Hlen Hsim Hdom Hcov.
  destruct Hsim as (S1 & S2 & S3 & S4 & S5).
  assert (Hsnd : forall K c s o, snd (simulate_dealing L params is_ simulate K c s o) =
    snd (simulate K c (rest_part s) (answering (dealing_verifier params (public_polynomial L is_ K (shares_part s)) (pop_part s)) (pop_challenge (pop_part s)) o))).
  { intros K c s o. unfold simulate_dealing. fold (shares_part s) (pop_part s) (rest_part s). destruct (simulate _ _ _ _). reflexivity. }
  split; [|split].
  - intros K c s o. unfold simulate_dealing. fold (shares_part s) (pop_part s) (rest_part s).
    pose proof (S1 K c (rest_part s) (answering (dealing_verifier params (public_polynomial L is_ K (shares_part s)) (pop_part s)) (pop_challenge (pop_part s)) o)) as H.
    destruct (simulate _ _ _ _) as [a o']. cbn [fst] in *. subst a. reflexivity.
  - intros c c' s s' Hc Hc' Hs Hs' Heq. unfold assemble_dealt in Heq.
    assert (E1 : shares_part s = shares_part s') by congruence. assert (E2 : pop_part s = pop_part s') by congruence.
    assert (E3 : assemble c (rest_part s) = assemble c' (rest_part s')) by congruence.
    apply S2 in E3; [|assumption|assumption|apply parts_length; exact Hs|apply parts_length; exact Hs']. destruct E3 as [-> E3]. split; [reflexivity|].
    apply (pop_of_inj _ _ t) in E2; [|rewrite firstn_length, skipn_length; lia..].
    rewrite (split_scalars s), (split_scalars s'), E2. unfold shares_part, rest_part in *. rewrite E1, E3. reflexivity.
  - intros x c s f Hc Hs Hf. destruct (parts_length s Hs) as (P1 & P2 & P3).
    set (y := pop_point (public_polynomial L is_ (pk x) (shares_part s)) (pop_part s)). set (ch := pop_challenge (pop_part s)).
    set (g := fun o => f (snd (simulate (pk x) c (rest_part s) o))).
    assert (Hg : reads anything g).
    { intros o o' H. unfold g. apply Hf. intros z _. apply S5. intros z'. apply H. exact I. }
    rewrite (hsum_ext scalar scalars dom o0 _ (fun o => g (set_hash o y ch))).
    2:{ intros o _. unfold g, y, ch. rewrite Hsnd, dealing_answering by exact Hs. reflexivity. }
    rewrite (program_one E L dom o0 Hdom (fun _ => y) ch g); [| |intros o o' _; reflexivity|reflexivity|exact Hg].
    2:{ intros o. apply (Hcov (pk x) (shares_part s) (pop_part s) o P1 P2). rewrite dealing_asked; [left; reflexivity|].
        rewrite public_poly_length by exact P1. exact P2. }
    rewrite (hsum_ext scalar scalars dom o0 _ (fun o => (fun o' => b2n (s_eqb (answer o' y) ch) * f o') (snd (simulate (pk x) c (rest_part s) o)))).
    2:{ intros o _. cbn beta. unfold g. rewrite (S4 x c (rest_part s) o y Hc P3); [reflexivity|]. apply pop_point_foreign. }
    rewrite (S3 x c (rest_part s) (fun o' => b2n (s_eqb (answer o' y) ch) * f o') Hc P3).
    2:{ intros o o' H. rewrite (Hf o o' H), (H _ I). reflexivity. }
    cbn [Nat.pow]. rewrite Nat.mul_assoc. f_equal. apply (hsum_ext scalar scalars dom o0). intros o _. unfold acc_dealt. fold y ch.
    destruct (s_eqb (answer o y) ch), (acc (pk x) c (rest_part s) o); cbn [b2n andb]; lia.
Qed.

(** ** the real run after the first scalar *)
Context (client : hash scalar -> PublicKey E -> Rng E -> outcome (A * Rng E)) (Ms : PublicKey E -> list element).

Definition dealt_prover (o : hash scalar) (K : PublicKey E) (r : Rng E) : outcome ((list scalar * ProofOfPossession E * A) * Rng E) :=
  '(kps, r) <- generate_keypairs (t - 1) r ;;
  '(pop, _, r) <- ProofOfPossession_new (E:=hashed_by E o) (pair_of E (dlog L (pk_element K)) :: kps) T r ;;
  '(a, r) <- client o K r ;;
  Ret ((shares_of (dlog L (pk_element K) :: map kp_secret kps), pop, a), r).

Definition good_pair (kp : Keypair E) : Prop := key_of (E:=E) (kp_secret kp) (kp_public kp) /\ key_bytes_ok (E:=E) (kp_public kp).

Lemma key_from_pairs (kps : list (Keypair E)) : Forall good_pair kps -> map kp_public kps = map key_from (in_exponent (map kp_secret kps)).
Proof using L Ht.
  intros H. rewrite <- (map_pair_of E L Ht kps H) at 1. unfold in_exponent. rewrite !map_map. reflexivity.
Qed.

Lemma pop_new_uniform o (kps : list (Keypair E)) : Forall good_pair kps ->
  uniform_over (E:=E) (List.length kps)
    (fun r => '(p, t', r) <- ProofOfPossession_new (E:=hashed_by E o) kps T r ;; Ret ((p, t'), r))
    (fun pt => ProofOfPossession_verify (E:=hashed_by E o) (fst pt) (map kp_public kps) T = Ret (Ok tt, snd pt)).
Proof using L Ht.
  intros H. rewrite <- (map_length kp_public kps). apply (pop_uniform (hashed_by E o) L Ht).
  induction H as [|kp kps [Hk _] _ IH]; cbn [map]; constructor; assumption.
Qed.

Lemma dealt_side : side_ok E nd n k assemble acc Ms client ->
  side_ok E ((t - 1) + (t + nd)) n (2 * t + k) assemble_dealt acc_dealt Ms dealt_prover.
Proof using Ht Hbig Hparams Hnd His Hlen.
  intros (HM & P & HU & HP). split; [exact HM|].
  set (P' := fun (x : scalar) (o : hash scalar) (v : list scalar * ProofOfPossession E * A) =>
    List.length (fst (fst v)) = t - 1 /\
    (exists t', ProofOfPossession_verify (E:=hashed_by E o) (snd (fst v)) (map key_from (public_polynomial L is_ (pk x) (fst (fst v)))) T = Ret (Ok tt, t')) /\
    P x o (snd v)).
  exists P'. split.
  - intros x o.
    assert (HK : dlog L (pk_element (pk x)) = x) by apply (dlog_gen L).
    assert (Hkeys : forall kps, List.length kps = t - 1 -> Forall good_pair kps ->
      map kp_public (pair_of E x :: kps) = map key_from (public_polynomial L is_ (pk x) (shares_of (x :: map kp_secret kps)))).
    { intros kps Hl Hf. rewrite public_poly_shares by (rewrite map_length; exact Hl).
      rewrite (key_from_pairs (pair_of E x :: kps)) by (constructor; [apply (pair_of_good E L Ht)|exact Hf]). reflexivity. }
    assert (HB := uniform_bind (E:=E) (t - 1) (t + nd) (generate_keypairs (t - 1)) _
      (fun kps r => '(pt, r) <- ('(p, t', r) <- ProofOfPossession_new (E:=hashed_by E o) (pair_of E x :: kps) T r ;; Ret ((p, t'), r)) ;;
                    '(a, r) <- client o (pk x) r ;; Ret ((pt, a), r))
      (fun kps pta => ProofOfPossession_verify (E:=hashed_by E o) (fst (fst pta)) (map kp_public (pair_of E x :: kps)) T = Ret (Ok tt, snd (fst pta)) /\ P x o (snd pta))
      (keypairs_uniform E L Ht (t - 1))).
    specialize (HB ltac:(intros kps [Hl Hf];
      apply (uniform_bind t nd _ (fun pt : ProofOfPossession E * transcript => ProofOfPossession_verify (E:=hashed_by E o) (fst pt) (map kp_public (pair_of E x :: kps)) T = Ret (Ok tt, snd pt))
        (fun _ => client o (pk x)) (fun _ => P x o)); [|intros pt _; apply HU];
      replace t with (List.length (pair_of E x :: kps)) at 1 by (cbn [List.length]; rewrite Hl; lia);
      apply pop_new_uniform; constructor; [apply (pair_of_good E L Ht)|exact Hf])).
    apply (uniform_image _ _ _ _ _ (fun v : list (Keypair E) * ((ProofOfPossession E * transcript) * A) =>
      (shares_of (x :: map kp_secret (fst v)), fst (fst (snd v)), snd (snd v))) HB).
    + intros r [kps [[p t'] a]] r' _ Hr. unfold dealt_prover. rewrite HK. inv_bind Hr. destruct a0 as [kps1 r1]. rewrite Hm. cbn [bind].
      inv_bind Hr. destruct a0 as [pta r2]. injection Hr as -> -> ->. inv_bind Hm0. destruct a0 as [pt1 r3]. inv_bind Hm1. destruct a0 as [[p2 t2] r4].
      injection Hm1 as <- <-. rewrite Hm2. cbn [bind]. inv_bind Hm0. destruct a0 as [a1 r5]. injection Hm0 as <- -> -> ->. rewrite Hm1. reflexivity.
    + intros [kps [[p t'] a]] [[Hl Hf] [Hv Ha]]. unfold P'. cbn [fst snd] in *. split; [unfold shares_of; rewrite map_length; lia|]. split; [|exact Ha].
      exists t'. rewrite <- Hkeys by assumption. exact Hv.
    + intros [[shares p] a] (H1 & (t' & H2) & H3). cbn [fst snd] in *.
      destruct (public_poly_exists x shares H1) as (co & C1 & C2 & C3).
      exists (map (pair_of E) co, ((p, t'), a)). cbn [fst snd]. rewrite map_map. cbn [pair_of kp_secret]. rewrite map_id. split; [|rewrite C3; reflexivity].
      assert (Hf : Forall good_pair (map (pair_of E) co)) by (apply Forall_forall; intros kp Hin; apply in_map_iff in Hin as (z & <- & _); apply (pair_of_good E L Ht)).
      assert (Hl : List.length (map (pair_of E) co) = t - 1) by (rewrite map_length; exact C1).
      split; [split; assumption|]. split; [|exact H3]. rewrite Hkeys by assumption. rewrite map_map. cbn [pair_of kp_secret]. rewrite map_id, C3. exact H2.
    + intros [kps [[p t'] a]] [kps' [[p' t''] a']] [[Hl Hf] [Hv Ha]] [[Hl' Hf'] [Hv' Ha']] Heq. cbn [fst snd] in *.
      assert (E1 : shares_of (x :: map kp_secret kps) = shares_of (x :: map kp_secret kps')) by congruence.
      apply shares_determine in E1; [|rewrite map_length; assumption..].
      assert (E2 : kps = kps') by (rewrite <- (map_pair_of E L Ht kps Hf), <- (map_pair_of E L Ht kps' Hf'), E1; reflexivity).
      subst kps'. assert (p = p') by congruence. subst p'. rewrite Hv in Hv'. congruence.
  - intros x o [[shares p] a]. unfold P'. cbn [fst snd]. rewrite dealing_accept. split.
    + intros (H1 & (H2 & H3) & H4). apply HP in H4 as (c & s & Hs & Hc & -> & Hacc).
      rewrite public_poly_length in H2 by exact H1.
      exists c, (shares ++ (pop_challenge p :: pop_responses p) ++ s).
      assert (Q1 : shares_part (shares ++ (pop_challenge p :: pop_responses p) ++ s) = shares).
      { unfold shares_part. rewrite <- H1, firstn_app, firstn_all, Nat.sub_diag. cbn [firstn]. apply app_nil_r. }
      assert (Q2 : skipn (t - 1) (shares ++ (pop_challenge p :: pop_responses p) ++ s) = (pop_challenge p :: pop_responses p) ++ s).
      { rewrite <- H1, skipn_app, skipn_all, Nat.sub_diag. reflexivity. }
      assert (Hlp : List.length (pop_challenge p :: pop_responses p) = t + 1) by (cbn [List.length]; lia).
      assert (Q3 : pop_part (shares ++ (pop_challenge p :: pop_responses p) ++ s) = p).
      { unfold pop_part. rewrite Q2, <- Hlp, firstn_app, firstn_all, Nat.sub_diag. cbn [firstn]. rewrite app_nil_r. apply pop_of_cons. }
      assert (Q4 : rest_part (shares ++ (pop_challenge p :: pop_responses p) ++ s) = s).
      { unfold rest_part. replace (2 * t) with ((t - 1) + (t + 1)) by lia. rewrite <- skip_more, Q2, <- Hlp, skipn_app, skipn_all, Nat.sub_diag. reflexivity. }
      split; [rewrite !app_length, Hlp; lia|]. split; [exact Hc|]. unfold assemble_dealt, acc_dealt. rewrite Q1, Q3, Q4. split; [reflexivity|].
      rewrite H3, Hacc. reflexivity.
    + intros (c & s & Hs & Hc & Heq & Hacc). destruct (parts_length s Hs) as (P1 & P2 & P3). unfold assemble_dealt in Heq.
      injection Heq as -> -> ->. unfold acc_dealt in Hacc. apply andb_true_iff in Hacc as [A1 A2].
      split; [exact P1|]. split; [split; [rewrite public_poly_length by exact P1; exact P2|exact A1]|]. apply HP. eauto 10.
Qed.

Lemma dealt_guesses_by_eq D :
  dealt_guesses_by nd seed hashes client D =
  guesses_by E L ((t - 1) + (t + nd)) seed hashes dealt_prover (coalition_view_by D).
Proof using Ht Hbig Hparams Hnd His Hlen.
  unfold dealt_guesses_by, guesses_by. replace (1 + (t - 1 + (t + nd))) with (2 * t + nd) by lia. apply tally_ext. intros [xs o]. cbn [fst snd].
  rewrite (pair_generate E L Ht). cbn [bind]. set (x := fst (generate_scalar (seed xs))). set (r0 := snd (generate_scalar (seed xs))).
  unfold dealt_prover. assert (HK : dlog L (pk_element (pk x)) = x) by apply (dlog_gen L). rewrite HK.
  set (kps := map (pair_of E) (fst (draws (t - 1) r0))).
  assert (Hd : Dealer_new (E:=hashed_by E o) params (seed xs) =
    '(pop, _, r) <- ProofOfPossession_new (E:=hashed_by E o) (pair_of E x :: kps) T (snd (draws (t - 1) r0)) ;;
    Ret ({| de_params := params; de_polynomial := pair_of E x :: kps; de_pop := pop |}, r)).
  { unfold Dealer_new. replace (pa_threshold params) with (S (t - 1)) at 1 by lia.
    change (generate_keypairs (E:=hashed_by E o)) with (generate_keypairs (E:=E)). rewrite (pairs_generate E L Ht).
    cbn [draws]. unfold kps, r0, x. destruct (generate_scalar (seed xs)) as [y r1]. cbn [fst snd]. destruct (draws (t - 1) r1). reflexivity. }
  rewrite (pairs_generate E L Ht (t - 1) r0). fold kps. cbn [bind].
  change (Dealer_new (E:=hashed_by E o) params (seed xs)) with (Dealer_new (E:=hashed_by E o) params (seed xs)) in Hd.
  rewrite Hd. destruct (ProofOfPossession_new (E:=hashed_by E o) (pair_of E x :: kps) T (snd (draws (t - 1) r0))) as [[[pop t'] r]|pn] eqn:Hpop; [|reflexivity].
  cbn [bind] in Hd |- *. unfold Dealer_public_info. cbn [de_polynomial de_pop].
  assert (Hpoly : map (fun pair : Keypair E => pk_element (kp_public pair)) (pair_of E x :: kps) = in_exponent (x :: map kp_secret kps)).
  { unfold kps, in_exponent. cbn [map]. rewrite !map_map. reflexivity. }
  assert (Hl : List.length (map kp_secret kps) = t - 1) by (unfold kps; rewrite !map_length; apply (draws_length (E:=E))).
  assert (Hks : exists ks, PublicKeySet_new (E:=hashed_by E o) params (in_exponent (x :: map kp_secret kps)) pop = Ret (Ok ks) /\ ks_shared_key ks = pk x).
  { destruct (pks_new_total (hashed_by E o) L params (in_exponent (x :: map kp_secret kps)) pop Hparams Ht) as [res Hres].
    destruct (dealing_ok (hashed_by E o) L params (seed xs) _ _ res Hparams Hd) as [ks ->].
    { unfold Dealer_public_info. cbn [fst snd de_polynomial de_pop]. exact (eq_trans (f_equal (fun l => PublicKeySet_new (E:=hashed_by E o) params l pop) Hpoly) Hres). }
    exists ks. split; [exact Hres|]. apply (pks_new_ok (hashed_by E o) L) in Hres as (_ & _ & K1 & K2 & _); [|exact Hparams].
    unfold key_bytes_ok in K2. destruct (ks_shared_key ks) as [b e]. cbn [pk_element pk_bytes] in K1, K2.
    assert (H0 : peval (x :: map kp_secret kps) 0%S = x) by (cbn [peval]; ring).
    assert (He : e = (@generator E * x)%E) by exact (eq_trans K1 (f_equal (fun z => (@generator E * z)%E) H0)). clear K1. subst e.
    change (serialize_element (g:=hashed_by E o)) with (serialize_element (g:=E)) in K2. rewrite (ser_ok E L Ht) in K2. injection K2 as <-. reflexivity. }
  destruct Hks as (ks & Hks & Hkey).
  assert (Hshares : mapM (Dealer_secret_share_for_participant (E:=E) {| de_params := params; de_polynomial := pair_of E x :: kps; de_pop := pop |}) is_ =
    Ret (shares_of (x :: map kp_secret kps))).
  { unfold shares_of. revert His. clear - L. intros His. induction is_ as [|i l IH]; [reflexivity|]. cbn [mapM map].
    rewrite (dealer_share_eq E L). cbn [de_params de_polynomial map pair_of kp_secret].
    destruct (Nat.ltb_spec i (pa_shares params)) as [_|Hge]; [|specialize (His i (or_introl eq_refl)); lia]. cbn [bind].
    rewrite IH by (intros j Hj; apply His; right; exact Hj). reflexivity. }
  transitivity (returns ('(a, _) <- client o (pk x) r ;; Ret (D (in_exponent (x :: map kp_secret kps)) pop (shares_of (x :: map kp_secret kps)) a o))).
  - match goal with |- returns (bind ?m _) = _ => replace m with (Ret (Ok ks) : outcome (result (PublicKeySet E) SharingError)) end.
    2:{ symmetry. exact (eq_trans (f_equal (fun l => PublicKeySet_new (E:=hashed_by E o) params l pop) Hpoly) Hks). }
    cbn [bind]. match goal with |- returns (bind ?m _) = _ => replace m with (Ret (shares_of (x :: map kp_secret kps))) end.
    cbn [bind]. rewrite Hkey. rewrite <- Hpoly. reflexivity.
  - destruct (client o (pk x) r) as [[a r2]|pn]; [|reflexivity]. cbn [bind]. unfold coalition_view_by.
    rewrite (public_poly_shares x (map kp_secret kps) Hl). reflexivity.
Qed.

Lemma dealt_guesses_eq D :
  dealt_guesses L params is_ nd seed hashes client D =
  guesses L ((t - 1) + (t + nd)) seed hashes dealt_prover (coalition_view L is_ D).
Proof using Ht Hbig Hparams Hnd His Hlen.
  transitivity (guesses_by E L ((t - 1) + (t + nd)) seed hashes dealt_prover (coalition_view_by (fun poly pop shares a o => run o (D poly pop shares a)))).
  - exact (dealt_guesses_by_eq (fun poly pop shares a o => run o (D poly pop shares a))).
  - unfold guesses_by, guesses. apply tally_ext. intros [xs o]. cbn [fst snd].
    destruct (Keypair_generate (seed xs)) as [[kp r]|p]; [|reflexivity]. cbn [bind].
    destruct (dealt_prover o (kp_public kp) r) as [[[[sh pp] a] r']|p]; reflexivity.
Qed.

End Scheme.

Theorem coalition_secret {A : Type} seed (Hseed : seeds seed) dom o0 (Hdom : NoDup dom) (Hcov : covers_dealing L dom params is_)
    nd n k h simulate assemble acc Ms Ms' (client client' : hash scalar -> PublicKey E -> Rng E -> outcome (A * Rng E)) D :
  sim_ok E L dom o0 n k h simulate assemble acc -> side_ok E nd n k assemble acc Ms client -> side_ok E nd n k assemble acc Ms' client' ->
  let hashes := all_hashes scalars dom o0 in
  let coins := attacker_coins L n (2 * t + k) hashes in
  (order L ^ Z.of_nat (n + h + 2) * (order L - 1) *
     (dealt_guesses L params is_ nd seed hashes client D - dealt_guesses L params is_ nd seed hashes client' D) =
   ddh_gap L coins (attacker Ms (simulate_dealing L params is_ simulate) (coalition_view L is_ D)) -
   ddh_gap L coins (attacker Ms' (simulate_dealing L params is_ simulate) (coalition_view L is_ D)))%Z.
Proof using Ht Hbig Hparams Hnd His Hlen.
  intros Hsim Hs Hs' hashes coins. unfold coins, hashes. rewrite !dealt_guesses_eq. replace (n + h + 2) with (n + S h + 1) by lia.
  exact (scheme_secret E L Ht seed Hseed dom o0 _ n (2 * t + k) (S h) _ _ _ Ms Ms' _ _ (coalition_view L is_ D)
    (dealing_sim dom o0 Hdom Hcov n k h simulate assemble acc Hsim)
    (dealt_side nd n k assemble acc client Ms Hs) (dealt_side nd n k assemble acc client' Ms' Hs')).
Qed.

Lemma covers_dealing_exist : exists dom, covers_dealing L dom params is_.
Proof using Ht Hbig Hparams Hnd His Hlen.
  exists (flat_map (fun x => flat_map (fun s => map (fun z => pop_point (public_polynomial L is_ (pk x) s) (pop_of z)) (tapes L (t + 1))) (tapes L (t - 1))) scalars).
  intros K shares p o H1 H2.
  assert (HK : public_polynomial L is_ K shares = public_polynomial L is_ (pk (dlog L (pk_element K))) shares).
  { unfold public_polynomial. cbn [pair_of kp_public pk_element]. rewrite (dlog_ok E L). reflexivity. }
  rewrite HK, dealing_asked by (rewrite public_poly_length by exact H1; exact H2).
  intros y [<-|[]]. apply in_flat_map. exists (dlog L (pk_element K)). split; [apply all_in|].
  apply in_flat_map. exists shares. split; [apply tapes_in; exact H1|]. apply in_map_iff. exists (pop_challenge p :: pop_responses p).
  split; [rewrite pop_of_cons; reflexivity|]. apply tapes_in. cbn [List.length]. lia.
Qed.

Lemma covers_all {A B : Type} n k (V : PublicKey E -> list (Ciphertext E) -> list scalar -> strategy scalar A)
    (V' : PublicKey E -> list (Ciphertext E) -> list scalar -> strategy scalar B) :
  exists dom, NoDup dom /\ covers_dealing L dom params is_ /\ covers dom n k V /\ covers dom n k V'.
Proof using Ht Hbig Hparams Hnd His Hlen.
  destruct covers_dealing_exist as [d0 H0]. destruct (covers_both E L Ht n k V V') as (d1 & _ & H1 & H2).
  exists (nodup query_dec (d0 ++ d1)). split; [apply NoDup_nodup|].
  split; [|split].
  - intros K shares p o Ha Hb y Hy. apply nodup_In, in_or_app. left. exact (H0 K shares p o Ha Hb y Hy).
  - intros x K c s o Hk Hb Hc Hs y Hy. apply nodup_In, in_or_app. right. exact (H1 x K c s o Hk Hb Hc Hs y Hy).
  - intros x K c s o Hk Hb Hc Hs y Hy. apply nodup_In, in_or_app. right. exact (H2 x K c s o Hk Hb Hc Hs y Hy).
Qed.

(** ** decryption shares *)
Lemma add_sub (A B : element) : (A + B - A)%E = B.
Proof using L. el_ring L. Qed.

Lemma other_shares (p : list scalar) (shares : list scalar) (R Z : element) i :
  List.length p = t -> shares = shares_of p -> Z = (R * peval p 0%S)%E ->
  evaluate (interpolate L ((0%S, Z) :: map (fun js => (node (fst js), R * snd js)%E) (combine is_ shares))) (node i) = (R * peval p (node i))%E.
Proof using Hbig Hparams Hnd His Hlen.
  intros Hp -> ->.
  set (points := (0%S, (R * peval p 0%S)%E) :: map (fun js : nat * scalar => (node (fst js), (R * snd js)%E)) (combine is_ (shares_of p))).
  assert (Hn : map fst points = known_nodes).
  { unfold points, known_nodes. cbn [map fst]. f_equal. rewrite map_map. cbn [fst]. unfold shares_of. clear.
    induction is_ as [|j l IH]; [reflexivity|]. cbn. f_equal. exact IH. }
  destruct (interpolate_ok E L points ltac:(rewrite Hn; apply known_nodup)) as [H1 H2].
  assert (Hval : forall x, In x known_nodes -> peval (map (dlog L) (interpolate L points)) x = peval (pscale (dlog L R) p) x).
  { intros x Hx. rewrite (peval_pscale L). apply (gen_inj L). rewrite <- (evaluate_dlog E L).
    assert (Hin : In (x, (R * peval p x)%E) points).
    { unfold points. destruct Hx as [<-|Hx]; [left; reflexivity|right]. apply in_map_iff in Hx as (j & <- & Hj). apply in_map_iff.
      exists (j, peval p (node j)). split; [reflexivity|]. unfold shares_of. clear - Hj. induction is_ as [|k l IH]; [destruct Hj|].
      cbn [map combine]. destruct Hj as [<-|Hj]; [left; reflexivity|right; exact (IH Hj)]. }
    rewrite (H2 _ _ Hin). el_ring L. }
  rewrite (evaluate_dlog E L).
  rewrite (peval_agree L known_nodes _ (pscale (dlog L R) p) known_nodup); [| | |exact Hval].
  - rewrite (peval_pscale L). el_ring L.
  - rewrite map_length, H1, <- (map_length fst points), Hn. lia.
  - unfold known_nodes, pscale. cbn [List.length]. rewrite !map_length. lia.
Qed.

End Coalition.
