(** * C73, quadratic voting: publishing the totals reveals the totals only

    As in Properties/Published.v, but the voters cast quadratic voting ballots.  For two lists of votes with the same totals,
    telling the two elections apart is breaking DDH: there are two attackers per encrypted number (C72), which compute the
    decryption shares of the totals from the result and make up the proofs of their correctness. *)
From Coq Require Import List NArith ZArith Arith String Bool Lia.
From Verif.Properties Require Import Keys LogEquality Uniform Quadratic Sharing Tally Secrecy Coalition Domains Election QuadraticSecrecy Published.
From Verif.Model Require Import Base Group Transcript Keys Encryption LogEquality Possession Ring Range Choice Mul Quadratic Sharing.
From Verif.Proofs Require Import Lists Algebra Range RangeProof Quadratic Rom Forking Uniform UniformRing UniformBallots Sharing Secrecy SecrecyBallots Coalition Election QuadraticSecrecy Published.
From Verif.Spec Require Import Encryption Range Choice Sharing Quadratic Domains Rom Forking Verifiers Uniform Tally Secrecy Coalition Election QuadraticSecrecy Published.
From Verif.Instance Require Import Primality Zq.
Import ListNotations.
Open Scope string_scope.
Open Scope list_scope.
Open Scope nat_scope.

Lemma chain_sum {U T : Type} (step : U -> T -> T -> list T -> list T -> Z) (us : list U) : forall l l' before,
  chain (fun v v' b a => fold_right Z.add 0%Z (map (fun u => step u v v' b a) us)) before l l' =
  fold_right Z.add 0%Z (map (fun u => chain (step u) before l l') us).
Proof.
  assert (Hz : fold_right Z.add 0%Z (map (fun _ : U => 0%Z) us) = 0%Z) by (induction us as [|u us0 IHu]; cbn; lia).
  induction l as [|v l IH]; intros [|v' l'] before; cbn [chain]; try (symmetry; exact Hz).
  rewrite IH. clear. induction us as [|u us IH]; [reflexivity|]. cbn [map fold_right]. lia.
Qed.

Section Totals.
Context (E : Env) (L : GroupLaws E) (Ht : ser_total E).

(** what the users of the crate decrypt: the sums of the ciphertexts for each option *)
Definition quadratic_totals (n : nat) (ballots : list (QuadraticVotingBallot E)) : list (Ciphertext E) :=
  Tally.tally n (map (fun b => map crp_ciphertext (qb_votes b)) ballots).

(** the messages of the totals *)
Definition quadratic_result (n : nat) (votes : list (list N)) : list (Element E) :=
  map (fun i => times (column i votes) generator) (seq 0 n).

Add Field s_field_published_quadratic : (s_field L).

Lemma quadratic_cast_plain receiver options credits max (p : QuadraticVotingParams E) x o :
  qv_inv E receiver options max credits p -> forall votes r a r', Forall (allowed options credits max) votes ->
  cast (real_quadratic p) votes o (kp_public (pair_of E x)) r = Ret (a, r') ->
  Forall2 (fun c M => blinded_element c = (M + random_element c * x)%E) (quadratic_totals options a) (quadratic_result options votes).
Proof.
  intros Hp votes r a r' Hok H.
  assert (Hv : Forall2 (votes_of x) votes (map (fun b => map crp_ciphertext (qb_votes b)) a) /\
    Forall (fun cts : list (Ciphertext E) => List.length cts = options) (map (fun b => map crp_ciphertext (qb_votes b)) a)).
  { revert r a H. induction Hok as [|v votes Hv Hok IH]; intros r a H.
    - injection H as <- _. split; constructor.
    - cbn [cast] in H. inv_bind H. destruct a0 as [b r1]. cbn beta iota in H. inv_bind H. destruct a0 as [l r2]. injection H as <- ->.
      destruct (IH r1 l Hm0) as [I1 I2]. destruct Hv as (Hl & _ & Hs). cbn [map].
      assert (Hi : qv_inv (hashed_by E o) (kp_public (pair_of E x)) options max credits (with_receiver p (kp_public (pair_of E x)))).
      { destruct Hp as (dv & dc & P1 & P2 & P3 & P4 & P5 & ->). exists dv, dc. repeat (split; [assumption|]). reflexivity. }
      assert (Hov : overflow_checks (env_build (hashed_by E o)) = true \/ (squares v < 2 ^ 64)%N).
      { right. destruct Hp as (_ & _ & _ & _ & _ & P4 & _). change (squares v <= credits)%N in Hs. clear - P4 Hs. lia. }
      destruct (qv_ballot_complete (hashed_by E o) L _ options max credits _ v r b r1 Hi Hov Hm) as (B1 & _ & _ & _ & B5).
      specialize (B5 x (proj1 (pk_good E L Ht x))). split; constructor; try assumption.
      symmetry. rewrite <- B1. exact (Forall2_length' _ _ _ B5). }
  destruct Hv as [V1 V2]. destruct (tally_ok E L x _ _ options V1 V2) as [T1 T2].
  unfold quadratic_totals, quadratic_result. revert T1 T2. generalize (Tally.tally options (map (fun b => map crp_ciphertext (qb_votes b)) a)). intros l T1 T2.
  assert (T3 : forall i ct, nth_error l i = Some ct -> blinded_element ct = (times (column i votes) generator + random_element ct * x)%E).
  { intros i ct Hi. rewrite <- (T2 i ct Hi). unfold decrypt_to_element. el_ring L. }
  clear - T1 T3. subst options. set (f := fun i => times (column i votes) (@generator E)).
  assert (Hg : forall s : nat, (forall i ct, nth_error l i = Some ct -> blinded_element ct = (f (s + i)%nat + random_element ct * x)%E) ->
    Forall2 (fun c M => blinded_element c = (M + random_element c * x)%E) l (map f (seq s (List.length l)))).
  { clear. generalize f. clear f. intros f. induction l as [|c l IH]; intros s H; cbn [List.length seq map]; constructor.
    - rewrite (H 0 c eq_refl), Nat.add_0_r. reflexivity.
    - apply IH. intros i ct Hi. rewrite (H (S i) ct Hi). replace (s + S i)%nat with (S s + i)%nat by lia. reflexivity. }
  exact (Hg 0 T3).
Qed.

(** voters do not ask for hashes in the context of decryption shares *)
Lemma quadratic_elsewhere p votes K r : Forking.reads (Scalar E) elsewhere (fun o => real_quadratic (E:=E) p votes o K r).
Proof.
  intros o o' H. unfold real_quadratic.
  refine (same_qv_ballot (hashed_by E o') o _ _ _ (with_receiver p K) votes r);
  intros u l (u' & ->); apply (H (_, l)); intros (z & Hz); discriminate Hz.
Qed.

Lemma quadratic_result_length n votes : List.length (quadratic_result n votes) = n.
Proof. unfold quadratic_result. rewrite map_length, seq_length. reflexivity. Qed.
Lemma quadratic_same_result n votes votes' : (forall i, i < n -> column i votes = column i votes') ->
  quadratic_result n votes' = quadratic_result n votes.
Proof. intros H. unfold quadratic_result. apply map_ext_in. intros i Hi. apply in_seq in Hi. rewrite H by lia. reflexivity. Qed.
End Totals.

Theorem C73_quadratic :
  forall (E : Env) (L : GroupLaws E), ser_total E -> (2 ^ 64 <= order L)%Z ->
  forall params is_ hs, params_ok params -> coalition params is_ -> (forall j, In j hs -> j < pa_shares params) ->
  forall seed, seeds seed -> forall dom o0, NoDup dom -> covers_dealing L dom params is_ -> covers_shares (E:=E) dom params hs ->
  forall receiver options credits max (p : QuadraticVotingParams E), (credits + 65 < 2 ^ 64)%N -> qv_params receiver options credits max p ->
  covers_quadratic p dom ->
  exists idx : part -> list N,
  (forall x, (number x <= if for_vote x then max else credits)%N -> in_rings (decomposition p x) (idx x) /\ composed (decomposition p x) (idx x) = number x) /\
  forall (votes votes' : list (list N)) D, List.length votes = List.length votes' ->
    Forall (allowed options credits max) votes -> Forall (allowed options credits max) votes' ->
    (forall i, i < options -> column i votes = column i votes') ->
    let hashes := all_hashes (all_scalars L) dom o0 in
    let N := List.length hs * options in
    let nv := List.length (pr_inner (qv_vote_count_range p)) in
    let nc := List.length (pr_inner (qv_credit_range p)) in
    let view coins := published_view L params is_ hs (quadratic_totals E options) (quadratic_result E options votes) D coins in
    let gap := fun before after x parts_before parts_after =>
      (weight L p x * ddh_gap L
         (list_prod (list_prod (tapes L N) (tapes L N))
           (list_prod (tapes L (ballot_scalars p * (List.length before + List.length after)))
             (list_prod (tapes L (2 + 2 * options))
               (list_prod (tapes L (parts_scalars p parts_before + parts_scalars p parts_after))
                 (attacker_coins L (List.length (decomposition p x)) (2 * pa_threshold params + proof_scalars p x) hashes)))))
         (fun T coins => quadratic_attacker p seed (fun _ => range_messages (decomposition p x) (number x) (idx x)) (simulate_dealing L params is_ (simulate_part p x))
            all_dealt parts_before parts_after before after (view (fst coins)) T (snd coins)))%Z in
    (order L ^ Z.of_nat (N + (nv + nc + 4)) * (order L - 1) *
       (published_guesses L params is_ hs (ballot_scalars p * List.length votes) N seed hashes (cast (real_quadratic p) votes) (quadratic_totals E options) D -
        published_guesses L params is_ hs (ballot_scalars p * List.length votes') N seed hashes (cast (real_quadratic p) votes') (quadratic_totals E options) D) =
     chain (fun v v' before after => hybrids (gap before after) [] (parts v) (parts v')) [] votes votes')%Z.
Proof.
  intros E L Ht Hb params is_ hs Hpa (H1 & H2 & H3) Hhs seed Hs dom o0 Hd Hcd Hcs receiver options credits max p Hc Hp (Hce & Hcp).
  apply (qv_params_inv E L) in Hp; [|exact Hc]. pose proof Hp as Hinv. destruct Hp as (dv & dc & Hv & Hcr & HV & _ & Ho & ->).
  set (p := {| qv_vote_count_range := _ |}) in *.
  exists (fun x => digits E (decomposition_of dv dc x) (number x)). split.
  { intros [v|v] Hx; cbn [for_vote number] in Hx |- *.
    - destruct (digits_ok E (max + 1) dv v Hv ltac:(unfold u64_lim; lia) ltac:(lia)) as (_ & Hin & Hco). auto.
    - destruct (digits_ok E (credits + 1) dc v Hcr ltac:(unfold u64_lim; lia) ltac:(lia)) as (_ & Hin & Hco). auto. }
  intros votes votes' D Hl Hok Hok' Hres hashes N nv nc view gap.
  set (result := quadratic_result E options votes) in *. set (totals := quadratic_totals E options) in *.
  assert (HN : List.length hs * List.length result = N) by (unfold result; rewrite quadratic_result_length; reflexivity).
  assert (Heq : forall vs, vs = votes \/ vs = votes' ->
    (order L ^ Z.of_nat N * published_guesses L params is_ hs (ballot_scalars p * List.length vs) N seed hashes (cast (real_quadratic p) vs) totals D =
     fold_right Z.add 0 (map (fun coins => dealt_guesses_by E L params is_ (ballot_scalars p * List.length vs) seed hashes (cast (real_quadratic p) vs) (published_by E L params is_ hs totals result D coins))
       (list_prod (tapes L N) (tapes L N))))%Z).
  { intros vs Hvs.
    assert (Hoks : Forall (allowed options credits max) vs) by (destruct Hvs as [->| ->]; assumption).
    assert (Hdet : forall x o, exists f, det E (ballot_scalars p * List.length vs) (cast (real_quadratic p) vs o (kp_public (pair_of E x))) f).
    { intros x o. rewrite <- (total_const (ballot_scalars p) vs).
      apply (cast_det E (real_quadratic p) (fun _ => ballot_scalars p) (votes_ok options max credits)); [|exact Hoks].
      intros v y o' Hv'. exact (ballots_det E L Ht options max credits dv dc receiver Hv Hcr HV Hc seed Hs v y o' Hv'). }
    assert (Hplain : forall x o r a r', cast (real_quadratic p) vs o (kp_public (pair_of E x)) r = Ret (a, r') ->
      Forall2 (fun c M => blinded_element c = (M + random_element c * x)%E) (totals a) result).
    { intros x o r a r' Ha. replace result with (quadratic_result E options vs).
      - exact (quadratic_cast_plain E L Ht receiver options credits max p x o Hinv vs r a r' Hoks Ha).
      - destruct Hvs as [->| ->]; [reflexivity|]. apply quadratic_same_result. exact Hres. }
    pose proof (published_eq E L Ht Hb params Hpa is_ hs H1 H2 H3 Hhs seed Hs dom o0 Hd Hcs (cast (real_quadratic p) vs) (ballot_scalars p * List.length vs)
      Hdet (cast_elsewhere E (real_quadratic p) (fun v => quadratic_elsewhere E p v) vs) totals result Hplain D) as He.
    rewrite HN in He. etransitivity; [|exact He]. f_equal. rewrite Nat2Z.inj_pow, Z2Nat.id; [reflexivity|]. lia. }
  rewrite Nat2Z.inj_add, Z.pow_add_r by lia.
  transitivity (order L ^ Z.of_nat (nv + nc + 4) * (order L - 1) *
    (order L ^ Z.of_nat N * published_guesses L params is_ hs (ballot_scalars p * List.length votes) N seed hashes (cast (real_quadratic p) votes) totals D -
     order L ^ Z.of_nat N * published_guesses L params is_ hs (ballot_scalars p * List.length votes') N seed hashes (cast (real_quadratic p) votes') totals D))%Z; [ring|].
  rewrite (Heq votes (or_introl eq_refl)), (Heq votes' (or_intror eq_refl)), <- fold_plus, <- fold_scale.
  assert (Hcov : forall x, covers dom (List.length (decomposition_of dv dc x)) (part_scalars dv dc x) (fun K c s =>
    range_verifier (E:=E) {| rap_partial := tl c; rap_inner := ring_proof_of (E:=E) s |} K (range_of p x) (first_of (E:=E) c) (context_of x))).
  { intros x. specialize (Hcp x). destruct x; exact Hcp. }
  rewrite (fold_ext _ _ _ (fun coins => quadratic_dealt_by E L Ht options max credits dv dc receiver Hv Hcr HV Hc seed Hs dom o0 Hd (quadratic_ext E _) Hce Hcov
    Hb params Hpa is_ H1 H2 H3 Hcd votes votes' (published_by E L params is_ hs totals result D coins)
    (fun poly pop shares a => published_by_reads E L params is_ hs totals result D coins poly pop shares a) Hok Hok' Hl)).
  rewrite <- chain_sum. apply chain_ext. intros v v' b a. rewrite <- hybrids_sum. apply hybrids_ext. intros x pb pa.
  rewrite fold_scale. unfold gap. rewrite (gap_prod E L).
  assert (Hps : forall l, parts_scalars p l = total (part_draws dv dc) l).
  { intros l. unfold parts_scalars, total. f_equal. apply map_ext. intros []; reflexivity. }
  rewrite !Hps. destruct x; reflexivity.
Qed.
Print Assumptions C73_quadratic.

(** Hash inputs as in the theorem exist. *)
Theorem C73_quadratic_hash_inputs :
  forall (E : Env) (L : GroupLaws E), ser_total E -> (2 ^ 64 <= order L)%Z ->
  forall params is_ hs, params_ok params -> coalition params is_ ->
  forall p : QuadraticVotingParams E,
  exists dom, NoDup dom /\ covers_dealing L dom params is_ /\ covers_shares (E:=E) dom params hs /\ covers_quadratic p dom.
Proof.
  intros E L Ht Hb params is_ hs Hp Hc p.
  destruct (C72_hash_inputs E L Ht Hb params is_ Hp Hc p) as (d0 & _ & H0 & H1 & H2).
  destruct (covers_shares_exist E L Ht params hs) as [d1 H3].
  exists (nodup query_dec (d0 ++ d1)). split; [apply NoDup_nodup|]. split; [|split; [|split]].
  - intros K shares pf o Ha Hb' y Hy. apply nodup_In, in_or_app. left. exact (H0 K shares pf o Ha Hb' y Hy).
  - intros ks d c j pf o Ha Hb' Hj y Hy. apply nodup_In, in_or_app. right. exact (H3 ks d c j pf o Ha Hb' Hj y Hy).
  - intros x K c s o Hk Hb' Hc' Hs y Hy. apply nodup_In, in_or_app. left. exact (H1 x K c s o Hk Hb' Hc' Hs y Hy).
  - intros kind x K c s o Hk Hb' Hc' Hs y Hy. apply nodup_In, in_or_app. left. exact (H2 kind x K c s o Hk Hb' Hc' Hs y Hy).
Qed.
Print Assumptions C73_quadratic_hash_inputs.

(** ** Example: two voters with 20 credits exchange their votes for three options; a coalition of two of five participants;
    the others publish their shares of the totals *)
Example C73_quadratic_example :
  params_ok ex_params /\ coalition ex_params [0; 3] /\ (2 ^ 64 <= order RL)%Z /\ (forall j, In j [1; 2; 4] -> j < pa_shares ex_params) /\
  let votes := [some_votes; other_votes] in
  let votes' := [other_votes; some_votes] in
  List.length votes = List.length votes' /\ votes <> votes' /\
  Forall (allowed 3 20 4) votes /\ Forall (allowed 3 20 4) votes' /\ (forall i, i < 3 -> column i votes = column i votes') /\
  exists p dom, qv_params (E:=SE) (ex_key : PublicKey SE) 3 20 4 p /\ NoDup dom /\
    covers_dealing (E:=SE) RL dom ex_params [0; 3] /\ covers_shares (E:=SE) dom ex_params [1; 2; 4] /\ covers_quadratic p dom.
Proof.
  destruct C72_example_parameters as (Hp & Hc & Hb & _ & p & _ & Hq & _). do 3 (split; [assumption|]).
  split; [intros j [<-|[<-|[<-|[]]]]; cbn; lia|]. intros votes votes'. split; [reflexivity|]. split; [discriminate|].
  split; [apply votes_allowed; unfold votes; auto|]. split; [apply votes_allowed; unfold votes'; auto|].
  split; [intros [|[|[|i]]] Hi; try reflexivity; lia|].
  destruct (C73_quadratic_hash_inputs SE RL RE_ser_total Hb ex_params [0; 3] [1; 2; 4] Hp Hc p) as (dom & H). exists p, dom. auto.
Qed.
