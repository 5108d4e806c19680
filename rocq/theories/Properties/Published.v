(** * C73: publishing the result of an election reveals the result only

    The key is shared; all voters cast ballots; then some participants publish their decryption shares for the totals of
    all options, with the proofs of their correctness.  The distinguisher sees all ballots, the published shares and
    proofs, and the secret shares of [t - 1] participants.  For two lists of votes with the same totals, telling the two
    elections apart is breaking DDH: there are two attackers per voter, and each runs the distinguisher once.  The
    attackers compute the decryption shares from the result, and make up the proofs (Spec/Published.v). *)
From Coq Require Import List NArith ZArith Arith String Bool Lia.
From Verif.Properties Require Import Keys Uniform Sharing Choice Tally Secrecy Coalition Domains Election.
From Verif.Model Require Import Base Group Transcript Keys Encryption LogEquality Possession Ring Range Choice Sharing.
From Verif.Spec Require Import Encryption Range Choice Sharing Domains Rom Forking Verifiers Uniform Tally Secrecy Coalition Election Published.
From Verif.Proofs Require Import Lists Algebra Rom Forking Uniform UniformBallots Sharing Choice Secrecy SecrecyBallots Coalition Election Published.
From Verif.Instance Require Import Primality Zq.
Import ListNotations.
Open Scope string_scope.
Open Scope list_scope.
Open Scope nat_scope.

Section Totals.
Context (E : Env) (L : GroupLaws E) (Ht : ser_total E).

Add Field s_field_published_totals : (s_field L).

Definition ballot_totals {P : Type} (n : nat) (ballots : list (list (Ciphertext E) * RingProof E * P)) : list (Ciphertext E) :=
  Tally.tally n (map (fun b => fst (fst b)) ballots).

(** the totals encrypt the result *)
Lemma totals_plain x n (votes : list (list bool)) (css : list (list (Ciphertext E))) :
  Forall (fun v => List.length v = n) votes ->
  Forall2 (fun flags cts => Forall2 (fun flag ct => decrypt_to_element x ct = if flag : bool then generator else identity) flags cts) votes css ->
  Forall2 (fun c M => blinded_element c = (M + random_element c * x)%E) (Tally.tally n css) (published_result n votes).
Proof.
  intros Hn H.
  assert (H1 : Forall2 (votes_of x) (map (map (fun f : bool => if f then 1%N else 0%N)) votes) css).
  { clear Hn. induction H as [|v cts votes css Hv H IH]; cbn [map]; constructor; [exact (flags_votes E x v cts L Hv)|exact IH]. }
  assert (H2 : Forall (fun cts : list (Ciphertext E) => List.length cts = n) css).
  { clear H1. induction H as [|v cts votes css Hv H IH]; [constructor|]. inversion Hn; subst. constructor; [|apply IH; assumption].
    symmetry. exact (Forall2_length' _ _ _ Hv). }
  destruct (tally_ok E L x _ css n H1 H2) as [T1 T2].
  assert (Hc : forall i, column i (map (map (fun f : bool => if f then 1%N else 0%N)) votes) = N.of_nat (votes_for i votes)).
  { clear. intros i. unfold column, votes_for. induction votes as [|flags votes IH]; [reflexivity|]. cbn [map fold_right filter]. rewrite IH.
    assert (Hn : nth i (map (fun f : bool => if f then 1%N else 0%N) flags) 0%N = if nth i flags false then 1%N else 0%N).
    { change 0%N with ((fun f : bool => if f then 1%N else 0%N) false) at 2. rewrite map_nth. reflexivity. }
    rewrite Hn. destruct (nth i flags false); cbn [List.length]; lia. }
  unfold published_result. revert T1 T2. generalize (Tally.tally n css). intros l T1 T2.
  assert (T3 : forall i ct, nth_error l i = Some ct -> blinded_element ct = (times (N.of_nat (votes_for i votes)) generator + random_element ct * x)%E).
  { intros i ct Hi. rewrite <- Hc, <- (T2 i ct Hi). unfold decrypt_to_element. el_ring L. }
  clear - T1 T3. subst n. set (f := fun i => times (N.of_nat (votes_for i votes)) (@generator E)).
  assert (Hg : forall s : nat, (forall i ct, nth_error l i = Some ct -> blinded_element ct = (f (s + i)%nat + random_element ct * x)%E) ->
    Forall2 (fun c M => blinded_element c = (M + random_element c * x)%E) l (map f (seq s (List.length l)))).
  { clear. generalize f. clear f. intros f. induction l as [|c l IH]; intros s H; cbn [List.length seq map]; constructor.
    - rewrite (H 0 c eq_refl), Nat.add_0_r. reflexivity.
    - apply IH. intros i ct Hi. rewrite (H (S i) ct Hi). replace (s + S i)%nat with (S s + i)%nat by lia. reflexivity. }
  exact (Hg 0 T3).
Qed.

Lemma cast_plain {P : Type} (client : list bool -> hash (Scalar E) -> PublicKey E -> Rng E -> outcome ((list (Ciphertext E) * RingProof E * P) * Rng E))
    (ok : list bool -> Prop) n x o :
  (forall v r b r', ok v -> client v o (kp_public (pair_of E x)) r = Ret (b, r') -> List.length v = n /\
     Forall2 (fun flag ct => decrypt_to_element x ct = if flag : bool then generator else identity) v (fst (fst b))) ->
  forall votes r a r', Forall ok votes -> cast client votes o (kp_public (pair_of E x)) r = Ret (a, r') ->
  Forall2 (fun c M => blinded_element c = (M + random_element c * x)%E) (ballot_totals n a) (published_result n votes).
Proof.
  intros Hc votes r a r' Hok H.
  assert (Hv : Forall (fun v => List.length v = n) votes /\
    Forall2 (fun flags cts => Forall2 (fun flag ct => decrypt_to_element x ct = if flag : bool then generator else identity) flags cts) votes (map (fun b => fst (fst b)) a)).
  { revert r a H. induction Hok as [|v votes Hv Hok IH]; intros r a H.
    - injection H as <- _. split; constructor.
    - cbn [cast] in H. inv_bind H. destruct a0 as [b r1]. cbn beta iota in H. inv_bind H. destruct a0 as [l r2]. injection H as <- ->.
      destruct (Hc v r b r1 Hv Hm) as [C1 C2]. destruct (IH r1 l Hm0) as [I1 I2]. cbn [map]. split; constructor; assumption. }
  destruct Hv as [V1 V2]. exact (totals_plain x n votes _ V1 V2).
Qed.

Lemma multi_plain n (v : list bool) x o r b r' : 0 < n -> List.length v = n ->
  real_multi (E:=E) n (fun _ => v) o (kp_public (pair_of E x)) r = Ret (b, r') -> List.length v = n /\
  Forall2 (fun flag ct => decrypt_to_element x ct = if flag : bool then generator else identity) v (fst (fst b)).
Proof.
  intros Hn Hl H. split; [exact Hl|]. unfold real_multi in H. inv_bind H. destruct a as [e r1]. injection H as <- _. cbn [fst].
  refine (proj2 (C41_multi_complete (hashed_by E o) L (kp_public (pair_of E x)) n _ v r e r1 _ Hm) x _).
  - unfold ChoiceParams_multi. destruct n; [lia|reflexivity].
  - exact (proj1 (pk_good E L Ht x)).
Qed.

Lemma single_plain n (v : list bool) x o r b r' : 0 < n -> List.length v = n /\ count_occ bool_dec v true = 1 ->
  real_single (E:=E) n (fun _ => v) o (kp_public (pair_of E x)) r = Ret (b, r') -> List.length v = n /\
  Forall2 (fun flag ct => decrypt_to_element x ct = if flag : bool then generator else identity) v (fst (fst b)).
Proof.
  intros Hn [Hl Hone] H. split; [exact Hl|]. unfold real_single in H. inv_bind H. destruct a as [e r1]. injection H as <- _. cbn [fst].
  refine (proj2 (C41_single_complete (hashed_by E o) L (kp_public (pair_of E x)) n _ v r e r1 _ Hm Hone) x _).
  - unfold ChoiceParams_single. destruct n; [lia|reflexivity].
  - exact (proj1 (pk_good E L Ht x)).
Qed.

(** voters do not ask for hashes in the context of decryption shares *)
Lemma multi_elsewhere n v K r : Forking.reads (Scalar E) elsewhere (fun o => real_multi (E:=E) n v o K r).
Proof.
  intros o o' H. refine (same_choice_multi (hashed_by E o') o n K _ (v K) r).
  intros u l (u' & ->). apply (H (_, l)). intros (z & Hz). discriminate Hz.
Qed.
Lemma single_elsewhere n v K r : Forking.reads (Scalar E) elsewhere (fun o => real_single (E:=E) n v o K r).
Proof.
  intros o o' H. refine (same_choice_single (hashed_by E o') o n K _ _ (v K) r);
  intros u l (u' & ->); apply (H (_, l)); intros (z & Hz); discriminate Hz.
Qed.

Lemma same_result n (votes votes' : list (list bool)) : (forall i, i < n -> votes_for i votes = votes_for i votes') ->
  published_result (E:=E) n votes' = published_result n votes.
Proof.
  intros H. unfold published_result. apply map_ext_in. intros i Hi. apply in_seq in Hi. rewrite H by lia. reflexivity.
Qed.
Lemma result_length n votes : List.length (published_result (E:=E) n votes) = n.
Proof. unfold published_result. rewrite map_length, seq_length. reflexivity. Qed.
End Totals.

Theorem C73_multi_choice :
  forall (E : Env) (L : GroupLaws E), ser_total E -> (2 ^ 64 <= order L)%Z ->
  forall params is_ hs, params_ok params -> coalition params is_ -> (forall j, In j hs -> j < pa_shares params) ->
  forall seed, seeds seed -> forall dom o0, NoDup dom -> covers_dealing L dom params is_ -> covers_shares (E:=E) dom params hs ->
  forall n, 0 < n -> (N.of_nat n < 2 ^ 64)%N ->
  covers dom n (1 + 2 * n) (fun K c s => choice_ranges_verifier (E:=E) K c (ring_proof_of (E:=E) s)) ->
  forall (votes votes' : list (list bool)) D, List.length votes = List.length votes' ->
    Forall (fun v => List.length v = n) votes -> Forall (fun v => List.length v = n) votes' ->
    (forall i, i < n -> votes_for i votes = votes_for i votes') ->
    let hashes := all_hashes (all_scalars L) dom o0 in
    let N := List.length hs * n in
    let client (v : list bool) := real_multi (E:=E) n (fun _ => v) in
    let view coins := published_view L params is_ hs (ballot_totals E n) (published_result n votes) D coins in
    let gap := fun (v : list bool) (before after : list (list bool)) =>
      ddh_gap L (list_prod (list_prod (tapes L N) (tapes L N))
                   (list_prod (tapes L ((3 * n) * (List.length before + List.length after))) (attacker_coins L n (2 * pa_threshold params + (1 + 2 * n)) hashes)))
        (fun T coins => election_attacker_by client seed (fun _ => map bit_element v) (simulate_dealing L params is_ simulate_multi) all_dealt before after
           (view (fst coins)) T (snd coins)) in
    (order L ^ Z.of_nat (N + n + 3) * (order L - 1) *
       (published_guesses L params is_ hs ((3 * n) * List.length votes) N seed hashes (cast client votes) (ballot_totals E n) D -
        published_guesses L params is_ hs ((3 * n) * List.length votes') N seed hashes (cast client votes') (ballot_totals E n) D) = hybrids gap [] votes votes')%Z.
Proof.
  intros E L Ht Hb params is_ hs Hp (H1 & H2 & H3) Hhs seed Hs dom o0 Hd Hcd Hcs n Hn Hn' Hc votes votes' D Hl Hv Hv' Hres hashes N client view gap.
  destruct (multi_scheme E L Ht dom o0 Hd n Hn Hn' Hc) as (assemble & acc & Hsim & Hside).
  pose proof (published_secret E L Ht Hb params Hp is_ hs H1 H2 H3 Hhs seed Hs dom o0 Hd Hcd Hcs client (3 * n) (fun v => List.length v = n)
    (fun v => multi_elsewhere E n (fun _ => v)) n (1 + 2 * n) 1 _ _ _ (fun v _ => map bit_element v) (ballot_totals E n) (published_result n votes) D
    Hsim (fun v Hv => Hside (fun _ => v) (fun _ => Hv)) votes votes' Hv Hv' Hl) as H.
  cbv zeta in H. rewrite (result_length E n votes) in H. replace (N + n + 3) with (N + n + 1 + 2) by lia. apply H.
  intros vs [->| ->] x o r a r' Ha.
  - exact (cast_plain E L client (fun v => List.length v = n) n x o (fun v r b r' Hv => multi_plain E L Ht n v x o r b r' Hn Hv) votes r a r' Hv Ha).
  - rewrite <- (same_result E n votes votes' Hres).
    exact (cast_plain E L client (fun v => List.length v = n) n x o (fun v r b r' Hv => multi_plain E L Ht n v x o r b r' Hn Hv) votes' r a r' Hv' Ha).
Qed.
Print Assumptions C73_multi_choice.

Theorem C73_single_choice :
  forall (E : Env) (L : GroupLaws E), ser_total E -> (2 ^ 64 <= order L)%Z ->
  forall params is_ hs, params_ok params -> coalition params is_ -> (forall j, In j hs -> j < pa_shares params) ->
  forall seed, seeds seed -> forall dom o0, NoDup dom -> covers_dealing L dom params is_ -> covers_shares (E:=E) dom params hs ->
  forall n, 0 < n -> (N.of_nat n < 2 ^ 64)%N ->
  covers dom n (3 + 2 * n) (fun K c s => choice_ranges_verifier (E:=E) K c (ring_proof_of (E:=E) (tl (tl s)))) ->
  covers dom n (3 + 2 * n) (fun K c s => sum_verifier (E:=E) K c {| le_challenge := hd 0%S s; le_response := hd 0%S (tl s) |}) ->
  forall (votes votes' : list (list bool)) D, List.length votes = List.length votes' ->
    Forall (fun v => List.length v = n /\ count_occ bool_dec v true = 1) votes ->
    Forall (fun v => List.length v = n /\ count_occ bool_dec v true = 1) votes' ->
    (forall i, i < n -> votes_for i votes = votes_for i votes') ->
    let hashes := all_hashes (all_scalars L) dom o0 in
    let N := List.length hs * n in
    let client (v : list bool) := real_single (E:=E) n (fun _ => v) in
    let view coins := published_view L params is_ hs (ballot_totals E n) (published_result n votes) D coins in
    let gap := fun (v : list bool) (before after : list (list bool)) =>
      ddh_gap L (list_prod (list_prod (tapes L N) (tapes L N))
                   (list_prod (tapes L ((3 * n + 1) * (List.length before + List.length after))) (attacker_coins L n (2 * pa_threshold params + (3 + 2 * n)) hashes)))
        (fun T coins => election_attacker_by client seed (fun _ => map bit_element v) (simulate_dealing L params is_ simulate_single) all_dealt before after
           (view (fst coins)) T (snd coins)) in
    (order L ^ Z.of_nat (N + n + 4) * (order L - 1) *
       (published_guesses L params is_ hs ((3 * n + 1) * List.length votes) N seed hashes (cast client votes) (ballot_totals E n) D -
        published_guesses L params is_ hs ((3 * n + 1) * List.length votes') N seed hashes (cast client votes') (ballot_totals E n) D) = hybrids gap [] votes votes')%Z.
Proof.
  intros E L Ht Hb params is_ hs Hp (H1 & H2 & H3) Hhs seed Hs dom o0 Hd Hcd Hcs n Hn Hn' Hc Hc' votes votes' D Hl Hv Hv' Hres hashes N client view gap.
  destruct (single_scheme E L Ht dom o0 Hd n Hn Hn' Hc Hc') as (assemble & acc & Hsim & Hside).
  pose proof (published_secret E L Ht Hb params Hp is_ hs H1 H2 H3 Hhs seed Hs dom o0 Hd Hcd Hcs client (3 * n + 1) (fun v => List.length v = n /\ count_occ bool_dec v true = 1)
    (fun v => single_elsewhere E n (fun _ => v)) n (3 + 2 * n) 2 _ _ _ (fun v _ => map bit_element v) (ballot_totals E n) (published_result n votes) D
    Hsim (fun v Hv => Hside (fun _ => v) (fun _ => Hv)) votes votes' Hv Hv' Hl) as H.
  cbv zeta in H. rewrite (result_length E n votes) in H. replace (N + n + 4) with (N + n + 2 + 2) by lia. apply H.
  intros vs [->| ->] x o r a r' Ha.
  - exact (cast_plain E L client _ n x o (fun v r b r' Hv => single_plain E L Ht n v x o r b r' Hn Hv) votes r a r' Hv Ha).
  - rewrite <- (same_result E n votes votes' Hres).
    exact (cast_plain E L client _ n x o (fun v r b r' Hv => single_plain E L Ht n v x o r b r' Hn Hv) votes' r a r' Hv' Ha).
Qed.
Print Assumptions C73_single_choice.

(** the finite sets of hash inputs exist *)
Theorem C73_hash_inputs :
  forall (E : Env) (L : GroupLaws E), ser_total E -> (2 ^ 64 <= order L)%Z ->
  forall params is_ hs, params_ok params -> coalition params is_ ->
  forall (A B : Type) n k (V : PublicKey E -> list (Ciphertext E) -> list (Scalar E) -> strategy (Scalar E) A)
    (V' : PublicKey E -> list (Ciphertext E) -> list (Scalar E) -> strategy (Scalar E) B),
  exists dom, NoDup dom /\ covers_dealing L dom params is_ /\ covers_shares (E:=E) dom params hs /\ covers dom n k V /\ covers dom n k V'.
Proof.
  intros E L Ht Hb params is_ hs Hp Hc A B n k V V'.
  destruct (C70_hash_inputs E L Ht Hb params is_ Hp Hc A B n k V V') as (d0 & _ & H0 & H1 & H2).
  destruct (covers_shares_exist E L Ht params hs) as [d1 H3].
  exists (nodup query_dec (d0 ++ d1)). split; [apply NoDup_nodup|]. split; [|split; [|split]].
  - intros K shares p o Ha Hb' y Hy. apply nodup_In, in_or_app. left. exact (H0 K shares p o Ha Hb' y Hy).
  - intros ks d c j p o Ha Hb' Hj y Hy. apply nodup_In, in_or_app. right. exact (H3 ks d c j p o Ha Hb' Hj y Hy).
  - intros x K c s o Hk Hb' Hc' Hs y Hy. apply nodup_In, in_or_app. left. exact (H1 x K c s o Hk Hb' Hc' Hs y Hy).
  - intros x K c s o Hk Hb' Hc' Hs y Hy. apply nodup_In, in_or_app. left. exact (H2 x K c s o Hk Hb' Hc' Hs y Hy).
Qed.
Print Assumptions C73_hash_inputs.

(** ** Example: two voters exchange their votes, a coalition of two of five participants, the others publish their shares *)
Example C73_example_exchange :
  params_ok ex_params /\ coalition ex_params [0; 3] /\ (2 ^ 64 <= order RL)%Z /\ (forall j, In j [1; 2; 4] -> j < pa_shares ex_params) /\
  let votes := [first_option; last_option] in
  let votes' := [last_option; first_option] in
  List.length votes = List.length votes' /\ votes <> votes' /\
  Forall (fun v => List.length v = 5 /\ count_occ bool_dec v true = 1) votes /\
  Forall (fun v => List.length v = 5 /\ count_occ bool_dec v true = 1) votes' /\
  (forall i, i < 5 -> votes_for i votes = votes_for i votes') /\
  exists dom, NoDup dom /\ covers_dealing (E:=SE) RL dom ex_params [0; 3] /\ covers_shares (E:=SE) dom ex_params [1; 2; 4] /\
    covers dom 5 13 (fun K c s => choice_ranges_verifier (E:=SE) K c (ring_proof_of (E:=SE) (tl (tl s)))) /\
    covers dom 5 13 (fun K c s => sum_verifier (E:=SE) K c {| le_challenge := hd 0%S s; le_response := hd 0%S (tl s) |}).
Proof.
  destruct C70_example_coalition as (Hp & Hc & Hb). do 3 (split; [assumption|]).
  split; [intros j [<-|[<-|[<-|[]]]]; cbn; lia|]. intros votes votes'. split; [reflexivity|]. split; [discriminate|].
  split; [repeat constructor|]. split; [repeat constructor|].
  split; [intros [|[|[|[|[|i]]]]] Hi; try reflexivity; lia|].
  exact (C73_hash_inputs SE RL RE_ser_total Hb ex_params [0; 3] [1; 2; 4] Hp Hc _ _ 5 13 _ _).
Qed.

(** ... hence four attackers *)
Example C73_example_attackers :
  exists dom, NoDup dom /\
  forall o0 D,
    let a := first_option in
    let b := last_option in
    let hashes := all_hashes (all_scalars RL) dom o0 in
    let client (v : list bool) := real_single (E:=SE) 5 (fun _ => v) in
    let view coins := published_view (E:=SE) RL ex_params [0; 3] [1; 2; 4] (ballot_totals SE 5) (published_result 5 [a; b]) D coins in
    let gap (v : list bool) (before after : list (list bool)) :=
      ddh_gap (E:=SE) RL (list_prod (list_prod (tapes (E:=SE) RL (List.length [1; 2; 4] * 5)) (tapes (E:=SE) RL (List.length [1; 2; 4] * 5)))
          (list_prod (tapes (E:=SE) RL ((3 * 5 + 1) * (List.length before + List.length after))) (attacker_coins (E:=SE) RL 5 (2 * pa_threshold ex_params + (3 + 2 * 5)) hashes)))
        (fun T coins => election_attacker_by (E:=SE) client se_seed (fun _ => map bit_element v) (simulate_dealing (E:=SE) RL ex_params [0; 3] simulate_single) all_dealt before after
           (view (fst coins)) T (snd coins)) in
    (order RL ^ Z.of_nat (List.length [1; 2; 4]%nat * 5 + 5 + 4)%nat * (order RL - 1) *
       (published_guesses (E:=SE) RL ex_params [0; 3]%nat [1; 2; 4]%nat ((3 * 5 + 1) * List.length [a; b]) (List.length [1; 2; 4]%nat * 5) se_seed hashes (cast client [a; b]) (ballot_totals SE 5) D -
        published_guesses (E:=SE) RL ex_params [0; 3]%nat [1; 2; 4]%nat ((3 * 5 + 1) * List.length [b; a]) (List.length [1; 2; 4]%nat * 5) se_seed hashes (cast client [b; a]) (ballot_totals SE 5) D) =
     gap a [] [b] - gap b [] [b] + (gap b [b] [] - gap a [b] []))%Z.
Proof.
  destruct C73_example_exchange as (Hp & Hc & Hb & Hh & Hl & _ & Hv & Hv' & Hr & dom & Hd & H1 & H2 & H3 & H4).
  exists dom. split; [exact Hd|]. intros o0 D a b hashes client view gap.
  transitivity (hybrids gap [] [a; b] [b; a]); [|cbn [hybrids app]; rewrite Z.add_0_r; reflexivity].
  exact (C73_single_choice SE RL RE_ser_total Hb ex_params [0; 3] [1; 2; 4] Hp Hc Hh se_seed se_seeds dom o0 Hd H1 H2 5 ltac:(lia) eq_refl H3 H4
    [a; b] [b; a] D Hl Hv Hv' Hr).
Qed.
