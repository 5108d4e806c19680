(** * C77: ballots for a key from a distributed key generation are secret

    Participant [idx] takes part in the key generation.  An attacker controls [t - 1] participants, [is_], and chooses all
    messages of all participants but [idx]; it sees the messages of [idx] first in each phase.  If the key generation is
    completed - [idx] gets a key, and each of [t] participants, [hs], accepts a share from each dealer - then
    the voters cast ballots for the shared key.  The distinguisher sees all ballots, all that [idx] has published, and the
    secret shares sent to the coalition.  For any two lists of votes, telling apart all ballots is breaking DDH: as in C71,
    there are two attackers per voter (Spec/DkgSecrecy.v), and each runs the distinguisher and the attacker on the key
    generation once.

    The hash is random, and in the key generation the attacker queries it for inputs of the dealers' proofs only.  SHA-256
    is any function. *)
From Coq Require Import List NArith ZArith Arith String Bool Lia Strings.Byte.
From Verif.Properties Require Import Keys Uniform Sharing Secrecy Coalition Domains Election Dkg Unbiased.
From Verif.Model Require Import Base Group Transcript Keys Encryption LogEquality Possession Ring Range Choice Sharing Dkg.
From Verif.Spec Require Import Encryption Range Choice Sharing Domains Rom Forking Verifiers Uniform Secrecy Coalition Election Unbiased DkgSecrecy.
From Verif.Proofs Require Import Algebra Range RangeProof Quadratic Rom Forking UniformRing UniformBallots Sharing Secrecy SecrecyBallots Coalition Election DkgSecrecy.
From Verif.Instance Require Import Primality Zq.
Import ListNotations.
Open Scope string_scope.
Open Scope list_scope.

(** [t] participants *)
Definition quorum (params : Params) (hs : list nat) : Prop :=
  NoDup hs /\ (forall j, In j hs -> (j < pa_shares params)%nat) /\ List.length hs = pa_threshold params.

Section Clients.
Context (E : Env) (vseed : list (Scalar E) -> Rng E) (Hv : seeds vseed).
Lemma client_det {V B : Type} nd n k (assemble : list (Ciphertext E) -> list (Scalar E) -> B) acc (Ms : V -> PublicKey E -> list (Element E)) client (ok : V -> Prop) :
  (forall v, ok v -> side_ok E nd n k assemble acc (Ms v) (client v)) ->
  forall v x o, ok v -> exists f, det E nd (client v o (kp_public (pair_of E x))) f.
Proof using Hv. intros H v x o Hok. exact (side_det E vseed Hv nd n k assemble acc (Ms v) (client v) (H v Hok) x o). Qed.
End Clients.

Theorem C77_encryptions :
  forall (E : Env) (L : GroupLaws E), ser_total E -> (2 ^ 64 <= order L)%Z ->
  forall params idx is_ hs, params_ok params -> (idx < pa_shares params)%nat -> coalition params is_ -> quorum params hs ->
  forall seed b vseed, seeds_bytes seed -> List.length b = 32%nat -> seeds vseed ->
  forall dom o0, NoDup dom -> covers_dealing L dom params is_ ->
  forall A, malicious_asks about_dealers A ->
  forall (votes votes' : list (PublicKey E -> Element E)) D, List.length votes = List.length votes' ->
    let hashes := all_hashes (all_scalars L) dom o0 in
    let gap := fun (v : PublicKey E -> Element E) (before after : list (PublicKey E -> Element E)) =>
      ddh_gap L (list_prod (tapes L (1 * (List.length before + List.length after))) (attacker_coins L 1 (2 * pa_threshold params) hashes))
        (dkg_election_attacker L params idx is_ hs real_encryption b vseed (fun K => [v K]) simulate_encryption before after A D) in
    (order L ^ 3 * (order L - 1) *
       (dkg_guesses L params idx is_ hs (1 * List.length votes) seed b vseed hashes (cast real_encryption votes) A D -
        dkg_guesses L params idx is_ hs (1 * List.length votes') seed b vseed hashes (cast real_encryption votes') A D) = hybrids gap [] votes votes')%Z.
Proof.
  intros E L Ht Hb params idx is_ hs Hp Hi (H1 & H2 & H3) (Q1 & Q2 & Q3) seed b vseed Hs Hlb Hvs dom o0 Hd Hcd A HA votes votes' D Hl hashes gap.
  destruct (encryption_scheme E L Ht dom o0) as (assemble & acc & Hsim & Hside).
  unfold gap. rewrite <- (Nat.add_0_r (2 * pa_threshold params)).
  exact (dkg_election_secret E L Ht Hb params Hp idx Hi is_ H1 H2 H3 hs Q1 Q2 Q3 seed Hs b Hlb vseed Hvs dom o0 _ _ (fun _ => True) A HA D (client_det E vseed Hvs _ _ _ _ _ (fun v K => [v K]) _ _ (fun v _ => Hside v)) Hd Hcd (encryption_ext E) 1 0 0 _ _ _ (fun v K => [v K]) Hsim (fun v _ => Hside v) votes votes' (all_true _) (all_true _) Hl).
Qed.
Print Assumptions C77_encryptions.

Theorem C77_bools :
  forall (E : Env) (L : GroupLaws E), ser_total E -> (2 ^ 64 <= order L)%Z ->
  forall params idx is_ hs, params_ok params -> (idx < pa_shares params)%nat -> coalition params is_ -> quorum params hs ->
  forall seed b vseed, seeds_bytes seed -> List.length b = 32%nat -> seeds vseed ->
  forall dom o0, NoDup dom -> covers_dealing L dom params is_ ->
  forall A, malicious_asks about_dealers A ->
  covers dom 1 3 (fun K c s => bool_verifier (E:=E) K (first_of (E:=E) c) (ring_proof_of (E:=E) s)) ->
  forall (votes votes' : list (PublicKey E -> bool)) D, List.length votes = List.length votes' ->
    let hashes := all_hashes (all_scalars L) dom o0 in
    let gap := fun (v : PublicKey E -> bool) (before after : list (PublicKey E -> bool)) =>
      ddh_gap L (list_prod (tapes L (3 * (List.length before + List.length after))) (attacker_coins L 1 (2 * pa_threshold params + 3) hashes))
        (dkg_election_attacker L params idx is_ hs real_bool b vseed (fun K => [bit_element (v K)]) simulate_bool before after A D) in
    (order L ^ 4 * (order L - 1) *
       (dkg_guesses L params idx is_ hs (3 * List.length votes) seed b vseed hashes (cast real_bool votes) A D -
        dkg_guesses L params idx is_ hs (3 * List.length votes') seed b vseed hashes (cast real_bool votes') A D) = hybrids gap [] votes votes')%Z.
Proof.
  intros E L Ht Hb params idx is_ hs Hp Hi (H1 & H2 & H3) (Q1 & Q2 & Q3) seed b vseed Hs Hlb Hvs dom o0 Hd Hcd A HA Hc votes votes' D Hl.
  destruct (bool_scheme E L Ht dom o0 Hd Hc) as (assemble & acc & Hsim & Hside).
  exact (dkg_election_secret E L Ht Hb params Hp idx Hi is_ H1 H2 H3 hs Q1 Q2 Q3 seed Hs b Hlb vseed Hvs dom o0 _ _ (fun _ => True) A HA D (client_det E vseed Hvs _ _ _ _ _ (fun v K => [bit_element (v K)]) _ _ (fun v _ => Hside v)) Hd Hcd (bool_ext E) 1 3 1 _ _ _ (fun v K => [bit_element (v K)]) Hsim (fun v _ => Hside v) votes votes' (all_true _) (all_true _) Hl).
Qed.
Print Assumptions C77_bools.

Theorem C77_multi_choice :
  forall (E : Env) (L : GroupLaws E), ser_total E -> (2 ^ 64 <= order L)%Z ->
  forall params idx is_ hs, params_ok params -> (idx < pa_shares params)%nat -> coalition params is_ -> quorum params hs ->
  forall seed b vseed, seeds_bytes seed -> List.length b = 32%nat -> seeds vseed ->
  forall dom o0, NoDup dom -> covers_dealing L dom params is_ ->
  forall A, malicious_asks about_dealers A ->
  forall n, (0 < n)%nat -> (N.of_nat n < 2 ^ 64)%N ->
  covers dom n (1 + 2 * n) (fun K c s => choice_ranges_verifier (E:=E) K c (ring_proof_of (E:=E) s)) ->
  forall (votes votes' : list (PublicKey E -> list bool)) D, List.length votes = List.length votes' ->
    Forall (fun v => forall K, List.length (v K) = n) votes -> Forall (fun v => forall K, List.length (v K) = n) votes' ->
    let hashes := all_hashes (all_scalars L) dom o0 in
    let gap := fun (v : PublicKey E -> list bool) (before after : list (PublicKey E -> list bool)) =>
      ddh_gap L (list_prod (tapes L ((3 * n) * (List.length before + List.length after))) (attacker_coins L n (2 * pa_threshold params + (1 + 2 * n)) hashes))
        (dkg_election_attacker L params idx is_ hs (real_multi n) b vseed (fun K => map bit_element (v K)) simulate_multi before after A D) in
    (order L ^ Z.of_nat (n + 3) * (order L - 1) *
       (dkg_guesses L params idx is_ hs ((3 * n) * List.length votes) seed b vseed hashes (cast (real_multi n) votes) A D -
        dkg_guesses L params idx is_ hs ((3 * n) * List.length votes') seed b vseed hashes (cast (real_multi n) votes') A D) = hybrids gap [] votes votes')%Z.
Proof.
  intros E L Ht Hb params idx is_ hs Hp Hi (H1 & H2 & H3) (Q1 & Q2 & Q3) seed b vseed Hs Hlb Hvs dom o0 Hd Hcd A HA n Hn Hn' Hc votes votes' D Hl Hv Hv'.
  destruct (multi_scheme E L Ht dom o0 Hd n Hn Hn' Hc) as (assemble & acc & Hsim & Hside).
  replace (n + 3)%nat with (n + 1 + 2)%nat by lia.
  exact (dkg_election_secret E L Ht Hb params Hp idx Hi is_ H1 H2 H3 hs Q1 Q2 Q3 seed Hs b Hlb vseed Hvs dom o0 _ _ _ A HA D (client_det E vseed Hvs _ _ _ _ _ (fun v K => map bit_element (v K)) _ _ Hside) Hd Hcd (multi_ext E n) n (1 + 2 * n) 1 _ _ _ (fun v K => map bit_element (v K)) Hsim Hside votes votes' Hv Hv' Hl).
Qed.
Print Assumptions C77_multi_choice.

Theorem C77_single_choice :
  forall (E : Env) (L : GroupLaws E), ser_total E -> (2 ^ 64 <= order L)%Z ->
  forall params idx is_ hs, params_ok params -> (idx < pa_shares params)%nat -> coalition params is_ -> quorum params hs ->
  forall seed b vseed, seeds_bytes seed -> List.length b = 32%nat -> seeds vseed ->
  forall dom o0, NoDup dom -> covers_dealing L dom params is_ ->
  forall A, malicious_asks about_dealers A ->
  forall n, (0 < n)%nat -> (N.of_nat n < 2 ^ 64)%N ->
  covers dom n (3 + 2 * n) (fun K c s => choice_ranges_verifier (E:=E) K c (ring_proof_of (E:=E) (tl (tl s)))) ->
  covers dom n (3 + 2 * n) (fun K c s => sum_verifier (E:=E) K c {| le_challenge := hd 0%S s; le_response := hd 0%S (tl s) |}) ->
  forall (votes votes' : list (PublicKey E -> list bool)) D, List.length votes = List.length votes' ->
    Forall (fun v => forall K, List.length (v K) = n /\ count_occ bool_dec (v K) true = 1%nat) votes ->
    Forall (fun v => forall K, List.length (v K) = n /\ count_occ bool_dec (v K) true = 1%nat) votes' ->
    let hashes := all_hashes (all_scalars L) dom o0 in
    let gap := fun (v : PublicKey E -> list bool) (before after : list (PublicKey E -> list bool)) =>
      ddh_gap L (list_prod (tapes L ((3 * n + 1) * (List.length before + List.length after))) (attacker_coins L n (2 * pa_threshold params + (3 + 2 * n)) hashes))
        (dkg_election_attacker L params idx is_ hs (real_single n) b vseed (fun K => map bit_element (v K)) simulate_single before after A D) in
    (order L ^ Z.of_nat (n + 4) * (order L - 1) *
       (dkg_guesses L params idx is_ hs ((3 * n + 1) * List.length votes) seed b vseed hashes (cast (real_single n) votes) A D -
        dkg_guesses L params idx is_ hs ((3 * n + 1) * List.length votes') seed b vseed hashes (cast (real_single n) votes') A D) = hybrids gap [] votes votes')%Z.
Proof.
  intros E L Ht Hb params idx is_ hs Hp Hi (H1 & H2 & H3) (Q1 & Q2 & Q3) seed b vseed Hs Hlb Hvs dom o0 Hd Hcd A HA n Hn Hn' Hc Hc' votes votes' D Hl Hv Hv'.
  destruct (single_scheme E L Ht dom o0 Hd n Hn Hn' Hc Hc') as (assemble & acc & Hsim & Hside).
  replace (n + 4)%nat with (n + 2 + 2)%nat by lia.
  exact (dkg_election_secret E L Ht Hb params Hp idx Hi is_ H1 H2 H3 hs Q1 Q2 Q3 seed Hs b Hlb vseed Hvs dom o0 _ _ _ A HA D (client_det E vseed Hvs _ _ _ _ _ (fun v K => map bit_element (v K)) _ _ Hside) Hd Hcd (single_ext E n) n (3 + 2 * n) 2 _ _ _ (fun v K => map bit_element (v K)) Hsim Hside votes votes' Hv Hv' Hl).
Qed.
Print Assumptions C77_single_choice.

Theorem C77_ranges :
  forall (E : Env) (L : GroupLaws E), ser_total E -> (2 ^ 64 <= order L)%Z ->
  forall params idx is_ hs, params_ok params -> (idx < pa_shares params)%nat -> coalition params is_ -> quorum params hs ->
  forall seed b vseed, seeds_bytes seed -> List.length b = 32%nat -> seeds vseed ->
  forall dom o0, NoDup dom -> covers_dealing L dom params is_ ->
  forall A, malicious_asks about_dealers A ->
  forall est n d pr, (n + 64 < 2 ^ 64)%N -> RangeDecomposition_optimal (env_build E) est n = Ret d -> PreparedRange_new d = Ret pr ->
  let k := (1 + N.to_nat (n_sum (map rs_size d)))%nat in
  covers dom (List.length d) k (fun K c s =>
    range_verifier (E:=E) {| rap_partial := tl c; rap_inner := ring_proof_of (E:=E) s |} K pr (first_of (E:=E) c) (transcript_new "ciphertext_range")) ->
  exists digit : N -> list N, (forall v, (v < n)%N -> in_rings d (digit v) /\ composed d (digit v) = v) /\
  forall (votes votes' : list N) D, List.length votes = List.length votes' -> Forall (fun v => v < n)%N votes -> Forall (fun v => v < n)%N votes' ->
    let hashes := all_hashes (all_scalars L) dom o0 in
    let gap := fun (v : N) (before after : list (N)) =>
      ddh_gap L (list_prod (tapes L (range_draws d * (List.length before + List.length after))) (attacker_coins L (List.length d) (2 * pa_threshold params + k) hashes))
        (dkg_election_attacker L params idx is_ hs (real_range pr) b vseed (fun _ => range_messages d v (digit v)) (simulate_range pr) before after A D) in
    (order L ^ Z.of_nat (List.length d + 3) * (order L - 1) *
       (dkg_guesses L params idx is_ hs (range_draws d * List.length votes) seed b vseed hashes (cast (real_range pr) votes) A D -
        dkg_guesses L params idx is_ hs (range_draws d * List.length votes') seed b vseed hashes (cast (real_range pr) votes') A D) = hybrids gap [] votes votes')%Z.
Proof.
  intros E L Ht Hb params idx is_ hs Hp Hi (H1 & H2 & H3) (Q1 & Q2 & Q3) seed b vseed Hs Hlb Hvs dom o0 Hd Hcd A HA est n d pr Hn H Hpr k Hc.
  pose proof (optimal_valid _ est n d ltac:(unfold u64_lim; lia) H) as Hdv.
  rewrite (prepared_ok E L n d Hdv) in Hpr by (unfold u64_lim; lia). injection Hpr as <-.
  exists (digits E d). split.
  { intros v Hv. destruct (digits_ok E n d v Hdv ltac:(unfold u64_lim; lia) Hv) as (_ & Hin & Hco). auto. }
  intros votes votes' D Hl Hv Hv'.
  destruct (range_scheme E L Ht dom o0 Hd n d Hdv Hn Hc) as (assemble & acc & Hsim & Hside).
  replace (List.length d + 3)%nat with (List.length d + 1 + 2)%nat by lia.
  exact (dkg_election_secret E L Ht Hb params Hp idx Hi is_ H1 H2 H3 hs Q1 Q2 Q3 seed Hs b Hlb vseed Hvs dom o0 _ _ _ A HA D (client_det E vseed Hvs _ _ _ _ _ (fun v _ => range_messages d v (digits E d v)) _ _ Hside) Hd Hcd (range_ext E _) (List.length d) k 1 _ _ _ (fun v _ => range_messages d v (digits E d v)) Hsim Hside votes votes' Hv Hv' Hl).
Qed.
Print Assumptions C77_ranges.

(** ** Examples

    Participant 1 of 3, threshold 2; participant 0 is the coalition; participants 1 and 2 check the shares they get. *)

(** An attacker that verifies the proof of participant 1, and goes on as prescribed (C74) if the proof is valid.
    [cheat] is added to the share that dealer 2 sends to participant 2. *)
Definition puppet_commitment (j : nat) : list (nat * bytes) :=
  flat_map (fun m => match e0 <- index (pi_polynomial (snd m)) 0 ;; create_commitment (E:=BE) e0 (pi_opening (snd m)) with
                     | Ret c => [(fst m, c)]
                     | Panic _ => []
                     end) (puppet_info j).
Definition puppet_sent (cheat : Scalar BE) (j m : nat) : SecretKey BE :=
  match puppet m with
  | d :: _ => match Dealer_secret_share_for_participant d j with
              | Ret s => if Nat.eqb m 2 && Nat.eqb j 2 then (s + cheat)%S else s
              | Panic _ => 0%S
              end
  | [] => 0%S
  end.
Definition guests (cheat : Scalar BE) : malicious (E:=BE) := fun _ =>
  Output (puppet_commitment 0 ++ puppet_commitment 2, fun own =>
    andthen (dealing_verifier (E:=BE) ex_dkg_params (pi_polynomial own) (pi_pop own)) (fun verdict =>
    Output (match verdict with Ret (Ok _, _) => puppet_info 0 ++ puppet_info 2 | _ => [] end, fun _ =>
      Output (puppet_share 0 ++ puppet_share 2, puppet_sent cheat)))).

Lemma dealing_asks (E : Env) params poly pop {B : Type} (f : _ -> strategy (Scalar E) B) : (forall x, asks_only about_dealers (f x)) ->
  asks_only about_dealers (andthen (dealing_verifier (E:=E) params poly pop) f).
Proof.
  intros Hf. unfold dealing_verifier. destruct (mapM _ poly) as [keys|k]; cbn [doing andthen]; [|apply Hf].
  destruct (check_lengths _ _ _); [|apply Hf].
  destruct (pop_recommit _ _ _) as [t|k] eqn:Hr; cbn [doing andthen asking]; [|apply Hf].
  apply asks_ask; [|intros c; apply Hf].
  assert (H : forall c l t0 t1, pop_recommit (E:=E) c l t0 = Ret t1 -> exists l', t1 = t0 ++ l').
  { clear. intros c l. induction l as [|[k r] l IH]; intros t0 t1 H; cbn in H; [injection H as <-; exists []; symmetry; apply app_nil_r|].
    unfold append_element in H. destruct (serialize_element _); cbn in H; [|discriminate]. apply IH in H as [l' ->]. eexists. symmetry. apply app_assoc. }
  destruct (H _ _ _ _ Hr) as [l' ->].
  assert (Hk : forall ks t0, exists l0, pop_append_keys (E:=E) t0 ks = t0 ++ l0).
  { clear. induction ks as [|k ks IH]; intros t0; [exists []; symmetry; apply app_nil_r|]. cbn.
    destruct (IH (t0 ++ [TMsg "K" (pk_bytes k)])) as [l0 Hl0]. rewrite <- app_assoc in Hl0. eexists. exact Hl0. }
  destruct (Hk keys (start_proof (share_poly_transcript params) "multi_pop")) as [l0 ->]. reflexivity.
Qed.
Lemma guests_asks cheat : malicious_asks about_dealers (guests cheat).
Proof.
  intros c. split; [constructor|]. intros coms A2 H. inversion H as [a Ha|]. subst. intros info. split.
  - apply dealing_asks. intros x. constructor.
  - intros infos A3 H3 shares.
    assert (G : forall (T : strategy (Scalar BE) _) (g : _ -> list (nat * PublicInfo BE)) (th : third_step (E:=BE)) a,
      yields (andthen T (fun x : outcome (result unit VerificationError * transcript) => Output (g x, th))) a -> snd a = th).
    { clear. intros T g th. induction T as [x|q k IH]; intros a Hy; cbn in Hy; inversion Hy; subst; [reflexivity|]. eauto. }
    specialize (G _ _ _ _ H3). cbn in G. subst. constructor.
Qed.

(** The hypotheses are met.  With the hash of [BE], the key generation is completed with the honest attacker - the key is
    the sum of the three constant terms - and it is not if one share for one participant is wrong. *)
Example C77_example :
  ser_total BE /\ (2 ^ 64 <= order RL)%Z /\ params_ok ex_dkg_params /\ (1 < pa_shares ex_dkg_params)%nat /\
  coalition ex_dkg_params [0]%nat /\ quorum ex_dkg_params [1; 2]%nat /\ seeds_bytes (E:=BE) be_seed /\ seeds (E:=BE) (fun xs => be_seed xs []) /\
  (forall cheat, malicious_asks about_dealers (guests cheat)) /\
  let ends := fun cheat =>
    match key_generated (E:=BE) ex_dkg_params 1 [0]%nat [1; 2]%nat (guests cheat) (@oracle BE) (be_seed (map rs [10; 20; 30; 40]%Z) (repeat Byte.x01 32)) with
    | Ret (Some (_, [s], K)) => s_eqb s (rs 30) && e_eqb (pk_element K) (re (10 + (3 + 37)))
    | _ => false
    end in
  ends (rs 0) = true /\ ends (rs 1) = false.
Proof.
  split; [exact RE_ser_total|]. split; [vm_compute; discriminate|]. split; [split; [cbn; lia|vm_compute; reflexivity]|].
  split; [cbn; lia|].
  split; [repeat split; [repeat constructor; cbn; intuition lia|intros j [<-|[]]; cbn; lia]|].
  split; [repeat split; [repeat constructor; cbn; intuition lia|intros j [<-|[<-|[]]]; cbn; lia]|].
  split; [exact be_seeds|]. split; [intros xs; rewrite be_draws; reflexivity|]. split; [exact guests_asks|].
  vm_compute. split; reflexivity.
Qed.

(** Two voters exchange their votes: four attackers on DDH. *)
Example C77_example_exchange :
  exists dom, NoDup dom /\
  forall o0 (D : PublicInfo BE -> list (Scalar BE) -> PublicKey BE -> list (list (Ciphertext BE) * RingProof BE * LogEqualityProof BE) -> strategy (Scalar BE) bool),
    let a := fun _ : PublicKey BE => first_option in
    let b := fun _ : PublicKey BE => last_option in
    let open := repeat Byte.x01 32 in
    let hashes := all_hashes (all_scalars RL) dom o0 in
    let seen := fun votes => dkg_guesses (E:=BE) RL ex_dkg_params 1 [0]%nat [1; 2]%nat ((3 * 5 + 1) * 2) be_seed open (fun xs => be_seed xs []) hashes
      (cast (real_single 5) votes) (guests (rs 0)) D in
    let gap (v : PublicKey BE -> list bool) (before after : list (PublicKey BE -> list bool)) :=
      ddh_gap (E:=BE) RL (list_prod (tapes (E:=BE) RL ((3 * 5 + 1) * (List.length before + List.length after))) (attacker_coins (E:=BE) RL 5 (2 * 2 + (3 + 2 * 5)) hashes))
        (dkg_election_attacker (E:=BE) RL ex_dkg_params 1 [0]%nat [1; 2]%nat (real_single 5) open (fun xs => be_seed xs [])
           (fun K => map bit_element (v K)) simulate_single before after (guests (rs 0)) D) in
    (order RL ^ Z.of_nat (5 + 4) * (order RL - 1) * (seen [a; b] - seen [b; a]) =
     gap a [] [b] - gap b [] [b] + (gap b [b] [] - gap a [b] []))%Z.
Proof.
  destruct C77_example as (Ht & Hb & Hp & Hi & Hc & Hq & Hs & Hv & HA & _).
  destruct (C70_hash_inputs BE RL Ht Hb ex_dkg_params [0]%nat Hp Hc _ _ 5 13 (fun K c s => choice_ranges_verifier (E:=BE) K c (ring_proof_of (E:=BE) (tl (tl s))))
    (fun K c s => sum_verifier (E:=BE) K c {| le_challenge := hd 0%S s; le_response := hd 0%S (tl s) |})) as (dom & Hd & H0 & H1 & H2).
  exists dom. split; [exact Hd|]. intros o0 D a b open hashes seen gap.
  assert (Hok : forall l, Forall (fun v : PublicKey BE -> list bool => v = a \/ v = b) l ->
    Forall (fun v : PublicKey BE -> list bool => forall K, List.length (v K) = 5%nat /\ count_occ bool_dec (v K) true = 1%nat) l).
  { intros l H. eapply Forall_impl; [|exact H]. intros v [->| ->] K; split; reflexivity. }
  transitivity (hybrids gap [] [a; b] [b; a]); [|cbn [hybrids app]; rewrite Z.add_0_r; reflexivity].
  exact (C77_single_choice BE RL Ht Hb ex_dkg_params 1 [0]%nat [1; 2]%nat Hp Hi Hc Hq be_seed open (fun xs => be_seed xs []) Hs eq_refl Hv dom o0 Hd H0 (guests (rs 0)) (HA _)
    5 ltac:(lia) eq_refl H1 H2 [a; b] [b; a] D eq_refl
    ltac:(apply Hok; repeat apply Forall_cons; auto) ltac:(apply Hok; repeat apply Forall_cons; auto)).
Qed.
