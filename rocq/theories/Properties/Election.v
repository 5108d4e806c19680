(** * C71: an election keeps all ballots secret

    All voters cast their ballots under one key, and the distinguisher sees all of them.  For any two lists of votes,
    telling apart all ballots is breaking DDH: there are two attackers per voter (Spec/Election.v), and each runs the
    distinguisher once.  In the second half the key is shared, and the distinguisher knows the secret shares of [t - 1]
    participants. *)
From Coq Require Import List NArith ZArith String Bool Lia.
From Verif.Properties Require Import Keys Uniform Sharing Secrecy Coalition Domains.
From Verif.Model Require Import Base Group Transcript Keys Encryption LogEquality Possession Ring Range Choice Sharing.
From Verif.Spec Require Import Encryption Range Choice Sharing Domains Rom Forking Verifiers Uniform Secrecy Coalition Election.
From Verif.Proofs Require Import Algebra Range RangeProof Quadratic Rom Forking UniformRing UniformBallots Sharing Secrecy SecrecyBallots Coalition Election.
From Verif.Instance Require Import Primality Zq.
Import ListNotations.
Open Scope string_scope.
Open Scope list_scope.

(** ** the clients depend on the answers of the hash only *)
Section Ext.
Context (E : Env).
Lemma ext_at (o o' : hash (Scalar E)) t0 : (forall y, anything y -> answer o y = answer o' y) -> agrees (hashed_by E o') o t0.
Proof. intros H t l _. exact (H (t, l) I). Qed.

Lemma encryption_ext M K r : Forking.reads (Scalar E) anything (fun o => real_encryption (E:=E) M o K r).
Proof. intros o o' H. reflexivity. Qed.
Lemma bool_ext v K r : Forking.reads (Scalar E) anything (fun o => real_bool (E:=E) v o K r).
Proof.
  intros o o' H. unfold real_bool.
  exact (f_equal (fun m => bind m _) (same_encrypt_bool (hashed_by E o') o (ext_at o o' _ H) K (v K) r)).
Qed.
Lemma range_ext pr v K r : Forking.reads (Scalar E) anything (fun o => real_range (E:=E) pr v o K r).
Proof.
  intros o o' H. unfold real_range.
  exact (f_equal (fun m => bind m _) (same_encrypt_range (hashed_by E o') o (ext_at o o' _ H) K pr v r)).
Qed.
Lemma multi_ext n v K r : Forking.reads (Scalar E) anything (fun o => real_multi (E:=E) n v o K r).
Proof.
  intros o o' H. exact (same_choice_multi (hashed_by E o') o n K (ext_at o o' _ H) (v K) r).
Qed.
Lemma single_ext n v K r : Forking.reads (Scalar E) anything (fun o => real_single (E:=E) n v o K r).
Proof.
  intros o o' H. exact (same_choice_single (hashed_by E o') o n K (ext_at o o' _ H) (ext_at o o' _ H) (v K) r).
Qed.
End Ext.

Lemma all_true {T : Type} (l : list T) : Forall (fun _ => True) l.
Proof. induction l; constructor; trivial. Qed.

Theorem C71_encryptions :
  forall (E : Env) (L : GroupLaws E), ser_total E -> forall seed, seeds seed -> forall dom o0, NoDup dom ->
  forall (votes votes' : list (PublicKey E -> Element E)) D, List.length votes = List.length votes' ->
    let hashes := all_hashes (all_scalars L) dom o0 in
    let gap := fun (v : PublicKey E -> Element E) (before after : list (PublicKey E -> Element E)) =>
      ddh_gap L (list_prod (tapes L (1 * (List.length before + List.length after))) (attacker_coins L 1 0 hashes))
        (election_attacker real_encryption seed (fun K => [v K]) simulate_encryption all_ballots before after D) in
    (order L ^ 2 * (order L - 1) *
       (guesses L (1 * List.length votes) seed hashes (cast real_encryption votes) D -
        guesses L (1 * List.length votes') seed hashes (cast real_encryption votes') D) = hybrids gap [] votes votes')%Z.
Proof.
  intros E L Ht seed Hs dom o0 Hd votes votes' D Hl hashes gap.
  destruct (encryption_scheme E L Ht dom o0) as (assemble & acc & Hsim & Hside).
  exact (election_secret E L Ht seed Hs dom o0 _ _ (fun _ => True) (encryption_ext E) 1 0 0 _ _ _ (fun v K => [v K]) D Hsim (fun v _ => Hside v) votes votes' (all_true _) (all_true _) Hl).
Qed.
Print Assumptions C71_encryptions.

Theorem C71_bools :
  forall (E : Env) (L : GroupLaws E), ser_total E -> forall seed, seeds seed -> forall dom o0, NoDup dom ->
  covers dom 1 3 (fun K c s => bool_verifier (E:=E) K (first_of (E:=E) c) (ring_proof_of (E:=E) s)) ->
  forall (votes votes' : list (PublicKey E -> bool)) D, List.length votes = List.length votes' ->
    let hashes := all_hashes (all_scalars L) dom o0 in
    let gap := fun (v : PublicKey E -> bool) (before after : list (PublicKey E -> bool)) =>
      ddh_gap L (list_prod (tapes L (3 * (List.length before + List.length after))) (attacker_coins L 1 3 hashes))
        (election_attacker real_bool seed (fun K => [bit_element (v K)]) simulate_bool all_ballots before after D) in
    (order L ^ 3 * (order L - 1) *
       (guesses L (3 * List.length votes) seed hashes (cast real_bool votes) D -
        guesses L (3 * List.length votes') seed hashes (cast real_bool votes') D) = hybrids gap [] votes votes')%Z.
Proof.
  intros E L Ht seed Hs dom o0 Hd Hc votes votes' D Hl.
  destruct (bool_scheme E L Ht dom o0 Hd Hc) as (assemble & acc & Hsim & Hside).
  exact (election_secret E L Ht seed Hs dom o0 _ _ (fun _ => True) (bool_ext E) 1 3 1 _ _ _ (fun v K => [bit_element (v K)]) D Hsim (fun v _ => Hside v) votes votes' (all_true _) (all_true _) Hl).
Qed.
Print Assumptions C71_bools.

Theorem C71_multi_choice :
  forall (E : Env) (L : GroupLaws E), ser_total E -> forall seed, seeds seed -> forall dom o0, NoDup dom ->
  forall n, (0 < n)%nat -> (N.of_nat n < 2 ^ 64)%N ->
  covers dom n (1 + 2 * n) (fun K c s => choice_ranges_verifier (E:=E) K c (ring_proof_of (E:=E) s)) ->
  forall (votes votes' : list (PublicKey E -> list bool)) D, List.length votes = List.length votes' ->
    Forall (fun v => forall K, List.length (v K) = n) votes -> Forall (fun v => forall K, List.length (v K) = n) votes' ->
    let hashes := all_hashes (all_scalars L) dom o0 in
    let gap := fun (v : PublicKey E -> list bool) (before after : list (PublicKey E -> list bool)) =>
      ddh_gap L (list_prod (tapes L ((3 * n) * (List.length before + List.length after))) (attacker_coins L n (1 + 2 * n) hashes))
        (election_attacker (real_multi n) seed (fun K => map bit_element (v K)) simulate_multi all_ballots before after D) in
    (order L ^ Z.of_nat (n + 2) * (order L - 1) *
       (guesses L ((3 * n) * List.length votes) seed hashes (cast (real_multi n) votes) D -
        guesses L ((3 * n) * List.length votes') seed hashes (cast (real_multi n) votes') D) = hybrids gap [] votes votes')%Z.
Proof.
  intros E L Ht seed Hs dom o0 Hd n Hn Hn' Hc votes votes' D Hl Hv Hv'.
  destruct (multi_scheme E L Ht dom o0 Hd n Hn Hn' Hc) as (assemble & acc & Hsim & Hside).
  replace (n + 2)%nat with (n + 1 + 1)%nat by lia.
  exact (election_secret E L Ht seed Hs dom o0 _ _ _ (multi_ext E n) n (1 + 2 * n) 1 _ _ _ (fun v K => map bit_element (v K)) D Hsim Hside votes votes' Hv Hv' Hl).
Qed.
Print Assumptions C71_multi_choice.

Theorem C71_single_choice :
  forall (E : Env) (L : GroupLaws E), ser_total E -> forall seed, seeds seed -> forall dom o0, NoDup dom ->
  forall n, (0 < n)%nat -> (N.of_nat n < 2 ^ 64)%N ->
  covers dom n (3 + 2 * n) (fun K c s => choice_ranges_verifier (E:=E) K c (ring_proof_of (E:=E) (tl (tl s)))) ->
  covers dom n (3 + 2 * n) (fun K c s => sum_verifier (E:=E) K c {| le_challenge := hd 0%S s; le_response := hd 0%S (tl s) |}) ->
  forall (votes votes' : list (PublicKey E -> list bool)) D, List.length votes = List.length votes' ->
    Forall (fun v => forall K, List.length (v K) = n /\ count_occ bool_dec (v K) true = 1%nat) votes ->
    Forall (fun v => forall K, List.length (v K) = n /\ count_occ bool_dec (v K) true = 1%nat) votes' ->
    let hashes := all_hashes (all_scalars L) dom o0 in
    let gap := fun (v : PublicKey E -> list bool) (before after : list (PublicKey E -> list bool)) =>
      ddh_gap L (list_prod (tapes L ((3 * n + 1) * (List.length before + List.length after))) (attacker_coins L n (3 + 2 * n) hashes))
        (election_attacker (real_single n) seed (fun K => map bit_element (v K)) simulate_single all_ballots before after D) in
    (order L ^ Z.of_nat (n + 3) * (order L - 1) *
       (guesses L ((3 * n + 1) * List.length votes) seed hashes (cast (real_single n) votes) D -
        guesses L ((3 * n + 1) * List.length votes') seed hashes (cast (real_single n) votes') D) = hybrids gap [] votes votes')%Z.
Proof.
  intros E L Ht seed Hs dom o0 Hd n Hn Hn' Hc Hc' votes votes' D Hl Hv Hv'.
  destruct (single_scheme E L Ht dom o0 Hd n Hn Hn' Hc Hc') as (assemble & acc & Hsim & Hside).
  replace (n + 3)%nat with (n + 2 + 1)%nat by lia.
  exact (election_secret E L Ht seed Hs dom o0 _ _ _ (single_ext E n) n (3 + 2 * n) 2 _ _ _ (fun v K => map bit_element (v K)) D Hsim Hside votes votes' Hv Hv' Hl).
Qed.
Print Assumptions C71_single_choice.

Theorem C71_ranges :
  forall (E : Env) (L : GroupLaws E), ser_total E -> forall seed, seeds seed -> forall dom o0, NoDup dom ->
  forall est n d pr, (n + 64 < 2 ^ 64)%N -> RangeDecomposition_optimal (env_build E) est n = Ret d -> PreparedRange_new d = Ret pr ->
  let k := (1 + N.to_nat (n_sum (map rs_size d)))%nat in
  covers dom (List.length d) k (fun K c s =>
    range_verifier (E:=E) {| rap_partial := tl c; rap_inner := ring_proof_of (E:=E) s |} K pr (first_of (E:=E) c) (transcript_new "ciphertext_range")) ->
  exists idx : N -> list N, (forall v, (v < n)%N -> in_rings d (idx v) /\ composed d (idx v) = v) /\
  forall (votes votes' : list N) D, List.length votes = List.length votes' -> Forall (fun v => v < n)%N votes -> Forall (fun v => v < n)%N votes' ->
    let hashes := all_hashes (all_scalars L) dom o0 in
    let gap := fun (v : N) (before after : list (N)) =>
      ddh_gap L (list_prod (tapes L (range_draws d * (List.length before + List.length after))) (attacker_coins L (List.length d) k hashes))
        (election_attacker (real_range pr) seed (fun _ => range_messages d v (idx v)) (simulate_range pr) all_ballots before after D) in
    (order L ^ Z.of_nat (List.length d + 2) * (order L - 1) *
       (guesses L (range_draws d * List.length votes) seed hashes (cast (real_range pr) votes) D -
        guesses L (range_draws d * List.length votes') seed hashes (cast (real_range pr) votes') D) = hybrids gap [] votes votes')%Z.
Proof.
  intros E L Ht seed Hs dom o0 Hd est n d pr Hn H Hpr k Hc.
  pose proof (optimal_valid _ est n d ltac:(unfold u64_lim; lia) H) as Hdv.
  rewrite (prepared_ok E L n d Hdv) in Hpr by (unfold u64_lim; lia). injection Hpr as <-.
  exists (digits E d). split.
  { intros v Hv. destruct (digits_ok E n d v Hdv ltac:(unfold u64_lim; lia) Hv) as (_ & Hin & Hco). auto. }
  intros votes votes' D Hl Hv Hv'.
  destruct (range_scheme E L Ht dom o0 Hd n d Hdv Hn Hc) as (assemble & acc & Hsim & Hside).
  replace (List.length d + 2)%nat with (List.length d + 1 + 1)%nat by lia.
  exact (election_secret E L Ht seed Hs dom o0 _ _ _ (range_ext E _) (List.length d) k 1 _ _ _ (fun v _ => range_messages d v (digits E d v)) D Hsim Hside votes votes' Hv Hv' Hl).
Qed.
Print Assumptions C71_ranges.

(** ** with a shared key, against [t - 1] of the participants *)
Theorem C71_shared_encryptions :
  forall (E : Env) (L : GroupLaws E), ser_total E -> (2 ^ 64 <= order L)%Z ->
  forall params is_, params_ok params -> coalition params is_ ->
  forall seed, seeds seed -> forall dom o0, NoDup dom -> covers_dealing L dom params is_ ->
  forall (votes votes' : list (PublicKey E -> Element E)) D, List.length votes = List.length votes' ->
    let hashes := all_hashes (all_scalars L) dom o0 in
    let gap := fun (v : PublicKey E -> Element E) (before after : list (PublicKey E -> Element E)) =>
      ddh_gap L (list_prod (tapes L (1 * (List.length before + List.length after))) (attacker_coins L 1 (2 * pa_threshold params) hashes))
        (election_attacker real_encryption seed (fun K => [v K]) (simulate_dealing L params is_ simulate_encryption) all_dealt before after (coalition_view L is_ D)) in
    (order L ^ 3 * (order L - 1) *
       (dealt_guesses L params is_ (1 * List.length votes) seed hashes (cast real_encryption votes) D -
        dealt_guesses L params is_ (1 * List.length votes') seed hashes (cast real_encryption votes') D) = hybrids gap [] votes votes')%Z.
Proof.
  intros E L Ht Hb params is_ Hp (H1 & H2 & H3) seed Hs dom o0 Hd Hcd votes votes' D Hl hashes gap.
  destruct (encryption_scheme E L Ht dom o0) as (assemble & acc & Hsim & Hside).
  unfold gap. rewrite <- (Nat.add_0_r (2 * pa_threshold params)).
  exact (dealt_election_secret E L Ht seed Hs dom o0 _ _ (fun _ => True) (encryption_ext E) Hb params Hp is_ H1 H2 H3 Hd Hcd 1 0 0 _ _ _ (fun v K => [v K]) D Hsim (fun v _ => Hside v) votes votes' (all_true _) (all_true _) Hl).
Qed.
Print Assumptions C71_shared_encryptions.

Theorem C71_shared_bools :
  forall (E : Env) (L : GroupLaws E), ser_total E -> (2 ^ 64 <= order L)%Z ->
  forall params is_, params_ok params -> coalition params is_ ->
  forall seed, seeds seed -> forall dom o0, NoDup dom -> covers_dealing L dom params is_ ->
  covers dom 1 3 (fun K c s => bool_verifier (E:=E) K (first_of (E:=E) c) (ring_proof_of (E:=E) s)) ->
  forall (votes votes' : list (PublicKey E -> bool)) D, List.length votes = List.length votes' ->
    let hashes := all_hashes (all_scalars L) dom o0 in
    let gap := fun (v : PublicKey E -> bool) (before after : list (PublicKey E -> bool)) =>
      ddh_gap L (list_prod (tapes L (3 * (List.length before + List.length after))) (attacker_coins L 1 (2 * pa_threshold params + 3) hashes))
        (election_attacker real_bool seed (fun K => [bit_element (v K)]) (simulate_dealing L params is_ simulate_bool) all_dealt before after (coalition_view L is_ D)) in
    (order L ^ 4 * (order L - 1) *
       (dealt_guesses L params is_ (3 * List.length votes) seed hashes (cast real_bool votes) D -
        dealt_guesses L params is_ (3 * List.length votes') seed hashes (cast real_bool votes') D) = hybrids gap [] votes votes')%Z.
Proof.
  intros E L Ht Hb params is_ Hp (H1 & H2 & H3) seed Hs dom o0 Hd Hcd Hc votes votes' D Hl.
  destruct (bool_scheme E L Ht dom o0 Hd Hc) as (assemble & acc & Hsim & Hside).
  exact (dealt_election_secret E L Ht seed Hs dom o0 _ _ (fun _ => True) (bool_ext E) Hb params Hp is_ H1 H2 H3 Hd Hcd 1 3 1 _ _ _ (fun v K => [bit_element (v K)]) D Hsim (fun v _ => Hside v) votes votes' (all_true _) (all_true _) Hl).
Qed.
Print Assumptions C71_shared_bools.

Theorem C71_shared_multi_choice :
  forall (E : Env) (L : GroupLaws E), ser_total E -> (2 ^ 64 <= order L)%Z ->
  forall params is_, params_ok params -> coalition params is_ ->
  forall seed, seeds seed -> forall dom o0, NoDup dom -> covers_dealing L dom params is_ ->
  forall n, (0 < n)%nat -> (N.of_nat n < 2 ^ 64)%N ->
  covers dom n (1 + 2 * n) (fun K c s => choice_ranges_verifier (E:=E) K c (ring_proof_of (E:=E) s)) ->
  forall (votes votes' : list (PublicKey E -> list bool)) D, List.length votes = List.length votes' ->
    Forall (fun v => forall K, List.length (v K) = n) votes -> Forall (fun v => forall K, List.length (v K) = n) votes' ->
    let hashes := all_hashes (all_scalars L) dom o0 in
    let gap := fun (v : PublicKey E -> list bool) (before after : list (PublicKey E -> list bool)) =>
      ddh_gap L (list_prod (tapes L ((3 * n) * (List.length before + List.length after))) (attacker_coins L n (2 * pa_threshold params + (1 + 2 * n)) hashes))
        (election_attacker (real_multi n) seed (fun K => map bit_element (v K)) (simulate_dealing L params is_ simulate_multi) all_dealt before after (coalition_view L is_ D)) in
    (order L ^ Z.of_nat (n + 3) * (order L - 1) *
       (dealt_guesses L params is_ ((3 * n) * List.length votes) seed hashes (cast (real_multi n) votes) D -
        dealt_guesses L params is_ ((3 * n) * List.length votes') seed hashes (cast (real_multi n) votes') D) = hybrids gap [] votes votes')%Z.
Proof.
  intros E L Ht Hb params is_ Hp (H1 & H2 & H3) seed Hs dom o0 Hd Hcd n Hn Hn' Hc votes votes' D Hl Hv Hv'.
  destruct (multi_scheme E L Ht dom o0 Hd n Hn Hn' Hc) as (assemble & acc & Hsim & Hside).
  replace (n + 3)%nat with (n + 1 + 2)%nat by lia.
  exact (dealt_election_secret E L Ht seed Hs dom o0 _ _ _ (multi_ext E n) Hb params Hp is_ H1 H2 H3 Hd Hcd n (1 + 2 * n) 1 _ _ _ (fun v K => map bit_element (v K)) D Hsim Hside votes votes' Hv Hv' Hl).
Qed.
Print Assumptions C71_shared_multi_choice.

Theorem C71_shared_single_choice :
  forall (E : Env) (L : GroupLaws E), ser_total E -> (2 ^ 64 <= order L)%Z ->
  forall params is_, params_ok params -> coalition params is_ ->
  forall seed, seeds seed -> forall dom o0, NoDup dom -> covers_dealing L dom params is_ ->
  forall n, (0 < n)%nat -> (N.of_nat n < 2 ^ 64)%N ->
  covers dom n (3 + 2 * n) (fun K c s => choice_ranges_verifier (E:=E) K c (ring_proof_of (E:=E) (tl (tl s)))) ->
  covers dom n (3 + 2 * n) (fun K c s => sum_verifier (E:=E) K c {| le_challenge := hd 0%S s; le_response := hd 0%S (tl s) |}) ->
  forall (votes votes' : list (PublicKey E -> list bool)) D, List.length votes = List.length votes' ->
    Forall (fun v => forall K, List.length (v K) = n /\ count_occ bool_dec (v K) true = 1%nat) votes ->
    Forall (fun v => forall K, List.length (v K) = n /\ count_occ bool_dec (v K) true = 1%nat) votes' ->
    let hashes := all_hashes (all_scalars L) dom o0 in
    let gap := fun (v : PublicKey E -> list bool) (before after : list (PublicKey E -> list bool)) =>
      ddh_gap L (list_prod (tapes L ((3 * n + 1) * (List.length before + List.length after))) (attacker_coins L n (2 * pa_threshold params + (3 + 2 * n)) hashes))
        (election_attacker (real_single n) seed (fun K => map bit_element (v K)) (simulate_dealing L params is_ simulate_single) all_dealt before after (coalition_view L is_ D)) in
    (order L ^ Z.of_nat (n + 4) * (order L - 1) *
       (dealt_guesses L params is_ ((3 * n + 1) * List.length votes) seed hashes (cast (real_single n) votes) D -
        dealt_guesses L params is_ ((3 * n + 1) * List.length votes') seed hashes (cast (real_single n) votes') D) = hybrids gap [] votes votes')%Z.
Proof.
  intros E L Ht Hb params is_ Hp (H1 & H2 & H3) seed Hs dom o0 Hd Hcd n Hn Hn' Hc Hc' votes votes' D Hl Hv Hv'.
  destruct (single_scheme E L Ht dom o0 Hd n Hn Hn' Hc Hc') as (assemble & acc & Hsim & Hside).
  replace (n + 4)%nat with (n + 2 + 2)%nat by lia.
  exact (dealt_election_secret E L Ht seed Hs dom o0 _ _ _ (single_ext E n) Hb params Hp is_ H1 H2 H3 Hd Hcd n (3 + 2 * n) 2 _ _ _ (fun v K => map bit_element (v K)) D Hsim Hside votes votes' Hv Hv' Hl).
Qed.
Print Assumptions C71_shared_single_choice.

Theorem C71_shared_ranges :
  forall (E : Env) (L : GroupLaws E), ser_total E -> (2 ^ 64 <= order L)%Z ->
  forall params is_, params_ok params -> coalition params is_ ->
  forall seed, seeds seed -> forall dom o0, NoDup dom -> covers_dealing L dom params is_ ->
  forall est n d pr, (n + 64 < 2 ^ 64)%N -> RangeDecomposition_optimal (env_build E) est n = Ret d -> PreparedRange_new d = Ret pr ->
  let k := (1 + N.to_nat (n_sum (map rs_size d)))%nat in
  covers dom (List.length d) k (fun K c s =>
    range_verifier (E:=E) {| rap_partial := tl c; rap_inner := ring_proof_of (E:=E) s |} K pr (first_of (E:=E) c) (transcript_new "ciphertext_range")) ->
  exists idx : N -> list N, (forall v, (v < n)%N -> in_rings d (idx v) /\ composed d (idx v) = v) /\
  forall (votes votes' : list N) D, List.length votes = List.length votes' -> Forall (fun v => v < n)%N votes -> Forall (fun v => v < n)%N votes' ->
    let hashes := all_hashes (all_scalars L) dom o0 in
    let gap := fun (v : N) (before after : list (N)) =>
      ddh_gap L (list_prod (tapes L (range_draws d * (List.length before + List.length after))) (attacker_coins L (List.length d) (2 * pa_threshold params + k) hashes))
        (election_attacker (real_range pr) seed (fun _ => range_messages d v (idx v)) (simulate_dealing L params is_ (simulate_range pr)) all_dealt before after (coalition_view L is_ D)) in
    (order L ^ Z.of_nat (List.length d + 3) * (order L - 1) *
       (dealt_guesses L params is_ (range_draws d * List.length votes) seed hashes (cast (real_range pr) votes) D -
        dealt_guesses L params is_ (range_draws d * List.length votes') seed hashes (cast (real_range pr) votes') D) = hybrids gap [] votes votes')%Z.
Proof.
  intros E L Ht Hb params is_ Hp (H1 & H2 & H3) seed Hs dom o0 Hd Hcd est n d pr Hn H Hpr k Hc.
  pose proof (optimal_valid _ est n d ltac:(unfold u64_lim; lia) H) as Hdv.
  rewrite (prepared_ok E L n d Hdv) in Hpr by (unfold u64_lim; lia). injection Hpr as <-.
  exists (digits E d). split.
  { intros v Hv. destruct (digits_ok E n d v Hdv ltac:(unfold u64_lim; lia) Hv) as (_ & Hin & Hco). auto. }
  intros votes votes' D Hl Hv Hv'.
  destruct (range_scheme E L Ht dom o0 Hd n d Hdv Hn Hc) as (assemble & acc & Hsim & Hside).
  replace (List.length d + 3)%nat with (List.length d + 1 + 2)%nat by lia.
  exact (dealt_election_secret E L Ht seed Hs dom o0 _ _ _ (range_ext E _) Hb params Hp is_ H1 H2 H3 Hd Hcd (List.length d) k 1 _ _ _ (fun v _ => range_messages d v (digits E d v)) D Hsim Hside votes votes' Hv Hv' Hl).
Qed.
Print Assumptions C71_shared_ranges.

(** ** Examples *)

(** two voters exchange their votes: four attackers *)
Example C71_example_exchange :
  exists dom, NoDup dom /\
  forall o0 (D : PublicKey SE -> list (list (Ciphertext SE) * RingProof SE * LogEqualityProof SE) -> strategy (Scalar SE) bool),
    let a := fun _ : PublicKey SE => first_option in
    let b := fun _ : PublicKey SE => last_option in
    let hashes := all_hashes (all_scalars RL) dom o0 in
    let gap (v : PublicKey SE -> list bool) (before after : list (PublicKey SE -> list bool)) :=
      ddh_gap (E:=SE) RL (list_prod (tapes (E:=SE) RL ((3 * 5 + 1) * (List.length before + List.length after))) (attacker_coins (E:=SE) RL 5 (3 + 2 * 5) hashes))
        (election_attacker (E:=SE) (real_single 5) se_seed (fun K => map bit_element (v K)) simulate_single all_ballots before after D) in
    (order RL ^ Z.of_nat (5 + 3) * (order RL - 1) *
       (guesses (E:=SE) RL ((3 * 5 + 1) * List.length [a; b]) se_seed hashes (cast (real_single 5) [a; b]) D -
        guesses (E:=SE) RL ((3 * 5 + 1) * List.length [b; a]) se_seed hashes (cast (real_single 5) [b; a]) D) =
     gap a [] [b] - gap b [] [b] + (gap b [b] [] - gap a [b] []))%Z.
Proof.
  destruct (C69_hash_inputs SE RL RE_ser_total _ _ 5 13 (fun K c s => choice_ranges_verifier (E:=SE) K c (ring_proof_of (E:=SE) (tl (tl s))))
    (fun K c s => sum_verifier (E:=SE) K c {| le_challenge := hd 0%S s; le_response := hd 0%S (tl s) |})) as (dom & Hd & H1 & H2).
  exists dom. split; [exact Hd|]. intros o0 D a b hashes gap.
  assert (Hok : forall l, Forall (fun v : PublicKey SE -> list bool => v = a \/ v = b) l ->
    Forall (fun v : PublicKey SE -> list bool => forall K, List.length (v K) = 5%nat /\ count_occ bool_dec (v K) true = 1%nat) l).
  { intros l H. eapply Forall_impl; [|exact H]. intros v [->| ->] K; split; reflexivity. }
  transitivity (hybrids gap [] [a; b] [b; a]); [|cbn [hybrids app]; rewrite Z.add_0_r; reflexivity].
  exact (C71_single_choice SE RL RE_ser_total se_seed se_seeds dom o0 Hd 5 ltac:(lia) eq_refl H1 H2 [a; b] [b; a] D eq_refl
    ltac:(apply Hok; repeat apply Forall_cons; auto) ltac:(apply Hok; repeat apply Forall_cons; auto)).
Qed.

(** three voters, a coalition of two of five participants *)
Example C71_example_votes :
  params_ok ex_params /\ coalition ex_params [0; 3]%nat /\ (2 ^ 64 <= order RL)%Z /\
  Forall (fun v : PublicKey SE -> list bool => forall K, List.length (v K) = 5%nat /\ count_occ bool_dec (v K) true = 1%nat)
    [(fun _ => first_option); (fun _ => last_option); (fun _ => first_option)] /\
  exists dom, NoDup dom /\ covers_dealing (E:=SE) RL dom ex_params [0; 3]%nat /\
    covers dom 5 13 (fun K c s => choice_ranges_verifier (E:=SE) K c (ring_proof_of (E:=SE) (tl (tl s)))) /\
    covers dom 5 13 (fun K c s => sum_verifier (E:=SE) K c {| le_challenge := hd 0%S s; le_response := hd 0%S (tl s) |}).
Proof.
  destruct C70_example_coalition as (Hp & Hc & Hb). do 3 (split; [assumption|]). split; [repeat constructor|].
  exact (C70_hash_inputs SE RL RE_ser_total Hb ex_params [0; 3]%nat Hp Hc _ _ 5 13 _ _).
Qed.
