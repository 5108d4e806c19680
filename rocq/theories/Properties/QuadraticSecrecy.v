(** * C72: quadratic voting ballots keep the votes secret

    All voters cast quadratic voting ballots under one key.  For any two lists of votes within the limits, telling apart
    all ballots is breaking DDH: there are two attackers per encrypted number (Spec/QuadraticSecrecy.v), and each runs the
    distinguisher once.  In the second theorem the key is shared, and the distinguisher knows the secret shares of [t - 1]
    participants. *)
From Coq Require Import List NArith ZArith String Bool Lia.
From Verif.Properties Require Import Keys LogEquality Uniform Quadratic Sharing Secrecy Coalition Domains Election.
From Verif.Model Require Import Base Group Transcript Keys Encryption LogEquality Possession Ring Range Choice Mul Quadratic Sharing.
From Verif.Proofs Require Import Algebra Range RangeProof Quadratic Rom Forking UniformRing UniformBallots Sharing Secrecy SecrecyBallots Coalition Election QuadraticSecrecy.
From Verif.Spec Require Import Encryption Range Choice Sharing Quadratic Domains Rom Forking Verifiers Uniform Secrecy Coalition Election QuadraticSecrecy.
From Verif.Instance Require Import Primality Zq.
Import ListNotations.
Open Scope string_scope.
Open Scope list_scope.

Lemma quadratic_ext (E : Env) p votes K r : Forking.reads (Scalar E) anything (fun o => real_quadratic (E:=E) p votes o K r).
Proof.
  intros o o' H. unfold real_quadratic.
  exact (same_qv_ballot (hashed_by E o') o (ext_at E o o' _ H) (ext_at E o o' _ H) (ext_at E o o' _ H) (with_receiver p K) votes r).
Qed.

Theorem C72_ballots :
  forall (E : Env) (L : GroupLaws E), ser_total E -> forall seed, seeds seed -> forall dom o0, NoDup dom ->
  forall receiver options credits max (p : QuadraticVotingParams E), (credits + 65 < 2 ^ 64)%N -> qv_params receiver options credits max p ->
  covers_quadratic p dom ->
  exists idx : part -> list N,
  (forall x, (number x <= if for_vote x then max else credits)%N -> in_rings (decomposition p x) (idx x) /\ composed (decomposition p x) (idx x) = number x) /\
  forall (votes votes' : list (list N)) D, List.length votes = List.length votes' ->
    Forall (allowed options credits max) votes -> Forall (allowed options credits max) votes' ->
    let hashes := all_hashes (all_scalars L) dom o0 in
    let nv := List.length (pr_inner (qv_vote_count_range p)) in
    let nc := List.length (pr_inner (qv_credit_range p)) in
    let gap := fun before after x parts_before parts_after =>
      (weight L p x * ddh_gap L
         (list_prod (tapes L (ballot_scalars p * (List.length before + List.length after)))
           (list_prod (tapes L (2 + 2 * options))
             (list_prod (tapes L (parts_scalars p parts_before + parts_scalars p parts_after))
               (attacker_coins L (List.length (decomposition p x)) (proof_scalars p x) hashes))))
         (quadratic_attacker p seed (fun _ => range_messages (decomposition p x) (number x) (idx x)) (simulate_part p x)
            all_parts parts_before parts_after before after (fun K v o => run o (D K (snd v)))))%Z in
    (order L ^ Z.of_nat (nv + nc + 3) * (order L - 1) *
       (guesses L (ballot_scalars p * List.length votes) seed hashes (cast (real_quadratic p) votes) D -
        guesses L (ballot_scalars p * List.length votes') seed hashes (cast (real_quadratic p) votes') D) =
     chain (fun v v' before after => hybrids (gap before after) [] (parts v) (parts v')) [] votes votes')%Z.
Proof.
  intros E L Ht seed Hs dom o0 Hd receiver options credits max p Hc Hp (Hce & Hcp).
  apply (qv_params_inv E L) in Hp; [|exact Hc]. destruct Hp as (dv & dc & Hv & Hcr & HV & _ & Ho & ->).
  set (p := {| qv_vote_count_range := _ |}) in *.
  exists (fun x => digits E (decomposition_of dv dc x) (number x)). split.
  { intros [v|v] Hx; cbn [for_vote number] in Hx |- *.
    - destruct (digits_ok E (max + 1) dv v Hv ltac:(unfold u64_lim; lia) ltac:(lia)) as (_ & Hin & Hco). auto.
    - destruct (digits_ok E (credits + 1) dc v Hcr ltac:(unfold u64_lim; lia) ltac:(lia)) as (_ & Hin & Hco). auto. }
  intros votes votes' D Hl Hok Hok' hashes nv nc gap.
  etransitivity.
  - refine (quadratic_plain E L Ht options max credits dv dc receiver Hv Hcr HV Hc seed Hs dom o0 Hd (quadratic_ext E _) Hce _ votes votes' D Hok Hok' Hl).
    intros x. specialize (Hcp x). destruct x; exact Hcp.
  - apply chain_ext. intros v v' b a. apply hybrids_ext. intros x pb pa. unfold gap.
    assert (Hps : forall l, parts_scalars p l = total (part_draws dv dc) l).
    { intros l. unfold parts_scalars, total. f_equal. apply map_ext. intros []; reflexivity. }
    rewrite !Hps. destruct x; reflexivity.
Qed.
Print Assumptions C72_ballots.

Theorem C72_shared_ballots :
  forall (E : Env) (L : GroupLaws E), ser_total E -> (2 ^ 64 <= order L)%Z ->
  forall params is_, params_ok params -> coalition params is_ ->
  forall seed, seeds seed -> forall dom o0, NoDup dom -> covers_dealing L dom params is_ ->
  forall receiver options credits max (p : QuadraticVotingParams E), (credits + 65 < 2 ^ 64)%N -> qv_params receiver options credits max p ->
  covers_quadratic p dom ->
  exists idx : part -> list N,
  (forall x, (number x <= if for_vote x then max else credits)%N -> in_rings (decomposition p x) (idx x) /\ composed (decomposition p x) (idx x) = number x) /\
  forall (votes votes' : list (list N)) D, List.length votes = List.length votes' ->
    Forall (allowed options credits max) votes -> Forall (allowed options credits max) votes' ->
    let hashes := all_hashes (all_scalars L) dom o0 in
    let nv := List.length (pr_inner (qv_vote_count_range p)) in
    let nc := List.length (pr_inner (qv_credit_range p)) in
    let gap := fun before after x parts_before parts_after =>
      (weight L p x * ddh_gap L
         (list_prod (tapes L (ballot_scalars p * (List.length before + List.length after)))
           (list_prod (tapes L (2 + 2 * options))
             (list_prod (tapes L (parts_scalars p parts_before + parts_scalars p parts_after))
               (attacker_coins L (List.length (decomposition p x)) (2 * pa_threshold params + proof_scalars p x) hashes))))
         (quadratic_attacker p seed (fun _ => range_messages (decomposition p x) (number x) (idx x)) (simulate_dealing L params is_ (simulate_part p x))
            all_dealt parts_before parts_after before after (fun K v o => run o (coalition_view L is_ D K v))))%Z in
    (order L ^ Z.of_nat (nv + nc + 4) * (order L - 1) *
       (dealt_guesses L params is_ (ballot_scalars p * List.length votes) seed hashes (cast (real_quadratic p) votes) D -
        dealt_guesses L params is_ (ballot_scalars p * List.length votes') seed hashes (cast (real_quadratic p) votes') D) =
     chain (fun v v' before after => hybrids (gap before after) [] (parts v) (parts v')) [] votes votes')%Z.
Proof.
  intros E L Ht Hb params is_ Hpa (H1 & H2 & H3) seed Hs dom o0 Hd Hcd receiver options credits max p Hc Hp (Hce & Hcp).
  apply (qv_params_inv E L) in Hp; [|exact Hc]. destruct Hp as (dv & dc & Hv & Hcr & HV & _ & Ho & ->).
  set (p := {| qv_vote_count_range := _ |}) in *.
  exists (fun x => digits E (decomposition_of dv dc x) (number x)). split.
  { intros [v|v] Hx; cbn [for_vote number] in Hx |- *.
    - destruct (digits_ok E (max + 1) dv v Hv ltac:(unfold u64_lim; lia) ltac:(lia)) as (_ & Hin & Hco). auto.
    - destruct (digits_ok E (credits + 1) dc v Hcr ltac:(unfold u64_lim; lia) ltac:(lia)) as (_ & Hin & Hco). auto. }
  intros votes votes' D Hl Hok Hok' hashes nv nc gap.
  etransitivity.
  - refine (quadratic_dealt E L Ht options max credits dv dc receiver Hv Hcr HV Hc seed Hs dom o0 Hd (quadratic_ext E _) Hce _ Hb params Hpa is_ H1 H2 H3 Hcd votes votes' D Hok Hok' Hl).
    intros x. specialize (Hcp x). destruct x; exact Hcp.
  - apply chain_ext. intros v v' b a. apply hybrids_ext. intros x pb pa. unfold gap.
    assert (Hps : forall l, parts_scalars p l = total (part_draws dv dc) l).
    { intros l. unfold parts_scalars, total. f_equal. apply map_ext. intros []; reflexivity. }
    rewrite !Hps. destruct x; reflexivity.
Qed.
Print Assumptions C72_shared_ballots.

(** Hash inputs as in the theorems exist. *)
Theorem C72_hash_inputs :
  forall (E : Env) (L : GroupLaws E), ser_total E -> (2 ^ 64 <= order L)%Z ->
  forall params is_, params_ok params -> coalition params is_ ->
  forall p : QuadraticVotingParams E, exists dom, NoDup dom /\ covers_dealing L dom params is_ /\ covers_quadratic p dom.
Proof.
  intros E L Ht Hb params is_ Hp (H1 & H2 & H3) p.
  destruct (covers_all E L Ht Hb params Hp is_ H1 H2 H3 (qv_options_count p + 1) (2 + 2 * qv_options_count p) (equivalence_verifier (E:=E)) (equivalence_verifier (E:=E))) as (d0 & _ & Ha & Hb0 & _).
  set (V := fun x K c s => range_verifier (E:=E) {| rap_partial := tl c; rap_inner := ring_proof_of (E:=E) s |} K (range_of p x) (first_of (E:=E) c) (context_of x)).
  destruct (covers_exist E L Ht (List.length (decomposition p (Vote 0))) (proof_scalars p (Vote 0)) (V (Vote 0))) as [d1 Hd1]. destruct (covers_exist E L Ht (List.length (decomposition p (Credit 0))) (proof_scalars p (Credit 0)) (V (Credit 0))) as [d2 Hd2].
  exists (nodup query_dec (d0 ++ d1 ++ d2)). split; [apply NoDup_nodup|].
  split; [|split].
  - intros K shares pf o Hx Hy y Hz. apply nodup_In, in_or_app. left. exact (Ha K shares pf o Hx Hy y Hz).
  - intros x K c s o Hk Hbb Hc Hs y Hy. apply nodup_In, in_or_app. left. exact (Hb0 x K c s o Hk Hbb Hc Hs y Hy).
  - intros kind x K c s o Hk Hbb Hc Hs y Hy. apply nodup_In, in_or_app. right. apply in_or_app.
    destruct kind as [v|v]; [left; exact (Hd1 x K c s o Hk Hbb Hc Hs y Hy)|right; exact (Hd2 x K c s o Hk Hbb Hc Hs y Hy)].
Qed.
Print Assumptions C72_hash_inputs.

(** ** Examples *)

(** two voters with 20 credits for three options; both spend all of them *)
Definition some_votes : list N := [4; 0; 2]%N.
Definition other_votes : list N := [0; 2; 4]%N.

Lemma votes_allowed l : Forall (fun v => v = some_votes \/ v = other_votes) l -> Forall (allowed 3 20 4) l.
Proof.
  apply Forall_impl. intros v [->| ->]; (split; [reflexivity|split; [repeat (apply Forall_cons; [discriminate|]); constructor|discriminate]]).
Qed.

(** the parameters of C44's example, a coalition of two of five participants *)
Example C72_example_parameters :
  params_ok ex_params /\ coalition ex_params [0; 3]%nat /\ (2 ^ 64 <= order RL)%Z /\
  Forall (allowed 3 20 4) [some_votes; other_votes] /\
  exists p dom, qv_params (E:=SE) (ex_key : PublicKey SE) 3 20 4 p /\ NoDup dom /\
    covers_dealing (E:=SE) RL dom ex_params [0; 3]%nat /\ covers_quadratic p dom.
Proof.
  destruct C70_example_coalition as (Hp & Hc & Hb). do 3 (split; [assumption|]). split; [apply votes_allowed; auto|].
  assert (Hr : match QuadraticVotingParams_new (E:=SE) (ex_key : PublicKey SE) 3 20 with Ret _ => true | Panic _ => false end = true) by (vm_compute; reflexivity).
  destruct (QuadraticVotingParams_new (E:=SE) (ex_key : PublicKey SE) 3 20) as [p|e] eqn:Hn; [clear Hr|discriminate Hr].
  destruct (C72_hash_inputs SE RL RE_ser_total Hb ex_params [0; 3]%nat Hp Hc p) as (dom & Hd & H1 & H2).
  exists p, dom. split; [|auto]. apply qv_created; [exact Hn| |]; reflexivity || discriminate.
Qed.

(** if one voter changes the votes, there are eight attackers *)
Definition eight (gap : part -> list part -> list part -> Z) : Z :=
  (gap (Vote 4) [] [Vote 0; Vote 2; Credit 20] - gap (Vote 0) [] [Vote 0; Vote 2; Credit 20] +
  (gap (Vote 0) [Vote 0] [Vote 2; Credit 20] - gap (Vote 2) [Vote 0] [Vote 2; Credit 20] +
  (gap (Vote 2) [Vote 0; Vote 2] [Credit 20] - gap (Vote 4) [Vote 0; Vote 2] [Credit 20] +
  (gap (Credit 20) [Vote 0; Vote 2; Vote 4] [] - gap (Credit 20) [Vote 0; Vote 2; Vote 4] []))))%Z.

Lemma eight_attackers x (gap : list (list N) -> list (list N) -> part -> list part -> list part -> Z) :
  x = chain (fun v v' before after => hybrids (gap before after) [] (parts v) (parts v')) [] [some_votes] [other_votes] ->
  x = eight (gap [] []).
Proof.
  intros ->. cbn [chain]. rewrite Z.add_0_r.
  change (parts some_votes) with [Vote 4; Vote 0; Vote 2; Credit 20]. change (parts other_votes) with [Vote 0; Vote 2; Vote 4; Credit 20].
  cbn [hybrids app]. rewrite Z.add_0_r. reflexivity.
Qed.

Example C72_example_change :
  exists (p : QuadraticVotingParams SE) dom, NoDup dom /\
  forall o0 (D : PublicKey SE -> list (QuadraticVotingBallot SE) -> strategy (Scalar SE) bool),
    let hashes := all_hashes (all_scalars RL) dom o0 in
    let nv := List.length (pr_inner (qv_vote_count_range p)) in
    let nc := List.length (pr_inner (qv_credit_range p)) in
    exists gap : part -> list part -> list part -> Z,
    (order RL ^ Z.of_nat (nv + nc + 3) * (order RL - 1) *
       (guesses (E:=SE) RL (ballot_scalars p * List.length [some_votes]) se_seed hashes (cast (real_quadratic p) [some_votes]) D -
        guesses (E:=SE) RL (ballot_scalars p * List.length [other_votes]) se_seed hashes (cast (real_quadratic p) [other_votes]) D) =
     eight gap)%Z.
Proof.
  destruct C72_example_parameters as (_ & _ & _ & _ & p & dom & Hp & Hd & _ & Hc).
  exists p, dom. split; [exact Hd|]. intros o0 D hashes nv nc.
  destruct (C72_ballots SE RL RE_ser_total se_seed se_seeds dom o0 Hd (ex_key : PublicKey SE) 3 20 4 p eq_refl Hp Hc) as (idx & _ & H).
  assert (Hs : Forall (allowed 3 20 4) [some_votes]) by (apply votes_allowed; auto).
  assert (Ho : Forall (allowed 3 20 4) [other_votes]) by (apply votes_allowed; auto).
  eexists. exact (eight_attackers _ _ (H [some_votes] [other_votes] D eq_refl Hs Ho)).
Qed.
