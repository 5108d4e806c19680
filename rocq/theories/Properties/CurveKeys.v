(** * C92, continued: the code for Curve25519 when cheaters choose the keys

    As in [C92_curve25519_code], but the keys of the participants come from the attackers as well. *)
From Coq Require Import List String NArith ZArith Arith Lia Bool.
From Verif.Model Require Import Base Group Transcript Keys Encryption LogEquality Ring Range Mul Sharing Choice Quadratic Backends.
From Verif.Spec Require Import Encryption Sharing Choice Quadratic Tally Collect Backends Domains Rom Verifiers Sources RomElection Transfer Subgroup.
From Verif.Proofs Require Import Algebra Backends Rom Sources Parametricity Transfer Subgroup ElectionTransfer VerifierTransfer.
From Verif.Instance Require Import Primality Zq Curves FullSize.
From Verif.Properties Require Import Backends Sources RomElection RistrettoElection CurveElection ChosenKeys CurveCode.
Import ListNotations.
Open Scope list_scope.
Open Scope nat_scope.

Section Curve.
Context (D : Dalek) (L : DalekLaws D) (R : Type) (fill : nat -> R -> bytes * R)
  (squeeze : transcript -> string -> nat -> bytes) (sha : bytes -> bytes) (estimate : N -> N) (b : Build).
Local Notation E := (subgroup_env L R fill squeeze sha estimate b).
Local Notation E' := (curve25519_env D R fill squeeze sha estimate b).
Existing Instance hashed_rel.
Existing Instance hashed_corresponding.

Definition down_key (K : PublicKey E') : PublicKey E := mkPublicKey (G := E) (pk_bytes K) (sub_of L (pk_element K)).
Lemma down_key_rel K : inside L K -> rel (down_key K) K.
Proof. intros H. apply Forall_cons_iff in H as [H _]. split; [apply is_refl|]. apply down_point. exact H. Qed.
Lemma down_keys_rel (keys : list (PublicKey E')) : inside L keys -> rel (map down_key keys) keys.
Proof. induction keys as [|K l IH]; intros H; [constructor|]. apply inside_cons in H as [H1 H2]. constructor; [apply down_key_rel; exact H1|apply IH; exact H2]. Qed.

Lemma down_key_set params (keys : list (PublicKey E')) (ks' : PublicKeySet E') : inside L keys ->
  PublicKeySet_from_participants params keys = Ret (Ok ks') ->
  exists ks : PublicKeySet E, PublicKeySet_from_participants params (map down_key keys) = Ret (Ok ks) /\ rel ks ks'.
Proof.
  intros Hin Hks'.
  pose proof (p_PublicKeySet_from_participants (E := E) (E' := E') params params (is_refl params) _ keys (down_keys_rel keys Hin)) as Hr. rewrite Hks' in Hr.
  apply rel_returned in Hr as ([ks|e] & Hks & Hr); [|contradiction]. exists ks. split; [exact Hks|exact Hr].
Qed.

(** a result that is right over the subgroup is right over the curve *)
Lemma right_single o params n (ks : PublicKeySet E) (ks' : PublicKeySet E') sk es es' (msgs : list (message E)) (msgs' : list (message E')) :
  rel ks ks' -> rel es es' -> rel msgs msgs' ->
  (exists chosen, let cts := map (fun b => fst (fst b)) (filter (single_accepted E n (ks_shared_key ks) o) es) in
     Forall2 (fun k l => one_hot (E:=E) sk l k) chosen cts /\ announced_right E o params ks n (map (choice_votes n) chosen) cts msgs) ->
  exists chosen, let cts := map (fun b => fst (fst b)) (filter (single_accepted E' n (ks_shared_key ks') o) es') in
     Forall2 (fun k l => one_hot (E:=E') sk l k) chosen cts /\ announced_right E' o params ks' n (map (choice_votes n) chosen) cts msgs'.
Proof.
  intros Hr Hes Hmsgs (chosen & Hone & Hann). exists chosen. pose proof (p_ks_shared_key ks ks' Hr) as HK.
  pose proof (accepted_rel D L R fill squeeze sha estimate b (single_accepted E n (ks_shared_key ks) o) (single_accepted E' n (ks_shared_key ks') o)
    (fun b => fst (fst b)) (fun b => fst (fst b)) es es' (fun x x' => single_same D L R fill squeeze sha estimate b n _ _ o x x' HK) (fun x x' Hx => proj1 (proj1 Hx)) Hes) as Hacc.
  split.
  - refine (ballots_rel D L R fill squeeze sha estimate b _ _ _ _ _ _ Hacc Hone). intros k l l' Hl.
    exact (one_hot_rel (E := E) (E' := E') (point_functional D L R fill squeeze sha estimate b) sk sk l l' k eq_refl Hl).
  - exact (announced_rel (E := hashed_by E o) (E' := hashed_by E' o) (point_functional D L R fill squeeze sha estimate b) params ks ks' n _ _ _ msgs msgs' Hr Hacc Hmsgs Hann).
Qed.

Lemma right_multi o params n (ks : PublicKeySet E) (ks' : PublicKeySet E') sk es es' (msgs : list (message E)) (msgs' : list (message E')) :
  rel ks ks' -> rel es es' -> rel msgs msgs' ->
  (exists votes, let cts := map fst (filter (multi_accepted E n (ks_shared_key ks) o) es) in
     Forall2 (Forall2 (fun v ct => (v <= 1)%N /\ decrypt_to_element (E:=E) sk ct = Encryption.times v generator)) votes cts /\
     announced_right E o params ks n votes cts msgs) ->
  exists votes, let cts := map fst (filter (multi_accepted E' n (ks_shared_key ks') o) es') in
     Forall2 (Forall2 (fun v ct => (v <= 1)%N /\ decrypt_to_element (E:=E') sk ct = Encryption.times v generator)) votes cts /\
     announced_right E' o params ks' n votes cts msgs'.
Proof.
  intros Hr Hes Hmsgs (votes & Hone & Hann). exists votes. pose proof (p_ks_shared_key ks ks' Hr) as HK.
  pose proof (accepted_rel D L R fill squeeze sha estimate b (multi_accepted E n (ks_shared_key ks) o) (multi_accepted E' n (ks_shared_key ks') o)
    fst fst es es' (fun x x' => multi_same D L R fill squeeze sha estimate b n _ _ o x x' HK) (fun x x' Hx => proj1 Hx) Hes) as Hacc.
  split.
  - refine (ballots_rel D L R fill squeeze sha estimate b _ _ _ _ _ _ Hacc Hone). intros vs l l' Hl.
    exact (votes_rel (E := E) (E' := E') (point_functional D L R fill squeeze sha estimate b) (fun v => (v <= 1)%N) sk sk vs l l' eq_refl Hl).
  - exact (announced_rel (E := hashed_by E o) (E' := hashed_by E' o) (point_functional D L R fill squeeze sha estimate b) params ks ks' n _ _ _ msgs msgs' Hr Hacc Hmsgs Hann).
Qed.

Lemma right_quadratic o params options credits max (p : QuadraticVotingParams E) (p' : QuadraticVotingParams E')
    (ks : PublicKeySet E) (ks' : PublicKeySet E') sk es es' (msgs : list (message E)) (msgs' : list (message E')) :
  rel p p' -> rel ks ks' -> rel es es' -> rel msgs msgs' ->
  (exists votes, let cts := map quadratic_choices (filter (quadratic_accepted E p o) es) in
     Forall2 (fun vs l => Forall2 (fun v ct => (v <= max)%N /\ decrypt_to_element (E:=E) sk ct = Encryption.times v generator) vs l /\
                          (squares vs <= credits)%N) votes cts /\
     announced_right E o params ks options votes cts msgs) ->
  exists votes, let cts := map quadratic_choices (filter (quadratic_accepted E' p' o) es') in
     Forall2 (fun vs l => Forall2 (fun v ct => (v <= max)%N /\ decrypt_to_element (E:=E') sk ct = Encryption.times v generator) vs l /\
                          (squares vs <= credits)%N) votes cts /\
     announced_right E' o params ks' options votes cts msgs'.
Proof.
  intros Hpr Hr Hes Hmsgs (votes & Hone & Hann). exists votes.
  pose proof (accepted_rel D L R fill squeeze sha estimate b (quadratic_accepted E p o) (quadratic_accepted E' p' o) quadratic_choices quadratic_choices es es'
    (fun x x' => quadratic_same D L R fill squeeze sha estimate b p p' o x x' Hpr)
    (fun x x' Hx => p_map crp_ciphertext crp_ciphertext p_crp_ciphertext (qb_votes x) (qb_votes x') (proj1 Hx)) Hes) as Hacc.
  split.
  - refine (ballots_rel D L R fill squeeze sha estimate b _ _ _ _ _ _ Hacc Hone). intros vs l l' Hl [Hv Hs]. split; [|exact Hs].
    exact (votes_rel (E := E) (E' := E') (point_functional D L R fill squeeze sha estimate b) (fun v => (v <= max)%N) sk sk vs l l' eq_refl Hl Hv).
  - exact (announced_rel (E := hashed_by E o) (E' := hashed_by E' o) (point_functional D L R fill squeeze sha estimate b) params ks ks' options _ _ _ msgs msgs' Hr Hacc Hmsgs Hann).
Qed.

Theorem C92_curve25519_chosen_keys : (2 ^ 252 <= dl_order L)%Z ->
  let S := dalek_source D (curve25519_deserialize_element D) in
  forall params B M Q, params_ok params ->
    (forall n, (N.of_nat n < 2 ^ 64)%N -> (Z.of_nat (Q + (B * (n + 2) + M)) <= 2 ^ 60)%Z ->
     forall A : strategy (Scalar E') (list (PublicKey E') * (list (single_ballot E') * list (message E'))), at_most Q A ->
       success_at_most S A (keyed_checker params (fun ks => election_checker (single_checker n ks) (fun b => fst (fst b)) n B M ks))
         (fun o '(keys, (es, msgs)) => exists (ks : PublicKeySet E') (sk : SecretKey E'),
            PublicKeySet_from_participants params keys = Ret (Ok ks) /\ key_of sk (ks_shared_key ks) /\
            List.length es <= B /\ List.length msgs <= M /\
            inside L keys /\ Forall (fun b => inside L (fst (fst b))) es /\ Forall (fun m => inside L (share_of D R fill squeeze sha estimate b m)) msgs /\
            ~ exists chosen, let cts := map (fun b => fst (fst b)) (filter (single_accepted E' n (ks_shared_key ks) o) es) in
                Forall2 (fun k l => one_hot (E:=E') sk l k) chosen cts /\
                announced_right E' o params ks n (map (choice_votes n) chosen) cts msgs)
         1 (2 ^ 132)) /\
    (forall n, (N.of_nat n < 2 ^ 64)%N -> (Z.of_nat (Q + (B * (n + 1) + M)) <= 2 ^ 60)%Z ->
     forall A : strategy (Scalar E') (list (PublicKey E') * (list (multi_ballot E') * list (message E'))), at_most Q A ->
       success_at_most S A (keyed_checker params (fun ks => election_checker (multi_checker n ks) fst n B M ks))
         (fun o '(keys, (es, msgs)) => exists (ks : PublicKeySet E') (sk : SecretKey E'),
            PublicKeySet_from_participants params keys = Ret (Ok ks) /\ key_of sk (ks_shared_key ks) /\
            List.length es <= B /\ List.length msgs <= M /\
            inside L keys /\ Forall (fun b => inside L (fst b)) es /\ Forall (fun m => inside L (share_of D R fill squeeze sha estimate b m)) msgs /\
            ~ exists votes, let cts := map fst (filter (multi_accepted E' n (ks_shared_key ks) o) es) in
                Forall2 (Forall2 (fun v ct => (v <= 1)%N /\ decrypt_to_element (E:=E') sk ct = Encryption.times v generator)) votes cts /\
                announced_right E' o params ks n votes cts msgs)
         1 (2 ^ 132)) /\
    (forall (K0 : PublicKey E') options credits max p, inside L K0 -> (credits + 65 < 2 ^ 64)%N -> qv_params K0 options credits max p ->
     (Z.of_nat options * (Z.of_N max * Z.of_N max) < dl_order L)%Z ->
     (Z.of_nat (Q + (B * quadratic_queries p + M)) <= 2 ^ 60)%Z ->
     forall A : strategy (Scalar E') (list (PublicKey E') * (list (QuadraticVotingBallot E') * list (message E'))), at_most Q A ->
       success_at_most S A
         (keyed_checker params (fun ks => election_checker (quadratic_checker (with_receiver (ks_shared_key ks) p)) quadratic_choices options B M ks))
         (fun o '(keys, (es, msgs)) => exists (ks : PublicKeySet E') (sk : SecretKey E'),
            PublicKeySet_from_participants params keys = Ret (Ok ks) /\ key_of sk (ks_shared_key ks) /\
            List.length es <= B /\ List.length msgs <= M /\
            inside L keys /\ Forall (fun b => inside L b) es /\ Forall (fun m => inside L (share_of D R fill squeeze sha estimate b m)) msgs /\
            ~ exists votes, let cts := map quadratic_choices (filter (quadratic_accepted E' (with_receiver (ks_shared_key ks) p) o) es) in
                Forall2 (fun vs l => Forall2 (fun v ct => (v <= max)%N /\ decrypt_to_element (E:=E') sk ct = Encryption.times v generator) vs l /\
                                     (squares vs <= credits)%N) votes cts /\
                announced_right E' o params ks options votes cts msgs)
         1 (2 ^ 132)).
Proof.
  intros Hq S params B M Q Hp.
  assert (Hbig : (2 ^ 64 <= order (subgroup_laws D L))%Z) by (apply (Z.le_trans _ (2 ^ 252)); [discriminate|exact Hq]).
  split; [|split].
  - intros n Hn HN A HA.
    pose (conv := fun x : list (PublicKey E') * (list (single_ballot E') * list (message E')) =>
      (map down_key (fst x), (map (down_single D L R fill squeeze sha estimate b) (fst (snd x)), map (down_message D L R fill squeeze sha estimate b) (snd (snd x))))).
    pose proof (down_most D Q A conv HA) as HA'.
    refine (success_down D L A conv _ _ _ _ _ _ _
      (curve25519_bound D L Hq _ _ _ (Z.of_nat (Q + (B * (n + 2) + M))) ltac:(lia)
        (fun m Hbal => C92_chosen_keys E (subgroup_laws D L) Hbig (subgroup_source L) m Hbal params n B M Hp Hn Q _ HA'))).
    intros o [keys [es msgs]] (ks' & sk & Hks & Hsk & HB & HM & Hk & Hes & Hmsgs & Hno).
    destruct (down_key_set params keys ks' Hk Hks) as (ks & Hks2 & Hr).
    assert (Re : rel (map (down_single D L R fill squeeze sha estimate b) es) es).
    { refine (down_list _ _ _ _ Hes). intros x Hx. split; [|apply down_le_rel]. split; [apply down_cts_rel; exact Hx|apply down_ring_rel]. }
    pose proof (down_list _ _ _ (down_message_rel D L R fill squeeze sha estimate b) Hmsgs) as Rm.
    subst conv. cbn [fst snd]. split.
    + exists ks, sk. split; [exact Hks2|]. split; [exact (key_of_inside D L R fill squeeze sha estimate b sk _ _ (p_ks_shared_key ks ks' Hr) Hsk)|].
      split; [rewrite map_length; exact HB|]. split; [rewrite map_length; exact HM|]. intros H. apply Hno. exact (right_single o params n ks ks' sk _ _ _ _ Hr Re Rm H).
    + unfold keyed_checker. cbn [fst snd]. rewrite Hks, Hks2.
      apply (asked_rel (RR := Rel_Scalar (G := E) (G' := E'))); [intros x; reflexivity|].
      apply (p_election_checker (E := E) (E' := E')); try reflexivity; [|intros x x' Hx; exact (proj1 (proj1 Hx))|exact Hr|split; assumption].
      exact (p_single_checker (E := E) (E' := E') n n eq_refl ks ks' Hr).
  - intros n Hn HN A HA.
    pose (conv := fun x : list (PublicKey E') * (list (multi_ballot E') * list (message E')) =>
      (map down_key (fst x), (map (down_multi D L R fill squeeze sha estimate b) (fst (snd x)), map (down_message D L R fill squeeze sha estimate b) (snd (snd x))))).
    pose proof (down_most D Q A conv HA) as HA'.
    refine (success_down D L A conv _ _ _ _ _ _ _
      (curve25519_bound D L Hq _ _ _ (Z.of_nat (Q + (B * (n + 1) + M))) ltac:(lia)
        (fun m Hbal => C92_multi_chosen_keys E (subgroup_laws D L) Hbig (subgroup_source L) m Hbal params n B M Hp Hn Q _ HA'))).
    intros o [keys [es msgs]] (ks' & sk & Hks & Hsk & HB & HM & Hk & Hes & Hmsgs & Hno).
    destruct (down_key_set params keys ks' Hk Hks) as (ks & Hks2 & Hr).
    assert (Re : rel (map (down_multi D L R fill squeeze sha estimate b) es) es).
    { refine (down_list _ _ _ _ Hes). intros x Hx. split; [apply down_cts_rel; exact Hx|apply down_ring_rel]. }
    pose proof (down_list _ _ _ (down_message_rel D L R fill squeeze sha estimate b) Hmsgs) as Rm.
    subst conv. cbn [fst snd]. split.
    + exists ks, sk. split; [exact Hks2|]. split; [exact (key_of_inside D L R fill squeeze sha estimate b sk _ _ (p_ks_shared_key ks ks' Hr) Hsk)|].
      split; [rewrite map_length; exact HB|]. split; [rewrite map_length; exact HM|]. intros H. apply Hno. exact (right_multi o params n ks ks' sk _ _ _ _ Hr Re Rm H).
    + unfold keyed_checker. cbn [fst snd]. rewrite Hks, Hks2.
      apply (asked_rel (RR := Rel_Scalar (G := E) (G' := E'))); [intros x; reflexivity|].
      apply (p_election_checker (E := E) (E' := E')); try reflexivity; [|intros x x' Hx; exact (proj1 Hx)|exact Hr|split; assumption].
      exact (p_multi_checker (E := E) (E' := E') n n eq_refl ks ks' Hr).
  - intros K0 options credits max p' HK0 Hc Hqv' Hb HN A HA.
    destruct (qv_params_inside D L R fill squeeze sha estimate b (down_key K0) K0 options credits max p' (down_key_rel K0 HK0) Hqv') as (p & Hpr & Hqv).
    rewrite <- (queries_same D L R fill squeeze sha estimate b p p' Hpr) in HN.
    pose (conv := fun x : list (PublicKey E') * (list (QuadraticVotingBallot E') * list (message E')) =>
      (map down_key (fst x), (map (down_quadratic D L R fill squeeze sha estimate b) (fst (snd x)), map (down_message D L R fill squeeze sha estimate b) (snd (snd x))))).
    pose proof (down_most D Q A conv HA) as HA'.
    refine (success_down D L A conv _ _ _ _ _ _ _
      (curve25519_bound D L Hq _ _ _ (Z.of_nat (Q + (B * quadratic_queries p + M))) ltac:(lia)
        (fun m Hbal => C92_quadratic_chosen_keys E (subgroup_laws D L) Hbig (subgroup_source L) m Hbal params (down_key K0) options credits max p B M Hp Hc Hqv Hb Q _ HA'))).
    intros o [keys [es msgs]] (ks' & sk & Hks & Hsk & HB & HM & Hk & Hes & Hmsgs & Hno).
    destruct (down_key_set params keys ks' Hk Hks) as (ks & Hks2 & Hr).
    pose proof (down_list _ _ _ (down_quadratic_rel D L R fill squeeze sha estimate b) Hes) as Re.
    pose proof (down_list _ _ _ (down_message_rel D L R fill squeeze sha estimate b) Hmsgs) as Rm.
    assert (Hw : rel (with_receiver (ks_shared_key ks) p) (with_receiver (ks_shared_key ks') p')).
    { destruct Hpr as (H1 & H2 & H3 & _). split; [exact H1|]. split; [exact H2|]. split; [exact H3|]. exact (p_ks_shared_key ks ks' Hr). }
    subst conv. cbn [fst snd]. split.
    + exists ks, sk. split; [exact Hks2|]. split; [exact (key_of_inside D L R fill squeeze sha estimate b sk _ _ (p_ks_shared_key ks ks' Hr) Hsk)|].
      split; [rewrite map_length; exact HB|]. split; [rewrite map_length; exact HM|]. intros H. apply Hno.
      exact (right_quadratic o params options credits max _ _ ks ks' sk _ _ _ _ Hw Hr Re Rm H).
    + unfold keyed_checker. cbn [fst snd]. rewrite Hks, Hks2.
      apply (asked_rel (RR := Rel_Scalar (G := E) (G' := E'))); [intros x; reflexivity|].
      apply (p_election_checker (E := E) (E' := E')); try reflexivity;
        [|intros x x' Hx; exact (p_map crp_ciphertext crp_ciphertext p_crp_ciphertext (qb_votes x) (qb_votes x') (proj1 Hx))|exact Hr|split; assumption].
      exact (p_quadratic_checker (E := E) (E' := E') _ _ Hw).
Qed.
End Curve.
Print Assumptions C92_curve25519_chosen_keys.

(** The keys of [C92_curve25519_code_example] are accepted, have points of the subgroup only and may be chosen by attackers; the same
    keys moved out of the subgroup, by a point of small order, are not inside. *)
Example C92_curve25519_chosen_keys_example :
  ~ inside (full_dalek_laws 8 eq_refl ltac:(discriminate))
      (map (fun k => let P : DPoint (full_dalek 8) := zq (8 * ell) (8 * k + ell) in mkPublicKey (G := code_env) (p_compress P) P) [12; 19; 26]%Z).
Proof.
  intros H. apply Forall_cons_iff in H as [H _]. unfold in_subgroup in H. rewrite full_times in H. change (dl_order _) with ell in H.
  rewrite Z2Nat.id in H by (vm_compute; discriminate). apply (f_equal (zval (8 * ell))) in H. vm_compute in H. discriminate H.
Qed.
