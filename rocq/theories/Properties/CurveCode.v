(** * C92, continued: the code for Curve25519, over all points of the curve

    [C92_curve25519_elections] speaks about the points of the prime-order subgroup.  Here attackers produce points of the curve, and
    ballots are verified, tallied and decrypted by the code for the whole curve.  The points that the code receives are in the
    subgroup: everything it parses consists of them (C62). *)
From Coq Require Import List String NArith ZArith Arith Lia Bool.
From Coq.Strings Require Import Byte.
From Verif.Model Require Import Base Group Transcript Keys Encryption LogEquality Ring Range Mul Sharing Choice Quadratic Backends.
From Verif.Spec Require Import Encryption Sharing Choice Quadratic Tally Collect Backends Domains Rom Verifiers Sources RomElection Transfer Subgroup.
From Verif.Proofs Require Import Algebra Backends Rom Sources Parametricity Transfer Subgroup ElectionTransfer VerifierTransfer.
From Verif.Instance Require Import Primality Zq Curves FullSize.
From Verif.Properties Require Import Backends Sources RomElection RistrettoElection CurveElection.
Import ListNotations.
Open Scope string_scope.
Open Scope list_scope.
Open Scope nat_scope.

Section Curve.
Context (D : Dalek) (L : DalekLaws D) (R : Type) (fill : nat -> R -> bytes * R)
  (squeeze : transcript -> string -> nat -> bytes) (sha : bytes -> bytes) (estimate : N -> N) (b : Build).
Local Notation E := (subgroup_env L R fill squeeze sha estimate b).
Local Notation E' := (curve25519_env D R fill squeeze sha estimate b).

Instance hashed_rel (o : hash (Scalar E)) : EnvRel (hashed_by E o) (hashed_by E' o) :=
  mkEnvRel (hashed_by E o) (hashed_by E' o) (point_group_rel L) (fun r r' : R => r = r').

Instance hashed_corresponding (o : hash (Scalar E)) : Corresponding (hashed_by E o) (hashed_by E' o).
Proof.
  destruct (corresponding (D := D) (L := L) (R := R) (fill := fill) (squeeze := squeeze) (sha := sha) (estimate := estimate) (build := b)).
  constructor; try assumption.
  intros t t' Ht l l' Hl. apply is_eq in Ht. hnf in Hl. subst. reflexivity.
Qed.

Lemma point_functional (P : Element E) (Q Q' : Element E') : rel P Q -> rel P Q' -> Q = Q'.
Proof. intros H H'. hnf in H, H'. congruence. Qed.

Lemma key_of_inside sk (K : PublicKey E) (K' : PublicKey E') : rel K K' -> key_of (E:=E') sk K' -> key_of (E:=E) sk K.
Proof.
  intros [_ HK] H. destruct (C60_curve25519 D L) as (_ & _ & Hinj & _ & _ & _ & _ & Hmul & _ & Hgen & _).
  unfold key_of in *. apply Hinj. etransitivity; [exact HK|]. rewrite H. etransitivity; [|symmetry; apply Hmul]. f_equal. symmetry. exact Hgen.
Qed.

Lemma single_same n K K' o (x : single_ballot E) (x' : single_ballot E') : rel K K' -> rel x x' ->
  single_accepted E n K o x = single_accepted E' n K' o x'.
Proof.
  intros HK [[H1 H2] H3]. unfold single_accepted.
  pose proof (p_EncryptedChoice_verify (E := hashed_by E o) (E' := hashed_by E' o) (S := @SingleChoice (hashed_by E o)) (S' := @SingleChoice (hashed_by E' o))
    (mkEncryptedChoice (E:=hashed_by E o) (S:=SingleChoice (E:=hashed_by E o)) (fst (fst x)) (snd (fst x)) (snd x))
    (mkEncryptedChoice (E:=hashed_by E' o) (S:=SingleChoice (E:=hashed_by E' o)) (fst (fst x')) (snd (fst x')) (snd x'))
    (conj H1 (conj H2 H3))
    (mkChoiceParams (E:=hashed_by E o) (S:=SingleChoice (E:=hashed_by E o)) n K)
    (mkChoiceParams (E:=hashed_by E' o) (S:=SingleChoice (E:=hashed_by E' o)) n K') (conj eq_refl HK)) as H.
  destruct (EncryptedChoice_verify (E := hashed_by E o) _ _) as [[]|], (EncryptedChoice_verify (E := hashed_by E' o) _ _) as [[]|]; try contradiction; reflexivity.
Qed.

Lemma multi_same n K K' o (x : multi_ballot E) (x' : multi_ballot E') : rel K K' -> rel x x' ->
  multi_accepted E n K o x = multi_accepted E' n K' o x'.
Proof.
  intros HK [H1 H2]. unfold multi_accepted.
  pose proof (p_EncryptedChoice_verify (E := hashed_by E o) (E' := hashed_by E' o) (S := @MultiChoice (hashed_by E o)) (S' := @MultiChoice (hashed_by E' o))
    (mkEncryptedChoice (E:=hashed_by E o) (S:=MultiChoice (E:=hashed_by E o)) (fst x) (snd x) tt)
    (mkEncryptedChoice (E:=hashed_by E' o) (S:=MultiChoice (E:=hashed_by E' o)) (fst x') (snd x') tt)
    (conj H1 (conj H2 eq_refl))
    (mkChoiceParams (E:=hashed_by E o) (S:=MultiChoice (E:=hashed_by E o)) n K)
    (mkChoiceParams (E:=hashed_by E' o) (S:=MultiChoice (E:=hashed_by E' o)) n K') (conj eq_refl HK)) as H.
  destruct (EncryptedChoice_verify (E := hashed_by E o) _ _) as [[]|], (EncryptedChoice_verify (E := hashed_by E' o) _ _) as [[]|]; try contradiction; reflexivity.
Qed.

Lemma quadratic_same (p : QuadraticVotingParams E) (p' : QuadraticVotingParams E') o (x : QuadraticVotingBallot E) (x' : QuadraticVotingBallot E') :
  rel p p' -> rel x x' -> quadratic_accepted E p o x = quadratic_accepted E' p' o x'.
Proof.
  intros Hp Hx. unfold quadratic_accepted.
  pose proof (p_QuadraticVotingBallot_verify (E := hashed_by E o) (E' := hashed_by E' o) x x' Hx p p' Hp) as H.
  destruct (QuadraticVotingBallot_verify (E := hashed_by E o) _ _) as [[]|], (QuadraticVotingBallot_verify (E := hashed_by E' o) _ _) as [[]|]; try contradiction; reflexivity.
Qed.

Lemma accepted_rel {B B'} {RB : Rel B B'} (f : B -> bool) (f' : B' -> bool) (c : B -> list (Ciphertext E)) (c' : B' -> list (Ciphertext E')) es es' :
  (forall x x', rel x x' -> f x = f' x') -> (forall x x', rel x x' -> rel (c x) (c' x')) -> rel es es' ->
  rel (map c (filter f es)) (map c' (filter f' es')).
Proof.
  intros Hf Hc H. induction H as [|x x' es es' Hx H IH]; [constructor|]. cbn [filter]. rewrite <- (Hf x x' Hx).
  destruct (f x); [|exact IH]. cbn [map]. constructor; [apply Hc; exact Hx|exact IH].
Qed.

Lemma ballots_rel {K} (P : K -> list (Ciphertext E) -> Prop) (P' : K -> list (Ciphertext E') -> Prop) ks ls ls' :
  (forall k l l', rel l l' -> P k l -> P' k l') -> rel ls ls' -> Forall2 P ks ls -> Forall2 P' ks ls'.
Proof.
  intros HP H. revert ks. induction H as [|l l' ls ls' Hl _ IH]; intros ks Hf; inversion Hf; subst; constructor; [|apply IH; assumption].
  apply (HP _ l); assumption.
Qed.

Lemma success_sub {X Y} (S : source (prime_subgroup L)) (A : strategy (DScalar D) X) (V : X -> strategy (DScalar D) Y) (w w' : hash (DScalar D) -> X -> Prop) num den :
  (forall o x, w' o x -> w o x) -> success_at_most S A V w num den -> success_at_most S A V w' num den.
Proof. intros Hw H Ds W HW Hall. apply (H Ds W HW). intros o Ho. destruct (Hall o Ho) as [H1 H2]. split; [exact H1|apply Hw; exact H2]. Qed.
Lemma qv_params_inside K K' options credits max (p' : QuadraticVotingParams E') : rel K K' -> qv_params (E:=E') K' options credits max p' ->
  exists p : QuadraticVotingParams E, rel p p' /\ qv_params (E:=E) K options credits max p.
Proof.
  intros HK H. induction H as [p' m Hnew H1 H2|p' m m' q' _ (p & Hp & Hqv) Hm Hset].
  - pose proof (p_QuadraticVotingParams_new K K' HK options options eq_refl credits credits eq_refl) as H. rewrite Hnew in H.
    apply rel_returned in H as (p & Hpn & Hp). exists p. split; [exact Hp|]. exact (qv_created K options credits p m Hpn H1 H2).
  - pose proof (p_QuadraticVotingParams_set_max_votes p p' Hp m' m' eq_refl) as H. rewrite Hset in H.
    apply rel_returned in H as (q & Hq & Hqr). exists q. split; [exact Hqr|]. exact (qv_limited K options credits p m m' q Hqv Hm Hq).
Qed.

(** Keys, parameters, ballots and messages [x'] are those of the code; [x] represents the same with points of the subgroup. *)
Lemma represented_elections : (2 ^ 252 <= dl_order L)%Z ->
  let S := subgroup_source L in
  forall params (keys' : list (PublicKey E')) (ks' : PublicKeySet E') (sk : SecretKey E') B M Q,
    params_ok params -> inside L keys' -> PublicKeySet_from_participants params keys' = Ret (Ok ks') -> key_of sk (ks_shared_key ks') ->
    exists ks : PublicKeySet E, rel ks ks' /\
    (forall n, (N.of_nat n < 2 ^ 64)%N -> (Z.of_nat (Q + (B * (n + 2) + M)) <= 2 ^ 60)%Z ->
     forall A : strategy (DScalar D) (list (single_ballot E) * list (message E)), at_most Q A ->
       success_at_most S A (election_checker (single_checker n ks) (fun b => fst (fst b)) n B M ks)
         (fun o x => List.length (fst x) <= B /\ List.length (snd x) <= M /\
            exists (es' : list (single_ballot E')) (msgs' : list (message E')), rel (fst x) es' /\ rel (snd x) msgs' /\
            ~ exists chosen, let cts := map (fun b => fst (fst b)) (filter (single_accepted E' n (ks_shared_key ks') o) es') in
                Forall2 (fun k l => one_hot (E:=E') sk l k) chosen cts /\
                announced_right E' o params ks' n (map (choice_votes n) chosen) cts msgs')
         1 (2 ^ 132)) /\
    (forall n, (N.of_nat n < 2 ^ 64)%N -> (Z.of_nat (Q + (B * (n + 1) + M)) <= 2 ^ 60)%Z ->
     forall A : strategy (DScalar D) (list (multi_ballot E) * list (message E)), at_most Q A ->
       success_at_most S A (election_checker (multi_checker n ks) fst n B M ks)
         (fun o x => List.length (fst x) <= B /\ List.length (snd x) <= M /\
            exists (es' : list (multi_ballot E')) (msgs' : list (message E')), rel (fst x) es' /\ rel (snd x) msgs' /\
            ~ exists votes, let cts := map fst (filter (multi_accepted E' n (ks_shared_key ks') o) es') in
                Forall2 (Forall2 (fun v ct => (v <= 1)%N /\ decrypt_to_element (E:=E') sk ct = Encryption.times v generator)) votes cts /\
                announced_right E' o params ks' n votes cts msgs')
         1 (2 ^ 132)) /\
    (forall options credits max p', (credits + 65 < 2 ^ 64)%N -> qv_params (ks_shared_key ks') options credits max p' ->
     (Z.of_nat options * (Z.of_N max * Z.of_N max) < dl_order L)%Z ->
     exists p : QuadraticVotingParams E, rel p p' /\
     ((Z.of_nat (Q + (B * quadratic_queries p + M)) <= 2 ^ 60)%Z ->
     forall A : strategy (DScalar D) (list (QuadraticVotingBallot E) * list (message E)), at_most Q A ->
       success_at_most S A (election_checker (quadratic_checker p) quadratic_choices options B M ks)
         (fun o x => List.length (fst x) <= B /\ List.length (snd x) <= M /\
            exists (es' : list (QuadraticVotingBallot E')) (msgs' : list (message E')), rel (fst x) es' /\ rel (snd x) msgs' /\
            ~ exists votes, let cts := map quadratic_choices (filter (quadratic_accepted E' p' o) es') in
                Forall2 (fun vs l => Forall2 (fun v ct => (v <= max)%N /\ decrypt_to_element (E:=E') sk ct = Encryption.times v generator) vs l /\
                                     (squares vs <= credits)%N) votes cts /\
                announced_right E' o params ks' options votes cts msgs')
         1 (2 ^ 132))).
Proof.
  intros Hq S params keys' ks' sk B M Q Hp Hin Hks' Hsk.
  destruct (proj1 (inside_iff (A := list (PublicKey E)) keys') Hin) as [keys Hkeys].
  pose proof (p_PublicKeySet_from_participants (E := E) (E' := E') params params (is_refl params) keys keys' Hkeys) as Hr. rewrite Hks' in Hr.
  apply rel_returned in Hr as ([ks|e] & Hks & Hr); [|contradiction]. change (rel ks ks') in Hr.
  assert (HK : rel (ks_shared_key ks) (ks_shared_key ks')) by exact (p_ks_shared_key ks ks' Hr).
  destruct (C92_curve25519_elections D L Hq R fill squeeze sha estimate b params keys ks sk B M Q Hp Hks (key_of_inside sk _ _ HK Hsk)) as (H1 & H2 & H3).
  exists ks. split; [exact Hr|]. split; [|split].
  - intros n Hn HN A HA. refine (success_sub S A _ _ _ _ _ _ (H1 n Hn HN A HA)).
    intros o [es msgs] (HB & HM & es' & msgs' & Hes & Hmsgs & Hno). cbn [fst snd] in *. split; [exact HB|]. split; [exact HM|].
    intros (chosen & Hone & Hann). apply Hno. exists chosen.
    pose proof (accepted_rel (single_accepted E n (ks_shared_key ks) o) (single_accepted E' n (ks_shared_key ks') o)
      (fun b => fst (fst b)) (fun b => fst (fst b)) es es' (fun x x' => single_same n _ _ o x x' HK) (fun x x' Hx => proj1 (proj1 Hx)) Hes) as Hacc.
    split.
    + refine (ballots_rel _ _ _ _ _ _ Hacc Hone). intros k l l' Hl. exact (one_hot_rel (E := E) (E' := E') point_functional sk sk l l' k eq_refl Hl).
    + exact (announced_rel (E := hashed_by E o) (E' := hashed_by E' o) point_functional params ks ks' n _ _ _ msgs msgs' Hr Hacc Hmsgs Hann).
  - intros n Hn HN A HA. refine (success_sub S A _ _ _ _ _ _ (H2 n Hn HN A HA)).
    intros o [es msgs] (HB & HM & es' & msgs' & Hes & Hmsgs & Hno). cbn [fst snd] in *. split; [exact HB|]. split; [exact HM|].
    intros (votes & Hone & Hann). apply Hno. exists votes.
    pose proof (accepted_rel (multi_accepted E n (ks_shared_key ks) o) (multi_accepted E' n (ks_shared_key ks') o)
      fst fst es es' (fun x x' => multi_same n _ _ o x x' HK) (fun x x' Hx => proj1 Hx) Hes) as Hacc.
    split.
    + refine (ballots_rel _ _ _ _ _ _ Hacc Hone). intros vs l l' Hl.
      exact (votes_rel (E := E) (E' := E') point_functional (fun v => (v <= 1)%N) sk sk vs l l' eq_refl Hl).
    + exact (announced_rel (E := hashed_by E o) (E' := hashed_by E' o) point_functional params ks ks' n _ _ _ msgs msgs' Hr Hacc Hmsgs Hann).
  - intros options credits max p' Hc Hqv' Hb. destruct (qv_params_inside _ _ options credits max p' HK Hqv') as (p & Hpr & Hqv).
    exists p. split; [exact Hpr|]. intros HN A HA. refine (success_sub S A _ _ _ _ _ _ (H3 options credits max p Hc Hqv Hb HN A HA)).
    intros o [es msgs] (HB & HM & es' & msgs' & Hes & Hmsgs & Hno). cbn [fst snd] in *. split; [exact HB|]. split; [exact HM|].
    intros (votes & Hone & Hann). apply Hno. exists votes.
    pose proof (accepted_rel (quadratic_accepted E p o) (quadratic_accepted E' p' o) quadratic_choices quadratic_choices es es'
      (fun x x' => quadratic_same p p' o x x' Hpr)
      (fun x x' Hx => p_map crp_ciphertext crp_ciphertext p_crp_ciphertext (qb_votes x) (qb_votes x') (proj1 Hx)) Hes) as Hacc.
    split.
    + refine (ballots_rel _ _ _ _ _ _ Hacc Hone). intros vs l l' Hl [Hv Hs]. split; [|exact Hs].
      exact (votes_rel (E := E) (E' := E') point_functional (fun v => (v <= max)%N) sk sk vs l l' eq_refl Hl Hv).
    + exact (announced_rel (E := hashed_by E o) (E' := hashed_by E' o) point_functional params ks ks' options _ _ _ msgs msgs' Hr Hacc Hmsgs Hann).
Qed.

(** ** the same values with points of the subgroup *)
Definition down_ct (c : Ciphertext E') : Ciphertext E := mkCiphertext (G := E) (sub_of L (random_element c)) (sub_of L (blinded_element c)).
Definition down_ring (p : RingProof E') : RingProof E := mkRingProof (G := E) (rp_challenge p) (rp_responses p).
Definition down_le (p : LogEqualityProof E') : LogEqualityProof E := mkLogEqualityProof (G := E) (le_challenge p) (le_response p).
Definition down_crp (c : CiphertextWithRangeProof E') : CiphertextWithRangeProof E :=
  mkCiphertextWithRangeProof (G := E) (down_ct (crp_ciphertext c))
    (mkRangeProof (G := E) (map down_ct (rap_partial (crp_range_proof c))) (down_ring (rap_inner (crp_range_proof c)))).
Definition down_single (b : single_ballot E') : single_ballot E := (map down_ct (fst (fst b)), down_ring (snd (fst b)), down_le (snd b)).
Definition down_multi (b : multi_ballot E') : multi_ballot E := (map down_ct (fst b), down_ring (snd b)).
Definition down_quadratic (b : QuadraticVotingBallot E') : QuadraticVotingBallot E :=
  mkQVBallot (G := E) (map down_crp (qb_votes b)) (down_crp (qb_credit b))
    (mkSumOfSquaresProof (G := E) (sq_challenge (qb_credit_equivalence_proof b))
       (sq_ciphertext_responses (qb_credit_equivalence_proof b)) (sq_sum_response (qb_credit_equivalence_proof b))).
Definition down_message (m : message E') : message E :=
  (fst m, (fst (fst (snd m)),
           mkCandidateDecryption (G := E) (mkVerifiableDecryption (G := E) (sub_of L (vd_dh_element (cd_inner (snd (fst (snd m))))))),
           down_le (snd (snd m)))).

Lemma down_point (P : Element E') : in_subgroup L P -> @rel (Element E) (Element E') _ (sub_of L P) P.
Proof. intros H. exact (sub_of_ok D L P H). Qed.
Lemma scalars_same (l : list (DScalar D)) : @rel (list (Scalar E)) (list (Scalar E')) _ l l.
Proof. induction l; constructor; [reflexivity|assumption]. Qed.
Lemma down_ct_rel c : inside L c -> rel (down_ct c) c.
Proof.
  intros H. apply Forall_cons_iff in H as [H1 H]. apply Forall_cons_iff in H as [H2 _].
  split; apply down_point; assumption.
Qed.
Lemma down_cts_rel (l : list (Ciphertext E')) : inside L l -> rel (map down_ct l) l.
Proof. induction l as [|c l IH]; intros H; [constructor|]. apply inside_cons in H as [H1 H2]. constructor; [apply down_ct_rel; exact H1|apply IH; exact H2]. Qed.
Lemma down_ring_rel p : rel (down_ring p) p.
Proof. split; [reflexivity|apply scalars_same]. Qed.
Lemma down_le_rel p : rel (down_le p) p.
Proof. split; reflexivity. Qed.
Lemma down_crp_rel c : inside L c -> rel (down_crp c) c.
Proof.
  intros H. apply Forall_app in H as [H1 H2]. split; [apply down_ct_rel; exact H1|]. split; [apply down_cts_rel; exact H2|apply down_ring_rel].
Qed.
Lemma down_quadratic_rel x : inside L x -> rel (down_quadratic x) x.
Proof.
  intros H. apply Forall_app in H as [H1 H2]. split; [|split; [apply down_crp_rel; exact H2|split; [reflexivity|split; [apply scalars_same|reflexivity]]]].
  change (inside L (qb_votes x)) in H1. cbn [down_quadratic qb_votes]. induction (qb_votes x) as [|c l IH]; [constructor|].
  apply inside_cons in H1 as [Hc Hl]. constructor; [apply down_crp_rel; exact Hc|apply IH; exact Hl].
Qed.

(** the share in a message *)
Definition share_of (m : message E') : CandidateDecryption E' := snd (fst (snd m)).

Lemma down_message_rel m : inside L (share_of m) -> rel (down_message m) m.
Proof.
  intros H. split; [reflexivity|]. split; [|apply down_le_rel]. split; [reflexivity|]. apply down_point. inversion H. assumption.
Qed.
Lemma down_list {A A'} {RA : Rel A A'} (f : A' -> A) (P : A' -> Prop) l : (forall x, P x -> rel (f x) x) -> Forall P l -> rel (map f l) l.
Proof. intros Hf H. induction H; constructor; auto. Qed.

Lemma converted {Z X X' Y Y'} (c : hash Z) (A' : strategy Z X') (conv : X' -> X) (V : X -> strategy Z Y) (V' : X' -> strategy Z Y') :
  asked c (V (conv (run c A'))) = asked c (V' (run c A')) ->
  asked c (andthen (andthen A' (fun x => Output (conv x))) V) = asked c (andthen A' V') /\
  run c (andthen A' (fun x => Output (conv x))) = conv (run c A').
Proof.
  intros H. assert (Hr : run c (andthen A' (fun x => Output (conv x))) = conv (run c A')) by (rewrite run_andthen; reflexivity).
  split; [|exact Hr]. rewrite !asked_andthen, Hr, H. cbn [asked]. rewrite app_nil_r. reflexivity.
Qed.

Lemma success_down {X X' Y Y'} (A' : strategy (DScalar D) X') (conv : X' -> X) (V : X -> strategy (DScalar D) Y) (V' : X' -> strategy (DScalar D) Y')
    (w : hash (DScalar D) -> X -> Prop) (w' : hash (DScalar D) -> X' -> Prop) num den :
  (forall o x, w' o x -> w o (conv x) /\ asked o (V (conv x)) = asked o (V' x)) ->
  success_at_most (subgroup_source L) (andthen A' (fun x => Output (conv x))) V w num den ->
  success_at_most (dalek_source D (curve25519_deserialize_element D)) A' V' w' num den.
Proof.
  intros Hw H Ds W HW Hall. apply (H Ds W HW). intros o Ho. destruct (Hall o Ho) as [H1 H2].
  change (challenges (dalek_source D (curve25519_deserialize_element D)) o) with (challenges (subgroup_source L) o) in *.
  destruct (Hw _ _ H2) as [H3 H4]. destruct (converted _ _ conv V V' H4) as [Ha Hr]. cbv zeta. split.
  - intros x Hx. apply H1. apply (eq_rect _ (fun l => In x l) Hx _ Ha).
  - exact (eq_rect _ (w _) H3 _ (eq_sym Hr)).
Qed.
Lemma down_most {X X'} Q (A' : strategy (DScalar D) X') (conv : X' -> X) : at_most Q A' -> at_most Q (andthen A' (fun x => Output (conv x))).
Proof. intros H. rewrite <- (Nat.add_0_r Q). apply at_most_andthen; [exact H|]. intros x. constructor. Qed.

Lemma queries_same (p : QuadraticVotingParams E) (p' : QuadraticVotingParams E') : rel p p' -> quadratic_queries p = quadratic_queries p'.
Proof.
  intros (H1 & H2 & H3 & _). apply is_eq in H3.
  assert (Hq : forall vs vs', rel vs vs' -> ring_queries (E:=E) vs = ring_queries (E:=E') vs').
  { intros vs vs' H. unfold ring_queries. do 2 f_equal. induction H as [|x x' vs vs' Hx _ IH]; [reflexivity|]. cbn [map].
    rewrite IH, (Forall2_length _ _ _ Hx). reflexivity. }
  unfold quadratic_queries. rewrite H3, (Hq _ _ (proj2 H1)), (Hq _ _ (proj2 H2)). reflexivity.
Qed.

Theorem C92_curve25519_code : (2 ^ 252 <= dl_order L)%Z ->
  let S := dalek_source D (curve25519_deserialize_element D) in
  forall params (keys : list (PublicKey E')) (ks : PublicKeySet E') (sk : SecretKey E') B M Q,
    params_ok params -> inside L keys -> PublicKeySet_from_participants params keys = Ret (Ok ks) -> key_of sk (ks_shared_key ks) ->
    (forall n, (N.of_nat n < 2 ^ 64)%N -> (Z.of_nat (Q + (B * (n + 2) + M)) <= 2 ^ 60)%Z ->
     forall A : strategy (Scalar E') (list (single_ballot E') * list (message E')), at_most Q A ->
       success_at_most S A (election_checker (single_checker n ks) (fun b => fst (fst b)) n B M ks)
         (fun o '(es, msgs) => List.length es <= B /\ List.length msgs <= M /\
            Forall (fun b => inside L (fst (fst b))) es /\ Forall (fun m => inside L (share_of m)) msgs /\
            ~ exists chosen, let cts := map (fun b => fst (fst b)) (filter (single_accepted E' n (ks_shared_key ks) o) es) in
                Forall2 (fun k l => one_hot (E:=E') sk l k) chosen cts /\
                announced_right E' o params ks n (map (choice_votes n) chosen) cts msgs)
         1 (2 ^ 132)) /\
    (forall n, (N.of_nat n < 2 ^ 64)%N -> (Z.of_nat (Q + (B * (n + 1) + M)) <= 2 ^ 60)%Z ->
     forall A : strategy (Scalar E') (list (multi_ballot E') * list (message E')), at_most Q A ->
       success_at_most S A (election_checker (multi_checker n ks) fst n B M ks)
         (fun o '(es, msgs) => List.length es <= B /\ List.length msgs <= M /\
            Forall (fun b => inside L (fst b)) es /\ Forall (fun m => inside L (share_of m)) msgs /\
            ~ exists votes, let cts := map fst (filter (multi_accepted E' n (ks_shared_key ks) o) es) in
                Forall2 (Forall2 (fun v ct => (v <= 1)%N /\ decrypt_to_element (E:=E') sk ct = Encryption.times v generator)) votes cts /\
                announced_right E' o params ks n votes cts msgs)
         1 (2 ^ 132)) /\
    (forall options credits max p, (credits + 65 < 2 ^ 64)%N -> qv_params (ks_shared_key ks) options credits max p ->
     (Z.of_nat options * (Z.of_N max * Z.of_N max) < dl_order L)%Z ->
     (Z.of_nat (Q + (B * quadratic_queries p + M)) <= 2 ^ 60)%Z ->
     forall A : strategy (Scalar E') (list (QuadraticVotingBallot E') * list (message E')), at_most Q A ->
       success_at_most S A (election_checker (quadratic_checker p) quadratic_choices options B M ks)
         (fun o '(es, msgs) => List.length es <= B /\ List.length msgs <= M /\
            Forall (fun b => inside L b) es /\ Forall (fun m => inside L (share_of m)) msgs /\
            ~ exists votes, let cts := map quadratic_choices (filter (quadratic_accepted E' p o) es) in
                Forall2 (fun vs l => Forall2 (fun v ct => (v <= max)%N /\ decrypt_to_element (E:=E') sk ct = Encryption.times v generator) vs l /\
                                     (squares vs <= credits)%N) votes cts /\
                announced_right E' o params ks options votes cts msgs)
         1 (2 ^ 132)).
Proof.
  intros Hq S params keys ks' sk B M Q Hp Hin Hks Hsk.
  destruct (represented_elections Hq params keys ks' sk B M Q Hp Hin Hks Hsk) as (ks & Hr & H1 & H2 & H3).
  split; [|split].
  - intros n Hn HN A HA.
    refine (success_down A (fun x => (map down_single (fst x), map down_message (snd x))) _ _ _ _ _ _ _ (H1 n Hn HN _ (down_most Q A _ HA))).
    intros o [es msgs] (HB & HM & Hes & Hmsgs & Hno). cbn [fst snd].
    assert (Re : rel (map down_single es) es).
    { refine (down_list _ _ _ _ Hes). intros x Hx. split; [|apply down_le_rel]. split; [apply down_cts_rel; exact Hx|apply down_ring_rel]. }
    pose proof (down_list _ _ _ down_message_rel Hmsgs) as Rm.
    split; [|].
    + split; [rewrite map_length; exact HB|]. split; [rewrite map_length; exact HM|]. exists es, msgs. split; [exact Re|]. split; [exact Rm|exact Hno].
    + apply (asked_rel (RR := Rel_Scalar (G := E) (G' := E'))); [intros x; reflexivity|].
      apply (p_election_checker (E := E) (E' := E')); try reflexivity; [|intros x x' Hx; exact (proj1 (proj1 Hx))|exact Hr|split; assumption].
      exact (p_single_checker (E := E) (E' := E') n n eq_refl ks ks' Hr).
  - intros n Hn HN A HA.
    refine (success_down A (fun x => (map down_multi (fst x), map down_message (snd x))) _ _ _ _ _ _ _ (H2 n Hn HN _ (down_most Q A _ HA))).
    intros o [es msgs] (HB & HM & Hes & Hmsgs & Hno). cbn [fst snd].
    assert (Re : rel (map down_multi es) es).
    { refine (down_list _ _ _ _ Hes). intros x Hx. split; [apply down_cts_rel; exact Hx|apply down_ring_rel]. }
    pose proof (down_list _ _ _ down_message_rel Hmsgs) as Rm.
    split; [|].
    + split; [rewrite map_length; exact HB|]. split; [rewrite map_length; exact HM|]. exists es, msgs. split; [exact Re|]. split; [exact Rm|exact Hno].
    + apply (asked_rel (RR := Rel_Scalar (G := E) (G' := E'))); [intros x; reflexivity|].
      apply (p_election_checker (E := E) (E' := E')); try reflexivity; [|intros x x' Hx; exact (proj1 Hx)|exact Hr|split; assumption].
      exact (p_multi_checker (E := E) (E' := E') n n eq_refl ks ks' Hr).
  - intros options credits max p' Hc Hqv Hb HN A HA. destruct (H3 options credits max p' Hc Hqv Hb) as (p & Hpr & H). clear H1 H2 H3.
    rewrite (queries_same p p' Hpr) in H. specialize (H HN).
    refine (success_down A (fun x => (map down_quadratic (fst x), map down_message (snd x))) _ _ _ _ _ _ _ (H _ (down_most Q A _ HA))).
    intros o [es msgs] (HB & HM & Hes & Hmsgs & Hno). cbn [fst snd].
    pose proof (down_list _ _ _ down_quadratic_rel Hes) as Re.
    pose proof (down_list _ _ _ down_message_rel Hmsgs) as Rm.
    split; [|].
    + split; [rewrite map_length; exact HB|]. split; [rewrite map_length; exact HM|]. exists es, msgs. split; [exact Re|]. split; [exact Rm|exact Hno].
    + apply (asked_rel (RR := Rel_Scalar (G := E) (G' := E'))); [intros x; reflexivity|].
      apply (p_election_checker (E := E) (E' := E')); try reflexivity;
        [|intros x x' Hx; exact (p_map crp_ciphertext crp_ciphertext p_crp_ciphertext (qb_votes x) (qb_votes x') (proj1 Hx))|exact Hr|split; assumption].
      exact (p_quadratic_checker (E := E) (E' := E') p p' Hpr).
Qed.
End Curve.
Print Assumptions C92_curve25519_code.


(** three participants with threshold two, over the stand-in with the order and the cofactor of Curve25519 *)
Definition code_env : Env := curve25519_env (full_dalek 8) nat (fun n r => (repeat x00 n, r)) (fun _ _ n => repeat x00 n)
  (fun x => x) (fun n => n) debug_build.
Definition code_key (k : Z) : PublicKey code_env :=
  let P : DPoint (full_dalek 8) := zq (8 * ell) (8 * k) in mkPublicKey (G := code_env) (p_compress P) P.
Definition code_keys : list (PublicKey code_env) := map code_key [12; 19; 26]%Z.

Example C92_curve25519_code_example :
  params_ok (mkParams 3 2) /\
  inside (full_dalek_laws 8 eq_refl ltac:(discriminate)) code_keys /\
  exists ks : PublicKeySet code_env, PublicKeySet_from_participants (mkParams 3 2) code_keys = Ret (Ok ks) /\
    key_of (E := code_env) (zq ell 5) (ks_shared_key ks).
Proof.
  split; [|split].
  - vm_compute. repeat split; repeat constructor.
  - unfold inside. repeat (apply Forall_cons; [|]); try apply Forall_nil; unfold in_subgroup; rewrite full_times; apply Zq_eq;
      change (dl_order _) with ell; rewrite Z2Nat.id by (vm_compute; discriminate); vm_compute; reflexivity.
  - assert (H : match PublicKeySet_from_participants (mkParams 3 2) code_keys with
                | Ret (Ok ks) => e_eqb (g := code_env) (pk_element (ks_shared_key ks)) (e_mul (g := code_env) (@generator code_env) (zq ell 5))
                | _ => false end = true) by (vm_compute; reflexivity).
    destruct (PublicKeySet_from_participants (mkParams 3 2) code_keys) as [[ks|e]|k]; try discriminate H.
    exists ks. split; [reflexivity|]. apply (zeqb_ok (8 * ell)). exact H.
Qed.
