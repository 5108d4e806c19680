(** * Secrecy of ballots for a key from a distributed key generation (C77) *)
From Coq Require Import List String NArith ZArith Arith Bool Lia Field.
From Verif.Model Require Import Base Group Transcript Keys Encryption LogEquality Possession Ring Range Choice Sharing Dkg.
From Verif.Spec Require Import Encryption Possession Range Choice Sharing Dkg Domains Rom Forking Verifiers Uniform Secrecy Coalition Election Unbiased DkgSecrecy.
From Verif.Proofs Require Import Algebra Lists Possession Poly Sharing Dkg Rom Forking Verifiers Uniform UniformBallots Secrecy SecrecyBallots Coalition Election.
From Verif.Proofs Require Import Encryption Unbiased.
From Verif.Properties Require Import Dkg.
Import ListNotations.
Open Scope string_scope.
Open Scope list_scope.
Open Scope nat_scope.

(** ** clients with a moved key *)
Section Moved.
Context (E : Env) (L : GroupLaws E) (Ht : ser_total E).
Local Notation scalar := (Scalar E).
Local Notation element := (Element E).
Local Notation scalars := (all_scalars L).
Local Notation q := (Z.to_nat (order L)).
Local Notation reads := (reads scalar).
Local Notation pk x := (kp_public (pair_of E x)).
Add Field s_field_moved : (s_field L).

Lemma move_pk w x : move_key w (pk x) = pk (x + w)%S.
Proof using L Ht.
  unfold move_key. cbn [pair_of kp_public pk_element]. rewrite <- (e_mul_add E L), (ser_ok E L Ht). reflexivity.
Qed.

Lemma move_back w (c : Ciphertext E) : move_ciphertext w (move_ciphertext (- w)%S c) = c.
Proof using L.
  destruct c as [R B]. unfold move_ciphertext. cbn [random_element blinded_element]. f_equal. el_ring L.
Qed.
Lemma move_back' w (c : Ciphertext E) : move_ciphertext (- w)%S (move_ciphertext w c) = c.
Proof using L.
  destruct c as [R B]. unfold move_ciphertext. cbn [random_element blinded_element]. f_equal. el_ring L.
Qed.

Lemma moved_all w (l : list (Ciphertext E)) : map (move_ciphertext (- w)%S) (map (move_ciphertext w) l) = l.
Proof using L. rewrite map_map, (map_ext _ (fun c => c)), map_id; [reflexivity|]. intros c. apply move_back'. Qed.
Lemma moved_all' w (l : list (Ciphertext E)) : map (move_ciphertext w) (map (move_ciphertext (- w)%S) l) = l.
Proof using L. rewrite map_map, (map_ext _ (fun c => c)), map_id; [reflexivity|]. intros c. apply move_back. Qed.

Lemma move_encrypts w x c M r : encrypts (pk x) c M r <-> encrypts (pk (x + w)%S) (move_ciphertext w c) M r.
Proof using L.
  unfold encrypts. cbn [pair_of kp_public pk_element move_ciphertext random_element blinded_element]. split; intros [H1 H2]; split.
  - exact H1.
  - rewrite H2, H1. el_ring L.
  - exact H1.
  - apply (f_equal (fun e => e - random_element c * w)%E) in H2. rewrite H1 in *.
    transitivity (blinded_element c + generator * r * w - generator * r * w)%E; [el_ring L|]. rewrite H2. el_ring L.
Qed.

Context (w : scalar).
Definition moved_client {A : Type} (client : hash scalar -> PublicKey E -> Rng E -> outcome (A * Rng E)) (o : hash scalar) (K : PublicKey E)
  : Rng E -> outcome (A * Rng E) := client o (move_key w K).
Definition moved_simulate {A : Type} (simulate : PublicKey E -> list (Ciphertext E) -> list scalar -> hash scalar -> A * hash scalar)
    (K : PublicKey E) (c : list (Ciphertext E)) : list scalar -> hash scalar -> A * hash scalar := simulate (move_key w K) (map (move_ciphertext w) c).

Lemma moved_sim {A : Type} dom o0 n k h (simulate : PublicKey E -> list (Ciphertext E) -> list scalar -> hash scalar -> A * hash scalar) assemble acc :
  sim_ok E L dom o0 n k h simulate assemble acc ->
  sim_ok E L dom o0 n k h (moved_simulate simulate) (fun c => assemble (map (move_ciphertext w) c))
    (fun K c => acc (move_key w K) (map (move_ciphertext w) c)).
Proof using Ht.
  intros (S1 & S2 & S3 & S4 & S5). split; [|split; [|split; [|split]]].
  - intros K c s o. apply S1.
  - intros c c' s s' Hc Hc' Hs Hs' Heq. apply S2 in Heq as [H1 H2]; [|rewrite ?map_length; assumption..]. split; [|exact H2].
    rewrite <- (moved_all w c), <- (moved_all w c'), H1. reflexivity.
  - intros x c s f Hc Hs Hf. unfold moved_simulate. rewrite move_pk. apply S3; [rewrite map_length; exact Hc|exact Hs|exact Hf].
  - intros x c s o y Hc Hs Hy. unfold moved_simulate. rewrite move_pk. apply S4; [rewrite map_length; exact Hc|exact Hs|exact Hy].
  - intros x c s o o' H. unfold moved_simulate. rewrite move_pk. apply S5. exact H.
Qed.

Lemma moved_side {A : Type} nd n k (assemble : list (Ciphertext E) -> list scalar -> A) acc Ms client :
  side_ok E nd n k assemble acc Ms client ->
  side_ok E nd n k (fun c => assemble (map (move_ciphertext w) c)) (fun K c => acc (move_key w K) (map (move_ciphertext w) c))
    (fun K => Ms (move_key w K)) (moved_client client).
Proof using L Ht.
  intros (HM & P & HU & HP). split; [intros K; apply HM|]. exists (fun x => P (x + w)%S). split.
  - intros x o. unfold moved_client. rewrite move_pk. apply HU.
  - intros x o a. rewrite move_pk, HP. split.
    + intros (c & s & Hs & Hc & -> & Ha). exists (map (move_ciphertext (- w)%S) c), s. rewrite moved_all'. split; [exact Hs|]. split; [|auto].
      revert Hc. generalize (Ms (pk (x + w)%S)). intros l Hc. clear Ha. induction Hc as [|M c0 l l' (r & Hr) _ IH]; [constructor|]. cbn [map]. constructor; [|exact IH].
      exists r. apply (move_encrypts w). rewrite move_back. exact Hr.
    + intros (c & s & Hs & Hc & -> & Ha). exists (map (move_ciphertext w) c), s. split; [exact Hs|]. split; [|auto].
      revert Hc. generalize (Ms (pk (x + w)%S)). intros l Hc. clear Ha. induction Hc as [|M c0 l l' (r & Hr) _ IH]; [constructor|]. cbn [map]. constructor; [|exact IH].
      exists r. apply move_encrypts. exact Hr.
Qed.

Lemma moved_cast {V A : Type} (client : V -> hash scalar -> PublicKey E -> Rng E -> outcome (A * Rng E)) votes o K r :
  cast (fun v => moved_client (client v)) votes o K r = cast client votes o (move_key w K) r.
Proof.
  revert r. induction votes as [|v l IH]; intros r; [reflexivity|]. cbn [cast]. unfold moved_client at 1.
  destruct (client v o (move_key w K) r) as [[a r1]|p]; [|reflexivity]. cbn [bind]. rewrite IH. reflexivity.
Qed.

End Moved.

(** ** the honest participant and one with the same public data *)
Definition orel {X Y : Type} (R : X -> Y -> Prop) (m : outcome X) (m' : outcome Y) : Prop :=
  match m, m' with
  | Ret a, Ret b => R a b
  | Panic _, Panic _ => True
  | _, _ => False
  end.

Lemma orel_bind {X Y X' Y' : Type} (R : X -> X' -> Prop) (S : Y -> Y' -> Prop) m m' (f : X -> outcome Y) (f' : X' -> outcome Y') :
  orel R m m' -> (forall a a', R a a' -> orel S (f a) (f' a')) -> orel S (bind m f) (bind m' f').
Proof. destruct m as [a|p], m' as [a'|p']; cbn; intros H HF; auto; contradiction. Qed.

Lemma orel_same {X Y Y' : Type} (S : Y -> Y' -> Prop) (m : outcome X) (f : X -> outcome Y) (f' : X -> outcome Y') :
  (forall a, orel S (f a) (f' a)) -> orel S (bind m f) (bind m f').
Proof. destruct m as [a|p]; cbn; intros HF; auto. Qed.

Section Like.
Context (E : Env) (L : GroupLaws E) (d d' : Dealer E).
Context (Hpub : Dealer_public_info d = Dealer_public_info d') (Hpar : de_params d = de_params d').

Definition like1 (p q : ParticipantCollectingCommitments E) : Prop :=
  pcc_dealer p = d /\ pcc_dealer q = d' /\ pcc_params p = pcc_params q /\ pcc_index p = pcc_index q /\
  pcc_commitments p = pcc_commitments q /\ pcc_opening p = pcc_opening q.
Definition like2 (p q : ParticipantCollectingPolynomials E) : Prop :=
  pcp_dealer p = d /\ pcp_dealer q = d' /\ pcp_params p = pcp_params q /\ pcp_index p = pcp_index q /\
  pcp_commitments p = pcp_commitments q /\ pcp_opening p = pcp_opening q /\ pcp_public_polynomials p = pcp_public_polynomials q.
Definition like3 (p q : ParticipantExchangingSecrets E) : Prop :=
  pes_dealer p = d /\ pes_dealer q = d' /\ pes_params p = pes_params q /\ pes_index p = pes_index q /\
  pes_public_polynomials p = pes_public_polynomials q /\ pes_shares_received p = pes_shares_received q.

Lemma like_commitment p q : like1 p q -> PCC_commitment p = PCC_commitment q.
Proof. intros (H1 & H2 & H3 & H4 & H5 & H6). unfold PCC_commitment. rewrite H4, H5. reflexivity. Qed.

Lemma like_deliver coms : forall p q, like1 p q -> orel like1 (deliver_commitments p coms) (deliver_commitments q coms).
Proof.
  induction coms as [|[j c] coms IH]; intros p q H; cbn [deliver_commitments]; [exact H|].
  apply (orel_bind like1); [|exact IH]. destruct H as (H1 & H2 & H3 & H4 & H5 & H6). unfold PCC_insert_commitment. rewrite H5.
  apply orel_same. intros old. apply orel_same. intros []. apply orel_same. intros cs. unfold orel, like1. cbn. auto 10.
Qed.

Lemma like_finish1 p q : like1 p q -> orel like2 (PCC_finish_commitment_phase p) (PCC_finish_commitment_phase q).
Proof using Hpub.
  intros (H1 & H2 & H3 & H4 & H5 & H6). unfold PCC_finish_commitment_phase, PCC_missing_commitments. rewrite H5.
  destruct (missing_options _); [|exact I]. rewrite H1, H2, Hpub, H3, H4.
  apply orel_same. intros ps. apply orel_same. intros cs. unfold orel, like2. cbn. auto 10.
Qed.

Lemma like_info p q : like2 p q -> PCP_public_info p = PCP_public_info q.
Proof using Hpub. intros (H1 & H2 & H3 & H4 & H5 & H6 & H7). unfold PCP_public_info. rewrite H1, H2, Hpub, H6. reflexivity. Qed.

Lemma like_offer infos : forall p q, like2 p q -> orel like2 (offer_polynomials p infos) (offer_polynomials q infos).
Proof.
  induction infos as [|[j info] infos IH]; intros p q H; cbn [offer_polynomials]; [exact H|].
  apply (orel_bind (fun a b => like2 (snd a) (snd b))); [|intros [r1 a] [r2 b]; cbn [snd]; apply IH].
  pose proof H as (H1 & H2 & H3 & H4 & H5 & H6 & H7). unfold PCP_insert_public_polynomial. rewrite H5.
  apply orel_same. intros e0. apply orel_same. intros c. apply orel_same. intros ex. destruct (negb _); [exact H|].
  rewrite H3. apply orel_same. intros [u|e]; [|exact H]. rewrite H7. apply orel_same. intros ps. unfold orel, like2. cbn. auto 10.
Qed.

Lemma like_finish2 p q : like2 p q -> orel like3 (PCP_finish_polynomials_phase p) (PCP_finish_polynomials_phase q).
Proof using L Hpar.
  intros (H1 & H2 & H3 & H4 & H5 & H6 & H7). unfold PCP_finish_polynomials_phase, PCP_missing_public_polynomials. rewrite H7.
  destruct (missing_options _); [|exact I]. rewrite H1, H2, H3, H4. apply orel_same. intros sr.
  rewrite !(dealer_share_eq E L), Hpar. destruct (_ <? _); [|exact I]. unfold orel, like3. cbn. auto 10.
Qed.

Lemma like_insert p q j s : like3 p q ->
  orel (fun a b => fst a = fst b /\ like3 (snd a) (snd b)) (PES_insert_secret_share p j s) (PES_insert_secret_share q j s).
Proof.
  intros H. pose proof H as (H1 & H2 & H3 & H4 & H5 & H6). unfold PES_insert_secret_share. rewrite H6.
  apply orel_same. intros [|]; [split; [reflexivity|exact H]|]. rewrite H5, H4.
  apply orel_same. intros P. apply orel_same. intros e. apply orel_same. intros ps. destruct (negb _); [split; [reflexivity|exact H]|].
  apply orel_same. intros sr. unfold orel, like3. cbn. auto 10.
Qed.

Lemma like_shares msgs : forall p q, like3 p q -> orel like3 (offer_shares p msgs) (offer_shares q msgs).
Proof.
  induction msgs as [|[j s] msgs IH]; intros p q H; cbn [offer_shares]; [exact H|].
  apply (orel_bind (fun a b => fst a = fst b /\ like3 (snd a) (snd b))); [apply like_insert; exact H|].
  intros [r1 a] [r2 b] [_ Hl]. exact (IH a b Hl).
Qed.

End Like.

Lemma forallb_ext' {X : Type} (f g : X -> bool) l : (forall x, f x = g x) -> forallb f l = forallb g l.
Proof. intros H. induction l as [|x l IH]; [reflexivity|]. cbn [forallb]. rewrite H, IH. reflexivity. Qed.

Section LikeRuns.
Context (E : Env) (L : GroupLaws E) (params : Params) (idx : nat) (hs : list nat).
Local Notation scalar := (Scalar E).

Lemma like_accepts d d' (p q : ParticipantExchangingSecrets E) j m s : like3 E d d' p q -> accepts params p j m s = accepts params q j m s.
Proof.
  intros (H1 & H2 & H3 & H4 & H5 & H6). unfold accepts.
  pose proof (like_insert E d d' (receiver params p j) (receiver params q j) m s) as H.
  assert (Hl : like3 E d d' (receiver params p j) (receiver params q j)) by (unfold like3, receiver; cbn; auto 10).
  specialize (H Hl). unfold orel in H. destruct (PES_insert_secret_share (receiver params p j) m s) as [[[u|e] a]|x], (PES_insert_secret_share (receiver params q j) m s) as [[[u'|e'] a']|x']; cbn in H; try reflexivity; try destruct H; try discriminate.
Qed.

Lemma like_all d d' (p q : ParticipantExchangingSecrets E) sent : like3 E d d' p q -> all_accept params idx hs p sent = all_accept params idx hs q sent.
Proof.
  intros H. unfold all_accept. apply forallb_ext'. intros m. apply forallb_ext'. intros j. exact (like_accepts d d' p q j m _ H).
Qed.

(** what two runs with the same public data have in common *)
Definition like_results d d' (x y : PublicInfo E * list (SecretKey E) * ParticipantExchangingSecrets E * ParticipantExchangingSecrets E * sent_shares (E:=E)) : Prop :=
  let '(own, shares, p, p', sent) := x in let '(own', shares', q, q', sent') := y in
  own = own' /\ shares = shares' /\ like3 E d d' p q /\ like3 E d d' p' q' /\ sent = sent'.

Lemma like_exchange o d d' (reveal : ParticipantExchangingSecrets E -> outcome (list (SecretKey E))) shares A p q :
  Dealer_public_info d = Dealer_public_info d' -> de_params d = de_params d' ->
  (forall s, pes_dealer s = d -> reveal s = Ret shares) -> like1 E d d' p q ->
  orel (like_results d d') (exchange idx reveal A o p) (exchange idx (fun _ => Ret shares) A o q).
Proof using L.
  intros Hpub Hpar Hrev Hl. unfold exchange.
  assert (Hc : PCC_commitment (E:=hashed_by E o) p = PCC_commitment (E:=hashed_by E o) q).
  { exact (like_commitment (hashed_by E o) d d' p q Hl). }
  rewrite Hc. apply orel_same. intros c. destruct (run o (A c)) as [coms A2].
  apply (orel_bind (like1 E d d')); [exact (like_deliver (hashed_by E o) d d' (from_others idx coms) p q Hl)|]. clear p q Hl Hc. intros p q Hl.
  apply (orel_bind (like2 E d d')); [exact (like_finish1 (hashed_by E o) d d' Hpub p q Hl)|]. clear p q Hl. intros p q Hl.
  rewrite (like_info (hashed_by E o) d d' Hpub p q Hl). set (own := PCP_public_info (E:=hashed_by E o) q). destruct (run o (A2 own)) as [infos A3].
  apply (orel_bind (like2 E d d')); [exact (like_offer (hashed_by E o) d d' (from_others idx infos) p q Hl)|]. clearbody own. clear p q Hl. intros p q Hl.
  apply (orel_bind (like3 E d d')); [exact (like_finish2 (hashed_by E o) L d d' Hpar p q Hl)|]. clear p q Hl. intros p q Hl.
  rewrite Hrev by apply Hl. cbn [bind]. destruct (run o (A3 shares)) as [mine sent].
  apply (orel_bind (like3 E d d')); [exact (like_shares (hashed_by E o) d d' mine p q Hl)|]. intros p' q' Hl'.
  unfold orel, like_results. auto 10.
Qed.

End LikeRuns.

(** ** what a completed run says about the shared key *)
Section Completed.
Context (E : Env) (L : GroupLaws E) (Ht : ser_total E) (Hbig : (2 ^ 64 <= order L)%Z).
Context (params : Params) (Hparams : params_ok params) (idx : nat).
Local Notation scalar := (Scalar E).
Local Notation element := (Element E).
Local Notation pk x := (kp_public (pair_of E x)).
Add Field s_field_completed : (s_field L).

Lemma offer_others infos : forall (q q' : ParticipantCollectingPolynomials E) coms hist,
  pcp_run params idx q coms hist -> (forall m, In m infos -> fst m <> idx) -> offer_polynomials q infos = Ret q' ->
  pcp_dealer q' = pcp_dealer q /\
  exists hist', pcp_run params idx q' coms hist' /\ forall P, In (idx, P) hist' -> In (idx, P) hist.
Proof.
  induction infos as [|[j info] infos IH]; intros q q' coms hist Hr Hne H; cbn [offer_polynomials] in H.
  - injection H as <-. eauto.
  - inv_bind H. destruct a as [res q1].
    assert (Hd : pcp_dealer q1 = pcp_dealer q).
    { clear - Hm. unfold PCP_insert_public_polynomial in Hm. inv_bind Hm. inv_bind Hm. inv_bind Hm. destruct (negb _).
      - injection Hm as _ <-. reflexivity.
      - inv_bind Hm. destruct a2; [|injection Hm as _ <-; reflexivity]. inv_bind Hm. injection Hm as _ <-. reflexivity. }
    destruct (IH q1 q' coms (match res with Ok _ => (j, pi_polynomial info) :: hist | Err _ => hist end)) as (D & hist' & H1 & H2).
    + eapply pcp_run_insert; [exact Hr|exact Hm].
    + intros m Hin. apply Hne. right. exact Hin.
    + exact H.
    + split; [congruence|]. exists hist'. split; [exact H1|]. intros P HP. specialize (H2 P HP). destruct res as [u|e]; [|exact H2].
      destruct H2 as [Heq|H2]; [|exact H2]. injection Heq as Hj _. destruct (Hne (j, info) (or_introl eq_refl)). exact Hj.
Qed.

Lemma offer_shares_facts shares : forall (s s' : ParticipantExchangingSecrets E) hist sup,
  pes_run params idx s hist sup -> offer_shares s shares = Ret s' ->
  (exists sup', pes_run params idx s' hist sup') /\ pes_dealer s' = pes_dealer s /\ pes_public_polynomials s' = pes_public_polynomials s.
Proof.
  induction shares as [|[j share] shares IH]; intros s s' hist sup Hr H; cbn [offer_shares] in H.
  - injection H as <-. eauto.
  - inv_bind H. destruct a as [res s1].
    assert (Hd : pes_dealer s1 = pes_dealer s /\ pes_public_polynomials s1 = pes_public_polynomials s).
    { clear - Hm. unfold PES_insert_secret_share in Hm. inv_bind Hm. destruct a; [injection Hm as _ <-; auto|]. inv_bind Hm. inv_bind Hm. inv_bind Hm.
      destruct (negb _); [injection Hm as _ <-; auto|]. inv_bind Hm. injection Hm as _ <-. auto. }
    destruct Hd as [D1 D2].
    destruct (IH s1 s' hist (match res with Ok _ => j :: sup | Err _ => sup end)) as (H1 & H2 & H3).
    + eapply pes_run_insert; [exact Hr|exact Hm].
    + exact H.
    + split; [exact H1|]. split; congruence.
Qed.

(** the states of a participant in a run *)
Lemma run_facts r (p0 : ParticipantCollectingCommitments E) r' coms p1 q infos q1 s shares s1 :
  PCC_new params idx r = Ret (p0, r') ->
  deliver_commitments p0 coms = Ret p1 -> PCC_finish_commitment_phase p1 = Ret q ->
  (forall m, In m infos -> fst m <> idx) -> offer_polynomials q infos = Ret q1 -> PCP_finish_polynomials_phase q1 = Ret s ->
  offer_shares s shares = Ret s1 ->
  PCP_public_info q = {| pi_polynomial := fst (Dealer_public_info (pcc_dealer p0)); pi_pop := snd (Dealer_public_info (pcc_dealer p0));
                         pi_opening := pcc_opening p0 |} /\
  exists hist sup, pes_run params idx s hist [idx] /\ pes_run params idx s1 hist sup /\
    pes_dealer s = pcc_dealer p0 /\ pes_dealer s1 = pcc_dealer p0 /\ pes_public_polynomials s1 = pes_public_polynomials s /\
    (forall P, In (idx, P) hist -> P = fst (Dealer_public_info (pcc_dealer p0))).
Proof using L.
  intros Hnew Hdel Hfin Hne Hoff Hfin2 Hsh.
  destruct (pcc_new_ok E params idx r p0 r' Hnew) as (d & r1 & opening & e0 & b & _ & _ & _ & _ & Hp0 & Hcom).
  assert (Hr0 : pcc_run params idx p0 [(idx, @sha256 E (b ++ opening))]) by (eapply pcc_run_new; [exact Hnew|exact Hcom]).
  destruct (deliver_app params idx p0 p1 _ coms Hr0 Hdel) as (Hr1 & Hd & Ho).
  assert (Hq : pcp_dealer q = pcc_dealer p0 /\ pcp_opening q = pcc_opening p0).
  { rewrite (pcc_finish_eq E params idx p1 _ Hr1) in Hfin. destruct (not_supplied _ _); [|discriminate]. injection Hfin as <-. cbn [pcp_dealer pcp_opening]. auto. }
  destruct Hq as [Hq1 Hq2].
  assert (Hinfo : PCP_public_info q = {| pi_polynomial := fst (Dealer_public_info (pcc_dealer p0)); pi_pop := snd (Dealer_public_info (pcc_dealer p0));
                         pi_opening := pcc_opening p0 |}) by (unfold PCP_public_info; rewrite Hq1, Hq2; reflexivity).
  split; [exact Hinfo|].
  assert (Hr2 : pcp_run params idx q _ [(idx, pi_polynomial (PCP_public_info q))]) by (eapply pcp_run_start; [exact Hr1|exact Hfin]).
  destruct (offer_others infos q q1 _ _ Hr2 Hne Hoff) as (Hd1 & hist & Hr3 & Hown).
  assert (Hr4 : pes_run params idx s hist [idx]) by (eapply pes_run_start; [exact Hr3|exact Hfin2]).
  destruct (offer_shares_facts shares s s1 hist _ Hr4 Hsh) as ((sup & Hr5) & D1 & D2).
  assert (Hds : pes_dealer s = pcp_dealer q1).
  { rewrite (pcp_finish_eq E L params idx q1 _ hist Hr3) in Hfin2. destruct (not_supplied _ _); [|discriminate].
    injection Hfin2 as <-. reflexivity. }
  exists hist, sup. split; [exact Hr4|]. split; [exact Hr5|]. split; [congruence|]. split; [congruence|]. split; [exact D2|].
  intros P HP. apply Hown in HP as [Heq|[]]. apply pair_equal_spec in Heq as [_ <-]. rewrite Hinfo. reflexivity.
Qed.

Lemma sum_split (f : nat -> scalar) n : idx < n ->
  s_sum (map f (seq 0 n)) = (f idx + fold_right s_add 0 (map f (filter (fun m => negb (Nat.eqb m idx)) (seq 0 n))))%S.
Proof using L.
  intros Hi. assert (Hin : In idx (seq 0 n)) by (apply in_seq; lia). pose proof (seq_NoDup n 0) as Hnd.
  change (fold_right s_add 0%S) with (@s_sum E).
  revert Hin Hnd. generalize (seq 0 n). clear Hi. induction l as [|m l IH]; intros Hin Hnd; [destruct Hin|].
  inversion Hnd as [|? ? Hn Hnd']; subst. cbn [filter map]. rewrite s_sum_cons.
  destruct (Nat.eqb_spec m idx) as [->|Hne]; cbn [negb].
  - replace (filter (fun m => negb (Nat.eqb m idx)) l) with l; [reflexivity|]. symmetry. clear - Hn. induction l as [|k l IH]; [reflexivity|].
    cbn [filter]. destruct (Nat.eqb_spec k idx) as [->|]; [destruct Hn; left; reflexivity|]. cbn [negb]. rewrite IH; [reflexivity|].
    intros H. apply Hn. right. exact H.
  - destruct Hin as [->|Hin]; [congruence|]. rewrite (IH Hin Hnd'). cbn [map]. rewrite s_sum_cons. ring.
Qed.

Lemma polys_sum (polys : list (list element)) (g : list element -> scalar) :
  s_sum (map g polys) = s_sum (map (fun i => g (nth i polys [])) (seq 0 (List.length polys))).
Proof.
  f_equal. induction polys as [|P Ps IH]; [reflexivity|]. cbn [map List.length seq nth]. f_equal. rewrite IH, <- seq_shift, map_map. reflexivity.
Qed.

Lemma accepts_facts (p : ParticipantExchangingSecrets E) j m s : accepts params p j m s = true ->
  exists P, nth_error (pes_public_polynomials p) m = Some P /\ s = peval (map (dlog L) P) (node j).
Proof.
  unfold accepts. destruct (PES_insert_secret_share (receiver params p j) m s) as [[[u|e] a]|x] eqn:H; try discriminate. intros _.
  unfold PES_insert_secret_share, receiver in H.
  cbn [pes_params pes_index pes_dealer pes_public_polynomials pes_accumulated_share pes_shares_received] in H.
  inv_bind H. apply index_Ret, nth_error_In, repeat_spec in Hm. subst a0.
  inv_bind H. apply index_Ret in Hm. exists a0. split; [exact Hm|].
  inv_bind H. rewrite (value_at_dlog E L) in Hm0. injection Hm0 as <-. inv_bind H.
  apply pk_from_element_ok in Hm0 as [Hm0 _]. rewrite Hm0 in H. rewrite (mul_generator_ok E L) in H.
  destruct (e_eqb _ _) eqn:He; [|discriminate]. apply (e_eqb_ok E L) in He. apply (gen_inj L) in He. symmetry. exact He.
Qed.

Context (hs : list nat) (Hnd : NoDup hs) (Hhs : forall j, In j hs -> j < pa_shares params) (Hlen : List.length hs = pa_threshold params).

Lemma secret_of_ok (P : list scalar) : List.length P = pa_threshold params -> secret_of hs (map (fun j => peval P (node j)) hs) = peval P 0%S.
Proof using L Hbig Hparams Hnd Hhs Hlen.
  intros HP. destruct Hparams as [_ Hs].
  assert (Hu : forall j, In j hs -> usize (j + 1)) by (intros j Hj; apply Hhs in Hj; unfold usize; lia).
  unfold secret_of. rewrite (coefficients_eq E L Hbig hs Hu).
  rewrite (lagrange L node hs Hnd) by (try lia; intros i j Hi Hj; apply (node_inj E L Hbig); apply Hu; assumption).
  assert (Hsub : forall l, incl l hs ->
    (fold_right s_add 0 (map (fun cs => fst cs * snd cs) (combine (map (fun i => s_inv L (lagrange_denominator hs i)) l) (map (fun j => peval P (node j)) l))) *
       s_prod (map node hs))%S = s_sum (map (fun i => peval P (node i) * lag_basis L node hs i 0%S)%S l)).
  { induction l as [|i l IH]; intros Hl; [cbn; ring|]. cbn [map combine fold_right fst snd]. rewrite s_sum_cons, <- IH by (intros z Hz; apply Hl; right; exact Hz).
    rewrite <- (coefficient_basis E L Hbig hs i Hnd (Hl i (or_introl eq_refl)) Hu). ring. }
  apply Hsub, incl_refl.
Qed.

(** the shared key of a completed run *)
Lemma completed_key (s s1 : ParticipantExchangingSecrets E) hist sup x coeffs sent :
  pes_run params idx s1 hist sup -> pes_public_polynomials s1 = pes_public_polynomials s ->
  fst (Dealer_public_info (pes_dealer s1)) = in_exponent (x :: coeffs) ->
  (forall P, In (idx, P) hist -> P = fst (Dealer_public_info (pes_dealer s1))) ->
  match PES_missing_shares s1 with
  | _ :: _ => exists k, PES_complete s1 = Panic k
  | [] => exists a, PES_complete s1 = Ret (Ok a) /\
            (all_accept params idx hs s sent = true -> ks_shared_key (ap_key_set a) = pk (x + other_secrets params idx hs sent)%S)
  end.
Proof using Ht Hbig Hparams Hnd Hhs Hlen.
  intros Hr Hpol Hpub Hown. pose proof (pes_run_inv E L params idx s1 hist sup Hr) as Hinv.
  destruct (PES_missing_shares s1) as [|z zs] eqn:Hmis.
  2:{ unfold PES_complete. rewrite Hmis. eauto. }
  destruct (C37_complete_ok_unless_replaced E L Hbig Ht params idx s1 hist sup Hparams Hr Hmis Hown) as [a Ha]. exists a. split; [exact Ha|]. intros Hacc.
  rewrite (pes_complete_eq E L Hbig params idx Hparams s1 hist sup Hinv) in Ha.
  destruct (not_supplied (pa_shares params) sup); [|discriminate]. cbv zeta in Ha. inv_bind Ha. inv_bind Ha.
  destruct (s_eqb _ _); [|discriminate]. injection Ha as <-. cbn [ap_key_set ks_shared_key].
  unfold PublicKey_from_element in Hm0. rewrite (ser_ok E L Ht) in Hm0. cbn [bind] in Hm0. injection Hm0 as <-.
  enough (Hsum : peval (total_poly E L params (pes_public_polynomials s1)) 0%S = (x + other_secrets params idx hs sent)%S) by (rewrite Hsum; reflexivity).
  rewrite (total_poly_eval E L), polys_sum.
  destruct Hinv as (H1 & H2 & H3 & H4 & H5 & H6 & H6' & H7 & _). assert (Hlp : forall l : list (list element), l = pes_public_polynomials s1 -> List.length l = pa_shares params) by (intros l ->; exact H6).
  rewrite (Hlp _ eq_refl).
  rewrite (sum_split _ _ H3). f_equal.
  - destruct (nth_error (pes_public_polynomials s1) idx) as [P|] eqn:HP; [|apply nth_error_None in HP; lia].
    rewrite (nth_error_nth _ _ _ HP). rewrite H6' in HP. apply latest_In, Hown in HP. rewrite HP, Hpub.
    rewrite (map_dlog_in_exponent E L). cbn [peval]. ring.
  - unfold other_secrets, other_dealers. f_equal. apply map_ext_in. intros m Hm0.
    unfold all_accept in Hacc. rewrite forallb_forall in Hacc. specialize (Hacc m Hm0). rewrite forallb_forall in Hacc.
    apply filter_In in Hm0 as [Hm0 _]. apply in_seq in Hm0.
    destruct (nth_error (pes_public_polynomials s1) m) as [P|] eqn:HP; [|apply nth_error_None in HP; lia].
    rewrite (nth_error_nth _ _ _ HP). rewrite <- secret_of_ok by (rewrite map_length; apply (H7 m P HP)). f_equal.
    apply map_ext_in. intros j Hj. destruct (accepts_facts s j m _ (Hacc j Hj)) as (P' & HP' & ->). rewrite <- Hpol, HP in HP'. injection HP' as <-. reflexivity.
Qed.

End Completed.

(** ** the link between the run and the attacker's *)
Section Link.
Context (E : Env) (L : GroupLaws E) (Ht : ser_total E) (Hbig : (2 ^ 64 <= order L)%Z).
Context (params : Params) (Hparams : params_ok params) (idx : nat) (Hidx : idx < pa_shares params).
Context (is_ : list nat) (His : forall i, In i is_ -> i < pa_shares params).
Context (hs : list nat) (Hndh : NoDup hs) (Hhs : forall j, In j hs -> j < pa_shares params) (Hlenh : List.length hs = pa_threshold params).
Local Notation scalar := (Scalar E).
Local Notation element := (Element E).
Local Notation pk x := (kp_public (pair_of E x)).
Local Notation t := (pa_threshold params).
Add Field s_field_link : (s_field L).

Lemma dealer_facts o r (d : Dealer E) r1 : Dealer_new (E:=hashed_by E o) params r = Ret (d, r1) ->
  exists x coeffs ks, fst (Dealer_public_info d) = in_exponent (x :: coeffs) /\ List.length coeffs = t - 1 /\ de_params d = params /\
    PublicKeySet_new (E:=hashed_by E o) params (fst (Dealer_public_info d)) (snd (Dealer_public_info d)) = Ret (Ok ks) /\
    ks_shared_key ks = pk x /\
    mapM (Dealer_secret_share_for_participant (E:=E) d) is_ = Ret (shares_of E is_ (x :: coeffs)).
Proof using L Ht Hparams His.
  intros Hd. destruct (dealer_new_ok (hashed_by E o) L params r d r1 Hd) as (H1 & H2 & H3 & _).
  destruct (pks_new_total (hashed_by E o) L params (fst (Dealer_public_info d)) (snd (Dealer_public_info d)) Hparams Ht) as [res Hres].
  destruct (dealing_ok (hashed_by E o) L params r d r1 res Hparams Hd Hres) as [ks ->].
  assert (Hpt : 1 <= t) by apply Hparams.
  unfold dealer_poly in H2, H3.
  assert (H2' : forall l : list scalar, l = map kp_secret (de_polynomial d) -> List.length l = t) by (intros l ->; exact H2).
  assert (H3' : fst (Dealer_public_info (E:=E) d) = in_exponent (G:=E) (map kp_secret (de_polynomial d))) by exact H3. clear H3. rename H3' into H3.
  assert (H1' : @de_params E d = params) by exact H1. clear H1. rename H1' into H1.
  destruct (map kp_secret (de_polynomial d)) as [|x coeffs] eqn:Hpoly; specialize (H2' _ eq_refl); cbn [List.length] in H2'; [exfalso; clear - H2' Hpt; lia|].
  exists x, coeffs, ks. split; [exact H3|]. split; [clear - H2'; lia|]. split; [exact H1|]. split; [exact Hres|]. split.
  - pose proof (eq_trans (f_equal (fun l => PublicKeySet_new (E:=hashed_by E o) params l (snd (Dealer_public_info d))) (eq_sym H3)) Hres) as Hks.
    apply (pks_new_ok (hashed_by E o) L) in Hks as (_ & _ & K1 & K2 & _); [|exact Hparams].
    unfold key_bytes_ok in K2. destruct (ks_shared_key ks) as [b e]. cbn [pk_element pk_bytes] in K1, K2.
    assert (H0 : peval (x :: coeffs) 0%S = x) by (cbn [peval]; ring).
    assert (He : e = (@generator E * x)%E) by exact (eq_trans K1 (f_equal (fun z => (@generator E * z)%E) H0)). clear K1. subst e.
    change (serialize_element (g:=hashed_by E o)) with (serialize_element (g:=E)) in K2. rewrite (ser_ok E L Ht) in K2. injection K2 as <-. reflexivity.
  - unfold shares_of. revert His. clear - L H1 Hpoly. intros His. induction is_ as [|i l IH]; [reflexivity|]. cbn [mapM map].
    rewrite (dealer_share_eq E L), H1. rewrite Hpoly.
    destruct (Nat.ltb_spec i (pa_shares params)) as [_|Hge]; [|specialize (His i (or_introl eq_refl)); lia]. cbn [bind].
    rewrite IH by (intros j Hj; apply His; right; exact Hj). reflexivity.
Qed.

Definition started_at (d : Dealer E) (x : scalar) (b : bytes) : ParticipantCollectingCommitments E :=
  {| pcc_params := params; pcc_index := idx; pcc_dealer := d;
     pcc_commitments := list_set (repeat None (pa_shares params)) idx (Some (@sha256 E (ser E (generator * x)%E ++ b))); pcc_opening := b |}.

Lemma pcc_new_at o r (d : Dealer E) r1 b r2 x coeffs : Dealer_new (E:=hashed_by E o) params r = Ret (d, r1) -> fill_bytes 32 r1 = (b, r2) ->
  fst (Dealer_public_info d) = in_exponent (x :: coeffs) ->
  PCC_new (E:=hashed_by E o) params idx r = Ret (started_at d x b, r2).
Proof using L Ht Hidx.
  intros Hd Hf Hp. unfold PCC_new, assert. replace (idx <? pa_shares params) with true by (symmetry; apply Nat.ltb_lt; exact Hidx). cbn [bind].
  refine (eq_trans (bind_Ret' _ _ _ Hd) _). cbv beta iota.
  assert (Hf' : fill_bytes (e:=hashed_by E o) 32 r1 = (b, r2)) by exact Hf. rewrite Hf'. cbv zeta.
  assert (H0 : index (fst (Dealer_public_info d)) 0 = Ret (generator * x)%E) by (rewrite Hp; reflexivity).
  refine (eq_trans (bind_Ret' _ _ _ H0) _). cbv beta. unfold create_commitment.
  assert (H1 : (b0 <- serialize_element (g:=E) (generator * x)%E ;; Ret (@sha256 E (b0 ++ b))) = Ret (@sha256 E (ser E (generator * x)%E ++ b)))
    by (rewrite (ser_ok E L Ht); reflexivity).
  refine (eq_trans (bind_Ret' _ _ _ H1) _). cbv beta.
  rewrite index_set_ok by (rewrite repeat_length; exact Hidx). reflexivity.
Qed.

Lemma hollow_at (d : Dealer E) x coeffs b : fst (Dealer_public_info d) = in_exponent (x :: coeffs) -> de_params d = params ->
  exists d' q0, hollow params idx {| pi_polynomial := fst (Dealer_public_info d); pi_pop := snd (Dealer_public_info d); pi_opening := b |} = Ret q0 /\
    Dealer_public_info d = Dealer_public_info d' /\ de_params d = de_params d' /\ like1 E d d' (started_at d x b) q0.
Proof using L Ht Hidx.
  intros Hp Hpar. unfold hollow. cbn [pi_polynomial pi_pop pi_opening]. rewrite (mapM_key_from E L Ht). cbn [bind].
  assert (H0 : index (fst (Dealer_public_info d)) 0 = Ret (generator * x)%E) by (rewrite Hp; reflexivity). rewrite H0. cbn [bind].
  unfold create_commitment. rewrite (ser_ok E L Ht). cbn [bind].
  rewrite index_set_ok by (rewrite repeat_length; exact Hidx). cbn [bind].
  match goal with |- exists d' q0, Ret ?q = Ret q0 /\ _ => exists (pcc_dealer q), q end. cbn [pcc_dealer]. split; [reflexivity|].
  split; [|split].
  - unfold Dealer_public_info. cbn [de_polynomial de_pop fst snd]. f_equal. rewrite !map_map. reflexivity.
  - exact Hpar.
  - unfold like1, started_at. cbn. auto 10.
Qed.

(** the run with the honest participant *)
Lemma generated_played A o r (d : Dealer E) r1 b r2 x coeffs : Dealer_new (E:=hashed_by E o) params r = Ret (d, r1) -> fill_bytes 32 r1 = (b, r2) ->
  fst (Dealer_public_info d) = in_exponent (x :: coeffs) -> mapM (Dealer_secret_share_for_participant (E:=E) d) is_ = Ret (shares_of E is_ (x :: coeffs)) ->
  let own := {| pi_polynomial := fst (Dealer_public_info d); pi_pop := snd (Dealer_public_info d); pi_opening := b |} in
  let shares := shares_of E is_ (x :: coeffs) in
  match played params idx hs A own shares o with
  | Some w => key_generated params idx is_ hs A o r = Ret (Some (own, shares, pk (x + w)%S))
  | None => key_generated params idx is_ hs A o r = Ret None \/ exists k, key_generated params idx is_ hs A o r = Panic k
  end.
Proof using L Ht Hbig Hparams Hidx Hndh Hhs Hlenh.
  intros Hd Hf Hp Hsh own shares. destruct (dealer_new_ok (hashed_by E o) L params r d r1 Hd) as (Hpar & _).
  pose proof (pcc_new_at o r d r1 b r2 x coeffs Hd Hf Hp) as Hnew.
  destruct (hollow_at d x coeffs b Hp Hpar) as (d' & q0 & Hq0 & Hpub & Hpar' & Hlike).
  pose proof (like_exchange E L idx o d d' (fun p => mapM (PES_secret_share_for_participant (E:=hashed_by E o) p) is_) shares A (started_at d x b) q0 Hpub Hpar') as Hex.
  specialize (Hex ltac:(intros s0 <-; exact Hsh) Hlike).
  unfold played. fold own in Hq0. rewrite Hq0. cbn [bind].
  unfold key_generated. rewrite Hnew. cbn [bind].
  match type of Hex with orel _ ?m ?m' => match goal with |- context [@exchange ?e1 ?e2 ?e3 ?e4 ?e5 q0] => change (@exchange e1 e2 e3 e4 e5 q0) with m' end end.
  match type of Hex with orel _ ?m ?m' => destruct m as [[[[[own1 sh1] s] s1] sent]|k] eqn:Hrun; destruct m' as [[[[[own2 sh2] s'] s1'] sent']|k'] end;
    cbn [orel] in Hex; try contradiction; cbn [bind].
  2:{ right. eauto. }
  unfold like_results in Hex. destruct Hex as (<- & <- & Hl3 & Hl3' & <-).
  rewrite <- (like_all E params idx hs d d' s s' sent Hl3).
  assert (Hmiss : PES_missing_shares s1' = PES_missing_shares s1).
  { unfold PES_missing_shares. destruct Hl3' as (_ & _ & _ & _ & _ & H6). rewrite H6. reflexivity. }
  rewrite Hmiss. clear Hl3 Hl3' Hmiss s' s1' Hlike Hq0 q0.
  (* the honest run *)
  unfold exchange in Hrun. inv_bind Hrun. destruct (run o (A a)) as [coms A2] eqn:HA1. inv_bind Hrun. inv_bind Hrun.
  destruct (run o (A2 _)) as [infos A3] eqn:HA2. inv_bind Hrun. inv_bind Hrun. inv_bind Hrun. destruct (run o (A3 a4)) as [mine sent0] eqn:HA3. inv_bind Hrun.
  injection Hrun as <- <- <- <- <-.
  destruct (run_facts (hashed_by E o) L params idx r (started_at d x b) r2 (from_others idx coms) a0 a1 (from_others idx infos) a2 a3 mine a5) as (Hinfo & hist & sup & R1 & R2 & D1 & D2 & D3 & Hown);
    [exact Hnew|exact Hm0|exact Hm1| |exact Hm2|exact Hm3|exact Hm5|].
  { intros m Hin. apply filter_In in Hin as [_ Hin]. apply negb_true_iff, Nat.eqb_neq in Hin. exact Hin. }
  assert (Hs4 : a4 = shares).
  { assert (Hsh' : mapM (PES_secret_share_for_participant (E:=hashed_by E o) a3) is_ = Ret shares).
    { unfold PES_secret_share_for_participant. rewrite D1. exact Hsh. }
    rewrite Hsh' in Hm4. injection Hm4 as <-. reflexivity. }
  subst a4.
  pose proof (completed_key (hashed_by E o) L Ht Hbig params Hparams idx hs Hndh Hhs Hlenh a3 a5 hist sup x coeffs sent0 R2 D3) as Hkey.
  rewrite D2 in Hkey. specialize (Hkey Hp Hown).
  assert (Hkey' : match PES_missing_shares (E:=E) a5 with
                  | _ :: _ => exists k, PES_complete (E:=hashed_by E o) a5 = Panic k
                  | [] => exists a, PES_complete (E:=hashed_by E o) a5 = Ret (Ok a) /\
                            (all_accept (E:=E) params idx hs a3 sent0 = true -> ks_shared_key (ap_key_set a) = pk (x + other_secrets (E:=E) params idx hs sent0)%S)
                  end) by exact Hkey.
  clear Hkey. rename Hkey' into Hkey.
  destruct (PES_missing_shares (E:=E) a5) as [|z zs].
  - destruct Hkey as (act & Hc & Hk).
    assert (Hc' : PES_complete (E:=hashed_by E o) a5 = Ret (Ok act)) by exact Hc. rewrite Hc'. cbn [bind].
    destruct (all_accept (E:=E) params idx hs a3 sent0); [|left; reflexivity].
    assert (Hk' : ks_shared_key (ap_key_set act) = pk (x + other_secrets (E:=E) params idx hs sent0)%S) by exact (Hk eq_refl).
    rewrite Hk'. assert (Hi : PCP_public_info (E:=hashed_by E o) a1 = own) by exact Hinfo. rewrite Hi. reflexivity.
  - destruct Hkey as (k & Hc). assert (Hc' : PES_complete (E:=hashed_by E o) a5 = Panic k) by exact Hc. rewrite Hc'. right. exists k. reflexivity.
Qed.

End Link.

Lemma bind_congr {X Y : Type} (m m' : outcome X) (f f' : X -> outcome Y) : m = m' -> (forall a, f a = f' a) -> bind m f = bind m' f'.
Proof. intros -> H. destruct m'; cbn [bind]; [apply H|reflexivity]. Qed.

(** ** the attacker's run reads the hash at inputs of dealers' proofs only *)
Section Reads.
Context (E : Env) (L : GroupLaws E) (params : Params) (idx : nat) (hs : list nat).
Local Notation scalar := (Scalar E).
Context (o o' : hash scalar) (Hag : forall y, about_dealers y -> answer o y = answer o' y).

Lemma asks_run {A : Type} (T : strategy scalar A) : asks_only about_dealers T -> run o T = run o' T.
Proof using Hag.
  induction 1 as [a|x k Hx _ IH]; [reflexivity|]. cbn [run]. rewrite <- (Hag x Hx). apply IH.
Qed.

Lemma validate_reads (prm : Params) poly (pop : ProofOfPossession E) :
  PublicKeySet_validate (E:=hashed_by E o) prm poly pop = PublicKeySet_validate (E:=hashed_by E o') prm poly pop.
Proof using L Hag.
  unfold PublicKeySet_validate. destruct (negb _); [reflexivity|].
  change (mapM (PublicKey_from_element (E:=hashed_by E o)) poly) with (mapM (PublicKey_from_element (E:=E)) poly).
  change (mapM (PublicKey_from_element (E:=hashed_by E o')) poly) with (mapM (PublicKey_from_element (E:=E)) poly).
  destruct (mapM (PublicKey_from_element (E:=E)) poly) as [keys|k]; [|reflexivity]. cbn [bind].
  assert (Hv : ProofOfPossession_verify (E:=hashed_by E o) pop keys (share_poly_transcript prm) =
               ProofOfPossession_verify (E:=hashed_by E o') pop keys (share_poly_transcript prm)).
  { refine (eq_trans (pop_verify_eq (hashed_by E o) L pop keys (share_poly_transcript prm)) _).
    refine (eq_trans _ (eq_sym (pop_verify_eq (hashed_by E o') L pop keys (share_poly_transcript prm)))).
    destruct (Nat.eqb _ _); [|reflexivity].
    match goal with |- bind ?m _ = bind ?m' _ => change m' with m; destruct m as [bs|k] end; [|reflexivity]. cbn [bind]. cbv zeta.
    match goal with |- context [oracle ?q0 "c"] => assert (Ho : oracle (e:=hashed_by E o) q0 "c" = oracle (e:=hashed_by E o') q0 "c") end.
    { apply (Hag (_, "c")). unfold about_dealers. cbn [fst]. reflexivity. }
    rewrite Ho. reflexivity. }
  refine (eq_trans (f_equal (fun m => bind m _) Hv) _). reflexivity.
Qed.

Lemma offer_reads infos : forall p : ParticipantCollectingPolynomials E,
  offer_polynomials (E:=hashed_by E o) p infos = offer_polynomials (E:=hashed_by E o') p infos.
Proof using L Hag.
  induction infos as [|[j info] infos IH]; intros p; [reflexivity|]. cbn [offer_polynomials].
  assert (Hi : PCP_insert_public_polynomial (E:=hashed_by E o) p j info = PCP_insert_public_polynomial (E:=hashed_by E o') p j info).
  { unfold PCP_insert_public_polynomial.
    apply bind_congr; [reflexivity|]. intros e0. apply bind_congr; [reflexivity|]. intros c. apply bind_congr; [reflexivity|]. intros ex.
    match goal with |- (if ?c1 then _ else _) = (if ?c2 then _ else _) => change c2 with c1; destruct c1 end; [reflexivity|].
    refine (eq_trans (f_equal (fun m => bind m _) (validate_reads (pcp_params p) (pi_polynomial info) (pi_pop info))) _). reflexivity. }
  apply bind_congr; [exact Hi|]. intros [r p1]. apply IH.
Qed.

Lemma exchange_reads A shares p : malicious_asks about_dealers A ->
  exchange idx (fun _ : ParticipantExchangingSecrets E => Ret shares) A o p = exchange idx (fun _ => Ret shares) A o' p.
Proof using L Hag.
  intros HA. unfold exchange. apply bind_congr; [reflexivity|]. intros c.
  destruct (HA c) as [HA1 HA2]. rewrite (asks_run _ HA1). pose proof (run_yields o' (A c)) as Hy. destruct (run o' (A c)) as [coms A2].
  specialize (HA2 coms A2 Hy). apply bind_congr; [reflexivity|]. intros p1. apply bind_congr; [reflexivity|]. intros p2. cbv zeta.
  change (PCP_public_info (E:=hashed_by E o) p2) with (PCP_public_info (E:=hashed_by E o') p2).
  set (own := PCP_public_info (E:=hashed_by E o') p2). destruct (HA2 own) as [HB1 HB2]. rewrite (asks_run _ HB1).
  pose proof (run_yields o' (A2 own)) as Hy2. destruct (run o' (A2 own)) as [infos A3]. specialize (HB2 infos A3 Hy2).
  apply bind_congr; [exact (offer_reads (from_others idx infos) p2)|]. intros p3. apply bind_congr; [reflexivity|]. intros p4. cbn [bind].
  rewrite (asks_run _ (HB2 shares)). reflexivity.
Qed.

Lemma played_reads A own shares : malicious_asks about_dealers A ->
  played params idx hs A own shares o = played params idx hs A own shares o'.
Proof using L Hag.
  intros HA. unfold played. destruct (hollow params idx own) as [p|k]; [|reflexivity]. cbn [bind].
  pose proof (exchange_reads A shares p HA) as H.
  match goal with |- match ?m with _ => _ end = match ?m' with _ => _ end => assert (Hm : m = m') by exact H; rewrite Hm end. reflexivity.
Qed.

End Reads.

(** ** sums over the secrets of the other dealers *)
Lemma tally_sum {T W : Type} (l : list T) (ws : list W) (f : W -> T -> bool) g :
  (forall p, In p l -> b2n (g p) = lsum (fun w => b2n (f w p)) ws) -> tally l g = fold_right Z.add 0%Z (map (fun w => tally l (f w)) ws).
Proof.
  intros H. rewrite (fold_ext _ (fun w => Z.of_nat (lsum (fun p => b2n (f w p)) l))) by (intros w; apply tally_lsum).
  rewrite fold_sum, tally_lsum, lsum_swap. f_equal. apply lsum_ext. exact H.
Qed.

Section Main.
Context (E : Env) (L : GroupLaws E) (Ht : ser_total E) (Hbig : (2 ^ 64 <= order L)%Z).
Context (params : Params) (Hparams : params_ok params) (idx : nat) (Hidx : idx < pa_shares params).
Context (is_ : list nat) (Hnd : NoDup is_) (His : forall i, In i is_ -> i < pa_shares params) (Hlen : List.length is_ + 1 = pa_threshold params).
Context (hs : list nat) (Hndh : NoDup hs) (Hhs : forall j, In j hs -> j < pa_shares params) (Hlenh : List.length hs = pa_threshold params).
Local Notation scalar := (Scalar E).
Local Notation element := (Element E).
Local Notation scalars := (all_scalars L).
Local Notation pk x := (kp_public (pair_of E x)).
Local Notation t := (pa_threshold params).
Local Notation reads := (Forking.reads scalar).

Lemma lsum_single (w : scalar) (f : scalar -> nat) : (forall z, z <> w -> f z = 0) -> lsum f scalars = f w.
Proof.
  intros H. rewrite (lsum_ext f (fun z => if scalar_dec L z w then f w else 0)).
  - rewrite (lsum_one E L). lia.
  - intros z _. destruct (scalar_dec L z w) as [->|Hz]; [reflexivity|apply H, Hz].
Qed.

Lemma lsum_none (f : scalar -> nat) : (forall z, f z = 0) -> lsum f scalars = 0.
Proof. intros H. rewrite (lsum_ext f (fun _ => 0)) by (intros; apply H). rewrite lsum_const. lia. Qed.

Lemma gap_sum {C : Type} (coins : list C) (F : scalar -> triple -> C -> bool) (G : triple -> C -> bool) :
  (forall x Y Z0 c, In c coins -> b2n (G (generator * x, Y, Z0)%E c) = lsum (fun w => b2n (F w (generator * x, Y, Z0)%E c)) scalars) ->
  fold_right Z.add 0%Z (map (fun w => ddh_gap L coins (F w)) scalars) = ddh_gap L coins G.
Proof.
  intros H. unfold ddh_gap. rewrite fold_plus, fold_scale. unfold ddh_real, ddh_random. f_equal; [f_equal|]; symmetry; apply tally_sum;
    intros [xs c] Hin; apply in_prod_iff in Hin as [_ Hin]; cbn [fst snd].
  - destruct xs as [|x [|r [|]]]; try (symmetry; apply lsum_none; reflexivity). apply H, Hin.
  - destruct xs as [|x [|r [|z [|]]]]; try (symmetry; apply lsum_none; reflexivity). apply H, Hin.
Qed.

Context (seed : list scalar -> bytes -> Rng E) (Hseed : seeds_bytes seed) (b : bytes) (Hb : List.length b = 32).
Context (vseed : list scalar -> Rng E) (Hvseed : seeds vseed) (dom : list query) (o0 : hash scalar).
Local Notation hashes := (all_hashes scalars dom o0).
Context {V B : Type} (client : V -> hash scalar -> PublicKey E -> Rng E -> outcome (B * Rng E)) (nd : nat) (ok : V -> Prop).
Context (A : malicious (E:=E)) (HA : malicious_asks about_dealers A).
Context (D : PublicInfo E -> list scalar -> PublicKey E -> list B -> strategy scalar bool).

Definition guess_at (w : scalar) (poly : list element) (pop : ProofOfPossession E) (shares : list scalar) (l : list B) (o : hash scalar) : bool :=
  let own := {| pi_polynomial := poly; pi_pop := pop; pi_opening := b |} in
  match played params idx hs A own shares o with
  | Some w' => s_eqb w' w && run o (D own shares (move_key w {| pk_bytes := []; pk_element := hd identity poly |}) l)
  | None => false
  end.

Lemma guess_reads w poly pop shares l : reads anything (guess_at w poly pop shares l).
Proof using L HA.
  intros o o' H. unfold guess_at. rewrite (played_reads E L params idx hs o o' (fun y _ => H y I) A _ shares HA).
  destruct (played _ _ _ _ _ _ _); [|reflexivity]. f_equal. apply (run_reads' E _ o o' H).
Qed.

Lemma move_hd w x rest bs : move_key w {| pk_bytes := bs; pk_element := hd identity (in_exponent (x :: rest)) |} = pk (x + w)%S.
Proof using L Ht. rewrite <- (move_pk E L Ht). reflexivity. Qed.

Lemma returns_false {X : Type} (m : outcome (X * Rng E)) : returns ('(a, _) <- m ;; Ret false) = false.
Proof. destruct m as [[a r]|k]; reflexivity. Qed.

Context (Hdet : forall v x o, ok v -> exists f, det E nd (client v o (pk x)) f).

Lemma guesses_split votes : Forall ok votes ->
  dkg_guesses L params idx is_ hs (nd * List.length votes) seed b vseed hashes (cast client votes) A D =
  fold_right Z.add 0%Z (map (fun w => dealt_guesses_by E L params is_ (nd * List.length votes) vseed hashes
    (cast (fun v => moved_client E w (client v)) votes) (guess_at w)) scalars).
Proof using All.
  intros Hok. unfold dkg_guesses, dealt_guesses_by. set (m := nd * List.length votes).
  apply tally_sum. intros [xs o] Hin. apply in_prod_iff in Hin as [Hin _]. apply (tapes_in E L) in Hin. cbn [fst snd].
  destruct (uniform_det (hashed_by E o) vseed (t + t) _ _ Hvseed (dealer_uniform (hashed_by E o) L Ht params)) as [f Hf].
  assert (H2t : 2 * t = t + t) by lia.
  (* the two runs of the dealer *)
  pose proof (Hf (vseed xs)) as HdV.
  assert (HV : fst (draws (E:=E) (t + t + m) (vseed xs)) = xs) by (rewrite <- H2t, <- Hin; apply Hvseed).
  assert (HV1 : fst (draws (E:=E) (t + t) (vseed xs)) = firstn (t + t) xs) by (rewrite <- HV at 2; symmetry; apply draws_first).
  assert (HV2 : fst (draws (E:=E) m (snd (draws (E:=E) (t + t) (vseed xs)))) = skipn (t + t) xs) by (rewrite <- HV at 2; symmetry; apply draws_skip).
  assert (HdV' : Dealer_new (E:=hashed_by E o) params (vseed xs) = Ret (f (firstn (t + t) xs), snd (draws (E:=E) (t + t) (vseed xs)))).
  { rewrite <- HV1. exact HdV. } clear HdV.
  rewrite H2t. set (ys := firstn (t + t) xs) in *. set (zs := skipn (t + t) xs) in *.
  assert (Hys : List.length ys = t + t) by (unfold ys; rewrite firstn_length; lia).
  assert (Hzs : List.length zs = m) by (unfold zs; rewrite skipn_length; lia).
  pose proof (Hf (seed ys b)) as HdS. pose proof (Hseed ys b Hb) as HS. rewrite Hys in HS.
  assert (HdS' : exists r1 r2, Dealer_new (E:=hashed_by E o) params (seed ys b) = Ret (f ys, r1) /\ fill_bytes 32 r1 = (b, r2)).
  { change (draws (E:=hashed_by E o)) with (draws (E:=E)) in HdS. destruct (draws (E:=E) (t + t) (seed ys b)) as [ws r1]. destruct HS as [-> HS].
    destruct (fill_bytes 32 r1) as [b' r2] eqn:Hq. cbn [fst] in HS. subst b'. exists r1, r2. split; [exact HdS|exact Hq]. }
  clear HdS HS. destruct HdS' as (r1 & r2 & HdS & Hfill). clear Hf. set (d := f ys) in *. clearbody d. clear f. change (Dealer (hashed_by E o)) with (Dealer E) in d.
  destruct (dealer_facts E L Ht params Hparams is_ His o _ d r1 HdS) as (x & coeffs & ks & Hpoly & Hcl & Hpar & Hks & Hkey & Hsh).
  pose proof (generated_played E L Ht Hbig params Hparams idx Hidx is_ hs Hndh Hhs Hlenh A o _ d r1 b r2 x coeffs HdS Hfill Hpoly Hsh) as Hgen. cbv zeta in Hgen.
  set (own := {| pi_polynomial := fst (Dealer_public_info d); pi_pop := snd (Dealer_public_info d); pi_opening := b |}) in *.
  set (shares := shares_of E is_ (x :: coeffs)) in *.
  (* the dealt side *)
  assert (HR : forall w, returns ('(d, r) <- Dealer_new (E:=hashed_by E o) params (vseed xs) ;;
             let '(poly, pop) := Dealer_public_info d in
             set <- PublicKeySet_new (E:=hashed_by E o) params poly pop ;;
             shares <- mapM (Dealer_secret_share_for_participant d) is_ ;;
             match set with
             | Ok ks => '(a, _) <- cast (fun v => moved_client E w (client v)) votes o (ks_shared_key ks) r ;; Ret (guess_at w poly pop shares a o)
             | Err _ => Ret false
             end) =
          returns ('(a, _) <- cast client votes o (pk (x + w)%S) (snd (draws (E:=E) (t + t) (vseed xs))) ;;
                   Ret (guess_at w (in_exponent (x :: coeffs)) (snd (Dealer_public_info d)) shares a o))).
  { intros w. f_equal. refine (eq_trans (bind_Ret' _ _ _ HdV') _). cbn [bind].
    assert (Hpi : Dealer_public_info d = (in_exponent (x :: coeffs), snd (Dealer_public_info d))) by (rewrite <- Hpoly; destruct (Dealer_public_info d); reflexivity).
    match goal with |- (let '(_, _) := ?z in _) = _ => replace z with (in_exponent (x :: coeffs), snd (Dealer_public_info d)) by (symmetry; exact Hpi) end. cbv beta iota.
    assert (Hks' : PublicKeySet_new (E:=hashed_by E o) params (in_exponent (x :: coeffs)) (snd (Dealer_public_info d)) = Ret (Ok ks))
      by (rewrite <- Hpoly; exact Hks).
    refine (eq_trans (bind_Ret' _ _ _ Hks') _). cbn [bind].
    refine (eq_trans (bind_Ret' _ _ _ Hsh) _). cbn [bind].
    rewrite (moved_cast E w client votes o _ _). assert (Hkw : move_key w (ks_shared_key ks) = pk (x + w)%S) by (rewrite <- (move_pk E L Ht); f_equal; exact Hkey).
    rewrite Hkw. reflexivity. }
  rewrite (lsum_ext _ _ _ (fun w _ => f_equal b2n (HR w))). clear HR HdV' Hks Hkey.
  unfold guess_at. cbv zeta. rewrite <- Hpoly. change {| pi_polynomial := fst (Dealer_public_info d); pi_pop := snd (Dealer_public_info d); pi_opening := b |} with own.
  destruct (played params idx hs A own shares o) as [w|].
  - rewrite Hgen. cbn [bind]. destruct (cast_det E client (fun _ => nd) ok Hdet (x + w)%S o votes Hok) as [F HF].
    rewrite (total_const nd votes) in HF. fold m in HF.
    rewrite (lsum_single w).
    + rewrite !HF. cbn [bind]. rewrite HV2. assert (HV3 : fst (draws (E:=E) m (vseed zs)) = zs) by (rewrite <- Hzs; apply Hvseed). rewrite HV3.
      rewrite (proj2 (s_eqb_ok E L w w) eq_refl). cbn [andb]. rewrite Hpoly, move_hd. reflexivity.
    + intros z Hz. destruct (s_eqb w z) eqn:Hwz; [apply (s_eqb_ok E L) in Hwz; congruence|]. cbn [andb]. rewrite returns_false. reflexivity.
  - destruct Hgen as [-> | [k ->]]; cbn [bind returns]; symmetry; apply lsum_none; intros w; rewrite returns_false; reflexivity.
Qed.

Lemma cts_length (T : triple (E:=E)) : forall n c (Ms : list element), List.length c = 2 * n -> List.length Ms = n -> List.length (ddh_ciphertexts T c Ms) = n.
Proof.
  destruct T as [[X R] Z0]. induction n as [|n IH]; intros c Ms Hc HM.
  - destruct c; [reflexivity|discriminate Hc].
  - destruct c as [|a [|a' c]]; cbn [List.length] in Hc; try lia. destruct Ms as [|M Ms]; [discriminate HM|].
    cbn [ddh_ciphertexts List.length]. rewrite IH; [reflexivity|lia|]. cbn [List.length] in HM. lia.
Qed.

Lemma attackers_sum N n k h simulate assemble acc (Ms : PublicKey E -> list element) before after :
  sim_ok E L dom o0 n k h simulate assemble acc -> (forall K, List.length (Ms K) = n) ->
  fold_right Z.add 0%Z (map (fun w => ddh_gap L (list_prod (tapes L N) (attacker_coins L n (2 * t + k) hashes))
    (election_attacker_by (fun v => moved_client E w (client v)) vseed (fun K => Ms (move_key w K))
       (simulate_dealing L params is_ (moved_simulate E w simulate)) all_dealt before after (coalition_view_by E L is_ (guess_at w)))) scalars) =
  ddh_gap L (list_prod (tapes L N) (attacker_coins L n (2 * t + k) hashes))
    (dkg_election_attacker L params idx is_ hs client b vseed Ms simulate before after A D).
Proof using Ht Hbig Hparams Hnd His Hlen HA Hlenh Hidx Hb.
  intros (_ & _ & _ & S4 & _) HMs. apply gap_sum. intros x Y Z0 [others [[c s] o]] Hin.
  apply in_prod_iff in Hin as [_ Hin]. unfold attacker_coins in Hin. apply in_prod_iff in Hin as [Hin _]. apply in_prod_iff in Hin as [Hc Hs].
  apply (tapes_in E L) in Hc. apply (tapes_in E L) in Hs.
  assert (Hpt : 1 <= t) by apply Hparams.
  unfold dkg_election_attacker, election_attacker_by. cbn [fst]. unfold PublicKey_from_element. rewrite (ser_ok E L Ht). cbn [bind].
  change {| pk_bytes := ser E (generator * x)%E; pk_element := (generator * x)%E |} with (pk x). cbv zeta.
  unfold simulate_dealing. cbv zeta. set (shares := firstn (t - 1) s).
  assert (Hsl : List.length shares = t - 1) by (unfold shares; rewrite firstn_length; lia).
  set (pop := pop_of (firstn (t + 1) (skipn (t - 1) s))). set (poly := public_polynomial L is_ (pk x) shares).
  cbn [pi_polynomial pi_pop].
  set (o1 := answering (dealing_verifier params poly pop) (pop_challenge pop) o).
  set (own := {| pi_polynomial := poly; pi_pop := pop; pi_opening := b |}).
  destruct (public_poly_exists E L Hbig params Hparams is_ Hnd His Hlen x shares Hsl) as (coeffs & _ & Hpoly & _). fold poly in Hpoly.
  assert (Hw : forall w,
    returns ('(x0, o2) <- Ret (let '(a, o2) := moved_simulate E w simulate (pk x) (ddh_ciphertexts (generator * x, Y, Z0)%E c (Ms (move_key w (pk x)))) (skipn (2 * t) s) o1 in
                               ((shares, pop, a), o2)) ;;
             '(l1, r) <- cast (fun v => moved_client E w (client v)) before o2 (pk x) (vseed others) ;;
             '(l2, _) <- cast (fun v => moved_client E w (client v)) after o2 (pk x) r ;;
             Ret (coalition_view_by E L is_ (guess_at w) (pk x) (all_dealt x0 l1 l2) o2)) =
    match played params idx hs A own shares o1 with
    | None => false
    | Some w' =>
        s_eqb w' w &&
        returns (let '(a, o2) := simulate (pk (x + w)%S) (map (move_ciphertext w) (ddh_ciphertexts (generator * x, Y, Z0)%E c (Ms (pk (x + w)%S)))) (skipn (2 * t) s) o1 in
                 '(l1, r) <- cast client before o2 (pk (x + w)%S) (vseed others) ;;
                 '(l2, _) <- cast client after o2 (pk (x + w)%S) r ;;
                 Ret (run o2 (D own shares (pk (x + w)%S) (l1 ++ a :: l2))))
    end).
  { intros w. assert (Hmk : move_key w {| pk_bytes := []; pk_element := hd identity poly |} = pk (x + w)%S) by (rewrite Hpoly; apply move_hd).
    unfold moved_simulate. rewrite (move_pk E L Ht).
    pose proof (S4 (x + w)%S (map (move_ciphertext w) (ddh_ciphertexts (generator * x, Y, Z0)%E c (Ms (pk (x + w)%S)))) (skipn (2 * t) s) o1) as Hfor.
    destruct (simulate (pk (x + w)%S) _ (skipn (2 * t) s) o1) as [a o2]. cbn [snd] in Hfor. cbn [bind].
    assert (Hpl : played params idx hs A own shares o2 = played params idx hs A own shares o1).
    { apply (played_reads E L params idx hs o2 o1); [|exact HA]. intros y Hy. apply Hfor; [|rewrite skipn_length; lia|exact Hy].
      rewrite map_length. apply cts_length; [exact Hc|apply HMs]. }
    rewrite (moved_cast E w client before o2 (pk x)), (move_pk E L Ht).
    destruct (cast client before o2 (pk (x + w)%S) (vseed others)) as [[l1 r1]|k1]; cbn [bind returns].
    2:{ destruct (played params idx hs A own shares o1); [rewrite andb_false_r|]; reflexivity. }
    rewrite (moved_cast E w client after o2 (pk x)), (move_pk E L Ht).
    destruct (cast client after o2 (pk (x + w)%S) r1) as [[l2 r2]|k2]; cbn [bind returns].
    2:{ destruct (played params idx hs A own shares o1); [rewrite andb_false_r|]; reflexivity. }
    unfold coalition_view_by, all_dealt. fold poly. unfold guess_at. cbv zeta. fold own. rewrite Hpl. rewrite Hmk. reflexivity. }
  rewrite (lsum_ext _ _ _ (fun w _ => f_equal b2n (Hw w))). clear Hw.
  destruct (played params idx hs A own shares o1) as [w|].
  - rewrite (lsum_single w); [|intros z Hz; destruct (s_eqb w z) eqn:Hwz; [apply (s_eqb_ok E L) in Hwz; congruence|reflexivity]].
    rewrite (proj2 (s_eqb_ok E L w w) eq_refl). cbn [andb]. rewrite (move_pk E L Ht). reflexivity.
  - symmetry. apply lsum_none. reflexivity.
Qed.

Lemma hybrids_ext_ok {W : Type} (P : W -> Prop) (gap gap' : W -> list W -> list W -> Z) : (forall v before after, P v -> gap v before after = gap' v before after) ->
  forall votes votes' before, Forall P votes -> Forall P votes' -> hybrids gap before votes votes' = hybrids gap' before votes votes'.
Proof.
  intros H. induction votes as [|v l IH]; intros [|v' l'] before Hv Hv'; cbn [hybrids]; [reflexivity..|].
  inversion Hv; inversion Hv'; subst. rewrite !H, IH by assumption. reflexivity.
Qed.

Theorem dkg_election_secret (Hdom : NoDup dom) (Hcov : covers_dealing L dom params is_) (Hext : forall v K r, reads anything (fun o => client v o K r))
    n k h simulate assemble acc (Ms : V -> PublicKey E -> list element) :
  sim_ok E L dom o0 n k h simulate assemble acc -> (forall v, ok v -> side_ok E nd n k assemble acc (Ms v) (client v)) ->
  forall votes votes', Forall ok votes -> Forall ok votes' -> List.length votes = List.length votes' ->
  (order L ^ Z.of_nat (n + h + 2) * (order L - 1) *
     (dkg_guesses L params idx is_ hs (nd * List.length votes) seed b vseed hashes (cast client votes) A D -
      dkg_guesses L params idx is_ hs (nd * List.length votes') seed b vseed hashes (cast client votes') A D) =
   hybrids (fun v before after =>
     ddh_gap L (list_prod (tapes L (nd * (List.length before + List.length after))) (attacker_coins L n (2 * t + k) hashes))
       (dkg_election_attacker L params idx is_ hs client b vseed (Ms v) simulate before after A D)) [] votes votes')%Z.
Proof using All.
  intros Hsim Hside votes votes' H H' Hl. rewrite !guesses_split by assumption. rewrite <- fold_plus, <- fold_scale.
  rewrite (fold_ext _ (fun w => hybrids (fun v before after =>
     ddh_gap L (list_prod (tapes L (nd * (List.length before + List.length after))) (attacker_coins L n (2 * t + k) hashes))
       (election_attacker_by (fun v => moved_client E w (client v)) vseed (fun K => Ms v (move_key w K))
          (simulate_dealing L params is_ (moved_simulate E w simulate)) all_dealt before after (coalition_view_by E L is_ (guess_at w)))) [] votes votes')).
  - rewrite <- hybrids_sum. apply (hybrids_ext_ok ok); try assumption. intros v before after Hv. apply (attackers_sum _ n k h simulate assemble acc (Ms v) before after Hsim). apply (Hside v Hv).
  - intros w. refine (dealt_election_secret_by E L Ht vseed Hvseed dom o0 (fun v => moved_client E w (client v)) nd ok _ Hbig params Hparams is_ Hnd His Hlen Hdom Hcov
      n k h (moved_simulate E w simulate) _ _ (fun v K => Ms v (move_key w K)) (guess_at w) _
      (moved_sim E L Ht w dom o0 n k h simulate assemble acc Hsim) _ votes votes' H H' Hl).
    + intros v K r. apply Hext.
    + intros poly pop shares l. apply guess_reads.
    + intros v Hv. apply (moved_side E L Ht w), Hside, Hv.
Qed.

End Main.
