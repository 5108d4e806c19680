(** * An honest run of distributed key generation, under any delivery order (C36) *)
From Coq Require Import List NArith ZArith Field Lia Bool String Arith Permutation.
From Verif.Model Require Import Base Group Transcript Keys Encryption LogEquality Possession Sharing Dkg.
From Verif.Spec Require Import Encryption LogEquality Possession Sharing Dkg.
From Verif.Proofs Require Import Algebra Lists Encryption LogEquality Possession Poly Ring Sharing Dkg.
Import ListNotations.
Open Scope list_scope.
Open Scope nat_scope.

(** ** filling a list in some order *)
Fixpoint set_all {A : Type} (l : list A) (f : nat -> A) (order : list nat) : list A :=
  match order with
  | [] => l
  | j :: order' => set_all (list_set l j (f j)) f order'
  end.

Lemma set_all_length {A : Type} (f : nat -> A) order : forall l, List.length (set_all l f order) = List.length l.
Proof. induction order as [|j order IH]; intros l; cbn; [reflexivity|]. rewrite IH, list_set_length. reflexivity. Qed.

Lemma nth_error_set_all {A : Type} (f : nat -> A) order k : forall l,
  (forall j, In j order -> j < List.length l) ->
  nth_error (set_all l f order) k = if existsb (Nat.eqb k) order then Some (f k) else nth_error l k.
Proof.
  induction order as [|j order IH]; intros l H; [reflexivity|].
  cbn [set_all existsb]. rewrite IH.
  - rewrite nth_error_list_set by (apply H; left; reflexivity).
    destruct (existsb (Nat.eqb k) order); [rewrite orb_true_r; reflexivity|]. rewrite orb_false_r.
    destruct (k =? j) eqn:He; [apply Nat.eqb_eq in He; congruence|reflexivity].
  - intros i Hi. rewrite list_set_length. apply H. right. exact Hi.
Qed.

Lemma order_lt n i order j : delivery_order n i order -> In j order -> j < n.
Proof.
  intros H Hj. assert (Hs : In j (seq 0 n)) by (apply (Permutation_in j H); right; exact Hj).
  apply in_seq in Hs. lia.
Qed.

Lemma order_own n i order : delivery_order n i order -> i < n.
Proof. intros H. assert (Hs : In i (seq 0 n)) by (apply (Permutation_in i H); left; reflexivity). apply in_seq in Hs. lia. Qed.

Lemma order_NoDup n i order : delivery_order n i order -> NoDup order /\ ~ In i order.
Proof.
  intros H. assert (Hn : NoDup (i :: order)).
  { apply (Permutation_NoDup (Permutation_sym H)), seq_NoDup. }
  inversion Hn; auto.
Qed.

Lemma order_all n i order k : delivery_order n i order -> k < n -> k = i \/ In k order.
Proof.
  intros H Hk. assert (Hs : In k (i :: order)).
  { apply (Permutation_in k (Permutation_sym H)). apply in_seq. lia. }
  destruct Hs; auto.
Qed.

Lemma order_exists n i : i < n -> exists order, delivery_order n i order.
Proof.
  intros Hi. assert (H : In i (seq 0 n)) by (apply in_seq; lia). apply in_split in H. destruct H as (l1 & l2 & H).
  exists (l1 ++ l2). unfold delivery_order. rewrite H. apply Permutation_middle.
Qed.

Lemma set_all_order {A : Type} (d : A) (f : nat -> A) n i order : delivery_order n i order ->
  set_all (list_set (repeat d n) i (f i)) f order = map f (seq 0 n).
Proof.
  intros H. assert (Hi := order_own _ _ _ H).
  apply nth_error_ext. intros k.
  rewrite nth_error_set_all by (intros j Hj; rewrite list_set_length, repeat_length; exact (order_lt _ _ _ _ H Hj)).
  rewrite nth_error_list_set by (rewrite repeat_length; exact Hi).
  destruct (Nat.lt_ge_cases k n) as [Hk|Hk].
  - rewrite (map_nth_error f k (seq 0 n) (d:=k)).
    2:{ rewrite (nth_error_nth' _ 0) by (rewrite seq_length; exact Hk). rewrite seq_nth by exact Hk. reflexivity. }
    destruct (existsb (Nat.eqb k) order) eqn:Hx; [reflexivity|]. apply existsb_eqb_false in Hx.
    destruct (order_all _ _ _ k H Hk) as [->|Hc]; [rewrite Nat.eqb_refl; reflexivity|contradiction].
  - replace (existsb (Nat.eqb k) order) with false.
    2:{ symmetry. apply existsb_eqb_false. intros Hc. apply (order_lt _ _ _ _ H) in Hc. lia. }
    replace (k =? i) with false by (symmetry; apply Nat.eqb_neq; lia).
    transitivity (@None A); [|symmetry]; apply nth_error_None; [rewrite repeat_length|rewrite map_length, seq_length]; exact Hk.
Qed.

Section Honest.
Context (E : Env) (L : GroupLaws E) (Hbig : (2 ^ 64 <= order L)%Z).
Local Notation scalar := (Scalar E).
Local Notation element := (Element E).
Add Field s_field_dkgh : (s_field L).
Context (params : Params) (Hparams : params_ok params).
Local Notation n := (pa_shares params).

(** ** histories of deliveries *)
Lemma deliver_commitments_run idx msgs : forall (p p' : ParticipantCollectingCommitments E) coms,
  pcc_run params idx p coms -> deliver_commitments p msgs = Ret p' -> pcc_run params idx p' (rev msgs ++ coms).
Proof.
  induction msgs as [|[j c] msgs IH]; intros p p' coms Hr H; cbn [deliver_commitments] in H.
  - injection H as <-. exact Hr.
  - inv_bind H. cbn [rev]. rewrite <- app_assoc. apply (IH a); [|exact H]. exact (pcc_run_insert params idx p coms j c a Hr Hm).
Qed.

Definition poly_msgs (msgs : list (nat * PublicInfo E)) : list (nat * list element) :=
  map (fun m => (fst m, pi_polynomial (snd m))) msgs.

Lemma deliver_polynomials_run idx msgs : forall (p p' : ParticipantCollectingPolynomials E) coms hist,
  pcp_run params idx p coms hist -> deliver_polynomials p msgs = Ret (Ok p') ->
  pcp_run params idx p' coms (rev (poly_msgs msgs) ++ hist).
Proof.
  induction msgs as [|[j c] msgs IH]; intros p p' coms hist Hr H; cbn [deliver_polynomials] in H.
  - injection H as <-. exact Hr.
  - inv_bind H. destruct a as [[u|e] q]; [|discriminate]. cbn [poly_msgs map rev fst snd]. rewrite <- app_assoc.
    apply (IH q); [|exact H]. exact (pcp_run_insert params idx p coms hist j c (Ok u) q Hr Hm).
Qed.

Lemma deliver_shares_run idx msgs : forall (p p' : ParticipantExchangingSecrets E) hist sup,
  pes_run params idx p hist sup -> deliver_shares p msgs = Ret (Ok p') ->
  pes_run params idx p' hist (rev (map fst msgs) ++ sup).
Proof.
  induction msgs as [|[j c] msgs IH]; intros p p' hist sup Hr H; cbn [deliver_shares] in H.
  - injection H as <-. exact Hr.
  - inv_bind H. destruct a as [[u|e] q]; [|discriminate]. cbn [map rev fst]. rewrite <- app_assoc.
    apply (IH q); [|exact H]. exact (pes_run_insert params idx p hist sup j c (Ok u) q Hr Hm).
Qed.

(** ** phase 1 *)
Lemma deliver_commitments_eq (c : nat -> bytes) order : forall (p : ParticipantCollectingCommitments E),
  NoDup order -> (forall j, In j order -> nth_error (pcc_commitments p) j = Some None) ->
  deliver_commitments p (map (fun j => (j, c j)) order) =
  Ret {| pcc_params := pcc_params p; pcc_index := pcc_index p; pcc_dealer := pcc_dealer p;
         pcc_commitments := set_all (pcc_commitments p) (fun j => Some (c j)) order; pcc_opening := pcc_opening p |}.
Proof.
  induction order as [|j order IH]; intros p Hnd Hnone; cbn [map deliver_commitments set_all].
  - destruct p; reflexivity.
  - inversion Hnd as [|? ? Hj Hnd']; subst.
    rewrite (proj2 (pcc_insert_Ret E p _ j (c j)) (conj (Hnone j (or_introl eq_refl)) eq_refl)). cbn [bind].
    rewrite IH; [reflexivity|exact Hnd'|].
    cbn [pcc_commitments]. intros k Hk. rewrite nth_error_list_set.
    + destruct (k =? j) eqn:He; [apply Nat.eqb_eq in He; congruence|]. apply Hnone. right. exact Hk.
    + apply nth_error_Some. rewrite Hnone by (left; reflexivity). discriminate.
Qed.

(** the participants *)
Context (ps : nat -> ParticipantCollectingCommitments E)
        (Hps : forall i, i < n -> exists r r', PCC_new params i r = Ret (ps i, r')).

Definition h_com (i : nat) : bytes := match PCC_commitment (ps i) with Ret c => c | Panic _ => [] end.
Definition h_dealer (i : nat) : Dealer E := pcc_dealer (ps i).
Definition h_poly (i : nat) : list scalar := dealer_poly E (h_dealer i).
Definition h_public (i : nat) : list element := fst (Dealer_public_info (h_dealer i)).

Lemma h_start i : i < n ->
  own_dealer E params (h_dealer i) /\ PCC_commitment (ps i) = Ret (h_com i) /\
  pcc_params (ps i) = params /\ pcc_index (ps i) = i /\
  pcc_commitments (ps i) = list_set (repeat None n) i (Some (h_com i)) /\
  (exists e0 rest b, h_public i = e0 :: rest /\ serialize_element e0 = Ret b /\
     h_com i = @sha256 E (b ++ pcc_opening (ps i))) /\
  pcc_run params i (ps i) [(i, h_com i)].
Proof.
  intros Hi. destruct (Hps i Hi) as (r & r' & H).
  assert (Hc : PCC_commitment (ps i) = Ret (h_com i)).
  { unfold h_com. destruct (pcc_new_ok E params i r _ r' H) as (d & r1 & op & e0 & b & _ & _ & _ & _ & _ & Hc).
    rewrite Hc. reflexivity. }
  split.
  { destruct (pcc_new_ok E params i r _ r' H) as (d & r1 & op & e0 & b & H1 & _ & _ & _ & He & _).
    unfold h_dealer. rewrite He. exists r, r1. exact H1. }
  split; [exact Hc|].
  destruct (pcc_new_ok E params i r _ r' H) as (d & r1 & op & e0 & b & H1 & H2 & H3 & H4 & H5 & H6).
  assert (Hcom : h_com i = @sha256 E (b ++ op)) by congruence.
  split; [rewrite H5; reflexivity|]. split; [rewrite H5; reflexivity|]. split; [rewrite Hcom, H5; reflexivity|].
  split.
  { unfold h_public, h_dealer. rewrite H5. cbn [pcc_dealer pcc_opening].
    destruct (fst (Dealer_public_info d)) as [|e rest]; [discriminate|]. cbn in H3. injection H3 as ->.
    exists e0, rest, b. rewrite <- Hcom. auto. }
  exact (pcc_run_new params i r (ps i) r' (h_com i) H Hc).
Qed.

(** state at the start of the second phase *)
Definition h_pcp (i : nat) : ParticipantCollectingPolynomials E :=
  {| pcp_params := params; pcp_index := i; pcp_dealer := h_dealer i; pcp_opening := pcc_opening (ps i);
     pcp_commitments := map h_com (seq 0 n);
     pcp_public_polynomials := list_set (repeat None n) i (Some (h_public i)) |}.

Lemma phase1 i order : delivery_order n i order ->
  exists p', deliver_commitments (ps i) (map (fun j => (j, h_com j)) order) = Ret p' /\
    PCC_missing_commitments p' = [] /\ PCC_finish_commitment_phase p' = Ret (h_pcp i) /\
    exists coms, pcc_run params i p' coms.
Proof.
  intros Ho. assert (Hi := order_own _ _ _ Ho).
  destruct (h_start i Hi) as (S1 & S2 & S3 & S4 & S5 & S6 & S7).
  destruct (order_NoDup _ _ _ Ho) as [Hnd Hni].
  eexists. split.
  { apply deliver_commitments_eq; [exact Hnd|]. intros j Hj. rewrite S5, nth_error_list_set by (rewrite repeat_length; exact Hi).
    destruct (j =? i) eqn:He; [apply Nat.eqb_eq in He; congruence|].
    destruct (nth_error (repeat None n) j) eqn:Hn.
    - apply nth_error_In in Hn. apply repeat_spec in Hn. congruence.
    - apply nth_error_None in Hn. rewrite repeat_length in Hn. apply (order_lt _ _ _ _ Ho) in Hj. lia. }
  assert (Hcs : set_all (pcc_commitments (ps i)) (fun j => Some (h_com j)) order = map Some (map h_com (seq 0 n))).
  { rewrite S5, map_map. exact (set_all_order None (fun j => Some (h_com j)) n i order Ho). }
  assert (Hmis : PCC_missing_commitments (mkPCC (pcc_params (ps i)) (pcc_index (ps i)) (pcc_dealer (ps i))
      (set_all (pcc_commitments (ps i)) (fun j => Some (h_com j)) order) (pcc_opening (ps i))) = []).
  { unfold PCC_missing_commitments. cbn [pcc_commitments]. rewrite Hcs. apply missing_nil. eauto. }
  split; [exact Hmis|]. split.
  { unfold PCC_finish_commitment_phase. rewrite Hmis. cbn [pcc_params pcc_index pcc_dealer pcc_commitments pcc_opening].
    rewrite Hcs, unwrap_all_some, S3, S4, index_set_ok by (rewrite repeat_length; exact Hi). reflexivity. }
  eexists. eapply deliver_commitments_run; [exact S7|].
  apply deliver_commitments_eq; [exact Hnd|]. intros j Hj. rewrite S5, nth_error_list_set by (rewrite repeat_length; exact Hi).
  destruct (j =? i) eqn:He; [apply Nat.eqb_eq in He; congruence|].
  destruct (nth_error (repeat None n) j) eqn:Hn.
  - apply nth_error_In in Hn. apply repeat_spec in Hn. congruence.
  - apply nth_error_None in Hn. rewrite repeat_length in Hn. apply (order_lt _ _ _ _ Ho) in Hj. lia.
Qed.

Lemma h_pcp_run i : i < n -> exists coms, pcp_run params i (h_pcp i) coms [(i, h_public i)].
Proof.
  intros Hi. destruct (order_exists n i Hi) as [o Ho]. destruct (phase1 i o Ho) as (p' & _ & _ & Hf & coms & Hr).
  exists coms. exact (pcp_run_start params i p' coms (h_pcp i) Hr Hf).
Qed.

(** ** phase 2 *)
Definition h_info (i : nat) : PublicInfo E := PCP_public_info (h_pcp i).

Lemma h_insert_polynomial (q : ParticipantCollectingPolynomials E) j : j < n ->
  pcp_params q = params -> pcp_commitments q = map h_com (seq 0 n) -> List.length (pcp_public_polynomials q) = n ->
  PCP_insert_public_polynomial q j (h_info j) =
  Ret (Ok tt, {| pcp_params := pcp_params q; pcp_index := pcp_index q;
          pcp_dealer := pcp_dealer q; pcp_opening := pcp_opening q;
          pcp_commitments := pcp_commitments q;
          pcp_public_polynomials := list_set (pcp_public_polynomials q) j (Some (h_public j)) |}).
Proof.
  intros Hj H1 H2 H3. destruct (h_start j Hj) as (S1 & S2 & S3 & S4 & S5 & (e0 & rest & b & P1 & P2 & P3) & S7).
  apply (pcp_insert_ok_iff E params q _ j (h_info j) H1 H3); [rewrite H2, map_length, seq_length; reflexivity|].
  split.
  { exists e0, rest, b. split; [exact P1|]. split; [exact P2|]. rewrite H2.
    rewrite (map_nth_error h_com j (seq 0 n) (d:=j)).
    - rewrite P3. reflexivity.
    - rewrite (nth_error_nth' _ 0) by (rewrite seq_length; exact Hj). rewrite seq_nth by exact Hj. reflexivity. }
  split; [|reflexivity].
  destruct S1 as (r & r' & Hd). destruct (dealer_new_ok E L params r _ r' Hd) as (D1 & D2 & D3 & keys & tf & D4 & D5).
  apply validate_ok_iff. change (pi_polynomial (h_info j)) with (fst (Dealer_public_info (h_dealer j))).
  change (pi_pop (h_info j)) with (de_pop (h_dealer j)). rewrite D3. split; [rewrite in_exponent_length; exact D2|].
  exists keys, tf. auto.
Qed.

Lemma deliver_polynomials_eq order : forall (q : ParticipantCollectingPolynomials E),
  (forall j, In j order -> j < n) ->
  pcp_params q = params -> pcp_commitments q = map h_com (seq 0 n) -> List.length (pcp_public_polynomials q) = n ->
  deliver_polynomials q (map (fun j => (j, h_info j)) order) =
  Ret (Ok {| pcp_params := pcp_params q; pcp_index := pcp_index q;
          pcp_dealer := pcp_dealer q; pcp_opening := pcp_opening q;
          pcp_commitments := pcp_commitments q;
          pcp_public_polynomials := set_all (pcp_public_polynomials q) (fun j => Some (h_public j)) order |}).
Proof.
  induction order as [|j order IH]; intros q Ho H1 H2 H3; cbn [map deliver_polynomials set_all].
  - destruct q; reflexivity.
  - rewrite (h_insert_polynomial q j (Ho j (or_introl eq_refl)) H1 H2 H3). cbn [bind].
    rewrite IH; [reflexivity| | | |].
    + intros k Hk. apply Ho. right. exact Hk.
    + exact H1.
    + exact H2.
    + cbn [pcp_public_polynomials]. rewrite list_set_length. exact H3.
Qed.

Definition h_pes (i : nat) : ParticipantExchangingSecrets E :=
  {| pes_params := params; pes_index := i; pes_dealer := h_dealer i;
     pes_public_polynomials := map h_public (seq 0 n);
     pes_accumulated_share := peval (h_poly i) (node i);
     pes_shares_received := list_set (repeat false n) i true |}.

Lemma phase2 i order : delivery_order n i order ->
  exists q', deliver_polynomials (h_pcp i) (map (fun j => (j, h_info j)) order) = Ret (Ok q') /\
    PCP_missing_public_polynomials q' = [] /\ PCP_finish_polynomials_phase q' = Ret (h_pes i) /\
    exists coms hist, pcp_run params i q' coms hist.
Proof.
  intros Ho. assert (Hi := order_own _ _ _ Ho).
  assert (Hd : deliver_polynomials (h_pcp i) (map (fun j => (j, h_info j)) order) =
    Ret (Ok (mkPCP params i (h_dealer i) (pcc_opening (ps i)) (map h_com (seq 0 n)) (map Some (map h_public (seq 0 n)))))).
  { rewrite deliver_polynomials_eq; [|intros j Hj; exact (order_lt _ _ _ _ Ho Hj)|reflexivity|reflexivity|].
    - cbn [h_pcp pcp_params pcp_index pcp_dealer pcp_opening pcp_commitments pcp_public_polynomials].
      rewrite map_map, <- (set_all_order None (fun j => Some (h_public j)) n i order Ho). reflexivity.
    - cbn [h_pcp pcp_public_polynomials]. rewrite list_set_length, repeat_length. reflexivity. }
  eexists. split; [exact Hd|].
  destruct (h_pcp_run i Hi) as [coms Hr]. apply (deliver_polynomials_run i _ _ _ coms _ Hr) in Hd.
  assert (Hm : PCP_missing_public_polynomials (mkPCP params i (h_dealer i) (pcc_opening (ps i)) (map h_com (seq 0 n))
     (map Some (map h_public (seq 0 n)))) = []) by (apply missing_nil; eexists; reflexivity).
  split; [exact Hm|]. split; [|eauto].
  rewrite (pcp_finish_eq E L params i _ coms _ Hd).
  rewrite (pcp_missing E L params i _ coms _ Hd) in Hm. rewrite Hm.
  cbn [pcp_dealer pcp_public_polynomials]. rewrite flatten_some. reflexivity.
Qed.

Lemma h_pes_run i : i < n -> exists hist, pes_run params i (h_pes i) hist [i].
Proof.
  intros Hi. destruct (order_exists n i Hi) as [o Ho]. destruct (phase2 i o Ho) as (p' & _ & _ & Hf & coms & hist & Hr).
  exists hist. exact (pes_run_start params i p' coms hist (h_pes i) Hr Hf).
Qed.

(** ** phase 3 *)
Lemma h_share j i : j < n -> i < n ->
  PES_secret_share_for_participant (h_pes j) i = Ret (peval (h_poly j) (node i)).
Proof.
  intros Hj Hi. unfold PES_secret_share_for_participant. cbn [h_pes pes_dealer]. rewrite (dealer_share_eq E L).
  destruct (h_start j Hj) as (S1 & _). destruct (own_dealer_ok E L params _ S1) as (D1 & _). rewrite D1.
  replace (i <? n) with true by (symmetry; apply Nat.ltb_lt; exact Hi). reflexivity.
Qed.

Lemma h_public_dlog j : j < n -> map (dlog L) (h_public j) = h_poly j.
Proof.
  intros Hj. destruct (h_start j Hj) as (S1 & _). destruct (own_dealer_ok E L params _ S1) as (_ & _ & D3).
  unfold h_public. rewrite D3. apply (map_dlog_in_exponent E L).
Qed.

(** group elements which occur in the run can be serialized *)
Definition ser_ok (e : element) : Prop := exists b, serialize_element e = Ret b.

Lemma pes_insert_ok (p : ParticipantExchangingSecrets E) i j P share :
  pes_index p = i -> nth_error (pes_public_polynomials p) j = Some P ->
  nth_error (pes_shares_received p) j = Some false -> share = pub_share E L i P -> ser_ok (generator * share)%E ->
  PES_insert_secret_share p j share =
  Ret (Ok tt, {| pes_params := pes_params p; pes_index := pes_index p; pes_dealer := pes_dealer p;
              pes_public_polynomials := pes_public_polynomials p;
              pes_accumulated_share := (pes_accumulated_share p + share)%S;
              pes_shares_received := list_set (pes_shares_received p) j true |}).
Proof.
  intros H1 H2 H3 H4 [b Hb]. unfold PES_insert_secret_share, index. rewrite H3, H2. cbn [bind].
  rewrite (value_at_dlog E L), H1. change (scalar_of_usize (E:=E) (i + 1)) with (node (G:=E) i).
  fold (pub_share E L i P). rewrite <- H4. cbn [bind]. unfold PublicKey_from_element. rewrite Hb. cbn [bind pk_element].
  rewrite (mul_generator_ok E L), (e_eqb_refl L). cbn [negb].
  rewrite index_set_ok by (apply nth_error_Some; congruence). reflexivity.
Qed.

Lemma deliver_shares_eq i order : i < n ->
  (forall j, In j order -> ser_ok (generator * peval (h_poly j) (node i))%E) ->
  forall (p : ParticipantExchangingSecrets E),
  (forall j, In j order -> j < n) -> NoDup order -> pes_index p = i ->
  pes_public_polynomials p = map h_public (seq 0 n) ->
  (forall j, In j order -> nth_error (pes_shares_received p) j = Some false) ->
  exists p', deliver_shares p (map (fun j => (j, peval (h_poly j) (node i))) order) = Ret (Ok p') /\
    pes_public_polynomials p' = map h_public (seq 0 n) /\ pes_dealer p' = pes_dealer p.
Proof.
  intros Hi. induction order as [|j order IH]; intros Hser p Ho Hnd H1 H2 H3; cbn [map deliver_shares].
  - exists p. auto.
  - inversion Hnd as [|? ? Hj Hnd']; subst i.
    assert (Hjn : j < n) by (apply Ho; left; reflexivity).
    rewrite (pes_insert_ok p (pes_index p) j (h_public j)); [|reflexivity| | | |].
    + cbn [bind].
      match goal with |- exists p', deliver_shares ?q _ = _ /\ _ => destruct (IH (fun k Hk => Hser k (or_intror Hk)) q) as (p' & I1 & I2 & I3) end.
      * intros k Hk. apply Ho. right. exact Hk.
      * exact Hnd'.
      * reflexivity.
      * exact H2.
      * cbn [pes_shares_received]. intros k Hk. rewrite nth_error_list_set.
        -- destruct (k =? j) eqn:He; [apply Nat.eqb_eq in He; congruence|]. apply H3. right. exact Hk.
        -- apply nth_error_Some. rewrite H3 by (left; reflexivity). discriminate.
      * exists p'. auto.
    + rewrite H2. apply map_nth_error. rewrite (nth_error_nth' _ 0) by (rewrite seq_length; exact Hjn).
      rewrite seq_nth by exact Hjn. reflexivity.
    + apply H3. left. reflexivity.
    + unfold pub_share. rewrite (h_public_dlog j Hjn). reflexivity.
    + apply Hser. left. reflexivity.
Qed.

(** the aggregated secret polynomial *)
Definition h_total : list scalar := total_poly E L params (map h_public (seq 0 n)).

Lemma h_total_eval x : peval h_total x = s_sum (map (fun j => peval (h_poly j) x) (seq 0 n)).
Proof.
  unfold h_total. rewrite (total_poly_eval E L), map_map. f_equal. apply map_ext_in.
  intros j Hj. apply in_seq in Hj. rewrite h_public_dlog by lia. reflexivity.
Qed.

Lemma h_total_length : List.length h_total = pa_threshold params.
Proof.
  unfold h_total, total_poly. apply psum_length. intros q Hq. apply in_map_iff in Hq. destruct Hq as (P & <- & HP).
  apply in_map_iff in HP. destruct HP as (j & <- & Hj). apply in_seq in Hj. rewrite h_public_dlog by lia.
  destruct (h_start j ltac:(lia)) as (S1 & _). destruct (own_dealer_ok E L params _ S1) as (_ & D2 & _). exact D2.
Qed.

Lemma phase3 (keys : list (PublicKey E)) shared i order :
  mapM (fun i => PublicKey_from_element (generator * peval h_total (node i))%E) (seq 0 n) = Ret keys ->
  PublicKey_from_element (generator * peval h_total 0%S)%E = Ret shared ->
  (forall j, j < n -> ser_ok (generator * peval (h_poly j) (node i))%E) ->
  delivery_order n i order ->
  exists p', deliver_shares (h_pes i) (map (fun j => (j, peval (h_poly j) (node i))) order) = Ret (Ok p') /\
    PES_missing_shares p' = [] /\
    PES_complete p' = Ret (Ok {| ap_key_set := {| ks_params := params; ks_shared_key := shared; ks_participant_keys := keys |};
                                 ap_index := i; ap_secret_share := peval h_total (node i) |}).
Proof.
  intros Hkeys Hshared Hser Ho. assert (Hi := order_own _ _ _ Ho). destruct (order_NoDup _ _ _ Ho) as [Hnd Hni].
  destruct (deliver_shares_eq i order Hi) with (p := h_pes i) as (p' & D1 & D2 & D3).
  - intros j Hj. apply Hser. exact (order_lt _ _ _ _ Ho Hj).
  - intros j Hj. exact (order_lt _ _ _ _ Ho Hj).
  - exact Hnd.
  - reflexivity.
  - reflexivity.
  - intros j Hj. cbn [h_pes pes_shares_received]. rewrite nth_error_list_set by (rewrite repeat_length; exact Hi).
    destruct (j =? i) eqn:He; [apply Nat.eqb_eq in He; congruence|].
    destruct (nth_error (repeat false n) j) eqn:Hn.
    + apply nth_error_In in Hn. apply repeat_spec in Hn. congruence.
    + apply nth_error_None in Hn. rewrite repeat_length in Hn. apply (order_lt _ _ _ _ Ho) in Hj. lia.
  - exists p'. split; [exact D1|].
    destruct (h_pes_run i Hi) as [hist Hr]. apply (deliver_shares_run i _ _ _ hist _ Hr) in D1.
    apply (pes_run_inv E L) in D1. rewrite (pes_missing_inv E L params i p' hist _ D1).
    match type of D1 with pes_inv _ _ _ _ _ _ ?s => assert (Hns : not_supplied n s = []) end.
    { apply not_supplied_nil. intros k Hk. apply in_or_app.
      destruct (order_all _ _ _ k Ho Hk) as [->|Hin]; [right; left; reflexivity|].
      left. apply -> in_rev. rewrite map_map. apply in_map_iff. exists k. auto. }
    split; [exact Hns|].
    rewrite (pes_complete_eq E L Hbig params i Hparams p' hist _ D1), Hns, D2. cbv zeta. fold h_total.
    rewrite Hkeys, Hshared. cbn [bind].
    destruct (pes_complete_share E L params i p' hist _ D1 Hns) as (own & O1 & O2).
    rewrite D2 in O1, O2. fold h_total in O2. rewrite D3 in O2. cbn [h_pes pes_dealer] in O2. fold (h_poly i) in O2.
    assert (Hown : own = h_public i).
    { assert (Hx : nth_error (map h_public (seq 0 n)) i = Some (h_public i)).
      { apply map_nth_error. rewrite (nth_error_nth' _ 0) by (rewrite seq_length; exact Hi). rewrite seq_nth by exact Hi. reflexivity. }
      assert (Hy : Some own = Some (h_public i)) by (rewrite <- Hx; symmetry; exact O1). injection Hy as Hy. exact Hy. }
    subst own. unfold pub_share in O2. rewrite (h_public_dlog i Hi) in O2.
    assert (Hacc : pes_accumulated_share p' = peval h_total (node i)).
    { assert (Hx : forall a x y : scalar, (a + x = x + y)%S -> a = y).
      { intros a x y Hx. transitivity (a + x - x)%S; [ring|]. rewrite Hx. ring. }
      exact (Hx _ _ _ O2). }
    rewrite Hacc, (s_eqb_refl L). reflexivity.
Qed.

End Honest.
