(** * Proofs about distributed key generation (C36-C40) *)
From Coq Require Import List NArith ZArith Field Lia Bool String Arith Permutation.
From Verif.Model Require Import Base Group Transcript Keys Encryption LogEquality Possession Sharing Dkg.
From Verif.Spec Require Import Encryption LogEquality Possession Sharing Dkg.
From Verif.Proofs Require Import Algebra Lists Encryption LogEquality Possession Poly Ring Sharing.
Import ListNotations.
Open Scope list_scope.
Open Scope nat_scope.

(** ** list facts *)
Lemma list_set_length {A : Type} (l : list A) i x : List.length (list_set l i x) = List.length l.
Proof. revert i; induction l as [|y l IH]; intros [|i]; cbn; congruence. Qed.

Lemma nth_error_list_set {A : Type} (l : list A) i x k : i < List.length l ->
  nth_error (list_set l i x) k = if k =? i then Some x else nth_error l k.
Proof.
  revert i k; induction l as [|y l IH]; intros [|i] [|k] H; cbn in *; try lia; try reflexivity.
  apply IH. lia.
Qed.

Lemma index_set_Ret {A : Type} (l : list A) i x l' : index_set l i x = Ret l' ->
  i < List.length l /\ l' = list_set l i x.
Proof.
  unfold index_set. destruct (i <? List.length l) eqn:H; [|discriminate]. apply Nat.ltb_lt in H.
  intros Hx. injection Hx as <-. auto.
Qed.

Lemma index_set_ok {A : Type} (l : list A) i x : i < List.length l -> index_set l i x = Ret (list_set l i x).
Proof. intros H. unfold index_set. apply Nat.ltb_lt in H. rewrite H. reflexivity. Qed.

Lemma index_Ret {A : Type} (l : list A) i x : index l i = Ret x <-> nth_error l i = Some x.
Proof. unfold index. destruct (nth_error l i); split; congruence. Qed.

Lemma filter_enumerate {A : Type} (f : A -> bool) (l : list A) :
  map fst (filter (fun q : nat * A => f (snd q)) (enumerate l))
  = filter (fun i => match nth_error l i with Some x => f x | None => false end) (seq 0 (List.length l)).
Proof.
  unfold enumerate.
  assert (H : forall (l : list A) (pre : list A),
    map fst (filter (fun q : nat * A => f (snd q)) (combine (seq (List.length pre) (List.length l)) l))
    = filter (fun i => match nth_error (pre ++ l) i with Some x => f x | None => false end)
             (seq (List.length pre) (List.length l))).
  { clear l. induction l as [|x l IH]; intros pre; cbn [List.length seq combine filter]; [reflexivity|].
    cbn [snd]. specialize (IH (pre ++ [x])). rewrite app_length in IH. cbn [List.length] in IH.
    replace (List.length pre + 1) with (S (List.length pre)) in IH by lia. rewrite <- app_assoc in IH. cbn [app] in IH.
    rewrite nth_error_app2, Nat.sub_diag by lia. cbn [nth_error].
    destruct (f x); cbn [map fst]; rewrite IH; reflexivity. }
  exact (H l []).
Qed.

Definition is_none {A : Type} (o : option A) : bool := match o with None => true | Some _ => false end.

Lemma missing_options_eq {A : Type} (l : list (option A)) :
  missing_options l = filter (fun i => match nth_error l i with Some o => is_none o | None => false end)
                             (seq 0 (List.length l)).
Proof. unfold missing_options. apply (filter_enumerate is_none). Qed.

Lemma filter_ext_seq (f g : nat -> bool) n : (forall i, i < n -> f i = g i) ->
  filter f (seq 0 n) = filter g (seq 0 n).
Proof. intros H. apply filter_ext_in. intros i Hi. apply in_seq in Hi. apply H. lia. Qed.

Lemma existsb_eqb i (l : list nat) : existsb (Nat.eqb i) l = true <-> In i l.
Proof.
  rewrite existsb_exists. split.
  - intros (x & Hx & He). apply Nat.eqb_eq in He. subst. exact Hx.
  - intros H. exists i. split; [exact H|apply Nat.eqb_refl].
Qed.

Lemma existsb_eqb_false i (l : list nat) : existsb (Nat.eqb i) l = false <-> ~ In i l.
Proof.
  rewrite <- existsb_eqb. destruct (existsb (Nat.eqb i) l); split; congruence.
Qed.

Lemma filter_nil {A : Type} (f : A -> bool) l : filter f l = [] <-> forall x, In x l -> f x = false.
Proof.
  induction l as [|x l IH]; cbn; [split; [intros _ y []|reflexivity]|].
  destruct (f x) eqn:Hf; split.
  - discriminate.
  - intros H. specialize (H x (or_introl eq_refl)). congruence.
  - intros H y [<-|Hy]; [exact Hf|]. apply IH; assumption.
  - intros H. apply IH. intros y Hy. apply H. right. exact Hy.
Qed.

Lemma not_supplied_nil n sup : not_supplied n sup = [] <-> forall i, i < n -> In i sup.
Proof.
  unfold not_supplied. rewrite filter_nil. split.
  - intros H i Hi. specialize (H i). rewrite in_seq in H. specialize (H ltac:(lia)).
    apply negb_false_iff in H. apply existsb_eqb. exact H.
  - intros H i Hi. apply in_seq in Hi. apply negb_false_iff. apply existsb_eqb. apply H. lia.
Qed.

Lemma in_not_supplied n sup i : In i (not_supplied n sup) <-> i < n /\ ~ In i sup.
Proof.
  unfold not_supplied. rewrite filter_In, in_seq, negb_true_iff, existsb_eqb_false. intuition lia.
Qed.

Lemma latest_cons {A : Type} (hist : list (nat * A)) j x i :
  latest ((j, x) :: hist) i = if i =? j then Some x else latest hist i.
Proof. unfold latest. cbn [find fst]. rewrite (Nat.eqb_sym j i). destruct (i =? j); reflexivity. Qed.

Lemma latest_In {A : Type} (hist : list (nat * A)) i x : latest hist i = Some x -> In (i, x) hist.
Proof.
  induction hist as [|[j y] hist IH]; [discriminate|]. rewrite latest_cons. destruct (i =? j) eqn:He.
  - apply Nat.eqb_eq in He. intros H. injection H as ->. left. congruence.
  - intros H. right. auto.
Qed.

Lemma latest_none {A : Type} (hist : list (nat * A)) i : latest hist i = None <-> ~ In i (map fst hist).
Proof.
  induction hist as [|[j y] hist IH]; [cbn; tauto|]. rewrite latest_cons. cbn [map fst In]. destruct (i =? j) eqn:He.
  - apply Nat.eqb_eq in He. split; [discriminate|]. intros H. exfalso. apply H. left. congruence.
  - apply Nat.eqb_neq in He. rewrite IH. split; [|tauto]. intros H [Hc|Hc]; [congruence|tauto].
Qed.

(** [l] stores the latest value of the history for each index below [n] *)
Definition holds {A : Type} (n : nat) (l : list (option A)) (hist : list (nat * A)) : Prop :=
  List.length l = n /\ (forall i, In i (map fst hist) -> i < n) /\
  (forall i, i < n -> nth_error l i = Some (latest hist i)).

Lemma holds_missing {A : Type} n (l : list (option A)) hist :
  holds n l hist -> missing_options l = not_supplied n (map fst hist).
Proof.
  intros (Hl & Hs & H). rewrite missing_options_eq, Hl. unfold not_supplied. apply filter_ext_seq.
  intros i Hi. rewrite (H i Hi). destruct (latest hist i) as [x|] eqn:Hx; cbn [is_none].
  - apply latest_In in Hx. apply (in_map fst) in Hx. apply existsb_eqb in Hx. cbn [fst] in Hx. rewrite Hx. reflexivity.
  - apply latest_none in Hx. apply existsb_eqb_false in Hx. rewrite Hx. reflexivity.
Qed.

Lemma holds_init {A : Type} n i (x : A) : i < n -> holds n (list_set (repeat None n) i (Some x)) [(i, x)].
Proof.
  intros Hi. split; [rewrite list_set_length, repeat_length; reflexivity|]. split; [intros j [<-|[]]; exact Hi|].
  intros k Hk. rewrite nth_error_list_set by (rewrite repeat_length; exact Hi). rewrite latest_cons.
  destruct (k =? i); [reflexivity|]. cbn. destruct (nth_error (repeat None n) k) eqn:Ho.
  - apply nth_error_In in Ho. apply repeat_spec in Ho. congruence.
  - apply nth_error_None in Ho. rewrite repeat_length in Ho. lia.
Qed.

Lemma holds_set {A : Type} n (l : list (option A)) hist i x :
  holds n l hist -> i < n -> holds n (list_set l i (Some x)) ((i, x) :: hist).
Proof.
  intros (Hl & Hs & H) Hi. split; [rewrite list_set_length; exact Hl|]. split; [intros j [<-|Hj]; auto|].
  intros k Hk. rewrite nth_error_list_set by lia. rewrite latest_cons. destruct (k =? i); [reflexivity|]. apply H. exact Hk.
Qed.

Lemma missing_nil {A : Type} (l : list (option A)) :
  missing_options l = [] <-> exists xs, l = map Some xs.
Proof.
  rewrite missing_options_eq, filter_nil. split.
  - intros H. assert (Hs : forall i o, nth_error l i = Some o -> exists x, o = Some x).
    { intros i o Ho. assert (Hi : i < List.length l) by (apply nth_error_Some; congruence).
      specialize (H i). rewrite in_seq, Ho in H. specialize (H ltac:(lia)). destruct o; [eauto|discriminate]. }
    clear H. induction l as [|o l IH]; [exists []; reflexivity|].
    destruct (Hs 0 o eq_refl) as [x ->]. destruct IH as [xs ->]; [intros i o Ho; exact (Hs (S i) o Ho)|].
    exists (x :: xs). reflexivity.
  - intros [xs ->] i Hi. rewrite nth_error_map. destruct (nth_error xs i); reflexivity.
Qed.

Lemma unwrap_all_some {A : Type} (xs : list A) : unwrap_all (map Some xs) = Ret xs.
Proof. unfold unwrap_all. induction xs as [|x xs IH]; cbn; [reflexivity|]. rewrite IH. reflexivity. Qed.

Lemma flatten_some {A : Type} (xs : list A) : flatten_options (map Some xs) = xs.
Proof. unfold flatten_options. induction xs as [|x xs IH]; cbn; [reflexivity|]. f_equal. exact IH. Qed.

Section Proofs.
Context (E : Env) (L : GroupLaws E) (Hbig : (2 ^ 64 <= order L)%Z).
Local Notation scalar := (Scalar E).
Local Notation element := (Element E).
Add Field s_field_dkg : (s_field L).

Context (params : Params) (idx : nat) (Hparams : params_ok params).

(** what is known about the participant's own dealer *)
Definition own_dealer (d : Dealer E) : Prop := exists r r', Dealer_new params r = Ret (d, r').

Lemma own_dealer_ok d : own_dealer d ->
  de_params d = params /\ List.length (dealer_poly E d) = pa_threshold params /\
  fst (Dealer_public_info d) = in_exponent (dealer_poly E d).
Proof.
  intros (r & r' & H). destruct (dealer_new_ok E L params r d r' H) as (H1 & H2 & H3 & _). auto.
Qed.

(** ** phase 1 *)
Definition pcc_inv (p : ParticipantCollectingCommitments E) (coms : list (nat * bytes)) : Prop :=
  pcc_params p = params /\ pcc_index p = idx /\ idx < pa_shares params /\ own_dealer (pcc_dealer p) /\
  In idx (map fst coms) /\ holds (pa_shares params) (pcc_commitments p) coms.

(** initial state *)
Lemma pcc_new_ok r (p : ParticipantCollectingCommitments E) r' : PCC_new params idx r = Ret (p, r') ->
  exists d r1 opening e0 b, Dealer_new params r = Ret (d, r1) /\ idx < pa_shares params /\
    nth_error (fst (Dealer_public_info d)) 0 = Some e0 /\ serialize_element e0 = Ret b /\
    p = {| pcc_params := params; pcc_index := idx; pcc_dealer := d;
           pcc_commitments := list_set (repeat None (pa_shares params)) idx (Some (@sha256 E (b ++ opening)));
           pcc_opening := opening |} /\
    PCC_commitment p = Ret (@sha256 E (b ++ opening)).
Proof.
  unfold PCC_new. intros H. inv_bind H. unfold assert in Hm. destruct (idx <? pa_shares params) eqn:Hi; [|discriminate].
  apply Nat.ltb_lt in Hi. inv_bind H. destruct a0 as [d r1]. destruct (fill_bytes 32 r1) as [opening r2].
  inv_bind H. inv_bind H. inv_bind H. injection H as <- _.
  apply index_set_Ret in Hm3. destruct Hm3 as [_ ->].
  unfold create_commitment in Hm2. inv_bind Hm2. injection Hm2 as <-. apply index_Ret in Hm1.
  eexists d, r1, opening, _, _. split; [exact Hm0|]. split; [exact Hi|]. split; [exact Hm1|]. split; [exact Hm3|].
  split; [reflexivity|]. unfold PCC_commitment, index. cbn [pcc_commitments pcc_index].
  rewrite nth_error_list_set by (rewrite repeat_length; exact Hi). rewrite Nat.eqb_refl. reflexivity.
Qed.

Lemma pcc_new_inv r (p : ParticipantCollectingCommitments E) r' c : PCC_new params idx r = Ret (p, r') -> PCC_commitment p = Ret c -> pcc_inv p [(idx, c)].
Proof.
  intros H Hc. destruct (pcc_new_ok r p r' H) as (d & r1 & op & e0 & b & H1 & H2 & H3 & H4 & -> & H6).
  rewrite H6 in Hc. injection Hc as <-.
  unfold pcc_inv. cbn [pcc_params pcc_index pcc_dealer pcc_commitments pcc_opening].
  split; [reflexivity|]. split; [reflexivity|]. split; [exact H2|]. split; [exists r, r1; exact H1|].
  split; [left; reflexivity|]. apply holds_init. exact H2.
Qed.

Lemma pcc_insert_Ret (p p' : ParticipantCollectingCommitments E) j c :
  PCC_insert_commitment p j c = Ret p' <->
  nth_error (pcc_commitments p) j = Some None /\
  p' = {| pcc_params := pcc_params p; pcc_index := pcc_index p; pcc_dealer := pcc_dealer p;
          pcc_commitments := list_set (pcc_commitments p) j (Some c); pcc_opening := pcc_opening p |}.
Proof.
  unfold PCC_insert_commitment, index. destruct (nth_error (pcc_commitments p) j) as [[c'|]|] eqn:Hj; cbn [bind assert].
  - split; [discriminate|]. intros [H _]. discriminate.
  - rewrite index_set_ok by (apply nth_error_Some; congruence). cbn [bind]. split.
    + intros H. injection H as <-. auto.
    + intros [_ ->]. reflexivity.
  - split; [discriminate|]. intros [H _]. discriminate.
Qed.

Lemma pcc_insert_inv p coms j c p' : pcc_inv p coms -> PCC_insert_commitment p j c = Ret p' -> pcc_inv p' ((j, c) :: coms).
Proof.
  intros (H1 & H2 & H3 & H4 & H5 & H6) H. apply pcc_insert_Ret in H. destruct H as [Hj ->].
  assert (Hjn : j < pa_shares params).
  { destruct H6 as [Hl _]. rewrite <- Hl. apply nth_error_Some. congruence. }
  unfold pcc_inv. cbn [pcc_params pcc_index pcc_dealer pcc_commitments pcc_opening].
  split; [exact H1|]. split; [exact H2|]. split; [exact H3|]. split; [exact H4|]. split; [right; exact H5|].
  apply holds_set; assumption.
Qed.

Lemma pcc_run_inv (p : ParticipantCollectingCommitments E) coms : pcc_run params idx p coms -> pcc_inv p coms.
Proof.
  induction 1 as [r p r' c H Hc|p coms j c p' Hr IH H].
  - exact (pcc_new_inv r p r' c H Hc).
  - exact (pcc_insert_inv p coms j c p' IH H).
Qed.

Lemma pcc_missing (p : ParticipantCollectingCommitments E) coms : pcc_run params idx p coms ->
  PCC_missing_commitments p = not_supplied (pa_shares params) (map fst coms).
Proof. intros H. apply pcc_run_inv in H. apply holds_missing. apply H. Qed.

Lemma pcc_finish_eq (p : ParticipantCollectingCommitments E) sup : pcc_run params idx p sup ->
  PCC_finish_commitment_phase p =
  match not_supplied (pa_shares params) (map fst sup) with
  | _ :: _ => Panic PAssert
  | [] => Ret {| pcp_params := params; pcp_index := idx; pcp_dealer := pcc_dealer p;
                 pcp_opening := pcc_opening p; pcp_commitments := flatten_options (pcc_commitments p);
                 pcp_public_polynomials := list_set (repeat None (pa_shares params)) idx
                    (Some (fst (Dealer_public_info (pcc_dealer p)))) |}
  end.
Proof.
  intros H. pose proof (pcc_missing p sup H) as Hm. apply pcc_run_inv in H.
  destruct H as (H1 & H2 & H3 & H4 & H5 & H6).
  unfold PCC_finish_commitment_phase. rewrite Hm. destruct (not_supplied _ _) as [|x l]; [|reflexivity].
  unfold PCC_missing_commitments in Hm. apply missing_nil in Hm. destruct Hm as [cs Hcs].
  rewrite H1, H2, Hcs, unwrap_all_some, flatten_some.
  rewrite index_set_ok by (rewrite repeat_length; exact H3). reflexivity.
Qed.

(** ** phase 2 *)
Definition pcp_inv (q : ParticipantCollectingPolynomials E) (coms : list (nat * bytes))
    (hist : list (nat * list element)) : Prop :=
  pcp_params q = params /\ pcp_index q = idx /\ idx < pa_shares params /\ own_dealer (pcp_dealer q) /\
  List.length (pcp_commitments q) = pa_shares params /\
  (forall i, nth_error (pcp_commitments q) i = latest coms i) /\
  In (idx, fst (Dealer_public_info (pcp_dealer q))) hist /\
  holds (pa_shares params) (pcp_public_polynomials q) hist /\
  (forall i P, In (i, P) hist -> List.length P = pa_threshold params).

Lemma validate_ok_iff poly pop :
  PublicKeySet_validate (E:=E) params poly pop = Ret (Ok tt) <->
  List.length poly = pa_threshold params /\
  exists keys tf, mapM PublicKey_from_element poly = Ret keys /\
    ProofOfPossession_verify pop keys (share_poly_transcript params) = Ret (Ok tt, tf).
Proof.
  unfold PublicKeySet_validate. destruct (List.length poly =? pa_threshold params) eqn:Hl; cbn [negb].
  2:{ apply Nat.eqb_neq in Hl. split; [discriminate|]. intros [H _]. contradiction. }
  apply Nat.eqb_eq in Hl. destruct (mapM PublicKey_from_element poly) as [keys|k]; cbn [bind].
  2:{ split; [discriminate|]. intros (_ & keys & tf & H & _). discriminate. }
  destruct (ProofOfPossession_verify pop keys _) as [[[[]|e] tf]|k] eqn:Hv; cbn [bind].
  - split; [|reflexivity]. intros _. split; [exact Hl|]. exists keys, tf. auto.
  - split; [discriminate|]. intros (_ & keys' & tf' & H1 & H2). injection H1 as <-. congruence.
  - split; [discriminate|]. intros (_ & keys' & tf' & H1 & H2). injection H1 as <-. congruence.
Qed.

(** exact result of an insertion *)
Lemma pcp_insert_eq (q : ParticipantCollectingPolynomials E) j info e0 rest b c :
  pi_polynomial info = e0 :: rest -> serialize_element e0 = Ret b -> nth_error (pcp_commitments q) j = Some c ->
  PCP_insert_public_polynomial q j info =
  if bytes_eqb c (@sha256 E (b ++ pi_opening info)) then
    valid <- PublicKeySet_validate (pcp_params q) (pi_polynomial info) (pi_pop info) ;;
    match valid with
    | Err e => Ret (Err (MalformedParticipantProof e), q)
    | Ok _ =>
        polys <- index_set (pcp_public_polynomials q) j (Some (pi_polynomial info)) ;;
        Ret (Ok tt, {| pcp_params := pcp_params q; pcp_index := pcp_index q;
                pcp_dealer := pcp_dealer q; pcp_opening := pcp_opening q;
                pcp_commitments := pcp_commitments q; pcp_public_polynomials := polys |})
    end
  else Ret (Err InvalidCommitment, q).
Proof.
  intros H1 H2 H3. unfold PCP_insert_public_polynomial. rewrite H1. unfold index at 1. cbn [nth_error bind].
  unfold create_commitment. rewrite H2. cbn [bind]. unfold index. rewrite H3. cbn [bind].
  destruct (bytes_eqb c _); reflexivity.
Qed.

Lemma pcp_insert_Ret (q q' : ParticipantCollectingPolynomials E) j info res :
  PCP_insert_public_polynomial q j info = Ret (res, q') ->
  exists e0 rest b c, pi_polynomial info = e0 :: rest /\ serialize_element e0 = Ret b /\
    nth_error (pcp_commitments q) j = Some c.
Proof.
  unfold PCP_insert_public_polynomial. intros H. inv_bind H. apply index_Ret in Hm. inv_bind H.
  unfold create_commitment in Hm0. inv_bind Hm0. inv_bind H. apply index_Ret in Hm2.
  destruct (pi_polynomial info) as [|e0 rest]; [discriminate|]. cbn in Hm. injection Hm as <-.
  eexists _, _, _, _. eauto.
Qed.

Lemma pcp_insert_ok_iff (q q' : ParticipantCollectingPolynomials E) j info :
  pcp_params q = params -> List.length (pcp_public_polynomials q) = pa_shares params ->
  List.length (pcp_commitments q) = pa_shares params ->
  PCP_insert_public_polynomial q j info = Ret (Ok tt, q') <->
  (exists e0 rest b, pi_polynomial info = e0 :: rest /\ serialize_element e0 = Ret b /\
     nth_error (pcp_commitments q) j = Some (@sha256 E (b ++ pi_opening info))) /\
  PublicKeySet_validate params (pi_polynomial info) (pi_pop info) = Ret (Ok tt) /\
  q' = {| pcp_params := pcp_params q; pcp_index := pcp_index q;
          pcp_dealer := pcp_dealer q; pcp_opening := pcp_opening q;
          pcp_commitments := pcp_commitments q;
          pcp_public_polynomials := list_set (pcp_public_polynomials q) j (Some (pi_polynomial info)) |}.
Proof.
  intros Hp Hlp Hlc. split.
  - intros H. destruct (pcp_insert_Ret q q' j info _ H) as (e0 & rest & b & c & H1 & H2 & H3).
    rewrite (pcp_insert_eq q j info e0 rest b c H1 H2 H3), Hp in H.
    destruct (bytes_eqb c _) eqn:Hc; [|discriminate]. apply bytes_eqb_ok in Hc. subst c.
    inv_bind H. destruct a as [[]|e]; [|discriminate].
    rewrite index_set_ok in H.
    + cbn [bind] in H. injection H as <-. split; [exists e0, rest, b; auto|]. split; [exact Hm|]. rewrite Hp. reflexivity.
    + rewrite Hlp, <- Hlc. apply nth_error_Some. congruence.
  - intros ((e0 & rest & b & H1 & H2 & H3) & Hv & ->).
    rewrite (pcp_insert_eq q j info e0 rest b _ H1 H2 H3), Hp, bytes_eqb_refl, Hv. cbn [bind].
    rewrite index_set_ok; [reflexivity|]. rewrite Hlp, <- Hlc. apply nth_error_Some. congruence.
Qed.

Lemma pcp_insert_rejected (q q' : ParticipantCollectingPolynomials E) j info e :
  PCP_insert_public_polynomial q j info = Ret (Err e, q') -> q' = q.
Proof.
  intros H. destruct (pcp_insert_Ret q q' j info _ H) as (e0 & rest & b & c & H1 & H2 & H3).
  rewrite (pcp_insert_eq q j info e0 rest b c H1 H2 H3) in H.
  destruct (bytes_eqb c _); [|congruence]. inv_bind H. destruct a as [u|e']; [|congruence].
  inv_bind H. discriminate.
Qed.

Lemma pcp_start_inv (p : ParticipantCollectingCommitments E) coms q :
  pcc_run params idx p coms -> PCC_finish_commitment_phase p = Ret q ->
  pcp_inv q coms [(idx, pi_polynomial (PCP_public_info q))].
Proof.
  intros Hr H. rewrite (pcc_finish_eq p coms Hr) in H.
  pose proof (pcc_missing p coms Hr) as Hmis. apply pcc_run_inv in Hr.
  destruct Hr as (H1 & H2 & H3 & H4 & H5 & H6). destruct (not_supplied _ _); [|discriminate]. injection H as <-.
  unfold PCC_missing_commitments in Hmis. apply missing_nil in Hmis. destruct Hmis as [cs Hcs].
  destruct (own_dealer_ok _ H4) as (D1 & D2 & D3).
  unfold pcp_inv. cbn [pcp_params pcp_index pcp_dealer pcp_commitments pcp_public_polynomials PCP_public_info pi_polynomial].
  destruct H6 as (Hl & Hlt & Hh).
  assert (Hlcs : List.length cs = pa_shares params) by (rewrite Hcs, map_length in Hl; exact Hl).
  rewrite Hcs, flatten_some.
  split; [reflexivity|]. split; [reflexivity|]. split; [exact H3|]. split; [exact H4|]. split; [exact Hlcs|]. split.
  { intros i. destruct (Nat.lt_ge_cases i (pa_shares params)) as [Hi|Hi].
    - specialize (Hh i Hi). rewrite Hcs, nth_error_map in Hh. destruct (nth_error cs i); cbn in Hh; congruence.
    - replace (nth_error cs i) with (@None bytes) by (symmetry; apply nth_error_None; lia).
      symmetry. apply latest_none. intros Hc. apply Hlt in Hc. lia. }
  split; [left; reflexivity|]. split; [apply holds_init; exact H3|].
  intros i P [Hi|[]]. injection Hi as _ <-.
  change (List.length (fst (Dealer_public_info (pcc_dealer p))) = pa_threshold params).
  rewrite D3, in_exponent_length. exact D2.
Qed.

Lemma pcp_insert_inv q coms hist j info res q' :
  pcp_inv q coms hist -> PCP_insert_public_polynomial q j info = Ret (res, q') ->
  pcp_inv q' coms (match res with Ok _ => (j, pi_polynomial info) :: hist | Err _ => hist end).
Proof.
  intros (H1 & H2 & H3 & H4 & H5 & H5' & H6 & H7 & H8) H. destruct res as [[]|e].
  2:{ apply pcp_insert_rejected in H. subst q'. unfold pcp_inv. auto 12. }
  apply pcp_insert_ok_iff in H; [|assumption|apply H7|assumption].
  destruct H as ((e0 & rest & b & P1 & P2 & P3) & Hv & ->).
  assert (Hj : j < pa_shares params) by (rewrite <- H5; apply nth_error_Some; congruence).
  unfold pcp_inv. cbn [pcp_params pcp_index pcp_dealer pcp_commitments pcp_public_polynomials].
  split; [exact H1|]. split; [exact H2|]. split; [exact H3|]. split; [exact H4|]. split; [exact H5|].
  split; [exact H5'|]. split; [right; exact H6|]. split; [apply holds_set; assumption|].
  intros i P [Hi|Hi]; [|exact (H8 i P Hi)].
  apply validate_ok_iff in Hv. destruct Hv as [Hl _]. injection Hi as _ <-. exact Hl.
Qed.

Lemma pcp_run_inv (q : ParticipantCollectingPolynomials E) coms hist : pcp_run params idx q coms hist -> pcp_inv q coms hist.
Proof.
  induction 1 as [p coms q Hr H|q coms hist j info res q' Hr IH H].
  - exact (pcp_start_inv p coms q Hr H).
  - exact (pcp_insert_inv q coms hist j info res q' IH H).
Qed.

Lemma pcp_missing (q : ParticipantCollectingPolynomials E) coms hist : pcp_run params idx q coms hist ->
  PCP_missing_public_polynomials q = not_supplied (pa_shares params) (map fst hist).
Proof. intros H. apply pcp_run_inv in H. apply holds_missing. apply H. Qed.

Lemma pcp_finish_eq (q : ParticipantCollectingPolynomials E) coms hist : pcp_run params idx q coms hist ->
  PCP_finish_polynomials_phase q =
  match not_supplied (pa_shares params) (map fst hist) with
  | _ :: _ => Panic PAssert
  | [] => Ret {| pes_params := params; pes_index := idx; pes_dealer := pcp_dealer q;
                 pes_public_polynomials := flatten_options (pcp_public_polynomials q);
                 pes_accumulated_share := peval (dealer_poly E (pcp_dealer q)) (node idx);
                 pes_shares_received := list_set (repeat false (pa_shares params)) idx true |}
  end.
Proof.
  intros H. pose proof (pcp_missing q coms hist H) as Hm. apply pcp_run_inv in H.
  destruct H as (H1 & H2 & H3 & H4 & _). unfold PCP_finish_polynomials_phase. rewrite Hm.
  destruct (not_supplied _ _) as [|x l]; [|reflexivity].
  destruct (own_dealer_ok _ H4) as (D1 & D2 & D3).
  rewrite H1, H2, index_set_ok by (rewrite repeat_length; exact H3). cbn [bind].
  rewrite (dealer_share_eq E L), D1. replace (idx <? pa_shares params) with true by (symmetry; apply Nat.ltb_lt; exact H3).
  reflexivity.
Qed.

(** ** phase 3 *)
Definition recv (l : list bool) (i : nat) : bool := match nth_error l i with Some b => b | None => false end.

(** value of the published polynomial of participant [j] at this participant's node, in the exponent *)
Definition pub_share (P : list element) : scalar := peval (map (dlog L) P) (node idx).

Definition pes_sum (polys : list (list element)) (received : list bool) : scalar :=
  s_sum (map (fun q : list element * bool => if snd q then pub_share (fst q) else 0%S) (combine polys received)).

Definition pes_inv (p : ParticipantExchangingSecrets E) (hist : list (nat * list element)) (sup : list nat) : Prop :=
  pes_params p = params /\ pes_index p = idx /\ idx < pa_shares params /\ own_dealer (pes_dealer p) /\
  In (idx, fst (Dealer_public_info (pes_dealer p))) hist /\
  List.length (pes_public_polynomials p) = pa_shares params /\
  (forall i, nth_error (pes_public_polynomials p) i = latest hist i) /\
  (forall i P, nth_error (pes_public_polynomials p) i = Some P -> List.length P = pa_threshold params) /\
  List.length (pes_shares_received p) = pa_shares params /\ In idx sup /\
  (forall i, In i sup -> i < pa_shares params) /\
  (forall i, recv (pes_shares_received p) i = true <-> In i sup) /\
  exists own, nth_error (pes_public_polynomials p) idx = Some own /\
    (pes_accumulated_share p + pub_share own
     = peval (dealer_poly E (pes_dealer p)) (node idx) + pes_sum (pes_public_polynomials p) (pes_shares_received p))%S.

Lemma pes_sum_none polys n : pes_sum polys (repeat false n) = 0%S.
Proof.
  unfold pes_sum. revert n; induction polys as [|P polys IH]; intros [|n]; cbn [repeat combine map]; try reflexivity.
  rewrite s_sum_cons. cbn [snd]. rewrite IH. ring.
Qed.

Lemma pes_sum_set polys received i P :
  nth_error polys i = Some P -> nth_error received i = Some false ->
  pes_sum polys (list_set received i true) = (pub_share P + pes_sum polys received)%S.
Proof.
  unfold pes_sum. revert received i; induction polys as [|Q polys IH]; intros [|r received] [|i] HP Hr; cbn in HP, Hr; try discriminate.
  - injection HP as ->. injection Hr as ->. cbn [list_set combine map]. rewrite !s_sum_cons. cbn [fst snd]. ring.
  - cbn [list_set combine map]. rewrite !s_sum_cons, (IH received i HP Hr). ring.
Qed.

Lemma recv_set l i j : i < List.length l -> recv (list_set l i true) j = (j =? i) || recv l j.
Proof.
  intros H. unfold recv. rewrite nth_error_list_set by exact H. destruct (j =? i); reflexivity.
Qed.

Lemma recv_repeat n j : recv (repeat false n) j = false.
Proof.
  unfold recv. destruct (nth_error (repeat false n) j) as [b|] eqn:H; [|reflexivity].
  apply nth_error_In in H. apply repeat_spec in H. exact H.
Qed.

Lemma pes_start_inv (q : ParticipantCollectingPolynomials E) coms hist p : pcp_run params idx q coms hist -> PCP_finish_polynomials_phase q = Ret p ->
  pes_inv p hist [idx].
Proof.
  intros Hr H. rewrite (pcp_finish_eq q coms hist Hr) in H. pose proof (pcp_missing q coms hist Hr) as Hmis.
  apply pcp_run_inv in Hr. destruct Hr as (H1 & H2 & H3 & H4 & H5 & H5' & H6 & H7 & H8).
  destruct (not_supplied _ _); [|discriminate]. injection H as <-.
  unfold PCP_missing_public_polynomials in Hmis. apply missing_nil in Hmis. destruct Hmis as [Ps HPs].
  assert (HlPs : List.length Ps = pa_shares params) by (destruct H7 as [Hl _]; rewrite HPs, map_length in Hl; exact Hl).
  unfold pes_inv.
  cbn [pes_params pes_index pes_dealer pes_public_polynomials pes_accumulated_share pes_shares_received].
  rewrite HPs, flatten_some.
  split; [reflexivity|]. split; [reflexivity|]. split; [exact H3|]. split; [exact H4|]. split; [exact H6|].
  split; [exact HlPs|]. split.
  { destruct H7 as (Hl & Hlt & Hh). intros i. destruct (Nat.lt_ge_cases i (pa_shares params)) as [Hi|Hi].
    - specialize (Hh i Hi). rewrite HPs, nth_error_map in Hh. destruct (nth_error Ps i); cbn in Hh; [injection Hh as Hh; exact Hh|discriminate Hh].
    - replace (nth_error Ps i) with (@None (PublicPolynomial E)) by (symmetry; apply nth_error_None; lia).
      symmetry. apply latest_none. intros Hc. apply Hlt in Hc. lia. }
  split.
  { destruct H7 as (Hl & Hlt & Hh). intros i P Hi.
    assert (Hin : i < pa_shares params) by (rewrite <- HlPs; apply nth_error_Some; congruence).
    specialize (Hh i Hin). rewrite HPs, nth_error_map, Hi in Hh. cbn in Hh. injection Hh as Hh. symmetry in Hh.
    apply latest_In in Hh. exact (H8 i P Hh). }
  split; [rewrite list_set_length, repeat_length; reflexivity|]. split; [left; reflexivity|].
  split; [intros i [<-|[]]; exact H3|]. split.
  { intros i. rewrite recv_set by (rewrite repeat_length; exact H3). rewrite recv_repeat, orb_false_r, Nat.eqb_eq.
    cbn. split; [left; congruence|]. intros [Hc|[]]. congruence. }
  destruct (nth_error Ps idx) as [own|] eqn:Hown; [|apply nth_error_None in Hown; lia].
  exists own. split; [reflexivity|].
  rewrite (pes_sum_set Ps (repeat false (pa_shares params)) idx own Hown), pes_sum_none; [ring|].
  destruct (nth_error (repeat false (pa_shares params)) idx) as [b|] eqn:Hb.
  - apply nth_error_In in Hb. apply repeat_spec in Hb. congruence.
  - apply nth_error_None in Hb. rewrite repeat_length in Hb. lia.
Qed.

Lemma value_at_dlog (P : list element) x :
  PublicPolynomial_value_at P x = Ret (generator * peval (map (dlog L) P) x)%E.
Proof. rewrite <- (in_exponent_dlog E L P) at 1. apply (value_at_eq E L). Qed.

Lemma pes_insert_Ret (p p' : ParticipantExchangingSecrets E) hist sup j share res :
  pes_inv p hist sup -> PES_insert_secret_share p j share = Ret (res, p') ->
  j < pa_shares params /\
  ((In j sup /\ res = Err DuplicateShare /\ p' = p) \/
   (~ In j sup /\ exists P, nth_error (pes_public_polynomials p) j = Some P /\
      ((share <> pub_share P /\ res = Err DkgInvalidSecret /\ p' = p) \/
       (share = pub_share P /\ res = Ok tt /\
        p' = {| pes_params := pes_params p; pes_index := pes_index p; pes_dealer := pes_dealer p;
              pes_public_polynomials := pes_public_polynomials p;
              pes_accumulated_share := (pes_accumulated_share p + share)%S;
              pes_shares_received := list_set (pes_shares_received p) j true |})))).
Proof.
  intros (H1 & H2 & H3 & H4 & H5 & H6 & H6' & H7 & H8 & H9 & H10 & H11 & _) H.
  unfold PES_insert_secret_share in H. inv_bind H. apply index_Ret in Hm.
  assert (Hj : j < pa_shares params) by (rewrite <- H8; apply nth_error_Some; congruence).
  split; [exact Hj|]. destruct a.
  - left. injection H as <- <-. split; [|auto]. apply H11. unfold recv. rewrite Hm. reflexivity.
  - right. split.
    { intros Hc. apply H11 in Hc. unfold recv in Hc. rewrite Hm in Hc. discriminate. }
    inv_bind H. apply index_Ret in Hm0. rename a into P. exists P. split; [exact Hm0|].
    rewrite value_at_dlog in H. cbn [bind] in H. inv_bind H. apply pk_from_element_ok in Hm1. destruct Hm1 as [He _].
    rewrite He, (mul_generator_ok E L), H2 in H.
    change (scalar_of_usize (E:=E) (idx + 1)) with (node (G:=E) idx) in H. fold (pub_share P) in H.
    destruct (e_eqb (generator * pub_share P)%E (generator * share)%E) eqn:Heq; cbn [negb] in H.
    + apply (e_eqb_ok E L) in Heq. apply (gen_inj L) in Heq. right.
      rewrite index_set_ok in H by lia. cbn [bind] in H. injection H as <- <-. split; [symmetry; exact Heq|].
      split; [reflexivity|]. rewrite H2. reflexivity.
    + apply (e_eqb_false L) in Heq. left. injection H as <- <-. split; [congruence|auto].
Qed.

Lemma pes_insert_inv p hist sup j share res p' :
  pes_inv p hist sup -> PES_insert_secret_share p j share = Ret (res, p') ->
  pes_inv p' hist (match res with Ok _ => j :: sup | Err _ => sup end).
Proof.
  intros Hinv H. destruct (pes_insert_Ret p p' hist sup j share res Hinv H)
    as (Hj & [(Hin & -> & ->)|(Hin & P & HP & [(Hne & -> & ->)|(He & -> & ->)])]); [exact Hinv|exact Hinv|].
  destruct Hinv as (H1 & H2 & H3 & H4 & H5 & H6 & H6' & H7 & H8 & H9 & H10 & H11 & own & Ho & Ha).
  unfold pes_inv.
  cbn [pes_params pes_index pes_dealer pes_public_polynomials pes_accumulated_share pes_shares_received].
  split; [exact H1|]. split; [exact H2|]. split; [exact H3|]. split; [exact H4|]. split; [exact H5|].
  split; [exact H6|]. split; [exact H6'|]. split; [exact H7|]. split; [rewrite list_set_length; exact H8|]. split; [right; exact H9|].
  split; [intros i [<-|Hi]; auto|]. split.
  { intros i. rewrite recv_set by lia. rewrite orb_true_iff, Nat.eqb_eq, H11. cbn. split; intros [Hx|Hx]; auto. }
  exists own. split; [exact Ho|].
  rewrite (pes_sum_set _ _ j P HP).
  - rewrite <- He. transitivity (pes_accumulated_share p + pub_share own + share)%S; [ring|]. rewrite Ha. ring.
  - destruct (nth_error (pes_shares_received p) j) as [b|] eqn:Hb; [|apply nth_error_None in Hb; lia].
    destruct b; [|reflexivity]. exfalso. apply Hin, H11. unfold recv. rewrite Hb. reflexivity.
Qed.

Lemma pes_run_inv (p : ParticipantExchangingSecrets E) hist sup : pes_run params idx p hist sup -> pes_inv p hist sup.
Proof.
  induction 1 as [q coms hist p Hr H|p hist sup j share res p' Hr IH H].
  - exact (pes_start_inv q coms hist p Hr H).
  - exact (pes_insert_inv p hist sup j share res p' IH H).
Qed.

Lemma pes_missing_inv (p : ParticipantExchangingSecrets E) hist sup : pes_inv p hist sup -> PES_missing_shares p = not_supplied (pa_shares params) sup.
Proof.
  intros (H1 & H2 & H3 & H4 & H5 & H6 & H6' & H7 & H8 & H9 & H10 & H11 & _).
  unfold PES_missing_shares. rewrite (filter_enumerate negb), H8. unfold not_supplied. apply filter_ext_seq.
  intros i Hi. specialize (H11 i). unfold recv in H11.
  destruct (nth_error (pes_shares_received p) i) as [b|] eqn:Hb; [|apply nth_error_None in Hb; lia].
  destruct (existsb (Nat.eqb i) sup) eqn:He.
  - apply existsb_eqb in He. apply H11 in He. subst b. reflexivity.
  - apply existsb_eqb_false in He. destruct b; [|reflexivity]. exfalso. apply He, H11. reflexivity.
Qed.

(** ** completion *)

(** sum of polynomials given by coefficient lists *)
Definition psum (t : nat) (ps : list (list scalar)) : list scalar := fold_right padd (repeat 0%S t) ps.

Lemma psum_length t ps : (forall p, In p ps -> List.length p = t) -> List.length (psum t ps) = t.
Proof.
  induction ps as [|p ps IH]; intros H; cbn; [apply repeat_length|].
  rewrite padd_length. change (fold_right padd (repeat 0%S t) ps) with (psum t ps).
  rewrite IH by (intros q Hq; apply H; right; exact Hq).
  rewrite (H p) by (left; reflexivity). lia.
Qed.

Lemma psum_eval t ps x : peval (psum t ps) x = s_sum (map (fun p => peval p x) ps).
Proof.
  induction ps as [|p ps IH]; cbn [psum fold_right map].
  - rewrite peval_zero; [reflexivity|exact L|]. apply Forall_forall. intros y Hy. apply repeat_spec in Hy. exact Hy.
  - fold (psum t ps). rewrite (peval_padd L), IH, s_sum_cons. reflexivity.
Qed.

Lemma add_zip_exponent (a b : list scalar) : List.length a = List.length b ->
  add_zip (in_exponent a) (in_exponent b) = in_exponent (padd a b).
Proof.
  revert b; induction a as [|x a IH]; intros [|y b] H; cbn in H; try discriminate; [reflexivity|].
  cbn. f_equal; [symmetry; apply (e_mul_add E L)|]. apply IH. lia.
Qed.

Lemma padd_comm_assoc (a b c : list scalar) : List.length a = List.length b -> List.length b = List.length c ->
  padd (padd a b) c = padd a (padd b c).
Proof.
  revert b c; induction a as [|x a IH]; intros [|y b] [|z c] H1 H2; cbn in H1, H2; try discriminate; [reflexivity|].
  cbn [padd]. f_equal; [ring|]. apply IH; lia.
Qed.

Lemma padd_zero_r (a : list scalar) t : List.length a = t -> padd a (repeat 0%S t) = a.
Proof.
  revert t; induction a as [|x a IH]; intros [|t] H; cbn in H; try discriminate; [reflexivity|].
  cbn [repeat padd]. f_equal; [ring|]. apply IH. lia.
Qed.

Lemma accumulate_eq t (a : list scalar) (ps : list (list scalar)) :
  List.length a = t -> (forall p, In p ps -> List.length p = t) ->
  accumulate_polynomials (E:=E) (in_exponent a) (map in_exponent ps) = Ret (in_exponent (padd a (psum t ps))).
Proof.
  revert a; induction ps as [|p ps IH]; intros a Ha Hps; cbn [map accumulate_polynomials psum fold_right].
  - rewrite padd_zero_r by exact Ha. reflexivity.
  - assert (Hp : List.length p = t) by (apply Hps; left; reflexivity).
    assert (Hps' : forall q, In q ps -> List.length q = t) by (intros q Hq; apply Hps; right; exact Hq).
    unfold PublicPolynomial_add_assign.
    rewrite !in_exponent_length, Ha, Hp, Nat.eqb_refl. rewrite debug_assert_true. cbn [bind].
    rewrite add_zip_exponent by congruence. rewrite IH.
    + fold (psum t ps). rewrite padd_comm_assoc; [reflexivity|congruence|].
      rewrite psum_length by exact Hps'. exact Hp.
    + rewrite padd_length. lia.
    + exact Hps'.
Qed.

Lemma all_received_sum polys received :
  List.length received = List.length polys -> (forall i, i < List.length polys -> recv received i = true) ->
  pes_sum polys received = s_sum (map pub_share polys).
Proof.
  unfold pes_sum. revert received; induction polys as [|P polys IH]; intros [|r received] Hl H; cbn in Hl; try discriminate; [reflexivity|].
  cbn [combine map]. rewrite !s_sum_cons. cbn [fst snd]. assert (H0 := H 0 ltac:(cbn; lia)). cbn in H0. rewrite H0.
  f_equal. apply IH; [lia|]. intros i Hi. exact (H (S i) ltac:(cbn; lia)).
Qed.

(** the aggregated secret polynomial *)
Definition total_poly (polys : list (list element)) : list scalar :=
  psum (pa_threshold params) (map (map (dlog L)) polys).

Lemma total_poly_eval polys x :
  peval (total_poly polys) x = s_sum (map (fun P => peval (map (dlog L) P) x) polys).
Proof. unfold total_poly. rewrite psum_eval, map_map. reflexivity. Qed.

(** [complete] as an equation *)
Lemma pes_complete_eq (p : ParticipantExchangingSecrets E) hist sup : pes_inv p hist sup ->
  PES_complete p =
  match not_supplied (pa_shares params) sup with
  | _ :: _ => Panic PAssert
  | [] =>
      let A := total_poly (pes_public_polynomials p) in
      keys <- mapM (fun i => PublicKey_from_element (generator * peval A (node i))%E) (seq 0 (pa_shares params)) ;;
      shared <- PublicKey_from_element (generator * peval A 0%S)%E ;;
      if s_eqb (pes_accumulated_share p) (peval A (node idx)) then
        Ret (Ok {| ap_key_set := {| ks_params := params; ks_shared_key := shared; ks_participant_keys := keys |};
                   ap_index := idx; ap_secret_share := pes_accumulated_share p |})
      else Ret (Err (InconsistentPublicShares SharingInvalidSecret))
  end.
Proof.
  intros Hinv. unfold PES_complete. rewrite (pes_missing_inv p hist sup Hinv).
  destruct (not_supplied (pa_shares params) sup) as [|x l]; [|reflexivity].
  destruct Hinv as (H1 & H2 & H3 & H4 & H5 & H6 & H6' & H7 & H8 & H9 & H10 & H11 & own & Ho & Ha).
  set (A := total_poly (pes_public_polynomials p)).
  assert (Hacc : (match pes_public_polynomials p with
                  | [] => Panic PUnwrap
                  | first :: rest => accumulate_polynomials first rest
                  end) = Ret (in_exponent A)).
  { assert (HlA : forall P, In P (pes_public_polynomials p) -> List.length P = pa_threshold params).
    { intros P HP. apply In_nth_error in HP. destruct HP as [i Hi]. apply (H7 i P Hi). }
    unfold A, total_poly. destruct (pes_public_polynomials p) as [|P Ps]; [cbn in H6; lia|].
    rewrite <- (in_exponent_dlog E L P) at 1.
    replace Ps with (map in_exponent (map (map (dlog L)) Ps)) at 1.
    2:{ rewrite map_map. rewrite <- (map_id Ps) at 2. apply map_ext. intros Q. apply (in_exponent_dlog E L). }
    rewrite (accumulate_eq (pa_threshold params)); [reflexivity| |].
    - rewrite map_length. apply HlA. left. reflexivity.
    - intros q Hq. apply in_map_iff in Hq. destruct Hq as (Q & <- & HQ). rewrite map_length. apply HlA. right. exact HQ. }
  assert (HlenA : List.length A = pa_threshold params).
  { apply psum_length. intros q Hq. apply in_map_iff in Hq. destruct Hq as (Q & <- & HQ). rewrite map_length.
    apply In_nth_error in HQ. destruct HQ as [i Hi]. apply (H7 i Q Hi). }
  rewrite Hacc. cbn [bind]. rewrite H1.
  rewrite (mapM_ext _ (fun i => PublicKey_from_element (generator * peval A (node i))%E)).
  2:{ intros i _. change (scalar_of_usize (E:=E) (i + 1)) with (node (G:=E) i). rewrite (value_at_eq E L). reflexivity. }
  destruct (mapM _ _) as [keys|k] eqn:Hkeys; cbn [bind]; [|reflexivity].
  assert (Hlk : List.length keys = pa_shares params) by (apply mapM_length in Hkeys; rewrite seq_length in Hkeys; exact Hkeys).
  assert (Hk : keys_of_poly A keys).
  { intros i key Hi. destruct (mapM_nth _ _ _ _ _ Hkeys Hi) as (j & Hj & Hf). apply nth_error_seq in Hj. destruct Hj as [-> _].
    apply pk_from_element_ok in Hf. tauto. }
  rewrite (from_participants_eq E L Hbig params keys Hparams Hlk).
  pose proof (keys_of_poly_unique E L Hbig params keys A Hparams Hlk HlenA Hk) as Hu. rewrite <- Hu.
  destruct (PublicKey_from_element (generator * peval A 0%S)%E) as [shared|k]; cbn [bind]; [|reflexivity].
  pose proof (proj2 (check_ok_iff E L Hbig params keys Hparams Hlk)) as Hc. cbv zeta in Hc. rewrite <- Hu in Hc.
  rewrite (Hc Hk). cbn [bind].
  unfold ActiveParticipant_new, index. cbn [ks_participant_keys].
  rewrite H2. destruct (nth_error keys idx) as [key|] eqn:Hkey; [|apply nth_error_None in Hkey; lia].
  cbn [bind]. rewrite (Hk idx key Hkey), (mul_generator_ok E L).
  destruct (s_eqb (pes_accumulated_share p) (peval A (node idx))) eqn:Hs.
  - apply (s_eqb_ok E L) in Hs. rewrite Hs at 1. rewrite (e_eqb_refl L). reflexivity.
  - apply (s_eqb_false L) in Hs.
    replace (e_eqb _ _) with false; [reflexivity|]. symmetry. apply (e_eqb_false L). intros Hx. apply (gen_inj L) in Hx. contradiction.
Qed.

(** with everything received the accumulated share is the aggregated polynomial's value, up to the
    difference between the own share and the polynomial stored for this participant *)
Lemma pes_complete_share (p : ParticipantExchangingSecrets E) hist sup : pes_inv p hist sup -> not_supplied (pa_shares params) sup = [] ->
  exists own, nth_error (pes_public_polynomials p) idx = Some own /\
  (pes_accumulated_share p + pub_share own
   = peval (dealer_poly E (pes_dealer p)) (node idx) + peval (total_poly (pes_public_polynomials p)) (node idx))%S.
Proof.
  intros (H1 & H2 & H3 & H4 & H5 & H6 & H6' & H7 & H8 & H9 & H10 & H11 & own & Ho & Ha) Hn.
  exists own. split; [exact Ho|]. rewrite Ha, total_poly_eval. rewrite all_received_sum; [reflexivity|rewrite H8; symmetry; exact H6|].
  intros i Hi. apply H11. apply (proj1 (not_supplied_nil _ _) Hn). rewrite <- H6. exact Hi.
Qed.

End Proofs.
