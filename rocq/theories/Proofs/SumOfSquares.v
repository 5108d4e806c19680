(** * Proofs about the sum-of-squares proof (C24, C25, C53) *)
From Coq Require Import List NArith ZArith Field Lia Bool String Arith.
From Verif.Model Require Import Base Group Transcript Keys Encryption Ring Mul.
From Verif.Spec Require Import Encryption Possession Sigma.
From Verif.Proofs Require Import Algebra Lists Encryption LogEquality Commitment.
Import ListNotations.
Open Scope string_scope.
Open Scope list_scope.

(** ** OddItems *)
Fixpoint odds {A : Type} (l : list A) : list A :=
  match l with
  | _ :: x :: l' => x :: odds l'
  | _ => []
  end.

Lemma list_ind2 {A : Type} (P : list A -> Prop) :
  P [] -> (forall a, P [a]) -> (forall a b l, P l -> P (a :: b :: l)) -> forall l, P l.
Proof.
  intros H0 H1 H2 l. assert (H : P l /\ forall a, P (a :: l)); [|apply H].
  induction l as [|b l [IH1 IH2]]; split; auto.
Qed.

Lemma OddItems_collect_ok {A : Type} (l : list A) fuel :
  (List.length l < fuel)%nat -> OddItems_collect fuel (OddItems_new l) = odds l.
Proof.
  unfold OddItems_new. revert fuel; induction l as [|a|a b l IH] using list_ind2; intros fuel Hf.
  - destruct fuel; [lia|]. reflexivity.
  - destruct fuel; [cbn in Hf; lia|]. reflexivity.
  - destruct fuel as [|fuel]; [cbn in Hf; lia|]. cbn. f_equal. apply IH. cbn in Hf. lia.
Qed.

Lemma odd_items_eq {A : Type} (l : list A) : odd_items l = odds l.
Proof. apply OddItems_collect_ok. lia. Qed.

Lemma odds_nth {A : Type} (l : list A) i : nth_error (odds l) i = nth_error l (2 * i + 1).
Proof.
  revert i; induction l as [|a|a b l IH] using list_ind2; intros i.
  - destruct i; reflexivity.
  - destruct i; [reflexivity|]. cbn. rewrite <- plus_n_Sm. cbn. destruct (i + (i + 0))%nat; reflexivity.
  - destruct i; [reflexivity|].
    replace (2 * S i + 1)%nat with (S (S (2 * i + 1)))%nat by lia. cbn [nth_error odds]. apply IH.
Qed.

Lemma odds_length {A : Type} (l : list A) : List.length (odds l) = Nat.div (List.length l) 2.
Proof.
  induction l as [|a|a b l IH] using list_ind2; [reflexivity|reflexivity|].
  cbn [odds List.length]. rewrite IH. replace (S (S (List.length l))) with (1 * 2 + List.length l)%nat by lia.
  rewrite Nat.div_add_l by lia. reflexivity.
Qed.

Lemma odd_items_nth {A : Type} (l : list A) i : nth_error (odd_items l) i = nth_error l (2 * i + 1).
Proof. rewrite odd_items_eq. apply odds_nth. Qed.

Lemma odd_items_length {A : Type} (l : list A) : List.length (odd_items l) = Nat.div (List.length l) 2.
Proof. rewrite odd_items_eq. apply odds_length. Qed.

Definition oi_rest {A : Type} (s : OddItems A) : list A := if oi_ended s then [] else odds (oi_iter s).

Lemma oi_rest_next {A : Type} (s : OddItems A) :
  match oi_rest s with
  | [] => fst (OddItems_next s) = None /\ oi_rest (snd (OddItems_next s)) = [] /\ oi_ended (snd (OddItems_next s)) = true
  | x :: rest => fst (OddItems_next s) = Some x /\ oi_rest (snd (OddItems_next s)) = rest
  end.
Proof. destruct s as [[|a [|b l]] []]; cbn; auto. Qed.

Lemma oi_reach_inv {A : Type} (l : list A) s out :
  oi_reach l s out -> out ++ oi_rest s = odds l /\ (oi_ended s = true -> oi_iter s = []).
Proof.
  induction 1 as [|s out x s' _ [IH IH'] Hn|s out s' _ [IH IH'] Hn].
  - split; [reflexivity|discriminate].
  - pose proof (oi_rest_next s) as H. rewrite Hn in H. cbn [fst snd] in H.
    destruct (oi_rest s) as [|y rest] eqn:Hr.
    + destruct H as [H _]; discriminate.
    + destruct H as [H Hr']. injection H as <-. rewrite Hr', <- IH, <- app_assoc. split; [reflexivity|].
      destruct s as [[|a [|b it]] []]; cbn in Hn; try discriminate. injection Hn as _ <-. discriminate.
  - pose proof (oi_rest_next s) as H. rewrite Hn in H. cbn [fst snd] in H.
    destruct (oi_rest s) as [|y rest] eqn:Hr.
    + destruct H as (_ & Hr' & _). rewrite Hr', <- IH. split; [reflexivity|].
      destruct s as [[|a [|b it]] []]; cbn in Hn; try discriminate; injection Hn as <-; cbn; auto.
    + destruct H as [H _]; discriminate.
Qed.

Lemma odds_short {A : Type} (l : list A) : odds l = [] -> (List.length l <= 1)%nat.
Proof. destruct l as [|a [|b l]]; cbn; try lia. discriminate. Qed.

(** in every reachable state, [next] gives the next odd item and [size_hint] is exact *)
Lemma oi_reach_spec {A : Type} (l : list A) s out :
  oi_reach l s out ->
  exists rest, odd_items l = out ++ rest /\
    fst (OddItems_next s) = hd_error rest /\
    OddItems_size_hint s = (List.length rest, Some (List.length rest)).
Proof.
  intros H. apply oi_reach_inv in H as [H H']. exists (oi_rest s).
  split; [rewrite odd_items_eq; symmetry; exact H|]. split.
  - pose proof (oi_rest_next s) as Hn. destruct (oi_rest s); destruct Hn as [Hn _]; rewrite Hn; reflexivity.
  - unfold OddItems_size_hint, oi_rest. destruct (oi_ended s) eqn:He.
    + rewrite (H' eq_refl). reflexivity.
    + rewrite odds_length. reflexivity.
Qed.

(** ** The proof *)
Section Proofs.
Context (E : Env) (L : GroupLaws E).
Local Notation scalar := (Scalar E).
Local Notation element := (Element E).
Add Field s_field_sq : (s_field L).

Lemma sq_flat_exists (l : list scalar) n :
  List.length l = (n * 2)%nat -> exists rs, l = sq_flat rs /\ List.length rs = n.
Proof.
  revert n; induction l as [|a|a b l IH] using list_ind2; intros n H.
  - destruct n; [|discriminate]. exists []. auto.
  - cbn in H. lia.
  - destruct n as [|n]; [discriminate|]. cbn in H. destruct (IH n) as (rs & -> & Hl); [lia|].
    exists ((a, b) :: rs). cbn. auto.
Qed.

Lemma sq_flat_length (rs : list (scalar * scalar)) : List.length (sq_flat rs) = (List.length rs * 2)%nat.
Proof. induction rs as [|[a b] rs IH]; cbn; [reflexivity|]. unfold sq_flat in IH. rewrite IH. reflexivity. Qed.

Lemma sq_flat_odds (rs : list (scalar * scalar)) : odd_items (sq_flat rs) = map snd rs.
Proof. rewrite odd_items_eq. induction rs as [|[a b] rs IH]; cbn; [reflexivity|]. f_equal. exact IH. Qed.

Lemma sq_flat_chunks (rs : list (scalar * scalar)) fuel :
  (List.length rs <= fuel)%nat -> chunks fuel 2 (sq_flat rs) = map (fun p => [fst p; snd p]) rs.
Proof.
  revert fuel; induction rs as [|[a b] rs IH]; intros fuel Hf.
  - destruct fuel; reflexivity.
  - destruct fuel as [|fuel]; [cbn in Hf; lia|]. cbn. f_equal. apply IH. cbn in Hf. lia.
Qed.

Lemma mapM_app {A B C : Type} (f : A -> outcome B) l1 l2 (k : list B -> outcome C) :
  (m <- mapM f (l1 ++ l2) ;; k m) = (m1 <- mapM f l1 ;; m2 <- mapM f l2 ;; k (m1 ++ m2)).
Proof.
  revert k; induction l1 as [|x l1 IH]; intros k.
  - cbn. destruct (mapM f l2); reflexivity.
  - cbn [mapM app]. destruct (f x) as [y|]; cbn [bind]; [|reflexivity].
    rewrite <- (IH (fun m => k (y :: m))) || idtac.
    specialize (IH (fun m => k (y :: m))).
    destruct (mapM f (l1 ++ l2)); destruct (mapM f l1); cbn [bind] in *; exact IH.
Qed.

Definition sq_ct_items (p : Ciphertext E * (element * element)) : list (string * element) :=
  let '(ct, (a, b)) := p in
  [("R_x", random_element ct); ("X", blinded_element ct); ("[e_r]G", a); ("[e_x]G + [e_r]K", b)].

Lemma sq_items_eq cs z As Z :
  sq_items (E:=E) cs z As Z = flat_map sq_ct_items (combine cs As) ++
  [("R_z", random_element z); ("Z", blinded_element z);
   ("[e_x]R_x + [e_z]G", fst Z); ("[e_x]X + [e_z]K", snd Z)].
Proof. reflexivity. Qed.

Definition sq_recommitments (K : element) (c : scalar) (cs : list (Ciphertext E)) (rs : list (scalar * scalar)) :=
  map (fun p : Ciphertext E * (scalar * scalar) => let '(ct, (sr, sx)) := p in
         ((generator * sr - random_element ct * c)%E,
          (generator * sx + K * sr - blinded_element ct * c)%E)) (combine cs rs).

Lemma sq_recommit_eq (K : PublicKey E) c rs cs t :
  List.length rs = List.length cs ->
  sq_recommit K c (combine (map (fun p => [fst p; snd p]) rs) cs) t =
  (msgs <- mapM (absorb1 E) (flat_map sq_ct_items (combine cs (sq_recommitments (pk_element K) c cs rs))) ;;
   Ret (t ++ msgs)).
Proof.
  revert cs t; induction rs as [|[sr sx] rs IH]; intros [|ct cs] t Hl; try discriminate.
  - cbn. rewrite app_nil_r. reflexivity.
  - cbn [combine map sq_recommit sq_recommitments flat_map sq_ct_items app fst snd]. cbn [index nth_error bind].
    rewrite (le_commit0 E L).
    rewrite !(vartime_multi_mul_ok E L) by reflexivity. cbn [bind lin_comb].
    replace (generator * sx + (pk_element K * sr + (blinded_element ct * - c + identity)))%E
      with (generator * sx + pk_element K * sr - blinded_element ct * c)%E by el_ring L.
    do 4 (rewrite absorb_cons; rewrite append_element_absorb;
      match goal with |- context [bind (absorb1 E ?x) _] => destruct (absorb1 E x); cbn [bind]; [|reflexivity] end).
    rewrite IH by (cbn in Hl; lia). unfold sq_recommitments.
    match goal with |- context [mapM (absorb1 E) ?l] => destruct (mapM (absorb1 E) l) end; cbn [bind]; [|reflexivity].
    rewrite <- !app_assoc. reflexivity.
Qed.

Lemma lin_comb_esum (ss : list scalar) (es : list element) :
  lin_comb ss es = esum (combine es ss).
Proof.
  revert es; induction ss as [|s ss IH]; intros [|e es]; cbn; try reflexivity. rewrite IH. reflexivity.
Qed.

Definition sq_sum_commitment (A : element) (B : element) (es : list element) (c : scalar) (rs : list (scalar * scalar)) (sz : scalar) : element :=
  (esum (combine es (map snd rs)) + A * sz - B * c)%E.

Lemma sq_sum_eq (A B : element) (es : list element) (c : scalar) rs sz :
  List.length rs = List.length es ->
  vartime_multi_mul (map snd rs ++ [sz; (- c)%S]) (es ++ [A; B]) = Ret (sq_sum_commitment A B es c rs sz).
Proof.
  intros Hl. rewrite (vartime_multi_mul_ok E L) by (rewrite !app_length, map_length; cbn; lia).
  f_equal. rewrite (lin_comb_app L) by (rewrite map_length; exact Hl). rewrite lin_comb_esum.
  unfold sq_sum_commitment. cbn [lin_comb]. el_ring L.
Qed.

Lemma sq_verify_eq (p : SumOfSquaresProof E) rs cs z (K : PublicKey E) t :
  sq_ciphertext_responses p = sq_flat rs -> List.length rs = List.length cs ->
  SumOfSquaresProof_verify p cs z K t =
  (let c := sq_challenge p in
   msgs <- mapM (absorb1 E) (sq_items cs z (sq_recommitments (pk_element K) c cs rs)
      (sq_sum_commitment generator (random_element z) (map random_element cs) c rs (sq_sum_response p),
       sq_sum_commitment (pk_element K) (blinded_element z) (map blinded_element cs) c rs (sq_sum_response p))) ;;
   let q := t ++ [TMsg "dom-sep" (str_bytes "sum_of_squares"); TMsg "K" (pk_bytes K)] ++ msgs in
   Ret ((if s_eqb (oracle q "c") c then Ok tt else Err ChallengeMismatch), q ++ [TChal "c"])).
Proof.
  intros Hr Hl. unfold SumOfSquaresProof_verify, check_lengths. rewrite Hr, sq_flat_length, Hl, Nat.eqb_refl.
  cbv zeta. rewrite sq_flat_odds. rewrite sq_flat_chunks by lia. rewrite sq_recommit_eq by exact Hl.
  rewrite sq_items_eq, mapM_app.
  destruct (mapM (absorb1 E) (flat_map sq_ct_items _)) as [m1|]; cbn [bind]; [|reflexivity].
  rewrite !sq_sum_eq by (rewrite map_length; exact Hl). cbn [bind fst snd].
  do 4 (rewrite absorb_cons; rewrite append_element_absorb;
    match goal with |- context [bind (absorb1 E ?x) _] => destruct (absorb1 E x); cbn [bind]; [|reflexivity] end).
  rewrite absorb_nil. unfold challenge_scalar, sq_initialize_transcript, start_proof, append_element_bytes, append_message.
  rewrite <- !app_assoc. reflexivity.
Qed.

Lemma sq_verify_len (p : SumOfSquaresProof E) cs z (K : PublicKey E) t :
  List.length (sq_ciphertext_responses p) <> (List.length cs * 2)%nat ->
  SumOfSquaresProof_verify p cs z K t =
  Ret (Err (LenMismatch "ciphertext responses" (List.length (sq_ciphertext_responses p)) (List.length cs * 2)), t).
Proof.
  intros H. unfold SumOfSquaresProof_verify, check_lengths. apply Nat.eqb_neq in H. rewrite H. reflexivity.
Qed.

Lemma sq_answers_iff (K : element) cs z As Z c rs sz :
  sq_answers (E:=E) K cs z As Z c rs sz <->
  List.length rs = List.length cs /\ As = sq_recommitments K c cs rs /\
  Z = (sq_sum_commitment generator (random_element z) (map random_element cs) c rs sz,
       sq_sum_commitment K (blinded_element z) (map blinded_element cs) c rs sz).
Proof.
  unfold sq_answers, sq_recommitments, sq_sum_commitment. destruct Z as [Z1 Z2]; cbn [fst snd].
  split; [intros (H1 & H2 & -> & ->) | intros (H1 & H2 & HZ); injection HZ as -> ->]; auto.
Qed.

Lemma sq_verify_ok_iff (p : SumOfSquaresProof E) cs z (K : PublicKey E) t t' :
  SumOfSquaresProof_verify p cs z K t = Ret (Ok tt, t') <->
  exists rs As Z q,
    sq_ciphertext_responses p = sq_flat rs /\
    sq_answers (pk_element K) cs z As Z (sq_challenge p) rs (sq_sum_response p) /\
    sq_hashed t K cs z As Z q /\ oracle q "c" = sq_challenge p /\ t' = q ++ [TChal "c"].
Proof.
  split.
  - intros H. destruct (Nat.eq_dec (List.length (sq_ciphertext_responses p)) (List.length cs * 2)) as [Hl|Hl].
    + destruct (sq_flat_exists _ _ Hl) as (rs & Hr & Hrl). rewrite (sq_verify_eq p rs) in H by assumption.
      cbv zeta in H. inv_bind H. destruct (s_eqb _ _) eqn:Hs; [|discriminate]. injection H as <-.
      apply (s_eqb_ok E L) in Hs. apply absorbed_iff in Hm.
      exists rs. eexists _, _, _. split; [exact Hr|]. split; [apply sq_answers_iff; split; [exact Hrl|split; reflexivity]|].
      split; [eexists; split; [exact Hm|reflexivity]|]. auto.
    + rewrite sq_verify_len in H by exact Hl. discriminate.
  - intros (rs & As & Z & q & Hr & Ha & (msgs & Hm & ->) & Ho & ->).
    apply sq_answers_iff in Ha as (Hl & -> & ->). rewrite (sq_verify_eq p rs) by assumption. cbv zeta.
    apply absorbed_iff in Hm. rewrite Hm. cbn [bind]. rewrite Ho, (s_eqb_refl L). reflexivity.
Qed.

Lemma sq_verify_total (p : SumOfSquaresProof E) cs z (K : PublicKey E) t :
  ser_total E -> exists res t', SumOfSquaresProof_verify p cs z K t = Ret (res, t').
Proof.
  intros Ht. destruct (Nat.eq_dec (List.length (sq_ciphertext_responses p)) (List.length cs * 2)) as [Hl|Hl].
  - destruct (sq_flat_exists _ _ Hl) as (rs & Hr & Hrl). rewrite (sq_verify_eq p rs) by assumption. cbv zeta.
    match goal with |- context [mapM (absorb1 E) ?l] => destruct (absorbed_total E L l Ht) as [m Hm] end.
    apply absorbed_iff in Hm. rewrite Hm. cbn. eauto.
  - rewrite sq_verify_len by exact Hl. eauto.
Qed.

(** *** prover *)
Fixpoint sq_draw (n : nat) (r : Rng E) : list (scalar * scalar) * Rng E :=
  match n with
  | O => ([], r)
  | S n' =>
      let '(er, r) := generate_scalar r in
      let '(ex, r) := generate_scalar r in
      let '(es, r) := sq_draw n' r in ((er, ex) :: es, r)
  end.

Lemma sq_draw_length n r : List.length (fst (sq_draw n r)) = n.
Proof.
  revert r; induction n as [|n IH]; intros r; cbn; [reflexivity|].
  destruct (generate_scalar r) as [er r1]. destruct (generate_scalar r1) as [ex r2].
  specialize (IH r2). destruct (sq_draw n r2) as [es r3]. cbn in *. congruence.
Qed.

Definition sq_nonce_commitments (K : element) (es : list (scalar * scalar)) : list (element * element) :=
  map (fun p : scalar * scalar => ((generator * fst p)%E, (generator * snd p + K * fst p)%E)) es.

Fixpoint sq_rsum (cts : list (CiphertextWithValue E scalar)) (s : scalar) : scalar :=
  match cts with
  | [] => s
  | c :: cts' => sq_rsum cts' (s + cwv_randomness c * - cwv_value c)%S
  end.

Definition sq_triple (p : CiphertextWithValue E scalar * (scalar * scalar)) : CiphertextWithValue E scalar * scalar * scalar :=
  (fst p, fst (snd p), snd (snd p)).

Lemma sq_commit_eq (K : PublicKey E) cts s t r :
  sq_commit K cts s t r =
  (let '(es, r') := sq_draw (List.length cts) r in
   msgs <- mapM (absorb1 E) (flat_map sq_ct_items (combine (map cwv_inner cts) (sq_nonce_commitments (pk_element K) es))) ;;
   Ret (map sq_triple (combine cts es), sq_rsum cts s, t ++ msgs, r')).
Proof.
  revert s t r; induction cts as [|c cts IH]; intros s t r.
  - cbn. rewrite app_nil_r. reflexivity.
  - cbn [sq_commit sq_draw List.length]. unfold SecretKey_generate at 1.
    destruct (generate_scalar r) as [er r1] eqn:Hr1. unfold SecretKey_generate.
    destruct (generate_scalar r1) as [ex r2] eqn:Hr2.
    rewrite !(mul_generator_ok E L).
    destruct (sq_draw (List.length cts) r2) as [es r3] eqn:Hd.
    cbn [map combine sq_nonce_commitments flat_map sq_ct_items app fst snd].
    do 4 (rewrite absorb_cons; rewrite append_element_absorb;
      match goal with |- context [bind (absorb1 E ?x) _] => destruct (absorb1 E x); cbn [bind]; [|reflexivity] end).
    rewrite IH, Hd.
    change (map (fun p : scalar * scalar => ((generator * fst p)%E, (generator * snd p + pk_element K * fst p)%E)) es)
      with (sq_nonce_commitments (pk_element K) es).
    match goal with |- context [mapM (absorb1 E) ?l] => destruct (mapM (absorb1 E) l) end; cbn [bind]; [|reflexivity].
    rewrite <- !app_assoc. reflexivity.
Qed.

Lemma sq_new_sum_eq (A : element) (els : list element) (es : list (scalar * scalar)) (ez : scalar) :
  List.length es = List.length els ->
  multi_mul (map snd es ++ [ez]) (els ++ [A]) = Ret (esum (combine els (map snd es)) + A * ez)%E.
Proof.
  intros Hl. rewrite (multi_mul_ok E L) by (rewrite !app_length, map_length; cbn; lia).
  f_equal. rewrite (lin_comb_app L) by (rewrite map_length; exact Hl). rewrite lin_comb_esum.
  cbn [lin_comb]. el_ring L.
Qed.

Lemma triple_snd (cts : list (CiphertextWithValue E scalar)) es :
  List.length es = List.length cts ->
  map (fun p => snd p) (map sq_triple (combine cts es)) = map snd es.
Proof.
  revert es; induction cts as [|c cts IH]; intros [|e es] H; try discriminate; [reflexivity|].
  cbn. f_equal. apply IH. cbn in H; lia.
Qed.

Lemma triple_fst {A : Type} (f : CiphertextWithValue E scalar -> A) cts es :
  List.length es = List.length cts ->
  map (fun p => f (fst (fst p))) (map sq_triple (combine cts es)) = map f cts.
Proof.
  revert es; induction cts as [|c cts IH]; intros [|e es] H; try discriminate; [reflexivity|].
  cbn. f_equal. apply IH. cbn in H; lia.
Qed.

Definition sq_responses (c : scalar) (cts : list (CiphertextWithValue E scalar)) (es : list (scalar * scalar)) :=
  map (fun p : CiphertextWithValue E scalar * (scalar * scalar) =>
    ((c * cwv_randomness (fst p) + fst (snd p))%S, (c * cwv_value (fst p) + snd (snd p))%S)) (combine cts es).

Lemma sq_new_eq cts (z : CiphertextWithValue E scalar) (K : PublicKey E) t r :
  SumOfSquaresProof_new cts z K t r =
  (let '(ez, r1) := generate_scalar r in
   let '(es, r2) := sq_draw (List.length cts) r1 in
   let cs := map cwv_inner cts in
   msgs <- mapM (absorb1 E) (sq_items cs (cwv_inner z) (sq_nonce_commitments (pk_element K) es)
     ((esum (combine (map random_element cs) (map snd es)) + generator * ez)%E,
      (esum (combine (map blinded_element cs) (map snd es)) + pk_element K * ez)%E)) ;;
   let q := t ++ [TMsg "dom-sep" (str_bytes "sum_of_squares"); TMsg "K" (pk_bytes K)] ++ msgs in
   let c := oracle q "c" in
   Ret ({| sq_challenge := c; sq_ciphertext_responses := sq_flat (sq_responses c cts es);
           sq_sum_response := (c * sq_rsum cts (cwv_randomness z) + ez)%S |}, q ++ [TChal "c"], r2)).
Proof.
  unfold SumOfSquaresProof_new, SecretKey_generate. cbv zeta.
  destruct (generate_scalar r) as [ez r1]. rewrite sq_commit_eq.
  pose proof (sq_draw_length (List.length cts) r1) as Hl.
  destruct (sq_draw (List.length cts) r1) as [es r2]. cbn [fst] in Hl.
  rewrite sq_items_eq, mapM_app. cbn [fst snd].
  destruct (mapM (absorb1 E) (flat_map _ _)) as [m1|]; cbn [bind]; [|reflexivity].
  rewrite triple_snd by exact Hl.
  rewrite (triple_fst (fun c => random_element (cwv_inner c))) by exact Hl.
  rewrite (triple_fst (fun c => blinded_element (cwv_inner c))) by exact Hl.
  rewrite <- (map_map cwv_inner random_element), <- (map_map cwv_inner blinded_element).
  rewrite !sq_new_sum_eq by (rewrite !map_length; exact Hl). cbn [bind].
  do 4 (rewrite absorb_cons; rewrite append_element_absorb;
    match goal with |- context [bind (absorb1 E ?x) _] => destruct (absorb1 E x); cbn [bind]; [|reflexivity] end).
  rewrite absorb_nil. unfold challenge_scalar, sq_initialize_transcript, start_proof, append_element_bytes, append_message.
  rewrite <- !app_assoc. cbn [app].
  match goal with |- context [oracle ?q "c"] => generalize (oracle (e:=E) q "c") end. intros c.
  do 4 f_equal.
  - unfold sq_flat, sq_responses. rewrite flat_map_concat_map, (flat_map_concat_map _ (map _ (combine cts es))). f_equal.
    rewrite !map_map. apply map_ext. intros [x [u v]]. reflexivity.
Qed.

(** value part of the sums, by induction over the ciphertexts *)
Lemma sq_rsum_shift cts s : sq_rsum cts s = (s + sq_rsum cts 0)%S.
Proof.
  revert s; induction cts as [|c cts IH]; intros s; cbn; [ring|].
  rewrite IH, (IH (0 + _)%S). ring.
Qed.

Lemma sq_complete_sums (K : PublicKey E) cts es c :
  List.length es = List.length cts ->
  Forall (fun ct => encrypts K (cwv_inner ct) (generator * cwv_value ct)%E (cwv_randomness ct)) cts ->
  let cs := map cwv_inner cts in
  (esum (combine (map random_element cs) (map snd (sq_responses c cts es))) =
   esum (combine (map random_element cs) (map snd es)) - generator * (c * sq_rsum cts 0))%E /\
  (esum (combine (map blinded_element cs) (map snd (sq_responses c cts es))) =
   esum (combine (map blinded_element cs) (map snd es)) - pk_element K * (c * sq_rsum cts 0)
     + generator * (c * sum_sq (map cwv_value cts)))%E.
Proof.
  intros Hl Hc. revert es Hl; induction Hc as [|ct cts [H1 H2] _ IH]; intros [|[er ex] es] Hl; try discriminate.
  - cbn. split; el_ring L.
  - destruct (IH es) as [I1 I2]; [cbn in Hl; lia|]. clear IH.
    cbn [map combine esum sq_responses fst snd sq_rsum sum_sq]. cbv zeta in I1, I2.
    unfold sq_responses in I1, I2. rewrite I1, I2, (sq_rsum_shift cts (0 + _)%S), H1, H2.
    split; el_ring L.
Qed.

Lemma sq_complete_commitments (K : PublicKey E) cts es c :
  List.length es = List.length cts ->
  Forall (fun ct => encrypts K (cwv_inner ct) (generator * cwv_value ct)%E (cwv_randomness ct)) cts ->
  sq_nonce_commitments (pk_element K) es =
  sq_recommitments (pk_element K) c (map cwv_inner cts) (sq_responses c cts es).
Proof.
  intros Hl Hc. revert es Hl; induction Hc as [|ct cts [H1 H2] _ IH]; intros [|[er ex] es] Hl; try discriminate.
  - reflexivity.
  - unfold sq_nonce_commitments, sq_recommitments, sq_responses in *. cbn [map combine fst snd].
    rewrite <- IH by (cbn in Hl; lia). f_equal. rewrite H1, H2. f_equal; el_ring L.
Qed.

Lemma sq_complete cts (z : CiphertextWithValue E scalar) (K : PublicKey E) t r p t' r' :
  Forall (fun ct => encrypts K (cwv_inner ct) (generator * cwv_value ct)%E (cwv_randomness ct)) cts ->
  encrypts K (cwv_inner z) (generator * cwv_value z)%E (cwv_randomness z) ->
  cwv_value z = sum_sq (map cwv_value cts) ->
  SumOfSquaresProof_new cts z K t r = Ret (p, t', r') ->
  SumOfSquaresProof_verify p (map cwv_inner cts) (cwv_inner z) K t = Ret (Ok tt, t').
Proof.
  intros Hc [Hz1 Hz2] Hz. rewrite sq_new_eq.
  destruct (generate_scalar r) as [ez r1]. pose proof (sq_draw_length (List.length cts) r1) as Hl.
  destruct (sq_draw (List.length cts) r1) as [es r2]. cbn [fst] in Hl. cbv zeta. intros H. inv_bind H.
  injection H as <- <- <-. apply absorbed_iff in Hm. apply sq_verify_ok_iff.
  cbn [sq_ciphertext_responses sq_challenge sq_sum_response].
  eexists _, _, _, _. split; [reflexivity|].
  split; [|split; [eexists; split; [exact Hm|reflexivity]|split; reflexivity]].
  match goal with |- context [oracle ?q "c"] => generalize (oracle (e:=E) q "c") end. intros c.
  apply sq_answers_iff. split; [unfold sq_responses; rewrite !map_length, combine_length, Hl; lia|].
  split; [apply sq_complete_commitments; assumption|].
  unfold sq_sum_commitment. destruct (sq_complete_sums K cts es c Hl Hc) as [H1 H2]. cbv zeta in H1, H2.
  rewrite H1, H2, Hz1, Hz2, Hz, (sq_rsum_shift cts (cwv_randomness z)). f_equal; el_ring L.
Qed.

Lemma sq_new_total cts (z : CiphertextWithValue E scalar) (K : PublicKey E) t r :
  ser_total E -> exists p t' r', SumOfSquaresProof_new cts z K t r = Ret (p, t', r').
Proof.
  intros Ht. rewrite sq_new_eq. destruct (generate_scalar r) as [ez r1].
  destruct (sq_draw (List.length cts) r1) as [es r2]. cbv zeta.
  match goal with |- context [mapM (absorb1 E) ?l] => destruct (absorbed_total E L l Ht) as [m Hm] end.
  apply absorbed_iff in Hm. rewrite Hm. cbn. eauto 10.
Qed.

(** *** knowledge soundness *)
Definition sq_xs (c c' : scalar) (rs rs' : list (scalar * scalar)) : list scalar :=
  map (fun p : (scalar * scalar) * (scalar * scalar) =>
    ((snd (fst p) - snd (snd p)) * s_inv L (c - c'))%S) (combine rs rs').

Lemma sq_extract_cts (K : PublicKey E) cs c c' rs rs' :
  c <> c' -> List.length rs = List.length cs -> List.length rs' = List.length cs ->
  sq_recommitments (pk_element K) c cs rs = sq_recommitments (pk_element K) c' cs rs' ->
  Forall2 (fun ct x => exists r, encrypts K ct (generator * x)%E r) cs (sq_xs c c' rs rs') /\
  exists s,
    (esum (combine (map random_element cs) (map snd rs)) =
     esum (combine (map random_element cs) (map snd rs')) + generator * (s * (c - c')))%E /\
    (esum (combine (map blinded_element cs) (map snd rs)) =
     esum (combine (map blinded_element cs) (map snd rs')) + pk_element K * (s * (c - c'))
       + generator * (sum_sq (sq_xs c c' rs rs') * (c - c')))%E.
Proof.
  intros Hc. pose proof (s_sub_neq_0 L _ _ Hc) as Hn.
  revert rs rs'; induction cs as [|ct cs IH]; intros [|[sr sx] rs] [|[sr' sx'] rs'] Hl Hl' H; try discriminate.
  - split; [constructor|]. exists 0%S. cbn. split; el_ring L.
  - unfold sq_recommitments in H. cbn [combine map] in H. injection H as H1 H2 H.
    destruct (IH rs rs') as (I1 & s & I2 & I3); [cbn in Hl; lia | cbn in Hl'; lia | exact H |]. clear IH.
    apply (f_equal (dlog L)) in H1, H2. dlog_simpl_in L H1. dlog_simpl_in L H2.
    assert (HR : dlog L (random_element ct) = ((sr - sr') * s_inv L (c - c'))%S).
    { apply (s_mul_cancel_r L _ _ (c - c')%S Hn).
      transitivity (sr - sr')%S; [|field; exact Hn].
      transitivity (1 * sr - (1 * sr - dlog L (random_element ct) * c) - dlog L (random_element ct) * c')%S; [ring|].
      rewrite H1. ring. }
    assert (HB : dlog L (blinded_element ct) = ((sx - sx') * s_inv L (c - c')
                   + dlog L (pk_element K) * ((sr - sr') * s_inv L (c - c')))%S).
    { apply (s_mul_cancel_r L _ _ (c - c')%S Hn).
      transitivity ((sx - sx') + dlog L (pk_element K) * (sr - sr'))%S; [|field; exact Hn].
      transitivity ((1 * sx + dlog L (pk_element K) * sr)
        - (1 * sx + dlog L (pk_element K) * sr - dlog L (blinded_element ct) * c) - dlog L (blinded_element ct) * c')%S; [ring|].
      rewrite H2. ring. }
    split.
    + unfold sq_xs. cbn [combine map fst snd]. constructor; [|exact I1].
      exists ((sr - sr') * s_inv L (c - c'))%S. split; apply (dlog_inj L); dlog_simpl L; [rewrite HR|rewrite HB]; ring.
    + exists (s + ((sr - sr') * s_inv L (c - c')) * ((sx - sx') * s_inv L (c - c')))%S.
      unfold sq_xs in *. cbn [combine map fst snd esum sum_sq]. rewrite I2, I3.
      split; apply (dlog_inj L); dlog_simpl L; [rewrite HR|rewrite HB]; field; exact Hn.
Qed.

Lemma sq_extract (K : PublicKey E) cs z As Z c c' rs rs' sz sz' :
  sq_answers (pk_element K) cs z As Z c rs sz -> sq_answers (pk_element K) cs z As Z c' rs' sz' -> c <> c' ->
  sq_statement K cs z (sq_xs c c' rs rs').
Proof.
  intros Ha Ha' Hc. pose proof (s_sub_neq_0 L _ _ Hc) as Hn.
  apply sq_answers_iff in Ha as (Hl & -> & ->). apply sq_answers_iff in Ha' as (Hl' & HA & HZ).
  destruct (sq_extract_cts K cs c c' rs rs' Hc Hl Hl' HA) as (H1 & s & H2 & H3).
  split; [exact H1|]. injection HZ as HZ1 HZ2. unfold sq_sum_commitment in HZ1, HZ2.
  rewrite H2 in HZ1. rewrite H3 in HZ2.
  apply (f_equal (dlog L)) in HZ1, HZ2. dlog_simpl_in L HZ1. dlog_simpl_in L HZ2.
  set (e1 := dlog L (esum (combine (map random_element cs) (map snd rs')))) in *.
  set (e2 := dlog L (esum (combine (map blinded_element cs) (map snd rs')))) in *.
  exists (s + (sz - sz') * s_inv L (c - c'))%S. split; apply (dlog_inj L); dlog_simpl L;
    apply (s_mul_cancel_r L _ _ (c - c')%S Hn).
  - transitivity (s * (c - c') + (sz - sz'))%S; [|field; exact Hn].
    transitivity (e1 + 1 * (s * (c - c')) + 1 * sz
      - (e1 + 1 * (s * (c - c')) + 1 * sz - dlog L (random_element z) * c)
      - dlog L (random_element z) * c')%S; [ring|].
    rewrite HZ1. ring.
  - transitivity (1 * (sum_sq (sq_xs c c' rs rs') * (c - c')) + dlog L (pk_element K) * (s * (c - c') + (sz - sz')))%S;
      [|field; exact Hn].
    transitivity (e2 + dlog L (pk_element K) * (s * (c - c')) + 1 * (sum_sq (sq_xs c c' rs rs') * (c - c'))
        + dlog L (pk_element K) * sz
      - (e2 + dlog L (pk_element K) * (s * (c - c')) + 1 * (sum_sq (sq_xs c c' rs rs') * (c - c'))
         + dlog L (pk_element K) * sz - dlog L (blinded_element z) * c)
      - dlog L (blinded_element z) * c')%S; [ring|].
    rewrite HZ2. ring.
Qed.

Lemma sq_unique_challenge (K : PublicKey E) cs z As Z c c' rs rs' sz sz' :
  (forall xs, ~ sq_statement K cs z xs) ->
  sq_answers (pk_element K) cs z As Z c rs sz -> sq_answers (pk_element K) cs z As Z c' rs' sz' -> c = c'.
Proof.
  intros Hns Ha Ha'. destruct (s_eq_dec L c c') as [|Hc]; [assumption|].
  destruct (Hns _ (sq_extract _ _ _ _ _ _ _ _ _ _ _ Ha Ha' Hc)).
Qed.

(** the statement in terms of decryptions *)
Lemma sq_statement_decrypt (sk : SecretKey E) (K : PublicKey E) cs z xs :
  key_of sk K -> sq_statement K cs z xs ->
  map (decrypt_to_element sk) cs = map (fun x => generator * x)%E xs /\
  decrypt_to_element sk z = (generator * sum_sq xs)%E.
Proof.
  intros Hk [H1 [r Hz]]. split.
  - clear r Hz. induction H1 as [|c x cs xs [rc Hc] _ IH]; [reflexivity|]. cbn. f_equal; [|exact IH].
    eapply (encrypts_decrypt E L); eassumption.
  - eapply (encrypts_decrypt E L); eassumption.
Qed.

(** if the decryptions do not satisfy the relation, the statement is false *)
Lemma sq_statement_iff (sk : SecretKey E) (K : PublicKey E) cs z :
  key_of sk K ->
  ((exists xs, sq_statement K cs z xs) <->
   exists xs, map (decrypt_to_element sk) cs = map (fun x => generator * x)%E xs /\
     decrypt_to_element sk z = (generator * sum_sq xs)%E).
Proof.
  intros Hk. split; [intros [xs H]; exists xs; eapply sq_statement_decrypt; eassumption|].
  intros (xs & H1 & H2). exists xs. split.
  - clear H2. revert xs H1; induction cs as [|c cs IH]; intros [|x xs] H1; try discriminate; constructor.
    + cbn in H1. injection H1 as H1 _. pose proof (encrypts_exists E L sk K c Hk) as Hr.
      eexists. rewrite <- H1. exact Hr.
    + cbn in H1. injection H1 as _ H1. apply IH. exact H1.
  - pose proof (encrypts_exists E L sk K z Hk) as Hr. eexists. rewrite <- H2. exact Hr.
Qed.

(** *** binding *)
Lemma sq_verify_query (p : SumOfSquaresProof E) cs z (K : PublicKey E) t res tf :
  List.length (sq_ciphertext_responses p) = (List.length cs * 2)%nat ->
  SumOfSquaresProof_verify p cs z K t = Ret (res, tf) ->
  exists rs As Z q,
    sq_ciphertext_responses p = sq_flat rs /\
    sq_answers (pk_element K) cs z As Z (sq_challenge p) rs (sq_sum_response p) /\
    sq_hashed t K cs z As Z q /\ tf = q ++ [TChal "c"].
Proof.
  intros Hl H. destruct (sq_flat_exists _ _ Hl) as (rs & Hr & Hrl). rewrite (sq_verify_eq p rs) in H by assumption.
  cbv zeta in H. inv_bind H. injection H as _ <-. apply absorbed_iff in Hm.
  exists rs. eexists _, _, _. split; [exact Hr|]. split; [apply sq_answers_iff; split; [exact Hrl|split; reflexivity]|].
  split; [eexists; split; [exact Hm|reflexivity]|reflexivity].
Qed.

Lemma sq_items_inj cs z As Z cs' z' As' Z' :
  List.length As = List.length cs -> List.length As' = List.length cs' ->
  sq_items (E:=E) cs z As Z = sq_items cs' z' As' Z' -> cs = cs' /\ z = z' /\ As = As' /\ Z = Z'.
Proof.
  rewrite !sq_items_eq. revert As cs' As'.
  induction cs as [|c cs IH]; intros [|[a b] As] [|c' cs'] [|[a' b'] As'] Hl Hl' H; try discriminate.
  - cbn in H. injection H as H1 H2 H3 H4. destruct z, z', Z, Z'; cbn in *. subst. auto.
  - cbn in H. injection H as H1 H2 H3 H4 H. destruct (IH As cs' As') as (-> & -> & -> & ->);
      [cbn in Hl; lia | cbn in Hl'; lia | exact H|]. destruct c, c'; cbn in *. subst. auto.
Qed.

Lemma sq_hashed_inj t (K : PublicKey E) cs z As Z t' (K' : PublicKey E) cs' z' As' Z' q :
  List.length As = List.length cs -> List.length As' = List.length cs' ->
  sq_hashed t K cs z As Z q -> sq_hashed t' K' cs' z' As' Z' q ->
  t = t' /\ pk_bytes K = pk_bytes K' /\ cs = cs' /\ z = z' /\ As = As' /\ Z = Z'.
Proof.
  intros Hl Hl' (m & Hm & ->) (m' & Hm' & Hq).
  set (P := fun ev => exists l b, ev = TMsg l b /\ l <> "K").
  assert (HP : forall cs z As Z m, absorbed (sq_items (E:=E) cs z As Z) m -> Forall P m).
  { clear. intros cs z As Z m Hm. apply (absorbed_labels _ _ _ (fun l => l <> "K") Hm).
    rewrite sq_items_eq. apply Forall_app. split.
    - rewrite Forall_forall. intros it Hin. apply in_flat_map in Hin as ([ct [a b]] & _ & Hin).
      cbn in Hin. destruct Hin as [<-|[<-|[<-|[<-|[]]]]]; cbn; discriminate.
    - repeat constructor; cbn; discriminate. }
  cbn [app] in Hq.
  change (t ++ TMsg "dom-sep" (str_bytes "sum_of_squares") :: TMsg "K" (pk_bytes K) :: m)
    with (t ++ [TMsg "dom-sep" (str_bytes "sum_of_squares")] ++ TMsg "K" (pk_bytes K) :: m) in Hq.
  change (t' ++ TMsg "dom-sep" (str_bytes "sum_of_squares") :: TMsg "K" (pk_bytes K') :: m')
    with (t' ++ [TMsg "dom-sep" (str_bytes "sum_of_squares")] ++ TMsg "K" (pk_bytes K') :: m') in Hq.
  rewrite !app_assoc in Hq. apply (suffix_split P) in Hq.
  - destruct Hq as (Ht & HK & ->). injection HK as HK. apply snoc_inj in Ht as [-> _].
    pose proof (absorbed_inj E L _ _ _ Hm Hm') as Hi.
    destruct (sq_items_inj _ _ _ _ _ _ _ _ Hl Hl' Hi) as (-> & -> & -> & ->). auto 10.
  - eapply HP; eassumption.
  - eapply HP; eassumption.
  - intros (l & b & Heq & Hne). injection Heq as <- _. apply Hne. reflexivity.
  - intros (l & b & Heq & Hne). injection Heq as <- _. apply Hne. reflexivity.
Qed.

Lemma sq_answers_length (K : element) cs z As Z c rs sz :
  sq_answers (E:=E) K cs z As Z c rs sz -> List.length As = List.length cs.
Proof.
  intros (Hl & -> & _). rewrite map_length, combine_length. lia.
Qed.

Lemma sq_binding (p p' : SumOfSquaresProof E) cs cs' z z' (K K' : PublicKey E) t t' res res' tf :
  List.length (sq_ciphertext_responses p) = (List.length cs * 2)%nat ->
  List.length (sq_ciphertext_responses p') = (List.length cs' * 2)%nat ->
  SumOfSquaresProof_verify p cs z K t = Ret (res, tf) ->
  SumOfSquaresProof_verify p' cs' z' K' t' = Ret (res', tf) ->
  t = t' /\ pk_bytes K = pk_bytes K' /\ cs = cs' /\ z = z' /\
  exists As Z rs rs',
    sq_ciphertext_responses p = sq_flat rs /\ sq_ciphertext_responses p' = sq_flat rs' /\
    sq_answers (pk_element K) cs z As Z (sq_challenge p) rs (sq_sum_response p) /\
    sq_answers (pk_element K') cs z As Z (sq_challenge p') rs' (sq_sum_response p').
Proof.
  intros Hl Hl' H H'. apply sq_verify_query in H as (rs & As & Z & q & Hr & Ha & Hh & ->); [|exact Hl].
  apply sq_verify_query in H' as (rs' & As' & Z' & q' & Hr' & Ha' & Hh' & Hq); [|exact Hl'].
  apply snoc_inj in Hq as [<- _].
  destruct (sq_hashed_inj _ _ _ _ _ _ _ _ _ _ _ _ _ (sq_answers_length _ _ _ _ _ _ _ _ Ha)
              (sq_answers_length _ _ _ _ _ _ _ _ Ha') Hh Hh') as (-> & HK & -> & -> & -> & ->).
  repeat (split; [first [reflexivity | exact HK]|]). exists As', Z', rs, rs'. auto.
Qed.

Lemma sq_sound (p : SumOfSquaresProof E) cs z (K : PublicKey E) t t' :
  SumOfSquaresProof_verify p cs z K t = Ret (Ok tt, t') ->
  (forall xs, ~ sq_statement K cs z xs) ->
  exists As Z q, sq_hashed t K cs z As Z q /\ t' = q ++ [TChal "c"] /\
    (exists rs sz, sq_answers (pk_element K) cs z As Z (oracle q "c") rs sz) /\
    forall c rs sz, sq_answers (pk_element K) cs z As Z c rs sz -> oracle q "c" = c.
Proof.
  intros H Hns. apply sq_verify_ok_iff in H as (rs & As & Z & q & Hr & Ha & Hh & Ho & ->).
  exists As, Z, q. split; [exact Hh|]. split; [reflexivity|]. rewrite Ho. split; [eauto|]. intros c rs' sz Ha'.
  eapply sq_unique_challenge; eassumption.
Qed.

End Proofs.
