(** * Proofs about threshold encryption (C29-C35) *)
From Coq Require Import List NArith ZArith Field Lia Bool String Arith.
From Coq Require FinFun.
From Verif.Model Require Import Base Group Transcript Keys Encryption LogEquality Possession Sharing.
From Verif.Spec Require Import Encryption LogEquality Possession Sharing.
From Verif.Proofs Require Import Algebra Lists Encryption LogEquality Possession Poly Ring.
Import ListNotations.
Open Scope string_scope.
Open Scope list_scope.
Open Scope nat_scope.

Section Proofs.
Context (E : Env) (L : GroupLaws E) (Hbig : (2 ^ 64 <= order L)%Z).
Local Notation scalar := (Scalar E).
Local Notation element := (Element E).
Add Field s_field_sharing : (s_field L).

Definition usize (n : nat) : Prop := (N.of_nat n < 2 ^ 64)%N.

(** ** nodes *)
Lemma usize_phi n : usize n -> scalar_of_usize (E:=E) n = phi L (Z.of_nat n).
Proof. intros H. unfold scalar_of_usize. rewrite (of_u64_phi E L) by exact H. f_equal. lia. Qed.

Lemma node_phi i : usize (i + 1) -> node (G:=E) i = phi L (Z.of_nat (i + 1)).
Proof. intros H. exact (usize_phi (i + 1) H). Qed.

Lemma phi_small_neq_0 z : (0 < z < 2 ^ 64)%Z -> phi L z <> (0%S : scalar).
Proof.
  intros H Hc. rewrite <- (phi_0 L) in Hc. apply (phi_inj_small L) in Hc; lia.
Qed.

Lemma node_neq_0 i : usize (i + 1) -> node (G:=E) i <> 0%S.
Proof. intros H. rewrite node_phi by exact H. apply phi_small_neq_0. unfold usize in H. lia. Qed.

Lemma node_inj i j : usize (i + 1) -> usize (j + 1) -> node (G:=E) i = node j -> i = j.
Proof.
  intros Hi Hj H. rewrite !node_phi in H by assumption. unfold usize in *.
  apply (phi_inj_small L) in H; lia.
Qed.

Lemma usize_of_sub a b : usize a -> b <= a ->
  scalar_of_usize (E:=E) (a - b) = (scalar_of_usize a - scalar_of_usize b)%S.
Proof.
  intros Ha Hb. rewrite !usize_phi by (unfold usize in *; lia). rewrite <- (phi_sub L). f_equal. lia.
Qed.

(** ** Lagrange denominators *)
Definition signed (x : bool * scalar) : scalar := if fst x then (- snd x)%S else snd x.

Lemma factor_value i j : usize (i + 1) -> usize (j + 1) ->
  signed (lagrange_factor i j) = if j =? i then node i else (node j - node i)%S.
Proof.
  intros Hi Hj. unfold lagrange_factor, signed. destruct (Nat.compare_spec i j) as [->|H|H]; cbn [fst snd].
  - rewrite Nat.eqb_refl. reflexivity.
  - replace (j =? i) with false by (symmetry; apply Nat.eqb_neq; lia).
    replace (j - i) with ((j + 1) - (i + 1)) by lia. apply usize_of_sub; [assumption|lia].
  - replace (j =? i) with false by (symmetry; apply Nat.eqb_neq; lia).
    replace (i - j) with ((i + 1) - (j + 1)) by lia. rewrite usize_of_sub by (assumption || lia).
    unfold node, scalar_of_usize. ring.
Qed.

Lemma fold_signed l : forall acc,
  signed (fold_left (fun (acc elem : bool * scalar) => (xorb (fst acc) (fst elem), (snd acc * snd elem)%S)) l acc)
  = (signed acc * s_prod (map signed l))%S.
Proof.
  induction l as [|x l IH]; intros acc; cbn [fold_left map].
  - unfold s_prod; cbn. ring.
  - rewrite IH, s_prod_cons. unfold signed. cbn [fst snd].
    destruct (fst acc), (fst x); cbn [xorb]; ring.
Qed.

Lemma denominator_value is_ i : usize (i + 1) -> (forall j, In j is_ -> usize (j + 1)) ->
  lagrange_denominator (E:=E) is_ i =
  s_prod (map (fun j => if j =? i then node i else (node j - node i)%S) is_).
Proof.
  intros Hi Hj. unfold lagrange_denominator.
  pose proof (fold_signed (map (lagrange_factor (E:=E) i) is_) (false, 1%S)) as H.
  destruct (fold_left _ _ _) as [b a]. unfold signed in H at 1. cbn [fst snd] in H. rewrite H.
  unfold signed at 1. cbn [fst snd]. rewrite map_map.
  rewrite (map_ext_in _ (fun j => if j =? i then node (G:=E) i else (node j - node i)%S)).
  - ring.
  - intros j Hin. apply factor_value; auto.
Qed.

Lemma denominator_neq_0 is_ i : usize (i + 1) -> (forall j, In j is_ -> usize (j + 1)) ->
  lagrange_denominator (E:=E) is_ i <> 0%S.
Proof.
  intros Hi Hj. rewrite denominator_value by assumption. apply (s_prod_neq_0 L).
  intros x Hx. apply in_map_iff in Hx. destruct Hx as (j & <- & Hin).
  destruct (j =? i) eqn:Hji; [apply node_neq_0; exact Hi|].
  apply (s_sub_neq_0 L). intros Hc. apply node_inj in Hc; auto. apply Nat.eqb_neq in Hji. contradiction.
Qed.

Lemma denominator_nodup is_ i : NoDup is_ -> In i is_ -> (forall j, In j is_ -> usize (j + 1)) ->
  lagrange_denominator (E:=E) is_ i = (node i * lag_den node is_ i)%S.
Proof.
  intros Hn Hin Hj. rewrite denominator_value by auto. rewrite (s_prod_others L _ i is_ Hn Hin).
  rewrite Nat.eqb_refl. unfold lag_den. f_equal. f_equal. apply map_ext_in.
  intros j Hjo. apply in_others in Hjo. destruct Hjo as [_ Hne].
  replace (j =? i) with false by (symmetry; apply Nat.eqb_neq; exact Hne). reflexivity.
Qed.

Lemma coefficients_eq is_ : (forall j, In j is_ -> usize (j + 1)) ->
  lagrange_coefficients (E:=E) is_ =
  Ret (map (fun i => s_inv L (lagrange_denominator is_ i)) is_, s_prod (map node is_)).
Proof.
  intros Hj. unfold lagrange_coefficients. rewrite (invert_scalars_ok E L).
  - cbn [bind]. rewrite map_map, (fold_left_prod L). f_equal. f_equal. unfold node, scalar_of_usize. ring.
  - intros s Hs. apply in_map_iff in Hs. destruct Hs as (i & <- & Hin). apply denominator_neq_0; auto.
Qed.

(** ** sums *)
Lemma s_dot_map {A : Type} (f g : A -> scalar) l :
  s_dot (map f l) (map g l) = s_sum (map (fun i => (g i * f i)%S) l).
Proof. induction l as [|x l IH]; cbn [map s_dot]; [reflexivity|]. rewrite IH, s_sum_cons. reflexivity. Qed.

Lemma s_sum_scale {A : Type} (k : scalar) (h : A -> scalar) l :
  s_sum (map (fun i => (k * h i)%S) l) = (k * s_sum (map h l))%S.
Proof.
  induction l as [|x l IH]; cbn [map].
  - unfold s_sum; cbn. ring.
  - rewrite !s_sum_cons, IH. ring.
Qed.

(** scale times inverse denominator is the Lagrange basis polynomial at 0 *)
Lemma coefficient_basis is_ i : NoDup is_ -> In i is_ -> (forall j, In j is_ -> usize (j + 1)) ->
  (s_inv L (lagrange_denominator is_ i) * s_prod (map node is_))%S = lag_basis L node is_ i 0%S.
Proof.
  intros Hn Hin Hj. rewrite denominator_nodup by assumption.
  rewrite (s_prod_others L node i is_ Hn Hin). unfold lag_basis, lag_num.
  rewrite (map_ext (fun j => node (G:=E) j - 0)%S node) by (intros j; ring).
  assert (H1 := node_neq_0 i (Hj i Hin)).
  assert (H2 : lag_den (node (G:=E)) is_ i <> 0%S).
  { apply (lag_den_neq_0 L); [|exact Hin]. intros a b Ha Hb. apply node_inj; auto. }
  field. auto.
Qed.

(** [sum_i  D_i / den_i] scaled, where [D_i = R * p(i+1)], is [R * p(0)] *)
Lemma interpolate_zero is_ (R : element) (p : list scalar) :
  NoDup is_ -> (forall j, In j is_ -> usize (j + 1)) -> List.length p <= List.length is_ ->
  (lin_comb (map (fun i => s_inv L (lagrange_denominator is_ i)) is_)
            (map (fun i => (R * peval p (node i))%E) is_) * s_prod (map node is_))%E
  = (R * peval p 0%S)%E.
Proof.
  intros Hn Hj Hlen. apply (dlog_inj L). rewrite !(dlog_mul L), (dlog_lin_comb L), map_map.
  rewrite (map_ext (fun i => dlog L (R * peval p (node i))%E) (fun i => (dlog L R * peval p (node i))%S))
    by (intros i; apply (dlog_mul L)).
  rewrite s_dot_map.
  assert (Hinj : forall a b, In a is_ -> In b is_ -> node (G:=E) a = node b -> a = b)
    by (intros a b Ha Hb; apply node_inj; auto).
  rewrite (lagrange L node is_ Hn Hinj p 0%S Hlen).
  rewrite <- s_sum_scale. transitivity (s_prod (map (node (G:=E)) is_) *
    s_sum (map (fun i => dlog L R * peval p (node i) * s_inv L (lagrange_denominator is_ i))%S is_))%S; [ring|].
  rewrite <- s_sum_scale. f_equal. apply map_ext_in. intros i Hin.
  rewrite <- (coefficient_basis is_ i Hn Hin Hj). ring.
Qed.

(** ** combine_shares *)
Definition first_shares (params : Params) (shares : list (nat * VerifiableDecryption E)) :=
  firstn (pa_threshold params) shares.

Lemma combine_shares_short params shares :
  List.length shares < pa_threshold params -> combine_shares (E:=E) params shares = Ret None.
Proof.
  intros H. unfold combine_shares. rewrite map_length, firstn_length.
  replace (_ <? _) with true by (symmetry; apply Nat.ltb_lt; lia). reflexivity.
Qed.

Lemma combine_shares_out_of_bounds params shares i :
  pa_threshold params <= List.length shares ->
  In i (map fst (firstn (pa_threshold params) shares)) -> pa_shares params <= i ->
  combine_shares (E:=E) params shares = Panic PAssert.
Proof.
  intros Hl Hin Hi. unfold combine_shares. rewrite map_length, firstn_length.
  replace (_ <? _) with false by (symmetry; apply Nat.ltb_ge; lia).
  replace (forallb _ _) with false; [reflexivity|]. symmetry.
  apply not_true_is_false. intros Hc. rewrite forallb_forall in Hc. specialize (Hc i Hin).
  apply Nat.ltb_lt in Hc. lia.
Qed.

Lemma combine_shares_eq params shares :
  usize (pa_shares params) -> pa_threshold params <= List.length shares ->
  (forall i, In i (map fst (firstn (pa_threshold params) shares)) -> i < pa_shares params) ->
  let taken := firstn (pa_threshold params) shares in
  let is_ := map fst taken in
  combine_shares (E:=E) params shares =
  Ret (Some {| vd_dh_element :=
    (lin_comb (map (fun i => s_inv L (lagrange_denominator is_ i)) is_)
              (map (fun s => vd_dh_element (snd s)) taken) * s_prod (map node is_))%E |}).
Proof.
  intros Hn Hl Hi taken is_. unfold combine_shares. fold taken. rewrite map_length.
  replace (_ <? _) with false by (symmetry; apply Nat.ltb_ge; unfold taken; rewrite firstn_length; lia).
  fold is_. replace (forallb _ _) with true; cbn [assert bind].
  - rewrite coefficients_eq.
    + cbn [bind]. rewrite (vartime_multi_mul_ok E L); [reflexivity|]. unfold is_. rewrite !map_length. reflexivity.
    + intros j Hj. apply Hi in Hj. unfold usize in *. lia.
  - symmetry. apply forallb_forall. intros i Hin. apply Nat.ltb_lt. auto.
Qed.

Lemma combine_shares_correct params (p : list scalar) (c : Ciphertext E) taken rest :
  usize (pa_shares params) ->
  List.length p <= pa_threshold params -> List.length taken = pa_threshold params ->
  NoDup (map fst taken) ->
  (forall s, In s taken -> fst s < pa_shares params /\ valid_share p c s) ->
  combine_shares params (taken ++ rest) = Ret (Some {| vd_dh_element := (random_element c * peval p 0%S)%E |}).
Proof.
  intros Hn Hp Ht Hnd Hs.
  assert (Hf : firstn (pa_threshold params) (taken ++ rest) = taken).
  { rewrite <- Ht, firstn_app, Nat.sub_diag, firstn_all, app_nil_r. reflexivity. }
  rewrite combine_shares_eq.
  - rewrite Hf. do 3 f_equal.
    rewrite <- (interpolate_zero (map fst taken) (random_element c) p Hnd).
    + do 2 f_equal. rewrite map_map. apply map_ext_in. intros s Hin. exact (proj2 (Hs s Hin)).
    + intros j Hj. apply in_map_iff in Hj. destruct Hj as (s & <- & Hin).
      destruct (Hs s Hin) as [Hb _]. unfold usize in *. lia.
    + rewrite map_length. lia.
  - exact Hn.
  - rewrite app_length. lia.
  - rewrite Hf. intros i Hi. apply in_map_iff in Hi. destruct Hi as (s & <- & Hin). apply Hs. exact Hin.
Qed.

Lemma combine_shares_none_iff params shares :
  usize (pa_shares params) ->
  combine_shares (E:=E) params shares = Ret None <-> List.length shares < pa_threshold params.
Proof.
  intros Hn. split; [|apply combine_shares_short]. intros H.
  destruct (Nat.lt_ge_cases (List.length shares) (pa_threshold params)) as [Hlt|Hge]; [exact Hlt|]. exfalso.
  destruct (forallb (fun i => i <? pa_shares params) (map fst (firstn (pa_threshold params) shares))) eqn:Hb.
  - rewrite combine_shares_eq in H; [discriminate|assumption|assumption|].
    intros i Hi. rewrite forallb_forall in Hb. apply Nat.ltb_lt. auto.
  - revert H. unfold combine_shares. rewrite map_length, firstn_length.
    replace (_ <? _) with false by (symmetry; apply Nat.ltb_ge; lia). rewrite Hb. discriminate.
Qed.

Lemma combine_shares_panic_iff params shares k :
  usize (pa_shares params) ->
  combine_shares (E:=E) params shares = Panic k <->
  k = PAssert /\ pa_threshold params <= List.length shares /\
  exists i, In i (map fst (firstn (pa_threshold params) shares)) /\ pa_shares params <= i.
Proof.
  intros Hn. split.
  - intros H.
    destruct (Nat.lt_ge_cases (List.length shares) (pa_threshold params)) as [Hlt|Hge].
    { rewrite combine_shares_short in H by exact Hlt. discriminate. }
    destruct (forallb (fun i => i <? pa_shares params) (map fst (firstn (pa_threshold params) shares))) eqn:Hb.
    + rewrite combine_shares_eq in H; [discriminate|assumption|assumption|].
      intros i Hi. rewrite forallb_forall in Hb. apply Nat.ltb_lt. auto.
    + assert (Hx : exists i, In i (map fst (firstn (pa_threshold params) shares)) /\ pa_shares params <= i).
      { clear H. induction (map fst (firstn (pa_threshold params) shares)) as [|x l IH]; [discriminate|].
        cbn [forallb] in Hb. apply andb_false_iff in Hb. destruct Hb as [Hb|Hb].
        - exists x. split; [left; reflexivity|]. apply Nat.ltb_ge. exact Hb.
        - destruct (IH Hb) as (i & Hi & Hi'). exists i. split; [right; exact Hi|exact Hi']. }
      split; [|split; [exact Hge|exact Hx]]. destruct Hx as (i & Hi & Hi').
      rewrite (combine_shares_out_of_bounds params shares i Hge Hi Hi') in H. congruence.
  - intros (-> & Hge & i & Hi & Hi'). exact (combine_shares_out_of_bounds params shares i Hge Hi Hi').
Qed.

(** the same share supplied [t] times *)
Lemma map_repeat {A B : Type} (f : A -> B) x n : map f (repeat x n) = repeat (f x) n.
Proof. induction n as [|n IH]; cbn; [reflexivity|]. rewrite IH. reflexivity. Qed.

Lemma s_prod_repeat_inv (x : scalar) n : x <> 0%S -> (s_inv L (s_prod (repeat x n)) * s_prod (repeat x n) = 1)%S.
Proof.
  intros Hx. apply (s_inv_l L). apply (s_prod_neq_0 L). intros y Hy. apply repeat_spec in Hy. congruence.
Qed.

Lemma combine_shares_repeated params (i : nat) (d : VerifiableDecryption E) rest :
  usize (pa_shares params) -> usize (pa_threshold params) -> i < pa_shares params ->
  combine_shares params (repeat (i, d) (pa_threshold params) ++ rest) =
  Ret (Some {| vd_dh_element := (vd_dh_element d * scalar_of_usize (pa_threshold params))%E |}).
Proof.
  intros Hn Htu Hi. set (t := pa_threshold params).
  assert (Hf : firstn t (repeat (i, d) t ++ rest) = repeat (i, d) t).
  { rewrite firstn_app, repeat_length, Nat.sub_diag, app_nil_r.
    rewrite <- (repeat_length (i, d) t) at 1. apply firstn_all. }
  assert (Hm : map fst (repeat (i, d) t) = repeat i t) by apply map_repeat.
  assert (Hin : forall j, In j (map fst (repeat (i, d) t)) -> j = i) by (intros j; rewrite Hm; apply repeat_spec).
  rewrite combine_shares_eq; fold t; try rewrite Hf.
  - do 3 f_equal. rewrite Hm, !map_repeat. cbn [snd].
    rewrite denominator_value.
    2:{ unfold usize in *; lia. }
    2:{ intros j Hj. apply repeat_spec in Hj. subst j. unfold usize in *; lia. }
    rewrite map_repeat, Nat.eqb_refl. set (P := s_prod (repeat (node i) t)).
    assert (HP : (s_inv L P * P = 1)%S).
    { apply s_prod_repeat_inv. apply node_neq_0. unfold usize in *; lia. }
    apply (dlog_inj L). rewrite !(dlog_mul L), (dlog_lin_comb L), map_repeat.
    rewrite (usize_phi t Htu). clearbody P. set (x := dlog L (vd_dh_element d)). clear Hf Hm Hin Htu.
    assert (Hd : forall k, s_dot (repeat (s_inv L P) k) (repeat x k) = (x * s_inv L P * phi L (Z.of_nat k))%S).
    { induction k as [|k IH]; cbn [repeat s_dot].
      - change (Z.of_nat 0) with 0%Z. rewrite (phi_0 L). ring.
      - rewrite IH. replace (Z.of_nat (S k)) with (1 + Z.of_nat k)%Z by lia.
        rewrite (phi_add E L), (phi_1 L). ring. }
    rewrite Hd. transitivity (x * phi L (Z.of_nat t) * (s_inv L P * P))%S; [ring|]. rewrite HP. ring.
  - exact Hn.
  - rewrite app_length, repeat_length. lia.
  - intros j Hj. apply Hin in Hj. subst j. exact Hi.
Qed.

(** ** public polynomials *)
Lemma powers_length n : forall v x : scalar, List.length (scalar_powers n v x) = n.
Proof. induction n as [|n IH]; intros v x; cbn; [reflexivity|]. rewrite IH. reflexivity. Qed.

Lemma dot_powers (a : list scalar) : forall v x, s_dot (scalar_powers (List.length a) v x) a = (v * peval a x)%S.
Proof.
  induction a as [|c a IH]; intros v x; cbn [List.length scalar_powers s_dot peval]; [ring|].
  rewrite IH. ring.
Qed.

Lemma in_exponent_dlog (P : list element) : in_exponent (map (dlog L) P) = P.
Proof.
  unfold in_exponent. rewrite map_map. rewrite <- (map_id P) at 2. apply map_ext. intros e. apply (dlog_ok E L).
Qed.

Lemma in_exponent_length (a : list scalar) : List.length (in_exponent a) = List.length a.
Proof. apply map_length. Qed.

Lemma map_dlog_in_exponent (a : list scalar) : map (dlog L) (in_exponent a) = a.
Proof.
  unfold in_exponent. rewrite map_map. rewrite <- (map_id a) at 2. apply map_ext. intros x. apply (dlog_gen L).
Qed.

Lemma value_at_eq (a : list scalar) x :
  PublicPolynomial_value_at (in_exponent a) x = Ret (generator * peval a x)%E.
Proof.
  unfold PublicPolynomial_value_at. rewrite (vartime_multi_mul_ok E L).
  - f_equal. apply (dlog_inj L). rewrite (dlog_lin_comb L), (dlog_gen L), map_dlog_in_exponent, in_exponent_length.
    rewrite dot_powers. ring.
  - rewrite powers_length. reflexivity.
Qed.

Lemma value_at_zero_eq (a : list scalar) : a <> [] ->
  PublicPolynomial_value_at_zero (in_exponent a) = Ret (generator * peval a 0%S)%E.
Proof.
  destruct a as [|c a]; [contradiction|]. intros _. cbn. unfold PublicPolynomial_value_at_zero, index. cbn.
  f_equal. f_equal. ring.
Qed.

Lemma pks_new_eq params (a : list scalar) pop : params_ok params ->
  PublicKeySet_new params (in_exponent a) pop =
  if List.length a =? pa_threshold params then
    keys <- mapM PublicKey_from_element (in_exponent a) ;;
    '(res, _) <- ProofOfPossession_verify pop keys (share_poly_transcript params) ;;
    match res with
    | Err e => Ret (Err (InvalidDealerProof e))
    | Ok _ =>
        shared <- PublicKey_from_element (generator * peval a 0%S)%E ;;
        pks <- mapM (fun i => PublicKey_from_element (generator * peval a (node i))%E)
                 (seq 0 (pa_shares params)) ;;
        Ret (Ok {| ks_params := params; ks_shared_key := shared; ks_participant_keys := pks |})
    end
  else Ret (Err MalformedDealerPolynomial).
Proof.
  intros [[Ht _] _]. unfold PublicKeySet_new, PublicKeySet_validate. rewrite in_exponent_length.
  destruct (List.length a =? pa_threshold params) eqn:Hl; [|reflexivity]. cbn [negb]. apply Nat.eqb_eq in Hl.
  destruct (mapM PublicKey_from_element (in_exponent a)) as [keys|k]; cbn [bind]; [|reflexivity].
  destruct (ProofOfPossession_verify pop keys (share_poly_transcript params)) as [[res tf]|k]; cbn [bind]; [|reflexivity].
  destruct res as [u|e]; [|reflexivity].
  rewrite value_at_zero_eq by (intros ->; cbn in Hl; lia). cbn [bind].
  destruct (PublicKey_from_element (generator * peval a 0%S)%E) as [shared|k]; cbn [bind]; [|reflexivity].
  rewrite (mapM_ext _ (fun i => PublicKey_from_element (generator * peval a (node i))%E)); [reflexivity|].
  intros i _. change (scalar_of_usize (E:=E) (i + 1)) with (node (G:=E) i). rewrite value_at_eq. reflexivity.
Qed.

Lemma mapM_nth {A B : Type} (f : A -> outcome B) l ys i y :
  mapM f l = Ret ys -> nth_error ys i = Some y -> exists x, nth_error l i = Some x /\ f x = Ret y.
Proof.
  intros H. apply mapM_Ret_inv in H. revert i. induction H as [|x y' l ys' Hf H IH]; intros [|i] Hi; cbn in *; try discriminate.
  - injection Hi as <-. eauto.
  - apply IH. exact Hi.
Qed.

Lemma nth_error_seq n i j : nth_error (seq 0 n) i = Some j -> j = i /\ i < n.
Proof.
  intros H. assert (Hl : i < n).
  { rewrite <- (seq_length n 0). apply nth_error_Some. congruence. }
  rewrite (nth_error_nth' (seq 0 n) 0) in H by (rewrite seq_length; exact Hl).
  rewrite seq_nth in H by exact Hl. injection H as <-. auto.
Qed.

Lemma pks_new_ok params (a : list scalar) pop ks : params_ok params ->
  PublicKeySet_new params (in_exponent a) pop = Ret (Ok ks) ->
  ks_params ks = params /\ List.length a = pa_threshold params /\
  pk_element (ks_shared_key ks) = (generator * peval a 0%S)%E /\ key_bytes_ok (ks_shared_key ks) /\
  List.length (ks_participant_keys ks) = pa_shares params /\
  keys_of_poly a (ks_participant_keys ks) /\ Forall key_bytes_ok (ks_participant_keys ks) /\
  exists keys t', mapM PublicKey_from_element (in_exponent a) = Ret keys /\
    ProofOfPossession_verify pop keys (share_poly_transcript params) = Ret (Ok tt, t').
Proof.
  intros Hp. rewrite pks_new_eq by exact Hp.
  destruct (List.length a =? pa_threshold params) eqn:Hl; [|discriminate]. apply Nat.eqb_eq in Hl.
  intros H. inv_bind H. inv_bind H. destruct a1 as [res tf]. destruct res as [[]|e]; [|discriminate].
  inv_bind H. inv_bind H. injection H as <-. cbn [ks_params ks_shared_key ks_participant_keys].
  apply pk_from_element_ok in Hm1. destruct Hm1 as [Hs1 Hs2].
  split; [reflexivity|]. split; [exact Hl|]. split; [exact Hs1|]. split; [exact Hs2|]. split; [|split; [|split]].
  - apply mapM_length in Hm2. rewrite seq_length in Hm2. exact Hm2.
  - intros i key Hk. destruct (mapM_nth _ _ _ _ _ Hm2 Hk) as (j & Hj & Hf).
    apply nth_error_seq in Hj. destruct Hj as [-> _]. apply pk_from_element_ok in Hf. tauto.
  - apply mapM_Ret_inv in Hm2. clear -Hm2. induction Hm2 as [|x y l ys Hf H IH]; constructor; [|exact IH].
    apply pk_from_element_ok in Hf. tauto.
  - eauto.
Qed.

(** ** from_participants *)
Definition sgn (n : nat) : scalar := if n mod 2 =? 0 then 1%S else (- (1))%S.

Lemma sgn_S n : sgn (S n) = (- sgn n)%S.
Proof.
  unfold sgn. destruct (Nat.eq_dec (n mod 2) 0) as [H|H].
  - rewrite H. replace (S n mod 2) with 1; [cbn; reflexivity|].
    replace (S n) with (n + 1) by lia. rewrite Nat.add_mod, H by lia. reflexivity.
  - assert (H1 : n mod 2 = 1) by (pose proof (Nat.mod_upper_bound n 2); lia).
    rewrite H1. replace (S n mod 2) with 0; [cbn; ring|].
    replace (S n) with (n + 1) by lia. rewrite Nat.add_mod, H1 by lia. reflexivity.
Qed.

Lemma prod_swap_sign {A : Type} (f g : A -> scalar) l :
  s_prod (map (fun j => f j - g j)%S l) = (sgn (List.length l) * s_prod (map (fun j => g j - f j)%S l))%S.
Proof.
  induction l as [|x l IH]; cbn [map List.length].
  - unfold sgn, s_prod. cbn. ring.
  - rewrite !s_prod_cons, IH, sgn_S. ring.
Qed.

(** the secret polynomial behind the first [t] keys *)
Definition interp_poly (t : nat) (keys : list (PublicKey E)) : list scalar :=
  lag_interp L node (seq 0 t)
    (fun i => match nth_error keys i with Some k => dlog L (pk_element k) | None => 0%S end).

Lemma seq_usize t j : usize t -> In j (seq 0 t) -> usize (j + 1).
Proof. intros Ht Hj. apply in_seq in Hj. unfold usize in *. lia. Qed.

Lemma seq_node_inj t : usize t -> forall a b, In a (seq 0 t) -> In b (seq 0 t) -> node (G:=E) a = node b -> a = b.
Proof. intros Ht a b Ha Hb. apply node_inj; eapply seq_usize; eassumption. Qed.

Lemma interp_poly_length t keys : usize t -> List.length (interp_poly t keys) = t.
Proof.
  intros Ht. unfold interp_poly. rewrite (lag_interp_length L); first [apply seq_length|apply seq_NoDup|apply seq_node_inj, Ht].
Qed.

Lemma interp_poly_node t keys i k : usize t -> i < t -> nth_error keys i = Some k ->
  pk_element k = (generator * peval (interp_poly t keys) (node i))%E.
Proof.
  intros Ht Hi Hk. unfold interp_poly.
  rewrite (lag_interp_node L node (seq 0 t) (seq_NoDup _ _) (seq_node_inj t Ht)) by (apply in_seq; lia).
  rewrite Hk. symmetry. apply (dlog_ok E L).
Qed.

Lemma nth_error_ext {A : Type} (l l' : list A) : (forall i, nth_error l i = nth_error l' i) -> l = l'.
Proof.
  revert l'; induction l as [|x l IH]; intros [|y l'] H.
  - reflexivity.
  - specialize (H 0). discriminate.
  - specialize (H 0). discriminate.
  - assert (H0 := H 0). injection H0 as <-. f_equal. apply IH. intros i. exact (H (S i)).
Qed.

Lemma nth_error_firstn {A : Type} (l : list A) n i : i < n -> nth_error (firstn n l) i = nth_error l i.
Proof.
  revert n i; induction l as [|x l IH]; intros [|n] [|i] H; cbn; try lia; try reflexivity.
  apply IH. lia.
Qed.

Lemma starting_keys_eq t keys : usize t -> t <= List.length keys ->
  firstn t (map pk_element keys)
  = map (fun i => (@generator E * peval (interp_poly t keys) (node i))%E) (seq 0 t).
Proof.
  intros Ht Hl. apply nth_error_ext. intros i. destruct (Nat.lt_ge_cases i t) as [Hi|Hi].
  - rewrite nth_error_firstn by exact Hi. rewrite nth_error_map.
    destruct (nth_error keys i) as [k|] eqn:Hk; [|apply nth_error_None in Hk; lia].
    rewrite nth_error_map, (nth_error_nth' (seq 0 t) 0) by (rewrite seq_length; exact Hi).
    rewrite seq_nth by exact Hi. cbn. f_equal. apply (interp_poly_node t keys); assumption.
  - rewrite (proj2 (nth_error_None _ i)), (proj2 (nth_error_None _ i)); [reflexivity| |].
    + rewrite map_length, seq_length. exact Hi.
    + rewrite firstn_length. lia.
Qed.

Lemma enumerate_map {A B : Type} (f : nat -> A) t (g : nat * A -> B) :
  map g (enumerate (map f (seq 0 t))) = map (fun i => g (i, f i)) (seq 0 t).
Proof.
  unfold enumerate. rewrite map_length, seq_length. rewrite <- (map_id (seq 0 t)) at 1.
  generalize (seq 0 t). intros l. induction l as [|x l IH]; cbn; [reflexivity|]. rewrite IH. reflexivity.
Qed.

Lemma in_enumerate_map {A : Type} (f : nat -> A) t x :
  In x (enumerate (map f (seq 0 t))) -> exists i, i < t /\ x = (i, f i).
Proof.
  intros H. rewrite <- (map_id (enumerate _)) in H. rewrite (enumerate_map f t (fun x => x)) in H.
  apply in_map_iff in H. destruct H as (i & <- & Hi). apply in_seq in Hi. exists i. split; [lia|reflexivity].
Qed.

Lemma index_map_seq {B : Type} (f : nat -> B) a n i : i < n -> index (map f (seq a n)) i = Ret (f (a + i)).
Proof.
  intros Hi. unfold index. rewrite nth_error_map, (nth_error_nth' (seq a n) 0) by (rewrite seq_length; exact Hi).
  rewrite seq_nth by exact Hi. reflexivity.
Qed.

Lemma check_key_eq params keys x key :
  params_ok params -> List.length keys = pa_shares params ->
  pa_threshold params <= x -> x < pa_shares params ->
  let t := pa_threshold params in
  let is_ := seq 0 t in
  check_participant_key params is_
    (map (fun i => s_inv L (lagrange_denominator is_ i)) is_)
    (map (s_inv L) (map scalar_of_usize (seq 1 (pa_shares params))))
    (firstn t (map pk_element keys)) x key
  = Ret (e_eqb (generator * peval (interp_poly t keys) (node x))%E (pk_element key)).
Proof.
  intros [[Ht1 Ht2] Hn] Hl Hx1 Hx2 t is_.
  assert (Htu : usize t) by (unfold usize, t; lia).
  assert (Hxu : usize (x + 1)) by (unfold usize; lia).
  assert (Hju : forall j, In j is_ -> usize (j + 1)) by (intros j; apply seq_usize; exact Htu).
  assert (Hnd : NoDup is_) by apply seq_NoDup.
  assert (Hdiff : forall i, i < t -> scalar_of_usize (E:=E) (x - i) = (node x - node i)%S).
  { intros i Hi. replace (x - i) with (x + 1 - (i + 1)) by lia. apply usize_of_sub; [exact Hxu|unfold t in *; lia]. }
  unfold check_participant_key. rewrite (fold_left_prod L).
  rewrite (mapM_total _ (fun p : nat * scalar => (snd p * node (fst p) * s_inv L (node x - node (fst p)))%S)).
  2:{ intros [i d] Hin. apply in_enumerate_map in Hin. destruct Hin as (i' & Hi & He). injection He as -> ->.
      rewrite map_map, index_map_seq by (unfold t in *; lia). cbn [bind fst snd].
      replace (1 + (x - i' - 1)) with (x - i') by (unfold t in *; lia). rewrite Hdiff by exact Hi. reflexivity. }
  cbn [bind].
  change (enumerate (map (fun i => s_inv L (lagrange_denominator is_ i)) is_))
    with (enumerate (map (fun i => s_inv L (lagrange_denominator is_ i)) (seq 0 t))).
  rewrite enumerate_map. fold is_. cbn [fst snd].
  rewrite (vartime_multi_mul_ok E L) by (rewrite firstn_length, !map_length; unfold is_; rewrite seq_length; unfold t; lia).
  cbn [bind]. f_equal. f_equal.
  rewrite (starting_keys_eq t keys Htu) by (unfold t; lia). fold is_.
  set (P := interp_poly t keys). assert (HP : List.length P = t) by apply interp_poly_length, Htu.
  apply (dlog_inj L). rewrite (dlog_mul L), (dlog_gen L), (dlog_lin_comb L), map_map.
  rewrite (map_ext (fun i => dlog L (generator * peval P (node i))%E) (fun i => peval P (node i)))
    by (intros i; apply (dlog_gen L)).
  rewrite s_dot_map.
  assert (Hinj := seq_node_inj t Htu). fold is_ in Hinj.
  rewrite (lagrange L node is_ Hnd Hinj P (node x)) by (unfold is_; rewrite seq_length; lia).
  rewrite (map_ext_in (fun idx => scalar_of_usize (E:=E) (x - idx)) (fun i => node x - node i)%S)
    by (intros i Hi; apply in_seq in Hi; apply Hdiff; lia).
  set (Q := s_prod (map (fun i => node x - node i)%S is_)).
  transitivity ((sgn (pred t) * Q) * s_sum (map (fun i => peval P (node i) *
     (s_inv L (lagrange_denominator is_ i) * node i * s_inv L (node x - node i)))%S is_))%S.
  { replace (if pa_threshold params mod 2 =? 0 then (- (1 * Q))%S else (1 * Q)%S) with (sgn (pred t) * Q)%S; [ring|].
    assert (Hs : sgn t = (- sgn (pred t))%S).
    { rewrite <- sgn_S. f_equal. unfold t; lia. }
    fold t. unfold sgn in Hs at 1. destruct (t mod 2 =? 0).
    - transitivity (- (- sgn (pred t) * Q))%S; [ring|]. rewrite <- Hs. ring.
    - transitivity (- (- sgn (pred t) * Q))%S; [ring|]. rewrite <- Hs. ring. }
  rewrite <- s_sum_scale. f_equal. apply map_ext_in. intros i Hi.
  rewrite denominator_nodup by assumption.
  unfold Q. rewrite (s_prod_others L (fun i => node x - node i)%S i is_ Hnd Hi).
  unfold lag_basis, lag_num. rewrite (prod_swap_sign (fun j => node (G:=E) j) (fun _ => node x)).
  assert (Hol : List.length (others i is_) = pred t).
  { pose proof (others_length i is_ Hnd Hi) as Ho. unfold is_ in Ho at 2. rewrite seq_length in Ho. lia. }
  rewrite Hol.
  assert (H1 := node_neq_0 i (Hju i Hi)).
  assert (H2 : lag_den (node (G:=E)) is_ i <> 0%S) by (apply (lag_den_neq_0 L); assumption).
  assert (H3 : (node x - node i)%S <> (0%S : scalar)).
  { apply (s_sub_neq_0 L). intros Hc. apply node_inj in Hc; auto. subst x. apply in_seq in Hi. unfold t in *. lia. }
  field. auto.
Qed.

Lemma check_keys_eq params keys items :
  params_ok params -> List.length keys = pa_shares params ->
  (forall it, In it items -> pa_threshold params <= fst it < pa_shares params) ->
  let t := pa_threshold params in
  let is_ := seq 0 t in
  check_participant_keys params is_
    (map (fun i => s_inv L (lagrange_denominator is_ i)) is_)
    (map (s_inv L) (map scalar_of_usize (seq 1 (pa_shares params))))
    (firstn t (map pk_element keys)) items
  = Ret (forallb (fun it => e_eqb (generator * peval (interp_poly t keys) (node (fst it)))%E
                                  (pk_element (snd it))) items).
Proof.
  intros Hp Hl Hit t is_. induction items as [|[x key] items IH]; [reflexivity|].
  cbn [check_participant_keys]. destruct (Hit (x, key) (or_introl eq_refl)) as [H1 H2]. cbn [fst] in H1, H2.
  pose proof (check_key_eq params keys x key Hp Hl H1 H2) as Hc. cbv zeta in Hc.
  unfold is_, t in *. rewrite Hc. cbn [bind forallb fst snd].
  destruct (e_eqb _ _); [|reflexivity]. cbn [andb]. apply IH. intros it Hi. apply Hit. right. exact Hi.
Qed.

Lemma in_enumerate {A : Type} (l : list A) i x : In (i, x) (enumerate l) <-> nth_error l i = Some x.
Proof.
  unfold enumerate.
  assert (H : forall (l : list A) s, In (i, x) (combine (seq s (List.length l)) l) <-> (s <= i /\ nth_error l (i - s) = Some x)).
  { clear l. induction l as [|y l IH]; intros s; cbn [List.length seq combine].
    - split; [contradiction|]. intros [_ H]. destruct (i - s); discriminate.
    - cbn [In]. rewrite IH. split.
      + intros [H|[H1 H2]].
        * injection H as <- <-. split; [lia|]. rewrite Nat.sub_diag. reflexivity.
        * split; [lia|]. replace (i - s) with (S (i - S s)) by lia. exact H2.
      + intros [H1 H2]. destruct (Nat.eq_dec i s) as [->|Hne].
        * rewrite Nat.sub_diag in H2. injection H2 as <-. left. reflexivity.
        * right. split; [lia|]. replace (i - s) with (S (i - S s)) in H2 by lia. exact H2. }
  rewrite H. rewrite Nat.sub_0_r. split; [tauto|]. intros Hx. split; [lia|exact Hx].
Qed.

Lemma skipn_enumerate {A : Type} (l : list A) t :
  skipn t (enumerate l) = combine (seq t (List.length l - t)) (skipn t l).
Proof.
  unfold enumerate.
  assert (H : forall (l : list A) s t, skipn t (combine (seq s (List.length l)) l) = combine (seq (s + t) (List.length l - t)) (skipn t l)).
  { clear l t. induction l as [|x l IH]; intros s [|t]; cbn [skipn]; rewrite ?skipn_nil; cbn [List.length seq combine]; try reflexivity.
    - rewrite Nat.sub_0_r, Nat.add_0_r. reflexivity.
    - cbn [skipn]. rewrite IH. do 2 f_equal. lia. }
  rewrite H. reflexivity.
Qed.

Lemma in_skipn_enumerate {A : Type} (l : list A) t i x :
  In (i, x) (skipn t (enumerate l)) <-> t <= i /\ nth_error l i = Some x.
Proof.
  rewrite skipn_enumerate. split.
  - intros H. pose proof (in_combine_l _ _ _ _ H) as Hs. apply in_seq in Hs. split; [lia|].
    apply in_enumerate. rewrite <- (firstn_skipn t (enumerate l)). apply in_or_app. right. rewrite skipn_enumerate. exact H.
  - intros [H1 H2]. rewrite <- skipn_enumerate. apply in_enumerate in H2. rewrite <- (firstn_skipn t (enumerate l)) in H2.
    apply in_app_or in H2. destruct H2 as [H2|H2]; [exfalso|exact H2].
    unfold enumerate in H2. rewrite combine_firstn in H2. apply in_combine_l in H2.
    apply In_nth_error in H2. destruct H2 as [k Hk].
    assert (Hkt : k < t).
    { apply Nat.lt_le_trans with (List.length (firstn t (seq 0 (List.length l)))); [apply nth_error_Some; congruence|].
      rewrite firstn_length. lia. }
    rewrite nth_error_firstn in Hk by exact Hkt. apply nth_error_seq in Hk. lia.
Qed.

Lemma from_participants_eq params (keys : list (PublicKey E)) :
  params_ok params -> List.length keys = pa_shares params ->
  let P := interp_poly (pa_threshold params) keys in
  PublicKeySet_from_participants params keys =
  (shared <- PublicKey_from_element (generator * peval P 0%S)%E ;;
   if forallb (fun it => e_eqb (generator * peval P (node (fst it)))%E (pk_element (snd it)))
              (skipn (pa_threshold params) (enumerate keys))
   then Ret (Ok {| ks_params := params; ks_shared_key := shared; ks_participant_keys := keys |})
   else Ret (Err MalformedParticipantKeys)).
Proof.
  intros Hp Hl P. pose proof Hp as [[Ht1 Ht2] Hn].
  assert (Htu : usize (pa_threshold params)) by (unfold usize; lia).
  unfold PublicKeySet_from_participants. rewrite Hl, Nat.eqb_refl. cbn [negb].
  set (is_ := seq 0 (pa_threshold params)).
  assert (Hju : forall j, In j is_ -> usize (j + 1)) by (intros j; apply seq_usize; exact Htu).
  rewrite (coefficients_eq is_ Hju). cbn [bind].
  rewrite (vartime_multi_mul_ok E L).
  2:{ rewrite firstn_length, !map_length. unfold is_. rewrite seq_length. lia. }
  cbn [bind].
  replace (lin_comb _ _ * s_prod _)%E with (generator * peval P 0%S)%E.
  2:{ rewrite starting_keys_eq by (assumption || lia). symmetry. apply interpolate_zero; [apply seq_NoDup|exact Hju|].
      fold P. unfold P. rewrite interp_poly_length by exact Htu. unfold is_. rewrite seq_length. lia. }
  destruct (PublicKey_from_element (generator * peval P 0%S)%E) as [shared|k]; cbn [bind]; [|reflexivity].
  rewrite (invert_scalars_ok E L).
  2:{ intros s Hs. apply in_map_iff in Hs. destruct Hs as (i & <- & Hi). apply in_seq in Hi.
      rewrite usize_phi by (unfold usize; lia). apply phi_small_neq_0. lia. }
  cbn [bind]. pose proof (check_keys_eq params keys (skipn (pa_threshold params) (enumerate keys)) Hp Hl) as Hc.
  cbv zeta in Hc. unfold is_. rewrite Hc; [reflexivity|].
  intros [i k] Hi. apply in_skipn_enumerate in Hi. cbn [fst]. destruct Hi as [Hi Hk]. split; [exact Hi|].
  rewrite <- Hl. apply nth_error_Some. congruence.
Qed.

(** two polynomials with at most [t] coefficients agreeing with the first [t] keys are equal *)
Lemma keys_of_poly_unique params keys (a : list scalar) :
  params_ok params -> List.length keys = pa_shares params -> List.length a = pa_threshold params ->
  keys_of_poly a keys -> a = interp_poly (pa_threshold params) keys.
Proof.
  intros [[Ht1 Ht2] Hn] Hl Ha Hk.
  assert (Htu : usize (pa_threshold params)) by (unfold usize; lia).
  apply (interp_unique L node (seq 0 (pa_threshold params)) (seq_NoDup _ _) (seq_node_inj _ Htu)).
  - rewrite seq_length. exact Ha.
  - rewrite seq_length. apply interp_poly_length. exact Htu.
  - intros i Hi. apply in_seq in Hi.
    destruct (nth_error keys i) as [k|] eqn:Hki; [|apply nth_error_None in Hki; lia].
    apply (gen_inj L). rewrite <- (Hk i k Hki). apply (interp_poly_node (pa_threshold params) keys); [exact Htu|lia|exact Hki].
Qed.

Lemma check_ok_iff params keys :
  params_ok params -> List.length keys = pa_shares params ->
  let P := interp_poly (pa_threshold params) keys in
  forallb (fun it => e_eqb (generator * peval P (node (fst it)))%E (pk_element (snd it)))
              (skipn (pa_threshold params) (enumerate keys)) = true <-> keys_of_poly P keys.
Proof.
  intros [[Ht1 Ht2] Hn] Hl P.
  assert (Htu : usize (pa_threshold params)) by (unfold usize; lia).
  rewrite forallb_forall. split.
  - intros H i k Hk. destruct (Nat.lt_ge_cases i (pa_threshold params)) as [Hi|Hi].
    + apply interp_poly_node; assumption.
    + specialize (H (i, k) (proj2 (in_skipn_enumerate keys _ i k) (conj Hi Hk))).
      apply (e_eqb_ok E L) in H. symmetry. exact H.
  - intros H [i k] Hi. apply in_skipn_enumerate in Hi. apply (e_eqb_ok E L). symmetry. apply H. tauto.
Qed.

Lemma from_participants_ok_iff params (keys : list (PublicKey E)) ks : params_ok params ->
  PublicKeySet_from_participants params keys = Ret (Ok ks) <->
  List.length keys = pa_shares params /\
  exists a, List.length a = pa_threshold params /\ keys_of_poly a keys /\
    PublicKey_from_element (generator * peval a 0%S)%E = Ret (ks_shared_key ks) /\
    ks_params ks = params /\ ks_participant_keys ks = keys.
Proof.
  intros Hp.
  destruct (Nat.eq_dec (List.length keys) (pa_shares params)) as [Hl|Hl].
  2:{ split; [|tauto]. unfold PublicKeySet_from_participants.
      replace (_ =? _) with false by (symmetry; apply Nat.eqb_neq; congruence). discriminate. }
  assert (Htu : usize (pa_threshold params)) by (destruct Hp as [[Ht1 Ht2] Hn]; unfold usize; lia).
  rewrite from_participants_eq by assumption. split.
  - intros H. split; [exact Hl|]. inv_bind H.
    destruct (forallb _ _) eqn:Hf; [|discriminate]. injection H as <-.
    apply check_ok_iff in Hf; [|assumption..].
    eexists. split; [|split; [exact Hf|]]; [apply interp_poly_length; exact Htu|]. cbn. auto.
  - intros (_ & a & Ha & Hk & Hs & Hpar & Hkeys).
    pose proof (keys_of_poly_unique params keys a Hp Hl Ha Hk) as Hu. subst a.
    rewrite Hs. cbn [bind]. rewrite (proj2 (check_ok_iff params keys Hp Hl) Hk).
    destruct ks; cbn in *; subst. reflexivity.
Qed.

Lemma from_participants_count params (keys : list (PublicKey E)) : params_ok params ->
  PublicKeySet_from_participants params keys = Ret (Err ParticipantCountMismatch) <->
  List.length keys <> pa_shares params.
Proof.
  intros Hp. destruct (Nat.eq_dec (List.length keys) (pa_shares params)) as [Hl|Hl].
  - split; [|contradiction]. rewrite from_participants_eq by assumption. intros H. inv_bind H.
    destruct (forallb _ _); discriminate.
  - split; [auto|]. intros _. unfold PublicKeySet_from_participants.
    replace (_ =? _) with false by (symmetry; apply Nat.eqb_neq; congruence). reflexivity.
Qed.

(** apart from serializing the shared key nothing can panic *)
Lemma from_participants_malformed params (keys : list (PublicKey E)) : params_ok params -> ser_total E ->
  PublicKeySet_from_participants params keys = Ret (Err MalformedParticipantKeys) <->
  List.length keys = pa_shares params /\
  ~ (exists a, List.length a = pa_threshold params /\ keys_of_poly a keys).
Proof.
  intros Hp Hser. destruct (Nat.eq_dec (List.length keys) (pa_shares params)) as [Hl|Hl].
  2:{ split; [|tauto]. unfold PublicKeySet_from_participants.
      replace (_ =? _) with false by (symmetry; apply Nat.eqb_neq; congruence). discriminate. }
  assert (Htu : usize (pa_threshold params)) by (destruct Hp as [[Ht1 Ht2] Hn]; unfold usize; lia).
  rewrite from_participants_eq by assumption. unfold PublicKey_from_element.
  destruct (ser_total_some L Hser (generator * peval (interp_poly (pa_threshold params) keys) 0%S)%E) as [b Hb].
  rewrite Hb. cbn [bind]. pose proof (check_ok_iff params keys Hp Hl) as Hc. cbv zeta in Hc.
  destruct (forallb _ _).
  - split; [discriminate|]. intros [_ Hno]. exfalso. apply Hno. exists (interp_poly (pa_threshold params) keys).
    split; [apply interp_poly_length; exact Htu|]. apply Hc. reflexivity.
  - split; [|reflexivity]. intros _. split; [exact Hl|]. intros (a & Ha & Hk).
    assert (Hx : false = true); [|discriminate]. apply Hc.
    rewrite <- (keys_of_poly_unique params keys a Hp Hl Ha Hk). exact Hk.
Qed.

Lemma from_participants_total params (keys : list (PublicKey E)) : params_ok params -> ser_total E ->
  exists r, PublicKeySet_from_participants params keys = Ret r.
Proof.
  intros Hp Hser. destruct (Nat.eq_dec (List.length keys) (pa_shares params)) as [Hl|Hl].
  2:{ exists (Err ParticipantCountMismatch). apply from_participants_count; assumption. }
  rewrite from_participants_eq by assumption. unfold PublicKey_from_element.
  destruct (ser_total_some L Hser (generator * peval (interp_poly (pa_threshold params) keys) 0%S)%E) as [b Hb].
  rewrite Hb. cbn [bind]. destruct (forallb _ _); eauto.
Qed.

(** [new] and [from_participants] agree *)
Lemma new_from_participants params poly pop (ks : PublicKeySet E) : params_ok params ->
  PublicKeySet_new params poly pop = Ret (Ok ks) ->
  PublicKeySet_from_participants params (ks_participant_keys ks) = Ret (Ok ks).
Proof.
  intros Hp H. rewrite <- (in_exponent_dlog poly) in H.
  apply pks_new_ok in H; [|exact Hp]. destruct H as (H1 & H2 & H3 & H4 & H5 & H6 & _).
  apply from_participants_ok_iff; [exact Hp|]. split; [exact H5|].
  exists (map (dlog L) poly). split; [exact H2|]. split; [exact H6|]. split; [|auto].
  unfold PublicKey_from_element. rewrite <- H3. unfold key_bytes_ok in H4. rewrite H4. cbn [bind].
  destruct (ks_shared_key ks). reflexivity.
Qed.

(** ** dealer *)
Lemma horner (l : list (Keypair E)) x :
  fold_left (fun v pair => SecretKey_add (SecretKey_mul v x) (kp_secret pair)) (rev l) 0%S
  = peval (map kp_secret l) x.
Proof.
  induction l as [|kp l IH]; cbn [rev map peval]; [reflexivity|].
  rewrite fold_left_app, IH. cbn [fold_left]. unfold SecretKey_add, SecretKey_mul, SecretKey. ring.
Qed.

Lemma dealer_share_eq (d : Dealer E) i :
  Dealer_secret_share_for_participant d i =
  if i <? pa_shares (de_params d) then Ret (peval (map kp_secret (de_polynomial d)) (node i)) else Panic PAssert.
Proof.
  unfold Dealer_secret_share_for_participant, assert.
  destruct (i <? pa_shares (de_params d)); cbn [bind]; [|reflexivity].
  rewrite (of_u64_0 L), horner. reflexivity.
Qed.

Lemma generate_keypairs_ok n : forall r kps r', generate_keypairs (E:=E) n r = Ret (kps, r') ->
  List.length kps = n /\
  forall kp, In kp kps -> key_of (kp_secret kp) (kp_public kp) /\ key_bytes_ok (kp_public kp).
Proof.
  induction n as [|n IH]; intros r kps r' H; cbn [generate_keypairs] in H.
  - injection H as <- _. split; [reflexivity|]. intros kp [].
  - inv_bind H. destruct a as [kp r1]. inv_bind H. destruct a as [rest r2]. injection H as <- _.
    destruct (IH _ _ _ Hm0) as [H1 H2]. split; [cbn; congruence|].
    intros kp' [<-|Hin]; [|apply H2; exact Hin].
    unfold Keypair_generate in Hm. destruct (SecretKey_generate r) as [sk r3].
    inv_bind Hm. injection Hm as <- _. unfold Keypair_from_secret in Hm1. inv_bind Hm1. injection Hm1 as <-.
    cbn. apply (pk_from_secret_ok E L). exact Hm.
Qed.

Lemma generate_keypairs_total n : forall r, ser_total E ->
  exists kps r', generate_keypairs (E:=E) n r = Ret (kps, r').
Proof.
  induction n as [|n IH]; intros r Ht; cbn [generate_keypairs]; [eauto|].
  unfold Keypair_generate, Keypair_from_secret, PublicKey_from_secret, PublicKey_from_element.
  destruct (SecretKey_generate r) as [sk r1].
  destruct (ser_total_some L Ht (mul_generator sk)) as [b Hb]. rewrite Hb. cbn [bind].
  destruct (IH r1 Ht) as (kps & r' & H). rewrite H. cbn [bind]. eauto.
Qed.

Lemma mapM_from_element (keys : list (PublicKey E)) : Forall key_bytes_ok keys ->
  mapM PublicKey_from_element (map pk_element keys) = Ret keys.
Proof.
  induction 1 as [|k keys Hk H IH]; [reflexivity|]. cbn [map mapM].
  unfold PublicKey_from_element at 1. unfold key_bytes_ok in Hk. rewrite Hk. cbn [bind]. rewrite IH. cbn [bind].
  destruct k. reflexivity.
Qed.

Definition dealer_poly (d : Dealer E) : list scalar := map kp_secret (de_polynomial d).

Lemma dealer_new_ok params r (d : Dealer E) r' : Dealer_new params r = Ret (d, r') ->
  de_params d = params /\ List.length (dealer_poly d) = pa_threshold params /\
  fst (Dealer_public_info d) = in_exponent (dealer_poly d) /\
  exists keys tf, mapM PublicKey_from_element (in_exponent (dealer_poly d)) = Ret keys /\
    ProofOfPossession_verify (de_pop d) keys (share_poly_transcript params) = Ret (Ok tt, tf).
Proof.
  intros H. unfold Dealer_new in H. inv_bind H. destruct a as [kps r1]. inv_bind H. destruct a as [[pop tf] r2].
  injection H as <- _. unfold dealer_poly. cbn [de_params de_polynomial de_pop Dealer_public_info fst].
  destruct (generate_keypairs_ok _ _ _ _ Hm) as [Hl Hk].
  assert (Hpub : map (fun pair : Keypair E => pk_element (kp_public pair)) kps = in_exponent (map kp_secret kps)).
  { unfold in_exponent. rewrite map_map. apply map_ext_in. intros kp Hin. exact (proj1 (Hk kp Hin)). }
  split; [reflexivity|]. split; [rewrite map_length; exact Hl|]. split; [exact Hpub|].
  exists (map kp_public kps), tf. split.
  - rewrite <- Hpub, <- (map_map kp_public pk_element). apply mapM_from_element.
    apply Forall_forall. intros k Hin. apply in_map_iff in Hin. destruct Hin as (kp & <- & Hin). apply Hk. exact Hin.
  - apply (pop_complete E L kps _ _ _ _ _) in Hm0; [exact Hm0|]. intros kp Hin. apply Hk. exact Hin.
Qed.

Lemma dealer_new_total params r : ser_total E -> exists (d : Dealer E) r', Dealer_new params r = Ret (d, r').
Proof.
  intros Ht. unfold Dealer_new. destruct (generate_keypairs_total (pa_threshold params) r Ht) as (kps & r1 & H).
  rewrite H. cbn [bind].
  destruct (pop_new_total E L (map kp_secret kps) (map kp_public kps) (share_poly_transcript params) r1 Ht) as (p & tf & r2 & Hp).
  unfold ProofOfPossession_new. rewrite Hp. cbn [bind]. eauto.
Qed.

(** the key set built from an honest dealer's public info is accepted *)
Lemma dealing_ok params r (d : Dealer E) r' res : params_ok params -> Dealer_new params r = Ret (d, r') ->
  PublicKeySet_new params (fst (Dealer_public_info d)) (snd (Dealer_public_info d)) = Ret res ->
  exists ks, res = Ok ks.
Proof.
  intros Hp Hd. destruct (dealer_new_ok params r d r' Hd) as (H1 & H2 & H3 & keys & tf & H4 & H5).
  rewrite H3, pks_new_eq by exact Hp. rewrite H2, Nat.eqb_refl, H4. cbn [bind]. cbn [Dealer_public_info snd]. rewrite H5.
  cbn [bind]. intros H. inv_bind H. inv_bind H. injection H as <-. eauto.
Qed.

Lemma pks_new_total params poly pop : params_ok params -> ser_total E ->
  exists res, PublicKeySet_new (E:=E) params poly pop = Ret res.
Proof.
  intros Hp Ht. rewrite <- (in_exponent_dlog poly), pks_new_eq by exact Hp.
  destruct (_ =? _); [|eauto].
  assert (Hpk : forall e : element, exists pk, PublicKey_from_element e = Ret pk).
  { intros e. unfold PublicKey_from_element. destruct (ser_total_some L Ht e) as [b Hb]. rewrite Hb. cbn. eauto. }
  assert (HM : forall (A : Type) (f : A -> element) l, exists pks, mapM (fun x => PublicKey_from_element (f x)) l = Ret pks).
  { intros A f l. induction l as [|x l IH]; cbn [mapM]; [eauto|].
    destruct (Hpk (f x)) as [pk Hk]. rewrite Hk. cbn [bind]. destruct IH as [pks ->]. cbn [bind]. eauto. }
  destruct (HM _ (fun e => e) (in_exponent (map (dlog L) poly))) as [keys Hk]. cbn beta in Hk.
  change (fun x : element => PublicKey_from_element x) with (@PublicKey_from_element E) in Hk. rewrite Hk. cbn [bind].
  destruct (pop_verify_total E L pop keys (share_poly_transcript params) Ht) as (r & tf & Hv). rewrite Hv. cbn [bind].
  destruct r as [u|e]; [|eauto].
  destruct (Hpk (generator * peval (map (dlog L) poly) 0%S)%E) as [shared Hs]. rewrite Hs. cbn [bind].
  destruct (HM _ (fun i => (generator * peval (map (dlog L) poly) (node i))%E) (seq 0 (pa_shares params))) as [pks Hps].
  rewrite Hps. cbn [bind]. eauto.
Qed.

(** ** active participants *)
Lemma participant_new_iff (ks : PublicKeySet E) i share a :
  ActiveParticipant_new ks i share = Ret (Ok a) <->
  a = {| ap_key_set := ks; ap_index := i; ap_secret_share := share |} /\
  exists key, nth_error (ks_participant_keys ks) i = Some key /\ pk_element key = (generator * share)%E.
Proof.
  unfold ActiveParticipant_new, index. destruct (nth_error (ks_participant_keys ks) i) as [key|]; cbn [bind].
  2:{ split; [discriminate|]. intros (_ & key & Hc & _). discriminate. }
  rewrite (mul_generator_ok E L). destruct (e_eqb (generator * share)%E (pk_element key)) eqn:He.
  - apply (e_eqb_ok E L) in He. split.
    + intros H. injection H as <-. split; [reflexivity|]. exists key. auto.
    + intros (-> & _). reflexivity.
  - split; [discriminate|]. intros (_ & k & Hk & Hs). injection Hk as <-.
    apply (e_eqb_false L) in He. congruence.
Qed.

Lemma participant_new_err (ks : PublicKeySet E) i share :
  (exists e, ActiveParticipant_new ks i share = Ret (Err e)) <->
  exists key, nth_error (ks_participant_keys ks) i = Some key /\ pk_element key <> (generator * share)%E.
Proof.
  unfold ActiveParticipant_new, index. destruct (nth_error (ks_participant_keys ks) i) as [key|]; cbn [bind].
  2:{ split; intros (x & H); [discriminate|]. destruct H; discriminate. }
  rewrite (mul_generator_ok E L). destruct (e_eqb (generator * share)%E (pk_element key)) eqn:He.
  - apply (e_eqb_ok E L) in He. split; intros (x & H); [discriminate|]. destruct H as [H1 H2]. congruence.
  - apply (e_eqb_false L) in He. split; [|eauto]. intros _. exists key. split; [reflexivity|congruence].
Qed.

(** ** share proofs *)
Lemma verify_share_iff (ks : PublicKeySet E) cand (ct : Ciphertext E) i pf d :
  PublicKeySet_verify_share ks cand ct i pf = Ret (Ok d) <->
  d = cd_inner cand /\
  exists key base X0 X1 q,
    nth_error (ks_participant_keys ks) i = Some key /\
    PublicKey_from_element (random_element ct) = Ret base /\
    le_answers (random_element ct) (pk_element key) (vd_dh_element d) X0 X1 (le_challenge pf) (le_response pf) /\
    le_hashed (share_context "elgamal_decryption_share" ks i) base (pk_element key) (vd_dh_element d) X0 X1 q /\
    oracle q "c" = le_challenge pf.
Proof.
  unfold PublicKeySet_verify_share, index.
  destruct (nth_error (ks_participant_keys ks) i) as [key|]; cbn [bind].
  2:{ split; [discriminate|]. intros (_ & key & _ & _ & _ & _ & Hc & _). discriminate. }
  destruct (PublicKey_from_element (random_element ct)) as [base|] eqn:Hb; cbn [bind].
  2:{ split; [discriminate|]. intros (_ & _ & base & _ & _ & _ & _ & Hc & _). discriminate. }
  destruct (pk_from_element_ok E _ _ Hb) as [Hbe _].
  change (decryption_share_transcript ks i) with (share_context "elgamal_decryption_share" ks i).
  destruct (LogEqualityProof_verify pf base _ _) as [[res tf]|k] eqn:Hv; cbn [bind].
  - split.
    + intros H. destruct res as [[]|e]; [|discriminate]. injection H as <-.
      split; [destruct cand as [[x]]; reflexivity|].
      apply (le_verify_ok_iff E L) in Hv. destruct Hv as (q & Hq & Ho & _). rewrite Hbe in Hq.
      exists key, base. eexists _, _, q. split; [reflexivity|]. split; [reflexivity|].
      split; [split; reflexivity|]. cbn [vd_dh_element]. auto.
    + intros (-> & key' & base' & X0 & X1 & q & Hk & Hb' & [HX0 HX1] & Hq & Ho).
      injection Hk as <-. injection Hb' as <-. subst X0 X1. rewrite <- Hbe in Hq.
      assert (Hv' : LogEqualityProof_verify pf base (pk_element key, vd_dh_element (cd_inner cand))
                (share_context "elgamal_decryption_share" ks i) = Ret (Ok tt, q ++ [TChal "c"])).
      { apply (le_verify_ok_iff E L). exists q. auto. }
      rewrite Hv in Hv'. injection Hv' as -> _. destruct cand as [[x]]. reflexivity.
  - split; [discriminate|]. intros (-> & key' & base' & X0 & X1 & q & Hk & Hb' & [HX0 HX1] & Hq & Ho).
    injection Hk as <-. injection Hb' as <-. subst X0 X1. rewrite <- Hbe in Hq.
    assert (Hv' : LogEqualityProof_verify pf base (pk_element key, vd_dh_element (cd_inner cand))
              (share_context "elgamal_decryption_share" ks i) = Ret (Ok tt, q ++ [TChal "c"])).
    { apply (le_verify_ok_iff E L). exists q. auto. }
    congruence.
Qed.

Lemma verify_share_sound (ks : PublicKeySet E) cand (ct : Ciphertext E) i pf d key share :
  PublicKeySet_verify_share ks cand ct i pf = Ret (Ok d) ->
  nth_error (ks_participant_keys ks) i = Some key -> pk_element key = (generator * share)%E ->
  d = cd_inner cand /\
  (vd_dh_element d <> (random_element ct * share)%E ->
   exists base X0 X1 q,
     PublicKey_from_element (random_element ct) = Ret base /\
     le_hashed (share_context "elgamal_decryption_share" ks i) base (pk_element key) (vd_dh_element d) X0 X1 q /\
     (exists s, le_answers (random_element ct) (pk_element key) (vd_dh_element d) X0 X1 (oracle q "c") s) /\
     forall c s, le_answers (random_element ct) (pk_element key) (vd_dh_element d) X0 X1 c s -> oracle q "c" = c).
Proof.
  intros H Hk Hs. apply verify_share_iff in H.
  destruct H as (Hd & key' & base & X0 & X1 & q & Hk' & Hb & Ha & Hq & Ho).
  rewrite Hk in Hk'. injection Hk' as <-. split; [exact Hd|]. intros Hne.
  exists base, X0, X1, q. split; [exact Hb|]. split; [exact Hq|]. rewrite Ho.
  split; [eauto|]. intros c s Ha'. apply (le_unique_challenge E L (random_element ct) (pk_element key) (vd_dh_element d) X0 X1 _ (le_response pf) c s);
    [|exact Ha|exact Ha'].
  intros (x & Hx1 & Hx2). rewrite Hs in Hx1. apply (gen_inj L) in Hx1. subst x. contradiction.
Qed.

Lemma decrypt_share_complete (ks : PublicKeySet E) i share a (ct : Ciphertext E) r d pf r' :
  ActiveParticipant_new ks i share = Ret (Ok a) ->
  ActiveParticipant_decrypt_share a ct r = Ret (d, pf, r') ->
  vd_dh_element d = (random_element ct * share)%E /\
  PublicKeySet_verify_share ks {| cd_inner := d |} ct i pf = Ret (Ok d).
Proof.
  intros Ha. apply participant_new_iff in Ha. destruct Ha as (-> & key & Hk & Hs).
  unfold ActiveParticipant_decrypt_share, ActiveParticipant_public_key_share, index.
  cbn [ap_key_set ap_index ap_secret_share]. rewrite Hk. cbn [bind].
  intros H. inv_bind H. rename a into base, Hm into Hb. inv_bind H. destruct a as [[p tf] r1].
  injection H as <- <- <-. cbn [vd_dh_element]. split; [reflexivity|].
  destruct (pk_from_element_ok E _ _ Hb) as [Hbe _]. rewrite Hs, <- Hbe in Hm.
  apply (le_complete E L) in Hm.
  unfold PublicKeySet_verify_share, index. rewrite Hk. cbn [bind]. rewrite Hb. cbn [bind cd_inner vd_dh_element].
  rewrite Hs. rewrite <- Hbe at 1. rewrite Hm. reflexivity.
Qed.

Lemma decrypt_share_total (ks : PublicKeySet E) i share a (ct : Ciphertext E) r :
  ser_total E -> ActiveParticipant_new ks i share = Ret (Ok a) ->
  exists d pf r', ActiveParticipant_decrypt_share a ct r = Ret (d, pf, r').
Proof.
  intros Ht Ha. apply participant_new_iff in Ha. destruct Ha as (-> & key & Hk & Hs).
  unfold ActiveParticipant_decrypt_share, ActiveParticipant_public_key_share, index.
  cbn [ap_key_set ap_index ap_secret_share]. rewrite Hk. cbn [bind]. unfold PublicKey_from_element.
  destruct (ser_total_some L Ht (random_element ct)) as [b Hb]. rewrite Hb. cbn [bind].
  destruct (le_new_total E L {| pk_bytes := b; pk_element := random_element ct |} share (pk_element key)
     (random_element ct * share)%E (decryption_share_transcript ks i) r Ht) as (p & t' & r' & H).
  rewrite H. cbn [bind]. eauto.
Qed.

Lemma participant_pop_complete (ks : PublicKeySet E) i share a r pop r' :
  ActiveParticipant_new ks i share = Ret (Ok a) ->
  ActiveParticipant_proof_of_possession a r = Ret (pop, r') ->
  PublicKeySet_verify_participant ks i pop = Ret (Ok tt).
Proof.
  intros Ha. apply participant_new_iff in Ha. destruct Ha as (-> & key & Hk & Hs).
  unfold ActiveParticipant_proof_of_possession, ActiveParticipant_public_key_share, index.
  cbn [ap_key_set ap_index ap_secret_share]. rewrite Hk. cbn [bind].
  intros H. inv_bind H. destruct a as [[p tf] r1]. injection H as <- <-.
  apply (pop_complete_keys E L) in Hm; [|constructor; [exact Hs|constructor]].
  unfold PublicKeySet_verify_participant, PublicKeySet_participant_key. rewrite Hk, Hm. reflexivity.
Qed.

Lemma verify_participant_iff (ks : PublicKeySet E) i pop :
  PublicKeySet_verify_participant ks i pop = Ret (Ok tt) <->
  exists key X s b, nth_error (ks_participant_keys ks) i = Some key /\ pop_responses pop = [s] /\
    X = (generator * s - pk_element key * pop_challenge pop)%E /\ serialize_element X = Ret b /\
    oracle (share_context "elgamal_participant_pop" ks i ++
            [TMsg "dom-sep" (str_bytes "multi_pop"); TMsg "K" (pk_bytes key); TMsg "R" b]) "c" = pop_challenge pop.
Proof.
  unfold PublicKeySet_verify_participant, PublicKeySet_participant_key.
  destruct (nth_error (ks_participant_keys ks) i) as [key|]; cbn [bind].
  2:{ split; [discriminate|]. intros (key & X & s & b & Hc & _). discriminate. }
  change (participant_pop_transcript ks i) with (share_context "elgamal_participant_pop" ks i).
  assert (Hiff : forall tf, ProofOfPossession_verify pop [key] (share_context "elgamal_participant_pop" ks i) = Ret (Ok tt, tf) <->
    exists X s b, pop_responses pop = [s] /\
    X = (generator * s - pk_element key * pop_challenge pop)%E /\ serialize_element X = Ret b /\
    oracle (share_context "elgamal_participant_pop" ks i ++
            [TMsg "dom-sep" (str_bytes "multi_pop"); TMsg "K" (pk_bytes key); TMsg "R" b]) "c" = pop_challenge pop /\
    tf = (share_context "elgamal_participant_pop" ks i ++
            [TMsg "dom-sep" (str_bytes "multi_pop"); TMsg "K" (pk_bytes key); TMsg "R" b]) ++ [TChal "c"]).
  { intros tf. rewrite (pop_verify_ok_iff E L). split.
    - intros (xs & bs & [Hl Hx] & He & Ho & Ht). destruct (pop_responses pop) as [|s [|s' rs]]; cbn in Hl; try discriminate.
      cbn [map combine] in Hx. subst xs. inversion He as [|? b ? ? Hb Hn]; subst. inversion Hn; subst.
      eexists _, s, b. split; [reflexivity|]. split; [reflexivity|]. cbn [fst snd] in Hb. split; [exact Hb|].
      split; [exact Ho|reflexivity].
    - intros (X & s & b & Hr & HX & Hb & Ho & Ht). exists [X], [b]. rewrite Hr. split; [split; [reflexivity|cbn; subst; reflexivity]|].
      split; [constructor; [exact Hb|constructor]|]. split; [exact Ho|exact Ht]. }
  destruct (ProofOfPossession_verify pop [key] _) as [[res tf]|k] eqn:Hv; cbn [bind].
  - split.
    + intros H. injection H as ->. destruct (proj1 (Hiff tf) eq_refl) as (X & s & b & H1 & H2 & H3 & H4 & _).
      exists key, X, s, b. auto.
    + intros (key' & X & s & b & Hk & H1 & H2 & H3 & H4). injection Hk as <-.
      assert (Hx : Ret (res, tf) = Ret (Ok tt, (share_context "elgamal_participant_pop" ks i ++
            [TMsg "dom-sep" (str_bytes "multi_pop"); TMsg "K" (pk_bytes key); TMsg "R" b]) ++ [TChal "c"])).
      { apply Hiff. exists X, s, b. auto. }
      injection Hx as -> _. reflexivity.
  - split; [discriminate|]. intros (key' & X & s & b & Hk & H1 & H2 & H3 & H4). injection Hk as <-.
    assert (Hx : @Panic (result unit VerificationError * transcript) k = Ret (Ok tt, (share_context "elgamal_participant_pop" ks i ++
            [TMsg "dom-sep" (str_bytes "multi_pop"); TMsg "K" (pk_bytes key); TMsg "R" b]) ++ [TChal "c"])).
    { apply Hiff. exists X, s, b. auto. }
    discriminate.
Qed.

(** ** what the hash inputs fix *)
Lemma str_bytes_inj a b : str_bytes a = str_bytes b -> a = b.
Proof.
  intros H. unfold str_bytes in H. rewrite <- (string_of_list_byte_of_string a), H. apply string_of_list_byte_of_string.
Qed.

Lemma share_context_inj dom dom' (ks ks' : PublicKeySet E) i i' rest rest' :
  usize (pa_shares (ks_params ks)) -> usize (pa_shares (ks_params ks')) ->
  usize (pa_threshold (ks_params ks)) -> usize (pa_threshold (ks_params ks')) -> usize i -> usize i' ->
  share_context dom ks i ++ rest = share_context dom' ks' i' ++ rest' ->
  dom = dom' /\ ks_params ks = ks_params ks' /\ pk_bytes (ks_shared_key ks) = pk_bytes (ks_shared_key ks') /\
  i = i' /\ rest = rest'.
Proof.
  intros Hn Hn' Ht Ht' Hi Hi' H. unfold share_context in H. cbn [app] in H.
  assert (Hmsg : forall l m m' r r', TMsg l m :: r = TMsg l m' :: r' -> m = m' /\ r = r')
    by (intros l m m' r r' Hx; split; congruence).
  apply Hmsg in H. destruct H as [H1 H]. apply Hmsg in H. destruct H as [H2 H].
  apply Hmsg in H. destruct H as [H3 H]. apply Hmsg in H. destruct H as [H4 H].
  apply Hmsg in H. destruct H as [H5 H].
  apply str_bytes_inj in H1. unfold usize in *.
  apply le_bytes_inj in H2; [|assumption..]. apply le_bytes_inj in H3; [|assumption..].
  apply le_bytes_inj in H5; [|assumption..].
  split; [exact H1|]. split; [|split; [exact H4|]; split; [lia|exact H]].
  destruct (ks_params ks), (ks_params ks'); cbn in *. f_equal; lia.
Qed.

(** ** secrecy: fewer than [t] shares fit any secret *)
Definition node' (k : nat) : scalar := match k with O => 0%S | S i => node i end.

Lemma pad_length (p : list scalar) t : List.length p <= t ->
  exists q, List.length q = t /\ forall x, peval q x = peval p x.
Proof.
  intros H. exists (p ++ repeat 0%S (t - List.length p)). split; [rewrite app_length, repeat_length; lia|].
  intros x. induction p as [|c p IH]; cbn [app List.length peval].
  - rewrite Nat.sub_0_r. apply peval_zero; [exact L|]. apply Forall_forall. intros y Hy. apply repeat_spec in Hy. exact Hy.
  - cbn [List.length] in H. replace (t - S (List.length p)) with (pred t - List.length p) by lia.
    f_equal. f_equal.
    assert (Hg : forall n, peval (p ++ repeat 0%S n) x = peval p x).
    { clear IH. intros n. induction p as [|c' p IH]; cbn [app peval]; [|rewrite IH by (cbn in H; lia); reflexivity].
      apply peval_zero; [exact L|]. apply Forall_forall. intros y Hy. apply repeat_spec in Hy. exact Hy. }
    apply Hg.
Qed.

Lemma secrecy is_ (y : nat -> scalar) (secret : scalar) t :
  NoDup is_ -> (forall i, In i is_ -> usize (i + 1)) -> List.length is_ < t ->
  exists p, List.length p = t /\ peval p 0%S = secret /\ forall i, In i is_ -> peval p (node i) = y i.
Proof.
  intros Hnd Hu Hl.
  set (is' := 0 :: map S is_). set (y' := fun k => match k with O => secret | S i => y i end).
  assert (Hnd' : NoDup is').
  { constructor.
    - intros Hc. apply in_map_iff in Hc. destruct Hc as (x & Hx & _). discriminate.
    - apply FinFun.Injective_map_NoDup; [|exact Hnd]. intros a b. lia. }
  assert (Hinj : forall a b, In a is' -> In b is' -> node' a = node' b -> a = b).
  { assert (Hx : forall a, In (S a) is' -> usize (a + 1)).
    { intros a [Hc|Hc]; [discriminate|]. apply in_map_iff in Hc. destruct Hc as (x & Hx & Hin). injection Hx as ->. auto. }
    intros [|a] [|b] Ha Hb He; cbn [node'] in He.
    - reflexivity.
    - symmetry in He. apply node_neq_0 in He; [contradiction|auto].
    - apply node_neq_0 in He; [contradiction|auto].
    - f_equal. apply node_inj; auto. }
  destruct (pad_length (lag_interp L node' is' y') t) as (p & Hp & He).
  { rewrite (lag_interp_length L); first [assumption|idtac]. unfold is'. cbn. rewrite map_length. lia. }
  exists p. split; [exact Hp|]. split.
  - rewrite He. change (0%S : scalar) with (node' 0).
    rewrite (lag_interp_node L node' is' Hnd' Hinj y' 0); [reflexivity|left; reflexivity].
  - intros i Hi. rewrite He. change (node i) with (node' (S i)).
    rewrite (lag_interp_node L node' is' Hnd' Hinj y' (S i)); [reflexivity|].
    right. apply in_map. exact Hi.
Qed.

Lemma secrecy_unique is_ (p q : list scalar) t :
  NoDup is_ -> (forall i, In i is_ -> usize (i + 1)) -> S (List.length is_) = t ->
  List.length p = t -> List.length q = t -> peval p 0%S = peval q 0%S ->
  (forall i, In i is_ -> peval p (node i) = peval q (node i)) -> p = q.
Proof.
  intros Hnd Hu Hl Hp Hq H0 Hi.
  apply (peval_unique L (0%S :: map node is_)).
  - constructor.
    + intros Hc. apply in_map_iff in Hc. destruct Hc as (i & Hc & Hin). apply node_neq_0 in Hc; auto.
    + clear Hl Hi. induction is_ as [|i is_ IH]; cbn [map]; constructor.
      * intros Hc. apply in_map_iff in Hc. destruct Hc as (j & Hc & Hin). apply node_inj in Hc.
        -- subst j. inversion Hnd; contradiction.
        -- apply Hu; right; exact Hin.
        -- apply Hu; left; reflexivity.
      * inversion Hnd; subst. apply IH; [assumption|]. intros j Hj. apply Hu. right. exact Hj.
  - congruence.
  - cbn [List.length]. rewrite map_length. lia.
  - intros x [<-|Hx]; [exact H0|]. apply in_map_iff in Hx. destruct Hx as (i & <- & Hin). auto.
Qed.

End Proofs.
