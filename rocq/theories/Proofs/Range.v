(** * Proofs about range decompositions (C18-C20) *)
From Coq Require Import List NArith ZArith Lia Bool Arith.
From Verif.Model Require Import Base Range.
From Verif.Spec Require Import Range.
From Verif.Proofs Require Import Algebra Lists.
Import ListNotations.
Open Scope N_scope.

Local Arguments n_sum : simpl never.

Lemma n_sum_nil : n_sum [] = 0. Proof. reflexivity. Qed.
Lemma n_sum_cons x l : n_sum (x :: l) = x + n_sum l. Proof. reflexivity. Qed.
Lemma n_sum_app l l' : n_sum (l ++ l') = n_sum l + n_sum l'.
Proof. induction l as [|x l IH]; [reflexivity|]. cbn [app]. rewrite !n_sum_cons, IH. lia. Qed.
Ltac nsum := cbn [map length app rs_size rs_step spec_scale] in *; rewrite ?map_app, ?n_sum_app, ?n_sum_cons, ?n_sum_nil in *; cbn [rs_size rs_step spec_scale] in *.

(** ** checked arithmetic *)
Lemma u64_add_ok b x y : x + y < u64_lim -> u64_add b x y = Ret (x + y).
Proof. intros H. unfold u64_add, u64_fit. apply N.ltb_lt in H. rewrite H. reflexivity. Qed.
Lemma u64_mul_ok b x y : x * y < u64_lim -> u64_mul b x y = Ret (x * y).
Proof. intros H. unfold u64_mul, u64_fit. apply N.ltb_lt in H. rewrite H. reflexivity. Qed.
Lemma u64_sub_ok b x y : y <= x -> u64_sub b x y = Ret (x - y).
Proof. intros H. unfold u64_sub. apply N.leb_le in H. rewrite H. reflexivity. Qed.

Lemma u64_lim_pos : 2 < u64_lim.
Proof. reflexivity. Qed.

(** ** the documented form *)
Lemma doc_form_ge2 n d : doc_form n d -> 2 <= n.
Proof. induction 1; nia. Qed.


Lemma doc_form_nonempty n d : doc_form n d -> d <> [].
Proof. destruct 1; [discriminate|]. intros H'. apply app_eq_nil in H' as [_ H']. discriminate. Qed.

Lemma doc_form_rings n d : doc_form n d -> Forall (fun s => 2 <= rs_size s /\ 1 <= rs_step s) d.
Proof.
  induction 1 as [t Ht|T d t k H IH Hk Ht].
  - repeat constructor; cbn; lia.
  - apply Forall_app. split; [|repeat constructor; cbn; lia].
    apply Forall_map. eapply Forall_impl; [|exact IH]. cbn. intros s [H1 H2]. split; [exact H1|nia].
Qed.

Lemma n_sum_scale k (d : RangeDecomposition) :
  n_sum (map (fun s => (rs_size s - 1) * rs_step s) (map (spec_scale k) d)) =
  k * n_sum (map (fun s => (rs_size s - 1) * rs_step s) d).
Proof. induction d as [|s d IH]; nsum; [lia|]. rewrite IH. nia. Qed.

Lemma doc_form_bound n d : doc_form n d -> n_sum (map (fun s => (rs_size s - 1) * rs_step s) d) + 1 = n.
Proof.
  induction 1 as [t Ht|T d t k H IH Hk Ht]; [nsum; lia|].
  pose proof (doc_form_ge2 _ _ H). rewrite map_app, n_sum_app, n_sum_scale. nsum. nia.
Qed.

(** ** upper bound and sizes computed by the code *)
Lemma u64_sum_ok b l : forall acc, acc + n_sum l < u64_lim -> u64_sum b acc l = Ret (acc + n_sum l).
Proof.
  induction l as [|x l IH]; intros acc H; nsum; cbn [u64_sum]; [rewrite N.add_0_r; reflexivity|].
  rewrite u64_add_ok by lia. cbn. rewrite IH by lia. f_equal. lia.
Qed.

Lemma n_sum_in l x : In x l -> x <= n_sum l.
Proof. induction l as [|y l IH]; nsum; [contradiction|]. intros [->|H]; [lia|]. specialize (IH H). lia. Qed.

Lemma mapM_ret {A B : Type} (f : A -> outcome B) (g : A -> B) l :
  (forall x, In x l -> f x = Ret (g x)) -> mapM f l = Ret (map g l).
Proof.
  induction l as [|x l IH]; intros H; [reflexivity|]. cbn. rewrite H by (left; reflexivity). cbn.
  rewrite IH; [reflexivity|]. intros; apply H; right; assumption.
Qed.

Lemma upper_bound_ok b n d : doc_form n d -> n < u64_lim -> RangeDecomposition_upper_bound b d = Ret n.
Proof.
  intros H Hn. pose proof (doc_form_bound _ _ H) as Hb. pose proof (doc_form_rings _ _ H) as Hr.
  unfold RangeDecomposition_upper_bound.
  rewrite (mapM_ret _ (fun s => (rs_size s - 1) * rs_step s)).
  - cbn [bind]. rewrite u64_sum_ok by lia. cbn [bind]. rewrite u64_add_ok by lia. f_equal. lia.
  - intros s Hs. rewrite Forall_forall in Hr. destruct (Hr s Hs). rewrite u64_sub_ok by lia. cbn [bind].
    apply u64_mul_ok. apply (in_map (fun s => (rs_size s - 1) * rs_step s)) in Hs. apply n_sum_in in Hs. lia.
Qed.

Lemma n_sum_le (f g : RingSpec -> N) (d : RangeDecomposition) :
  Forall (fun s => f s <= g s) d -> n_sum (map f d) <= n_sum (map g d).
Proof. induction 1; nsum; lia. Qed.

(** rings of a decomposition of [0..n] have together at most [n] members *)
Lemma n_sum_size_le n d : doc_form n d -> n_sum (map rs_size d) <= n + N.of_nat (length d) - 1.
Proof.
  intros H. pose proof (doc_form_bound _ _ H) as Hb. pose proof (doc_form_rings _ _ H) as Hr.
  assert (Hl : n_sum (map rs_size d) = n_sum (map (fun s => rs_size s - 1) d) + N.of_nat (length d)).
  { clear - Hr. induction Hr as [|s d [H1 H2] _ IH]; [reflexivity|]. nsum. lia. }
  assert (Hle : n_sum (map (fun s => rs_size s - 1) d) <= n_sum (map (fun s => (rs_size s - 1) * rs_step s) d)).
  { apply n_sum_le. eapply Forall_impl; [|exact Hr]. cbn. intros s [H1 H2]. nia. }
  lia.
Qed.

(** ** decomposition of values *)
Lemma composed_cons i idx s d : composed (s :: d) (i :: idx) = i * rs_step s + composed d idx.
Proof. reflexivity. Qed.

Lemma composed_nil : composed [] [] = 0. Proof. reflexivity. Qed.
Ltac ncomp := rewrite ?composed_cons, ?composed_nil in *; cbn [rs_size rs_step spec_scale] in *.

Lemma composed_app d1 d2 i1 i2 : length i1 = length d1 -> composed (d1 ++ d2) (i1 ++ i2) = composed d1 i1 + composed d2 i2.
Proof.
  revert i1; induction d1 as [|s d1 IH]; intros [|i i1] H; try discriminate; [reflexivity|].
  cbn [app]. rewrite !composed_cons, IH by (cbn in H; lia). lia.
Qed.

Lemma scale_scale k c (d : RangeDecomposition) : map (spec_scale c) (map (spec_scale k) d) = map (spec_scale (k * c)) d.
Proof. rewrite map_map. apply map_ext. intros s. unfold spec_scale. cbn. f_equal. lia. Qed.

(** the greedy algorithm takes as much of [v] as the rings can represent *)
Lemma decompose_greedy b n d : doc_form n d -> forall c v rest, 1 <= c -> v < u64_lim ->
  exists idx, in_rings (map (spec_scale c) d) idx /\
    composed (map (spec_scale c) d) idx = c * N.min (v / c) (n - 1) /\
    RangeDecomposition_decompose b (map (spec_scale c) d ++ rest) v =
    (r <- RangeDecomposition_decompose b rest (v - c * N.min (v / c) (n - 1)) ;; Ret (idx ++ r)).
Proof.
  induction 1 as [t Ht|T d t k H IH Hk Ht]; intros c v rest Hc Hv.
  - exists [N.min (v / c) (t - 1)]. cbn [map spec_scale rs_size rs_step app].
    split; [repeat constructor; cbn; lia|]. split; [ncomp; lia|].
    cbn [RangeDecomposition_decompose]; cbv [spec_scale]; cbn [rs_size rs_step].
    replace (1 * c =? 0) with false by (symmetry; apply N.eqb_neq; lia). cbn [bind]. rewrite N.mul_1_l.
    rewrite u64_sub_ok by lia. cbn [bind].
    replace (if t - 1 <? v / c then t - 1 else v / c) with (N.min (v / c) (t - 1))
      by (destruct (N.ltb_spec (t - 1) (v / c)); lia).
    pose proof (N.mul_div_le v c). assert (Hle : N.min (v / c) (t - 1) * c <= v) by nia.
    rewrite u64_mul_ok by lia. cbn [bind]. rewrite u64_sub_ok by lia. cbn [bind].
    rewrite (N.mul_comm (N.min (v / c) (t - 1)) c). destruct (RangeDecomposition_decompose b rest _); reflexivity.
  - pose proof (doc_form_ge2 _ _ H) as HT.
    rewrite map_app, scale_scale. cbn [map spec_scale rs_size rs_step].
    destruct (IH (k * c) v ([spec_scale c {| rs_size := t; rs_step := 1 |}] ++ rest)) as (idx & Hin & Hcomp & Hd); [nia|exact Hv|].
    set (m := N.min (v / (k * c)) (T - 1)) in *.
    set (r := v - k * c * m) in *.
    assert (Hm : k * c * m <= v).
    { pose proof (N.mul_div_le v (k * c)). assert (m <= v / (k * c)) by lia. nia. }
    set (last := N.min (r / c) (t - 1)).
    assert (Hlast : last * c <= r) by (pose proof (N.mul_div_le r c); assert (last <= r / c) by lia; nia).
    assert (Hr : r / c = v / c - k * m).
    { unfold r. assert (Hm1 : k * m * c <= v) by lia. replace (k * c * m) with (k * m * c) by lia. clear - Hc Hm1.
      pose proof (N.div_add (v - k * m * c) (k * m) c ltac:(lia)) as He.
      replace (v - k * m * c + k * m * c) with v in He by lia. rewrite He. symmetry. apply N.add_sub. }
    assert (Htot : k * m + last = N.min (v / c) (t + k * (T - 1) - 1)).
    { unfold last. rewrite Hr. subst m.
      assert (Hdd : v / (k * c) = v / c / k) by (rewrite N.mul_comm, N.div_div by lia; reflexivity).
      rewrite Hdd. generalize (v / c). intros u. pose proof (N.div_mod u k ltac:(lia)) as Hu.
      pose proof (N.mod_lt u k ltac:(lia)) as Hmod. clear - HT Hk Ht Hu Hmod. revert Hu Hmod.
      generalize (u / k) (u mod k). intros qq rr Hu Hmod.
      destruct (N.le_gt_cases qq (T - 1)).
      - rewrite (N.min_l qq) by lia. assert (u - k * qq = rr) by lia. nia.
      - rewrite (N.min_r qq) by lia. assert (k * T <= u) by nia. nia. }
    exists (idx ++ [last]). split; [|split].
    + apply Forall2_app; [exact Hin|]. repeat constructor. cbn. lia.
    + rewrite composed_app by (apply Forall2_length' in Hin; exact Hin). rewrite Hcomp, <- Htot. ncomp. lia.
    + rewrite <- app_assoc. rewrite Hd. cbn [app RangeDecomposition_decompose]; cbv [spec_scale]; cbn [rs_size rs_step].
      replace (1 * c =? 0) with false by (symmetry; apply N.eqb_neq; lia). cbn [bind]. rewrite !N.mul_1_l.
      rewrite u64_sub_ok by lia. cbn [bind].
      replace (if t - 1 <? r / c then t - 1 else r / c) with last
        by (unfold last; destruct (N.ltb_spec (t - 1) (r / c)); lia).
      rewrite u64_mul_ok by (unfold r in *; lia). cbn [bind]. rewrite u64_sub_ok by lia. cbn [bind].
      rewrite <- Htot. replace (v - c * (k * m + last)) with (r - last * c) by (unfold r; lia).
      destruct (RangeDecomposition_decompose b rest _); cbn [bind]; [|reflexivity]. rewrite <- app_assoc. reflexivity.
Qed.

Lemma scale_1 (d : RangeDecomposition) : map (spec_scale 1) d = d.
Proof. induction d as [|[s k] d IH]; [reflexivity|]. cbn. rewrite IH. unfold spec_scale. cbn. rewrite N.mul_1_r. reflexivity. Qed.

Lemma decompose_ok b n d v : doc_form n d -> n <= u64_lim -> v < n ->
  exists idx, RangeDecomposition_decompose b d v = Ret idx /\ in_rings d idx /\ composed d idx = v.
Proof.
  intros H Hn Hv. destruct (decompose_greedy b n d H 1 v [] ltac:(lia) ltac:(lia)) as (idx & Hin & Hc & Hd).
  rewrite scale_1, app_nil_r in *. exists idx. rewrite Hd, Hc.
  rewrite N.div_1_r. replace (N.min v (n - 1)) with v by lia. rewrite N.mul_1_l, N.sub_diag in *.
  cbn. unfold debug_assert. destruct (debug_assertions b); cbn; rewrite app_nil_r; auto.
Qed.

Lemma composed_bound n d idx : doc_form n d -> in_rings d idx -> composed d idx < n.
Proof.
  intros H Hin. pose proof (doc_form_bound _ _ H) as Hb. enough (composed d idx <= n_sum (map (fun s => (rs_size s - 1) * rs_step s) d)) by lia.
  clear H Hb. induction Hin as [|i s idx d Hi _ IH]; [apply N.le_refl|]. rewrite composed_cons. nsum. assert (i * rs_step s <= (rs_size s - 1) * rs_step s) by (apply N.mul_le_mono_r; lia). lia.
Qed.

Lemma composed_nil_l idx : composed [] idx = 0.
Proof. destruct idx; reflexivity. Qed.
Lemma composed_nil_r d : composed d [] = 0.
Proof. reflexivity. Qed.
Lemma composed_scale k d : forall idx, composed (map (spec_scale k) d) idx = k * composed d idx.
Proof.
  induction d as [|s d IH]; intros [|i idx]; cbn [map]; rewrite ?composed_nil_l, ?composed_nil_r; try lia.
  rewrite !composed_cons, IH. cbv [spec_scale]. cbn [rs_step]. lia.
Qed.

Lemma covers_exactly n d : doc_form n d -> forall v, (exists idx, in_rings d idx /\ composed d idx = v) <-> v < n.
Proof.
  intros H v. split.
  - intros (idx & Hin & <-). apply composed_bound; assumption.
  - intros Hv.
    (* no bound on the integers is needed here: use the greedy algorithm's arithmetic directly *)
    revert v Hv. induction H as [t Ht|T d t k H IH Hk Ht]; intros v Hv.
    + exists [v]. split; [repeat constructor; exact Hv|]. ncomp. lia.
    + pose proof (doc_form_ge2 _ _ H) as HT.
      destruct (N.le_gt_cases (v / k) (T - 1)) as [Hle|Hgt].
      * destruct (IH (v / k) ltac:(lia)) as (idx & Hin & Hc). exists (idx ++ [v mod k]).
        pose proof (N.mod_lt v k). split.
        -- apply Forall2_app; [|repeat constructor; cbn; lia]. clear - Hin. induction Hin; constructor; auto.
        -- rewrite composed_app by (rewrite map_length; apply Forall2_length' in Hin; exact Hin).
           rewrite composed_scale, Hc. ncomp. pose proof (N.div_mod v k). lia.
      * destruct (IH (T - 1) ltac:(lia)) as (idx & Hin & Hc). exists (idx ++ [v - k * (T - 1)]).
        assert (k * T <= v) by (pose proof (N.mul_div_le v k); nia). split.
        -- apply Forall2_app; [|repeat constructor; cbn; lia]. clear - Hin. induction Hin; constructor; auto.
        -- rewrite composed_app by (rewrite map_length; apply Forall2_length' in Hin; exact Hin).
           rewrite composed_scale, Hc. ncomp. nia.
Qed.

(** ** [optimize] returns decompositions of the documented form, whatever the estimate *)
Definition opt_ok (n : N) (o : OptimalDecomposition) : Prop := doc_form n (od_decomposition o).
Definition memo_ok (m : opt_memo) : Prop := forall n o, memo_get m n = Some o -> opt_ok n o.

Lemma combine_mul_ok b T d t k :
  doc_form T d -> t + k * (T - 1) < u64_lim -> 2 <= k -> k <= t ->
  range_combine_mul b d t k = Ret (map (spec_scale k) d ++ [{| rs_size := t; rs_step := 1 |}]).
Proof.
  intros H Hlim Hk Ht. unfold range_combine_mul. rewrite (mapM_ret _ (spec_scale k)); [reflexivity|].
  intros s Hs. pose proof (doc_form_bound _ _ H) as Hb. pose proof (doc_form_rings _ _ H) as Hr.
  rewrite Forall_forall in Hr. destruct (Hr s Hs) as [H1 H2].
  pose proof (in_map (fun s => (rs_size s - 1) * rs_step s) _ _ Hs) as Hin. apply n_sum_in in Hin.
  assert (Hstep : rs_step s * k < u64_lim).
  { assert (rs_step s <= T - 1) by nia. nia. }
  rewrite u64_mul_ok by exact Hstep. reflexivity.
Qed.

Lemma N_range_cons lo hi : lo <= hi -> N_range lo hi = lo :: N_range (lo + 1) hi.
Proof.
  intros H. unfold N_range. replace (N.to_nat (hi + 1) - N.to_nat lo)%nat with (S (N.to_nat (hi + 1) - N.to_nat (lo + 1))) by lia.
  cbn [seq map]. rewrite N2Nat.id. replace (N.to_nat (lo + 1)) with (S (N.to_nat lo)) by lia. reflexivity.
Qed.
Lemma N_range_nil lo hi : hi < lo -> N_range lo hi = [].
Proof. intros H. unfold N_range. replace (N.to_nat (hi + 1) - N.to_nat lo)%nat with 0%nat by lia. reflexivity. Qed.
Lemma N_range_in lo hi x : In x (N_range lo hi) <-> lo <= x <= hi.
Proof.
  unfold N_range. rewrite in_map_iff. split.
  - intros (i & <- & Hi). apply in_seq in Hi. lia.
  - intros H. exists (N.to_nat x). split; [apply N2Nat.id|]. apply in_seq. lia.
Qed.

Lemma optimize_inner_valid b est rec n t ks : forall opt m opt' m',
  (forall T mm oo mm', memo_ok mm -> rec T mm = Ret (oo, mm') -> 2 <= T -> T + 4 < u64_lim -> opt_ok T oo /\ memo_ok mm') ->
  t <= n -> n + 4 < u64_lim -> Forall (fun k => 2 <= k <= t) ks ->
  opt_ok n opt -> memo_ok m ->
  optimize_inner b est rec t (n - t) ks opt m = Ret (opt', m') ->
  opt_ok n opt' /\ memo_ok m' /\ od_len opt' <= od_len opt.
Proof.
  induction ks as [|k ks IH]; intros opt m opt' m' Hrec Ht Hn Hks Hopt Hm H; cbn [optimize_inner] in H.
  - injection H as <- <-. auto using N.le_refl.
  - inversion Hks as [|? ? Hk Hks']; subst.
    destruct (N.eqb_spec ((n - t) mod k) 0) as [Hmod|Hmod]; cbn [negb] in H; [|eauto].
    assert (Hdiv : n - t = k * ((n - t) / k)) by (pose proof (N.div_mod (n - t) k); lia).
    rewrite u64_add_ok in H by nia. cbn [bind] in H. set (T := (n - t) / k + 1) in *.
    destruct (N.ltb_spec T 2); [injection H as <- <-; auto using N.le_refl|].
    inv_bind H. inv_bind H. destruct (od_len opt <? a0); [eauto|].
    inv_bind H. destruct a1 as [inner m1]. apply Hrec in Hm2 as [Hi Hmm]; [|assumption|assumption|nia].
    inv_bind H. inv_bind H.
    assert (Hnt : n = t + k * (T - 1)) by (unfold T; nia).
    destruct ((a2 <? od_len opt) || ((a2 =? od_len opt) && (1 + length (od_decomposition inner) <? length (od_decomposition opt))%nat)) eqn:Hbetter; [|eauto].
    rewrite (combine_mul_ok b T) in H by (try assumption; lia). cbn [bind] in H.
    apply IH in H as (H1 & H2 & H3); auto.
    + split; [exact H1|]. split; [exact H2|]. cbn in H3. apply orb_true_iff in Hbetter as [Hb|Hb].
      * apply N.ltb_lt in Hb. lia.
      * apply andb_true_iff in Hb as [Hb _]. apply N.eqb_eq in Hb. lia.
    + unfold opt_ok. cbn. rewrite Hnt at 1. constructor; [exact Hi|lia|lia].
Qed.

Lemma optimize_outer_valid b est rec n fuel : forall t opt m opt' m',
  (forall T mm oo mm', memo_ok mm -> rec T mm = Ret (oo, mm') -> 2 <= T -> T + 4 < u64_lim -> opt_ok T oo /\ memo_ok mm') ->
  2 <= t -> t <= n + 1 -> n + 4 < u64_lim -> opt_ok n opt -> memo_ok m -> od_len opt <= n + 2 ->
  optimize_outer b est rec fuel n t opt m = Ret (opt', m') ->
  opt_ok n opt' /\ memo_ok m'.
Proof.
  induction fuel as [|fuel IH]; intros t opt m opt' m' Hrec Ht Htn Hn Hopt Hm Hlen H; [discriminate|].
  cbn [optimize_outer] in H. rewrite u64_add_ok in H by lia.
  cbn [bind] in H. destruct (N.ltb_spec (od_len opt) (t + 2)) as [Hb|Hb]; [injection H as <- <-; auto|].
  rewrite u64_sub_ok in H by lia. cbn [bind] in H.
  inv_bind H. destruct a as [opt1 m1]. apply (optimize_inner_valid b est rec n) in Hm0 as (H1 & H2 & H3); auto; try lia.
  - apply IH in H; auto; lia.
  - apply Forall_forall. intros k Hk. apply N_range_in in Hk. exact Hk.
Qed.

Lemma optimize_valid b est depth : forall n m opt m',
  2 <= n -> n + 4 < u64_lim -> memo_ok m -> optimize b est depth n m = Ret (opt, m') -> opt_ok n opt /\ memo_ok m'.
Proof.
  induction depth as [|depth IH]; intros n m opt m' Hn Hlim Hm H; [discriminate|].
  cbn [optimize] in H. destruct (memo_get m n) as [o|] eqn:Hget.
  - injection H as <- <-. auto.
  - rewrite u64_add_ok in H by lia. cbn [bind] in H. inv_bind H. destruct a as [o m1].
    apply optimize_outer_valid in Hm0 as [H1 H2]; auto; try lia; try (cbn; lia).
    + inv_bind H. injection H as <- <-. split; [exact H1|]. intros k o' Hk. unfold memo_get in Hk. cbn in Hk.
      destruct (N.eqb_spec n k) as [<-|]; [injection Hk as <-; exact H1|]. apply H2. exact Hk.
    + intros T mm oo mm' H1 H2 H3 H4. eapply IH; eassumption.
    + constructor. exact Hn.
Qed.

Lemma optimal_valid b est n d : n + 4 < u64_lim -> RangeDecomposition_optimal b est n = Ret d -> doc_form n d.
Proof.
  intros Hlim H. unfold RangeDecomposition_optimal in H. unfold assert in H.
  destruct (N.leb_spec 2 n) as [Hn|]; [|discriminate]. cbn [bind] in H. inv_bind H. destruct a as [o m].
  injection H as <-. eapply (optimize_valid b est) in Hm as [H1 _]; [exact H1|exact Hn|exact Hlim|].
  intros k o' Hk. discriminate.
Qed.

(** ** reference search: no memo table, no pruning *)
Definition better (n_len : N) (n_rings : nat) (o : OptimalDecomposition) : bool :=
  (n_len <? od_len o) || ((n_len =? od_len o) && (n_rings <? length (od_decomposition o))%nat).

Section Reference.
Variable rec : N -> OptimalDecomposition.

Definition ref_cand (t k : N) (inner : OptimalDecomposition) : OptimalDecomposition :=
  {| od_decomposition := map (spec_scale k) (od_decomposition inner) ++ [{| rs_size := t; rs_step := 1 |}];
     od_len := t + 2 + od_len inner |}.

Definition ref_step (n t : N) (opt : OptimalDecomposition) (k : N) : OptimalDecomposition :=
  if ((n - t) mod k =? 0) && negb (n - t =? 0) then
    let inner := rec ((n - t) / k + 1) in
    if better (t + 2 + od_len inner) (1 + length (od_decomposition inner)) opt then ref_cand t k inner else opt
  else opt.

Definition ref_inner (n : N) (opt : OptimalDecomposition) (t : N) : OptimalDecomposition :=
  fold_left (ref_step n t) (N_range 2 t) opt.

Definition ref_outer (n t : N) (opt : OptimalDecomposition) : OptimalDecomposition :=
  fold_left (ref_inner n) (N_range t n) opt.
End Reference.

Definition just_opt (n : N) : OptimalDecomposition := {| od_decomposition := range_just n; od_len := n + 2 |}.

Fixpoint ref (depth : nat) (n : N) : OptimalDecomposition :=
  match depth with
  | O => just_opt n
  | S depth' => ref_outer (ref depth') n 2 (just_opt n)
  end.

(** canonical depth *)
Definition ref_opt (n : N) : OptimalDecomposition := ref (N.size_nat n) n.

Lemma inner_bound n t k : 2 <= t -> t <= n -> 2 <= k -> k <= t -> (n - t) mod k = 0 -> n - t <> 0 ->
  let T := (n - t) / k + 1 in 2 <= T /\ n = t + k * (T - 1) /\ T <= n / 2.
Proof.
  intros Ht Htn Hk Hkt Hmod Hne T.
  assert (Hdiv : n - t = k * ((n - t) / k)) by (pose proof (N.div_mod (n - t) k); lia).
  assert (1 <= (n - t) / k) by nia.
  split; [unfold T; lia|]. split; [unfold T; lia|].
  apply N.div_le_lower_bound; [lia|]. unfold T. nia.
Qed.

Lemma size_nat_half n : 2 <= n -> forall T, T <= n / 2 -> (S (N.size_nat T) <= N.size_nat n)%nat.
Proof.
  intros Hn T HT. destruct n as [|p]; [lia|]. rewrite <- N.div2_div in HT.
  assert (Hm : forall q, N.pos q <= N.div2 (N.pos p) -> (S (Pos.size_nat q) <= Pos.size_nat p)%nat).
  { intros q Hq. destruct p as [p|p|]; cbn [N.div2 Pos.size_nat] in *; [| |lia];
      (destruct (Pos.eq_dec q p) as [->|Hne]; [lia|]; apply le_n_S, Pos.size_nat_monotone; lia). }
  destruct T as [|q]; [|apply Hm; exact HT]. cbn. destruct p; cbn; lia.
Qed.

Lemma fold_left_ext_in {A B : Type} (f g : A -> B -> A) l : forall a,
  (forall a x, In x l -> f a x = g a x) -> fold_left f l a = fold_left g l a.
Proof.
  induction l as [|x l IH]; intros a H; [reflexivity|]. cbn. rewrite H by (left; reflexivity).
  apply IH. intros; apply H; right; assumption.
Qed.

Lemma ref_outer_ext rec rec' n t opt : 2 <= t ->
  (forall T, 2 <= T -> T <= n / 2 -> rec T = rec' T) -> ref_outer rec n t opt = ref_outer rec' n t opt.
Proof.
  intros Ht2 H. unfold ref_outer. apply fold_left_ext_in. intros o x Hx. apply N_range_in in Hx.
  unfold ref_inner. apply fold_left_ext_in. intros o' k Hk. apply N_range_in in Hk. unfold ref_step.
  destruct (N.eqb_spec ((n - x) mod k) 0) as [Hmod|]; [|reflexivity].
  destruct (N.eqb_spec (n - x) 0) as [|Hne]; [reflexivity|]. cbn [andb negb].
  destruct (inner_bound n x k) as (H1 & H2 & H3); try lia. rewrite H by assumption. reflexivity.
Qed.

Lemma ref_depth : forall depth n, 2 <= n -> (N.size_nat n <= depth)%nat -> ref depth n = ref_opt n.
Proof.
  assert (H : forall d1 d2 n, 2 <= n -> (N.size_nat n <= d1)%nat -> (N.size_nat n <= d2)%nat -> ref d1 n = ref d2 n).
  { induction d1 as [|d1 IH]; intros d2 n Hn H1 H2.
    - destruct n as [|p]; [lia|]. cbn in H1. destruct p; cbn in H1; lia.
    - destruct d2 as [|d2]; [destruct n as [|p]; [lia|]; cbn in H2; destruct p; cbn in H2; lia|].
      cbn [ref]. apply ref_outer_ext; [lia|]. intros T HT1 HT2. apply size_nat_half in HT2; [|exact Hn].
      apply IH; lia. }
  intros depth n Hn Hd. apply H; auto.
Qed.

Lemma ref_opt_eq n : 2 <= n -> ref_opt n = ref_outer ref_opt n 2 (just_opt n).
Proof.
  intros Hn. rewrite <- (ref_depth (S (N.size_nat n))) by lia. cbn [ref]. apply ref_outer_ext; [lia|].
  intros T HT1 HT2. apply size_nat_half in HT2; [|exact Hn]. apply ref_depth; lia.
Qed.

(** *** the reference search is valid and optimal *)
Definition cost (d : RangeDecomposition) : N := n_sum (map (fun s => rs_size s + 2) d).
Definition lex_le (l1 : N) (r1 : nat) (l2 : N) (r2 : nat) : Prop := l1 < l2 \/ (l1 = l2 /\ (r1 <= r2)%nat).
Definition opt_le (o o' : OptimalDecomposition) : Prop :=
  lex_le (od_len o) (length (od_decomposition o)) (od_len o') (length (od_decomposition o')).
Definition opt_valid (n : N) (o : OptimalDecomposition) : Prop :=
  doc_form n (od_decomposition o) /\ od_len o = cost (od_decomposition o).

Lemma opt_le_refl o : opt_le o o.
Proof. right. auto. Qed.
Lemma opt_le_trans o1 o2 o3 : opt_le o1 o2 -> opt_le o2 o3 -> opt_le o1 o3.
Proof. unfold opt_le, lex_le. intros. lia. Qed.

Lemma cost_nested k d t : cost (map (spec_scale k) d ++ [{| rs_size := t; rs_step := 1 |}]) = t + 2 + cost d.
Proof. unfold cost. rewrite map_app, n_sum_app, map_map. nsum. lia. Qed.

Lemma ref_step_spec rec n t k o :
  2 <= t -> t <= n -> 2 <= k -> k <= t -> opt_valid n o ->
  (forall T, 2 <= T -> T <= n / 2 -> opt_valid T (rec T)) ->
  opt_valid n (ref_step rec n t o k) /\ opt_le (ref_step rec n t o k) o /\
  ((n - t) mod k = 0 -> n - t <> 0 -> opt_le (ref_step rec n t o k) (ref_cand t k (rec ((n - t) / k + 1)))).
Proof.
  intros Ht Htn Hk Hkt Ho Hrec. unfold ref_step.
  destruct (N.eqb_spec ((n - t) mod k) 0) as [Hmod|]; [|cbn [andb negb]; split; [exact Ho|]; split; [apply opt_le_refl|]; intros; tauto].
  destruct (N.eqb_spec (n - t) 0) as [|Hne]; [cbn [andb negb]; split; [exact Ho|]; split; [apply opt_le_refl|]; intros; tauto|]. cbn [andb negb].
  destruct (inner_bound n t k) as (H1 & H2 & H3); try assumption.
  set (T := (n - t) / k + 1) in *. destruct (Hrec T H1 H3) as [Hv Hl].
  destruct (better _ _ o) eqn:Hb.
  - split; [split|].
    + cbn. rewrite H2 at 1. constructor; assumption.
    + cbn. rewrite cost_nested, Hl. reflexivity.
    + split; [|intros; apply opt_le_refl]. unfold better in Hb. unfold opt_le, lex_le. cbn. rewrite app_length, map_length. cbn.
      apply orb_true_iff in Hb as [Hb|Hb]; [apply N.ltb_lt in Hb; lia|].
      apply andb_true_iff in Hb as [Hb1 Hb2]. apply N.eqb_eq in Hb1. apply Nat.ltb_lt in Hb2. lia.
  - split; [exact Ho|]. split; [apply opt_le_refl|]. intros _ _. unfold better in Hb. unfold opt_le, lex_le. cbn.
    rewrite app_length, map_length. cbn. apply orb_false_iff in Hb as [Hb1 Hb2]. apply N.ltb_ge in Hb1.
    apply andb_false_iff in Hb2 as [Hb2|Hb2]; [apply N.eqb_neq in Hb2; lia|]. apply Nat.ltb_ge in Hb2. lia.
Qed.

Lemma ref_inner_spec rec n t ks : forall o,
  2 <= t -> t <= n -> Forall (fun k => 2 <= k <= t) ks -> opt_valid n o ->
  (forall T, 2 <= T -> T <= n / 2 -> opt_valid T (rec T)) ->
  let o' := fold_left (ref_step rec n t) ks o in
  opt_valid n o' /\ opt_le o' o /\
  forall k, In k ks -> (n - t) mod k = 0 -> n - t <> 0 -> opt_le o' (ref_cand t k (rec ((n - t) / k + 1))).
Proof.
  induction ks as [|k ks IH]; intros o Ht Htn Hks Ho Hrec; cbn.
  - split; [exact Ho|]. split; [apply opt_le_refl|]. tauto.
  - inversion Hks as [|? ? Hk Hks']; subst. destruct (ref_step_spec rec n t k o) as (H1 & H2 & H3); try lia; auto.
    destruct (IH (ref_step rec n t o k) Ht Htn Hks' H1 Hrec) as (I1 & I2 & I3).
    split; [exact I1|]. split; [eapply opt_le_trans; eassumption|].
    intros k' [->|Hin] Hmod Hne; [eapply opt_le_trans; [exact I2|auto]|auto].
Qed.

Lemma ref_outer_spec rec n ts : forall o,
  Forall (fun t => 2 <= t <= n) ts -> opt_valid n o ->
  (forall T, 2 <= T -> T <= n / 2 -> opt_valid T (rec T)) ->
  let o' := fold_left (ref_inner rec n) ts o in
  opt_valid n o' /\ opt_le o' o /\
  forall t k, In t ts -> 2 <= k <= t -> (n - t) mod k = 0 -> n - t <> 0 ->
    opt_le o' (ref_cand t k (rec ((n - t) / k + 1))).
Proof.
  induction ts as [|t ts IH]; intros o Hts Ho Hrec; cbn.
  - split; [exact Ho|]. split; [apply opt_le_refl|]. tauto.
  - inversion Hts as [|? ? Ht Hts']; subst.
    destruct (ref_inner_spec rec n t (N_range 2 t) o) as (H1 & H2 & H3); try lia; auto.
    { apply Forall_forall. intros k Hk. apply N_range_in in Hk. exact Hk. }
    fold (ref_inner rec n o t) in H1, H2, H3.
    destruct (IH (ref_inner rec n o t) Hts' H1 Hrec) as (I1 & I2 & I3).
    split; [exact I1|]. split; [eapply opt_le_trans; eassumption|].
    intros t' k [->|Hin] Hk Hmod Hne; [|auto]. eapply opt_le_trans; [exact I2|]. apply H3; auto. apply N_range_in. exact Hk.
Qed.

Lemma just_valid n : 2 <= n -> opt_valid n (just_opt n).
Proof. intros H. split; [constructor; exact H|]. unfold cost. cbn. nsum. lia. Qed.

Lemma ref_opt_valid : forall n, 2 <= n -> opt_valid n (ref_opt n).
Proof.
  intros n. induction n as [n IH] using (well_founded_induction N.lt_wf_0). intros Hn. rewrite ref_opt_eq by exact Hn.
  apply ref_outer_spec.
  - apply Forall_forall. intros t Ht. apply N_range_in in Ht. exact Ht.
  - apply just_valid. exact Hn.
  - intros T HT1 HT2. apply IH; [|exact HT1]. pose proof (N.div_lt n 2). lia.
Qed.

Lemma ref_opt_minimal n d : doc_form n d ->
  lex_le (od_len (ref_opt n)) (length (od_decomposition (ref_opt n))) (cost d) (length d).
Proof.
  intros H. induction H as [t Ht|T d t k H IH Hk Hkt].
  - rewrite ref_opt_eq by exact Ht.
    destruct (ref_outer_spec ref_opt t (N_range 2 t) (just_opt t)) as (_ & H2 & _).
    + apply Forall_forall. intros x Hx. apply N_range_in in Hx. exact Hx.
    + apply just_valid. exact Ht.
    + intros. apply ref_opt_valid. assumption.
    + unfold opt_le in H2. unfold cost. nsum. cbn in *. replace (t + 2 + 0) with (t + 2) by lia. exact H2.
  - pose proof (doc_form_ge2 _ _ H) as HT. set (n := t + k * (T - 1)).
    assert (Hn : 2 <= n) by (unfold n; nia).
    assert (Hnt : n - t = (T - 1) * k) by (unfold n; rewrite N.add_comm, N.add_sub; apply N.mul_comm).
    rewrite ref_opt_eq by exact Hn.
    destruct (ref_outer_spec ref_opt n (N_range 2 n) (just_opt n)) as (_ & _ & H3).
    + apply Forall_forall. intros x Hx. apply N_range_in in Hx. exact Hx.
    + apply just_valid. exact Hn.
    + intros. apply ref_opt_valid. assumption.
    + assert (Hle : opt_le (ref_outer ref_opt n 2 (just_opt n)) (ref_cand t k (ref_opt ((n - t) / k + 1)))).
      { apply H3; [apply N_range_in; unfold n; split; [lia|apply N.le_add_r] | lia | rewrite Hnt; apply N.mod_mul; lia | nia]. }
      rewrite Hnt, N.div_mul in Hle by lia. replace (T - 1 + 1) with T in Hle by lia.
      rewrite cost_nested, app_length, map_length. cbn [length].
      unfold opt_le, lex_le in *. cbn in Hle. rewrite app_length, map_length in Hle. cbn [length] in Hle. lia.
Qed.

(** *** the code computes the reference result *)
Definition memo_ref (m : opt_memo) : Prop := forall n o, memo_get m n = Some o -> 2 <= n /\ o = ref_opt n.

Lemma better_large n_len n_rings o : od_len o < n_len -> better n_len n_rings o = false.
Proof.
  intros H. unfold better. apply orb_false_iff. split; [apply N.ltb_ge; lia|].
  apply andb_false_iff. left. apply N.eqb_neq. lia.
Qed.

Lemma ref_inner_large rec n t o : od_len o < t + 2 -> ref_inner rec n o t = o.
Proof.
  intros H. unfold ref_inner. generalize (N_range 2 t). intros ks. induction ks as [|k ks IH]; [reflexivity|].
  cbn. replace (ref_step rec n t o k) with o; [exact IH|]. unfold ref_step. destruct (_ && _); [|reflexivity].
  rewrite better_large by lia. reflexivity.
Qed.

Lemma ref_outer_large rec n t o : od_len o < t + 2 -> ref_outer rec n t o = o.
Proof.
  intros H. unfold ref_outer.
  assert (Hin : forall x, In x (N_range t n) -> t <= x) by (intros x Hx; apply N_range_in in Hx; lia).
  revert Hin. generalize (N_range t n). intros ts. induction ts as [|x ts IH]; intros Hin; [reflexivity|].
  cbn. rewrite ref_inner_large by (specialize (Hin x (or_introl eq_refl)); lia). apply IH. intros; apply Hin; right; assumption.
Qed.

Lemma cost_ge n d : doc_form n d -> 4 <= cost d.
Proof.
  intros H. pose proof (doc_form_rings _ _ H) as Hr. destruct Hr as [|s d [H1 H2] _]; [destruct (doc_form_nonempty _ _ H eq_refl)|].
  unfold cost. nsum. lia.
Qed.

Lemma ref_opt_len_le n : 2 <= n -> od_len (ref_opt n) <= n + 2.
Proof.
  intros H. pose proof (ref_opt_minimal n _ (doc_one n H)) as Hm. unfold lex_le, cost in Hm. nsum. lia.
Qed.

Lemma optimize_inner_ref b est rec n t ks : forall opt m,
  (forall T mm, 2 <= T -> T <= n / 2 -> memo_ref mm -> exists mm', rec T mm = Ret (ref_opt T, mm') /\ memo_ref mm') ->
  valid_estimate est (n / 2) ->
  2 <= t -> t <= n -> n + 4 < u64_lim -> Forall (fun k => 2 <= k <= t) ks ->
  memo_ref m ->
  exists m', optimize_inner b est rec t (n - t) ks opt m = Ret (fold_left (ref_step ref_opt n t) ks opt, m') /\ memo_ref m'.
Proof.
  induction ks as [|k ks IH]; intros opt m Hrec Hest Ht Htn Hn Hks Hm; cbn [optimize_inner fold_left].
  - eauto.
  - inversion Hks as [|? ? Hk Hks']; subst. unfold ref_step at 2.
    destruct (N.eqb_spec ((n - t) mod k) 0) as [Hmod|Hmod]; cbn [negb andb]; [|apply IH; auto].
    assert (Hdiv : n - t = k * ((n - t) / k)) by (pose proof (N.div_mod (n - t) k); lia).
    rewrite u64_add_ok by nia. cbn [bind].
    destruct (N.eqb_spec (n - t) 0) as [Hz|Hne]; cbn [negb].
    + (* nothing remains: the code leaves the loop *)
      rewrite Hz, N.div_0_l by lia. cbn [N.add N.ltb]. exists m. split; [|exact Hm]. do 2 f_equal.
      clear - Hz. induction ks as [|k' ks IH]; [reflexivity|]. cbn. replace (ref_step ref_opt n t opt k') with opt; [exact IH|].
      unfold ref_step. rewrite Hz. rewrite N.eqb_refl. cbn [negb]. rewrite andb_false_r. reflexivity.
    + destruct (inner_bound n t k) as (H1 & H2 & H3); try lia. set (T := (n - t) / k + 1) in *.
      replace (T <? 2) with false by (symmetry; apply N.ltb_ge; exact H1).
      destruct (ref_opt_valid T H1) as [Hv Hl]. pose proof (ref_opt_len_le T H1) as Hle.
      assert (He : est T <= od_len (ref_opt T)) by (rewrite Hl; apply Hest; assumption).
      assert (Hsum : t + 2 + (T + 2) < u64_lim) by nia.
      rewrite u64_add_ok by lia. cbn [bind]. rewrite u64_add_ok by lia. cbn [bind].
      destruct (N.ltb_spec (od_len opt) (t + 2 + est T)) as [Hp|Hp].
      * rewrite better_large by lia. apply IH; auto.
      * destruct (Hrec T m H1 H3 Hm) as (m1 & -> & Hm1). cbn [bind]. rewrite u64_add_ok by lia. cbn [bind].
        change ((t + 2 + od_len (ref_opt T) <? od_len opt) || ((t + 2 + od_len (ref_opt T) =? od_len opt) &&
          (1 + length (od_decomposition (ref_opt T)) <? length (od_decomposition opt))%nat))
          with (better (t + 2 + od_len (ref_opt T)) (1 + length (od_decomposition (ref_opt T))) opt).
        destruct (better _ _ opt); [|apply IH; auto].
        rewrite (combine_mul_ok b T) by (try assumption; lia). cbn [bind]. apply IH; auto.
Qed.

Lemma optimize_outer_ref b est rec n fuel : forall t opt m,
  (forall T mm, 2 <= T -> T <= n / 2 -> memo_ref mm -> exists mm', rec T mm = Ret (ref_opt T, mm') /\ memo_ref mm') ->
  valid_estimate est (n / 2) ->
  2 <= t -> t <= n + 1 -> (N.to_nat (n + 2 - t) <= fuel)%nat -> n + 4 < u64_lim -> od_len opt <= n + 2 ->
  opt_valid n opt -> memo_ref m ->
  exists m', optimize_outer b est rec fuel n t opt m = Ret (ref_outer ref_opt n t opt, m') /\ memo_ref m'.
Proof.
  induction fuel as [|fuel IH]; intros t opt m Hrec Hest Ht Htn Hf Hn Hlen Hopt Hm; [lia|].
  cbn [optimize_outer]. rewrite u64_add_ok by lia. cbn [bind].
  destruct (N.ltb_spec (od_len opt) (t + 2)) as [Hb|Hb].
  - exists m. split; [|exact Hm]. rewrite ref_outer_large by exact Hb. reflexivity.
  - assert (Ht' : t <= n) by lia. rewrite u64_sub_ok by exact Ht'. cbn [bind].
    assert (Hks : Forall (fun k => 2 <= k <= t) (N_range 2 t))
      by (apply Forall_forall; intros k Hk; apply N_range_in in Hk; exact Hk).
    destruct (optimize_inner_ref b est rec n t (N_range 2 t) opt m Hrec Hest Ht Ht' Hn Hks Hm) as (m1 & -> & Hm1).
    cbn [bind]. unfold ref_outer. rewrite (N_range_cons t n) by exact Ht'. cbn [fold_left].
    destruct (ref_inner_spec ref_opt n t (N_range 2 t) opt) as (H1 & H2 & _); auto.
    { intros. apply ref_opt_valid. assumption. }
    apply IH; auto; try lia. unfold opt_le, lex_le in H2. lia.
Qed.

Lemma optimize_ref b est depth : forall n m,
  2 <= n -> n + 4 < u64_lim -> valid_estimate est n -> (N.size_nat n <= depth)%nat -> memo_ref m ->
  exists m', optimize b est (S depth) n m = Ret (ref_opt n, m') /\ memo_ref m'.
Proof.
  induction depth as [|depth IH]; intros n m Hn Hlim Hest Hd Hm.
  - destruct n as [|p]; [lia|]. destruct p; cbn in Hd; lia.
  - remember (S depth) as dd eqn:Hdd. cbn [optimize]. destruct (memo_get m n) as [o|] eqn:Hget.
    + apply Hm in Hget as [_ ->]. eauto.
    + rewrite u64_add_ok by lia. cbn [bind].
      assert (Hest2 : valid_estimate est (n / 2)).
      { intros k d Hk. apply Hest. pose proof (N.div_lt n 2). lia. }
      destruct (optimize_outer_ref b est (optimize b est dd) n (S (N.to_nat n)) 2 (just_opt n) m) as (m1 & H1 & Hm1); auto; try lia.
      * intros T mm HT1 HT2 Hmm. subst dd. pose proof (size_nat_half n Hn T HT2) as Hs. apply IH; auto; try lia.
        -- pose proof (N.div_lt n 2). lia.
        -- intros k d Hk. apply Hest. pose proof (N.div_lt n 2). lia.
      * cbn. lia.
      * apply just_valid. exact Hn.
      * fold (just_opt n). rewrite H1. cbn [bind]. rewrite <- ref_opt_eq by exact Hn.
        destruct (ref_opt_valid n Hn) as [Hv Hl].
        replace (est n <=? od_len (ref_opt n)) with true
          by (symmetry; apply N.leb_le; rewrite Hl; apply Hest; [lia|exact Hv]).
        replace (debug_assert b true) with (Ret tt) by (unfold debug_assert; destruct (debug_assertions b); reflexivity).
        cbn [bind]. exists ((n, ref_opt n) :: m1). split; [reflexivity|].
        intros k o Hk. unfold memo_get in Hk. cbn in Hk.
        destruct (N.eqb_spec n k) as [<-|]; [injection Hk as <-; auto|]. apply Hm1. exact Hk.
Qed.

Lemma optimal_ref b est n : 2 <= n -> n + 4 < u64_lim -> valid_estimate est n ->
  RangeDecomposition_optimal b est n = Ret (od_decomposition (ref_opt n)).
Proof.
  intros Hn Hlim Hest. unfold RangeDecomposition_optimal, assert. apply N.leb_le in Hn as Hn'. rewrite Hn'. cbn [bind].
  destruct (optimize_ref b est (N.size_nat n) n [] Hn Hlim Hest (le_n _)) as (m' & -> & _).
  - intros k o Hk. discriminate.
  - reflexivity.
Qed.

(** ** the logarithmic lower bound *)
Lemma cube_pow x : 2 <= x -> x * x * x <= 2 ^ (x + 2).
Proof.
  intros Hx. destruct (N.le_gt_cases x 7) as [Hs|Hl].
  - assert (x = 2 \/ x = 3 \/ x = 4 \/ x = 5 \/ x = 6 \/ x = 7) as H by lia.
    destruct H as [->|[->|[->|[->|[->| ->]]]]]; vm_compute; discriminate.
  - assert (H : forall y, (y + 8) * (y + 8) * (y + 8) <= 2 ^ (y + 10)).
    { induction y as [|y IH] using N.peano_ind; [vm_compute; discriminate|].
      replace (N.succ y + 10) with (N.succ (y + 10)) by lia. rewrite N.pow_succ_r'. nia. }
    specialize (H (x - 8)). replace (x - 8 + 8) with x in H by lia. replace (x - 8 + 10) with (x + 2) in H by lia. exact H.
Qed.

Lemma doc_form_pow n d : doc_form n d -> n * n * n <= 2 ^ cost d.
Proof.
  induction 1 as [t Ht|T d t k H IH Hk Hkt].
  - unfold cost. nsum. replace (t + 2 + 0) with (t + 2) by lia. apply cube_pow. exact Ht.
  - rewrite cost_nested, N.pow_add_r. pose proof (cube_pow t ltac:(lia)) as Hc. pose proof (doc_form_ge2 _ _ H) as HT.
    assert (Hle : t + k * (T - 1) <= t * T) by nia. set (n := t + k * (T - 1)) in *.
    assert (Hn : n * n * n <= (t * T) * (t * T) * (t * T)).
    { apply N.mul_le_mono; [apply N.mul_le_mono|]; assumption. }
    eapply N.le_trans; [exact Hn|]. replace (t * T * (t * T) * (t * T)) with ((t * t * t) * (T * T * T)) by lia.
    apply N.mul_le_mono; assumption.
Qed.

(** any estimate not above [3 * log2 n] rounded up is valid; [2 ^ (est m - 1) < m ^ 3] says
    [est m < 3 * log2 m + 1] *)
Lemma estimate_valid est n : (forall m, 2 <= m -> m <= n -> est m = 0 \/ 2 ^ (est m - 1) < m * m * m) -> valid_estimate est n.
Proof.
  intros H m d Hm Hd. pose proof (doc_form_pow _ _ Hd) as Hp. fold (cost d).
  destruct (H m (doc_form_ge2 _ _ Hd) Hm) as [->|Hlt]; [lia|].
  assert (Hpow : 2 ^ (est m - 1) < 2 ^ cost d) by lia. apply N.pow_lt_mono_r_iff in Hpow; lia.
Qed.

Lemma int_estimate_valid n : valid_estimate int_lower_len_estimate n.
Proof.
  apply estimate_valid. intros m Hm _. right. unfold int_lower_len_estimate.
  replace (m =? 0) with false by (symmetry; apply N.eqb_neq; lia).
  pose proof (N.log2_spec m ltac:(lia)) as [Hl _]. pose proof (N.log2_pos m ltac:(lia)) as Hp.
  assert (H3 : 2 ^ (N.log2 m * 3) <= m * m * m).
  { replace (N.log2 m * 3) with (N.log2 m + N.log2 m + N.log2 m) by lia. rewrite !N.pow_add_r.
    apply N.mul_le_mono; [apply N.mul_le_mono|]; assumption. }
  assert (H4 : 2 ^ (N.log2 m * 3 - 1) < 2 ^ (N.log2 m * 3)) by (apply N.pow_lt_mono_r; lia). lia.
Qed.

(** ** sizes of proofs *)
Lemma cost_proof_length d : d <> [] -> cost d = proof_length d + 1.
Proof.
  intros Hd. unfold cost, proof_length.
  assert (H : n_sum (map (fun s => rs_size s + 2) d) = n_sum (map rs_size d) + 2 * N.of_nat (length d)).
  { clear. induction d as [|s d IH]; [reflexivity|]. nsum. lia. }
  rewrite H. destruct d; [contradiction|]. cbn [length]. lia.
Qed.

Lemma proof_size_ok b n d : doc_form n d -> cost d < u64_lim -> RangeDecomposition_proof_size b d = Ret (proof_length d).
Proof.
  intros H Hc. pose proof (doc_form_nonempty _ _ H) as Hne. pose proof (cost_proof_length d Hne) as Hl.
  unfold RangeDecomposition_proof_size, RangeDecomposition_rings_size. unfold proof_length in *.
  destruct d as [|s d]; [contradiction|]. cbn [length] in *.
  rewrite u64_sum_ok by lia. cbn [bind]. rewrite u64_mul_ok by lia. cbn [bind].
  rewrite u64_add_ok by lia. cbn [bind]. rewrite u64_sub_ok by lia. f_equal. lia.
Qed.

Lemma optimal_minimal b est n d : n + 4 < u64_lim -> valid_estimate est n ->
  RangeDecomposition_optimal b est n = Ret d ->
  RangeDecomposition_proof_size b d = Ret (proof_length d) /\
  forall d', doc_form n d' ->
    proof_length d < proof_length d' \/ (proof_length d = proof_length d' /\ (length d <= length d')%nat).
Proof.
  intros Hlim Hest H. pose proof (optimal_valid b est n d Hlim H) as Hv. pose proof (doc_form_ge2 _ _ Hv) as Hn.
  rewrite optimal_ref in H by assumption. injection H as <-.
  destruct (ref_opt_valid n Hn) as [_ Hl]. pose proof (ref_opt_len_le n Hn) as Hle.
  pose proof (cost_proof_length _ (doc_form_nonempty _ _ Hv)) as Hc. split.
  - apply (proof_size_ok b n); [exact Hv|lia].
  - intros d' Hd'. pose proof (ref_opt_minimal n d' Hd') as Hm. unfold lex_le in Hm.
    pose proof (cost_proof_length _ (doc_form_nonempty _ _ Hd')) as Hc'. lia.
Qed.
