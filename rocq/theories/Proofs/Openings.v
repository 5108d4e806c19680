(** * Extracting openings from ring proofs: lemmas for C79 *)
From Coq Require Import List String NArith ZArith Field Lia Arith Bool.
From Verif.Model Require Import Base Group Transcript Keys Encryption LogEquality Ring Range Choice Quadratic.
From Verif.Spec Require Import Encryption Ring Range Domains Rom Verifiers Forking Extractors Openings.
From Verif.Proofs Require Import Algebra Lists Encryption Ring Rom Verifiers Forgery Forking Extractors Rigid.
Import ListNotations.
Open Scope string_scope.
Open Scope list_scope.
Open Scope nat_scope.

(** ** the forking lemma with labels *)
Section Labels.
Context (R : Type) (values : list R) (sim : R -> R -> bool) (mu : nat).
Context (Hmu : forall c, List.length (filter (fun c' => sim c' c) values) <= mu).
Context {X : Type} (win : X -> bool) (pos : X -> query) (lab : X -> nat).
Local Notation q := (List.length values).
Local Notation hsum := (hsum R values).

Lemma label_count v M : lsum (fun l => b2n (v =? l)) (seq 0 M) = b2n (v <? M).
Proof.
  enough (H : forall n, lsum (fun l => b2n (v =? l)) (seq n M) = b2n ((n <=? v) && (v <? n + M))) by (rewrite H; reflexivity).
  induction M as [|M IH]; intros n.
  - cbn [seq]. rewrite lsum_nil. destruct (Nat.leb_spec n v), (Nat.ltb_spec v (n + 0)); cbn; lia.
  - cbn [seq]. rewrite lsum_cons, IH.
    destruct (Nat.eqb_spec v n), (Nat.leb_spec (S n) v), (Nat.leb_spec n v), (Nat.ltb_spec v (S n + M)), (Nat.ltb_spec v (n + S M)); cbn; lia.
Qed.

Definition forked (T : strategy R X) (o o' : hash R) : bool :=
  let x := pos (run o T) in
  let o2 := splice (before x (asked o T)) o o' in
  win (run o T) && win (run o2 T) && same (pos (run o2 T)) x && (lab (run o2 T) =? lab (run o T)) && negb (sim (answer o2 x) (answer o x)).

Lemma labelled M n (T : strategy R X) D o0 :
  at_most n T -> NoDup D -> (forall o, incl (asked o T) D) ->
  (forall o, win (run o T) = true -> In (pos (run o T)) (asked o T) /\ lab (run o T) < M) ->
  let s := hsum D o0 (fun o => b2n (win (run o T))) in
  let F := hsum D o0 (fun o => hsum D o0 (fun o' => b2n (forked T o o'))) in
  q * (s * s) <= M * n * (q * F + mu * s * q ^ List.length D).
Proof.
  intros Hn Hnd Hi Hw s F.
  set (wl := fun l x => win x && (lab x =? l)).
  set (sl := fun l => hsum D o0 (fun o => b2n (winh R (wl l) pos [] T o))).
  set (Fl := fun l => hsum D o0 (fun o => hsum D o0 (fun o' => b2n (fork R sim (wl l) pos [] T o o')))).
  assert (Hl : forall l, q * (sl l * sl l) <= n * (q * Fl l + mu * sl l * q ^ List.length D)).
  { intros l. apply (fork_count R values sim mu Hmu (wl l) pos n T [] D o0 o0 Hn Hnd); [intros x []|intros o _; apply Hi|].
    intros o _ Ho. cbn [app]. unfold wl in Ho. apply andb_true_iff in Ho as [Ho _]. exact (proj1 (Hw o Ho)). }
  assert (Hs : s = lsum sl (seq 0 M)).
  { unfold s, sl, Forking.hsum. rewrite lsum_swap. apply lsum_ext. intros o _. unfold winh, wl.
    rewrite (lsum_ext _ (fun l => b2n (win (run o T)) * b2n (lab (run o T) =? l))).
    - rewrite lsum_scale, label_count. destruct (win (run o T)) eqn:Ho; [|reflexivity].
      destruct (Nat.ltb_spec (lab (run o T)) M) as [|Hge]; [reflexivity|]. pose proof (proj2 (Hw o Ho)). lia.
    - intros l _. unfold mem. cbn [in_dec]. destruct (in_dec _ _ []) as [[]|_]. rewrite andb_true_r.
      destruct (win (run o T)), (lab (run o T) =? l); reflexivity. }
  assert (HF : lsum Fl (seq 0 M) <= F).
  { unfold Fl, F, Forking.hsum. rewrite lsum_swap. apply lsum_le. intros o _. rewrite lsum_swap. apply lsum_le. intros o' _.
    etransitivity; [apply (lsum_le _ (fun l => b2n (forked T o o') * b2n (lab (run o T) =? l)))|].
    - intros l _. unfold fork, winh, forked, wl. cbn [app].
      set (o2 := splice (before (pos (run o T)) (asked o T)) o o').
      destruct (win (run o T)); [|cbn; lia]. destruct (Nat.eqb_spec (lab (run o T)) l) as [He|]; [|cbn; lia]. rewrite He.
      destruct (win (run o2 T)); [|rewrite ?andb_false_r; cbn; lia].
      destruct (lab (run o2 T) =? l); [|cbn; rewrite ?andb_false_r; cbn; lia].
      destruct (same (pos (run o2 T)) (pos (run o T))); [|cbn; rewrite ?andb_false_r; cbn; lia].
      destruct (sim (answer o2 (pos (run o T))) (answer o (pos (run o T)))); [cbn; rewrite ?andb_false_r; cbn; lia|].
      cbn; lia.
    - rewrite lsum_scale, label_count. destruct (lab (run o T) <? M); cbn [b2n]; lia. }
  assert (Hsq : s * s <= M * lsum (fun l => sl l * sl l) (seq 0 M)).
  { rewrite Hs. etransitivity; [apply lsum_square|]. rewrite seq_length. reflexivity. }
  assert (Hsum : q * lsum (fun l => sl l * sl l) (seq 0 M) <= n * (q * lsum Fl (seq 0 M) + mu * s * q ^ List.length D)).
  { rewrite <- lsum_scale. etransitivity; [apply lsum_le; intros l _; apply Hl|].
    rewrite lsum_scale, lsum_plus, lsum_scale. apply Nat.mul_le_mono_l. apply Nat.add_le_mono_l.
    rewrite (lsum_ext _ (fun l => (mu * q ^ List.length D) * sl l)) by (intros l _; lia). rewrite lsum_scale, <- Hs. lia. }
  assert (H1 : q * lsum (fun l => sl l * sl l) (seq 0 M) <= n * (q * F + mu * s * q ^ List.length D)).
  { etransitivity; [exact Hsum|]. apply Nat.mul_le_mono_l. apply Nat.add_le_mono_r. apply Nat.mul_le_mono_l. exact HF. }
  replace (M * n * (q * F + mu * s * q ^ List.length D)) with (M * (n * (q * F + mu * s * q ^ List.length D))) by lia.
  etransitivity; [|apply Nat.mul_le_mono_l; exact H1].
  replace (M * (q * lsum (fun l => sl l * sl l) (seq 0 M))) with (q * (M * lsum (fun l => sl l * sl l) (seq 0 M))) by lia.
  apply Nat.mul_le_mono_l. exact Hsq.
Qed.

End Labels.

(** ** remembering the hash inputs *)
Fixpoint traced {R A : Type} (h : list query) (T : strategy R A) : strategy R (A * list query) :=
  match T with
  | Output a => Output (a, rev h)
  | Ask x k => Ask x (fun c => traced (x :: h) (k c))
  end.
Lemma traced_asked {R A : Type} o (T : strategy R A) : forall h, asked o (traced h T) = asked o T.
Proof. induction T as [a|x k IH]; intros h; cbn; [reflexivity|]. rewrite IH. reflexivity. Qed.
Lemma traced_run {R A : Type} o (T : strategy R A) : forall h, run o (traced h T) = (run o T, rev h ++ asked o T).
Proof.
  induction T as [a|x k IH]; intros h; cbn [traced run asked]; [rewrite app_nil_r; reflexivity|]. rewrite IH. cbn [rev].
  rewrite <- app_assoc. reflexivity.
Qed.
Lemma traced_most {R A : Type} n (T : strategy R A) : at_most n T -> forall h, at_most n (traced h T).
Proof. induction 1 as [n a|n x k H IH]; intros h; cbn [traced]; constructor. intros c. apply IH. Qed.

(** ** positions *)
Lemma before_prefix y l : exists r, l = before y l ++ r.
Proof.
  induction l as [|x l [r IH]]; [exists []; reflexivity|]. cbn [before]. destruct (query_dec y x); [eexists; reflexivity|].
  exists r. cbn [app]. f_equal. exact IH.
Qed.
Lemma position_nth x l : In x l -> nth_error l (position x l) = Some x.
Proof.
  unfold position. induction l as [|y l IH]; [contradiction|]. intros Hin. cbn [before]. destruct (query_dec x y) as [->|Hne]; [reflexivity|].
  cbn [List.length nth_error]. apply IH. destruct Hin; [congruence|assumption].
Qed.
Lemma position_lt x l : In x l -> position x l < List.length l.
Proof. intros H. apply nth_error_Some. rewrite position_nth by exact H. discriminate. Qed.
Lemma position_inj x y l : In x l -> In y l -> position x l = position y l -> x = y.
Proof. intros Hx Hy He. apply position_nth in Hx. apply position_nth in Hy. congruence. Qed.

Lemma before_rerun {R A : Type} (o o2 : hash R) y (T : strategy R A) :
  (forall x, In x (before y (asked o T)) -> answer o2 x = answer o x) ->
  before y (asked o2 T) = before y (asked o T).
Proof.
  induction T as [a|x k IH]; intros H; [reflexivity|]. cbn [asked before] in *. destruct (query_dec y x); [reflexivity|].
  rewrite (H x (or_introl eq_refl)). f_equal. apply IH. intros z Hz. apply H. right. exact Hz.
Qed.

Lemma same_position x x2 y l l2 : In x l -> In x2 l2 -> before y l2 = before y l ->
  position x l < position y l -> position x2 l2 = position x l -> x2 = x.
Proof.
  intros Hx Hx2 Hb Hlt He. apply position_nth in Hx. apply position_nth in Hx2. rewrite He in Hx2.
  destruct (before_prefix y l) as [r Hr], (before_prefix y l2) as [r2 Hr2]. rewrite Hr in Hx at 1. rewrite Hr2 in Hx2 at 1.
  rewrite nth_error_app1 in Hx by exact Hlt. rewrite nth_error_app1 in Hx2 by (rewrite Hb; exact Hlt). rewrite Hb in Hx2. congruence.
Qed.

(** ** the equations of an accepted ring *)
Lemma nth_concat {A : Type} : forall (ls : list (list A)) k l i, nth_error ls k = Some l -> i < List.length l ->
  nth_error (List.concat ls) (list_sum (map (@List.length A) (firstn k ls)) + i) = nth_error l i.
Proof.
  induction ls as [|l0 ls IH]; intros [|k] l i Hk Hi; try discriminate.
  - cbn in Hk. injection Hk as ->. cbn [firstn map list_sum fold_right Nat.add List.concat]. apply nth_error_app1. exact Hi.
  - cbn [firstn map List.concat]. change (list_sum (List.length l0 :: map (@List.length A) (firstn k ls))) with (List.length l0 + list_sum (map (@List.length A) (firstn k ls))).
    rewrite nth_error_app2 by lia. rewrite <- (IH k l i Hk Hi). f_equal. lia.
Qed.

Section Ring.
Context (E : Env) (L : GroupLaws E).
Add Field s_field_openings : (s_field L).
Local Notation element := (Element E).
Local Notation scalar := (Scalar E).

(** [x] contains the commitments [X] of equation [j] *)
Definition carries (t : transcript) (K : PublicKey E) (k n : nat) (ct : Ciphertext E) (j : nat) (X : element * element) (x : query) : Prop :=
  snd x = "c" /\
  if j + 1 <? n then exists rt, ring_local (ring_context t K) ct k rt /\ ring_query rt j X (fst x)
  else exists Ts, ring_common (ring_context t K) Ts (fst x) /\ nth_error Ts k = Some X.

Lemma traced_sizes o t0 K c : forall vals cts rss Ts qss i, rings_traced E o t0 K c i vals cts rss Ts qss ->
  map (@List.length transcript) qss = map (fun vs : list element => List.length vs - 1) vals /\ map (@List.length scalar) rss = map (@List.length element) vals.
Proof.
  induction vals as [|v vals IH]; intros [|ct cts] [|rs rss] [|T Ts] [|qs qss] i Ht; cbn in Ht; try contradiction; [auto|].
  destruct Ht as [(rt & A & s & vs' & rs' & -> & -> & Hl & _ & Ht) Hts]. destruct (IH _ _ _ _ _ Hts) as [H1 H2].
  apply trace_length in Ht. rewrite combine_length in Ht. cbn [map List.length]. split; f_equal; auto; lia.
Qed.

Lemma equations (o : hash scalar) p (K : PublicKey E) vals cts t r tf k vs :
  rings_ok E vals -> List.length cts = List.length vals -> run o (ring_verifier p K vals cts t) = Ret (Ok r, tf) ->
  nth_error vals k = Some vs ->
  let l := asked o (ring_verifier p K vals cts t) in
  exists ct, nth_error cts k = Some ct /\
    forall j M, nth_error vs j = Some M ->
      In (challenge_input vals k j l) l /\
      exists s, nth_error (rp_responses p) (responses_before vals k + j) = Some s /\
        carries t K k (List.length vs) ct j (ring_commitments (pk_element K) ct M (answer o (challenge_input vals k j l)) s)
          (challenge_input vals k ((j + 1) mod List.length vs) l).
Proof.
  intros (Hv0 & Hv & _) Hc Hrun Hk l.
  assert (Hne : Forall (fun vs : list element => vs <> []) vals).
  { eapply Forall_impl; [|exact Hv]. intros [|a vs1]; cbn; [lia|discriminate]. }
  apply (ring_verifier_asked E L o) in Hrun as (rss & Ts & qss & q & Hr & Hq & Htr & Hch & Hask); [|congruence|exact Hne].
  fold l in Hask. destruct (traced_sizes _ _ _ _ _ _ _ _ _ _ Htr) as [Hz1 Hz2].
  destruct (traced_nth _ _ _ _ _ _ _ _ _ _ _ k vs Htr Hk) as (ct & rs & T & qs & Hct & Hrs & HT & Hqs & rt & A & s & vs' & rs' & Hvs & Hrs' & Hlr & Hloc & Htrc).
  exists ct. split; [exact Hct|]. cbn [Nat.add] in Hloc.
  assert (Hlq : List.length qs = List.length vs').
  { apply trace_length in Htrc. rewrite combine_length in Htrc. lia. }
  assert (Hoff1 : inputs_before vals k = list_sum (map (@List.length transcript) (firstn k qss))).
  { unfold inputs_before. rewrite <- !firstn_map, Hz1. reflexivity. }
  assert (Hoff2 : responses_before vals k = list_sum (map (@List.length scalar) (firstn k rss))).
  { unfold responses_before. rewrite <- !firstn_map, Hz2. reflexivity. }
  assert (H0 : challenge_input vals k 0 l = as_query q).
  { cbn [challenge_input]. rewrite Hask, map_app. apply last_last. }
  assert (HS : forall i x, nth_error qs i = Some x -> challenge_input vals k (S i) l = as_query x).
  { intros i x Hx. cbn [challenge_input]. apply nth_error_nth. rewrite Hask, map_app.
    assert (Hi : nth_error (List.concat qss) (inputs_before vals k + i) = Some x).
    { rewrite Hoff1, (nth_concat _ _ qs); [exact Hx|exact Hqs|]. apply nth_error_Some. congruence. }
    rewrite nth_error_app1; [apply map_nth_error; exact Hi|]. rewrite map_length. apply nth_error_Some. congruence. }
  assert (Hin0 : In (challenge_input vals k 0 l) l).
  { rewrite H0, Hask. apply in_map. apply in_or_app. right. left. reflexivity. }
  assert (HinS : forall i, i < List.length qs -> In (challenge_input vals k (S i) l) l).
  { intros i Hi. destruct (nth_error qs i) as [x|] eqn:Ex; [|apply nth_error_None in Ex; lia]. rewrite (HS i x Ex), Hask. apply in_map.
    apply in_or_app. left. apply in_concat. exists qs. split; eapply nth_error_In; eassumption. }
  assert (Hresp : forall j s0, nth_error rs j = Some s0 -> nth_error (rp_responses p) (responses_before vals k + j) = Some s0).
  { intros j s0 Hj. rewrite Hr, Hoff2, (nth_concat _ _ rs); [exact Hj|exact Hrs|]. apply nth_error_Some. congruence. }
  subst vs rs. cbn [List.length].
  intros [|i] M HM.
  - cbn in HM. injection HM as <-. split; [exact Hin0|]. exists s. split; [apply Hresp; reflexivity|].
    rewrite H0. cbn [as_query answer fst snd]. unfold answer. cbn [fst snd as_query]. rewrite <- Hch.
    destruct vs' as [|A1 vs'].
    + pose proof (proj1 (Forall_forall _ _) Hv _ (nth_error_In _ _ Hk)) as [Hbad _]. cbn in Hbad. lia.
    + destruct rs' as [|s1 rs']; [discriminate|]. destruct qs as [|x qs]; [discriminate|]. cbn [combine ring_trace] in Htrc. destruct Htrc as [Hq1 _].
      replace ((0 + 1) mod S (List.length (A1 :: vs'))) with 1 by (symmetry; apply Nat.mod_small; cbn; lia).
      rewrite (HS 0 x eq_refl). split; [reflexivity|]. replace (0 + 1 <? S (List.length (A1 :: vs'))) with true by reflexivity.
      exists rt. split; [exact Hloc|exact Hq1].
  - cbn [nth_error] in HM. assert (Hi : i < List.length vs') by (apply nth_error_Some; congruence).
    split; [apply HinS; lia|]. destruct (nth_error qs i) as [x|] eqn:Ex; [|apply nth_error_None in Ex; lia].
    destruct (trace_nth E o rt _ ct _ _ _ _ _ i x Htrc Ex) as (X & A' & s' & _ & He & Hnext).
    assert (nth_error vs' i = Some A' /\ nth_error rs' i = Some s') as [HA' Hs'].
    { clear -He. revert rs' i He. induction vs' as [|a l IH]; intros [|b rs'] [|i] He; cbn in *; try discriminate; [injection He as -> ->; auto|]. apply IH. exact He. }
    assert (A' = M) by congruence. subst A'. exists s'. split; [apply (Hresp (S i)); exact Hs'|].
    rewrite (HS i x Ex). unfold answer. cbn [fst snd as_query].
    destruct (nth_error qs (S i)) as [x'|] eqn:Ex'.
    + assert (S i < List.length qs) by (apply nth_error_Some; congruence).
      replace ((S i + 1) mod S (List.length vs')) with (S (S i)) by (rewrite Nat.mod_small; lia).
      rewrite (HS (S i) x' Ex'). split; [reflexivity|]. replace (S i + 1 <? S (List.length vs')) with true by (symmetry; apply Nat.ltb_lt; lia).
      exists rt. split; [exact Hloc|]. cbn [fst as_query]. replace (S i) with (0 + i + 1) by lia. exact Hnext.
    + apply nth_error_None in Ex'. replace (S i + 1) with (S (List.length vs')) by lia. rewrite Nat.mod_same by lia. rewrite H0.
      split; [reflexivity|]. replace (S i + 1 <? S (List.length vs')) with false by (symmetry; apply Nat.ltb_ge; lia). exists Ts. split; [exact Hq|]. rewrite HT. f_equal. exact Hnext.
Qed.

(** what the input of a challenge tells *)
Lemma challenge_inputs_eq (o o2 : hash scalar) p (K : PublicKey E) cts t r tf p2 (K2 : PublicKey E) cts2 t2 r2 tf2 vals k vs j j2 :
  rings_ok E vals -> List.length cts = List.length vals -> List.length cts2 = List.length vals ->
  run o (ring_verifier p K vals cts t) = Ret (Ok r, tf) -> run o2 (ring_verifier p2 K2 vals cts2 t2) = Ret (Ok r2, tf2) ->
  nth_error vals k = Some vs -> j < List.length vs -> j2 < List.length vs ->
  challenge_input vals k j (asked o (ring_verifier p K vals cts t)) = challenge_input vals k j2 (asked o2 (ring_verifier p2 K2 vals cts2 t2)) ->
  j = j2 /\ t = t2 /\ pk_bytes K = pk_bytes K2 /\ (j <> 0 -> nth_error cts k = nth_error cts2 k).
Proof.
  intros Hok Hc Hc2 Hrun Hrun2 Hk Hj Hj2 He.
  destruct (equations o p K vals cts t r tf k vs Hok Hc Hrun Hk) as (ct & Hct & Hq).
  destruct (equations o2 p2 K2 vals cts2 t2 r2 tf2 k vs Hok Hc2 Hrun2 Hk) as (ct2 & Hct2 & Hq2).
  cbv zeta in Hq, Hq2. set (l := asked o _) in *. set (l2 := asked o2 _) in *. set (n := List.length vs) in *.
  assert (Hkb : (N.of_nat k < u64_lim)%N /\ (N.of_nat n < u64_lim)%N).
  { destruct Hok as (_ & Hv & Hvn). split.
    - assert (k < List.length vals) by (apply nth_error_Some; congruence). lia.
    - exact (proj2 (proj1 (Forall_forall _ _) Hv _ (nth_error_In _ _ Hk))). }
  destruct Hkb as [Hkb Hnb].
  assert (Hprev : forall i, i < n -> exists i', (i' + 1) mod n = i /\ i' < n /\ ((i = 0 /\ i' + 1 = n) \/ i = S i')).
  { intros [|i] Hi; [exists (n - 1)|exists i].
    - replace (n - 1 + 1) with n by lia. rewrite Nat.mod_same by lia. split; [reflexivity|]. split; [lia|left; lia].
    - rewrite Nat.mod_small by lia. split; [lia|]. split; [lia|right; reflexivity]. }
  destruct (Hprev j Hj) as (i & Hi1 & Hi2 & Hi3). destruct (Hprev j2 Hj2) as (i2 & Hi4 & Hi5 & Hi6).
  destruct (nth_error vs i) as [M|] eqn:EM; [|apply nth_error_None in EM; lia].
  destruct (nth_error vs i2) as [M2|] eqn:EM2; [|apply nth_error_None in EM2; lia].
  destruct (Hq i M EM) as (_ & s & _ & Hcar). destruct (Hq2 i2 M2 EM2) as (_ & s2 & _ & Hcar2).
  rewrite Hi1 in Hcar. rewrite Hi4 in Hcar2. rewrite He in Hcar. destruct Hcar as [_ Hcar], Hcar2 as [_ Hcar2].
  destruct Hi3 as [[-> Hi3]| ->], Hi6 as [[-> Hi6]| ->].
  - replace (i + 1 <? n) with false in Hcar by (symmetry; apply Nat.ltb_ge; lia).
    replace (i2 + 1 <? n) with false in Hcar2 by (symmetry; apply Nat.ltb_ge; lia).
    destruct Hcar as (Ts & HT & _), Hcar2 as (Ts2 & HT2 & _).
    destruct (ring_common_inj E L _ _ _ _ _ _ _ HT HT2) as (-> & Hkk & _). repeat split; auto. intros H. congruence.
  - exfalso. replace (i + 1 <? n) with false in Hcar by (symmetry; apply Nat.ltb_ge; lia).
    replace (i2 + 1 <? n) with true in Hcar2 by (symmetry; apply Nat.ltb_lt; lia).
    destruct Hcar as (Ts & HT & Hn), Hcar2 as (rt2 & Hl2 & HT2). exact (ring_shape E _ _ _ _ _ _ _ _ _ _ _ _ _ Hl2 HT2 HT Hn).
  - exfalso. replace (i + 1 <? n) with true in Hcar by (symmetry; apply Nat.ltb_lt; lia).
    replace (i2 + 1 <? n) with false in Hcar2 by (symmetry; apply Nat.ltb_ge; lia).
    destruct Hcar2 as (Ts & HT & Hn), Hcar as (rt2 & Hl2 & HT2). exact (ring_shape E _ _ _ _ _ _ _ _ _ _ _ _ _ Hl2 HT2 HT Hn).
  - replace (i + 1 <? n) with true in Hcar by (symmetry; apply Nat.ltb_lt; lia).
    replace (i2 + 1 <? n) with true in Hcar2 by (symmetry; apply Nat.ltb_lt; lia).
    destruct Hcar as (rt & Hl & HT), Hcar2 as (rt2 & Hl2 & HT2).
    assert (Hb1 : (N.of_nat i < u64_lim)%N) by lia. assert (Hb2 : (N.of_nat i2 < u64_lim)%N) by lia.
    destruct (ring_query_inj E L _ _ _ _ _ _ _ _ _ _ _ _ _ _ _ Hkb Hkb Hb1 Hb2 Hl HT Hl2 HT2) as (-> & Hkk & -> & _ & -> & _).
    repeat split; auto. congruence.
Qed.

Lemma opening_answers (K : element) ct M (c s c' s' : scalar) : c <> c' ->
  ring_commitments (E:=E) K ct M c s = ring_commitments K ct M c' s' ->
  random_element ct = (generator * slope L c s c' s')%E /\ blinded_element ct = (M + K * slope L c s c' s')%E.
Proof.
  intros Hne H. unfold ring_commitments in H. injection H as H1 H2.
  assert (Hnz : (c - c')%S <> s_default).
  { intros H. apply Hne. replace c with ((c - c') + c')%S by ring. rewrite H. ring. }
  assert (Hline : forall (P Q : element), (P * s - Q * c)%E = (P * s' - Q * c')%E -> Q = (P * slope L c s c' s')%E).
  { intros P Q Hpq. unfold slope.
    assert (Hm : (Q * (c - c'))%E = (P * (s - s'))%E).
    { replace (Q * (c - c'))%E with ((P * s - P * s') - ((P * s - Q * c) - (P * s' - Q * c')))%E by el_ring L.
      rewrite Hpq. el_ring L. }
    replace (P * ((s - s') * s_inv L (c - c')))%E with ((P * (s - s')) * s_inv L (c - c'))%E by el_ring L. rewrite <- Hm.
    replace (Q * (c - c') * s_inv L (c - c'))%E with (Q * ((c - c') * s_inv L (c - c'))%S)%E by el_ring L.
    replace ((c - c') * s_inv L (c - c'))%S with (1%S : scalar) by (field; exact Hnz). el_ring L. }
  split; [exact (Hline _ _ H1)|].
  apply Hline in H2. rewrite <- H2. el_ring L.
Qed.

End Ring.

(** ** the extractor *)
Lemma argmax (f : nat -> nat) n : 0 < n -> exists j, j < n /\ forall i, i < n -> f i <= f j.
Proof.
  induction n as [|n IH]; [lia|]. intros _. destruct n as [|n]; [exists 0; split; [lia|]; intros i Hi; replace i with 0 by lia; lia|].
  destruct IH as (j & Hj & Hm); [lia|]. destruct (le_lt_dec (f (S n)) (f j)) as [Hle|Hlt].
  - exists j. split; [lia|]. intros i Hi. destruct (Nat.eq_dec i (S n)) as [->|]; [exact Hle|apply Hm; lia].
  - exists (S n). split; [lia|]. intros i Hi. destruct (Nat.eq_dec i (S n)) as [->|]; [lia|]. specialize (Hm i ltac:(lia)). lia.
Qed.

Lemma most_length {R A : Type} (o : hash R) n (T : strategy R A) : at_most n T -> List.length (asked o T) <= n.
Proof. induction 1 as [n a|n x k H IH]; cbn [asked List.length]; [lia|]. specialize (IH (answer o x)). lia. Qed.

Section Extract.
Context (E : Env) (L : GroupLaws E) (S : source E) (m : Z) (Hbal : balanced S m).
Local Notation element := (Element E).
Local Notation scalar := (Scalar E).
Local Notation q := (List.length (digests S)).
Context (vals : list (list element)) (k : nat) (vs : list element).
Context (Hok : rings_ok E vals) (Hk : nth_error vals k = Some vs).
Local Notation n := (List.length vs).

Lemma ring_size : 2 <= n.
Proof. destruct Hok as (_ & Hv & _). exact (proj1 (proj1 (Forall_forall _ _) Hv _ (nth_error_In _ _ Hk))). Qed.

Lemma open_found (o : hash scalar) p (K : PublicKey E) cts t r tf all :
  List.length cts = List.length vals -> run o (ring_verifier p K vals cts t) = Ret (Ok r, tf) ->
  let l := asked o (ring_verifier p K vals cts t) in
  incl l all ->
  let j := open_equation vals k l all in
  j < n /\ position (challenge_input vals k ((j + 1) mod n) l) all < position (challenge_input vals k j l) all.
Proof.
  intros Hc Hrun l Hincl j. pose proof ring_size as Hn.
  destruct (equations E L o p K vals cts t r tf k vs Hok Hc Hrun Hk) as (ct & _ & Hq). cbv zeta in Hq. fold l in Hq.
  assert (Hin : forall i, i < n -> In (challenge_input vals k i l) all).
  { intros i Hi. destruct (nth_error vs i) as [M|] eqn:EM; [|apply nth_error_None in EM; lia]. apply Hincl. exact (proj1 (Hq i M EM)). }
  unfold j, open_equation. rewrite (nth_error_nth _ _ _ Hk).
  destruct (find _ (seq 0 n)) as [j'|] eqn:Hf.
  - apply find_some in Hf as [Hs Hlt]. apply in_seq in Hs. apply Nat.ltb_lt in Hlt. split; [lia|exact Hlt].
  - exfalso. destruct (argmax (fun i => position (challenge_input vals k i l) all) n) as (i & Hi & Hmax); [lia|].
    assert (Hm : (i + 1) mod n < n) by (apply Nat.mod_upper_bound; lia).
    pose proof (find_none _ _ Hf i ltac:(apply in_seq; lia)) as Hnot. cbv beta in Hnot. apply Nat.ltb_ge in Hnot.
    specialize (Hmax _ Hm). cbv beta in Hmax.
    assert (He : challenge_input vals k ((i + 1) mod n) l = challenge_input vals k i l).
    { apply (position_inj _ _ all); [apply Hin; exact Hm|apply Hin; exact Hi|lia]. }
    destruct (challenge_inputs_eq E L o o p K cts t r tf p K cts t r tf vals k vs _ _ Hok Hc Hc Hrun Hrun Hk Hm Hi He) as [Hbad _].
    destruct (Nat.eq_dec (i + 1) n) as [Hw|Hw]; [rewrite Hw, Nat.mod_same in Hbad by lia; lia|]. rewrite Nat.mod_small in Hbad by lia. lia.
Qed.

(** two accepted proofs with the same inputs for the challenge of an equation and for its commitments *)
Lemma two_openings (o o2 : hash scalar) p (K : PublicKey E) cts t r tf p2 (K2 : PublicKey E) cts2 t2 r2 tf2 j j2 :
  List.length cts = List.length vals -> List.length cts2 = List.length vals -> genuine K -> genuine K2 ->
  run o (ring_verifier p K vals cts t) = Ret (Ok r, tf) -> run o2 (ring_verifier p2 K2 vals cts2 t2) = Ret (Ok r2, tf2) ->
  j < n -> j2 < n ->
  let l := asked o (ring_verifier p K vals cts t) in let l2 := asked o2 (ring_verifier p2 K2 vals cts2 t2) in
  let y := challenge_input vals k j l in
  challenge_input vals k j2 l2 = y ->
  challenge_input vals k ((j2 + 1) mod n) l2 = challenge_input vals k ((j + 1) mod n) l ->
  answer o y <> answer o2 y ->
  exists ct M s s2,
    nth_error cts k = Some ct /\ nth_error (nth k vals []) j = Some M /\
    nth_error (rp_responses p) (responses_before vals k + j) = Some s /\
    nth_error (rp_responses p2) (responses_before vals k + j) = Some s2 /\
    encrypts K ct M (slope L (answer o y) s (answer o2 y) s2).
Proof.
  intros Hc Hc2 HK HK2 Hrun Hrun2 Hj Hj2 l l2 y Hy Hz Hne. pose proof ring_size as Hn.
  destruct (challenge_inputs_eq E L o o2 p K cts t r tf p2 K2 cts2 t2 r2 tf2 vals k vs j j2 Hok Hc Hc2 Hrun Hrun2 Hk Hj Hj2 (eq_sym Hy)) as (<- & <- & Hkb & Hct1).
  assert (K2 = K) by (symmetry; apply (genuine_eq E K K2 HK HK2 Hkb)). subst K2.
  assert (Hm : (j + 1) mod n < n) by (apply Nat.mod_upper_bound; lia).
  destruct (challenge_inputs_eq E L o o2 p K cts t r tf p2 K cts2 t r2 tf2 vals k vs _ _ Hok Hc Hc2 Hrun Hrun2 Hk Hm Hm (eq_sym Hz)) as (_ & _ & _ & Hct2).
  assert (Hct : nth_error cts k = nth_error cts2 k).
  { destruct j as [|j]; [|apply Hct1; discriminate]. apply Hct2. rewrite Nat.mod_small by lia. discriminate. }
  destruct (equations E L o p K vals cts t r tf k vs Hok Hc Hrun Hk) as (ct & Hk1 & Hq).
  destruct (equations E L o2 p2 K vals cts2 t r2 tf2 k vs Hok Hc2 Hrun2 Hk) as (ct2 & Hk2 & Hq2).
  assert (ct2 = ct) by congruence. subst ct2. cbv zeta in Hq, Hq2. fold l in Hq. fold l2 in Hq2.
  destruct (nth_error vs j) as [M|] eqn:EM; [|apply nth_error_None in EM; lia].
  destruct (Hq j M EM) as (_ & s & Hs & Hcar). destruct (Hq2 j M EM) as (_ & s2 & Hs2 & Hcar2).
  rewrite Hy in Hcar2. rewrite Hz in Hcar2. fold y in Hcar.
  exists ct, M, s, s2. split; [exact Hk1|]. split; [rewrite (nth_error_nth _ _ _ Hk); exact EM|]. split; [exact Hs|]. split; [exact Hs2|].
  apply (opening_answers E L (pk_element K) ct M (answer o y) s (answer o2 y) s2 Hne).
  destruct Hcar as [_ Hcar], Hcar2 as [_ Hcar2]. destruct (j + 1 <? n).
  - destruct Hcar as (rt & Hl1 & HX), Hcar2 as (rt2 & Hl2 & HX2).
    assert (rt2 = rt). { destruct Hl1 as (a & b & Ha & Hb & ->), Hl2 as (a' & b' & Ha' & Hb' & ->). congruence. }
    subst rt2. exact (query_inj E L _ _ _ _ _ HX HX2).
  - destruct Hcar as (Ts & HT & HX), Hcar2 as (Ts2 & HT2 & HX2).
    destruct (ring_common_inj E L _ _ _ _ _ _ _ HT HT2) as (_ & _ & <-). congruence.
Qed.

Context {X : Type} (A : strategy scalar X) (statement : X -> RingProof E * PublicKey E * list (Ciphertext E) * transcript).
Context (Q : nat) (HQ : at_most Q A) (HK : forall o, let '(_, K, _, _) := statement (run o A) in genuine K).
Local Notation N := (Q + ring_queries vals).

Definition ring_accepted (o : hash scalar) (x : X) : bool :=
  let '(p, K, cts, t) := statement x in (List.length cts =? List.length vals) && ok_t (run o (ring_verifier p K vals cts t)).

Lemma openings_ring : opening_extractable L S m A statement vals k ring_accepted (Z.of_nat (N * N)).
Proof.
  unfold opening_extractable. intros D o0 Hnd Hinc found Hfound. unfold opened in Hfound.
  set (V0 := ring_check statement vals) in *.
  set (W := all_hashes (digests S) D o0).
  set (T' := traced [] (andthen A (fun x => andthen (traced [] (V0 x)) (fun yl => Output (x, yl))))).
  set (T := via E S T').
  assert (Hask : forall o, asked o T = asked (challenges S o) (andthen A V0)).
  { intros o. unfold T. rewrite via_asked. unfold T'. rewrite traced_asked, !asked_andthen, traced_asked. cbn [asked]. rewrite app_nil_r. reflexivity. }
  assert (Hrun : forall o, let c := challenges S o in
            run o T = ((run c A, (run c (V0 (run c A)), asked c (V0 (run c A)))), asked c (andthen A V0))).
  { intros o. cbv zeta. rewrite <- Hask. unfold T. rewrite via_run, via_asked. unfold T'.
    rewrite traced_asked, traced_run, !run_andthen, traced_run. reflexivity. }
  set (len_ok := fun x => let '(_, _, cts, _) := statement x in List.length cts =? List.length vals).
  set (win' := fun r : (X * (outcome (result unit VerificationError * transcript) * list query)) * list query => len_ok (fst (fst r)) && ok_t (fst (snd (fst r)))).
  set (op := fun r : (X * (outcome (result unit VerificationError * transcript) * list query)) * list query => open_equation vals k (snd (snd (fst r))) (snd r)).
  set (pos' := fun r : (X * (outcome (result unit VerificationError * transcript) * list query)) * list query => challenge_input vals k (op r) (snd (snd (fst r)))).
  set (lab' := fun r : (X * (outcome (result unit VerificationError * transcript) * list query)) * list query =>
                 position (challenge_input vals k ((op r + 1) mod n) (snd (snd (fst r)))) (snd r)).
  assert (Hwin : forall o, win' (run o T) = ring_accepted (challenges S o) (run (challenges S o) A)).
  { intros o. rewrite Hrun. unfold win', len_ok, ring_accepted, V0, ring_check. cbn [fst snd]. destruct (statement _) as [[[p K] cts] t]. reflexivity. }
  assert (HT0 : at_most N (andthen A V0)).
  { apply at_most_andthen; [exact HQ|]. intros x. unfold V0, ring_check. destruct (statement x) as [[[p K] cts] t]. apply ring_most. }
  assert (HT : at_most N T).
  { unfold T. apply via_most. unfold T'. apply traced_most. apply at_most_andthen; [exact HQ|]. intros x.
    replace (ring_queries vals) with (ring_queries vals + 0) by lia. apply at_most_andthen; [|intros yl; constructor].
    apply traced_most. unfold V0, ring_check. destruct (statement x) as [[[p K] cts] t]. apply ring_most. }
  (* what acceptance means *)
  assert (Hacc : forall c, ring_accepted c (run c A) = true ->
            let l := asked c (V0 (run c A)) in let all := asked c (andthen A V0) in let j := open_equation vals k l all in
            incl l all /\ j < n /\ position (challenge_input vals k ((j + 1) mod n) l) all < position (challenge_input vals k j l) all /\
            (forall i, i < n -> In (challenge_input vals k i l) all)).
  { intros c Hc l all. assert (Hi : incl l all) by (unfold all; rewrite asked_andthen; apply incl_appr, incl_refl).
    intros j. split; [exact Hi|]. unfold ring_accepted in Hc. unfold l, V0, ring_check in *. destruct (statement (run c A)) as [[[p K] cts] t] eqn:Est.
    apply andb_true_iff in Hc as [Hlen Hc]. apply Nat.eqb_eq in Hlen. destruct (ok_t_inv _ Hc) as ([] & tf & Hr).
    pose proof (open_found c p K cts t tt tf all Hlen Hr Hi) as Ho. cbv zeta in Ho. fold j in Ho. split; [exact (proj1 Ho)|]. split; [exact (proj2 Ho)|].
    destruct (equations E L c p K vals cts t tt tf k vs Hok Hlen Hr Hk) as (ct & _ & Hq). cbv zeta in Hq.
    intros i Hin. destruct (nth_error vs i) as [M|] eqn:EM; [|apply nth_error_None in EM; lia]. apply Hi. exact (proj1 (Hq i M EM)). }
  pose proof (labelled (digest S) (digests S) (similar E S) (Z.to_nat m) (similar_classes E L S m Hbal) win' pos' lab' N N T D o0 HT Hnd) as Hfork.
  cbv zeta in Hfork.
  assert (Hs : hsum (digest S) (digests S) D o0 (fun o => b2n (win' (run o T))) =
               List.length (filter (fun o => ring_accepted (challenges S o) (run (challenges S o) A)) W)).
  { rewrite length_filter. apply lsum_ext. intros o _. rewrite Hwin. reflexivity. }
  assert (HF : hsum (digest S) (digests S) D o0 (fun o => hsum (digest S) (digests S) D o0 (fun o' => b2n (forked (digest S) (similar E S) win' pos' lab' T o o'))) <=
               List.length (filter (fun p => found (fst p) (snd p)) (list_prod W W))).
  { rewrite length_filter_prod. apply lsum_le. intros o _. apply lsum_le. intros o' _. cbn [fst snd].
    destruct (forked (digest S) (similar E S) win' pos' lab' T o o') eqn:Hf; [|cbn; lia]. enough (found o o' = true) as -> by (cbn; lia).
    unfold forked in Hf. rewrite !Hwin, Hask in Hf.
    assert (Hpos : pos' (run o T) = let c := challenges S o in let l := asked c (V0 (run c A)) in
                     challenge_input vals k (open_equation vals k l (asked c (andthen A V0))) l) by (rewrite Hrun; reflexivity).
    cbv zeta in Hpos. set (c := challenges S o) in *. set (all := asked c (andthen A V0)) in *. set (l := asked c (V0 (run c A))) in *.
    set (j := open_equation vals k l all) in *. rewrite Hpos in Hf. set (y := challenge_input vals k j l) in *.
    set (o2 := splice (before y all) o o') in *. set (c2 := challenges S o2) in *.
    apply andb_true_iff in Hf as [Hf Hsim]. apply andb_true_iff in Hf as [Hf Hlab]. apply andb_true_iff in Hf as [Hf Hsame].
    apply andb_true_iff in Hf as [H1 H2].
    assert (Hpos2 : pos' (run o2 T) = let l := asked c2 (V0 (run c2 A)) in
                     challenge_input vals k (open_equation vals k l (asked c2 (andthen A V0))) l) by (rewrite Hrun; reflexivity).
    cbv zeta in Hpos2.
    assert (Hl1 : lab' (run o T) = position (challenge_input vals k ((j + 1) mod n) l) all) by (rewrite Hrun; reflexivity).
    assert (Hl2 : lab' (run o2 T) = let l2 := asked c2 (V0 (run c2 A)) in let all2 := asked c2 (andthen A V0) in
                     position (challenge_input vals k ((open_equation vals k l2 all2 + 1) mod n) l2) all2) by (rewrite Hrun; reflexivity).
    cbv zeta in Hl2. set (all2 := asked c2 (andthen A V0)) in *. set (l2 := asked c2 (V0 (run c2 A))) in *. set (j2 := open_equation vals k l2 all2) in *.
    rewrite Hpos2 in Hsame. unfold same in Hsame. destruct (query_dec _ _) as [Hyy|]; [|discriminate].
    rewrite Hl1, Hl2 in Hlab. apply Nat.eqb_eq in Hlab.
    destruct (Hacc c H1) as (Hi1 & Hj & Hlt & Hin). destruct (Hacc c2 H2) as (Hi2 & Hj2 & Hlt2 & Hin2). cbv zeta in *. fold l all j in Hi1, Hj, Hlt, Hin. fold l2 all2 j2 in Hi2, Hj2, Hlt2, Hin2.
    assert (Hbefore : before y all2 = before y all).
    { unfold all2, all. apply before_rerun. intros z Hz. unfold c2, c, challenges, answer. f_equal.
      change (answer o2 z = answer o z). apply splice_in. exact Hz. }
    assert (Hz : challenge_input vals k ((j2 + 1) mod n) l2 = challenge_input vals k ((j + 1) mod n) l).
    { pose proof ring_size as Hn2. apply (same_position _ _ y all all2).
      - apply Hin. apply Nat.mod_upper_bound. lia.
      - apply Hin2. apply Nat.mod_upper_bound. lia.
      - exact Hbefore.
      - exact Hlt.
      - exact Hlab. }
    assert (Hne : answer c y <> answer c2 y).
    { intros He. unfold similar in Hsim. change (challenge_of S (answer o2 y)) with (answer c2 y) in Hsim.
      change (challenge_of S (answer o y)) with (answer c y) in Hsim. rewrite He, (s_eqb_refl L) in Hsim. discriminate. }
    pose proof (Hfound o o') as Hf0. fold c in Hf0. fold all l in Hf0. fold j in Hf0. fold y in Hf0. fold o2 in Hf0. fold c2 in Hf0.
    clear Hfound Hacc Hpos Hpos2 Hl1 Hl2 Hin Hin2 Hi1 Hi2 Hlab Hlt Hlt2 Hsim Hbefore.
    assert (HV : forall c, V0 (run c A) = let '(p, K, cts, t) := statement (run c A) in ring_verifier p K vals cts t) by reflexivity.
    unfold l, l2 in *. clearbody j j2 all all2. clearbody c2.
    pose proof (HK c) as HK1. pose proof (HK c2) as HK2. unfold ring_accepted in H1, H2. subst y.
    revert Hf0 Hyy Hz Hne HK1 HK2 H1 H2. rewrite !HV. clear HV. destruct (statement (run c A)) as [[[p K] cts] t]. destruct (statement (run c2 A)) as [[[p2 K2] cts2] t2]. intros Hf0 Hyy Hz Hne HK1 HK2 H1 H2.
    apply andb_true_iff in H1 as [Hlen H1]. apply Nat.eqb_eq in Hlen. destruct (ok_t_inv _ H1) as ([] & tf & Hr).
    apply andb_true_iff in H2 as [Hlen2 H2]. apply Nat.eqb_eq in Hlen2. destruct (ok_t_inv _ H2) as ([] & tf2 & Hr2).
    apply Hf0. exact (two_openings c c2 p K cts t tt tf p2 K2 cts2 t2 tt tf2 j j2 Hlen Hlen2 HK1 HK2 Hr Hr2 Hj Hj2 Hyy Hz Hne). }
  rewrite Hs in Hfork. unfold size.
  set (w := List.length (filter (fun o => ring_accepted (challenges S o) (run (challenges S o) A)) W)) in *.
  set (f := List.length (filter (fun p => found (fst p) (snd p)) (list_prod W W))) in *.
  assert (Hfin : q * (w * w) <= N * N * (q * f + Z.to_nat m * w * q ^ List.length D)).
  { etransitivity; [apply Hfork|].
    - intros o. rewrite Hask. apply Hinc.
    - intros o Ho. rewrite Hwin in Ho. destruct (Hacc _ Ho) as (_ & Hj & Hlt & Hin). cbv zeta in *. pose proof ring_size as Hn2. split.
      + rewrite Hask, Hrun. unfold pos', op. cbn [fst snd]. apply Hin. exact Hj.
      + rewrite Hrun. unfold lab', op. cbn [fst snd]. eapply Nat.lt_le_trans; [apply position_lt, Hin, Nat.mod_upper_bound; lia|].
        apply most_length. exact HT0.
    - apply Nat.mul_le_mono_l. apply Nat.add_le_mono_r. apply Nat.mul_le_mono_l. exact HF. }
  assert (Hm : (Z.of_nat (Z.to_nat m) = m)%Z).
  { apply Z2Nat.id. apply (proj2 Hbal s_default []); [constructor|intros ? []]. }
  apply Nat2Z.inj_le in Hfin. rewrite (Nat2Z.inj_mul q), (Nat2Z.inj_mul (N * N)), Nat2Z.inj_add, !Nat2Z.inj_mul, Nat2Z.inj_pow, Hm in Hfin.
  rewrite Nat2Z.inj_mul. exact Hfin.
Qed.

(** a stricter acceptance *)
Lemma stricter (a W W' F N P z : Z) : (0 <= a -> 0 <= z -> 0 <= P -> 0 <= N -> 0 <= W -> W <= W' -> 0 <= F ->
  a * (W' * W') <= N * (a * F + z * W' * P) -> a * (W * W) <= N * (a * F + z * W * P))%Z.
Proof.
  intros Ha Hz HP HN HW HWW HF H.
  destruct (Z.le_gt_cases (a * W) (N * (z * P))) as [Hc|Hc].
  - assert (H1 : (a * W * W <= N * (z * P) * W)%Z) by (apply Z.mul_le_mono_nonneg_r; assumption).
    assert (0 <= N * (a * F))%Z by (apply Z.mul_nonneg_nonneg; [exact HN|apply Z.mul_nonneg_nonneg; assumption]). nia.
  - assert (H1 : (W * (a * W - N * (z * P)) <= W' * (a * W' - N * (z * P)))%Z).
    { apply Z.mul_le_mono_nonneg; [exact HW|exact HWW|lia|]. assert (a * W <= a * W')%Z by (apply Z.mul_le_mono_nonneg_l; assumption). lia. }
    nia.
Qed.

Lemma openings (accepted : hash scalar -> X -> bool) :
  (forall o x, accepted o x = true -> ring_accepted o x = true) ->
  opening_extractable L S m A statement vals k accepted (Z.of_nat (N * N)).
Proof.
  intros Hstr. unfold opening_extractable. intros D o0 Hnd Hinc found Hfound.
  pose proof (openings_ring D o0 Hnd Hinc found Hfound) as H. cbv zeta in H.
  eapply stricter; [| | | | | | |exact H]; try (unfold size; lia).
  - apply (proj2 Hbal s_default []); [constructor|intros ? []].
  - apply inj_le. rewrite !length_filter. apply lsum_le. intros o _.
    destruct (accepted (challenges S o) (run (challenges S o) A)) eqn:Ha; [|cbn; lia]. rewrite (Hstr _ _ Ha). lia.
Qed.

End Extract.
