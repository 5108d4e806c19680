(** * Proofs are determined by the hash inputs of their verification: lemmas for C78 *)
From Coq Require Import List String NArith ZArith Field Arith Lia Bool.
From Verif.Model Require Import Base Group Transcript Keys Encryption LogEquality Possession Commitment Ring Range Mul Sharing Choice Quadratic.
From Verif.Spec Require Import Encryption LogEquality Sigma Possession Ring Range Choice Quadratic Domains Rom Verifiers Extractors.
From Verif.Proofs Require Import Algebra Lists Encryption LogEquality Possession Commitment SumOfSquares Ring Range RangeProof Choice Quadratic Rom Verifiers Forgery Extractors.
Import ListNotations.
Open Scope string_scope.
Open Scope list_scope.
Open Scope nat_scope.

Lemma skipn_plus {A : Type} a b (l : list A) : skipn (a + b) l = skipn b (skipn a l).
Proof. revert l. induction a as [|a IH]; intros [|x l]; cbn; auto. destruct b; reflexivity. Qed.

Section Rings.
Context (E : Env) (L : GroupLaws E) (o : hash (Scalar E)).
Add Field s_field_rigid : (s_field L).
Local Notation element := (Element E).
Local Notation scalar := (Scalar E).

Definition as_query (q : transcript) : query := (q, "c").

(** *** exact hash inputs of a ring proof *)
Lemma loop_asked rt K ct len eqs : forall j c X0 A s T,
  (S j + List.length eqs = len)%nat ->
  run o (ring_loop_verifier rt K ct len j ((A, s) :: eqs) c X0) = Ret T ->
  exists qs, ring_trace E o rt K ct j (ring_commitments K ct A c s) eqs T qs /\
    asked o (ring_loop_verifier rt K ct len j ((A, s) :: eqs) c X0) = map as_query qs.
Proof.
  assert (Hstep : forall j c X0 A s items, ring_loop_verifier (E:=E) rt K ct len j ((A, s) :: items) c X0 =
    (if (j + 1 <? len)%nat then
       doing (ring_hash_input rt j (ring_commitments K ct A c s)) (fun q =>
       asking q (fun c' => ring_loop_verifier rt K ct len (S j) items c' (ring_commitments K ct A c s)))
     else ring_loop_verifier rt K ct len (S j) items c (ring_commitments K ct A c s))).
  { intros. cbn [ring_loop_verifier]. rewrite (vartime_multi_mul_ok E L) by reflexivity. cbn [doing lin_comb].
    rewrite (le_commit0 E L). unfold ring_commitments.
    replace (K * s + ((blinded_element ct - A) * - c + identity))%E
      with (K * s - (blinded_element ct - A) * c)%E by el_ring L. reflexivity. }
  induction eqs as [|[A' s'] eqs IH]; intros j c X0 A s T Hlen.
  - rewrite Hstep. cbn in Hlen. replace (j + 1 <? len)%nat with false by (symmetry; apply Nat.ltb_ge; lia).
    cbn. intros Hr. injection Hr as <-. exists []. split; reflexivity.
  - rewrite Hstep. cbn in Hlen. replace (j + 1 <? len)%nat with true by (symmetry; apply Nat.ltb_lt; lia).
    destruct (ring_hash_input rt j (ring_commitments K ct A c s)) as [q|] eqn:Hq; [|discriminate]. cbn [doing asking run asked].
    intros Hr. apply IH in Hr as (qs & Ht & Ha); [|cbn; lia]. exists (q :: qs). split.
    + cbn [ring_trace]. split; [apply ring_hash_input_iff; exact Hq|]. exact Ht.
    + cbn [map]. f_equal. exact Ha.
Qed.

Definition ring_traced (t0 : transcript) (K : element) (c : scalar) (i : nat) (vs : list element) (ct : Ciphertext E)
    (rs : list scalar) (T : element * element) (qs : list transcript) : Prop :=
  exists rt A s vs' rs', vs = A :: vs' /\ rs = s :: rs' /\ List.length rs' = List.length vs' /\ ring_local t0 ct i rt /\
    ring_trace E o rt K ct 0 (ring_commitments K ct A c s) (combine vs' rs') T qs.

Fixpoint rings_traced (t0 : transcript) (K : element) (c : scalar) (i : nat) (vals : list (list element))
    (cts : list (Ciphertext E)) (rss : list (list scalar)) (Ts : list (element * element)) (qss : list (list transcript)) : Prop :=
  match vals, cts, rss, Ts, qss with
  | vs :: vals', ct :: cts', rs :: rss', T :: Ts', qs :: qss' =>
      ring_traced t0 K c i vs ct rs T qs /\ rings_traced t0 K c (S i) vals' cts' rss' Ts' qss'
  | [], [], [], [], [] => True
  | _, _, _, _, _ => False
  end.

Lemma rings_asked t0 (K : PublicKey E) p : forall vals cts i start t t',
  List.length vals = List.length cts -> Forall (fun vs => vs <> []) vals ->
  start + list_sum (map (@List.length element) vals) <= List.length (rp_responses p) ->
  run o (rings_verifier t0 K p i start (combine vals cts) t) = Ret t' ->
  exists rss Ts qss msgs, firstn (list_sum (map (@List.length element) vals)) (skipn start (rp_responses p)) = List.concat rss /\
    t' = t ++ msgs /\ absorbed (E:=E) (flat_map (fun T => [("R_G", fst T); ("R_K", snd T)]) Ts) msgs /\
    rings_traced t0 (pk_element K) (rp_challenge p) i vals cts rss Ts qss /\
    asked o (rings_verifier t0 K p i start (combine vals cts) t) = map as_query (List.concat qss).
Proof.
  induction vals as [|vs0 vals IH]; intros [|c0 cts] i start t t' Hl Hne Hlen Hrun; try discriminate.
  - cbn in Hrun. injection Hrun as <-. exists [], [], [], []. split; [reflexivity|]. split; [rewrite app_nil_r; reflexivity|].
    split; [constructor|]. split; [exact I|reflexivity].
  - cbn [combine rings_verifier] in *. cbn [map list_sum fold_right] in *. fold (list_sum (map (@List.length element) vals)) in *.
    inversion Hne as [|? ? Hn0 Hne']; subst.
    destruct (ring_init_transcript t0 c0 i) as [rt|] eqn:Hrt; cbn [doing] in *; [|discriminate].
    unfold slice_from in *. destruct (Nat.leb_spec start (List.length (rp_responses p))) as [Hs|Hs]; [|lia]. cbn [doing] in *.
    pose proof Hrun as Hrun'. apply run_after_inv in Hrun' as (T & HT & Hrest).
    destruct (append_element t "R_G" (fst T)) as [t1|] eqn:Ht1; cbn [doing] in Hrest; [|discriminate].
    destruct (append_element t1 "R_K" (snd T)) as [t2|] eqn:Ht2; cbn [doing] in Hrest; [|discriminate].
    pose proof Hrest as Hrest'. apply IH in Hrest' as (rss & Ts & qss & msgs & Hr & -> & Ha & Htr & Hask); [|cbn in Hl; lia|exact Hne'|lia].
    destruct vs0 as [|A vs']; [congruence|].
    assert (Htl : List.length (A :: vs') <= List.length (skipn start (rp_responses p))) by (rewrite skipn_length; cbn [List.length] in *; lia).
    destruct (skipn start (rp_responses p)) as [|s tl] eqn:Etl; [cbn in Htl; lia|]. cbn [combine] in HT.
    assert (Hc : combine vs' tl = combine vs' (firstn (List.length vs') tl)).
    { clear. revert tl. induction vs' as [|a l IH]; intros [|b tl]; cbn; auto. f_equal. apply IH. }
    pose proof HT as HT'. apply loop_asked in HT'.
    2: { rewrite combine_length. cbn [List.length] in *. lia. }
    destruct HT' as (qs & Htr0 & Hq). rewrite Hc in Htr0.
    pose proof Ht1 as Ht1'. pose proof Ht2 as Ht2'. unfold append_element, append_message in Ht1, Ht2. inv_bind Ht1. injection Ht1 as <-. inv_bind Ht2. injection Ht2 as <-.
    exists ((s :: firstn (List.length vs') tl) :: rss), (T :: Ts), (qs :: qss). eexists. split.
    { cbn [List.concat app List.length Nat.add firstn]. f_equal.
      assert (Hsk : skipn (List.length vs') tl = skipn (start + S (List.length vs')) (rp_responses p)).
      { rewrite skipn_plus, Etl. reflexivity. }
      rewrite <- Hr. cbn [List.length]. rewrite <- Hsk.
      rewrite <- (firstn_skipn (List.length vs') tl) at 1. rewrite firstn_app, firstn_length_le by (cbn in Htl; lia).
      rewrite firstn_all2 by (rewrite firstn_length; lia). f_equal. f_equal. lia. }
    split; [rewrite <- !app_assoc; cbn [app]; reflexivity|]. split.
    { cbn [flat_map app]. constructor; [cbn; eauto|]. constructor; [cbn; eauto|]. exact Ha. }
    split.
    { cbn [rings_traced]. split; [|exact Htr]. exists rt, A, s, vs', (firstn (List.length vs') tl). split; [reflexivity|]. split; [reflexivity|].
      split; [apply firstn_length_le; cbn in Htl; lia|]. split; [apply ring_init_iff; exact Hrt|exact Htr0]. }
    cbn [combine]. unfold after. rewrite asked_andthen, HT. cbn [doing]. rewrite Ht1'. cbn [doing]. rewrite Ht2'. cbn [doing].
    rewrite Hask. cbn [List.concat combine]. rewrite map_app, Hq. reflexivity.
Qed.

Lemma ring_verifier_asked p (K : PublicKey E) vals cts t r t' :
  List.length vals = List.length cts -> Forall (fun vs => vs <> []) vals ->
  run o (ring_verifier p K vals cts t) = Ret (Ok r, t') ->
  exists rss Ts qss q, rp_responses p = List.concat rss /\ ring_common (E:=E) (ring_context t K) Ts q /\
    rings_traced (ring_context t K) (pk_element K) (rp_challenge p) 0 vals cts rss Ts qss /\
    rp_challenge p = o q "c" /\ asked o (ring_verifier p K vals cts t) = map as_query (List.concat qss ++ [q]).
Proof.
  intros Hvc Hne Hrun. unfold ring_verifier in *. unfold check_lengths in *.
  destruct (Nat.eqb_spec (List.length (rp_responses p)) (list_sum (map (@List.length element) vals))) as [Hl|]; [|discriminate].
  cbv zeta in *. pose proof Hrun as Hrun'. apply run_after_inv in Hrun as (q & Hq & Hrun).
  assert (Ht0 : ring_initialize_transcript t K = ring_context t K).
  { unfold ring_initialize_transcript, start_proof, append_element_bytes, append_message, ring_context. rewrite <- app_assoc. reflexivity. }
  rewrite Ht0 in *. cbn [asking run] in Hrun. unfold answer in Hrun. cbn [fst snd] in Hrun.
  destruct (s_eqb (o q "c") (rp_challenge p)) eqn:Hs; [|discriminate].
  apply (s_eqb_ok _ L) in Hs.
  pose proof Hq as Hq'. apply rings_asked in Hq' as (rss & Ts & qss & msgs & Hr & -> & Ha & Htr & Hask); [|exact Hvc|exact Hne|lia].
  exists rss, Ts, qss, (ring_context t K ++ msgs). split.
  { rewrite <- Hr. cbn [skipn]. rewrite firstn_all2 by lia. reflexivity. }
  split; [exists msgs; auto|]. split; [exact Htr|]. split; [symmetry; exact Hs|].
  unfold after. rewrite asked_andthen, Hq, Hask, map_app. reflexivity.
Qed.

(** *** the hash inputs determine the responses *)
Lemma gen_inj (a b : scalar) : (generator * a)%E = (generator * b)%E -> a = b.
Proof.
  intros H. assert (Hz : (generator * (a - b))%E = identity).
  { replace (generator * (a - b))%E with (generator * a - generator * b)%E by el_ring L. rewrite H. el_ring L. }
  apply (generator_order _ L) in Hz. replace a with ((a - b) + b)%S by ring. rewrite Hz. ring.
Qed.

Lemma sub_inj_l (a b x : element) : (a - x)%E = (b - x)%E -> a = b.
Proof. intros H. replace a with ((a - x) + x)%E by el_ring L. rewrite H. el_ring L. Qed.

Lemma commitments_inj (K K' : element) ct A A' c s s' :
  ring_commitments (E:=E) K ct A c s = ring_commitments K' ct A' c s' -> s = s'.
Proof. unfold ring_commitments. intros H. injection H as H _. apply sub_inj_l in H. exact (gen_inj _ _ H). Qed.

Lemma query_inj rt j (X X' : element * element) q : ring_query rt j X q -> ring_query rt j X' q -> X = X'.
Proof.
  intros (a & b & Ha & Hb & ->) (a' & b' & Ha' & Hb' & H). apply app_inv_head in H. injection H as <- <-.
  destruct (ser_element_ok _ L _ _ Ha) as [_ D1]. destruct (ser_element_ok _ L _ _ Ha') as [_ D1'].
  destruct (ser_element_ok _ L _ _ Hb) as [_ D2]. destruct (ser_element_ok _ L _ _ Hb') as [_ D2'].
  destruct X, X'. cbn in *. congruence.
Qed.

Lemma trace_inj rt K K' ct : forall vs vs' rs rs' j X X' T qs,
  List.length rs = List.length vs -> List.length rs' = List.length vs' ->
  ring_trace E o rt K ct j X (combine vs rs) T qs -> ring_trace E o rt K' ct j X' (combine vs' rs') T qs -> X = X' /\ rs = rs'.
Proof.
  induction vs as [|A vs IH]; intros [|A' vs'] [|s rs] [|s' rs'] j X X' T [|q qs] Hl Hl' Ht Ht'; try discriminate; try contradiction.
  - cbn in Ht, Ht'. split; [congruence|reflexivity].
  - cbn [combine ring_trace] in Ht, Ht'. destruct Ht as [Hq Ht], Ht' as [Hq' Ht'].
    split; [exact (query_inj _ _ _ _ _ Hq Hq')|].
    destruct (IH vs' rs rs' _ _ _ _ _ (eq_add_S _ _ Hl) (eq_add_S _ _ Hl') Ht Ht') as [HX ->].
    f_equal. exact (commitments_inj _ _ _ _ _ _ _ _ HX).
Qed.

Lemma trace_at rt K ct : forall eqs qs j X T l q, ring_trace E o rt K ct j X eqs T qs -> nth_error qs l = Some q ->
  exists X', ring_query (E:=E) rt (j + l) X' q /\ l < List.length eqs.
Proof.
  intros eqs qs j X T l q Ht Hn. destruct (trace_nth E o rt K ct eqs qs j X T l q Ht Hn) as (X' & A & s & Hq & He & _).
  exists X'. split; [exact Hq|]. apply nth_error_Some. congruence.
Qed.

Lemma traced_nth t0 K c : forall vals cts rss Ts qss i k vs, rings_traced t0 K c i vals cts rss Ts qss ->
  nth_error vals k = Some vs ->
  exists ct rs T qs, nth_error cts k = Some ct /\ nth_error rss k = Some rs /\ nth_error Ts k = Some T /\ nth_error qss k = Some qs /\
    ring_traced t0 K c (i + k) vs ct rs T qs.
Proof.
  induction vals as [|v vals IH]; intros [|ct cts] [|rs rss] [|T Ts] [|qs qss] i [|k] vs Ht Hn; cbn in *; try contradiction; try discriminate.
  - injection Hn as ->. exists ct, rs, T, qs. rewrite Nat.add_0_r. repeat split; try reflexivity. apply Ht.
  - destruct (IH _ _ _ _ (S i) k vs (proj2 Ht) Hn) as (ct' & rs' & T' & qs' & H). exists ct', rs', T', qs'.
    replace (i + S k) with (S i + k) by lia. exact H.
Qed.

Lemma traced_lengths t0 K c : forall vals cts rss Ts qss i, rings_traced t0 K c i vals cts rss Ts qss ->
  List.length cts = List.length vals /\ List.length rss = List.length vals /\ List.length Ts = List.length vals /\ List.length qss = List.length vals.
Proof.
  induction vals as [|v vals IH]; intros [|ct cts] [|rs rss] [|T Ts] [|qs qss] i Ht; cbn in *; try contradiction; [auto|].
  destruct (IH _ _ _ _ (S i) (proj2 Ht)) as (-> & -> & -> & ->). auto.
Qed.

Lemma concat_in {A : Type} (ls : list (list A)) x : In x (List.concat ls) -> exists k l j, nth_error ls k = Some l /\ nth_error l j = Some x.
Proof.
  intros H. apply in_concat in H as (l & Hl & Hx). apply In_nth_error in Hl as [k Hk]. apply In_nth_error in Hx as [j Hj]. eauto.
Qed.

Lemma nth_ext' {A : Type} (l l' : list A) : List.length l = List.length l' ->
  (forall k a b, nth_error l k = Some a -> nth_error l' k = Some b -> a = b) -> l = l'.
Proof.
  revert l'; induction l as [|x l IH]; intros [|y l'] Hl H; try discriminate; [reflexivity|].
  f_equal; [exact (H 0 x y eq_refl eq_refl)|]. apply IH; [cbn in Hl; lia|]. intros k a b Ha Hb. exact (H (S k) a b Ha Hb).
Qed.

(** All hash inputs of [p'] are hash inputs of [p]. *)
Lemma ring_rigid p p' (K K' : PublicKey E) vals cts cts' t t' r r' tf tf' :
  vals <> [] -> Forall (fun vs => 2 <= List.length vs /\ (N.of_nat (List.length vs) < u64_lim)%N) vals ->
  (N.of_nat (List.length vals) < u64_lim)%N ->
  List.length cts = List.length vals -> List.length cts' = List.length vals ->
  run o (ring_verifier p K vals cts t) = Ret (Ok r, tf) -> run o (ring_verifier p' K' vals cts' t') = Ret (Ok r', tf') ->
  incl (asked o (ring_verifier p' K' vals cts' t')) (asked o (ring_verifier p K vals cts t)) ->
  t' = t /\ pk_bytes K' = pk_bytes K /\ cts' = cts /\ p' = p.
Proof.
  intros Hv0 Hv Hvn Hc Hc' Hrun Hrun' Hincl.
  assert (Hne : Forall (fun vs : list element => vs <> []) vals).
  { eapply Forall_impl; [|exact Hv]. intros [|a vs]; cbn; [lia|discriminate]. }
  apply ring_verifier_asked in Hrun as (rss & Ts & qss & q & Hr & Hq & Htr & Hch & Hask); [|congruence|exact Hne].
  apply ring_verifier_asked in Hrun' as (rss' & Ts' & qss' & q' & Hr' & Hq' & Htr' & Hch' & Hask'); [|congruence|exact Hne].
  rewrite Hask, Hask' in Hincl.
  assert (Hin : forall x, In x (List.concat qss' ++ [q']) -> In x (List.concat qss ++ [q])).
  { intros x Hx. apply (in_map as_query) in Hx. apply Hincl in Hx. apply in_map_iff in Hx as (y & Hy & Hi). unfold as_query in Hy. injection Hy as ->. exact Hi. }
  destruct (traced_lengths _ _ _ _ _ _ _ _ _ Htr) as (_ & Hl1 & Hl2 & Hl3).
  destruct (traced_lengths _ _ _ _ _ _ _ _ _ Htr') as (_ & Hl1' & Hl2' & Hl3').
  assert (Hmid : forall k l qs x, nth_error qss k = Some qs -> nth_error qs l = Some x ->
            exists ct rt X, nth_error cts k = Some ct /\ ring_local (ring_context t K) ct k rt /\ ring_query (E:=E) rt l X x /\
              (N.of_nat k < u64_lim)%N /\ (N.of_nat l < u64_lim)%N).
  { intros k l qs x Hk Hx. assert (Hkl : k < List.length vals) by (rewrite <- Hl3; apply nth_error_Some; congruence).
    destruct (nth_error vals k) as [vs|] eqn:Ev; [|apply nth_error_None in Ev; lia].
    destruct (traced_nth _ _ _ _ _ _ _ _ _ k vs Htr Ev) as (ct & rs & T & qs0 & Hct & _ & _ & Hqs & rt & A & s & vs' & rs' & Hvs & _ & Hlr & Hloc & Htrc).
    assert (qs0 = qs) by congruence. subst qs0. destruct (trace_at _ _ _ _ _ _ _ _ _ _ Htrc Hx) as (X & HX & Hll).
    exists ct, rt, X. split; [exact Hct|]. split; [exact Hloc|]. split; [exact HX|].
    rewrite combine_length in Hll. pose proof (proj1 (Forall_forall _ _) Hv vs (nth_error_In _ _ Ev)) as [_ Hb].
    rewrite Hvs in Hb. cbn [List.length] in Hb. lia. }
  assert (Hmid' : forall k l qs x, nth_error qss' k = Some qs -> nth_error qs l = Some x ->
            exists ct rt X, nth_error cts' k = Some ct /\ ring_local (ring_context t' K') ct k rt /\ ring_query (E:=E) rt l X x /\
              (N.of_nat k < u64_lim)%N /\ (N.of_nat l < u64_lim)%N).
  { intros k l qs x Hk Hx. assert (Hkl : k < List.length vals) by (rewrite <- Hl3'; apply nth_error_Some; congruence).
    destruct (nth_error vals k) as [vs|] eqn:Ev; [|apply nth_error_None in Ev; lia].
    destruct (traced_nth _ _ _ _ _ _ _ _ _ k vs Htr' Ev) as (ct & rs & T & qs0 & Hct & _ & _ & Hqs & rt & A & s & vs' & rs' & Hvs & _ & Hlr & Hloc & Htrc).
    assert (qs0 = qs) by congruence. subst qs0. destruct (trace_at _ _ _ _ _ _ _ _ _ _ Htrc Hx) as (X & HX & Hll).
    exists ct, rt, X. split; [exact Hct|]. split; [exact Hloc|]. split; [exact HX|].
    rewrite combine_length in Hll. pose proof (proj1 (Forall_forall _ _) Hv vs (nth_error_In _ _ Ev)) as [_ Hb].
    rewrite Hvs in Hb. cbn [List.length] in Hb. lia. }
  (* the common challenge *)
  assert (Hq0 : q' = q).
  { assert (Hi : In q' (List.concat qss ++ [q])) by (apply Hin; apply in_or_app; right; left; reflexivity).
    apply in_app_or in Hi as [Hi|[Hi|[]]]; [exfalso|congruence].
    apply concat_in in Hi as (k & qs & l & Hk & Hx). destruct (Hmid _ _ _ _ Hk Hx) as (ct & rt & X & _ & Hloc & HX & _).
    destruct Ts' as [|T0 Ts']; [destruct vals; [congruence|discriminate]|].
    exact (ring_shape E _ _ _ _ _ _ _ _ _ _ T0 0 _ Hloc HX Hq' eq_refl). }
  subst q'. destruct (ring_common_inj E L _ _ _ _ _ _ _ Hq' Hq) as (-> & Hkb & ->).
  split; [reflexivity|]. split; [exact Hkb|].
  assert (Hctx : ring_context t K' = ring_context t K) by (unfold ring_context; rewrite Hkb; reflexivity).
  rewrite Hctx in *.
  (* each ring *)
  assert (Hrings : forall k ct ct' rs rs', nth_error cts k = Some ct -> nth_error cts' k = Some ct' ->
            nth_error rss k = Some rs -> nth_error rss' k = Some rs' -> ct' = ct /\ rs' = rs).
  { intros k ct ct' rs rs' Hk1 Hk2 Hk3 Hk4.
    assert (Hkl : k < List.length vals) by (rewrite <- Hc; apply nth_error_Some; congruence).
    destruct (nth_error vals k) as [vs|] eqn:Ev; [|apply nth_error_None in Ev; lia].
    destruct (traced_nth _ _ _ _ _ _ _ _ _ k vs Htr Ev) as (ct0 & rs0 & T & qs & Hct & Hrs & HT & Hqs & rt & A & s & vs1 & rs1 & Hvs & Hrs1 & Hlr & Hloc & Htrc).
    destruct (traced_nth _ _ _ _ _ _ _ _ _ k vs Htr' Ev) as (ct0' & rs0' & T' & qs' & Hct' & Hrs' & HT' & Hqs' & rt' & A' & s' & vs1' & rs1' & Hvs' & Hrs1' & Hlr' & Hloc' & Htrc').
    assert (ct0 = ct) by congruence. assert (ct0' = ct') by congruence. assert (rs0 = rs) by congruence. assert (rs0' = rs') by congruence.
    assert (T' = T) by congruence. assert (A' = A /\ vs1' = vs1) as [? ?] by (rewrite Hvs in Hvs'; injection Hvs'; auto). subst ct0 ct0' rs0 rs0' T' A' vs1'.
    pose proof (proj1 (Forall_forall _ _) Hv vs (nth_error_In _ _ Ev)) as [Hge _]. rewrite Hvs in Hge. cbn [List.length] in Hge.
    assert (Hsame : forall l x x', nth_error qs' l = Some x' -> nth_error qs l = Some x -> x' = x /\ ct' = ct).
    { intros l x x' Hx' Hx. destruct (Hmid' _ _ _ _ Hqs' Hx') as (c1 & rt1 & X1 & Hc1 & Hl1a & HX1 & B1 & B2).
      assert (Hi : In x' (List.concat qss ++ [q])).
      { apply Hin. apply in_or_app. left. apply in_concat. exists qs'. split; eapply nth_error_In; eassumption. }
      apply in_app_or in Hi as [Hi|[Hi|[]]].
      2: { exfalso. subst x'. destruct Ts as [|T0 Ts]; [destruct vals; [congruence|discriminate]|].
           exact (ring_shape E _ _ _ _ _ _ _ _ _ _ T0 0 _ Hl1a HX1 Hq eq_refl). }
      apply concat_in in Hi as (k2 & qs2 & l2 & Hk2' & Hx2).
      destruct (Hmid _ _ _ _ Hk2' Hx2) as (c2 & rt2 & X2 & Hc2 & Hl2a & HX2 & B3 & B4).
      rewrite <- Hctx in Hl1a.
      destruct (ring_query_inj E L _ _ _ _ _ _ _ _ _ _ _ _ _ _ _ B1 B3 B2 B4 Hl1a HX1 Hl2a HX2) as (_ & _ & Hcc & <- & <- & _).
      split; congruence. }
    assert (Hqq : qs' = qs).
    { apply nth_ext'; [rewrite (trace_length _ _ _ _ _ _ _ _ _ _ Htrc), (trace_length _ _ _ _ _ _ _ _ _ _ Htrc'), !combine_length; lia|].
      intros l a b Ha Hb. exact (proj1 (Hsame l b a Ha Hb)). }
    subst qs'.
    assert (Hct0 : ct' = ct).
    { pose proof (trace_length _ _ _ _ _ _ _ _ _ _ Htrc) as Hlen. rewrite combine_length in Hlen.
      destruct qs as [|x qs]; [cbn in Hlen; lia|]. exact (proj2 (Hsame 0 x x eq_refl eq_refl)). }
    subst ct'. split; [reflexivity|].
    assert (rt' = rt).
    { destruct Hloc as (a & b & Ha & Hb & ->), Hloc' as (a' & b' & Ha' & Hb' & ->). congruence. }
    subst rt'. destruct (trace_inj _ _ _ _ _ _ _ _ _ _ _ _ _ Hlr Hlr' Htrc Htrc') as [HX Hrr].
    subst rs rs'. rewrite Hrr. f_equal. rewrite Hch, Hch' in HX. symmetry. exact (commitments_inj _ _ _ _ _ _ _ _ HX). }
  assert (Hcc : cts' = cts).
  { apply nth_ext'; [congruence|]. intros k a b Ha Hb.
    assert (Hkl : k < List.length vals) by (rewrite <- Hc; apply nth_error_Some; congruence).
    destruct (nth_error rss k) as [rs|] eqn:Er; [|apply nth_error_None in Er; lia].
    destruct (nth_error rss' k) as [rs'|] eqn:Er'; [|apply nth_error_None in Er'; lia].
    exact (proj1 (Hrings k b a rs rs' Hb Ha Er Er')). }
  split; [exact Hcc|].
  assert (Hrr : rss' = rss).
  { apply nth_ext'; [congruence|]. intros k a b Ha Hb.
    assert (Hkl : k < List.length vals) by (rewrite <- Hl1; apply nth_error_Some; congruence).
    destruct (nth_error cts k) as [c1|] eqn:Er; [|apply nth_error_None in Er; lia].
    destruct (nth_error cts' k) as [c2|] eqn:Er'; [|apply nth_error_None in Er'; lia].
    exact (proj2 (Hrings k c1 c2 b a Er Er' Hb Ha)). }
  destruct p as [c rs], p' as [c' rs']. cbn [rp_challenge rp_responses] in *. congruence.
Qed.

End Rings.

(** ** proofs with one challenge *)
Section One.
Context (E : Env) (L : GroupLaws E) (o : hash (Scalar E)).
Add Field s_field_rigid1 : (s_field L).
Local Notation scalar := (Scalar E).
Local Notation element := (Element E).

Lemma incl_one {A : Type} (x y : A) : incl [x] [y] -> x = y.
Proof. intros H. destruct (H x (or_introl eq_refl)) as [->|[]]. reflexivity. Qed.

Lemma add_inj_l (x a b : element) : (x + a)%E = (x + b)%E -> a = b.
Proof. intros H. replace a with ((x + a) - x)%E by el_ring L. rewrite H. el_ring L. Qed.
Lemma add_inj_r (x a b : element) : (a + x)%E = (b + x)%E -> a = b.
Proof. intros H. replace a with ((a + x) - x)%E by el_ring L. rewrite H. el_ring L. Qed.

Lemma le_rigid p (K : PublicKey E) P t tf p' (K' : PublicKey E) P' t' tf' :
  run o (log_equality_verifier p K P t) = Ret (Ok tt, tf) -> run o (log_equality_verifier p' K' P' t') = Ret (Ok tt, tf') ->
  incl (asked o (log_equality_verifier p' K' P' t')) (asked o (log_equality_verifier p K P t)) ->
  t' = t /\ pk_bytes K' = pk_bytes K /\ P' = P /\ p' = p.
Proof.
  destruct P as [P0 P1], P' as [P0' P1']. intros Hr Hr' Hi.
  pose proof Hr as Hv. pose proof Hr' as Hv'. rewrite log_equality_run in Hv, Hv'.
  apply (le_verify_ok_iff (hashed_by E o) L) in Hv as (q & Hq & Hc & ->). cbn in Hc.
  apply (le_verify_ok_iff (hashed_by E o) L) in Hv' as (q' & Hq' & Hc' & ->). cbn in Hc'.
  apply log_equality_one in Hr, Hr'. rewrite Hr, Hr' in Hi. apply incl_one in Hi. injection Hi as ->.
  destruct (le_hashed_inj E L _ _ _ _ _ _ _ _ _ _ _ _ _ Hq' Hq) as (-> & Hb & -> & -> & HX & _).
  split; [reflexivity|]. split; [exact Hb|]. split; [reflexivity|].
  destruct p as [c s], p' as [c' s']. cbn [le_challenge le_response] in *. rewrite Hc in Hc'. subst c'.
  apply (sub_inj_l E L) in HX. apply (gen_inj E L) in HX. congruence.
Qed.

Lemma pop_xs_inj (ks : list element) c : forall ss ss', List.length ss = List.length ks -> List.length ss' = List.length ks ->
  map (fun p : element * scalar => (generator * snd p - fst p * c)%E) (combine ks ss) =
  map (fun p : element * scalar => (generator * snd p - fst p * c)%E) (combine ks ss') -> ss = ss'.
Proof.
  induction ks as [|k ks IH]; intros [|s ss] [|s' ss'] Hl Hl' H; try discriminate; [reflexivity|].
  cbn [combine map fst snd] in H. injection H as H1 H2. f_equal; [|apply IH; [cbn in *; lia|cbn in *; lia|exact H2]].
  apply (sub_inj_l E L) in H1. exact (gen_inj E L _ _ H1).
Qed.

Lemma pop_rigid p keys t tf p' keys' t' tf' :
  Forall genuine keys -> Forall genuine keys' ->
  run o (possession_verifier (E:=E) p keys t) = Ret (Ok tt, tf) -> run o (possession_verifier p' keys' t') = Ret (Ok tt, tf') ->
  incl (asked o (possession_verifier p' keys' t')) (asked o (possession_verifier p keys t)) ->
  t' = t /\ map pk_element keys' = map pk_element keys /\ map pk_bytes keys' = map pk_bytes keys /\ p' = p.
Proof.
  intros HK HK' Hr Hr' Hi.
  pose proof Hr as Hv. pose proof Hr' as Hv2. rewrite possession_run in Hv, Hv2.
  apply (pop_verify_ok_iff (hashed_by E o) L) in Hv as (xs & bs & Ha & Hb & Hc & ->). cbn in Hc.
  apply (pop_verify_ok_iff (hashed_by E o) L) in Hv2 as (xs2 & bs2 & Ha2 & Hb2 & Hc2 & ->). cbn in Hc2.
  change (pop_answers (E:=E) (map pk_element keys) xs (pop_challenge p) (pop_responses p)) in Ha.
  change (pop_answers (E:=E) (map pk_element keys') xs2 (pop_challenge p') (pop_responses p')) in Ha2.
  change (encoded (E:=E) xs bs) in Hb. change (encoded (E:=E) xs2 bs2) in Hb2.
  apply possession_one in Hr. apply possession_one in Hr'. rewrite Hr, Hr' in Hi. apply incl_one in Hi. injection Hi as Hq.
  assert (Hlen : forall ks xs bs c ss, pop_answers (E:=E) ks xs c ss -> encoded (E:=E) xs bs -> List.length ks = List.length bs).
  { intros ks0 xs0 bs0 c0 ss0 [H1 ->] H2. apply Forall2_length' in H2. rewrite map_length, combine_length in H2. lia. }
  assert (Hcc : pop_challenge p' = pop_challenge p).
  { transitivity (o (pop_query t (map pk_bytes keys) bs) "c"); [|exact Hc].
    transitivity (o (pop_query t' (map pk_bytes keys') bs2) "c"); [symmetry; exact Hc2|]. exact (f_equal (fun q => o q "c") Hq). }
  pose proof (Hlen _ _ _ _ _ Ha Hb) as Hl. pose proof (Hlen _ _ _ _ _ Ha2 Hb2) as Hl2. rewrite map_length in Hl, Hl2.
  apply pop_query_inj in Hq; [|rewrite map_length; exact Hl2|rewrite map_length; exact Hl].
  destruct Hq as (-> & Hk & ->). pose proof (encoded_inj E L _ _ _ Hb Hb2) as ->.
  pose proof (genuine_eqs E keys' keys HK' HK Hk) as He. split; [reflexivity|]. split; [exact He|]. split; [exact Hk|].
  destruct Ha as [Hs ->], Ha2 as [Hs' Hx]. rewrite He, Hcc in Hx. rewrite He in Hs'.
  apply pop_xs_inj in Hx; [|exact Hs|exact Hs']. destruct p, p'. cbn in *. congruence.
Qed.

Lemma el_zero_scalar (H : element) a b : H <> identity -> (H * a)%E = (H * b)%E -> a = b.
Proof.
  intros HH He. apply (dlog_eq L) in He. rewrite !(dlog_mul L) in He.
  assert (Hz : (dlog L H * (a - b))%S = s_default) by (replace (dlog L H * (a - b))%S with (dlog L H * a - dlog L H * b)%S by ring; rewrite He; ring).
  apply (s_mul_integral L) in Hz as [Hz|Hz].
  - exfalso. apply HH. apply (dlog_eq L). rewrite Hz, (dlog_identity L). reflexivity.
  - replace a with ((a - b) + b)%S by ring. rewrite Hz. ring.
Qed.

Lemma ce_rigid p c (K : PublicKey E) C B t tf p' c' (K' : PublicKey E) C' t' tf' :
  genuine K -> genuine K' -> B <> identity ->
  run o (commitment_verifier p c K C B t) = Ret (Ok tt, tf) -> run o (commitment_verifier p' c' K' C' B t') = Ret (Ok tt, tf') ->
  incl (asked o (commitment_verifier p' c' K' C' B t')) (asked o (commitment_verifier p c K C B t)) ->
  t' = t /\ K' = K /\ c' = c /\ C' = C /\ p' = p.
Proof.
  intros HK HK' HB Hr Hr' Hi.
  pose proof Hr as Hv. pose proof Hr' as Hv2. rewrite commitment_run in Hv, Hv2.
  apply (ce_verify_ok_iff (hashed_by E o) L) in Hv as (X1 & X2 & X3 & q & Ha & Hq & Hc & ->). cbn in Hc.
  apply (ce_verify_ok_iff (hashed_by E o) L) in Hv2 as (Y1 & Y2 & Y3 & q2 & Ha2 & Hq2 & Hc2 & ->). cbn in Hc2.
  apply commitment_one in Hr. apply commitment_one in Hr'. rewrite Hr, Hr' in Hi. apply incl_one in Hi. injection Hi as ->.
  destruct (ce_hashed_inj E L _ _ _ _ _ _ _ _ _ _ _ _ _ _ _ _ _ Hq2 Hq) as (-> & Hb & HR & HBb & -> & -> & -> & ->).
  pose proof (genuine_eq E K' K HK' HK Hb) as ->. destruct c as [R0 B0], c' as [R1 B1]. cbn [random_element blinded_element] in HR, HBb. subst R1 B1.
  do 4 (split; [reflexivity|]). destruct p as [ch a v w], p' as [ch' a' v' w']. cbn in *. rewrite Hc in Hc2. subst ch'.
  destruct Ha as (A1 & A2 & A3), Ha2 as (A1' & A2' & A3'). rewrite A1 in A1'. apply (sub_inj_l E L) in A1'. apply (gen_inj E L) in A1'. subst a'.
  rewrite A2 in A2'. apply (sub_inj_l E L) in A2'. apply (add_inj_r (pk_element K * a)%E) in A2'.
  apply (gen_inj E L) in A2'. subst v'. rewrite A3 in A3'. apply (sub_inj_l E L) in A3'. apply (add_inj_l (generator * v)%E) in A3'.
  apply (el_zero_scalar B _ _ HB) in A3'. congruence.
Qed.

Lemma sq_rs_inj (K : element) c : forall cs rs rs', List.length rs = List.length cs -> List.length rs' = List.length cs ->
  sq_recommitments E K c cs rs = sq_recommitments E K c cs rs' -> rs = rs'.
Proof.
  induction cs as [|ct cs IH]; intros [|[a b] rs] [|[a' b'] rs'] Hl Hl' H; try discriminate; [reflexivity|].
  unfold sq_recommitments in H. cbn [combine map] in H. injection H as H1 H2 H3. f_equal; [|apply IH; [cbn in *; lia|cbn in *; lia|exact H3]].
  apply (sub_inj_l E L) in H1. apply (gen_inj E L) in H1. subst a'. f_equal.
  apply (sub_inj_l E L) in H2. apply (add_inj_r (K * a)%E) in H2.
  exact (gen_inj E L _ _ H2).
Qed.

Lemma sq_rigid p cs z (K : PublicKey E) t tf p' cs' z' (K' : PublicKey E) t' tf' :
  genuine K -> genuine K' ->
  run o (sum_of_squares_verifier p cs z K t) = Ret (Ok tt, tf) -> run o (sum_of_squares_verifier p' cs' z' K' t') = Ret (Ok tt, tf') ->
  incl (asked o (sum_of_squares_verifier p' cs' z' K' t')) (asked o (sum_of_squares_verifier p cs z K t)) ->
  t' = t /\ K' = K /\ cs' = cs /\ z' = z /\ p' = p.
Proof.
  intros HK HK' Hr Hr' Hi.
  pose proof Hr as Hv. pose proof Hr' as Hv2. rewrite sum_of_squares_run in Hv, Hv2.
  apply (sq_verify_ok_iff (hashed_by E o) L) in Hv as (rs & As & Z & q & Hf & Ha & Hq & Hc & ->). cbn in Hc.
  apply (sq_verify_ok_iff (hashed_by E o) L) in Hv2 as (rs2 & As2 & Z2 & q2 & Hf2 & Ha2 & Hq2 & Hc2 & ->). cbn in Hc2.
  apply sum_of_squares_one in Hr. apply sum_of_squares_one in Hr'. rewrite Hr, Hr' in Hi. apply incl_one in Hi. injection Hi as ->.
  destruct (sq_hashed_inj E L _ _ _ _ _ _ _ _ _ _ _ _ _ (sq_answers_length E _ _ _ _ _ _ _ _ Ha2) (sq_answers_length E _ _ _ _ _ _ _ _ Ha) Hq2 Hq)
    as (-> & Hb & -> & -> & -> & ->).
  pose proof (genuine_eq E K' K HK' HK Hb) as ->. do 4 (split; [reflexivity|]).
  destruct p as [c l sz], p' as [c' l' sz']. cbn [sq_challenge sq_ciphertext_responses sq_sum_response] in *.
  change (l = sq_flat (E:=E) rs) in Hf. change (l' = sq_flat (E:=E) rs2) in Hf2.
  change (sq_answers (E:=E) (pk_element K) cs z As Z c rs sz) in Ha. change (sq_answers (E:=E) (pk_element K) cs z As Z c' rs2 sz') in Ha2.
  apply (sq_answers_iff E) in Ha as (Hl & HA & HZ). apply (sq_answers_iff E) in Ha2 as (Hl2 & HA2 & HZ2).
  rewrite Hc in Hc2. subst c'. rewrite HA in HA2. apply sq_rs_inj in HA2; [|exact Hl|exact Hl2]. subst rs2.
  rewrite HZ in HZ2. unfold sq_sum_commitment in HZ2. injection HZ2 as HZ2 _.
  apply (sub_inj_l E L) in HZ2. 
  apply add_inj_l in HZ2.
  apply (gen_inj E L) in HZ2. congruence.
Qed.

End One.

(** ** proofs over rings and ballots *)
Section Composed.
Context (E : Env) (L : GroupLaws E) (o : hash (Scalar E)).
Add Field s_field_rigid2 : (s_field L).
Local Notation scalar := (Scalar E).
Local Notation element := (Element E).

(** rings that are handled *)
Definition rings_ok (vals : list (list element)) : Prop :=
  vals <> [] /\ Forall (fun vs => 2 <= List.length vs /\ (N.of_nat (List.length vs) < u64_lim)%N) vals /\
  (N.of_nat (List.length vals) < u64_lim)%N.

Lemma bool_rings n : 0 < n -> (N.of_nat n < u64_lim)%N -> rings_ok (repeat [identity; generator] n).
Proof.
  intros Hn Hb. split; [destruct n; [lia|discriminate]|]. split; [|rewrite repeat_length; exact Hb].
  apply Forall_forall. intros vs Hin. apply repeat_spec in Hin. subst vs. cbn. split; [lia|reflexivity].
Qed.

Lemma n_sum_ge (l : list N) x : In x l -> (x <= n_sum l)%N.
Proof. induction l as [|y l IH]; [contradiction|]. rewrite n_sum_cons. intros [->|H]; [lia|]. specialize (IH H). lia. Qed.
Lemma n_sum_len (l : list N) : Forall (fun x => 1 <= x)%N l -> (N.of_nat (List.length l) <= n_sum l)%N.
Proof. induction 1 as [|x l Hx H IH]; [cbn; lia|]. rewrite n_sum_cons. cbn [List.length]. lia. Qed.

Lemma doc_rings n d : doc_form n d -> (n < u64_lim)%N -> rings_ok (range_values (E:=E) d).
Proof.
  intros Hd Hn. pose proof (doc_form_bound _ _ Hd) as Hs. pose proof (doc_form_rings _ _ Hd) as Hr. rewrite Forall_forall in Hr.
  split; [|split].
  - intros H. apply map_eq_nil in H. exact (doc_form_nonempty _ _ Hd H).
  - apply Forall_forall. intros vs Hin. apply in_map_iff in Hin as (s & <- & Hin). rewrite map_length, seq_length, N2Nat.id.
    destruct (Hr s Hin) as [H1 H2]. split; [lia|].
    pose proof (n_sum_ge (map (fun s => (rs_size s - 1) * rs_step s) d)%N ((rs_size s - 1) * rs_step s)%N ltac:(apply in_map_iff; eauto)). nia.
  - rewrite range_values_length. pose proof (n_sum_len (map (fun s => (rs_size s - 1) * rs_step s) d)%N) as H. rewrite map_length in H.
    assert (H0 : Forall (fun x => 1 <= x)%N (map (fun s => (rs_size s - 1) * rs_step s) d)%N).
    { apply Forall_forall. intros x Hin. apply in_map_iff in Hin as (s & <- & Hin). destruct (Hr s Hin). nia. }
    specialize (H H0). lia.
Qed.

Lemma rings_rigid p (K : PublicKey E) cts t r tf p' (K' : PublicKey E) cts' t' r' tf' vals :
  rings_ok vals -> List.length cts = List.length vals -> List.length cts' = List.length vals ->
  run o (ring_verifier p K vals cts t) = Ret (Ok r, tf) -> run o (ring_verifier p' K' vals cts' t') = Ret (Ok r', tf') ->
  incl (asked o (ring_verifier p' K' vals cts' t')) (asked o (ring_verifier p K vals cts t)) ->
  t' = t /\ pk_bytes K' = pk_bytes K /\ cts' = cts /\ p' = p.
Proof. intros (H1 & H2 & H3). apply (ring_rigid E L o); assumption. Qed.

Lemma start_inj t t' d : range_start_transcript t d = range_start_transcript t' d -> t = t'.
Proof.
  unfold range_start_transcript, start_proof, append_message. intros H. apply app_inj_tail in H as [H _]. apply app_inj_tail in H as [H _]. exact H.
Qed.

Lemma ct_sub_inj (a b s : Ciphertext E) : Ciphertext_sub a s = Ciphertext_sub b s -> a = b.
Proof.
  destruct a as [a1 a2], b as [b1 b2], s as [s1 s2]. unfold Ciphertext_sub. cbn. intros H. injection H as H1 H2.
  apply (sub_inj_l E L) in H1. apply (sub_inj_l E L) in H2. congruence.
Qed.

Lemma range_rigid p (K : PublicKey E) pr ct t r tf p' (K' : PublicKey E) ct' t' r' tf' :
  rings_ok (pr_admissible pr) ->
  run o (range_verifier p K pr ct t) = Ret (Ok r, tf) -> run o (range_verifier p' K' pr ct' t') = Ret (Ok r', tf') ->
  incl (asked o (range_verifier p' K' pr ct' t')) (asked o (range_verifier p K pr ct t)) ->
  t' = t /\ pk_bytes K' = pk_bytes K /\ ct' = ct /\ p' = p.
Proof.
  intros Hok Hr Hr' Hi. unfold range_verifier, check_lengths in *.
  destruct (Nat.eqb_spec (List.length (rap_partial p) + 1) (List.length (pr_admissible pr))) as [Hl|]; [|discriminate].
  destruct (Nat.eqb_spec (List.length (rap_partial p') + 1) (List.length (pr_admissible pr))) as [Hl'|]; [|discriminate].
  pose proof (fun A B => rings_rigid _ _ _ _ _ _ _ _ _ _ _ _ _ Hok A B Hr Hr' Hi) as HR.
  destruct HR as (Ht & Hb & Hc & Hp); [rewrite app_length; exact Hl|rewrite app_length; exact Hl'|].
  apply app_inj_tail in Hc as [Hc Hs]. rewrite Hc in Hs. apply ct_sub_inj in Hs. apply start_inj in Ht.
  split; [exact Ht|]. split; [exact Hb|]. split; [exact Hs|]. destruct p, p'. cbn in *. congruence.
Qed.

Lemma bool_rigid (K : PublicKey E) c p (K' : PublicKey E) c' p' :
  ok (run o (bool_verifier K c p)) = true -> ok (run o (bool_verifier K' c' p')) = true ->
  incl (asked o (bool_verifier K' c' p')) (asked o (bool_verifier K c p)) ->
  pk_bytes K' = pk_bytes K /\ c' = c /\ p' = p.
Proof.
  intros Hr Hr' Hi. destruct (ok_inv _ Hr) as [a Ha]. destruct (ok_inv _ Hr') as [a' Ha'].
  unfold bool_verifier in *. rewrite !asked_after_pure in Hi.
  apply run_after_inv in Ha as ([[u|e] t1] & Ha & Hf); [|discriminate]. apply run_after_inv in Ha' as ([[u'|e] t1'] & Ha' & Hf'); [|discriminate].
  pose proof (bool_rings 1 ltac:(lia) eq_refl) as Hok. cbn [repeat] in Hok.
  pose proof (fun A B => rings_rigid _ _ _ _ _ _ _ _ _ _ _ _ _ Hok A B Ha Ha' Hi) as HR.
  destruct HR as (_ & Hb & Hc & Hp); [reflexivity|reflexivity|].
  injection Hc as Hc. auto.
Qed.

Lemma multi_inv n (K : PublicKey E) cts p :
  ok (run o (multi_choice_verifier n K cts p)) = true ->
  List.length cts = n /\ cts <> [] /\
  exists tf, run o (ring_verifier p K (repeat [identity; generator] n) cts (transcript_new "encrypted_choice_ranges")) = Ret (Ok tt, tf) /\
  asked o (multi_choice_verifier n K cts p) =
    asked o (ring_verifier p K (repeat [identity; generator] n) cts (transcript_new "encrypted_choice_ranges")).
Proof.
  intros Ho. unfold multi_choice_verifier in *. destruct (Nat.eqb_spec n (List.length cts)) as [->|]; [|discriminate].
  split; [reflexivity|]. destruct cts as [|c cts]; [discriminate|]. split; [discriminate|]. cbn [reduce unwrap doing] in *.
  unfold choice_ranges_verifier in *. rewrite asked_after_pure. destruct (ok_inv _ Ho) as [a Ha].
  apply run_after_inv in Ha as ([[[]|e] t1] & Ha & Hf); [|discriminate]. exists t1. split; [exact Ha|reflexivity].
Qed.

Lemma multi_rigid n (K : PublicKey E) cts p (K' : PublicKey E) cts' p' :
  (N.of_nat n < u64_lim)%N ->
  ok (run o (multi_choice_verifier n K cts p)) = true -> ok (run o (multi_choice_verifier n K' cts' p')) = true ->
  incl (asked o (multi_choice_verifier n K' cts' p')) (asked o (multi_choice_verifier n K cts p)) ->
  pk_bytes K' = pk_bytes K /\ cts' = cts /\ p' = p.
Proof.
  intros Hn Hr Hr' Hi. apply multi_inv in Hr as (Hl & Hne & tf & Hr & Ha). apply multi_inv in Hr' as (Hl' & _ & tf' & Hr' & Ha').
  rewrite Ha, Ha' in Hi.
  pose proof (bool_rings n ltac:(destruct cts; [congruence|cbn in Hl; lia]) Hn) as Hok.
  pose proof (fun A B => rings_rigid _ _ _ _ _ _ _ _ _ _ _ _ _ Hok A B Hr Hr' Hi) as HR.
  destruct HR as (_ & Hb & Hc & Hp); [rewrite repeat_length; assumption|rewrite repeat_length; assumption|auto].
Qed.

(** every hash input of a ring proof begins with the transcript *)
Lemma ring_asked_prefix p (K : PublicKey E) vals cts t r tf x :
  rings_ok vals -> List.length cts = List.length vals -> run o (ring_verifier p K vals cts t) = Ret (Ok r, tf) ->
  In x (asked o (ring_verifier p K vals cts t)) -> exists m, fst x = t ++ m.
Proof.
  intros (Hv0 & Hv & _) Hc Hrun Hin.
  assert (Hne : Forall (fun vs : list element => vs <> []) vals).
  { eapply Forall_impl; [|exact Hv]. intros [|a vs]; cbn; [lia|discriminate]. }
  apply (ring_verifier_asked E L o) in Hrun as (rss & Ts & qss & q & Hr & Hq & Htr & Hch & Hask); [|congruence|exact Hne].
  rewrite Hask in Hin. apply in_map_iff in Hin as (y & <- & Hin). cbn [as_query fst].
  apply in_app_or in Hin as [Hin|[<-|[]]].
  - apply concat_in in Hin as (k & qs & l & Hk & Hx).
    assert (Hkl : k < List.length vals) by (rewrite <- (proj2 (proj2 (proj2 (traced_lengths _ _ _ _ _ _ _ _ _ _ _ Htr)))); apply nth_error_Some; congruence).
    destruct (nth_error vals k) as [vs|] eqn:Ev; [|apply nth_error_None in Ev; lia].
    destruct (traced_nth _ _ _ _ _ _ _ _ _ _ _ k vs Htr Ev) as (ct & rs & T & qs0 & Hct & _ & _ & Hqs & rt & A & s & vs' & rs' & Hvs & _ & Hlr & Hloc & Htrc).
    assert (qs0 = qs) by congruence. subst qs0. destruct (trace_at _ _ _ _ _ _ _ _ _ _ _ _ Htrc Hx) as (X & (a & b & _ & _ & ->) & _).
    destruct Hloc as (a' & b' & _ & _ & ->). unfold ring_context. rewrite <- !app_assoc. eauto.
  - destruct Hq as (m & _ & ->). unfold ring_context. rewrite <- !app_assoc. eauto.
Qed.

Lemma ring_asked_length p (K : PublicKey E) vals cts t r tf :
  rings_ok vals -> List.length cts = List.length vals -> run o (ring_verifier p K vals cts t) = Ret (Ok r, tf) ->
  List.length (asked o (ring_verifier p K vals cts t)) = ring_queries vals.
Proof.
  intros (Hv0 & Hv & _) Hc Hrun.
  assert (Hne : Forall (fun vs : list element => vs <> []) vals).
  { eapply Forall_impl; [|exact Hv]. intros [|a vs]; cbn; [lia|discriminate]. }
  apply (ring_verifier_asked E L o) in Hrun as (rss & Ts & qss & q & Hr & Hq & Htr & Hch & Hask); [|congruence|exact Hne].
  rewrite Hask, map_length, app_length. unfold ring_queries. f_equal. clear -Htr.
  assert (H : forall i cts rss Ts qss, rings_traced E o (ring_context t K) (pk_element K) (rp_challenge p) i vals cts rss Ts qss ->
            List.length (List.concat qss) = list_sum (map (fun vs => List.length vs - 1) vals)); [|exact (H _ _ _ _ _ Htr)].
  clear. induction vals as [|vs vals IH]; intros i [|ct cts] [|rs rss] [|T Ts] [|qs qss] Htr; cbn in Htr; try contradiction; [reflexivity|].
  destruct Htr as [(rt & A & s & vs' & rs' & -> & -> & Hl & _ & Ht) Htr]. cbn [List.concat map list_sum fold_right].
  rewrite app_length. apply IH in Htr. unfold list_sum in Htr. rewrite Htr. apply trace_length in Ht. rewrite combine_length in Ht. cbn [List.length]. lia.
Qed.

Lemma single_inv n (K : PublicKey E) cts p s :
  ok (run o (single_choice_verifier n K cts p s)) = true ->
  List.length cts = n /\ cts <> [] /\ exists total tf tf',
  run o (log_equality_verifier s K (random_element total, (blinded_element total - generator)%E) (transcript_new "choice_encryption_sum")) = Ret (Ok tt, tf') /\
  run o (ring_verifier p K (repeat [identity; generator] n) cts (transcript_new "encrypted_choice_ranges")) = Ret (Ok tt, tf) /\
  asked o (single_choice_verifier n K cts p s) =
    asked o (log_equality_verifier s K (random_element total, (blinded_element total - generator)%E) (transcript_new "choice_encryption_sum")) ++
    asked o (ring_verifier p K (repeat [identity; generator] n) cts (transcript_new "encrypted_choice_ranges")).
Proof.
  intros Ho. unfold single_choice_verifier in *. destruct (Nat.eqb_spec n (List.length cts)) as [->|]; [|discriminate].
  split; [reflexivity|]. destruct cts as [|c cts]; [discriminate|]. split; [discriminate|]. cbn [reduce unwrap doing] in *.
  destruct (ok_inv _ Ho) as [a Ha]. apply run_after_inv in Ha as ([[[]|e] t1] & Ha & Hf); [|discriminate]. cbn [fst] in Hf.
  pose proof Hf as Hf'. unfold choice_ranges_verifier in Hf'. apply run_after_inv in Hf' as ([[[]|e] t2] & Hb & Hg); [|discriminate].
  eexists _, t2, t1. split; [exact Ha|]. split; [exact Hb|].
  unfold after at 1. rewrite asked_andthen, Ha. cbn [doing fst]. f_equal. unfold choice_ranges_verifier. apply asked_after_pure.
Qed.

Lemma le_asked_prefix (p : LogEqualityProof E) (K : PublicKey E) P t tf x :
  run o (log_equality_verifier p K P t) = Ret (Ok tt, tf) -> In x (asked o (log_equality_verifier p K P t)) -> exists m, fst x = t ++ m.
Proof.
  intros Hr Hin. destruct P as [P0 P1]. pose proof Hr as Hv. rewrite log_equality_run in Hv.
  apply (le_verify_ok_iff (hashed_by E o) L) in Hv as (q & (p0 & p1 & x0 & x1 & _ & _ & _ & _ & Hq) & Hc & ->).
  apply log_equality_one in Hr. rewrite Hr in Hin. destruct Hin as [<-|[]]. cbn [fst]. rewrite Hq. unfold le_query. eauto.
Qed.

Lemma single_rigid n (K : PublicKey E) cts p s (K' : PublicKey E) cts' p' s' :
  (N.of_nat n < u64_lim)%N ->
  ok (run o (single_choice_verifier n K cts p s)) = true -> ok (run o (single_choice_verifier n K' cts' p' s')) = true ->
  incl (asked o (single_choice_verifier n K' cts' p' s')) (asked o (single_choice_verifier n K cts p s)) ->
  pk_bytes K' = pk_bytes K /\ cts' = cts /\ p' = p /\ s' = s.
Proof.
  intros Hn Hr Hr' Hi. apply single_inv in Hr as (Hl & Hne & tot & tf & tl & Hs & Hr & Ha).
  apply single_inv in Hr' as (Hl' & Hne' & tot' & tf' & tl' & Hs' & Hr' & Ha'). rewrite Ha, Ha' in Hi. clear Ha Ha'.
  pose proof (bool_rings n ltac:(destruct cts; [congruence|cbn in Hl; lia]) Hn) as Hok.
  assert (Hlv : List.length cts = List.length (repeat [@identity E; generator] n)) by (rewrite repeat_length; exact Hl).
  assert (Hlv' : List.length cts' = List.length (repeat [@identity E; generator] n)) by (rewrite repeat_length; exact Hl').
  assert (H1 : incl (asked o (ring_verifier p' K' (repeat [identity; generator] n) cts' (transcript_new "encrypted_choice_ranges")))
                 (asked o (ring_verifier p K (repeat [identity; generator] n) cts (transcript_new "encrypted_choice_ranges")))).
  { intros x Hx. destruct (ring_asked_prefix _ _ _ _ _ _ _ _ Hok Hlv' Hr' Hx) as [m Hm].
    destruct (in_app_or _ _ _ (Hi x (in_or_app _ _ _ (or_intror Hx)))) as [Hy|Hy]; [|exact Hy]. exfalso.
    destruct (le_asked_prefix _ _ _ _ _ _ Hs Hy) as [m' Hm']. rewrite Hm in Hm'. discriminate. }
  assert (H2 : incl (asked o (log_equality_verifier s' K' (random_element tot', (blinded_element tot' - generator)%E) (transcript_new "choice_encryption_sum")))
                 (asked o (log_equality_verifier s K (random_element tot, (blinded_element tot - generator)%E) (transcript_new "choice_encryption_sum")))).
  { intros x Hx. destruct (le_asked_prefix _ _ _ _ _ _ Hs' Hx) as [m Hm].
    destruct (in_app_or _ _ _ (Hi x (in_or_app _ _ _ (or_introl Hx)))) as [Hy|Hy]; [exact Hy|]. exfalso.
    destruct (ring_asked_prefix _ _ _ _ _ _ _ _ Hok Hlv Hr Hy) as [m' Hm']. rewrite Hm in Hm'. discriminate. }
  destruct (rings_rigid _ _ _ _ _ _ _ _ _ _ _ _ _ Hok Hlv Hlv' Hr Hr' H1) as (_ & Hb & Hc & Hp).
  destruct (le_rigid E L o _ _ _ _ _ _ _ _ _ _ Hs Hs' H2) as (_ & _ & _ & Hss). auto.
Qed.

(** quadratic voting *)
Lemma range_asked_length p (K : PublicKey E) pr ct t r tf : rings_ok (pr_admissible pr) ->
  run o (range_verifier p K pr ct t) = Ret (Ok r, tf) ->
  List.length (asked o (range_verifier p K pr ct t)) = ring_queries (pr_admissible pr).
Proof.
  intros Hok Hr. unfold range_verifier, check_lengths in *.
  destruct (Nat.eqb_spec (List.length (rap_partial p) + 1) (List.length (pr_admissible pr))) as [Hl|]; [|discriminate].
  eapply ring_asked_length; [exact Hok|rewrite app_length; exact Hl|exact Hr].
Qed.

Lemma app_split {A : Type} (a b c d : list A) : List.length a = List.length c -> a ++ b = c ++ d -> a = c /\ b = d.
Proof.
  revert c; induction a as [|x a IH]; intros [|y c] Hl H; try discriminate; [auto|].
  cbn in H. injection H as -> H. destruct (IH c (eq_add_S _ _ Hl) H) as [-> ->]. auto.
Qed.

Lemma votes_rigid params : rings_ok (pr_admissible (qv_vote_count_range params)) -> forall vs vs' i,
  List.length vs = List.length vs' ->
  run o (votes_verifier params i vs) = Ret (Ok tt) -> run o (votes_verifier params i vs') = Ret (Ok tt) ->
  forall a b, asked o (votes_verifier params i vs') ++ a = asked o (votes_verifier params i vs) ++ b -> vs' = vs /\ a = b.
Proof.
  intros Hok. induction vs as [|v vs IH]; intros [|v' vs'] i Hl Hr Hr' a b Hab; try discriminate; [auto|].
  cbn [votes_verifier] in *. apply run_after_inv in Hr as ([[u|e] t1] & Hr & Hf); cbn [fst] in Hf; [|discriminate].
  apply run_after_inv in Hr' as ([[u'|e] t1'] & Hr' & Hf'); cbn [fst] in Hf'; [|discriminate].
  unfold after in Hab. rewrite !asked_andthen, Hr, Hr' in Hab. cbn [doing fst] in Hab. rewrite <- !app_assoc in Hab.
  apply app_split in Hab as [H1 H2].
  - destruct (IH vs' (S i) (eq_add_S _ _ Hl) Hf Hf' _ _ H2) as [-> ->].
    destruct (range_rigid _ _ _ _ _ _ _ _ _ _ _ _ _ Hok Hr Hr' ltac:(rewrite H1; apply incl_refl)) as (_ & _ & Hc & Hp).
    split; [|reflexivity]. f_equal. destruct v, v'. cbn in *. congruence.
  - rewrite (range_asked_length _ _ _ _ _ _ _ Hok Hr), (range_asked_length _ _ _ _ _ _ _ Hok Hr'). reflexivity.
Qed.

Lemma quadratic_rigid params b b' :
  rings_ok (pr_admissible (qv_vote_count_range params)) -> rings_ok (pr_admissible (qv_credit_range params)) -> genuine (qv_receiver params) ->
  ok (run o (quadratic_verifier b params)) = true -> ok (run o (quadratic_verifier b' params)) = true ->
  asked o (quadratic_verifier b' params) = asked o (quadratic_verifier b params) -> b' = b.
Proof.
  intros Hv Hc HK Ho Ho' Ha. unfold quadratic_verifier, QuadraticVotingParams_check_options_count in *.
  destruct (Nat.eqb_spec (qv_options_count params) (List.length (qb_votes b))) as [Hl|]; cbn [negb] in *; [|discriminate].
  destruct (Nat.eqb_spec (qv_options_count params) (List.length (qb_votes b'))) as [Hl'|]; cbn [negb] in *; [|discriminate].
  destruct (ok_inv _ Ho) as [x Hx]. destruct (ok_inv _ Ho') as [x' Hx']. clear Ho Ho'.
  apply run_after_inv in Hx as ([[]|e] & R1 & Hx); [|discriminate]. apply run_after_inv in Hx' as ([[]|e] & R1' & Hx'); [|discriminate].
  pose proof Hx as Hx1. pose proof Hx' as Hx1'.
  apply run_after_inv in Hx as ([[[]|e] t2] & R2 & Hx); cbn [fst] in Hx; [|discriminate].
  apply run_after_inv in Hx' as ([[[]|e] t2'] & R2' & Hx'); cbn [fst] in Hx'; [|discriminate].
  apply run_after_inv in Hx as ([[[]|e] t3] & R3 & Hx); cbn [fst] in Hx; [|discriminate].
  apply run_after_inv in Hx' as ([[[]|e] t3'] & R3' & Hx'); cbn [fst] in Hx'; [|discriminate].
  unfold after in Ha. rewrite !asked_andthen, R1, R1' in Ha. cbn [doing] in Ha.
  rewrite !asked_andthen, R2, R2' in Ha. cbn [doing fst] in Ha. rewrite !asked_andthen, R3, R3' in Ha. cbn [doing fst asked] in Ha.
  rewrite !app_nil_r in Ha.
  apply (votes_rigid params Hv) in Ha as [Hvs Ha]; [|congruence|exact R1|exact R1'].
  apply app_split in Ha as [Ha2 Ha3]; [|rewrite (range_asked_length _ _ _ _ _ _ _ Hc R2), (range_asked_length _ _ _ _ _ _ _ Hc R2'); reflexivity].
  destruct (range_rigid _ _ _ _ _ _ _ _ _ _ _ _ _ Hc R2 R2' ltac:(rewrite Ha2; apply incl_refl)) as (_ & _ & Hct & Hp).
  destruct (sq_rigid E L o _ _ _ _ _ _ _ _ _ _ _ _ HK HK R3 R3' ltac:(rewrite Ha3; apply incl_refl)) as (_ & _ & _ & _ & Hs).
  destruct b as [v c s], b' as [v' c' s']. destruct c, c'. cbn in *. congruence.
Qed.

(** ** what is not determined *)
Lemma mul_identity (w w' a n : scalar) (C : element) :
  vartime_multi_mul (g:=E) [a; w; n] [generator; identity; C] = vartime_multi_mul (g:=E) [a; w'; n] [generator; identity; C].
Proof.
  rewrite !(vartime_multi_mul_ok E L) by reflexivity. f_equal. cbn [lin_comb]. apply (dlog_eq L).
  rewrite !(dlog_add L), !(dlog_mul L), (dlog_identity L). ring.
Qed.

Lemma single_first c s : c <> s_default -> vartime_double_mul_generator (- c)%S (generator * (s * s_inv L c))%E s = @identity E.
Proof.
  intros Hc. rewrite (vartime_double_mul_generator_ok E L). apply (dlog_eq L).
  rewrite (dlog_add L), (dlog_mul L), !(dlog_gen L), (dlog_identity L). field. exact Hc.
Qed.

Lemma single_second c s (K A : element) : c <> s_default ->
  vartime_multi_mul (g:=E) [s; (- c)%S] [K; (A + (K * s - generator) * s_inv L c - A)%E] = Ret generator.
Proof.
  intros Hc. rewrite (vartime_multi_mul_ok E L) by reflexivity. f_equal. cbn [lin_comb]. apply (dlog_eq L).
  rewrite ?(dlog_add L), ?(dlog_mul L), ?(dlog_identity L), ?(dlog_sub L), ?(dlog_add L), ?(dlog_mul L), ?(dlog_sub L), ?(dlog_mul L), ?(dlog_generator L).
  field. exact Hc.
Qed.

Lemma single_plain c s sk (A : element) : c <> s_default ->
  (A + (generator * sk * s - generator) * s_inv L c - generator * (s * s_inv L c) * sk)%E <> A.
Proof.
  intros Hc He. apply (dlog_eq L) in He.
  rewrite ?(dlog_sub L), ?(dlog_add L), ?(dlog_mul L), ?(dlog_sub L), ?(dlog_mul L), ?(dlog_generator L) in He.
  apply (F_1_neq_0 (s_field L)).
  transitivity ((dlog L A - (dlog L A + (1 * sk * s - 1) * s_inv L c - 1 * (s * s_inv L c) * sk)) * c)%S; [field; exact Hc|].
  rewrite He. ring.
Qed.

End Composed.
