(** * Proofs about ring proofs (C14-C17) *)
From Coq Require Import List NArith ZArith Field Lia Bool String Arith Strings.Byte.
From Verif.Model Require Import Base Group Transcript Keys Encryption Ring.
From Verif.Spec Require Import Encryption LogEquality Possession Sigma Ring.
From Verif.Proofs Require Import Algebra Lists Encryption LogEquality Commitment.
Import ListNotations.
Open Scope string_scope.
Open Scope list_scope.

(** ** list updates *)
Lemma list_set_app {A : Type} (pre : list A) x post y :
  list_set (pre ++ x :: post) (List.length pre) y = pre ++ y :: post.
Proof. induction pre as [|a pre IH]; cbn; [reflexivity|]. rewrite IH. reflexivity. Qed.

Lemma index_set_app {A : Type} (pre : list A) x post y i :
  i = List.length pre -> index_set (pre ++ x :: post) i y = Ret (pre ++ y :: post).
Proof.
  intros ->. unfold index_set. rewrite app_length. cbn [List.length].
  replace (List.length pre <? List.length pre + S (List.length post))%nat with true by (symmetry; apply Nat.ltb_lt; lia).
  rewrite list_set_app. reflexivity.
Qed.

Lemma index_app {A : Type} (pre : list A) x post i :
  i = List.length pre -> index (pre ++ x :: post) i = Ret x.
Proof. intros ->. unfold index. rewrite nth_error_app2, Nat.sub_diag by lia. reflexivity. Qed.

Lemma index_inv {A : Type} (l : list A) i x : index l i = Ret x -> nth_error l i = Some x.
Proof. unfold index. destruct (nth_error l i); [|discriminate]. intros H. injection H as ->. reflexivity. Qed.

Lemma skipn_enumerate {A : Type} k (l : list A) :
  skipn k (enumerate l) = combine (seq k (List.length l - k)) (skipn k l).
Proof.
  unfold enumerate. 
  assert (H : forall s, skipn k (combine (seq s (List.length l)) l) = combine (seq (s + k) (List.length l - k)) (skipn k l)).
  { revert l; induction k as [|k IH]; intros l s.
    - rewrite Nat.add_0_r, Nat.sub_0_r. reflexivity.
    - destruct l as [|x l]; [cbn; reflexivity|]. cbn [List.length seq combine skipn].
      rewrite IH. replace (S s + k)%nat with (s + S k)%nat by lia. reflexivity. }
  exact (H 0%nat).
Qed.

Lemma debug_assert_true b : debug_assert b true = Ret tt.
Proof. unfold debug_assert. destruct (debug_assertions b); reflexivity. Qed.

Lemma combine_app_eq {A B : Type} (l1 l2 : list A) (r1 r2 : list B) :
  List.length l1 = List.length r1 -> combine (l1 ++ l2) (r1 ++ r2) = combine l1 r1 ++ combine l2 r2.
Proof. revert r1; induction l1 as [|x l1 IH]; intros [|y r1] H; try discriminate; cbn; [|rewrite IH by (cbn in H; lia)]; reflexivity. Qed.

Lemma split_length {A : Type} (l : list A) a b :
  List.length l = (a + b)%nat -> exists l1 l2, l = l1 ++ l2 /\ List.length l1 = a /\ List.length l2 = b.
Proof.
  intros H. exists (firstn a l), (skipn a l). split; [symmetry; apply firstn_skipn|].
  rewrite firstn_length, skipn_length. lia.
Qed.

Section Proofs.
Context (E : Env) (L : GroupLaws E).
Local Notation scalar := (Scalar E).
Local Notation element := (Element E).
Add Field s_field_ring : (s_field L).

(** ** building blocks *)
Lemma ring_eq_challenge_iff rt j X c :
  ring_eq_challenge rt j X = Ret c <-> exists q, ring_query (E:=E) rt j X q /\ c = oracle q "c".
Proof.
  unfold ring_eq_challenge, ring_query, append_u64, append_element, append_message, challenge_scalar.
  split.
  - intros H. inv_bind H. inv_bind Hm. injection Hm as <-. inv_bind H. inv_bind Hm. injection Hm as <-.
    cbn [fst] in H. injection H as <-. eexists. split; [|reflexivity]. rewrite <- !app_assoc. cbn [app]. eauto.
  - intros (q & (b0 & b1 & H0 & H1 & ->) & ->). rewrite H0. cbn [bind]. rewrite H1. cbn [bind fst].
    rewrite <- !app_assoc. reflexivity.
Qed.

Lemma ring_eq_challenge_total rt j X : ser_total E -> exists c, ring_eq_challenge (E:=E) rt j X = Ret c.
Proof.
  intros Ht. destruct (ser_total_some L Ht (fst X)) as [b0 H0]. destruct (ser_total_some L Ht (snd X)) as [b1 H1].
  eexists. apply ring_eq_challenge_iff. eexists. split; [|reflexivity]. exists b0, b1. eauto.
Qed.

Lemma ring_prover_commitments_eq K ct A (c s : scalar) :
  ring_prover_commitments K ct A c s = Ret (ring_commitments K ct A c s).
Proof.
  unfold ring_prover_commitments, ring_commitments. rewrite (multi_mul_ok E L) by reflexivity.
  cbn [bind lin_comb]. rewrite (mul_generator_ok E L). do 2 f_equal. el_ring L.
Qed.

Lemma ring_init_iff t0 ct i rt : ring_init_transcript (E:=E) t0 ct i = Ret rt <-> ring_local t0 ct i rt.
Proof.
  unfold ring_init_transcript, ring_local, Ciphertext_to_bytes, start_proof, append_u64, append_message. split.
  - intros H. inv_bind H. inv_bind Hm. inv_bind Hm. injection Hm as <-. injection H as <-.
    eexists _, _. split; [exact Hm0|]. split; [exact Hm1|]. rewrite <- !app_assoc. reflexivity.
  - intros (rb & bb & H0 & H1 & ->). rewrite H0. cbn [bind]. rewrite H1. cbn [bind].
    rewrite <- !app_assoc. reflexivity.
Qed.

Lemma ring_init_total t0 ct i : ser_total E -> exists rt, ring_init_transcript (E:=E) t0 ct i = Ret rt.
Proof.
  intros Ht. destruct (ser_total_some L Ht (random_element ct)) as [b0 H0].
  destruct (ser_total_some L Ht (blinded_element ct)) as [b1 H1].
  eexists. apply ring_init_iff. exists b0, b1. eauto.
Qed.

Lemma ring_local_fun t0 ct i rt rt' : ring_local (E:=E) t0 ct i rt -> ring_local t0 ct i rt' -> rt = rt'.
Proof. intros H H'. apply ring_init_iff in H, H'. congruence. Qed.

(** ** verifier *)
Lemma ring_verify_loop_iff rt K ct len eqs : forall j c X0 A s T,
  (S j + List.length eqs = len)%nat ->
  (ring_verify_loop rt K ct len j ((A, s) :: eqs) c X0 = Ret T <->
   ring_from (E:=E) rt K ct j (ring_commitments K ct A c s) eqs T).
Proof.
  assert (Hstep : forall j c X0 A s items, ring_verify_loop rt K ct len j ((A, s) :: items) c X0 =
    (c' <- (if (j + 1 <? len)%nat then ring_eq_challenge rt j (ring_commitments K ct A c s) else Ret c) ;;
     ring_verify_loop rt K ct len (S j) items c' (ring_commitments K ct A c s))).
  { intros. cbn [ring_verify_loop]. rewrite (vartime_multi_mul_ok E L) by reflexivity. cbn [bind lin_comb].
    rewrite (le_commit0 E L). unfold ring_commitments.
    replace (K * s + ((blinded_element ct - A) * - c + identity))%E
      with (K * s - (blinded_element ct - A) * c)%E by el_ring L. reflexivity. }
  induction eqs as [|[A' s'] eqs IH]; intros j c X0 A s T Hlen.
  - rewrite Hstep. cbn in Hlen. replace (j + 1 <? len)%nat with false by (symmetry; apply Nat.ltb_ge; lia).
    cbn. split; [intros H; injection H as <-; reflexivity | intros ->; reflexivity].
  - rewrite Hstep. cbn in Hlen. replace (j + 1 <? len)%nat with true by (symmetry; apply Nat.ltb_lt; lia).
    cbn [ring_from]. split.
    + intros H. inv_bind H. apply ring_eq_challenge_iff in Hm as (q & Hq & ->). exists q. split; [exact Hq|].
      apply IH in H; [exact H|cbn; lia].
    + intros (q & Hq & H). assert (Hc : ring_eq_challenge rt j (ring_commitments K ct A c s) = Ret (oracle q "c"))
        by (apply ring_eq_challenge_iff; eauto).
      rewrite Hc. cbn [bind]. apply IH; [cbn; lia | exact H].
Qed.

Lemma ring_verify_ring_iff rt K ct c vs rs more T :
  List.length rs = List.length vs ->
  (ring_verify_loop rt K ct (List.length vs) 0 (combine vs (rs ++ more)) c (generator, generator) = Ret T <->
   ring_closed (E:=E) rt K ct c (combine vs rs) T).
Proof.
  intros Hl. replace (combine vs (rs ++ more)) with (combine vs rs).
  2: { revert rs Hl; induction vs as [|v vs IH]; intros [|r rs] Hl; try discriminate; [reflexivity|].
       cbn. f_equal. apply IH. cbn in Hl; lia. }
  destruct vs as [|v vs]; destruct rs as [|r rs]; try discriminate.
  - cbn. split; [intros H; injection H as <-; reflexivity | intros ->; reflexivity].
  - cbn [combine ring_closed]. apply ring_verify_loop_iff. rewrite combine_length. cbn in *. lia.
Qed.

Lemma ring_verify_loop_total rt K ct len items : ser_total E ->
  forall j c X, exists T, ring_verify_loop (E:=E) rt K ct len j items c X = Ret T.
Proof.
  intros Ht. induction items as [|[A s] items IH]; intros j c X; [eexists; reflexivity|].
  cbn [ring_verify_loop]. rewrite (vartime_multi_mul_ok E L) by reflexivity. cbn [bind].
  match goal with |- context [ring_eq_challenge ?a ?b ?x] => destruct (ring_eq_challenge_total a b x Ht) as [c' Hc'] end.
  destruct (_ <? _)%nat; [rewrite Hc'|]; cbn [bind]; apply IH.
Qed.

Definition ring_items (Ts : list (element * element)) : list (string * element) :=
  flat_map (fun T => [("R_G", fst T); ("R_K", snd T)]) Ts.

(** the loop over rings: [pre ++ List.concat rss ++ more] are the responses *)
Lemma ring_verify_rings_iff t0 (K : PublicKey E) (p : RingProof E) vals cts : forall i pre rss more t t',
  rp_responses p = pre ++ List.concat rss ++ more ->
  map (@List.length scalar) rss = map (@List.length element) vals ->
  (ring_verify_rings t0 K p i (List.length pre) (combine vals cts) t = Ret t' <->
   exists Ts msgs, rings_closed t0 (pk_element K) (rp_challenge p) i vals cts rss Ts /\
     absorbed (ring_items Ts) msgs /\ t' = t ++ msgs).
Proof.
  revert cts; induction vals as [|vs vals IH]; intros cts i pre rss more t t' Hr Hl.
  - cbn. destruct rss; [|discriminate]. split.
    + intros H. injection H as <-. exists [], []. split; [reflexivity|]. split; [constructor|]. rewrite app_nil_r. reflexivity.
    + intros (Ts & msgs & -> & Ha & ->). inversion Ha. rewrite app_nil_r. reflexivity.
  - destruct rss as [|rs rss]; [discriminate|]. cbn in Hl. injection Hl as Hl Hls.
    destruct cts as [|ct cts].
    + cbn. split.
      * intros H. injection H as <-. exists [], []. split; [reflexivity|]. split; [constructor|]. rewrite app_nil_r. reflexivity.
      * intros (Ts & msgs & -> & Ha & ->). inversion Ha. rewrite app_nil_r. reflexivity.
    + cbn [combine ring_verify_rings].
      assert (Hs : slice_from (rp_responses p) (List.length pre) = Ret (rs ++ List.concat rss ++ more)).
      { unfold slice_from. rewrite Hr. rewrite app_length.
        replace (_ <=? _)%nat with true by (symmetry; apply Nat.leb_le; lia).
        f_equal. rewrite skipn_app, Nat.sub_diag, skipn_all. cbn. rewrite <- app_assoc. reflexivity. }
      rewrite Hs.
      assert (Hr' : rp_responses p = (pre ++ rs) ++ List.concat rss ++ more)
        by (rewrite Hr; cbn; rewrite <- !app_assoc; reflexivity).
      assert (Hlen : (List.length pre + List.length vs)%nat = List.length (pre ++ rs)) by (rewrite app_length; lia).
      split.
      * intros H. destruct (ring_init_transcript t0 ct i) as [rt|] eqn:Hrt; [|discriminate]. cbn [bind] in H.
        destruct (ring_verify_loop _ _ _ _ _ _ _ _) as [T|] eqn:HT; [|discriminate]. cbn [bind] in H.
        unfold append_element, append_message in H.
        destruct (serialize_element (fst T)) as [b0|] eqn:Hb0; [|discriminate]. cbn [bind] in H.
        destruct (serialize_element (snd T)) as [b1|] eqn:Hb1; [|discriminate]. cbn [bind] in H. rewrite Hlen in H.
        apply (IH cts (S i) (pre ++ rs) rss more _ t' Hr' Hls) in H as (Ts & msgs & Hrc & Ha & ->).
        exists (T :: Ts), (TMsg "R_G" b0 :: TMsg "R_K" b1 :: msgs). split; [|split].
        -- cbn [rings_closed]. split; [|exact Hrc]. exists rt. split; [apply ring_init_iff; exact Hrt|].
           apply (ring_verify_ring_iff rt (pk_element K) ct (rp_challenge p) vs rs (List.concat rss ++ more)); assumption.
        -- cbn. constructor; [eauto|]. constructor; [eauto|]. exact Ha.
        -- rewrite <- !app_assoc. reflexivity.
      * intros (Ts & msgs & Hrc & Ha & ->). destruct Ts as [|T Ts]; [destruct Hrc|].
        cbn [rings_closed] in Hrc. destruct Hrc as [(rt & Hrt & Hc) Hrc].
        cbn in Ha. inversion Ha as [|x1 m1 xs1 ms1 (b0 & Hb0 & Hm1) Ha1]; subst.
        inversion Ha1 as [|x2 m2 xs2 ms2 (b1 & Hb1 & Hm2) Ha2]; subst. cbn [fst snd] in *.
        apply ring_init_iff in Hrt. rewrite Hrt. cbn [bind].
        apply (ring_verify_ring_iff rt (pk_element K) ct (rp_challenge p) vs rs (List.concat rss ++ more)) in Hc; [|exact Hl].
        rewrite Hc. cbn [bind]. unfold append_element, append_message. rewrite Hb0. cbn [bind]. rewrite Hb1. cbn [bind].
        rewrite Hlen. apply (IH cts (S i) (pre ++ rs) rss more _ _ Hr' Hls). exists Ts, ms2.
        split; [exact Hrc|]. split; [exact Ha2|]. rewrite <- !app_assoc. reflexivity.
Qed.

Lemma split_responses {A : Type} (l : list A) (ns : list nat) :
  List.length l = list_sum ns -> exists ls, l = List.concat ls /\ map (@List.length A) ls = ns.
Proof.
  revert l; induction ns as [|n ns IH]; intros l H.
  - destruct l; [|discriminate]. exists []. auto.
  - destruct (split_length l n (list_sum ns) H) as (l1 & l2 & -> & H1 & H2).
    destruct (IH l2 H2) as (ls & -> & Hls). exists (l1 :: ls). cbn. rewrite H1, Hls. auto.
Qed.

Lemma concat_length_sum {A : Type} (ls : list (list A)) : List.length (List.concat ls) = list_sum (map (@List.length A) ls).
Proof. induction ls as [|l ls IH]; cbn; [reflexivity|]. rewrite app_length, IH. reflexivity. Qed.

Lemma ring_context_eq t (K : PublicKey E) : ring_initialize_transcript t K = ring_context t K.
Proof.
  unfold ring_initialize_transcript, ring_context, start_proof, append_element_bytes, append_message.
  rewrite <- app_assoc. reflexivity.
Qed.

Lemma ring_verify_iff (p : RingProof E) (K : PublicKey E) vals cts t res t' :
  List.length (rp_responses p) = list_sum (map (@List.length element) vals) ->
  (RingProof_verify p K vals cts t = Ret (res, t') <->
   exists rss Ts q,
     rp_responses p = List.concat rss /\ map (@List.length scalar) rss = map (@List.length element) vals /\
     rings_closed (ring_context t K) (pk_element K) (rp_challenge p) 0 vals cts rss Ts /\
     ring_common (ring_context t K) Ts q /\
     res = (if s_eqb (oracle q "c") (rp_challenge p) then Ok tt else Err ChallengeMismatch) /\
     t' = q ++ [TChal "c"]).
Proof.
  intros Hl. destruct (split_responses _ _ Hl) as (rss & Hr & Hrss).
  unfold RingProof_verify, check_lengths. rewrite Hl, Nat.eqb_refl, ring_context_eq.
  assert (Hr0 : rp_responses p = [] ++ List.concat rss ++ []) by (rewrite app_nil_r; exact Hr).
  split.
  - intros H. inv_bind H. unfold challenge_scalar in H. injection H as <- <-.
    apply (ring_verify_rings_iff _ K p vals cts 0 [] rss [] _ _ Hr0 Hrss) in Hm as (Ts & msgs & Hc & Ha & ->).
    exists rss, Ts, (ring_context t K ++ msgs). split; [exact Hr|]. split; [exact Hrss|]. split; [exact Hc|].
    split; [exists msgs; auto|]. auto.
  - intros (rss' & Ts & q & Hr' & Hrss' & Hc & (msgs & Ha & ->) & -> & ->).
    assert (Hr0' : rp_responses p = [] ++ List.concat rss' ++ []) by (rewrite app_nil_r; exact Hr').
    assert (Hv : ring_verify_rings (ring_context t K) K p 0 0 (combine vals cts) (ring_context t K) = Ret (ring_context t K ++ msgs)).
    { apply (ring_verify_rings_iff _ K p vals cts 0 [] rss' [] _ _ Hr0' Hrss'). exists Ts, msgs. auto. }
    rewrite Hv. reflexivity.
Qed.

Lemma ring_verify_len (p : RingProof E) (K : PublicKey E) vals cts t :
  List.length (rp_responses p) <> list_sum (map (@List.length element) vals) ->
  RingProof_verify p K vals cts t =
  Ret (Err (LenMismatch "items in all rings" (List.length (rp_responses p)) (list_sum (map (@List.length element) vals))), t).
Proof.
  intros H. unfold RingProof_verify, check_lengths. apply Nat.eqb_neq in H. rewrite H. reflexivity.
Qed.

Lemma ring_verify_ok_iff (p : RingProof E) (K : PublicKey E) vals cts t t' :
  RingProof_verify p K vals cts t = Ret (Ok tt, t') <->
  exists rss Ts q,
    rp_responses p = List.concat rss /\ map (@List.length scalar) rss = map (@List.length element) vals /\
    rings_closed (ring_context t K) (pk_element K) (rp_challenge p) 0 vals cts rss Ts /\
    ring_common (ring_context t K) Ts q /\ oracle q "c" = rp_challenge p /\ t' = q ++ [TChal "c"].
Proof.
  destruct (Nat.eq_dec (List.length (rp_responses p)) (list_sum (map (@List.length element) vals))) as [Hl|Hl].
  - rewrite ring_verify_iff by exact Hl. split; intros (rss & Ts & q & H1 & H2 & H3 & H4 & H5 & H6); exists rss, Ts, q;
      repeat (split; [assumption|]).
    + split; [|exact H6]. destruct (s_eqb _ _) eqn:Hs; [|discriminate]. apply (s_eqb_ok E L). exact Hs.
    + split; [|exact H6]. rewrite H5, (s_eqb_refl L). reflexivity.
  - rewrite ring_verify_len by exact Hl. split; [discriminate|].
    intros (rss & Ts & q & H1 & H2 & _). exfalso. apply Hl. rewrite H1, concat_length_sum, H2. reflexivity.
Qed.

Lemma ring_verify_rings_total t0 (K : PublicKey E) (p : RingProof E) items : ser_total E ->
  forall i st t, (st + list_sum (map (fun it => List.length (fst it)) items) <= List.length (rp_responses p))%nat ->
  exists t', ring_verify_rings t0 K p i st items t = Ret t'.
Proof.
  intros Ht. induction items as [|[vs ct] items IH]; intros i st t Hl; [eexists; reflexivity|].
  cbn in Hl. cbn [ring_verify_rings]. destruct (ring_init_total t0 ct i Ht) as [rt ->]. cbn [bind].
  unfold slice_from. replace (st <=? List.length (rp_responses p))%nat with true by (symmetry; apply Nat.leb_le; lia).
  cbn [bind]. match goal with |- context [ring_verify_loop ?a ?b ?c ?d ?e ?f ?g ?h] =>
    destruct (ring_verify_loop_total a b c d f Ht e g h) as [T ->] end.
  cbn [bind]. unfold append_element. destruct (ser_total_some L Ht (fst T)) as [b0 ->].
  destruct (ser_total_some L Ht (snd T)) as [b1 ->]. cbn [bind]. apply IH. unfold list_sum in *. lia.
Qed.

Lemma sum_combine_le (vals : list (list element)) (cts : list (Ciphertext E)) :
  (list_sum (map (fun it => List.length (fst it)) (combine vals cts)) <= list_sum (map (@List.length element) vals))%nat.
Proof.
  revert cts; induction vals as [|v vals IH]; intros [|c cts]; cbn; try lia. specialize (IH cts). unfold list_sum in IH. lia.
Qed.

Lemma ring_verify_total (p : RingProof E) (K : PublicKey E) vals cts t :
  ser_total E -> exists res t', RingProof_verify p K vals cts t = Ret (res, t').
Proof.
  intros Ht. unfold RingProof_verify, check_lengths. destruct (Nat.eqb_spec (List.length (rp_responses p)) (list_sum (map (@List.length element) vals))) as [Hl|]; [|eauto].
  match goal with |- context [ring_verify_rings ?a ?b ?c ?d ?e ?f ?g] =>
    destruct (ring_verify_rings_total a b c f Ht d e g) as [t' ->] end.
  - rewrite Hl. cbn. apply sum_combine_le.
  - cbn. eauto.
Qed.

(** ** soundness *)
Lemma ring_commitments_answer K ct A (c s : scalar) :
  le_answers K (random_element ct) (blinded_element ct - A)%E
    (fst (ring_commitments K ct A c s)) (snd (ring_commitments K ct A c s)) c s.
Proof. split; reflexivity. Qed.

Lemma ring_from_hits rt K ct vs : forall rs j A c s T,
  List.length rs = List.length vs ->
  (forall A', In A' (A :: vs) -> ~ same_log K (random_element ct) (blinded_element ct - A')%E) ->
  ring_from (E:=E) rt K ct j (ring_commitments K ct A c s) (combine vs rs) T ->
  ring_all_hits rt K ct j c (A :: vs) T.
Proof.
  induction vs as [|v vs IH]; intros [|r rs] j A c s T Hl Hf H; try discriminate.
  - cbn in H. cbn. exists T. subst T. split; [exists s; apply ring_commitments_answer|]. split; [|reflexivity]. intros c' s' Ha.
    eapply (le_unique_challenge E L); [apply Hf; left; reflexivity | exact Ha | apply ring_commitments_answer].
  - cbn [combine ring_from] in H. destruct H as (q & Hq & H).
    change (ring_all_hits rt K ct j c (A :: v :: vs) T) with
      (exists X, (exists s, le_answers K (random_element ct) (blinded_element ct - A)%E (fst X) (snd X) c s) /\
        (forall c' s', le_answers K (random_element ct) (blinded_element ct - A)%E (fst X) (snd X) c' s' -> c' = c) /\
        exists q, ring_query rt j X q /\ ring_all_hits rt K ct (S j) (oracle q "c") (v :: vs) T).
    exists (ring_commitments K ct A c s). split; [exists s; apply ring_commitments_answer|]. split.
    + intros c' s' Ha. eapply (le_unique_challenge E L); [apply Hf; left; reflexivity | exact Ha | apply ring_commitments_answer].
    + exists q. split; [exact Hq|]. apply (IH rs (S j) v (oracle q "c") r T); [cbn in Hl; lia | | exact H].
      intros A' Hin. apply Hf. right. exact Hin.
Qed.

Lemma same_log_value sk (pk : PublicKey E) (ct : Ciphertext E) A :
  key_of sk pk ->
  (same_log (pk_element pk) (random_element ct) (blinded_element ct - A)%E <-> decrypt_to_element sk ct = A).
Proof.
  intros Hk. pose proof (same_log_zero E L sk pk {| random_element := random_element ct; blinded_element := (blinded_element ct - A)%E |} Hk) as H.
  cbn in H. rewrite H. unfold decrypt_to_element. cbn. split; intros H0.
  - apply (dlog_inj L). apply (f_equal (dlog L)) in H0. dlog_simpl_in L H0. dlog_simpl L.
    apply (s_sub_eq_0 L). rewrite <- H0. ring.
  - rewrite <- H0. el_ring L.
Qed.

Lemma rings_closed_nth t0 K c : forall vals cts rss Ts i k vs ct,
  rings_closed (E:=E) t0 K c i vals cts rss Ts ->
  map (@List.length scalar) rss = map (@List.length element) vals ->
  nth_error vals k = Some vs -> nth_error cts k = Some ct ->
  exists rs T rt, nth_error Ts k = Some T /\ List.length rs = List.length vs /\
    ring_local t0 ct (i + k) rt /\ ring_closed rt K ct c (combine vs rs) T.
Proof.
  induction vals as [|v vals IH]; intros cts rss Ts i k vs ct H Hl Hv Hc; [destruct k; discriminate|].
  destruct cts as [|ct' cts]; [destruct k; discriminate|]. destruct rss as [|rs rss]; [discriminate|].
  destruct Ts as [|T Ts]; [destruct H|]. cbn in Hl. injection Hl as Hl Hls.
  cbn [rings_closed] in H. destruct H as [(rt & Hrt & Hcl) H]. destruct k as [|k]; cbn in Hv, Hc.
  - injection Hv as ->. injection Hc as ->. exists rs, T, rt. rewrite Nat.add_0_r. cbn. auto.
  - destruct (IH cts rss Ts (S i) k vs ct H Hls Hv Hc) as (rs' & T' & rt' & H1 & H2 & H3 & H4).
    exists rs', T', rt'. rewrite <- plus_n_Sm. cbn. auto.
Qed.

Lemma ring_sound (sk : SecretKey E) (p : RingProof E) (K : PublicKey E) vals cts t t' k vs ct :
  key_of sk K ->
  RingProof_verify p K vals cts t = Ret (Ok tt, t') ->
  nth_error vals k = Some vs -> nth_error cts k = Some ct -> vs <> [] ->
  ~ In (decrypt_to_element sk ct) vs ->
  exists rt Ts T q,
    ring_local (ring_context t K) ct k rt /\
    nth_error Ts k = Some T /\ ring_common (ring_context t K) Ts q /\
    ring_all_hits rt (pk_element K) ct 0 (oracle q "c") vs T.
Proof.
  intros Hk H Hv Hc Hne Hnin. apply ring_verify_ok_iff in H as (rss & Ts & q & Hr & Hrss & Hcl & Hq & Ho & ->).
  destruct (rings_closed_nth _ _ _ _ _ _ _ _ _ _ _ Hcl Hrss Hv Hc) as (rs & T & rt & HT & Hl & Hrt & Hring).
  exists rt, Ts, T, q. split; [exact Hrt|]. split; [exact HT|]. split; [exact Hq|]. rewrite Ho.
  destruct vs as [|A vs]; [destruct (Hne eq_refl)|]. destruct rs as [|s rs]; [discriminate|].
  cbn [combine ring_closed] in Hring. eapply (ring_from_hits rt _ ct vs rs); [cbn in Hl; lia | | exact Hring].
  intros A' Hin Hs. apply Hnin. apply (same_log_value sk K ct A' Hk) in Hs. rewrite Hs. exact Hin.
Qed.

(** ** prover *)
Lemma ring_forward_ok rt K ct : forall vs pre post X r T resp r' k,
  List.length post = List.length vs -> List.length pre = S k ->
  ring_forward rt K ct (combine (seq (S k) (List.length vs)) vs) X (pre ++ post) r = Ret (T, resp, r') ->
  exists post', List.length post' = List.length vs /\ resp = pre ++ post' /\
    ring_from (E:=E) rt K ct k X (combine vs post') T.
Proof.
  induction vs as [|v vs IH]; intros pre post X r T resp r' k Hl Hk H.
  - destruct post; [|discriminate]. cbn in H. injection H as <- <- _. exists []. cbn. rewrite app_nil_r. auto.
  - destruct post as [|x post]; [discriminate|]. cbn [List.length seq combine ring_forward] in H.
    inv_bind H. replace (S k - 1)%nat with k in Hm by lia. destruct (generate_scalar r) as [s r1].
    rewrite index_set_app in H by (symmetry; exact Hk). cbn [bind] in H. rewrite ring_prover_commitments_eq in H. cbn [bind] in H.
    replace (pre ++ s :: post) with ((pre ++ [s]) ++ post) in H by (rewrite <- app_assoc; reflexivity).
    apply IH in H as (post' & Hl' & -> & Hf); [|cbn in Hl; lia | rewrite app_length; cbn; lia].
    exists (s :: post'). split; [cbn; lia|]. split; [rewrite <- app_assoc; reflexivity|].
    cbn [combine ring_from]. apply ring_eq_challenge_iff in Hm as (q & Hq & ->). exists q. auto.
Qed.

Lemma ring_forward_total rt K ct : ser_total E -> forall vs pre post X r k,
  List.length post = List.length vs -> List.length pre = S k ->
  exists res, ring_forward (E:=E) rt K ct (combine (seq (S k) (List.length vs)) vs) X (pre ++ post) r = Ret res.
Proof.
  intros Ht. induction vs as [|v vs IH]; intros pre post X r k Hl Hk.
  - eexists. reflexivity.
  - destruct post as [|x post]; [discriminate|]. cbn [List.length seq combine ring_forward].
    destruct (ring_eq_challenge_total rt (S k - 1) X Ht) as [c ->]. cbn [bind]. destruct (generate_scalar r) as [s r1].
    rewrite index_set_app by (symmetry; exact Hk). cbn [bind]. rewrite ring_prover_commitments_eq. cbn [bind].
    replace (pre ++ s :: post) with ((pre ++ [s]) ++ post) by (rewrite <- app_assoc; reflexivity).
    apply IH; [cbn in Hl; lia | rewrite app_length; cbn; lia].
Qed.

(** challenges along the first part of a ring *)
Fixpoint ring_steps (rt : transcript) (K : element) (ct : Ciphertext E) (j : nat) (c : scalar)
    (eqs : list (element * scalar)) (c' : scalar) : Prop :=
  match eqs with
  | [] => c' = c
  | (A, s) :: rest =>
      exists q, ring_query rt j (ring_commitments K ct A c s) q /\ ring_steps rt K ct (S j) (oracle q "c") rest c'
  end.

Lemma ring_backward_ok rt K ct : forall vs pre mid post c r c' resp r',
  List.length mid = List.length vs ->
  ring_backward rt K ct (combine (seq (List.length pre) (List.length vs)) vs) c (pre ++ mid ++ post) r = Ret (c', resp, r') ->
  exists mid', List.length mid' = List.length vs /\ resp = pre ++ mid' ++ post /\
    ring_steps rt K ct (List.length pre) c (combine vs mid') c'.
Proof.
  induction vs as [|v vs IH]; intros pre mid post c r c' resp r' Hl H.
  - destruct mid; [|discriminate]. cbn in H. injection H as <- <- _. exists []. cbn. auto.
  - destruct mid as [|x mid]; [discriminate|]. cbn [List.length seq combine ring_backward] in H.
    destruct (generate_scalar r) as [s r1]. cbn [app] in H.
    rewrite index_set_app in H by reflexivity. cbn [bind] in H. rewrite ring_prover_commitments_eq in H. cbn [bind] in H.
    inv_bind H. apply ring_eq_challenge_iff in Hm as (q & Hq & ->).
    replace (pre ++ s :: mid ++ post) with ((pre ++ [s]) ++ mid ++ post) in H by (rewrite <- app_assoc; reflexivity).
    replace (S (List.length pre)) with (List.length (pre ++ [s])) in H by (rewrite app_length; cbn; lia).
    apply IH in H as (mid' & Hl' & -> & Hs); [|cbn in Hl; lia].
    exists (s :: mid'). split; [cbn; lia|]. split; [rewrite <- app_assoc; reflexivity|].
    cbn [combine ring_steps]. exists q. split; [exact Hq|].
    replace (List.length (pre ++ [s])) with (S (List.length pre)) in Hs by (rewrite app_length; cbn; lia). exact Hs.
Qed.

Lemma ring_backward_total rt K ct : ser_total E -> forall vs pre mid post c r,
  List.length mid = List.length vs ->
  exists res, ring_backward (E:=E) rt K ct (combine (seq (List.length pre) (List.length vs)) vs) c (pre ++ mid ++ post) r = Ret res.
Proof.
  intros Ht. induction vs as [|v vs IH]; intros pre mid post c r Hl.
  - eexists. reflexivity.
  - destruct mid as [|x mid]; [discriminate|]. cbn [List.length seq combine ring_backward].
    destruct (generate_scalar r) as [s r1]. cbn [app].
    rewrite index_set_app by reflexivity. cbn [bind]. rewrite ring_prover_commitments_eq. cbn [bind].
    match goal with |- context [ring_eq_challenge ?a ?b ?x] => destruct (ring_eq_challenge_total a b x Ht) as [c' ->] end.
    cbn [bind].
    replace (pre ++ s :: mid ++ post) with ((pre ++ [s]) ++ mid ++ post) by (rewrite <- app_assoc; reflexivity).
    replace (S (List.length pre)) with (List.length (pre ++ [s])) by (rewrite app_length; cbn; lia).
    apply IH. cbn in Hl; lia.
Qed.

Lemma ring_steps_from rt K ct : forall eqs1 j c cv A s eqs2 T,
  ring_steps rt K ct j c eqs1 cv ->
  ring_from rt K ct (j + List.length eqs1) (ring_commitments K ct A cv s) eqs2 T ->
  match eqs1 ++ (A, s) :: eqs2 with
  | [] => False
  | (A0, s0) :: rest => ring_from (E:=E) rt K ct j (ring_commitments K ct A0 c s0) rest T
  end.
Proof.
  induction eqs1 as [|[A0 s0] eqs1 IH]; intros j c cv A s eqs2 T Hs Hf.
  - cbn in Hs. subst cv. cbn in *. rewrite Nat.add_0_r in Hf. exact Hf.
  - cbn [ring_steps] in Hs. destruct Hs as (q & Hq & Hs). cbn [app].
    replace (j + List.length ((A0, s0) :: eqs1))%nat with (S j + List.length eqs1)%nat in Hf by (cbn; lia).
    specialize (IH (S j) (oracle q "c") cv A s eqs2 T Hs Hf).
    destruct (eqs1 ++ (A, s) :: eqs2) as [|[A1 s1] rest]; [destruct IH|].
    cbn [ring_from]. exists q. auto.
Qed.

(** a ring after [Ring::new] *)
Definition ring_ready (t0 : transcript) (K : PublicKey E) (ring : Ring E) : Prop :=
  exists vs1 A vs2 pre x post,
    rg_admissible ring = vs1 ++ A :: vs2 /\ List.length vs1 = rg_value_index ring /\
    rg_responses ring = pre ++ x :: post /\ List.length pre = List.length vs1 /\ List.length post = List.length vs2 /\
    ring_local t0 (rg_ciphertext ring) (rg_index ring) (rg_transcript ring) /\
    encrypts K (rg_ciphertext ring) A (rg_discrete_log ring) /\
    ring_from (rg_transcript ring) (pk_element K) (rg_ciphertext ring) (rg_value_index ring)
      ((generator * rg_random_scalar ring)%E, (pk_element K * rg_random_scalar ring)%E) (combine vs2 post) (rg_terminal ring).

Lemma Ring_new_ok t0 i (K : PublicKey E) ext vals vi resp r ring r' A :
  nth_error vals vi = Some A -> encrypts K (ext_inner ext) A (ext_random_scalar ext) ->
  List.length resp = List.length vals ->
  Ring_new i (pk_element K) ext vals vi t0 resp r = Ret (ring, r') ->
  ring_ready t0 K ring /\ rg_index ring = i /\ rg_admissible ring = vals /\ rg_ciphertext ring = ext_inner ext.
Proof.
  intros HA Henc Hlen H. unfold Ring_new in H. inv_bind H. inv_bind H. inv_bind H. inv_bind H. inv_bind H.
  destruct (SecretKey_generate r) as [e r1]. inv_bind H. destruct a4 as [[T resp'] r2]. injection H as <- <-.
  apply ring_init_iff in Hm3.
  destruct (nth_error_split vals vi HA) as (vs1 & vs2 & Hv & Hvi).
  destruct (split_length resp vi (S (List.length vs2))) as (pre & post0 & -> & Hpre & Hpost).
  { rewrite Hlen, Hv, app_length. cbn. lia. }
  destruct post0 as [|x post]; [discriminate|].
  rewrite skipn_enumerate in Hm4.
  replace (skipn (vi + 1) vals) with vs2 in Hm4.
  2: { rewrite Hv, skipn_app, Hvi. rewrite (skipn_all2 vs1) by lia. replace (vi + 1 - vi)%nat with 1%nat by lia. reflexivity. }
  replace (List.length vals - (vi + 1))%nat with (List.length vs2) in Hm4
    by (rewrite Hv, app_length; cbn; lia).
  replace (vi + 1)%nat with (S vi) in Hm4 by lia.
  replace (pre ++ x :: post) with ((pre ++ [x]) ++ post) in Hm4 by (rewrite <- app_assoc; reflexivity).
  apply ring_forward_ok in Hm4 as (post' & Hl' & -> & Hf); [|cbn in Hpost; lia | rewrite app_length; cbn; lia].
  rewrite (mul_generator_ok E L) in Hf. split; [|cbn; auto].
  exists vs1, A, vs2, pre, x, post'. cbn. split; [exact Hv|]. split; [exact Hvi|].
  split; [rewrite <- app_assoc; reflexivity|]. split; [lia|]. split; [exact Hl'|]. auto.
Qed.

Lemma Ring_finalize_ok t0 (K : PublicKey E) ring c r resp r' :
  ring_ready t0 K ring -> Ring_finalize ring (pk_element K) c r = Ret (resp, r') ->
  List.length resp = List.length (rg_admissible ring) /\
  ring_closed (rg_transcript ring) (pk_element K) (rg_ciphertext ring) c (combine (rg_admissible ring) resp) (rg_terminal ring).
Proof.
  intros (vs1 & A & vs2 & pre & x & post & Hv & Hvi & Hresp & Hpre & Hpost & Hloc & [He1 He2] & Hf) H.
  unfold Ring_finalize in H. rewrite Hv, Hresp in H.
  replace (firstn (rg_value_index ring) (vs1 ++ A :: vs2)) with vs1 in H.
  2: { rewrite <- Hvi, firstn_app, Nat.sub_diag, firstn_all. cbn. rewrite app_nil_r. reflexivity. }
  unfold enumerate in H. inv_bind H. destruct a as [[cv resp1] r1].
  pose proof (ring_backward_ok (rg_transcript ring) (pk_element K) (rg_ciphertext ring) vs1 [] pre (x :: post) c r cv resp1 r1 Hpre) as Hb.
  cbn [List.length app] in Hb. specialize (Hb Hm). destruct Hb as (pre' & Hpre' & -> & Hs).
  inv_bind H. rewrite index_set_app in H by lia. cbn [bind] in H. injection H as <- <-.
  split; [rewrite Hv, !app_length; cbn; lia|]. rewrite Hv.
  rewrite combine_app_eq by lia. cbn [combine].
  set (s := (cv * rg_discrete_log ring + rg_random_scalar ring)%S) in *.
  assert (Hx : ring_commitments (pk_element K) (rg_ciphertext ring) A cv s =
    ((generator * rg_random_scalar ring)%E, (pk_element K * rg_random_scalar ring)%E)).
  { unfold ring_commitments, s. rewrite He1, He2. f_equal; el_ring L. }
  pose proof (ring_steps_from (rg_transcript ring) (pk_element K) (rg_ciphertext ring) (combine vs1 pre') 0 c cv A s
    (combine vs2 post) (rg_terminal ring) Hs) as Hfin.
  rewrite Hx in Hfin. rewrite combine_length, Hpre', Nat.min_id, Nat.add_0_l, Hvi in Hfin.
  specialize (Hfin Hf). unfold ring_closed.
  destruct (combine vs1 pre' ++ (A, s) :: combine vs2 post) as [|[A0 s0] rest]; [destruct Hfin|exact Hfin].
Qed.

Lemma ring_append_terminals_iff Ts t t' :
  ring_append_terminals (E:=E) t Ts = Ret t' <-> exists msgs, absorbed (ring_items Ts) msgs /\ t' = t ++ msgs.
Proof.
  revert t t'; induction Ts as [|[T0 T1] Ts IH]; intros t t'; cbn [ring_append_terminals].
  - split.
    + intros H. injection H as <-. exists []. split; [constructor|]. rewrite app_nil_r. reflexivity.
    + intros (msgs & H & ->). inversion H. rewrite app_nil_r. reflexivity.
  - unfold append_element, append_message. split.
    + intros H. inv_bind H. inv_bind Hm. injection Hm as <-. inv_bind H. inv_bind Hm. injection Hm as <-.
      apply IH in H as (msgs & Ha & ->). eexists. split; [cbn; constructor; [eauto|constructor; [eauto|exact Ha]]|].
      rewrite <- !app_assoc. reflexivity.
    + intros (msgs & Ha & ->). cbn in Ha. inversion Ha as [|x1 m1 xs1 ms1 (b0 & Hb0 & Hm1) Ha1]; subst.
      inversion Ha1 as [|x2 m2 xs2 ms2 (b1 & Hb1 & Hm2) Ha2]; subst. cbn [fst snd] in *.
      rewrite Hb0. cbn [bind]. rewrite Hb1. cbn [bind]. apply IH. exists ms2. split; [exact Ha2|].
      rewrite <- !app_assoc. reflexivity.
Qed.

Lemma ring_finalize_all_ok t0 (K : PublicKey E) c : forall rings i r resps r',
  Forall (ring_ready t0 K) rings -> map rg_index rings = seq i (List.length rings) ->
  ring_finalize_all rings (pk_element K) c r = Ret (resps, r') ->
  map (@List.length scalar) resps = map (fun g => List.length (rg_admissible g)) rings /\
  rings_closed t0 (pk_element K) c i (map rg_admissible rings) (map rg_ciphertext rings) resps (map rg_terminal rings).
Proof.
  induction rings as [|g rings IH]; intros i r resps r' Hr Hi H.
  - cbn in H. injection H as <- <-. cbn. auto.
  - cbn [ring_finalize_all] in H. inv_bind H. destruct a as [resp r1]. inv_bind H. destruct a as [rest r2].
    injection H as <- <-. inversion Hr as [|? ? Hg Hrs]; subst. cbn in Hi. injection Hi as Hi0 Hi.
    destruct (Ring_finalize_ok t0 K g c r resp r1 Hg Hm) as [Hl Hc].
    destruct (IH (S i) r1 rest r2 Hrs Hi Hm0) as [Hls Hcs].
    cbn [map rings_closed]. rewrite Hl, Hls. split; [reflexivity|]. split; [|exact Hcs].
    exists (rg_transcript g). split; [|exact Hc].
    destruct Hg as (vs1 & A & vs2 & pre & x & post & _ & _ & _ & _ & _ & Hloc & _). rewrite <- Hi0. exact Hloc.
Qed.

(** ** builder *)
Definition builder_inv (K : PublicKey E) (t0 : transcript) (vals : list (list element)) (cts : list (Ciphertext E))
    (b : RingProofBuilder E (Rng E)) : Prop :=
  rb_receiver b = K /\ rb_transcript b = t0 /\
  Forall (ring_ready t0 K) (rb_rings b) /\
  map rg_index (rb_rings b) = seq 0 (List.length (rb_rings b)) /\
  map rg_admissible (rb_rings b) = vals /\ map rg_ciphertext (rb_rings b) = cts.

Lemma builder_new_inv (K : PublicKey E) buf t r :
  builder_inv K (ring_context t K) [] [] (RingProofBuilder_new K buf t r).
Proof. unfold builder_inv, RingProofBuilder_new. cbn. rewrite ring_context_eq. repeat split; constructor. Qed.

Lemma add_precomputed_inv (K : PublicKey E) t0 vals cts b ext vs vi A b' :
  builder_inv K t0 vals cts b -> nth_error vs vi = Some A ->
  encrypts K (ext_inner ext) A (ext_random_scalar ext) ->
  RingProofBuilder_add_precomputed_value b ext vs vi = Ret b' ->
  builder_inv K t0 (vals ++ [vs]) (cts ++ [ext_inner ext]) b' /\
  (List.length vs <= List.length (rb_rest b))%nat /\ rb_rest b' = skipn (List.length vs) (rb_rest b).
Proof.
  intros (HK & Ht & Hr & Hi & Hv & Hc) HA Henc H. unfold RingProofBuilder_add_precomputed_value in H.
  inv_bind H. destruct a as [resp rest]. unfold split_at in Hm.
  destruct (Nat.leb_spec (List.length vs) (List.length (rb_rest b))) as [Hle|]; [|discriminate].
  injection Hm as <- <-. inv_bind H. destruct a as [ring r1]. injection H as <-.
  rewrite HK, Ht in Hm. apply (Ring_new_ok t0 _ K ext vs vi _ _ ring r1 A HA Henc) in Hm as (Hready & Hidx & Hadm & Hct);
    [|rewrite firstn_length; lia].
  split; [|cbn; auto]. unfold builder_inv. cbn. split; [exact HK|]. split; [exact Ht|].
  split; [apply Forall_app; auto|]. rewrite !map_app. cbn. rewrite Hi, Hv, Hc, Hidx, Hadm, Hct, app_length. cbn.
  rewrite Nat.add_1_r, seq_S. cbn. auto.
Qed.

Lemma add_value_inv (K : PublicKey E) t0 vals cts b vs vi ext b' :
  builder_inv K t0 vals cts b ->
  RingProofBuilder_add_value b vs vi = Ret (ext, b') ->
  (exists A, nth_error vs vi = Some A /\ encrypts K (ext_inner ext) A (ext_random_scalar ext)) /\
  builder_inv K t0 (vals ++ [vs]) (cts ++ [ext_inner ext]) b' /\
  (List.length vs <= List.length (rb_rest b))%nat /\ rb_rest b' = skipn (List.length vs) (rb_rest b).
Proof.
  intros Hb H. unfold RingProofBuilder_add_value in H. inv_bind H. apply index_inv in Hm.
  destruct (ExtendedCiphertext_new a (rb_receiver b) (rb_rng b)) as [ext1 r1] eqn:Hext. inv_bind H.
  injection H as <- <-. apply (ext_new_encrypts E L) in Hext as [Henc _].
  pose proof (proj1 Hb) as HK. rewrite HK in Henc.
  split; [eauto|]. apply (add_precomputed_inv K t0 vals cts _ ext1 vs vi a) in Hm0; auto.
Qed.

Lemma ring_run_inv (K : PublicKey E) t0 ops : forall vals cts b cts' b',
  builder_inv K t0 vals cts b -> Forall (op_ok K) ops ->
  ring_run b ops = Ret (cts', b') ->
  builder_inv K t0 (vals ++ map op_values ops) (cts ++ cts') b' /\
  (list_sum (map (fun o => List.length (op_values o)) ops) + List.length (rb_rest b') = List.length (rb_rest b))%nat /\
  Forall2 (fun o ct => exists A r, nth_error (op_values o) (op_index o) = Some A /\ encrypts K ct A r) ops cts'.
Proof.
  induction ops as [|o ops IH]; intros vals cts b cts' b' Hb Hok H.
  - cbn in H. injection H as <- <-. rewrite !app_nil_r. cbn. repeat split; try apply Hb. constructor.
  - inversion Hok as [|? ? Ho Hops]; subst.
    assert (Hstep : exists ext b1 cts1, (exists A, nth_error (op_values o) (op_index o) = Some A /\ encrypts K (ext_inner ext) A (ext_random_scalar ext)) /\
      builder_inv K t0 (vals ++ [op_values o]) (cts ++ [ext_inner ext]) b1 /\
      (List.length (op_values o) <= List.length (rb_rest b))%nat /\ rb_rest b1 = skipn (List.length (op_values o)) (rb_rest b) /\
      ring_run b1 ops = Ret (cts1, b') /\ cts' = ext_inner ext :: cts1).
    { destruct o as [vs vi|ext vs vi]; cbn [ring_run] in H; inv_bind H.
      - destruct a as [ext b1]. inv_bind H. destruct a as [cts1 b2]. injection H as <- <-.
        apply (add_value_inv K t0 vals cts) in Hm as (H1 & H2 & H3 & H4); [|exact Hb].
        exists ext, b1, cts1. cbn. auto 10.
      - inv_bind H. destruct a0 as [cts1 b2]. injection H as <- <-. destruct Ho as (A & HA & Henc).
        apply (add_precomputed_inv K t0 vals cts _ _ _ _ A) in Hm as (H2 & H3 & H4); [|assumption..].
        exists ext, a, cts1. cbn. split; [eauto|]. auto 10. }
    destruct Hstep as (ext & b1 & cts1 & (A & HA & Henc) & H2 & H3 & H4 & H5 & ->).
    destruct (IH _ _ _ _ _ H2 Hops H5) as (I1 & I2 & I3). rewrite <- !app_assoc in I1. cbn in I1.
    split; [exact I1|]. split.
    + cbn. rewrite H4, skipn_length in I2. unfold list_sum in I2. lia.
    + constructor; eauto.
Qed.

Lemma builder_build_ok (K : PublicKey E) t vals cts b c rs t' r' :
  builder_inv K (ring_context t K) vals cts b -> rb_rest b = [] ->
  RingProofBuilder_build b = Ret (c, rs, t', r') ->
  RingProof_verify {| rp_challenge := c; rp_responses := rs |} K vals cts t = Ret (Ok tt, t').
Proof.
  intros (HK & Ht & Hr & Hi & Hv & Hc) Hrest H. unfold RingProofBuilder_build, Ring_aggregate in H.
  inv_bind H. inv_bind H. inv_bind Hm0. destruct a1. inv_bind Hm0. rewrite Ht in Hm2.
  apply ring_append_terminals_iff in Hm2 as (msgs & Ha & ->). unfold challenge_scalar in Hm0.
  inv_bind Hm0. destruct a1 as [resps r1]. injection Hm0 as <-. injection H as <- <- <- <-.
  rewrite HK in Hm2. destruct (ring_finalize_all_ok _ K _ _ 0 _ _ _ Hr Hi Hm2) as [Hl Hcl].
  apply ring_verify_ok_iff. cbn [rp_challenge rp_responses].
  exists resps, (map rg_terminal (rb_rings b)), (ring_context t K ++ msgs).
  rewrite Hrest, app_nil_r. split; [reflexivity|].
  split; [rewrite Hl, <- Hv, map_map; reflexivity|].
  rewrite <- Hv, <- Hc. split; [exact Hcl|]. split; [exists msgs; auto|]. auto.
Qed.

Lemma ring_complete (K : PublicKey E) buf t r ops cts b c rs t' r' :
  Forall (op_ok K) ops ->
  List.length buf = list_sum (map (fun o => List.length (op_values o)) ops) ->
  ring_run (RingProofBuilder_new K buf t r) ops = Ret (cts, b) ->
  RingProofBuilder_build b = Ret (c, rs, t', r') ->
  RingProof_verify {| rp_challenge := c; rp_responses := rs |} K (map op_values ops) cts t = Ret (Ok tt, t') /\
  Forall2 (fun o ct => exists A r, nth_error (op_values o) (op_index o) = Some A /\ encrypts K ct A r) ops cts.
Proof.
  intros Hok Hbuf Hrun Hbuild.
  apply (ring_run_inv K (ring_context t K) ops [] []) in Hrun as (H1 & H2 & H3); [|apply builder_new_inv|exact Hok].
  cbn [app] in H1. split; [|exact H3]. eapply builder_build_ok; [exact H1| |exact Hbuild].
  cbn [RingProofBuilder_new rb_rest] in H2. destruct (rb_rest b); [reflexivity|]. cbn in H2. lia.
Qed.

(** ** totality of the prover *)
Definition zeros_if_debug (l : list scalar) : Prop :=
  debug_assertions (env_build E) = true -> Forall (fun s => s = 0%S) l.

Lemma Ring_new_total t0 i (K : PublicKey E) ext vals vi resp r A :
  ser_total E -> nth_error vals vi = Some A -> encrypts K (ext_inner ext) A (ext_random_scalar ext) ->
  List.length resp = List.length vals -> zeros_if_debug resp ->
  exists ring r', Ring_new i (pk_element K) ext vals vi t0 resp r = Ret (ring, r') /\
    (zeros_if_debug (firstn (S vi) (rg_responses ring)) /\ rg_value_index ring = vi).
Proof.
  intros Ht HA Henc Hlen Hz. unfold Ring_new.
  destruct (nth_error_split vals vi HA) as (vs1 & vs2 & Hv & Hvi).
  assert (Hlv : List.length vals = (vi + S (List.length vs2))%nat) by (rewrite Hv, app_length; cbn; lia).
  unfold assert. replace (List.length vals =? 0)%nat with false by (symmetry; apply Nat.eqb_neq; lia). cbn [negb bind].
  replace (vi <? List.length vals)%nat with true by (symmetry; apply Nat.ltb_lt; lia). cbn [bind].
  rewrite Hlen, Nat.eqb_refl, debug_assert_true. cbn [bind]. unfold index. rewrite HA. cbn [bind].
  destruct Henc as [He1 He2]. rewrite He2.
  replace (e_eqb (pk_element K * ext_random_scalar ext + A) (A + pk_element K * ext_random_scalar ext)) with true
    by (symmetry; apply (e_eqb_ok E L); apply (e_add_comm E L)).
  rewrite debug_assert_true.
  replace (if debug_assertions (env_build E) then Ret tt else Ret tt) with (Ret tt) by (destruct (debug_assertions _); reflexivity).
  cbn [bind]. destruct (ring_init_total t0 (ext_inner ext) i Ht) as [rt ->]. cbn [bind].
  destruct (SecretKey_generate r) as [e r1].
  rewrite skipn_enumerate. rewrite Hlv.
  replace (skipn (vi + 1) vals) with vs2.
  2: { rewrite Hv, skipn_app, Hvi. rewrite (skipn_all2 vs1) by lia. replace (vi + 1 - vi)%nat with 1%nat by lia. reflexivity. }
  replace (vi + S (List.length vs2) - (vi + 1))%nat with (List.length vs2) by lia.
  replace (vi + 1)%nat with (S vi) by lia.
  destruct (split_length resp (S vi) (List.length vs2)) as (pre & post & -> & Hpre & Hpost); [lia|].
  match goal with |- context [ring_forward ?a ?b ?c ?d ?x ?f ?g] =>
    destruct (ring_forward_total a b c Ht vs2 pre post x g vi Hpost Hpre) as [[[T resp'] r2] Hf] end.
  rewrite Hf. cbn [bind]. eexists _, _. split; [reflexivity|]. cbn [rg_responses rg_value_index]. split; [|reflexivity].
  apply ring_forward_ok in Hf as (post' & Hl' & -> & _); [|exact Hpost|exact Hpre].
  intros Hd. specialize (Hz Hd). rewrite firstn_app, (firstn_all2 pre) by lia. rewrite Hpre, Nat.sub_diag, firstn_O, app_nil_r.
  apply Forall_app in Hz. apply Hz.
Qed.

Lemma Ring_finalize_total t0 (K : PublicKey E) ring c r :
  ser_total E -> ring_ready t0 K ring -> zeros_if_debug (firstn (S (rg_value_index ring)) (rg_responses ring)) ->
  exists res, Ring_finalize ring (pk_element K) c r = Ret res.
Proof.
  intros Ht (vs1 & A & vs2 & pre & x & post & Hv & Hvi & Hresp & Hpre & Hpost & Hloc & _ & Hf) Hz.
  unfold Ring_finalize. rewrite Hv, Hresp.
  replace (firstn (rg_value_index ring) (vs1 ++ A :: vs2)) with vs1.
  2: { rewrite <- Hvi, firstn_app, Nat.sub_diag, firstn_all. cbn. rewrite app_nil_r. reflexivity. }
  unfold enumerate.
  destruct (ring_backward_total (rg_transcript ring) (pk_element K) (rg_ciphertext ring) Ht vs1 [] pre (x :: post) c r Hpre) as [[[cv resp1] r1] Hb].
  cbn [List.length app] in Hb. rewrite Hb. cbn [bind].
  pose proof (ring_backward_ok (rg_transcript ring) (pk_element K) (rg_ciphertext ring) vs1 [] pre (x :: post) c r cv resp1 r1 Hpre Hb) as Hb'.
  cbn [List.length app] in Hb'. destruct Hb' as (pre' & Hpre' & -> & _).
  rewrite index_app by lia. cbn [bind].
  destruct (debug_assertions (env_build E)) eqn:Hd.
  - specialize (Hz Hd). rewrite Hresp in Hz.
    assert (Hx : x = 0%S).
    { rewrite Forall_forall in Hz. apply Hz. rewrite firstn_app. apply in_or_app. right.
      replace (S (rg_value_index ring) - List.length pre)%nat with 1%nat by lia. left. reflexivity. }
    rewrite Hx, (of_u64_0 L), (s_eqb_refl L), debug_assert_true. cbn [bind].
    rewrite index_set_app by lia. cbn. eauto.
  - cbn [bind]. rewrite index_set_app by lia. cbn. eauto.
Qed.

Definition builder_zeros (b : RingProofBuilder E (Rng E)) : Prop :=
  zeros_if_debug (rb_rest b) /\
  Forall (fun g => zeros_if_debug (firstn (S (rg_value_index g)) (rg_responses g))) (rb_rings b).

Lemma add_precomputed_total (K : PublicKey E) t0 vals cts b ext vs vi A :
  ser_total E -> builder_inv K t0 vals cts b -> builder_zeros b ->
  nth_error vs vi = Some A -> encrypts K (ext_inner ext) A (ext_random_scalar ext) ->
  (List.length vs <= List.length (rb_rest b))%nat ->
  exists b', RingProofBuilder_add_precomputed_value b ext vs vi = Ret b' /\ builder_zeros b'.
Proof.
  intros Ht (HK & Ht0 & _) [Hz1 Hz2] HA Henc Hle. unfold RingProofBuilder_add_precomputed_value, split_at.
  replace (List.length vs <=? List.length (rb_rest b))%nat with true by (symmetry; apply Nat.leb_le; exact Hle). cbn [bind].
  rewrite HK.
  destruct (Ring_new_total (rb_transcript b) (List.length (rb_rings b)) K ext vs vi (firstn (List.length vs) (rb_rest b)) (rb_rng b) A)
    as (ring & r' & Hn & Hz & Hvi); auto.
  - rewrite firstn_length. lia.
  - intros Hd. specialize (Hz1 Hd). rewrite <- (firstn_skipn (List.length vs)) in Hz1. apply Forall_app in Hz1. apply Hz1.
  - rewrite Hn. cbn [bind]. eexists. split; [reflexivity|]. split; cbn.
    + intros Hd. specialize (Hz1 Hd). rewrite <- (firstn_skipn (List.length vs)) in Hz1. apply Forall_app in Hz1. apply Hz1.
    + apply Forall_app. split; [exact Hz2|]. constructor; [|constructor]. rewrite Hvi. exact Hz.
Qed.

Lemma ring_run_total (K : PublicKey E) t0 ops : ser_total E -> forall vals cts b,
  builder_inv K t0 vals cts b -> builder_zeros b -> Forall (op_ok K) ops ->
  Forall (fun o => (op_index o < List.length (op_values o))%nat) ops ->
  (list_sum (map (fun o => List.length (op_values o)) ops) <= List.length (rb_rest b))%nat ->
  exists cts' b', ring_run b ops = Ret (cts', b') /\ builder_zeros b'.
Proof.
  intros Ht. induction ops as [|o ops IH]; intros vals cts b Hb Hz Hok Hidx Hlen.
  - cbn. eauto.
  - inversion Hok as [|? ? Ho Hops]; subst. inversion Hidx as [|? ? Hi Hidxs]; subst. cbn in Hlen.
    assert (Hnext : forall ext b1, builder_inv K t0 (vals ++ [op_values o]) (cts ++ [ext_inner ext]) b1 -> builder_zeros b1 ->
      rb_rest b1 = skipn (List.length (op_values o)) (rb_rest b) -> exists cts' b', ring_run b1 ops = Ret (cts', b') /\ builder_zeros b').
    { intros ext b1 H1 H2 H3. apply (IH (vals ++ [op_values o]) (cts ++ [ext_inner ext])); auto.
      rewrite H3, skipn_length. unfold list_sum. lia. }
    destruct o as [vs vi|ext vs vi]; cbn [ring_run op_values op_index] in *.
    + unfold RingProofBuilder_add_value. unfold index. destruct (nth_error vs vi) as [A|] eqn:HA;
        [|apply nth_error_None in HA; lia]. cbn [bind].
      destruct (ExtendedCiphertext_new A (rb_receiver b) (rb_rng b)) as [ext r1] eqn:Hext.
      apply (ext_new_encrypts E L) in Hext as [Henc _]. rewrite (proj1 Hb) in Henc.
      set (b0 := {| rb_receiver := rb_receiver b; rb_transcript := rb_transcript b; rb_rings := rb_rings b; rb_rest := rb_rest b; rb_rng := r1 |}).
      destruct (add_precomputed_total K t0 vals cts b0 ext vs vi A) as (b1 & Hb1 & Hz1); auto; [cbn; lia|].
      rewrite Hb1. cbn [bind].
      apply (add_precomputed_inv K t0 vals cts b0 ext vs vi A) in Hb1 as (I1 & I2 & I3); auto.
      destruct (Hnext ext b1 I1 Hz1 I3) as (cts' & b' & Hr & Hz'). rewrite Hr. cbn. eauto.
    + destruct Ho as (A & HA & Henc).
      destruct (add_precomputed_total K t0 vals cts b ext vs vi A) as (b1 & Hb1 & Hz1); auto; [lia|].
      rewrite Hb1. cbn [bind].
      apply (add_precomputed_inv K t0 vals cts b ext vs vi A) in Hb1 as (I1 & I2 & I3); auto.
      destruct (Hnext ext b1 I1 Hz1 I3) as (cts' & b' & Hr & Hz'). rewrite Hr. cbn. eauto.
Qed.

Lemma ring_finalize_all_total t0 (K : PublicKey E) c : ser_total E -> forall rings r,
  Forall (ring_ready t0 K) rings ->
  Forall (fun g => zeros_if_debug (firstn (S (rg_value_index g)) (rg_responses g))) rings ->
  exists res, ring_finalize_all rings (pk_element K) c r = Ret res.
Proof.
  intros Ht. induction rings as [|g rings IH]; intros r Hr Hz; [eexists; reflexivity|].
  inversion Hr; inversion Hz; subst. cbn [ring_finalize_all].
  destruct (Ring_finalize_total t0 K g c r Ht) as [[resp r1] ->]; auto. cbn [bind].
  destruct (IH r1) as [[rest r2] ->]; auto. cbn. eauto.
Qed.

Lemma enumerate_index_ok (rings : list (Ring E)) : map rg_index rings = seq 0 (List.length rings) ->
  forallb (fun p : nat * Ring E => (fst p =? rg_index (snd p))%nat) (enumerate rings) = true.
Proof.
  unfold enumerate. generalize 0%nat. induction rings as [|g rings IH]; intros i H; [reflexivity|].
  cbn in H. injection H as H0 H. cbn. rewrite H0, Nat.eqb_refl. cbn. apply IH. exact H.
Qed.

Lemma builder_build_total (K : PublicKey E) t0 vals cts b :
  ser_total E -> builder_inv K t0 vals cts b -> builder_zeros b -> rb_rest b = [] ->
  exists res, RingProofBuilder_build b = Ret res.
Proof.
  intros Ht (HK & Ht0 & Hr & Hi & _) [_ Hz] Hrest. unfold RingProofBuilder_build, Ring_aggregate.
  rewrite Hrest. cbn [List.length Nat.eqb]. rewrite (enumerate_index_ok _ Hi).
  rewrite !debug_assert_true.
  cbn [bind].
  destruct (absorbed_total E L (ring_items (map rg_terminal (rb_rings b))) Ht) as [msgs Hmsgs].
  assert (Ha : ring_append_terminals (rb_transcript b) (map rg_terminal (rb_rings b)) = Ret (rb_transcript b ++ msgs))
    by (apply ring_append_terminals_iff; eauto).
  rewrite Ha. cbn [bind]. unfold challenge_scalar. rewrite HK.
  match goal with |- context [ring_finalize_all ?a ?b ?c ?d] =>
    destruct (ring_finalize_all_total t0 K c Ht a d Hr Hz) as [[resps r1] ->] end.
  cbn. eauto.
Qed.

Lemma ring_prover_total (K : PublicKey E) buf t r ops :
  ser_total E -> Forall (op_ok K) ops ->
  Forall (fun o => (op_index o < List.length (op_values o))%nat) ops ->
  List.length buf = list_sum (map (fun o => List.length (op_values o)) ops) -> zeros_if_debug buf ->
  exists cts b c rs t' r', ring_run (RingProofBuilder_new K buf t r) ops = Ret (cts, b) /\
    RingProofBuilder_build b = Ret (c, rs, t', r').
Proof.
  intros Ht Hok Hidx Hbuf Hz.
  destruct (ring_run_total K (ring_context t K) ops Ht [] [] (RingProofBuilder_new K buf t r)) as (cts & b & Hrun & Hzb); auto.
  - apply builder_new_inv.
  - split; [exact Hz|constructor].
  - cbn. lia.
  - pose proof Hrun as Hrun'. apply (ring_run_inv K (ring_context t K) ops [] []) in Hrun' as (H1 & H2 & _); [|apply builder_new_inv|exact Hok].
    destruct (builder_build_total K (ring_context t K) _ _ b Ht H1 Hzb) as [[[[c rs] t'] r'] Hb].
    { cbn [RingProofBuilder_new rb_rest] in H2. destruct (rb_rest b); [reflexivity|]. cbn in H2. lia. }
    exists cts, b, c, rs, t', r'. auto.
Qed.

(** ** C10: what the hash inputs determine *)
Lemma byte_of_N_mod_to n : Byte.to_N (byte_of_N_mod n) = (n mod 256)%N.
Proof.
  unfold byte_of_N_mod. destruct (Byte.of_N (n mod 256)) as [b|] eqn:Hb; [apply Byte.to_of_N; exact Hb|].
  apply Byte.of_N_None_iff in Hb. pose proof (N.mod_lt n 256). lia.
Qed.

Lemma byte_of_N_mod_inj n m : byte_of_N_mod n = byte_of_N_mod m -> (n mod 256 = m mod 256)%N.
Proof. intros H. rewrite <- !byte_of_N_mod_to, H. reflexivity. Qed.

Lemma le_bytes_inj k n m : (n < 256 ^ N.of_nat k)%N -> (m < 256 ^ N.of_nat k)%N -> le_bytes k n = le_bytes k m -> n = m.
Proof.
  revert n m; induction k as [|k IH]; intros n m Hn Hm H; [cbn in *; lia|].
  rewrite Nat2N.inj_succ, N.pow_succ_r' in Hn, Hm. cbn [le_bytes] in H. injection H as H0 H.
  apply IH in H; [|apply N.div_lt_upper_bound; lia..].
  apply byte_of_N_mod_inj in H0. rewrite (N.div_mod n 256), (N.div_mod m 256) by lia. lia.
Qed.

Lemma ring_query_inj t (K : PublicKey E) (ct : Ciphertext E) i rt j (X : element * element) t' (K' : PublicKey E) (ct' : Ciphertext E) i' rt' j' (X' : element * element) q :
  (N.of_nat i < u64_lim)%N -> (N.of_nat i' < u64_lim)%N -> (N.of_nat j < u64_lim)%N -> (N.of_nat j' < u64_lim)%N ->
  ring_local (ring_context t K) ct i rt -> ring_query rt j X q ->
  ring_local (ring_context t' K') ct' i' rt' -> ring_query rt' j' X' q ->
  t = t' /\ pk_bytes K = pk_bytes K' /\ ct = ct' /\ i = i' /\ j = j' /\ X = X'.
Proof.
  intros Hi Hi' Hj Hj' (rb & bb & Hrb & Hbb & ->) (b0 & b1 & Hb0 & Hb1 & ->)
    (rb' & bb' & Hrb' & Hbb' & ->) (b0' & b1' & Hb0' & Hb1' & H).
  unfold ring_context in H. rewrite <- !app_assoc in H. cbn [app] in H.
  apply app_inv_tail_len in H; [|reflexivity]. destruct H as [Ht H].
  assert (HK : pk_bytes K = pk_bytes K') by congruence. assert (Henc : rb ++ bb = rb' ++ bb') by congruence.
  assert (Hii : u64_le_bytes (N.of_nat i) = u64_le_bytes (N.of_nat i')) by congruence.
  assert (Hjj : u64_le_bytes (N.of_nat j) = u64_le_bytes (N.of_nat j')) by congruence.
  assert (H0 : b0 = b0') by congruence. assert (H1 : b1 = b1') by congruence. subst b0' b1'.
  assert (Hlen : List.length rb = List.length rb').
  { rewrite (proj1 (ser_element_ok E L _ _ Hrb)), (proj1 (ser_element_ok E L _ _ Hrb')). reflexivity. }
  assert (Hrr : rb = rb' /\ bb = bb').
  { clear - Henc Hlen. revert rb' Henc Hlen. induction rb as [|x rb IH]; intros [|y rb'] H Hl; try discriminate; [auto|].
    cbn in H. injection H as -> H. destruct (IH rb' H) as [-> ->]; [cbn in Hl; lia|]. auto. }
  destruct Hrr as [-> ->]. unfold u64_le_bytes in *.
  apply le_bytes_inj in Hii; [|exact Hi|exact Hi']. apply le_bytes_inj in Hjj; [|exact Hj|exact Hj'].
  split; [exact Ht|]. split; [exact HK|]. split; [|split; [lia|split; [lia|]]].
  - destruct ct, ct'. cbn in *. f_equal; eapply (ser_element_inj L); eassumption.
  - destruct X, X'. cbn in *. f_equal; eapply (ser_element_inj L); eassumption.
Qed.

Lemma ring_items_inj Ts Ts' : ring_items Ts = ring_items Ts' -> Ts = Ts'.
Proof.
  revert Ts'; induction Ts as [|[a b] Ts IH]; intros [|[a' b'] Ts'] H; try discriminate; [reflexivity|].
  cbn in H. injection H as -> -> H. f_equal. apply IH. exact H.
Qed.

Lemma ring_common_inj t (K : PublicKey E) Ts t' (K' : PublicKey E) Ts' q :
  ring_common (E:=E) (ring_context t K) Ts q -> ring_common (ring_context t' K') Ts' q ->
  t = t' /\ pk_bytes K = pk_bytes K' /\ Ts = Ts'.
Proof.
  intros (m & Hm & ->) (m' & Hm' & H). unfold ring_context in H.
  assert (Hlab : forall Ts msgs, absorbed (ring_items Ts) msgs -> Forall (fun ev => exists l b, ev = TMsg l b /\ (l <> "K")) msgs).
  { intros Ts0 msgs Ha. apply (absorbed_labels E _ _ (fun l => l <> "K") Ha).
    clear. induction Ts0; cbn; repeat constructor; cbn; try discriminate; assumption. }
  assert (Heq : (t ++ [TMsg "dom-sep" (str_bytes "multi_ring_enc")]) ++ TMsg "K" (pk_bytes K) :: m =
                (t' ++ [TMsg "dom-sep" (str_bytes "multi_ring_enc")]) ++ TMsg "K" (pk_bytes K') :: m').
  { rewrite <- !app_assoc in H |- *. exact H. }
  apply (suffix_split (fun ev => exists l b, ev = TMsg l b /\ l <> "K")) in Heq.
  - destruct Heq as (H1 & H2 & ->). apply app_inj_tail in H1 as [-> _]. injection H2 as ->.
    split; [reflexivity|]. split; [reflexivity|]. apply ring_items_inj. apply (absorbed_inj E L _ _ _ Hm Hm').
  - apply (Hlab _ _ Hm).
  - apply (Hlab _ _ Hm').
  - intros (l & b & H0 & H1). injection H0 as <- _. apply H1. reflexivity.
  - intros (l & b & H0 & H1). injection H0 as <- _. apply H1. reflexivity.
Qed.

Lemma ring_verify_query (p : RingProof E) (K : PublicKey E) vals cts t res tf :
  RingProof_verify p K vals cts t = Ret (res, tf) -> List.length (rp_responses p) = list_sum (map (@List.length element) vals) ->
  exists rss Ts q, rp_responses p = List.concat rss /\ map (@List.length scalar) rss = map (@List.length element) vals /\
    rings_closed (ring_context t K) (pk_element K) (rp_challenge p) 0 vals cts rss Ts /\
    ring_common (ring_context t K) Ts q /\ tf = q ++ [TChal "c"].
Proof.
  intros H Hl. apply ring_verify_iff in H as (rss & Ts & q & H1 & H2 & H3 & H4 & _ & H5); [|exact Hl].
  exists rss, Ts, q. auto.
Qed.

Lemma rings_closed_length t0 K c : forall vals cts rss Ts i,
  map (@List.length scalar) rss = map (@List.length element) vals ->
  rings_closed (E:=E) t0 K c i vals cts rss Ts -> List.length Ts = Nat.min (List.length vals) (List.length cts).
Proof.
  induction vals as [|v vals IH]; intros cts rss Ts i Hl H; [cbn in H; subst; reflexivity|].
  destruct cts as [|ct cts]; [cbn in H; subst; reflexivity|]. destruct rss as [|rs rss]; [discriminate|].
  destruct Ts as [|T Ts]; [destruct H|]. cbn in *. f_equal. injection Hl as _ Hl. eapply IH; [exact Hl|apply H].
Qed.

Lemma ring_binding (p p' : RingProof E) (K K' : PublicKey E) vals vals' cts cts' t t' res res' tf :
  List.length (rp_responses p) = list_sum (map (@List.length element) vals) ->
  List.length (rp_responses p') = list_sum (map (@List.length element) vals') ->
  RingProof_verify p K vals cts t = Ret (res, tf) ->
  RingProof_verify p' K' vals' cts' t' = Ret (res', tf) ->
  t = t' /\ pk_bytes K = pk_bytes K' /\
  Nat.min (List.length vals) (List.length cts) = Nat.min (List.length vals') (List.length cts') /\
  exists Ts rss rss',
    rp_responses p = List.concat rss /\ rp_responses p' = List.concat rss' /\
    map (@List.length scalar) rss = map (@List.length element) vals /\
    map (@List.length scalar) rss' = map (@List.length element) vals' /\
    rings_closed (ring_context t K) (pk_element K) (rp_challenge p) 0 vals cts rss Ts /\
    rings_closed (ring_context t' K') (pk_element K') (rp_challenge p') 0 vals' cts' rss' Ts.
Proof.
  intros Hl Hl' H H'. apply ring_verify_query in H as (rss & Ts & q & H1 & H2 & H3 & H4 & ->); [|exact Hl].
  apply ring_verify_query in H' as (rss' & Ts' & q' & H1' & H2' & H3' & H4' & Hq); [|exact Hl'].
  apply app_inj_tail in Hq as [<- _]. destruct (ring_common_inj _ _ _ _ _ _ _ H4 H4') as (-> & HK & <-).
  split; [reflexivity|]. split; [exact HK|].
  split; [rewrite <- (rings_closed_length _ _ _ _ _ _ _ _ H2 H3); apply (rings_closed_length _ _ _ _ _ _ _ _ H2' H3')|].
  exists Ts, rss, rss'. auto 10.
Qed.

(** ** Boolean encryption *)
Lemma encrypt_bool_run (pk : PublicKey E) (v : bool) r :
  encrypt_bool pk v r =
  ('(cts, b) <- ring_run (RingProofBuilder_new pk (repeat s_default 2) (transcript_new "bool_encryption") r)
                  [RAdd [identity; generator] (if v then 1 else 0)%nat] ;;
   '(c, responses, _, r) <- RingProofBuilder_build b ;;
   match cts with ct :: _ => Ret (ct, {| rp_challenge := c; rp_responses := responses |}, r) | [] => Panic PIndex end).
Proof.
  unfold encrypt_bool. cbn [ring_run]. destruct (RingProofBuilder_add_value _ _ _) as [[ext b]|]; [|reflexivity].
  cbn [bind]. destruct (RingProofBuilder_build b) as [[[[c rs] t'] r']|]; reflexivity.
Qed.

Lemma encrypt_bool_complete sk (pk : PublicKey E) v r ct p r' :
  key_of sk pk -> encrypt_bool pk v r = Ret (ct, p, r') ->
  decrypt_to_element sk ct = (if v then generator else identity) /\
  List.length (rp_responses p) = 2%nat /\ verify_bool pk ct p = Ret (Ok tt).
Proof.
  intros Hk H. rewrite encrypt_bool_run in H.
  destruct (ring_run _ _) as [[cts b]|] eqn:Hrun; [|discriminate]. cbn [bind] in H.
  destruct (RingProofBuilder_build b) as [[[[c rs] t'] r1]|] eqn:Hbuild; [|discriminate]. cbn [bind] in H.
  assert (Hok : Forall (op_ok pk) [RAdd [identity; generator] (if v then 1%nat else 0%nat)]) by (repeat constructor).
  destruct (ring_complete pk (repeat s_default 2) _ _ _ _ _ _ _ _ _ Hok eq_refl Hrun Hbuild) as [Hv Henc].
  inversion Henc as [|o ct' ? cts' (A & x & HA & He) Hrest]; subst. inversion Hrest; subst.
  injection H as <- <- _. split; [|split].
  - rewrite (encrypts_decrypt E L sk pk ct' A x Hk He). destruct v; cbn in HA; congruence.
  - cbn. apply ring_verify_ok_iff in Hv as (rss & Ts & q & H1 & H2 & _). cbn in H1, H2. rewrite H1, concat_length_sum, H2. reflexivity.
  - unfold verify_bool. cbn [map op_values] in Hv. rewrite Hv. reflexivity.
Qed.

Lemma encrypt_bool_total (pk : PublicKey E) v r : ser_total E -> exists ct p r', encrypt_bool pk v r = Ret (ct, p, r').
Proof.
  intros Ht. rewrite encrypt_bool_run.
  destruct (ring_prover_total pk (repeat s_default 2) (transcript_new "bool_encryption") r
    [RAdd [identity; generator] (if v then 1 else 0)%nat] Ht) as (cts & b & c & rs & t' & r' & Hrun & Hb).
  - repeat constructor.
  - constructor; [cbn; destruct v; lia|constructor].
  - reflexivity.
  - intros _. repeat constructor.
  - rewrite Hrun. cbn [bind]. rewrite Hb. cbn [bind]. destruct cts as [|ct cts]; [|eauto].
    cbn [ring_run] in Hrun. inv_bind Hrun. destruct a. discriminate.
Qed.

Lemma verify_bool_len (pk : PublicKey E) ct p : List.length (rp_responses p) <> 2%nat ->
  verify_bool pk ct p = Ret (Err (LenMismatch "items in all rings" (List.length (rp_responses p)) 2)).
Proof. intros H. unfold verify_bool. rewrite ring_verify_len by exact H. reflexivity. Qed.

Lemma verify_bool_total (pk : PublicKey E) ct p : ser_total E -> exists res, verify_bool pk ct p = Ret res.
Proof.
  intros Ht. unfold verify_bool. match goal with |- context [RingProof_verify ?a ?b ?c ?d ?e] =>
    destruct (ring_verify_total a b c d e Ht) as (res & t' & ->) end. cbn. eauto.
Qed.

Lemma verify_bool_sound sk (pk : PublicKey E) (ct : Ciphertext E) p :
  key_of sk pk -> verify_bool pk ct p = Ret (Ok tt) ->
  decrypt_to_element sk ct <> identity -> decrypt_to_element sk ct <> generator ->
  let t0 := ring_context [TMsg "dom-sep" (str_bytes "bool_encryption")] pk in
  exists rt X0 X1 q1 q,
    ring_local t0 ct 0 rt /\ ring_query rt 0 X0 q1 /\ ring_common t0 [X1] q /\
    (exists s, le_answers (pk_element pk) (random_element ct) (blinded_element ct) (fst X0) (snd X0) (oracle q "c") s) /\
    (exists s, le_answers (pk_element pk) (random_element ct) (blinded_element ct - generator)%E (fst X1) (snd X1) (oracle q1 "c") s) /\
    (forall c s, le_answers (pk_element pk) (random_element ct) (blinded_element ct) (fst X0) (snd X0) c s -> oracle q "c" = c) /\
    (forall c s, le_answers (pk_element pk) (random_element ct) (blinded_element ct - generator)%E (fst X1) (snd X1) c s -> oracle q1 "c" = c).
Proof.
  intros Hk H Hn0 Hn1 t0. unfold verify_bool in H.
  destruct (RingProof_verify _ _ _ _ _) as [[res t']|] eqn:Hv; [|discriminate]. cbn in H. injection H as ->.
  pose proof Hv as Hv'. apply ring_verify_ok_iff in Hv' as (rss & Ts0 & q0 & Hr & Hl & Hcl & Hq0 & Ho & Ht').
  destruct rss as [|[|s0 [|s1 [|]]] [|]]; try discriminate. destruct Ts0 as [|T [|? ?]]; try (destruct Hcl; fail).
  2: { destruct Hcl as [_ Hcl]. discriminate. }
  destruct Hcl as [(rt & Hrt & Hc) _]. cbn [combine ring_closed ring_from] in Hc. destruct Hc as (q1 & Hq1 & ->).
  exists rt. eexists _, _, q1, q0. split; [exact Hrt|]. split; [exact Hq1|]. split; [exact Hq0|]. split.
  { exists s0. rewrite Ho. replace (blinded_element ct) with (blinded_element ct - identity)%E by el_ring L. apply ring_commitments_answer. }
  split; [exists s1; apply ring_commitments_answer|]. split.
  - intros c s Ha. rewrite Ho.
    eapply (le_unique_challenge E L (pk_element pk) (random_element ct) (blinded_element ct - identity)%E); [| |].
    + intros Hs. apply Hn0. apply (same_log_value sk pk ct identity Hk). exact Hs.
    + apply ring_commitments_answer.
    + replace (blinded_element ct - identity)%E with (blinded_element ct) by el_ring L. exact Ha.
  - intros c s Ha. eapply (le_unique_challenge E L (pk_element pk) (random_element ct) (blinded_element ct - generator)%E); [| |exact Ha].
    + intros Hs. apply Hn1. apply (same_log_value sk pk ct generator Hk). exact Hs.
    + apply ring_commitments_answer.
Qed.

End Proofs.
