(** * From accepted proofs of false statements to hits: lemmas for C57, C58 *)
From Coq Require Import List String NArith ZArith Field Arith Lia Bool.
From Verif.Model Require Import Base Group Transcript Keys Encryption LogEquality Ring Range Mul Sharing Choice Quadratic.
From Verif.Spec Require Import Encryption LogEquality Sigma Ring Range Choice Quadratic Domains Rom Verifiers.
From Verif.Proofs Require Import Algebra Lists Encryption LogEquality Commitment SumOfSquares Ring RangeProof Rom Verifiers.
Import ListNotations.
Open Scope string_scope.
Open Scope list_scope.
Open Scope nat_scope.

(** ** strategies *)
Section Last.
Context (G : Group) (L : GroupLaws G).
Local Notation scalar := (Scalar G).

(** the last query of a set that is asked *)
Lemma hits_last (bad : list query -> query -> scalar -> Prop) {A : Type} D (o : hash (Scalar G)) (X : list query)
    (Hincl : forall y, In y X -> In y D)
    (Hbad : forall x h, In x X -> ~ In x h -> (forall y, In y X -> y <> x -> In y h) -> bad h x (answer o x)) :
  forall (T : strategy (Scalar G) A) h,
  (forall y, In y X -> In y h \/ In y (asked o T)) -> (exists y, In y X /\ ~ In y h) ->
  hits (Scalar G) bad D o h T.
Proof.
  induction T as [a|x k IH]; intros h Hall (y & Hy & Hn).
  - destruct (Hall y Hy) as [H|[]]. contradiction.
  - cbn [hits].
    destruct (in_dec query_eq_dec x h) as [Hxh|Hxh].
    + right. apply IH; [|eauto]. intros z Hz. destruct (Hall z Hz) as [H|[<-|H]]; auto.
    + destruct (in_dec query_eq_dec x X) as [HxX|HxX].
      * destruct (Exists_dec (fun z => z <> x /\ ~ In z h) X) as [He|He].
        { intros z. destruct (query_eq_dec z x) as [->|Hne]; [right; tauto|].
          destruct (in_dec query_eq_dec z h); [right; tauto|left; auto]. }
        -- apply Exists_exists in He as (z & Hz & Hzx & Hzh). right. apply IH.
           ++ intros w Hw. destruct (Hall w Hw) as [H|[<-|H]]; cbn; auto.
           ++ exists z. split; [exact Hz|]. intros [H|H]; congruence.
        -- left. split; [apply Hincl; exact HxX|]. split; [exact Hxh|]. apply Hbad; [exact HxX|exact Hxh|].
           intros z Hz Hzx. destruct (in_dec query_eq_dec z h) as [H|H]; [exact H|]. exfalso. apply He.
           apply Exists_exists. eauto.
      * right. apply IH.
        -- intros w Hw. destruct (Hall w Hw) as [H|[<-|H]]; cbn; auto.
        -- exists y. split; [exact Hy|]. intros [H|H]; [congruence|contradiction].
Qed.

(** pigeonhole: a relation that determines its second argument *)
Lemma functional_count {A B : Type} (R : A -> B -> Prop) :
  (forall a b b', R a b -> R a b' -> b = b') ->
  forall (bs : list B) (l : list A), NoDup bs -> Forall (fun b => exists a, In a l /\ R a b) bs -> List.length bs <= List.length l.
Proof.
  intros HR bs. induction bs as [|b bs IH]; intros l Hnd Hall; [cbn; lia|].
  inversion Hnd as [|? ? Hb Hnd']; subst. inversion Hall as [|? ? (a & Ha & Hab) Hall']; subst.
  apply in_split in Ha as (l1 & l2 & ->). rewrite app_length. cbn [List.length].
  assert (H : List.length bs <= List.length (l1 ++ l2)); [|rewrite app_length in H; lia].
  apply IH; [exact Hnd'|]. rewrite Forall_forall in *. intros b' Hb'. destruct (Hall' b' Hb') as (a' & Ha' & Hab').
  exists a'. split; [|exact Hab']. apply in_app_iff in Ha' as [H|[<-|H]]; [apply in_app_iff; auto| |apply in_app_iff; auto].
  rewrite (HR a b b' Hab Hab') in Hb. contradiction.
Qed.

Lemma total_id n : (2 * total (fun k => k) 0 n = n * (n - 1))%nat.
Proof.
  unfold total. cbn. induction n as [|n IH]; [reflexivity|]. rewrite seq_S, map_app, list_sum_app. cbn [map list_sum fold_right].
  replace (n * (n - 1)) with (n * n - n) in IH by nia. nia.
Qed.

Lemma total_succ n : (2 * total S 0 n = n * (n + 1))%nat.
Proof.
  unfold total. cbn. induction n as [|n IH]; [reflexivity|]. rewrite seq_S, map_app, list_sum_app. cbn [map list_sum fold_right]. nia.
Qed.

Lemma total_one n : total (fun _ => 1) 0 n = n.
Proof. unfold total. induction n as [|n IH]; [reflexivity|]. rewrite seq_S, map_app, list_sum_app. cbn [map list_sum fold_right]. lia. Qed.

End Last.

Section Asked.
Context (E : Env) (o : hash (Scalar E)).
Local Notation algorithm A := (strategy (Scalar E) (outcome A)).

Lemma asked_after1 {A B : Type} (T : algorithm A) (f : A -> algorithm B) x : In x (asked o T) -> In x (asked o (after T f)).
Proof. intros H. unfold after. rewrite asked_andthen. apply in_app_iff. auto. Qed.

Lemma asked_after2 {A B : Type} (T : algorithm A) (f : A -> algorithm B) a x :
  run o T = Ret a -> In x (asked o (f a)) -> In x (asked o (after T f)).
Proof. intros Hr H. unfold after. rewrite asked_andthen, Hr. apply in_app_iff. auto. Qed.

Lemma run_after_inv {A B : Type} (T : algorithm A) (f : A -> algorithm B) b :
  run o (after T f) = Ret b -> exists a, run o T = Ret a /\ run o (f a) = Ret b.
Proof. rewrite run_after. destruct (run o T) as [a|]; cbn; [eauto|discriminate]. Qed.

(** the final transcript of a one-query verifier tells the query *)
Lemma log_equality_asked (p : LogEqualityProof E) K powers t r q :
  run o (log_equality_verifier p K powers t) = Ret (r, q ++ [TChal "c"]) ->
  In (q, "c") (asked o (log_equality_verifier p K powers t)).
Proof.
  unfold log_equality_verifier. cbv zeta.
  do 5 (match goal with |- context [doing ?m _] => destruct m as [?|?]; cbn [doing]; [|discriminate] end).
  cbn. intros H. injection H as _ H. apply app_inj_tail in H as [-> _]. left. reflexivity.
Qed.

Lemma sum_of_squares_asked p cs z K t r q :
  run o (sum_of_squares_verifier p cs z K t) = Ret (Ok r, q ++ [TChal "c"]) ->
  In (q, "c") (asked o (sum_of_squares_verifier (E:=E) p cs z K t)).
Proof.
  unfold sum_of_squares_verifier. destruct (check_lengths _ _ _); [|discriminate]. cbv zeta.
  do 7 (match goal with |- context [doing ?m _] => destruct m as [?|?]; cbn [doing]; [|discriminate] end).
  cbn. intros H. injection H as _ H. apply app_inj_tail in H as [-> _]. left. reflexivity.
Qed.

End Asked.

(** ** queries made for a ring *)
Section Trace.
Context (E : Env) (L : GroupLaws E) (o : hash (Scalar E)).
Add Field s_field_trace : (s_field L).
Local Notation H := (hashed_by E o).
Local Notation element := (Element E).
Local Notation scalar := (Scalar E).

Fixpoint ring_trace (rt : transcript) (K : element) (ct : Ciphertext E) (j : nat) (X : element * element)
    (eqs : list (element * scalar)) (T : element * element) (qs : list transcript) : Prop :=
  match eqs, qs with
  | [], [] => T = X
  | (A, s) :: rest, q :: qs' =>
      ring_query rt j X q /\ ring_trace rt K ct (S j) (ring_commitments K ct A (o q "c") s) rest T qs'
  | _, _ => False
  end.

Lemma ring_hash_input_iff rt j X q : ring_hash_input (E:=E) rt j X = Ret q <-> ring_query rt j X q.
Proof.
  unfold ring_hash_input, ring_query, append_u64, append_element, append_message. split.
  - intros Hi. inv_bind Hi. inv_bind Hm. injection Hm as <-. inv_bind Hi. injection Hi as <-.
    eexists _, _. split; [exact Hm0|]. split; [exact Hm|]. rewrite <- !app_assoc. reflexivity.
  - intros (b0 & b1 & -> & Hb & ->). cbn [bind]. rewrite Hb. cbn [bind]. rewrite <- !app_assoc. reflexivity.
Qed.

Lemma loop_trace rt K ct len eqs : forall j c X0 A s T,
  (S j + List.length eqs = len)%nat ->
  run o (ring_loop_verifier rt K ct len j ((A, s) :: eqs) c X0) = Ret T ->
  exists qs, ring_trace rt K ct j (ring_commitments K ct A c s) eqs T qs /\
    forall q, In q qs -> In (q, "c") (asked o (ring_loop_verifier rt K ct len j ((A, s) :: eqs) c X0)).
Proof.
  assert (Hstep : forall j c X0 A s items, ring_loop_verifier (E:=E) rt K ct len j ((A, s) :: items) c X0 =
    (if (j + 1 <? len)%nat then
       doing (ring_hash_input rt j (ring_commitments K ct A c s)) (fun q =>
       asking q (fun c' => ring_loop_verifier rt K ct len (S j) items c' (ring_commitments K ct A c s)))
     else ring_loop_verifier rt K ct len (S j) items c (ring_commitments K ct A c s))).
  { intros. cbn [ring_loop_verifier]. rewrite (vartime_multi_mul_ok E L) by reflexivity. cbn [doing lin_comb].
    rewrite (le_commit0 E L). unfold ring_commitments.
    replace (K * s + ((blinded_element ct - A) * - c + identity))%E
      with (K * s - (blinded_element ct - A) * c)%E by el_ring L. reflexivity. }
  induction eqs as [|[A' s'] eqs IH]; intros j c X0 A s T Hlen.
  - rewrite Hstep. cbn in Hlen. replace (j + 1 <? len)%nat with false by (symmetry; apply Nat.ltb_ge; lia).
    cbn. intros Hr. injection Hr as <-. exists []. split; [reflexivity|]. intros q [].
  - rewrite Hstep. cbn in Hlen. replace (j + 1 <? len)%nat with true by (symmetry; apply Nat.ltb_lt; lia).
    destruct (ring_hash_input rt j (ring_commitments K ct A c s)) as [q|] eqn:Hq; [|discriminate]. cbn [doing asking run asked].
    intros Hr. apply IH in Hr as (qs & Ht & Ha); [|cbn; lia]. exists (q :: qs). split.
    + cbn [ring_trace]. split; [apply ring_hash_input_iff; exact Hq|]. exact Ht.
    + intros q' [<-|Hin]; [left; reflexivity|right; apply Ha; exact Hin].
Qed.

(** everything known about ring [k] of an accepted proof with common challenge [c] *)
Definition ring_done (t0 : transcript) (K : element) (c : scalar) (k : nat) (vs : list element) (ct : Ciphertext E)
    (T : element * element) (asked : list query) : Prop :=
  exists rt A s vs' rs qs, vs = A :: vs' /\ List.length rs = List.length vs' /\ ring_local t0 ct k rt /\
    ring_trace rt K ct 0 (ring_commitments K ct A c s) (combine vs' rs) T qs /\ forall q, In q qs -> In (q, "c") asked.

Lemma rings_trace t0 (K : PublicKey E) p it : forall i start t t',
  start + list_sum (map (fun x => List.length (fst x)) it) <= List.length (rp_responses p) ->
  run o (rings_verifier t0 K p i start it t) = Ret t' ->
  exists Ts msgs, t' = t ++ msgs /\ absorbed (E:=E) (flat_map (fun T => [("R_G", fst T); ("R_K", snd T)]) Ts) msgs /\
    forall k vs ct, nth_error it k = Some (vs, ct) -> vs <> [] ->
      exists T, nth_error Ts k = Some T /\
        ring_done t0 (pk_element K) (rp_challenge p) (i + k) vs ct T (asked o (rings_verifier t0 K p i start it t)).
Proof.
  induction it as [|[vs0 c0] it IH]; intros i start t t' Hlen Hrun.
  - cbn in Hrun. injection Hrun as <-. exists [], []. split; [rewrite app_nil_r; reflexivity|]. split; [constructor|].
    intros [|k] vs ct Hk; discriminate.
  - cbn [rings_verifier] in *. cbn [map list_sum fold_right fst] in Hlen. fold (list_sum (map (fun x => List.length (fst x)) it)) in Hlen.
    destruct (ring_init_transcript t0 c0 i) as [rt|] eqn:Hrt; cbn [doing] in *; [|discriminate].
    unfold slice_from in *. destruct (Nat.leb_spec start (List.length (rp_responses p))) as [Hs|Hs]; [|lia]. cbn [doing] in *.
    pose proof Hrun as Hrun'. apply run_after_inv in Hrun' as (T & HT & Hrest).
    destruct (append_element t "R_G" (fst T)) as [t1|] eqn:Ht1; cbn [doing] in Hrest; [|discriminate].
    destruct (append_element t1 "R_K" (snd T)) as [t2|] eqn:Ht2; cbn [doing] in Hrest; [|discriminate].
    pose proof Hrest as Hrest'. apply IH in Hrest' as (Ts & msgs & -> & Ha & Hk); [|lia].
    pose proof Ht1 as Ht1'. pose proof Ht2 as Ht2'. unfold append_element, append_message in Ht1, Ht2. inv_bind Ht1. injection Ht1 as <-. inv_bind Ht2. injection Ht2 as <-.
    exists (T :: Ts). eexists. split; [rewrite <- !app_assoc; cbn [app]; reflexivity|]. split.
    { cbn [flat_map app]. constructor; [cbn; eauto|]. constructor; [cbn; eauto|]. exact Ha. }
    intros [|k] vs ct Hn Hne.
    + cbn in Hn. injection Hn as <- <-. exists T. split; [reflexivity|]. rewrite Nat.add_0_r.
      destruct vs0 as [|A vs']; [congruence|].
      set (tl := skipn start (rp_responses p)) in *.
      assert (Htl : List.length (A :: vs') <= List.length tl) by (unfold tl; rewrite skipn_length; cbn [List.length] in *; lia).
      destruct tl as [|s tl]; [cbn in Htl; lia|]. cbn [combine] in HT.
      assert (Hc : combine vs' tl = combine vs' (firstn (List.length vs') tl)).
      { clear. revert tl. induction vs' as [|a l IH]; intros [|b tl]; cbn; auto. f_equal. apply IH. }
      pose proof HT as HT'. apply loop_trace in HT'.
      2: { rewrite combine_length. cbn [List.length] in *. lia. }
      destruct HT' as (qs & Htr & Hq). rewrite Hc in Htr.
      exists rt, A, s, vs', (firstn (List.length vs') tl), qs. split; [reflexivity|].
      split; [apply firstn_length_le; cbn in Htl; lia|]. split; [apply ring_init_iff; exact Hrt|]. split; [exact Htr|].
      intros q Hin. apply asked_after1. cbn [combine]. apply Hq. exact Hin.
    + destruct (Hk k vs ct Hn Hne) as (T' & HT' & rt' & A & s & vs' & rs & qs & -> & Hl & Hloc & Htr & Hq).
      exists T'. split; [exact HT'|]. replace (i + S k) with (S i + k) by lia.
      exists rt', A, s, vs', rs, qs. do 4 (split; [assumption || reflexivity|]).
      intros q Hin. eapply asked_after2; [exact HT|]. rewrite Ht1'. cbn [doing]. rewrite Ht2'. cbn [doing]. apply Hq. exact Hin.
Qed.


Lemma combine_lengths (vals : list (list element)) (cts : list (Ciphertext E)) :
  list_sum (map (fun x => List.length (fst x)) (combine vals cts)) <= list_sum (map (@List.length element) vals).
Proof. apply (combine_sum E (@List.length element)). Qed.

Lemma nth_combine {A B : Type} (l : list A) (l' : list B) k a b :
  nth_error l k = Some a -> nth_error l' k = Some b -> nth_error (combine l l') k = Some (a, b).
Proof. revert l' k. induction l as [|x l IH]; intros [|y l'] [|k] Ha Hb; cbn in *; try discriminate; [congruence|auto]. Qed.

Lemma ring_verifier_trace p (K : PublicKey E) vals cts t r t' k vs ct :
  run o (ring_verifier p K vals cts t) = Ret (Ok r, t') ->
  nth_error vals k = Some vs -> nth_error cts k = Some ct -> vs <> [] ->
  exists Ts T q, ring_common (E:=E) (ring_context t K) Ts q /\ nth_error Ts k = Some T /\
    In (q, "c") (asked o (ring_verifier p K vals cts t)) /\
    ring_done (ring_context t K) (pk_element K) (o q "c") k vs ct T (asked o (ring_verifier p K vals cts t)).
Proof.
  intros Hrun Hv Hc Hne. unfold ring_verifier in *. unfold check_lengths in *.
  destruct (Nat.eqb_spec (List.length (rp_responses p)) (list_sum (map (@List.length element) vals))) as [Hl|]; [|discriminate].
  cbv zeta in *. apply run_after_inv in Hrun as (q & Hq & Hrun).
  assert (Ht0 : ring_initialize_transcript t K = ring_context t K).
  { unfold ring_initialize_transcript, start_proof, append_element_bytes, append_message, ring_context. rewrite <- app_assoc. reflexivity. }
  rewrite Ht0 in *. cbn [asking run] in Hrun. unfold answer in Hrun. cbn [fst snd] in Hrun.
  destruct (s_eqb (o q "c") (rp_challenge p)) eqn:Hs; [|discriminate].
  apply (s_eqb_ok _ L) in Hs.
  pose proof Hq as Hq'. apply rings_trace in Hq' as (Ts & msgs & -> & Ha & Hall).
  2: { rewrite Hl. apply combine_lengths. }
  destruct (Hall k vs ct (nth_combine _ _ _ _ _ Hv Hc) Hne) as (T & HT & rt & A & s & vs' & rs & qs & H1 & H2 & H3 & H4 & H5).
  exists Ts, T, (ring_context t K ++ msgs). split; [exists msgs; auto|]. split; [exact HT|]. split.
  - eapply asked_after2; [exact Hq|]. left. reflexivity.
  - exists rt, A, s, vs', rs, qs. rewrite Hs. do 4 (split; [assumption|]). intros q Hin. apply asked_after1. apply H5. exact Hin.
Qed.

Lemma trace_length rt K ct : forall eqs qs j X T, ring_trace rt K ct j X eqs T qs -> List.length qs = List.length eqs.
Proof.
  induction eqs as [|[A s] eqs IH]; intros [|q qs] j X T Ht; cbn in *; try reflexivity; try destruct Ht.
  f_equal. eapply IH. eassumption.
Qed.

Lemma trace_nth rt K ct : forall eqs qs j X T l q, ring_trace rt K ct j X eqs T qs -> nth_error qs l = Some q ->
  exists X A s, ring_query (E:=E) rt (j + l) X q /\ nth_error eqs l = Some (A, s) /\
    match nth_error qs (S l) with
    | Some q' => ring_query (E:=E) rt (j + l + 1) (ring_commitments K ct A (o q "c") s) q'
    | None => T = ring_commitments (E:=E) K ct A (o q "c") s
    end.
Proof.
  induction eqs as [|[A s] eqs IH]; intros [|q0 qs] j X T l q Ht Hn; cbn [ring_trace] in Ht; try (destruct l; discriminate); try destruct Ht.
  destruct l as [|l].
  - cbn in Hn. injection Hn as <-. exists X, A, s. rewrite Nat.add_0_r. split; [assumption|]. split; [reflexivity|].
    cbn [nth_error]. destruct eqs as [|[A' s'] eqs]; destruct qs as [|q' qs]; cbn [ring_trace] in *; try contradiction; [assumption|].
    replace (j + 1) with (S j) by lia. tauto.
  - cbn in Hn. match goal with Hr : ring_trace _ _ _ _ _ _ _ _ |- _ => destruct (IH qs (S j) _ T l q Hr Hn) as (X' & A' & s' & H1 & H2 & H3) end.
    exists X', A', s'. replace (j + S l) with (S j + l) by lia. auto.
Qed.

End Trace.

(** ** bad answers *)
Section Bad.
Context (E : Env) (L : GroupLaws E).
Local Notation element := (Element E).
Local Notation scalar := (Scalar E).

Definition le_bad (x : query) (c : scalar) : Prop :=
  exists t K P0 P1 X0 X1 s, genuine K /\ le_hashed (E:=E) t K P0 P1 X0 X1 (fst x) /\
    ~ same_log (E:=E) (pk_element K) P0 P1 /\ le_answers (E:=E) (pk_element K) P0 P1 X0 X1 c s.

Definition sq_bad (x : query) (c : scalar) : Prop :=
  exists t K cs z As Z rs sz, genuine K /\ sq_hashed (E:=E) t K cs z As Z (fst x) /\
    (forall xs, ~ sq_statement K cs z xs) /\ sq_answers (E:=E) (pk_element K) cs z As Z c rs sz.

Lemma genuine_eq (K K' : PublicKey E) : genuine K -> genuine K' -> pk_bytes K = pk_bytes K' -> K = K'.
Proof. unfold genuine. destruct K, K'. cbn. intros H H' ->. rewrite H in H'. injection H' as ->. reflexivity. Qed.

Lemma le_bad_fun x c c' : le_bad x c -> le_bad x c' -> c = c'.
Proof.
  intros (t & K & P0 & P1 & X0 & X1 & s & HK & Hh & Hn & Ha) (t' & K' & P0' & P1' & X0' & X1' & s' & HK' & Hh' & Hn' & Ha').
  destruct (le_hashed_inj E L _ _ _ _ _ _ _ _ _ _ _ _ _ Hh Hh') as (_ & Hb & <- & <- & <- & <-).
  rewrite <- (genuine_eq K K' HK HK' Hb) in Ha'. exact (le_unique_challenge E L _ _ _ _ _ _ _ _ _ Hn Ha Ha').
Qed.

Lemma sq_bad_fun x c c' : sq_bad x c -> sq_bad x c' -> c = c'.
Proof.
  intros (t & K & cs & z & As & Z & rs & sz & HK & Hh & Hn & Ha) (t' & K' & cs' & z' & As' & Z' & rs' & sz' & HK' & Hh' & Hn' & Ha').
  destruct (sq_hashed_inj E L _ _ _ _ _ _ _ _ _ _ _ _ _ (sq_answers_length E _ _ _ _ _ _ _ _ Ha) (sq_answers_length E _ _ _ _ _ _ _ _ Ha') Hh Hh')
    as (_ & Hb & <- & <- & <- & <-).
  rewrite <- (genuine_eq K K' HK HK' Hb) in Ha'. exact (sq_unique_challenge E L _ _ _ _ _ _ _ _ _ _ _ Hn Ha Ha').
Qed.

Lemma le_sq_exclusive x c c' : le_bad x c -> sq_bad x c' -> False.
Proof.
  intros (t & K & P0 & P1 & X0 & X1 & s & _ & (p0 & p1 & x0 & x1 & _ & _ & _ & _ & Hh) & _) (t' & K' & cs & z & As & Z & rs & sz & _ & (msgs & Hm & Hh') & _).
  unfold le_query in Hh. unfold sq_items in Hm. apply Forall2_app_inv_l in Hm as (m1 & m2 & _ & Hm2 & ->).
  inversion Hm2 as [|? e1 ? l1 _ Hm3]; subst. inversion Hm3 as [|? e2 ? l2 _ Hm4]; subst. inversion Hm4 as [|? e3 ? l3 _ Hm5]; subst.
  inversion Hm5 as [|? e4 ? l4 (b & _ & He) Hm6]; subst. inversion Hm6; subst. cbn [fst snd] in *.
  rewrite Hh in Hh'.
  replace (t' ++ [TMsg "dom-sep" (str_bytes "sum_of_squares"); TMsg "K" (pk_bytes K')] ++ m1 ++ [e1; e2; e3; TMsg "[e_x]X + [e_z]K" b])
    with ((t' ++ [TMsg "dom-sep" (str_bytes "sum_of_squares"); TMsg "K" (pk_bytes K')] ++ m1 ++ [e1; e2; e3]) ++ [TMsg "[e_x]X + [e_z]K" b]) in Hh'
    by (rewrite <- !app_assoc; reflexivity).
  replace (t ++ [TMsg "dom-sep" (str_bytes "log_eq"); TMsg "K" (pk_bytes K); TMsg "[r]G" p0; TMsg "[r]K" p1; TMsg "[x]G" x0; TMsg "[x]K" x1])
    with ((t ++ [TMsg "dom-sep" (str_bytes "log_eq"); TMsg "K" (pk_bytes K); TMsg "[r]G" p0; TMsg "[r]K" p1; TMsg "[x]G" x0]) ++ [TMsg "[x]K" x1]) in Hh'
    by (rewrite <- !app_assoc; reflexivity).
  apply app_inj_tail in Hh' as [_ Hh']. discriminate.
Qed.

(** The admissible values of the [i]-th ring are determined by the context of the proof. *)
Context (vals_of : transcript -> nat -> list element -> Prop).
Context (vals_fun : forall t i vs vs', vals_of t i vs -> vals_of t i vs' -> vs = vs').
Context (vals_bound : forall t i vs, vals_of t i vs ->
  (N.of_nat i < u64_lim)%N /\ (N.of_nat (List.length vs) < u64_lim)%N /\ 2 <= List.length vs).

(** the commitments [X] of a false equation can be answered for the challenge [c] *)
Definition false_answer (K : element) (ct : Ciphertext E) (A : element) (X : element * element) (c : scalar) : Prop :=
  ~ same_log (E:=E) K (random_element ct) (blinded_element ct - A)%E /\
  exists s, le_answers (E:=E) K (random_element ct) (blinded_element ct - A)%E (fst X) (snd X) c s.

Lemma false_answer_fun K ct A X c c' : false_answer K ct A X c -> false_answer K ct A X c' -> c = c'.
Proof. intros [Hn [s Ha]] [_ [s' Ha']]. exact (le_unique_challenge E L _ _ _ _ _ _ _ _ _ Hn Ha Ha'). Qed.

(** [y] contains the commitments of a false equation whose challenge is [c] *)
Definition ring_bad1 (y : query) (c : scalar) : Prop :=
  exists t K ct i rt j X vs A, genuine K /\ vals_of t i vs /\ nth_error vs j = Some A /\
    ring_local (E:=E) (ring_context t K) ct i rt /\ ring_query (E:=E) rt j X (fst y) /\ false_answer (pk_element K) ct A X c.

(** [y] contains the terminal commitments of the ring whose last query is [x] *)
Definition ring_bad2 (y x : query) (c : scalar) : Prop :=
  exists t K ct i rt j X vs A Ts T, genuine K /\ vals_of t i vs /\ nth_error vs (S j) = Some A /\
    ring_local (E:=E) (ring_context t K) ct i rt /\ ring_query (E:=E) rt j X (fst x) /\
    ring_common (E:=E) (ring_context t K) Ts (fst y) /\ nth_error Ts i = Some T /\ false_answer (pk_element K) ct A T c.

Definition ring_bad (y x : query) (c : scalar) : Prop := ring_bad1 y c \/ ring_bad2 y x c.

Lemma nth_bound t i vs j A : vals_of t i vs -> nth_error vs j = Some A -> (N.of_nat i < u64_lim)%N /\ (N.of_nat j < u64_lim)%N.
Proof.
  intros Hv Hn. destruct (vals_bound _ _ _ Hv) as (H1 & H2 & _). split; [exact H1|].
  assert (j < List.length vs) by (apply nth_error_Some; congruence). lia.
Qed.

Lemma ring_shape t (K : PublicKey E) ct i rt j X t' (K' : PublicKey E) Ts T k q :
  ring_local (E:=E) (ring_context t K) ct i rt -> ring_query (E:=E) rt j X q ->
  ring_common (E:=E) (ring_context t' K') Ts q -> nth_error Ts k = Some T -> False.
Proof.
  intros _ (b0 & b1 & _ & _ & ->) (msgs & Hm & Hq) Hk.
  assert (Hne : Ts <> []) by (intros ->; destruct k; discriminate). clear Hk T k.
  destruct (exists_last Hne) as (Ts' & [T0 T1] & ->). rewrite flat_map_app in Hm. cbn [flat_map app fst snd] in Hm.
  apply Forall2_app_inv_l in Hm as (m1 & m2 & Hm1 & Hm2 & ->).
  inversion Hm2 as [|? e1 ? l1 (c0 & _ & He1) Hm3]; subst. inversion Hm3 as [|? e2 ? l2 (c1 & _ & He2) Hm4]; subst. inversion Hm4; subst.
  cbn [fst snd] in *.
  replace (rt ++ [TMsg "j" (u64_le_bytes (N.of_nat j)); TMsg "R_G" b0; TMsg "R_K" b1])
    with (((rt ++ [TMsg "j" (u64_le_bytes (N.of_nat j))]) ++ [TMsg "R_G" b0]) ++ [TMsg "R_K" b1]) in Hq by (rewrite <- !app_assoc; reflexivity).
  replace (ring_context t' K' ++ m1 ++ [TMsg "R_G" c0; TMsg "R_K" c1])
    with (((ring_context t' K' ++ m1) ++ [TMsg "R_G" c0]) ++ [TMsg "R_K" c1]) in Hq by (rewrite <- !app_assoc; reflexivity).
  apply app_inj_tail in Hq as [Hq _]. apply app_inj_tail in Hq as [Hq _].
  destruct Ts' as [|Ta Ts'] using rev_ind.
  - inversion Hm1; subst. rewrite app_nil_r in Hq. unfold ring_context in Hq.
    replace (t' ++ [TMsg "dom-sep" (str_bytes "multi_ring_enc"); TMsg "K" (pk_bytes K')])
      with ((t' ++ [TMsg "dom-sep" (str_bytes "multi_ring_enc")]) ++ [TMsg "K" (pk_bytes K')]) in Hq by (rewrite <- !app_assoc; reflexivity).
    apply app_inj_tail in Hq as [_ Hq]. discriminate.
  - clear IHTs'. rewrite flat_map_app in Hm1. cbn [flat_map app] in Hm1. apply Forall2_app_inv_l in Hm1 as (n1 & n2 & _ & Hn2 & ->).
    inversion Hn2 as [|? e1 ? l1 _ Hn3]; subst. inversion Hn3 as [|? e2 ? l2 (d & _ & He) Hn4]; subst. inversion Hn4; subst. cbn [fst snd] in *.
    replace (ring_context t' K' ++ n1 ++ [e1; TMsg "R_K" d]) with ((ring_context t' K' ++ n1 ++ [e1]) ++ [TMsg "R_K" d]) in Hq by (rewrite <- !app_assoc; reflexivity).
    apply app_inj_tail in Hq as [_ Hq]. discriminate.
Qed.

Lemma ring_bad_fun y x c c' : ring_bad y x c -> ring_bad y x c' -> c = c'.
Proof.
  intros [(t & K & ct & i & rt & j & X & vs & A & HK & Hv & Hn & Hl & Hq & Hf)|
          (t & K & ct & i & rt & j & X & vs & A & Ts & T & HK & Hv & Hn & Hl & Hq & Hc & HT & Hf)]
         [(t' & K' & ct' & i' & rt' & j' & X' & vs' & A' & HK' & Hv' & Hn' & Hl' & Hq' & Hf')|
          (t' & K' & ct' & i' & rt' & j' & X' & vs' & A' & Ts' & T' & HK' & Hv' & Hn' & Hl' & Hq' & Hc' & HT' & Hf')].
  - destruct (nth_bound _ _ _ _ _ Hv Hn) as [B1 B2]. destruct (nth_bound _ _ _ _ _ Hv' Hn') as [B1' B2'].
    destruct (ring_query_inj E L _ _ _ _ _ _ _ _ _ _ _ _ _ _ _ B1 B1' B2 B2' Hl Hq Hl' Hq') as (<- & Hb & <- & <- & <- & <-).
    rewrite <- (genuine_eq K K' HK HK' Hb) in Hf'. rewrite <- (vals_fun _ _ _ _ Hv Hv') in Hn'.
    assert (A = A') by congruence. subst A'. exact (false_answer_fun _ _ _ _ _ _ Hf Hf').
  - destruct (ring_shape _ _ _ _ _ _ _ _ _ _ _ _ _ Hl Hq Hc' HT').
  - destruct (ring_shape _ _ _ _ _ _ _ _ _ _ _ _ _ Hl' Hq' Hc HT).
  - destruct (nth_bound _ _ _ _ _ Hv Hn) as [B1 B2]. destruct (nth_bound _ _ _ _ _ Hv' Hn') as [B1' B2'].
    assert (B3 : (N.of_nat j < u64_lim)%N) by lia. assert (B3' : (N.of_nat j' < u64_lim)%N) by lia.
    destruct (ring_query_inj E L _ _ _ _ _ _ _ _ _ _ _ _ _ _ _ B1 B1' B3 B3' Hl Hq Hl' Hq') as (<- & Hb & <- & <- & <- & <-).
    rewrite <- (genuine_eq K K' HK HK' Hb) in *. rewrite <- (vals_fun _ _ _ _ Hv Hv') in Hn'.
    destruct (ring_common_inj E L _ _ _ _ _ _ _ Hc Hc') as (_ & _ & <-).
    assert (A = A') by congruence. assert (T = T') by congruence. subst A' T'. exact (false_answer_fun _ _ _ _ _ _ Hf Hf').
Qed.

(** *** the relations that are counted *)
Definition bad_log (h : list query) (x : query) (c : scalar) : Prop := le_bad x c.
Definition bad_ring (h : list query) (x : query) (c : scalar) : Prop := exists y, In y h /\ ring_bad y x c.
Definition bad_all (h : list query) (x : query) (c : scalar) : Prop := bad_ring h x c \/ le_bad x c \/ sq_bad x c.

Lemma bad_log_count h x cs : NoDup cs -> Forall (bad_log h x) cs -> List.length cs <= 1.
Proof.
  intros Hnd Hf. apply (functional_count (fun (_ : unit) c => le_bad x c)) with (l := [tt]).
  - intros _ c c'. apply le_bad_fun.
  - exact Hnd.
  - revert Hf. apply Forall_impl. intros c Hc. exists tt. split; [left; reflexivity|exact Hc].
Qed.

Lemma bad_ring_count h x cs : NoDup cs -> Forall (bad_ring h x) cs -> List.length cs <= List.length h.
Proof. apply (functional_count (fun y c => ring_bad y x c)). intros y c c'. apply ring_bad_fun. Qed.

Lemma bad_all_count h x cs : NoDup cs -> Forall (bad_all h x) cs -> List.length cs <= S (List.length h).
Proof.
  intros Hnd Hf. replace (S (List.length h)) with (List.length (None :: map Some h)) by (cbn; rewrite map_length; reflexivity).
  apply (functional_count (fun y c => match y with Some y => ring_bad y x c | None => le_bad x c \/ sq_bad x c end)).
  - intros [y|] c c'; [apply ring_bad_fun|]. intros [H|H] [H'|H'].
    + exact (le_bad_fun x c c' H H').
    + destruct (le_sq_exclusive x c c' H H').
    + destruct (le_sq_exclusive x c' c H' H).
    + exact (sq_bad_fun x c c' H H').
  - exact Hnd.
  - revert Hf. apply Forall_impl. intros c [(y & Hy & Hc)|Hc].
    + exists (Some y). split; [right; apply in_map; exact Hy|exact Hc].
    + exists None. split; [left; reflexivity|exact Hc].
Qed.

(** *** accepted proofs of false statements produce hits *)
Lemma le_verifier_hits {B : Type} (bad : list query -> query -> scalar -> Prop) (o : hash (Scalar E)) D (T : strategy (Scalar E) B)
    p (K : PublicKey E) P0 P1 t r t' :
  (forall h x c, le_bad x c -> bad h x c) ->
  genuine K -> run o (log_equality_verifier p K (P0, P1) t) = Ret (Ok r, t') -> ~ same_log (E:=E) (pk_element K) P0 P1 ->
  incl (asked o (log_equality_verifier p K (P0, P1) t)) (asked o T) -> incl (asked o T) D ->
  hits (Scalar E) bad D o [] T.
Proof.
  intros Hb HK Hrun Hn Hi HD. pose proof Hrun as Hrun'. rewrite log_equality_run in Hrun'. destruct r.
  apply (le_verify_ok_iff (hashed_by E o) L) in Hrun' as (q & Hq & Ho & ->). cbn in Ho.
  apply log_equality_asked in Hrun. apply Hi in Hrun.
  apply (hits_last E bad D o [(q, "c")]).
  - intros y [<-|[]]. apply HD. exact Hrun.
  - intros x h [<-|[]] _ _. apply Hb. exists t, K, P0, P1. eexists _, _, (le_response p). split; [exact HK|]. split; [exact Hq|].
    split; [exact Hn|]. unfold answer. cbn. rewrite Ho. split; reflexivity.
  - intros y [<-|[]]. right. exact Hrun.
  - exists (q, "c"). split; [left; reflexivity|intros []].
Qed.

Lemma sq_verifier_hits {B : Type} (bad : list query -> query -> scalar -> Prop) (o : hash (Scalar E)) D (T : strategy (Scalar E) B)
    p cs z (K : PublicKey E) t r t' :
  (forall h x c, sq_bad x c -> bad h x c) ->
  genuine K -> run o (sum_of_squares_verifier p cs z K t) = Ret (Ok r, t') -> (forall xs, ~ sq_statement K cs z xs) ->
  incl (asked o (sum_of_squares_verifier p cs z K t)) (asked o T) -> incl (asked o T) D ->
  hits (Scalar E) bad D o [] T.
Proof.
  intros Hb HK Hrun Hn Hi HD. pose proof Hrun as Hrun'. rewrite sum_of_squares_run in Hrun'. destruct r.
  apply (sq_verify_ok_iff (hashed_by E o) L) in Hrun' as (rs & As & Z & q & _ & Ha & Hq & Ho & ->). cbn in Ho.
  apply sum_of_squares_asked in Hrun. apply Hi in Hrun.
  apply (hits_last E bad D o [(q, "c")]).
  - intros y [<-|[]]. apply HD. exact Hrun.
  - intros x h [<-|[]] _ _. apply Hb. exists t, K, cs, z, As, Z, rs, (sq_sum_response p). split; [exact HK|]. split; [exact Hq|].
    split; [exact Hn|]. unfold answer. cbn. rewrite Ho. exact Ha.
  - intros y [<-|[]]. right. exact Hrun.
  - exists (q, "c"). split; [left; reflexivity|intros []].
Qed.

Lemma commitments_false (K : element) ct A c s X :
  ~ same_log (E:=E) K (random_element ct) (blinded_element ct - A)%E -> X = ring_commitments (E:=E) K ct A c s -> false_answer K ct A X c.
Proof. intros Hn ->. split; [exact Hn|]. exists s. split; reflexivity. Qed.

Lemma ring_verifier_hits {B : Type} (bad : list query -> query -> scalar -> Prop) (o : hash (Scalar E)) D (T : strategy (Scalar E) B)
    p (K : PublicKey E) vals cts t r t' k vs ct :
  (forall h x y c, In y h -> ring_bad y x c -> bad h x c) ->
  genuine K -> run o (ring_verifier p K vals cts t) = Ret (Ok r, t') ->
  vals_of t k vs -> nth_error vals k = Some vs -> nth_error cts k = Some ct ->
  (forall A, In A vs -> ~ same_log (E:=E) (pk_element K) (random_element ct) (blinded_element ct - A)%E) ->
  incl (asked o (ring_verifier p K vals cts t)) (asked o T) -> incl (asked o T) D ->
  hits (Scalar E) bad D o [] T.
Proof.
  intros Hb HK Hrun Hv Hn Hc Hf Hi HD. destruct (vals_bound _ _ _ Hv) as (B1 & B2 & B3).
  assert (Hne : vs <> []) by (intros ->; cbn in B3; lia).
  destruct (ring_verifier_trace E L o p K vals cts t r t' k vs ct Hrun Hn Hc Hne) as
    (Ts & Te & q & Hcom & HT & Hq & rt & A & s & vs' & rs & qs & -> & Hl & Hloc & Htr & Hqs).
  pose proof (trace_length E o rt _ ct _ _ _ _ _ Htr) as Hlen. rewrite combine_length, Hl, Nat.min_id in Hlen.
  cbn [List.length] in B2, B3.
  set (X := (q, "c") :: map (fun q => (q, "c")) qs).
  assert (HX : forall y, In y X -> In y (asked o T)).
  { intros y [<-|Hy]; [apply Hi; exact Hq|]. apply in_map_iff in Hy as (q' & <- & Hin). apply Hi. apply Hqs. exact Hin. }
  assert (Hshape : forall q' j X', ring_query (E:=E) rt j X' q' -> q' <> q).
  { intros q' j X' Hq' ->. exact (ring_shape _ _ _ _ _ _ _ _ _ _ _ _ _ Hloc Hq' Hcom HT). }
  apply (hits_last E bad D o X).
  - intros y Hy. apply HD, HX, Hy.
  - intros x h Hx Hnx Hothers. destruct Hx as [<-|Hx].
    + (* the common challenge answers the commitments of the first equation *)
      destruct qs as [|q0 qs]; [cbn in Hlen; lia|]. destruct (combine vs' rs) as [|[A' s'] eqs]; cbn [ring_trace] in Htr; [contradiction|].
      destruct Htr as [Hq0 _]. apply (Hb h _ (q0, "c")).
      * apply Hothers; [right; left; reflexivity|]. intros Heq. injection Heq as Heq. exact (Hshape _ _ _ Hq0 Heq).
      * left. exists t, K, ct, k, rt, 0. eexists _, _, A. split; [exact HK|]. split; [exact Hv|]. split; [reflexivity|].
        split; [exact Hloc|]. split; [exact Hq0|]. apply (commitments_false _ _ _ _ s); [apply Hf; left; reflexivity|reflexivity].
    + apply in_map_iff in Hx as (q' & <- & Hin). apply In_nth_error in Hin as [l Hq'].
      destruct (trace_nth E o rt _ ct _ _ _ _ _ l q' Htr Hq') as (X' & A' & s' & T1 & T2 & T3). cbn [Nat.add] in T1, T3.
      assert (HA' : nth_error vs' l = Some A').
      { clear -T2. revert rs l T2. induction vs' as [|a vs' IH]; intros [|b rs] [|l] T2; cbn in T2 |- *; try discriminate; [congruence|].
        exact (IH _ _ T2). }
      assert (Hfa : ~ same_log (E:=E) (pk_element K) (random_element ct) (blinded_element ct - A')%E).
      { apply Hf. right. exact (nth_error_In _ _ HA'). }
      assert (Hlb : l < List.length vs') by (apply nth_error_Some; congruence).
      destruct (nth_error qs (S l)) as [q2|] eqn:Hq2.
      * apply (Hb h _ (q2, "c")).
        -- apply Hothers.
           ++ right. apply in_map_iff. exists q2. split; [reflexivity|]. exact (nth_error_In _ _ Hq2).
           ++ intros Heq. injection Heq as ->.
              destruct (ring_query_inj E L t K ct k rt (l + 1) _ t K ct k rt l _ q' B1 B1 ltac:(lia) ltac:(lia) Hloc T3 Hloc T1) as (_ & _ & _ & _ & Hj & _). lia.
        -- left. exists t, K, ct, k, rt, (l + 1). eexists _, _, A'. split; [exact HK|]. split; [exact Hv|].
           split; [replace (l + 1) with (S l) by lia; exact HA'|]. split; [exact Hloc|]. split; [exact T3|].
           apply (commitments_false _ _ _ _ s'); [exact Hfa|reflexivity].
      * apply (Hb h _ (q, "c")).
        -- apply Hothers; [left; reflexivity|]. intros Heq. injection Heq as Heq. exact (Hshape _ _ _ T1 (eq_sym Heq)).
        -- right. exists t, K, ct, k, rt, l, X'. eexists _, A', Ts, Te. split; [exact HK|]. split; [exact Hv|]. split; [exact HA'|].
           split; [exact Hloc|]. split; [exact T1|]. split; [exact Hcom|]. split; [exact HT|].
           apply (commitments_false _ _ _ _ s'); [exact Hfa|exact T3].
  - intros y Hy. right. apply HX, Hy.
  - exists (q, "c"). split; [left; reflexivity|intros []].
Qed.

End Bad.
