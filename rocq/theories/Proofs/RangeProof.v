(** * Proofs about printed decompositions and range proofs (C21-C23) *)
From Coq Require Import List NArith ZArith Lia Bool String Ascii Arith Field DecimalString DecimalN.
From Coq Require Import Strings.Byte.
From Verif.Model Require Import Base Group Transcript Keys Encryption Ring Range.
From Verif.Spec Require Import Encryption LogEquality Sigma Ring Range.
From Verif.Proofs Require Import Algebra Lists Encryption Commitment LogEquality Ring Range.
Import ListNotations.
Open Scope string_scope.
Open Scope list_scope.
Open Scope N_scope.

(** ** printed decompositions *)
Definition is_digit (c : ascii) : bool :=
  match uint_of_char c (Some Decimal.Nil) with Some _ => true | None => false end.

Definition starts_digit (s : string) : bool :=
  match s with String c _ => is_digit c | EmptyString => false end.

Fixpoint all_digits (s : string) : bool :=
  match s with EmptyString => true | String c s' => is_digit c && all_digits s' end.

Lemma uint_digits d : all_digits (NilEmpty.string_of_uint d) = true.
Proof. induction d; cbn; auto. Qed.

Lemma N_decimal_digits n : all_digits (N_decimal n) = true.
Proof. unfold N_decimal, NilZero.string_of_uint. destruct (N.to_uint n); try reflexivity; apply uint_digits. Qed.

Lemma N_decimal_inj n m : N_decimal n = N_decimal m -> n = m.
Proof.
  unfold N_decimal. intros H. apply (f_equal NilZero.uint_of_string) in H.
  assert (Hn : forall k, N.to_uint k <> Decimal.Nil).
  { intros k Hk. destruct k as [|p]; cbn in Hk; [discriminate|]. exact (DecimalPos.Unsigned.to_uint_nonnil p Hk). }
  rewrite !NilZero.usu in H by apply Hn. injection H as H. apply (f_equal N.of_uint) in H.
  rewrite !DecimalN.Unsigned.of_to in H. exact H.
Qed.

Lemma N_decimal_nonempty n : starts_digit (N_decimal n) = true.
Proof.
  unfold N_decimal, NilZero.string_of_uint. pose proof (DecimalN.Unsigned.of_to n) as _.
  destruct (N.to_uint n); reflexivity.
Qed.

Lemma digits_split s : forall s' r r', all_digits s = true -> all_digits s' = true ->
  starts_digit r = false -> starts_digit r' = false -> (s ++ r = s' ++ r')%string -> s = s' /\ r = r'.
Proof.
  induction s as [|c s IH]; intros [|c' s'] r r' Hs Hs' Hr Hr' H; cbn in *.
  - auto.
  - subst r. cbn in Hr. apply andb_true_iff in Hs' as [Hc _]. congruence.
  - subst r'. cbn in Hr'. apply andb_true_iff in Hs as [Hc _]. congruence.
  - injection H as <- H. apply andb_true_iff in Hs as [_ Hs]. apply andb_true_iff in Hs' as [_ Hs'].
    apply IH in H as [-> ->]; auto.
Qed.

Lemma sapp_assoc (a b c : string) : ((a ++ b) ++ c = a ++ (b ++ c))%string.
Proof. induction a as [|x a IH]; cbn; [reflexivity|rewrite IH; reflexivity]. Qed.

Lemma spec_display_inj s s' r r' :
  1 <= rs_step s -> 1 <= rs_step s' -> starts_digit r = false -> starts_digit r' = false ->
  (RingSpec_display s ++ r = RingSpec_display s' ++ r')%string -> s = s' /\ r = r'.
Proof.
  intros Hs Hs' Hr Hr' H. unfold RingSpec_display in H.
  assert (Hsize : forall x y, (N_decimal x ++ r = N_decimal y ++ r')%string -> x = y /\ r = r').
  { intros x y Hxy. apply digits_split in Hxy as [H1 H2]; auto using N_decimal_digits. apply N_decimal_inj in H1. auto. }
  destruct s as [size step], s' as [size' step']. cbn [rs_size rs_step] in *.
  destruct (N.ltb_spec 1 step) as [Hst|Hst], (N.ltb_spec 1 step') as [Hst'|Hst'].
  - rewrite !sapp_assoc in H. apply digits_split in H as [H1 H2]; auto using N_decimal_digits.
    apply N_decimal_inj in H1 as ->. cbn in H2. injection H2 as H2. apply Hsize in H2 as [-> ->]. auto.
  - exfalso. rewrite !sapp_assoc in H. cbn [append] in H.
    apply (digits_split (N_decimal step) "0") in H as [_ H2]; try reflexivity; auto using N_decimal_digits. discriminate.
  - exfalso. rewrite !sapp_assoc in H. cbn [append] in H. symmetry in H.
    apply (digits_split (N_decimal step') "0") in H as [_ H2]; try reflexivity; auto using N_decimal_digits. discriminate.
  - rewrite !sapp_assoc in H. cbn in H. injection H as H. apply Hsize in H as [-> ->]. split; [|reflexivity].
    f_equal. lia.
Qed.

Definition display_tail (d : RangeDecomposition) : string :=
  match d with [] => "" | _ => (" + " ++ RangeDecomposition_display d)%string end.

Lemma display_cons s d : RangeDecomposition_display (s :: d) = (RingSpec_display s ++ display_tail d)%string.
Proof.
  destruct d as [|s' d]; [|reflexivity]. cbn. generalize (RingSpec_display s). intros x.
  induction x as [|c x IH]; cbn; [reflexivity|rewrite <- IH; reflexivity].
Qed.

Lemma display_nonempty s d : RangeDecomposition_display (s :: d) <> "".
Proof.
  rewrite display_cons. unfold RingSpec_display. destruct (1 <? rs_step s); [|discriminate].
  pose proof (N_decimal_nonempty (rs_step s)) as H. destruct (N_decimal (rs_step s)); [discriminate|discriminate].
Qed.

Lemma display_inj d : forall d', Forall (fun s => 1 <= rs_step s) d -> Forall (fun s => 1 <= rs_step s) d' ->
  RangeDecomposition_display d = RangeDecomposition_display d' -> d = d'.
Proof.
  induction d as [|s d IH]; intros [|s' d'] Hd Hd' H.
  - reflexivity.
  - exfalso. apply (display_nonempty s' d'). symmetry. exact H.
  - exfalso. exact (display_nonempty s d H).
  - inversion Hd; inversion Hd'; subst. rewrite !display_cons in H.
    apply spec_display_inj in H as [-> H]; auto; [|destruct d; reflexivity|destruct d'; reflexivity].
    f_equal. destruct d as [|x d], d' as [|y d']; try discriminate; [reflexivity|].
    cbn [display_tail append] in H. injection H as H. apply IH; auto.
Qed.

Lemma str_bytes_inj s s' : str_bytes s = str_bytes s' -> s = s'.
Proof.
  unfold str_bytes. intros H. rewrite <- (string_of_list_byte_of_string s), <- (string_of_list_byte_of_string s'), H.
  reflexivity.
Qed.

(** ** prepared ranges *)
Section Proofs.
Context (E : Env) (L : GroupLaws E).
Local Notation scalar := (Scalar E).
Local Notation element := (Element E).

Add Field rap_field : (s_field L).

Definition fits (n : N) (d : RangeDecomposition) : Prop := doc_form n d /\ n < u64_lim.

Lemma ring_max_bound n d s i : doc_form n d -> In s d -> i < rs_size s -> i * rs_step s < n.
Proof.
  intros H Hin Hi. pose proof (doc_form_bound _ _ H) as Hb.
  assert (Hm : (rs_size s - 1) * rs_step s <= n_sum (map (fun s => (rs_size s - 1) * rs_step s) d)).
  { apply n_sum_in. exact (in_map (fun s => (rs_size s - 1) * rs_step s) d s Hin). }
  assert (i * rs_step s <= (rs_size s - 1) * rs_step s) by (apply N.mul_le_mono_r; lia). lia.
Qed.

Lemma prepared_ok n d : doc_form n d -> n <= u64_lim ->
  PreparedRange_new (E:=E) d = Ret {| pr_inner := d; pr_admissible := range_values d |}.
Proof.
  intros H Hn. unfold PreparedRange_new.
  rewrite (mapM_total _ (fun s => map (fun i => times (N.of_nat i * rs_step s) (@generator E)) (seq 0 (N.to_nat (rs_size s))))).
  - reflexivity.
  - intros s Hs.
    rewrite (mapM_total _ (fun i => times (i * rs_step s) (@generator E))); [rewrite map_map; reflexivity|].
    intros i Hi. apply in_map_iff in Hi as (j & <- & Hj). apply in_seq in Hj.
    pose proof (ring_max_bound n d s (N.of_nat j) H Hs ltac:(lia)) as Hb.
    rewrite u64_mul_ok by lia. cbn [bind]. rewrite (vartime_mul_generator_ok E L).
    rewrite (times_of_u64 E L) by lia. reflexivity.
Qed.

Lemma range_values_nth d (k : nat) vs : nth_error (range_values (E:=E) d) k = Some vs ->
  exists s, nth_error d k = Some s /\
    vs = map (fun i => times (N.of_nat i * rs_step s) generator) (seq 0 (N.to_nat (rs_size s))).
Proof.
  unfold range_values. intros H. rewrite nth_error_map in H. destruct (nth_error d k) as [s|]; [|discriminate].
  injection H as <-. eauto.
Qed.

Lemma range_values_length d : List.length (range_values (E:=E) d) = List.length d.
Proof. apply map_length. Qed.

Lemma range_values_sum d :
  list_sum (map (@List.length element) (range_values d)) = N.to_nat (n_sum (map rs_size d)).
Proof.
  induction d as [|s d IH]; [reflexivity|]. cbn [range_values map]. rewrite n_sum_cons, N2Nat.inj_add, <- IH.
  cbn [list_sum fold_right]. rewrite map_length, seq_length. reflexivity.
Qed.

Lemma times_add m n (a : element) : times (m + n) a = (times m a + times n a)%E.
Proof. rewrite !(times_phi E L), N2Z.inj_add, (phi_add E L), (e_mul_add E L). reflexivity. Qed.

Lemma times_0 (a : element) : times 0 a = identity.
Proof. reflexivity. Qed.

(** ** completeness *)
Definition e_sum (l : list element) : element := fold_right e_add identity l.

Lemma encrypts_add (K : PublicKey E) (c c' : Ciphertext E) M M' r r' :
  encrypts K c M r -> encrypts K c' M' r' -> encrypts K (Ciphertext_add c c') (M + M')%E (r + r')%S.
Proof. intros [H1 H2] [H3 H4]. split; cbn; rewrite ?H1, ?H2, ?H3, ?H4; el_ring L. Qed.
Lemma encrypts_sub (K : PublicKey E) (c c' : Ciphertext E) M M' r r' :
  encrypts K c M r -> encrypts K c' M' r' -> encrypts K (Ciphertext_sub c c') (M - M')%E (r - r')%S.
Proof. intros [H1 H2] [H3 H4]. split; cbn; rewrite ?H1, ?H2, ?H3, ?H4; el_ring L. Qed.

Lemma range_add_values_inv (K : PublicKey E) t0 items : forall vals cts b cum M partial cum' b',
  builder_inv E K t0 vals cts b -> encrypts K (ext_inner cum) M (ext_random_scalar cum) ->
  range_add_values b items cum = Ret (partial, cum', b') ->
  exists As, Forall2 (fun it A => nth_error (snd it) (N.to_nat (fst it)) = Some A) items As /\
    builder_inv E K t0 (vals ++ map snd items) (cts ++ partial) b' /\
    encrypts K (ext_inner cum') (M + e_sum As)%E (ext_random_scalar cum') /\
    (list_sum (map (fun it => List.length (snd it)) items) + List.length (rb_rest b') = List.length (rb_rest b))%nat /\
    ext_inner cum' = fold_left Ciphertext_add partial (ext_inner cum) /\
    List.length partial = List.length items.
Proof.
  induction items as [|[i vs] items IH]; intros vals cts b cum M partial cum' b' Hb Hc H; cbn [range_add_values] in H.
  - injection H as <- <- <-. exists []. cbn. rewrite !app_nil_r, (e_add_id_r L). auto 10.
  - inv_bind H. destruct a as [ext b1]. inv_bind H. destruct a as [[rest cum1] b2]. injection H as <- <- <-.
    eapply add_value_inv in Hm as ((A & HA & HencA) & Hb1 & Hl & Hr); [|exact L|exact Hb].
    eapply (IH _ _ _ _ (M + A)%E) in Hm0 as (As & H1 & H2 & H3 & H4 & H5 & H6);
      [|exact Hb1|exact (encrypts_add K _ _ _ _ _ _ Hc HencA)].
    exists (A :: As). split; [constructor; assumption|].
    rewrite <- !app_assoc in H2. cbn [app map snd] in H2. split; [exact H2|].
    split; [|split; [|split]].
    + cbn [e_sum fold_right]. rewrite (e_add_assoc E L). exact H3.
    + cbn [map snd list_sum fold_right]. rewrite Hr, skipn_length in H4. fold (list_sum (map (fun it : N * list element => List.length (snd it)) items)). lia.
    + exact H5.
    + cbn. rewrite H6. reflexivity.
Qed.

Lemma in_rings_length d idx : in_rings d idx -> List.length idx = List.length d.
Proof. apply Forall2_length'. Qed.

(** the chosen values sum up to the composed value *)
Lemma chosen_sum d idx As : in_rings d idx ->
  Forall2 (fun it A => nth_error (snd it) (N.to_nat (fst it)) = Some A) (combine idx (range_values d)) As ->
  e_sum As = times (composed d idx) (@generator E).
Proof.
  intros Hin. revert As. induction Hin as [|i s idx d Hi Hin IH]; intros As H; cbn [range_values map combine] in H.
  - inversion H; subst. reflexivity.
  - inversion H as [|? A ? As' HA HAs]; subst. cbn [fst snd] in HA. rewrite composed_cons, times_add. cbn [e_sum fold_right].
    fold (e_sum As'). rewrite (IH As' HAs). f_equal.
    rewrite nth_error_map, nth_error_nth' with (d := O) in HA by (rewrite seq_length; lia).
    rewrite seq_nth in HA by lia. cbn in HA. injection HA as <-. rewrite N2Nat.id. reflexivity.
Qed.

Lemma chosen_exist d idx : in_rings d idx ->
  exists As, Forall2 (fun it A => nth_error (snd it) (N.to_nat (fst it)) = Some A) (combine idx (range_values (E:=E) d)) As.
Proof.
  induction 1 as [|i s idx d Hi Hin [As IH]]; [exists []; constructor|].
  eexists (_ :: As). constructor; [|exact IH]. cbn [fst snd].
  rewrite nth_error_map, nth_error_nth' with (d := O) by (rewrite seq_length; lia). reflexivity.
Qed.

Lemma items_values d (idx : list N) : List.length idx = List.length d -> map snd (combine idx (range_values (E:=E) d)) = range_values d.
Proof.
  intros H. assert (Hl : List.length idx = List.length (range_values (E:=E) d)) by (rewrite range_values_length; exact H).
  revert Hl. generalize (range_values (E:=E) d). clear H. induction idx as [|i idx IH]; intros [|v vs] Hl; try discriminate; [reflexivity|].
  cbn. rewrite IH by (cbn in Hl; lia). reflexivity.
Qed.

Lemma fold_sub_add (l : list (Ciphertext E)) : forall a b,
  Ciphertext_sub a (fold_left Ciphertext_add l b) = fold_left Ciphertext_sub l (Ciphertext_sub a b).
Proof.
  induction l as [|c l IH]; intros a b; [reflexivity|]. cbn [fold_left]. rewrite IH. f_equal.
  unfold Ciphertext_sub, Ciphertext_add. cbn. f_equal; el_ring L.
Qed.

Lemma sub_zero (a : Ciphertext E) : Ciphertext_sub a Ciphertext_zero = a.
Proof. destruct a as [x y]. unfold Ciphertext_sub. cbn. f_equal; el_ring L. Qed.

Lemma range_verify_eq (p : RangeProof E) (K : PublicKey E) d ct t :
  RangeProof_verify p K {| pr_inner := d; pr_admissible := range_values d |} ct t =
  if (List.length (rap_partial p) + 1 =? List.length d)%nat then
    RingProof_verify (rap_inner p) K (range_values d) (range_ciphertexts (rap_partial p) ct) (range_start_transcript t d)
  else Ret (Err (LenMismatch "admissible values" (List.length (rap_partial p) + 1) (List.length d)), t).
Proof.
  unfold RangeProof_verify, check_lengths. cbn [pr_inner pr_admissible]. rewrite range_values_length.
  destruct (_ =? _)%nat; [|reflexivity]. unfold range_ciphertexts. rewrite fold_sub_add, sub_zero. reflexivity.
Qed.

Lemma last_split {A : Type} (l : list A) (n : nat) : List.length l = S n ->
  exists x, skipn n l = [x] /\ l = firstn n l ++ [x].
Proof.
  intros H. pose proof (firstn_skipn n l) as Hs. pose proof (skipn_length n l) as Hl.
  destruct (skipn n l) as [|x [|y r]]; cbn in Hl; try lia. exists x. auto.
Qed.

(** a pointed view of the code once the value is decomposed *)
Lemma from_ciphertext_eq (K : PublicKey E) n d (c : CiphertextWithValue E N) t r idx :
  doc_form n d -> n < u64_lim -> n_sum (map rs_size d) < u64_lim -> cwv_value c < n ->
  RangeDecomposition_decompose (env_build E) d (cwv_value c) = Ret idx -> in_rings d idx ->
  RangeProof_from_ciphertext K {| pr_inner := d; pr_admissible := range_values d |} c t r =
  let it := combine idx (range_values d) in
  let m := (List.length d - 1)%nat in
  '(partial, cum, b) <-
     range_add_values (RingProofBuilder_new K (repeat s_default (N.to_nat (n_sum (map rs_size d)))) (range_start_transcript t d) r)
       (firstn m it) ExtendedCiphertext_zero ;;
  match skipn m it with
  | [] => Panic PUnwrap
  | (i, vs) :: _ =>
      b <- RingProofBuilder_add_precomputed_value b (ExtendedCiphertext_sub (cwv_ext c) cum) vs (N.to_nat i) ;;
      '(ch, resp, t, r) <- RingProofBuilder_build b ;;
      Ret ({| rap_partial := partial; rap_inner := {| rp_challenge := ch; rp_responses := resp |} |}, t, r)
  end.
Proof.
  intros Hd Hn Hs Hv Hdec Hin. pose proof (in_rings_length _ _ Hin) as Hlen.
  pose proof (doc_form_nonempty _ _ Hd) as Hne.
  assert (Hpos : (0 < List.length d)%nat) by (destruct d; [contradiction|cbn; lia]).
  unfold RangeProof_from_ciphertext, PreparedRange_decompose. cbn [pr_inner pr_admissible].
  rewrite (upper_bound_ok _ n d Hd Hn). cbn [bind]. unfold assert. apply N.ltb_lt in Hv. rewrite Hv. cbn [bind].
  rewrite Hdec. cbn [bind]. rewrite range_values_length, Hlen, Nat.eqb_refl.
  unfold debug_assert at 1. replace (if debug_assertions (env_build E) then Ret tt else Ret tt) with (Ret tt) by (destruct (debug_assertions _); reflexivity).
  cbn [bind]. unfold RangeDecomposition_rings_size. rewrite u64_sum_ok by lia. cbn [bind N.add].
  rewrite u64_sub_ok by lia. cbn [bind]. replace (N.to_nat (N.of_nat (List.length d) - 1)) with (List.length d - 1)%nat by lia.
  reflexivity.
Qed.

Lemma encrypts_zero (K : PublicKey E) : encrypts K (ext_inner (ExtendedCiphertext_zero (E:=E))) identity (ext_random_scalar ExtendedCiphertext_zero).
Proof. unfold ExtendedCiphertext_zero. split; cbn; rewrite (of_u64_0 L); el_ring L. Qed.

Lemma e_sum_app (l l' : list element) : e_sum (l ++ l') = (e_sum l + e_sum l')%E.
Proof.
  induction l as [|x l IH]; [cbn; rewrite (e_add_id E L); reflexivity|].
  change (x + e_sum (l ++ l') = x + e_sum l + e_sum l')%E. rewrite IH. apply (e_add_assoc E L).
Qed.

Lemma range_complete (K : PublicKey E) n d (c : CiphertextWithValue E N) t r p t' r' :
  doc_form n d -> n < u64_lim -> n_sum (map rs_size d) < u64_lim -> cwv_value c < n ->
  encrypts K (cwv_inner c) (times (cwv_value c) generator) (cwv_randomness c) ->
  RangeProof_from_ciphertext K {| pr_inner := d; pr_admissible := range_values d |} c t r = Ret (p, t', r') ->
  RangeProof_verify p K {| pr_inner := d; pr_admissible := range_values d |} (cwv_inner c) t = Ret (Ok tt, t') /\
  (List.length (rap_partial p) + 1 = List.length d)%nat.
Proof.
  intros Hd Hn Hs Hv Henc H.
  destruct (decompose_ok (env_build E) n d (cwv_value c) Hd ltac:(lia) Hv) as (idx & Hdec & Hin & Hcomp).
  rewrite (from_ciphertext_eq K n d c t r idx) in H by assumption. cbv zeta in H.
  pose proof (in_rings_length _ _ Hin) as Hlen. pose proof (items_values d idx Hlen) as Hvals.
  set (it := combine idx (range_values d)) in *. set (m := (List.length d - 1)%nat) in *.
  assert (Hpos : (0 < List.length d)%nat) by (pose proof (doc_form_nonempty _ _ Hd); destruct d; [contradiction|cbn; lia]).
  assert (Hit : List.length it = S m) by (unfold it, m; rewrite combine_length, range_values_length; lia).
  destruct (last_split it m Hit) as ([i vs] & Hskip & Hitsplit). rewrite Hskip in H.
  inv_bind H. destruct a as [[partial cum] b]. inv_bind H. rename a into b1. inv_bind H. destruct a as [[[ch resp] t1] r1].
  injection H as <- <- <-.
  eapply (range_add_values_inv K) in Hm as (As & HAs & Hb & Hcum & Hrest & Hfold & Hpl);
    [|apply (builder_new_inv E)|apply encrypts_zero].
  destruct (chosen_exist d idx Hin) as [As0 HAs0]. fold it in HAs0. pose proof (chosen_sum d idx As0 Hin HAs0) as Hsum.
  rewrite Hitsplit in HAs0. apply Forall2_app_inv_l in HAs0 as (As1 & As2 & HA1 & HA2 & ->).
  assert (As1 = As).
  { clear - HA1 HAs. revert As HAs. induction HA1 as [|x A l As1 Hx _ IH]; intros As HAs; inversion HAs; subst; [reflexivity|].
    f_equal; [congruence|auto]. }
  subst As1. inversion HA2 as [|? A ? Z HA Hnil]; subst. inversion Hnil; subst. clear HA2 Hnil. cbn [fst snd] in HA.
  rewrite e_sum_app, Hcomp in Hsum. cbn [e_sum fold_right] in Hsum. rewrite (e_add_id_r L) in Hsum.
  rewrite (e_add_id E L) in Hcum.
  assert (Hlast : encrypts K (ext_inner (ExtendedCiphertext_sub (cwv_ext c) cum)) A (ext_random_scalar (ExtendedCiphertext_sub (cwv_ext c) cum))).
  { pose proof (encrypts_sub K _ _ _ _ _ _ Henc Hcum) as Hl. rewrite <- Hsum in Hl.
    replace (e_sum As + A - e_sum As)%E with A in Hl by el_ring L. exact Hl. }
  eapply (add_precomputed_inv E L) in Hm0 as (Hb1 & Hle & Hr); [|exact Hb|exact HA|exact Hlast].
  assert (Hls : N.to_nat (n_sum (map rs_size d)) = (list_sum (map (fun x => List.length (snd x)) (firstn m it)) + List.length vs)%nat).
  { transitivity (list_sum (map (fun x => List.length (snd x)) it)).
    - rewrite <- range_values_sum, <- Hvals, map_map. reflexivity.
    - rewrite Hitsplit at 1. rewrite map_app, list_sum_app. cbn [map snd list_sum fold_right]. lia. }
  assert (Hnil : rb_rest b1 = []).
  { apply length_zero_iff_nil. rewrite Hr, skipn_length. cbn [rb_rest RingProofBuilder_new] in Hrest. rewrite repeat_length in Hrest. lia. }
  cbn [app] in Hb1. 
  eapply (builder_build_ok E L) in Hm1; [|exact Hb1|exact Hnil].
  rewrite range_verify_eq. cbn [rap_partial rap_inner].
  assert (Hpl' : (List.length partial + 1 = List.length d)%nat) by (rewrite Hpl, firstn_length, Hit; lia).
  split; [|exact Hpl']. rewrite Hpl', Nat.eqb_refl.
  replace (range_values d) with (map snd (firstn m it) ++ [vs]) by (rewrite <- Hvals; rewrite Hitsplit at 2; rewrite map_app; reflexivity).
  replace (range_ciphertexts partial (cwv_inner c)) with (partial ++ [ext_inner (ExtendedCiphertext_sub (cwv_ext c) cum)]); [exact Hm1|].
  unfold range_ciphertexts. cbn [ExtendedCiphertext_sub ext_inner]. rewrite Hfold. cbn [ExtendedCiphertext_zero ext_inner].
  rewrite fold_sub_add, sub_zero. reflexivity.
Qed.

Lemma range_add_values_total (K : PublicKey E) t0 items : ser_total E -> forall vals cts b cum,
  builder_inv E K t0 vals cts b -> builder_zeros E b ->
  Forall (fun it => exists A, nth_error (snd it) (N.to_nat (fst it)) = Some A) items ->
  (list_sum (map (fun it => List.length (snd it)) items) <= List.length (rb_rest b))%nat ->
  exists partial cum' b', range_add_values b items cum = Ret (partial, cum', b') /\ builder_zeros E b'.
Proof.
  intros Ht. induction items as [|[i vs] items IH]; intros vals cts b cum Hb Hz HA Hl; cbn [range_add_values]; [eauto 10|].
  inversion HA as [|? ? [A HAi] HA']; subst. cbn [fst snd map list_sum fold_right] in *.
  destruct (ring_run_total E L K t0 [RAdd vs (N.to_nat i)] Ht vals cts b Hb Hz) as (cts' & b' & Hrun & Hz').
  - repeat constructor.
  - repeat constructor. cbn. apply nth_error_Some. congruence.
  - cbn. lia.
  - cbn [ring_run] in Hrun. inv_bind Hrun. destruct a as [ext b1]. cbn [bind] in Hrun. injection Hrun as <- <-.
    rewrite Hm. cbn [bind].
    eapply (add_value_inv E L) in Hm as (_ & Hb1 & _ & Hr); [|exact Hb].
    destruct (IH _ _ b1 (ExtendedCiphertext_add cum ext) Hb1 Hz' HA') as (partial & cum' & b2 & -> & Hz2).
    + rewrite Hr, skipn_length. unfold list_sum. lia.
    + cbn [bind]. eauto 10.
Qed.

Lemma range_total (K : PublicKey E) n d (c : CiphertextWithValue E N) t r :
  ser_total E -> doc_form n d -> n < u64_lim -> n_sum (map rs_size d) < u64_lim -> cwv_value c < n ->
  encrypts K (cwv_inner c) (times (cwv_value c) generator) (cwv_randomness c) ->
  exists p t' r', RangeProof_from_ciphertext K {| pr_inner := d; pr_admissible := range_values d |} c t r = Ret (p, t', r').
Proof.
  intros Ht Hd Hn Hs Hv Henc.
  destruct (decompose_ok (env_build E) n d (cwv_value c) Hd ltac:(lia) Hv) as (idx & Hdec & Hin & Hcomp).
  rewrite (from_ciphertext_eq K n d c t r idx) by assumption. cbv zeta.
  pose proof (in_rings_length _ _ Hin) as Hlen. pose proof (items_values d idx Hlen) as Hvals.
  set (it := combine idx (range_values d)) in *. set (m := (List.length d - 1)%nat) in *.
  assert (Hpos : (0 < List.length d)%nat) by (pose proof (doc_form_nonempty _ _ Hd); destruct d; [contradiction|cbn; lia]).
  assert (Hit : List.length it = S m) by (unfold it, m; rewrite combine_length, range_values_length; lia).
  destruct (last_split it m Hit) as ([i vs] & Hskip & Hitsplit). rewrite Hskip.
  destruct (chosen_exist d idx Hin) as [As0 HAs0]. fold it in HAs0. pose proof (chosen_sum d idx As0 Hin HAs0) as Hsum.
  rewrite Hitsplit in HAs0. apply Forall2_app_inv_l in HAs0 as (As1 & As2 & HA1 & HA2 & ->).
  inversion HA2 as [|? A ? Z HA Hnil]; subst. inversion Hnil; subst. clear HA2 Hnil. cbn [fst snd] in HA.
  rewrite e_sum_app, Hcomp in Hsum. cbn [e_sum fold_right] in Hsum. rewrite (e_add_id_r L) in Hsum.
  set (buf := repeat s_default (N.to_nat (n_sum (map rs_size d)))).
  assert (Hls : N.to_nat (n_sum (map rs_size d)) = (list_sum (map (fun x => List.length (snd x)) (firstn m it)) + List.length vs)%nat).
  { transitivity (list_sum (map (fun x => List.length (snd x)) it)).
    - rewrite <- range_values_sum, <- Hvals, map_map. reflexivity.
    - rewrite Hitsplit at 1. rewrite map_app, list_sum_app. cbn [map snd list_sum fold_right]. lia. }
  assert (Hbuf : List.length buf = (list_sum (map (fun it => List.length (snd it)) (firstn m it)) + List.length vs)%nat).
  { unfold buf. rewrite repeat_length. exact Hls. }
  assert (Hz : builder_zeros E (RingProofBuilder_new K buf (range_start_transcript t d) r)).
  { unfold builder_zeros. cbn. split; [|constructor]. intros _. apply Forall_forall. intros x Hx. apply repeat_spec in Hx. exact Hx. }
  destruct (range_add_values_total K (ring_context (range_start_transcript t d) K) (firstn m it) Ht [] []
              (RingProofBuilder_new K buf (range_start_transcript t d) r) ExtendedCiphertext_zero) as (partial & cum & b & Hadd & Hzb).
  - apply (builder_new_inv E).
  - exact Hz.
  - clear - HA1. induction HA1; constructor; eauto.
  - cbn [rb_rest RingProofBuilder_new]. lia.
  - rewrite Hadd. cbn [bind].
    eapply (range_add_values_inv K) in Hadd as (As & HAs & Hb & Hcum & Hrest & Hfold & Hpl);
      [|apply (builder_new_inv E)|apply encrypts_zero].
    assert (As1 = As).
    { clear - HA1 HAs. revert As HAs. induction HA1 as [|x A l As1 Hx _ IH]; intros As HAs; inversion HAs; subst; [reflexivity|].
      f_equal; [congruence|auto]. }
    subst As1. rewrite (e_add_id E L) in Hcum.
    assert (Hlast : encrypts K (ext_inner (ExtendedCiphertext_sub (cwv_ext c) cum)) A (ext_random_scalar (ExtendedCiphertext_sub (cwv_ext c) cum))).
    { pose proof (encrypts_sub K _ _ _ _ _ _ Henc Hcum) as Hl. rewrite <- Hsum in Hl.
      replace (e_sum As + A - e_sum As)%E with A in Hl by el_ring L. exact Hl. }
    cbn [rb_rest RingProofBuilder_new] in Hrest.
    destruct (add_precomputed_total E L K _ _ _ b _ vs (N.to_nat i) A Ht Hb Hzb HA Hlast ltac:(lia)) as (b1 & Hb1 & Hzb1).
    rewrite Hb1. cbn [bind].
    eapply (add_precomputed_inv E L) in Hb1 as (Hb1 & Hle & Hr); [|exact Hb|exact HA|exact Hlast].
    assert (Hnil : rb_rest b1 = []) by (apply length_zero_iff_nil; rewrite Hr, skipn_length; lia).
    destruct (builder_build_total E L K _ _ _ b1 Ht Hb1 Hzb1 Hnil) as [[[[ch resp] t1] r1] ->]. cbn [bind]. eauto.
Qed.

Lemma range_out_of_range (K : PublicKey E) n d (c : CiphertextWithValue E N) t r :
  doc_form n d -> n < u64_lim -> n <= cwv_value c ->
  RangeProof_from_ciphertext K {| pr_inner := d; pr_admissible := range_values d |} c t r = Panic PAssert.
Proof.
  intros Hd Hn Hv. unfold RangeProof_from_ciphertext, PreparedRange_decompose. cbn [pr_inner].
  rewrite (upper_bound_ok _ n d Hd Hn). cbn [bind]. unfold assert. apply N.ltb_ge in Hv. rewrite Hv. reflexivity.
Qed.

(** ** soundness *)
Lemma decrypt_sub sk (a b : Ciphertext E) : decrypt_to_element sk (Ciphertext_sub a b) = (decrypt_to_element sk a - decrypt_to_element sk b)%E.
Proof. unfold decrypt_to_element. cbn. el_ring L. Qed.

Lemma decrypt_remaining sk (l : list (Ciphertext E)) : forall ct,
  decrypt_to_element sk ct = e_sum (map (decrypt_to_element sk) (l ++ [fold_left Ciphertext_sub l ct])).
Proof.
  induction l as [|c l IH]; intros ct; cbn [app map fold_left].
  - cbn. rewrite (e_add_id_r L). reflexivity.
  - cbn [e_sum fold_right]. fold (e_sum (map (decrypt_to_element sk) (l ++ [fold_left Ciphertext_sub l (Ciphertext_sub ct c)]))).
    rewrite <- IH, decrypt_sub. el_ring L.
Qed.

Lemma in_dec_el (x : element) l : {In x l} + {~ In x l}.
Proof. apply in_dec. exact (e_eq_dec L). Qed.

Lemma all_or_not sk (vals : list (list element)) : forall cts : list (Ciphertext E), List.length cts = List.length vals ->
  (Forall2 (fun ct vs => In (decrypt_to_element sk ct) vs) cts vals) \/
  exists k vs ct, nth_error vals k = Some vs /\ nth_error cts k = Some ct /\ ~ In (decrypt_to_element sk ct) vs.
Proof.
  induction vals as [|vs vals IH]; intros [|ct cts] H; try discriminate; [left; constructor|].
  destruct (in_dec_el (decrypt_to_element sk ct) vs) as [Hin|Hn]; [|right; exists O, vs, ct; auto].
  destruct (IH cts ltac:(cbn in H; lia)) as [Hall|(k & vs' & ct' & H1 & H2 & H3)]; [left; constructor; auto|].
  right. exists (S k), vs', ct'. auto.
Qed.

Lemma all_in_values sk d : forall cts : list (Ciphertext E),
  Forall2 (fun ct vs => In (decrypt_to_element sk ct) vs) cts (range_values d) ->
  exists idx, in_rings d idx /\ e_sum (map (decrypt_to_element sk) cts) = times (composed d idx) generator.
Proof.
  induction d as [|s d IH]; intros cts H; cbn [range_values map] in H; inversion H as [|ct vs cts' vals' Hin Hrest]; subst.
  - exists []. split; [constructor|reflexivity].
  - destruct (IH cts' Hrest) as (idx & Hidx & Hsum). apply in_map_iff in Hin as (i & Hi & Hseq). apply in_seq in Hseq.
    exists (N.of_nat i :: idx). split; [constructor; [lia|exact Hidx]|].
    rewrite composed_cons, times_add, Hi. cbn [map e_sum fold_right]. fold (e_sum (map (decrypt_to_element sk) cts')). rewrite Hsum. reflexivity.
Qed.

Lemma range_sound sk (p : RangeProof E) (K : PublicKey E) n d ct t t' :
  key_of sk K -> doc_form n d ->
  RangeProof_verify p K {| pr_inner := d; pr_admissible := range_values d |} ct t = Ret (Ok tt, t') ->
  (exists v, v < n /\ decrypt_to_element sk ct = times v generator) \/
  exists k s pct rt Ts T q,
    let t0 := ring_context (range_start_transcript t d) K in
    let vs := map (fun i => times (N.of_nat i * rs_step s) generator) (seq 0 (N.to_nat (rs_size s))) in
    nth_error d k = Some s /\ nth_error (range_ciphertexts (rap_partial p) ct) k = Some pct /\
    ~ In (decrypt_to_element sk pct) vs /\
    ring_local t0 pct k rt /\ nth_error Ts k = Some T /\ ring_common t0 Ts q /\
    ring_all_hits rt (pk_element K) pct 0 (oracle q "c") vs T.
Proof.
  intros Hk Hd H. rewrite range_verify_eq in H. destruct (Nat.eqb_spec (List.length (rap_partial p) + 1) (List.length d)) as [Hl|]; [|discriminate].
  destruct (all_or_not sk (range_values d) (range_ciphertexts (rap_partial p) ct)) as [Hall|(k & vs & pct & H1 & H2 & H3)].
  - unfold range_ciphertexts. rewrite app_length, range_values_length. exact Hl.
  - left. destruct (all_in_values sk d _ Hall) as (idx & Hidx & Hsum). exists (composed d idx).
    split; [eapply composed_bound; eassumption|]. rewrite <- Hsum. unfold range_ciphertexts. apply decrypt_remaining.
  - right. destruct (range_values_nth d k vs H1) as (s & Hs & ->). exists k, s, pct.
    assert (Hne : map (fun i : nat => times (N.of_nat i * rs_step s) (@generator E)) (seq 0 (N.to_nat (rs_size s))) <> []).
    { pose proof (doc_form_rings _ _ Hd) as Hr. rewrite Forall_forall in Hr. destruct (Hr s (nth_error_In _ _ Hs)) as [Hsz _].
      intros Hn. apply (f_equal (@List.length _)) in Hn. rewrite map_length, seq_length in Hn. cbn in Hn. lia. }
    destruct (ring_sound E L sk _ K _ _ _ t' k _ pct Hk H H1 H2 Hne H3) as (rt & Ts & T & q & G1 & G2 & G3 & G4).
    exists rt, Ts, T, q. cbv zeta. auto 10.
Qed.

Lemma range_verify_lengths (p : RangeProof E) (K : PublicKey E) d ct t res t' :
  RangeProof_verify p K {| pr_inner := d; pr_admissible := range_values d |} ct t = Ret (res, t') ->
  ((List.length (rap_partial p) + 1 <> List.length d)%nat ->
     res = Err (LenMismatch "admissible values" (List.length (rap_partial p) + 1) (List.length d))) /\
  ((List.length (rap_partial p) + 1 = List.length d)%nat ->
   List.length (rp_responses (rap_inner p)) <> N.to_nat (n_sum (map rs_size d)) ->
     res = Err (LenMismatch "items in all rings" (List.length (rp_responses (rap_inner p))) (N.to_nat (n_sum (map rs_size d))))).
Proof.
  intros H. rewrite range_verify_eq in H. destruct (Nat.eqb_spec (List.length (rap_partial p) + 1) (List.length d)) as [Hl|Hl].
  - split; [contradiction|]. intros _ Hne. rewrite <- range_values_sum in Hne. rewrite ring_verify_len in H by exact Hne.
    rewrite range_values_sum in H. congruence.
  - split; [congruence|contradiction].
Qed.

Lemma range_verify_total (p : RangeProof E) (K : PublicKey E) d ct t : ser_total E ->
  exists res t', RangeProof_verify p K {| pr_inner := d; pr_admissible := range_values d |} ct t = Ret (res, t').
Proof.
  intros Ht. rewrite range_verify_eq. destruct (_ =? _)%nat; [apply (ring_verify_total E L); exact Ht|eauto].
Qed.

(** ** binding *)
Lemma range_start_inj t d t' d' : Forall (fun s => 1 <= rs_step s) d -> Forall (fun s => 1 <= rs_step s) d' ->
  range_start_transcript t d = range_start_transcript t' d' -> t = t' /\ d = d'.
Proof.
  intros Hd Hd' H. unfold range_start_transcript, start_proof, append_message in H.
  apply app_inj_tail in H as [H1 H2]. apply app_inj_tail in H1 as [H1 _]. split; [exact H1|].
  injection H2 as H2. apply str_bytes_inj in H2. apply display_inj in H2; auto.
Qed.

Lemma range_binding (p p' : RangeProof E) (K K' : PublicKey E) d d' ct ct' t t' res res' tf :
  Forall (fun s => 1 <= rs_step s) d -> Forall (fun s => 1 <= rs_step s) d' ->
  (List.length (rap_partial p) + 1 = List.length d)%nat -> (List.length (rap_partial p') + 1 = List.length d')%nat ->
  List.length (rp_responses (rap_inner p)) = N.to_nat (n_sum (map rs_size d)) ->
  List.length (rp_responses (rap_inner p')) = N.to_nat (n_sum (map rs_size d')) ->
  RangeProof_verify p K {| pr_inner := d; pr_admissible := range_values d |} ct t = Ret (res, tf) ->
  RangeProof_verify p' K' {| pr_inner := d'; pr_admissible := range_values d' |} ct' t' = Ret (res', tf) ->
  t = t' /\ pk_bytes K = pk_bytes K' /\ d = d'.
Proof.
  intros Hd Hd' Hl Hl' Hr Hr' H H'. rewrite range_verify_eq in H, H'. rewrite Hl, Nat.eqb_refl in H. rewrite Hl', Nat.eqb_refl in H'.
  rewrite <- range_values_sum in Hr, Hr'.
  destruct (ring_binding E L _ _ _ _ _ _ _ _ _ _ _ _ _ Hr Hr' H H') as (Ht & Hk & _).
  apply range_start_inj in Ht as [-> ->]; auto.
Qed.

(** ** [encrypt_range] and [verify_range] *)
Lemma encrypt_range_complete sk (K : PublicKey E) n d v r ct p r' :
  key_of sk K -> doc_form n d -> n < u64_lim -> n_sum (map rs_size d) < u64_lim ->
  encrypt_range K {| pr_inner := d; pr_admissible := range_values d |} v r = Ret (ct, p, r') ->
  v < n /\ decrypt_to_element sk ct = times v generator /\
  verify_range K {| pr_inner := d; pr_admissible := range_values d |} ct p = Ret (Ok tt).
Proof.
  intros Hk Hd Hn Hs H. unfold encrypt_range, RangeProof_new in H.
  destruct (CiphertextWithValue_new s_of_u64 v K r) as [c r1] eqn:Hc. inv_bind H.
  destruct a as [[[c' p'] t'] r2]. inv_bind Hm. destruct a as [[p1 t1] r3]. injection Hm as <- <- <- <-. injection H as <- <- <-.
  assert (Hval : cwv_value c = v).
  { unfold CiphertextWithValue_new in Hc. destruct (ExtendedCiphertext_new _ _ _). injection Hc as <- <-. reflexivity. }
  destruct (N.lt_ge_cases v n) as [Hv|Hv];
    [|rewrite range_out_of_range with (n := n) in Hm0 by (try assumption; lia); discriminate].
  apply (cwv_new_encrypts E L) in Hc. destruct Hc as [Hc _].
  assert (Henc : encrypts K (cwv_inner c) (times (cwv_value c) generator) (cwv_randomness c)).
  { rewrite Hval, (times_of_u64 E L) by lia. exact Hc. }
  split; [exact Hv|]. split.
  - rewrite <- Hval. exact (encrypts_decrypt E L sk K _ _ _ Hk Henc).
  - destruct (range_complete K n d c _ r1 p1 t1 r3 Hd Hn Hs ltac:(lia) Henc Hm0) as [Hver _].
    unfold verify_range. rewrite Hver. reflexivity.
Qed.

Lemma encrypt_range_total (K : PublicKey E) n d v r :
  ser_total E -> doc_form n d -> n < u64_lim -> n_sum (map rs_size d) < u64_lim -> v < n ->
  exists ct p r', encrypt_range K {| pr_inner := d; pr_admissible := range_values d |} v r = Ret (ct, p, r').
Proof.
  intros Ht Hd Hn Hs Hv. unfold encrypt_range, RangeProof_new.
  destruct (CiphertextWithValue_new s_of_u64 v K r) as [c r1] eqn:Hc.
  assert (Hval : cwv_value c = v).
  { unfold CiphertextWithValue_new in Hc. destruct (ExtendedCiphertext_new _ _ _). injection Hc as <- <-. reflexivity. }
  apply (cwv_new_encrypts E L) in Hc. destruct Hc as [Hc _].
  destruct (range_total K n d c (transcript_new "ciphertext_range") r1 Ht Hd Hn Hs) as (p & t' & r' & ->).
  - lia.
  - rewrite Hval, (times_of_u64 E L) by lia. exact Hc.
  - cbn [bind]. eauto.
Qed.

Lemma encrypt_range_out (K : PublicKey E) n d v r :
  doc_form n d -> n < u64_lim -> n <= v ->
  encrypt_range K {| pr_inner := d; pr_admissible := range_values d |} v r = Panic PAssert.
Proof.
  intros Hd Hn Hv. unfold encrypt_range, RangeProof_new.
  destruct (CiphertextWithValue_new s_of_u64 v K r) as [c r1] eqn:Hc.
  assert (Hval : cwv_value c = v).
  { unfold CiphertextWithValue_new in Hc. destruct (ExtendedCiphertext_new _ _ _). injection Hc as <- <-. reflexivity. }
  rewrite range_out_of_range with (n := n) by (try assumption; lia). reflexivity.
Qed.
End Proofs.

(** ** decompositions have few rings *)
Lemma doc_form_log n d : doc_form n d -> 2 ^ N.of_nat (List.length d) <= n.
Proof.
  induction 1 as [t Ht|T d t k H IH Hk Hkt]; [exact Ht|].
  rewrite app_length, map_length. cbn [List.length]. replace (N.of_nat (List.length d + 1)) with (N.succ (N.of_nat (List.length d))) by lia.
  rewrite N.pow_succ_r'. pose proof (doc_form_ge2 _ _ H). nia.
Qed.

Lemma sizes_fit n d : doc_form n d -> n + 64 < u64_lim -> n_sum (map rs_size d) < u64_lim.
Proof.
  intros H Hn. pose proof (doc_form_log n d H) as Hl. pose proof (n_sum_size_le n d H) as Hs.
  assert (Hlt : 2 ^ N.of_nat (List.length d) < 2 ^ 64) by (change (2 ^ 64) with u64_lim; lia).
  apply N.pow_lt_mono_r_iff in Hlt; [|lia]. lia.
Qed.
