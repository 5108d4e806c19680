(** * C54: tallying verified ballots *)
From Coq Require Import List NArith ZArith Arith Bool String Lia.
From Verif.Model Require Import Base Group Transcript Keys Encryption LogEquality Possession
  Ring Range Commitment Mul Sharing Choice Quadratic.
From Verif.Spec Require Import Encryption Sigma Sharing Choice Quadratic Tally.
From Verif.Proofs Require Import Lists Algebra Encryption RangeProof Sharing Choice.
From Verif.Instance Require Import Primality Zq.
From Verif.Properties Require Import LogEquality Choice Quadratic Sharing.
Import ListNotations.
Open Scope string_scope.
Open Scope list_scope.
Open Scope nat_scope.

Section Totals.
Context (E : Env) (L : GroupLaws E).

Lemma tally_from (sk : SecretKey E) : forall vss ballots acc accv n,
  Forall2 (votes_of sk) vss ballots -> Forall (fun cts => List.length cts = n) ballots ->
  votes_of sk accv acc -> List.length acc = n ->
  let out := fold_left (fun totals cts => map (fun p => Ciphertext_add (fst p) (snd p)) (combine totals cts)) ballots acc in
  List.length out = n /\
  forall i ct, nth_error out i = Some ct ->
    decrypt_to_element sk ct = times (nth i accv 0%N + column i vss) generator.
Proof.
  intros vss ballots acc accv n H. revert acc accv. induction H as [|vs cts vss ballots Hv H IH]; intros acc accv Hn Ha Hl.
  - cbn. split; [exact Hl|]. intros i ct Hi. rewrite N.add_0_r.
    destruct (Forall2_nth_r _ _ _ Ha i ct Hi) as (v & Hvi & ->). rewrite (nth_error_nth accv i 0%N Hvi). reflexivity.
  - cbn [fold_left]. inversion Hn as [|? ? Hc Hn']; subst.
    assert (Ha' : votes_of sk (map (fun p => (fst p + snd p)%N) (combine accv vs))
                    (map (fun p => Ciphertext_add (fst p) (snd p)) (combine acc cts))).
    { clear IH H Hn Hn'. revert vs cts Hv Hc. induction Ha as [|v c accv acc Hvc Ha IHa]; intros vs cts Hv Hc.
      - destruct cts; [|discriminate]. inversion Hv; subst. constructor.
      - destruct Hv as [|w d vs cts Hw Hv]; [discriminate|]. cbn [combine map fst snd]. constructor; [|apply IHa; [exact Hv|cbn in Hc; lia]].
        cbn in *. pose proof (decrypt_hom E L sk (XAdd (XCipher c) (XCipher d)) (conj I I)) as Hd. cbn in Hd.
        rewrite Hd, Hvc, Hw. symmetry. apply (times_add E L). }
    specialize (IH _ _ Hn' Ha'). rewrite map_length, combine_length, Hc, Nat.min_id in IH. destruct (IH eq_refl) as [IH1 IH2].
    split; [exact IH1|]. intros i ct Hi. rewrite (IH2 i ct Hi). f_equal.
    assert (Hlv : List.length vs = List.length accv).
    { rewrite (Forall2_length' _ _ _ Hv), (Forall2_length' _ _ _ Ha). exact Hc. }
    unfold column. cbn [map fold_right]. rewrite N.add_assoc. f_equal.
    clear -Hlv. revert i vs Hlv. induction accv as [|a accv IH]; intros [|i] [|v vs] Hlv; cbn in *; try discriminate; try reflexivity.
    apply IH. lia.
Qed.

Lemma tally_ok (sk : SecretKey E) vss ballots n :
  Forall2 (votes_of sk) vss ballots -> Forall (fun cts => List.length cts = n) ballots ->
  List.length (tally n ballots) = n /\
  forall i ct, nth_error (tally n ballots) i = Some ct -> decrypt_to_element sk ct = times (column i vss) generator.
Proof.
  intros H Hn.
  assert (H0 : votes_of sk (repeat 0%N n) (repeat Ciphertext_zero n)).
  { clear -L. induction n as [|n IH]; cbn [repeat]; constructor; [|exact IH].
    exact (decrypt_hom E L sk XZero I). }
  destruct (tally_from sk vss ballots _ _ n H Hn H0 (repeat_length _ _)) as [H1 H2]. split; [exact H1|].
  intros i ct Hi. rewrite (H2 i ct Hi). f_equal.
  rewrite nth_repeat. reflexivity.
Qed.

End Totals.

(** ** Sums of ciphertexts *)

(** The totals of any number of ballots decrypt to the sums of what the ballots decrypt to. *)
Theorem C54_totals :
  forall (E : Env) (L : GroupLaws E) (sk : SecretKey E) n (votes : list (list N)) (ballots : list (list (Ciphertext E))),
    Forall2 (votes_of sk) votes ballots -> Forall (fun cts => List.length cts = n) ballots ->
    List.length (tally n ballots) = n /\
    forall i ct, nth_error (tally n ballots) i = Some ct ->
      decrypt_to_element sk ct = times (column i votes) generator.
Proof. intros E L sk n votes ballots. exact (tally_ok E L sk votes ballots n). Qed.
Print Assumptions C54_totals.

(** ... which a table over the possible totals turns into the totals themselves *)
Theorem C54_totals_decoded :
  forall (E : Env) (L : GroupLaws E), (2 ^ 64 <= order L)%Z ->
  forall (sk : SecretKey E) n (votes : list (list N)) (ballots : list (list (Ciphertext E))) values,
    Forall2 (votes_of sk) votes ballots -> Forall (fun cts => List.length cts = n) ballots ->
    (forall x, In x values -> (x < 2 ^ 64)%N) ->
    exists tbl, DiscreteLogTable_new (E:=E) values = Ret tbl /\
    forall i ct, nth_error (tally n ballots) i = Some ct -> column i votes = 0%N \/ In (column i votes) values ->
      decrypt sk ct tbl = Ret (Some (column i votes)).
Proof.
  intros E L Hbig sk n votes ballots values Hv Hn Hvals. destruct (table_new_ok E L Hbig values Hvals) as (tbl & Ht & Hget & _).
  exists tbl. split; [exact Ht|]. intros i ct Hi Hc. unfold decrypt.
  rewrite (proj2 (tally_ok E L sk votes ballots n Hv Hn) i ct Hi).
  rewrite (times_of_u64 E L) by (destruct Hc as [->|Hc]; [reflexivity|exact (Hvals _ Hc)]). apply Hget. exact Hc.
Qed.
Print Assumptions C54_totals_decoded.

(** ** What is in accepted ballots *)

Lemma flags_votes (E : Env) (sk : SecretKey E) flags (cts : list (Ciphertext E)) :
  GroupLaws E ->
  Forall2 (fun flag ct => decrypt_to_element sk ct = if flag : bool then generator else identity) flags cts ->
  votes_of sk (map (fun f : bool => if f then 1%N else 0%N) flags) cts.
Proof.
  intros L H. induction H as [|f ct flags cts Hf H IH]; cbn [map]; constructor; [|exact IH].
  rewrite Hf. destruct f; [|reflexivity]. unfold times. cbn. symmetry. apply (e_add_id_r L).
Qed.

(** Honest multi-choice ballots: the total of option [i] is the number of ballots which chose it. *)
Theorem C54_honest_choices :
  forall (E : Env) (L : GroupLaws E) (sk : SecretKey E) (receiver : PublicKey E) n params
         (choices : list (list bool)) (es : list (EncryptedChoice MultiChoice)),
    key_of sk receiver -> ChoiceParams_multi receiver n = Ret params ->
    Forall2 (fun flags e => exists rng rng', EncryptedChoice_new params flags rng = Ret (e, rng')) choices es ->
    exists ballots, Forall2 (fun e cts => EncryptedChoice_verify e params = Ret (Ok cts)) es ballots /\
      List.length (tally n ballots) = n /\
      forall i ct, nth_error (tally n ballots) i = Some ct ->
        decrypt_to_element sk ct
        = times (N.of_nat (List.length (filter (fun flags => nth i flags false) choices))) generator.
Proof.
  intros E L sk receiver n params choices es Hk Hp H. exists (map ec_choices es).
  assert (Hv : Forall2 (votes_of sk) (map (map (fun f : bool => if f then 1%N else 0%N)) choices) (map ec_choices es) /\
               Forall (fun cts => List.length cts = n) (map ec_choices es) /\
               Forall2 (fun e cts => EncryptedChoice_verify e params = Ret (Ok cts)) es (map ec_choices es)).
  { induction H as [|flags e choices es (rng & rng' & He) H (IH1 & IH2 & IH3)]; cbn [map]; [repeat constructor|].
    destruct (C41_multi_complete E L receiver n params flags rng e rng' Hp He) as [V1 V2].
    destruct (C42_multi_sound E L sk receiver n params e _ Hk Hp V1) as [V3 _].
    split; [constructor; [exact (flags_votes E sk _ _ L (V2 sk Hk))|exact IH1]|].
    split; constructor; assumption. }
  destruct Hv as (V1 & V2 & V3). split; [exact V3|].
  destruct (tally_ok E L sk _ _ n V1 V2) as [T1 T2]. split; [exact T1|]. intros i ct Hi. rewrite (T2 i ct Hi). f_equal.
  clear. unfold column. induction choices as [|flags choices IH]; [reflexivity|]. cbn [map fold_right filter]. rewrite IH.
  assert (Hn : nth i (map (fun f : bool => if f then 1%N else 0%N) flags) 0%N = if nth i flags false then 1%N else 0%N).
  { change 0%N with ((fun f : bool => if f then 1%N else 0%N) false) at 2. rewrite map_nth. reflexivity. }
  rewrite Hn. destruct (nth i flags false); cbn [List.length]; lia.
Qed.
Print Assumptions C54_honest_choices.

(** Any accepted single-choice ballots, honest or not: every ballot has chosen exactly one option and the
    totals count the choices, or somebody cheated in a proof. *)
Theorem C54_single_choices :
  forall (E : Env) (L : GroupLaws E) (sk : SecretKey E) (receiver : PublicKey E) n params
         (es : list (EncryptedChoice SingleChoice)) ballots,
    (Z.of_nat n < order L)%Z -> key_of sk receiver -> ChoiceParams_single receiver n = Ret params ->
    Forall2 (fun e cts => EncryptedChoice_verify e params = Ret (Ok cts)) es ballots ->
    (exists chosen, List.length chosen = List.length es /\ (forall k, In k chosen -> k < n) /\
       List.length (tally n ballots) = n /\
       forall i ct, nth_error (tally n ballots) i = Some ct ->
         decrypt_to_element sk ct = times (N.of_nat (count_occ Nat.eq_dec chosen i)) generator) \/
    (exists cts, In cts ballots /\
       ((exists k, bit_hit choice_ranges_context receiver cts k) \/
        log_hit choice_sum_context receiver (random_element (ct_total cts)) (blinded_element (ct_total cts) - generator)%E)).
Proof.
  intros E L sk receiver n params es ballots Hn Hk Hp H.
  assert (Hv : (exists chosen, List.length chosen = List.length es /\ (forall k, In k chosen -> k < n) /\
                  Forall2 (votes_of sk) (map (choice_votes n) chosen) ballots /\
                  Forall (fun cts => List.length cts = n) ballots) \/
               (exists cts, In cts ballots /\
                  ((exists k, bit_hit choice_ranges_context receiver cts k) \/
                   log_hit choice_sum_context receiver (random_element (ct_total cts)) (blinded_element (ct_total cts) - generator)%E))).
  { induction H as [|e cts es ballots He H IH].
    - left. exists []. repeat split; [intros k []|constructor|constructor].
    - destruct (C42_single_sound E L sk receiver n params e cts Hn Hk Hp He) as [Hl [[k [Hk1 Hk2]]|Hh]];
        [|right; exists cts; split; [left; reflexivity|exact Hh]].
      destruct IH as [(chosen & C1 & C2 & C3 & C4)|(c & Hc & Hh)]; [left|right; exists c; split; [right; exact Hc|exact Hh]].
      exists (k :: chosen). split; [cbn; congruence|]. split; [intros j [<-|Hj]; [lia|exact (C2 j Hj)]|].
      split; [|constructor; [exact Hl|exact C4]]. cbn [map]. constructor; [|exact C3].
      unfold votes_of, choice_votes. apply Forall2_nth_intro; [rewrite map_length, seq_length; congruence|].
      intros i v ct Hv Hct. specialize (Hk2 i ct Hct). rewrite Hk2. unfold bit_element.
      assert (Hi : i < n). { rewrite <- Hl. apply nth_error_Some. congruence. }
      rewrite nth_error_map, (nth_error_nth' (seq 0 n) 0) in Hv by (rewrite seq_length; exact Hi).
      rewrite seq_nth in Hv by exact Hi. cbn in Hv. injection Hv as <-. destruct (i =? k); [|reflexivity].
      unfold times. cbn. symmetry. apply (e_add_id_r L). }
  destruct Hv as [(chosen & C1 & C2 & C3 & C4)|Hh]; [left|right; exact Hh].
  exists chosen. split; [exact C1|]. split; [exact C2|]. destruct (tally_ok E L sk _ _ n C3 C4) as [T1 T2].
  split; [exact T1|]. intros i ct Hi. rewrite (T2 i ct Hi). f_equal.
  assert (Hin : i < n). { rewrite <- T1. apply nth_error_Some. congruence. }
  clear -Hin. unfold column. induction chosen as [|k chosen IH]; [reflexivity|]. cbn [map fold_right count_occ]. rewrite IH.
  assert (Hn : nth i (choice_votes n k) 0%N = if i =? k then 1%N else 0%N).
  { unfold choice_votes. rewrite (nth_indep _ 0%N ((fun j => if j =? k then 1%N else 0%N) 0)) by (rewrite map_length, seq_length; exact Hin).
    rewrite (map_nth (fun j => if j =? k then 1%N else 0%N)), seq_nth by exact Hin. reflexivity. }
  rewrite Hn. destruct (Nat.eq_dec k i) as [->|Hne].
  - rewrite Nat.eqb_refl. lia.
  - replace (i =? k) with false by (symmetry; apply Nat.eqb_neq; congruence). reflexivity.
Qed.
Print Assumptions C54_single_choices.

(** Any accepted multi-choice ballots: every ballot has chosen a set of options and the totals count the
    ballots that chose each of them, or somebody cheated in a proof. *)
Theorem C54_multi_choices :
  forall (E : Env) (L : GroupLaws E) (sk : SecretKey E) (receiver : PublicKey E) n params
         (es : list (EncryptedChoice MultiChoice)) ballots,
    key_of sk receiver -> ChoiceParams_multi receiver n = Ret params ->
    Forall2 (fun e cts => EncryptedChoice_verify e params = Ret (Ok cts)) es ballots ->
    (exists chosen : list (list bool), List.length chosen = List.length es /\ (forall flags, In flags chosen -> List.length flags = n) /\
       List.length (tally n ballots) = n /\
       forall i ct, nth_error (tally n ballots) i = Some ct ->
         decrypt_to_element sk ct
         = times (N.of_nat (List.length (filter (fun flags => nth i flags false) chosen))) generator) \/
    (exists cts k, In cts ballots /\ bit_hit choice_ranges_context receiver cts k).
Proof.
  intros E L sk receiver n params es ballots Hk Hp H.
  assert (Hv : (exists chosen : list (list bool), List.length chosen = List.length es /\ (forall flags, In flags chosen -> List.length flags = n) /\
                  Forall2 (votes_of sk) (map (map (fun f : bool => if f then 1%N else 0%N)) chosen) ballots /\
                  Forall (fun cts => List.length cts = n) ballots) \/
               (exists cts k, In cts ballots /\ bit_hit choice_ranges_context receiver cts k)).
  { induction H as [|e cts es ballots He H IH].
    - left. exists []. repeat split; [intros k []|constructor|constructor].
    - destruct (C42_multi_sound E L sk receiver n params e cts Hk Hp He) as [Hl [Hbits|[k Hh]]];
        [|right; exists cts, k; split; [left; reflexivity|exact Hh]].
      destruct IH as [(chosen & C1 & C2 & C3 & C4)|(c & k & Hc & Hh)]; [left|right; exists c, k; split; [right; exact Hc|exact Hh]].
      assert (Hflags : exists flags, Forall2 (fun (flag : bool) ct => decrypt_to_element sk ct = if flag then generator else identity) flags cts).
      { clear - Hbits. induction cts as [|ct cts IH]; [exists []; constructor|].
        destruct IH as [flags Hf]; [intros c Hc; apply Hbits; right; exact Hc|].
        destruct (Hbits ct (or_introl eq_refl)) as [Hb|Hb]; [exists (false :: flags)|exists (true :: flags)]; constructor; assumption. }
      destruct Hflags as [flags Hf]. exists (flags :: chosen). split; [cbn; congruence|].
      split; [intros f [<-|Hin]; [rewrite (Forall2_length' _ _ _ Hf); exact Hl|exact (C2 f Hin)]|].
      split; [|constructor; [exact Hl|exact C4]]. cbn [map]. constructor; [exact (flags_votes E sk _ _ L Hf)|exact C3]. }
  destruct Hv as [(chosen & C1 & C2 & C3 & C4)|Hh]; [left|right; exact Hh].
  exists chosen. split; [exact C1|]. split; [exact C2|]. destruct (tally_ok E L sk _ _ n C3 C4) as [T1 T2].
  split; [exact T1|]. intros i ct Hi. rewrite (T2 i ct Hi). f_equal.
  clear. unfold column. induction chosen as [|flags chosen IH]; [reflexivity|]. cbn [map fold_right filter]. rewrite IH.
  assert (Hn : nth i (map (fun f : bool => if f then 1%N else 0%N) flags) 0%N = if nth i flags false then 1%N else 0%N).
  { change 0%N with ((fun f : bool => if f then 1%N else 0%N) false) at 2. rewrite map_nth. reflexivity. }
  rewrite Hn. destruct (nth i flags false); cbn [List.length]; lia.
Qed.
Print Assumptions C54_multi_choices.

(** Any accepted quadratic-voting ballots: within the limits, and the totals add up the votes. *)
Theorem C54_quadratic :
  forall (E : Env) (L : GroupLaws E) (sk : SecretKey E) (receiver : PublicKey E) options credits m p
         (bs : list (QuadraticVotingBallot E)) ballots,
    (credits + 65 < 2 ^ 64)%N -> qv_params receiver options credits m p -> key_of sk receiver ->
    (Z.of_nat options * (Z.of_N m * Z.of_N m) < order L)%Z -> (Z.of_N credits < order L)%Z ->
    Forall2 (fun b cts => QuadraticVotingBallot_verify b p = Ret (Ok cts)) bs ballots ->
    (exists votes, List.length votes = List.length bs /\
       Forall (fun vs => List.length vs = options /\ Forall (fun v => (v <= m)%N) vs /\ (squares vs <= credits)%N) votes /\
       List.length (tally options ballots) = options /\
       forall i ct, nth_error (tally options ballots) i = Some ct ->
         decrypt_to_element sk ct = times (column i votes) generator) \/
    (exists b, In b bs /\
       ((exists v, In v (qb_votes b) /\
          range_hit sk qv_variant_context receiver (pr_inner (qv_vote_count_range p))
            (rap_partial (crp_range_proof v)) (crp_ciphertext v)) \/
        range_hit sk qv_credit_context receiver (pr_inner (qv_credit_range p))
          (rap_partial (crp_range_proof (qb_credit b))) (crp_ciphertext (qb_credit b)) \/
        sq_hit qv_equiv_context receiver (map crp_ciphertext (qb_votes b)) (crp_ciphertext (qb_credit b)))).
Proof.
  intros E L sk receiver options credits m p bs ballots Hc Hp Hk Hb Hco H.
  assert (Hv : (exists votes, List.length votes = List.length bs /\
       Forall (fun vs => List.length vs = options /\ Forall (fun v => (v <= m)%N) vs /\ (squares vs <= credits)%N) votes /\
       Forall2 (votes_of sk) votes ballots /\ Forall (fun cts => List.length cts = options) ballots) \/
    (exists b, In b bs /\
       ((exists v, In v (qb_votes b) /\
          range_hit sk qv_variant_context receiver (pr_inner (qv_vote_count_range p))
            (rap_partial (crp_range_proof v)) (crp_ciphertext v)) \/
        range_hit sk qv_credit_context receiver (pr_inner (qv_credit_range p))
          (rap_partial (crp_range_proof (qb_credit b))) (crp_ciphertext (qb_credit b)) \/
        sq_hit qv_equiv_context receiver (map crp_ciphertext (qb_votes b)) (crp_ciphertext (qb_credit b))))).
  { induction H as [|b cts bs ballots Hv H IH].
    - left. exists []. repeat split; constructor.
    - destruct (C47_sound E L sk receiver options credits m p b cts Hc Hp Hk Hb Hco Hv) as [Hl [(vs & V1 & V2)|Hh]].
      2:{ right. exists b. split; [left; reflexivity|].
          apply (C47_accepts_iff E b p cts) in Hv. destruct Hv as (-> & _). exact Hh. }
      destruct IH as [(votes & C1 & C2 & C3 & C4)|(c & Hin & Hh)]; [left|right; exists c; split; [right; exact Hin|exact Hh]].
      exists (vs :: votes). split; [cbn; congruence|]. split; [constructor; [|exact C2]|].
      + split; [rewrite (Forall2_length' _ _ _ V1); exact Hl|]. split; [|exact V2].
        clear -V1. induction V1 as [|v ct vs cts [Hv _] _ IH]; constructor; assumption.
      + split; [constructor; [|exact C3]|constructor; [exact Hl|exact C4]].
        clear -V1. unfold votes_of. induction V1 as [|v ct vs cts [_ Hv] _ IH]; constructor; assumption. }
  destruct Hv as [(votes & C1 & C2 & C3 & C4)|Hh]; [left|right; exact Hh].
  exists votes. split; [exact C1|]. split; [exact C2|]. exact (tally_ok E L sk _ _ options C3 C4).
Qed.
Print Assumptions C54_quadratic.

(** ** Decryption of the totals by talliers *)

(** Accepted decryption shares of [t] different talliers reveal the exact number, or one of the talliers cheated.
    The key set may have been restored from the keys of the participants alone. *)
Theorem C54_threshold_from_participants :
  forall (E : Env) (L : GroupLaws E), (2 ^ 64 <= order L)%Z ->
  forall params keys (ks : PublicKeySet E), params_ok params -> PublicKeySet_from_participants params keys = Ret (Ok ks) ->
  exists sk, key_of sk (ks_shared_key ks) /\
  forall (ct : Ciphertext E) (v : N) taken rest values,
    decrypt_to_element sk ct = times v generator ->
    List.length taken = pa_threshold params -> NoDup (map fst taken) ->
    (forall s, In s taken -> fst s < pa_shares params /\ accepted_share ks ct s) ->
    (forall x, In x values -> (x < 2 ^ 64)%N) -> v = 0%N \/ In v values ->
    (exists dec tbl, combine_shares params (taken ++ rest) = Ret (Some dec) /\
       DiscreteLogTable_new (E:=E) values = Ret tbl /\
       VerifiableDecryption_decrypt dec ct tbl = Ret (Some v)) \/
    exists s, In s taken /\ share_hit ks ct (fst s) (vd_dh_element (snd s)).
Proof.
  intros E L Hbig params keys ks Hp Hks.
  apply (C33_accepts_iff E L Hbig params keys ks Hp) in Hks. destruct Hks as (A4 & a & A1 & A5 & A3 & A2 & Hkeys). rewrite <- Hkeys in A4, A5. clear keys Hkeys.
  exists (peval a 0%S). split; [exact (proj1 (pk_from_element_ok E _ _ A3))|]. intros ct v taken rest values Hd Hlen Hnd Hs Hvals Hv.
  assert (Hcases : (forall s, In s taken -> vd_dh_element (snd s) = (random_element ct * peval a (s_of_u64 (N.of_nat (fst s + 1))))%E) \/
                   exists s, In s taken /\ share_hit ks ct (fst s) (vd_dh_element (snd s))).
  { clear Hlen Hnd. induction taken as [|s taken IH]; [left; intros s []|].
    destruct IH as [IH|(s' & Hin & Hh)]; [intros s' Hin; apply Hs; right; exact Hin| |right; exists s'; split; [right; exact Hin|exact Hh]].
    destruct (e_eq_dec L (vd_dh_element (snd s)) (random_element ct * peval a (s_of_u64 (N.of_nat (fst s + 1))))%E) as [He|He].
    - left. intros s' [<-|Hin]; [exact He|exact (IH s' Hin)].
    - right. exists s. split; [left; reflexivity|].
      destruct (Hs s (or_introl eq_refl)) as (Hi & cand & pf & Hver).
      destruct (nth_error (ks_participant_keys ks) (fst s)) as [key|] eqn:Hkey; [|apply nth_error_None in Hkey; lia].
      destruct (C34_share_sound E L ks cand ct (fst s) pf (snd s) key _ Hver Hkey (A5 _ _ Hkey)) as [_ Hsound].
      destruct (Hsound He) as (base & X0 & X1 & q & S1 & S2 & S3 & S4). exists key, base, X0, X1, q. auto. }
  destruct Hcases as [Hgood|Hh]; [left|right; exact Hh].
  destruct Hp as [[Ht1 Ht2] Hn].
  destruct (C29_combine_correct E L Hbig params a ct taken rest Hn) as (dec & D1 & _ & D2);
    [lia|exact Hlen|exact Hnd|intros i d Hin; split; [exact (proj1 (Hs (i, d) Hin))|exact (Hgood (i, d) Hin)]|].
  destruct (table_new_ok E L Hbig values Hvals) as (tbl & Ht & Hget & _).
  exists dec, tbl. split; [exact D1|]. split; [exact Ht|]. unfold VerifiableDecryption_decrypt. rewrite D2, Hd.
  rewrite (times_of_u64 E L) by (destruct Hv as [->|Hv]; [reflexivity|exact (Hvals _ Hv)]). apply Hget. exact Hv.
Qed.
Print Assumptions C54_threshold_from_participants.

(** the same for a key set made of the polynomial of a dealer *)
Theorem C54_threshold :
  forall (E : Env) (L : GroupLaws E), (2 ^ 64 <= order L)%Z ->
  forall params poly pop (ks : PublicKeySet E), params_ok params -> PublicKeySet_new params poly pop = Ret (Ok ks) ->
  exists sk, key_of sk (ks_shared_key ks) /\
  forall (ct : Ciphertext E) (v : N) taken rest values,
    decrypt_to_element sk ct = times v generator ->
    List.length taken = pa_threshold params -> NoDup (map fst taken) ->
    (forall s, In s taken -> fst s < pa_shares params /\ accepted_share ks ct s) ->
    (forall x, In x values -> (x < 2 ^ 64)%N) -> v = 0%N \/ In v values ->
    (exists dec tbl, combine_shares params (taken ++ rest) = Ret (Some dec) /\
       DiscreteLogTable_new (E:=E) values = Ret tbl /\
       VerifiableDecryption_decrypt dec ct tbl = Ret (Some v)) \/
    exists s, In s taken /\ share_hit ks ct (fst s) (vd_dh_element (snd s)).
Proof.
  intros E L Hbig params poly pop ks Hp Hks.
  exact (C54_threshold_from_participants E L Hbig params _ ks Hp (C33_agrees_with_new E L Hbig params poly pop ks Hp Hks)).
Qed.
Print Assumptions C54_threshold.

(** A complete election with single-choice ballots: dealing, voting, tallying and threshold decryption
    with a table for [0 ..= number of ballots].  Each option's published number is the number of ballots
    which chose it, or somebody (dealer aside) cheated in a proof. *)
Theorem C54_election :
  forall (E : Env) (L : GroupLaws E), (2 ^ 64 <= order L)%Z ->
  forall params poly pop (ks : PublicKeySet E) n cp (es : list (EncryptedChoice SingleChoice)) ballots values,
    params_ok params -> PublicKeySet_new params poly pop = Ret (Ok ks) ->
    ChoiceParams_single (ks_shared_key ks) n = Ret cp -> (Z.of_nat n < order L)%Z ->
    Forall2 (fun e cts => EncryptedChoice_verify e cp = Ret (Ok cts)) es ballots ->
    (forall x, In x values <-> (x <= N.of_nat (List.length es))%N) -> (N.of_nat (List.length es) < 2 ^ 64)%N ->
    (exists chosen, List.length chosen = List.length es /\ (forall k, In k chosen -> k < n) /\
       forall i ct taken rest, nth_error (tally n ballots) i = Some ct ->
         List.length taken = pa_threshold params -> NoDup (map fst taken) ->
         (forall s, In s taken -> fst s < pa_shares params /\ accepted_share ks ct s) ->
         (exists dec tbl, combine_shares params (taken ++ rest) = Ret (Some dec) /\
            DiscreteLogTable_new (E:=E) values = Ret tbl /\
            VerifiableDecryption_decrypt dec ct tbl = Ret (Some (N.of_nat (count_occ Nat.eq_dec chosen i)))) \/
         exists s, In s taken /\ share_hit ks ct (fst s) (vd_dh_element (snd s))) \/
    (exists cts, In cts ballots /\
       ((exists k, bit_hit choice_ranges_context (ks_shared_key ks) cts k) \/
        log_hit choice_sum_context (ks_shared_key ks) (random_element (ct_total cts)) (blinded_element (ct_total cts) - generator)%E)).
Proof.
  intros E L Hbig params poly pop ks n cp es ballots values Hp Hks Hcp Hn Hes Hvals Hlen.
  destruct (C54_threshold E L Hbig params poly pop ks Hp Hks) as (sk & Hk & Hth).
  destruct (C54_single_choices E L sk (ks_shared_key ks) n cp es ballots Hn Hk Hcp Hes) as [(chosen & C1 & C2 & C3 & C4)|Hh];
    [left|right; exact Hh].
  exists chosen. split; [exact C1|]. split; [exact C2|]. intros i ct taken rest Hi Ht Hnd Hs.
  apply (Hth ct _ taken rest values (C4 i ct Hi) Ht Hnd Hs).
  - intros x Hx. apply Hvals in Hx. lia.
  - right. apply Hvals. pose proof (count_occ_bound Nat.eq_dec i chosen). lia.
Qed.
Print Assumptions C54_election.

(** the hypotheses of the theorems above can be met: three ballots for options 1, 0 and 1, and
    shares of talliers 2, 0 and 4 *)
Example C54_example :
  exists (d : Dealer RE) poly pop (ks : PublicKeySet RE) cp (es : list (EncryptedChoice SingleChoice)) ballots,
    params_ok ex_params /\ PublicKeySet_new ex_params poly pop = Ret (Ok ks) /\
    ChoiceParams_single (ks_shared_key ks) 2 = Ret cp /\
    Forall2 (fun k e => exists rng rng', EncryptedChoice_single cp k rng = Ret (e, rng')) [1; 0; 1] es /\
    Forall2 (fun e cts => EncryptedChoice_verify e cp = Ret (Ok cts)) es ballots /\
    forall ct, exists taken : list (nat * VerifiableDecryption RE),
      map fst taken = [2; 0; 4] /\ forall s, In s taken -> fst s < pa_shares ex_params /\ accepted_share ks ct s.
Proof.
  assert (Hp : params_ok ex_params) by (split; [cbn; lia|vm_compute; reflexivity]).
  destruct (C32_dealing_never_panics RE RL RE_order_big RE_ser_total ex_params 4%Z Hp) as (d & r' & ks & Hd & Hks).
  destruct (proj2 (C41_never_panics RE RL RE_ser_total (ks_shared_key ks) 2 5%Z ltac:(lia) ltac:(vm_compute; reflexivity)))
    as (cp & Hcp & _ & Hone).
  assert (Hk : forall k, k < 2 -> exists e, (exists rng rng', EncryptedChoice_single cp k rng = Ret (e, rng')) /\
                                           EncryptedChoice_verify e cp = Ret (Ok (ec_choices e))).
  { intros k Hk. destruct (Hone k Hk) as (e & rng' & He). exists e. split; [eauto|].
    apply (C41_single_index_complete RE RL (ks_shared_key ks) 2 cp k 5%Z e rng' Hcp He). }
  destruct (Hk 1 ltac:(lia)) as (e1 & E1 & V1). destruct (Hk 0 ltac:(lia)) as (e0 & E0 & V0).
  exists d, (fst (Dealer_public_info d)), (snd (Dealer_public_info d)), ks, cp, [e1; e0; e1], (map ec_choices [e1; e0; e1]).
  split; [exact Hp|]. split; [exact Hks|]. split; [exact Hcp|]. split; [repeat constructor; assumption|].
  split; [repeat constructor; assumption|]. intros ct.
  assert (Hs : forall i, i < 5 -> exists dd, accepted_share ks ct (i, dd)).
  { intros i Hi. destruct (C35_every_participant_can_contribute RE RL RE_order_big RE_ser_total ex_params 4%Z d r' ks ct i Hp Hd Hks Hi 6%Z)
      as (dd & share & a & rng & cand & pf & rng' & _ & _ & _ & H). exists dd, {| cd_inner := cand |}, pf. exact H. }
  destruct (Hs 2 ltac:(lia)) as [d2 D2]. destruct (Hs 0 ltac:(lia)) as [d0 D0]. destruct (Hs 4 ltac:(lia)) as [d4 D4].
  exists [(2, d2); (0, d0); (4, d4)]. split; [reflexivity|].
  intros s [<-|[<-|[<-|[]]]]; (split; [cbn; lia|assumption]).
Qed.

(** two ballots with votes (1, 0, 5) and (2, 7, 0) under the key 3 *)
Definition ex_vote (r v : Z) : Ciphertext RE := {| random_element := re r; blinded_element := re (3 * r + v) |}.
Example C54_totals_example :
  map (fun ct => e_eqb (decrypt_to_element (rs 3) ct) (re 0))
      (tally 3 [[ex_vote 5 1; ex_vote 6 0; ex_vote 7 5]; [ex_vote 8 2; ex_vote 9 7; ex_vote 10 0]]) = [false; false; false] /\
  map (fun p => e_eqb (decrypt_to_element (rs 3) (fst p)) (re (snd p)))
      (combine (tally 3 [[ex_vote 5 1; ex_vote 6 0; ex_vote 7 5]; [ex_vote 8 2; ex_vote 9 7; ex_vote 10 0]]) [3; 7; 5]%Z)
    = [true; true; true] /\
  map (fun i => column i [[1; 0; 5]; [2; 7; 0]]%N) [0; 1; 2] = [3; 7; 5]%N.
Proof. vm_compute. auto. Qed.
