(** * C29-C35: threshold encryption *)
From Coq Require Import List NArith ZArith String Lia Arith.
From Verif.Model Require Import Base Group Transcript Keys Encryption LogEquality Possession Sharing.
From Verif.Spec Require Import Encryption LogEquality Possession Sharing.
From Verif.Proofs Require Import Algebra Encryption LogEquality Sharing.
From Verif.Instance Require Import Primality Zq.
Import ListNotations.
Open Scope string_scope.
Open Scope list_scope.
Open Scope nat_scope.

(** ** C29: any threshold of valid shares decrypts *)

(** [taken] are [t] shares of distinct participants in any order, [rest] is arbitrary. *)
Theorem C29_combine_correct :
  forall (E : Env) (L : GroupLaws E), (2 ^ 64 <= order L)%Z ->
  forall (params : Params) (p : list (Scalar E)) (c : Ciphertext E) taken rest,
    (N.of_nat (pa_shares params) < 2 ^ 64)%N ->
    List.length p <= pa_threshold params ->
    List.length taken = pa_threshold params ->
    NoDup (map fst taken) ->
    (forall i d, In (i, d) taken ->
       i < pa_shares params /\ vd_dh_element d = (random_element c * peval p (s_of_u64 (N.of_nat (i + 1))))%E) ->
    exists d, combine_shares params (taken ++ rest) = Ret (Some d) /\
      vd_dh_element d = (random_element c * peval p 0)%E /\
      VerifiableDecryption_decrypt_to_element d c = decrypt_to_element (peval p 0%S) c.
Proof.
  intros E L Hbig params p c taken rest Hn Hp Ht Hnd Hs.
  rewrite (combine_shares_correct E L Hbig params p c taken rest Hn Hp Ht Hnd).
  - eexists. split; [reflexivity|]. split; reflexivity.
  - intros [i d] Hin. exact (Hs i d Hin).
Qed.
Print Assumptions C29_combine_correct.

Theorem C29_none_iff_too_few :
  forall (E : Env) (L : GroupLaws E), (2 ^ 64 <= order L)%Z ->
  forall (params : Params) (shares : list (nat * VerifiableDecryption E)),
    (N.of_nat (pa_shares params) < 2 ^ 64)%N ->
    combine_shares params shares = Ret None <-> List.length shares < pa_threshold params.
Proof. intros E L H params shares. exact (combine_shares_none_iff E L H params shares). Qed.
Print Assumptions C29_none_iff_too_few.

Theorem C29_panics_iff_out_of_bounds :
  forall (E : Env) (L : GroupLaws E), (2 ^ 64 <= order L)%Z ->
  forall (params : Params) (shares : list (nat * VerifiableDecryption E)) k,
    (N.of_nat (pa_shares params) < 2 ^ 64)%N ->
    combine_shares params shares = Panic k <->
    k = PAssert /\ pa_threshold params <= List.length shares /\
    exists i, In i (map fst (firstn (pa_threshold params) shares)) /\ pa_shares params <= i.
Proof. intros E L H params shares k. exact (combine_shares_panic_iff E L H params shares k). Qed.
Print Assumptions C29_panics_iff_out_of_bounds.

(** a 3-of-5 sharing of the secret 10 with polynomial 10 + 20x + 30x^2 *)
Definition ex_poly : list (Scalar RE) := [rs 10; rs 20; rs 30].
Definition ex_ct : Ciphertext RE := {| random_element := re 77; blinded_element := re (770 + 5) |}.
Definition ex_share (i : Z) : VerifiableDecryption RE :=
  {| vd_dh_element := re (77 * (10 + 20 * (i + 1) + 30 * (i + 1) * (i + 1))) |}.
Definition combined (o : outcome (option (VerifiableDecryption RE))) (e : Element RE) : bool :=
  match o with Ret (Some d) => e_eqb (vd_dh_element d) e | _ => false end.

Example C29_example :
  (2 ^ 64 <= order RL)%Z /\
  valid_share ex_poly ex_ct (4, ex_share 4) /\ valid_share ex_poly ex_ct (0, ex_share 0) /\
  valid_share ex_poly ex_ct (2, ex_share 2) /\
  combined (combine_shares {| pa_shares := 5; pa_threshold := 3 |}
              [(4, ex_share 4); (0, ex_share 0); (2, ex_share 2); (99, ex_share 1)]) (re 770) = true /\
  combined (combine_shares {| pa_shares := 5; pa_threshold := 3 |}
              [(1, ex_share 1); (3, ex_share 3); (2, ex_share 2)]) (re 770) = true.
Proof.
  split; [vm_compute; discriminate|].
  split; [apply re_eq; vm_compute; reflexivity|]. split; [apply re_eq; vm_compute; reflexivity|].
  split; [apply re_eq; vm_compute; reflexivity|]. split; vm_compute; reflexivity.
Qed.

(** ** C30 does not hold: repeated indexes give a wrong result silently *)

(** supplying one participant's share [t] times yields [t] times that share ... *)
Theorem C30_repeated_share :
  forall (E : Env) (L : GroupLaws E), (2 ^ 64 <= order L)%Z ->
  forall (params : Params) (i : nat) (d : VerifiableDecryption E) rest,
    (N.of_nat (pa_shares params) < 2 ^ 64)%N -> (N.of_nat (pa_threshold params) < 2 ^ 64)%N ->
    i < pa_shares params ->
    combine_shares params (repeat (i, d) (pa_threshold params) ++ rest) =
    Ret (Some {| vd_dh_element := (vd_dh_element d * s_of_u64 (N.of_nat (pa_threshold params)))%E |}).
Proof. intros E L H params i d rest. exact (combine_shares_repeated E L H params i d rest). Qed.
Print Assumptions C30_repeated_share.

(** ... so valid shares can combine to a wrong decryption *)
Theorem C30_repeated_indexes_refuted :
  exists (E : Env) (L : GroupLaws E) (params : Params) (p : list (Scalar E)) (c : Ciphertext E)
         (shares : list (nat * VerifiableDecryption E)) d,
    (2 ^ 64 <= order L)%Z /\ params_ok params /\ List.length p = pa_threshold params /\
    (forall i s, In (i, s) shares -> i < pa_shares params /\ valid_share p c (i, s)) /\
    combine_shares params shares = Ret (Some d) /\
    VerifiableDecryption_decrypt_to_element d c <> decrypt_to_element (peval p 0%S) c.
Proof.
  exists RE, RL, {| pa_shares := 5; pa_threshold := 3 |}, ex_poly, ex_ct, (repeat (1, ex_share 1) 3 ++ []).
  eexists. split; [vm_compute; discriminate|]. split; [split; [cbn; lia|vm_compute; reflexivity]|].
  split; [reflexivity|]. split.
  - intros i s Hin. cbn in Hin. assert (He : (1, ex_share 1) = (i, s)) by tauto. injection He as <- <-.
    split; [cbn; lia|]. apply re_eq; vm_compute; reflexivity.
  - split.
    + apply (combine_shares_repeated RE RL RE_order_big {| pa_shares := 5; pa_threshold := 3 |});
        [vm_compute; reflexivity|vm_compute; reflexivity|cbn; lia].
    + apply re_neq. vm_compute. reflexivity.
Qed.
Print Assumptions C30_repeated_indexes_refuted.

(** ** C31: fewer than [t] shares are consistent with every secret *)

(** any dealer with such a polynomial hands out exactly these shares *)
Theorem C31_any_secret_possible :
  forall (E : Env) (L : GroupLaws E), (2 ^ 64 <= order L)%Z ->
  forall (params : Params) (is_ : list nat) (share : nat -> SecretKey E) (secret : SecretKey E),
    params_ok params ->
    NoDup is_ -> (forall i, In i is_ -> i < pa_shares params) -> List.length is_ < pa_threshold params ->
    exists p : list (Scalar E), List.length p = pa_threshold params /\
      forall d : Dealer E, de_params d = params -> map kp_secret (de_polynomial d) = p ->
        hd_error (map kp_secret (de_polynomial d)) = Some secret /\
        forall i, In i is_ -> Dealer_secret_share_for_participant d i = Ret (share i).
Proof.
  intros E L Hbig params is_ share secret [[Ht1 Ht2] Hn] Hnd Hi Hl.
  destruct (secrecy E L Hbig is_ share secret (pa_threshold params) Hnd) as (p & Hp & H0 & Hs).
  - intros i Hin. apply Hi in Hin. unfold usize. lia.
  - exact Hl.
  - exists p. split; [exact Hp|]. intros d Hd Hdp. split.
    + rewrite Hdp. destruct p as [|a p]; [cbn in Hp; lia|]. cbn. f_equal. rewrite <- H0.
      pose proof (value_at_zero_eq E L (a :: p)) as Hv. cbn.
      apply (gen_inj L). assert (Hne : a :: p <> []) by discriminate. specialize (Hv Hne).
      unfold PublicPolynomial_value_at_zero, index in Hv. cbn in Hv. injection Hv as Hv. exact Hv.
    + intros i Hin. rewrite (dealer_share_eq E L), Hd.
      replace (i <? pa_shares params) with true by (symmetry; apply Nat.ltb_lt; auto).
      rewrite Hdp, Hs by exact Hin. reflexivity.
Qed.
Print Assumptions C31_any_secret_possible.

(** with exactly [t - 1] shares each candidate secret fits exactly one polynomial,
    so the shares do not make one secret more likely than another *)
Theorem C31_unique_polynomial :
  forall (E : Env) (L : GroupLaws E), (2 ^ 64 <= order L)%Z ->
  forall (params : Params) (is_ : list nat) (d d' : Dealer E),
    params_ok params -> NoDup is_ -> (forall i, In i is_ -> i < pa_shares params) ->
    List.length is_ + 1 = pa_threshold params ->
    de_params d = params -> de_params d' = params ->
    List.length (de_polynomial d) = pa_threshold params -> List.length (de_polynomial d') = pa_threshold params ->
    (forall i, In i is_ -> Dealer_secret_share_for_participant d i = Dealer_secret_share_for_participant d' i) ->
    hd_error (map kp_secret (de_polynomial d)) = hd_error (map kp_secret (de_polynomial d')) ->
    map kp_secret (de_polynomial d) = map kp_secret (de_polynomial d').
Proof.
  intros E L Hbig params is_ d d' [[Ht1 Ht2] Hn] Hnd Hi Hl Hd Hd' Hld Hld' Hs H0.
  apply (secrecy_unique E L Hbig is_ _ _ (pa_threshold params) Hnd).
  - intros i Hin. apply Hi in Hin. unfold usize. lia.
  - lia.
  - rewrite map_length. exact Hld.
  - rewrite map_length. exact Hld'.
  - assert (Hv : forall p : list (Scalar E), peval p 0%S = match p with [] => 0%S | a :: _ => a end).
    { intros [|a p]; [reflexivity|]. pose proof (value_at_zero_eq E L (a :: p) ltac:(discriminate)) as Hv.
      unfold PublicPolynomial_value_at_zero, index in Hv. cbn in Hv. injection Hv as Hv. symmetry. exact (gen_inj L _ _ Hv). }
    rewrite !Hv. destruct (map kp_secret (de_polynomial d)), (map kp_secret (de_polynomial d')); cbn in H0; congruence.
  - intros i Hin. specialize (Hs i Hin). rewrite !(dealer_share_eq E L), Hd, Hd' in Hs.
    replace (i <? pa_shares params) with true in Hs by (symmetry; apply Nat.ltb_lt; auto).
    congruence.
Qed.
Print Assumptions C31_unique_polynomial.

Example C31_example :
  params_ok {| pa_shares := 5; pa_threshold := 3 |} /\ NoDup [4; 1] /\
  (forall i, In i [4; 1] -> i < 5) /\ List.length [4; 1] < 3.
Proof.
  split; [split; [cbn; lia|vm_compute; reflexivity]|]. split.
  - repeat constructor; cbn; lia.
  - split; [intros i; cbn; lia|cbn; lia].
Qed.

(** ** C32: honest dealing *)
Theorem C32_honest_dealing :
  forall (E : Env) (L : GroupLaws E), (2 ^ 64 <= order L)%Z ->
  forall (params : Params) r (d : Dealer E) r' res,
    params_ok params ->
    Dealer_new params r = Ret (d, r') ->
    PublicKeySet_new params (fst (Dealer_public_info d)) (snd (Dealer_public_info d)) = Ret res ->
    exists ks p, res = Ok ks /\ List.length p = pa_threshold params /\
      p = map kp_secret (de_polynomial d) /\ ks_params ks = params /\
      pk_element (ks_shared_key ks) = (generator * peval p 0)%E /\
      List.length (ks_participant_keys ks) = pa_shares params /\
      (forall i key, nth_error (ks_participant_keys ks) i = Some key ->
         pk_element key = (generator * peval p (s_of_u64 (N.of_nat (i + 1))))%E) /\
      (forall i, i < pa_shares params ->
         exists share, Dealer_secret_share_for_participant d i = Ret share /\
           share = peval p (s_of_u64 (N.of_nat (i + 1))) /\
           exists a, ActiveParticipant_new ks i share = Ret (Ok a)) /\
      (forall i, pa_shares params <= i -> Dealer_secret_share_for_participant d i = Panic PAssert).
Proof.
  intros E L Hbig params r d r' res Hp Hd Hnew.
  destruct (dealing_ok E L params r d r' res Hp Hd Hnew) as [ks ->].
  destruct (dealer_new_ok E L params r d r' Hd) as (H1 & H2 & H3 & _).
  rewrite H3 in Hnew. destruct (pks_new_ok E L params _ _ ks Hp Hnew) as (K1 & K2 & K3 & K4 & K5 & K6 & _).
  exists ks, (dealer_poly E d). split; [reflexivity|]. split; [exact H2|]. split; [reflexivity|].
  split; [exact K1|]. split; [exact K3|]. split; [exact K5|]. split; [exact K6|]. split.
  - intros i Hi. eexists. rewrite (dealer_share_eq E L), H1.
    replace (i <? pa_shares params) with true by (symmetry; apply Nat.ltb_lt; exact Hi).
    split; [reflexivity|]. split; [reflexivity|]. eexists. apply (participant_new_iff E L). split; [reflexivity|].
    destruct (nth_error (ks_participant_keys ks) i) as [key|] eqn:Hk; [|apply nth_error_None in Hk; lia].
    exists key. split; [reflexivity|]. exact (K6 i key Hk).
  - intros i Hi. rewrite (dealer_share_eq E L), H1.
    replace (i <? pa_shares params) with false by (symmetry; apply Nat.ltb_ge; exact Hi). reflexivity.
Qed.
Print Assumptions C32_honest_dealing.

(** nothing panics on backends that can serialize the identity *)
Theorem C32_dealing_never_panics :
  forall (E : Env) (L : GroupLaws E), (2 ^ 64 <= order L)%Z -> ser_total E ->
  forall (params : Params) r, params_ok params ->
    exists (d : Dealer E) r' ks, Dealer_new params r = Ret (d, r') /\
      PublicKeySet_new params (fst (Dealer_public_info d)) (snd (Dealer_public_info d)) = Ret (Ok ks).
Proof.
  intros E L Hbig Hser params r Hp. destruct (dealer_new_total E L params r Hser) as (d & r' & Hd).
  destruct (pks_new_total E L params (fst (Dealer_public_info d)) (snd (Dealer_public_info d)) Hp Hser) as [res Hr].
  destruct (dealing_ok E L params r d r' res Hp Hd Hr) as [ks ->]. exists d, r', ks. auto.
Qed.
Print Assumptions C32_dealing_never_panics.

(** Parameters for which this holds are the ones that can be constructed. *)
Theorem C32_params :
  forall shares threshold : nat,
    (forall p, Params_new shares threshold = Ret p <->
       1 <= threshold <= shares /\ p = {| pa_shares := shares; pa_threshold := threshold |}) /\
    ((exists k, Params_new shares threshold = Panic k) <-> shares = 0 \/ threshold = 0 \/ shares < threshold) /\
    (forall p, Params_new shares threshold = Ret p -> (N.of_nat shares < 2 ^ 64)%N -> params_ok p).
Proof.
  intros n t. unfold Params_new, assert.
  assert (H : andb (0 <? n) (andb (0 <? t) (t <=? n)) = true <-> 1 <= t <= n).
  { rewrite !Bool.andb_true_iff, !Nat.ltb_lt, Nat.leb_le. lia. }
  destruct (0 <? n) eqn:Hn; [destruct (andb (0 <? t) (t <=? n)) eqn:Ht|]; cbn [bind]; cbn [andb] in H.
  - split; [|split].
    + intros p. split; [intros Hp; injection Hp as <-; split; [apply H; reflexivity|reflexivity]|intros [_ ->]; reflexivity].
    + split; [intros [k Hk]; discriminate|]. intros Hc. pose proof (proj1 H eq_refl). lia.
    + intros p Hp Hs. injection Hp as <-. split; [exact (proj1 H eq_refl)|exact Hs].
  - split; [|split].
    + intros p. split; [discriminate|]. intros [Hc _]. apply H in Hc. discriminate.
    + split; [|eauto]. intros _. assert (~ 1 <= t <= n) by (intros Hc; apply H in Hc; discriminate). lia.
    + intros p Hp. discriminate.
  - split; [|split].
    + intros p. split; [discriminate|]. intros [Hc _]. apply H in Hc. discriminate.
    + split; [|eauto]. intros _. assert (~ 1 <= t <= n) by (intros Hc; apply H in Hc; discriminate). lia.
    + intros p Hp. discriminate.
Qed.
Print Assumptions C32_params.

Example C32_params_example : Params_new 5 3 = Ret {| pa_shares := 5; pa_threshold := 3 |} /\ (exists k, Params_new 5 6 = Panic k) /\ exists k, Params_new 5 0 = Panic k.
Proof. repeat split; eexists; reflexivity. Qed.

(** For any dealer, honest or not: an accepted public polynomial with [t] coefficients
    determines the key set. *)
Theorem C32_key_set_determined :
  forall (E : Env) (L : GroupLaws E), (2 ^ 64 <= order L)%Z ->
  forall (params : Params) poly pop (ks : PublicKeySet E), params_ok params ->
    PublicKeySet_new params poly pop = Ret (Ok ks) ->
    exists a, poly = map (fun x => (generator * x)%E) a /\ List.length a = pa_threshold params /\
      ks_params ks = params /\
      pk_element (ks_shared_key ks) = (generator * peval a 0)%E /\
      List.length (ks_participant_keys ks) = pa_shares params /\
      (forall i key, nth_error (ks_participant_keys ks) i = Some key ->
         pk_element key = (generator * peval a (s_of_u64 (N.of_nat (i + 1))))%E) /\
      exists keys t', map pk_element keys = poly /\
        ProofOfPossession_verify pop keys (share_poly_transcript params) = Ret (Ok tt, t').
Proof.
  intros E L Hbig params poly pop ks Hp H. rewrite <- (in_exponent_dlog E L poly) in H |- *.
  destruct (pks_new_ok E L params _ _ ks Hp H) as (K1 & K2 & K3 & K4 & K5 & K6 & K7 & keys & t' & Hk & Hv).
  exists (map (dlog L) poly). split; [reflexivity|]. split; [exact K2|]. split; [exact K1|]. split; [exact K3|].
  split; [exact K5|]. split; [exact K6|]. exists keys, t'. split; [|exact Hv].
  apply mapM_Ret_inv in Hk. clear -Hk. induction Hk as [|e k es ks Hf Hk IH]; [reflexivity|].
  cbn. rewrite IH. f_equal. apply pk_from_element_ok in Hf. tauto.
Qed.
Print Assumptions C32_key_set_determined.

(** a share is accepted iff it is the discrete log of the participant key *)
Theorem C32_share_accepted_iff :
  forall (E : Env) (L : GroupLaws E) (ks : PublicKeySet E) i share,
    ((exists a, ActiveParticipant_new ks i share = Ret (Ok a)) <->
     exists key, nth_error (ks_participant_keys ks) i = Some key /\ pk_element key = (generator * share)%E) /\
    ((exists e, ActiveParticipant_new ks i share = Ret (Err e)) <->
     exists key, nth_error (ks_participant_keys ks) i = Some key /\ pk_element key <> (generator * share)%E) /\
    (List.length (ks_participant_keys ks) <= i <-> exists k, ActiveParticipant_new ks i share = Panic k).
Proof.
  intros E L ks i share. split; [|split].
  - split.
    + intros [a H]. apply (participant_new_iff E L) in H. tauto.
    + intros H. eexists. apply (participant_new_iff E L). split; [reflexivity|exact H].
  - exact (participant_new_err E L ks i share).
  - unfold ActiveParticipant_new, index. destruct (nth_error (ks_participant_keys ks) i) as [key|] eqn:Hk; cbn [bind].
    + split; [|destruct (e_eqb _ _); intros [k Hc]; discriminate].
      intros Hc. apply nth_error_None in Hc. congruence.
    + split; [eauto|]. intros _. apply nth_error_None. exact Hk.
Qed.
Print Assumptions C32_share_accepted_iff.

Definition ex_params : Params := {| pa_shares := 5; pa_threshold := 3 |}.

Definition ex_dealing : bool :=
  match Dealer_new (E:=RE) ex_params 4%Z with
  | Ret (d, _) =>
      match PublicKeySet_new ex_params (fst (Dealer_public_info d)) (snd (Dealer_public_info d)),
            Dealer_secret_share_for_participant d 2, Dealer_secret_share_for_participant d 3 with
      | Ret (Ok ks), Ret share2, Ret share3 =>
          match ActiveParticipant_new ks 2 share2, ActiveParticipant_new ks 2 share3 with
          | Ret (Ok _), Ret (Err _) => true
          | _, _ => false
          end
      | _, _, _ => false
      end
  | Panic _ => false
  end.
Example C32_example : ex_dealing = true.
Proof. vm_compute. reflexivity. Qed.

(** ** C33: PublicKeySet::from_participants accepts exactly degree-<t key vectors *)
Theorem C33_accepts_iff :
  forall (E : Env) (L : GroupLaws E), (2 ^ 64 <= order L)%Z ->
  forall (params : Params) (keys : list (PublicKey E)) ks, params_ok params ->
    PublicKeySet_from_participants params keys = Ret (Ok ks) <->
    List.length keys = pa_shares params /\
    exists a, List.length a = pa_threshold params /\
      (forall i key, nth_error keys i = Some key ->
         pk_element key = (generator * peval a (s_of_u64 (N.of_nat (i + 1))))%E) /\
      PublicKey_from_element (generator * peval a 0)%E = Ret (ks_shared_key ks) /\
      ks_params ks = params /\ ks_participant_keys ks = keys.
Proof. intros E L H params keys ks Hp. exact (from_participants_ok_iff E L H params keys ks Hp). Qed.
Print Assumptions C33_accepts_iff.

Theorem C33_count_mismatch :
  forall (E : Env) (L : GroupLaws E), (2 ^ 64 <= order L)%Z ->
  forall (params : Params) (keys : list (PublicKey E)), params_ok params ->
    PublicKeySet_from_participants params keys = Ret (Err ParticipantCountMismatch) <->
    List.length keys <> pa_shares params.
Proof. intros E L H params keys Hp. exact (from_participants_count E L H params keys Hp). Qed.
Print Assumptions C33_count_mismatch.

Theorem C33_malformed :
  forall (E : Env) (L : GroupLaws E), (2 ^ 64 <= order L)%Z -> ser_total E ->
  forall (params : Params) (keys : list (PublicKey E)), params_ok params ->
    (exists r, PublicKeySet_from_participants params keys = Ret r) /\
    (PublicKeySet_from_participants params keys = Ret (Err MalformedParticipantKeys) <->
     List.length keys = pa_shares params /\
     ~ (exists a, List.length a = pa_threshold params /\
          forall i key, nth_error keys i = Some key ->
            pk_element key = (generator * peval a (s_of_u64 (N.of_nat (i + 1))))%E)).
Proof.
  intros E L H Hser params keys Hp. split.
  - exact (from_participants_total E L H params keys Hp Hser).
  - exact (from_participants_malformed E L H params keys Hp Hser).
Qed.
Print Assumptions C33_malformed.

Theorem C33_agrees_with_new :
  forall (E : Env) (L : GroupLaws E), (2 ^ 64 <= order L)%Z ->
  forall (params : Params) poly pop (ks : PublicKeySet E), params_ok params ->
    PublicKeySet_new params poly pop = Ret (Ok ks) ->
    PublicKeySet_from_participants params (ks_participant_keys ks) = Ret (Ok ks).
Proof. exact new_from_participants. Qed.
Print Assumptions C33_agrees_with_new.

Definition zkey (z : Z) : PublicKey RE := {| pk_bytes := zbytes qx 9 (re z); pk_element := re z |}.
(** keys of 10 + 20x + 30x^2 for 5 participants, with even and odd thresholds *)
Definition ex_keys : list (PublicKey RE) := map (fun x => zkey (10 + 20 * x + 30 * x * x)) [1; 2; 3; 4; 5]%Z.
Definition fp_ok (t : nat) (keys : list (PublicKey RE)) : bool :=
  match PublicKeySet_from_participants {| pa_shares := 5; pa_threshold := t |} keys with
  | Ret (Ok ks) => e_eqb (pk_element (ks_shared_key ks)) (re 10)
  | _ => false
  end.
Example C33_example :
  fp_ok 3 ex_keys = true /\ fp_ok 4 ex_keys = true /\ fp_ok 5 ex_keys = true /\ fp_ok 2 ex_keys = false /\
  fp_ok 3 (firstn 4 ex_keys ++ [zkey 861]) = false.
Proof. vm_compute. auto. Qed.

(** ** C34: share proofs *)
Theorem C34_share_complete :
  forall (E : Env) (L : GroupLaws E) (ks : PublicKeySet E) i share a (ct : Ciphertext E) r d pf r',
    ActiveParticipant_new ks i share = Ret (Ok a) ->
    ActiveParticipant_decrypt_share a ct r = Ret (d, pf, r') ->
    vd_dh_element d = (random_element ct * share)%E /\
    PublicKeySet_verify_share ks {| cd_inner := d |} ct i pf = Ret (Ok d).
Proof. exact decrypt_share_complete. Qed.
Print Assumptions C34_share_complete.

Theorem C34_share_never_panics :
  forall (E : Env) (L : GroupLaws E), ser_total E ->
  forall (ks : PublicKeySet E) i share a (ct : Ciphertext E) r,
    ActiveParticipant_new ks i share = Ret (Ok a) ->
    exists d pf r', ActiveParticipant_decrypt_share a ct r = Ret (d, pf, r').
Proof. intros E L Hser ks i share a ct r H. exact (decrypt_share_total E L ks i share a ct r Hser H). Qed.
Print Assumptions C34_share_never_panics.

Theorem C34_possession_complete :
  forall (E : Env) (L : GroupLaws E) (ks : PublicKeySet E) i share a r pop r',
    ActiveParticipant_new ks i share = Ret (Ok a) ->
    ActiveParticipant_proof_of_possession a r = Ret (pop, r') ->
    PublicKeySet_verify_participant ks i pop = Ret (Ok tt).
Proof. exact participant_pop_complete. Qed.
Print Assumptions C34_possession_complete.

Theorem C34_share_accepts_iff :
  forall (E : Env) (L : GroupLaws E) (ks : PublicKeySet E) cand (ct : Ciphertext E) i pf d,
    PublicKeySet_verify_share ks cand ct i pf = Ret (Ok d) <->
    d = cd_inner cand /\
    exists key base X0 X1 q,
      nth_error (ks_participant_keys ks) i = Some key /\
      PublicKey_from_element (random_element ct) = Ret base /\
      le_answers (random_element ct) (pk_element key) (vd_dh_element d) X0 X1 (le_challenge pf) (le_response pf) /\
      le_hashed [TMsg "dom-sep" (str_bytes "elgamal_decryption_share");
                 TMsg "n" (u64_le_bytes (N.of_nat (pa_shares (ks_params ks))));
                 TMsg "t" (u64_le_bytes (N.of_nat (pa_threshold (ks_params ks))));
                 TMsg "K" (pk_bytes (ks_shared_key ks));
                 TMsg "i" (u64_le_bytes (N.of_nat i))]
        base (pk_element key) (vd_dh_element d) X0 X1 q /\
      oracle q "c" = le_challenge pf.
Proof. exact verify_share_iff. Qed.
Print Assumptions C34_share_accepts_iff.

Theorem C34_possession_accepts_iff :
  forall (E : Env) (L : GroupLaws E) (ks : PublicKeySet E) i pop,
    PublicKeySet_verify_participant ks i pop = Ret (Ok tt) <->
    exists key X s b, nth_error (ks_participant_keys ks) i = Some key /\ pop_responses pop = [s] /\
      X = (generator * s - pk_element key * pop_challenge pop)%E /\ serialize_element X = Ret b /\
      oracle (share_context "elgamal_participant_pop" ks i ++
              [TMsg "dom-sep" (str_bytes "multi_pop"); TMsg "K" (pk_bytes key); TMsg "R" b]) "c" = pop_challenge pop.
Proof. exact verify_participant_iff. Qed.
Print Assumptions C34_possession_accepts_iff.

Theorem C34_share_sound :
  forall (E : Env) (L : GroupLaws E) (ks : PublicKeySet E) cand (ct : Ciphertext E) i pf d key share,
    PublicKeySet_verify_share ks cand ct i pf = Ret (Ok d) ->
    nth_error (ks_participant_keys ks) i = Some key -> pk_element key = (generator * share)%E ->
    d = cd_inner cand /\
    (vd_dh_element d <> (random_element ct * share)%E ->
     exists base X0 X1 q,
       PublicKey_from_element (random_element ct) = Ret base /\
       le_hashed (share_context "elgamal_decryption_share" ks i) base (pk_element key) (vd_dh_element d) X0 X1 q /\
       (exists s, le_answers (random_element ct) (pk_element key) (vd_dh_element d) X0 X1 (oracle q "c") s) /\
       forall c s, le_answers (random_element ct) (pk_element key) (vd_dh_element d) X0 X1 c s -> oracle q "c" = c).
Proof. exact verify_share_sound. Qed.
Print Assumptions C34_share_sound.

(** equal hash inputs come from the same protocol, parameters, shared key and participant *)
Theorem C34_context_binding :
  forall (E : Env) dom dom' (ks ks' : PublicKeySet E) i i' rest rest',
    (N.of_nat (pa_shares (ks_params ks)) < 2 ^ 64)%N -> (N.of_nat (pa_shares (ks_params ks')) < 2 ^ 64)%N ->
    (N.of_nat (pa_threshold (ks_params ks)) < 2 ^ 64)%N -> (N.of_nat (pa_threshold (ks_params ks')) < 2 ^ 64)%N ->
    (N.of_nat i < 2 ^ 64)%N -> (N.of_nat i' < 2 ^ 64)%N ->
    share_context dom ks i ++ rest = share_context dom' ks' i' ++ rest' ->
    dom = dom' /\ ks_params ks = ks_params ks' /\ pk_bytes (ks_shared_key ks) = pk_bytes (ks_shared_key ks') /\
    i = i' /\ rest = rest'.
Proof. exact share_context_inj. Qed.
Print Assumptions C34_context_binding.

Definition ex_ks : PublicKeySet RE :=
  {| ks_params := ex_params; ks_shared_key := zkey 10; ks_participant_keys := ex_keys |}.
Definition ex_share_check (i j : nat) : bool :=
  match ActiveParticipant_new ex_ks 2 (rs (10 + 60 + 270)) with
  | Ret (Ok a) =>
      match ActiveParticipant_decrypt_share a ex_ct 8%Z, ActiveParticipant_proof_of_possession a 9%Z with
      | Ret (d, pf, _), Ret (pop, _) =>
          match PublicKeySet_verify_share ex_ks {| cd_inner := d |} ex_ct i pf,
                PublicKeySet_verify_participant ex_ks j pop with
          | Ret (Ok _), Ret (Ok _) => true
          | _, _ => false
          end
      | _, _ => false
      end
  | _ => false
  end.
Example C34_example : ex_share_check 2 2 = true /\ ex_share_check 1 2 = false /\ ex_share_check 2 1 = false.
Proof. vm_compute. auto. Qed.

(** the premises of [C34_share_sound] with a wrong share: the constant oracle is hit *)
Definition ex_ks3 : PublicKeySet C3 :=
  {| ks_params := ex_params; ks_shared_key := {| pk_bytes := []; pk_element := c3e 10 |};
     ks_participant_keys := [{| pk_bytes := []; pk_element := c3e 5 |}] |}.
Example C34_sound_example :
  match PublicKeySet_verify_share ex_ks3 {| cd_inner := {| vd_dh_element := c3e 11 |} |}
          {| random_element := c3e 2; blinded_element := c3e 0 |} 0
          {| le_challenge := c3s 3; le_response := c3s 10 |} with Ret (Ok _) => True | _ => False end /\
  c3e 11 <> c3e 10.
Proof. split; [vm_compute; exact I|]. apply re_neq. vm_compute. reflexivity. Qed.

(** ** C35: end to end *)

(** [s] is a share for [ct] produced by participant [fst s] with the secret dealt by [d]
    and accepted by the verifier *)
Definition produced_share {E : Env} (d : Dealer E) (ks : PublicKeySet E) (ct : Ciphertext E)
    (s : nat * VerifiableDecryption E) : Prop :=
  exists share a rng cand pf rng',
    Dealer_secret_share_for_participant d (fst s) = Ret share /\
    ActiveParticipant_new ks (fst s) share = Ret (Ok a) /\
    ActiveParticipant_decrypt_share a ct rng = Ret (cand, pf, rng') /\
    PublicKeySet_verify_share ks {| cd_inner := cand |} ct (fst s) pf = Ret (Ok (snd s)).

Theorem C35_threshold_decryption :
  forall (E : Env) (L : GroupLaws E), (2 ^ 64 <= order L)%Z ->
  forall (params : Params) r (d : Dealer E) r' ks (v : N) rng ct rng' taken rest values,
    params_ok params ->
    Dealer_new params r = Ret (d, r') ->
    PublicKeySet_new params (fst (Dealer_public_info d)) (snd (Dealer_public_info d)) = Ret (Ok ks) ->
    encrypt (ks_shared_key ks) (s_of_u64 v) rng = (ct, rng') ->
    List.length taken = pa_threshold params -> NoDup (map fst taken) ->
    (forall s, In s taken -> produced_share d ks ct s) ->
    (forall x, In x values -> (x < 2 ^ 64)%N) -> (v = 0%N \/ In v values) ->
    exists dec tbl, combine_shares params (taken ++ rest) = Ret (Some dec) /\
      VerifiableDecryption_decrypt_to_element dec ct = (generator * s_of_u64 v)%E /\
      DiscreteLogTable_new (E:=E) values = Ret tbl /\
      VerifiableDecryption_decrypt dec ct tbl = Ret (Some v).
Proof.
  intros E L Hbig params r d r' ks v rng ct rng' taken rest values Hp Hd Hks Henc Hlen Hnd Hs Hvals Hv.
  destruct (dealer_new_ok E L params r d r' Hd) as (H1 & H2 & H3 & _).
  rewrite H3 in Hks. destruct (pks_new_ok E L params _ _ ks Hp Hks) as (K1 & K2 & K3 & K4 & K5 & K6 & _).
  destruct Hp as [[Ht1 Ht2] Hn].
  assert (Hc : combine_shares params (taken ++ rest)
               = Ret (Some {| vd_dh_element := (random_element ct * peval (dealer_poly E d) 0%S)%E |})).
  { apply (combine_shares_correct E L Hbig params (dealer_poly E d) ct taken rest Hn); [lia|exact Hlen|exact Hnd|].
    intros [i dd] Hin. destruct (Hs (i, dd) Hin) as (share & a & rg & cand & pf & rg' & S1 & S2 & S3 & S4).
    cbn [fst snd] in *. rewrite (dealer_share_eq E L), H1 in S1.
    destruct (i <? pa_shares params) eqn:Hi; [|discriminate]. apply Nat.ltb_lt in Hi. injection S1 as <-.
    split; [exact Hi|]. destruct (decrypt_share_complete E L ks i _ a ct rg cand pf rg' S2 S3) as [Hdh Hok].
    rewrite S4 in Hok. injection Hok as ->. exact Hdh. }
  destruct (table_new_ok E L Hbig values Hvals) as (tbl & Ht & Hget & _).
  eexists. exists tbl. split; [exact Hc|].
  assert (Hdec : decrypt_to_element (peval (dealer_poly E d) 0%S) ct = (generator * s_of_u64 v)%E).
  { apply (decrypt_encrypt E L _ (ks_shared_key ks) (s_of_u64 v) rng ct rng'); [exact K3|exact Henc]. }
  split; [exact Hdec|]. split; [exact Ht|].
  unfold VerifiableDecryption_decrypt.
  change (VerifiableDecryption_decrypt_to_element {| vd_dh_element := (random_element ct * peval (dealer_poly E d) 0%S)%E |} ct)
    with (decrypt_to_element (peval (dealer_poly E d) 0%S) ct).
  rewrite Hdec. apply Hget. exact Hv.
Qed.
Print Assumptions C35_threshold_decryption.

(** every participant can produce such a share *)
Theorem C35_every_participant_can_contribute :
  forall (E : Env) (L : GroupLaws E), (2 ^ 64 <= order L)%Z -> ser_total E ->
  forall (params : Params) r (d : Dealer E) r' ks ct i,
    params_ok params ->
    Dealer_new params r = Ret (d, r') ->
    PublicKeySet_new params (fst (Dealer_public_info d)) (snd (Dealer_public_info d)) = Ret (Ok ks) ->
    i < pa_shares params -> forall rng : Rng E, exists dd, produced_share d ks ct (i, dd).
Proof.
  intros E L Hbig Hser params r d r' ks ct i Hp Hd Hks Hi rng.
  destruct (C32_honest_dealing E L Hbig params r d r' (Ok ks) Hp Hd Hks)
    as (ks' & p & He & _ & _ & _ & _ & _ & _ & Hsh & _). injection He as <-.
  destruct (Hsh i Hi) as (share & S1 & _ & a & S2).
  destruct (decrypt_share_total E L ks i share a ct rng Hser S2) as (dd & pf & rng' & S3).
  destruct (decrypt_share_complete E L ks i share a ct rng dd pf rng' S2 S3) as [_ S4].
  exists dd, share, a, rng, dd, pf, rng'. auto.
Qed.
Print Assumptions C35_every_participant_can_contribute.

(** a full run of a 3-of-5 scheme, participants 4, 0 and 2 *)
Definition ex_run (v : Z) : option (Element RE) :=
  match Dealer_new (E:=RE) ex_params 4%Z with
  | Ret (d, _) =>
      match PublicKeySet_new ex_params (fst (Dealer_public_info d)) (snd (Dealer_public_info d)) with
      | Ret (Ok ks) =>
          let '(ct, _) := encrypt (ks_shared_key ks) (rs v) 6%Z in
          match mapM (fun i => share <- Dealer_secret_share_for_participant d i ;;
                               a <- ActiveParticipant_new ks i share ;;
                               match a with
                               | Ok a => '(c, pf, _) <- ActiveParticipant_decrypt_share a ct 11%Z ;;
                                         res <- PublicKeySet_verify_share ks {| cd_inner := c |} ct i pf ;;
                                         match res with Ok s => Ret (i, s) | Err _ => Panic PAssert end
                               | Err _ => Panic PAssert
                               end) [4; 0; 2] with
          | Ret shares => match combine_shares ex_params shares with
                          | Ret (Some dec) => Some (VerifiableDecryption_decrypt_to_element dec ct)
                          | _ => None
                          end
          | _ => None
          end
      | _ => None
      end
  | _ => None
  end.
Example C35_example : match ex_run 424242 with Some e => e_eqb e (re 424242) = true | None => False end.
Proof. vm_compute. reflexivity. Qed.
