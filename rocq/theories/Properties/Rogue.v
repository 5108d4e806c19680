(** * C86: keys of participants without proofs of possession

    Whoever announces the last keys decides about the shared key, unless everyone proves possession of the secret keys. *)
From Coq Require Import List NArith ZArith String Bool Lia.
From Verif.Properties Require Import Keys Sharing.
From Verif.Model Require Import Base Group Transcript Keys Encryption LogEquality Possession Sharing.
From Verif.Spec Require Import Encryption Sharing Coalition Rogue.
From Verif.Proofs Require Import Algebra Poly Sharing Coalition Rom.
From Verif.Instance Require Import Primality Zq.
Import ListNotations.
Open Scope string_scope.
Open Scope list_scope.

(** keys of [t - 1] different participants *)
Definition other_keys {E : Env} (params : Params) (others : list (nat * PublicKey E)) : Prop :=
  NoDup (map fst others) /\ (forall i K, In (i, K) others -> (i < pa_shares params)%nat /\ key_bytes_ok K) /\
  (List.length others + 1 = pa_threshold params)%nat.

(** The rest of the participants makes the shared key a key of any [x] it likes, without knowing any secret of the others,
    and then decrypts everything alone.  The key set is accepted, and by the others, too.  For [t = n] the rest is one
    participant. *)
Theorem C86_rogue_keys_refuted :
  forall (E : Env) (L : GroupLaws E), (2 ^ 64 <= order L)%Z -> ser_total E ->
  forall (params : Params) (others : list (nat * PublicKey E)) (x : Scalar E), params_ok params -> other_keys params others ->
  exists keys ks,
    mapM PublicKey_from_element (map (rogue_key L others x) (seq 0 (pa_shares params))) = Ret keys /\
    (forall i K, In (i, K) others -> nth_error keys i = Some K) /\
    PublicKeySet_from_participants params keys = Ret (Ok ks) /\
    (forall i K share, In (i, K) others -> key_of share K -> exists a, ActiveParticipant_new ks i share = Ret (Ok a)) /\
    key_of x (ks_shared_key ks) /\
    (forall v r c r', encrypt (ks_shared_key ks) v r = (c, r') -> decrypt_to_element x c = (generator * v)%E).
Proof.
  intros E L Hbig Hser params others x Hp (Hnd & Hothers & Hlen). destruct Hp as [Ht Hn].
  set (points := ((0%S : Scalar E), (generator * x)%E) :: map (fun p => (node (fst p), pk_element (snd p))) others).
  assert (Hpts : NoDup (map fst points)).
  { unfold points. cbn [map fst]. rewrite map_map. cbn [fst]. rewrite <- (map_map fst node). constructor.
    - intros Hin. apply in_map_iff in Hin as (i & Hi & Hin). apply in_map_iff in Hin as ([i' K] & He & Hin). cbn [fst] in He. subst i'.
      apply Hothers in Hin as [Hin _]. apply (node_neq_0 E L Hbig i) in Hi; [exact Hi|]. unfold usize. lia.
    - apply NoDup_map_in; [|exact Hnd]. intros i j Hi Hj H.
      apply in_map_iff in Hi as ([i' K] & He & Hi). cbn [fst] in He. subst i'. apply in_map_iff in Hj as ([j' K'] & He & Hj). cbn [fst] in He. subst j'.
      apply Hothers in Hi as [Hi _]. apply Hothers in Hj as [Hj _]. apply (node_inj E L Hbig); try exact H; unfold usize; lia. }
  destruct (interpolate_ok E L points Hpts) as [HQl HQ].
  set (Q := interpolate L points) in *. set (a := map (dlog L) Q).
  assert (Hev : forall z, evaluate Q z = (generator * peval a z)%E) by (intros z; apply (evaluate_dlog E L)).
  assert (Hmap : forall l, exists keys : list (PublicKey E), mapM PublicKey_from_element l = Ret keys /\ map pk_element keys = l /\ Forall key_bytes_ok keys).
  { induction l as [|A l IH]; [exists []; repeat split; constructor|]. destruct IH as (keys & H1 & H2 & H3).
    destruct (ser_total_some L Hser A) as [b Hb]. exists ({| pk_bytes := b; pk_element := A |} :: keys). cbn [mapM]. unfold PublicKey_from_element at 1. rewrite Hb.
    cbn [bind]. rewrite H1. cbn [bind]. split; [reflexivity|]. split; [cbn; rewrite H2; reflexivity|]. constructor; [exact Hb|exact H3]. }
  destruct (Hmap (map (rogue_key L others x) (seq 0 (pa_shares params)))) as (keys & Hkeys & Hels & Hbytes).
  assert (Hkl : List.length keys = pa_shares params) by (rewrite <- (map_length pk_element), Hels, map_length, seq_length; reflexivity).
  assert (Hnth : forall i key, nth_error keys i = Some key -> pk_element key = evaluate Q (node i)).
  { intros i key Hi. assert (Hlt : (i < pa_shares params)%nat) by (rewrite <- Hkl; apply nth_error_Some; congruence).
    assert (Hseq : nth_error (seq 0 (pa_shares params)) i = Some i).
    { clear -Hlt. rewrite (nth_error_nth' _ O) by (rewrite seq_length; exact Hlt). rewrite seq_nth by exact Hlt. reflexivity. }
    apply (map_nth_error pk_element) in Hi. rewrite Hels, (map_nth_error _ _ _ Hseq) in Hi. injection Hi as <-. reflexivity. }
  assert (Hsame : forall i K, In (i, K) others -> nth_error keys i = Some K).
  { intros i K Hin. destruct (Hothers i K Hin) as [Hi HK]. destruct (nth_error keys i) as [key|] eqn:Hk; [|apply nth_error_None in Hk; lia].
    assert (He : pk_element key = pk_element K).
    { rewrite (Hnth i key Hk). apply HQ. right. apply in_map_iff. exists (i, K). auto. }
    apply nth_error_In in Hk. rewrite Forall_forall in Hbytes. apply Hbytes in Hk. unfold key_bytes_ok in *. rewrite He in Hk.
    destruct key as [b A], K as [b' A']. cbn in *. congruence. }
  destruct (ser_total_some L Hser (generator * x)%E) as [b Hb].
  set (ks := {| ks_params := params; ks_shared_key := {| pk_bytes := b; pk_element := (generator * x)%E |}; ks_participant_keys := keys |}).
  exists keys, ks. split; [exact Hkeys|]. split; [exact Hsame|]. split; [|split; [|split]].
  - apply (C33_accepts_iff E L Hbig); [split; assumption|]. split; [exact Hkl|]. exists a. split.
    { unfold a. rewrite map_length, HQl. unfold points. cbn [List.length]. rewrite map_length. lia. }
    split; [intros i key Hi; rewrite (Hnth i key Hi), Hev; reflexivity|]. split; [|split; reflexivity].
    rewrite <- Hev, (HQ 0%S (generator * x)%E) by (left; reflexivity). unfold PublicKey_from_element. rewrite Hb. reflexivity.
  - intros i K share Hin Hs. apply (proj1 (C32_share_accepted_iff E L ks i share)). exists K. split; [exact (Hsame i K Hin)|exact Hs].
  - reflexivity.
  - exact (proj1 (C01_decrypt_encrypt E L x (ks_shared_key ks) eq_refl)).
Qed.
Print Assumptions C86_rogue_keys_refuted.

(** Proofs of possession prevent this: whoever knows the secret keys of the other participants, as their proofs show (C64),
    and the secret key of the shared key also knows the secret key of the remaining participant. *)
Lemma remove_NoDup i : forall l : list nat, NoDup l -> NoDup (remove Nat.eq_dec i l).
Proof.
  induction 1 as [|k l Hk Hnd IH]; [constructor|]. cbn [remove]. destruct (Nat.eq_dec i k); [exact IH|]. constructor; [|exact IH].
  intros H. apply in_remove in H. tauto.
Qed.

Theorem C86_possession_protects :
  forall (E : Env) (L : GroupLaws E), (2 ^ 64 <= order L)%Z ->
  forall (params : Params) keys (ks : PublicKeySet E) j key x shares, params_ok params ->
    PublicKeySet_from_participants params keys = Ret (Ok ks) ->
    nth_error keys j = Some key ->
    (forall i k, i <> j -> nth_error keys i = Some k -> key_of (shares i) k) ->
    key_of x (ks_shared_key ks) ->
    key_of (recover_share L (pa_shares params) j x shares) key.
Proof.
  intros E L Hbig params keys ks j key x shares Hp Hks Hj Hshares Hx. pose proof Hp as [Ht Hn].
  apply (C33_accepts_iff E L Hbig) in Hks; [|exact Hp]. destruct Hks as (Hkl & a & Hal & Hnth & Hsh & _).
  assert (Hjn : (j < pa_shares params)%nat) by (rewrite <- Hkl; apply nth_error_Some; congruence).
  set (n := pa_shares params) in *.
  assert (Hpt : forall i, (i <= n)%nat -> point (E:=E) i = phi L (Z.of_nat i)).
  { intros i Hi. unfold point. rewrite (of_u64_phi E L); [f_equal; lia|]. unfold u64_lim. lia. }
  assert (Hin : forall i, In i (known n j) <-> (i <= n)%nat /\ i <> S j).
  { intros i. unfold known. change (remove Nat.eq_dec (S j) (seq 0 (S n))) with (others (S j) (seq 0 (S n))). rewrite in_others, in_seq. lia. }
  assert (Hnd : NoDup (known n j)).
  { apply remove_NoDup, seq_NoDup. }
  assert (Hinj : forall i k, In i (known n j) -> In k (known n j) -> point (E:=E) i = point k -> i = k).
  { intros i k Hi Hk H. apply Hin in Hi as [Hi _]. apply Hin in Hk as [Hk _]. rewrite !Hpt in H by assumption. apply (phi_inj_small L) in H; lia. }
  unfold key_of. rewrite (Hnth j key Hj). f_equal. symmetry. replace (s_of_u64 (N.of_nat (j + 1))) with (point (E:=E) (S j)) by (unfold point; do 2 f_equal; lia).
  rewrite (lagrange L point (known n j) Hnd Hinj a (point (S j))).
  2:{ apply le_S_n. unfold known. change (remove Nat.eq_dec (S j) (seq 0 (S n))) with (others (S j) (seq 0 (S n))).
      rewrite others_length by (try apply seq_NoDup; apply in_seq; lia). rewrite seq_length. lia. }
  unfold recover_share. change (fold_right s_add 0%S) with (s_sum (G:=E)). f_equal. apply map_ext_in. intros i Hi. apply Hin in Hi as [Hi Hij].
  f_equal. destruct i as [|i].
  - unfold key_of in Hx. unfold PublicKey_from_element in Hsh. destruct (serialize_element _) as [b|]; [|discriminate Hsh]. injection Hsh as Hsh.
    rewrite <- Hsh in Hx. cbn [pk_element] in Hx. apply (f_equal (dlog L)) in Hx. rewrite !(dlog_gen L) in Hx. rewrite <- Hx.
    f_equal. unfold point. exact (eq_sym (of_u64_0 L)).
  - destruct (nth_error keys i) as [k|] eqn:Hk; [|apply nth_error_None in Hk; lia].
    assert (Hs := Hshares i k ltac:(congruence) Hk). unfold key_of in Hs. rewrite (Hnth i k Hk) in Hs. apply (f_equal (dlog L)) in Hs.
    rewrite !(dlog_gen L) in Hs. rewrite <- Hs. f_equal. unfold point. do 2 f_equal. lia.
Qed.
Print Assumptions C86_possession_protects.

(** 3 of 3 participants: the last one gets the key of 7 by choosing 7 - 3 K_0 + 3 K_1 in
    terms of the keys of the others *)
Definition ex_all : Params := {| pa_shares := 3; pa_threshold := 3 |}.
Definition ex_others : list (nat * PublicKey RE) := [(0%nat, zkey 11); (1%nat, zkey 22)].
Example C86_example :
  other_keys ex_all ex_others /\
  (match PublicKeySet_from_participants ex_all [zkey 11; zkey 22; zkey (7 - 3 * 11 + 3 * 22)] with
   | Ret (Ok ks) => e_eqb (pk_element (ks_shared_key ks)) (re 7)
   | _ => false
   end = true).
Proof.
  split; [|vm_compute; reflexivity].
  unfold other_keys, ex_others. cbn [map fst]. split; [repeat constructor; cbn; intuition discriminate|].
  split; [|reflexivity]. intros i K [H|[H|[]]]; injection H as <- <-; (split; [cbn; lia|reflexivity]).
Qed.
