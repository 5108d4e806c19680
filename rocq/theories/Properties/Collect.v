(** * C90: cheating participants cannot spoil or change a threshold decryption *)
From Coq Require Import List NArith ZArith String Lia Arith Bool.
From Verif.Model Require Import Base Group Transcript Keys Encryption LogEquality Possession Sharing.
From Verif.Spec Require Import Encryption LogEquality Possession Sharing Collect.
From Verif.Proofs Require Import Algebra Encryption LogEquality Sharing.
From Verif.Instance Require Import Primality Zq.
From Verif.Properties Require Import Sharing Panics.
Import ListNotations.
Open Scope string_scope.
Open Scope list_scope.
Open Scope nat_scope.

Section Lemmas.
Context (E : Env).

Lemma known_iff i (acc : list (nat * VerifiableDecryption E)) : existsb (Nat.eqb i) (map fst acc) = true <-> In i (map fst acc).
Proof.
  rewrite existsb_exists. split; [intros (x & H & Hx); apply Nat.eqb_eq in Hx; congruence|]. intros H. exists i. split; [exact H|apply Nat.eqb_refl].
Qed.

Lemma nodup_prefix {A} (l l' : list A) : NoDup (l ++ l') -> NoDup l.
Proof.
  induction l as [|x l IH]; intros H; [constructor|]. cbn [app] in H. apply NoDup_cons_iff in H as [H1 H2].
  constructor; [|exact (IH H2)]. intros Hc. apply H1, in_app_iff. auto.
Qed.

Lemma collect_spec (ks : PublicKeySet E) ct subs : forall acc out,
  collect ks ct subs acc = Ret out -> NoDup (map fst acc) ->
  exists new, out = acc ++ new /\ NoDup (map fst out) /\
    (forall i d, In (i, d) new -> i < pa_shares (ks_params ks) /\
       exists cand pf, In (i, cand, pf) subs /\ PublicKeySet_verify_share ks cand ct i pf = Ret (Ok d)) /\
    (forall i cand pf d, In (i, cand, pf) subs -> i < pa_shares (ks_params ks) ->
       PublicKeySet_verify_share ks cand ct i pf = Ret (Ok d) -> In i (map fst out)).
Proof.
  induction subs as [|[[i cand] pf] subs IH]; intros acc out H Hnd; cbn [collect] in H.
  - injection H as <-. exists []. rewrite app_nil_r. split; [reflexivity|]. split; [exact Hnd|]. split; [intros i d []|intros i cand pf d []].
  - destruct (i <? pa_shares (ks_params ks)) eqn:Hi; cbn [andb] in H;
      [destruct (existsb (Nat.eqb i) (map fst acc)) eqn:Hk; cbn [negb] in H|].
    + (* already there *)
      destruct (IH acc out H Hnd) as (new & H1 & H2 & H3 & H4). exists new. split; [exact H1|]. split; [exact H2|]. split.
      * intros j d Hj. destruct (H3 j d Hj) as (Hlt & c & p & Hin & Hv). split; [exact Hlt|]. exists c, p. split; [right; exact Hin|exact Hv].
      * intros j c p d [Hj|Hj] Hlt Hv; [|exact (H4 j c p d Hj Hlt Hv)]. injection Hj as <- <- <-. apply known_iff in Hk.
        rewrite H1, map_app. apply in_app_iff. auto.
    + destruct (PublicKeySet_verify_share ks cand ct i pf) as [[d0|e]|k] eqn:Hv0; cbn [bind] in H; [| |discriminate].
      * assert (Hni : ~ In i (map fst acc)) by (intros Hc; apply known_iff in Hc; congruence).
        destruct (IH (acc ++ [(i, d0)]) out H) as (new & H1 & H2 & H3 & H4).
        { rewrite map_app. cbn [map fst]. apply (NoDup_Add (a := i) (l := map fst acc)); [|auto].
          replace (map fst acc) with (map fst acc ++ []) at 1 by apply app_nil_r. apply Add_app. }
        exists ((i, d0) :: new). rewrite <- app_assoc in H1. cbn [app] in H1. split; [exact H1|]. split; [exact H2|]. split.
        -- intros j d [Hj|Hj].
           ++ injection Hj as <- <-. apply Nat.ltb_lt in Hi. split; [exact Hi|]. exists cand, pf. split; [left; reflexivity|exact Hv0].
           ++ destruct (H3 j d Hj) as (Hlt & c & p & Hin & Hv). split; [exact Hlt|]. exists c, p. split; [right; exact Hin|exact Hv].
        -- intros j c p d [Hj|Hj] Hlt Hv; [|exact (H4 j c p d Hj Hlt Hv)]. injection Hj as <- <- <-.
           rewrite H1, map_app. apply in_app_iff. right. left. reflexivity.
      * destruct (IH acc out H Hnd) as (new & H1 & H2 & H3 & H4). exists new. split; [exact H1|]. split; [exact H2|]. split.
        -- intros j d Hj. destruct (H3 j d Hj) as (Hlt & c & p & Hin & Hv). split; [exact Hlt|]. exists c, p. split; [right; exact Hin|exact Hv].
        -- intros j c p d [Hj|Hj] Hlt Hv; [|exact (H4 j c p d Hj Hlt Hv)]. injection Hj as <- <- <-. congruence.
    + destruct (IH acc out H Hnd) as (new & H1 & H2 & H3 & H4). exists new. split; [exact H1|]. split; [exact H2|]. split.
      * intros j d Hj. destruct (H3 j d Hj) as (Hlt & c & p & Hin & Hv). split; [exact Hlt|]. exists c, p. split; [right; exact Hin|exact Hv].
      * intros j c p d [Hj|Hj] Hlt Hv; [|exact (H4 j c p d Hj Hlt Hv)]. injection Hj as <- <- <-. apply Nat.ltb_ge in Hi. lia.
Qed.

Lemma collect_total (ks : PublicKeySet E) ct subs :
  (forall cand i pf, i < pa_shares (ks_params ks) -> exists res, PublicKeySet_verify_share ks cand ct i pf = Ret res) ->
  forall acc, exists out, collect ks ct subs acc = Ret out.
Proof.
  intros Hv. induction subs as [|[[i cand] pf] subs IH]; intros acc; cbn [collect]; [eauto|].
  destruct (i <? pa_shares (ks_params ks)) eqn:Hi; cbn [andb]; [|apply IH].
  destruct (negb _); [|apply IH]. apply Nat.ltb_lt in Hi. destruct (Hv cand i pf Hi) as [res ->]. cbn [bind]. apply IH.
Qed.

End Lemmas.

(** Any messages in any order, with any number of cheating participants.  Collecting never panics; once [t] shares are there,
    the decryption is that of the secret key, or one of the messages is a wrong share whose proof hits the hash by chance.
    If [t] participants are honest, [t] shares are there. *)
Theorem C90_robust_decryption :
  forall (E : Env) (L : GroupLaws E), (2 ^ 64 <= order L)%Z -> ser_total E ->
  forall (params : Params) (keys : list (PublicKey E)) (ks : PublicKeySet E) (sk : SecretKey E) (ct : Ciphertext E)
      (subs : list (submission E)),
    params_ok params -> PublicKeySet_from_participants params keys = Ret (Ok ks) -> key_of sk (ks_shared_key ks) ->
    exists shares, collect ks ct subs [] = Ret shares /\
      (forall dec, combine_shares params shares = Ret (Some dec) ->
         VerifiableDecryption_decrypt_to_element dec ct = decrypt_to_element sk ct \/
         exists i cand pf, In (i, cand, pf) subs /\ share_hit ks ct i (vd_dh_element (cd_inner cand))) /\
      (forall honest : list nat, NoDup honest -> pa_threshold params <= List.length honest ->
         (forall i, In i honest -> exists share a r d pf r',
            ActiveParticipant_new ks i share = Ret (Ok a) /\ ActiveParticipant_decrypt_share a ct r = Ret (d, pf, r') /\
            In (i, {| cd_inner := d |}, pf) subs) ->
         exists dec, combine_shares params shares = Ret (Some dec)) /\
      (exists res, combine_shares params shares = Ret res).
Proof.
  intros E L Hbig Hser params keys ks sk ct subs Hp Hks Hsk.
  destruct (proj1 (C33_accepts_iff E L Hbig params keys ks Hp) Hks) as (Hkl & p & Hpl & Hkeys & Hshared & Hpar & Hpk).
  destruct (collect_total E ks ct subs) with (acc := @nil (nat * VerifiableDecryption E)) as [shares Hc].
  { intros cand i pf Hi. destruct (C48_sharing E L Hser) as (_ & _ & _ & H & _). rewrite Hpar in Hi.
    destruct (H ks cand ct i pf) as [res Hres]; [rewrite Hpk; lia|]. eauto. }
  destruct (collect_spec E ks ct subs [] shares Hc) as (new & Hnew & Hnd & Hin & Hout); [constructor|]. cbn [app] in Hnew. subst new.
  rewrite Hpar in *. assert (Hn : usize (pa_shares params)) by exact (proj2 Hp).
  assert (Hsome : pa_threshold params <= List.length shares -> exists dec, combine_shares params shares = Ret (Some dec)).
  { intros Hl. rewrite (combine_shares_eq E L Hbig params shares Hn Hl); [eauto|].
    intros i Hi. apply in_map_iff in Hi as ([i' d] & <- & Hi). apply (Hin i' d). rewrite <- (firstn_skipn (pa_threshold params) shares).
    apply in_app_iff. auto. }
  exists shares. split; [exact Hc|]. split; [|split].
  - intros dec Hdec.
    assert (Hl : pa_threshold params <= List.length shares).
    { destruct (Nat.lt_ge_cases (List.length shares) (pa_threshold params)) as [Hlt|Hge]; [|exact Hge].
      rewrite combine_shares_short in Hdec by exact Hlt. discriminate. }
    assert (Hdich : (forall s, In s shares -> valid_share p ct s) \/
      exists i cand pf, In (i, cand, pf) subs /\ share_hit ks ct i (vd_dh_element (cd_inner cand))).
    { clear Hdec Hc Hnd Hout Hsome Hl. induction shares as [|[i d] shares IH]; [left; intros s []|].
      destruct IH as [IH|IH]; [intros j x Hj; apply Hin; right; exact Hj| |right; exact IH].
      destruct (Hin i d (or_introl eq_refl)) as (Hlt & cand & pf & Hsub & Hv).
      destruct (nth_error keys i) as [key|] eqn:Hk; [|apply nth_error_None in Hk; lia].
      destruct (e_eq_dec L (vd_dh_element d) (random_element ct * peval p (node i))%E) as [He|He].
      - left. intros s [<-|Hs]; [exact He|exact (IH s Hs)].
      - right. exists i, cand, pf. split; [exact Hsub|].
        pose proof (Hkeys i key Hk) as Hkey. rewrite <- Hpk in Hk.
        destruct (C34_share_sound E L ks cand ct i pf d key _ Hv Hk Hkey) as [Hd Hhit]. subst d.
        destruct (Hhit He) as (base & X0 & X1 & q & B1 & B2 & B3 & B4). exists key, base, X0, X1, q.
        split; [exact Hk|]. split; [exact B1|]. split; [|auto]. intros x Hx Hdh. apply He. rewrite Hdh. f_equal.
        apply (gen_inj L). rewrite <- Hx. exact Hkey. }
    destruct Hdich as [Hvalid|Hhit]; [left|right; exact Hhit].
    set (taken := firstn (pa_threshold params) shares). set (rest := skipn (pa_threshold params) shares).
    assert (Heq : shares = taken ++ rest) by (symmetry; apply firstn_skipn).
    assert (Htl : List.length taken = pa_threshold params) by (unfold taken; rewrite firstn_length; lia).
    assert (Hsub : forall s, In s taken -> In s shares) by (intros s Hs; rewrite Heq; apply in_app_iff; auto).
    rewrite Heq in Hdec. rewrite (combine_shares_correct E L Hbig params p ct taken rest) in Hdec.
    + injection Hdec as <-. unfold VerifiableDecryption_decrypt_to_element, decrypt_to_element. cbn [vd_dh_element]. do 2 f_equal.
      apply (gen_inj L). unfold key_of in Hsk. rewrite <- Hsk. apply pk_from_element_ok in Hshared. symmetry. apply Hshared.
    + exact Hn.
    + lia.
    + exact Htl.
    + rewrite Heq, map_app in Hnd. exact (nodup_prefix _ _ Hnd).
    + intros [i d] Hs. split; [exact (proj1 (Hin i d (Hsub _ Hs)))|exact (Hvalid _ (Hsub _ Hs))].
  - intros honest Hhn Hhl Hh. apply Hsome.
    assert (Hincl : incl honest (map fst shares)).
    { intros i Hi. destruct (Hh i Hi) as (share & a & r & d & pf & r' & H1 & H2 & H3).
      destruct (C34_share_complete E L ks i share a ct r d pf r' H1 H2) as [_ Hv]. apply (Hout i _ pf d H3); [|exact Hv].
      apply C34_share_accepts_iff in Hv; [|exact L]. destruct Hv as (_ & key & _ & _ & _ & _ & Hk & _).
      rewrite <- Hkl, <- Hpk. apply nth_error_Some. congruence. }
    pose proof (NoDup_incl_length Hhn Hincl) as Hle. rewrite map_length in Hle. lia.
  - destruct (Nat.lt_ge_cases (List.length shares) (pa_threshold params)) as [Hlt|Hge].
    + exists None. apply combine_shares_short. exact Hlt.
    + destruct (Hsome Hge) as [dec Hd]. eauto.
Qed.
Print Assumptions C90_robust_decryption.

(** the 3-of-5 key set of [C34_example]: honest messages of participants 2, 0 and 4 between a wrong share of participant 1, a share
    of participant 2 sent in the name of participant 3, messages of unknown participants and repeated messages *)
Definition ex_message (i : nat) (z : Z) : option (submission RE) :=
  match ActiveParticipant_new ex_ks i (rs (10 + 20 * z + 30 * z * z)) with
  | Ret (Ok a) => match ActiveParticipant_decrypt_share a ex_ct 8%Z with Ret (d, pf, _) => Some (i, {| cd_inner := d |}, pf) | _ => None end
  | _ => None
  end.
Definition ex_collected : option (list nat * bool) :=
  match ex_message 2 3%Z, ex_message 0 1%Z, ex_message 4 5%Z with
  | Some m2, Some m0, Some m4 =>
      let '(_, d2, pf2) := m2 in
      let subs := [(1, {| cd_inner := ex_share 2 |}, pf2); m2; (9, d2, pf2); (3, d2, pf2); m2; m0; (0, d2, pf2); m4; m0] in
      match collect ex_ks ex_ct subs [] with
      | Ret shares => Some (map fst shares, combined (combine_shares ex_params shares) (re 770))
      | _ => None
      end
  | _, _, _ => None
  end.
Example C90_example :
  ex_collected = Some ([2; 0; 4], true) /\
  (exists ks, PublicKeySet_from_participants ex_params ex_keys = Ret (Ok ks) /\ key_of (rs 10) (ks_shared_key ks)).
Proof.
  split; [vm_compute; reflexivity|]. assert (H : fp_ok 3 ex_keys = true) by (vm_compute; reflexivity).
  unfold fp_ok in H. change {| pa_shares := 5; pa_threshold := 3 |} with ex_params in H.
  destruct (PublicKeySet_from_participants ex_params ex_keys) as [[ks|]|]; try discriminate H. exists ks. split; [reflexivity|].
  apply (e_eqb_ok RE RL) in H. unfold key_of. rewrite H. apply re_eq. vm_compute. reflexivity.
Qed.
