(** * C37, continued: key sets of distributed key generation

    Whatever messages were received, the key set of a participant who completes the key generation passes the check of
    [PublicKeySet::from_participants] and is restored by it from the keys of the participants; and the participant can be restored
    from the key set, index and secret share by [ActiveParticipant::new].  So all that is said about key sets accepted by
    [from_participants] (C33, C54, C90, C92) applies to distributed key generation with cheating participants. *)
From Coq Require Import List NArith ZArith Arith Lia.
From Verif.Model Require Import Base Group Transcript Keys Encryption Possession Sharing Dkg.
From Verif.Spec Require Import Sharing Dkg.
From Verif.Proofs Require Import Algebra Lists Encryption Sharing Dkg.
From Verif.Instance Require Import Primality Zq.
From Verif.Properties Require Import Sharing Dkg.
Import ListNotations.
Open Scope list_scope.
Open Scope nat_scope.

Theorem C37_key_set_accepted :
  forall (E : Env) (L : GroupLaws E), (2 ^ 64 <= order L)%Z ->
  forall params idx (p : ParticipantExchangingSecrets E) hist sup a, params_ok params ->
    pes_run params idx p hist sup -> PES_complete p = Ret (Ok a) ->
    let ks := ap_key_set a in
    PublicKeySet_from_participants params (ks_participant_keys ks) = Ret (Ok ks) /\
    ActiveParticipant_new ks idx (ap_secret_share a) = Ret (Ok a) /\
    forall s a', ActiveParticipant_new ks idx s = Ret (Ok a') -> s = ap_secret_share a /\ a' = a.
Proof.
  intros E L Hbig params idx p hist sup a Hp Hr Hc ks.
  destruct (complete_facts E L Hbig params idx p hist sup a Hp Hr Hc) as (C1 & C2 & C3 & C4 & A & A1 & A2 & A3 & A4 & _).
  fold ks in C3, C4, A2, A3. pose proof (pes_run_inv E L params idx p hist sup Hr) as Hinv.
  assert (Hkey : exists key, nth_error (ks_participant_keys ks) idx = Some key /\ pk_element key = (generator * ap_secret_share a)%E).
  { destruct (nth_error (ks_participant_keys ks) idx) as [key|] eqn:Hk; [|apply nth_error_None in Hk; lia].
    exists key. split; [reflexivity|]. rewrite A4. exact (A2 idx key Hk). }
  destruct Hkey as (key & Hk & Hke).
  assert (Ha : a = {| ap_key_set := ks; ap_index := idx; ap_secret_share := ap_secret_share a |}).
  { unfold ks. rewrite <- C1. destruct a; reflexivity. }
  split; [|split].
  - apply (C33_accepts_iff E L Hbig params _ ks Hp). split; [exact C4|]. exists A. split; [exact A1|]. split; [exact A2|]. split; [|split; [exact C3|reflexivity]].
    assert (Hsh : exists e, PublicKey_from_element e = Ret (ks_shared_key ks)).
    { rewrite (pes_complete_eq E L Hbig params idx Hp p hist sup Hinv) in Hc. unfold ks.
      destruct (not_supplied (pa_shares params) sup); [|discriminate]. cbv zeta in Hc. unfold bind in Hc.
      destruct (mapM _ _); [|discriminate].
      match type of Hc with match ?x with _ => _ end = _ => destruct x as [sh|] eqn:Hsh; [|discriminate Hc] end.
      destruct (s_eqb _ _); [|discriminate]. injection Hc as <-. eexists. exact Hsh. }
    destruct Hsh as [e He]. rewrite <- A3. pose proof (pk_from_element_ok E _ _ He) as [Hel _]. rewrite Hel. exact He.
  - unfold ActiveParticipant_new, index. rewrite Hk. cbn [bind]. rewrite (mul_generator_ok E L), Hke.
    rewrite (proj2 (e_eqb_ok E L _ _) eq_refl). do 2 f_equal. symmetry. exact Ha.
  - intros s a' Hs. unfold ActiveParticipant_new, index in Hs. rewrite Hk in Hs. cbn [bind] in Hs.
    destruct (e_eqb _ _) eqn:He; [|discriminate]. injection Hs as <-. apply (e_eqb_ok E L) in He. rewrite (mul_generator_ok E L), Hke in He.
    apply (gen_inj L) in He. subst s. split; [reflexivity|]. symmetry. exact Ha.
Qed.
Print Assumptions C37_key_set_accepted.

(** see [C37_example] for a run of the key generation *)
Example C37_key_set_example :
  exists (p : ParticipantExchangingSecrets RE) hist sup a, pes_run ex_dkg_params 1 p hist sup /\ PES_complete p = Ret (Ok a) /\
    PublicKeySet_from_participants ex_dkg_params (ks_participant_keys (ap_key_set a)) = Ret (Ok (ap_key_set a)).
Proof.
  destruct C37_example as (p & hist & sup & a & Hr & Hc & _). exists p, hist, sup, a. split; [exact Hr|]. split; [exact Hc|].
  refine (proj1 (C37_key_set_accepted RE RL _ ex_dkg_params 1 p hist sup a _ Hr Hc)); [vm_compute; discriminate|].
  split; [cbn; lia|vm_compute; reflexivity].
Qed.
