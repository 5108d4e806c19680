(** * Proofs about the commitment-equivalence proof (C26, C27) *)
From Coq Require Import List NArith ZArith Field Lia Bool String.
From Verif.Model Require Import Base Group Transcript Keys Encryption Commitment.
From Verif.Spec Require Import Encryption Possession Sigma.
From Verif.Proofs Require Import Algebra Lists Encryption LogEquality.
Import ListNotations.
Open Scope string_scope.
Open Scope list_scope.

Section Absorb.
Context (E : Env) (L : GroupLaws E).

Definition absorb1 (it : string * Element E) : outcome tev :=
  b <- serialize_element (snd it) ;; Ret (TMsg (fst it) b).

Lemma absorbed_iff items msgs : mapM absorb1 items = Ret msgs <-> absorbed items msgs.
Proof.
  unfold absorbed. split.
  - intros H. apply mapM_Ret_inv in H.
    induction H as [|it ev items evs Hx _ IH]; constructor; auto.
    unfold absorb1 in Hx. inv_bind Hx. injection Hx as <-. eauto.
  - intros H. apply mapM_Ret. induction H as [|it ev items evs (b & Hb & ->) _ IH]; constructor; auto.
    unfold absorb1. rewrite Hb. reflexivity.
Qed.

Lemma absorbed_total items : ser_total E -> exists msgs, absorbed (E:=E) items msgs.
Proof.
  intros Ht. induction items as [|[l e] items [msgs IH]].
  - exists []. constructor.
  - destruct (ser_total_some L Ht e) as [b Hb]. exists (TMsg l b :: msgs). constructor; [|exact IH]. eauto.
Qed.

Lemma absorbed_inj items items' msgs : absorbed (E:=E) items msgs -> absorbed items' msgs -> items = items'.
Proof.
  intros H; revert items'. induction H as [|[l e] ev items msgs (b & Hb & ->) _ IH]; intros items' H'.
  - inversion H'. reflexivity.
  - inversion H' as [|[l' e'] ev' items'' msgs' (b' & Hb' & Hev) Hrest]; subst. cbn in *. injection Hev as <- <-.
    f_equal; [|apply IH; exact Hrest]. f_equal. eapply (ser_element_inj L); eassumption.
Qed.

Lemma absorbed_length items msgs : absorbed (E:=E) items msgs -> List.length items = List.length msgs.
Proof. apply Forall2_length'. Qed.

Lemma absorbed_labels items msgs (P : string -> Prop) :
  absorbed (E:=E) items msgs -> Forall (fun it => P (fst it)) items ->
  Forall (fun ev => exists l b, ev = TMsg l b /\ P l) msgs.
Proof.
  induction 1 as [|[l e] ev items msgs (b & Hb & ->) _ IH]; intros HP; constructor.
  - inversion HP; subst. eauto.
  - inversion HP; subst. auto.
Qed.

Lemma append_element_absorb {B : Type} (t : transcript) l (e : Element E) (f : transcript -> outcome B) :
  (t' <- append_element t l e ;; f t') = (ev <- absorb1 (l, e) ;; f (t ++ [ev])).
Proof. unfold append_element, absorb1, append_message. cbn. destruct (serialize_element e); reflexivity. Qed.

Lemma absorb_cons {B : Type} it items (f : list tev -> outcome B) :
  (msgs <- mapM absorb1 (it :: items) ;; f msgs) =
  (ev <- absorb1 it ;; msgs <- mapM absorb1 items ;; f (ev :: msgs)).
Proof.
  cbn [mapM]. destruct (absorb1 it); cbn [bind]; [|reflexivity].
  destruct (mapM absorb1 items); reflexivity.
Qed.

Lemma absorb_nil {B : Type} (f : list tev -> outcome B) : (msgs <- mapM absorb1 [] ;; f msgs) = f [].
Proof. reflexivity. Qed.
End Absorb.

Section Proofs.
Context (E : Env) (L : GroupLaws E).
Local Notation scalar := (Scalar E).
Local Notation element := (Element E).
Add Field s_field_ce : (s_field L).

Lemma ce_verify_eq (p : CommitmentEquivalenceProof E) (ct : Ciphertext E) (K : PublicKey E) C H t :
  CommitmentEquivalenceProof_verify p ct K C H t =
  (let c := ce_challenge p in
   msgs <- mapM (absorb1 E) (ce_items (random_element ct) (blinded_element ct) C
     (generator * ce_randomness_response p - random_element ct * c)%E
     (generator * ce_value_response p + pk_element K * ce_randomness_response p - blinded_element ct * c)%E
     (generator * ce_value_response p + H * ce_commitment_response p - C * c)%E) ;;
   let q := t ++ [TMsg "dom-sep" (str_bytes "commitment_equivalence"); TMsg "K" (pk_bytes K)] ++ msgs in
   Ret ((if s_eqb (oracle q "c") c then Ok tt else Err ChallengeMismatch), q ++ [TChal "c"])).
Proof.
  unfold CommitmentEquivalenceProof_verify, ce_items, start_proof, append_element_bytes, append_message.
  cbv zeta.
  rewrite (le_commit0 E L).
  rewrite !(vartime_multi_mul_ok E L) by reflexivity. cbn [bind lin_comb].
  replace (generator * ce_value_response p + (pk_element K * ce_randomness_response p + (blinded_element ct * - ce_challenge p + identity)))%E
    with (generator * ce_value_response p + pk_element K * ce_randomness_response p - blinded_element ct * ce_challenge p)%E
    by el_ring L.
  replace (generator * ce_value_response p + (H * ce_commitment_response p + (C * - ce_challenge p + identity)))%E
    with (generator * ce_value_response p + H * ce_commitment_response p - C * ce_challenge p)%E by el_ring L.
  repeat (rewrite absorb_cons; rewrite append_element_absorb;
          match goal with |- context [bind (absorb1 E ?x) _] => destruct (absorb1 E x); cbn [bind]; [|reflexivity] end).
  rewrite absorb_nil. unfold challenge_scalar. rewrite <- !app_assoc. reflexivity.
Qed.

Lemma ce_verify_ok_iff (p : CommitmentEquivalenceProof E) ct (K : PublicKey E) C H t t' :
  CommitmentEquivalenceProof_verify p ct K C H t = Ret (Ok tt, t') <->
  exists X1 X2 X3 q,
    ce_answers (pk_element K) H (random_element ct) (blinded_element ct) C X1 X2 X3
      (ce_challenge p) (ce_randomness_response p) (ce_value_response p) (ce_commitment_response p) /\
    ce_hashed t K (random_element ct) (blinded_element ct) C X1 X2 X3 q /\
    oracle q "c" = ce_challenge p /\ t' = q ++ [TChal "c"].
Proof.
  rewrite ce_verify_eq. cbv zeta. unfold ce_answers, ce_hashed. split.
  - intros Hv. inv_bind Hv. destruct (s_eqb _ _) eqn:Hs; [|discriminate]. apply (s_eqb_ok E L) in Hs.
    injection Hv as <-. apply absorbed_iff in Hm. eexists _, _, _, _. split; [split; [|split]; reflexivity|].
    split; [eexists; split; [exact Hm|reflexivity]|]. auto.
  - intros (X1 & X2 & X3 & q & (-> & -> & ->) & (msgs & Hm & ->) & Ho & ->).
    apply absorbed_iff in Hm. rewrite Hm. cbn [bind]. rewrite Ho, (s_eqb_refl L). reflexivity.
Qed.

Lemma ce_new_eq (ct : CiphertextWithValue E scalar) (K : PublicKey E) (rc : scalar) (H : element) t r :
  CommitmentEquivalenceProof_new ct K rc H t r =
  (let C := (generator * cwv_value ct + H * rc)%E in
   let '(er, r1) := generate_scalar r in
   let '(ev, r2) := generate_scalar r1 in
   let '(ec, r3) := generate_scalar r2 in
   msgs <- mapM (absorb1 E) (ce_items (random_element (cwv_inner ct)) (blinded_element (cwv_inner ct)) C
     (generator * er)%E (generator * ev + pk_element K * er)%E (generator * ev + H * ec)%E) ;;
   let q := t ++ [TMsg "dom-sep" (str_bytes "commitment_equivalence"); TMsg "K" (pk_bytes K)] ++ msgs in
   let c := oracle q "c" in
   Ret ({| ce_challenge := c; ce_randomness_response := (c * cwv_randomness ct + er)%S;
           ce_value_response := (c * cwv_value ct + ev)%S;
           ce_commitment_response := (c * rc + ec)%S |}, C, q ++ [TChal "c"], r3)).
Proof.
  unfold CommitmentEquivalenceProof_new, ce_items, start_proof, append_element_bytes, append_message, SecretKey_generate.
  rewrite (multi_mul_ok E L) by reflexivity. cbn [bind lin_comb]. cbv zeta.
  replace (generator * cwv_value ct + (H * rc + identity))%E
    with (generator * cwv_value ct + H * rc)%E by el_ring L.
  destruct (generate_scalar r) as [er r1]. destruct (generate_scalar r1) as [ev r2].
  destruct (generate_scalar r2) as [ec r3]. rewrite !(mul_generator_ok E L).
  repeat (rewrite absorb_cons; rewrite append_element_absorb;
          match goal with |- context [bind (absorb1 E ?x) _] => destruct (absorb1 E x); cbn [bind]; [|reflexivity] end).
  rewrite absorb_nil. unfold challenge_scalar. rewrite <- !app_assoc. reflexivity.
Qed.

Lemma ce_complete (ct : CiphertextWithValue E scalar) (K : PublicKey E) (rc : scalar) (H : element) t r p C t' r' :
  encrypts K (cwv_inner ct) (generator * cwv_value ct)%E (cwv_randomness ct) ->
  CommitmentEquivalenceProof_new ct K rc H t r = Ret (p, C, t', r') ->
  C = (generator * cwv_value ct + H * rc)%E /\
  CommitmentEquivalenceProof_verify p (cwv_inner ct) K C H t = Ret (Ok tt, t').
Proof.
  intros [H1 H2]. rewrite ce_new_eq. cbv zeta.
  destruct (generate_scalar r) as [er r1]. destruct (generate_scalar r1) as [ev r2].
  destruct (generate_scalar r2) as [ec r3]. intros Hn. inv_bind Hn. injection Hn as <- <- <- <-.
  split; [reflexivity|]. apply ce_verify_ok_iff. cbn [ce_challenge ce_randomness_response ce_value_response ce_commitment_response].
  apply absorbed_iff in Hm.
  eexists _, _, _, _. split; [|split; [eexists; split; [exact Hm|reflexivity]|split; reflexivity]].
  match goal with |- context [oracle ?q "c"] => generalize (oracle (e:=E) q "c") end. intros c.
  unfold ce_answers. rewrite H1, H2. repeat split; el_ring L.
Qed.

Lemma ce_new_total (ct : CiphertextWithValue E scalar) (K : PublicKey E) (rc : scalar) (H : element) t r :
  ser_total E -> exists p C t' r', CommitmentEquivalenceProof_new ct K rc H t r = Ret (p, C, t', r').
Proof.
  intros Ht. rewrite ce_new_eq. cbv zeta.
  destruct (generate_scalar r) as [er r1]. destruct (generate_scalar r1) as [ev r2].
  destruct (generate_scalar r2) as [ec r3].
  match goal with |- context [mapM (absorb1 E) ?l] => destruct (absorbed_total E L l Ht) as [m Hm] end.
  apply absorbed_iff in Hm. rewrite Hm. cbn. eauto 10.
Qed.

Lemma ce_verify_total (p : CommitmentEquivalenceProof E) ct (K : PublicKey E) C H t :
  ser_total E -> exists res t', CommitmentEquivalenceProof_verify p ct K C H t = Ret (res, t').
Proof.
  intros Ht. rewrite ce_verify_eq. cbv zeta.
  match goal with |- context [mapM (absorb1 E) ?l] => destruct (absorbed_total E L l Ht) as [m Hm] end.
  apply absorbed_iff in Hm. rewrite Hm. cbn. eauto 10.
Qed.

(** knowledge soundness *)
Lemma ce_extract (K H R B C X1 X2 X3 : element) (c sr sv sc c' sr' sv' sc' : scalar) :
  ce_answers K H R B C X1 X2 X3 c sr sv sc -> ce_answers K H R B C X1 X2 X3 c' sr' sv' sc' -> c <> c' ->
  ce_statement K H R B C ((sr - sr') * s_inv L (c - c')) ((sv - sv') * s_inv L (c - c'))
    ((sc - sc') * s_inv L (c - c')).
Proof.
  intros (-> & -> & ->) (H1 & H2 & H3) Hc. pose proof (s_sub_neq_0 L _ _ Hc) as Hn.
  apply (f_equal (dlog L)) in H1, H2, H3. dlog_simpl_in L H1. dlog_simpl_in L H2. dlog_simpl_in L H3.
  unfold ce_statement. repeat split; apply (dlog_inj L); dlog_simpl L;
    apply (s_mul_cancel_r L _ _ (c - c')%S Hn).
  - transitivity (s_sub sr sr'); [|field; exact Hn].
    transitivity (1 * sr - (1 * sr - dlog L R * c) - dlog L R * c')%S; [ring|]. rewrite H1. ring.
  - transitivity (1 * (sv - sv') + dlog L K * (sr - sr'))%S; [|field; exact Hn].
    transitivity ((1 * sv + dlog L K * sr) - (1 * sv + dlog L K * sr - dlog L B * c) - dlog L B * c')%S; [ring|].
    rewrite H2. ring.
  - transitivity (1 * (sv - sv') + dlog L H * (sc - sc'))%S; [|field; exact Hn].
    transitivity ((1 * sv + dlog L H * sc) - (1 * sv + dlog L H * sc - dlog L C * c) - dlog L C * c')%S; [ring|].
    rewrite H3. ring.
Qed.

(** binding: everything except the base [H] *)
Lemma ce_hashed_inj t (K : PublicKey E) R B C X1 X2 X3 t' (K' : PublicKey E) R' B' C' X1' X2' X3' q :
  ce_hashed t K R B C X1 X2 X3 q -> ce_hashed t' K' R' B' C' X1' X2' X3' q ->
  t = t' /\ pk_bytes K = pk_bytes K' /\ R = R' /\ B = B' /\ C = C' /\ X1 = X1' /\ X2 = X2' /\ X3 = X3'.
Proof.
  intros (m & Hm & ->) (m' & Hm' & Hq).
  assert (Hl : List.length m = List.length m').
  { apply absorbed_length in Hm, Hm'. cbn in Hm, Hm'. lia. }
  apply app_inv_tail_len in Hq; [|cbn; lia]. destruct Hq as [-> Hq]. cbn in Hq. injection Hq as -> ->.
  pose proof (absorbed_inj E L _ _ _ Hm Hm') as Hi. unfold ce_items in Hi. injection Hi as -> -> -> -> -> ->. auto 10.
Qed.

Lemma ce_verify_query (p : CommitmentEquivalenceProof E) ct (K : PublicKey E) C H t res tf :
  CommitmentEquivalenceProof_verify p ct K C H t = Ret (res, tf) ->
  exists X1 X2 X3 q,
    ce_answers (pk_element K) H (random_element ct) (blinded_element ct) C X1 X2 X3
      (ce_challenge p) (ce_randomness_response p) (ce_value_response p) (ce_commitment_response p) /\
    ce_hashed t K (random_element ct) (blinded_element ct) C X1 X2 X3 q /\ tf = q ++ [TChal "c"].
Proof.
  rewrite ce_verify_eq. cbv zeta. intros Hv. inv_bind Hv. injection Hv as _ <-. apply absorbed_iff in Hm.
  eexists _, _, _, _. split; [split; [|split]; reflexivity|].
  split; [eexists; split; [exact Hm|reflexivity]|reflexivity].
Qed.

Lemma ce_binding (p p' : CommitmentEquivalenceProof E) ct ct' (K K' : PublicKey E) C C' H H' t t' res res' tf :
  CommitmentEquivalenceProof_verify p ct K C H t = Ret (res, tf) ->
  CommitmentEquivalenceProof_verify p' ct' K' C' H' t' = Ret (res', tf) ->
  t = t' /\ pk_bytes K = pk_bytes K' /\ ct = ct' /\ C = C' /\
  exists X1 X2 X3,
    ce_answers (pk_element K) H (random_element ct) (blinded_element ct) C X1 X2 X3
      (ce_challenge p) (ce_randomness_response p) (ce_value_response p) (ce_commitment_response p) /\
    ce_answers (pk_element K') H' (random_element ct) (blinded_element ct) C X1 X2 X3
      (ce_challenge p') (ce_randomness_response p') (ce_value_response p') (ce_commitment_response p').
Proof.
  intros Hv Hv'. apply ce_verify_query in Hv as (X1 & X2 & X3 & q & Ha & Hh & ->).
  apply ce_verify_query in Hv' as (X1' & X2' & X3' & q' & Ha' & Hh' & Hq).
  apply snoc_inj in Hq as [<- _].
  destruct (ce_hashed_inj _ _ _ _ _ _ _ _ _ _ _ _ _ _ _ _ _ Hh Hh') as (-> & HK & HR & HB & -> & -> & -> & ->).
  split; [reflexivity|]. split; [exact HK|]. split; [destruct ct, ct'; cbn in *; congruence|].
  split; [reflexivity|]. rewrite HR, HB in *. eauto.
Qed.

End Proofs.
