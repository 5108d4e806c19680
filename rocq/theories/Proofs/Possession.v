(** * Proofs about the proof of possession (C13) *)
From Coq Require Import List NArith ZArith Field Lia Bool String.
From Verif.Model Require Import Base Group Transcript Keys Possession.
From Verif.Spec Require Import Encryption Possession.
From Verif.Proofs Require Import Algebra Lists Encryption LogEquality.
Import ListNotations.
Open Scope string_scope.
Open Scope list_scope.

Section Proofs.
Context (E : Env) (L : GroupLaws E).
Local Notation scalar := (Scalar E).
Local Notation element := (Element E).
Add Field s_field_pop : (s_field L).

Lemma pop_append_keys_eq (t : transcript) (keys : list (PublicKey E)) :
  pop_append_keys t keys = t ++ map (fun k => TMsg "K" (pk_bytes k)) keys.
Proof.
  unfold pop_append_keys. revert t; induction keys as [|k keys IH]; intros t; cbn.
  - rewrite app_nil_r. reflexivity.
  - rewrite IH. unfold append_element_bytes, append_message. rewrite <- app_assoc. reflexivity.
Qed.

(** random scalars drawn in order *)
Fixpoint draw (n : nat) (r : Rng E) : list scalar * Rng E :=
  match n with
  | O => ([], r)
  | S n' => let '(x, r) := generate_scalar r in
            let '(xs, r) := draw n' r in (x :: xs, r)
  end.

Lemma draw_length n r xs r' : draw n r = (xs, r') -> List.length xs = n.
Proof.
  revert r xs r'; induction n as [|n IH]; cbn; intros r xs r' H.
  - injection H as <- _. reflexivity.
  - destruct (generate_scalar r) as [x r1]. destruct (draw n r1) as [xs1 r2] eqn:Hd.
    injection H as <- _. cbn. f_equal. eapply IH. exact Hd.
Qed.

Lemma pop_commit_eq n t r :
  pop_commit n t r =
  (let '(xs, r') := draw n r in
   bs <- mapM serialize_element (map (fun x => (@generator E * x)%E) xs) ;;
   Ret (xs, t ++ map (TMsg "R") bs, r')).
Proof.
  revert t r; induction n as [|n IH]; intros t r; cbn [pop_commit draw].
  - cbn. rewrite app_nil_r. reflexivity.
  - unfold SecretKey_generate. destruct (generate_scalar r) as [x r1].
    unfold append_element. rewrite (mul_generator_ok E L).
    destruct (draw n r1) as [xs r2] eqn:Hd. cbn [map mapM].
    destruct (serialize_element (generator * x)%E) as [b|]; cbn [bind]; [|reflexivity].
    rewrite IH, Hd. destruct (mapM _ _) as [bs|]; cbn [bind]; [|reflexivity].
    unfold append_message. rewrite <- app_assoc. reflexivity.
Qed.

Lemma pop_recommit_eq (c : scalar) items t :
  pop_recommit c items t =
  (bs <- mapM serialize_element
           (map (fun p : PublicKey E * scalar => (generator * snd p - pk_element (fst p) * c)%E) items) ;;
   Ret (t ++ map (TMsg "R") bs)).
Proof.
  revert t; induction items as [|[k s] items IH]; intros t; cbn [pop_recommit map mapM fst snd].
  - cbn. rewrite app_nil_r. reflexivity.
  - rewrite (le_commit0 E L). unfold append_element.
    destruct (serialize_element _) as [b|]; cbn [bind]; [|reflexivity].
    rewrite IH. destruct (mapM _ _) as [bs|]; cbn [bind]; [|reflexivity].
    unfold append_message. rewrite <- app_assoc. reflexivity.
Qed.

Lemma combine_map_l {A B C : Type} (f : A -> B) (l : list A) (l' : list C) :
  combine (map f l) l' = map (fun p => (f (fst p), snd p)) (combine l l').
Proof. revert l'; induction l as [|x l IH]; intros [|y l']; cbn; try reflexivity. rewrite IH. reflexivity. Qed.

(** exact behaviour of the verifier *)
Lemma pop_verify_eq (p : ProofOfPossession E) (keys : list (PublicKey E)) t :
  ProofOfPossession_verify p keys t =
  if Nat.eqb (List.length (pop_responses p)) (List.length keys) then
    bs <- mapM serialize_element
      (map (fun kp : element * scalar => (generator * snd kp - fst kp * pop_challenge p)%E)
         (combine (map pk_element keys) (pop_responses p))) ;;
    let q := pop_query t (map pk_bytes keys) bs in
    Ret ((if s_eqb (oracle q "c") (pop_challenge p) then Ok tt else Err ChallengeMismatch), q ++ [TChal "c"])
  else Ret (Err (LenMismatch "public keys" (List.length (pop_responses p)) (List.length keys)),
            t ++ [TMsg "dom-sep" (str_bytes "multi_pop")] ++ map (TMsg "K") (map pk_bytes keys)).
Proof.
  unfold ProofOfPossession_verify, check_lengths. rewrite pop_append_keys_eq.
  unfold start_proof, append_message. rewrite map_map.
  destruct (Nat.eqb _ _).
  - rewrite pop_recommit_eq. rewrite combine_map_l, map_map. cbn [fst snd].
    destruct (mapM _ _) as [bs|]; cbn [bind]; [|reflexivity].
    unfold challenge_scalar, pop_query. rewrite <- !app_assoc. rewrite map_map. reflexivity.
  - rewrite <- !app_assoc. reflexivity.
Qed.

Lemma pop_verify_ok_iff (p : ProofOfPossession E) (keys : list (PublicKey E)) t t' :
  ProofOfPossession_verify p keys t = Ret (Ok tt, t') <->
  exists xs bs,
    pop_answers (map pk_element keys) xs (pop_challenge p) (pop_responses p) /\ encoded xs bs /\
    oracle (pop_query t (map pk_bytes keys) bs) "c" = pop_challenge p /\
    t' = pop_query t (map pk_bytes keys) bs ++ [TChal "c"].
Proof.
  rewrite pop_verify_eq. unfold pop_answers. rewrite map_length. split.
  - destruct (Nat.eqb_spec (List.length (pop_responses p)) (List.length keys)) as [Hl|Hl]; [|discriminate].
    intros H. inv_bind H. destruct (s_eqb _ _) eqn:Hs; [|discriminate].
    apply (s_eqb_ok E L) in Hs. injection H as <-. apply mapM_ser_iff in Hm.
    eexists _, a. split; [split; [exact Hl|reflexivity]|]. auto.
  - intros (xs & bs & [Hl ->] & Hb & Ho & ->). rewrite Hl, Nat.eqb_refl.
    apply mapM_ser_iff in Hb. rewrite Hb. cbn [bind]. rewrite Ho, (s_eqb_refl L). reflexivity.
Qed.

Lemma pop_verify_len (p : ProofOfPossession E) (keys : list (PublicKey E)) t :
  List.length (pop_responses p) <> List.length keys ->
  exists t', ProofOfPossession_verify p keys t =
    Ret (Err (LenMismatch "public keys" (List.length (pop_responses p)) (List.length keys)), t').
Proof.
  intros H. rewrite pop_verify_eq. apply Nat.eqb_neq in H. rewrite H. eauto.
Qed.

Lemma pop_new_eq (secrets : list scalar) (keys : list (PublicKey E)) t r :
  ProofOfPossession_from_keys secrets keys t r =
  (let '(xs, r') := draw (List.length keys) r in
   bs <- mapM serialize_element (map (fun x => (@generator E * x)%E) xs) ;;
   let q := pop_query t (map pk_bytes keys) bs in
   let c := oracle q "c" in
   Ret ({| pop_challenge := c;
           pop_responses := map (fun p => (snd p + fst p * c)%S) (combine secrets xs) |},
        q ++ [TChal "c"], r')).
Proof.
  unfold ProofOfPossession_from_keys. rewrite pop_append_keys_eq. unfold start_proof, append_message.
  rewrite pop_commit_eq. destruct (draw _ r) as [xs r'].
  destruct (mapM _ _) as [bs|]; cbn [bind]; [|reflexivity].
  unfold challenge_scalar, pop_query, SecretKey_add, SecretKey_mul. rewrite <- !app_assoc. rewrite map_map.
  cbv zeta. f_equal. f_equal. f_equal. f_equal. apply map_ext. intros [a b]. reflexivity.
Qed.

Lemma pop_complete_keys (secrets : list scalar) (keys : list (PublicKey E)) t r p t' r' :
  Forall2 key_of secrets keys ->
  ProofOfPossession_from_keys secrets keys t r = Ret (p, t', r') ->
  ProofOfPossession_verify p keys t = Ret (Ok tt, t').
Proof.
  intros Hk. rewrite pop_new_eq. destruct (draw _ r) as [xs r1] eqn:Hd. intros H. inv_bind H.
  cbv zeta in H. injection H as <- <- <-. apply pop_verify_ok_iff. cbn [pop_challenge pop_responses].
  apply mapM_ser_iff in Hm. eexists _, a. split; [|split; [exact Hm|auto]].
  generalize (oracle (e:=E) (pop_query t (map pk_bytes keys) a) "c"). intros c.
  apply draw_length in Hd. clear -Hk Hd L. unfold pop_answers. split.
  - rewrite map_length, combine_length, map_length, (Forall2_length' _ _ _ Hk), Hd. lia.
  - revert xs Hd; induction Hk as [|s k secrets keys Hs Hk IH]; intros [|x xs] Hd; try discriminate; cbn.
    + reflexivity.
    + f_equal; [|apply IH; cbn in Hd; lia]. unfold key_of in Hs. rewrite Hs. el_ring L.
Qed.

Lemma pop_complete (kps : list (Keypair E)) t r p t' r' :
  (forall kp, In kp kps -> key_of (kp_secret kp) (kp_public kp)) ->
  ProofOfPossession_new kps t r = Ret (p, t', r') ->
  ProofOfPossession_verify p (map kp_public kps) t = Ret (Ok tt, t').
Proof.
  intros Hk. unfold ProofOfPossession_new. apply pop_complete_keys.
  induction kps as [|kp kps IH]; cbn; constructor.
  - apply Hk. left; reflexivity.
  - apply IH. intros; apply Hk; right; assumption.
Qed.

Lemma pop_new_total (secrets : list scalar) (keys : list (PublicKey E)) t r :
  ser_total E -> exists p t' r', ProofOfPossession_from_keys secrets keys t r = Ret (p, t', r').
Proof.
  intros Ht. rewrite pop_new_eq. destruct (draw _ r) as [xs r1].
  destruct (encoded_total E L (map (fun x => (@generator E * x)%E) xs) Ht) as [bs Hbs].
  apply mapM_ser_iff in Hbs. rewrite Hbs. cbn. eauto.
Qed.

Lemma pop_verify_total (p : ProofOfPossession E) (keys : list (PublicKey E)) t :
  ser_total E -> exists res t', ProofOfPossession_verify p keys t = Ret (res, t').
Proof.
  intros Ht. rewrite pop_verify_eq. destruct (Nat.eqb _ _); [|eauto].
  match goal with |- context [mapM serialize_element ?l] => destruct (encoded_total E L l Ht) as [bs Hbs] end.
  apply mapM_ser_iff in Hbs. rewrite Hbs. cbn. eauto.
Qed.

(** knowledge soundness *)
Lemma pop_extract (ks xs : list element) (c c' : scalar) (ss ss' : list scalar) :
  pop_answers ks xs c ss -> pop_answers ks xs c' ss' -> c <> c' ->
  ks = map (fun p : scalar * scalar => (generator * ((fst p - snd p) * s_inv L (c - c')))%E) (combine ss ss').
Proof.
  intros [Hl ->] [Hl' H] Hc. pose proof (s_sub_neq_0 L _ _ Hc) as Hn.
  revert ss ss' Hl Hl' H; induction ks as [|k ks IH]; intros [|s ss] [|s' ss'] Hl Hl' H; try discriminate.
  - reflexivity.
  - cbn in H |- *. injection H as H0 H. f_equal; [|apply IH; auto].
    clear IH H Hl Hl'.
    rename H0 into Hx. apply (f_equal (dlog L)) in Hx. dlog_simpl_in L Hx.
    apply (dlog_inj L). dlog_simpl L. apply (s_mul_cancel_r L _ _ (c - c')%S Hn).
    transitivity (s - s')%S; [|field; exact Hn].
    transitivity (s - (1 * s - dlog L k * c) - dlog L k * c')%S; [ring|]. rewrite Hx. ring.
Qed.

(** binding *)
Lemma pop_query_inj t ks xs t' ks' xs' :
  List.length ks = List.length xs -> List.length ks' = List.length xs' ->
  pop_query t ks xs = pop_query t' ks' xs' -> t = t' /\ ks = ks' /\ xs = xs'.
Proof.
  intros Hl Hl' H. unfold pop_query in H.
  set (P := fun e => exists b, e = TMsg "K" b \/ e = TMsg "R" b).
  apply (suffix_split P) in H.
  - destruct H as (-> & _ & H). split; [reflexivity|].
    assert (Hlen : List.length ks = List.length ks').
    { apply (f_equal (@List.length tev)) in H. rewrite !app_length, !map_length in H. lia. }
    apply app_inv_tail_len in H; [|rewrite !map_length; lia].
    destruct H as [H1 H2]. split; eapply map_inj; try eassumption; intros x y Hxy; congruence.
  - apply Forall_app. split; apply Forall_forall; intros e He; apply in_map_iff in He as (b & <- & _); exists b; auto.
  - apply Forall_app. split; apply Forall_forall; intros e He; apply in_map_iff in He as (b & <- & _); exists b; auto.
  - intros [b [Hb|Hb]]; discriminate.
  - intros [b [Hb|Hb]]; discriminate.
Qed.

Lemma pop_verify_query (p : ProofOfPossession E) keys t res tf :
  ProofOfPossession_verify p keys t = Ret (res, tf) ->
  List.length (pop_responses p) = List.length keys ->
  exists xs bs, pop_answers (map pk_element keys) xs (pop_challenge p) (pop_responses p) /\ encoded xs bs /\
    tf = pop_query t (map pk_bytes keys) bs ++ [TChal "c"].
Proof.
  intros H Hl. rewrite pop_verify_eq in H. rewrite Hl, Nat.eqb_refl in H. inv_bind H. cbv zeta in H.
  injection H as _ <-. apply mapM_ser_iff in Hm. eexists _, a. split; [|split; [exact Hm|reflexivity]].
  split; [rewrite map_length; exact Hl|reflexivity].
Qed.

Lemma pop_binding (p p' : ProofOfPossession E) keys keys' t t' res res' tf :
  List.length (pop_responses p) = List.length keys ->
  List.length (pop_responses p') = List.length keys' ->
  ProofOfPossession_verify p keys t = Ret (res, tf) ->
  ProofOfPossession_verify p' keys' t' = Ret (res', tf) ->
  t = t' /\ map pk_bytes keys = map pk_bytes keys' /\
  exists xs, pop_answers (map pk_element keys) xs (pop_challenge p) (pop_responses p) /\
             pop_answers (map pk_element keys') xs (pop_challenge p') (pop_responses p').
Proof.
  intros Hl Hl' H H'. apply pop_verify_query in H as (xs & bs & Ha & He & ->); [|exact Hl].
  apply pop_verify_query in H' as (xs' & bs' & Ha' & He' & Hq); [|exact Hl'].
  apply snoc_inj in Hq as [Hq _].
  assert (Hlx : forall ks xs bs c ss, pop_answers (E:=E) ks xs c ss -> encoded xs bs -> List.length ks = List.length bs).
  { intros ks0 xs0 bs0 c0 ss0 [H1 ->] H2. apply Forall2_length' in H2.
    rewrite map_length, combine_length in H2. lia. }
  apply pop_query_inj in Hq.
  - destruct Hq as (-> & Hk & ->). split; [reflexivity|]. split; [exact Hk|].
    exists xs. split; [exact Ha|]. rewrite (encoded_inj E L _ _ _ He He'). exact Ha'.
  - rewrite map_length. specialize (Hlx _ _ _ _ _ Ha He). rewrite map_length in Hlx. exact Hlx.
  - rewrite map_length. specialize (Hlx _ _ _ _ _ Ha' He'). rewrite map_length in Hlx. exact Hlx.
Qed.

End Proofs.
