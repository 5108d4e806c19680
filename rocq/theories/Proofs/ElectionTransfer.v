(** * Tallying in corresponding environments *)
From Coq Require Import List String NArith ZArith Arith Bool.
From Verif.Model Require Import Base Group Transcript Keys Encryption LogEquality Ring Range Sharing Choice Quadratic.
From Verif.Spec Require Import Encryption Choice Tally Collect Transfer Domains Rom RomElection.
From Verif.Proofs Require Import Parametricity Transfer.
Import ListNotations.
Open Scope list_scope.
Open Scope nat_scope.

Section Tally.
Context {E E' : Env} {ER : EnvRel E E'} {C : Corresponding E E'}.
Hint Resolve p_Ciphertext_add p_Ciphertext_zero p_PublicKeySet_verify_share p_decrypt_to_element
  p_VerifiableDecryption_decrypt_to_element p_combine_shares : par.

Lemma p_tally : rel (@tally E) (@tally E').
Proof. unfold tally. par. Qed.

Lemma p_times : rel (@Encryption.times E) (@Encryption.times E').
Proof.
  intros n n' Hn a a' Ha. hnf in Hn. subst n'. unfold times. induction n as [|n IH] using N.peano_ind; [apply co_identity|].
  rewrite !N.iter_succ. apply co_e_add; assumption.
Qed.

Lemma p_bit_element : rel (@bit_element E) (@bit_element E').
Proof. intros b b' Hb. hnf in Hb. subst b'. destruct b; [apply co_generator|apply co_identity]. Qed.

Lemma p_messages_for : rel (@messages_for E) (@messages_for E').
Proof.
  intros i i' Hi m m' Hm. hnf in Hi. subst i'. unfold messages_for. induction Hm as [|[j s] [j' s'] m m' [Hj Hs] Hm IH]; [constructor|].
  cbn [fst snd] in Hj, Hs. hnf in Hj. subst j'. cbn [filter fst]. destruct (j =? i); [|exact IH]. cbn [map snd]. constructor; [exact Hs|exact IH].
Qed.

Lemma rel_fsts {A A'} {RA : Rel A A'} (l : list (nat * A)) (l' : list (nat * A')) : rel l l' -> map fst l = map fst l'.
Proof. intros H. induction H as [|x x' l l' Hx _ IH]; [reflexivity|]. cbn [map]. rewrite IH. f_equal. exact (proj1 Hx). Qed.

Lemma rel_snoc {A A'} {RA : Rel A A'} (l : list A) (l' : list A') x x' : rel l l' -> rel x x' -> rel (l ++ [x]) (l' ++ [x']).
Proof. intros Hl Hx. apply Forall2_app; [exact Hl|]. constructor; [exact Hx|constructor]. Qed.

Lemma p_collect : rel (@collect E) (@collect E').
Proof.
  intros ks ks' Hks ct ct' Hct subs subs' Hs. induction Hs as [|[[i c] pf] [[i' c'] pf'] subs subs' [[Hi Hc] Hpf] Hs IH]; intros acc acc' Hacc; [exact Hacc|].
  cbn [fst snd] in Hi, Hc, Hpf. hnf in Hi. subst i'. cbn [collect]. rewrite (rel_fsts _ _ Hacc).
  assert (Hp : ks_params ks = ks_params ks') by exact (proj1 (is_eq _ _) (proj1 Hks)). rewrite Hp.
  destruct (_ && _); [|apply IH; exact Hacc].
  apply rel_bind.
  - exact (p_PublicKeySet_verify_share ks ks' Hks c c' Hc ct ct' Hct i i eq_refl pf pf' Hpf).
  - intros [d|e] [d'|e'] Hd; try contradiction; apply IH; [|exact Hacc]. apply rel_snoc; [exact Hacc|]. split; [reflexivity|exact Hd].
Qed.

Context (functional : forall (P : Element E) Q Q', rel P Q -> rel P Q' -> Q = Q').

Lemma rel_image {A A'} {RA : Rel A A'} (o : option A) (x : A') : rel o (Some x) -> exists y, o = Some y /\ rel y x.
Proof. destruct o as [y|]; [|contradiction]. intros H. exists y. split; [reflexivity|exact H]. Qed.
Lemma rel_returned {A A'} {RA : Rel A A'} (o : outcome A) (x : A') : rel o (Ret x) -> exists y, o = Ret y /\ rel y x.
Proof. destruct o as [y|]; [|contradiction]. intros H. exists y. split; [reflexivity|exact H]. Qed.

Lemma decrypts_rel (sk : SecretKey E) (sk' : SecretKey E') ct ct' P P' : rel sk sk' -> rel ct ct' -> rel P P' ->
  decrypt_to_element sk ct = P -> decrypt_to_element sk' ct' = P'.
Proof. intros Hsk Hct HP <-. eapply functional; [|exact HP]. apply p_decrypt_to_element; assumption. Qed.

Lemma one_hot_rel (sk : SecretKey E) (sk' : SecretKey E') cts cts' k : rel sk sk' -> rel cts cts' -> one_hot sk cts k -> one_hot sk' cts' k.
Proof.
  intros Hsk Hcts [Hk Hd]. split; [rewrite <- (Forall2_length _ _ _ Hcts); exact Hk|]. intros i ct' Hct'.
  pose proof (p_nth_error cts cts' Hcts i i eq_refl) as Hn. rewrite Hct' in Hn. apply rel_image in Hn as (ct & Hct & Hrel).
  exact (decrypts_rel sk sk' ct ct' _ _ Hsk Hrel (p_bit_element _ _ eq_refl) (Hd i ct Hct)).
Qed.

Lemma votes_rel (B : N -> Prop) (sk : SecretKey E) (sk' : SecretKey E') vs cts cts' : rel sk sk' -> rel cts cts' ->
  Forall2 (fun v ct => B v /\ decrypt_to_element sk ct = times v generator) vs cts ->
  Forall2 (fun v ct => B v /\ decrypt_to_element sk' ct = times v generator) vs cts'.
Proof.
  intros Hsk Hcts H. revert cts' Hcts. induction H as [|v ct vs cts [Hv Hd] H IH]; intros cts' Hcts; inversion Hcts as [|? ct' ? cts2 Hct Hrest]; subst;
    constructor; [|apply IH; exact Hrest]. split; [exact Hv|].
  exact (decrypts_rel sk sk' ct ct' _ _ Hsk Hct (p_times v v eq_refl _ _ co_generator) Hd).
Qed.

Definition announced (E : Env) (params : Params) (ks : PublicKeySet E) (n : nat)
    (votes : list (list N)) (accepted : list (list (Ciphertext E))) (msgs : list (message E)) : Prop :=
  forall i ct shares dec, nth_error (tally n accepted) i = Some ct ->
    collect ks ct (messages_for i msgs) [] = Ret shares -> combine_shares params shares = Ret (Some dec) ->
    VerifiableDecryption_decrypt_to_element dec ct = times (column i votes) generator.

Lemma announced_rel params ks ks' n votes acc acc' (msgs : list (message E)) (msgs' : list (message E')) : rel ks ks' -> rel acc acc' -> rel msgs msgs' ->
  announced E params ks n votes acc msgs -> announced E' params ks' n votes acc' msgs'.
Proof.
  intros Hks Hacc Hm H i ct' shares' dec' Hct' Hsh' Hdec'.
  pose proof (p_nth_error _ _ (p_tally n n eq_refl acc acc' Hacc) i i eq_refl) as Hn. rewrite Hct' in Hn. apply rel_image in Hn as (ct & Hct & Hctr).
  pose proof (p_collect ks ks' Hks ct ct' Hctr _ _ (p_messages_for i i eq_refl msgs msgs' Hm) [] [] (Forall2_nil _)) as Hc.
  rewrite Hsh' in Hc. apply rel_returned in Hc as (shares & Hsh & Hshr).
  pose proof (p_combine_shares params params (is_refl params) shares shares' Hshr) as Hd. rewrite Hdec' in Hd.
  apply rel_returned in Hd as (d & Hd & Hdr). apply rel_image in Hdr as (dec & -> & Hdr).
  specialize (H i ct shares dec Hct Hsh Hd).
  eapply functional; [|exact (p_times (column i votes) _ eq_refl _ _ co_generator)]. rewrite <- H.
  exact (p_VerifiableDecryption_decrypt_to_element dec dec' Hdr ct ct' Hctr).
Qed.
End Tally.
