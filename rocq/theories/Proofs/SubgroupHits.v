(** * Cheating over the prime-order subgroup is cheating over Curve25519Subgroup *)
From Coq Require Import List NArith ZArith String Lia Eqdep_dec Bool.
From Verif.Model Require Import Base Group Transcript Keys Encryption LogEquality Possession Ring
  Range Commitment Mul Sharing Dkg Choice Quadratic Serde Backends.
From Verif.Spec Require Import Transfer Backends Encryption LogEquality Sigma Ring Range Choice Quadratic Sharing Subgroup.
From Verif.Proofs Require Import Parametricity Transfer Backends Subgroup.
Import ListNotations.
Open Scope list_scope.

Section Hits.
Context {D : Dalek} {L : DalekLaws D} {R : Type} {fill : nat -> R -> bytes * R}
  {squeeze : transcript -> string -> nat -> bytes} {sha : bytes -> bytes} {estimate : N -> N} {build : Build}.
Local Notation E := (subgroup_env L R fill squeeze sha estimate build).
Local Notation E' := (curve25519_env D R fill squeeze sha estimate build).

Lemma rel_inj (P Q : Element E) (P' Q' : Element E') : rel P P' -> rel Q Q' -> (P = Q <-> P' = Q').
Proof.
  intros HP HQ. hnf in HP, HQ. subst. split; [intros ->; reflexivity|].
  destruct P as [P HP], Q as [Q HQ]. cbn. intros ->. f_equal. apply UIP_dec. apply bool_dec.
Qed.

Lemma rel_ser (P : Element E) (P' : Element E') b : rel P P' ->
  @serialize_element E P = Ret b -> @serialize_element E' P' = Ret b.
Proof.
  intros HP H. pose proof (co_serialize_element (E := E) (E' := E') P P' HP) as Hr.
  rewrite H in Hr. apply is_eq in Hr. symmetry. exact Hr.
Qed.

Lemma rel_pk_bytes (K : PublicKey E) (K' : PublicKey E') : rel K K' -> pk_bytes K = pk_bytes K'.
Proof. intros H. pose proof (p_pk_bytes K K' H) as Hb. apply is_eq in Hb. exact Hb. Qed.

Lemma rel_times n (P : Element E) (P' : Element E') : rel P P' -> rel (times (E := E) n P) (times (E := E') n P').
Proof.
  intros HP. unfold times. induction n as [|n IH] using N.peano_ind; [exact co_identity|].
  rewrite !N.iter_succ. apply (co_e_add _ _ HP _ _ IH).
Qed.

Local Open Scope string_scope.
Local Open Scope list_scope.

Lemma rel_mul (P : Element E) (P' : Element E') (s : Scalar E) : rel P P' -> rel (P * s)%E (@e_mul E' P' s).
Proof. intros H. exact (co_e_mul (E := E) (E' := E') P P' H s s eq_refl). Qed.

Lemma rel_lin (G G' : Element E) (H H' : Element E') (s c : Scalar E) :
  rel G H -> rel G' H' -> rel (G * s - G' * c)%E (@e_sub E' (@e_mul E' H s) (@e_mul E' H' c)).
Proof. intros HG HG'. exact (co_e_sub _ _ (rel_mul _ _ s HG) _ _ (co_e_mul _ _ HG' c c eq_refl)). Qed.

Lemma rel_answers (K P0 P1 X0 X1 : Element E) (K' P0' P1' X0' X1' : Element E') (c s : Scalar E) :
  rel K K' -> rel P0 P0' -> rel P1 P1' -> rel X0 X0' -> rel X1 X1' ->
  (le_answers (E := E) K P0 P1 X0 X1 c s <-> le_answers (E := E') K' P0' P1' X0' X1' c s).
Proof.
  intros HK H0 H1 HX0 HX1. unfold le_answers.
  rewrite (rel_inj X0 _ X0' _ HX0 (rel_lin _ _ _ _ s c co_generator H0)).
  rewrite (rel_inj X1 _ X1' _ HX1 (rel_lin _ _ _ _ s c HK H1)). reflexivity.
Qed.

Lemma rel_log_hit t (K : PublicKey E) (K' : PublicKey E') (P0 P1 : Element E) (P0' P1' : Element E') :
  rel K K' -> rel P0 P0' -> rel P1 P1' -> log_hit (E := E) t K P0 P1 -> log_hit (E := E') t K' P0' P1'.
Proof.
  intros HK H0 H1 (X0 & X1 & q & (p0 & p1 & x0 & x1 & S0 & S1 & S2 & S3 & Hq) & [s Hs] & Hu).
  exists (point X0), (point X1), q. split; [|split].
  - exists p0, p1, x0, x1. rewrite <- (rel_pk_bytes K K' HK). repeat split; try assumption;
      first [exact (rel_ser _ _ _ H0 S0)|exact (rel_ser _ _ _ H1 S1)|exact (rel_ser X0 (point X0) _ eq_refl S2)|
             exact (rel_ser X1 (point X1) _ eq_refl S3)].
  - exists s. apply (rel_answers _ _ _ X0 X1 _ _ _ _ _ (oracle (e := E) q "c") s (p_pk_element K K' HK) H0 H1 eq_refl eq_refl). exact Hs.
  - intros c s' H. apply (Hu c s').
    apply (rel_answers _ _ _ X0 X1 _ _ _ _ _ c s' (p_pk_element K K' HK) H0 H1 eq_refl eq_refl). exact H.
Qed.

Lemma rel_absorbed (f : list (string * Element E)) f' msgs :
  Forall2 (fun a b => fst a = fst b /\ rel (snd a) (snd b)) f f' ->
  absorbed (E := E) f msgs -> absorbed (E := E') f' msgs.
Proof.
  intros H. revert msgs. induction H as [|a b f f' [Ha Hb] _ IH]; intros msgs Hm; inversion Hm; subst; constructor.
  - destruct H1 as (bs & Hs & He). exists bs. rewrite <- Ha. split; [exact (rel_ser _ _ _ Hb Hs)|exact He].
  - apply IH. assumption.
Qed.

Definition pts (T : Element E * Element E) : Element E' * Element E' := (point (fst T), point (snd T)).

Lemma rel_ring_common t Ts q : ring_common (E := E) t Ts q -> ring_common (E := E') t (map pts Ts) q.
Proof.
  intros (msgs & Hm & Hq). exists msgs. split; [|exact Hq]. revert Hm. apply rel_absorbed.
  clear Hq. induction Ts as [|T Ts IH]; [constructor|]. cbn. repeat constructor. exact IH.
Qed.

Lemma rel_ring_local t (ct : Ciphertext E) (ct' : Ciphertext E') k rt : rel ct ct' ->
  ring_local (E := E) t ct k rt -> ring_local (E := E') t ct' k rt.
Proof.
  intros H (rb & bb & H1 & H2 & H3). exists rb, bb.
  split; [exact (rel_ser _ _ _ (p_random_element ct ct' H) H1)|].
  split; [exact (rel_ser _ _ _ (p_blinded_element ct ct' H) H2)|exact H3].
Qed.

Lemma rel_ring_context t (K : PublicKey E) (K' : PublicKey E') : rel K K' ->
  ring_context (E := E) t K = ring_context (E := E') t K'.
Proof. intros H. unfold ring_context. rewrite (rel_pk_bytes K K' H). reflexivity. Qed.

Lemma rel_ring_all_hits rt (K : Element E) (K' : Element E') (ct : Ciphertext E) (ct' : Ciphertext E') vals vals' T :
  rel K K' -> rel ct ct' -> rel vals vals' -> forall j c,
  ring_all_hits (E := E) rt K ct j c vals T -> ring_all_hits (E := E') rt K' ct' j c vals' (pts T).
Proof.
  intros HK Hct Hv. induction Hv as [|A A' vals vals' HA Hv IH]; intros j c; [exact (fun H => H)|].
  intros (X & [s Hs] & Hu & Hrest). exists (pts X).
  pose proof (p_random_element ct ct' Hct) as HR. pose proof (p_blinded_element ct ct' Hct) as HB.
  pose proof (co_e_sub _ _ HB _ _ HA) as HBA.
  split; [|split].
  - exists s. apply (rel_answers _ _ _ (fst X) (snd X) _ _ _ _ _ c s HK HR HBA eq_refl eq_refl). exact Hs.
  - intros c' s' H. apply (Hu c' s').
    apply (rel_answers _ _ _ (fst X) (snd X) _ _ _ _ _ c' s' HK HR HBA eq_refl eq_refl). exact H.
  - inversion Hv; subst; [rewrite Hrest; reflexivity|].
    destruct Hrest as (q & (b0 & b1 & H1 & H2 & Hq) & Hall). exists q. split; [|apply IH; exact Hall].
    exists b0, b1. split; [exact (rel_ser _ _ _ eq_refl H1)|]. split; [exact (rel_ser _ _ _ eq_refl H2)|exact Hq].
Qed.

Lemma rel_nth_error {A A'} {RA : Rel A A'} (l : list A) (l' : list A') k x : rel l l' ->
  nth_error l k = Some x -> exists x', nth_error l' k = Some x' /\ rel x x'.
Proof.
  intros H. revert k. induction H as [|a a' l l' Ha _ IH]; intros [|k]; cbn; try discriminate.
  - intros [= <-]. exists a'. split; [reflexivity|exact Ha].
  - apply IH.
Qed.
Lemma rel_in {A A'} {RA : Rel A A'} (l : list A) (l' : list A') x : rel l l' -> In x l -> exists x', In x' l' /\ rel x x'.
Proof.
  intros H Hx. apply In_nth_error in Hx as [k Hk]. destruct (rel_nth_error l l' k x H Hk) as (x' & Hx' & Hr).
  exists x'. split; [exact (nth_error_In _ _ Hx')|exact Hr].
Qed.
Lemma rel_in' {A A'} {RA : Rel A A'} (l : list A) (l' : list A') x' : rel l l' -> In x' l' -> exists x, In x l /\ rel x x'.
Proof.
  intros H. induction H as [|a a' l l' Ha _ IH]; [contradiction|].
  intros [<-|Hx]; [exists a; split; [left; reflexivity|exact Ha]|]. destruct (IH Hx) as (x & H1 & H2).
  exists x. split; [right; exact H1|exact H2].
Qed.
Lemma rel_length {A A'} {RA : Rel A A'} (l : list A) (l' : list A') : rel l l' -> List.length l = List.length l'.
Proof. intros H. induction H; cbn; congruence. Qed.

Lemma rel_bit_hit t (K : PublicKey E) (K' : PublicKey E') cts cts' k :
  rel K K' -> rel cts cts' -> bit_hit (E := E) t K cts k -> bit_hit (E := E') t K' cts' k.
Proof.
  intros HK Hcts (ct & rt & Ts & T & q & Hct & Hl & HT & Hc & Hh).
  destruct (rel_nth_error cts cts' k ct Hcts Hct) as (ct' & Hct' & Hr).
  exists ct', rt, (map pts Ts), (pts T), q.
  split; [exact Hct'|]. rewrite <- (rel_ring_context t K K' HK). split; [exact (rel_ring_local _ ct ct' _ _ Hr Hl)|].
  split; [exact (map_nth_error pts _ _ HT)|]. split; [exact (rel_ring_common _ _ _ Hc)|].
  refine (rel_ring_all_hits rt _ _ ct ct' _ _ T (p_pk_element K K' HK) Hr _ 0 (oracle (e := E) q "c") Hh).
  constructor; [exact co_identity|]. constructor; [exact co_generator|constructor].
Qed.

Lemma rel_decrypt sk (ct : Ciphertext E) (ct' : Ciphertext E') : rel ct ct' ->
  rel (decrypt_to_element (E := E) sk ct) (decrypt_to_element (E := E') sk ct').
Proof. intros H. exact (p_decrypt_to_element (E := E) (E' := E') sk sk eq_refl ct ct' H). Qed.

Lemma rel_multiples s : @rel (list (Element E)) (list (Element E')) _
  (map (fun i => times (E := E) (N.of_nat i * rs_step s) generator) (seq 0 (N.to_nat (rs_size s))))
  (map (fun i => times (E := E') (N.of_nat i * rs_step s) generator) (seq 0 (N.to_nat (rs_size s)))).
Proof.
  induction (seq 0 (N.to_nat (rs_size s))) as [|i l IH]; [constructor|]. cbn [map].
  constructor; [exact (rel_times _ _ _ co_generator)|exact IH].
Qed.

Lemma rel_range_hit sk t (K : PublicKey E) (K' : PublicKey E') d partial partial' ct ct' :
  rel K K' -> rel partial partial' -> rel ct ct' ->
  range_hit (E := E) sk t K d partial ct -> range_hit (E := E') sk t K' d partial' ct'.
Proof.
  intros HK Hp Hct (k & s & pct & rt & Ts & T & q & Hs & Hpct & Hin & Hl & HT & Hc & Hh).
  assert (Hrc : rel (range_ciphertexts (E := E) partial ct) (range_ciphertexts (E := E') partial' ct')).
  { clear - Hp Hct. unfold range_ciphertexts. apply Forall2_app; [exact Hp|]. constructor; [|constructor].
    revert ct ct' Hct. induction Hp as [|a a' l l' Ha _ IH]; intros ct ct' Hct; [exact Hct|].
    cbn [fold_left]. apply IH. exact (p_Ciphertext_sub _ _ Hct _ _ Ha). }
  destruct (rel_nth_error _ _ k pct Hrc Hpct) as (pct' & Hpct' & Hr).
  exists k, s, pct', rt, (map pts Ts), (pts T), q. cbv zeta.
  rewrite <- (rel_ring_context _ K K' HK).
  split; [exact Hs|]. split; [exact Hpct'|]. split.
  { intros Hi. apply Hin. destruct (rel_in' _ _ _ (rel_multiples s) Hi) as (x & Hx & Hxr).
    rewrite (proj2 (rel_inj _ _ _ _ (rel_decrypt sk _ _ Hr) Hxr) eq_refl). exact Hx. }
  split; [exact (rel_ring_local _ pct pct' _ _ Hr Hl)|].
  split; [exact (map_nth_error pts _ _ HT)|]. split; [exact (rel_ring_common _ _ _ Hc)|].
  exact (rel_ring_all_hits rt _ _ pct pct' _ _ T (p_pk_element K K' HK) Hr (rel_multiples s) 0 (oracle (e := E) q "c") Hh).
Qed.

Lemma pts_inj T U : pts T = pts U -> T = U.
Proof.
  destruct T as [a b], U as [c d]. unfold pts. cbn. intros [= H1 H2].
  rewrite (proj2 (rel_inj a c _ _ eq_refl eq_refl) H1), (proj2 (rel_inj b d _ _ eq_refl eq_refl) H2). reflexivity.
Qed.
Lemma map_pts_inj Ts Us : map pts Ts = map pts Us -> Ts = Us.
Proof.
  revert Us. induction Ts as [|T Ts IH]; intros [|U Us]; cbn; try discriminate; [reflexivity|].
  intros H. assert (H1 : pts T = pts U) by exact (f_equal (hd (pts T)) H).
  assert (H2 : map pts Ts = map pts Us) by exact (f_equal (@tl _) H).
  rewrite (IH Us H2), (pts_inj T U H1). reflexivity.
Qed.

Lemma rel_esum (As : list (Element E)) (As' : list (Element E')) (ss : list (Scalar E)) : rel As As' ->
  rel (esum (E := E) (combine As ss)) (esum (E := E') (combine As' ss)).
Proof.
  intros H. revert ss. induction H as [|a a' As As' Ha _ IH]; intros ss; [exact co_identity|].
  destruct ss as [|s ss]; [exact co_identity|]. cbn [combine esum].
  exact (co_e_add _ _ (rel_mul _ _ s Ha) _ _ (IH ss)).
Qed.

Lemma rel_map {A A' B B'} {RA : Rel A A'} {RB : Rel B B'} (f : A -> B) (f' : A' -> B') l l' :
  rel f f' -> rel l l' -> rel (map f l) (map f' l').
Proof. intros Hf H. induction H; cbn; constructor; [apply Hf; assumption|assumption]. Qed.

Lemma rel_sq_answers (K : Element E) (K' : Element E') cs cs' z z' As Z c rs sz :
  rel K K' -> rel cs cs' -> rel z z' ->
  (sq_answers (E := E) K cs z As Z c rs sz <-> sq_answers (E := E') K' cs' z' (map pts As) (pts Z) c rs sz).
Proof.
  intros HK Hcs Hz. unfold sq_answers.
  rewrite (rel_length cs cs' Hcs).
  assert (HA : map pts (map (fun p : Ciphertext E * (Scalar E * Scalar E) => let '(ct, (sr, sx)) := p in
              ((generator * sr - random_element ct * c)%E,
               (generator * sx + K * sr - blinded_element ct * c)%E)) (combine cs rs)) =
     map (fun p : Ciphertext E' * (Scalar E' * Scalar E') => let '(ct, (sr, sx)) := p in
              (@e_sub E' (@e_mul E' (@generator E') sr) (@e_mul E' (random_element ct) c),
               @e_sub E' (@e_add E' (@e_mul E' (@generator E') sx) (@e_mul E' K' sr)) (@e_mul E' (blinded_element ct) c)))
       (combine cs' rs)).
  { clear - HK Hcs. revert rs. induction Hcs as [|ct ct' cs cs' Hct _ IH]; intros rs; [reflexivity|].
    destruct rs as [|[sr sx] rs]; [reflexivity|]. cbn [combine map]. rewrite IH. f_equal.
    unfold pts. cbn [fst snd]. f_equal.
    - exact (rel_lin _ _ _ _ sr c co_generator (p_random_element ct ct' Hct)).
    - exact (co_e_sub _ _ (co_e_add _ _ (rel_mul _ _ sx co_generator) _ _ (rel_mul _ _ sr HK))
               _ _ (rel_mul _ _ c (p_blinded_element ct ct' Hct))). }
  pose proof (co_e_sub _ _ (co_e_add _ _ (rel_esum _ _ (map snd rs) (rel_map _ _ _ _ p_random_element Hcs))
      _ _ (rel_mul _ _ sz co_generator)) _ _ (rel_mul _ _ c (p_random_element z z' Hz))) as H1.
  pose proof (co_e_sub _ _ (co_e_add _ _ (rel_esum _ _ (map snd rs) (rel_map _ _ _ _ p_blinded_element Hcs))
      _ _ (rel_mul _ _ sz HK)) _ _ (rel_mul _ _ c (p_blinded_element z z' Hz))) as H2.
  rewrite (rel_inj (fst Z) _ (fst (pts Z)) _ eq_refl H1).
  rewrite (rel_inj (snd Z) _ (snd (pts Z)) _ eq_refl H2).
  split; intros (Hl & HAs & HZ); (split; [exact Hl|split; [|exact HZ]]).
  - rewrite HAs. exact HA.
  - apply map_pts_inj. rewrite HAs. symmetry. exact HA.
Qed.

Lemma rel_sq_hashed t (K : PublicKey E) (K' : PublicKey E') cs cs' z z' As Z q :
  rel K K' -> rel cs cs' -> rel z z' ->
  sq_hashed (E := E) t K cs z As Z q -> sq_hashed (E := E') t K' cs' z' (map pts As) (pts Z) q.
Proof.
  intros HK Hcs Hz (msgs & Hm & Hq). exists msgs. rewrite <- (rel_pk_bytes K K' HK). split; [|exact Hq].
  revert Hm. apply rel_absorbed. unfold sq_items. apply Forall2_app.
  - clear - Hcs. revert As. induction Hcs as [|ct ct' cs cs' Hct _ IH]; intros As; [constructor|].
    destruct As as [|[a b] As]; [constructor|]. cbn [combine map flat_map].
    apply Forall2_app; [|apply IH]. repeat constructor; [apply Hct|apply Hct].
  - repeat constructor; apply Hz.
Qed.

Lemma rel_sq_hit t (K : PublicKey E) (K' : PublicKey E') cs cs' z z' :
  rel K K' -> rel cs cs' -> rel z z' -> sq_hit (E := E) t K cs z -> sq_hit (E := E') t K' cs' z'.
Proof.
  intros HK Hcs Hz (As & Z & q & Hh & (rs & sz & Hs) & Hu).
  exists (map pts As), (pts Z), q. split; [exact (rel_sq_hashed t K K' cs cs' z z' As Z q HK Hcs Hz Hh)|].
  split.
  - exists rs, sz. apply (rel_sq_answers _ _ cs cs' z z' As Z (oracle (e := E) q "c") rs sz (p_pk_element K K' HK) Hcs Hz). exact Hs.
  - intros c rs' sz' H. apply (Hu c rs' sz').
    apply (rel_sq_answers _ _ cs cs' z z' As Z c rs' sz' (p_pk_element K K' HK) Hcs Hz). exact H.
Qed.

Lemma key_inside sk (K' : PublicKey E') : key_of (E := E') sk K' -> inside L K' /\
  forall K : PublicKey E, rel K K' -> key_of (E := E) sk K.
Proof.
  intros H. pose proof (rel_mul _ _ sk co_generator) as Hg.
  unfold key_of in H. split.
  - constructor; [|constructor]. rewrite H.
    apply (inside_element (R := R) (fill := fill) (squeeze := squeeze) (sha := sha) (estimate := estimate) (build := build)).
    eexists. exact Hg.
  - intros K HK. unfold key_of. apply (rel_inj _ _ _ _ (p_pk_element K K' HK) Hg). exact H.
Qed.

End Hits.
