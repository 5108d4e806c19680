(** * C83: several proofs in one transcript *)
From Coq Require Import List NArith ZArith Arith Bool String Lia.
From Verif.Model Require Import Base Group Transcript Keys Encryption LogEquality Possession
  Ring Range Commitment Mul.
From Verif.Spec Require Import Encryption LogEquality Possession Ring Range Sigma Chain.
From Verif.Proofs Require Import Lists Algebra Encryption Range RangeProof Rom.
From Verif.Instance Require Import Primality Zq.
From Verif.Properties Require Import LogEquality Possession Ring Range SumOfSquares Commitment.
Import ListNotations.
Open Scope string_scope.
Open Scope list_scope.
Open Scope nat_scope.

Section Chains.
Context (E : Env) (L : GroupLaws E).

Lemma made_accepted c p t g t' g' : made (E:=E) c p t g t' g' -> accepted c p t t'.
Proof.
  destruct 1.
  - constructor. exact (C07_complete E L _ _ _ _ _ _ _ H).
  - constructor. exact (C13_complete E L _ _ _ _ _ _ H H0).
  - constructor. exact (proj2 (C22_from_ciphertext_complete E L _ _ _ _ _ _ _ _ _ _ _ H H0 H1 H2 H3)).
  - constructor. exact (C24_complete E L _ _ _ _ _ _ _ _ H H0 H1 H2).
  - constructor. exact (proj2 (C26_complete E L _ _ _ _ _ _ _ _ _ _ H H0)).
Qed.

Lemma range_accepted (p : RangeProof E) K pr ct t t' est n d :
  (n + 4 < 2 ^ 64)%N -> RangeDecomposition_optimal (env_build E) est n = Ret d -> PreparedRange_new d = Ret pr ->
  RangeProof_verify p K pr ct t = Ret (Ok tt, t') ->
  List.length (rap_partial p) + 1 = List.length d /\
  List.length (rp_responses (rap_inner p)) = N.to_nat (n_sum (map rs_size d)) /\
  RingProof_verify (rap_inner p) K (range_values d) (range_ciphertexts (rap_partial p) ct) (range_start_transcript t d) = Ret (Ok tt, t').
Proof.
  intros Hn Hd Hpr H. pose proof (optimal_valid _ est n d Hn Hd) as Hf.
  rewrite (prepared_ok E L n d Hf) in Hpr by (unfold u64_lim; lia). injection Hpr as <-.
  rewrite (range_verify_eq E L) in H. destruct (Nat.eqb_spec (List.length (rap_partial p) + 1) (List.length d)) as [Hl|]; [|discriminate].
  split; [exact Hl|]. split; [|exact H].
  unfold RingProof_verify, check_lengths in H. rewrite (range_values_sum E) in H.
  match type of H with context [Nat.eqb ?a ?b] => destruct (Nat.eqb_spec a b) as [He|]; [exact He|discriminate] end.
Qed.

(** An accepted proof carries the hash of an input that continues the transcript *)
Lemma accepted_hash c p t t' : proper c -> accepted (E:=E) c p t t' ->
  exists m q, q = t ++ m /\ t' = q ++ [TChal "c"] /\ oracle q "c" = carried p.
Proof.
  intros Hc H. destruct H.
  - apply (C08_accepts_iff E L) in H as (X0 & X1 & q & _ & (p0 & p1 & x0 & x1 & _ & _ & _ & _ & Hq) & Ho & Ht).
    exists (skipn (List.length t) q), q. subst q. unfold le_query. rewrite skipn_app, skipn_all, Nat.sub_diag. auto.
  - apply (C13_accepts_iff E L) in H as (xs & bs & _ & _ & Ho & ->). unfold pop_query in *. eauto.
  - destruct Hc as (est & n & d & Hn & Hd & Hpr).
    destruct (range_accepted p K pr ct t t' est n d Hn Hd Hpr H) as (_ & _ & H1).
    apply (C15_accepts_iff E L) in H1 as (rss & Ts & q & _ & _ & _ & (msgs & _ & Hq) & Ho & Ht).
    unfold ring_context, range_start_transcript, start_proof, append_message in Hq. rewrite <- !app_assoc in Hq. eauto.
  - apply (C25_accepts_iff E L) in H as (rs & As & Z & q & _ & _ & (msgs & _ & Hq) & Ho & Ht). eauto.
  - apply (C27_accepts_iff E L) in H as (X1 & X2 & X3 & q & _ & (msgs & _ & Hq) & Ho & Ht). eauto.
Qed.

Lemma pop_len (p : ProofOfPossession E) keys t t' :
  ProofOfPossession_verify p keys t = Ret (Ok tt, t') -> List.length (pop_responses p) = List.length keys.
Proof.
  unfold ProofOfPossession_verify, check_lengths.
  match goal with |- context [Nat.eqb ?a ?b] => destruct (Nat.eqb_spec a b) as [He|]; [intros _; exact He|discriminate] end.
Qed.

Lemma sq_len (p : SumOfSquaresProof E) cs z K t t' :
  SumOfSquaresProof_verify p cs z K t = Ret (Ok tt, t') -> List.length (sq_ciphertext_responses p) = List.length cs * 2.
Proof.
  unfold SumOfSquaresProof_verify, check_lengths.
  match goal with |- context [Nat.eqb ?a ?b] => destruct (Nat.eqb_spec a b) as [He|]; [intros _; lia|discriminate] end.
Qed.

Lemma same_end c c' p t t' tf : proper c -> proper c' ->
  accepted (E:=E) c p t tf -> accepted c' p t' tf -> t = t'.
Proof.
  intros Hc Hc' H H'. 
  destruct H as [K P0 P1 p t tf Hv|keys p t tf Hv|K pr ct p t tf Hv|cts z K p t tf Hv|ct K C base p t tf Hv];
    inversion H' as [? ? ? ? ? ? Hw|? ? ? ? Hw|? ? ? ? ? ? Hw|? ? ? ? ? ? Hw|? ? ? ? ? ? ? Hw]; subst.
  - exact (proj1 (C10_log_equality_binding E L _ _ _ _ _ _ _ _ _ _ _ _ _ Hv Hw)).
  - apply (proj1 (C10_possession_binding E L p p _ _ _ _ _ _ _ (pop_len _ _ _ _ Hv) (pop_len _ _ _ _ Hw) Hv Hw)).
  - destruct Hc as (est & n & d & Hn & Hd & Hpr). destruct Hc' as (est' & n' & d' & Hn' & Hd' & Hpr').
    destruct (range_accepted _ _ _ _ _ _ est n d Hn Hd Hpr Hv) as (A1 & A2 & _).
    destruct (range_accepted _ _ _ _ _ _ est' n' d' Hn' Hd' Hpr' Hw) as (B1 & B2 & _).
    exact (proj1 (C10_range_binding E L _ _ _ _ _ _ _ _ _ _ _ _ _ _ _ _ _ _ _ Hn Hn' Hd Hpr Hd' Hpr' A1 B1 A2 B2 Hv Hw)).
  - apply (proj1 (C10_sum_of_squares_binding E L p p _ _ _ _ _ _ _ _ _ _ _ (sq_len _ _ _ _ _ _ Hv) (sq_len _ _ _ _ _ _ Hw) Hv Hw)).
  - exact (proj1 (C10_commitment_binding E L _ _ _ _ _ _ _ _ _ _ _ _ _ _ _ Hv Hw)).
Qed.

End Chains.

(** Proofs made one after the other in one transcript are accepted one after the other, and the
    transcripts of prover and verifier agree at the end (so that the conversation may go on). *)
Theorem C83_chain_complete :
  forall (E : Env) (L : GroupLaws E) (chain : list (claim E * any_proof E)) t g t' g',
    made_all chain t g t' g' -> accepted_all chain t t'.
Proof.
  intros E L chain t g t' g' H. induction H as [|c p rest t g t1 g1 t2 g2 H1 H2 IH]; [constructor|].
  econstructor; [|exact IH]. exact (made_accepted E L _ _ _ _ _ _ H1).
Qed.
Print Assumptions C83_chain_complete.

(** A proof accepted in two different transcripts carries a challenge which is the hash of two
    different inputs; whatever the claims are. *)
Theorem C83_one_place :
  forall (E : Env) (L : GroupLaws E) (c c' : claim E) (p : any_proof E) t t' u u',
    proper c -> proper c' -> accepted c p t t' -> accepted c' p u u' ->
    t = u \/ challenge_collision p.
Proof.
  intros E L c c' p t t' u u' Hc Hc' H H'.
  destruct (accepted_hash E L c p t t' Hc H) as (m & q & Hm & -> & Ho).
  destruct (accepted_hash E L c' p u u' Hc' H') as (m' & q' & Hm' & -> & Ho').
  destruct (list_eq_dec tev_eq_dec q q') as [<-|Hne].
  - left. exact (same_end E L c c' p t u _ Hc Hc' H H').
  - right. exists q, q'. auto.
Qed.
Print Assumptions C83_one_place.

(** So parts of a chain can be neither left out nor swapped ... *)
Theorem C83_order :
  forall (E : Env) (L : GroupLaws E) (before : list (claim E * any_proof E)) (c : claim E) (p : any_proof E) t t1 t2,
    before <> [] -> Forall (fun x => proper (fst x)) before -> proper c ->
    accepted_all (before ++ [(c, p)]) t t1 ->
    forall c', proper c' -> accepted c' p t t2 -> challenge_collision p.
Proof.
  intros E L before c p t t1 t2 Hne Hb Hc H c' Hc' H'.
  assert (Hm : exists u u', accepted c p u u' /\ List.length t < List.length u).
  { clear -L Hne Hb H. revert t H.
    induction Hb as [|[b pb] before Hpb Hb IH]; intros t H; [congruence|].
    cbn [app] in H. inversion H as [|? ? ? ? u1 ? Hx Hy]; subst.
    destruct (accepted_hash E L b pb t u1 Hpb Hx) as (m & q & -> & -> & _).
    destruct before as [|b2 before].
    - cbn [app] in Hy. inversion Hy as [|? ? ? ? u2 ? Hx2 Hy2]; subst. eexists _, _. split; [exact Hx2|].
      rewrite !app_length. cbn. lia.
    - destruct (IH ltac:(discriminate) _ Hy) as (u & u' & Hu & Hl). exists u, u'. split; [exact Hu|].
      rewrite !app_length in Hl. cbn in Hl. lia. }
  destruct Hm as (u & u' & Hu & Hl).
  destruct (C83_one_place E L c c' p u u' t t2 Hc Hc' Hu H') as [->|Hx]; [lia|exact Hx].
Qed.
Print Assumptions C83_order.

(** ... and a proof is of no use twice. *)
Theorem C83_no_replay :
  forall (E : Env) (L : GroupLaws E) (c c' : claim E) (p : any_proof E) between t t1,
    proper c -> proper c' -> Forall (fun x => proper (fst x)) between ->
    accepted_all ((c, p) :: between ++ [(c', p)]) t t1 -> challenge_collision p.
Proof.
  intros E L c c' p between t t1 Hc Hc' Hb H.
  assert (H1 : exists u, accepted c p t u) by (inversion H; eauto). destruct H1 as [u Hu].
  apply (C83_order E L ((c, p) :: between) c' p t t1 u ltac:(discriminate)) with (c' := c); try assumption.
  constructor; assumption.
Qed.
Print Assumptions C83_no_replay.

(** ** Example: a log equality proof, then a proof of possession of two keys, in one transcript *)
Definition ex_kps : list (Keypair RE) := [ex_keypair 5; ex_keypair 77].

Example C83_example :
  exists p1 p2 t2 g2,
    made_all (E := RE)
      [(ClLog ex_key (generator * rs 31337)%E (pk_element ex_key * rs 31337)%E, PfLog p1);
       (ClPossession (map kp_public ex_kps), PfPossession p2)] (transcript_new "test") 5%Z t2 g2.
Proof.
  destruct (C07_prover_never_panics RE RL RE_ser_total ex_key (rs 31337) (generator * rs 31337)%E
              (pk_element ex_key * rs 31337)%E (transcript_new "test") 5%Z) as (p1 & t1 & g1 & H1).
  destruct (C13_prover_never_panics RE RL RE_ser_total ex_kps t1 g1) as (p2 & t2 & g2 & H2).
  exists p1, p2, t2, g2. econstructor; [constructor; exact H1|]. econstructor; [|constructor].
  constructor; [|exact H2]. intros kp [<-|[<-|[]]]; (apply re_eq; vm_compute; reflexivity).
Qed.

Example C83_order_example :
  match LogEqualityProof_new ex_key (rs 31337) (re 31337, re (987654321 * 31337)) (transcript_new "test") 5%Z with
  | Ret (p1, t1, g1) =>
      match ProofOfPossession_new ex_kps t1 g1 with
      | Ret (p2, t2, _) =>
          accepts (LogEqualityProof_verify p1 ex_key (re 31337, re (987654321 * 31337)) (transcript_new "test")) = true /\
          accepts (ProofOfPossession_verify p2 (map kp_public ex_kps) t1) = true /\
          accepts (ProofOfPossession_verify p2 (map kp_public ex_kps) (transcript_new "test")) = false /\
          accepts (LogEqualityProof_verify p1 ex_key (re 31337, re (987654321 * 31337)) t2) = false
      | Panic _ => False
      end
  | Panic _ => False
  end.
Proof. vm_compute. auto. Qed.
