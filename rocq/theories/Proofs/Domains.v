(** * Each protocol hashes only inputs of its own domain *)
From Coq Require Import List NArith ZArith Arith Bool String Lia.
From Verif.Model Require Import Base Group Transcript Keys Encryption LogEquality Possession
  Ring Range Commitment Mul Sharing Dkg Choice Quadratic.
From Verif.Spec Require Import Domains.
Import ListNotations.
Open Scope string_scope.
Open Scope list_scope.

(** same outcome, and results satisfy [P] *)
Definition same {A : Type} (P : A -> Prop) (m m' : outcome A) : Prop :=
  m' = m /\ forall x, m = Ret x -> P x.

Lemma same_bind {A B : Type} (P : A -> Prop) (Q : B -> Prop) (m m' : outcome A) (f f' : A -> outcome B) :
  same P m m' -> (forall x, P x -> same Q (f x) (f' x)) -> same Q (bind m f) (bind m' f').
Proof.
  intros [-> Hp] Hf. destruct m as [x|k]; cbn.
  - apply Hf, Hp. reflexivity.
  - split; [reflexivity|discriminate].
Qed.
Lemma same_ret {A : Type} (P : A -> Prop) x : P x -> same P (Ret x) (Ret x).
Proof. intros H. split; [reflexivity|]. intros y [= <-]. exact H. Qed.
Lemma same_triv {A : Type} (m : outcome A) : same (fun _ => True) m m.
Proof. split; trivial. Qed.
Lemma same_panic {A : Type} (P : A -> Prop) k : same P (Panic k) (Panic k).
Proof. split; [reflexivity|discriminate]. Qed.
Lemma same_let {A B C : Type} (Q : C -> Prop) (p : A * B) (f f' : A -> B -> outcome C) :
  (forall a b, same Q (f a b) (f' a b)) -> same Q (let '(a, b) := p in f a b) (let '(a, b) := p in f' a b).
Proof. intros H. destruct p as [a b]. apply H. Qed.
Lemma same_weaken {A : Type} (P Q : A -> Prop) m m' : (forall x, P x -> Q x) -> same P m m' -> same Q m m'.
Proof. intros H [-> Hp]. split; [reflexivity|]. intros x Hx. apply H, Hp, Hx. Qed.
Lemma same_eq {A : Type} (P : A -> Prop) m m' : same P m m' -> m' = m.
Proof. intros [H _]. exact H. Qed.

Lemma extends_refl t : extends t t.
Proof. exists []. now rewrite app_nil_r. Qed.
Lemma extends_app t0 t rest : extends t0 t -> extends t0 (t ++ rest).
Proof. intros [r ->]. exists (r ++ rest). now rewrite <- app_assoc. Qed.
Lemma extends_trans a b c : extends a b -> extends b c -> extends a c.
Proof. intros [r ->] [s ->]. exists (r ++ s). now rewrite app_assoc. Qed.

#[global] Hint Resolve extends_refl extends_app same_triv same_panic : dom.

Section Domains.
Context (E : Env) (o : transcript -> string -> Scalar E) (t0 : transcript) (Hag : agrees E o t0).
Local Notation W := (hashed_by E o).
Local Notation ext := (extends t0).

Lemma same_challenge t l : ext t -> challenge_scalar (E:=W) t l = challenge_scalar (E:=E) t l.
Proof. intros H. unfold challenge_scalar. cbn. now rewrite (Hag _ l H). Qed.

Lemma same_append t l e : ext t -> same ext (append_element (E:=E) t l e) (append_element (E:=W) t l e).
Proof.
  intros H. unfold append_element. apply (same_bind (fun _ => True)); [apply same_triv|]. intros b _.
  apply same_ret. unfold append_message. auto with dom.
Qed.
Lemma ext_u64 t l n : ext t -> ext (append_u64 t l n).
Proof. intros H. unfold append_u64, append_message. auto with dom. Qed.
Lemma ext_msg t l b : ext t -> ext (append_message t l b).
Proof. intros H. unfold append_message. auto with dom. Qed.
Lemma ext_eb t l b : ext t -> ext (append_element_bytes t l b).
Proof. apply ext_msg. Qed.
Lemma ext_start t l : ext t -> ext (start_proof t l).
Proof. intros H. unfold start_proof, append_message. auto with dom. Qed.
Lemma ext_chal t l : ext t -> ext (t ++ [TChal l]).
Proof. auto with dom. Qed.
Hint Resolve ext_u64 ext_msg ext_start ext_eb ext_chal same_append : dom.

Ltac step :=
  match goal with
  | |- same _ (bind (append_element _ _ _) _) (bind _ _) =>
      apply (same_bind (fun x => ext x)); [apply same_append; auto 8 with dom|intros ? ?]
  | |- same _ (bind _ _) (bind _ _) => apply (same_bind (fun _ => True)); [apply same_triv|intros ? _]
  | |- same _ (Ret _) (Ret _) => apply same_ret; cbn; auto 8 with dom
  | |- same _ (Panic _) (Panic _) => apply same_panic
  end.

Tactic Notation "stepas" simple_intropattern(p) := apply (same_bind (fun _ => True)); [apply same_triv|intros p _].

(** ** Log equality *)
Lemma same_le_new K sk p t r : extends t0 (domain t "log_eq") ->
  same (fun x => ext (snd (fst x)))
    (LogEqualityProof_new (E:=E) K sk p t r) (LogEqualityProof_new (E:=W) K sk p t r).
Proof.
  intros Ht. change (ext (start_proof t "log_eq")) in Ht. unfold LogEqualityProof_new. cbv zeta.
  do 2 step. change (SecretKey_generate (E:=W) r) with (SecretKey_generate (E:=E) r).
  destruct (SecretKey_generate r) as [y0 r']. do 2 step.
  rewrite same_challenge by assumption. cbn. apply same_ret. cbn. auto with dom.
Qed.
Lemma same_le_verify P K p t : extends t0 (domain t "log_eq") ->
  same (fun x => ext (snd x))
    (LogEqualityProof_verify (E:=E) P K p t) (LogEqualityProof_verify (E:=W) P K p t).
Proof.
  intros Ht. change (ext (start_proof t "log_eq")) in Ht. unfold LogEqualityProof_verify. cbv zeta.
  do 5 step. rewrite same_challenge by assumption. cbn. apply same_ret. cbn. auto with dom.
Qed.

(** ** Verifiable decryption *)
Lemma same_vd_new c K t r : extends t0 (domain t "decryption_with_custom_key") ->
  same (fun x => ext (snd (fst x)))
    (VerifiableDecryption_new (E:=E) c K t r) (VerifiableDecryption_new (E:=W) c K t r).
Proof.
  intros Ht. change (ext (start_proof t "decryption_with_custom_key")) in Ht.
  unfold VerifiableDecryption_new. cbv zeta. step.
  eapply same_bind; [apply same_le_new; unfold domain; auto with dom|]. intros [[p t'] r'] Hx. step.
Qed.
Lemma same_cd_verify d c K P t : extends t0 (domain t "decryption_with_custom_key") ->
  same (fun x => ext (snd x))
    (CandidateDecryption_verify (E:=E) d c K P t) (CandidateDecryption_verify (E:=W) d c K P t).
Proof.
  intros Ht. change (ext (start_proof t "decryption_with_custom_key")) in Ht.
  unfold CandidateDecryption_verify. cbv zeta. step.
  eapply same_bind; [apply same_le_verify; unfold domain; auto with dom|]. intros [res t'] Hx. step.
Qed.

(** ** Possession *)
Lemma ext_pop_keys keys : forall t, ext t -> ext (pop_append_keys (E:=E) t keys).
Proof.
  unfold pop_append_keys. induction keys as [|k keys IH]; intros t Ht; [exact Ht|]. cbn. apply IH. auto with dom.
Qed.
Lemma same_pop_commit n : forall t r, ext t ->
  same (fun x => ext (snd (fst x))) (pop_commit (E:=E) n t r) (pop_commit (E:=W) n t r).
Proof.
  induction n as [|n IH]; intros t r Ht; cbn [pop_commit]; [apply same_ret; exact Ht|].
  change (SecretKey_generate (E:=W) r) with (SecretKey_generate (E:=E) r).
  destruct (SecretKey_generate r) as [y0 r']. step.
  eapply same_bind; [apply IH; assumption|]. intros [[l t'] r''] H'. step.
Qed.
Lemma same_pop_new sks keys t r : extends t0 (domain t "multi_pop") ->
  same (fun x => ext (snd (fst x)))
    (ProofOfPossession_from_keys (E:=E) sks keys t r) (ProofOfPossession_from_keys (E:=W) sks keys t r).
Proof.
  intros Ht. change (ext (start_proof t "multi_pop")) in Ht. unfold ProofOfPossession_from_keys. cbv zeta.
  eapply same_bind; [apply same_pop_commit, ext_pop_keys, Ht|]. intros [[l t'] r'] H'. cbn in H'.
  rewrite same_challenge by exact H'. cbn. apply same_ret. cbn. auto with dom.
Qed.
Lemma same_pop_recommit c items : forall t, ext t ->
  same ext (pop_recommit (E:=E) c items t) (pop_recommit (E:=W) c items t).
Proof.
  induction items as [|[k s] items IH]; intros t Ht; cbn [pop_recommit]; [apply same_ret; exact Ht|].
  step. apply IH. assumption.
Qed.
Lemma same_pop_verify P keys t : extends t0 (domain t "multi_pop") ->
  same (fun x => ext (snd x))
    (ProofOfPossession_verify (E:=E) P keys t) (ProofOfPossession_verify (E:=W) P keys t).
Proof.
  intros Ht. change (ext (start_proof t "multi_pop")) in Ht. unfold ProofOfPossession_verify. cbv zeta.
  destruct (check_lengths _ _ _); [|apply same_ret; cbn; apply ext_pop_keys, Ht].
  eapply same_bind; [apply same_pop_recommit, ext_pop_keys, Ht|]. intros t' H'.
  rewrite same_challenge by exact H'. cbn. apply same_ret. cbn. auto with dom.
Qed.

(** ** Commitment equivalence *)
Lemma same_ce_new c K b H t r : extends t0 (domain t "commitment_equivalence") ->
  same (fun x => ext (snd (fst x)))
    (CommitmentEquivalenceProof_new (E:=E) c K b H t r) (CommitmentEquivalenceProof_new (E:=W) c K b H t r).
Proof.
  intros Ht. change (ext (start_proof t "commitment_equivalence")) in Ht.
  unfold CommitmentEquivalenceProof_new. cbv zeta. do 4 step.
  change (@SecretKey_generate W) with (@SecretKey_generate E).
  destruct (SecretKey_generate r) as [y1 r1]. destruct (SecretKey_generate r1) as [y2 r2].
  destruct (SecretKey_generate r2) as [y3 r3]. do 3 step.
  rewrite same_challenge by assumption. cbn. apply same_ret. cbn. auto with dom.
Qed.
Lemma same_ce_verify P c K C H t : extends t0 (domain t "commitment_equivalence") ->
  same (fun x => ext (snd x))
    (CommitmentEquivalenceProof_verify (E:=E) P c K C H t) (CommitmentEquivalenceProof_verify (E:=W) P c K C H t).
Proof.
  intros Ht. change (ext (start_proof t "commitment_equivalence")) in Ht.
  unfold CommitmentEquivalenceProof_verify. cbv zeta. do 8 step.
  rewrite same_challenge by assumption. cbn. apply same_ret. cbn. auto with dom.
Qed.

(** ** Sum of squares *)
Lemma same_sq_commit K cs : forall s t r, ext t ->
  same (fun x => ext (snd (fst x))) (sq_commit (E:=E) K cs s t r) (sq_commit (E:=W) K cs s t r).
Proof.
  induction cs as [|c cs IH]; intros s t r Ht; cbn [sq_commit]; [apply same_ret; exact Ht|].
  do 2 step. change (@SecretKey_generate W) with (@SecretKey_generate E).
  destruct (SecretKey_generate r) as [y1 r1]. cbv zeta. step.
  destruct (SecretKey_generate r1) as [y2 r2]. step.
  eapply same_bind; [apply IH; assumption|]. intros [[[l s'] t'] r''] H'. step.
Qed.
Lemma same_sq_new cs z K t r : extends t0 (domain t "sum_of_squares") ->
  same (fun x => ext (snd (fst x)))
    (SumOfSquaresProof_new (E:=E) cs z K t r) (SumOfSquaresProof_new (E:=W) cs z K t r).
Proof.
  intros Ht. change (ext (start_proof t "sum_of_squares")) in Ht. unfold SumOfSquaresProof_new. cbv zeta.
  change (@SecretKey_generate W) with (@SecretKey_generate E). destruct (SecretKey_generate r) as [y0 r'].
  eapply same_bind; [apply same_sq_commit; unfold sq_initialize_transcript; auto with dom|].
  intros [[[l s'] t'] r''] H'. cbn in H'. do 6 step.
  rewrite same_challenge by assumption. cbn. apply same_ret. cbn. auto with dom.
Qed.
Lemma same_sq_recommit K c items : forall t, ext t ->
  same ext (sq_recommit (E:=E) K c items t) (sq_recommit (E:=W) K c items t).
Proof.
  induction items as [|[ch ct] items IH]; intros t Ht; cbn [sq_recommit]; [apply same_ret; exact Ht|].
  do 7 step. apply IH. assumption.
Qed.
Lemma same_sq_verify P cs z K t : extends t0 (domain t "sum_of_squares") ->
  same (fun _ => True)
    (SumOfSquaresProof_verify (E:=E) P cs z K t) (SumOfSquaresProof_verify (E:=W) P cs z K t).
Proof.
  intros Ht. change (ext (start_proof t "sum_of_squares")) in Ht. unfold SumOfSquaresProof_verify.
  destruct (check_lengths _ _ _); [|apply same_triv]. cbv zeta.
  eapply same_bind; [apply same_sq_recommit; unfold sq_initialize_transcript; auto with dom|].
  intros t' H'. do 6 step.
  rewrite same_challenge by assumption. cbn. apply same_ret. cbn. auto with dom.
Qed.

(** ** Rings *)
Lemma same_eq_challenge t j X : ext t ->
  ring_eq_challenge (E:=W) t j X = ring_eq_challenge (E:=E) t j X.
Proof.
  intros Ht. apply (same_eq (fun _ => True)). unfold ring_eq_challenge. cbv zeta. do 2 step.
  rewrite same_challenge by assumption. apply same_triv.
Qed.
Lemma same_ring_init t c i : ext t -> same ext (ring_init_transcript (E:=E) t c i) (ring_init_transcript (E:=W) t c i).
Proof. intros Ht. unfold ring_init_transcript. cbv zeta. step. step. Qed.
Lemma same_forward t lb c it : ext t -> forall X rs r,
  ring_forward (E:=W) t lb c it X rs r = ring_forward (E:=E) t lb c it X rs r.
Proof.
  intros Ht. induction it as [|[j A] it IH]; intros X rs r; [reflexivity|]. cbn [ring_forward].
  rewrite same_eq_challenge by exact Ht. apply (same_eq (fun _ => True)). step.
  apply same_let. intros s r'. do 2 step. split; [apply IH|trivial].
Qed.
Definition ring_ext (g : Ring E) : Prop := ext (rg_transcript g).
Lemma same_ring_new i lb c adm vi t rs r : ext t ->
  same (fun x => ring_ext (fst x)) (Ring_new (E:=E) i lb c adm vi t rs r) (Ring_new (E:=W) i lb c adm vi t rs r).
Proof.
  intros Ht. unfold Ring_new. do 4 step. eapply same_bind; [apply same_ring_init, Ht|]. intros rt Hrt.
  change (@SecretKey_generate W) with (@SecretKey_generate E). destruct (SecretKey_generate r) as [y0 r'].
  cbv zeta. rewrite same_forward by exact Hrt. stepas [[X rs'] r'']. apply same_ret. exact Hrt.
Qed.
Lemma same_backward t lb c it : ext t -> forall ch rs r,
  ring_backward (E:=W) t lb c it ch rs r = ring_backward (E:=E) t lb c it ch rs r.
Proof.
  intros Ht. induction it as [|[j A] it IH]; intros ch rs r; [reflexivity|]. cbn [ring_backward].
  apply (same_eq (fun _ => True)). apply same_let. intros s r'. do 2 step. rewrite same_eq_challenge by exact Ht. step.
  split; [apply IH|trivial].
Qed.
Lemma same_finalize g lb c r : ring_ext g -> Ring_finalize (E:=W) g lb c r = Ring_finalize (E:=E) g lb c r.
Proof. intros Hg. unfold Ring_finalize. rewrite same_backward by exact Hg. reflexivity. Qed.
Lemma same_finalize_all gs lb c : Forall ring_ext gs -> forall r,
  ring_finalize_all (E:=W) gs lb c r = ring_finalize_all (E:=E) gs lb c r.
Proof.
  intros Hgs. induction Hgs as [|g gs Hg _ IH]; intros r; [reflexivity|]. cbn [ring_finalize_all].
  rewrite same_finalize by exact Hg. apply (same_eq (fun _ => True)). stepas [resp r'].
  rewrite IH. apply same_triv.
Qed.
Lemma same_terminals Ts : forall t, ext t ->
  same ext (ring_append_terminals (E:=E) t Ts) (ring_append_terminals (E:=W) t Ts).
Proof.
  induction Ts as [|[a b] Ts IH]; intros t Ht; cbn [ring_append_terminals]; [apply same_ret; exact Ht|].
  do 2 step. apply IH. assumption.
Qed.
Lemma same_aggregate gs lb t r : Forall ring_ext gs -> ext t ->
  same (fun x => ext (snd (fst x))) (Ring_aggregate (E:=E) gs lb t r) (Ring_aggregate (E:=W) gs lb t r).
Proof.
  intros Hgs Ht. unfold Ring_aggregate. step. eapply same_bind; [apply same_terminals, Ht|]. intros t' Ht'.
  rewrite same_challenge by exact Ht'. cbn. rewrite same_finalize_all by exact Hgs. stepas [rs r']. step.
Qed.
Definition builder_ext (b : RingProofBuilder E (Rng E)) : Prop :=
  ext (rb_transcript b) /\ Forall ring_ext (rb_rings b).
Lemma same_precomputed b c adm vi : builder_ext b ->
  same builder_ext (RingProofBuilder_add_precomputed_value (E:=E) b c adm vi)
    (RingProofBuilder_add_precomputed_value (E:=W) b c adm vi).
Proof.
  intros [Ht Hg]. unfold RingProofBuilder_add_precomputed_value. stepas [rs rest].
  eapply same_bind; [apply same_ring_new, Ht|]. intros [g r'] Hr. apply same_ret. split; [exact Ht|].
  cbn. apply Forall_app. split; [exact Hg|]. constructor; [exact Hr|constructor].
Qed.
Lemma same_add_value b adm vi : builder_ext b ->
  same (fun x => builder_ext (snd x)) (RingProofBuilder_add_value (E:=E) b adm vi)
    (RingProofBuilder_add_value (E:=W) b adm vi).
Proof.
  intros Hb. unfold RingProofBuilder_add_value. step.
  change (ExtendedCiphertext_new (E:=W) x (rb_receiver b) (rb_rng b))
    with (ExtendedCiphertext_new (E:=E) x (rb_receiver b) (rb_rng b)).
  destruct (ExtendedCiphertext_new _ _ _) as [e r'].
  eapply same_bind; [apply same_precomputed; exact Hb|]. intros b' Hb'. apply same_ret. exact Hb'.
Qed.
Lemma same_build b : builder_ext b ->
  same (fun x => ext (snd (fst x))) (RingProofBuilder_build (E:=E) b) (RingProofBuilder_build (E:=W) b).
Proof.
  intros [Ht Hg]. unfold RingProofBuilder_build. step. eapply same_bind; [apply same_aggregate; assumption|].
  intros [[[c rs] t] r'] Hx. apply same_ret. exact Hx.
Qed.
Lemma builder_new_ext K rs t r : extends t0 (domain t "multi_ring_enc") ->
  builder_ext (RingProofBuilder_new (E:=E) K rs t r).
Proof.
  intros Ht. change (ext (start_proof t "multi_ring_enc")) in Ht. split; [|constructor]. cbn.
  unfold ring_initialize_transcript. auto with dom.
Qed.
Lemma same_verify_loop t K c len items : ext t -> forall i ch X,
  ring_verify_loop (E:=W) t K c len i items ch X = ring_verify_loop (E:=E) t K c len i items ch X.
Proof.
  intros Ht. induction items as [|[A s] items IH]; intros i ch X; [reflexivity|]. cbn [ring_verify_loop].
  cbv zeta. apply (same_eq (fun _ => True)). step. rewrite same_eq_challenge by exact Ht. step.
  split; [apply IH|trivial].
Qed.
Lemma same_verify_rings t1 K P it : ext t1 -> forall i k t, ext t ->
  same ext (ring_verify_rings (E:=E) t1 K P i k it t) (ring_verify_rings (E:=W) t1 K P i k it t).
Proof.
  intros H1. induction it as [|[vs c] it IH]; intros i k t Ht; cbn [ring_verify_rings]; [apply same_ret; exact Ht|].
  eapply same_bind; [apply same_ring_init, H1|]. intros rt Hrt. step. rewrite same_verify_loop by exact Hrt.
  do 3 step. apply IH. assumption.
Qed.
Lemma same_ring_verify P K adm cs t : extends t0 (domain t "multi_ring_enc") ->
  same (fun _ => True) (RingProof_verify (E:=E) P K adm cs t) (RingProof_verify (E:=W) P K adm cs t).
Proof.
  intros Ht. change (ext (start_proof t "multi_ring_enc")) in Ht. unfold RingProof_verify.
  destruct (check_lengths _ _ _); [|apply same_triv]. cbv zeta.
  assert (Hi : ext (ring_initialize_transcript (E:=E) t K)) by (unfold ring_initialize_transcript; auto with dom).
  eapply same_bind; [apply same_verify_rings; exact Hi|]. intros t' Ht'.
  rewrite same_challenge by exact Ht'. cbn. apply same_triv.
Qed.

(** ** Ranges *)
Lemma same_range_add items : forall b c, builder_ext b ->
  same (fun x => builder_ext (snd x)) (range_add_values (E:=E) b items c) (range_add_values (E:=W) b items c).
Proof.
  induction items as [|[v adm] items IH]; intros b c Hb; cbn [range_add_values]; [apply same_ret; exact Hb|].
  eapply same_bind; [apply same_add_value, Hb|]. intros [e b'] Hb'.
  eapply same_bind; [apply IH, Hb'|]. intros [[rest cum] b''] Hb''. apply same_ret. exact Hb''.
Qed.
Lemma ext_range t d : extends t0 (domain t "encryption_range_proof") ->
  extends t0 (domain (range_start_transcript t d) "multi_ring_enc").
Proof.
  intros Ht. change (ext (start_proof t "encryption_range_proof")) in Ht.
  unfold range_start_transcript, domain. auto with dom.
Qed.
Lemma same_range_from K rg c t r : extends t0 (domain t "encryption_range_proof") ->
  same (fun x => ext (snd (fst x)))
    (RangeProof_from_ciphertext (E:=E) K rg c t r) (RangeProof_from_ciphertext (E:=W) K rg c t r).
Proof.
  intros Ht. unfold RangeProof_from_ciphertext. do 2 step. cbv zeta. do 2 step.
  eapply same_bind; [apply same_range_add, builder_new_ext, ext_range, Ht|].
  intros [[partial cum] b] Hb. cbn in Hb. destruct (skipn _ _) as [|[v adm] l]; [apply same_panic|].
  eapply same_bind; [apply same_precomputed, Hb|]. intros b' Hb'.
  eapply same_bind; [apply same_build, Hb'|]. intros [[[ch rs] t'] r'] Hx. apply same_ret. exact Hx.
Qed.
Lemma same_range_new K rg v t r : extends t0 (domain t "encryption_range_proof") ->
  same (fun x => ext (snd (fst x))) (RangeProof_new (E:=E) K rg v t r) (RangeProof_new (E:=W) K rg v t r).
Proof.
  intros Ht. unfold RangeProof_new.
  change (CiphertextWithValue_new (E:=W) s_of_u64 v K r) with (CiphertextWithValue_new (E:=E) s_of_u64 v K r).
  destruct (CiphertextWithValue_new _ _ _ _) as [c r'].
  eapply same_bind; [apply same_range_from, Ht|]. intros [[p t'] r''] Hx. apply same_ret. exact Hx.
Qed.
Lemma same_range_verify P K rg c t : extends t0 (domain t "encryption_range_proof") ->
  same (fun _ => True) (RangeProof_verify (E:=E) P K rg c t) (RangeProof_verify (E:=W) P K rg c t).
Proof.
  intros Ht. unfold RangeProof_verify. destruct (check_lengths _ _ _); [|apply same_triv].
  apply same_ring_verify, ext_range, Ht.
Qed.
Lemma same_choice_add adm choices : forall b, builder_ext b ->
  same (fun x => builder_ext (snd x)) (choice_add_values (E:=E) b adm choices) (choice_add_values (E:=W) b adm choices).
Proof.
  induction choices as [|f choices IH]; intros b Hb; cbn [choice_add_values]; [apply same_ret; exact Hb|].
  eapply same_bind; [apply same_add_value, Hb|]. intros [e b'] Hb'.
  eapply same_bind; [apply IH, Hb'|]. intros [rest b''] Hb''. apply same_ret. exact Hb''.
Qed.
End Domains.
