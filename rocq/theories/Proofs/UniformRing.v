(** * Distribution of ring proofs (C63) *)
From Coq Require Import List NArith ZArith Field Lia Bool String Arith.
From Verif.Model Require Import Base Group Transcript Keys Encryption Ring.
From Verif.Spec Require Import Encryption LogEquality Possession Sigma Ring Uniform.
From Verif.Proofs Require Import Algebra Lists Encryption LogEquality Commitment Ring Uniform.
Import ListNotations.
Open Scope string_scope.
Open Scope list_scope.

Section Proofs.
Context (E : Env) (L : GroupLaws E) (Ht : ser_total E).
Local Notation scalar := (Scalar E).
Local Notation element := (Element E).
Local Notation ser := (ser E).
Local Notation ser_ok := (ser_ok E L Ht).
Local Notation absorb := (absorb E).
Add Field s_field_uring : (s_field L).

(** ** the relations of the specification as functions *)
Definition rtr (t0 : transcript) (ct : Ciphertext E) (i : nat) : transcript :=
  t0 ++ [TMsg "dom-sep" (str_bytes "ring_enc"); TMsg "enc" (ser (random_element ct) ++ ser (blinded_element ct));
         TMsg "i" (u64_le_bytes (N.of_nat i))].

Lemma ring_local_fun_iff t0 ct i rt : ring_local t0 ct i rt <-> rt = rtr t0 ct i.
Proof using L Ht.
  unfold ring_local, rtr. split.
  - intros (rb & bb & H1 & H2 & ->). rewrite ser_ok in H1, H2. congruence.
  - intros ->. exists (ser (random_element ct)), (ser (blinded_element ct)). rewrite !ser_ok. auto.
Qed.

Definition rchal (rt : transcript) (j : nat) (X : element * element) : scalar :=
  oracle (rt ++ [TMsg "j" (u64_le_bytes (N.of_nat j)); TMsg "R_G" (ser (fst X)); TMsg "R_K" (ser (snd X))]) "c".

Lemma ring_query_iff rt j X q :
  ring_query rt j X q <->
  q = rt ++ [TMsg "j" (u64_le_bytes (N.of_nat j)); TMsg "R_G" (ser (fst X)); TMsg "R_K" (ser (snd X))].
Proof using L Ht.
  unfold ring_query. split.
  - intros (b0 & b1 & H1 & H2 & ->). rewrite ser_ok in H1, H2. congruence.
  - intros ->. exists (ser (fst X)), (ser (snd X)). rewrite !ser_ok. auto.
Qed.

Lemma ring_eq_challenge_eq rt j X : ring_eq_challenge rt j X = Ret (rchal rt j X).
Proof using L Ht. apply (ring_eq_challenge_iff E). eexists. split; [apply ring_query_iff; reflexivity|reflexivity]. Qed.

Lemma ring_init_eq t0 ct i : ring_init_transcript t0 ct i = Ret (rtr t0 ct i).
Proof using L Ht. apply (ring_init_iff E). apply ring_local_fun_iff. reflexivity. Qed.

Fixpoint fwd (rt : transcript) (K : element) (ct : Ciphertext E) (j : nat) (X : element * element)
    (eqs : list (element * scalar)) : element * element :=
  match eqs with
  | [] => X
  | (A, s) :: rest => fwd rt K ct (S j) (ring_commitments K ct A (rchal rt j X) s) rest
  end.

Lemma ring_from_iff rt K ct eqs : forall j X T, ring_from rt K ct j X eqs T <-> T = fwd rt K ct j X eqs.
Proof using L Ht.
  induction eqs as [|[A s] eqs IH]; intros j X T; cbn [ring_from fwd]; [reflexivity|]. rewrite <- IH. split.
  - intros (q & Hq & H). apply ring_query_iff in Hq. subst q. exact H.
  - intros H. eexists. split; [apply ring_query_iff; reflexivity|exact H].
Qed.

Fixpoint bwd (rt : transcript) (K : element) (ct : Ciphertext E) (j : nat) (c : scalar)
    (eqs : list (element * scalar)) : scalar :=
  match eqs with
  | [] => c
  | (A, s) :: rest => bwd rt K ct (S j) (rchal rt j (ring_commitments K ct A c s)) rest
  end.

Definition rclosed rt K ct c (eqs : list (element * scalar)) : element * element :=
  match eqs with
  | [] => (generator, generator)
  | (A, s) :: rest => fwd rt K ct 0 (ring_commitments K ct A c s) rest
  end.

Lemma ring_closed_iff rt K ct c eqs T : ring_closed rt K ct c eqs T <-> T = rclosed rt K ct c eqs.
Proof using L Ht. destruct eqs as [|[A s] eqs]; cbn; [reflexivity|]. apply ring_from_iff. Qed.

Lemma fwd_app rt K ct : forall eqs1 j c A s eqs2,
  match eqs1 ++ (A, s) :: eqs2 with
  | [] => (generator, generator)
  | (A0, s0) :: rest => fwd rt K ct j (ring_commitments K ct A0 c s0) rest
  end = fwd rt K ct (j + List.length eqs1) (ring_commitments K ct A (bwd rt K ct j c eqs1) s) eqs2.
Proof using.
  induction eqs1 as [|[A0 s0] eqs1 IH]; intros j c A s eqs2.
  - cbn. rewrite Nat.add_0_r. reflexivity.
  - cbn [app List.length bwd]. rewrite <- plus_n_Sm.
    specialize (IH (S j) (rchal rt j (ring_commitments K ct A0 c s0)) A s eqs2). cbn [Nat.add] in IH. rewrite <- IH.
    destruct (eqs1 ++ (A, s) :: eqs2) as [|[A1 s1] rest] eqn:He; [destruct eqs1; discriminate|]. reflexivity.
Qed.

(** ** one ring: values [vs], index [vi] of the known value, nonces [ks = k :: post], later [pre] *)
Definition rterm (rt : transcript) (K : element) (ct : Ciphertext E) (vs : list element) (vi : nat) (ks : list scalar)
    : element * element :=
  let k := hd 0%S ks in
  fwd rt K ct vi ((generator * k)%E, (K * k)%E) (combine (skipn (S vi) vs) (tl ks)).

Definition rresp (rt : transcript) (K : element) (ct : Ciphertext E) (vs : list element) (vi : nat) (x : scalar)
    (ks pre : list scalar) (c : scalar) : list scalar :=
  pre ++ (bwd rt K ct 0 c (combine (firstn vi vs) pre) * x + hd 0%S ks)%S :: tl ks.

Lemma split_values (vs : list element) vi A : nth_error vs vi = Some A -> vs = firstn vi vs ++ A :: skipn (S vi) vs.
Proof using.
  revert vi; induction vs as [|v vs IH]; intros [|vi] H; try discriminate; cbn in *; [congruence|].
  f_equal. apply IH. exact H.
Qed.

Lemma rresp_closed rt (K : PublicKey E) ct vs vi A x ks pre c :
  nth_error vs vi = Some A -> encrypts K ct A x ->
  List.length ks = (List.length vs - vi)%nat -> List.length pre = vi ->
  rclosed rt (pk_element K) ct c (combine vs (rresp rt (pk_element K) ct vs vi x ks pre c))
  = rterm rt (pk_element K) ct vs vi ks.
Proof using L.
  intros HA [He1 He2] Hks Hpre. unfold rresp. set (cv := bwd _ _ _ _ _ _).
  assert (Hvi : (vi < List.length vs)%nat) by (apply nth_error_Some; congruence).
  rewrite (split_values vs vi A HA) at 1. rewrite combine_app_eq by (rewrite firstn_length; lia). cbn [combine].
  unfold rclosed. rewrite (fwd_app rt (pk_element K) ct (combine (firstn vi vs) pre) 0 c A). fold cv.
  rewrite combine_length, firstn_length, Hpre. replace (0 + Nat.min (Nat.min vi (List.length vs)) vi)%nat with vi by lia.
  unfold rterm. f_equal. unfold ring_commitments. rewrite He1, He2. f_equal; el_ring L.
Qed.

Lemma rresp_length rt K ct vs vi x ks pre c A :
  nth_error vs vi = Some A -> List.length ks = (List.length vs - vi)%nat -> List.length pre = vi ->
  List.length (rresp rt K ct vs vi x ks pre c) = List.length vs.
Proof using.
  intros HA Hk Hp. assert (Hvi : (vi < List.length vs)%nat) by (apply nth_error_Some; congruence).
  unfold rresp. rewrite app_length. cbn [List.length]. destruct ks as [|k ks]; cbn in *; lia.
Qed.

Lemma rresp_surj rt K ct vs vi x c rs A :
  nth_error vs vi = Some A -> List.length rs = List.length vs ->
  exists ks pre, List.length ks = (List.length vs - vi)%nat /\ List.length pre = vi /\
    rs = rresp rt K ct vs vi x ks pre c.
Proof using L.
  intros HA Hl. assert (Hvi : (vi < List.length vs)%nat) by (apply nth_error_Some; congruence).
  destruct (split_length rs vi (List.length vs - vi)) as (pre & post & -> & Hpre & Hpost); [lia|].
  destruct post as [|s post]; [cbn in Hpost; lia|].
  exists ((s - bwd rt K ct 0 c (combine (firstn vi vs) pre) * x)%S :: post), pre.
  split; [cbn in *; lia|]. split; [exact Hpre|]. unfold rresp. cbn [hd tl]. do 2 f_equal. ring.
Qed.

Lemma rresp_inj rt K ct vs vi x c ks pre ks' pre' A :
  nth_error vs vi = Some A ->
  List.length ks = (List.length vs - vi)%nat -> List.length ks' = (List.length vs - vi)%nat ->
  List.length pre = vi -> List.length pre' = vi ->
  rresp rt K ct vs vi x ks pre c = rresp rt K ct vs vi x ks' pre' c -> ks = ks' /\ pre = pre'.
Proof using L.
  intros HA Hk Hk' Hp Hp' H. assert (Hvi : (vi < List.length vs)%nat) by (apply nth_error_Some; congruence).
  unfold rresp in H. destruct ks as [|k ks]; [cbn in Hk; lia|]. destruct ks' as [|k' ks']; [cbn in Hk'; lia|].
  cbn [hd tl] in H. apply app_inv_tail_len in H as [-> H]; [|cbn in *; lia]. injection H as Hs ->.
  apply (s_add_cancel E L) in Hs. subst. auto.
Qed.

(** ** the model's loops *)
Lemma ring_forward_eq rt K ct : forall vs pre post X r k,
  List.length post = List.length vs -> List.length pre = S k ->
  ring_forward rt K ct (combine (seq (S k) (List.length vs)) vs) X (pre ++ post) r =
  let '(ss, r') := draws (List.length vs) r in
  Ret (fwd rt K ct k X (combine vs ss), pre ++ ss, r').
Proof using L Ht.
  induction vs as [|v vs IH]; intros pre post X r k Hl Hk.
  - destruct post; [|discriminate]. cbn. rewrite app_nil_r. reflexivity.
  - destruct post as [|x post]; [discriminate|]. cbn [List.length seq combine ring_forward draws].
    rewrite ring_eq_challenge_eq. cbn [bind]. destruct (generate_scalar r) as [s r1].
    rewrite index_set_app by (symmetry; exact Hk). cbn [bind]. rewrite (ring_prover_commitments_eq E L). cbn [bind].
    replace (pre ++ s :: post) with ((pre ++ [s]) ++ post) by (rewrite <- app_assoc; reflexivity).
    rewrite IH by (cbn in *; rewrite ?app_length; cbn; lia).
    destruct (draws (List.length vs) r1) as [ss r2]. replace (S k - 1)%nat with k by lia.
    cbn [combine fwd]. rewrite <- app_assoc. reflexivity.
Qed.

Lemma ring_backward_eq rt K ct : forall vs pre mid post c r,
  List.length mid = List.length vs ->
  ring_backward rt K ct (combine (seq (List.length pre) (List.length vs)) vs) c (pre ++ mid ++ post) r =
  let '(ss, r') := draws (List.length vs) r in
  Ret (bwd rt K ct (List.length pre) c (combine vs ss), pre ++ ss ++ post, r').
Proof using L Ht.
  induction vs as [|v vs IH]; intros pre mid post c r Hl.
  - destruct mid; [|discriminate]. reflexivity.
  - destruct mid as [|x mid]; [discriminate|]. cbn [List.length seq combine ring_backward draws].
    destruct (generate_scalar r) as [s r1]. cbn [app].
    rewrite index_set_app by reflexivity. cbn [bind]. rewrite (ring_prover_commitments_eq E L). cbn [bind].
    rewrite ring_eq_challenge_eq. cbn [bind].
    replace (pre ++ s :: mid ++ post) with ((pre ++ [s]) ++ mid ++ post) by (rewrite <- app_assoc; reflexivity).
    replace (S (List.length pre)) with (List.length (pre ++ [s])) by (rewrite app_length; cbn; lia).
    rewrite IH by (cbn in Hl; lia). destruct (draws (List.length vs) r1) as [ss r2].
    cbn [combine bwd]. rewrite <- app_assoc. rewrite app_length. cbn [List.length]. rewrite Nat.add_1_r. reflexivity.
Qed.

(** the ring made by [Ring::new] *)
Definition rmk (t0 : transcript) (K : element) (i : nat) (ext : ExtendedCiphertext E) (vs : list element) (vi : nat)
    (buf : list scalar) (ks : list scalar) : Ring E :=
  {| rg_index := i; rg_admissible := vs; rg_ciphertext := ext_inner ext;
     rg_transcript := rtr t0 (ext_inner ext) i;
     rg_responses := firstn (S vi) buf ++ tl ks;
     rg_terminal := rterm (rtr t0 (ext_inner ext) i) K (ext_inner ext) vs vi ks;
     rg_value_index := vi; rg_discrete_log := ext_random_scalar ext; rg_random_scalar := hd 0%S ks |}.

Lemma Ring_new_eq t0 i (K : PublicKey E) ext vs vi buf r A :
  nth_error vs vi = Some A -> encrypts K (ext_inner ext) A (ext_random_scalar ext) ->
  List.length buf = List.length vs ->
  Ring_new i (pk_element K) ext vs vi t0 buf r =
  let '(ks, r') := draws (List.length vs - vi) r in Ret (rmk t0 (pk_element K) i ext vs vi buf ks, r').
Proof using L Ht.
  intros HA Henc Hlen. unfold Ring_new.
  assert (Hvi : (vi < List.length vs)%nat) by (apply nth_error_Some; congruence).
  unfold assert. replace (List.length vs =? 0)%nat with false by (symmetry; apply Nat.eqb_neq; lia). cbn [negb bind].
  replace (vi <? List.length vs)%nat with true by (symmetry; apply Nat.ltb_lt; lia). cbn [bind].
  rewrite Hlen, Nat.eqb_refl, debug_assert_true. cbn [bind]. unfold index. rewrite HA. cbn [bind].
  destruct Henc as [He1 He2]. rewrite He2.
  replace (e_eqb (pk_element K * ext_random_scalar ext + A) (A + pk_element K * ext_random_scalar ext)) with true
    by (symmetry; apply (e_eqb_ok E L); apply (e_add_comm E L)).
  rewrite debug_assert_true.
  replace (if debug_assertions (env_build E) then Ret tt else Ret tt) with (Ret tt) by (destruct (debug_assertions _); reflexivity).
  cbn [bind]. rewrite ring_init_eq. cbn [bind].
  unfold SecretKey_generate. replace (List.length vs - vi)%nat with (S (List.length (skipn (S vi) vs))) by (rewrite skipn_length; lia).
  cbn [draws]. destruct (generate_scalar r) as [k r1].
  rewrite skipn_enumerate.
  replace (List.length vs - (vi + 1))%nat with (List.length (skipn (S vi) vs)) by (rewrite skipn_length; lia).
  replace (vi + 1)%nat with (S vi) by lia.
  rewrite <- (firstn_skipn (S vi) buf) at 1.
  rewrite ring_forward_eq by (rewrite ?skipn_length, ?firstn_length; lia).
  destruct (draws (List.length (skipn (S vi) vs)) r1) as [ss r2]. cbn [bind]. rewrite (mul_generator_ok E L). reflexivity.
Qed.

Lemma Ring_finalize_eq t0 (K : PublicKey E) i ext vs vi buf ks c r A :
  nth_error vs vi = Some A -> List.length buf = List.length vs -> List.length ks = (List.length vs - vi)%nat ->
  zeros_if_debug E buf ->
  Ring_finalize (rmk t0 (pk_element K) i ext vs vi buf ks) (pk_element K) c r =
  let '(pre, r') := draws vi r in
  Ret (rresp (rtr t0 (ext_inner ext) i) (pk_element K) (ext_inner ext) vs vi (ext_random_scalar ext) ks pre c, r').
Proof using L Ht.
  intros HA Hbuf Hks Hz. assert (Hvi : (vi < List.length vs)%nat) by (apply nth_error_Some; congruence).
  unfold Ring_finalize, rmk. cbn [rg_transcript rg_ciphertext rg_value_index rg_admissible rg_responses rg_discrete_log rg_random_scalar].
  destruct (nth_error buf vi) as [x|] eqn:Hx; [|apply nth_error_None in Hx; lia].
  assert (Hb : firstn (S vi) buf = firstn vi buf ++ [x]).
  { clear - Hx. revert vi Hx; induction buf as [|b buf IH]; intros [|vi] Hx; try discriminate; cbn in *; [congruence|].
    f_equal. apply IH. exact Hx. }
  rewrite Hb, <- app_assoc. cbn [app]. unfold enumerate.
  pose proof (ring_backward_eq (rtr t0 (ext_inner ext) i) (pk_element K) (ext_inner ext) (firstn vi vs) []
    (firstn vi buf) (x :: tl ks) c r) as Hback. cbn [List.length app] in Hback. rewrite Hback by (rewrite !firstn_length; lia).
  replace (List.length (firstn vi vs)) with vi by (rewrite firstn_length; lia).
  pose proof (draws_length vi r) as Hpre. destruct (draws vi r) as [pre r']. cbn [fst] in Hpre. cbn [bind].
  rewrite index_app by lia. cbn [bind].
  destruct (debug_assertions (env_build E)) eqn:Hd.
  - specialize (Hz Hd). rewrite Forall_forall in Hz. rewrite (Hz x) by (eapply nth_error_In; exact Hx).
    rewrite (of_u64_0 L), (s_eqb_refl L), debug_assert_true. cbn [bind]. rewrite index_set_app by lia. reflexivity.
  - cbn [bind]. rewrite index_set_app by lia. reflexivity.
Qed.


(** ** builder calls; a precomputed ciphertext may depend on the earlier ones *)
Record gop : Type := mkgop {
  g_values : list element;
  g_index : nat;
  g_src : option (list (ExtendedCiphertext E) -> ExtendedCiphertext E)
}.

Fixpoint gop_run (b : RingProofBuilder E (Rng E)) (hist : list (ExtendedCiphertext E)) (ops : list gop)
    : outcome (list (ExtendedCiphertext E) * RingProofBuilder E (Rng E)) :=
  match ops with
  | [] => Ret ([], b)
  | o :: ops' =>
      '(e, b) <- (match g_src o with
                  | None => RingProofBuilder_add_value b (g_values o) (g_index o)
                  | Some f => b <- RingProofBuilder_add_precomputed_value b (f hist) (g_values o) (g_index o) ;;
                              Ret (f hist, b)
                  end) ;;
      '(es, b) <- gop_run b (hist ++ [e]) ops' ;;
      Ret (e :: es, b)
  end.

Definition g_enc (K : PublicKey E) (o : gop) (e : ExtendedCiphertext E) : Prop :=
  exists A, nth_error (g_values o) (g_index o) = Some A /\ encrypts K (ext_inner e) A (ext_random_scalar e).

Definition g_from (o : gop) (hist : list (ExtendedCiphertext E)) (e : ExtendedCiphertext E) : Prop :=
  match g_src o with None => True | Some f => e = f hist end.

(** the ciphertexts these calls may produce *)
Fixpoint gshape (K : PublicKey E) (hist : list (ExtendedCiphertext E)) (ops : list gop) (es : list (ExtendedCiphertext E)) : Prop :=
  match ops, es with
  | [], [] => True
  | o :: ops', e :: es' => g_enc K o e /\ g_from o hist e /\ gshape K (hist ++ [e]) ops' es'
  | _, _ => False
  end.

(** every precomputed ciphertext will encrypt the value announced *)
Fixpoint gok (K : PublicKey E) (hist : list (ExtendedCiphertext E)) (ops : list gop) : Prop :=
  match ops with
  | [] => True
  | o :: ops' =>
      (g_index o < List.length (g_values o))%nat /\
      match g_src o with
      | None => forall e, g_enc K o e -> gok K (hist ++ [e]) ops'
      | Some f => g_enc K o (f hist) /\ gok K (hist ++ [f hist]) ops'
      end
  end.

Definition g_rest (o : gop) : nat := (List.length (g_values o) - g_index o)%nat.
Definition g_draws (o : gop) : nat := ((match g_src o with None => 1 | Some _ => 0 end) + g_rest o)%nat.

Definition prog_ext (K : PublicKey E) (hist : list (ExtendedCiphertext E)) (o : gop) (r : Rng E) : outcome (ExtendedCiphertext E * Rng E) :=
  match g_src o with
  | None => Ret (ExtendedCiphertext_new (nth (g_index o) (g_values o) identity) K r)
  | Some f => Ret (f hist, r)
  end.

Definition prog_one K hist o (r : Rng E) : outcome ((ExtendedCiphertext E * list scalar) * Rng E) :=
  '(e, r) <- prog_ext K hist o r ;; '(ks, r) <- Ret (draws (g_rest o) r) ;; Ret ((e, ks), r).

Fixpoint prog1 (K : PublicKey E) hist (ops : list gop) (r : Rng E) : outcome (list (ExtendedCiphertext E * list scalar) * Rng E) :=
  match ops with
  | [] => Ret ([], r)
  | o :: ops' =>
      '(p, r) <- prog_one K hist o r ;;
      '(rest, r) <- prog1 K (hist ++ [fst p]) ops' r ;;
      Ret (p :: rest, r)
  end.

Fixpoint prog2 (ns : list nat) (r : Rng E) : outcome (list (list scalar) * Rng E) :=
  match ns with
  | [] => Ret ([], r)
  | n :: ns' => '(xs, r) <- Ret (draws n r) ;; '(rest, r) <- prog2 ns' r ;; Ret (xs :: rest, r)
  end.

Definition info_ok (o : gop) (p : ExtendedCiphertext E * list scalar) : Prop := List.length (snd p) = g_rest o.

Definition infos_ok K hist ops infos : Prop := gshape K hist ops (map fst infos) /\ Forall2 info_ok ops infos.

Lemma nth_default (vs : list element) vi A : nth_error vs vi = Some A -> nth vi vs identity = A.
Proof using. intros H. apply nth_error_nth. exact H. Qed.

Lemma prog_ext_uniform K hist o :
  (g_index o < List.length (g_values o))%nat ->
  (forall f, g_src o = Some f -> g_enc K o (f hist)) ->
  uniform_over (match g_src o with None => 1 | Some _ => 0 end) (prog_ext K hist o)
    (fun e => g_enc K o e /\ g_from o hist e).
Proof using L.
  intros Hi Hf. unfold prog_ext, g_from. destruct (g_src o) as [f|].
  - eapply uniform_ext; [apply (uniform_ret (f hist))|reflexivity|]. intros e. split; [|tauto].
    intros ->. auto.
  - eapply uniform_ext; [apply (ext_uniform E L)|reflexivity|].
    destruct (nth_error (g_values o) (g_index o)) as [A|] eqn:HA; [|apply nth_error_None in HA; lia].
    rewrite (nth_default _ _ _ HA). intros e. unfold g_enc. rewrite HA. split.
    + eauto.
    + intros [(A' & HA' & He) _]. injection HA' as <-. exact He.
Qed.

Lemma prog1_uniform K : forall ops hist, gok K hist ops ->
  uniform_over (list_sum (map g_draws ops)) (prog1 K hist ops) (infos_ok K hist ops).
Proof using L.
  induction ops as [|o ops IH]; intros hist Hok.
  - cbn. eapply uniform_ext; [apply (uniform_ret [])|reflexivity|]. unfold infos_ok. intros [|p infos]; cbn.
    + split; [auto|reflexivity].
    + split; [discriminate|]. intros [[] _].
  - cbn [gok] in Hok. destruct Hok as [Hi Hok].
    assert (Hsrc : forall f, g_src o = Some f -> g_enc K o (f hist)).
    { intros f Hf. rewrite Hf in Hok. apply Hok. }
    assert (Hnext : forall e, g_enc K o e -> g_from o hist e -> gok K (hist ++ [e]) ops).
    { intros e He Hfrom. unfold g_from in Hfrom. destruct (g_src o) as [f|]; [subst e; apply Hok|apply Hok; exact He]. }
    pose proof (uniform_bind _ _ _ _ _ _ (prog_ext_uniform K hist o Hi Hsrc) (fun _ _ => uniform_draws (g_rest o))) as H1.
    pose proof (uniform_bind _ (list_sum (map g_draws ops)) _ _ (fun p => prog1 K (hist ++ [fst p]) ops)
      (fun p => infos_ok K (hist ++ [fst p]) ops) H1) as H2.
    specialize (H2 ltac:(intros [e ks] [[He Hf] _]; apply IH; apply Hnext; assumption)).
    change (list_sum (map g_draws (o :: ops))) with (g_draws o + list_sum (map g_draws ops))%nat.
    apply (uniform_image _ _ _ _ _ (fun pr : (ExtendedCiphertext E * list scalar) * list (ExtendedCiphertext E * list scalar) => fst pr :: snd pr) H2).
    + intros r [p rest] r' _ H. cbn [prog1 fst snd]. inv_bind H. destruct a as [p1 r1]. unfold prog_one. rewrite Hm.
      cbn [bind]. inv_bind H. destruct a as [rest1 r2]. injection H as -> -> ->. rewrite Hm0. reflexivity.
    + intros [[e ks] rest] [[[He Hf] Hk] [Hr1 Hr2]]. cbn [fst snd] in *. unfold infos_ok. cbn [map gshape fst snd].
      split; [auto|]. constructor; [exact Hk|exact Hr2].
    + intros infos [Hs Hf]. destruct infos as [|[e ks] rest]; [destruct Hs|]. inversion Hf as [|? ? ? ? Hk Hr]; subst.
      cbn [map gshape fst] in Hs. destruct Hs as (He & Hfr & Hs). exists ((e, ks), rest). unfold infos_ok. cbn [fst snd]. auto 10.
    + intros [p rest] [p' rest'] _ _ H. cbn in H. congruence.
Qed.

Lemma prog2_uniform : forall ns,
  uniform_over (list_sum ns) (prog2 ns) (fun pres => map (@List.length scalar) pres = ns).
Proof using.
  induction ns as [|n ns IH].
  - cbn. eapply uniform_ext; [apply (uniform_ret [])|reflexivity|]. intros [|p pres]; cbn; split; auto; discriminate.
  - pose proof (uniform_bind n _ _ _ _ _ (uniform_draws n) (fun _ _ => IH)) as H.
    change (list_sum (n :: ns)) with (n + list_sum ns)%nat.
    apply (uniform_image _ _ _ _ _ (fun pr : list scalar * list (list scalar) => fst pr :: snd pr) H).
    + intros r [xs pres] r' _ Hr. cbn [prog2 fst snd bind] in *. destruct (draws n r) as [xs1 r1].
      inv_bind Hr. destruct a as [p1 r2]. injection Hr as -> -> ->. rewrite Hm. reflexivity.
    + intros [xs pres] [H1 H2]. cbn in *. congruence.
    + intros [|xs pres] Hp; [discriminate|]. cbn in Hp. injection Hp as H1 H2. exists (xs, pres). auto.
    + intros [xs pres] [xs' pres'] _ _ Heq. cbn in Heq. congruence.
Qed.

(** ** the builder *)
Fixpoint rmks (t0 : transcript) (K : element) (i : nat) (ops : list gop) (infos : list (ExtendedCiphertext E * list scalar))
    (buf : list scalar) : list (Ring E) :=
  match ops, infos with
  | o :: ops', p :: infos' =>
      rmk t0 K i (fst p) (g_values o) (g_index o) (firstn (List.length (g_values o)) buf) (snd p)
      :: rmks t0 K (S i) ops' infos' (skipn (List.length (g_values o)) buf)
  | _, _ => []
  end.

Definition g_size (ops : list gop) : nat := list_sum (map (fun o => List.length (g_values o)) ops).

Lemma add_precomputed_eq (K : PublicKey E) t0 rings buf r e vs vi A ks r' :
  nth_error vs vi = Some A -> encrypts K (ext_inner e) A (ext_random_scalar e) ->
  (List.length vs <= List.length buf)%nat ->
  draws (List.length vs - vi) r = (ks, r') ->
  RingProofBuilder_add_precomputed_value
    {| rb_receiver := K; rb_transcript := t0; rb_rings := rings; rb_rest := buf; rb_rng := r |} e vs vi =
  Ret {| rb_receiver := K; rb_transcript := t0;
         rb_rings := rings ++ [rmk t0 (pk_element K) (List.length rings) e vs vi (firstn (List.length vs) buf) ks];
         rb_rest := skipn (List.length vs) buf; rb_rng := r' |}.
Proof using L Ht.
  intros HA Henc Hl Hd. unfold RingProofBuilder_add_precomputed_value, split_at. cbn [rb_receiver rb_transcript rb_rings rb_rest rb_rng].
  replace (List.length vs <=? List.length buf)%nat with true by (symmetry; apply Nat.leb_le; lia). cbn [bind].
  rewrite (Ring_new_eq t0 _ K e vs vi _ r A HA Henc) by (rewrite firstn_length; lia). rewrite Hd. reflexivity.
Qed.

Lemma skipn_plus {A : Type} (n m : nat) (l : list A) : skipn m (skipn n l) = skipn (n + m) l.
Proof using. revert l; induction n as [|n IH]; intros [|x l]; cbn; try reflexivity; [apply skipn_nil|apply IH]. Qed.

Lemma gop_run_eq (K : PublicKey E) t0 : forall ops hist rings buf r infos r',
  gok K hist ops -> (g_size ops <= List.length buf)%nat ->
  prog1 K hist ops r = Ret (infos, r') ->
  gop_run {| rb_receiver := K; rb_transcript := t0; rb_rings := rings; rb_rest := buf; rb_rng := r |} hist ops =
  Ret (map fst infos,
       {| rb_receiver := K; rb_transcript := t0;
          rb_rings := rings ++ rmks t0 (pk_element K) (List.length rings) ops infos buf;
          rb_rest := skipn (g_size ops) buf; rb_rng := r' |}).
Proof using L Ht.
  induction ops as [|o ops IH]; intros hist rings buf r infos r' Hok Hl Hp.
  - cbn in Hp. injection Hp as <- <-. cbn. rewrite app_nil_r. reflexivity.
  - cbn [gok] in Hok. destruct Hok as [Hi Hok]. unfold g_size in Hl. cbn [map list_sum fold_right] in Hl.
    fold (list_sum (map (fun o => List.length (g_values o)) ops)) in Hl. fold (g_size ops) in Hl.
    cbn [prog1] in Hp. inv_bind Hp. destruct a as [[e ks] r2]. inv_bind Hp. destruct a as [rest r3]. injection Hp as <- <-.
    unfold prog_one in Hm. inv_bind Hm. destruct a as [e1 r1]. cbn [bind] in Hm.
    destruct (draws (g_rest o) r1) as [ks1 r2'] eqn:Hd. injection Hm as -> -> ->.
    destruct (nth_error (g_values o) (g_index o)) as [A|] eqn:HA; [|apply nth_error_None in HA; lia].
    assert (Hstep : g_enc K o e /\ gok K (hist ++ [e]) ops /\
      (match g_src o with
       | None => RingProofBuilder_add_value
           {| rb_receiver := K; rb_transcript := t0; rb_rings := rings; rb_rest := buf; rb_rng := r |} (g_values o) (g_index o)
       | Some f => b <- RingProofBuilder_add_precomputed_value
           {| rb_receiver := K; rb_transcript := t0; rb_rings := rings; rb_rest := buf; rb_rng := r |} (f hist) (g_values o) (g_index o) ;;
                   Ret (f hist, b)
       end) = Ret (e, {| rb_receiver := K; rb_transcript := t0;
         rb_rings := rings ++ [rmk t0 (pk_element K) (List.length rings) e (g_values o) (g_index o) (firstn (List.length (g_values o)) buf) ks];
         rb_rest := skipn (List.length (g_values o)) buf; rb_rng := r2 |})).
    { unfold prog_ext in Hm1. destruct (g_src o) as [f|].
      - injection Hm1 as He1 Hr1. subst e r1. destruct Hok as [He Hok]. split; [exact He|]. split; [exact Hok|].
        destruct He as (A' & HA' & Henc). rewrite HA in HA'. injection HA' as <-.
        rewrite (add_precomputed_eq K t0 rings buf r (f hist) (g_values o) (g_index o) A ks r2 HA Henc) by (assumption || lia).
        reflexivity.
      - injection Hm1 as Hx. rewrite (nth_default _ _ _ HA) in Hx.
        pose proof (proj1 (ext_new_encrypts E L _ _ _ _ _ Hx)) as Henc.
        assert (He : g_enc K o e) by (exists A; auto). split; [exact He|]. split; [apply Hok; exact He|].
        unfold RingProofBuilder_add_value, index. rewrite HA. cbn [bind rb_receiver rb_transcript rb_rings rb_rest rb_rng].
        rewrite Hx.
        rewrite (add_precomputed_eq K t0 rings buf r1 e (g_values o) (g_index o) A ks r2 HA Henc) by (assumption || lia).
        reflexivity. }
    destruct Hstep as (He & Hok' & Hstep). cbn [gop_run]. rewrite Hstep. cbn [bind fst].
    cbn [fst] in Hm0.
    rewrite (IH (hist ++ [e]) _ (skipn (List.length (g_values o)) buf) r2 rest r3 Hok' ltac:(rewrite skipn_length; lia) Hm0). cbn [bind map rmks fst snd].
    do 3 f_equal.
    + rewrite <- app_assoc. cbn [app]. rewrite app_length, Nat.add_1_r. reflexivity.
    + unfold g_size. cbn [map list_sum fold_right]. rewrite skipn_plus. reflexivity.
Qed.

Fixpoint gterms (t0 : transcript) (K : element) (i : nat) (ops : list gop) (infos : list (ExtendedCiphertext E * list scalar))
    : list (element * element) :=
  match ops, infos with
  | o :: ops', p :: infos' =>
      rterm (rtr t0 (ext_inner (fst p)) i) K (ext_inner (fst p)) (g_values o) (g_index o) (snd p) :: gterms t0 K (S i) ops' infos'
  | _, _ => []
  end.

Fixpoint gresps (t0 : transcript) (K : element) (c : scalar) (i : nat) (ops : list gop)
    (infos : list (ExtendedCiphertext E * list scalar)) (pres : list (list scalar)) : list (list scalar) :=
  match ops, infos, pres with
  | o :: ops', p :: infos', pre :: pres' =>
      rresp (rtr t0 (ext_inner (fst p)) i) K (ext_inner (fst p)) (g_values o) (g_index o) (ext_random_scalar (fst p)) (snd p) pre c
      :: gresps t0 K c (S i) ops' infos' pres'
  | _, _, _ => []
  end.

Lemma rmks_terminals t0 K ops : forall infos i buf, map rg_terminal (rmks t0 K i ops infos buf) = gterms t0 K i ops infos.
Proof using. induction ops as [|o ops IH]; intros [|p infos] i buf; cbn; try reflexivity. rewrite IH. reflexivity. Qed.

Lemma rmks_indices t0 K ops : forall infos i buf, forallb (fun p : nat * Ring E => (fst p =? rg_index (snd p))%nat)
  (combine (seq i (List.length (rmks t0 K i ops infos buf))) (rmks t0 K i ops infos buf)) = true.
Proof using.
  induction ops as [|o ops IH]; intros [|p infos] i buf; cbn; try reflexivity. rewrite Nat.eqb_refl. apply IH.
Qed.

Lemma finalize_all_eq (K : PublicKey E) t0 c : forall ops hist infos i buf r pres r',
  infos_ok K hist ops infos -> (g_size ops <= List.length buf)%nat -> zeros_if_debug E buf ->
  prog2 (map g_index ops) r = Ret (pres, r') ->
  ring_finalize_all (rmks t0 (pk_element K) i ops infos buf) (pk_element K) c r =
  Ret (gresps t0 (pk_element K) c i ops infos pres, r').
Proof using L Ht.
  induction ops as [|o ops IH]; intros hist infos i buf r pres r' [Hs Hi] Hl Hz Hp.
  - inversion Hi; subst. cbn in *. injection Hp as <- <-. reflexivity.
  - inversion Hi as [|? [e ks] ? infos' Hk Hinfos]; subst. cbn [map gshape fst] in Hs. destruct Hs as ((A & HA & He) & Hf & Hs).
    unfold g_size in Hl. cbn [map list_sum fold_right] in Hl.
    fold (list_sum (map (fun o => List.length (g_values o)) ops)) in Hl. fold (g_size ops) in Hl.
    cbn [map prog2 bind] in Hp. destruct (draws (g_index o) r) as [pre r1] eqn:Hd. inv_bind Hp. destruct a as [pres1 r2].
    injection Hp as <- <-. cbn [rmks ring_finalize_all fst snd].
    assert (Hz1 : zeros_if_debug E (firstn (List.length (g_values o)) buf) /\ zeros_if_debug E (skipn (List.length (g_values o)) buf)).
    { split; intros Hdb; specialize (Hz Hdb); rewrite <- (firstn_skipn (List.length (g_values o)) buf) in Hz;
        apply Forall_app in Hz; apply Hz. }
    destruct Hz1 as [Hz1 Hz2].
    rewrite (Ring_finalize_eq t0 K i e (g_values o) (g_index o) _ ks c r A HA) by
      (first [exact Hz1 | exact Hk | rewrite firstn_length; lia]).
    rewrite Hd. cbn [bind].
    rewrite (IH (hist ++ [e]) infos' (S i) (skipn (List.length (g_values o)) buf) r1 pres1 r2 (conj Hs Hinfos) ltac:(rewrite skipn_length; lia) Hz2 Hm). reflexivity.
Qed.

Lemma gresps_closed (K : PublicKey E) t0 c : forall ops hist infos i pres,
  infos_ok K hist ops infos -> map (@List.length scalar) pres = map g_index ops ->
  map (@List.length scalar) (gresps t0 (pk_element K) c i ops infos pres) = map (fun o => List.length (g_values o)) ops /\
  rings_closed t0 (pk_element K) c i (map g_values ops) (map ext_inner (map fst infos))
    (gresps t0 (pk_element K) c i ops infos pres) (gterms t0 (pk_element K) i ops infos).
Proof using L Ht.
  induction ops as [|o ops IH]; intros hist infos i pres [Hs Hi] Hp.
  - inversion Hi; subst. cbn. auto.
  - inversion Hi as [|? [e ks] ? infos' Hk Hinfos]; subst. cbn [map gshape fst] in Hs. destruct Hs as ((A & HA & He) & Hf & Hs).
    destruct pres as [|pre pres]; [discriminate|]. cbn [map] in Hp. injection Hp as Hpre Hp.
    destruct (IH (hist ++ [e]) infos' (S i) pres (conj Hs Hinfos) Hp) as [I1 I2].
    cbn [map gresps gterms rings_closed fst snd]. split; [|split; [|exact I2]].
    + f_equal; [|exact I1]. apply (rresp_length _ _ _ _ _ _ _ _ _ A HA); assumption.
    + exists (rtr t0 (ext_inner e) i). split; [apply ring_local_fun_iff; reflexivity|]. apply ring_closed_iff.
      symmetry. apply (rresp_closed _ K _ _ _ A); assumption.
Qed.

Lemma gresps_surj (K : PublicKey E) t0 c : forall ops hist es i rss Ts,
  gshape K hist ops es -> map (@List.length scalar) rss = map (fun o => List.length (g_values o)) ops ->
  rings_closed t0 (pk_element K) c i (map g_values ops) (map ext_inner es) rss Ts ->
  exists infos pres, infos_ok K hist ops infos /\ map (@List.length scalar) pres = map g_index ops /\
    map fst infos = es /\ rss = gresps t0 (pk_element K) c i ops infos pres /\ Ts = gterms t0 (pk_element K) i ops infos.
Proof using L Ht.
  induction ops as [|o ops IH]; intros hist es i rss Ts Hs Hl Hc.
  - destruct es; [|destruct Hs]. destruct rss; [|discriminate]. cbn in Hc. subst Ts. exists [], []. cbn. unfold infos_ok. cbn. auto 10.
  - destruct es as [|e es]; [destruct Hs|]. cbn [gshape] in Hs. destruct Hs as ((A & HA & He) & Hf & Hs).
    destruct rss as [|rs rss]; [discriminate|]. cbn [map] in Hl. injection Hl as Hl Hls.
    cbn [map rings_closed] in Hc. destruct Ts as [|T Ts]; [destruct Hc|]. destruct Hc as [(rt & Hrt & Hc) Hcs].
    apply ring_local_fun_iff in Hrt. subst rt. apply ring_closed_iff in Hc.
    destruct (IH (hist ++ [e]) es (S i) rss Ts Hs Hls Hcs) as (infos & pres & [I1 I2] & I3 & I4 & I5 & I6).
    destruct (rresp_surj (rtr t0 (ext_inner e) i) (pk_element K) (ext_inner e) (g_values o) (g_index o) (ext_random_scalar e) c rs A HA Hl)
      as (ks & pre & Hks & Hpre & Hrs).
    exists ((e, ks) :: infos), (pre :: pres). unfold infos_ok. cbn [map gshape fst snd gresps gterms].
    rewrite I4. split; [|split; [|split; [|split]]].
    + split; [split; [exists A; auto|split; [exact Hf|exact Hs]]|]. constructor; [exact Hks|exact I2].
    + congruence.
    + reflexivity.
    + rewrite <- Hrs, <- I5. reflexivity.
    + rewrite <- I6. f_equal. rewrite Hc, Hrs. apply (rresp_closed _ K _ _ _ A); assumption.
Qed.

Lemma gresps_inj (K : PublicKey E) t0 c : forall ops hist infos infos' i pres pres',
  infos_ok K hist ops infos -> infos_ok K hist ops infos' ->
  map (@List.length scalar) pres = map g_index ops -> map (@List.length scalar) pres' = map g_index ops ->
  map fst infos = map fst infos' ->
  gresps t0 (pk_element K) c i ops infos pres = gresps t0 (pk_element K) c i ops infos' pres' ->
  infos = infos' /\ pres = pres'.
Proof using L.
  induction ops as [|o ops IH]; intros hist infos infos' i pres pres' [Hs Hi] [Hs' Hi'] Hp Hp' Hfst Heq.
  - inversion Hi; inversion Hi'; subst. destruct pres, pres'; try discriminate. auto.
  - inversion Hi as [|? [e ks] ? infos1 Hk Hinfos]; subst. inversion Hi' as [|? [e' ks'] ? infos1' Hk' Hinfos']; subst.
    cbn [map fst] in Hfst. injection Hfst as -> Hfst.
    cbn [map gshape fst] in Hs, Hs'. destruct Hs as ((A & HA & He) & Hf & Hs). destruct Hs' as (_ & _ & Hs').
    destruct pres as [|pre pres]; [discriminate|]. destruct pres' as [|pre' pres']; [discriminate|].
    cbn [map] in Hp, Hp'. injection Hp as Hpre Hp. injection Hp' as Hpre' Hp'.
    cbn [gresps fst snd] in Heq. injection Heq as Hr Heq.
    apply (rresp_inj _ _ _ _ _ _ _ _ _ _ _ A HA) in Hr as [-> ->]; [|assumption..].
    destruct (IH (hist ++ [e']) infos1 infos1' (S i) pres pres' (conj Hs Hinfos) (conj Hs' Hinfos') Hp Hp' Hfst Heq) as [-> ->]. auto.
Qed.

Lemma concat_inj {A : Type} (a b : list (list A)) :
  map (@List.length A) a = map (@List.length A) b -> List.concat a = List.concat b -> a = b.
Proof using.
  revert b; induction a as [|x a IH]; intros [|y b] Hl H; try discriminate; [reflexivity|].
  cbn in Hl, H. injection Hl as Hxy Hl. apply app_inv_tail_len in H as [-> H].
  - f_equal. apply IH; assumption.
  - rewrite !concat_length_sum, Hl. reflexivity.
Qed.

(** number of scalars drawn: for each ring, one per member that is not the known one, one nonce, and one
    for the ciphertext unless it is precomputed *)
Definition g_total (ops : list gop) : nat := (list_sum (map g_draws ops) + list_sum (map g_index ops))%nat.

Theorem gop_uniform (K : PublicKey E) buf t ops :
  gok K [] ops -> List.length buf = g_size ops -> zeros_if_debug E buf ->
  uniform_over (g_total ops)
    (fun r => '(es, b) <- gop_run (RingProofBuilder_new K buf t r) [] ops ;;
              '(c, rs, t', r) <- RingProofBuilder_build b ;;
              Ret ((es, {| rp_challenge := c; rp_responses := rs |}, t'), r))
    (fun ept => let '(es, p, t') := ept in
       gshape K [] ops es /\
       RingProof_verify p K (map g_values ops) (map ext_inner es) t = Ret (Ok tt, t')).
Proof using L Ht.
  intros Hok Hbuf Hz. set (t0 := ring_context t K).
  set (q infos := t0 ++ absorb (ring_items E (gterms t0 (pk_element K) 0 ops infos))).
  set (f (ip : list (ExtendedCiphertext E * list scalar) * list (list scalar)) :=
    let c := oracle (q (fst ip)) "c" in
    (map fst (fst ip), {| rp_challenge := c; rp_responses := List.concat (gresps t0 (pk_element K) c 0 ops (fst ip) (snd ip)) |},
     q (fst ip) ++ [TChal "c"])).
  apply (uniform_image _ _ _ _ _ f (uniform_bind _ _ _ _ _ _ (prog1_uniform K ops [] Hok) (fun _ _ => prog2_uniform (map g_index ops)))).
  - intros r [infos pres] r' [Hi Hp] H. inv_bind H. destruct a as [infos1 r1]. inv_bind H. destruct a as [pres1 r2].
    injection H as -> -> ->. cbn [fst snd] in *. unfold RingProofBuilder_new. rewrite (ring_context_eq E). fold t0.
    rewrite (gop_run_eq K t0 ops [] [] buf r infos r1 Hok ltac:(lia) Hm). cbn [bind app List.length].
    unfold RingProofBuilder_build. cbn [rb_receiver rb_transcript rb_rings rb_rest rb_rng].
    rewrite <- Hbuf, skipn_all. cbn [List.length Nat.eqb]. rewrite debug_assert_true. cbn [bind].
    unfold Ring_aggregate, enumerate. rewrite rmks_indices, debug_assert_true. cbn [bind]. rewrite rmks_terminals.
    replace (ring_append_terminals t0 (gterms t0 (pk_element K) 0 ops infos)) with (Ret (q infos)).
    2: { symmetry. apply (ring_append_terminals_iff E). eexists. split; [|reflexivity]. apply (absorbed_iff E). apply (absorb_ok E L Ht). }
    cbn [bind]. unfold challenge_scalar.
    rewrite (finalize_all_eq K t0 _ ops [] infos 0 buf r1 pres r' Hi ltac:(lia) Hz Hm0). cbn [bind].
    rewrite app_nil_r. reflexivity.
  - intros [infos pres] [Hi Hp]. cbn [fst snd] in *. unfold f. cbv zeta. cbn [fst snd]. split; [apply Hi|].
    apply (ring_verify_ok_iff E L). cbn [rp_challenge rp_responses].
    set (c := oracle (q infos) "c"). destruct (gresps_closed K t0 c ops [] infos 0 pres Hi Hp) as [Hl Hc].
    exists (gresps t0 (pk_element K) c 0 ops infos pres), (gterms t0 (pk_element K) 0 ops infos), (q infos).
    split; [reflexivity|]. split; [rewrite Hl, map_map; reflexivity|]. split; [exact Hc|].
    split; [|auto]. eexists. split; [|reflexivity]. apply (absorbed_iff E). apply (absorb_ok E L Ht).
  - intros [[es [c rs]] t'] [Hs Hv]. apply (ring_verify_ok_iff E L) in Hv as (rss & Ts & q' & Hr & Hl & Hc & Hq & Ho & ->).
    cbn [rp_challenge rp_responses] in *. rewrite map_map in Hl.
    destruct (gresps_surj K t0 c ops [] es 0 rss Ts Hs Hl Hc) as (infos & pres & Hi & Hp & Hes & Hrss & HTs).
    exists (infos, pres). cbn [fst snd]. split; [auto|]. unfold f. cbv zeta. cbn [fst snd].
    assert (Hqq : q infos = q').
    { destruct Hq as (msgs & Hm & ->). apply (absorbed_iff E) in Hm.
      pose proof (absorb_ok E L Ht (ring_items E Ts)) as Ha. unfold ring_items at 1 in Ha. rewrite Hm in Ha. injection Ha as ->.
      unfold q. rewrite <- HTs. reflexivity. }
    rewrite Hqq, Ho, Hes, Hr, Hrss. reflexivity.
  - intros [infos pres] [infos' pres'] [Hi Hp] [Hi' Hp'] Heq. cbn [fst snd] in *. unfold f in Heq. cbv zeta in Heq. cbn [fst snd] in Heq.
    injection Heq as Hes Hc Hrs _. rewrite Hc in Hrs. apply concat_inj in Hrs.
    + destruct (gresps_inj K t0 _ ops [] infos infos' 0 pres pres' Hi Hi' Hp Hp' Hes Hrs) as [-> ->]. reflexivity.
    + rewrite (proj1 (gresps_closed K t0 _ ops [] _ 0 _ Hi Hp)), (proj1 (gresps_closed K t0 _ ops [] _ 0 _ Hi' Hp')). reflexivity.
Qed.

End Proofs.
