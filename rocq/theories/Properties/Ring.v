(** * C14-C17: ring proofs and Boolean encryption *)
From Coq Require Import List NArith ZArith String.
From Verif.Model Require Import Base Group Transcript Keys Encryption Ring.
From Verif.Spec Require Import Encryption LogEquality Sigma Ring.
From Verif.Proofs Require Import Encryption Ring.
From Verif.Instance Require Import Primality Zq.
From Verif.Properties Require Import LogEquality.
Import ListNotations.
Open Scope string_scope.
Open Scope list_scope.

(** ** C14: completeness, for every sequence of builder calls *)
Theorem C14_complete :
  forall (E : Env) (L : GroupLaws E) (K : PublicKey E) buf t rng (ops : list (ring_op (E:=E))) cts b c rs t' rng',
    Forall (op_ok K) ops ->
    List.length buf = list_sum (map (fun o => List.length (op_values o)) ops) ->
    ring_run (RingProofBuilder_new K buf t rng) ops = Ret (cts, b) ->
    RingProofBuilder_build b = Ret (c, rs, t', rng') ->
    RingProof_verify {| rp_challenge := c; rp_responses := rs |} K (map op_values ops) cts t = Ret (Ok tt, t') /\
    Forall2 (fun o ct => exists A r, nth_error (op_values o) (op_index o) = Some A /\ encrypts K ct A r) ops cts.
Proof. exact ring_complete. Qed.
Print Assumptions C14_complete.

(** With valid indices and a buffer of the right size (all zeros if debug assertions are on) the
    builder never panics. *)
Theorem C14_prover_never_panics :
  forall (E : Env) (L : GroupLaws E) (K : PublicKey E) buf t rng (ops : list (ring_op (E:=E))),
    ser_total E -> Forall (op_ok K) ops ->
    Forall (fun o => (op_index o < List.length (op_values o))%nat) ops ->
    List.length buf = list_sum (map (fun o => List.length (op_values o)) ops) ->
    (debug_assertions (env_build E) = true -> Forall (fun s => s = 0%S) buf) ->
    exists cts b c rs t' rng', ring_run (RingProofBuilder_new K buf t rng) ops = Ret (cts, b) /\
      RingProofBuilder_build b = Ret (c, rs, t', rng').
Proof. exact ring_prover_total. Qed.
Print Assumptions C14_prover_never_panics.

Definition ex_ops : list (ring_op (E:=RE)) :=
  [RAdd [re 0; re 1; re 2] 1; RAdd [re 7] 0;
   RAddPrecomputed {| ext_inner := {| random_element := re 100; blinded_element := re (987654321 * 100 + 9) |};
                      ext_random_scalar := rs 100 |} [re 3; re 6; re 9; re 12] 2].

Example C14_example :
  Forall (op_ok ex_key) ex_ops /\
  List.length (repeat (rs 0) 8) = list_sum (map (fun o => List.length (op_values o)) ex_ops) /\
  match ring_run (RingProofBuilder_new ex_key (repeat (rs 0) 8) (transcript_new "test") 11%Z) ex_ops with
  | Ret (cts, b) =>
      match RingProofBuilder_build b with
      | Ret (c, rs, _, _) =>
          List.length rs = 8%nat /\
          accepts (RingProof_verify {| rp_challenge := c; rp_responses := rs |} ex_key (map op_values ex_ops) cts
                     (transcript_new "test")) = true /\
          accepts (RingProof_verify {| rp_challenge := c; rp_responses := rs |} ex_key (map op_values ex_ops) (rev cts)
                     (transcript_new "test")) = false
      | Panic _ => False
      end
  | Panic _ => False
  end.
Proof.
  split; [|split; [reflexivity | vm_compute; auto]].
  constructor; [exact I|]. constructor; [exact I|]. constructor; [|constructor].
  exists (re 9). split; [reflexivity|]. split; apply re_eq; vm_compute; reflexivity.
Qed.

(** ** C15: exact acceptance *)
Theorem C15_accepts_iff :
  forall (E : Env) (L : GroupLaws E) (p : RingProof E) (K : PublicKey E) vals cts t t',
    RingProof_verify p K vals cts t = Ret (Ok tt, t') <->
    exists rss Ts q,
      rp_responses p = List.concat rss /\
      map (@List.length (Scalar E)) rss = map (@List.length (Element E)) vals /\
      rings_closed (ring_context t K) (pk_element K) (rp_challenge p) 0 vals cts rss Ts /\
      ring_common (ring_context t K) Ts q /\ oracle q "c" = rp_challenge p /\ t' = q ++ [TChal "c"].
Proof. exact ring_verify_ok_iff. Qed.
Print Assumptions C15_accepts_iff.

Theorem C15_wrong_length :
  forall (E : Env) (p : RingProof E) (K : PublicKey E) vals cts t,
    List.length (rp_responses p) <> list_sum (map (@List.length (Element E)) vals) ->
    RingProof_verify p K vals cts t =
    Ret (Err (LenMismatch "items in all rings" (List.length (rp_responses p))
                (list_sum (map (@List.length (Element E)) vals))), t).
Proof. exact ring_verify_len. Qed.
Print Assumptions C15_wrong_length.

(** any other outcome is [ChallengeMismatch], and the verifier terminates normally on every input *)
Theorem C15_otherwise_mismatch :
  forall (E : Env) (L : GroupLaws E) (p : RingProof E) (K : PublicKey E) vals cts t, ser_total E ->
    List.length (rp_responses p) = list_sum (map (@List.length (Element E)) vals) ->
    exists t', RingProof_verify p K vals cts t = Ret (Ok tt, t') \/
               RingProof_verify p K vals cts t = Ret (Err ChallengeMismatch, t').
Proof.
  intros E L p K vals cts t Ht Hl. destruct (ring_verify_total E L p K vals cts t Ht) as (res & t' & H).
  exists t'. rewrite H. apply ring_verify_iff in H as (rss & Ts & q & _ & _ & _ & _ & -> & _); [|exact L|exact Hl].
  destruct (s_eqb _ _); auto.
Qed.
Print Assumptions C15_otherwise_mismatch.

Example C15_example :
  accepts (RingProof_verify {| rp_challenge := c3s 3; rp_responses := [c3s 1; c3s 2; c3s 5] |}
     {| pk_bytes := zbytes qx 9 (re 2); pk_element := c3e 2 |} [[c3e 0; c3e 1]; [c3e 4]]
     [{| random_element := c3e 5; blinded_element := c3e 100 |}; {| random_element := c3e 6; blinded_element := c3e 7 |}] []) = true
  /\ accepts (RingProof_verify {| rp_challenge := c3s 4; rp_responses := [c3s 1; c3s 2; c3s 5] |}
     {| pk_bytes := zbytes qx 9 (re 2); pk_element := c3e 2 |} [[c3e 0; c3e 1]; [c3e 4]]
     [{| random_element := c3e 5; blinded_element := c3e 100 |}; {| random_element := c3e 6; blinded_element := c3e 7 |}] []) = false.
Proof. vm_compute. auto. Qed.

(** ** C16: soundness.  [ring_all_hits]: the common challenge and every hash along the ring is the
    only challenge that the commitments of its equation can answer. *)
Theorem C16_sound :
  forall (E : Env) (L : GroupLaws E) (sk : SecretKey E) (p : RingProof E) (K : PublicKey E) vals cts t t' k vs ct,
    key_of sk K ->
    RingProof_verify p K vals cts t = Ret (Ok tt, t') ->
    nth_error vals k = Some vs -> nth_error cts k = Some ct -> vs <> [] ->
    ~ In (decrypt_to_element sk ct) vs ->
    exists rt Ts T q,
      ring_local (ring_context t K) ct k rt /\
      nth_error Ts k = Some T /\ ring_common (ring_context t K) Ts q /\
      ring_all_hits rt (pk_element K) ct 0 (oracle q "c") vs T.
Proof. exact ring_sound. Qed.
Print Assumptions C16_sound.

Theorem C16_bool_sound :
  forall (E : Env) (L : GroupLaws E) (sk : SecretKey E) (pk : PublicKey E) (ct : Ciphertext E) p,
    key_of sk pk -> verify_bool pk ct p = Ret (Ok tt) ->
    decrypt_to_element sk ct <> identity -> decrypt_to_element sk ct <> generator ->
    let t0 := ring_context [TMsg "dom-sep" (str_bytes "bool_encryption")] pk in
    exists rt X0 X1 q1 q,
      ring_local t0 ct 0 rt /\ ring_query rt 0 X0 q1 /\ ring_common t0 [X1] q /\
      (exists s, le_answers (pk_element pk) (random_element ct) (blinded_element ct) (fst X0) (snd X0) (oracle q "c") s) /\
      (exists s, le_answers (pk_element pk) (random_element ct) (blinded_element ct - generator)%E (fst X1) (snd X1) (oracle q1 "c") s) /\
      (forall c s, le_answers (pk_element pk) (random_element ct) (blinded_element ct) (fst X0) (snd X0) c s ->
         oracle q "c" = c) /\
      (forall c s, le_answers (pk_element pk) (random_element ct) (blinded_element ct - generator)%E (fst X1) (snd X1) c s ->
         oracle q1 "c" = c).
Proof. exact verify_bool_sound. Qed.
Print Assumptions C16_bool_sound.

(** with the oracle that always answers 3 the hypotheses of both theorems are met *)
Example C16_example :
  let K := {| pk_bytes := zbytes qx 9 (re 2); pk_element := c3e 2 |} in
  let ct := {| random_element := c3e 5; blinded_element := c3e 100 |} in
  key_of (c3s 2) K /\
  match verify_bool K ct {| rp_challenge := c3s 3; rp_responses := [c3s 1; c3s 2] |} with Ret (Ok _) => True | _ => False end /\
  ~ In (decrypt_to_element (c3s 2) ct) [c3e 0; c3e 1].
Proof.
  intros K ct. split; [apply re_eq; vm_compute; reflexivity|]. split; [vm_compute; exact I|].
  intros [H|[H|[]]]; revert H; apply re_neq; vm_compute; reflexivity.
Qed.

(** ** C17: Boolean encryption *)
Theorem C17_complete :
  forall (E : Env) (L : GroupLaws E) (sk : SecretKey E) (pk : PublicKey E) (v : bool) rng ct p rng',
    pk_element pk = (generator * sk)%E ->
    encrypt_bool pk v rng = Ret (ct, p, rng') ->
    decrypt_to_element sk ct = (if v then generator else identity) /\
    List.length (rp_responses p) = 2%nat /\ verify_bool pk ct p = Ret (Ok tt).
Proof. exact encrypt_bool_complete. Qed.
Print Assumptions C17_complete.

Theorem C17_never_panics :
  forall (E : Env) (L : GroupLaws E), ser_total E ->
    (forall (pk : PublicKey E) v rng, exists ct p rng', encrypt_bool pk v rng = Ret (ct, p, rng')) /\
    (forall (pk : PublicKey E) ct p, exists res, verify_bool pk ct p = Ret res).
Proof.
  intros E L Ht. split.
  - intros pk v rng. exact (encrypt_bool_total E L pk v rng Ht).
  - intros pk ct p. exact (verify_bool_total E L pk ct p Ht).
Qed.
Print Assumptions C17_never_panics.

Theorem C17_wrong_length :
  forall (E : Env) (pk : PublicKey E) ct p, List.length (rp_responses p) <> 2%nat ->
    verify_bool pk ct p = Ret (Err (LenMismatch "items in all rings" (List.length (rp_responses p)) 2)).
Proof. exact verify_bool_len. Qed.
Print Assumptions C17_wrong_length.

Example C17_example :
  pk_element ex_key = (generator * rs 987654321)%E /\
  match encrypt_bool ex_key true 21%Z, encrypt_bool ex_key false 21%Z with
  | Ret (ct, p, _), Ret (ct', p', _) =>
      e_eqb (decrypt_to_element (rs 987654321) ct) (re 1) = true /\
      e_eqb (decrypt_to_element (rs 987654321) ct') (re 0) = true /\
      match verify_bool ex_key ct p with Ret (Ok _) => True | _ => False end /\
      match verify_bool ex_key ct' p with Ret (Ok _) => False | _ => True end
  | _, _ => False
  end.
Proof. split; [apply re_eq; vm_compute; reflexivity | vm_compute; auto]. Qed.

(** ** C10 for ring proofs: the common hash input determines the context, the key, the number of
    rings and the terminal commitments; each hash input inside a ring determines the context, the
    key, the ciphertext, the ring and equation numbers and the commitments. *)
Theorem C10_ring_binding :
  forall (E : Env) (L : GroupLaws E) (p p' : RingProof E) (K K' : PublicKey E) vals vals' cts cts' t t' res res' tf,
    List.length (rp_responses p) = list_sum (map (@List.length (Element E)) vals) ->
    List.length (rp_responses p') = list_sum (map (@List.length (Element E)) vals') ->
    RingProof_verify p K vals cts t = Ret (res, tf) ->
    RingProof_verify p' K' vals' cts' t' = Ret (res', tf) ->
    t = t' /\ pk_bytes K = pk_bytes K' /\
    Nat.min (List.length vals) (List.length cts) = Nat.min (List.length vals') (List.length cts') /\
    exists Ts rss rss',
      rp_responses p = List.concat rss /\ rp_responses p' = List.concat rss' /\
      map (@List.length (Scalar E)) rss = map (@List.length (Element E)) vals /\
      map (@List.length (Scalar E)) rss' = map (@List.length (Element E)) vals' /\
      rings_closed (ring_context t K) (pk_element K) (rp_challenge p) 0 vals cts rss Ts /\
      rings_closed (ring_context t' K') (pk_element K') (rp_challenge p') 0 vals' cts' rss' Ts.
Proof. exact ring_binding. Qed.
Print Assumptions C10_ring_binding.

Theorem C10_ring_equation_binding :
  forall (E : Env) (L : GroupLaws E) t (K : PublicKey E) ct i rt j X t' (K' : PublicKey E) ct' i' rt' j' X' q,
    (N.of_nat i < 2 ^ 64)%N -> (N.of_nat i' < 2 ^ 64)%N -> (N.of_nat j < 2 ^ 64)%N -> (N.of_nat j' < 2 ^ 64)%N ->
    ring_local (E:=E) (ring_context t K) ct i rt -> ring_query (E:=E) rt j X q ->
    ring_local (ring_context t' K') ct' i' rt' -> ring_query rt' j' X' q ->
    t = t' /\ pk_bytes K = pk_bytes K' /\ ct = ct' /\ i = i' /\ j = j' /\ X = X'.
Proof. exact ring_query_inj. Qed.
Print Assumptions C10_ring_equation_binding.

Example C10_ring_example :
  exists res tf, RingProof_verify (E:=RE) {| rp_challenge := rs 3; rp_responses := [rs 1; rs 2] |} ex_key
    [[re 0; re 1]] [{| random_element := re 5; blinded_element := re 100 |}] [] = Ret (res, tf).
Proof. apply (ring_verify_total RE RL). exact RE_ser_total. Qed.

Example C10_ring_equation_example :
  exists rt q, ring_local (E:=RE) (ring_context [] ex_key) {| random_element := re 5; blinded_element := re 100 |} 3 rt /\
    ring_query (E:=RE) rt 2 (re 7, re 8) q.
Proof.
  destruct (ring_init_total RE RL (ring_context [] ex_key) {| random_element := re 5; blinded_element := re 100 |} 3 RE_ser_total) as [rt Hrt].
  apply ring_init_iff in Hrt. exists rt. eexists. split; [exact Hrt|].
  eexists _, _. split; [reflexivity|]. split; reflexivity.
Qed.
