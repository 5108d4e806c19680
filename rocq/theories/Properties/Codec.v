(** * C06 (byte codecs) and C52 (provided group methods) *)
From Coq Require Import List NArith ZArith Arith Strings.Byte.
From Verif.Model Require Import Base Group Transcript Keys Encryption LogEquality Ring.
From Verif.Proofs Require Import Algebra Codec.
From Verif.Instance Require Import Primality Zq.
Import ListNotations.

(** ** C06 *)
Theorem C06_secret_key_roundtrip :
  forall (E : Env) (L : GroupLaws E) (s : SecretKey E), SecretKey_from_bytes (serialize_scalar s) = Some s.
Proof. exact sk_codec. Qed.
Print Assumptions C06_secret_key_roundtrip.

(** Accepted bytes are the encoding of the result, in particular they have the right length. *)
Theorem C06_secret_key_exact :
  forall (E : Env) (L : GroupLaws E) b (s : SecretKey E),
    SecretKey_from_bytes b = Some s -> serialize_scalar s = b /\ List.length b = SCALAR_SIZE E.
Proof.
  intros E L b s H. apply (sk_codec_inv E L) in H. split; [exact H|]. rewrite <- H. apply (ser_scalar_len E L).
Qed.
Print Assumptions C06_secret_key_exact.

Theorem C06_log_equality_roundtrip :
  forall (E : Env) (L : GroupLaws E) (p : LogEqualityProof E),
    LogEqualityProof_from_bytes (LogEqualityProof_to_bytes p) = Some p.
Proof. exact le_codec. Qed.
Print Assumptions C06_log_equality_roundtrip.

Theorem C06_log_equality_exact :
  forall (E : Env) (L : GroupLaws E) b (p : LogEqualityProof E),
    LogEqualityProof_from_bytes b = Some p ->
    LogEqualityProof_to_bytes p = b /\ List.length b = (2 * SCALAR_SIZE E)%nat.
Proof.
  intros E L b p H. apply (le_codec_inv E L) in H. split; [exact H|]. rewrite <- H.
  unfold LogEqualityProof_to_bytes. rewrite app_length, !(ser_scalar_len E L). cbn. rewrite Nat.add_0_r. reflexivity.
Qed.
Print Assumptions C06_log_equality_exact.

Theorem C06_candidate_decryption_roundtrip :
  forall (E : Env) (L : GroupLaws E) (d : VerifiableDecryption E) b,
    VerifiableDecryption_to_bytes d = Ret b -> CandidateDecryption_from_bytes b = Some {| cd_inner := d |}.
Proof. exact cd_codec. Qed.
Print Assumptions C06_candidate_decryption_roundtrip.

Theorem C06_candidate_decryption_exact :
  forall (E : Env) b (d : CandidateDecryption E),
    CandidateDecryption_from_bytes b = Some d ->
    List.length b = ELEMENT_SIZE E /\ deserialize_element b = Some (vd_dh_element (cd_inner d)).
Proof. exact cd_codec_inv. Qed.
Print Assumptions C06_candidate_decryption_exact.

(** Both halves of an encoded ciphertext decode to its parts. *)
Theorem C06_ciphertext_parts :
  forall (E : Env) (L : GroupLaws E) (c : Ciphertext E) b,
    Ciphertext_to_bytes c = Ret b ->
    List.length b = (2 * ELEMENT_SIZE E)%nat /\
    deserialize_element (firstn (ELEMENT_SIZE E) b) = Some (random_element c) /\
    deserialize_element (skipn (ELEMENT_SIZE E) b) = Some (blinded_element c).
Proof. exact ct_codec. Qed.
Print Assumptions C06_ciphertext_parts.

(** Any number of responses; fewer than two responses never occur in proofs produced by the API
    and their encodings are rejected. *)
Theorem C06_ring_proof_roundtrip :
  forall (E : Env) (L : GroupLaws E) (p : RingProof E),
    RingProof_from_bytes (RingProof_to_bytes p) =
    if (2 <=? List.length (rp_responses p))%nat then Ret (Some p) else Ret None.
Proof. exact rp_codec. Qed.
Print Assumptions C06_ring_proof_roundtrip.

(** Decoding arbitrary bytes never panics (in both build profiles), and whatever is accepted is the
    exact encoding of the result. *)
Theorem C06_ring_proof_exact :
  forall (E : Env) (L : GroupLaws E) b,
    exists o, RingProof_from_bytes (E:=E) b = Ret o /\
      match o with
      | Some p => RingProof_to_bytes p = b /\ (2 <= List.length (rp_responses p))%nat
      | None => True
      end.
Proof. exact rp_codec_inv. Qed.
Print Assumptions C06_ring_proof_exact.

Theorem C06_ring_proof_lengths :
  forall (E : Env) b,
    (List.length b mod SCALAR_SIZE E <> 0 \/ List.length b < 3 * SCALAR_SIZE E)%nat ->
    RingProof_from_bytes (E:=E) b = Ret None.
Proof. exact rp_from_bytes_none. Qed.
Print Assumptions C06_ring_proof_lengths.

Lemma firstn_app_2 {A : Type} (l l' : list A) : firstn (List.length l) (l ++ l') = l.
Proof. rewrite firstn_app, Nat.sub_diag, firstn_all. apply app_nil_r. Qed.
Lemma skipn_app_1 {A : Type} (l l' : list A) : skipn (List.length l) (l ++ l') = l'.
Proof. rewrite skipn_app, Nat.sub_diag, skipn_all. reflexivity. Qed.
Lemma skipn_skipn_add {A : Type} n m (l : list A) : skipn n (skipn m l) = skipn (m + n) l.
Proof. revert l. induction m as [|m IH]; intros l; [reflexivity|]. destruct l; [rewrite !skipn_nil; reflexivity|]. apply IH. Qed.

(** The documented layout: challenge and response, src/proofs/log_equality.rs 58 and 182-183 ... *)
Theorem C06_log_equality_layout :
  forall (E : Env) (L : GroupLaws E) (p : LogEqualityProof E),
    let b := LogEqualityProof_to_bytes p in
    deserialize_scalar (firstn (SCALAR_SIZE E) b) = Some (le_challenge p) /\
    deserialize_scalar (skipn (SCALAR_SIZE E) b) = Some (le_response p).
Proof.
  intros E L p b. unfold b, LogEqualityProof_to_bytes. rewrite <- (ser_scalar_len E L (le_challenge p)).
  rewrite firstn_app_2, skipn_app_1. split; apply (deser_ser_scalar E L).
Qed.
Print Assumptions C06_log_equality_layout.

(** ... and the common challenge followed by the responses, in this order, src/proofs/ring.rs 266-268 and 380-382 *)
Theorem C06_ring_proof_layout :
  forall (E : Env) (L : GroupLaws E) (p : RingProof E),
    let b := RingProof_to_bytes p in
    let scalar_at := fun i => deserialize_scalar (firstn (SCALAR_SIZE E) (skipn (i * SCALAR_SIZE E) b)) in
    List.length b = (SCALAR_SIZE E * (1 + List.length (rp_responses p)))%nat /\
    scalar_at 0%nat = Some (rp_challenge p) /\
    forall i s, nth_error (rp_responses p) i = Some s -> scalar_at (1 + i)%nat = Some s.
Proof.
  intros E L p b scalar_at.
  assert (H : forall l : list (Scalar E), List.length (flat_map serialize_scalar l) = (SCALAR_SIZE E * List.length l)%nat /\
    forall i s, nth_error l i = Some s -> deserialize_scalar (firstn (SCALAR_SIZE E) (skipn (i * SCALAR_SIZE E) (flat_map serialize_scalar l))) = Some s).
  { induction l as [|x l (IH1 & IH2)]; cbn [flat_map List.length].
    - split; [rewrite Nat.mul_0_r; reflexivity|]. intros [|i] s Hs; discriminate Hs.
    - split; [rewrite app_length, IH1, (ser_scalar_len E L), Nat.mul_succ_r, Nat.add_comm; reflexivity|].
      intros [|i] s Hs; cbn [nth_error] in Hs.
      + injection Hs as ->. cbn [Nat.mul skipn]. rewrite <- (ser_scalar_len E L s), firstn_app_2. apply (deser_ser_scalar E L).
      + rewrite <- (IH2 i s Hs). do 2 f_equal. rewrite Nat.mul_succ_l, Nat.add_comm, <- skipn_skipn_add.
        rewrite <- (ser_scalar_len E L x) at 2. rewrite skipn_app_1. reflexivity. }
  change b with (flat_map serialize_scalar (rp_challenge p :: rp_responses p)) in *.
  destruct (H (rp_challenge p :: rp_responses p)) as (H1 & H2). split; [exact H1|].
  split; [exact (H2 0%nat _ eq_refl)|]. intros i s Hi. exact (H2 (S i) s Hi).
Qed.
Print Assumptions C06_ring_proof_layout.

Definition some_and {A : Type} (o : outcome (option A)) (f : A -> bool) : bool :=
  match o with Ret (Some x) => f x | _ => false end.

Example C06_example :
  let p : RingProof RE := {| rp_challenge := rs 5; rp_responses := [rs 6; rs 7; rs (-1)] |} in
  List.length (RingProof_to_bytes p) = 36%nat /\
  some_and (RingProof_from_bytes (E:=RE) (RingProof_to_bytes p))
    (fun p' => bytes_eqb (RingProof_to_bytes p') (RingProof_to_bytes p)) = true /\
  (* one byte more, and a non-canonical scalar *)
  some_and (RingProof_from_bytes (E:=RE) (RingProof_to_bytes p ++ [x00])) (fun _ => true) = false /\
  some_and (RingProof_from_bytes (E:=RE) (repeat xff 27)) (fun _ => true) = false.
Proof. vm_compute. auto. Qed.

Example C06_example_layout :
  let p : RingProof RE := {| rp_challenge := rs 5; rp_responses := [rs 6; rs 7; rs (-1)] |} in
  firstn 10 (RingProof_to_bytes p) = [x05; x00; x00; x00; x00; x00; x00; x00; x00; x06] /\
  nth_error (rp_responses p) 1 = Some (rs 7) /\
  LogEqualityProof_to_bytes ({| le_challenge := rs 5; le_response := rs 6 |} : LogEqualityProof RE) =
    [x05; x00; x00; x00; x00; x00; x00; x00; x00; x06; x00; x00; x00; x00; x00; x00; x00; x00].
Proof. vm_compute. auto. Qed.

(** ** C52 *)
(** A backend that implements only the required methods correctly and inherits the provided
    methods satisfies the whole contract of the [Group] trait. *)
Theorem C52_provided_methods_lawful :
  forall (G : Group) (L : GroupLaws G),
    exists L' : GroupLaws (with_defaults G),
      order L' = order L /\ (forall s : Scalar G, s_inv L' s = s_inv L s) /\
      (forall e : Element G, dlog L' e = dlog L e).
Proof. intros G L. exists (defaults_laws G L). repeat split. Qed.
Print Assumptions C52_provided_methods_lawful.

Theorem C52_multi_mul :
  forall (G : Group) (L : GroupLaws G) (ss : list (Scalar G)) (es : list (Element G)),
    multi_mul (g:=with_defaults G) ss es = Ret (lin_comb (G:=G) ss es) /\
    vartime_multi_mul (g:=with_defaults G) ss es = Ret (lin_comb (G:=G) ss es).
Proof. intros G L ss es. split; exact (default_multi_mul_ok G L ss es). Qed.
Print Assumptions C52_multi_mul.

(** For inputs of different lengths the provided bodies ignore the excess. *)
Theorem C52_multi_mul_truncates :
  forall (G : Group) (ss : list (Scalar G)) (es : list (Element G)),
    lin_comb ss es = lin_comb (firstn (List.length es) ss) (firstn (List.length ss) es).
Proof. exact lin_comb_truncate. Qed.
Print Assumptions C52_multi_mul_truncates.

Theorem C52_invert_scalars :
  forall (G : Group) (L : GroupLaws G) (ss : list (Scalar G)),
    (forall s, In s ss -> s <> s_default) ->
    exists out, invert_scalars (g:=with_defaults G) ss = Ret out /\
      Forall2 (fun s s' => (s * s')%S = 1%S) ss out.
Proof.
  intros G L ss H. exists (map (s_inv L) ss). split; [exact (default_invert_scalars_ok G L ss H)|].
  induction ss as [|s ss IH]; cbn; constructor.
  - rewrite (Ring_theory.Rmul_comm (Field_theory.F_R (s_field L))). apply (s_inv_l L). apply H. left. reflexivity.
  - apply IH. intros; apply H; right; assumption.
Qed.
Print Assumptions C52_invert_scalars.

Theorem C52_mul_generator :
  forall (G : Group) (k r : Scalar G) (K : Element G),
    mul_generator (g:=with_defaults G) k = (generator * k)%E /\
    vartime_mul_generator (g:=with_defaults G) k = (generator * k)%E /\
    vartime_double_mul_generator (g:=with_defaults G) k K r = (K * k + generator * r)%E.
Proof. intros. auto. Qed.
Print Assumptions C52_mul_generator.

Example C52_example :
  (forall s, In s [rs 5; rs (-3)] -> s <> s_default) /\
  (match multi_mul (g:=with_defaults RE) [rs 5; rs (-3); rs 100] [re 10; re 20] with
   | Ret e => e_eqb e (re (-10)) = true
   | Panic _ => False
   end).
Proof.
  split; [|vm_compute; reflexivity].
  intros s [<-|[<-|[]]]; apply rs_neq; vm_compute; reflexivity.
Qed.
