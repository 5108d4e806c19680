(** * C26, C27 (and C10 for this protocol): equivalence of an encryption and a commitment *)
From Coq Require Import List NArith ZArith String.
From Verif.Model Require Import Base Group Transcript Keys Encryption Commitment.
From Verif.Spec Require Import Encryption Sigma.
From Verif.Proofs Require Import Encryption Commitment.
From Verif.Instance Require Import Primality Zq.
From Verif.Properties Require Import LogEquality.
Import ListNotations.
Open Scope string_scope.
Open Scope list_scope.

(** ** C26 *)
Theorem C26_complete :
  forall (E : Env) (L : GroupLaws E) (ct : CiphertextWithValue E (Scalar E)) (K : PublicKey E)
         (rc : Scalar E) (H : Element E) t r p C t' r',
    encrypts K (cwv_inner ct) (generator * cwv_value ct)%E (cwv_randomness ct) ->
    CommitmentEquivalenceProof_new ct K rc H t r = Ret (p, C, t', r') ->
    C = (generator * cwv_value ct + H * rc)%E /\
    CommitmentEquivalenceProof_verify p (cwv_inner ct) K C H t = Ret (Ok tt, t').
Proof. exact ce_complete. Qed.
Print Assumptions C26_complete.

Theorem C26_prover_never_panics :
  forall (E : Env) (L : GroupLaws E), ser_total E ->
  forall (ct : CiphertextWithValue E (Scalar E)) (K : PublicKey E) (rc : Scalar E) (H : Element E) t r,
    exists p C t' r', CommitmentEquivalenceProof_new ct K rc H t r = Ret (p, C, t', r').
Proof. intros E L Ht ct K rc H t r. exact (ce_new_total E L ct K rc H t r Ht). Qed.
Print Assumptions C26_prover_never_panics.

(** ** C27 *)
Theorem C27_accepts_iff :
  forall (E : Env) (L : GroupLaws E) (p : CommitmentEquivalenceProof E) ct (K : PublicKey E) C H t t',
    CommitmentEquivalenceProof_verify p ct K C H t = Ret (Ok tt, t') <->
    exists X1 X2 X3 q,
      ce_answers (pk_element K) H (random_element ct) (blinded_element ct) C X1 X2 X3
        (ce_challenge p) (ce_randomness_response p) (ce_value_response p) (ce_commitment_response p) /\
      ce_hashed t K (random_element ct) (blinded_element ct) C X1 X2 X3 q /\
      oracle q "c" = ce_challenge p /\ t' = q ++ [TChal "c"].
Proof. exact ce_verify_ok_iff. Qed.
Print Assumptions C27_accepts_iff.

(** From answers to two different challenges for equal commitments one computes [r], [v] and [r_c]:
    the same [v] opens the ciphertext and the commitment. *)
Theorem C27_extract :
  forall (E : Env) (L : GroupLaws E) (K H R B C X1 X2 X3 : Element E) (c sr sv sc c' sr' sv' sc' : Scalar E),
    ce_answers K H R B C X1 X2 X3 c sr sv sc -> ce_answers K H R B C X1 X2 X3 c' sr' sv' sc' -> c <> c' ->
    ce_statement K H R B C ((sr - sr') * s_inv L (c - c')) ((sv - sv') * s_inv L (c - c'))
      ((sc - sc') * s_inv L (c - c')).
Proof. exact ce_extract. Qed.
Print Assumptions C27_extract.

(** ** C10: everything except the blinding base [H] is bound *)
Theorem C10_commitment_binding :
  forall (E : Env) (L : GroupLaws E) (p p' : CommitmentEquivalenceProof E) ct ct' (K K' : PublicKey E) C C' H H' t t' res res' tf,
    CommitmentEquivalenceProof_verify p ct K C H t = Ret (res, tf) ->
    CommitmentEquivalenceProof_verify p' ct' K' C' H' t' = Ret (res', tf) ->
    t = t' /\ pk_bytes K = pk_bytes K' /\ ct = ct' /\ C = C' /\
    exists X1 X2 X3,
      ce_answers (pk_element K) H (random_element ct) (blinded_element ct) C X1 X2 X3
        (ce_challenge p) (ce_randomness_response p) (ce_value_response p) (ce_commitment_response p) /\
      ce_answers (pk_element K') H' (random_element ct) (blinded_element ct) C X1 X2 X3
        (ce_challenge p') (ce_randomness_response p') (ce_value_response p') (ce_commitment_response p').
Proof. exact ce_binding. Qed.
Print Assumptions C10_commitment_binding.

(** ** Examples: value 42 with randomness 1000 for the key [77]G; base H = [13]G, blinding 99 *)
Definition ex_key77 : PublicKey RE := {| pk_bytes := zbytes qx 9 (re 77); pk_element := re 77 |}.
Definition ex_cwv : CiphertextWithValue RE (Scalar RE) :=
  {| cwv_ext := {| ext_inner := {| random_element := re 1000; blinded_element := re (42 + 77000) |};
                   ext_random_scalar := rs 1000 |};
     cwv_value := rs 42 |}.

Example C26_example :
  encrypts ex_key77 (cwv_inner ex_cwv) (generator * cwv_value ex_cwv)%E (cwv_randomness ex_cwv) /\
  match CommitmentEquivalenceProof_new ex_cwv ex_key77 (rs 99) (re 13) (transcript_new "x") 3%Z with
  | Ret (p, C, _, _) =>
      e_eqb C (re (42 + 13 * 99)) = true /\
      accepts (CommitmentEquivalenceProof_verify p (cwv_inner ex_cwv) ex_key77 C (re 13) (transcript_new "x")) = true /\
      accepts (CommitmentEquivalenceProof_verify p (cwv_inner ex_cwv) ex_key77 C (re 14) (transcript_new "x")) = false /\
      accepts (CommitmentEquivalenceProof_verify p (cwv_inner ex_cwv) ex_key77 (re 43) (re 13) (transcript_new "x")) = false
  | Panic _ => False
  end.
Proof.
  split; [split; apply re_eq; vm_compute; reflexivity|]. vm_compute. auto.
Qed.

(** K = [2]G, H = [3]G, r = 5, v = 7, r_c = 11; nonces 1, 2, 4 *)
Example C27_extract_example :
  ce_answers (E:=RE) (re 2) (re 3) (re 5) (re 17) (re 40) (re 1) (re 4) (re 14) (rs 3) (rs 16) (rs 23) (rs 37) /\
  ce_answers (E:=RE) (re 2) (re 3) (re 5) (re 17) (re 40) (re 1) (re 4) (re 14) (rs 6) (rs 31) (rs 44) (rs 70) /\
  rs 3 <> rs 6.
Proof.
  split; [|split]; [repeat split|repeat split|apply rs_neq; vm_compute; reflexivity];
    apply re_eq; vm_compute; reflexivity.
Qed.
