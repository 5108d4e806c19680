(** * C13 (and C10 for this protocol): proof of possession of secret keys *)
From Coq Require Import List NArith ZArith String.
From Verif.Model Require Import Base Group Transcript Keys Possession.
From Verif.Spec Require Import Encryption Possession.
From Verif.Proofs Require Import Encryption Possession.
From Verif.Instance Require Import Primality Zq.
From Verif.Properties Require Import LogEquality.
Import ListNotations.
Open Scope string_scope.
Open Scope list_scope.

Theorem C13_complete :
  forall (E : Env) (L : GroupLaws E) (kps : list (Keypair E)) t r p t' r',
    (forall kp, In kp kps -> key_of (kp_secret kp) (kp_public kp)) ->
    ProofOfPossession_new kps t r = Ret (p, t', r') ->
    ProofOfPossession_verify p (map kp_public kps) t = Ret (Ok tt, t').
Proof. exact pop_complete. Qed.
Print Assumptions C13_complete.

Theorem C13_prover_never_panics :
  forall (E : Env) (L : GroupLaws E), ser_total E ->
  forall (kps : list (Keypair E)) t r,
    exists p t' r', ProofOfPossession_new kps t r = Ret (p, t', r').
Proof. intros E L Ht kps t r. exact (pop_new_total E L _ _ t r Ht). Qed.
Print Assumptions C13_prover_never_panics.

Theorem C13_accepts_iff :
  forall (E : Env) (L : GroupLaws E) (p : ProofOfPossession E) (keys : list (PublicKey E)) t t',
    ProofOfPossession_verify p keys t = Ret (Ok tt, t') <->
    exists xs bs,
      pop_answers (map pk_element keys) xs (pop_challenge p) (pop_responses p) /\ encoded xs bs /\
      oracle (pop_query t (map pk_bytes keys) bs) "c" = pop_challenge p /\
      t' = pop_query t (map pk_bytes keys) bs ++ [TChal "c"].
Proof. exact pop_verify_ok_iff. Qed.
Print Assumptions C13_accepts_iff.

Theorem C13_length_mismatch :
  forall (E : Env) (L : GroupLaws E) (p : ProofOfPossession E) (keys : list (PublicKey E)) t,
    List.length (pop_responses p) <> List.length keys ->
    exists t', ProofOfPossession_verify p keys t =
      Ret (Err (LenMismatch "public keys" (List.length (pop_responses p)) (List.length keys)), t').
Proof. exact pop_verify_len. Qed.
Print Assumptions C13_length_mismatch.

(** From answers to two different challenges the secret key behind every public key is computed. *)
Theorem C13_extract :
  forall (E : Env) (L : GroupLaws E) (ks xs : list (Element E)) (c c' : Scalar E) (ss ss' : list (Scalar E)),
    pop_answers ks xs c ss -> pop_answers ks xs c' ss' -> c <> c' ->
    ks = map (fun p : Scalar E * Scalar E => (generator * ((fst p - snd p) * s_inv L (c - c')))%E) (combine ss ss').
Proof. exact pop_extract. Qed.
Print Assumptions C13_extract.

Theorem C10_possession_binding :
  forall (E : Env) (L : GroupLaws E) (p p' : ProofOfPossession E) keys keys' t t' res res' tf,
    List.length (pop_responses p) = List.length keys ->
    List.length (pop_responses p') = List.length keys' ->
    ProofOfPossession_verify p keys t = Ret (res, tf) ->
    ProofOfPossession_verify p' keys' t' = Ret (res', tf) ->
    t = t' /\ map pk_bytes keys = map pk_bytes keys' /\
    exists xs, pop_answers (map pk_element keys) xs (pop_challenge p) (pop_responses p) /\
               pop_answers (map pk_element keys') xs (pop_challenge p') (pop_responses p').
Proof. exact pop_binding. Qed.
Print Assumptions C10_possession_binding.

(** ** Examples *)
Definition ex_keypair (z : Z) : Keypair RE :=
  {| kp_secret := rs z; kp_public := {| pk_bytes := zbytes qx 9 (re z); pk_element := re z |} |}.

Example C13_example :
  let kps := [ex_keypair 5; ex_keypair 77; ex_keypair 123456] in
  (forall kp, In kp kps -> key_of (kp_secret kp) (kp_public kp)) /\
  match ProofOfPossession_new kps (transcript_new "x") 3%Z with
  | Ret (p, _, _) =>
      accepts (ProofOfPossession_verify p (map kp_public kps) (transcript_new "x")) = true /\
      accepts (ProofOfPossession_verify p (map kp_public (rev kps)) (transcript_new "x")) = false /\
      accepts (ProofOfPossession_verify p (map kp_public (tl kps)) (transcript_new "x")) = false
  | Panic _ => False
  end.
Proof.
  split; [|vm_compute; auto].
  intros kp [<-|[<-|[<-|[]]]]; (apply re_eq; vm_compute; reflexivity).
Qed.

(** keys 2 and 7 with commitments [1]G and [4]G; challenges 3 and 5 *)
Example C13_extract_example :
  pop_answers (E:=RE) [re 2; re 7] [re 1; re 4] (rs 3) [rs 7; rs 25] /\
  pop_answers (E:=RE) [re 2; re 7] [re 1; re 4] (rs 5) [rs 11; rs 39] /\ rs 3 <> rs 5.
Proof.
  split; [|split]; [split; [reflexivity|]| split; [reflexivity|]| apply rs_neq; vm_compute; reflexivity];
    cbn [map combine fst snd];
    repeat (apply (f_equal2 cons); [apply re_eq; vm_compute; reflexivity|]); reflexivity.
Qed.
