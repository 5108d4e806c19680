(** * C24, C25, C53 (and C10 for this protocol): sum-of-squares proofs *)
From Coq Require Import List NArith ZArith String.
From Verif.Model Require Import Base Group Transcript Keys Encryption Mul.
From Verif.Spec Require Import Encryption Sigma.
From Verif.Proofs Require Import Encryption SumOfSquares.
From Verif.Instance Require Import Primality Zq.
From Verif.Properties Require Import LogEquality Commitment.
Import ListNotations.
Open Scope string_scope.
Open Scope list_scope.

(** ** C24 *)
Theorem C24_complete :
  forall (E : Env) (L : GroupLaws E) cts (z : CiphertextWithValue E (Scalar E)) (K : PublicKey E) t r p t' r',
    Forall (fun ct => encrypts K (cwv_inner ct) (generator * cwv_value ct)%E (cwv_randomness ct)) cts ->
    encrypts K (cwv_inner z) (generator * cwv_value z)%E (cwv_randomness z) ->
    cwv_value z = sum_sq (map cwv_value cts) ->
    SumOfSquaresProof_new cts z K t r = Ret (p, t', r') ->
    SumOfSquaresProof_verify p (map cwv_inner cts) (cwv_inner z) K t = Ret (Ok tt, t').
Proof. exact sq_complete. Qed.
Print Assumptions C24_complete.

Theorem C24_prover_never_panics :
  forall (E : Env) (L : GroupLaws E), ser_total E ->
  forall cts (z : CiphertextWithValue E (Scalar E)) (K : PublicKey E) t r,
    exists p t' r', SumOfSquaresProof_new cts z K t r = Ret (p, t', r').
Proof. intros E L Ht cts z K t r. exact (sq_new_total E L cts z K t r Ht). Qed.
Print Assumptions C24_prover_never_panics.

Definition ex_cwv_of (v r : Z) : CiphertextWithValue RE (Scalar RE) :=
  {| cwv_ext := {| ext_inner := {| random_element := re r; blinded_element := re (v + 77 * r) |};
                   ext_random_scalar := rs r |};
     cwv_value := rs v |}.

(** 3^2 + 4^2 + 5^2 = 50 *)
Example C24_example :
  let cts := [ex_cwv_of 3 10; ex_cwv_of 4 200; ex_cwv_of 5 3000] in
  let z := ex_cwv_of 50 12345 in
  Forall (fun ct => encrypts ex_key77 (cwv_inner ct) (generator * cwv_value ct)%E (cwv_randomness ct)) cts /\
  encrypts ex_key77 (cwv_inner z) (generator * cwv_value z)%E (cwv_randomness z) /\
  cwv_value z = sum_sq (map cwv_value cts) /\
  match SumOfSquaresProof_new cts z ex_key77 (transcript_new "x") 3%Z with
  | Ret (p, _, _) =>
      accepts (SumOfSquaresProof_verify p (map cwv_inner cts) (cwv_inner z) ex_key77 (transcript_new "x")) = true /\
      accepts (SumOfSquaresProof_verify p (map cwv_inner (rev cts)) (cwv_inner z) ex_key77 (transcript_new "x")) = false /\
      accepts (SumOfSquaresProof_verify p (map cwv_inner (tl cts)) (cwv_inner z) ex_key77 (transcript_new "x")) = false /\
      accepts (SumOfSquaresProof_verify p (map cwv_inner cts) (cwv_inner (ex_cwv_of 51 12345)) ex_key77 (transcript_new "x")) = false
  | Panic _ => False
  end.
Proof.
  split; [|split; [|split]].
  - repeat constructor; apply re_eq; vm_compute; reflexivity.
  - split; apply re_eq; vm_compute; reflexivity.
  - apply rs_eq; vm_compute; reflexivity.
  - vm_compute. auto.
Qed.

(** ** C25 *)
Theorem C25_accepts_iff :
  forall (E : Env) (L : GroupLaws E) (p : SumOfSquaresProof E) cs z (K : PublicKey E) t t',
    SumOfSquaresProof_verify p cs z K t = Ret (Ok tt, t') <->
    exists rs As Z q,
      sq_ciphertext_responses p = sq_flat rs /\
      sq_answers (pk_element K) cs z As Z (sq_challenge p) rs (sq_sum_response p) /\
      sq_hashed t K cs z As Z q /\ oracle q "c" = sq_challenge p /\ t' = q ++ [TChal "c"].
Proof. exact sq_verify_ok_iff. Qed.
Print Assumptions C25_accepts_iff.

(** From answers to two challenges the encrypted values are computed, and the last ciphertext
    encrypts the sum of their squares. *)
Theorem C25_extract :
  forall (E : Env) (L : GroupLaws E) (K : PublicKey E) cs z As Z c c' rs rs' sz sz',
    sq_answers (pk_element K) cs z As Z c rs sz -> sq_answers (pk_element K) cs z As Z c' rs' sz' -> c <> c' ->
    sq_statement K cs z
      (map (fun p : (Scalar E * Scalar E) * (Scalar E * Scalar E) =>
              ((snd (fst p) - snd (snd p)) * s_inv L (c - c'))%S) (combine rs rs')).
Proof. exact sq_extract. Qed.
Print Assumptions C25_extract.

(** The relation proved is about decrypted values. *)
Theorem C25_statement_decrypts :
  forall (E : Env) (L : GroupLaws E) (sk : SecretKey E) (K : PublicKey E) cs z,
    key_of sk K ->
    ((exists xs, sq_statement K cs z xs) <->
     exists xs, map (decrypt_to_element sk) cs = map (fun x => generator * x)%E xs /\
       decrypt_to_element sk z = (generator * sum_sq xs)%E).
Proof. exact sq_statement_iff. Qed.
Print Assumptions C25_statement_decrypts.

(** A false statement is accepted only if the hash of everything, including the commitments,
    equals the one challenge that these commitments can answer. *)
Theorem C25_sound :
  forall (E : Env) (L : GroupLaws E) (p : SumOfSquaresProof E) cs z (K : PublicKey E) t t',
    SumOfSquaresProof_verify p cs z K t = Ret (Ok tt, t') ->
    (forall xs, ~ sq_statement K cs z xs) ->
    exists As Z q, sq_hashed t K cs z As Z q /\ t' = q ++ [TChal "c"] /\
      (exists rs sz, sq_answers (pk_element K) cs z As Z (oracle q "c") rs sz) /\
      forall c rs sz, sq_answers (pk_element K) cs z As Z c rs sz -> oracle q "c" = c.
Proof. exact sq_sound. Qed.
Print Assumptions C25_sound.

Theorem C25_length_mismatch :
  forall (E : Env) (p : SumOfSquaresProof E) cs z (K : PublicKey E) t,
    List.length (sq_ciphertext_responses p) <> (List.length cs * 2)%nat ->
    SumOfSquaresProof_verify p cs z K t =
    Ret (Err (LenMismatch "ciphertext responses" (List.length (sq_ciphertext_responses p)) (List.length cs * 2)), t).
Proof. exact sq_verify_len. Qed.
Print Assumptions C25_length_mismatch.

(** Key [2]G; one ciphertext of 3 with randomness 5; the sum ciphertext of 9 with randomness 1.
    Nonces 1, 1 and 4; challenges 7 and 10. *)
Example C25_extract_example :
  let ct : Ciphertext RE := {| random_element := re 5; blinded_element := re 13 |} in
  let z : Ciphertext RE := {| random_element := re 1; blinded_element := re 11 |} in
  sq_answers (E:=RE) (re 2) [ct] z [(re 1, re 3)] (re 9, re 21) (rs 7) [(rs 36, rs 22)] (rs (-94)) /\
  sq_answers (E:=RE) (re 2) [ct] z [(re 1, re 3)] (re 9, re 21) (rs 10) [(rs 51, rs 31)] (rs (-136)) /\
  rs 7 <> rs 10.
Proof.
  cbv zeta. split; [|split; [|apply rs_neq; vm_compute; reflexivity]].
  - split; [reflexivity|]. split; [|split; apply re_eq; vm_compute; reflexivity].
    cbn [combine map]. apply (f_equal2 cons); [|reflexivity]. apply f_equal2; apply re_eq; vm_compute; reflexivity.
  - split; [reflexivity|]. split; [|split; apply re_eq; vm_compute; reflexivity].
    cbn [combine map]. apply (f_equal2 cons); [|reflexivity]. apply f_equal2; apply re_eq; vm_compute; reflexivity.
Qed.

(** With the constant hash 3 a false proof (3^2 = 10) is accepted: the bad challenge was hit. *)
Example C25_sound_example :
  let ct : Ciphertext C3 := {| random_element := c3e 5; blinded_element := c3e 13 |} in
  let z : Ciphertext C3 := {| random_element := c3e 1; blinded_element := c3e 12 |} in
  let K : PublicKey C3 := {| pk_bytes := zbytes qx 9 (re 2); pk_element := c3e 2 |} in
  accepts (SumOfSquaresProof_verify
    {| sq_challenge := c3s 3; sq_ciphertext_responses := [c3s 16; c3s 10]; sq_sum_response := c3s 0 |} [ct] z K []) = true /\
  key_of (c3s 2) K /\
  decrypt_to_element (c3s 2) ct = (generator * c3s 3)%E /\
  decrypt_to_element (c3s 2) z = (generator * c3s 10)%E /\ sum_sq [c3s 3] <> c3s 10.
Proof.
  cbv zeta. split; [vm_compute; reflexivity|].
  split; [apply re_eq; vm_compute; reflexivity|].
  split; [apply re_eq; vm_compute; reflexivity|].
  split; [apply re_eq; vm_compute; reflexivity|]. apply rs_neq; vm_compute; reflexivity.
Qed.

(** ** C10 for this protocol *)
Theorem C10_sum_of_squares_binding :
  forall (E : Env) (L : GroupLaws E) (p p' : SumOfSquaresProof E) cs cs' z z' (K K' : PublicKey E) t t' res res' tf,
    List.length (sq_ciphertext_responses p) = (List.length cs * 2)%nat ->
    List.length (sq_ciphertext_responses p') = (List.length cs' * 2)%nat ->
    SumOfSquaresProof_verify p cs z K t = Ret (res, tf) ->
    SumOfSquaresProof_verify p' cs' z' K' t' = Ret (res', tf) ->
    t = t' /\ pk_bytes K = pk_bytes K' /\ cs = cs' /\ z = z' /\
    exists As Z rs rs',
      sq_ciphertext_responses p = sq_flat rs /\ sq_ciphertext_responses p' = sq_flat rs' /\
      sq_answers (pk_element K) cs z As Z (sq_challenge p) rs (sq_sum_response p) /\
      sq_answers (pk_element K') cs z As Z (sq_challenge p') rs' (sq_sum_response p').
Proof. exact sq_binding. Qed.
Print Assumptions C10_sum_of_squares_binding.

(** ** C53 *)
Theorem C53_odd_items :
  forall (A : Type) (l : list A) i, nth_error (odd_items l) i = nth_error l (2 * i + 1).
Proof. exact @odd_items_nth. Qed.
Print Assumptions C53_odd_items.

(** In every reachable state [next] returns the next odd item and [size_hint] is the exact number
    of items that are still to come. *)
Theorem C53_size_hint :
  forall (A : Type) (l : list A) s out,
    oi_reach l s out ->
    exists rest, odd_items l = out ++ rest /\
      fst (OddItems_next s) = hd_error rest /\
      OddItems_size_hint s = (List.length rest, Some (List.length rest)).
Proof. exact @oi_reach_spec. Qed.
Print Assumptions C53_size_hint.

Example C53_example :
  odd_items [1; 2; 3; 4; 5]%nat = [2; 4]%nat /\
  oi_reach [1; 2; 3; 4; 5]%nat (mkOddItems [5]%nat false) [2; 4]%nat /\
  oi_reach [1; 2; 3; 4; 5]%nat (mkOddItems [] true) [2; 4]%nat.
Proof.
  assert (H : oi_reach [1; 2; 3; 4; 5]%nat (mkOddItems [5]%nat false) [2; 4]%nat).
  { apply (oi_step_some _ (mkOddItems [3; 4; 5]%nat false) [2]%nat 4%nat); [|reflexivity].
    apply (oi_step_some _ (OddItems_new [1; 2; 3; 4; 5]%nat) [] 2%nat); [constructor|reflexivity]. }
  split; [reflexivity|]. split; [exact H|]. eapply oi_step_none; [exact H|reflexivity].
Qed.
