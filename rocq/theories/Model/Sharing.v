(** * Threshold encryption (Feldman VSS): src/sharing/ *)
From Coq Require Import List NArith Bool String Arith.
From Verif.Model Require Import Base Group Transcript Keys Encryption LogEquality Possession.
Import ListNotations.
Open Scope string_scope.
Open Scope list_scope.
Open Scope nat_scope.

(** src/sharing/mod.rs 275-280.  The fields are public. *)
Record Params : Type := mkParams { pa_shares : nat; pa_threshold : nat }.

(** src/sharing/mod.rs 288-292 *)
Definition Params_new (shares threshold : nat) : outcome Params :=
  _ <- assert (0 <? shares) ;;
  _ <- assert ((0 <? threshold) && (threshold <=? shares)) ;;
  Ret {| pa_shares := shares; pa_threshold := threshold |}.

(** src/sharing/mod.rs 222-235 *)
Inductive SharingError : Type :=
| MalformedDealerPolynomial
| InvalidDealerProof (e : VerificationError)
| SharingInvalidSecret
| ParticipantCountMismatch
| MalformedParticipantKeys.

Section SharingTypes.
Context {G : Group}.
Local Notation scalar := (Scalar G).
Local Notation element := (Element G).

(** src/sharing/mod.rs 176-184: newtype over a vector of elements *)
Definition PublicPolynomial : Type := list element.

(** src/sharing/key_set.rs 22-26; getters 147-165 are projections *)
Record PublicKeySet : Type := mkPublicKeySet {
  ks_params : Params;
  ks_shared_key : PublicKey G;
  ks_participant_keys : list (PublicKey G)
}.

(** src/sharing/participant.rs 27-31 *)
Record Dealer : Type := mkDealer {
  de_params : Params;
  de_polynomial : list (Keypair G);
  de_pop : ProofOfPossession G
}.

(** src/sharing/participant.rs 91-95; getters 127-140 are projections *)
Record ActiveParticipant : Type := mkActiveParticipant {
  ap_key_set : PublicKeySet;
  ap_index : nat;
  ap_secret_share : SecretKey G
}.

End SharingTypes.
Arguments PublicPolynomial : clear implicits.
Arguments PublicKeySet : clear implicits.
Arguments Dealer : clear implicits.
Arguments ActiveParticipant : clear implicits.

Section Sharing.
Context {E : Env}.
Local Notation scalar := (Scalar E).
Local Notation element := (Element E).
Local Notation rng := (Rng E).
Local Notation PublicPolynomial := (PublicPolynomial E).
Local Notation PublicKeySet := (PublicKeySet E).
Local Notation Dealer := (Dealer E).
Local Notation ActiveParticipant := (ActiveParticipant E).

(** [G::Scalar::from(n as u64)] *)
Definition scalar_of_usize (n : nat) : scalar := s_of_u64 (N.of_nat n).

(** src/sharing/mod.rs 148-152: sign and magnitude of one factor *)
Definition lagrange_factor (index other_index : nat) : bool * scalar :=
  match Nat.compare index other_index with
  | Gt => (true, scalar_of_usize (index - other_index))
  | Lt => (false, scalar_of_usize (other_index - index))
  | Eq => (false, scalar_of_usize (index + 1))
  end.

(** src/sharing/mod.rs 146-160 *)
Definition lagrange_denominator (indexes : list nat) (index : nat) : scalar :=
  let '(sign, denominator) :=
    fold_left (fun (acc : bool * scalar) (elem : bool * scalar) =>
                 (xorb (fst acc) (fst elem), (snd acc * snd elem)%S))
              (map (lagrange_factor index) indexes) (false, s_of_u64 1) in
  if sign then (- denominator)%S else denominator.

(** src/sharing/mod.rs 139-170 *)
Definition lagrange_coefficients (indexes : list nat) : outcome (list scalar * scalar) :=
  denominators <- invert_scalars (map (lagrange_denominator indexes) indexes) ;;
  let scale := fold_left s_mul (map (fun i => scalar_of_usize (i + 1)) indexes) (s_of_u64 1) in
  Ret (denominators, scale).

(** src/sharing/mod.rs 186-188 *)
Definition PublicPolynomial_value_at_zero (p : PublicPolynomial) : outcome element := index p 0.

(** src/sharing/mod.rs 192-199: the powers [1, x, x^2, ...] *)
Fixpoint scalar_powers (count : nat) (val x : scalar) : list scalar :=
  match count with
  | O => []
  | S n => val :: scalar_powers n (val * x)%S x
  end.

(** src/sharing/mod.rs 191-202 *)
Definition PublicPolynomial_value_at (p : PublicPolynomial) (x : scalar) : outcome element :=
  vartime_multi_mul (scalar_powers (List.length p) (s_of_u64 1) x) p.

(** [zip] over [iter_mut]: entries of [a] beyond the length of [b] are kept *)
Fixpoint add_zip (a b : list element) : list element :=
  match a, b with
  | x :: a', y :: b' => (x + y)%E :: add_zip a' b'
  | _, _ => a
  end.

(** src/sharing/mod.rs 205-217 *)
Definition PublicPolynomial_add_assign (a b : PublicPolynomial) : outcome PublicPolynomial :=
  _ <- debug_assert (env_build E) (List.length a =? List.length b) ;;
  Ret (add_zip a b).

(** src/sharing/mod.rs 302-326 *)
Definition combine_shares (params : Params) (shares : list (nat * VerifiableDecryption E))
    : outcome (option (VerifiableDecryption E)) :=
  let taken := firstn (pa_threshold params) shares in
  let indexes := map fst taken in
  let shares := map (fun p => vd_dh_element (snd p)) taken in
  if List.length shares <? pa_threshold params then Ret None
  else
    _ <- assert (forallb (fun i => i <? pa_shares params) indexes) ;;
    '(denominators, scale) <- lagrange_coefficients indexes ;;
    restored_value <- vartime_multi_mul denominators shares ;;
    Ret (Some {| vd_dh_element := (restored_value * scale)%E |}).

(** ** Public key set: src/sharing/key_set.rs *)

(** src/sharing/key_set.rs 38-40, src/sharing/participant.rs 40-42 *)
Definition share_poly_transcript (params : Params) : transcript :=
  let t := transcript_new "elgamal_share_poly" in
  let t := append_u64 t "n" (N.of_nat (pa_shares params)) in
  append_u64 t "t" (N.of_nat (pa_threshold params)).

(** src/sharing/key_set.rs 29-51 *)
Definition PublicKeySet_validate (params : Params) (public_polynomial : list element)
    (pop : ProofOfPossession E) : outcome (result unit SharingError) :=
  if negb (List.length public_polynomial =? pa_threshold params) then
    Ret (Err MalformedDealerPolynomial)
  else
    public_poly_keys <- mapM PublicKey_from_element public_polynomial ;;
    '(res, _) <- ProofOfPossession_verify pop public_poly_keys (share_poly_transcript params) ;;
    Ret (match res with
         | Ok _ => Ok tt
         | Err e => Err (InvalidDealerProof e)
         end).

(** src/sharing/key_set.rs 60-78.  [idx as u64 + 1] does not overflow: [idx < shares],
    a [usize]. *)
Definition PublicKeySet_new (params : Params) (public_polynomial : list element)
    (pop : ProofOfPossession E) : outcome (result PublicKeySet SharingError) :=
  valid <- PublicKeySet_validate params public_polynomial pop ;;
  match valid with
  | Err e => Ret (Err e)
  | Ok _ =>
      zero <- PublicPolynomial_value_at_zero public_polynomial ;;
      shared_key <- PublicKey_from_element zero ;;
      participant_keys <-
        mapM (fun idx => e <- PublicPolynomial_value_at public_polynomial (scalar_of_usize (idx + 1)) ;;
                         PublicKey_from_element e) (seq 0 (pa_shares params)) ;;
      Ret (Ok {| ks_params := params; ks_shared_key := shared_key;
                 ks_participant_keys := participant_keys |})
  end.

(** src/sharing/key_set.rs 114-137: one iteration; [Ret true] iff the key passes.
    [x - idx] cannot underflow since [idx < threshold <= x]. *)
Definition check_participant_key (params : Params) (indexes : list nat)
    (denominators inverses : list scalar) (starting_keys : list element)
    (x : nat) (key : PublicKey E) : outcome bool :=
  let key_scale := fold_left s_mul (map (fun idx => scalar_of_usize (x - idx)) indexes)
                             (s_of_u64 1) in
  key_denominators <-
    mapM (fun p : nat * scalar =>
            let '(idx, d) := p in
            inv <- index inverses (x - idx - 1) ;;
            Ret (d * scalar_of_usize (idx + 1) * inv)%S) (enumerate denominators) ;;
  let key_scale := if pa_threshold params mod 2 =? 0 then (- key_scale)%S else key_scale in
  interpolated_key <- vartime_multi_mul key_denominators starting_keys ;;
  Ret (e_eqb (interpolated_key * key_scale)%E (pk_element key)).

(** src/sharing/key_set.rs 113-137: the loop with its early return *)
Fixpoint check_participant_keys (params : Params) (indexes : list nat)
    (denominators inverses : list scalar) (starting_keys : list element)
    (items : list (nat * PublicKey E)) : outcome bool :=
  match items with
  | [] => Ret true
  | (x, key) :: items' =>
      ok <- check_participant_key params indexes denominators inverses starting_keys x key ;;
      if ok : bool then
        check_participant_keys params indexes denominators inverses starting_keys items'
      else Ret false
  end.

(** src/sharing/key_set.rs 87-144 *)
Definition PublicKeySet_from_participants (params : Params)
    (participant_keys : list (PublicKey E)) : outcome (result PublicKeySet SharingError) :=
  if negb (pa_shares params =? List.length participant_keys) then
    Ret (Err ParticipantCountMismatch)
  else
    let indexes := seq 0 (pa_threshold params) in
    '(denominators, scale) <- lagrange_coefficients indexes ;;
    let starting_keys := firstn (pa_threshold params) (map pk_element participant_keys) in
    shared <- vartime_multi_mul denominators starting_keys ;;
    shared_key <- PublicKey_from_element (shared * scale)%E ;;
    inverses <- invert_scalars (map scalar_of_usize (seq 1 (pa_shares params))) ;;
    ok <- check_participant_keys params indexes denominators inverses starting_keys
            (skipn (pa_threshold params) (enumerate participant_keys)) ;;
    if ok : bool then
      Ret (Ok {| ks_params := params; ks_shared_key := shared_key;
                 ks_participant_keys := participant_keys |})
    else Ret (Err MalformedParticipantKeys).

(** src/sharing/key_set.rs 158-160 *)
Definition PublicKeySet_participant_key (ks : PublicKeySet) (index : nat) : option (PublicKey E) :=
  nth_error (ks_participant_keys ks) index.

(** src/sharing/key_set.rs 167-171 *)
Definition PublicKeySet_commit (ks : PublicKeySet) (t : transcript) : transcript :=
  let t := append_u64 t "n" (N.of_nat (pa_shares (ks_params ks))) in
  let t := append_u64 t "t" (N.of_nat (pa_threshold (ks_params ks))) in
  append_element_bytes t "K" (pk_bytes (ks_shared_key ks)).

(** src/sharing/key_set.rs 197-199, src/sharing/participant.rs 150-152 *)
Definition participant_pop_transcript (ks : PublicKeySet) (index : nat) : transcript :=
  append_u64 (PublicKeySet_commit ks (transcript_new "elgamal_participant_pop")) "i"
    (N.of_nat index).

(** src/sharing/key_set.rs 218-220, src/sharing/participant.rs 173-175 *)
Definition decryption_share_transcript (ks : PublicKeySet) (index : nat) : transcript :=
  append_u64 (PublicKeySet_commit ks (transcript_new "elgamal_decryption_share")) "i"
    (N.of_nat index).

(** src/sharing/key_set.rs 186-201 *)
Definition PublicKeySet_verify_participant (ks : PublicKeySet) (index : nat)
    (proof : ProofOfPossession E) : outcome (result unit VerificationError) :=
  match PublicKeySet_participant_key ks index with
  | None => Panic PAssert
  | Some participant_key =>
      '(res, _) <- ProofOfPossession_verify proof [participant_key]
                     (participant_pop_transcript ks index) ;;
      Ret res
  end.

(** src/sharing/key_set.rs 209-228 *)
Definition PublicKeySet_verify_share (ks : PublicKeySet) (candidate : CandidateDecryption E)
    (ciphertext : Ciphertext E) (idx : nat) (proof : LogEqualityProof E)
    : outcome (result (VerifiableDecryption E) VerificationError) :=
  key <- index (ks_participant_keys ks) idx ;;
  let key_share := pk_element key in
  let dh_element := vd_dh_element (cd_inner candidate) in
  base <- PublicKey_from_element (random_element ciphertext) ;;
  '(res, _) <- LogEqualityProof_verify proof base (key_share, dh_element)
                 (decryption_share_transcript ks idx) ;;
  Ret (match res with
       | Ok _ => Ok {| vd_dh_element := dh_element |}
       | Err e => Err e
       end).

(** ** Dealer and participants: src/sharing/participant.rs *)

(** src/sharing/participant.rs 36-38 *)
Fixpoint generate_keypairs (count : nat) (r : rng) : outcome (list (Keypair E) * rng) :=
  match count with
  | O => Ret ([], r)
  | S n =>
      '(kp, r) <- Keypair_generate r ;;
      '(rest, r) <- generate_keypairs n r ;;
      Ret (kp :: rest, r)
  end.

(** src/sharing/participant.rs 35-51 *)
Definition Dealer_new (params : Params) (r : rng) : outcome (Dealer * rng) :=
  '(polynomial, r) <- generate_keypairs (pa_threshold params) r ;;
  '(pop, _, r) <- ProofOfPossession_new polynomial (share_poly_transcript params) r ;;
  Ret ({| de_params := params; de_polynomial := polynomial; de_pop := pop |}, r).

(** src/sharing/participant.rs 55-62 *)
Definition Dealer_public_info (d : Dealer) : list element * ProofOfPossession E :=
  (map (fun pair => pk_element (kp_public pair)) (de_polynomial d), de_pop d).

(** src/sharing/participant.rs 69-82: Horner's scheme from the leading coefficient *)
Definition Dealer_secret_share_for_participant (d : Dealer) (index : nat)
    : outcome (SecretKey E) :=
  _ <- assert (index <? pa_shares (de_params d)) ;;
  let power := scalar_of_usize (index + 1) in
  Ret (fold_left (fun poly_value pair =>
                    SecretKey_add (SecretKey_mul poly_value power) (kp_secret pair))
                 (rev (de_polynomial d)) (s_of_u64 0)).

(** src/sharing/participant.rs 108-123 *)
Definition ActiveParticipant_new (ks : PublicKeySet) (idx : nat) (secret_share : SecretKey E)
    : outcome (result ActiveParticipant SharingError) :=
  key <- index (ks_participant_keys ks) idx ;;
  if e_eqb (mul_generator secret_share) (pk_element key) then
    Ret (Ok {| ap_key_set := ks; ap_index := idx; ap_secret_share := secret_share |})
  else Ret (Err SharingInvalidSecret).

(** src/sharing/participant.rs 143-145 *)
Definition ActiveParticipant_public_key_share (a : ActiveParticipant) : outcome (PublicKey E) :=
  index (ks_participant_keys (ap_key_set a)) (ap_index a).

(** src/sharing/participant.rs 149-159 *)
Definition ActiveParticipant_proof_of_possession (a : ActiveParticipant) (r : rng)
    : outcome (ProofOfPossession E * rng) :=
  pk <- ActiveParticipant_public_key_share a ;;
  '(pop, _, r) <- ProofOfPossession_from_keys [ap_secret_share a] [pk]
                    (participant_pop_transcript (ap_key_set a) (ap_index a)) r ;;
  Ret (pop, r).

(** src/sharing/participant.rs 163-185 *)
Definition ActiveParticipant_decrypt_share (a : ActiveParticipant) (ciphertext : Ciphertext E)
    (r : rng) : outcome (VerifiableDecryption E * LogEqualityProof E * rng) :=
  let dh_element := (random_element ciphertext * ap_secret_share a)%E in
  pk <- ActiveParticipant_public_key_share a ;;
  base <- PublicKey_from_element (random_element ciphertext) ;;
  '(proof, _, r) <- LogEqualityProof_new base (ap_secret_share a) (pk_element pk, dh_element)
                      (decryption_share_transcript (ap_key_set a) (ap_index a)) r ;;
  Ret ({| vd_dh_element := dh_element |}, proof, r).

End Sharing.
