(** * Distributed key generation (Pedersen's scheme with hash commitments): src/dkg.rs *)
From Coq Require Import List NArith Bool String Arith.
From Verif.Model Require Import Base Group Transcript Keys Encryption LogEquality Possession Sharing.
Import ListNotations.
Open Scope list_scope.
Open Scope nat_scope.

(** src/dkg.rs 119-131 *)
Inductive DkgError : Type :=
| DkgInvalidSecret
| InvalidCommitment
| DuplicateShare
| MalformedParticipantProof (e : SharingError)
| InconsistentPublicShares (e : SharingError).

(** src/dkg.rs 258-263, 359-364: positions holding [None] *)
Definition missing_options {A : Type} (l : list (option A)) : list nat :=
  map fst (filter (fun p => match snd p with None => true | Some _ => false end) (enumerate l)).

(** [into_iter().map(Option::unwrap)] *)
Definition unwrap_all {A : Type} (l : list (option A)) : outcome (list A) :=
  mapM (fun o => match o with Some x => Ret x | None => Panic PUnwrap end) l.

(** [into_iter().flatten()] *)
Definition flatten_options {A : Type} (l : list (option A)) : list A :=
  flat_map (fun o => match o with Some x => [x] | None => [] end) l.

Section DkgTypes.
Context {G : Group}.
Local Notation scalar := (Scalar G).
Local Notation element := (Element G).

(** src/dkg.rs 190-196; [Opening] (181) is a 32-byte buffer *)
Record ParticipantCollectingCommitments : Type := mkPCC {
  pcc_params : Params;
  pcc_index : nat;
  pcc_dealer : Dealer G;
  pcc_commitments : list (option bytes);
  pcc_opening : bytes
}.

(** src/dkg.rs 326-333 *)
Record ParticipantCollectingPolynomials : Type := mkPCP {
  pcp_params : Params;
  pcp_index : nat;
  pcp_dealer : Dealer G;
  pcp_opening : bytes;
  pcp_commitments : list bytes;
  pcp_public_polynomials : list (option (PublicPolynomial G))
}.

(** src/dkg.rs 297-305 *)
Record PublicInfo : Type := mkPublicInfo {
  pi_polynomial : list element;
  pi_pop : ProofOfPossession G;
  pi_opening : bytes
}.

(** src/dkg.rs 430-437 *)
Record ParticipantExchangingSecrets : Type := mkPES {
  pes_params : Params;
  pes_index : nat;
  pes_dealer : Dealer G;
  pes_public_polynomials : list (PublicPolynomial G);
  pes_accumulated_share : SecretKey G;
  pes_shares_received : list bool
}.

End DkgTypes.
Arguments ParticipantCollectingCommitments : clear implicits.
Arguments ParticipantCollectingPolynomials : clear implicits.
Arguments PublicInfo : clear implicits.
Arguments ParticipantExchangingSecrets : clear implicits.

Section Dkg.
Context {E : Env}.
Local Notation scalar := (Scalar E).
Local Notation element := (Element E).
Local Notation rng := (Rng E).
Local Notation ParticipantCollectingCommitments := (ParticipantCollectingCommitments E).
Local Notation ParticipantCollectingPolynomials := (ParticipantCollectingPolynomials E).
Local Notation PublicInfo := (PublicInfo E).
Local Notation ParticipantExchangingSecrets := (ParticipantExchangingSecrets E).

(** src/dkg.rs 170-177: the hash of the concatenated inputs *)
Definition create_commitment (e : element) (opening : bytes) : outcome bytes :=
  b <- serialize_element e ;;
  Ret (@sha256 E (b ++ opening)).

(** src/dkg.rs 204-221 *)
Definition PCC_new (params : Params) (idx : nat) (r : rng)
    : outcome (ParticipantCollectingCommitments * rng) :=
  _ <- assert (idx <? pa_shares params) ;;
  '(dealer, r) <- Dealer_new params r ;;
  let '(opening, r) := @fill_bytes E 32 r in
  let commitments := repeat None (pa_shares params) in
  let public_poly := fst (Dealer_public_info dealer) in
  e0 <- index public_poly 0 ;;
  c <- create_commitment e0 opening ;;
  commitments <- index_set commitments idx (Some c) ;;
  Ret ({| pcc_params := params; pcc_index := idx; pcc_dealer := dealer;
          pcc_commitments := commitments; pcc_opening := opening |}, r).

(** src/dkg.rs 239-241 *)
Definition PCC_commitment (p : ParticipantCollectingCommitments) : outcome bytes :=
  c <- index (pcc_commitments p) (pcc_index p) ;;
  match c with
  | Some c => Ret c
  | None => Panic PUnwrap
  end.

(** src/dkg.rs 249-255 *)
Definition PCC_insert_commitment (p : ParticipantCollectingCommitments)
    (participant_index : nat) (commitment : bytes) : outcome ParticipantCollectingCommitments :=
  old <- index (pcc_commitments p) participant_index ;;
  _ <- assert (match old with None => true | Some _ => false end) ;;
  commitments <- index_set (pcc_commitments p) participant_index (Some commitment) ;;
  Ret {| pcc_params := pcc_params p; pcc_index := pcc_index p; pcc_dealer := pcc_dealer p;
         pcc_commitments := commitments; pcc_opening := pcc_opening p |}.

(** src/dkg.rs 258-263 *)
Definition PCC_missing_commitments (p : ParticipantCollectingCommitments) : list nat :=
  missing_options (pcc_commitments p).

(** src/dkg.rs 272-289 *)
Definition PCC_finish_commitment_phase (p : ParticipantCollectingCommitments)
    : outcome ParticipantCollectingPolynomials :=
  match PCC_missing_commitments p with
  | _ :: _ => Panic PAssert
  | [] =>
      let public_polynomial := fst (Dealer_public_info (pcc_dealer p)) in
      public_polynomials <- index_set (repeat None (pa_shares (pcc_params p))) (pcc_index p)
                              (Some public_polynomial) ;;
      commitments <- unwrap_all (pcc_commitments p) ;;
      Ret {| pcp_params := pcc_params p; pcp_index := pcc_index p; pcp_dealer := pcc_dealer p;
             pcp_opening := pcc_opening p; pcp_commitments := commitments;
             pcp_public_polynomials := public_polynomials |}
  end.

(** src/dkg.rs 349-356 *)
Definition PCP_public_info (p : ParticipantCollectingPolynomials) : PublicInfo :=
  {| pi_polynomial := fst (Dealer_public_info (pcp_dealer p));
     pi_pop := snd (Dealer_public_info (pcp_dealer p));
     pi_opening := pcp_opening p |}.

(** src/dkg.rs 359-364 *)
Definition PCP_missing_public_polynomials (p : ParticipantCollectingPolynomials) : list nat :=
  missing_options (pcp_public_polynomials p).

(** src/dkg.rs 378-394: the new state is returned along with the result *)
Definition PCP_insert_public_polynomial (p : ParticipantCollectingPolynomials)
    (participant_index : nat) (info : PublicInfo)
    : outcome (result unit DkgError * ParticipantCollectingPolynomials) :=
  e0 <- index (pi_polynomial info) 0 ;;
  commitment <- create_commitment e0 (pi_opening info) ;;
  expected <- index (pcp_commitments p) participant_index ;;
  if negb (bytes_eqb expected commitment) then Ret (Err InvalidCommitment, p)
  else
    valid <- PublicKeySet_validate (pcp_params p) (pi_polynomial info) (pi_pop info) ;;
    match valid with
    | Err e => Ret (Err (MalformedParticipantProof e), p)
    | Ok _ =>
        polys <- index_set (pcp_public_polynomials p) participant_index
                   (Some (pi_polynomial info)) ;;
        Ret (Ok tt,
             {| pcp_params := pcp_params p; pcp_index := pcp_index p;
                pcp_dealer := pcp_dealer p; pcp_opening := pcp_opening p;
                pcp_commitments := pcp_commitments p; pcp_public_polynomials := polys |})
    end.

(** src/dkg.rs 403-418 *)
Definition PCP_finish_polynomials_phase (p : ParticipantCollectingPolynomials)
    : outcome ParticipantExchangingSecrets :=
  match PCP_missing_public_polynomials p with
  | _ :: _ => Panic PAssert
  | [] =>
      shares_received <- index_set (repeat false (pa_shares (pcp_params p))) (pcp_index p) true ;;
      acc <- Dealer_secret_share_for_participant (pcp_dealer p) (pcp_index p) ;;
      Ret {| pes_params := pcp_params p; pes_index := pcp_index p; pes_dealer := pcp_dealer p;
             pes_public_polynomials := flatten_options (pcp_public_polynomials p);
             pes_accumulated_share := acc; pes_shares_received := shares_received |}
  end.

(** src/dkg.rs 451-453 *)
Definition PES_secret_share_for_participant (p : ParticipantExchangingSecrets) (idx : nat)
    : outcome (SecretKey E) := Dealer_secret_share_for_participant (pes_dealer p) idx.

(** src/dkg.rs 456-461 *)
Definition PES_missing_shares (p : ParticipantExchangingSecrets) : list nat :=
  map fst (filter (fun q : nat * bool => negb (snd q)) (enumerate (pes_shares_received p))).

(** src/dkg.rs 474-496 *)
Definition PES_insert_secret_share (p : ParticipantExchangingSecrets)
    (participant_index : nat) (secret_share : SecretKey E)
    : outcome (result unit DkgError * ParticipantExchangingSecrets) :=
  received <- index (pes_shares_received p) participant_index ;;
  if received : bool then Ret (Err DuplicateShare, p)
  else
    polynomial <- index (pes_public_polynomials p) participant_index ;;
    let idx := scalar_of_usize (pes_index p + 1) in
    e <- PublicPolynomial_value_at polynomial idx ;;
    public_share <- PublicKey_from_element e ;;
    if negb (e_eqb (pk_element public_share) (mul_generator secret_share)) then
      Ret (Err DkgInvalidSecret, p)
    else
      shares_received <- index_set (pes_shares_received p) participant_index true ;;
      Ret (Ok tt,
           {| pes_params := pes_params p; pes_index := pes_index p; pes_dealer := pes_dealer p;
              pes_public_polynomials := pes_public_polynomials p;
              pes_accumulated_share := SecretKey_add (pes_accumulated_share p) secret_share;
              pes_shares_received := shares_received |}).

(** src/dkg.rs 517-520: [reduce] with [+=] *)
Fixpoint accumulate_polynomials (acc : PublicPolynomial E) (l : list (PublicPolynomial E))
    : outcome (PublicPolynomial E) :=
  match l with
  | [] => Ret acc
  | p :: l' => acc <- PublicPolynomial_add_assign acc p ;; accumulate_polynomials acc l'
  end.

(** src/dkg.rs 509-536 *)
Definition PES_complete (p : ParticipantExchangingSecrets)
    : outcome (result (ActiveParticipant E) DkgError) :=
  match PES_missing_shares p with
  | _ :: _ => Panic PAssert
  | [] =>
      accumulated <- (match pes_public_polynomials p with
                      | [] => Panic PUnwrap
                      | first :: rest => accumulate_polynomials first rest
                      end) ;;
      participant_keys <-
        mapM (fun idx => e <- PublicPolynomial_value_at accumulated (scalar_of_usize (idx + 1)) ;;
                         PublicKey_from_element e) (seq 0 (pa_shares (pes_params p))) ;;
      key_set <- PublicKeySet_from_participants (pes_params p) participant_keys ;;
      match key_set with
      | Err e => Ret (Err (InconsistentPublicShares e))
      | Ok key_set =>
          active <- ActiveParticipant_new key_set (pes_index p) (pes_accumulated_share p) ;;
          match active with
          | Err e => Ret (Err (InconsistentPublicShares e))
          | Ok a => Ret (Ok a)
          end
      end
  end.

End Dkg.
