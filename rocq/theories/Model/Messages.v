(** * Messages of errors: [fmt::Display] and [std::error::Error::source]

    [write!] with [{}] of a [usize] is the decimal number ([N_decimal] in Model/Range.v); strings are bytes of Rust's string
    literals, where a backslash at the end of the line continues the literal without the white space that follows. *)
From Coq Require Import List String Ascii NArith.
From Verif.Model Require Import Base Group Transcript Keys Range Choice Quadratic Sharing Dkg.
Open Scope string_scope.

Definition usize_display (n : nat) : string := N_decimal (N.of_nat n).

(** src/proofs/mod.rs 101-119 *)
Definition VerificationError_display (e : VerificationError) : string :=
  match e with
  | ChallengeMismatch => "restored challenge scalar does not match the one provided in the proof"
  | LenMismatch collection expected actual =>
      "number of " ++ collection ++ " (" ++ usize_display actual ++ ") differs from expected (" ++ usize_display expected ++ ")"
  end.

(** src/keys/mod.rs 217-227 *)
Definition PublicKeyConversionError_display (e : PublicKeyConversionError) : string :=
  match e with
  | InvalidByteSize => "invalid size of the byte buffer"
  | InvalidGroupElement => "byte buffer has correct size, but does not represent a group element"
  | IdentityKey => "underlying group element is the group identity"
  end.

(** src/app/choice.rs 421-432 *)
Definition ChoiceVerificationError_display (e : ChoiceVerificationError) : string :=
  match e with
  | ChoiceOptionsLenMismatch expected actual =>
      "number of options in the ballot (" ++ usize_display actual ++ ") differs from expected (" ++ usize_display expected ++ ")"
  | ChoiceSum err => "cannot verify sum proof: " ++ VerificationError_display err
  | ChoiceRange err => "cannot verify range proofs: " ++ VerificationError_display err
  end.

(** src/app/choice.rs 435-442 *)
Definition ChoiceVerificationError_source (e : ChoiceVerificationError) : option VerificationError :=
  match e with
  | ChoiceSum err | ChoiceRange err => Some err
  | _ => None
  end.

(** src/app/quadratic_voting.rs 356-376; [*index + 1] is computed in [usize] *)
Definition QuadraticVotingError_display (b : Build) (e : QuadraticVotingError) : outcome string :=
  match e with
  | QVVariant index error =>
      i <- u64_add b (N.of_nat index) 1 ;;
      Ret ("error verifying range proof for option #" ++ N_decimal i ++ ": " ++ VerificationError_display error)
  | QVCreditRange err => Ret ("error verifying range proof for credits: " ++ VerificationError_display err)
  | QVCreditEquivalence err => Ret ("error verifying credit equivalence proof: " ++ VerificationError_display err)
  | QVOptionsLenMismatch expected actual =>
      Ret ("number of options in the ballot (" ++ usize_display actual ++ ") differs from expected (" ++ usize_display expected ++ ")")
  end.

(** src/app/quadratic_voting.rs 379-388 *)
Definition QuadraticVotingError_source (e : QuadraticVotingError) : option VerificationError :=
  match e with
  | QVVariant _ err | QVCreditRange err | QVCreditEquivalence err => Some err
  | _ => None
  end.

(** src/sharing/mod.rs 237-260 *)
Definition SharingError_display (e : SharingError) : string :=
  match e with
  | MalformedDealerPolynomial => "public polynomial received from the dealer is malformed"
  | InvalidDealerProof err =>
      "proof of possession supplied with the dealer's public polynomial is invalid: " ++ VerificationError_display err
  | SharingInvalidSecret =>
      "secret received from the dealer does not correspond to their commitment via public polynomial"
  | ParticipantCountMismatch =>
      "number of participants specified in `Params` does not match the number of provided public keys"
  | MalformedParticipantKeys => "participants' public keys do not correspond to a single shared key"
  end.

(** src/sharing/mod.rs 263-270 *)
Definition SharingError_source (e : SharingError) : option VerificationError :=
  match e with
  | InvalidDealerProof err => Some err
  | _ => None
  end.

(** src/dkg.rs 133-158 *)
Definition DkgError_display (e : DkgError) : string :=
  match e with
  | DkgInvalidSecret => "secret received from the party does not correspond to their commitment via public polynomial"
  | InvalidCommitment => "public polynomial received from one of the parties does not correspond to their commitment"
  | DuplicateShare => "secret share for this participant was already provided"
  | MalformedParticipantProof err =>
      "provided proof of possession or public polynomial is malformed: " ++ SharingError_display err
  | InconsistentPublicShares err =>
      "public shares obtained from accumulated public polynomial are inconsistent: " ++ SharingError_display err
  end.

(** src/dkg.rs 161-168 *)
Definition DkgError_source (e : DkgError) : option SharingError :=
  match e with
  | InconsistentPublicShares err | MalformedParticipantProof err => Some err
  | _ => None
  end.
