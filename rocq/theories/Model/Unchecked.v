(** * Conversions between candidate and verified decryptions *)
From Verif.Model Require Import Base Group Transcript Encryption LogEquality.

Section Unchecked.
Context {E : Env}.

(** src/decryption.rs 207-212 *)
Definition CandidateDecryption_into_unchecked (c : CandidateDecryption E) : VerifiableDecryption E := cd_inner c.

(** src/decryption.rs 215-219: [From] *)
Definition CandidateDecryption_from (d : VerifiableDecryption E) : CandidateDecryption E := {| cd_inner := d |}.

End Unchecked.
