(** * Serialization with serde: src/serde.rs and the derived implementations.

    A format is abstracted to its data model ([sval]) and to whether it is human
    readable; how a format lays out [sval] as text or bytes is external.  All
    deserialization errors are collapsed into [None]. *)
From Coq Require Import List NArith Bool String Ascii Arith.
From Coq.Strings Require Import Byte.
From Verif.Model Require Import Base Group Transcript Keys Encryption LogEquality Possession
  Ring Range Commitment Mul Sharing Dkg Choice Quadratic.
Import ListNotations.
Open Scope string_scope.
Open Scope list_scope.
Open Scope N_scope.

(** ** base64ct::Base64UrlUnpadded (external crate; RFC 4648 section 5 without padding) *)

Definition b64_alphabet : string :=
  "ABCDEFGHIJKLMNOPQRSTUVWXYZabcdefghijklmnopqrstuvwxyz0123456789-_".

Definition b64_char (n : N) : ascii :=
  match String.get (N.to_nat n) b64_alphabet with
  | Some c => c
  | None => "A"%char
  end.

Fixpoint find_index (c : ascii) (i : N) (l : list ascii) : option N :=
  match l with
  | [] => None
  | x :: l' => if Ascii.eqb x c then Some i else find_index c (i + 1) l'
  end.

Definition b64_value (c : ascii) : option N :=
  find_index c 0 (list_ascii_of_string b64_alphabet).

Definition bn (x : byte) : N := Byte.to_N x.

(** [Encoding::encode_string] *)
Fixpoint base64_encode (l : bytes) : list ascii :=
  match l with
  | [] => []
  | [a] => [b64_char (bn a / 4); b64_char ((bn a mod 4) * 16)]
  | [a; b] => [b64_char (bn a / 4); b64_char ((bn a mod 4) * 16 + bn b / 16);
               b64_char ((bn b mod 16) * 4)]
  | a :: b :: c :: l' =>
      b64_char (bn a / 4) :: b64_char ((bn a mod 4) * 16 + bn b / 16)
      :: b64_char ((bn b mod 16) * 4 + bn c / 64) :: b64_char (bn c mod 64)
      :: base64_encode l'
  end.

(** [Encoding::decode_vec]: rejects foreign characters, impossible lengths and
    non-zero unused bits in the last block *)
Fixpoint base64_decode (s : list ascii) : option bytes :=
  match s with
  | [] => Some []
  | [_] => None
  | [c0; c1] =>
      match b64_value c0, b64_value c1 with
      | Some x0, Some x1 =>
          if x1 mod 16 =? 0 then Some [byte_of_N_mod (x0 * 4 + x1 / 16)] else None
      | _, _ => None
      end
  | [c0; c1; c2] =>
      match b64_value c0, b64_value c1, b64_value c2 with
      | Some x0, Some x1, Some x2 =>
          if x2 mod 4 =? 0 then
            Some [byte_of_N_mod (x0 * 4 + x1 / 16); byte_of_N_mod ((x1 mod 16) * 16 + x2 / 4)]
          else None
      | _, _, _ => None
      end
  | c0 :: c1 :: c2 :: c3 :: s' =>
      match b64_value c0, b64_value c1, b64_value c2, b64_value c3 with
      | Some x0, Some x1, Some x2, Some x3 =>
          match base64_decode s' with
          | Some l => Some (byte_of_N_mod (x0 * 4 + x1 / 16)
                            :: byte_of_N_mod ((x1 mod 16) * 16 + x2 / 4)
                            :: byte_of_N_mod ((x2 mod 4) * 64 + x3) :: l)
          | None => None
          end
      | _, _, _, _ => None
      end
  end.

(** ** The serde data model (the part used here) *)
Inductive sval : Type :=
| SNull
| SBool (v : bool)
| SNum (n : N)
| SStr (s : list ascii)
| SBytes (b : bytes)
| SSeq (l : list sval)
| SMap (l : list (string * sval)).

(** A serialize / deserialize pair; the boolean is [is_human_readable()] *)
Record Codec (A : Type) : Type := mkCodec {
  enc : bool -> A -> outcome sval;
  dec : bool -> sval -> outcome (option A)
}.
Arguments mkCodec {A}.
Arguments enc {A}.
Arguments dec {A}.

(** [?] on an optional result *)
Definition obind {A B : Type} (m : outcome (option A)) (f : A -> outcome (option B))
    : outcome (option B) :=
  o <- m ;;
  match o with
  | Some x => f x
  | None => Ret None
  end.
Notation "x <-? m ;; k" := (obind m (fun x => k))
  (at level 61, m at next level, right associativity) : outcome_scope.

(** src/serde.rs 19-28 *)
Definition serialize_bytes (human : bool) (b : bytes) : sval :=
  if human then SStr (base64_encode b) else SBytes b.

(** src/serde.rs 30-80: [Base64Visitor] also accepts raw bytes *)
Definition deserialize_bytes (human : bool) (v : sval) : option bytes :=
  match v with
  | SStr s => if human then base64_decode s else None
  | SBytes b => Some b
  | _ => None
  end.

(** Entries of a derived struct: a map with every field exactly once (unknown entries are
    ignored), or a sequence with exactly the fields in order *)
Definition field_entries (name : string) (l : list (string * sval)) : list sval :=
  map snd (filter (fun p => String.eqb (fst p) name) l).

Fixpoint struct_map_fields (names : list string) (l : list (string * sval)) : option (list sval) :=
  match names with
  | [] => Some []
  | n :: names' =>
      match field_entries n l with
      | [v] => match struct_map_fields names' l with
               | Some vs => Some (v :: vs)
               | None => None
               end
      | _ => None
      end
  end.

Definition struct_fields (names : list string) (v : sval) : option (list sval) :=
  match v with
  | SMap l => struct_map_fields names l
  | SSeq l => if Nat.eqb (List.length l) (List.length names) then Some l else None
  | _ => None
  end.

(** Sequences: [Vec<T>] (serde's implementation), and [VecHelper] below *)
Fixpoint dec_all {A : Type} (d : sval -> outcome (option A)) (l : list sval)
    : outcome (option (list A)) :=
  match l with
  | [] => Ret (Some [])
  | v :: l' =>
      x <-? d v ;;
      xs <-? dec_all d l' ;;
      Ret (Some (x :: xs))
  end.

Definition vec_codec {A : Type} (c : Codec A) : Codec (list A) :=
  mkCodec
    (fun h l => vs <- mapM (enc c h) l ;; Ret (SSeq vs))
    (fun h v => match v with
                | SSeq l => dec_all (dec c h) l
                | _ => Ret None
                end).

(** [usize] / [u64] fields *)
Definition nat_codec : Codec nat :=
  mkCodec (fun _ n => Ret (SNum (N.of_nat n)))
          (fun _ v => match v with
                      | SNum n => if n <? u64_lim then Ret (Some (N.to_nat n)) else Ret None
                      | _ => Ret None
                      end).

Definition bool_codec : Codec bool :=
  mkCodec (fun _ x => Ret (SBool x))
          (fun _ v => match v with SBool x => Ret (Some x) | _ => Ret None end).

Definition unit_codec : Codec unit :=
  mkCodec (fun _ _ => Ret SNull)
          (fun _ v => match v with SNull => Ret (Some tt) | _ => Ret None end).

(** [Option<T>] of a [T] that never serializes to null *)
Definition option_codec {A : Type} (c : Codec A) : Codec (option A) :=
  mkCodec (fun h o => match o with None => Ret SNull | Some x => enc c h x end)
          (fun h v => match v with
                      | SNull => Ret (Some None)
                      | _ => x <-? dec c h v ;; Ret (Some (Some x))
                      end).

(** [[u8; 32]]: serde's array implementation, a sequence of 32 numbers *)
Definition array32_codec : Codec bytes :=
  mkCodec (fun _ b => Ret (SSeq (map (fun x => SNum (bn x)) b)))
          (fun _ v => match v with
                      | SSeq l =>
                          if Nat.eqb (List.length l) 32 then
                            dec_all (fun x => match x with
                                              | SNum n => if n <? 256 then Ret (Some (byte_of_N_mod n))
                                                          else Ret None
                                              | _ => Ret None
                                              end) l
                          else Ret None
                      | _ => Ret None
                      end).

Section Codecs.
Context {E : Env}.
Local Notation scalar := (Scalar E).
Local Notation element := (Element E).

(** src/serde.rs 82-105 *)
Definition Opening_codec : Codec bytes :=
  mkCodec (fun h b => Ret (serialize_bytes h b))
          (fun h v => match deserialize_bytes h v with
                      | Some b => if Nat.eqb (List.length b) 32 then Ret (Some b) else Ret None
                      | None => Ret None
                      end).

(** src/serde.rs 107-124 *)
Definition PublicKey_codec : Codec (PublicKey E) :=
  mkCodec (fun h k => Ret (serialize_bytes h (pk_bytes k)))
          (fun h v => match deserialize_bytes h v with
                      | Some b => match PublicKey_from_bytes b with
                                  | Ok k => Ret (Some k)
                                  | Err _ => Ret None
                                  end
                      | None => Ret None
                      end).

(** src/serde.rs 126-146 *)
Definition SecretKey_codec : Codec (SecretKey E) :=
  mkCodec (fun h k => Ret (serialize_bytes h (serialize_scalar k)))
          (fun h v => match deserialize_bytes h v with
                      | Some b => Ret (SecretKey_from_bytes b)
                      | None => Ret None
                      end).

(** src/serde.rs 148-164: the public half is recomputed *)
Definition Keypair_codec : Codec (Keypair E) :=
  mkCodec (fun h k => enc SecretKey_codec h (kp_secret k))
          (fun h v => sk <-? dec SecretKey_codec h v ;;
                      kp <- Keypair_from_secret sk ;;
                      Ret (Some kp)).

(** src/serde.rs 178-238 *)
Definition ScalarHelper : Codec scalar :=
  mkCodec (fun h s => Ret (serialize_bytes h (serialize_scalar s)))
          (fun h v => match deserialize_bytes h v with
                      | Some b => if Nat.eqb (List.length b) (SCALAR_SIZE E)
                                  then Ret (deserialize_scalar b) else Ret None
                      | None => Ret None
                      end).

(** src/serde.rs 241-301 *)
Definition ElementHelper : Codec element :=
  mkCodec (fun h e => b <- serialize_element e ;; Ret (serialize_bytes h b))
          (fun h v => match deserialize_bytes h v with
                      | Some b => if Nat.eqb (List.length b) (ELEMENT_SIZE E)
                                  then Ret (deserialize_element b) else Ret None
                      | None => Ret None
                      end).

(** src/serde.rs 303-355.  [size_hint()] of the sequence is its length or unknown; a
    short sequence is rejected in both cases. *)
Definition VecHelper {A : Type} (c : Codec A) (MIN : nat) : Codec (list A) :=
  mkCodec
    (fun h l => _ <- debug_assert (env_build E) (MIN <=? List.length l)%nat ;;
                vs <- mapM (enc c h) l ;;
                Ret (SSeq vs))
    (fun h v => match v with
                | SSeq l =>
                    if (List.length l <? MIN)%nat then Ret None
                    else
                      xs <-? dec_all (dec c h) l ;;
                      if (MIN <=? List.length xs)%nat then Ret (Some xs) else Ret None
                | _ => Ret None
                end).

(** ** Derived implementations.  Structs serialize to a map of their fields. *)

(** src/encryption.rs 95-101 *)
Definition Ciphertext_codec : Codec (Ciphertext E) :=
  mkCodec
    (fun h c =>
       a <- enc ElementHelper h (random_element c) ;;
       b <- enc ElementHelper h (blinded_element c) ;;
       Ret (SMap [("random_element", a); ("blinded_element", b)]))
    (fun h v => match struct_fields ["random_element"; "blinded_element"] v with
                | Some [a; b] =>
                    a <-? dec ElementHelper h a ;;
                    b <-? dec ElementHelper h b ;;
                    Ret (Some {| random_element := a; blinded_element := b |})
                | _ => Ret None
                end).

(** src/decryption.rs 73-78 *)
Definition VerifiableDecryption_codec : Codec (VerifiableDecryption E) :=
  mkCodec
    (fun h c => a <- enc ElementHelper h (vd_dh_element c) ;; Ret (SMap [("dh_element", a)]))
    (fun h v => match struct_fields ["dh_element"] v with
                | Some [a] => a <-? dec ElementHelper h a ;; Ret (Some {| vd_dh_element := a |})
                | _ => Ret None
                end).

(** src/decryption.rs 160-164 ([transparent]) *)
Definition CandidateDecryption_codec : Codec (CandidateDecryption E) :=
  mkCodec
    (fun h c => enc VerifiableDecryption_codec h (cd_inner c))
    (fun h v => a <-? dec VerifiableDecryption_codec h v ;; Ret (Some {| cd_inner := a |})).

(** src/proofs/log_equality.rs 94-101 *)
Definition LogEqualityProof_codec : Codec (LogEqualityProof E) :=
  mkCodec
    (fun h p =>
       a <- enc ScalarHelper h (le_challenge p) ;;
       b <- enc ScalarHelper h (le_response p) ;;
       Ret (SMap [("challenge", a); ("response", b)]))
    (fun h v => match struct_fields ["challenge"; "response"] v with
                | Some [a; b] =>
                    a <-? dec ScalarHelper h a ;;
                    b <-? dec ScalarHelper h b ;;
                    Ret (Some {| le_challenge := a; le_response := b |})
                | _ => Ret None
                end).

(** src/proofs/possession.rs 69-76 *)
Definition ProofOfPossession_codec : Codec (ProofOfPossession E) :=
  mkCodec
    (fun h p =>
       a <- enc ScalarHelper h (pop_challenge p) ;;
       b <- enc (VecHelper ScalarHelper 1) h (pop_responses p) ;;
       Ret (SMap [("challenge", a); ("responses", b)]))
    (fun h v => match struct_fields ["challenge"; "responses"] v with
                | Some [a; b] =>
                    a <-? dec ScalarHelper h a ;;
                    b <-? dec (VecHelper ScalarHelper 1) h b ;;
                    Ret (Some {| pop_challenge := a; pop_responses := b |})
                | _ => Ret None
                end).

(** src/proofs/ring.rs 280-287: the fields *)
Definition RingProof_enc_fields (h : bool) (p : RingProof E) : outcome (list (string * sval)) :=
  a <- enc ScalarHelper h (rp_challenge p) ;;
  b <- enc (VecHelper ScalarHelper 2) h (rp_responses p) ;;
  Ret [("common_challenge", a); ("ring_responses", b)].

(** src/proofs/ring.rs 280-287 *)
Definition RingProof_codec : Codec (RingProof E) :=
  mkCodec
    (fun h p => l <- RingProof_enc_fields h p ;; Ret (SMap l))
    (fun h v => match struct_fields ["common_challenge"; "ring_responses"] v with
                | Some [a; b] =>
                    a <-? dec ScalarHelper h a ;;
                    b <-? dec (VecHelper ScalarHelper 2) h b ;;
                    Ret (Some {| rp_challenge := a; rp_responses := b |})
                | _ => Ret None
                end).

(** src/proofs/range.rs 444-450.  [inner] is [#[serde(flatten)]]: its fields are merged
    into the map, and on deserialization they are buffered and re-read through serde's
    [ContentDeserializer], which reports [is_human_readable() = true] for every format.
    Flattened structs cannot be read from sequences. *)
Definition RangeProof_codec : Codec (RangeProof E) :=
  mkCodec
    (fun h p =>
       a <- enc (vec_codec Ciphertext_codec) h (rap_partial p) ;;
       l <- RingProof_enc_fields h (rap_inner p) ;;
       Ret (SMap (("partial_ciphertexts", a) :: l)))
    (fun h v => match v with
                | SMap l =>
                    match field_entries "partial_ciphertexts" l with
                    | [a] =>
                        a <-? dec (vec_codec Ciphertext_codec) h a ;;
                        i <-? dec RingProof_codec true
                                (SMap (filter (fun p => negb (String.eqb (fst p)
                                                          "partial_ciphertexts")) l)) ;;
                        Ret (Some {| rap_partial := a; rap_inner := i |})
                    | _ => Ret None
                    end
                | _ => Ret None
                end).

(** src/proofs/commitment.rs 113-124 *)
Definition CommitmentEquivalenceProof_codec : Codec (CommitmentEquivalenceProof E) :=
  mkCodec
    (fun h p =>
       a <- enc ScalarHelper h (ce_challenge p) ;;
       b <- enc ScalarHelper h (ce_randomness_response p) ;;
       c <- enc ScalarHelper h (ce_value_response p) ;;
       d <- enc ScalarHelper h (ce_commitment_response p) ;;
       Ret (SMap [("challenge", a); ("randomness_response", b); ("value_response", c);
                  ("commitment_response", d)]))
    (fun h v => match struct_fields ["challenge"; "randomness_response"; "value_response";
                                     "commitment_response"] v with
                | Some [a; b; c; d] =>
                    a <-? dec ScalarHelper h a ;;
                    b <-? dec ScalarHelper h b ;;
                    c <-? dec ScalarHelper h c ;;
                    d <-? dec ScalarHelper h d ;;
                    Ret (Some {| ce_challenge := a; ce_randomness_response := b;
                                 ce_value_response := c; ce_commitment_response := d |})
                | _ => Ret None
                end).

(** src/proofs/mul.rs 84-93 *)
Definition SumOfSquaresProof_codec : Codec (SumOfSquaresProof E) :=
  mkCodec
    (fun h p =>
       a <- enc ScalarHelper h (sq_challenge p) ;;
       b <- enc (VecHelper ScalarHelper 2) h (sq_ciphertext_responses p) ;;
       c <- enc ScalarHelper h (sq_sum_response p) ;;
       Ret (SMap [("challenge", a); ("ciphertext_responses", b); ("sum_response", c)]))
    (fun h v => match struct_fields ["challenge"; "ciphertext_responses"; "sum_response"] v with
                | Some [a; b; c] =>
                    a <-? dec ScalarHelper h a ;;
                    b <-? dec (VecHelper ScalarHelper 2) h b ;;
                    c <-? dec ScalarHelper h c ;;
                    Ret (Some {| sq_challenge := a; sq_ciphertext_responses := b;
                                 sq_sum_response := c |})
                | _ => Ret None
                end).

(** src/sharing/mod.rs 273-280.  Note: no check of the documented constraints. *)
Definition Params_codec : Codec Params :=
  mkCodec
    (fun h p =>
       a <- enc nat_codec h (pa_shares p) ;;
       b <- enc nat_codec h (pa_threshold p) ;;
       Ret (SMap [("shares", a); ("threshold", b)]))
    (fun h v => match struct_fields ["shares"; "threshold"] v with
                | Some [a; b] =>
                    a <-? dec nat_codec h a ;;
                    b <-? dec nat_codec h b ;;
                    Ret (Some {| pa_shares := a; pa_threshold := b |})
                | _ => Ret None
                end).

(** src/sharing/mod.rs 173-179 ([transparent]) *)
Definition PublicPolynomial_codec : Codec (PublicPolynomial E) := VecHelper ElementHelper 1.

(** src/sharing/key_set.rs 19-26 *)
Definition PublicKeySet_codec : Codec (PublicKeySet E) :=
  mkCodec
    (fun h p =>
       a <- enc Params_codec h (ks_params p) ;;
       b <- enc PublicKey_codec h (ks_shared_key p) ;;
       c <- enc (vec_codec PublicKey_codec) h (ks_participant_keys p) ;;
       Ret (SMap [("params", a); ("shared_key", b); ("participant_keys", c)]))
    (fun h v => match struct_fields ["params"; "shared_key"; "participant_keys"] v with
                | Some [a; b; c] =>
                    a <-? dec Params_codec h a ;;
                    b <-? dec PublicKey_codec h b ;;
                    c <-? dec (vec_codec PublicKey_codec) h c ;;
                    Ret (Some {| ks_params := a; ks_shared_key := b; ks_participant_keys := c |})
                | _ => Ret None
                end).

(** src/sharing/participant.rs 24-31 *)
Definition Dealer_codec : Codec (Dealer E) :=
  mkCodec
    (fun h p =>
       a <- enc Params_codec h (de_params p) ;;
       b <- enc (vec_codec Keypair_codec) h (de_polynomial p) ;;
       c <- enc ProofOfPossession_codec h (de_pop p) ;;
       Ret (SMap [("params", a); ("polynomial", b); ("proof_of_possession", c)]))
    (fun h v => match struct_fields ["params"; "polynomial"; "proof_of_possession"] v with
                | Some [a; b; c] =>
                    a <-? dec Params_codec h a ;;
                    b <-? dec (vec_codec Keypair_codec) h b ;;
                    c <-? dec ProofOfPossession_codec h c ;;
                    Ret (Some {| de_params := a; de_polynomial := b; de_pop := c |})
                | _ => Ret None
                end).

(** src/sharing/participant.rs 88-95 *)
Definition ActiveParticipant_codec : Codec (ActiveParticipant E) :=
  mkCodec
    (fun h p =>
       a <- enc PublicKeySet_codec h (ap_key_set p) ;;
       b <- enc nat_codec h (ap_index p) ;;
       c <- enc SecretKey_codec h (ap_secret_share p) ;;
       Ret (SMap [("key_set", a); ("index", b); ("secret_share", c)]))
    (fun h v => match struct_fields ["key_set"; "index"; "secret_share"] v with
                | Some [a; b; c] =>
                    a <-? dec PublicKeySet_codec h a ;;
                    b <-? dec nat_codec h b ;;
                    c <-? dec SecretKey_codec h c ;;
                    Ret (Some {| ap_key_set := a; ap_index := b; ap_secret_share := c |})
                | _ => Ret None
                end).

(** src/dkg.rs 294-305 *)
Definition PublicInfo_codec : Codec (PublicInfo E) :=
  mkCodec
    (fun h p =>
       a <- enc (VecHelper ElementHelper 1) h (pi_polynomial p) ;;
       b <- enc ProofOfPossession_codec h (pi_pop p) ;;
       c <- enc Opening_codec h (pi_opening p) ;;
       Ret (SMap [("polynomial", a); ("proof_of_possession", b); ("opening", c)]))
    (fun h v => match struct_fields ["polynomial"; "proof_of_possession"; "opening"] v with
                | Some [a; b; c] =>
                    a <-? dec (VecHelper ElementHelper 1) h a ;;
                    b <-? dec ProofOfPossession_codec h b ;;
                    c <-? dec Opening_codec h c ;;
                    Ret (Some {| pi_polynomial := a; pi_pop := b; pi_opening := c |})
                | _ => Ret None
                end).

(** src/dkg.rs 187-196 *)
Definition PCC_codec : Codec (ParticipantCollectingCommitments E) :=
  mkCodec
    (fun h p =>
       a <- enc Params_codec h (pcc_params p) ;;
       b <- enc nat_codec h (pcc_index p) ;;
       c <- enc Dealer_codec h (pcc_dealer p) ;;
       d <- enc (vec_codec (option_codec array32_codec)) h (pcc_commitments p) ;;
       e <- enc Opening_codec h (pcc_opening p) ;;
       Ret (SMap [("params", a); ("index", b); ("dealer", c); ("commitments", d);
                  ("opening", e)]))
    (fun h v => match struct_fields ["params"; "index"; "dealer"; "commitments"; "opening"] v with
                | Some [a; b; c; d; e] =>
                    a <-? dec Params_codec h a ;;
                    b <-? dec nat_codec h b ;;
                    c <-? dec Dealer_codec h c ;;
                    d <-? dec (vec_codec (option_codec array32_codec)) h d ;;
                    e <-? dec Opening_codec h e ;;
                    Ret (Some {| pcc_params := a; pcc_index := b; pcc_dealer := c;
                                 pcc_commitments := d; pcc_opening := e |})
                | _ => Ret None
                end).

(** src/dkg.rs 323-333 *)
Definition PCP_codec : Codec (ParticipantCollectingPolynomials E) :=
  mkCodec
    (fun h p =>
       a <- enc Params_codec h (pcp_params p) ;;
       b <- enc nat_codec h (pcp_index p) ;;
       c <- enc Dealer_codec h (pcp_dealer p) ;;
       d <- enc Opening_codec h (pcp_opening p) ;;
       e <- enc (vec_codec array32_codec) h (pcp_commitments p) ;;
       f <- enc (vec_codec (option_codec PublicPolynomial_codec)) h (pcp_public_polynomials p) ;;
       Ret (SMap [("params", a); ("index", b); ("dealer", c); ("opening", d);
                  ("commitments", e); ("public_polynomials", f)]))
    (fun h v => match struct_fields ["params"; "index"; "dealer"; "opening"; "commitments";
                                     "public_polynomials"] v with
                | Some [a; b; c; d; e; f] =>
                    a <-? dec Params_codec h a ;;
                    b <-? dec nat_codec h b ;;
                    c <-? dec Dealer_codec h c ;;
                    d <-? dec Opening_codec h d ;;
                    e <-? dec (vec_codec array32_codec) h e ;;
                    f <-? dec (vec_codec (option_codec PublicPolynomial_codec)) h f ;;
                    Ret (Some {| pcp_params := a; pcp_index := b; pcp_dealer := c;
                                 pcp_opening := d; pcp_commitments := e;
                                 pcp_public_polynomials := f |})
                | _ => Ret None
                end).

(** src/dkg.rs 427-437 *)
Definition PES_codec : Codec (ParticipantExchangingSecrets E) :=
  mkCodec
    (fun h p =>
       a <- enc Params_codec h (pes_params p) ;;
       b <- enc nat_codec h (pes_index p) ;;
       c <- enc Dealer_codec h (pes_dealer p) ;;
       d <- enc (vec_codec PublicPolynomial_codec) h (pes_public_polynomials p) ;;
       e <- enc SecretKey_codec h (pes_accumulated_share p) ;;
       f <- enc (vec_codec bool_codec) h (pes_shares_received p) ;;
       Ret (SMap [("params", a); ("index", b); ("dealer", c); ("public_polynomials", d);
                  ("accumulated_share", e); ("shares_received", f)]))
    (fun h v => match struct_fields ["params"; "index"; "dealer"; "public_polynomials";
                                     "accumulated_share"; "shares_received"] v with
                | Some [a; b; c; d; e; f] =>
                    a <-? dec Params_codec h a ;;
                    b <-? dec nat_codec h b ;;
                    c <-? dec Dealer_codec h c ;;
                    d <-? dec (vec_codec PublicPolynomial_codec) h d ;;
                    e <-? dec SecretKey_codec h e ;;
                    f <-? dec (vec_codec bool_codec) h f ;;
                    Ret (Some {| pes_params := a; pes_index := b; pes_dealer := c;
                                 pes_public_polynomials := d; pes_accumulated_share := e;
                                 pes_shares_received := f |})
                | _ => Ret None
                end).

(** src/app/choice.rs 273-280, for a given codec of the sum proof *)
Definition EncryptedChoice_codec (S : ProveSum E) (cs : Codec (ps_Proof S))
    : Codec (EncryptedChoice S) :=
  mkCodec
    (fun h p =>
       a <- enc (vec_codec Ciphertext_codec) h (ec_choices p) ;;
       b <- enc RingProof_codec h (ec_range_proof p) ;;
       c <- enc cs h (ec_sum_proof p) ;;
       Ret (SMap [("choices", a); ("range_proof", b); ("sum_proof", c)]))
    (fun h v => match struct_fields ["choices"; "range_proof"; "sum_proof"] v with
                | Some [a; b; c] =>
                    a <-? dec (vec_codec Ciphertext_codec) h a ;;
                    b <-? dec RingProof_codec h b ;;
                    c <-? dec cs h c ;;
                    Ret (Some {| ec_choices := a; ec_range_proof := b; ec_sum_proof := c |})
                | _ => Ret None
                end).

(** src/app/quadratic_voting.rs 211-217 *)
Definition CiphertextWithRangeProof_codec : Codec (CiphertextWithRangeProof E) :=
  mkCodec
    (fun h p =>
       a <- enc Ciphertext_codec h (crp_ciphertext p) ;;
       b <- enc RangeProof_codec h (crp_range_proof p) ;;
       Ret (SMap [("ciphertext", a); ("range_proof", b)]))
    (fun h v => match struct_fields ["ciphertext"; "range_proof"] v with
                | Some [a; b] =>
                    a <-? dec Ciphertext_codec h a ;;
                    b <-? dec RangeProof_codec h b ;;
                    Ret (Some {| crp_ciphertext := a; crp_range_proof := b |})
                | _ => Ret None
                end).

(** src/app/quadratic_voting.rs 202-209 *)
Definition QuadraticVotingBallot_codec : Codec (QuadraticVotingBallot E) :=
  mkCodec
    (fun h p =>
       a <- enc (vec_codec CiphertextWithRangeProof_codec) h (qb_votes p) ;;
       b <- enc CiphertextWithRangeProof_codec h (qb_credit p) ;;
       c <- enc SumOfSquaresProof_codec h (qb_credit_equivalence_proof p) ;;
       Ret (SMap [("votes", a); ("credit", b); ("credit_equivalence_proof", c)]))
    (fun h v => match struct_fields ["votes"; "credit"; "credit_equivalence_proof"] v with
                | Some [a; b; c] =>
                    a <-? dec (vec_codec CiphertextWithRangeProof_codec) h a ;;
                    b <-? dec CiphertextWithRangeProof_codec h b ;;
                    c <-? dec SumOfSquaresProof_codec h c ;;
                    Ret (Some {| qb_votes := a; qb_credit := b;
                                 qb_credit_equivalence_proof := c |})
                | _ => Ret None
                end).

End Codecs.
