(** * [Debug] output: the [fmt::Debug] implementations of the types that hold secrets

    The output is a tree of the names and values that are printed; the layout of the text is
    [core::fmt]'s.  Group elements and scalars are printed by the back end ([Group::Element]
    and [Group::Scalar] are [fmt::Debug], src/group/mod.rs 80 and 141); here they are leaves
    that hold the value itself, that is, nothing is assumed to be hidden by the back end. *)
From Coq Require Import List NArith Bool String Ascii Arith.
From Verif.Model Require Import Base Group Transcript Keys Encryption LogEquality Possession Ring Sharing Dkg Serde.
Import ListNotations.
Open Scope string_scope.
Open Scope list_scope.

Section Doc.
Context {G : Group}.

Inductive leaf : Type :=
| LNumber (n : N)
| LBool (b : bool)
| LString (s : list ascii)
| LScalar (x : Scalar G)
| LElement (e : Element G).

(** [debug_struct] with [finish] or [finish_non_exhaustive], [debug_tuple], [debug_list] *)
Inductive doc : Type :=
| DLeaf (l : leaf)
| DStruct (name : string) (fields : list (string * doc))
| DStructMore (name : string) (fields : list (string * doc))
| DTuple (name : string) (items : list doc)
| DList (items : list doc).

(** all printed values, from left to right *)
Fixpoint leaves (d : doc) : list leaf :=
  match d with
  | DLeaf l => [l]
  | DStruct _ fields | DStructMore _ fields => flat_map (fun f => leaves (snd f)) fields
  | DTuple _ items | DList items => flat_map leaves items
  end.

Definition dnat (n : nat) : doc := DLeaf (LNumber (N.of_nat n)).
Definition dbytes (b : bytes) : doc := DList (map (fun x => DLeaf (LNumber (bn x))) b).
Definition delements (l : list (Element G)) : doc := DList (map (fun e => DLeaf (LElement e)) l).
Definition dscalars (l : list (Scalar G)) : doc := DList (map (fun x => DLeaf (LScalar x)) l).
Definition doption {A : Type} (f : A -> doc) (o : option A) : doc :=
  match o with None => DTuple "None" [] | Some a => DTuple "Some" [f a] end.

End Doc.
Arguments leaf : clear implicits.
Arguments doc : clear implicits.

Section Debug.
Context {E : Env}.
Local Notation scalar := (Scalar E).
Local Notation element := (Element E).
Local Notation doc := (doc E).

(** src/keys/mod.rs 136-143 *)
Definition debug_PublicKey (pk : PublicKey E) : doc :=
  DTuple "PublicKey" [DLeaf (LString (base64_encode (pk_bytes pk)))].

(** src/keys/mod.rs 19-26; [PublicKey::from] serializes the element and may panic *)
Definition debug_SecretKey (sk : SecretKey E) : outcome doc :=
  pk <- PublicKey_from_secret sk ;;
  Ret (DStruct "SecretKey" [("public", debug_PublicKey pk)]).

(** src/keys/mod.rs 265-272 *)
Definition debug_Keypair (kp : Keypair E) : doc :=
  DStructMore "Keypair" [("public", debug_PublicKey (kp_public kp))].

(** src/encryption.rs 103-111 *)
Definition debug_Ciphertext (c : Ciphertext E) : doc :=
  DStruct "Ciphertext"
    [("random_element", DLeaf (LElement (random_element c)));
     ("blinded_element", DLeaf (LElement (blinded_element c)))].

(** src/encryption.rs 301 (derived) *)
Definition debug_ExtendedCiphertext (c : ExtendedCiphertext E) : outcome doc :=
  r <- debug_SecretKey (ext_random_scalar c) ;;
  Ret (DStruct "ExtendedCiphertext" [("inner", debug_Ciphertext (ext_inner c)); ("random_scalar", r)]).

(** src/encryption.rs 382 (derived); [Zeroizing] of the zeroize crate derives [Debug] as well *)
Definition debug_CiphertextWithValue {V : Type} (debug_V : V -> doc) (c : CiphertextWithValue E V)
    : outcome doc :=
  i <- debug_ExtendedCiphertext (cwv_ext c) ;;
  Ret (DStruct "CiphertextWithValue"
         [("inner", i); ("value", DTuple "Zeroizing" [debug_V (cwv_value c)])]).

(** src/proofs/ring.rs 39-50 *)
Definition debug_Ring (g : Ring E) : doc :=
  DStruct "Ring"
    [("index", dnat (rg_index g));
     ("admissible_values", delements (rg_admissible g));
     ("ciphertext", debug_Ciphertext (rg_ciphertext g));
     ("responses", dscalars (rg_responses g));
     ("terminal_commitments",
        DTuple "" [DLeaf (LElement (fst (rg_terminal g))); DLeaf (LElement (snd (rg_terminal g)))])].

(** src/proofs/ring.rs 429-437; the generator prints itself *)
Definition debug_RingProofBuilder (debug_rng : Rng E -> doc) (b : RingProofBuilder E (Rng E)) : doc :=
  DStruct "RingProofBuilder"
    [("receiver", debug_PublicKey (rb_receiver b));
     ("rings", DList (map debug_Ring (rb_rings b)));
     ("rng", debug_rng (rb_rng b))].

(** src/proofs/possession.rs 68 (derived) *)
Definition debug_ProofOfPossession (p : ProofOfPossession E) : doc :=
  DStruct "ProofOfPossession"
    [("challenge", DLeaf (LScalar (pop_challenge p))); ("responses", dscalars (pop_responses p))].

(** src/sharing/mod.rs 273 (derived) *)
Definition debug_Params (p : Params) : doc :=
  DStruct "Params" [("shares", dnat (pa_shares p)); ("threshold", dnat (pa_threshold p))].

(** src/sharing/key_set.rs 19 (derived) *)
Definition debug_PublicKeySet (s : PublicKeySet E) : doc :=
  DStruct "PublicKeySet"
    [("params", debug_Params (ks_params s));
     ("shared_key", debug_PublicKey (ks_shared_key s));
     ("participant_keys", DList (map debug_PublicKey (ks_participant_keys s)))].

(** src/sharing/participant.rs 24 (derived) *)
Definition debug_Dealer (d : Dealer E) : doc :=
  DStruct "Dealer"
    [("params", debug_Params (de_params d));
     ("polynomial", DList (map debug_Keypair (de_polynomial d)));
     ("proof_of_possession", debug_ProofOfPossession (de_pop d))].

(** src/sharing/participant.rs 88 (derived) *)
Definition debug_ActiveParticipant (p : ActiveParticipant E) : outcome doc :=
  s <- debug_SecretKey (ap_secret_share p) ;;
  Ret (DStruct "ActiveParticipant"
         [("key_set", debug_PublicKeySet (ap_key_set p));
          ("index", dnat (ap_index p));
          ("secret_share", s)]).

(** src/dkg.rs 180 (derived) *)
Definition debug_Opening (o : bytes) : doc := DTuple "Opening" [DTuple "Zeroizing" [dbytes o]].

(** src/sharing/mod.rs 173 (derived) *)
Definition debug_PublicPolynomial (p : PublicPolynomial E) : doc :=
  DTuple "PublicPolynomial" [delements p].

(** src/dkg.rs 187 (derived) *)
Definition debug_PCC (p : ParticipantCollectingCommitments E) : doc :=
  DStruct "ParticipantCollectingCommitments"
    [("params", debug_Params (pcc_params p));
     ("index", dnat (pcc_index p));
     ("dealer", debug_Dealer (pcc_dealer p));
     ("commitments", DList (map (doption dbytes) (pcc_commitments p)));
     ("opening", debug_Opening (pcc_opening p))].

(** src/dkg.rs 323 (derived) *)
Definition debug_PCP (p : ParticipantCollectingPolynomials E) : doc :=
  DStruct "ParticipantCollectingPolynomials"
    [("params", debug_Params (pcp_params p));
     ("index", dnat (pcp_index p));
     ("dealer", debug_Dealer (pcp_dealer p));
     ("opening", debug_Opening (pcp_opening p));
     ("commitments", DList (map dbytes (pcp_commitments p)));
     ("public_polynomials", DList (map (doption debug_PublicPolynomial) (pcp_public_polynomials p)))].

(** src/dkg.rs 427 (derived) *)
Definition debug_PES (p : ParticipantExchangingSecrets E) : outcome doc :=
  s <- debug_SecretKey (pes_accumulated_share p) ;;
  Ret (DStruct "ParticipantExchangingSecrets"
         [("params", debug_Params (pes_params p));
          ("index", dnat (pes_index p));
          ("dealer", debug_Dealer (pes_dealer p));
          ("public_polynomials", DList (map debug_PublicPolynomial (pes_public_polynomials p)));
          ("accumulated_share", s);
          ("shares_received", DList (map (fun b => DLeaf (LBool b)) (pes_shares_received p)))]).

End Debug.
