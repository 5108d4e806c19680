(** * Collecting decryption shares from participants of whom some cheat (C90) *)
From Coq Require Import List NArith Bool Arith String.
From Verif.Model Require Import Base Group Transcript Keys Encryption LogEquality Sharing.
From Verif.Spec Require Import Encryption LogEquality Sharing.
Import ListNotations.
Open Scope string_scope.
Open Scope list_scope.

(** What talliers do with messages [(participant, share, proof)] in the order of their arrival: unknown participants and
    participants whose share is there already are ignored, the other messages are passed to
    [PublicKeySet::verify_share]. *)
Definition submission (E : Env) : Type := (nat * CandidateDecryption E * LogEqualityProof E)%type.

Fixpoint collect {E : Env} (ks : PublicKeySet E) (ct : Ciphertext E) (subs : list (submission E))
    (acc : list (nat * VerifiableDecryption E)) : outcome (list (nat * VerifiableDecryption E)) :=
  match subs with
  | [] => Ret acc
  | (i, cand, pf) :: rest =>
      if (i <? pa_shares (ks_params ks))%nat && negb (existsb (Nat.eqb i) (map fst acc)) then
        res <- PublicKeySet_verify_share ks cand ct i pf ;;
        collect ks ct rest (match res with Ok d => acc ++ [(i, d)] | Err _ => acc end)
      else collect ks ct rest acc
  end.

(** [dh] is not the share of participant [i], and was accepted because the hash of its commitment is the only challenge that
    can be answered *)
Definition share_hit {E : Env} (ks : PublicKeySet E) (ct : Ciphertext E) (i : nat) (dh : Element E) : Prop :=
  exists key base X0 X1 q,
    nth_error (ks_participant_keys ks) i = Some key /\ PublicKey_from_element (random_element ct) = Ret base /\
    (forall x, pk_element key = (generator * x)%E -> dh <> (random_element ct * x)%E) /\
    le_hashed (share_context "elgamal_decryption_share" ks i) base (pk_element key) dh X0 X1 q /\
    (exists s, le_answers (random_element ct) (pk_element key) dh X0 X1 (oracle q "c") s) /\
    forall c s, le_answers (random_element ct) (pk_element key) dh X0 X1 c s -> oracle q "c" = c.
