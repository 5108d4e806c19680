(** * Specification vocabulary for distributed key generation (C36-C40): histories of calls *)
From Coq Require Import List NArith ZArith String Permutation.
From Verif.Model Require Import Base Group Transcript Keys Encryption LogEquality Possession Sharing Dkg.
From Verif.Spec Require Import Sharing.
Import ListNotations.
Open Scope list_scope.

(** latest entry for an index in a history (latest first) *)
Definition latest {A : Type} (hist : list (nat * A)) (i : nat) : option A :=
  option_map snd (find (fun q => Nat.eqb (fst q) i) hist).

Section Histories.
Context {E : Env} (params : Params) (idx : nat).

(** States of one participant reachable by API calls with arbitrary arguments.
    The history records which values have been accepted so far from whom, latest first:
    commitments in the first phase, ... *)
Inductive pcc_run : ParticipantCollectingCommitments E -> list (nat * bytes) -> Prop :=
| pcc_run_new r p r' c :
    PCC_new params idx r = Ret (p, r') -> PCC_commitment p = Ret c -> pcc_run p [(idx, c)]
| pcc_run_insert p coms j c p' :
    pcc_run p coms -> PCC_insert_commitment p j c = Ret p' -> pcc_run p' ((j, c) :: coms).

(** ... polynomials in the second phase, ... *)
Inductive pcp_run : ParticipantCollectingPolynomials E ->
    list (nat * bytes) -> list (nat * list (Element E)) -> Prop :=
| pcp_run_start p coms q :
    pcc_run p coms -> PCC_finish_commitment_phase p = Ret q ->
    pcp_run q coms [(idx, pi_polynomial (PCP_public_info q))]
| pcp_run_insert q coms hist j info res q' :
    pcp_run q coms hist -> PCP_insert_public_polynomial q j info = Ret (res, q') ->
    pcp_run q' coms (match res with Ok _ => (j, pi_polynomial info) :: hist | Err _ => hist end).

(** ... and senders of accepted secret shares in the third one *)
Inductive pes_run : ParticipantExchangingSecrets E -> list (nat * list (Element E)) -> list nat -> Prop :=
| pes_run_start q coms hist p :
    pcp_run q coms hist -> PCP_finish_polynomials_phase q = Ret p -> pes_run p hist [idx]
| pes_run_insert p hist sup j share res p' :
    pes_run p hist sup -> PES_insert_secret_share p j share = Ret (res, p') ->
    pes_run p' hist (match res with Ok _ => j :: sup | Err _ => sup end).

End Histories.

(** indexes below [n] which are not in [sup], in increasing order *)
Definition not_supplied (n : nat) (sup : list nat) : list nat :=
  filter (fun i => negb (existsb (Nat.eqb i) sup)) (seq 0 n).

(** ** Message delivery between honest participants *)
Section Delivery.
Context {E : Env}.

Fixpoint deliver_commitments (p : ParticipantCollectingCommitments E) (msgs : list (nat * bytes))
    : outcome (ParticipantCollectingCommitments E) :=
  match msgs with
  | [] => Ret p
  | (j, c) :: msgs' => p' <- PCC_insert_commitment p j c ;; deliver_commitments p' msgs'
  end.

(** stops at the first rejected message *)
Fixpoint deliver_polynomials (p : ParticipantCollectingPolynomials E) (msgs : list (nat * PublicInfo E))
    : outcome (result (ParticipantCollectingPolynomials E) DkgError) :=
  match msgs with
  | [] => Ret (Ok p)
  | (j, info) :: msgs' =>
      '(res, p') <- PCP_insert_public_polynomial p j info ;;
      match res with
      | Ok _ => deliver_polynomials p' msgs'
      | Err e => Ret (Err e)
      end
  end.

Fixpoint deliver_shares (p : ParticipantExchangingSecrets E) (msgs : list (nat * SecretKey E))
    : outcome (result (ParticipantExchangingSecrets E) DkgError) :=
  match msgs with
  | [] => Ret (Ok p)
  | (j, share) :: msgs' =>
      '(res, p') <- PES_insert_secret_share p j share ;;
      match res with
      | Ok _ => deliver_shares p' msgs'
      | Err e => Ret (Err e)
      end
  end.

End Delivery.

(** [order] lists every participant except [i] exactly once *)
Definition delivery_order (n i : nat) (order : list nat) : Prop := Permutation (i :: order) (seq 0 n).
