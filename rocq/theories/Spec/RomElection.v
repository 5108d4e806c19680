(** * Specification vocabulary for C92: a whole election in the random oracle model *)
From Coq Require Import List String NArith ZArith Arith Bool.
From Verif.Model Require Import Base Group Transcript Keys Encryption LogEquality Ring Range Mul Sharing Choice Quadratic.
From Verif.Spec Require Import Encryption Choice Tally Collect Domains Rom Verifiers.
Import ListNotations.
Open Scope list_scope.
Open Scope nat_scope.

(** single-choice and multi-choice ballots as sent: ciphertexts, range proof, sum proof *)
Definition single_ballot (E : Env) : Type := (list (Ciphertext E) * RingProof E * LogEqualityProof E)%type.
Definition multi_ballot (E : Env) : Type := (list (Ciphertext E) * RingProof E)%type.
(** a message with a decryption share for the total of an option *)
Definition message (E : Env) : Type := (nat * submission E)%type.

Definition is_ok {A X : Type} (r : outcome (result A X)) : bool := match r with Ret (Ok _) => true | _ => false end.

(** [EncryptedChoice::verify], [QuadraticVotingBallot::verify] with the hash [o] *)
Definition single_accepted (E : Env) (n : nat) (K : PublicKey E) (o : hash (Scalar E)) (b : single_ballot E) : bool :=
  let H := hashed_by E o in
  is_ok (EncryptedChoice_verify (E:=H) (S:=SingleChoice (E:=H))
           (mkEncryptedChoice (E:=H) (S:=SingleChoice (E:=H)) (fst (fst b)) (snd (fst b)) (snd b))
           (mkChoiceParams (E:=H) (S:=SingleChoice (E:=H)) n K)).
Definition multi_accepted (E : Env) (n : nat) (K : PublicKey E) (o : hash (Scalar E)) (b : multi_ballot E) : bool :=
  let H := hashed_by E o in
  is_ok (EncryptedChoice_verify (E:=H) (S:=MultiChoice (E:=H))
           (mkEncryptedChoice (E:=H) (S:=MultiChoice (E:=H)) (fst b) (snd b) tt)
           (mkChoiceParams (E:=H) (S:=MultiChoice (E:=H)) n K)).
Definition quadratic_accepted (E : Env) (p : QuadraticVotingParams E) (o : hash (Scalar E)) (b : QuadraticVotingBallot E) : bool :=
  is_ok (QuadraticVotingBallot_verify (E:=hashed_by E o) b p).
Definition quadratic_choices {E : Env} (b : QuadraticVotingBallot E) : list (Ciphertext E) := map crp_ciphertext (qb_votes b).

Definition messages_for {E : Env} (i : nat) (msgs : list (message E)) : list (submission E) :=
  map snd (filter (fun m => Nat.eqb (fst m) i) msgs).

(** Whatever the talliers obtain for an option from the messages is the number of votes for this option.  [votes] are the votes in
    the accepted ballots [accepted]. *)
Definition announced_right (E : Env) (o : hash (Scalar E)) (params : Params) (ks : PublicKeySet E) (n : nat)
    (votes : list (list N)) (accepted : list (list (Ciphertext E))) (msgs : list (message E)) : Prop :=
  let H := hashed_by E o in
  forall i ct shares dec, nth_error (tally n accepted) i = Some ct ->
    collect (E:=H) ks ct (messages_for i msgs) [] = Ret shares -> combine_shares (E:=H) params shares = Ret (Some dec) ->
    VerifiableDecryption_decrypt_to_element (E:=E) dec ct = times (column i votes) generator.

(** ** the checks made in an election, as an algorithm with access to the hash *)

Fixpoint all {R A : Type} (Ts : list (strategy R A)) : strategy R (list A) :=
  match Ts with
  | [] => Output []
  | T :: Ts => andthen T (fun a => andthen (all Ts) (fun l => Output (a :: l)))
  end.

Definition checking {R A X : Type} (T : strategy R (outcome (result A X))) : strategy R bool := andthen T (fun r => Output (is_ok r)).

Definition message_checker {E : Env} (ks : PublicKeySet E) (totals : list (Ciphertext E)) (m : message E) : strategy (Scalar E) bool :=
  let '(i, (j, cand, pf)) := m in
  match nth_error totals i with
  | Some ct => checking (share_verifier ks cand ct j pf)
  | None => Output false
  end.

(** All ballots are checked, then all messages against the totals of the accepted ballots.  More than [B] ballots or [M] messages
    are not taken. *)
Definition election_checker {E : Env} {Ballot : Type} (check : Ballot -> strategy (Scalar E) bool)
    (choices : Ballot -> list (Ciphertext E)) (n B M : nat) (ks : PublicKeySet E) (x : list Ballot * list (message E)) :
    strategy (Scalar E) (list bool) :=
  let '(es, msgs) := x in
  if (List.length es <=? B) && (List.length msgs <=? M) then
    andthen (all (map check es)) (fun oks =>
    all (map (message_checker ks (tally n (map choices (map fst (filter snd (combine es oks)))))) msgs))
  else Output [].

Definition single_checker {E : Env} (n : nat) (ks : PublicKeySet E) (b : single_ballot E) : strategy (Scalar E) bool :=
  checking (single_choice_verifier n (ks_shared_key ks) (fst (fst b)) (snd (fst b)) (snd b)).
Definition multi_checker {E : Env} (n : nat) (ks : PublicKeySet E) (b : multi_ballot E) : strategy (Scalar E) bool :=
  checking (multi_choice_verifier n (ks_shared_key ks) (fst b) (snd b)).
Definition quadratic_checker {E : Env} (p : QuadraticVotingParams E) (b : QuadraticVotingBallot E) : strategy (Scalar E) bool :=
  checking (quadratic_verifier b p).
