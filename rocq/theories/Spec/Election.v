(** * Specification vocabulary for C71: many ballots under one key

    All voters cast their ballots; the distinguisher sees all of them.  The attackers on DDH change the votes one voter
    at a time. *)
From Coq Require Import List String NArith ZArith.
From Verif.Model Require Import Base Group Transcript Keys Encryption LogEquality Possession Sharing.
From Verif.Spec Require Import Encryption Sharing Domains Rom Forking Verifiers Uniform Secrecy Coalition.
Import ListNotations.
Open Scope list_scope.

Section Election.
Context {E : Env} (L : GroupLaws E).
Local Notation scalar := (Scalar E).
Local Notation element := (Element E).
Local Notation hash := (hash scalar).

(** [V]: votes, [A]: ballots, [X]: what the attacker makes up, [Y]: what the distinguisher sees *)
Context {V A X Y : Type}.
Context (client : V -> hash -> PublicKey E -> Rng E -> outcome (A * Rng E)).

(** the ballots for all [votes] *)
Fixpoint cast (votes : list V) (o : hash) (K : PublicKey E) (r : Rng E) : outcome (list A * Rng E) :=
  match votes with
  | [] => Ret ([], r)
  | v :: votes' =>
      '(a, r) <- client v o K r ;;
      '(l, r) <- cast votes' o K r ;;
      Ret (a :: l, r)
  end.

(** The attacker makes up the ballot of one voter, see [attacker].  It runs the client for the votes [before] and [after]
    this one, with the scalars [others], and uses the changed hash function for them, too. *)
Definition election_attacker_by (seed : list scalar -> Rng E) (Ms : PublicKey E -> list element)
    (simulate : PublicKey E -> list (Ciphertext E) -> list scalar -> hash -> X * hash)
    (view : X -> list A -> list A -> Y) (before after : list V) (D : PublicKey E -> Y -> hash -> bool)
    (T : triple) (coins : list scalar * (list scalar * list scalar * hash)) : bool :=
  let '(others, (c, proof_scalars, o)) := coins in
  returns (K <- PublicKey_from_element (fst (fst T)) ;;
           let '(x, o) := simulate K (ddh_ciphertexts T c (Ms K)) proof_scalars o in
           '(l1, r) <- cast before o K (seed others) ;;
           '(l2, _) <- cast after o K r ;;
           Ret (D K (view x l1 l2) o)).

Definition election_attacker (seed : list scalar -> Rng E) (Ms : PublicKey E -> list element)
    (simulate : PublicKey E -> list (Ciphertext E) -> list scalar -> hash -> X * hash)
    (view : X -> list A -> list A -> Y) (before after : list V) (D : PublicKey E -> Y -> strategy scalar bool)
    : triple -> list scalar * (list scalar * list scalar * hash) -> bool :=
  election_attacker_by seed Ms simulate view before after (fun K y o => run o (D K y)).

(** One voter's ballot among those of the other voters; [others]: their scalars *)
Definition others_view {B : Type} (seed : list scalar -> Rng E) (before after : list V)
    (D : PublicKey E -> B * list A -> hash -> bool) (others : list scalar) (K : PublicKey E) (x : B * A) (o : hash) : bool :=
  returns ('(l1, r) <- cast before o K (seed others) ;; '(l2, _) <- cast after o K r ;;
           Ret (D K (fst x, l1 ++ snd x :: l2) o)).

(** what the distinguisher sees: all ballots; with a shared key also the shares of the coalition and the dealer's proof *)
Definition all_ballots (a : A) (l1 l2 : list A) : list A := l1 ++ a :: l2.
Definition all_dealt {S P : Type} (x : S * P * A) (l1 l2 : list A) : S * P * list A :=
  let '(s, p, a) := x in (s, p, l1 ++ a :: l2).

(** Sum over all voters, for [gap v before after]: the voters up to this one vote as in the second list, the later ones as in
    the first. *)
Fixpoint hybrids (gap : V -> list V -> list V -> Z) (before votes votes' : list V) : Z :=
  match votes, votes' with
  | v :: l, v' :: l' => (gap v before l - gap v' before l + hybrids gap (before ++ [v']) l l')%Z
  | _, _ => 0%Z
  end.

(** the same for a sum [step v v' before after] *)
Fixpoint chain (step : V -> V -> list V -> list V -> Z) (before votes votes' : list V) : Z :=
  match votes, votes' with
  | v :: l, v' :: l' => (step v v' before l + chain step (before ++ [v']) l l')%Z
  | _, _ => 0%Z
  end.

End Election.
