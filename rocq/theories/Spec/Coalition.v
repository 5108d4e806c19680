(** * Specification vocabulary for C70: what a coalition of fewer than [t] participants learns

    A dealer shares a key among [n] participants with threshold [t]; a coalition of [t - 1] participants knows
    their secret shares and all that is public. *)
From Coq Require Import List String NArith ZArith.
From Verif.Model Require Import Base Group Transcript Keys Encryption LogEquality Possession Sharing.
From Verif.Spec Require Import Encryption Sharing Domains Rom Forking Verifiers Uniform Secrecy.
Import ListNotations.
Open Scope string_scope.
Open Scope list_scope.

Section Coalition.
Context {E : Env} (L : GroupLaws E).
Local Notation scalar := (Scalar E).
Local Notation element := (Element E).
Local Notation hash := (hash scalar).

(** ** interpolation of group elements *)

(** value at [x] of the polynomial with coefficients [Q] in the group, constant term first *)
Definition evaluate (Q : list element) (x : scalar) : element := fold_right (fun A rest => A + rest * x)%E identity Q.

(** coefficients of [Q(z) + D * N(z)] *)
Fixpoint add_multiple (Q : list element) (D : element) (N : list scalar) : list element :=
  match Q, N with
  | [], _ => map (fun a => D * a)%E N
  | _, [] => Q
  | A :: Q', a :: N' => (A + D * a)%E :: add_multiple Q' D N'
  end.

(** coefficients of [(z - x) * N(z)] *)
Fixpoint times_linear (x carry : scalar) (N : list scalar) : list scalar :=
  match N with
  | [] => [carry]
  | a :: N' => (carry - x * a)%S :: times_linear x a N'
  end.

(** Newton's method: coefficients of the polynomial of degree less than the number of [points] with the value [Y] at
    [x] for each [(x, Y)] among the points *)
Definition interpolate (points : list (scalar * element)) : list element :=
  fst (fold_left (fun QN p =>
         let '(Q, N) := QN in let '(x, Y) := p in
         (add_multiple Q ((Y - evaluate Q x) * s_inv L (peval N x))%E N, times_linear x 0%S N))
       points ([], [1%S])).

(** the public polynomial as the coalition [is] with the secret [shares] can compute it from the shared key *)
Definition public_polynomial (is_ : list nat) (K : PublicKey E) (shares : list scalar) : list element :=
  interpolate ((0%S, pk_element K) :: map (fun p => (node (fst p), (generator * snd p)%E)) (combine is_ shares)).

(** ** the experiment

    The dealer deals, [client] publishes something for the shared key.  The distinguisher sees the public polynomial
    with the proof of possession, the shares of the coalition, and what the client published. *)
Definition dealt_guesses {A : Type} (params : Params) (is_ : list nat) (n : nat) (seed : list scalar -> Rng E) (hashes : list hash)
    (client : hash -> PublicKey E -> Rng E -> outcome (A * Rng E))
    (D : list element -> ProofOfPossession E -> list scalar -> A -> strategy scalar bool) : Z :=
  tally (list_prod (tapes L (2 * pa_threshold params + n)) hashes) (fun p =>
    let o := snd p in
    returns ('(d, r) <- Dealer_new (E:=hashed_by E o) params (seed (fst p)) ;;
             let '(poly, pop) := Dealer_public_info d in
             set <- PublicKeySet_new (E:=hashed_by E o) params poly pop ;;
             shares <- mapM (Dealer_secret_share_for_participant d) is_ ;;
             match set with
             | Ok ks => '(a, _) <- client o (ks_shared_key ks) r ;; Ret (run o (D poly pop shares a))
             | Err _ => Ret false
             end)).

(** ** the attacker on DDH makes up shares and the dealer's proof *)
Definition pop_of (s : list scalar) : ProofOfPossession E := {| pop_challenge := hd 0%S s; pop_responses := tl s |}.

(** the check of the dealer's proof in [PublicKeySet::new] as an algorithm *)
Definition dealing_verifier (params : Params) (poly : list element) (p : ProofOfPossession E) :=
  doing (mapM PublicKey_from_element poly) (fun keys =>
  let t := pop_append_keys (start_proof (share_poly_transcript params) "multi_pop") keys in
  match check_lengths "public keys" (List.length (pop_responses p)) (List.length keys) with
  | Err e => Output (Ret (Err e, t))
  | Ok _ =>
      doing (pop_recommit (pop_challenge p) (combine keys (pop_responses p)) t) (fun t =>
      asking t (fun expected =>
      Output (Ret ((if s_eqb expected (pop_challenge p) then Ok tt else Err ChallengeMismatch), t ++ [TChal "c"]))))
  end).

(** [s]: the shares of the coalition, the scalars of the dealer's proof, the scalars for the client's part *)
Definition simulate_dealing {A : Type} (params : Params) (is_ : list nat)
    (simulate : PublicKey E -> list (Ciphertext E) -> list scalar -> hash -> A * hash)
    (K : PublicKey E) (c : list (Ciphertext E)) (s : list scalar) (o : hash) : (list scalar * ProofOfPossession E * A) * hash :=
  let t := pa_threshold params in
  let shares := firstn (t - 1) s in
  let pop := pop_of (firstn (t + 1) (skipn (t - 1) s)) in
  let o := answering (dealing_verifier params (public_polynomial is_ K shares) pop) (pop_challenge pop) o in
  let '(a, o) := simulate K c (skipn (2 * t) s) o in
  ((shares, pop, a), o).

Definition coalition_view {A : Type} (is_ : list nat)
    (D : list element -> ProofOfPossession E -> list scalar -> A -> strategy scalar bool)
    (K : PublicKey E) (v : list scalar * ProofOfPossession E * A) : strategy scalar bool :=
  let '(shares, pop, a) := v in D (public_polynomial is_ K shares) pop shares a.

(** hash inputs, see [covers] *)
Definition covers_dealing (dom : list query) (params : Params) (is_ : list nat) : Prop :=
  forall K shares (p : ProofOfPossession E) o, List.length shares = (pa_threshold params - 1)%nat ->
    List.length (pop_responses p) = pa_threshold params ->
    incl (asked o (dealing_verifier params (public_polynomial is_ K shares) p)) dom.

End Coalition.
