(** * Many ballots under one key *)
From Coq Require Import List NArith ZArith Arith Bool String Lia.
From Verif.Model Require Import Base Group Transcript Keys Encryption LogEquality Possession Ring Range Choice Sharing.
From Verif.Spec Require Import Encryption Range Choice Sharing Domains Rom Forking Verifiers Uniform Secrecy Coalition Election.
From Verif.Proofs Require Import Algebra Rom Forking Uniform UniformRing UniformBallots Domains Secrecy SecrecyBallots Coalition.
Import ListNotations.
Open Scope string_scope.
Open Scope list_scope.

Lemma hybrids_sum {U T : Type} (gap : U -> T -> list T -> list T -> Z) (us : list U) : forall l l' before,
  hybrids (fun x b a => fold_right Z.add 0%Z (map (fun u => gap u x b a) us)) before l l' =
  fold_right Z.add 0%Z (map (fun u => hybrids (gap u) before l l') us).
Proof.
  assert (Hz : fold_right Z.add 0%Z (map (fun _ : U => 0%Z) us) = 0%Z) by (induction us as [|u us0 IHu]; cbn; lia).
  induction l as [|v l IH]; intros [|v' l'] before; cbn [hybrids]; try (symmetry; exact Hz).
  rewrite IH. clear. induction us as [|u us IH]; [reflexivity|]. cbn [map fold_right]. lia.
Qed.

Lemma hybrids_ext {V : Type} (gap gap' : V -> list V -> list V -> Z) : (forall v before after, gap v before after = gap' v before after) ->
  forall votes votes' before, hybrids gap before votes votes' = hybrids gap' before votes votes'.
Proof.
  intros H. induction votes as [|v l IH]; intros [|v' l'] before; cbn [hybrids]; [reflexivity..|]. rewrite !H, IH. reflexivity.
Qed.

Section Election.
Context (E : Env) (L : GroupLaws E) (Ht : ser_total E).
Local Notation scalar := (Scalar E).
Local Notation element := (Element E).
Local Notation scalars := (all_scalars L).
Local Notation q := (Z.to_nat (order L)).
Local Notation pk x := (kp_public (pair_of E x)).
Local Notation reads := (Forking.reads scalar).

(** ** results as functions of the scalars drawn *)
Definition det {A : Type} (n : nat) (run : Rng E -> outcome (A * Rng E)) (f : list scalar -> A) : Prop :=
  forall r, run r = Ret (f (fst (draws n r)), snd (draws n r)).

Lemma uniform_det {A : Type} (seed : list scalar -> Rng E) n (run : Rng E -> outcome (A * Rng E)) P : seeds seed -> uniform_over n run P -> exists f, det n run f.
Proof.
  intros Hs [H1 H2]. destruct (H1 (seed [])) as (a0 & _ & _).
  exists (fun xs => match run (seed xs) with Ret (a, _) => a | Panic _ => a0 end). intros r.
  destruct (H1 r) as (a & Hr & HP). destruct (H2 a HP) as (xs & Hl & Hx). rewrite Hr.
  assert (Hd : fst (draws n r) = xs) by (apply Hx; eauto). rewrite Hd.
  assert (Hd' : fst (draws n (seed xs)) = xs) by (rewrite <- Hl; apply Hs).
  apply Hx in Hd' as (r' & ->). reflexivity.
Qed.

Lemma draws_split n m (r : Rng E) :
  fst (draws (n + m) r) = fst (draws n r) ++ fst (draws m (snd (draws n r))) /\ snd (draws (n + m) r) = snd (draws m (snd (draws n r))).
Proof.
  revert r. induction n as [|n IH]; intros r; [split; reflexivity|]. cbn [Nat.add draws].
  destruct (generate_scalar r) as [x r1]. specialize (IH r1). destruct (draws n r1) as [xs r2]. destruct (draws (n + m) r1) as [ys r3].
  cbn [fst snd] in *. destruct IH as [-> ->]. split; reflexivity.
Qed.

Lemma draws_first n m (r : Rng E) : firstn n (fst (draws (n + m) r)) = fst (draws n r).
Proof.
  destruct (draws_split n m r) as [-> _]. rewrite <- (draws_length n r) at 1. rewrite firstn_app, firstn_all, Nat.sub_diag. apply app_nil_r.
Qed.
Lemma draws_skip n m (r : Rng E) : skipn n (fst (draws (n + m) r)) = fst (draws m (snd (draws n r))).
Proof.
  destruct (draws_split n m r) as [-> _]. rewrite <- (draws_length n r) at 1. rewrite skipn_app, skipn_all, Nat.sub_diag. reflexivity.
Qed.

Lemma det_bind {A B C : Type} n m (run : Rng E -> outcome (A * Rng E)) (run' : A -> Rng E -> outcome (B * Rng E)) f g (h : A -> B -> C) :
  det n run f -> (forall a, det m (run' a) (g a)) ->
  det (n + m) (fun r => '(a, r) <- run r ;; '(b, r) <- run' a r ;; Ret (h a b, r))
      (fun xs => h (f (firstn n xs)) (g (f (firstn n xs)) (skipn n xs))).
Proof.
  intros H1 H2 r. rewrite H1. cbn [bind]. rewrite H2. cbn [bind]. rewrite draws_first, draws_skip.
  destruct (draws_split n m r) as [_ ->]. reflexivity.
Qed.

Lemma tsum_app n m f : tsum E L (n + m) f = tsum E L n (fun a => tsum E L m (fun b => f (a ++ b))).
Proof.
  revert f. induction n as [|n IH]; intros f; [rewrite tsum_0; reflexivity|]. cbn [Nat.add]. rewrite !tsum_S.
  apply lsum_ext. intros x _. rewrite IH. reflexivity.
Qed.

Lemma tsum_tsum n m (g : list scalar -> list scalar -> nat) :
  tsum E L n (fun a => tsum E L m (g a)) = tsum E L m (fun b => tsum E L n (fun a => g a b)).
Proof. exact (tsum_swap E L n g (tapes L m)). Qed.

Lemma app_inj (a a' b b' : list scalar) : a ++ b = a' ++ b' -> List.length a = List.length a' -> a = a' /\ b = b'.
Proof.
  revert a'. induction a as [|x a IH]; intros [|x' a'] H Hl; try discriminate Hl; [auto|]. injection H as -> H.
  destruct (IH a' H ltac:(injection Hl; auto)) as [-> ->]. auto.
Qed.

Section Cast.
Context (seed : list scalar -> Rng E) (Hseed : seeds seed).
Context {V A : Type} (client : V -> hash scalar -> PublicKey E -> Rng E -> outcome (A * Rng E)) (nd : V -> nat).
Context (ok : V -> Prop) (Hdet : forall v x o, ok v -> exists f, det (nd v) (client v o (pk x)) f).

(** number of scalars for all [votes] *)
Definition total (votes : list V) : nat := list_sum (map nd votes).

Lemma total_app before v after : total (before ++ v :: after) = total before + (nd v + total after).
Proof. unfold total. rewrite map_app, list_sum_app. reflexivity. Qed.

Lemma cast_det x o : forall votes, Forall ok votes -> exists F, det (total votes) (cast client votes o (pk x)) F.
Proof using Hdet.
  induction 1 as [|v votes Hv _ (F & IH)].
  - exists (fun _ => []). intros r. reflexivity.
  - destruct (Hdet v x o Hv) as (f & Hf). cbn [cast]. change (total (v :: votes)) with (nd v + total votes).
    exists (fun xs => f (firstn (nd v) xs) :: F (skipn (nd v) xs)).
    exact (det_bind (nd v) _ _ (fun _ => cast client votes o (pk x)) f (fun _ => F) cons Hf (fun _ => IH)).
Qed.

Lemma cast_app K o before after r :
  cast client (before ++ after) o K r =
  '(l1, r) <- cast client before o K r ;; '(l2, r) <- cast client after o K r ;; Ret (l1 ++ l2, r).
Proof.
  revert r. induction before as [|v l IH]; intros r.
  - cbn [app cast bind]. destruct (cast client after o K r) as [[l2 r']|p]; reflexivity.
  - cbn [app cast]. destruct (client v o K r) as [[a r1]|p]; [|reflexivity]. cbn [bind]. rewrite IH.
    destruct (cast client l o K r1) as [[l1 r2]|p]; [|reflexivity]. cbn [bind].
    destruct (cast client after o K r2) as [[l2 r3]|p]; reflexivity.
Qed.

(** *** moving the scalars of the other voters *)
Context {B : Type} (setup : hash scalar -> PublicKey E -> Rng E -> outcome (B * Rng E)) (m : nat).
Context (Hsetup : forall x o, exists f, det m (setup o (pk x)) f).
Context (dom : list query) (o0 : hash scalar).
Local Notation hashes := (all_hashes scalars dom o0).

Definition whole (votes : list V) (o : hash scalar) (K : PublicKey E) (r : Rng E) : outcome ((B * list A) * Rng E) :=
  '(b, r) <- setup o K r ;; '(l, r) <- cast client votes o K r ;; Ret ((b, l), r).
Definition one (v : V) (o : hash scalar) (K : PublicKey E) (r : Rng E) : outcome ((B * A) * Rng E) :=
  '(b, r) <- setup o K r ;; '(a, r) <- client v o K r ;; Ret ((b, a), r).

Lemma generated x (r : Rng E) n : fst (draws (S n) r) = fst (generate_scalar r) :: fst (draws n (snd (generate_scalar r))) /\
  (fst (generate_scalar r) = x -> Keypair_generate r = Ret (pair_of E x, snd (generate_scalar r))).
Proof using L Ht.
  split.
  - cbn [draws]. destruct (generate_scalar r) as [y r1]. cbn [fst snd]. destruct (draws n r1). reflexivity.
  - intros <-. apply (pair_generate E L Ht).
Qed.

Lemma guesses_sum {C : Type} n (prover : hash scalar -> PublicKey E -> Rng E -> outcome (C * Rng E)) (D : PublicKey E -> C -> hash scalar -> bool) :
  (forall x o, exists f, det n (prover o (pk x)) f) ->
  guesses_by E L n seed hashes prover D =
  Z.of_nat (lsum (fun x => lsum (fun o => tsum E L n (fun xs =>
    b2n (returns ('(a, _) <- prover o (pk x) (seed xs) ;; Ret (D (pk x) a o))))) hashes) scalars).
Proof using Ht Hseed.
  intros HF. unfold guesses_by. rewrite tally_lsum, lsum_prod. f_equal.
  change (lsum ?f (tapes L (1 + n))) with (tsum E L (S n) f). rewrite tsum_S. apply lsum_ext. intros x _.
  rewrite <- (tsum_swap E L n (fun xs o => b2n (returns ('(a, _) <- prover o (pk x) (seed xs) ;; Ret (D (pk x) a o))))).
  apply tsum_ext. intros xs Hl. apply lsum_ext. intros o _. cbn [fst snd].
  pose proof (Hseed (x :: xs)) as Hs. cbn [List.length] in Hs. rewrite Hl in Hs.
  destruct (generated x (seed (x :: xs)) n) as [G1 G2]. rewrite Hs in G1. injection G1 as G1 G3. rewrite (G2 (eq_sym G1)). cbn [bind].
  destruct (HF x o) as [f Hf]. rewrite !Hf. cbn [bind returns]. rewrite <- G3. rewrite <- Hl, (Hseed xs). reflexivity.
Qed.

Lemma fold_sum {T : Type} (f : T -> nat) l : fold_right Z.add 0%Z (map (fun t => Z.of_nat (f t)) l) = Z.of_nat (lsum f l).
Proof. induction l as [|t l IH]; [reflexivity|]. cbn [map fold_right]. rewrite IH, lsum_cons. lia. Qed.

Lemma whole_det votes x o : Forall ok votes -> exists f, det (m + total votes) (whole votes o (pk x)) f.
Proof using Hdet Hsetup.
  intros H. destruct (Hsetup x o) as [f Hf]. destruct (cast_det x o votes H) as [g Hg]. eexists.
  exact (det_bind m _ _ (fun _ => cast client votes o (pk x)) f (fun _ => g) pair Hf (fun _ => Hg)).
Qed.
Lemma one_det v x o : ok v -> exists f, det (m + nd v) (one v o (pk x)) f.
Proof using Hdet Hsetup.
  intros H. destruct (Hsetup x o) as [f Hf]. destruct (Hdet v x o H) as [g Hg]. eexists.
  exact (det_bind m _ _ (fun _ => client v o (pk x)) f (fun _ => g) pair Hf (fun _ => Hg)).
Qed.

Lemma guesses_others before v after (D : PublicKey E -> B * list A -> hash scalar -> bool) : Forall ok before -> ok v -> Forall ok after ->
  guesses_by E L (m + total (before ++ v :: after)) seed hashes (whole (before ++ v :: after)) D =
  fold_right Z.add 0%Z (map (fun others => guesses_by E L (m + nd v) seed hashes (one v) (others_view client seed before after D others))
                            (tapes L (total before + total after))).
Proof using Ht Hseed Hdet Hsetup.
  intros H1 H2 H3. rewrite guesses_sum by (intros x o; apply whole_det; apply Forall_app; auto).
  rewrite (map_ext _ (fun others => Z.of_nat (lsum (fun x => lsum (fun o => tsum E L (m + nd v) (fun xs =>
    b2n (returns ('(a, _) <- one v o (pk x) (seed xs) ;; Ret (others_view client seed before after D others (pk x) a o))))) hashes) scalars))).
  2:{ intros others. apply guesses_sum. intros x o. apply one_det, H2. }
  rewrite fold_sum. f_equal.
  rewrite (lsum_swap (fun others x => lsum (fun o => tsum E L (m + nd v) (fun xs =>
    b2n (returns ('(a, _) <- one v o (pk x) (seed xs) ;; Ret (others_view client seed before after D others (pk x) a o))))) hashes)).
  apply lsum_ext. intros x _.
  rewrite (lsum_swap (fun others o => tsum E L (m + nd v) (fun xs =>
    b2n (returns ('(a, _) <- one v o (pk x) (seed xs) ;; Ret (others_view client seed before after D others (pk x) a o)))))).
  apply lsum_ext. intros o _.
  destruct (Hsetup x o) as [fs Hs]. destruct (Hdet v x o H2) as [f Hf]. destruct (cast_det x o before H1) as [F1 HF1]. destruct (cast_det x o after H3) as [F2 HF2].
  set (n1 := total before) in *. set (n2 := total after) in *.
  transitivity (tsum E L m (fun s => tsum E L n1 (fun xs1 => tsum E L (nd v) (fun xs => tsum E L n2 (fun xs2 =>
    b2n (D (pk x) (fs s, F1 xs1 ++ f xs :: F2 xs2) o)))))).
  - replace (m + total (before ++ v :: after)) with (m + (n1 + (nd v + n2))) by (unfold n1, n2; rewrite total_app; reflexivity).
    rewrite tsum_app. apply tsum_ext. intros s Ls. rewrite tsum_app. apply tsum_ext. intros xs1 L1. rewrite tsum_app. apply tsum_ext. intros xs Lx.
    apply tsum_ext. intros xs2 L2. f_equal.
    pose proof (Hseed (s ++ xs1 ++ xs ++ xs2)) as Hd. rewrite !app_length, Ls, L1, Lx, L2 in Hd.
    destruct (draws_split m (n1 + (nd v + n2)) (seed (s ++ xs1 ++ xs ++ xs2))) as [D1 _]. rewrite Hd in D1.
    set (r0 := seed (s ++ xs1 ++ xs ++ xs2)) in *.
    destruct (draws_split n1 (nd v + n2) (snd (draws m r0))) as [D2 _]. rewrite D2 in D1. set (r1 := snd (draws m r0)) in *.
    destruct (draws_split (nd v) n2 (snd (draws n1 r1))) as [D3 _]. rewrite D3 in D1. set (r2 := snd (draws n1 r1)) in *.
    set (r3 := snd (draws (nd v) r2)) in *.
    apply app_inj in D1 as [E1 D1]; [|rewrite draws_length; congruence].
    apply app_inj in D1 as [E2 D1]; [|rewrite draws_length; congruence].
    apply app_inj in D1 as [E3 E4]; [|rewrite draws_length; congruence].
    unfold whole. rewrite Hs. cbn [bind]. rewrite cast_app. fold r1. rewrite HF1. cbn [bind]. fold r2. cbn [cast]. rewrite Hf. cbn [bind]. fold r3.
    rewrite HF2. cbn [bind returns]. rewrite <- E1, <- E2, <- E3, <- E4. reflexivity.
  - change (total before + total after) with (n1 + n2).
    change (lsum ?g (tapes L (n1 + n2))) with (tsum E L (n1 + n2) g). rewrite tsum_app.
    rewrite (tsum_tsum m _ (fun s xs1 => tsum E L (nd v) (fun xs => tsum E L n2 (fun xs2 => b2n (D (pk x) (fs s, F1 xs1 ++ f xs :: F2 xs2) o))))).
    apply tsum_ext. intros xs1 L1.
    transitivity (tsum E L m (fun s => tsum E L n2 (fun xs2 => tsum E L (nd v) (fun xs => b2n (D (pk x) (fs s, F1 xs1 ++ f xs :: F2 xs2) o))))).
    { apply tsum_ext. intros s _. apply (tsum_tsum (nd v) n2 (fun xs xs2 => b2n (D (pk x) (fs s, F1 xs1 ++ f xs :: F2 xs2) o))). }
    rewrite (tsum_tsum m _ (fun s xs2 => tsum E L (nd v) (fun xs => b2n (D (pk x) (fs s, F1 xs1 ++ f xs :: F2 xs2) o)))).
    apply tsum_ext. intros xs2 L2. rewrite tsum_app. apply tsum_ext. intros s Ls. apply tsum_ext. intros xs Lx. f_equal.
    pose proof (Hseed (s ++ xs)) as Hd. rewrite app_length, Ls, Lx in Hd.
    destruct (draws_split m (nd v) (seed (s ++ xs))) as [D1 _]. rewrite Hd in D1. set (r0 := seed (s ++ xs)) in *.
    apply app_inj in D1 as [E1 E2]; [|rewrite draws_length; congruence].
    pose proof (Hseed (xs1 ++ xs2)) as Hd'. rewrite app_length, L1, L2 in Hd'.
    destruct (draws_split n1 n2 (seed (xs1 ++ xs2))) as [D2 _]. rewrite Hd' in D2.
    apply app_inj in D2 as [E3 E4]; [|rewrite draws_length; congruence].
    unfold one. rewrite Hs. cbn [bind]. rewrite Hf. cbn [bind]. unfold others_view. rewrite HF1. cbn [bind]. rewrite HF2. cbn [bind fst snd returns].
    rewrite <- E1, <- E2, <- E3, <- E4. reflexivity.
Qed.

End Cast.

(** the same number of scalars for each vote *)
Lemma total_const {V : Type} nd (votes : list V) : total (fun _ => nd) votes = nd * List.length votes.
Proof. unfold total. induction votes as [|v l IH]; cbn [map List.length]; [cbn; lia|]. change (list_sum (nd :: map (fun _ => nd) l)) with (nd + list_sum (map (fun _ : V => nd) l)). lia. Qed.

Lemma guesses_others' (seed : list scalar -> Rng E) (Hseed : seeds seed) {V A : Type}
    (client : V -> hash scalar -> PublicKey E -> Rng E -> outcome (A * Rng E)) (nd : nat) (ok : V -> Prop)
    (Hdet : forall v x o, ok v -> exists f, det nd (client v o (pk x)) f) {B : Type}
    (setup : hash scalar -> PublicKey E -> Rng E -> outcome (B * Rng E)) (m : nat)
    (Hsetup : forall x o, exists f, det m (setup o (pk x)) f) (dom : list query) (o0 : hash scalar)
    before v after (D : PublicKey E -> B * list A -> hash scalar -> bool) : Forall ok before -> ok v -> Forall ok after ->
  guesses_by E L (m + nd * List.length (before ++ v :: after)) seed (all_hashes scalars dom o0) (whole client setup (before ++ v :: after)) D =
  fold_right Z.add 0%Z (map (fun others => guesses_by E L (m + nd) seed (all_hashes scalars dom o0) (one client setup v) (others_view client seed before after D others))
                            (tapes L (nd * (List.length before + List.length after)))).
Proof using Ht.
  intros H1 H2 H3. pose proof (guesses_others seed Hseed client (fun _ => nd) ok Hdet setup m Hsetup dom o0 before v after D H1 H2 H3) as H.
  rewrite !total_const, <- Nat.mul_add_distr_l in H. exact H.
Qed.

(** ** sums of gaps *)
Lemma fold_plus {T : Type} (f g : T -> Z) l :
  (fold_right Z.add 0 (map (fun t => f t - g t) l) = fold_right Z.add 0 (map f l) - fold_right Z.add 0 (map g l))%Z.
Proof. induction l as [|t l IH]; [reflexivity|]. cbn [map fold_right]. rewrite IH. lia. Qed.
Lemma fold_scale {T : Type} (f : T -> Z) c l : (fold_right Z.add 0 (map (fun t => c * f t) l) = c * fold_right Z.add 0 (map f l))%Z.
Proof. induction l as [|t l IH]; [cbn; lia|]. cbn [map fold_right]. rewrite IH. lia. Qed.
Lemma fold_ext {T : Type} (f g : T -> Z) l : (forall t, f t = g t) -> fold_right Z.add 0%Z (map f l) = fold_right Z.add 0%Z (map g l).
Proof. intros H. rewrite (map_ext _ _ H). reflexivity. Qed.

Lemma tally_prod {T U S : Type} (l : list T) (us : list U) (cs : list S) (f : T * (U * S) -> bool) :
  tally (list_prod l (list_prod us cs)) f = fold_right Z.add 0%Z (map (fun u => tally (list_prod l cs) (fun p => f (fst p, (u, snd p)))) us).
Proof.
  rewrite tally_lsum, lsum_prod.
  rewrite (lsum_ext _ (fun a => lsum (fun u => lsum (fun c => b2n (f (a, (u, c)))) cs) us)) by (intros a _; exact (lsum_prod (fun b => b2n (f (a, b))) us cs)).
  rewrite (lsum_swap (fun a u => lsum (fun c => b2n (f (a, (u, c)))) cs)). rewrite <- fold_sum. apply fold_ext. intros u.
  rewrite tally_lsum, lsum_prod. reflexivity.
Qed.

Lemma gap_prod {U S : Type} (us : list U) (cs : list S) (A : triple -> U * S -> bool) :
  ddh_gap L (list_prod us cs) A = fold_right Z.add 0%Z (map (fun u => ddh_gap L cs (fun T c => A T (u, c))) us).
Proof.
  unfold ddh_gap. rewrite fold_plus, fold_scale. unfold ddh_real, ddh_random. rewrite !tally_prod. cbn [fst snd]. reflexivity.
Qed.

(** ** one voter at a time *)
Lemma hybrid_chain {V : Type} (ok : V -> Prop) (f : Z) (G : list V -> Z) (gap : V -> list V -> list V -> Z) :
  (forall before v v' after, Forall ok before -> ok v -> ok v' -> Forall ok after ->
    f * (G (before ++ v :: after) - G (before ++ v' :: after)) = gap v before after - gap v' before after)%Z ->
  forall votes votes' before, Forall ok before -> Forall ok votes -> Forall ok votes' -> List.length votes = List.length votes' ->
  (f * (G (before ++ votes) - G (before ++ votes')) = hybrids gap before votes votes')%Z.
Proof.
  intros Hstep. induction votes as [|v l IH]; intros [|v' l'] before Hb H H' Hl; try discriminate Hl; [cbn; lia|].
  inversion H as [|? ? Hv Hrest]; subst. inversion H' as [|? ? Hv' Hrest']; subst. cbn [hybrids].
  rewrite <- (Hstep before v v' l Hb Hv Hv' Hrest), <- (IH l' (before ++ [v'])).
  - rewrite <- !app_assoc. cbn [app]. lia.
  - apply Forall_app. auto.
  - exact Hrest.
  - exact Hrest'.
  - injection Hl. auto.
Qed.

Section Secret.
Context (seed : list scalar -> Rng E) (Hseed : seeds seed) (dom : list query) (o0 : hash scalar).
Local Notation hashes := (all_hashes scalars dom o0).
Context {V A : Type} (client : V -> hash scalar -> PublicKey E -> Rng E -> outcome (A * Rng E)) (nd : nat) (ok : V -> Prop).
Context (Hext : forall v K r, reads anything (fun o => client v o K r)).

Lemma cast_ext votes K r : reads anything (fun o => cast client votes o K r).
Proof using Hext.
  intros o o' H. revert r. induction votes as [|v l IH]; intros r; [reflexivity|]. cbn [cast]. rewrite (Hext v K r o o' H).
  destruct (client v o' K r) as [[a r1]|p]; [|reflexivity]. cbn [bind]. rewrite IH. reflexivity.
Qed.

Lemma others_ext {B : Type} before after (D : PublicKey E -> B * list A -> hash scalar -> bool) others :
  (forall K a, reads anything (D K a)) -> forall K a, reads anything (others_view client seed before after D others K a).
Proof using Hext.
  intros HD K a o o' H. unfold others_view. rewrite (cast_ext before K _ o o' H).
  destruct (cast client before o' K (seed others)) as [[l1 r1]|p]; [|reflexivity]. cbn [bind].
  rewrite (cast_ext after K r1 o o' H). destruct (cast client after o' K r1) as [[l2 r2]|p]; [|reflexivity]. cbn [bind]. rewrite (HD _ _ o o' H). reflexivity.
Qed.

Lemma run_reads' (T : strategy scalar bool) : reads anything (fun o => run o T).
Proof. intros o o' H. apply (run_ext' scalar T). intros y. apply H. exact I. Qed.

Lemma side_det nd' n k {C : Type} (assemble : list (Ciphertext E) -> list scalar -> C) acc Ms prover :
  side_ok E nd' n k assemble acc Ms prover -> forall x o, exists f, det nd' (prover o (pk x)) f.
Proof using Hseed. intros (_ & P & HU & _) x o. exact (uniform_det seed nd' _ _ Hseed (HU x o)). Qed.

Theorem election_secret n k h simulate assemble acc (Ms : V -> PublicKey E -> list element) D :
  sim_ok E L dom o0 n k h simulate assemble acc -> (forall v, ok v -> side_ok E nd n k assemble acc (Ms v) (client v)) ->
  forall votes votes', Forall ok votes -> Forall ok votes' -> List.length votes = List.length votes' ->
  (order L ^ Z.of_nat (n + h + 1) * (order L - 1) *
     (guesses L (nd * List.length votes) seed hashes (cast client votes) D - guesses L (nd * List.length votes') seed hashes (cast client votes') D) =
   hybrids (fun v before after =>
     ddh_gap L (list_prod (tapes L (nd * (List.length before + List.length after))) (attacker_coins L n k hashes))
       (election_attacker client seed (Ms v) simulate all_ballots before after D)) [] votes votes')%Z.
Proof using Ht Hseed Hext.
  intros Hsim Hside. set (gap := fun v before after => ddh_gap L _ _).
  set (G := fun votes => guesses L (nd * List.length votes) seed hashes (cast client votes) D).
  intros votes votes' H H' Hl.
  apply (hybrid_chain ok _ G gap) with (before := []); try assumption; [|constructor]. clear votes votes' H H' Hl.
  intros before v v' after H1 H2 H2' H3.
  set (setup := fun (_ : hash scalar) (_ : PublicKey E) (r : Rng E) => Ret (tt, r)).
  set (D' := fun (K : PublicKey E) (x : unit * list A) (o : hash scalar) => run o (D K (snd x))).
  assert (HG : forall v, ok v -> G (before ++ v :: after) = fold_right Z.add 0%Z
    (map (fun others => guesses_by E L nd seed hashes (client v) (fun K a => others_view client seed before after D' others K (tt, a)))
         (tapes L (nd * (List.length before + List.length after))))).
  { intros w Hw.
    rewrite (fold_ext _ (fun others => guesses_by E L (0 + nd) seed hashes (one client setup w) (others_view client seed before after D' others))).
    - rewrite <- (guesses_others' seed Hseed client nd ok (fun v x o Hv => side_det _ _ _ _ _ _ _ (Hside v Hv) x o) setup 0) by
        (try assumption; intros x o; exists (fun _ => tt); intros r; reflexivity).
      unfold G, guesses, guesses_by. apply tally_ext. intros [xs o]. cbn [fst snd Nat.add].
      destruct (Keypair_generate (seed xs)) as [[kp r]|p]; [|reflexivity]. cbn [bind]. unfold whole, setup. cbn [bind].
      destruct (cast client (before ++ w :: after) o (kp_public kp) r) as [[l r1]|p]; reflexivity.
    - intros others. unfold guesses_by. apply tally_ext. intros [xs o]. cbn [fst snd Nat.add].
      destruct (Keypair_generate (seed xs)) as [[kp r]|p]; [|reflexivity]. cbn [bind]. unfold one, setup. cbn [bind].
      destruct (client w o (kp_public kp) r) as [[l r1]|p]; reflexivity. }
  assert (Hgap : forall v, gap v before after = fold_right Z.add 0%Z
    (map (fun others => ddh_gap L (attacker_coins L n k hashes) (attacker_by E (Ms v) simulate (fun K a => others_view client seed before after D' others K (tt, a))))
         (tapes L (nd * (List.length before + List.length after))))).
  { intros w. unfold gap. rewrite gap_prod. apply fold_ext. intros others. apply gap_ext. intros T [[c s] o]. unfold election_attacker, election_attacker_by, attacker_by.
    destruct (PublicKey_from_element (fst (fst T))) as [K|p]; [|reflexivity]. cbn [bind]. destruct (simulate K _ s o) as [a o']. reflexivity. }
  rewrite !HG, !Hgap by assumption. rewrite <- !fold_plus, <- fold_scale. apply fold_ext. intros others.
  apply (scheme_secret_by E L Ht seed Hseed dom o0 nd n k h simulate assemble acc); try (apply Hside; assumption).
  - apply sim_ok_core, Hsim.
  - intros K a. apply (others_ext before after D' others). intros K' a'. apply run_reads'.
Qed.

(** *** with a shared key *)
Context (Hbig : (2 ^ 64 <= order L)%Z) (params : Params) (Hparams : params_ok params) (is_ : list nat).
Context (Hnd : NoDup is_) (His : forall i, In i is_ -> i < pa_shares params) (Hlen : List.length is_ + 1 = pa_threshold params).
Context (Hdom : NoDup dom) (Hcov : covers_dealing L dom params is_).
Local Notation t := (pa_threshold params).

Definition dealing (o : hash scalar) (K : PublicKey E) (r : Rng E) : outcome ((list scalar * ProofOfPossession E) * Rng E) :=
  '(x, r) <- dealt_prover E L params is_ (fun _ _ r => Ret (tt, r)) o K r ;; Ret (fst x, r).

Lemma dealing_det x o : exists f, det (2 * t - 1) (dealing o (pk x)) f.
Proof using Ht Hbig Hparams Hnd His Hlen Hseed.
  assert (Hs : side_ok E 0 0 0 (fun _ _ => tt) (fun _ _ _ _ => true) (fun _ => []) (fun _ _ r => Ret (tt, r))).
  { split; [reflexivity|]. exists (fun _ _ _ => True). split.
    - intros y p. apply (uniform_ext 0 (fun r => Ret (tt, r)) _ (fun a => a = tt)); [apply uniform_ret|reflexivity|intros []; tauto].
    - intros y p []. split; [|trivial]. intros _. exists [], []. repeat split. constructor. }
  destruct (side_det _ _ _ _ _ _ _ (dealt_side E L Ht Hbig params Hparams is_ Hnd His Hlen 0 0 0 _ _ _ _ Hs) x o) as [f Hf].
  exists (fun xs => fst (f xs)). intros r. unfold dealing. rewrite Hf. cbn [bind].
  replace (t - 1 + (t + 0)) with (2 * t - 1) by (destruct Hparams; lia). reflexivity.
Qed.

Lemma dealt_split {C : Type} (c : hash scalar -> PublicKey E -> Rng E -> outcome (C * Rng E)) o K r :
  dealt_prover E L params is_ c o K r = '(b, r) <- dealing o K r ;; '(a, r) <- c o K r ;; Ret ((b, a), r).
Proof.
  unfold dealing, dealt_prover. destruct (generate_keypairs (t - 1) r) as [[kps r1]|p]; [|reflexivity]. cbn [bind].
  match goal with |- context [@ProofOfPossession_new ?e ?a ?b ?c] => destruct (@ProofOfPossession_new e a b c) as [[[pop t1] r2]|p] end; [|reflexivity]. cbn [bind].
  destruct (c o K r2) as [[a r3]|p]; reflexivity.
Qed.

Theorem dealt_election_secret_by n k h simulate assemble acc (Ms : V -> PublicKey E -> list element) D :
  (forall poly pop shares l, reads anything (D poly pop shares l)) ->
  sim_ok E L dom o0 n k h simulate assemble acc -> (forall v, ok v -> side_ok E nd n k assemble acc (Ms v) (client v)) ->
  forall votes votes', Forall ok votes -> Forall ok votes' -> List.length votes = List.length votes' ->
  (order L ^ Z.of_nat (n + h + 2) * (order L - 1) *
     (dealt_guesses_by E L params is_ (nd * List.length votes) seed hashes (cast client votes) D -
      dealt_guesses_by E L params is_ (nd * List.length votes') seed hashes (cast client votes') D) =
   hybrids (fun v before after =>
     ddh_gap L (list_prod (tapes L (nd * (List.length before + List.length after))) (attacker_coins L n (2 * t + k) hashes))
       (election_attacker_by client seed (Ms v) (simulate_dealing L params is_ simulate) all_dealt before after (coalition_view_by E L is_ D))) [] votes votes')%Z.
Proof using Ht Hseed Hext Hbig Hparams Hnd His Hlen Hdom Hcov.
  intros HD Hsim Hside. set (gap := fun v before after => ddh_gap L _ _).
  set (G := fun votes => dealt_guesses_by E L params is_ (nd * List.length votes) seed hashes (cast client votes) D).
  intros votes votes' H H' Hl.
  apply (hybrid_chain ok _ G gap) with (before := []); try assumption; [|constructor]. clear votes votes' H H' Hl.
  intros before v v' after H1 H2 H2' H3.
  set (D' := fun (K : PublicKey E) (x : (list scalar * ProofOfPossession E) * list A) (o : hash scalar) => coalition_view_by E L is_ D K x o).
  assert (Hlent : t - 1 + (t + nd) = 2 * t - 1 + nd) by (destruct Hparams; lia).
  assert (HG : forall v, ok v -> G (before ++ v :: after) = fold_right Z.add 0%Z
    (map (fun others => guesses_by E L (t - 1 + (t + nd)) seed hashes (dealt_prover E L params is_ (client v)) (others_view client seed before after D' others))
         (tapes L (nd * (List.length before + List.length after))))).
  { intros w Hw.
    rewrite (fold_ext _ (fun others => guesses_by E L (2 * t - 1 + nd) seed hashes (one client dealing w) (others_view client seed before after D' others))).
    - rewrite <- (guesses_others' seed Hseed client nd ok (fun v x o Hv => side_det _ _ _ _ _ _ _ (Hside v Hv) x o) dealing (2 * t - 1)) by
        (try assumption; intros x o; apply dealing_det).
      unfold G. rewrite (dealt_guesses_by_eq E L Ht Hbig params Hparams is_ Hnd His Hlen).
      unfold guesses_by. replace (t - 1 + (t + nd * List.length (before ++ w :: after))) with (2 * t - 1 + nd * List.length (before ++ w :: after)) by (destruct Hparams; lia).
      apply tally_ext. intros [xs o]. cbn [fst snd].
      destruct (Keypair_generate (seed xs)) as [[kp r]|p]; [|reflexivity]. cbn [bind]. unfold whole. rewrite dealt_split. reflexivity.
    - intros others. unfold guesses_by. rewrite Hlent. apply tally_ext. intros [xs o]. cbn [fst snd].
      destruct (Keypair_generate (seed xs)) as [[kp r]|p]; [|reflexivity]. cbn [bind]. unfold one. rewrite dealt_split. reflexivity. }
  assert (Hgap : forall v, gap v before after = fold_right Z.add 0%Z
    (map (fun others => ddh_gap L (attacker_coins L n (2 * t + k) hashes)
            (attacker_by E (Ms v) (simulate_dealing L params is_ simulate) (others_view client seed before after D' others)))
         (tapes L (nd * (List.length before + List.length after))))).
  { intros w. unfold gap. rewrite gap_prod. apply fold_ext. intros others. apply gap_ext. intros T [[c s] o]. unfold election_attacker_by, attacker_by.
    destruct (PublicKey_from_element (fst (fst T))) as [K|p]; [|reflexivity]. cbn [bind]. destruct (simulate_dealing _ _ _ _ K _ s o) as [[[sh pp] a] o']. reflexivity. }
  rewrite !HG, !Hgap by assumption. rewrite <- !fold_plus, <- fold_scale. apply fold_ext. intros others.
  replace (n + h + 2) with (n + S h + 1) by lia.
  apply (scheme_secret_by E L Ht seed Hseed dom o0 _ n (2 * t + k) (S h) _ _ _ (Ms v) (Ms v') _ _ _
    (dealing_sim E L Ht Hbig params Hparams is_ Hnd His Hlen dom o0 Hdom Hcov n k h simulate assemble acc Hsim)
    (dealt_side E L Ht Hbig params Hparams is_ Hnd His Hlen nd n k assemble acc (client v) (Ms v) (Hside v H2))
    (dealt_side E L Ht Hbig params Hparams is_ Hnd His Hlen nd n k assemble acc (client v') (Ms v') (Hside v' H2'))).
  intros K a. apply (others_ext before after D' others). intros K' [[sh pp] l] p p' Hp. apply HD, Hp.
Qed.

Theorem dealt_election_secret n k h simulate assemble acc (Ms : V -> PublicKey E -> list element) D :
  sim_ok E L dom o0 n k h simulate assemble acc -> (forall v, ok v -> side_ok E nd n k assemble acc (Ms v) (client v)) ->
  forall votes votes', Forall ok votes -> Forall ok votes' -> List.length votes = List.length votes' ->
  (order L ^ Z.of_nat (n + h + 2) * (order L - 1) *
     (dealt_guesses L params is_ (nd * List.length votes) seed hashes (cast client votes) D -
      dealt_guesses L params is_ (nd * List.length votes') seed hashes (cast client votes') D) =
   hybrids (fun v before after =>
     ddh_gap L (list_prod (tapes L (nd * (List.length before + List.length after))) (attacker_coins L n (2 * t + k) hashes))
       (election_attacker client seed (Ms v) (simulate_dealing L params is_ simulate) all_dealt before after (coalition_view L is_ D))) [] votes votes')%Z.
Proof using Ht Hseed Hext Hbig Hparams Hnd His Hlen Hdom Hcov.
  intros Hsim Hside votes votes' H H' Hl.
  rewrite (hybrids_ext _ (fun v before after =>
     ddh_gap L (list_prod (tapes L (nd * (List.length before + List.length after))) (attacker_coins L n (2 * t + k) hashes))
       (election_attacker_by client seed (Ms v) (simulate_dealing L params is_ simulate) all_dealt before after
          (coalition_view_by E L is_ (fun poly pop shares a o => run o (D poly pop shares a)))))).
  - refine (dealt_election_secret_by n k h simulate assemble acc Ms (fun poly pop shares a o => run o (D poly pop shares a)) _ Hsim Hside votes votes' H H' Hl).
    intros. apply run_reads'.
  - intros v before after. apply gap_ext. intros T [others [[c s] o]]. unfold election_attacker, election_attacker_by.
    destruct (PublicKey_from_element (fst (fst T))) as [K|p]; [|reflexivity]. cbn [bind]. destruct (simulate_dealing _ _ _ _ K _ s o) as [[[sh pp] a] o']. reflexivity.
Qed.

End Secret.

(** ** the clients depend on the answers of the hash only *)
Lemma agrees_all (o o' : hash scalar) : (forall y, anything y -> answer o y = answer o' y) -> agrees (hashed_by E o') o [].
Proof. intros H t l _. exact (H (t, l) I). Qed.
Lemma ext_nil t : extends [] t.
Proof. exists t. reflexivity. Qed.

End Election.
