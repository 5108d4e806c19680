(** * C74: counting the ways to influence the key *)
From Coq Require Import List String NArith ZArith Lia Arith Field Bool Permutation Strings.Byte.
From Verif.Model Require Import Base Group Transcript Keys Encryption LogEquality Possession Sharing Dkg.
From Verif.Spec Require Import Encryption Sharing Dkg Rom Forking Uniform Secrecy Unbiased.
From Verif.Proofs Require Import Lists Algebra Encryption Sharing Dkg UniformBallots.
From Verif.Proofs Require Rom.
From Verif.Proofs Require Import Uniform Forking Secrecy.
From Verif.Properties Require Import Dkg.
Import ListNotations.
Open Scope list_scope.
Open Scope nat_scope.

(** ** being lucky

    A tree of queries with a list of answers that would be a success at each node.  Only the first time a query is made
    counts. *)
Section Luck.
Context {R : Type} (R_dec : forall a b : R, {a = b} + {a <> b}) (values : list R) (Hvalues : NoDup values).
Local Notation hash := (hash R).
Local Notation N := (List.length values).
Local Notation hsum := (Forking.hsum R values).

Inductive wtree : Type :=
| WEnd
| WAsk (x : query) (B : list R) (k : R -> wtree).

Definition isin (c : R) (B : list R) : bool := if in_dec R_dec c B then true else false.
Lemma isin_ok c B : isin c B = true <-> In c B.
Proof. unfold isin. destruct (in_dec R_dec c B); split; intros; try congruence; auto. Qed.

Fixpoint lucky (o : hash) (h : list query) (W : wtree) : bool :=
  match W with
  | WEnd => false
  | WAsk x B k => (negb (mem x h) && isin (answer o x) B) || lucky o (x :: h) (k (answer o x))
  end.

Fixpoint wasked (o : hash) (W : wtree) : list query :=
  match W with
  | WEnd => []
  | WAsk x B k => x :: wasked o (k (answer o x))
  end.

Inductive weighs : nat -> wtree -> Prop :=
| w_end n : weighs n WEnd
| w_ask a n x B k : List.length B <= a -> (forall c, weighs n (k c)) -> weighs (a + n) (WAsk x B k).

Lemma lucky_ext (o o' : hash) W : (forall x, answer o x = answer o' x) -> forall h, lucky o h W = lucky o' h W.
Proof. intros H. induction W as [|x B k IH]; intros h; [reflexivity|]. cbn [lucky]. rewrite <- (H x), IH. reflexivity. Qed.

Lemma lucky_reads h W : reads R anything (fun o => b2n (lucky o h W)).
Proof. intros o o' H. f_equal. apply lucky_ext. intros x. apply H. exact I. Qed.

Lemma count_in (B : list R) : forall l, NoDup l -> lsum (fun c => b2n (isin c B)) l <= List.length B.
Proof.
  intros l Hl. rewrite <- length_filter. apply NoDup_incl_length; [apply NoDup_filter, Hl|].
  intros c Hc. apply filter_In in Hc as [_ Hc]. apply isin_ok in Hc. exact Hc.
Qed.

Lemma mem_ok x l : mem x l = true <-> In x l.
Proof. unfold mem. destruct (in_dec query_dec x l); split; intros; try congruence; auto. Qed.

Theorem lucky_count : forall W n h D (o0 : hash), weighs n W -> NoDup D -> (forall x, In x h -> ~ In x D) ->
  (forall o, (forall x, In x D -> In (answer o x) values) -> (forall x, ~ In x D -> answer o x = answer o0 x) ->
     forall x, In x (wasked o W) -> In x D \/ In x h) ->
  N * hsum D o0 (fun o => b2n (lucky o h W)) <= n * N ^ List.length D.
Proof.
  induction W as [|x B k IH]; intros n h D o0 Hw Hnd Hh Hin.
  - cbn [lucky b2n]. rewrite hsum_const. lia.
  - inversion Hw as [|a n' ? ? ? HS Hk]; subst. destruct (in_dec query_dec x D) as [Hx|Hx].
    + assert (Hxh : mem x h = false) by (destruct (mem x h) eqn:Hm; [apply mem_ok in Hm; destruct (Hh x Hm Hx)|reflexivity]).
      rewrite (hsum_pull R values x D); [|apply lucky_reads|exact Hnd|exact Hx].
      set (D' := Rom.without x D).
      assert (HlD : List.length D = Datatypes.S (List.length D')) by (apply without_len; assumption).
      assert (HD' : forall y, In y D' <-> In y D /\ x <> y) by (intros y; apply Rom.without_in).
      rewrite <- lsum_scale.
      assert (Hle : forall c, In c values ->
        N * hsum D' (set_hash o0 x c) (fun o => b2n (lucky o h (WAsk x B k))) <= b2n (isin c B) * N ^ List.length D + n' * N ^ List.length D').
      { intros c Hc. rewrite (hsum_ext R values D' _ _ (fun o => b2n (isin c B || lucky o (x :: h) (k c)))).
        2:{ intros o Ho. cbn [lucky]. rewrite Hxh. cbn [negb andb].
            rewrite (Ho x ltac:(rewrite HD'; tauto)), set_same. reflexivity. }
        destruct (isin c B) eqn:Hcs; cbn [orb b2n].
        - rewrite hsum_const, HlD. cbn [Nat.pow]. lia.
        - rewrite Nat.mul_0_l, Nat.add_0_l. apply (IH c n' (x :: h) D' (set_hash o0 x c)).
          + apply Hk.
          + apply NoDup_filter. exact Hnd.
          + intros y Hy Hy'. apply HD' in Hy' as [Hy1 Hy2]. destruct Hy as [->|Hy]; [congruence|]. exact (Hh y Hy Hy1).
          + intros o H1 H2 y Hy.
            assert (Hox : answer o x = c) by (rewrite H2, set_same; [reflexivity|rewrite HD'; tauto]).
            destruct (Hin o) with (x := y) as [H|H].
            * intros z Hz. destruct (query_dec x z) as [<-|Hne]; [rewrite Hox; exact Hc|]. apply H1. apply HD'. auto.
            * intros z Hz. rewrite H2 by (rewrite HD'; tauto). apply set_other. intros ->. contradiction.
            * cbn [wasked]. right. rewrite Hox. exact Hy.
            * destruct (query_dec x y) as [<-|Hne]; [right; left; reflexivity|left; apply HD'; auto].
            * right. right. exact H. }
      etransitivity; [apply lsum_le, Hle|]. rewrite lsum_plus, lsum_const.
      rewrite (lsum_ext _ (fun c => N ^ List.length D * b2n (isin c B))) by (intros; lia). rewrite lsum_scale.
      pose proof (count_in B values Hvalues) as Hcount.
      assert (H1 : N ^ List.length D * lsum (fun c => b2n (isin c B)) values <= N ^ List.length D * a) by (apply Nat.mul_le_mono_l; lia).
      rewrite HlD in *. cbn [Nat.pow] in *. nia.
    + destruct values as [|v0 vs] eqn:Hvs; [cbn [List.length]; lia|]. rewrite <- Hvs in *.
      assert (Hv0 : In v0 values) by (rewrite Hvs; left; reflexivity).
      assert (Hxh : In x h).
      { destruct (Hin (fun t s => if in_dec query_dec (t, s) D then v0 else o0 t s)) with (x := x) as [H|H]; [| |left; reflexivity|contradiction|exact H].
        - intros [t s] Hy. unfold answer. cbn [fst snd]. destruct (in_dec query_dec (t, s) D); [exact Hv0|contradiction].
        - intros [t s] Hy. unfold answer. cbn [fst snd]. destruct (in_dec query_dec (t, s) D); [contradiction|reflexivity]. }
      rewrite (hsum_ext R values D _ _ (fun o => b2n (lucky o (x :: h) (k (answer o0 x))))).
      2:{ intros o Ho. cbn [lucky]. rewrite (proj2 (mem_ok x h) Hxh). cbn [negb andb orb].
          rewrite (Ho x Hx). reflexivity. }
      etransitivity; [apply (IH (answer o0 x) n' (x :: h) D o0)|].
      * apply Hk.
      * exact Hnd.
      * intros y [<-|Hy]; [exact Hx|apply Hh; exact Hy].
      * intros o H1 H2 y Hy. destruct (Hin o H1 H2 y) as [H|H]; [right; rewrite (H2 x Hx); exact Hy|left; exact H|right; right; exact H].
      * apply Nat.mul_le_mono_r. lia.
Qed.

(** *** trees for strategies *)
Fixpoint watch {A : Type} (bad : list R -> list R) (seen : list R) (T : strategy R A) (k : list R -> A -> wtree) : wtree :=
  match T with
  | Output a => k seen a
  | Ask x f => WAsk x (bad seen) (fun c => watch bad (c :: seen) (f c) k)
  end.

Lemma watch_asked {A : Type} bad o (T : strategy R A) k : forall seen,
  wasked o (watch bad seen T k) = asked o T ++ wasked o (k (rev (map (answer o) (asked o T)) ++ seen) (run o T)).
Proof.
  induction T as [a|x f IH]; intros seen; cbn [watch wasked asked run map rev app]; [reflexivity|].
  rewrite IH. rewrite <- app_assoc. reflexivity.
Qed.

(** after an unlucky run *)
Lemma watch_lucky {A : Type} bad o (T : strategy R A) k : forall seen h,
  lucky o h (watch bad seen T k) = false ->
  (forall l1 y l2, asked o T = l1 ++ y :: l2 -> ~ In y (l1 ++ h) -> ~ In (answer o y) (bad (rev (map (answer o) l1) ++ seen))) /\
  lucky o (rev (asked o T) ++ h) (k (rev (map (answer o) (asked o T)) ++ seen) (run o T)) = false.
Proof.
  induction T as [a|x f IH]; intros seen h H; cbn [watch lucky asked run map rev app] in *.
  - split; [|exact H]. intros [|? ?] y l2 He; discriminate.
  - apply orb_false_iff in H as [H1 H2]. apply IH in H2 as [H2 H3]. split.
    + intros l1 y l2 He Hn. destruct l1 as [|z l1]; cbn [app] in He; injection He as <- He.
      * cbn [map rev app] in *. intros Hb. apply isin_ok in Hb. rewrite Hb, andb_true_r in H1. apply negb_false_iff in H1.
        apply mem_ok in H1. contradiction.
      * cbn [map rev]. rewrite <- app_assoc. apply (H2 l1 y l2 He). intros Hy. apply Hn. apply in_app_iff in Hy. cbn [app].
        destruct Hy as [Hy|[->|Hy]]; [right; apply in_or_app; auto|left; reflexivity|right; apply in_or_app; auto].
    + rewrite <- !app_assoc. exact H3.
Qed.

Fixpoint asks (l : list query) : strategy R unit :=
  match l with
  | [] => Output tt
  | x :: l' => Ask x (fun _ => asks l')
  end.
Lemma asks_asked o l : asked o (asks l) = l.
Proof. induction l as [|x l IH]; [reflexivity|]. cbn. rewrite IH. reflexivity. Qed.

(** sizes *)
Lemma weighs_mono n m W : weighs n W -> n <= m -> weighs m W.
Proof.
  intros H. revert m. induction H as [n|a n x B k HS Hk IH]; intros m Hm; [constructor|].
  replace m with (a + (m - a)) by lia. constructor; [exact HS|]. intros c. apply IH. lia.
Qed.

Lemma run_yields {A : Type} o (T : strategy R A) : yields T (run o T).
Proof. induction T as [a|x k IH]; cbn [run]; econstructor. apply IH. Qed.

Lemma watch_const {A : Type} (B : list R) b n (T : strategy R A) k m : at_most n T -> List.length B <= b ->
  (forall seen a, yields T a -> weighs m (k seen a)) ->
  forall seen, weighs (n * b + m) (watch (fun _ => B) seen T k).
Proof.
  intros Hn HB. revert k m. induction Hn as [n a|n x f Hf IH]; intros k m Hk seen; cbn [watch].
  - apply (weighs_mono m); [apply Hk, yields_output|nia].
  - cbn [Nat.mul]. rewrite <- Nat.add_assoc. constructor; [exact HB|]. intros c. apply IH. intros s a Ha. apply Hk. econstructor. exact Ha.
Qed.

(** [1 + 2 + ... + n] at most, if started with one answer *)
Lemma watch_seen {A : Type} n (T : strategy R A) k m : at_most n T ->
  (forall seen a, yields T a -> weighs m (k seen a)) ->
  forall seen, weighs (n * (List.length seen + n - 1) + m) (watch (fun s => s) seen T k).
Proof.
  intros Hn. revert k m. induction Hn as [n a|n x f Hf IH]; intros k m Hk seen; cbn [watch].
  - apply (weighs_mono m); [apply Hk, yields_output|nia].
  - apply (weighs_mono (List.length seen + (n * (Datatypes.S (List.length seen) + n - 1) + m))); [|nia].
    constructor; [lia|]. intros c. refine (IH c k m _ (c :: seen)). intros s a Ha. apply Hk. econstructor. exact Ha.
Qed.

(** ** answering one query anew *)
Lemma resample y D o0 f : reads R anything f -> NoDup D -> In y D ->
  N * hsum D o0 f = lsum (fun c => hsum D o0 (fun o => f (set_hash o y c))) values.
Proof.
  intros Hf Hnd Hy. rewrite (hsum_pull R values y D o0 f Hf Hnd Hy), <- lsum_scale. apply lsum_ext. intros c _.
  assert (Hg : reads R (fun z => y <> z) (fun o => f (set_hash o y c))).
  { intros o o' H. apply Hf. intros z _. destruct (query_dec y z) as [<-|Hne]; [rewrite !set_same; reflexivity|].
    rewrite !set_other by exact Hne. apply H. exact Hne. }
  rewrite (hsum_pull R values y D o0 (fun o => f (set_hash o y c))); [|intros o o' H; apply Hg; intros z _; apply H; exact I|exact Hnd|exact Hy].
  rewrite (lsum_ext _ (fun _ => hsum (Rom.without y D) (set_hash o0 y c) f)); [rewrite lsum_const; reflexivity|].
  intros c' _. rewrite (hsum_base R values (fun z => y <> z) _ (set_hash o0 y c') (set_hash o0 y c) _ Hg).
  - apply hsum_ext. intros o Ho. apply Hf. intros z _. destruct (query_dec y z) as [<-|Hne]; [|apply set_other; exact Hne].
    rewrite set_same, Ho, set_same; [reflexivity|]. rewrite Rom.without_in. tauto.
  - intros z Hz. right. rewrite !set_other by exact Hz. reflexivity.
Qed.

Lemma asked_set {A : Type} o y c (T : strategy R A) : ~ In y (asked o T) ->
  run (set_hash o y c) T = run o T /\ asked (set_hash o y c) T = asked o T.
Proof.
  intros Hn. destruct (Rom.run_ext R o (set_hash o y c) T) as [-> ->]; [|auto].
  intros x Hx. symmetry. apply set_other. intros ->. contradiction.
Qed.

Lemma asked_length {A : Type} o n (T : strategy R A) : at_most n T -> List.length (asked o T) <= n.
Proof. induction 1 as [n a|n x k H IH]; cbn; [lia|]. specialize (IH (answer o x)). lia. Qed.

(** ** the count for a game with one secret value

    The attacker [A1] is given the answer to the query [y0 x b].  If it does not make this query, and if it is not lucky
    later on, then its success depends on [x] through [good] only. *)
Section Count.
Context {X S B A : Type} (xs : list X) (ss : list S) (bs : list B) (y0 : X -> B -> query) (A1 : R -> strategy R A)
  (tree : X -> S -> B -> wtree) (win : X -> S -> B -> hash -> bool) (good : R -> hash -> X -> bool)
  (dom : list query) (o0 : hash) (w Q1 t : nat).
Context (Hbs : NoDup bs) (Hy0 : forall x b b', In b bs -> In b' bs -> y0 x b = y0 x b' -> b = b') (Hdom : NoDup dom)
  (Hin0 : forall x b, In x xs -> In b bs -> In (y0 x b) dom)
  (Hwin : forall x s b, reads R anything (win x s b))
  (Hgood : forall x s b o, In x xs -> In s ss -> In b bs ->
     (forall z, In z dom -> In (answer o z) values) ->
     win x s b o = true -> lucky o [] (tree x s b) = false ->
     ~ In (y0 x b) (asked o (A1 (answer o (y0 x b)))) -> good (answer o (y0 x b)) o x = true)
  (Hset : forall c o x b, ~ In (y0 x b) (asked o (A1 c)) -> good c (set_hash o (y0 x b) c) x = good c o x)
  (Hcount : forall c o, lsum (fun x => b2n (good c o x)) xs <= t)
  (HQ : forall c, at_most Q1 (A1 c))
  (Hw : forall x s b, In x xs -> In s ss -> In b bs -> weighs w (tree x s b))
  (Htree : forall x s b o, In x xs -> In s ss -> In b bs -> (forall z, In z dom -> In (answer o z) values) -> incl (wasked o (tree x s b)) dom).

Local Notation total := (N ^ List.length dom).

Definition guessed (x : X) (b : B) (o : hash) : bool := mem (y0 x b) (asked o (A1 (answer o (y0 x b)))).

Lemma guessed_reads x b : reads R anything (fun o => b2n (guessed x b o)).
Proof.
  intros o o' H. unfold guessed. rewrite (H (y0 x b) I).
  rewrite (proj2 (Rom.run_ext R o o' (A1 (answer o' (y0 x b))) (fun z _ => H z I))). reflexivity.
Qed.

Lemma hsum_values D o f g : (forall o', (forall z, In z D -> In (answer o' z) values) -> f o' <= g o') -> hsum D o f <= hsum D o g.
Proof.
  revert o f g. induction D as [|y D IH]; intros o f g H.
  - rewrite !hsum_nil. apply H. intros z [].
  - rewrite !hsum_cons. apply lsum_le. intros c Hc. unfold Forking.hsum. apply lsum_le. intros o' Ho'. apply H.
    intros z Hz. destruct (in_dec query_dec z D) as [Hz'|Hz'].
    + revert Ho' Hz'. clear. revert o' o y c. induction D as [|u D IH]; intros o' o y c Ho' Hz'; [destruct Hz'|].
      cbn [all_hashes] in Ho'. apply in_flat_map in Ho' as (d & Hd & Ho').
      destruct (in_dec query_dec z D) as [Hz|Hz]; [exact (IH o' (set_hash o y c) u d Ho' Hz)|].
      rewrite (all_hashes_out R values D _ o' z Ho' Hz). destruct Hz' as [<-|Hz']; [rewrite set_same; exact Hd|contradiction].
    + rewrite (all_hashes_out R values D _ o' z Ho' Hz'). destruct Hz as [<-|Hz]; [rewrite set_same; exact Hc|contradiction].
Qed.

Lemma guess_count x : In x xs -> lsum (fun b => N * hsum dom o0 (fun o => b2n (guessed x b o))) bs <= N * (Q1 * total).
Proof using Hbs Hy0 Hdom Hin0 HQ R_dec.
  intros Hx.
  rewrite (lsum_ext _ (fun b => lsum (fun c => hsum dom o0 (fun o => b2n (guessed x b (set_hash o (y0 x b) c)))) values)).
  2:{ intros b Hb. apply (resample (y0 x b) dom o0 (fun o => b2n (guessed x b o))); [apply guessed_reads|exact Hdom|apply Hin0; assumption]. }
  rewrite lsum_swap. etransitivity; [apply (lsum_le _ (fun _ => Q1 * total))|rewrite lsum_const; lia].
  intros c _. unfold Forking.hsum. rewrite lsum_swap.
  etransitivity; [apply (lsum_le _ (fun _ => Q1))|rewrite lsum_const, all_hashes_len; lia].
  intros o _. etransitivity; [apply (lsum_le _ (fun b => b2n (mem (y0 x b) (asked o (A1 c)))))|].
  - intros b _. unfold guessed. rewrite set_same. destruct (mem (y0 x b) (asked o (A1 c))) eqn:Hm; [match goal with |- b2n ?m <= _ => destruct m; cbn [b2n]; lia end|].
    destruct (asked_set o (y0 x b) c (A1 c)) as [_ ->]; [intros Hi; apply mem_ok in Hi; congruence|]. rewrite Hm. cbn. lia.
  - rewrite <- length_filter. etransitivity; [|apply (asked_length o Q1 (A1 c) (HQ c))].
    rewrite <- (map_length (y0 x)). apply NoDup_incl_length.
    + apply Rom.NoDup_map_in; [|apply NoDup_filter; exact Hbs]. intros b b' Hb Hb'. apply filter_In in Hb, Hb'. apply Hy0; tauto.
    + intros y Hy. apply in_map_iff in Hy as (b & <- & Hb). apply filter_In in Hb as [_ Hb]. apply mem_ok in Hb. exact Hb.
Qed.

Definition clean (x : X) (s : S) (b : B) (o : hash) : bool :=
  win x s b o && negb (lucky o [] (tree x s b)) && negb (guessed x b o).

Lemma clean_count s b : In s ss -> In b bs -> lsum (fun x => N * hsum dom o0 (fun o => b2n (clean x s b o))) xs <= N * (t * total).
Proof using Hdom Hin0 Hwin Hgood Hset Hcount.
  intros Hs Hb.
  assert (Hr : forall x, reads R anything (fun o => b2n (clean x s b o))).
  { intros x o o' H. unfold clean. rewrite (Hwin x s b o o' H), (lucky_ext o o' (tree x s b) (fun z => H z I)).
    assert (Hg : guessed x b o = guessed x b o').
    { pose proof (guessed_reads x b o o' H) as Hg. cbn beta in Hg. destruct (guessed x b o), (guessed x b o'); [reflexivity|discriminate Hg|discriminate Hg|reflexivity]. }
    rewrite Hg. reflexivity. }
  rewrite (lsum_ext _ (fun x => lsum (fun c => hsum dom o0 (fun o => b2n (clean x s b (set_hash o (y0 x b) c)))) values)).
  2:{ intros x Hx. apply (resample (y0 x b) dom o0 (fun o => b2n (clean x s b o))); [apply Hr|exact Hdom|apply Hin0; assumption]. }
  etransitivity.
  { apply lsum_le. intros x Hx. apply (lsum_le _ (fun c => hsum dom o0 (fun o => b2n (good c o x)))). intros c Hc.
    apply hsum_values. intros o Ho. unfold clean.
    destruct (win x s b (set_hash o (y0 x b) c)) eqn:E1; [|cbn; lia].
    destruct (lucky _ [] _) eqn:E2; [cbn; lia|]. destruct (guessed x b _) eqn:E3; [cbn; lia|]. cbn [negb andb b2n].
    unfold guessed in E3.
    assert (Hn : ~ In (y0 x b) (asked (set_hash o (y0 x b) c) (A1 c))).
    { intros Hi. apply mem_ok in Hi. rewrite set_same in E3. congruence. }
    assert (Hn' : ~ In (y0 x b) (asked o (A1 c))).
    { intros Hi. apply Hn. clear - Hi. induction (A1 c) as [a|z k IH]; cbn [asked] in *; [exact Hi|].
      destruct Hi as [->|Hi]; [left; reflexivity|]. destruct (query_dec z (y0 x b)) as [->|Hne]; [left; reflexivity|].
      right. rewrite (set_other R o (y0 x b) c z) by congruence. apply IH. exact Hi. }
    rewrite <- (Hset c o x b Hn').
    assert (Hc' : answer (set_hash o (y0 x b) c) (y0 x b) = c) by apply set_same.
    pose proof (Hgood x s b (set_hash o (y0 x b) c) Hx Hs Hb) as Hg. rewrite Hc' in Hg. rewrite Hg; [cbn; lia| |exact E1|exact E2|exact Hn].
    intros z Hz. destruct (query_dec (y0 x b) z) as [<-|Hne]; [rewrite set_same; exact Hc|]. rewrite set_other by exact Hne. apply Ho. exact Hz. }
  rewrite lsum_swap. etransitivity; [apply (lsum_le _ (fun _ => t * total))|rewrite lsum_const; lia].
  intros c _. unfold Forking.hsum. rewrite lsum_swap.
  etransitivity; [apply (lsum_le _ (fun _ => t))|rewrite lsum_const, all_hashes_len; lia]. intros o _. apply Hcount.
Qed.

Theorem game_count :
  N * lsum (fun x => lsum (fun s => lsum (fun b => hsum dom o0 (fun o => b2n (win x s b o))) bs) ss) xs <=
  List.length ss * total * (List.length xs * (List.length bs * w + N * Q1) + List.length bs * N * t).
Proof using All.
  transitivity (N * lsum (fun x => lsum (fun s => lsum (fun b =>
    hsum dom o0 (fun o => b2n (lucky o [] (tree x s b))) + hsum dom o0 (fun o => b2n (guessed x b o)) + hsum dom o0 (fun o => b2n (clean x s b o))) bs) ss) xs).
  { apply Nat.mul_le_mono_l, lsum_le. intros x _. apply lsum_le. intros s _. apply lsum_le. intros b _. rewrite <- !hsum_plus.
    apply hsum_le. intros o _. unfold clean. destruct (win x s b o), (lucky o [] (tree x s b)), (guessed x b o); cbn; lia. }
  rewrite <- lsum_scale.
  rewrite (lsum_ext _ (fun x => lsum (fun s => lsum (fun b => N * hsum dom o0 (fun o => b2n (lucky o [] (tree x s b)))) bs) ss +
    List.length ss * lsum (fun b => N * hsum dom o0 (fun o => b2n (guessed x b o))) bs +
    lsum (fun s => lsum (fun b => N * hsum dom o0 (fun o => b2n (clean x s b o))) bs) ss)).
  2:{ intros x _. rewrite <- lsum_scale. rewrite <- (lsum_const (lsum (fun b => N * hsum dom o0 (fun o => b2n (guessed x b o))) bs) ss).
      rewrite <- !lsum_plus. apply lsum_ext. intros s _. rewrite <- lsum_scale. rewrite <- !lsum_plus. apply lsum_ext. intros b _. lia. }
  rewrite !lsum_plus.
  assert (H1 : lsum (fun x => lsum (fun s => lsum (fun b => N * hsum dom o0 (fun o => b2n (lucky o [] (tree x s b)))) bs) ss) xs <=
    List.length xs * (List.length ss * (List.length bs * (w * total)))).
  { rewrite <- (lsum_const (List.length ss * (List.length bs * (w * total))) xs). apply lsum_le. intros x Hx.
    rewrite <- (lsum_const (List.length bs * (w * total)) ss). apply lsum_le. intros s Hs.
    rewrite <- (lsum_const (w * total) bs). apply lsum_le. intros b Hb.
    apply lucky_count; [apply Hw; assumption|exact Hdom|intros y []|]. intros o Ho _ y Hy. left. exact (Htree x s b o Hx Hs Hb Ho y Hy). }
  assert (H2 : lsum (fun x => List.length ss * lsum (fun b => N * hsum dom o0 (fun o => b2n (guessed x b o))) bs) xs <=
    List.length xs * (List.length ss * (N * (Q1 * total)))).
  { rewrite <- (lsum_const (List.length ss * (N * (Q1 * total))) xs). apply lsum_le. intros x Hx. apply Nat.mul_le_mono_l. apply guess_count. exact Hx. }
  assert (H3 : lsum (fun x => lsum (fun s => lsum (fun b => N * hsum dom o0 (fun o => b2n (clean x s b o))) bs) ss) xs <=
    List.length ss * (List.length bs * (N * (t * total)))).
  { rewrite lsum_swap. rewrite <- (lsum_const (List.length bs * (N * (t * total))) ss). apply lsum_le. intros s Hs.
    rewrite lsum_swap. rewrite <- (lsum_const (N * (t * total)) bs). apply lsum_le. intros b Hb. apply clean_count; assumption. }
  etransitivity; [apply Nat.add_le_mono; [apply Nat.add_le_mono; [exact H1|exact H2]|exact H3]|].
  apply Nat.eq_le_incl. ring.
Qed.
End Count.
End Luck.

(** ** what a completed key generation says about the messages *)
Lemma deliver_app {E : Env} params idx (p p' : ParticipantCollectingCommitments E) hist coms :
  pcc_run params idx p hist -> deliver_commitments p coms = Ret p' ->
  pcc_run params idx p' (rev coms ++ hist) /\ pcc_dealer p' = pcc_dealer p /\ pcc_opening p' = pcc_opening p.
Proof.
  revert p hist. induction coms as [|[j c] coms IH]; intros p hist Hr H; cbn [deliver_commitments] in H.
  - injection H as <-. auto.
  - inv_bind H. cbn [rev]. rewrite <- app_assoc. destruct (IH a ((j, c) :: hist)) as (I1 & I2 & I3).
    + eapply pcc_run_insert; [exact Hr|exact Hm].
    + exact H.
    + apply (pcc_insert_Ret E) in Hm as [_ ->]. auto.
Qed.

Lemma coms_nodup {E : Env} (L : GroupLaws E) params idx (p : ParticipantCollectingCommitments E) hist :
  pcc_run params idx p hist -> NoDup (map fst hist) /\ forall i, In i (map fst hist) -> i < pa_shares params.
Proof.
  intros Hr. split; [|apply (pcc_run_inv E) in Hr; apply Hr].
  induction Hr as [r p r' c H Hc|p coms j c p' Hr IH H]; cbn [map fst]; [constructor; [intros []|constructor]|].
  constructor; [|exact IH]. apply (pcc_insert_Ret E) in H as [H _].
  apply (pcc_run_inv E) in Hr. destruct Hr as (_ & _ & _ & _ & _ & Hl & _ & Hh).
  assert (Hj : j < pa_shares params) by (rewrite <- Hl; apply nth_error_Some; congruence).
  rewrite (Hh j Hj) in H. injection H as H. apply latest_none. exact H.
Qed.

Section Facts.
Context {E : Env} (L : GroupLaws E) (Hbig : (2 ^ 64 <= order L)%Z) (params : Params) (idx : nat) (Hparams : params_ok params).

(** where an accepted polynomial comes from *)
Definition comes_from (coms : list (nat * bytes)) (own : PublicInfo E) (infos : list (nat * PublicInfo E)) (j : nat) (P : list (Element E)) : Prop :=
  exists info e0 rest b, (info = own \/ In info (map snd infos)) /\ P = pi_polynomial info /\ P = e0 :: rest /\
    serialize_element e0 = Ret b /\ latest coms j = Some (@sha256 E (b ++ pi_opening info)).

Lemma offer_run infos : forall (q q' : ParticipantCollectingPolynomials E) coms hist own all,
  pcp_run params idx q coms hist -> incl infos all -> (forall j P, In (j, P) hist -> comes_from coms own all j P) ->
  offer_polynomials q infos = Ret q' ->
  exists hist', pcp_run params idx q' coms hist' /\ forall j P, In (j, P) hist' -> comes_from coms own all j P.
Proof using L.
  induction infos as [|[j info] infos IH]; intros q q' coms hist own all Hr Hincl Hall H; cbn [offer_polynomials] in H.
  - injection H as <-. exists hist. auto.
  - inv_bind H. destruct a as [res q1].
    apply (IH q1 q' coms (match res with Ok _ => (j, pi_polynomial info) :: hist | Err _ => hist end) own all).
    + eapply pcp_run_insert; [exact Hr|exact Hm].
    + intros m Hin. apply Hincl. right. exact Hin.
    + intros i P Hin. destruct res as [[]|e]; [|exact (Hall i P Hin)]. destruct Hin as [Hin|Hin]; [|exact (Hall i P Hin)].
      injection Hin as <- <-.
      destruct (proj1 (C39_accepts_iff E L params idx q coms hist j info Hr) (ex_intro _ q1 Hm)) as [(e0 & rest & b & P1 & P2 & P3) _].
      exists info, e0, rest, b. split; [right; apply in_map_iff; exists (j, info); split; [reflexivity|apply Hincl; left; reflexivity]|].
      auto.
    + exact H.
Qed.

Lemma offer_shares_run shares : forall (s s' : ParticipantExchangingSecrets E) hist sup,
  pes_run params idx s hist sup -> offer_shares s shares = Ret s' -> exists sup', pes_run params idx s' hist sup'.
Proof.
  induction shares as [|[j share] shares IH]; intros s s' hist sup Hr H; cbn [offer_shares] in H.
  - injection H as <-. eauto.
  - inv_bind H. destruct a as [res s1].
    apply (IH s1 s' hist (match res with Ok _ => j :: sup | Err _ => sup end)); [|exact H].
    eapply pes_run_insert; [exact Hr|exact Hm].
Qed.

Lemma attack_facts r p r' h coms p1 q infos q1 s shares s1 (a : ActiveParticipant E) e0 rest b :
  PCC_new params idx r = Ret (p, r') -> PCC_commitment p = Ret h ->
  fst (Dealer_public_info (pcc_dealer p)) = e0 :: rest -> serialize_element e0 = Ret b -> h = @sha256 E (b ++ pcc_opening p) ->
  deliver_commitments p coms = Ret p1 -> PCC_finish_commitment_phase p1 = Ret q ->
  offer_polynomials q infos = Ret q1 -> PCP_finish_polynomials_phase q1 = Ret s ->
  offer_shares s shares = Ret s1 -> PES_complete s1 = Ret (Ok a) ->
  let hist := rev coms ++ [(idx, h)] in
  let own := {| pi_polynomial := fst (Dealer_public_info (pcc_dealer p)); pi_pop := snd (Dealer_public_info (pcc_dealer p));
                pi_opening := pcc_opening p |} in
  PCP_public_info q = own /\ List.length coms < pa_shares params /\ latest hist idx = Some h /\
  exists Es : nat -> Element E,
    pk_element (ks_shared_key (ap_key_set a)) = fold_right e_add identity (map Es (seq 0 (pa_shares params))) /\
    forall j, j < pa_shares params -> exists info rest' b', (info = own \/ In info (map snd infos)) /\
      pi_polynomial info = Es j :: rest' /\ serialize_element (Es j) = Ret b' /\
      latest hist j = Some (@sha256 E (b' ++ pi_opening info)).
Proof using L Hbig Hparams.
  intros Hnew Hcom Hown Hser Hh Hdel Hfin Hoff Hfin2 Hsh Hcomp hist own.
  assert (Hr0 : pcc_run params idx p [(idx, h)]) by (eapply pcc_run_new; [exact Hnew|exact Hcom]).
  destruct (deliver_app params idx p p1 _ coms Hr0 Hdel) as (Hr1 & Hd & Ho). fold hist in Hr1.
  destruct (coms_nodup L params idx p1 hist Hr1) as [Hnd Hlt].
  assert (Hlen : List.length coms < pa_shares params).
  { assert (Hle : List.length (map fst hist) <= List.length (seq 0 (pa_shares params))).
    { apply NoDup_incl_length; [exact Hnd|]. intros i Hi. apply in_seq. specialize (Hlt i Hi). lia. }
    unfold hist in Hle. rewrite map_length, app_length, rev_length, seq_length in Hle. cbn in Hle. lia. }
  assert (Hidx : latest hist idx = Some h).
  { assert (Hin : In (idx, h) hist) by (apply in_or_app; right; left; reflexivity).
    revert Hin Hnd. clear. induction hist as [|[j c] l IH]; intros Hin Hnd; [destruct Hin|]. rewrite latest_cons. cbn [map fst] in Hnd.
    inversion Hnd as [|? ? Hn Hnd']; subst. destruct Hin as [Heq|Hin]; [injection Heq as -> ->; rewrite Nat.eqb_refl; reflexivity|].
    destruct (Nat.eqb_spec idx j) as [<-|_]; [|apply IH; assumption]. destruct Hn. apply (in_map fst) in Hin. exact Hin. }
  assert (Hq : PCP_public_info q = own).
  { rewrite (pcc_finish_eq E params idx p1 hist Hr1) in Hfin. destruct (not_supplied _ _); [|discriminate]. injection Hfin as <-.
    unfold PCP_public_info, own. cbn [pcp_dealer pcp_opening]. rewrite Hd, Ho. reflexivity. }
  split; [exact Hq|]. split; [exact Hlen|]. split; [exact Hidx|].
  assert (Hr2 : pcp_run params idx q hist [(idx, pi_polynomial (PCP_public_info q))]) by (eapply pcp_run_start; [exact Hr1|exact Hfin]).
  destruct (offer_run infos q q1 hist _ own infos Hr2 (incl_refl _)) as (ph & Hr3 & Hall).
  { intros j P [Heq|[]]. apply pair_equal_spec in Heq as [<- <-]. rewrite Hq. exists own, e0, rest, b.
    split; [left; reflexivity|]. split; [reflexivity|]. split; [exact Hown|]. split; [exact Hser|].
    rewrite Hidx, Hh. reflexivity. }
  { exact Hoff. }
  assert (Hr4 : pes_run params idx s ph [idx]) by (eapply pes_run_start; [exact Hr3|exact Hfin2]).
  destruct (offer_shares_run shares s s1 ph _ Hr4 Hsh) as [sup Hr5].
  destruct (C37_completed_consistent E L Hbig params idx s1 ph sup a Hparams Hr5 Hcomp) as (_ & _ & _ & Ps & P1 & P2 & P3 & _).
  exists (fun j => hd identity (nth j Ps [])). split.
  { rewrite P3. f_equal. rewrite <- P1. clear. induction Ps as [|P Ps IH]; [reflexivity|]. cbn [map List.length seq].
    rewrite IH. f_equal. rewrite <- seq_shift, map_map. reflexivity. }
  intros j Hj. rewrite <- P1 in Hj. destruct (nth_error Ps j) as [P|] eqn:HP; [|apply nth_error_None in HP; lia].
  rewrite (nth_error_nth Ps j [] HP). rewrite P2 in HP. apply latest_In in HP.
  destruct (Hall j P HP) as (info & e1 & rest1 & b1 & A1 & A2 & A3 & A4 & A5).
  exists info, rest1, b1. split; [exact A1|]. rewrite <- A2, A3. cbn [hd]. auto.
Qed.
End Facts.

(** ** byte strings *)
Lemma all_bytes_in b : In b all_bytes.
Proof.
  unfold all_bytes. apply in_flat_map. exists (Byte.to_nat b). split; [|rewrite Byte.of_to_nat; left; reflexivity].
  apply in_seq. pose proof (Byte.to_nat_bounded b). lia.
Qed.
Lemma all_bytes_nodup : NoDup all_bytes.
Proof.
  apply (NoDup_map_inv Byte.to_nat). assert (H : map Byte.to_nat all_bytes = seq 0 256) by reflexivity. rewrite H. apply seq_NoDup.
Qed.
Lemma byte_strings_in n : forall b, In b (byte_strings n) <-> List.length b = n.
Proof.
  induction n as [|n IH]; intros b; cbn [byte_strings].
  - split; [intros [<-|[]]; reflexivity|]. intros H. left. destruct b; [reflexivity|discriminate].
  - rewrite in_flat_map. split.
    + intros (x & _ & H). apply in_map_iff in H as (t & <- & Ht). apply IH in Ht. cbn. congruence.
    + intros H. destruct b as [|x t]; [discriminate|]. exists x. split; [apply all_bytes_in|]. apply in_map, IH. cbn in H. congruence.
Qed.
Lemma byte_strings_nodup n : NoDup (byte_strings n).
Proof.
  induction n as [|n IH]; cbn [byte_strings]; [constructor; [intros []|constructor]|].
  apply flat_map_nodup; [apply all_bytes_nodup| |].
  - intros x _. apply Rom.NoDup_map_in; [|exact IH]. intros a b _ _ H. congruence.
  - intros x x' b H H'. apply in_map_iff in H as (t & <- & _). apply in_map_iff in H' as (t' & H' & _). congruence.
Qed.
Lemma byte_strings_length n : Z.of_nat (List.length (byte_strings n)) = (256 ^ Z.of_nat n)%Z.
Proof.
  induction n as [|n IH]; [reflexivity|]. cbn [byte_strings]. rewrite (flat_map_len _ (List.length (byte_strings n))).
  - rewrite Nat2Z.inj_mul, IH, Nat2Z.inj_succ, Z.pow_succ_r by lia. f_equal.
  - intros x. apply map_length.
Qed.

Definition bytes_dec : forall a b : bytes, {a = b} + {a <> b} := list_eq_dec Byte.byte_eq_dec.
Lemma sha_input_inj a b : sha_input a = sha_input b -> a = b.
Proof. unfold sha_input. congruence. Qed.

Lemma bind_ext' {A B : Type} (m : outcome A) (f g : A -> outcome B) : (forall a, f a = g a) -> bind m f = bind m g.
Proof. intros H. destruct m; cbn; [apply H|reflexivity]. Qed.

(** ** results depend on the values of SHA-256 only *)
Section Ext.
Context (E : Env) (params : Params) (idx : nat) (o o' : hash bytes) (Ho : forall x, answer o x = answer o' x).

Lemma commitment_ext e op : create_commitment (E:=with_sha256 E o) e op = create_commitment (E:=with_sha256 E o') e op.
Proof.
  unfold create_commitment. change (serialize_element (g:=with_sha256 E o)) with (serialize_element (g:=E)).
  change (serialize_element (g:=with_sha256 E o')) with (serialize_element (g:=E)).
  apply bind_ext'. intros b. cbn. rewrite Ho. reflexivity.
Qed.

Lemma new_ext r : PCC_new (E:=with_sha256 E o) params idx r = PCC_new (E:=with_sha256 E o') params idx r.
Proof.
  unfold PCC_new. apply bind_ext'. intros _.
  change (Dealer_new (E:=with_sha256 E o)) with (Dealer_new (E:=E)).
  change (Dealer_new (E:=with_sha256 E o')) with (Dealer_new (E:=E)). apply bind_ext'. intros [d r1].
  change (fill_bytes (e:=with_sha256 E o)) with (fill_bytes (e:=E)). change (fill_bytes (e:=with_sha256 E o')) with (fill_bytes (e:=E)).
  destruct (@fill_bytes E 32 r1) as [op r2]. apply bind_ext'. intros e0.
  rewrite commitment_ext. reflexivity.
Qed.

Lemma insert_ext q j info :
  PCP_insert_public_polynomial (E:=with_sha256 E o) q j info = PCP_insert_public_polynomial (E:=with_sha256 E o') q j info.
Proof. unfold PCP_insert_public_polynomial. apply bind_ext'. intros e0. rewrite commitment_ext. reflexivity. Qed.

Lemma offer_ext infos : forall q, offer_polynomials (E:=with_sha256 E o) q infos = offer_polynomials (E:=with_sha256 E o') q infos.
Proof.
  induction infos as [|[j info] infos IH]; intros q; [reflexivity|]. cbn [offer_polynomials]. rewrite insert_ext.
  apply bind_ext'. intros [res q1]. apply IH.
Qed.

Lemma attacked_ext A r : attacked params idx A o r = attacked (E:=E) params idx A o' r.
Proof.
  unfold attacked. rewrite new_ext. apply bind_ext'. intros [p r1].
  change (PCC_commitment (E:=with_sha256 E o) p) with (PCC_commitment (E:=with_sha256 E o') p). apply bind_ext'. intros c.
  rewrite (run_ext' bytes (A c) o o' Ho). destruct (run o' (A c)) as [coms A2].
  change (deliver_commitments (E:=with_sha256 E o) p coms) with (deliver_commitments (E:=with_sha256 E o') p coms). apply bind_ext'. intros p1.
  change (PCC_finish_commitment_phase (E:=with_sha256 E o) p1) with (PCC_finish_commitment_phase (E:=with_sha256 E o') p1). apply bind_ext'. intros q.
  change (PCP_public_info (E:=with_sha256 E o) q) with (PCP_public_info (E:=with_sha256 E o') q).
  rewrite (run_ext' bytes (A2 _) o o' Ho). destruct (run o' (A2 _)) as [infos A3]. rewrite offer_ext. apply bind_ext'. intros q1.
  change (PCP_finish_polynomials_phase (E:=with_sha256 E o) q1) with (PCP_finish_polynomials_phase (E:=with_sha256 E o') q1). apply bind_ext'. intros s.
  change (PES_secret_share_for_participant (E:=with_sha256 E o) s) with (PES_secret_share_for_participant (E:=with_sha256 E o') s).
  apply bind_ext'. intros shares. rewrite (run_ext' bytes (A3 shares) o o' Ho).
  generalize (run o' (A3 shares)). intros msgs.
  change (offer_shares (E:=with_sha256 E o) s msgs) with (offer_shares (E:=with_sha256 E o') s msgs). apply bind_ext'. intros s1. reflexivity.
Qed.
End Ext.

(** ** unlucky runs determine the openings *)
Section Unlucky.
Context (o : hash bytes) (y0 : query) (l : list query).
Context (Hfirst : forall l1 y l2, l = l1 ++ y :: l2 -> ~ In y (l1 ++ [y0]) -> ~ In (answer o y) (rev (map (answer o) l1) ++ [answer o y0])).
Context (Hy0 : ~ In y0 l).

Lemma first_time (y : query) : forall l', In y l' -> exists l1 l2, l' = l1 ++ y :: l2 /\ ~ In y l1.
Proof.
  induction l' as [|z l' IH]; intros H; [destruct H|]. destruct (query_dec z y) as [->|Hne]; [exists [], l'; split; [reflexivity|intros []]|].
  destruct H as [->|H]; [congruence|]. destruct (IH H) as (l1 & l2 & -> & Hn). exists (z :: l1), l2. split; [reflexivity|].
  intros [->|Hin]; [congruence|contradiction].
Qed.

Lemma not_first y : In y l -> answer o y <> answer o y0.
Proof using Hfirst Hy0.
  intros Hy He. destruct (first_time y l Hy) as (l1 & l2 & Hl & Hn). apply (Hfirst l1 y l2 Hl).
  - intros Hin. apply in_app_iff in Hin as [Hin|[->|[]]]; contradiction.
  - apply in_or_app. right. left. symmetry. exact He.
Qed.

Lemma same_answer y y' : In y l -> In y' l -> answer o y = answer o y' -> y = y'.
Proof using Hfirst Hy0.
  assert (Hone : forall y y' l1 l2, l = l1 ++ y :: l2 -> ~ In y l1 -> In y' l1 -> answer o y <> answer o y').
  { intros u v l1 l2 Hl Hn Hv He. apply (Hfirst l1 u l2 Hl).
    - intros Hin. apply in_app_iff in Hin as [Hin|[->|[]]]; [contradiction|]. apply Hy0. rewrite Hl. apply in_or_app. right. left. reflexivity.
    - apply in_or_app. left. apply -> in_rev. rewrite He. apply in_map. exact Hv. }
  intros Hy Hy' He. destruct (query_dec y y') as [Heq|Hne]; [exact Heq|exfalso].
  destruct (first_time y l Hy) as (l1 & l2 & Hl & Hn). destruct (in_dec query_dec y' l1) as [Hin|Hin].
  - exact (Hone y y' l1 l2 Hl Hn Hin He).
  - assert (Hin2 : In y' l2). { rewrite Hl in Hy'. apply in_app_iff in Hy' as [H|[H|H]]; [contradiction|contradiction|exact H]. }
    destruct (first_time y' l2 Hin2) as (l3 & l4 & Hl2 & Hn2).
    apply (Hone y' y (l1 ++ y :: l3) l4); [rewrite Hl, Hl2, <- app_assoc; reflexivity| |apply in_or_app; right; left; reflexivity|congruence].
    intros H. apply in_app_iff in H as [H|[H|H]]; contradiction.
Qed.
End Unlucky.

(** ** the theorem *)
Section Game.
Context (E : Env) (L : GroupLaws E) (Hbig : (2 ^ 64 <= order L)%Z) (Ht : ser_total E).
Context (params : Params) (idx : nat) (Hparams : params_ok params) (Hidx : idx < pa_shares params).
Context (seed : list (Scalar E) -> bytes -> Rng E) (Hseed : seeds_bytes seed).
Context (A : @dkg_attacker E) (Q1 Q2 M : nat) (HA : attack_limits A Q1 Q2 M).
Context (dom : list query) (Hdom : NoDup dom) (o0 : hash bytes) (Hcov : contains_inputs params idx seed A dom).
Context (target : Element E -> bool).
Local Notation scalar := (Scalar E).
Local Notation element := (Element E).
Local Notation t := (pa_threshold params).
Local Notation n := (pa_shares params).
Local Notation ser := (Uniform.ser E).
Add Field s_field_unbiased : (s_field L).

Lemma bind_Ret' {U V : Type} (m : outcome U) (f : U -> outcome V) a : m = Ret a -> bind m f = f a.
Proof. intros ->. reflexivity. Qed.

Definition own_input (x : scalar) (b : bytes) : query := sha_input (ser (generator * x)%E ++ b).

Lemma dealt_at x s b : List.length s = 2 * t - 1 -> List.length b = 32 ->
  exists d r1 r2 rest, Dealer_new params (seed (x :: s) b) = Ret (d, r1) /\ fill_bytes 32 r1 = (b, r2) /\
    fst (Dealer_public_info d) = (generator * x)%E :: rest.
Proof using L Ht Hparams Hidx Hseed.
  intros Hs Hb. destruct Hparams as [[Hp1 Hp2] _].
  destruct (dealer_uniform E L Ht params) as [Hd _]. destruct (Hd (seed (x :: s) b)) as (d & Hnew & _).
  pose proof (Hseed (x :: s) b Hb) as Hs'. cbn [List.length] in Hs'. replace (S (List.length s)) with (t + t) in Hs' by lia.
  destruct (draws (t + t) (seed (x :: s) b)) as [ys r1] eqn:Hdr. destruct Hs' as [-> Hf]. cbn [snd] in Hnew.
  destruct (fill_bytes 32 r1) as [b' r2] eqn:Hfb. cbn [fst] in Hf. subst b'.
  assert (Hhead : exists rest, fst (Dealer_public_info d) = (generator * x)%E :: rest).
  { unfold Dealer_new in Hnew. rewrite (pairs_generate E L Ht) in Hnew. cbn [bind] in Hnew. inv_bind Hnew. destruct a as [[pop tr] r3].
    injection Hnew as <- _. unfold Dealer_public_info. cbn [fst de_polynomial].
    destruct t as [|t'] eqn:Et; [lia|]. cbn [Nat.add draws] in Hdr. cbn [draws].
    destruct (generate_scalar (seed (x :: s) b)) as [y r4]. destruct (draws (t' + S t') r4). destruct (draws t' r4) as [zs r5].
    injection Hdr as -> _ _. cbn [fst map]. eexists. reflexivity. }
  destruct Hhead as [rest Hrest]. exists d, r1, r2, rest. auto.
Qed.

Definition info_of (d : Dealer E) (b : bytes) : PublicInfo E :=
  {| pi_polynomial := fst (Dealer_public_info d); pi_pop := snd (Dealer_public_info d); pi_opening := b |}.

Definition suspects (c : bytes) (coms : list (nat * bytes)) : list bytes :=
  if List.length coms <? n then c :: map snd coms else [].

Definition tree (x : scalar) (s : list scalar) (b : bytes) : @wtree bytes :=
  match Dealer_new params (seed (x :: s) b) with
  | Panic _ => WEnd
  | Ret (d, _) =>
      WAsk (own_input x b) [] (fun c =>
      watch (fun l => l) [c] (A c) (fun seen p1 =>
      watch (fun _ => suspects c (fst p1)) seen (snd p1 (info_of d b)) (fun seen p2 =>
      watch (fun _ => suspects c (fst p1)) seen (asks (flat_map (fun m => opened (snd m)) (fst p2))) (fun _ _ => WEnd))))
  end.

Lemma suspects_length c coms : List.length (suspects c coms) <= n.
Proof. unfold suspects. destruct (Nat.ltb_spec (List.length coms) n); cbn [List.length]; [rewrite map_length|]; lia. Qed.

Lemma asks_most l : at_most (List.length l) (asks (R:=bytes) l).
Proof. induction l as [|x l IH]; cbn; constructor. intros _. exact IH. Qed.

Lemma opened_length (infos : list (nat * PublicInfo E)) : List.length (flat_map (fun m => opened (snd m)) infos) <= List.length infos.
Proof.
  induction infos as [|[j info] l IH]; [cbn; lia|]. cbn [flat_map List.length]. rewrite app_length. cbn [snd].
  assert (H : List.length (opened info) <= 1); [|lia]. unfold opened. destruct (pi_polynomial info); [cbn; lia|].
  destruct (serialize_element _); cbn; lia.
Qed.

Lemma tree_weight x s b : weighs (Q1 * Q1 + (Q2 + M) * n) (tree x s b).
Proof using All.
  unfold tree. destruct (Dealer_new params (seed (x :: s) b)) as [[d r]|e]; [|constructor].
  apply (weighs_mono (0 + (Q1 * (1 + Q1 - 1) + (Q2 * n + (M * n + 0))))); [|nia].
  constructor; [cbn; lia|]. intros c. destruct (HA c) as [HA1 HA2].
  refine (watch_seen Q1 (A c) _ _ HA1 _ [c]). intros seen [coms A2] Hy. cbn [fst snd]. destruct (HA2 coms A2 Hy (info_of d b)) as [HA3 HA4].
  apply watch_const; [exact HA3|apply suspects_length|]. intros seen' [infos A3] Hy'. cbn [fst].
  specialize (HA4 infos A3 Hy'). pose proof (opened_length infos) as Ho.
  apply watch_const; [|apply suspects_length|intros; constructor].
  apply (Rom.at_most_mono _ (List.length (flat_map (fun m => opened (snd m)) infos))); [apply asks_most|lia].
Qed.

(** the first phase *)
Definition started (o : hash bytes) (d : Dealer E) (x : scalar) (b : bytes) : ParticipantCollectingCommitments E :=
  {| pcc_params := params; pcc_index := idx; pcc_dealer := d;
     pcc_commitments := list_set (repeat None n) idx (Some (answer o (own_input x b))); pcc_opening := b |}.

Lemma new_at o x s b d r1 r2 rest : Dealer_new params (seed (x :: s) b) = Ret (d, r1) -> fill_bytes 32 r1 = (b, r2) ->
  fst (Dealer_public_info d) = (generator * x)%E :: rest ->
  PCC_new (E:=with_sha256 E o) params idx (seed (x :: s) b) = Ret (started o d x b, r2) /\
  PCC_commitment (E:=with_sha256 E o) (started o d x b) = Ret (answer o (own_input x b)).
Proof using L Ht Hidx.
  intros Hd Hf Hp. split.
  - unfold PCC_new, assert. replace (idx <? n) with true by (symmetry; apply Nat.ltb_lt; exact Hidx). cbn [bind].
    refine (eq_trans (bind_Ret' _ _ _ Hd) _). cbv beta iota.
    assert (Hf' : fill_bytes (e:=with_sha256 E o) 32 r1 = (b, r2)) by exact Hf. rewrite Hf'. cbv zeta.
    assert (H0 : index (fst (Dealer_public_info d)) 0 = Ret (generator * x)%E) by (rewrite Hp; reflexivity).
    refine (eq_trans (bind_Ret' _ _ _ H0) _). cbv beta. unfold create_commitment.
    assert (H1 : (b0 <- serialize_element (g:=E) (generator * x)%E ;; Ret (answer o (sha_input (b0 ++ b)))) = Ret (answer o (own_input x b)))
      by (rewrite (ser_ok E L Ht); reflexivity).
    refine (eq_trans (bind_Ret' _ _ _ H1) _). cbv beta.
    rewrite index_set_ok by (rewrite repeat_length; exact Hidx). reflexivity.
  - unfold PCC_commitment, index, started. cbn [pcc_commitments pcc_index].
    rewrite nth_error_list_set by (rewrite repeat_length; exact Hidx). rewrite Nat.eqb_refl. reflexivity.
Qed.

Lemma tree_inputs x s b o : List.length s = 2 * t - 1 -> List.length b = 32 -> (forall z, In z dom -> In (answer o z) digests32) ->
  incl (wasked o (tree x s b)) dom /\ In (own_input x b) dom.
Proof using All.
  intros Hs Hb Ho. destruct (dealt_at x s b Hs Hb) as (d & r1 & r2 & rest & Hd & Hf & Hp).
  assert (H1 : 1 <= t) by apply Hparams.
  destruct (Hcov o (x :: s) b Ho ltac:(cbn [List.length]; lia) Hb) as (l & Hl & Hin).
  destruct (new_at o x s b d r1 r2 rest Hd Hf Hp) as [Hn Hc].
  unfold attack_inputs in Hl. rewrite Hn in Hl. cbn [bind] in Hl. rewrite Hc in Hl. cbn [bind] in Hl.
  cbn [started pcc_dealer pcc_opening] in Hl. destruct (Dealer_public_info d) as [poly pop] eqn:Hpub. cbn [fst] in Hp. subst poly.
  injection Hl as <-. unfold opened at 1 in Hin. cbn [pi_polynomial pi_opening] in Hin. rewrite (ser_ok E L Ht) in Hin.
  unfold tree. rewrite Hd. unfold info_of. rewrite Hpub. cbn [fst snd]. split; [|apply Hin; left; reflexivity].
  cbn [wasked]. rewrite !watch_asked, asks_asked. cbn [wasked]. rewrite app_nil_r. exact Hin.
Qed.

(** *** the key as a function of the secret *)
Definition decode (y : query) : element :=
  match fst y with
  | [TMsg _ b] => match deserialize_element (firstn (ELEMENT_SIZE E) b) with Some e => e | None => identity end
  | _ => identity
  end.
Lemma decode_ok e b op : serialize_element e = Ret b -> decode (sha_input (b ++ op)) = e.
Proof using All.
  intros H. destruct (ser_element_ok E L e b H) as [Hl Hd]. unfold decode, sha_input. cbn [fst].
  rewrite firstn_app, <- Hl, Nat.sub_diag, firstn_all. cbn [firstn]. rewrite app_nil_r, Hd. reflexivity.
Qed.

Definition key_part (c : bytes) (o : hash bytes) (x : scalar) (j : nat) : element :=
  match latest (rev (fst (run o (A c))) ++ [(idx, c)]) j with
  | Some c' =>
      if bytes_dec c' c then (generator * x)%E
      else match find (fun y => if bytes_dec (answer o y) c' then true else false) (asked o (A c)) with
           | Some y => decode y
           | None => identity
           end
  | None => identity
  end.

Definition own_final (c : bytes) (o : hash bytes) : bool :=
  match latest (rev (fst (run o (A c))) ++ [(idx, c)]) idx with
  | Some c' => if bytes_dec c' c then true else false
  | None => false
  end.

Definition good (c : bytes) (o : hash bytes) (x : scalar) : bool :=
  own_final c o && target (fold_right e_add identity (map (key_part c o x) (seq 0 n))).

Lemma good_set c o x b : ~ In (own_input x b) (asked o (A c)) -> good c (set_hash o (own_input x b) c) x = good c o x.
Proof.
  intros Hn. destruct (asked_set o (own_input x b) c (A c) Hn) as [Hr Ha]. unfold good, own_final. rewrite Hr. f_equal. f_equal. f_equal.
  apply map_ext. intros j. unfold key_part. rewrite Hr, Ha. destruct (latest _ j) as [c'|]; [|reflexivity].
  destruct (bytes_dec c' c); [reflexivity|].
  assert (Hf : forall l, (forall z, In z l -> own_input x b <> z) ->
    find (fun y => if bytes_dec (answer (set_hash o (own_input x b) c) y) c' then true else false) l =
    find (fun y => if bytes_dec (answer o y) c' then true else false) l).
  { induction l as [|z l IH]; intros Hz; [reflexivity|]. cbn [find]. rewrite set_other by (apply Hz; left; reflexivity).
    rewrite IH by (intros u Hu; apply Hz; right; exact Hu). reflexivity. }
  rewrite Hf; [reflexivity|]. intros z Hz <-. contradiction.
Qed.

Lemma key_linear c o l : exists m k, m <= List.length l /\
  (forall x, fold_right e_add identity (map (key_part c o x) l) = (generator * (phi L (Z.of_nat m) * x + k))%E) /\
  (In idx l -> own_final c o = true -> 1 <= m).
Proof.
  induction l as [|j l (m & k & Hm & Hx & H1)].
  - exists 0, 0%S. split; [cbn; lia|]. split; [|intros []]. intros x. cbn [map fold_right Z.of_nat].
    rewrite (phi_0 L). replace (0 * x + 0)%S with (0%S : scalar) by ring. symmetry. apply (e_mul_0 L).
  - assert (Hcase : (forall x, key_part c o x j = (generator * x)%E) \/
      ((exists e, forall x, key_part c o x j = e) /\ ~ (j = idx /\ own_final c o = true))).
    { unfold key_part, own_final. destruct (latest _ j) as [c'|] eqn:Hj.
      - destruct (bytes_dec c' c) as [Hc|Hc]; [left; reflexivity|right]. split; [eexists; reflexivity|].
        intros [-> H]. rewrite Hj in H. destruct (bytes_dec c' c); [contradiction|discriminate].
      - right. split; [eexists; reflexivity|]. intros [-> H]. rewrite Hj in H. discriminate. }
    cbn [List.length]. destruct Hcase as [Hk|[[e Hk] Hno]].
    + exists (S m), k. split; [lia|]. split; [|lia]. intros x. cbn [map fold_right]. rewrite Hx, Hk, <- (e_mul_add E L). f_equal.
      replace (Z.of_nat (S m)) with (1 + Z.of_nat m)%Z by lia. rewrite (phi_add E L), (phi_1 L). ring.
    + exists m, (dlog L e + k)%S. split; [lia|]. split.
      * intros x. cbn [map fold_right]. rewrite Hx, Hk. rewrite <- (dlog_ok E L e) at 1. rewrite <- (e_mul_add E L). f_equal. ring.
      * intros [->|Hin] Ho; [destruct Hno; auto|]. apply H1; assumption.
Qed.

Local Notation q := (Z.to_nat (order L)).
Definition aims : nat := lsum (fun x => b2n (target (generator * x)%E)) (all_scalars L).

Lemma good_count c o : lsum (fun x => b2n (good c o x)) (all_scalars L) <= aims.
Proof using All.
  unfold good. destruct (own_final c o) eqn:Hf.
  2:{ cbn [andb b2n]. rewrite lsum_const. lia. }
  cbn [andb]. destruct (key_linear c o (seq 0 n)) as (m & k & Hm & Hx & H1). rewrite seq_length in Hm.
  specialize (H1 ltac:(apply in_seq; lia) Hf).
  rewrite (lsum_ext _ (fun x => (fun y => b2n (target (generator * y)%E)) (phi L (Z.of_nat m) * x + k)%S)).
  2:{ intros x _. rewrite Hx. reflexivity. }
  rewrite (lsum_bij E L (fun x => phi L (Z.of_nat m) * x + k)%S (fun y => b2n (target (generator * y)%E))); [unfold aims; lia|].
  intros x y Hxy.
  assert (Hnz : phi L (Z.of_nat m) <> 0%S).
  { rewrite <- (phi_0 L). intros Hc. apply (phi_eq E L) in Hc. rewrite Z.mod_0_l in Hc by (pose proof (order_prime L) as [? _]; lia).
    rewrite Z.mod_small in Hc; [lia|]. destruct Hparams as [_ Hn]. split; [lia|].
    apply Z.lt_le_trans with (2 ^ 64)%Z; [|exact Hbig]. lia. }
  transitivity (s_inv L (phi L (Z.of_nat m)) * ((phi L (Z.of_nat m) * x + k) - k))%S; [field; exact Hnz|]. rewrite Hxy. field. exact Hnz.
Qed.

Lemma opened_in (info : PublicInfo E) (e : element) rest b : pi_polynomial info = e :: rest -> serialize_element e = Ret b ->
  In (sha_input (b ++ pi_opening info)) (opened info).
Proof. intros H H'. unfold opened. rewrite H, H'. left. reflexivity. Qed.

Lemma win_good x s b o : List.length s = 2 * t - 1 -> List.length b = 32 ->
  attains params idx target A o (seed (x :: s) b) = true -> lucky bytes_dec o [] (tree x s b) = false ->
  ~ In (own_input x b) (asked o (A (answer o (own_input x b)))) -> good (answer o (own_input x b)) o x = true.
Proof using All.
  intros Hs Hb Hwin Hluck Hguess. destruct (dealt_at x s b Hs Hb) as (d & r1 & r2 & rest & Hd & Hf & Hp).
  destruct (new_at o x s b d r1 r2 rest Hd Hf Hp) as [Hn Hc].
  set (y0 := own_input x b) in *. set (h := answer o y0) in *.
  unfold attains in Hwin. destruct (attacked params idx A o (seed (x :: s) b)) as [[a|?]|?] eqn:Hat; [|discriminate|discriminate].
  unfold attacked in Hat. cbv zeta in Hat. rewrite Hn in Hat. cbn [bind] in Hat. rewrite Hc in Hat. cbn [bind] in Hat.
  destruct (run o (A h)) as [coms A2] eqn:HA1.
  destruct (deliver_commitments (E:=with_sha256 E o) (started o d x b) coms) as [p1|] eqn:Hdel; [|discriminate]. cbn [bind] in Hat.
  destruct (PCC_finish_commitment_phase (E:=with_sha256 E o) p1) as [q0|] eqn:Hfin; [|discriminate]. cbn [bind] in Hat.
  destruct (run o (A2 (PCP_public_info (E:=with_sha256 E o) q0))) as [infos A3] eqn:HA2.
  destruct (offer_polynomials (E:=with_sha256 E o) q0 infos) as [q1|] eqn:Hoff; [|discriminate]. cbn [bind] in Hat.
  destruct (PCP_finish_polynomials_phase (E:=with_sha256 E o) q1) as [s0|] eqn:Hfin2; [|discriminate]. cbn [bind] in Hat.
  destruct (mapM (PES_secret_share_for_participant (E:=with_sha256 E o) s0) _) as [shares|] eqn:Hshares; [|discriminate]. cbn [bind] in Hat.
  destruct (offer_shares (E:=with_sha256 E o) s0 (run o (A3 shares))) as [s1|] eqn:Hsh; [|discriminate]. cbn [bind] in Hat.
  pose proof (attack_facts (E:=with_sha256 E o) L Hbig params idx Hparams (seed (x :: s) b) (started o d x b) r2 h coms p1 q0 infos q1 s0
    (run o (A3 shares)) s1 a (generator * x)%E rest (ser (generator * x)%E) Hn Hc Hp (ser_ok E L Ht _) eq_refl Hdel Hfin Hoff Hfin2 Hsh Hat) as Hfacts.
  cbv zeta in Hfacts. destruct Hfacts as (Hinfo & Hlen & Hown & Es & Hkey & Hes).
  (* what was not hit *)
  unfold tree in Hluck. rewrite Hd in Hluck. cbn [lucky] in Hluck. apply orb_false_iff in Hluck as [_ Hluck]. fold y0 h in Hluck.
  apply watch_lucky in Hluck as [Hfirst Hluck]. rewrite HA1 in Hluck. cbn [fst snd] in Hluck.
  assert (Hinfo' : PCP_public_info (E:=with_sha256 E o) q0 = info_of d b) by exact Hinfo. rewrite Hinfo' in HA2.
  apply watch_lucky in Hluck as [Hsecond Hluck]. rewrite HA2 in Hluck. cbn [fst] in Hluck.
  apply watch_lucky in Hluck as [Hthird _]. rewrite asks_asked in Hthird.
  set (pts := flat_map (fun m : nat * PublicInfo E => opened (snd m)) infos) in *. set (l := asked o (A h)) in *.
  set (l2 := asked o (A2 (info_of d b))) in *.
  assert (Hlate : forall y, In y pts -> ~ In y (y0 :: l) -> ~ In (answer o y) (suspects h coms)).
  { intros y Hy Hno. destruct (in_dec query_dec y l2) as [Hin|Hin].
    - destruct (first_time y l2 Hin) as (a1 & a2 & Ha & Hna). apply (Hsecond a1 y a2 Ha).
      intros H. apply in_app_iff in H as [H|H]; [contradiction|]. apply in_app_iff in H as [H|H].
      + apply in_rev in H. apply Hno. right. exact H.
      + destruct H as [->|[]]. apply Hno. left. reflexivity.
    - destruct (first_time y pts Hy) as (a1 & a2 & Ha & Hna). apply (Hthird a1 y a2 Ha).
      intros H. apply in_app_iff in H as [H|H]; [contradiction|]. apply in_app_iff in H as [H|H].
      + apply in_rev in H. contradiction.
      + apply in_app_iff in H as [H|H]; [apply in_rev in H; apply Hno; right; exact H|]. destruct H as [->|[]]. apply Hno. left. reflexivity. }
  (* each constant term *)
  assert (Hparts : forall j, j < n -> Es j = key_part h o x j).
  { intros j Hj. destruct (Hes j Hj) as (info & rest' & b' & Hsrc & Hpoly & Hser & Hlat).
    set (y := sha_input (b' ++ pi_opening info)) in *.
    assert (Hans : @sha256 (with_sha256 E o) (b' ++ pi_opening info) = answer o y) by reflexivity. rewrite Hans in Hlat. clear Hans.
    assert (Hser' : serialize_element (g:=E) (Es j) = Ret b') by exact Hser.
    assert (Hsusp : In (answer o y) (suspects h coms)).
    { unfold suspects. apply Nat.ltb_lt in Hlen. rewrite Hlen. apply latest_In in Hlat. apply in_app_iff in Hlat as [H|[H|[]]].
      - apply in_rev in H. right. apply in_map_iff. exists (j, answer o y). auto.
      - left. congruence. }
    assert (Hy : In y (y0 :: l)).
    { destruct Hsrc as [->|Hin].
      - left. cbn [pi_polynomial pi_opening started pcc_dealer pcc_opening] in *.
        assert (He : Es j = (generator * x)%E).
        { assert (H2 : (generator * x)%E :: rest = Es j :: rest') by exact (eq_trans (eq_sym Hp) Hpoly). congruence. }
        rewrite He, (ser_ok E L Ht) in Hser'. injection Hser' as <-. reflexivity.
      - destruct (in_dec query_dec y (y0 :: l)) as [Hy|Hno]; [exact Hy|]. exfalso. apply (Hlate y); [|exact Hno|exact Hsusp].
        apply in_map_iff in Hin as (m & <- & Hm). unfold pts. apply in_flat_map. exists m. split; [exact Hm|].
        exact (opened_in (snd m) (Es j) rest' b' Hpoly Hser'). }
    unfold key_part. fold l. rewrite HA1. cbn [fst].
    assert (Hlat' : latest (rev coms ++ [(idx, h)]) j = Some (answer o y)) by exact Hlat. rewrite Hlat'.
    destruct (bytes_dec (answer o y) h) as [Heq|Hne].
    - destruct Hy as [Hy|Hy]; [|destruct (not_first o y0 l Hfirst Hguess y Hy Heq)].
      apply sha_input_inj in Hy.
      destruct (ser_element_ok E L _ _ (ser_ok E L Ht (generator * x)%E)) as [Hl1 Hd1].
      destruct (ser_element_ok E L _ _ Hser') as [Hl2 Hd2].
      destruct (app_inj_len _ _ _ _ (eq_trans Hl1 (eq_sym Hl2)) Hy) as [Heq' _]. congruence.
    - destruct Hy as [<-|Hy]; [contradiction|].
      destruct (find (fun z => if bytes_dec (answer o z) (answer o y) then true else false) l) as [z|] eqn:Hfind.
      + apply find_some in Hfind as [Hz Hza]. destruct (bytes_dec (answer o z) (answer o y)) as [Hza'|]; [|discriminate].
        rewrite (same_answer o y0 l Hfirst Hguess z y Hz Hy Hza'). symmetry. apply decode_ok. exact Hser'.
      + apply (find_none _ _ Hfind) in Hy. destruct (bytes_dec (answer o y) (answer o y)); [discriminate|congruence]. }
  unfold good, own_final. rewrite HA1. cbn [fst].
  assert (Hown' : latest (rev coms ++ [(idx, h)]) idx = Some h) by exact Hown. rewrite Hown'.
  destruct (bytes_dec h h); [|congruence]. cbn [andb].
  assert (Hkey' : pk_element (ks_shared_key (ap_key_set a)) = fold_right e_add identity (map (key_part h o x) (seq 0 n))).
  { transitivity (fold_right e_add identity (map Es (seq 0 n))); [exact Hkey|]. f_equal. apply map_ext_in. intros j Hj. apply in_seq in Hj.
    apply Hparts. lia. }
  rewrite <- Hkey'. exact Hwin.
Qed.

Lemma own_input_inj x b b' : own_input x b = own_input x b' -> b = b'.
Proof. unfold own_input. intros H. apply sha_input_inj in H. exact (app_inv_head _ _ _ H). Qed.

Lemma attains_reads r : reads bytes anything (fun o => attains params idx target A o r).
Proof using All.
  intros o o' H. unfold attains. rewrite (attacked_ext E params idx o o' (fun y => H y I) A r). reflexivity.
Qed.

Theorem unbiased :
  (order L * 256 ^ 32 * successes L params idx seed (all_hashes digests32 dom o0) target A <=
   (targets L target * 256 ^ 32 + order L * (Z.of_nat Q1 * (Z.of_nat Q1 + 1) + (Z.of_nat Q2 + Z.of_nat M) * Z.of_nat n)) *
   Z.of_nat (List.length (dkg_cases L params (all_hashes digests32 dom o0))))%Z.
Proof using All.
  assert (Hp1 : 1 <= t) by apply Hparams.
  assert (HN : Z.of_nat (List.length digests32) = (256 ^ 32)%Z) by exact (byte_strings_length 32).
  assert (Hin : forall b, In b digests32 <-> List.length b = 32) by exact (byte_strings_in 32).
  assert (Hnd : NoDup digests32) by exact (byte_strings_nodup 32).
  assert (Hs : forall s, In s (tapes L (2 * t - 1)) -> List.length s = 2 * t - 1) by (intros s H; exact (proj1 (tapes_in E L _ _) H)).
  set (o1 := (fun _ _ => repeat Byte.x00 32) : hash bytes).
  assert (Ho1 : forall z : query, In z dom -> In (answer o1 z) digests32).
  { intros z _. apply Hin. apply repeat_length. }
  pose proof (game_count bytes_dec digests32 Hnd (all_scalars L) (tapes L (2 * t - 1)) digests32 own_input A tree
    (fun x s b o => attains params idx target A o (seed (x :: s) b)) good dom o0 (Q1 * Q1 + (Q2 + M) * n) Q1 aims
    Hnd (fun x b b' _ _ => own_input_inj x b b') Hdom) as H.
  assert (Htape : exists s, In s (tapes L (2 * t - 1))).
  { exists (repeat (0%S : scalar) (2 * t - 1)). apply (tapes_in E L). apply repeat_length. }
  destruct Htape as [s1 Hs1].
  specialize (H (fun x b _ Hb => proj2 (tree_inputs x s1 b o1 (Hs s1 Hs1) (proj1 (Hin b) Hb) Ho1)) (fun x s b => attains_reads (seed (x :: s) b))).
  specialize (H (fun x s b o _ Hx Hb _ => win_good x s b o (Hs s Hx) (proj1 (Hin b) Hb)) good_set good_count (fun c => proj1 (HA c))
    (fun x s b _ _ _ => tree_weight x s b) (fun x s b o _ Hx Hb Ho => proj1 (tree_inputs x s b o (Hs s Hx) (proj1 (Hin b) Hb) Ho))).
  unfold successes, targets. rewrite !tally_lsum. fold aims.
  assert (Hcases : Z.of_nat (List.length (dkg_cases L params (all_hashes digests32 dom o0))) =
    (order L * Z.of_nat (List.length (tapes L (2 * t - 1))) * 256 ^ 32 * Z.of_nat (List.length digests32 ^ List.length dom))%Z).
  { unfold dkg_cases. rewrite !prod_length, all_hashes_len, !Nat2Z.inj_mul, HN. rewrite !(tapes_len E L).
    replace (2 * t) with (S (2 * t - 1)) at 1 by lia. rewrite Nat.pow_succ_r', Nat2Z.inj_mul, Z2Nat.id by (pose proof Hbig; lia). ring. }
  assert (Hwins : lsum (fun p => b2n (attains params idx target A (snd p) (seed (fst (fst p)) (snd (fst p))))) (dkg_cases L params (all_hashes digests32 dom o0)) =
    lsum (fun x => lsum (fun s => lsum (fun b => Forking.hsum bytes digests32 dom o0 (fun o => b2n (attains params idx target A o (seed (x :: s) b)))) digests32)
      (tapes L (2 * t - 1))) (all_scalars L)).
  { unfold dkg_cases. rewrite !lsum_prod. assert (H2t : tapes L (2 * t) = tapes L (S (2 * t - 1))) by (f_equal; lia). rewrite H2t. cbn [tapes]. rewrite lsum_flat_map.
    apply lsum_ext. intros x _. rewrite lsum_map. reflexivity. }
  rewrite Hwins, Hcases. clear Hwins Hcases.
  match type of H with _ * ?w <= _ => set (wins := w) in * end.
  match goal with |- context [Z.of_nat ?w] => match w with wins => idtac | _ => fold wins end end.
  assert (Hxs : Z.of_nat (List.length (all_scalars L)) = order L).
  { unfold all_scalars. rewrite map_length, seq_length. apply Z2Nat.id. pose proof Hbig. lia. }
  apply Nat2Z.inj_le in H. rewrite !Nat2Z.inj_mul, !Nat2Z.inj_add, !Nat2Z.inj_mul in H.
  rewrite !Nat2Z.inj_add, !Nat2Z.inj_mul, !Nat2Z.inj_add in H. rewrite Hxs, HN in H.
  set (T := Z.of_nat (List.length digests32 ^ List.length dom)) in *.
  set (B := (256 ^ 32)%Z) in *.
  assert (HB : (0 < B)%Z) by (apply Z.pow_pos_nonneg; lia).
  assert (Hq : (0 < order L)%Z) by (pose proof Hbig; lia).
  apply (Z.mul_le_mono_nonneg_l _ _ (order L)) in H; [|lia].
  etransitivity; [etransitivity; [|exact H]|]; apply Z.eq_le_incl; [ring|]. rewrite !Nat2Z.inj_mul, Nat2Z.inj_add. ring.
Qed.
End Game.

(** ** the finite set of hash inputs *)
Section Inputs.
Context {B : Type}.
Fixpoint possible (T : strategy bytes B) : list query :=
  match T with Output _ => [] | Ask x k => x :: flat_map (fun c => possible (k c)) digests32 end.
Fixpoint outputs (T : strategy bytes B) : list B :=
  match T with Output a => [a] | Ask x k => flat_map (fun c => outputs (k c)) digests32 end.

Lemma possible_asked dom o T : (forall z, In z dom -> In (answer o z) digests32) -> incl (possible T) dom ->
  incl (asked o T) dom /\ In (run o T) (outputs T).
Proof.
  intros Ho. induction T as [a|x k IH]; cbn -[digests32]; intros H.
  - split; [intros y []|auto].
  - assert (Hx : In (answer o x) digests32) by (apply Ho, H; left; reflexivity).
    destruct (IH (answer o x)) as [I1 I2].
    { intros y Hy. apply H. right. apply in_flat_map. exists (answer o x). auto. }
    split; [|apply in_flat_map; exists (answer o x); auto]. intros y [<-|Hy]; [apply H; left; reflexivity|exact (I1 y Hy)].
Qed.
End Inputs.

Lemma inputs_exist (E : Env) (L : GroupLaws E) : ser_total E -> forall params idx, params_ok params -> idx < pa_shares params ->
  forall seed, seeds_bytes seed -> forall A : @dkg_attacker E, exists dom, NoDup dom /\ contains_inputs params idx seed A dom.
Proof.
  intros Ht params idx Hp Hi seed Hs A.
  set (second := fun p : list (nat * bytes) * @second_phase E => fun info : PublicInfo E =>
    possible (snd p info) ++ flat_map (fun q => flat_map (fun m => opened (snd m)) (fst q)) (outputs (snd p info))).
  set (first := fun info : PublicInfo E => opened info ++ flat_map (fun c => possible (A c) ++ flat_map (fun p => second p info) (outputs (A c))) digests32).
  set (all := flat_map (fun xs => flat_map (fun b => match Dealer_new params (seed xs b) with Ret (d, _) => first (info_of E d b) | Panic _ => [] end) digests32)
    (tapes L (2 * pa_threshold params))).
  assert (Hincl : forall y, In y all <-> In y (nodup query_dec all)) by (intros y; symmetry; apply nodup_In).
  exists (nodup query_dec all). split; [apply NoDup_nodup|].
  assert (H1 : 1 <= pa_threshold params) by apply Hp.
  intros o xs b Ho Hl Hb. destruct xs as [|x s]; [cbn [List.length] in Hl; lia|]. cbn [List.length] in Hl.
  destruct (dealt_at E L Ht params idx Hp Hi seed Hs x s b ltac:(lia) Hb) as (d & r1 & r2 & rest & Hd & Hf & Hpol).
  destruct (new_at E L Ht params idx Hi seed o x s b d r1 r2 rest Hd Hf Hpol) as [Hn Hc].
  set (info := info_of E d b). set (h := answer o (own_input E x b)) in *.
  assert (Hfirst : incl (first info) (nodup query_dec all)).
  { intros y Hy. apply Hincl. unfold all. apply in_flat_map. exists (x :: s). split; [apply (tapes_in E L); cbn [List.length]; lia|].
    apply in_flat_map. exists b. split; [apply (byte_strings_in 32); exact Hb|]. rewrite Hd. exact Hy. }
  assert (Hopen : opened info = [own_input E x b]).
  { unfold opened, info, info_of. cbn [pi_polynomial pi_opening]. rewrite Hpol, (ser_ok E L Ht). reflexivity. }
  assert (Hh : In h digests32).
  { apply Ho, Hfirst. unfold first. apply in_or_app. left. rewrite Hopen. left. reflexivity. }
  assert (H2 : incl (possible (A h) ++ flat_map (fun p => second p info) (outputs (A h))) (nodup query_dec all)).
  { intros y Hy. apply Hfirst. unfold first. apply in_or_app. right. apply in_flat_map. exists h. auto. }
  destruct (possible_asked (nodup query_dec all) o (A h) Ho) as [I1 I2]; [intros y Hy; apply H2, in_or_app; auto|].
  assert (H3 : incl (second (run o (A h)) info) (nodup query_dec all)).
  { intros y Hy. apply H2, in_or_app. right. apply in_flat_map. exists (run o (A h)). auto. }
  destruct (possible_asked (nodup query_dec all) o (snd (run o (A h)) info) Ho) as [I3 I4]; [intros y Hy; apply H3, in_or_app; auto|].
  unfold attack_inputs. rewrite Hn. cbn [bind]. rewrite Hc. cbn [bind]. cbn [started pcc_dealer pcc_opening].
  destruct (Dealer_public_info d) as [poly pop] eqn:Hpub.
  assert (Hinfo : info = {| pi_polynomial := poly; pi_pop := pop; pi_opening := b |}) by (unfold info, info_of; rewrite Hpub; reflexivity).
  fold h. rewrite <- Hinfo. destruct (run o (A h)) as [coms A2]. cbn [fst snd] in *. eexists. split; [reflexivity|].
  intros y Hy. repeat (apply in_app_iff in Hy as [Hy|Hy]).
  - apply Hfirst. unfold first. apply in_or_app. auto.
  - apply I1, Hy.
  - apply I3, Hy.
  - apply H3. unfold second. apply in_or_app. right. apply in_flat_map. exists (run o (A2 info)). auto.
Qed.
