(** * The forking lemma: lemmas for C64 *)
From Coq Require Import List String NArith ZArith Lia Arith Bool Permutation.
From Verif.Model Require Import Base Group Transcript.
From Verif.Spec Require Import Rom Forking.
From Verif.Proofs Require Import Algebra Rom.
Import ListNotations.
Open Scope list_scope.
Open Scope nat_scope.

Lemma two_mul a b : 2 * (a * b) <= a * a + b * b.
Proof.
  destruct (le_ge_dec a b) as [H|H].
  - replace b with (a + (b - a)) by lia. generalize (b - a). intros d. nia.
  - replace a with (b + (a - b)) by lia. generalize (a - b). intros d. nia.
Qed.

(** ** sums over lists *)
Section Sums.
Context {A : Type}.
Definition lsum (f : A -> nat) (l : list A) : nat := list_sum (map f l).

Lemma lsum_nil f : lsum f [] = 0. Proof. reflexivity. Qed.
Lemma lsum_cons f a l : lsum f (a :: l) = f a + lsum f l. Proof. reflexivity. Qed.

Lemma lsum_ext f g l : (forall a, In a l -> f a = g a) -> lsum f l = lsum g l.
Proof.
  induction l as [|a l IH]; intros H; [reflexivity|]. rewrite !lsum_cons, H by (left; reflexivity).
  rewrite IH; [reflexivity|]. intros b Hb. apply H. right. exact Hb.
Qed.
Lemma lsum_le f g l : (forall a, In a l -> f a <= g a) -> lsum f l <= lsum g l.
Proof.
  induction l as [|a l IH]; intros H; [cbn; lia|]. rewrite !lsum_cons. pose proof (H a (or_introl eq_refl)).
  specialize (IH (fun b Hb => H b (or_intror Hb))). lia.
Qed.
Lemma lsum_plus f g l : lsum (fun a => f a + g a) l = lsum f l + lsum g l.
Proof. induction l as [|a l IH]; [reflexivity|]. rewrite !lsum_cons, IH. lia. Qed.
Lemma lsum_scale k f l : lsum (fun a => k * f a) l = k * lsum f l.
Proof. induction l as [|a l IH]; [cbn; lia|]. rewrite !lsum_cons, IH. lia. Qed.
Lemma lsum_const k l : lsum (fun _ => k) l = List.length l * k.
Proof. induction l as [|a l IH]; [reflexivity|]. rewrite lsum_cons, IH. cbn [List.length]. lia. Qed.
Lemma lsum_app f l l' : lsum f (l ++ l') = lsum f l + lsum f l'.
Proof. unfold lsum. rewrite map_app, list_sum_app. reflexivity. Qed.

(** Cauchy's inequality *)
Lemma lsum_square f l : lsum f l * lsum f l <= List.length l * lsum (fun a => f a * f a) l.
Proof.
  induction l as [|a l IH]; [cbn; lia|]. rewrite !lsum_cons. cbn [List.length].
  set (s := lsum f l) in *. set (s2 := lsum (fun a => f a * f a) l) in *. set (n := List.length l) in *.
  assert (H : 2 * (f a * s) <= n * (f a * f a) + s2).
  { subst s s2 n. clear IH. generalize (f a) as x. intros x. induction l as [|b l IH]; [cbn; lia|].
    rewrite !lsum_cons. cbn [List.length]. pose proof (two_mul x (f b)). lia. }
  nia.
Qed.
End Sums.

Lemma lsum_swap {A B : Type} (f : A -> B -> nat) l l' :
  lsum (fun a => lsum (f a) l') l = lsum (fun b => lsum (fun a => f a b) l) l'.
Proof.
  induction l as [|a l IH].
  - cbn. rewrite lsum_const. lia.
  - rewrite lsum_cons, IH. rewrite <- lsum_plus. apply lsum_ext. intros b _. rewrite lsum_cons. reflexivity.
Qed.

Definition b2n (b : bool) : nat := if b then 1 else 0.

Lemma length_filter {A : Type} (f : A -> bool) l : List.length (filter f l) = lsum (fun a => b2n (f a)) l.
Proof. induction l as [|a l IH]; [reflexivity|]. rewrite lsum_cons, <- IH. cbn [filter]. destruct (f a); reflexivity. Qed.

Lemma length_filter_prod {A : Type} (f : A * A -> bool) l l' :
  List.length (filter f (list_prod l l')) = lsum (fun a => lsum (fun b => b2n (f (a, b))) l') l.
Proof.
  rewrite length_filter. induction l as [|a l IH]; [reflexivity|]. cbn [list_prod]. rewrite lsum_app, IH, lsum_cons. f_equal.
  unfold lsum. rewrite map_map. reflexivity.
Qed.

Section Forking.
Context (R : Type) (values : list R).
Local Notation hash := (hash R).
Local Notation strategy := (strategy R).
Local Notation q := (List.length values).

Lemma set_same o x (c : R) : answer (set_hash o x c) x = c.
Proof. destruct x as [t l]. unfold answer, set_hash. cbn [fst snd]. destruct (query_dec (t, l) (t, l)); congruence. Qed.
Lemma set_other o x (c : R) y : x <> y -> answer (set_hash o x c) y = answer o y.
Proof. destruct y as [t l]. unfold answer, set_hash. cbn [fst snd]. destruct (query_dec x (t, l)); congruence. Qed.
Lemma splice_in l (o o' : hash) x : In x l -> answer (splice l o o') x = answer o x.
Proof. destruct x as [t s]. unfold answer, splice. cbn [fst snd]. destruct (in_dec query_dec (t, s) l); [reflexivity|contradiction]. Qed.
Lemma splice_out l (o o' : hash) x : ~ In x l -> answer (splice l o o') x = answer o' x.
Proof. destruct x as [t s]. unfold answer, splice. cbn [fst snd]. destruct (in_dec query_dec (t, s) l); [contradiction|reflexivity]. Qed.

(** ** sums over hash functions *)
Lemma flat_map_len {A B : Type} (g : A -> list B) k l : (forall a, List.length (g a) = k) -> List.length (flat_map g l) = List.length l * k.
Proof. intros H. induction l as [|a l IH]; [reflexivity|]. cbn [flat_map List.length]. rewrite app_length, H, IH. lia. Qed.
Lemma lsum_flat_map {A B : Type} (f : B -> nat) (g : A -> list B) l : lsum f (flat_map g l) = lsum (fun a => lsum f (g a)) l.
Proof. induction l as [|a l IH]; [reflexivity|]. cbn [flat_map]. rewrite lsum_app, lsum_cons, IH. reflexivity. Qed.

Definition hsum (D : list query) (o : hash) (f : hash -> nat) : nat := lsum f (all_hashes values D o).

Lemma hsum_nil o f : hsum [] o f = f o.
Proof. unfold hsum. cbn. lia. Qed.
Lemma hsum_cons x D o f : hsum (x :: D) o f = lsum (fun c => hsum D (set_hash o x c) f) values.
Proof.
  unfold hsum. cbn [all_hashes]. apply lsum_flat_map.
Qed.

(** the functions in the sum *)
Lemma all_hashes_out D : forall (o o' : hash) y, In o' (all_hashes values D o) -> ~ In y D -> answer o' y = answer o y.
Proof.
  induction D as [|x D IH]; intros o o' y Ho Hy; cbn [all_hashes] in Ho.
  - destruct Ho as [<-|[]]. reflexivity.
  - apply in_flat_map in Ho as (c & _ & Ho). rewrite (IH _ _ y Ho) by (intros H; apply Hy; right; exact H).
    apply set_other. intros ->. apply Hy. left. reflexivity.
Qed.

Lemma hsum_ext D o f g :
  (forall o', (forall y, ~ In y D -> answer o' y = answer o y) -> f o' = g o') -> hsum D o f = hsum D o g.
Proof. intros H. apply lsum_ext. intros o' Ho. apply H. intros y Hy. exact (all_hashes_out D o o' y Ho Hy). Qed.
Lemma hsum_le D o f g :
  (forall o', (forall y, ~ In y D -> answer o' y = answer o y) -> f o' <= g o') -> hsum D o f <= hsum D o g.
Proof. intros H. apply lsum_le. intros o' Ho. apply H. intros y Hy. exact (all_hashes_out D o o' y Ho Hy). Qed.
Lemma hsum_plus D o f g : hsum D o (fun o => f o + g o) = hsum D o f + hsum D o g.
Proof. apply lsum_plus. Qed.
Lemma hsum_scale D o k f : hsum D o (fun o => k * f o) = k * hsum D o f.
Proof. apply lsum_scale. Qed.
Lemma all_hashes_len D : forall o, List.length (all_hashes values D o) = q ^ List.length D.
Proof.
  induction D as [|x D IH]; intros o; [reflexivity|]. cbn [all_hashes List.length Nat.pow].
  apply flat_map_len. intros c. apply IH.
Qed.
Lemma hsum_const D o k : hsum D o (fun _ => k) = q ^ List.length D * k.
Proof. unfold hsum. rewrite lsum_const, all_hashes_len. reflexivity. Qed.

(** what a function of the hash depends on *)
Definition reads {B : Type} (P : query -> Prop) (f : hash -> B) : Prop :=
  forall o o', (forall x, P x -> answer o x = answer o' x) -> f o = f o'.

Lemma hsum_base (P : query -> Prop) D : forall o o' f, reads P f ->
  (forall x, P x -> In x D \/ answer o x = answer o' x) -> hsum D o f = hsum D o' f.
Proof.
  induction D as [|y D IH]; intros o o' f Hf H.
  - rewrite !hsum_nil. apply Hf. intros x Hx. destruct (H x Hx) as [[]|He]. exact He.
  - rewrite !hsum_cons. apply lsum_ext. intros c _. apply IH; [exact Hf|]. intros x Hx.
    destruct (query_dec y x) as [<-|Hne]; [right; rewrite !set_same; reflexivity|].
    destruct (H x Hx) as [[->|Hin]|He]; [congruence|left; exact Hin|right]. rewrite !set_other by exact Hne. exact He.
Qed.

(** the same for functions with a fixed part *)
Lemma hsum_base_if (C : hash -> Prop) (P : query -> Prop) D f :
  (forall o x c, In x D -> C o -> C (set_hash o x c)) ->
  (forall o o', C o -> C o' -> (forall x, P x -> answer o x = answer o' x) -> f o = f o') ->
  forall o o', C o -> C o' -> (forall x, P x -> In x D \/ answer o x = answer o' x) -> hsum D o f = hsum D o' f.
Proof.
  intros HC Hf. induction D as [|y D IH]; intros o o' Ho Ho' H.
  - rewrite !hsum_nil. apply Hf; [exact Ho|exact Ho'|]. intros x Hx. destruct (H x Hx) as [[]|He]. exact He.
  - rewrite !hsum_cons. apply lsum_ext. intros c _. apply IH.
    + intros o1 x c1 Hx. apply HC. right. exact Hx.
    + apply HC; [left; reflexivity|exact Ho].
    + apply HC; [left; reflexivity|exact Ho'].
    + intros x Hx. destruct (query_dec y x) as [<-|Hne]; [right; rewrite !set_same; reflexivity|].
      destruct (H x Hx) as [[->|Hin]|He]; [congruence|left; exact Hin|right]. rewrite !set_other by exact Hne. exact He.
Qed.

Definition anything (_ : query) : Prop := True.

Lemma without_id x D : ~ In x D -> without x D = D.
Proof.
  induction D as [|y D IH]; intros H; [reflexivity|]. unfold without in *. cbn.
  destruct (query_eq_dec x y) as [->|Hne]; [destruct H; left; reflexivity|]. f_equal. apply IH. intros Hin. apply H. right. exact Hin.
Qed.

Lemma hsum_pull x D : forall o f, reads anything f -> NoDup D -> In x D ->
  hsum D o f = lsum (fun c => hsum (without x D) (set_hash o x c) f) values.
Proof.
  induction D as [|y D IH]; intros o f Hf Hnd Hx; [destruct Hx|]. inversion Hnd as [|? ? Hy Hnd']; subst.
  rewrite hsum_cons. unfold without. cbn [filter]. destruct (query_eq_dec x y) as [<-|Hne].
  - fold (without x D). rewrite without_id by exact Hy. reflexivity.
  - fold (without x D). destruct Hx as [->|Hx]; [congruence|].
    rewrite (lsum_ext _ (fun cy => lsum (fun c => hsum (without x D) (set_hash (set_hash o y cy) x c) f) values)).
    2:{ intros cy _. apply IH; assumption. }
    rewrite lsum_swap. apply lsum_ext. intros c _. rewrite hsum_cons. apply lsum_ext. intros cy _.
    apply (hsum_base anything); [exact Hf|]. intros z _. right.
    destruct (query_dec x z) as [<-|Hxz]; [rewrite set_same, set_other, set_same by congruence; reflexivity|].
    rewrite (set_other _ x c z) by exact Hxz.
    destruct (query_dec y z) as [<-|Hyz]; [rewrite !set_same; reflexivity|]. rewrite !set_other by assumption. reflexivity.
Qed.

Lemma without_len x D : NoDup D -> In x D -> List.length D = S (List.length (without x D)).
Proof.
  induction D as [|y D IH]; intros Hnd Hx; [destruct Hx|]. inversion Hnd as [|? ? Hy Hnd']; subst.
  unfold without. cbn [filter]. destruct (query_eq_dec x y) as [<-|Hne].
  - fold (without x D). rewrite without_id by exact Hy. reflexivity.
  - fold (without x D). destruct Hx as [->|Hx]; [congruence|]. cbn [List.length]. rewrite <- IH by assumption. reflexivity.
Qed.

Lemma hsum_splice D h : forall o b f, reads anything f -> (forall x, In x h -> ~ In x D) ->
  hsum D b (fun o' => f (splice h o o')) = hsum D (splice h o b) f.
Proof.
  induction D as [|y D IH]; intros o b f Hf Hh.
  - rewrite !hsum_nil. reflexivity.
  - rewrite !hsum_cons. apply lsum_ext. intros c _.
    rewrite IH; [|exact Hf|intros x Hx Hin; exact (Hh x Hx (or_intror Hin))].
    apply (hsum_base anything); [exact Hf|]. intros z _. right.
    assert (Hy : ~ In y h) by (intros H; exact (Hh y H (or_introl eq_refl))).
    destruct (in_dec query_dec z h) as [Hz|Hz].
    + rewrite splice_in by exact Hz. rewrite set_other by congruence. rewrite splice_in by exact Hz. reflexivity.
    + rewrite splice_out by exact Hz. destruct (query_dec y z) as [<-|Hne]; [rewrite !set_same; reflexivity|].
      rewrite !set_other by exact Hne. rewrite splice_out by exact Hz. reflexivity.
Qed.

(** ** the forking lemma *)
Section Fork.
Context (sim : R -> R -> bool) (mu : nat) (Hmu : forall c, List.length (filter (fun c' => sim c' c) values) <= mu).
Context {X : Type} (win : X -> bool) (pos : X -> query).

Definition mem (x : query) (l : list query) : bool := if in_dec query_dec x l then true else false.
Definition same (x y : query) : bool := if query_dec x y then true else false.

Definition winh (h : list query) (T : strategy X) (o : hash) : bool :=
  win (run o T) && negb (mem (pos (run o T)) h).

Definition fork (h : list query) (T : strategy X) (o o' : hash) : bool :=
  let x := pos (run o T) in
  let o2 := splice (h ++ before x (asked o T)) o o' in
  winh h T o && (win (run o2 T) && same (pos (run o2 T)) x && negb (sim (answer o2 x) (answer o x))).

Lemma run_reads {A : Type} (T : strategy A) (P : query -> Prop) : (forall o x, In x (asked o T) -> P x) -> reads P (fun o => run o T).
Proof. intros HP o o' H. apply run_ext. intros x Hx. apply H. apply (HP o). exact Hx. Qed.

Lemma run_ext' {A : Type} (T : strategy A) (o o' : hash) : (forall x, answer o x = answer o' x) -> run o T = run o' T.
Proof. intros H. apply (run_ext R). intros x _. apply H. Qed.
Lemma asked_ext' {A : Type} (T : strategy A) (o o' : hash) : (forall x, answer o x = answer o' x) -> asked o T = asked o' T.
Proof. intros H. apply (run_ext R). intros x _. apply H. Qed.

Lemma winh_reads h T : reads anything (fun o => b2n (winh h T o)).
Proof. intros o o' H. unfold winh. rewrite (run_ext' T o o') by (intros x; apply H; exact I). reflexivity. Qed.

Lemma splice_ext l l' (o o' p p' : hash) :
  (forall x, In x l <-> In x l') -> (forall x, answer o x = answer p x) -> (forall x, ~ In x l -> answer o' x = answer p' x) ->
  forall x, answer (splice l o o') x = answer (splice l' p p') x.
Proof.
  intros Hl Ho Ho' x. destruct (in_dec query_dec x l) as [H|H].
  - rewrite (splice_in l) by exact H. rewrite (splice_in l') by (apply Hl; exact H). apply Ho.
  - rewrite (splice_out l) by exact H. rewrite (splice_out l') by (intros Hi; apply H, Hl, Hi). apply Ho'. exact H.
Qed.

Lemma fork_reads1 h T o' : reads anything (fun o => b2n (fork h T o o')).
Proof.
  intros o p H. assert (H' : forall x, answer o x = answer p x) by (intros x; apply H; exact I).
  unfold fork, winh. rewrite (run_ext' T o p H'), (asked_ext' T o p H').
  set (x := pos (run p T)). set (l := h ++ before x (asked p T)).
  assert (Hs : forall y, answer (splice l o o') y = answer (splice l p o') y) by (apply splice_ext; [tauto|exact H'|reflexivity]).
  rewrite (run_ext' T _ _ Hs), (Hs x), (H' x). reflexivity.
Qed.

Lemma fork_reads2 h T o : reads (fun x => ~ In x h) (fun o' => b2n (fork h T o o')).
Proof.
  intros o' p' H. unfold fork.
  set (x := pos (run o T)). set (l := h ++ before x (asked o T)).
  assert (Hs : forall y, answer (splice l o o') y = answer (splice l o p') y).
  { apply splice_ext; [tauto|reflexivity|]. intros y Hy. apply H. intros Hin. apply Hy. apply in_or_app. left. exact Hin. }
  rewrite (run_ext' T _ _ Hs), (Hs x). reflexivity.
Qed.

Lemma reads_weaken {B : Type} (P Q : query -> Prop) (f : hash -> B) : (forall x, P x -> Q x) -> reads P f -> reads Q f.
Proof. intros H Hf o o' Ho. apply Hf. intros x Hx. apply Ho, H, Hx. Qed.

(** winning with the challenge at this node *)
Definition here (x : query) (T : strategy X) (o : hash) : bool := win (run o T) && same (pos (run o T)) x.

Lemma winh_node h x k o : ~ In x h ->
  b2n (winh h (Ask x k) o) = b2n (here x (Ask x k) o) + b2n (winh (x :: h) (k (answer o x)) o).
Proof.
  intros Hx. unfold winh, here, mem, same. cbn [run]. set (r := run o (k (answer o x))).
  destruct (win r); [|reflexivity]. cbn [andb].
  destruct (query_dec (pos r) x) as [He|Hne].
  - destruct (in_dec query_dec (pos r) h) as [Hi|_]; [rewrite He in Hi; contradiction|].
    destruct (in_dec query_dec (pos r) (x :: h)) as [_|Hn]; [reflexivity|]. destruct Hn. left. congruence.
  - destruct (in_dec query_dec (pos r) h) as [Hi|Hi]; destruct (in_dec query_dec (pos r) (x :: h)) as [Hj|Hj]; try reflexivity.
    + destruct Hj. right. exact Hi.
    + destruct Hj as [Hj|Hj]; [congruence|contradiction].
Qed.

Lemma fork_node h x k o o' : ~ In x h ->
  b2n (here x (Ask x k) o) * b2n (here x (Ask x k) (splice h o o') && negb (sim (answer o' x) (answer o x))) +
  b2n (fork (x :: h) (k (answer o x)) o o') <= b2n (fork h (Ask x k) o o').
Proof.
  intros Hx. pose proof (winh_node h x k o Hx) as Hw. unfold fork.
  destruct (winh (x :: h) (k (answer o x)) o) eqn:Hd.
  - (* the challenge is asked later *)
    assert (Hh : here x (Ask x k) o = false) by (destruct (here _ _ _), (winh h _ o); cbn in Hw; try lia; reflexivity).
    assert (Hw' : winh h (Ask x k) o = true) by (destruct (here _ _ _), (winh h _ o); cbn in Hw; try lia; reflexivity).
    rewrite Hh, Hw'. cbn [b2n Nat.mul Nat.add andb run asked].
    set (c := answer o x) in *. set (y := pos (run o (k c))).
    assert (Hy : y <> x).
    { intros Hy. unfold winh, mem in Hd. fold y in Hd. destruct (in_dec query_dec y (x :: h)) as [_|Hn].
      - rewrite andb_false_r in Hd. discriminate.
      - destruct Hn. left. congruence. }
    cbn [before]. destruct (query_dec y x) as [|_]; [contradiction|].
    set (l := before y (asked o (k c))).
    assert (Hs : forall z, answer (splice ((x :: h) ++ l) o o') z = answer (splice (h ++ x :: l) o o') z).
    { apply splice_ext; [|reflexivity|reflexivity]. intros z. cbn [app]. cbn [In]. rewrite !in_app_iff. cbn [In]. tauto. }
    rewrite <- (Hs x), <- (Hs y). rewrite (splice_in _ _ _ x) by (left; reflexivity). fold c.
    rewrite (run_ext' (k c) _ _ Hs). lia.
  - destruct (here x (Ask x k) o) eqn:Hh; [|cbn; lia].
    assert (Hw' : winh h (Ask x k) o = true) by (destruct (winh h _ o); cbn in Hw; try lia; reflexivity).
    rewrite Hw'. unfold here in Hh. apply andb_true_iff in Hh as [_ Hp]. unfold same in Hp.
    destruct (query_dec _ x) as [Hp'|]; [|discriminate]. rewrite Hp'. cbn [asked before].
    destruct (query_dec x x) as [_|]; [|congruence]. rewrite app_nil_r, (splice_out h) by exact Hx.
    cbn [andb b2n Nat.mul Nat.add]. unfold here. lia.
Qed.

Lemma arith n' H T Fh Fd N : (* N and Fd as counted over all functions *)
  q * (H * H) <= q * Fh + H * N -> q * (T * T) <= n' * (q * Fd + T * N) ->
  q * ((H + T) * (H + T)) <= S n' * (q * (Fh + Fd) + (H + T) * N).
Proof.
  intros H1 H2. set (U := q * Fd + T * N) in *.
  replace (q * (Fh + Fd) + (H + T) * N) with ((q * Fh + H * N) + U) by (unfold U; lia).
  set (V := q * Fh + H * N) in *. clearbody U V.
  destruct (Nat.eq_dec q 0) as [->|Hq0]; [lia|]. destruct n' as [|m].
  - assert (T = 0) by nia. subst T. rewrite Nat.add_0_r. nia.
  - set (n := S m) in *. assert (Hn : 1 <= n) by lia. clearbody n.
    assert (Hk : n * (2 * (H * T)) <= n * n * (H * H) + T * T) by (pose proof (two_mul (n * H) T); lia).
    assert (Hq : n * (2 * (q * (H * T))) <= n * (n * (q * (H * H)) + U)).
    { replace (n * (2 * (q * (H * T)))) with (q * (n * (2 * (H * T)))) by lia.
      replace (n * (n * (q * (H * H)) + U)) with (q * (n * n * (H * H)) + n * U) by lia.
      transitivity (q * (n * n * (H * H) + T * T)); [apply Nat.mul_le_mono_l; exact Hk|]. lia. }
    apply Nat.mul_le_mono_pos_l in Hq; [|lia].
    replace (q * ((H + T) * (H + T))) with (q * (H * H) + 2 * (q * (H * T)) + q * (T * T)) by lia.
    assert (n * (q * (H * H)) <= n * V) by (apply Nat.mul_le_mono_l; exact H1). lia.
Qed.

Definition agree (h : list query) (o o' : hash) : Prop := forall x, In x h -> answer o x = answer o' x.

Theorem fork_count : forall n (T : strategy X) h D o0 o0',
  at_most n T -> NoDup D -> (forall x, In x h -> ~ In x D) ->
  (forall o, agree h o o0 -> incl (asked o T) (h ++ D)) ->
  (forall o, agree h o o0 -> win (run o T) = true -> In (pos (run o T)) (h ++ asked o T)) ->
  let s := hsum D o0 (fun o => b2n (winh h T o)) in
  let F := hsum D o0 (fun o => hsum D o0' (fun o' => b2n (fork h T o o'))) in
  q * (s * s) <= n * (q * F + mu * s * q ^ List.length D).
Proof.
  intros n T. revert n. induction T as [a|x k IH]; intros n h D o0 o0' Hn Hnd Hh Hi Hw s F.
  - assert (Hs : s = 0).
    { unfold s. rewrite (hsum_ext D o0 _ (fun _ => 0)); [rewrite hsum_const; lia|]. intros o Ho. unfold winh. cbn [run].
      destruct (win a) eqn:Ha; [|reflexivity].
      assert (Hag : agree h o o0) by (intros y Hy; apply Ho, Hh, Hy).
      specialize (Hw o Hag Ha). cbn [asked run] in Hw. rewrite app_nil_r in Hw.
      unfold mem. destruct (in_dec _ _ _); [reflexivity|contradiction]. }
    rewrite Hs. lia.
  - inversion Hn as [|n' x' k' Hk]; subst.
    destruct (in_dec query_dec x h) as [Hxh|Hxh].
    + (* known answer *)
      set (c := answer o0 x) in *.
      assert (Hc : forall o : hash, (forall y, ~ In y D -> answer o y = answer o0 y) -> answer o x = c).
      { intros o Ho. apply Ho. apply Hh. exact Hxh. }
      assert (IH' : let s := hsum D o0 (fun o => b2n (winh h (k c) o)) in
                    let F := hsum D o0 (fun o => hsum D o0' (fun o' => b2n (fork h (k c) o o'))) in
                    q * (s * s) <= n' * (q * F + mu * s * q ^ List.length D)).
      { apply (IH c); [apply Hk|exact Hnd|exact Hh| |].
        - intros o Ho y Hy. apply (Hi o Ho). cbn [asked]. right. rewrite (Ho x Hxh). exact Hy.
        - intros o Ho Hwin. specialize (Hw o Ho). cbn [run asked] in Hw. rewrite (Ho x Hxh) in Hw. specialize (Hw Hwin).
          fold c in Hw. apply in_app_iff in Hw as [Hp|[Hp|Hp]]; apply in_app_iff; auto. left. rewrite <- Hp. exact Hxh. }
      cbv zeta in IH'.
      assert (Hs : s = hsum D o0 (fun o => b2n (winh h (k c) o))).
      { unfold s. apply hsum_ext. intros o Ho. unfold winh. cbn [run]. rewrite (Hc o Ho). reflexivity. }
      assert (HF : hsum D o0 (fun o => hsum D o0' (fun o' => b2n (fork h (k c) o o'))) <= F).
      { unfold F. apply hsum_le. intros o Ho. apply hsum_le. intros o' _. unfold fork, winh. cbn [run asked]. rewrite (Hc o Ho).
        destruct (win (run o (k c)) && negb (mem (pos (run o (k c))) h)) eqn:Hwh; [|cbn; lia]. cbn [andb].
        set (y := pos (run o (k c))) in *. cbn [before].
        destruct (query_dec y x) as [He|Hne].
        - apply andb_true_iff in Hwh as [_ Hm]. unfold mem in Hm. destruct (in_dec _ _ _) as [|Hn']; [discriminate|].
          rewrite He in Hn'. contradiction.
        - set (l := before y (asked o (k c))).
          assert (Hsp : forall z, answer (splice (h ++ l) o o') z = answer (splice (h ++ x :: l) o o') z).
          { apply splice_ext; [|reflexivity|reflexivity]. intros z. rewrite !in_app_iff. cbn [In].
            split; [tauto|]. intros [H|[<-|H]]; auto. }
          rewrite <- (Hsp x), <- (Hsp y). rewrite (splice_in _ _ _ x) by (apply in_or_app; left; exact Hxh).
          rewrite (Hc o Ho), (run_ext' (k c) _ _ Hsp). lia. }
      rewrite Hs. set (s' := hsum D o0 (fun o => b2n (winh h (k c) o))) in *.
      etransitivity; [exact IH'|]. apply Nat.mul_le_mono; [lia|]. apply Nat.add_le_mono_r. apply Nat.mul_le_mono_l. exact HF.
    + (* a new query *)
      assert (HxD : In x D).
      { assert (Hx : In x (h ++ D)) by (apply (Hi o0 (fun _ _ => eq_refl)); left; reflexivity).
        apply in_app_iff in Hx as [Hx|Hx]; [contradiction|exact Hx]. }
      set (D' := without x D) in *.
      assert (Hlen : List.length D = S (List.length D')) by (apply without_len; assumption).
      set (N' := q ^ List.length D') in *.
      assert (HN : q ^ List.length D = q * N') by (rewrite Hlen; reflexivity).
      assert (HD' : forall y, In y D' <-> In y D /\ x <> y) by (intros y; apply without_in).
      assert (Hnd' : NoDup D') by (apply NoDup_filter; exact Hnd).
      assert (Hh' : forall y, In y h -> ~ In y D') by (intros y Hy Hin; apply HD' in Hin as [Hin _]; exact (Hh y Hy Hin)).
      set (T := Ask x k) in *.
      set (a := fun c => hsum D' (set_hash o0 x c) (fun o => b2n (here x T o))).
      set (sc := fun c => hsum D' (set_hash o0 x c) (fun o => b2n (winh (x :: h) (k c) o))).
      set (Fc := fun c => hsum D' (set_hash o0 x c) (fun o => hsum D' o0' (fun o' => b2n (fork (x :: h) (k c) o o')))).
      (* functions of the sum with answer [c] *)
      assert (Hans : forall c o, (forall y, ~ In y D' -> answer o y = answer (set_hash o0 x c) y) -> answer o x = c /\ agree h o o0).
      { intros c o Ho. split.
        - rewrite Ho; [apply set_same|]. intros Hin. apply HD' in Hin as [_ Hin]. congruence.
        - intros y Hy. rewrite Ho by (apply Hh'; exact Hy). apply set_other. intros ->. contradiction. }
      assert (Hs : s = lsum a values + lsum sc values).
      { unfold s. rewrite (hsum_pull x D); [|apply winh_reads|exact Hnd|exact HxD]. rewrite <- lsum_plus. apply lsum_ext. intros c _.
        unfold a, sc. rewrite <- hsum_plus. apply hsum_ext. intros o Ho. destruct (Hans c o Ho) as [Hc _].
        unfold T. rewrite winh_node by exact Hxh. rewrite Hc. reflexivity. }
      (* second run at this node *)
      assert (Hsecond : forall c o, answer o x = c -> agree h o o0 ->
        hsum D o0' (fun o' => b2n (here x T (splice h o o') && negb (sim (answer o' x) c))) =
        lsum (fun c' => if sim c' c then 0 else a c') values).
      { intros c o Hc Hag. rewrite (hsum_pull x D).
        - apply lsum_ext. intros c' _. fold D'.
          rewrite (hsum_ext D' _ _ (fun o' => if sim c' c then 0 else b2n (here x T (splice h o o')))).
          2:{ intros o' Ho'. assert (Hx' : answer o' x = c') by (rewrite Ho'; [apply set_same|intros Hin; apply HD' in Hin as [_ Hin]; congruence]).
              rewrite Hx'. destruct (sim c' c); [rewrite andb_false_r|rewrite andb_true_r]; reflexivity. }
          destruct (sim c' c); [rewrite hsum_const; lia|].
          rewrite (hsum_splice D' h o (set_hash o0' x c') (fun o => b2n (here x T o))); [| |exact Hh'].
          2:{ intros o1 o2 H12. unfold here. rewrite (run_ext' T o1 o2) by (intros y; apply H12; exact I). reflexivity. }
          apply (hsum_base_if (fun o => agree h o o0) (fun y => In y (h ++ D))).
          + intros o1 y c1 Hy H1 z Hz. rewrite set_other; [apply H1; exact Hz|]. intros ->. exact (Hh' z Hz Hy).
          + intros o1 o2 H1 _ H12. unfold here. destruct (run_ext R o1 o2 T) as [-> _]; [|reflexivity].
            intros y Hy. apply H12. exact (Hi o1 H1 y Hy).
          + intros y Hy. rewrite splice_in by exact Hy. apply Hag. exact Hy.
          + intros y Hy. apply set_other. intros ->. contradiction.
          + intros y Hy. destruct (in_dec query_dec y h) as [Hyh|Hyh].
            * right. rewrite splice_in by exact Hyh. rewrite set_other by congruence. apply Hag. exact Hyh.
            * apply in_app_iff in Hy as [Hy|Hy]; [contradiction|]. destruct (query_dec x y) as [<-|Hne].
              -- right. rewrite splice_out by exact Hxh. rewrite !set_same. reflexivity.
              -- left. apply HD'. auto.
        - intros o1 o2 H12. assert (H12' : forall y, answer o1 y = answer o2 y) by (intros y; apply H12; exact I).
          unfold here. rewrite (run_ext' T (splice h o o1) (splice h o o2)), (H12' x); [reflexivity|].
          apply splice_ext; [tauto|reflexivity|]. intros y _. apply H12'.
        - exact Hnd.
        - exact HxD. }
      set (Fh := lsum (fun c => a c * lsum (fun c' => if sim c' c then 0 else a c') values) values).
      assert (HF : Fh + q * lsum Fc values <= F).
      { unfold F. rewrite (hsum_pull x D); [| |exact Hnd|exact HxD].
        2:{ intros o1 o2 H12. apply hsum_ext. intros o' _. apply fork_reads1. exact H12. }
        unfold Fh. rewrite <- lsum_scale, <- lsum_plus. apply lsum_le. intros c _. fold D'.
        unfold a at 1, Fc. rewrite <- hsum_scale, Nat.mul_comm, <- hsum_scale, <- hsum_plus. apply hsum_le. intros o Ho.
        destruct (Hans c o Ho) as [Hc Hag].
        transitivity (hsum D o0' (fun o' => b2n (here x T o) * b2n (here x T (splice h o o') && negb (sim (answer o' x) c)) +
                                           b2n (fork (x :: h) (k c) o o'))).
        - rewrite hsum_plus, hsum_scale, (Hsecond c o Hc Hag). rewrite Nat.mul_comm. apply Nat.add_le_mono_l.
          rewrite (hsum_pull x D); [|eapply reads_weaken; [|apply fork_reads2]; intros; exact I|exact Hnd|exact HxD]. fold D'.
          rewrite (lsum_ext _ (fun _ => hsum D' o0' (fun o' => b2n (fork (x :: h) (k c) o o')))).
          + rewrite lsum_const. lia.
          + intros c' _. apply (hsum_base (fun y => ~ In y (x :: h))); [apply fork_reads2|].
            intros y Hy. right. apply set_other. intros ->. apply Hy. left. reflexivity.
        - apply hsum_le. intros o' _. rewrite <- Hc. apply fork_node. exact Hxh. }
      (* winning at this node *)
      set (H := lsum a values) in *. set (U := lsum sc values) in *.
      assert (HFh : q * (H * H) <= q * Fh + H * (mu * (q * N'))).
      { assert (Hle : forall c, a c <= N').
        { intros c. unfold a, N'. rewrite <- (Nat.mul_1_r (q ^ _)), <- (hsum_const D' (set_hash o0 x c)). apply hsum_le.
          intros o _. unfold b2n. destruct (here x T o); lia. }
        assert (Hcl : forall c, lsum (fun c' => if sim c' c then a c' else 0) values <= mu * N').
        { intros c. etransitivity; [|apply Nat.mul_le_mono_r; apply (Hmu c)]. rewrite length_filter, Nat.mul_comm, <- lsum_scale.
          apply lsum_le. intros c' _. destruct (sim c' c); cbn [b2n]; [rewrite Nat.mul_1_r; apply Hle|lia]. }
        assert (Hsplit : H * H <= Fh + H * (mu * N')).
        { unfold Fh. unfold H at 1 3. rewrite (Nat.mul_comm (lsum a values) H), (Nat.mul_comm (lsum a values) (mu * N')).
          rewrite <- !lsum_scale, <- lsum_plus. apply lsum_le. intros c _.
          rewrite (Nat.mul_comm H), (Nat.mul_comm (mu * N')), <- Nat.mul_add_distr_l. apply Nat.mul_le_mono_l.
          transitivity (lsum (fun c' => if sim c' c then 0 else a c') values + lsum (fun c' => if sim c' c then a c' else 0) values).
          - rewrite <- lsum_plus. apply lsum_le. intros c' _. destruct (sim c' c); lia.
          - apply Nat.add_le_mono_l. apply Hcl. }
        apply (Nat.mul_le_mono_l _ _ q) in Hsplit. lia. }
      assert (HU : q * (U * U) <= n' * (q * (q * lsum Fc values) + U * (mu * (q * N')))).
      { assert (Hc : forall c, q * (sc c * sc c) <= n' * (q * Fc c + mu * sc c * N')).
        { intros c. apply (IH c n' (x :: h) D' (set_hash o0 x c) o0').
          - apply Hk.
          - exact Hnd'.
          - intros y [<-|Hy]; [intros Hin; apply HD' in Hin as [_ Hin]; congruence|apply Hh'; exact Hy].
          - intros o Ho y Hy. assert (Hox : answer o x = c) by (rewrite Ho by (left; reflexivity); apply set_same).
            assert (Hag : agree h o o0) by (intros z Hz; rewrite Ho by (right; exact Hz); apply set_other; intros ->; contradiction).
            assert (Hin : In y (h ++ D)) by (apply (Hi o Hag); unfold T; cbn [asked]; right; rewrite Hox; exact Hy).
            apply in_app_iff in Hin as [Hin|Hin]; [right; apply in_or_app; left; exact Hin|].
            destruct (query_dec x y) as [<-|Hne]; [left; reflexivity|]. right. apply in_or_app. right. apply HD'. auto.
          - intros o Ho Hwin. assert (Hox : answer o x = c) by (rewrite Ho by (left; reflexivity); apply set_same).
            assert (Hag : agree h o o0) by (intros z Hz; rewrite Ho by (right; exact Hz); apply set_other; intros ->; contradiction).
            specialize (Hw o Hag). unfold T in Hw. cbn [run asked] in Hw. rewrite Hox in Hw. specialize (Hw Hwin).
            apply in_app_iff in Hw as [Hp|[Hp|Hp]]; cbn [app]; [right; apply in_or_app; auto|left; exact Hp|right; apply in_or_app; auto]. }
        pose proof (lsum_square sc values) as Hcs. fold U in Hcs.
        assert (Hsum : q * lsum (fun c => sc c * sc c) values <= n' * (q * lsum Fc values + mu * U * N')).
        { rewrite <- lsum_scale. etransitivity; [apply lsum_le; intros c _; apply Hc|].
          rewrite lsum_scale. apply Nat.mul_le_mono_l. rewrite lsum_plus, lsum_scale. apply Nat.add_le_mono_l.
          unfold U. replace (mu * lsum sc values * N') with (mu * N' * lsum sc values) by lia. rewrite <- lsum_scale. apply lsum_le. intros c _. lia. }
        transitivity (q * (n' * (q * lsum Fc values + mu * U * N'))); [apply Nat.mul_le_mono_l; lia|]. lia. }
      rewrite Hs, HN. etransitivity; [apply (arith n' H U Fh (q * lsum Fc values) (mu * (q * N'))); assumption|].
      apply Nat.mul_le_mono_l. replace (mu * (H + U) * (q * N')) with ((H + U) * (mu * (q * N'))) by lia. apply Nat.add_le_mono_r. apply Nat.mul_le_mono_l. exact HF.
Qed.

End Fork.

(** ** adversaries and verifiers *)

Fixpoint tag {A : Type} (d : query) (T : strategy A) : strategy (A * query) :=
  match T with
  | Output a => Output (a, d)
  | Ask x k => Ask x (fun c => tag x (k c))
  end.

Lemma tag_asked {A : Type} o (T : strategy A) : forall d, asked o (tag d T) = asked o T.
Proof. induction T as [a|x k IH]; intros d; cbn; [reflexivity|]. rewrite IH. reflexivity. Qed.

Lemma tag_run {A : Type} o (T : strategy A) : forall d, run o (tag d T) = (run o T, last (asked o T) d).
Proof.
  induction T as [a|x k IH]; intros d; cbn [tag run asked]; [reflexivity|]. rewrite IH. f_equal.
  destruct (asked o (k (answer o x))) as [|y l] eqn:He; [reflexivity|]. cbn [last]. clear.
  revert y; induction l as [|z l IHl]; intros y; [reflexivity|]. cbn [last] in *. apply IHl.
Qed.

Lemma tag_most {A : Type} n (T : strategy A) : at_most n T -> forall d, at_most n (tag d T).
Proof. induction 1 as [n a|n x k H IH]; intros d; cbn [tag]; constructor. intros c. apply IH. Qed.

Lemma last_rev {A : Type} (l : list A) d : last l d = match rev l with [] => d | x :: _ => x end.
Proof.
  destruct l as [|a l] using rev_ind; [reflexivity|]. rewrite last_last, rev_app_distr. reflexivity.
Qed.

Lemma last_app' {A : Type} (l l' : list A) d : l' <> [] -> last (l ++ l') d = last l' d.
Proof.
  intros H. destruct l' as [|a l' _] using rev_ind; [congruence|]. rewrite app_assoc, !last_last. reflexivity.
Qed.

Lemma last_in {A : Type} (l : list A) d : l <> [] -> In (last l d) l.
Proof.
  intros H. destruct l as [|a l _] using rev_ind; [congruence|]. rewrite last_last. apply in_or_app. right. left. reflexivity.
Qed.

Lemma all_hashes_spec (D : list query) (o0 : hash) : NoDup values -> NoDup D ->
  hashes_on values D (all_hashes values D o0) /\
  (Z.of_nat (List.length (all_hashes values D o0)) = Z.of_nat q ^ Z.of_nat (List.length D))%Z /\
  (forall o x, In o (all_hashes values D o0) -> ~ In x D -> answer o x = answer o0 x) /\
  (forall o, (forall x, In x D -> In (answer o x) values) -> (forall x, ~ In x D -> answer o x = answer o0 x) ->
     exists o', In o' (all_hashes values D o0) /\ forall x, answer o' x = answer o x).
Proof.
  intros Hval Hnd. split; [split; [|split]|split; [|split]].
  - revert o0. induction Hnd as [|x D Hx Hnd IH]; intros o0; cbn [all_hashes]; [constructor; constructor|].
    assert (Hgen : forall vs, NoDup vs -> ForallOrdPairs differ (flat_map (fun c => all_hashes values D (set_hash o0 x c)) vs));
      [|apply Hgen; exact Hval].
    intros vs Hc. induction vs as [|c cs IHc]; cbn [flat_map]; [constructor|].
    inversion Hc as [|? ? Hc1 Hc2]; subst. apply FOP_app; [apply IH|apply IHc; exact Hc2|].
    intros a b Ha Hb. apply in_flat_map in Hb as (c' & Hc' & Hb). exists x.
    rewrite (all_hashes_out D _ a x Ha Hx), (all_hashes_out D _ b x Hb Hx), !set_same. intros ->. contradiction.
  - revert o0. induction Hnd as [|x D Hx Hnd IH]; intros o0 o y Ho [].
    + subst y. cbn [all_hashes] in Ho. apply in_flat_map in Ho as (c & Hc & Ho).
      rewrite (all_hashes_out D _ o x Ho Hx), set_same. exact Hc.
    + cbn [all_hashes] in Ho. apply in_flat_map in Ho as (c & _ & Ho). exact (IH _ o y Ho H).
  - intros o o' x Ho Ho' Hx. rewrite (all_hashes_out D _ o x Ho Hx), (all_hashes_out D _ o' x Ho' Hx). reflexivity.
  - rewrite all_hashes_len, Nat2Z.inj_pow. reflexivity.
  - intros o x Ho Hx. exact (all_hashes_out D o0 o x Ho Hx).
  - clear Hnd. revert o0. induction D as [|x D IH]; intros o0 o Hin Ho; cbn [all_hashes].
    + exists o0. split; [left; reflexivity|]. intros x. symmetry. apply Ho. intros [].
    + destruct (IH (set_hash o0 x (answer o x)) o) as (o' & Hi & Ho').
      { intros y Hy. apply Hin. right. exact Hy. }
      { intros y Hy. destruct (query_dec x y) as [<-|Hne]; [rewrite set_same; reflexivity|].
        rewrite set_other by exact Hne. apply Ho. intros [H|H]; [congruence|contradiction]. }
      exists o'. split; [|exact Ho']. apply in_flat_map. exists (answer o x). split; [apply Hin; left; reflexivity|exact Hi].
Qed.

End Forking.

Section Extractable.
Context (G : Group) (L : GroupLaws G) (S : source G) (m : Z) (Hbal : balanced S m).
Local Notation scalar := (Scalar G).
Local Notation strategy := (strategy scalar).
Local Notation q := (List.length (digests S)).

Definition similar (d d' : digest S) : bool := s_eqb (challenge_of S d) (challenge_of S d').
Lemma Z_of_nat_to_nat_ge (z : Z) : (z <= Z.of_nat (Z.to_nat z))%Z.
Proof. lia. Qed.
Lemma similar_classes c : List.length (filter (fun c' => similar c' c) (digests S)) <= Z.to_nat m.
Proof.
  apply Nat2Z.inj_le. etransitivity; [|apply Z_of_nat_to_nat_ge]. apply (proj2 Hbal (challenge_of S c)).
  - apply NoDup_filter. exact (proj1 Hbal).
  - intros d Hd. apply filter_In in Hd as [Hd Hs]. apply (s_eqb_ok _ L) in Hs. auto.
Qed.

Lemma extractable_intro {X Y : Type} (A : strategy X) (V : X -> strategy Y) n
    (accepted : hash scalar -> X -> bool) (extracted : X -> X -> Prop) (win : X -> Y -> bool) :
  at_most n (andthen A V) ->
  (forall o x, accepted o x = win x (run o (V x))) ->
  (forall o x, accepted o x = true -> asked o (V x) <> []) ->
  (forall o o2 d, let x := run o A in let x2 := run o2 A in let y := last (asked o (V x)) d in
     accepted o x = true -> accepted o2 x2 = true -> last (asked o2 (V x2)) d = y -> answer o y <> answer o2 y ->
     extracted x x2) ->
  extractable S m A V accepted extracted (Z.of_nat n).
Proof.
  intros Hn Hacc Hne Hex D o0 Hnd Hinc found Hfound W s F.
  set (d := ([], EmptyString) : query).
  set (T' := tag scalar d (andthen A (fun x => andthen (V x) (fun y => Output (x, y))))).
  set (T := via G S T').
  assert (Hask : forall o, asked o T = asked (challenges S o) (andthen A V)).
  { intros o. unfold T. rewrite via_asked. unfold T'. rewrite tag_asked, !asked_andthen. cbn [asked]. rewrite app_nil_r. reflexivity. }
  assert (Hrun : forall o, run o T = ((run (challenges S o) A, run (challenges S o) (V (run (challenges S o) A))),
                                      last (asked (challenges S o) (andthen A V)) d)).
  { intros o. rewrite <- Hask. unfold T. rewrite via_run, via_asked. generalize (challenges S o). intros c. unfold T'.
    rewrite tag_asked, tag_run, !run_andthen. reflexivity. }
  set (win' := fun r : (X * Y) * query => win (fst (fst r)) (snd (fst r))).
  set (pos' := fun r : (X * Y) * query => snd r).
  assert (Hwin : forall o, win' (run o T) = accepted (challenges S o) (run (challenges S o) A)).
  { intros o. rewrite Hrun. unfold win'. cbn [fst snd]. symmetry. apply Hacc. }
  assert (HT : at_most n T).
  { unfold T. apply via_most. unfold T'. apply tag_most. clear -Hn. revert n Hn. induction A as [x|y k IH]; intros n Hn; cbn [andthen] in *.
    - revert n Hn. induction (V x) as [y|z k IH]; intros n Hn; cbn [andthen]; [constructor|].
      inversion Hn; subst. constructor. intros c. apply IH. auto.
    - inversion Hn; subst. constructor. intros c. apply IH. auto. }
  assert (Hlast : forall o, accepted o (run o A) = true ->
            last (asked o (andthen A V)) d = last (asked o (V (run o A))) d /\ asked o (andthen A V) <> []).
  { intros o Ho. rewrite asked_andthen. pose proof (Hne o _ Ho) as Hn0. split; [apply last_app'; exact Hn0|].
    intros He. apply app_eq_nil in He as [_ He]. contradiction. }
  pose proof (fork_count (digest S) (digests S) similar (Z.to_nat m) similar_classes win' pos' n T [] D o0 o0 HT Hnd (fun _ H => match H with end)) as Hfork.
  cbv zeta in Hfork. cbn [app] in Hfork.
  assert (Hs : hsum (digest S) (digests S) D o0 (fun o => b2n (winh (digest S) win' pos' [] T o)) =
               List.length (filter (fun o => accepted (challenges S o) (run (challenges S o) A)) W)).
  { rewrite length_filter. apply lsum_ext. intros o _. unfold winh. rewrite Hwin. unfold mem.
    destruct (in_dec _ _ []) as [[]|_]. rewrite andb_true_r. reflexivity. }
  assert (HF : hsum (digest S) (digests S) D o0 (fun o => hsum (digest S) (digests S) D o0 (fun o' => b2n (fork (digest S) similar win' pos' [] T o o'))) <=
               List.length (filter (fun p => found (fst p) (snd p)) (list_prod W W))).
  { rewrite length_filter_prod. apply lsum_le. intros o _. apply lsum_le. intros o' _. cbn [fst snd].
    destruct (fork (digest S) similar win' pos' [] T o o') eqn:Hf; [|cbn; lia]. enough (found o o' = true) as -> by (cbn; lia).
    unfold fork, winh in Hf. cbn [app] in Hf. rewrite !Hwin, Hask in Hf.
    apply andb_true_iff in Hf as [H1 Hf]. apply andb_true_iff in H1 as [H1 _].
    destruct (Hlast _ H1) as [Hl Hnil]. rewrite (Hrun o) in Hf. unfold pos' in Hf. cbn [fst snd] in Hf.
    set (y := last (asked (challenges S o) (andthen A V)) d) in *.
    assert (Hrw : rewound S (andthen A V) o o' = splice (before y (asked (challenges S o) (andthen A V))) o o').
    { unfold rewound, y. rewrite last_rev. destruct (rev (asked (challenges S o) (andthen A V))) eqn:Hr; [|reflexivity].
      apply (f_equal (@rev query)) in Hr. rewrite rev_involutive in Hr. contradiction. }
    rewrite <- Hrw in Hf. set (o2 := rewound S (andthen A V) o o') in *.
    apply andb_true_iff in Hf as [Hf H4]. apply andb_true_iff in Hf as [H2 H3].
    rewrite (Hrun o2) in H3. cbn [fst snd] in H3. destruct (Hlast _ H2) as [Hl2 _].
    apply Hfound. apply (Hex (challenges S o) (challenges S o2) d H1 H2).
    - rewrite <- Hl2, <- Hl. unfold same in H3. destruct (query_dec _ _) as [He|]; [exact He|discriminate].
    - rewrite <- Hl. fold y. intros He. unfold similar in H4.
      change (challenge_of S (answer o2 y)) with (answer (challenges S o2) y) in H4.
      change (challenge_of S (answer o y)) with (answer (challenges S o) y) in H4.
      rewrite He, (s_eqb_refl L) in H4. discriminate. }
  rewrite Hs in Hfork. unfold s, F, size.
  set (w := List.length (filter (fun o => accepted (challenges S o) (run (challenges S o) A)) W)) in *.
  set (f := List.length (filter (fun p => found (fst p) (snd p)) (list_prod W W))) in *.
  assert (Hfin : q * (w * w) <= n * (q * f + Z.to_nat m * w * q ^ List.length D)).
  { etransitivity; [apply Hfork|].
    - intros o _. rewrite Hask. apply Hinc.
    - intros o _ Ho. rewrite Hask, Hrun. unfold pos'. cbn [fst snd]. rewrite Hwin in Ho. destruct (Hlast _ Ho) as [_ Hnil].
      apply last_in. exact Hnil.
    - apply Nat.mul_le_mono_l. apply Nat.add_le_mono_r. apply Nat.mul_le_mono_l. exact HF. }
  assert (Hm : (Z.of_nat (Z.to_nat m) = m)%Z).
  { apply Z2Nat.id. apply (proj2 Hbal s_default []); [constructor|intros ? []]. }
  apply Nat2Z.inj_le in Hfin. rewrite !Nat2Z.inj_mul, Nat2Z.inj_add, !Nat2Z.inj_mul, Nat2Z.inj_pow, Hm in Hfin. exact Hfin.
Qed.

Lemma extractable_one {X Y : Type} (A : strategy X) (V : X -> strategy Y) Q
    (accepted : hash scalar -> X -> bool) (extracted : X -> X -> Prop) (win : X -> Y -> bool) :
  at_most Q A -> (forall x, at_most 1 (V x)) ->
  (forall o x, accepted o x = win x (run o (V x))) ->
  (forall o x, accepted o x = true -> asked o (V x) <> []) ->
  (forall o o2 d, let x := run o A in let x2 := run o2 A in let y := last (asked o (V x)) d in
     accepted o x = true -> accepted o2 x2 = true -> last (asked o2 (V x2)) d = y -> answer o y <> answer o2 y ->
     extracted x x2) ->
  extractable S m A V accepted extracted (Z.of_nat Q + 1).
Proof.
  intros HA HV H1 H2 H3. replace (Z.of_nat Q + 1)%Z with (Z.of_nat (Q + 1)) by lia.
  apply (extractable_intro A V (Q + 1) accepted extracted win); try assumption. apply at_most_andthen; assumption.
Qed.

End Extractable.
