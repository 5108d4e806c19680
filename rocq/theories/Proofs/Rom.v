(** * Counting hash functions: lemmas for C57, C58 *)
From Coq Require Import List String NArith ZArith Lia Arith Bool.
From Verif.Model Require Import Base Group Transcript.
From Verif.Spec Require Import Rom.
From Verif.Proofs Require Import Algebra.
Import ListNotations.
Open Scope list_scope.
Open Scope nat_scope.

Lemma tev_eq_dec (a b : tev) : {a = b} + {a <> b}.
Proof. decide equality; try apply string_dec; apply list_eq_dec; apply Byte.byte_eq_dec. Qed.

Lemma query_eq_dec (a b : query) : {a = b} + {a <> b}.
Proof. decide equality; [apply string_dec | apply list_eq_dec, tev_eq_dec]. Qed.

Lemma filter_FOP {A : Type} (R : A -> A -> Prop) f l : ForallOrdPairs R l -> ForallOrdPairs R (filter f l).
Proof.
  induction 1 as [|a l Ha Hl IH]; [constructor|]. cbn. destruct (f a); [|exact IH].
  constructor; [|exact IH]. rewrite Forall_forall in *. intros x Hx. apply filter_In in Hx as [Hx _]. auto.
Qed.

Lemma FOP_app {A : Type} (R : A -> A -> Prop) l l' :
  ForallOrdPairs R l -> ForallOrdPairs R l' -> (forall a b, In a l -> In b l' -> R a b) -> ForallOrdPairs R (l ++ l').
Proof.
  induction 1 as [|a l Ha Hl IH]; intros Hl' Hx; [exact Hl'|]. cbn. constructor.
  - apply Forall_app. split; [exact Ha|]. apply Forall_forall. intros b Hb. apply Hx; [left; reflexivity|exact Hb].
  - apply IH; [exact Hl'|]. intros b c Hb Hc. apply Hx; [right; exact Hb|exact Hc].
Qed.

Lemma FOP_map {A B : Type} (R : A -> A -> Prop) (S : B -> B -> Prop) (f : A -> B) l :
  (forall a b, In a l -> In b l -> R a b -> S (f a) (f b)) -> ForallOrdPairs R l -> ForallOrdPairs S (map f l).
Proof.
  intros Hf H. induction H as [|a l Ha Hl IH]; [constructor|]. cbn. constructor.
  - rewrite Forall_forall in *. intros b Hb. apply in_map_iff in Hb as (b' & <- & Hb'). apply Hf; cbn; auto.
  - apply IH. intros b c Hb Hc. apply Hf; cbn; auto.
Qed.

Lemma filter_length_le {A : Type} (f : A -> bool) l : List.length (filter f l) <= List.length l.
Proof. induction l as [|a l IH]; cbn; [lia|]. destruct (f a); cbn; lia. Qed.

Lemma NoDup_map_in {A B : Type} (f : A -> B) l :
  (forall x y, In x l -> In y l -> f x = f y -> x = y) -> NoDup l -> NoDup (map f l).
Proof.
  intros Hf H. induction H as [|a l Ha Hl IH]; [constructor|]. cbn. constructor.
  - intros Hin. apply in_map_iff in Hin as (b & Hb & Hin). apply Ha. rewrite (Hf a b); cbn; auto.
  - apply IH. intros x y Hx Hy. apply Hf; cbn; auto.
Qed.

(** a list splits into the parts with given keys *)
Lemma filter_partition {A B : Type} (eqb : B -> B -> bool) (Heq : forall a b, eqb a b = true <-> a = b)
    (key : A -> B) (cs : list B) (W : list A) :
  (forall o, In o W -> In (key o) cs) ->
  List.length W <= list_sum (map (fun c => List.length (filter (fun o => eqb (key o) c) W)) cs).
Proof.
  induction W as [|o W IH]; intros H; cbn [List.length]; [lia|].
  assert (Hin : In (key o) cs) by (apply H; left; reflexivity).
  specialize (IH (fun o' Ho' => H o' (or_intror Ho'))). clear H.
  enough (list_sum (map (fun c => List.length (filter (fun o => eqb (key o) c) W)) cs) + 1 <=
          list_sum (map (fun c => List.length (filter (fun o => eqb (key o) c) (o :: W))) cs)) by lia.
  clear IH. induction cs as [|c cs IH]; [destruct Hin|]. cbn [map list_sum fold_right].
  fold (list_sum (map (fun c => List.length (filter (fun o => eqb (key o) c) W)) cs)).
  fold (list_sum (map (fun c => List.length (filter (fun o => eqb (key o) c) (o :: W))) cs)).
  assert (Hmon : forall cs', list_sum (map (fun c => List.length (filter (fun o => eqb (key o) c) W)) cs') <=
            list_sum (map (fun c => List.length (filter (fun o => eqb (key o) c) (o :: W))) cs')).
  { clear. induction cs' as [|c cs IH]; [cbn; lia|]. cbn [map list_sum fold_right] in *.
    cbn [filter] in *. destruct (eqb (key o) c); cbn [List.length]; unfold list_sum in *; lia. }
  specialize (Hmon cs). destruct (eqb (key o) c) eqn:Hc.
  - cbn [filter] in *. rewrite Hc. cbn [List.length]. lia.
  - destruct Hin as [Hk|Hin]; [|specialize (IH Hin); cbn [filter] in *; rewrite Hc; lia].
    rewrite (proj2 (Heq (key o) c) (eq_sym Hk)) in Hc. discriminate.
Qed.

Section Scalars.
Context (G : Group) (L : GroupLaws G).
Local Notation scalar := (Scalar G).

Lemma s_dec (a b : scalar) : {a = b} + {a <> b}.
Proof.
  destruct (s_eqb a b) eqn:H; [left; apply (s_eqb_ok _ L); exact H|right; intros Hc].
  apply (s_eqb_ok _ L) in Hc. congruence.
Defined.

(** all scalars *)
Definition scalars : list scalar := map (fun n => phi L (Z.of_nat n)) (seq 0 (Z.to_nat (order L))).
Definition q : nat := Z.to_nat (order L).

Lemma q_pos : 1 < q.
Proof. unfold q. pose proof (order_gt_1 L). lia. Qed.

Lemma scalars_length : List.length scalars = q.
Proof. unfold scalars, q. rewrite map_length, seq_length. reflexivity. Qed.

Lemma scalars_all s : In s scalars.
Proof.
  destruct (phi_surj _ L s) as [z ->]. unfold scalars. apply in_map_iff. pose proof (order_gt_1 L).
  exists (Z.to_nat (z mod order L)). split.
  - rewrite Z2Nat.id by (apply Z.mod_pos_bound; lia). apply (phi_eq _ L). apply Z.mod_mod. lia.
  - apply in_seq. pose proof (Z.mod_pos_bound z (order L)). lia.
Qed.

Lemma scalars_NoDup : NoDup scalars.
Proof.
  unfold scalars. apply NoDup_map_in; [|apply seq_NoDup].
  intros x y Hx Hy H. apply in_seq in Hx. apply in_seq in Hy. apply (phi_eq _ L) in H.
  rewrite !Z.mod_small in H by lia. lia.
Qed.

End Scalars.

Section Rom.
Context (R : Type) (R_dec : forall a b : R, {a = b} + {a <> b}) (values : list R).
Local Notation hash := (hash R).
Local Notation strategy := (strategy R).
Local Notation q := (List.length values).

Definition R_eqb (a b : R) : bool := if R_dec a b then true else false.
Lemma R_eqb_ok a b : R_eqb a b = true <-> a = b.
Proof. unfold R_eqb. destruct (R_dec a b); intuition congruence. Qed.

(** ** runs depend on the answers only *)
Lemma run_ext {A : Type} (o o' : hash) (T : strategy A) :
  (forall x, In x (asked o T) -> answer o x = answer o' x) -> run o T = run o' T /\ asked o T = asked o' T.
Proof.
  induction T as [a|x k IH]; intros H; cbn; [auto|].
  cbn in H. pose proof (H x (or_introl eq_refl)) as Hx. rewrite <- Hx.
  destruct (IH (answer o x)) as [-> ->]; auto.
Qed.

Lemma run_andthen {A B : Type} (o : hash) (T : strategy A) (f : A -> strategy B) : run o (andthen T f) = run o (f (run o T)).
Proof. induction T as [a|x k IH]; cbn; auto. Qed.

Lemma asked_andthen {A B : Type} (o : hash) (T : strategy A) (f : A -> strategy B) :
  asked o (andthen T f) = asked o T ++ asked o (f (run o T)).
Proof. induction T as [a|x k IH]; cbn; [reflexivity|]. rewrite IH. reflexivity. Qed.

Lemma at_most_mono {A : Type} n m (T : strategy A) : at_most n T -> n <= m -> at_most m T.
Proof.
  intros H. revert m. induction H as [n a|n x k H IH]; intros m Hm; [constructor|].
  destruct m as [|m]; [lia|]. constructor. intros c. apply IH. lia.
Qed.

Lemma at_most_andthen {A B : Type} n m (T : strategy A) (f : A -> strategy B) :
  at_most n T -> (forall a, at_most m (f a)) -> at_most (n + m) (andthen T f).
Proof.
  intros H Hf. induction H as [n a|n x k H IH]; cbn.
  - apply (at_most_mono m); [apply Hf|lia].
  - constructor. exact IH.
Qed.

(** ** the number of hash functions on [D] *)
Definition without (x : query) (D : list query) : list query := filter (fun y => if query_eq_dec x y then false else true) D.

Lemma without_in x y D : In y (without x D) <-> In y D /\ x <> y.
Proof. unfold without. rewrite filter_In. destruct (query_eq_dec x y); intuition congruence. Qed.

Lemma without_length x D : In x D -> S (List.length (without x D)) <= List.length D.
Proof.
  induction D as [|y D IH]; intros H; [destruct H|]. cbn. destruct (query_eq_dec x y) as [<-|Hne].
  - unfold without. pose proof (filter_length_le (fun y => if query_eq_dec x y then false else true) D). lia.
  - destruct H as [<-|H]; [congruence|]. cbn. specialize (IH H). unfold without in IH. lia.
Qed.

Definition part (x : query) (c : R) (W : list hash) : list hash := filter (fun o => R_eqb (answer o x) c) W.

Lemma part_in x c W o : In o (part x c W) <-> In o W /\ answer o x = c.
Proof. unfold part. rewrite filter_In, R_eqb_ok. reflexivity. Qed.

Lemma part_hashes x c D W : hashes_on values D W -> hashes_on values (without x D) (part x c W).
Proof.
  intros (H1 & H0 & H2). split; [apply filter_FOP; exact H1|]. split.
  { intros o y Ho Hy. apply part_in in Ho as [Ho _]. apply without_in in Hy as [Hy _]. apply H0; assumption. }
  intros o o' y Ho Ho' Hy. apply part_in in Ho as [Ho <-]. apply part_in in Ho' as [Ho' Hc].
  destruct (query_eq_dec x y) as [<-|Hne]; [congruence|]. apply H2; [exact Ho|exact Ho'|].
  intros Hin. apply Hy. apply without_in. auto.
Qed.

Lemma split_parts x D W : hashes_on values D W -> In x D -> List.length W <= list_sum (map (fun c => List.length (part x c W)) values).
Proof. intros (_ & H & _) Hx. apply filter_partition; [apply R_eqb_ok|]. intros o Ho. apply H; assumption. Qed.

Lemma values_pos x D o W : hashes_on values D (o :: W) -> In x D -> 1 <= q.
Proof. intros (_ & H & _) Hx. pose proof (H o x (or_introl eq_refl) Hx) as Hv. destruct values; [destruct Hv|cbn; lia]. Qed.

Lemma list_sum_bound {A : Type} (f : A -> nat) l m : (forall a, In a l -> f a <= m) -> list_sum (map f l) <= List.length l * m.
Proof.
  induction l as [|a l IH]; intros H; cbn; [lia|]. pose proof (H a (or_introl eq_refl)).
  specialize (IH (fun b Hb => H b (or_intror Hb))). unfold list_sum in IH. lia.
Qed.

Lemma hashes_count D : forall W : list hash, hashes_on values D W -> List.length W <= q ^ List.length D.
Proof.
  remember (List.length D) as n eqn:Hn. revert D Hn. induction n as [n IH] using lt_wf_ind. intros D -> W HW.
  destruct D as [|x D].
  - destruct HW as (H1 & _ & H2). destruct W as [|o [|o' W]]; cbn; [lia|lia|].
    inversion H1 as [|? ? Ha]. inversion Ha as [|? ? [x Hx]]. destruct Hx. apply H2; cbn; auto.
  - destruct W as [|o W]; [cbn; lia|]. pose proof (values_pos x _ _ _ HW (or_introl eq_refl)) as Hq.
    set (W' := o :: W) in *. clearbody W'. clear o W. rename W' into W.
    pose proof (split_parts x _ W HW (or_introl eq_refl)) as Hs.
    assert (Hw : S (List.length (without x (x :: D))) <= S (List.length D)) by (apply (without_length x (x :: D)); left; reflexivity).
    assert (Hb : list_sum (map (fun c => List.length (part x c W)) values) <= List.length values * q ^ List.length D).
    { apply list_sum_bound. intros c _.
      etransitivity; [refine (IH (List.length (without x (x :: D))) _ (without x (x :: D)) eq_refl _ (part_hashes _ _ _ _ HW)); cbn [List.length]; lia|].
      apply Nat.pow_le_mono_r; [lia|lia]. }
    cbn [List.length Nat.pow]. lia.
Qed.

(** conversely there are that many *)
Definition upd (o : hash) (x : query) (c : R) : hash :=
  fun t l => if query_eq_dec x (t, l) then c else o t l.

Lemma upd_same o x c : answer (upd o x c) x = c.
Proof. destruct x as [t l]. unfold answer, upd. cbn. destruct (query_eq_dec (t, l) (t, l)); congruence. Qed.

Lemma upd_other o x c y : x <> y -> answer (upd o x c) y = answer o y.
Proof. destruct y as [t l]. unfold answer, upd. cbn. destruct (query_eq_dec x (t, l)); congruence. Qed.

Context (values_nodup : NoDup values).

Lemma hashes_exist (o0 : hash) D : NoDup D ->
  exists W : list hash, hashes_on values D W /\ List.length W = q ^ List.length D /\
    (forall o x, In o W -> ~ In x D -> answer o x = answer o0 x) /\
    (forall o, (forall x, In x D -> In (answer o x) values) -> (forall x, ~ In x D -> answer o x = answer o0 x) -> exists o', In o' W /\ forall x, answer o' x = answer o x).
Proof.
  induction 1 as [|x D Hx HD (W & (H1 & H0 & H2) & Hl & H3 & H4)].
  - exists [o0]. cbn. split; [split; [|split]|split; [reflexivity|split]].
    + constructor; constructor.
    + intros o y _ [].
    + intros o o' y [<-|[]] [<-|[]] _. reflexivity.
    + intros o y [<-|[]] _. reflexivity.
    + intros o _ Ho. exists o0. split; [left; reflexivity|]. intros y. symmetry. apply Ho. intros [].
  - exists (flat_map (fun c => map (fun o => upd o x c) W) values). split; [split; [|split]|split; [|split]].
    + revert values_nodup. generalize values. intros vs Hnd. induction vs as [|c cs IH]; cbn; [constructor|].
      inversion Hnd as [|? ? Hc Hcs]; subst. apply FOP_app; [| apply IH; exact Hcs|].
      * eapply FOP_map; [|exact H1]. intros a b Ha Hb [y Hy].
        destruct (query_eq_dec x y) as [<-|Hne]; [destruct Hy; apply H2; assumption|].
        exists y. rewrite !upd_other by exact Hne. exact Hy.
      * intros a b Ha Hb. apply in_map_iff in Ha as (a' & <- & Ha). apply in_flat_map in Hb as (c' & Hc' & Hb).
        apply in_map_iff in Hb as (b' & <- & Hb). exists x. rewrite !upd_same. intros ->. auto.
    + intros o y Ho Hy. apply in_flat_map in Ho as (c & Hc & Ho). apply in_map_iff in Ho as (a & <- & Ha).
      destruct (query_eq_dec x y) as [<-|Hne]; [rewrite upd_same; exact Hc|]. rewrite upd_other by exact Hne.
      destruct Hy as [->|Hy]; [congruence|]. apply H0; assumption.
    + intros o o' y Ho Ho' Hy. apply in_flat_map in Ho as (c & _ & Ho). apply in_flat_map in Ho' as (c' & _ & Ho').
      apply in_map_iff in Ho as (a & <- & Ha). apply in_map_iff in Ho' as (b & <- & Hb). cbn in Hy.
      rewrite !upd_other by (intros ->; apply Hy; left; reflexivity). apply H2; auto.
    + assert (Hlen : forall cs : list R, List.length (flat_map (fun c => map (fun o => upd o x c) W) cs) = List.length cs * List.length W).
      { induction cs as [|c cs IH]; cbn; [reflexivity|]. rewrite app_length, map_length, IH. reflexivity. }
      rewrite Hlen, Hl. reflexivity.
    + intros o y Ho Hy. apply in_flat_map in Ho as (c & _ & Ho). apply in_map_iff in Ho as (a & <- & Ha). cbn in Hy.
      rewrite upd_other by (intros ->; apply Hy; left; reflexivity). apply H3; auto.
    + intros o Hv Ho. destruct (H4 (upd o x (answer o0 x))) as (o' & Hin & Ho').
      { intros y Hy. rewrite upd_other by (intros ->; contradiction). apply Hv. right. exact Hy. }
      { intros y Hy. destruct (query_eq_dec x y) as [<-|Hne]; [apply upd_same|]. rewrite upd_other by exact Hne.
        apply Ho. intros [H|H]; [congruence|contradiction]. }
      exists (upd o' x (answer o x)). split.
      * apply in_flat_map. exists (answer o x). split; [apply Hv; left; reflexivity|]. apply in_map_iff. eauto.
      * intros y. destruct (query_eq_dec x y) as [<-|Hne]; [apply upd_same|]. rewrite upd_other by exact Hne.
        rewrite Ho'. apply upd_other. exact Hne.
Qed.

(** ** hitting a bad answer

    [bad h x c]: answering the new query [x] by [c], after the queries [h], is a success for the
    adversary. *)
Section Bad.
Context (bad : list query -> query -> R -> Prop).

Fixpoint hits {A : Type} (D : list query) (o : hash) (h : list query) (T : strategy A) : Prop :=
  match T with
  | Output _ => False
  | Ask x k =>
      (In x D /\ ~ In x h /\ bad h x (answer o x)) \/
      hits D o (if in_dec query_eq_dec x h then h else x :: h) (k (answer o x))
  end.

Lemma hits_without {A : Type} D o x (T : strategy A) : forall h, In x h -> hits D o h T -> hits (without x D) o h T.
Proof.
  induction T as [a|y k IH]; intros h Hx H; cbn in *; [exact H|].
  destruct H as [(H1 & H2 & H3)|H]; [left|right].
  - split; [|auto]. apply without_in. split; [exact H1|]. intros ->. auto.
  - apply IH; [|exact H]. destruct (in_dec query_eq_dec y h); [exact Hx|right; exact Hx].
Qed.

Lemma hits_ext {A : Type} D o o' (T : strategy A) : forall h,
  (forall x, answer o x = answer o' x) -> hits D o h T -> hits D o' h T.
Proof.
  induction T as [a|y k IH]; intros h He H; cbn in *; [exact H|]. rewrite <- He.
  destruct H as [H|H]; [left; exact H|right; apply IH; auto].
Qed.

Context (m : nat -> nat) (Hm : forall a b, a <= b -> m a <= m b).
Context (Hbad : forall h x cs, NoDup cs -> incl cs values -> Forall (bad h x) cs -> List.length cs <= m (List.length h)).

(** classical case analysis is harmless when proving an inequality *)
Lemma decided (P : R -> Prop) (l : list R) :
  ~ ~ (exists f : R -> bool, forall c, In c l -> f c = true <-> P c).
Proof.
  induction l as [|c l IH]; intros Hn.
  - apply Hn. exists (fun _ => true). intros c [].
  - apply IH. intros [f Hf].
    assert (Hgo : forall b : bool, (b = true <-> P c) -> False).
    { intros b Hb. apply Hn. exists (fun c' => if R_dec c c' then b else f c'). intros c' [<-|Hin].
      - destruct (R_dec c c); [exact Hb|congruence].
      - destruct (R_dec c c') as [<-|]; [exact Hb|apply Hf; exact Hin]. }
    apply (Hgo false). split; [discriminate|]. intros Hp. exfalso. apply (Hgo true). split; auto.
Qed.

(** sum over all queries *)
Definition total (h n : nat) : nat := list_sum (map (fun i => m (h + i)) (seq 0 n)).

Lemma total_S h n : total h (S n) = m h + total (S h) n.
Proof.
  unfold total. cbn [seq map list_sum fold_right]. rewrite Nat.add_0_r. f_equal.
  rewrite <- seq_shift, map_map. unfold list_sum. f_equal. apply map_ext. intros i. f_equal. lia.
Qed.

Lemma total_mono h h' n : h <= h' -> total h n <= total h' n.
Proof.
  intros H. unfold total. induction (seq 0 n) as [|i l IH]; [cbn; lia|]. cbn [map list_sum fold_right] in *.
  unfold list_sum in *. pose proof (Hm (h + i) (h' + i)). lia.
Qed.

Lemma sum_split (f : R -> bool) (g : R -> nat) a b l :
  (forall c, In c l -> f c = true -> g c <= a) -> (forall c, In c l -> f c = false -> g c <= b) ->
  list_sum (map g l) <= List.length (filter f l) * a + List.length l * b.
Proof.
  induction l as [|c l IH]; intros Ha Hb; cbn; [lia|].
  specialize (IH (fun c' H => Ha c' (or_intror H)) (fun c' H => Hb c' (or_intror H))). unfold list_sum in IH.
  destruct (f c) eqn:Hf; cbn [List.length].
  - pose proof (Ha c (or_introl eq_refl) Hf). lia.
  - pose proof (Hb c (or_introl eq_refl) Hf). lia.
Qed.

Lemma sum_scale (g : R -> nat) l k : k * list_sum (map g l) = list_sum (map (fun c => k * g c) l).
Proof. induction l as [|c l IH]; cbn; [lia|]. unfold list_sum in IH. lia. Qed.

Theorem hits_count {A : Type} : forall n (T : strategy A) h D (W : list hash),
  at_most n T -> (forall x, In x h -> ~ In x D) -> hashes_on values D W -> Forall (fun o => hits D o h T) W ->
  q * List.length W <= total (List.length h) n * q ^ List.length D.
Proof.
  intros n T. revert n. induction T as [a|x k IH]; intros n h D W Hn Hh HW Hhit.
  - destruct W as [|o W]; [cbn; lia|]. inversion Hhit as [|? ? Ho]. destruct Ho.
  - inversion Hn as [|n' x' k' Hk]; subst. rewrite total_S.
    destruct (in_dec query_eq_dec x D) as [Hx|Hx].
    + assert (Hxh : ~ In x h) by (intros Hin; exact (Hh x Hin Hx)).
      destruct (le_dec (q * List.length W) ((m (List.length h) + total (S (List.length h)) n') * q ^ List.length D)) as [Hle|Hnle]; [exact Hle|].
      exfalso. apply (decided (bad h x) values). intros [f Hf]. apply Hnle. clear Hnle.
      destruct W as [|o0 W0]; [cbn; lia|]. pose proof (values_pos x _ _ _ HW Hx) as Hq.
      set (W := o0 :: W0) in *. clearbody W. clear o0 W0.
      pose proof (split_parts x D W HW Hx) as Hs. pose proof (without_length x D Hx) as Hw.
      set (D' := without x D) in *.
      assert (Hpow : q * q ^ List.length D' <= q ^ List.length D).
      { change (q ^ S (List.length D') <= q ^ List.length D). apply Nat.pow_le_mono_r; [lia|exact Hw]. }
      assert (Hsum : list_sum (map (fun c => q * List.length (part x c W)) values) <=
                List.length (filter f values) * (q * q ^ List.length D') +
                List.length values * (total (S (List.length h)) n' * q ^ List.length D')).
      { apply sum_split.
        - intros c _ _. apply Nat.mul_le_mono_l. apply hashes_count. apply part_hashes. exact HW.
        - intros c Hc Hfc. apply (IH c n' (x :: h) D' (part x c W)).
          + apply Hk.
          + intros y [<-|Hy] Hin; apply without_in in Hin; [destruct Hin; congruence|]. exact (Hh y Hy (proj1 Hin)).
          + apply part_hashes. exact HW.
          + apply Forall_forall. intros o Ho. apply part_in in Ho as [Ho Hoc].
            rewrite Forall_forall in Hhit. specialize (Hhit o Ho). cbn in Hhit. rewrite Hoc in Hhit.
            destruct (in_dec query_eq_dec x h); [contradiction|].
            destruct Hhit as [(_ & _ & Hb)|Hhit]; [apply Hf in Hb; [congruence|exact Hc]|].
            apply hits_without; [left; reflexivity|exact Hhit]. }
      assert (Hb : List.length (filter f values) <= m (List.length h)).
      { apply (Hbad h x); [apply NoDup_filter, values_nodup|intros c Hc; apply filter_In in Hc; tauto|]. apply Forall_forall. intros c Hc.
        apply filter_In in Hc as [Hc Hfc]. apply Hf; assumption. }
      rewrite <- sum_scale in Hsum.
      assert (H1 : q * List.length W <= q * list_sum (map (fun c => List.length (part x c W)) values)) by (apply Nat.mul_le_mono_l; exact Hs).
      assert (H2 : List.length (filter f values) * (q * q ^ List.length D') <= m (List.length h) * q ^ List.length D)
        by (apply Nat.mul_le_mono; assumption).
      assert (H3 : q * (total (S (List.length h)) n' * q ^ List.length D') <= total (S (List.length h)) n' * q ^ List.length D).
      { replace (q * (total (S (List.length h)) n' * q ^ List.length D')) with (total (S (List.length h)) n' * (q * q ^ List.length D')) by lia.
        apply Nat.mul_le_mono_l. exact Hpow. }
      rewrite Nat.mul_add_distr_r. lia.
    + (* not a point of the domain: the answer is the same for all functions *)
      destruct W as [|o0 W]; [cbn; lia|]. set (c0 := answer o0 x).
      assert (Hall : forall o, In o (o0 :: W) -> answer o x = c0).
      { intros o Ho. destruct HW as (_ & _ & H2). apply (H2 o o0 x); [exact Ho|left; reflexivity|exact Hx]. }
      set (h' := if in_dec query_eq_dec x h then h else x :: h).
      assert (Hle : q * List.length (o0 :: W) <= total (List.length h') n' * q ^ List.length D).
      { apply (IH c0 n' h' D (o0 :: W)).
        - apply Hk.
        - intros y Hy. unfold h' in Hy. destruct (in_dec query_eq_dec x h); [auto|]. destruct Hy as [<-|Hy]; auto.
        - exact HW.
        - rewrite Forall_forall in *. intros o Ho. specialize (Hhit o Ho). cbn in Hhit. rewrite (Hall o Ho) in Hhit.
          destruct Hhit as [(Hc & _)|Hhit]; [contradiction|exact Hhit]. }
      etransitivity; [exact Hle|]. apply Nat.mul_le_mono_r.
      assert (Hh' : List.length h' <= S (List.length h)) by (unfold h'; destruct (in_dec query_eq_dec x h); cbn; lia).
      pose proof (total_mono _ _ n' Hh'). lia.
Qed.

End Bad.
End Rom.

(** ** sources of challenges *)
Section Source.
Context (G : Group) (L : GroupLaws G) (S : source G).
Local Notation scalar := (Scalar G).

(** the same algorithm with access to the hash values *)
Fixpoint via {A : Type} (T : strategy scalar A) : strategy (digest S) A :=
  match T with
  | Output a => Output a
  | Ask x k => Ask x (fun d => via (k (challenge_of S d)))
  end.

Lemma via_run {A : Type} (o : hash (digest S)) (T : strategy scalar A) : run o (via T) = run (challenges S o) T.
Proof. induction T as [a|x k IH]; cbn; [reflexivity|]. apply IH. Qed.
Lemma via_asked {A : Type} (o : hash (digest S)) (T : strategy scalar A) : asked o (via T) = asked (challenges S o) T.
Proof. induction T as [a|x k IH]; cbn; [reflexivity|]. f_equal. apply IH. Qed.
Lemma via_most {A : Type} n (T : strategy scalar A) : at_most n T -> at_most n (via T).
Proof. induction 1 as [n a|n x k H IH]; cbn; constructor. intros d. apply IH. Qed.

Context (bad : list query -> query -> scalar -> Prop).
Lemma via_hits {A : Type} D (o : hash (digest S)) (T : strategy scalar A) : forall h,
  hits scalar bad D (challenges S o) h T -> hits (digest S) (fun h x d => bad h x (challenge_of S d)) D o h (via T).
Proof.
  induction T as [a|x k IH]; intros h H; cbn in *; [exact H|].
  destruct H as [H|H]; [left; exact H|right; apply IH; exact H].
Qed.

Context (m : nat -> nat) (Hm : forall a b, a <= b -> m a <= m b).
Context (Hbad : forall h x cs, NoDup cs -> Forall (bad h x) cs -> List.length cs <= m (List.length h)).
Context (mu : nat) (Hbal : balanced S (Z.of_nat mu)).

Lemma source_bad h x ds : NoDup ds -> incl ds (digests S) -> Forall (fun d => bad h x (challenge_of S d)) ds ->
  List.length ds <= mu * m (List.length h).
Proof.
  intros Hnd Hin Hf. set (cs := nodup (s_dec G L) (map (challenge_of S) ds)).
  assert (Hcs : List.length cs <= m (List.length h)).
  { apply (Hbad h x); [apply NoDup_nodup|]. apply Forall_forall. intros c Hc. apply nodup_In in Hc.
    apply in_map_iff in Hc as (d & <- & Hd). rewrite Forall_forall in Hf. auto. }
  pose proof (filter_partition s_eqb (s_eqb_ok _ L) (challenge_of S) cs ds) as Hp.
  assert (Hb : list_sum (map (fun c => List.length (filter (fun d => s_eqb (challenge_of S d) c) ds)) cs) <= List.length cs * mu).
  { apply (list_sum_bound (fun c => List.length (filter (fun d => s_eqb (challenge_of S d) c) ds))). intros c _.
    apply Nat2Z.inj_le. apply (proj2 Hbal c); [apply NoDup_filter; exact Hnd|]. intros d Hd. apply filter_In in Hd as [Hd Hc].
    apply (s_eqb_ok _ L) in Hc. auto. }
  etransitivity; [apply Hp|].
  - intros d Hd. unfold cs. apply nodup_In. apply in_map. exact Hd.
  - etransitivity; [exact Hb|]. rewrite Nat.mul_comm. apply Nat.mul_le_mono_l. exact Hcs.
Qed.

Lemma total_scale h n : total (fun k => mu * m k) h n = mu * total m h n.
Proof. unfold total. generalize (seq 0 n). intros l. induction l as [|i l IH]; cbn; [lia|]. unfold list_sum in IH. lia. Qed.

Theorem source_count {A : Type} n (T : strategy scalar A) D (W : list (hash (digest S))) :
  at_most n T -> hashes_on (digests S) D W -> Forall (fun o => hits scalar bad D (challenges S o) [] T) W ->
  List.length (digests S) * List.length W <= mu * total m 0 n * List.length (digests S) ^ List.length D.
Proof.
  intros Hn HW Hh. rewrite <- total_scale.
  apply (hits_count (digest S) (digest_dec S) (digests S) (proj1 Hbal) (fun h x d => bad h x (challenge_of S d)) (fun k => mu * m k)
    (fun a b H => Nat.mul_le_mono_l _ _ _ (Hm a b H)) source_bad n (via T) [] D W (via_most n T Hn) (fun _ H => match H with end) HW).
  revert Hh. apply Forall_impl. intros o. apply via_hits.
Qed.

End Source.

(** ** uniform scalars *)
Section Uniform.
Context (G : Group) (L : GroupLaws G).

Lemma uniform_all s : In s (digests (uniform_source L)).
Proof. exact (scalars_all G L s). Qed.
Lemma uniform_challenges (o : hash (Scalar G)) : challenges (uniform_source L) o = o.
Proof. reflexivity. Qed.
Lemma uniform_size : size (uniform_source L) = order L.
Proof.
  transitivity (Z.of_nat (List.length (scalars G L))); [reflexivity|]. rewrite (scalars_length G L). unfold q.
  pose proof (order_gt_1 L). lia.
Qed.
Lemma uniform_balanced : balanced (uniform_source L) 1.
Proof.
  split; [exact (scalars_NoDup G L)|]. intros c l Hnd Hl. destruct l as [|a [|b l]]; cbn [List.length]; [lia|lia|exfalso].
  pose proof (proj2 (Hl a (or_introl eq_refl))) as Ha. pose proof (proj2 (Hl b (or_intror (or_introl eq_refl)))) as Hb.
  cbn in Ha, Hb. subst a b. inversion Hnd as [|x y H _]. apply H. left. reflexivity.
Qed.

End Uniform.
