(** * Tactics and library lemmas for [rel] *)
From Coq Require Import List NArith String Arith Lia.
From Verif.Model Require Import Base Group Transcript Keys Encryption LogEquality Possession Ring
  Range Commitment Mul Sharing Dkg Choice Quadratic Serde.
From Verif.Spec Require Import Transfer.
Import ListNotations.

Lemma Forall2_length {A B} (R : A -> B -> Prop) l l' : Forall2 R l l' -> List.length l = List.length l'.
Proof. intros H. induction H; cbn [List.length]; congruence. Qed.

(** ** Relations which are equalities *)
Class IsEq {A : Type} (R : Rel A A) : Prop := is_eq : forall x y : A, rel x y <-> x = y.

Global Instance IsEq_eq A : IsEq (Rel_eq A).
Proof. intros x y. reflexivity. Qed.

Global Instance IsEq_prod {A B} (RA : Rel A A) (RB : Rel B B) `{!IsEq RA} `{!IsEq RB} : IsEq (Rel_prod RA RB).
Proof.
  intros [a b] [a' b']. unfold rel, Rel_prod. cbn [fst snd]. rewrite (is_eq a a'), (is_eq b b').
  split; [intros [-> ->]; reflexivity|intros H; injection H; auto].
Qed.

Global Instance IsEq_list {A} (RA : Rel A A) `{!IsEq RA} : IsEq (Rel_list RA).
Proof.
  intros x y. split.
  - intros H. induction H as [|a b l l' Hab _ IH]; [reflexivity|]. apply is_eq in Hab. congruence.
  - intros ->. induction y as [|a y IH]; constructor; [apply is_eq; reflexivity|exact IH].
Qed.

Global Instance IsEq_option {A} (RA : Rel A A) `{!IsEq RA} : IsEq (Rel_option RA).
Proof.
  intros [a|] [b|]; unfold rel, Rel_option; try rewrite (is_eq a b); split; try congruence; try easy.
Qed.

Global Instance IsEq_outcome {A} (RA : Rel A A) `{!IsEq RA} : IsEq (Rel_outcome RA).
Proof.
  intros [a|k] [b|k']; unfold rel, Rel_outcome; try rewrite (is_eq a b); split; try congruence; try easy.
Qed.

Global Instance IsEq_result {A B} (RA : Rel A A) (RB : Rel B B) `{!IsEq RA} `{!IsEq RB} : IsEq (Rel_result RA RB).
Proof.
  intros [a|a] [b|b]; unfold rel, Rel_result; try rewrite (is_eq a b); split; try congruence; try easy.
Qed.

(** relations which are reflexive *)
Class IsRefl {A : Type} (R : Rel A A) : Prop := is_refl : forall x : A, rel x x.

Global Instance IsRefl_eq {A} (R : Rel A A) `{!IsEq R} : IsRefl R | 5.
Proof. intros x. apply is_eq. reflexivity. Qed.

Global Instance IsRefl_fun {A B} (RA : Rel A A) (RB : Rel B B) `{!IsEq RA} `{!IsRefl RB} : IsRefl (Rel_fun RA RB) | 6.
Proof. intros f x x' H. apply is_eq in H as ->. apply is_refl. Qed.

(** ** Structural rules *)
Lemma rel_app {A A' B B'} {RA : Rel A A'} {RB : Rel B B'} (f : A -> B) (f' : A' -> B') x x' :
  rel f f' -> rel x x' -> rel (f x) (f' x').
Proof. intros H Hx. exact (H x x' Hx). Qed.

Lemma rel_fun {A A' B B'} {RA : Rel A A'} {RB : Rel B B'} (f : A -> B) (f' : A' -> B') :
  (forall x x', rel x x' -> rel (f x) (f' x')) -> rel f f'.
Proof. intros H. exact H. Qed.

Lemma rel_bind {A A' B B'} {RA : Rel A A'} {RB : Rel B B'} (m : outcome A) (m' : outcome A') f f' :
  rel m m' -> (forall x x', rel x x' -> rel (f x) (f' x')) -> rel (bind m f) (bind m' f').
Proof. intros Hm Hf. destruct m, m'; cbn in *; try contradiction; [apply Hf; exact Hm|exact Hm]. Qed.

Lemma rel_obind {A A' B B'} {RA : Rel A A'} {RB : Rel B B'} (m : outcome (option A)) (m' : outcome (option A')) f f' :
  rel m m' -> (forall x x', rel x x' -> rel (f x) (f' x')) -> rel (obind m f) (obind m' f').
Proof.
  intros Hm Hf. unfold obind. apply (rel_bind _ _ _ _ Hm). intros [x|] [x'|] H; try contradiction.
  - apply Hf. exact H.
  - exact I.
Qed.

Section Inversions.
Context {A A' B B' : Type} {RA : Rel A A'} {RB : Rel B B'}.

Lemma inv_pair (a : A) (a' : A') (b : B) (b' : B') : rel (a, b) (a', b') -> rel a a' /\ rel b b'.
Proof. intros H. exact H. Qed.
Lemma inv_Some (a : A) (a' : A') : rel (Some a) (Some a') -> rel a a'.
Proof. intros H. exact H. Qed.
Lemma inv_Ret (a : A) (a' : A') : rel (Ret a) (Ret a') -> rel a a'.
Proof. intros H. exact H. Qed.
Lemma inv_Ok (a : A) (a' : A') : rel (@Ok A B a) (@Ok A' B' a') -> rel a a'.
Proof. intros H. exact H. Qed.
Lemma inv_Err (b : B) (b' : B') : rel (@Err A B b) (@Err A' B' b') -> rel b b'.
Proof. intros H. exact H. Qed.
Lemma inv_cons (a : A) (a' : A') l l' : rel (a :: l) (a' :: l') -> rel a a' /\ rel l l'.
Proof. intros H. inversion H; subst. split; assumption. Qed.
Lemma inv_nil_cons (a' : A') l' : @rel (list A) (list A') (Rel_list RA) [] (a' :: l') -> False.
Proof. intros H. inversion H. Qed.
Lemma inv_cons_nil (a : A) l : @rel (list A) (list A') (Rel_list RA) (a :: l) [] -> False.
Proof. intros H. inversion H. Qed.
End Inversions.

Create HintDb par.
Global Hint Constants Transparent : par.

(** hypotheses on equal things are substituted *)
Ltac norm :=
  repeat match goal with
  | H : @rel ?A ?A ?R ?x ?y |- _ => first [apply (proj1 (is_eq x y)) in H; subst x + subst y]
  | H : @rel (_ * _) (_ * _) _ (_, _) (_, _) |- _ => apply inv_pair in H; destruct H
  | H : @rel _ _ _ (Some _) (Some _) |- _ => apply inv_Some in H
  | H : @rel _ _ _ (Ret _) (Ret _) |- _ => apply inv_Ret in H
  | H : @rel _ _ _ (Ok _) (Ok _) |- _ => apply inv_Ok in H
  | H : @rel _ _ _ (Err _) (Err _) |- _ => apply inv_Err in H
  | H : @rel _ _ _ (_ :: _) (_ :: _) |- _ => apply inv_cons in H; destruct H
  | H : @rel _ _ _ [] (_ :: _) |- _ => exfalso; exact (inv_nil_cons _ _ H)
  | H : @rel _ _ _ (_ :: _) [] |- _ => exfalso; exact (inv_cons_nil _ _ H)
  | H : @rel (option _) (option _) _ (Some _) None |- _ => contradiction H
  | H : @rel (option _) (option _) _ None (Some _) |- _ => contradiction H
  | H : @rel (outcome _) (outcome _) _ (Ret _) (Panic _) |- _ => contradiction H
  | H : @rel (outcome _) (outcome _) _ (Panic _) (Ret _) |- _ => contradiction H
  | H : @rel (result _ _) (result _ _) _ (Ok _) (Err _) |- _ => contradiction H
  | H : @rel (result _ _) (result _ _) _ (Err _) (Ok _) |- _ => contradiction H
  end.

Ltac not_type T :=
  lazymatch T with
  | Type => fail
  | Set => fail
  | Prop => fail
  | Env => fail
  | Group => fail
  | ProveSum _ => fail
  | _ => idtac
  end.

Ltac par_one :=
  cbv beta zeta;
  match goal with
  | |- forall _, _ => intro; norm
  | H : ?G |- ?G => exact H
  | |- rel ?x ?x => apply is_refl
  | |- ?x = ?x => reflexivity
  | |- rel (bind _ _) (bind _ _) => apply rel_bind
  | |- rel (obind _ _) (obind _ _) => apply rel_obind
  | |- rel (match ?x with _ => _ end) (match ?x' with _ => _ end) =>
      first [ constr_eq x x'; destruct x
            | let H := fresh "Hm" in
              assert (H : rel x x') by (repeat par_one);
              revert H; generalize x x';
              let y := fresh "y" in let y' := fresh "y'" in
              intros y y' H; norm;
              first [ is_var y'; destruct y, y'; norm
                    | destruct y
                    | destruct y' ] ]
  | IH : forall _, _ |- rel _ _ => eapply IH
  | |- rel _ _ => solve [eauto 2 with par nocore]
  | |- rel (fun _ => _) (fun _ => _) => apply rel_fun
  | |- rel (?f ?x) (?f' ?x') => let T := type of x in not_type T; apply (rel_app f f' x x')
  end.

Ltac par := repeat par_one.

(** ** Library functions *)
Section Library.
Context {A A' B B' C C' : Type} {RA : Rel A A'} {RB : Rel B B'} {RC : Rel C C'}.

Lemma p_pair : rel (@pair A B) (@pair A' B').
Proof. intros a a' Ha b b' Hb. split; assumption. Qed.
Lemma p_fst : rel (@fst A B) (@fst A' B').
Proof. intros p p' H. apply H. Qed.
Lemma p_snd : rel (@snd A B) (@snd A' B').
Proof. intros p p' H. apply H. Qed.
Lemma p_Some : rel (@Some A) (@Some A').
Proof. intros a a' H. exact H. Qed.
Lemma p_None : rel (@None A) (@None A').
Proof. exact I. Qed.
Lemma p_Ret : rel (@Ret A) (@Ret A').
Proof. intros a a' H. exact H. Qed.
Lemma p_Panic : rel (@Panic A) (@Panic A').
Proof. intros a a' H. exact H. Qed.
Lemma p_Ok : rel (@Ok A B) (@Ok A' B').
Proof. intros a a' H. exact H. Qed.
Lemma p_Err : rel (@Err A B) (@Err A' B').
Proof. intros a a' H. exact H. Qed.
Lemma p_nil : rel (@nil A) (@nil A').
Proof. constructor. Qed.
Lemma p_cons : rel (@cons A) (@cons A').
Proof. intros a a' Ha l l' Hl. constructor; assumption. Qed.
Lemma p_app : rel (@app A) (@app A').
Proof. intros a a' Ha l l' Hl. apply Forall2_app; assumption. Qed.
Lemma p_length : rel (@List.length A) (@List.length A').
Proof. intros l l' H. exact (Forall2_length _ _ _ H). Qed.
Lemma p_map : rel (@map A B) (@map A' B').
Proof. intros f f' Hf l l' H. induction H; constructor; [apply Hf; assumption|assumption]. Qed.
Lemma p_flat_map : rel (@flat_map A B) (@flat_map A' B').
Proof.
  intros f f' Hf l l' H. induction H; [constructor|]. cbn [flat_map].
  apply Forall2_app; [apply Hf; assumption|assumption].
Qed.
Lemma p_fold_left : rel (@fold_left A B) (@fold_left A' B').
Proof.
  intros f f' Hf l l' H. induction H as [|b b' l l' Hb _ IH]; intros a a' Ha; [exact Ha|].
  cbn [fold_left]. apply IH. apply Hf; assumption.
Qed.
Lemma p_combine : rel (@combine A B) (@combine A' B').
Proof.
  intros l l' H. induction H as [|a a' l l' Ha _ IH]; intros k k' Hk; [constructor|].
  destruct Hk; [constructor|]. cbn [combine]. constructor; [split; assumption|]. apply IH. assumption.
Qed.
Lemma p_firstn : rel (@firstn A) (@firstn A').
Proof.
  intros n n' Hn. hnf in Hn. subst n'. induction n as [|n IH]; intros l l' H; [constructor|].
  destruct H; [constructor|]. cbn [firstn]. constructor; [assumption|]. apply IH. assumption.
Qed.
Lemma p_skipn : rel (@skipn A) (@skipn A').
Proof.
  intros n n' Hn. hnf in Hn. subst n'. induction n as [|n IH]; intros l l' H; [exact H|].
  destruct H; [constructor|]. cbn [skipn]. apply IH. assumption.
Qed.
Lemma p_rev : rel (@rev A) (@rev A').
Proof.
  intros l l' H. induction H; [constructor|]. cbn [rev]. apply Forall2_app; [assumption|].
  constructor; [assumption|constructor].
Qed.
Lemma p_repeat : rel (@repeat A) (@repeat A').
Proof. intros a a' Ha n n' Hn. hnf in Hn. subst n'. induction n; constructor; assumption. Qed.
Lemma p_concat : rel (@List.concat A) (@List.concat A').
Proof. intros l l' H. induction H; [constructor|]. cbn [List.concat]. apply Forall2_app; assumption. Qed.
Lemma p_nth_error : rel (@nth_error A) (@nth_error A').
Proof.
  intros l l' H n n' Hn. hnf in Hn. subst n'. revert n.
  induction H; intros [|n]; try exact I; [assumption|]. cbn [nth_error]. auto.
Qed.
Lemma p_filter : rel (@filter A) (@filter A').
Proof.
  intros f f' Hf l l' H. induction H as [|a a' l l' Ha _ IH]; [constructor|]. cbn [filter].
  pose proof (Hf a a' Ha) as Hb. hnf in Hb. rewrite Hb. destruct (f' a'); [constructor; assumption|assumption].
Qed.
Lemma p_forallb : rel (@forallb A) (@forallb A').
Proof.
  intros f f' Hf l l' H. induction H as [|a a' l l' Ha _ IH]; [reflexivity|]. cbn [forallb].
  pose proof (Hf a a' Ha) as Hb. hnf in Hb, IH. rewrite Hb, IH. reflexivity.
Qed.
Lemma p_mapM : rel (@mapM A B) (@mapM A' B').
Proof.
  intros f f' Hf l l' H. induction H as [|a a' l l' Ha _ IH]; [constructor|]. cbn [mapM].
  apply rel_bind; [apply Hf; exact Ha|]. intros b b' Hb.
  apply rel_bind; [exact IH|]. intros bs bs' Hbs. cbn. constructor; assumption.
Qed.
Lemma p_seq : rel seq seq.
Proof. apply is_refl. Qed.
Lemma p_enumerate : rel (@enumerate A) (@enumerate A').
Proof.
  intros l l' H. unfold enumerate. rewrite (Forall2_length _ _ _ H).
  assert (G : forall s, @rel (list (nat * A)) (list (nat * A')) _ (combine s l) (combine s l')).
  { induction H as [|a a' l l' Ha _ IH]; intros [|i s]; try constructor; [|apply IH].
    split; [reflexivity|exact Ha]. }
  apply G.
Qed.
Lemma p_index : rel (@Base.index A) (@Base.index A').
Proof.
  intros l l' H n n' Hn. hnf in Hn. subst n'. unfold Base.index.
  pose proof (p_nth_error _ _ H n n eq_refl) as Hn.
  destruct (nth_error l n), (nth_error l' n); try contradiction; [exact Hn|reflexivity].
Qed.
Lemma p_list_set : rel (@list_set A) (@list_set A').
Proof.
  intros l l' H n n' Hn. hnf in Hn. subst n'. intros a a' Ha. revert n.
  induction H; intros [|n]; cbn [list_set]; constructor; auto; apply IHForall2.
Qed.
Lemma p_index_set : rel (@index_set A) (@index_set A').
Proof.
  intros l l' H n n' Hn a a' Ha. hnf in Hn. subst n'. unfold index_set. rewrite (Forall2_length _ _ _ H).
  destruct (n <? List.length l')%nat; [|reflexivity]. exact (p_list_set l l' H n n eq_refl a a' Ha).
Qed.
Lemma p_slice_from : rel (@slice_from A) (@slice_from A').
Proof.
  intros l l' H n n' Hn. hnf in Hn. subst n'. unfold slice_from. rewrite (Forall2_length _ _ _ H).
  destruct (n <=? List.length l')%nat; [|reflexivity]. exact (p_skipn n n eq_refl l l' H).
Qed.
Lemma p_split_at : rel (@split_at A) (@split_at A').
Proof.
  intros l l' H n n' Hn. hnf in Hn. subst n'. unfold split_at. rewrite (Forall2_length _ _ _ H).
  destruct (n <=? List.length l')%nat; [|reflexivity].
  split; [exact (p_firstn n n eq_refl l l' H)|exact (p_skipn n n eq_refl l l' H)].
Qed.
Lemma p_chunks : rel (@chunks A) (@chunks A').
Proof.
  intros k k' Hk n n' Hn. hnf in Hk, Hn. subst k' n'.
  induction k as [|k IH]; intros l l' H; [constructor|]. cbn [chunks].
  destruct H as [|a a' l l' Ha H]; [constructor|].
  constructor; [apply (p_firstn n n eq_refl); constructor; assumption|].
  apply IH. apply (p_skipn n n eq_refl); constructor; assumption.
Qed.
Lemma p_option_all : rel (@option_all A B) (@option_all A' B').
Proof.
  intros f f' Hf l l' H. induction H as [|a a' l l' Ha _ IH]; [constructor|]. cbn [option_all].
  pose proof (Hf a a' Ha) as Hb. destruct (f a), (f' a'); try contradiction; [|exact I].
  destruct (option_all f l), (option_all f' l'); try contradiction; [|exact I]. constructor; assumption.
Qed.
Lemma p_odd_collect : forall n l l', rel l l' -> forall e,
  rel (OddItems_collect n (mkOddItems l e)) (OddItems_collect n (mkOddItems (A := A') l' e)).
Proof.
  induction n as [|n IH]; intros l l' H e; [constructor|].
  cbn [OddItems_collect OddItems_next oi_ended oi_iter]. destruct e; [constructor|].
  destruct H as [|a a' l l' Ha H]; [constructor|]. cbn [list_next].
  destruct H as [|b b' l l' Hb H]; [constructor|]. cbn [list_next].
  constructor; [assumption|]. apply IH. exact H.
Qed.
Lemma p_odd_items : rel (@odd_items A) (@odd_items A').
Proof.
  intros l l' H. unfold odd_items. rewrite (Forall2_length _ _ _ H). apply (p_odd_collect _ _ _ H).
Qed.
Lemma p_reduce : rel (@reduce A) (@reduce A').
Proof.
  intros f f' Hf l l' H. destruct H as [|a a' l l' Ha H]; [exact I|]. cbn [reduce]. 
  assert (G : forall a a', rel a a' -> rel (fold_left f l a) (fold_left f' l' a')).
  { clear a a' Ha. induction H as [|b b' l l' Hb _ IH]; intros a a' Ha; [exact Ha|]. cbn [fold_left].
    apply IH, Hf; assumption. }
  apply G. exact Ha.
Qed.
Lemma p_unwrap : rel (@unwrap A) (@unwrap A').
Proof. intros [a|] [a'|] H; try contradiction; [exact H|reflexivity]. Qed.
Lemma p_unwrap_all : rel (@unwrap_all A) (@unwrap_all A').
Proof.
  intros l l' H. unfold unwrap_all. induction H as [|a a' l l' Ha _ IH]; [constructor|]. cbn [mapM].
  apply rel_bind; [exact (p_unwrap a a' Ha)|]. intros b b' Hb.
  apply rel_bind; [exact IH|]. intros bs bs' Hbs. constructor; assumption.
Qed.
Lemma p_flatten_options : rel (@flatten_options A) (@flatten_options A').
Proof.
  intros l l' H. unfold flatten_options. induction H as [|a a' l l' Ha _ IH]; [constructor|].
  cbn [flat_map]. destruct a, a'; try contradiction; [|exact IH]. cbn [app]. constructor; assumption.
Qed.
Lemma p_missing_options : rel (@missing_options A) (@missing_options A').
Proof.
  intros l l' H. unfold missing_options, enumerate. apply is_eq. rewrite (Forall2_length _ _ _ H).
  generalize (seq 0 (List.length l')). induction H as [|a a' l l' Ha _ IH]; intros [|i s]; try reflexivity.
  cbn [combine filter snd]. destruct a, a'; try contradiction; [apply IH|].
  cbn [map fst]. f_equal. apply IH.
Qed.
Lemma p_mkCodec : rel (@mkCodec A) (@mkCodec A').
Proof. intros e e' He d d' Hd. split; assumption. Qed.
Lemma p_enc : rel (@enc A) (@enc A').
Proof. intros c c' H. apply H. Qed.
Lemma p_dec : rel (@dec A) (@dec A').
Proof. intros c c' H. apply H. Qed.
Lemma p_dec_all : rel (@dec_all A) (@dec_all A').
Proof.
  intros d d' Hd l l' H. apply is_eq in H. subst l'. induction l as [|v l IH]; [constructor|]. cbn [dec_all].
  apply rel_obind; [apply Hd; reflexivity|]. intros x x' Hx.
  apply rel_obind; [exact IH|]. intros xs xs' Hxs. constructor; assumption.
Qed.

End Library.

Global Hint Resolve p_pair p_fst p_snd p_Some p_None p_Ret p_Panic p_Ok p_Err p_nil p_cons p_app p_length
  p_map p_flat_map p_fold_left p_combine p_firstn p_skipn p_rev p_repeat p_concat p_nth_error p_filter
  p_forallb p_mapM p_seq p_enumerate p_index p_index_set p_slice_from p_split_at p_chunks p_option_all
  p_odd_items p_reduce p_unwrap p_unwrap_all p_flatten_options p_missing_options p_mkCodec p_enc p_dec
  p_dec_all : par.
