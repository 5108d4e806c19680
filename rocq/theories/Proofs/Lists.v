(** * List and transcript lemmas *)
From Coq Require Import List NArith Lia String.
From Verif.Model Require Import Base Group Transcript.
From Verif.Spec Require Import Possession.
From Verif.Proofs Require Import Algebra.
Import ListNotations.

(** a list splits uniquely into a prefix ending in a separator and a separator-free tail *)
Lemma suffix_split {A : Type} (P : A -> Prop) (a b : list A) u v xs ys :
  Forall P xs -> Forall P ys -> ~ P u -> ~ P v ->
  a ++ u :: xs = b ++ v :: ys -> a = b /\ u = v /\ xs = ys.
Proof.
  revert b; induction a as [|x a IH]; intros b Hxs Hys Hu Hv H.
  - destruct b as [|y b]; cbn in H.
    + injection H as -> ->. auto.
    + injection H as <- ->. exfalso. apply Hv. rewrite Forall_forall in Hxs. apply Hxs.
      apply in_or_app. right. left. reflexivity.
  - destruct b as [|y b]; cbn in H.
    + injection H as -> <-. exfalso. apply Hu. rewrite Forall_forall in Hys. apply Hys.
      apply in_or_app. right. left. reflexivity.
    + injection H as -> H. destruct (IH b Hxs Hys Hu Hv H) as (-> & -> & ->). auto.
Qed.

Lemma map_inj {A B : Type} (f : A -> B) (Hf : forall x y, f x = f y -> x = y) l l' :
  map f l = map f l' -> l = l'.
Proof.
  revert l'; induction l as [|x l IH]; intros [|y l'] H; try discriminate; [reflexivity|].
  cbn in H. injection H as H1 H2. f_equal; auto.
Qed.

Lemma Forall2_length' {A B : Type} (R : A -> B -> Prop) l l' :
  Forall2 R l l' -> List.length l = List.length l'.
Proof. induction 1; cbn; congruence. Qed.

Section Ser.
Context (E : Env) (L : GroupLaws E).

Lemma mapM_ser_iff (es : list (Element E)) bs :
  mapM serialize_element es = Ret bs <-> encoded es bs.
Proof. split; [apply mapM_Ret_inv | apply mapM_Ret]. Qed.

Lemma encoded_inj (es es' : list (Element E)) bs :
  encoded es bs -> encoded es' bs -> es = es'.
Proof.
  intros H; revert es'; induction H as [|e b es bs He _ IH]; intros es' H'; inversion H'; subst.
  - reflexivity.
  - f_equal; [eapply (ser_element_inj L); eassumption | apply IH; assumption].
Qed.

Lemma encoded_total (es : list (Element E)) : ser_total E -> exists bs, encoded es bs.
Proof.
  intros Ht. induction es as [|e es [bs IH]].
  - exists []. constructor.
  - destruct (ser_total_some L Ht e) as [b Hb]. exists (b :: bs). constructor; assumption.
Qed.
End Ser.

Lemma Forall2_nth_r {A B : Type} (R : A -> B -> Prop) l l' : Forall2 R l l' ->
  forall i y, nth_error l' i = Some y -> exists x, nth_error l i = Some x /\ R x y.
Proof.
  induction 1 as [|x y l l' H _ IH]; intros [|i] z Hz; cbn in *; try discriminate.
  - injection Hz as <-. eauto.
  - exact (IH i z Hz).
Qed.

Lemma Forall2_nth_intro {A B : Type} (R : A -> B -> Prop) l l' : List.length l = List.length l' ->
  (forall i x y, nth_error l i = Some x -> nth_error l' i = Some y -> R x y) -> Forall2 R l l'.
Proof.
  revert l'. induction l as [|x l IH]; intros [|y l'] Hl H; try discriminate; constructor.
  - exact (H 0%nat x y eq_refl eq_refl).
  - apply IH; [cbn in Hl; congruence|]. intros i u v Hu Hv. exact (H (Datatypes.S i) u v Hu Hv).
Qed.
