(** * Consequences of the group contract *)
From Coq Require Import List NArith ZArith Znumtheory Field Lia Bool.
From Verif.Model Require Import Base Group.
Import ListNotations.

(** ** Outcomes *)
Lemma bind_Ret_inv {A B : Type} (m : outcome A) (f : A -> outcome B) b :
  bind m f = Ret b -> exists a, m = Ret a /\ f a = Ret b.
Proof. destruct m as [a|k]; cbn; intros H; [eauto | discriminate]. Qed.

(** destruct all binds in a hypothesis [H : _ = Ret _] *)
Ltac inv_bind H :=
  match type of H with
  | bind ?m ?f = Ret _ =>
      let a := fresh "a" in let Ha := fresh "Hm" in
      apply bind_Ret_inv in H; destruct H as (a & Ha & H)
  end.

Lemma mapM_Ret_inv {A B : Type} (f : A -> outcome B) l ys :
  mapM f l = Ret ys -> Forall2 (fun x y => f x = Ret y) l ys.
Proof.
  revert ys; induction l as [|x l IH]; cbn; intros ys H.
  - injection H as <-. constructor.
  - inv_bind H. inv_bind H. injection H as <-. constructor; auto.
Qed.

Lemma mapM_Ret {A B : Type} (f : A -> outcome B) l ys :
  Forall2 (fun x y => f x = Ret y) l ys -> mapM f l = Ret ys.
Proof. induction 1 as [|x y l ys Hx _ IH]; cbn; [reflexivity | rewrite Hx; cbn; rewrite IH; reflexivity]. Qed.

Lemma mapM_total {A B : Type} (f : A -> outcome B) (g : A -> B) l :
  (forall x, In x l -> f x = Ret (g x)) -> mapM f l = Ret (map g l).
Proof.
  intros H. induction l as [|x l IH]; cbn; [reflexivity|].
  rewrite H by (left; reflexivity). cbn. rewrite IH by (intros; apply H; right; assumption). reflexivity.
Qed.

Lemma mapM_ext {A B : Type} (f g : A -> outcome B) l :
  (forall x, In x l -> f x = g x) -> mapM f l = mapM g l.
Proof.
  intros H. induction l as [|x l IH]; cbn; [reflexivity|].
  rewrite H by (left; reflexivity). rewrite IH by (intros; apply H; right; assumption). reflexivity.
Qed.

Lemma mapM_length {A B : Type} (f : A -> outcome B) l ys :
  mapM f l = Ret ys -> List.length ys = List.length l.
Proof. intros H. apply mapM_Ret_inv in H. induction H; cbn; congruence. Qed.

Lemma bytes_eqb_ok (a b : bytes) : bytes_eqb a b = true <-> a = b.
Proof.
  revert b; induction a as [|x a IH]; intros [|y b]; cbn; split; try discriminate; auto.
  - intros H. apply andb_true_iff in H as [H1 H2].
    destruct (Byte.eqb x y) eqn:Hxy; [|discriminate].
    apply Byte.byte_dec_bl in Hxy. subst. apply IH in H2. congruence.
  - intros H. injection H as -> ->. apply andb_true_iff. split.
    + apply Byte.byte_dec_lb. reflexivity.
    + apply IH. reflexivity.
Qed.

Lemma bytes_eqb_refl (a : bytes) : bytes_eqb a a = true.
Proof. apply bytes_eqb_ok. reflexivity. Qed.

Section Laws.
Context {G : Group} (L : GroupLaws G).
Local Notation scalar := (Scalar G).
Local Notation element := (Element G).

Add Field s_field_here : (s_field L).

Lemma s_1_neq_0 : (1%S : scalar) <> 0%S.
Proof. apply (F_1_neq_0 (s_field L)). Qed.

Lemma s_eqb_refl (a : scalar) : s_eqb a a = true.
Proof. apply (s_eqb_ok G L). reflexivity. Qed.

Lemma s_eqb_false (a b : scalar) : s_eqb a b = false <-> a <> b.
Proof.
  destruct (s_eqb a b) eqn:H.
  - apply (s_eqb_ok G L) in H. split; [discriminate | congruence].
  - split; [|reflexivity]. intros _ Hab. apply (s_eqb_ok G L) in Hab. congruence.
Qed.

Lemma s_eq_dec (a b : scalar) : {a = b} + {a <> b}.
Proof.
  destruct (s_eqb a b) eqn:H.
  - left. apply (s_eqb_ok G L). exact H.
  - right. apply s_eqb_false. exact H.
Qed.

Lemma s_sub_eq_0 (a b : scalar) : (a - b = 0)%S -> a = b.
Proof. intros H. transitivity (a - b + b)%S; [ring | rewrite H; ring]. Qed.

Lemma s_sub_neq_0 (a b : scalar) : a <> b -> (a - b)%S <> 0%S.
Proof. intros H H'. apply H. apply s_sub_eq_0. exact H'. Qed.

Lemma s_inv_l (a : scalar) : a <> 0%S -> (s_inv L a * a = 1)%S.
Proof. apply (Finv_l (s_field L)). Qed.

Lemma s_mul_integral (a b : scalar) : (a * b = 0)%S -> a = 0%S \/ b = 0%S.
Proof.
  intros H. destruct (s_eq_dec a 0%S) as [Ha|Ha]; [left; exact Ha|right].
  transitivity (s_inv L a * (a * b))%S.
  - transitivity (s_inv L a * a * b)%S; [|ring]. rewrite s_inv_l by exact Ha. ring.
  - rewrite H. ring.
Qed.

Lemma s_mul_neq_0 (a b : scalar) : a <> 0%S -> b <> 0%S -> (a * b)%S <> 0%S.
Proof. intros Ha Hb H. apply s_mul_integral in H. tauto. Qed.

Lemma s_mul_cancel_r (a b c : scalar) : c <> 0%S -> (a * c = b * c)%S -> a = b.
Proof.
  intros Hc H. apply s_sub_eq_0.
  destruct (s_mul_integral (a - b)%S c) as [H'|H']; [|exact H'|contradiction].
  transitivity (a * c - b * c)%S; [ring | rewrite H; ring].
Qed.

Lemma s_mul_cancel_l (a b c : scalar) : c <> 0%S -> (c * a = c * b)%S -> a = b.
Proof.
  intros Hc H. apply (s_mul_cancel_r a b c Hc).
  transitivity (c * a)%S; [ring | rewrite H; ring].
Qed.

Lemma s_add_cancel_l (a b c : scalar) : (c + a = c + b)%S -> a = b.
Proof. intros H. transitivity (c + a - c)%S; [ring | rewrite H; ring]. Qed.

Lemma s_neg_neq_0 (a : scalar) : a <> 0%S -> (- a)%S <> 0%S.
Proof. intros H H'. apply H. transitivity (- (- a))%S; [ring | rewrite H'; ring]. Qed.

(** integers in the scalar field *)
Lemma phi_0 : phi L 0 = (0%S : scalar).
Proof.
  assert (H : (phi L 0 = phi L 0 + phi L 0)%S) by (rewrite <- phi_add; reflexivity).
  transitivity (phi L 0 + phi L 0 - phi L 0)%S; [ring|rewrite <- H; ring].
Qed.

Lemma phi_1 : phi L 1 = (1%S : scalar).
Proof. symmetry. apply (of_u64_phi G L). reflexivity. Qed.

Lemma phi_opp z : phi L (- z) = (- phi L z)%S.
Proof.
  assert (H : (phi L (-z) + phi L z = 0)%S).
  { rewrite <- phi_add. rewrite Z.add_opp_diag_l. apply phi_0. }
  transitivity (phi L (-z) + phi L z - phi L z)%S; [ring|rewrite H; ring].
Qed.

Lemma phi_sub a b : phi L (a - b) = (phi L a - phi L b)%S.
Proof. unfold Z.sub. rewrite phi_add, phi_opp. ring. Qed.

Lemma of_u64_0 : s_of_u64 0 = (0%S : scalar).
Proof. rewrite (of_u64_phi G L) by reflexivity. apply phi_0. Qed.

Lemma order_gt_1 : (1 < order L)%Z.
Proof. destruct (order_prime L). assumption. Qed.

Lemma phi_inj_small a b :
  (0 <= a < order L)%Z -> (0 <= b < order L)%Z -> phi L a = phi L b -> a = b.
Proof.
  intros Ha Hb H. apply (phi_eq G L) in H.
  rewrite !Z.mod_small in H by assumption. exact H.
Qed.

(** ** Elements *)
Lemma e_add_id_r (a : element) : (a + identity)%E = a.
Proof. rewrite (e_add_comm G L). apply (e_add_id G L). Qed.

Lemma e_add_neg_l (a : element) : (- a + a)%E = identity.
Proof. rewrite (e_add_comm G L). apply (e_add_neg G L). Qed.

Lemma e_add_cancel_l (a b c : element) : (c + a)%E = (c + b)%E -> a = b.
Proof.
  intros H. rewrite <- (e_add_id G L a), <- (e_add_id G L b), <- (e_add_neg_l c).
  rewrite <- !(e_add_assoc G L), H. reflexivity.
Qed.

Lemma e_mul_0 (a : element) : (a * 0)%E = identity.
Proof.
  apply (e_add_cancel_l _ _ (a * 0)%E). rewrite <- (e_mul_add G L), e_add_id_r.
  f_equal. ring.
Qed.

Lemma gen_inj (s t : scalar) : (@generator G * s)%E = (generator * t)%E -> s = t.
Proof.
  intros H. apply s_sub_eq_0. apply (generator_order G L).
  replace (s - t)%S with (s + - t)%S by ring. rewrite (e_mul_add G L), H, <- (e_mul_add G L).
  replace (t + - t)%S with (0%S : scalar) by ring. apply e_mul_0.
Qed.

Lemma dlog_gen (s : scalar) : dlog L (generator * s)%E = s.
Proof. apply gen_inj. apply (dlog_ok G L). Qed.

Lemma dlog_inj (a b : element) : dlog L a = dlog L b -> a = b.
Proof. intros H. rewrite <- (dlog_ok G L a), <- (dlog_ok G L b), H. reflexivity. Qed.

Lemma dlog_eq (a b : element) : a = b <-> dlog L a = dlog L b.
Proof. split; [congruence | apply dlog_inj]. Qed.

Lemma dlog_add (a b : element) : dlog L (a + b)%E = (dlog L a + dlog L b)%S.
Proof. apply gen_inj. rewrite (e_mul_add G L), !(dlog_ok G L). reflexivity. Qed.

Lemma dlog_mul (a : element) s : dlog L (a * s)%E = (dlog L a * s)%S.
Proof. apply gen_inj. rewrite (e_mul_mul G L), !(dlog_ok G L). reflexivity. Qed.

Lemma dlog_identity : dlog L (@identity G) = 0%S.
Proof. apply gen_inj. rewrite (dlog_ok G L). symmetry. apply e_mul_0. Qed.

Lemma dlog_neg (a : element) : dlog L (- a)%E = (- dlog L a)%S.
Proof.
  assert (H : (dlog L (a + - a)%E = 0)%S) by (rewrite (e_add_neg G L); apply dlog_identity).
  rewrite dlog_add in H. transitivity (dlog L a + dlog L (- a)%E - dlog L a)%S; [ring|].
  rewrite H. ring.
Qed.

Lemma dlog_sub (a b : element) : dlog L (a - b)%E = (dlog L a - dlog L b)%S.
Proof. rewrite (e_sub_def G L), dlog_add, dlog_neg. ring. Qed.

Lemma dlog_generator : dlog L (@generator G) = 1%S.
Proof. apply gen_inj. rewrite (dlog_ok G L), (e_mul_1 G L). reflexivity. Qed.

Lemma dlog_mul_generator s : dlog L (@mul_generator G s) = s.
Proof. rewrite (mul_generator_ok G L). apply dlog_gen. Qed.

Lemma dlog_vartime_mul_generator s : dlog L (@vartime_mul_generator G s) = s.
Proof. rewrite (vartime_mul_generator_ok G L). apply dlog_gen. Qed.

Lemma dlog_double (k : scalar) K r :
  dlog L (vartime_double_mul_generator k K r) = (dlog L K * k + r)%S.
Proof. rewrite (vartime_double_mul_generator_ok G L), dlog_add, dlog_mul, dlog_gen. reflexivity. Qed.

Lemma dlog_identity_iff (a : element) : a = identity <-> dlog L a = 0%S.
Proof. rewrite dlog_eq, dlog_identity. reflexivity. Qed.

Lemma e_mul_identity (s : scalar) : (@identity G * s)%E = identity.
Proof. apply dlog_inj. rewrite dlog_mul, dlog_identity. ring. Qed.

Lemma e_eqb_refl (a : element) : e_eqb a a = true.
Proof. apply (e_eqb_ok G L). reflexivity. Qed.

Lemma e_eqb_false (a b : element) : e_eqb a b = false <-> a <> b.
Proof.
  destruct (e_eqb a b) eqn:H.
  - apply (e_eqb_ok G L) in H. split; [discriminate | congruence].
  - split; [|reflexivity]. intros _ Hab. apply (e_eqb_ok G L) in Hab. congruence.
Qed.

Lemma e_eq_dec (a b : element) : {a = b} + {a <> b}.
Proof.
  destruct (e_eqb a b) eqn:H.
  - left. apply (e_eqb_ok G L). exact H.
  - right. apply e_eqb_false. exact H.
Qed.

(** ** Linear combinations *)
Fixpoint s_dot (ss ts : list scalar) : scalar :=
  match ss, ts with
  | s :: ss', t :: ts' => (t * s + s_dot ss' ts')%S
  | _, _ => 0%S
  end.

Lemma dlog_lin_comb (ss : list scalar) (es : list element) :
  dlog L (lin_comb ss es) = s_dot ss (map (dlog L) es).
Proof.
  revert es; induction ss as [|s ss IH]; intros [|e es]; cbn; try apply dlog_identity.
  rewrite dlog_add, dlog_mul, IH. reflexivity.
Qed.

Lemma lin_comb_app (ss1 ss2 : list scalar) (es1 es2 : list element) :
  List.length ss1 = List.length es1 ->
  lin_comb (ss1 ++ ss2) (es1 ++ es2) = (lin_comb ss1 es1 + lin_comb ss2 es2)%E.
Proof.
  revert es1; induction ss1 as [|s ss1 IH]; intros [|e es1] H; try discriminate; cbn.
  - rewrite (e_add_id G L). reflexivity.
  - rewrite IH by (cbn in H; lia). rewrite (e_add_assoc G L). reflexivity.
Qed.

Lemma s_dot_app (ss1 ss2 ts1 ts2 : list scalar) :
  List.length ss1 = List.length ts1 ->
  s_dot (ss1 ++ ss2) (ts1 ++ ts2) = (s_dot ss1 ts1 + s_dot ss2 ts2)%S.
Proof.
  revert ts1; induction ss1 as [|s ss1 IH]; intros [|t ts1] H; try discriminate; cbn.
  - ring.
  - rewrite IH by (cbn in H; lia). ring.
Qed.

(** ** Serialization *)
Lemma ser_element_inj (a b : element) x :
  serialize_element a = Ret x -> serialize_element b = Ret x -> a = b.
Proof.
  intros Ha Hb. apply (ser_element_ok G L) in Ha as [_ Ha].
  apply (ser_element_ok G L) in Hb as [_ Hb]. congruence.
Qed.

Lemma ser_total_some : ser_total G -> forall e : element, exists b, serialize_element e = Ret b.
Proof.
  intros Ht e. destruct (e_eq_dec e identity) as [->|He]; [exact Ht|].
  apply (ser_element_some G L). exact He.
Qed.

Lemma ser_scalar_inj (a b : scalar) : serialize_scalar a = serialize_scalar b -> a = b.
Proof.
  intros H. pose proof (deser_ser_scalar G L a) as Ha. rewrite H in Ha.
  rewrite (deser_ser_scalar G L b) in Ha. congruence.
Qed.

End Laws.

(** Normalise the discrete log of an element expression *)
Ltac dlog_simpl L :=
  repeat first
    [ rewrite (dlog_add L) | rewrite (dlog_sub L) | rewrite (dlog_neg L) | rewrite (dlog_mul L)
    | rewrite (dlog_mul_generator L) | rewrite (dlog_vartime_mul_generator L)
    | rewrite (dlog_generator L) | rewrite (dlog_identity L) | rewrite (dlog_double L)
    | rewrite (dlog_gen L) | rewrite (dlog_lin_comb L) ];
  cbn [s_dot map].

(** Same in a hypothesis *)
Ltac dlog_simpl_in L H :=
  repeat first
    [ rewrite (dlog_add L) in H | rewrite (dlog_sub L) in H | rewrite (dlog_neg L) in H
    | rewrite (dlog_mul L) in H
    | rewrite (dlog_mul_generator L) in H | rewrite (dlog_vartime_mul_generator L) in H
    | rewrite (dlog_generator L) in H | rewrite (dlog_identity L) in H | rewrite (dlog_double L) in H
    | rewrite (dlog_gen L) in H | rewrite (dlog_lin_comb L) in H ];
  cbn [s_dot map] in H.

(** Equality of group elements *)
Ltac el_ring L := apply (dlog_inj L); dlog_simpl L; try ring.
