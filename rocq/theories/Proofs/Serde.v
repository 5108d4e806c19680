(** * Serialization: round trips and rejection (C50, C51) *)
From Coq Require Import List NArith Arith Bool String Ascii Lia Strings.Byte.
From Verif.Model Require Import Base Group Transcript Keys Encryption LogEquality Possession
  Ring Range Commitment Mul Sharing Dkg Choice Quadratic Serde.
From Verif.Spec Require Import Encryption Serde.
From Verif.Proofs Require Import Lists Algebra Codec.
Import ListNotations.
Open Scope N_scope.

(** ** base64 *)
Lemma b64_value_char : forall n, n < 64 -> b64_value (b64_char n) = Some n.
Proof.
  intros n H.
  assert (Ha : forallb (fun k => match b64_value (b64_char (N.of_nat k)) with Some m => N.eqb m (N.of_nat k) | None => false end) (seq 0 64) = true)
    by (vm_compute; reflexivity).
  rewrite forallb_forall in Ha. specialize (Ha (N.to_nat n)). rewrite N2Nat.id in Ha.
  destruct (b64_value (b64_char n)) as [m|].
  - f_equal. apply N.eqb_eq. apply Ha. apply in_seq. lia.
  - discriminate Ha. apply in_seq. lia.
Qed.

Lemma b64_char_value : forall c n, b64_value c = Some n -> n < 64 /\ b64_char n = c.
Proof.
  intros c n H.
  assert (Hc : match b64_value c with Some m => N.ltb m 64 && Ascii.eqb (b64_char m) c | None => true end = true).
  { destruct c as [[] [] [] [] [] [] [] []]; vm_compute; reflexivity. }
  rewrite H in Hc. apply andb_true_iff in Hc as [H1 H2]. split; [apply N.ltb_lt, H1|apply Ascii.eqb_eq, H2].
Qed.

Lemma bn_lt : forall x, bn x < 256.
Proof. intros x. unfold bn. pose proof (Byte.to_N_bounded x). lia. Qed.

Lemma bn_of_N : forall n, n < 256 -> bn (byte_of_N_mod n) = n.
Proof.
  intros n H. unfold bn, byte_of_N_mod. rewrite N.mod_small by lia. destruct (Byte.of_N n) as [b|] eqn:Hb.
  - apply Byte.to_of_N. exact Hb.
  - apply Byte.of_N_None_iff in Hb. lia.
Qed.

Lemma byte_of_bn : forall x, byte_of_N_mod (bn x) = x.
Proof.
  intros x. unfold byte_of_N_mod. rewrite N.mod_small by apply bn_lt. unfold bn. rewrite Byte.of_to_N. reflexivity.
Qed.

Lemma byte_of_eq : forall n x, n = bn x -> byte_of_N_mod n = x.
Proof. intros n x ->. apply byte_of_bn. Qed.

Lemma list_ind3 : forall (A : Type) (P : list A -> Prop),
  P [] -> (forall a, P [a]) -> (forall a b, P [a; b]) -> (forall a b c l, P l -> P (a :: b :: c :: l)) -> forall l, P l.
Proof.
  intros A P H0 H1 H2 H3. fix IH 1. intros [|a [|b [|c l]]]; [exact H0|apply H1|apply H2|apply H3; apply IH].
Qed.
Lemma list_ind4 : forall (A : Type) (P : list A -> Prop),
  P [] -> (forall a, P [a]) -> (forall a b, P [a; b]) -> (forall a b c, P [a; b; c]) ->
  (forall a b c d l, P l -> P (a :: b :: c :: d :: l)) -> forall l, P l.
Proof.
  intros A P H0 H1 H2 H3 H4. fix IH 1. intros [|a [|b [|c [|d l]]]]; [exact H0|apply H1|apply H2|apply H3|apply H4; apply IH].
Qed.

Lemma split_mod : forall x k m, m <> 0 -> x < m * k -> x / m < k /\ x mod m < m /\ x = m * (x / m) + x mod m.
Proof.
  intros x k m Hm H. split; [apply N.div_lt_upper_bound; [exact Hm|lia]|]. split; [apply N.mod_lt; exact Hm|].
  apply N.div_mod. exact Hm.
Qed.

Ltac nsplit x k m :=
  let H1 := fresh in let H2 := fresh in let H3 := fresh in
  destruct (split_mod x k m) as (H1 & H2 & H3); [lia|lia|].

Lemma div_add_l' : forall a b c, b <> 0 -> c < b -> (a * b + c) / b = a.
Proof. intros a b c Hb Hc. rewrite N.div_add_l by exact Hb. rewrite N.div_small by exact Hc. lia. Qed.
Lemma mod_add_l' : forall a b c, b <> 0 -> c < b -> (a * b + c) mod b = c.
Proof. intros a b c Hb Hc. rewrite N.add_comm, N.mod_add by exact Hb. apply N.mod_small. exact Hc. Qed.

Lemma base64_round_trip : forall l, base64_decode (base64_encode l) = Some l.
Proof.
  apply list_ind3; [reflexivity| | |].
  - intros a. cbn [base64_encode base64_decode]. pose proof (bn_lt a) as Ha. nsplit (bn a) 64 4.
    rewrite !b64_value_char by lia.
    assert (Hm : (bn a mod 4 * 16) mod 16 = 0) by (apply N.mod_mul; lia). rewrite Hm. cbn [N.eqb].
    rewrite N.div_mul by lia. rewrite (byte_of_eq _ a) by lia. reflexivity.
  - intros a b. cbn [base64_encode base64_decode]. pose proof (bn_lt a) as Ha. pose proof (bn_lt b) as Hb.
    nsplit (bn a) 64 4. nsplit (bn b) 16 16. rewrite !b64_value_char by lia.
    assert (Hm : (bn b mod 16 * 4) mod 4 = 0) by (apply N.mod_mul; lia). rewrite Hm. cbn [N.eqb].
    rewrite div_add_l', mod_add_l', N.div_mul by lia.
    rewrite (byte_of_eq _ a), (byte_of_eq _ b) by lia. reflexivity.
  - intros a b c l IH. cbn [base64_encode base64_decode]. pose proof (bn_lt a) as Ha. pose proof (bn_lt b) as Hb. pose proof (bn_lt c) as Hc.
    nsplit (bn a) 64 4. nsplit (bn b) 16 16. nsplit (bn c) 4 64. rewrite !b64_value_char by lia. rewrite IH.
    rewrite !div_add_l', !mod_add_l' by lia.
    rewrite (byte_of_eq _ a), (byte_of_eq _ b), (byte_of_eq _ c) by lia. reflexivity.
Qed.

Lemma base64_canonical : forall s l, base64_decode s = Some l -> s = base64_encode l.
Proof.
  apply (list_ind4 _ (fun s => forall l, base64_decode s = Some l -> s = base64_encode l)).
  - intros l H. injection H as <-. reflexivity.
  - discriminate.
  - intros c0 c1 l H. cbn [base64_decode] in H.
    destruct (b64_value c0) as [x0|] eqn:H0; [|discriminate]. destruct (b64_value c1) as [x1|] eqn:H1; [|discriminate].
    destruct (N.eqb_spec (x1 mod 16) 0) as [Hm|]; [|discriminate]. injection H as <-.
    apply b64_char_value in H0 as [L0 <-]. apply b64_char_value in H1 as [L1 <-]. nsplit x1 4 16.
    cbn [base64_encode]. rewrite bn_of_N by lia. rewrite div_add_l', mod_add_l' by lia. do 2 f_equal. f_equal. lia.
  - intros c0 c1 c2 l H. cbn [base64_decode] in H.
    destruct (b64_value c0) as [x0|] eqn:H0; [|discriminate]. destruct (b64_value c1) as [x1|] eqn:H1; [|discriminate].
    destruct (b64_value c2) as [x2|] eqn:H2; [|discriminate].
    destruct (N.eqb_spec (x2 mod 4) 0) as [Hm|]; [|discriminate]. injection H as <-.
    apply b64_char_value in H0 as [L0 <-]. apply b64_char_value in H1 as [L1 <-]. apply b64_char_value in H2 as [L2 <-].
    nsplit x1 4 16. nsplit x2 16 4.
    cbn [base64_encode]. rewrite !bn_of_N by lia. rewrite !div_add_l', !mod_add_l' by lia.
    f_equal. f_equal; [f_equal; lia|]. do 2 f_equal. lia.
  - intros c0 c1 c2 c3 s IH l H. cbn [base64_decode] in H.
    destruct (b64_value c0) as [x0|] eqn:H0; [|discriminate]. destruct (b64_value c1) as [x1|] eqn:H1; [|discriminate].
    destruct (b64_value c2) as [x2|] eqn:H2; [|discriminate]. destruct (b64_value c3) as [x3|] eqn:H3; [|discriminate].
    destruct (base64_decode s) as [l'|] eqn:Hs; [|discriminate]. injection H as <-. specialize (IH _ eq_refl). subst s.
    apply b64_char_value in H0 as [L0 <-]. apply b64_char_value in H1 as [L1 <-]. apply b64_char_value in H2 as [L2 <-].
    apply b64_char_value in H3 as [L3 <-]. nsplit x1 4 16. nsplit x2 16 4.
    cbn [base64_encode]. rewrite !bn_of_N by lia. rewrite !div_add_l', !mod_add_l' by lia.
    f_equal. f_equal; [f_equal; lia|]. f_equal. f_equal. lia.
Qed.

(** ** Byte strings in a format *)
Lemma bytes_round_trip : forall h h' b, implb h h' = true -> deserialize_bytes h' (serialize_bytes h b) = Some b.
Proof.
  intros [] h' b H; cbn [serialize_bytes deserialize_bytes]; [|reflexivity]. destruct h'; [|discriminate].
  apply base64_round_trip.
Qed.

Lemma deserialize_bytes_inv : forall h v b, deserialize_bytes h v = Some b ->
  v = SBytes b \/ (h = true /\ v = SStr (base64_encode b)).
Proof.
  intros h v b H. destruct v; cbn in H; try discriminate H.
  - destruct h; [|discriminate]. right. split; [reflexivity|]. f_equal. apply base64_canonical. exact H.
  - left. congruence.
Qed.

(** ** Generic codecs *)
Ltac inv_obind H :=
  match type of H with
  | obind ?m _ = Ret (Some _) =>
      let o := fresh "o" in let Ho := fresh "Ho" in
      unfold obind at 1 in H; inv_bind H;
      match type of H with
      | match ?o with Some _ => _ | None => _ end = _ => destruct o as [?y|]; [|discriminate H]
      end
  end.

Lemma obind_total : forall (A B : Type) (m : outcome (option A)) (f : A -> outcome (option B)),
  (exists o, m = Ret o) -> (forall x, exists o, f x = Ret o) -> exists o, obind m f = Ret o.
Proof. intros A B m f [o ->] Hf. unfold obind. cbn [bind]. destruct o; [apply Hf|eauto]. Qed.

Lemma bind_total : forall (A B : Type) (m : outcome A) (f : A -> outcome B),
  (exists o, m = Ret o) -> (forall x, exists o, f x = Ret o) -> exists o, bind m f = Ret o.
Proof. intros A B m f [o ->] Hf. cbn [bind]. apply Hf. Qed.

Lemma obind_some : forall (A B : Type) (x : A) (f : A -> outcome (option B)), obind (Ret (Some x)) f = f x.
Proof. reflexivity. Qed.

Section Generic.
Context {A : Type} {T U : Prop} (c : Codec A) (wf : A -> Prop) (Lc : lawful T U c wf).

Lemma mapM_dec_all : forall h h' l vs, implb h h' = true -> Forall wf l ->
  mapM (enc c h) l = Ret vs -> dec_all (dec c h') vs = Ret (Some l).
Proof.
  intros h h' l vs Hh Hl. revert vs. induction Hl as [|x l Hx _ IH]; intros vs H; cbn [mapM] in H.
  - injection H as <-. reflexivity.
  - inv_bind H. inv_bind H. injection H as <-. cbn [dec_all].
    rewrite (law_round_trip Lc _ h' _ _ Hh Hx Hm), obind_some, (IH _ Hm0), obind_some. reflexivity.
Qed.

Lemma dec_all_inv : forall h vs l, dec_all (dec c h) vs = Ret (Some l) -> List.length l = List.length vs /\ Forall wf l.
Proof.
  intros h vs. induction vs as [|v vs IH]; intros l H; cbn [dec_all] in H.
  - injection H as <-. split; [reflexivity|constructor].
  - inv_obind H. inv_obind H. injection H as <-. destruct (IH _ Hm0) as [Hl Hf]. split; [cbn; congruence|].
    constructor; [exact (law_accepts Lc _ _ _ Hm)|exact Hf].
Qed.

Lemma dec_all_total : T -> forall h vs, exists o, dec_all (dec c h) vs = Ret o.
Proof.
  intros Ht h vs. induction vs as [|v vs IH]; cbn [dec_all]; [eauto|].
  apply obind_total; [exact (law_dec_total Lc Ht h v)|]. intros x. apply obind_total; [exact IH|]. eauto.
Qed.

Lemma enc_all_total : U -> forall h l, Forall wf l -> exists vs, mapM (enc c h) l = Ret vs.
Proof.
  intros Hu h l Hl. induction Hl as [|x l Hx _ [vs IH]]; cbn [mapM]; [eauto|].
  destruct (law_enc_total Lc Hu h x Hx) as [v ->]. cbn [bind]. rewrite IH. cbn [bind]. eauto.
Qed.

Lemma vec_lawful : lawful T U (vec_codec c) (Forall wf).
Proof.
  split.
  - intros h h' x v Hh Hw H. cbn [enc vec_codec] in H. inv_bind H. injection H as <-. cbn [dec vec_codec].
    exact (mapM_dec_all h h' x a Hh Hw Hm).
  - intros h v x H. cbn [dec vec_codec] in H. destruct v; try discriminate H. exact (proj2 (dec_all_inv _ _ _ H)).
  - intros Ht h v. cbn [dec vec_codec]. destruct v; eauto. apply dec_all_total. exact Ht.
  - intros Hu h x Hw. cbn [enc vec_codec]. destruct (enc_all_total Hu h x Hw) as [vs ->]. cbn [bind]. eauto.
Qed.

Lemma option_lawful : (forall h x, enc c h x <> Ret SNull) -> lawful T U (option_codec c) (opt wf).
Proof.
  intros Hn. split.
  - intros h h' [x|] v Hh Hw H; cbn [enc option_codec] in H.
    + pose proof (law_round_trip Lc _ h' _ _ Hh Hw H) as Hd. cbn [dec option_codec].
      destruct v; try (rewrite Hd; reflexivity). destruct (Hn h x H).
    + injection H as <-. reflexivity.
  - intros h v x H. destruct v; cbn [dec option_codec] in H;
      try (injection H as <-; exact I); inv_obind H; injection H as <-; exact (law_accepts Lc _ _ _ Hm).
  - intros Ht h v. destruct v; cbn [dec option_codec]; eauto;
      (apply obind_total; [exact (law_dec_total Lc Ht _ _)|]); eauto.
  - intros Hu h [x|] Hw; cbn [enc option_codec]; [exact (law_enc_total Lc Hu h x Hw)|eauto].
Qed.

Lemma vec_helper_lawful : forall (E : Env) MIN,
  lawful T U (@VecHelper E A c MIN) (fun l => at_least MIN l /\ Forall wf l).
Proof.
  intros E MIN. split.
  - intros h h' x v Hh [Hl Hw] H. cbn [enc VecHelper] in H. inv_bind H. inv_bind H. injection H as <-. cbn [dec VecHelper].
    pose proof (mapM_dec_all h h' x a0 Hh Hw Hm0) as Hd. destruct (dec_all_inv _ _ _ Hd) as [Hlen _].
    unfold at_least in Hl. destruct (Nat.ltb_spec (List.length a0) MIN); [lia|]. rewrite Hd, obind_some.
    apply Nat.leb_le in Hl. rewrite Hl. reflexivity.
  - intros h v x H. cbn [dec VecHelper] in H. destruct v; try discriminate H.
    destruct (_ <? _)%nat; [discriminate|]. inv_obind H. destruct (Nat.leb_spec MIN (List.length y)); [|discriminate].
    injection H as <-. split; [assumption|exact (proj2 (dec_all_inv _ _ _ Hm))].
  - intros Ht h v. cbn [dec VecHelper]. destruct v; eauto. destruct (_ <? _)%nat; eauto.
    apply obind_total; [exact (dec_all_total Ht _ _)|]. intros x. destruct (_ <=? _)%nat; eauto.
  - intros Hu h x [Hl Hw]. cbn [enc VecHelper]. unfold debug_assert. apply Nat.leb_le in Hl. rewrite Hl.
    destruct (enc_all_total Hu h x Hw) as [vs ->].
    destruct (debug_assertions (env_build E)); cbn [bind]; eauto.
Qed.
End Generic.

Lemma nat_lawful : lawful True True nat_codec is_u64.
Proof.
  split.
  - intros h h' x v _ Hw H. injection H as <-. cbn [dec nat_codec]. unfold is_u64 in Hw. change u64_lim with (2 ^ 64).
    apply N.ltb_lt in Hw. rewrite Hw, Nat2N.id. reflexivity.
  - intros h v x H. cbn [dec nat_codec] in H. destruct v; try discriminate H. destruct (N.ltb_spec n u64_lim); [|discriminate].
    injection H as <-. unfold is_u64. rewrite N2Nat.id. assumption.
  - intros _ h v. cbn [dec nat_codec]. destruct v; eauto. destruct (_ <? _); eauto.
  - intros _ h x _. cbn. eauto.
Qed.

Lemma bool_lawful : lawful True True bool_codec any.
Proof.
  split.
  - intros h h' x v _ _ H. injection H as <-. reflexivity.
  - intros. exact I.
  - intros _ h v. destruct v; cbn; eauto.
  - intros _ h x _. cbn. eauto.
Qed.

Lemma unit_lawful : lawful True True unit_codec any.
Proof.
  split.
  - intros h h' [] v _ _ H. injection H as <-. reflexivity.
  - intros. exact I.
  - intros _ h v. destruct v; cbn; eauto.
  - intros _ h x _. cbn. eauto.
Qed.

Lemma array32_lawful : lawful True True array32_codec bytes32.
Proof.
  assert (Hl : forall l xs, dec_all (fun x => match x with SNum n => if n <? 256 then Ret (Some (byte_of_N_mod n)) else Ret None | _ => Ret None end) l = Ret (Some xs) ->
                 List.length xs = List.length l).
  { induction l as [|v l IH]; intros xs H; cbn [dec_all] in H; [injection H as <-; reflexivity|].
    inv_obind H. inv_obind H. injection H as <-. cbn. f_equal. apply IH. assumption. }
  split.
  - intros h h' x v _ Hw H. injection H as <-. cbn [dec array32_codec]. unfold bytes32 in Hw. rewrite map_length, Hw. cbn [Nat.eqb].
    clear Hw. induction x as [|y x IH]; cbn [map dec_all]; [reflexivity|].
    pose proof (bn_lt y) as Hy. apply N.ltb_lt in Hy. rewrite Hy, obind_some, IH, obind_some, byte_of_bn. reflexivity.
  - intros h v x H. cbn [dec array32_codec] in H. destruct v; try discriminate H.
    destruct (Nat.eqb_spec (List.length l) 32); [|discriminate]. unfold bytes32. rewrite <- e. apply Hl. exact H.
  - intros _ h v. cbn [dec array32_codec]. destruct v; eauto. destruct (_ =? _)%nat; eauto.
    induction l as [|v l IH]; cbn [dec_all]; [eauto|]. apply obind_total.
    + destruct v; eauto. destruct (_ <? _); eauto.
    + intros x. apply obind_total; eauto.
  - intros _ h x _. cbn. eauto.
Qed.


Lemma lawful_weaken : forall (A : Type) (T T' U U' : Prop) (c : Codec A) (wf wf' : A -> Prop),
  lawful T U c wf -> (T' -> T) -> (U' -> U) -> (forall x, wf x <-> wf' x) -> lawful T' U' c wf'.
Proof.
  intros A T T' U U' c wf wf' H Ht Hu Hw. split.
  - intros h h' x v Hh Hx. apply (law_round_trip H h h' x v Hh). apply Hw. exact Hx.
  - intros h v x Hd. apply Hw. exact (law_accepts H _ _ _ Hd).
  - intros HT. exact (law_dec_total H (Ht HT)).
  - intros HU h x Hx. apply (law_enc_total H (Hu HU)). apply Hw. exact Hx.
Qed.

(** ** Derived structs with up to six fields *)
Ltac destruct_ands H := try (let H' := fresh H in destruct H as [H' H]; destruct_ands H).

Lemma struct1 : forall (R A1 : Type) (T U : Prop) (n1 : string)
  (c1 : Codec A1) (w1 : A1 -> Prop) (f1 : R -> A1)
  (mk : A1 -> R) (wf : R -> Prop),
  (forall v1, struct_map_fields [n1] [(n1, v1)] = Some [v1]) ->
  (forall x, mk (f1 x) = x) ->
  (forall x1, f1 (mk x1) = x1) ->
  (forall x, wf x <-> w1 (f1 x)) ->
  lawful T U c1 w1 ->
  lawful T U (mkCodec
    (fun h x => a1 <- enc c1 h (f1 x) ;; Ret (SMap [(n1, a1)]))
    (fun h v => match struct_fields [n1] v with
      | Some [b1] => a1 <-? dec c1 h b1 ;; Ret (Some (mk a1))
      | _ => Ret None end)) wf.
Proof.
  intros R A1 T U n1 c1 w1 f1 mk wf Hs Hmk Hf1 Hw L1. split; cbn [enc dec].
  - intros h h' x v Hh Hx H. apply Hw in Hx. destruct_ands Hx. repeat inv_bind H. injection H as <-.
    cbn [struct_fields]. rewrite Hs.
    match goal with H : enc c1 h (f1 x) = Ret ?v |- _ => rewrite (law_round_trip L1 h h' (f1 x) v Hh ltac:(assumption) H), obind_some end.
    rewrite Hmk. reflexivity.
  - intros h v x H. destruct (struct_fields _ v) as [fs|]; [|discriminate H].
    destruct fs as [|? fs]; [discriminate H|]. destruct fs; [|discriminate H].
    repeat inv_obind H. injection H as <-. apply Hw. rewrite Hf1.
    repeat split; first [eapply (law_accepts L1); eassumption].
  - intros Ht h v. destruct (struct_fields _ v) as [fs|]; [|eauto].
    destruct fs as [|? fs]; [eauto|]. destruct fs; [|eauto].
    apply obind_total; [exact (law_dec_total L1 Ht _ _)|intros ?]. eauto.
  - intros Hu h x Hx. apply Hw in Hx. destruct_ands Hx.
    apply bind_total; [apply (law_enc_total L1 Hu); assumption|intros ?]. eauto.
Qed.

Lemma struct2 : forall (R A1 A2 : Type) (T U : Prop) (n1 n2 : string)
  (c1 : Codec A1) (w1 : A1 -> Prop) (f1 : R -> A1)
  (c2 : Codec A2) (w2 : A2 -> Prop) (f2 : R -> A2)
  (mk : A1 -> A2 -> R) (wf : R -> Prop),
  (forall v1 v2, struct_map_fields [n1; n2] [(n1, v1); (n2, v2)] = Some [v1; v2]) ->
  (forall x, mk (f1 x) (f2 x) = x) ->
  (forall x1 x2, f1 (mk x1 x2) = x1) ->
  (forall x1 x2, f2 (mk x1 x2) = x2) ->
  (forall x, wf x <-> w1 (f1 x) /\ w2 (f2 x)) ->
  lawful T U c1 w1 ->
  lawful T U c2 w2 ->
  lawful T U (mkCodec
    (fun h x => a1 <- enc c1 h (f1 x) ;; a2 <- enc c2 h (f2 x) ;; Ret (SMap [(n1, a1); (n2, a2)]))
    (fun h v => match struct_fields [n1; n2] v with
      | Some [b1; b2] => a1 <-? dec c1 h b1 ;; a2 <-? dec c2 h b2 ;; Ret (Some (mk a1 a2))
      | _ => Ret None end)) wf.
Proof.
  intros R A1 A2 T U n1 n2 c1 w1 f1 c2 w2 f2 mk wf Hs Hmk Hf1 Hf2 Hw L1 L2. split; cbn [enc dec].
  - intros h h' x v Hh Hx H. apply Hw in Hx. destruct_ands Hx. repeat inv_bind H. injection H as <-.
    cbn [struct_fields]. rewrite Hs.
    match goal with H : enc c1 h (f1 x) = Ret ?v |- _ => rewrite (law_round_trip L1 h h' (f1 x) v Hh ltac:(assumption) H), obind_some end.
    match goal with H : enc c2 h (f2 x) = Ret ?v |- _ => rewrite (law_round_trip L2 h h' (f2 x) v Hh ltac:(assumption) H), obind_some end.
    rewrite Hmk. reflexivity.
  - intros h v x H. destruct (struct_fields _ v) as [fs|]; [|discriminate H].
    destruct fs as [|? fs]; [discriminate H|]. destruct fs as [|? fs]; [discriminate H|]. destruct fs; [|discriminate H].
    repeat inv_obind H. injection H as <-. apply Hw. rewrite Hf1, Hf2.
    repeat split; first [eapply (law_accepts L1); eassumption | eapply (law_accepts L2); eassumption].
  - intros Ht h v. destruct (struct_fields _ v) as [fs|]; [|eauto].
    destruct fs as [|? fs]; [eauto|]. destruct fs as [|? fs]; [eauto|]. destruct fs; [|eauto].
    apply obind_total; [exact (law_dec_total L1 Ht _ _)|intros ?]. apply obind_total; [exact (law_dec_total L2 Ht _ _)|intros ?]. eauto.
  - intros Hu h x Hx. apply Hw in Hx. destruct_ands Hx.
    apply bind_total; [apply (law_enc_total L1 Hu); assumption|intros ?]. apply bind_total; [apply (law_enc_total L2 Hu); assumption|intros ?]. eauto.
Qed.

Lemma struct3 : forall (R A1 A2 A3 : Type) (T U : Prop) (n1 n2 n3 : string)
  (c1 : Codec A1) (w1 : A1 -> Prop) (f1 : R -> A1)
  (c2 : Codec A2) (w2 : A2 -> Prop) (f2 : R -> A2)
  (c3 : Codec A3) (w3 : A3 -> Prop) (f3 : R -> A3)
  (mk : A1 -> A2 -> A3 -> R) (wf : R -> Prop),
  (forall v1 v2 v3, struct_map_fields [n1; n2; n3] [(n1, v1); (n2, v2); (n3, v3)] = Some [v1; v2; v3]) ->
  (forall x, mk (f1 x) (f2 x) (f3 x) = x) ->
  (forall x1 x2 x3, f1 (mk x1 x2 x3) = x1) ->
  (forall x1 x2 x3, f2 (mk x1 x2 x3) = x2) ->
  (forall x1 x2 x3, f3 (mk x1 x2 x3) = x3) ->
  (forall x, wf x <-> w1 (f1 x) /\ w2 (f2 x) /\ w3 (f3 x)) ->
  lawful T U c1 w1 ->
  lawful T U c2 w2 ->
  lawful T U c3 w3 ->
  lawful T U (mkCodec
    (fun h x => a1 <- enc c1 h (f1 x) ;; a2 <- enc c2 h (f2 x) ;; a3 <- enc c3 h (f3 x) ;; Ret (SMap [(n1, a1); (n2, a2); (n3, a3)]))
    (fun h v => match struct_fields [n1; n2; n3] v with
      | Some [b1; b2; b3] => a1 <-? dec c1 h b1 ;; a2 <-? dec c2 h b2 ;; a3 <-? dec c3 h b3 ;; Ret (Some (mk a1 a2 a3))
      | _ => Ret None end)) wf.
Proof.
  intros R A1 A2 A3 T U n1 n2 n3 c1 w1 f1 c2 w2 f2 c3 w3 f3 mk wf Hs Hmk Hf1 Hf2 Hf3 Hw L1 L2 L3. split; cbn [enc dec].
  - intros h h' x v Hh Hx H. apply Hw in Hx. destruct_ands Hx. repeat inv_bind H. injection H as <-.
    cbn [struct_fields]. rewrite Hs.
    match goal with H : enc c1 h (f1 x) = Ret ?v |- _ => rewrite (law_round_trip L1 h h' (f1 x) v Hh ltac:(assumption) H), obind_some end.
    match goal with H : enc c2 h (f2 x) = Ret ?v |- _ => rewrite (law_round_trip L2 h h' (f2 x) v Hh ltac:(assumption) H), obind_some end.
    match goal with H : enc c3 h (f3 x) = Ret ?v |- _ => rewrite (law_round_trip L3 h h' (f3 x) v Hh ltac:(assumption) H), obind_some end.
    rewrite Hmk. reflexivity.
  - intros h v x H. destruct (struct_fields _ v) as [fs|]; [|discriminate H].
    destruct fs as [|? fs]; [discriminate H|]. destruct fs as [|? fs]; [discriminate H|]. destruct fs as [|? fs]; [discriminate H|]. destruct fs; [|discriminate H].
    repeat inv_obind H. injection H as <-. apply Hw. rewrite Hf1, Hf2, Hf3.
    repeat split; first [eapply (law_accepts L1); eassumption | eapply (law_accepts L2); eassumption | eapply (law_accepts L3); eassumption].
  - intros Ht h v. destruct (struct_fields _ v) as [fs|]; [|eauto].
    destruct fs as [|? fs]; [eauto|]. destruct fs as [|? fs]; [eauto|]. destruct fs as [|? fs]; [eauto|]. destruct fs; [|eauto].
    apply obind_total; [exact (law_dec_total L1 Ht _ _)|intros ?]. apply obind_total; [exact (law_dec_total L2 Ht _ _)|intros ?]. apply obind_total; [exact (law_dec_total L3 Ht _ _)|intros ?]. eauto.
  - intros Hu h x Hx. apply Hw in Hx. destruct_ands Hx.
    apply bind_total; [apply (law_enc_total L1 Hu); assumption|intros ?]. apply bind_total; [apply (law_enc_total L2 Hu); assumption|intros ?]. apply bind_total; [apply (law_enc_total L3 Hu); assumption|intros ?]. eauto.
Qed.

Lemma struct4 : forall (R A1 A2 A3 A4 : Type) (T U : Prop) (n1 n2 n3 n4 : string)
  (c1 : Codec A1) (w1 : A1 -> Prop) (f1 : R -> A1)
  (c2 : Codec A2) (w2 : A2 -> Prop) (f2 : R -> A2)
  (c3 : Codec A3) (w3 : A3 -> Prop) (f3 : R -> A3)
  (c4 : Codec A4) (w4 : A4 -> Prop) (f4 : R -> A4)
  (mk : A1 -> A2 -> A3 -> A4 -> R) (wf : R -> Prop),
  (forall v1 v2 v3 v4, struct_map_fields [n1; n2; n3; n4] [(n1, v1); (n2, v2); (n3, v3); (n4, v4)] = Some [v1; v2; v3; v4]) ->
  (forall x, mk (f1 x) (f2 x) (f3 x) (f4 x) = x) ->
  (forall x1 x2 x3 x4, f1 (mk x1 x2 x3 x4) = x1) ->
  (forall x1 x2 x3 x4, f2 (mk x1 x2 x3 x4) = x2) ->
  (forall x1 x2 x3 x4, f3 (mk x1 x2 x3 x4) = x3) ->
  (forall x1 x2 x3 x4, f4 (mk x1 x2 x3 x4) = x4) ->
  (forall x, wf x <-> w1 (f1 x) /\ w2 (f2 x) /\ w3 (f3 x) /\ w4 (f4 x)) ->
  lawful T U c1 w1 ->
  lawful T U c2 w2 ->
  lawful T U c3 w3 ->
  lawful T U c4 w4 ->
  lawful T U (mkCodec
    (fun h x => a1 <- enc c1 h (f1 x) ;; a2 <- enc c2 h (f2 x) ;; a3 <- enc c3 h (f3 x) ;; a4 <- enc c4 h (f4 x) ;; Ret (SMap [(n1, a1); (n2, a2); (n3, a3); (n4, a4)]))
    (fun h v => match struct_fields [n1; n2; n3; n4] v with
      | Some [b1; b2; b3; b4] => a1 <-? dec c1 h b1 ;; a2 <-? dec c2 h b2 ;; a3 <-? dec c3 h b3 ;; a4 <-? dec c4 h b4 ;; Ret (Some (mk a1 a2 a3 a4))
      | _ => Ret None end)) wf.
Proof.
  intros R A1 A2 A3 A4 T U n1 n2 n3 n4 c1 w1 f1 c2 w2 f2 c3 w3 f3 c4 w4 f4 mk wf Hs Hmk Hf1 Hf2 Hf3 Hf4 Hw L1 L2 L3 L4. split; cbn [enc dec].
  - intros h h' x v Hh Hx H. apply Hw in Hx. destruct_ands Hx. repeat inv_bind H. injection H as <-.
    cbn [struct_fields]. rewrite Hs.
    match goal with H : enc c1 h (f1 x) = Ret ?v |- _ => rewrite (law_round_trip L1 h h' (f1 x) v Hh ltac:(assumption) H), obind_some end.
    match goal with H : enc c2 h (f2 x) = Ret ?v |- _ => rewrite (law_round_trip L2 h h' (f2 x) v Hh ltac:(assumption) H), obind_some end.
    match goal with H : enc c3 h (f3 x) = Ret ?v |- _ => rewrite (law_round_trip L3 h h' (f3 x) v Hh ltac:(assumption) H), obind_some end.
    match goal with H : enc c4 h (f4 x) = Ret ?v |- _ => rewrite (law_round_trip L4 h h' (f4 x) v Hh ltac:(assumption) H), obind_some end.
    rewrite Hmk. reflexivity.
  - intros h v x H. destruct (struct_fields _ v) as [fs|]; [|discriminate H].
    destruct fs as [|? fs]; [discriminate H|]. destruct fs as [|? fs]; [discriminate H|]. destruct fs as [|? fs]; [discriminate H|]. destruct fs as [|? fs]; [discriminate H|]. destruct fs; [|discriminate H].
    repeat inv_obind H. injection H as <-. apply Hw. rewrite Hf1, Hf2, Hf3, Hf4.
    repeat split; first [eapply (law_accepts L1); eassumption | eapply (law_accepts L2); eassumption | eapply (law_accepts L3); eassumption | eapply (law_accepts L4); eassumption].
  - intros Ht h v. destruct (struct_fields _ v) as [fs|]; [|eauto].
    destruct fs as [|? fs]; [eauto|]. destruct fs as [|? fs]; [eauto|]. destruct fs as [|? fs]; [eauto|]. destruct fs as [|? fs]; [eauto|]. destruct fs; [|eauto].
    apply obind_total; [exact (law_dec_total L1 Ht _ _)|intros ?]. apply obind_total; [exact (law_dec_total L2 Ht _ _)|intros ?]. apply obind_total; [exact (law_dec_total L3 Ht _ _)|intros ?]. apply obind_total; [exact (law_dec_total L4 Ht _ _)|intros ?]. eauto.
  - intros Hu h x Hx. apply Hw in Hx. destruct_ands Hx.
    apply bind_total; [apply (law_enc_total L1 Hu); assumption|intros ?]. apply bind_total; [apply (law_enc_total L2 Hu); assumption|intros ?]. apply bind_total; [apply (law_enc_total L3 Hu); assumption|intros ?]. apply bind_total; [apply (law_enc_total L4 Hu); assumption|intros ?]. eauto.
Qed.

Lemma struct5 : forall (R A1 A2 A3 A4 A5 : Type) (T U : Prop) (n1 n2 n3 n4 n5 : string)
  (c1 : Codec A1) (w1 : A1 -> Prop) (f1 : R -> A1)
  (c2 : Codec A2) (w2 : A2 -> Prop) (f2 : R -> A2)
  (c3 : Codec A3) (w3 : A3 -> Prop) (f3 : R -> A3)
  (c4 : Codec A4) (w4 : A4 -> Prop) (f4 : R -> A4)
  (c5 : Codec A5) (w5 : A5 -> Prop) (f5 : R -> A5)
  (mk : A1 -> A2 -> A3 -> A4 -> A5 -> R) (wf : R -> Prop),
  (forall v1 v2 v3 v4 v5, struct_map_fields [n1; n2; n3; n4; n5] [(n1, v1); (n2, v2); (n3, v3); (n4, v4); (n5, v5)] = Some [v1; v2; v3; v4; v5]) ->
  (forall x, mk (f1 x) (f2 x) (f3 x) (f4 x) (f5 x) = x) ->
  (forall x1 x2 x3 x4 x5, f1 (mk x1 x2 x3 x4 x5) = x1) ->
  (forall x1 x2 x3 x4 x5, f2 (mk x1 x2 x3 x4 x5) = x2) ->
  (forall x1 x2 x3 x4 x5, f3 (mk x1 x2 x3 x4 x5) = x3) ->
  (forall x1 x2 x3 x4 x5, f4 (mk x1 x2 x3 x4 x5) = x4) ->
  (forall x1 x2 x3 x4 x5, f5 (mk x1 x2 x3 x4 x5) = x5) ->
  (forall x, wf x <-> w1 (f1 x) /\ w2 (f2 x) /\ w3 (f3 x) /\ w4 (f4 x) /\ w5 (f5 x)) ->
  lawful T U c1 w1 ->
  lawful T U c2 w2 ->
  lawful T U c3 w3 ->
  lawful T U c4 w4 ->
  lawful T U c5 w5 ->
  lawful T U (mkCodec
    (fun h x => a1 <- enc c1 h (f1 x) ;; a2 <- enc c2 h (f2 x) ;; a3 <- enc c3 h (f3 x) ;; a4 <- enc c4 h (f4 x) ;; a5 <- enc c5 h (f5 x) ;; Ret (SMap [(n1, a1); (n2, a2); (n3, a3); (n4, a4); (n5, a5)]))
    (fun h v => match struct_fields [n1; n2; n3; n4; n5] v with
      | Some [b1; b2; b3; b4; b5] => a1 <-? dec c1 h b1 ;; a2 <-? dec c2 h b2 ;; a3 <-? dec c3 h b3 ;; a4 <-? dec c4 h b4 ;; a5 <-? dec c5 h b5 ;; Ret (Some (mk a1 a2 a3 a4 a5))
      | _ => Ret None end)) wf.
Proof.
  intros R A1 A2 A3 A4 A5 T U n1 n2 n3 n4 n5 c1 w1 f1 c2 w2 f2 c3 w3 f3 c4 w4 f4 c5 w5 f5 mk wf Hs Hmk Hf1 Hf2 Hf3 Hf4 Hf5 Hw L1 L2 L3 L4 L5. split; cbn [enc dec].
  - intros h h' x v Hh Hx H. apply Hw in Hx. destruct_ands Hx. repeat inv_bind H. injection H as <-.
    cbn [struct_fields]. rewrite Hs.
    match goal with H : enc c1 h (f1 x) = Ret ?v |- _ => rewrite (law_round_trip L1 h h' (f1 x) v Hh ltac:(assumption) H), obind_some end.
    match goal with H : enc c2 h (f2 x) = Ret ?v |- _ => rewrite (law_round_trip L2 h h' (f2 x) v Hh ltac:(assumption) H), obind_some end.
    match goal with H : enc c3 h (f3 x) = Ret ?v |- _ => rewrite (law_round_trip L3 h h' (f3 x) v Hh ltac:(assumption) H), obind_some end.
    match goal with H : enc c4 h (f4 x) = Ret ?v |- _ => rewrite (law_round_trip L4 h h' (f4 x) v Hh ltac:(assumption) H), obind_some end.
    match goal with H : enc c5 h (f5 x) = Ret ?v |- _ => rewrite (law_round_trip L5 h h' (f5 x) v Hh ltac:(assumption) H), obind_some end.
    rewrite Hmk. reflexivity.
  - intros h v x H. destruct (struct_fields _ v) as [fs|]; [|discriminate H].
    destruct fs as [|? fs]; [discriminate H|]. destruct fs as [|? fs]; [discriminate H|]. destruct fs as [|? fs]; [discriminate H|]. destruct fs as [|? fs]; [discriminate H|]. destruct fs as [|? fs]; [discriminate H|]. destruct fs; [|discriminate H].
    repeat inv_obind H. injection H as <-. apply Hw. rewrite Hf1, Hf2, Hf3, Hf4, Hf5.
    repeat split; first [eapply (law_accepts L1); eassumption | eapply (law_accepts L2); eassumption | eapply (law_accepts L3); eassumption | eapply (law_accepts L4); eassumption | eapply (law_accepts L5); eassumption].
  - intros Ht h v. destruct (struct_fields _ v) as [fs|]; [|eauto].
    destruct fs as [|? fs]; [eauto|]. destruct fs as [|? fs]; [eauto|]. destruct fs as [|? fs]; [eauto|]. destruct fs as [|? fs]; [eauto|]. destruct fs as [|? fs]; [eauto|]. destruct fs; [|eauto].
    apply obind_total; [exact (law_dec_total L1 Ht _ _)|intros ?]. apply obind_total; [exact (law_dec_total L2 Ht _ _)|intros ?]. apply obind_total; [exact (law_dec_total L3 Ht _ _)|intros ?]. apply obind_total; [exact (law_dec_total L4 Ht _ _)|intros ?]. apply obind_total; [exact (law_dec_total L5 Ht _ _)|intros ?]. eauto.
  - intros Hu h x Hx. apply Hw in Hx. destruct_ands Hx.
    apply bind_total; [apply (law_enc_total L1 Hu); assumption|intros ?]. apply bind_total; [apply (law_enc_total L2 Hu); assumption|intros ?]. apply bind_total; [apply (law_enc_total L3 Hu); assumption|intros ?]. apply bind_total; [apply (law_enc_total L4 Hu); assumption|intros ?]. apply bind_total; [apply (law_enc_total L5 Hu); assumption|intros ?]. eauto.
Qed.

Lemma struct6 : forall (R A1 A2 A3 A4 A5 A6 : Type) (T U : Prop) (n1 n2 n3 n4 n5 n6 : string)
  (c1 : Codec A1) (w1 : A1 -> Prop) (f1 : R -> A1)
  (c2 : Codec A2) (w2 : A2 -> Prop) (f2 : R -> A2)
  (c3 : Codec A3) (w3 : A3 -> Prop) (f3 : R -> A3)
  (c4 : Codec A4) (w4 : A4 -> Prop) (f4 : R -> A4)
  (c5 : Codec A5) (w5 : A5 -> Prop) (f5 : R -> A5)
  (c6 : Codec A6) (w6 : A6 -> Prop) (f6 : R -> A6)
  (mk : A1 -> A2 -> A3 -> A4 -> A5 -> A6 -> R) (wf : R -> Prop),
  (forall v1 v2 v3 v4 v5 v6, struct_map_fields [n1; n2; n3; n4; n5; n6] [(n1, v1); (n2, v2); (n3, v3); (n4, v4); (n5, v5); (n6, v6)] = Some [v1; v2; v3; v4; v5; v6]) ->
  (forall x, mk (f1 x) (f2 x) (f3 x) (f4 x) (f5 x) (f6 x) = x) ->
  (forall x1 x2 x3 x4 x5 x6, f1 (mk x1 x2 x3 x4 x5 x6) = x1) ->
  (forall x1 x2 x3 x4 x5 x6, f2 (mk x1 x2 x3 x4 x5 x6) = x2) ->
  (forall x1 x2 x3 x4 x5 x6, f3 (mk x1 x2 x3 x4 x5 x6) = x3) ->
  (forall x1 x2 x3 x4 x5 x6, f4 (mk x1 x2 x3 x4 x5 x6) = x4) ->
  (forall x1 x2 x3 x4 x5 x6, f5 (mk x1 x2 x3 x4 x5 x6) = x5) ->
  (forall x1 x2 x3 x4 x5 x6, f6 (mk x1 x2 x3 x4 x5 x6) = x6) ->
  (forall x, wf x <-> w1 (f1 x) /\ w2 (f2 x) /\ w3 (f3 x) /\ w4 (f4 x) /\ w5 (f5 x) /\ w6 (f6 x)) ->
  lawful T U c1 w1 ->
  lawful T U c2 w2 ->
  lawful T U c3 w3 ->
  lawful T U c4 w4 ->
  lawful T U c5 w5 ->
  lawful T U c6 w6 ->
  lawful T U (mkCodec
    (fun h x => a1 <- enc c1 h (f1 x) ;; a2 <- enc c2 h (f2 x) ;; a3 <- enc c3 h (f3 x) ;; a4 <- enc c4 h (f4 x) ;; a5 <- enc c5 h (f5 x) ;; a6 <- enc c6 h (f6 x) ;; Ret (SMap [(n1, a1); (n2, a2); (n3, a3); (n4, a4); (n5, a5); (n6, a6)]))
    (fun h v => match struct_fields [n1; n2; n3; n4; n5; n6] v with
      | Some [b1; b2; b3; b4; b5; b6] => a1 <-? dec c1 h b1 ;; a2 <-? dec c2 h b2 ;; a3 <-? dec c3 h b3 ;; a4 <-? dec c4 h b4 ;; a5 <-? dec c5 h b5 ;; a6 <-? dec c6 h b6 ;; Ret (Some (mk a1 a2 a3 a4 a5 a6))
      | _ => Ret None end)) wf.
Proof.
  intros R A1 A2 A3 A4 A5 A6 T U n1 n2 n3 n4 n5 n6 c1 w1 f1 c2 w2 f2 c3 w3 f3 c4 w4 f4 c5 w5 f5 c6 w6 f6 mk wf Hs Hmk Hf1 Hf2 Hf3 Hf4 Hf5 Hf6 Hw L1 L2 L3 L4 L5 L6. split; cbn [enc dec].
  - intros h h' x v Hh Hx H. apply Hw in Hx. destruct_ands Hx. repeat inv_bind H. injection H as <-.
    cbn [struct_fields]. rewrite Hs.
    match goal with H : enc c1 h (f1 x) = Ret ?v |- _ => rewrite (law_round_trip L1 h h' (f1 x) v Hh ltac:(assumption) H), obind_some end.
    match goal with H : enc c2 h (f2 x) = Ret ?v |- _ => rewrite (law_round_trip L2 h h' (f2 x) v Hh ltac:(assumption) H), obind_some end.
    match goal with H : enc c3 h (f3 x) = Ret ?v |- _ => rewrite (law_round_trip L3 h h' (f3 x) v Hh ltac:(assumption) H), obind_some end.
    match goal with H : enc c4 h (f4 x) = Ret ?v |- _ => rewrite (law_round_trip L4 h h' (f4 x) v Hh ltac:(assumption) H), obind_some end.
    match goal with H : enc c5 h (f5 x) = Ret ?v |- _ => rewrite (law_round_trip L5 h h' (f5 x) v Hh ltac:(assumption) H), obind_some end.
    match goal with H : enc c6 h (f6 x) = Ret ?v |- _ => rewrite (law_round_trip L6 h h' (f6 x) v Hh ltac:(assumption) H), obind_some end.
    rewrite Hmk. reflexivity.
  - intros h v x H. destruct (struct_fields _ v) as [fs|]; [|discriminate H].
    destruct fs as [|? fs]; [discriminate H|]. destruct fs as [|? fs]; [discriminate H|]. destruct fs as [|? fs]; [discriminate H|]. destruct fs as [|? fs]; [discriminate H|]. destruct fs as [|? fs]; [discriminate H|]. destruct fs as [|? fs]; [discriminate H|]. destruct fs; [|discriminate H].
    repeat inv_obind H. injection H as <-. apply Hw. rewrite Hf1, Hf2, Hf3, Hf4, Hf5, Hf6.
    repeat split; first [eapply (law_accepts L1); eassumption | eapply (law_accepts L2); eassumption | eapply (law_accepts L3); eassumption | eapply (law_accepts L4); eassumption | eapply (law_accepts L5); eassumption | eapply (law_accepts L6); eassumption].
  - intros Ht h v. destruct (struct_fields _ v) as [fs|]; [|eauto].
    destruct fs as [|? fs]; [eauto|]. destruct fs as [|? fs]; [eauto|]. destruct fs as [|? fs]; [eauto|]. destruct fs as [|? fs]; [eauto|]. destruct fs as [|? fs]; [eauto|]. destruct fs as [|? fs]; [eauto|]. destruct fs; [|eauto].
    apply obind_total; [exact (law_dec_total L1 Ht _ _)|intros ?]. apply obind_total; [exact (law_dec_total L2 Ht _ _)|intros ?]. apply obind_total; [exact (law_dec_total L3 Ht _ _)|intros ?]. apply obind_total; [exact (law_dec_total L4 Ht _ _)|intros ?]. apply obind_total; [exact (law_dec_total L5 Ht _ _)|intros ?]. apply obind_total; [exact (law_dec_total L6 Ht _ _)|intros ?]. eauto.
  - intros Hu h x Hx. apply Hw in Hx. destruct_ands Hx.
    apply bind_total; [apply (law_enc_total L1 Hu); assumption|intros ?]. apply bind_total; [apply (law_enc_total L2 Hu); assumption|intros ?]. apply bind_total; [apply (law_enc_total L3 Hu); assumption|intros ?]. apply bind_total; [apply (law_enc_total L4 Hu); assumption|intros ?]. apply bind_total; [apply (law_enc_total L5 Hu); assumption|intros ?]. apply bind_total; [apply (law_enc_total L6 Hu); assumption|intros ?]. eauto.
Qed.

(** ** The types of the crate *)
Section Types.
Context (E : Env) (L : GroupLaws E).
Local Notation ST := (ser_total E).

Lemma opening_lawful : lawful True True Opening_codec bytes32.
Proof.
  split.
  - intros h h' x v Hh Hw H. cbn [enc dec Opening_codec] in *. injection H as <-. rewrite (bytes_round_trip h h' x Hh).
    unfold bytes32 in Hw. rewrite Hw. reflexivity.
  - intros h v x H. cbn [dec Opening_codec] in H. destruct (deserialize_bytes h v); [|discriminate].
    destruct (Nat.eqb_spec (List.length b) 32); [|discriminate]. injection H as <-. assumption.
  - intros _ h v. cbn [dec Opening_codec]. destruct (deserialize_bytes h v); eauto. destruct (_ =? _)%nat; eauto.
  - intros _ h x _. cbn. eauto.
Qed.

Lemma from_bytes_iff : forall b (k : PublicKey E),
  PublicKey_from_bytes b = Ok k <-> pk_bytes k = b /\ valid_key k.
Proof.
  intros b k. unfold PublicKey_from_bytes, valid_key. split.
  - intros H. destruct (Nat.eqb_spec (List.length b) (ELEMENT_SIZE E)) as [Hl|]; [|discriminate]. cbn [negb] in H.
    destruct (deserialize_element b) as [e|] eqn:He; [|discriminate]. destruct (is_identity e) eqn:Hi; [discriminate|].
    injection H as <-. cbn [pk_bytes pk_element]. repeat split; try assumption. intros ->.
    rewrite (proj2 (is_identity_ok E L identity) eq_refl) in Hi. discriminate.
  - intros (<- & Hl & He & Hi). rewrite Hl, Nat.eqb_refl. cbn [negb]. rewrite He.
    destruct (is_identity (pk_element k)) eqn:H; [apply (is_identity_ok E L) in H; contradiction|]. destruct k; reflexivity.
Qed.

Lemma public_key_lawful : lawful True True (PublicKey_codec (E:=E)) valid_key.
Proof.
  split.
  - intros h h' x v Hh Hw H. cbn [enc dec PublicKey_codec] in *. injection H as <-. rewrite (bytes_round_trip h h' _ Hh).
    rewrite (proj2 (from_bytes_iff _ x) (conj eq_refl Hw)). reflexivity.
  - intros h v x H. cbn [dec PublicKey_codec] in H. destruct (deserialize_bytes h v); [|discriminate].
    destruct (PublicKey_from_bytes b) eqn:Hb; [|discriminate]. injection H as <-. apply from_bytes_iff in Hb. apply Hb.
  - intros _ h v. cbn [dec PublicKey_codec]. destruct (deserialize_bytes h v); eauto. destruct (PublicKey_from_bytes b); eauto.
  - intros _ h x _. cbn. eauto.
Qed.

Lemma secret_key_lawful : lawful True True (SecretKey_codec (E:=E)) any.
Proof.
  split.
  - intros h h' x v Hh Hw H. cbn [enc dec SecretKey_codec] in *. injection H as <-. rewrite (bytes_round_trip h h' _ Hh).
    rewrite (sk_codec E L). reflexivity.
  - intros. exact I.
  - intros _ h v. cbn [dec SecretKey_codec]. destruct (deserialize_bytes h v); eauto.
  - intros _ h x _. cbn. eauto.
Qed.

Lemma ser_total_all : ST -> forall e : Element E, exists b, serialize_element e = Ret b.
Proof.
  intros [b Hb] e. destruct (e_eq_dec L e identity) as [->|Hn]; [eauto|]. exact (ser_element_some E L e Hn).
Qed.

Lemma keypair_iff : forall (sk : SecretKey E) k,
  Keypair_from_secret sk = Ret k <-> kp_secret k = sk /\ valid_keypair k.
Proof.
  intros sk k. unfold Keypair_from_secret, PublicKey_from_secret, PublicKey_from_element, valid_keypair, key_of, key_bytes_ok. split.
  - intros H. inv_bind H. inv_bind Hm. injection H as <-. injection Hm as <-. cbn [kp_secret kp_public pk_element pk_bytes].
    rewrite <- (mul_generator_ok E L). auto.
  - intros (<- & Hk & Hb). rewrite (mul_generator_ok E L). rewrite Hk in Hb. rewrite Hb. cbn [bind].
    destruct k as [s [pb pe]]. cbn [kp_secret kp_public pk_element pk_bytes] in *. subst pe. reflexivity.
Qed.

Lemma keypair_lawful : lawful ST True (Keypair_codec (E:=E)) valid_keypair.
Proof.
  split.
  - intros h h' x v Hh Hw H. cbn [dec Keypair_codec]. rewrite (law_round_trip secret_key_lawful h h' (kp_secret x) v Hh I H), obind_some.
    rewrite (proj2 (keypair_iff _ x) (conj eq_refl Hw)). reflexivity.
  - intros h v x H. cbn [dec Keypair_codec] in H. inv_obind H. inv_bind H. injection H as <-. apply keypair_iff in Hm0. apply Hm0.
  - intros Ht h v. cbn [dec Keypair_codec]. apply obind_total; [exact (law_dec_total secret_key_lawful I _ _)|]. intros sk.
    apply bind_total; [|eauto]. unfold Keypair_from_secret, PublicKey_from_secret, PublicKey_from_element.
    destruct (ser_total_all Ht (mul_generator sk)) as [b ->]. cbn [bind]. eauto.
  - intros _ h x _. cbn. eauto.
Qed.

Lemma scalar_lawful : lawful True True (ScalarHelper (E:=E)) any.
Proof.
  split.
  - intros h h' x v Hh Hw H. cbn [enc dec ScalarHelper] in *. injection H as <-. rewrite (bytes_round_trip h h' _ Hh).
    rewrite (ser_scalar_len E L), Nat.eqb_refl, (deser_ser_scalar E L). reflexivity.
  - intros. exact I.
  - intros _ h v. cbn [dec ScalarHelper]. destruct (deserialize_bytes h v); eauto. destruct (_ =? _)%nat; eauto.
  - intros _ h x _. cbn. eauto.
Qed.

Lemma element_lawful : lawful True ST (ElementHelper (E:=E)) any.
Proof.
  split.
  - intros h h' x v Hh Hw H. cbn [enc dec ElementHelper] in *. inv_bind H. injection H as <-. rewrite (bytes_round_trip h h' _ Hh).
    destruct (ser_element_ok E L x a Hm) as [Hl Hd]. rewrite Hl, Nat.eqb_refl, Hd. reflexivity.
  - intros. exact I.
  - intros _ h v. cbn [dec ElementHelper]. destruct (deserialize_bytes h v); eauto. destruct (_ =? _)%nat; eauto.
  - intros Ht h x _. cbn [enc ElementHelper]. destruct (ser_total_all Ht x) as [b ->]. cbn [bind]. eauto.
Qed.


Lemma forall_any : forall (A : Type) (l : list A), Forall any l.
Proof. intros A l. apply Forall_forall. intros. exact I. Qed.

Ltac weaken H := refine (lawful_weaken _ _ _ _ _ _ _ _ H _ _ _); [tauto|tauto|].
Ltac same := intros; reflexivity.

Lemma ciphertext_lawful : lawful True ST (Ciphertext_codec (E:=E)) any.
Proof.
  apply (struct2 _ _ _ _ _ _ _ _ any _ _ any _ (fun a b => {| random_element := a; blinded_element := b |}));
    try same; try exact element_lawful; [intros []; reflexivity|unfold any; tauto].
Qed.

Lemma decryption_lawful : lawful True ST (VerifiableDecryption_codec (E:=E)) any.
Proof.
  apply (struct1 _ _ _ _ _ _ any _ (fun a => {| vd_dh_element := a |}));
    try same; try exact element_lawful; [intros []; reflexivity].
Qed.

Lemma candidate_lawful : lawful True ST (CandidateDecryption_codec (E:=E)) any.
Proof.
  split.
  - intros h h' [x] v Hh Hx H. cbn [enc dec CandidateDecryption_codec cd_inner] in *.
    rewrite (law_round_trip decryption_lawful h h' x v Hh I H). reflexivity.
  - intros. exact I.
  - intros _ h v. apply obind_total; [exact (law_dec_total decryption_lawful I _ _)|eauto].
  - intros Ht h x _. exact (law_enc_total decryption_lawful Ht h (cd_inner x) I).
Qed.

Lemma log_equality_lawful : lawful True True (LogEqualityProof_codec (E:=E)) any.
Proof.
  apply (struct2 _ _ _ _ _ _ _ _ any _ _ any _ (fun a b => {| le_challenge := a; le_response := b |}));
    try same; try exact scalar_lawful; [intros []; reflexivity|unfold any; tauto].
Qed.

Lemma scalars_lawful : forall k, lawful True True (VecHelper (E:=E) (ScalarHelper (E:=E)) k) (at_least k).
Proof.
  intros k. weaken (vec_helper_lawful _ _ scalar_lawful E k). intros x. pose proof (forall_any _ x). tauto.
Qed.
Lemma elements_lawful : forall k, lawful True ST (VecHelper (E:=E) (ElementHelper (E:=E)) k) (at_least k).
Proof.
  intros k. weaken (vec_helper_lawful _ _ element_lawful E k). intros x. pose proof (forall_any _ x). tauto.
Qed.

Lemma possession_lawful : lawful True True (ProofOfPossession_codec (E:=E)) valid_pop.
Proof.
  apply (struct2 _ _ _ _ _ _ _ _ any _ _ (at_least 1) _ (fun a b => {| pop_challenge := a; pop_responses := b |}));
    try same; [intros []; reflexivity|unfold any, valid_pop; tauto|exact scalar_lawful|exact (scalars_lawful 1)].
Qed.

Lemma ring_proof_lawful : lawful True True (RingProof_codec (E:=E)) valid_ring_proof.
Proof.
  assert (H : lawful True True (mkCodec (fun h (x : RingProof E) =>
      a <- enc ScalarHelper h (rp_challenge x) ;; b <- enc (VecHelper (E:=E) (ScalarHelper (E:=E)) 2) h (rp_responses x) ;;
      Ret (SMap [("common_challenge"%string, a); ("ring_responses"%string, b)])) (dec RingProof_codec)) valid_ring_proof).
  { apply (struct2 _ _ _ _ _ _ _ _ any _ _ (at_least 2) _ (fun a b => {| rp_challenge := a; rp_responses := b |}));
      try same; [intros []; reflexivity|unfold any, valid_ring_proof; tauto|exact scalar_lawful|exact (scalars_lawful 2)]. }
  assert (He : forall h x, enc (RingProof_codec (E:=E)) h x =
    (a <- enc ScalarHelper h (rp_challenge x) ;; b <- enc (VecHelper (E:=E) (ScalarHelper (E:=E)) 2) h (rp_responses x) ;;
      Ret (SMap [("common_challenge"%string, a); ("ring_responses"%string, b)]))).
  { intros h x. cbn [enc RingProof_codec]. unfold RingProof_enc_fields. destruct (enc ScalarHelper h (rp_challenge x)); [|reflexivity].
    cbn [bind]. destruct (enc (VecHelper (E:=E) (ScalarHelper (E:=E)) 2) h (rp_responses x)); reflexivity. }
  split.
  - intros h h' x v Hh Hx. rewrite He. exact (law_round_trip H h h' x v Hh Hx).
  - exact (law_accepts H).
  - exact (law_dec_total H).
  - intros _ h x Hx. rewrite He. exact (law_enc_total H I h x Hx).
Qed.

Lemma range_proof_lawful : lawful True ST (RangeProof_codec (E:=E)) valid_range_proof.
Proof.
  pose proof (vec_lawful _ _ ciphertext_lawful) as Lv. split.
  - intros h h' [pt ip] v Hh Hx H. cbn [enc RangeProof_codec rap_partial rap_inner] in H. unfold valid_range_proof in Hx. cbn [rap_inner] in Hx.
    inv_bind H. inv_bind H. injection H as <-. cbn [dec RangeProof_codec].
    assert (Hi : enc RingProof_codec h ip = Ret (SMap a0)) by (cbn [enc RingProof_codec]; rewrite Hm0; reflexivity).
    assert (Hn : exists x y, a0 = [("common_challenge"%string, x); ("ring_responses"%string, y)]).
    { unfold RingProof_enc_fields in Hm0. repeat inv_bind Hm0. injection Hm0 as <-. eauto. }
    destruct Hn as (x & y & ->).
    replace (field_entries "partial_ciphertexts" (("partial_ciphertexts"%string, a) :: _)) with [a] by reflexivity.
    rewrite (law_round_trip Lv h h' pt a Hh (forall_any _ pt) Hm), obind_some.
    match goal with |- context [dec RingProof_codec true ?s] => change s with (SMap [("common_challenge"%string, x); ("ring_responses"%string, y)]) end.
    rewrite (law_round_trip ring_proof_lawful h true ip _ ltac:(destruct h; reflexivity) Hx Hi). reflexivity.
  - intros h v x H. cbn [dec RangeProof_codec] in H. destruct v; try discriminate H.
    destruct (field_entries _ l) as [|a [|]]; try discriminate H. inv_obind H. inv_obind H. injection H as <-.
    exact (law_accepts ring_proof_lawful _ _ _ Hm0).
  - intros _ h v. cbn [dec RangeProof_codec]. destruct v; eauto. destruct (field_entries _ l) as [|a [|]]; eauto.
    apply obind_total; [exact (law_dec_total Lv I _ _)|]. intros x.
    apply obind_total; [exact (law_dec_total ring_proof_lawful I _ _)|]. eauto.
  - intros Ht h x Hx. cbn [enc RangeProof_codec]. destruct (law_enc_total Lv Ht h (rap_partial x) (forall_any _ _)) as [a ->]. cbn [bind].
    destruct (law_enc_total ring_proof_lawful I h (rap_inner x) Hx) as [b Hb]. cbn [enc RingProof_codec] in Hb. inv_bind Hb.
    rewrite Hm. cbn [bind]. eauto.
Qed.

Lemma commitment_lawful : lawful True True (CommitmentEquivalenceProof_codec (E:=E)) any.
Proof.
  apply (struct4 _ _ _ _ _ _ _ _ _ _ _ _ any _ _ any _ _ any _ _ any _
    (fun a b c d => {| ce_challenge := a; ce_randomness_response := b; ce_value_response := c; ce_commitment_response := d |}));
    try same; try exact scalar_lawful; [intros []; reflexivity|unfold any; tauto].
Qed.

Lemma sq_lawful : lawful True True (SumOfSquaresProof_codec (E:=E)) valid_sq.
Proof.
  apply (struct3 _ _ _ _ _ _ _ _ _ _ any _ _ (at_least 2) _ _ any _
    (fun a b c => {| sq_challenge := a; sq_ciphertext_responses := b; sq_sum_response := c |}));
    try same; try exact scalar_lawful; [intros []; reflexivity|unfold any, valid_sq; tauto|exact (scalars_lawful 2)].
Qed.

Lemma params_lawful : lawful True True Params_codec valid_params.
Proof.
  apply (struct2 _ _ _ _ _ _ _ _ is_u64 _ _ is_u64 _ (fun a b => {| pa_shares := a; pa_threshold := b |}));
    try same; try exact nat_lawful; [intros []; reflexivity].
Qed.

Lemma key_set_lawful : lawful True True (PublicKeySet_codec (E:=E)) valid_key_set.
Proof.
  apply (struct3 _ _ _ _ _ _ _ _ _ _ valid_params _ _ valid_key _ _ (Forall valid_key) _
    (fun a b c => {| ks_params := a; ks_shared_key := b; ks_participant_keys := c |}));
    try same; [intros []; reflexivity|exact params_lawful|exact public_key_lawful|exact (vec_lawful _ _ public_key_lawful)].
Qed.

Lemma dealer_lawful : lawful ST True (Dealer_codec (E:=E)) valid_dealer.
Proof.
  apply (struct3 _ _ _ _ _ _ _ _ _ _ valid_params _ _ (Forall valid_keypair) _ _ valid_pop _
    (fun a b c => {| de_params := a; de_polynomial := b; de_pop := c |}));
    try same; [intros []; reflexivity|weaken params_lawful; same|exact (vec_lawful _ _ keypair_lawful)|weaken possession_lawful; same].
Qed.

Lemma active_lawful : lawful True True (ActiveParticipant_codec (E:=E)) valid_active.
Proof.
  apply (struct3 _ _ _ _ _ _ _ _ _ _ valid_key_set _ _ is_u64 _ _ any _
    (fun a b c => {| ap_key_set := a; ap_index := b; ap_secret_share := c |}));
    try same; [intros []; reflexivity|unfold any, valid_active; tauto|exact key_set_lawful|exact nat_lawful|exact secret_key_lawful].
Qed.

Lemma info_lawful : lawful True ST (PublicInfo_codec (E:=E)) valid_info.
Proof.
  apply (struct3 _ _ _ _ _ _ _ _ _ _ (at_least 1) _ _ valid_pop _ _ bytes32 _
    (fun a b c => {| pi_polynomial := a; pi_pop := b; pi_opening := c |}));
    try same; [intros []; reflexivity|exact (elements_lawful 1)|weaken possession_lawful; same|weaken opening_lawful; same].
Qed.

Lemma pcc_lawful : lawful ST True (PCC_codec (E:=E)) valid_pcc.
Proof.
  apply (struct5 _ _ _ _ _ _ _ _ _ _ _ _ _ _ valid_params _ _ is_u64 _ _ valid_dealer _ _ (Forall (opt bytes32)) _ _ bytes32 _
    (fun a b c d e => {| pcc_params := a; pcc_index := b; pcc_dealer := c; pcc_commitments := d; pcc_opening := e |}));
    try same; [intros []; reflexivity|weaken params_lawful; same|weaken nat_lawful; same|exact dealer_lawful| |weaken opening_lawful; same].
  apply vec_lawful. apply option_lawful; [weaken array32_lawful; same|]. intros h x H. discriminate H.
Qed.

Lemma pcp_lawful : lawful ST ST (PCP_codec (E:=E)) valid_pcp.
Proof.
  apply (struct6 _ _ _ _ _ _ _ _ _ _ _ _ _ _ _ _ valid_params _ _ is_u64 _ _ valid_dealer _ _ bytes32 _ _ (Forall bytes32) _ _ (Forall (opt (at_least 1))) _
    (fun a b c d e f => {| pcp_params := a; pcp_index := b; pcp_dealer := c; pcp_opening := d; pcp_commitments := e; pcp_public_polynomials := f |}));
    try same; [intros []; reflexivity|weaken params_lawful; same|weaken nat_lawful; same|weaken dealer_lawful; same
              |weaken opening_lawful; same|apply vec_lawful; weaken array32_lawful; same|].
  apply vec_lawful. apply option_lawful; [weaken (elements_lawful 1); same|].
  intros h x H. cbn [enc PublicPolynomial_codec VecHelper] in H. inv_bind H. inv_bind H. discriminate H.
Qed.

Lemma pes_lawful : lawful ST ST (PES_codec (E:=E)) valid_pes.
Proof.
  apply (struct6 _ _ _ _ _ _ _ _ _ _ _ _ _ _ _ _ valid_params _ _ is_u64 _ _ valid_dealer _ _ (Forall (at_least 1)) _ _ any _ _ any _
    (fun a b c d e f => {| pes_params := a; pes_index := b; pes_dealer := c; pes_public_polynomials := d; pes_accumulated_share := e; pes_shares_received := f |}));
    try same; [intros []; reflexivity|unfold any, valid_pes; tauto|weaken params_lawful; same|weaken nat_lawful; same|weaken dealer_lawful; same
              |apply vec_lawful; weaken (elements_lawful 1); same|weaken secret_key_lawful; same|].
  weaken (vec_lawful _ _ bool_lawful). intros x. split; [intros; exact I|intros; apply forall_any].
Qed.

Lemma choice_lawful : forall (S : ProveSum E) (cs : Codec (ps_Proof S)), lawful True True cs any ->
  lawful True ST (EncryptedChoice_codec S cs) valid_choice.
Proof.
  intros S cs Hc.
  apply (struct3 _ _ _ _ _ _ _ _ _ _ any _ _ valid_ring_proof _ _ any _
    (fun a b c => {| ec_choices := a; ec_range_proof := b; ec_sum_proof := c |}));
    try same; [intros []; reflexivity|unfold any, valid_choice; tauto| |weaken ring_proof_lawful; same|weaken Hc; same].
  weaken (vec_lawful _ _ ciphertext_lawful). intros x. split; [intros; exact I|intros; apply forall_any].
Qed.

Lemma crp_lawful : lawful True ST (CiphertextWithRangeProof_codec (E:=E)) valid_crp.
Proof.
  apply (struct2 _ _ _ _ _ _ _ _ any _ _ valid_range_proof _ (fun a b => {| crp_ciphertext := a; crp_range_proof := b |}));
    try same; [intros []; reflexivity|unfold any, valid_crp; tauto|exact ciphertext_lawful|exact range_proof_lawful].
Qed.

Lemma ballot_lawful : lawful True ST (QuadraticVotingBallot_codec (E:=E)) valid_ballot.
Proof.
  apply (struct3 _ _ _ _ _ _ _ _ _ _ (Forall valid_crp) _ _ valid_crp _ _ valid_sq _
    (fun a b c => {| qb_votes := a; qb_credit := b; qb_credit_equivalence_proof := c |}));
    try same; [intros []; reflexivity|exact (vec_lawful _ _ crp_lawful)|exact crp_lawful|weaken sq_lawful; same].
Qed.
End Types.

(** ** What verifiers accept can be serialized *)
Lemma ring_verify_length : forall (E : Env) (p : RingProof E) K vals cts t t',
  RingProof_verify p K vals cts t = Ret (Ok tt, t') ->
  List.length (rp_responses p) = list_sum (map (@List.length (Element E)) vals).
Proof.
  intros E p K vals cts t t' H. unfold RingProof_verify, check_lengths in H. destruct (Nat.eqb_spec (List.length (rp_responses p))
    (list_sum (map (@List.length (Element E)) vals))); [assumption|discriminate].
Qed.

Lemma range_verify_length : forall (E : Env) (p : RangeProof E) K r ct t t',
  RangeProof_verify p K r ct t = Ret (Ok tt, t') ->
  List.length (rp_responses (rap_inner p)) = list_sum (map (@List.length (Element E)) (pr_admissible r)).
Proof.
  intros E p K r ct t t' H. unfold RangeProof_verify, check_lengths in H. destruct (Nat.eqb _ _); [|discriminate].
  exact (ring_verify_length _ _ _ _ _ _ _ H).
Qed.

Lemma sq_verify_length : forall (E : Env) (p : SumOfSquaresProof E) cts z K t t',
  SumOfSquaresProof_verify p cts z K t = Ret (Ok tt, t') ->
  List.length (sq_ciphertext_responses p) = (List.length cts * 2)%nat.
Proof.
  intros E p cts z K t t' H. unfold SumOfSquaresProof_verify, check_lengths in H. destruct (Nat.eqb_spec (List.length (sq_ciphertext_responses p))
    (List.length cts * 2)); [assumption|discriminate].
Qed.
