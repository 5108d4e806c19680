(** * C91: nobody can claim later to have encrypted something else

    Ciphertexts for a given key, and ballots made of them, can be opened in one way only, whatever generator states are shown. So
    the state of the generator is a receipt: whoever shows it proves the vote, to coercers as well. *)
From Coq Require Import List NArith ZArith String Lia Arith Bool Field.
From Verif.Model Require Import Base Group Transcript Keys Encryption LogEquality Ring Range Choice Mul Quadratic.
From Verif.Spec Require Import Encryption LogEquality Sigma Ring Range Choice Quadratic.
From Verif.Proofs Require Import Lists Algebra Encryption LogEquality Ring Range RangeProof SumOfSquares Choice Quadratic.
From Verif.Instance Require Import Primality Zq.
From Verif.Properties Require Import LogEquality Ring Range Choice Quadratic.
Import ListNotations.
Open Scope string_scope.
Open Scope list_scope.
Open Scope nat_scope.

Section Lemmas.
Context (E : Env) (L : GroupLaws E).
Add Field s_field_binding : (s_field L).

Lemma key_of_dlog (pk : PublicKey E) : key_of (dlog L (pk_element pk)) pk.
Proof. unfold key_of. apply (dlog_inj L). rewrite dlog_mul, dlog_generator. ring. Qed.

Lemma s_one_mul (x : Scalar E) : (1 * x)%S = x.
Proof. ring. Qed.

Lemma s_mul_zero : 0%S = (1 * 0)%S :> Scalar E.
Proof. ring. Qed.

Lemma key_for (c : Ciphertext E) (M : Element E) (r : Scalar E) : r <> 0%S ->
  random_element c = (generator * r)%E ->
  blinded_element c = (M + ((blinded_element c - M) * s_inv L r) * r)%E.
Proof. intros Hr H. apply (dlog_inj L). rewrite dlog_add, !dlog_mul, dlog_sub. field. exact Hr. Qed.

Lemma generator_neq_identity : (generator : Element E) <> identity.
Proof. intros H. apply (f_equal (dlog L)) in H. rewrite dlog_generator, dlog_identity in H. exact (Field_theory.F_1_neq_0 (s_field L) H). Qed.
End Lemmas.

Theorem C91_ciphertexts_bind :
  forall (E : Env) (L : GroupLaws E) (pk : PublicKey E) (c : Ciphertext E),
    (forall v v' r r' r1 r1', encrypt pk v r = (c, r1) -> encrypt pk v' r' = (c, r1') -> v = v') /\
    (forall M M' r r' r1 r1', encrypt_element pk M r = (c, r1) -> encrypt_element pk M' r' = (c, r1') -> M = M') /\
    (forall b b' r r' p p' r1 r1', encrypt_bool pk b r = Ret (c, p, r1) -> encrypt_bool pk b' r' = Ret (c, p', r1') -> b = b') /\
    (forall v r r1 r' p r1', encrypt pk v r = (c, r1) -> encrypt_zero pk r' = Ret (c, p, r1') -> v = 0%S).
Proof.
  intros E L pk c. set (sk := dlog L (pk_element pk)). assert (Hk : key_of sk pk) by apply key_of_dlog.
  split; [|split; [|split]].
  - intros v v' r r' r1 r1' H H'. apply (gen_inj L).
    rewrite <- (decrypt_encrypt E L sk pk v r c r1 Hk H). exact (decrypt_encrypt E L sk pk v' r' c r1' Hk H').
  - intros M M' r r' r1 r1' H H'.
    rewrite <- (decrypt_encrypt_element E L sk pk M r c r1 Hk H). exact (decrypt_encrypt_element E L sk pk M' r' c r1' Hk H').
  - intros b b' r r' p p' r1 r1' H H'.
    destruct (C17_complete E L sk pk b r c p r1 Hk H) as [D _]. destruct (C17_complete E L sk pk b' r' c p' r1' Hk H') as [D' _].
    rewrite D in D'. destruct b, b'; try reflexivity; exfalso; [|symmetry in D']; exact (generator_neq_identity E L D').
  - intros v r r1 r' p r1' H H'. apply (gen_inj L). rewrite <- (decrypt_encrypt E L sk pk v r c r1 Hk H).
    destruct (C12_complete E L sk pk r' c p r1' Hk H') as [D _]. rewrite D. apply (dlog_inj L). rewrite dlog_identity, dlog_mul, dlog_generator. apply (s_mul_zero E L).
Qed.
Print Assumptions C91_ciphertexts_bind.

(** range ciphertexts: for the range of a decomposition made by [RangeDecomposition::optimal] *)
Theorem C91_range_ciphertexts_bind :
  forall (E : Env) (L : GroupLaws E), (2 ^ 64 <= order L)%Z ->
  forall (K : PublicKey E) est n d pr v v' rng rng' c p p' rng1 rng1', (n + 64 < 2 ^ 64)%N ->
    RangeDecomposition_optimal (env_build E) est n = Ret d -> PreparedRange_new d = Ret pr ->
    encrypt_range K pr v rng = Ret (c, p, rng1) -> encrypt_range K pr v' rng' = Ret (c, p', rng1') -> v = v'.
Proof.
  intros E L Hbig K est n d pr v v' rng rng' c p p' rng1 rng1' Hn Hd Hpr H H'.
  destruct (C22_encrypt_range_complete E L _ K est n d pr v rng c p rng1 (key_of_dlog E L K) Hn Hd Hpr H) as (V & D & _).
  destruct (C22_encrypt_range_complete E L _ K est n d pr v' rng' c p' rng1' (key_of_dlog E L K) Hn Hd Hpr H') as (V' & D' & _).
  rewrite D in D'. rewrite !(times_of_u64 E L) in D' by (unfold u64_lim; lia). apply (gen_inj L) in D'.
  apply (of_u64_inj E L Hbig); [unfold u64_lim; lia|unfold u64_lim; lia|exact D'].
Qed.
Print Assumptions C91_range_ciphertexts_bind.

(** Ballots with the same ciphertexts contain the same choices: any number of options, with and without a proof about their
    sum, correctly filled in or not. *)
Theorem C91_choices_bind :
  forall (E : Env) (L : GroupLaws E) (S : ProveSum E) (params : ChoiceParams S) choices choices' rng rng' e e' rng1 rng1',
    EncryptedChoice_new params choices rng = Ret (e, rng1) -> EncryptedChoice_new params choices' rng' = Ret (e', rng1') ->
    ec_choices e = ec_choices e' -> choices = choices'.
Proof.
  intros E L S params choices choices' rng rng' e e' rng1 rng1' H H' He.
  apply (choice_new_inv E L) in H as (_ & _ & exts & _ & _ & H1 & H2 & _).
  apply (choice_new_inv E L) in H' as (_ & _ & exts' & _ & _ & H1' & H2' & _).
  rewrite H1, H1' in He. clear -H2 H2' He L. revert choices' exts' He H2'.
  induction H2 as [|flag ext choices exts Hx H2 IH]; intros choices' exts' He H2'; destruct H2' as [|flag' ext' choices' exts' Hx' H2'];
    cbn [map] in He; try discriminate; [reflexivity|]. injection He as He1 He2. f_equal; [|exact (IH _ _ He2 H2')].
  pose proof (key_of_dlog E L (cp_receiver params)) as Hk.
  apply (encrypts_decrypt E L _ _ _ _ _ Hk) in Hx. apply (encrypts_decrypt E L _ _ _ _ _ Hk) in Hx'.
  rewrite He1 in Hx. rewrite Hx in Hx'. unfold bit_element in Hx'.
  destruct flag, flag'; try reflexivity; exfalso; [|symmetry in Hx']; exact (generator_neq_identity E L Hx').
Qed.
Print Assumptions C91_choices_bind.

Theorem C91_single_choices_bind :
  forall (E : Env) (L : GroupLaws E) (params : ChoiceParams (SingleChoice (E := E))) k k' rng rng' (e e' : EncryptedChoice (SingleChoice (E := E))) rng1 rng1',
    EncryptedChoice_single params k rng = Ret (e, rng1) -> EncryptedChoice_single params k' rng' = Ret (e', rng1') ->
    ec_choices e = ec_choices e' -> k = k'.
Proof.
  intros E L params k k' rng rng' e e' rng1 rng1' H H' He. unfold EncryptedChoice_single in H, H'.
  inv_bind H. inv_bind H'. unfold assert in Hm, Hm0.
  destruct (k <? cp_options_count params) eqn:Hk; [|discriminate]. destruct (k' <? cp_options_count params) eqn:Hk'; [|discriminate].
  apply Nat.ltb_lt in Hk, Hk'. pose proof (C91_choices_bind E L _ params _ _ _ _ _ _ _ _ H H' He) as Heq.
  assert (Hnth : nth_error (map (fun i => k =? i) (seq 0 (cp_options_count params))) k = Some true).
  { rewrite (map_nth_error _ k _ (d := k)); [rewrite Nat.eqb_refl; reflexivity|].
    rewrite (nth_error_nth' _ 0) by (rewrite seq_length; exact Hk). rewrite seq_nth by exact Hk. reflexivity. }
  rewrite Heq in Hnth. rewrite (map_nth_error _ k _ (d := k)) in Hnth.
  - injection Hnth as Hnth. apply Nat.eqb_eq in Hnth. auto.
  - rewrite (nth_error_nth' _ 0) by (rewrite seq_length; exact Hk). rewrite seq_nth by exact Hk. reflexivity.
Qed.
Print Assumptions C91_single_choices_bind.

(** quadratic voting: ballots with the same ciphertexts contain the same votes *)
Theorem C91_quadratic_bind :
  forall (E : Env) (L : GroupLaws E), (2 ^ 64 <= order L)%Z ->
  forall (receiver : PublicKey E) options credits m p votes votes' rng rng' b b' rng1 rng1',
    (credits + 65 < 2 ^ 64)%N -> qv_params receiver options credits m p ->
    overflow_checks (env_build E) = true \/ (squares votes < 2 ^ 64)%N /\ (squares votes' < 2 ^ 64)%N ->
    QuadraticVotingBallot_new p votes rng = Ret (b, rng1) -> QuadraticVotingBallot_new p votes' rng' = Ret (b', rng1') ->
    map crp_ciphertext (qb_votes b) = map crp_ciphertext (qb_votes b') -> votes = votes'.
Proof.
  intros E L Hbig receiver options credits m p votes votes' rng rng' b b' rng1 rng1' Hc Hp Hov H H' He.
  assert (Hov1 : overflow_checks (env_build E) = true \/ (squares votes < 2 ^ 64)%N) by tauto.
  assert (Hov2 : overflow_checks (env_build E) = true \/ (squares votes' < 2 ^ 64)%N) by tauto.
  destruct (C46_complete E L receiver options credits m p votes rng b rng1 Hc Hp Hov1 H) as (_ & Hm & Hs & cts & Hv & Hd).
  destruct (C46_complete E L receiver options credits m p votes' rng' b' rng1' Hc Hp Hov2 H') as (_ & Hm' & Hs' & cts' & Hv' & Hd').
  apply C47_accepts_iff in Hv as [Hv _]. apply C47_accepts_iff in Hv' as [Hv' _]. subst cts cts'. rewrite He in Hd.
  specialize (Hd _ (key_of_dlog E L receiver)). specialize (Hd' _ (key_of_dlog E L receiver)).
  assert (Hsmall : forall l, (squares l <= credits)%N -> Forall (fun v => (v < u64_lim)%N) l).
  { clear -Hc. unfold u64_lim. induction l as [|x l IH]; intros Hl; constructor.
    - rewrite squares_cons in Hl. destruct (N.eq_dec x 0) as [->|Hx]; [lia|]. assert (x <= x * x)%N by nia. lia.
    - apply IH. rewrite squares_cons in Hl. lia. }
  apply Hsmall in Hs, Hs'. clear -Hd Hd' Hs Hs' L Hbig.
  revert votes' Hd' Hs'. induction Hd as [|v ct votes cts Hv Hd IH]; intros votes' Hd' Hs'; inversion Hd' as [|v' ct' l l' Hv' Hd'' E1 E2]; subst; [reflexivity|].
  inversion Hs as [|? ? Hx Hs1]; subst. inversion Hs' as [|? ? Hx' Hs1']; subst. f_equal; [|exact (IH Hs1 _ Hd'' Hs1')].
  rewrite Hv in Hv'. rewrite !(times_of_u64 E L) in Hv' by assumption. apply (gen_inj L) in Hv'. exact (of_u64_inj E L Hbig _ _ Hx Hx' Hv').
Qed.
Print Assumptions C91_quadratic_bind.

(** A ciphertext alone binds to nothing: for every message there is a key under which it is an encryption of it. *)
Theorem C91_without_key_refuted :
  forall (E : Env) (L : GroupLaws E), ser_total E ->
  forall (c : Ciphertext E) (M : Element E), random_element c <> identity ->
  exists (pk : PublicKey E) (sk r : Scalar E), PublicKey_from_element (pk_element pk) = Ret pk /\ key_of sk pk /\ encrypts pk c M r /\
    decrypt_to_element sk c = M.
Proof.
  intros E L Hser c M Hc. set (r := dlog L (random_element c)).
  assert (HR : random_element c = (generator * r)%E).
  { apply (dlog_inj L). rewrite dlog_mul, dlog_generator. symmetry. apply (s_one_mul E L). }
  assert (Hr : r <> 0%S).
  { intros H. apply Hc. apply (dlog_inj L). rewrite dlog_identity. exact H. }
  set (K := ((blinded_element c - M) * s_inv L r)%E). destruct (ser_total_some L Hser K) as [b Hb].
  set (pk := {| pk_bytes := b; pk_element := K |}).
  assert (Henc : encrypts pk c M r) by (split; [exact HR|exact (key_for E L c M r Hr HR)]).
  exists pk, (dlog L K), r. split; [unfold PublicKey_from_element; cbn [pk_element pk]; rewrite Hb; reflexivity|].
  split; [exact (key_of_dlog E L pk)|]. split; [exact Henc|]. exact (encrypts_decrypt E L _ pk _ _ _ (key_of_dlog E L pk) Henc).
Qed.
Print Assumptions C91_without_key_refuted.

(** two ballots of one voter, generator states 21 and 22: different choices, and different ciphertexts *)
Definition ex_choices (flags : list bool) (r : Z) : option (list (Ciphertext RE)) :=
  match ChoiceParams_multi ex_key 3 with
  | Ret params => match EncryptedChoice_new params flags r with Ret (e, _) => Some (ec_choices e) | _ => None end
  | _ => None
  end.
Definition ex_same (a b : option (list (Ciphertext RE))) : bool :=
  match a, b with
  | Some l, Some l' => forallb (fun p => e_eqb (random_element (fst p)) (random_element (snd p)) && e_eqb (blinded_element (fst p)) (blinded_element (snd p))) (combine l l')
  | _, _ => false
  end.
Example C91_example :
  ex_same (ex_choices [true; false; true] 21%Z) (ex_choices [true; false; true] 21%Z) = true /\
  ex_same (ex_choices [true; false; true] 21%Z) (ex_choices [true; true; true] 21%Z) = false /\
  ex_same (ex_choices [true; false; true] 21%Z) (ex_choices [true; true; true] 22%Z) = false /\
  exists (pk : PublicKey RE) (sk r : Scalar RE), PublicKey_from_element (pk_element pk) = Ret pk /\ key_of sk pk /\
    encrypts pk {| random_element := re 77; blinded_element := re 775 |} (re 123) r /\
    decrypt_to_element sk {| random_element := re 77; blinded_element := re 775 |} = re 123.
Proof.
  split; [vm_compute; reflexivity|]. split; [vm_compute; reflexivity|]. split; [vm_compute; reflexivity|].
  apply (C91_without_key_refuted RE RL RE_ser_total). cbn [random_element]. apply re_neq. vm_compute. reflexivity.
Qed.
