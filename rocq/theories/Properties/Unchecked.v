(** * C89: decryption shares which nobody verified

    [CandidateDecryption::into_unchecked] turns whatever was received into a share that [Params::combine_shares] takes.  One
    wrong share among those used always changes the result, nothing reports it, and whoever sends the last share chooses the
    result. *)
From Coq Require Import List NArith ZArith String Lia Arith Field Bool.
From Verif.Model Require Import Base Group Transcript Keys Encryption LogEquality Possession Sharing Unchecked.
From Verif.Spec Require Import Encryption LogEquality Possession Sharing.
From Verif.Proofs Require Import Algebra Encryption LogEquality Poly Ring Sharing.
From Verif.Instance Require Import Primality Zq.
From Verif.Properties Require Import Sharing.
Import ListNotations.
Open Scope string_scope.
Open Scope list_scope.
Open Scope nat_scope.

Section Lemmas.
Context (E : Env) (L : GroupLaws E) (Hbig : (2 ^ 64 <= order L)%Z).
Local Notation scalar := (Scalar E).
Add Field s_field_unchecked : (s_field L).

Lemma firstn_middle {A} n (pre : list A) (x : A) post : List.length pre < n ->
  firstn n (pre ++ x :: post) = pre ++ x :: firstn (n - S (List.length pre)) post.
Proof.
  intros H. rewrite firstn_app, firstn_all2 by lia. f_equal.
  replace (n - List.length pre) with (S (n - S (List.length pre))) by lia. reflexivity.
Qed.

(** the result is an affine function of each share that is used, with a non-zero factor *)
Lemma combine_affine params pre i post :
  usize (pa_shares params) ->
  List.length pre < pa_threshold params -> pa_threshold params <= List.length pre + S (List.length post) ->
  (forall j, In j (map fst pre) \/ j = i \/ In j (map fst (firstn (pa_threshold params - S (List.length pre)) post)) -> j < pa_shares params) ->
  exists a b : scalar, a <> 0%S /\
    forall d, combine_shares params (pre ++ (i, d) :: post) =
      Ret (Some {| vd_dh_element := (vd_dh_element d * a + generator * b)%E |}).
Proof.
  intros Hn Hpre Hlen Hi. set (post' := firstn (pa_threshold params - S (List.length pre)) post) in *.
  set (is_ := map fst pre ++ i :: map fst post').
  set (cf := fun j => s_inv L (lagrange_denominator (E:=E) is_ j)).
  assert (Hu : forall j, In j is_ -> usize (j + 1)).
  { intros j Hj. assert (Hlt : j < pa_shares params).
    { apply Hi. unfold is_ in Hj. apply in_app_iff in Hj. cbn [In] in Hj. intuition congruence. }
    unfold usize in *. lia. }
  assert (Hin : In i is_) by (apply in_app_iff; right; left; reflexivity).
  assert (Hden : lagrange_denominator (E:=E) is_ i <> 0%S) by (apply (denominator_neq_0 E L Hbig); auto).
  assert (Hprod : s_prod (map (node (G:=E)) is_) <> 0%S).
  { apply (s_prod_neq_0 L). intros x Hx. apply in_map_iff in Hx as (j & <- & Hj). apply (node_neq_0 E L Hbig). auto. }
  set (P := s_prod (map (node (G:=E)) is_)) in *.
  exists (cf i * P)%S,
    ((s_dot (map cf (map fst pre)) (map (fun s => dlog L (vd_dh_element (snd s))) pre) +
      s_dot (map cf (map fst post')) (map (fun s => dlog L (vd_dh_element (snd s))) post')) * P)%S.
  split.
  - intros Hc. assert (H1 : (lagrange_denominator (E:=E) is_ i * (cf i * P) = P)%S) by (unfold cf; field; exact Hden).
    rewrite Hc in H1. apply Hprod. rewrite <- H1. ring.
  - intros d. assert (Hf : firstn (pa_threshold params) (pre ++ (i, d) :: post) = pre ++ (i, d) :: post')
      by (apply firstn_middle; exact Hpre).
    rewrite (combine_shares_eq E L Hbig).
    + rewrite Hf. assert (Hm : map fst (pre ++ (i, d) :: post') = is_) by (rewrite map_app; reflexivity). rewrite Hm. do 3 f_equal.
      fold P. fold cf. apply (dlog_inj L). replace (map cf is_) with (map cf (map fst pre) ++ cf i :: map cf (map fst post')) by (symmetry; exact (map_app cf (map fst pre) (i :: map fst post'))).
      rewrite dlog_mul, dlog_lin_comb, map_app, map_app. cbn [map snd]. rewrite (s_dot_app L) by (rewrite !map_length; reflexivity). cbn [s_dot].
      rewrite !map_map. rewrite dlog_add, !dlog_mul, dlog_generator. ring.
    + exact Hn.
    + rewrite app_length. cbn [List.length]. exact Hlen.
    + rewrite Hf, map_app. cbn [map fst]. intros j Hj. apply Hi. apply in_app_iff in Hj. cbn [In] in Hj. intuition congruence.
Qed.

Lemma affine_inj (a b : scalar) (x y : Element E) : a <> 0%S ->
  (x * a + generator * b = y * a + generator * b)%E -> x = y.
Proof.
  intros Ha H. apply (dlog_inj L). apply (f_equal (dlog L)) in H. rewrite !dlog_add, !dlog_mul, dlog_generator in H.
  assert (Hx : (dlog L x * a = dlog L y * a)%S).
  { replace (dlog L x * a)%S with ((dlog L x * a + 1 * b) - 1 * b)%S by ring. rewrite H. ring. }
  replace (dlog L x) with ((dlog L x * a) * s_inv L a)%S by (field; exact Ha). rewrite Hx. field. exact Ha.
Qed.

Lemma affine_onto (a b : scalar) (z : Element E) : a <> 0%S ->
  exists x : Element E, (x * a + generator * b)%E = z.
Proof.
  intros Ha. exists ((z - generator * b) * s_inv L a)%E. apply (dlog_inj L).
  rewrite dlog_add, !dlog_mul, dlog_sub, dlog_mul, dlog_generator. field. exact Ha.
Qed.

Lemma s_sub_sub (x y : scalar) : (x - (x - y))%S = y.
Proof. ring. Qed.

End Lemmas.

(** ** one share decides *)

(** The share at a position that is used, and all the others stay as they are: equal results mean equal shares. *)
Theorem C89_every_share_counts :
  forall (E : Env) (L : GroupLaws E), (2 ^ 64 <= order L)%Z ->
  forall (params : Params) (pre post : list (nat * VerifiableDecryption E)) (i : nat) (d d' : VerifiableDecryption E),
    (N.of_nat (pa_shares params) < 2 ^ 64)%N ->
    List.length pre < pa_threshold params -> pa_threshold params <= List.length (pre ++ (i, d) :: post) ->
    (forall j, In j (map fst (firstn (pa_threshold params) (pre ++ (i, d) :: post))) -> j < pa_shares params) ->
    (combine_shares params (pre ++ (i, d) :: post) = combine_shares params (pre ++ (i, d') :: post) <-> d = d').
Proof.
  intros E L Hbig params pre post i d d' Hn Hpre Hlen Hi. split; [|intros ->; reflexivity]. intros H.
  rewrite app_length in Hlen. cbn [List.length] in Hlen.
  rewrite firstn_middle in Hi by exact Hpre. rewrite map_app in Hi. cbn [map fst] in Hi.
  destruct (combine_affine E L Hbig params pre i post Hn Hpre Hlen) as (a & b & Ha & Hc).
  { intros j Hj. apply Hi. apply in_app_iff. cbn [In]. intuition. }
  rewrite !Hc in H. injection H as H. apply (affine_inj E L a b _ _ Ha) in H. destruct d, d'. cbn in H. congruence.
Qed.
Print Assumptions C89_every_share_counts.

(** All other shares that are used are those of the secret: the result is the decryption exactly if this one is, too.
    Otherwise [combine_shares] returns a wrong result, and no error. *)
Theorem C89_one_wrong_share :
  forall (E : Env) (L : GroupLaws E), (2 ^ 64 <= order L)%Z ->
  forall (params : Params) (p : list (Scalar E)) (c : Ciphertext E)
      (pre post rest : list (nat * VerifiableDecryption E)) (i : nat) (d : CandidateDecryption E),
    (N.of_nat (pa_shares params) < 2 ^ 64)%N ->
    List.length p <= pa_threshold params -> List.length pre + S (List.length post) = pa_threshold params ->
    NoDup (map fst pre ++ i :: map fst post) -> i < pa_shares params ->
    (forall j s, In (j, s) (pre ++ post) ->
       j < pa_shares params /\ vd_dh_element s = (random_element c * peval p (s_of_u64 (N.of_nat (j + 1))))%E) ->
    exists r, combine_shares params ((pre ++ (i, CandidateDecryption_into_unchecked d) :: post) ++ rest) = Ret (Some r) /\
      (VerifiableDecryption_decrypt_to_element r c = decrypt_to_element (peval p 0%S) c <->
       vd_dh_element (cd_inner d) = (random_element c * peval p (s_of_u64 (N.of_nat (i + 1))))%E).
Proof.
  intros E L Hbig params p c pre post rest i d Hn Hp Hlen Hnd Hi Hs. unfold CandidateDecryption_into_unchecked.
  set (good := {| vd_dh_element := (random_element c * peval p (s_of_u64 (N.of_nat (i + 1))))%E |}).
  assert (Hall : forall j s, In (j, s) (pre ++ (i, good) :: post) ->
    j < pa_shares params /\ vd_dh_element s = (random_element c * peval p (s_of_u64 (N.of_nat (j + 1))))%E).
  { intros j s Hin. apply in_app_iff in Hin as [Hin|[Hin|Hin]].
    - apply Hs, in_app_iff. auto.
    - injection Hin as <- <-. split; [exact Hi|reflexivity].
    - apply Hs, in_app_iff. auto. }
  assert (Hidx : forall j, In j (map fst pre) \/ j = i \/ In j (map fst (firstn (pa_threshold params - S (List.length pre)) (post ++ rest))) -> j < pa_shares params).
  { assert (Hf : firstn (pa_threshold params - S (List.length pre)) (post ++ rest) = post).
    { replace (pa_threshold params - S (List.length pre)) with (List.length post) by lia.
      rewrite firstn_app, Nat.sub_diag, firstn_all, app_nil_r. reflexivity. }
    rewrite Hf. intros j [Hj|[->|Hj]]; [|exact Hi|].
    - apply in_map_iff in Hj as ([j' s] & <- & Hin). apply (Hs j' s), in_app_iff. auto.
    - apply in_map_iff in Hj as ([j' s] & <- & Hin). apply (Hs j' s), in_app_iff. auto. }
  destruct (combine_affine E L Hbig params pre i (post ++ rest) Hn) as (a & b & Ha & Hc); [lia|rewrite app_length; lia|exact Hidx|].
  destruct (C29_combine_correct E L Hbig params p c (pre ++ (i, good) :: post) rest Hn Hp) as (r0 & H1 & H2 & H3).
  { rewrite app_length. cbn [List.length]. lia. }
  { rewrite map_app. cbn [map fst]. exact Hnd. }
  { exact Hall. }
  rewrite <- app_assoc in *. cbn [app] in *. rewrite Hc in *. eexists. split; [reflexivity|].
  injection H1 as <-. rewrite <- H3. unfold VerifiableDecryption_decrypt_to_element. cbn [vd_dh_element]. split.
  - intros H. apply (f_equal (fun x => (blinded_element c - x)%E)) in H.
    assert (Hcancel : forall x y : Element E, (x - (x - y))%E = y).
    { intros x y. apply (dlog_inj L). rewrite !dlog_sub. apply (s_sub_sub E L). }
    rewrite !Hcancel in H. apply (affine_inj E L a b _ _ Ha) in H. exact H.
  - intros H. rewrite H. reflexivity.
Qed.
Print Assumptions C89_one_wrong_share.

(** ** ... and chooses the result *)

(** Whoever sends a share that is not verified, after all others, makes the ciphertext decrypt to anything: for [t] shares
    that are used, [combine_shares] never fails, and the result is the one they want. *)
Theorem C89_chosen_result_refuted :
  forall (E : Env) (L : GroupLaws E), (2 ^ 64 <= order L)%Z ->
  forall (params : Params) (c : Ciphertext E) (pre post : list (nat * VerifiableDecryption E)) (i : nat) (M : Element E),
    (N.of_nat (pa_shares params) < 2 ^ 64)%N ->
    List.length pre < pa_threshold params -> pa_threshold params <= List.length pre + S (List.length post) -> i < pa_shares params ->
    (forall j s, In (j, s) (pre ++ post) -> j < pa_shares params) ->
    exists (d : CandidateDecryption E) r,
      combine_shares params (pre ++ (i, CandidateDecryption_into_unchecked d) :: post) = Ret (Some r) /\
      VerifiableDecryption_decrypt_to_element r c = M.
Proof.
  intros E L Hbig params c pre post i M Hn Hpre Hlen Hi Hs.
  destruct (combine_affine E L Hbig params pre i post Hn Hpre Hlen) as (a & b & Ha & Hc).
  { assert (Hin : forall j l, (forall s, In s l -> In s (pre ++ post)) -> In j (map fst l) -> j < pa_shares params).
    { intros j l Hl Hj. apply in_map_iff in Hj as ([j' s] & <- & Hj). exact (Hs j' s (Hl _ Hj)). }
    intros j [Hj|[->|Hj]]; [|exact Hi|].
    - apply (Hin j pre); [|exact Hj]. intros s Hx. apply in_app_iff. auto.
    - apply (Hin j (firstn (pa_threshold params - S (List.length pre)) post)); [|exact Hj].
      intros s Hx. apply in_app_iff. right. rewrite <- (firstn_skipn (pa_threshold params - S (List.length pre)) post). apply in_app_iff. auto. }
  destruct (affine_onto E L a b (blinded_element c - M)%E Ha) as (x & Hx).
  exists {| cd_inner := {| vd_dh_element := x |} |}. eexists. split; [apply Hc|].
  unfold VerifiableDecryption_decrypt_to_element, CandidateDecryption_into_unchecked. cbn [cd_inner vd_dh_element]. rewrite Hx.
  apply (dlog_inj L). rewrite !dlog_sub. apply (s_sub_sub E L).
Qed.
Print Assumptions C89_chosen_result_refuted.

(** the 3-of-5 sharing of [C29_example]: two shares of the secret, and a third one which is another participant's, or is chosen
    for the ciphertext to decrypt to 1000 *)
Example C89_example :
  combined (combine_shares {| pa_shares := 5; pa_threshold := 3 |} [(4, ex_share 4); (0, ex_share 0); (2, ex_share 2)]) (re 770) = true /\
  combined (combine_shares {| pa_shares := 5; pa_threshold := 3 |} [(4, ex_share 4); (0, ex_share 0); (2, ex_share 3)]) (re 770) = false /\
  (exists (d : CandidateDecryption RE) r,
     combine_shares {| pa_shares := 5; pa_threshold := 3 |} [(4, ex_share 4); (0, ex_share 0); (2, CandidateDecryption_into_unchecked d)] = Ret (Some r) /\
     VerifiableDecryption_decrypt_to_element r ex_ct = re 1000) /\
  (exists r, combine_shares {| pa_shares := 5; pa_threshold := 3 |} [(4, ex_share 4); (0, ex_share 0); (2, ex_share 3)] = Ret (Some r) /\
     VerifiableDecryption_decrypt_to_element r ex_ct <> decrypt_to_element (peval ex_poly 0%S) ex_ct).
Proof.
  split; [vm_compute; reflexivity|]. split; [vm_compute; reflexivity|].
  assert (H5 : (N.of_nat 5 < 2 ^ 64)%N) by (vm_compute; reflexivity). split.
  - apply (C89_chosen_result_refuted RE RL RE_order_big {| pa_shares := 5; pa_threshold := 3 |} ex_ct [(4, ex_share 4); (0, ex_share 0)] [] 2 (re 1000));
      cbn [pa_shares pa_threshold List.length]; [exact H5|lia|lia|lia|].
    intros j s Hin. cbn [app In] in Hin. destruct Hin as [Hin|[Hin|[]]]; injection Hin as <- _; lia.
  - destruct (C89_one_wrong_share RE RL RE_order_big {| pa_shares := 5; pa_threshold := 3 |} ex_poly ex_ct
      [(4, ex_share 4); (0, ex_share 0)] [] [] 2 {| cd_inner := ex_share 3 |}) as (r & H1 & H2);
      cbn [pa_shares pa_threshold List.length map fst app]; [exact H5|cbn; lia|lia| |lia| |].
    + repeat constructor; cbn [In]; lia.
    + intros j s Hin. cbn [app In] in Hin. destruct Hin as [Hin|[Hin|[]]]; injection Hin as <- <-; (split; [lia|]); apply re_eq; vm_compute; reflexivity.
    + exists r. split; [exact H1|]. rewrite H2. apply re_neq. vm_compute. reflexivity.
Qed.
