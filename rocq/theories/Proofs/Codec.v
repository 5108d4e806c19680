(** * Proofs about byte codecs (C06) and provided group methods (C52) *)
From Coq Require Import List NArith ZArith Field Lia Bool Arith.
From Verif.Model Require Import Base Group Transcript Keys Encryption LogEquality Ring.
From Verif.Proofs Require Import Algebra.
Import ListNotations.

Section Codec.
Context (E : Env) (L : GroupLaws E).
Local Notation scalar := (Scalar E).
Local Notation element := (Element E).
Local Notation n := (SCALAR_SIZE E).

Lemma sk_codec (s : SecretKey E) : SecretKey_from_bytes (serialize_scalar s) = Some s.
Proof.
  unfold SecretKey_from_bytes. rewrite (ser_scalar_len E L), Nat.eqb_refl. apply (deser_ser_scalar E L).
Qed.

Lemma sk_codec_inv b (s : SecretKey E) : SecretKey_from_bytes b = Some s -> serialize_scalar s = b.
Proof.
  unfold SecretKey_from_bytes. destruct (Nat.eqb_spec (List.length b) n) as [Hl|]; [|discriminate].
  intros H. apply (ser_deser_scalar E L); assumption.
Qed.

Lemma firstn_app_len {A : Type} (a b : list A) k : List.length a = k -> firstn k (a ++ b) = a.
Proof. intros <-. rewrite firstn_app, Nat.sub_diag, firstn_all. cbn. apply app_nil_r. Qed.
Lemma skipn_app_len {A : Type} (a b : list A) k : List.length a = k -> skipn k (a ++ b) = b.
Proof. intros <-. rewrite skipn_app, Nat.sub_diag, skipn_all. reflexivity. Qed.

Lemma le_codec (p : LogEqualityProof E) : LogEqualityProof_from_bytes (LogEqualityProof_to_bytes p) = Some p.
Proof.
  unfold LogEqualityProof_from_bytes, LogEqualityProof_to_bytes.
  rewrite app_length, !(ser_scalar_len E L). replace (n + n)%nat with (2 * n)%nat by lia. rewrite Nat.eqb_refl. cbn [negb].
  rewrite firstn_app_len, skipn_app_len by apply (ser_scalar_len E L).
  rewrite !(deser_ser_scalar E L). destruct p; reflexivity.
Qed.

Lemma le_codec_inv b (p : LogEqualityProof E) :
  LogEqualityProof_from_bytes b = Some p -> LogEqualityProof_to_bytes p = b.
Proof.
  unfold LogEqualityProof_from_bytes. destruct (Nat.eqb_spec (List.length b) (2 * n)) as [Hl|]; [|discriminate].
  cbn [negb]. destruct (deserialize_scalar (firstn n b)) as [c|] eqn:Hc; [|discriminate].
  destruct (deserialize_scalar (skipn n b)) as [s|] eqn:Hs; [|discriminate]. intros H. injection H as <-.
  unfold LogEqualityProof_to_bytes. cbn.
  rewrite (ser_deser_scalar E L (firstn n b) c), (ser_deser_scalar E L (skipn n b) s); try assumption.
  - apply firstn_skipn.
  - rewrite skipn_length. lia.
  - rewrite firstn_length. lia.
Qed.

Lemma cd_codec (d : VerifiableDecryption E) b :
  VerifiableDecryption_to_bytes d = Ret b -> CandidateDecryption_from_bytes b = Some {| cd_inner := d |}.
Proof.
  unfold VerifiableDecryption_to_bytes, CandidateDecryption_from_bytes. intros H.
  apply (ser_element_ok E L) in H as [Hl Hd]. rewrite Hl, Nat.eqb_refl, Hd. destruct d; reflexivity.
Qed.

Lemma cd_codec_inv b (d : CandidateDecryption E) :
  CandidateDecryption_from_bytes b = Some d ->
  List.length b = ELEMENT_SIZE E /\ deserialize_element b = Some (vd_dh_element (cd_inner d)).
Proof.
  unfold CandidateDecryption_from_bytes. destruct (Nat.eqb_spec (List.length b) (ELEMENT_SIZE E)) as [Hl|]; [|discriminate].
  destruct (deserialize_element b) as [e|]; [|discriminate]. intros H. injection H as <-. auto.
Qed.

Lemma ct_codec (c : Ciphertext E) b :
  Ciphertext_to_bytes c = Ret b ->
  List.length b = (2 * ELEMENT_SIZE E)%nat /\
  deserialize_element (firstn (ELEMENT_SIZE E) b) = Some (random_element c) /\
  deserialize_element (skipn (ELEMENT_SIZE E) b) = Some (blinded_element c).
Proof.
  unfold Ciphertext_to_bytes. intros H. inv_bind H. inv_bind H. injection H as <-.
  apply (ser_element_ok E L) in Hm as [Hl Hd], Hm0 as [Hl0 Hd0].
  rewrite app_length, Hl, Hl0, firstn_app_len, skipn_app_len by assumption. split; [lia|auto].
Qed.

(** ** ring proofs *)
Lemma chunks_concat {A : Type} k (ls : list (list A)) fuel :
  (0 < k)%nat -> (forall l, In l ls -> List.length l = k) -> (List.length ls <= fuel)%nat ->
  chunks fuel k (concat ls) = ls.
Proof.
  intros Hk. revert fuel; induction ls as [|l ls IH]; intros fuel Hls Hf; [destruct fuel; reflexivity|].
  destruct fuel as [|fuel]; [cbn in Hf; lia|]. cbn [concat chunks].
  assert (Hl : List.length l = k) by (apply Hls; left; reflexivity).
  destruct l as [|x l]; [cbn in Hl; lia|]. cbn [app].
  change (x :: l ++ concat ls) with ((x :: l) ++ concat ls).
  rewrite firstn_app_len, skipn_app_len by exact Hl. f_equal. apply IH; [|cbn in Hf; lia].
  intros; apply Hls; right; assumption.
Qed.

Lemma concat_chunks {A : Type} k fuel (l : list A) :
  (0 < k)%nat -> (List.length l <= fuel * k)%nat -> concat (chunks fuel k l) = l.
Proof.
  intros Hk. revert l; induction fuel as [|fuel IH]; intros l Hl.
  - destruct l; [reflexivity|cbn in Hl; lia].
  - destruct l as [|x l]; [reflexivity|]. cbn [chunks concat].
    rewrite IH; [apply firstn_skipn|]. rewrite skipn_length. lia.
Qed.

Lemma chunks_lengths {A : Type} k fuel (l : list A) m :
  (0 < k)%nat -> List.length l = (m * k)%nat -> forall c, In c (chunks fuel k l) -> List.length c = k.
Proof.
  intros Hk. revert l m; induction fuel as [|fuel IH]; intros l m Hl c Hc; [destruct Hc|].
  destruct l as [|x l]; [destruct Hc|]. destruct m as [|m]; [discriminate|].
  cbn [chunks] in Hc. destruct Hc as [<-|Hc].
  - rewrite firstn_length, Hl. lia.
  - apply (IH (skipn k (x :: l)) m); [|exact Hc]. rewrite skipn_length, Hl. lia.
Qed.

Lemma chunks_length {A : Type} k fuel (l : list A) m :
  (0 < k)%nat -> List.length l = (m * k)%nat -> (m <= fuel)%nat -> List.length (chunks fuel k l) = m.
Proof.
  intros Hk. revert l m; induction fuel as [|fuel IH]; intros l m Hl Hm.
  - destruct m; [reflexivity|lia].
  - destruct m as [|m]; [destruct l; [reflexivity|discriminate]|].
    destruct l as [|x l]; [cbn in Hl; lia|]. cbn [chunks List.length]. f_equal.
    apply IH; [|lia]. rewrite skipn_length, Hl. lia.
Qed.

Lemma option_all_iff {A B : Type} (f : A -> option B) l ys :
  option_all f l = Some ys <-> Forall2 (fun x y => f x = Some y) l ys.
Proof.
  revert ys; induction l as [|x l IH]; intros ys; cbn.
  - split; [intros H; injection H as <-; constructor | intros H; inversion H; reflexivity].
  - split.
    + destruct (f x) as [y|] eqn:Hx; [|discriminate]. destruct (option_all f l) as [zs|]; [|discriminate].
      intros H. injection H as <-. constructor; [exact Hx|]. apply IH. reflexivity.
    + intros H. inversion H as [|? y ? zs Hx Hr]; subst. rewrite Hx. apply IH in Hr. rewrite Hr. reflexivity.
Qed.

Lemma rp_to_bytes_eq (p : RingProof E) :
  RingProof_to_bytes p = serialize_scalar (rp_challenge p) ++ concat (map serialize_scalar (rp_responses p)).
Proof. unfold RingProof_to_bytes. rewrite <- flat_map_concat_map. reflexivity. Qed.

Lemma concat_ser_length (l : list scalar) :
  List.length (concat (map serialize_scalar l)) = (List.length l * n)%nat.
Proof. induction l as [|s l IH]; cbn; [reflexivity|]. rewrite app_length, (ser_scalar_len E L), IH. reflexivity. Qed.

Lemma rp_bytes_length (p : RingProof E) :
  List.length (RingProof_to_bytes p) = (S (List.length (rp_responses p)) * n)%nat.
Proof. rewrite rp_to_bytes_eq, app_length, concat_ser_length, (ser_scalar_len E L). lia. Qed.

Lemma rp_codec (p : RingProof E) :
  RingProof_from_bytes (RingProof_to_bytes p) =
  if (2 <=? List.length (rp_responses p))%nat then Ret (Some p) else Ret None.
Proof.
  pose proof (scalar_size_pos E L) as Hn. unfold RingProof_from_bytes. rewrite rp_bytes_length.
  rewrite Nat.mod_mul by lia. cbn [Nat.eqb negb orb].
  destruct (Nat.leb_spec 2 (List.length (rp_responses p))) as [H|H].
  - replace (S (List.length (rp_responses p)) * n <? 3 * n)%nat with false by (symmetry; apply Nat.ltb_ge; nia).
    rewrite rp_to_bytes_eq. rewrite firstn_app_len, skipn_app_len by apply (ser_scalar_len E L).
    rewrite (deser_ser_scalar E L). rewrite chunks_concat.
    + assert (Ho : option_all deserialize_scalar (map serialize_scalar (rp_responses p)) = Some (rp_responses p)).
      { apply option_all_iff. clear H. induction (rp_responses p) as [|s l IH]; cbn; [constructor|]. constructor; [apply (deser_ser_scalar E L) | exact IH]. }
      rewrite Ho. unfold debug_assert. replace (2 <=? List.length (rp_responses p))%nat with true by (symmetry; apply Nat.leb_le; lia).
      destruct (debug_assertions (env_build E)); cbn; destruct p; reflexivity.
    + exact Hn.
    + intros l Hin. apply in_map_iff in Hin as (s & <- & _). apply (ser_scalar_len E L).
    + rewrite concat_ser_length, map_length. nia.
  - replace (S (List.length (rp_responses p)) * n <? 3 * n)%nat with true by (symmetry; apply Nat.ltb_lt; nia).
    reflexivity.
Qed.

Lemma rp_codec_inv b :
  exists o, RingProof_from_bytes (E:=E) b = Ret o /\
    match o with
    | Some p => RingProof_to_bytes p = b /\ (2 <= List.length (rp_responses p))%nat
    | None => True
    end.
Proof.
  pose proof (scalar_size_pos E L) as Hn. unfold RingProof_from_bytes.
  destruct (Nat.eqb_spec (List.length b mod n) 0) as [Hm|Hm]; cbn [negb orb]; [|exists None; auto].
  destruct (Nat.ltb_spec (List.length b) (3 * n)) as [Hl|Hl]; [exists None; auto|].
  apply Nat.mod_divides in Hm as [k Hk]; [|lia].
  assert (Hk3 : (3 <= k)%nat).
  { destruct (Nat.le_gt_cases 3 k) as [|Hlt]; [assumption|].
    assert (n * k <= n * 2)%nat by (apply Nat.mul_le_mono_l; lia). lia. } destruct k as [|k]; [lia|].
  assert (Hr : List.length (skipn n b) = (k * n)%nat) by (rewrite skipn_length, Hk; lia).
  destruct (deserialize_scalar (firstn n b)) as [c|] eqn:Hc; [|exists None; auto].
  destruct (option_all deserialize_scalar _) as [ss|] eqn:Ho; [|exists None; auto].
  apply option_all_iff in Ho.
  assert (Hss : List.length ss = k).
  { assert (Hf : List.length (chunks (List.length (skipn n b)) n (skipn n b)) = k).
    { apply chunks_length; [exact Hn|exact Hr|rewrite Hr; nia]. }
    rewrite <- Hf. clear - Ho. induction Ho; cbn; congruence. }
  unfold debug_assert. replace (2 <=? List.length ss)%nat with true by (symmetry; apply Nat.leb_le; lia).
  exists (Some {| rp_challenge := c; rp_responses := ss |}).
  split; [destruct (debug_assertions (env_build E)); reflexivity|].
  split; [|cbn; lia]. rewrite rp_to_bytes_eq. cbn [rp_challenge rp_responses].
  rewrite (ser_deser_scalar E L (firstn n b) c); [|rewrite firstn_length; lia|exact Hc].
  transitivity (firstn n b ++ skipn n b); [f_equal|apply firstn_skipn].
  rewrite <- (concat_chunks n (List.length (skipn n b)) (skipn n b)); [|exact Hn|nia].
  f_equal.
  assert (Hlen : forall c, In c (chunks (List.length (skipn n b)) n (skipn n b)) -> List.length c = n)
    by (apply (chunks_lengths n _ _ k); assumption).
  clear - Ho Hlen L. induction Ho as [|x y xs ys Hx _ IH]; cbn; [reflexivity|]. f_equal.
  - apply (ser_deser_scalar E L); [apply Hlen; left; reflexivity|exact Hx].
  - apply IH. intros; apply Hlen; right; assumption.
Qed.

Lemma rp_from_bytes_none b :
  (List.length b mod n <> 0 \/ List.length b < 3 * n)%nat -> RingProof_from_bytes (E:=E) b = Ret None.
Proof.
  intros H. unfold RingProof_from_bytes.
  destruct (Nat.eqb_spec (List.length b mod n) 0) as [Hm|Hm]; cbn [negb orb]; [|reflexivity].
  destruct (Nat.ltb_spec (List.length b) (3 * n)) as [Hl|Hl]; [reflexivity|]. lia.
Qed.

End Codec.

(** ** Provided group methods *)
Section Defaults.
Context (G : Group) (L : GroupLaws G).

Lemma default_multi_mul_ok (ss : list (Scalar G)) (es : list (Element G)) :
  default_multi_mul identity e_add e_mul ss es = Ret (lin_comb ss es).
Proof.
  unfold default_multi_mul. f_equal.
  assert (H : forall l (acc : Element G), fold_left (fun out (p : Scalar G * Element G) => let '(s, e) := p in (out + e * s)%E) l acc
            = (acc + fold_right (fun p out => (snd p * fst p + out)%E) identity l)%E).
  { induction l as [|[s e] l IH]; intros acc; cbn [fold_left fold_right fst snd].
    - symmetry. apply (e_add_id_r L).
    - rewrite IH. symmetry. apply (e_add_assoc G L). }
  rewrite H, (e_add_id G L). revert es; induction ss as [|s ss IH]; intros [|e es]; cbn; try reflexivity.
  rewrite IH. reflexivity.
Qed.

Lemma default_invert_scalars_ok (ss : list (Scalar G)) :
  (forall s, In s ss -> s <> s_default) ->
  default_invert_scalars invert_scalar ss = Ret (map (s_inv L) ss).
Proof.
  induction ss as [|s ss IH]; intros H; [reflexivity|]. cbn.
  rewrite (invert_scalar_ok G L) by (apply H; left; reflexivity). cbn.
  rewrite IH by (intros; apply H; right; assumption). reflexivity.
Qed.

Definition defaults_laws : GroupLaws (with_defaults G).
Proof.
  refine {| order := order L; order_prime := order_prime L;
            s_inv := s_inv L : Scalar (with_defaults G) -> Scalar (with_defaults G);
            s_field := s_field L;
            phi := phi L : Z -> Scalar (with_defaults G);
            dlog := dlog L : Element (with_defaults G) -> Scalar (with_defaults G) |};
    cbn [with_defaults Scalar Element s_default s_of_u64 s_neg s_add s_sub s_mul s_eqb SCALAR_SIZE
         invert_scalar invert_scalars serialize_scalar deserialize_scalar e_add e_sub e_neg e_mul e_eqb
         ELEMENT_SIZE identity is_identity generator serialize_element deserialize_element
         mul_generator vartime_mul_generator multi_mul vartime_double_mul_generator vartime_multi_mul];
    try (apply L); try reflexivity.
  - intros ss es _. rewrite default_multi_mul_ok. f_equal. revert es; induction ss as [|s ss IH]; intros [|e es]; cbn; try reflexivity. rewrite IH. reflexivity.
  - intros ss es _. rewrite default_multi_mul_ok. f_equal. revert es; induction ss as [|s ss IH]; intros [|e es]; cbn; try reflexivity. rewrite IH. reflexivity.
  - apply default_invert_scalars_ok.
Defined.

(** the lists are processed up to the shorter length *)
Lemma lin_comb_truncate (ss : list (Scalar G)) (es : list (Element G)) :
  lin_comb ss es = lin_comb (firstn (List.length es) ss) (firstn (List.length ss) es).
Proof. revert es; induction ss as [|s ss IH]; intros [|e es]; cbn; try reflexivity. rewrite IH. reflexivity. Qed.

End Defaults.
