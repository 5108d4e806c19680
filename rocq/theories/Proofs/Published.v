(** * Elections with a published result *)
From Coq Require Import List NArith ZArith Arith Bool String Lia.
From Verif.Properties Require Domains.
From Verif.Model Require Import Base Group Transcript Keys Encryption LogEquality Possession Ring Range Choice Sharing.
From Verif.Spec Require Import Encryption LogEquality Range Choice Sharing Domains Rom Forking Verifiers Uniform Secrecy Coalition Election Published.
From Verif.Proofs Require Import Algebra Rom Forking Uniform UniformRing UniformBallots LogEquality Domains Sharing Secrecy SecrecyBallots Coalition Election.
Import ListNotations.
Open Scope string_scope.
Open Scope list_scope.
Open Scope nat_scope.

(** a decryption share, for any environment *)
Lemma share_new_eq (E : Env) (L : GroupLaws E) (Ht : ser_total E) (ks : PublicKeySet E) j key s (c : Ciphertext E) (r : Rng E) :
  index (ks_participant_keys ks) j = Ret key -> pk_element key = (generator * s)%E ->
  (p <- ActiveParticipant_new ks j s ;;
   match p with Err _ => Panic PUnwrap | Ok p => ActiveParticipant_decrypt_share p c r end) =
  let '(x, r') := generate_scalar r in
  let R := random_element c in
  let h := oracle (le_query (decryption_share_transcript ks j) (Uniform.ser E R) (Uniform.ser E (generator * s)%E) (Uniform.ser E (R * s)%E)
                     (Uniform.ser E (generator * x)%E) (Uniform.ser E (R * x)%E)) "c" in
  Ret ({| vd_dh_element := (R * s)%E |}, {| le_challenge := h; le_response := (h * s + x)%S |}, r').
Proof.
  intros Hk He. unfold ActiveParticipant_new. rewrite Hk. cbn [bind]. rewrite (mul_generator_ok E L), He.
  rewrite (proj2 (e_eqb_ok E L _ _) eq_refl). cbn [bind].
  unfold ActiveParticipant_decrypt_share, ActiveParticipant_public_key_share. cbn [ap_key_set ap_index ap_secret_share].
  rewrite Hk. cbn [bind]. unfold PublicKey_from_element. rewrite (ser_ok E L Ht). cbn [bind]. rewrite He, (le_new_eq E L).
  rewrite !(ser_ok E L Ht). cbn [bind pk_bytes pk_element]. destruct (generate_scalar r) as [x r'].
  rewrite !(ser_ok E L Ht). reflexivity.
Qed.

Section Published.
Context (E : Env) (L : GroupLaws E) (Ht : ser_total E).
Local Notation scalar := (Scalar E).
Local Notation element := (Element E).
Local Notation scalars := (all_scalars L).
Local Notation q := (Z.to_nat (order L)).
Local Notation pk x := (kp_public (pair_of E x)).
Local Notation reads := (Forking.reads scalar).
Local Notation ser := (Uniform.ser E).
Add Field s_field_published : (s_field L).

(** ** changing the hash function at several inputs *)
Definition set_all (o : hash scalar) (l : list (query * scalar)) : hash scalar := fold_right (fun e o => set_hash o (fst e) (snd e)) o l.

Lemma set_all_other (Q : query -> Prop) o l : (forall e, In e l -> ~ Q (fst e)) -> forall y, Q y -> answer (set_all o l) y = answer o y.
Proof.
  intros H y Hy. induction l as [|[x c] l IH]; [reflexivity|]. cbn [set_all fold_right fst snd].
  rewrite set_other; [apply IH; intros e He; apply H; right; exact He|].
  intros ->. exact (H (y, c) (or_introl eq_refl) Hy).
Qed.

Lemma set_all_ext l o o' : (forall y, answer o y = answer o' y) -> forall y, answer (set_all o l) y = answer (set_all o' l) y.
Proof.
  intros H. induction l as [|[x c] l IH]; [exact H|]. intros y. cbn [set_all fold_right fst snd].
  destruct (query_dec x y) as [<-|Hne]; [rewrite !set_same; reflexivity|]. rewrite !set_other by exact Hne. apply IH.
Qed.

Lemma set_all_first l o x c : answer (set_all o ((x, c) :: l)) x = c.
Proof. cbn [set_all fold_right fst snd]. apply set_same. Qed.

Section Program.
Context (dom : list query) (o0 : hash scalar) (Hdom : NoDup dom) (Q : query -> Prop).
Local Notation hsum := (hsum scalar scalars dom o0).

Lemma lsum_pick (f : scalar -> nat) (c : scalar) : lsum (fun z => b2n (s_eqb c z) * f z) scalars = f c.
Proof.
  rewrite (lsum_ext _ (fun z => if scalar_dec L z c then f c else 0)).
  - rewrite (lsum_one E L). lia.
  - intros z _. destruct (scalar_dec L z c) as [->|Hne].
    + rewrite (proj2 (s_eqb_ok _ L c c) eq_refl). cbn [b2n]. lia.
    + destruct (s_eqb c z) eqn:He; [apply (s_eqb_ok _ L) in He; congruence|reflexivity].
Qed.

Lemma program_all : forall N (pts : hash scalar -> list query) (g : hash scalar -> nat),
  (forall o, List.length (pts o) = N) -> (forall o y, In y (pts o) -> In y dom /\ ~ Q y) -> reads Q pts -> reads anything g ->
  tsum E L N (fun cs => hsum (fun o => g (set_all o (combine (pts o) cs)))) = q ^ N * hsum g.
Proof using Hdom L.
  induction N as [|N IH]; intros pts g Hl Hin Hr Hg.
  - rewrite tsum_0. cbn [Nat.pow]. rewrite Nat.mul_1_l. apply lsum_ext. intros o _. specialize (Hl o). destruct (pts o); [reflexivity|discriminate].
  - set (F := fun o => hd ([], "") (pts o)).
    assert (HF : forall o, pts o = F o :: tl (pts o)) by (intros o; unfold F; specialize (Hl o); destruct (pts o); [discriminate|reflexivity]).
    assert (HFin : forall o, In (F o) dom /\ ~ Q (F o)) by (intros o; apply (Hin o); rewrite HF; left; reflexivity).
    assert (Hself : forall o c, F (set_hash o (F o) c) = F o).
    { intros o c. unfold F at 1. rewrite (Hr (set_hash o (F o) c) o); [reflexivity|]. intros y Hy. apply set_other.
      intros <-. exact (proj2 (HFin o) Hy). }
    assert (HFr : reads anything F). { intros o o' H. unfold F. rewrite (Hr o o'); [reflexivity|]. intros y _. exact (H y I). }
    rewrite tsum_S.
    rewrite (lsum_ext _ (fun c => q ^ N * hsum (fun o => g (set_hash o (F o) c)))).
    + rewrite lsum_scale.
      rewrite (lsum_ext _ (fun c => q * hsum (fun o => b2n (s_eqb (answer o (F o)) c) * g o))).
      2:{ intros c _. apply (program_one E L dom o0 Hdom F c g); [intros o; apply HFin|exact HFr|exact Hself|exact Hg]. }
      rewrite lsum_scale. unfold Forking.hsum. rewrite lsum_swap. cbn [Nat.pow].
      rewrite (lsum_ext _ g); [lia|]. intros o _. apply (lsum_pick (fun _ => g o)).
    + intros c _. rewrite <- (IH (fun o => tl (pts o)) (fun o => g (set_hash o (F o) c))).
      * apply tsum_ext. intros cs _. apply lsum_ext. intros o _. rewrite (HF o) at 1. cbn [combine].
        change (set_all o ((F o, c) :: combine (tl (pts o)) cs)) with (set_hash (set_all o (combine (tl (pts o)) cs)) (F o) c).
        assert (HFo : F (set_all o (combine (tl (pts o)) cs)) = F o); [|rewrite HFo; reflexivity].
        unfold F at 1. rewrite (Hr _ o); [reflexivity|].
        intros y Hy. apply (set_all_other Q); [|exact Hy]. intros [z d] He. cbn [fst]. apply in_combine_l in He.
        apply (Hin o). rewrite HF. right. exact He.
      * intros o. specialize (Hl o). rewrite HF in Hl. injection Hl. auto.
      * intros o y Hy. apply (Hin o). rewrite HF. right. exact Hy.
      * intros o o' H. rewrite (Hr o o' H). reflexivity.
      * intros o o' H. apply Hg. intros y _. rewrite (HFr o o' H). destruct (query_dec (F o') y) as [<-|Hne]; [rewrite !set_same; reflexivity|].
        rewrite !set_other by exact Hne. exact (H y I).
Qed.
End Program.

(** change of variables in all scalars *)
Definition shift (zs ds : list scalar) : list scalar := map (fun p => (fst p - snd p)%S) (combine zs ds).

Lemma tsum_shift : forall N (ds : list scalar) f, List.length ds = N -> tsum E L N f = tsum E L N (fun zs => f (shift zs ds)).
Proof.
  induction N as [|N IH]; intros ds f Hl.
  - rewrite !tsum_0. reflexivity.
  - destruct ds as [|d ds]; [discriminate|]. rewrite !tsum_S.
    rewrite <- (lsum_bij E L (fun z => (z - d)%S) (fun x => tsum E L N (fun t => f (x :: t)))).
    + apply lsum_ext. intros z _. apply (IH ds (fun t => f ((z - d)%S :: t))). injection Hl. auto.
    + intros x y H. replace x with ((x - d) + d)%S by ring. rewrite H. ring.
Qed.

(** ** proofs of equal logarithms, real and made up *)

(** secret, base of the second logarithm, context *)
Local Notation stmt := (scalar * element * transcript)%type.

Definition ask (u : stmt) (x : scalar) : query :=
  let '(w, R, T) := u in
  (le_query T (ser R) (ser (generator * w)%E) (ser (R * w)%E) (ser (generator * x)%E) (ser (R * x)%E), "c").

Definition proves (o : hash scalar) (u : stmt) (x : scalar) : LogEqualityProof E :=
  let c := answer o (ask u x) in {| le_challenge := c; le_response := (c * fst (fst u) + x)%S |}.

Lemma ser_inj e e' : ser e = ser e' -> e = e'.
Proof using L Ht. intros H. pose proof (ser_ok E L Ht e) as H1. pose proof (ser_ok E L Ht e') as H2. rewrite <- H in H2.
  exact (ser_element_inj L e e' _ H1 H2). Qed.

Lemma ask_inj u u' x x' : ask u x = ask u' x' -> fst (fst u) = fst (fst u') /\ x = x'.
Proof using L Ht.
  destruct u as [[w R] T], u' as [[w' R'] T']. unfold ask, le_query. intros H. injection H as H.
  repeat rewrite app_comm_cons in H.
  assert (Hc : forall (T T' : transcript) l l', List.length l = List.length l' -> T ++ l = T' ++ l' -> l = l').
  { clear. intros T T' l l' Hl H. assert (HT : List.length T = List.length T') by (apply (f_equal (@List.length _)) in H; rewrite !app_length in H; lia).
    revert T' HT H. induction T as [|a T IH]; intros [|b T'] HT H; try discriminate HT; [exact H|]. injection H as _ H. apply (IH T'); [injection HT; auto|exact H]. }
  apply Hc in H; [|reflexivity]. injection H as _ H1 _ H2 _. apply ser_inj in H1, H2. cbn [fst].
  split; [exact (gen_inj L _ _ H1)|exact (gen_inj L _ _ H2)].
Qed.

(** the made-up proofs for challenges [e] and responses [z] *)
Definition made (u : stmt) (ez : scalar * scalar) : query * LogEqualityProof E :=
  (ask u (snd ez - fst ez * fst (fst u))%S, {| le_challenge := fst ez; le_response := snd ez |}).

Lemma proof_for_made : forall (Z : list (stmt * (scalar * scalar))) u ez o,
  In (u, ez) Z ->
  let table := map (fun p => made (fst p) (snd p)) Z in
  let o' := set_all o (map (fun e => (fst e, le_challenge (snd e))) table) in
  proof_for table (fst (made u ez)) (snd (made u ez)) = proves o' u (snd ez - fst ez * fst (fst u))%S.
Proof using L Ht.
  intros Z u ez o Hin table o'. unfold proof_for.
  destruct (find _ table) as [e|] eqn:Hf.
  2:{ exfalso. apply (in_map (fun p => made (fst p) (snd p))) in Hin. pose proof (find_none _ _ Hf _ Hin) as H. cbn [fst snd] in H.
      destruct (query_dec (fst (made u ez)) (fst (made u ez))); [discriminate|congruence]. }
  assert (Ho : answer o' (fst (made u ez)) = le_challenge (snd e)).
  { unfold o'. clear -Hf. revert Hf. induction table as [|[x p] l IH]; [discriminate|]. cbn [find map fst snd].
    cbn [set_all fold_right fst snd]. destruct (query_dec x (fst (made u ez))) as [->|Hne].
    - intros H. injection H as <-. apply set_same.
    - intros H. rewrite set_other by exact Hne. exact (IH H). }
  apply find_some in Hf as [Hi He]. destruct (query_dec (fst e) (fst (made u ez))) as [Hq|]; [|discriminate].
  unfold table in Hi. apply in_map_iff in Hi as ([u' ez'] & <- & _). cbn [fst snd made] in Hq, Ho |- *.
  apply ask_inj in Hq as [Hw Hx]. unfold proves. rewrite Ho. cbn [le_challenge]. f_equal. rewrite <- Hx, <- Hw. ring.
Qed.

Lemma base_key (R : element) : PublicKey_from_element (E:=E) R = Ret {| pk_bytes := ser R; pk_element := R |}.
Proof using L Ht. unfold PublicKey_from_element. rewrite (ser_ok E L Ht). reflexivity. Qed.

(** ** the experiment *)
Section Stage.
Context (Hbig : (2 ^ 64 <= order L)%Z) (params : Params) (Hparams : params_ok params) (is_ hs : list nat).
Context (Hnd : NoDup is_) (His : forall i, In i is_ -> i < pa_shares params) (Hlen : List.length is_ + 1 = pa_threshold params).
Context (Hhs : forall j, In j hs -> j < pa_shares params).
Context (seed : list scalar -> Rng E) (Hseed : seeds seed) (dom : list query) (o0 : hash scalar) (Hdom : NoDup dom).
Context (Hcov : covers_shares (E:=E) dom params hs).
Local Notation t := (pa_threshold params).
Local Notation hashes := (all_hashes scalars dom o0).
Local Notation hsum := (hsum scalar scalars dom o0).

(** not asked for in proofs of decryption shares *)
Definition elsewhere (y : query) : Prop := ~ extends (transcript_new "elgamal_decryption_share") (fst y).

Context {A : Type} (client : hash scalar -> PublicKey E -> Rng E -> outcome (A * Rng E)) (n : nat).
Context (Hdet : forall x o, exists f, det E n (client o (pk x)) f).
Context (Hout : forall K r, reads elsewhere (fun o => client o K r)).
Context (totals : A -> list (Ciphertext E)) (result : list element).
Context (Hplain : forall x o r a r', client o (pk x) r = Ret (a, r') ->
  Forall2 (fun c M => blinded_element c = (M + random_element c * x)%E) (totals a) result).
Local Notation N := (List.length hs * List.length result).

Definition stage (o : hash scalar) (r : Rng E) : outcome ((Dealer E * PublicKeySet E * list scalar * A) * Rng E) :=
  '(d, r) <- Dealer_new (E:=hashed_by E o) params r ;;
  set <- PublicKeySet_new (E:=hashed_by E o) params (fst (Dealer_public_info (E:=E) d)) (snd (Dealer_public_info (E:=E) d)) ;;
  shares <- mapM (Dealer_secret_share_for_participant (E:=E) d) is_ ;;
  match set with
  | Ok ks => '(a, r) <- client o (ks_shared_key ks) r ;; Ret ((d, ks, shares, a), r)
  | Err _ => Panic PUnwrap
  end.

Definition good (o : hash scalar) (v : Dealer E * PublicKeySet E * list scalar * A) : Prop :=
  let '(d, ks, shares, a) := v in
  let co := dealer_poly E d in
  de_params d = params /\ List.length co = t /\ fst (Dealer_public_info (E:=E) d) = in_exponent co /\ shares = shares_of E is_ co /\
  ks_params ks = params /\ ks_shared_key ks = pk (peval co 0%S) /\ List.length (ks_participant_keys ks) = pa_shares params /\
  keys_of_poly co (ks_participant_keys ks) /\
  PublicKeySet_new (E:=hashed_by E o) params (fst (Dealer_public_info (E:=E) d)) (snd (Dealer_public_info (E:=E) d)) = Ret (Ok ks) /\
  Forall2 (fun c M => blinded_element c = (M + random_element c * peval co 0%S)%E) (totals a) result.

Lemma dealer_det o : exists f, det E (t + t) (Dealer_new (E:=hashed_by E o) params) f.
Proof using L Ht Hseed.
  exact (uniform_det E seed (t + t) _ _ Hseed (dealer_uniform (hashed_by E o) L Ht params)).
Qed.

Lemma dealt_set o (d : Dealer E) r r' : Dealer_new (E:=hashed_by E o) params r = Ret (d, r') ->
  let co := dealer_poly E d in
  exists ks, PublicKeySet_new (E:=hashed_by E o) params (fst (Dealer_public_info (E:=E) d)) (snd (Dealer_public_info (E:=E) d)) = Ret (Ok ks) /\
    de_params d = params /\ List.length co = t /\ fst (Dealer_public_info (E:=E) d) = in_exponent co /\
    mapM (Dealer_secret_share_for_participant (E:=E) d) is_ = Ret (shares_of E is_ co) /\
    ks_params ks = params /\ ks_shared_key ks = pk (peval co 0%S) /\ List.length (ks_participant_keys ks) = pa_shares params /\
    keys_of_poly co (ks_participant_keys ks).
Proof using L Ht Hparams His.
  intros Hd co. destruct (dealer_new_ok (hashed_by E o) L params r d r' Hd) as (D1 & D2 & D3 & _).
  destruct (pks_new_total (hashed_by E o) L params (fst (Dealer_public_info (E:=E) d)) (snd (Dealer_public_info (E:=E) d)) Hparams Ht) as [res Hres].
  destruct (dealing_ok (hashed_by E o) L params r d r' res Hparams Hd Hres) as [ks ->].
  exists ks. split; [exact Hres|]. split; [exact D1|]. split; [exact D2|]. split; [exact D3|].
  split.
  { assert (D1' : de_params (d : Dealer E) = params) by exact D1. revert His. clear - L D1'. intros His. induction is_ as [|i l IH]; [reflexivity|]. cbn [mapM].
    rewrite (dealer_share_eq E L), D1'. destruct (Nat.ltb_spec i (pa_shares params)) as [_|Hge]; [|specialize (His i (or_introl eq_refl)); lia]. cbn [bind].
    rewrite IH by (intros j Hj; apply His; right; exact Hj). reflexivity. }
  assert (Hres' : PublicKeySet_new (E:=hashed_by E o) params (in_exponent co) (snd (Dealer_public_info (E:=E) d)) = Ret (Ok ks)).
  { exact (eq_trans (f_equal (fun l => PublicKeySet_new (E:=hashed_by E o) params l (snd (Dealer_public_info (E:=E) d))) (eq_sym D3)) Hres). }
  apply (pks_new_ok (hashed_by E o) L) in Hres' as (K0 & _ & K1 & K2 & K3 & K4 & _); [|exact Hparams].
  split; [exact K0|]. split; [|split; [exact K3|exact K4]].
  unfold key_bytes_ok in K2. destruct (ks_shared_key ks) as [b e]. cbn [pk_element pk_bytes] in K1, K2. clear - K1 K2 L Ht.
  assert (He : e = (@generator E * peval co 0%S)%E) by exact K1. clear K1. subst e.
  change (serialize_element (g:=hashed_by E o)) with (serialize_element (g:=E)) in K2. rewrite (ser_ok E L Ht) in K2. injection K2 as <-. reflexivity.
Qed.

Lemma stage_same o r r' : fst (draws (2 * t + n) r) = fst (draws (2 * t + n) r') ->
  exists v, good o v /\ stage o r = Ret (v, snd (draws (2 * t + n) r)) /\ stage o r' = Ret (v, snd (draws (2 * t + n) r')).
Proof using L Ht Hseed Hparams His Hlen Hdet Hplain.
  intros Hr. replace (2 * t + n) with (t + t + n) in * by lia.
  destruct (dealer_det o) as [fd Hfd].
  destruct (draws_split E (t + t) n r) as [S1 S2]. destruct (draws_split E (t + t) n r') as [S1' S2']. rewrite S1, S1' in Hr. rewrite S2, S2'.
  apply app_inj in Hr as [R1 R2]; [|rewrite !draws_length; reflexivity].
  set (d := fd (fst (draws (t + t) r))) in *.
  assert (Hd : Dealer_new (E:=hashed_by E o) params r = Ret (d, snd (draws (t + t) r))) by exact (Hfd r).
  assert (Hd' : Dealer_new (E:=hashed_by E o) params r' = Ret (d, snd (draws (t + t) r'))) by (unfold d; rewrite R1; exact (Hfd r')).
  destruct (dealt_set o d _ _ Hd) as (ks & K1 & K2 & K3 & K4 & K5 & K6 & K7 & K8 & K9).
  destruct (Hdet (peval (dealer_poly E d) 0%S) o) as [f Hf].
  pose proof (Hf (snd (draws (t + t) r))) as C1. pose proof (Hf (snd (draws (t + t) r'))) as C2. rewrite <- R2 in C2.
  set (a := f (fst (draws n (snd (draws (t + t) r))))) in *.
  exists (d, ks, shares_of E is_ (dealer_poly E d), a). split; [|split].
  - unfold good. repeat (split; [first [assumption|reflexivity]|]). exact (Hplain _ _ _ _ _ C1).
  - unfold stage. rewrite Hd. cbn [bind]. rewrite K1. cbn [bind]. rewrite K5. cbn [bind]. rewrite K7, C1. reflexivity.
  - unfold stage. rewrite Hd'. cbn [bind]. rewrite K1. cbn [bind]. rewrite K5. cbn [bind]. rewrite K7, C2. reflexivity.
Qed.

Lemma stage_reads r : reads elsewhere (fun o => stage o r).
Proof using Hout.
  intros o o' H. unfold stage.
  assert (Ha : agrees (hashed_by E o') o (transcript_new "elgamal_share_poly")).
  { intros u l (u' & ->). apply (H (_, l)). unfold elsewhere. intros (v & Hv). discriminate Hv. }
  pose proof (Properties.Domains.same_dealer (hashed_by E o') o Ha params r) as Hd.
  transitivity ('(d, r) <- Dealer_new (E:=hashed_by E o') params r ;;
    set <- PublicKeySet_new (E:=hashed_by E o) params (fst (Dealer_public_info (E:=E) d)) (snd (Dealer_public_info (E:=E) d)) ;;
    shares <- mapM (Dealer_secret_share_for_participant (E:=E) d) is_ ;;
    match set with
    | Ok ks => '(a, r) <- client o (ks_shared_key ks) r ;; Ret ((d, ks, shares, a), r)
    | Err _ => Panic PUnwrap
    end); [refine (f_equal (fun m => bind m _) _); exact Hd|].
  destruct (Dealer_new (E:=hashed_by E o') params r) as [[d r1]|p]; [|reflexivity]. cbn [bind].
  pose proof (Properties.Domains.same_key_set (hashed_by E o') o Ha params (fst (Dealer_public_info (E:=E) d)) (snd (Dealer_public_info (E:=E) d))) as Hs.
  transitivity (
    set <- PublicKeySet_new (E:=hashed_by E o') params (fst (Dealer_public_info (E:=E) d)) (snd (Dealer_public_info (E:=E) d)) ;;
    shares <- mapM (Dealer_secret_share_for_participant (E:=E) d) is_ ;;
    match set with
    | Ok ks => '(a, r) <- client o (ks_shared_key ks) r1 ;; Ret ((d, ks, shares, a), r)
    | Err _ => Panic PUnwrap
    end); [refine (f_equal (fun m => bind m _) _); exact Hs|].
  destruct (PublicKeySet_new (E:=hashed_by E o') params _ _) as [[ks|e]|p]; [|reflexivity..]. cbn [bind].
  rewrite (Hout (ks_shared_key ks) r1 o o' H). reflexivity.
Qed.

(** *** what is published *)
Definition stmt_of (d : Dealer E) (ks : PublicKeySet E) (j : nat) (c : Ciphertext E) : stmt :=
  (peval (dealer_poly E d) (node j), random_element c, decryption_share_transcript ks j).

Definition real_pub (o : hash scalar) (d : Dealer E) (ks : PublicKeySet E) (items : list (nat * Ciphertext E)) (xs : list scalar)
    : list (VerifiableDecryption E * LogEqualityProof E) :=
  map (fun p => let u := stmt_of d ks (fst (fst p)) (snd (fst p)) in
                ({| vd_dh_element := (random_element (snd (fst p)) * fst (fst u))%E |}, proves o u (snd p)))
      (combine items xs).

Lemma participant_key o d ks shares a j : good o (d, ks, shares, a) -> j < pa_shares params ->
  exists key, index (ks_participant_keys ks) j = Ret key /\ pk_element key = (generator * peval (dealer_poly E d) (node j))%E.
Proof using Hlen.
  intros (_ & _ & _ & _ & _ & _ & Hl & Hk & _) Hj. unfold index. destruct (nth_error (ks_participant_keys ks) j) as [key|] eqn:Hn.
  - exists key. split; [reflexivity|exact (Hk j key Hn)].
  - apply nth_error_None in Hn. lia.
Qed.

Lemma share_new o d ks shares a j c r : good o (d, ks, shares, a) -> j < pa_shares params ->
  exists s, Dealer_secret_share_for_participant (E:=E) d j = Ret s /\
  (p <- ActiveParticipant_new (E:=hashed_by E o) ks j s ;;
   match p with Err _ => Panic PUnwrap | Ok p => ActiveParticipant_decrypt_share (E:=hashed_by E o) p c r end) =
  Ret ({| vd_dh_element := (random_element c * peval (dealer_poly E d) (node j))%E |},
       proves o (stmt_of d ks j c) (fst (generate_scalar r)), snd (generate_scalar r)).
Proof using L Ht Hlen.
  intros Hg Hj. destruct (participant_key o d ks shares a j Hg Hj) as (key & Hk & He). destruct Hg as (Hp & _).
  exists (peval (dealer_poly E d) (node j)). split.
  - rewrite (dealer_share_eq E L). destruct (Nat.ltb_spec j (pa_shares (de_params d))) as [_|Hge]; [reflexivity|]. rewrite Hp in Hge. lia.
  - pose proof (share_new_eq (hashed_by E o) L Ht ks j key (peval (dealer_poly E d) (node j)) c r Hk He) as H.
    refine (eq_trans H _). clear. destruct (@generate_scalar E r) as [x r'] eqn:Hx.
    change (@generate_scalar (hashed_by E o) r) with (@generate_scalar E r). rewrite Hx. reflexivity.
Qed.

Lemma publish_eq o d ks shares a : good o (d, ks, shares, a) -> forall items r, (forall p, In p items -> fst p < pa_shares params) ->
  publish o d ks items r = Ret (real_pub o d ks items (fst (draws (List.length items) r)), snd (draws (List.length items) r)).
Proof using L Ht Hlen.
  intros Hg. induction items as [|[j c] items IH]; intros r Hi; [reflexivity|]. cbn [publish].
  destruct (share_new o d ks shares a j c r Hg (Hi (j, c) (or_introl eq_refl))) as (s & Hs & Hn). rewrite Hs. cbn [bind].
  revert Hn. destruct (ActiveParticipant_new (E:=hashed_by E o) ks j s) as [[p|e]|e]; cbn [bind]; intros Hn; [|discriminate Hn..].
  rewrite Hn. cbn [bind].
  rewrite IH by (intros p0 Hp; apply Hi; right; exact Hp). cbn [bind List.length draws].
  change (@generate_scalar (hashed_by E o) r) with (@generate_scalar E r).
  destruct (@generate_scalar E r) as [x r1]. cbn [fst snd]. destruct (draws (List.length items) r1) as [xs r2]. reflexivity.
Qed.

(** *** what is made up *)
Lemma asked_share o d ks shares a c M j e z : good o (d, ks, shares, a) -> j < pa_shares params ->
  blinded_element c = (M + random_element c * peval (dealer_poly E d) 0%S)%E ->
  share_from L is_ shares c M j = {| vd_dh_element := (random_element c * peval (dealer_poly E d) (node j))%E |} /\
  asked o (share_verifier ks {| cd_inner := share_from L is_ shares c M j |} c j {| le_challenge := e; le_response := z |}) =
    [ask (stmt_of d ks j c) (z - e * peval (dealer_poly E d) (node j))%S].
Proof using L Ht Hbig Hparams Hnd His Hlen.
  intros Hg Hj HM. destruct (participant_key o d ks shares a j Hg Hj) as (key & Hk & He). destruct Hg as (_ & Hl & _ & -> & _).
  assert (Hsh : share_from L is_ (shares_of E is_ (dealer_poly E d)) c M j = {| vd_dh_element := (random_element c * peval (dealer_poly E d) (node j))%E |}).
  { unfold share_from. f_equal. apply (other_shares E L Hbig params Hparams is_ Hnd His Hlen); [exact Hl|reflexivity|]. rewrite HM. apply (add_sub E L). }
  split; [exact Hsh|]. rewrite Hsh. unfold share_verifier. rewrite Hk. cbn [doing]. rewrite base_key. cbn [doing cd_inner vd_dh_element].
  rewrite (asked_after_output E o _ (fun r => Ret (match fst r with Ok _ => Ok _ | Err e => Err e end))).
  unfold log_equality_verifier. cbn [fst snd le_challenge le_response pk_element pk_bytes].
  rewrite (le_commit0 E L), (le_commit1 E L). cbn [doing]. unfold append_element. rewrite !(ser_ok E L Ht). cbn [bind doing asking asked]. rewrite He.
  unfold ask, stmt_of, le_query, start_proof, append_element_bytes. cbn [asked]. do 2 f_equal. unfold append_message. rewrite <- !app_assoc. cbn [app].
  set (w := peval (dealer_poly E d) (node j)).
  replace (generator * z - generator * w * e)%E with (generator * (z - e * w))%E by el_ring L.
  replace (random_element c * z - random_element c * w * e)%E with (random_element c * (z - e * w))%E by el_ring L. reflexivity.
Qed.


Definition its {X : Type} (items : list (nat * (Ciphertext E * X))) : list (nat * Ciphertext E) := map (fun p => (fst p, fst (snd p))) items.
Definition statements (d : Dealer E) (ks : PublicKeySet E) (items : list (nat * Ciphertext E)) : list stmt :=
  map (fun p => stmt_of d ks (fst p) (snd p)) items.
Definition nonces (us : list stmt) (es zs : list scalar) : list scalar :=
  shift zs (map (fun p => (snd p * fst (fst (fst p)))%S) (combine us es)).
Definition points (us : list stmt) (xs : list scalar) : list query := map (fun p => ask (fst p) (snd p)) (combine us xs).

Definition entry (d : Dealer E) (ks : PublicKeySet E) (p : (nat * (Ciphertext E * element)) * (scalar * scalar)) :
    VerifiableDecryption E * (query * LogEqualityProof E) :=
  let u := stmt_of d ks (fst (fst p)) (fst (snd (fst p))) in
  ({| vd_dh_element := (snd (fst u) * fst (fst u))%E |}, made u (snd p)).

Lemma make_up_eq o d ks shares a : good o (d, ks, shares, a) -> forall items es zs,
  (forall j c M, In (j, (c, M)) items -> j < pa_shares params /\ blinded_element c = (M + random_element c * peval (dealer_poly E d) 0%S)%E) ->
  make_up L o ks is_ shares items es zs = map (entry d ks) (combine items (combine es zs)).
Proof using L Ht Hbig Hparams Hnd His Hlen.
  intros Hg. induction items as [|[j [c M]] items IH]; intros [|e es] [|z zs] Hi; try reflexivity.
  cbn [make_up combine map]. destruct (Hi j c M (or_introl eq_refl)) as [Hj HM].
  destruct (asked_share o d ks shares a c M j e z Hg Hj HM) as [H1 H2]. rewrite H2. f_equal.
  - unfold entry, made. cbn [fst snd last]. rewrite H1. reflexivity.
  - apply IH. intros j' c' M' H'. apply Hi. right. exact H'.
Qed.

Lemma combine_combine_map (d : Dealer E) ks : forall (items : list (nat * (Ciphertext E * element))) (es zs : list scalar),
  List.length es = List.length items -> List.length zs = List.length items ->
  let us := statements d ks (its items) in let xs := nonces us es zs in
  map (fun p => (fst (snd p), le_challenge (snd (snd p)))) (map (entry d ks) (combine items (combine es zs))) = combine (points us xs) es /\
  combine (its items) xs = map (fun p => ((fst (fst p), fst (snd (fst p))),
     (snd (snd p) - fst (snd p) * fst (fst (stmt_of d ks (fst (fst p)) (fst (snd (fst p))))))%S)) (combine items (combine es zs)).
Proof using.
  clear. induction items as [|[j [c M]] items IH]; intros [|e es] [|z zs] H1 H2; try discriminate; [split; reflexivity|].
  injection H1 as H1. injection H2 as H2. destruct (IH es zs H1 H2) as [I1 I2]. cbn zeta in I1, I2 |- *. split.
  - cbn [combine map its statements nonces shift points]. f_equal. exact I1.
  - cbn [combine map its statements nonces shift points]. f_equal. exact I2.
Qed.

Lemma simulate_eq o d ks shares a items es zs : good o (d, ks, shares, a) ->
  (forall j c M, In (j, (c, M)) items -> j < pa_shares params /\ blinded_element c = (M + random_element c * peval (dealer_poly E d) 0%S)%E) ->
  List.length es = List.length items -> List.length zs = List.length items ->
  let us := statements d ks (its items) in let xs := nonces us es zs in let o' := set_all o (combine (points us xs) es) in
  simulate_publication L o ks is_ shares items es zs = (real_pub o' d ks (its items) xs, o').
Proof using L Ht Hbig Hparams Hnd His Hlen.
  intros Hg Hi H1 H2 us xs o'. unfold simulate_publication. rewrite (make_up_eq o d ks shares a Hg items es zs Hi).
  destruct (combine_combine_map d ks items es zs H1 H2) as [I1 I2]. cbn zeta in I1, I2. fold us xs in I1, I2.
  set (Z := combine items (combine es zs)) in *.
  assert (Ho : fold_right (fun e o => set_hash o (fst e) (le_challenge (snd e))) o (map snd (map (entry d ks) Z)) = o').
  { unfold o'. rewrite <- I1. clear. induction Z as [|z Z IH]; [reflexivity|]. cbn [map fold_right set_all fst snd]. rewrite IH. reflexivity. }
  rewrite Ho. f_equal. unfold real_pub. rewrite I2, !map_map. apply map_ext_in. intros [[j [c M]] [e z]] Hz. cbn [fst snd entry].
  f_equal.
  pose proof (proof_for_made (map (fun p => (stmt_of d ks (fst (fst p)) (fst (snd (fst p))), snd p)) Z) (stmt_of d ks j c) (e, z) o) as HP.
  cbn zeta in HP. rewrite !map_map in HP. cbn [fst snd] in HP. rewrite HP.
  - f_equal. rewrite <- Ho. clear. rewrite !map_map. induction Z as [|p Z IH]; [reflexivity|]. cbn [map fold_right set_all fst snd entry] in *. rewrite <- IH. reflexivity.
  - apply in_map_iff. exists ((j, (c, M)), (e, z)). split; [reflexivity|exact Hz].
Qed.

(** *** all answers of the hash *)
Local Notation publication := (list (VerifiableDecryption E * LogEqualityProof E)).
Context (D : list element -> ProofOfPossession E -> list scalar -> A -> publication -> strategy scalar bool).

Definition published_by (coins : list scalar * list scalar) (poly : list element) (pop : ProofOfPossession E) (shares : list scalar) (a : A)
    (o : hash scalar) : bool :=
  returns (set <- PublicKeySet_new (E:=hashed_by E o) params poly pop ;;
           match set with
           | Ok ks =>
               let '(pub, o') := simulate_publication L o ks is_ shares (list_prod hs (combine (totals a) result)) (fst coins) (snd coins) in
               Ret (run o' (D poly pop shares a pub))
           | Err _ => Ret false
           end).

Lemma its_prod (cs : list (Ciphertext E)) (Ms : list element) : List.length cs = List.length Ms ->
  its (list_prod hs (combine cs Ms)) = list_prod hs cs.
Proof using.
  clear. intros Hl. unfold its. induction hs as [|j l IH]; [reflexivity|]. cbn [list_prod]. rewrite map_app, IH, map_map. f_equal. cbn [fst snd]. clear IH.
  revert Ms Hl. induction cs as [|c cs IH]; intros [|M Ms] Hl; try discriminate; [reflexivity|]. cbn [combine map fst snd]. f_equal. apply IH. injection Hl. auto.
Qed.

Lemma prod_plain o d ks shares a : good o (d, ks, shares, a) -> forall j c M, In (j, (c, M)) (list_prod hs (combine (totals a) result)) ->
  j < pa_shares params /\ blinded_element c = (M + random_element c * peval (dealer_poly E d) 0%S)%E.
Proof using Hhs.
  intros (_ & _ & _ & _ & _ & _ & _ & _ & _ & HF) j c M Hin. apply in_prod_iff in Hin as [Hj Hc]. split; [exact (Hhs j Hj)|].
  clear - HF Hc. induction HF as [|c' M' cs Ms Hc' HF IH]; [contradiction|]. destruct Hc as [Hc|Hc]; [injection Hc as -> ->; exact Hc'|exact (IH Hc)].
Qed.

Lemma good_length o d ks shares a : good o (d, ks, shares, a) -> List.length (totals a) = List.length result.
Proof using. intros (_ & _ & _ & _ & _ & _ & _ & _ & _ & HF). clear - HF. induction HF; cbn [List.length]; congruence. Qed.

Definition guess (xs : list scalar) (o : hash scalar) (v : Dealer E * PublicKeySet E * list scalar * A) : nat :=
  let '(d, ks, shares, a) := v in
  b2n (run o (D (fst (Dealer_public_info (E:=E) d)) (snd (Dealer_public_info (E:=E) d)) shares a (real_pub o d ks (list_prod hs (totals a)) xs))).
Definition targets (xs : list scalar) (v : Dealer E * PublicKeySet E * list scalar * A) : list query :=
  let '(d, ks, shares, a) := v in points (statements d ks (list_prod hs (totals a))) xs.
Definition on {X : Type} (default : X) (f : Dealer E * PublicKeySet E * list scalar * A -> X) (r : Rng E) (o : hash scalar) : X :=
  match stage o r with Ret (v, _) => f v | Panic _ => default end.

Lemma statements_length d ks a o shares : good o (d, ks, shares, a) -> List.length (statements d ks (list_prod hs (totals a))) = N.
Proof using. intros Hg. unfold statements. rewrite map_length, prod_length, (good_length _ _ _ _ _ Hg). reflexivity. Qed.

Lemma target_in o v xs y : good o v -> In y (targets xs v) -> In y dom /\ ~ elsewhere y.
Proof using L Ht Hbig Hparams Hnd His Hlen Hhs Hcov.
  destruct v as [[[d ks] shares] a]. intros Hg Hy. unfold targets, points in Hy. apply in_map_iff in Hy as ([u x] & <- & Hu). cbn [fst snd].
  apply in_combine_l in Hu. unfold statements in Hu. apply in_map_iff in Hu as ([j c] & <- & Hin). cbn [fst snd].
  rewrite <- (its_prod _ _ (good_length _ _ _ _ _ Hg)) in Hin. unfold its in Hin. apply in_map_iff in Hin as ([j' [c' M]] & Heq & Hin).
  cbn [fst snd] in Heq. injection Heq as -> ->.
  destruct (prod_plain _ _ _ _ _ Hg _ _ _ Hin) as [Hj HM].
  destruct (asked_share o d ks shares a c M j 0%S x Hg Hj HM) as [_ H2]. split.
  - apply in_prod_iff in Hin as [Hj' _].
    assert (Hkb : key_bytes_ok (E:=E) (ks_shared_key ks)).
    { destruct Hg as (_ & _ & _ & _ & _ & -> & _). unfold key_bytes_ok. cbn. apply (ser_ok E L Ht). }
    assert (Hkp : ks_params ks = params) by exact (proj1 (proj2 (proj2 (proj2 (proj2 Hg))))).
    specialize (Hcov ks {| cd_inner := share_from L is_ shares c M j |} c j {| le_challenge := 0%S; le_response := x |} o Hkp Hkb Hj').
    rewrite H2 in Hcov. replace x with (x - 0 * peval (dealer_poly E d) (node j))%S by ring. apply Hcov. left. reflexivity.
  - unfold elsewhere. intros H. apply H. unfold ask, stmt_of, le_query. cbn [fst]. unfold decryption_share_transcript, PublicKeySet_commit, append_u64, append_element_bytes, append_message.
    eexists. rewrite <- !app_assoc. reflexivity.
Qed.

Lemma on_good {X : Type} (x : X) f r o : exists v, good o v /\ on x f r o = f v /\ (forall y g, on (X:=nat) y g r o = g v) /\
  (forall y g, on (X:=list query) y g r o = g v).
Proof using L Ht Hseed Hparams His Hlen Hdet Hplain.
  destruct (stage_same o r r eq_refl) as (v & Hg & Hs & _). exists v. split; [exact Hg|]. unfold on. rewrite Hs. auto.
Qed.

Lemma published_tape (r : Rng E) :
  tsum E L N (fun es => tsum E L N (fun zs => hsum (fun o => on 0 (fun v => let '(d, ks, shares, a) := v in
    b2n (published_by (es, zs) (fst (Dealer_public_info (E:=E) d)) (snd (Dealer_public_info (E:=E) d)) shares a o)) r o))) =
  q ^ N * tsum E L N (fun xs => hsum (fun o => on 0 (guess xs o) r o)).
Proof using L Ht Hbig Hparams Hnd His Hlen Hhs Hseed Hdom Hcov Hdet Hout Hplain.
  set (g := fun xs o => on 0 (guess xs o) r o). set (pts := fun xs o => on [] (targets xs) r o).
  assert (Hstep : forall (es : list scalar) o, List.length es = N -> exists ds : list scalar, List.length ds = N /\
    (forall zs : list scalar, List.length zs = N -> on 0 (fun v => let '(d, ks, shares, a) := v in
      b2n (published_by (es, zs) (fst (Dealer_public_info (E:=E) d)) (snd (Dealer_public_info (E:=E) d)) shares a o)) r o =
      g (shift zs ds) (set_all o (combine (pts (shift zs ds) o) es)))).
  { intros es o Hes. destruct (stage_same o r r eq_refl) as ([[[d ks] shares] a] & Hg & Hs & _).
    exists (map (fun p => (snd p * fst (fst (fst p)))%S) (combine (statements d ks (list_prod hs (totals a))) es)).
    split; [rewrite map_length, combine_length, (statements_length _ _ _ _ _ Hg), Hes; lia|]. intros zs Hzs.
    set (xs := shift _ _). unfold on. rewrite Hs.
    assert (HK : PublicKeySet_new (E:=hashed_by E o) params (fst (Dealer_public_info (E:=E) d)) (snd (Dealer_public_info (E:=E) d)) = Ret (Ok ks)).
    { apply Hg. }
    unfold published_by. rewrite HK. cbn [bind fst snd].
    assert (Hl : List.length (list_prod hs (combine (totals a) result)) = N).
    { rewrite prod_length, combine_length, (good_length _ _ _ _ _ Hg). lia. }
    rewrite (simulate_eq o d ks shares a (list_prod hs (combine (totals a) result)) es zs Hg (prod_plain o d ks shares a Hg)) by (rewrite Hl; assumption).
    rewrite (its_prod _ _ (good_length _ _ _ _ _ Hg)).
    change (nonces (statements d ks (list_prod hs (totals a))) es zs) with xs.
    unfold pts at 1, on. rewrite Hs. cbn [targets].
    cbn [returns]. unfold g, on.
    set (o' := set_all o (combine (points (statements d ks (list_prod hs (totals a))) xs) es)).
    rewrite (stage_reads r o' o), Hs; [reflexivity|].
    intros y Hy. unfold o'. apply (set_all_other elsewhere); [|exact Hy]. intros [x e] He. cbn [fst]. apply in_combine_l in He.
    exact (proj2 (target_in o (d, ks, shares, a) xs x Hg He)). }
  rewrite <- tsum_scale.
  rewrite (tsum_ext E L N _ (fun es => tsum E L N (fun xs => hsum (fun o => g xs (set_all o (combine (pts xs o) es)))))).
  - rewrite tsum_tsum. apply tsum_ext. intros xs Hxs.
    apply (program_all dom o0 Hdom elsewhere N (pts xs) (g xs)).
    + intros o. unfold pts, on. destruct (stage_same o r r eq_refl) as ([[[d ks] shares] a] & Hg & Hs & _). rewrite Hs. cbn [targets].
      unfold points. rewrite map_length, combine_length, (statements_length _ _ _ _ _ Hg). lia.
    + intros o y. unfold pts, on. destruct (stage_same o r r eq_refl) as (v & Hg & Hs & _). rewrite Hs. exact (target_in o v xs y Hg).
    + intros o o' H. unfold pts, on. rewrite (stage_reads r o o' H). reflexivity.
    + intros o o' H. unfold g, on. rewrite (stage_reads r o o') by (intros y _; exact (H y I)).
      destruct (stage o' r) as [[[[[d ks] shares] a] r']|p]; [|reflexivity]. unfold guess.
      assert (Hp : real_pub o d ks (list_prod hs (totals a)) xs = real_pub o' d ks (list_prod hs (totals a)) xs).
      { unfold real_pub. apply map_ext. intros [[j c] x]. cbn [fst snd]. unfold proves. rewrite (H _ I). reflexivity. }
      rewrite Hp. f_equal. apply (run_reads' E). exact H.
  - intros es Hes. unfold Forking.hsum. rewrite !tsum_swap. apply lsum_ext. intros o _.
    destruct (Hstep es o Hes) as (ds & Hds & Hz).
    rewrite (tsum_shift N ds (fun xs => g xs (set_all o (combine (pts xs o) es))) Hds). apply tsum_ext. exact Hz.
Qed.

Lemma published_eq :
  (Z.of_nat (q ^ N) * published_guesses L params is_ hs n N seed hashes client totals D =
   fold_right Z.add 0 (map (fun coins => dealt_guesses_by E L params is_ n seed hashes client (published_by coins)) (list_prod (tapes L N) (tapes L N))))%Z.
Proof using L Ht Hbig Hparams Hnd His Hlen Hhs Hseed Hdom Hcov Hdet Hout Hplain.
  rewrite (fold_ext _ (fun coins => Z.of_nat (tsum E L (2 * t + n) (fun t1 => hsum (fun o => on 0 (fun v => let '(d, ks, shares, a) := v in
    b2n (published_by coins (fst (Dealer_public_info (E:=E) d)) (snd (Dealer_public_info (E:=E) d)) shares a o)) (seed t1) o))))).
  2:{ intros coins. unfold dealt_guesses_by. rewrite tally_lsum, lsum_prod. f_equal. apply lsum_ext. intros t1 _. apply lsum_ext. intros o _. cbn [fst snd].
      unfold on, stage. destruct (Dealer_new (E:=hashed_by E o) params (seed t1)) as [[d r]|p]; [|reflexivity]. cbn [bind].
      set (poly := fst (Dealer_public_info (E:=E) d)). set (pop := snd (Dealer_public_info (E:=E) d)).
      assert (Hm : forall m : outcome (Base.result (PublicKeySet E) SharingError),
        match
          (set <- m ;; shares <- mapM (Dealer_secret_share_for_participant (E:=E) d) is_ ;;
           match set with Ok ks => '(a, r) <- client o (ks_shared_key ks) r ;; Ret ((d, ks, shares, a), r) | Err _ => Panic PUnwrap end) with
        | Ret (v, _) => let '(d, ks, shares, a) := v in
            b2n (published_by coins (fst (Dealer_public_info (E:=E) d)) (snd (Dealer_public_info (E:=E) d)) shares a o)
        | Panic _ => 0
        end =
        b2n (returns (set <- m ;; shares <- mapM (Dealer_secret_share_for_participant (E:=E) d) is_ ;;
           match set with Ok ks => '(a, _) <- client o (ks_shared_key ks) r ;; Ret (published_by coins poly pop shares a o) | Err _ => Ret false end))).
      { intros [[ks|e]|p]; [| |reflexivity]; cbn [bind].
        - destruct (mapM (Dealer_secret_share_for_participant (E:=E) d) is_) as [shares|p]; [|reflexivity]. cbn [bind].
          destruct (client o (ks_shared_key ks) r) as [[a r']|p]; reflexivity.
        - destruct (mapM (Dealer_secret_share_for_participant (E:=E) d) is_) as [shares|p]; reflexivity. }
      symmetry. exact (Hm (PublicKeySet_new (E:=hashed_by E o) params poly pop)). }
  rewrite fold_sum, lsum_prod. unfold published_guesses. rewrite tally_lsum, lsum_prod, <- Nat2Z.inj_mul. f_equal.
  change (lsum ?f (tapes L ?m)) with (tsum E L m f).
  replace (2 * t + (n + N)) with (2 * t + n + N) by lia. rewrite tsum_app, <- tsum_scale.
  transitivity (tsum E L (2 * t + n) (fun t1 => tsum E L N (fun es => tsum E L N (fun zs => hsum (fun o => on 0 (fun v => let '(d, ks, shares, a) := v in
    b2n (published_by (es, zs) (fst (Dealer_public_info (E:=E) d)) (snd (Dealer_public_info (E:=E) d)) shares a o)) (seed t1) o))))).
  - apply tsum_ext. intros t1 Ht1. rewrite published_tape. f_equal. apply tsum_ext. intros xs Hxs. apply lsum_ext. intros o _. cbn [fst snd].
    assert (Hs1 : fst (draws (2 * t + n) (seed t1)) = t1) by (rewrite <- Ht1; apply Hseed).
    assert (Hs2 : fst (draws (2 * t + n) (seed (t1 ++ xs))) = t1 /\ fst (draws N (snd (draws (2 * t + n) (seed (t1 ++ xs))))) = xs).
    { pose proof (Hseed (t1 ++ xs)) as H. rewrite app_length, Ht1, Hxs in H. destruct (draws_split E (2 * t + n) N (seed (t1 ++ xs))) as [S1 _].
      rewrite S1 in H. apply (app_inj E) in H; [exact H|]. rewrite draws_length, Ht1. reflexivity. }
    destruct Hs2 as [Hs2 Hs3].
    destruct (stage_same o (seed t1) (seed (t1 ++ xs))) as ([[[d ks] shares] a] & Hg & V1 & V2); [rewrite Hs1, Hs2; reflexivity|].
    unfold on. rewrite V1. unfold stage in V2. revert V2.
    destruct (Dealer_new (E:=hashed_by E o) params (seed (t1 ++ xs))) as [[d' r]|p]; [|intros V2; discriminate V2]. cbn [bind].
    set (poly := fst (Dealer_public_info (E:=E) d')). set (pop := snd (Dealer_public_info (E:=E) d')).
    assert (Hm : forall m : outcome (Base.result (PublicKeySet E) SharingError),
        (set <- m ;; shares <- mapM (Dealer_secret_share_for_participant (E:=E) d') is_ ;;
           match set with Ok ks => '(a, r) <- client o (ks_shared_key ks) r ;; Ret ((d', ks, shares, a), r) | Err _ => Panic PUnwrap end) =
        Ret ((d, ks, shares, a), snd (draws (2 * t + n) (seed (t1 ++ xs)))) ->
        b2n (returns (set <- m ;; shares <- mapM (Dealer_secret_share_for_participant (E:=E) d') is_ ;;
           match set with
           | Ok ks => '(a, r) <- client o (ks_shared_key ks) r ;;
                      '(pub, _) <- publish o d' ks (list_prod hs (totals a)) r ;;
                      Ret (run o (D poly pop shares a pub))
           | Err _ => Ret false end)) = guess xs o (d, ks, shares, a)).
    { intros [[ks'|e]|p]; [|destruct (mapM (Dealer_secret_share_for_participant (E:=E) d') is_); intros V2; discriminate V2|intros V2; discriminate V2]. cbn [bind].
      destruct (mapM (Dealer_secret_share_for_participant (E:=E) d') is_) as [shares'|p]; [|intros V2; discriminate V2]. cbn [bind].
      destruct (client o (ks_shared_key ks') r) as [[a' r']|p]; [|intros V2; discriminate V2]. cbn [bind].
      intros V2. injection V2 as Hd Hk Hsh Ha Hr. subst d' ks' shares' a'. rewrite Hr.
      assert (Hp : exists r2, publish o d ks (list_prod hs (totals a)) (snd (draws (E:=E) (2 * t + n) (seed (t1 ++ xs)))) = Ret (real_pub o d ks (list_prod hs (totals a)) xs, r2)).
      { eexists. rewrite (publish_eq o d ks shares a Hg) by (intros [j c] Hp; apply in_prod_iff in Hp as [Hp _]; exact (Hhs j Hp)).
        rewrite prod_length, (good_length _ _ _ _ _ Hg), Hs3. reflexivity. }
      destruct Hp as [r2 Hp]. exact (f_equal (fun m => b2n (returns ('(pub, _) <- m ;; Ret (run o (D poly pop shares a pub))))) Hp). }
    exact (Hm (PublicKeySet_new (E:=hashed_by E o) params poly pop)).
  - rewrite tsum_tsum. apply tsum_ext. intros es _. rewrite tsum_tsum. reflexivity.
Qed.

Lemma make_up_ext o o' ks shares : (forall y, answer o y = answer o' y) -> forall items es zs,
  make_up L o ks is_ shares items es zs = make_up L o' ks is_ shares items es zs.
Proof using.
  intros H. induction items as [|[j [c M]] items IH]; intros [|e es] [|z zs]; try reflexivity. cbn [make_up].
  rewrite (asked_ext' scalar _ o o' H), IH. reflexivity.
Qed.

Lemma published_by_reads coins poly pop shares a : reads anything (published_by coins poly pop shares a).
Proof using.
  intros o o' H. unfold published_by.
  assert (Ha : agrees (hashed_by E o') o (transcript_new "elgamal_share_poly")) by (intros u l _; exact (H (_, l) I)).
  assert (Hsim : forall ks, simulate_publication L o ks is_ shares (list_prod hs (combine (totals a) result)) (fst coins) (snd coins) =
    let '(pub, _) := simulate_publication L o' ks is_ shares (list_prod hs (combine (totals a) result)) (fst coins) (snd coins) in
    (pub, set_all o (map (fun e => (fst e, le_challenge (snd e))) (map snd (make_up L o' ks is_ shares (list_prod hs (combine (totals a) result)) (fst coins) (snd coins)))))).
  { intros ks. unfold simulate_publication. rewrite (make_up_ext o o' ks shares (fun y => H y I)). f_equal. clear.
    set (l := map snd _). induction l as [|e l IH]; [reflexivity|]. cbn [fold_right map set_all fst snd]. rewrite IH. reflexivity. }
  transitivity (returns (set <- PublicKeySet_new (E:=hashed_by E o') params poly pop ;;
    match set with
    | Ok ks =>
        let '(pub, o'0) := simulate_publication L o ks is_ shares (list_prod hs (combine (totals a) result)) (fst coins) (snd coins) in
        Ret (run o'0 (D poly pop shares a pub))
    | Err _ => Ret false
    end)).
  - exact (f_equal (fun m => returns (bind m _)) (Properties.Domains.same_key_set (hashed_by E o') o Ha params poly pop)).
  - match goal with |- returns (bind ?m ?f) = returns (bind _ ?f') => assert (Hf : forall v, f v = f' v); [|destruct m as [v|p]; [exact (f_equal returns (Hf v))|reflexivity]] end.
    intros [ks|e]; [|reflexivity]. rewrite Hsim. unfold simulate_publication. f_equal.
    match goal with |- run ?a _ = run ?b _ => assert (Hr : forall y, answer a y = answer b y); [|exact (run_reads' E _ a b (fun y _ => Hr y))] end.
    set (l := map snd _). intros y.
    assert (Hl : forall oo, fold_right (fun e o => set_hash o (fst e) (le_challenge (snd e))) oo l = set_all oo (map (fun e => (fst e, le_challenge (snd e))) l)).
    { clear. intros oo. induction l as [|e l IH]; [reflexivity|]. cbn [fold_right map set_all fst snd]. rewrite IH. reflexivity. }
    rewrite Hl. apply set_all_ext. intros z. exact (H z I).
Qed.

End Stage.

(** ** hash inputs *)
Lemma covers_shares_exist params hs : exists dom, covers_shares (E:=E) dom params hs.
Proof using L Ht.
  set (T := fun x j => decryption_share_transcript {| ks_params := params; ks_shared_key := pk x; ks_participant_keys := [] |} j).
  set (g := fun x => ser (generator * x)%E).
  exists (flat_map (fun j => map (fun xs => let z i := nth i xs 0%S in
    (le_query (T (z 0) j) (g (z 1)) (g (z 2)) (g (z 3)) (g (z 4)) (g (z 5)), "c")) (tapes L 6)) hs).
  intros ks d c j p o Hp Hk Hj y Hy. unfold share_verifier in Hy.
  destruct (index (ks_participant_keys ks) j) as [key|e]; [|destruct Hy]. cbn [doing] in Hy. rewrite (base_key (random_element c)) in Hy. cbn [doing] in Hy.
  rewrite (asked_after_output E o _ (fun r => Ret (match fst r with Ok _ => Ok _ | Err e => Err e end))) in Hy.
  unfold log_equality_verifier in Hy. cbn [fst snd pk_element pk_bytes] in Hy.
  rewrite (le_commit0 E L), (le_commit1 E L) in Hy. cbn [doing] in Hy. unfold append_element in Hy. rewrite !(ser_ok E L Ht) in Hy. cbn [bind doing asking asked] in Hy.
  destruct Hy as [<-|[]]. apply in_flat_map. exists j. split; [exact Hj|].
  set (X0 := (generator * _ - _)%E). set (X1 := (random_element c * _ - _)%E).
  apply in_map_iff. exists [dlog L (pk_element (ks_shared_key ks)); dlog L (random_element c); dlog L (pk_element key); dlog L (vd_dh_element (cd_inner d)); dlog L X0; dlog L X1].
  split; [|apply tapes_in; reflexivity]. cbn [nth]. unfold g. rewrite !(dlog_ok E L).
  assert (HT : T (dlog L (pk_element (ks_shared_key ks))) j = decryption_share_transcript ks j).
  { unfold T, decryption_share_transcript, PublicKeySet_commit. cbn [ks_params ks_shared_key]. rewrite Hp. do 3 f_equal. cbn. rewrite (dlog_ok E L).
    unfold key_bytes_ok in Hk. rewrite (ser_ok E L Ht) in Hk. injection Hk as ->. destruct (ks_shared_key ks). reflexivity. }
  rewrite HT. unfold le_query, start_proof, append_element_bytes, append_message. rewrite <- !app_assoc. reflexivity.
Qed.

(** ** elections *)
Section Secret.
Context (Hbig : (2 ^ 64 <= order L)%Z) (params : Params) (Hparams : params_ok params) (is_ hs : list nat).
Context (Hnd : NoDup is_) (His : forall i, In i is_ -> i < pa_shares params) (Hlen : List.length is_ + 1 = pa_threshold params).
Context (Hhs : forall j, In j hs -> j < pa_shares params).
Context (seed : list scalar -> Rng E) (Hseed : seeds seed) (dom : list query) (o0 : hash scalar) (Hdom : NoDup dom).
Context (Hcovd : covers_dealing L dom params is_) (Hcov : covers_shares (E:=E) dom params hs).
Local Notation t := (pa_threshold params).
Local Notation hashes := (all_hashes scalars dom o0).
Context {V A : Type} (client : V -> hash scalar -> PublicKey E -> Rng E -> outcome (A * Rng E)) (nd : nat) (ok : V -> Prop).
Context (Hout : forall v K r, reads elsewhere (fun o => client v o K r)).

Lemma cast_elsewhere votes K : forall r, reads elsewhere (fun o => cast client votes o K r).
Proof using Hout.
  induction votes as [|v votes IH]; intros r o o' H; [reflexivity|]. cbn [cast]. rewrite (Hout v K r o o' H).
  destruct (client v o' K r) as [[a r1]|p]; [|reflexivity]. cbn [bind]. rewrite (IH r1 o o' H). reflexivity.
Qed.

Theorem published_secret n k h simulate assemble acc (Ms : V -> PublicKey E -> list element)
    (totals : list A -> list (Ciphertext E)) (result : list element) D :
  sim_ok E L dom o0 n k h simulate assemble acc -> (forall v, ok v -> side_ok E nd n k assemble acc (Ms v) (client v)) ->
  forall votes votes', Forall ok votes -> Forall ok votes' -> List.length votes = List.length votes' ->
  (forall vs, vs = votes \/ vs = votes' -> forall x o r a r', cast client vs o (pk x) r = Ret (a, r') ->
     Forall2 (fun c M => blinded_element c = (M + random_element c * x)%E) (totals a) result) ->
  let N := List.length hs * List.length result in
  (order L ^ Z.of_nat (N + n + h + 2) * (order L - 1) *
     (published_guesses L params is_ hs (nd * List.length votes) N seed hashes (cast client votes) totals D -
      published_guesses L params is_ hs (nd * List.length votes') N seed hashes (cast client votes') totals D) =
   hybrids (fun v before after =>
     ddh_gap L (list_prod (list_prod (tapes L N) (tapes L N)) (list_prod (tapes L (nd * (List.length before + List.length after))) (attacker_coins L n (2 * t + k) hashes)))
       (fun T coins => election_attacker_by client seed (Ms v) (simulate_dealing L params is_ simulate) all_dealt before after
          (published_view L params is_ hs totals result D (fst coins)) T (snd coins))) [] votes votes')%Z.
Proof using L Ht Hbig Hparams Hnd His Hlen Hhs Hseed Hdom Hcovd Hcov Hout.
  intros Hsim Hside votes votes' H H' Hl Hplain N.
  assert (Hext : forall v K r, reads anything (fun o => client v o K r)) by (intros v K r o o' Ho; apply Hout; intros y _; exact (Ho y I)).
  assert (Hdet : forall vs, vs = votes \/ vs = votes' -> forall x o, exists f, det E (nd * List.length vs) (cast client vs o (pk x)) f).
  { intros vs Hvs x o. rewrite <- (total_const nd vs).
    apply (cast_det E client (fun _ => nd) ok (fun v x o Hv => side_det E seed Hseed _ _ _ _ _ _ _ (Hside v Hv) x o)). destruct Hvs as [->| ->]; assumption. }
  assert (Heq : forall vs, vs = votes \/ vs = votes' ->
    (order L ^ Z.of_nat N * published_guesses L params is_ hs (nd * List.length vs) N seed hashes (cast client vs) totals D =
     fold_right Z.add 0 (map (fun coins => dealt_guesses_by E L params is_ (nd * List.length vs) seed hashes (cast client vs) (published_by params is_ hs totals result D coins))
       (list_prod (tapes L N) (tapes L N))))%Z).
  { intros vs Hvs. pose proof (published_eq Hbig params Hparams is_ hs Hnd His Hlen Hhs seed Hseed dom o0 Hdom Hcov (cast client vs) (nd * List.length vs)
      (Hdet vs Hvs) (cast_elsewhere vs) totals result (Hplain vs Hvs) D) as He. fold N in He. rewrite <- He, Nat2Z.inj_pow, Z2Nat.id; [reflexivity|].
    lia. }
  replace (N + n + h + 2) with (N + (n + h + 2)) by lia. rewrite Nat2Z.inj_add, Z.pow_add_r by lia.
  transitivity (order L ^ Z.of_nat (n + h + 2) * (order L - 1) *
    (order L ^ Z.of_nat N * published_guesses L params is_ hs (nd * List.length votes) N seed hashes (cast client votes) totals D -
     order L ^ Z.of_nat N * published_guesses L params is_ hs (nd * List.length votes') N seed hashes (cast client votes') totals D))%Z; [ring|].
  rewrite (Heq votes (or_introl eq_refl)), (Heq votes' (or_intror eq_refl)), <- fold_plus, <- fold_scale.
  rewrite (fold_ext _ (fun coins => hybrids (fun v before after =>
     ddh_gap L (list_prod (tapes L (nd * (List.length before + List.length after))) (attacker_coins L n (2 * t + k) hashes))
       (election_attacker_by client seed (Ms v) (simulate_dealing L params is_ simulate) all_dealt before after
          (coalition_view_by E L is_ (published_by params is_ hs totals result D coins)))) [] votes votes')).
  2:{ intros coins. apply (dealt_election_secret_by E L Ht seed Hseed dom o0 client nd ok Hext Hbig params Hparams is_ Hnd His Hlen Hdom Hcovd n k h simulate assemble acc Ms); try assumption.
      intros poly pop shares l. apply published_by_reads. }
  rewrite <- hybrids_sum. apply hybrids_ext. intros v b a. symmetry.
  rewrite (gap_prod E L). apply fold_ext. intros coins. reflexivity.
Qed.

End Secret.

End Published.
