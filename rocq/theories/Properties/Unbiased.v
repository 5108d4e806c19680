(** * C74: nobody chooses the key of a distributed key generation

    All participants of a key generation but one are controlled by an attacker, which sees the messages of the honest
    participant first in each phase, and sends arbitrary messages.  The scalars and the opening drawn by the honest
    participant are uniform, and SHA-256 is a random function.  Then the key generation ends with a key in a given set of
    [k] keys with probability at most [k / q + (Q1 * (Q1 + 1) + (Q2 + M) * n) / 2^256]: here [Q1] and [Q2] are numbers of
    hash queries before and after the polynomial of the honest participant is revealed, and [M] is the number of
    polynomials that are sent to it.  Computation of the attacker is not limited, and neither are its queries in the last
    phase.

    (The attacker may prevent completion, depending on the key that would be the outcome; the API has no remedy for this,
    and incomplete executions have no key.  Several honest participants are covered, since the attacker may run them.) *)
From Coq Require Import List NArith ZArith Arith String Bool Lia Strings.Byte Znumtheory.
From Verif.Properties Require Import Keys Uniform Sharing Dkg.
From Verif.Model Require Import Base Group Transcript Keys Encryption LogEquality Possession Sharing Dkg.
From Verif.Spec Require Import Sharing Dkg Rom Forking Uniform Secrecy Unbiased.
From Verif.Proofs Require Import Lists Algebra Rom Forking Uniform Sharing Secrecy Unbiased.
From Verif.Instance Require Import Primality Zq.
Import ListNotations.
Open Scope string_scope.
Open Scope list_scope.
Open Scope nat_scope.

Theorem C74_key_unbiased :
  forall (E : Env) (L : GroupLaws E), ser_total E -> (2 ^ 64 <= order L)%Z ->
  forall params idx, params_ok params -> idx < pa_shares params ->
  forall seed, seeds_bytes seed ->
  forall (A : @dkg_attacker E) Q1 Q2 M, attack_limits A Q1 Q2 M ->
  forall dom o0, NoDup dom -> contains_inputs params idx seed A dom ->
  forall target,
    let hashes := all_hashes digests32 dom o0 in
    (order L * 2 ^ 256 * successes L params idx seed hashes target A <=
     (targets L target * 2 ^ 256 +
      order L * (Z.of_nat Q1 * (Z.of_nat Q1 + 1) + (Z.of_nat Q2 + Z.of_nat M) * Z.of_nat (pa_shares params))) *
     Z.of_nat (List.length (dkg_cases L params hashes)))%Z.
Proof.
  intros E L Ht Hb params idx Hp Hi seed Hs A Q1 Q2 M HA dom o0 Hd Hc target hashes.
  change (2 ^ 256)%Z with (256 ^ 32)%Z. exact (unbiased E L Hb Ht params idx Hp Hi seed Hs A Q1 Q2 M HA dom Hd o0 Hc target).
Qed.
Print Assumptions C74_key_unbiased.

(** ... in particular, no key is likely *)
Theorem C74_key_unpredictable :
  forall (E : Env) (L : GroupLaws E), ser_total E -> (2 ^ 64 <= order L)%Z ->
  forall params idx, params_ok params -> idx < pa_shares params ->
  forall seed, seeds_bytes seed ->
  forall (A : @dkg_attacker E) Q1 Q2 M, attack_limits A Q1 Q2 M ->
  forall dom o0, NoDup dom -> contains_inputs params idx seed A dom ->
  forall K,
    let hashes := all_hashes digests32 dom o0 in
    (order L * 2 ^ 256 * successes L params idx seed hashes (fun key => e_eqb key K) A <=
     (2 ^ 256 + order L * (Z.of_nat Q1 * (Z.of_nat Q1 + 1) + (Z.of_nat Q2 + Z.of_nat M) * Z.of_nat (pa_shares params))) *
     Z.of_nat (List.length (dkg_cases L params hashes)))%Z.
Proof.
  intros E L Ht Hb params idx Hp Hi seed Hs A Q1 Q2 M HA dom o0 Hd Hc K hashes.
  etransitivity; [exact (C74_key_unbiased E L Ht Hb params idx Hp Hi seed Hs A Q1 Q2 M HA dom o0 Hd Hc (fun key => e_eqb key K))|].
  apply Z.mul_le_mono_nonneg_r; [lia|]. apply Z.add_le_mono_r.
  rewrite <- (Z.mul_1_l (2 ^ 256)) at 2. apply Z.mul_le_mono_nonneg_r; [apply Z.pow_nonneg; lia|].
  unfold targets, tally. change 1%Z with (Z.of_nat (List.length [dlog L K])). apply inj_le. apply NoDup_incl_length.
  - apply NoDup_filter. apply (all_nodup E L).
  - intros x Hx. apply filter_In in Hx as [_ Hx]. left. apply (e_eqb_ok E L) in Hx. rewrite <- Hx. apply (dlog_gen L).
Qed.
Print Assumptions C74_key_unpredictable.

(** [digests32] consists of the byte strings of length 32, each once; [all_scalars L] and [tapes] are as in C57-C73 *)
Theorem C74_cases :
  forall (E : Env) (L : GroupLaws E) params dom o0,
    NoDup digests32 /\ (forall b, In b digests32 <-> List.length b = 32) /\
    Z.of_nat (List.length digests32) = (2 ^ 256)%Z /\
    NoDup (tapes L (2 * pa_threshold params)) /\ (forall xs, In xs (tapes L (2 * pa_threshold params)) <-> List.length xs = 2 * pa_threshold params) /\
    Z.of_nat (List.length (dkg_cases L params (all_hashes digests32 dom o0))) =
      (order L ^ Z.of_nat (2 * pa_threshold params) * 2 ^ 256 * (2 ^ 256) ^ Z.of_nat (List.length dom))%Z.
Proof.
  intros E L params dom o0. change (2 ^ 256)%Z with (256 ^ 32)%Z.
  assert (HN : Z.of_nat (List.length digests32) = (256 ^ 32)%Z) by exact (byte_strings_length 32).
  split; [exact (byte_strings_nodup 32)|]. split; [exact (byte_strings_in 32)|]. split; [exact HN|].
  split; [apply (tapes_nodup E L)|]. split; [apply (tapes_in E L)|].
  unfold dkg_cases. generalize (2 * pa_threshold params) as k. intros k. rewrite !prod_length, all_hashes_len, !Nat2Z.inj_mul, HN, (tapes_len E L), !Nat2Z.inj_pow, HN, Z2Nat.id by (pose proof (prime_ge_2 _ (order_prime L)); lia).
  reflexivity.
Qed.
Print Assumptions C74_cases.

(** a finite set of hash inputs exists for each attacker *)
Theorem C74_hash_inputs :
  forall (E : Env) (L : GroupLaws E), ser_total E ->
  forall params idx, params_ok params -> idx < pa_shares params ->
  forall seed, seeds_bytes seed -> forall A : @dkg_attacker E,
  exists dom, NoDup dom /\ contains_inputs params idx seed A dom.
Proof. exact inputs_exist. Qed.
Print Assumptions C74_hash_inputs.

(** ** Example: participant 1 of 3, and an attacker that plays the other two *)

(** an RNG that yields given scalars and bytes *)
Definition BE : Env := {|
  env_group := RE; Rng := list (Scalar RE) * bytes; generate_scalar := fun r => (hd 0%S (fst r), (tl (fst r), snd r));
  fill_bytes := fun _ r => (snd r, r);
  oracle := @oracle RE; sha256 := @sha256 RE; len_estimate := @len_estimate RE; env_build := env_build RE |}.
Definition be_seed (xs : list (Scalar BE)) (b : bytes) : Rng BE := (xs, b).

Lemma be_draws xs b : draws (E:=BE) (List.length xs) (be_seed xs b) = (xs, be_seed [] b).
Proof.
  induction xs as [|x xs IH]; [reflexivity|]. cbn [List.length draws].
  change (generate_scalar (e:=BE) (be_seed (x :: xs) b)) with (x, be_seed xs b). cbv beta iota. rewrite IH. reflexivity.
Qed.
Lemma be_seeds : seeds_bytes (E:=BE) be_seed.
Proof. intros xs b Hb. rewrite be_draws. split; reflexivity. Qed.

Definition puppet_opening (j : nat) : bytes := repeat Byte.x2a (32 + j).
(** the dealer and the opened polynomial of participant [j] *)
Definition puppet (j : nat) : list (Dealer BE) :=
  match Dealer_new (E:=BE) ex_dkg_params (map (fun k => rs (17 * Z.of_nat j + k)) [3; 1; 4; 1]%Z, []) with
  | Ret (d, _) => [d]
  | Panic _ => []
  end.
Definition puppet_info (j : nat) : list (nat * PublicInfo BE) :=
  map (fun d => (j, {| pi_polynomial := fst (Dealer_public_info d); pi_pop := snd (Dealer_public_info d); pi_opening := puppet_opening j |})) (puppet j).
Definition puppet_share (j : nat) : list (nat * SecretKey BE) :=
  flat_map (fun d => match Dealer_secret_share_for_participant d 1 with Ret s => [(j, s)] | Panic _ => [] end) (puppet j).
Fixpoint ask_all {B : Type} (l : list query) (k : list bytes -> strategy bytes B) : strategy bytes B :=
  match l with [] => k [] | x :: l' => Ask x (fun c => ask_all l' (fun cs => k (c :: cs))) end.
Definition puppets : @dkg_attacker BE := fun _ =>
  ask_all (flat_map (fun m => opened (snd m)) (puppet_info 0 ++ puppet_info 2)) (fun cs =>
  Output (combine [0; 2] cs, fun _ => Output (puppet_info 0 ++ puppet_info 2, fun _ => Output (puppet_share 0 ++ puppet_share 2)))).

Lemma ask_all_most {B : Type} l : forall (k : list bytes -> strategy bytes B) n, (forall cs, at_most n (k cs)) -> at_most (List.length l + n) (ask_all l k).
Proof. induction l as [|x l IH]; intros k n H; cbn; [apply H|]. constructor. intros c. apply IH. intros cs. apply H. Qed.
Lemma ask_all_yields {B : Type} l : forall (k : list bytes -> strategy bytes B) a, yields (ask_all l k) a -> exists cs, yields (k cs) a.
Proof.
  induction l as [|x l IH]; intros k a H; cbn in H; [exists []; exact H|].
  inversion H as [|x' k' c a' H' Heq1 Heq2]. subst. apply IH in H' as [cs Hcs]. exists (c :: cs). exact Hcs.
Qed.

(** a hash function, and the same attacker with another polynomial than it has committed to *)
Definition ex_sha : hash bytes := fun t _ => match t with TMsg _ b :: _ => @sha256 RE b | _ => repeat Byte.x00 32 end.
Definition turncoats : @dkg_attacker BE := fun c =>
  ask_all (flat_map (fun m => opened (snd m)) (puppet_info 0 ++ puppet_info 2)) (fun cs =>
  Output (combine [0; 2] cs, fun _ => Output (puppet_info 0 ++ map (fun m => (2, snd m)) (puppet_info 3),
    fun _ => Output (puppet_share 0 ++ map (fun m => (2, snd m)) (puppet_share 3))))).

(** the hypotheses are met, and the key generation may be completed *)
Example C74_example :
  ser_total BE /\ (2 ^ 64 <= order RL)%Z /\ params_ok ex_dkg_params /\ 1 < pa_shares ex_dkg_params /\ seeds_bytes (E:=BE) be_seed /\
  attack_limits puppets 2 0 2 /\ (exists dom, NoDup dom /\ contains_inputs (E:=BE) ex_dkg_params 1 be_seed puppets dom) /\
  (let r := be_seed (map rs [10; 20; 30; 40]%Z) (repeat Byte.x01 32) in
   attains (E:=BE) ex_dkg_params 1 (fun K => e_eqb K (re (10 + (3 + 37)))) puppets ex_sha r = true /\
   attains (E:=BE) ex_dkg_params 1 (fun _ => true) turncoats ex_sha r = false).
Proof.
  assert (Ht : ser_total BE) by exact RE_ser_total.
  assert (Hp : params_ok ex_dkg_params) by (split; [cbn; lia|vm_compute; reflexivity]).
  assert (Hi : 1 < pa_shares ex_dkg_params) by (cbn; lia).
  split; [exact Ht|]. split; [vm_compute; discriminate|]. split; [exact Hp|]. split; [exact Hi|]. split; [exact be_seeds|].
  split; [|split; [exact (C74_hash_inputs BE RL Ht ex_dkg_params 1 Hp Hi be_seed be_seeds puppets)|vm_compute; split; reflexivity]].
  assert (H2 : List.length (flat_map (fun m => opened (snd m)) (puppet_info 0 ++ puppet_info 2)) = 2) by (vm_compute; reflexivity).
  assert (H3 : List.length (puppet_info 0 ++ puppet_info 2) = 2) by (vm_compute; reflexivity).
  intros c. split.
  - change 2 with (2 + 0). rewrite <- H2 at 1. apply ask_all_most. intros cs. constructor.
  - intros coms A2 HA. apply ask_all_yields in HA as [cs HA]. inversion HA; subst. intros info. split; [constructor|].
    intros infos A3 H. inversion H as [? Heq|]. subst. rewrite <- H3. apply le_n.
Qed.

(** ... hence a bound on the probability of each key *)
Example C74_example_bound :
  exists dom, NoDup dom /\
  forall o0 K,
    let hashes := all_hashes digests32 dom o0 in
    (order RL * 2 ^ 256 * successes (E:=BE) RL ex_dkg_params 1 be_seed hashes (fun key => e_eqb key K) puppets <=
     (2 ^ 256 + order RL * 12) * Z.of_nat (List.length (dkg_cases (E:=BE) RL ex_dkg_params hashes)))%Z.
Proof.
  destruct C74_example as (Ht & Hb & Hp & Hi & Hs & HA & (dom & Hd & Hc) & _). exists dom. split; [exact Hd|]. intros o0 K hashes.
  exact (C74_key_unpredictable BE RL Ht Hb ex_dkg_params 1 Hp Hi be_seed Hs puppets 2 0 2 HA dom o0 Hd Hc K).
Qed.
