(** * Proofs for the wire format *)
From Coq Require Import List NArith Arith Bool Ascii String Strings.Byte Lia.
From Verif.Model Require Import Base Group Transcript Keys Encryption LogEquality Possession
  Ring Range Commitment Mul Sharing Dkg Choice Quadratic Serde.
From Verif.Spec Require Import Encryption Serde Wire.
From Verif.Proofs Require Import Lists Algebra Codec Serde.
Import ListNotations.
Open Scope string_scope.
Open Scope list_scope.

(** ** Base64url *)
Lemma app_same : forall (A : Type) (a b c d : list A), a ++ b = c ++ d -> List.length a = List.length c -> a = c /\ b = d.
Proof.
  induction a as [|x a IH]; intros b [|y c] d H Hl; try discriminate Hl; cbn in *; [auto|].
  injection H as <- H. injection Hl as Hl. destruct (IH _ _ _ H Hl) as [-> ->]. auto.
Qed.

Lemma b64_det : forall l s, base64url_of_bits l s -> forall s', base64url_of_bits l s' -> s = s'.
Proof.
  induction 1 as [|l pad Hn Hl Hp|g l s Hg H IH]; intros s' H'.
  - inversion H' as [|l0 p0 Hn0|g0 l0 s0 Hg0 H0 Heq]; subst; [reflexivity|contradiction|].
    destruct g0; [discriminate Hg0|discriminate Heq].
  - inversion H' as [Heq|l0 p0 Hn0 Hl0 Hp0|g0 l0 s0 Hg0 H0 Heq]; subst; [contradiction| |].
    + replace p0 with pad by lia. reflexivity.
    + exfalso. rewrite app_length in Hl. lia.
  - inversion H' as [Heq|l0 p0 Hn0 Hl0 Hp0|g0 l0 s0 Hg0 H0 Heq]; subst.
    + destruct g; [discriminate Hg|discriminate Heq].
    + exfalso. rewrite app_length in Hl0. lia.
    + apply app_same in Heq; [|lia]. destruct Heq as [-> ->]. f_equal. apply IH. exact H0.
Qed.

Lemma b64_char_spec : forall n, (n < 64)%N -> b64_char n = ascii_of_N (b64url_code_point n).
Proof.
  intros n Hn. assert (H : forallb (fun k => Ascii.eqb (b64_char (N.of_nat k)) (ascii_of_N (b64url_code_point (N.of_nat k)))) (seq 0 64) = true)
    by (vm_compute; reflexivity).
  rewrite forallb_forall in H. specialize (H (N.to_nat n)). rewrite N2Nat.id in H. apply Ascii.eqb_eq. apply H. apply in_seq. lia.
Qed.

Definition byte_bits_check (x : byte) : bool :=
  match bits_of_byte x with
  | [a; b; c; d; e; f; g; h] =>
      ((bn x / 4 =? number [a; b; c; d; e; f]) && (bn x mod 4 =? number [g; h]) &&
       ((bn x / 16 =? number [a; b; c; d]) && (bn x mod 16 =? number [e; f; g; h])) &&
       ((bn x / 64 =? number [a; b]) && (bn x mod 64 =? number [c; d; e; f; g; h])))%N%bool
  | _ => false
  end.

Lemma byte_bits : forall x, exists a b c d e f g h, bits_of_byte x = [a; b; c; d; e; f; g; h] /\
  (bn x / 4)%N = number [a; b; c; d; e; f] /\ (bn x mod 4)%N = number [g; h] /\
  (bn x / 16)%N = number [a; b; c; d] /\ (bn x mod 16)%N = number [e; f; g; h] /\
  (bn x / 64)%N = number [a; b] /\ (bn x mod 64)%N = number [c; d; e; f; g; h].
Proof.
  intros x. assert (H : byte_bits_check x = true) by (destruct x; vm_compute; reflexivity).
  unfold byte_bits_check in H. destruct (bits_of_byte x) as [|a [|b [|c [|d [|e [|f [|g [|h [|]]]]]]]]]; try discriminate.
  repeat (apply andb_true_iff in H as [H ?]).
  repeat match goal with H : (_ && _)%bool = true |- _ => apply andb_true_iff in H as [? ?] end.
  repeat match goal with H : (_ =? _)%N = true |- _ => apply N.eqb_eq in H end.
  exists a, b, c, d, e, f, g, h. repeat split; assumption.
Qed.

Lemma number_lt6 : forall a b c d e f, (number [a; b; c; d; e; f] < 64)%N.
Proof. intros [] [] [] [] [] []; vm_compute; reflexivity. Qed.

Lemma b64_group : forall a b c d e f l s n, n = number [a; b; c; d; e; f] -> base64url_of_bits l s ->
  base64url_of_bits (a :: b :: c :: d :: e :: f :: l) (b64_char n :: s).
Proof.
  intros a b c d e f l s n -> H. rewrite (b64_char_spec _ (number_lt6 a b c d e f)).
  exact (B64_group [a; b; c; d; e; f] l s eq_refl H).
Qed.

Lemma number24 : forall a b c d e f, (number [a; b] * 16 + number [c; d; e; f])%N = number [a; b; c; d; e; f].
Proof. intros [] [] [] [] [] []; reflexivity. Qed.
Lemma number42 : forall a b c d e f, (number [a; b; c; d] * 4 + number [e; f])%N = number [a; b; c; d; e; f].
Proof. intros [] [] [] [] [] []; reflexivity. Qed.
Lemma number2 : forall a b, (number [a; b] * 16)%N = number ([a; b] ++ repeat false 4).
Proof. intros [] []; reflexivity. Qed.
Lemma number4 : forall a b c d, (number [a; b; c; d] * 4)%N = number ([a; b; c; d] ++ repeat false 2).
Proof. intros [] [] [] []; reflexivity. Qed.

Lemma base64_encode_spec : forall l, base64url l (base64_encode l).
Proof.
  unfold base64url. apply (list_ind3 byte).
  - constructor.
  - intros x. destruct (byte_bits x) as (a & b & c & d & e & f & g & h & Hb & H1 & H2 & _).
    unfold bits. cbn [flat_map base64_encode app]. rewrite Hb. cbn [app]. apply b64_group; [exact H1|].
    rewrite H2, number2, b64_char_spec by (cbn [app repeat]; apply number_lt6).
    apply (B64_last [g; h] 4); cbn; [discriminate|lia|reflexivity].
  - intros x y. destruct (byte_bits x) as (a & b & c & d & e & f & g & h & Hb & H1 & H2 & _).
    destruct (byte_bits y) as (a' & b' & c' & d' & e' & f' & g' & h' & Hb' & _ & _ & H3 & H4 & _).
    unfold bits. cbn [flat_map base64_encode app]. rewrite Hb, Hb'. cbn [app]. apply b64_group; [exact H1|].
    apply b64_group; [rewrite H2, H3; apply number24|].
    rewrite H4, number4, b64_char_spec by (cbn [app repeat]; apply number_lt6).
    apply (B64_last [e'; f'; g'; h'] 2); cbn; [discriminate|lia|reflexivity].
  - intros x y z l IH. destruct (byte_bits x) as (a & b & c & d & e & f & g & h & Hb & H1 & H2 & _).
    destruct (byte_bits y) as (a' & b' & c' & d' & e' & f' & g' & h' & Hb' & _ & _ & H3 & H4 & _).
    destruct (byte_bits z) as (a2 & b2 & c2 & d2 & e2 & f2 & g2 & h2 & Hb2 & _ & _ & _ & _ & H5 & H6).
    unfold bits in *. cbn [flat_map base64_encode]. rewrite Hb, Hb', Hb2. cbn [app]. apply b64_group; [exact H1|].
    apply b64_group; [rewrite H2, H3; apply number24|].
    apply b64_group; [rewrite H4, H5; apply number42|].
    apply b64_group; [exact H6|]. exact IH.
Qed.

Lemma base64url_iff : forall b s, base64url b s <-> s = base64_encode b.
Proof.
  intros b s. split.
  - intros H. exact (b64_det _ _ H _ (base64_encode_spec b)).
  - intros ->. apply base64_encode_spec.
Qed.

(** ** Byte strings *)
Lemma serialize_bytes_iff : forall h b v, Ret (serialize_bytes h b) = Ret v <-> writes_bytes h b v.
Proof.
  intros [] b v; cbn [serialize_bytes writes_bytes]; unfold writes_bytes; split.
  - intros [= <-]. exists (base64_encode b). split; [apply base64_encode_spec|reflexivity].
  - intros (s & Hs & ->). apply base64url_iff in Hs. rewrite Hs. reflexivity.
  - intros [= <-]. reflexivity.
  - intros ->. reflexivity.
Qed.

Lemma deserialize_bytes_iff : forall h b v, deserialize_bytes h v = Some b <-> accepts_bytes h b v.
Proof.
  intros h b v. unfold accepts_bytes. split.
  - intros H. apply deserialize_bytes_inv in H. destruct H as [->|[-> ->]]; [auto|right].
    split; [reflexivity|]. exists (base64_encode b). split; [apply base64_encode_spec|reflexivity].
  - intros [->|[-> (s & Hs & ->)]]; [reflexivity|]. apply base64url_iff in Hs. subst s. cbn. apply base64_round_trip.
Qed.

(** ** Structs *)
Lemma field_entries_app : forall n l1 l2, field_entries n (l1 ++ l2) = field_entries n l1 ++ field_entries n l2.
Proof. intros n l1 l2. unfold field_entries. rewrite filter_app, map_app. reflexivity. Qed.

Lemma field_entries_nil : forall n l, field_entries n l = [] <-> ~ In n (map fst l).
Proof.
  intros n l. unfold field_entries. induction l as [|[m w] l IH]; cbn [filter map fst In]; [tauto|].
  destruct (String.eqb_spec m n) as [->|Hn]; cbn [map]; [split; [discriminate|tauto]|]. rewrite IH. tauto.
Qed.

Lemma the_entry_iff : forall l n w, field_entries n l = [w] <-> the_entry l n w.
Proof.
  intros l n w. split.
  - induction l as [|[m u] l IH]; [discriminate|]. unfold field_entries. cbn [filter fst].
    destruct (String.eqb_spec m n) as [->|Hn]; cbn [map snd].
    + intros [= -> H]. exists [], l. split; [reflexivity|]. split; [intros []|]. apply field_entries_nil. exact H.
    + intros H. destruct (IH H) as (l1 & l2 & -> & H1 & H2). exists ((m, u) :: l1), l2.
      split; [reflexivity|]. split; [|exact H2]. cbn [map fst In]. intros [<-|Hi]; [apply Hn; reflexivity|exact (H1 Hi)].
  - intros (l1 & l2 & -> & H1 & H2). rewrite field_entries_app. apply field_entries_nil in H1, H2. rewrite H1. cbn [app].
    unfold field_entries in *. cbn [filter fst]. rewrite String.eqb_refl. cbn [map snd]. rewrite H2. reflexivity.
Qed.

Lemma struct_map_fields_iff : forall names l vs,
  struct_map_fields names l = Some vs <-> Forall2 (the_entry l) names vs.
Proof.
  induction names as [|n names IH]; intros l vs; cbn [struct_map_fields].
  - split; [intros [= <-]; constructor|]. intros H. inversion H. reflexivity.
  - destruct (field_entries n l) as [|w [|w' ws]] eqn:Hf.
    + split; [discriminate|]. intros H. inversion H as [|? ? ? ? Hw]; subst. apply the_entry_iff in Hw. congruence.
    + destruct (struct_map_fields names l) as [vs'|] eqn:Hs.
      * split.
        { intros [= <-]. constructor; [apply the_entry_iff; exact Hf|]. apply IH. exact Hs. }
        { intros H. inversion H as [|? w0 ? vs0 Hw Hr]; subst. apply the_entry_iff in Hw. apply IH in Hr. congruence. }
      * split; [discriminate|]. intros H. inversion H as [|? w0 ? vs0 Hw Hr]; subst. apply IH in Hr. congruence.
    + split; [discriminate|]. intros H. inversion H as [|? ? ? ? Hw]; subst. apply the_entry_iff in Hw. congruence.
Qed.

Lemma accepts_map_iff : forall fields l,
  accepts_map fields (SMap l) <->
  exists vs, Forall2 (the_entry l) (map fst fields) vs /\ Forall2 (fun f w => snd f w) fields vs.
Proof.
  intros fields l. unfold accepts_map. split.
  - intros (l' & [= <-] & H). induction H as [|f fields (w & Hw & Hd) H (vs & H1 & H2)]; [exists []; split; constructor|].
    exists (w :: vs). cbn [map]. split; constructor; assumption.
  - intros (vs & H1 & H2). exists l. split; [reflexivity|]. revert H1. induction H2 as [|f w fields vs Hd H IH]; intros H1; constructor.
    + inversion H1; subst. eauto.
    + inversion H1; subst. apply IH. assumption.
Qed.

Lemma forall2_same_len : forall (A B : Type) (R : A -> B -> Prop) l l', Forall2 R l l' -> List.length l = List.length l'.
Proof. induction 1; cbn; congruence. Qed.

Lemma accepts_struct_iff : forall fields v,
  accepts_struct fields v <->
  exists vs, struct_fields (map fst fields) v = Some vs /\ Forall2 (fun f w => snd f w) fields vs.
Proof.
  intros fields v. unfold accepts_struct. split.
  - intros [(l & -> & H)|(vs & -> & H)].
    + assert (Ha : accepts_map fields (SMap l)) by (exists l; auto). apply accepts_map_iff in Ha.
      destruct Ha as (vs & H1 & H2). exists vs. cbn [struct_fields]. split; [apply struct_map_fields_iff; exact H1|exact H2].
    + exists vs. cbn [struct_fields]. rewrite (proj2 (Nat.eqb_eq _ _)); [auto|].
      rewrite map_length. symmetry. exact (forall2_same_len _ _ _ _ _ H).
  - intros (vs & Hs & H). destruct v; try discriminate Hs; cbn [struct_fields] in Hs.
    + right. destruct (Nat.eqb _ _); [|discriminate]. injection Hs as <-. eauto.
    + left. apply accepts_map_iff. exists vs. split; [apply struct_map_fields_iff; exact Hs|exact H].
Qed.

Ltac inv_forall2 :=
  repeat match goal with
  | H : Forall2 _ [] _ |- _ => inversion H; clear H; subst
  | H : Forall2 _ (_ :: _) _ |- _ => inversion H; clear H; subst
  end; cbn [snd] in *.

Lemma wstruct1 : forall (n1 : string) (o1 : outcome sval) (d1 : doc),
  (forall w, o1 = Ret w <-> d1 w) ->
  forall v, (w1 <- o1 ;; Ret (SMap [(n1, w1)])) = Ret v <->
    writes_struct [(n1, d1)] v.
Proof.
  intros n1 o1 d1 H1 v. split.
  - intros H. destruct o1 as [w1|]; [|discriminate H]; cbn [bind] in H. injection H as <-.
    exists [w1]. split; [|reflexivity].
    constructor; [apply H1; reflexivity|]. constructor.
  - intros (vs & Hf & ->). inv_forall2.
    repeat match goal with
    | H : d1 ?w |- _ => apply H1 in H; rewrite H; clear H
    end. reflexivity.
Qed.

Lemma rstruct1 : forall (R A1 : Type) (n1 : string)
  (r1 : sval -> outcome (option A1)) (D1 : A1 -> doc) (p1 : R -> A1)
  (mk : A1 -> R),
  (forall x, mk (p1 x) = x) ->
  (forall x1, p1 (mk x1) = x1) ->
  (forall w y, r1 w = Ret (Some y) <-> D1 y w) ->
  forall v x, match struct_fields [n1] v with
    | Some [b1] => a1 <-? r1 b1 ;; Ret (Some (mk a1))
    | _ => Ret None end = Ret (Some x) <->
    accepts_struct [(n1, D1 (p1 x))] v.
Proof.
  intros R A1 n1 r1 D1 p1 mk Hmk Hp1 H1 v x.
  rewrite accepts_struct_iff. cbn [map fst]. split.
  - intros H. destruct (struct_fields _ v) as [fs|]; [|discriminate H].
    destruct fs as [|? fs]; [discriminate H|]. destruct fs; [|discriminate H].
    repeat inv_obind H. injection H as <-. eexists. split; [reflexivity|]. rewrite Hp1.
    constructor; [apply H1; assumption|]. constructor.
  - intros (vs & -> & Hf). inv_forall2.
    match goal with H : D1 (p1 x) ?w |- _ => apply H1 in H; rewrite H, obind_some; clear H end.
    rewrite Hmk. reflexivity.
Qed.

Lemma wstruct2 : forall (n1 n2 : string) (o1 o2 : outcome sval) (d1 d2 : doc),
  (forall w, o1 = Ret w <-> d1 w) ->
  (forall w, o2 = Ret w <-> d2 w) ->
  forall v, (w1 <- o1 ;; w2 <- o2 ;; Ret (SMap [(n1, w1); (n2, w2)])) = Ret v <->
    writes_struct [(n1, d1); (n2, d2)] v.
Proof.
  intros n1 n2 o1 o2 d1 d2 H1 H2 v. split.
  - intros H. destruct o1 as [w1|]; [|discriminate H]; cbn [bind] in H. destruct o2 as [w2|]; [|discriminate H]; cbn [bind] in H. injection H as <-.
    exists [w1; w2]. split; [|reflexivity].
    constructor; [apply H1; reflexivity|]. constructor; [apply H2; reflexivity|]. constructor.
  - intros (vs & Hf & ->). inv_forall2.
    repeat match goal with
    | H : d1 ?w |- _ => apply H1 in H; rewrite H; clear H
    | H : d2 ?w |- _ => apply H2 in H; rewrite H; clear H
    end. reflexivity.
Qed.

Lemma rstruct2 : forall (R A1 A2 : Type) (n1 n2 : string)
  (r1 : sval -> outcome (option A1)) (D1 : A1 -> doc) (p1 : R -> A1)
  (r2 : sval -> outcome (option A2)) (D2 : A2 -> doc) (p2 : R -> A2)
  (mk : A1 -> A2 -> R),
  (forall x, mk (p1 x) (p2 x) = x) ->
  (forall x1 x2, p1 (mk x1 x2) = x1) ->
  (forall x1 x2, p2 (mk x1 x2) = x2) ->
  (forall w y, r1 w = Ret (Some y) <-> D1 y w) ->
  (forall w y, r2 w = Ret (Some y) <-> D2 y w) ->
  forall v x, match struct_fields [n1; n2] v with
    | Some [b1; b2] => a1 <-? r1 b1 ;; a2 <-? r2 b2 ;; Ret (Some (mk a1 a2))
    | _ => Ret None end = Ret (Some x) <->
    accepts_struct [(n1, D1 (p1 x)); (n2, D2 (p2 x))] v.
Proof.
  intros R A1 A2 n1 n2 r1 D1 p1 r2 D2 p2 mk Hmk Hp1 Hp2 H1 H2 v x.
  rewrite accepts_struct_iff. cbn [map fst]. split.
  - intros H. destruct (struct_fields _ v) as [fs|]; [|discriminate H].
    destruct fs as [|? fs]; [discriminate H|]. destruct fs as [|? fs]; [discriminate H|]. destruct fs; [|discriminate H].
    repeat inv_obind H. injection H as <-. eexists. split; [reflexivity|]. rewrite Hp1, Hp2.
    constructor; [apply H1; assumption|]. constructor; [apply H2; assumption|]. constructor.
  - intros (vs & -> & Hf). inv_forall2.
    match goal with H : D1 (p1 x) ?w |- _ => apply H1 in H; rewrite H, obind_some; clear H end. match goal with H : D2 (p2 x) ?w |- _ => apply H2 in H; rewrite H, obind_some; clear H end.
    rewrite Hmk. reflexivity.
Qed.

Lemma wstruct3 : forall (n1 n2 n3 : string) (o1 o2 o3 : outcome sval) (d1 d2 d3 : doc),
  (forall w, o1 = Ret w <-> d1 w) ->
  (forall w, o2 = Ret w <-> d2 w) ->
  (forall w, o3 = Ret w <-> d3 w) ->
  forall v, (w1 <- o1 ;; w2 <- o2 ;; w3 <- o3 ;; Ret (SMap [(n1, w1); (n2, w2); (n3, w3)])) = Ret v <->
    writes_struct [(n1, d1); (n2, d2); (n3, d3)] v.
Proof.
  intros n1 n2 n3 o1 o2 o3 d1 d2 d3 H1 H2 H3 v. split.
  - intros H. destruct o1 as [w1|]; [|discriminate H]; cbn [bind] in H. destruct o2 as [w2|]; [|discriminate H]; cbn [bind] in H. destruct o3 as [w3|]; [|discriminate H]; cbn [bind] in H. injection H as <-.
    exists [w1; w2; w3]. split; [|reflexivity].
    constructor; [apply H1; reflexivity|]. constructor; [apply H2; reflexivity|]. constructor; [apply H3; reflexivity|]. constructor.
  - intros (vs & Hf & ->). inv_forall2.
    repeat match goal with
    | H : d1 ?w |- _ => apply H1 in H; rewrite H; clear H
    | H : d2 ?w |- _ => apply H2 in H; rewrite H; clear H
    | H : d3 ?w |- _ => apply H3 in H; rewrite H; clear H
    end. reflexivity.
Qed.

Lemma rstruct3 : forall (R A1 A2 A3 : Type) (n1 n2 n3 : string)
  (r1 : sval -> outcome (option A1)) (D1 : A1 -> doc) (p1 : R -> A1)
  (r2 : sval -> outcome (option A2)) (D2 : A2 -> doc) (p2 : R -> A2)
  (r3 : sval -> outcome (option A3)) (D3 : A3 -> doc) (p3 : R -> A3)
  (mk : A1 -> A2 -> A3 -> R),
  (forall x, mk (p1 x) (p2 x) (p3 x) = x) ->
  (forall x1 x2 x3, p1 (mk x1 x2 x3) = x1) ->
  (forall x1 x2 x3, p2 (mk x1 x2 x3) = x2) ->
  (forall x1 x2 x3, p3 (mk x1 x2 x3) = x3) ->
  (forall w y, r1 w = Ret (Some y) <-> D1 y w) ->
  (forall w y, r2 w = Ret (Some y) <-> D2 y w) ->
  (forall w y, r3 w = Ret (Some y) <-> D3 y w) ->
  forall v x, match struct_fields [n1; n2; n3] v with
    | Some [b1; b2; b3] => a1 <-? r1 b1 ;; a2 <-? r2 b2 ;; a3 <-? r3 b3 ;; Ret (Some (mk a1 a2 a3))
    | _ => Ret None end = Ret (Some x) <->
    accepts_struct [(n1, D1 (p1 x)); (n2, D2 (p2 x)); (n3, D3 (p3 x))] v.
Proof.
  intros R A1 A2 A3 n1 n2 n3 r1 D1 p1 r2 D2 p2 r3 D3 p3 mk Hmk Hp1 Hp2 Hp3 H1 H2 H3 v x.
  rewrite accepts_struct_iff. cbn [map fst]. split.
  - intros H. destruct (struct_fields _ v) as [fs|]; [|discriminate H].
    destruct fs as [|? fs]; [discriminate H|]. destruct fs as [|? fs]; [discriminate H|]. destruct fs as [|? fs]; [discriminate H|]. destruct fs; [|discriminate H].
    repeat inv_obind H. injection H as <-. eexists. split; [reflexivity|]. rewrite Hp1, Hp2, Hp3.
    constructor; [apply H1; assumption|]. constructor; [apply H2; assumption|]. constructor; [apply H3; assumption|]. constructor.
  - intros (vs & -> & Hf). inv_forall2.
    match goal with H : D1 (p1 x) ?w |- _ => apply H1 in H; rewrite H, obind_some; clear H end. match goal with H : D2 (p2 x) ?w |- _ => apply H2 in H; rewrite H, obind_some; clear H end. match goal with H : D3 (p3 x) ?w |- _ => apply H3 in H; rewrite H, obind_some; clear H end.
    rewrite Hmk. reflexivity.
Qed.

Lemma wstruct4 : forall (n1 n2 n3 n4 : string) (o1 o2 o3 o4 : outcome sval) (d1 d2 d3 d4 : doc),
  (forall w, o1 = Ret w <-> d1 w) ->
  (forall w, o2 = Ret w <-> d2 w) ->
  (forall w, o3 = Ret w <-> d3 w) ->
  (forall w, o4 = Ret w <-> d4 w) ->
  forall v, (w1 <- o1 ;; w2 <- o2 ;; w3 <- o3 ;; w4 <- o4 ;; Ret (SMap [(n1, w1); (n2, w2); (n3, w3); (n4, w4)])) = Ret v <->
    writes_struct [(n1, d1); (n2, d2); (n3, d3); (n4, d4)] v.
Proof.
  intros n1 n2 n3 n4 o1 o2 o3 o4 d1 d2 d3 d4 H1 H2 H3 H4 v. split.
  - intros H. destruct o1 as [w1|]; [|discriminate H]; cbn [bind] in H. destruct o2 as [w2|]; [|discriminate H]; cbn [bind] in H. destruct o3 as [w3|]; [|discriminate H]; cbn [bind] in H. destruct o4 as [w4|]; [|discriminate H]; cbn [bind] in H. injection H as <-.
    exists [w1; w2; w3; w4]. split; [|reflexivity].
    constructor; [apply H1; reflexivity|]. constructor; [apply H2; reflexivity|]. constructor; [apply H3; reflexivity|]. constructor; [apply H4; reflexivity|]. constructor.
  - intros (vs & Hf & ->). inv_forall2.
    repeat match goal with
    | H : d1 ?w |- _ => apply H1 in H; rewrite H; clear H
    | H : d2 ?w |- _ => apply H2 in H; rewrite H; clear H
    | H : d3 ?w |- _ => apply H3 in H; rewrite H; clear H
    | H : d4 ?w |- _ => apply H4 in H; rewrite H; clear H
    end. reflexivity.
Qed.

Lemma rstruct4 : forall (R A1 A2 A3 A4 : Type) (n1 n2 n3 n4 : string)
  (r1 : sval -> outcome (option A1)) (D1 : A1 -> doc) (p1 : R -> A1)
  (r2 : sval -> outcome (option A2)) (D2 : A2 -> doc) (p2 : R -> A2)
  (r3 : sval -> outcome (option A3)) (D3 : A3 -> doc) (p3 : R -> A3)
  (r4 : sval -> outcome (option A4)) (D4 : A4 -> doc) (p4 : R -> A4)
  (mk : A1 -> A2 -> A3 -> A4 -> R),
  (forall x, mk (p1 x) (p2 x) (p3 x) (p4 x) = x) ->
  (forall x1 x2 x3 x4, p1 (mk x1 x2 x3 x4) = x1) ->
  (forall x1 x2 x3 x4, p2 (mk x1 x2 x3 x4) = x2) ->
  (forall x1 x2 x3 x4, p3 (mk x1 x2 x3 x4) = x3) ->
  (forall x1 x2 x3 x4, p4 (mk x1 x2 x3 x4) = x4) ->
  (forall w y, r1 w = Ret (Some y) <-> D1 y w) ->
  (forall w y, r2 w = Ret (Some y) <-> D2 y w) ->
  (forall w y, r3 w = Ret (Some y) <-> D3 y w) ->
  (forall w y, r4 w = Ret (Some y) <-> D4 y w) ->
  forall v x, match struct_fields [n1; n2; n3; n4] v with
    | Some [b1; b2; b3; b4] => a1 <-? r1 b1 ;; a2 <-? r2 b2 ;; a3 <-? r3 b3 ;; a4 <-? r4 b4 ;; Ret (Some (mk a1 a2 a3 a4))
    | _ => Ret None end = Ret (Some x) <->
    accepts_struct [(n1, D1 (p1 x)); (n2, D2 (p2 x)); (n3, D3 (p3 x)); (n4, D4 (p4 x))] v.
Proof.
  intros R A1 A2 A3 A4 n1 n2 n3 n4 r1 D1 p1 r2 D2 p2 r3 D3 p3 r4 D4 p4 mk Hmk Hp1 Hp2 Hp3 Hp4 H1 H2 H3 H4 v x.
  rewrite accepts_struct_iff. cbn [map fst]. split.
  - intros H. destruct (struct_fields _ v) as [fs|]; [|discriminate H].
    destruct fs as [|? fs]; [discriminate H|]. destruct fs as [|? fs]; [discriminate H|]. destruct fs as [|? fs]; [discriminate H|]. destruct fs as [|? fs]; [discriminate H|]. destruct fs; [|discriminate H].
    repeat inv_obind H. injection H as <-. eexists. split; [reflexivity|]. rewrite Hp1, Hp2, Hp3, Hp4.
    constructor; [apply H1; assumption|]. constructor; [apply H2; assumption|]. constructor; [apply H3; assumption|]. constructor; [apply H4; assumption|]. constructor.
  - intros (vs & -> & Hf). inv_forall2.
    match goal with H : D1 (p1 x) ?w |- _ => apply H1 in H; rewrite H, obind_some; clear H end. match goal with H : D2 (p2 x) ?w |- _ => apply H2 in H; rewrite H, obind_some; clear H end. match goal with H : D3 (p3 x) ?w |- _ => apply H3 in H; rewrite H, obind_some; clear H end. match goal with H : D4 (p4 x) ?w |- _ => apply H4 in H; rewrite H, obind_some; clear H end.
    rewrite Hmk. reflexivity.
Qed.

Lemma wstruct5 : forall (n1 n2 n3 n4 n5 : string) (o1 o2 o3 o4 o5 : outcome sval) (d1 d2 d3 d4 d5 : doc),
  (forall w, o1 = Ret w <-> d1 w) ->
  (forall w, o2 = Ret w <-> d2 w) ->
  (forall w, o3 = Ret w <-> d3 w) ->
  (forall w, o4 = Ret w <-> d4 w) ->
  (forall w, o5 = Ret w <-> d5 w) ->
  forall v, (w1 <- o1 ;; w2 <- o2 ;; w3 <- o3 ;; w4 <- o4 ;; w5 <- o5 ;; Ret (SMap [(n1, w1); (n2, w2); (n3, w3); (n4, w4); (n5, w5)])) = Ret v <->
    writes_struct [(n1, d1); (n2, d2); (n3, d3); (n4, d4); (n5, d5)] v.
Proof.
  intros n1 n2 n3 n4 n5 o1 o2 o3 o4 o5 d1 d2 d3 d4 d5 H1 H2 H3 H4 H5 v. split.
  - intros H. destruct o1 as [w1|]; [|discriminate H]; cbn [bind] in H. destruct o2 as [w2|]; [|discriminate H]; cbn [bind] in H. destruct o3 as [w3|]; [|discriminate H]; cbn [bind] in H. destruct o4 as [w4|]; [|discriminate H]; cbn [bind] in H. destruct o5 as [w5|]; [|discriminate H]; cbn [bind] in H. injection H as <-.
    exists [w1; w2; w3; w4; w5]. split; [|reflexivity].
    constructor; [apply H1; reflexivity|]. constructor; [apply H2; reflexivity|]. constructor; [apply H3; reflexivity|]. constructor; [apply H4; reflexivity|]. constructor; [apply H5; reflexivity|]. constructor.
  - intros (vs & Hf & ->). inv_forall2.
    repeat match goal with
    | H : d1 ?w |- _ => apply H1 in H; rewrite H; clear H
    | H : d2 ?w |- _ => apply H2 in H; rewrite H; clear H
    | H : d3 ?w |- _ => apply H3 in H; rewrite H; clear H
    | H : d4 ?w |- _ => apply H4 in H; rewrite H; clear H
    | H : d5 ?w |- _ => apply H5 in H; rewrite H; clear H
    end. reflexivity.
Qed.

Lemma rstruct5 : forall (R A1 A2 A3 A4 A5 : Type) (n1 n2 n3 n4 n5 : string)
  (r1 : sval -> outcome (option A1)) (D1 : A1 -> doc) (p1 : R -> A1)
  (r2 : sval -> outcome (option A2)) (D2 : A2 -> doc) (p2 : R -> A2)
  (r3 : sval -> outcome (option A3)) (D3 : A3 -> doc) (p3 : R -> A3)
  (r4 : sval -> outcome (option A4)) (D4 : A4 -> doc) (p4 : R -> A4)
  (r5 : sval -> outcome (option A5)) (D5 : A5 -> doc) (p5 : R -> A5)
  (mk : A1 -> A2 -> A3 -> A4 -> A5 -> R),
  (forall x, mk (p1 x) (p2 x) (p3 x) (p4 x) (p5 x) = x) ->
  (forall x1 x2 x3 x4 x5, p1 (mk x1 x2 x3 x4 x5) = x1) ->
  (forall x1 x2 x3 x4 x5, p2 (mk x1 x2 x3 x4 x5) = x2) ->
  (forall x1 x2 x3 x4 x5, p3 (mk x1 x2 x3 x4 x5) = x3) ->
  (forall x1 x2 x3 x4 x5, p4 (mk x1 x2 x3 x4 x5) = x4) ->
  (forall x1 x2 x3 x4 x5, p5 (mk x1 x2 x3 x4 x5) = x5) ->
  (forall w y, r1 w = Ret (Some y) <-> D1 y w) ->
  (forall w y, r2 w = Ret (Some y) <-> D2 y w) ->
  (forall w y, r3 w = Ret (Some y) <-> D3 y w) ->
  (forall w y, r4 w = Ret (Some y) <-> D4 y w) ->
  (forall w y, r5 w = Ret (Some y) <-> D5 y w) ->
  forall v x, match struct_fields [n1; n2; n3; n4; n5] v with
    | Some [b1; b2; b3; b4; b5] => a1 <-? r1 b1 ;; a2 <-? r2 b2 ;; a3 <-? r3 b3 ;; a4 <-? r4 b4 ;; a5 <-? r5 b5 ;; Ret (Some (mk a1 a2 a3 a4 a5))
    | _ => Ret None end = Ret (Some x) <->
    accepts_struct [(n1, D1 (p1 x)); (n2, D2 (p2 x)); (n3, D3 (p3 x)); (n4, D4 (p4 x)); (n5, D5 (p5 x))] v.
Proof.
  intros R A1 A2 A3 A4 A5 n1 n2 n3 n4 n5 r1 D1 p1 r2 D2 p2 r3 D3 p3 r4 D4 p4 r5 D5 p5 mk Hmk Hp1 Hp2 Hp3 Hp4 Hp5 H1 H2 H3 H4 H5 v x.
  rewrite accepts_struct_iff. cbn [map fst]. split.
  - intros H. destruct (struct_fields _ v) as [fs|]; [|discriminate H].
    destruct fs as [|? fs]; [discriminate H|]. destruct fs as [|? fs]; [discriminate H|]. destruct fs as [|? fs]; [discriminate H|]. destruct fs as [|? fs]; [discriminate H|]. destruct fs as [|? fs]; [discriminate H|]. destruct fs; [|discriminate H].
    repeat inv_obind H. injection H as <-. eexists. split; [reflexivity|]. rewrite Hp1, Hp2, Hp3, Hp4, Hp5.
    constructor; [apply H1; assumption|]. constructor; [apply H2; assumption|]. constructor; [apply H3; assumption|]. constructor; [apply H4; assumption|]. constructor; [apply H5; assumption|]. constructor.
  - intros (vs & -> & Hf). inv_forall2.
    match goal with H : D1 (p1 x) ?w |- _ => apply H1 in H; rewrite H, obind_some; clear H end. match goal with H : D2 (p2 x) ?w |- _ => apply H2 in H; rewrite H, obind_some; clear H end. match goal with H : D3 (p3 x) ?w |- _ => apply H3 in H; rewrite H, obind_some; clear H end. match goal with H : D4 (p4 x) ?w |- _ => apply H4 in H; rewrite H, obind_some; clear H end. match goal with H : D5 (p5 x) ?w |- _ => apply H5 in H; rewrite H, obind_some; clear H end.
    rewrite Hmk. reflexivity.
Qed.

Lemma wstruct6 : forall (n1 n2 n3 n4 n5 n6 : string) (o1 o2 o3 o4 o5 o6 : outcome sval) (d1 d2 d3 d4 d5 d6 : doc),
  (forall w, o1 = Ret w <-> d1 w) ->
  (forall w, o2 = Ret w <-> d2 w) ->
  (forall w, o3 = Ret w <-> d3 w) ->
  (forall w, o4 = Ret w <-> d4 w) ->
  (forall w, o5 = Ret w <-> d5 w) ->
  (forall w, o6 = Ret w <-> d6 w) ->
  forall v, (w1 <- o1 ;; w2 <- o2 ;; w3 <- o3 ;; w4 <- o4 ;; w5 <- o5 ;; w6 <- o6 ;; Ret (SMap [(n1, w1); (n2, w2); (n3, w3); (n4, w4); (n5, w5); (n6, w6)])) = Ret v <->
    writes_struct [(n1, d1); (n2, d2); (n3, d3); (n4, d4); (n5, d5); (n6, d6)] v.
Proof.
  intros n1 n2 n3 n4 n5 n6 o1 o2 o3 o4 o5 o6 d1 d2 d3 d4 d5 d6 H1 H2 H3 H4 H5 H6 v. split.
  - intros H. destruct o1 as [w1|]; [|discriminate H]; cbn [bind] in H. destruct o2 as [w2|]; [|discriminate H]; cbn [bind] in H. destruct o3 as [w3|]; [|discriminate H]; cbn [bind] in H. destruct o4 as [w4|]; [|discriminate H]; cbn [bind] in H. destruct o5 as [w5|]; [|discriminate H]; cbn [bind] in H. destruct o6 as [w6|]; [|discriminate H]; cbn [bind] in H. injection H as <-.
    exists [w1; w2; w3; w4; w5; w6]. split; [|reflexivity].
    constructor; [apply H1; reflexivity|]. constructor; [apply H2; reflexivity|]. constructor; [apply H3; reflexivity|]. constructor; [apply H4; reflexivity|]. constructor; [apply H5; reflexivity|]. constructor; [apply H6; reflexivity|]. constructor.
  - intros (vs & Hf & ->). inv_forall2.
    repeat match goal with
    | H : d1 ?w |- _ => apply H1 in H; rewrite H; clear H
    | H : d2 ?w |- _ => apply H2 in H; rewrite H; clear H
    | H : d3 ?w |- _ => apply H3 in H; rewrite H; clear H
    | H : d4 ?w |- _ => apply H4 in H; rewrite H; clear H
    | H : d5 ?w |- _ => apply H5 in H; rewrite H; clear H
    | H : d6 ?w |- _ => apply H6 in H; rewrite H; clear H
    end. reflexivity.
Qed.

Lemma rstruct6 : forall (R A1 A2 A3 A4 A5 A6 : Type) (n1 n2 n3 n4 n5 n6 : string)
  (r1 : sval -> outcome (option A1)) (D1 : A1 -> doc) (p1 : R -> A1)
  (r2 : sval -> outcome (option A2)) (D2 : A2 -> doc) (p2 : R -> A2)
  (r3 : sval -> outcome (option A3)) (D3 : A3 -> doc) (p3 : R -> A3)
  (r4 : sval -> outcome (option A4)) (D4 : A4 -> doc) (p4 : R -> A4)
  (r5 : sval -> outcome (option A5)) (D5 : A5 -> doc) (p5 : R -> A5)
  (r6 : sval -> outcome (option A6)) (D6 : A6 -> doc) (p6 : R -> A6)
  (mk : A1 -> A2 -> A3 -> A4 -> A5 -> A6 -> R),
  (forall x, mk (p1 x) (p2 x) (p3 x) (p4 x) (p5 x) (p6 x) = x) ->
  (forall x1 x2 x3 x4 x5 x6, p1 (mk x1 x2 x3 x4 x5 x6) = x1) ->
  (forall x1 x2 x3 x4 x5 x6, p2 (mk x1 x2 x3 x4 x5 x6) = x2) ->
  (forall x1 x2 x3 x4 x5 x6, p3 (mk x1 x2 x3 x4 x5 x6) = x3) ->
  (forall x1 x2 x3 x4 x5 x6, p4 (mk x1 x2 x3 x4 x5 x6) = x4) ->
  (forall x1 x2 x3 x4 x5 x6, p5 (mk x1 x2 x3 x4 x5 x6) = x5) ->
  (forall x1 x2 x3 x4 x5 x6, p6 (mk x1 x2 x3 x4 x5 x6) = x6) ->
  (forall w y, r1 w = Ret (Some y) <-> D1 y w) ->
  (forall w y, r2 w = Ret (Some y) <-> D2 y w) ->
  (forall w y, r3 w = Ret (Some y) <-> D3 y w) ->
  (forall w y, r4 w = Ret (Some y) <-> D4 y w) ->
  (forall w y, r5 w = Ret (Some y) <-> D5 y w) ->
  (forall w y, r6 w = Ret (Some y) <-> D6 y w) ->
  forall v x, match struct_fields [n1; n2; n3; n4; n5; n6] v with
    | Some [b1; b2; b3; b4; b5; b6] => a1 <-? r1 b1 ;; a2 <-? r2 b2 ;; a3 <-? r3 b3 ;; a4 <-? r4 b4 ;; a5 <-? r5 b5 ;; a6 <-? r6 b6 ;; Ret (Some (mk a1 a2 a3 a4 a5 a6))
    | _ => Ret None end = Ret (Some x) <->
    accepts_struct [(n1, D1 (p1 x)); (n2, D2 (p2 x)); (n3, D3 (p3 x)); (n4, D4 (p4 x)); (n5, D5 (p5 x)); (n6, D6 (p6 x))] v.
Proof.
  intros R A1 A2 A3 A4 A5 A6 n1 n2 n3 n4 n5 n6 r1 D1 p1 r2 D2 p2 r3 D3 p3 r4 D4 p4 r5 D5 p5 r6 D6 p6 mk Hmk Hp1 Hp2 Hp3 Hp4 Hp5 Hp6 H1 H2 H3 H4 H5 H6 v x.
  rewrite accepts_struct_iff. cbn [map fst]. split.
  - intros H. destruct (struct_fields _ v) as [fs|]; [|discriminate H].
    destruct fs as [|? fs]; [discriminate H|]. destruct fs as [|? fs]; [discriminate H|]. destruct fs as [|? fs]; [discriminate H|]. destruct fs as [|? fs]; [discriminate H|]. destruct fs as [|? fs]; [discriminate H|]. destruct fs as [|? fs]; [discriminate H|]. destruct fs; [|discriminate H].
    repeat inv_obind H. injection H as <-. eexists. split; [reflexivity|]. rewrite Hp1, Hp2, Hp3, Hp4, Hp5, Hp6.
    constructor; [apply H1; assumption|]. constructor; [apply H2; assumption|]. constructor; [apply H3; assumption|]. constructor; [apply H4; assumption|]. constructor; [apply H5; assumption|]. constructor; [apply H6; assumption|]. constructor.
  - intros (vs & -> & Hf). inv_forall2.
    match goal with H : D1 (p1 x) ?w |- _ => apply H1 in H; rewrite H, obind_some; clear H end. match goal with H : D2 (p2 x) ?w |- _ => apply H2 in H; rewrite H, obind_some; clear H end. match goal with H : D3 (p3 x) ?w |- _ => apply H3 in H; rewrite H, obind_some; clear H end. match goal with H : D4 (p4 x) ?w |- _ => apply H4 in H; rewrite H, obind_some; clear H end. match goal with H : D5 (p5 x) ?w |- _ => apply H5 in H; rewrite H, obind_some; clear H end. match goal with H : D6 (p6 x) ?w |- _ => apply H6 in H; rewrite H, obind_some; clear H end.
    rewrite Hmk. reflexivity.
Qed.

(** ** Sequences and small values *)
Lemma mapM_iff : forall (A : Type) (f : A -> outcome sval) (d : A -> doc), (forall x w, f x = Ret w <-> d x w) ->
  forall l vs, mapM f l = Ret vs <-> Forall2 d l vs.
Proof.
  intros A f d H l. induction l as [|x l IH]; intros vs; cbn [mapM].
  - split; [intros [= <-]; constructor|]. intros Hf. inversion Hf. reflexivity.
  - split.
    + intros He. inv_bind He. inv_bind He. injection He as <-. constructor; [apply H; assumption|]. apply IH. assumption.
    + intros Hf. inversion Hf as [|? w ? vs' Hw Hr]; subst. apply H in Hw. apply IH in Hr. rewrite Hw. cbn [bind]. rewrite Hr. reflexivity.
Qed.

Lemma dec_all_iff : forall (A : Type) (r : sval -> outcome (option A)) (d : A -> doc), (forall w x, r w = Ret (Some x) <-> d x w) ->
  forall vs l, dec_all r vs = Ret (Some l) <-> Forall2 d l vs.
Proof.
  intros A r d H vs. induction vs as [|w vs IH]; intros l; cbn [dec_all].
  - split; [intros [= <-]; constructor|]. intros Hf. inversion Hf. reflexivity.
  - split.
    + intros He. inv_obind He. inv_obind He. injection He as <-. constructor; [apply H; assumption|]. apply IH. assumption.
    + intros Hf. inversion Hf as [|x w' l' vs' Hw Hr]; subst. apply H in Hw. apply IH in Hr. rewrite Hw, obind_some, Hr. reflexivity.
Qed.

Lemma vec_w : forall (A : Type) (c : Codec A) h (d : A -> doc), (forall x w, enc c h x = Ret w <-> d x w) ->
  forall l v, enc (vec_codec c) h l = Ret v <-> seq_doc d l v.
Proof.
  intros A c h d H l v. cbn [enc vec_codec]. unfold seq_doc. split.
  - intros He. inv_bind He. injection He as <-. eexists. split; [reflexivity|]. apply (mapM_iff _ _ _ H). assumption.
  - intros (vs & -> & Hf). apply (mapM_iff _ _ _ H) in Hf. rewrite Hf. reflexivity.
Qed.

Lemma vec_r : forall (A : Type) (c : Codec A) h (d : A -> doc), (forall w x, dec c h w = Ret (Some x) <-> d x w) ->
  forall v l, dec (vec_codec c) h v = Ret (Some l) <-> seq_doc d l v.
Proof.
  intros A c h d H v l. cbn [dec vec_codec]. unfold seq_doc. split.
  - intros He. destruct v; try discriminate He. eexists. split; [reflexivity|]. apply (dec_all_iff _ _ _ H). assumption.
  - intros (vs & -> & Hf). apply (dec_all_iff _ _ _ H). assumption.
Qed.

Lemma option_w : forall (A : Type) (c : Codec A) h (d : A -> doc), (forall x w, d x w -> w <> SNull) ->
  (forall x w, enc c h x = Ret w <-> d x w) ->
  forall o v, enc (option_codec c) h o = Ret v <-> option_doc d o v.
Proof.
  intros A c h d Hn H [x|] v; cbn [enc option_codec option_doc].
  - split; [intros He; apply H in He; split; [exact (Hn _ _ He)|exact He]|]. intros [_ Hd]. apply H. exact Hd.
  - split; [intros [= <-]; reflexivity|intros ->; reflexivity].
Qed.

Lemma option_r : forall (A : Type) (c : Codec A) h (d : A -> doc), (forall w x, dec c h w = Ret (Some x) <-> d x w) ->
  forall v o, dec (option_codec c) h v = Ret (Some o) <-> option_doc d o v.
Proof.
  intros A c h d H v o. cbn [dec option_codec].
  assert (Hd : v <> SNull -> ((x <-? dec c h v ;; Ret (Some (Some x))) = Ret (Some o) <-> option_doc d o v)).
  { intros Hv. split.
    - intros He. inv_obind He. injection He as <-. cbn [option_doc]. split; [exact Hv|]. apply H. assumption.
    - destruct o as [x|]; cbn [option_doc]; [|intros ->; contradiction]. intros [_ Hx]. apply H in Hx. rewrite Hx. reflexivity. }
  destruct v; try (apply Hd; discriminate). split.
  - intros [= <-]. reflexivity.
  - destruct o as [x|]; [|reflexivity]. intros [Hn _]. contradiction.
Qed.

Lemma nat_w : forall h n v, enc nat_codec h n = Ret v <-> nat_doc n v.
Proof. intros h n v. cbn [enc nat_codec]. unfold nat_doc. split; [intros [= <-]|intros ->]; reflexivity. Qed.

Lemma nat_r : forall h v n, dec nat_codec h v = Ret (Some n) <-> nat_doc n v /\ is_u64 n.
Proof.
  intros h v n. unfold nat_doc, is_u64. split.
  - intros H. destruct v as [| |k| | | |]; try discriminate H. cbn [dec nat_codec] in H. destruct (N.ltb_spec k u64_lim) as [Hl|]; [|discriminate].
    injection H as <-. rewrite N2Nat.id. split; [reflexivity|exact Hl].
  - intros [-> Hl]. cbn [dec nat_codec]. destruct (N.ltb_spec (N.of_nat n) u64_lim) as [|Hn]; [rewrite Nat2N.id; reflexivity|].
    exfalso. unfold u64_lim in Hn. lia.
Qed.

Lemma bool_w : forall h x v, enc bool_codec h x = Ret v <-> bool_doc x v.
Proof. intros h n v. cbn [enc bool_codec]. unfold bool_doc. split; [intros [= <-]|intros ->]; reflexivity. Qed.

Lemma bool_r : forall h v x, dec bool_codec h v = Ret (Some x) <-> bool_doc x v.
Proof.
  intros h v x. unfold bool_doc. split; [|intros ->; reflexivity]. intros H. destruct v; try discriminate H. injection H as <-. reflexivity.
Qed.

Lemma array_w : forall h b v, enc array32_codec h b = Ret v <-> digest_doc b v.
Proof.
  intros h b v. cbn [enc array32_codec]. unfold digest_doc, seq_doc. split.
  - intros [= <-]. eexists. split; [reflexivity|]. induction b; cbn [map]; constructor; [reflexivity|assumption].
  - intros (vs & -> & H). do 2 f_equal. induction H as [|x w b vs -> H IH]; cbn [map]; [reflexivity|]. rewrite IH. reflexivity.
Qed.

Lemma array_r : forall h v b, dec array32_codec h v = Ret (Some b) <-> digest_doc b v /\ List.length b = 32%nat.
Proof.
  intros h v b. unfold digest_doc, seq_doc.
  assert (Hb : forall w x, match w with
      | SNum n => if (n <? 256)%N then Ret (Some (byte_of_N_mod n)) else Ret None
      | _ => Ret None end = Ret (Some x) <-> w = SNum (Byte.to_N x)).
  { intros w x. split.
    - intros H. destruct w as [| |n| | | |]; try discriminate H. destruct (N.ltb_spec n 256) as [Hn|]; [|discriminate].
      injection H as <-. rewrite (bn_of_N n Hn : Byte.to_N _ = n). reflexivity.
    - intros ->. pose proof (bn_lt x) as Hx. unfold bn in Hx. apply N.ltb_lt in Hx. rewrite Hx. do 2 f_equal. exact (byte_of_bn x). }
  split.
  - intros H. destruct v as [| | | | |l|]; try discriminate H. cbn [dec array32_codec] in H.
    destruct (Nat.eqb_spec (List.length l) 32) as [Hl|]; [|discriminate]. apply (dec_all_iff _ _ _ Hb) in H.
    split; [eauto|]. rewrite <- Hl. exact (forall2_same_len _ _ _ _ _ H).
  - intros [(vs & -> & H) Hl]. cbn [dec array32_codec]. rewrite <- (forall2_same_len _ _ _ _ _ H), Hl. cbn [Nat.eqb].
    apply (dec_all_iff _ _ _ Hb). exact H.
Qed.

Lemma opening_w : forall h b v, enc Opening_codec h b = Ret v <-> writes_bytes h b v.
Proof. intros h b v. apply serialize_bytes_iff. Qed.

Lemma opening_r : forall h v b, dec Opening_codec h v = Ret (Some b) <-> accepts_bytes h b v /\ List.length b = 32%nat.
Proof.
  intros h v b. cbn [dec Opening_codec]. split.
  - intros H. destruct (deserialize_bytes h v) as [b'|] eqn:Hb; [|discriminate]. apply deserialize_bytes_iff in Hb.
    destruct (Nat.eqb_spec (List.length b') 32); [|discriminate]. injection H as <-. auto.
  - intros [H Hl]. apply deserialize_bytes_iff in H. rewrite H, Hl. reflexivity.
Qed.

Section Codecs.
Context {E : Env} (L : GroupLaws E).
Local Notation W := (writing (E:=E)).
Local Notation R := (reading (E:=E)).

Lemma public_key_w : forall h (k : PublicKey E) v, enc PublicKey_codec h k = Ret v <-> key_part (W h) k v.
Proof. intros h k v. apply serialize_bytes_iff. Qed.

Lemma public_key_r : forall h v (k : PublicKey E), dec PublicKey_codec h v = Ret (Some k) <-> key_part (R h) k v.
Proof.
  intros h v k. cbn [dec PublicKey_codec key_part reading]. split.
  - intros H. destruct (deserialize_bytes h v) as [b|] eqn:Hb; [|discriminate]. apply deserialize_bytes_iff in Hb.
    destruct (PublicKey_from_bytes b) eqn:Hk; [|discriminate]. injection H as <-. apply (from_bytes_iff E L) in Hk.
    destruct Hk as [-> Hk]. auto.
  - intros [H Hk]. apply deserialize_bytes_iff in H. rewrite H, (proj2 (from_bytes_iff E L _ k) (conj eq_refl Hk)). reflexivity.
Qed.

Lemma scalar_w : forall h (s : Scalar E) v, enc ScalarHelper h s = Ret v <-> scalar_part (W h) s v.
Proof. intros h s v. apply serialize_bytes_iff. Qed.

Lemma scalar_r : forall h v (s : Scalar E), dec ScalarHelper h v = Ret (Some s) <-> scalar_part (R h) s v.
Proof.
  intros h v s. cbn [dec ScalarHelper scalar_part reading]. split.
  - intros H. destruct (deserialize_bytes h v) as [b|] eqn:Hb; [|discriminate]. apply deserialize_bytes_iff in Hb.
    destruct (Nat.eqb_spec (List.length b) (SCALAR_SIZE E)); [|discriminate]. injection H as H. eauto.
  - intros (b & H & Hl & Hs). apply deserialize_bytes_iff in H. rewrite H, Hl, Nat.eqb_refl, Hs. reflexivity.
Qed.

Lemma secret_key_w : forall h (s : SecretKey E) v, enc SecretKey_codec h s = Ret v <-> scalar_part (W h) s v.
Proof. intros h s v. apply serialize_bytes_iff. Qed.

Lemma secret_key_r : forall h v (s : SecretKey E), dec SecretKey_codec h v = Ret (Some s) <-> scalar_part (R h) s v.
Proof.
  intros h v s. rewrite <- scalar_r. cbn [dec ScalarHelper SecretKey_codec]. unfold SecretKey_from_bytes.
  destruct (deserialize_bytes h v) as [b|]; [|reflexivity]. destruct (Nat.eqb _ _); reflexivity.
Qed.

Lemma keypair_w : forall h (k : Keypair E) v, enc Keypair_codec h k = Ret v <-> keypair_part (W h) k v.
Proof. intros h s v. apply serialize_bytes_iff. Qed.

Lemma keypair_r : forall h v (k : Keypair E), dec Keypair_codec h v = Ret (Some k) <-> keypair_part (R h) k v.
Proof.
  intros h v k. cbn [dec Keypair_codec keypair_part reading]. split.
  - intros H. inv_obind H. inv_bind H. injection H as <-. apply (keypair_iff E L) in Hm0. destruct Hm0 as [<- Hk].
    apply secret_key_r in Hm. destruct Hm as (b & Hb & Hl & Hd). exists b. unfold valid_keypair in Hk. tauto.
  - intros (b & Hb & Hl & Hd & Hk).
    rewrite (proj2 (secret_key_r h v (kp_secret k)) (ex_intro _ b (conj Hb (conj Hl Hd)))), obind_some.
    rewrite (proj2 (keypair_iff E L _ k) (conj eq_refl Hk)). reflexivity.
Qed.

Lemma element_w : forall h (e : Element E) v, enc ElementHelper h e = Ret v <-> element_part (W h) e v.
Proof.
  intros h e v. cbn [enc ElementHelper element_part writing]. split.
  - intros H. inv_bind H. exists a. split; [exact Hm|]. apply serialize_bytes_iff. exact H.
  - intros (b & -> & H). cbn [bind]. apply serialize_bytes_iff. exact H.
Qed.

Lemma element_r : forall h v (e : Element E), dec ElementHelper h v = Ret (Some e) <-> element_part (R h) e v.
Proof.
  intros h v s. cbn [dec ElementHelper element_part reading]. split.
  - intros H. destruct (deserialize_bytes h v) as [b|] eqn:Hb; [|discriminate]. apply deserialize_bytes_iff in Hb.
    destruct (Nat.eqb_spec (List.length b) (ELEMENT_SIZE E)); [|discriminate]. injection H as H. eauto.
  - intros (b & H & Hl & Hs). apply deserialize_bytes_iff in H. rewrite H, Hl, Nat.eqb_refl, Hs. reflexivity.
Qed.

Lemma helper_w : forall (A : Type) (c : Codec A) h k (d : A -> doc), (forall x w, enc c h x = Ret w <-> d x w) ->
  forall l v, enc (VecHelper (E:=E) c k) h l = Ret v <-> seq_part (W h) A k d l v.
Proof.
  intros A c h k d H l v. cbn [enc VecHelper seq_part writing]. unfold debug_assert. rewrite <- (vec_w A c h d H). cbn [enc vec_codec].
  destruct (debug_assertions (env_build E)).
  - destruct (Nat.leb_spec k (List.length l)) as [Hl|Hl]; cbn [bind]; [tauto|].
    split; [discriminate|]. intros [_ Hk]. specialize (Hk eq_refl). lia.
  - cbn [bind]. split; [intros He; split; [exact He|discriminate]|tauto].
Qed.

Lemma helper_r : forall (A : Type) (c : Codec A) h k (d : A -> doc), (forall w x, dec c h w = Ret (Some x) <-> d x w) ->
  forall v l, dec (VecHelper (E:=E) c k) h v = Ret (Some l) <-> seq_part (R h) A k d l v.
Proof.
  intros A c h k d H v l. cbn [dec VecHelper seq_part reading]. rewrite <- (vec_r A c h d H). cbn [dec vec_codec]. split.
  - intros He. destruct v as [| | | | |vs|]; try discriminate He. destruct (Nat.ltb_spec (List.length vs) k); [discriminate|].
    inv_obind He. destruct (Nat.leb_spec k (List.length y)); [|discriminate]. injection He as <-. auto.
  - intros [He Hl]. destruct v as [| | | | |vs|]; try discriminate He. pose proof He as Hf. apply (dec_all_iff _ _ _ H) in Hf.
    rewrite <- (forall2_same_len _ _ _ _ _ Hf). destruct (Nat.ltb_spec (List.length l) k); [lia|]. rewrite He, obind_some.
    destruct (Nat.leb_spec k (List.length l)); [reflexivity|lia].
Qed.

Lemma vecs_w : forall (A : Type) (c : Codec A) h (d : A -> doc), (forall x w, enc c h x = Ret w <-> d x w) ->
  forall l v, enc (vec_codec c) h l = Ret v <-> seqs (W h) d l v.
Proof.
  intros A c h d H l v. rewrite (vec_w A c h d H). unfold seqs. cbn [seq_part writing]. intuition lia.
Qed.

Lemma vecs_r : forall (A : Type) (c : Codec A) h (d : A -> doc), (forall w x, dec c h w = Ret (Some x) <-> d x w) ->
  forall v l, dec (vec_codec c) h v = Ret (Some l) <-> seqs (R h) d l v.
Proof.
  intros A c h d H v l. rewrite (vec_r A c h d H). unfold seqs. cbn [seq_part reading]. intuition lia.
Qed.

Ltac rec := intros []; reflexivity.

Lemma ciphertext_w : forall h (c : Ciphertext E) v, enc Ciphertext_codec h c = Ret v <-> ciphertext_doc (W h) c v.
Proof. intros h c v. apply wstruct2; apply element_w. Qed.

Lemma ciphertext_r : forall h v (c : Ciphertext E), dec Ciphertext_codec h v = Ret (Some c) <-> ciphertext_doc (R h) c v.
Proof.
  intros h. apply (rstruct2 _ _ _ _ _ _ (element_part (R h)) random_element _ (element_part (R h)) blinded_element
    (fun a b => {| random_element := a; blinded_element := b |})); try rec; try reflexivity; apply element_r.
Qed.

Lemma decryption_w : forall h (c : VerifiableDecryption E) v, enc VerifiableDecryption_codec h c = Ret v <-> decryption_doc (W h) c v.
Proof. intros h c v. apply wstruct1; apply element_w. Qed.

Lemma decryption_r : forall h v (c : VerifiableDecryption E), dec VerifiableDecryption_codec h v = Ret (Some c) <-> decryption_doc (R h) c v.
Proof.
  intros h. apply (rstruct1 _ _ _ _ (element_part (R h)) vd_dh_element (fun a => {| vd_dh_element := a |})); try rec; try reflexivity; apply element_r.
Qed.

Lemma candidate_w : forall h (c : CandidateDecryption E) v, enc CandidateDecryption_codec h c = Ret v <-> decryption_doc (W h) (cd_inner c) v.
Proof. intros h c v. apply decryption_w. Qed.

Lemma candidate_r : forall h v (c : CandidateDecryption E), dec CandidateDecryption_codec h v = Ret (Some c) <-> decryption_doc (R h) (cd_inner c) v.
Proof.
  intros h v [c]. cbn [dec CandidateDecryption_codec cd_inner]. rewrite <- decryption_r. split.
  - intros H. inv_obind H. injection H as <-. assumption.
  - intros ->. reflexivity.
Qed.

Lemma log_equality_w : forall h (x : LogEqualityProof E) v, enc LogEqualityProof_codec h x = Ret v <-> log_equality_doc (W h) x v.
Proof. intros h c v. apply wstruct2; apply scalar_w. Qed.

Lemma log_equality_r : forall h v (x : LogEqualityProof E), dec LogEqualityProof_codec h v = Ret (Some x) <-> log_equality_doc (R h) x v.
Proof.
  intros h. apply (rstruct2 _ _ _ _ _ _ (scalar_part (R h)) le_challenge _ (scalar_part (R h)) le_response
    (fun a b => {| le_challenge := a; le_response := b |})); try rec; try reflexivity; apply scalar_r.
Qed.

Lemma possession_w : forall h (x : ProofOfPossession E) v, enc ProofOfPossession_codec h x = Ret v <-> possession_doc (W h) x v.
Proof. intros h c v. apply wstruct2; [apply scalar_w|]. apply helper_w. apply scalar_w. Qed.

Lemma possession_r : forall h v (x : ProofOfPossession E), dec ProofOfPossession_codec h v = Ret (Some x) <-> possession_doc (R h) x v.
Proof.
  intros h. apply (rstruct2 _ _ _ _ _ _ (scalar_part (R h)) pop_challenge _ (seq_part (R h) _ 1 (scalar_part (R h))) pop_responses
    (fun a b => {| pop_challenge := a; pop_responses := b |})); try rec; try reflexivity; [apply scalar_r|]. apply helper_r. apply scalar_r.
Qed.

Lemma ring_fields_w : forall h (x : RingProof E) l, RingProof_enc_fields h x = Ret l <->
  exists vs, Forall2 (fun f w => snd f w) (ring_fields (W h) x) vs /\ l = combine (map fst (ring_fields (W h) x)) vs.
Proof.
  intros h x l. unfold RingProof_enc_fields. split.
  - intros H. inv_bind H. inv_bind H. injection H as <-. exists [a; a0]. split; [|reflexivity].
    constructor; [apply scalar_w; assumption|]. constructor; [|constructor].
    apply (helper_w _ ScalarHelper h 2 _ (scalar_w h)). assumption.
  - intros (vs & Hf & ->). unfold ring_fields in *. inversion Hf as [|f w fs ws Hw Hr]; subst.
    inversion Hr as [|f' w' fs' ws' Hw' Hr']; subst. inversion Hr'; subst. cbn [snd] in Hw, Hw'.
    apply scalar_w in Hw. apply (helper_w _ ScalarHelper h 2 _ (scalar_w h)) in Hw'.
    rewrite Hw. cbn [bind]. rewrite Hw'. reflexivity.
Qed.

Lemma ring_w : forall h (x : RingProof E) v, enc RingProof_codec h x = Ret v <-> ring_doc (W h) x v.
Proof.
  intros h x v. cbn [enc RingProof_codec]. unfold ring_doc. cbn [struct_part writing]. unfold writes_struct. split.
  - intros H. inv_bind H. injection H as <-. apply ring_fields_w in Hm. destruct Hm as (vs & Hf & ->). eauto.
  - intros (vs & Hf & ->). rewrite (proj2 (ring_fields_w h x _) (ex_intro _ vs (conj Hf eq_refl))). reflexivity.
Qed.

Lemma ring_r : forall h v (x : RingProof E), dec RingProof_codec h v = Ret (Some x) <-> ring_doc (R h) x v.
Proof.
  intros h. apply (rstruct2 _ _ _ _ _ _ (scalar_part (R h)) rp_challenge _ (seq_part (R h) _ 2 (scalar_part (R h))) rp_responses
    (fun a b => {| rp_challenge := a; rp_responses := b |})); try rec; try reflexivity; [apply scalar_r|]. apply helper_r. apply scalar_r.
Qed.

Lemma range_w : forall h (x : RangeProof E) v, enc RangeProof_codec h x = Ret v <-> range_doc writes_struct (W h) (W h) x v.
Proof.
  intros h x v. cbn [enc RangeProof_codec]. unfold range_doc, writes_struct. split.
  - intros H. inv_bind H. inv_bind H. injection H as <-. apply (vecs_w _ _ h _ (ciphertext_w h)) in Hm. apply ring_fields_w in Hm0.
    destruct Hm0 as (vs & Hf & ->). exists (a :: vs). split; [constructor; assumption|reflexivity].
  - intros (vs & Hf & ->). inversion Hf as [|f w fs ws Hw Hr]; subst. cbn [snd] in Hw. apply (vecs_w _ _ h _ (ciphertext_w h)) in Hw.
    rewrite Hw. cbn [bind]. rewrite (proj2 (ring_fields_w h (rap_inner x) _) (ex_intro _ ws (conj Hr eq_refl))). reflexivity.
Qed.

Lemma field_entries_other : forall n m l, n <> m ->
  field_entries n (filter (fun p => negb (String.eqb (fst p) m)) l) = field_entries n l.
Proof.
  intros n m l Hn. unfold field_entries. induction l as [|[k w] l IH]; [reflexivity|]. cbn [filter fst].
  destruct (String.eqb_spec k m) as [->|Hk]; cbn [negb filter fst].
  - destruct (String.eqb_spec m n) as [->|_]; [contradiction|]. exact IH.
  - destruct (String.eqb k n); cbn [map]; rewrite IH; reflexivity.
Qed.

Lemma range_r : forall h v (x : RangeProof E), dec RangeProof_codec h v = Ret (Some x) <-> range_doc accepts_map (R h) (R true) x v.
Proof.
  intros h v x. unfold range_doc. split.
  - intros H. cbn [dec RangeProof_codec] in H. destruct v as [| | | | | |l]; try discriminate H.
    destruct (field_entries _ l) as [|a [|]] eqn:Ha; try discriminate H. inv_obind H. inv_obind H. injection H as <-. cbn [rap_partial rap_inner].
    apply (vecs_r _ _ h _ (ciphertext_r h)) in Hm. apply ring_r in Hm0. unfold ring_doc in Hm0. cbn [struct_part reading] in Hm0.
    destruct Hm0 as [(l' & [= <-] & Hf)|(vs & [=] & _)]. exists l. split; [reflexivity|]. constructor.
    + exists a. split; [apply the_entry_iff; exact Ha|exact Hm].
    + unfold ring_fields in *. repeat match goal with H : Forall _ (_ :: _) |- _ => inversion H; clear H; subst end.
      repeat match goal with H : exists w, _ |- _ => destruct H as (? & ? & ?) end.
      repeat (constructor; [eexists; split; [|eassumption]; apply the_entry_iff; match goal with H : the_entry _ _ ?w |- field_entries _ l = [?w] =>
        apply the_entry_iff in H; rewrite field_entries_other in H by discriminate; exact H end|]). constructor.
  - intros (l & -> & Hf). inversion Hf as [|f fs (w & Hw & Hd) Hr]; subst. cbn [fst snd] in *.
    apply the_entry_iff in Hw. cbn [dec RangeProof_codec]. rewrite Hw.
    apply (vecs_r _ _ h _ (ciphertext_r h)) in Hd. rewrite Hd, obind_some.
    rewrite (proj2 (ring_r true _ (rap_inner x))); [destruct x; reflexivity|].
    unfold ring_doc. cbn [struct_part reading]. left. eexists. split; [reflexivity|].
    rewrite Forall_forall in *. intros f Hi. destruct (Hr f Hi) as (u & Hu & Hx). exists u. split; [|exact Hx]. apply the_entry_iff in Hu. apply the_entry_iff.
    rewrite field_entries_other; [exact Hu|]. destruct Hi as [<-|[<-|[]]]; discriminate.
Qed.

Lemma commitment_w : forall h (x : CommitmentEquivalenceProof E) v, enc CommitmentEquivalenceProof_codec h x = Ret v <-> commitment_doc (W h) x v.
Proof. intros h c v. apply wstruct4; apply scalar_w. Qed.

Lemma commitment_r : forall h v (x : CommitmentEquivalenceProof E), dec CommitmentEquivalenceProof_codec h v = Ret (Some x) <-> commitment_doc (R h) x v.
Proof.
  intros h. apply (rstruct4 _ _ _ _ _ _ _ _ _ _ (scalar_part (R h)) ce_challenge _ (scalar_part (R h)) ce_randomness_response
    _ (scalar_part (R h)) ce_value_response _ (scalar_part (R h)) ce_commitment_response
    (fun a b c d => {| ce_challenge := a; ce_randomness_response := b; ce_value_response := c; ce_commitment_response := d |}));
    try rec; try reflexivity; apply scalar_r.
Qed.

Lemma squares_w : forall h (x : SumOfSquaresProof E) v, enc SumOfSquaresProof_codec h x = Ret v <-> squares_doc (W h) x v.
Proof. intros h c v. apply wstruct3; [apply scalar_w|apply helper_w; apply scalar_w|apply scalar_w]. Qed.

Lemma squares_r : forall h v (x : SumOfSquaresProof E), dec SumOfSquaresProof_codec h v = Ret (Some x) <-> squares_doc (R h) x v.
Proof.
  intros h. apply (rstruct3 _ _ _ _ _ _ _ _ (scalar_part (R h)) sq_challenge _ (seq_part (R h) _ 2 (scalar_part (R h))) sq_ciphertext_responses
    _ (scalar_part (R h)) sq_sum_response
    (fun a b c => {| sq_challenge := a; sq_ciphertext_responses := b; sq_sum_response := c |}));
    try rec; try reflexivity; [apply scalar_r|apply helper_r; apply scalar_r|apply scalar_r].
Qed.

Lemma params_w : forall h (x : Params) v, enc Params_codec h x = Ret v <-> params_doc (W h) x v.
Proof. intros h c v. apply wstruct2; apply nat_w. Qed.

Lemma params_r : forall h v (x : Params), dec Params_codec h v = Ret (Some x) <-> params_doc (R h) x v.
Proof.
  intros h. apply (rstruct2 _ _ _ _ _ _ (nat_part (R h)) pa_shares _ (nat_part (R h)) pa_threshold
    (fun a b => {| pa_shares := a; pa_threshold := b |})); try rec; try reflexivity; apply nat_r.
Qed.

Lemma polynomial_w : forall h (x : PublicPolynomial E) v, enc PublicPolynomial_codec h x = Ret v <-> polynomial_doc (W h) x v.
Proof. intros h. apply helper_w. apply element_w. Qed.

Lemma polynomial_r : forall h v (x : PublicPolynomial E), dec PublicPolynomial_codec h v = Ret (Some x) <-> polynomial_doc (R h) x v.
Proof. intros h. apply helper_r. apply element_r. Qed.

Lemma key_set_w : forall h (x : PublicKeySet E) v, enc PublicKeySet_codec h x = Ret v <-> key_set_doc (W h) x v.
Proof. intros h c v. apply wstruct3; [apply params_w|apply public_key_w|apply vecs_w; apply public_key_w]. Qed.

Lemma key_set_r : forall h v (x : PublicKeySet E), dec PublicKeySet_codec h v = Ret (Some x) <-> key_set_doc (R h) x v.
Proof.
  intros h. apply (rstruct3 _ _ _ _ _ _ _ _ (params_doc (R h)) ks_params _ (key_part (R h)) ks_shared_key
    _ (seqs (R h) (key_part (R h))) ks_participant_keys
    (fun a b c => {| ks_params := a; ks_shared_key := b; ks_participant_keys := c |}));
    try rec; try reflexivity; [apply params_r|apply public_key_r|apply vecs_r; apply public_key_r].
Qed.

Lemma dealer_w : forall h (x : Dealer E) v, enc Dealer_codec h x = Ret v <-> dealer_doc (W h) x v.
Proof. intros h c v. apply wstruct3; [apply params_w|apply vecs_w; apply keypair_w|apply possession_w]. Qed.

Lemma dealer_r : forall h v (x : Dealer E), dec Dealer_codec h v = Ret (Some x) <-> dealer_doc (R h) x v.
Proof.
  intros h. apply (rstruct3 _ _ _ _ _ _ _ _ (params_doc (R h)) de_params _ (seqs (R h) (keypair_part (R h))) de_polynomial
    _ (possession_doc (R h)) de_pop
    (fun a b c => {| de_params := a; de_polynomial := b; de_pop := c |}));
    try rec; try reflexivity; [apply params_r|apply vecs_r; apply keypair_r|apply possession_r].
Qed.

Lemma active_w : forall h (x : ActiveParticipant E) v, enc ActiveParticipant_codec h x = Ret v <-> active_doc (W h) x v.
Proof. intros h c v. apply wstruct3; [apply key_set_w|apply nat_w|apply secret_key_w]. Qed.

Lemma active_r : forall h v (x : ActiveParticipant E), dec ActiveParticipant_codec h v = Ret (Some x) <-> active_doc (R h) x v.
Proof.
  intros h. apply (rstruct3 _ _ _ _ _ _ _ _ (key_set_doc (R h)) ap_key_set _ (nat_part (R h)) ap_index
    _ (scalar_part (R h)) ap_secret_share
    (fun a b c => {| ap_key_set := a; ap_index := b; ap_secret_share := c |}));
    try rec; try reflexivity; [apply key_set_r|apply nat_r|apply secret_key_r].
Qed.

Lemma info_w : forall h (x : PublicInfo E) v, enc PublicInfo_codec h x = Ret v <-> info_doc (W h) x v.
Proof. intros h c v. apply wstruct3; [apply helper_w; apply element_w|apply possession_w|apply opening_w]. Qed.

Lemma info_r : forall h v (x : PublicInfo E), dec PublicInfo_codec h v = Ret (Some x) <-> info_doc (R h) x v.
Proof.
  intros h. apply (rstruct3 _ _ _ _ _ _ _ _ (polynomial_doc (R h)) pi_polynomial _ (possession_doc (R h)) pi_pop
    _ (opening_part (R h)) pi_opening
    (fun a b c => {| pi_polynomial := a; pi_pop := b; pi_opening := c |}));
    try rec; try reflexivity; [apply helper_r; apply element_r|apply possession_r|apply opening_r].
Qed.

Lemma digest_not_null : forall b w, digest_doc b w -> w <> SNull.
Proof. intros b w (vs & -> & _). discriminate. Qed.

Lemma polynomial_not_null : forall h (x : PublicPolynomial E) w, polynomial_doc (W h) x w -> w <> SNull.
Proof. intros h x w [(vs & -> & _) _]. discriminate. Qed.

Lemma pcc_w : forall h (x : ParticipantCollectingCommitments E) v, enc PCC_codec h x = Ret v <-> commitments_doc (W h) x v.
Proof.
  intros h c v. apply wstruct5; [apply params_w|apply nat_w|apply dealer_w| |apply opening_w].
  apply vecs_w. apply option_w; [apply digest_not_null|apply array_w].
Qed.

Lemma pcc_r : forall h v (x : ParticipantCollectingCommitments E), dec PCC_codec h v = Ret (Some x) <-> commitments_doc (R h) x v.
Proof.
  intros h. apply (rstruct5 _ _ _ _ _ _ _ _ _ _ _ _ (params_doc (R h)) pcc_params _ (nat_part (R h)) pcc_index
    _ (dealer_doc (R h)) pcc_dealer _ (seqs (R h) (option_doc (digest_part (R h)))) pcc_commitments _ (opening_part (R h)) pcc_opening
    (fun a b c d e => {| pcc_params := a; pcc_index := b; pcc_dealer := c; pcc_commitments := d; pcc_opening := e |}));
    try rec; try reflexivity; [apply params_r|apply nat_r|apply dealer_r| |apply opening_r].
  apply vecs_r. apply option_r. apply array_r.
Qed.

Lemma pcp_w : forall h (x : ParticipantCollectingPolynomials E) v, enc PCP_codec h x = Ret v <-> polynomials_doc (W h) x v.
Proof.
  intros h c v. apply wstruct6; [apply params_w|apply nat_w|apply dealer_w|apply opening_w|apply vecs_w; apply array_w|].
  apply vecs_w. apply option_w; [apply polynomial_not_null|apply polynomial_w].
Qed.

Lemma pcp_r : forall h v (x : ParticipantCollectingPolynomials E), dec PCP_codec h v = Ret (Some x) <-> polynomials_doc (R h) x v.
Proof.
  intros h. apply (rstruct6 _ _ _ _ _ _ _ _ _ _ _ _ _ _ (params_doc (R h)) pcp_params _ (nat_part (R h)) pcp_index
    _ (dealer_doc (R h)) pcp_dealer _ (opening_part (R h)) pcp_opening _ (seqs (R h) (digest_part (R h))) pcp_commitments
    _ (seqs (R h) (option_doc (polynomial_doc (R h)))) pcp_public_polynomials
    (fun a b c d e f => {| pcp_params := a; pcp_index := b; pcp_dealer := c; pcp_opening := d; pcp_commitments := e;
       pcp_public_polynomials := f |}));
    try rec; try reflexivity; [apply params_r|apply nat_r|apply dealer_r|apply opening_r|apply vecs_r; apply array_r|].
  apply vecs_r. apply option_r. apply polynomial_r.
Qed.

Lemma pes_w : forall h (x : ParticipantExchangingSecrets E) v, enc PES_codec h x = Ret v <-> secrets_doc (W h) x v.
Proof.
  intros h c v. apply wstruct6; [apply params_w|apply nat_w|apply dealer_w|apply vecs_w; apply polynomial_w|apply secret_key_w|].
  apply vecs_w. apply bool_w.
Qed.

Lemma pes_r : forall h v (x : ParticipantExchangingSecrets E), dec PES_codec h v = Ret (Some x) <-> secrets_doc (R h) x v.
Proof.
  intros h. apply (rstruct6 _ _ _ _ _ _ _ _ _ _ _ _ _ _ (params_doc (R h)) pes_params _ (nat_part (R h)) pes_index
    _ (dealer_doc (R h)) pes_dealer _ (seqs (R h) (polynomial_doc (R h))) pes_public_polynomials
    _ (scalar_part (R h)) pes_accumulated_share _ (seqs (R h) bool_doc) pes_shares_received
    (fun a b c d e f => {| pes_params := a; pes_index := b; pes_dealer := c; pes_public_polynomials := d; pes_accumulated_share := e;
       pes_shares_received := f |}));
    try rec; try reflexivity; [apply params_r|apply nat_r|apply dealer_r|apply vecs_r; apply polynomial_r|apply secret_key_r|].
  apply vecs_r. apply bool_r.
Qed.

Lemma choice_w : forall (S : ProveSum E) (cs : Codec (ps_Proof S)) h (d : ps_Proof S -> doc),
  (forall x w, enc cs h x = Ret w <-> d x w) ->
  forall (x : EncryptedChoice S) v, enc (EncryptedChoice_codec S cs) h x = Ret v <-> choice_doc (W h) d x v.
Proof.
  intros S cs h d H x v. apply wstruct3; [apply vecs_w; apply ciphertext_w|apply ring_w|apply H].
Qed.

Lemma choice_r : forall (S : ProveSum E) (cs : Codec (ps_Proof S)) h (d : ps_Proof S -> doc),
  (forall w x, dec cs h w = Ret (Some x) <-> d x w) ->
  forall v (x : EncryptedChoice S), dec (EncryptedChoice_codec S cs) h v = Ret (Some x) <-> choice_doc (R h) d x v.
Proof.
  intros S cs h d H. apply (rstruct3 _ _ _ _ _ _ _ _ (seqs (R h) (ciphertext_doc (R h))) ec_choices _ (ring_doc (R h)) ec_range_proof
    _ d ec_sum_proof
    (fun a b c => {| ec_choices := a; ec_range_proof := b; ec_sum_proof := c |}));
    try rec; try reflexivity; [apply vecs_r; apply ciphertext_r|apply ring_r|exact H].
Qed.

Lemma crp_w : forall h (x : CiphertextWithRangeProof E) v, enc CiphertextWithRangeProof_codec h x = Ret v <-> ranged_doc writes_struct (W h) (W h) x v.
Proof. intros h c v. apply wstruct2; [apply ciphertext_w|apply range_w]. Qed.

Lemma crp_r : forall h v (x : CiphertextWithRangeProof E), dec CiphertextWithRangeProof_codec h v = Ret (Some x) <->
  ranged_doc accepts_map (R h) (R true) x v.
Proof.
  intros h. apply (rstruct2 _ _ _ _ _ _ (ciphertext_doc (R h)) crp_ciphertext _ (range_doc accepts_map (R h) (R true)) crp_range_proof
    (fun a b => {| crp_ciphertext := a; crp_range_proof := b |})); try rec; try reflexivity; [apply ciphertext_r|apply range_r].
Qed.

Lemma ballot_w : forall h (x : QuadraticVotingBallot E) v, enc QuadraticVotingBallot_codec h x = Ret v <-> ballot_doc writes_struct (W h) (W h) x v.
Proof. intros h c v. apply wstruct3; [apply vecs_w; apply crp_w|apply crp_w|apply squares_w]. Qed.

Lemma ballot_r : forall h v (x : QuadraticVotingBallot E), dec QuadraticVotingBallot_codec h v = Ret (Some x) <->
  ballot_doc accepts_map (R h) (R true) x v.
Proof.
  intros h. apply (rstruct3 _ _ _ _ _ _ _ _ (seqs (R h) (ranged_doc accepts_map (R h) (R true))) qb_votes
    _ (ranged_doc accepts_map (R h) (R true)) qb_credit _ (squares_doc (R h)) qb_credit_equivalence_proof
    (fun a b c => {| qb_votes := a; qb_credit := b; qb_credit_equivalence_proof := c |}));
    try rec; try reflexivity; [apply vecs_r; apply crp_r|apply crp_r|apply squares_r].
Qed.
End Codecs.
