(** * C60, continued: what [Generic] accepts as an element

    For byte strings of the right length, [Generic::deserialize_element] accepts only what [serialize_element] writes,
    provided that the SEC1 decoder keeps the bytes it is given and that points have one compressed form.
    Byte strings that the decoder refuses, and those that are not on the curve, are refused. *)
From Coq Require Import List NArith ZArith Znumtheory String Lia.
From Verif.Model Require Import Base Group Transcript Range Keys Encryption LogEquality Backends.
From Verif.Spec Require Import Backends.
From Verif.Proofs Require Import Backends.
From Verif.Instance Require Import Primality Zq Curves.
Import ListNotations.
Open Scope list_scope.

Definition canonical_sec1 (C : Curve) : Prop :=
  (forall b (s : CSec1 C), List.length b = (c_field_size C + 1)%nat -> sec1_from_bytes b = Some s -> sec1_as_bytes s = b) /\
  (forall (s : CSec1 C) P, List.length (sec1_as_bytes s) = (c_field_size C + 1)%nat ->
     cp_from_sec1_point s = Some P -> s = cp_to_sec1_point P true).

Theorem C60_generic_decoding :
  forall (C : Curve) (L : CurveLaws C),
    (canonical_sec1 C -> deser_canonical (Generic C)) /\
    (forall b, sec1_from_bytes (c := C) b = None -> deserialize_element (g := Generic C) b = None) /\
    (forall b (s : CSec1 C), sec1_from_bytes b = Some s -> cp_from_sec1_point s = None ->
       deserialize_element (g := Generic C) b = None) /\
    (forall P : Element (Generic C), P <> identity ->
       exists b, serialize_element P = Ret b /\ List.length b = ELEMENT_SIZE (Generic C) /\ deserialize_element b = Some P) /\
    (forall b (s : Scalar (Generic C)), deserialize_scalar b = Some s <-> b = serialize_scalar s).
Proof.
  intros C L. split; [|split; [|split; [|split]]].
  - intros [Hb Hs] b P Hlen H. change (generic_deserialize_element C b = Some P) in H.
    change (List.length b = (c_field_size C + 1)%nat) in Hlen. change (generic_serialize_element C P = Ret b).
    unfold generic_deserialize_element in H. destruct (sec1_from_bytes b) as [s|] eqn:Hd; [|discriminate].
    pose proof (Hb b s Hlen Hd) as Hbs. assert (Hl : List.length (sec1_as_bytes s) = (c_field_size C + 1)%nat) by (rewrite Hbs; exact Hlen).
    pose proof (Hs s P Hl H) as ->. unfold generic_serialize_element, copy_from_slice. rewrite Hl, Nat.eqb_refl, Hbs. reflexivity.
  - intros b H. change (generic_deserialize_element C b = None). unfold generic_deserialize_element. rewrite H. reflexivity.
  - intros b s H Hp. change (generic_deserialize_element C b = None). unfold generic_deserialize_element. rewrite H. exact Hp.
  - intros P HP. exists (sec1_as_bytes (cp_to_sec1_point P true)). pose proof (cl_sec1_len C L P HP) as Hl. split; [|split].
    + change (generic_serialize_element C P = Ret (sec1_as_bytes (cp_to_sec1_point P true))).
      unfold generic_serialize_element, copy_from_slice. rewrite Hl, Nat.eqb_refl. reflexivity.
    + exact Hl.
    + change (generic_deserialize_element C (sec1_as_bytes (cp_to_sec1_point P true)) = Some P).
      unfold generic_deserialize_element. rewrite (cl_sec1_bytes C L). apply (cl_sec1_point C L).
  - intros b s. change (generic_deserialize_scalar C b = Some s <-> b = c_to_repr s). unfold generic_deserialize_scalar. split.
    + destruct (Nat.eqb _ _); [|discriminate]. intros H. symmetry. apply (cl_to_from_repr C L). exact H.
    + intros ->. rewrite (cl_repr_len C L), Nat.eqb_refl. apply (cl_from_to_repr C L).
Qed.
Print Assumptions C60_generic_decoding.

(** the toy curve has a canonical encoding *)
Example C60_generic_decoding_example : canonical_sec1 toy_curve.
Proof.
  split.
  - intros b s Hlen H. cbn [sec1_from_bytes sec1_as_bytes toy_curve] in *. change (List.length b = 10%nat) in Hlen.
    destruct b as [|x b]; [discriminate|]. cbn [List.length] in Hlen. injection Hlen as Hlen.
    assert (Hx : x = Byte.x02 /\ match zparse qx b with Some a => if (zval qx a =? 0)%Z then None else Some a | None => None end = Some s).
    { destruct x; try discriminate H; [destruct b; discriminate|]. split; [reflexivity|exact H]. }
    destruct Hx as [-> Hs]. destruct (zparse qx b) as [a|] eqn:Ha; [|discriminate]. destruct (zval qx a =? 0)%Z eqn:Hz; [discriminate|].
    injection Hs as <-. rewrite Hz. f_equal. unfold zparse in Ha.
    destruct (Z.of_N (le_val b) <? qx)%Z eqn:Hlt; [|discriminate]. injection Ha as <-.
    cbn [zval zq]. rewrite Z.mod_small by (apply Z.ltb_lt in Hlt; lia). rewrite N2Z.id. rewrite <- Hlen. apply le_bytes_val.
  - intros s P _ H. cbn in H. injection H as ->. reflexivity.
Qed.
