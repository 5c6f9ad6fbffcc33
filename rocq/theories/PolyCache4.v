(** * Polygons built from vertices never use the radial shortcut *)
From Coq Require Import ZArith List Bool Lia.
From Verif Require Import Num Vec Affine Box Seq Polygon Tangent PolyOps SpecPoly PolyCache PolyCache2 PolyCache3.
Import ListNotations.

Section Radial.
  Context {T : Type} {N : Num T}.
  Notation P := (poly T).
  Definition rnone (p : P) : Prop := pmaxr2 p = None /\ pminr2 p = None.
  Lemma rnone_classify (p p1 : P) : rnone p -> classify p = Ok p1 -> rnone p1.
  Proof.
    intros [H1 H2] E. pose proof (classify_flags p) as F. rewrite E in F. destruct (classify (pfresh (pverts p))); [|contradiction].
    destruct F as (_ & _ & _ & _ & _ & _ & _ & F1 & F2 & _). split; congruence.
  Qed.
  Lemma rnone_convex (p : P) : rnone p -> rnone (snd (get_is_convex p)).
  Proof.
    intro H. unfold get_is_convex. destruct (pconvex p); auto. destruct (classify p) as [p1|] eqn:E; auto.
    pose proof (rnone_classify _ _ H E). destruct (pconvex p1); auto.
  Qed.
  Lemma rnone_simple (p : P) : rnone p -> rnone (snd (get_is_simple p)).
  Proof.
    intro H. unfold get_is_simple. destruct (psimple p) eqn:E0; auto. destruct (pconvex p); [rewrite E0; apply H|]. destruct (classify p) as [p1|] eqn:E; auto.
    pose proof (rnone_classify _ _ H E) as [K1 K2]. destruct (psimple p1); cbn [snd]; split; auto.
  Qed.
  Lemma rnone_centroid (p : P) : rnone p -> rnone (snd (get_centroid p)).
  Proof.
    intro H. unfold get_centroid. destruct (pcentroid p); auto. pose proof (rnone_simple p H) as H1.
    destruct (get_is_simple p) as [[[|]|] p1]; cbn [snd] in *; auto. destruct (centroid_value (pverts p1)); auto.
  Qed.
  Lemma rnone_bbox (p : P) : rnone p -> rnone (snd (get_bbox p)).
  Proof. intro H. unfold get_bbox. destruct (pbbox p); auto. destruct (box_from_points (pverts p)); auto. Qed.
  Lemma rnone_contains E pt (p : P) : rnone p -> rnone (snd (contains_point E pt p)).
  Proof.
    intro H. unfold contains_point. destruct (Nat.eqb _ 3).
    - unfold triangle_test. destruct (ptri p); auto. destruct (tri_build E (pverts p)) as [[c|]|]; auto.
    - destruct (radial_shortcut p pt) as [[b|]|]; auto. destruct (pypl p); auto. destruct (Nat.eqb _ 4); auto.
      pose proof (rnone_bbox p H) as H1. destruct (get_bbox p) as [[b|] p1]; cbn [snd] in *; auto. destruct (box_contains b pt); auto.
  Qed.
  Lemma rnone_op o (p : P) : rnone p -> rnone (op_state o p).
  Proof.
    intro H. destruct o as [q|i v|m| |]; cbn [op_state].
    - destruct q; cbn [read_state]; auto using rnone_convex, rnone_simple, rnone_centroid, rnone_bbox, rnone_contains.
      unfold tangents_to_point. destruct (Nat.ltb _ _); auto. pose proof (rnone_convex p H) as H1.
      destruct (get_is_convex p) as [[[|]|] p1]; cbn [snd] in *; auto. destruct (pdupe p1) as [[|]|]; auto.
    - unfold poly_setitem. destruct (py_set _ _ _); auto. split; reflexivity.
    - split; reflexivity.
    - exact H.
    - exact H.
  Qed.
  Lemma rnone_run os : forall p : P, rnone p -> rnone (prun p os).
  Proof. induction os as [|o os IH]; intros p H; cbn; auto. apply IH, rnone_op; auto. Qed.

  (** The general path of a point query. *)
  Lemma general_contains (E : T) (pt : vec T) (p : P) (b : bbox T) : coh p -> rnone p -> pypl p = None -> (3 < length (pverts p))%nat -> pcentroid p <> Some None ->
    box_from_points (pverts p) = Ok b ->
    fst (contains_point E pt p) = if Nat.eqb (length (pverts p)) 4 then winding_test (pverts p) pt
      else if box_contains b pt then winding_test (pverts p) pt else Ok false.
  Proof.
    intros Hc [Hr1 Hr2] Hy HL Hcen Hb. unfold contains_point. destruct (Nat.eqb_spec (length (pverts p)) 3); [lia|].
    assert (HR : radial_shortcut p pt = Ok None).
    { unfold radial_shortcut. rewrite Hr1, Hr2. destruct (Nat.ltb 4 _); auto. destruct (pcentroid p) as [[c|]|]; auto. congruence. }
    rewrite HR, Hy. destruct (Nat.eqb (length (pverts p)) 4); auto.
    pose proof (read_bbox p Hc) as (B1 & _ & B3).
    assert (B0 : fst (get_bbox (pfresh (pverts p))) = Ok b). { unfold get_bbox. rewrite pfresh_bbox, pverts_fresh, Hb. reflexivity. }
    rewrite B0 in B1. destruct (get_bbox p) as [[b'|e'] p1]; cbn [fst snd] in *; [|discriminate]. injection B1 as ->. rewrite B3.
    destruct (box_contains b pt); reflexivity.
  Qed.
End Radial.
