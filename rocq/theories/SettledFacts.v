(** * Reading a polygon whose caches are filled *)
From Coq Require Import ZArith List Bool Lia.
From Verif Require Import Num Vec Affine Box Seq Polygon Tangent PolyOps.
Import ListNotations.

Section Settled.
  Context {T : Type} {N : Num T}.
  Notation P := (poly T).
  Definition settled (p : P) : Prop := pconvex p <> None /\ psimple p <> None /\ pcentroid p <> None.
  (** Everything but the bounding box and the triangle closure. *)
  Record same_core (p p' : P) : Prop := {
    sc_verts : pverts p' = pverts p; sc_convex : pconvex p' = pconvex p; sc_simple : psimple p' = psimple p; sc_ypl : pypl p' = pypl p;
    sc_dupe : pdupe p' = pdupe p; sc_degen : pdegen p' = pdegen p; sc_centroid : pcentroid p' = pcentroid p; sc_max : pmaxr2 p' = pmaxr2 p; sc_min : pminr2 p' = pminr2 p;
    sc_box : pbbox p' = pbbox p \/ exists b, box_from_points (pverts p) = Ok b /\ pbbox p' = Some b }.
  Lemma same_refl p : same_core p p. Proof. split; auto. Qed.
  Lemma same_trans p q r : same_core p q -> same_core q r -> same_core p r.
  Proof. intros [] []. split; try congruence. destruct sc_box1 as [E|(b & E1 & E2)]; [|right; exists b; split; congruence]. destruct sc_box0 as [E'|(b & E1 & E2)]; [left; congruence|right; exists b; split; congruence]. Qed.
  Lemma same_settled p q : same_core p q -> settled p -> settled q.
  Proof. intros [] (H1 & H2 & H3). split; [congruence|split; congruence]. Qed.
  Lemma same_bbox (p : P) : same_core p (snd (get_bbox p)).
  Proof. unfold get_bbox. destruct (pbbox p) eqn:E; [apply same_refl|]. destruct (box_from_points (pverts p)) eqn:EB; [|apply same_refl]. split; auto. right. eauto. Qed.
  Lemma same_contains E q (p : P) : same_core p (snd (contains_point E q p)).
  Proof.
    unfold contains_point. destruct (Nat.eqb _ 3).
    - unfold triangle_test. destruct (ptri p); [apply same_refl|]. destruct (tri_build E (pverts p)) as [[c|]|]; try apply same_refl; split; auto.
    - destruct (radial_shortcut p q) as [[b|]|]; try apply same_refl. destruct (pypl p); [apply same_refl|]. destruct (Nat.eqb _ 4); [apply same_refl|].
      pose proof (same_bbox p) as H1. destruct (get_bbox p) as [[b|] p1]; cbn [snd] in *; auto. destruct (box_contains b q); auto.
  Qed.
  Lemma same_read q (p : P) : settled p -> same_core p (read_state q p).
  Proof.
    intros (H1 & H2 & H3). destruct q; cbn [read_state].
    - unfold get_is_convex. destruct (pconvex p); [apply same_refl|congruence].
    - unfold get_is_simple. destruct (psimple p); [apply same_refl|congruence].
    - unfold get_centroid. destruct (pcentroid p); [apply same_refl|congruence].
    - apply same_bbox.
    - apply same_contains.
    - unfold tangents_to_point, get_is_convex. destruct (Nat.ltb _ _); [|apply same_refl]. destruct (pconvex p) as [[|]|]; [|apply same_refl|congruence]. destruct (pdupe p) as [[|]|]; apply same_refl.
  Qed.
  Lemma same_reads qs : forall p : P, settled p -> same_core p (preads p qs).
  Proof.
    induction qs as [|q qs IH]; intros p H; [apply same_refl|]. pose proof (same_read q p H) as S. apply (same_trans _ (read_state q p)); [exact S|]. apply IH. apply (same_settled p); auto.
  Qed.
End Settled.
