(** * The stored chains belong to the current vertices *)
From Coq Require Import ZArith List Bool Arith Lia.
From Verif Require Import Num Vec Affine Box Seq Polygon Tangent PolyOps BoxFacts2 PolyCache PolyCache2 PolyCache3 PolyCache4.
Import ListNotations.

Section Chains.
  Context {T : Type} {N : Num T}.
  Notation P := (poly T).
  Definition yok (p : P) : Prop := forall pl, pypl p = Some pl -> split_y_polylines (pverts p) = Ok pl.
  Lemma yok_cleared vs t : yok (cleared vs t).
  Proof. intros pl H. discriminate. Qed.
  Lemma yok_ext (p q : P) : yok p -> pverts q = pverts p -> pypl q = pypl p -> yok q.
  Proof. intros H E1 E2 pl K. rewrite E1. apply H. congruence. Qed.
  Lemma yok_classify (p p1 : P) : yok p -> classify p = Ok p1 -> yok p1.
  Proof.
    intros H E. unfold classify in E. destruct (classify_core _) as [[[c d] k]|]; cbn [bind] in E; [|discriminate].
    destruct (c && negb d).
    - destruct (split_y_polylines _) as [pl|] eqn:S; cbn [bind] in E; [|discriminate]. injection E as <-. intros pl' K. cbn in *. congruence.
    - injection E as <-. apply (yok_ext p); auto.
  Qed.
  Lemma yok_convex (p : P) : yok p -> yok (snd (get_is_convex p)).
  Proof.
    intro H. unfold get_is_convex. destruct (pconvex p); auto. destruct (classify p) as [p1|] eqn:E; auto.
    pose proof (yok_classify _ _ H E). destruct (pconvex p1); auto.
  Qed.
  Lemma yok_simple (p : P) : yok p -> yok (snd (get_is_simple p)).
  Proof.
    intro H. unfold get_is_simple. destruct (psimple p) eqn:E0; auto. destruct (pconvex p); [rewrite E0; apply (yok_ext p); auto|]. destruct (classify p) as [p1|] eqn:E; auto.
    pose proof (yok_classify _ _ H E) as K. destruct (psimple p1); cbn [snd]; auto.
  Qed.
  Lemma yok_centroid (p : P) : yok p -> yok (snd (get_centroid p)).
  Proof.
    intro H. unfold get_centroid. destruct (pcentroid p); auto. pose proof (yok_simple p H) as H1.
    destruct (get_is_simple p) as [[[|]|] p1]; cbn [snd] in *; auto. destruct (centroid_value (pverts p1)); auto.
  Qed.
  Lemma yok_bbox (p : P) : yok p -> yok (snd (get_bbox p)).
  Proof. intro H. unfold get_bbox. destruct (pbbox p); auto. destruct (box_from_points (pverts p)); auto. Qed.
  Lemma yok_contains E pt (p : P) : yok p -> yok (snd (contains_point E pt p)).
  Proof.
    intro H. unfold contains_point. destruct (Nat.eqb _ 3).
    - unfold triangle_test. destruct (ptri p); auto. destruct (tri_build E (pverts p)) as [[c|]|]; auto.
    - destruct (radial_shortcut p pt) as [[b|]|]; auto. destruct (pypl p); auto. destruct (Nat.eqb _ 4); auto.
      pose proof (yok_bbox p H) as H1. destruct (get_bbox p) as [[b|] p1]; cbn [snd] in *; auto. destruct (box_contains b pt); auto.
  Qed.
  Lemma yok_op o (p : P) : yok p -> yok (op_state o p).
  Proof.
    intro H. destruct o as [q|i v|m| |]; cbn [op_state].
    - destruct q; cbn [read_state]; auto using yok_convex, yok_simple, yok_centroid, yok_bbox, yok_contains.
      unfold tangents_to_point. destruct (Nat.ltb _ _); auto. pose proof (yok_convex p H) as H1.
      destruct (get_is_convex p) as [[[|]|] p1]; cbn [snd] in *; auto. destruct (pdupe p1) as [[|]|]; auto.
    - unfold poly_setitem. destruct (py_set _ _ _); auto. apply yok_cleared.
    - apply yok_cleared.
    - exact H.
    - intros pl K. discriminate.
  Qed.
  Lemma yok_run os : forall p : P, yok p -> yok (prun p os).
  Proof. induction os as [|o os IH]; intros p H; cbn; auto. apply IH, yok_op; auto. Qed.
  (** The binary-search path of a point query. *)
  Lemma chains_contains (E : T) (pt : vec T) (p : P) pl : rnone p -> pypl p = Some pl -> (3 < length (pverts p))%nat -> pcentroid p <> Some None ->
    fst (contains_point E pt p) = y_monotone_test pl pt.
  Proof.
    intros [Hr1 Hr2] Hy HL Hcen. unfold contains_point. destruct (Nat.eqb_spec (length (pverts p)) 3); [lia|].
    assert (HR : radial_shortcut p pt = Ok None).
    { unfold radial_shortcut. rewrite Hr1, Hr2. destruct (Nat.ltb 4 _); auto. destruct (pcentroid p) as [[c|]|]; auto. congruence. }
    rewrite HR, Hy. reflexivity.
  Qed.
  (** A polygon that counts as simple never stores the absent centroid. *)
  Lemma simple_centroid (p : P) : coh p -> fst (get_is_simple (pfresh (pverts p))) = Ok true -> pcentroid p <> Some None.
  Proof.
    intros H Hs K. pose proof (co_centroid _ H None K) as K1. unfold get_centroid in K1. rewrite pfresh_centroid in K1.
    destruct (get_is_simple (pfresh (pverts p))) as [r p1]. cbn [fst] in Hs. subst r. destruct (centroid_value (pverts p1)); cbn in K1; discriminate.
  Qed.
  Lemma convex_simple (vs : list (vec T)) : fst (get_is_convex (pfresh vs)) = Ok true -> fst (get_is_simple (pfresh vs)) = Ok true.
  Proof.
    intro H. destruct (Nat.le_gt_cases (length vs) 3) as [L|L].
    - unfold get_is_simple. destruct (pfresh_small vs L) as (_ & ->). reflexivity.
    - unfold get_is_simple, get_is_convex in *. destruct (pfresh_big vs L) as (-> & -> & _). rewrite (proj1 (pfresh_big vs L)) in H. unfold classify in *.
      destruct (classify_core _) as [[[c d] k]|]; cbn [bind] in *; [|discriminate]. destruct (c && negb d) eqn:E.
      + destruct (split_y_polylines _); cbn [bind] in *; [|discriminate]. cbn in *. injection H as ->. reflexivity.
      + cbn in *. injection H as ->. reflexivity.
  Qed.
End Chains.
