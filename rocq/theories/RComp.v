(** * Evaluating the model over the reals at integer points *)
From Coq Require Import ZArith QArith Qreals List Bool Reals.
From Verif Require Import Num Vec Affine Box Seq Polygon Hull NumHom PolyCache PolyCache2.
Import ListNotations.

(** The point with the given integer coordinates. *)
Definition zv (p : Z * Z) : vec R := mkV (IZR (fst p)) (IZR (snd p)).
Definition qv (p : Z * Z) : vec Q := mkV (inject_Z (fst p)) (inject_Z (snd p)).
Notation hQ := (@hv Q R Q2R).
Lemma zv_qv p : zv p = hQ (qv p).
Proof. unfold zv, qv, hv. cbn [vx vy]. rewrite !Q2R_lit. reflexivity. Qed.
Lemma map_zv l : map zv l = map hQ (map qv l).
Proof. rewrite map_map. apply map_ext. exact zv_qv. Qed.

Lemma z_classify_core l : classify_core (map zv l) = classify_core (map qv l).
Proof. rewrite map_zv. apply (h_classify_core Q2R_hom). Qed.
Lemma z_split l : split_y_polylines (map zv l) = rmap (@hpl Q R Q2R) (split_y_polylines (map qv l)).
Proof. rewrite map_zv. apply (h_split Q2R_hom). Qed.
Lemma z_y_monotone pl p : y_monotone_test (@hpl Q R Q2R pl) (zv p) = y_monotone_test pl (qv p).
Proof. rewrite zv_qv. apply (h_y_monotone Q2R_hom). Qed.
Lemma z_winding l p : winding_test (map zv l) (zv p) = winding_test (map qv l) (qv p).
Proof. rewrite map_zv, zv_qv. apply (h_winding Q2R_hom). Qed.
Lemma z_check_is_simple l : check_is_simple (map zv l) = check_is_simple (map qv l).
Proof. rewrite map_zv. apply (h_check_is_simple Q2R_hom). Qed.
Lemma z_poly_eqb l m : poly_eqb_verts (map zv l) (map zv m) = poly_eqb_verts (map qv l) (map qv m).
Proof. rewrite !map_zv. apply (h_poly_eqb Q2R_hom). Qed.
Lemma z_quick_hull l : quick_hull (fun x => x) (map zv l) = rmap (map hQ) (quick_hull (fun x => x) (map qv l)).
Proof. rewrite map_zv. apply (h_quick_hull Q2R_hom). Qed.

Section Steps.
  Context {T : Type} {N : Num T}.
  Notation P := (poly T).
  Lemma contains_wind4 E pt (p : P) : length (pverts p) = 4%nat -> pypl p = None -> contains_point E pt p = (winding_test (pverts p) pt, p).
  Proof. intros H1 H2. unfold contains_point, radial_shortcut. rewrite H1, H2. reflexivity. Qed.
  Lemma contains_pl4 E pt (p : P) pl : length (pverts p) = 4%nat -> pypl p = Some pl -> contains_point E pt p = (y_monotone_test pl pt, p).
  Proof. intros H1 H2. unfold contains_point, radial_shortcut. rewrite H1, H2. reflexivity. Qed.
  Lemma convex_detected vs k pl : (3 < length vs)%nat -> classify_core vs = Ok (true, false, k) -> split_y_polylines vs = Ok pl ->
    get_is_convex (pfresh vs) = (Ok true, mkPoly vs (Some true) (Some true) (Some pl) (Some (Nat.ltb k (length vs))) (Some false) None None None None None).
  Proof.
    intros H1 H2 H3. unfold get_is_convex, classify. destruct (pfresh_big vs H1) as (-> & _). rewrite pverts_fresh, H2. cbn [bind andb negb]. rewrite H3. cbn [bind pconvex].
    unfold pfresh, poly_from_points, cleared. apply Nat.ltb_lt in H1. rewrite H1. reflexivity.
  Qed.
  Lemma nonsimple_detected vs d k : (3 < length vs)%nat -> classify_core vs = Ok (false, d, k) -> check_is_simple vs = false ->
    get_centroid (pfresh vs) = (Ok None, mkPoly vs (Some false) (Some false) None None (Some d) None (Some None) None None None).
  Proof.
    intros H1 H2 H3. unfold get_centroid, get_is_simple, classify. destruct (pfresh_big vs H1) as (-> & -> & -> & _). rewrite pverts_fresh, H2. cbn [bind andb psimple pverts].
    rewrite H3. unfold pfresh, poly_from_points, cleared. apply Nat.ltb_lt in H1. rewrite H1. reflexivity.
  Qed.
End Steps.
