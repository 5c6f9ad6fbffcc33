(** * The counted functions compute the same values *)
From Coq Require Import ZArith List Bool Lia.
From Verif Require Import Num Vec Affine Box Seq Polygon Tangent Hull Cost.
Import ListNotations.

Lemma fst_tick {A} k (m : A * nat) : fst (tick k m) = fst m. Proof. reflexivity. Qed.
Lemma fst_ret {A} (a : A) : fst (cret a) = a. Proof. reflexivity. Qed.
Lemma fst_bind {A B} (m : A * nat) (f : A -> B * nat) : fst (cbind m f) = fst (f (fst m)). Proof. reflexivity. Qed.
Lemma fst_rbind {A B} (m : res A * nat) (f : A -> res B * nat) : fst (rbind m f) = bind (fst m) (fun a => fst (f a)).
Proof. unfold rbind. rewrite fst_bind. destruct (fst m); reflexivity. Qed.
Lemma fst_copied {A} (l : list A) : fst (copied l) = l. Proof. reflexivity. Qed.
Lemma bind_ext {A B} (r r' : res A) (f g : A -> res B) : r = r' -> (forall a, f a = g a) -> bind r f = bind r' g.
Proof. intros -> H. destruct r'; cbn; auto. Qed.

Lemma fold_c_eq {A B} (f : A -> B -> A) l : forall a, fold_c f l a = (fold_left f l a, length l).
Proof. induction l as [|b l IH]; intro a; [reflexivity|]. cbn [fold_c fold_left length]. rewrite IH. reflexivity. Qed.
Lemma map_c_eq {A B} (f : A -> B) l : map_c f l = (map f l, length l).
Proof. induction l as [|b l IH]; [reflexivity|]. cbn [map_c map length]. rewrite IH. unfold tick, cbind, tick, cret. cbn. f_equal. lia. Qed.
Lemma existsb_c_fst {A} (f : A -> bool) l : fst (existsb_c f l) = existsb f l.
Proof. induction l as [|b l IH]; [reflexivity|]. cbn [existsb_c existsb]. rewrite fst_tick. destruct (f b); auto. Qed.
Lemma existsb_c_snd {A} (f : A -> bool) l : (snd (existsb_c f l) <= length l)%nat.
Proof. induction l as [|b l IH]; [cbn; lia|]. cbn [existsb_c length]. unfold tick. cbn [snd]. destruct (f b); cbn; lia. Qed.

Ltac erase := repeat first [rewrite fst_tick | rewrite fst_ret | rewrite fst_rbind | rewrite fst_bind | rewrite fst_copied | rewrite fold_c_eq | rewrite map_c_eq]; cbn [fst snd].

Section Erase.
  Context {T : Type} {N : Num T}.
  Notation V := (vec T).
  Notation P := (poly T).
  Variable sortc : nat -> nat.

  Lemma classify_loop_erase ds : forall ld d ch a k, fst (classify_loop_c (N:=N) ld d ch a k ds) = classify_loop ld d ch a k ds.
  Proof.
    induction ds as [|x ds IH]; intros; [reflexivity|]. cbn [classify_loop_c classify_loop]. rewrite fst_tick. cbv zeta.
    repeat match goal with |- context [if ?b then _ else _] => destruct b end; auto.
  Qed.
  Lemma edges_erase vs : forall p, fst (edges_c (N:=N) p vs) = filter vec_bool (edges_from p vs).
  Proof. induction vs as [|v vs IH]; intro; [reflexivity|]. cbn [edges_c edges_from filter]. cbv zeta. erase. rewrite IH. destruct (vec_bool _); reflexivity. Qed.
  Lemma edge_vectors_erase vs : fst (edge_vectors_c (N:=N) vs) = filter vec_bool (edge_vectors vs).
  Proof. destruct vs; [reflexivity|]. apply edges_erase. Qed.
  Lemma classify_core_erase vs : fst (classify_core_c (N:=N) vs) = classify_core vs.
  Proof.
    unfold classify_core_c, classify_core. erase. apply bind_ext; [reflexivity|intro vl]. erase. apply bind_ext; [reflexivity|intro vl2].
    cbv zeta. erase. rewrite edge_vectors_erase, classify_loop_erase. destruct (classify_loop _ _ _ _ _ _) as [[[c dc] s] k]. reflexivity.
  Qed.
  Lemma orient_pl_erase pl : fst (orient_pl_c (N:=N) pl) = orient_pl pl.
  Proof. destruct pl as [|q pl]; [reflexivity|]. cbn [orient_pl_c orient_pl]. destruct (nltb _ _); reflexivity. Qed.
  Lemma split_erase vs : fst (split_y_polylines_c (N:=N) vs) = split_y_polylines vs.
  Proof.
    unfold split_y_polylines_c, split_y_polylines. erase. apply bind_ext.
    { unfold find_extrema_c, find_extrema. destruct vs; [reflexivity|]. erase. reflexivity. }
    intro e. cbv zeta. erase. destruct (Nat.ltb _ _); erase; rewrite !orient_pl_erase; destruct (_ || _); reflexivity.
  Qed.
  Lemma classify_erase p : fst (classify_c (N:=N) p) = classify p.
  Proof.
    unfold classify_c, classify. cbv zeta. erase. apply bind_ext; [apply classify_core_erase|]. intros [[c d] k]. destruct (c && negb d); erase; auto.
    apply bind_ext; [apply split_erase|]. reflexivity.
  Qed.
  Lemma is_convex_erase p : fst (get_is_convex_c (N:=N) p) = get_is_convex p.
  Proof. unfold get_is_convex_c, get_is_convex. destruct (pconvex p); auto. erase. rewrite classify_erase. destruct (classify p) as [p'|]; auto. destruct (pconvex p'); auto. Qed.
  Lemma poly_new_erase vs c s : fst (poly_new_c (N:=N) vs c s) = poly_new vs c s.
  Proof.
    unfold poly_new_c, poly_new, seq_new. erase. cbv zeta. destruct (Nat.ltb _ 3); auto. erase. apply bind_ext.
    - destruct c as [c|]; auto. destruct (pconvex _); auto. destruct (c && _); auto. erase. apply bind_ext; [apply split_erase|reflexivity].
    - intro p. destruct s; auto. destruct (psimple p); auto.
  Qed.
  Lemma bbox_erase p : fst (get_bbox_c (N:=N) p) = get_bbox p.
  Proof.
    unfold get_bbox_c, get_bbox. destruct (pbbox p); auto. erase.
    assert (E : fst (box_from_points_c (pverts p)) = box_from_points (pverts p)).
    { unfold box_from_points_c, box_from_points. destruct (pverts p) as [|v vs]; auto. erase. destruct (fold_left _ _ _) as [[[a b] c] d]. reflexivity. }
    rewrite E. destruct (box_from_points _); reflexivity.
  Qed.
  Lemma sweep_erase li pts : forall open, fst (sweep_c (N:=N) li open pts) = sweep li open pts.
  Proof.
    induction pts as [|[[s e] i] pts IH]; intro; [reflexivity|]. cbn [sweep_c sweep]. rewrite fst_tick. match goal with |- context [existsb ?f open] => destruct (existsb f open) end; auto. erase.
    assert (E : fst (hits_open_c li (s, e, i) open) = hits_open li (s, e, i) open) by apply existsb_c_fst. rewrite E. destruct (hits_open _ _ _); auto.
  Qed.
  Lemma check_erase vs : fst (check_is_simple_c (N:=N) sortc vs) = check_is_simple vs.
  Proof. unfold check_is_simple_c, check_is_simple, sweep_points. cbv zeta. erase. rewrite map_id. apply sweep_erase. Qed.
  Lemma is_simple_erase p : fst (get_is_simple_c (N:=N) sortc p) = get_is_simple p.
  Proof.
    unfold get_is_simple_c, get_is_simple. destruct (psimple p) eqn:HS; auto. erase. destruct (pconvex p) eqn:HC.
    - erase. rewrite HS. erase. rewrite check_erase. reflexivity.
    - rewrite classify_erase. destruct (classify p) as [p1|]; auto. destruct (psimple p1); auto. erase. rewrite check_erase. reflexivity.
  Qed.
  Lemma centroid_erase p : fst (get_centroid_c (N:=N) sortc p) = get_centroid p.
  Proof.
    unfold get_centroid_c, get_centroid. destruct (pcentroid p); auto. erase. rewrite is_simple_erase. destruct (get_is_simple p) as [[[|]|] p1]; auto. erase.
    assert (E : fst (centroid_value_c (pverts p1)) = centroid_value (pverts p1)).
    { unfold centroid_value_c, centroid_value. destruct (pverts p1) as [|a [|b vs]]; auto. erase. destruct (fold_left _ _ _) as [[x y] z]. reflexivity. }
    rewrite E. destruct (centroid_value _); reflexivity.
  Qed.
  Lemma wind_loop_eq p vs : forall v0 w, wind_loop_c (N:=N) p v0 w vs = (wind_loop p v0 w vs, length vs).
  Proof. induction vs as [|v vs IH]; intros; [reflexivity|]. cbn [wind_loop_c wind_loop length]. rewrite IH. reflexivity. Qed.
  Lemma winding_erase vs p : fst (winding_test_c (N:=N) vs p) = winding_test vs p.
  Proof. unfold winding_test_c, winding_test. erase. apply bind_ext; [reflexivity|]. intro v. erase. rewrite wind_loop_eq. reflexivity. Qed.
  Lemma bisect_erase a py fuel : forall lo hi, fst (bisect_loop_c (N:=N) fuel a py lo hi) = bisect_loop fuel a py lo hi.
  Proof.
    induction fuel as [|f IH]; intros; [reflexivity|]. cbn [bisect_loop_c bisect_loop]. destruct (Nat.ltb lo hi); auto. rewrite fst_tick. cbv zeta.
    destruct (nth_error _ _); auto. destruct (key_before _ _); auto.
  Qed.
  Lemma y_monotone_erase pl p : fst (y_monotone_test_c (N:=N) pl p) = y_monotone_test pl p.
  Proof.
    unfold y_monotone_test_c, y_monotone_test, bisect_right_c, bisect_right. destruct pl as [lp rp]. erase. apply bind_ext; [apply bisect_erase|]. intro i.
    destruct (_ || _); auto. erase. apply bind_ext; [reflexivity|]. intro q0. erase. apply bind_ext; [reflexivity|]. intro q1. destruct (nltb _ _); auto.
    erase. apply bind_ext; [apply bisect_erase|]. intro j. erase. apply bind_ext; [reflexivity|]. intro. erase. apply bind_ext; reflexivity.
  Qed.
  Lemma triangle_erase E pt p : fst (triangle_test_c (N:=N) sortc E pt p) = triangle_test E pt p.
  Proof. unfold triangle_test_c, triangle_test. destruct (ptri p); auto. erase. destruct (tri_build E (pverts p)) as [[c|]|]; auto. Qed.
  Lemma contains_erase E pt p : fst (contains_point_c (N:=N) sortc E pt p) = contains_point E pt p.
  Proof.
    unfold contains_point_c, contains_point. cbv zeta. destruct (Nat.eqb _ 3); [apply triangle_erase|]. destruct (radial_shortcut p pt) as [[b|]|]; auto.
    destruct (pypl p); [erase; rewrite y_monotone_erase; auto|]. destruct (Nat.eqb _ 4); erase; [rewrite winding_erase; auto|]. rewrite bbox_erase.
    destruct (get_bbox p) as [[b|] p1]; auto. destruct (box_contains b pt); auto. erase. rewrite winding_erase. auto.
  Qed.
  Lemma pt_tangents_erase vs p : fst (pt_tangents_c (N:=N) vs p) = pt_tangents vs p.
  Proof.
    unfold pt_tangents_c, pt_tangents. erase. apply bind_ext; [reflexivity|]. intro f. erase. apply bind_ext; [reflexivity|]. intro v0. erase. apply bind_ext; [reflexivity|]. intro v1.
    cbv zeta. erase. destruct (fold_left _ _ _) as [[[a b] c] d]. reflexivity.
  Qed.
  Lemma left_loop_erase vs p limit : forall a b, fst (left_tan_loop_c (N:=N) vs p limit a b) = left_tan_loop vs p limit a b.
  Proof.
    induction limit as [|limit IH]; intros; [reflexivity|]. cbn [left_tan_loop_c left_tan_loop]. rewrite fst_tick. cbv zeta. erase. apply bind_ext; [reflexivity|]. intro vc1.
    erase. apply bind_ext; [reflexivity|]. intro vc. erase. apply bind_ext; [destruct (negb _); erase; auto; apply bind_ext; reflexivity|]. intros [|]; auto.
    erase. apply bind_ext; [reflexivity|]. intro va1. erase. apply bind_ext; [reflexivity|]. intro va. repeat match goal with |- context [if ?b then _ else _] => destruct b end; auto.
  Qed.
  Lemma right_loop_erase vs p limit : forall a b, fst (right_tan_loop_c (N:=N) vs p limit a b) = right_tan_loop vs p limit a b.
  Proof.
    induction limit as [|limit IH]; intros; [reflexivity|]. cbn [right_tan_loop_c right_tan_loop]. rewrite fst_tick. cbv zeta. erase. apply bind_ext; [reflexivity|]. intro vc1.
    erase. apply bind_ext; [reflexivity|]. intro vc. erase. apply bind_ext; [destruct (pt_below _ _ _); erase; auto; apply bind_ext; reflexivity|]. intros [|]; auto.
    erase. apply bind_ext; [reflexivity|]. intro va1. erase. apply bind_ext; [reflexivity|]. intro va. repeat match goal with |- context [if ?b then _ else _] => destruct b end; auto.
  Qed.
  Lemma left_i_erase vs p : fst (left_tan_i_convex_c (N:=N) vs p) = left_tan_i_convex vs p.
  Proof.
    unfold left_tan_i_convex_c, left_tan_i_convex. erase. apply bind_ext; [reflexivity|]. intro. erase. apply bind_ext; [reflexivity|]. intro. erase. apply bind_ext; [reflexivity|]. intro.
    destruct (_ && _); auto. apply left_loop_erase.
  Qed.
  Lemma right_i_erase vs p : fst (right_tan_i_convex_c (N:=N) vs p) = right_tan_i_convex vs p.
  Proof.
    unfold right_tan_i_convex_c, right_tan_i_convex. erase. apply bind_ext; [reflexivity|]. intro. erase. apply bind_ext; [reflexivity|]. intro. erase. apply bind_ext; [reflexivity|]. intro.
    destruct (_ && _); auto. apply right_loop_erase.
  Qed.
  Lemma tangents_erase pt p : fst (tangents_to_point_c (N:=N) pt p) = tangents_to_point pt p.
  Proof.
    unfold tangents_to_point_c, tangents_to_point. destruct (Nat.ltb 20 _); [|erase; rewrite pt_tangents_erase; auto]. erase. rewrite is_convex_erase.
    destruct (get_is_convex p) as [[[|]|] p1]; auto; [|erase; rewrite pt_tangents_erase; auto]. destruct (pdupe p1) as [[|]|]; erase; try (rewrite pt_tangents_erase; auto).
    f_equal. apply bind_ext; [apply left_i_erase|]. intro i. erase. apply bind_ext; [reflexivity|]. intro l. erase. apply bind_ext; [apply right_i_erase|]. intro j. erase. apply bind_ext; reflexivity.
  Qed.

  Variable set_order : list V -> list V.
  Lemma far_erase pts p0 p1 : find_furthest_c (N:=N) pts p0 p1 = (find_furthest pts p0 p1, length pts).
  Proof. unfold find_furthest_c, find_furthest. rewrite fold_c_eq. unfold cbind, tick, cret. cbn. f_equal. lia. Qed.
  Lemma partition_erase pts p0 p1 pp : fst (partition_pts_c (N:=N) pts p0 p1 pp) = partition_pts pts p0 p1 pp.
  Proof. unfold partition_pts_c, partition_pts. cbv zeta. destruct (nfalsy _); auto. erase. apply bind_ext; [reflexivity|]. intro. erase. reflexivity. Qed.
  Lemma pop_erase p st : fst (scan_pop_c (N:=N) p st) = scan_pop p st.
  Proof.
    induction st as [|a st IH]; [reflexivity|]. destruct st as [|b st]; [reflexivity|]. cbn [scan_pop_c scan_pop]. rewrite fst_tick. destruct (nleb _ _); auto.
  Qed.
  Lemma scan_erase pts : forall st, fst (scan_c (N:=N) pts st) = fold_left scan_step pts st.
  Proof. induction pts as [|p pts IH]; intro; [reflexivity|]. cbn [scan_c fold_left]. erase. rewrite IH, pop_erase. reflexivity. Qed.
  Lemma sort_erase pts p0 p1 : fst (ahull_sort_c (N:=N) sortc pts p0 p1) = ahull_sort pts p0 p1.
  Proof. unfold ahull_sort_c, ahull_sort. cbv zeta. erase. rewrite scan_erase. reflexivity. Qed.
  Lemma ahull_erase fuel : forall pts p0 p1, fst (ahull_partition_c (N:=N) sortc fuel pts p0 p1) = ahull_partition fuel pts p0 p1.
  Proof.
    induction fuel as [|f IH]; intros; [reflexivity|]. cbn [ahull_partition_c ahull_partition]. rewrite fst_tick, fst_bind, far_erase. cbn [fst]. destruct (find_furthest pts p0 p1) as [pp0|]; auto. cbv zeta.
    erase. apply bind_ext; [apply partition_erase|]. intros [l r]. erase. apply bind_ext.
    - destruct (Nat.leb _ 1); auto. destruct (Nat.leb _ _); auto. erase. rewrite sort_erase. auto.
    - intro h1. erase. apply bind_ext; [|reflexivity]. destruct (Nat.leb _ 1); auto. destruct (Nat.leb _ _); auto. erase. rewrite sort_erase. auto.
  Qed.
  Lemma quick_erase pts : fst (quick_hull_c (N:=N) sortc set_order pts) = quick_hull set_order pts.
  Proof.
    unfold quick_hull_c, quick_hull. destruct pts as [|p pts]; auto. erase. destruct (fold_left lr_step _ _) as [l r]. unfold upper_lower_c, upper_lower. cbv zeta. erase.
    destruct (fold_left _ _ ([], [])) as [up lo]. erase. apply bind_ext; [destruct (set_discard (set_discard up l) r); auto; apply ahull_erase|].
    intro h1. erase. apply bind_ext; [destruct (set_discard (set_discard lo l) r); auto; apply ahull_erase|reflexivity].
  Qed.
  Lemma hull_erase pts : fst (convex_hull_c (N:=N) sortc set_order pts) = convex_hull set_order pts.
  Proof. unfold convex_hull_c, convex_hull. erase. apply bind_ext; [apply quick_erase|]. intro. apply poly_new_erase. Qed.
  Lemma hull_poly_erase p : fst (convex_hull_poly_c (N:=N) sortc set_order p) = convex_hull_poly set_order p.
  Proof. unfold convex_hull_poly_c, convex_hull_poly. destruct (pconvex p) as [[|]|]; auto; apply hull_erase. Qed.
End Erase.
