(** * C65 and C108 on doubles *)
From Coq Require Import ZArith List Bool Reals Lra Lia Floats.
From Flocq Require Import Core IEEE754.PrimFloat IEEE754.BinarySingleNaN.
From Verif Require Import Num NumFloat Vec Affine Box Seq Polygon Tangent PolyOps SpecPoly SpecGeom SpecCycle SpecMass SpecWind SpecConvex SpecSimple SpecExact RBase OrdLaws FloatFacts FloatFacts2 FloatExact FloatErr FloatVec RelPoly RelEq
  PolyCache PolyCache2 PolyCache3 NumHom RComp VecFacts2 HeapFacts PropPoly PropConvex PropPnp PropPolyEq PropSimple PropSimple2 PropSplit PropExact PropExact2 PropSame.
Import ListNotations.
Local Open Scope R_scope.

Lemma finite_eqb (L : FloatLib) a b : finite_vec a -> finite_vec b -> @vec_eqb _ (FNum L) a b = vec_eqb (vecR a) (vecR b).
Proof. intros [A1 A2] [B1 B2]. unfold vec_eqb. cbn [neqb FNum RNum vx vy vecR]. rewrite !toR_eq; auto. Qed.
Lemma finite_neb (L : FloatLib) a b : finite_vec a -> finite_vec b -> @vec_neb _ (FNum L) a b = vec_neb (vecR a) (vecR b).
Proof. intros [A1 A2] [B1 B2]. unfold vec_neb. cbn [neqb FNum RNum vx vy vecR]. rewrite !toR_eq; auto. Qed.
Lemma finite_poly_eqb (L : FloatLib) l m : Forall finite_vec l -> Forall finite_vec m -> @poly_eqb_verts _ (FNum L) l m = poly_eqb_verts (map vecR l) (map vecR m).
Proof.
  intros Fl Fm. apply (e_poly_eqb (fun v w => finite_vec v /\ vecR v = w)).
  - intros a b a' b' [A <-] [B <-]. apply finite_eqb; auto.
  - intros a b a' b' [A <-] [B <-]. apply finite_neb; auto.
  - induction Fl; cbn; constructor; auto.
  - induction Fm; cbn; constructor; auto.
Qed.

(** Polygons of finite doubles are equal exactly if the exact polygons are. *)
Theorem C65_doubles : forall (L : FloatLib) (p q : poly PrimFloat.float) (P Q : poly R), Forall finite_vec (pverts p) -> Forall finite_vec (pverts q) ->
  pverts P = map vecR (pverts p) -> pverts Q = map vecR (pverts q) -> let N := FNum L in
  poly_eqb p q = poly_eqb P Q /\ poly_neb p q = poly_neb P Q.
Proof. intros L p q P Q Fp Fq EP EQ N. unfold poly_neb, poly_eqb, N. rewrite EP, EQ, (finite_poly_eqb L); auto. Qed.
Print Assumptions C65_doubles.
(** With distinct vertices: exactly if they are the same cycle. *)
Theorem C65_doubles_distinct_partial : forall (L : FloatLib) (p q : poly PrimFloat.float), Forall finite_vec (pverts p) -> Forall finite_vec (pverts q) ->
  (3 <= length (pverts p))%nat -> (3 <= length (pverts q))%nat -> NoDup (map vecR (pverts p)) -> let N := FNum L in
  (poly_eqb p q = Ok true <-> same_cycle (map vecR (pverts p)) (map vecR (pverts q))).
Proof.
  intros L p q Fp Fq Lp Lq D N. destruct (C65_doubles L p q (poly_from_points (map vecR (pverts p))) (poly_from_points (map vecR (pverts q)))) as [E _]; auto. fold N in E. rewrite E.
  apply (C65_distinct_partial (poly_from_points (map vecR (pverts p))) (poly_from_points (map vecR (pverts q)))); auto; cbn; rewrite map_length; auto.
Qed.
Print Assumptions C65_doubles_distinct_partial.

Section Twin2.
  Context (L : FloatLib) (e : Z) (vs : list (vec PrimFloat.float)) (os : list (pop PrimFloat.float)).
  Context (He : (-537 <= e <= 485)%Z) (Hvs : Forall (vec_on_grid e) vs) (Hn : (4 <= length vs)%nat) (Hos : Forall (grid_op e) os).
  Notation p := (@prun _ (FNum L) (poly_from_points vs) os).
  Notation q := (prun (poly_from_points (map vecR vs)) (map opR os)).
  Lemma twin_convex : fst (@get_is_convex _ (FNum L) p) = fst (get_is_convex q).
  Proof using He Hvs Hn Hos. apply rres_eq, (r_get_convex (grid e) (grid_laws L e (proj1 He) (proj2 He)) _ _ (grid_from_points L e vs os He Hvs Hn Hos)). Qed.
  Lemma twin_finite : Forall finite_vec (pverts p).
  Proof using He Hvs Hn Hos.
    pose proof (grid_from_points L e vs os He Hvs Hn Hos) as HP. assert (F : Forall2 (rv (grid e)) (pverts p) (pverts q)) by apply HP. revert F. generalize (pverts p) (pverts q). clear.
    intros l m F. induction F as [|v w l m [[A _] [B _]] F IH]; constructor; auto. split; auto.
  Qed.
  Lemma twin_box : rmap boxR (fst (@get_bbox _ (FNum L) p)) = fst (get_bbox q).
  Proof using He Hvs Hn Hos.
    destruct (r_get_bbox (grid e) (grid_laws L e (proj1 He) (proj2 He)) _ _ (grid_from_points L e vs os He Hvs Hn Hos)) as [HB _]. revert HB.
    generalize (fst (@get_bbox _ (FNum L) p)) (fst (get_bbox q)). clear. intros [b|x] [c|y] H; cbn in *; try contradiction; [|congruence]. f_equal.
    destruct b as [[a1 a2] [a3 a4]], c as [[b1 b2] [b3 b4]]. destruct H as [[(_ & H1 & _) (_ & H2 & _)] [(_ & H3 & _) (_ & H4 & _)]]. cbn in *. unfold boxR, vecR. cbn. congruence.
  Qed.
  Lemma twin_length : length (pverts q) = length vs.
  Proof using L He Hvs Hn Hos. rewrite <- (twin_verts L e vs os He Hvs Hn Hos), map_length, prun_verts, writes_length. auto. Qed.
End Twin2.

(** Equal polygons of doubles on a grid, after any two histories: same
    convexity, simplicity and bounding box, when the vertices are distinct. *)
Theorem C108_doubles : forall (L : FloatLib) (e : Z) (vs ws : list (vec PrimFloat.float)) (os os' : list (pop PrimFloat.float)),
  (-537 <= e <= 485)%Z -> Forall (vec_on_grid e) vs -> Forall (vec_on_grid e) ws -> (4 <= length vs)%nat -> (4 <= length ws)%nat -> Forall (grid_op e) os -> Forall (grid_op e) os' ->
  let N := FNum L in let p := prun (poly_from_points vs) os in let q := prun (poly_from_points ws) os' in
  NoDup (map vecR (pverts p)) -> poly_eqb p q = Ok true ->
  fst (get_is_convex p) = fst (get_is_convex q) /\ fst (get_is_simple p) = fst (get_is_simple q) /\ rmap boxR (fst (get_bbox p)) = rmap boxR (fst (get_bbox q)).
Proof.
  intros L e vs ws os os' He Hv Hw Lv Lw Ho Ho' N p q D H. unfold p, q, N in *.
  set (P := prun (poly_from_points (map vecR vs)) (map opR os)). set (Q := prun (poly_from_points (map vecR ws)) (map opR os')).
  assert (EP := twin_verts L e vs os He Hv Lv Ho). assert (EQ := twin_verts L e ws os' He Hw Lw Ho'). fold P in EP. fold Q in EQ.
  assert (LP := twin_length L e vs os He Hv Lv Ho). fold P in LP.
  rewrite (proj1 (C65_doubles L _ _ P Q (twin_finite L e vs os He Hv Lv Ho) (twin_finite L e ws os' He Hw Lw Ho') (eq_sym EP) (eq_sym EQ))) in H. rewrite EP in D.
  destruct (C108_distinct (map vecR vs) (map vecR ws) (map opR os) (map opR os')) as (A & B & _ & C); auto; [fold P; lia|]. fold P Q in A, B, C.
  rewrite (twin_convex L e vs os He Hv Lv Ho), (twin_convex L e ws os' He Hw Lw Ho'), (twin_simple L e vs os He Hv Lv Ho), (twin_simple L e ws os' He Hw Lw Ho'), (twin_box L e vs os He Hv Lv Ho), (twin_box L e ws os' He Hw Lw Ho').
  fold P Q. auto.
Qed.
Print Assumptions C108_doubles.
(** Newly made equal polygons contain the same points of the grid. *)
Theorem C108_doubles_contains : forall (L : FloatLib) (e : Z) (vs ws : list (vec PrimFloat.float)) (E E' : PrimFloat.float) (x : vec PrimFloat.float),
  (-537 <= e <= 485)%Z -> Forall (vec_on_grid e) vs -> Forall (vec_on_grid e) ws -> (4 <= length vs)%nat -> (4 <= length ws)%nat -> vec_on_grid e x ->
  let N := FNum L in poly_eqb (poly_from_points vs) (poly_from_points ws) = Ok true ->
  fst (contains_point E x (poly_from_points vs)) = fst (contains_point E' x (poly_from_points ws)).
Proof.
  intros L e vs ws E E' x He Hv Hw Lv Lw Hx N H.
  assert (A := twin_contains L e vs [] He Hv Lv (Forall_nil _) E 0 x Hx). assert (B := twin_contains L e ws [] He Hw Lw (Forall_nil _) E' 0 x Hx). cbn [map prun fold_left] in A, B. unfold prun in A, B. cbn [fold_left] in A, B. unfold N. rewrite A, B.
  apply C108_contains; [rewrite map_length; lia|]. pose proof (twin_finite L e vs [] He Hv Lv (Forall_nil _)) as F1. pose proof (twin_finite L e ws [] He Hw Lw (Forall_nil _)) as F2. unfold prun in F1, F2. cbn [fold_left] in F1, F2.
  rewrite <- (proj1 (C65_doubles L (poly_from_points vs) (poly_from_points ws) (poly_from_points (map vecR vs)) (poly_from_points (map vecR ws)) F1 F2 eq_refl eq_refl)). exact H.
Qed.
Print Assumptions C108_doubles_contains.
Example C108_doubles_ex (L : FloatLib) : let N := FNum L in let ws := map fz [(4, 0); (0, 0); (-1, 3); (2, 5); (5, 3)]%Z in
  let p := prun (poly_from_points (map fz penta)) [PRead QConvex] in let q := prun (poly_from_points ws) [PCopy] in
  Forall (vec_on_grid 0) (map fz penta) /\ Forall (vec_on_grid 0) ws /\ NoDup (map vecR (pverts p)) /\ poly_eqb p q = Ok true.
Proof.
  intros N ws p q. assert (H1 : Forall small penta) by (apply small_dec; vm_compute; reflexivity). assert (H2 : Forall small [(4, 0); (0, 0); (-1, 3); (2, 5); (5, 3)]%Z) by (apply small_dec; vm_compute; reflexivity).
  split; [apply fz_grids; auto|]. split; [apply fz_grids; auto|]. split; [|vm_compute; reflexivity].
  unfold p, N. rewrite prun_verts. change (@writes _ (FNum L) (pverts (poly_from_points (map fz penta))) [PRead QConvex]) with (map fz penta). rewrite fz_Rs by auto. znd.
Qed.
Example C65_doubles_ex (L : FloatLib) : let N := FNum L in let ws := map fz [(4, 0); (0, 0); (-1, 3); (2, 5); (5, 3)]%Z in
  Forall finite_vec (map fz penta) /\ Forall finite_vec ws /\ NoDup (map vecR (map fz penta)) /\ poly_eqb (poly_from_points (map fz penta)) (poly_from_points ws) = Ok true.
Proof.
  intros N ws. destruct (C108_doubles_ex L) as (A & B & C & D). unfold N. split; [repeat constructor; vm_compute; reflexivity|]. split; [repeat constructor; vm_compute; reflexivity|].
  split; [rewrite fz_Rs by (apply small_dec; vm_compute; reflexivity); znd|]. vm_compute. reflexivity.
Qed.
