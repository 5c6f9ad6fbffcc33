(** * Property C107 on doubles of a coarse grid *)
From Coq Require Import ZArith List Bool Reals Lra Lia Floats SpecFloat Permutation.
From Flocq Require Import Core IEEE754.PrimFloat IEEE754.BinarySingleNaN.
From Verif Require Import Num NumFloat OrdLaws Vec Affine Box Seq Polygon Hull PolyOps SpecPoly SpecGeom SpecMass SpecConvex SpecHull SpecExtreme SpecRegion SpecExact SpecHullGrid
  RComp PropExact PropExact2 PropHullGrid PropHullPoly PropHullPolyF PropRegion.
Import ListNotations.
Local Open Scope R_scope.

(** The vertices computed on doubles bound exactly the smallest convex set
    around the exact points. *)
Theorem C107_doubles_region : forall (L : FloatLib) (e : Z) (so : list (vec PrimFloat.float) -> list (vec PrimFloat.float)) (pts : list (vec PrimFloat.float)) p,
  (-200 <= e <= 200)%Z -> Forall (coarse_pt e) pts -> reorders so -> spread (map vecR pts) -> hull_sound (map vecR pts) ->
  let N := FNum L in convex_hull so pts = Ok p -> forall q, encloses (map vecR (pverts p)) q <-> in_hull (map vecR pts) q.
Proof.
  intros L e so pts p He Hp Hso Sp HS N EH q. destruct (C95_same_hull L e so pts He Hp Hso) as (so' & Hso' & E). cbv zeta in E. fold N in E. rewrite EH in E.
  destruct (convex_hull so' (map vecR pts)) as [p'|] eqn:EP; cbn [rmap] in E; [|discriminate]. injection E as EV _ _. rewrite EV. apply (C107_region so'); auto.
Qed.
Print Assumptions C107_doubles_region.

(** contains_point on it, for query points on the fine grid. *)
Theorem C107_doubles_contains : forall (L : FloatLib) (e : Z) (so : list (vec PrimFloat.float) -> list (vec PrimFloat.float)) (pts : list (vec PrimFloat.float)) p (os : list (pop PrimFloat.float)) (E : PrimFloat.float) (q : vec PrimFloat.float),
  (-200 <= e <= 200)%Z -> Forall (coarse_pt e) pts -> reorders so -> spread (map vecR pts) -> hull_sound (map vecR pts) ->
  let N := FNum L in convex_hull so pts = Ok p -> (3 < length (pverts p))%nat -> writes (pverts p) os = pverts p -> Forall (grid_op e) os -> vec_on_grid e q ->
  (deep (in_hull (map vecR pts)) (vecR q) -> fst (contains_point E q (prun p os)) = Ok true) /\
  (~ in_hull (map vecR pts) (vecR q) -> fst (contains_point E q (prun p os)) = Ok false).
Proof.
  intros L e so pts p os E q He Hp Hso Sp HS N EH HL HW Hos Hq.
  destruct (hull_twin L e so pts p os He Hp Hso EH HL HW Hos) as (so' & p' & Hso' & EH' & EV & HW' & K).
  assert (HL' : (3 < length (pverts p'))%nat) by (rewrite EV, map_length; auto).
  pose proof (K E 0 q Hq) as K1. cbv zeta in K1. unfold N. rewrite K1. apply (C107_contains so' (map vecR pts) p' (map opR os) 0 (vecR q)); auto. apply (twin_ops e); auto.
Qed.
Print Assumptions C107_doubles_contains.

(** ** Example: the points of C106 as doubles. *)
Example C107_doubles_ex (L : FloatLib) : let N := FNum L in exists p, convex_hull (fun x => x) (map fz four_one) = Ok p /\ (3 < length (pverts p))%nat /\
  fst (contains_point 0%float (fz (2, 2)%Z) p) = Ok true /\ fst (contains_point 0%float (fz (9, 9)%Z) p) = Ok false.
Proof.
  intro N. destruct (C106_doubles_ex L) as (G & Sp & HS & p & EP & HL & _). exists p. split; auto. split; auto.
  assert (ER : map vecR (map fz four_one) = map zv four_one) by (apply fz_Rs, small_dec; vm_compute; reflexivity). destruct C107_ex as (_ & _ & _ & _ & D & O & _).
  assert (R0 : reorders (fun x : list (vec PrimFloat.float) => x)) by (intro; auto).
  split.
  - apply (C107_doubles_contains L 0 (fun x => x) (map fz four_one) p [] 0%float (fz (2, 2)%Z)); auto; try lia; [apply fz_grid; split; cbn; lia|]. rewrite ER. rewrite fz_R; [exact D|cbn; lia|cbn; lia].
  - apply (C107_doubles_contains L 0 (fun x => x) (map fz four_one) p [] 0%float (fz (9, 9)%Z)); auto; try lia; [apply fz_grid; split; cbn; lia|]. rewrite ER. rewrite fz_R; [exact O|cbn; lia|cbn; lia].
Qed.
