(** * C111 on doubles of a coarse grid *)
From Coq Require Import ZArith List Bool Reals Lra Lia Floats.
From Flocq Require Import Core IEEE754.PrimFloat IEEE754.BinarySingleNaN.
From Verif Require Import Num NumFloat Vec Affine Box Seq Polygon Tangent Hull PolyOps SpecPoly SpecGeom SpecAffine SpecCycle SpecMass SpecWind SpecConvex SpecSimple SpecExtreme SpecSplit SpecHull RegionFacts SpecExact SpecHullGrid SpecGrid RBase OrdLaws FloatFacts FloatFacts2 FloatExact FloatErr FloatVec GridOps RelPoly RelEq
  HullFacts4 PolyCache PolyCache2 PolyCache3 NumHom RComp VecFacts2 HeapFacts AffineFacts PropPoly PropConvex PropPnp PropPolyEq PropSimple PropHull PropHullGrid PropHullPoly PropHullPolyF PropRegion PropRegionF PropExact PropExact2 PropSameF PropTrans PropHullTrans PropGrid PropHullTransF PropHullLaws.
Import ListNotations.
Local Open Scope R_scope.

(** Points of the grid that are inside already, and points given in another
    order or repeatedly, do not change the hull of doubles. *)
Theorem C111_doubles : forall (L : FloatLib) (e : Z) (so so' : list (vec PrimFloat.float) -> list (vec PrimFloat.float)) (pts more : list (vec PrimFloat.float)) (p p' : poly PrimFloat.float),
  (-200 <= e <= 200)%Z -> Forall (coarse_pt e) pts -> Forall (coarse_pt e) more -> reorders so -> reorders so' ->
  spread (map vecR pts) -> hull_sound (map vecR pts) -> hull_sound (map vecR more) -> (forall v, In v pts -> In v more) -> let N := FNum L in
  convex_hull so pts = Ok p -> (forall v, In v more -> encloses (map vecR (pverts p)) (vecR v)) -> convex_hull so' more = Ok p' ->
  (forall q, encloses (map vecR (pverts p')) q <-> encloses (map vecR (pverts p)) q) /\
  (no_three (map vecR (pverts p)) -> no_three (map vecR (pverts p')) -> poly_eqb p p' = Ok true).
Proof.
  intros L e so so' pts more p p' He Hp Hm Hso Hso' Sp HS HS' I N E En E'.
  assert (U : forall v, coarse_pt e v -> units_pt (2 ^ 11) e v) by (intros v H; exact H).
  destruct (hull_units L (2 ^ 11) e so pts p He ltac:(lia) (Forall_impl _ U Hp) Hso E) as (UV & o1 & q & Ho1 & Q & EV). destruct (hull_units L (2 ^ 11) e so' more p' He ltac:(lia) (Forall_impl _ U Hm) Hso' E') as (UV' & o2 & q' & Ho2 & Q' & EV').
  rewrite <- EV in *. rewrite <- EV' in *. destruct (C111_inner o1 o2 (map vecR pts) (map vecR more) q q') as (A & B); auto.
  - intros v Hv. apply in_map_iff in Hv as (w & <- & Hw). apply in_map; auto.
  - intros v Hv. apply in_map_iff in Hv as (w & <- & Hw). auto.
  - split; [exact A|]. intros NT NT'. destruct (B NT NT') as (EQ & _). unfold poly_eqb in EQ |- *. unfold N. rewrite finite_poly_eqb, <- EV, <- EV'; [exact EQ|..].
    + eapply Forall_impl; [|exact UV]. intros v [(F1 & _) (F2 & _)]. split; assumption.
    + eapply Forall_impl; [|exact UV']. intros v [(F1 & _) (F2 & _)]. split; assumption.
Qed.
Print Assumptions C111_doubles.

(** ** Example: the points of C111_ex as doubles. *)
Example C111_doubles_ex (L : FloatLib) : let N := FNum L in let pts := map fz four in let more := map fz (four ++ [(2, 2)]%Z) in exists p p', convex_hull (fun x => x) pts = Ok p /\ convex_hull (fun x => x) more = Ok p' /\
  Forall (coarse_pt 0) pts /\ Forall (coarse_pt 0) more /\ spread (map vecR pts) /\ (forall v, In v more -> encloses (map vecR (pverts p)) (vecR v)) /\ no_three (map vecR (pverts p)) /\ no_three (map vecR (pverts p')) /\ poly_eqb p p' = Ok true.
Proof.
  intros N pts more. destruct (fz_units (2 ^ 11) four) as [U EU]; [lia|vm_compute; reflexivity|]. destruct (fz_units (2 ^ 11) (four ++ [(2, 2)]%Z)) as [V EV]; [lia|vm_compute; reflexivity|]. fold pts in U, EU. fold more in V, EV.
  destruct C111_ex as (r & r' & R1 & R2 & Sp & HS & HS' & _).
  assert (E1 : rmap pverts (convex_hull (fun x => x) pts) = Ok (map fz four)) by (vm_compute; reflexivity).
  assert (E2 : rmap pverts (convex_hull (fun x => x) more) = Ok (map fz four)) by (vm_compute; reflexivity).
  destruct (convex_hull (fun x => x) pts) as [p|] eqn:EP; cbn [rmap] in E1; [|discriminate]. destruct (convex_hull (fun x => x) more) as [p'|] eqn:EP'; cbn [rmap] in E2; [|discriminate].
  assert (PV : pverts p = pts) by (unfold pts; congruence). assert (PV' : pverts p' = pts) by (unfold pts; congruence).
  assert (NT : no_three (map vecR pts)). { rewrite EU. intros a b c Ha Hb Hc N1 N2 N3. cbn in Ha, Hb, Hc. pick Ha; subst a; pick Hb; subst b; try congruence; pick Hc; subst c; try congruence; unfold zv; ug; cbn; lra. }
  assert (En : forall v, In v more -> encloses (map vecR pts) (vecR v)).
  { intros v Hv a b He. rewrite EU in He. assert (Iv : In (vecR v) (map zv (four ++ [(2, 2)]%Z))) by (rewrite <- EV; apply in_map; exact Hv). revert Iv. generalize (vecR v). intros w Hw. cbn in He, Hw. pick He; injection He as <- <-; pick Hw; subst w; unfold zv; ug; cbn; lra. }
  exists p, p'. rewrite PV, PV'. split; [reflexivity|]. split; [reflexivity|]. split; [exact U|]. split; [exact V|]. rewrite EU. split; [exact Sp|]. split; [rewrite <- EU; exact En|]. split; [rewrite <- EU; exact NT|]. split; [rewrite <- EU; exact NT|].
  destruct (C111_doubles L 0 (fun x => x) (fun x => x) pts more p p') as (_ & B); auto; try lia; try (intro; auto; fail).
  - rewrite EU. exact Sp.
  - rewrite EU. exact HS.
  - rewrite EV. exact HS'.
  - intros v Hv. unfold more. rewrite map_app. apply in_app_iff. auto.
  - rewrite PV. exact En.
  - apply B; rewrite ?PV, ?PV'; exact NT.
Qed.
