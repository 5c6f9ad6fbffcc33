(** * C109 on doubles: hulls under transforms that are exact *)
From Coq Require Import ZArith List Bool Reals Lra Lia Floats.
From Flocq Require Import Core IEEE754.PrimFloat IEEE754.BinarySingleNaN.
From Verif Require Import Num NumFloat Vec Affine Box Seq Polygon Tangent Hull PolyOps SpecPoly SpecGeom SpecAffine SpecCycle SpecMass SpecWind SpecConvex SpecSimple SpecExtreme SpecSplit SpecHull RegionFacts SpecExact SpecHullGrid SpecGrid RBase OrdLaws FloatFacts FloatFacts2 FloatExact FloatErr FloatVec GridOps RelPoly RelEq
  HullFacts4 PolyCache PolyCache2 PolyCache3 NumHom RComp VecFacts2 HeapFacts AffineFacts PropPoly PropConvex PropPnp PropPolyEq PropSimple PropHull PropHullGrid PropHullPoly PropHullPolyF PropRegion PropRegionF PropExact PropExact2 PropSameF PropTrans PropHullTrans PropGrid.
Import ListNotations.
Local Open Scope R_scope.

Lemma units_coarse B e v : (B <= 2 ^ 11)%Z -> units_pt B e v -> coarse_pt e v.
Proof. intros H [(F1 & z1 & B1 & K1) (F2 & z2 & B2 & K2)]. split; (split; [assumption|]); [exists z1|exists z2]; (split; [lia|assumption]). Qed.
(** The hull of doubles behind a real hull, and its vertices. *)
Lemma hull_units (L : FloatLib) (B e : Z) (so : list (vec PrimFloat.float) -> list (vec PrimFloat.float)) (pts : list (vec PrimFloat.float)) p :
  (-200 <= e <= 200)%Z -> (B <= 2 ^ 11)%Z -> Forall (units_pt B e) pts -> reorders so -> let N := FNum L in convex_hull so pts = Ok p ->
  Forall (units_pt B e) (pverts p) /\ exists so' q, reorders so' /\ convex_hull so' (map vecR pts) = Ok q /\ pverts q = map vecR (pverts p).
Proof.
  intros He HB Hp Hso N EH. assert (Hc : Forall (coarse_pt e) pts) by (eapply Forall_impl; [|exact Hp]; intro v; apply units_coarse; exact HB).
  destruct (C95_same_hull L e so pts He Hc Hso) as (so' & Hso' & E). cbv zeta in E. fold N in E. rewrite EH in E. destruct (convex_hull so' (map vecR pts)) as [q|] eqn:EQ; cbn [rmap] in E; [|discriminate]. injection E as EV _ _.
  split; [|exists so', q; auto]. pose proof (quick_same L e He so pts Hso Hc) as HQ. fold N in HQ. unfold convex_hull in EH, EQ. destruct (quick_hull so pts) as [h|] eqn:EQ1; [|discriminate].
  destruct (quick_hull (the_order L so pts) (map vecR pts)) as [h'|] eqn:EQ'; cbn [rres] in HQ; [|contradiction]. pose proof (hvs_all e _ _ HQ) as HA. cbn [bind] in EH.
  assert (PV : pverts p = map vec2_of h) by (pose proof (@new_ok _ N h) as A; rewrite EH in A; destruct (Nat.ltb (length h) 3); [discriminate|]; destruct A as (p' & A1 & A2 & _); injection A1 as <-; exact A2).
  assert (FV : forall v, In v (pverts p) -> finite_vec v). { intros v Hv. rewrite PV in Hv. apply in_map_iff in Hv as (w & <- & Hw). rewrite (vec2_of_float L). rewrite Forall_forall in HA. destruct (hv_grid e w _ (HA w Hw)) as [(F1 & _) (F2 & _)]. split; assumption. }
  destruct (C66_from_input so' (map vecR pts) q Hso') as (F & _). { unfold convex_hull. exact EQ. }
  apply Forall_forall. intros v Hv. assert (IV : In (vecR v) (map vecR pts)) by (apply F; rewrite <- EV; apply in_map; exact Hv). apply in_map_iff in IV as (w & Ew & Hw). rewrite Forall_forall in Hp.
  destruct (Hp w Hw) as [(_ & z1 & B1 & K1) (_ & z2 & B2 & K2)]. destruct (FV v Hv) as [F1 F2]. pose proof (f_equal vx Ew) as E1. pose proof (f_equal vy Ew) as E2. cbn [vecR vx vy] in E1, E2.
  split; (split; [assumption|]); [exists z1|exists z2]; (split; [assumption|]); congruence.
Qed.

Theorem C109_doubles : forall (L : FloatLib) (K d C B e : Z) (so so' : list (vec PrimFloat.float) -> list (vec PrimFloat.float)) (m : affine PrimFloat.float) (pts pts' : list (vec PrimFloat.float)) (p p' : poly PrimFloat.float),
  units_mat K d C (d + e) m -> Forall (units_pt B e) pts -> (B <= 2 ^ 11)%Z -> (2 * (K * B) + C <= 2 ^ 11)%Z -> (-200 <= e <= 200)%Z -> (-200 <= d + e <= 200)%Z ->
  reorders so -> reorders so' -> det (affR m) <> 0 -> let N := FNum L in (forall v, In v pts' <-> exists u, In u pts /\ v = aapply m u) ->
  spread (map vecR pts) -> hull_sound (map vecR pts) -> hull_sound (map vecR pts') -> convex_hull so pts = Ok p -> convex_hull so' pts' = Ok p' ->
  (forall q, encloses (map vecR (pverts p')) (img (affR m) q) <-> encloses (map vecR (pverts p)) q) /\
  (no_three (map vecR (pverts p)) -> no_three (map vecR (pverts p')) -> poly_eqb p' (poly_mul p m) = Ok true /\ length (pverts p') = length (pverts p)).
Proof.
  intros L K d C B e so so' m pts pts' p p' Hm Hp HB HC He Hde Hso Hso' D N I Sp HS HS' E E'.
  assert (Hp' : Forall (units_pt (2 * (K * B) + C) (d + e)) pts'). { apply Forall_forall. intros v Hv. apply I in Hv as (u & Hu & ->). rewrite Forall_forall in Hp. apply (C110_points L K d C B e m u Hm (Hp u Hu)); lia. }
  assert (X : forall u, In u pts -> vecR (aapply m u) = aapply (affR m) (vecR u)). { intros u Hu. rewrite aapply_R. rewrite Forall_forall in Hp. apply (C110_points L K d C B e m u Hm (Hp u Hu)); lia. }
  assert (IR : forall v, In v (map vecR pts') <-> exists u, In u (map vecR pts) /\ v = aapply (affR m) u).
  { intro v. rewrite in_map_iff. split.
    - intros (w & <- & Hw). apply I in Hw as (u & Hu & ->). exists (vecR u). split; [apply in_map; exact Hu|apply X; exact Hu].
    - intros (u & Hu & ->). apply in_map_iff in Hu as (w & <- & Hw). exists (aapply m w). split; [apply X; exact Hw|]. apply I. eauto. }
  destruct (hull_units L B e so pts p He HB Hp Hso E) as (UV & o1 & q & Ho1 & Q & EV). destruct (hull_units L (2 * (K * B) + C) (d + e) so' pts' p' Hde HC Hp' Hso' E') as (UV' & o2 & q' & Ho2 & Q' & EV').
  rewrite <- EV, <- EV'. split.
  - intro z. rewrite <- aapply_R. apply (C109_region o1 o2 (affR m) (map vecR pts) (map vecR pts') q q'); auto.
  - intros NT NT'. destruct (C109_equal o1 o2 (affR m) (map vecR pts) (map vecR pts') q q') as (EQ & LN & _); auto.
    split; [|rewrite EV, EV', !map_length in LN; exact LN].
    unfold poly_eqb in EQ |- *. change (pverts (poly_mul q (affR m))) with (map (aapply (affR m)) (pverts q)) in EQ. change (pverts (poly_mul p m)) with (map (aapply m) (pverts p)).
    destruct (C110_sequences L K d C B e m (pverts p) Hm UV) as (ES & _ & US); [lia|lia|]. fold N in ES, US. unfold N. rewrite finite_poly_eqb.
    + fold N. rewrite ES, <- EV, <- EV', <- map_aapply_img. exact EQ.
    + eapply Forall_impl; [|exact UV']. intros v [(F1 & _) (F2 & _)]. split; assumption.
    + eapply Forall_impl; [|exact US]. intros v [(F1 & _) (F2 & _)]. split; assumption.
Qed.
Print Assumptions C109_doubles.

(** ** Example: the five points of C106 on doubles, mirrored and moved. *)
Definition ex_mir : affine PrimFloat.float := mkA (-1)%float 0%float 7%float 0%float 1%float 0%float.
Example C109_doubles_ex (L : FloatLib) : let N := FNum L in exists p p', convex_hull (fun x => x) (map fz four_one) = Ok p /\ convex_hull (fun x => x) (map (aapply ex_mir) (map fz four_one)) = Ok p' /\
  units_mat 1 0 7 0 ex_mir /\ Forall (units_pt 5 0) (map fz four_one) /\ det (affR ex_mir) <> 0 /\ spread (map vecR (map fz four_one)) /\ no_three (map vecR (pverts p)) /\ no_three (map vecR (pverts p')) /\
  poly_eqb p' (poly_mul p ex_mir) = Ok true.
Proof.
  intros N. assert (U : units_mat 1 0 7 0 ex_mir /\ affR ex_mir = mkA (-1) 0 7 0 1 0).
  { assert (X : forall z, (Z.abs z <= 2 ^ 53)%Z -> PrimFloat.is_finite (float_of_Z z) = true /\ toR (float_of_Z z) = IZR z) by (intros z Hz; destruct (float_of_Z_exact z Hz); auto).
    assert (Y : forall z B, (Z.abs z <= B)%Z -> (B <= 2 ^ 53)%Z -> units B 0 (float_of_Z z)). { intros z B HB H. destruct (X z) as [F V]; [lia|]. split; [exact F|]. exists z. split; [exact HB|]. rewrite V. cbn. ring. }
    change ex_mir with (mkA (float_of_Z (-1)) (float_of_Z 0) (float_of_Z 7) (float_of_Z 0) (float_of_Z 1) (float_of_Z 0)). split.
    - split; [split; [|split; [|split]]|split]; cbn [aa ab ac ad ae af]; apply Y; lia.
    - unfold affR. cbn [aa ab ac ad ae af]. f_equal; apply X; lia. }
  destruct U as [U EM]. destruct (fz_units 5 four_one) as [V EV]; [lia|vm_compute; reflexivity|]. destruct C106_ex as (R0 & Sp & HS & _).
  assert (EI : map (aapply ex_mir) (map fz four_one) = map fz (map (fun z => (7 - fst z, snd z)%Z) four_one)) by (vm_compute; reflexivity).
  assert (E1 : rmap pverts (convex_hull (fun x => x) (map fz four_one)) = Ok (map fz [(0, 2); (2, 4); (5, 3); (3, 0)]%Z)) by (vm_compute; reflexivity).
  assert (E2 : rmap pverts (convex_hull (fun x => x) (map (aapply ex_mir) (map fz four_one))) = Ok (map fz [(2, 3); (5, 4); (7, 2); (4, 0)]%Z)) by (rewrite EI; vm_compute; reflexivity).
  destruct (convex_hull (fun x => x) (map fz four_one)) as [p|] eqn:EP; cbn [rmap] in E1; [|discriminate]. destruct (convex_hull (fun x => x) (map (aapply ex_mir) (map fz four_one))) as [p'|] eqn:EP'; cbn [rmap] in E2; [|discriminate].
  assert (PV : pverts p = map fz [(0, 2); (2, 4); (5, 3); (3, 0)]%Z) by congruence. assert (PV' : pverts p' = map fz [(2, 3); (5, 4); (7, 2); (4, 0)]%Z) by congruence.
  assert (NT : no_three (map vecR (pverts p))). { rewrite PV, fz_Rs by (apply small_dec; vm_compute; reflexivity). intros a b c Ha Hb Hc N1 N2 N3. cbn in Ha, Hb, Hc. pick Ha; subst a; pick Hb; subst b; try congruence; pick Hc; subst c; try congruence; unfold zv; ug; cbn; lra. }
  assert (NT' : no_three (map vecR (pverts p'))). { rewrite PV', fz_Rs by (apply small_dec; vm_compute; reflexivity). intros a b c Ha Hb Hc N1 N2 N3. cbn in Ha, Hb, Hc. pick Ha; subst a; pick Hb; subst b; try congruence; pick Hc; subst c; try congruence; unfold zv; ug; cbn; lra. }
  assert (D : det (affR ex_mir) <> 0) by (rewrite EM; unfold det; cbn [aa ab ad ae]; lra).
  exists p, p'. split; [reflexivity|]. split; [reflexivity|]. split; [exact U|]. split; [exact V|]. split; [exact D|]. rewrite EV. split; [exact Sp|]. split; [exact NT|]. split; [exact NT'|].
  destruct (C109_doubles L 1 0 7 5 0 (fun x => x) (fun x => x) ex_mir (map fz four_one) (map (aapply ex_mir) (map fz four_one)) p p') as (_ & EQ); auto; try lia.
  - intro. auto.
  - intro. auto.
  - intro v. rewrite in_map_iff. split; intros (u & A & B); exists u; auto.
  - rewrite EV. exact Sp.
  - rewrite EV. exact HS.
  - rewrite EI. left. rewrite !map_length. cbn. lia.
  - apply EQ; auto.
Qed.
