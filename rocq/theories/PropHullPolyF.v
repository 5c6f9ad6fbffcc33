(** * Property C106 on doubles: hulls of points on a coarse grid *)
From Coq Require Import ZArith List Bool Reals Lra Lia Floats SpecFloat Permutation.
From Flocq Require Import Core IEEE754.PrimFloat IEEE754.BinarySingleNaN.
From Verif Require Import Num NumFloat OrdLaws FloatFacts FloatFacts2 Vec Affine Box Seq Polygon Hull Tangent PolyOps SpecPoly RelPoly RelHull SpecGeom SpecMass SpecConvex SpecHull SpecExtreme SpecExact SpecHullGrid FloatExact FloatErr FloatErr2
  HullFacts2 HullFacts4 HullGrid PropHull NumHom RComp PropExact PropHullGrid PropHullPoly PolyCache PolyCache2 PolyCache3 VecFacts2 PropPoly PropPnp.
Import ListNotations.
Local Open Scope R_scope.

Lemma hv_grid e v w : RelHull.hv (grid e) v w -> vec_on_grid e v.
Proof.
  intros [(F1 & E1 & z1 & B1 & K1) (F2 & E2 & z2 & B2 & K2)]. change (Z.of_nat 1 * e)%Z with (1 * e)%Z in *. rewrite Z.mul_1_l in *.
  split; [split; [exact F1|exists z1]|split; [exact F2|exists z2]]; (split; [lia|]); unfold toR in *; congruence.
Qed.

(** The real hull behind a hull of doubles, and its answers. *)
Lemma hull_twin (L : FloatLib) (e : Z) (so : list (vec PrimFloat.float) -> list (vec PrimFloat.float)) (pts : list (vec PrimFloat.float)) p (os : list (pop PrimFloat.float)) :
  (-200 <= e <= 200)%Z -> Forall (coarse_pt e) pts -> reorders so -> let N := FNum L in convex_hull so pts = Ok p -> (3 < length (pverts p))%nat -> writes (pverts p) os = pverts p -> Forall (grid_op e) os ->
  exists (so' : list pt -> list pt) q, reorders so' /\ convex_hull so' (map vecR pts) = Ok q /\ pverts q = map vecR (pverts p) /\ writes (pverts q) (map opR os) = pverts q /\
    forall E E' c, vec_on_grid e c -> fst (contains_point E c (prun p os)) = fst (contains_point E' (vecR c) (prun q (map opR os))).
Proof.
  intros He Hp Hso N EH HL HW Hos. pose proof (quick_same L e He so pts Hso Hp) as HQ. exists (the_order L so pts). change (FNum L) with N in HQ. unfold convex_hull in EH.
  destruct (quick_hull so pts) as [h|] eqn:EQ; [|discriminate]. destruct (quick_hull (the_order L so pts) (map vecR pts)) as [h'|] eqn:EQ'; cbn [rres] in HQ; [|contradiction].
  pose proof (hvs_vecR e _ _ HQ) as EV. cbn [bind] in EH.
  assert (Gh : Forall (vec_on_grid e) h). { pose proof (hvs_all e _ _ HQ) as HA. eapply Forall_impl; [|exact HA]. intros a Ha. exact (hv_grid e a _ Ha). }
  assert (PV : pverts p = map vec2_of h) by (pose proof (@new_ok _ N h) as A; rewrite EH in A; destruct (Nat.ltb (length h) 3); [discriminate|]; destruct A as (p' & A1 & A2 & _); injection A1 as <-; exact A2).
  assert (HL' : (4 <= length h)%nat) by (rewrite PV, map_length in HL; lia).
  assert (He' : (-537 <= e <= 485)%Z) by lia.
  destruct (C84_same_answers L e h (Some true) None os He' Gh HL' Hos) as (p0 & q0 & E1 & E2 & K). fold N in E1, K. rewrite EH in E1. injection E1 as <-.
  destruct (C84_same_answers L e h (Some true) None [] He' Gh HL' ltac:(constructor)) as (p1 & q1 & E3 & E4 & K'). fold N in E3, K'. rewrite EH in E3. injection E3 as <-. rewrite E2 in E4. injection E4 as <-.
  cbn zeta in K, K'. destruct K as (V & _ & _ & _ & C & _), K' as (V' & _). cbn [prun fold_left map] in V'.
  exists q0. split; [apply order_R_ok; auto|]. split; [unfold convex_hull; rewrite EQ'; cbn [bind]; rewrite <- EV; exact E2|]. split; [auto|]. split; [|intros; apply C; auto].
  rewrite !prun_verts in V. rewrite HW in V. congruence.
Qed.

(** Containment in a hull of doubles is exact for all query points on the grid
    2^25: yes strictly inside, no strictly outside some edge. *)
Theorem C106_doubles : forall (L : FloatLib) (e : Z) (so : list (vec PrimFloat.float) -> list (vec PrimFloat.float)) (pts : list (vec PrimFloat.float)) p (os : list (pop PrimFloat.float)) (E : PrimFloat.float) (q : vec PrimFloat.float),
  (-200 <= e <= 200)%Z -> Forall (coarse_pt e) pts -> reorders so -> spread (map vecR pts) -> hull_sound (map vecR pts) ->
  let N := FNum L in convex_hull so pts = Ok p -> (3 < length (pverts p))%nat -> writes (pverts p) os = pverts p -> Forall (grid_op e) os -> vec_on_grid e q ->
  (strictly_inside (-1) (map vecR (pverts p)) (vecR q) -> fst (contains_point E q (prun p os)) = Ok true) /\
  (forall a b, In (a, b) (cyc_pairs (map vecR (pverts p))) -> 0 < orient a b (vecR q) -> fst (contains_point E q (prun p os)) = Ok false).
Proof.
  intros L e so pts p os E q He Hp Hso Sp HS N EH HL HW Hos Hq.
  destruct (hull_twin L e so pts p os He Hp Hso EH HL HW Hos) as (so' & p' & Hso' & EH' & EV & HW' & K).
  assert (HL' : (3 < length (pverts p'))%nat) by (rewrite EV, map_length; auto).
  pose proof (K E 0 q Hq) as K1. cbv zeta in K1. unfold N. rewrite K1. destruct (C106_contains so' (map vecR pts) p' (map opR os) 0 (vecR q) Hso' Sp HS EH' HL' HW') as (A & B & _). rewrite EV in A, B. split; [exact A|].
  intros a b Hab O. assert (B' : fst (contains_point 0 (vecR q) (prun p' (map opR os))) <> Ok true) by (apply B; exists a, b; split; [exact Hab|lra]).
  destruct (C59_no_centroid_partial R RNum (fun _ => True) R_ordlaws 0 (vecR q) p' (map opR os)) as [[|] X]; auto.
  - unfold convex_hull in EH'. destruct (quick_hull so' (map vecR pts)) as [h|]; [|discriminate]. eapply born_new, EH'.
  - apply Forall_forall. intros o Ho. apply in_map_iff in Ho. destruct Ho as (o' & <- & Ho). rewrite Forall_forall in Hos. specialize (Hos o' Ho). destruct o' as [[]| | | |]; cbn in Hos |- *; try discriminate; contradiction.
  - rewrite prun_verts, HW'. lia.
  - apply Forall_forall. intros v _. split; exact I.
  - contradiction.
Qed.
Print Assumptions C106_doubles.
(** So every given point that is on no edge line is contained. *)
Theorem C106_doubles_inputs : forall (L : FloatLib) (e : Z) (so : list (vec PrimFloat.float) -> list (vec PrimFloat.float)) (pts : list (vec PrimFloat.float)) p (os : list (pop PrimFloat.float)) (E : PrimFloat.float) (q : vec PrimFloat.float),
  (-200 <= e <= 200)%Z -> Forall (coarse_pt e) pts -> reorders so -> spread (map vecR pts) -> hull_sound (map vecR pts) ->
  let N := FNum L in convex_hull so pts = Ok p -> (3 < length (pverts p))%nat -> writes (pverts p) os = pverts p -> Forall (grid_op e) os -> In q pts ->
  (forall a b, In (a, b) (cyc_pairs (map vecR (pverts p))) -> orient a b (vecR q) <> 0) -> fst (contains_point E q (prun p os)) = Ok true.
Proof.
  intros L e so pts p os E q He Hp Hso Sp HS N EH HL HW Hos Hq Ho.
  destruct (hull_twin L e so pts p os He Hp Hso EH HL HW Hos) as (so' & p' & Hso' & EH' & EV & HW' & K).
  assert (HL' : (3 < length (pverts p'))%nat) by (rewrite EV, map_length; auto).
  assert (G : vec_on_grid e q). { rewrite Forall_forall in Hp. destruct (Hp q Hq) as [(F1 & z1 & B1 & K1) (F2 & z2 & B2 & K2)]. split; (split; [assumption|]); [exists z1|exists z2]; (split; [lia|assumption]). }
  pose proof (K E 0 q G) as K1. cbv zeta in K1. unfold N. rewrite K1. apply (C106_inputs so' (map vecR pts) p' (map opR os) 0 (vecR q)); auto; [apply in_map; auto|]. rewrite EV. exact Ho.
Qed.
Print Assumptions C106_doubles_inputs.

(** ** Example: the same five points as doubles. *)
Lemma four_one_fine : Forall (coarse_pt 0) (map fz four_one).
Proof.
  apply Forall_forall. intros v Hv. apply in_map_iff in Hv. destruct Hv as (z & <- & Hz).
  assert (B : (Z.abs (fst z) <= 2 ^ 11)%Z /\ (Z.abs (snd z) <= 2 ^ 11)%Z). { revert z Hz. apply Forall_forall. repeat constructor; cbn; lia. }
  destruct B as [B1 B2]. destruct (float_of_Z_exact (fst z)) as [F1 V1]; [lia|]. destruct (float_of_Z_exact (snd z)) as [F2 V2]; [lia|].
  split; (split; [assumption|]); [exists (fst z)|exists (snd z)]; (split; [assumption|]); cbn [fz vx vy bpow]; rewrite Rmult_1_r; assumption.
Qed.
Example C106_doubles_ex (L : FloatLib) : let N := FNum L in Forall (coarse_pt 0) (map fz four_one) /\ spread (map vecR (map fz four_one)) /\ hull_sound (map vecR (map fz four_one)) /\
  exists p, convex_hull (fun x => x) (map fz four_one) = Ok p /\ (3 < length (pverts p))%nat /\ fst (contains_point 0%float (fz (2, 2)%Z) (prun p [PRead QConvex; PCopy])) = Ok true.
Proof.
  intro N. assert (ER : map vecR (map fz four_one) = map zv four_one) by (apply fz_Rs, small_dec; vm_compute; reflexivity). destruct C106_ex as (_ & Sp & HS & _).
  split; [apply four_one_fine|]. rewrite ER. split; auto. split; auto.
  assert (EH : rmap pverts (convex_hull (fun x => x) (map fz four_one)) = Ok (map fz [(0, 2); (2, 4); (5, 3); (3, 0)]%Z)) by (vm_compute; reflexivity).
  destruct (convex_hull (fun x => x) (map fz four_one)) as [p|] eqn:EP; cbn [rmap] in EH; [|discriminate]. assert (EV : pverts p = map fz [(0, 2); (2, 4); (5, 3); (3, 0)]%Z) by congruence.
  exists p. split; auto. split; [rewrite EV; cbn; lia|]. apply (C106_doubles_inputs L 0 (fun x => x) (map fz four_one)); auto; try rewrite ER; auto.
  - lia.
  - apply four_one_fine.
  - intro; auto.
  - rewrite EV; cbn; lia.
  - repeat constructor.
  - cbn. auto.
  - rewrite EV, fz_Rs by (apply small_dec; vm_compute; reflexivity). intros a b He. change (fz (2, 2)%Z) with (fz (2, 2)%Z). rewrite fz_R by (cbn; lia). cbn in He. pick He; injection He as <- <-; unfold zv; ug; cbn; lra.
Qed.
