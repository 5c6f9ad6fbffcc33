(** * C84, further: simple curves and convex polygons on doubles of a grid *)
From Coq Require Import ZArith List Bool Reals Lra Lia Floats.
From Flocq Require Import Core IEEE754.PrimFloat IEEE754.BinarySingleNaN.
From Verif Require Import Num NumFloat Vec Affine Box Seq Polygon Tangent PolyOps SpecPoly SpecGeom SpecMass SpecWind SpecConvex SpecSimple SpecExtreme SpecSplit SpecExact OrdLaws FloatFacts FloatFacts2 FloatExact RelPoly
  PolyCache PolyCache2 PolyCache3 NumHom RComp VecFacts2 HeapFacts PropPoly PropPnp PropSimple PropSimple2 PropSplit PropExact.
Import ListNotations.
Local Open Scope R_scope.

Lemma writes_length {T} {N : Num T} (os : list (pop T)) : forall vs, length (writes vs os) = length vs.
Proof.
  induction os as [|o os IH]; intro vs; [reflexivity|]. cbn [writes fold_left]. fold (writes (write vs o) os). rewrite IH. destruct o; cbn [write]; auto.
  - unfold py_set. destruct (py_index (length vs) i) as [k|] eqn:EK; auto. apply length_list_set. unfold py_index in EK. cbv zeta in EK. set (j := if (i <? 0)%Z then _ else _) in EK. destruct ((0 <=? j)%Z && (j <? Z.of_nat (length vs))%Z)%bool eqn:EB; [|discriminate]. injection EK as <-. apply andb_prop in EB. destruct EB as [B1 B2]. apply Z.leb_le in B1. apply Z.ltb_lt in B2. lia.
  - unfold itransform. destruct (affine_eqb _ _); auto. apply map_length.
Qed.

Section Twin.
  Context (L : FloatLib) (e : Z) (vs : list (vec PrimFloat.float)) (os : list (pop PrimFloat.float)).
  Context (He : (-537 <= e <= 485)%Z) (Hvs : Forall (vec_on_grid e) vs) (Hn : (4 <= length vs)%nat) (Hos : Forall (grid_op e) os).
  Notation p := (@prun _ (FNum L) (poly_from_points vs) os).
  Notation q := (prun (poly_from_points (map vecR vs)) (map opR os)).
  Lemma twin_verts : map vecR (pverts p) = pverts q.
  Proof using He Hvs Hn Hos. apply (rvs_vecR e). apply (grid_from_points L e vs os He Hvs Hn Hos). Qed.
  Lemma twin_simple : fst (@get_is_simple _ (FNum L) p) = fst (get_is_simple q).
  Proof using He Hvs Hn Hos. apply rres_eq, (r_get_simple (grid e) (grid_laws L e (proj1 He) (proj2 He)) _ _ (grid_from_points L e vs os He Hvs Hn Hos)). Qed.
  Lemma twin_contains E E' c : vec_on_grid e c -> fst (@contains_point _ (FNum L) E c p) = fst (contains_point E' (vecR c) q).
  Proof using He Hvs Hn Hos. intro Hc. apply rres_eq. apply (r_contains (grid e) (grid_laws L e (proj1 He) (proj2 He))); [apply (grid_from_points L e vs os He Hvs Hn Hos)|apply grid_rv; auto]. Qed.
  Lemma twin_ops : Forall not_centroid (map opR os).
  Proof using Hos.
    apply Forall_forall. intros o Ho. apply in_map_iff in Ho. destruct Ho as (o' & <- & Ho). rewrite Forall_forall in Hos. specialize (Hos o' Ho).
    destruct o' as [[]| | | |]; cbn in Hos |- *; try discriminate; contradiction.
  Qed.
End Twin.

(** is_simple of doubles decides whether the exact edges form a simple closed
    curve, for distinct vertices and no edge that folds back. *)
Theorem C84_simple_curve : forall (L : FloatLib) (e : Z) (vs : list (vec PrimFloat.float)) (os : list (pop PrimFloat.float)),
  (-537 <= e <= 485)%Z -> Forall (vec_on_grid e) vs -> (4 <= length vs)%nat -> Forall (grid_op e) os ->
  let N := FNum L in let p := prun (poly_from_points vs) os in let l := map vecR (pverts p) in NoDup l -> no_spikes l ->
  (fst (get_is_simple p) = Ok true <-> simple_curve l) /\ (fst (get_is_simple p) = Ok true \/ fst (get_is_simple p) = Ok false).
Proof.
  intros L e vs os He Hvs Hn Hos N p l D NS. unfold l, p, N in *. rewrite (twin_simple L e vs os He Hvs Hn Hos). rewrite (twin_verts L e vs os He Hvs Hn Hos) in *.
  destruct (C61_exact_partial (map vecR vs) (map opR os) D NS) as (A & _ & B). auto.
Qed.
Print Assumptions C84_simple_curve.

(** contains_point of a convex polygon of doubles with distinct vertices, in any
    state, is right for every query point on the grid, unless the polygon is
    misread. *)
Theorem C84_convex_inside : forall (L : FloatLib) (e : Z) (s : R) (vs : list (vec PrimFloat.float)) (os : list (pop PrimFloat.float)) (E : PrimFloat.float) (c : vec PrimFloat.float),
  (-537 <= e <= 485)%Z -> Forall (vec_on_grid e) vs -> (4 <= length vs)%nat -> Forall (grid_op e) os -> vec_on_grid e c ->
  let N := FNum L in let p := prun (poly_from_points vs) os in let l := map vecR (pverts p) in
  s = 1 \/ s = -1 -> NoDup l -> (forall a b v, In (a, b) (cyc_pairs l) -> In v l -> 0 <= s * orient a b v) -> spread l -> ~ misread s l ->
  (strictly_inside s l (vecR c) -> fst (contains_point E c p) = Ok true) /\
  (forall a b, In (a, b) (cyc_pairs l) -> s * orient a b (vecR c) < 0 -> fst (contains_point E c p) = Ok false).
Proof.
  intros L e s vs os E c He Hvs Hn Hos Hc N p l Ts D Sd Sp M. unfold l, p, N in *. rewrite (twin_contains L e vs os He Hvs Hn Hos E 0 c Hc).
  assert (HL : (3 < length (pverts (prun (poly_from_points (map vecR vs)) (map opR os))))%nat).
  { rewrite <- (twin_verts L e vs os He Hvs Hn Hos), map_length. rewrite prun_verts. rewrite writes_length. change (pverts (poly_from_points vs)) with vs. lia. }
  rewrite (twin_verts L e vs os He Hvs Hn Hos) in *.
  destruct (C55_not_misread_partial s (map vecR vs) (map opR os) 0 (vecR c) Ts HL D Sd Sp M) as (A & B & _). split; [exact A|]. intros a b Hab O.
  assert (B' : fst (contains_point 0 (vecR c) (prun (poly_from_points (map vecR vs)) (map opR os))) <> Ok true) by (apply B; exists a, b; auto).
  destruct (C59_no_centroid_partial R RNum (fun _ => True) R_ordlaws 0 (vecR c) (poly_from_points (map vecR vs)) (map opR os)) as [[|] X]; auto.
  - constructor.
  - apply (twin_ops e); auto.
  - lia.
  - apply Forall_forall. intros v _. split; exact I.
  - contradiction.
Qed.
Print Assumptions C84_convex_inside.

(** ** Examples: a ten by ten square from its lower right corner, asked after
    is_convex was read; a polygon with overlapping edges. *)
Example C84_convex_inside_ex (L : FloatLib) : let N := FNum L in let sq := map fz [(10, 0); (10, 10); (0, 10); (0, 0)]%Z in let p := prun (poly_from_points sq) [PRead QConvex] in let l := map vecR (pverts p) in
  Forall (vec_on_grid 0) sq /\ NoDup l /\ (forall a b v, In (a, b) (cyc_pairs l) -> In v l -> 0 <= 1 * orient a b v) /\ spread l /\ ~ misread 1 l /\
  fst (contains_point 0%float (fz (3, 4)%Z) p) = Ok true /\ fst (contains_point 0%float (fz (3, 14)%Z) p) = Ok false.
Proof.
  intros N sq p l. assert (Hs : Forall small [(10, 0); (10, 10); (0, 10); (0, 0)]%Z) by (apply small_dec; vm_compute; reflexivity).
  assert (El : l = map zv [(10, 0); (10, 10); (0, 10); (0, 0)]%Z). { unfold l, p. rewrite prun_verts. change (writes (pverts (poly_from_points sq)) [PRead QConvex]) with sq. apply fz_Rs; auto. }
  assert (G : Forall (vec_on_grid 0) sq) by (apply fz_grids; auto).
  assert (D : NoDup l) by (rewrite El; znd).
  assert (Sd : forall a b v, In (a, b) (cyc_pairs l) -> In v l -> 0 <= 1 * orient a b v) by (rewrite El; intros a b v H1 H2; cbn in H1, H2; pick H1; injection H1 as <- <-; pick H2; subst v; unfold zv; ug; cbn; lra).
  assert (Sp : spread l). { rewrite El. exists (zv (10, 0)%Z), (zv (10, 10)%Z), (zv (0, 10)%Z). split; [cbn; auto|]. split; [cbn; auto|]. split; [cbn; auto|]. unfold zv. ug. cbn. lra. }
  assert (M : ~ misread 1 l) by (rewrite El; apply C58_misread_ex).
  assert (Go : Forall (grid_op 0) [PRead QConvex]) by (repeat constructor).
  split; [exact G|]. split; [exact D|]. split; [exact Sd|]. split; [exact Sp|]. split; [exact M|].
  assert (S1 : small (3, 4)%Z) by (split; cbn; lia). assert (S2 : small (3, 14)%Z) by (split; cbn; lia).
  split.
  - apply (C84_convex_inside L 0 1 sq [PRead QConvex] 0%float (fz (3, 4)%Z)); auto; try lia; try (cbn; lia); try (apply fz_grid; auto; fail). change (map vecR (pverts (prun (poly_from_points sq) [PRead QConvex]))) with l.
    rewrite El. rewrite fz_R; [|cbn; lia|cbn; lia]. intros a b H. cbn in H. pick H; injection H as <- <-; unfold zv; ug; cbn; lra.
  - apply (C84_convex_inside L 0 1 sq [PRead QConvex] 0%float (fz (3, 14)%Z)) with (a := zv (10, 10)%Z) (b := zv (0, 10)%Z); auto; try lia; try (cbn; lia); try (apply fz_grid; auto; fail).
    + change (map vecR (pverts (prun (poly_from_points sq) [PRead QConvex]))) with l. rewrite El. cbn. auto.
    + rewrite fz_R; [|cbn; lia|cbn; lia]. unfold zv; ug; cbn; lra.
Qed.
Example C84_simple_curve_ex (L : FloatLib) : let N := FNum L in let p := prun (poly_from_points (map fz overlapping)) [PCopy] in let l := map vecR (pverts p) in
  Forall (vec_on_grid 0) (map fz overlapping) /\ NoDup l /\ no_spikes l /\ fst (get_is_simple p) = Ok false.
Proof.
  intros N p l. assert (Hs : Forall small overlapping) by (apply small_dec; vm_compute; reflexivity).
  assert (El : l = map zv overlapping). { unfold l, p. rewrite prun_verts. change (writes (pverts (poly_from_points (map fz overlapping))) [PCopy]) with (map fz overlapping). apply fz_Rs; auto. }
  rewrite El. destruct C61_exact_ex as (A & B & _). split; [apply fz_grids; auto|]. split; [exact A|]. split; [exact B|]. vm_compute. reflexivity.
Qed.
