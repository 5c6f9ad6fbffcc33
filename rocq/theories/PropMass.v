(** * Properties C62, C63: the centroid *)
From Coq Require Import ZArith QArith List Bool Reals Lra Lia Permutation.
From Verif Require Import Num Vec Affine Box Seq Polygon Tangent PolyOps SpecPoly SpecGeom SpecAffine SpecMass RBase VecFacts VecFacts2 AffineFacts BoxFacts2
  PolyCache PolyCache2 PolyCache3 NumHom RComp SpecCycle PolyEq CentroidFacts.
Import ListNotations.
Local Open Scope R_scope.

(** What the centroid property answers in every reachable state of a polygon
    built from its vertices. *)
Lemma centroid_answer (vs : list pt) (os : list (pop R)) (p := prun (poly_from_points vs) os) : (2 <= length (pverts p))%nat ->
  exists b, fst (get_is_simple p) = Ok b /\
  fst (get_centroid p) = if b then (if Req_EM_T (area2 (pverts p)) 0 then Err ZeroDivisionError else Ok (Some (mass_centre (pverts p)))) else Ok None.
Proof.
  intro HL. assert (Hp : coh p) by (apply prun_coh, coh_cleared).
  destruct (is_simple_total p HL) as [b Hb]. exists b. split; auto.
  destruct (read_centroid p Hp) as [-> _]. destruct (read_simple p Hp) as [Hs _]. rewrite Hb in Hs.
  unfold get_centroid. assert (E : pcentroid (pfresh (pverts p)) = None) by reflexivity. rewrite E.
  assert (Hv : pverts (snd (get_is_simple (pfresh (pverts p)))) = pverts p) by (rewrite simple_verts; reflexivity).
  destruct (get_is_simple (pfresh (pverts p))) as [r p1]. cbn [fst snd] in *. subst r. destruct b; auto.
  rewrite Hv, centroid_value_R by auto. destruct (Req_EM_T _ 0); reflexivity.
Qed.

(** ** C62 *)
Theorem C62_centre_of_mass : forall (vs : list pt) (os : list (pop R)),
  let p := prun (poly_from_points vs) os in
  (2 <= length (pverts p))%nat -> fst (get_is_simple p) = Ok true -> area2 (pverts p) <> 0 ->
  fst (get_centroid p) = Ok (Some (mass_centre (pverts p))).
Proof.
  intros vs os p HL Hs Ha. destruct (centroid_answer vs os HL) as (b & Hb & Hc). fold p in Hb, Hc. rewrite Hs in Hb. injection Hb as <-.
  rewrite Hc. destruct (Req_EM_T _ 0); [contradiction|reflexivity].
Qed.
Print Assumptions C62_centre_of_mass.
(** Independent of the starting vertex and the direction. *)
Theorem C62_start_and_direction : forall (vs ws : list pt) (os os' : list (pop R)),
  let p := prun (poly_from_points vs) os in let q := prun (poly_from_points ws) os' in
  (2 <= length (pverts p))%nat -> same_cycle (pverts p) (pverts q) ->
  fst (get_is_simple p) = Ok true -> fst (get_is_simple q) = Ok true ->
  fst (get_centroid p) = fst (get_centroid q).
Proof.
  intros vs ws os os' p q HL HC Hp Hq.
  assert (HL' : length (pverts q) = length (pverts p)). { destruct HC as [H|H]; apply rotated_length in H; rewrite ?rev_length in H; auto. }
  destruct (centroid_answer vs os HL) as (b & Hb & Hc). fold p in Hb, Hc. rewrite Hp in Hb. injection Hb as <-.
  destruct (centroid_answer ws os') as (b & Hb & Hc'). { fold q. lia. } fold q in Hb, Hc'. rewrite Hq in Hb. injection Hb as <-.
  rewrite Hc, Hc', (mass_cycle _ _ HC).
  assert (E : area2 (pverts p) = 0 <-> area2 (pverts q) = 0).
  { destruct HC as [H|H]; rewrite (area2_rot _ _ H); [tauto|]. rewrite area2_rev. split; lra. }
  destruct (Req_EM_T (area2 (pverts p)) 0), (Req_EM_T (area2 (pverts q)) 0); auto; tauto.
Qed.
Print Assumptions C62_start_and_direction.
(** Transforming the polygon transforms its centroid. *)
Theorem C62_equivariant : forall (vs : list pt) (os : list (pop R)) (m : affine R),
  let p := prun (poly_from_points vs) os in
  (2 <= length (pverts p))%nat -> det m <> 0 -> area2 (pverts p) <> 0 ->
  fst (get_is_simple p) = Ok true -> fst (get_is_simple (poly_mul p m)) = Ok true ->
  exists c, fst (get_centroid p) = Ok (Some c) /\ fst (get_centroid (poly_mul p m)) = Ok (Some (img m c)).
Proof.
  intros vs os m p HL Hd Ha Hs Hs'. exists (mass_centre (pverts p)). split; [apply C62_centre_of_mass; auto|].
  assert (E : pverts (poly_mul p m) = map (img m) (pverts p)).
  { unfold poly_mul. change (map (aapply m) (pverts p) = map (img m) (pverts p)). apply map_ext. intro. apply aapply_R. }
  assert (G : fst (get_centroid (poly_mul p m)) = Ok (Some (mass_centre (pverts (poly_mul p m))))).
  { unfold poly_mul in *. apply (C62_centre_of_mass (map (aapply m) (pverts p)) []); auto.
    - change (2 <= length (map (aapply m) (pverts p)))%nat. rewrite map_length. auto.
    - change (area2 (pverts (poly_from_points (map (aapply m) (pverts p)))) <> 0). rewrite E, area2_img by auto. intro Hz. apply Rmult_integral in Hz. tauto. }
  rewrite G, E, mass_img; auto.
Qed.
Print Assumptions C62_equivariant.
(** For a convex polygon it lies strictly on the inner side of every edge. *)
Theorem C62_inside_convex : forall (vs : list pt) (os : list (pop R)),
  let p := prun (poly_from_points vs) os in
  (3 <= length (pverts p))%nat -> area2 (pverts p) <> 0 -> fst (get_is_simple p) = Ok true ->
  exists c, fst (get_centroid p) = Ok (Some c) /\
    (convex_ccw (pverts p) -> forall a b, In (a, b) (cyc_pairs (pverts p)) -> a <> b -> 0 < orient a b c) /\
    (convex_cw (pverts p) -> forall a b, In (a, b) (cyc_pairs (pverts p)) -> a <> b -> orient a b c < 0).
Proof.
  intros vs os p HL Ha Hs. exists (mass_centre (pverts p)). assert (HL2 : (2 <= length (pverts p))%nat) by lia. split; [apply C62_centre_of_mass; auto|]. split; intros HC a b He Hn.
  - apply mass_inside; auto.
  - apply mass_inside_cw; auto.
Qed.
Print Assumptions C62_inside_convex.

Lemma square_simple : fst (get_is_simple (poly_from_points (map zv [(0, 0); (4, 0); (5, 3); (0, 2)]%Z))) = Ok true.
Proof.
  unfold poly_from_points. set (l := [(0, 0); (4, 0); (5, 3); (0, 2)]%Z).
  assert (HC : exists k, classify_core (map zv l) = Ok (true, false, k)) by (eexists; rewrite z_classify_core; vm_compute; reflexivity).
  destruct HC as [k HC]. destruct (split_ok (map zv l)) as [pl E]; [discriminate|].
  pose proof (convex_detected (map zv l) k pl ltac:(cbn; lia) HC E) as K. unfold get_is_simple.
  unfold get_is_convex in K. unfold pfresh in K. 
  change (psimple (cleared (map zv l) None)) with (@None bool). 
  unfold poly_from_points in K. change (pconvex (cleared (map zv l) None)) with (@None bool) in *. cbv iota in *.
  destruct (classify (cleared (map zv l) None)) as [q|]; [|discriminate]. destruct (pconvex q); [|discriminate].
  injection K as K1 K2. rewrite K2. reflexivity.
Qed.
Example C62_ex : let vs := map zv [(0, 0); (4, 0); (5, 3); (0, 2)]%Z in
  (3 <= length vs)%nat /\ area2 vs <> 0 /\ fst (get_is_simple (prun (poly_from_points vs) [])) = Ok true /\ convex_ccw vs.
Proof.
  cbn zeta. split; [cbn; lia|]. split; [unfold area2; cbn; ug; cbn; lra|]. split; [exact square_simple|].
  intros a b v He Hv. cbn in He, Hv. 
  repeat match goal with H : _ \/ _ |- _ => destruct H | H : False |- _ => destruct H end;
    repeat match goal with H : (_, _) = (_, _) |- _ => injection H as <- <- end; subst v; ug; unfold zv; cbn; lra.
Qed.

(** ** C63, exactly *)
Theorem C63_exactly_partial : forall (vs : list pt) (os : list (pop R)),
  let p := prun (poly_from_points vs) os in (2 <= length (pverts p))%nat ->
  (fst (get_centroid p) = Err ZeroDivisionError <-> fst (get_is_simple p) = Ok true /\ area2 (pverts p) = 0) /\
  (fst (get_centroid p) = Ok None <-> fst (get_is_simple p) = Ok false) /\
  ((exists c, fst (get_centroid p) = Ok (Some c)) <-> fst (get_is_simple p) = Ok true /\ area2 (pverts p) <> 0).
Proof.
  intros vs os p HL. destruct (centroid_answer vs os HL) as (b & Hb & Hc). fold p in Hb, Hc. rewrite Hb, Hc.
  destruct b; [destruct (Req_EM_T (area2 (pverts p)) 0)|]; (split; [|split]); split; intros H;
    try discriminate; try (destruct H; discriminate); auto; try tauto; eauto.
Qed.
Print Assumptions C63_exactly_partial.
