(** * C84: polygon queries on doubles of a common binary grid are exact *)
From Coq Require Import ZArith List Bool Reals Lra Lia Floats.
From Flocq Require Import Core IEEE754.PrimFloat IEEE754.BinarySingleNaN.
From Verif Require Import Num NumFloat Vec Affine Box Seq Polygon Tangent PolyOps SpecPoly SpecGeom SpecMass SpecWind SpecConvex SpecSimple SpecTangent
  SpecExact OrdLaws FloatFacts FloatFacts2 FloatExact RelPoly PolyCache PolyCache2 PolyCache3 NumHom RComp ConvexFacts ConvexFacts2 ConvexFacts3 ConvexFacts4 PropConvex PropSimple PropWind PropTangent.
Import ListNotations.
Local Open Scope R_scope.

Section Grid.
  Context (e : Z).
  Lemma grid_rc x : on_grid e x -> rc (grid e) x (toR x).
  Proof using.
    intros (F & z & B & E). split; [exact F|]. split; [reflexivity|]. exists z. split; [exact B|].
    rewrite E. do 2 f_equal. change (Z.of_nat 1) with 1%Z. lia.
  Qed.
  Lemma grid_rv v : vec_on_grid e v -> rv (grid e) v (vecR v).
  Proof using. intros [H1 H2]. split; apply grid_rc; auto. Qed.
  Lemma grid_rvs vs : Forall (vec_on_grid e) vs -> Forall2 (rv (grid e)) vs (map vecR vs).
  Proof using. induction 1; cbn; constructor; auto. apply grid_rv; auto. Qed.
  Lemma rv_vecR v w : rv (grid e) v w -> vecR v = w.
  Proof using. destruct w as [x y]. intros [(_ & H1 & _) (_ & H2 & _)]. unfold vecR. cbn [vx vy] in *. congruence. Qed.
  Lemma rvs_vecR vs ws : Forall2 (rv (grid e)) vs ws -> map vecR vs = ws.
  Proof using. induction 1; cbn; auto. f_equal; auto. apply rv_vecR; auto. Qed.
  Lemma grid_rop o : grid_op e o -> rop (grid e) o (opR o).
  Proof using. destruct o as [[]| | | |]; cbn; auto using grid_rv; tauto. Qed.
  Lemma grid_rops os : Forall (grid_op e) os -> Forall2 (rop (grid e)) os (map opR os).
  Proof using. induction 1; cbn; constructor; auto. apply grid_rop; auto. Qed.
  Lemma rres_map {X Y} (R : X -> Y -> Prop) (f : X -> Y) x y : (forall a b, R a b -> f a = b) -> rres R x y -> rmap f x = y.
  Proof using. intros H. destruct x, y; cbn; try tauto; [intro K; f_equal; auto|congruence]. Qed.
End Grid.

(** Whatever was done with the polygon before, every query gives the answer
    that exact arithmetic on the reals gives. *)
Theorem C84_same_answers : forall (L : FloatLib) (e : Z) (vs : list (vec PrimFloat.float)) (c s : option bool) (os : list (pop PrimFloat.float)),
  (-537 <= e <= 485)%Z -> Forall (vec_on_grid e) vs -> (4 <= length vs)%nat -> Forall (grid_op e) os ->
  let N := FNum L in
  exists (p0 : poly PrimFloat.float) (q0 : poly R),
    poly_new vs c s = Ok p0 /\ poly_new (map vecR vs) c s = Ok q0 /\
    let p := prun p0 os in let q := prun q0 (map opR os) in
    map vecR (pverts p) = pverts q /\
    fst (get_is_convex p) = fst (get_is_convex q) /\
    fst (get_is_simple p) = fst (get_is_simple q) /\
    rmap boxR (fst (get_bbox p)) = fst (get_bbox q) /\
    (forall E E' pt, vec_on_grid e pt -> fst (contains_point E pt p) = fst (contains_point E' (vecR pt) q)) /\
    (forall pt, vec_on_grid e pt -> rmap pairR (fst (tangents_to_point pt p)) = fst (tangents_to_point (vecR pt) q)).
Proof.
  intros L e vs c s os [Hlo Hhi] Hvs Hn Hos N. pose proof (grid_laws L e Hlo Hhi) as RL.
  pose proof (r_poly_new (grid e) RL _ _ c s (grid_rvs e vs Hvs) Hn) as HN.
  assert (Hq : exists q0, poly_new (map vecR vs) c s = Ok q0).
  { destruct (map vecR vs) as [|v ws] eqn:EV; [apply map_eq_nil in EV; subst; cbn in Hn; lia|].
    unfold poly_new. destruct (Nat.ltb_spec (length (seq_new (v :: ws))) 3) as [K|K].
    - exfalso. rewrite <- EV in K. unfold seq_new in K. rewrite !map_length in K. lia.
    - cbv zeta. assert (ES : exists pl, split_y_polylines (seq_new (v :: ws)) = Ok pl).
      { cbn [seq_new map]. unfold split_y_polylines, find_extrema. cbn [bind].
        destruct (Nat.ltb _ _); match goal with |- context [if ?b then Ok _ else Ok _] => destruct b end; eexists; reflexivity. }
      destruct ES as [pl ->]. destruct c as [c|].
      + destruct (pconvex _); cbn [bind].
        * destruct s as [s|]; [match goal with |- context [psimple ?x] => destruct (psimple x) end|]; eauto.
        * destruct (_ && _); cbn [bind]; (destruct s as [s|]; [match goal with |- context [psimple ?x] => destruct (psimple x) end|]); eauto.
      + cbn [bind]. destruct s as [s|]; [match goal with |- context [psimple ?x] => destruct (psimple x) end|]; eauto. }
  destruct Hq as [q0 Hq]. rewrite Hq in HN. destruct (poly_new vs c s) as [p0|] eqn:Hp; [|contradiction HN]. cbn [rres] in HN.
  exists p0, q0. split; [reflexivity|]. split; [exact Hq|]. intros p q.
  assert (HP : rpoly (grid e) p q) by (apply r_prun; auto; apply grid_rops; auto).
  split; [apply (rvs_vecR e), HP|].
  split; [apply rres_eq, (r_get_convex (grid e) RL _ _ HP)|].
  split; [apply rres_eq, (r_get_simple (grid e) RL _ _ HP)|].
  split; [|split].
  - eapply rres_map; [|apply (r_get_bbox (grid e) RL _ _ HP)]. intros a [b1 b2] [K1 K2]. unfold boxR. cbn [bmin bmax] in *.
    f_equal; apply (rv_vecR e); auto.
  - intros E E' pt Hpt. apply rres_eq. apply (r_contains (grid e) RL); auto. apply grid_rv; auto.
  - intros pt Hpt. eapply rres_map; [|apply (r_tangents (grid e) RL _ _ _ _ HP (grid_rv e pt Hpt))].
    intros a [b1 b2] [K1 K2]. unfold pairR. cbn [fst snd] in *. f_equal; apply (rv_vecR e); auto.
Qed.
Print Assumptions C84_same_answers.

(** The same for polygons made from Vec2 objects without conversion. *)
Lemma grid_from_points (L : FloatLib) e vs os : (-537 <= e <= 485)%Z -> Forall (vec_on_grid e) vs -> (4 <= length vs)%nat -> Forall (grid_op e) os ->
  let N := FNum L in rpoly (grid e) (prun (poly_from_points vs) os) (prun (poly_from_points (map vecR vs)) (map opR os)).
Proof.
  intros [Hlo Hhi] Hvs Hn Hos N. apply (r_prun (grid e) (grid_laws L e Hlo Hhi)); [apply grid_rops; auto|].
  apply r_cleared; auto. apply grid_rvs; auto.
Qed.

(** is_convex of doubles decides convexity of the exact cycle of vertices. *)
Theorem C84_convex : forall (L : FloatLib) (e : Z) (vs : list (vec PrimFloat.float)) (os : list (pop PrimFloat.float)),
  (-537 <= e <= 485)%Z -> Forall (vec_on_grid e) vs -> (4 <= length vs)%nat -> Forall (grid_op e) os ->
  let N := FNum L in let p := prun (poly_from_points vs) os in let l := map vecR (pverts p) in
  ends_apart l -> spread l ->
  fst (get_is_convex p) = Ok true /\ (convex_ccw l \/ convex_cw l) /\ visits_once l \/
  fst (get_is_convex p) = Ok false /\ ~ ((convex_ccw l \/ convex_cw l) /\ visits_once l).
Proof.
  intros L e vs os He Hvs Hn Hos N p l D Sp. pose proof (grid_from_points L e vs os He Hvs Hn Hos) as HP. cbv zeta in HP. fold N in HP. fold p in HP.
  set (q := prun (poly_from_points (map vecR vs)) (map opR os)) in HP. destruct He as [Hlo Hhi].
  assert (EV : l = pverts q) by (apply (rvs_vecR e), HP). assert (L4 : (3 < length (pverts q))%nat).
  { rewrite <- EV. unfold l. rewrite map_length. apply HP. }
  assert (EC : fst (get_is_convex p) = fst (get_is_convex q)) by (apply rres_eq, (r_get_convex (grid e) (grid_laws L e Hlo Hhi) _ _ HP)).
  rewrite EC, EV. rewrite EV in D, Sp. destruct (C53_exact (map vecR vs) (map opR os) L4 D Sp) as [I [K|K]]; fold q in I, K.
  - left. split; [exact K|]. apply I, K.
  - right. split; [exact K|]. intro X. apply I in X. congruence.
Qed.
Print Assumptions C84_convex.

(** is_simple of doubles with distinct vertices: false exactly if two
    non-adjacent edges meet. *)
Theorem C84_simple : forall (L : FloatLib) (e : Z) (vs : list (vec PrimFloat.float)) (os : list (pop PrimFloat.float)),
  (-537 <= e <= 485)%Z -> Forall (vec_on_grid e) vs -> (4 <= length vs)%nat -> Forall (grid_op e) os ->
  let N := FNum L in let p := prun (poly_from_points vs) os in let l := map vecR (pverts p) in
  NoDup l ->
  fst (get_is_simple p) = Ok false /\ some_far_edges l meet \/ fst (get_is_simple p) = Ok true /\ ~ some_far_edges l meet.
Proof.
  intros L e vs os He Hvs Hn Hos N p l D. pose proof (grid_from_points L e vs os He Hvs Hn Hos) as HP. cbv zeta in HP. fold N in HP. fold p in HP.
  set (q := prun (poly_from_points (map vecR vs)) (map opR os)) in HP. destruct He as [Hlo Hhi].
  assert (EV : l = pverts q) by (apply (rvs_vecR e), HP).
  assert (EC : fst (get_is_simple p) = fst (get_is_simple q)) by (apply rres_eq, (r_get_simple (grid e) (grid_laws L e Hlo Hhi) _ _ HP)).
  rewrite EC, EV. rewrite EV in D. destruct (C60_all_pairs_partial (map vecR vs) (map opR os) D) as [I [K|K]]; fold q in I, K.
  - right. split; [exact K|]. intro X. apply I in X. congruence.
  - left. split; [exact K|]. apply I, K.
Qed.
Print Assumptions C84_simple.

(** contains_point of a new polygon of doubles: whether the boundary turns
    around the point. *)
Theorem C84_inside : forall (L : FloatLib) (e : Z) (vs : list (vec PrimFloat.float)) (E : PrimFloat.float) (pt : vec PrimFloat.float) (thetas : list R),
  (-537 <= e <= 485)%Z -> Forall (vec_on_grid e) vs -> (4 <= length vs)%nat -> vec_on_grid e pt ->
  off_edges (vecR pt) (map vecR vs) -> Forall2 (turns (vecR pt)) (cyc_pairs (map vecR vs)) thetas ->
  let N := FNum L in
  fst (contains_point E pt (poly_from_points vs)) = Ok (if Req_EM_T (rsum thetas) 0 then false else true).
Proof.
  intros L e vs E pt thetas He Hvs Hn Hpt Ho Ht N. pose proof (grid_from_points L e vs [] He Hvs Hn (Forall_nil _)) as HP.
  cbv zeta in HP. fold N in HP. cbn [map prun fold_left] in HP. destruct He as [Hlo Hhi].
  pose proof (proj1 (r_contains (grid e) (grid_laws L e Hlo Hhi) E (toR E) _ _ _ _ HP (grid_rv e pt Hpt))) as EC.
  apply rres_eq in EC. fold N in EC. rewrite EC.
  assert (Hne : map vecR vs <> []) by (intro K; apply map_eq_nil in K; subst; cbn in Hn; lia).
  pose proof (C57_filter_harmless (map vecR vs) [] (toR E) (vecR pt)) as HW. cbn [prun fold_left] in HW. cbv zeta in HW.
  rewrite HW; [| change (pverts (poly_from_points (map vecR vs))) with (map vecR vs); rewrite map_length; lia | reflexivity | discriminate].
  change (pverts (poly_from_points (map vecR vs))) with (map vecR vs).
  destruct (C54_turning_number _ _ Hne Ho) as (ts & k & Hts & _ & HK). pose proof (C54_inside_iff_turning _ _ thetas Hne Ho Ht) as I.
  rewrite HK in I |- *. f_equal. destruct (Req_EM_T (rsum thetas) 0) as [Z|Z].
  - destruct (negb (k =? 0)%Z); auto. exfalso. apply I; auto.
  - apply I in Z. congruence.
Qed.
Print Assumptions C84_inside.

(** tangents_to_point of up to 20 vertices in doubles. *)
Theorem C84_tangents : forall (L : FloatLib) (e : Z) (vs : list (vec PrimFloat.float)) (os : list (pop PrimFloat.float)) (pt : vec PrimFloat.float),
  (-537 <= e <= 485)%Z -> Forall (vec_on_grid e) vs -> (4 <= length vs)%nat -> Forall (grid_op e) os -> vec_on_grid e pt ->
  let N := FNum L in let p := prun (poly_from_points vs) os in
  (length (pverts p) <= 20)%nat -> outside_hull (map vecR (pverts p)) (vecR pt) ->
  exists l r, fst (tangents_to_point pt p) = Ok (l, r) /\
    left_support (map vecR (pverts p)) (vecR pt) (vecR l) /\ right_support (map vecR (pverts p)) (vecR pt) (vecR r).
Proof.
  intros L e vs os pt He Hvs Hn Hos Hpt N p Hm HO. pose proof (grid_from_points L e vs os He Hvs Hn Hos) as HP. cbv zeta in HP. fold N in HP. fold p in HP.
  set (q := prun (poly_from_points (map vecR vs)) (map opR os)) in HP. destruct He as [Hlo Hhi].
  assert (EV : map vecR (pverts p) = pverts q) by (apply (rvs_vecR e), HP). rewrite EV in HO |- *.
  assert (LL : (2 <= length (pverts q) <= 20)%nat). { rewrite <- EV, map_length. split; [|exact Hm]. destruct HP as (_ & HP & _). lia. }
  destruct (C68_scan (vecR pt) q LL HO) as (l & r & ET & SL & SR).
  pose proof (proj1 (r_tangents (grid e) (grid_laws L e Hlo Hhi) _ _ _ _ HP (grid_rv e pt Hpt))) as HT. rewrite ET in HT. fold N in HT.
  destruct (fst (tangents_to_point pt p)) as [[l' r']|]; [|contradiction HT]. destruct HT as [H1 H2]. cbn [fst snd] in H1, H2.
  exists l', r'. split; [reflexivity|]. rewrite (rv_vecR e _ _ H1), (rv_vecR e _ _ H2). auto.
Qed.
Print Assumptions C84_tangents.

(** Integer coordinates, converted to doubles. *)
Definition fz (z : Z * Z) : vec PrimFloat.float := mkV (float_of_Z (fst z)) (float_of_Z (snd z)).
Definition small (z : Z * Z) : Prop := (Z.abs (fst z) <= 2 ^ 25)%Z /\ (Z.abs (snd z) <= 2 ^ 25)%Z.
Lemma fz_R z : (Z.abs (fst z) <= 2 ^ 53)%Z -> (Z.abs (snd z) <= 2 ^ 53)%Z -> vecR (fz z) = zv z.
Proof.
  intros H1 H2. unfold vecR, fz, zv. cbn [vx vy]. destruct (float_of_Z_exact _ H1) as [_ ->], (float_of_Z_exact _ H2) as [_ ->]. reflexivity.
Qed.
Lemma fz_Rs l : Forall small l -> map vecR (map fz l) = map zv l.
Proof. induction 1 as [|a l [H1 H2] HL IH]; cbn [map]; auto. rewrite IH, fz_R by lia. reflexivity. Qed.
Lemma fz_grid z : small z -> vec_on_grid 0 (fz z).
Proof.
  intros [H1 H2]. destruct (float_of_Z_exact (fst z)) as [F1 V1]; [lia|]. destruct (float_of_Z_exact (snd z)) as [F2 V2]; [lia|].
  split; (split; [assumption|]); [exists (fst z)|exists (snd z)]; (split; [assumption|]); cbn [fz vx vy bpow]; rewrite Rmult_1_r; assumption.
Qed.
Lemma fz_grids l : Forall small l -> Forall (vec_on_grid 0) (map fz l).
Proof. induction 1; cbn [map]; constructor; auto. apply fz_grid; auto. Qed.
Lemma small_dec l : forallb (fun z => ((Z.abs (fst z) <=? 2 ^ 25) && (Z.abs (snd z) <=? 2 ^ 25))%Z) l = true -> Forall small l.
Proof.
  rewrite forallb_forall, Forall_forall. intros H z Hz. apply H in Hz. apply andb_prop in Hz. destruct Hz. split; apply Z.leb_le; auto.
Qed.

(** The size limit matters: with 28-bit coordinates a reflex corner is rounded
    away. *)
Definition wide : list (Z * Z) := [(0, 0); (2 ^ 27 + 1, 2 ^ 27); (2 ^ 28 + 3, 2 ^ 28 + 1); (2 ^ 28 + 3, -10)]%Z.
Theorem C84_limit_needed : forall L : FloatLib, let N := FNum L in
  fst (get_is_convex (poly_from_points (map fz wide))) = Ok true /\
  fst (get_is_convex (poly_from_points (map vecR (map fz wide)))) = Ok false.
Proof.
  intros L N. split; [vm_compute; reflexivity|].
  assert (E : map vecR (map fz wide) = map zv wide). { cbn [map wide]. rewrite !fz_R; [reflexivity|..]; cbn [fst snd]; lia. }
  rewrite E. change (poly_from_points (map zv wide)) with (pfresh (map zv wide)). destruct (convex_answer (map zv wide)) as (c & d & k & EC & ->); [cbn; lia|].
  rewrite z_classify_core in EC. vm_compute in EC. injection EC as <- _ _. reflexivity.
Qed.
Print Assumptions C84_limit_needed.

Definition hist : list (pop PrimFloat.float) := [PRead QConvex; PSet 0 (fz (0, 0)%Z); PCopy; PRead (QContains 0%float (fz (1, 1)%Z))].
Example C84_ex (L : FloatLib) : let N := FNum L in
  Forall (vec_on_grid 0) (map fz penta) /\ Forall (grid_op 0) hist /\ vec_on_grid 0 (fz (1, 1)%Z) /\
  (let l := map vecR (pverts (prun (poly_from_points (map fz penta)) hist)) in ends_apart l /\ spread l /\ NoDup l) /\
  fst (get_is_convex (prun (poly_from_points (map fz penta)) hist)) = Ok true /\
  off_edges (vecR (fz (1, 1)%Z)) (map vecR (map fz [(0, 0); (4, 0); (4, 4); (0, 4)]%Z)).
Proof.
  intros N. assert (HP : Forall small penta) by (apply small_dec; vm_compute; reflexivity). assert (H1 : small (1, 1)%Z) by (split; cbn; lia).
  split; [apply fz_grids; auto|].
  split; [repeat constructor; cbn [grid_op]; try apply fz_grid; try (split; cbn; lia); auto|].
  split; [apply fz_grid; auto|]. split; [|split].
  - cbv zeta. rewrite prun_verts. change (writes (pverts (poly_from_points (map fz penta))) hist) with (map fz penta).
    rewrite fz_Rs by auto. split; [apply penta_ok|]. split; [apply penta_ok|]. apply C60_ex.
  - vm_compute. reflexivity.
  - rewrite fz_Rs by (apply small_dec; vm_compute; reflexivity). rewrite fz_R by (cbn; lia). apply C54_ex.
Qed.
