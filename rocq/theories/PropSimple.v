(** * Properties C60, C61: is_simple *)
From Coq Require Import ZArith QArith List Bool Arith Reals Lra Lia Psatz Permutation.
From Verif Require Import Num Vec Affine Box Seq Polygon Tangent PolyOps SpecPoly SpecGeom SpecAffine SpecMass SpecConvex SpecSimple RBase VecFacts VecFacts2 AffineFacts BoxFacts BoxFacts2
  PolyCache PolyCache2 PolyCache3 NumHom RComp SpecCycle PolyEq CentroidFacts WindFacts ConvexFacts ConvexFacts2 ConvexFacts3 ConvexFacts4 SortFacts SweepFacts SimpleFacts PropConvex.
Import ListNotations.
Local Open Scope R_scope.

Lemma history_simple (vs : list pt) os : let p := prun (poly_from_points vs) os in fst (get_is_simple p) = fst (get_is_simple (pfresh (pverts p))).
Proof. intro p. apply read_simple, prun_coh, coh_cleared. Qed.
Lemma simple_small (vs : list pt) : (length vs <= 3)%nat -> fst (get_is_simple (pfresh vs)) = Ok true.
Proof. intro H. unfold get_is_simple. destruct (pfresh_small vs H) as [_ ->]. auto. Qed.
Lemma simple_big (vs : list pt) : (3 < length vs)%nat -> exists c, fst (get_is_convex (pfresh vs)) = Ok c /\ fst (get_is_simple (pfresh vs)) = Ok (if c then true else check_is_simple vs).
Proof.
  intro H. destruct (convex_answer vs H) as (c & d & k & _ & F). exists c. split; auto. rewrite simple_value_big by auto.
  destruct (get_is_convex (pfresh vs)) as [[b|e] q]; cbn [fst] in F; [|discriminate]. injection F as ->. destruct c; auto.
Qed.
Lemma far_big n i j : far n i j -> (3 < n)%nat.
Proof. unfold far. lia. Qed.
Lemma one_side_no_crossing (vs : list pt) : convex_ccw vs \/ convex_cw vs -> ~ some_far_edges vs cross_properly.
Proof.
  intros H (i & j & a & b & c & d & F & E1 & E2 & [X Y]). pose proof (edge_cyc _ _ _ _ E1) as C1. pose proof (edge_cyc _ _ _ _ E2) as C2. apply cyc_in_l in C2 as [Hc Hd].
  destruct H as [H|H]; pose proof (H a b c C1 Hc); pose proof (H a b d C1 Hd); nra.
Qed.
Lemma one_side_no_meeting (vs : list pt) : NoDup vs -> convex_ccw vs \/ convex_cw vs -> ~ some_far_edges vs meet.
Proof.
  intros N H (i & j & a & b & c & d & F & E1 & E2 & M). destruct (nodup_ends _ _ _ _ _ _ _ N F E1 E2) as (N1 & N2 & N3 & N4).
  pose proof (edge_cyc _ _ _ _ E1) as C1. pose proof (edge_cyc _ _ _ _ E2) as C2. destruct (cyc_in_l _ _ _ C1) as [Ha Hb], (cyc_in_l _ _ _ C2) as [Hc Hd].
  assert (S : forall s, sided s vs -> tsign s -> False).
  { intros s Hs Ts. pose proof (Hs a b c C1 Hc) as Q1. pose proof (Hs a b d C1 Hd) as Q2. pose proof (Hs c d a C2 Ha) as Q3. pose proof (Hs c d b C2 Hb) as Q4. destruct M as [Sh D].
    assert (M : segments_intersect a b c d = true) by (apply sects_meet; split; auto). apply sects_sgn in M as [G1 G2].
    assert (Z1 : orient a b c = 0 \/ orient a b d = 0). { unfold sgn_diff in G1. destruct (Req_dec (orient a b c) 0), (Req_dec (orient a b d) 0); auto. exfalso. apply G1. destruct Ts as [->| ->]; lra. }
    assert (Z2 : orient c d a = 0 \/ orient c d b = 0). { unfold sgn_diff in G2. destruct (Req_dec (orient c d a) 0), (Req_dec (orient c d b) 0); auto. exfalso. apply G2. destruct Ts as [->| ->]; lra. }
    assert (T : forall x y : pt, orient x y x = 0 /\ orient x y y = 0) by (intros; split; ug; ring). destruct (T a b) as [Ta Tb], (T c d) as [Tc Td].
    destruct Z1 as [Z1|Z1], Z2 as [Z2|Z2]; [apply N1|apply N3|apply N2|apply N4]; apply (same_point a b c d); auto. }
  destruct (sided_ccw vs) as [I1 I2]. rewrite <- I1, <- I2 in H. destruct H as [H|H]; [apply (S 1)|apply (S (-1))]; unfold tsign; auto.
Qed.
Lemma nodup_ends_apart (vs : list pt) : NoDup vs -> (2 <= length vs)%nat -> ends_apart vs.
Proof.
  intros N L. destruct vs as [|x vs _] using rev_ind; [cbn in L; lia|]. destruct vs as [|y vs _] using rev_ind; [cbn in L; lia|].
  exists vs, y, x. rewrite <- app_assoc in *. split; auto. intros ->. apply NoDup_remove_2 in N. apply N. apply in_or_app. right. left. auto.
Qed.

(** ** C60 *)
(** The loop reports exactly the pairs of non-adjacent, non-parallel edges with
    a common point whose ranges in (x, y) order overlap. *)
Theorem C60_sweep_exact : forall vs : list pt, check_is_simple vs = false <-> some_far_edges vs (fun a b c d => meet a b c d /\ overlap_xy a b c d).
Proof. exact check_R. Qed.
Print Assumptions C60_sweep_exact.
(** A repeated last vertex can hide a crossing (through is_convex). *)
Theorem C60_crossing_refuted : exists vs : list pt, some_far_edges vs cross_properly /\ fst (get_is_simple (poly_from_points vs)) = Ok true.
Proof.
  set (l := [(1, 1); (0, 0); (4, 0); (4, 4); (3, -1); (3, -1)]%Z). exists (map zv l). split.
  - exists 2%nat, 4%nat, (zv (0, 0)%Z), (zv (4, 0)%Z), (zv (4, 4)%Z), (zv (3, -1)%Z). split; [unfold far; cbn; lia|]. split; [split; reflexivity|]. split; [split; reflexivity|].
    unfold cross_properly, zv. ug. cbn. lra.
  - change (poly_from_points (map zv l)) with (pfresh (map zv l)). destruct (simple_big (map zv l)) as (c & C & ->); [cbn; lia|].
    pose proof (z_detected l 5 ltac:(cbn; lia) ltac:(vm_compute; reflexivity)) as D. change (poly_from_points (map zv l)) with (pfresh (map zv l)) in D. rewrite D in C. injection C as <-. reflexivity.
Qed.
Print Assumptions C60_crossing_refuted.
(** Otherwise every proper crossing is found, after any history. *)
Theorem C60_detects_crossings_partial : forall (vs : list pt) (os : list (pop R)), let p := prun (poly_from_points vs) os in
  ends_apart (pverts p) -> some_far_edges (pverts p) cross_properly -> fst (get_is_simple p) = Ok false.
Proof.
  intros vs os p D X. unfold p. rewrite history_simple. fold p. assert (L : (3 < length (pverts p))%nat) by (destruct X as (i & j & a & b & c & d & F & _); eapply far_big; eauto).
  destruct (simple_big _ L) as (c & C & ->). destruct c.
  - exfalso. apply (one_side_no_crossing (pverts p)); auto. apply C52_sound_partial; auto. unfold p. rewrite history_convex. auto.
  - f_equal. apply check_R. destruct X as (i & j & a & b & c & d & F & E1 & E2 & H). exists i, j, a, b, c, d. split; auto. split; auto. split; auto.
    apply proper_meet in H as [M N]. split; auto. apply share_overlap; auto. apply M.
Qed.
Print Assumptions C60_detects_crossings_partial.
(** Polygons without contact between non-adjacent edges are simple. *)
Theorem C60_no_contact : forall (vs : list pt) (os : list (pop R)), let p := prun (poly_from_points vs) os in
  ~ some_far_edges (pverts p) share -> fst (get_is_simple p) = Ok true.
Proof.
  intros vs os p X. unfold p. rewrite history_simple. fold p. destruct (le_lt_dec (length (pverts p)) 3) as [L|L]; [apply simple_small; auto|].
  destruct (simple_big _ L) as (c & C & ->). destruct c; auto. f_equal. destruct (check_is_simple (pverts p)) eqn:E; auto. exfalso. apply check_R in E. apply X.
  destruct E as (i & j & a & b & c & d & F & E1 & E2 & [[S _] _]). exists i, j, a, b, c, d. auto.
Qed.
Print Assumptions C60_no_contact.
(** The sweep differs from checking all pairs when an edge begins where a
    non-adjacent one ends. *)
Theorem C60_all_pairs_refuted : exists vs : list pt, some_far_edges vs meet /\ fst (get_is_simple (poly_from_points vs)) = Ok true.
Proof.
  set (l := [(0, 0); (1, 1); (0, 2); (2, 2); (1, 1); (2, 0)]%Z). exists (map zv l). split.
  - exists 1%nat, 5%nat, (zv (0, 0)%Z), (zv (1, 1)%Z), (zv (1, 1)%Z), (zv (2, 0)%Z). split; [unfold far; cbn; lia|]. split; [split; reflexivity|]. split; [split; reflexivity|]. split.
    + exists (zv (1, 1)%Z). split; [exists 1|exists 0]; (split; [lra|]); unfold between, zv; ug; cbn; vext; lra.
    + unfold zv. ug. cbn. lra.
  - change (poly_from_points (map zv l)) with (pfresh (map zv l)). destruct (simple_big (map zv l)) as (c & C & ->); [cbn; lia|].
    rewrite z_check_is_simple. destruct c; auto.
Qed.
Print Assumptions C60_all_pairs_refuted.
(** With distinct vertices, is_simple answers as checking all pairs does. *)
Theorem C60_all_pairs_partial : forall (vs : list pt) (os : list (pop R)), let p := prun (poly_from_points vs) os in NoDup (pverts p) ->
  (fst (get_is_simple p) = Ok false <-> some_far_edges (pverts p) meet) /\ (fst (get_is_simple p) = Ok true \/ fst (get_is_simple p) = Ok false).
Proof.
  intros vs os p N. unfold p. rewrite history_simple. fold p. destruct (le_lt_dec (length (pverts p)) 3) as [L|L].
  - rewrite simple_small by auto. split; auto. split; [discriminate|]. intros (i & j & a & b & c & d & F & _). apply far_big in F. lia.
  - destruct (simple_big _ L) as (c & C & ->). split; [|destruct c; auto; destruct (check_is_simple (pverts p)); auto]. rewrite <- nodup_check by auto. destruct c.
    + split; [discriminate|]. intro K. exfalso. apply (nodup_check _ N) in K. apply (one_side_no_meeting (pverts p)); auto. apply C52_sound_partial; [left; apply nodup_ends_apart; fold p; auto; lia|]. unfold p. rewrite history_convex. auto.
    + split; [congruence|]. intros ->. auto.
Qed.
Print Assumptions C60_all_pairs_partial.
Definition bowtie : list (Z * Z) := [(0, 0); (2, 2); (2, 0); (0, 2)]%Z.
Lemma zv_inj p q : zv p = zv q -> p = q.
Proof. destruct p, q. unfold zv. cbn [fst snd]. intro H. apply mkV_inj in H as [H1 H2]. apply eq_IZR in H1, H2. congruence. Qed.
Lemma znodup l : NoDup l -> NoDup (map zv l).
Proof. induction 1; cbn; constructor; auto. intro K. apply in_map_iff in K as (y & E & K). apply zv_inj in E. subst. auto. Qed.
Ltac znd := apply znodup; repeat constructor; cbn; intro K; repeat match goal with H : _ \/ _ |- _ => destruct H as [H|H] end; try contradiction; discriminate.
Example C60_ex : NoDup (map zv bowtie) /\ ends_apart (map zv bowtie) /\ some_far_edges (map zv bowtie) cross_properly /\ NoDup (map zv penta) /\ ~ some_far_edges (map zv penta) meet.
Proof.
  assert (N : NoDup (map zv bowtie)) by znd. split; auto. split; [apply nodup_ends_apart; auto; cbn; lia|]. split.
  - exists 1%nat, 3%nat, (zv (0, 0)%Z), (zv (2, 2)%Z), (zv (2, 0)%Z), (zv (0, 2)%Z). split; [unfold far; cbn; lia|]. split; [split; reflexivity|]. split; [split; reflexivity|].
    unfold cross_properly, zv. ug. cbn. lra.
  - assert (N' : NoDup (map zv penta)) by znd. split; auto. apply one_side_no_meeting; auto. left. apply penta_ok.
Qed.

(** ** C61 *)
(** Mirror images can be answered differently, with repeated vertices. *)
Theorem C61_mirror_refuted : exists vs : list pt, fst (get_is_simple (poly_from_points vs)) = Ok true /\
  fst (get_is_simple (poly_from_points (map (fun v => mkV (vy v) (vx v)) vs))) = Ok false.
Proof.
  set (l := [(0, 0); (1, 1); (0, 2); (2, 2); (1, 1); (2, 0)]%Z). set (m := [(0, 0); (1, 1); (2, 0); (2, 2); (1, 1); (0, 2)]%Z). exists (map zv l).
  replace (map (fun v => mkV (vy v) (vx v)) (map zv l)) with (map zv m) by reflexivity.
  change (poly_from_points (map zv l)) with (pfresh (map zv l)). change (poly_from_points (map zv m)) with (pfresh (map zv m)). split.
  - destruct (simple_big (map zv l)) as (c & C & ->); [cbn; lia|]. rewrite z_check_is_simple. destruct c; auto.
  - destruct (simple_big (map zv m)) as (c & C & ->); [cbn; lia|]. rewrite z_check_is_simple. destruct (convex_answer (map zv m)) as (c' & d & k & E & F); [cbn; lia|]. rewrite F in C. injection C as <-.
    rewrite z_classify_core in E. vm_compute in E. injection E as <- _ _. f_equal.
Qed.
Print Assumptions C61_mirror_refuted.
(** Two edges on one line, running over each other, go unnoticed. *)
Theorem C61_collinear_refuted : exists (vs : list pt) (p q : pt), NoDup vs /\ p <> q /\
  some_far_edges vs (fun a b c d => on_segment a b p /\ on_segment c d p /\ on_segment a b q /\ on_segment c d q) /\ fst (get_is_simple (poly_from_points vs)) = Ok true.
Proof.
  set (l := [(0, 0); (3, 0); (1, 0); (4, 0); (4, 4)]%Z). exists (map zv l), (zv (1, 0)%Z), (zv (3, 0)%Z). split; [znd|]. split; [intro K; apply zv_inj in K; discriminate|]. split.
  - exists 1%nat, 3%nat, (zv (0, 0)%Z), (zv (3, 0)%Z), (zv (1, 0)%Z), (zv (4, 0)%Z). split; [unfold far; cbn; lia|]. split; [split; reflexivity|]. split; [split; reflexivity|].
    split; [exists (1/3)|split; [exists 0|split; [exists 1|exists (2/3)]]]; (split; [lra|]); unfold between, zv; ug; cbn; vext; lra.
  - change (poly_from_points (map zv l)) with (pfresh (map zv l)). destruct (simple_big (map zv l)) as (c & C & ->); [cbn; lia|]. rewrite z_check_is_simple. destruct c; auto.
Qed.
Print Assumptions C61_collinear_refuted.
(** With distinct vertices the answer is the same for all images under
    invertible affine maps; in particular for mirror images. *)
Lemma far_img m vs : det m <> 0 -> some_far_edges vs meet -> some_far_edges (map (img m) vs) meet.
Proof.
  intros D (i & j & a & b & c & d & F & E1 & E2 & [(p & H1 & H2) M]). exists i, j, (img m a), (img m b), (img m c), (img m d). rewrite map_length. split; auto.
  assert (G : forall i a b, edge_into vs i a b -> edge_into (map (img m) vs) i (img m a) (img m b)). { unfold edge_into. intros k x y [A B]. rewrite map_length, !nth_error_map, A, B. auto. }
  split; [apply G; auto|split; [apply G; auto|]].
  assert (S : forall x y z, on_segment x y z -> on_segment (img m x) (img m y) (img m z)). { intros x y z (t & Ht & ->). exists t. split; auto. unfold between, img. ug. vext; ring. }
  split; [exists (img m p); auto|]. replace (pcross (psub (img m b) (img m a)) (psub (img m d) (img m c))) with (det m * pcross (psub b a) (psub d c)) by (unfold img, det; ug; ring).
  apply Rmult_integral_contrapositive. auto.
Qed.
Theorem C61_affine_partial : forall (m : affine R) (vs : list pt), det m <> 0 -> NoDup vs ->
  fst (get_is_simple (poly_from_points (map (img m) vs))) = fst (get_is_simple (poly_from_points vs)).
Proof.
  intros m vs D N. assert (B : map (img (inv_mat m)) (map (img m) vs) = vs). { rewrite map_map. rewrite <- (map_id vs) at 2. apply map_ext. intro. apply inv_img; auto. }
  assert (N' : NoDup (map (img m) vs)). { apply FinFun.Injective_map_NoDup; auto. intros x y K. rewrite <- (inv_img m x), <- (inv_img m y), K; auto. }
  pose proof (C60_all_pairs_partial vs []) as X1. pose proof (C60_all_pairs_partial (map (img m) vs) []) as X2. unfold prun in X1, X2. cbn [fold_left] in X1, X2. change (poly_from_points vs) with (pfresh vs) in *. change (poly_from_points (map (img m) vs)) with (pfresh (map (img m) vs)) in *.
  cbv zeta in X1, X2. rewrite !pverts_fresh in X1, X2. destruct (X1 N) as [E1 O1], (X2 N') as [E2 O2].
  assert (I : some_far_edges vs meet <-> some_far_edges (map (img m) vs) meet). { split; [apply far_img; auto|]. intro H. apply (far_img (inv_mat m)) in H; [|apply inv_det; auto]. rewrite B in H. auto. }
  rewrite <- E1, <- E2 in I. destruct O1 as [O1|O1], O2 as [O2|O2]; rewrite ?O1, ?O2 in *; auto; destruct I as [I1 I2]; [rewrite I2|rewrite I1]; auto.
Qed.
Print Assumptions C61_affine_partial.
Example C61_ex : det (mkA 0 1 0 1 0 0) <> 0 /\ map (img (mkA 0 1 0 1 0 0)) (map zv bowtie) = map (fun v => mkV (vy v) (vx v)) (map zv bowtie) /\ NoDup (map zv bowtie).
Proof. split; [unfold det; cbn; lra|]. split; [|znd]. rewrite !map_map. apply map_ext. intros [x y]. unfold img, zv. cbn. vext; ring. Qed.
