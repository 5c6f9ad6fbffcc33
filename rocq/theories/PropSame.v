(** * Property C108: equal polygons answer alike *)
From Coq Require Import ZArith QArith List Bool Reals Lra Lia Psatz Permutation.
From Verif Require Import Num Vec Affine Box Seq Polygon BoxPoly Tangent PolyOps SpecPoly SpecGeom SpecAffine SpecBox SpecMass SpecWind SpecConvex SpecExtreme SpecSimple SpecCycle RBase OrdLaws VecFacts VecFacts2 AffineFacts BoxFacts BoxFacts2
  PolyCache PolyCache2 PolyCache3 PolyCache4 PolyCache5 NumHom RComp PolyEq CentroidFacts WindFacts ConvexFacts ConvexFacts2 ConvexFacts3 ConvexFacts4
  MonoFacts MonoFacts2 MonoFacts3 MonoFacts4 MonoFacts5 PropPoly PropConvex PropPolyEq SimpleFacts SweepFacts PropSimple PropMass PropWind PropPnp SpecTri PropTri.
Import ListNotations.
Local Open Scope R_scope.

(** ** What equality says about vertices and edges *)
Lemma equal_edges (l m : list pt) : (3 <= length l)%nat -> (3 <= length m)%nat -> poly_eqb_verts l m = Ok true ->
  length l = length m /\ (Permutation (cyc_pairs l) (cyc_pairs m) \/ Permutation (cyc_pairs l) (cyc_pairs (rev m))).
Proof.
  intros Hl Hm H. destruct (poly_eqb_spec (fun _ => True) R_ordlaws l m) as (b & Hb & I); try lia; auto using all_ord.
  rewrite Hb in H. injection H as ->. destruct (proj1 I eq_refl) as [L [C|C]]; (split; [exact L|]); apply counts_perm_R in C; apply (Permutation_map fst) in C; [left|right].
  - rewrite <- (trig_pairs l), <- (trig_pairs m) by lia. auto.
  - rewrite <- (trig_pairs l), <- (trig_pairs (rev m)) by (rewrite ?rev_length; lia). rewrite C. apply Permutation_map. symmetry. apply trig_rev. lia.
Qed.
Lemma equal_vertices (l m : list pt) : (3 <= length l)%nat -> (3 <= length m)%nat -> poly_eqb_verts l m = Ok true -> Permutation l m.
Proof.
  intros Hl Hm H. assert (F : forall k : list pt, map fst (cyc_pairs k) = k) by (intros [|a k]; auto; apply cyc_fst).
  destruct (equal_edges l m Hl Hm H) as [_ [P|P]]; apply (Permutation_map fst) in P; rewrite !F in P; auto. rewrite P. symmetry. apply Permutation_rev.
Qed.
Lemma equal_winding (l m : list pt) q : (3 <= length l)%nat -> (3 <= length m)%nat -> poly_eqb_verts l m = Ok true -> winding_test l q = winding_test m q.
Proof.
  intros Hl Hm H. rewrite !winding_test_num by (destruct l, m; cbn in *; lia || discriminate). f_equal. f_equal.
  destruct (equal_edges l m Hl Hm H) as [_ [P|P]]; rewrite (wnum_perm _ _ q P); auto. rewrite wnum_rev.
  destruct (Z.eqb_spec (- wnum m q) 0), (Z.eqb_spec (wnum m q) 0); auto; lia.
Qed.

(** ** Pairs of edges along a rotated or reversed cycle *)
Lemma far_rotated (l m : list pt) Q : rotated l m -> some_far_edges l Q -> some_far_edges m Q.
Proof.
  intros (u & v & -> & ->) (i & j & a & b & c & d & F & E1 & E2 & H).
  set (s := fun i => if Nat.ltb i (length u) then (i + length v)%nat else (i - length u)%nat).
  assert (N : forall i x, nth_error (u ++ v) i = Some x -> nth_error (v ++ u) (s i) = Some x).
  { intros k x K. unfold s. destruct (Nat.ltb_spec k (length u)) as [B|B].
    - rewrite nth_error_app1 in K by auto. rewrite nth_error_app2 by lia. replace (k + length v - length v)%nat with k by lia. auto.
    - rewrite nth_error_app2 in K by auto. rewrite nth_error_app1; auto. apply nth_error_Some. congruence. }
  assert (B : forall i x, nth_error (u ++ v) i = Some x -> (i < length u + length v)%nat).
  { intros k x K. rewrite <- app_length. apply nth_error_Some. congruence. }
  assert (G : forall i x y, edge_into (u ++ v) i x y -> edge_into (v ++ u) (s i) x y).
  { intros k x y [K1 K2]. split; [apply N; auto|]. pose proof (B _ _ K1). apply N in K2. rewrite <- K2. f_equal. rewrite !app_length. unfold s.
    destruct k as [|k]; [|destruct (Nat.ltb_spec (S k) (length u)), (Nat.ltb_spec k (length u))];
      repeat match goal with |- context [Nat.ltb ?x ?y] => destruct (Nat.ltb_spec x y) end;
      repeat match goal with |- context [match ?x with O => _ | S _ => _ end] => destruct x eqn:? end; lia. }
  exists (s i), (s j), a, b, c, d. split; [|split; [|split]]; auto.
  pose proof (B _ _ (proj1 E1)). pose proof (B _ _ (proj1 E2)). unfold far in *. rewrite app_length in *. unfold s.
  destruct (Nat.ltb_spec i (length u)), (Nat.ltb_spec j (length u)); lia.
Qed.
Lemma nth_error_rev {X} (l : list X) i x : nth_error l i = Some x -> nth_error (rev l) (length l - 1 - i) = Some x.
Proof.
  intro H. assert (B : (i < length l)%nat) by (apply nth_error_Some; congruence).
  destruct (nth_error_split l i H) as (l1 & l2 & -> & <-). rewrite rev_app_distr. cbn [rev]. rewrite <- app_assoc. rewrite app_length. cbn [length].
  rewrite nth_error_app2; rewrite rev_length; [|lia]. replace (length l1 + S (length l2) - 1 - length l1 - length l2)%nat with 0%nat by lia. auto.
Qed.
Lemma far_reversed (l : list pt) (Q : pt -> pt -> pt -> pt -> Prop) : (forall a b c d, Q a b c d -> Q b a d c) -> some_far_edges l Q -> some_far_edges (rev l) Q.
Proof.
  intros Sy (i & j & a & b & c & d & F & E1 & E2 & H).
  set (s := fun i => match i with O => O | S _ => (length l - i)%nat end).
  assert (G : forall i x y, edge_into l i x y -> edge_into (rev l) (s i) y x).
  { intros k x y [K1 K2]. assert (B : (k < length l)%nat) by (apply nth_error_Some; congruence). apply nth_error_rev in K1, K2. unfold edge_into, s. rewrite rev_length.
    destruct k as [|k].
    - split; [replace O with (length l - 1 - (length l - 1))%nat by lia; auto|]. replace (length l - 1)%nat with (length l - 1 - 0)%nat by lia. auto.
    - split; [replace (length l - S k)%nat with (length l - 1 - k)%nat by lia; auto|]. destruct (length l - S k)%nat eqn:Z; [lia|].
      replace n with (length l - 1 - S k)%nat by lia. auto. }
  exists (s i), (s j), b, a, d, c. split; [|split; [|split]]; auto. rewrite rev_length.
  assert (Bi : (i < length l)%nat) by (apply nth_error_Some; destruct E1; congruence). assert (Bj : (j < length l)%nat) by (apply nth_error_Some; destruct E2; congruence).
  unfold far, s in *. destruct i, j; lia.
Qed.
Lemma check_cycle (l m : list pt) : same_cycle l m -> check_is_simple l = check_is_simple m.
Proof.
  set (Q := fun a b c d => meet a b c d /\ overlap_xy a b c d).
  assert (Sy : forall a b c d, Q a b c d -> Q b a d c).
  { intros a b c d [[(p & H1 & H2) H3] [H4 H5]]. split; [split|].
    - exists p. split; apply on_segment_sym; auto.
    - intro K. apply H3. revert K. ug. lra.
    - unfold overlap_xy, begins_before_end in *. tauto. }
  assert (I : forall l m, same_cycle l m -> some_far_edges l Q -> some_far_edges m Q).
  { intros a b [R|R] H; [eapply far_rotated; eauto|]. apply (far_rotated _ _ _ R), (far_reversed _ _ Sy) in H. rewrite rev_involutive in H. auto. }
  assert (Y : forall l m : list pt, same_cycle l m -> same_cycle m l).
  { intros a b [R|R]; [left; apply rotated_sym; auto|]. right. destruct R as (u & v & E1 & E2). exists (rev u), (rev v).
    apply (f_equal (@rev pt)) in E2. rewrite rev_involutive, rev_app_distr in E2. split; auto. rewrite E1, rev_app_distr. auto. }
  intro C. destruct (check_is_simple l) eqn:E1, (check_is_simple m) eqn:E2; auto; exfalso.
  - apply C60_sweep_exact in E2. apply (I _ _ (Y _ _ C)) in E2. apply C60_sweep_exact in E2. congruence.
  - apply C60_sweep_exact in E1. apply (I _ _ C) in E1. apply C60_sweep_exact in E1. congruence.
Qed.

(** ** C108 *)
(** Equal polygons have the same bounding box, whatever was called before. *)
Theorem C108_bounding_box : forall (vs ws : list pt) (os os' : list (pop R)),
  let p := prun (poly_from_points vs) os in let q := prun (poly_from_points ws) os' in
  (3 <= length (pverts p))%nat -> (3 <= length (pverts q))%nat -> poly_eqb p q = Ok true ->
  fst (get_bbox p) = fst (get_bbox q) /\ exists b, fst (get_bbox p) = Ok b.
Proof.
  intros vs ws os os' p q Lp Lq H. unfold poly_eqb in H. pose proof (equal_vertices _ _ Lp Lq H) as P.
  assert (Cp : coh p) by (apply prun_coh, coh_cleared). assert (Cq : coh q) by (apply prun_coh, coh_cleared).
  destruct (read_bbox p Cp) as [-> _], (read_bbox q Cq) as [-> _]. unfold get_bbox. change (pbbox (pfresh (pverts p))) with (@None (bbox R)). change (pbbox (pfresh (pverts q))) with (@None (bbox R)).
  rewrite !pverts_fresh. generalize dependent (pverts q). intros m Lm _ P. generalize dependent (pverts p). intros l Ll P.
  destruct (box_from_points_tight R_ordlaws l) as (b & -> & T1); [destruct l; cbn in *; lia || discriminate|apply all_ord|].
  destruct (box_from_points_tight R_ordlaws m) as (c & -> & T2); [destruct m; cbn in *; lia || discriminate|apply all_ord|]. cbn [fst].
  rewrite (tight_uniq b c l m); eauto. intro x. split; apply Permutation_in; auto. symmetry; auto.
Qed.
Print Assumptions C108_bounding_box.
(** Newly made equal polygons of more than three vertices contain the same
    points; on the boundary, too, and whatever the tolerances. *)
Theorem C108_contains : forall (vs ws : list pt) (E E' : R) (x : pt),
  (3 < length vs)%nat -> poly_eqb (poly_from_points vs) (poly_from_points ws) = Ok true ->
  fst (contains_point E x (poly_from_points vs)) = fst (contains_point E' x (poly_from_points ws)).
Proof.
  intros vs ws E E' x L H. pose proof (C64_sizes _ _ _ _ H) as HL. unfold poly_eqb in H. change (pverts (poly_from_points vs)) with vs in *. change (pverts (poly_from_points ws)) with ws in *.
  pose proof (C57_filter_harmless vs [] E x) as X1. pose proof (C57_filter_harmless ws [] E' x) as X2. cbv zeta in X1, X2. change (prun (poly_from_points vs) []) with (poly_from_points vs) in X1. change (prun (poly_from_points ws) []) with (poly_from_points ws) in X2.
  change (pverts (poly_from_points vs)) with vs in *. change (pverts (poly_from_points ws)) with ws in *.
  rewrite X1, X2; try discriminate; try lia; try reflexivity. apply equal_winding; auto; lia.
Qed.
Print Assumptions C108_contains.
(** Triangles do so, after any reads, unless EPSILON is large compared to them. *)
Theorem C108_contains_triangle : forall (vs ws : list pt) (E : R) (qs qs' : list (pread R)) (x : pt),
  length vs = 3%nat -> 0 <= E -> roomy E vs -> poly_eqb (poly_from_points vs) (poly_from_points ws) = Ok true ->
  Forall (same_eps E) qs -> Forall (same_eps E) qs' ->
  fst (contains_point E x (preads (poly_from_points vs) qs)) = fst (contains_point E x (preads (poly_from_points ws) qs')).
Proof.
  intros vs ws E qs qs' x L HE HR H H1 H2. pose proof (C64_sizes _ _ _ _ H) as HL. unfold poly_eqb in H. change (pverts (poly_from_points vs)) with vs in *. change (pverts (poly_from_points ws)) with ws in *.
  apply C56_any_order; auto. apply equal_vertices; auto; lia.
Qed.
Print Assumptions C108_contains_triangle.
(** Larger polygons go on doing so after any reads if they are simple and not convex ... *)
Theorem C108_contains_simple : forall (vs ws : list pt) (E E' : R) (qs qs' : list (pread R)) (x : pt),
  (3 < length vs)%nat -> poly_eqb (poly_from_points vs) (poly_from_points ws) = Ok true ->
  Forall (same_eps E) qs -> Forall (same_eps E') qs' ->
  fst (get_is_convex (poly_from_points vs)) = Ok false -> fst (get_is_convex (poly_from_points ws)) = Ok false ->
  fst (get_is_simple (poly_from_points vs)) = Ok true -> fst (get_is_simple (poly_from_points ws)) = Ok true ->
  fst (contains_point E x (preads (poly_from_points vs) qs)) = fst (contains_point E' x (preads (poly_from_points ws) qs')).
Proof. intros. rewrite !C50_reads_partial; auto. apply C108_contains; auto. Qed.
Print Assumptions C108_contains_simple.
(** ... or convex without a vertex that is extreme in x and in y. *)
Theorem C108_contains_convex : forall (vs ws : list pt) (os os' : list (pop R)) (E E' : R) (x : pt),
  let p := prun (poly_from_points vs) os in let q := prun (poly_from_points ws) os' in
  (3 < length (pverts p))%nat -> NoDup (pverts p) -> poly_eqb p q = Ok true ->
  convex_ccw (pverts p) \/ convex_cw (pverts p) -> spread (pverts p) -> corner_free (pverts p) ->
  fst (contains_point E x p) = fst (contains_point E' x q).
Proof.
  intros vs ws os os' E E' x p q L N H Cv Sp Cf. pose proof (C64_sizes _ _ _ _ H) as HL. assert (P : Permutation (pverts p) (pverts q)) by (apply equal_vertices; auto; lia).
  assert (Nq : NoDup (pverts q)) by (eapply Permutation_NoDup; eauto). pose proof (fun v => Permutation_in v (Permutation_sym P)) as B. pose proof (fun v => Permutation_in v P) as B'.
  transitivity (winding_test (pverts p) x); [apply C58_agree_partial; auto using nodup_visits|]. transitivity (winding_test (pverts q) x); [apply equal_winding; auto; lia|]. symmetry.
  apply C58_agree_partial; auto using nodup_visits; fold q.
  - lia.
  - destruct (equal_edges (pverts p) (pverts q) ltac:(lia) ltac:(lia) H) as [_ [Pe|Pe]].
    + destruct Cv as [Cv|Cv]; [left|right]; intros a b v He Hv; (apply Cv; [|auto]); eapply Permutation_in; [symmetry; exact Pe|auto|symmetry; exact Pe|auto].
    + assert (Y : forall a b, In (a, b) (cyc_pairs (pverts q)) -> In (b, a) (cyc_pairs (pverts p))).
      { intros a b He. eapply Permutation_in; [symmetry; exact Pe|]. eapply Permutation_in; [symmetry; apply cyc_rev|]. apply in_map_iff. exists (a, b). auto. }
      destruct Cv as [Cv|Cv]; [right|left]; intros a b v He Hv; specialize (Cv b a v (Y _ _ He) (B _ Hv)); revert Cv; ug; lra.
  - destruct Sp as (a & b & c & H1 & H2 & H3 & H4). exists a, b, c. auto.
  - assert (Z : forall (R : pt -> pt -> Prop) v, In v (pverts q) /\ (forall w, In w (pverts q) -> R v w) -> In v (pverts p) /\ (forall w, In w (pverts p) -> R v w)) by (intros R0 v [H1 H2]; split; auto).
    intros v Hv. destruct (Cf v) as [C1 C2]. { destruct Hv as [Hv|Hv]; [left; apply (Z (fun v w => vx v <= vx w))|right; apply (Z (fun v w => vx w <= vx v))]; auto. }
    split; intro K; [apply C1, (Z (fun v w => vy v <= vy w))|apply C2, (Z (fun v w => vy w <= vy v))]; auto.
Qed.
Print Assumptions C108_contains_convex.
Lemma z_monotone_any (l : list (Z * Z)) (q : Z * Z) (pq : list (Q * Q) * list (Q * Q)) b : (3 < length l)%nat -> length l = 4%nat ->
  classify_core (map qv l) = Ok (true, false, 4%nat) -> split_y_polylines (map qv l) = Ok pq -> y_monotone_test pq (qv q) = Ok b ->
  fst (contains_point 0 (zv q) (snd (get_is_convex (poly_from_points (map zv l))))) = Ok b.
Proof.
  intros L L4 E S Y. rewrite <- z_classify_core in E. destruct (split_ok (map zv l)) as [pl Hpl]; [destruct l; [cbn in L; lia|discriminate]|].
  change (poly_from_points (map zv l)) with (pfresh (map zv l)). rewrite (convex_detected (map zv l) _ _ ltac:(rewrite map_length; lia) E Hpl). cbn [snd].
  rewrite (contains_pl4 _ _ _ pl) by (try reflexivity; cbn [pverts]; rewrite map_length; auto). cbn [fst]. rewrite z_split, S in Hpl. cbn [rmap] in Hpl. injection Hpl as <-. rewrite z_y_monotone. exact Y.
Qed.
(** Otherwise they may part after the same reads. *)
Definition cw_square : list (Z * Z) := [(0, 0); (0, 10); (10, 10); (10, 0)]%Z.
Theorem C108_contains_refuted : exists (vs ws : list pt) (x : pt), NoDup vs /\ poly_eqb (poly_from_points vs) (poly_from_points ws) = Ok true /\
  fst (contains_point 0 x (snd (get_is_convex (poly_from_points vs)))) = Ok false /\ fst (contains_point 0 x (snd (get_is_convex (poly_from_points ws)))) = Ok true.
Proof.
  exists (map zv ccw_square), (map zv cw_square), (zv (5, 5)%Z). split; [znd|]. split; [|split].
  - unfold poly_eqb, poly_from_points. rewrite !pverts_cleared. rewrite z_poly_eqb. vm_compute. reflexivity.
  - eapply z_monotone_false; [cbn; lia|reflexivity|vm_compute; reflexivity..].
  - eapply z_monotone_any; [cbn; lia|reflexivity|vm_compute; reflexivity..].
Qed.
Print Assumptions C108_contains_refuted.

(** is_convex, is_simple and centroid of equal polygons may differ when the
    last two vertices of one of them coincide. *)
Definition hook : list (Z * Z) := [(1, 1); (0, 0); (4, 0); (4, 4); (3, -1); (3, -1)]%Z.
Definition hook' : list (Z * Z) := [(3, -1); (1, 1); (0, 0); (4, 0); (4, 4); (3, -1)]%Z.
Theorem C108_properties_refuted : exists vs ws : list pt, poly_eqb (poly_from_points vs) (poly_from_points ws) = Ok true /\
  fst (get_is_convex (poly_from_points vs)) = Ok true /\ fst (get_is_convex (poly_from_points ws)) = Ok false /\
  fst (get_is_simple (poly_from_points vs)) = Ok true /\ fst (get_is_simple (poly_from_points ws)) = Ok false /\
  fst (get_centroid (poly_from_points ws)) = Ok None /\ fst (get_centroid (poly_from_points vs)) <> Ok None.
Proof.
  exists (map zv hook), (map zv hook').
  assert (C1 : fst (get_is_convex (poly_from_points (map zv hook))) = Ok true) by (rewrite (z_detected hook 5) by (cbn; lia || (vm_compute; reflexivity)); auto).
  assert (C2 : fst (get_is_convex (poly_from_points (map zv hook'))) = Ok false).
  { change (poly_from_points (map zv hook')) with (pfresh (map zv hook')). destruct (convex_answer (map zv hook')) as (c & d & k & E & ->); [cbn; lia|].
    rewrite z_classify_core in E. vm_compute in E. injection E as <- _ _. auto. }
  assert (S1 : fst (get_is_simple (poly_from_points (map zv hook))) = Ok true).
  { destruct (simple_big (map zv hook)) as (c & C & H); [cbn; lia|]. change (pfresh (map zv hook)) with (poly_from_points (map zv hook)) in *. rewrite C1 in C. injection C as <-. auto. }
  assert (S2 : fst (get_is_simple (poly_from_points (map zv hook'))) = Ok false).
  { destruct (simple_big (map zv hook')) as (c & C & H); [cbn; lia|]. change (pfresh (map zv hook')) with (poly_from_points (map zv hook')) in *. rewrite C2 in C. injection C as <-. rewrite H, z_check_is_simple. vm_compute. auto. }
  split; [unfold poly_eqb, poly_from_points; rewrite !pverts_cleared, z_poly_eqb; vm_compute; reflexivity|]. split; [exact C1|]. split; [exact C2|]. split; [exact S1|]. split; [exact S2|].
  pose proof (C63_exactly_partial (map zv hook) []) as X1. pose proof (C63_exactly_partial (map zv hook') []) as X2. cbv zeta in X1, X2.
  change (prun (poly_from_points (map zv hook)) []) with (poly_from_points (map zv hook)) in X1. change (prun (poly_from_points (map zv hook')) []) with (poly_from_points (map zv hook')) in X2.
  destruct X1 as (_ & X1 & _); [cbn; lia|]. destruct X2 as (_ & X2 & _); [cbn; lia|]. split; [apply X2; auto|]. intro K. apply X1 in K. congruence.
Qed.
Print Assumptions C108_properties_refuted.
(** Otherwise all three agree for every two equal polygons without a repeated
    edge, after any two histories: same answers, same centroid, same errors. *)
Theorem C108_properties_partial : forall (vs ws : list pt) (os os' : list (pop R)),
  let p := prun (poly_from_points vs) os in let q := prun (poly_from_points ws) os' in
  (3 <= length (pverts p))%nat -> NoDup (cyc_pairs (pverts p)) -> ends_apart (pverts p) -> ends_apart (pverts q) -> poly_eqb p q = Ok true ->
  fst (get_is_convex p) = fst (get_is_convex q) /\ fst (get_is_simple p) = fst (get_is_simple q) /\ fst (get_centroid p) = fst (get_centroid q).
Proof.
  intros vs ws os os' p q L N D1 D2 H. pose proof (C64_sizes _ _ _ _ H) as HL. assert (C : same_cycle (pverts p) (pverts q)) by (apply C65_same_cycle_partial; auto; lia).
  assert (A : fst (get_is_convex p) = fst (get_is_convex q)).
  { unfold p, q. rewrite !history_convex. fold p q. destruct (le_lt_dec (length (pverts p)) 3) as [K|K]; [rewrite !convex_small by lia; auto|]. apply C53_start_and_direction_partial; auto. }
  assert (S1 : fst (get_is_simple p) = fst (get_is_simple q)).
  { revert A. unfold p, q. rewrite !history_convex, !history_simple. fold p q. intro A. destruct (le_lt_dec (length (pverts p)) 3) as [K|K]; [rewrite !simple_small by lia; auto|].
    destruct (simple_big (pverts p) K) as (c & C1 & ->), (simple_big (pverts q) ltac:(lia)) as (c' & C2 & ->). rewrite C1, C2 in A. injection A as ->. rewrite (check_cycle _ _ C). auto. }
  split; [exact A|]. split; [exact S1|].
  destruct (centroid_answer vs os ltac:(fold p; lia)) as (b & B1 & B2). destruct (centroid_answer ws os' ltac:(fold q; lia)) as (b' & B1' & B2'). fold p q in B1, B1', B2, B2'.
  rewrite B1, B1' in S1. injection S1 as <-. destruct b; [apply C62_start_and_direction; auto; fold p; lia|]. congruence.
Qed.
Print Assumptions C108_properties_partial.
(** Polygons with distinct vertices are never among the exceptions. *)
Theorem C108_distinct : forall (vs ws : list pt) (os os' : list (pop R)),
  let p := prun (poly_from_points vs) os in let q := prun (poly_from_points ws) os' in
  (3 <= length (pverts p))%nat -> NoDup (pverts p) -> poly_eqb p q = Ok true ->
  fst (get_is_convex p) = fst (get_is_convex q) /\ fst (get_is_simple p) = fst (get_is_simple q) /\ fst (get_centroid p) = fst (get_centroid q) /\ fst (get_bbox p) = fst (get_bbox q).
Proof.
  intros vs ws os os' p q L N H. pose proof (C64_sizes _ _ _ _ H) as HL. assert (P : Permutation (pverts p) (pverts q)) by (apply equal_vertices; auto; lia).
  assert (Z : forall l : list pt, (3 <= length l)%nat -> NoDup l -> ends_apart l).
  { intros l Ll Nl. destruct (rev l) as [|y [|x k]] eqn:E; try (apply (f_equal (@length pt)) in E; rewrite rev_length in E; cbn in E; lia).
    apply (f_equal (@rev pt)) in E. rewrite rev_involutive in E. cbn [rev] in E. rewrite <- app_assoc in E. exists (rev k), x, y. split; auto. subst l. intros ->.
    apply NoDup_remove_2 in Nl. apply Nl. apply in_or_app. cbn. auto. }
  destruct (C108_properties_partial vs ws os os') as (A & B & C); fold p q; auto.
  - apply cyc_pairs_nodup; auto.
  - apply Z; [lia|]. eapply Permutation_NoDup; eauto.
  - fold p q in A, B, C. split; [exact A|]. split; [exact B|]. split; [exact C|]. apply (C108_bounding_box vs ws os os'); auto; fold q; lia.
Qed.
Print Assumptions C108_distinct.
(** The pentagon, read and copied, against its mirror order, started elsewhere. *)
Example C108_ex : let ws := [(4, 0); (0, 0); (-1, 3); (2, 5); (5, 3)]%Z in
  let p := prun (poly_from_points (map zv penta)) [PRead QSimple; PCopy] in let q := prun (poly_from_points (map zv ws)) [PRead QCentroid] in
  (3 < length (pverts p))%nat /\ NoDup (pverts p) /\ poly_eqb p q = Ok true /\ convex_ccw (pverts p) /\ spread (pverts p) /\ corner_free (pverts p).
Proof.
  intros ws p q. destruct C55_ex as (L & _ & Sp & Cf & Cv & _). fold p in L, Sp, Cf, Cv. split; [exact L|].
  assert (Ep : pverts p = map zv penta) by (unfold p; rewrite prun_verts; reflexivity). assert (Eq : pverts q = map zv ws) by (unfold q; rewrite prun_verts; reflexivity).
  split; [rewrite Ep; znd|]. split; [unfold poly_eqb; rewrite Ep, Eq, z_poly_eqb; vm_compute; reflexivity|]. auto.
Qed.
(** A dart and its reverse: simple and not convex. *)
Example C108_simple_ex : let vs := map zv [(0, 0); (10, 0); (1, 1); (0, 10)]%Z in let ws := map zv [(0, 10); (1, 1); (10, 0); (0, 0)]%Z in
  poly_eqb (poly_from_points vs) (poly_from_points ws) = Ok true /\ ends_apart vs /\ ends_apart ws /\ fst (get_is_convex (poly_from_points vs)) = Ok false /\ fst (get_is_simple (poly_from_points vs)) = Ok true.
Proof.
  intros vs ws. split; [unfold poly_eqb, poly_from_points, vs, ws; rewrite !pverts_cleared, z_poly_eqb; vm_compute; reflexivity|].
  split; [exists (map zv [(0, 0); (10, 0)]%Z), (zv (1, 1)%Z), (zv (0, 10)%Z); split; auto; intro K; apply zv_inj in K; discriminate|].
  split; [exists (map zv [(0, 10); (1, 1)]%Z), (zv (10, 0)%Z), (zv (0, 0)%Z); split; auto; intro K; apply zv_inj in K; discriminate|].
  assert (C : fst (get_is_convex (poly_from_points vs)) = Ok false).
  { change (poly_from_points vs) with (pfresh vs). destruct (convex_answer vs) as (c & d & k & E & ->); [cbn; lia|]. unfold vs in E. rewrite z_classify_core in E. vm_compute in E. injection E as <- _ _. auto. }
  split; [exact C|]. destruct (simple_big vs) as (c & C1 & H); [cbn; lia|]. change (pfresh vs) with (poly_from_points vs) in *. rewrite C in C1. injection C1 as <-. rewrite H. unfold vs. rewrite z_check_is_simple. vm_compute. auto.
Qed.
Example C108_triangle_ex : roomy 1 (map zv [(4, 4); (0, 0); (4, 0)]%Z) /\ poly_eqb (poly_from_points (map zv [(4, 4); (0, 0); (4, 0)]%Z)) (poly_from_points (map zv [(0, 0); (4, 4); (4, 0)]%Z)) = Ok true.
Proof. split; [apply C56_ex|]. unfold poly_eqb, poly_from_points. rewrite !pverts_cleared, z_poly_eqb. vm_compute. reflexivity. Qed.
