(** * Properties C52, C53: is_convex *)
From Coq Require Import ZArith QArith List Bool Reals Lra Lia Psatz Permutation.
From Verif Require Import Num Vec Affine Box Seq Polygon Tangent PolyOps SpecPoly SpecGeom SpecAffine SpecMass SpecConvex RBase VecFacts VecFacts2 AffineFacts BoxFacts BoxFacts2
  PolyCache PolyCache2 PolyCache3 NumHom RComp SpecCycle PolyEq CentroidFacts WindFacts ConvexFacts ConvexFacts2 ConvexFacts3 ConvexFacts4.
Import ListNotations.
Local Open Scope R_scope.

Lemma history_convex (vs : list pt) os : let p := prun (poly_from_points vs) os in fst (get_is_convex p) = fst (get_is_convex (pfresh (pverts p))).
Proof. apply read_convex, prun_coh, coh_cleared. Qed.

(** ** C52 *)
(** The full statement is false: a repeated last vertex hides a turn. *)
Theorem C52_refuted : exists (vs : list pt) (a b v w : pt), let r := get_is_convex (poly_from_points vs) in
  fst r = Ok true /\ pdegen (snd r) = Some false /\ In (a, b) (cyc_pairs vs) /\ In v vs /\ In w vs /\ orient a b v < 0 < orient a b w.
Proof.
  set (l := [(0, 0); (4, 0); (4, 4); (3, 1); (3, 1)]%Z). exists (map zv l), (zv (3, 1)%Z), (zv (0, 0)%Z), (zv (4, 4)%Z), (zv (4, 0)%Z). cbn zeta.
  assert (E : classify_core (map zv l) = Ok (true, false, 4%nat)) by (rewrite z_classify_core; vm_compute; reflexivity).
  destruct (split_ok (map zv l)) as [pl Hpl]; [discriminate|]. change (poly_from_points (map zv l)) with (pfresh (map zv l)).
  rewrite (convex_detected (map zv l) _ _ ltac:(cbn; lia) E Hpl). cbn [fst snd pdegen]. split; auto. split; auto.
  split; [cbn; tauto|]. split; [cbn; tauto|]. split; [cbn; tauto|]. unfold zv. ug. cbn. lra.
Qed.
Print Assumptions C52_refuted.
(** It holds after any history when the last two vertices differ (and for
    triangles): all vertices are on one side of every edge. *)
Theorem C52_sound_partial : forall (vs : list pt) (os : list (pop R)), let p := prun (poly_from_points vs) os in
  ends_apart (pverts p) \/ length (pverts p) = 3%nat -> fst (get_is_convex p) = Ok true ->
  convex_ccw (pverts p) \/ convex_cw (pverts p).
Proof.
  intros vs os p H. unfold p. rewrite history_convex. fold p. set (l := pverts p) in *. clearbody l. clear p vs os.
  destruct (sided_ccw l) as [<- <-]. destruct (le_lt_dec (length l) 3) as [L|L]; intro A.
  - destruct H as [(k & x & y & -> & D)|H].
    + rewrite app_length in L. cbn in L. destruct k as [|z [|]]; cbn in L; try lia.
      * assert (T : forall s, sided s ([] ++ [x; y])). { intros s a b v He Hv. cbn in He, Hv. destruct He as [He|[He|[]]]; injection He as <- <-; destruct Hv as [<-|[<-|[]]]; ug; lra. } left. apply T.
      * apply triangle_sided.
    + destruct l as [|a [|b [|c [|]]]]; try discriminate. apply triangle_sided.
  - destruct H as [H|H]; [|lia]. destruct (convex_answer l L) as (c & d & k & E & F). rewrite F in A. injection A as ->.
    destruct (classify_core_R l H) as (c & d' & k' & E' & C & _). rewrite E in E'. injection E' as <- <- <-. destruct (proj1 C eq_refl) as [W K].
    destruct W as [W|W]; [left; exact (one_way_side 1 l (or_introl eq_refl) W K)|right; exact (one_way_side (-1) l (or_intror eq_refl) W K)].
Qed.
Print Assumptions C52_sound_partial.
(** In that case the cycle also goes around only once, unless all vertices are
    on one line. *)
Theorem C52_goes_once_partial : forall (vs : list pt) (os : list (pop R)), let p := prun (poly_from_points vs) os in
  ends_apart (pverts p) -> (3 < length (pverts p))%nat -> spread (pverts p) -> fst (get_is_convex p) = Ok true -> visits_once (pverts p).
Proof.
  intros vs os p H L Sp. unfold p. rewrite history_convex. fold p. set (l := pverts p) in *. clearbody l. clear p vs os. intro A.
  destruct (convex_answer l L) as (c & d & k & E & F). rewrite F in A. injection A as ->.
  destruct (classify_core_R l H) as (c & d' & k' & E' & C & _). rewrite E in E'. injection E' as <- <- <-. destruct (proj1 C eq_refl) as [W K].
  destruct W as [W|W]; [apply (once_of_two 1)|apply (once_of_two (-1))]; unfold tsign; auto.
Qed.
Print Assumptions C52_goes_once_partial.
Lemma z_detected l k : (3 < length l)%nat -> classify_core (map qv l) = Ok (true, false, k) -> fst (get_is_convex (poly_from_points (map zv l))) = Ok true.
Proof.
  intros L E. change (poly_from_points (map zv l)) with (pfresh (map zv l)). destruct (convex_answer (map zv l)) as (c & d & k' & E' & ->); [rewrite map_length; auto|].
  rewrite z_classify_core, E in E'. congruence.
Qed.
Definition penta : list (Z * Z) := [(0, 0); (4, 0); (5, 3); (2, 5); (-1, 3)]%Z.
Lemma penta_ok : ends_apart (map zv penta) /\ spread (map zv penta) /\ visits_once (map zv penta) /\ convex_ccw (map zv penta).
Proof.
  split; [|split; [|split]].
  - exists (map zv [(0, 0); (4, 0); (5, 3)]%Z), (zv (2, 5)%Z), (zv (-1, 3)%Z). split; auto. unfold zv. intro K. apply mkV_inj in K. cbn in K. lra.
  - exists (zv (0, 0)%Z), (zv (4, 0)%Z), (zv (5, 3)%Z). split; [cbn; tauto|split; [cbn; tauto|split; [cbn; tauto|]]]. unfold zv. ug. cbn. lra.
  - exists (map (fun v => (zv v, O)) penta). split; [|exists [], (map zv penta); auto].
    cbn. repeat constructor; cbn; intro K; repeat match goal with H : _ \/ _ |- _ => destruct H as [H|H] end; try contradiction; unfold zv in *; apply mkV_inj in K; cbn in K; lra.
  - intros a b v He Hv. cbn in He, Hv. repeat match goal with H : _ \/ _ |- _ => destruct H as [H|H] | H : False |- _ => destruct H end; injection He as <- <-; subst v; unfold zv; ug; cbn; lra.
Qed.
Example C52_ex : ends_apart (pverts (prun (poly_from_points (map zv penta)) [PCopy])) /\ spread (map zv penta) /\ fst (get_is_convex (prun (poly_from_points (map zv penta)) [PCopy])) = Ok true.
Proof. split; [apply penta_ok|]. split; [apply penta_ok|]. apply (z_detected penta 5); [cbn; lia|vm_compute; reflexivity]. Qed.

(** ** C53 *)
(** Every convex polygon that goes around once is reported convex, whatever
    its vertices repeat. *)
Theorem C53_complete : forall (vs : list pt) (os : list (pop R)), let p := prun (poly_from_points vs) os in
  convex_ccw (pverts p) \/ convex_cw (pverts p) -> visits_once (pverts p) -> spread (pverts p) -> fst (get_is_convex p) = Ok true.
Proof.
  intros vs os p H O Sp. unfold p. rewrite history_convex. fold p. set (l := pverts p) in *. clearbody l. clear p vs os.
  destruct (sided_ccw l) as [I1 I2]. rewrite <- I1, <- I2 in H. destruct (le_lt_dec (length l) 3) as [L|L]; [apply convex_small; auto|].
  destruct (convex_answer l L) as (c & d & k & E & ->).
  assert (X : exists s, tsign s /\ one_way s l /\ (changes l <= 2)%nat).
  { destruct H as [H|H]; [exists 1|exists (-1)]; (split; [unfold tsign; auto|]); apply complete_once; unfold tsign; auto. }
  destruct X as (s & Hs & W & C). destruct (classify_core_complete s l Hs ltac:(lia) W C) as (d' & k' & E'). congruence.
Qed.
Print Assumptions C53_complete.
(** With distinct last vertices, is_convex decides exactly that. *)
Theorem C53_exact : forall (vs : list pt) (os : list (pop R)), let p := prun (poly_from_points vs) os in
  (3 < length (pverts p))%nat -> ends_apart (pverts p) -> spread (pverts p) ->
  (fst (get_is_convex p) = Ok true <-> (convex_ccw (pverts p) \/ convex_cw (pverts p)) /\ visits_once (pverts p)) /\
  (fst (get_is_convex p) = Ok true \/ fst (get_is_convex p) = Ok false).
Proof.
  intros vs os p L D Sp. split; [split|].
  - intro H. split; [apply C52_sound_partial; auto|apply C52_goes_once_partial; auto].
  - intros [H O]. apply C53_complete; auto.
  - unfold p. rewrite history_convex. fold p. destruct (convex_answer (pverts p) L) as ([|] & d & k & _ & ->); auto.
Qed.
Print Assumptions C53_exact.
(** Moving and scaling a polygon never changes the answer. *)
Section Moved.
  Variables (k : R) (t : pt).
  Hypothesis K : 0 < k.
  Let f (v : pt) : pt := mkV (k * vx v + vx t) (k * vy v + vy t).
  Let g (d : pt) : pt := mkV (k * vx d) (k * vy d).
  Lemma sub_moved a b : vsub (f a) (f b) = g (vsub a b).
  Proof. unfold vsub, f, g. rnum. vext; ring. Qed.
  Lemma lt_scaled x : Rltb 0 (k * x) = Rltb 0 x.
  Proof. apply eq_true_iff_eq. rewrite !Rltb_true. split; intro; nra. Qed.
  Lemma gt_scaled x : Rltb (k * x) 0 = Rltb x 0.
  Proof. apply eq_true_iff_eq. rewrite !Rltb_true. split; intro; nra. Qed.
  Lemma eq_scaled x : Reqb (k * x) 0 = Reqb x 0.
  Proof. apply eq_true_iff_eq. rewrite !Reqb_true. split; intro; nra. Qed.
  Lemma dir_scaled d : dir_of (g d) = dir_of d.
  Proof. unfold dir_of, g. rnum. cbn [vx vy]. rewrite !lt_scaled, !gt_scaled. reflexivity. Qed.
  Lemma bool_scaled d : vec_bool (g d) = vec_bool d.
  Proof. unfold vec_bool, g. rnum. cbn [vx vy]. rewrite !eq_scaled. reflexivity. Qed.
  Lemma cross_scaled a b : cross (g a) (g b) = k * (k * cross a b).
  Proof. unfold cross, g. rnum. cbn [vx vy]. ring. Qed.
  Lemma loop_scaled ds : forall ld d c a n, classify_loop (g ld) d c a n (map g ds) = classify_loop ld d c a n ds.
  Proof.
    induction ds as [|x ds IH]; intros; cbn [classify_loop map]; auto. rewrite dir_scaled, cross_scaled. rnum. rewrite !lt_scaled, !gt_scaled, !IH. reflexivity.
  Qed.
  Lemma edges_moved vs : forall p, edges_from (f p) (map f vs) = map g (edges_from p vs).
  Proof. induction vs as [|v vs IH]; intro p; cbn [edges_from map]; auto. rewrite sub_moved, IH. auto. Qed.
  Lemma core_moved vs : classify_core (map f vs) = classify_core vs.
  Proof.
    unfold classify_core. rewrite !py_get_map. destruct (py_get vs (-1)); auto. cbn [hr rmap bind]. destruct (py_get vs (-2)); auto. cbn [hr rmap bind].
    replace (edge_vectors (map f vs)) with (map g (edge_vectors vs)).
    2:{ destruct vs as [|v' vs]; auto. unfold edge_vectors. cbn [map]. rewrite <- edges_moved. f_equal. symmetry. apply (last_map f (v' :: vs)). }
    replace (filter vec_bool (map g (edge_vectors vs))) with (map g (filter vec_bool (edge_vectors vs))).
    2:{ induction (edge_vectors vs) as [|d ds IH]; auto. cbn [map filter]. rewrite bool_scaled, <- IH. destruct (vec_bool d); auto. }
    rewrite sub_moved, dir_scaled, loop_scaled. reflexivity.
  Qed.
End Moved.
Theorem C53_translate_scale : forall (k : R) (t : pt) (vs : list pt), 0 < k ->
  fst (get_is_convex (poly_from_points (map (fun v => mkV (k * vx v + vx t) (k * vy v + vy t)) vs))) = fst (get_is_convex (poly_from_points vs)).
Proof.
  intros k t vs K. set (ws := map _ vs). assert (L : length ws = length vs) by apply map_length. assert (C : classify_core ws = classify_core vs) by (apply core_moved; auto).
  change (poly_from_points vs) with (pfresh vs). change (poly_from_points ws) with (pfresh ws).
  destruct (le_lt_dec (length vs) 3) as [S|S].
  - rewrite !convex_small by lia. auto.
  - destruct (convex_answer vs S) as (c & d & n & E & ->), (convex_answer ws ltac:(lia)) as (c' & d' & n' & E' & ->). congruence.
Qed.
Print Assumptions C53_translate_scale.
(** The starting vertex matters when the last two vertices coincide. *)
Theorem C53_start_refuted : exists vs ws : list pt, rotated vs ws /\ fst (get_is_convex (poly_from_points vs)) <> fst (get_is_convex (poly_from_points ws)).
Proof.
  set (l := [(0, 0); (4, 0); (4, 4); (3, 1); (3, 1)]%Z). set (m := [(3, 1); (0, 0); (4, 0); (4, 4); (3, 1)]%Z). exists (map zv l), (map zv m).
  split; [exists (map zv [(0, 0); (4, 0); (4, 4); (3, 1)]%Z), [zv (3, 1)%Z]; auto|].
  rewrite (z_detected l 4) by (cbn; lia || (vm_compute; reflexivity)).
  change (poly_from_points (map zv m)) with (pfresh (map zv m)). destruct (convex_answer (map zv m)) as (c & d & k & E & ->); [cbn; lia|].
  rewrite z_classify_core in E. vm_compute in E. injection E as <- _ _. discriminate.
Qed.
Print Assumptions C53_start_refuted.
(** Otherwise neither starting vertex nor direction matters. *)
Theorem C53_start_and_direction_partial : forall vs ws : list pt, (3 < length vs)%nat -> ends_apart vs -> ends_apart ws -> same_cycle vs ws ->
  fst (get_is_convex (poly_from_points vs)) = fst (get_is_convex (poly_from_points ws)).
Proof.
  intros vs ws L D1 D2 H.
  assert (L' : (3 < length ws)%nat). { destruct H as [H|H]; apply PolyEq.rotated_length in H; rewrite ?rev_length in H; lia. }
  destruct (convex_answer vs L) as (c & d & k & E & F), (convex_answer ws L') as (c' & d' & k' & E' & F').
  change (poly_from_points vs) with (pfresh vs). change (poly_from_points ws) with (pfresh ws). rewrite F, F'. f_equal.
  destruct (classify_core_R vs D1) as (c1 & d1 & k1 & E1 & C1 & _), (classify_core_R ws D2) as (c2 & d2 & k2 & E2 & C2 & _).
  rewrite E in E1. rewrite E' in E2. injection E1 as <- <- <-. injection E2 as <- <- <-. apply eq_true_iff_eq. rewrite C1, C2.
  assert (X : forall a b, same_cycle a b -> (one_way 1 a \/ one_way (-1) a) /\ (changes a <= 2)%nat -> (one_way 1 b \/ one_way (-1) b) /\ (changes b <= 2)%nat).
  { intros a b [R|R] [[W|W] C].
    - split; [left; eapply one_way_rot; eauto|rewrite <- (changes_rot _ _ R); auto].
    - split; [right; eapply one_way_rot; eauto|rewrite <- (changes_rot _ _ R); auto].
    - apply (one_way_rot _ _ _ R), rev_one_way in W. rewrite rev_involutive in W. rewrite (changes_rot _ _ R), rev_changes in C. split; auto.
    - apply (one_way_rot _ _ _ R), rev_one_way in W. rewrite rev_involutive in W. rewrite (changes_rot _ _ R), rev_changes in C. split; auto. left. replace 1 with (- (-1)) by ring. auto. }
  split; apply X; auto. destruct H as [H|H]; [left; apply rotated_sym; auto|right].
  destruct H as (a & b & -> & H). exists (rev a), (rev b). rewrite <- !rev_app_distr. split; [|auto]. rewrite <- H. symmetry. apply rev_involutive.
Qed.
Print Assumptions C53_start_and_direction_partial.
(** Invertible affine maps keep the answer: translations, rotations, scalings,
    reflections, shears. *)
Theorem C53_affine : forall (m : affine R) (vs : list pt), det m <> 0 -> (3 < length vs)%nat -> ends_apart vs -> spread vs ->
  fst (get_is_convex (poly_from_points (map (img m) vs))) = fst (get_is_convex (poly_from_points vs)).
Proof.
  intros m vs Dm L D Sp. assert (L' : (3 < length (map (img m) vs))%nat) by (rewrite map_length; auto).
  destruct (convex_answer vs L) as (c & d & k & E & F), (convex_answer (map (img m) vs) L') as (c' & d' & k' & E' & F').
  change (poly_from_points vs) with (pfresh vs). change (poly_from_points (map (img m) vs)) with (pfresh (map (img m) vs)). rewrite F, F'. f_equal.
  apply eq_true_iff_eq. split; intro H.
  - assert (B : map (img (inv_mat m)) (map (img m) vs) = vs). { rewrite map_map. rewrite <- (map_id vs) at 2. apply map_ext. intro. apply inv_img; auto. }
    rewrite <- B in E. refine (reported_img (inv_mat m) (map (img m) vs) _ _ _ _ _ _ (inv_det m Dm) (spread_img m vs Dm Sp) _ _ E' E H); [|lia].
    destruct D as (l & x & y & -> & N). exists (map (img m) l), (img m x), (img m y). rewrite map_app. split; auto. intro K. apply N. rewrite <- (inv_img m x), <- (inv_img m y), K; auto.
  - apply (reported_img m vs c c' d d' k k' Dm Sp D ltac:(lia) E E' H).
Qed.
Print Assumptions C53_affine.
Example C53_ex : fst (get_is_convex (poly_from_points (map zv penta))) = Ok true /\ det (mkA 2 1 0 3 (-1) 5) <> 0 /\
  ends_apart (map zv penta) /\ spread (map zv penta) /\ visits_once (map zv penta) /\ convex_ccw (map zv penta) /\
  same_cycle (map zv penta) (map zv [(-1, 3); (2, 5); (5, 3); (4, 0); (0, 0)]%Z) /\ ends_apart (map zv [(-1, 3); (2, 5); (5, 3); (4, 0); (0, 0)]%Z).
Proof.
  split; [apply (z_detected penta 5); [cbn; lia|vm_compute; reflexivity]|]. split; [unfold det; cbn; lra|]. destruct penta_ok as (A & B & C & D). repeat (split; auto).
  - right. exists [], (map zv penta). rewrite app_nil_r. auto.
  - exists (map zv [(-1, 3); (2, 5); (5, 3)]%Z), (zv (4, 0)%Z), (zv (0, 0)%Z). split; auto. unfold zv. intro K. apply mkV_inj in K. cbn in K. lra.
Qed.
