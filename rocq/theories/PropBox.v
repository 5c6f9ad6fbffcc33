(** * Properties C29 - C37: bounding boxes *)
From Coq Require Import ZArith List Bool Reals Lra Lia Permutation Floats.
From Verif Require Import Num NumFloat Vec Affine Box Seq Polygon BoxPoly RBase VecFacts2 AffineFacts
  OrdLaws FloatFacts SpecGeom SpecAffine SpecBox BoxFacts BoxFacts2.
Import ListNotations.
Local Open Scope R_scope.

(** ** C29.  [tight] speaks of exact members of the list and of the order of
    the number system, so the float instance is bit-exact. *)
Theorem C29_tight_real : forall l : list pt, l <> [] ->
  exists b, box_from_points l = Ok b /\ tight b l /\ proper b /\
    (forall p, In p l -> in_closed b p) /\
    (forall c : bbox R, (forall p, In p l -> in_closed c p) -> encloses c b).
Proof.
  intros l Hl. destruct (box_from_points_tight R_ordlaws l Hl (all_ord l)) as (b & Hb & Ht).
  exists b. destruct (tight_in b l Ht) as (? & ? & ?). auto.
Qed.
Print Assumptions C29_tight_real.

Theorem C29_tight_float : forall (L : FloatLib) (l : list (vec float)), l <> [] -> Forall (ord_pt not_nan) l ->
  exists b, @box_from_points _ (FNum L) l = Ok b /\ @tight _ (FNum L) b l.
Proof. intros L l Hl HD. exact (box_from_points_tight (float_ordlaws L) l Hl HD). Qed.
Print Assumptions C29_tight_float.

Theorem C29_empty : forall (T : Type) (N : Num T), box_from_points (@nil (vec T)) = Err ValueError.
Proof. reflexivity. Qed.
Print Assumptions C29_empty.

Example C29_ex : Forall (ord_pt not_nan) [mkV 1.5%float (-0)%float; mkV neg_infinity 2%float] /\
  exists b : bbox R, box_from_points [mkV 1 5; mkV (-2) 3; mkV 0 9] = Ok b /\ bmin b = mkV (-2) 3 /\ bmax b = mkV 1 9.
Proof.
  split; [repeat constructor|].
  destruct (C29_tight_real [mkV 1 5; mkV (-2) 3; mkV 0 9]) as (b & Hb & Ht & _); [discriminate|].
  exists b. split; auto.
  assert (b = mkBox (mkV (-2) 3) (mkV 1 9)); [|subst; auto].
  apply (tight_uniq b _ [mkV 1 5; mkV (-2) 3; mkV 0 9] [mkV 1 5; mkV (-2) 3; mkV 0 9]); auto; [tauto|].
  unfold tight, least, greatest. cbn [map bmin bmax vx vy In nleb RNum].
  repeat split; auto; intros z Hz; apply Rleb_true; decompose [or] Hz; subst; try lra; contradiction.
Qed.

(** ** C30: [shapes] are the vertex lists of the shapes, [bs] their bounding boxes *)
Theorem C30_from_shapes_real : forall (shapes : list (list pt)) (bs : list (bbox R)), shapes <> [] ->
  Forall2 (fun l b => box_from_points l = Ok b) shapes bs ->
  exists b, box_from_shapes bs = Ok b /\ tight b (concat shapes) /\
    (forall l p, In l shapes -> In p l -> in_closed b p) /\
    (forall c : bbox R, (forall l p, In l shapes -> In p l -> in_closed c p) -> encloses c b).
Proof.
  intros shapes bs Hne HF.
  destruct (from_shapes_tight R_ordlaws shapes bs Hne) as (b & Hb & Ht); auto.
  { apply Forall_forall. intros; apply all_ord. }
  exists b. destruct (tight_in b _ Ht) as (H1 & H2 & H3). split; auto. split; auto. split.
  - intros l p Hl Hp. apply H1. apply in_concat. eauto.
  - intros c Hc. apply H3. intros p Hp. apply in_concat in Hp. destruct Hp as (l & ? & ?). eauto.
Qed.
Print Assumptions C30_from_shapes_real.

Theorem C30_order_independent : forall (bs cs : list (bbox R)) (shapes : list (list pt)) (b c : bbox R),
  Forall2 (fun l b => box_from_points l = Ok b) shapes bs -> Permutation bs cs ->
  box_from_shapes bs = Ok b -> box_from_shapes cs = Ok c -> b = c.
Proof.
  intros bs cs shapes b c HF HP Hb Hc.
  assert (HS : exists shapes', Permutation shapes shapes' /\ Forall2 (fun l b => box_from_points l = Ok b) shapes' cs).
  { destruct (Permutation_Forall2 HP (Forall2_flip _ _ _ HF)) as (s' & Hp & Hf).
    exists s'. split; auto. apply Forall2_flip in Hf. exact Hf. }
  destruct HS as (shapes' & HP' & HF').
  assert (Hn : shapes <> []) by (intros ->; inversion HF; subst; discriminate).
  assert (Hn' : shapes' <> []) by (intros ->; inversion HF'; subst; discriminate).
  destruct (C30_from_shapes_real shapes bs Hn HF) as (b' & E1 & T1 & _).
  destruct (C30_from_shapes_real shapes' cs Hn' HF') as (c' & E2 & T2 & _).
  rewrite Hb in E1. rewrite Hc in E2. injection E1 as <-. injection E2 as <-.
  apply (tight_uniq b c (concat shapes) (concat shapes')); auto.
  intro p. rewrite !in_concat. split; intros (l & Hl & Hp); exists l; split; auto.
  - eapply Permutation_in; eauto.
  - eapply Permutation_in; [apply Permutation_sym|]; eauto.
Qed.
Print Assumptions C30_order_independent.

Theorem C30_from_shapes_float : forall (L : FloatLib) (shapes : list (list (vec float))) (bs : list (bbox float)),
  shapes <> [] -> Forall (Forall (ord_pt not_nan)) shapes ->
  Forall2 (fun l b => @box_from_points _ (FNum L) l = Ok b) shapes bs ->
  exists b, @box_from_shapes _ (FNum L) bs = Ok b /\ @tight _ (FNum L) b (concat shapes).
Proof. intros L shapes bs. exact (from_shapes_tight (float_ordlaws L) shapes bs). Qed.
Print Assumptions C30_from_shapes_float.

Example C30_ex : exists b : bbox R,
  box_from_shapes [mkBox (mkV 0 0) (mkV 1 1); mkBox (mkV (-1) 2) (mkV 0 5)] = Ok b /\ bmin b = mkV (-1) 0 /\ bmax b = mkV 1 5.
Proof.
  assert (H : forall x y z w : R, x <= z -> y <= w -> box_from_points [mkV x y; mkV z w] = Ok (mkBox (mkV x y) (mkV z w))).
  { intros. rewrite box_two. cbn [vx vy]. rewrite !Rmin_left, !Rmax_right; auto. }
  destruct (C30_from_shapes_real [[mkV 0 0; mkV 1 1]; [mkV (-1) 2; mkV 0 5]]
             [mkBox (mkV 0 0) (mkV 1 1); mkBox (mkV (-1) 2) (mkV 0 5)]) as (b & Hb & Ht & _).
  - discriminate.
  - repeat constructor; apply H; lra.
  - exists b. split; auto. assert (b = mkBox (mkV (-1) 0) (mkV 1 5)); [|subst; auto].
    eapply tight_uniq; [| exact Ht |]; [intro; split; intro Hp; exact Hp|].
    unfold tight, least, greatest. cbn [concat app map bmin bmax vx vy In nleb RNum].
    repeat split; auto; intros z Hz; apply Rleb_true; decompose [or] Hz; subst; try lra; contradiction.
Qed.

(** ** C31 *)
Theorem C31_tiling_real : forall (b : bbox R) (c : R) (p : pt),
  (vx (bmin b) <= c <= vx (bmax b) ->
   box_contains b p = xorb (box_contains (left_part b c) p) (box_contains (right_part b c) p) /\
   box_contains (left_part b c) p && box_contains (right_part b c) p = false) /\
  (vy (bmin b) <= c <= vy (bmax b) ->
   box_contains b p = xorb (box_contains (low_part b c) p) (box_contains (high_part b c) p) /\
   box_contains (low_part b c) p && box_contains (high_part b c) p = false) /\
  (box_is_empty b = true -> box_contains b p = false) /\
  (box_contains b p = true -> in_closed b p).
Proof.
  intros b c p. split; [|split; [|split]].
  - intros [H1 H2]. apply (cut_x R_ordlaws); cbn; try apply Rleb_true; auto; repeat split; auto.
  - intros [H1 H2]. apply (cut_y R_ordlaws); cbn; try apply Rleb_true; auto; repeat split; auto.
  - unfold box_is_empty, box_contains, vsub, nfalsy, n0. rnum. intro H. apply orb_true_iff in H.
    apply not_true_iff_false. intro H'. rbool. destruct H as [H|H]; rbool; lra.
  - intro H. destruct (contains_closed R_ordlaws b p) as ((H1 & H2 & H3 & H4) & _); try (repeat split; auto); auto;
      cbn in *; rbool; lra.
Qed.
Print Assumptions C31_tiling_real.

(** A box is empty exactly when it contains no point. *)
Theorem C31_empty : forall b : bbox R, proper b ->
  (box_is_empty b = true <-> (wd b = 0 \/ ht b = 0)) /\
  (box_is_empty b = true <-> forall p, box_contains b p = false).
Proof.
  intros b [H1 H2].
  assert (K : box_is_empty b = true <-> (wd b = 0 \/ ht b = 0)).
  { unfold box_is_empty, vsub, nfalsy, n0, wd, ht. rnum. rewrite orb_true_iff, !Reqb_true. cbn [vx vy]. tauto. }
  split; [exact K|]. split.
  - intros H p. exact (proj1 (proj2 (proj2 (C31_tiling_real b 0 p))) H).
  - intro H. apply K. destruct (Req_dec (wd b) 0) as [|Hw]; [auto|]. destruct (Req_dec (ht b) 0) as [|Hh]; [auto|]. exfalso.
    unfold wd in Hw. unfold ht in Hh. specialize (H (mkV (vx (bmin b)) (vy (bmax b)))). apply not_true_iff_false in H. apply H.
    unfold box_contains. rnum. rewrite !andb_true_iff, !Rleb_true, !Rltb_true. cbn [vx vy]. repeat split; lra.
Qed.
Print Assumptions C31_empty.

Theorem C31_tiling_float : forall (L : FloatLib) (b : bbox float) (c : float) (p : vec float),
  ord_box not_nan b -> not_nan c -> ord_pt not_nan p ->
  let contains := @box_contains _ (FNum L) in
  (PrimFloat.leb (vx (bmin b)) c = true -> PrimFloat.leb c (vx (bmax b)) = true ->
   contains b p = xorb (contains (left_part b c) p) (contains (right_part b c) p) /\
   contains (left_part b c) p && contains (right_part b c) p = false) /\
  (PrimFloat.leb (vy (bmin b)) c = true -> PrimFloat.leb c (vy (bmax b)) = true ->
   contains b p = xorb (contains (low_part b c) p) (contains (high_part b c) p) /\
   contains (low_part b c) p && contains (high_part b c) p = false) /\
  (@box_is_empty _ (FNum L) b = true -> contains b p = false).
Proof.
  intros L b c p HB Hc Hp. cbv zeta. split; [|split].
  - intros H1 H2. apply (cut_x (float_ordlaws L)); auto.
  - intros H1 H2. apply (cut_y (float_ordlaws L)); auto.
  - intro H. apply not_true_iff_false. intro H'.
    destruct (contains_closed (float_ordlaws L) b p HB Hp H') as (_ & X & Y).
    unfold box_is_empty in H. apply orb_true_iff in H.
    destruct H as [H|H]; apply fsub_zero in H.
    + revert X. cbn. rewrite H. discriminate.
    + revert Y. cbn. rewrite H. discriminate.
Qed.
Print Assumptions C31_tiling_float.

(** A point exactly on the cut belongs to one part only. *)
Example C31_ex :
  let b := mkBox (mkV 0 0) (mkV 2 2) in
  box_contains (left_part b 1) (mkV 1 1) = false /\ box_contains (right_part b 1) (mkV 1 1) = true.
Proof.
  unfold box_contains, left_part, right_part; cbn [bmin bmax vx vy nleb nltb RNum]. split.
  - apply andb_false_iff. left. apply andb_false_iff. right. apply Rltb_false. lra.
  - rbool; lra.
Qed.

(** ** C32 *)
Theorem C32_from_center : forall (c : pt) (w h : R), exists b, box_from_center c w h = Ok b /\
  proper b /\ mid b = c /\ wd b = Rabs w /\ ht b = Rabs h /\
  box_center b = Ok c /\ box_width b = Rabs w /\ box_height b = Rabs h.
Proof.
  intros c w h. destruct (from_center_spec c w h) as (b & H1 & H2 & H3 & H4 & H5). exists b.
  rewrite box_center_R, H3. unfold box_width, box_height. rnum. fold (wd b) (ht b). auto 10.
Qed.
Print Assumptions C32_from_center.

Theorem C32_inflate : forall (b : bbox R) (d : pt), proper b -> exists r, box_inflate b d = Ok r /\
  proper r /\ mid r = mid b /\ wd r = Rabs (wd b + vx d) /\ ht r = Rabs (ht b + vy d) /\
  box_center r = box_center b /\ box_width r = Rabs (box_width b + vx d) /\ box_height r = Rabs (box_height b + vy d).
Proof.
  intros b d Hp. destruct (inflate_spec b d Hp) as (r & H1 & H2 & H3 & H4 & H5). exists r.
  rewrite !box_center_R, H3. unfold box_width, box_height. rnum. fold (wd b) (ht b) (wd r) (ht r). auto 10.
Qed.
Print Assumptions C32_inflate.

Theorem C32_inflate_deflate : forall (b : bbox R) (d : pt), proper b -> 0 <= vx d -> 0 <= vy d ->
  exists r, box_inflate b d = Ok r /\ encloses r b /\ box_inflate r (mkV (- vx d) (- vy d)) = Ok b.
Proof. exact inflate_grow. Qed.
Print Assumptions C32_inflate_deflate.

Theorem C32_inflate_scalar : forall (b : bbox R) (s : R), box_inflate_scalar b s = box_inflate b (mkV s s).
Proof. exact inflate_scalar. Qed.
Print Assumptions C32_inflate_scalar.

Example C32_ex : proper (mkBox (mkV (-1) 2) (mkV 0 5)) /\ 0 <= vx (mkV 3 0) /\ 0 <= vy (mkV 3 0).
Proof. unfold proper; cbn; lra. Qed.

(** ** C33 *)
Theorem C33_inflate_negative_refuted : exists (b r : bbox R) (s : R), proper b /\ s < 0 /\
  box_inflate_scalar b s = Ok r /\ wd b < wd r /\ ht b < ht r.
Proof. exact inflate_negative_enlarges. Qed.
Print Assumptions C33_inflate_negative_refuted.

(** Exactly when a negative amount does reduce the box. *)
Theorem C33_inflate_negative_partial : forall (b r : bbox R) (d : pt), proper b -> vx d <= 0 -> vy d <= 0 ->
  box_inflate b d = Ok r -> (encloses b r <-> - vx d <= 2 * wd b /\ - vy d <= 2 * ht b).
Proof. exact inflate_negative_iff. Qed.
Print Assumptions C33_inflate_negative_partial.

Example C33_ex : let b := mkBox (mkV 0 0) (mkV 4 4) in
  proper b /\ - vx (mkV (-1) (-8)) <= 2 * wd b /\ - vy (mkV (-1) (-8)) <= 2 * ht b.
Proof. unfold proper, wd, ht; cbn; lra. Qed.

(** ** C34 *)
Theorem C34_fit_box : forall s o : bbox R, 0 < wd s -> 0 < ht s -> 0 < wd o -> 0 < ht o ->
  exists r k, box_fit_box s o = Ok r /\ 0 < k /\ mid r = mid s /\
    wd r = k * wd o /\ ht r = k * ht o /\ encloses s r /\ (wd r = wd s \/ ht r = ht s).
Proof. exact fit_box_spec. Qed.
Print Assumptions C34_fit_box.

Theorem C34_fit_box_zero : forall s o : bbox R, wd o = 0 \/ ht o = 0 ->
  box_fit_box s o = Err ZeroDivisionError.
Proof. exact fit_box_zero. Qed.
Print Assumptions C34_fit_box_zero.

Example C34_ex : let s := mkBox (mkV 0 0) (mkV 1 1) in let o := mkBox (mkV 10 10) (mkV 14 12) in
  0 < wd s /\ 0 < ht s /\ 0 < wd o /\ 0 < ht o.
Proof. unfold wd, ht; cbn; lra. Qed.

(** ** C35: the fitted polygon can lie entirely outside the box *)
Theorem C35_fit_shape_refuted : exists (s rb : bbox R) (shape r : poly R),
  poly_new (sq 10 10 2) None None = Ok shape /\ 0 < wd s /\ 0 < ht s /\
  box_fit_poly s shape = Ok r /\ tight rb (pverts r) /\ mid rb <> mid s /\
  (forall p, in_closed rb p -> ~ in_closed s p).
Proof. exact fit_poly_bad. Qed.
Print Assumptions C35_fit_shape_refuted.

(** The size is always right; the position only without scaling or for shapes
    centred at the origin. *)
Theorem C35_fit_shape_partial : forall (s sb : bbox R) (shape : poly R),
  pbbox shape = None -> tight sb (pverts shape) ->
  0 < wd s -> 0 < ht s -> 0 < wd sb -> 0 < ht sb ->
  exists r rb k, box_fit_poly s shape = Ok r /\ tight rb (pverts r) /\ 0 < k /\
    wd rb = k * wd sb /\ ht rb = k * ht sb /\ wd rb <= wd s /\ ht rb <= ht s /\
    (wd rb = wd s \/ ht rb = ht s) /\
    (mid rb = mid s <-> k = 1 \/ mid sb = porigin) /\
    (mid rb = mid s -> encloses s rb).
Proof. exact fit_poly_iff. Qed.
Print Assumptions C35_fit_shape_partial.

Example C35_ex : exists shape : poly R, poly_new (sq (-1) (-1) 2) None None = Ok shape /\ pbbox shape = None /\
  tight (mkBox (mkV (-1) (-1)) (mkV (-1 + 2) (-1 + 2))) (pverts shape).
Proof.
  exists (cleared (map vec2_of (sq (-1) (-1) 2)) None). split; [reflexivity|]. split; [reflexivity|].
  cbn [cleared pverts]. rewrite map_vec2_of_R. apply sq_tight. lra.
Qed.

(** ** C36: for an exactly rectilinear transform the result is the image, as a set *)
Theorem C36_rectilinear : forall (E : R) (b : bbox R) (m : affine R), 0 < E -> proper b -> exactly_rectilinear m ->
  exists r, box_mul E b m = Ok (IsBox r) /\ proper r /\
    forall q, in_closed r q <-> exists p, in_closed b p /\ q = img m p.
Proof. exact box_mul_exact. Qed.
Print Assumptions C36_rectilinear.

Theorem C36_other : forall (E : R) (b : bbox R) (m : affine R), is_rectilinear E m = false ->
  exists p, box_mul E b m = Ok (IsPoly p) /\
    pverts p = map (img m) [bmin b; mkV (vx (bmin b)) (vy (bmax b)); bmax b; mkV (vx (bmax b)) (vy (bmin b))].
Proof. exact box_mul_poly. Qed.
Print Assumptions C36_other.

Example C36_ex : exactly_rectilinear (mkA 0 2 1 (-3) 0 5) /\ is_rectilinear (/ 100) (mkA 1 1 0 (-1) 1 0) = false.
Proof.
  split; [right; cbn; auto|]. apply not_true_iff_false. rewrite is_rect_iff. cbn.
  replace (Rabs (-1)) with 1 by (rewrite Rabs_left; lra). rewrite Rabs_R1. lra.
Qed.

(** ** C37 *)
Theorem C37_nearly_rectilinear_refuted : forall E : R, 0 < E < 1 ->
  exists (b r : bbox R) (m : affine R) (p : pt), proper b /\
  is_rectilinear E m = true /\ box_mul E b m = Ok (IsBox r) /\ in_closed b p /\
  vx (bmax r) + E < vx (img m p).
Proof. exact box_mul_misses. Qed.
Print Assumptions C37_nearly_rectilinear_refuted.

(** The error is at most EPSILON times the longer side of the box. *)
Theorem C37_nearly_rectilinear_partial : forall (E : R) (b r : bbox R) (m : affine R) (p : pt), proper b ->
  box_mul E b m = Ok (IsBox r) -> in_closed b p ->
  let s := E * Rmax (wd b) (ht b) in
  vx (bmin r) - s <= vx (img m p) <= vx (bmax r) + s /\ vy (bmin r) - s <= vy (img m p) <= vy (bmax r) + s.
Proof. exact box_mul_near. Qed.
Print Assumptions C37_nearly_rectilinear_partial.

Example C37_ex : exists r, box_mul (/ 10) (mkBox (mkV 0 0) (mkV 1 1)) (mkA 1 0 0 (/ 20) 1 0) = Ok (IsBox r).
Proof.
  destruct (box_mul_rect (/ 10) (mkBox (mkV 0 0) (mkV 1 1)) (mkA 1 0 0 (/ 20) 1 0)) as (r & Hr & _); eauto.
  apply is_rect_iff. right. cbn. rewrite Rabs_R0, Rabs_right; lra.
Qed.
