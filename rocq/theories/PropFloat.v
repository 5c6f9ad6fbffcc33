(** * Properties on doubles: parts of C10, C11, C12, C15, C18, C27; C76, C77

    The libm functions and [**] are arbitrary (the parameter [L]); NaN and
    infinities are included unless excluded by a hypothesis. *)
From Coq Require Import ZArith List Bool Reals Floats.
From Verif Require Import Num NumFloat Vec Affine Seq Line LineOps OrdLaws FloatFacts2 FloatFacts3 FloatVec SpecSeq.
Import ListNotations.

(** ** C10 on doubles: end points, bit for bit up to the sign of zero *)
Theorem C10_lerp_float : forall (L : FloatLib) (a b : vec float), finite_vec a -> finite_vec b ->
  same_vec (@lerp _ (FNum L) a b 0%float) a /\ same_vec (@lerp _ (FNum L) a b 1%float) b.
Proof. exact lerp_float. Qed.
Print Assumptions C10_lerp_float.
Example C10_float_ex : finite_vec (mkV 1.5%float (-0)%float) /\ finite_vec (mkV (-0x1p1000)%float 0.5%float).
Proof. repeat split. Qed.

(** ** C11 on doubles *)
Theorem C11_ne_is_not_eq : forall (T : Type) (N : Num T) (a b : vec T), vec_neb a b = negb (vec_eqb a b).
Proof. intros. unfold vec_neb, vec_eqb. rewrite negb_andb. reflexivity. Qed.
Print Assumptions C11_ne_is_not_eq.
Theorem C11_total_preorder_float : forall (L : FloatLib) (a b c : vec float),
  let N := FNum L in ordinary_vec a -> ordinary_vec b -> ordinary_vec c ->
  (vec_lt a b = vec_gt b a /\ vec_le a b = vec_ge b a /\ vec_le a b = negb (vec_lt b a)) /\
  (vec_le a a = true /\ (vec_le a b = true \/ vec_le b a = true)) /\
  (vec_le a b = true -> vec_le b c = true -> vec_le a c = true) /\
  (vec_lt a b = true -> vec_lt b c = true -> vec_lt a c = true).
Proof.
  intros L a b c. cbv zeta. intros Ha Hb Hc.
  assert (Na := length2_nn L a Ha). assert (Nb := length2_nn L b Hb). assert (Nc := length2_nn L c Hc).
  pose proof (float_ordlaws L) as OL. unfold vec_lt, vec_gt, vec_le, vec_ge.
  rewrite !(ol_le_not_lt _ _ _ OL) by assumption. rewrite (ol_irrefl _ _ _ OL).
  split; [auto|]. split; [split; [reflexivity|]|split].
  - destruct (@nltb _ (FNum L) (length2 b) (length2 a)) eqn:H1; [|left; reflexivity].
    destruct (@nltb _ (FNum L) (length2 a) (length2 b)) eqn:H2; [|right; reflexivity].
    exfalso. assert (H := ol_trans _ _ _ OL _ _ _ Nb Na Nb H1 H2). rewrite (ol_irrefl _ _ _ OL) in H. discriminate.
  - rewrite !negb_true_iff. intros H1 H2. exact (ol_total _ _ _ OL _ _ _ Nc Nb Na H2 H1).
  - intros H1 H2. exact (ol_trans _ _ _ OL _ _ _ Na Nb Nc H1 H2).
Qed.
Print Assumptions C11_total_preorder_float.
Example C11_float_ex : ordinary_vec (mkV infinity 1%float) /\ ordinary_vec (mkV 3%float neg_infinity).
Proof. repeat split. Qed.

(** ** C12 on doubles: symmetric for all doubles, reflexive for finite ones *)
Theorem C12_almost_equals_float : forall (L : FloatLib) (E : float) (a b : vec float), let N := FNum L in
  vec_almost_equals E a b = vec_almost_equals E b a /\
  (finite_vec a -> (0 <? fl_pow2 L E)%float = true -> vec_almost_equals E a a = true).
Proof. exact almost_equals_float. Qed.
Print Assumptions C12_almost_equals_float.

(** ** C15 on doubles: shortest() *)
Theorem C15_shortest_float : forall (L : FloatLib) (l : list (vec float)), let N := FNum L in
  l <> [] -> (forall v, In v l -> ordinary_vec v) ->
  exists x, arr_shortest l = Some x /\ first_best (fun a b => vec_lt a b = true) l x.
Proof.
  intros L l N Hl Ho. apply (shortest_any (float_ordlaws L)); auto. intros v Hv. apply length2_nn; auto.
Qed.
Print Assumptions C15_shortest_float.
Example C15_float_ex : forall v, In v [mkV infinity 1%float; mkV 3%float 4%float] -> ordinary_vec v.
Proof. intros v [<-|[<-|[]]]; split; reflexivity. Qed.

(** ** C18 on doubles: never ZeroDivisionError, whatever the entries *)
Theorem C18_invert_float : forall (L : FloatLib) (E : float) (m : affine float), let N := FNum L in
  (0 <? E)%float = true ->
  (ainvert E m = Err TransformNotInvertibleError <-> (abs (determinant m) <? E)%float = true) /\
  (forall e, ainvert E m = Err e -> e = TransformNotInvertibleError).
Proof. exact invert_float. Qed.
Print Assumptions C18_invert_float.

(** ** C27 on doubles *)
Theorem C27_itransform_float : forall (L : FloatLib) (m : affine float) (l : list (vec float)), let N := FNum L in
  ((forall v, In v l -> finite_vec v) -> Forall2 same_vec (itransform m l) (map (aapply m) l)) /\
  (affine_eqb m aidentity = false -> itransform m l = map (aapply m) l).
Proof. intros L m l N. split; [apply itransform_float | apply itransform_nonid]. Qed.
Print Assumptions C27_itransform_float.

(** ** C76: vector methods never divide by zero *)
Theorem C76_vector_methods_total : forall (L : FloatLib) (E : float), let N := FNum L in
  (E <? 0)%float = false -> (fl_pow2 L E <? 0)%float = false ->
  forall (v w : vec float) (r : float) (mn mx : option float),
  (exists u, normalized E v = Ok u) /\ (exists u, scaled_to E v r = Ok u) /\
  (exists u, vec_project E v w = Ok u) /\ (exists u, vec_reflect E v w = Ok u) /\
  ((exists u, clamped E v mn mx = Ok u) \/
   (clamped E v mn mx = Err ValueError /\ exists a b, mn = Some a /\ mx = Some b /\ (b <? a)%float = true) \/
   (clamped E v mn mx = Err OverflowError /\ exists a, (mn = Some a \/ mx = Some a) /\
      PrimFloat.is_infinity (fl_pow2 L a) = true /\ PrimFloat.is_infinity a = false)).
Proof.
  intros L E N H1 H2 v w r mn mx.
  split; [apply normalized_total; auto|]. split; [apply scaled_to_total; auto|].
  split; [apply project_total; auto|]. split; [apply reflect_total; auto|]. apply clamped_total; auto.
Qed.
Print Assumptions C76_vector_methods_total.
(** 0.00001, with [x ** 2] computed as [x * x]; and a bound whose square is
    out of range. *)
Example C76_ex : forall L : FloatLib, (forall x, fl_pow2 L x = x * x)%float ->
  (0x1.4f8b588e368f1p-17 <? 0)%float = false /\ (fl_pow2 L 0x1.4f8b588e368f1p-17 <? 0)%float = false /\
  clamped (N := FNum L) 0x1.4f8b588e368f1p-17%float (mkV 3 4)%float (Some 0x1p600)%float None = Err OverflowError.
Proof.
  intros L H. split; [reflexivity|]. split; [rewrite H; reflexivity|].
  unfold clamped, pypow2. cbn [FNum nisinf npow2]. rewrite H. reflexivity.
Qed.

(** ** C77: linear shapes raise ValueError only *)
Definition only_value_error {X : Type} (r : res X) : Prop := forall e, r = Err e -> e = ValueError.
Lemma fine_only {X} (r : res X) : fine r -> only_value_error r.
Proof. intros H e ->. exact H. Qed.
Section C77.
  Variable (L : FloatLib) (E : float).
  Let N : Num float := FNum L.
  Existing Instance N.
  Hypothesis HE : (E <? 0)%float = false.
  Hypothesis HE2 : (fl_pow2 L E <? 0)%float = false.
  Lemma lines_fine (ps : list (vec float)) (p v : vec float) (o : float) (l : line float) (m : affine float) (op : line_op float) :
    fine (line_new E p v) /\ fine (line_from_points E ps) /\ fine (line_from_normal E v o) /\
    fine (line_parallel E l p) /\ fine (line_perpendicular E l p) /\ fine (line_project E l p) /\
    fine (line_mul E l m) /\ fine (fst (line_act E op l)).
  Proof using HE HE2.
    assert (HP : fine (line_from_points E ps)).
    { unfold line_from_points. fine. destruct x as [[s e] r]. fine. destruct (forallb _ r); fine. }
    split; [unfold line_new; fine|]. split; [exact HP|]. split; [unfold line_from_normal; fine|].
    split; [unfold line_parallel, line_new; fine|]. split; [unfold line_perpendicular, line_new; fine|].
    split; [unfold line_project; fine|].
    split.
    { unfold line_mul. destruct (line_points l) as [p1 p2]. unfold line_from_points. fine.
      destruct x as [[s e] r]. fine. destruct (forallb _ r); fine. }
    rewrite line_act_atomic. unfold atomically.
    assert (HT : fine (line_try E l op)).
    { destruct op; cbn [line_try]; unfold line_set_direction, line_set_normal, line_imul; fine. }
    destruct (line_try E l op); auto; exact I.
  Qed.
  Lemma rays_fine (ps : list (vec float)) (p v : vec float) (r : ray float) (m : affine float) (op : ray_op float) :
    fine (ray_new E p v) /\ fine (ray_from_points E ps) /\ fine (ray_line E r) /\ fine (ray_project E r p) /\
    fine (ray_mul E r m) /\ fine (fst (ray_act E op r)).
  Proof using HE HE2.
    assert (HP : forall ps, fine (ray_from_points E ps)).
    { intro qs. unfold ray_from_points. fine. destruct x as [[s e] t]. fine. destruct (forallb _ t); fine. }
    split; [unfold ray_new; fine|]. split; [apply HP|]. split; [unfold ray_line, line_new; fine|].
    split; [unfold ray_project; fine; destruct (nltb _ _); fine|].
    split.
    { unfold ray_mul. destruct (ray_points r) as [p1 p2]. apply HP. }
    rewrite ray_act_atomic. unfold atomically.
    assert (HT : fine (ray_try E r op)).
    { destruct op; cbn [ray_try]; unfold ray_set_direction, ray_set_normal, ray_imul; fine. }
    destruct (ray_try E r op); auto; exact I.
  Qed.
  Lemma segments_fine (ps : list (vec float)) (p v : vec float) (o a b : float) (s : segment float) (m : affine float) (op : seg_op float) :
    fine (seg_new E p v) /\ fine (seg_from_points E ps) /\ fine (seg_from_normal E v o a b) /\ fine (seg_line E s) /\
    fine (seg_project E s p) /\ fine (seg_mul E s m) /\ fine (fst (seg_act E op s)).
  Proof using HE HE2.
    assert (HP : forall ps, fine (seg_from_points E ps)).
    { intro qs. unfold seg_from_points. destruct qs as [|q qs]; [reflexivity|].
      destruct (fold_left _ qs _) as [f e]. apply fine_bind.
      + destruct (vec_neb _ _); fine.
      + intros [d len]. destruct (forallb _ qs); fine. }
    split; [unfold seg_new; fine; destruct x; fine|]. split; [apply HP|]. split; [unfold seg_from_normal; fine|].
    split; [unfold seg_line, line_new; fine|].
    split; [unfold seg_project; fine; destruct (nleb _ _); fine; destruct (nleb _ _); fine|].
    split.
    { unfold seg_mul. destruct (seg_points s) as [p1 p2]. apply HP. }
    rewrite seg_act_atomic. unfold atomically.
    assert (HT : fine (seg_try E s op)).
    { destruct op; cbn [seg_try]; unfold seg_set_direction, seg_set_normal, seg_set_vector, seg_set_end, seg_imul; fine.
      + destruct x; fine.
      + destruct x; fine.
      + destruct x; fine. }
    destruct (seg_try E s op); auto; exact I.
  Qed.
End C77.
Theorem C77_lines : forall (L : FloatLib) (E : float), let N := FNum L in
  (E <? 0)%float = false -> (fl_pow2 L E <? 0)%float = false ->
  forall (ps : list (vec float)) (p v : vec float) (o : float) (l : line float) (m : affine float) (op : line_op float),
  only_value_error (line_new E p v) /\ only_value_error (line_from_points E ps) /\
  only_value_error (line_from_normal E v o) /\ only_value_error (line_parallel E l p) /\
  only_value_error (line_perpendicular E l p) /\ only_value_error (line_project E l p) /\
  only_value_error (line_mul E l m) /\ only_value_error (fst (line_act E op l)).
Proof.
  intros L E N H1 H2 ps p v o l m op. destruct (lines_fine L E H1 H2 ps p v o l m op) as (A1 & A2 & A3 & A4 & A5 & A6 & A7 & A8).
  repeat split; apply fine_only; assumption.
Qed.
Print Assumptions C77_lines.
Theorem C77_rays : forall (L : FloatLib) (E : float), let N := FNum L in
  (E <? 0)%float = false -> (fl_pow2 L E <? 0)%float = false ->
  forall (ps : list (vec float)) (p v : vec float) (r : ray float) (m : affine float) (op : ray_op float),
  only_value_error (ray_new E p v) /\ only_value_error (ray_from_points E ps) /\ only_value_error (ray_line E r) /\
  only_value_error (ray_project E r p) /\ only_value_error (ray_mul E r m) /\ only_value_error (fst (ray_act E op r)).
Proof.
  intros L E N H1 H2 ps p v r m op. destruct (rays_fine L E H1 H2 ps p v r m op) as (A1 & A2 & A3 & A4 & A5 & A6).
  repeat split; apply fine_only; assumption.
Qed.
Print Assumptions C77_rays.
Theorem C77_segments : forall (L : FloatLib) (E : float), let N := FNum L in
  (E <? 0)%float = false -> (fl_pow2 L E <? 0)%float = false ->
  forall (ps : list (vec float)) (p v : vec float) (o a b : float) (s : segment float) (m : affine float) (op : seg_op float),
  only_value_error (seg_new E p v) /\ only_value_error (seg_from_points E ps) /\
  only_value_error (seg_from_normal E v o a b) /\ only_value_error (seg_line E s) /\
  only_value_error (seg_project E s p) /\ only_value_error (seg_mul E s m) /\ only_value_error (fst (seg_act E op s)).
Proof.
  intros L E N H1 H2 ps p v o a b s m op.
  destruct (segments_fine L E H1 H2 ps p v o a b s m op) as (A1 & A2 & A3 & A4 & A5 & A6 & A7).
  repeat split; apply fine_only; assumption.
Qed.
Print Assumptions C77_segments.
