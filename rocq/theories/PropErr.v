(** * C87-C90: results on doubles against exact arithmetic *)
From Coq Require Import ZArith List Bool Reals Lra Lia Psatz Floats.
From Flocq Require Import Core IEEE754.PrimFloat IEEE754.BinarySingleNaN.
From Verif Require Import Num NumFloat Vec Affine Line OrdLaws SpecGeom SpecAffine SpecLine SpecErr RBase VecFacts2 AffineFacts LineFacts LineFacts2 FloatFacts FloatFacts2 FloatFacts3 FloatVec SpecExact FloatExact FloatErr FloatErr2 FloatErr3 FloatErr4 FloatErr5 FloatErr6 FloatErr7.
Import ListNotations.
Local Open Scope R_scope.

(** ** C87: vectors and transforms *)
(** Sums and differences: correctly rounded, relative error 2^-53 per coordinate. *)
Theorem C87_add_sub : forall (L : FloatLib) (v w : vec PrimFloat.float), finite_vec v -> finite_vec w ->
  let N := FNum L in
  (Rabs (toR (vx v) + toR (vx w)) <= huge -> apx (vx (vadd v w)) (toR (vx v) + toR (vx w)) (runit * Rabs (toR (vx v) + toR (vx w)))) /\
  (Rabs (toR (vy v) + toR (vy w)) <= huge -> apx (vy (vadd v w)) (toR (vy v) + toR (vy w)) (runit * Rabs (toR (vy v) + toR (vy w)))) /\
  (Rabs (toR (vx v) - toR (vx w)) <= huge -> apx (vx (vsub v w)) (toR (vx v) - toR (vx w)) (runit * Rabs (toR (vx v) - toR (vx w)))) /\
  (Rabs (toR (vy v) - toR (vy w)) <= huge -> apx (vy (vsub v w)) (toR (vy v) - toR (vy w)) (runit * Rabs (toR (vy v) - toR (vy w)))).
Proof.
  intros L v w [V1 V2] [W1 W2] N.
  assert (A : forall a b, finite a -> finite b -> Rabs (toR a + toR b) <= huge -> apx (a + b) (toR a + toR b) (runit * Rabs (toR a + toR b))).
  { intros a b Fa Fb H. eapply apx_weak; [apply (apx_add _ _ _ _ _ _ (Rabs (toR a + toR b)) (apx_exact a Fa) (apx_exact b Fb)); lra|lra]. }
  split; [|split; [|split]]; intro H; first [apply A; auto|apply apx_diff; auto].
Qed.
Print Assumptions C87_add_sub.
(** Dot and cross products: the error is measured against the sizes of the two
    products that are added. *)
Theorem C87_dot : forall (L : FloatLib) (v w : vec PrimFloat.float), finite_vec v -> finite_vec w ->
  Rabs (toR (vx v) * toR (vx w)) + Rabs (toR (vy v) * toR (vy w)) <= huge / 2 -> let N := FNum L in
  apx (dot v w) (pdot (vecR v) (vecR w)) (3 * runit * (Rabs (toR (vx v) * toR (vx w)) + Rabs (toR (vy v) * toR (vy w))) + 3 * tiny).
Proof. intros L v w Fv Fw H N. exact (dot_err L v w Fv Fw H). Qed.
Print Assumptions C87_dot.
(** So the sign of the cross product (which side of [v] is [w] on) is right
    unless the exact cross product is that small. *)
Theorem C87_cross : forall (L : FloatLib) (v w : vec PrimFloat.float), finite_vec v -> finite_vec w ->
  let S := Rabs (toR (vx v) * toR (vy w)) + Rabs (toR (vy v) * toR (vx w)) in S <= huge / 2 -> let N := FNum L in
  apx (cross v w) (pcross (vecR v) (vecR w)) (3 * runit * S + 3 * tiny) /\
  correct_beyond (nltb n0 (cross v w)) (pcross (vecR v) (vecR w)) (3 * runit * S + 3 * tiny) /\
  correct_beyond (nltb (cross v w) n0) (- pcross (vecR v) (vecR w)) (3 * runit * S + 3 * tiny).
Proof.
  intros L v w Fv Fw S H N. pose proof (cross_err L v w Fv Fw H) as K. change (cross_mag (vecR v) (vecR w)) with S in K.
  split; [exact K|]. cbn [nltb N FNum]. fold N. change n0 with 0%float. pose proof (apx_exact 0 eq_refl) as Z. rewrite toR_0 in Z. split.
  - eapply beyond_weak; [apply (beyond_lt _ _ _ _ _ _ Z K)|]. rewrite Rminus_0_r, Rminus_diag_eq, Rabs_R0 by auto. lra.
  - eapply beyond_weak; [apply (beyond_lt _ _ _ _ _ _ K Z)|]. rewrite Rminus_0_l, Rminus_diag_eq, Rabs_R0 by auto. lra.
Qed.
Print Assumptions C87_cross.
(** Application of a transform to a point. *)
Theorem C87_transform : forall (L : FloatLib) (m : affine PrimFloat.float) (v : vec PrimFloat.float), finite_aff m -> finite_vec v ->
  let X := Rabs (toR (vx v) * toR (aa m)) + Rabs (toR (vy v) * toR (ad m)) + Rabs (toR (ac m)) in
  let Y := Rabs (toR (vx v) * toR (ab m)) + Rabs (toR (vy v) * toR (ae m)) + Rabs (toR (af m)) in
  X <= huge / 2 -> Y <= huge / 2 -> let N := FNum L in
  near_vec (aapply m v) (img (affR m) (vecR v)) (5 * runit * Rmax X Y + 4 * tiny).
Proof.
  intros L m v Fm Fv X Y HX HY N. destruct (aapply_err L m v Fm Fv HX HY) as [A B]. rewrite aapply_R in A, B. pose proof runit_pos.
  split; [eapply apx_weak; [exact A|]|eapply apx_weak; [exact B|]]; apply Rplus_le_compat_r, Rmult_le_compat_l; try lra; [apply Rmax_l|apply Rmax_r].
Qed.
Print Assumptions C87_transform.
(** Interpolation. *)
Theorem C87_lerp : forall (L : FloatLib) (v w : vec PrimFloat.float) (t : PrimFloat.float) (M : R), finite_vec v -> finite_vec w -> finite t ->
  0 <= toR t <= 1 -> Rabs (toR (vx v)) <= M -> Rabs (toR (vy v)) <= M -> Rabs (toR (vx w)) <= M -> Rabs (toR (vy w)) <= M -> M <= huge / 4 ->
  let N := FNum L in near_vec (lerp v w t) (between (vecR v) (vecR w) (toR t)) (5 * runit * M + 3 * tiny).
Proof.
  intros L v w t M [V1 V2] [W1 W2] Ft Ht A1 A2 B1 B2 HM N. pose proof huge_pos as HP. pose proof runit_pos as U0. pose proof runit_small as U1.
  assert (H1 : 1 <= huge) by (unfold huge; change 1 with (bpow radix2 0); apply bpow_le; lia).
  assert (F1 : apx (1 - t) (1 - toR t) (runit * Rabs (1 - toR t))).
  { rewrite <- toR_1. apply apx_diff; [reflexivity|auto|]. rewrite toR_1, Rabs_pos_eq by lra. lra. }
  assert (G : forall a b, finite a -> finite b -> Rabs (toR a) <= M -> Rabs (toR b) <= M ->
    apx (a * (1 - t) + b * t) (toR a + toR t * (toR b - toR a)) (5 * runit * M + 3 * tiny)).
  { intros a b Fa Fb Ha Hb.
    assert (Qa : Rabs (toR a * (1 - toR t)) <= M * (1 - toR t)) by (rewrite Rabs_mult, (Rabs_pos_eq (1 - toR t)) by lra; apply Rmult_le_compat_r; lra).
    assert (Qb : Rabs (toR b * toR t) <= M * toR t) by (rewrite Rabs_mult, (Rabs_pos_eq (toR t)) by lra; apply Rmult_le_compat_r; lra).
    pose proof (Rabs_pos (toR a)). assert (0 <= M) by lra.
    assert (M * (1 - toR t) <= M) by nra. assert (M * toR t <= M) by nra.
    destruct (apx_prod1 a (1 - t) (1 - toR t) Fa F1) as [P1 _]; [lra|].
    assert (P2 : apx (b * t) (toR b * toR t) (3 * runit * Rabs (toR b * toR t) + tiny)).
    { eapply apx_weak; [apply apx_prod; auto; lra|]. pose proof (Rabs_pos (toR b * toR t)). nra. }
    eapply apx_weak; [eapply apx_eq; [apply (apx_add2' _ _ _ _ _ _ P1 P2); lra|ring]|].
    apply Rplus_le_compat_r, Rmult_le_compat_l; lra. }
  split; unfold between, padd, pscale, psub, vecR, lerp; cbn [vx vy nadd nmul nsub N FNum]; change n1 with 1%float; apply G; auto.
Qed.
Print Assumptions C87_lerp.
(** Length and normalization, given a square root with relative error 2^-52. *)
Theorem C87_length : forall (L : FloatLib) (E : PrimFloat.float) (v : vec PrimFloat.float), sqrt_ok L -> finite_vec v ->
  bpow radix2 (-400) <= norm (vecR v) <= bpow radix2 400 -> let N := FNum L in
  apx (vlength v) (norm (vecR v)) (7 * runit * norm (vecR v)) /\
  (finite E -> toR E < norm (vecR v) * (1 - 7 * runit) ->
   exists w, normalized E v = Ok w /\ near_vec w (pscale (/ norm (vecR v)) (vecR v)) (10 * runit)).
Proof.
  intros L E v HS Fv Hn N. pose proof (length_rel L HS v Fv Hn) as K. split; [exact K|]. intros FE H.
  apply (normalized_err L HS E v Fv Hn). apply (apx_lt _ _ _ _ _ _ (apx_exact E FE) K). lra.
Qed.
Print Assumptions C87_length.

(** The hypotheses about the library hold for IEEE-754 square root and product. *)
Definition ieee_lib : FloatLib :=
  {| fl_sqrt := PrimFloat.sqrt; fl_pow2 := fun x => (x * x)%float; fl_floordiv := fun x _ => x; fl_mod := fun x _ => x;
     fl_cos := fun x => x; fl_sin := fun x => x; fl_tan := fun x => x; fl_atan2 := fun x _ => x; fl_hypot := fun x _ => x;
     fl_radians := fun x => x; fl_degrees := fun x => x |}.
Lemma ieee_ok : sqrt_ok ieee_lib /\ eps_ok ieee_lib 0x1p-17.
Proof.
  split; [exact (fun x F P => ieee_sqrt_ok x F P)|].
  assert (T : toR 0x1p-17 = / 131072) by (vm_compute; lra).
  assert (T2 : toR (fl_pow2 ieee_lib 0x1p-17) = / 17179869184) by (vm_compute; lra).
  unfold eps_ok. rewrite T, T2. split; [reflexivity|]. split; [lra|]. split; [reflexivity|lra].
Qed.

(** ** C88: lines *)
(** [Line(p, v)]: built, and every query point in range is classified as exact
    arithmetic would, except within 2^-46 of the coordinate range from a
    decision boundary. *)
Theorem C88_line_new : forall (L : FloatLib) (E : PrimFloat.float) (M : R) (p v : vec PrimFloat.float),
  sqrt_ok L -> eps_ok L E -> room M -> within M p -> finite_vec v -> good_length E (norm (vecR v)) ->
  let N := FNum L in exists l, line_new E p v = Ok l /\
  forall q, within M q -> let x := offset_right (vecR p) (vecR v) (vecR q) in
    apx (line_distance_to l q) x (margin (-46) M) /\
    correct_beyond (line_point_left E l q) (- x - toR E) (margin (-46) M) /\
    correct_beyond (line_point_right E l q) (x - toR E) (margin (-46) M) /\
    correct_beyond (line_contains E l q) (toR E - Rabs x) (margin (-46) M).
Proof.
  intros L E M p v HS HE HM Hp Fv G N. destruct (line_new_built L HS M E HE p v Hp Fv G) as (l & Hl & Nd & Ho). exists l. split; [exact Hl|].
  intros q Hq. exact (line_answers L M HM E HE (vecR v) (good_pos _ _ G) l p q Nd Hp Hq Ho).
Qed.
Print Assumptions C88_line_new.
(** [Line.from_points]: two points alone are always accepted; further points
    are accepted if clearly within EPSILON of the exact line, and the call
    raises ValueError if one is clearly further away. *)
Theorem C88_line_from_points : forall (L : FloatLib) (E : PrimFloat.float) (M : R) (a b : vec PrimFloat.float) (k : nat) (rest : list (vec PrimFloat.float)),
  sqrt_ok L -> eps_ok L E -> room M -> within M a -> within M b -> Forall (within M) rest ->
  let v := psub (vecR b) (vecR a) in good_length E (norm v) ->
  let N := FNum L in let ps := a :: repeat a k ++ b :: rest in
  (Forall (fun p => Rabs (offset_right (vecR a) v (vecR p)) < toR E - margin (-46) M) rest ->
   exists l, line_from_points E ps = Ok l /\
   (margin (-46) M < toR E -> line_contains E l a = true /\ line_contains E l b = true) /\
   forall q, within M q -> let x := offset_right (vecR a) v (vecR q) in
    apx (line_distance_to l q) x (margin (-46) M) /\
    correct_beyond (line_point_left E l q) (- x - toR E) (margin (-46) M) /\
    correct_beyond (line_point_right E l q) (x - toR E) (margin (-46) M) /\
    correct_beyond (line_contains E l q) (toR E - Rabs x) (margin (-46) M)) /\
  (Exists (fun p => toR E + margin (-46) M < Rabs (offset_right (vecR a) v (vecR p))) rest -> line_from_points E ps = Err ValueError).
Proof.
  intros L E M a b k rest HS HE HM Ha Hb Hr v G N ps. destruct (line_points_built L HS M HM E HE a b k rest Ha Hb G) as (l & Nd & Ho & Hl).
  assert (K : forall q, within M q -> let x := offset_right (vecR a) v (vecR q) in
    apx (line_distance_to l q) x (margin (-46) M) /\
    correct_beyond (line_point_left E l q) (- x - toR E) (margin (-46) M) /\
    correct_beyond (line_point_right E l q) (x - toR E) (margin (-46) M) /\
    correct_beyond (line_contains E l q) (toR E - Rabs x) (margin (-46) M)).
  { intros q Hq. exact (line_answers L M HM E HE v (good_pos _ _ G) l a q Nd Ha Hq Ho). }
  fold N in Hl. unfold ps. rewrite Hl. rewrite Forall_forall in Hr. split.
  - intro Hc. exists l. split; [|split].
    + replace (forallb (line_contains E l) rest) with true; [reflexivity|]. symmetry. apply forallb_forall. intros q Hq. rewrite Forall_forall in Hc.
      destruct (K q (Hr q Hq)) as (_ & _ & _ & A & _). apply A. specialize (Hc q Hq). cbv beta in Hc. lra.
    + intro HEm. assert (Z : offset_right (vecR a) v (vecR a) = 0 /\ offset_right (vecR a) v (vecR b) = 0).
      { unfold offset_right, v, pcross, psub. cbn [vx vy]. split; unfold Rdiv; ring. }
      destruct (K a Ha) as (_ & _ & _ & A & _). destruct (K b Hb) as (_ & _ & _ & B & _). rewrite (proj1 Z) in A. rewrite (proj2 Z) in B. rewrite Rabs_R0 in A, B.
      split; [apply A|apply B]; lra.
    + exact K.
  - intro Hx. replace (forallb (line_contains E l) rest) with false; [reflexivity|]. symmetry. apply not_true_iff_false. rewrite forallb_forall. intro F.
    apply Exists_exists in Hx. destruct Hx as (q & Hq & Hx). destruct (K q (Hr q Hq)) as (_ & _ & _ & _ & B). specialize (F q Hq). rewrite B in F; [discriminate|lra].
Qed.
Print Assumptions C88_line_from_points.

(** ** C89: rays *)
Theorem C89_ray_new : forall (L : FloatLib) (E : PrimFloat.float) (M : R) (p v : vec PrimFloat.float),
  sqrt_ok L -> eps_ok L E -> room M -> within M p -> finite_vec v -> good_length E (norm (vecR v)) ->
  let N := FNum L in exists r, ray_new E p v = Ok r /\
  forall q, within M q -> let x := offset_along (vecR p) (vecR v) (vecR q) in let y := offset_right (vecR p) (vecR v) (vecR q) in
    correct_beyond (ray_point_behind E r q) (- x - toR E) (margin (-46) M) /\
    correct_beyond (ray_point_left E r q) (Rmin (x + toR E) (- y - toR E)) (margin (-46) M) /\
    correct_beyond (ray_point_right E r q) (Rmin (x + toR E) (y - toR E)) (margin (-46) M) /\
    forall d, set_distance (along_ray (vecR p) (vecR v)) (vecR q) d ->
      apx (ray_distance_to r q) d (margin (-45) M) /\ correct_beyond (ray_contains E r q) (toR E - d) (margin (-45) M).
Proof.
  intros L E M p v HS HE HM Hp Fv G N. destruct (ray_new_built L HS E HE p v Fv G) as (r & Hr & Nd & <-). exists r. split; [exact Hr|].
  intros q Hq. exact (ray_answers L HS M HM E HE (vecR v) (good_pos _ _ G) r q Nd Hp Hq).
Qed.
Print Assumptions C89_ray_new.
Theorem C89_ray_from_points : forall (L : FloatLib) (E : PrimFloat.float) (M : R) (a b : vec PrimFloat.float) (k : nat) (rest : list (vec PrimFloat.float)),
  sqrt_ok L -> eps_ok L E -> room M -> within M a -> within M b -> Forall (within M) rest ->
  let v := psub (vecR b) (vecR a) in good_length E (norm v) ->
  let N := FNum L in let ps := a :: repeat a k ++ b :: rest in
  (Forall (fun p => exists d, set_distance (along_ray (vecR a) v) (vecR p) d /\ d < toR E - margin (-45) M) rest ->
   exists r, ray_from_points E ps = Ok r /\ ranchor r = a /\
   forall q, within M q -> let x := offset_along (vecR a) v (vecR q) in let y := offset_right (vecR a) v (vecR q) in
    correct_beyond (ray_point_behind E r q) (- x - toR E) (margin (-46) M) /\
    correct_beyond (ray_point_left E r q) (Rmin (x + toR E) (- y - toR E)) (margin (-46) M) /\
    correct_beyond (ray_point_right E r q) (Rmin (x + toR E) (y - toR E)) (margin (-46) M) /\
    forall d, set_distance (along_ray (vecR a) v) (vecR q) d ->
      apx (ray_distance_to r q) d (margin (-45) M) /\ correct_beyond (ray_contains E r q) (toR E - d) (margin (-45) M)) /\
  (Exists (fun p => exists d, set_distance (along_ray (vecR a) v) (vecR p) d /\ toR E + margin (-45) M < d) rest -> ray_from_points E ps = Err ValueError).
Proof.
  intros L E M a b k rest HS HE HM Ha Hb Hr v G N ps. destruct (ray_points_built L HS M HM E HE a b k rest Ha Hb G) as (r & Nd & Hra & Hl).
  assert (Ha' : within M (ranchor r)) by (rewrite Hra; exact Ha).
  pose proof (fun q (Hq : within M q) => ray_answers L HS M HM E HE v (good_pos _ _ G) r q Nd Ha' Hq) as K. rewrite Hra in K.
  fold N in Hl. unfold ps. rewrite Hl. rewrite Forall_forall in Hr. split.
  - intro Hc. exists r. split; [|split; [exact Hra|exact K]].
    replace (forallb (ray_contains E r) rest) with true; [reflexivity|]. symmetry. apply forallb_forall. intros q Hq. rewrite Forall_forall in Hc.
    destruct (Hc q Hq) as (d & Hd & Hlt). destruct (K q (Hr q Hq)) as (_ & _ & _ & A). destruct (A d Hd) as [_ [B _]]. apply B. lra.
  - intro Hx. replace (forallb (ray_contains E r) rest) with false; [reflexivity|]. symmetry. apply not_true_iff_false. rewrite forallb_forall. intro F.
    apply Exists_exists in Hx. destruct Hx as (q & Hq & d & Hd & Hlt). destruct (K q (Hr q Hq)) as (_ & _ & _ & A). destruct (A d Hd) as [_ [_ B]].
    specialize (F q Hq). fold N in B. rewrite B in F; [discriminate|lra].
Qed.
Print Assumptions C89_ray_from_points.

(** ** C90: segments *)
Theorem C90_seg_new : forall (L : FloatLib) (E : PrimFloat.float) (M : R) (p v : vec PrimFloat.float),
  sqrt_ok L -> eps_ok L E -> room M -> within M p -> finite_vec v -> good_length E (norm (vecR v)) -> norm (vecR v) <= 4 * M ->
  let N := FNum L in exists s, seg_new E p v = Ok s /\ sanchor s = p /\
  apx (slength s) (norm (vecR v)) (margin (-45) M) /\ near_vec (seg_end s) (padd (vecR p) (vecR v)) (margin (-45) M) /\
  forall q, within M q -> let x := offset_along (vecR p) (vecR v) (vecR q) in let y := offset_right (vecR p) (vecR v) (vecR q) in let len := norm (vecR v) in
    correct_beyond (seg_point_behind E s q) (- x - toR E) (margin (-45) M) /\
    correct_beyond (seg_point_ahead E s q) (x - len - toR E) (margin (-45) M) /\
    correct_beyond (seg_point_left E s q) (Rmin (Rmin (len + toR E - x) (x + toR E)) (- y - toR E)) (margin (-45) M) /\
    correct_beyond (seg_point_right E s q) (Rmin (Rmin (len + toR E - x) (x + toR E)) (y - toR E)) (margin (-45) M) /\
    forall d, set_distance (along_seg (vecR p) (vecR v) 1) (vecR q) d ->
      apx (seg_distance_to s q) d (margin (-43) M) /\ correct_beyond (seg_contains E s q) (toR E - d) (margin (-43) M).
Proof.
  intros L E M p v HS HE HM Hp Fv G H4 N. pose proof (good_pos _ _ G) as P.
  destruct (seg_new_built L HS M HM E HE p v Hp Fv G H4) as (s & Hs & Nd & <- & Hl). exists s. split; [exact Hs|]. split; [reflexivity|].
  pose proof (m_pos M HM) as MP. split; [eapply apx_weak; [exact Hl|rewrite M45; lra]|].
  split.
  - destruct (seg_end_near L M HM (vecR v) P s (norm (vecR v)) Nd Hp ltac:(lra) Hl) as [K _].
    assert (EQ : seg_end (ideal_seg (vecR v) (sanchor s) (norm (vecR v))) = padd (vecR (sanchor s)) (vecR v)).
    { rewrite seg_end_R. unfold ideal_seg. cbn [sanchor slength sdn ideal_dirn ddir]. f_equal. unfold punit, pscale. cbn [vx vy]. unfold vecR. cbn [vx vy]. f_equal; field; apply Rgt_not_eq; exact P. }
    rewrite EQ in K. eapply near_weak; [exact K|rewrite M45; lra].
  - intros q Hq. refine (seg_answers L HS M HM E HE (vecR v) P s q Nd Hp Hq H4 _ Hl).
    destruct G as [_ G]. pose proof runit_pos. assert (norm (vecR v) * (1 - 8 * runit) <= norm (vecR v) * 1) by (apply Rmult_le_compat_l; lra). lra.
Qed.
Print Assumptions C90_seg_new.
(** Two points further apart than EPSILON make a segment between them, if
    EPSILON is above the rounding margin of the coordinates. *)
Theorem C90_seg_from_points : forall (L : FloatLib) (E : PrimFloat.float) (M : R) (a b : vec PrimFloat.float),
  sqrt_ok L -> eps_ok L E -> room M -> within M a -> within M b ->
  let v := psub (vecR b) (vecR a) in good_length E (norm v) -> margin (-43) M < toR E ->
  let N := FNum L in exists s, seg_from_points E [a; b] = Ok s /\ sanchor s = a /\
  apx (slength s) (norm v) (margin (-45) M) /\ near_vec (seg_end s) (vecR b) (margin (-45) M) /\
  seg_contains E s a = true /\ seg_contains E s b = true /\
  forall q, within M q -> forall d, set_distance (along_seg (vecR a) v 1) (vecR q) d ->
    apx (seg_distance_to s q) d (margin (-43) M) /\ correct_beyond (seg_contains E s q) (toR E - d) (margin (-43) M).
Proof.
  intros L E M a b HS HE HM Ha Hb v G HEm N. pose proof (good_pos _ _ G) as P. pose proof (m_pos M HM) as MP.
  destruct (seg_points_built L HS M HM E HE a b Ha Hb G) as (s & Nd & Hsa & Hl & Hf). fold N in Hf. change (delta a b) with v in *.
  assert (Ha' : within M (sanchor s)) by (rewrite Hsa; exact Ha). pose proof (delta_bound M a b Ha Hb) as D4. change (delta a b) with v in D4.
  assert (E4 : toR E <= 4 * M).
  { destruct G as [_ G]. pose proof runit_pos. assert (norm v * (1 - 8 * runit) <= norm v * 1) by (apply Rmult_le_compat_l; lra). lra. }
  pose proof (fun q (Hq : within M q) => seg_answers L HS M HM E HE v P s q Nd Ha' Hq D4 E4 Hl) as K. cbv zeta in K. rewrite Hsa in K.
  assert (S0 : forall t, 0 <= t <= 1 -> set_distance (along_seg (vecR a) v 1) (padd (vecR a) (pscale t v)) 0).
  { intros t Ht. assert (D0 : dist (padd (vecR a) (pscale t v)) (padd (vecR a) (pscale t v)) = 0).
    { unfold dist, norm, psub. cbn [vx vy]. rewrite <- sqrt_0. f_equal. ring. }
    exists (padd (vecR a) (pscale t v)). split; [|exact D0]. split; [exists t; split; [lra|reflexivity]|]. intros r _. rewrite D0. apply sqrt_pos. }
  assert (A0 : padd (vecR a) (pscale 0 v) = vecR a) by (unfold padd, pscale, vecR; cbn [vx vy]; f_equal; ring).
  assert (B0 : padd (vecR a) (pscale 1 v) = vecR b) by (unfold v, padd, pscale, psub, vecR; cbn [vx vy]; f_equal; ring).
  assert (CA : seg_contains E s a = true).
  { destruct (K a Ha) as (_ & _ & _ & _ & J). pose proof (S0 0 ltac:(lra)) as J0. rewrite A0 in J0. destruct (J 0 J0) as [_ [J1 _]]. apply J1. lra. }
  assert (CB : seg_contains E s b = true).
  { destruct (K b Hb) as (_ & _ & _ & _ & J). pose proof (S0 1 ltac:(lra)) as J0. rewrite B0 in J0. destruct (J 0 J0) as [_ [J1 _]]. apply J1. lra. }
  exists s. rewrite Hf. fold N in CA, CB. rewrite CA, CB. split; [reflexivity|]. split; [exact Hsa|]. split; [eapply apx_weak; [exact Hl|rewrite M45; lra]|].
  split; [|split; [reflexivity|split; [reflexivity|]]].
  - destruct (seg_end_near L M HM v P s (norm v) Nd Ha' ltac:(lra) Hl) as [KE _].
    assert (EQ : seg_end (ideal_seg v (sanchor s) (norm v)) = vecR b).
    { rewrite seg_end_R. unfold ideal_seg. cbn [sanchor slength sdn ideal_dirn ddir]. rewrite Hsa, <- B0. f_equal. unfold punit, pscale. cbn [vx vy]. f_equal; field; lra. }
    rewrite EQ in KE. eapply near_weak; [exact KE|rewrite M45; lra].
  - intros q Hq. apply (K q Hq).
Qed.
Print Assumptions C90_seg_from_points.

(** Coordinates up to 1024 with EPSILON = 2^-17: the margins are about 1e-10,
    far below EPSILON; a line from (0, 0) to (3, 4) qualifies. *)
Example C88_ex : sqrt_ok ieee_lib /\ eps_ok ieee_lib 0x1p-17 /\ room 1024 /\ margin (-43) 1024 < toR 0x1p-17 /\
  within 1024 (mkV 0%float 0%float) /\ within 1024 (mkV 3%float 4%float) /\
  good_length 0x1p-17 (norm (psub (vecR (mkV 3%float 4%float)) (vecR (mkV 0%float 0%float)))) /\
  Forall (fun p => Rabs (offset_right (vecR (mkV 0%float 0%float)) (psub (vecR (mkV 3%float 4%float)) (vecR (mkV 0%float 0%float))) (vecR p)) < toR 0x1p-17 - margin (-46) 1024) [mkV 6%float 8%float] /\
  Exists (fun p => toR 0x1p-17 + margin (-46) 1024 < Rabs (offset_right (vecR (mkV 0%float 0%float)) (psub (vecR (mkV 3%float 4%float)) (vecR (mkV 0%float 0%float))) (vecR p))) [mkV 6%float 9%float].
Proof.
  destruct ieee_ok as [HS HE]. split; [exact HS|]. split; [exact HE|].
  assert (T : toR 0x1p-17 = bpow radix2 (-17)) by (vm_compute; lra).
  assert (T3 : toR 3 = 3) by (vm_compute; lra). assert (T4 : toR 4 = 4) by (vm_compute; lra). assert (T6 : toR 6 = 6) by (vm_compute; lra).
  assert (T8 : toR 8 = 8) by (vm_compute; lra). assert (T9 : toR 9 = 9) by (vm_compute; lra).
  assert (B10 : 1024 = bpow radix2 10) by reflexivity.
  assert (NV : norm (psub (vecR (mkV 3%float 4%float)) (vecR (mkV 0%float 0%float))) = 5).
  { apply norm_unique; [lra|]. unfold psub, vecR. cbn [vx vy]. rewrite T3, T4, toR_0. lra. }
  assert (M46 : margin (-46) 1024 = bpow radix2 (-36)) by (unfold margin; rewrite B10, <- bpow_plus; reflexivity).
  assert (P1 : bpow radix2 (-36) <= / 2 * bpow radix2 (-17)) by (change (/ 2) with (bpow radix2 (-1)); rewrite <- bpow_plus; apply bpow_le; lia).
  assert (P2 : 0 < bpow radix2 (-17) <= / 4) by (split; [apply bpow_gt_0|]; change (/ 4) with (bpow radix2 (-2)); apply bpow_le; lia).
  split; [rewrite B10; split; apply bpow_le; lia|].
  split; [rewrite T; unfold margin; rewrite B10, <- bpow_plus; apply bpow_lt; reflexivity|].
  split; [split; [split; reflexivity|]; cbn [vx vy]; rewrite toR_0, Rabs_R0; lra|].
  split; [split; [split; reflexivity|]; cbn [vx vy]; rewrite T3, T4, !Rabs_pos_eq by lra; lra|].
  rewrite NV, M46. split; [|split].
  - split; [split|].
    + apply Rle_trans with (bpow radix2 0); [apply bpow_le; lia|change (bpow radix2 0) with 1; lra].
    + apply Rle_trans with (bpow radix2 3); [change (bpow radix2 3) with 8; lra|apply bpow_le; lia].
    + rewrite T. pose proof runit_small. lra.
  - constructor; [|constructor]. unfold offset_right. rewrite NV. unfold pcross, psub, vecR. cbn [vx vy]. rewrite T3, T4, T6, T8, T, toR_0.
    match goal with |- Rabs ?t < _ => replace t with 0 by field end. rewrite Rabs_R0. lra.
  - constructor. unfold offset_right. rewrite NV. unfold pcross, psub, vecR. cbn [vx vy]. rewrite T3, T4, T6, T9, T, toR_0.
    match goal with |- _ < Rabs ?t => replace t with (- (3 / 5)) by field end. rewrite Rabs_Ropp, Rabs_pos_eq by lra. lra.
Qed.
(** The same numbers meet the hypotheses about vectors, and about rays and
    segments: the point (6, 8) is on the ray and 5 away from the segment. *)
Example C87_ex : finite_vec (mkV 3%float 4%float) /\ finite 0.5 /\ 0 <= toR 0.5 <= 1 /\
  Rabs (toR 3 * toR 3) + Rabs (toR 4 * toR 4) <= huge / 2 /\ Rabs (toR 3 * toR 4) + Rabs (toR 4 * toR 3) <= huge / 2 /\
  bpow radix2 (-400) <= norm (vecR (mkV 3%float 4%float)) <= bpow radix2 400 /\ finite_aff (mkA 1 0 2 0 1 3)%float.
Proof.
  assert (T3 : toR 3 = 3) by (vm_compute; lra). assert (T4 : toR 4 = 4) by (vm_compute; lra). assert (T5 : toR 0.5 = / 2) by (vm_compute; lra).
  assert (NV : norm (vecR (mkV 3%float 4%float)) = 5) by (apply norm_unique; [lra|]; unfold vecR; cbn [vx vy]; rewrite T3, T4; lra).
  assert (HB : 64 <= huge) by (unfold huge; change 64 with (bpow radix2 6); apply bpow_le; lia).
  rewrite NV, T3, T4, T5, !Rabs_pos_eq by lra. split; [split; reflexivity|]. split; [reflexivity|]. split; [lra|]. split; [lra|]. split; [lra|].
  split; [split|repeat split].
  - apply Rle_trans with (bpow radix2 0); [apply bpow_le; lia|change (bpow radix2 0) with 1; lra].
  - apply Rle_trans with (bpow radix2 3); [change (bpow radix2 3) with 8; lra|apply bpow_le; lia].
Qed.
Example C89_ex : set_distance (along_ray (vecR (mkV 0%float 0%float)) (vecR (mkV 3%float 4%float))) (vecR (mkV 6%float 8%float)) 0.
Proof.
  assert (T3 : toR 3 = 3) by (vm_compute; lra). assert (T4 : toR 4 = 4) by (vm_compute; lra). assert (T6 : toR 6 = 6) by (vm_compute; lra). assert (T8 : toR 8 = 8) by (vm_compute; lra).
  exists (vecR (mkV 6%float 8%float)).
  assert (D0 : dist (vecR (mkV 6%float 8%float)) (vecR (mkV 6%float 8%float)) = 0).
  { unfold dist. apply norm_unique; [lra|]. unfold psub. cbn [vx vy]. ring. }
  split; [|exact D0]. split; [|intros r _; rewrite D0; apply sqrt_pos].
  exists 2. split; [lra|]. unfold vecR, padd, pscale. cbn [vx vy]. rewrite T3, T4, T6, T8, toR_0. f_equal; ring.
Qed.
Example C90_ex : exists d, set_distance (along_seg (vecR (mkV 0%float 0%float)) (vecR (mkV 3%float 4%float)) 1) (vecR (mkV 6%float 8%float)) d /\ d = 5 /\
  norm (vecR (mkV 3%float 4%float)) <= 4 * 1024.
Proof.
  assert (T3 : toR 3 = 3) by (vm_compute; lra). assert (T4 : toR 4 = 4) by (vm_compute; lra). assert (T6 : toR 6 = 6) by (vm_compute; lra). assert (T8 : toR 8 = 8) by (vm_compute; lra).
  exists 5. split; [|split; [reflexivity|]].
  - exists (vecR (mkV 3%float 4%float)).
    assert (D5 : dist (vecR (mkV 6%float 8%float)) (vecR (mkV 3%float 4%float)) = 5).
    { unfold dist. apply norm_unique; [lra|]. unfold psub, vecR. cbn [vx vy]. rewrite T3, T4, T6, T8. ring. }
    split; [|exact D5]. split.
    + exists 1. split; [lra|]. unfold vecR, padd, pscale. cbn [vx vy]. rewrite T3, T4, toR_0. f_equal; ring.
    + intros r (t & Ht & ->). rewrite D5. unfold dist. rewrite <- (sqrt_square 5) by lra. unfold norm. apply sqrt_le_1_alt. unfold psub, vecR, padd, pscale. cbn [vx vy].
      rewrite T3, T4, T6, T8, toR_0. nra.
  - replace (norm (vecR (mkV 3%float 4%float))) with 5; [lra|]. symmetry. apply norm_unique; [lra|]. unfold vecR. cbn [vx vy]. rewrite T3, T4. lra.
Qed.
