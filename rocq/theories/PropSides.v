(** * Property C112: the sides of rays and segments exclude each other on doubles *)
From Coq Require Import ZArith List Bool Reals Lra Lia Floats.
From Verif Require Import Num NumFloat Vec Affine Line RBase OrdLaws FloatFacts FloatFacts2 SpecLine SpecSides SideFacts.
Import ListNotations.

Lemma dot_comm_F L (u v : vec float) : @dot _ (FNum L) u v = @dot _ (FNum L) v u.
Proof. unfold dot. cbn. rewrite (fmul_comm (vx u)), (fmul_comm (vy u)). reflexivity. Qed.
(** Attributes of magnitude at most 2 and a distance below [2 ^ 1021]: the product is a number. *)
Theorem C112_not_nan : forall (L : FloatLib) (u v : vec float), bounded_vec 2 u -> bounded_vec 0x1p1021 v ->
  let N := FNum L in not_nan (dot u v).
Proof. intros L u v [H1 H2] [H3 H4] N. apply add_nn; apply fmul_bounded; auto. Qed.
Print Assumptions C112_not_nan.
(** The comparisons of the methods, as booleans. *)
Lemma three_sides (d n E : float) : PrimFloat.ltb 0 E = true ->
  at_most_one [PrimFloat.leb d (- E); PrimFloat.ltb (- E) d && PrimFloat.leb n (- E); PrimFloat.ltb (- E) d && PrimFloat.leb E n].
Proof.
  intro HE. unfold at_most_one.
  destruct (PrimFloat.leb d (- E)) eqn:A, (PrimFloat.ltb (- E) d) eqn:B, (PrimFloat.leb n (- E)) eqn:C, (PrimFloat.leb E n) eqn:D;
    cbn; try lia; exfalso; eauto using fle_gt, fsides.
Qed.
Lemma four_sides (d n s E : float) : finite s -> finite E -> PrimFloat.leb 0 s = true -> PrimFloat.ltb 0 E = true ->
  at_most_one [PrimFloat.leb d (- E); PrimFloat.leb (s + E) d;
    PrimFloat.ltb d (s + E) && PrimFloat.ltb (- E) d && PrimFloat.leb n (- E);
    PrimFloat.ltb d (s + E) && PrimFloat.ltb (- E) d && PrimFloat.leb E n].
Proof.
  intros Fs FE Hs HE. pose proof (fadd_ge s E Fs FE Hs HE) as HG. unfold at_most_one.
  destruct (PrimFloat.leb d (- E)) eqn:A, (PrimFloat.leb (s + E) d) eqn:A',
    (PrimFloat.ltb d (s + E)) eqn:B', (PrimFloat.ltb (- E) d) eqn:B, (PrimFloat.leb n (- E)) eqn:C, (PrimFloat.leb E n) eqn:D;
    cbn; try lia; exfalso; eauto using fle_gt, fsides, fle_trans.
Qed.

(** ** Rays: any doubles at all, NaN and infinities included *)
Theorem C112_ray : forall (L : FloatLib) (E : float) (r : ray float) (p : vec float), PrimFloat.ltb 0 E = true ->
  let N := FNum L in at_most_one [ray_point_behind E r p; ray_point_left E r p; ray_point_right E r p].
Proof. intros L E r p HE N. apply (three_sides _ _ E HE). Qed.
Print Assumptions C112_ray.

(** ** Segments: any doubles but for the length and EPSILON, which must be finite, the length not negative *)
Theorem C112_segment : forall (L : FloatLib) (E : float) (s : segment float) (p : vec float),
  finite E -> PrimFloat.ltb 0 E = true -> finite (slength s) -> PrimFloat.leb 0 (slength s) = true ->
  let N := FNum L in at_most_one [seg_point_behind E s p; seg_point_ahead E s p; seg_point_left E s p; seg_point_right E s p].
Proof. intros L E s p FE HE Fs Hs N. apply (four_sides _ _ (slength s) E Fs FE Hs HE). Qed.
Print Assumptions C112_segment.

(** ** Beside the ray or the segment there is a third answer, containment, and exactly one holds *)
Theorem C112_ray_beside : forall (L : FloatLib) (E : float) (r : ray float) (p : vec float),
  not_nan E -> PrimFloat.ltb 0 E = true -> let N := FNum L in
  let to_point := vsub (vec2_of p) (ranchor r) in
  not_nan (dot (dnormal (rdn r)) to_point) ->
  PrimFloat.leb 0 (dot (ddir (rdn r)) to_point) = true ->
  ray_point_behind E r p = false /\
  exactly_one [ray_point_left E r p; ray_point_right E r p; ray_contains E r p].
Proof.
  intros L E r p HE H0 N v Hn Hd.
  assert (NE : PrimFloat.ltb (- E) 0 = true).
  { apply fltb_key; auto using fopp_nn, zero_nn. rewrite fopp_key, zero_key.
    apply fltb_key in H0; auto using zero_nn. rewrite zero_key in H0. destruct (fkey E) as [[? ?] ?]. cbn in *. lia. }
  set (d := dot (ddir (rdn r)) v) in *.
  assert (HB : PrimFloat.ltb (- E) d = true).
  { destruct (fleb_nn _ _ Hd) as [_ Nd]. apply fltb_key; auto using fopp_nn. apply fltb_key in NE; auto using fopp_nn, zero_nn.
    apply fleb_key in Hd; auto using zero_nn. rewrite zero_key in *. destruct (fkey d) as [[? ?] ?], (fkey (- E)) as [[? ?] ?]. cbn in *. lia. }
  split.
  - change (PrimFloat.leb d (- E) = false). destruct (PrimFloat.leb d (- E)) eqn:A; auto. exfalso. eauto using fle_gt.
  - assert (HC : ray_contains E r p = PrimFloat.ltb (abs (dot (dnormal (rdn r)) v)) E).
    { unfold ray_contains, ray_distance_to. fold v. fold d. change (d >=? n0)%num with (PrimFloat.leb 0 d). rewrite Hd.
      pose proof (dot_comm_F L v (dnormal (rdn r))) as T. fold N in T. rewrite T. reflexivity. }
    rewrite HC. unfold ray_point_left, ray_point_right. fold v. fold d.
    change (d >? - E)%num with (PrimFloat.ltb (- E) d). rewrite HB. cbn [andb].
    apply (float_three (dot (dnormal (rdn r)) v) E); auto.
Qed.
Print Assumptions C112_ray_beside.
Theorem C112_segment_beside : forall (L : FloatLib) (E : float) (s : segment float) (p : vec float),
  finite E -> PrimFloat.ltb 0 E = true -> finite (slength s) -> let N := FNum L in
  let to_point := vsub (vec2_of p) (sanchor s) in
  not_nan (dot (dnormal (sdn s)) to_point) ->
  PrimFloat.leb 0 (dot (ddir (sdn s)) to_point) = true -> PrimFloat.ltb (dot (ddir (sdn s)) to_point) (slength s + E) = true ->
  PrimFloat.leb (dot (ddir (sdn s)) to_point) (slength s) = true ->
  seg_point_behind E s p = false /\ seg_point_ahead E s p = false /\
  exactly_one [seg_point_left E s p; seg_point_right E s p; seg_contains E s p].
Proof.
  intros L E s p FE H0 Fs N v Hn Hd Hd2 Hd1. pose proof (finite_nn _ FE) as HE.
  assert (NE : PrimFloat.ltb (- E) 0 = true).
  { apply fltb_key; auto using fopp_nn, zero_nn. rewrite fopp_key, zero_key.
    apply fltb_key in H0; auto using zero_nn. rewrite zero_key in H0. destruct (fkey E) as [[? ?] ?]. cbn in *. lia. }
  set (d := dot (ddir (sdn s)) v) in *.
  assert (HB : PrimFloat.ltb (- E) d = true).
  { destruct (fleb_nn _ _ Hd) as [_ Nd]. apply fltb_key; auto using fopp_nn. apply fltb_key in NE; auto using fopp_nn, zero_nn.
    apply fleb_key in Hd; auto using zero_nn. rewrite zero_key in *. destruct (fkey d) as [[? ?] ?], (fkey (- E)) as [[? ?] ?]. cbn in *. lia. }
  split; [|split].
  - change (PrimFloat.leb d (- E) = false). destruct (PrimFloat.leb d (- E)) eqn:A; auto. exfalso. eauto using fle_gt.
  - change (PrimFloat.leb (slength s + E) d = false). destruct (PrimFloat.leb (slength s + E) d) eqn:A; auto. exfalso. eauto using fle_gt.
  - assert (HC : seg_contains E s p = PrimFloat.ltb (abs (dot (dnormal (sdn s)) v)) E).
    { unfold seg_contains, seg_distance_to. fold v. fold d. change (d <? n0)%num with (PrimFloat.ltb d 0).
      change (d >? slength s)%num with (PrimFloat.ltb (slength s) d).
      destruct (PrimFloat.ltb d 0) eqn:A; [exfalso; eauto using fle_gt|].
      destruct (PrimFloat.ltb (slength s) d) eqn:A2; [exfalso; eauto using fle_gt|].
      pose proof (dot_comm_F L v (dnormal (sdn s))) as T. fold N in T. rewrite T. reflexivity. }
    rewrite HC. unfold seg_point_left, seg_point_right. fold v. fold d.
    change (d >? - E)%num with (PrimFloat.ltb (- E) d). change (slength s + E >? d)%num with (PrimFloat.ltb d (slength s + E)).
    rewrite HB, Hd2. cbn [andb].
    apply (float_three (dot (dnormal (sdn s)) v) E); auto.
Qed.
Print Assumptions C112_segment_beside.

(** The hypotheses hold of a ray made by its constructor, far from the origin. *)
Example C112_ex (L : FloatLib) : fl_sqrt L 169 = 13%float -> fl_pow2 L 0x1p-17 = 0x1p-34%float -> let N := FNum L in
  exists r, ray_new (0x1p-17)%float (mkV 1e9 (-3))%float (mkV 5 12)%float = Ok r /\ bounded_vec 2 (dnormal (rdn r)) /\
  ray_point_left (0x1p-17)%float r (mkV 1e9 40)%float = true /\ ray_point_behind (0x1p-17)%float r (mkV 1e8 0x1p1000)%float = false /\
  PrimFloat.leb 0 (dot (ddir (rdn r)) (vsub (vec2_of (mkV 1e9 40)%float) (ranchor r))) = true.
Proof.
  destruct L as [f f2 f3 f4 f5 f6 f7 f8 f9 f10 f11]. intros H H2. cbn in H, H2. cbv zeta.
  exists (mkRay (mkD (mkV (5/13) (12/13)) (mkV (12/13) (-(5/13)))) (mkV 1e9 (-3)))%float.
  split; [|repeat split; vm_compute; reflexivity].
  vm_compute. rewrite !H. vm_compute. rewrite !H2. vm_compute. reflexivity.
Qed.
Example C112_segment_ex (L : FloatLib) : let N := FNum L in let s := (mkSeg (mkD (mkV 1 0) (mkV 0 (-1))) (mkV 1e9 (-3)) 0x1p20)%float in
  finite (slength s) /\ PrimFloat.leb 0 (slength s) = true /\ bounded_vec 2 (dnormal (sdn s)) /\
  seg_point_ahead (0x1p-17)%float s (mkV 1e10 7)%float = true /\ seg_point_right (0x1p-17)%float s (mkV 1e9 (-7))%float = true /\
  (let d := dot (ddir (sdn s)) (vsub (vec2_of (mkV 1e9 (-7))%float) (sanchor s)) in
   PrimFloat.leb 0 d = true /\ PrimFloat.leb d (slength s) = true /\ PrimFloat.ltb d (slength s + 0x1p-17) = true).
Proof. cbv zeta. repeat split; vm_compute; reflexivity. Qed.

(** ** A segment made backwards, by [from_normal], has points that are ahead of it and behind it *)
Theorem C112_backwards_segment : forall (L : FloatLib), fl_sqrt L 1 = 1%float -> fl_pow2 L 0x1p-17 = 0x1p-34%float -> let N := FNum L in
  exists (E : float) (s : segment float) (p : vec float), finite E /\ PrimFloat.ltb 0 E = true /\
  seg_from_normal E (mkV 0 (-1))%float 0%float 8%float 0%float = Ok s /\ slength s = (-8)%float /\
  seg_point_behind E s p = true /\ seg_point_ahead E s p = true.
Proof.
  destruct L as [f f2 f3 f4 f5 f6 f7 f8 f9 f10 f11]. intros H H2. cbn in H, H2. cbv zeta.
  exists (0x1p-17)%float, (mkSeg (mkD (mkV 1 0) (mkV 0 (-1))) (mkV 8 0) (-8))%float, (mkV 4 0)%float.
  split; [reflexivity|]. split; [reflexivity|]. split; [|repeat split; vm_compute; reflexivity].
  vm_compute. rewrite !H. vm_compute. rewrite !H2. vm_compute. reflexivity.
Qed.
Print Assumptions C112_backwards_segment.
(** Adding EPSILON to a long length is lost: the end point itself is then ahead of
    the segment and on it, so the bound [along < length + EPSILON] of
    [C112_segment_beside] does not follow from [along <= length]. *)
Theorem C112_segment_absorbed : forall (L : FloatLib), let N := FNum L in
  exists (s : segment float) (p : vec float), bounded_vec 2 (dnormal (sdn s)) /\ slength s = 0x1p40%float /\
  seg_end s = p /\ seg_contains (0x1p-17)%float s p = true /\ seg_point_ahead (0x1p-17)%float s p = true.
Proof.
  intros L N. exists (mkSeg (mkD (mkV 1 0) (mkV 0 (-1))) (mkV 0 0) 0x1p40)%float, (mkV 0x1p40 0)%float.
  repeat split; vm_compute; reflexivity.
Qed.
Print Assumptions C112_segment_absorbed.
