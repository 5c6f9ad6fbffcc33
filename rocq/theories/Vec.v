(** * Model of planar/util.py and of the class Vec2 (planar/vector.py) *)
From Coq Require Import ZArith List Bool.
From Verif Require Import Num.
Import ListNotations.
Local Open Scope num_scope.

(** vector.py:39-50, 74-82: a Vec2 is an immutable pair; [vx], [vy] are the
    properties [x], [y].  [mkV] is [tuple.__new__(Vec2, (x, y))].
    The [__dict__['length']] entries written by polar/normalized/scaled_to are
    dead: [length] and [length2] are data descriptors (properties), which take
    precedence over the instance dict, so they are not modelled. *)
Record vec (T : Type) : Type := mkV { vx : T; vy : T }.
Arguments mkV {T} _ _.
Arguments vx {T} _.
Arguments vy {T} _.

Section Vec.
  Context {T : Type} {N : Num T}.
  Notation V := (vec T).

  (** vector.py:48-49 [Vec2.__new__]: [(x * 1.0, y * 1.0)].
      Also used for [Vec2( *p)] where p is a Vec2 or a pair of numbers. *)
  Definition vec2 (x y : T) : V := mkV (x * n1) (y * n1).
  Definition vec2_of (p : V) : V := vec2 (vx p) (vy p).

  (** vector.py:472 [null = Vec2(0, 0)] *)
  Definition vnull : V := vec2 n0 n0.

  (** util.py:39-52 [cos_sin_deg]; ints 0 in the returned pairs are n0. *)
  Definition cos_sin_deg (deg : T) : T * T :=
    let deg := nmod deg (nlit 360) in
    if deg =? nlit 90 then (n0, n1)
    else if deg =? nlit 180 then (nlit (-1), n0)
    else if deg =? nlit 270 then (n0, nlit (-1))
    else let rad := nradians deg in (ncos rad, nsin rad).

  (** vector.py:51-64 [Vec2.polar] *)
  Definition vec_polar (angle length : T) : V :=
    let '(x, y) := cos_sin_deg angle in mkV (x * length) (y * length).

  (** vector.py:89-93 [length2] *)
  Definition length2 (v : V) : T := vx v * vx v + vy v * vy v.
  (** vector.py:84-87 [length] *)
  Definition vlength (v : V) : T := nsqrt (length2 v).

  (** vector.py:95-101 [is_null]; E is planar.EPSILON and EPSILON2 = E**2
      (planar/__init__.py:60-77). *)
  Definition is_null (E : T) (v : V) : bool := length2 v <? npow2 E.

  (** vector.py:103-105 [__bool__] *)
  Definition vec_bool (v : V) : bool := (vx v !=? n0) || (vy v !=? n0).

  (** vector.py:107-117 [almost_equals] *)
  Definition vec_almost_equals (E : T) (v o : V) : bool :=
    let dx := vx v - vx o in
    let dy := vy v - vy o in
    (dx * dx + dy * dy) <? npow2 E.

  (** vector.py:119-131 [normalized].  The divisor L satisfies L > EPSILON; it
      can be zero only when EPSILON is negative, hence [pydiv]. *)
  Definition normalized (E : T) (v : V) : res V :=
    let L := vlength v in
    if L >? E then
      let* x := pydiv (vx v) L in
      let* y := pydiv (vy v) L in
      Ok (mkV x y)
    else Ok vnull.

  (** vector.py:133-138 [perpendicular] *)
  Definition perpendicular (v : V) : V := mkV (- vy v) (vx v).
  (** vector.py:140-148 [dot] *)
  Definition dot (v o : V) : T := vx v * vx o + vy v * vy o.
  (** vector.py:150-159 [cross] *)
  Definition cross (v o : V) : T := vx v * vy o - vy v * vx o.
  (** vector.py:161-166 [angle] *)
  Definition angle (v : V) : T := ndegrees (natan2 (vy v) (vx v)).
  (** vector.py:168-176 [angle_to] *)
  Definition angle_to (v o : V) : T := angle o - angle v.
  (** vector.py:178-186 [distance_to] *)
  Definition distance_to (v o : V) : T := nhypot (vx v - vx o) (vy v - vy o).

  (** vector.py:188-197 [rotated] *)
  Definition rotated (v : V) (ang : T) : V :=
    let '(ca, sa) := cos_sin_deg ang in
    mkV (vx v * ca - vy v * sa) (vx v * sa + vy v * ca).

  (** vector.py:199-216 [scaled_to] *)
  Definition scaled_to (E : T) (v : V) (len : T) : res V :=
    let L := vlength v in
    if L >? E then
      let* s := pydiv len L in
      Ok (mkV (vx v * s) (vy v * s))
    else Ok vnull.

  (** vector.py:218-230 [project]; L > EPSILON2 >= 0 on numbers, but the raw
      Python division is kept. *)
  Definition vec_project (E : T) (v o : V) : res V :=
    let L := length2 v in
    if L >? npow2 E then
      let* s := pydiv (dot v o) L in
      Ok (mkV (vx v * s) (vy v * s))
    else Ok vnull.

  (** vector.py:232-246 [reflect] *)
  Definition vec_reflect (E : T) (v o : V) : res V :=
    let L := vx o * vx o + vy o * vy o in
    if L >? npow2 E then
      let* temp := pydiv (n2 * (vx v * vx o + vy v * vy o)) L in
      Ok (mkV (vx o * temp - vx v) (vy o * temp - vy v))
    else Ok vnull.

  (** vector.py:248-270 [clamped]; [None] bounds are Coq's [None]. *)
  Definition clamped (E : T) (v : V) (min_length max_length : option T) : res V :=
    let bad := match min_length, max_length with
               | Some a, Some b => a >? b
               | _, _ => false
               end in
    if bad then Err ValueError else
    let L2 := length2 v in
    let upper :=
      match max_length with
      | Some b => let* b2 := pypow2 b in if L2 >? b2 then scaled_to E v b else Ok v
      | None => Ok v
      end in
    match min_length with
    | Some a => let* a2 := pypow2 a in if L2 <? a2 then scaled_to E v a else upper
    | None => upper
    end.

  (** vector.py:272-287 [lerp] *)
  Definition lerp (v o : V) (bias : T) : V :=
    let b1 := n1 - bias in
    mkV (vx v * b1 + vx o * bias) (vy v * b1 + vy o * bias).

  (** vector.py:289-301 [__eq__], [__ne__] with another pair of numbers
      (comparison with other lengths/types returns False/True; see Dispatch). *)
  Definition vec_eqb (v o : V) : bool := (vx v =? vx o) && (vy v =? vy o).
  Definition vec_neb (v o : V) : bool := (vx v !=? vx o) || (vy v !=? vy o).

  (** vector.py:303-337 rich comparisons *)
  Definition vec_gt (v o : V) : bool := length2 v >? length2 o.
  Definition vec_ge (v o : V) : bool := length2 v >=? length2 o.
  Definition vec_lt (v o : V) : bool := length2 v <? length2 o.
  Definition vec_le (v o : V) : bool := length2 v <=? length2 o.

  (** vector.py:339-349 [__add__], 353-363 [__sub__] *)
  Definition vadd (v o : V) : V := mkV (vx v + vx o) (vy v + vy o).
  Definition vsub (v o : V) : V := mkV (vx v - vx o) (vy v - vy o).
  (** vector.py:367-382 [__mul__] with a scalar / with a vector;
      384-385 [__rmul__] is the same. *)
  Definition vscale (v : V) (s : T) : V := mkV (vx v * s) (vy v * s).
  Definition vmul (v o : V) : V := mkV (vx v * vx o) (vy v * vy o).
  (** vector.py:387-402 [__truediv__] *)
  Definition vdivs (v : V) (s : T) : res V :=
    let* x := pydiv (vx v) s in let* y := pydiv (vy v) s in Ok (mkV x y).
  Definition vdiv (v o : V) : res V :=
    let* x := pydiv (vx v) (vx o) in let* y := pydiv (vy v) (vy o) in Ok (mkV x y).
  (** vector.py:406-420 [__rtruediv__] with a scalar *)
  Definition vrdivs (s : T) (v : V) : res V :=
    let* x := pydiv s (vx v) in let* y := pydiv s (vy v) in Ok (mkV x y).
  (** vector.py:422-437 [__floordiv__] *)
  Definition vfdivs (v : V) (s : T) : res V :=
    let* x := pyfloordiv (vx v) s in let* y := pyfloordiv (vy v) s in Ok (mkV x y).
  Definition vfdiv (v o : V) : res V :=
    let* x := pyfloordiv (vx v) (vx o) in
    let* y := pyfloordiv (vy v) (vy o) in Ok (mkV x y).
  (** vector.py:441-455 [__rfloordiv__] with a scalar *)
  Definition vrfdivs (s : T) (v : V) : res V :=
    let* x := pyfloordiv s (vx v) in let* y := pyfloordiv s (vy v) in Ok (mkV x y).
  (** vector.py:461-463 [__neg__] *)
  Definition vneg (v : V) : V := mkV (- vx v) (- vy v).
  (** vector.py:465-467 [__abs__] *)
  Definition vabs (v : V) : T := vlength v.
End Vec.
