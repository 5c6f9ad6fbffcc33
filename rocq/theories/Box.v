(** * Model of the class BoundingBox (planar/box.py), except the methods that
      build polygons (see BoxPoly.v) *)
From Coq Require Import ZArith List Bool.
From Verif Require Import Num Vec Affine.
Import ListNotations.
Local Open Scope num_scope.

(** box.py:36-64: immutable, [_min] and [_max].  [center] and [is_empty] are
    cached_property of an immutable object computed from [_min], [_max] only
    (no EPSILON), so caching is not observable and not modelled. *)
Record bbox (T : Type) : Type := mkBox { bmin : vec T; bmax : vec T }.
Arguments mkBox {T} _ _.
Arguments bmin {T} _.
Arguments bmax {T} _.

Section Box.
  Context {T : Type} {N : Num T}.
  Notation V := (vec T).
  Notation B := (bbox T).

  (** box.py:54-62: the body of the [for x, y in points] loop; the state is
      (min_x, min_y, max_x, max_y). *)
  Definition minmax_step (st : T * T * T * T) (p : V) : T * T * T * T :=
    let '(min_x, min_y, max_x, max_y) := st in
    let '(min_x, max_x) :=
      if vx p <? min_x then (vx p * n1, max_x)
      else if vx p >? max_x then (min_x, vx p * n1)
      else (min_x, max_x) in
    let '(min_y, max_y) :=
      if vy p <? min_y then (vy p * n1, max_y)
      else if vy p >? max_y then (min_y, vy p * n1)
      else (min_y, max_y) in
    (min_x, min_y, max_x, max_y).

  (** box.py:48-64 [_init_min_max]; also 45-46 [__init__] and 108-114
      [from_points]. *)
  Definition box_from_points (points : list V) : res B :=
    match points with
    | [] => Err ValueError
    | p :: rest =>
        let '(min_x, min_y, max_x, max_y) :=
          fold_left minmax_step rest (vx p, vy p, vx p, vy p) in
        Ok (mkBox (vec2 min_x min_y) (vec2 max_x max_y))
    end.

  (** box.py:87-95 [width], [height] *)
  Definition box_width (b : B) : T := vx (bmax b) - vx (bmin b).
  Definition box_height (b : B) : T := vy (bmax b) - vy (bmin b).
  (** box.py:97-100 [center]; the divisor 2.0 is never zero, [pydiv] kept *)
  Definition box_center (b : B) : res V := vdivs (vadd (bmin b) (bmax b)) n2.
  (** box.py:102-106 [is_empty] *)
  Definition box_is_empty (b : B) : bool :=
    let d := vsub (bmax b) (bmin b) in nfalsy (vx d) || nfalsy (vy d).

  (** box.py:130-141: loop body of [from_shapes]; a shape is represented by its
      [bounding_box]. *)
  Definition shapes_step (st : T * T * T * T) (b : B) : T * T * T * T :=
    let '(min_x, min_y, max_x, max_y) := st in
    let min_x := if vx (bmin b) <? min_x then vx (bmin b) else min_x in
    let min_y := if vy (bmin b) <? min_y then vy (bmin b) else min_y in
    let max_x := if vx (bmax b) >? max_x then vx (bmax b) else max_x in
    let max_y := if vy (bmax b) >? max_y then vy (bmax b) else max_y in
    (min_x, min_y, max_x, max_y).
  (** box.py:116-144 [from_shapes] *)
  Definition box_from_shapes (shapes : list B) : res B :=
    match shapes with
    | [] => Err ValueError
    | s :: rest =>
        let '(min_x, min_y, max_x, max_y) :=
          fold_left shapes_step rest
            (vx (bmin s), vy (bmin s), vx (bmax s), vy (bmax s)) in
        Ok (mkBox (vec2 min_x min_y) (vec2 max_x max_y))
    end.

  (** box.py:146-163 [from_center] *)
  Definition box_from_center (center : V) (width height : T) : res B :=
    let half_w := width * nhalf in
    let half_h := height * nhalf in
    box_from_points
      [mkV (vx center - half_w) (vy center - half_h);
       mkV (vx center + half_w) (vy center + half_h)].

  (** box.py:165-182 [inflate] with a vector amount; a scalar amount s is the
      vector (s * 1.0, s * 1.0). *)
  Definition box_inflate (b : B) (amount : V) : res B :=
    let* dv := vdivs (vec2_of amount) n2 in
    box_from_points [vsub (bmin b) dv; vadd (bmax b) dv].
  Definition box_inflate_scalar (b : B) (s : T) : res B :=
    box_inflate b (mkV (s * n1) (s * n1)).

  (** box.py:184-193 [contains_point]; chained comparisons *)
  Definition box_contains (b : B) (p : V) : bool :=
    (vx (bmin b) <=? vx p) && (vx p <? vx (bmax b))
    && ((vy (bmin b) <? vy p) && (vy p <=? vy (bmax b))).

  (** box.py:202-205 [fit] for a BoundingBox argument *)
  Definition box_fit_box (self shape : B) : res B :=
    let* sw := pydiv (box_width self) (box_width shape) in
    let* sh := pydiv (box_height self) (box_height shape) in
    let scale := pymin sw sh in
    let* c := box_center self in
    box_from_center c (box_width shape * scale) (box_height shape * scale).

  (** box.py:224-230 [__eq__], [__ne__] between boxes *)
  Definition box_eqb (b o : B) : bool :=
    vec_eqb (bmin b) (bmin o) && vec_eqb (bmax b) (bmax o).
  (** box.py:232-238 [almost_equals] *)
  Definition box_almost_equals (E : T) (b o : B) : bool :=
    vec_almost_equals E (bmin b) (bmin o) && vec_almost_equals E (bmax b) (bmax o).
End Box.
