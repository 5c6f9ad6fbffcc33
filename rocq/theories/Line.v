(** * Model of planar/line.py: Line, Ray, LineSegment *)
From Coq Require Import ZArith List Bool.
From Verif Require Import Num Vec Affine.
Import ListNotations.
Local Open Scope num_scope.

(** line.py:34-68: the pair of attributes [_direction], [_normal] common to the
    three classes.  A setter is a function from the old value to a result; on
    [Err] the object keeps its old attributes because both assignments come
    after the check. *)
Record dirn (T : Type) : Type := mkD { ddir : vec T; dnormal : vec T }.
Arguments mkD {T} _ _.
Arguments ddir {T} _.
Arguments dnormal {T} _.

(** line.py:71-236 Line: direction pair and [offset]. *)
Record line (T : Type) : Type := mkLine { ldn : dirn T; loffset : T }.
Arguments mkLine {T} _ _. Arguments ldn {T} _. Arguments loffset {T} _.
(** line.py:239-390 Ray: direction pair and [_anchor]. *)
Record ray (T : Type) : Type := mkRay { rdn : dirn T; ranchor : vec T }.
Arguments mkRay {T} _ _. Arguments rdn {T} _. Arguments ranchor {T} _.
(** line.py:393-633 LineSegment: direction pair, [_anchor], [length]. *)
Record segment (T : Type) : Type :=
  mkSeg { sdn : dirn T; sanchor : vec T; slength : T }.
Arguments mkSeg {T} _ _ _. Arguments sdn {T} _. Arguments sanchor {T} _.
Arguments slength {T} _.

Section Line.
  Context {T : Type} {N : Num T}.
  Notation V := (vec T).
  Notation A := (affine T).
  Variable E : T.   (* planar.EPSILON *)

  (** line.py:45-51 direction setter *)
  Definition set_direction (value : V) : res (dirn T) :=
    let* direction := normalized E (vec2_of value) in
    if is_null E direction then Err ValueError
    else Ok (mkD direction (vneg (perpendicular direction))).

  (** line.py:62-68 normal setter *)
  Definition set_normal (value : V) : res (dirn T) :=
    let* normal := normalized E (vec2_of value) in
    if is_null E normal then Err ValueError
    else Ok (mkD (perpendicular normal) normal).

  (** The two points of [from_points]: line.py:94-100 (Line) and 262-268 (Ray):
      [start] is the first point, [end] the first later point different from it;
      the points after [end] remain in the iterator. *)
  Fixpoint first_distinct (start : V) (points : list V) : option (V * list V) :=
    match points with
    | [] => None
    | p :: rest =>
        let e := vec2_of p in
        if vec_eqb e start then first_distinct start rest else Some (e, rest)
    end.
  Definition two_distinct (points : list V) : res (V * V * list V) :=
    match points with
    | [] => Err ValueError
    | p :: rest =>
        let start := vec2_of p in
        match first_distinct start rest with
        | None => Err ValueError
        | Some (e, rest') => Ok (start, e, rest')
        end
    end.

  (** *** Line *)

  (** line.py:80-82 [Line.__init__] *)
  Definition line_new (point direction : V) : res (line T) :=
    let* d := set_direction direction in
    Ok (mkLine d (dot (vec2_of point) (dnormal d))).

  (** line.py:134-145 [distance_to] *)
  Definition line_distance_to (l : line T) (point : V) : T :=
    dot (vec2_of point) (dnormal (ldn l)) - loffset l.
  (** line.py:147-161 *)
  Definition line_point_left (l : line T) (p : V) : bool :=
    line_distance_to l p <=? - E.
  Definition line_point_right (l : line T) (p : V) : bool :=
    line_distance_to l p >=? E.
  Definition line_contains (l : line T) (p : V) : bool :=
    nabs (line_distance_to l p) <? E.

  (** line.py:84-105 [Line.from_points] *)
  Definition line_from_points (points : list V) : res (line T) :=
    let* (start, e, rest) := two_distinct points in
    let* d := set_direction (vsub e start) in
    let l := mkLine d (dot start (dnormal d)) in
    if forallb (line_contains l) rest then Ok l else Err ValueError.

  (** line.py:107-121 [Line.from_normal] *)
  Definition line_from_normal (normal : V) (offset : T) : res (line T) :=
    let* d := set_normal normal in Ok (mkLine d (offset * n1)).

  (** line.py:126-132 [points] *)
  Definition line_points (l : line T) : V * V :=
    let point := vscale (dnormal (ldn l)) (loffset l) in
    (point, vadd point (ddir (ldn l))).

  (** line.py:163-180 [parallel], [perpendicular] *)
  Definition line_parallel (l : line T) (p : V) : res (line T) :=
    line_new p (ddir (ldn l)).
  Definition line_perpendicular (l : line T) (p : V) : res (line T) :=
    line_new p (perpendicular (ddir (ldn l))).

  (** line.py:182-190 [project] *)
  Definition line_project (l : line T) (p : V) : res V :=
    let* par := vec_project E (ddir (ldn l)) p in
    Ok (vadd par (vscale (dnormal (ldn l)) (loffset l))).

  (** line.py:192-200 [reflect]: [point - 2.0 * self._normal * offset_distance] *)
  Definition line_reflect (l : line T) (p : V) : V :=
    let point := vec2_of p in
    let od := dot point (dnormal (ldn l)) - loffset l in
    vsub point (vscale (vscale (dnormal (ldn l)) n2) od).

  (** line.py:202-210 [__imul__] by an Affine; on an exception raised by the
      direction setter nothing has been assigned yet. *)
  Definition line_imul (l : line T) (m : A) : res (line T) :=
    let '(p1, p2) := line_points l in
    let p1 := aapply m p1 in
    let p2 := aapply m p2 in
    let* d := set_direction (vsub p2 p1) in
    Ok (mkLine d (dot p1 (dnormal d))).

  (** transform.py:262-271 [Affine * line] and, through [Affine.__rmul__]
      (277-282), [line * Affine]: from_points of the images of [points]. *)
  Definition line_mul (l : line T) (m : A) : res (line T) :=
    let '(p1, p2) := line_points l in
    line_from_points [aapply m p1; aapply m p2].

  (** line.py:212-226 [__eq__], [almost_equals] between lines *)
  Definition line_eqb (l o : line T) : bool :=
    (loffset l =? loffset o) && vec_eqb (ddir (ldn l)) (ddir (ldn o)).
  Definition line_almost_equals (l o : line T) : bool :=
    (nabs (loffset l - loffset o) <? E)
    && vec_almost_equals E (ddir (ldn l)) (ddir (ldn o)).

  (** line.py:45-51, 62-68, 124: attribute assignments on an existing line *)
  Definition line_set_direction (l : line T) (v : V) : res (line T) :=
    let* d := set_direction v in Ok (mkLine d (loffset l)).
  Definition line_set_normal (l : line T) (v : V) : res (line T) :=
    let* d := set_normal v in Ok (mkLine d (loffset l)).
  Definition line_set_offset (l : line T) (o : T) : line T := mkLine (ldn l) o.

  (** *** Ray *)

  (** line.py:248-250 [Ray.__init__] *)
  Definition ray_new (anchor direction : V) : res (ray T) :=
    let a := vec2_of anchor in
    let* d := set_direction direction in
    Ok (mkRay d (vec2_of a)).

  (** line.py:301-309 [distance_to] *)
  Definition ray_distance_to (r : ray T) (point : V) : T :=
    let to_point := vsub (vec2_of point) (ranchor r) in
    if dot (ddir (rdn r)) to_point >=? n0
    then nabs (dot to_point (dnormal (rdn r)))
    else vlength to_point.
  (** line.py:311-313 [contains_point] *)
  Definition ray_contains (r : ray T) (p : V) : bool := ray_distance_to r p <? E.
  (** line.py:315-322 [point_behind] *)
  Definition ray_point_behind (r : ray T) (p : V) : bool :=
    let to_point := vsub (vec2_of p) (ranchor r) in
    dot (ddir (rdn r)) to_point <=? - E.
  (** line.py:324-338 [point_left], [point_right] *)
  Definition ray_point_left (r : ray T) (p : V) : bool :=
    let to_point := vsub (vec2_of p) (ranchor r) in
    (dot (ddir (rdn r)) to_point >? - E) && (dot (dnormal (rdn r)) to_point <=? - E).
  Definition ray_point_right (r : ray T) (p : V) : bool :=
    let to_point := vsub (vec2_of p) (ranchor r) in
    (dot (ddir (rdn r)) to_point >? - E) && (dot (dnormal (rdn r)) to_point >=? E).

  (** line.py:252-274 [Ray.from_points] *)
  Definition ray_from_points (points : list V) : res (ray T) :=
    let* (start, e, rest) := two_distinct points in
    let* d := set_direction (vsub e start) in
    let r := mkRay d (vec2_of start) in
    if forallb (ray_contains r) rest then Ok r else Err ValueError.

  (** line.py:276-282 [points] *)
  Definition ray_points (r : ray T) : V * V :=
    (ranchor r, vadd (ranchor r) (ddir (rdn r))).
  (** line.py:296-299 [line] *)
  Definition ray_line (r : ray T) : res (line T) := line_new (ranchor r) (ddir (rdn r)).

  (** line.py:340-354 [project] *)
  Definition ray_project (r : ray T) (point : V) : res V :=
    let to_point := vsub (vec2_of point) (ranchor r) in
    let* par := vec_project E (ddir (rdn r)) to_point in
    if dot par (ddir (rdn r)) >? - E then Ok (vadd par (ranchor r))
    else Ok (ranchor r).

  (** line.py:356-364 [__imul__] *)
  Definition ray_imul (r : ray T) (m : A) : res (ray T) :=
    let '(p1, p2) := ray_points r in
    let p1 := aapply m p1 in
    let p2 := aapply m p2 in
    let* d := set_direction (vsub p2 p1) in
    Ok (mkRay d (vec2_of p1)).
  (** transform.py:262-271 [Affine * ray] *)
  Definition ray_mul (r : ray T) (m : A) : res (ray T) :=
    let '(p1, p2) := ray_points r in
    ray_from_points [aapply m p1; aapply m p2].
  (** line.py:366-380 *)
  Definition ray_eqb (r o : ray T) : bool :=
    vec_eqb (ranchor r) (ranchor o) && vec_eqb (ddir (rdn r)) (ddir (rdn o)).
  Definition ray_almost_equals (r o : ray T) : bool :=
    vec_almost_equals E (ranchor r) (ranchor o)
    && vec_almost_equals E (ddir (rdn r)) (ddir (rdn o)).
  (** attribute assignments: line.py:45-51, 62-68, 289-291 *)
  Definition ray_set_direction (r : ray T) (v : V) : res (ray T) :=
    let* d := set_direction v in Ok (mkRay d (ranchor r)).
  Definition ray_set_normal (r : ray T) (v : V) : res (ray T) :=
    let* d := set_normal v in Ok (mkRay d (ranchor r)).
  Definition ray_set_anchor (r : ray T) (v : V) : ray T := mkRay (rdn r) (vec2_of v).

  (** *** LineSegment *)

  (** line.py:498-506 vector setter: new direction pair and length *)
  Definition seg_vector_setter (value : V) : res (dirn T * T) :=
    let vector := vec2_of value in
    let len := vlength vector in
    let* d := if negb (nfalsy len) then set_direction vector
              else set_direction (mkV n1 n0) in
    Ok (d, vlength vector).

  (** line.py:402-404 [LineSegment.__init__] *)
  Definition seg_new (anchor vector : V) : res (segment T) :=
    let* (d, len) := seg_vector_setter vector in
    Ok (mkSeg d (vec2_of anchor) len).

  (** line.py:474-477 [points], 508-511 [end], 518-521 [mid], 491-496 [vector] *)
  Definition seg_end (s : segment T) : V :=
    vadd (sanchor s) (vscale (ddir (sdn s)) (slength s)).
  Definition seg_points (s : segment T) : V * V := (sanchor s, seg_end s).
  Definition seg_mid (s : segment T) : V :=
    vadd (sanchor s) (vscale (ddir (sdn s)) (slength s * nhalf)).
  Definition seg_vector (s : segment T) : V := vscale (ddir (sdn s)) (slength s).
  (** line.py:523-526 [line] *)
  Definition seg_line (s : segment T) : res (line T) := line_new (sanchor s) (ddir (sdn s)).

  (** line.py:528-541 [distance_to] *)
  Definition seg_distance_to (s : segment T) (p : V) : T :=
    let point := vec2_of p in
    let to_point := vsub point (sanchor s) in
    let along := dot (ddir (sdn s)) to_point in
    if along <? n0 then vlength to_point
    else if along >? slength s then vlength (vsub point (seg_end s))
    else nabs (dot to_point (dnormal (sdn s))).
  (** line.py:543-545 *)
  Definition seg_contains (s : segment T) (p : V) : bool := seg_distance_to s p <? E.
  (** line.py:547-577 *)
  Definition seg_point_ahead (s : segment T) (p : V) : bool :=
    let to_point := vsub (vec2_of p) (sanchor s) in
    dot (ddir (sdn s)) to_point >=? slength s + E.
  Definition seg_point_behind (s : segment T) (p : V) : bool :=
    let to_point := vsub (vec2_of p) (sanchor s) in
    dot (ddir (sdn s)) to_point <=? - E.
  Definition seg_point_left (s : segment T) (p : V) : bool :=
    let to_point := vsub (vec2_of p) (sanchor s) in
    let along := dot (ddir (sdn s)) to_point in
    (slength s + E >? along) && (along >? - E)
    && (dot (dnormal (sdn s)) to_point <=? - E).
  Definition seg_point_right (s : segment T) (p : V) : bool :=
    let to_point := vsub (vec2_of p) (sanchor s) in
    let along := dot (ddir (sdn s)) to_point in
    (slength s + E >? along) && (along >? - E)
    && (dot (dnormal (sdn s)) to_point >=? E).

  (** line.py:421-429: loop of [from_points] computing the furthest point;
      state (furthest, end) *)
  Definition furthest_step (start : V) (st : T * V) (p : V) : T * V :=
    let p := vec2_of p in
    let dist := length2 (vsub p start) in
    if dist >? fst st then (dist, p) else st.
  (** line.py:406-440 [LineSegment.from_points] *)
  Definition seg_from_points (points : list V) : res (segment T) :=
    match points with
    | [] => Err ValueError
    | p :: rest =>
        let start := vec2_of p in
        let '(_, e) := fold_left (furthest_step start) rest (n0, start) in
        let* (d, len) :=
          if vec_neb e start then seg_vector_setter (vsub e start)
          else let* d := set_direction (mkV n1 n0) in Ok (d, n0) in
        let s := mkSeg d start len in
        if forallb (fun p => seg_contains s (vec2_of p)) rest
        then Ok s else Err ValueError
    end.

  (** line.py:442-469 [LineSegment.from_normal] *)
  Definition seg_from_normal (normal : V) (offset start_distance end_distance : T)
    : res (segment T) :=
    let* d := set_normal normal in
    let start_distance := start_distance * n1 in
    let anchor := vadd (vscale (dnormal d) offset) (vscale (ddir d) start_distance) in
    Ok (mkSeg d anchor (end_distance - start_distance)).

  (** line.py:579-597 [project] *)
  Definition seg_project (s : segment T) (point : V) : res V :=
    let to_point := vsub (vec2_of point) (sanchor s) in
    let* par := vec_project E (ddir (sdn s)) to_point in
    let along := dot par (ddir (sdn s)) in
    if along <=? - E then Ok (sanchor s)
    else if along >=? slength s + E then Ok (seg_end s)
    else Ok (vadd par (sanchor s)).

  (** line.py:599-607 [__imul__] *)
  Definition seg_imul (s : segment T) (m : A) : res (segment T) :=
    let '(p1, p2) := seg_points s in
    let p1 := aapply m p1 in
    let p2 := aapply m p2 in
    let* (d, len) := seg_vector_setter (vsub p2 p1) in
    Ok (mkSeg d p1 len).
  (** transform.py:262-271 [Affine * segment] *)
  Definition seg_mul (s : segment T) (m : A) : res (segment T) :=
    let '(p1, p2) := seg_points s in
    seg_from_points [aapply m p1; aapply m p2].
  (** line.py:609-623 *)
  Definition seg_eqb (s o : segment T) : bool :=
    vec_eqb (sanchor s) (sanchor o) && vec_eqb (seg_vector s) (seg_vector o).
  Definition seg_almost_equals (s o : segment T) : bool :=
    vec_almost_equals E (sanchor s) (sanchor o)
    && vec_almost_equals E (seg_vector s) (seg_vector o).
  (** attribute assignments: line.py:45-51, 62-68, 471, 484-486, 498-506, 513-516 *)
  Definition seg_set_direction (s : segment T) (v : V) : res (segment T) :=
    let* d := set_direction v in Ok (mkSeg d (sanchor s) (slength s)).
  Definition seg_set_normal (s : segment T) (v : V) : res (segment T) :=
    let* d := set_normal v in Ok (mkSeg d (sanchor s) (slength s)).
  Definition seg_set_anchor (s : segment T) (v : V) : segment T :=
    mkSeg (sdn s) (vec2_of v) (slength s).
  Definition seg_set_vector (s : segment T) (v : V) : res (segment T) :=
    let* (d, len) := seg_vector_setter v in Ok (mkSeg d (sanchor s) len).
  Definition seg_set_end (s : segment T) (v : V) : res (segment T) :=
    let e := vec2_of v in seg_set_vector s (vsub e (sanchor s)).
  Definition seg_set_length (s : segment T) (len : T) : segment T :=
    mkSeg (sdn s) (sanchor s) len.
End Line.
