(** * BoundingBox methods that build or transform polygons (planar/box.py) *)
From Coq Require Import ZArith List Bool.
From Verif Require Import Num Vec Affine Box Seq Polygon.
Import ListNotations.
Local Open Scope num_scope.

Section BoxPoly.
  Context {T : Type} {N : Num T}.
  Notation V := (vec T).
  Notation B := (bbox T).
  Notation A := (affine T).

  (** box.py:213-222 [to_polygon] *)
  Definition box_to_polygon (b : B) : res (poly T) :=
    poly_new [bmin b; mkV (vx (bmin b)) (vy (bmax b));
              bmax b; mkV (vx (bmax b)) (vy (bmin b))] (Some true) None.

  (** Outcome of box * transform: a box or a polygon. *)
  Inductive box_or_poly : Type := IsBox (b : B) | IsPoly (p : poly T).

  (** box.py:248-262 [__mul__], [__rmul__] by an Affine *)
  Definition box_mul (E : T) (b : B) (m : A) : res box_or_poly :=
    if is_rectilinear E m then
      let* r := box_from_points [aapply m (bmin b); aapply m (bmax b)] in Ok (IsBox r)
    else
      let* p := box_to_polygon b in Ok (IsPoly (poly_imul p m)).

  (** box.py:206-211 [fit] for a polygon; [shape * transform] is
      [Affine.__rmul__], transform.py:262-271. *)
  Definition box_fit_poly (self : B) (shape : poly T) : res (poly T) :=
    let* sb := fst (get_bbox shape) in
    let* c := box_center self in
    let* sc := box_center sb in
    let offset := atranslation (vsub c sc) in
    let* w := pydiv (box_width self) (box_width sb) in
    let* h := pydiv (box_height self) (box_height sb) in
    let scale := ascale_scalar (pymin w h) in
    Ok (poly_mul shape (amul offset scale)).
End BoxPoly.
Arguments box_or_poly : clear implicits.
