(** * Model of [__repr__]

    The text printed for each class.  [show] is Python's [%r] of a number. *)
From Coq Require Import List String Ascii.
From Verif Require Import Num Vec Affine Box Line Polygon.
Import ListNotations.
Local Open Scope string_scope.

Section Repr.
  Context {T : Type} {N : Num T}.
  Notation V := (vec T).
  Variable show : T -> string.
  Variable E : T.   (* planar.EPSILON *)

  (** [repr(tuple(v))] of a vector, used by line.py, polygon.py; vector.py:940
      spells the same text *)
  Definition repr_tuple (v : V) : string := "(" ++ show (vx v) ++ ", " ++ show (vy v) ++ ")".
  (** vector.py:70-72 [Vec2.__repr__]: "Vec2(%r, %r)" % self *)
  Definition repr_vec (v : V) : string := "Vec2(" ++ show (vx v) ++ ", " ++ show (vy v) ++ ")".
  (** transform.py:149-152 [Affine.__repr__]; the text has a line break and
      seven spaces after the third number *)
  Definition newline : ascii := "010"%char.
  Definition repr_affine (m : affine T) : string :=
    "Affine(" ++ show (aa m) ++ ", " ++ show (ab m) ++ ", " ++ show (ac m) ++ ","
      ++ String newline ("       " ++ show (ad m) ++ ", " ++ show (ae m) ++ ", " ++ show (af m) ++ ")").
  (** box.py:240-244 [BoundingBox.__repr__] *)
  Definition repr_box (b : bbox T) : string :=
    "BoundingBox([(" ++ show (vx (bmin b)) ++ ", " ++ show (vy (bmin b)) ++ "), ("
      ++ show (vx (bmax b)) ++ ", " ++ show (vy (bmax b)) ++ ")])".
  (** vector.py:938-940 [Vec2Array.__repr__], of a Vec2Array proper *)
  Definition repr_array (l : list V) : string :=
    "Vec2Array([" ++ concat ", " (map repr_tuple l) ++ "])".
  (** line.py:233-236 [Line.__repr__] *)
  Definition repr_line (l : line T) : res string :=
    let* p := line_project E l (mkV n0 n0) in
    Ok ("Line(" ++ repr_tuple p ++ ", " ++ repr_tuple (ddir (ldn l)) ++ ")").
  (** line.py:387-390 [Ray.__repr__] *)
  Definition repr_ray (r : ray T) : string :=
    "Ray(" ++ repr_tuple (ranchor r) ++ ", " ++ repr_tuple (ddir (rdn r)) ++ ")".
  (** line.py:630-633 [LineSegment.__repr__] *)
  Definition repr_seg (s : segment T) : string :=
    "LineSegment(" ++ repr_tuple (sanchor s) ++ ", " ++ repr_tuple (seg_vector s) ++ ")".
  (** [%r] of a bool *)
  Definition repr_bool (b : bool) : string := if b then "True" else "False".
  (** polygon.py:503-511 [Polygon.__repr__], of a Polygon proper; where
      is_convex is known reading it is reading the cache, and likewise
      is_simple *)
  Definition repr_poly (p : poly T) : string :=
    let kwargs := match pconvex p with
      | Some c => ", is_convex=" ++ repr_bool c
          ++ match c, psimple p with
             | false, Some s => ", is_simple=" ++ repr_bool s
             | _, _ => ""
             end
      | None => ""
      end in
    "Polygon([" ++ concat ", " (map repr_tuple (pverts p)) ++ "]" ++ kwargs ++ ")".
End Repr.
