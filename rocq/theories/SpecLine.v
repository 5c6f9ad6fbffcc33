(** * Specification vocabulary for lines, rays and segments *)
From Coq Require Import ZArith List Bool Reals.
From Verif Require Import Num Vec Affine Line SpecGeom.
Import ListNotations.
Local Open Scope R_scope.

(** Orthonormal frame: unit direction, and the normal is the direction turned
    clockwise by 90 degrees. *)
Definition frame (d : dirn R) : Prop :=
  norm (ddir d) = 1 /\ norm (dnormal d) = 1 /\ dnormal d = prot (-90) (ddir d).

(** Point sets. *)
Definition along_line (a d : pt) (q : pt) : Prop := exists t, q = padd a (pscale t d).
Definition along_ray (a d : pt) (q : pt) : Prop := exists t, 0 <= t /\ q = padd a (pscale t d).
Definition along_seg (a d : pt) (len : R) (q : pt) : Prop := exists t, 0 <= t <= len /\ q = padd a (pscale t d).

(** The points of the shapes, from their attributes: a line is the set of
    points at signed distance [offset] from the origin along the normal. *)
Definition line_set (l : line R) (q : pt) : Prop := pdot q (dnormal (ldn l)) = loffset l.
Definition ray_set (r : ray R) : pt -> Prop := along_ray (ranchor r) (ddir (rdn r)).
Definition seg_set (s : segment R) : pt -> Prop := along_seg (sanchor s) (ddir (sdn s)) (slength s).

(** Exactly one of the propositions (given as booleans) holds. *)
Definition exactly_one (l : list bool) : Prop := length (filter (fun b => b) l) = 1%nat.
