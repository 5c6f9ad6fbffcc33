(** * Triangles: the sorted vertices (no modelled function) *)
From Coq Require Import List Bool Reals Permutation.
From Verif Require Import Num Vec SpecGeom.
Import ListNotations.
Local Open Scope R_scope.

(** a comes before b: lower, or level and not to the right of it. *)
Definition yx_le (a b : pt) : Prop := vy a < vy b \/ (vy a = vy b /\ vx a <= vx b).
(** From bottom to top, each vertex is at least E from the next one. *)
Definition roomy (E : R) (vs : list pt) : Prop := forall lo mid hi, Permutation vs [lo; mid; hi] -> yx_le lo mid -> yx_le mid hi -> E <= dist lo mid /\ E <= dist hi mid.
(** The two sorted edges exist and one of them is shorter than E. *)
Definition cramped (E : R) (vs : list pt) : Prop := exists lo mid hi, Permutation vs [lo; mid; hi] /\ yx_le lo mid /\ yx_le mid hi /\ (dist lo mid < E \/ dist hi mid < E).
