(** * Tangents from a point (no modelled function) *)
From Coq Require Import List Bool Reals.
From Verif Require Import Num Vec SpecGeom.
Import ListNotations.
Local Open Scope R_scope.

(** Looking from p towards l, nothing in [vs] is on the left of the line;
    looking towards r, nothing is on its right. *)
Definition left_support (vs : list pt) (p l : pt) : Prop := In l vs /\ forall v, In v vs -> orient p l v <= 0.
Definition right_support (vs : list pt) (p r : pt) : Prop := In r vs /\ forall v, In v vs -> 0 <= orient p r v.
(** Some line through p has all of [vs] strictly on one side. *)
Definition outside_hull (vs : list pt) (p : pt) : Prop := exists d : pt, forall v, In v vs -> 0 < pdot d (psub v p).
(** No vertex is repeated, and every vertex other than the ends of an edge is
    strictly on the left (s = 1) or on the right (s = -1) of the edge. *)
Definition strictly_convex (s : R) (vs : list pt) : Prop :=
  (s = 1 \/ s = -1) /\ (3 <= length vs)%nat /\ NoDup vs /\
  forall a b v, In (a, b) (cyc_pairs vs) -> In v vs -> v <> a -> v <> b -> 0 < s * orient a b v.
(** p is strictly on the outer side of some edge. *)
Definition beyond_edge (s : R) (vs : list pt) (p : pt) : Prop := exists a b, In (a, b) (cyc_pairs vs) /\ s * orient a b p < 0.
(** p is on the line of no edge. *)
Definition off_edge_lines (vs : list pt) (p : pt) : Prop := forall a b, In (a, b) (cyc_pairs vs) -> orient a b p <> 0.
