(** * Extreme vertices (no modelled function) *)
From Coq Require Import List Bool Reals.
From Verif Require Import Num Vec SpecGeom SpecWind.
Import ListNotations.
Local Open Scope R_scope.

Definition lowest (l : list pt) (v : pt) : Prop := In v l /\ forall w, In w l -> vy v <= vy w.
Definition highest (l : list pt) (v : pt) : Prop := In v l /\ forall w, In w l -> vy w <= vy v.
Definition leftmost (l : list pt) (v : pt) : Prop := In v l /\ forall w, In w l -> vx v <= vx w.
Definition rightmost (l : list pt) (v : pt) : Prop := In v l /\ forall w, In w l -> vx w <= vx v.
(** No vertex is extreme both horizontally and vertically. *)
Definition corner_free (l : list pt) : Prop := forall v, leftmost l v \/ rightmost l v -> ~ lowest l v /\ ~ highest l v.
(** q is strictly on the left (s = 1) or on the right (s = -1) of every edge
    that joins different points. *)
Definition strictly_inside (s : R) (l : list pt) (q : pt) : Prop := forall a b, In (a, b) (cyc_pairs l) -> a <> b -> 0 < s * orient a b q.
(** Seen from the side given by s, the answers of a containment test for a
    convex polygon: inside all edges, outside some edge, and on the boundary
    the answer of the points just to the right and slightly below. *)
Definition exact_for (s : R) (l : list pt) (ans : pt -> Prop) (q : pt) : Prop :=
  (strictly_inside s l q -> ans q) /\
  ((exists a b, In (a, b) (cyc_pairs l) /\ s * orient a b q < 0) -> ~ ans q) /\
  just_right_below q (fun r => ans q <-> strictly_inside s l r).
