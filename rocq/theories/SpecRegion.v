(** * The convex hull of points as a region (no modelled function) *)
From Coq Require Import List Reals.
From Verif Require Import Num Vec SpecGeom.
Local Open Scope R_scope.

(** A set that contains the segment between any two of its points. *)
Definition convex_set (S : pt -> Prop) : Prop := forall a b t, S a -> S b -> 0 <= t <= 1 -> S (between a b t).
(** The smallest convex set around the points: what is in every one of them. *)
Definition in_hull (pts : list pt) (q : pt) : Prop := forall S : pt -> Prop, convex_set S -> (forall v, In v pts -> S v) -> S q.
(** Inside the region with some room on all sides. *)
Definition deep (S : pt -> Prop) (q : pt) : Prop := exists r, 0 < r /\ forall x y, Rabs x < r -> Rabs y < r -> S (mkV (vx q + x) (vy q + y)).
(** A point of the region that is on no segment between two other points of it. *)
Definition extreme (S : pt -> Prop) (v : pt) : Prop := S v /\ forall a b, S a -> S b -> on_segment a b v -> v = a \/ v = b.
