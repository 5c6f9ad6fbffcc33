(** * Self-intersection of closed cycles (no modelled function) *)
From Coq Require Import List Bool Arith Reals.
From Verif Require Import Num Vec SpecGeom.
Import ListNotations.
Local Open Scope R_scope.

(** The edge arriving at vertex i goes from a to b. *)
Definition edge_into (vs : list pt) (i : nat) (a b : pt) : Prop :=
  nth_error vs i = Some b /\ nth_error vs (match i with O => length vs - 1 | S k => k end)%nat = Some a.
(** In a cycle of n vertices, the edges arriving at vertices i and j have no
    vertex in common. *)
Definition far (n i j : nat) : Prop :=
  ((i + 2 <= j /\ j + 2 <= i + n) \/ (j + 2 <= i /\ i + 2 <= j + n))%nat.
(** Some two non-adjacent edges are related by Q. *)
Definition some_far_edges (vs : list pt) (Q : pt -> pt -> pt -> pt -> Prop) : Prop :=
  exists i j a b c d, far (length vs) i j /\ edge_into vs i a b /\ edge_into vs j c d /\ Q a b c d.
(** The segments have a point in common. *)
Definition share (a b c d : pt) : Prop := exists p, on_segment a b p /\ on_segment c d p.
(** Each segment has its ends strictly on both sides of the other. *)
Definition cross_properly (a b c d : pt) : Prop :=
  orient a b c * orient a b d < 0 /\ orient c d a * orient c d b < 0.
(** They have a common point and different directions. *)
Definition meet (a b c d : pt) : Prop := share a b c d /\ pcross (psub b a) (psub d c) <> 0.
(** Left of, or level and below. *)
Definition xy_lt (a b : pt) : Prop := vx a < vx b \/ (vx a = vx b /\ vy a < vy b).
(** The segment ab has an end before some end of the segment cd. *)
Definition begins_before_end (a b c d : pt) : Prop := xy_lt a c \/ xy_lt a d \/ xy_lt b c \/ xy_lt b d.
(** Neither segment begins where the other one ends, from left to right. *)
Definition overlap_xy (a b c d : pt) : Prop := begins_before_end a b c d /\ begins_before_end c d a b.
