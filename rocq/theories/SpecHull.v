(** * Convex hulls (no modelled function) *)
From Coq Require Import List Bool Reals Permutation.
From Verif Require Import Num Vec SpecGeom.
Import ListNotations.
Local Open Scope R_scope.

(** An iteration order of sets: it visits the elements, each once. *)
Definition reorders {A} (so : list A -> list A) : Prop := forall s, Permutation s (so s).
(** q is on the right of, or on, every edge of the closed polygon h (hulls are
    listed clockwise). *)
Definition encloses (h : list pt) (q : pt) : Prop := forall a b, In (a, b) (cyc_pairs h) -> orient a b q <= 0.
(** The points of l project on the line a b after a and not after b. *)
Definition ahead (l : list pt) (a b : pt) : Prop :=
  forall q, In q l -> 0 < pdot (psub b a) (psub q a) <= pdot (psub b a) (psub b a).
