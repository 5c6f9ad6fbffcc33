(** * Transforms that keep shapes (no modelled function) *)
From Coq Require Import Reals.
From Verif Require Import Num Vec Affine SpecGeom SpecAffine.
Local Open Scope R_scope.

(** The transform makes every length k times as long: a similarity.  A rigid
    motion, possibly with a mirror image, is the case k = 1. *)
Definition stretches (k : R) (m : affine R) : Prop := forall p q, dist (img m p) (img m q) = k * dist p q.
