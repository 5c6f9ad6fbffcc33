(** * Error allowed to the vertices of regular polygons and stars on doubles (C115) *)
From Coq Require Import Reals.
From Flocq Require Import Core.
From Verif Require Import Num Vec SpecGeom.
Local Open Scope R_scope.

(** [m] vertices, starting angle [a], radii up to [r], centre [c].  The angle is
    accumulated by [m] additions, so the error grows with [m] and with [a]. *)
Definition ring_err (m : nat) (a r : R) (c : pt) : R :=
  bpow radix2 (-53) * ((90 + 2 * (INR m + 2) * (Rabs a + 361) / 45) * r + 2 * norm c) + 4 * bpow radix2 (-1075).
