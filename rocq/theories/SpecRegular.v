(** * Regular polygons and stars (no modelled function) *)
From Coq Require Import ZArith List Bool Reals.
From Verif Require Import Num Vec SpecGeom.
Import ListNotations.
Local Open Scope R_scope.

(** The point at distance r from c in the direction of d degrees. *)
Definition polar_at (c : pt) (r d : R) : pt := padd c (prot d (mkV r 0)).
(** n points at distance r from c, the first at a degrees, evenly spaced. *)
Definition regular_points (n : nat) (r : R) (c : pt) (a : R) : list pt :=
  map (fun k => polar_at c r (a + INR k * (360 / INR n))) (seq 0 n).
(** 2 n points at equal angles, at distances r1 and r2 alternately. *)
Definition star_points (n : nat) (r1 r2 : R) (c : pt) (a : R) : list pt :=
  map (fun k => polar_at c (if Nat.even k then r1 else r2) (a + INR k * (180 / INR n))) (seq 0 (2 * n)).
