(** * Centre of mass of a closed polygon (no modelled function) *)
From Coq Require Import ZArith List Bool Reals.
From Verif Require Import Num Vec SpecGeom.
Import ListNotations.
Local Open Scope R_scope.

(** First moments and centre of mass by the shoelace formula. *)
Definition moment (l : list pt) : pt :=
  mkV (rsum (map (fun e => pcross (fst e) (snd e) * (vx (fst e) + vx (snd e))) (cyc_pairs l)))
      (rsum (map (fun e => pcross (fst e) (snd e) * (vy (fst e) + vy (snd e))) (cyc_pairs l))).
Definition mass_centre (l : list pt) : pt :=
  mkV (vx (moment l) / (3 * area2 l)) (vy (moment l) / (3 * area2 l)).

(** Every vertex is on the left of (or on) every directed edge. *)
Definition convex_ccw (l : list pt) : Prop :=
  forall a b v, In (a, b) (cyc_pairs l) -> In v l -> 0 <= orient a b v.
Definition convex_cw (l : list pt) : Prop :=
  forall a b v, In (a, b) (cyc_pairs l) -> In v l -> orient a b v <= 0.
