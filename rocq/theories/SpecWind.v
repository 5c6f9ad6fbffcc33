(** * Winding of a closed cycle around a point (no modelled function) *)
From Coq Require Import ZArith List Bool Reals.
From Verif Require Import Num Vec SpecGeom.
Import ListNotations.
Local Open Scope R_scope.

(** theta is the signed angle by which the ray from p turns when its end moves
    along the segment from a to b. *)
Definition turns (p : pt) (e : pt * pt) (theta : R) : Prop :=
  let u := psub (fst e) p in let v := psub (snd e) p in
  - PI < theta < PI /\ norm u * norm v * cos theta = pdot u v /\ norm u * norm v * sin theta = pcross u v.
(** p lies on none of the edges of the cycle. *)
Definition off_edges (p : pt) (l : list pt) : Prop :=
  forall a b, In (a, b) (cyc_pairs l) -> ~ on_segment a b p.
(** Holds for all small steps to the right that are followed by a much smaller
    step down. *)
Definition just_right_below (p : pt) (Q : pt -> Prop) : Prop :=
  exists e, 0 < e /\ forall dx, 0 < dx < e -> exists d, 0 < d /\ forall dy, 0 < dy < d -> Q (mkV (vx p + dx) (vy p - dy)).
