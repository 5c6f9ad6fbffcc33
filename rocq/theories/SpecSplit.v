(** * First extreme vertices (no modelled function) *)
From Coq Require Import List Bool Reals.
From Verif Require Import Num Vec SpecGeom SpecWind.
Import ListNotations.
Local Open Scope R_scope.

(** v is the first entry of the list where the key is least. *)
Definition first_least (key : pt -> R) (l : list pt) (v : pt) : Prop :=
  exists a b, l = a ++ v :: b /\ (forall w, In w a -> key v < key w) /\ (forall w, In w b -> key v <= key w).
Definition precedes (l : list pt) (v w : pt) : Prop := exists a b c, l = a ++ v :: b ++ w :: c.
(** The convex polygons (s = 1: counter-clockwise, s = -1: clockwise) for which
    the two chains between the lowest and the highest vertex are mistaken for
    each other.  If the left chain is the one that does not pass the end of the
    list: the leftmost vertex is the highest and the rightmost the lowest.
    Otherwise: the leftmost vertex is the lowest.  Among several extreme
    vertices the first in the list counts. *)
Definition misread (s : R) (l : list pt) : Prop :=
  exists le ri lo hi, first_least vx l le /\ first_least (fun v => - vx v) l ri /\ first_least vy l lo /\ first_least (fun v => - vy v) l hi /\
    (((s < 0 /\ precedes l lo hi \/ 0 < s /\ precedes l hi lo) /\ le = hi /\ ri = lo) \/
     ((s < 0 /\ precedes l hi lo \/ 0 < s /\ precedes l lo hi) /\ le = lo)).
