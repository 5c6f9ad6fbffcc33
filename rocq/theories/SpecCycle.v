(** * Closed vertex cycles *)
From Coq Require Import List.
Import ListNotations.

(** m starts elsewhere on the same directed cycle. *)
Definition rotated {X} (l m : list X) : Prop := exists a b, l = a ++ b /\ m = b ++ a.
(** Same cycle, whatever the start and the direction. *)
Definition same_cycle {X} (l m : list X) : Prop := rotated l m \/ rotated l (rev m).
