(** * Going once around (no modelled function) *)
From Coq Require Import List Bool Reals.
From Verif Require Import Num Vec SpecGeom SpecCycle.
Import ListNotations.
Local Open Scope R_scope.

(** Some three vertices are not on one line. *)
Definition spread (l : list pt) : Prop := exists p q r, In p l /\ In q l /\ In r l /\ orient p q r <> 0.
(** The cycle stops at each of its points once; it may rest there for several
    consecutive vertices. *)
Definition visits_once (l : list pt) : Prop := exists runs : list (pt * nat),
  NoDup (map fst runs) /\ rotated l (flat_map (fun r => repeat (fst r) (S (snd r))) runs).
(** The two vertices at the end of the list differ. *)
Definition ends_apart (l : list pt) : Prop := exists k x y, l = k ++ [x; y] /\ x <> y.
