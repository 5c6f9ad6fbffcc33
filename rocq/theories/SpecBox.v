(** * Specification vocabulary for bounding boxes (no modelled function) *)
From Coq Require Import ZArith List Bool Reals.
From Verif Require Import Num Vec Box SpecGeom.
Import ListNotations.
Local Open Scope R_scope.

(** Least and greatest member of a list in the order of a number system. *)
Definition least {T} {N : Num T} (x : T) (l : list T) : Prop :=
  In x l /\ forall y, In y l -> nleb x y = true.
Definition greatest {T} {N : Num T} (x : T) (l : list T) : Prop :=
  In x l /\ forall y, In y l -> nleb y x = true.
(** The box is the tightest one around the points. *)
Definition tight {T} {N : Num T} (b : bbox T) (l : list (vec T)) : Prop :=
  least (vx (bmin b)) (map vx l) /\ least (vy (bmin b)) (map vy l) /\
  greatest (vx (bmax b)) (map vx l) /\ greatest (vy (bmax b)) (map vy l).
(** Both coordinates are ordinary numbers. *)
Definition ord_pt {T} (D : T -> Prop) (p : vec T) : Prop := D (vx p) /\ D (vy p).
Definition ord_box {T} (D : T -> Prop) (b : bbox T) : Prop := ord_pt D (bmin b) /\ ord_pt D (bmax b).

(** Over the reals: closed boxes as sets of points. *)
Definition in_closed (b : bbox R) (p : pt) : Prop :=
  vx (bmin b) <= vx p <= vx (bmax b) /\ vy (bmin b) <= vy p <= vy (bmax b).
Definition encloses (b c : bbox R) : Prop := forall p, in_closed c p -> in_closed b p.
Definition wd (b : bbox R) : R := vx (bmax b) - vx (bmin b).
Definition ht (b : bbox R) : R := vy (bmax b) - vy (bmin b).
Definition mid (b : bbox R) : pt :=
  mkV ((vx (bmin b) + vx (bmax b)) / 2) ((vy (bmin b) + vy (bmax b)) / 2).
(** The corners are in the right order: true of every box planar builds. *)
Definition proper (b : bbox R) : Prop :=
  vx (bmin b) <= vx (bmax b) /\ vy (bmin b) <= vy (bmax b).

(** Replace one coordinate: the two parts of a box cut at x = c or y = c. *)
Definition left_part {T} (b : bbox T) (c : T) : bbox T := mkBox (bmin b) (mkV c (vy (bmax b))).
Definition right_part {T} (b : bbox T) (c : T) : bbox T := mkBox (mkV c (vy (bmin b))) (bmax b).
Definition low_part {T} (b : bbox T) (c : T) : bbox T := mkBox (bmin b) (mkV (vx (bmax b)) c).
Definition high_part {T} (b : bbox T) (c : T) : bbox T := mkBox (mkV (vx (bmin b)) c) (bmax b).
