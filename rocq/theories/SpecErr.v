(** * Specification vocabulary for results on doubles compared with exact ones *)
From Coq Require Import ZArith List Bool Reals.
From Flocq Require Import Core.
From Verif Require Import Num Vec SpecGeom SpecLine.
Local Open Scope R_scope.

(** A yes/no answer that is right whenever the exact quantity [x] is further
    than [m] from zero: yes above, no below. *)
Definition correct_beyond (b : bool) (x m : R) : Prop := (m < x -> b = true) /\ (x < - m -> b = false).

(** Exact position of [q] relative to the ray from [p] in the direction [v]:
    how far along it, and how far to its right. *)
Definition offset_along (p v q : pt) : R := pdot (psub q p) v / norm v.
Definition offset_right (p v q : pt) : R := pcross (psub q p) v / norm v.

(** Exact distance [d] from [p] to a set of points: the distance of a nearest point. *)
Definition set_distance (S : pt -> Prop) (p : pt) (d : R) : Prop := exists q, nearest S p q /\ dist p q = d.

(** Margins relative to the magnitude [M] of the coordinates. *)
Definition margin (k : Z) (M : R) : R := bpow radix2 k * M.
