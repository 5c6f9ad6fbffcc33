(** * Specification vocabulary for C112: answers that exclude each other *)
From Coq Require Import List Bool Floats.
From Verif Require Import Num NumFloat Vec OrdLaws FloatFacts2.
Import ListNotations.

(** At most one of the booleans is true. *)
Definition at_most_one (l : list bool) : Prop := (length (filter (fun b => b) l) <= 1)%nat.
(** A vector of doubles of magnitude at most [B] in both coordinates. *)
Definition bounded_vec (B : float) (v : vec float) : Prop :=
  PrimFloat.leb (abs (vx v)) B = true /\ PrimFloat.leb (abs (vy v)) B = true.
