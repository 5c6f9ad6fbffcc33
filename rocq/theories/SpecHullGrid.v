(** * Doubles on a coarse binary grid (no modelled function) *)
From Coq Require Import ZArith List Reals Floats.
From Flocq Require Import Core IEEE754.PrimFloat IEEE754.BinarySingleNaN.
From Verif Require Import Num Vec SpecExact.

(** An integer of magnitude at most [2 ^ 11] times [2 ^ e]. *)
Definition coarse (e : Z) (x : PrimFloat.float) : Prop :=
  PrimFloat.is_finite x = true /\ exists z : Z, (Z.abs z <= 2 ^ 11)%Z /\ toR x = (IZR z * bpow radix2 e)%R.
Definition coarse_pt (e : Z) (v : vec PrimFloat.float) : Prop := coarse e (vx v) /\ coarse e (vy v).
