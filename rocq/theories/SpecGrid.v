(** * Doubles that are bounded integers times a power of two (no modelled function) *)
From Coq Require Import ZArith List Reals Floats.
From Flocq Require Import Core IEEE754.PrimFloat IEEE754.BinarySingleNaN.
From Verif Require Import Num Vec Affine SpecExact.

(** The finite double [x] is an integer of magnitude at most [B] times [2 ^ e]. *)
Definition units (B e : Z) (x : PrimFloat.float) : Prop :=
  PrimFloat.is_finite x = true /\ exists z : Z, (Z.abs z <= B)%Z /\ toR x = (IZR z * bpow radix2 e)%R.
Definition units_pt (B e : Z) (v : vec PrimFloat.float) : Prop := units B e (vx v) /\ units B e (vy v).
(** A transform whose linear entries are within [K] units of [2 ^ d] and whose
    translation is within [C] units of [2 ^ e]; [d = 0] for integer entries. *)
Definition units_mat (K d C e : Z) (m : affine PrimFloat.float) : Prop :=
  (units K d (aa m) /\ units K d (ab m) /\ units K d (ad m) /\ units K d (ae m)) /\ (units C e (ac m) /\ units C e (af m)).
