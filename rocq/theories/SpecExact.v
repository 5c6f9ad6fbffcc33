(** * Doubles on a binary grid and the reals they stand for *)
From Coq Require Import ZArith List Reals Floats.
From Flocq Require Import Core IEEE754.PrimFloat IEEE754.BinarySingleNaN.
From Verif Require Import Num Vec Affine Box Polygon PolyOps.

(** The real number a finite double stands for. *)
Definition toR (x : PrimFloat.float) : R := B2R (Prim2B x).
(** An integer of magnitude at most [2 ^ 25] times [2 ^ e] (the zeros of both
    signs included). *)
Definition on_grid (e : Z) (x : PrimFloat.float) : Prop :=
  PrimFloat.is_finite x = true /\ exists z : Z, (Z.abs z <= 2 ^ 25)%Z /\ toR x = (IZR z * bpow radix2 e)%R.
Definition vec_on_grid (e : Z) (v : vec PrimFloat.float) : Prop := on_grid e (vx v) /\ on_grid e (vy v).

(** The exact real counterparts of values, calls and objects. *)
Definition vecR (v : vec PrimFloat.float) : vec R := mkV (toR (vx v)) (toR (vy v)).
Definition boxR (b : bbox PrimFloat.float) : bbox R := mkBox (vecR (bmin b)) (vecR (bmax b)).
Definition pairR (p : vec PrimFloat.float * vec PrimFloat.float) : vec R * vec R := (vecR (fst p), vecR (snd p)).
Definition affR (m : affine PrimFloat.float) : affine R :=
  mkA (toR (aa m)) (toR (ab m)) (toR (ac m)) (toR (ad m)) (toR (ae m)) (toR (af m)).
Definition readR (q : pread PrimFloat.float) : pread R :=
  match q with
  | QConvex => QConvex | QSimple => QSimple | QCentroid => QCentroid | QBbox => QBbox
  | QContains E pt => QContains (toR E) (vecR pt)
  | QTangents pt => QTangents (vecR pt)
  end.
Definition opR (o : pop PrimFloat.float) : pop R :=
  match o with
  | PRead q => PRead (readR q)
  | PSet i v => PSet i (vecR v)
  | PImul m => PImul (affR m)
  | PCopy => PCopy | PDeepcopy => PDeepcopy
  end.
(** Calls whose arguments are on the grid, other than [centroid] and products
    with a transform. *)
Definition grid_op (e : Z) (o : pop PrimFloat.float) : Prop :=
  match o with
  | PRead (QContains _ pt) | PRead (QTangents pt) => vec_on_grid e pt
  | PSet _ v => vec_on_grid e v
  | PRead QCentroid | PImul _ => False
  | PRead _ | PCopy | PDeepcopy => True
  end.
