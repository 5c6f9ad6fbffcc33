(** * The inverse of an affine matrix, and the bounds of C116 *)
From Coq Require Import Reals.
From Flocq Require Import Core.
From Verif Require Import Num NumFloat Vec Affine OrdLaws FloatVec SpecExact FloatExact.
Local Open Scope R_scope.

(** The product of the matrices [m] and [q], rows times columns, is the identity. *)
Definition inverse_of (m q : affine R) : Prop :=
  aa m * aa q + ab m * ad q = 1 /\ aa m * ab q + ab m * ae q = 0 /\ aa m * ac q + ab m * af q + ac m = 0 /\
  ad m * aa q + ae m * ad q = 0 /\ ad m * ab q + ae m * ae q = 1 /\ ad m * ac q + ae m * af q + af m = 0.
Definition exact_det (m : affine R) : R := aa m * ae m - ab m * ad m.
(** The sum of the sizes of the two products in the determinant: the amount of
    cancellation is [det_size m / |exact_det m|]. *)
Definition det_size (m : affine R) : R := Rabs (aa m * ae m) + Rabs (ab m * ad m).
Definition cancel (m : affine R) : R := det_size m / Rabs (exact_det m).
(** Every entry is at most [b]. *)
Definition entries_within (b : R) (m : affine R) : Prop :=
  Rabs (aa m) <= b /\ Rabs (ab m) <= b /\ Rabs (ac m) <= b /\ Rabs (ad m) <= b /\ Rabs (ae m) <= b /\ Rabs (af m) <= b.
