(** * Several vertices on a tangent (no modelled function) *)
From Coq Require Import ZArith List Bool Reals.
From Verif Require Import Num Vec SpecGeom SpecTangent.
Local Open Scope R_scope.

(** Only one vertex of [vs] is a right support from p. *)
Definition right_alone (vs : list pt) (p : pt) : Prop := forall r r', right_support vs p r -> right_support vs p r' -> r = r'.
(** Halving the range a .. b of positions towards m: does it meet m, or come
    to m - 1 only when at most two positions are left above m ? *)
Fixpoint halving_meets (fuel : nat) (a b m : Z) : bool :=
  match fuel with
  | O => false
  | S fuel' => let c := ((a + b) / 2)%Z in
      if (c =? m)%Z then true else if (c =? m - 1)%Z then (b <=? m + 2)%Z
      else if (c <? m)%Z then halving_meets fuel' c b m else halving_meets fuel' a c m
  end.
