(** * What it means for a polygon object to have come out of the API *)
From Coq Require Import ZArith List Bool.
From Verif Require Import Num Vec Affine Box Seq Polygon Tangent PolyOps.
Import ListNotations.

Section SpecPoly.
  Context {T : Type} {N : Num T}.
  Notation V := (vec T).
  Notation P := (poly T).

  (** The public constructors, with any declarations. *)
  Inductive poly_born : P -> Prop :=
  | born_new vs c s p : poly_new vs c s = Ok p -> poly_born p
  | born_points vs : poly_born (poly_from_points vs)
  | born_regular n r c a p : poly_regular n r c a = Ok p -> poly_born p
  | born_star n r1 r2 c a p : poly_star n r1 r2 c a = Ok p -> poly_born p
  | born_mul p m : poly_born (poly_mul p m).
  (** Any object a program can hold: born, then used. *)
  Definition reachable (p : P) : Prop := exists p0 os, poly_born p0 /\ p = prun p0 os.

  (** The vertices a history produces: the calls that write them. *)
  Definition write (vs : list V) (o : pop T) : list V :=
    match o with
    | PSet i v => match py_set vs i (vec2_of v) with Ok vs' => vs' | Err _ => vs end
    | PImul m => itransform m vs
    | _ => vs
    end.
  Definition writes (vs : list V) (os : list (pop T)) : list V := fold_left write os vs.

  (** A read other than of the centroid; a containment query under tolerance E. *)
  Definition not_centroid (o : pop T) : Prop := o <> PRead QCentroid.
  Definition same_eps (E : T) (q : pread T) : Prop := match q with QContains E' _ => E' = E | _ => True end.
  Definition op_eps (E : T) (o : pop T) : Prop := match o with PRead q => same_eps E q | _ => True end.
End SpecPoly.
