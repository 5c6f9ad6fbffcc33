(** * Model of the class Affine (planar/transform.py) *)
From Coq Require Import ZArith List Bool.
From Verif Require Import Num Vec.
Import ListNotations.
Local Open Scope num_scope.

(** transform.py:52-58: an immutable 9-tuple whose last row is always
    (0.0, 0.0, 1.0); the constant row is not stored in the model. *)
Record affine (T : Type) : Type := mkA { aa : T; ab : T; ac : T; ad : T; ae : T; af : T }.
Arguments mkA {T} _ _ _ _ _ _.
Arguments aa {T} _. Arguments ab {T} _. Arguments ac {T} _.
Arguments ad {T} _. Arguments ae {T} _. Arguments af {T} _.

Section Affine.
  Context {T : Type} {N : Num T}.
  Notation V := (vec T).
  Notation A := (affine T).

  (** transform.py:52-58 [__new__] with six numbers *)
  Definition affine_new (a b c d e f : T) : A :=
    mkA (a * n1) (b * n1) (c * n1) (d * n1) (e * n1) (f * n1).

  (** transform.py:326 [identity = Affine(1, 0, 0, 0, 1, 0)], 60-66 *)
  Definition aidentity : A := affine_new n1 n0 n0 n0 n1 n0.

  (** transform.py:68-80 [translation] *)
  Definition atranslation (o : V) : A := mkA n1 n0 (vx o) n0 n1 (vy o).

  (** transform.py:82-99 [scale] of a vector; of a scalar s it is [ascale (s,s)] *)
  Definition ascale (s : V) : A := mkA (vx s) n0 n0 n0 (vy s) n0.
  Definition ascale_scalar (s : T) : A := mkA s n0 n0 n0 s n0.

  (** transform.py:101-116 [shear] *)
  Definition ashear (x_angle y_angle : T) : res A :=
    let* sx := pytan (nradians x_angle) in
    let* sy := pytan (nradians y_angle) in
    Ok (mkA n1 sy n0 sx n1 n0).

  (** transform.py:118-141 [rotation] *)
  Definition arotation (ang : T) (pivot : option V) : A :=
    let '(ca, sa) := cos_sin_deg ang in
    match pivot with
    | None => mkA ca sa n0 (- sa) ca n0
    | Some p =>
        let px := vx p in let py := vy p in
        mkA ca sa (px - px * ca + py * sa) (- sa) ca (py - px * sa - py * ca)
    end.

  (** transform.py:154-161 [determinant] *)
  Definition determinant (m : A) : T := aa m * ae m - ab m * ad m.

  (** transform.py:216-227 [almost_equals] *)
  Definition affine_almost_equals (E : T) (m o : A) : bool :=
    let far (x y : T) := nabs (x - y) >=? E in
    if far (aa m) (aa o) then false else
    if far (ab m) (ab o) then false else
    if far (ac m) (ac o) then false else
    if far (ad m) (ad o) then false else
    if far (ae m) (ae o) then false else
    if far (af m) (af o) then false else true.

  (** transform.py:163-168 [is_identity] (uncached value; the object-identity
      test is subsumed by [almost_equals] unless EPSILON <= 0). *)
  Definition is_identity (E : T) (m : A) : bool := affine_almost_equals E m aidentity.
  (** transform.py:170-178 [is_rectilinear] *)
  Definition is_rectilinear (E : T) (m : A) : bool :=
    ((nabs (aa m) <? E) && (nabs (ae m) <? E))
    || ((nabs (ad m) <? E) && (nabs (ab m) <? E)).
  (** transform.py:180-187 [is_conformal] *)
  Definition is_conformal (E : T) (m : A) : bool :=
    nabs (aa m * ab m + ad m * ae m) <? E.
  (** transform.py:189-200 [is_orthonormal] *)
  Definition is_orthonormal (E : T) (m : A) : bool :=
    is_conformal E m
    && (nabs (n1 - (aa m * aa m + ad m * ad m)) <? E)
    && (nabs (n1 - (ab m * ab m + ae m * ae m)) <? E).
  (** transform.py:202-208 [is_degenerate] *)
  Definition is_degenerate (E : T) (m : A) : bool := nabs (determinant m) <? E.
  (** transform.py:210-214 [column_vectors] *)
  Definition column_vectors (m : A) : V * V * V :=
    (vec2 (aa m) (ad m), vec2 (ab m) (ae m), vec2 (ac m) (af m)).

  (** tuple equality (inherited [tuple.__eq__]) *)
  Definition affine_eqb (m o : A) : bool :=
    (aa m =? aa o) && (ab m =? ab o) && (ac m =? ac o)
    && (ad m =? ad o) && (ae m =? ae o) && (af m =? af o).

  (** transform.py:255-261 [__mul__] with another Affine *)
  Definition amul (s o : A) : A :=
    mkA (aa s * aa o + ab s * ad o) (aa s * ab o + ab s * ae o)
        (aa s * ac o + ab s * af o + ac s)
        (ad s * aa o + ae s * ad o) (ad s * ab o + ae s * ae o)
        (ad s * ac o + ae s * af o + af s).

  (** transform.py:272-277 [__mul__] with a vector; the same expression is used
      at 266-269 for the points of a sequence or shape and at 296-301 in
      [itransform]. *)
  Definition aapply (m : A) (v : V) : V :=
    vec2 (vx v * aa m + vy v * ad m + ac m) (vx v * ab m + vy v * ae m + af m).

  (** transform.py:290-301 [itransform] on the list of vectors of a mutable
      sequence.  [seq[i] = Vec2(..)] goes through the sequence's own
      [__setitem__], which converts with [Vec2( *value)] (vector.py:497, 553). *)
  Definition itransform (m : A) (l : list V) : list V :=
    if affine_eqb m aidentity then l
    else map (fun v => vec2_of (aapply m v)) l.

  (** transform.py:303-322 [__invert__] *)
  Definition ainvert (E : T) (m : A) : res A :=
    if is_degenerate E m then Err TransformNotInvertibleError else
    let* idet := pydiv n1 (determinant m) in
    let ra := ae m * idet in
    let rb := - ab m * idet in
    let rd := - ad m * idet in
    let re := aa m * idet in
    Ok (mkA ra rb (- ac m * ra - af m * rb) rd re (- ac m * rd - af m * re)).
End Affine.
