(** * Comparison operators, hashing and truth values of planar objects

    [a == b] calls the method of [a] or, if the class of [b] is a proper
    subclass of that of [a], the reflected method of [b] first; a method that
    returns NotImplemented hands over to the other one; if both do, [==] and
    [!=] compare identity and the orderings raise TypeError. *)
From Coq Require Import ZArith List Bool.
From Verif Require Import Num Vec Affine Box Line Seq Polygon BoxPoly Dispatch.
Import ListNotations.
Local Open Scope num_scope.

Section Compare.
  Context {T : Type} {N : Num T}.
  Notation val := (@val T).

  (** Vec2(tuple) vector.py:39, Affine(tuple) transform.py:36, Vec2Array(Seq2)
      vector.py:541, Polygon(Seq2) polygon.py:36: is the class of [b] a proper
      subclass of that of [a]? *)
  Definition subclass (b a : val) : bool :=
    match b, a with
    | VVec _, VTup _ | VAff _, VTup _ | VArr _, VSeq _ | VPoly _, VSeq _ => true
    | _, _ => false
    end.

  (** tuple.__eq__ (the identity test of elements is left out: it shows only
      with NaN) *)
  Fixpoint tup_eqb (l m : list T) : bool :=
    match l, m with
    | [], [] => true
    | x :: l', y :: m' => (x =? y) && tup_eqb l' m'
    | _, _ => false
    end.
  (** vector.py:289-294 Vec2.__eq__: [other[0]], [other[1]] and [len(other)],
      False on TypeError or IndexError.  A number never equals a Vec2 (float
      returns NotImplemented, then Vec2.__eq__ fails on [other[0]]), so
      sequences of vectors compare unequal. *)
  Definition vec_eq_method (v : vec T) (other : val) : bool :=
    match as_tuple other with
    | Some (x :: y :: r) => (vx v =? x) && (vy v =? y) && (match r with [] => true | _ => false end)
    | _ => false
    end.
  (** vector.py:296-301 Vec2.__ne__ *)
  Definition vec_ne_method (v : vec T) (other : val) : bool :=
    match as_tuple other with
    | Some (x :: y :: r) => (vx v !=? x) || (vy v !=? y) || (match r with [] => false | _ => true end)
    | _ => true
    end.
  (** The methods __eq__: float, tuple (also for Affine, transform.py has
      none), Vec2, Seq2 vector.py:521-523 (also for Vec2Array), Polygon
      polygon.py:441-498, BoundingBox box.py:224-227, Line, Ray, LineSegment
      line.py:212-215, 366-369, 609-612.  [None] is NotImplemented.  Malformed
      vectors are not modelled. *)
  Definition eq_method (a b : val) : option (res bool) :=
    match a with
    | VNum x => match b with VNum y => Some (Ok (x =? y)) | _ => None end
    | VTup _ | VAff _ =>
        match as_tuple a, as_tuple b with Some l, Some m => Some (Ok (tup_eqb l m)) | _, _ => None end
    | VVec v => Some (Ok (vec_eq_method v b))
    | VSeq l => Some (Ok (match b with VSeq m => seq_eqb l m | _ => false end))
    | VArr l => Some (Ok (match b with VArr m => seq_eqb l m | _ => false end))
    | VPoly p => Some (match b with VPoly q => poly_eqb p q | _ => Ok false end)
    | VBox x => Some (Ok (match b with VBox y => box_eqb x y | _ => false end))
    | VLine x => Some (Ok (match b with VLine y => line_eqb x y | _ => false end))
    | VRay x => Some (Ok (match b with VRay y => ray_eqb x y | _ => false end))
    | VSeg x => Some (Ok (match b with VSeg y => seg_eqb x y | _ => false end))
    | VBad _ _ | VBadSeq _ => None
    end.
  (** The methods __ne__: vector.py:525-527 for sequences (class differs or
      tuples differ), otherwise [not self.__eq__(other)]. *)
  Definition ne_method (a b : val) : option (res bool) :=
    match a with
    | VVec v => Some (Ok (vec_ne_method v b))
    | VPoly p => Some (match b with VPoly q => poly_neb p q | _ => Ok true end)
    | _ => option_map (rmap negb) (eq_method a b)
    end.
  Definition protocol {X} (a b : val) (fwd rev : option X) (dflt : X) : X :=
    let '(m1, m2) := if subclass b a then (rev, fwd) else (fwd, rev) in
    match m1 with Some r => r | None => match m2 with Some r => r | None => dflt end end.
  (** [a == b], [a != b].  Both methods return NotImplemented only for objects
      of different classes, which are not identical. *)
  Definition py_eq (a b : val) : res bool := protocol a b (eq_method a b) (eq_method b a) (Ok false).
  Definition py_ne (a b : val) : res bool := protocol a b (ne_method a b) (ne_method b a) (Ok true).

  Inductive cmp : Type := CLt | CLe | CGt | CGe.
  Definition reflected (c : cmp) : cmp := match c with CLt => CGt | CLe => CGe | CGt => CLt | CGe => CLe end.
  Definition num_cmp (c : cmp) (x y : T) : bool :=
    match c with CLt => x <? y | CLe => x <=? y | CGt => x >? y | CGe => x >=? y end.
  Definition nat_cmp (c : cmp) (x y : nat) : bool :=
    match c with CLt => Nat.ltb x y | CLe => Nat.leb x y | CGt => Nat.ltb y x | CGe => Nat.leb y x end.
  (** tuple's orderings: the first elements that differ decide, else the
      lengths *)
  Fixpoint tup_cmp (c : cmp) (l m : list T) : bool :=
    match l, m with
    | x :: l', y :: m' => if x =? y then tup_cmp c l' m' else num_cmp c x y
    | _, _ => nat_cmp c (length l) (length m)
    end.
  Definition vec_cmp (c : cmp) (v w : vec T) : bool :=
    match c with CLt => vec_lt v w | CLe => vec_le v w | CGt => vec_gt v w | CGe => vec_ge v w end.
  (** vector.py:303-337 (an object without [length2] gives
      [assert_unorderable], util.py:19-21, which is NotImplemented);
      transform.py:229-232; tuple; float; the other classes have none. *)
  Definition cmp_method (c : cmp) (a b : val) : option bool :=
    match a with
    | VNum x => match b with VNum y => Some (num_cmp c x y) | _ => None end
    | VTup l => match as_tuple b with Some m => Some (tup_cmp c l m) | None => None end
    | VVec v => match b with VVec w => Some (vec_cmp c v w) | _ => None end
    | _ => None
    end.
  Definition py_cmp (c : cmp) (a b : val) : res bool :=
    match protocol a b (option_map Some (cmp_method c a b)) (option_map Some (cmp_method (reflected c) b a)) None with
    | Some r => Ok r
    | None => Err TypeError
    end.

  (** [hash(x)]: of a number and of a tuple, from the hashes of its elements.
      vector.py:469, transform.py:323 take tuple's; vector.py:537-538 raises;
      Polygon, BoundingBox, Line, Ray and LineSegment define __eq__ without
      __hash__, which makes them unhashable. *)
  Definition py_hash {H} (num_hash : T -> H) (combine : list H -> H) (x : val) : res H :=
    match x with
    | VNum n => Ok (num_hash n)
    | _ => match as_tuple x with Some l => Ok (combine (map num_hash l)) | None => Err TypeError end
    end.
  (** [bool(x)]: vector.py:103-105, 534-535; tuples by their length; the
      other classes define neither __bool__ nor __len__. *)
  Definition py_bool (x : val) : bool :=
    match x with
    | VNum n => negb (nfalsy n)
    | VVec v => (vx v !=? n0) || (vy v !=? n0)
    | VTup l => negb (match l with [] => true | _ => false end)
    | VSeq l | VArr l => negb (match l with [] => true | _ => false end)
    | VPoly p => negb (match pverts p with [] => true | _ => false end)
    | _ => true
    end.
End Compare.
