(** * Binary operators between planar objects: Python's operator protocol

    [a op b] calls the method of [a]; if it returns NotImplemented, the
    reflected method of [b]; if that returns NotImplemented too, TypeError.
    (Reflected methods of a subclass go first; the only such pairs here are
    plain tuple/Vec2 or Affine and Seq2/Vec2Array or Polygon, and the left
    class then has no forward method, so the order does not matter.) *)
From Coq Require Import ZArith List Bool.
From Verif Require Import Num Vec Affine Box Line Seq Polygon BoxPoly.
Import ListNotations.
Local Open Scope num_scope.

Section Dispatch.
  Context {T : Type} {N : Num T}.
  Notation V := (vec T).
  Variable E : T.   (* planar.EPSILON *)

  (** The objects an operator may meet.  [VBad a b] is a Vec2 whose two
      components are themselves Vec2 objects and [VBadSeq] a Vec2Array of such:
      Python lets both arise.  What the operators do with them as operands is
      not modelled (see [well_formed]). *)
  Inductive val : Type :=
  | VNum (x : T)                       (* float *)
  | VTup (l : list T)                  (* plain tuple of floats *)
  | VVec (v : V)                       (* Vec2 *)
  | VSeq (l : list V)                  (* Seq2 *)
  | VArr (l : list V)                  (* Vec2Array *)
  | VPoly (p : poly T)                 (* Polygon *)
  | VAff (m : affine T)
  | VBox (b : bbox T)
  | VLine (l : line T)
  | VRay (r : ray T)
  | VSeg (s : segment T)
  | VBad (a b : V)
  | VBadSeq (l : list (V * V)).

  Definition well_formed (x : val) : Prop :=
    match x with VBad _ _ | VBadSeq _ => False | _ => True end.

  (** [None] is NotImplemented. *)
  Definition reply : Type := option (res val).

  (** [ox, oy = other]: two numbers, two vectors, or an exception. *)
  Inductive unpacked : Type := UNums (v : V) | UVecs (a b : V) | UFail.
  Definition unpack2 (o : val) : unpacked :=
    match o with
    | VVec v => UNums v
    | VTup [x; y] => UNums (mkV x y)
    | VSeq [a; b] | VArr [a; b] => UVecs a b
    | VPoly p => match pverts p with [a; b] => UVecs a b | _ => UFail end
    | VBad a b => UVecs a b
    | _ => UFail
    end.
  (** vector.py:48-49 [Vec2( *other)]: the components times 1.0 *)
  Definition vec2_star (o : val) : unpacked :=
    match unpack2 o with
    | UNums v => UNums (vec2_of v)
    | UVecs a b => UVecs (vscale a n1) (vscale b n1)
    | UFail => UFail
    end.

  Inductive op : Type := OAdd | OSub | OMul | ODiv | OFloorDiv.

  (** number op vector, reached for a component: [float * Vec2] is
      Vec2.__rmul__, [float / Vec2] Vec2.__rtruediv__, [float // Vec2]
      Vec2.__rfloordiv__; there is no Vec2.__radd__ or __rsub__. *)
  Definition num_vec (o : op) (x : T) (v : V) : res V :=
    match o with
    | OAdd | OSub => Err TypeError
    | OMul => Ok (vscale v x)
    | ODiv => vrdivs x v
    | OFloorDiv => vrfdivs x v
    end.
  (** vector op number *)
  Definition vec_num (o : op) (v : V) (x : T) : res V :=
    match o with
    | OAdd | OSub => Err TypeError
    | OMul => Ok (vscale v x)
    | ODiv => vdivs v x
    | OFloorDiv => vfdivs v x
    end.
  (** vector op vector *)
  Definition vec_vec (o : op) (v w : V) : res V :=
    match o with
    | OAdd => Ok (vadd v w)
    | OSub => Ok (vsub v w)
    | OMul => Ok (vmul v w)
    | ODiv => vdiv v w
    | OFloorDiv => vfdiv v w
    end.
  (** vector op malformed vector: component by component *)
  Definition vec_bad (o : op) (v a b : V) : res (V * V) :=
    let* x := num_vec o (vx v) a in let* y := num_vec o (vy v) b in Ok (x, y).

  (** vector.py:339-455 Vec2.__add__, __sub__, __mul__, __truediv__,
      __floordiv__.  + and - do not try [float(other)]. *)
  Definition vec_fwd (o : op) (v : V) (other : val) : reply :=
    let by_unpacking :=
      match unpack2 other with
      | UNums w => Some (rmap VVec (vec_vec o v w))
      | UVecs a b => Some (rmap (fun p => VBad (fst p) (snd p)) (vec_bad o v a b))
      | UFail => None
      end in
    match o, other with
    | OAdd, _ | OSub, _ => by_unpacking
    | _, VNum s => Some (rmap VVec (vec_num o v s))
    | _, _ => by_unpacking
    end.
  (** vector.py:384-455 __rmul__, __rtruediv__, __rfloordiv__: [other op self] *)
  Definition vec_rev (o : op) (v : V) (other : val) : reply :=
    match o with
    | OAdd | OSub => None
    | OMul => vec_fwd OMul v other
    | _ =>
        match other with
        | VNum s => Some (rmap VVec (num_vec o s v))
        | _ =>
            match unpack2 other with
            | UNums w => Some (rmap VVec (vec_vec o w v))
            | UVecs a b =>
                Some (let* x := vec_num o a (vx v) in let* y := vec_num o b (vy v) in Ok (VBad x y))
            | UFail => None
            end
        end
    end.

  (** Seq2 and its subclasses: the vectors and [from_points]. *)
  Definition as_seq (x : val) : option (list V * (list V -> val)) :=
    match x with
    | VSeq l => Some (l, VSeq)
    | VArr l => Some (l, VArr)
    | VPoly p => Some (pverts p, fun l => VPoly (poly_from_points l))
    | _ => None
    end.
  (** isinstance(other, Seq2) for + and *, isinstance(other, Vec2Array) for
      -, / and // *)
  Definition as_operand (o : op) (x : val) : option (list V * (list V -> val)) :=
    match o with
    | OAdd | OMul => as_seq x
    | _ => match x with VArr l => Some (l, VArr) | _ => None end
    end.
  Definition each_bad (o : op) (l : list V) (a b : V) : res val :=
    match l with
    | [] => Ok (VArr [])
    | _ => rmap VBadSeq (mapM (fun v => vec_bad o v a b) l)
    end.
  (** vector.py:658-892 Vec2Array.__add__, __sub__, __mul__, __truediv__,
      __floordiv__ *)
  Definition arr_fwd (o : op) (l : list V) (other : val) : reply :=
    match as_operand o other with
    | Some (m, build) => Some (rmap build (zip_with (vec_vec o) l m))
    | None =>
        let by_star :=
          match vec2_star other with
          | UNums b => Some (rmap VArr (mapM (fun a => vec_vec o a b) l))
          | UVecs a b => Some (each_bad o l a b)
          | UFail => None
          end in
        match o, other with
        | OAdd, _ | OSub, _ => by_star
        | _, VNum s => Some (rmap VArr (mapM (fun a => vec_num o a s) l))
        | _, _ => by_star
        end
    end.
  (** vector.py:680 __radd__ = __add__, 784 __rmul__ = __mul__, 721-734
      __rsub__, 834-846 __rtruediv__, 894-907 __rfloordiv__: [other op self] *)
  Definition arr_rev (o : op) (l : list V) (other : val) : reply :=
    match o with
    | OAdd => arr_fwd OAdd l other
    | OMul => arr_fwd OMul l other
    | _ =>
        match as_seq other with
        | Some (m, build) => Some (rmap build (zip_with (fun a b => vec_vec o b a) l m))
        | None => None
        end
    end.

  (** transform.py:238-241 __add__ raises; 243-275 __mul__.  For a box the
      generator over the non-iterable box raises TypeError, caught at 270. *)
  Definition aff_fwd (o : op) (m : affine T) (other : val) : reply :=
    match o with
    | OAdd => Some (Err TypeError)
    | OMul =>
        match other with
        | VAff n => Some (Ok (VAff (amul m n)))
        | VSeq l => Some (Ok (VSeq (map (aapply m) l)))
        | VArr l => Some (Ok (VArr (map (aapply m) l)))
        | VPoly p => Some (Ok (VPoly (poly_mul p m)))
        | VLine l => Some (rmap VLine (line_mul E l m))
        | VRay r => Some (rmap VRay (ray_mul E r m))
        | VSeg s => Some (rmap VSeg (seg_mul E s m))
        | VVec v => Some (Ok (VVec (aapply m v)))
        | VTup [x; y] => Some (Ok (VVec (aapply m (mkV x y))))
        | _ => None
        end
    | _ => None
    end.
  (** transform.py:277-282 __rmul__; never called with an Affine *)
  Definition aff_rev (o : op) (m : affine T) (other : val) : reply :=
    match o with OMul => aff_fwd OMul m other | _ => None end.

  (** box.py:248-262 __mul__ = __rmul__ *)
  Definition box_reply (o : op) (b : bbox T) (other : val) : reply :=
    match o, other with
    | OMul, VAff m =>
        Some (rmap (fun r => match r with IsBox c => VBox c | IsPoly p => VPoly p end) (box_mul E b m))
    | _, _ => None
    end.

  (** Arithmetic of floats. *)
  Definition num_fwd (o : op) (x : T) (other : val) : reply :=
    match other with
    | VNum y =>
        Some (match o with
              | OAdd => Ok (VNum (x + y)) | OSub => Ok (VNum (x - y)) | OMul => Ok (VNum (x * y))
              | ODiv => rmap VNum (pydiv x y) | OFloorDiv => rmap VNum (pyfloordiv x y)
              end)
    | _ => None
    end.

  Definition fwd (o : op) (a b : val) : reply :=
    match a with
    | VNum x => num_fwd o x b
    | VVec v => vec_fwd o v b
    | VArr l => arr_fwd o l b
    | VAff m => aff_fwd o m b
    | VBox c => box_reply o c b
    | _ => None       (* tuple, Seq2, Polygon, Line, Ray, LineSegment *)
    end.
  Definition rev (o : op) (b a : val) : reply :=
    match b with
    | VVec v => vec_rev o v a
    | VArr l => arr_rev o l a
    | VAff m => aff_rev o m a
    | VBox c => box_reply o c a
    | _ => None
    end.
  (** Same class: the reflected method is not tried. *)
  Definition same_class (a b : val) : bool :=
    match a, b with
    | VNum _, VNum _ | VTup _, VTup _ | VVec _, VVec _ | VSeq _, VSeq _ | VArr _, VArr _
    | VPoly _, VPoly _ | VAff _, VAff _ | VBox _, VBox _ | VLine _, VLine _ | VRay _, VRay _
    | VSeg _, VSeg _ => true
    | _, _ => false
    end.
  (** The components of an object of class tuple or a subclass, for the
      concatenation of plain tuples. *)
  Definition as_tuple (x : val) : option (list T) :=
    match x with
    | VTup l => Some l
    | VVec v => Some [vx v; vy v]
    | VAff m => Some [aa m; ab m; ac m; ad m; ae m; af m; n0; n0; n1]
    | _ => None
    end.
  Definition binop (o : op) (a b : val) : res val :=
    match fwd o a b with
    | Some r => r
    | None =>
        match (if same_class a b then None else rev o b a) with
        | Some r => r
        | None =>
            match o, a, as_tuple b with
            | OAdd, VTup l, Some l' => Ok (VTup (l ++ l'))
            | _, _, _ => Err TypeError
            end
        end
    end.

  (** [x *= m] for a transform: the object now bound to x and, where the object
      of x was changed in place, its new state is the same.  Vec2Array
      (vector.py:786-791) and Polygon (polygon.py:515-522) transform in place,
      lines, rays and segments too (line.py:202-210, 356-364, 599-607), Seq2
      (vector.py:503-509); the rest is [x * m]; an Affine or Vec2 operand of
      Affine.__imul__ (transform.py:284-288) is [self * other]. *)
  Definition imul_affine (x : val) (m : affine T) : res val :=
    match x with
    | VSeq l => Ok (VSeq (itransform m l))
    | VArr l => Ok (VArr (itransform m l))
    | VPoly p => Ok (VPoly (poly_imul p m))
    | VLine l => rmap VLine (line_imul E l m)
    | VRay r => rmap VRay (ray_imul E r m)
    | VSeg s => rmap VSeg (seg_imul E s m)
    | _ => binop OMul x (VAff m)
    end.
End Dispatch.
Arguments val : clear implicits.
