(** * Histories of calls on polygons *)
From Coq Require Import ZArith List Bool.
From Verif Require Import Num Vec Affine Box Seq Polygon Tangent.
Import ListNotations.

Section PolyOps.
  Context {T : Type} {N : Num T}.
  Notation V := (vec T).
  Notation P := (poly T).

  (** Calls that do not assign vertices (they may fill caches). *)
  Inductive pread : Type :=
  | QConvex | QSimple | QCentroid | QBbox | QContains (E : T) (pt : V) | QTangents (pt : V).
  Inductive pop : Type :=
  | PRead (q : pread) | PSet (i : Z) (v : V) | PImul (m : affine T) | PCopy | PDeepcopy.

  Definition read_state (q : pread) (p : P) : P :=
    match q with
    | QConvex => snd (get_is_convex p)
    | QSimple => snd (get_is_simple p)
    | QCentroid => snd (get_centroid p)
    | QBbox => snd (get_bbox p)
    | QContains E pt => snd (contains_point E pt p)
    | QTangents pt => snd (tangents_to_point pt p)
    end.
  (** [PCopy], [PDeepcopy]: the history goes on with the copy. *)
  Definition op_state (o : pop) (p : P) : P :=
    match o with
    | PRead q => read_state q p
    | PSet i v => snd (poly_setitem i v p)
    | PImul m => poly_imul p m
    | PCopy => poly_copy p
    | PDeepcopy => poly_deepcopy p
    end.
  Definition prun (p : P) (os : list pop) : P := fold_left (fun p o => op_state o p) os p.
  Definition preads (p : P) (qs : list pread) : P := fold_left (fun p q => read_state q p) qs p.

  (** ** Two polygons sharing one heap

      polygon.py:524-543 and vector.py:484-489: [copy] makes a new list object
      for the vertices (list(points)) and copies the other attributes, which
      are never mutated in place after having been stored.  The vertex lists
      live in a heap of list objects; a polygon object holds a reference. *)
  Definition heap : Type := list (list V).
  Record pobj : Type := mkObj { oref : nat; orest : P }.
  (** The polygon as read through its reference. *)
  Definition deref (h : heap) (o : pobj) : P :=
    let p := orest o in
    mkPoly (nth (oref o) h []) (pconvex p) (psimple p) (pypl p) (pdupe p) (pdegen p) (pbbox p)
      (pcentroid p) (pmaxr2 p) (pminr2 p) (ptri p).
  Fixpoint upd {X} (l : list X) (k : nat) (x : X) : list X :=
    match l, k with
    | [], _ => []
    | _ :: l', O => x :: l'
    | y :: l', S k' => y :: upd l' k' x
    end.
  (** The copies allocate a new list. *)
  Definition obj_copy (deep : bool) (h : heap) (o : pobj) : heap * pobj :=
    let p := deref h o in
    (h ++ [pverts p], mkObj (length h) (if deep then poly_deepcopy p else poly_copy p)).
  (** A call on an object: in-place assignment to the list object behind the
      reference, and attribute updates. *)
  Definition obj_call (o : pop) (h : heap) (x : pobj) : heap * pobj :=
    match o with
    | PCopy | PDeepcopy => (h, x)
    | _ => let p' := op_state o (deref h x) in (upd h (oref x) (pverts p'), mkObj (oref x) p')
    end.
  (** Interleaved history on two objects: [true] calls the first. *)
  Definition two_run (h : heap) (x y : pobj) (os : list (bool * pop)) : heap * pobj * pobj :=
    fold_left (fun '(h, x, y) '(b, o) =>
      if b : bool then let '(h', x') := obj_call o h x in (h', x', y)
      else let '(h', y') := obj_call o h y in (h', x, y')) os (h, x, y).
End PolyOps.
Arguments pread : clear implicits.
Arguments pop : clear implicits.
Arguments pobj : clear implicits.
Arguments heap : clear implicits.
