(** * Sequences as objects in a store (planar/vector.py:475-942)

    [Seq.v] models a Seq2 or Vec2Array by the value of its list.  Here the
    objects and the Python lists they refer to through [_vectors] live in a
    store, so that sharing, aliasing of operands, and live iteration are
    visible.  Polygons are in [Polygon.v]/[PolyOps.v]. *)
From Coq Require Import ZArith List Bool Lia.
From Verif Require Import Num Vec Affine Seq.
Import ListNotations.
Local Open Scope num_scope.

Section Heap.
  Context {T : Type} {N : Num T}.
  Notation V := (vec T).
  Notation A := (affine T).

  Inductive cls : Type := CSeq2 | CArray.
  (** Objects hold a reference to a list; [lists] are the list objects. *)
  Record heap : Type := mkHeap { objs : list (cls * nat); lists : list (list V) }.

  Definition lref (h : heap) (o : nat) : option nat := option_map snd (nth_error (objs h) o).
  Definition class_of (h : heap) (o : nat) : option cls := option_map fst (nth_error (objs h) o).
  (** What a program sees of an object: [list(o)]. *)
  Definition contents (h : heap) (o : nat) : option (list V) :=
    match lref h o with Some p => nth_error (lists h) p | None => None end.

  (** Allocate an object holding a new list. *)
  Definition new_obj (h : heap) (c : cls) (l : list V) : heap :=
    mkHeap (objs h ++ [(c, length (lists h))]) (lists h ++ [l]).
  (** Mutate the list at reference [p]. *)
  Definition write (h : heap) (p : nat) (l : list V) : heap :=
    mkHeap (objs h) (list_set (lists h) p l).
  (** [self._vectors = l] with a new list [l] *)
  Definition rebind (h : heap) (o : nat) (l : list V) : heap :=
    match nth_error (objs h) o with
    | Some (c, _) => mkHeap (list_set (objs h) o (c, length (lists h))) (lists h ++ [l])
    | None => h
    end.

  (** A source of vectors: another object, or a finite iterator, each item of
      which is a pair of numbers or makes [Vec2( *item)] raise. *)
  Inductive src : Type := SObj (o : nat) | SIter (l : list (res V)).
  (** An arithmetic operand. *)
  Inductive operand : Type := AObj (o : nat) | AVec (v : V) | AScalar (s : T).
  Inductive inplace : Type := IAdd | ISub | IMul | IDiv | IFloorDiv.

  Inductive stmt : Type :=
  | SNew (c : cls) (s : src)                  (* Seq2(it), Vec2Array(it) *)
  | SFromPoints (c : cls) (o : nat)           (* cls.from_points(o) *)
  | SCopy (o : nat)
  | SSlice (o : nat) (a b : option Z)
  | SSet (o : nat) (i : Z) (v : V)
  | SSetSlice (o : nat) (a b : option Z) (s : src)
  | SAppend (o : nat) (v : V)
  | SExtend (o : nat) (s : src)
  | SInsert (o : nat) (i : Z) (v : V)
  | SDel (o : nat) (i : Z)
  | SDelSlice (o : nat) (a b : option Z)
  | SNormalize (o : nat) (E : T)
  | SClamp (o : nat) (E : T) (mn mx : option T)
  | SNormalized (o : nat) (E : T)
  | SClamped (o : nat) (E : T) (mn mx : option T)
  | SInplace (k : inplace) (o : nat) (x : operand)
  | SBinary (k : inplace) (o : nat) (x : operand)
  | SNeg (o : nat)
  | SIMulAffine (o : nat) (m : A)
  | SMulAffine (o : nat) (m : A).

  (** The object a statement mutates, if any. *)
  Definition target (s : stmt) : option nat :=
    match s with
    | SSet o _ _ | SSetSlice o _ _ _ | SAppend o _ | SExtend o _ | SInsert o _ _ | SDel o _ | SDelSlice o _ _
    | SNormalize o _ | SClamp o _ _ _ | SInplace _ o _ | SIMulAffine o _ => Some o
    | _ => None
    end.

  (** Items of a source read at once ([Vec2( *v) for v in it] in a list display) *)
  Definition convert (x : res V) : res V := rmap vec2_of x.
  Definition read_src (h : heap) (s : src) : res (list V) :=
    match s with
    | SObj o => match contents h o with Some l => Ok (map vec2_of l) | None => Err UnboundLocalError end
    | SIter l => mapM convert l
    end.
  (** Next item of an iterator at position [k]; list iterators read the live
      list.  [None]: exhausted. *)
  Definition next_item (h : heap) (s : src) (k : nat) : option (res V) :=
    match s with
    | SObj o => match contents h o with
                | Some l => option_map Ok (nth_error l k)
                | None => None
                end
    | SIter l => nth_error l k
    end.
  (** [self._vectors.extend(Vec2( *v) for v in it)], vector.py:572: list.extend
      with a generator appends every item as it is produced. *)
  Fixpoint extend_loop (fuel : nat) (h : heap) (p : nat) (s : src) (k : nat) : res unit * heap :=
    match fuel with
    | O => (Err OutOfFuel, h)
    | S f =>
        match next_item h s k with
        | None => (Ok tt, h)
        | Some x =>
            match convert x with
            | Err e => (Err e, h)
            | Ok v =>
                match nth_error (lists h) p with
                | Some l => extend_loop f (write h p (l ++ [v])) p s (S k)
                | None => (Err UnboundLocalError, h)
                end
            end
        end
    end.
  (** transform.py:290-301 [itransform]: reads and assigns item by item *)
  Fixpoint itransform_loop (n : nat) (h : heap) (p : nat) (m : A) (k : nat) : heap :=
    match n with
    | O => h
    | S n' =>
        match nth_error (lists h) p with
        | Some l =>
            match nth_error l k with
            | Some v => itransform_loop n' (write h p (list_set l k (vec2_of (aapply m v)))) p m (S k)
            | None => h
            end
        | None => h
        end
    end.
  (** The operand and, for a sequence, its class. *)
  Definition operand_val (h : heap) (x : operand) : option (cls * arr_operand T) :=
    match x with
    | AObj o => match class_of h o, contents h o with
                | Some c, Some l => Some (c, OSeq l)
                | _, _ => None
                end
    | AVec v => Some (CArray, OVec v)
    | AScalar s => Some (CArray, OScalar s)
    end.
  (** isinstance(other, Seq2) or isinstance(other, Vec2Array): a plain Seq2 is
      an operand of +, * and += only; elsewhere [Vec2( *other)] fails (the case
      of two elements is in [Dispatch.v]). *)
  Definition accepts (inpl : bool) (k : inplace) (c : cls) : bool :=
    match c with
    | CArray => true
    | CSeq2 => match k with IAdd => true | IMul => negb inpl | _ => false end
    end.
  (** vector.py:658-929, operand sequences being Vec2Arrays *)
  Definition inplace_val (k : inplace) (l : list V) (x : arr_operand T) : res (list V) :=
    match k with
    | IAdd => arr_iadd l x | ISub => arr_isub l x | IMul => arr_imul l x
    | IDiv => arr_idiv l x | IFloorDiv => arr_ifdiv l x
    end.
  Definition binary_val (k : inplace) (l : list V) (x : arr_operand T) : res (list V) :=
    match k with
    | IAdd => arr_add l x | ISub => arr_sub l x | IMul => arr_mul l x
    | IDiv => arr_div l x | IFloorDiv => arr_fdiv l x
    end.
  (** vector.py:681, 721-734, 784, 834-846, 894-907: [seq op arr] *)
  Definition reflected_val (k : inplace) (l : list V) (x : arr_operand T) : res (list V) :=
    match k with
    | IAdd => arr_add l x | ISub => arr_rsub l x | IMul => arr_mul l x
    | IDiv => arr_rdiv l x | IFloorDiv => arr_rfdiv l x
    end.
  Definition result (h : heap) (c : cls) (r : res (list V)) : res unit * heap :=
    match r with Ok l => (Ok tt, new_obj h c l) | Err e => (Err e, h) end.
  Definition mutate (h : heap) (p : nat) (r : res (list V)) : res unit * heap :=
    match r with Ok l => (Ok tt, write h p l) | Err e => (Err e, h) end.
  Definition assign (h : heap) (o : nat) (r : res (list V)) : res unit * heap :=
    match r with Ok l => (Ok tt, rebind h o l) | Err e => (Err e, h) end.

  Definition with_obj (h : heap) (o : nat) (k : cls -> nat -> list V -> res unit * heap) : res unit * heap :=
    match nth_error (objs h) o with
    | Some (c, p) =>
        match nth_error (lists h) p with
        | Some l => k c p l
        | None => (Err UnboundLocalError, h)
        end
    | None => (Err UnboundLocalError, h)
    end.
  (** [seq op other] with a plain Seq2 on the left *)
  Definition binary_seq (h : heap) (k : inplace) (l : list V) (x : operand) : res unit * heap :=
    match operand_val h x, x with
    | Some (CArray, OSeq m), AObj _ => result h CSeq2 (reflected_val k m (OSeq l))
    | _, _ => (Err TypeError, h)
    end.
  (** The methods only Vec2Array has *)
  Definition array_only (h : heap) (c : cls) (e : exn) (r : res unit * heap) : res unit * heap :=
    match c with CArray => r | CSeq2 => (Err e, h) end.

  Definition exec (fuel : nat) (h : heap) (s : stmt) : res unit * heap :=
    match s with
    (* vector.py:481-482, 544-545 *)
    | SNew c s => result h c (read_src h s)
    (* vector.py:484-489: list(points) *)
    | SFromPoints c o => with_obj h o (fun _ _ l => result h c (Ok l))
    (* vector.py:529-532 __copy__, __deepcopy__ *)
    | SCopy o => with_obj h o (fun c _ l => result h c (Ok l))
    (* vector.py:547-549; a slice of a Seq2 is a plain list, not a Seq2 *)
    | SSlice o a b => with_obj h o (fun c _ l => array_only h c TypeError (result h c (Ok (py_getslice l a b))))
    (* vector.py:497-498, 553-557 *)
    | SSet o i v => with_obj h o (fun _ p l => mutate h p (py_set l i (vec2_of v)))
    (* vector.py:554-555; on a Seq2 Vec2( *value) of a slice value is not modelled *)
    | SSetSlice o a b s => with_obj h o (fun c p l =>
        array_only h c TypeError (mutate h p (rmap (py_setslice l a b) (read_src h s))))
    (* vector.py:559-565 *)
    | SAppend o v => with_obj h o (fun c p l => array_only h c AttributeError (mutate h p (Ok (l ++ [vec2_of v]))))
    (* vector.py:567-572 *)
    | SExtend o s => with_obj h o (fun c p l => array_only h c AttributeError (extend_loop fuel h p s 0))
    (* vector.py:574-582 *)
    | SInsert o i v => with_obj h o (fun c p l => array_only h c AttributeError (mutate h p (Ok (py_insert l i (vec2_of v)))))
    (* vector.py:584-585 *)
    | SDel o i => with_obj h o (fun c p l => array_only h c TypeError (mutate h p (py_del l i)))
    | SDelSlice o a b => with_obj h o (fun c p l => array_only h c TypeError (mutate h p (Ok (py_setslice l a b []))))
    (* vector.py:620-622, 642-656: a new list is assigned *)
    | SNormalize o E => with_obj h o (fun c _ l => array_only h c AttributeError (assign h o (arr_normalized E l)))
    | SClamp o E mn mx => with_obj h o (fun c _ l => array_only h c AttributeError (assign h o (arr_clamped E l mn mx)))
    (* vector.py:611-618, 624-640 *)
    | SNormalized o E => with_obj h o (fun c _ l => array_only h c AttributeError (result h c (arr_normalized E l)))
    | SClamped o E mn mx => with_obj h o (fun c _ l => array_only h c AttributeError (result h c (arr_clamped E l mn mx)))
    (* vector.py:682-929; Seq2 has no in place arithmetic, [seq op= arr] is
       [seq = seq op arr] *)
    | SInplace k o x => with_obj h o (fun c _ l =>
        match operand_val h x with
        | Some (c', y) =>
            match c with
            | CArray => if accepts true k c' then assign h o (inplace_val k l y) else (Err TypeError, h)
            | CSeq2 => binary_seq h k l x
            end
        | None => (Err UnboundLocalError, h)
        end)
    (* vector.py:658-892: the result of + and * has the class of the operand *)
    | SBinary k o x => with_obj h o (fun c _ l =>
        match operand_val h x with
        | Some (c', y) =>
            match c with
            | CArray =>
                if accepts false k c'
                then result h (match k with IAdd | IMul => c' | _ => CArray end) (binary_val k l y)
                else (Err TypeError, h)
            | CSeq2 => binary_seq h k l x
            end
        | None => (Err UnboundLocalError, h)
        end)
    (* vector.py:934-936 *)
    | SNeg o => with_obj h o (fun c _ l => array_only h c TypeError (result h c (Ok (arr_neg l))))
    (* vector.py:503-509, 785-791; transform.py:290-301 *)
    | SIMulAffine o m => with_obj h o (fun _ p l =>
        (Ok tt, if affine_eqb m aidentity then h else itransform_loop (length l) h p m 0))
    (* transform.py:262-271 *)
    | SMulAffine o m => with_obj h o (fun c _ l => result h c (Ok (map (aapply m) l)))
    end.

  (** A program: statements one after another, exceptions caught and ignored. *)
  Fixpoint run (fuel : nat) (h : heap) (ss : list stmt) : heap :=
    match ss with
    | [] => h
    | s :: ss' => run fuel (snd (exec fuel h s)) ss'
    end.
  Definition empty_heap : heap := mkHeap [] [].
End Heap.
Arguments heap : clear implicits.
Arguments src : clear implicits.
Arguments operand : clear implicits.
Arguments stmt : clear implicits.
