(** * Python list primitives, and the classes Seq2 and Vec2Array
      (planar/vector.py:475-942) *)
From Coq Require Import ZArith List Bool.
From Verif Require Import Num Vec Affine.
Import ListNotations.

(** ** Python list semantics (language semantics, not planar code) *)
Section PyList.
  Context {X : Type}.
  (** [l[i]] index resolution: negative indices count from the end. *)
  Definition py_index (n : nat) (i : Z) : option nat :=
    let j := if (i <? 0)%Z then (i + Z.of_nat n)%Z else i in
    if ((0 <=? j) && (j <? Z.of_nat n))%Z then Some (Z.to_nat j) else None.
  Definition py_get (l : list X) (i : Z) : res X :=
    match py_index (length l) i with
    | Some k => match nth_error l k with Some x => Ok x | None => Err IndexError end
    | None => Err IndexError
    end.
  Definition list_set (l : list X) (k : nat) (x : X) : list X :=
    firstn k l ++ x :: skipn (S k) l.
  Definition py_set (l : list X) (i : Z) (x : X) : res (list X) :=
    match py_index (length l) i with
    | Some k => Ok (list_set l k x)
    | None => Err IndexError
    end.
  Definition py_del (l : list X) (i : Z) : res (list X) :=
    match py_index (length l) i with
    | Some k => Ok (firstn k l ++ skipn (S k) l)
    | None => Err IndexError
    end.
  (** Clamping of a slice bound / insertion index to [0, n]. *)
  Definition py_clamp (n : nat) (i : Z) : nat :=
    let j := if (i <? 0)%Z then (i + Z.of_nat n)%Z else i in
    if (j <? 0)%Z then 0%nat
    else if (Z.of_nat n <? j)%Z then n else Z.to_nat j.
  Definition py_insert (l : list X) (i : Z) (x : X) : list X :=
    let k := py_clamp (length l) i in firstn k l ++ x :: skipn k l.
  (** Slices with step 1; an omitted bound is [None]. *)
  Definition slice_bounds (n : nat) (a b : option Z) : nat * nat :=
    let s := match a with None => 0%nat | Some i => py_clamp n i end in
    let e := match b with None => n | Some i => py_clamp n i end in
    (s, Nat.max s e).
  Definition py_getslice (l : list X) (a b : option Z) : list X :=
    let '(s, e) := slice_bounds (length l) a b in firstn (e - s) (skipn s l).
  Definition py_setslice (l : list X) (a b : option Z) (new : list X) : list X :=
    let '(s, e) := slice_bounds (length l) a b in firstn s l ++ new ++ skipn e l.
End PyList.

Local Open Scope num_scope.

Section Seq.
  Context {T : Type} {N : Num T}.
  Notation V := (vec T).
  Notation A := (affine T).

  (** The model of a Seq2 or Vec2Array object is its list [_vectors]
      (vector.py:475-489). *)

  (** vector.py:481-482 [Seq2.__init__], 544-545 [Vec2Array.__init__] *)
  Definition seq_new (vs : list V) : list V := map vec2_of vs.
  (** vector.py:484-489 [from_points]: [list(points)], no conversion *)
  Definition seq_from_points (vs : list V) : list V := vs.

  (** vector.py:511-519 [almost_equals] for objects of the same class *)
  Definition seq_almost_equals (E : T) (l o : list V) : bool :=
    if Nat.eqb (length l) (length o)
    then forallb (fun ab => vec_almost_equals E (fst ab) (snd ab)) (combine l o)
    else false.
  (** vector.py:521-527 [__eq__]/[__ne__] for objects of the same class: tuple
      comparison *)
  Fixpoint seq_eqb (l o : list V) : bool :=
    match l, o with
    | [], [] => true
    | a :: l', b :: o' => vec_eqb a b && seq_eqb l' o'
    | _, _ => false
    end.

  (** vector.py:587-596 [longest]: [None] is Python's None *)
  Definition longest_step (st : option V * T) (v : V) : option V * T :=
    let len := length2 v in
    if len >? snd st then (Some v, len) else st.
  Definition arr_longest (l : list V) : option V :=
    fst (fold_left longest_step l (None, n0)).

  (** vector.py:598-609 [shortest] *)
  Definition shortest_step (st : V * T) (v : V) : V * T :=
    let len := length2 v in
    if len <? snd st then (v, len) else st.
  Definition arr_shortest (l : list V) : option V :=
    match l with
    | [] => None
    | v :: _ => Some (fst (fold_left shortest_step l (v, length2 v)))
    end.

  (** vector.py:611-622 [normalized], [normalize] *)
  Definition arr_normalized (E : T) (l : list V) : res (list V) := mapM (normalized E) l.

  (** vector.py:624-656 [clamped], [clamp] *)
  Definition arr_clamped (E : T) (l : list V) (mn mx : option T) : res (list V) :=
    let neg := match mn with Some a => a <? n0 | None => false end in
    if neg then Err ValueError
    else mapM (fun v => clamped E v mn mx) l.

  (** The operand of an array arithmetic operation: another sequence, a single
      vector (or pair), or a scalar.  The distinction Seq2/Vec2Array in the
      isinstance tests only matters for the class of the result, which is not
      modelled. *)
  Inductive arr_operand : Type :=
  | OSeq (l : list V)
  | OVec (v : V)
  | OScalar (s : T).

  (** The common shape of vector.py:658-938: zip with equal lengths, else
      ValueError; a single operand is combined with every element. *)
  Definition zip_with (f : V -> V -> res V) (l o : list V) : res (list V) :=
    if Nat.eqb (length l) (length o)
    then mapM (fun ab => f (fst ab) (snd ab)) (combine l o)
    else Err ValueError.

  (** vector.py:658-678 [__add__], 680 [__radd__]: a scalar operand is not
      accepted ([Vec2( *other)] fails, NotImplemented -> TypeError). *)
  Definition arr_add (l : list V) (o : arr_operand) : res (list V) :=
    match o with
    | OSeq m => zip_with (fun a b => Ok (vadd a b)) l m
    | OVec v => let b := vec2_of v in Ok (map (fun a => vadd a b) l)
    | OScalar _ => Err TypeError
    end.
  (** vector.py:682-699 [__iadd__] *)
  Definition arr_iadd (l : list V) (o : arr_operand) : res (list V) :=
    match o with
    | OSeq m => zip_with (fun a b => Ok (vadd a b)) l m
    | OVec v => let b := vec2_of v in Ok (map (fun a => vadd a b) l)
    | OScalar _ => Err TypeError
    end.
  (** vector.py:701-719 [__sub__] *)
  Definition arr_sub (l : list V) (o : arr_operand) : res (list V) :=
    match o with
    | OSeq m => zip_with (fun a b => Ok (vsub a b)) l m
    | OVec v => let b := vec2_of v in Ok (map (fun a => vsub a b) l)
    | OScalar _ => Err TypeError
    end.
  (** vector.py:721-734 [__rsub__]: [other - self], other a sequence *)
  Definition arr_rsub (l : list V) (o : arr_operand) : res (list V) :=
    match o with
    | OSeq m => zip_with (fun a b => Ok (vsub b a)) l m
    | _ => Err TypeError
    end.
  (** vector.py:736-753 [__isub__] *)
  Definition arr_isub (l : list V) (o : arr_operand) : res (list V) :=
    match o with
    | OSeq m => zip_with (fun a b => Ok (vsub a b)) l m
    | OVec v => let b := vec2_of v in Ok (map (fun a => vsub a b) l)
    | OScalar _ => Err TypeError
    end.
  (** vector.py:755-782 [__mul__], 784 [__rmul__]; [float(other)] is the
      identity on floats *)
  Definition arr_mul (l : list V) (o : arr_operand) : res (list V) :=
    match o with
    | OSeq m => zip_with (fun a b => Ok (vmul a b)) l m
    | OVec v => let b := vec2_of v in Ok (map (fun a => vmul a b) l)
    | OScalar s => Ok (map (fun a => vscale a s) l)
    end.
  (** vector.py:786-808 [__imul__], operand not a transform *)
  Definition arr_imul (l : list V) (o : arr_operand) : res (list V) :=
    match o with
    | OSeq m => zip_with (fun a b => Ok (vmul a b)) l m
    | OVec v => let b := vec2_of v in Ok (map (fun a => vmul a b) l)
    | OScalar s => Ok (map (fun a => vscale a s) l)
    end.
  (** vector.py:810-832 [__truediv__] *)
  Definition arr_div (l : list V) (o : arr_operand) : res (list V) :=
    match o with
    | OSeq m => zip_with vdiv l m
    | OVec v => let b := vec2_of v in mapM (fun a => vdiv a b) l
    | OScalar s => mapM (fun a => vdivs a s) l
    end.
  (** vector.py:834-846 [__rtruediv__] *)
  Definition arr_rdiv (l : list V) (o : arr_operand) : res (list V) :=
    match o with
    | OSeq m => zip_with (fun a b => vdiv b a) l m
    | _ => Err TypeError
    end.
  (** vector.py:848-868 [__itruediv__] *)
  Definition arr_idiv (l : list V) (o : arr_operand) : res (list V) :=
    match o with
    | OSeq m => zip_with vdiv l m
    | OVec v => let b := vec2_of v in mapM (fun a => vdiv a b) l
    | OScalar s => mapM (fun a => vdivs a s) l
    end.
  (** vector.py:870-892 [__floordiv__] *)
  Definition arr_fdiv (l : list V) (o : arr_operand) : res (list V) :=
    match o with
    | OSeq m => zip_with vfdiv l m
    | OVec v => let b := vec2_of v in mapM (fun a => vfdiv a b) l
    | OScalar s => mapM (fun a => vfdivs a s) l
    end.
  (** vector.py:894-907 [__rfloordiv__] *)
  Definition arr_rfdiv (l : list V) (o : arr_operand) : res (list V) :=
    match o with
    | OSeq m => zip_with (fun a b => vfdiv b a) l m
    | _ => Err TypeError
    end.
  (** vector.py:909-929 [__ifloordiv__] *)
  Definition arr_ifdiv (l : list V) (o : arr_operand) : res (list V) :=
    match o with
    | OSeq m => zip_with vfdiv l m
    | OVec v => let b := vec2_of v in mapM (fun a => vfdiv a b) l
    | OScalar s => mapM (fun a => vfdivs a s) l
    end.
  (** vector.py:931-936 [__pos__], [__neg__] *)
  Definition arr_neg (l : list V) : list V := map vneg l.

  (** *** In-place operations as a state machine on [_vectors] *)
  Inductive arr_op : Type :=
  | OpAppend (v : V)                       (* vector.py:559-565 *)
  | OpExtend (vs : list V)                 (* vector.py:567-572, source <> self *)
  | OpInsert (i : Z) (v : V)               (* vector.py:574-582 *)
  | OpSet (i : Z) (v : V)                  (* vector.py:553-557 *)
  | OpSetSlice (a b : option Z) (vs : list V)
  | OpDel (i : Z)                          (* vector.py:584-585 *)
  | OpDelSlice (a b : option Z)
  | OpNormalize (E : T)                    (* vector.py:620-622 *)
  | OpClamp (E : T) (mn mx : option T)     (* vector.py:642-656 *)
  | OpIAdd (o : arr_operand)
  | OpISub (o : arr_operand)
  | OpIMul (o : arr_operand)
  | OpIMulAffine (m : A)                   (* vector.py:789-791 *)
  | OpIDiv (o : arr_operand)
  | OpIFloorDiv (o : arr_operand).

  (** One operation: the new list, or the exception raised. *)
  Definition arr_exec (l : list V) (op : arr_op) : res (list V) :=
    match op with
    | OpAppend v => Ok (l ++ [vec2_of v])
    | OpExtend vs => Ok (l ++ map vec2_of vs)
    | OpInsert i v => Ok (py_insert l i (vec2_of v))
    | OpSet i v => py_set l i (vec2_of v)
    | OpSetSlice a b vs => Ok (py_setslice l a b (map vec2_of vs))
    | OpDel i => py_del l i
    | OpDelSlice a b => Ok (py_setslice l a b [])
    | OpNormalize E => arr_normalized E l
    | OpClamp E mn mx => arr_clamped E l mn mx
    | OpIAdd o => arr_iadd l o
    | OpISub o => arr_isub l o
    | OpIMul o => arr_imul l o
    | OpIMulAffine m => Ok (itransform m l)
    | OpIDiv o => arr_idiv l o
    | OpIFloorDiv o => arr_ifdiv l o
    end.
  (** State after an operation; every raising operation above builds its result
      before assigning [_vectors], so the array keeps its old contents. *)
  Definition arr_step (l : list V) (op : arr_op) : list V :=
    match arr_exec l op with Ok l' => l' | Err _ => l end.
  Definition arr_run (l : list V) (ops : list arr_op) : list V :=
    fold_left arr_step ops l.
End Seq.
Arguments arr_operand : clear implicits.
Arguments arr_op : clear implicits.
