(** * Reference semantics of Python lists, by decomposition of the list.
      Independent of the index functions of the model. *)
From Coq Require Import ZArith List.
From Verif Require Import Num Vec Seq.
Import ListNotations.

(** Position meant by an insertion index or slice bound i in a list of length n. *)
Definition cut_at (n : nat) (i : Z) (k : nat) : Prop :=
  ((0 <= i)%Z /\ Z.of_nat k = Z.min i (Z.of_nat n)) \/
  ((i < 0)%Z /\ Z.of_nat k = Z.max 0 (i + Z.of_nat n)).
Definition cut_opt (n : nat) (dflt : nat) (i : option Z) (k : nat) : Prop :=
  match i with None => k = dflt | Some i => cut_at n i k end.

(** [l[i]] addresses the element x between pre and post. *)
Definition addresses {X} (l : list X) (i : Z) (pre : list X) (x : X) (post : list X) : Prop :=
  l = pre ++ x :: post /\
  (i = Z.of_nat (length pre) \/ i = - Z.of_nat (S (length post)))%Z.
Definition bad_index {X} (l : list X) (i : Z) : Prop :=
  (i < - Z.of_nat (length l) \/ Z.of_nat (length l) <= i)%Z.
(** [l[a:b]] is mid; an end before the start means an empty slice at the start. *)
Definition sliced {X} (l : list X) (a b : option Z) (pre mid post : list X) : Prop :=
  l = pre ++ mid ++ post /\
  cut_opt (length l) 0 a (length pre) /\
  exists e, cut_opt (length l) (length l) b e /\
    length mid = (Nat.max (length pre) e - length pre)%nat.

(** Element k of r is a value related by P to the elements k of l and m. *)
Definition elementwise {X Y Z} (P : X -> Y -> Z -> Prop) (l : list X) (m : list Y) (r : list Z) : Prop :=
  length l = length r /\ length m = length r /\
  forall k a b, nth_error l k = Some a -> nth_error m k = Some b ->
    exists c, nth_error r k = Some c /\ P a b c.
Definition elementwise1 {X Z} (P : X -> Z -> Prop) (l : list X) (r : list Z) : Prop :=
  length l = length r /\
  forall k a, nth_error l k = Some a -> exists c, nth_error r k = Some c /\ P a c.

(** x is the first element of l that is maximal / minimal for the measure f. *)
Definition first_best {X} (better : X -> X -> Prop) (l : list X) (x : X) : Prop :=
  exists pre post, l = pre ++ x :: post /\
    (forall y, In y pre -> better x y) /\ (forall y, In y post -> ~ better y x).

Section RefSemantics.
  Context {T : Type} {N : Num T}.
  Notation V := (vec T).

  (** Conversion of the elements: Vec2 multiplies each component by 1.0. *)
  Definition conv (l : list V) : list V := map (fun v => mkV (vx v * n1)%num (vy v * n1)%num) l.

  (** Every history: the array equals a plain list subjected to the reference
      semantics.  [ref_step] relates the list before and after one operation. *)
  Inductive ref_step : list V -> arr_op T -> list V -> Prop :=
  | RS_append l v : ref_step l (OpAppend v) (l ++ conv [v])
  | RS_extend l vs : ref_step l (OpExtend vs) (l ++ conv vs)
  | RS_insert l i v pre post : l = pre ++ post -> cut_at (length l) i (length pre) ->
      ref_step l (OpInsert i v) (pre ++ conv [v] ++ post)
  | RS_set l i v pre x post : addresses l i pre x post -> ref_step l (OpSet i v) (pre ++ conv [v] ++ post)
  | RS_set_bad l i v : bad_index l i -> ref_step l (OpSet i v) l
  | RS_del l i pre x post : addresses l i pre x post -> ref_step l (OpDel i) (pre ++ post)
  | RS_del_bad l i : bad_index l i -> ref_step l (OpDel i) l
  | RS_setslice l a b vs pre mid post : sliced l a b pre mid post ->
      ref_step l (OpSetSlice a b vs) (pre ++ conv vs ++ post)
  | RS_delslice l a b pre mid post : sliced l a b pre mid post -> ref_step l (OpDelSlice a b) (pre ++ post).
  Inductive ref_run : list V -> list (arr_op T) -> list V -> Prop :=
  | RR_nil l : ref_run l [] l
  | RR_cons l o l' os l'' : ref_step l o l' -> ref_run l' os l'' -> ref_run l (o :: os) l''.

  Definition list_op (o : arr_op T) : Prop :=
    match o with
    | OpAppend _ | OpExtend _ | OpInsert _ _ | OpSet _ _ | OpSetSlice _ _ _ | OpDel _ | OpDelSlice _ _ => True
    | _ => False
    end.

  (** Meaning of an array arithmetic operation: the total componentwise
      function f, on a sequence of the same length or on a single vector. *)
  Definition total_arith (f : T -> T -> T) (op : list V -> arr_operand T -> res (list V)) : Prop :=
    forall (l m : list V) (v : V),
    (length l = length m -> exists r, op l (OSeq m) = Ok r /\
       elementwise (fun a b c => c = mkV (f (vx a) (vx b)) (f (vy a) (vy b))) l m r) /\
    (length l <> length m -> op l (OSeq m) = Err ValueError) /\
    (exists r, op l (OVec v) = Ok r /\
       elementwise1 (fun a c => c = mkV (f (vx a) (vx v * n1)%num) (f (vy a) (vy v * n1)%num)) l r).

  (** The same for the division f, which raises on a zero divisor. *)
  Definition div_arith (f : T -> T -> T) (op : list V -> arr_operand T -> res (list V)) : Prop :=
    forall (l m : list V) (v : V) (s : T),
    (length l <> length m -> op l (OSeq m) = Err ValueError) /\
    (forall r, op l (OSeq m) = Ok r -> length l = length m /\
       elementwise (fun a b c => (vx b =? n0)%num = false /\ (vy b =? n0)%num = false /\
                                c = mkV (f (vx a) (vx b)) (f (vy a) (vy b))) l m r) /\
    (forall e, op l (OSeq m) = Err e -> length l = length m -> e = ZeroDivisionError /\
       exists b, In b m /\ ((vx b =? n0)%num = true \/ (vy b =? n0)%num = true)) /\
    (forall r, op l (OVec v) = Ok r ->
       elementwise1 (fun a c => (vx v * n1 =? n0)%num = false /\ (vy v * n1 =? n0)%num = false /\
         c = mkV (f (vx a) (vx v * n1)%num) (f (vy a) (vy v * n1)%num)) l r) /\
    (forall e, op l (OVec v) = Err e -> e = ZeroDivisionError /\ l <> [] /\
        ((vx v * n1 =? n0)%num = true \/ (vy v * n1 =? n0)%num = true)) /\
    (forall r, op l (OScalar s) = Ok r ->
       elementwise1 (fun a c => (s =? n0)%num = false /\ c = mkV (f (vx a) s) (f (vy a) s)) l r) /\
    (forall e, op l (OScalar s) = Err e -> e = ZeroDivisionError /\ l <> [] /\ (s =? n0)%num = true).

End RefSemantics.
