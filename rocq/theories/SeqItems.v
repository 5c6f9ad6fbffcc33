(** * Item and slice access of Seq2, Vec2Array and Polygon with any index,
      including slices with a step and malformed values
      (planar/vector.py:484-506, 547-585; planar/polygon.py:437-439) *)
From Coq Require Import ZArith List Bool.
From Verif Require Import Num Vec Seq.
Import ListNotations.

(** ** Python's slices (language semantics, not planar code):
    CPython's PySlice_Unpack and PySlice_AdjustIndices *)
Record pyslice : Type := mkSlice { sl_start : option Z; sl_stop : option Z; sl_step : option Z }.
Inductive pyindex : Type := IInt (i : Z) | ISlice (s : pyslice).

Section PySlice.
  Local Open Scope Z_scope.
  Definition step_of (s : pyslice) : Z := match sl_step s with None => 1 | Some k => k end.
  (** One bound: negative ones count from the end, then they are clamped to
      [0, n] (step positive) or [-1, n-1] (step negative). *)
  Definition adjust (n k i : Z) : Z :=
    if i <? 0 then
      if i + n <? 0 then (if k <? 0 then -1 else 0) else i + n
    else if n <=? i then (if k <? 0 then n - 1 else n) else i.
  Definition start_of (n : Z) (s : pyslice) : Z :=
    let k := step_of s in
    match sl_start s with None => if k <? 0 then n - 1 else 0 | Some i => adjust n k i end.
  Definition stop_of (n : Z) (s : pyslice) : Z :=
    let k := step_of s in
    match sl_stop s with None => if k <? 0 then -1 else n | Some i => adjust n k i end.
  Definition slice_count (n : Z) (s : pyslice) : Z :=
    let k := step_of s in let i := start_of n s in let j := stop_of n s in
    if k <? 0 then (if j <? i then (i - j - 1) / (- k) + 1 else 0)
    else (if i <? j then (j - i - 1) / k + 1 else 0).
  (** The positions a slice selects, in order. *)
  Definition slice_positions (n : nat) (s : pyslice) : list nat :=
    let n := Z.of_nat n in
    map (fun q => Z.to_nat (start_of n s + Z.of_nat q * step_of s)) (seq 0 (Z.to_nat (slice_count n s))).
End PySlice.

Section PyItems.
  Context {X : Type}.
  Definition gather (l : list X) (ps : list nat) : list X :=
    flat_map (fun p => match nth_error l p with Some x => [x] | None => [] end) ps.
  (** [l[s]] for a slice [s] of a list *)
  Definition py_getitems (l : list X) (s : pyslice) : res (list X) :=
    if Z.eqb (step_of s) 0 then Err ValueError
    else Ok (gather l (slice_positions (length l) s)).
  Definition scatter (l : list X) (ps : list nat) (new : list X) : list X :=
    fold_left (fun acc px => list_set acc (fst px) (snd px)) (combine ps new) l.
  (** [l[s] = new]: with step 1 the selected stretch is replaced, otherwise the
      lengths must agree *)
  Definition py_setitems (l : list X) (s : pyslice) (new : list X) : res (list X) :=
    if Z.eqb (step_of s) 0 then Err ValueError
    else if Z.eqb (step_of s) 1 then Ok (py_setslice l (sl_start s) (sl_stop s) new)
    else
      let ps := slice_positions (length l) s in
      if Nat.eqb (length new) (length ps) then Ok (scatter l ps new) else Err ValueError.
  (** [del l[s]] *)
  Fixpoint without (k : nat) (ps : list nat) (l : list X) : list X :=
    match l with
    | [] => []
    | x :: r => if existsb (Nat.eqb k) ps then without (S k) ps r else x :: without (S k) ps r
    end.
  Definition py_delitems (l : list X) (s : pyslice) : res (list X) :=
    if Z.eqb (step_of s) 0 then Err ValueError
    else if Z.eqb (step_of s) 1 then Ok (py_setslice l (sl_start s) (sl_stop s) [])
    else Ok (without 0 (slice_positions (length l) s) l).
End PyItems.

(** ** planar's sequences *)
Section Items.
  Context {T : Type} {N : Num T}.
  Notation V := (vec T).
  (** What a list [_vectors] can hold: vectors, and numbers after a slice
      assignment on a Seq2 or Polygon. *)
  Inductive elem : Type := EVec (v : V) | ENum (x : T).

  (** [Vec2( *value)]: vector.py:48-49; any number of arguments but two is a
      TypeError.  The value is an iterable of numbers. *)
  Definition vec2_star (value : list T) : res V :=
    match value with [x; y] => Ok (vec2 x y) | _ => Err TypeError end.

  (** vector.py:494-495 [Seq2.__getitem__]: one element or a plain list *)
  Definition seq2_getitem (l : list elem) (i : pyindex) : res (list elem) :=
    match i with
    | IInt i => let* x := py_get l i in Ok [x]
    | ISlice s => py_getitems l s
    end.
  (** vector.py:497-498 [Seq2.__setitem__], and polygon.py:437-439 (which then
      clears the caches): [self._vectors[index] = Vec2( *value)].  A slice
      receives the two components of the vector as its new elements. *)
  Definition seq2_setitem (l : list elem) (i : pyindex) (value : list T) : res (list elem) :=
    let* v := vec2_star value in
    match i with
    | IInt i => py_set l i (EVec v)
    | ISlice s => py_setitems l s [ENum (vx v); ENum (vy v)]
    end.
  Definition seq2_step (l : list elem) (iv : pyindex * list T) : list elem :=
    match seq2_setitem l (fst iv) (snd iv) with Ok l' => l' | Err _ => l end.
  Definition seq2_items (l : list elem) (ops : list (pyindex * list T)) : list elem := fold_left seq2_step ops l.

  (** vector.py:547-551 [Vec2Array.__getitem__] *)
  Definition arr_getitem (l : list V) (i : pyindex) : res (list V) :=
    match i with
    | IInt i => let* x := py_get l i in Ok [x]
    | ISlice s => py_getitems l s
    end.
  (** vector.py:553-557 [Vec2Array.__setitem__]: a slice takes an iterable of
      iterables, an integer index one iterable of numbers *)
  Inductive arr_value : Type := AOne (value : list T) | AMany (values : list (list T)).
  Definition arr_setitem (l : list V) (i : pyindex) (value : arr_value) : res (list V) :=
    match i, value with
    | ISlice s, AMany vs => let* new := mapM vec2_star vs in py_setitems l s new
    | IInt i, AOne a => let* v := vec2_star a in py_set l i v
    (* Vec2( *i) of a number, and Vec2( *value) with iterables: TypeError (an
       empty iterable of iterables given to a slice is AMany []) *)
    | ISlice s, AOne [] => py_setitems l s []
    | _, _ => Err TypeError
    end.
  (** vector.py:584-585 [__delitem__] *)
  Definition arr_delitem (l : list V) (i : pyindex) : res (list V) :=
    match i with IInt i => py_del l i | ISlice s => py_delitems l s end.
  (** vector.py:567-572 [extend]: the list grows while the generator runs, so a
      malformed element raises after the earlier ones were appended *)
  Fixpoint arr_extend (l : list V) (values : list (list T)) : res unit * list V :=
    match values with
    | [] => (Ok tt, l)
    | a :: r => match vec2_star a with Ok v => arr_extend (l ++ [v]) r | Err e => (Err e, l) end
    end.
End Items.
Arguments elem : clear implicits.
