(** * Tangent methods of Polygon (planar/polygon.py:690-818) *)
From Coq Require Import ZArith List Bool.
From Verif Require Import Num Vec Affine Box Seq Polygon.
Import ListNotations.
Local Open Scope num_scope.

Section Tangent.
  Context {T : Type} {N : Num T}.
  Notation V := (vec T).
  Notation P := (poly T).

  (** polygon.py:693-718 [_pt_tangents]: loop body; state (v0, prev_turn,
      left_tan, right_tan).  The "turn" expression is [side] of Polygon.v:
      (v1_x - v0_x)*(py - v0_y) - (px - v0_x)*(v1_y - v0_y). *)
  Definition tan_step (p : V) (st : V * T * V * V) (v1 : V) : V * T * V * V :=
    let '(v0, prev_turn, left_tan, right_tan) := st in
    let next_turn := side v0 v1 p in
    let '(left_tan, right_tan) :=
      if (prev_turn <=? n0) && (next_turn >? n0) then
        if ((vx v0 - vx p) * (vy right_tan - vy p)
            - (vx right_tan - vx p) * (vy v0 - vy p)) >=? n0
        then (left_tan, vec2 (vx v0) (vy v0)) else (left_tan, right_tan)
      else if (prev_turn >? n0) && (next_turn <=? n0) then
        if ((vx v0 - vx p) * (vy left_tan - vy p)
            - (vx left_tan - vx p) * (vy v0 - vy p)) <=? n0
        then (vec2 (vx v0) (vy v0), right_tan) else (left_tan, right_tan)
      else (left_tan, right_tan) in
    (v1, next_turn, left_tan, right_tan).
  Definition pt_tangents (vs : list V) (p : V) : res (V * V) :=
    let* first := py_get vs 0 in
    let* v0 := py_get vs (-2) in
    let* v1 := py_get vs (-1) in
    let prev_turn := side v0 v1 p in
    let '(_, _, left_tan, right_tan) :=
      fold_left (tan_step p) vs (v1, prev_turn, first, first) in
    Ok (left_tan, right_tan).

  (** polygon.py:720-730 [_pt_above], [_pt_below] *)
  Definition pt_cross (p a b : V) : T :=
    (vx a - vx p) * (vy b - vy p) - (vx b - vx p) * (vy a - vy p).
  Definition pt_above (p a b : V) : bool := pt_cross p a b >? n0.
  Definition pt_below (p a b : V) : bool := pt_cross p a b <? n0.

  (** polygon.py:748-763: the loop of [_left_tan_i_convex]; [limit] is the
      Python variable (initially len(self)). *)
  Fixpoint left_tan_loop (vs : list V) (p : V) (limit : nat) (a b : Z) : res Z :=
    match limit with
    | O => Ok a
    | S limit' =>
        let c := ((a + b) / 2)%Z in
        let* vc1 := py_get vs (c + 1) in
        let* vc := py_get vs c in
        let down_c := pt_below p vc1 vc in
        let* found :=
          if negb down_c then
            let* vcm := py_get vs (c - 1) in Ok (pt_above p vcm vc)
          else Ok false in
        if (found : bool) then Ok c else
        let* va1 := py_get vs (a + 1) in
        let* va := py_get vs a in
        if pt_below p va1 va then
          if negb down_c || pt_below p va vc
          then left_tan_loop vs p limit' a c
          else left_tan_loop vs p limit' c b
        else
          if down_c || negb (pt_above p va vc)
          then left_tan_loop vs p limit' c b
          else left_tan_loop vs p limit' a c
    end.
  (** polygon.py:732-764 [_left_tan_i_convex] *)
  Definition left_tan_i_convex (vs : list V) (p : V) : res Z :=
    let* v0 := py_get vs 0 in
    let* vl := py_get vs (-1) in
    let* vl2 := py_get vs (-2) in
    if negb (pt_below p v0 vl) && pt_above p vl2 vl then Ok (-1)%Z
    else left_tan_loop vs p (length vs) (-1) (Z.of_nat (length vs) - 1).

  (** polygon.py:782-797: the loop of [_right_tan_i_convex] *)
  Fixpoint right_tan_loop (vs : list V) (p : V) (limit : nat) (a b : Z) : res Z :=
    match limit with
    | O => Ok a
    | S limit' =>
        let c := ((a + b) / 2)%Z in
        let* vc1 := py_get vs (c + 1) in
        let* vc := py_get vs c in
        let down_c := pt_below p vc1 vc in
        let* found :=
          if (down_c : bool) then
            let* vcm := py_get vs (c - 1) in Ok (negb (pt_above p vcm vc))
          else Ok false in
        if (found : bool) then Ok c else
        let* va1 := py_get vs (a + 1) in
        let* va := py_get vs a in
        if pt_above p va1 va then
          if down_c || pt_above p va vc
          then right_tan_loop vs p limit' a c
          else right_tan_loop vs p limit' c b
        else
          if negb down_c || negb (pt_below p va vc)
          then right_tan_loop vs p limit' c b
          else right_tan_loop vs p limit' a c
    end.
  (** polygon.py:766-798 [_right_tan_i_convex] *)
  Definition right_tan_i_convex (vs : list V) (p : V) : res Z :=
    let* v0 := py_get vs 0 in
    let* vl := py_get vs (-1) in
    let* vl2 := py_get vs (-2) in
    if pt_below p v0 vl && negb (pt_above p vl2 vl) then Ok (-1)%Z
    else right_tan_loop vs p (length vs) (-1) (Z.of_nat (length vs) - 1).

  (** polygon.py:800-818 [tangents_to_point].  [not self._dupe_verts] is False
      for the sentinel [_unknown] (an [object()], truthy). *)
  Definition tangents_to_point (pt : V) : pcall (V * V) := fun p =>
    if Nat.ltb 20 (length (pverts p)) then
      match get_is_convex p with
      | (Err e, p1) => (Err e, p1)
      | (Ok true, p1) =>
          match pdupe p1 with
          | Some false =>
              (let* i := left_tan_i_convex (pverts p1) pt in
               let* l := py_get (pverts p1) i in
               let* j := right_tan_i_convex (pverts p1) pt in
               let* r := py_get (pverts p1) j in
               Ok (l, r), p1)
          | _ => (pt_tangents (pverts p1) pt, p1)
          end
      | (Ok false, p1) => (pt_tangents (pverts p1) pt, p1)
      end
    else (pt_tangents (pverts p) pt, p).
End Tangent.
