(** * Convex hull (planar/polygon.py:820-988) *)
From Coq Require Import ZArith List Bool.
From Verif Require Import Num Vec Affine Box Seq Polygon.
Import ListNotations.
Local Open Scope num_scope.

Section Hull.
  Context {T : Type} {N : Num T}.
  Notation V := (vec T).
  Notation P := (poly T).

  (** Iteration order of a Python set: given the elements of the set (in
      insertion order), the order in which [for p in s] visits them.  Theorems
      quantify over every function returning a permutation of its argument. *)
  Variable set_order : list V -> list V.

  (** [set.add] / [set.discard]; membership by [==]. *)
  Definition set_mem (p : V) (s : list V) : bool := existsb (vec_eqb p) s.
  Definition set_add (s : list V) (p : V) : list V := if set_mem p s then s else s ++ [p].
  Definition set_discard (s : list V) (p : V) : list V :=
    filter (fun q => negb (vec_eqb p q)) s.

  (** polygon.py:856-861 leftmost / rightmost *)
  Definition lr_step (st : V * V) (p : V) : V * V :=
    let '(l, r) := st in
    if vx p <? vx l then (p, r) else if vx p >? vx r then (l, p) else (l, r).

  (** polygon.py:896-903: (furthest, partition point); [None]: unbound *)
  Definition far_step (p0 : V) (dx dy : T) (st : T * option V) (p : V) : T * option V :=
    let dist := dx * (vy p - vy p0) - (vx p - vx p0) * dy in
    if dist >? fst st then (dist, Some p) else st.
  Definition find_furthest (points : list V) (p0 p1 : V) : option V :=
    snd (fold_left (far_step p0 (vx p1 - vx p0) (vy p1 - vy p0)) points
           (nlit (-1), None)).

  (** polygon.py:909-935: barycentric partition into (left, right) *)
  Definition part_step (pp v0 v1 : V) (dot00 dot01 dot11 inv_denom : T)
             (st : list V * list V) (p : V) : list V * list V :=
    let '(lft, rgt) := st in
    let v2 := vsub p pp in
    let dot02 := dot v0 v2 in
    let dot12 := dot v1 v2 in
    let u := (dot11 * dot02 - dot01 * dot12) * inv_denom in
    let v := (dot00 * dot12 - dot01 * dot02) * inv_denom in
    if v <? n0 then (lft ++ [p], rgt)
    else if u <? n0 then (lft, rgt ++ [p])
    else (lft, rgt).
  Definition partition_pts (points : list V) (p0 p1 pp : V) : res (list V * list V) :=
    let v0 := vsub p0 pp in
    let v1 := vsub p1 pp in
    let dot00 := length2 v0 in
    let dot01 := dot v0 v1 in
    let dot11 := length2 v1 in
    let denom := dot00 * dot11 - dot01 * dot01 in
    if nfalsy denom then Ok ([], [])
    else
      let* inv_denom := pydiv n1 denom in
      Ok (fold_left (part_step pp v0 v1 dot00 dot01 dot11 inv_denom) points ([], [])).

  (** polygon.py:966-988 [_ahull_sort_points]: the points to append to [hull].
      The stack is kept with its top first. *)
  Definition line_order (p0 : V) (dx dy : T) (p : V) : T :=
    dx * (vx p - vx p0) + dy * (vy p - vy p0).
  Fixpoint scan_pop (p : V) (stack : list V) : list V :=
    match stack with
    | v1 :: ((v0 :: _) as rest) =>
        if ((vx v1 - vx v0) * (vy p - vy v0) - (vx p - vx v0) * (vy v1 - vy v0)) >=? n0
        then scan_pop p rest else stack
    | _ => stack
    end.
  Definition scan_step (stack : list V) (p : V) : list V := p :: scan_pop p stack.
  Definition ahull_sort (points : list V) (p0 p1 : V) : list V :=
    let d := vsub p1 p0 in
    let key := line_order p0 (vx d) (vy d) in
    let pts := sort_by (fun a b => key a <? key b) points ++ [p1] in
    rev (tl (fold_left scan_step pts [p0])).

  (** polygon.py:889-964 [_ahull_partition_points]: the points to append to
      [hull].  Fuel bounds the recursion depth (each level drops at least the
      partition point). *)
  Fixpoint ahull_partition (fuel : nat) (points : list V) (p0 p1 : V) : res (list V) :=
    match fuel with
    | O => Err OutOfFuel
    | S f =>
        match find_furthest points p0 p1 with
        | None => Err UnboundLocalError
        | Some pp0 =>
            let pp := vec2_of pp0 in
            let* (lft, rgt) := partition_pts points p0 p1 pp in
            let max_partition := ((length points - length lft - length rgt) * 4)%nat in
            let* h1 :=
              if Nat.leb (length lft) 1 then Ok (p0 :: lft)
              else if Nat.leb (length lft) max_partition
              then ahull_partition f lft p0 pp
              else Ok (ahull_sort lft p0 pp) in
            let* h2 :=
              if Nat.leb (length rgt) 1 then Ok (pp :: rgt)
              else if Nat.leb (length rgt) max_partition
              then ahull_partition f rgt pp p1
              else Ok (ahull_sort rgt pp p1) in
            Ok (h1 ++ h2)
        end
    end.

  (** polygon.py:845-887 [_adaptive_quick_hull] on a list of Vec2 *)
  Definition upper_lower (points : list V) (l r : V) : list V * list V :=
    let w := vx r - vx l in
    let h := vy r - vy l in
    fold_left (fun st p =>
      let '(up, lo) := st in
      if (w * (vy p - vy l) - (vx p - vx l) * h) >? n0
      then (set_add up p, lo) else (up, set_add lo p)) points ([], []).
  Definition quick_hull (points : list V) : res (list V) :=
    match points with
    | [] => Err IndexError
    | p :: _ =>
        let '(l, r) := fold_left lr_step points (p, p) in
        let '(up, lo) := upper_lower points l r in
        let up := set_discard (set_discard up l) r in
        let lo := set_discard (set_discard lo l) r in
        let* h1 := match up with
                   | [] => Ok [l]
                   | _ => ahull_partition (S (length up)) (set_order up) l r
                   end in
        let* h2 := match lo with
                   | [] => Ok [r]
                   | _ => ahull_partition (S (length lo)) (set_order lo) r l
                   end in
        Ok (h1 ++ h2)
    end.

  (** polygon.py:822-842 [convex_hull] of a sequence that is not a Polygon *)
  Definition convex_hull (points : list V) : res P :=
    let* h := quick_hull points in poly_new h (Some true) None.
  (** polygon.py:839-842: of a Polygon *)
  Definition convex_hull_poly (p : P) : res P :=
    match pconvex p with
    | Some true => Ok (poly_copy p)
    | _ => convex_hull (pverts p)
    end.
End Hull.
