(** * The polygon methods with a step counter

    The same functions as in Polygon.v, Tangent.v and Hull.v, each returning its
    value together with the number of steps.  A step is one execution of the
    body of a [for] or [while] loop, one element of a comprehension or
    generator, one element copied by a slice, [+], [extend], [reverse] or
    [list(...)], one iteration of the loop of [bisect_right], one recursive
    call.  Between two steps the code runs a bounded number of arithmetic
    operations, comparisons, and operations on dicts and sets (counted as
    bounded, as Python documents them on average).  Sorting [m] elements
    counts [sortc m] steps, a parameter. *)
From Coq Require Import ZArith List Bool.
From Verif Require Import Num Vec Affine Box Seq Polygon Tangent Hull.
Import ListNotations.
Local Open Scope num_scope.

Definition cret {A : Type} (a : A) : A * nat := (a, O).
Definition tick {A : Type} (k : nat) (m : A * nat) : A * nat := (fst m, k + snd m)%nat.
Definition cbind {A B : Type} (m : A * nat) (f : A -> B * nat) : B * nat :=
  tick (snd m) (f (fst m)).
(** The same when the first part may raise. *)
Definition rbind {A B : Type} (m : res A * nat) (f : A -> res B * nat) : res B * nat :=
  cbind m (fun r => match r with Ok a => f a | Err e => cret (Err e) end).
Notation "'let#' x ':=' m 'in' k" := (cbind m (fun x => k))
  (at level 200, x pattern, m at level 100, k at level 200, right associativity).
Notation "'let+' x ':=' m 'in' k" := (rbind m (fun x => k))
  (at level 200, x pattern, m at level 100, k at level 200, right associativity).

(** A loop over all of a list. *)
Fixpoint fold_c {A B : Type} (f : A -> B -> A) (l : list B) (a : A) : A * nat :=
  match l with
  | [] => cret a
  | b :: l' => tick 1 (fold_c f l' (f a b))
  end.
(** A comprehension. *)
Fixpoint map_c {A B : Type} (f : A -> B) (l : list A) : list B * nat :=
  match l with
  | [] => cret []
  | a :: l' => tick 1 (let# r := map_c f l' in cret (f a :: r))
  end.
(** A loop that stops at the first hit. *)
Fixpoint existsb_c {A : Type} (f : A -> bool) (l : list A) : bool * nat :=
  match l with
  | [] => cret false
  | a :: l' => tick 1 (if f a then cret true else existsb_c f l')
  end.
(** A slice, a concatenation, a [list(...)] copy. *)
Definition copied {A : Type} (l : list A) : list A * nat := (l, length l).

Section Cost.
  Context {T : Type} {N : Num T}.
  Notation V := (vec T).
  Notation P := (poly T).
  Variable sortc : nat -> nat.
  Definition ccall (X : Type) : Type := P -> (res X * P) * nat.

  (** polygon.py:248-270 *)
  Fixpoint classify_loop_c (last_delta : V) (last_dir : Z) (dir_changes : nat)
           (angle_sign : Z) (count : nat) (ds : list V) : (bool * nat * Z * nat) * nat :=
    match ds with
    | [] => cret (true, dir_changes, angle_sign, count)
    | delta :: ds' => tick 1 (
        let count := S count in
        let this_dir := dir_of delta in
        let dir_changes :=
          if Z.eqb this_dir (- last_dir) then S dir_changes else dir_changes in
        let c := cross last_delta delta in
        if c >? n0 then
          if Z.eqb angle_sign (-1) then cret (false, dir_changes, angle_sign, count)
          else classify_loop_c delta this_dir dir_changes 1 count ds'
        else if c <? n0 then
          if Z.eqb angle_sign 1 then cret (false, dir_changes, angle_sign, count)
          else classify_loop_c delta this_dir dir_changes (-1) count ds'
        else classify_loop_c delta this_dir dir_changes angle_sign count ds')
    end.
  (** polygon.py:226-230, 248-249: the comprehension over the edge vectors *)
  Fixpoint edges_c (prev : V) (vs : list V) : list V * nat :=
    match vs with
    | [] => cret []
    | v :: vs' => tick 1 (
        let d := vsub v prev in
        let# ds := edges_c v vs' in
        cret (if vec_bool d then d :: ds else ds))
    end.
  Definition edge_vectors_c (vs : list V) : list V * nat :=
    match vs with
    | [] => cret []
    | v :: _ => edges_c (last vs v) vs
    end.
  (** polygon.py:232-276 *)
  Definition classify_core_c (vs : list V) : res (bool * bool * nat) * nat :=
    let+ vl := cret (py_get vs (-1)) in
    let+ vl2 := cret (py_get vs (-2)) in
    let last_delta := vsub vl vl2 in
    let last_dir := dir_of last_delta in
    let# ds := edge_vectors_c vs in
    let# (convex, dir_changes, angle_sign, count) :=
      classify_loop_c last_delta last_dir 0 0%Z 0 ds in
    let convex := if Nat.leb dir_changes 2 then convex else false in
    let degenerate := Nat.eqb count 0 || Z.eqb angle_sign 0 in
    cret (Ok (convex, degenerate, count)).
  (** polygon.py:285-300 *)
  Definition find_extrema_c (vs : list V) : res extrema * nat :=
    match vs with
    | [] => cret (Err IndexError)
    | v :: _ =>
        let# e := fold_c ext_step (enumerate_from 0 vs)
                    (mkExt (vx v) (vx v) (vy v) (vy v) 0 0 0 0) in
        cret (Ok e)
    end.
  (** polygon.py:317-320: reversal in place *)
  Definition orient_pl_c (pl : list (T * T)) : list (T * T) * nat :=
    match pl with
    | [] => cret []
    | q :: _ => if fst q >? fst (last pl q) then copied (rev pl) else cret pl
    end.
  (** polygon.py:281-320 *)
  Definition split_y_polylines_c (vs : list V) : res (list (T * T) * list (T * T)) * nat :=
    let+ e := find_extrema_c vs in
    let# verts_yx := map_c (fun v => (vy v, vx v)) vs in
    let min_i := x_min_i e in let max_i := x_max_i e in
    let left_i := x_left_i e in let right_i := x_right_i e in
    if Nat.ltb min_i max_i then
      let# s1 := copied (firstn (max_i + 1 - min_i) (skipn min_i verts_yx)) in
      let# s2 := copied (skipn max_i verts_yx) in
      let# s3 := copied (firstn (min_i + 1) verts_yx) in
      let# s23 := copied (s2 ++ s3) in
      let# pl1 := orient_pl_c s1 in
      let# pl2 := orient_pl_c s23 in
      if (Nat.leb min_i left_i && Nat.ltb left_i max_i)
         || Nat.ltb right_i min_i || Nat.ltb max_i right_i
      then cret (Ok (pl1, pl2)) else cret (Ok (pl2, pl1))
    else
      let# s1 := copied (firstn (min_i + 1 - max_i) (skipn max_i verts_yx)) in
      let# s2 := copied (skipn min_i verts_yx) in
      let# s3 := copied (firstn (max_i + 1) verts_yx) in
      let# s23 := copied (s2 ++ s3) in
      let# pl1 := orient_pl_c s1 in
      let# pl2 := orient_pl_c s23 in
      if (Nat.leb left_i min_i && Nat.ltb max_i left_i)
         || Nat.ltb min_i right_i || Nat.ltb right_i max_i
      then cret (Ok (pl1, pl2)) else cret (Ok (pl2, pl1)).
  (** polygon.py:232-279 *)
  Definition classify_c (p : P) : res P * nat :=
    let vs := pverts p in
    let+ (convex, degenerate, count) := classify_core_c vs in
    let simple := if convex then Some true else None in
    if convex && negb degenerate then
      let+ pl := split_y_polylines_c vs in
      cret (Ok (mkPoly vs (Some convex) simple (Some pl)
            (Some (Nat.ltb count (length vs))) (Some degenerate)
            (pbbox p) (pcentroid p) (pmaxr2 p) (pminr2 p) (ptri p)))
    else
      cret (Ok (mkPoly vs (Some convex) simple (pypl p) (pdupe p) (Some degenerate)
            (pbbox p) (pcentroid p) (pmaxr2 p) (pminr2 p) (ptri p))).
  (** polygon.py:205-214 *)
  Definition get_is_convex_c : ccall bool := fun p =>
    match pconvex p with
    | Some b => cret (Ok b, p)
    | None => let# r := classify_c p in
              match r with
              | Err e => cret (Err e, p)
              | Ok p' => match pconvex p' with
                         | Some b => cret (Ok b, p')
                         | None => cret (Err TypeError, p')
                         end
              end
    end.
  (** polygon.py:76-88 *)
  Definition poly_new_c (vertices : list V) (is_convex is_simple : option bool) : res P * nat :=
    let# vs := map_c vec2_of vertices in
    if Nat.ltb (length vs) 3 then cret (Err ValueError) else
    let p := cleared vs None in
    let+ p :=
      match is_convex, pconvex p with
      | Some c, None =>
          let simple := if c then Some true else None in
          if c && Nat.ltb 3 (length vs) then
            let+ pl := split_y_polylines_c vs in
            cret (Ok (mkPoly vs (Some c) simple (Some pl) (pdupe p) (pdegen p) (pbbox p)
                  (pcentroid p) (pmaxr2 p) (pminr2 p) (ptri p)))
          else
            cret (Ok (mkPoly vs (Some c) simple (pypl p) (pdupe p) (pdegen p) (pbbox p)
                  (pcentroid p) (pmaxr2 p) (pminr2 p) (ptri p)))
      | _, _ => cret (Ok p)
      end in
    match is_simple, psimple p with
    | Some s, None =>
        cret (Ok (mkPoly vs (pconvex p) (Some s) (pypl p) (pdupe p) (pdegen p) (pbbox p)
              (pcentroid p) (pmaxr2 p) (pminr2 p) (ptri p)))
    | _, _ => cret (Ok p)
    end.
  (** box.py:48-64 *)
  Definition box_from_points_c (points : list V) : res (bbox T) * nat :=
    match points with
    | [] => cret (Err ValueError)
    | p :: rest =>
        let# (min_x, min_y, max_x, max_y) :=
          fold_c minmax_step rest (vx p, vy p, vx p, vy p) in
        cret (Ok (mkBox (vec2 min_x min_y) (vec2 max_x max_y)))
    end.
  (** polygon.py:198-203 *)
  Definition get_bbox_c : ccall (bbox T) := fun p =>
    match pbbox p with
    | Some b => cret (Ok b, p)
    | None =>
        let# r := box_from_points_c (pverts p) in
        match r with
        | Err e => cret (Err e, p)
        | Ok b => cret (Ok b, mkPoly (pverts p) (pconvex p) (psimple p) (pypl p) (pdupe p)
                           (pdegen p) (Some b) (pcentroid p) (pmaxr2 p) (pminr2 p) (ptri p))
        end
    end.

  (** polygon.py:381-395; at the start of an edge [list(open_segments.values())]
      is built, then searched. *)
  Definition hits_open_c (last_index : nat) (x : sweep_entry (T:=T)) (open : list sweep_entry)
    : bool * nat :=
    let '(s, e, i) := x in
    existsb_c (fun '(os, oe, oi) =>
      Nat.ltb (index_dist i oi) last_index && Nat.ltb 1 (index_dist i oi)
      && segments_intersect s e os oe) open.
  Fixpoint sweep_c (last_index : nat) (open : list sweep_entry) (pts : list sweep_entry)
    : bool * nat :=
    match pts with
    | [] => cret true
    | x :: pts' => tick 1 (
        let '(_, i) := x in
        if existsb (fun y => Nat.eqb (snd y) i) open then
          sweep_c last_index (filter (fun y => negb (Nat.eqb (snd y) i)) open) pts'
        else
          let# values := copied open in
          let# hit := hits_open_c last_index x values in
          if (hit : bool) then cret false
          else sweep_c last_index (open ++ [x]) pts')
    end.
  (** polygon.py:362-395: [indices], the two comprehensions and their
      concatenation, the sort, the sweep *)
  Definition check_is_simple_c (vs : list V) : bool * nat :=
    let es := indexed_edges vs in
    let# indices := map_c (fun i => i) (List.seq 0 (length vs)) in
    let# l1 := map_c (fun x => x) es in
    let# l2 := map_c (fun '(a, b, i) => (b, a, i)) es in
    let# points := copied (l1 ++ l2) in
    tick (sortc (length points)) (
    sweep_c (length vs - 1) [] (sort_by entry_ltb points)).
  (** polygon.py:322-337 *)
  Definition get_is_simple_c : ccall bool := fun p =>
    match psimple p with
    | Some b => cret (Ok b, p)
    | None =>
        let# r := match pconvex p with None => classify_c p | Some _ => cret (Ok p) end in
        match r with
        | Err e => cret (Err e, p)
        | Ok p1 =>
            match psimple p1 with
            | Some b => cret (Ok b, p1)
            | None => let# b := check_is_simple_c (pverts p1) in cret (Ok b, set_simple p1 b)
            end
        end
    end.
  (** polygon.py:409-423 *)
  Definition centroid_value_c (vs : list V) : res V * nat :=
    match vs with
    | a :: b :: rest =>
        let# (_, cen, total) := fold_c (centroid_step a) rest (b, vec2 n0 n0, n0) in
        cret (vdivs cen (n3 * total))
    | _ => cret (Err IndexError)
    end.
  (** polygon.py:397-427 *)
  Definition get_centroid_c : ccall (option V) := fun p =>
    match pcentroid p with
    | Some c => cret (Ok c, p)
    | None =>
        let# r := get_is_simple_c p in
        match r with
        | (Err e, p1) => cret (Err e, p1)
        | (Ok true, p1) =>
            let# r := centroid_value_c (pverts p1) in
            match r with
            | Err e => cret (Err e, p1)
            | Ok c => cret (Ok (Some c), set_centroid p1 (Some c))
            end
        | (Ok false, p1) => cret (Ok None, set_centroid p1 None)
        end
    end.

  (** polygon.py:547-582 *)
  Fixpoint wind_loop_c (p v0 : V) (w : Z) (vs : list V) : Z * nat :=
    match vs with
    | [] => cret w
    | v1 :: vs' => tick 1 (wind_loop_c p v1 (w + wind_contrib p v0 v1)%Z vs')
    end.
  Definition winding_test_c (vs : list V) (p : V) : res bool * nat :=
    let+ v0 := cret (py_get vs (-1)) in
    let# w := wind_loop_c p v0 0 vs in
    cret (Ok (negb (Z.eqb w 0))).
  (** polygon.py:584-607 *)
  Fixpoint bisect_loop_c (fuel : nat) (a : list (T * T)) (py : T) (lo hi : nat) : res nat * nat :=
    match fuel with
    | O => cret (Err OutOfFuel)
    | S f =>
        if Nat.ltb lo hi then tick 1 (
          let mid := Nat.div2 (lo + hi) in
          match nth_error a mid with
          | None => cret (Err IndexError)
          | Some q => if key_before py q then bisect_loop_c f a py lo mid
                      else bisect_loop_c f a py (S mid) hi
          end)
        else cret (Ok lo)
    end.
  Definition bisect_right_c (a : list (T * T)) (py : T) : res nat * nat :=
    bisect_loop_c (S (length a)) a py 0 (length a).
  Definition y_monotone_test_c (pl : list (T * T) * list (T * T)) (p : V) : res bool * nat :=
    let '(lp, rp) := pl in
    let+ i := bisect_right_c lp (vy p) in
    if Nat.eqb i 0 || Nat.eqb i (length lp) then cret (Ok false) else
    let+ q0 := cret (py_get lp (Z.of_nat i - 1)) in
    let+ q1 := cret (py_get lp (Z.of_nat i)) in
    if side_yx q0 q1 p >? n0 then cret (Ok false) else
    let+ i := bisect_right_c rp (vy p) in
    let+ q0 := cret (py_get rp (Z.of_nat i - 1)) in
    let+ q1 := cret (py_get rp (Z.of_nat i)) in
    cret (Ok (side_yx q0 q1 p >? n0)).
  (** polygon.py:609-656: [sorted(self, ...)] copies and sorts *)
  Definition triangle_test_c (E : T) (pt : V) : ccall bool := fun p =>
    match ptri p with
    | Some c => cret (Ok (tri_eval c pt), p)
    | None =>
        let# vs := copied (pverts p) in
        tick (sortc (length vs)) (
        match tri_build E vs with
        | Err e => cret (Err e, p)
        | Ok None => cret (Ok false, p)
        | Ok (Some c) =>
            cret (Ok (tri_eval c pt),
             mkPoly (pverts p) (pconvex p) (psimple p) (pypl p) (pdupe p) (pdegen p)
               (pbbox p) (pcentroid p) (pmaxr2 p) (pminr2 p) (Some c))
        end)
    end.
  (** polygon.py:658-688 *)
  Definition contains_point_c (E : T) (pt : V) : ccall bool := fun p =>
    let sides := length (pverts p) in
    if Nat.eqb sides 3 then triangle_test_c E pt p else
    match radial_shortcut p pt with
    | Err e => cret (Err e, p)
    | Ok (Some b) => cret (Ok b, p)
    | Ok None =>
        match pypl p with
        | Some pl => let# r := y_monotone_test_c pl pt in cret (r, p)
        | None =>
            if Nat.eqb sides 4 then let# r := winding_test_c (pverts p) pt in cret (r, p)
            else let# r := get_bbox_c p in
                 match r with
                 | (Err e, p1) => cret (Err e, p1)
                 | (Ok b, p1) =>
                     if box_contains b pt
                     then let# r := winding_test_c (pverts p1) pt in cret (r, p1)
                     else cret (Ok false, p1)
                 end
        end
    end.

  (** polygon.py:693-718 *)
  Definition pt_tangents_c (vs : list V) (p : V) : res (V * V) * nat :=
    let+ first := cret (py_get vs 0) in
    let+ v0 := cret (py_get vs (-2)) in
    let+ v1 := cret (py_get vs (-1)) in
    let prev_turn := side v0 v1 p in
    let# (_, _, left_tan, right_tan) :=
      fold_c (tan_step p) vs (v1, prev_turn, first, first) in
    cret (Ok (left_tan, right_tan)).
  (** polygon.py:748-763 *)
  Fixpoint left_tan_loop_c (vs : list V) (p : V) (limit : nat) (a b : Z) : res Z * nat :=
    match limit with
    | O => cret (Ok a)
    | S limit' => tick 1 (
        let c := ((a + b) / 2)%Z in
        let+ vc1 := cret (py_get vs (c + 1)) in
        let+ vc := cret (py_get vs c) in
        let down_c := pt_below p vc1 vc in
        let+ found :=
          if negb down_c then
            let+ vcm := cret (py_get vs (c - 1)) in cret (Ok (pt_above p vcm vc))
          else cret (Ok false) in
        if (found : bool) then cret (Ok c) else
        let+ va1 := cret (py_get vs (a + 1)) in
        let+ va := cret (py_get vs a) in
        if pt_below p va1 va then
          if negb down_c || pt_below p va vc
          then left_tan_loop_c vs p limit' a c
          else left_tan_loop_c vs p limit' c b
        else
          if down_c || negb (pt_above p va vc)
          then left_tan_loop_c vs p limit' c b
          else left_tan_loop_c vs p limit' a c)
    end.
  (** polygon.py:732-764 *)
  Definition left_tan_i_convex_c (vs : list V) (p : V) : res Z * nat :=
    let+ v0 := cret (py_get vs 0) in
    let+ vl := cret (py_get vs (-1)) in
    let+ vl2 := cret (py_get vs (-2)) in
    if negb (pt_below p v0 vl) && pt_above p vl2 vl then cret (Ok (-1)%Z)
    else left_tan_loop_c vs p (length vs) (-1) (Z.of_nat (length vs) - 1).
  (** polygon.py:782-797 *)
  Fixpoint right_tan_loop_c (vs : list V) (p : V) (limit : nat) (a b : Z) : res Z * nat :=
    match limit with
    | O => cret (Ok a)
    | S limit' => tick 1 (
        let c := ((a + b) / 2)%Z in
        let+ vc1 := cret (py_get vs (c + 1)) in
        let+ vc := cret (py_get vs c) in
        let down_c := pt_below p vc1 vc in
        let+ found :=
          if (down_c : bool) then
            let+ vcm := cret (py_get vs (c - 1)) in cret (Ok (negb (pt_above p vcm vc)))
          else cret (Ok false) in
        if (found : bool) then cret (Ok c) else
        let+ va1 := cret (py_get vs (a + 1)) in
        let+ va := cret (py_get vs a) in
        if pt_above p va1 va then
          if down_c || pt_above p va vc
          then right_tan_loop_c vs p limit' a c
          else right_tan_loop_c vs p limit' c b
        else
          if negb down_c || negb (pt_below p va vc)
          then right_tan_loop_c vs p limit' c b
          else right_tan_loop_c vs p limit' a c)
    end.
  (** polygon.py:766-798 *)
  Definition right_tan_i_convex_c (vs : list V) (p : V) : res Z * nat :=
    let+ v0 := cret (py_get vs 0) in
    let+ vl := cret (py_get vs (-1)) in
    let+ vl2 := cret (py_get vs (-2)) in
    if pt_below p v0 vl && negb (pt_above p vl2 vl) then cret (Ok (-1)%Z)
    else right_tan_loop_c vs p (length vs) (-1) (Z.of_nat (length vs) - 1).
  (** polygon.py:800-818 *)
  Definition tangents_to_point_c (pt : V) : ccall (V * V) := fun p =>
    if Nat.ltb 20 (length (pverts p)) then
      let# r := get_is_convex_c p in
      match r with
      | (Err e, p1) => cret (Err e, p1)
      | (Ok true, p1) =>
          match pdupe p1 with
          | Some false =>
              let# r :=
                (let+ i := left_tan_i_convex_c (pverts p1) pt in
                 let+ l := cret (py_get (pverts p1) i) in
                 let+ j := right_tan_i_convex_c (pverts p1) pt in
                 let+ r := cret (py_get (pverts p1) j) in
                 cret (Ok (l, r))) in
              cret (r, p1)
          | _ => let# r := pt_tangents_c (pverts p1) pt in cret (r, p1)
          end
      | (Ok false, p1) => let# r := pt_tangents_c (pverts p1) pt in cret (r, p1)
      end
    else let# r := pt_tangents_c (pverts p) pt in cret (r, p).

  (** *** Convex hull *)
  Variable set_order : list V -> list V.
  (** polygon.py:896-903 *)
  Definition find_furthest_c (points : list V) (p0 p1 : V) : option V * nat :=
    let# st := fold_c (far_step p0 (vx p1 - vx p0) (vy p1 - vy p0)) points
                 (nlit (-1), None) in
    cret (snd st).
  (** polygon.py:909-935 *)
  Definition partition_pts_c (points : list V) (p0 p1 pp : V) : res (list V * list V) * nat :=
    let v0 := vsub p0 pp in
    let v1 := vsub p1 pp in
    let dot00 := length2 v0 in
    let dot01 := dot v0 v1 in
    let dot11 := length2 v1 in
    let denom := dot00 * dot11 - dot01 * dot01 in
    if nfalsy denom then cret (Ok ([], []))
    else
      let+ inv_denom := cret (pydiv n1 denom) in
      let# r := fold_c (part_step pp v0 v1 dot00 dot01 dot11 inv_denom) points ([], []) in
      cret (Ok r).
  (** polygon.py:978-986: one step per turn of the [while] *)
  Fixpoint scan_pop_c (p : V) (stack : list V) : list V * nat :=
    match stack with
    | v1 :: ((v0 :: _) as rest) => tick 1 (
        if ((vx v1 - vx v0) * (vy p - vy v0) - (vx p - vx v0) * (vy v1 - vy v0)) >=? n0
        then scan_pop_c p rest else cret stack)
    | _ => cret stack
    end.
  Fixpoint scan_c (pts stack : list V) : list V * nat :=
    match pts with
    | [] => cret stack
    | p :: pts' => tick 1 (let# st := scan_pop_c p stack in scan_c pts' (p :: st))
    end.
  (** polygon.py:966-988, with the [extend] *)
  Definition ahull_sort_c (points : list V) (p0 p1 : V) : list V * nat :=
    let d := vsub p1 p0 in
    let key := line_order p0 (vx d) (vy d) in
    tick (1 + sortc (length points)) (
    let# stack := scan_c (sort_by (fun a b => key a <? key b) points ++ [p1]) [p0] in
    copied (rev (tl stack))).
  (** polygon.py:889-964 *)
  Fixpoint ahull_partition_c (fuel : nat) (points : list V) (p0 p1 : V) : res (list V) * nat :=
    match fuel with
    | O => cret (Err OutOfFuel)
    | S f => tick 1 (
        let# far := find_furthest_c points p0 p1 in
        match far with
        | None => cret (Err UnboundLocalError)
        | Some pp0 =>
            let pp := vec2_of pp0 in
            let+ (lft, rgt) := partition_pts_c points p0 p1 pp in
            let max_partition := ((length points - length lft - length rgt) * 4)%nat in
            let+ h1 :=
              if Nat.leb (length lft) 1 then let# h := copied (p0 :: lft) in cret (Ok h)
              else if Nat.leb (length lft) max_partition
              then ahull_partition_c f lft p0 pp
              else let# h := ahull_sort_c lft p0 pp in cret (Ok h) in
            let+ h2 :=
              if Nat.leb (length rgt) 1 then let# h := copied (pp :: rgt) in cret (Ok h)
              else if Nat.leb (length rgt) max_partition
              then ahull_partition_c f rgt pp p1
              else let# h := ahull_sort_c rgt pp p1 in cret (Ok h) in
            cret (Ok (h1 ++ h2))
        end)
    end.
  (** polygon.py:845-887 *)
  Definition upper_lower_c (points : list V) (l r : V) : (list V * list V) * nat :=
    let w := vx r - vx l in
    let h := vy r - vy l in
    fold_c (fun st p =>
      let '(up, lo) := st in
      if (w * (vy p - vy l) - (vx p - vx l) * h) >? n0
      then (set_add up p, lo) else (up, set_add lo p)) points ([], []).
  Definition quick_hull_c (points : list V) : res (list V) * nat :=
    match points with
    | [] => cret (Err IndexError)
    | p :: _ =>
        let# (l, r) := fold_c lr_step points (p, p) in
        let# (up, lo) := upper_lower_c points l r in
        let up := set_discard (set_discard up l) r in
        let lo := set_discard (set_discard lo l) r in
        let+ h1 := match up with
                   | [] => cret (Ok [l])
                   | _ => ahull_partition_c (S (length up)) (set_order up) l r
                   end in
        let+ h2 := match lo with
                   | [] => cret (Ok [r])
                   | _ => ahull_partition_c (S (length lo)) (set_order lo) r l
                   end in
        cret (Ok (h1 ++ h2))
    end.
  (** polygon.py:822-842 *)
  Definition convex_hull_c (points : list V) : res P * nat :=
    let+ h := quick_hull_c points in poly_new_c h (Some true) None.
  Definition convex_hull_poly_c (p : P) : res P * nat :=
    match pconvex p with
    | Some true => let# vs := copied (pverts p) in cret (Ok (poly_copy p))
    | _ => convex_hull_c (pverts p)
    end.
End Cost.
