(** * Model of the class Polygon (planar/polygon.py), except tangents and convex
      hull (Tangent.v, Hull.v) *)
From Coq Require Import ZArith List Bool.
From Verif Require Import Num Vec Affine Box Seq.
Import ListNotations.
Local Open Scope num_scope.

(** polygon.py:609-656: the values captured by the closure that replaces the
    method [_pnp_triangle_test] in the instance dict; [tc_two] selects which of
    the two closures was stored. *)
Record tri_closure (T : Type) : Type := mkTri {
  tc_mid : vec T; tc_v0 : vec T; tc_v1 : vec T;
  tc_dot00 : T; tc_dot01 : T; tc_dot11 : T; tc_inv : T; tc_two : bool }.
Arguments mkTri {T}. Arguments tc_mid {T}. Arguments tc_v0 {T}. Arguments tc_v1 {T}.
Arguments tc_dot00 {T}. Arguments tc_dot01 {T}. Arguments tc_dot11 {T}.
Arguments tc_inv {T}. Arguments tc_two {T}.

(** polygon.py:76-88, 180-196: the object state.  [None] in [pconvex], [psimple],
    [pdupe], [pdegen], [pcentroid] is the sentinel [_unknown]; [pcentroid = Some
    None] is the cached value None.  [_max_r]/[_min_r] are never read (only their
    squares are) and [_winding] is never read, so these are not stored. *)
Record poly (T : Type) : Type := mkPoly {
  pverts : list (vec T);
  pconvex : option bool;
  psimple : option bool;
  pypl : option (list (T * T) * list (T * T));
  pdupe : option bool;
  pdegen : option bool;
  pbbox : option (bbox T);
  pcentroid : option (option (vec T));
  pmaxr2 : option T;
  pminr2 : option T;
  ptri : option (tri_closure T) }.
Arguments mkPoly {T}. Arguments pverts {T}. Arguments pconvex {T}.
Arguments psimple {T}. Arguments pypl {T}. Arguments pdupe {T}.
Arguments pdegen {T}. Arguments pbbox {T}. Arguments pcentroid {T}.
Arguments pmaxr2 {T}. Arguments pminr2 {T}. Arguments ptri {T}.

Section Poly.
  Context {T : Type} {N : Num T}.
  Notation V := (vec T).
  Notation A := (affine T).
  Notation P := (poly T).

  (** polygon.py:180-196 [_clear_cached_properties], applied to an object whose
      vertices are [vs] and whose stored triangle closure is [tri]. *)
  Definition cleared (vs : list V) (tri : option (tri_closure T)) : P :=
    let big := Nat.ltb 3 (length vs) in
    mkPoly vs
      (if big then None else Some true)
      (if big then None else Some true)
      None None None None None None None
      (if big then tri else None).

  (** *** Classification *)

  (** polygon.py:226-230 [_iter_edge_vectors]: self[i] - self[i-1], i = 0.. *)
  Fixpoint edges_from (prev : V) (vs : list V) : list V :=
    match vs with
    | [] => []
    | v :: vs' => vsub v prev :: edges_from v vs'
    end.
  Definition edge_vectors (vs : list V) : list V :=
    match vs with
    | [] => []
    | v :: _ => edges_from (last vs v) vs
    end.

  (** polygon.py:243-247, 251-255: direction code of an edge, in {-1, 0, 1} *)
  Definition dir_of (d : V) : Z :=
    if vx d >? n0 then (-1)%Z
    else if vx d <? n0 then 1%Z
    else if vy d >? n0 then (-1)%Z
    else if vy d <? n0 then 1%Z
    else 0%Z.

  (** polygon.py:248-270: the loop of [_classify] over the non-null edge vectors.
      Arguments: last_delta, last_dir, dir_changes, angle_sign, count; result:
      (_convex so far, dir_changes, angle_sign, count). *)
  Fixpoint classify_loop (last_delta : V) (last_dir : Z) (dir_changes : nat)
           (angle_sign : Z) (count : nat) (ds : list V) : bool * nat * Z * nat :=
    match ds with
    | [] => (true, dir_changes, angle_sign, count)
    | delta :: ds' =>
        let count := S count in
        let this_dir := dir_of delta in
        let dir_changes :=
          if Z.eqb this_dir (- last_dir) then S dir_changes else dir_changes in
        let c := cross last_delta delta in
        if c >? n0 then
          if Z.eqb angle_sign (-1) then (false, dir_changes, angle_sign, count)
          else classify_loop delta this_dir dir_changes 1 count ds'
        else if c <? n0 then
          if Z.eqb angle_sign 1 then (false, dir_changes, angle_sign, count)
          else classify_loop delta this_dir dir_changes (-1) count ds'
        else classify_loop delta this_dir dir_changes angle_sign count ds'
    end.

  (** polygon.py:232-276 without the final split: (convex, degenerate, count).
      [self[-2]] raises IndexError for fewer than two vertices. *)
  Definition classify_core (vs : list V) : res (bool * bool * nat) :=
    let* vl := py_get vs (-1) in
    let* vl2 := py_get vs (-2) in
    let last_delta := vsub vl vl2 in
    let last_dir := dir_of last_delta in
    let ds := filter vec_bool (edge_vectors vs) in
    let '(convex, dir_changes, angle_sign, count) :=
      classify_loop last_delta last_dir 0 0%Z 0 ds in
    let convex := if Nat.leb dir_changes 2 then convex else false in
    let degenerate := Nat.eqb count 0 || Z.eqb angle_sign 0 in
    Ok (convex, degenerate, count).

  (** polygon.py:285-300: the extrema loop of [_split_y_polylines] *)
  Record extrema : Type := mkExt {
    x_min_x : T; x_max_x : T; x_min_y : T; x_max_y : T;
    x_min_i : nat; x_max_i : nat; x_left_i : nat; x_right_i : nat }.
  Definition ext_step (e : extrema) (iv : nat * V) : extrema :=
    let '(i, v) := iv in
    let '(min_y, min_i) :=
      if vy v <? x_min_y e then (vy v, i) else (x_min_y e, x_min_i e) in
    let '(max_y, max_i) :=
      if vy v >? x_max_y e then (vy v, i) else (x_max_y e, x_max_i e) in
    let '(min_x, left_i) :=
      if vx v <? x_min_x e then (vx v, i) else (x_min_x e, x_left_i e) in
    let '(max_x, right_i) :=
      if vx v >? x_max_x e then (vx v, i) else (x_max_x e, x_right_i e) in
    mkExt min_x max_x min_y max_y min_i max_i left_i right_i.
  Fixpoint enumerate_from {X : Type} (i : nat) (l : list X) : list (nat * X) :=
    match l with
    | [] => []
    | x :: l' => (i, x) :: enumerate_from (S i) l'
    end.
  Definition find_extrema (vs : list V) : res extrema :=
    match vs with
    | [] => Err IndexError
    | v :: _ => Ok (fold_left ext_step (enumerate_from 0 vs)
                      (mkExt (vx v) (vx v) (vy v) (vy v) 0 0 0 0))
    end.

  (** polygon.py:317-320: a polyline is reversed when its first y exceeds its
      last y.  The lists are never empty; [] is kept unchanged. *)
  Definition orient_pl (pl : list (T * T)) : list (T * T) :=
    match pl with
    | [] => []
    | q :: _ => if fst q >? fst (last pl q) then rev pl else pl
    end.

  (** polygon.py:281-320 [_split_y_polylines]: (left, right) polylines of (y, x)
      pairs; the in-place [reverse] happens after the tuple is stored, on the
      same list objects. *)
  Definition split_y_polylines (vs : list V) : res (list (T * T) * list (T * T)) :=
    let* e := find_extrema vs in
    let verts_yx := map (fun v => (vy v, vx v)) vs in
    let min_i := x_min_i e in let max_i := x_max_i e in
    let left_i := x_left_i e in let right_i := x_right_i e in
    if Nat.ltb min_i max_i then
      let pl1 := orient_pl (firstn (max_i + 1 - min_i) (skipn min_i verts_yx)) in
      let pl2 := orient_pl (skipn max_i verts_yx ++ firstn (min_i + 1) verts_yx) in
      if (Nat.leb min_i left_i && Nat.ltb left_i max_i)
         || Nat.ltb right_i min_i || Nat.ltb max_i right_i
      then Ok (pl1, pl2) else Ok (pl2, pl1)
    else
      let pl1 := orient_pl (firstn (min_i + 1 - max_i) (skipn max_i verts_yx)) in
      let pl2 := orient_pl (skipn min_i verts_yx ++ firstn (max_i + 1) verts_yx) in
      if (Nat.leb left_i min_i && Nat.ltb max_i left_i)
         || Nat.ltb min_i right_i || Nat.ltb right_i max_i
      then Ok (pl1, pl2) else Ok (pl2, pl1).

  (** polygon.py:232-279 [_classify] as a state update *)
  Definition classify (p : P) : res P :=
    let vs := pverts p in
    let* (convex, degenerate, count) := classify_core vs in
    let simple := if convex then Some true else None in
    if convex && negb degenerate then
      let* pl := split_y_polylines vs in
      Ok (mkPoly vs (Some convex) simple (Some pl)
            (Some (Nat.ltb count (length vs))) (Some degenerate)
            (pbbox p) (pcentroid p) (pmaxr2 p) (pminr2 p) (ptri p))
    else
      Ok (mkPoly vs (Some convex) simple (pypl p) (pdupe p) (Some degenerate)
            (pbbox p) (pcentroid p) (pmaxr2 p) (pminr2 p) (ptri p)).

  (** A method call on a polygon: the outcome and the state left behind. *)
  Definition pcall (X : Type) : Type := P -> res X * P.

  (** polygon.py:205-214 [is_convex] *)
  Definition get_is_convex : pcall bool := fun p =>
    match pconvex p with
    | Some b => (Ok b, p)
    | None => match classify p with
              | Err e => (Err e, p)
              | Ok p' => match pconvex p' with
                         | Some b => (Ok b, p')
                         | None => (Err TypeError, p')   (* unreachable *)
                         end
              end
    end.
  (** polygon.py:216-224, 339-347, 429-435 [is_..._known] *)
  Definition is_convex_known (p : P) : bool :=
    match pconvex p with Some _ => true | None => false end.
  Definition is_simple_known (p : P) : bool :=
    match psimple p with Some _ => true | None => false end.
  Definition is_centroid_known (p : P) : bool :=
    match pcentroid p with Some _ => true | None => false end.

  (** polygon.py:76-88 [__init__] *)
  Definition poly_new (vertices : list V) (is_convex is_simple : option bool) : res P :=
    let vs := seq_new vertices in
    if Nat.ltb (length vs) 3 then Err ValueError else
    let p := cleared vs None in
    let* p :=
      match is_convex, pconvex p with
      | Some c, None =>
          let simple := if c then Some true else None in
          if c && Nat.ltb 3 (length vs) then
            let* pl := split_y_polylines vs in
            Ok (mkPoly vs (Some c) simple (Some pl) (pdupe p) (pdegen p) (pbbox p)
                  (pcentroid p) (pmaxr2 p) (pminr2 p) (ptri p))
          else
            Ok (mkPoly vs (Some c) simple (pypl p) (pdupe p) (pdegen p) (pbbox p)
                  (pcentroid p) (pmaxr2 p) (pminr2 p) (ptri p))
      | _, _ => Ok p
      end in
    match is_simple, psimple p with
    | Some s, None =>
        Ok (mkPoly vs (pconvex p) (Some s) (pypl p) (pdupe p) (pdegen p) (pbbox p)
              (pcentroid p) (pmaxr2 p) (pminr2 p) (ptri p))
    | _, _ => Ok p
    end.

  (** polygon.py:173-178 [from_points] (no length check, no conversion) *)
  Definition poly_from_points (vs : list V) : P := cleared vs None.

  (** polygon.py:198-203 [bounding_box] *)
  Definition get_bbox : pcall (bbox T) := fun p =>
    match pbbox p with
    | Some b => (Ok b, p)
    | None =>
        match box_from_points (pverts p) with
        | Err e => (Err e, p)
        | Ok b => (Ok b, mkPoly (pverts p) (pconvex p) (psimple p) (pypl p) (pdupe p)
                           (pdegen p) (Some b) (pcentroid p) (pmaxr2 p) (pminr2 p) (ptri p))
        end
    end.

  (** *** Simplicity *)

  (** polygon.py:349-360 [_segments_intersect] *)
  Definition seg_dir (a b c : V) : T :=
    (vx b - vx a) * (vy c - vy a) - (vx c - vx a) * (vy b - vy a).
  Definition segments_intersect (a b c d : V) : bool :=
    let dir1 := seg_dir a b c in
    let dir2 := seg_dir a b d in
    if xorb (dir1 >? n0) (dir2 >? n0) || xorb (nfalsy dir1) (nfalsy dir2) then
      let dir1 := seg_dir c d a in
      let dir2 := seg_dir c d b in
      xorb (dir1 >? n0) (dir2 >? n0) || xorb (nfalsy dir1) (nfalsy dir2)
    else false.

  (** polygon.py:376-378: sweep entries (start, end, edge index) *)
  Definition sweep_entry : Type := (V * V * nat)%type.
  (** Python tuple comparison of points and of entries (lexicographic: the first
      unequal component decides). *)
  Definition pt_ltb (a b : V) : bool :=
    if vx a =? vx b then (if vy a =? vy b then false else vy a <? vy b)
    else vx a <? vx b.
  Definition entry_ltb (a b : sweep_entry) : bool :=
    let '(s, e, i) := a in let '(s', e', i') := b in
    if vec_eqb s s' then
      if vec_eqb e e' then Nat.ltb i i' else pt_ltb e e'
    else pt_ltb s s'.
  (** A stable insertion sort; it returns the same list as Python's stable
      [list.sort] whenever [lt] is a strict weak order. *)
  Fixpoint insert_by {X : Type} (lt : X -> X -> bool) (x : X) (l : list X) : list X :=
    match l with
    | [] => [x]
    | y :: l' => if lt x y then x :: l else y :: insert_by lt x l'
    end.
  Definition sort_by {X : Type} (lt : X -> X -> bool) (l : list X) : list X :=
    fold_left (fun acc x => insert_by lt x acc) l [].

  (** (self[i-1], self[i], i) for i = 0 .. n-1 *)
  Fixpoint pairs_from (i : nat) (prev : V) (vs : list V) : list sweep_entry :=
    match vs with
    | [] => []
    | v :: vs' => (prev, v, i) :: pairs_from (S i) v vs'
    end.
  Definition indexed_edges (vs : list V) : list sweep_entry :=
    match vs with [] => [] | v :: _ => pairs_from 0 (last vs v) vs end.
  Definition sweep_points (vs : list V) : list sweep_entry :=
    let es := indexed_edges vs in
    sort_by entry_ltb (es ++ map (fun '(a, b, i) => (b, a, i)) es).

  Definition index_dist (i j : nat) : nat := (i - j) + (j - i).   (* abs(i - j) *)
  (** polygon.py:387-389: does the starting edge hit an open edge? *)
  Definition hits_open (last_index : nat) (x : sweep_entry) (open : list sweep_entry) : bool :=
    let '(s, e, i) := x in
    existsb (fun '(os, oe, oi) =>
      Nat.ltb (index_dist i oi) last_index && Nat.ltb 1 (index_dist i oi)
      && segments_intersect s e os oe) open.
  (** polygon.py:381-395: the sweep loop; [open] models the dict
      [open_segments] (index -> entry). *)
  Fixpoint sweep (last_index : nat) (open : list sweep_entry) (pts : list sweep_entry) : bool :=
    match pts with
    | [] => true
    | x :: pts' =>
        let '(_, i) := x in
        if existsb (fun y => Nat.eqb (snd y) i) open then
          sweep last_index (filter (fun y => negb (Nat.eqb (snd y) i)) open) pts'
        else if hits_open last_index x open then false
        else sweep last_index (open ++ [x]) pts'
    end.
  (** polygon.py:362-395 [_check_is_simple] *)
  Definition check_is_simple (vs : list V) : bool :=
    sweep (length vs - 1) [] (sweep_points vs).

  Definition set_simple (p : P) (b : bool) : P :=
    mkPoly (pverts p) (pconvex p) (Some b) (pypl p) (pdupe p) (pdegen p) (pbbox p)
      (pcentroid p) (pmaxr2 p) (pminr2 p) (ptri p).
  (** polygon.py:322-337 [is_simple] *)
  Definition get_is_simple : pcall bool := fun p =>
    match psimple p with
    | Some b => (Ok b, p)
    | None =>
        match (match pconvex p with None => classify p | Some _ => Ok p end) with
        | Err e => (Err e, p)
        | Ok p1 =>
            match psimple p1 with
            | Some b => (Ok b, p1)
            | None => let b := check_is_simple (pverts p1) in (Ok b, set_simple p1 b)
            end
        end
    end.

  (** *** Centroid *)

  (** polygon.py:414-422: loop of [centroid]: a = self[0] fixed, b the previous
      vertex; state (b, centroid, total_area) *)
  Definition centroid_step (a : V) (st : V * V * T) (c : V) : V * V * T :=
    let '(b, cen, total) := st in
    let area := (vx b - vx a) * (vy c - vy a) - (vx c - vx a) * (vy b - vy a) in
    (c, vadd cen (vscale (vadd (vadd a b) c) area), total + area).
  (** polygon.py:409-423: the value for a simple polygon *)
  Definition centroid_value (vs : list V) : res V :=
    match vs with
    | a :: b :: rest =>
        let '(_, cen, total) := fold_left (centroid_step a) rest (b, vec2 n0 n0, n0) in
        vdivs cen (n3 * total)
    | _ => Err IndexError
    end.
  Definition set_centroid (p : P) (c : option V) : P :=
    mkPoly (pverts p) (pconvex p) (psimple p) (pypl p) (pdupe p) (pdegen p) (pbbox p)
      (Some c) (pmaxr2 p) (pminr2 p) (ptri p).
  (** polygon.py:397-427 [centroid] *)
  Definition get_centroid : pcall (option V) := fun p =>
    match pcentroid p with
    | Some c => (Ok c, p)
    | None =>
        match get_is_simple p with
        | (Err e, p1) => (Err e, p1)
        | (Ok true, p1) =>
            match centroid_value (pverts p1) with
            | Err e => (Err e, p1)
            | Ok c => (Ok (Some c), set_centroid p1 (Some c))
            end
        | (Ok false, p1) => (Ok None, set_centroid p1 None)
        end
    end.

  (** *** Mutation *)

  (** polygon.py:437-439 [__setitem__] (an index; slices are not modelled) *)
  Definition poly_setitem (i : Z) (v : V) : pcall unit := fun p =>
    match py_set (pverts p) i (vec2_of v) with
    | Err e => (Err e, p)
    | Ok vs => (Ok tt, cleared vs (ptri p))
    end.
  (** polygon.py:515-522 [__imul__] by an Affine: [itransform] assigns every
      vertex through [__setitem__] (clearing caches), then caches are cleared
      again; for the identity only the final clearing happens. *)
  Definition poly_imul (p : P) (m : A) : P :=
    cleared (itransform m (pverts p)) (ptri p).
  (** transform.py:262-271 [Affine * polygon]; also [polygon * Affine] *)
  Definition poly_mul (p : P) (m : A) : P :=
    poly_from_points (map (aapply m) (pverts p)).

  (** polygon.py:524-537 [__copy__]; 539-543 [__deepcopy__] *)
  Definition poly_copy (p : P) : P :=
    mkPoly (pverts p) (pconvex p) (psimple p) (pypl p) (pdupe p) (pdegen p) (pbbox p)
      (pcentroid p) (pmaxr2 p) (pminr2 p) None.
  Definition poly_deepcopy (p : P) : P :=
    mkPoly (pverts p) (pconvex p) (psimple p) None (pdupe p) (pdegen p) None
      (pcentroid p) (pmaxr2 p) (pminr2 p) None.

  (** *** Equality *)

  (** polygon.py:441-498.  Trigrams (a, b, c, k); set membership is by [==] of
      the components (hashing is assumed consistent with [==]). *)
  Definition tgram : Type := (V * V * V * nat)%type.
  Definition tgram_eqb (s t : tgram) : bool :=
    let '(a, b, c, i) := s in let '(a', b', c', i') := t in
    vec_eqb a a' && vec_eqb b b' && vec_eqb c c' && Nat.eqb i i'.
  Definition tg_mem (t : tgram) (s : list tgram) : bool := existsb (tgram_eqb t) s.
  (** 461-463, 470-472, 487-489: [while tgram in edges: tgram = (a, b, c, i+1)];
      at most one iteration per element of the set, so fuel = its size + 1. *)
  Fixpoint tg_fresh (fuel : nat) (t : tgram) (s : list tgram) : tgram :=
    match fuel with
    | O => t
    | S f => if tg_mem t s
             then let '(a, b, c, i) := t in tg_fresh f (a, b, c, S i) s
             else t
    end.
  Definition tg_add (s : list tgram) (abc : V * V * V) : list tgram :=
    let '(a, b, c) := abc in tg_fresh (S (length s)) (a, b, c, 0%nat) s :: s.
  (** (self[i-2], self[i-1], self[i]) for i = 0 .. n-1, n >= 2 *)
  Fixpoint trigrams_from (a b : V) (vs : list V) : list (V * V * V) :=
    match vs with
    | [] => []
    | c :: vs' => (a, b, c) :: trigrams_from b c vs'
    end.
  Definition trigrams (vs : list V) : res (list (V * V * V)) :=
    match vs with
    | [] => Ok []
    | _ => let* y := py_get vs (-1) in
           let* x := py_get vs (-2) in
           Ok (trigrams_from x y vs)
    end.
  (** 466-480, 485-497: add the trigrams one by one, giving up ([None]) as soon
      as one is not in [self_edges] *)
  Fixpoint match_edges (self_edges other_edges : list tgram) (ts : list (V * V * V))
    : option (list tgram) :=
    match ts with
    | [] => Some other_edges
    | (a, b, c) :: ts' =>
        let t := tg_fresh (S (length other_edges)) (a, b, c, 0%nat) other_edges in
        if tg_mem t self_edges then match_edges self_edges (t :: other_edges) ts'
        else None
    end.
  (** Python set equality *)
  Definition set_eqb (s t : list tgram) : bool :=
    Nat.eqb (length s) (length t) && forallb (fun x => tg_mem x t) s.
  Definition poly_eqb_verts (vs ws : list V) : res bool :=
    if negb (Nat.eqb (length vs) (length ws)) then Ok false
    else if forallb (fun ab => negb (vec_neb (fst ab) (snd ab))) (combine vs ws) then Ok true
    else
      let* st := trigrams vs in
      let self_edges := fold_left tg_add st [] in
      let* ot := trigrams ws in
      let fwd := match match_edges self_edges [] ot with
                 | Some oe => set_eqb self_edges oe
                 | None => false
                 end in
      if fwd then Ok true
      else match match_edges self_edges [] (map (fun '(a, b, c) => (c, b, a)) ot) with
           | Some oe => Ok (set_eqb self_edges oe)
           | None => Ok false
           end.
  Definition poly_eqb (p q : P) : res bool := poly_eqb_verts (pverts p) (pverts q).
  (** polygon.py:500-501 *)
  Definition poly_neb (p q : P) : res bool := let* b := poly_eqb p q in Ok (negb b).

  (** *** Point in polygon *)

  (** polygon.py:569-581 *)
  Definition side (v0 v1 p : V) : T :=
    (vx v1 - vx v0) * (vy p - vy v0) - (vx p - vx v0) * (vy v1 - vy v0).
  Definition wind_contrib (p v0 v1 : V) : Z :=
    let v0_above := vy v0 >=? vy p in
    let v1_above := vy v1 >=? vy p in
    if xorb v0_above v1_above then
      if v1_above then (if side v0 v1 p <=? n0 then 1%Z else 0%Z)
      else (if side v0 v1 p >=? n0 then (-1)%Z else 0%Z)
    else 0%Z.
  Fixpoint wind_loop (p v0 : V) (w : Z) (vs : list V) : Z :=
    match vs with
    | [] => w
    | v1 :: vs' => wind_loop p v1 (w + wind_contrib p v0 v1)%Z vs'
    end.
  (** polygon.py:547-582 [_pnp_winding_test] *)
  Definition winding_test (vs : list V) (p : V) : res bool :=
    let* v0 := py_get vs (-1) in
    Ok (negb (Z.eqb (wind_loop p v0 0 vs) 0)).

  (** bisect.bisect_right(a, (py,)) on a list of (y, x) pairs:
      (py,) < (y, x) iff py == y (shorter tuple first) or py < y. *)
  Definition key_before (py : T) (q : T * T) : bool :=
    if py =? fst q then true else py <? fst q.
  Fixpoint bisect_loop (fuel : nat) (a : list (T * T)) (py : T) (lo hi : nat) : res nat :=
    match fuel with
    | O => Err OutOfFuel
    | S f =>
        if Nat.ltb lo hi then
          let mid := Nat.div2 (lo + hi) in
          match nth_error a mid with
          | None => Err IndexError
          | Some q => if key_before py q then bisect_loop f a py lo mid
                      else bisect_loop f a py (S mid) hi
          end
        else Ok lo
    end.
  Definition bisect_right (a : list (T * T)) (py : T) : res nat :=
    bisect_loop (S (length a)) a py 0 (length a).

  Definition side_yx (q0 q1 : T * T) (p : V) : T :=
    (snd q1 - snd q0) * (vy p - fst q0) - (vx p - snd q0) * (fst q1 - fst q0).
  (** polygon.py:584-607 [_pnp_y_monotone_test] *)
  Definition y_monotone_test (pl : list (T * T) * list (T * T)) (p : V) : res bool :=
    let '(lp, rp) := pl in
    let* i := bisect_right lp (vy p) in
    if Nat.eqb i 0 || Nat.eqb i (length lp) then Ok false else
    let* q0 := py_get lp (Z.of_nat i - 1) in
    let* q1 := py_get lp (Z.of_nat i) in
    if side_yx q0 q1 p >? n0 then Ok false else
    let* i := bisect_right rp (vy p) in
    let* q0 := py_get rp (Z.of_nat i - 1) in
    let* q1 := py_get rp (Z.of_nat i) in
    Ok (side_yx q0 q1 p >? n0).

  (** polygon.py:619: sort key (y, x) *)
  Definition yx_ltb (a b : V) : bool :=
    if vy a =? vy b then (if vx a =? vx b then false else vx a <? vx b)
    else vy a <? vy b.
  (** polygon.py:635-652: the two closures *)
  Definition tri_eval (c : tri_closure T) (p : V) : bool :=
    let v2 := vsub p (tc_mid c) in
    let dot02 := dot (tc_v0 c) v2 in
    let dot12 := dot (tc_v1 c) v2 in
    let u := (tc_dot11 c * dot02 - tc_dot01 c * dot12) * tc_inv c in
    let v := (tc_dot00 c * dot12 - tc_dot01 c * dot02) * tc_inv c in
    if tc_two c then (u >=? n0) && (v >=? n0) && (u + v <? n1)
    else (u >? n0) && (v >? n0) && (u + v <=? n1).
  (** polygon.py:619-634: the closure built for three vertices, or [None] when the
      method returns False without storing one *)
  Definition tri_build (E : T) (vs : list V) : res (option (tri_closure T)) :=
    match sort_by yx_ltb vs with
    | [lo; mid; hi] =>
        let v0 := vsub lo mid in
        let v1 := vsub hi mid in
        if is_null E v0 || is_null E v1 then Ok None else
        let dot01 := dot v0 v1 in
        let dot00 := length2 v0 in
        let dot11 := length2 v1 in
        let denom := dot00 * dot11 - dot01 * dot01 in
        if nfalsy denom then Ok None else
        let* inv := pydiv n1 denom in
        let two := ((vx hi - vx lo) * (vy mid - vy lo)
                    - (vx mid - vx lo) * (vy hi - vy lo)) >? n0 in
        Ok (Some (mkTri mid v0 v1 dot00 dot01 dot11 inv two))
    | _ => Err ValueError
    end.
  (** polygon.py:609-656 [_pnp_triangle_test], with the method override *)
  Definition triangle_test (E : T) (pt : V) : pcall bool := fun p =>
    match ptri p with
    | Some c => (Ok (tri_eval c pt), p)
    | None =>
        match tri_build E (pverts p) with
        | Err e => (Err e, p)
        | Ok None => (Ok false, p)
        | Ok (Some c) =>
            (Ok (tri_eval c pt),
             mkPoly (pverts p) (pconvex p) (psimple p) (pypl p) (pdupe p) (pdegen p)
               (pbbox p) (pcentroid p) (pmaxr2 p) (pminr2 p) (Some c))
        end
    end.

  (** polygon.py:676-682: the radius shortcuts; [Ok None] when undecided.
      [None - point] raises TypeError. *)
  Definition radial_shortcut (p : P) (pt : V) : res (option bool) :=
    if Nat.ltb 4 (length (pverts p)) then
      match pcentroid p with
      | None => Ok None
      | Some None => Err TypeError
      | Some (Some c) =>
          let d2 := length2 (vsub c pt) in
          let inside := match pminr2 p with Some r => d2 <? r | None => false end in
          let outside := match pmaxr2 p with Some r => d2 >? r | None => false end in
          Ok (if inside then Some true else if outside then Some false else None)
      end
    else Ok None.

  (** polygon.py:658-688 [contains_point]; the point is a Vec2. *)
  Definition contains_point (E : T) (pt : V) : pcall bool := fun p =>
    let sides := length (pverts p) in
    if Nat.eqb sides 3 then triangle_test E pt p else
    match radial_shortcut p pt with
    | Err e => (Err e, p)
    | Ok (Some b) => (Ok b, p)
    | Ok None =>
        match pypl p with
        | Some pl => (y_monotone_test pl pt, p)
        | None =>
            if Nat.eqb sides 4 then (winding_test (pverts p) pt, p)
            else match get_bbox p with
                 | (Err e, p1) => (Err e, p1)
                 | (Ok b, p1) =>
                     if box_contains b pt then (winding_test (pverts p1) pt, p1)
                     else (Ok false, p1)
                 end
        end
    end.

  (** *** Regular polygons and stars *)

  (** polygon.py:110-113: the vertex loop of [regular] *)
  Fixpoint regular_verts (k : nat) (center : V) (radius ang step : T) : list V :=
    match k with
    | O => []
    | S k' =>
        let '(x, y) := cos_sin_deg ang in
        mkV (x * radius + vx center) (y * radius + vy center)
        :: regular_verts k' center radius (ang + step) step
    end.
  (** polygon.py:89-120 [regular]; [vertex_count] is an int *)
  Definition poly_regular (n : nat) (radius : T) (center : V) (ang : T) : res P :=
    let* step := pydiv (nlit 360) (nlit (Z.of_nat n)) in
    let verts := regular_verts n center radius ang step in
    let* p := poly_new verts (Some true) None in
    let* v0 := py_get (pverts p) 0 in
    let* v1 := py_get (pverts p) 1 in
    let min_r := vlength (vsub (vscale (vadd v0 v1) nhalf) center) in
    Ok (mkPoly (pverts p) (pconvex p) (psimple p) (pypl p) (Some false) (pdegen p)
          (pbbox p) (Some (Some (vec2_of center))) (Some (radius * radius))
          (Some (min_r * min_r)) (ptri p)).

  (** polygon.py:147-153: the vertex loop of [star] *)
  Fixpoint star_verts (k : nat) (center : V) (r1 r2 ang step : T) : list V :=
    match k with
    | O => []
    | S k' =>
        let '(x, y) := cos_sin_deg ang in
        let ang' := ang + step in
        let '(x', y') := cos_sin_deg ang' in
        mkV (x * r1 + vx center) (y * r1 + vy center)
        :: mkV (x' * r2 + vx center) (y' * r2 + vy center)
        :: star_verts k' center r1 r2 (ang' + step) step
    end.
  (** polygon.py:122-171 [star] *)
  Definition poly_star (n : nat) (r1 r2 : T) (center : V) (ang : T) : res P :=
    if Nat.ltb n 2 then Err ValueError else
    let* step := pydiv (nlit 180) (nlit (Z.of_nat n)) in
    let verts := star_verts n center r1 r2 ang step in
    let simple := Bool.eqb (r1 >? n0) (r2 >? n0) in
    let* p := poly_new verts (Some (r1 =? r2)) (if simple then Some true else None) in
    let cen := if simple then Some (Some (vec2_of center)) else pcentroid p in
    let max_r := pymax (nabs r1) (nabs r2) in
    let* (minr2, p) :=
      if Bool.eqb (r1 >=? n0) (r2 >=? n0) then
        match get_is_convex p with
        | (Err e, _) => Err e
        | (Ok false, p1) =>
            let min_r := pymin (nabs r1) (nabs r2) in Ok (Some (min_r * min_r), p1)
        | (Ok true, p1) =>
            let* v0 := py_get (pverts p1) 0 in
            let* v1 := py_get (pverts p1) 1 in
            let min_r := vlength (vsub (vscale (vadd v0 v1) nhalf) center) in
            Ok (Some (min_r * min_r), p1)
        end
      else Ok (None, p) in
    let dupe := if (r1 >? n0) && (r2 >? n0) then Some false else pdupe p in
    Ok (mkPoly (pverts p) (pconvex p) (psimple p) (pypl p) dupe (pdegen p)
          (pbbox p) cen (Some (max_r * max_r)) minr2 (ptri p)).

  (** *** repr *)

  (** polygon.py:503-511 [__repr__], as the constructor call it prints: the
      vertices and the keyword arguments.  (Formatting of floats by %r is
      assumed to round-trip, as Python guarantees.) *)
  Definition poly_repr (p : P) : list V * option bool * option bool :=
    (pverts p, pconvex p,
     match pconvex p with
     | Some false => psimple p
     | _ => None
     end).
End Poly.
