(** * Model of the tolerance settings (planar/__init__.py:58-76)

    Elsewhere in the model the tolerance is an explicit argument [E] and
    EPSILON2 is computed from it.  Here the two globals are a state. *)
From Coq Require Import ZArith List Bool.
From Verif Require Import Num Vec.
Import ListNotations.
Local Open Scope num_scope.

(** __init__.py:58-59: the globals EPSILON and EPSILON2. *)
Record settings (T : Type) : Type := mkSet { g_eps : T; g_eps2 : T }.
Arguments mkSet {T} _ _.
Arguments g_eps {T} _.
Arguments g_eps2 {T} _.

Section Settings.
  Context {T : Type} {N : Num T}.

  (** __init__.py:58-59 [EPSILON = 0.], [EPSILON2 = 0.] *)
  Definition settings0 : settings T := mkSet n0 n0.

  (** __init__.py:60-74 [set_epsilon].  EPSILON is assigned before the square
      is computed; [float(epsilon)] of a float is that float; [_set_epsilon]
      (line 50) does nothing. *)
  Definition set_epsilon (epsilon : T) (s : settings T) : res unit * settings T :=
    let s := mkSet epsilon (g_eps2 s) in
    match pypow2 (g_eps s) with
    | Ok e2 => (Ok tt, mkSet (g_eps s) e2)
    | Err x => (Err x, s)
    end.

  (** Calls one after the other, exceptions caught by the caller; the outcomes
      in order and the final state. *)
  Fixpoint set_run (es : list T) (s : settings T) : list (res unit) * settings T :=
    match es with
    | [] => ([], s)
    | e :: es' => let '(r, s1) := set_epsilon e s in
                  let '(rs, s2) := set_run es' s1 in (r :: rs, s2)
    end.

  (** The functions that read EPSILON2, reading the state:
      vector.py:95-101 [is_null], 107-117 [almost_equals], 218-230 [project],
      232-246 [reflect]. *)
  Definition is_null_at (s : settings T) (v : vec T) : bool := length2 v <? g_eps2 s.
  Definition vec_almost_equals_at (s : settings T) (v o : vec T) : bool :=
    let dx := vx v - vx o in
    let dy := vy v - vy o in
    (dx * dx + dy * dy) <? g_eps2 s.
  Definition vec_project_at (s : settings T) (v o : vec T) : res (vec T) :=
    let L := length2 v in
    if L >? g_eps2 s then
      let* q := pydiv (dot v o) L in
      Ok (mkV (vx v * q) (vy v * q))
    else Ok vnull.
  Definition vec_reflect_at (s : settings T) (v o : vec T) : res (vec T) :=
    let L := vx o * vx o + vy o * vy o in
    if L >? g_eps2 s then
      let* temp := pydiv (n2 * (vx v * vx o + vy v * vy o)) L in
      Ok (mkV (vx o * temp - vx v) (vy o * temp - vy v))
    else Ok vnull.
  (** vector.py:119-131 [normalized] reads EPSILON. *)
  Definition normalized_at (s : settings T) (v : vec T) : res (vec T) := normalized (g_eps s) v.
End Settings.
