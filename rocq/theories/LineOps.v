(** * Histories of operations on the linear shapes of planar/line.py

    Each operation is modelled twice: as the imperative code is written (a
    sequence of attribute assignments that may be cut short by an exception),
    and as a function to a result.  LineFacts relates the two. *)
From Coq Require Import ZArith List Bool.
From Verif Require Import Num Vec Affine Line.
Import ListNotations.

Section Ops.
  Context {T : Type} {N : Num T}.
  Notation V := (vec T).

  Inductive line_op : Type :=
  | LDirection (v : V) | LNormal (v : V) | LOffset (o : T) | LTransform (m : affine T).
  Inductive ray_op : Type :=
  | RDirection (v : V) | RNormal (v : V) | RAnchor (v : V) | RTransform (m : affine T).
  Inductive seg_op : Type :=
  | SDirection (v : V) | SNormal (v : V) | SAnchor (v : V) | SVector (v : V) | SEnd (v : V)
  | SLength (x : T) | STransform (m : affine T).

  (** ** Imperative reading *)

  (** Code that reads and assigns attributes of [self : S] and may raise. *)
  Definition act (S : Type) : Type := S -> res unit * S.
  Definition seqa {S} (a b : act S) : act S :=
    fun s => match a s with (Err e, s') => (Err e, s') | (Ok _, s') => b s' end.
  Definition assign {S} (f : S -> S) : act S := fun s => (Ok tt, f s).

  (** line.py:45-51; [upd] gives access to the two attributes of [self]. *)
  Definition direction_setter {S} (upd : (dirn T -> dirn T) -> S -> S) (E : T) (value : V) : act S :=
    fun s =>
      match normalized E (vec2_of value) with
      | Err e => (Err e, s)
      | Ok direction =>
          if is_null E direction then (Err ValueError, s)
          else seqa (assign (upd (fun d => mkD direction (dnormal d))))
                    (assign (upd (fun d => mkD (ddir d) (vneg (perpendicular direction))))) s
      end.
  (** line.py:62-68 *)
  Definition normal_setter {S} (upd : (dirn T -> dirn T) -> S -> S) (E : T) (value : V) : act S :=
    fun s =>
      match normalized E (vec2_of value) with
      | Err e => (Err e, s)
      | Ok normal =>
          if is_null E normal then (Err ValueError, s)
          else seqa (assign (upd (fun d => mkD (ddir d) normal)))
                    (assign (upd (fun d => mkD (perpendicular normal) (dnormal d)))) s
      end.
  Definition lupd (f : dirn T -> dirn T) (l : line T) : line T := mkLine (f (ldn l)) (loffset l).
  Definition rupd (f : dirn T -> dirn T) (r : ray T) : ray T := mkRay (f (rdn r)) (ranchor r).
  Definition supd (f : dirn T -> dirn T) (s : segment T) : segment T :=
    mkSeg (f (sdn s)) (sanchor s) (slength s).

  (** line.py:45-68, 202-210: direction, normal, offset, [__imul__] *)
  Definition line_act (E : T) (o : line_op) : act (line T) :=
    match o with
    | LDirection v => direction_setter lupd E v
    | LNormal v => normal_setter lupd E v
    | LOffset x => assign (fun l => mkLine (ldn l) x)
    | LTransform m => fun l =>
        let '(p1, p2) := line_points l in
        let p1 := aapply m p1 in
        let p2 := aapply m p2 in
        seqa (direction_setter lupd E (vsub p2 p1))
             (assign (fun l => mkLine (ldn l) (dot p1 (dnormal (ldn l))))) l
    end.
  (** line.py:284-291, 356-364 *)
  Definition ray_act (E : T) (o : ray_op) : act (ray T) :=
    match o with
    | RDirection v => direction_setter rupd E v
    | RNormal v => normal_setter rupd E v
    | RAnchor v => assign (fun r => mkRay (rdn r) (vec2_of v))
    | RTransform m => fun r =>
        let '(p1, p2) := ray_points r in
        let p1 := aapply m p1 in
        let p2 := aapply m p2 in
        seqa (direction_setter rupd E (vsub p2 p1))
             (assign (fun r => mkRay (rdn r) (vec2_of p1))) r
    end.
  (** line.py:498-506 *)
  Definition vector_setter (E : T) (value : V) : act (segment T) :=
    let vector := vec2_of value in
    let length := vlength vector in
    seqa (if negb (nfalsy length) then direction_setter supd E vector
          else direction_setter supd E (mkV n1 n0))
         (assign (fun s => mkSeg (sdn s) (sanchor s) (vlength vector))).
  (** line.py:484-516, 599-607 *)
  Definition seg_act (E : T) (o : seg_op) : act (segment T) :=
    match o with
    | SDirection v => direction_setter supd E v
    | SNormal v => normal_setter supd E v
    | SAnchor v => assign (fun s => mkSeg (sdn s) (vec2_of v) (slength s))
    | SVector v => vector_setter E v
    | SEnd v => fun s => vector_setter E (vsub (vec2_of v) (sanchor s)) s
    | SLength x => assign (fun s => mkSeg (sdn s) (sanchor s) x)
    | STransform m => fun s =>
        let '(p1, p2) := seg_points s in
        let p1 := aapply m p1 in
        let p2 := aapply m p2 in
        seqa (vector_setter E (vsub p2 p1))
             (assign (fun s => mkSeg (sdn s) p1 (slength s))) s
    end.

  (** The state after a history; an exception in one call does not stop the
      history (the caller may catch it). *)
  Definition runa {S O} (f : O -> act S) (s : S) (os : list O) : S :=
    fold_left (fun s o => snd (f o s)) os s.
  Definition line_run (E : T) : line T -> list line_op -> line T := runa (line_act E).
  Definition ray_run (E : T) : ray T -> list ray_op -> ray T := runa (ray_act E).
  Definition seg_run (E : T) : segment T -> list seg_op -> segment T := runa (seg_act E).

  (** ** Functional reading *)
  Definition line_try (E : T) (l : line T) (o : line_op) : res (line T) :=
    match o with
    | LDirection v => line_set_direction E l v
    | LNormal v => line_set_normal E l v
    | LOffset x => Ok (line_set_offset l x)
    | LTransform m => line_imul E l m
    end.
  Definition ray_try (E : T) (r : ray T) (o : ray_op) : res (ray T) :=
    match o with
    | RDirection v => ray_set_direction E r v
    | RNormal v => ray_set_normal E r v
    | RAnchor v => Ok (ray_set_anchor r v)
    | RTransform m => ray_imul E r m
    end.
  Definition seg_try (E : T) (s : segment T) (o : seg_op) : res (segment T) :=
    match o with
    | SDirection v => seg_set_direction E s v
    | SNormal v => seg_set_normal E s v
    | SAnchor v => Ok (seg_set_anchor s v)
    | SVector v => seg_set_vector E s v
    | SEnd v => seg_set_end E s v
    | SLength x => Ok (seg_set_length s x)
    | STransform m => seg_imul E s m
    end.
  (** What an all-or-nothing call does: the new state, or the exception and
      the old state. *)
  Definition atomically {S} (r : res S) (old : S) : res unit * S :=
    match r with Ok s => (Ok tt, s) | Err e => (Err e, old) end.

  Lemma direction_setter_atomic {S} upd E v (s : S) :
    (forall f g s, upd f (upd g s) = upd (fun d => f (g d)) s) ->
    direction_setter upd E v s = atomically (let* d := set_direction E v in Ok (upd (fun _ => d) s)) s.
  Proof.
    intro H. unfold direction_setter, set_direction. destruct (normalized E (vec2_of v)) as [d|e]; cbn; auto.
    destruct (is_null E d); cbn; auto. unfold seqa, assign. rewrite H. reflexivity.
  Qed.
  Lemma normal_setter_atomic {S} upd E v (s : S) :
    (forall f g s, upd f (upd g s) = upd (fun d => f (g d)) s) ->
    normal_setter upd E v s = atomically (let* d := set_normal E v in Ok (upd (fun _ => d) s)) s.
  Proof.
    intro H. unfold normal_setter, set_normal. destruct (normalized E (vec2_of v)) as [d|e]; cbn; auto.
    destruct (is_null E d); cbn; auto. unfold seqa, assign. rewrite H. reflexivity.
  Qed.
  Lemma line_act_atomic E o l : line_act E o l = atomically (line_try E l o) l.
  Proof.
    destruct o; cbn [line_act line_try].
    - rewrite direction_setter_atomic by reflexivity. reflexivity.
    - rewrite normal_setter_atomic by reflexivity. reflexivity.
    - reflexivity.
    - unfold line_imul. destruct (line_points l). unfold seqa. rewrite direction_setter_atomic by reflexivity.
      destruct (set_direction _ _); reflexivity.
  Qed.
  Lemma ray_act_atomic E o l : ray_act E o l = atomically (ray_try E l o) l.
  Proof.
    destruct o; cbn [ray_act ray_try].
    - rewrite direction_setter_atomic by reflexivity. reflexivity.
    - rewrite normal_setter_atomic by reflexivity. reflexivity.
    - reflexivity.
    - unfold ray_imul. destruct (ray_points l). unfold seqa. rewrite direction_setter_atomic by reflexivity.
      destruct (set_direction _ _); reflexivity.
  Qed.
  Lemma vector_setter_atomic E v s : vector_setter E v s = atomically (seg_set_vector E s v) s.
  Proof.
    unfold vector_setter, seg_set_vector, seg_vector_setter, seqa.
    destruct (negb _); rewrite direction_setter_atomic by reflexivity; destruct (set_direction _ _); reflexivity.
  Qed.
  Lemma seg_act_atomic E o s : seg_act E o s = atomically (seg_try E s o) s.
  Proof.
    destruct o; cbn [seg_act seg_try].
    - rewrite direction_setter_atomic by reflexivity. reflexivity.
    - rewrite normal_setter_atomic by reflexivity. reflexivity.
    - reflexivity.
    - apply vector_setter_atomic.
    - apply vector_setter_atomic.
    - reflexivity.
    - unfold seg_imul. destruct (seg_points s). unfold seqa. rewrite vector_setter_atomic. unfold seg_set_vector.
      destruct (seg_vector_setter _ _) as [[]|]; reflexivity.
  Qed.
End Ops.
Arguments line_op : clear implicits.
Arguments ray_op : clear implicits.
Arguments seg_op : clear implicits.
