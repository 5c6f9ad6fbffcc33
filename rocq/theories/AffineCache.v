(** * Model of the cached predicates of Affine under [set_epsilon]

    util.py:28-37 [cached_property]: the first read stores the value in the
    instance [__dict__] and every later read returns the stored value.
    planar/__init__.py:60-77 [set_epsilon] replaces the global EPSILON and
    touches no transform. *)
From Coq Require Import ZArith List Bool.
From Verif Require Import Num Vec Affine.
Import ListNotations.
Local Open Scope num_scope.

(** The cached boolean attributes (transform.py:163-208). *)
Inductive apred : Type := PIdentity | PRectilinear | PConformal | POrthonormal | PDegenerate.

Section AffineCache.
  Context {T : Type} {N : Num T}.
  Notation A := (affine T).

  (** EPSILON and the instance dict of one transform.  The cached
      [determinant] (transform.py:154-161) does not depend on EPSILON and its
      caching is not observable. *)
  Record astate : Type := mkAS {
    eps : T;
    c_identity : option bool;
    c_rectilinear : option bool;
    c_conformal : option bool;
    c_orthonormal : option bool;
    c_degenerate : option bool }.

  Definition afresh (E : T) : astate := mkAS E None None None None None.

  (** planar/__init__.py:60-77 [set_epsilon] *)
  Definition aset_epsilon (e : T) (s : astate) : astate :=
    mkAS e (c_identity s) (c_rectilinear s) (c_conformal s) (c_orthonormal s) (c_degenerate s).

  (** transform.py:180-187 through util.py:28-37 *)
  Definition read_conformal (m : A) (s : astate) : bool * astate :=
    match c_conformal s with
    | Some b => (b, s)
    | None => let b := is_conformal (eps s) m in
              (b, mkAS (eps s) (c_identity s) (c_rectilinear s) (Some b) (c_orthonormal s) (c_degenerate s))
    end.

  (** transform.py:163-208, each through util.py:28-37.  [is_orthonormal] reads
      [self.is_conformal], which fills that cache entry too. *)
  Definition aread (m : A) (p : apred) (s : astate) : bool * astate :=
    match p with
    | PIdentity =>
        match c_identity s with
        | Some b => (b, s)
        | None => let b := is_identity (eps s) m in
                  (b, mkAS (eps s) (Some b) (c_rectilinear s) (c_conformal s) (c_orthonormal s) (c_degenerate s))
        end
    | PRectilinear =>
        match c_rectilinear s with
        | Some b => (b, s)
        | None => let b := is_rectilinear (eps s) m in
                  (b, mkAS (eps s) (c_identity s) (Some b) (c_conformal s) (c_orthonormal s) (c_degenerate s))
        end
    | PConformal => read_conformal m s
    | POrthonormal =>
        match c_orthonormal s with
        | Some b => (b, s)
        | None =>
            let '(c, s) := read_conformal m s in
            let b := c && (nabs (n1 - (aa m * aa m + ad m * ad m)) <? eps s)
                       && (nabs (n1 - (ab m * ab m + ae m * ae m)) <? eps s) in
            (b, mkAS (eps s) (c_identity s) (c_rectilinear s) (c_conformal s) (Some b) (c_degenerate s))
        end
    | PDegenerate =>
        match c_degenerate s with
        | Some b => (b, s)
        | None => let b := is_degenerate (eps s) m in
                  (b, mkAS (eps s) (c_identity s) (c_rectilinear s) (c_conformal s) (c_orthonormal s) (Some b))
        end
    end.

  (** transform.py:303-322 [__invert__] of a transform with a cache: the
      degeneracy test is a cached read. *)
  Definition ainvert_cached (m : A) (s : astate) : res A * astate :=
    let '(deg, s) := aread m PDegenerate s in
    (if deg then Err TransformNotInvertibleError else
       let* idet := pydiv n1 (determinant m) in
       let ra := ae m * idet in
       let rb := - ab m * idet in
       let rd := - ad m * idet in
       let re := aa m * idet in
       Ok (mkA ra rb (- ac m * ra - af m * rb) rd re (- ac m * rd - af m * re)), s).

  (** An interleaving of property reads and [set_epsilon] calls. *)
  Inductive aop : Type := ORead (p : apred) | OSetEps (e : T) | OInvert.
  Definition astep (m : A) (s : astate) (o : aop) : astate :=
    match o with
    | ORead p => snd (aread m p s)
    | OSetEps e => aset_epsilon e s
    | OInvert => snd (ainvert_cached m s)
    end.
  Definition arun (m : A) (s : astate) (os : list aop) : astate := fold_left (astep m) os s.
End AffineCache.
Arguments astate : clear implicits.
Arguments aop : clear implicits.
