(** * Plane geometry over the reals: the vocabulary of the specifications

    Nothing in this file refers to a modelled function of planar; only the
    record type [vec] of coordinate pairs is shared. *)
From Coq Require Import ZArith List Bool Reals.
From Verif Require Import Num Vec.
Import ListNotations.
Local Open Scope R_scope.

Notation pt := (vec R).

Definition padd (p q : pt) : pt := mkV (vx p + vx q) (vy p + vy q).
Definition psub (p q : pt) : pt := mkV (vx p - vx q) (vy p - vy q).
Definition pscale (k : R) (p : pt) : pt := mkV (k * vx p) (k * vy p).
Definition porigin : pt := mkV 0 0.
Definition pdot (p q : pt) : R := vx p * vx q + vy p * vy q.
(** Twice the signed area spanned by p and q: positive when q is
    counter-clockwise of p (y axis up). *)
Definition pcross (p q : pt) : R := vx p * vy q - vy p * vx q.
(** Orientation of q and r seen from p. *)
Definition orient (p q r : pt) : R := pcross (psub q p) (psub r p).
Definition norm (p : pt) : R := sqrt (vx p * vx p + vy p * vy p).
Definition dist (p q : pt) : R := norm (psub p q).
(** Degrees to radians. *)
Definition deg (d : R) : R := d * PI / 180.
(** Rotation of the plane about the origin, counter-clockwise by d degrees. *)
Definition prot (d : R) (p : pt) : pt :=
  mkV (vx p * cos (deg d) - vy p * sin (deg d)) (vx p * sin (deg d) + vy p * cos (deg d)).

(** The point at ratio t between p and q. *)
Definition between (p q : pt) (t : R) : pt := padd p (pscale t (psub q p)).
Definition on_segment (p q r : pt) : Prop := exists t, 0 <= t <= 1 /\ r = between p q t.

(** d is the distance from p to the set S, attained at q. *)
Definition nearest (S : pt -> Prop) (p q : pt) : Prop :=
  S q /\ forall r, S r -> dist p q <= dist p r.

(** Sum over the consecutive pairs of the closed cycle [l]. *)
Fixpoint cyc_pairs_from {A} (first : A) (l : list A) : list (A * A) :=
  match l with
  | [] => []
  | [a] => [(a, first)]
  | a :: ((b :: _) as l') => (a, b) :: cyc_pairs_from first l'
  end.
Definition cyc_pairs {A} (l : list A) : list (A * A) :=
  match l with [] => [] | a :: _ => cyc_pairs_from a l end.
Definition rsum (l : list R) : R := fold_right Rplus 0 l.
(** Twice the signed area of a closed polygon (shoelace formula). *)
Definition area2 (l : list pt) : R := rsum (map (fun e => pcross (fst e) (snd e)) (cyc_pairs l)).
