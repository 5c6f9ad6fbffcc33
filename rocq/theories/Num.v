(** * Python results, exceptions and number systems

    The model of planar is written once, over the operations of the class
    [Num] below, and instantiated with the real numbers here and with IEEE
    binary64 floats in [NumFloat.v]. *)
From Coq Require Import ZArith List Bool Reals Lra.
Import ListNotations.

(** ** Exceptions as values *)

(** The Python exception classes raised by planar (built-in ones and
    planar/__init__.py:48 [TransformNotInvertibleError]).  [OutOfFuel] is not
    a Python exception: it marks the exhaustion of the fuel of a modelled
    [while] loop. *)
Inductive exn : Type :=
| ValueError | TypeError | ZeroDivisionError | IndexError
| AttributeError | UnboundLocalError | OverflowError | TransformNotInvertibleError | OutOfFuel.

(** Result of a Python call: a value or an exception. *)
Inductive res (A : Type) : Type :=
| Ok (a : A)
| Err (e : exn).
Arguments Ok {A} a.
Arguments Err {A} e.

Definition bind {A B : Type} (r : res A) (f : A -> res B) : res B :=
  match r with Ok a => f a | Err e => Err e end.
Definition rmap {A B : Type} (f : A -> B) (r : res A) : res B :=
  match r with Ok a => Ok (f a) | Err e => Err e end.

Notation "'let*' x ':=' r 'in' k" := (bind r (fun x => k))
  (at level 200, x pattern, r at level 100, k at level 200, right associativity).

(** Evaluate a generator/list comprehension whose element expression may
    raise: the first exception, in order, is the outcome. *)
Fixpoint mapM {A B : Type} (f : A -> res B) (l : list A) : res (list B) :=
  match l with
  | [] => Ok []
  | a :: l' => let* b := f a in let* bs := mapM f l' in Ok (b :: bs)
  end.

(** ** Number systems *)

(** The operations on numbers that planar uses.  [ndiv] is the raw quotient;
    Python's [/] is [pydiv] below, which raises on a zero divisor. *)
Class Num (T : Type) : Type := {
  nlit  : Z -> T;            (* integer literals, 0.0, 1.0, 360.0, ... *)
  nhalf : T;                 (* the literal 0.5 *)
  nadd  : T -> T -> T;       (* + *)
  nsub  : T -> T -> T;       (* - *)
  nmul  : T -> T -> T;       (* * *)
  ndiv  : T -> T -> T;       (* / for a non-zero divisor *)
  nopp  : T -> T;            (* unary - *)
  nabs  : T -> T;            (* abs() *)
  nsqrt : T -> T;            (* ** 0.5 *)
  npow2 : T -> T;            (* ** 2 *)
  nisinf : T -> bool;        (* x is an infinity *)
  nfloordiv : T -> T -> T;   (* // for a non-zero divisor *)
  nmod  : T -> T -> T;       (* % for a non-zero divisor *)
  nltb  : T -> T -> bool;    (* < *)
  nleb  : T -> T -> bool;    (* <= *)
  neqb  : T -> T -> bool;    (* == *)
  ncos  : T -> T;            (* math.cos *)
  nsin  : T -> T;            (* math.sin *)
  ntan  : T -> T;            (* math.tan *)
  natan2 : T -> T -> T;      (* math.atan2(y, x) *)
  nhypot : T -> T -> T;      (* math.hypot *)
  nradians : T -> T;         (* math.radians *)
  ndegrees : T -> T          (* math.degrees *)
}.

Declare Scope num_scope.
Delimit Scope num_scope with num.
Notation "a + b" := (nadd a b) : num_scope.
Notation "a - b" := (nsub a b) : num_scope.
Notation "a * b" := (nmul a b) : num_scope.
Notation "- a" := (nopp a) : num_scope.
Notation "a <? b" := (nltb a b) : num_scope.
Notation "a <=? b" := (nleb a b) : num_scope.
Notation "a =? b" := (neqb a b) : num_scope.
Notation "a >? b" := (nltb b a) (only parsing) : num_scope.
Notation "a >=? b" := (nleb b a) (only parsing) : num_scope.
Notation "a !=? b" := (negb (neqb a b)) (at level 70, only parsing) : num_scope.

Section Py.
  Context {T : Type} {N : Num T}.
  Definition n0 : T := nlit 0.
  Definition n1 : T := nlit 1.
  Definition n2 : T := nlit 2.
  Definition n3 : T := nlit 3.

  (** Truth value of a number: [not x] is [nfalsy x]. *)
  Definition nfalsy (x : T) : bool := neqb x n0.

  (** Python's [/], [//] and [%]: ZeroDivisionError on a zero divisor. *)
  Definition pydiv (a b : T) : res T :=
    if neqb b n0 then Err ZeroDivisionError else Ok (ndiv a b).
  Definition pyfloordiv (a b : T) : res T :=
    if neqb b n0 then Err ZeroDivisionError else Ok (nfloordiv a b).

  (** Python's [** 2]: float_pow raises OverflowError when the square of a
      finite double is out of range. *)
  Definition pypow2 (a : T) : res T :=
    if nisinf (npow2 a) && negb (nisinf a) then Err OverflowError else Ok (npow2 a).
  (** [math.tan] raises ValueError on an infinity. *)
  Definition pytan (a : T) : res T :=
    if nisinf a then Err ValueError else Ok (ntan a).

  (** Python's two-argument [min] and [max]: the first argument wins ties. *)
  Definition pymin (a b : T) : T := if nltb b a then b else a.
  Definition pymax (a b : T) : T := if nltb a b then b else a.
End Py.

(** ** The real numbers *)

Definition Rltb (a b : R) : bool := if Rlt_dec a b then true else false.
Definition Rleb (a b : R) : bool := if Rle_dec a b then true else false.
Definition Reqb (a b : R) : bool := if Req_EM_T a b then true else false.

(** [atan2] on the reals, by quadrant (the C standard's definition without
    signed zeros; [atan2 0 0 = 0]). *)
Definition Ratan2 (y x : R) : R :=
  (if Rlt_dec 0 x then atan (y / x)
   else if Rlt_dec x 0 then
          (if Rle_dec 0 y then atan (y / x) + PI else atan (y / x) - PI)
   else if Rlt_dec 0 y then PI / 2
   else if Rlt_dec y 0 then - (PI / 2)
   else 0)%R.

Definition Rfloor (x : R) : R := IZR (Int_part x).

#[export] Instance RNum : Num R := {
  nlit := IZR;
  nhalf := (/ 2)%R;
  nadd := Rplus; nsub := Rminus; nmul := Rmult; ndiv := Rdiv;
  nopp := Ropp; nabs := Rabs; nsqrt := sqrt;
  npow2 := fun x => (x * x)%R;
  nisinf := fun _ => false;
  nfloordiv := fun a b => Rfloor (a / b);
  nmod := fun a b => (a - b * Rfloor (a / b))%R;
  nltb := Rltb; nleb := Rleb; neqb := Reqb;
  ncos := cos; nsin := sin; ntan := tan;
  natan2 := Ratan2;
  nhypot := fun x y => sqrt (x * x + y * y);
  nradians := fun d => (d * (PI / 180))%R;
  ndegrees := fun r => (r * (180 / PI))%R
}.

Lemma Rltb_true a b : Rltb a b = true <-> (a < b)%R.
Proof. unfold Rltb; destruct (Rlt_dec a b); split; intros; auto; discriminate. Qed.
Lemma Rltb_false a b : Rltb a b = false <-> (b <= a)%R.
Proof. unfold Rltb; destruct (Rlt_dec a b); split; intros; try discriminate; try lra; auto. Qed.
Lemma Rleb_true a b : Rleb a b = true <-> (a <= b)%R.
Proof. unfold Rleb; destruct (Rle_dec a b); split; intros; auto; discriminate. Qed.
Lemma Rleb_false a b : Rleb a b = false <-> (b < a)%R.
Proof. unfold Rleb; destruct (Rle_dec a b); split; intros; try discriminate; try lra; auto. Qed.
Lemma Reqb_true a b : Reqb a b = true <-> a = b.
Proof. unfold Reqb; destruct (Req_EM_T a b); split; intros; auto; discriminate. Qed.
Lemma Reqb_false a b : Reqb a b = false <-> a <> b.
Proof. unfold Reqb; destruct (Req_EM_T a b); split; intros; auto; try discriminate; contradiction. Qed.

Lemma Rltb_spec a b : BoolSpec (a < b)%R (b <= a)%R (Rltb a b).
Proof. destruct (Rltb a b) eqn:H; constructor; [apply Rltb_true | apply Rltb_false]; auto. Qed.
Lemma Rleb_spec a b : BoolSpec (a <= b)%R (b < a)%R (Rleb a b).
Proof. destruct (Rleb a b) eqn:H; constructor; [apply Rleb_true | apply Rleb_false]; auto. Qed.
Lemma Reqb_spec a b : BoolSpec (a = b)%R (a <> b)%R (Reqb a b).
Proof. destruct (Reqb a b) eqn:H; constructor; [apply Reqb_true | apply Reqb_false]; auto. Qed.

(** Turn every boolean comparison of reals in hypotheses and goal into a
    proposition. *)
Ltac rbool :=
  repeat match goal with
  | H : Rltb _ _ = true |- _ => apply Rltb_true in H
  | H : Rltb _ _ = false |- _ => apply Rltb_false in H
  | H : Rleb _ _ = true |- _ => apply Rleb_true in H
  | H : Rleb _ _ = false |- _ => apply Rleb_false in H
  | H : Reqb _ _ = true |- _ => apply Reqb_true in H
  | H : Reqb _ _ = false |- _ => apply Reqb_false in H
  | H : _ && _ = true |- _ => apply andb_true_iff in H; destruct H
  | H : _ || _ = false |- _ => apply orb_false_iff in H; destruct H
  | H : negb _ = true |- _ => apply negb_true_iff in H
  | H : negb _ = false |- _ => apply negb_false_iff in H
  | |- Rltb _ _ = true => apply Rltb_true
  | |- Rltb _ _ = false => apply Rltb_false
  | |- Rleb _ _ = true => apply Rleb_true
  | |- Rleb _ _ = false => apply Rleb_false
  | |- Reqb _ _ = true => apply Reqb_true
  | |- Reqb _ _ = false => apply Reqb_false
  | |- _ && _ = true => apply andb_true_iff; split
  | |- _ || _ = false => apply orb_false_iff; split
  end.
