(** * Reference semantics of Python slices with a step
    (Python language reference, "Sequence types", s[i:j:k]) *)
From Coq Require Import ZArith List.
Import ListNotations.
Local Open Scope Z_scope.

(** Negative bounds count from the end. *)
Definition from_end (n i : Z) : Z := if i <? 0 then i + n else i.
(** Position p of a sequence of length n is selected by [i:j:k] (None: omitted). *)
Definition selected (n : Z) (i j : option Z) (k : Z) (p : Z) : Prop :=
  0 <= p < n /\ exists q, 0 <= q /\
  ((0 < k /\ p = match i with None => 0 | Some i => Z.max 0 (from_end n i) end + q * k /\
    match j with None => True | Some j => p < from_end n j end) \/
   (k < 0 /\ p = match i with None => n - 1 | Some i => Z.min (n - 1) (from_end n i) end + q * k /\
    match j with None => True | Some j => from_end n j < p end)).
(** Listed in the direction of the step. *)
Fixpoint in_step_order (k : Z) (ps : list nat) : Prop :=
  match ps with
  | p :: ((q :: _) as r) => Z.of_nat q = Z.of_nat p + k /\ in_step_order k r
  | _ => True
  end.
