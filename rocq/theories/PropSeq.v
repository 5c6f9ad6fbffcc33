(** * Properties C13 - C16: Vec2Array *)
From Coq Require Import ZArith List Bool Reals Lra Lia.
From Verif Require Import Num Vec Affine Seq RBase VecFacts2 SpecGeom SpecSeq SeqFacts.
Import ListNotations.

(** ** C13, over every number system *)
Theorem C13_history : forall (T : Type) (N : Num T) (os : list (arr_op T)), Forall list_op os ->
  forall l l', arr_run l os = l' <-> ref_run l os l'.
Proof. intros T N. exact arr_run_ref. Qed.
Print Assumptions C13_history.

Theorem C13_operations : forall (T : Type) (N : Num T) (l : list (vec T)) (v : vec T) (vs : list (vec T))
    (i : Z) (a b : option Z),
  let w := mkV (vx v * n1)%num (vy v * n1)%num in
  let ws := map (fun v => mkV (vx v * n1)%num (vy v * n1)%num) vs in
  seq_new vs = ws /\
  arr_exec l (OpAppend v) = Ok (l ++ [w]) /\
  arr_exec l (OpExtend vs) = Ok (l ++ ws) /\
  (exists pre post, l = pre ++ post /\ cut_at (length l) i (length pre) /\
     arr_exec l (OpInsert i v) = Ok (pre ++ w :: post)) /\
  ((exists pre x post, addresses l i pre x post /\ py_get l i = Ok x /\
      arr_exec l (OpSet i v) = Ok (pre ++ w :: post) /\ arr_exec l (OpDel i) = Ok (pre ++ post)) \/
   (bad_index l i /\ py_get l i = Err IndexError /\
    arr_exec l (OpSet i v) = Err IndexError /\ arr_exec l (OpDel i) = Err IndexError /\
    arr_step l (OpSet i v) = l /\ arr_step l (OpDel i) = l)) /\
  (exists pre mid post, sliced l a b pre mid post /\ py_getslice l a b = mid /\
     arr_exec l (OpSetSlice a b vs) = Ok (pre ++ ws ++ post) /\
     arr_exec l (OpDelSlice a b) = Ok (pre ++ post)).
Proof. intros T N. exact arr_exec_spec. Qed.
Print Assumptions C13_operations.

(** A history with a negative, an out-of-range and a slice index. *)
Example C13_ex : forall a b c : vec R,
  arr_run [a; b] [OpAppend c; OpSet (-1) a; OpDel 7; OpInsert (-10) b; OpDelSlice (Some 1%Z) (Some (-1)%Z)] = [b; a].
Proof. intros; unfold arr_run, arr_step; cbn. rewrite !vec2_of_R. auto. Qed.

(** ** C14, over every number system *)
Theorem C14_add_sub_mul : forall (T : Type) (N : Num T),
  total_arith nadd arr_add /\ total_arith nsub arr_sub /\ total_arith nmul arr_mul.
Proof. intros T N. exact (conj add_total (conj sub_total mul_total)). Qed.
Print Assumptions C14_add_sub_mul.

Theorem C14_mul_scalar : forall (T : Type) (N : Num T) (l : list (vec T)) (s : T),
  exists r, arr_mul l (OScalar s) = Ok r /\
    elementwise1 (fun a c => c = mkV (vx a * s)%num (vy a * s)%num) l r.
Proof. intros T N. exact mul_scalar. Qed.
Print Assumptions C14_mul_scalar.

Theorem C14_div_floordiv : forall (T : Type) (N : Num T),
  div_arith ndiv arr_div /\ div_arith nfloordiv arr_fdiv.
Proof. intros T N. exact (conj div_spec fdiv_spec). Qed.
Print Assumptions C14_div_floordiv.

Theorem C14_inplace_same : forall (T : Type) (N : Num T) (l : list (vec T)) (o : arr_operand T),
  arr_exec l (OpIAdd o) = arr_add l o /\ arr_exec l (OpISub o) = arr_sub l o /\
  arr_exec l (OpIMul o) = arr_mul l o /\ arr_exec l (OpIDiv o) = arr_div l o /\
  arr_exec l (OpIFloorDiv o) = arr_fdiv l o.
Proof. intros T N. exact inplace_same. Qed.
Print Assumptions C14_inplace_same.

Theorem C14_failure_unchanged : forall (T : Type) (N : Num T) (l : list (vec T)) (o : arr_op T) e,
  arr_exec l o = Err e -> arr_step l o = l.
Proof. intros T N. exact step_failure_unchanged. Qed.
Print Assumptions C14_failure_unchanged.

Theorem C14_reversed : forall (T : Type) (N : Num T) (l m : list (vec T)),
  (length l <> length m -> arr_rsub l (OSeq m) = Err ValueError /\ arr_rdiv l (OSeq m) = Err ValueError
                        /\ arr_rfdiv l (OSeq m) = Err ValueError) /\
  (length l = length m -> arr_rsub l (OSeq m) = arr_sub m (OSeq l)) /\
  (forall r, arr_rdiv l (OSeq m) = Ok r <-> arr_div m (OSeq l) = Ok r) /\
  (forall r, arr_rfdiv l (OSeq m) = Ok r <-> arr_fdiv m (OSeq l) = Ok r).
Proof. intros T N. exact reversed_ops. Qed.
Print Assumptions C14_reversed.

Theorem C14_negation : forall (T : Type) (N : Num T) (l : list (vec T)),
  elementwise1 (fun a c => c = mkV (nopp (vx a)) (nopp (vy a))) l (arr_neg l).
Proof.
  intros T N l. unfold arr_neg. split; [rewrite map_length; auto|].
  intros k a H. exists (vneg a). split; [rewrite nth_error_map, H; auto|reflexivity].
Qed.
Print Assumptions C14_negation.

Example C14_ex : arr_exec [mkV 1%R 2%R; mkV 3%R 4%R] (OpIAdd (OSeq [mkV 1%R 1%R])) = Err ValueError.
Proof. reflexivity. Qed.

(** ** C15 *)
Local Open Scope R_scope.
Theorem C15_shortest : forall l : list pt,
  (l = [] -> arr_shortest l = None) /\
  (l <> [] -> exists x, arr_shortest l = Some x /\ first_best (fun a b => norm a < norm b) l x).
Proof. exact shortest_spec. Qed.
Print Assumptions C15_shortest.

(** Full statement: l <> [] -> exists x, arr_longest l = Some x /\ first_best ... *)
Theorem C15_longest_zeros_refuted : exists l : list pt, l <> [] /\ arr_longest l = None.
Proof.
  exists [mkV 0 0]. split; [discriminate|]. apply (proj2 (longest_spec [mkV 0 0])).
  intros x [<-|[]]. apply norm_zero. reflexivity.
Qed.
Print Assumptions C15_longest_zeros_refuted.

(** Correct as soon as some vector is not null; a first longest vector always
    exists. *)
Theorem C15_longest_partial : forall l : list pt,
  (forall x, first_best (fun a b => norm b < norm a) l x -> 0 < norm x -> arr_longest l = Some x) /\
  ((forall x, In x l -> norm x = 0) -> arr_longest l = None).
Proof. exact longest_spec. Qed.
Print Assumptions C15_longest_partial.

Theorem C15_first_longest_exists : forall l : list pt, l <> [] ->
  exists x, first_best (fun a b => norm b < norm a) l x.
Proof. exact first_max_exists. Qed.
Print Assumptions C15_first_longest_exists.
