(** * The tangent methods *)
From Coq Require Import ZArith List Bool Reals Lra Lia Psatz.
From Verif Require Import Num Vec Seq Polygon Tangent SpecGeom SpecTangent RBase VecFacts2 PolyCache PolyCache2 ConvexFacts4 CentroidFacts TangentFacts TangentFacts2 TangentFacts3.
Import ListNotations.
Local Open Scope R_scope.

Section Ends.
  Variables (t : Z -> R) (n i m : Z).
  Hypothesis A : arcs t n i m.
  Let n0 : (0 < n)%Z. Proof. pose proof (a_im _ _ _ _ A). lia. Qed.
  Lemma norm_into k b : exists z, (b <= k + z * n < b + n)%Z.
  Proof. exists (- ((k - b) / n))%Z. pose proof (Z.div_mod (k - b) n ltac:(lia)). pose proof (Z.mod_pos_bound (k - b) n n0). lia. Qed.
  Lemma arc_max k : t k <= t i.
  Proof.
    destruct (norm_into k i) as (z & Hz). rewrite <- (per_mul t n i m A k z). destruct (Z_le_dec (k + z * n) m) as [L|L].
    - apply (arc_down t n i m A); lia.
    - rewrite <- (a_per _ _ _ _ A i). apply Rlt_le, (arc_up t n i m A); lia.
  Qed.
  Lemma arc_min k : t m <= t k.
  Proof.
    pose proof (a_im _ _ _ _ A). destruct (norm_into k m) as (z & Hz). rewrite <- (per_mul t n i m A k z). destruct (Z_le_dec (k + z * n) (i + n)) as [L|L].
    - destruct (Z.eq_dec (k + z * n) m) as [->|]; [lra|]. apply Rlt_le, (arc_up t n i m A); lia.
    - rewrite <- (a_per _ _ _ _ A m). pose proof (arcs_shift _ _ _ _ A 1) as A2. replace (i + 1 * n)%Z with (i + n)%Z in A2 by lia. replace (m + 1 * n)%Z with (m + n)%Z in A2 by lia.
      apply (arc_down _ _ _ _ A2); lia.
  Qed.
  Lemma only_top c : (i - n < c < i + n)%Z -> t (c + 1)%Z <= t c -> t (c - 1)%Z < t c -> c = i.
  Proof.
    intros Hc D U. pose proof (a_im _ _ _ _ A) as IM. pose proof (arcs_shift _ _ _ _ A (-1)) as A'. replace (i + -1 * n)%Z with (i - n)%Z in A' by lia. replace (m + -1 * n)%Z with (m - n)%Z in A' by lia.
    destruct (Z.eq_dec c i) as [|NC]; auto. exfalso.
    destruct (Z_lt_le_dec c (m - n)) as [L1|L1]. { pose proof (a_down _ _ _ _ A' (c - 1)%Z ltac:(lia)) as K. replace (c - 1 + 1)%Z with c in K by lia. lra. }
    destruct (Z_lt_le_dec c i) as [L2|L2]. { pose proof (a_up _ _ _ _ A' c ltac:(lia)). lra. }
    destruct (Z_lt_le_dec c m) as [L3|L3]. { pose proof (a_down _ _ _ _ A (c - 1)%Z ltac:(lia)) as K. replace (c - 1 + 1)%Z with c in K by lia. lra. }
    pose proof (a_up _ _ _ _ A c ltac:(lia)). lra.
  Qed.
  Lemma only_bottom c : (m - n < c < m + n)%Z -> t c < t (c + 1)%Z -> t c <= t (c - 1)%Z -> c = m.
  Proof.
    intros Hc D U. pose proof (a_im _ _ _ _ A) as IM. pose proof (arcs_shift _ _ _ _ A (-1)) as A'. replace (i + -1 * n)%Z with (i - n)%Z in A' by lia. replace (m + -1 * n)%Z with (m - n)%Z in A' by lia.
    pose proof (arcs_shift _ _ _ _ A 1) as A2. replace (i + 1 * n)%Z with (i + n)%Z in A2 by lia. replace (m + 1 * n)%Z with (m + n)%Z in A2 by lia.
    destruct (Z.eq_dec c m) as [|NC]; auto. exfalso.
    destruct (Z_lt_le_dec c i) as [L1|L1]. { pose proof (a_up _ _ _ _ A' (c - 1)%Z ltac:(lia)) as K. replace (c - 1 + 1)%Z with c in K by lia. lra. }
    destruct (Z_lt_le_dec c m) as [L2|L2]. { pose proof (a_down _ _ _ _ A c ltac:(lia)). lra. }
    destruct (Z_lt_le_dec c (i + n)) as [L3|L3]. { pose proof (a_up _ _ _ _ A (c - 1)%Z ltac:(lia)) as K. replace (c - 1 + 1)%Z with c in K by lia. lra. }
    pose proof (a_down _ _ _ _ A2 c ltac:(lia)). lra.
  Qed.
End Ends.

Section Methods.
  Variables (s : R) (vs : list pt) (p d : pt).
  Hypothesis SC : strictly_convex s vs.
  Hypothesis FR : forall v, In v vs -> front d p v.
  Let n := Z.of_nat (length vs).
  Notation V := (vat vs).
  Notation t := (tat vs p d).
  Let H3' : (3 <= length vs)%nat. Proof. apply SC. Qed.
  Let Hn : (1 <= length vs)%nat. Proof. lia. Qed.
  Let H3 : (3 <= n)%Z. Proof. unfold n. lia. Qed.
  Let HV : forall k, (- n <= k < n)%Z -> py_get vs k = Ok (V k). Proof. intros. apply vat_get; auto. Qed.
  Let Hpos : forall i j, 0 < orient p (V i) (V j) <-> t i < t j. Proof. intros. apply (t_pos s vs p d SC FR). Qed.
  Let Hneg : forall i j, orient p (V i) (V j) < 0 <-> t j < t i. Proof. intros. apply (t_neg s vs p d SC FR). Qed.
  Lemma left_finds : exists i, left_tan_i_convex vs p = Ok i /\ (-1 <= i <= n - 2)%Z /\ forall k, t k <= t i.
  Proof.
    destruct (convex_arcs s vs p d SC FR) as (i0 & m0 & A0). fold n in A0. destruct (norm_into _ _ _ _ A0 i0 (-1)) as (z & Hz). pose proof (arcs_shift _ _ _ _ A0 z) as A.
    set (i := (i0 + z * n)%Z) in *. set (m := (m0 + z * n)%Z) in *. clearbody i m. exists i. split; [|split; [lia|apply (arc_max _ _ _ _ A)]].
    unfold left_tan_i_convex. rewrite !HV by lia. cbn [bind]. rewrite (below_R p t V Hneg), (above_R p t V Hpos).
    pose proof (a_im _ _ _ _ A) as IM.
    destruct (Rltb_spec (t (-1)%Z) (t 0%Z)) as [D|D]; cbn [negb andb].
    - apply (left_loop_finds vs p t V HV Hpos Hneg H3' (length vs) (-1)%Z (n - 1)%Z i m A); try lia.
      destruct (Z.eq_dec i (-1)) as [E|]; [|lia]. pose proof (a_down _ _ _ _ A i ltac:(lia)) as K. rewrite E in K. replace (-1 + 1)%Z with 0%Z in K by lia. lra.
    - destruct (Rltb_spec (t (-2)%Z) (t (-1)%Z)) as [U|U].
      + f_equal. apply (only_top _ _ _ _ A); [lia|exact D|exact U].
      + apply (left_loop_finds vs p t V HV Hpos Hneg H3' (length vs) (-1)%Z (n - 1)%Z i m A); try lia.
        destruct (Z.eq_dec i (-1)) as [E|]; [|lia]. pose proof (a_up _ _ _ _ A (i + n - 1)%Z ltac:(lia)) as K. replace (i + n - 1 + 1)%Z with (i + n)%Z in K by lia.
        replace (i + n - 1)%Z with (i - 1 + n)%Z in K by lia. rewrite !(a_per _ _ _ _ A), E in K. replace (-1 - 1)%Z with (-2)%Z in K by lia. lra.
  Qed.
  Lemma right_finds : (forall k, t k <> t (k + 1)%Z) -> exists m, right_tan_i_convex vs p = Ok m /\ (-1 <= m <= n - 2)%Z /\ forall k, t m <= t k.
  Proof.
    intro OFF. destruct (convex_arcs s vs p d SC FR) as (i0 & m0 & A0). fold n in A0. destruct (norm_into _ _ _ _ A0 m0 (-1)) as (z & Hz). pose proof (arcs_shift _ _ _ _ A0 z) as A.
    set (i := (i0 + z * n)%Z) in *. set (m := (m0 + z * n)%Z) in *. clearbody i m. exists m. split; [|split; [lia|apply (arc_min _ _ _ _ A)]].
    pose proof (a_im _ _ _ _ A) as IM.
    assert (DM : t m < t (m - 1)%Z). { pose proof (a_down _ _ _ _ A (m - 1)%Z ltac:(lia)) as K. pose proof (OFF (m - 1)%Z). replace (m - 1 + 1)%Z with m in * by lia. lra. }
    unfold right_tan_i_convex. rewrite !HV by lia. cbn [bind]. rewrite (below_R p t V Hneg), (above_R p t V Hpos).
    destruct (Rltb_spec (t (-1)%Z) (t 0%Z)) as [D|D]; cbn [negb andb].
    - destruct (Rltb_spec (t (-2)%Z) (t (-1)%Z)) as [U|U]; cbn [negb].
      + apply (right_loop_finds vs p t V HV Hpos Hneg H3' (length vs) (-1)%Z (n - 1)%Z i m A); auto; try lia.
        destruct (Z.eq_dec m (-1)) as [E|]; [|lia]. rewrite E in DM. replace (-1 - 1)%Z with (-2)%Z in DM by lia. lra.
      + f_equal. apply (only_bottom _ _ _ _ A); [lia|exact D|exact U].
    - apply (right_loop_finds vs p t V HV Hpos Hneg H3' (length vs) (-1)%Z (n - 1)%Z i m A); auto; try lia.
      destruct (Z.eq_dec m (-1)) as [E|]; [|lia]. pose proof (a_up _ _ _ _ A m ltac:(lia)) as K. rewrite E in K. replace (-1 + 1)%Z with 0%Z in K by lia. lra.
  Qed.
End Methods.

(** ** Without any assumption the searches stay on the list *)
Section Total.
  Context {T : Type} {N : Num T}.
  Variables (vs : list (vec T)) (p : vec T).
  Let n := Z.of_nat (length vs).
  Hypothesis Hn : (2 <= length vs)%nat.
  Lemma get_total k : (- n <= k < n)%Z -> exists v, py_get vs k = Ok v /\ In v vs.
  Proof.
    intro H. unfold py_get, py_index. fold n. set (j := if (k <? 0)%Z then (k + n)%Z else k). assert (J : (0 <= j < n)%Z) by (unfold j; destruct (Z.ltb_spec k 0); lia).
    replace ((0 <=? j) && (j <? n))%Z with true by (symmetry; apply andb_true_iff; split; [apply Z.leb_le|apply Z.ltb_lt]; lia).
    destruct (nth_error vs (Z.to_nat j)) as [v|] eqn:E; [exists v; split; auto; apply nth_error_In in E; auto|]. apply nth_error_None in E. unfold n in *. lia.
  Qed.
  Ltac got k := let v := fresh "v" in let E := fresh "E" in let I := fresh "I" in destruct (get_total k) as (v & E & I); [lia|]; rewrite E; cbn [bind].
  Lemma left_loop_total : forall limit a b, (-1 <= a <= b)%Z -> (a <= n - 2)%Z -> (b <= n - 1)%Z -> exists z, left_tan_loop vs p limit a b = Ok z /\ (-1 <= z <= n - 2)%Z.
  Proof.
    induction limit as [|limit IH]; intros a b H1 H2 H3; [exists a; split; [reflexivity|lia]|]. cbn [left_tan_loop]. set (c := ((a + b) / 2)%Z).
    assert (Hc : (a <= c <= b)%Z) by (unfold c; split; [apply Z.div_le_lower_bound|apply Z.div_le_upper_bound]; lia).
    assert (Hc2 : (c <= n - 2)%Z) by (assert (c < n - 1)%Z by (unfold c; apply Z.div_lt_upper_bound; lia); lia). clearbody c.
    assert (N2 : (2 <= n)%Z) by (unfold n; lia).
    assert (J1 : exists z, left_tan_loop vs p limit a c = Ok z /\ (-1 <= z <= n - 2)%Z) by (apply IH; lia).
    assert (J2 : exists z, left_tan_loop vs p limit c b = Ok z /\ (-1 <= z <= n - 2)%Z) by (apply IH; lia).
    destruct (get_total (c + 1)%Z ltac:(lia)) as (x1 & -> & _). destruct (get_total c ltac:(lia)) as (x2 & -> & _). cbn [bind].
    destruct (get_total (c - 1)%Z ltac:(lia)) as (x3 & -> & _). destruct (get_total (a + 1)%Z ltac:(lia)) as (x4 & -> & _). destruct (get_total a ltac:(lia)) as (x5 & -> & _).
    destruct (pt_below p x1 x2); cbn [negb bind orb].
    - destruct (pt_below p x4 x5); [|exact J2]. destruct (pt_below p x5 x2); auto.
    - destruct (pt_above p x3 x2); [exists c; split; [reflexivity|lia]|]. destruct (pt_below p x4 x5); [exact J1|]. destruct (pt_above p x5 x2); cbn [negb]; auto.
  Qed.
  Lemma right_loop_total : forall limit a b, (-1 <= a <= b)%Z -> (a <= n - 2)%Z -> (b <= n - 1)%Z -> exists z, right_tan_loop vs p limit a b = Ok z /\ (-1 <= z <= n - 2)%Z.
  Proof.
    induction limit as [|limit IH]; intros a b H1 H2 H3; [exists a; split; [reflexivity|lia]|]. cbn [right_tan_loop]. set (c := ((a + b) / 2)%Z).
    assert (Hc : (a <= c <= b)%Z) by (unfold c; split; [apply Z.div_le_lower_bound|apply Z.div_le_upper_bound]; lia).
    assert (Hc2 : (c <= n - 2)%Z) by (assert (c < n - 1)%Z by (unfold c; apply Z.div_lt_upper_bound; lia); lia). clearbody c.
    assert (N2 : (2 <= n)%Z) by (unfold n; lia).
    assert (J1 : exists z, right_tan_loop vs p limit a c = Ok z /\ (-1 <= z <= n - 2)%Z) by (apply IH; lia).
    assert (J2 : exists z, right_tan_loop vs p limit c b = Ok z /\ (-1 <= z <= n - 2)%Z) by (apply IH; lia).
    destruct (get_total (c + 1)%Z ltac:(lia)) as (x1 & -> & _). destruct (get_total c ltac:(lia)) as (x2 & -> & _). cbn [bind].
    destruct (get_total (c - 1)%Z ltac:(lia)) as (x3 & -> & _). destruct (get_total (a + 1)%Z ltac:(lia)) as (x4 & -> & _). destruct (get_total a ltac:(lia)) as (x5 & -> & _).
    destruct (pt_below p x1 x2); cbn [negb bind orb].
    - destruct (pt_above p x3 x2); cbn [negb]; [|exists c; split; [reflexivity|lia]]. destruct (pt_above p x4 x5); [exact J1|]. destruct (pt_below p x5 x2); cbn [negb]; auto.
    - destruct (pt_above p x4 x5); [|exact J2]. destruct (pt_above p x5 x2); auto.
  Qed.
  Lemma left_total : exists z, left_tan_i_convex vs p = Ok z /\ (-1 <= z <= n - 2)%Z.
  Proof.
    assert (N2 : (2 <= n)%Z) by (unfold n; lia). unfold left_tan_i_convex. got 0%Z. got (-1)%Z. got (-2)%Z. destruct (negb _ && _); [exists (-1)%Z; split; [reflexivity|lia]|]. apply left_loop_total; unfold n in *; lia.
  Qed.
  Lemma right_total : exists z, right_tan_i_convex vs p = Ok z /\ (-1 <= z <= n - 2)%Z.
  Proof.
    assert (N2 : (2 <= n)%Z) by (unfold n; lia). unfold right_tan_i_convex. got 0%Z. got (-1)%Z. got (-2)%Z. destruct (_ && _); [exists (-1)%Z; split; [reflexivity|lia]|]. apply right_loop_total; unfold n in *; lia.
  Qed.
  (** A result of the scan is a vertex, possibly rebuilt by Vec2(x, y). *)
  Definition vertexlike (v : vec T) : Prop := In v vs \/ exists w, In w vs /\ v = vec2 (vx w) (vy w).
  Lemma scan_members : forall l v0 t0 L R, (forall v, In v (v0 :: l) -> In v vs) -> vertexlike L -> vertexlike R ->
    exists v' t' L' R', fold_left (tan_step p) l (v0, t0, L, R) = (v', t', L', R') /\ vertexlike L' /\ vertexlike R'.
  Proof.
    induction l as [|v1 l IH]; intros v0 t0 L R Hl HL HR; [exists v0, t0, L, R; auto|]. cbn [fold_left].
    assert (V0 : vertexlike (vec2 (vx v0) (vy v0))) by (right; exists v0; split; [apply Hl; left; auto|auto]).
    assert (exists L1 R1, tan_step p (v0, t0, L, R) v1 = (v1, side v0 v1 p, L1, R1) /\ vertexlike L1 /\ vertexlike R1) as (L1 & R1 & -> & HL1 & HR1).
    { unfold tan_step. cbv zeta. repeat match goal with |- context [if ?c then _ else _] => destruct c end; eauto 6. }
    apply IH; auto. intros v Hv. apply Hl. right. exact Hv.
  Qed.
  Lemma scan_total : exists l r, pt_tangents vs p = Ok (l, r) /\ vertexlike l /\ vertexlike r.
  Proof.
    assert (N2 : (2 <= n)%Z) by (unfold n; lia). unfold pt_tangents.
    destruct (get_total 0%Z ltac:(lia)) as (f & -> & If). destruct (get_total (-2)%Z ltac:(lia)) as (u & -> & Iu). destruct (get_total (-1)%Z ltac:(lia)) as (v0 & -> & I0). cbn [bind].
    destruct (scan_members vs v0 (side u v0 p) f f) as (v' & t' & L & R & -> & HL & HR); [intros v [<-|Hv]; auto|left; auto|left; auto|]. eauto.
  Qed.
End Total.
