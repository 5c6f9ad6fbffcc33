(** * The barycentric triangle test against the winding number *)
From Coq Require Import ZArith List Bool Reals Lra Lia Psatz Permutation.
From Verif Require Import Num Vec Affine Box Seq Polygon SpecGeom SpecTri RBase VecFacts VecFacts2 SpecCycle PolyEq CentroidFacts WindFacts.
Import ListNotations.
Local Open Scope R_scope.

Lemma yx_ltb_false (a b : pt) : yx_ltb b a = false <-> yx_le a b.
Proof.
  unfold yx_ltb, yx_le. rnum. destruct (Reqb_spec (vy b) (vy a)) as [E|E].
  - destruct (Reqb_spec (vx b) (vx a)).
    + split; auto. intros _. right. lra.
    + destruct (Rltb_spec (vx b) (vx a)); split; auto; try discriminate; intros; lra.
  - destruct (Rltb_spec (vy b) (vy a)); split; auto; try discriminate; intros; lra.
Qed.
Lemma yx_ltb_true (a b : pt) : yx_ltb a b = true -> yx_le a b.
Proof.
  intro H. destruct (yx_ltb b a) eqn:E; [|apply yx_ltb_false; auto]. exfalso. revert H E. unfold yx_ltb. rnum.
  destruct (Reqb_spec (vy a) (vy b)), (Reqb_spec (vy b) (vy a)); try lra;
    destruct (Reqb_spec (vx a) (vx b)), (Reqb_spec (vx b) (vx a)); try discriminate; try lra; rewrite !Rltb_true; lra.
Qed.
Lemma yx_le_antisym (a b : pt) : yx_le a b -> yx_le b a -> a = b.
Proof. unfold yx_le. intros H1 H2. destruct a as [a1 a2], b as [b1 b2]. cbn [vx vy] in *. vext; lra. Qed.
Lemma yx_le_trans (a b c : pt) : yx_le a b -> yx_le b c -> yx_le a c.
Proof. unfold yx_le. intros H1 H2. lra. Qed.

Lemma rot3 {X} (a b c : X) : rotated [a; b; c] [b; c; a] /\ rotated [a; b; c] [c; a; b] /\ rotated [a; b; c] [a; b; c].
Proof. split; [exists [a], [b; c]; auto|]. split; [exists [a; b], [c]; auto|]. exists [], [a; b; c]. auto. Qed.
Lemma sort3 (a b c : pt) : exists lo mid hi, sort_by yx_ltb [a; b; c] = [lo; mid; hi] /\ same_cycle [a; b; c] [lo; mid; hi] /\ Permutation [a; b; c] [lo; mid; hi] /\ yx_le lo mid /\ yx_le mid hi.
Proof.
  assert (S : forall lo mid hi, Permutation [a; b; c] [lo; mid; hi] -> yx_le lo mid -> yx_le mid hi -> same_cycle [a; b; c] [lo; mid; hi] ->
    exists lo' mid' hi', [lo; mid; hi] = [lo'; mid'; hi'] /\ same_cycle [a; b; c] [lo'; mid'; hi'] /\ Permutation [a; b; c] [lo'; mid'; hi'] /\ yx_le lo' mid' /\ yx_le mid' hi').
  { intros. exists lo, mid, hi. auto. }
  unfold sort_by. cbn [fold_left insert_by]. pose proof (rot3 a b c) as (R1 & R2 & R3).
  destruct (yx_ltb b a) eqn:E1; cbn [insert_by].
  - pose proof (yx_ltb_true _ _ E1). destruct (yx_ltb c b) eqn:E2.
    + pose proof (yx_ltb_true _ _ E2). apply S; auto; [|right; auto].
      eapply Permutation_trans; [apply (Permutation_rev [a; b; c])|reflexivity].
    + apply yx_ltb_false in E2. destruct (yx_ltb c a) eqn:E3.
      * pose proof (yx_ltb_true _ _ E3). apply S; auto; [|left; auto]. apply (Permutation_cons_append [b; c] a).
      * apply yx_ltb_false in E3. apply S; auto; [apply perm_swap|]. right. apply R2.
  - apply yx_ltb_false in E1. destruct (yx_ltb c a) eqn:E2.
    + pose proof (yx_ltb_true _ _ E2). apply S; auto; [|left; auto]. apply Permutation_sym, (Permutation_cons_append [a; b] c).
    + apply yx_ltb_false in E2. destruct (yx_ltb c b) eqn:E3.
      * pose proof (yx_ltb_true _ _ E3). apply S; auto; [|right; exact R1]. apply perm_skip, perm_swap.
      * apply yx_ltb_false in E3. apply S; auto. left. auto.
Qed.

(** The closure over the reals, in terms of orientations. *)
Lemma tri_eval_R (lo mid hi p : pt) : let d := orient lo hi mid in d <> 0 ->
  let v0 := vsub lo mid in let v1 := vsub hi mid in
  let denom := length2 v0 * length2 v1 - dot v0 v1 * dot v0 v1 in
  let c := mkTri mid v0 v1 (length2 v0) (dot v0 v1) (length2 v1) (1 / denom) (Rltb 0 d) in
  denom = d * d /\
  (tri_eval c p = true <-> if Rlt_dec 0 d then orient mid hi p <= 0 /\ orient lo mid p <= 0 /\ 0 < orient lo hi p
    else 0 < orient mid hi p /\ 0 < orient lo mid p /\ orient lo hi p <= 0).
Proof.
  intros d Hd v0 v1 denom c.
  assert (Ed : denom = d * d). { subst denom d v0 v1. unfold length2, dot, vsub. rnum. ug. ring. }
  split; auto.
  set (u := - orient mid hi p / d). set (v := - orient lo mid p / d).
  assert (HU : (tc_dot11 c * dot (tc_v0 c) (vsub p mid) - tc_dot01 c * dot (tc_v1 c) (vsub p mid)) * tc_inv c = u).
  { subst u c. cbn [tc_dot11 tc_dot01 tc_v0 tc_v1 tc_inv]. rewrite Ed. apply (Rmult_eq_reg_r (d * d)); [|nra]. field_simplify; auto.
    subst d v0 v1. unfold length2, dot, vsub. rnum. ug. ring. }
  assert (HV : (tc_dot00 c * dot (tc_v1 c) (vsub p mid) - tc_dot01 c * dot (tc_v0 c) (vsub p mid)) * tc_inv c = v).
  { subst v c. cbn [tc_dot00 tc_dot01 tc_v0 tc_v1 tc_inv]. rewrite Ed. apply (Rmult_eq_reg_r (d * d)); [|nra]. field_simplify; auto.
    subst d v0 v1. unfold length2, dot, vsub. rnum. ug. ring. }
  assert (HS : orient lo hi p = d * (1 - u - v)). { subst u v. field_simplify; auto. subst d. ug. ring. }
  assert (HU1 : orient mid hi p = - (d * u)) by (subst u; field; auto). assert (HV1 : orient lo mid p = - (d * v)) by (subst v; field; auto).
  unfold tri_eval. cbn zeta. change (tc_mid c) with mid. change (tc_two c) with (Rltb 0 d). rnum. cbn [vx vy] in *.
  change (@nmul R RNum) with Rmult in *. change (@nsub R RNum) with Rminus in *. 
  rewrite HU, HV, HS, HU1, HV1. clearbody u v d. clear - Hd.
  destruct (Rltb_spec 0 d), (Rlt_dec 0 d); try lra; rewrite !andb_true_iff, ?Rleb_true, ?Rltb_true.
  - split; intro K; [destruct K as [[? ?] ?]|destruct K as (? & ? & ?)]; repeat split; nra.
  - split; intro K; [destruct K as [[? ?] ?]|destruct K as (? & ? & ?)]; repeat split; nra.
Qed.

(** The winding number of a sorted triangle. *)
Lemma wnum_sorted (lo mid hi p : pt) : yx_le lo mid -> yx_le mid hi -> let d := orient lo hi mid in
  (wnum [lo; mid; hi] p <> 0%Z <-> (0 < d /\ orient mid hi p <= 0 /\ orient lo mid p <= 0 /\ 0 < orient lo hi p) \/
    (d < 0 /\ 0 < orient mid hi p /\ 0 < orient lo mid p /\ orient lo hi p <= 0)).
Proof.
  intros H1 H2 d. rewrite wnum_tri, !contrib_cases.
  assert (Y1 : vy lo <= vy mid) by (unfold yx_le in H1; lra). assert (Y2 : vy mid <= vy hi) by (unfold yx_le in H2; lra).
  assert (I1 : (vy hi - vy lo) * orient lo mid p = (vy mid - vy lo) * orient lo hi p - d * (vy p - vy lo)) by (subst d; ug; ring).
  assert (I2 : (vy lo - vy mid) * orient mid hi p + (vy hi - vy mid) * orient lo mid p = - d * (vy p - vy mid)) by (subst d; ug; ring).
  assert (I3 : (vy hi - vy mid) * orient lo hi p - (vy hi - vy lo) * orient mid hi p = d * (vy hi - vy p)) by (subst d; ug; ring).
  assert (I4 : orient lo mid p + orient mid hi p - orient lo hi p = - d) by (subst d; ug; ring).
  replace (orient hi lo p) with (- orient lo hi p) by (ug; ring).
  set (A := orient lo mid p) in *. set (B := orient mid hi p) in *. set (C := orient lo hi p) in *.
  (* when mid or hi are level the x order matters *)
  assert (L1 : vy lo = vy mid -> A = (vx mid - vx lo) * (vy p - vy lo) /\ d = - (vx mid - vx lo) * (vy hi - vy lo)) by (intro; subst A d; ug; rewrite H; split; ring).
  assert (L2 : vy mid = vy hi -> B = (vx hi - vx mid) * (vy p - vy mid) /\ d = (vx hi - vx mid) * (vy mid - vy lo)) by (intro; subst B d; ug; rewrite <- H; split; ring).
  clearbody A B C d. unfold yx_le in *. destruct lo as [lx ly], mid as [mx my], hi as [hx hy], p as [px py]. cbn [vx vy] in *.
  destruct (Rle_dec py ly) as [P1|P1], (Rle_dec py my) as [P2|P2], (Rle_dec py hy) as [P3|P3]; try lra.
  - split; [lia|]. intros [(D & Hb & Ha & Hc)|(D & Hb & Ha & Hc)]; exfalso.
    + destruct (Req_dec ly my) as [Z|Z]; [destruct (L1 Z) as [_ L1']; clear - L1' D H1 Y1 Y2 Z; assert (lx <= mx) by lra; nra|].
      assert (0 < (my - ly) * C) by (clear - Y1 Z Hc; nra). assert (0 <= d * (ly - py)) by (clear - D P1; nra).
      assert ((hy - ly) * A <= 0) by (clear - Y1 Y2 Ha; nra). clear - I1 H H0 H3. lra.
    + destruct (Req_dec ly hy) as [Z|Z]; [destruct L1 as [_ L1']; [lra|]; rewrite Z in L1'; clear - L1' D; nra|].
      assert (0 < (hy - ly) * A) by (clear - Y1 Y2 Z Ha; nra). assert (0 <= - d * (ly - py)) by (clear - D P1; nra).
      assert ((my - ly) * C <= 0) by (clear - Y1 Y2 Hc; nra). clear - I1 H H0 H3. lra.
  - assert (L : 0 < hy - ly) by lra. assert (M : 0 < my - ly) by lra.
    assert (K1 : d = 0 -> (A <= 0 <-> C <= 0)). { intros ->. clear - I1 L M. split; intro; nra. }
    assert (K2 : 0 < d -> C <= 0 -> A < 0). { clear - I1 L M P1. intros. assert (0 < d * (py - ly)) by nra. nra. }
    assert (K3 : 0 < d -> A <= 0 -> B <= 0). { clear - I2 L M P2 Y2. intros. assert (0 <= d * (my - py)) by nra. nra. }
    assert (K4 : d < 0 -> 0 <= C -> 0 < A). { clear - I1 L M P1. intros. assert (0 < - d * (py - ly)) by nra. nra. }
    assert (K5 : d < 0 -> 0 < A -> 0 < B).
    { intros D Ha. destruct (Req_dec my hy) as [Z|Z]; [destruct (L2 Z) as [_ L2']; clear - L2' D M H2 Z; assert (mx <= hx) by lra; nra|].
      assert (0 <= - d * (my - py)) by (clear - D P2; nra). assert (0 < (hy - my) * A) by (clear - Y2 Z Ha; nra). clear - H H0 I2 M. nra. }
    destruct (Rle_dec A 0), (Rle_dec 0 (- C)); split; intro H; try lia; try (exfalso; lra);
      destruct (Rtotal_order d 0) as [D|[D|D]]; try lra.
  - assert (L : 0 < hy - ly) by lra. assert (M : 0 < hy - my) by lra.
    assert (K1 : d = 0 -> (B <= 0 <-> C <= 0)). { intros ->. clear - I3 L M. split; intro; nra. }
    assert (K2 : 0 < d -> B <= 0 -> A <= 0). { clear - I2 L M P2 Y1. intros. assert (0 < d * (py - my)) by nra. nra. }
    assert (K3 : 0 < d -> C <= 0 -> B <= 0). { clear - I3 L M P3. intros. assert (0 <= d * (hy - py)) by nra. nra. }
    assert (K4 : d < 0 -> 0 < B -> 0 < A). { clear - I2 L M P2 Y1. intros. assert (0 < - d * (py - my)) by nra. nra. }
    assert (K5 : d < 0 -> 0 < C -> 0 < B). { clear - I3 L M P3. intros. assert (0 <= - d * (hy - py)) by nra. nra. }
    destruct (Rle_dec B 0), (Rle_dec 0 (- C)); split; intro H; try lia; try (exfalso; lra);
      destruct (Rtotal_order d 0) as [D|[D|D]]; try lra.
  - split; [lia|]. intros [(D & Hb & Ha & Hc)|(D & Hb & Ha & Hc)]; exfalso.
    + assert (0 < d * (py - hy)) by (clear - D P3; nra). assert (0 <= (hy - my) * C) by (clear - Y2 Hc; nra).
      assert (0 <= (hy - ly) * - B) by (clear - Y1 Y2 Hb; nra). lra.
    + assert (0 < - d * (py - hy)) by (clear - D P3; nra). assert (0 <= (hy - my) * - C) by (clear - Y2 Hc; nra).
      assert (0 <= (hy - ly) * B) by (clear - Y1 Y2 Hb; nra). lra.
Qed.
