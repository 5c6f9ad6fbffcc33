(** * Property C56: point queries on triangles *)
From Coq Require Import ZArith QArith List Bool Reals Lra Lia Permutation.
From Verif Require Import Num Vec Affine Box Seq Polygon Tangent PolyOps SpecPoly SpecGeom SpecTri RBase VecFacts VecFacts2
  PolyCache PolyCache2 PolyCache3 NumHom RComp SpecCycle PolyEq CentroidFacts WindFacts TriFacts.
Import ListNotations.
Local Open Scope R_scope.

Lemma area2_tri (lo mid hi : pt) : area2 [lo; mid; hi] = - orient lo hi mid.
Proof. unfold area2, rsum. cbn [cyc_pairs cyc_pairs_from map fold_right fst snd]. ug. ring. Qed.
Lemma tri_build_wnum (E : R) (a b c p : pt) : 0 <= E -> roomy E [a; b; c] \/ area2 [a; b; c] = 0 ->
  exists o, tri_build E [a; b; c] = Ok o /\
    match o with Some k => tri_eval k p | None => false end = negb (Z.eqb (wnum [a; b; c] p) 0).
Proof.
  intros HE HR. destruct (sort3 a b c) as (lo & mid & hi & S & HC & HP & L1 & L2).
  assert (W : negb (Z.eqb (wnum [a; b; c] p) 0) = negb (Z.eqb (wnum [lo; mid; hi] p) 0)).
  { destruct HC as [HC|HC]; rewrite (wnum_rot _ _ p HC), ?wnum_rev; auto. destruct (wnum [lo; mid; hi] p); auto. }
  assert (A : area2 [a; b; c] = 0 -> orient lo hi mid = 0).
  { destruct HC as [HC|HC]; intro HA; [rewrite (area2_rot _ _ HC) in HA|rewrite (area2_rot _ _ HC), area2_rev in HA]; rewrite area2_tri in HA; lra. }
  rewrite W. pose proof (wnum_sorted lo mid hi p L1 L2) as HW. cbn zeta in HW. clear W.
  unfold tri_build. rewrite S. cbn zeta.
  set (d := orient lo hi mid) in *.
  assert (Z0 : d = 0 -> negb (Z.eqb (wnum [lo; mid; hi] p) 0) = false).
  { intro D. destruct (Z.eqb_spec (wnum [lo; mid; hi] p) 0) as [E0|E0]; auto. apply HW in E0. lra. }
  destruct (Req_EM_T d 0) as [D|D].
  - destruct (is_null E (vsub lo mid) || is_null E (vsub hi mid)); [exists None; split; auto; rewrite Z0; auto|].
    exists None. rewrite Z0 by auto. split; auto.
    replace (nfalsy _) with true; auto. symmetry. unfold nfalsy. rnum. apply Reqb_true.
    transitivity (d * d); [subst d; unfold length2, dot, vsub; rnum; ug; ring|rewrite D; ring].
  - assert (R0 : roomy E [a; b; c]). { destruct HR as [HR|HR]; auto. apply A in HR. contradiction. }
    destruct (R0 lo mid hi HP L1 L2) as [R1 R2].
    assert (N1 : forall v, E <= norm v -> is_null E v = false). { intros v Hv. destruct (is_null E v) eqn:X; auto. apply is_null_R in X; auto. lra. }
    rewrite (N1 (vsub lo mid)), (N1 (vsub hi mid)) by assumption. cbn [orb].
    destruct (tri_eval_R lo mid hi p D) as [Ed He]. fold d in Ed, He. cbn zeta in Ed, He.
    match goal with |- context [nfalsy ?x] => change x with (length2 (vsub lo mid) * length2 (vsub hi mid) - dot (vsub lo mid) (vsub hi mid) * dot (vsub lo mid) (vsub hi mid)) end.
    replace (nfalsy _) with false by (symmetry; unfold nfalsy; rnum; apply Reqb_false; rewrite Ed; nra).
    rewrite pydiv_R by (rewrite Ed; nra). cbn [bind]. eexists. split; [reflexivity|]. cbv beta iota.
    apply eq_true_iff_eq. etransitivity; [|etransitivity; [exact He|]].
    + match goal with |- tri_eval ?x p = true <-> tri_eval ?y p = true => replace x with y; [reflexivity|] end.
      f_equal. rnum. f_equal. subst d. ug. ring.
    + rewrite negb_true_iff, Z.eqb_neq, HW. destruct (Rlt_dec 0 d); lra.
Qed.
Lemma triangle_wnum (E : R) (q : poly R) (p : pt) : 0 <= E -> length (pverts q) = 3%nat -> ptri q = None -> roomy E (pverts q) \/ area2 (pverts q) = 0 ->
  fst (contains_point E p q) = winding_test (pverts q) p.
Proof.
  intros HE HL HT HR. unfold contains_point. rewrite HL. cbn [Nat.eqb]. unfold triangle_test. rewrite HT.
  rewrite winding_test_num by (intro Z; rewrite Z in HL; discriminate). destruct (pverts q) as [|a [|b [|c [|]]]] eqn:EV; try discriminate.
  destruct (tri_build_wnum E a b c p HE HR) as (o & -> & H). destruct o; cbn [fst]; rewrite <- H; reflexivity.
Qed.
Lemma triangle_general (vs : list pt) : length vs = 3%nat -> stays_general vs.
Proof.
  intro H. unfold stays_general, get_is_convex. destruct vs as [|a [|b [|c [|]]]]; try discriminate. reflexivity.
Qed.
Lemma sorted3_unique (x y z x' y' z' : pt) : Permutation [x; y; z] [x'; y'; z'] -> yx_le x y -> yx_le y z -> yx_le x' y' -> yx_le y' z' -> x = x' /\ y = y' /\ z = z'.
Proof.
  intros P L1 L2 L1' L2'. assert (E : x = x').
  { pose proof (Permutation_in x P (or_introl eq_refl)) as I1. pose proof (Permutation_in x' (Permutation_sym P) (or_introl eq_refl)) as I2.
    pose proof (yx_le_trans _ _ _ L1 L2). pose proof (yx_le_trans _ _ _ L1' L2').
    destruct I1 as [->|[->|[->|[]]]]; auto; destruct I2 as [I2|[I2|[I2|[]]]]; subst; auto; apply yx_le_antisym; auto. }
  subst x'. apply Permutation_cons_inv in P. assert (M : y = y').
  { pose proof (Permutation_in y P (or_introl eq_refl)) as I1. pose proof (Permutation_in y' (Permutation_sym P) (or_introl eq_refl)) as I2.
    destruct I1 as [->|[->|[]]]; auto; destruct I2 as [I2|[I2|[]]]; subst; auto; apply yx_le_antisym; auto. }
  subst y'. apply Permutation_cons_inv in P. apply Permutation_length_1 in P. auto.
Qed.

(** Over any sequence of queries, of any kind and in any order, a triangle
    answers as the winding test, whatever the order of the three vertices.  The
    vertices may also be collinear or coincide. *)
Theorem C56_agrees : forall (vs : list pt) (E : R) (qs : list (pread R)) (p : pt),
  length vs = 3%nat -> 0 <= E -> roomy E vs \/ area2 vs = 0 -> Forall (same_eps E) qs ->
  fst (contains_point E p (preads (poly_from_points vs) qs)) = winding_test vs p.
Proof.
  intros vs E qs p HL HE HR HQ. transitivity (fst (contains_point E p (pfresh vs))).
  - apply qinv_answer; [|left; lia]. apply qinv_reads; auto using triangle_general. apply qinv_fresh.
  - apply (triangle_wnum E (pfresh vs)); rewrite ?pverts_fresh; auto; destruct vs as [|? [|? [|? [|]]]]; try discriminate; reflexivity.
Qed.
Print Assumptions C56_agrees.
(** The order of the vertices does not matter. *)
Theorem C56_any_order : forall (vs ws : list pt) (E : R) (qs qs' : list (pread R)) (p : pt),
  length vs = 3%nat -> 0 <= E -> roomy E vs -> Permutation vs ws -> Forall (same_eps E) qs -> Forall (same_eps E) qs' ->
  fst (contains_point E p (preads (poly_from_points vs) qs)) = fst (contains_point E p (preads (poly_from_points ws) qs')).
Proof.
  intros vs ws E qs qs' p HL HE HR HP HQ HQ'.
  assert (HL' : length ws = 3%nat) by (rewrite <- (Permutation_length HP); auto).
  assert (HR' : roomy E ws). { intros lo mid hi K. apply HR. eapply Permutation_trans; eauto. }
  rewrite !C56_agrees; auto. destruct vs as [|a [|b [|c [|]]]], ws as [|a' [|b' [|c' [|]]]]; try discriminate.
  rewrite !winding_test_num by discriminate.
  assert (SC : forall a b c (lo mid hi : pt), same_cycle [a; b; c] [lo; mid; hi] -> negb (Z.eqb (wnum [a; b; c] p) 0) = negb (Z.eqb (wnum [lo; mid; hi] p) 0)).
  { intros ? ? ? lo mid hi [HC|HC]; rewrite (wnum_rot _ _ p HC), ?wnum_rev; auto. destruct (wnum [lo; mid; hi] p); auto. }
  destruct (sort3 a b c) as (lo & mid & hi & _ & S1 & P1 & L1 & L2), (sort3 a' b' c') as (lo' & mid' & hi' & _ & S2 & P2 & L1' & L2').
  rewrite (SC _ _ _ _ _ _ S1), (SC _ _ _ _ _ _ S2).
  assert (P : Permutation [lo; mid; hi] [lo'; mid'; hi']) by exact (Permutation_trans (Permutation_sym P1) (Permutation_trans HP P2)).
  destruct (sorted3_unique _ _ _ _ _ _ P L1 L2 L1' L2') as (<- & <- & <-). reflexivity.
Qed.
Print Assumptions C56_any_order.
(** The tolerance is sharp: when one of the two sorted edges is shorter than E,
    every point is reported outside. *)
Theorem C56_cramped_empty : forall (vs : list pt) (E : R) (qs : list (pread R)) (p : pt),
  length vs = 3%nat -> 0 <= E -> cramped E vs -> Forall (same_eps E) qs ->
  fst (contains_point E p (preads (poly_from_points vs) qs)) = Ok false.
Proof.
  intros vs E qs p HL HE HR HQ. transitivity (fst (contains_point E p (pfresh vs))).
  - apply qinv_answer; [|left; lia]. apply qinv_reads; auto using triangle_general. apply qinv_fresh.
  - unfold contains_point. rewrite pverts_fresh, HL. cbn [Nat.eqb]. unfold triangle_test. rewrite pverts_fresh.
    destruct vs as [|a [|b [|c [|]]]]; try discriminate. change (ptri (pfresh [a; b; c])) with (@None (tri_closure R)). cbv iota.
    unfold tri_build. destruct (sort3 a b c) as (lo & mid & hi & -> & _ & P1 & L1 & L2). cbn zeta.
    destruct HR as (lo' & mid' & hi' & P2 & L1' & L2' & D).
    destruct (sorted3_unique lo mid hi lo' mid' hi') as (<- & <- & <-); auto. { eapply Permutation_trans; [apply Permutation_sym, P1|auto]. }
    destruct D as [D|D]; apply (is_null_R E) in D; auto; change (psub lo mid) with (vsub lo mid) in D; change (psub hi mid) with (vsub hi mid) in D;
      rewrite D, ?orb_true_r; reflexivity.
Qed.
Print Assumptions C56_cramped_empty.
(** An example of each hypothesis; the first triangle contains a point. *)
Example C56_ex : roomy 1 (map zv [(4, 4); (0, 0); (4, 0)]%Z) /\ winding_test (map zv [(4, 4); (0, 0); (4, 0)]%Z) (zv (3, 1)%Z) = Ok true /\
  cramped 1 [mkV 0 0; mkV (1 / 2) 0; mkV 0 5].
Proof.
  assert (S : yx_le (zv (0, 0)%Z) (zv (4, 0)%Z) /\ yx_le (zv (4, 0)%Z) (zv (4, 4)%Z)) by (unfold yx_le, zv; cbn; lra).
  split; [|split].
  - intros lo mid hi HP L1 L2. destruct S as [S1 S2]. destruct (sorted3_unique (zv (0, 0)%Z) (zv (4, 0)%Z) (zv (4, 4)%Z) lo mid hi) as (<- & <- & <-); auto.
    + eapply Permutation_trans; [|exact HP]. apply Permutation_sym, (Permutation_cons_append [zv (0, 0)%Z; zv (4, 0)%Z] (zv (4, 4)%Z)).
    + unfold dist, zv. cbn. split; apply Rnot_lt_le; rewrite norm_lt_iff by lra; unfold psub; cbn [vx vy]; lra.
  - rewrite z_winding. vm_compute. reflexivity.
  - exists (mkV 0 0), (mkV (1 / 2) 0), (mkV 0 5). split; auto. unfold yx_le, dist, psub. cbn [vx vy]. split; [lra|]. split; [lra|]. left. rewrite norm_lt_iff by lra. cbn [vx vy]. lra.
Qed.
