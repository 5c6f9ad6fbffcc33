(** * Property C61, continued: is_simple and collinear edges *)
From Coq Require Import ZArith QArith List Bool Arith Reals Lra Lia Psatz Permutation.
From Verif Require Import Num Vec Affine Box Seq Polygon Tangent PolyOps SpecPoly SpecGeom SpecAffine SpecMass SpecConvex SpecSimple RBase VecFacts VecFacts2 AffineFacts BoxFacts BoxFacts2
  PolyCache PolyCache2 PolyCache3 NumHom RComp SpecCycle PolyEq CentroidFacts WindFacts ConvexFacts ConvexFacts2 ConvexFacts3 ConvexFacts4 SortFacts SweepFacts SimpleFacts PropConvex PropSimple.
Import ListNotations.
Local Open Scope R_scope.

(** ** Spec *)
(** The curve nowhere turns back along the edge it came from: where an edge
    from a to b and the edge from b to c are on one line, they have the same
    direction. *)
Definition no_spikes (vs : list pt) : Prop :=
  forall i j a b c, edge_into vs i a b -> edge_into vs j b c -> orient a b c = 0 -> 0 < pdot (psub b a) (psub c b).
(** Two edges have no point in common but the vertex between them. *)
Definition simple_curve (vs : list pt) : Prop :=
  forall i j a b c d p, i <> j -> edge_into vs i a b -> edge_into vs j c d -> on_segment a b p -> on_segment c d p ->
    p = b /\ p = c \/ p = a /\ p = d.

(** ** Facts *)
Section Cycle.
  Context (vs : list pt) (ND : NoDup vs) (NS : no_spikes vs).
  Definition prv (i : nat) : nat := match i with O => length vs - 1 | S k => k end.
  (** The edge between x and y, in either direction. *)
  Definition ue (x y : pt) : Prop := exists i, edge_into vs i x y \/ edge_into vs i y x.
  Definition corner_ok (x y z : pt) : Prop := orient x y z = 0 -> 0 < pdot (psub y x) (psub z y).
  Lemma nth_bound i (x : pt) : nth_error vs i = Some x -> (i < length vs)%nat.
  Proof. intro H. apply nth_error_Some. congruence. Qed.
  Lemma prv_lt i : (i < length vs)%nat -> (prv i < length vs)%nat.
  Proof. unfold prv. destruct i; lia. Qed.
  Lemma nth_get i : (i < length vs)%nat -> exists x, nth_error vs i = Some x.
  Proof. intro H. apply nth_error_Some in H. destruct (nth_error vs i) as [x|]; [eauto|congruence]. Qed.
  Lemma nth_inj i j (x : pt) : nth_error vs i = Some x -> nth_error vs j = Some x -> i = j.
  Proof using ND. intros H K. apply (proj1 (NoDup_nth_error vs) ND); [eapply nth_bound; eauto|congruence]. Qed.
  Lemma edge_distinct i a b : (2 <= length vs)%nat -> edge_into vs i a b -> a <> b.
  Proof using ND. intros L [H K] ->. pose proof (nth_bound _ _ H). pose proof (nth_inj _ _ _ H K). destruct i; lia. Qed.
  Lemma far_distinct i j a b c d : edge_into vs i a b -> edge_into vs j c d -> a <> c -> a <> d -> b <> c -> b <> d -> far (length vs) i j.
  Proof.
    intros [H1 H2] [K1 K2] N1 N2 N3 N4. pose proof (nth_bound _ _ H1). pose proof (nth_bound _ _ K1).
    assert (i <> j) by (intros ->; congruence). assert (prv i <> j) by (intros <-; apply N2; unfold prv in K1; congruence). assert (prv j <> i) by (intros <-; apply N3; unfold prv in H1; congruence).
    unfold far, prv in *. destruct i, j; lia.
  Qed.
  Lemma edge_next i a b : edge_into vs i a b -> exists j c, edge_into vs j b c.
  Proof.
    intros [H K]. pose proof (nth_bound _ _ H) as L. destruct (Nat.eq_dec i (length vs - 1)) as [E|E].
    - destruct (nth_get 0) as [c C]; [lia|]. exists 0%nat, c. split; [auto|rewrite <- E; auto].
    - destruct (nth_get (S i)) as [c C]; [lia|]. exists (S i), c. split; auto.
  Qed.
  Lemma edge_prev i a b : edge_into vs i a b -> exists j c, edge_into vs j c a.
  Proof.
    intros [H K]. pose proof (nth_bound _ _ H) as L. destruct (nth_get (prv (prv i))) as [c C]; [apply prv_lt, prv_lt; auto|].
    exists (prv i), c. split; auto.
  Qed.
  Lemma corner_rev x y z : corner_ok x y z -> corner_ok z y x.
  Proof. unfold corner_ok. intros H K. assert (E : orient x y z = 0) by (revert K; ug; lra). specialize (H E). revert H. ug. lra. Qed.
  Lemma ue_next x y : ue x y -> exists z, ue y z /\ corner_ok x y z.
  Proof using NS.
    intros (i & [H|H]).
    - destruct (edge_next _ _ _ H) as (j & c & K). exists c. split; [exists j; auto|]. intro. eapply NS; eauto.
    - destruct (edge_prev _ _ _ H) as (j & c & K). exists c. split; [exists j; auto|]. apply corner_rev. intro. eapply NS; eauto.
  Qed.
  Lemma ue_two x y z : ue x y -> ue z y -> x <> z -> corner_ok x y z.
  Proof using ND NS.
    intros (i & [H|H]) (j & [K|K]) N.
    - exfalso. apply N. destruct H as [H1 H2], K as [K1 K2]. assert (i = j) by (eapply nth_inj; eauto). subst j. congruence.
    - intro. eapply NS; eauto.
    - apply corner_rev. intro. eapply NS; eauto.
    - exfalso. apply N. destruct H as [H1 H2], K as [K1 K2]. assert (E : prv i = prv j) by (eapply nth_inj; eauto).
      pose proof (nth_bound _ _ H1). pose proof (nth_bound _ _ K1). assert (i = j) by (unfold prv in E; destruct i, j; lia). subst j. congruence.
  Qed.
  Lemma seg_swap a b p : on_segment a b p -> on_segment b a p.
  Proof. intros (t & Ht & ->). exists (1 - t). split; [lra|]. unfold between. ug. vext; ring. Qed.
  Lemma meet_ue x y w z : ue x y -> ue w z -> x <> w -> x <> z -> y <> w -> y <> z -> share x y w z -> pcross (psub y x) (psub z w) <> 0 -> some_far_edges vs meet.
  Proof.
    intros (i & Hi) (j & Hj) N1 N2 N3 N4 (p & P1 & P2) X.
    assert (G : forall a b c d, edge_into vs i a b -> edge_into vs j c d -> a <> c -> a <> d -> b <> c -> b <> d -> on_segment a b p -> on_segment c d p -> pcross (psub b a) (psub d c) <> 0 -> some_far_edges vs meet).
    { intros a b c d A B M1 M2 M3 M4 Q1 Q2 Y. exists i, j, a, b, c, d. split; [eapply far_distinct; eauto|]. split; auto. split; auto. split; auto. exists p. auto. }
    assert (X1 : pcross (psub x y) (psub z w) <> 0) by (revert X; ug; lra). assert (X2 : pcross (psub y x) (psub w z) <> 0) by (revert X; ug; lra). assert (X3 : pcross (psub x y) (psub w z) <> 0) by (revert X; ug; lra).
    pose proof (seg_swap _ _ _ P1). pose proof (seg_swap _ _ _ P2).
    destruct Hi as [Hi|Hi], Hj as [Hj|Hj]; [apply (G x y w z)|apply (G x y z w)|apply (G y x w z)|apply (G y x z w)]; auto.
  Qed.
  Lemma ue_in x y : ue x y -> In x vs /\ In y vs.
  Proof. intros (i & [[H K]|[H K]]); apply nth_error_In in H, K; auto. Qed.

  Section Run.
    Context (u : pt) (HU : u <> mkV 0 0).
    Definition tt (v : pt) : R := pdot u v.
    Definition along (a b : pt) : Prop := pcross u (psub b a) = 0.
    Lemma uu_pos : 0 < vx u * vx u + vy u * vy u.
    Proof using HU. destruct (Req_dec (vx u) 0) as [X|X], (Req_dec (vy u) 0) as [Y|Y]; try nra. exfalso. apply HU. vext; auto. Qed.
    Lemma along_point a b : along a b -> b = padd a (pscale ((tt b - tt a) / (vx u * vx u + vy u * vy u)) u).
    Proof using HU.
      intro H. pose proof uu_pos as U. unfold along in H. set (q := vx u * vx u + vy u * vy u) in *.
      assert (X : (tt b - tt a) * vx u = q * (vx b - vx a)).
      { replace ((tt b - tt a) * vx u) with (q * (vx b - vx a) + vy u * pcross u (psub b a)) by (unfold tt, q; ug; ring). rewrite H. ring. }
      assert (Y : (tt b - tt a) * vy u = q * (vy b - vy a)).
      { replace ((tt b - tt a) * vy u) with (q * (vy b - vy a) - vx u * pcross u (psub b a)) by (unfold tt, q; ug; ring). rewrite H. ring. }
      apply vec_ext; unfold padd, pscale; cbn [vx vy]; [replace ((tt b - tt a) / q * vx u) with ((tt b - tt a) * vx u / q) by (field; lra); rewrite X|replace ((tt b - tt a) / q * vy u) with ((tt b - tt a) * vy u / q) by (field; lra); rewrite Y]; field; lra.
    Qed.
    Lemma along_eq a b : along a b -> tt a = tt b -> a = b.
    Proof using HU.
      intros H E. apply along_point in H. rewrite H. rewrite E. unfold Rminus. rewrite Rplus_opp_r. unfold Rdiv. rewrite Rmult_0_l. ug. vext; ring.
    Qed.
    Lemma along_trans a b c : along a b -> along b c -> along a c.
    Proof. unfold along. ug. lra. Qed.
    Lemma along_sym a b : along a b -> along b a.
    Proof. unfold along. ug. lra. Qed.
    Lemma along_cross a b c d : along a b -> along c d -> pcross (psub b a) (psub d c) = 0.
    Proof using HU.
      intros H K. apply along_point in H. apply along_point in K. rewrite H, K. ug. ring.
    Qed.
    Lemma along_dot a b c d : along a b -> along c d -> pdot (psub b a) (psub d c) * (vx u * vx u + vy u * vy u) = (tt b - tt a) * (tt d - tt c).
    Proof using HU.
      intros H K. pose proof uu_pos as U. apply along_point in H. apply along_point in K. set (h := (tt b - tt a)) in *. set (k := (tt d - tt c)) in *. clearbody h k.
      rewrite H, K. ug. field. lra.
    Qed.
    Lemma along_seg w y z : along w y -> along w z -> tt w <= tt y <= tt z -> tt w < tt z -> on_segment w z y.
    Proof using HU.
      intros H K T1 T2. exists ((tt y - tt w) / (tt z - tt w)). split.
      - split; [apply Rmult_le_pos; [lra|left; apply Rinv_0_lt_compat; lra]|]. apply (Rmult_le_reg_r (tt z - tt w)); [lra|]. unfold Rdiv. rewrite Rmult_assoc, Rinv_l by lra. lra.
      - pose proof uu_pos. apply along_point in H. apply along_point in K. set (q := vx u * vx u + vy u * vy u) in *. unfold between. rewrite K at 2. rewrite H at 1.
        set (h := tt y - tt w) in *. set (k := tt z - tt w) in *. assert (k <> 0) by (unfold k; lra). clearbody q h k. ug. vext; field; lra.
    Qed.
    Definition cnt (y : pt) : nat := length (filter (fun v => if Rlt_dec (tt y) (tt v) then true else false) vs).
    Lemma cnt_lt y s : In s vs -> tt y < tt s -> (cnt s < cnt y)%nat.
    Proof.
      unfold cnt. intros I T. clear ND NS. induction vs as [|v l IH]; [destruct I|].
      assert (LE : forall l : list pt, (length (filter (fun v => if Rlt_dec (tt s) (tt v) then true else false) l) <= length (filter (fun v => if Rlt_dec (tt y) (tt v) then true else false) l))%nat).
      { clear - T. induction l as [|v l IH]; cbn [filter]; auto. destruct (Rlt_dec (tt s) (tt v)), (Rlt_dec (tt y) (tt v)); cbn [length]; try lia; exfalso; lra. }
      cbn [filter]. destruct I as [->|I].
      - destruct (Rlt_dec (tt s) (tt s)); [exfalso; lra|]. destruct (Rlt_dec (tt y) (tt s)); [|contradiction]. cbn [length]. specialize (LE l). lia.
      - specialize (IH I). destruct (Rlt_dec (tt s) (tt v)), (Rlt_dec (tt y) (tt v)); cbn [length]; try lia; exfalso; lra.
    Qed.
    (** Two straight runs over one another end in a corner of one of them on
        an edge of the other. *)
    Lemma run_ends : forall m x y w z, (cnt y + cnt z <= m)%nat -> ue x y -> ue w z -> along x y -> along w z -> along x w ->
      tt x < tt y -> tt w < tt z -> tt x < tt z -> tt w < tt y -> y <> z -> some_far_edges vs meet.
    Proof using ND NS HU.
      induction m as [m IH] using lt_wf_ind.
      assert (G : forall x y w z, (cnt y + cnt z <= m)%nat -> ue x y -> ue w z -> along x y -> along w z -> along x w ->
        tt x < tt y -> tt w < tt z -> tt x < tt z -> tt w < tt y -> tt y < tt z -> some_far_edges vs meet).
      { intros x y w z HM E1 E2 A1 A2 A3 T1 T2 T3 T4 T5. assert (A4 : along w y) by (apply along_trans with x; auto; apply along_sym; auto).
        destruct (ue_next _ _ E1) as (s & E3 & C). destruct (Req_dec (pcross u (psub s y)) 0) as [A5|A5].
        - assert (A5' : along y s) by exact A5. assert (S1 : 0 < pdot (psub y x) (psub s y)).
          { apply C. transitivity (pcross (psub y x) (psub s y)); [ug; ring|apply along_cross; auto]. }
          pose proof (along_dot x y y s A1 A5') as D. pose proof uu_pos as U. assert (T6 : tt y < tt s).
          { assert (P : 0 < (tt y - tt x) * (tt s - tt y)) by (rewrite <- D; apply Rmult_lt_0_compat; auto). nra. }
          assert (ZS : s <> z).
          { intros ->. assert (W : y <> w) by (intros ->; lra). pose proof (ue_two y z w E3 E2 W) as CC.
            assert (S2 : 0 < pdot (psub z y) (psub w z)). { apply CC. transitivity (pcross (psub z y) (psub w z)); [ug; ring|apply along_cross; auto; apply along_sym; auto]. }
            pose proof (along_dot y z z w A5' (along_sym _ _ A2)) as D2. assert (P : 0 < (tt z - tt y) * (tt w - tt z)) by (rewrite <- D2; apply Rmult_lt_0_compat; auto). nra. }
          apply (IH (cnt s + cnt z)%nat) with (x := y) (y := s) (w := w) (z := z); auto; try lra.
          + pose proof (cnt_lt y s (proj2 (ue_in _ _ E3)) T6). lia.
          + apply along_sym; auto.
        - assert (A6 : forall q, along y q -> s <> q) by (intros q K ->; apply A5; exact K).
          apply (meet_ue w z y s); auto; try (intro K; subst; lra); try (apply not_eq_sym, A6; [apply along_sym; auto|]).
          + apply not_eq_sym, A6, along_sym; auto.
          + apply not_eq_sym, A6. apply along_trans with w; auto. apply along_sym; auto.
          + exists y. split; [apply along_seg; auto; lra|]. exists 0. split; [lra|]. unfold between. ug. vext; ring.
          + intro K. apply A5. pose proof uu_pos. apply along_point in A2. rewrite A2 in K. set (k := tt z - tt w) in *. assert (KK : k <> 0) by (unfold k; lra). clearbody k.
            assert (K' : k / (vx u * vx u + vy u * vy u) * pcross u (psub s y) = 0) by (rewrite <- K; ug; ring).
            apply Rmult_integral in K'. destruct K' as [K'|K']; auto. exfalso. unfold Rdiv in K'. apply Rmult_integral in K'. destruct K' as [K'|K']; [auto|].
            apply (Rinv_neq_0_compat (vx u * vx u + vy u * vy u)); lra. }
      intros x y w z HM E1 E2 A1 A2 A3 T1 T2 T3 T4 YZ. destruct (Rtotal_order (tt y) (tt z)) as [T|[T|T]].
      - apply (G x y w z); auto.
      - exfalso. apply YZ, along_eq; auto. apply along_trans with x; [apply along_sym; auto|]. apply along_trans with w; auto.
      - apply (G w z x y); auto; [lia|apply along_sym; auto].
    Qed.
  End Run.
  (** So contact of any kind between edges that are not neighbours shows as a
      contact of edges in different directions. *)
  Lemma share_meet : some_far_edges vs share -> some_far_edges vs meet.
  Proof using ND NS.
    intros (i & j & a & b & c & d & F & E1 & E2 & (p & P1 & P2)). destruct (Req_dec (pcross (psub b a) (psub d c)) 0) as [X|X].
    2: { exists i, j, a, b, c, d. repeat split; try apply E1; try apply E2; auto. exists p. auto. }
    assert (L : (3 < length vs)%nat) by (eapply far_big; eauto).
    destruct (nodup_ends _ _ _ _ _ _ _ ND F E1 E2) as (N1 & N2 & N3 & N4).
    assert (AB : a <> b) by (eapply edge_distinct; eauto; lia). assert (CD : c <> d) by (eapply edge_distinct; eauto; lia).
    set (u := psub b a). assert (HU : u <> mkV 0 0). { intro K. apply AB. unfold u, psub in K. apply mkV_inj in K as [K1 K2]. vext; lra. }
    assert (A1 : along u a b) by (unfold along, u; ug; ring). assert (A2 : along u c d) by exact X.
    destruct P1 as (t & Ht & Pt), P2 as (s & Hs & Ps).
    assert (Ap : along u a p) by (rewrite Pt; unfold along, u, between; ug; ring).
    assert (Cp : along u c p). { rewrite Ps. unfold along, between. replace (pcross u (psub (padd c (pscale s (psub d c))) c)) with (s * pcross u (psub d c)) by (ug; ring). rewrite A2. ring. }
    assert (A3 : along u a c) by (apply along_trans with p; auto; apply along_sym; auto).
    assert (Ta : tt u p = tt u a + t * (tt u b - tt u a)) by (rewrite Pt; unfold tt, between; ug; ring).
    assert (Tc : tt u p = tt u c + s * (tt u d - tt u c)) by (rewrite Ps; unfold tt, between; ug; ring).
    assert (T1 : tt u a < tt u b). { pose proof (uu_pos u HU). unfold u, tt in *. revert H. ug. lra. }
    assert (NE : forall q r, along u q r -> q <> r -> tt u q <> tt u r) by (intros q r K M Q; apply M, (along_eq u HU); auto).
    assert (A4 : along u a d) by (apply along_trans with c; auto).
    assert (A5 : along u b c) by (apply along_trans with a; auto; apply along_sym; auto). assert (A6 : along u b d) by (apply along_trans with c; auto).
    pose proof (NE a c A3 ltac:(auto)). pose proof (NE a d A4 ltac:(auto)). pose proof (NE b c A5 ltac:(auto)). pose proof (NE b d A6 ltac:(auto)). pose proof (NE c d A2 CD).
    destruct (Rlt_dec (tt u c) (tt u d)) as [T2|T2].
    - apply (run_ends u HU _ a b c d (le_n _)); auto; [exists i; auto|exists j; auto|nra|nra].
    - apply (run_ends u HU _ a b d c (le_n _)); auto; [exists i; auto|exists j; auto|apply along_sym; auto|nra|nra|nra].
  Qed.
  Lemma no_share_curve : ~ some_far_edges vs share <-> simple_curve vs.
  Proof using ND NS.
    split.
    - intros H i j a b c d p Hij E1 E2 P1 P2. assert (FA : far (length vs) i j \/ prv j = i \/ prv i = j).
      { destruct E1 as [E1 _], E2 as [E2 _]. apply nth_bound in E1, E2. unfold far, prv. destruct i, j; lia. }
      assert (L : (2 <= length vs)%nat) by (destruct E1 as [E1 _], E2 as [E2 _]; apply nth_bound in E1, E2; lia).
      assert (AD : forall i j a b c d, edge_into vs i a b -> edge_into vs j c d -> prv j = i -> on_segment a b p -> on_segment c d p -> p = b /\ p = c).
      { clear - ND NS L. intros i j a b c d E1 E2 K P1 P2. assert (c = b). { destruct E1 as [E1 _], E2 as [_ E2]. unfold prv in K. rewrite K in E2. congruence. } subst c.
        assert (AB : a <> b) by (eapply edge_distinct; eauto). pose proof (NS _ _ _ _ _ E1 E2) as C.
        destruct P1 as (t & Ht & Pt), P2 as (s & Hs & Ps). assert (QX : (1 - t) * (vx b - vx a) + s * (vx d - vx b) = 0). { assert (Q : vx p = vx p) by auto. rewrite Pt in Q at 1. rewrite Ps in Q. revert Q. unfold between. ug. lra. }
        assert (QY : (1 - t) * (vy b - vy a) + s * (vy d - vy b) = 0). { assert (Q : vy p = vy p) by auto. rewrite Pt in Q at 1. rewrite Ps in Q. revert Q. unfold between. ug. lra. }
        assert (T1 : t = 1).
        { destruct (Req_dec t 1) as [|T]; auto. exfalso. assert (O : orient a b d = 0).
          { destruct (Req_dec (orient a b d) 0) as [|O]; auto. exfalso. apply O. apply (Rmult_eq_reg_l (1 - t)); [|lra]. rewrite Rmult_0_r.
            replace ((1 - t) * orient a b d) with (((1 - t) * (vx b - vx a) + s * (vx d - vx b)) * (vy d - vy b) - ((1 - t) * (vy b - vy a) + s * (vy d - vy b)) * (vx d - vx b)) by (ug; ring). rewrite QX, QY. ring. }
          specialize (C O). assert (BB : 0 < (vx b - vx a) * (vx b - vx a) + (vy b - vy a) * (vy b - vy a)).
          { pose proof (Rle_0_sqr (vx b - vx a)) as S1. pose proof (Rle_0_sqr (vy b - vy a)) as S2. destruct (Req_dec (vx b - vx a) 0) as [R1|R1]; [destruct (Req_dec (vy b - vy a) 0) as [R2|R2]|].
            - exfalso. apply AB. apply vec_ext; lra.
            - apply Rsqr_pos_lt in R2. unfold Rsqr in *. lra.
            - apply Rsqr_pos_lt in R1. unfold Rsqr in *. lra. }
          assert (Z : (1 - t) * ((vx b - vx a) * (vx b - vx a) + (vy b - vy a) * (vy b - vy a)) + s * pdot (psub b a) (psub d b) = 0).
          { replace ((1 - t) * ((vx b - vx a) * (vx b - vx a) + (vy b - vy a) * (vy b - vy a)) + s * pdot (psub b a) (psub d b)) with
              (((1 - t) * (vx b - vx a) + s * (vx d - vx b)) * (vx b - vx a) + ((1 - t) * (vy b - vy a) + s * (vy d - vy b)) * (vy b - vy a)) by (ug; ring). rewrite QX, QY. ring. }
          assert (0 < (1 - t) * ((vx b - vx a) * (vx b - vx a) + (vy b - vy a) * (vy b - vy a))) by (apply Rmult_lt_0_compat; lra).
          assert (0 <= s * pdot (psub b a) (psub d b)) by (apply Rmult_le_pos; lra). lra. }
        assert (p = b) by (rewrite Pt, T1; unfold between; ug; vext; ring). auto. }
      destruct FA as [FA|[FA|FA]].
      + exfalso. apply H. exists i, j, a, b, c, d. repeat split; try apply E1; try apply E2; auto. exists p. auto.
      + left. eapply AD; eauto.
      + right. destruct (AD j i c d a b) as [K1 K2]; auto.
    - intros H (i & j & a & b & c & d & F & E1 & E2 & (p & P1 & P2)). destruct (nodup_ends _ _ _ _ _ _ _ ND F E1 E2) as (N1 & N2 & N3 & N4).
      destruct (H i j a b c d p) as [[K1 K2]|[K1 K2]]; auto; try congruence. intros ->. unfold far in F. lia.
  Qed.
End Cycle.

(** ** C61 *)
(** With distinct vertices and no spikes, is_simple is true exactly for
    simple closed curves; overlapping collinear edges are reported. *)
Theorem C61_exact_partial : forall (vs : list pt) (os : list (pop R)), let p := prun (poly_from_points vs) os in
  NoDup (pverts p) -> no_spikes (pverts p) ->
  (fst (get_is_simple p) = Ok true <-> simple_curve (pverts p)) /\
  (fst (get_is_simple p) = Ok false <-> some_far_edges (pverts p) share) /\
  (fst (get_is_simple p) = Ok true \/ fst (get_is_simple p) = Ok false).
Proof.
  intros vs os p ND NS. destruct (C60_all_pairs_partial vs os ND) as [E O]. fold p in E, O.
  assert (I : some_far_edges (pverts p) meet <-> some_far_edges (pverts p) share).
  { split; [|apply share_meet; auto]. intros (i & j & a & b & c & d & F & E1 & E2 & [M _]). exists i, j, a, b, c, d. auto. }
  rewrite I in E. split; [|split; auto]. rewrite <- no_share_curve by auto. rewrite <- E. destruct O as [O|O]; rewrite O; split; intro; auto; try congruence.
Qed.
Print Assumptions C61_exact_partial.
(** Two edges over one another, and a straight corner. *)
Definition overlapping : list (Z * Z) := [(0, 0); (2, 0); (5, 0); (5, 2); (4, 0); (1, 0); (1, 3)]%Z.
Example C61_exact_ex : NoDup (map zv overlapping) /\ no_spikes (map zv overlapping) /\
  some_far_edges (map zv overlapping) (fun a b c d => on_segment a b (zv (4, 0)%Z) /\ on_segment c d (zv (4, 0)%Z) /\ orient a b c = 0 /\ orient a b d = 0).
Proof.
  split; [unfold overlapping; znd|]. split.
  - intros i j a b c E1 E2. apply edge_cyc in E1. apply edge_cyc in E2. cbn in E1, E2.
    repeat (destruct E1 as [E1|E1]); try contradiction; apply pair_equal_spec in E1 as [<- <-];
    repeat (destruct E2 as [E2|E2]); try contradiction; apply pair_equal_spec in E2 as [E2 <-]; try (apply zv_inj in E2; discriminate E2);
      unfold zv; ug; cbn; lra.
  - exists 2%nat, 5%nat, (zv (2, 0)%Z), (zv (5, 0)%Z), (zv (4, 0)%Z), (zv (1, 0)%Z). split; [unfold far; cbn; lia|]. split; [split; reflexivity|]. split; [split; reflexivity|].
    split; [exists (2/3)|split; [exists 0|]]; try (split; [lra|]); try (unfold between, zv; ug; cbn; vext; lra). split; unfold zv; ug; cbn; lra.
Qed.
