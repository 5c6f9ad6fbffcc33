(** * The winding number and affine maps *)
From Coq Require Import ZArith List Bool Reals Lra Lia Psatz Permutation.
From Verif Require Import Num Vec Affine Polygon SpecGeom SpecAffine SpecWind RBase VecFacts VecFacts2 AffineFacts CentroidFacts WindFacts TransTri.
Import ListNotations.
Local Open Scope R_scope.

Definition dsign (d : R) : Z := if Rlt_dec 0 d then 1%Z else (-1)%Z.
Lemma tri_sign_scale (a b c p a' b' c' p' : pt) (d : R) : d <> 0 ->
  orient a' b' p' = d * orient a b p -> orient b' c' p' = d * orient b c p -> orient c' a' p' = d * orient c a p ->
  tri_sign a' b' c' p' = (dsign d * tri_sign a b c p)%Z.
Proof.
  intros D H1 H2 H3. unfold tri_sign. rewrite H1, H2, H3. set (x := orient a b p). set (y := orient b c p). set (z := orient c a p). clearbody x y z.
  assert (S : forall t, (0 < d -> (0 < d * t <-> 0 < t) /\ (d * t < 0 <-> t < 0)) /\ (d < 0 -> (0 < d * t <-> t < 0) /\ (d * t < 0 <-> 0 < t))).
  { intro t. split; intro K; repeat split; intro; nra. }
  pose proof (S x) as Sx. pose proof (S y) as Sy. pose proof (S z) as Sz. clear S H1 H2 H3.
  set (dx := d * x) in *. set (dy := d * y) in *. set (dz := d * z) in *. clearbody dx dy dz. unfold dsign.
  destruct (Rlt_dec 0 d) as [P|P].
  - destruct Sx as [Sx _], Sy as [Sy _], Sz as [Sz _]. specialize (Sx P). specialize (Sy P). specialize (Sz P).
    destruct (Rlt_dec 0 dx), (Rlt_dec 0 x); try tauto; destruct (Rlt_dec 0 dy), (Rlt_dec 0 y); try tauto; destruct (Rlt_dec 0 dz), (Rlt_dec 0 z); try tauto;
    destruct (Rlt_dec dx 0), (Rlt_dec x 0); try tauto; destruct (Rlt_dec dy 0), (Rlt_dec y 0); try tauto; destruct (Rlt_dec dz 0), (Rlt_dec z 0); try tauto; reflexivity.
  - assert (Q : d < 0) by lra. destruct Sx as [_ Sx], Sy as [_ Sy], Sz as [_ Sz]. specialize (Sx Q). specialize (Sy Q). specialize (Sz Q).
    destruct (Rlt_dec 0 dx), (Rlt_dec x 0); try tauto; destruct (Rlt_dec 0 dy), (Rlt_dec y 0); try tauto; destruct (Rlt_dec 0 dz), (Rlt_dec z 0); try tauto;
    destruct (Rlt_dec dx 0), (Rlt_dec 0 x); try tauto; destruct (Rlt_dec dy 0), (Rlt_dec 0 y); try tauto; destruct (Rlt_dec dz 0), (Rlt_dec 0 z); try tauto; try reflexivity; lra.
Qed.
(** A point from which no vertex is seen exactly through p. *)
Lemma avoid (p : pt) (l : list pt) : (forall v, In v l -> v <> p) ->
  exists o, forall v, In v l -> ~ on_segment o v p /\ ~ on_segment v o p.
Proof.
  intro H. assert (X : exists t0, forall t, t0 < t -> forall v, In v l -> pcross (mkV 1 t) (psub v p) <> 0).
  { induction l as [|v l IH]. { exists 0. intros t _ v []. }
    destruct IH as [t0 IH]. { intros v' Hv. apply H. right. auto. }
    exists (Rmax t0 (vy (psub v p) / vx (psub v p))). intros t Ht w [<- |Hw].
    - assert (NV : v <> p) by (apply H; left; auto). intro K. apply NV. assert (T : vy (psub v p) / vx (psub v p) < t) by (eapply Rle_lt_trans; [apply Rmax_r|exact Ht]).
      unfold pcross in K. cbn [vx vy] in K. destruct (Req_dec (vx (psub v p)) 0) as [Z|Z].
      + rewrite Z in K. assert (vy (psub v p) = 0) by lra. revert Z H0. ug. intros. destruct v as [v1 v2], p as [p1 p2]. cbn [vx vy] in *. f_equal; lra.
      + assert (vy (psub v p) / vx (psub v p) = t). { apply (Rmult_eq_reg_r (vx (psub v p))); auto. field_simplify; auto. lra. } lra.
    - apply IH; auto. eapply Rle_lt_trans; [apply Rmax_l|exact Ht]. }
  destruct X as [t0 X]. exists (padd p (mkV 1 (t0 + 1))). intros v Hv. specialize (X (t0 + 1) ltac:(lra) v Hv).
  split; intros (s & Hs & E); apply X; clear X; destruct p as [p1 p2], v as [v1 v2]; ug; injection E as E1 E2; set (t := t0 + 1) in *; clearbody t.
  - assert (s <> 0) by (intros ->; lra). assert (K1 : s * (v1 - p1) = s - 1) by lra. assert (K2 : s * (v2 - p2) = (s - 1) * t) by lra.
    apply (Rmult_eq_reg_l s); auto. rewrite Rmult_0_r. transitivity (s * (v2 - p2) - t * (s * (v1 - p1))); [ring|rewrite K1, K2; ring].
  - assert (1 - s <> 0) by (intro K; assert (s = 1) by lra; subst s; lra). assert (K1 : (1 - s) * (v1 - p1) = - s) by lra. assert (K2 : (1 - s) * (v2 - p2) = - s * t) by lra.
    apply (Rmult_eq_reg_l (1 - s)); auto. rewrite Rmult_0_r. transitivity ((1 - s) * (v2 - p2) - t * ((1 - s) * (v1 - p1))); [ring|rewrite K1, K2; ring].
Qed.
Lemma off_vertex (p : pt) l v : off_edges p l -> In v l -> v <> p.
Proof.
  intros H Hv ->. destruct l as [|a l]; [destruct Hv|].
  assert (X : exists b, In (p, b) (cyc_pairs (a :: l))).
  { unfold cyc_pairs. revert Hv. generalize a at 2. generalize (a :: l). clear. intros l f. induction l as [|x l IH]; [intros []|].
    intros [-> |Hv]; [destruct l; eexists; left; reflexivity|]. destruct (IH Hv) as [b Hb]. exists b. destruct l; [destruct Hv|]. right. exact Hb. }
  destruct X as [b Hb]. apply (H p b Hb). apply on_segment_ends.
Qed.
Lemma on_segment_img (m : affine R) (a b p : pt) : det m <> 0 -> (on_segment (img m a) (img m b) (img m p) <-> on_segment a b p).
Proof.
  intro D. split; intros (t & Ht & E); exists t; split; auto.
  - unfold img, between, padd, pscale, psub in E. cbn [vx vy] in E. injection E as E1 E2.
    remember (vx p - (vx a + t * (vx b - vx a))) as dx eqn:Ex. remember (vy p - (vy a + t * (vy b - vy a))) as dy eqn:Ey.
    assert (K1 : dx * aa m + dy * ad m = 0) by (rewrite Ex, Ey; lra). assert (K2 : dx * ab m + dy * ae m = 0) by (rewrite Ex, Ey; lra).
    assert (H : dx * det m = 0) by (transitivity ((dx * aa m + dy * ad m) * ae m - (dx * ab m + dy * ae m) * ad m); [unfold det; ring|rewrite K1, K2; ring]).
    assert (H0 : dy * det m = 0) by (transitivity ((dx * ab m + dy * ae m) * aa m - (dx * aa m + dy * ad m) * ab m); [unfold det; ring|rewrite K1, K2; ring]).
    assert (dx = 0) by (apply Rmult_integral in H as [|]; auto; contradiction). assert (dy = 0) by (apply Rmult_integral in H0 as [|]; auto; contradiction).
    destruct p as [p1 p2]. unfold between, padd, pscale, psub. cbn [vx vy] in *. f_equal; lra.
  - rewrite E. unfold img, between, padd, pscale, psub. cbn [vx vy]. f_equal; ring.
Qed.
Lemma off_edges_img (m : affine R) (p : pt) l : det m <> 0 -> off_edges p l -> off_edges (img m p) (map (img m) l).
Proof.
  intros D H a b Hab. rewrite cyc_map in Hab. apply in_map_iff in Hab. destruct Hab as ([x y] & E & Hxy). cbn [fst snd] in E. injection E as <- <-.
  rewrite on_segment_img by auto. apply H; auto.
Qed.
(** Invertible affine maps keep the winding number up to the sign of the
    determinant. *)
Lemma wnum_img (m : affine R) (p : pt) l : det m <> 0 -> off_edges p l -> wnum (map (img m) l) (img m p) = (dsign (det m) * wnum l p)%Z.
Proof.
  intros D H. destruct (avoid p l) as [o Ho]. { intros v Hv. eapply off_vertex; eauto. }
  rewrite (wnum_fan o p l), (wnum_fan (img m o)), cyc_map, map_map.
  assert (A : forall e, In e (cyc_pairs l) -> wnum [img m o; img m (fst e); img m (snd e)] (img m p) = (dsign (det m) * wnum [o; fst e; snd e] p)%Z).
  { intros [a b] He. cbn [fst snd]. destruct (cyc_in_l _ _ _ He) as [Ia Ib].
    rewrite !tri_num; try (rewrite on_segment_img by auto); try apply Ho; auto; try (apply H; auto).
    apply tri_sign_scale; auto; apply orient_img. }
  erewrite map_ext_in; [|intros e He; exact (A e He)]. clear. generalize (cyc_pairs l). intro es. induction es as [|e es IH]; unfold zsum in *; cbn [map fold_right]; lia.
Qed.
Lemma winding_img (m : affine R) (p : pt) l : det m <> 0 -> off_edges p l -> winding_test (map (img m) l) (img m p) = winding_test l p.
Proof.
  intros D H. destruct l as [|a l]; auto. rewrite !winding_test_num by discriminate. rewrite wnum_img by auto. f_equal. f_equal.
  unfold dsign. destruct (Rlt_dec 0 (det m)); destruct (wnum (a :: l) p); reflexivity.
Qed.
