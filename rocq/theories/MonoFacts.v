(** * Convex cycles: winding and monotone chains *)
From Coq Require Import ZArith List Bool Arith Lia Permutation Reals Lra Psatz Sorted.
From Verif Require Import Num Vec Affine Box Seq Polygon SpecGeom SpecAffine SpecBox SpecMass SpecWind SpecConvex SpecExtreme RBase VecFacts VecFacts2 AffineFacts PolyCache2 SpecCycle PolyEq CentroidFacts WindFacts
  ConvexFacts ConvexFacts2 ConvexFacts3 ConvexFacts4.
Import ListNotations.
Local Open Scope R_scope.

(** ** Points outside a half-plane *)
Lemma crossing_id (n p a b : pt) : vx n * orient a b p = (vy b - vy p) * pdot n (psub a p) + (vy p - vy a) * pdot n (psub b p).
Proof. ug. ring. Qed.
Lemma wnum_half_plane (n p : pt) (l : list pt) : (forall v, In v l -> 0 < pdot n (psub v p)) -> wnum l p = 0%Z.
Proof.
  intro H. destruct (Rtotal_order (vx n) 0) as [X|[X|X]].
  - destruct l as [|c l]; auto. unfold wnum. rewrite cyc_cons.
    transitivity (zsum (map (fun e => ((if Rle_dec (vy p) (vy (snd e)) then 1 else 0) - (if Rle_dec (vy p) (vy (fst e)) then 1 else 0))%Z) (adj c (l ++ [c])))).
    + f_equal. apply map_ext_in. intros [a b] He. rewrite <- cyc_cons in He. apply cyc_in_l in He. destruct He as [Ha Hb]. apply H in Ha, Hb. rewrite contrib_cases. cbn [fst snd].
      pose proof (crossing_id n p a b) as C. set (u := pdot n (psub a p)) in *. set (v := pdot n (psub b p)) in *. set (o := orient a b p) in *. clearbody u v o.
      destruct (Rle_dec (vy p) (vy a)), (Rle_dec (vy p) (vy b)); auto.
      * destruct (Rle_dec 0 o) as [K|K]; auto. exfalso. assert (0 < (vy p - vy b) * u) by (apply Rmult_lt_0_compat; lra). assert (0 <= (vy a - vy p) * v) by (apply Rmult_le_pos; lra). nra.
      * destruct (Rle_dec o 0) as [K|K]; auto. exfalso. assert (0 <= (vy b - vy p) * u) by (apply Rmult_le_pos; lra). assert (0 < (vy p - vy a) * v) by (apply Rmult_lt_0_compat; lra). nra.
    + rewrite updown_sum, last_last. lia.
  - destruct (Rtotal_order (vy n) 0) as [Y|[Y|Y]].
    + apply wnum_outside. right. right. right. intros v Hv. apply H in Hv. revert Hv. ug. rewrite X. intro. nra.
    + apply zsum_zero. intros [a b] He. apply cyc_in_l in He as [Ha _]. apply H in Ha. revert Ha. ug. rewrite X, Y. intro. lra.
    + apply wnum_outside. right. right. left. intros v Hv. apply H in Hv. revert Hv. ug. rewrite X. intro. nra.
  - apply zsum_zero. intros [a b] He. apply cyc_in_l in He. destruct He as [Ha Hb]. apply H in Ha, Hb. rewrite contrib_cases.
    pose proof (crossing_id n p a b) as C. set (u := pdot n (psub a p)) in *. set (v := pdot n (psub b p)) in *. set (o := orient a b p) in *. clearbody u v o.
    destruct (Rle_dec (vy p) (vy a)), (Rle_dec (vy p) (vy b)); auto.
    + destruct (Rle_dec 0 o) as [K|]; auto. exfalso. assert (0 < (vy p - vy b) * u) by (apply Rmult_lt_0_compat; lra). assert (0 <= (vy a - vy p) * v) by (apply Rmult_le_pos; lra). nra.
    + destruct (Rle_dec o 0) as [K|]; auto. exfalso. assert (0 <= (vy b - vy p) * u) by (apply Rmult_le_pos; lra). assert (0 < (vy p - vy a) * v) by (apply Rmult_lt_0_compat; lra). nra.
Qed.
Lemma outside_edge s l a b p : tsign s -> sided s l -> In (a, b) (cyc_pairs l) -> s * orient a b p < 0 -> wnum l p = 0%Z.
Proof.
  intros Ts Sd He Hp. apply (wnum_half_plane (mkV (- s * (vy b - vy a)) (s * (vx b - vx a)))). intros v Hv. specialize (Sd a b v He Hv).
  match goal with |- 0 < ?x => replace x with (s * orient a b v - s * orient a b p) by (ug; ring) end. lra.
Qed.
Lemma leave (p : pt) l : (exists x, In x l /\ x <> p) -> exists b, b <> p /\ In (p, b) (adj p l).
Proof.
  induction l as [|x l IH]; intros (y & Hy & N); [destruct Hy|]. cbn [adj]. destruct (veq_dec_R x p) as [->|D].
  - destruct Hy as [->|Hy]; [contradiction|]. destruct IH as (b & Hb & Hi); [eauto|]. exists b. split; auto. right. auto.
  - exists x. split; auto. left. auto.
Qed.
Lemma leave_cyc (p : pt) l : In p l -> (exists a b, In (a, b) (cyc_pairs l) /\ a <> b) -> exists b, b <> p /\ In (p, b) (cyc_pairs l).
Proof.
  intros Hp (a & b & He & N). apply in_split in Hp as (x & y & ->).
  assert (R0 : rotated (x ++ p :: y) (p :: y ++ x)) by (exists x, (p :: y); auto).
  destruct (leave p ((y ++ x) ++ [p])) as (c & Hc & Hi).
  - apply (cyc_rot_in _ _ _ R0) in He. apply cyc_in_l in He as [Ha Hb].
    assert (K : forall v, In v (p :: y ++ x) -> In v ((y ++ x) ++ [p])). { intros v [->|Hv]; apply in_app_iff; auto. right. left. auto. }
    destruct (veq_dec_R a p) as [->|Da]; [exists b; split; auto|exists a; auto].
  - exists c. split; auto. apply (cyc_rot_in _ _ _ R0). rewrite cyc_cons. auto.
Qed.
(** A point strictly inside all edges is wound around. *)
Lemma inside_off s l p : (exists a b, In (a, b) (cyc_pairs l) /\ a <> b) -> strictly_inside s l p -> off_edges p l.
Proof.
  intros H0 Hin. assert (NV : ~ In p l).
  { intro Hp. destruct (leave_cyc p l Hp H0) as (b & Hb & He). specialize (Hin p b He ltac:(auto)). replace (orient p b p) with 0 in Hin by (ug; ring). lra. }
  intros a b He (t & Ht & E). destruct (veq_dec_R a b) as [<-|N].
  - apply NV. replace p with a; [apply cyc_in_l in He; tauto|]. rewrite E. unfold between. ug. vext; ring.
  - specialize (Hin a b He N). assert (Z : orient a b p = 0) by (rewrite E; unfold between; ug; ring). rewrite Z in Hin. lra.
Qed.
Lemma turn_sign (s : R) (p a b : pt) t : tsign s -> ~ on_segment a b p -> 0 <= s * orient a b p -> turns p (a, b) t -> 0 <= s * t /\ (0 < s * orient a b p -> 0 < s * t).
Proof.
  intros Ts No Ho (Hr & Hc & Hs). cbn [fst snd] in Hs, Hc.
  assert (P : norm (psub a p) * norm (psub b p) <> 0).
  { intro Z. apply No. apply on_segment_opposite; [rewrite <- Hs, Z|rewrite <- Hc, Z]; lra. }
  assert (E : orient a b p = pcross (psub a p) (psub b p)) by (ug; ring). rewrite E, <- Hs in *. clear E Hs Hc No.
  set (k := norm (psub a p) * norm (psub b p)) in *. assert (Hk : 0 < k) by (assert (0 <= k) by (apply Rmult_le_pos; apply sqrt_pos); lra). clearbody k. clear P a b p.
  assert (G : 0 <= s * sin t /\ (0 < s * (k * sin t) -> 0 < s * sin t)).
  { replace (s * (k * sin t)) with (k * (s * sin t)) in * by ring. split.
    - apply (Rmult_le_reg_l k); lra.
    - intro K. apply (Rmult_lt_reg_l k); lra. }
  destruct G as [G1 G2]. clear Ho.
  assert (P : forall x, 0 < x < PI -> 0 < sin x) by (intros; apply sin_gt_0; lra).
  assert (Q : forall x, - PI < x < 0 -> sin x < 0) by (intros x Hx; specialize (P (-x) ltac:(lra)); rewrite sin_neg in P; lra).
  destruct (Rtotal_order t 0) as [K|[->|K]].
  - specialize (Q t ltac:(lra)). destruct Ts as [-> | ->]; split; try lra.
  - rewrite sin_0 in G2. split; [lra|]. intro Z. rewrite sin_0 in Z. lra.
  - specialize (P t ltac:(lra)). destruct Ts as [-> | ->]; split; try lra.
Qed.
Lemma inside_nonzero s l p : tsign s -> (exists a b, In (a, b) (cyc_pairs l) /\ a <> b) -> strictly_inside s l p -> wnum l p <> 0%Z.
Proof.
  intros Ts H0 Hin W. pose proof (inside_off s l p H0 Hin) as Off.
  destruct (turns_total p (cyc_pairs l)) as [ts Hts]. { intros [a b] He. apply Off; auto. }
  pose proof (wnum_turns p l ts Off Hts) as S. rewrite W in S. replace (- (2 * PI) * 0) with 0 in S by ring.
  assert (S' : s * rsum ts = 0) by (rewrite S; ring).
  destruct H0 as (a & b & He & N).
  assert (G : forall es ts, (forall e, In e es -> In e (cyc_pairs l)) -> Forall2 (turns p) es ts -> 0 <= s * rsum ts /\ (In (a, b) es -> 0 < s * rsum ts)).
  { clear - Ts Hin Off N. intros es ts Hes F. induction F as [|[u v] t es ts Ht F IH]; [unfold rsum; cbn; split; [lra|tauto]|].
    destruct IH as [I1 I2]; [intros; apply Hes; cbn; auto|]. assert (Hu : In (u, v) (cyc_pairs l)) by (apply Hes; cbn; auto).
    assert (O : 0 <= s * orient u v p /\ (u <> v -> 0 < s * orient u v p)).
    { destruct (veq_dec_R u v) as [->|D]; [split; [ug; lra|tauto]|]. specialize (Hin u v Hu D). split; lra. }
    destruct (turn_sign s p u v t Ts (Off _ _ Hu) ltac:(tauto) Ht) as [T1 T2].
    change (rsum (t :: ts)) with (t + rsum ts). rewrite Rmult_plus_distr_l. split; [lra|]. intros [X|X].
    - injection X as -> ->. specialize (T2 ltac:(tauto)). lra.
    - specialize (I2 X). lra. }
  destruct (G (cyc_pairs l) ts) as [_ G2]; auto. specialize (G2 He). lra.
Qed.
Lemma spread_edge l : spread l -> exists a b, In (a, b) (cyc_pairs l) /\ a <> b.
Proof.
  intros (x & y & z & Hx & Hy & Hz & K). destruct l as [|c l]; [destruct Hx|]. rewrite cyc_cons.
  destruct (adj_const_or (l ++ [c]) veq_dec_R c) as [H|(u & v & H & N)]; eauto.
  exfalso. assert (E : forall v, In v (c :: l) -> v = c). { intros v [<-|Hv]; auto. apply H. apply in_app_iff; auto. }
  apply K. rewrite (E x Hx), (E y Hy), (E z Hz). ug. ring.
Qed.
(** The half-open rule for convex cycles. *)
Lemma jrb_orient (p a b : pt) : a <> b -> just_right_below p (fun q => orient a b q <> 0).
Proof.
  intro N. destruct (Req_dec (vy a) (vy b)) as [E|E].
  - eapply jrb_impl; [|apply (jrb_above p (vy a))]. cbn beta. intros q (_ & K & _) Z. apply K.
    assert (X : (vx b - vx a) * (vy q - vy a) = 0) by (rewrite <- Z; ug; rewrite E; ring). apply Rmult_integral in X as [X|X]; [|lra].
    exfalso. apply N. destruct a as [a1 a2], b as [b1 b2]. cbn [vx vy] in *. vext; lra.
  - eapply jrb_impl; [|apply (jrb_side p a b E)]. cbn beta. tauto.
Qed.
Lemma convex_dichotomy s l q : tsign s -> spread l -> sided s l -> (forall a b, In (a, b) (cyc_pairs l) -> a <> b -> orient a b q <> 0) ->
  (wnum l q <> 0%Z <-> strictly_inside s l q).
Proof.
  intros Ts Sp Sd Ne. split.
  - intros W a b He N. specialize (Ne a b He N). destruct (Rtotal_order (s * orient a b q) 0) as [K|[K|K]]; auto; exfalso.
    + apply W. apply (outside_edge s l a b); auto.
    + apply Ne. destruct Ts as [-> | ->]; lra.
  - intro H. apply (inside_nonzero s); auto. apply spread_edge; auto.
Qed.
Lemma convex_half_open s l p : tsign s -> spread l -> sided s l -> just_right_below p (fun q => wnum l p <> 0%Z <-> strictly_inside s l q).
Proof.
  intros Ts Sp Sd.
  assert (J : just_right_below p (fun q => forall e, In e (cyc_pairs l) -> fst e <> snd e -> orient (fst e) (snd e) q <> 0)).
  { apply (jrb_all p (cyc_pairs l) (fun e q => fst e <> snd e -> orient (fst e) (snd e) q <> 0)). intros [a b] _. cbn [fst snd].
    destruct (veq_dec_R a b) as [E|N]; [eapply jrb_impl; [|apply jrb_true]; cbn beta; tauto|]. eapply jrb_impl; [|apply (jrb_orient p a b N)]. cbn beta. auto. }
  eapply jrb_impl; [|apply (jrb_and _ _ _ (wnum_half_open p l) J)]. cbn beta. intros q ((W & _) & H). rewrite <- W.
  apply convex_dichotomy; auto. intros a b He N. apply (H (a, b)); auto.
Qed.
