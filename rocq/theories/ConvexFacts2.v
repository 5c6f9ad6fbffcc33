(** * Classification of a polygon from its edge vectors *)
From Coq Require Import ZArith List Bool Reals Lra Lia Psatz Permutation Sorting.
From Verif Require Import Num Vec Affine Box Seq Polygon SpecGeom SpecMass RBase VecFacts VecFacts2 SpecCycle PolyEq CentroidFacts WindFacts PolyCache2 ConvexFacts.
Import ListNotations.
Local Open Scope R_scope.

Lemma dir_neg (v : pt) : dir_of (vneg v) = (- dir_of v)%Z.
Proof.
  unfold dir_of, vneg, pscale. rnum.
  destruct (Rltb_spec 0 (-1 * vx v)), (Rltb_spec 0 (vx v)), (Rltb_spec (-1 * vx v) 0), (Rltb_spec (vx v) 0); try lra; auto.
  destruct (Rltb_spec 0 (-1 * vy v)), (Rltb_spec 0 (vy v)), (Rltb_spec (-1 * vy v) 0), (Rltb_spec (vy v) 0); try lra; auto.
Qed.
Lemma vsum_neg l : vsum (map vneg l) = vneg (vsum l).
Proof. unfold vsum. induction l as [|a l IH]; cbn [map fold_right]; [|rewrite IH]; unfold vneg; ug; vext; cbn; ring. Qed.
Lemma nch_neg l : nch (map (fun e => (vneg (fst e), vneg (snd e))) l) = nch l.
Proof.
  induction l as [|[a b] l IH]; auto. cbn [map fst snd]. rewrite !nch_cons, IH. unfold chg. cbn [fst snd]. rewrite !dir_neg.
  destruct (Z.eqb_spec (- dir_of b) (- - dir_of a)), (Z.eqb_spec (dir_of b) (- dir_of a)); auto; lia.
Qed.
Lemma one_side (s : R) (e : pt) rest : tsign s -> nn e -> Forall nn rest -> vsum (e :: rest) = porigin ->
  Forall (fun d => turn s (fst d) (snd d)) (cyc_pairs (e :: rest)) -> (nch (cyc_pairs (e :: rest)) <= 2)%nat ->
  forall p q, rest = p ++ q -> 0 <= s * pcross e (vsum p).
Proof.
  intros Hs He Hn Hz Ht Hc p q E. destruct (fwd_cases e He) as [F|F]; [eapply one_side_fwd; eauto|].
  rewrite <- pcross_neg, <- vsum_neg. apply (one_side_fwd s (vneg e) (map vneg rest) Hs F) with (q := map vneg q).
  - apply Forall_map. eapply Forall_impl; [|exact Hn]. unfold nn. intros v Hv K. apply Hv. rewrite <- (vneg_vneg v), K. unfold vneg, porigin, pscale. cbn [vx vy]. vext; ring.
  - change (vneg e :: map vneg rest) with (map vneg (e :: rest)). rewrite vsum_neg, Hz. unfold vneg, porigin, pscale. cbn [vx vy]. vext; ring.
  - change (vneg e :: map vneg rest) with (map vneg (e :: rest)). rewrite cyc_map. apply Forall_map. eapply Forall_impl; [|exact Ht]. intros d. cbn [fst snd]. unfold turn. rewrite pcross_neg. auto.
  - change (vneg e :: map vneg rest) with (map vneg (e :: rest)). rewrite cyc_map, nch_neg. auto.
  - rewrite E, map_app. auto.
Qed.

Lemma veq_dec_R (a b : pt) : a = b \/ a <> b.
Proof.
  destruct a as [a1 a2], b as [b1 b2]. destruct (Req_dec a1 b1) as [->|H]; [|right; intro K; apply mkV_inj in K; tauto].
  destruct (Req_dec a2 b2) as [->|H]; [auto|right; intro K; apply mkV_inj in K; tauto].
Qed.
(** ** Edge vectors *)
Definition diff (e : pt * pt) : pt := psub (snd e) (fst e).
Definition edgev (l : list pt) : list pt := filter vec_bool (map diff (cyc_pairs l)).
Lemma vec_bool_nn (v : pt) : vec_bool v = true <-> nn v.
Proof.
  destruct v as [x y]. unfold vec_bool, nn, porigin. rnum. destruct (Reqb_spec x 0), (Reqb_spec y 0); cbn [negb orb]; split; auto; try discriminate; intro Z.
  - exfalso. apply Z. vext; auto.
  - intro K. apply mkV_inj in K. lra.
  - intro K. apply mkV_inj in K. lra.
  - intro K. apply mkV_inj in K. lra.
Qed.
Lemma edgev_nn l : Forall nn (edgev l).
Proof. apply Forall_forall. intros v Hv. apply filter_In in Hv as [_ Hv]. apply vec_bool_nn; auto. Qed.
Lemma edges_from_adj l : forall a : pt, edges_from a l = map diff (adj a l).
Proof. induction l as [|b l IH]; intro a; auto. cbn [edges_from adj map]. rewrite IH. reflexivity. Qed.
Lemma edge_vectors_snoc k (z : pt) : filter vec_bool (edge_vectors (k ++ [z])) = edgev (z :: k).
Proof.
  unfold edgev. rewrite cyc_cons, <- edges_from_adj. unfold edge_vectors. destruct (k ++ [z]) as [|v t] eqn:E; [destruct k; discriminate|].
  rewrite <- E. replace (last (k ++ [z]) v) with z by (symmetry; apply last_last). reflexivity.
Qed.
Lemma rotated_trans {X} (l m n : list X) : rotated l m -> rotated m n -> rotated l n.
Proof.
  intros (a & b & -> & ->) (c & d & E & ->). destruct (app_split _ _ _ _ E) as [(r & -> & ->)|(r & -> & ->)].
  - exists (a ++ c), r. rewrite <- !app_assoc. auto.
  - exists r, (d ++ b). rewrite <- !app_assoc. auto.
Qed.
Lemma rot_map {X Y} (f : X -> Y) l m : rotated l m -> rotated (map f l) (map f m).
Proof. intros (a & b & -> & ->). exists (map f a), (map f b). rewrite !map_app. auto. Qed.
Lemma rot_filter {X} (f : X -> bool) l m : rotated l m -> rotated (filter f l) (filter f m).
Proof. intros (a & b & -> & ->). exists (filter f a), (filter f b). rewrite !filter_app. auto. Qed.
Lemma rot_refl {X} (l : list X) : rotated l l.
Proof. exists [], l. rewrite app_nil_r. auto. Qed.
Lemma cyc_rot1' {X} (a : X) l : rotated (cyc_pairs (a :: l)) (cyc_pairs (l ++ [a])).
Proof.
  destruct l as [|b l]; [apply rot_refl|]. cbn [app]. rewrite !cyc_cons, <- app_assoc. cbn [app adj]. rewrite adj_last.
  exists [(a, b)], (adj b (l ++ [a])). auto.
Qed.
Lemma cyc_rot' {X} (l m : list X) : rotated l m -> rotated (cyc_pairs l) (cyc_pairs m).
Proof.
  intros (a & b & -> & ->). revert b. induction a as [|x a IH]; intro b; [rewrite app_nil_r; apply rot_refl|].
  eapply rotated_trans; [apply cyc_rot1'|]. rewrite <- app_assoc. eapply rotated_trans; [apply IH|]. rewrite <- app_assoc. apply rot_refl.
Qed.
Lemma edgev_rot l m : rotated l m -> rotated (edgev l) (edgev m).
Proof. intro H. apply rot_filter, rot_map, cyc_rot'; auto. Qed.

Definition one_way (s : R) (l : list pt) : Prop := Forall (fun d => turn s (fst d) (snd d)) (cyc_pairs (edgev l)).
Definition changes (l : list pt) : nat := nch (cyc_pairs (edgev l)).
Lemma one_way_rot s l m : rotated l m -> one_way s l -> one_way s m.
Proof. intros H. unfold one_way. intro F. rewrite (cyc_rotated _ _ (edgev_rot _ _ H)) in F. auto. Qed.
Lemma changes_rot l m : rotated l m -> changes l = changes m.
Proof. intro H. apply nch_perm, cyc_rotated, edgev_rot; auto. Qed.

Lemma vsum_filter l : vsum (filter vec_bool l) = vsum l.
Proof.
  unfold vsum. induction l as [|a l IH]; auto. cbn [filter fold_right]. destruct (vec_bool a) eqn:E; cbn [fold_right]; [rewrite IH; auto|]. rewrite IH.
  destruct a as [x y]. revert E. unfold vec_bool. rnum. destruct (Reqb_spec x 0), (Reqb_spec y 0); cbn; try discriminate. intros _. subst. ug. vext; ring.
Qed.
Lemma last_cons {X} (c : X) l d : last (c :: l) d = last l c.
Proof. revert c d. induction l as [|x l IH]; intros; auto. change (last (c :: x :: l) d) with (last (x :: l) d). rewrite !IH. auto. Qed.
Lemma vsum_adj l : forall a : pt, vsum (map diff (adj a l)) = psub (last l a) a.
Proof.
  unfold vsum. induction l as [|b l IH]; intro a; cbn [adj map fold_right]; [cbn [last]; ug; vext; ring|]. rewrite IH. unfold diff. cbn [fst snd].
  rewrite (last_cons b l a). ug; vext; ring.
Qed.
Lemma prefix_vertex v r m : forall b : pt, In v (b :: m) -> exists p q, filter vec_bool (map diff (adj b (m ++ r))) = p ++ q /\ vsum p = psub v b.
Proof.
  induction m as [|c m IH]; intros b Hv.
  - destruct Hv as [->|[]]. exists [], (filter vec_bool (map diff (adj v r))). split; auto. unfold vsum. cbn. ug. vext; ring.
  - destruct Hv as [->|Hv]; [exists []; eexists; split; [reflexivity|]; unfold vsum; cbn; ug; vext; ring|].
    destruct (IH c Hv) as (p & q & E & S). cbn [app adj map filter]. rewrite E.
    exists (filter vec_bool [diff (b, c)] ++ p), q. split.
    + cbn [filter]. destruct (vec_bool (diff (b, c))); reflexivity.
    + rewrite vsum_app, vsum_filter, S. unfold vsum, diff. cbn [fold_right fst snd]. ug. vext; ring.
Qed.
Lemma cyc_in_rot {X} (a b : X) l : In (a, b) (cyc_pairs l) -> a = b \/ exists m, rotated l (a :: b :: m).
Proof.
  destruct l as [|x l]; [destruct 1|]. rewrite cyc_cons. intro H.
  assert (K : forall l y, In (a, b) (adj y l) -> exists p q, y :: l = p ++ a :: b :: q).
  { clear. induction l as [|c l IH]; intros y H; [destruct H|]. destruct H as [H|H].
    - injection H as -> ->. exists [], l. auto.
    - destruct (IH c H) as (p & q & E). exists (y :: p), q. cbn. rewrite E. auto. }
  destruct (K _ _ H) as (p & q & E). destruct (exists_last_or q) as [->|(q' & z & ->)].
  - destruct p as [|y p]; [left; cbn in E; injection E as -> E; destruct l as [|? [|]]; cbn in E; try discriminate; congruence|].
    right. cbn in E. injection E as -> E. replace (p ++ [a; b]) with ((p ++ [a]) ++ [b]) in E by (rewrite <- app_assoc; auto). apply app_inj_tail in E as [-> ->].
    exists p. exists (b :: p), [a]. split; auto.
  - right. replace (p ++ a :: b :: q' ++ [z]) with ((p ++ a :: b :: q') ++ [z]) in E by (rewrite <- app_assoc; auto).
    change (x :: l ++ [x]) with ((x :: l) ++ [x]) in E. apply app_inj_tail in E as [-> ->]. exists (q' ++ p), p, (a :: b :: q'). auto.
Qed.
Lemma one_way_side (s : R) (l : list pt) : tsign s -> one_way s l -> (changes l <= 2)%nat ->
  forall a b v, In (a, b) (cyc_pairs l) -> In v l -> 0 <= s * orient a b v.
Proof.
  intros Hs Hw Hc a b v He Hv. destruct (veq_dec_R a b) as [->|D]; [ug; lra|].
  destruct (cyc_in_rot a b l He) as [->|(m & Hr)]; [ug; lra|].
  apply (one_way_rot s _ _ Hr) in Hw. rewrite (changes_rot _ _ Hr) in Hc.
  assert (Hv' : In v (a :: b :: m)). { destruct Hr as (x & y & -> & ->). apply in_app_or in Hv. apply in_or_app. tauto. }
  clear Hr Hv He. unfold one_way, changes in *. set (rest := filter vec_bool (map diff (adj b (m ++ [a])))).
  assert (E : edgev (a :: b :: m) = psub b a :: rest).
  { unfold edgev. rewrite cyc_cons. cbn [app adj map filter]. change (diff (a, b)) with (psub b a).
    replace (vec_bool (psub b a)) with true; auto. symmetry. apply vec_bool_nn. intro K. apply D. destruct a as [a1 a2], b as [b1 b2]. unfold psub, porigin in K. cbn [vx vy] in K. apply mkV_inj in K. vext; lra. }
  rewrite E in *.
  destruct Hv' as [->|Hv]; [ug; lra|]. destruct (prefix_vertex v [a] m b Hv) as (p & q & Ep & Sp).
  replace (orient a b v) with (pcross (psub b a) (vsum p)) by (rewrite Sp; ug; ring).
  pose proof (edgev_nn (a :: b :: m)) as N. rewrite E in N. inversion N; subst.
  apply (one_side s (psub b a) rest) with (q := q); auto.
  rewrite <- E. unfold edgev. rewrite vsum_filter, cyc_cons, vsum_adj. rewrite last_last. ug. vext; ring.
Qed.

(** ** The loop *)
Definition tn (e : pt * pt) : R := pcross (fst e) (snd e).
Lemma classify_loop_R ds : forall (ld : pt) dc sg cnt, sg = 0%Z \/ sg = 1%Z \/ sg = (-1)%Z ->
  let '(c, dc', sg', cnt') := classify_loop ld (dir_of ld) dc sg cnt ds in
  (c = true <-> (sg <> (-1)%Z /\ Forall (fun e => 0 <= tn e) (adj ld ds)) \/ (sg <> 1%Z /\ Forall (fun e => tn e <= 0) (adj ld ds))) /\
  (c = true -> dc' = (dc + nch (adj ld ds))%nat /\ cnt' = (cnt + length ds)%nat /\ (sg' = 0%Z <-> sg = 0%Z /\ Forall (fun e => tn e = 0) (adj ld ds))).
Proof.
  induction ds as [|d ds IH]; intros ld dc sg cnt Hsg; cbn [classify_loop adj].
  - split; [|intros _; split; [|split]].
    + split; auto. intros _. destruct Hsg as [->|[->| ->]]; [left|left|right]; split; auto; lia.
    + unfold nch. cbn. lia.
    + cbn. lia.
    + split; [auto|tauto].
  - assert (T : cross ld d = tn (ld, d)) by (unfold cross, tn; rnum; cbn [fst snd]; ug; ring).
    assert (NC : (if Z.eqb (dir_of d) (- dir_of ld) then S dc else dc) = (dc + if chg (ld, d) then 1 else 0)%nat) by (unfold chg; cbn [fst snd]; destruct (Z.eqb _ _); lia).
    rewrite T, NC. rnum. destruct (Rltb_spec 0 (tn (ld, d))) as [P|P]; [|destruct (Rltb_spec (tn (ld, d)) 0) as [Q|Q]].
    + destruct (Z.eqb_spec sg (-1)) as [Es|Es].
      * split; [|discriminate]. split; [discriminate|]. intros [[H _]|[_ H]]; [contradiction|]. inversion H; subst. lra.
      * specialize (IH d (dc + if chg (ld, d) then 1 else 0)%nat 1%Z (S cnt) (or_intror (or_introl eq_refl))).
        destruct (classify_loop _ _ _ _ _ _) as [[[c dc'] sg'] cnt']. destruct IH as [I1 I2]. split.
        -- rewrite I1. split.
           ++ intros [[_ H]|[H _]]; [left; split; auto; constructor; auto; lra|contradiction].
           ++ intros [[_ H]|[_ H]]; inversion H; subst; [left; split; auto; lia|lra].
        -- intro Hc. destruct (I2 Hc) as (J1 & J2 & J3). rewrite nch_cons. split; [lia|]. split; [cbn [length]; lia|]. rewrite J3.
           split; [intros [? _]; discriminate|]. intros [_ H]. inversion H; subst. lra.
    + destruct (Z.eqb_spec sg 1) as [Es|Es].
      * split; [|discriminate]. split; [discriminate|]. intros [[_ H]|[H _]]; [|contradiction]. inversion H; subst. lra.
      * specialize (IH d (dc + if chg (ld, d) then 1 else 0)%nat (-1)%Z (S cnt) (or_intror (or_intror eq_refl))).
        destruct (classify_loop _ _ _ _ _ _) as [[[c dc'] sg'] cnt']. destruct IH as [I1 I2]. split.
        -- rewrite I1. split.
           ++ intros [[H _]|[_ H]]; [contradiction|right; split; auto; constructor; auto; lra].
           ++ intros [[_ H]|[_ H]]; inversion H; subst; [lra|right; split; auto; lia].
        -- intro Hc. destruct (I2 Hc) as (J1 & J2 & J3). rewrite nch_cons. split; [lia|]. split; [cbn [length]; lia|]. rewrite J3.
           split; [intros [? _]; discriminate|]. intros [_ H]. inversion H; subst. lra.
    + assert (Z0 : tn (ld, d) = 0) by lra.
      specialize (IH d (dc + if chg (ld, d) then 1 else 0)%nat sg (S cnt) Hsg).
      destruct (classify_loop _ _ _ _ _ _) as [[[c dc'] sg'] cnt']. destruct IH as [I1 I2]. split.
      * rewrite I1. split; intros [[H K]|[H K]]; [left|right|left|right]; (split; [auto|]); try (constructor; [lra|auto]); inversion K; subst; auto.
      * intro Hc. destruct (I2 Hc) as (J1 & J2 & J3). rewrite nch_cons. split; [lia|]. split; [cbn [length]; lia|]. rewrite J3.
        split; intros [H K]; (split; [auto|]); [constructor; auto|inversion K; auto].
Qed.
(** The answer, when the last two vertices differ. *)
Definition last_two_differ (l : list pt) : Prop := exists k x y, l = k ++ [x; y] /\ x <> y.
Lemma tn_one_way l : (Forall (fun e => 0 <= tn e) (cyc_pairs (edgev l)) <-> one_way 1 l) /\ (Forall (fun e => tn e <= 0) (cyc_pairs (edgev l)) <-> one_way (-1) l).
Proof.
  unfold one_way, turn, tn. split; split; apply Forall_impl; intros e; lra.
Qed.
Lemma classify_core_R l : last_two_differ l -> exists c d k, classify_core l = Ok (c, d, k) /\
  (c = true <-> (one_way 1 l \/ one_way (-1) l) /\ (changes l <= 2)%nat) /\
  (c = true -> k = length (edgev l) /\ (d = true <-> Forall (fun e => tn e = 0) (cyc_pairs (edgev l)))).
Proof.
  intros (k & x & y & -> & D). unfold classify_core.
  assert (G1 : py_get (k ++ [x; y]) (-1) = Ok y) by (rewrite (py_get_last _ y) by (destruct k; discriminate); f_equal; change [x; y] with ([x] ++ [y]); rewrite app_assoc; apply last_last).
  assert (G2 : py_get (k ++ [x; y]) (-2) = Ok x).
  { destruct (py_get_neg (k ++ [x; y]) 2) as (w & Hw & Hn); [rewrite app_length; cbn; lia|]. change (- Z.of_nat 2)%Z with (-2)%Z in Hw. rewrite Hw. f_equal.
    revert Hn. rewrite app_length. cbn [length]. replace (length k + 2 - 2)%nat with (length k) by lia. rewrite nth_error_app2, Nat.sub_diag by lia. cbn. congruence. }
  rewrite G1, G2. cbn [bind].
  replace (k ++ [x; y]) with ((k ++ [x]) ++ [y]) by (rewrite <- app_assoc; auto). rewrite edge_vectors_snoc.
  assert (R0 : rotated (y :: k ++ [x]) ((k ++ [x]) ++ [y])) by (exists [y], (k ++ [x]); auto).
  set (l := (k ++ [x]) ++ [y]) in *. pose proof (edgev_rot _ _ R0) as R1.
  set (e := vsub y x).
  assert (He : nn e). { subst e. intro K. apply D. destruct x as [x1 x2], y as [y1 y2]. unfold vsub, porigin in K. revert K. rnum. intro K. apply mkV_inj in K. vext; lra. }
  assert (E : exists t, edgev (y :: k ++ [x]) = t ++ [e]).
  { unfold edgev. rewrite cyc_cons, <- app_assoc. cbn [app]. rewrite adj_last, map_app, filter_app. cbn [map filter]. change (diff (x, y)) with e. rewrite (proj2 (vec_bool_nn e) He). eauto. }
  destruct E as (t & E). 
  assert (R2 : rotated (e :: t) (edgev l)). { eapply rotated_trans; [|exact R1]. rewrite E. exists [e], t. auto. }
  assert (A : adj e (edgev (y :: k ++ [x])) = cyc_pairs (e :: t)) by (rewrite E, cyc_cons; auto).
  pose proof (classify_loop_R (edgev (y :: k ++ [x])) e 0%nat 0%Z 0%nat (or_introl eq_refl)) as C. 
  destruct (classify_loop _ _ _ _ _ _) as [[[c dc] sg] cnt]. rewrite A in C.
  pose proof (cyc_rotated _ _ R2) as RP. rewrite (nch_perm _ _ RP) in C. 
  assert (FP : forall Q, Forall Q (cyc_pairs (e :: t)) <-> Forall Q (cyc_pairs (edgev l))). { intro Q. split; intro H; [rewrite <- RP|rewrite RP]; auto. }
  rewrite !FP in C. destruct (tn_one_way l) as [W1 W2]. rewrite W1, W2 in C. fold (changes l) in C.
  destruct C as [C1 C2].
  do 3 eexists. split; [reflexivity|]. split.
  - destruct (Nat.leb_spec dc 2) as [L|L].
    + split; [|intros [H _]; apply C1; destruct H; [left|right]; split; auto; lia]. intro Hc. destruct (C2 Hc) as (J & _). split; [|lia]. apply C1 in Hc. tauto.
    + split; [discriminate|]. intros [H1 H2]. assert (Hc : c = true) by (apply C1; destruct H1; [left|right]; split; auto; lia). destruct (C2 Hc). lia.
  - intro Hc. assert (Hc' : c = true) by (destruct (Nat.leb dc 2); [auto|discriminate]). destruct (C2 Hc') as (_ & J2 & J3).
    assert (cnt = length (edgev l)) by (rewrite J2, <- (PolyEq.rotated_length _ _ R1); lia). split; auto.
    rewrite orb_true_iff, Nat.eqb_eq, Z.eqb_eq, J3. split; [intros [H1|[_ H1]]; auto|auto].
    exfalso. rewrite J2 in H1. rewrite E, app_length in H1. cbn in H1. lia.
Qed.
