(** * The centroid *)
From Coq Require Import ZArith List Bool Lia Permutation Reals Lra Psatz.
From Verif Require Import Num Vec Affine Seq Polygon SpecGeom SpecAffine SpecMass RBase VecFacts VecFacts2 AffineFacts SpecCycle PolyEq.
Import ListNotations.
Local Open Scope R_scope.

Lemma rsum_app l m : rsum (l ++ m) = rsum l + rsum m.
Proof. unfold rsum. induction l; cbn; lra. Qed.
Lemma rsum_perm l m : Permutation l m -> rsum l = rsum m.
Proof. unfold rsum. induction 1; cbn; lra. Qed.
Lemma rsum_perm_map {X} (f : X -> R) l m : Permutation l m -> rsum (map f l) = rsum (map f m).
Proof. intro. apply rsum_perm, Permutation_map; auto. Qed.
Lemma rsum_ext {X} (f g : X -> R) l : (forall x, In x l -> f x = g x) -> rsum (map f l) = rsum (map g l).
Proof. intro H. f_equal. apply map_ext_in. auto. Qed.
Lemma rsum_scale {X} k (f : X -> R) l : rsum (map (fun x => k * f x) l) = k * rsum (map f l).
Proof. unfold rsum. induction l as [|a l IH]; cbn; [ring|]. rewrite IH. ring. Qed.

(** ** Cyclic pairs *)
Section Cyc.
  Context {X : Type}.
  Lemma cyc_cons (a : X) l : cyc_pairs (a :: l) = adj a (l ++ [a]).
  Proof. apply cyc_adj. Qed.
  Lemma adj_last (l : list X) x y : forall a, adj a (l ++ [x; y]) = adj a (l ++ [x]) ++ [(x, y)].
  Proof. induction l as [|d l IH]; intros; auto. cbn [app adj]. rewrite IH. reflexivity. Qed.
  Lemma cyc_rot1 (a : X) l : Permutation (cyc_pairs (a :: l)) (cyc_pairs (l ++ [a])).
  Proof.
    destruct l as [|b l]; auto. cbn [app]. rewrite !cyc_cons, <- app_assoc. cbn [app adj]. rewrite adj_last.
    apply (Permutation_app_comm [(a, b)]).
  Qed.
  Lemma cyc_rot (a b : list X) : Permutation (cyc_pairs (a ++ b)) (cyc_pairs (b ++ a)).
  Proof.
    revert b. induction a as [|x a IH]; intro b.
    - rewrite app_nil_r; auto.
    - cbn [app]. rewrite cyc_rot1, <- app_assoc, IH, <- app_assoc. auto.
  Qed.
  Lemma cyc_rotated (l m : list X) : SpecCycle.rotated l m -> Permutation (cyc_pairs l) (cyc_pairs m).
  Proof. intros (a & b & -> & ->). apply cyc_rot. Qed.
  Definition swap (e : X * X) : X * X := (snd e, fst e).
  Definition path (l : list X) : list (X * X) := match l with [] => [] | a :: l' => adj a l' end.
  Lemma path_snoc l (x y : X) : path (l ++ [x; y]) = path (l ++ [x]) ++ [(x, y)].
  Proof. destruct l as [|a l]; auto. cbn [app path]. apply adj_last. Qed.
  Lemma path_rev (l : list X) : path (rev l) = rev (map swap (path l)).
  Proof.
    induction l as [|a l IH]; auto. destruct l as [|b l]; auto. cbn [rev]. cbn [rev] in IH. 
    rewrite <- app_assoc. cbn [app]. rewrite path_snoc, IH. cbn [path adj map rev]. reflexivity.
  Qed.
  Lemma cyc_rev (l : list X) : Permutation (cyc_pairs (rev l)) (map swap (cyc_pairs l)).
  Proof.
    destruct l as [|a l]; auto. cbn [rev]. rewrite <- cyc_rot1. rewrite !cyc_cons. 
    change (adj a (rev l ++ [a])) with (path (a :: rev l ++ [a])). change (adj a (l ++ [a])) with (path (a :: l ++ [a])).
    replace (a :: rev l ++ [a]) with (rev (a :: l ++ [a])) by (cbn [rev]; rewrite rev_app_distr; reflexivity).
    rewrite path_rev. apply Permutation_sym, Permutation_rev.
  Qed.
  Lemma cyc_in_l (a b : X) l : In (a, b) (cyc_pairs l) -> In a l /\ In b l.
  Proof.
    destruct l as [|x l]; [destruct 1|]. rewrite cyc_cons. intro H.
    assert (K : forall l y, In (a, b) (adj y l) -> (a = y \/ In a l) /\ In b l).
    { clear. induction l as [|z l IH]; intros y H; cbn in *; [tauto|]. destruct H as [H|H]; [injection H; auto|]. destruct (IH _ H) as [[->|H1] H2]; auto. }
    destruct (K _ _ H) as [H1 H2]. rewrite !in_app_iff in *. cbn in *. intuition.
  Qed.
End Cyc.
Lemma cyc_map {X Y} (f : X -> Y) l : cyc_pairs (map f l) = map (fun e => (f (fst e), f (snd e))) (cyc_pairs l).
Proof.
  destruct l as [|a l]; auto. cbn [map]. rewrite !cyc_cons. change [f a] with (map f [a]). rewrite <- map_app. generalize (l ++ [a]). clear.
  intro l. revert a. induction l; intros; cbn; auto. rewrite IHl. auto.
Qed.

(** ** Closed sums telescope *)
Lemma adj_telescope (h : pt -> R) l : forall a, rsum (map (fun e => h (snd e) - h (fst e)) (adj a l)) = h (last l a) - h a.
Proof.
  unfold rsum. induction l as [|b l IH]; intro a; cbn [adj map fold_right fst snd]; [cbn; ring|]. rewrite IH.
  replace (last (b :: l) a) with (last l b); [ring|]. clear. destruct l as [|c l]; auto. change (last (b :: c :: l) a) with (last (c :: l) a).
  revert c. induction l as [|d l IH]; intro c; auto. change (last (d :: l) b = last (d :: l) a). apply IH.
Qed.
Lemma cyc_telescope (h : pt -> R) l : rsum (map (fun e => h (snd e) - h (fst e)) (cyc_pairs l)) = 0.
Proof. destruct l as [|a l]; auto. rewrite cyc_cons, adj_telescope, last_last. ring. Qed.
Lemma rsum_plus {X} (f g : X -> R) l : rsum (map (fun x => f x + g x) l) = rsum (map f l) + rsum (map g l).
Proof. unfold rsum. induction l; cbn; lra. Qed.
Lemma cyc_shift (f g : pt * pt -> R) (h : pt -> R) l : (forall e, f e = g e + (h (snd e) - h (fst e))) -> rsum (map f (cyc_pairs l)) = rsum (map g (cyc_pairs l)).
Proof. intro H. rewrite (rsum_ext f (fun e => g e + (h (snd e) - h (fst e)))) by auto. rewrite rsum_plus, cyc_telescope. ring. Qed.

(** Sums over the fan of triangles from the first vertex. *)
Definition fan (f : pt -> pt -> R) (b : pt) (l : list pt) : R := rsum (map (fun e => f (fst e) (snd e)) (adj b l)).
Lemma fan_cons f b c l : fan f b (c :: l) = f b c + fan f c l.
Proof. reflexivity. Qed.
Lemma exists_last_or {X} (l : list X) : l = [] \/ exists l0 c, l = l0 ++ [c].
Proof. destruct l as [|a l]; [left; auto|right]. destruct (exists_last (l := a :: l)) as (l0 & c & E); [discriminate|eauto]. Qed.
Lemma cyc_fan (f : pt -> pt -> R) a b l : (forall p, f a p = 0) -> (forall p, f p a = 0) ->
  rsum (map (fun e => f (fst e) (snd e)) (cyc_pairs (a :: b :: l))) = fan f b l.
Proof.
  intros H1 H2. rewrite cyc_cons. cbn [app adj map]. unfold fan. unfold rsum at 1. cbn [fold_right fst snd]. rewrite H1.
  destruct (exists_last_or l) as [->|(l0 & c & ->)]; [cbn; rewrite H2; ring|]. rewrite <- app_assoc. cbn [app]. rewrite adj_last, map_app.
  fold (rsum (map (fun e : pt * pt => f (fst e) (snd e)) (adj b (l0 ++ [c])) ++ map (fun e => f (fst e) (snd e)) [(c, a)])). rewrite rsum_app. cbn. rewrite H2. ring.
Qed.
Lemma area2_fan a b l : area2 (a :: b :: l) = fan (orient a) b l.
Proof.
  unfold area2. rewrite <- (cyc_fan (orient a) a b l); try (intro; ug; ring).
  symmetry. apply cyc_shift with (h := fun q => pcross q a). intros [p q]. ug. ring.
Qed.
Lemma momentx_fan a b l : vx (moment (a :: b :: l)) = fan (fun p q => orient a p q * (vx a + vx p + vx q)) b l.
Proof.
  unfold moment. cbn [vx]. rewrite <- (cyc_fan (fun p q => orient a p q * (vx a + vx p + vx q)) a b l); try (intro; ug; ring).
  symmetry. apply cyc_shift with (h := fun q => pcross q a * (vx q + vx a)). intros [p q]. ug. ring.
Qed.
Lemma momenty_fan a b l : vy (moment (a :: b :: l)) = fan (fun p q => orient a p q * (vy a + vy p + vy q)) b l.
Proof.
  unfold moment. cbn [vy]. rewrite <- (cyc_fan (fun p q => orient a p q * (vy a + vy p + vy q)) a b l); try (intro; ug; ring).
  symmetry. apply cyc_shift with (h := fun q => pcross q a * (vy q + vy a)). intros [p q]. ug. ring.
Qed.

(** ** The code *)
Lemma centroid_fold a l : forall b cen tot, fold_left (centroid_step a) l (b, cen, tot) =
  (last l b, mkV (vx cen + fan (fun p q => orient a p q * (vx a + vx p + vx q)) b l) (vy cen + fan (fun p q => orient a p q * (vy a + vy p + vy q)) b l), tot + fan (orient a) b l).
Proof.
  induction l as [|c l IH]; intros b cen tot.
  - cbn. unfold fan. cbn. rewrite !Rplus_0_r. destruct cen; reflexivity.
  - cbn [fold_left centroid_step]. rewrite IH. rewrite !fan_cons. f_equal; [f_equal|].
    + clear. destruct l as [|d l]; auto. change (last (d :: l) c = last (d :: l) b). clear. revert d. induction l as [|e l IH]; intro d; auto. change (last (e :: l) c = last (e :: l) b). apply IH.
    + unfold vadd, vscale. rnum. vext; ug; ring.
    + rnum. ug. ring.
Qed.
Lemma centroid_value_R (l : list pt) : (2 <= length l)%nat ->
  centroid_value l = if Req_EM_T (area2 l) 0 then Err ZeroDivisionError else Ok (mass_centre l).
Proof.
  intro H. destruct l as [|a [|b l]]; cbn in H; try lia. unfold centroid_value. rewrite centroid_fold. cbn [fst snd].
  rewrite <- area2_fan, <- momentx_fan, <- momenty_fan. unfold vdivs, vec2. rnum. cbn [vx vy].
  replace (0 + area2 (a :: b :: l)) with (area2 (a :: b :: l)) by ring.
  destruct (Req_EM_T (area2 (a :: b :: l)) 0) as [E|E].
  - rewrite E. replace (3 * 0) with 0 by ring. rewrite pydiv_R0. reflexivity.
  - rewrite !pydiv_R by lra. cbn [bind]. f_equal. unfold mass_centre. vext; f_equal; ring.
Qed.

(** ** Independence of start and direction *)
Lemma area2_rot l m : SpecCycle.rotated l m -> area2 l = area2 m.
Proof. intro H. unfold area2. apply rsum_perm_map, cyc_rotated; auto. Qed.
Lemma moment_rot l m : SpecCycle.rotated l m -> moment l = moment m.
Proof. intro H. unfold moment. vext; apply rsum_perm_map, cyc_rotated; auto. Qed.
Lemma area2_rev l : area2 (rev l) = - area2 l.
Proof.
  unfold area2. rewrite (rsum_perm_map _ _ _ (cyc_rev l)), map_map. replace (- rsum (map (fun e : pt * pt => pcross (fst e) (snd e)) (cyc_pairs l))) with ((-1) * rsum (map (fun e : pt * pt => pcross (fst e) (snd e)) (cyc_pairs l))) by ring.
  rewrite <- rsum_scale. apply rsum_ext. intros [p q] _. unfold swap. cbn [fst snd]. ug. ring.
Qed.
Lemma moment_rev l : moment (rev l) = pscale (-1) (moment l).
Proof.
  unfold moment, pscale. vext; rewrite (rsum_perm_map _ _ _ (cyc_rev l)), map_map, <- rsum_scale; apply rsum_ext; intros [p q] _; unfold swap; cbn [fst snd]; ug; ring.
Qed.
Lemma mass_rev l : mass_centre (rev l) = mass_centre l.
Proof.
  unfold mass_centre. rewrite area2_rev, moment_rev. unfold pscale. cbn [vx vy].
  destruct (Req_EM_T (area2 l) 0) as [E|E].
  - rewrite E. vext; unfold Rdiv; replace (3 * - 0) with 0 by ring; replace (3 * 0) with 0 by ring; rewrite Rinv_0; ring.
  - vext; field; lra.
Qed.
Lemma mass_cycle l m : same_cycle l m -> mass_centre l = mass_centre m.
Proof.
  intros [H|H].
  - unfold mass_centre. rewrite (area2_rot _ _ H), (moment_rot _ _ H). auto.
  - rewrite <- (mass_rev m). unfold mass_centre. rewrite (area2_rot _ _ H), (moment_rot _ _ H). auto.
Qed.

(** ** Equivariance *)
Lemma orient_img m a b c : orient (img m a) (img m b) (img m c) = det m * orient a b c.
Proof. unfold img, det. ug. ring. Qed.
Lemma fan_ext f g b l : (forall p q, f p q = g p q) -> fan f b l = fan g b l.
Proof. intro H. unfold fan. apply rsum_ext. auto. Qed.
Lemma fan_map f m b l : fan f (img m b) (map (img m) l) = fan (fun p q => f (img m p) (img m q)) b l.
Proof. unfold fan. revert b. induction l as [|c l IH]; intro b; auto. cbn [map adj]. unfold rsum in *. cbn [fold_right fst snd]. rewrite IH. auto. Qed.
Lemma fan_lin f g h k1 k2 k3 b l : fan (fun p q => k1 * f p q + k2 * g p q + k3 * h p q) b l = k1 * fan f b l + k2 * fan g b l + k3 * fan h b l.
Proof. unfold fan. revert b. induction l as [|c l IH]; intro b; unfold rsum in *; cbn [adj map fold_right fst snd]; [ring|]. rewrite IH. ring. Qed.
Lemma area2_img m l : (2 <= length l)%nat -> area2 (map (img m) l) = det m * area2 l.
Proof.
  intro H. destruct l as [|a [|b l]]; cbn in H; try lia. cbn [map]. rewrite !area2_fan, fan_map.
  rewrite (fan_ext _ (fun p q => det m * orient a p q + 0 * orient a p q + 0 * orient a p q)) by (intros; rewrite orient_img; ring). rewrite fan_lin. ring.
Qed.
Lemma moment_img m l : (2 <= length l)%nat -> moment (map (img m) l) =
  mkV (det m * (aa m * vx (moment l) + ad m * vy (moment l) + 3 * ac m * area2 l)) (det m * (ab m * vx (moment l) + ae m * vy (moment l) + 3 * af m * area2 l)).
Proof.
  intro H. destruct l as [|a [|b l]]; cbn in H; try lia. cbn [map]. apply vec_ext; rewrite ?momentx_fan, ?momenty_fan, ?area2_fan, fan_map; cbn [vx vy].
  - rewrite (fan_ext _ (fun p q => (det m * aa m) * (orient a p q * (vx a + vx p + vx q)) + (det m * ad m) * (orient a p q * (vy a + vy p + vy q)) + (det m * 3 * ac m) * orient a p q)).
    + rewrite fan_lin. ring.
    + intros. rewrite orient_img. unfold img. cbn [vx vy]. ring.
  - rewrite (fan_ext _ (fun p q => (det m * ab m) * (orient a p q * (vx a + vx p + vx q)) + (det m * ae m) * (orient a p q * (vy a + vy p + vy q)) + (det m * 3 * af m) * orient a p q)).
    + rewrite fan_lin. ring.
    + intros. rewrite orient_img. unfold img. cbn [vx vy]. ring.
Qed.
Lemma mass_img m l : (2 <= length l)%nat -> det m <> 0 -> area2 l <> 0 -> mass_centre (map (img m) l) = img m (mass_centre l).
Proof.
  intros H Hd Ha. unfold mass_centre at 1. rewrite area2_img, moment_img by auto. unfold img, mass_centre. cbn [vx vy]. vext; field; auto.
Qed.

(** ** Inside when convex *)
Lemma fan_nonneg f b l : (forall p q, In (p, q) (adj b l) -> 0 <= f p q) -> 0 <= fan f b l.
Proof.
  unfold fan. revert b. induction l as [|c l IH]; intros b H; unfold rsum in *; cbn [adj map fold_right fst snd] in *; [lra|].
  pose proof (H b c (or_introl eq_refl)). pose proof (IH c (fun p q I => H p q (or_intror I))). lra.
Qed.
Lemma fan_pos f b l : (forall p q, In (p, q) (adj b l) -> 0 <= f p q) -> 0 < fan f b l -> exists p q, In (p, q) (adj b l) /\ 0 < f p q.
Proof.
  unfold fan. revert b. induction l as [|c l IH]; intros b H HP; unfold rsum in *; cbn [adj map fold_right fst snd] in *; [lra|].
  destruct (Rle_lt_dec (f b c) 0).
  - destruct (IH c) as (p & q & Hi & Hp). { intros. apply H. right; auto. } { lra. } exists p, q. split; [right|]; auto.
  - exists b, c. split; [left|]; auto.
Qed.
Lemma fan_ge1 f b l p q : (forall p q, In (p, q) (adj b l) -> 0 <= f p q) -> In (p, q) (adj b l) -> f p q <= fan f b l.
Proof.
  revert b. induction l as [|c l IH]; intros b H HI; cbn [adj] in *; [destruct HI|]. rewrite fan_cons. destruct HI as [E|HI].
  - injection E as -> ->. assert (0 <= fan f q l) by (apply fan_nonneg; intros; apply H; right; auto). lra.
  - specialize (IH c (fun p q I => H p q (or_intror I)) HI). pose proof (H b c (or_introl eq_refl)). lra.
Qed.
Lemma adj_in_cyc {X} (a b : X) l p q : In (p, q) (adj b l) -> In (p, q) (cyc_pairs (a :: b :: l)).
Proof.
  rewrite cyc_cons. cbn [app adj]. intro H. right. revert b H. induction l as [|c l IH]; intros b H; cbn in *; [tauto|]. destruct H as [H|H]; auto.
Qed.
Lemma mass_inside l : (3 <= length l)%nat -> convex_ccw l -> area2 l <> 0 -> forall a b, In (a, b) (cyc_pairs l) -> a <> b -> 0 < orient a b (mass_centre l).
Proof.
  intros HL HC HA u v He Hne. destruct l as [|a [|b l]]; cbn in HL; try lia.
  assert (Hp : forall p q, In (p, q) (adj b l) -> 0 <= orient a p q).
  { intros p q H. replace (orient a p q) with (orient p q a) by (ug; ring). apply HC; [apply adj_in_cyc; auto|cbn; auto]. }
  assert (HA' : 0 < area2 (a :: b :: l)). { rewrite area2_fan in *. assert (0 <= fan (orient a) b l) by (apply fan_nonneg; auto). lra. }
  assert (Hin : forall p q, In (p, q) (adj b l) -> In p (a :: b :: l) /\ In q (a :: b :: l)). { intros. apply cyc_in_l, adj_in_cyc; auto. }
  assert (E : 3 * area2 (a :: b :: l) * orient u v (mass_centre (a :: b :: l)) = fan (fun p q => orient a p q * (orient u v a + orient u v p + orient u v q)) b l).
  { transitivity ((vx v - vx u) * vy (moment (a :: b :: l)) - (vy v - vy u) * vx (moment (a :: b :: l)) + (3 * (vx u * (vy v - vy u) - vy u * (vx v - vx u))) * area2 (a :: b :: l)).
    - unfold mass_centre. ug. field. lra.
    - rewrite momentx_fan, momenty_fan, area2_fan.
      replace ((vx v - vx u) * fan (fun p q : pt => orient a p q * (vy a + vy p + vy q)) b l - (vy v - vy u) * fan (fun p q : pt => orient a p q * (vx a + vx p + vx q)) b l) with
        ((vx v - vx u) * fan (fun p q : pt => orient a p q * (vy a + vy p + vy q)) b l + (- (vy v - vy u)) * fan (fun p q : pt => orient a p q * (vx a + vx p + vx q)) b l) by ring.
      rewrite <- fan_lin. apply fan_ext. intros. ug. ring. }
  assert (T : forall p q, In (p, q) (adj b l) -> 0 <= orient a p q * (orient u v a + orient u v p + orient u v q)).
  { intros p q H. destruct (Hin _ _ H) as [I1 I2]. pose proof (HC u v a He ltac:(cbn; auto)). pose proof (HC u v p He I1). pose proof (HC u v q He I2). pose proof (Hp _ _ H). nra. }
  assert (S : 0 < fan (fun p q => orient a p q * (orient u v a + orient u v p + orient u v q)) b l).
  { destruct (fan_pos (orient a) b l Hp) as (p & q & Hi & Hpos). { rewrite <- area2_fan. auto. }
    eapply Rlt_le_trans; [|apply (fan_ge1 _ b l p q T Hi)]. cbn beta.
    destruct (Hin _ _ Hi) as [I1 I2]. pose proof (HC u v a He ltac:(cbn; auto)) as Q1. pose proof (HC u v p He I1) as Q2. pose proof (HC u v q He I2) as Q3.
    apply Rmult_lt_0_compat; auto. destruct (Rle_lt_dec (orient u v a + orient u v p + orient u v q) 0) as [Z|]; auto. exfalso.
    assert (Z1 : orient u v a = 0) by lra. assert (Z2 : orient u v p = 0) by lra. assert (Z3 : orient u v q = 0) by lra.
    (* a, p, q on the line through u <> v: orient a p q = 0 *)
    assert (orient a p q = 0); [|lra]. clear -Z1 Z2 Z3 Hne.
    assert (D : vx v - vx u <> 0 \/ vy v - vy u <> 0). { destruct (Req_dec (vx v) (vx u)); [destruct (Req_dec (vy v) (vy u)); [exfalso; apply Hne; vext; auto|right; lra]|left; lra]. }
    unfold orient, psub, pcross in *. cbn [vx vy] in *. destruct D as [D|D].
    - apply (Rmult_eq_reg_l (vx v - vx u)); auto. rewrite Rmult_0_r. 
      replace ((vx v - vx u) * ((vx p - vx a) * (vy q - vy a) - (vy p - vy a) * (vx q - vx a))) with
       ((vx p - vx a) * (((vx v - vx u) * (vy q - vy u) - (vy v - vy u) * (vx q - vx u)) - ((vx v - vx u) * (vy a - vy u) - (vy v - vy u) * (vx a - vx u))) -
        (vx q - vx a) * (((vx v - vx u) * (vy p - vy u) - (vy v - vy u) * (vx p - vx u)) - ((vx v - vx u) * (vy a - vy u) - (vy v - vy u) * (vx a - vx u)))) by ring.
      rewrite Z1, Z2, Z3. ring.
    - apply (Rmult_eq_reg_l (vy v - vy u)); auto. rewrite Rmult_0_r. 
      replace ((vy v - vy u) * ((vx p - vx a) * (vy q - vy a) - (vy p - vy a) * (vx q - vx a))) with
       ((vy p - vy a) * (((vx v - vx u) * (vy q - vy u) - (vy v - vy u) * (vx q - vx u)) - ((vx v - vx u) * (vy a - vy u) - (vy v - vy u) * (vx a - vx u))) -
        (vy q - vy a) * (((vx v - vx u) * (vy p - vy u) - (vy v - vy u) * (vx p - vx u)) - ((vx v - vx u) * (vy a - vy u) - (vy v - vy u) * (vx a - vx u)))) by ring.
      rewrite Z1, Z2, Z3. ring. }
  rewrite <- E in S. assert (0 < 3 * area2 (a :: b :: l)) by lra. 
  destruct (Rle_lt_dec (orient u v (mass_centre (a :: b :: l))) 0); auto. nra.
Qed.
Lemma mass_inside_cw l : (3 <= length l)%nat -> convex_cw l -> area2 l <> 0 -> forall a b, In (a, b) (cyc_pairs l) -> a <> b -> orient a b (mass_centre l) < 0.
Proof.
  intros HL HC HA a b He Hne.
  assert (He' : In (b, a) (cyc_pairs (rev l))). { eapply Permutation_in; [apply Permutation_sym, cyc_rev|]. apply in_map_iff. exists (a, b). auto. }
  assert (P : 0 < orient b a (mass_centre (rev l))).
  { apply mass_inside; auto; [rewrite rev_length; auto| |rewrite area2_rev; lra].
    intros p q v Hpq Hv. apply (Permutation_in _ (cyc_rev l)) in Hpq. apply in_map_iff in Hpq. destruct Hpq as ([p' q'] & E & Hpq). injection E as <- <-.
    apply in_rev in Hv. pose proof (HC _ _ _ Hpq Hv). revert H. ug. cbn. lra. }
  rewrite mass_rev in P. revert P. ug. lra.
Qed.
