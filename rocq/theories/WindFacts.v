(** * The winding test *)
From Coq Require Import ZArith List Bool Lia Permutation Reals Lra Psatz.
From Verif Require Import Num Vec Affine Box Seq Polygon SpecGeom SpecBox SpecMass SpecWind RBase VecFacts VecFacts2 AffineFacts SpecCycle PolyCache2 PolyEq CentroidFacts.
Import ListNotations.
Local Open Scope R_scope.

(** ** The number behind the boolean *)
Definition zsum (l : list Z) : Z := fold_right Z.add 0%Z l.
Lemma zsum_app l m : zsum (l ++ m) = (zsum l + zsum m)%Z.
Proof. unfold zsum. induction l; cbn; lia. Qed.
Lemma zsum_perm l m : Permutation l m -> zsum l = zsum m.
Proof. unfold zsum. induction 1; cbn; lia. Qed.
Section Number.
  Context {T : Type} {N : Num T}.
  Definition contrib (p : vec T) (e : vec T * vec T) : Z := wind_contrib p (fst e) (snd e).
  Definition wnum (l : list (vec T)) (p : vec T) : Z := zsum (map (contrib p) (cyc_pairs l)).
  Lemma wind_loop_sum p l : forall v0 w, wind_loop p v0 w l = (w + zsum (map (contrib p) (adj v0 l)))%Z.
  Proof. unfold zsum. induction l as [|v l IH]; intros; cbn [wind_loop adj map fold_right]; [lia|]. rewrite IH. unfold contrib at 2. cbn [fst snd]. lia. Qed.
  Lemma wnum_perm l m p : Permutation (cyc_pairs l) (cyc_pairs m) -> wnum l p = wnum m p.
  Proof. intro H. unfold wnum. apply zsum_perm, Permutation_map. auto. Qed.
  Lemma winding_test_num l p : l <> [] -> winding_test l p = Ok (negb (Z.eqb (wnum l p) 0)).
  Proof.
    intro H. destruct (exists_last_or l) as [E|(k & z & ->)]; [contradiction|]. unfold winding_test. rewrite (py_get_last _ z) by auto.
    cbn [bind]. rewrite last_last, wind_loop_sum. rewrite Z.add_0_l. f_equal. f_equal. f_equal. rewrite <- cyc_cons.
    change (wnum (z :: k) p = wnum (k ++ [z]) p). apply wnum_perm, cyc_rot1.
  Qed.
  Lemma wnum_rot l m p : SpecCycle.rotated l m -> wnum l p = wnum m p.
  Proof. intro H. apply wnum_perm, cyc_rotated; auto. Qed.
End Number.

(** Contribution of one edge, over the reals. *)
Lemma contrib_cases (p a b : pt) : contrib p (a, b) =
  if Rle_dec (vy p) (vy a) then if Rle_dec (vy p) (vy b) then 0%Z else if Rle_dec 0 (orient a b p) then (-1)%Z else 0%Z
  else if Rle_dec (vy p) (vy b) then if Rle_dec (orient a b p) 0 then 1%Z else 0%Z else 0%Z.
Proof.
  assert (S : side a b p = orient a b p) by (unfold side; rnum; ug; ring).
  unfold contrib, wind_contrib. cbn [fst snd]. rewrite S. rnum.
  destruct (Rle_dec (vy p) (vy a)), (Rle_dec (vy p) (vy b)), (Rleb_spec (vy p) (vy a)), (Rleb_spec (vy p) (vy b)); try lra; cbn [xorb]; auto.
  - destruct (Rle_dec 0 (orient a b p)), (Rleb_spec 0 (orient a b p)); auto; lra.
  - destruct (Rle_dec (orient a b p) 0), (Rleb_spec (orient a b p) 0); auto; lra.
Qed.
Lemma contrib_swap (p a b : pt) : contrib p (b, a) = (- contrib p (a, b))%Z.
Proof.
  rewrite !contrib_cases. replace (orient b a p) with (- orient a b p) by (ug; ring).
  destruct (Rle_dec (vy p) (vy a)), (Rle_dec (vy p) (vy b)); auto.
  - destruct (Rle_dec (- orient a b p) 0), (Rle_dec 0 (orient a b p)); auto; lra.
  - destruct (Rle_dec (orient a b p) 0), (Rle_dec 0 (- orient a b p)); auto; lra.
Qed.
Lemma wnum_rev (l : list pt) p : wnum (rev l) p = (- wnum l p)%Z.
Proof.
  unfold wnum. rewrite (zsum_perm _ _ (Permutation_map _ (cyc_rev l))), map_map.
  induction (cyc_pairs l) as [|[a b] k IH]; auto. unfold zsum in *. cbn [map fold_right]. rewrite IH. unfold swap. cbn [fst snd]. rewrite contrib_swap. lia.
Qed.
Lemma wnum_chord (a b : pt) m n p : wnum (a :: m ++ b :: n) p = (wnum (a :: m ++ [b]) p + wnum (b :: n ++ [a]) p)%Z.
Proof.
  unfold wnum. rewrite !cyc_cons.
  assert (A : forall m c n, adj c (m ++ b :: n) = adj c (m ++ [b]) ++ adj b n).
  { clear. induction m as [|d m IH]; intros c n; cbn [app adj]; auto. rewrite IH. auto. }
  rewrite <- !app_assoc. cbn [app]. rewrite (A m a (n ++ [a])), (adj_last m b a), (adj_last n a b), !map_app, !zsum_app.
  unfold zsum at 4 6. cbn [map fold_right]. rewrite (contrib_swap p a b). lia.
Qed.
Lemma wnum_tri (p a b c : pt) : wnum [a; b; c] p = (contrib p (a, b) + contrib p (b, c) + contrib p (c, a))%Z.
Proof. unfold wnum, zsum. cbn [cyc_pairs cyc_pairs_from map fold_right]. lia. Qed.
Lemma wnum_fan_gen (o : pt) p l : forall a, zsum (map (contrib p) (adj a l)) =
  (zsum (map (fun e => wnum [o; fst e; snd e] p) (adj a l)) - contrib p (o, a) - contrib p (last l a, o))%Z.
Proof.
  induction l as [|b l IH]; intro a.
  - unfold zsum. cbn [adj map fold_right last]. rewrite (contrib_swap p o a). lia.
  - unfold zsum in *. cbn [adj map fold_right]. rewrite IH. replace (last (b :: l) a) with (last l b).
    2:{ clear. destruct l as [|c l]; auto. change (last (c :: l) b = last (c :: l) a). revert c. induction l as [|d l IH]; intro c; auto. change (last (d :: l) b = last (d :: l) a). apply IH. }
    cbn [fst snd]. rewrite (wnum_tri p o a b), (contrib_swap p o b). lia.
Qed.
Lemma wnum_fan (o : pt) p l : wnum l p = zsum (map (fun e => wnum [o; fst e; snd e] p) (cyc_pairs l)).
Proof.
  destruct l as [|a l]; auto. unfold wnum at 1. rewrite !cyc_cons, (wnum_fan_gen o), last_last, (contrib_swap p o a). lia.
Qed.

(** ** Turning angle *)
Definition arg (u : pt) : R := Ratan2 (vy u) (vx u).
Lemma arg_polar (u : pt) : u <> porigin -> vx u = norm u * cos (arg u) /\ vy u = norm u * sin (arg u).
Proof.
  intro H. unfold arg, norm. apply Ratan2_polar. intros [H1 H2]. apply H. vext; auto.
Qed.
Lemma arg_above (u : pt) : u <> porigin -> (0 <= vy u <-> 0 <= arg u).
Proof.
  intro H. destruct (arg_polar u H) as [_ Hy]. pose proof (norm_pos u H). pose proof (Ratan2_range (vy u) (vx u)) as [H1 H2]. fold (arg u) in *. split; intro K.
  - destruct (Rle_lt_dec 0 (arg u)); auto. assert (sin (arg u) < 0) by (apply sin_lt_0_var; lra). nra.
  - assert (0 <= sin (arg u)) by (apply sin_ge_0; lra). nra.
Qed.
Lemma angle_unique x y : - PI < x < PI -> - PI < y < PI -> cos x = cos y -> sin x = sin y -> x = y.
Proof.
  intros Hx Hy Hc Hs. assert (E : cos (x - y) = 1). { rewrite cos_minus, Hc, Hs. pose proof (sin2_cos2 y) as K. unfold Rsqr in K. lra. }
  assert (Z : sin ((x - y) / 2) = 0).
  { replace (x - y) with (2 * ((x - y) / 2)) in E by field. rewrite cos_2a_sin in E. nra. }
  destruct (Rtotal_order x y) as [L|[L|L]]; auto; exfalso.
  - assert (sin ((y - x) / 2) > 0) by (apply sin_gt_0; lra). replace ((y - x) / 2) with (- ((x - y) / 2)) in H by field. rewrite sin_neg in H. lra.
  - assert (sin ((x - y) / 2) > 0) by (apply sin_gt_0; lra). lra.
Qed.
Lemma sumsq0 (x y : R) : x * x + y * y <= 0 -> x = 0 /\ y = 0.
Proof. intro H. split; apply Rsqr_0_uniq; unfold Rsqr; nra. Qed.
Lemma on_segment_opposite (a b p : pt) : pcross (psub a p) (psub b p) = 0 -> pdot (psub a p) (psub b p) <= 0 -> on_segment a b p.
Proof.
  destruct a as [a1 a2], b as [b1 b2], p as [p1 p2]. ug. intros HC HD.
  remember ((b1 - a1) * (b1 - a1) + (b2 - a2) * (b2 - a2)) as d2 eqn:Ed.
  destruct (Req_EM_T d2 0) as [Z|Z].
  - assert (b1 = a1 /\ b2 = a2) as [-> ->] by (destruct (sumsq0 (b1 - a1) (b2 - a2)); [lra|lra]).
    assert (p1 = a1 /\ p2 = a2) as [-> ->] by (destruct (sumsq0 (a1 - p1) (a2 - p2)); lra). exists 0. split; [lra|]. unfold between. ug. vext; ring.
  - assert (P0 : 0 <= d2) by (clear Z; pose proof (Rle_0_sqr (b1 - a1)); pose proof (Rle_0_sqr (b2 - a2)); pose proof (Rle_0_sqr (p1 - a1)); pose proof (Rle_0_sqr (p2 - a2)); pose proof (Rle_0_sqr (p1 - b1)); pose proof (Rle_0_sqr (p2 - b2)); unfold Rsqr in *; lra). assert (P : 0 < d2) by (destruct P0; [auto|exfalso; apply Z; auto]).
    exists (((p1 - a1) * (b1 - a1) + (p2 - a2) * (b2 - a2)) / d2). split.
    + split.
      * apply Rmult_le_reg_r with d2; auto. unfold Rdiv. rewrite Rmult_assoc, Rinv_l, Rmult_1_r by auto. clear Z; pose proof (Rle_0_sqr (b1 - a1)); pose proof (Rle_0_sqr (b2 - a2)); pose proof (Rle_0_sqr (p1 - a1)); pose proof (Rle_0_sqr (p2 - a2)); pose proof (Rle_0_sqr (p1 - b1)); pose proof (Rle_0_sqr (p2 - b2)); unfold Rsqr in *; lra.
      * apply Rmult_le_reg_r with d2; auto. unfold Rdiv. rewrite Rmult_assoc, Rinv_l, Rmult_1_r by auto. clear Z; pose proof (Rle_0_sqr (b1 - a1)); pose proof (Rle_0_sqr (b2 - a2)); pose proof (Rle_0_sqr (p1 - a1)); pose proof (Rle_0_sqr (p2 - a2)); pose proof (Rle_0_sqr (p1 - b1)); pose proof (Rle_0_sqr (p2 - b2)); unfold Rsqr in *; lra.
    + unfold between. ug. vext.
      * apply Rmult_eq_reg_r with d2; auto. transitivity (a1 * d2 + ((p1 - a1) * (b1 - a1) + (p2 - a2) * (b2 - a2)) * (b1 - a1)); [|field; auto].
        assert (K : (b2 - a2) * ((a1 - p1) * (b2 - p2) - (a2 - p2) * (b1 - p1)) = 0) by (rewrite HC; ring). rewrite Ed. clear Z; lra.
      * apply Rmult_eq_reg_r with d2; auto. transitivity (a2 * d2 + ((p1 - a1) * (b1 - a1) + (p2 - a2) * (b2 - a2)) * (b2 - a2)); [|field; auto].
        assert (K : (b1 - a1) * ((a1 - p1) * (b2 - p2) - (a2 - p2) * (b1 - p1)) = 0) by (rewrite HC; ring). rewrite Ed. clear Z; lra.
Qed.
Lemma on_segment_ends (a b : pt) : on_segment a b a /\ on_segment a b b.
Proof. destruct a as [a1 a2], b as [b1 b2]. split; [exists 0|exists 1]; (split; [lra|]); unfold between; ug; vext; ring. Qed.

Lemma edge_turn (p a b : pt) : ~ on_segment a b p ->
  turns p (a, b) (arg (psub b p) - arg (psub a p) - 2 * PI * IZR (contrib p (a, b))).
Proof.
  intro Hs. set (u := psub a p). set (v := psub b p).
  assert (Hu : u <> porigin). { intro H. apply Hs. replace p with a; [apply on_segment_ends|]. subst u. destruct a as [a1 a2], p as [p1 p2]. unfold psub, porigin in H. cbn [vx vy] in H. apply mkV_inj in H. vext; lra. }
  assert (Hv : v <> porigin). { intro H. apply Hs. replace p with b; [apply on_segment_ends|]. subst v. destruct b as [a1 a2], p as [p1 p2]. unfold psub, porigin in H. cbn [vx vy] in H. apply mkV_inj in H. vext; lra. }
  assert (Hop : ~ (pcross u v = 0 /\ pdot u v <= 0)) by (intros [H1 H2]; apply Hs, on_segment_opposite; auto).
  destruct (arg_polar u Hu) as [Ux Uy], (arg_polar v Hv) as [Vx Vy].
  pose proof (norm_pos u Hu) as Pu. pose proof (norm_pos v Hv) as Pv.
  pose proof (Ratan2_range (vy u) (vx u)) as [A1 A2]. pose proof (Ratan2_range (vy v) (vx v)) as [B1 B2]. fold (arg u) in *. fold (arg v) in *.
  pose proof (arg_above u Hu) as Ua. pose proof (arg_above v Hv) as Va.
  set (al := arg u) in *. set (be := arg v) in *. set (r := norm u) in *. set (s := norm v) in *.
  assert (Hrs : 0 < r * s) by (apply Rmult_lt_0_compat; auto).
  assert (Dot : pdot u v = r * s * cos (be - al)). { unfold pdot. rewrite Ux, Uy, Vx, Vy, cos_minus. ring. }
  assert (Cro : pcross u v = r * s * sin (be - al)). { unfold pcross. rewrite Ux, Uy, Vx, Vy, sin_minus. ring. }
  assert (Or : orient a b p = pcross u v) by (unfold u, v; ug; ring).
  assert (Np : be - al <> PI). { intro H. apply Hop. rewrite Dot, Cro, H, sin_PI, cos_PI. split; nra. }
  assert (Nm : be - al <> - PI). { intro H. apply Hop. rewrite Dot, Cro, H, sin_neg, cos_neg, sin_PI, cos_PI. split; nra. }
  assert (Ya : vy u = vy a - vy p) by reflexivity. assert (Yb : vy v = vy b - vy p) by reflexivity.
  assert (PER : forall k : Z, cos (be - al - 2 * PI * IZR k) = cos (be - al) /\ sin (be - al - 2 * PI * IZR k) = sin (be - al)).
  { intro k. replace (be - al - 2 * PI * IZR k) with (be - al + 2 * IZR (- k) * PI) by (rewrite opp_IZR; ring). split; [apply cos_period_Z|apply sin_period_Z]. }
  unfold turns. cbn [fst snd]. fold u v. destruct (PER (contrib p (a, b))) as [Pc Ps]. fold r s. rewrite Pc, Ps, Dot, Cro. split; [|auto].
  rewrite contrib_cases. pose proof PI_pos as HPI.
  destruct (Rle_dec (vy p) (vy a)) as [Ha|Ha], (Rle_dec (vy p) (vy b)) as [Hb|Hb].
  - assert (0 <= al) by (apply Ua; lra). assert (0 <= be) by (apply Va; lra). cbn. lra.
  - assert (0 <= al) by (apply Ua; lra). assert (be < 0) by (apply Rnot_le_lt; intro K; apply Va in K; lra).
    destruct (Rle_dec 0 (orient a b p)) as [K|K]; rewrite Or, Cro in K; cbn.
    + destruct (Rle_lt_dec (be - al) (- PI)) as [L|L]; [lra|]. exfalso.
      assert (sin (be - al) < 0) by (apply sin_lt_0_var; lra). nra.
    + destruct (Rle_lt_dec (be - al) (- PI)) as [L|L]; [|lra]. exfalso. apply K.
      assert (0 <= sin (be - al + 2 * PI)) by (apply sin_ge_0; lra). replace (be - al + 2 * PI) with (be - al + 2 * IZR 1 * PI) in H1 by (cbn; ring).
      rewrite sin_period_Z in H1. nra.
  - assert (al < 0) by (apply Rnot_le_lt; intro K; apply Ua in K; lra). assert (0 <= be) by (apply Va; lra).
    destruct (Rle_dec (orient a b p) 0) as [K|K]; rewrite Or, Cro in K; cbn.
    + destruct (Rle_lt_dec PI (be - al)) as [L|L]; [lra|]. exfalso.
      assert (0 < sin (be - al)) by (apply sin_gt_0; lra). nra.
    + destruct (Rle_lt_dec PI (be - al)) as [L|L]; [|lra]. exfalso. apply K.
      assert (sin (be - al) <= 0) by (apply sin_le_0; lra). nra.
  - assert (al < 0) by (apply Rnot_le_lt; intro K; apply Ua in K; lra). assert (be < 0) by (apply Rnot_le_lt; intro K; apply Va in K; lra). cbn. lra.
Qed.
Lemma turns_unique p e t t' : ~ on_segment (fst e) (snd e) p -> turns p e t -> turns p e t' -> t = t'.
Proof.
  intros Hs (H1 & H2 & H3) (H1' & H2' & H3'). 
  assert (P : norm (psub (fst e) p) * norm (psub (snd e) p) <> 0).
  { intro Z. apply Hs. apply on_segment_opposite; [rewrite <- H3, Z|rewrite <- H2, Z]; lra. }
  apply angle_unique; auto; eapply Rmult_eq_reg_l; try exact P; congruence.
Qed.
Lemma turns_total (p : pt) l : (forall e, In e l -> ~ on_segment (fst e) (snd e) p) -> exists ts, Forall2 (turns p) l ts.
Proof.
  induction l as [|[a b] l IH]; intro H; [exists []; constructor|]. destruct IH as [ts Hts]. { intros. apply H. cbn; auto. }
  eexists (_ :: ts). constructor; [apply edge_turn, (H (a, b)); cbn; auto|auto].
Qed.
Lemma turns_sum (p : pt) l : (forall e, In e l -> ~ on_segment (fst e) (snd e) p) -> forall ts, Forall2 (turns p) l ts ->
  rsum ts = rsum (map (fun e => arg (psub (snd e) p) - arg (psub (fst e) p)) l) - 2 * PI * IZR (zsum (map (contrib p) l)).
Proof.
  intros H ts F. unfold rsum, zsum. induction F as [|[a b] t l ts Ht F IH]; [cbn; ring|]. cbn [map fold_right].
  rewrite IH by (intros; apply H; cbn; auto). rewrite plus_IZR. cbn [fst snd].
  rewrite (turns_unique p (a, b) t _ (H (a, b) (or_introl eq_refl)) Ht (edge_turn p a b (H (a, b) (or_introl eq_refl)))). ring.
Qed.
Lemma wnum_turns (p : pt) l ts : off_edges p l -> Forall2 (turns p) (cyc_pairs l) ts -> rsum ts = - (2 * PI) * IZR (wnum l p).
Proof.
  intros H F. rewrite (turns_sum p (cyc_pairs l)); auto.
  - rewrite (cyc_telescope (fun q => arg (psub q p))). unfold wnum. ring.
  - intros [a b] He. apply H; auto.
Qed.

(** ** Points on the boundary *)
Lemma jrb_and p (A B : pt -> Prop) : just_right_below p A -> just_right_below p B -> just_right_below p (fun q => A q /\ B q).
Proof.
  intros (e & He & HA) (e' & He' & HB). exists (Rmin e e'). split; [apply Rmin_pos; auto|]. intros dx Hx.
  assert (0 < dx < e) as H1 by (pose proof (Rmin_l e e'); lra). assert (0 < dx < e') as H2 by (pose proof (Rmin_r e e'); lra).
  destruct (HA dx H1) as (d & Hd & HA'), (HB dx H2) as (d' & Hd' & HB'). exists (Rmin d d'). split; [apply Rmin_pos; auto|]. intros dy Hy.
  split; [apply HA'; pose proof (Rmin_l d d'); lra|apply HB'; pose proof (Rmin_r d d'); lra].
Qed.
Lemma jrb_impl p (A B : pt -> Prop) : (forall q, A q -> B q) -> just_right_below p A -> just_right_below p B.
Proof. intros H (e & He & HA). exists e. split; auto. intros dx Hx. destruct (HA dx Hx) as (d & Hd & K). exists d. split; auto. Qed.
Lemma jrb_true p : just_right_below p (fun _ => True).
Proof. exists 1. split; [lra|]. intros. exists 1. split; [lra|auto]. Qed.
Lemma jrb_all {X} p (l : list X) (A : X -> pt -> Prop) : (forall x, In x l -> just_right_below p (A x)) -> just_right_below p (fun q => forall x, In x l -> A x q).
Proof.
  induction l as [|x l IH]; intro H.
  - eapply jrb_impl; [|apply jrb_true]. cbn. tauto.
  - eapply jrb_impl; [|apply jrb_and; [apply (H x); cbn; auto|apply IH; intros; apply H; cbn; auto]]. cbn. intros q [H1 H2] y [<-|Hy]; auto.
Qed.
(** ex * dy + dx * ey is small, and has the sign of ey. *)
Lemma jrb_small (p : pt) (ex ey K : R) : 0 < K -> just_right_below p (fun q => Rabs (ex * (vy p - vy q) + (vx q - vx p) * ey) < K).
Proof.
  intro HK. exists (K / (2 * (Rabs ey + 1))). pose proof (Rabs_pos ey) as P1. pose proof (Rabs_pos ex) as P2.
  split; [apply Rdiv_lt_0_compat; lra|]. intros dx Hx. exists (K / (2 * (Rabs ex + 1))). split; [apply Rdiv_lt_0_compat; lra|]. intros dy Hy. cbn [vx vy].
  replace (ex * (vy p - (vy p - dy)) + (vx p + dx - vx p) * ey) with (ex * dy + dx * ey) by ring.
  eapply Rle_lt_trans; [apply Rabs_triang|]. rewrite !Rabs_mult, (Rabs_right dx), (Rabs_right dy) by lra.
  assert (dx * Rabs ey <= K / 2 * (Rabs ey / (Rabs ey + 1))).
  { apply Rle_trans with (K / (2 * (Rabs ey + 1)) * Rabs ey); [apply Rmult_le_compat_r; lra|]. right. field. lra. }
  assert (Rabs ex * dy < K / 2).
  { apply Rle_lt_trans with (Rabs ex * (K / (2 * (Rabs ex + 1)))); [apply Rmult_le_compat_l; lra|].
    apply Rmult_lt_reg_r with (2 * (Rabs ex + 1)); [lra|]. replace (Rabs ex * (K / (2 * (Rabs ex + 1))) * (2 * (Rabs ex + 1))) with (Rabs ex * K) by (field; lra). nra. }
  assert (Rabs ey / (Rabs ey + 1) <= 1). { apply Rmult_le_reg_r with (Rabs ey + 1); [lra|]. unfold Rdiv. rewrite Rmult_assoc, Rinv_l by lra. lra. }
  nra.
Qed.
Lemma jrb_pos (p : pt) (ex ey : R) : 0 < ey -> just_right_below p (fun q => 0 < ex * (vy p - vy q) + (vx q - vx p) * ey).
Proof.
  intro H. exists 1. split; [lra|]. intros dx Hx. pose proof (Rabs_pos ex) as P2. exists (dx * ey / (Rabs ex + 1)).
  split; [apply Rdiv_lt_0_compat; nra|]. intros dy Hy. cbn [vx vy].
  replace (ex * (vy p - (vy p - dy)) + (vx p + dx - vx p) * ey) with (ex * dy + dx * ey) by ring.
  assert (Rabs ex * dy < dx * ey).
  { assert (K : dy * (Rabs ex + 1) < dx * ey). { apply Rmult_lt_reg_r with (/ (Rabs ex + 1)); [apply Rinv_0_lt_compat; lra|]. rewrite Rmult_assoc, Rinv_r by lra. unfold Rdiv in Hy. lra. }
    nra. }
  pose proof (Rle_abs (- ex)). rewrite Rabs_Ropp in H1. nra.
Qed.
Lemma jrb_neg (p : pt) (ex ey : R) : ey < 0 -> just_right_below p (fun q => ex * (vy p - vy q) + (vx q - vx p) * ey < 0).
Proof. intro H. eapply jrb_impl; [|apply (jrb_pos p (- ex) (- ey)); lra]. cbn. intros q K. lra. Qed.
Lemma jrb_above (p : pt) (y : R) : just_right_below p (fun q => (vy p <= y <-> vy q <= y) /\ vy q <> y /\ vy q < vy p).
Proof.
  exists 1. split; [lra|]. intros dx _. destruct (Rle_lt_dec (vy p) y).
  - exists 1. split; [lra|]. intros dy Hy. cbn [vx vy]. repeat split; intros; lra.
  - exists (vy p - y). split; [lra|]. intros dy Hy. cbn [vx vy]. repeat split; intros; lra.
Qed.
Lemma jrb_side (p a b : pt) : vy a <> vy b -> just_right_below p (fun q => orient a b q <> 0 /\
  (0 < orient a b p -> 0 < orient a b q) /\ (orient a b p < 0 -> orient a b q < 0) /\
  (orient a b p = 0 -> vy a < vy b -> orient a b q < 0) /\ (orient a b p = 0 -> vy b < vy a -> 0 < orient a b q)).
Proof.
  intro Hne. assert (E : forall q, orient a b q = orient a b p - ((vx b - vx a) * (vy p - vy q) + (vx q - vx p) * (vy b - vy a))) by (intro; ug; ring).
  destruct (Req_EM_T (orient a b p) 0) as [Z|Z].
  - destruct (Rlt_le_dec (vy a) (vy b)) as [L|L].
    + eapply jrb_impl; [|apply (jrb_pos p (vx b - vx a) (vy b - vy a)); lra]. cbn beta. intros q K. rewrite (E q), Z. repeat split; intros; lra.
    + eapply jrb_impl; [|apply (jrb_neg p (vx b - vx a) (vy b - vy a)); lra]. cbn beta. intros q K. rewrite (E q), Z. repeat split; intros; lra.
  - eapply jrb_impl; [|apply (jrb_small p (vx b - vx a) (vy b - vy a) (Rabs (orient a b p))); apply Rabs_pos_lt; auto]. cbn beta. intros q K. rewrite (E q).
    apply Rabs_def2 in K. destruct K as [K1 K2]. unfold Rabs in *. destruct (Rcase_abs (orient a b p)); repeat split; intros; lra.
Qed.
Lemma jrb_edge (p a b : pt) : just_right_below p (fun q => contrib q (a, b) = contrib p (a, b) /\ ~ on_segment a b q).
Proof.
  assert (OS : forall q, on_segment a b q -> orient a b q = 0 /\ (vy a = vy b -> vy q = vy a)).
  { intros q (t & Ht & ->). unfold between. ug. split; [ring|]. intros ->. ring. }
  destruct (Req_EM_T (vy a) (vy b)) as [Z|Z].
  - eapply jrb_impl; [|apply (jrb_above p (vy a))]. cbn beta. intros q (H1 & H2 & H3). split.
    + rewrite !contrib_cases, <- Z. destruct (Rle_dec (vy p) (vy a)), (Rle_dec (vy q) (vy a)); auto; tauto.
    + intro K. apply OS in K. destruct K as [_ K]. auto.
  - eapply jrb_impl; [|apply jrb_and; [apply (jrb_side p a b Z)|apply jrb_and; [apply (jrb_above p (vy a))|apply (jrb_above p (vy b))]]]. cbn beta.
    intros q ((S1 & S2 & S3 & S4 & S5) & (A1 & A2 & A3) & (B1 & B2 & B3)). split.
    + rewrite !contrib_cases. destruct (Rle_dec (vy p) (vy a)), (Rle_dec (vy q) (vy a)); try tauto;
        destruct (Rle_dec (vy p) (vy b)), (Rle_dec (vy q) (vy b)); try tauto; auto.
      * destruct (Rle_dec 0 (orient a b q)), (Rle_dec 0 (orient a b p)); auto; exfalso.
        -- assert (orient a b p < 0) by lra. specialize (S3 H). lra.
        -- destruct (Req_EM_T (orient a b p) 0) as [Y|Y]; [specialize (S5 Y)|specialize (S2 ltac:(lra))]; lra.
      * destruct (Rle_dec (orient a b q) 0), (Rle_dec (orient a b p) 0); auto; exfalso.
        -- assert (0 < orient a b p) by lra. specialize (S2 H). lra.
        -- destruct (Req_EM_T (orient a b p) 0) as [Y|Y]; [specialize (S4 Y)|specialize (S3 ltac:(lra))]; lra.
    + intro K. apply OS in K. destruct K as [K _]. auto.
Qed.
Lemma wnum_half_open (p : pt) (l : list pt) : just_right_below p (fun q => wnum l q = wnum l p /\ off_edges q l).
Proof.
  eapply jrb_impl; [|apply (jrb_all p (cyc_pairs l) (fun e q => contrib q e = contrib p e /\ ~ on_segment (fst e) (snd e) q)); intros [a b] _; apply jrb_edge].
  cbn beta. intros q H. split.
  - unfold wnum. f_equal. apply map_ext_in. intros e He. apply H; auto.
  - intros a b He. apply (H (a, b)); auto.
Qed.

(** ** The bounding box *)
Lemma updown_sum (p : pt) l : forall a, zsum (map (fun e => ((if Rle_dec (vy p) (vy (snd e)) then 1 else 0) - (if Rle_dec (vy p) (vy (fst e)) then 1 else 0))%Z) (adj a l))
  = ((if Rle_dec (vy p) (vy (last l a)) then 1 else 0) - (if Rle_dec (vy p) (vy a) then 1 else 0))%Z.
Proof.
  unfold zsum. induction l as [|b l IH]; intro a; cbn [adj map fold_right fst snd]; [cbn; lia|]. rewrite IH.
  replace (last (b :: l) a) with (last l b); [lia|]. clear. destruct l as [|c l]; auto. change (last (c :: l) b = last (c :: l) a).
  revert c. induction l as [|d l IH]; intro c; auto. change (last (d :: l) b = last (d :: l) a). apply IH.
Qed.
Lemma zsum_zero {X} (f : X -> Z) l : (forall x, In x l -> f x = 0%Z) -> zsum (map f l) = 0%Z.
Proof. unfold zsum. induction l as [|x l IH]; intro H; cbn; auto. rewrite H, IH by (cbn; auto; intros; apply H; cbn; auto). lia. Qed.
Lemma wnum_outside (p : pt) (l : list pt) :
  (forall v, In v l -> vx p < vx v) \/ (forall v, In v l -> vx v <= vx p) \/ (forall v, In v l -> vy p <= vy v) \/ (forall v, In v l -> vy v < vy p) ->
  wnum l p = 0%Z.
Proof.
  intro H. unfold wnum. destruct H as [H|[H|[H|H]]].
  - apply zsum_zero. intros [a b] He. apply cyc_in_l in He. destruct He as [Ha Hb]. apply H in Ha, Hb. rewrite contrib_cases.
    destruct (Rle_dec (vy p) (vy a)), (Rle_dec (vy p) (vy b)); auto.
    + destruct (Rle_dec 0 (orient a b p)) as [K|]; auto. exfalso. revert K. ug. nra.
    + destruct (Rle_dec (orient a b p) 0) as [K|]; auto. exfalso. revert K. ug. nra.
  - destruct l as [|c l]; auto. rewrite cyc_cons.
    transitivity (zsum (map (fun e => ((if Rle_dec (vy p) (vy (snd e)) then 1 else 0) - (if Rle_dec (vy p) (vy (fst e)) then 1 else 0))%Z) (adj c (l ++ [c])))).
    + f_equal. apply map_ext_in. intros [a b] He. rewrite <- cyc_cons in He. apply cyc_in_l in He. destruct He as [Ha Hb]. apply H in Ha, Hb. rewrite contrib_cases. cbn [fst snd].
      destruct (Rle_dec (vy p) (vy a)), (Rle_dec (vy p) (vy b)); auto.
      * destruct (Rle_dec 0 (orient a b p)) as [K|K]; auto. exfalso. apply K. ug. nra.
      * destruct (Rle_dec (orient a b p) 0) as [K|K]; auto. exfalso. apply K. ug. nra.
    + rewrite updown_sum, last_last. lia.
  - apply zsum_zero. intros [a b] He. apply cyc_in_l in He. destruct He as [Ha Hb]. apply H in Ha, Hb. rewrite contrib_cases.
    destruct (Rle_dec (vy p) (vy a)), (Rle_dec (vy p) (vy b)); auto; lra.
  - apply zsum_zero. intros [a b] He. apply cyc_in_l in He. destruct He as [Ha Hb]. apply H in Ha, Hb. rewrite contrib_cases.
    destruct (Rle_dec (vy p) (vy a)), (Rle_dec (vy p) (vy b)); auto; lra.
Qed.
