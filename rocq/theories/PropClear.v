(** * C94: polygon queries on doubles are right for points in general position, with a margin *)
From Coq Require Import ZArith List Bool Reals Lra Lia Floats.
From Flocq Require Import Core IEEE754.PrimFloat IEEE754.BinarySingleNaN.
From Verif Require Import Num NumFloat Vec Affine Box Seq Polygon Tangent PolyOps SpecPoly SpecGeom SpecMass SpecWind SpecConvex SpecSimple SpecTangent SpecErr SpecClear
  SpecExact OrdLaws FloatFacts FloatFacts2 FloatExact FloatErr FloatErr4 FloatErr5 FloatErr6 RelPoly RelClear ClearFacts ClearFacts2 CentroidFacts AffineFacts PolyCache PolyCache2 PolyCache3 NumHom RComp ConvexFacts ConvexFacts2 ConvexFacts3 ConvexFacts4
  PropConvex PropSimple PropWind PropTangent PropExact.
Import ListNotations.
Local Open Scope R_scope.

(** All points mentioned, vertices and query points alike, come from [pts]. *)
Theorem C94_same_answers : forall (L : FloatLib) (M : R) (pts vs : list (vec PrimFloat.float)) (c s : option bool) (os : list (pop PrimFloat.float)),
  room M -> Forall (within M) pts -> general_position (margin (-47) (M * M)) (map vecR pts) ->
  (4 <= length vs)%nat -> incl vs pts -> Forall (op_on (fun v => In v pts)) os ->
  let N := FNum L in
  exists (p0 : poly PrimFloat.float) (q0 : poly R),
    poly_new vs c s = Ok p0 /\ poly_new (map vecR vs) c s = Ok q0 /\
    let p := prun p0 os in let q := prun q0 (map opR os) in
    map vecR (pverts p) = pverts q /\
    fst (get_is_convex p) = fst (get_is_convex q) /\
    fst (get_is_simple p) = fst (get_is_simple q) /\
    rmap boxR (fst (get_bbox p)) = fst (get_bbox q) /\
    (forall E E' pt, In pt pts -> fst (contains_point E pt p) = fst (contains_point E' (vecR pt) q)) /\
    (forall pt, In pt pts -> rmap pairR (fst (tangents_to_point pt p)) = fst (tangents_to_point (vecR pt) q)).
Proof.
  intros L M pts vs c s os HM HW GP Hn HI Hos N. pose proof (clear_laws L M HM pts GP) as KL.
  pose proof (k_poly_new _ _ KL _ _ c s (pts_kvs M pts HW vs HI) Hn) as HN.
  assert (Hq : exists q0, poly_new (map vecR vs) c s = Ok q0).
  { destruct (map vecR vs) as [|v ws] eqn:EV; [apply map_eq_nil in EV; subst; cbn in Hn; lia|].
    unfold poly_new. destruct (Nat.ltb_spec (length (seq_new (v :: ws))) 3) as [K|K].
    - exfalso. rewrite <- EV in K. unfold seq_new in K. rewrite !map_length in K. lia.
    - cbv zeta. assert (ES : exists pl, split_y_polylines (seq_new (v :: ws)) = Ok pl).
      { cbn [seq_new map]. unfold split_y_polylines, find_extrema. cbn [bind].
        destruct (Nat.ltb _ _); match goal with |- context [if ?b then Ok _ else Ok _] => destruct b end; eexists; reflexivity. }
      destruct ES as [pl ->]. destruct c as [c|].
      + destruct (pconvex _); cbn [bind].
        * destruct s as [s|]; [match goal with |- context [psimple ?x] => destruct (psimple x) end|]; eauto.
        * destruct (_ && _); cbn [bind]; (destruct s as [s|]; [match goal with |- context [psimple ?x] => destruct (psimple x) end|]); eauto.
      + cbn [bind]. destruct s as [s|]; [match goal with |- context [psimple ?x] => destruct (psimple x) end|]; eauto. }
  destruct Hq as [q0 Hq]. rewrite Hq in HN. destruct (poly_new vs c s) as [p0|] eqn:Hp; [|contradiction HN]. cbn [rres] in HN.
  exists p0, q0. split; [reflexivity|]. split; [exact Hq|]. intros p q.
  assert (HP : kpoly (fkc M) (fkv M pts) p q) by (apply (k_prun _ _ KL); auto; apply pts_kops; auto).
  split; [apply (kvs_vecR M pts), HP|].
  split; [apply rres_eq, (k_get_convex _ _ KL _ _ HP)|].
  split; [apply rres_eq, (k_get_simple _ _ KL _ _ HP)|].
  split; [|split].
  - eapply rres_map; [|apply (k_get_bbox _ _ KL _ _ HP)]. intros a [b1 b2] [K1 K2]. unfold boxR. cbn [bmin bmax] in *.
    f_equal; apply (kcv_vecR M); auto.
  - intros E E' pt Hpt. apply rres_eq. apply (k_contains _ _ KL); auto. apply pts_kv; auto.
  - intros pt Hpt. eapply rres_map; [|apply (k_tangents _ _ KL _ _ _ _ HP (pts_kv M pts HW pt Hpt))].
    intros a [b1 b2] [K1 K2]. unfold pairR. cbn [fst snd] in *. f_equal; apply (kv_vecR M pts); auto.
Qed.
Print Assumptions C94_same_answers.

(** The same for polygons made from Vec2 objects without conversion. *)
Lemma clear_from_points (L : FloatLib) M pts vs os : room M -> Forall (within M) pts -> general_position (margin (-47) (M * M)) (map vecR pts) ->
  (4 <= length vs)%nat -> incl vs pts -> Forall (op_on (fun v => In v pts)) os ->
  let N := FNum L in kpoly (fkc M) (fkv M pts) (prun (poly_from_points vs) os) (prun (poly_from_points (map vecR vs)) (map opR os)).
Proof.
  intros HM HW GP Hn HI Hos N. apply (k_prun _ _ (clear_laws L M HM pts GP)); [apply pts_kops; auto|].
  apply k_cleared; auto. apply pts_kvs; auto.
Qed.

(** is_convex of doubles decides convexity of the exact cycle of vertices. *)
Theorem C94_convex : forall (L : FloatLib) (M : R) (pts vs : list (vec PrimFloat.float)) (os : list (pop PrimFloat.float)),
  room M -> Forall (within M) pts -> general_position (margin (-47) (M * M)) (map vecR pts) ->
  (4 <= length vs)%nat -> incl vs pts -> Forall (op_on (fun v => In v pts)) os ->
  let N := FNum L in let p := prun (poly_from_points vs) os in let l := map vecR (pverts p) in
  ends_apart l -> spread l ->
  fst (get_is_convex p) = Ok true /\ (convex_ccw l \/ convex_cw l) /\ visits_once l \/
  fst (get_is_convex p) = Ok false /\ ~ ((convex_ccw l \/ convex_cw l) /\ visits_once l).
Proof.
  intros L M pts vs os HM HW GP Hn HI Hos N p l D Sp. pose proof (clear_from_points L M pts vs os HM HW GP Hn HI Hos) as HP. cbv zeta in HP. fold N in HP. fold p in HP.
  set (q := prun (poly_from_points (map vecR vs)) (map opR os)) in HP.
  assert (EV : l = pverts q) by (apply (kvs_vecR M pts), HP). assert (L4 : (3 < length (pverts q))%nat).
  { rewrite <- EV. unfold l. rewrite map_length. apply HP. }
  assert (EC : fst (get_is_convex p) = fst (get_is_convex q)) by (apply rres_eq, (k_get_convex _ _ (clear_laws L M HM pts GP) _ _ HP)).
  rewrite EC, EV. rewrite EV in D, Sp. destruct (C53_exact (map vecR vs) (map opR os) L4 D Sp) as [I [K|K]]; fold q in I, K.
  - left. split; [exact K|]. apply I, K.
  - right. split; [exact K|]. intro X. apply I in X. congruence.
Qed.
Print Assumptions C94_convex.

(** is_simple of doubles with distinct vertices: false exactly if two
    non-adjacent edges meet. *)
Theorem C94_simple : forall (L : FloatLib) (M : R) (pts vs : list (vec PrimFloat.float)) (os : list (pop PrimFloat.float)),
  room M -> Forall (within M) pts -> general_position (margin (-47) (M * M)) (map vecR pts) ->
  (4 <= length vs)%nat -> incl vs pts -> Forall (op_on (fun v => In v pts)) os ->
  let N := FNum L in let p := prun (poly_from_points vs) os in let l := map vecR (pverts p) in
  NoDup l ->
  fst (get_is_simple p) = Ok false /\ some_far_edges l meet \/ fst (get_is_simple p) = Ok true /\ ~ some_far_edges l meet.
Proof.
  intros L M pts vs os HM HW GP Hn HI Hos N p l D. pose proof (clear_from_points L M pts vs os HM HW GP Hn HI Hos) as HP. cbv zeta in HP. fold N in HP. fold p in HP.
  set (q := prun (poly_from_points (map vecR vs)) (map opR os)) in HP.
  assert (EV : l = pverts q) by (apply (kvs_vecR M pts), HP).
  assert (EC : fst (get_is_simple p) = fst (get_is_simple q)) by (apply rres_eq, (k_get_simple _ _ (clear_laws L M HM pts GP) _ _ HP)).
  rewrite EC, EV. rewrite EV in D. destruct (C60_all_pairs_partial (map vecR vs) (map opR os) D) as [I [K|K]]; fold q in I, K.
  - right. split; [exact K|]. intro X. apply I in X. congruence.
  - left. split; [exact K|]. apply I, K.
Qed.
Print Assumptions C94_simple.

(** tangents_to_point of any number of vertices in doubles: supporting vertices
    of a strictly convex polygon seen from a point beyond one of its edges. *)
Theorem C94_tangents : forall (L : FloatLib) (M : R) (pts vs : list (vec PrimFloat.float)) (os : list (pop PrimFloat.float)) (pt : vec PrimFloat.float) (s : R),
  room M -> Forall (within M) pts -> general_position (margin (-47) (M * M)) (map vecR pts) ->
  (4 <= length vs)%nat -> incl vs pts -> Forall (op_on (fun v => In v pts)) os -> In pt pts ->
  let N := FNum L in let p := prun (poly_from_points vs) os in let w := map vecR (pverts p) in
  strictly_convex s w -> beyond_edge s w (vecR pt) ->
  exists l r, fst (tangents_to_point pt p) = Ok (l, r) /\ left_support w (vecR pt) (vecR l) /\ right_support w (vecR pt) (vecR r).
Proof.
  intros L M pts vs os pt s HM HW GP Hn HI Hos Hpt N p w SC BE. pose proof (clear_from_points L M pts vs os HM HW GP Hn HI Hos) as HP. cbv zeta in HP. fold N in HP. fold p in HP.
  set (q := prun (poly_from_points (map vecR vs)) (map opR os)) in HP.
  assert (EV : w = pverts q) by (apply (kvs_vecR M pts), HP).
  assert (OFF : off_edge_lines w (vecR pt)).
  { destruct (beyond_outside s w (vecR pt) SC BE) as [d HO]. intros a b Hab Z.
    assert (IN : forall v, In v w -> In v (map vecR pts)).
    { unfold w. intros v Hv. apply in_map_iff in Hv. destruct Hv as (x & <- & Hx). destruct HP as [HV _]. clear - HV Hx.
      induction HV as [|a b l l' H HV IH]; [contradiction|]. destruct Hx as [<-|Hx]; [apply H|auto]. }
    destruct (cyc_in_l a b w Hab) as [Ia Ib].
    assert (NE : forall v, In v w -> v <> vecR pt).
    { intros v Hv E. apply HO in Hv. rewrite E in Hv. unfold pdot, psub in Hv. cbn [vx vy] in Hv. lra. }
    assert (Nab : a <> b). { intro E. subst b. destruct SC as (_ & N3 & ND & SC). assert (V : exists v, In v w /\ v <> a).
      { destruct w as [|x [|y w']]; cbn in N3; try lia. destruct (pt_dec x a) as [->|X]; [|exists x; cbn; auto].
        exists y. split; [cbn; auto|]. intros ->. inversion ND as [|? ? K _]. apply K. left; auto. }
      destruct V as (v & Hv & Nv). pose proof (SC a a v Hab Hv Nv Nv) as K. unfold orient, pcross, psub in K. cbn [vx vy] in K. lra. }
    pose proof (GP a b (vecR pt) (IN _ Ia) (IN _ Ib) (in_map vecR _ _ Hpt) Nab (NE _ Ib) (NE _ Ia)) as K. rewrite Z, Rabs_R0 in K.
    assert (0 <= margin (-47) (M * M)) by (unfold margin; apply Rmult_le_pos; [apply bpow_ge_0|pose proof (M_pos M HM); apply Rmult_le_pos; lra]). lra. }
  rewrite EV in SC, BE, OFF |- *. destruct (C68_tangents_partial s (vecR pt) q SC BE OFF) as (l & r & ET & SL & SR).
  pose proof (proj1 (k_tangents _ _ (clear_laws L M HM pts GP) _ _ _ _ HP (pts_kv M pts HW pt Hpt))) as HT. rewrite ET in HT. fold N in HT.
  destruct (fst (tangents_to_point pt p)) as [[l' r']|]; [|contradiction HT]. destruct HT as [H1 H2]. cbn [fst snd] in H1, H2.
  exists l', r'. split; [reflexivity|]. rewrite (kv_vecR M pts _ _ H1), (kv_vecR M pts _ _ H2). auto.
Qed.
Print Assumptions C94_tangents.

(** contains_point of a new polygon of doubles needs no general position: only
    the edges that cross the height of the point have to pass it with a margin.
    The answer is whether the boundary turns around the point. *)
Theorem C94_inside : forall (L : FloatLib) (M : R) (vs : list (vec PrimFloat.float)) (E : PrimFloat.float) (pt : vec PrimFloat.float) (thetas : list R),
  room M -> Forall (within M) vs -> within M pt -> (4 <= length vs)%nat ->
  (forall a b, In (a, b) (cyc_pairs (map vecR vs)) -> crosses_height (vecR pt) a b -> margin (-47) (M * M) < Rabs (orient a b (vecR pt))) ->
  off_edges (vecR pt) (map vecR vs) -> Forall2 (turns (vecR pt)) (cyc_pairs (map vecR vs)) thetas ->
  let N := FNum L in
  fst (contains_point E pt (poly_from_points vs)) = Ok (if Req_EM_T (rsum thetas) 0 then false else true).
Proof.
  intros L M vs E pt thetas HM HW HP Hn HC Ho Ht N.
  assert (EC : fst (contains_point E pt (poly_from_points vs)) = fst (contains_point 0 (vecR pt) (poly_from_points (map vecR vs)))).
  { apply (fresh_contains L M HM); auto. intros [a b] Hab X. cbn [fst snd] in *. apply HC; auto. rewrite cyc_map.
    apply in_map_iff. exists (a, b). auto. }
  rewrite EC.
  assert (Hne : map vecR vs <> []) by (intro K; apply map_eq_nil in K; subst; cbn in Hn; lia).
  pose proof (C57_filter_harmless (map vecR vs) [] 0 (vecR pt)) as HF. cbn [prun fold_left] in HF. cbv zeta in HF.
  rewrite HF; [| change (pverts (poly_from_points (map vecR vs))) with (map vecR vs); rewrite map_length; lia | reflexivity | discriminate].
  change (pverts (poly_from_points (map vecR vs))) with (map vecR vs).
  destruct (C54_turning_number _ _ Hne Ho) as (ts & k & Hts & _ & HK). pose proof (C54_inside_iff_turning _ _ thetas Hne Ho Ht) as I.
  rewrite HK in I |- *. f_equal. destruct (Req_EM_T (rsum thetas) 0) as [Z|Z].
  - destruct (negb (k =? 0)%Z); auto. exfalso. apply I; auto.
  - apply I in Z. congruence.
Qed.
Print Assumptions C94_inside.

(** The margin is within a factor 2 ^ 10 of the best possible one. *)
Definition zclear (m : Z) (l : list (Z * Z)) : bool :=
  forallb (fun a => forallb (fun b => forallb (fun c => zeqb a b || zeqb b c || zeqb a c || (m <? Z.abs (zorient a b c))%Z) l) l) l.
Lemma z_general m l : zclear m l = true -> general_position (IZR m) (map zv l).
Proof.
  unfold zclear. rewrite forallb_forall. intros H a b c Ha Hb Hc. apply in_map_iff in Ha, Hb, Hc.
  destruct Ha as (a' & <- & Ia), Hb as (b' & <- & Ib), Hc as (c' & <- & Ic).
  specialize (H _ Ia). rewrite forallb_forall in H. specialize (H _ Ib). rewrite forallb_forall in H. specialize (H _ Ic). intros N1 N2 N3.
  assert (K : forall x y, zeqb x y = true -> zv x = zv y) by (intros [x y] [x' y'] K; unfold zeqb in K; cbn [fst snd] in K; apply andb_prop in K; destruct K as [K1 K2]; apply Z.eqb_eq in K1, K2; subst; reflexivity).
  apply orb_prop in H. destruct H as [H|H]; [exfalso; apply orb_prop in H; destruct H as [H|H]; [apply orb_prop in H; destruct H as [H|H]|]; apply K in H; auto|].
  apply Z.ltb_lt in H. rewrite zv_orient, <- abs_IZR. apply IZR_lt, H.
Qed.
Lemma general_weak m m' l : m' <= m -> general_position m l -> general_position m' l.
Proof. intros H G a b c Ha Hb Hc N1 N2 N3. pose proof (G a b c Ha Hb Hc N1 N2 N3). lra. Qed.
Definition fits (B : Z) (z : Z * Z) : bool := ((Z.abs (fst z) <=? B) && (Z.abs (snd z) <=? B))%Z.
Lemma fz_within B l : (B <= 2 ^ 53)%Z -> forallb (fits B) l = true -> Forall (within (IZR B)) (map fz l) /\ map vecR (map fz l) = map zv l.
Proof.
  intros HB. induction l as [|z l IH]; cbn [forallb map]; intro H; [split; constructor|]. apply andb_prop in H. destruct H as [H1 H2]. destruct (IH H2) as [W V].
  unfold fits in H1. apply andb_prop in H1. destruct H1 as [X Y]. apply Z.leb_le in X, Y.
  rewrite V, fz_R by lia. split; [|reflexivity]. constructor; auto.
  destruct (float_of_Z_exact (fst z)) as [F1 V1]; [lia|]. destruct (float_of_Z_exact (snd z)) as [F2 V2]; [lia|].
  split; [split; assumption|]. unfold fz. cbn [vx vy]. rewrite V1, V2, <- !abs_IZR. split; apply IZR_le; assumption.
Qed.
Lemma room_Z B : (1 <= B)%Z -> (B <= 2 ^ 300)%Z -> room (IZR B).
Proof.
  intros H1 H2. split.
  - apply Rle_trans with 1; [|apply (IZR_le 1 B), H1]. change 1 with (bpow radix2 0). apply bpow_le. lia.
  - apply Rle_trans with (IZR (2 ^ 300)); [apply IZR_le, H2|]. change (2 ^ 300)%Z with (Zpower radix2 300). rewrite IZR_Zpower by lia. apply bpow_le. lia.
Qed.
Lemma margin_Z k B m : (0 <= k)%Z -> (B * B <= m * 2 ^ k)%Z -> margin (- k) (IZR B * IZR B) <= IZR m.
Proof.
  intros Hk H. unfold margin. rewrite <- mult_IZR, bpow_opp. change 2%Z with (radix_val radix2) in H. apply IZR_le in H. rewrite (mult_IZR m), IZR_Zpower in H by auto.
  pose proof (bpow_gt_0 radix2 k). apply Rmult_le_reg_l with (bpow radix2 k); auto. rewrite <- Rmult_assoc, Rinv_r by lra. lra.
Qed.
Theorem C94_margin_needed : exists (M : R) (vs : list (vec PrimFloat.float)), room M /\ Forall (within M) vs /\
  general_position (margin (-57) (M * M)) (map vecR vs) /\ (4 <= length vs)%nat /\
  forall L : FloatLib, let N := FNum L in fst (get_is_convex (poly_from_points vs)) <> fst (get_is_convex (poly_from_points (map vecR vs))).
Proof.
  exists (IZR (2 ^ 28 + 3)), (map fz wide). destruct (fz_within (2 ^ 28 + 3) wide) as [W V]; [lia|vm_compute; reflexivity|].
  split; [apply room_Z; [lia|vm_compute; discriminate]|]. split; [exact W|]. split; [|split].
  - rewrite V. assert (G : general_position (IZR 0) (map zv wide)) by (apply z_general; vm_compute; reflexivity).
    intros a b c Ha Hb Hc N1 N2 N3. pose proof (G a b c Ha Hb Hc N1 N2 N3) as K.
    apply in_map_iff in Ha, Hb, Hc. destruct Ha as (a' & <- & Ia), Hb as (b' & <- & Ib), Hc as (c' & <- & Ic). rewrite zv_orient, <- abs_IZR in K |- *.
    apply lt_IZR in K. apply Rlt_le_trans with (IZR 1); [|apply IZR_le; lia].
    change (-57)%Z with (- (57))%Z. unfold margin. rewrite <- mult_IZR, bpow_opp. pose proof (bpow_gt_0 radix2 57) as P. apply Rmult_lt_reg_l with (bpow radix2 57); auto.
    rewrite <- Rmult_assoc, Rinv_r, Rmult_1_l, Rmult_1_r by lra. rewrite <- IZR_Zpower by lia. apply IZR_lt. vm_compute. reflexivity.
  - cbn. lia.
  - intros L N. destruct (C84_limit_needed L) as [H1 H2]. fold N in H1. intro K. pose proof (eq_trans (eq_sym H1) (eq_trans K H2)). discriminate.
Qed.
Print Assumptions C94_margin_needed.

(** A pentagon with 43-bit coordinates (too fine for the grid of C84). *)
Definition far_penta : list (Z * Z) := [(3, 1); (2 ^ 42 + 1, 5); (5 * 2 ^ 40 + 7, 3 * 2 ^ 40 + 1); (2 ^ 41 + 9, 5 * 2 ^ 40 + 3); (11 - 2 ^ 40, 3 * 2 ^ 40 - 3)]%Z.
Definition far_pts : list (Z * Z) := far_penta ++ [(2 ^ 40 + 2 ^ 38, 2 ^ 40 + 1); (2 ^ 42, - 2 ^ 41)]%Z.
Definition far_hist : list (pop PrimFloat.float) := [PRead QConvex; PSet 0 (fz (2 ^ 40 + 2 ^ 38, 2 ^ 40 + 1)%Z); PSet 0 (fz (3, 1)%Z); PCopy; PRead (QContains 0%float (fz (2 ^ 42, - 2 ^ 41)%Z))].
Example C94_ex (L : FloatLib) : let N := FNum L in let M := IZR (2 ^ 43) in
  room M /\ Forall (within M) (map fz far_pts) /\ general_position (margin (-47) (M * M)) (map vecR (map fz far_pts)) /\
  incl (map fz far_penta) (map fz far_pts) /\ Forall (op_on (fun v => In v (map fz far_pts))) far_hist /\
  (let w := map vecR (pverts (prun (poly_from_points (map fz far_penta)) far_hist)) in
   strictly_convex 1 w /\ beyond_edge 1 w (vecR (fz (2 ^ 42, - 2 ^ 41)%Z)) /\ NoDup w) /\
  fst (get_is_convex (prun (poly_from_points (map fz far_penta)) far_hist)) = Ok true.
Proof.
  intros N M. destruct (fz_within (2 ^ 43) far_pts) as [W V]; [lia|vm_compute; reflexivity|]. destruct (fz_within (2 ^ 43) far_penta) as [_ VP]; [lia|vm_compute; reflexivity|].
  split; [apply room_Z; [lia|vm_compute; discriminate]|]. split; [exact W|]. split; [|split; [|split; [|split]]].
  - rewrite V. apply general_weak with (IZR (2 ^ 40)); [apply (margin_Z 47); [lia|vm_compute; discriminate]|]. apply z_general. vm_compute. reflexivity.
  - unfold far_pts. rewrite map_app. apply incl_appl, incl_refl.
  - repeat constructor; cbn [op_on]; auto; apply in_map; vm_compute; tauto.
  - cbv zeta. rewrite prun_verts. change (writes (pverts (poly_from_points (map fz far_penta))) far_hist) with (map fz far_penta).
    rewrite VP, fz_R by (cbn; lia). assert (SC : strictly_convex (IZR 1) (map zv far_penta)) by (apply z_strict; [auto|vm_compute; reflexivity]).
    split; [exact SC|]. split; [|apply SC]. exists (zv (3, 1)%Z), (zv (2 ^ 42 + 1, 5)%Z). split; [rewrite cyc_map; apply in_map_iff; exists ((3, 1), (2 ^ 42 + 1, 5))%Z; split; [reflexivity|vm_compute; tauto]|].
    rewrite zv_orient. change 1 with (IZR 1). rewrite <- mult_IZR. apply IZR_lt. reflexivity.
  - vm_compute. reflexivity.
Qed.
(** A point next to no edge at its own height. *)
Example C94_ex_inside : forall a b, In (a, b) (cyc_pairs (map vecR (map fz far_penta))) -> crosses_height (vecR (fz (2 ^ 40 + 2 ^ 38, 2 ^ 40 + 1)%Z)) a b ->
  margin (-47) (IZR (2 ^ 43) * IZR (2 ^ 43)) < Rabs (orient a b (vecR (fz (2 ^ 40 + 2 ^ 38, 2 ^ 40 + 1)%Z))).
Proof.
  destruct (fz_within (2 ^ 43) far_penta) as [_ VP]; [lia|vm_compute; reflexivity|]. rewrite VP, fz_R by (cbn; lia). intros a b H _.
  rewrite cyc_map in H. apply in_map_iff in H. destruct H as ([x y] & [= <- <-] & H). cbn [fst snd]. rewrite zv_orient, <- abs_IZR.
  apply Rle_lt_trans with (IZR (2 ^ 40)); [apply (margin_Z 47); [lia|vm_compute; discriminate]|]. apply IZR_lt.
  repeat (destruct H as [H|H]; [injection H as <- <-; vm_compute; reflexivity|]). contradiction.
Qed.
