(** * Equality and approximate equality of shapes *)
From Coq Require Import ZArith List Bool Reals Lra Lia Psatz.
From Verif Require Import Num NumFloat Vec Affine Box Line Seq RBase VecFacts VecFacts2 OrdLaws SpecGeom SpecBox SpecLine LineFacts LineFacts2.
Import ListNotations.
Local Open Scope R_scope.

(** ** Distances, products and quotients of vectors *)
Lemma distance_to_dist (p q : pt) : distance_to p q = dist p q.
Proof. reflexivity. Qed.
Lemma lagrange (p q : pt) : dot p q * dot p q + cross p q * cross p q = (norm p * norm p) * (norm q * norm q).
Proof. rewrite !norm_sq. unfold dot, cross; rnum. ring. Qed.
Lemma vdivs_spec (v : pt) (s : R) :
  (s = 0 -> vdivs v s = Err ZeroDivisionError) /\ (s <> 0 -> exists w, vdivs v s = Ok w /\ vscale w s = v).
Proof.
  split; intro H.
  - unfold vdivs, pydiv; rnum. destruct (Reqb_spec s 0); [reflexivity|contradiction].
  - unfold vdivs. rewrite !pydiv_R by auto. cbn [bind]. eexists; split; eauto. unfold vscale; rnum. vext; field; auto.
Qed.
Lemma vdiv_spec (v o : pt) :
  (vx o = 0 \/ vy o = 0 -> vdiv v o = Err ZeroDivisionError) /\
  (vx o <> 0 -> vy o <> 0 -> exists w, vdiv v o = Ok w /\ vmul w o = v).
Proof.
  split.
  - intro H. unfold vdiv, pydiv; rnum. destruct (Reqb_spec (vx o) 0); [reflexivity|]. cbn [bind].
    destruct (Reqb_spec (vy o) 0); [reflexivity|tauto].
  - intros H1 H2. unfold vdiv. rewrite !pydiv_R by auto. cbn [bind]. eexists; split; eauto.
    unfold vmul; rnum. vext; field; auto.
Qed.
Lemma vrdivs_spec (v : pt) (s : R) :
  (vx v = 0 \/ vy v = 0 -> vrdivs s v = Err ZeroDivisionError) /\
  (vx v <> 0 -> vy v <> 0 -> exists w, vrdivs s v = Ok w /\ vmul w v = mkV s s).
Proof.
  split.
  - intro H. unfold vrdivs, pydiv; rnum. destruct (Reqb_spec (vx v) 0); [reflexivity|]. cbn [bind].
    destruct (Reqb_spec (vy v) 0); [reflexivity|tauto].
  - intros H1 H2. unfold vrdivs. rewrite !pydiv_R by auto. cbn [bind]. eexists; split; eauto.
    unfold vmul; rnum. vext; field; auto.
Qed.
(** the floor of the quotient: the integer k with k <= q < k + 1 *)
Definition floor_of (q k : R) : Prop := (exists z, k = IZR z) /\ k <= q < k + 1.
Lemma Rfloor_floor (q : R) : floor_of q (Rfloor q).
Proof.
  unfold Rfloor. split; [eauto|]. pose proof (base_Int_part q). lra.
Qed.
Lemma vfdiv_spec (v o : pt) :
  (vx o = 0 \/ vy o = 0 -> vfdiv v o = Err ZeroDivisionError) /\
  (vx o <> 0 -> vy o <> 0 -> exists w, vfdiv v o = Ok w /\ floor_of (vx v / vx o) (vx w) /\ floor_of (vy v / vy o) (vy w)).
Proof.
  split.
  - intro H. unfold vfdiv, pyfloordiv; rnum. destruct (Reqb_spec (vx o) 0); [reflexivity|]. cbn [bind].
    destruct (Reqb_spec (vy o) 0); [reflexivity|tauto].
  - intros H1 H2. unfold vfdiv, pyfloordiv; rnum. destruct (Reqb_spec (vx o) 0); [contradiction|]. cbn [bind].
    destruct (Reqb_spec (vy o) 0); [contradiction|]. cbn [bind]. eexists; split; eauto. cbn [vx vy]. split; apply Rfloor_floor.
Qed.
Lemma vrfdivs_spec (v : pt) (s : R) :
  (vx v = 0 \/ vy v = 0 -> vrfdivs s v = Err ZeroDivisionError) /\
  (vx v <> 0 -> vy v <> 0 -> exists w, vrfdivs s v = Ok w /\ floor_of (s / vx v) (vx w) /\ floor_of (s / vy v) (vy w)).
Proof.
  split.
  - intro H. unfold vrfdivs, pyfloordiv; rnum. destruct (Reqb_spec (vx v) 0); [reflexivity|]. cbn [bind].
    destruct (Reqb_spec (vy v) 0); [reflexivity|tauto].
  - intros H1 H2. unfold vrfdivs, pyfloordiv; rnum. destruct (Reqb_spec (vx v) 0); [contradiction|]. cbn [bind].
    destruct (Reqb_spec (vy v) 0); [contradiction|]. cbn [bind]. eexists; split; eauto. cbn [vx vy]. split; apply Rfloor_floor.
Qed.
Lemma vfdivs_spec (v : pt) (s : R) :
  (s = 0 -> vfdivs v s = Err ZeroDivisionError) /\
  (s <> 0 -> exists w, vfdivs v s = Ok w /\ floor_of (vx v / s) (vx w) /\ floor_of (vy v / s) (vy w)).
Proof.
  split.
  - intro H. unfold vfdivs, pyfloordiv; rnum. destruct (Reqb_spec s 0); [reflexivity|contradiction].
  - intros H1. unfold vfdivs, pyfloordiv; rnum. destruct (Reqb_spec s 0); [contradiction|]. cbn [bind].
    eexists; split; eauto. cbn [vx vy]. split; apply Rfloor_floor.
Qed.

(** ** Approximate equality *)
Lemma vae_iff (E : R) (a b : pt) : 0 < E -> (vec_almost_equals E a b = true <-> dist a b < E).
Proof.
  intro HE. unfold vec_almost_equals; rnum. rewrite Rltb_true. unfold dist. rewrite norm_lt_iff by lra. reflexivity.
Qed.
Definition near (E : R) (a b : pt) : Prop := dist a b < E.
Lemma near_refl E a : 0 < E -> near E a a. Proof. intro. unfold near. rewrite dist_self. auto. Qed.
Lemma near_sym E a b : near E a b -> near E b a. Proof. unfold near. rewrite dist_sym. auto. Qed.

Lemma box_ae_iff (E : R) (b o : bbox R) : 0 < E ->
  (box_almost_equals E b o = true <-> near E (bmin b) (bmin o) /\ near E (bmax b) (bmax o)).
Proof. intro HE. unfold box_almost_equals. rewrite andb_true_iff, !vae_iff by auto. reflexivity. Qed.
Lemma line_ae_iff (E : R) (l o : line R) : 0 < E ->
  (line_almost_equals E l o = true <-> Rabs (loffset l - loffset o) < E /\ near E (ddir (ldn l)) (ddir (ldn o))).
Proof. intro HE. unfold line_almost_equals. rewrite andb_true_iff, vae_iff by auto. rnum. rewrite Rltb_true. reflexivity. Qed.
Lemma ray_ae_iff (E : R) (l o : ray R) : 0 < E ->
  (ray_almost_equals E l o = true <-> near E (ranchor l) (ranchor o) /\ near E (ddir (rdn l)) (ddir (rdn o))).
Proof. intro HE. unfold ray_almost_equals. rewrite andb_true_iff, !vae_iff by auto. reflexivity. Qed.
Lemma seg_ae_iff (E : R) (l o : segment R) : 0 < E ->
  (seg_almost_equals E l o = true <-> near E (sanchor l) (sanchor o) /\
     near E (pscale (slength l) (ddir (sdn l))) (pscale (slength o) (ddir (sdn o)))).
Proof.
  intro HE. unfold seg_almost_equals. rewrite andb_true_iff, !vae_iff by auto.
  assert (forall s : segment R, seg_vector s = pscale (slength s) (ddir (sdn s))) as Hv.
  { intro s. unfold seg_vector, vscale, pscale; rnum. vext; ring. }
  rewrite !Hv. reflexivity.
Qed.
Lemma seq_ae_iff (E : R) (l o : list pt) : 0 < E -> (seq_almost_equals E l o = true <-> Forall2 (near E) l o).
Proof.
  intro HE. unfold seq_almost_equals. destruct (Nat.eqb_spec (length l) (length o)) as [Hl|Hl].
  - revert o Hl. induction l as [|a l IH]; intros [|b o] Hl; try discriminate.
    + cbn. split; auto.
    + cbn [combine forallb fst snd]. rewrite andb_true_iff, vae_iff by auto. rewrite IH by (cbn in Hl; lia).
      split; [intros [H1 H2]; constructor; auto|]. intro H; inversion H; auto.
  - split; [discriminate|]. intro H. exfalso. apply Hl. clear Hl. induction H; cbn; auto.
Qed.
Definition entries {T} (m : affine T) : list T := [aa m; ab m; ac m; ad m; ae m; af m].
Lemma aff_ae_iff (E : R) (m o : affine R) :
  affine_almost_equals E m o = true <-> Forall2 (fun x y => Rabs (x - y) < E) (entries m) (entries o).
Proof.
  unfold affine_almost_equals, entries. rnum. split.
  - intro H. repeat match type of H with (if Rleb ?a ?b then _ else _) = _ => destruct (Rleb_spec a b); [discriminate|] end.
    repeat constructor; auto.
  - intro H. repeat (match goal with H : Forall2 _ (_ :: _) _ |- _ => inversion H; clear H; subst end).
    repeat match goal with |- (if Rleb ?a ?b then _ else _) = _ => destruct (Rleb_spec a b); [lra|] end. reflexivity.
Qed.

(** ** Equality *)
Lemma box_eqb_iff (b o : bbox R) : box_eqb b o = true <-> b = o.
Proof.
  unfold box_eqb. rewrite andb_true_iff, !vec_eqb_R. destruct b as [b1 b2], o as [o1 o2]; cbn [bmin bmax].
  split; [intros [-> ->]; auto|]. intro H; injection H; auto.
Qed.
Lemma box_set_eq (b o : bbox R) : proper b -> proper o -> (forall p, in_closed b p <-> in_closed o p) -> b = o.
Proof.
  intros [B1 B2] [O1 O2] H. unfold in_closed in H.
  assert (H1 := proj1 (H (bmin b))). assert (H2 := proj1 (H (bmax b))).
  assert (H3 := proj2 (H (bmin o))). assert (H4 := proj2 (H (bmax o))).
  destruct b as [[a1 a2] [a3 a4]], o as [[c1 c2] [c3 c4]]. cbn [bmin bmax vx vy] in *.
  destruct H1 as [[? ?] [? ?]]; [lra|]. destruct H2 as [[? ?] [? ?]]; [lra|].
  destruct H3 as [[? ?] [? ?]]; [lra|]. destruct H4 as [[? ?] [? ?]]; [lra|].
  f_equal; f_equal; lra.
Qed.
Lemma seq_eqb_iff (l o : list pt) : seq_eqb l o = true <-> l = o.
Proof.
  revert o. induction l as [|a l IH]; intros [|b o]; cbn; try (split; [discriminate|discriminate]); [tauto|].
  rewrite andb_true_iff, vec_eqb_R, IH. split; [intros [-> ->]; auto|]. intro H; injection H; auto.
Qed.
Lemma affine_eqb_iff (m o : affine R) : affine_eqb m o = true <-> m = o.
Proof.
  unfold affine_eqb. rnum. rewrite !andb_true_iff, !Reqb_true. destruct m as [m1 m2 m3 m4 m5 m6], o as [o1 o2 o3 o4 o5 o6]; cbn [aa ab ac ad ae af].
  split; [intros [[[[[-> ->] ->] ->] ->] ->]; auto|]. intro H; injection H; intuition.
Qed.
Lemma frame_dirn (d e : dirn R) : frame d -> frame e -> ddir d = ddir e -> d = e.
Proof.
  intros Hd He H. apply frame_iff in Hd, He. destruct Hd as [_ Hd], He as [_ He]. rewrite H in Hd.
  destruct d as [d1 d2], e as [e1 e2]; cbn [ddir dnormal] in *. congruence.
Qed.
Lemma line_eqb_iff (l o : line R) : frame (ldn l) -> frame (ldn o) -> (line_eqb l o = true <-> l = o).
Proof.
  intros Hl Ho. unfold line_eqb. rnum. rewrite andb_true_iff, Reqb_true, vec_eqb_R. split; [|intros ->; auto].
  intros [H1 H2]. apply (frame_dirn _ _ Hl Ho) in H2. destruct l as [l1 l2], o as [o1 o2]; cbn [ldn loffset] in *. congruence.
Qed.
Lemma ray_eqb_iff (l o : ray R) : frame (rdn l) -> frame (rdn o) -> (ray_eqb l o = true <-> l = o).
Proof.
  intros Hl Ho. unfold ray_eqb. rewrite andb_true_iff, !vec_eqb_R. split; [|intros ->; auto].
  intros [H1 H2]. apply (frame_dirn _ _ Hl Ho) in H2. destruct l as [l1 l2], o as [o1 o2]; cbn [rdn ranchor] in *. congruence.
Qed.
(** Rays with the same points are equal. *)
Lemma unit_sq (v : pt) : norm v = 1 -> vx v * vx v + vy v * vy v = 1.
Proof. intro H. rewrite <- norm_sq, H. ring. Qed.
Lemma ray_set_eq (r o : ray R) : frame (rdn r) -> frame (rdn o) ->
  (forall q, ray_set r q <-> ray_set o q) -> r = o.
Proof.
  intros Hr Ho H. unfold ray_set, along_ray in H.
  pose proof (unit_sq _ (proj1 Hr)) as U. pose proof (unit_sq _ (proj1 Ho)) as W.
  destruct (proj1 (H (ranchor r))) as (t & Ht & E1). { exists 0. split; [lra|]. unfold padd, pscale; vext; ring. }
  destruct (proj2 (H (ranchor o))) as (s & Hs & E2). { exists 0. split; [lra|]. unfold padd, pscale; vext; ring. }
  destruct (proj1 (H (padd (ranchor r) (ddir (rdn r))))) as (u & Hu & E3). { exists 1. split; [lra|]. unfold padd, pscale; vext; ring. }
  destruct (proj2 (H (padd (ranchor o) (ddir (rdn o))))) as (w & Hw & E4). { exists 1. split; [lra|]. unfold padd, pscale; vext; ring. }
  destruct r as [dr ar], o as [dd ao]. cbn [rdn ranchor] in *. unfold padd, pscale in *.
  destruct (ddir dr) as [d1 d2] eqn:Dr, (ddir dd) as [e1 e2] eqn:De, ar as [a1 a2], ao as [b1 b2]. cbn [vx vy] in *.
  apply mkV_inj in E1, E2, E3, E4. destruct E1 as [A1 A2], E2 as [B1 B2], E3 as [C1 C2], E4 as [D1 D2].
  (* the anchors coincide: otherwise the directions are opposite *)
  assert (X1 : t * e1 = - s * d1) by lra. assert (X2 : t * e2 = - s * d2) by lra.
  assert (Y1 : d1 = (u - t) * e1) by lra. assert (Y2 : d2 = (u - t) * e2) by lra.
  assert (Z1 : e1 = (w - s) * d1) by lra. assert (Z2 : e2 = (w - s) * d2) by lra.
  assert (K1 : (u - t) * (u - t) = 1).
  { assert (d1 * d1 + d2 * d2 = (u - t) * (u - t) * (e1 * e1 + e2 * e2)) by (rewrite Y1, Y2; ring). rewrite U, W in H0. lra. }
  assert (Hts : t + s * (u - t) = 0).
  { assert (e1 * (t * e1) + e2 * (t * e2) = - (s * (u - t)) * (e1 * e1 + e2 * e2)).
    { rewrite X1, X2, Y1, Y2. ring. } rewrite W in H0. nra. }
  assert (Hk : u - t = 1 \/ u - t = -1) by nra.
  destruct Hk as [Hk|Hk].
  - rewrite Hk in *. assert (t = 0) by lra. assert (s = 0) by lra. subst t s.
    assert (dr = dd). { apply frame_dirn; auto. rewrite Dr, De. f_equal; lra. }
    subst dd. f_equal. f_equal; lra.
  - exfalso. rewrite Hk in *. assert (t = s) by lra. subst s. 
    assert (e1 = - d1) by lra. assert (e2 = - d2) by lra. subst e1 e2.
    assert ((w - t) = -1). { assert ((w - t + 1) * d1 = 0) by lra. assert ((w - t + 1) * d2 = 0) by lra. nra. }
    (* the point far along the first ray is not on the second *)
    destruct (proj1 (H (mkV (a1 + (t + 1) * d1) (a2 + (t + 1) * d2)))) as (k & Hk' & E5).
    { exists (t + 1). split; [lra|]. reflexivity. }
    rewrite H0, H1 in E5. apply mkV_inj in E5. destruct E5 as [F1 F2].
    assert ((k + 1) * d1 = 0) by lra. assert ((k + 1) * d2 = 0) by lra. nra.
Qed.
(** Lines with the same points: the same line, or the same line pointing the
    other way. *)
Definition reversed_line (l o : line R) : Prop :=
  ddir (ldn o) = pscale (-1) (ddir (ldn l)) /\ loffset o = - loffset l.
Lemma line_set_eq (l o : line R) : frame (ldn l) -> frame (ldn o) ->
  ((forall q, line_set l q <-> line_set o q) <-> l = o \/ reversed_line l o).
Proof.
  intros Hl Ho. unfold line_set.
  pose proof (unit_sq _ (proj1 (proj2 Hl))) as U. pose proof (unit_sq _ (proj1 (proj2 Ho))) as W.
  apply frame_iff in Hl, Ho. destruct Hl as [Hl1 Hl2], Ho as [Ho1 Ho2]. split.
  - intro H.
    destruct l as [dl ol], o as [dd oo]. cbn [ldn loffset] in *.
    assert (H1 := proj1 (H (pscale ol (dnormal dl)))). assert (H2 := proj1 (H (padd (pscale ol (dnormal dl)) (ddir dl)))).
    unfold pdot, padd, pscale, cw in *. destruct (ddir dl) as [d1 d2] eqn:Dl, (ddir dd) as [e1 e2] eqn:De. cbn [vx vy] in *.
    rewrite Hl2, Ho2 in *. cbn [vx vy] in *.
    assert (U' : d1 * d1 + d2 * d2 = 1) by lra. assert (W' : e1 * e1 + e2 * e2 = 1) by lra.
    assert (P1 : ol * d2 * e2 + ol * - d1 * - e1 = oo).
    { apply H1. replace (ol * d2 * d2 + ol * - d1 * - d1) with (ol * (d1 * d1 + d2 * d2)) by ring. rewrite U'. ring. }
    assert (P2 : (ol * d2 + d1) * e2 + (ol * - d1 + d2) * - e1 = oo).
    { apply H2. replace ((ol * d2 + d1) * d2 + (ol * - d1 + d2) * - d1) with (ol * (d1 * d1 + d2 * d2)) by ring. rewrite U'. ring. }
    assert (P3 : d1 * e2 - d2 * e1 = 0) by lra.
    set (k := d1 * e1 + d2 * e2) in *.
    assert (E1 : e1 = k * d1). { unfold k. replace ((d1 * e1 + d2 * e2) * d1) with (e1 * (d1 * d1 + d2 * d2) + d2 * (d1 * e2 - d2 * e1)) by ring. rewrite U', P3. ring. }
    assert (E2 : e2 = k * d2). { unfold k. replace ((d1 * e1 + d2 * e2) * d2) with (e2 * (d1 * d1 + d2 * d2) - d1 * (d1 * e2 - d2 * e1)) by ring. rewrite U', P3. ring. }
    assert (K : k * k = 1). { rewrite E1, E2 in W'. replace (k * k) with (k * k * (d1 * d1 + d2 * d2)) by (rewrite U'; ring). lra. }
    assert (Oo : oo = k * ol). { unfold k. lra. }
    clearbody k. assert (Hk : k = 1 \/ k = -1) by nra. destruct Hk as [-> | ->].
    + left. assert (dl = dd). { destruct dl as [x y], dd as [z w]; cbn [ddir dnormal] in *. subst. f_equal; f_equal; lra. } subst dd. f_equal. lra.
    + right. unfold reversed_line, pscale. cbn [ldn loffset]. rewrite Dl, De. cbn [vx vy]. split; [f_equal; lra|lra].
  - intros [->|[H1 H2]]; [tauto|]. intro q. rewrite Ho2, Hl2, H1, H2. unfold pdot, cw, pscale; cbn [vx vy]. split; intro; lra.
Qed.
Lemma line_eqb_set (l o : line R) : frame (ldn l) -> frame (ldn o) ->
  (line_eqb l o = true <-> (forall q, line_set l q <-> line_set o q) /\ ddir (ldn l) = ddir (ldn o)).
Proof.
  intros Hl Ho. rewrite line_eqb_iff by auto. rewrite line_set_eq by auto. split.
  - intros ->; auto.
  - intros [[H|[H1 H2]] H3]; auto. exfalso. rewrite H3 in H1. pose proof (unit_sq _ (proj1 Ho)) as U.
    destruct (ddir (ldn o)) as [a b]. unfold pscale in H1. cbn [vx vy] in *. apply mkV_inj in H1. destruct H1. nra.
Qed.
Lemma ray_eqb_set (l o : ray R) : frame (rdn l) -> frame (rdn o) ->
  (ray_eqb l o = true <-> (forall q, ray_set l q <-> ray_set o q)).
Proof.
  intros Hl Ho. rewrite ray_eqb_iff by auto. split; [intros ->; tauto|]. apply ray_set_eq; auto.
Qed.
(** Segments are equal iff they start and end at the same points. *)
Lemma seg_eqb_ends (s o : segment R) :
  seg_eqb s o = true <-> sanchor s = sanchor o /\ seg_end s = seg_end o.
Proof.
  unfold seg_eqb. rewrite andb_true_iff, !vec_eqb_R. unfold seg_end, seg_vector, vadd, vscale; rnum.
  split; intros [H1 H2]; split; auto.
  - rewrite H1. apply mkV_inj in H2. destruct H2 as [-> ->]. auto.
  - rewrite H1 in H2. apply mkV_inj in H2. destruct H2. f_equal; lra.
Qed.
Lemma seg_eqb_pos (s o : segment R) : frame (sdn s) -> frame (sdn o) -> 0 < slength s -> 0 <= slength o ->
  seg_eqb s o = true -> s = o.
Proof.
  intros Hs Ho Ls Lo H. unfold seg_eqb in H. apply andb_true_iff in H. rewrite !vec_eqb_R in H. destruct H as [H1 H2].
  pose proof (unit_sq _ (proj1 Hs)) as U. pose proof (unit_sq _ (proj1 Ho)) as W.
  unfold seg_vector, vscale in H2. rnum. apply mkV_inj in H2. destruct H2 as [A1 A2].
  assert (L : slength s * slength s = slength o * slength o).
  { assert (slength s * slength s * (vx (ddir (sdn s)) * vx (ddir (sdn s)) + vy (ddir (sdn s)) * vy (ddir (sdn s))) =
            slength o * slength o * (vx (ddir (sdn o)) * vx (ddir (sdn o)) + vy (ddir (sdn o)) * vy (ddir (sdn o)))).
    { transitivity ((vx (ddir (sdn s)) * slength s) * (vx (ddir (sdn s)) * slength s) + (vy (ddir (sdn s)) * slength s) * (vy (ddir (sdn s)) * slength s)); [ring|].
      rewrite A1, A2. ring. } rewrite U, W in H. lra. }
  assert (L' : slength s = slength o) by nra.
  rewrite <- L' in A1, A2. apply Rmult_eq_reg_r in A1; [|lra]. apply Rmult_eq_reg_r in A2; [|lra].
  assert (D : sdn s = sdn o). { apply frame_dirn; auto. apply vec_ext; auto. }
  destruct s as [s1 s2 s3], o as [o1 o2 o3]; cbn [sdn sanchor slength] in *. congruence.
Qed.
(** Equal segments of non-negative length are at the same distance from every
    point, also if their directions differ. *)
Lemma seg_eqb_distance (s o : segment R) (p : pt) : frame (sdn s) -> frame (sdn o) -> 0 <= slength s -> 0 <= slength o ->
  seg_eqb s o = true -> seg_distance_to s p = seg_distance_to o p.
Proof.
  intros Hs Ho Ls Lo H.
  destruct (Req_EM_T (slength s) 0) as [Zs|Zs].
  - destruct (Req_EM_T (slength o) 0) as [Zo|Zo].
    + apply seg_eqb_ends in H. destruct H as [H _].
      assert (forall q : segment R, frame (sdn q) -> slength q = 0 -> seg_distance_to q p = norm (psub p (sanchor q))) as Hd.
      { intros q Fq Zq. unfold seg_distance_to. rewrite vec2_of_R. rnum.
        change (vlength (vsub p (sanchor q))) with (norm (psub p (sanchor q))).
        assert (vlength (vsub p (seg_end q)) = norm (psub p (sanchor q))) as ->.
        { change (vlength (vsub p (seg_end q))) with (norm (psub p (seg_end q))). f_equal. f_equal. unfold seg_end, vadd, vscale; rnum. rewrite Zq. vext; ring. }
        destruct (Rltb_spec (dot (ddir (sdn q)) (vsub p (sanchor q))) 0); auto. rewrite Zq.
        destruct (Rltb_spec 0 (dot (ddir (sdn q)) (vsub p (sanchor q)))); auto.
        symmetry. assert (Z : dot (ddir (sdn q)) (vsub p (sanchor q)) = 0) by lra.
        apply frame_iff in Fq. destruct Fq as [F1 F2]. apply unit_sq in F1. rewrite F2.
        apply norm_unique; [apply Rabs_pos|]. rewrite <- Rabs_mult, Rabs_pos_eq by apply Rle_0_sqr.
        unfold dot, vsub, psub, cw in *; rnum. destruct (ddir (sdn q)) as [a b], p as [p1 p2], (sanchor q) as [c1 c2]; cbn [vx vy] in *.
        replace (((p1 - c1) * b + (p2 - c2) * - a) * ((p1 - c1) * b + (p2 - c2) * - a)) with
          (((p1 - c1) * (p1 - c1) + (p2 - c2) * (p2 - c2)) * (a * a + b * b) - (a * (p1 - c1) + b * (p2 - c2)) * (a * (p1 - c1) + b * (p2 - c2))) by ring.
        rewrite F1, Z. ring. }
      rewrite !Hd by auto. rewrite H. auto.
    + assert (seg_eqb o s = true). { apply seg_eqb_ends. apply seg_eqb_ends in H. intuition. }
      rewrite (seg_eqb_pos o s) at 1; auto. lra.
  - rewrite (seg_eqb_pos s o); auto. lra.
Qed.

(** ** Equality on ordinary numbers: an equivalence *)
Section OrdEq.
  Context {T : Type} {N : Num T} {D : T -> Prop} (O : OrdLaws T N D).
  Local Open Scope num_scope.
  Lemma oeq_refl x : D x -> (x =? x) = true.
  Proof using O. intro H. rewrite (ol_eq _ _ _ O) by auto. rewrite (ol_irrefl _ _ _ O). auto. Qed.
  Lemma oeq_sym x y : D x -> D y -> (x =? y) = (y =? x).
  Proof using O. intros. rewrite !(ol_eq _ _ _ O) by auto. apply andb_comm. Qed.
  Lemma oeq_trans x y z : D x -> D y -> D z -> (x =? y) = true -> (y =? z) = true -> (x =? z) = true.
  Proof using O.
    intros Hx Hy Hz. rewrite !(ol_eq _ _ _ O) by auto. rewrite !andb_true_iff, !negb_true_iff. intros [A1 A2] [B1 B2].
    split; [apply (ol_total _ _ _ O x y z)|apply (ol_total _ _ _ O z y x)]; auto.
  Qed.
  Definition vD (v : vec T) : Prop := D (vx v) /\ D (vy v).
  Lemma veq_refl v : vD v -> vec_eqb v v = true.
  Proof using O. intros [? ?]. unfold vec_eqb. rewrite !oeq_refl by auto. auto. Qed.
  Lemma veq_sym v w : vD v -> vD w -> vec_eqb v w = vec_eqb w v.
  Proof using O. intros [? ?] [? ?]. unfold vec_eqb. f_equal; apply oeq_sym; auto. Qed.
  Lemma veq_trans v w z : vD v -> vD w -> vD z -> vec_eqb v w = true -> vec_eqb w z = true -> vec_eqb v z = true.
  Proof using O.
    intros [? ?] [? ?] [? ?]. unfold vec_eqb. rewrite !andb_true_iff. intros [? ?] [? ?].
    split; [apply (oeq_trans _ (vx w))|apply (oeq_trans _ (vy w))]; auto.
  Qed.
  (** What it means for a boolean relation to be an equivalence on a set. *)
  Definition equivalence_on {X} (P : X -> Prop) (r : X -> X -> bool) : Prop :=
    (forall x, P x -> r x x = true) /\ (forall x y, P x -> P y -> r x y = r y x) /\
    (forall x y z, P x -> P y -> P z -> r x y = true -> r y z = true -> r x z = true).
  Lemma vec_equiv : equivalence_on vD vec_eqb.
  Proof using O. split; [apply veq_refl|]. split; [apply veq_sym|apply veq_trans]. Qed.
  Lemma num_equiv : equivalence_on D neqb.
  Proof using O. split; [apply oeq_refl|]. split; [apply oeq_sym|apply oeq_trans]. Qed.
  Lemma pair_equiv {X Y Z} (P : X -> Prop) (Q : Y -> Prop) (r : X -> X -> bool) (s : Y -> Y -> bool) (f : Z -> X) (g : Z -> Y) :
    equivalence_on P r -> equivalence_on Q s ->
    equivalence_on (fun z => P (f z) /\ Q (g z)) (fun a b => r (f a) (f b) && s (g a) (g b)).
  Proof using Type.
    intros (R1 & R2 & R3) (S1 & S2 & S3). split; [|split].
    - intros x [? ?]. rewrite R1, S1 by auto. auto.
    - intros x y [? ?] [? ?]. rewrite R2, S2 by auto. auto.
    - intros x y z [? ?] [? ?] [? ?]. rewrite !andb_true_iff. intros [? ?] [? ?]. split; [apply (R3 _ (f y))|apply (S3 _ (g y))]; auto.
  Qed.
  Lemma box_equiv : equivalence_on (fun b => vD (bmin b) /\ vD (bmax b)) box_eqb.
  Proof using O. exact (pair_equiv _ _ _ _ _ _ vec_equiv vec_equiv). Qed.
  Lemma line_equiv : equivalence_on (fun l => D (loffset l) /\ vD (ddir (ldn l))) line_eqb.
  Proof using O. exact (pair_equiv _ _ _ _ _ (fun l => ddir (ldn l)) num_equiv vec_equiv). Qed.
  Lemma ray_equiv : equivalence_on (fun l => vD (ranchor l) /\ vD (ddir (rdn l))) ray_eqb.
  Proof using O. exact (pair_equiv _ _ _ _ _ (fun l => ddir (rdn l)) vec_equiv vec_equiv). Qed.
  Lemma seg_equiv : equivalence_on (fun l => vD (sanchor l) /\ vD (vscale (ddir (sdn l)) (slength l))) seg_eqb.
  Proof using O. exact (pair_equiv _ _ _ _ _ (fun l => vscale (ddir (sdn l)) (slength l)) vec_equiv vec_equiv). Qed.
  Lemma seq_equiv : equivalence_on (Forall vD) seq_eqb.
  Proof using O.
    split; [|split].
    - intros l H. induction H; cbn; auto. rewrite veq_refl, IHForall by auto. auto.
    - intros l o H. revert o. induction H as [|a l Ha Hl IH]; intros [|b o] Ho; auto. inversion Ho; subst. cbn.
      rewrite (veq_sym a b), IH by auto. auto.
    - intros l o q H. revert o q. induction H as [|a l Ha Hl IH]; intros [|b o] [|c q] Ho Hq; cbn; auto; try discriminate.
      inversion Ho; inversion Hq; subst. rewrite !andb_true_iff. intros [? ?] [? ?].
      split; [apply (veq_trans _ b)|apply (IH o)]; auto.
  Qed.
  Lemma affine_equiv : equivalence_on (fun m => Forall D (entries m)) affine_eqb.
  Proof using O.
    split; [|split].
    - intros m H. unfold entries in H. repeat (match goal with H : Forall _ (_ :: _) |- _ => inversion H; clear H; subst end).
      unfold affine_eqb. rewrite !oeq_refl by auto. auto.
    - intros m o H K. unfold entries in *. repeat (match goal with H : Forall _ (_ :: _) |- _ => inversion H; clear H; subst end).
      unfold affine_eqb. rewrite (oeq_sym (aa m)), (oeq_sym (ab m)), (oeq_sym (ac m)), (oeq_sym (ad m)), (oeq_sym (ae m)), (oeq_sym (af m)) by auto. reflexivity.
    - intros m o q H K L. unfold entries in *. repeat (match goal with H : Forall _ (_ :: _) |- _ => inversion H; clear H; subst end).
      unfold affine_eqb. rewrite !andb_true_iff. intros. repeat (match goal with H : _ /\ _ |- _ => destruct H end).
      repeat split; match goal with |- (?f m =? ?f q) = true => apply (oeq_trans _ (f o)); auto end.
  Qed.
End OrdEq.
