(** * Lemmas about Affine *)
From Coq Require Import ZArith List Bool Reals Lra Lia Psatz.
From Verif Require Import Num Vec Affine AffineCache RBase VecFacts VecFacts2 SpecGeom SpecAffine.
Import ListNotations.
Local Open Scope R_scope.

Lemma affine_ext (m o : affine R) : aa m = aa o -> ab m = ab o -> ac m = ac o ->
  ad m = ad o -> ae m = ae o -> af m = af o -> m = o.
Proof. destruct m, o; cbn; intros; subst; auto. Qed.
Ltac aext := apply affine_ext; cbn [aa ab ac ad ae af].

Lemma aapply_R (m : affine R) (p : pt) : aapply m p = img m p.
Proof. unfold aapply. rewrite vec2_R. reflexivity. Qed.
Lemma aidentity_R : aidentity = idmat.
Proof. unfold aidentity, affine_new, idmat; rnum. aext; ring. Qed.
Lemma determinant_R (m : affine R) : determinant m = det m.
Proof. reflexivity. Qed.

(** ** C17 *)
Lemma amul_assoc (a b c : affine R) : amul (amul a b) c = amul a (amul b c).
Proof. unfold amul; rnum; aext; ring. Qed.
Lemma amul_id_l (a : affine R) : amul aidentity a = a.
Proof. rewrite aidentity_R; unfold amul, idmat; rnum; aext; cbn [aa ab ac ad ae af]; ring. Qed.
Lemma amul_id_r (a : affine R) : amul a aidentity = a.
Proof. rewrite aidentity_R; unfold amul, idmat; rnum; aext; cbn [aa ab ac ad ae af]; ring. Qed.
Lemma det_mul (a b : affine R) : det (amul a b) = det a * det b.
Proof. unfold det, amul; rnum; cbn [aa ab ac ad ae af]; ring. Qed.
Lemma monoid (a b c : affine R) :
  amul (amul a b) c = amul a (amul b c) /\ amul idmat a = a /\ amul a idmat = a /\
  det (amul a b) = det a * det b.
Proof. rewrite <- aidentity_R. auto using amul_assoc, amul_id_l, amul_id_r, det_mul. Qed.

Definition inv_of (m : affine R) : affine R :=
  mkA (ae m / det m) (- ab m / det m) ((ab m * af m - ae m * ac m) / det m)
      (- ad m / det m) (aa m / det m) ((ad m * ac m - aa m * af m) / det m).
Lemma ainvert_ok (E : R) (m : affine R) : E <= Rabs (det m) -> det m <> 0 ->
  ainvert E m = Ok (inv_of m).
Proof.
  intros HE Hd. unfold ainvert, is_degenerate; rnum. rewrite determinant_R.
  destruct (Rltb_spec (Rabs (det m)) E); [lra|].
  rewrite pydiv_R by auto. cbn [bind]. f_equal. unfold inv_of; aext; field; auto.
Qed.
Lemma ainvert_degenerate (E : R) (m : affine R) : Rabs (det m) < E ->
  ainvert E m = Err TransformNotInvertibleError.
Proof.
  intro H. unfold ainvert, is_degenerate; rnum. rewrite determinant_R.
  destruct (Rltb_spec (Rabs (det m)) E); [auto|lra].
Qed.
Lemma Rabs_nz (x E : R) : 0 < E -> E <= Rabs x -> x <> 0.
Proof. intros H1 H2 ->. rewrite Rabs_R0 in H2. lra. Qed.
Lemma det_inv (m : affine R) : det m <> 0 -> det (inv_of m) = / det m.
Proof.
  intro H. unfold inv_of. unfold det at 1. cbn [aa ab ac ad ae af].
  unfold det in *. field. auto.
Qed.
Lemma inverse_spec (E : R) (m : affine R) : 0 < E -> E <= Rabs (det m) ->
  exists i, ainvert E m = Ok i /\ amul m i = idmat /\ amul i m = idmat /\
    (E <= Rabs (/ det m) -> ainvert E i = Ok m).
Proof.
  intros HE H. pose proof (Rabs_nz _ _ HE H) as Hd.
  exists (inv_of m). split; [apply ainvert_ok; auto|].
  unfold det in Hd.
  split; [|split].
  - unfold amul, inv_of, idmat, det; rnum; aext; field; auto.
  - unfold amul, inv_of, idmat, det; rnum; aext; field; auto.
  - intro Hi. rewrite <- det_inv in Hi by auto. rewrite ainvert_ok; auto.
    + f_equal. unfold inv_of at 1. rewrite det_inv by auto.
      unfold inv_of, det; aext; field; auto.
    + rewrite det_inv by auto. apply Rinv_neq_0_compat; auto.
Qed.

(** ** C18 *)
Lemma invert_fails_iff (E : R) (m : affine R) : 0 < E ->
  (ainvert E m = Err TransformNotInvertibleError <-> Rabs (det m) < E) /\
  (forall e, ainvert E m = Err e -> e = TransformNotInvertibleError) /\
  (is_degenerate E m = true <-> Rabs (det m) < E).
Proof.
  intro HE. destruct (Rlt_le_dec (Rabs (det m)) E) as [H|H].
  - rewrite ainvert_degenerate by auto. split; [tauto|]. split; [congruence|].
    unfold is_degenerate; rnum. rewrite determinant_R, Rltb_true. tauto.
  - rewrite ainvert_ok by eauto using Rabs_nz. split; [|split].
    + split; [discriminate | lra].
    + discriminate.
    + unfold is_degenerate; rnum. rewrite determinant_R, Rltb_true. tauto.
Qed.
Lemma invert_zero_epsilon (E : R) (m : affine R) : E <= 0 ->
  (ainvert E m = Err ZeroDivisionError <-> det m = 0) /\
  (det m <> 0 -> exists i, ainvert E m = Ok i).
Proof.
  intro HE. pose proof (Rabs_pos (det m)). split.
  - split.
    + intro H1. destruct (Req_dec (det m) 0); auto.
      rewrite ainvert_ok in H1 by (auto; lra). discriminate.
    + intro H1. unfold ainvert, is_degenerate; rnum. rewrite determinant_R, H1, Rabs_R0.
      destruct (Rltb_spec 0 E); [lra|]. rewrite pydiv_R0. auto.
  - intro Hd. rewrite ainvert_ok by (auto; lra). eauto.
Qed.

(** ** C19 - C21 *)
Lemma img_ext_all (m o : affine R) : (forall p, img m p = img o p) -> m = o.
Proof.
  intro H. pose proof (H (mkV 0 0)) as H0. pose proof (H (mkV 1 0)) as H1. pose proof (H (mkV 0 1)) as H2.
  unfold img in *. cbn [vx vy] in *.
  apply mkV_inj in H0. apply mkV_inj in H1. apply mkV_inj in H2. aext; lra.
Qed.
Definition then_img (a b : affine R) : affine R :=
  mkA (aa b * aa a + ab b * ad a) (aa b * ab a + ab b * ae a) (ac b * aa a + af b * ad a + ac a)
      (ad b * aa a + ae b * ad a) (ad b * ab a + ae b * ae a) (ac b * ab a + af b * ae a + af a).
Lemma then_img_ok (a b : affine R) (p : pt) : img a (img b p) = img (then_img a b) p.
Proof. unfold img, then_img; cbn [aa ab ac ad ae af vx vy]; vext; ring. Qed.
Lemma then_det (a b : affine R) : det (then_img a b) = det a * det b.
Proof. unfold det, then_img; cbn [aa ab ac ad ae af]; ring. Qed.

Lemma composition_iff (a b : affine R) :
  (forall p, aapply (amul a b) p = aapply a (aapply b p)) <->
  (ab a * ad b = ab b * ad a /\
   (aa a - ae a) * ab b = (aa b - ae b) * ab a /\
   (aa a - ae a) * ad b = (aa b - ae b) * ad a /\
   (ab a - ad a) * ac b = 0 /\ (ab a - ad a) * af b = 0).
Proof.
  split.
  - intro H.
    assert (H' : amul a b = then_img a b).
    { apply img_ext_all. intro p. rewrite <- then_img_ok, <- aapply_R, H, !aapply_R. auto. }
    unfold amul, then_img in H'; rnum.
    injection H'; intros. lra.
  - intros (H1 & H2 & H3 & H4 & H5) p. rewrite !aapply_R, then_img_ok.
    f_equal. unfold amul, then_img; rnum; aext; nra.
Qed.
Lemma composition_bad : exists (a b : affine R) (p : pt),
  aapply (amul a b) p <> aapply a (aapply b p).
Proof.
  exists (arotation 90 None), (atranslation (mkV 1 0)), (mkV 0 0).
  rewrite !aapply_R. unfold arotation. rewrite cos_sin_deg_R.
  replace (90 * PI / 180) with (PI / 2) by field. rewrite cos_PI2, sin_PI2.
  unfold atranslation, amul, img; rnum; cbn [aa ab ac ad ae af].
  intro H. apply mkV_inj in H. lra.
Qed.

Lemma inverse_points_iff (E : R) (m i : affine R) : 0 < E -> ainvert E m = Ok i ->
  ((forall p, aapply i (aapply m p) = p) <-> (ab m = ad m \/ (ac m = 0 /\ af m = 0))).
Proof.
  intros HE Hi.
  destruct (Rlt_le_dec (Rabs (det m)) E) as [H|H].
  { rewrite ainvert_degenerate in Hi by auto. discriminate. }
  pose proof (Rabs_nz _ _ HE H) as Hd.
  rewrite ainvert_ok in Hi by auto. injection Hi; intros <-.
  assert (Hx : forall p, aapply (inv_of m) (aapply m p) =
     padd p (mkV ((ab m - ad m) * af m / det m) ((ad m - ab m) * ac m / det m))).
  { intro p. rewrite !aapply_R. unfold img, inv_of, padd; cbn [aa ab ac ad ae af vx vy].
    unfold det in *. vext; field; auto. }
  split.
  - intro H0. pose proof (H0 porigin) as H1. rewrite Hx in H1. ug.
    apply mkV_inj in H1. destruct H1 as [H1 H2].
    destruct (Req_dec (ab m) (ad m)) as [|Hne]; auto. right.
    assert (H3 : (ab m - ad m) * af m = 0).
    { replace ((ab m - ad m) * af m) with ((0 + (ab m - ad m) * af m / det m) * det m) by (field; auto).
      rewrite H1; ring. }
    assert (H4 : (ad m - ab m) * ac m = 0).
    { replace ((ad m - ab m) * ac m) with ((0 + (ad m - ab m) * ac m / det m) * det m) by (field; auto).
      rewrite H2; ring. }
    apply Rmult_integral in H3. apply Rmult_integral in H4. lra.
  - intros H0 p. rewrite Hx. unfold padd; cbn [vx vy].
    destruct H0 as [->|[-> ->]]; vext; unfold Rdiv; ring.
Qed.
Lemma inverse_points_bad : exists (E : R) (m i : affine R) (p : pt),
  0 < E /\ ainvert E m = Ok i /\ aapply i (aapply m p) <> p.
Proof.
  assert (Hd : det (mkA 0 1 1 (-1) 0 0) = 1) by (unfold det; cbn; ring).
  exists (/ 100000), (mkA 0 1 1 (-1) 0 0), (inv_of (mkA 0 1 1 (-1) 0 0)), porigin.
  split; [lra|]. split.
  - apply ainvert_ok; rewrite Hd; [rewrite Rabs_R1|]; lra.
  - rewrite !aapply_R. unfold img, inv_of. rewrite Hd. cbn [aa ab ac ad ae af vx vy porigin].
    intro H. apply mkV_inj in H. lra.
Qed.

Lemma diagonal_ok (E : R) (a b : affine R) (p : pt) : 0 < E ->
  ab a = 0 -> ad a = 0 -> ab b = 0 -> ad b = 0 ->
  aapply (amul a b) p = aapply a (aapply b p) /\
  ab (amul a b) = 0 /\ ad (amul a b) = 0 /\
  (forall i, ainvert E a = Ok i -> aapply i (aapply a p) = p /\ aapply a (aapply i p) = p).
Proof.
  intros HE H1 H2 H3 H4. split; [|split; [|split]].
  - apply composition_iff. rewrite H1, H2, H3, H4. lra.
  - unfold amul; rnum; cbn [ab]. rewrite H1, H3. ring.
  - unfold amul; rnum; cbn [ad]. rewrite H2, H4. ring.
  - intros i Hi. split.
    + apply (inverse_points_iff E a i HE Hi). left; lra.
    + destruct (Rlt_le_dec (Rabs (det a)) E) as [H|H].
      { rewrite ainvert_degenerate in Hi by auto. discriminate. }
      pose proof (Rabs_nz _ _ HE H) as Hd.
      rewrite ainvert_ok in Hi by auto. injection Hi; intros <-.
      rewrite !aapply_R. unfold img, inv_of; cbn [aa ab ac ad ae af vx vy].
      unfold det in *. rewrite H1, H2 in *.
      assert (aa a * ae a <> 0) by (intro; apply Hd; lra).
      assert (aa a <> 0) by (intro Hz; rewrite Hz in *; lra).
      assert (ae a <> 0) by (intro Hz; rewrite Hz in *; lra).
      vext; field; repeat split; auto; intro; apply Hd; lra.
Qed.
Lemma application_closed (a b : affine R) :
  exists c, (forall p, aapply a (aapply b p) = aapply c p) /\ det c = det a * det b.
Proof.
  exists (then_img a b). split; [|apply then_det].
  intro p. rewrite !aapply_R. apply then_img_ok.
Qed.
Lemma translation_scale_diagonal (o s : pt) (k : R) :
  (ab (atranslation o) = 0 /\ ad (atranslation o) = 0) /\
  (ab (ascale s) = 0 /\ ad (ascale s) = 0) /\ (ab (ascale_scalar k) = 0 /\ ad (ascale_scalar k) = 0).
Proof. repeat split. Qed.
Lemma constructors_img (o s p : pt) (k x y : R) :
  aapply (atranslation o) p = padd p o /\
  aapply (ascale s) p = mkV (vx s * vx p) (vy s * vy p) /\
  aapply (ascale_scalar k) p = pscale k p /\
  rmap (fun m => aapply m p) (ashear x y) = Ok (mkV (vx p + tan (deg x) * vy p) (tan (deg y) * vx p + vy p)) /\
  aapply aidentity p = p.
Proof.
  unfold ashear, pytan; rnum; cbn [bind rmap]. rewrite !aapply_R, aidentity_R.
  unfold img, atranslation, ascale, ascale_scalar, idmat, padd, pscale; rnum;
    cbn [aa ab ac ad ae af].
  replace (x * (PI / 180)) with (deg x) by (unfold deg; field).
  replace (y * (PI / 180)) with (deg y) by (unfold deg; field).
  repeat split; try (apply (f_equal (@Ok _))); vext; ring.
Qed.

(** ** C22 *)
Lemma cyc_pairs_from_map {A B} (f : A -> B) (a : A) (l : list A) :
  cyc_pairs_from (f a) (map f l) = map (fun e => (f (fst e), f (snd e))) (cyc_pairs_from a l).
Proof.
  induction l as [|x l IH]; auto.
  destruct l as [|y l]; auto.
  cbn [map cyc_pairs_from] in *. rewrite IH. auto.
Qed.
Lemma cyc_pairs_map {A B} (f : A -> B) (l : list A) :
  cyc_pairs (map f l) = map (fun e => (f (fst e), f (snd e))) (cyc_pairs l).
Proof. destruct l as [|a l]; auto. apply (cyc_pairs_from_map f a (a :: l)). Qed.

Lemma rsum_plus {A} (f g : A -> R) (l : list A) :
  rsum (map (fun x => f x + g x) l) = rsum (map f l) + rsum (map g l).
Proof. induction l; cbn [rsum map fold_right] in *; [lra|]. unfold rsum in *. cbn. rewrite IHl. ring. Qed.
Lemma rsum_scale {A} (k : R) (f : A -> R) (l : list A) :
  rsum (map (fun x => k * f x) l) = k * rsum (map f l).
Proof. unfold rsum. induction l; cbn; [ring|]. rewrite IHl. ring. Qed.
Lemma rsum_ext {A} (f g : A -> R) (l : list A) :
  (forall x, In x l -> f x = g x) -> rsum (map f l) = rsum (map g l).
Proof. intro H. f_equal. apply map_ext_in; auto. Qed.

Lemma telescope_from {A} (f : A -> R) (a : A) (l : list A) : l <> [] ->
  rsum (map (fun e => f (snd e) - f (fst e)) (cyc_pairs_from a l)) = f a - f (hd a l).
Proof.
  unfold rsum. induction l as [|x l IH]; [congruence|]. intros _.
  destruct l as [|y l].
  - cbn. ring.
  - change (cyc_pairs_from a (x :: y :: l)) with ((x, y) :: cyc_pairs_from a (y :: l)).
    cbn [map fold_right fst snd]. rewrite IH by discriminate. cbn [hd]. ring.
Qed.
Lemma telescope {A} (f : A -> R) (l : list A) :
  rsum (map (fun e => f (snd e) - f (fst e)) (cyc_pairs l)) = 0.
Proof.
  destruct l as [|a l]; [reflexivity|].
  unfold cyc_pairs. rewrite telescope_from by discriminate. cbn. ring.
Qed.

Lemma area_img (m : affine R) (l : list pt) : area2 (map (aapply m) l) = det m * area2 l.
Proof.
  unfold area2. rewrite cyc_pairs_map, map_map. cbn [fst snd].
  rewrite (rsum_ext _ (fun e => det m * pcross (fst e) (snd e)
     + (pcross (mkV (ac m) (af m)) (limg m (snd e)) - pcross (mkV (ac m) (af m)) (limg m (fst e))))).
  - rewrite rsum_plus, (telescope (fun p => pcross (mkV (ac m) (af m)) (limg m p))), rsum_scale. ring.
  - intros [p q] _. rewrite !aapply_R. unfold img, limg, det; cbn [fst snd]; ug. ring.
Qed.
Lemma area_img_both (m : affine R) (l : list pt) (p q r : pt) :
  area2 (map (aapply m) l) = determinant m * area2 l /\
  orient (aapply m p) (aapply m q) (aapply m r) = determinant m * orient p q r.
Proof.
  rewrite determinant_R. split; [apply area_img|].
  rewrite !aapply_R. unfold img, det; ug. ring.
Qed.

(** ** C23 *)
Lemma img_between (m : affine R) (q r : pt) t :
  aapply m (between q r t) = between (aapply m q) (aapply m r) t.
Proof. rewrite !aapply_R. unfold img; ug. vext; ring. Qed.
Lemma img_ratio (m : affine R) (q r : pt) t :
  aapply m (between q r t) = between (aapply m q) (aapply m r) t /\
  (forall p s k, psub s r = pscale k (psub q p) ->
     psub (aapply m s) (aapply m r) = pscale k (psub (aapply m q) (aapply m p))).
Proof.
  split; [apply img_between|].
  intros p s k H. rewrite !aapply_R. unfold img; ug. apply mkV_inj in H. destruct H as [H1 H2].
  vext.
  - transitivity ((vx s - vx r) * aa m + (vy s - vy r) * ad m); [ring|]. rewrite H1, H2. ring.
  - transitivity ((vx s - vx r) * ab m + (vy s - vy r) * ae m); [ring|]. rewrite H1, H2. ring.
Qed.

(** ** C24 *)
Lemma rotation_img (t : R) (p : pt) : aapply (arotation t None) p = prot t p.
Proof.
  rewrite aapply_R. unfold arotation. rewrite cos_sin_deg_R.
  unfold img, prot, deg; rnum; cbn [aa ab ac ad ae af]. vext; ring.
Qed.
Lemma rotation_pivot_img (t : R) (c p : pt) :
  aapply (arotation t (Some c)) p = padd c (prot t (psub p c)).
Proof.
  rewrite aapply_R. unfold arotation. rewrite cos_sin_deg_R.
  unfold img, prot, deg; rnum; cbn [aa ab ac ad ae af]. ug. vext; ring.
Qed.
Lemma prot_norm t p : norm (prot t p) = norm p.
Proof. unfold prot, deg. rewrite <- (rotated_R p t). apply rotated_length. Qed.
Lemma prot_sub t p q : psub (prot t p) (prot t q) = prot t (psub p q).
Proof. unfold prot; ug; vext; ring. Qed.
Lemma rotation_pivot_spec (t : R) (c p q : pt) :
  aapply (arotation t (Some c)) c = c /\
  aapply (arotation t (Some c)) p = padd c (prot t (psub p c)) /\
  aapply (arotation t None) p = prot t p /\
  rotated p t = aapply (arotation t None) p /\
  dist (aapply (arotation t (Some c)) p) (aapply (arotation t (Some c)) q) = dist p q.
Proof.
  rewrite rotation_img, !rotation_pivot_img. repeat split.
  - unfold prot; ug; vext; ring.
  - apply rotated_R.
  - unfold dist. replace (psub (padd c (prot t (psub p c))) (padd c (prot t (psub q c)))) with (prot t (psub p q)).
    + apply prot_norm.
    + unfold prot; ug; vext; ring.
Qed.

(** ** C25 *)
Lemma psd2 (p q r x y : R) : 0 <= p + r -> 0 <= p * r - q * q ->
  0 <= p * x * x + 2 * q * x * y + r * y * y.
Proof.
  intros H1 H2.
  destruct (Rtotal_order p 0) as [Hp|[Hp|Hp]].
  - assert (r <= 0 \/ 0 < r) as [|] by lra; nra.
  - subst p. assert (q = 0) by nra. subst q. nra.
  - assert (0 <= p * (p * x * x + 2 * q * x * y + r * y * y)).
    { replace (p * (p * x * x + 2 * q * x * y + r * y * y))
        with ((p * x + q * y) * (p * x + q * y) + (p * r - q * q) * (y * y)) by ring.
      apply Rplus_le_le_0_compat; [apply Rle_0_sqr|].
      apply Rmult_le_pos; [lra | apply Rle_0_sqr]. }
    apply Rnot_lt_le. intro Hn. nra.
Qed.
Lemma orthonormal_true (E : R) (m : affine R) : is_orthonormal E m = true <->
  (Rabs (aa m * ab m + ad m * ae m) < E /\ Rabs (1 - (aa m * aa m + ad m * ad m)) < E
   /\ Rabs (1 - (ab m * ab m + ae m * ae m)) < E).
Proof.
  unfold is_orthonormal, is_conformal; rnum. rewrite !andb_true_iff, !Rltb_true. tauto.
Qed.
Lemma Rabs_lt_iff (x e : R) : Rabs x < e <-> - e < x < e.
Proof.
  split; intro H.
  - apply Rabs_def2 in H; lra.
  - apply Rabs_def1; lra.
Qed.
Lemma img_sub (m : affine R) (p q : pt) : psub (img m p) (img m q) = limg m (psub p q).
Proof. unfold img, limg; ug; vext; ring. Qed.
Lemma gram_bounds (a b d e E x y : R) :
  Rabs (a * b + d * e) < E -> Rabs (1 - (a * a + d * d)) < E -> Rabs (1 - (b * b + e * e)) < E ->
  (1 - 2 * E) * (x * x + y * y) <=
  (x * a + y * d) * (x * a + y * d) + (x * b + y * e) * (x * b + y * e)
  <= (1 + 2 * E) * (x * x + y * y).
Proof.
  rewrite !Rabs_lt_iff. intros [H1 H2] [H3 H4] [H5 H6].
  set (s := a * a + d * d) in *. set (u := b * b + e * e) in *. set (w := a * b + d * e) in *.
  split.
  - assert (H := psd2 (a * a + b * b - (1 - 2 * E)) (a * d + b * e) (d * d + e * e - (1 - 2 * E)) x y).
    assert (Hd : (a * a + b * b - (1 - 2 * E)) * (d * d + e * e - (1 - 2 * E)) - (a * d + b * e) * (a * d + b * e)
        = (s - (1 - 2 * E)) * (u - (1 - 2 * E)) - w * w) by (unfold s, u, w; ring).
    rewrite Hd in H.
    assert (0 <= (s - (1 - 2 * E)) * (u - (1 - 2 * E)) - w * w).
    { assert (E < s - (1 - 2 * E)) by lra. assert (E < u - (1 - 2 * E)) by lra.
      assert (E * E <= (s - (1 - 2 * E)) * (u - (1 - 2 * E))) by nra.
      assert (w * w <= E * E) by nra. lra. }
    assert (0 <= a * a + b * b - (1 - 2 * E) + (d * d + e * e - (1 - 2 * E))) by (unfold s, u in *; lra).
    specialize (H H7 H0). lra.
  - assert (H := psd2 ((1 + 2 * E) - (a * a + b * b)) (- (a * d + b * e)) ((1 + 2 * E) - (d * d + e * e)) x y).
    assert (Hd : ((1 + 2 * E) - (a * a + b * b)) * ((1 + 2 * E) - (d * d + e * e)) - - (a * d + b * e) * - (a * d + b * e)
        = ((1 + 2 * E) - s) * ((1 + 2 * E) - u) - w * w) by (unfold s, u, w; ring).
    rewrite Hd in H.
    assert (0 <= ((1 + 2 * E) - s) * ((1 + 2 * E) - u) - w * w).
    { assert (E < (1 + 2 * E) - s) by lra. assert (E < (1 + 2 * E) - u) by lra.
      assert (E * E <= ((1 + 2 * E) - s) * ((1 + 2 * E) - u)) by nra.
      assert (w * w <= E * E) by nra. lra. }
    assert (0 <= (1 + 2 * E) - (a * a + b * b) + ((1 + 2 * E) - (d * d + e * e))) by (unfold s, u in *; lra).
    specialize (H H7 H0). lra.
Qed.
Lemma orthonormal_distances (E : R) (m : affine R) (p q : pt) : is_orthonormal E m = true ->
  (1 - 2 * E) * (dist p q * dist p q) <= dist (aapply m p) (aapply m q) * dist (aapply m p) (aapply m q)
  <= (1 + 2 * E) * (dist p q * dist p q).
Proof.
  intro H. apply orthonormal_true in H. destruct H as (H1 & H2 & H3).
  rewrite !aapply_R. unfold dist. rewrite img_sub, !norm_sq.
  unfold limg; cbn [vx vy]. apply gram_bounds; auto.
Qed.
Lemma orthonormal_exact (m : affine R) :
  aa m * ab m + ad m * ae m = 0 -> aa m * aa m + ad m * ad m = 1 -> ab m * ab m + ae m * ae m = 1 ->
  (forall p q, dist (aapply m p) (aapply m q) = dist p q) /\ (determinant m = 1 \/ determinant m = -1) /\
  (forall E, 0 < E -> is_orthonormal E m = true).
Proof.
  intros H1 H2 H3. split; [|split].
  - intros p q. rewrite !aapply_R. unfold dist. rewrite img_sub. unfold norm. f_equal.
    set (x := vx (psub p q)). set (y := vy (psub p q)). unfold limg; cbn [vx vy]. fold x y.
    apply Rle_antisym.
    + apply Rnot_gt_le. intro Hg.
      set (A := (x * aa m + y * ad m) * (x * aa m + y * ad m) + (x * ab m + y * ae m) * (x * ab m + y * ae m)) in *.
      assert (Hn : 0 <= x * x + y * y) by nra.
      set (n := x * x + y * y) in *.
      set (E := (A - n) / (4 * (n + 1))).
      assert (HE : 0 < E) by (apply Rdiv_lt_0_compat; lra).
      assert (HB : A <= (1 + 2 * E) * n).
      { unfold A, n. apply gram_bounds; rewrite ?H1, ?H2, ?H3;
          match goal with |- Rabs ?z < _ => replace z with 0 by ring end; rewrite Rabs_R0; auto. }
      assert (HE2 : E * (4 * (n + 1)) = A - n) by (unfold E; field; lra).
      nra.
    + apply Rnot_gt_le. intro Hg.
      set (A := (x * aa m + y * ad m) * (x * aa m + y * ad m) + (x * ab m + y * ae m) * (x * ab m + y * ae m)) in *.
      assert (Hn : 0 <= x * x + y * y) by nra.
      set (n := x * x + y * y) in *.
      set (E := (n - A) / (4 * (n + 1))).
      assert (HE : 0 < E) by (apply Rdiv_lt_0_compat; lra).
      assert (HB : (1 - 2 * E) * n <= A).
      { unfold A, n. apply gram_bounds; rewrite ?H1, ?H2, ?H3;
          match goal with |- Rabs ?z < _ => replace z with 0 by ring end; rewrite Rabs_R0; auto. }
      assert (HE2 : E * (4 * (n + 1)) = n - A) by (unfold E; field; lra).
      nra.
  - rewrite determinant_R.
    assert (det m * det m = 1).
    { unfold det.
      transitivity ((aa m * aa m + ad m * ad m) * (ab m * ab m + ae m * ae m)
                    - (aa m * ab m + ad m * ae m) * (aa m * ab m + ad m * ae m)); [ring|].
      rewrite H1, H2, H3. ring. }
    assert ((det m - 1) * (det m + 1) = 0) by lra.
    apply Rmult_integral in H0. lra.
  - intros E HE. apply orthonormal_true. rewrite H1, H2, H3.
    replace (1 - 1) with 0 by ring. rewrite Rabs_R0. auto.
Qed.
Lemma orthonormal_det (E : R) (m : affine R) : is_orthonormal E m = true -> E <= 1 ->
  1 - 2 * E < determinant m * determinant m < (1 + E) * (1 + E).
Proof.
  intros H HE. apply orthonormal_true in H. destruct H as (H1 & H2 & H3).
  rewrite determinant_R.
  assert (Hd : det m * det m = (aa m * aa m + ad m * ad m) * (ab m * ab m + ae m * ae m)
      - (aa m * ab m + ad m * ae m) * (aa m * ab m + ad m * ae m)) by (unfold det; ring).
  rewrite Hd. rewrite Rabs_lt_iff in H1, H2, H3.
  set (s := aa m * aa m + ad m * ad m) in *. set (u := ab m * ab m + ae m * ae m) in *.
  set (w := aa m * ab m + ad m * ae m) in *.
  assert (w * w < E * E) by nra. assert (0 <= w * w) by nra.
  split.
  - assert ((1 - E) * (1 - E) <= s * u) by nra. nra.
  - assert (0 <= s) by (unfold s; nra). assert (0 <= u) by (unfold u; nra).
    assert (s * u < (1 + E) * (1 + E)) by nra. lra.
Qed.
Lemma rigid_orthonormal (E t : R) (c : option pt) (o : pt) : 0 < E ->
  is_orthonormal E (arotation t c) = true /\ is_orthonormal E (atranslation o) = true.
Proof.
  intro HE. split.
  - apply orthonormal_exact; auto; unfold arotation; rewrite cos_sin_deg_R; rnum;
      pose proof (sin_cos_sq (t * PI / 180)); destruct c; cbn [aa ab ac ad ae af]; lra.
  - apply orthonormal_exact; auto; unfold atranslation; rnum; cbn [aa ab ac ad ae af]; ring.
Qed.

(** ** C26 *)
Lemma conformal_bad : exists m : affine R, (forall E, 0 < E -> is_conformal E m = true) /\
  exists u v : pt, pdot u v = 0 /\ pdot (psub (aapply m u) (aapply m porigin)) (psub (aapply m v) (aapply m porigin)) <> 0.
Proof.
  exists (ascale (mkV 1 2)). split.
  - intros E HE. unfold is_conformal, ascale; rnum. cbn [aa ab ac ad ae af].
    apply Rltb_true. replace (1 * 0 + 0 * 2) with 0 by ring. rewrite Rabs_R0; auto.
  - exists (mkV 1 1), (mkV 1 (-1)). rewrite !aapply_R. unfold img, ascale; ug; rnum; cbn [aa ab ac ad ae af].
    split; lra.
Qed.
Lemma conformal_shear_bad : exists m : affine R, (forall E, 0 < E -> is_conformal E m = true) /\
  pdot (psub (aapply m (mkV 1 0)) (aapply m porigin)) (psub (aapply m (mkV 0 1)) (aapply m porigin)) <> 0.
Proof.
  exists (mkA 1 1 0 2 (- / 2) 0). split.
  - intros E HE. unfold is_conformal; rnum. cbn [aa ab ac ad ae af].
    apply Rltb_true. replace (1 * 1 + 2 * - / 2) with 0 by field. rewrite Rabs_R0; auto.
  - rewrite !aapply_R. unfold img; ug; cbn [aa ab ac ad ae af]. lra.
Qed.
Lemma conformal_equal_columns (m : affine R) (k : R) :
  aa m * ab m + ad m * ae m = 0 -> aa m * aa m + ad m * ad m = k -> ab m * ab m + ae m * ae m = k ->
  (forall E, 0 < E -> is_conformal E m = true) /\
  forall o u v, pdot (psub (aapply m u) (aapply m o)) (psub (aapply m v) (aapply m o)) = k * pdot (psub u o) (psub v o).
Proof.
  intros H1 H2 H3. split.
  - intros E HE. unfold is_conformal; rnum. apply Rltb_true. rewrite H1, Rabs_R0. auto.
  - (* the rows are orthogonal of the same length too *)
    assert (Hr : aa m * ad m + ab m * ae m = 0 /\ aa m * aa m + ab m * ab m = k /\ ad m * ad m + ae m * ae m = k).
    { destruct (Req_dec k 0) as [Hk|Hk].
      - assert (aa m = 0) by nra. assert (ad m = 0) by nra. assert (ab m = 0) by nra. assert (ae m = 0) by nra.
        rewrite H, H0, H4, H5. lra.
      - set (a := aa m) in *. set (b := ab m) in *. set (d := ad m) in *. set (e := ae m) in *.
        assert (Hd2 : (a * e - b * d) * (a * e - b * d) = k * k).
        { transitivity ((a * a + d * d) * (b * b + e * e) - (a * b + d * e) * (a * b + d * e)); [ring|].
          rewrite H1, H2, H3. ring. }
        set (D := a * e - b * d) in *.
        assert (He : k * e = D * a).
        { unfold D. rewrite <- H2. transitivity (a * a * e + d * (d * e)); [ring|].
          replace (d * e) with (- (a * b)) by lra. ring. }
        assert (Hb : k * b = - D * d).
        { unfold D. rewrite <- H2. transitivity (a * (a * b) + d * d * b); [ring|].
          replace (a * b) with (- (d * e)) by lra. ring. }
        assert (Hkk : k * k <> 0) by (intro Hz; apply Rmult_integral in Hz; tauto).
        repeat split.
        + apply (Rmult_eq_reg_l (k * k)); auto.
          transitivity (k * k * (a * d) + (k * b) * (k * e)); [ring|]. rewrite He, Hb.
          transitivity (a * d * (k * k - D * D)); [ring|]. rewrite Hd2. ring.
        + apply (Rmult_eq_reg_l (k * k)); auto.
          transitivity (k * k * (a * a) + (k * b) * (k * b)); [ring|]. rewrite Hb.
          transitivity (k * k * (a * a) + D * D * (d * d)); [ring|]. rewrite Hd2, <- H2. ring.
        + apply (Rmult_eq_reg_l (k * k)); auto.
          transitivity (k * k * (d * d) + (k * e) * (k * e)); [ring|]. rewrite He.
          transitivity (k * k * (d * d) + D * D * (a * a)); [ring|]. rewrite Hd2, <- H2. ring. }
    destruct Hr as (R1 & R2 & R3).
    intros o u v. rewrite !aapply_R. unfold img; ug.
    set (x := vx u - vx o). set (y := vy u - vy o). set (z := vx v - vx o). set (w := vy v - vy o).
    transitivity (x * z * (aa m * aa m + ab m * ab m) + (x * w + y * z) * (aa m * ad m + ab m * ae m)
                  + y * w * (ad m * ad m + ae m * ae m)); [unfold x, y, z, w; ring|].
    rewrite R1, R2, R3. ring.
Qed.

(** ** C27 *)
Lemma affine_eqb_R (m o : affine R) : affine_eqb m o = true <-> m = o.
Proof.
  unfold affine_eqb; rnum. rewrite !andb_true_iff, !Reqb_true. split.
  - intros (((((? & ?) & ?) & ?) & ?) & ?). aext; auto.
  - intros ->; auto 10.
Qed.
Lemma img_id (p : pt) : img idmat p = p.
Proof. unfold img, idmat; cbn [aa ab ac ad ae af]. vext; ring. Qed.
Lemma itransform_R (m : affine R) (l : list pt) : itransform m l = map (img m) l.
Proof.
  unfold itransform. destruct (affine_eqb m aidentity) eqn:H.
  - apply affine_eqb_R in H. rewrite H, aidentity_R.
    symmetry. erewrite map_ext; [apply map_id|]. apply img_id.
  - apply map_ext. intro p. rewrite vec2_of_R. apply aapply_R.
Qed.

(** ** C28 *)
Section Generic.
  Context {T : Type} {N : Num T}.

  (** Value of the predicate computed from scratch with EPSILON = E. *)
  Definition apred_value (E : T) (m : affine T) (p : apred) : bool :=
    match p with
    | PIdentity => is_identity E m
    | PRectilinear => is_rectilinear E m
    | PConformal => is_conformal E m
    | POrthonormal => is_orthonormal E m
    | PDegenerate => is_degenerate E m
    end.

  Definition acoherent (E : T) (m : affine T) (s : astate T) : Prop :=
    eps s = E /\
    (forall b, c_identity s = Some b -> b = is_identity E m) /\
    (forall b, c_rectilinear s = Some b -> b = is_rectilinear E m) /\
    (forall b, c_conformal s = Some b -> b = is_conformal E m) /\
    (forall b, c_orthonormal s = Some b -> b = is_orthonormal E m) /\
    (forall b, c_degenerate s = Some b -> b = is_degenerate E m).

  Ltac cc := repeat match goal with
    | H : Some _ = Some _ |- _ => injection H; clear H; intros; subst
    | |- _ /\ _ => split
    | |- forall _, _ => intro
    end; auto.

  Lemma read_conformal_coherent E m s : acoherent E m s ->
    fst (read_conformal m s) = is_conformal E m /\ acoherent E m (snd (read_conformal m s)).
  Proof.
    intros H; pose proof H as (He & H1 & H2 & H3 & H4 & H5).
    unfold read_conformal. destruct (c_conformal s) as [b|] eqn:Hc; cbn [fst snd].
    - auto.
    - subst E. split; auto. unfold acoherent; cbn. cc.
  Qed.
  Lemma aread_coherent E m s p : acoherent E m s ->
    fst (aread m p s) = apred_value E m p /\ acoherent E m (snd (aread m p s)).
  Proof.
    intros H; pose proof H as (He & H1 & H2 & H3 & H4 & H5).
    destruct p; cbn [aread apred_value].
    - destruct (c_identity s) as [b|] eqn:Hc; cbn [fst snd]; [auto|].
      subst E. split; auto. unfold acoherent; cbn. cc.
    - destruct (c_rectilinear s) as [b|] eqn:Hc; cbn [fst snd]; [auto|].
      subst E. split; auto. unfold acoherent; cbn. cc.
    - apply read_conformal_coherent; auto.
    - destruct (c_orthonormal s) as [b|] eqn:Hc; cbn [fst snd]; [auto|].
      destruct (read_conformal_coherent E m s H) as [Hf Hs].
      destruct (read_conformal m s) as [c s']. cbn [fst snd] in *. subst c.
      destruct Hs as (He' & H1' & H2' & H3' & H4' & H5').
      split; [rewrite He'; reflexivity|].
      unfold acoherent; cbn. rewrite He'. cc.
    - destruct (c_degenerate s) as [b|] eqn:Hc; cbn [fst snd]; [auto|].
      subst E. split; auto. unfold acoherent; cbn. cc.
  Qed.
  Lemma ainvert_cached_coherent E m s : acoherent E m s ->
    fst (ainvert_cached m s) = ainvert E m /\ acoherent E m (snd (ainvert_cached m s)).
  Proof.
    intro H. unfold ainvert_cached. destruct (aread_coherent E m s PDegenerate H) as [Hf Hs].
    destruct (aread m PDegenerate s) as [d s']. cbn [fst snd apred_value] in *. subst d. auto.
  Qed.
  Definition no_set_epsilon (o : aop T) : Prop := match o with OSetEps _ => False | _ => True end.
  Lemma arun_coherent E m s os : acoherent E m s -> Forall no_set_epsilon os ->
    acoherent E m (arun m s os).
  Proof.
    intros H Ho. revert s H. induction Ho as [|o os Ho Hos IH]; intros s H; auto.
    cbn. apply IH. destruct o; cbn [astep].
    - apply aread_coherent; auto.
    - contradiction.
    - apply ainvert_cached_coherent; auto.
  Qed.
  Lemma afresh_coherent E m : acoherent E m (afresh E).
  Proof. unfold acoherent, afresh; cbn. repeat split; auto; discriminate. Qed.

  Lemma cached_constant_epsilon (E : T) (m : affine T) (os : list (aop T)) (p : apred) :
    Forall (fun o => match o with OSetEps _ => False | _ => True end) os ->
    fst (aread m p (arun m (afresh E) os)) = fst (aread m p (afresh E)) /\
    fst (ainvert_cached m (arun m (afresh E) os)) = ainvert E m.
  Proof.
    intro H. pose proof (arun_coherent E m _ os (afresh_coherent E m) H) as Hc.
    split.
    - destruct (aread_coherent E m _ p Hc) as [-> _].
      destruct (aread_coherent E m _ p (afresh_coherent E m)) as [-> _]. auto.
    - apply ainvert_cached_coherent; auto.
  Qed.

  (** set_epsilon calls made before the first read are seen. *)
  Lemma cached_epsilon_before (E : T) (m : affine T) (es : list T) (e : T) :
    arun m (afresh E) (map OSetEps (es ++ [e])) = afresh e.
  Proof.
    revert E. induction es as [|a es IH]; intro E; cbn; auto. apply IH.
  Qed.
End Generic.

Lemma cached_stale : exists (m : affine R) (E e : R), 0 < e /\ 0 < E /\
  fst (aread m PDegenerate (arun m (afresh E) [ORead PDegenerate; OSetEps e]))
    <> fst (aread m PDegenerate (afresh e)) /\
  fst (ainvert_cached m (arun m (afresh E) [ORead PDegenerate; OSetEps e])) <> ainvert e m.
Proof.
  exists (mkA (/ 1000) 0 0 0 (/ 1000) 0), (/ 100000), (/ 1000000000).
  split; [lra|]. split; [lra|].
  set (m := mkA (/ 1000) 0 0 0 (/ 1000) 0).
  assert (H1 : is_degenerate (/ 100000) m = true).
  { unfold is_degenerate, determinant, m; rnum; cbn [aa ab ac ad ae af].
    apply Rltb_true. rewrite Rabs_pos_eq; lra. }
  assert (H2 : is_degenerate (/ 1000000000) m = false).
  { unfold is_degenerate, determinant, m; rnum; cbn [aa ab ac ad ae af].
    apply Rltb_false. rewrite Rabs_pos_eq; lra. }
  assert (Hr : arun m (afresh (/ 100000)) [ORead PDegenerate; OSetEps (/ 1000000000)]
     = mkAS (/ 1000000000) None None None None (Some true)).
  { cbn [arun fold_left astep aread afresh c_degenerate snd eps]. rewrite H1. reflexivity. }
  rewrite Hr. split.
  - cbn [aread afresh c_degenerate fst eps]. rewrite H2. discriminate.
  - unfold ainvert_cached, ainvert. cbn [aread c_degenerate fst]. rewrite H2.
    unfold pydiv. destruct (neqb _ _); cbn [bind]; discriminate.
Qed.
