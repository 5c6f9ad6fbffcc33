(** * Boxes over the reals: from_center, inflate, fit and transforms *)
From Coq Require Import ZArith List Bool Reals Lra Lia Psatz Permutation.
From Verif Require Import Num Vec Affine Box Seq Polygon BoxPoly RBase VecFacts2 AffineFacts OrdLaws
  SpecGeom SpecAffine SpecBox BoxFacts.
Import ListNotations.
Local Open Scope R_scope.

Lemma all_ord (l : list pt) : Forall (ord_pt (fun _ : R => True)) l.
Proof. apply Forall_forall. intros; split; exact I. Qed.

Lemma tight_in (b : bbox R) (l : list pt) : tight b l ->
  (forall p, In p l -> in_closed b p) /\ proper b /\
  (forall c : bbox R, (forall p, In p l -> in_closed c p) -> encloses c b).
Proof.
  intros ([X1 Y1] & [X2 Y2] & [X3 Y3] & [X4 Y4]). cbn [nleb RNum] in *.
  assert (HI : forall p, In p l -> in_closed b p).
  { intros p Hp. pose proof (in_map vx _ _ Hp) as Hx. pose proof (in_map vy _ _ Hp) as Hy.
    specialize (Y1 _ Hx). specialize (Y2 _ Hy). specialize (Y3 _ Hx). specialize (Y4 _ Hy).
    rbool. unfold in_closed. lra. }
  split; [auto|]. split.
  - specialize (Y3 _ X1). specialize (Y4 _ X2). rbool. split; auto.
  - intros c Hc p Hp. apply in_map_iff in X1, X2, X3, X4.
    destruct X1 as (q1 & E1 & H1), X2 as (q2 & E2 & H2), X3 as (q3 & E3 & H3), X4 as (q4 & E4 & H4).
    apply Hc in H1, H2, H3, H4. unfold in_closed in *. lra.
Qed.

Lemma tight_uniq (b c : bbox R) l l' : (forall p, In p l <-> In p l') -> tight b l -> tight c l' -> b = c.
Proof.
  intros Hp Hb Hc. pose proof (tight_unique R_ordlaws b c l l' (all_ord l) Hp Hb Hc) as H.
  unfold box_eqb in H. apply andb_true_iff in H. destruct H as [H1 H2].
  apply vec_eqb_R in H1, H2. destruct b, c; cbn in *; subst; auto.
Qed.

Lemma box_two (p q : pt) :
  box_from_points [p; q] = Ok (mkBox (mkV (Rmin (vx p) (vx q)) (Rmin (vy p) (vy q)))
                                     (mkV (Rmax (vx p) (vx q)) (Rmax (vy p) (vy q)))).
Proof.
  unfold box_from_points. cbn [fold_left minmax_step]. rnum. rewrite !Rmult_1_r.
  unfold Rmin, Rmax.
  destruct (Rltb_spec (vx q) (vx p)), (Rltb_spec (vx p) (vx q)), (Rltb_spec (vy q) (vy p)), (Rltb_spec (vy p) (vy q)),
    (Rle_dec (vx p) (vx q)), (Rle_dec (vy p) (vy q)); cbn [fst snd]; try lra; rewrite !vec2_R; f_equal; f_equal; vext; lra.
Qed.

Lemma box_center_R (b : bbox R) : box_center b = Ok (mid b).
Proof.
  unfold box_center, vdivs, vadd, n2. cbn [nlit RNum]. rnum. rewrite !pydiv_R by lra. cbn [bind].
  unfold mid. reflexivity.
Qed.

(** ** C32 *)
Lemma from_center_spec (c : pt) (w h : R) : exists b, box_from_center c w h = Ok b /\
  proper b /\ mid b = c /\ wd b = Rabs w /\ ht b = Rabs h.
Proof.
  unfold box_from_center. rewrite box_two. eexists; split; [reflexivity|]. rnum.
  unfold proper, mid, wd, ht; cbn [bmin bmax vx vy].
  unfold Rmin, Rmax, Rabs.
  destruct (Rle_dec (vx c - w * / 2) (vx c + w * / 2)), (Rle_dec (vy c - h * / 2) (vy c + h * / 2)),
    (Rcase_abs w), (Rcase_abs h); try lra; repeat split; try lra; vext; lra.
Qed.

Lemma inflate_spec (b : bbox R) (d : pt) : proper b -> exists r, box_inflate b d = Ok r /\
  proper r /\ mid r = mid b /\ wd r = Rabs (wd b + vx d) /\ ht r = Rabs (ht b + vy d).
Proof.
  intros [Px Py]. unfold box_inflate. rewrite vec2_of_R. unfold vdivs, n2. cbn [nlit RNum].
  rewrite !pydiv_R by lra. cbn [bind]. rewrite box_two. eexists; split; [reflexivity|].
  unfold vsub, vadd. rnum. unfold proper, mid, wd, ht; cbn [bmin bmax vx vy].
  unfold Rmin, Rmax, Rabs.
  repeat match goal with |- context [if ?c then _ else _] => destruct c end;
    repeat split; try lra; vext; lra.
Qed.
Lemma box_char (b c : bbox R) : mid b = mid c -> wd b = wd c -> ht b = ht c -> b = c.
Proof.
  unfold mid, wd, ht. destruct b as [[a1 a2] [a3 a4]], c as [[b1 b2] [b3 b4]]; cbn [bmin bmax vx vy].
  intros H1 H2 H3. apply mkV_inj in H1. destruct H1. repeat f_equal; lra.
Qed.
Lemma encloses_mid (b c : bbox R) : mid b = mid c -> wd c <= wd b -> ht c <= ht b -> encloses b c.
Proof.
  unfold mid, wd, ht, encloses, in_closed. destruct b as [[a1 a2] [a3 a4]], c as [[b1 b2] [b3 b4]]; cbn [bmin bmax vx vy].
  intros H1 H2 H3 p. apply mkV_inj in H1. lra.
Qed.
Lemma inflate_grow (b : bbox R) (d : pt) : proper b -> 0 <= vx d -> 0 <= vy d ->
  exists r, box_inflate b d = Ok r /\ encloses r b /\ box_inflate r (mkV (- vx d) (- vy d)) = Ok b.
Proof.
  intros Hp Hx Hy. destruct (inflate_spec b d Hp) as (r & Hr & Pr & Mr & Wr & Hh).
  destruct (inflate_spec r (mkV (- vx d) (- vy d)) Pr) as (s & Hs & Ps & Ms & Ws & Hs').
  assert (0 <= wd b /\ 0 <= ht b) by (destruct Hp; unfold wd, ht; lra).
  rewrite Rabs_right in Wr, Hh by lra. cbn [vx vy] in *.
  rewrite Rabs_right in Ws, Hs' by lra.
  exists r. split; auto. split.
  - apply encloses_mid; auto; lra.
  - rewrite Hs. f_equal. apply box_char; try congruence; lra.
Qed.
Lemma inflate_scalar (b : bbox R) (s : R) : box_inflate_scalar b s = box_inflate b (mkV s s).
Proof. unfold box_inflate_scalar. rnum. rewrite Rmult_1_r. auto. Qed.

(** ** C33 *)
Lemma inflate_negative_enlarges : exists (b r : bbox R) (s : R), proper b /\ s < 0 /\
  box_inflate_scalar b s = Ok r /\ wd b < wd r /\ ht b < ht r.
Proof.
  exists (mkBox (mkV 0 0) (mkV 1 1)). set (b := mkBox _ _).
  assert (Hp : proper b) by (unfold proper, b; cbn [bmin bmax vx vy]; lra).
  destruct (inflate_spec b (mkV (-10) (-10)) Hp) as (r & Hr & _ & _ & H1 & H2).
  exists r, (-10). split; auto. split; [lra|]. rewrite inflate_scalar. split; auto.
  assert (Hb : wd b = 1 /\ ht b = 1) by (unfold wd, ht, b; cbn [bmin bmax vx vy]; lra).
  destruct Hb as [Hb1 Hb2]. rewrite Hb1 in H1. rewrite Hb2 in H2. cbn [vx vy] in H1, H2.
  rewrite Rabs_left in H1, H2 by lra. rewrite H1, H2, Hb1, Hb2. lra.
Qed.
Lemma inflate_negative_iff (b r : bbox R) (d : pt) : proper b -> vx d <= 0 -> vy d <= 0 ->
  box_inflate b d = Ok r -> (encloses b r <-> - vx d <= 2 * wd b /\ - vy d <= 2 * ht b).
Proof.
  intros Hp Hx Hy Hr. destruct (inflate_spec b d Hp) as (r' & Hr' & Pr & Mr & Wr & Hh).
  rewrite Hr in Hr'. injection Hr' as <-.
  assert (0 <= wd b /\ 0 <= ht b) by (destruct Hp; unfold wd, ht; lra).
  assert (HE : encloses b r <-> wd r <= wd b /\ ht r <= ht b).
  { split; [|intros []; apply encloses_mid; auto].
    intro He. pose proof (He (bmin r)) as H1. pose proof (He (bmax r)) as H2.
    destruct Pr. unfold in_closed in H1, H2. unfold wd, ht. lra. }
  rewrite HE, Wr, Hh. split.
  - intros [H1 H2]. revert H1 H2. unfold Rabs. destruct (Rcase_abs _), (Rcase_abs _); lra.
  - intros [H1 H2]. split; apply Rabs_le; lra.
Qed.

(** ** C34 *)
Lemma pymin_R (a b : R) : pymin a b = Rmin a b.
Proof. unfold pymin, Rmin; rnum. destruct (Rltb_spec b a), (Rle_dec a b); lra. Qed.
Lemma fit_box_spec (s o : bbox R) : 0 < wd s -> 0 < ht s -> 0 < wd o -> 0 < ht o ->
  exists r k, box_fit_box s o = Ok r /\ 0 < k /\ mid r = mid s /\
    wd r = k * wd o /\ ht r = k * ht o /\ encloses s r /\ (wd r = wd s \/ ht r = ht s).
Proof.
  intros H1 H2 H3 H4. unfold box_fit_box, box_width, box_height. rnum.
  fold (wd s) (wd o) (ht s) (ht o). rewrite !pydiv_R by lra. cbn [bind].
  rewrite pymin_R, box_center_R. cbn [bind].
  set (k := Rmin (wd s / wd o) (ht s / ht o)).
  assert (Kp : 0 < k).
  { unfold k. apply Rmin_glb_lt; apply Rdiv_lt_0_compat; auto. }
  destruct (from_center_spec (mid s) (wd o * k) (ht o * k)) as (r & Hr & Pr & Mr & Wr & Hh).
  rewrite Rabs_right in Wr, Hh by nra.
  assert (K1 : k <= wd s / wd o) by apply Rmin_l.
  assert (K2 : k <= ht s / ht o) by apply Rmin_r.
  assert (E1 : wd s / wd o * wd o = wd s) by (field; lra).
  assert (E2 : ht s / ht o * ht o = ht s) by (field; lra).
  exists r, k. rewrite Hr. split; auto. split; auto. split; auto. split; [lra|]. split; [lra|]. split.
  - apply encloses_mid; auto; nra.
  - unfold k, Rmin in *. destruct (Rle_dec (wd s / wd o) (ht s / ht o)); [left|right]; lra.
Qed.
Lemma fit_box_zero (s o : bbox R) : wd o = 0 \/ ht o = 0 -> box_fit_box s o = Err ZeroDivisionError.
Proof.
  intro H. unfold box_fit_box, box_width, box_height. rnum. fold (wd o) (ht o).
  destruct (Req_dec (wd o) 0) as [->|Hw]; [rewrite pydiv_R0; auto|].
  destruct H as [H|H]; [contradiction|]. rewrite H, pydiv_R by auto. cbn [bind]. rewrite pydiv_R0. auto.
Qed.

(** ** C35 *)
Lemma map_id_of (f : pt -> pt) l : (forall p, f p = p) -> map f l = l.
Proof. intro H. induction l; cbn; congruence. Qed.
(** Bounding box of a list of points moved by p |-> k p + o, k > 0. *)
Lemma tight_map (b : bbox R) (l : list pt) (k : R) (o : pt) : 0 < k -> tight b l ->
  tight (mkBox (padd (pscale k (bmin b)) o) (padd (pscale k (bmax b)) o)) (map (fun p => padd (pscale k p) o) l).
Proof.
  intros Hk ([X1 Y1] & [X2 Y2] & [X3 Y3] & [X4 Y4]).
  cbn [nleb RNum] in *.
  unfold tight, least, greatest, padd, pscale. cbn [bmin bmax vx vy nleb RNum]. rewrite !map_map. cbn [vx vy].
  repeat split.
  - apply in_map_iff in X1. destruct X1 as (q & E & H). apply in_map_iff. exists q. rewrite E; auto.
  - intros y H. apply in_map_iff in H. destruct H as (q & <- & H). specialize (Y1 _ (in_map vx _ _ H)). rbool. nra.
  - apply in_map_iff in X2. destruct X2 as (q & E & H). apply in_map_iff. exists q. rewrite E; auto.
  - intros y H. apply in_map_iff in H. destruct H as (q & <- & H). specialize (Y2 _ (in_map vy _ _ H)). rbool. nra.
  - apply in_map_iff in X3. destruct X3 as (q & E & H). apply in_map_iff. exists q. rewrite E; auto.
  - intros y H. apply in_map_iff in H. destruct H as (q & <- & H). specialize (Y3 _ (in_map vx _ _ H)). rbool. nra.
  - apply in_map_iff in X4. destruct X4 as (q & E & H). apply in_map_iff. exists q. rewrite E; auto.
  - intros y H. apply in_map_iff in H. destruct H as (q & <- & H). specialize (Y4 _ (in_map vy _ _ H)). rbool. nra.
Qed.

Lemma fit_poly_verts (s sb : bbox R) (shape : poly R) : pbbox shape = None -> tight sb (pverts shape) ->
  0 < wd s -> 0 < ht s -> 0 < wd sb -> 0 < ht sb ->
  exists r k, box_fit_poly s shape = Ok r /\ 0 < k /\ k * wd sb <= wd s /\ k * ht sb <= ht s /\
    (k * wd sb = wd s \/ k * ht sb = ht s) /\
    pverts r = map (fun p => padd (pscale k p) (psub (mid s) (mid sb))) (pverts shape).
Proof.
  intros Hn Ht H1 H2 H3 H4.
  assert (Hb : box_from_points (pverts shape) = Ok sb).
  { assert (Hne : pverts shape <> []) by (intro E; rewrite E in Ht; destruct Ht as [[[] _] _]).
    destruct (box_from_points_tight R_ordlaws (pverts shape) Hne (all_ord _)) as (b & Hb & Ht').
    rewrite Hb. f_equal. apply (tight_uniq b sb (pverts shape) (pverts shape)); tauto. }
  unfold box_fit_poly, get_bbox. rewrite Hn, Hb. cbn [fst bind]. rewrite !box_center_R. cbn [bind].
  unfold box_width, box_height. rnum. fold (wd s) (wd sb) (ht s) (ht sb). rewrite !pydiv_R by lra. cbn [bind].
  rewrite pymin_R. set (k := Rmin (wd s / wd sb) (ht s / ht sb)).
  assert (Kp : 0 < k).
  { unfold k. apply Rmin_glb_lt; apply Rdiv_lt_0_compat; auto. }
  assert (K1 : k <= wd s / wd sb) by apply Rmin_l.
  assert (K2 : k <= ht s / ht sb) by apply Rmin_r.
  assert (E1 : wd s / wd sb * wd sb = wd s) by (field; lra).
  assert (E2 : ht s / ht sb * ht sb = ht s) by (field; lra).
  eexists; exists k. split; [reflexivity|]. split; auto. split; [nra|]. split; [nra|]. split.
  - unfold k, Rmin in *. destruct (Rle_dec (wd s / wd sb) (ht s / ht sb)); [left|right]; lra.
  - cbn [poly_mul poly_from_points cleared pverts]. apply map_ext. intro p.
    rewrite aapply_R. unfold img, amul, atranslation, ascale_scalar, vsub, padd, pscale, psub.
    cbn [aa ab ac ad ae af]. rnum. vext; ring.
Qed.

Lemma fit_poly_iff (s sb : bbox R) (shape : poly R) : pbbox shape = None -> tight sb (pverts shape) ->
  0 < wd s -> 0 < ht s -> 0 < wd sb -> 0 < ht sb ->
  exists r rb k, box_fit_poly s shape = Ok r /\ tight rb (pverts r) /\ 0 < k /\
    wd rb = k * wd sb /\ ht rb = k * ht sb /\ wd rb <= wd s /\ ht rb <= ht s /\
    (wd rb = wd s \/ ht rb = ht s) /\
    (mid rb = mid s <-> k = 1 \/ mid sb = porigin) /\
    (mid rb = mid s -> encloses s rb).
Proof.
  intros Hn Ht H1 H2 H3 H4.
  destruct (fit_poly_verts s sb shape Hn Ht H1 H2 H3 H4) as (r & k & Hr & Hk & W & H & Ho & Hv).
  set (o := psub (mid s) (mid sb)) in *.
  set (rb := mkBox (padd (pscale k (bmin sb)) o) (padd (pscale k (bmax sb)) o)).
  exists r, rb, k. split; [exact Hr|]. split; [rewrite Hv; apply tight_map; auto|].
  split; auto.
  assert (EW : wd rb = k * wd sb) by (unfold rb, wd, padd, pscale; cbn [bmin bmax vx vy]; ring).
  assert (EH : ht rb = k * ht sb) by (unfold rb, ht, padd, pscale; cbn [bmin bmax vx vy]; ring).
  rewrite EW, EH. split; [reflexivity|]. split; [reflexivity|]. split; auto. split; auto. split; auto. split.
  - assert (EM : mid rb = padd (pscale k (mid sb)) o).
    { unfold rb, mid, padd, pscale; cbn [bmin bmax vx vy]; vext; field. }
    rewrite EM. unfold o. generalize (mid sb) as c, (mid s) as d. intros [c1 c2] [d1 d2].
    unfold padd, pscale, psub, porigin; cbn [vx vy]. split.
    + intro E. apply mkV_inj in E. destruct E as [E1 E2].
      destruct (Req_dec k 1) as [|Hk1]; auto. right. vext; nra.
    + intros [->|E]; [vext; ring|]. apply mkV_inj in E. destruct E as [-> ->]. vext; ring.
  - intro E. apply encloses_mid; auto; lra.
Qed.
Lemma tight_of (l : list pt) (b : bbox R) : box_from_points l = Ok b -> tight b l.
Proof.
  intro H. assert (l <> []) by (intros ->; discriminate).
  destruct (box_from_points_tight R_ordlaws l H0 (all_ord l)) as (b' & Hb & Ht). congruence.
Qed.
Definition sq (x y d : R) : list pt := [mkV x y; mkV (x + d) y; mkV (x + d) (y + d); mkV x (y + d)].
Lemma sq_tight (x y d : R) : 0 <= d -> tight (mkBox (mkV x y) (mkV (x + d) (y + d))) (sq x y d).
Proof.
  intro H. unfold tight, least, greatest, sq. cbn [map bmin bmax vx vy In nleb RNum].
  repeat split; auto; intros z Hz; apply Rleb_true; decompose [or] Hz; subst; try lra; contradiction.
Qed.
Lemma fit_poly_bad : exists (s rb : bbox R) (shape r : poly R),
  poly_new (sq 10 10 2) None None = Ok shape /\ 0 < wd s /\ 0 < ht s /\
  box_fit_poly s shape = Ok r /\ tight rb (pverts r) /\ mid rb <> mid s /\
  (forall p, in_closed rb p -> ~ in_closed s p).
Proof.
  set (s := mkBox (mkV 0 0) (mkV 1 1)).
  destruct (poly_new (sq 10 10 2) None None) as [shape|e] eqn:Hs; [|discriminate].
  assert (Hv : pverts shape = sq 10 10 2).
  { unfold poly_new in Hs. cbn [seq_new sq map length Nat.ltb Nat.leb] in Hs.
    change (Ok (cleared (map vec2_of (sq 10 10 2)) None) = Ok shape) in Hs.
    injection Hs as <-. apply (map_vec2_of_R (sq 10 10 2)). }
  assert (Hn : pbbox shape = None) by (change (Ok (cleared (map vec2_of (sq 10 10 2)) None) = Ok shape) in Hs; injection Hs as <-; auto).
  assert (Hws : wd s = 1 /\ ht s = 1) by (unfold wd, ht, s; cbn [bmin bmax vx vy]; lra).
  set (sb := mkBox (mkV 10 10) (mkV (10 + 2) (10 + 2))).
  assert (Hwb : wd sb = 2 /\ ht sb = 2) by (unfold wd, ht, sb; cbn [bmin bmax vx vy]; lra).
  destruct (fit_poly_verts s sb shape Hn) as (r & k & Hr & Hk & W & H & Ho & Hv'); try lra.
  { rewrite Hv. apply sq_tight. lra. }
  destruct Hws as [E1 E2], Hwb as [E3 E4]. rewrite E1, E2, E3, E4 in *.
  assert (k = / 2) by (destruct Ho; lra). subst k.
  exists s. eexists. exists shape, r. split; [reflexivity|]. split; [lra|]. split; [lra|]. split; [exact Hr|].
  split.
  - rewrite Hv', Hv. apply tight_map; [lra|]. apply (sq_tight 10 10 2). lra.
  - unfold mid, padd, pscale, psub, in_closed, s, sb; cbn [bmin bmax vx vy]. split.
    + intro E. apply mkV_inj in E. lra.
    + intros p Hp. lra.
Qed.

(** ** C36, C37 *)
Lemma box_mul_rect (E : R) (b : bbox R) (m : affine R) : is_rectilinear E m = true ->
  exists r, box_mul E b m = Ok (IsBox r) /\ tight r [img m (bmin b); img m (bmax b)].
Proof.
  intro H. unfold box_mul. rewrite H, !aapply_R.
  destruct (box_from_points_tight R_ordlaws [img m (bmin b); img m (bmax b)]) as (r & Hr & Ht).
  - discriminate.
  - apply all_ord.
  - rewrite Hr. cbn [bind]. eauto.
Qed.
Definition exactly_rectilinear (m : affine R) : Prop :=
  (ab m = 0 /\ ad m = 0) \/ (aa m = 0 /\ ae m = 0).
Lemma is_rect_iff (E : R) (m : affine R) : is_rectilinear E m = true <->
  (Rabs (aa m) < E /\ Rabs (ae m) < E) \/ (Rabs (ad m) < E /\ Rabs (ab m) < E).
Proof.
  unfold is_rectilinear. rnum. rewrite orb_true_iff, !andb_true_iff, !Rltb_true. tauto.
Qed.
Lemma mul_le_pos (a x y : R) : 0 < a -> x * a <= y * a -> x <= y.
Proof. intros H1 H2. apply (Rmult_le_reg_r a); auto. Qed.
Lemma mul_le_neg (a x y : R) : a < 0 -> x * a <= y * a -> y <= x.
Proof. intros H1 H2. apply (Rmult_le_reg_r (- a)); lra. Qed.
Lemma interval_image (a c x0 x1 z : R) : x0 <= x1 ->
  (Rmin (x0 * a + c) (x1 * a + c) <= z <= Rmax (x0 * a + c) (x1 * a + c) <->
   exists x, x0 <= x <= x1 /\ z = x * a + c).
Proof.
  intro H. unfold Rmin, Rmax. split.
  - intro Hz. destruct (Req_dec a 0) as [->|Ha].
    + exists x0. split; [lra|]. destruct (Rle_dec (x0 * 0 + c) (x1 * 0 + c)); lra.
    + exists ((z - c) / a). split; [|field; auto].
      assert (Ez : z = (z - c) / a * a + c) by (field; auto). revert Ez. generalize ((z - c) / a). intros t ->.
      destruct (Rtotal_order a 0) as [Hn|[|Hp]]; [| contradiction|].
      * assert (x1 * a <= x0 * a) by nra.
        destruct (Rle_dec (x0 * a + c) (x1 * a + c)); split; apply (mul_le_neg a); lra.
      * assert (x0 * a <= x1 * a) by nra.
        destruct (Rle_dec (x0 * a + c) (x1 * a + c)); split; apply (mul_le_pos a); lra.
  - intros (x & Hx & ->). destruct (Rle_dec 0 a).
    + assert (x0 * a <= x * a <= x1 * a) by (split; apply Rmult_le_compat_r; lra).
      destruct (Rle_dec (x0 * a + c) (x1 * a + c)); lra.
    + assert (x1 * a <= x * a <= x0 * a) by (split; apply Rmult_le_compat_neg_l with (r := a) in H; nra).
      destruct (Rle_dec (x0 * a + c) (x1 * a + c)); lra.
Qed.
Lemma box_mul_exact (E : R) (b : bbox R) (m : affine R) : 0 < E -> proper b -> exactly_rectilinear m ->
  exists r, box_mul E b m = Ok (IsBox r) /\ proper r /\
    forall q, in_closed r q <-> exists p, in_closed b p /\ q = img m p.
Proof.
  intros HE [Px Py] Hm.
  assert (Hr : is_rectilinear E m = true).
  { apply is_rect_iff. destruct Hm as [[-> ->]|[-> ->]]; rewrite Rabs_R0; auto. }
  unfold box_mul. rewrite Hr, !aapply_R, box_two. cbn [bind]. eexists; split; [reflexivity|]. split.
  - unfold proper; cbn [bmin bmax vx vy]. split; (eapply Rle_trans; [apply Rmin_l|apply Rmax_l]).
  - intro q. unfold in_closed, img; cbn [bmin bmax vx vy].
    destruct Hm as [[-> ->]|[-> ->]].
    + replace (vx (bmin b) * aa m + vy (bmin b) * 0 + ac m) with (vx (bmin b) * aa m + ac m) by ring.
      replace (vx (bmax b) * aa m + vy (bmax b) * 0 + ac m) with (vx (bmax b) * aa m + ac m) by ring.
      replace (vx (bmin b) * 0 + vy (bmin b) * ae m + af m) with (vy (bmin b) * ae m + af m) by ring.
      replace (vx (bmax b) * 0 + vy (bmax b) * ae m + af m) with (vy (bmax b) * ae m + af m) by ring.
      rewrite !interval_image by auto. split.
      * intros [(x & Hx & Ex) (y & Hy & Ey)]. exists (mkV x y). cbn [vx vy]. split; auto. vext; lra.
      * intros (p & [Hx Hy] & ->). cbn [vx vy]. split; [exists (vx p)|exists (vy p)]; split; auto; ring.
    + replace (vx (bmin b) * 0 + vy (bmin b) * ad m + ac m) with (vy (bmin b) * ad m + ac m) by ring.
      replace (vx (bmax b) * 0 + vy (bmax b) * ad m + ac m) with (vy (bmax b) * ad m + ac m) by ring.
      replace (vx (bmin b) * ab m + vy (bmin b) * 0 + af m) with (vx (bmin b) * ab m + af m) by ring.
      replace (vx (bmax b) * ab m + vy (bmax b) * 0 + af m) with (vx (bmax b) * ab m + af m) by ring.
      rewrite !interval_image by auto. split.
      * intros [(y & Hy & Ey) (x & Hx & Ex)]. exists (mkV x y). cbn [vx vy]. split; auto. vext; lra.
      * intros (p & [Hx Hy] & ->). cbn [vx vy]. split; [exists (vy p)|exists (vx p)]; split; auto; ring.
Qed.
Lemma split_ok {T} {N : Num T} (vs : list (vec T)) : vs <> [] -> exists pl, split_y_polylines vs = Ok pl.
Proof.
  intro H. destruct vs as [|v vs]; [congruence|]. unfold split_y_polylines, find_extrema. cbn [bind].
  match goal with |- context [if ?c then (if _ then Ok _ else Ok _) else _] => destruct c end;
  match goal with |- context [if ?c then Ok _ else Ok _] => destruct c end; eauto.
Qed.
Lemma box_mul_poly (E : R) (b : bbox R) (m : affine R) : is_rectilinear E m = false ->
  exists p, box_mul E b m = Ok (IsPoly p) /\
    pverts p = map (img m) [bmin b; mkV (vx (bmin b)) (vy (bmax b)); bmax b; mkV (vx (bmax b)) (vy (bmin b))].
Proof.
  intro H. unfold box_mul. rewrite H. unfold box_to_polygon, poly_new, seq_new.
  set (vs := [bmin b; mkV (vx (bmin b)) (vy (bmax b)); bmax b; mkV (vx (bmax b)) (vy (bmin b))]).
  rewrite map_vec2_of_R. cbn [length vs Nat.ltb Nat.leb cleared pconvex psimple andb].
  fold vs. destruct (split_y_polylines vs) as [pl|e] eqn:Hp.
  - cbn [bind]. eexists; split; [reflexivity|]. cbn [poly_imul cleared pverts].
    rewrite itransform_R. auto.
  - destruct (split_ok vs) as [pl Hpl]; [discriminate|congruence].
Qed.
Lemma near1 (a d u v w h E M : R) : 0 <= u <= w -> 0 <= v <= h -> Rabs a < E -> w <= M ->
  Rmin 0 (w * a + h * d) - E * M <= u * a + v * d <= Rmax 0 (w * a + h * d) + E * M.
Proof.
  intros Hu Hv Ha HM. apply Rabs_lt_iff in Ha.
  assert (HE : 0 < E) by lra.
  assert (0 <= E * (M - w)) by nra.
  assert (A1 : - (E * w) <= u * a <= E * w) by (split; nra).
  assert (A2 : - (E * w) <= (w - u) * a <= E * w) by (split; nra).
  pose proof (Rmin_l 0 (w * a + h * d)). pose proof (Rmin_r 0 (w * a + h * d)).
  pose proof (Rmax_l 0 (w * a + h * d)). pose proof (Rmax_r 0 (w * a + h * d)).
  destruct (Rle_dec 0 d); split; nra.
Qed.
Lemma Rmin_shift (b c : R) : Rmin c (c + b) = c + Rmin 0 b.
Proof. unfold Rmin. destruct (Rle_dec c (c + b)), (Rle_dec 0 b); lra. Qed.
Lemma Rmax_shift (b c : R) : Rmax c (c + b) = c + Rmax 0 b.
Proof. unfold Rmax. destruct (Rle_dec c (c + b)), (Rle_dec 0 b); lra. Qed.
Lemma box_mul_near (E : R) (b r : bbox R) (m : affine R) (p : pt) : proper b ->
  box_mul E b m = Ok (IsBox r) -> in_closed b p ->
  let s := E * Rmax (wd b) (ht b) in
  vx (bmin r) - s <= vx (img m p) <= vx (bmax r) + s /\ vy (bmin r) - s <= vy (img m p) <= vy (bmax r) + s.
Proof.
  intros [Px Py] Hr [Hx Hy] s.
  destruct (is_rectilinear E m) eqn:HR.
  2:{ destruct (box_mul_poly E b m HR) as (q & Hq & _). congruence. }
  unfold box_mul in Hr. rewrite HR, !aapply_R, box_two in Hr. cbn [bind] in Hr. injection Hr as <-.
  cbn [bmin bmax vx vy]. unfold img; cbn [vx vy].
  set (u := vx p - vx (bmin b)). set (v := vy p - vy (bmin b)).
  replace (vx (bmax b) * aa m + vy (bmax b) * ad m + ac m) with
    ((vx (bmin b) * aa m + vy (bmin b) * ad m + ac m) + (wd b * aa m + ht b * ad m)) by (unfold wd, ht; ring).
  replace (vx (bmax b) * ab m + vy (bmax b) * ae m + af m) with
    ((vx (bmin b) * ab m + vy (bmin b) * ae m + af m) + (wd b * ab m + ht b * ae m)) by (unfold wd, ht; ring).
  replace (vx p * aa m + vy p * ad m + ac m) with
    ((vx (bmin b) * aa m + vy (bmin b) * ad m + ac m) + (u * aa m + v * ad m)) by (unfold u, v; ring).
  replace (vx p * ab m + vy p * ae m + af m) with
    ((vx (bmin b) * ab m + vy (bmin b) * ae m + af m) + (u * ab m + v * ae m)) by (unfold u, v; ring).
  generalize (vx (bmin b) * aa m + vy (bmin b) * ad m + ac m) as X.
  generalize (vx (bmin b) * ab m + vy (bmin b) * ae m + af m) as Y. intros Y X.
  rewrite !Rmin_shift, !Rmax_shift.
  assert (Hu : 0 <= u <= wd b) by (unfold u, wd; lra).
  assert (Hv : 0 <= v <= ht b) by (unfold v, ht; lra).
  pose proof (Rmax_l (wd b) (ht b)) as M1. pose proof (Rmax_r (wd b) (ht b)) as M2.
  apply is_rect_iff in HR. destruct HR as [[Ha He]|[Hd Hb]].
  - pose proof (near1 (aa m) (ad m) u v _ _ _ _ Hu Hv Ha M1) as N1.
    pose proof (near1 (ae m) (ab m) v u _ _ _ _ Hv Hu He M2) as N2.
    rewrite (Rplus_comm (ht b * ae m)), (Rplus_comm (v * ae m)) in N2.
    fold s in N1, N2. lra.
  - pose proof (near1 (ab m) (ae m) u v _ _ _ _ Hu Hv Hb M1) as N1.
    pose proof (near1 (ad m) (aa m) v u _ _ _ _ Hv Hu Hd M2) as N2.
    rewrite (Rplus_comm (ht b * ad m)), (Rplus_comm (v * ad m)) in N2.
    fold s in N1, N2. lra.
Qed.
Lemma box_mul_misses (E : R) : 0 < E < 1 -> exists (b r : bbox R) (m : affine R) (p : pt), proper b /\
  is_rectilinear E m = true /\ box_mul E b m = Ok (IsBox r) /\ in_closed b p /\
  vx (bmax r) + E < vx (img m p).
Proof.
  intro HE. set (b := mkBox (mkV 0 0) (mkV 2 4)). set (m := mkA 1 0 0 (- (E / 2)) 1 0).
  assert (HR : is_rectilinear E m = true).
  { apply is_rect_iff. right. unfold m; cbn [ad ab]. rewrite Rabs_Ropp, Rabs_R0, Rabs_right; lra. }
  exists b. eexists. exists m, (mkV 2 0). split; [unfold proper, b; cbn [bmin bmax vx vy]; lra|].
  split; auto. split; [unfold box_mul; rewrite HR, !aapply_R, box_two; reflexivity|].
  unfold in_closed, img, b, m; cbn [bmin bmax vx vy aa ab ac ad ae af]. split; [lra|].
  unfold Rmax. destruct (Rle_dec _ _); lra.
Qed.

Lemma Forall2_flip {A B} (P : A -> B -> Prop) l m : Forall2 P l m -> Forall2 (fun b a => P a b) m l.
Proof. induction 1; constructor; auto. Qed.
