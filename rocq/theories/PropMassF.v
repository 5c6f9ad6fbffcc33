(** * Property C103: the centroid on doubles with integer coordinates *)
From Coq Require Import ZArith List Bool Reals Lra Lia Floats SpecFloat.
From Flocq Require Import Core IEEE754.PrimFloat IEEE754.BinarySingleNaN.
From Verif Require Import Num NumFloat Vec Affine Box Seq Polygon Tangent PolyOps SpecPoly SpecGeom SpecMass SpecExact OrdLaws FloatFacts FloatFacts2 FloatFacts3 RelPoly FloatExact
  FloatErr IntExact RBase VecFacts VecFacts2 SpecCycle PolyEq PolyCache PolyCache2 PolyCache3 CentroidFacts PropPoly PropMass PropExact.
Import ListNotations.
Local Open Scope R_scope.

(** ** Spec *)
(** Integer coordinates of magnitude at most [M]. *)
Definition int_coord (M : Z) (x : PrimFloat.float) : Prop :=
  PrimFloat.is_finite x = true /\ exists z, (Z.abs z <= M)%Z /\ toR x = IZR z.
Definition int_point (M : Z) (v : vec PrimFloat.float) : Prop := int_coord M (vx v) /\ int_coord M (vy v).
(** No finite double is closer to the real [x] than [f]. *)
Definition nearest (f : PrimFloat.float) (x : R) : Prop :=
  finite f /\ forall g, finite g -> Rabs (toR f - x) <= Rabs (toR g - x).

(** ** Facts *)
(** [f] and [x] are the same integer of magnitude at most [B]. *)
Definition zz (B : Z) (f : PrimFloat.float) (x : R) : Prop := exists z, isint f z /\ x = IZR z /\ (Z.abs z <= B)%Z.
Lemma zz_add A B f g x y : zz A f x -> zz B g y -> (A + B <= 2 ^ 53)%Z -> zz (A + B) (f + g)%float (x + y).
Proof. intros (z & H1 & -> & H2) (w & K1 & -> & K2) H. exists (z + w)%Z. split; [apply isint_add; auto; lia|]. split; [apply eq_sym, plus_IZR|lia]. Qed.
Lemma zz_sub A B f g x y : zz A f x -> zz B g y -> (A + B <= 2 ^ 53)%Z -> zz (A + B) (f - g)%float (x - y).
Proof. intros (z & H1 & -> & H2) (w & K1 & -> & K2) H. exists (z - w)%Z. split; [apply isint_sub; auto; lia|]. split; [apply eq_sym, minus_IZR|lia]. Qed.
Lemma zz_mul A B f g x y : zz A f x -> zz B g y -> (A * B <= 2 ^ 53)%Z -> zz (A * B) (f * g)%float (x * y).
Proof.
  intros (z & H1 & -> & H2) (w & K1 & -> & K2) H.
  assert (Z.abs (z * w) <= A * B)%Z by (rewrite Z.abs_mul; apply Z.mul_le_mono_nonneg; lia).
  exists (z * w)%Z. split; [apply isint_mul; auto; lia|]. split; [apply eq_sym, mult_IZR|auto].
Qed.
Lemma zz_weak A B f x : zz A f x -> (A <= B)%Z -> zz B f x.
Proof. intros (z & H1 & H2 & H3) H. exists z. repeat split; auto; try apply H1. lia. Qed.
Lemma zz_lit z : (Z.abs z <= 2 ^ 53)%Z -> zz (Z.abs z) (float_of_Z z) (IZR z).
Proof. intro H. exists z. split; [apply isint_of_Z; auto|]. split; [auto|lia]. Qed.
Lemma zz_eq B f x y : zz B f x -> x = y -> zz B f y. Proof. intros H <-. exact H. Qed.

Section Fold.
  Context (L : FloatLib) (M : Z) (HM : (1 <= M)%Z).
  Definition zv2 (B : Z) (v : vec PrimFloat.float) (w : pt) : Prop := zz B (vx v) (vx w) /\ zz B (vy v) (vy w).
  Lemma step_zz (k : Z) a a' b b' c c' cen cen' tot tot' : (0 <= k)%Z -> (24 * M * M * M * (k + 1) <= 2 ^ 53)%Z ->
    zv2 M a a' -> zv2 M b b' -> zv2 M c c' -> zv2 (24 * M * M * M * k) cen cen' -> zz (8 * M * M * k) tot tot' ->
    let '(b1, cen1, tot1) := centroid_step (N := FNum L) a (b, cen, tot) c in
    let '(b2, cen2, tot2) := centroid_step (N := RNum) a' (b', cen', tot') c' in
    b1 = c /\ b2 = c' /\ zv2 (24 * M * M * M * (k + 1)) cen1 cen2 /\ zz (8 * M * M * (k + 1)) tot1 tot2.
  Proof using HM.
    intros Hk HB [A1 A2] [B1 B2] [C1 C2] [E1 E2] Ht.
    assert (Q2 : (M * M <= M * M * M)%Z) by nia. assert (Q1 : (M <= M * M)%Z) by nia.
    assert (Q3 : (24 * M * M * M <= 2 ^ 53)%Z) by nia.
    assert (Q4 : (8 * M * M * (k + 1) <= 24 * M * M * M * (k + 1))%Z) by nia.
    unfold centroid_step, vadd, vscale. cbn [nadd nsub nmul FNum RNum].
    assert (D : forall f g x y, zz M f x -> zz M g y -> zz (2 * M) (f - g)%float (x - y)).
    { intros f g x y H1 H2. eapply zz_weak; [apply (zz_sub M M); auto; lia|lia]. }
    assert (P : forall f g x y, zz (2 * M) f x -> zz (2 * M) g y -> zz (4 * M * M) (f * g)%float (x * y)).
    { intros f g x y H1 H2. eapply zz_weak; [apply (zz_mul (2 * M) (2 * M)); auto; nia|nia]. }
    assert (AR : zz (8 * M * M) ((vx b - vx a) * (vy c - vy a) - (vx c - vx a) * (vy b - vy a))%float ((vx b' - vx a') * (vy c' - vy a') - (vx c' - vx a') * (vy b' - vy a'))).
    { eapply zz_weak; [apply (zz_sub (4 * M * M) (4 * M * M)); auto; nia|nia]. }
    set (ar := ((vx b - vx a) * (vy c - vy a) - (vx c - vx a) * (vy b - vy a))%float) in *. set (ar' := (vx b' - vx a') * (vy c' - vy a') - (vx c' - vx a') * (vy b' - vy a')) in *.
    assert (SU : forall f g h x y z, zz M f x -> zz M g y -> zz M h z -> zz (3 * M) (f + g + h)%float (x + y + z)).
    { intros f g h x y z H1 H2 H3. eapply zz_weak; [apply (zz_add (M + M) M); [apply zz_add; auto; lia|auto|lia]|lia]. }
    assert (TE : forall f g h e x y z e', zz M f x -> zz M g y -> zz M h z -> zz (24 * M * M * M * k) e e' -> zz (24 * M * M * M * (k + 1)) (e + (f + g + h) * ar)%float (e' + (x + y + z) * ar')).
    { intros f g h e x y z e' H1 H2 H3 H4. eapply zz_weak; [apply (zz_add (24 * M * M * M * k) (3 * M * (8 * M * M))); [auto|apply zz_mul; auto; nia|nia]|nia]. }
    clearbody ar ar'.
    split; [reflexivity|]. split; [reflexivity|]. split; [split; cbn [vx vy]; apply TE; auto|].
    eapply zz_weak; [apply (zz_add (8 * M * M * k) (8 * M * M)); auto; nia|nia].
  Qed.
  Lemma fold_zz (l : list (vec PrimFloat.float)) (l' : list pt) : Forall2 (zv2 M) l l' ->
    forall (k : Z) a a' b b' cen cen' tot tot', (0 <= k)%Z -> (24 * M * M * M * (k + Z.of_nat (length l)) <= 2 ^ 53)%Z ->
    zv2 M a a' -> zv2 M b b' -> zv2 (24 * M * M * M * k) cen cen' -> zz (8 * M * M * k) tot tot' ->
    let '(_, cen1, tot1) := fold_left (centroid_step (N := FNum L) a) l (b, cen, tot) in
    let '(_, cen2, tot2) := fold_left (centroid_step (N := RNum) a') l' (b', cen', tot') in
    zv2 (24 * M * M * M * (k + Z.of_nat (length l))) cen1 cen2 /\ zz (8 * M * M * (k + Z.of_nat (length l))) tot1 tot2.
  Proof using HM.
    induction 1 as [|c c' l l' Hc Hl IH]; intros k a a' b b' cen cen' tot tot' Hk HB Ha Hb He Ht.
    - cbn [fold_left length Z.of_nat]. rewrite Z.add_0_r. auto.
    - cbn [fold_left]. cbn [length] in *. rewrite Nat2Z.inj_succ in *.
      assert (Q : (24 * M * M * M * (k + 1) <= 2 ^ 53)%Z) by (eapply Z.le_trans; [|exact HB]; apply Z.mul_le_mono_nonneg_l; [nia|lia]).
      pose proof (step_zz k a a' b b' c c' cen cen' tot tot' Hk Q Ha Hb Hc He Ht) as S1.
      destruct (centroid_step (N := FNum L) a (b, cen, tot) c) as [[b1 cen1] tot1], (centroid_step (N := RNum) a' (b', cen', tot') c') as [[b2 cen2] tot2].
      destruct S1 as (-> & -> & S1 & S2). replace (k + Z.succ (Z.of_nat (length l)))%Z with (k + 1 + Z.of_nat (length l))%Z in * by lia.
      apply IH; auto; lia.
  Qed.
End Fold.

Lemma frnd_nearest f x : finite f -> toR f = frnd x -> nearest f x.
Proof.
  intros Ff Hf. split; [exact Ff|]. intros g Fg. rewrite Hf. unfold frnd. cbn [round_mode].
  destruct (@round_N_pt radix2 (SpecFloat.fexp fprec femax) (fexp_correct fprec femax Hprec) (fun z => negb (Z.even z)) x) as [_ H].
  apply H. apply toR_format.
Qed.

Lemma zz_of M f : int_coord M f -> zz M f (toR f).
Proof. intros (F & z & B & E). exists z. split; [split; auto|]. auto. Qed.
Lemma zv2_of M v : int_point M v -> zv2 M v (vecR v).
Proof. intros [H1 H2]. split; apply zz_of; auto. Qed.

Lemma centroid_value_int (L : FloatLib) (M : Z) (l : list (vec PrimFloat.float)) :
  (1 <= M)%Z -> (24 * M * M * M * Z.of_nat (length l) <= 2 ^ 53)%Z -> (2 <= length l)%nat -> Forall (int_point M) l ->
  (area2 (map vecR l) = 0 -> centroid_value (N := FNum L) l = Err ZeroDivisionError) /\
  (area2 (map vecR l) <> 0 -> exists c, centroid_value (N := FNum L) l = Ok c /\
     nearest (vx c) (vx (mass_centre (map vecR l))) /\ nearest (vy c) (vy (mass_centre (map vecR l)))).
Proof.
  intros HM HB HL Hi. pose proof (centroid_value_R (map vecR l)) as HR. rewrite map_length in HR. specialize (HR HL).
  destruct l as [|a [|b l]]; cbn [length] in HL; try lia. inversion Hi as [|? ? Ha Hi']; subst. inversion Hi' as [|? ? Hb Hl]; subst. clear Hi Hi'.
  cbn [map centroid_value] in HR |- *. unfold centroid_value.
  assert (HB' : (24 * M * M * M * (0 + Z.of_nat (length l)) <= 2 ^ 53)%Z).
  { eapply Z.le_trans; [|exact HB]. apply Z.mul_le_mono_nonneg_l; [nia|]. cbn [length]. lia. }
  assert (Hl' : Forall2 (zv2 M) l (map vecR l)) by (clear - Hl; induction Hl; cbn; constructor; auto; apply zv2_of; auto).
  assert (Z0 : zz 0 0%float 0) by (apply (zz_lit 0); lia).
  pose proof (fold_zz L M HM l (map vecR l) Hl' 0 a (vecR a) b (vecR b) (vec2 (N := FNum L) (n0 (N := FNum L)) (n0 (N := FNum L))) (vec2 (N := RNum) (n0 (N := RNum)) (n0 (N := RNum))) (n0 (N := FNum L)) (n0 (N := RNum)) ltac:(lia) HB' (zv2_of _ _ Ha) (zv2_of _ _ Hb)) as F.
  assert (I1 : zv2 (24 * M * M * M * 0) (vec2 (N := FNum L) (n0 (N := FNum L)) (n0 (N := FNum L))) (vec2 (N := RNum) (n0 (N := RNum)) (n0 (N := RNum)))).
  { assert (Z0' : zz (24 * M * M * M * 0) 0%float (0 * 1)) by (eapply zz_weak; [eapply zz_eq; [exact Z0|ring]|lia]). split; exact Z0'. }
  assert (I2 : zz (8 * M * M * 0) (n0 (N := FNum L)) (n0 (N := RNum))) by (eapply zz_weak; [exact Z0|lia]).
  specialize (F I1 I2). clear I1 I2.
  destruct (fold_left (centroid_step (N := FNum L) a) l _) as [[b1 cen1] tot1].
  unfold centroid_value in HR. destruct (fold_left (centroid_step (N := RNum) (vecR a)) (map vecR l) _) as [[b2 cen2] tot2].
  destruct F as [[F1 F2] F3].
  set (k := (0 + Z.of_nat (length l))%Z) in *.
  assert (T3 : zz (3 * (8 * M * M * k)) (float_of_Z 3 * tot1)%float (3 * tot2)).
  { assert (M * M <= M * M * M)%Z by nia. apply zz_mul; [apply (zz_lit 3); lia|exact F3|]. assert (0 <= k)%Z by (unfold k; lia). nia. }
  change (nmul (Num := FNum L) n3 tot1) with (float_of_Z 3 * tot1)%float.
  change (nmul (Num := RNum) n3 tot2) with (3 * tot2) in HR.
  set (d := (float_of_Z 3 * tot1)%float) in *. set (e := 3 * tot2) in *. clearbody d e.
  destruct T3 as (z & Iz & -> & _). unfold vdivs, pydiv in *.
  change (neqb (Num := FNum L) d n0) with (PrimFloat.eqb d (float_of_Z 0)). rewrite (isint_eqb d (float_of_Z 0) z 0 Iz (isint_of_Z 0 ltac:(lia))).
  change (neqb (Num := RNum) (IZR z) n0) with (Reqb (IZR z) 0) in HR.
  destruct (Reqb_spec (IZR z) 0) as [Ez|Ez]; [apply eq_IZR in Ez; subst z|].
  - cbn [Z.eqb bind] in *. cbn [bind]. destruct (Req_EM_T (area2 (vecR a :: vecR b :: map vecR l)) 0); [|discriminate HR]. split; [auto|congruence].
  - assert (Nz : z <> 0%Z) by (intros ->; auto). apply Z.eqb_neq in Nz. rewrite Nz. apply Z.eqb_neq in Nz.
    cbn [bind] in *. destruct (Req_EM_T (area2 (vecR a :: vecR b :: map vecR l)) 0); [discriminate HR|]. apply (f_equal (fun r => match r with Ok v => v | Err _ => mkV 0 0 end)) in HR. cbv beta iota in HR. split; [congruence|]. intros _.
    eexists. split; [reflexivity|]. rewrite <- HR. cbn [vx vy ndiv FNum].
    assert (G : forall f x, zz (24 * M * M * M * k) f x -> nearest (f / d)%float (x / IZR z)).
    { intros f x (w & [Fw Vw] & -> & Bw). destruct Iz as [Fd Vd].
      assert (HH : Rabs (toR f / toR d) <= huge).
      { rewrite Vw, Vd. unfold Rdiv. rewrite Rabs_mult, <- abs_IZR. 
        assert (K1 : IZR (Z.abs w) <= bpow radix2 53). { rewrite <- (IZR_Zpower radix2) by lia. apply IZR_le. change (radix2 ^ 53)%Z with (2 ^ 53)%Z. lia. }
        assert (K2 : 0 <= Rabs (/ IZR z) <= 1).
        { split; [apply Rabs_pos|]. rewrite Rabs_inv, <- abs_IZR. rewrite <- Rinv_1. apply Rinv_le_contravar; [lra|]. apply IZR_le. lia. }
        assert (K3 : bpow radix2 53 <= huge) by (unfold huge; apply bpow_le; lia).
        assert (K4 : 0 <= IZR (Z.abs w)) by (apply IZR_le; lia).
        apply Rle_trans with (IZR (Z.abs w) * 1); [apply Rmult_le_compat_l; lra|lra]. }
      destruct (fdiv_toR f d Fw ltac:(rewrite Vd; exact Ez) HH) as [F1' V1]. apply frnd_nearest; [exact F1'|]. rewrite V1, Vw, Vd. reflexivity. }
    split; apply G; auto.
Qed.

(** A bound on all vertices is a bound on the centre of mass of a convex
    polygon. *)
Lemma mass_bounds (l : list pt) : (2 <= length l)%nat -> area2 l <> 0 -> convex_ccw l \/ convex_cw l ->
  forall k, ((forall v, In v l -> k <= vx v) -> k <= vx (mass_centre l)) /\ ((forall v, In v l -> vx v <= k) -> vx (mass_centre l) <= k) /\
            ((forall v, In v l -> k <= vy v) -> k <= vy (mass_centre l)) /\ ((forall v, In v l -> vy v <= k) -> vy (mass_centre l) <= k).
Proof.
  intros HL HA HC k.
  assert (W : forall l, (2 <= length l)%nat -> area2 l <> 0 -> convex_ccw l ->
    forall k s, ((forall v, In v l -> s * k <= s * vx v) -> s * k <= s * vx (mass_centre l)) /\ ((forall v, In v l -> s * k <= s * vy v) -> s * k <= s * vy (mass_centre l))).
  { clear. intros l HL HA HC k s. destruct l as [|a [|b l]]; cbn in HL; try lia.
    assert (Hp : forall p q, In (p, q) (adj b l) -> 0 <= orient a p q).
    { intros p q H. replace (orient a p q) with (orient p q a) by (ug; ring). apply HC; [apply adj_in_cyc; auto|cbn; auto]. }
    assert (HA' : 0 < area2 (a :: b :: l)). { rewrite area2_fan in *. assert (0 <= fan (orient a) b l) by (apply fan_nonneg; auto). lra. }
    assert (Hin : forall p q, In (p, q) (adj b l) -> In p (a :: b :: l) /\ In q (a :: b :: l)). { intros. apply cyc_in_l, adj_in_cyc; auto. }
    split; intro H; unfold mass_centre; cbn [vx vy];
      [rewrite momentx_fan; set (w := fun p q => orient a p q * (vx a + vx p + vx q))|rewrite momenty_fan; set (w := fun p q => orient a p q * (vy a + vy p + vy q))].
    - assert (F : 0 <= fan (fun p q => s * w p q + (- (3 * s * k)) * orient a p q + 0 * w p q) b l).
      { apply fan_nonneg. intros p q I. destruct (Hin _ _ I) as [I1 I2]. pose proof (Hp _ _ I). pose proof (H a ltac:(cbn; auto)). pose proof (H _ I1). pose proof (H _ I2).
        replace (s * w p q + (- (3 * s * k)) * orient a p q + 0 * w p q) with (orient a p q * ((s * vx a - s * k) + (s * vx p - s * k) + (s * vx q - s * k))) by (unfold w; ring).
        apply Rmult_le_pos; lra. }
      rewrite fan_lin, <- area2_fan in F. apply (Rmult_le_reg_l (3 * area2 (a :: b :: l))); [lra|].
      replace (3 * area2 (a :: b :: l) * (s * (fan w b l / (3 * area2 (a :: b :: l))))) with (s * fan w b l) by (field; lra). lra.
    - assert (F : 0 <= fan (fun p q => s * w p q + (- (3 * s * k)) * orient a p q + 0 * w p q) b l).
      { apply fan_nonneg. intros p q I. destruct (Hin _ _ I) as [I1 I2]. pose proof (Hp _ _ I). pose proof (H a ltac:(cbn; auto)). pose proof (H _ I1). pose proof (H _ I2).
        replace (s * w p q + (- (3 * s * k)) * orient a p q + 0 * w p q) with (orient a p q * ((s * vy a - s * k) + (s * vy p - s * k) + (s * vy q - s * k))) by (unfold w; ring).
        apply Rmult_le_pos; lra. }
      rewrite fan_lin, <- area2_fan in F. apply (Rmult_le_reg_l (3 * area2 (a :: b :: l))); [lra|].
      replace (3 * area2 (a :: b :: l) * (s * (fan w b l / (3 * area2 (a :: b :: l))))) with (s * fan w b l) by (field; lra). lra. }
  assert (U : forall s, ((forall v, In v l -> s * k <= s * vx v) -> s * k <= s * vx (mass_centre l)) /\ ((forall v, In v l -> s * k <= s * vy v) -> s * k <= s * vy (mass_centre l))).
  { intro s. destruct HC as [HC|HC]; [apply W; auto|]. rewrite <- (mass_rev l).
    destruct (W (rev l)) with (k := k) (s := s) as [W1 W2]; [rewrite rev_length; auto|rewrite area2_rev; lra| |].
    - intros p q v Hpq Hv. apply (Permutation.Permutation_in _ (cyc_rev l)) in Hpq. apply in_map_iff in Hpq. destruct Hpq as ([p' q'] & E & Hpq). injection E as <- <-.
      apply in_rev in Hv. pose proof (HC _ _ _ Hpq Hv) as H. revert H. ug. cbn. lra.
    - split; intro H; [apply W1|apply W2]; intros v Hv; apply H, in_rev, Hv. }
  destruct (U 1) as [U1 U2], (U (-1)) as [U3 U4].
  repeat split; intro H.
  - assert (1 * k <= 1 * vx (mass_centre l)); [apply U1; intros v Hv; specialize (H v Hv); lra|lra].
  - assert (-1 * k <= -1 * vx (mass_centre l)); [apply U3; intros v Hv; specialize (H v Hv); lra|lra].
  - assert (1 * k <= 1 * vy (mass_centre l)); [apply U2; intros v Hv; specialize (H v Hv); lra|lra].
  - assert (-1 * k <= -1 * vy (mass_centre l)); [apply U4; intros v Hv; specialize (H v Hv); lra|lra].
Qed.
(** A finite double on one side of a real bounds its nearest double. *)
Lemma nearest_ge f x g : nearest f x -> finite g -> toR g <= x -> toR g <= toR f.
Proof. intros [_ H] Fg Hg. specialize (H g Fg). destruct (Rle_lt_dec (toR g) (toR f)) as [|K]; auto. revert H. unfold Rabs. repeat destruct Rcase_abs; lra. Qed.
Lemma nearest_le f x g : nearest f x -> finite g -> x <= toR g -> toR f <= toR g.
Proof. intros [_ H] Fg Hg. specialize (H g Fg). destruct (Rle_lt_dec (toR f) (toR g)) as [|K]; auto. revert H. unfold Rabs. repeat destruct Rcase_abs; lra. Qed.

(** ** C103 *)
(** Whatever was done with the polygon before. *)
Theorem C103_nearest : forall (L : FloatLib) (M : Z) (vs : list (vec PrimFloat.float)) (os : list (pop PrimFloat.float)),
  let N := FNum L in let p := prun (poly_from_points vs) os in let l := map vecR (pverts p) in
  (2 <= length l)%nat -> (1 <= M)%Z -> (24 * M ^ 3 * Z.of_nat (length l) <= 2 ^ 53)%Z -> Forall (int_point M) (pverts p) ->
  (fst (get_is_simple p) = Ok false -> fst (get_centroid p) = Ok None) /\
  (fst (get_is_simple p) = Ok true -> area2 l = 0 -> fst (get_centroid p) = Err ZeroDivisionError) /\
  (fst (get_is_simple p) = Ok true -> area2 l <> 0 -> exists c, fst (get_centroid p) = Ok (Some c) /\
     nearest (vx c) (vx (mass_centre l)) /\ nearest (vy c) (vy (mass_centre l))).
Proof.
  intros L M vs os N p l HL HM HB HI. unfold l in HL, HB. rewrite map_length in HL, HB.
  assert (Hp : coh p) by (apply prun_coh, coh_cleared).
  assert (Q : forall b, fst (get_is_simple p) = Ok b -> fst (get_centroid p) = if b then rmap Some (centroid_value (pverts p)) else Ok None).
  { intros b Hb. destruct (read_centroid p Hp) as [-> _]. destruct (read_simple p Hp) as [Hs _]. rewrite Hb in Hs.
    unfold get_centroid. assert (E : pcentroid (pfresh (pverts p)) = None) by reflexivity. rewrite E.
    assert (Hv : pverts (snd (get_is_simple (pfresh (pverts p)))) = pverts p) by (rewrite simple_verts; reflexivity).
    destruct (get_is_simple (pfresh (pverts p))) as [r p1]. cbn [fst snd] in *. subst r. destruct b; auto.
    rewrite Hv. destruct (centroid_value (pverts p)); reflexivity. }
  assert (HB' : (24 * M * M * M * Z.of_nat (length (pverts p)) <= 2 ^ 53)%Z) by (replace (24 * M * M * M)%Z with (24 * M ^ 3)%Z by ring; exact HB).
  destruct (centroid_value_int L M (pverts p) HM HB' HL HI) as [V1 V2]. fold l N in V1, V2.
  split; [intro H; rewrite (Q _ H); reflexivity|]. split; intros H A; rewrite (Q _ H).
  - rewrite (V1 A). reflexivity.
  - destruct (V2 A) as (c & -> & K). exists c. split; [reflexivity|exact K].
Qed.
Print Assumptions C103_nearest.

(** Exact arithmetic on the same polygon has the same kind of outcome. *)
Theorem C103_same_outcome : forall (L : FloatLib) (M : Z) (vs : list (vec PrimFloat.float)) (os : list (pop PrimFloat.float)),
  let N := FNum L in let p := prun (poly_from_points vs) os in let q := poly_from_points (map vecR (pverts p)) in
  (4 <= length (pverts p))%nat -> (1 <= M)%Z -> (24 * M ^ 3 * Z.of_nat (length (pverts p)) <= 2 ^ 53)%Z -> Forall (int_point M) (pverts p) ->
  match fst (get_centroid p), fst (get_centroid q) with
  | Ok (Some c), Ok (Some x) => nearest (vx c) (vx x) /\ nearest (vy c) (vy x)
  | Ok None, Ok None => True
  | Err e, Err e' => e = ZeroDivisionError /\ e' = ZeroDivisionError
  | _, _ => False
  end.
Proof.
  intros L M vs os N p q HL HM HB HI.
  assert (B : (M <= 2 ^ 25)%Z) by nia.
  assert (G : Forall (vec_on_grid 0) (pverts p)).
  { eapply Forall_impl; [|exact HI]. intros v [(F1 & z1 & B1 & E1) (F2 & z2 & B2 & E2)]. split; (split; [assumption|]); [exists z1|exists z2]; (split; [lia|]); cbn [bpow]; lra. }
  pose proof (grid_from_points L 0 (pverts p) [] ltac:(lia) G HL (Forall_nil _)) as RP. cbv zeta in RP. cbn [prun map fold_left] in RP. fold N q in RP.
  assert (ES : fst (get_is_simple p) = fst (get_is_simple q)).
  { destruct (read_simple p (prun_coh _ _ (coh_cleared _ _))) as [-> _]. change (pfresh (pverts p)) with (poly_from_points (pverts p)).
    apply rres_eq, (r_get_simple (grid 0) (grid_laws L 0 ltac:(lia) ltac:(lia)) _ _ RP). }
  destruct (C103_nearest L M vs os) as (C1 & C2 & C3); try (rewrite map_length); auto; [fold N p; lia|]. fold N p in C1, C2, C3.
  assert (HL2 : (2 <= length (pverts (prun q [])))%nat) by (cbn; rewrite map_length; lia).
  destruct (centroid_answer (map vecR (pverts p)) [] HL2) as (b & Hb & Hc). change (prun (poly_from_points (map vecR (pverts p))) []) with q in Hb, Hc. change (pverts q) with (map vecR (pverts p)) in Hc.
  rewrite <- ES in Hb. rewrite Hc. destruct b.
  - destruct (Req_EM_T (area2 (map vecR (pverts p))) 0) as [E|E].
    + rewrite (C2 Hb E). auto.
    + destruct (C3 Hb E) as (c & -> & K). exact K.
  - rewrite (C1 Hb). exact I.
Qed.
Print Assumptions C103_same_outcome.

(** The centroid of a convex polygon is in its bounding box. *)
Definition in_box (c : vec PrimFloat.float) (l : list (vec PrimFloat.float)) : Prop :=
  (exists v, In v l /\ toR (vx v) <= toR (vx c)) /\ (exists v, In v l /\ toR (vx c) <= toR (vx v)) /\
  (exists v, In v l /\ toR (vy v) <= toR (vy c)) /\ (exists v, In v l /\ toR (vy c) <= toR (vy v)).
Theorem C103_in_box_partial : forall (L : FloatLib) (M : Z) (vs : list (vec PrimFloat.float)) (os : list (pop PrimFloat.float)),
  let N := FNum L in let p := prun (poly_from_points vs) os in let l := map vecR (pverts p) in
  (2 <= length l)%nat -> (1 <= M)%Z -> (24 * M ^ 3 * Z.of_nat (length l) <= 2 ^ 53)%Z -> Forall (int_point M) (pverts p) ->
  convex_ccw l \/ convex_cw l ->
  forall c, fst (get_centroid p) = Ok (Some c) -> in_box c (pverts p).
Proof.
  intros L M vs os N p l HL HM HB HI HC c Hc.
  destruct (C103_nearest L M vs os HL HM HB HI) as (C1 & C2 & C3). fold N p l in C1, C2, C3.
  assert (HL' : (2 <= length (pverts p))%nat) by (unfold l in HL; rewrite map_length in HL; exact HL).
  destruct (is_simple_total p HL') as [b Hb]. destruct b; [|rewrite (C1 Hb) in Hc; discriminate].
  destruct (Req_EM_T (area2 l) 0) as [E|E]; [rewrite (C2 Hb E) in Hc; discriminate|].
  destruct (C3 Hb E) as (c' & Hc' & Nx & Ny). rewrite Hc' in Hc. injection Hc as ->.
  assert (FI : forall v, In v (pverts p) -> finite (vx v) /\ finite (vy v)).
  { intros v Hv. rewrite Forall_forall in HI. destruct (HI v Hv) as [[F1 _] [F2 _]]. auto. }
  (* otherwise every vertex is strictly on one side *)
  assert (EX : forall f : pt -> R, (exists v, In v l /\ forall w, In w l -> f v <= f w)).
  { intro f. clear - HL. destruct l as [|a l]; [cbn in HL; lia|]. clear HL. revert a. induction l as [|b l IH]; intro a.
    - exists a. split; [left; auto|]. intros w [<-|[]]. lra.
    - destruct (IH b) as (v & Iv & Mv). destruct (Rle_lt_dec (f a) (f v)).
      + exists a. split; [left; auto|]. intros w [<-|Hw]; [lra|]. specialize (Mv w Hw). lra.
      + exists v. split; [right; auto|]. intros w [<-|Hw]; [lra|]. auto. }
  assert (GO : forall f : pt -> R, exists v, In v (pverts p) /\ forall w, In w l -> f (vecR v) <= f w).
  { intro f. destruct (EX f) as (v & Iv & Mv). unfold l in Iv. apply in_map_iff in Iv. destruct Iv as (v0 & <- & I0). eauto. }
  split; [|split; [|split]].
  - destruct (GO vx) as (v & Iv & Mv). exists v. split; auto. destruct (mass_bounds l HL E HC (toR (vx v))) as (K & _ & _ & _). apply (nearest_ge _ _ _ Nx); [apply FI; auto|apply K, Mv].
  - destruct (GO (fun v => - vx v)) as (v & Iv & Mv). exists v. split; auto. destruct (mass_bounds l HL E HC (toR (vx v))) as (_ & K & _ & _). apply (nearest_le _ _ _ Nx); [apply FI; auto|apply K].
    intros w Hw. specialize (Mv w Hw). cbn in Mv. lra.
  - destruct (GO vy) as (v & Iv & Mv). exists v. split; auto. destruct (mass_bounds l HL E HC (toR (vy v))) as (_ & _ & K & _). apply (nearest_ge _ _ _ Ny); [apply FI; auto|apply K, Mv].
  - destruct (GO (fun v => - vy v)) as (v & Iv & Mv). exists v. split; auto. destruct (mass_bounds l HL E HC (toR (vy v))) as (_ & _ & _ & K). apply (nearest_le _ _ _ Ny); [apply FI; auto|apply K].
    intros w Hw. specialize (Mv w Hw). cbn in Mv. lra.
Qed.
Print Assumptions C103_in_box_partial.

(** Farther from the origin it need not be: a convex quadrilateral whose
    integer vertices are exact doubles, with the centroid to the right of all
    of them. *)
Definition fz (p : Z * Z) : vec PrimFloat.float := mkV (float_of_Z (fst p)) (float_of_Z (snd p)).
Lemma of_Z_R z : (Z.abs z <= 2 ^ 53)%Z -> toR (float_of_Z z) = IZR z.
Proof. intro H. apply isint_of_Z, H. Qed.
Theorem C103_in_box_refuted : forall L : FloatLib, let N := FNum L in
  let l := [(7000000000000001, 1); (7000000000000002, 0); (7000000000000002, 7); (7000000000000000, 3)]%Z in
  let p := poly_from_points (map fz l) in
  Forall (fun z => (Z.abs (fst z) <= 2 ^ 53 /\ Z.abs (snd z) <= 2 ^ 53)%Z) l /\
  Forall2 (fun v z => toR (vx v) = IZR (fst z) /\ toR (vy v) = IZR (snd z)) (map fz l) l /\
  fst (get_is_convex p) = Ok true /\ fst (get_is_simple p) = Ok true /\
  exists c, fst (get_centroid p) = Ok (Some c) /\ forall v, In v (map fz l) -> toR (vx v) < toR (vx c).
Proof.
  intros L N l p. assert (A : Forall (fun z => (Z.abs (fst z) <= 2 ^ 53 /\ Z.abs (snd z) <= 2 ^ 53)%Z) l) by (repeat (apply Forall_cons; [cbn; lia|]); apply Forall_nil).
  assert (B : Forall2 (fun v z => toR (vx v) = IZR (fst z) /\ toR (vy v) = IZR (snd z)) (map fz l) l).
  { clear - A. induction A as [|z l [A1 A2] A IH]; cbn [map]; constructor; auto. split; apply isint_of_Z; auto. }
  split; [exact A|]. split; [exact B|]. split; [vm_compute; reflexivity|]. split; [vm_compute; reflexivity|].
  assert (C : fst (get_centroid p) = Ok (Some (mkV (float_of_Z 7000000000000003) 0x1.999999999999ap+1%float))) by (vm_compute; reflexivity).
  rewrite C. clear C. eexists. split; [reflexivity|]. cbn [vx].
  destruct (isint_of_Z 7000000000000003 ltac:(lia)) as [_ ->]. intros v Hv. unfold l in Hv. cbn [map In fz fst snd] in Hv.
  repeat (destruct Hv as [<-|Hv]); [| | | |destruct Hv]; unfold fz; cbn [vx fst snd]; rewrite of_Z_R by lia; apply IZR_lt; lia.
Qed.
Print Assumptions C103_in_box_refuted.

Example C103_ex (L : FloatLib) : let N := FNum L in let l := map fz [(0, 0); (4, 0); (5, 3); (0, 2)]%Z in let p := prun (poly_from_points l) [PRead QCentroid; PSet 1 (fz (6, 0)%Z)] in
  (24 * 6 ^ 3 * Z.of_nat (length (pverts p)) <= 2 ^ 53)%Z /\ Forall (int_point 6) (pverts p) /\ fst (get_is_simple p) = Ok true /\ fst (get_is_convex p) = Ok true /\ area2 (map vecR (pverts p)) <> 0.
Proof.
  cbv zeta. set (p := prun _ _).
  assert (E : pverts p = map fz [(0, 0); (6, 0); (5, 3); (0, 2)]%Z) by (vm_compute; reflexivity).
  split; [rewrite E; cbn; lia|]. split.
  - rewrite E. cbn [map]. repeat (apply Forall_cons; [split; (split; [vm_compute; reflexivity|]); unfold fz; cbn [vx vy fst snd]; (refine (ex_intro _ _ (conj _ (proj2 (isint_of_Z _ _)))); lia)|]). apply Forall_nil.
  - split; [vm_compute; reflexivity|]. split; [vm_compute; reflexivity|]. rewrite E. unfold area2. cbn [map cyc_pairs combine app]. unfold vecR, fz. cbn [vx vy fst snd].
    rewrite !of_Z_R by lia. cbn. ug. cbn. lra.
Qed.
