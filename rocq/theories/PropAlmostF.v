(** * C124: almost_equals on doubles *)
From Coq Require Import ZArith List Bool Reals Lra Lia Psatz Floats.
From Flocq Require Import Core IEEE754.PrimFloat IEEE754.BinarySingleNaN.
From Verif Require Import Num NumFloat Vec Affine Box Line Seq SpecGeom SpecExact SpecErr SpecScale OrdLaws FloatFacts FloatFacts2 FloatFacts3 FloatExact FloatVec
  FloatErr FloatErr2 FloatErr3 FloatErr4 RBase VecFacts VecFacts2 BoxFloat PropErr PropScale.
Import ListNotations.
Local Open Scope R_scope.

(** ** Spec *)
(** A tolerance whose square neither overflows nor vanishes. *)
Definition plain_eps (E : PrimFloat.float) : Prop := finite E /\ bpow radix2 (-400) <= toR E <= bpow radix2 400.
(** Below the tolerance e, and above it, by a relative 8 roundings. *)
Definition clearly_near (e d : R) : Prop := d * (1 + bpow radix2 (-50)) <= e.
Definition clearly_far (e d : R) : Prop := e * (1 + bpow radix2 (-50)) <= d <= bpow radix2 400.
(** Two vectors of finite doubles clearly near, clearly far. *)
Definition near2 (e : R) (a b : vec PrimFloat.float) : Prop := finite_vec a /\ finite_vec b /\ clearly_near e (dist (vecR a) (vecR b)).
Definition far2 (e : R) (a b : vec PrimFloat.float) : Prop := finite_vec a /\ finite_vec b /\ clearly_far e (dist (vecR a) (vecR b)).
(** The six entries of a transform. *)
Definition entries (m : affine PrimFloat.float) : list PrimFloat.float := [aa m; ab m; ac m; ad m; ae m; af m].
Definition near1 (e : R) (x y : PrimFloat.float) : Prop := finite x /\ finite y /\ clearly_near e (Rabs (toR x - toR y)).
(** Here "not below the tolerance" needs no margin. *)
Definition far1 (e : R) (x y : PrimFloat.float) : Prop := finite x /\ finite y /\ e <= Rabs (toR x - toR y) <= huge.

(** ** Facts *)
Lemma frnd_neg x : frnd (- x) = - frnd x.
Proof. unfold frnd. apply round_NE_opp. Qed.
Lemma dist_squared (a b : pt) : dist a b * dist a b = (vx a - vx b) * (vx a - vx b) + (vy a - vy b) * (vy a - vy b).
Proof. unfold dist. rewrite norm_sq. reflexivity. Qed.
Lemma dist_coord (a b : pt) : Rabs (vx a - vx b) <= dist a b /\ Rabs (vy a - vy b) <= dist a b.
Proof. exact (coord_norm (psub a b)). Qed.
Lemma sq_sum_near (a b : vec PrimFloat.float) (S := dist (vecR a) (vecR b) * dist (vecR a) (vecR b)) : finite_vec a -> finite_vec b -> dist (vecR a) (vecR b) <= bpow radix2 400 ->
  apx ((vx a - vx b) * (vx a - vx b) + (vy a - vy b) * (vy a - vy b))%float S (4.1 * (runit * S) + 3 * tiny).
Proof.
  intros [A1 A2] [B1 B2] HD. destruct (dist_coord (vecR a) (vecR b)) as [C1 C2]. pose proof (dist_squared (vecR a) (vecR b)) as DS. fold S in DS. cbn [vecR vx vy] in *.
  pose proof runit_pos as U0. pose proof runit_small as U1. pose proof tiny_pos as PT. set (u := runit) in *.
  assert (H4 : 4 * bpow radix2 400 <= huge) by (change 4 with (bpow radix2 2); rewrite <- bpow_plus; unfold huge; apply bpow_le; lia).
  assert (H8 : 8 * (bpow radix2 400 * bpow radix2 400) <= huge) by (change 8 with (bpow radix2 3); rewrite <- !bpow_plus; unfold huge; apply bpow_le; lia).
  pose proof (bpow_gt_0 radix2 400) as PB. set (B := bpow radix2 400) in *. clearbody B.
  assert (T1 : tiny <= / 1048576) by (unfold tiny; apply Rle_trans with (bpow radix2 (-20)); [apply bpow_le; lia|cbn; lra]).
  assert (B1' : 1 <= huge) by (unfold huge; change 1 with (bpow radix2 0); apply bpow_le; lia).
  assert (P : forall x y, finite x -> finite y -> Rabs (toR x - toR y) <= B -> apx ((x - y) * (x - y))%float ((toR x - toR y) * (toR x - toR y)) (3.01 * (u * ((toR x - toR y) * (toR x - toR y))) + tiny)).
  { intros x y Fx Fy H. pose proof (apx_diff x y Fx Fy ltac:(lra)) as D. fold u in D. set (d := toR x - toR y) in *. pose proof (Rabs_pos d) as Pd.
    assert (Q : Rabs d * Rabs d = d * d) by (rewrite <- Rabs_mult; apply Rabs_pos_eq; nra).
    assert (Q2 : Rabs d * Rabs d <= B * B) by (apply Rmult_le_compat; lra). assert (UD : u * Rabs d <= / 1048576 * Rabs d) by (apply Rmult_le_compat_r; lra).
    eapply apx_weak; [apply (apx_mul _ _ _ _ _ _ (1.001 * Rabs d) (1.001 * Rabs d) D D); try lra|].
    fold u. replace (u * Rabs d * (1.001 * Rabs d) + 1.001 * Rabs d * (u * Rabs d) + u * (1.001 * Rabs d * (1.001 * Rabs d)) + tiny) with (3.004001 * (u * (Rabs d * Rabs d)) + tiny) by lra. rewrite Q. assert (0 <= u * (d * d)) by (rewrite <- Q; apply Rmult_le_pos; [lra|apply Rmult_le_pos; lra]). lra. }
  pose proof (P _ _ A1 B1 ltac:(lra)) as P1. pose proof (P _ _ A2 B2 ltac:(lra)) as P2. clear P.
  set (X := (toR (vx a) - toR (vx b)) * (toR (vx a) - toR (vx b))) in *. set (Y := (toR (vy a) - toR (vy b)) * (toR (vy a) - toR (vy b))) in *.
  assert (PX : 0 <= X) by (apply Rle_0_sqr). assert (PY : 0 <= Y) by (apply Rle_0_sqr).
  assert (SB : S <= B * B) by (unfold S; apply Rmult_le_compat; try lra; apply norm_nonneg).
  assert (uX : u * X <= / 1048576 * X) by (apply Rmult_le_compat_r; lra). assert (uY : u * Y <= / 1048576 * Y) by (apply Rmult_le_compat_r; lra). assert (0 <= u * X) by (apply Rmult_le_pos; lra). assert (0 <= u * Y) by (apply Rmult_le_pos; lra).
  rewrite DS in *. eapply apx_weak; [apply (apx_add _ _ _ _ _ _ (1.001 * (X + Y) + 2 * tiny) P1 P2)|].
  - rewrite Rabs_pos_eq by lra. lra.
  - lra.
  - fold u. replace (u * (1.001 * (X + Y) + 2 * tiny)) with (1.001 * (u * X) + 1.001 * (u * Y) + 2 * (u * tiny)) by lra. assert (u * tiny <= / 1048576 * tiny) by (apply Rmult_le_compat_r; lra). lra.
Qed.
Section Almost.
  Context (L : FloatLib) (HP : pow_ok L) (E : PrimFloat.float) (HE : plain_eps E).
  Lemma vec_near a b : near2 (toR E) a b -> vec_almost_equals (N := FNum L) E a b = true.
  Proof using HP HE.
    intros (Fa & Fb & H). destruct HE as [FE [E1 E2]]. unfold clearly_near in H. pose proof (bpow_gt_0 radix2 (-400)) as P4. pose proof (norm_nonneg (psub (vecR a) (vecR b))) as PD. fold (dist (vecR a) (vecR b)) in PD.
    assert (EB : bpow radix2 (-50) = 8 * runit) by (unfold runit; change 8 with (bpow radix2 3); rewrite <- bpow_plus; reflexivity). rewrite EB in H.
    pose proof runit_pos as U0. pose proof runit_small as U1. pose proof tiny_pos as PT. 
    assert (HD : dist (vecR a) (vecR b) <= bpow radix2 400) by (assert (0 <= dist (vecR a) (vecR b) * (8 * runit)) by (apply Rmult_le_pos; lra); lra).
    destruct (sq_sum_near a b Fa Fb HD) as [F1 H1]. destruct (HP E FE ltac:(rewrite Rabs_pos_eq; lra)) as [F2 H2].
    unfold vec_almost_equals. cbn [nsub nadd nmul nltb npow2 FNum]. rewrite toR_lt by auto. apply Rltb_true. apply abs_le2 in H1, H2. fold runit tiny in H2.
    set (u := runit) in *. set (d := dist (vecR a) (vecR b)) in *. set (e := toR E) in *.
    assert (TE : tiny <= / 1048576 * (u * (e * e))).
    { assert (EE : bpow radix2 (-400) * bpow radix2 (-400) <= e * e) by (apply Rmult_le_compat; lra). rewrite <- bpow_plus in EE.
      apply Rle_trans with (bpow radix2 (-20) * (u * bpow radix2 (-400 + -400))); [unfold u, runit, tiny; rewrite <- !bpow_plus; apply bpow_le; lia|]. change (bpow radix2 (-20)) with (/ 1048576). apply Rmult_le_compat_l; [lra|]. apply Rmult_le_compat_l; lra. }
    assert (KK : d * d * (1 + 16 * u) <= e * e). { apply Rle_trans with (d * (1 + 8 * u) * (d * (1 + 8 * u))); [|apply Rmult_le_compat; nra]. assert (0 <= d * d * (u * u)) by (apply Rmult_le_pos; apply Rle_0_sqr). lra. }
    assert (P2 : 0 < e * e) by nra. assert (PS : 0 <= u * (d * d)) by (apply Rmult_le_pos; [lra|apply Rle_0_sqr]). assert (PU : 0 < u * (e * e)) by (apply Rmult_lt_0_compat; lra).
    assert (UU : u * (d * d) * (1 + 16 * u) <= u * (e * e)) by (replace (u * (d * d) * (1 + 16 * u)) with (u * (d * d * (1 + 16 * u))) by ring; apply Rmult_le_compat_l; lra).
    assert (UU2 : u * (d * d) * (16 * u) <= u * (d * d) * (16 * / 1048576)) by (apply Rmult_le_compat_l; lra).
    clearbody d e u. clear - H1 H2 TE KK PS PU UU UU2 PT U0 U1.
    assert (Q : d * d + 16 * (u * (d * d)) <= e * e) by lra.
    destruct (Rle_dec (u * (d * d)) (/ 2 * (u * (e * e)))) as [C|C].
    - (* far below *) assert (DE : d * d <= / 2 * (e * e)) by (apply (Rmult_le_reg_l u); [exact U0|]; lra). assert (u * (e * e) <= / 1048576 * (e * e)) by (apply Rmult_le_compat_r; nra). lra.
    - lra.
  Qed.
  Lemma vec_far a b : far2 (toR E) a b -> vec_almost_equals (N := FNum L) E a b = false.
  Proof using HP HE.
    intros (Fa & Fb & H & HD). destruct HE as [FE [E1 E2]]. pose proof (bpow_gt_0 radix2 (-400)) as P4.
    assert (EB : bpow radix2 (-50) = 8 * runit) by (unfold runit; change 8 with (bpow radix2 3); rewrite <- bpow_plus; reflexivity). rewrite EB in H.
    pose proof runit_pos as U0. pose proof runit_small as U1. pose proof tiny_pos as PT. 
    destruct (sq_sum_near a b Fa Fb HD) as [F1 H1]. destruct (HP E FE ltac:(rewrite Rabs_pos_eq; lra)) as [F2 H2].
    unfold vec_almost_equals. cbn [nsub nadd nmul nltb npow2 FNum]. rewrite toR_lt by auto. apply Rltb_false. apply abs_le2 in H1, H2. fold runit tiny in H2.
    set (u := runit) in *. set (d := dist (vecR a) (vecR b)) in *. set (e := toR E) in *.
    assert (TE : tiny <= / 1048576 * (u * (e * e))).
    { assert (EE : bpow radix2 (-400) * bpow radix2 (-400) <= e * e) by (apply Rmult_le_compat; lra). rewrite <- bpow_plus in EE.
      apply Rle_trans with (bpow radix2 (-20) * (u * bpow radix2 (-400 + -400))); [unfold u, runit, tiny; rewrite <- !bpow_plus; apply bpow_le; lia|]. change (bpow radix2 (-20)) with (/ 1048576). apply Rmult_le_compat_l; [lra|]. apply Rmult_le_compat_l; lra. }
    assert (KK : e * e * (1 + 16 * u) <= d * d). { apply Rle_trans with (e * (1 + 8 * u) * (e * (1 + 8 * u))); [|apply Rmult_le_compat; nra]. assert (0 <= e * e * (u * u)) by (apply Rmult_le_pos; apply Rle_0_sqr). lra. }
    assert (PU : 0 < u * (e * e)) by (apply Rmult_lt_0_compat; nra).
    assert (M1 : e * e * (1 + 16 * u) * (1 - 4.1 * u) <= d * d * (1 - 4.1 * u)) by (apply Rmult_le_compat_r; lra).
    assert (M2 : u * (e * e) * u <= u * (e * e) * / 1048576) by (apply Rmult_le_compat_l; lra).
    lra.
  Qed.
  Lemma num_near x y : near1 (toR E) x y -> PrimFloat.leb E (PrimFloat.abs (x - y)) = false /\ PrimFloat.ltb (PrimFloat.abs (x - y)) E = true.
  Proof using HE.
    intros (Fx & Fy & H). destruct HE as [FE [E1 E2]]. unfold clearly_near in H. pose proof (bpow_gt_0 radix2 (-400)) as P4. pose proof (bpow_gt_0 radix2 (-50)) as P5.
    pose proof (Rabs_pos (toR x - toR y)) as PA. assert (PM : 0 <= Rabs (toR x - toR y) * bpow radix2 (-50)) by (apply Rmult_le_pos; lra).
    assert (HB : bpow radix2 400 <= huge) by (unfold huge; apply bpow_le; lia).
    pose proof (apx_diff x y Fx Fy ltac:(lra)) as D. apply apx_abs in D. destruct D as [F1 D].
    assert (EB : bpow radix2 (-50) = 8 * runit) by (unfold runit; change 8 with (bpow radix2 3); rewrite <- bpow_plus; reflexivity). rewrite EB in H. apply abs_le2 in D. pose proof runit_pos as U0.
    assert (LT : toR (PrimFloat.abs (x - y)) < toR E). { destruct (Rle_lt_or_eq_dec 0 _ PA) as [Q|Q]; [assert (0 < runit * Rabs (toR x - toR y)) by (apply Rmult_lt_0_compat; lra); lra|rewrite <- Q in D; lra]. }
    rewrite toR_le, toR_lt by auto. split; [apply Rleb_false; lra|apply Rltb_true; exact LT].
  Qed.
  Lemma num_far x y : finite E -> far1 (toR E) x y -> PrimFloat.leb E (PrimFloat.abs (x - y)) = true /\ PrimFloat.ltb (PrimFloat.abs (x - y)) E = false.
  Proof using.
    intros FE (Fx & Fy & H1 & H2). pose proof (apx_abs _ _ _ (apx_exact _ (proj1 (fsub_toR x y Fx Fy H2)))) as [F1 D]. destruct (fsub_toR x y Fx Fy H2) as [F2 V2].
    assert (VA : toR (PrimFloat.abs (x - y)) = Rabs (frnd (toR x - toR y))) by (rewrite <- V2; apply abs_le2 in D; lra).
    assert (G : toR E <= Rabs (frnd (toR x - toR y))).
    { assert (FF : ffmt (toR E)) by (apply toR_format). revert H1. unfold Rabs at 1. destruct (Rcase_abs (toR x - toR y)); intro H1.
      - pose proof (frnd_lo _ _ FF H1) as K. rewrite frnd_neg in K. eapply Rle_trans; [exact K|]. rewrite <- Rabs_Ropp. apply Rle_abs.
      - eapply Rle_trans; [apply (frnd_lo _ _ FF H1)|]. apply Rle_abs. }
    rewrite toR_le, toR_lt, VA by auto. split; [apply Rleb_true; lra|apply Rltb_false; lra].
  Qed.
End Almost.

(** ** C124 *)
(** Vectors: the answer is that of exact distances unless the distance is within
    a relative 2^-50 of the tolerance. *)
Theorem C124_vec : forall (L : FloatLib) (E : PrimFloat.float) (a b : vec PrimFloat.float), pow_ok L -> plain_eps E -> let N := FNum L in
  (near2 (toR E) a b -> vec_almost_equals E a b = true) /\ (far2 (toR E) a b -> vec_almost_equals E a b = false).
Proof. intros L E a b HP HE N. split; [apply vec_near|apply vec_far]; auto. Qed.
Print Assumptions C124_vec.

(** Transforms: entries clearly near give True, one entry off by the tolerance or
    more gives False, without any margin. *)
Theorem C124_affine : forall (L : FloatLib) (E : PrimFloat.float) (m o : affine PrimFloat.float), plain_eps E -> let N := FNum L in
  (Forall2 (near1 (toR E)) (entries m) (entries o) -> affine_almost_equals E m o = true) /\
  (Exists (fun xy => far1 (toR E) (fst xy) (snd xy)) (combine (entries m) (entries o)) -> affine_almost_equals E m o = false).
Proof.
  intros L E m o HE N. unfold affine_almost_equals, entries. cbn [nleb nabs nsub N FNum combine]. split.
  - intro H. repeat match goal with K : Forall2 _ (_ :: _) (_ :: _) |- _ => inversion K; subst; clear K end.
    repeat match goal with K : near1 _ ?x ?y |- _ => destruct (num_near E HE x y K) as [-> _]; clear K end. reflexivity.
  - intro H. rewrite !Exists_cons, Exists_nil in H. cbn [fst snd] in H.
    assert (K : forall x y, far1 (toR E) x y -> PrimFloat.leb E (PrimFloat.abs (x - y)) = true) by (intros x y K; apply (num_far E x y (proj1 HE) K)).
    destruct H as [H|[H|[H|[H|[H|[H|[]]]]]]]; apply K in H; rewrite H; repeat match goal with |- (if ?b then _ else _) = _ => destruct b end; reflexivity.
Qed.
Print Assumptions C124_affine.

(** Lines, rays, segments, boxes and sequences: every part clearly near gives
    True, one part clearly far gives False whatever the other parts are. *)
Theorem C124_shapes : forall (L : FloatLib) (E : PrimFloat.float), pow_ok L -> plain_eps E -> let N := FNum L in let e := toR E in
  (forall l o : line PrimFloat.float, (near1 e (loffset l) (loffset o) /\ near2 e (ddir (ldn l)) (ddir (ldn o)) -> line_almost_equals E l o = true) /\
    (far1 e (loffset l) (loffset o) \/ far2 e (ddir (ldn l)) (ddir (ldn o)) -> line_almost_equals E l o = false)) /\
  (forall r o : ray PrimFloat.float, (near2 e (ranchor r) (ranchor o) /\ near2 e (ddir (rdn r)) (ddir (rdn o)) -> ray_almost_equals E r o = true) /\
    (far2 e (ranchor r) (ranchor o) \/ far2 e (ddir (rdn r)) (ddir (rdn o)) -> ray_almost_equals E r o = false)) /\
  (forall s o : segment PrimFloat.float, (near2 e (sanchor s) (sanchor o) /\ near2 e (seg_vector s) (seg_vector o) -> seg_almost_equals E s o = true) /\
    (far2 e (sanchor s) (sanchor o) \/ far2 e (seg_vector s) (seg_vector o) -> seg_almost_equals E s o = false)) /\
  (forall b o : bbox PrimFloat.float, (near2 e (bmin b) (bmin o) /\ near2 e (bmax b) (bmax o) -> box_almost_equals E b o = true) /\
    (far2 e (bmin b) (bmin o) \/ far2 e (bmax b) (bmax o) -> box_almost_equals E b o = false)) /\
  (forall l o : list (vec PrimFloat.float), (Forall2 (near2 e) l o -> seq_almost_equals E l o = true) /\
    (length l <> length o \/ Exists (fun ab => far2 e (fst ab) (snd ab)) (combine l o) -> seq_almost_equals E l o = false)).
Proof.
  intros L E HP HE N e.
  assert (K1 : forall a b, near2 e a b -> vec_almost_equals E a b = true) by (intros a b; apply (vec_near L HP E HE)).
  assert (K2 : forall a b, far2 e a b -> vec_almost_equals E a b = false) by (intros a b; apply (vec_far L HP E HE)).
  split; [|split; [|split; [|split]]].
  - intros l o. unfold line_almost_equals. cbn [nltb nabs nsub N FNum]. split.
    + intros [H1 H2]. destruct (num_near E HE _ _ H1) as [_ ->]. rewrite (K1 _ _ H2). reflexivity.
    + intros [H|H]; [destruct (num_far E _ _ (proj1 HE) H) as [_ ->]; reflexivity|]. rewrite (K2 _ _ H). apply andb_false_r.
  - intros r o. unfold ray_almost_equals. split; [intros [H1 H2]; rewrite (K1 _ _ H1), (K1 _ _ H2); reflexivity|]. intros [H|H]; rewrite (K2 _ _ H); auto using andb_false_r.
  - intros s o. unfold seg_almost_equals. split; [intros [H1 H2]; rewrite (K1 _ _ H1), (K1 _ _ H2); reflexivity|]. intros [H|H]; rewrite (K2 _ _ H); auto using andb_false_r.
  - intros b o. unfold box_almost_equals. split; [intros [H1 H2]; rewrite (K1 _ _ H1), (K1 _ _ H2); reflexivity|]. intros [H|H]; rewrite (K2 _ _ H); auto using andb_false_r.
  - intros l o. unfold seq_almost_equals. split.
    + intro H. assert (HL : length l = length o) by (clear - H; induction H; cbn; congruence). rewrite HL, Nat.eqb_refl. clear HL.
      induction H as [|a b l o Hab H IH]; auto. cbn [combine forallb fst snd]. rewrite (K1 _ _ Hab). exact IH.
    + intros [H|H]; [apply Nat.eqb_neq in H; rewrite H; reflexivity|]. destruct (Nat.eqb _ _); auto.
      induction H as [[a b] r H|[a b] r H IH]; cbn [forallb fst snd] in *; [rewrite (K2 _ _ H); reflexivity|rewrite IH; apply andb_false_r].
Qed.
Print Assumptions C124_shapes.

(** The margin of the entries is needed: a difference below the tolerance can
    round up to it. *)
Theorem C124_round_refuted : exists (E : PrimFloat.float) (m o : affine PrimFloat.float), plain_eps E /\ Forall finite (entries m ++ entries o) /\
  Forall (fun xy => Rabs (toR (fst xy) - toR (snd xy)) < toR E) (combine (entries m) (entries o)) /\
  forall L : FloatLib, let N := FNum L in affine_almost_equals E m o = false.
Proof.
  exists 1%float, (mkA 1 0 0 0 0 0)%float, (mkA 0x1p-60 0 0 0 0 0)%float. assert (V1 : toR 1 = 1) by (vm_compute; lra). assert (V2 : toR 0x1p-60 = bpow radix2 (-60)) by (vm_compute; lra).
  split; [|split; [|split]].
  - split; [reflexivity|]. rewrite V1. change 1 with (bpow radix2 0). split; apply bpow_le; lia.
  - unfold entries. cbn [app aa ab ac ad ae af]. repeat (apply Forall_cons; [reflexivity|]). apply Forall_nil.
  - unfold entries. cbn [combine aa ab ac ad ae af]. assert (P : 0 < bpow radix2 (-60) < 1) by (split; [apply bpow_gt_0|change 1 with (bpow radix2 0); apply bpow_lt; lia]).
    rewrite !Forall_cons_iff. cbn [fst snd]. rewrite V1, V2, toR_0. unfold Rminus. rewrite !Rplus_opp_r, Rabs_R0, Rabs_pos_eq by lra. repeat split; try lra. apply Forall_nil.
  - intro L. vm_compute. reflexivity.
Qed.
Print Assumptions C124_round_refuted.

(** Clearly near and clearly far vectors and numbers at the tolerance 2^-17. *)
Example C124_ex : pow_ok ieee_lib /\ plain_eps 0x1p-17 /\ near2 (toR 0x1p-17) (mkV 1 2)%float (mkV 1 2)%float /\ far2 (toR 0x1p-17) (mkV 0 3)%float (mkV 4 0)%float /\
  near1 (toR 0x1p-17) 1%float 1%float /\ far1 (toR 0x1p-17) 3%float 1%float.
Proof.
  split; [exact ieee_pow_ok|]. assert (V : toR 0x1p-17 = bpow radix2 (-17)) by (vm_compute; lra). pose proof (bpow_gt_0 radix2 (-17)) as P. pose proof (bpow_gt_0 radix2 (-50)) as P5.
  assert (B5 : bpow radix2 (-50) <= 1) by (change 1 with (bpow radix2 0); apply bpow_le; lia). assert (B1 : bpow radix2 (-17) <= 1) by (change 1 with (bpow radix2 0); apply bpow_le; lia). assert (B8 : 8 <= bpow radix2 400) by (change 8 with (bpow radix2 3); apply bpow_le; lia). assert (BH : 8 <= huge) by (unfold huge; change 8 with (bpow radix2 3); apply bpow_le; lia).
  assert (V1 : toR 1 = 1) by (vm_compute; lra). assert (V3 : toR 3 = 3) by (vm_compute; lra). assert (V4 : toR 4 = 4) by (vm_compute; lra).
  assert (D0 : forall v : pt, dist v v = 0) by (intro v; unfold dist; replace (psub v v) with porigin by (vext; ug; ring); apply norm_zero; reflexivity).
  assert (D5 : dist (vecR (mkV 0 3)%float) (vecR (mkV 4 0)%float) = 5) by (unfold vecR; cbn [vx vy]; rewrite V3, V4, toR_0; apply norm_unique; [lra|]; cbn; lra).
  assert (PB : bpow radix2 (-17) * (1 + bpow radix2 (-50)) <= 2) by (apply Rle_trans with (1 * 2); [apply Rmult_le_compat; lra|lra]).
  unfold plain_eps, near2, far2, near1, far1, clearly_near, clearly_far. rewrite V, V1, V3, D0, D5.
  replace (1 - 1) with 0 by ring. rewrite Rabs_R0. replace (Rabs (3 - 1)) with 2 by (rewrite Rabs_pos_eq; lra).
  repeat split; try reflexivity; try lra; try (apply bpow_le; lia).
Qed.
