(** * Predicates of lines, rays and segments on doubles *)
From Coq Require Import ZArith List Bool Reals Lra Lia Psatz Floats.
From Flocq Require Import Core IEEE754.PrimFloat IEEE754.BinarySingleNaN.
From Verif Require Import Num NumFloat Vec Affine Line OrdLaws SpecGeom RBase SpecLine SpecErr LineFacts LineFacts2 FloatFacts FloatFacts2 FloatFacts3 FloatVec SpecExact FloatExact FloatErr FloatErr2 FloatErr3 FloatErr4 FloatErr5.
Import ListNotations.
Local Open Scope R_scope.

Lemma beyond_weak b x x' m m' : correct_beyond b x m -> Rabs (x' - x) + m <= m' -> correct_beyond b x' m'.
Proof.
  intros [A B] H. assert (K : Rabs (x' - x) <= m' - m) by lra. apply abs_le2 in K.
  split; intro; [apply A|apply B]; lra.
Qed.
Lemma beyond_lt a b x y da db : apx a x da -> apx b y db -> correct_beyond (PrimFloat.ltb a b) (y - x) (da + db).
Proof.
  intros Ha Hb. destruct (apx_lt _ _ _ _ _ _ Ha Hb) as [A B]. split; intro H; [apply A; lra|].
  destruct (PrimFloat.ltb a b); auto. specialize (B eq_refl). lra.
Qed.
Lemma beyond_le a b x y da db : apx a x da -> apx b y db -> correct_beyond (PrimFloat.leb a b) (y - x) (da + db).
Proof.
  intros Ha Hb. destruct (apx_le _ _ _ _ _ _ Ha Hb) as [A B]. split; intro H; [apply A; lra|].
  destruct (PrimFloat.leb a b); auto. specialize (B eq_refl). lra.
Qed.
Lemma beyond_and b c x y m : correct_beyond b x m -> correct_beyond c y m -> correct_beyond (b && c) (Rmin x y) m.
Proof.
  intros [A B] [C D]. split; intro H.
  - rewrite A, C; auto; (eapply Rlt_le_trans; [exact H|]); [apply Rmin_r|apply Rmin_l].
  - unfold Rmin in H. destruct (Rle_dec x y); [rewrite B by lra; reflexivity|]. rewrite D by lra. apply andb_false_r.
Qed.
Lemma beyond_sub b x y m : correct_beyond b x m -> x = y -> correct_beyond b y m.
Proof. intros H <-. exact H. Qed.
Lemma margin_unit k M : (0 <= k)%Z -> margin (k - 53) M = IZR (2 ^ k) * (runit * M).
Proof.
  intro H. unfold margin. replace (k - 53)%Z with (k + -53)%Z by lia. rewrite bpow_plus. change (bpow radix2 (-53)) with runit.
  rewrite <- (IZR_Zpower radix2 k H). change (Zpower radix2 k) with (2 ^ k)%Z. ring.
Qed.
Lemma offsets (p v q : pt) : 0 < norm v -> offset_along p v q = pdot (punit v) (psub q p) /\ offset_right p v q = pdot (right_normal v) (psub q p).
Proof.
  intro H. unfold offset_along, offset_right, right_normal, punit, pdot, pcross, psub, pscale. cbn [vx vy]. split; field; lra.
Qed.
Lemma along_ray_unit (a v q : pt) : 0 < norm v -> along_ray a (punit v) q <-> along_ray a v q.
Proof.
  intro H. assert (0 < / norm v) by (apply Rinv_0_lt_compat; auto).
  split; intros (t & Ht & ->); [exists (t * / norm v)|exists (t * norm v)]; (split; [nra|]);
    unfold punit, padd, pscale; cbn [vx vy]; f_equal; field; lra.
Qed.
Lemma along_seg_unit (a v q : pt) : 0 < norm v -> along_seg a (punit v) (norm v) q <-> along_seg a v 1 q.
Proof.
  intro H. assert (0 < / norm v) by (apply Rinv_0_lt_compat; auto).
  split; intros (t & Ht & ->); [exists (t * / norm v)|exists (t * norm v)]; (split; [|unfold punit, padd, pscale; cbn [vx vy]; f_equal; field; lra]).
  - split; [nra|]. apply Rmult_le_reg_r with (norm v); auto. rewrite Rmult_assoc, Rinv_l by lra. lra.
  - nra.
Qed.
Lemma set_distance_ext (A B : pt -> Prop) p d : (forall q, A q <-> B q) -> set_distance A p d -> set_distance B p d.
Proof.
  intros H (q & [H1 H2] & <-). exists q. split; [|reflexivity]. split; [apply H, H1|]. intros r Hr. apply H2, H, Hr.
Qed.
Lemma set_distance_inj (A : pt -> Prop) p d d' : set_distance A p d -> set_distance A p d' -> d = d'.
Proof.
  intros (q & [H1 H2] & <-) (q' & [H3 H4] & <-). apply Rle_antisym; [apply H2|apply H4]; auto.
Qed.

Section Predicates.
  Variable L : FloatLib.
  Hypothesis HS : sqrt_ok L.
  Let NL : Num PrimFloat.float := FNum L.
  Local Existing Instance NL.
  Variable M : R.
  Hypothesis HM : room M.
  Variable E : PrimFloat.float.
  Hypothesis HE : eps_ok L E.
  Variable v : pt.
  Hypothesis Hv : 0 < norm v.
  Let m := runit * M.
  Lemma m0 : 0 < m. Proof using HM. exact (m_pos M HM). Qed.
  Lemma AE : apx E (toR E) 0. Proof using HE. apply apx_exact, HE. Qed.
  Lemma AnE : apx (- E) (- toR E) 0. Proof using HE. apply apx_opp, AE. Qed.
  Lemma al_off a p : pos_al v a p = offset_along (vecR a) v (vecR p).
  Proof using Hv. symmetry. apply (offsets (vecR a) v (vecR p) Hv). Qed.
  Lemma ac_off a p : pos_ac v a p = offset_right (vecR a) v (vecR p).
  Proof using Hv. symmetry. apply (offsets (vecR a) v (vecR p) Hv). Qed.
  Lemma M46 : margin (-46) M = 128 * m.
  Proof using. exact (margin_unit 7 M ltac:(lia)). Qed.
  Lemma M45 : margin (-45) M = 256 * m.
  Proof using. exact (margin_unit 8 M ltac:(lia)). Qed.
  Lemma M43 : margin (-43) M = 1024 * m.
  Proof using. exact (margin_unit 10 M ltac:(lia)). Qed.

  Ltac beyond H1 H2 := eapply beyond_weak; [first [apply (beyond_lt _ _ _ _ _ _ H1 H2)|apply (beyond_le _ _ _ _ _ _ H1 H2)]|].
  Ltac closeup := match goal with |- Rabs ?t + _ <= _ => replace t with 0 by ring; rewrite Rabs_R0; pose proof m0; try lra end.

  Lemma line_answers l a q : near_dirn (ldn l) v -> within M a -> within M q -> loffset l = dot a (dnormal (ldn l)) ->
    let x := offset_right (vecR a) v (vecR q) in
    apx (line_distance_to l q) x (margin (-46) M) /\
    correct_beyond (line_point_left E l q) (- x - toR E) (margin (-46) M) /\
    correct_beyond (line_point_right E l q) (x - toR E) (margin (-46) M) /\
    correct_beyond (line_contains E l q) (toR E - Rabs x) (margin (-46) M).
  Proof using HM HE Hv.
    intros Hd Ha Hq Ho x. pose proof (line_dist_near L M HM v Hv l a q Hd Ha Hq Ho) as K. rewrite ac_off in K. fold x m in K. rewrite M46. fold NL in K.
    split; [eapply apx_weak; [exact K|pose proof m0; lra]|]. unfold line_point_left, line_point_right, line_contains. cbn [nleb nltb nopp nabs NL FNum]. fold NL.
    split; [|split].
    - beyond K AnE. closeup.
    - beyond AE K. closeup.
    - pose proof (apx_abs _ _ _ K) as KA. beyond KA AE. closeup.
  Qed.

  Lemma ray_answers r q : near_dirn (rdn r) v -> within M (ranchor r) -> within M q ->
    let a := vecR (ranchor r) in let x := offset_along a v (vecR q) in let y := offset_right a v (vecR q) in
    correct_beyond (ray_point_behind E r q) (- x - toR E) (margin (-46) M) /\
    correct_beyond (ray_point_left E r q) (Rmin (x + toR E) (- y - toR E)) (margin (-46) M) /\
    correct_beyond (ray_point_right E r q) (Rmin (x + toR E) (y - toR E)) (margin (-46) M) /\
    forall d, set_distance (along_ray a v) (vecR q) d ->
      apx (ray_distance_to r q) d (margin (-45) M) /\ correct_beyond (ray_contains E r q) (toR E - d) (margin (-45) M).
  Proof using HS HM HE Hv.
    intros Hd Ha Hq a x y. pose proof (al_near L M HM v Hv _ _ _ Hd Ha Hq) as KX. destruct (ac_near L M HM v Hv _ _ _ Hd Ha Hq) as [KY _].
    rewrite al_off in KX. rewrite ac_off in KY. fold a in KX, KY. fold x m NL in KX. fold y m NL in KY.
    pose proof (ray_dist_near L HS M HM v Hv r q Hd Ha Hq) as KD. fold m NL in KD.
    rewrite M46, M45. unfold ray_point_behind, ray_point_left, ray_point_right, ray_contains. rewrite !(vid L). cbn [nleb nltb nopp nabs NL FNum]. fold NL.
    split; [|split; [|split]].
    - beyond KX AnE. closeup.
    - apply beyond_and; [beyond AnE KX|beyond KY AnE]; closeup.
    - apply beyond_and; [beyond AnE KX|beyond AE KY]; closeup.
    - intros d Sd. assert (Ed : d = ray_distance_to (ideal_ray v (ranchor r)) (vecR q)).
      { apply (set_distance_inj (along_ray a v) (vecR q)); [exact Sd|].
        apply (set_distance_ext (ray_set (ideal_ray v (ranchor r)))).
        - intro z. unfold ray_set, ideal_ray. cbn [ranchor rdn ideal_dirn ddir]. apply along_ray_unit; auto.
        - destruct (ray_near_spec (ideal_ray v (ranchor r)) (vecR q) (ideal_frame v Hv)). eexists. split; eauto. }
      rewrite <- Ed in KD. split; [exact KD|]. beyond KD AE. closeup.
  Qed.

  Lemma seg_answers s q : near_dirn (sdn s) v -> within M (sanchor s) -> within M q -> norm v <= 4 * M -> toR E <= 4 * M ->
    apx (slength s) (norm v) (40 * m) ->
    let a := vecR (sanchor s) in let x := offset_along a v (vecR q) in let y := offset_right a v (vecR q) in
    correct_beyond (seg_point_behind E s q) (- x - toR E) (margin (-45) M) /\
    correct_beyond (seg_point_ahead E s q) (x - norm v - toR E) (margin (-45) M) /\
    correct_beyond (seg_point_left E s q) (Rmin (Rmin (norm v + toR E - x) (x + toR E)) (- y - toR E)) (margin (-45) M) /\
    correct_beyond (seg_point_right E s q) (Rmin (Rmin (norm v + toR E - x) (x + toR E)) (y - toR E)) (margin (-45) M) /\
    forall d, set_distance (along_seg a v 1) (vecR q) d ->
      apx (seg_distance_to s q) d (margin (-43) M) /\ correct_beyond (seg_contains E s q) (toR E - d) (margin (-43) M).
  Proof using HS HM HE Hv.
    intros Hd Ha Hq Hn HE4 KS a x y. pose proof (al_near L M HM v Hv _ _ _ Hd Ha Hq) as KX. destruct (ac_near L M HM v Hv _ _ _ Hd Ha Hq) as [KY _].
    rewrite al_off in KX. rewrite ac_off in KY. fold a in KX, KY. fold x m NL in KX. fold y m NL in KY. pose proof m0 as MP. pose proof (m_small M HM) as MS. fold m in MS.
    pose proof (seg_dist_near L HS M HM v Hv s (norm v) q Hd Ha Hq ltac:(lra) KS) as KD. fold m NL in KD.
    assert (KE : apx (slength s + E) (norm v + toR E) (49 * m)).
    { pose proof (big_room M (proj2 (within_room M HM))). pose proof huge_pos. destruct HE as (FE & PE & _).
      eapply apx_weak; [apply (apx_add _ _ _ _ _ _ (8.5 * M) KS AE)|]; [rewrite Rabs_pos_eq by lra; lra|lra|]. unfold m in *. lra. }
    rewrite M45, M43. unfold seg_point_behind, seg_point_ahead, seg_point_left, seg_point_right, seg_contains. rewrite !(vid L). cbn [nleb nltb nopp nabs nadd NL FNum]. fold NL.
    split; [|split; [|split; [|split]]].
    - beyond KX AnE. closeup.
    - beyond KE KX. closeup.
    - apply beyond_and; [apply beyond_and|]; [beyond KX KE|beyond AnE KX|beyond KY AnE]; closeup.
    - apply beyond_and; [apply beyond_and|]; [beyond KX KE|beyond AnE KX|beyond AE KY]; closeup.
    - intros d Sd. assert (Ed : d = seg_distance_to (ideal_seg v (sanchor s) (norm v)) (vecR q)).
      { apply (set_distance_inj (along_seg a v 1) (vecR q)); [exact Sd|].
        apply (set_distance_ext (seg_set (ideal_seg v (sanchor s) (norm v)))).
        - intro z. unfold seg_set, ideal_seg. cbn [sanchor sdn slength ideal_dirn ddir]. apply along_seg_unit; auto.
        - destruct (seg_near_spec (ideal_seg v (sanchor s) (norm v)) (vecR q) (ideal_frame v Hv)); [cbn [slength ideal_seg]; lra|]. eexists. split; eauto. }
      rewrite <- Ed in KD. split; [eapply apx_weak; [exact KD|lra]|]. beyond KD AE. closeup.
  Qed.
End Predicates.
