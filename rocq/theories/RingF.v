(** * Facts for C115: vertices of regular polygons and stars on doubles *)
From Coq Require Import ZArith List Bool Reals Lra Lia Floats SpecFloat.
From Flocq Require Import Core IEEE754.PrimFloat IEEE754.BinarySingleNaN.
From Verif Require Import Num NumFloat Vec Affine Seq Polygon OrdLaws SpecGeom SpecRegular RBase VecFacts2 PolyCache2 BoxFacts2 RegularFacts FloatFacts FloatFacts2 FloatVec SpecExact FloatExact FloatErr FloatErr2 SpecRot RotFacts.
Import ListNotations.
Local Open Scope R_scope.

(** ** The constructors succeed, in any number system *)
Section Any.
  Context {T : Type} {N : Num T}.
  Lemma regular_len c r step : forall k a, length (regular_verts k c r a step) = k.
  Proof. induction k as [|k IH]; intro a; cbn [regular_verts]; [reflexivity|]. destruct (cos_sin_deg a). cbn [length]. rewrite IH. reflexivity. Qed.
  Lemma star_len c r1 r2 step : forall k a, length (star_verts k c r1 r2 a step) = (2 * k)%nat.
  Proof. induction k as [|k IH]; intro a; cbn [star_verts]; [reflexivity|]. destruct (cos_sin_deg a), (cos_sin_deg (nadd a step)). cbn [length]. rewrite IH. lia. Qed.
  Lemma two_first {X} (l : list X) : (3 <= length l)%nat -> exists x y, py_get l 0 = Ok x /\ py_get l 1 = Ok y.
  Proof. destruct l as [|x [|y l]]; cbn [length]; try lia. intros _. exists x, y. change 0%Z with (Z.of_nat 0). change 1%Z with (Z.of_nat 1). rewrite !py_get_nat. split; reflexivity. Qed.
  Lemma new_true (vs : list (vec T)) : (3 <= length vs)%nat -> exists pl, poly_new vs (Some true) None = Ok (mkPoly (map vec2_of vs) (Some true) (Some true) pl None None None None None None None).
  Proof.
    intro H. unfold poly_new, seq_new. rewrite map_length. destruct (Nat.ltb_spec (length vs) 3); [lia|]. unfold cleared. rewrite map_length.
    destruct (Nat.ltb_spec 3 (length vs)) as [L|L]; cbn [pconvex andb].
    - destruct (split_ok (map vec2_of vs)) as [pl Hpl]; [destruct vs; [cbn in H; lia|discriminate]|]. rewrite Hpl. cbn [bind psimple pdupe pdegen pbbox pcentroid pmaxr2 pminr2 ptri]. eauto.
    - cbn [bind psimple]. eauto.
  Qed.
  Lemma new_false (vs : list (vec T)) si : (4 <= length vs)%nat -> poly_new vs (Some false) si = Ok (mkPoly (map vec2_of vs) (Some false) si None None None None None None None None).
  Proof.
    intro H. unfold poly_new, seq_new. rewrite map_length. destruct (Nat.ltb_spec (length vs) 3); [lia|]. unfold cleared. rewrite map_length.
    destruct (Nat.ltb_spec 3 (length vs)) as [L|L]; [|lia]. cbn [pconvex andb bind psimple pdupe pdegen pbbox pcentroid pmaxr2 pminr2 ptri]. destruct si; reflexivity.
  Qed.
  Lemma new_true_s (vs : list (vec T)) si : (3 <= length vs)%nat -> exists pl, poly_new vs (Some true) si = Ok (mkPoly (map vec2_of vs) (Some true) (Some true) pl None None None None None None None).
  Proof.
    intro H. unfold poly_new, seq_new. rewrite map_length. destruct (Nat.ltb_spec (length vs) 3); [lia|]. unfold cleared. rewrite map_length.
    destruct (Nat.ltb_spec 3 (length vs)) as [L|L]; cbn [pconvex andb].
    - destruct (split_ok (map vec2_of vs)) as [pl Hpl]; [destruct vs; [cbn in H; lia|discriminate]|]. rewrite Hpl. cbn [bind psimple pdupe pdegen pbbox pcentroid pmaxr2 pminr2 ptri]. destruct si; eauto.
    - cbn [bind psimple]. destruct si; eauto.
  Qed.
  Lemma regular_ok n r c a : (3 <= n)%nat -> neqb (nlit (Z.of_nat n)) n0 = false ->
    exists p, poly_regular n r c a = Ok p /\ pverts p = map vec2_of (regular_verts n c r a (ndiv (nlit 360) (nlit (Z.of_nat n)))) /\ pconvex p = Some true /\ psimple p = Some true /\ pcentroid p = Some (Some (vec2_of c)).
  Proof.
    intros Hn H. unfold poly_regular, pydiv. rewrite H. cbn [bind]. set (vs := regular_verts _ _ _ _ _). assert (LV : length vs = n) by apply regular_len.
    destruct (new_true vs) as [pl E]; [lia|]. rewrite E. cbn [bind pverts]. destruct (two_first (map vec2_of vs)) as (x & y & E0 & E1); [rewrite map_length; lia|]. rewrite E0, E1. cbn [bind].
    eexists. split; [reflexivity|]. repeat split.
  Qed.
  Lemma star_ok n r1 r2 c a : (2 <= n)%nat -> neqb (nlit (Z.of_nat n)) n0 = false ->
    exists p, poly_star n r1 r2 c a = Ok p /\ pverts p = map vec2_of (star_verts n c r1 r2 a (ndiv (nlit 180) (nlit (Z.of_nat n)))) /\ pconvex p = Some (neqb r1 r2).
  Proof.
    intros Hn H. unfold poly_star, pydiv. destruct (Nat.ltb_spec n 2); [lia|]. rewrite H. cbn [bind]. set (vs := star_verts _ _ _ _ _ _). assert (LV : length vs = (2 * n)%nat) by apply star_len.
    destruct (two_first (map vec2_of vs)) as (x & y & E0 & E1); [rewrite map_length; lia|].
    set (si := if Bool.eqb _ _ then Some true else None). destruct (neqb r1 r2) eqn:ER.
    - destruct (new_true_s vs si) as [pl E]; [lia|]. rewrite E. cbn [bind pverts get_is_convex pconvex]. destruct (Bool.eqb (nleb n0 r1) (nleb n0 r2)).
      + rewrite E0, E1. cbn [bind]. eexists. split; [reflexivity|]. split; reflexivity.
      + cbn [bind]. eexists. split; [reflexivity|]. split; reflexivity.
    - rewrite (new_false vs si) by lia. cbn [bind pverts get_is_convex pconvex]. destruct (Bool.eqb (nleb n0 r1) (nleb n0 r2)); cbn [bind]; (eexists; split; [reflexivity|]; split; reflexivity).
  Qed.

  (** One loop for both: the i-th vertex has radius [rad i]. *)
  Fixpoint ring_verts (k i : nat) (c : vec T) (rad : nat -> T) (ang step : T) : list (vec T) :=
    match k with
    | O => []
    | S k' => mkV (nadd (nmul (fst (cos_sin_deg ang)) (rad i)) (vx c)) (nadd (nmul (snd (cos_sin_deg ang)) (rad i)) (vy c)) :: ring_verts k' (S i) c rad (nadd ang step) step
    end.
  Lemma regular_ring c r step : forall k i a, regular_verts k c r a step = ring_verts k i c (fun _ => r) a step.
  Proof. induction k as [|k IH]; intros i a; [reflexivity|]. cbn [regular_verts ring_verts]. rewrite <- IH. destruct (cos_sin_deg a). reflexivity. Qed.
  Lemma star_ring c r1 r2 step : forall k i a, Nat.even i = true -> star_verts k c r1 r2 a step = ring_verts (2 * k) i c (fun j => if Nat.even j then r1 else r2) a step.
  Proof.
    induction k as [|k IH]; intros i a Hi; [reflexivity|]. replace (2 * S k)%nat with (S (S (2 * k))) by lia. cbn [star_verts ring_verts]. rewrite <- (IH (S (S i))) by exact Hi.
    rewrite Hi. rewrite Nat.even_succ, <- Nat.negb_even, Hi. destruct (cos_sin_deg a), (cos_sin_deg (nadd a step)). reflexivity.
  Qed.
End Any.

(** ** On doubles *)
Lemma runit_smaller : runit <= / 1048576 * / 1048576.
Proof. unfold runit. replace (/ 1048576 * / 1048576) with (bpow radix2 (-40)) by (cbn; lra). apply bpow_le. lia. Qed.
Section Ring.
  Context (L : FloatLib) (HL : trig_ok L).
  Let N := FNum L.
  Local Existing Instance N.

  (** One coordinate: [x * r + c]. *)
  Lemma coord_err x g t r c : apx x g t -> Rabs g <= 1 -> t <= 1 -> finite r -> finite c -> Rabs (toR r) <= huge / 16 -> Rabs (toR c) <= huge / 16 ->
    apx (x * r + c) (toR c + toR r * g) ((t + 5 * runit) * Rabs (toR r) + runit * Rabs (toR c) + 2 * tiny).
  Proof using.
    intros Hx Hg Ht Fr Fc Br Bc. pose proof runit_pos as U0. pose proof runit_small as U1. pose proof tiny_pos as T0. pose proof tiny_small as T1. pose proof (apx_pos _ _ _ Hx) as Pt.
    assert (H4 : 4 <= huge) by (unfold huge; change 4 with (bpow radix2 2); apply bpow_le; lia). pose proof (Rabs_pos (toR r)) as PR. pose proof (Rabs_pos (toR c)) as PC.
    pose proof (apx_mul x r g (toR r) t 0 2 (Rabs (toR r)) Hx (apx_exact r Fr) ltac:(lra) ltac:(lra) ltac:(lra)) as K.
    assert (M : Rabs (g * toR r) <= Rabs (toR r)) by (rewrite Rmult_comm; apply abs_mul_le; exact Hg).
    set (s := 3 * Rabs (toR r) + Rabs (toR c) + tiny).
    assert (TR : 0 <= t * Rabs (toR r) <= 1 * Rabs (toR r)) by (split; [apply Rmult_le_pos; lra|apply Rmult_le_compat_r; lra]).
    assert (UR : 0 <= runit * Rabs (toR r) <= / 1048576 * Rabs (toR r)) by (split; [apply Rmult_le_pos; lra|apply Rmult_le_compat_r; lra]).
    assert (RT : runit * tiny <= / 1048576 * tiny) by (apply Rmult_le_compat_r; lra).
    apply apx_eq with (g * toR r + toR c); [|ring].
    eapply apx_weak; [apply (apx_add _ _ _ _ _ _ s K (apx_exact c Fc))|].
    - pose proof (Rabs_triang (g * toR r) (toR c)). unfold s. lra.
    - unfold s. lra.
    - unfold s. lra.
  Qed.

  Variables (m : nat) (a : R) (sg : R) (step : PrimFloat.float) (rad : nat -> PrimFloat.float) (Rm : R) (c : vec PrimFloat.float).
  Hypothesis Hm : INR m <= 65536.
  Hypothesis Ha : Rabs a <= 65536.
  Hypothesis Hsg : 0 <= sg /\ INR m * sg = 360.
  Hypothesis Hstep : apx step sg (2 * runit * sg).
  Hypothesis Hrad : forall i, finite (rad i) /\ Rabs (toR (rad i)) <= Rm.
  Hypothesis HRm : Rm <= huge / 16.
  Hypothesis Fc : finite_vec c.
  Hypothesis Bc : Rabs (toR (vx c)) <= huge / 16 /\ Rabs (toR (vy c)) <= huge / 16.

  Definition ang_err (i : nat) : R := INR i * (2 * runit * sg + runit * (Rabs a + 361)).
  Lemma ang_err_le i : (i <= m)%nat -> 0 <= ang_err i <= runit * ((INR m + 2) * (Rabs a + 361)) /\ ang_err i <= / 2.
  Proof using Hm Ha Hsg.
    intro Hi. pose proof runit_pos as U0. pose proof runit_smaller as U1. pose proof (Rabs_pos a) as PA. destruct Hsg as [S0 S1]. pose proof Hm as HM. apply le_INR in Hi. pose proof (pos_INR i) as PI.
    assert (Q : 0 <= 2 * runit * sg + runit * (Rabs a + 361)) by (assert (0 <= runit * sg) by (apply Rmult_le_pos; lra); assert (0 <= runit * (Rabs a + 361)) by (apply Rmult_le_pos; lra); lra).
    assert (B1 : ang_err i <= INR m * (2 * runit * sg + runit * (Rabs a + 361))) by (apply Rmult_le_compat_r; lra).
    replace (INR m * (2 * runit * sg + runit * (Rabs a + 361))) with (2 * runit * (INR m * sg) + runit * (INR m * (Rabs a + 361))) in B1 by ring. rewrite S1 in B1.
    assert (B2 : ang_err i <= runit * ((INR m + 2) * (Rabs a + 361))).
    { eapply Rle_trans; [exact B1|]. replace (runit * ((INR m + 2) * (Rabs a + 361))) with (runit * (INR m * (Rabs a + 361)) + runit * (2 * Rabs a) + runit * 722) by ring. assert (0 <= runit * (2 * Rabs a)) by (apply Rmult_le_pos; lra). lra. }
    split; [split; [apply Rmult_le_pos; lra|exact B2]|]. eapply Rle_trans; [exact B2|].
    assert (B3 : (INR m + 2) * (Rabs a + 361) <= 65538 * 65897) by (apply Rmult_le_compat; lra).
    eapply Rle_trans; [apply Rmult_le_compat; [lra| |exact U1|exact B3]; apply Rmult_le_pos; lra|]. lra.
  Qed.
  Lemma step_err i ang : (i < m)%nat -> apx ang (a + INR i * sg) (ang_err i) -> apx (ang + step) (a + INR (S i) * sg) (ang_err (S i)).
  Proof using Hm Ha Hsg Hstep.
    intros Hi Hang. pose proof runit_pos as U0. pose proof runit_smaller as U1. destruct Hsg as [S0 S1]. destruct (ang_err_le i ltac:(lia)) as [_ E1].
    rewrite S_INR. apply apx_eq with (a + INR i * sg + sg); [|ring]. eapply apx_weak; [apply (apx_add _ _ _ _ _ _ (Rabs a + 361) Hang Hstep)|].
    - assert (KI : 0 <= INR i * sg + sg <= 360). { assert (INR (S i) * sg <= INR m * sg) by (apply Rmult_le_compat_r; [lra|apply le_INR; lia]). rewrite S_INR in *. pose proof (pos_INR i). assert (0 <= INR i * sg) by (apply Rmult_le_pos; lra). lra. }
      assert (sg <= 360). { pose proof (pos_INR i). assert (0 <= INR i * sg) by (apply Rmult_le_pos; lra). lra. }
      assert (2 * runit * sg <= / 2) by nra. replace (a + INR i * sg + sg) with (a + (INR i * sg + sg)) by ring. pose proof (Rabs_triang a (INR i * sg + sg)) as K. rewrite (Rabs_pos_eq (INR i * sg + sg)) in K by lra. lra.
    - pose proof huge_pos. assert (1048576 <= huge) by (unfold huge; replace 1048576 with (bpow radix2 20) by (cbn; lra); apply bpow_le; lia). lra.
    - unfold ang_err. rewrite S_INR. lra.
  Qed.
  Lemma trig_err i ang : (i <= m)%nat -> apx ang (a + INR i * sg) (ang_err i) -> let t := 40 * runit + runit * ((INR m + 2) * (Rabs a + 361)) / 45 in
    apx (fst (cos_sin_deg ang)) (cos (deg (a + INR i * sg))) t /\ apx (snd (cos_sin_deg ang)) (sin (deg (a + INR i * sg))) t /\ t <= 1.
  Proof using HL Hm Ha Hsg.
    intros Hi [Fa Hang] t. destruct (ang_err_le i Hi) as [[E0 E1] E2]. pose proof (cos_sin_err L ang HL Fa) as [[FC HC] [FS HS]].
    pose proof (deg_lip _ _ _ (Rle_trans _ _ _ Hang E1)) as DL. pose proof (Rle_trans _ _ _ (cos_lip _ _) DL) as C1. pose proof (Rle_trans _ _ _ (sin_lip _ _) DL) as S1.
    split; [|split].
    - split; [exact FC|]. fold N in HC. set (x := toR (fst (cos_sin_deg ang))) in *. clearbody x. apply abs_le2 in HC, C1. apply Rabs_le. unfold t. lra.
    - split; [exact FS|]. fold N in HS. set (x := toR (snd (cos_sin_deg ang))) in *. clearbody x. apply abs_le2 in HS, S1. apply Rabs_le. unfold t. lra.
    - unfold t. pose proof runit_smaller. pose proof runit_pos. pose proof Hm as HM. pose proof (Rabs_pos a) as PA. pose proof (pos_INR m) as PM.
      assert (B3 : (INR m + 2) * (Rabs a + 361) <= 65538 * 65897) by (apply Rmult_le_compat; lra).
      assert (B4 : runit * ((INR m + 2) * (Rabs a + 361)) <= / 1048576 * / 1048576 * (65538 * 65897)) by (apply Rmult_le_compat; [lra|apply Rmult_le_pos; lra|lra|exact B3]). lra.
  Qed.
  Lemma ring_close : forall k i ang, (i + k <= m)%nat -> apx ang (a + INR i * sg) (ang_err i) ->
    Forall2 (fun w q => close_vec w q (runit * ((90 + 2 * (INR m + 2) * (Rabs a + 361) / 45) * Rm + 2 * norm (vecR c)) + 4 * tiny))
      (ring_verts k i c rad ang step) (map (fun j => polar_at (vecR c) (toR (rad j)) (a + INR j * sg)) (seq i k)).
  Proof using All.
    induction k as [|k IH]; intros i ang Hk Hang; [constructor|]. cbn [ring_verts seq map]. constructor; [|apply IH; [lia|apply step_err; [lia|exact Hang]]].
    destruct (trig_err i ang ltac:(lia) Hang) as (HC & HS & Ht). set (t := 40 * runit + runit * ((INR m + 2) * (Rabs a + 361)) / 45) in *.
    destruct (Hrad i) as [Fr Br]. destruct Fc as [Fx Fy]. destruct Bc as [Bx By].
    pose proof (coord_err _ _ _ (rad i) (vx c) HC ltac:(apply Rabs_le, COS_bound) Ht Fr Fx ltac:(lra) Bx) as KX. pose proof (coord_err _ _ _ (rad i) (vy c) HS ltac:(apply Rabs_le, SIN_bound) Ht Fr Fy ltac:(lra) By) as KY.
    rewrite polar_xy. assert (Pt : 0 <= t) by exact (apx_pos _ _ _ HC). pose proof runit_pos as U0. pose proof (Rabs_pos (toR (rad i))) as PR.
    assert (TB : (t + 5 * runit) * Rabs (toR (rad i)) <= (t + 5 * runit) * Rm) by (apply Rmult_le_compat_l; lra).
    pose proof (VecFacts2.norm_nonneg (vecR c)) as NN.
    assert (CN : Rabs (toR (vx c)) <= norm (vecR c) /\ Rabs (toR (vy c)) <= norm (vecR c)).
    { pose proof (VecFacts2.norm_sq (vecR c)) as Q. cbn [vecR vx vy] in Q. set (n := norm (vecR c)) in *. split; apply Rsqr_incr_0_var; auto; rewrite <- Rsqr_abs; unfold Rsqr; rewrite Q; [pose proof (Rle_0_sqr (toR (vy c)))|pose proof (Rle_0_sqr (toR (vx c)))]; unfold Rsqr in *; lra. }
    assert (CX : runit * Rabs (toR (vx c)) <= runit * norm (vecR c)) by (apply Rmult_le_compat_l; lra). assert (CY : runit * Rabs (toR (vy c)) <= runit * norm (vecR c)) by (apply Rmult_le_compat_l; lra).
    pose proof (apx_weak _ _ _ ((t + 5 * runit) * Rm + runit * norm (vecR c) + 2 * tiny) KX ltac:(lra)) as KX'. pose proof (apx_weak _ _ _ ((t + 5 * runit) * Rm + runit * norm (vecR c) + 2 * tiny) KY ltac:(lra)) as KY'.
    pose proof (near_dist (mkV (nadd (nmul (fst (cos_sin_deg ang)) (rad i)) (vx c)) (nadd (nmul (snd (cos_sin_deg ang)) (rad i)) (vy c)))
      (mkV (vx (vecR c) + toR (rad i) * cos (deg (a + INR i * sg))) (vy (vecR c) + toR (rad i) * sin (deg (a + INR i * sg)))) _ KX' KY') as [F H].
    split; [exact F|]. eapply Rle_trans; [exact H|]. unfold t. right. field.
  Qed.
End Ring.
