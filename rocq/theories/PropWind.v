(** * Properties C54, C57: the general point-in-polygon test *)
From Coq Require Import ZArith QArith List Bool Reals Lra Lia Permutation.
From Verif Require Import Num Vec Affine Box Seq Polygon Tangent PolyOps SpecPoly SpecGeom SpecBox SpecMass SpecWind RBase OrdLaws BoxFacts BoxFacts2 VecFacts VecFacts2 AffineFacts
  PolyCache PolyCache2 PolyCache3 PolyCache4 NumHom RComp SpecCycle PolyEq CentroidFacts WindFacts.
Import ListNotations.
Local Open Scope R_scope.

(** ** C54 *)
(** Off the boundary, the answer is true iff the total turning angle around
    the point is not zero; that angle exists and is a multiple of a full turn. *)
Theorem C54_turning_number : forall (vs : list pt) (p : pt), vs <> [] -> off_edges p vs ->
  exists thetas (k : Z), Forall2 (turns p) (cyc_pairs vs) thetas /\ rsum thetas = 2 * PI * IZR k /\
    winding_test vs p = Ok (negb (Z.eqb k 0)).
Proof.
  intros vs p Hn Ho. destruct (turns_total p (cyc_pairs vs)) as [ts Hts]. { intros [a b] He. apply Ho; auto. }
  exists ts, (- wnum vs p)%Z. split; auto. split.
  - rewrite (wnum_turns p vs ts Ho Hts), opp_IZR. ring.
  - rewrite winding_test_num by auto. f_equal. f_equal. destruct (Z.eqb_spec (wnum vs p) 0), (Z.eqb_spec (- wnum vs p) 0); auto; lia.
Qed.
Print Assumptions C54_turning_number.
(** The same for any assignment of turning angles (they are unique). *)
Theorem C54_inside_iff_turning : forall (vs : list pt) (p : pt) (thetas : list R), vs <> [] -> off_edges p vs ->
  Forall2 (turns p) (cyc_pairs vs) thetas -> (winding_test vs p = Ok true <-> rsum thetas <> 0).
Proof.
  intros vs p ts Hn Ho Hts. rewrite (wnum_turns p vs ts Ho Hts), winding_test_num by auto. pose proof PI_pos.
  destruct (Z.eqb_spec (wnum vs p) 0) as [E|E]; cbn [negb].
  - split; [discriminate|]. rewrite E. intro K. exfalso. apply K. ring.
  - split; auto. intros _ K. apply Rmult_integral in K. destruct K as [K|K]; [lra|]. apply eq_IZR_R0 in K. contradiction.
Qed.
Print Assumptions C54_inside_iff_turning.
(** On the boundary (and everywhere): the half-open rule.  The answer at p is
    the answer at the points just to the right of p and slightly lower, which
    are off the boundary. *)
Theorem C54_half_open : forall (vs : list pt) (p : pt), vs <> [] ->
  just_right_below p (fun q => winding_test vs q = winding_test vs p /\ off_edges q vs).
Proof.
  intros vs p Hn. eapply jrb_impl; [|apply (wnum_half_open p vs)]. cbn beta. intros q [H1 H2]. split; auto.
  rewrite !winding_test_num, H1 by auto. auto.
Qed.
Print Assumptions C54_half_open.
(** The number behind the answer adds up over any fan and across any chord,
    does not depend on the starting vertex and changes sign with the direction. *)
Theorem C54_additive : exists w : list pt -> pt -> Z,
  (forall vs p, vs <> [] -> winding_test vs p = Ok (negb (Z.eqb (w vs p) 0))) /\
  (forall vs p thetas, off_edges p vs -> Forall2 (turns p) (cyc_pairs vs) thetas -> rsum thetas = - (2 * PI) * IZR (w vs p)) /\
  (forall vs p o, w vs p = fold_right Z.add 0%Z (map (fun e => w [o; fst e; snd e] p) (cyc_pairs vs))) /\
  (forall a m b n p, w (a :: m ++ b :: n) p = (w (a :: m ++ [b]) p + w (b :: n ++ [a]) p)%Z) /\
  (forall vs ws p, rotated vs ws -> w vs p = w ws p) /\
  (forall vs p, w (rev vs) p = (- w vs p)%Z).
Proof.
  exists wnum. split; [intros; apply winding_test_num; auto|]. split; [intros; apply wnum_turns; auto|]. split; [intros; apply wnum_fan|].
  split; [intros; apply wnum_chord|]. split; [intros; apply wnum_rot; auto|intros; apply wnum_rev].
Qed.
Print Assumptions C54_additive.
(** Cutting a polygon along a chord: no point is lost, and a point that only
    one part contains is in the whole. *)
Theorem C54_adjoining : forall (a b : pt) (m n : list pt) (p : pt),
  let whole := a :: m ++ b :: n in let left := a :: m ++ [b] in let right := b :: n ++ [a] in
  (winding_test whole p = Ok true -> winding_test left p = Ok true \/ winding_test right p = Ok true) /\
  (winding_test left p = Ok true -> winding_test right p = Ok false -> winding_test whole p = Ok true) /\
  (winding_test left p = Ok false -> winding_test right p = Ok true -> winding_test whole p = Ok true) /\
  (winding_test left p = Ok false -> winding_test right p = Ok false -> winding_test whole p = Ok false).
Proof.
  intros a b m n p whole left right. subst whole left right. rewrite !winding_test_num by discriminate. rewrite (wnum_chord a b m n p).
  destruct (Z.eqb_spec (wnum (a :: m ++ [b]) p) 0), (Z.eqb_spec (wnum (b :: n ++ [a]) p) 0),
    (Z.eqb_spec (wnum (a :: m ++ [b]) p + wnum (b :: n ++ [a]) p) 0); cbn; intuition (try discriminate; try lia; auto).
Qed.
Print Assumptions C54_adjoining.
Example C54_ex : off_edges (mkV 1 1) (map zv [(0, 0); (4, 0); (4, 4); (0, 4)]%Z) /\
  winding_test (map zv [(0, 0); (4, 0); (4, 4); (0, 4)]%Z) (mkV 1 1) = Ok true.
Proof.
  split.
  - intros a b He (t & Ht & E). cbn in He. unfold between in E. ug.
    repeat match goal with H : _ \/ _ |- _ => destruct H | H : False |- _ => destruct H end;
    repeat match goal with H : (_, _) = (_, _) |- _ => injection H as <- <- end; unfold zv in E; cbn in E; apply mkV_inj in E; lra.
  - change (mkV 1 1) with (zv (1, 1)%Z). rewrite z_winding. vm_compute. reflexivity.
Qed.

(** ** C57 *)
Theorem C57_filter_harmless : forall (vs : list pt) (os : list (pop R)) (E : R) (pt : pt),
  let p := prun (poly_from_points vs) os in
  (3 < length (pverts p))%nat -> pypl p = None -> pcentroid p <> Some None ->
  fst (contains_point E pt p) = winding_test (pverts p) pt.
Proof.
  intros vs os E q p HL Hy Hc.
  assert (Hn : pverts p <> []) by (destruct (pverts p); [cbn in HL; lia|discriminate]).
  destruct (box_from_points_tight R_ordlaws (pverts p) Hn) as (b & Hb & Ht). { apply all_ord. }
  rewrite (general_contains E q p b); auto; [|apply prun_coh, coh_cleared|apply rnone_run; split; reflexivity].
  destruct (Nat.eqb (length (pverts p)) 4); auto. destruct (box_contains b q) eqn:EB; auto.
  rewrite winding_test_num by auto. rewrite (wnum_outside q (pverts p)); auto.
  destruct Ht as ((_ & T1) & (_ & T2) & (_ & T3) & (_ & T4)).
  assert (X : forall v, In v (pverts p) -> vx (bmin b) <= vx v <= vx (bmax b) /\ vy (bmin b) <= vy v <= vy (bmax b)).
  { intros v Hv. specialize (T1 (vx v) (in_map vx _ _ Hv)). specialize (T2 (vy v) (in_map vy _ _ Hv)). specialize (T3 (vx v) (in_map vx _ _ Hv)). specialize (T4 (vy v) (in_map vy _ _ Hv)).
    revert T1 T2 T3 T4. rnum. rewrite !Rleb_true. lra. }
  unfold box_contains in EB. revert EB. rnum.
  destruct (Rleb_spec (vx (bmin b)) (vx q)); [|intros _; left; intros v Hv; specialize (X v Hv); lra].
  destruct (Rltb_spec (vx q) (vx (bmax b))); [|intros _; right; left; intros v Hv; specialize (X v Hv); lra].
  destruct (Rltb_spec (vy (bmin b)) (vy q)); [|intros _; right; right; left; intros v Hv; specialize (X v Hv); lra].
  destruct (Rleb_spec (vy q) (vy (bmax b))); [|intros _; right; right; right; intros v Hv; specialize (X v Hv); lra].
  discriminate.
Qed.
Print Assumptions C57_filter_harmless.
Example C57_ex : let p := prun (poly_from_points (map zv [(0, 0); (4, 0); (4, 4); (2, 1); (0, 4)]%Z)) [PCopy; PSet 0 (zv (1, 0)%Z)] in
  (3 < length (pverts p))%nat /\ pypl p = None /\ pcentroid p <> Some None.
Proof. cbn zeta. rewrite prun_verts. split; [cbn; lia|]. split; [reflexivity|]. cbn. discriminate. Qed.
