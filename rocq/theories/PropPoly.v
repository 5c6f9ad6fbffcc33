(** * Properties C49 - C51, C59, C63, C72: polygon objects and their caches *)
From Coq Require Import ZArith QArith List Bool Reals Lra Lia Floats.
From Verif Require Import Num NumFloat Vec Affine Box Seq Polygon Tangent PolyOps SpecPoly RBase OrdLaws SpecGeom SpecBox BoxFacts BoxFacts2 FloatFacts
  PolyCache PolyCache2 PolyCache3 NumHom RComp.
Import ListNotations.
Local Open Scope R_scope.

(** ** C49, for every number system (floats included) *)
Theorem C49_history_independent : forall (T : Type) (N : Num T) (vs : list (vec T)) (p0 : poly T) (os : list (pop T)),
  (p0 = poly_from_points vs \/ poly_new vs None None = Ok p0) ->
  let p := prun p0 os in
  let fresh := poly_from_points (pverts p) in
  pverts p = writes (pverts p0) os /\
  fst (get_is_convex p) = fst (get_is_convex fresh) /\
  fst (get_is_simple p) = fst (get_is_simple fresh) /\
  fst (get_centroid p) = fst (get_centroid fresh) /\
  fst (get_bbox p) = fst (get_bbox fresh).
Proof.
  intros T N vs p0 os H0 p fresh.
  assert (Hp : coh p).
  { apply prun_coh. destruct H0 as [->|H0]; [apply coh_cleared|]. apply poly_new_undeclared in H0. subst. apply coh_cleared. }
  split; [apply prun_verts|]. split; [apply read_convex; auto|]. split; [apply read_simple; auto|].
  split; [apply read_centroid; auto|apply read_bbox; auto].
Qed.
Print Assumptions C49_history_independent.

Definition sq_z : list (Z * Z) := [(0, 0); (10, 0); (10, 10); (0, 10)]%Z.
Definition sq : list pt := [mkV 0 0; mkV 10 0; mkV 10 10; mkV 0 10].
Lemma sq_zv : sq = map zv sq_z.
Proof. reflexivity. Qed.
(** The history matters: the square is convex; after moving a vertex inwards it is not. *)
Example C49_ex : fst (get_is_convex (poly_from_points sq)) = Ok true /\
  fst (get_is_convex (prun (poly_from_points sq) [PRead QConvex; PSet 2 (mkV 1 1)])) = Ok false.
Proof.
  split.
  - change (poly_from_points sq) with (pfresh sq). rewrite sq_zv. assert (E : classify_core (map zv sq_z) = Ok (true, false, 4%nat)) by (rewrite z_classify_core; vm_compute; reflexivity).
    destruct (split_ok (map zv sq_z)) as [pl Hpl]; [discriminate|]. rewrite (convex_detected (map zv sq_z) _ _ ltac:(cbn; lia) E Hpl). reflexivity.
  - destruct (C49_history_independent R RNum sq _ [PRead QConvex; PSet 2 (mkV 1 1)] (or_introl eq_refl)) as (Hv & Hc & _). rewrite Hc, Hv.
    assert (W : writes (pverts (poly_from_points sq)) [PRead QConvex; PSet 2 (mkV 1 1)] = map zv [(0, 0); (10, 0); (1, 1); (0, 10)]%Z).
    { cbn [writes fold_left write pverts poly_from_points cleared sq]. rewrite vec2_of_R. reflexivity. }
    rewrite W. set (l := [(0, 0); (10, 0); (1, 1); (0, 10)]%Z). assert (E : classify_core (map zv l) = Ok (false, false, 4%nat)) by (rewrite z_classify_core; vm_compute; reflexivity).
    unfold get_is_convex. change (pconvex (poly_from_points (map zv l))) with (@None bool). unfold classify. change (pverts (poly_from_points (map zv l))) with (map zv l).
    rewrite E. reflexivity.
Qed.

(** ** C50 *)
(** The full statement fails: the answer for an interior point changes once
    is_convex has been read. *)
Theorem C50_refuted : exists (vs : list pt) (pt : pt) (qs : list (pread R)) (E : R),
  let p := poly_from_points vs in
  fst (contains_point E pt p) = Ok true /\ fst (contains_point E pt (preads p qs)) = Ok false.
Proof.
  exists sq, (mkV 5 5), [QConvex], 0. cbn zeta. change (poly_from_points sq) with (pfresh sq). change (mkV 5 5) with (zv (5, 5)%Z). rewrite sq_zv. split.
  - rewrite contains_wind4 by reflexivity. cbn [fst]. rewrite pverts_fresh, z_winding. vm_compute. reflexivity.
  - cbn [preads fold_left read_state].
    assert (E : classify_core (map zv sq_z) = Ok (true, false, 4%nat)) by (rewrite z_classify_core; vm_compute; reflexivity).
    destruct (split_ok (map zv sq_z)) as [pl Hpl]; [discriminate|]. rewrite (convex_detected (map zv sq_z) _ _ ltac:(cbn; lia) E Hpl). cbn [snd].
    rewrite (contains_pl4 _ _ _ pl) by reflexivity. cbn [fst]. rewrite z_split in Hpl.
    assert (S : exists pq, split_y_polylines (map qv sq_z) = Ok pq /\ y_monotone_test pq (qv (5, 5)%Z) = Ok false) by (eexists; split; vm_compute; reflexivity).
    destruct S as (pq & S1 & S2). rewrite S1 in Hpl. cbn [rmap] in Hpl. injection Hpl as <-. rewrite z_y_monotone. exact S2.
Qed.
Print Assumptions C50_refuted.

(** What holds, in every number system: for polygons that are not reported
    convex (so that no binary-search structure is built) and are simple or
    have at most four vertices, no reads change the answer. *)
Theorem C50_reads_partial : forall (T : Type) (N : Num T) (E : T) (vs : list (vec T)) (pt : vec T) (qs : list (pread T)),
  Forall (same_eps E) qs ->
  ((length vs <= 3)%nat \/ fst (get_is_convex (poly_from_points vs)) = Ok false) ->
  ((length vs <= 4)%nat \/ fst (get_is_simple (poly_from_points vs)) = Ok true) ->
  fst (contains_point E pt (preads (poly_from_points vs) qs)) = fst (contains_point E pt (poly_from_points vs)).
Proof.
  intros T N E vs pt qs HE Hc Hs. change (poly_from_points vs) with (pfresh vs).
  assert (HG : stays_general vs).
  { unfold stays_general. destruct Hc as [Hc|Hc].
    - unfold get_is_convex. destruct (pfresh_small vs Hc) as (-> & _). reflexivity.
    - change (poly_from_points vs) with (pfresh vs) in Hc. unfold get_is_convex in *. destruct (pconvex (pfresh vs)) eqn:E1; [reflexivity|].
      unfold classify in *. rewrite pverts_fresh in *. destruct (classify_core vs) as [[[c d] k]|]; cbn [bind] in *; [|reflexivity].
      destruct (c && negb d) eqn:E2.
      + destruct (split_y_polylines vs); cbn [bind] in *; [|reflexivity]. cbn in Hc. apply andb_true_iff in E2. destruct E2; subst. discriminate.
      + cbn in *. reflexivity. }
  apply qinv_answer.
  - apply qinv_reads; auto. apply qinv_fresh.
  - destruct Hs as [Hs|Hs]; [auto|]. right. apply simple_reads_centroid; [apply coh_cleared|rewrite pverts_fresh; exact Hs|rewrite pfresh_centroid; discriminate].
Qed.
Print Assumptions C50_reads_partial.

(** A non-convex quadrilateral. *)
Example C50_ex : let vs := map zv [(0, 0); (10, 0); (2, 2); (0, 10)]%Z in
  fst (get_is_convex (poly_from_points vs)) = Ok false /\ Forall (same_eps 0) [QContains 0 (mkV 5 5); QCentroid] /\
  fst (contains_point 0 (zv (1, 2)%Z) (poly_from_points vs)) = Ok true.
Proof.
  cbn zeta. set (l := [(0, 0); (10, 0); (2, 2); (0, 10)]%Z). split.
  - assert (E : classify_core (map zv l) = Ok (false, false, 4%nat)) by (rewrite z_classify_core; vm_compute; reflexivity).
    unfold get_is_convex. change (pconvex (poly_from_points (map zv l))) with (@None bool). unfold classify. change (pverts (poly_from_points (map zv l))) with (map zv l).
    rewrite E. reflexivity.
  - split; [repeat constructor|]. rewrite contains_wind4 by reflexivity. cbn [fst]. change (pverts (poly_from_points (map zv l))) with (map zv l).
    rewrite z_winding. vm_compute. reflexivity.
Qed.

(** ** C51 *)
(** Same vertices and same answers to the cached queries, in every reachable
    state of every number system. *)
Theorem C51_copy_same : forall (T : Type) (N : Num T) (p : poly T),
  pverts (poly_copy p) = pverts p /\ pverts (poly_deepcopy p) = pverts p /\
  fst (get_is_convex (poly_copy p)) = fst (get_is_convex p) /\ fst (get_is_convex (poly_deepcopy p)) = fst (get_is_convex p) /\
  fst (get_is_simple (poly_copy p)) = fst (get_is_simple p) /\ fst (get_is_simple (poly_deepcopy p)) = fst (get_is_simple p) /\
  fst (get_centroid (poly_copy p)) = fst (get_centroid p) /\ fst (get_centroid (poly_deepcopy p)) = fst (get_centroid p) /\
  fst (get_bbox (poly_copy p)) = fst (get_bbox p).
Proof.
  intros T N p. split; [reflexivity|]. split; [reflexivity|].
  assert (HC : forall q : poly T, pverts q = pverts p -> pconvex q = pconvex p -> psimple q = psimple p -> pcentroid q = pcentroid p ->
    fst (get_is_convex q) = fst (get_is_convex p) /\ fst (get_is_simple q) = fst (get_is_simple p) /\ fst (get_centroid q) = fst (get_centroid p)).
  { intros q E1 E2 E3 E4.
    assert (K : match classify q, classify p with Ok q1, Ok p1 => pconvex q1 = pconvex p1 /\ psimple q1 = psimple p1 /\ pverts q1 = pverts p1 | Err e, Err e' => e = e' | _, _ => False end).
    { unfold classify. rewrite E1. destruct (classify_core (pverts p)) as [[[c d] k]|]; cbn [bind]; auto. destruct (c && negb d); cbn; auto.
      destruct (split_y_polylines (pverts p)); cbn; auto. }
    split; [|assert (HS : fst (get_is_simple q) = fst (get_is_simple p) /\ pverts (snd (get_is_simple q)) = pverts (snd (get_is_simple p))); [|split; [apply HS|]]].
    - unfold get_is_convex. rewrite E2. destruct (pconvex p); auto. destruct (classify q) as [q1|], (classify p) as [p1|]; try contradiction; [|subst; auto].
      destruct K as (K1 & _). rewrite K1. destruct (pconvex p1); auto.
    - split; [|rewrite !simple_verts; auto]. unfold get_is_simple. rewrite E2, E3. destruct (psimple p) eqn:Hs; auto. destruct (pconvex p).
      + rewrite E3, Hs, E1. auto.
      + destruct (classify q) as [q1|], (classify p) as [p1|]; try contradiction; [|subst; auto]. destruct K as (K1 & K2 & K3). rewrite K2, K3. destruct (psimple p1); auto.
    - unfold get_centroid. rewrite E4. destruct (pcentroid p); auto. destruct HS as [H1 H2]. destruct (get_is_simple q) as [r q1], (get_is_simple p) as [r' p1]. cbn [fst snd] in *. subst r'.
      destruct r as [[|]|]; auto. rewrite H2. destruct (centroid_value (pverts p1)); auto. }
  destruct (HC (poly_copy p)) as (A1 & A2 & A3); auto. destruct (HC (poly_deepcopy p)) as (B1 & B2 & B3); auto.
  do 6 (split; [assumption|]). unfold get_bbox. cbn. destruct (pbbox p); auto. destruct (box_from_points (pverts p)); auto.
Qed.
Print Assumptions C51_copy_same.

(** bounding_box of a deep copy is recomputed from the vertices. *)
Theorem C51_deepcopy_bbox : forall (T : Type) (N : Num T) (vs : list (vec T)) (os : list (pop T)),
  let p := prun (poly_from_points vs) os in fst (get_bbox (poly_deepcopy p)) = fst (get_bbox p).
Proof.
  intros T N vs os p. assert (Hp : coh p) by (apply prun_coh; apply coh_cleared).
  destruct (read_bbox p Hp) as (-> & _). destruct (read_bbox (poly_deepcopy p) (op_state_coh PDeepcopy p Hp)) as (-> & _). reflexivity.
Qed.
Print Assumptions C51_deepcopy_bbox.

(** Over the reals copies compare equal to the original. *)
Theorem C51_copy_equal : forall p : poly R, poly_eqb p (poly_copy p) = Ok true /\ poly_eqb p (poly_deepcopy p) = Ok true.
Proof.
  intro p. unfold poly_eqb. cbn [poly_copy poly_deepcopy pverts]. assert (H : poly_eqb_verts (pverts p) (pverts p) = Ok true); [|auto].
  unfold poly_eqb_verts. rewrite Nat.eqb_refl. cbn [negb].
  assert (HF : forallb (fun ab : pt * pt => negb (vec_neb (fst ab) (snd ab))) (combine (pverts p) (pverts p)) = true); [|rewrite HF; auto].
  apply forallb_forall. intros [a b] Hab. cbn [fst snd].
  assert (a = b) as <-.
  { revert Hab. generalize (pverts p) as l. induction l as [|x l IH]; cbn; [tauto|]. intros [K|K]; [congruence|auto]. }
  unfold vec_neb. rnum. destruct (Reqb_spec (vx a) (vx a)); [|contradiction]. destruct (Reqb_spec (vy a) (vy a)); [|contradiction]. reflexivity.
Qed.
Print Assumptions C51_copy_equal.

(** Independence: whatever is called on the original and on the copy, in any
    interleaving, each evolves as if it were alone. *)
Definition no_copy_op {T} (o : pop T) : Prop := o <> PCopy /\ o <> PDeepcopy.
Section Indep.
  Context {T : Type} {N : Num T}.
  Lemma upd_length {X} (l : list X) : forall k x, length (upd l k x) = length l.
  Proof. induction l as [|a l IH]; intros [|k] x; cbn; auto. Qed.
  Lemma upd_same {X} (l : list X) d : forall k x, (k < length l)%nat -> nth k (upd l k x) d = x.
  Proof. induction l as [|a l IH]; intros [|k] x; cbn; intro H; try lia; auto. apply IH. lia. Qed.
  Lemma upd_other {X} (l : list X) d : forall k j x, j <> k -> nth j (upd l k x) d = nth j l d.
  Proof. induction l as [|a l IH]; intros [|k] [|j] x H; cbn; auto; try congruence. Qed.
  Lemma call_self o (h : heap T) x h' x' : no_copy_op o -> (oref x < length h)%nat -> obj_call o h x = (h', x') ->
    deref h' x' = op_state o (deref h x) /\ oref x' = oref x /\ length h' = length h /\ (forall z, oref z <> oref x -> deref h' z = deref h z).
  Proof.
    intros [Ho1 Ho2] HL HC.
    assert (HC' : (upd h (oref x) (pverts (op_state o (deref h x))), mkObj (oref x) (op_state o (deref h x))) = (h', x')) by (destruct o; auto; congruence).
    injection HC' as <- <-. cbn [oref]. rewrite upd_length. split; [|split; [auto|split; [auto|]]].
    - unfold deref at 1. cbn [oref orest]. rewrite upd_same by auto. destruct (op_state o (deref h x)); reflexivity.
    - intros z Hz. unfold deref. rewrite upd_other by auto. reflexivity.
  Qed.
  Lemma two_run_indep os : Forall (fun bo => no_copy_op (snd bo)) os -> forall (h : heap T) x y h' x' y',
    (oref x < length h)%nat -> (oref y < length h)%nat -> oref x <> oref y ->
    two_run h x y os = (h', x', y') ->
    deref h' x' = prun (deref h x) (map snd (filter (fun bo => fst bo) os)) /\
    deref h' y' = prun (deref h y) (map snd (filter (fun bo => negb (fst bo)) os)).
  Proof.
    induction 1 as [|[b o] os Ho Hos IH]; intros h x y h' x' y' Hx Hy Hxy HR.
    - injection HR as <- <- <-. auto.
    - cbn [two_run fold_left] in HR. cbn [snd] in Ho. destruct b; cbn [filter fst negb map snd].
      + destruct (obj_call o h x) as [h1 x1] eqn:HC. destruct (call_self o h x h1 x1 Ho Hx HC) as (K1 & K2 & K3 & K4).
        destruct (IH h1 x1 y h' x' y') as [R1 R2]; auto; try (rewrite ?K2, ?K3; auto; fail).
        split; [rewrite R1, K1; reflexivity|rewrite R2, K4 by auto; reflexivity].
      + destruct (obj_call o h y) as [h1 y1] eqn:HC. destruct (call_self o h y h1 y1 Ho Hy HC) as (K1 & K2 & K3 & K4).
        destruct (IH h1 x y1 h' x' y') as [R1 R2]; auto; try (rewrite ?K2, ?K3; auto; fail).
        split; [rewrite R1, K4 by auto; reflexivity|rewrite R2, K1; reflexivity].
  Qed.
End Indep.
Theorem C51_independent : forall (T : Type) (N : Num T) (deep : bool) (h : heap T) (x : pobj T) (os : list (bool * pop T)),
  (oref x < length h)%nat -> Forall (fun bo => no_copy_op (snd bo)) os ->
  forall h1 y h2 x2 y2, obj_copy deep h x = (h1, y) -> two_run h1 x y os = (h2, x2, y2) ->
  deref h2 x2 = prun (deref h x) (map snd (filter (fun bo => fst bo) os)) /\
  deref h2 y2 = prun (if deep then poly_deepcopy (deref h x) else poly_copy (deref h x)) (map snd (filter (fun bo => negb (fst bo)) os)).
Proof.
  intros T N deep h x os Hx Hos h1 y h2 x2 y2 HC HR. unfold obj_copy in HC. injection HC as <- <-.
  assert (D1 : forall z, (oref z < length h)%nat -> deref (h ++ [pverts (deref h x)]) z = deref h z).
  { intros z Hz. unfold deref. rewrite app_nth1 by auto. reflexivity. }
  destruct (two_run_indep os Hos (h ++ [pverts (deref h x)]) x (mkObj (length h) (if deep then poly_deepcopy (deref h x) else poly_copy (deref h x))) h2 x2 y2) as [R1 R2].
  - rewrite app_length. cbn. lia.
  - rewrite app_length. cbn. lia.
  - cbn. lia.
  - exact HR.
  - rewrite R1, R2. rewrite D1 by auto. split; [reflexivity|]. f_equal. unfold deref at 1. cbn [oref orest].
    rewrite app_nth2, Nat.sub_diag by lia. cbn [nth]. destruct deep; reflexivity.
Qed.
Print Assumptions C51_independent.

(** contains_point: the shallow copy agrees with the original (under one value
    of EPSILON); the deep copy may not. *)
Theorem C51_deepcopy_contains_refuted : exists (p : poly R) (pt : pt) (E : R), reachable p /\
  fst (contains_point E pt (poly_deepcopy p)) <> fst (contains_point E pt p).
Proof.
  destruct C50_refuted as (vs & pt & qs & E & _). clear.
  exists (preads (poly_from_points sq) [QConvex]), (mkV 5 5), 0. split.
  { exists (poly_from_points sq), [PRead QConvex]. split; [constructor|reflexivity]. }
  change (poly_from_points sq) with (pfresh sq). change (mkV 5 5) with (zv (5, 5)%Z). rewrite sq_zv. cbn [preads fold_left read_state].
  assert (E : classify_core (map zv sq_z) = Ok (true, false, 4%nat)) by (rewrite z_classify_core; vm_compute; reflexivity).
  destruct (split_ok (map zv sq_z)) as [pl Hpl]; [discriminate|]. rewrite (convex_detected (map zv sq_z) _ _ ltac:(cbn; lia) E Hpl). cbn [snd].
  rewrite contains_wind4 by reflexivity. rewrite (contains_pl4 _ _ _ pl) by reflexivity. cbn [fst poly_deepcopy pverts]. rewrite z_split in Hpl.
  assert (S : exists pq, split_y_polylines (map qv sq_z) = Ok pq /\ y_monotone_test pq (qv (5, 5)%Z) = Ok false) by (eexists; split; vm_compute; reflexivity).
  destruct S as (pq & S1 & S2). rewrite S1 in Hpl. cbn [rmap] in Hpl. injection Hpl as <-. rewrite z_y_monotone, S2, z_winding. vm_compute. discriminate.
Qed.
Print Assumptions C51_deepcopy_contains_refuted.

Section CopyContains.
  Context {T : Type} {N : Num T}.
  (** The stored triangle closure was built from the current vertices. *)
  Definition tri_ok (E : T) (p : poly T) : Prop := length (pverts p) = 3%nat -> forall c, ptri p = Some c -> tri_build E (pverts p) = Ok (Some c).
  Lemma tri_cleared E vs (t : option (tri_closure T)) : tri_ok E (cleared vs t).
  Proof. intros HL c Hc. cbn [cleared pverts ptri] in *. rewrite HL in Hc. discriminate. Qed.
  Lemma tri_ext E (p q : poly T) : tri_ok E p -> pverts q = pverts p -> ptri q = ptri p \/ ptri q = None -> tri_ok E q.
  Proof. intros H E1 E2 HL c Hc. rewrite E1 in *. apply H; auto. destruct E2; congruence. Qed.
  Lemma classify_tri (p p1 : poly T) : classify p = Ok p1 -> ptri p1 = ptri p.
  Proof.
    intro H. unfold classify in H. destruct (classify_core _) as [[[c d] k]|]; cbn [bind] in H; [|discriminate]. destruct (c && negb d); [|injection H as <-; auto].
    destruct (split_y_polylines _); cbn [bind] in H; [|discriminate]. injection H as <-. auto.
  Qed.
  Lemma convex_tri (p : poly T) : ptri (snd (get_is_convex p)) = ptri p.
  Proof. unfold get_is_convex. destruct (pconvex p); auto. destruct (classify p) as [p1|] eqn:E; auto. apply classify_tri in E. destruct (pconvex p1); auto. Qed.
  Lemma simple_tri (p : poly T) : ptri (snd (get_is_simple p)) = ptri p.
  Proof.
    unfold get_is_simple. destruct (psimple p) eqn:Hs; auto. destruct (pconvex p); [rewrite Hs; auto|]. destruct (classify p) as [p1|] eqn:E; auto.
    apply classify_tri in E. destruct (psimple p1); auto.
  Qed.
  Lemma tri_op E o (p : poly T) : op_eps E o -> tri_ok E p -> tri_ok E (op_state o p).
  Proof.
    intros HE H. destruct o as [q|i v|m| |]; cbn [op_state].
    - destruct q; cbn [read_state op_eps same_eps] in *.
      + eapply tri_ext; eauto using convex_state_verts. left. apply convex_tri.
      + eapply tri_ext; eauto using simple_verts. left. apply simple_tri.
      + eapply tri_ext; eauto using centroid_verts. left. unfold get_centroid. destruct (pcentroid p); auto. pose proof (simple_tri p) as K.
        destruct (get_is_simple p) as [[[|]|] p1]; cbn [snd] in *; auto. destruct (centroid_value (pverts p1)); auto.
      + eapply tri_ext; eauto using bbox_verts. left. unfold get_bbox. destruct (pbbox p); auto. destruct (box_from_points _); auto.
      + subst. unfold contains_point. destruct (Nat.eqb_spec (length (pverts p)) 3) as [HL|HL].
        * unfold triangle_test. destruct (ptri p) eqn:Ht; auto. destruct (tri_build E (pverts p)) as [[c|]|] eqn:Hb; auto. cbn [snd]. intros _ c' Hc'. cbn in Hc'. cbn [pverts]. congruence.
        * intro K. exfalso. apply HL. pose proof (read_verts (QContains E pt) p) as KV. cbn [read_state] in KV. unfold contains_point in KV.
          destruct (Nat.eqb_spec (length (pverts p)) 3); [contradiction|]. rewrite KV in K. exact K.
      + eapply tri_ext; eauto; [apply (read_verts (QTangents pt))|]. left. unfold tangents_to_point. destruct (Nat.ltb _ _); auto. pose proof (convex_tri p) as K.
        destruct (get_is_convex p) as [[[|]|] p1]; cbn [snd] in *; auto. destruct (pdupe p1) as [[|]|]; auto.
    - unfold poly_setitem. destruct (py_set _ _ _); auto. apply tri_cleared.
    - apply tri_cleared.
    - eapply tri_ext; eauto.
    - eapply tri_ext; eauto.
  Qed.
End CopyContains.
Theorem C51_copy_contains_partial : forall (T : Type) (N : Num T) (E : T) (vs : list (vec T)) (os : list (pop T)) (pt : vec T),
  Forall (op_eps E) os -> let p := prun (poly_from_points vs) os in
  fst (contains_point E pt (poly_copy p)) = fst (contains_point E pt p).
Proof.
  intros T N E vs os pt Hos p.
  assert (Ht : tri_ok E p).
  { subst p. assert (K : tri_ok E (poly_from_points vs)) by apply tri_cleared. revert K. generalize (poly_from_points vs). induction Hos as [|o os Ho Hos IH]; intros q K; cbn; auto.
    apply IH. apply tri_op; auto. }
  clearbody p. unfold contains_point. cbn [poly_copy pverts]. destruct (Nat.eqb_spec (length (pverts p)) 3) as [HL|HL].
  - unfold triangle_test. cbn [poly_copy ptri pverts]. destruct (ptri p) eqn:E1.
    + rewrite (Ht HL _ E1). reflexivity.
    + destruct (tri_build E (pverts p)) as [[c|]|]; reflexivity.
  - unfold radial_shortcut. cbn [poly_copy pverts pcentroid pminr2 pmaxr2].
    match goal with |- fst (match ?r with _ => _ end) = _ => destruct r as [[b|]|]; auto end.
    change (pypl (poly_copy p)) with (pypl p). destruct (pypl p); auto. destruct (Nat.eqb _ 4); auto. unfold get_bbox. cbn [poly_copy pbbox pverts]. destruct (pbbox p) as [bb|]; cbn [fst].
    + destruct (box_contains bb pt); auto.
    + destruct (box_from_points (pverts p)) as [bb|]; auto. destruct (box_contains bb pt); auto.
Qed.
Print Assumptions C51_copy_contains_partial.

Example C51_ex : (oref (mkObj 0 (poly_from_points sq)) < length [sq])%nat /\
  Forall (fun bo => @no_copy_op R (snd bo)) [(true, PSet 0 (mkV 3 3)); (false, PRead QConvex)] /\
  deref [sq] (mkObj 0 (poly_from_points sq)) = poly_from_points sq.
Proof. split; [cbn; lia|]. split; [repeat constructor; discriminate|reflexivity]. Qed.

(** ** C59 *)
(** Reading the centroid of a non-simple polygon makes every later point query
    raise TypeError. *)
Theorem C59_refuted : exists (vs : list pt) (E : R) (pt : pt), (3 <= length vs)%nat /\
  fst (contains_point E pt (preads (poly_from_points vs) [QCentroid])) = Err TypeError.
Proof.
  set (l := [(0, 0); (4, 4); (4, 0); (0, 4); (2, 6)]%Z). exists (map zv l), 0, (mkV 1 1). split; [cbn; lia|].
  cbn [preads fold_left read_state]. change (poly_from_points (map zv l)) with (pfresh (map zv l)).
  assert (E : exists d k, classify_core (map zv l) = Ok (false, d, k)) by (do 2 eexists; rewrite z_classify_core; vm_compute; reflexivity). destruct E as (d & k & E).
  rewrite (nonsimple_detected _ d k); [|cbn; lia|exact E|rewrite z_check_is_simple; vm_compute; reflexivity]. reflexivity.
Qed.
Print Assumptions C59_refuted.

(** That is the only way: in any reachable state (any constructor, any
    declarations, any history), on ordinary coordinates, a query returns a
    boolean unless the polygon has more than four vertices and its centroid
    has been computed to be None. *)
Theorem C59_total_partial : forall (T : Type) (N : Num T) (D : T -> Prop), OrdLaws T N D ->
  forall (E : T) (pt : vec T) (p : poly T), reachable p -> (3 <= length (pverts p))%nat -> Forall (ord_pt D) (pverts p) -> D (vy pt) ->
  (exists b, fst (contains_point E pt p) = Ok b) \/
  (fst (contains_point E pt p) = Err TypeError /\ (4 < length (pverts p))%nat /\ fst (get_centroid p) = Ok None).
Proof.
  intros T N D O E pt p Hr HL HD Hp. destruct (contains_total O E pt p HL HD Hp (fi_pl p (finv_reachable p Hr))) as [H|(H1 & H2 & H3)]; [auto|].
  right. split; auto. split; auto. unfold get_centroid. rewrite H2. reflexivity.
Qed.
Print Assumptions C59_total_partial.

(** In particular when no centroid is read. *)
Theorem C59_no_centroid_partial : forall (T : Type) (N : Num T) (D : T -> Prop), OrdLaws T N D ->
  forall (E : T) (pt : vec T) (p0 : poly T) (os : list (pop T)), poly_born p0 -> Forall not_centroid os ->
  let p := prun p0 os in (3 <= length (pverts p))%nat -> Forall (ord_pt D) (pverts p) -> D (vy pt) ->
  exists b, fst (contains_point E pt p) = Ok b.
Proof.
  intros T N D O E pt p0 os Hb Hos p HL HD Hp. destruct (contains_total O E pt p HL HD Hp) as [H|(H1 & H2 & H3)]; auto.
  - apply fi_pl. apply finv_reachable. exists p0, os. auto.
  - exfalso. apply (prun_centroid os Hos p0 (born_centroid p0 Hb)). exact H2.
Qed.
Print Assumptions C59_no_centroid_partial.

(** Both number systems satisfy the hypothesis on comparison. *)
Theorem C59_float_partial : forall (L : FloatLib) (E : float) (pt : vec float) (p0 : poly float) (os : list (pop float)),
  @poly_born _ (FNum L) p0 -> Forall not_centroid os ->
  let p := @prun _ (FNum L) p0 os in (3 <= length (pverts p))%nat -> Forall (ord_pt not_nan) (pverts p) -> not_nan (vy pt) ->
  exists b, fst (@contains_point _ (FNum L) E pt p) = Ok b.
Proof. intros L. apply (C59_no_centroid_partial float (FNum L) not_nan (float_ordlaws L)). Qed.
Print Assumptions C59_float_partial.

Example C59_ex : poly_born (poly_from_points sq) /\ Forall (@not_centroid R) [PRead QConvex; PSet 0 (mkV 1 1)] /\
  (3 <= length (pverts (prun (poly_from_points sq) [PRead QConvex; PSet 0 (mkV 1%R 1%R)])))%nat /\ OrdLaws R RNum (fun _ => True).
Proof.
  split; [constructor|]. split; [repeat constructor; discriminate|]. split; [|exact R_ordlaws]. rewrite prun_verts. cbn. lia.
Qed.

(** ** C63 *)
Theorem C63_refuted : exists vs : list pt, (3 <= length vs)%nat /\ fst (get_centroid (poly_from_points vs)) = Err ZeroDivisionError.
Proof.
  exists [mkV 0 0; mkV 1 1; mkV 2 2]. split; [cbn; lia|]. unfold get_centroid, get_is_simple. cbn [poly_from_points cleared length Nat.ltb Nat.leb pcentroid psimple pverts].
  unfold centroid_value. cbn [fold_left centroid_step]. unfold vdivs, vadd, vscale. rnum.
  replace (3 * (0 + ((1 - 0) * (2 - 0) - (2 - 0) * (1 - 0)))) with 0 by ring. rewrite pydiv_R0. reflexivity.
Qed.
Print Assumptions C63_refuted.
(** Nothing but a division by zero can go wrong, in any state of any polygon
    with at least two vertices. *)
Theorem C63_outcomes_partial : forall (T : Type) (N : Num T) (p : poly T), (2 <= length (pverts p))%nat ->
  (exists c, fst (get_centroid p) = Ok c) \/ fst (get_centroid p) = Err ZeroDivisionError.
Proof.
  intros T N p HL. unfold get_centroid. destruct (pcentroid p); [left; cbn; eauto|].
  destruct (is_simple_total p HL) as [b Hb]. pose proof (simple_verts p) as Hv. destruct (get_is_simple p) as [r p1]. cbn [fst snd] in *. subst r.
  destruct b; [|left; cbn; eauto]. destruct (centroid_value_outcome (pverts p1)) as [[c Hc]|Hc]; [rewrite Hv; auto| |]; rewrite Hc; cbn; eauto.
Qed.
Print Assumptions C63_outcomes_partial.

(** ** C72 *)
(** repr drops a known simplicity while convexity is unknown. *)
Theorem C72_refuted : exists (p q : poly R), reachable p /\ (3 <= length (pverts p))%nat /\
  (let '(vs, c, s) := poly_repr p in poly_new vs c s) = Ok q /\ is_simple_known p = true /\ is_simple_known q = false.
Proof.
  exists (mkPoly sq None (Some true) None None None None None None None None), (pfresh sq).
  split; [|split; [cbn; lia|]].
  - eexists. exists []. split; [|reflexivity]. apply (born_new sq None (Some true)). unfold poly_new. unfold seq_new. rewrite map_vec2_of_R. reflexivity.
  - cbn [poly_repr pverts pconvex psimple]. split; [|split; reflexivity]. unfold poly_new, seq_new. rewrite map_vec2_of_R. reflexivity.
Qed.
Print Assumptions C72_refuted.
(** Otherwise the state round-trips: same vertices, same known convexity and
    simplicity. *)
Theorem C72_round_trip_partial : forall (T : Type) (N : Num T) (D : T -> Prop), OrdLaws T N D -> forall p : poly T,
  reachable p -> (3 <= length (pverts p))%nat -> (is_convex_known p = true \/ is_simple_known p = false) ->
  exists q, (let '(vs, c, s) := poly_repr p in poly_new vs c s) = Ok q /\
    pverts q = pverts p /\ pconvex q = pconvex p /\ psimple q = psimple p.
Proof.
  intros T N D O p Hr HL HK. destruct (finv_reachable p Hr) as [h1 h2 _].
  assert (HV : seq_new (pverts p) = pverts p).
  { unfold seq_new. rewrite <- (map_id (pverts p)) at 2. apply map_ext. intros [a b]. unfold vec2_of, vec2. cbn [vx vy]. rewrite !(ol_mul1 _ _ _ O). reflexivity. }
  unfold poly_repr, poly_new. rewrite HV. destruct (Nat.ltb_spec (length (pverts p)) 3); [lia|]. unfold cleared. cbn [pconvex].
  destruct (big_small (pverts p)) as [[B1 B2]|[B1 B2]]; rewrite B1.
  - destruct (pconvex p) as [[|]|] eqn:Ec; cbn [andb].
    + destruct (split_ok (pverts p)) as [pl ->]; [destruct (pverts p); cbn in HL; [lia|discriminate]|]. cbn [bind psimple]. eexists. split; [reflexivity|]. cbn. rewrite (h2 eq_refl). auto.
    + cbn [bind psimple]. destruct (psimple p) as [s|] eqn:Es; eexists; (split; [reflexivity|]); cbn; auto.
    + cbn [bind]. eexists. split; [reflexivity|]. cbn. destruct HK as [HK|HK]; [unfold is_convex_known in HK; rewrite Ec in HK; discriminate|].
      unfold is_simple_known in HK. destruct (psimple p); [discriminate|auto].
  - destruct (h1 B2) as [E1 E2]. rewrite E1, E2. cbn [bind psimple]. eexists. split; [reflexivity|]. cbn. auto.
Qed.
Print Assumptions C72_round_trip_partial.
Example C72_ex : reachable (poly_from_points sq) /\ is_simple_known (poly_from_points sq) = false.
Proof. split; [exists (poly_from_points sq), []; split; [constructor|reflexivity]|reflexivity]. Qed.
