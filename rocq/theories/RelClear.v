(** * Running the polygon code on two number systems when the points are clear of each other

    Like RelPoly.v, but nothing is computed exactly: it is enough that
    coordinates compare alike and that the three-point determinants the code
    evaluates have the same sign on both sides.  [kc] relates coordinates, [kv]
    relates the points of some domain. *)
From Coq Require Import ZArith List Bool Lia Reals Lra.
From Verif Require Import Num Vec Affine Box Seq Polygon Tangent PolyOps RelPoly SeqFacts BoxFacts PolyCache2.
Import ListNotations.
Local Open Scope num_scope.

Definition ksg {T1 : Type} {N1 : Num T1} (x : T1) (y : R) : Prop :=
  ((n0 <? x) = (n0 <? y) /\ (x <? n0) = (y <? n0)) /\ ((x <=? n0) = (y <=? n0) /\ (n0 <=? x) = (n0 <=? y)) /\ (x =? n0) = (y =? n0).

Record ClearLaws {T1 : Type} (N1 : Num T1) (kc : T1 -> R -> Prop) (kv : vec T1 -> vec R -> Prop) : Prop := {
  kl_x : forall v w, kv v w -> kc (vx v) (vx w);
  kl_y : forall v w, kv v w -> kc (vy v) (vy w);
  kl_one : forall a a', kc a a' -> kc (a * n1) (a' * n1);
  kl_vec2 : forall v w, kv v w -> kv (vec2 (vx v) (vy v)) (vec2 (vx w) (vy w));
  kl_lt : forall a a' b b', kc a a' -> kc b b' -> (a <? b) = (a' <? b');
  kl_le : forall a a' b b', kc a a' -> kc b b' -> (a <=? b) = (a' <=? b');
  kl_eq : forall a a' b b', kc a a' -> kc b b' -> (a =? b) = (a' =? b');
  kl_diff : forall a a' b b', kc a a' -> kc b b' -> ksg (a - b) (a' - b');
  kl_side : forall a a' b b' p p', kv a a' -> kv b b' -> kv p p' -> ksg (side a b p) (side a' b' p');
  kl_cross : forall a a' b b' c c' d, kv a a' -> kv b b' -> kv d b' -> kv c c' ->
    ksg (cross (vsub b a) (vsub c d)) (cross (vsub b' a') (vsub c' b')) }.

Section Clear.
  Context {T1 : Type} {N1 : Num T1} (kc : T1 -> R -> Prop) (kv : vec T1 -> vec R -> Prop).
  Context (KL : ClearLaws N1 kc kv).

  Definition kcv (v : vec T1) (w : vec R) : Prop := kc (vx v) (vx w) /\ kc (vy v) (vy w).
  Definition kyx (q : T1 * T1) (q' : R * R) : Prop := kv (mkV (snd q) (fst q)) (mkV (snd q') (fst q')).
  Definition kdv (d : vec T1) (d' : vec R) : Prop :=
    exists a a' b b', kv a a' /\ kv b b' /\ d = vsub b a /\ d' = vsub b' a'.

  Lemma kv_c v w : kv v w -> kcv v w.
  Proof using KL. intro H. split; [apply (kl_x _ _ _ KL)|apply (kl_y _ _ _ KL)]; auto. Qed.
  Lemma kyx_c q q' : kyx q q' -> kc (fst q) (fst q') /\ kc (snd q) (snd q').
  Proof using KL. intro H. apply kv_c in H. destruct H as [H1 H2]. auto. Qed.
  Lemma k_vec2 a b a' b' : kc a a' -> kc b b' -> kcv (vec2 a b) (vec2 a' b').
  Proof using KL. split; cbn [vec2 vx vy]; apply (kl_one _ _ _ KL); auto. Qed.
  Lemma k_vec2_of v v' : kv v v' -> kv (vec2_of v) (vec2_of v').
  Proof using KL. apply (kl_vec2 _ _ _ KL). Qed.
  Lemma k_one a a' : kc a a' -> kc (a * n1) (a' * n1).
  Proof using KL. apply (kl_one _ _ _ KL). Qed.
  Lemma k_vsub v w v' w' : kv v v' -> kv w w' -> kdv (vsub v w) (vsub v' w').
  Proof using. intros H H0. exists w, w', v, v'. auto. Qed.
  Lemma k_side a b p a' b' p' : kv a a' -> kv b b' -> kv p p' -> ksg (side a b p) (side a' b' p').
  Proof using KL. apply (kl_side _ _ _ KL). Qed.
  Lemma k_seg_dir a b p a' b' p' : kv a a' -> kv b b' -> kv p p' -> ksg (seg_dir a b p) (seg_dir a' b' p').
  Proof using KL. apply (kl_side _ _ _ KL). Qed.
  Lemma k_side_yx a b p a' b' p' : kyx a a' -> kyx b b' -> kv p p' -> ksg (side_yx a b p) (side_yx a' b' p').
  Proof using KL. intros Ha Hb Hp. apply (kl_side _ _ _ KL _ _ _ _ _ _ Ha Hb Hp). Qed.
  Lemma k_gt0 (a : T1) a' : ksg a a' -> (a >? n0) = (a' >? n0).
  Proof using. intro H. apply H. Qed.
  Lemma k_lt0 (a : T1) a' : ksg a a' -> (a <? n0) = (a' <? n0).
  Proof using. intro H. apply H. Qed.
  Lemma k_le0 (a : T1) a' : ksg a a' -> (a <=? n0) = (a' <=? n0).
  Proof using. intro H. apply H. Qed.
  Lemma k_ge0 (a : T1) a' : ksg a a' -> (a >=? n0) = (a' >=? n0).
  Proof using. intro H. apply H. Qed.
  Lemma k_eq0 (a : T1) a' : ksg a a' -> (a =? n0) = (a' =? n0).
  Proof using. intro H. apply H. Qed.
  Lemma kc_lt a b a' b' : kc a a' -> kc b b' -> (a <? b) = (a' <? b').
  Proof using KL. apply (kl_lt _ _ _ KL). Qed.
  Lemma kc_le a b a' b' : kc a a' -> kc b b' -> (a <=? b) = (a' <=? b').
  Proof using KL. apply (kl_le _ _ _ KL). Qed.
  Lemma kc_eq a b a' b' : kc a a' -> kc b b' -> (a =? b) = (a' =? b').
  Proof using KL. apply (kl_eq _ _ _ KL). Qed.
  Lemma k_vec_eqb a b a' b' : kv a a' -> kv b b' -> vec_eqb a b = vec_eqb a' b'.
  Proof using KL. intros H1%kv_c H2%kv_c. destruct H1, H2. unfold vec_eqb. f_equal; apply kc_eq; auto. Qed.

  (** ** Classification *)
  Lemma k_dir_of d d' : kdv d d' -> dir_of d = dir_of d'.
  Proof using KL.
    intros (a & a' & b & b' & Ha & Hb & -> & ->). apply kv_c in Ha, Hb. destruct Ha as [Ax Ay], Hb as [Bx By].
    pose proof (kl_diff _ _ _ KL _ _ _ _ Bx Ax) as H1. pose proof (kl_diff _ _ _ KL _ _ _ _ By Ay) as H2.
    unfold dir_of. cbn [vsub vx vy]. now rewrite (k_gt0 _ _ H1), (k_lt0 _ _ H1), (k_gt0 _ _ H2), (k_lt0 _ _ H2).
  Qed.
  Lemma k_vec_bool d d' : kdv d d' -> vec_bool d = vec_bool d'.
  Proof using KL.
    intros (a & a' & b & b' & Ha & Hb & -> & ->). apply kv_c in Ha, Hb. destruct Ha as [Ax Ay], Hb as [Bx By].
    pose proof (kl_diff _ _ _ KL _ _ _ _ Bx Ax) as H1. pose proof (kl_diff _ _ _ KL _ _ _ _ By Ay) as H2.
    unfold vec_bool. cbn [vsub vx vy]. now rewrite (k_eq0 _ _ H1), (k_eq0 _ _ H2).
  Qed.
  (** Successive non-zero edges share their end point. *)
  Lemma k_classify_loop vs vs' : Forall2 kv vs vs' -> forall u u' a a' b, kv u u' -> kv a a' -> kv b u' -> forall dir dc sg ct,
    classify_loop (vsub b a) dir dc sg ct (filter vec_bool (edges_from u vs)) =
    classify_loop (vsub u' a') dir dc sg ct (filter vec_bool (edges_from u' vs')).
  Proof using KL.
    induction 1 as [|v v' vs vs' Hv H IH]; intros u u' a a' b Hu Ha Hb dir dc sg ct; [reflexivity|]. cbn [edges_from filter].
    pose proof (k_vsub _ _ _ _ Hv Hu) as Hd. rewrite (k_vec_bool _ _ Hd). destruct (vec_bool (vsub v' u')) eqn:EB.
    - cbn [classify_loop]. pose proof (kl_cross _ _ _ KL _ _ _ _ _ _ _ Ha Hb Hu Hv) as Hc.
      rewrite (k_gt0 _ _ Hc), (k_lt0 _ _ Hc), (k_dir_of _ _ Hd).
      destruct (n0 <? cross _ _); [destruct (Z.eqb sg (-1)); auto|].
      destruct (cross _ _ <? n0); [destruct (Z.eqb sg 1); auto|]. auto.
    - assert (E : u' = v').
      { clear - EB. destruct u' as [x y], v' as [x' y']. unfold vec_bool in EB. cbn [vsub vx vy] in EB. apply orb_false_iff in EB.
        destruct EB as [E1 E2]. apply negb_false_iff in E1, E2. apply Reqb_true in E1, E2. cbn in E1, E2. f_equal; lra. }
      rewrite <- E in Hv. rewrite <- E. apply IH; auto.
  Qed.
  Lemma k_classify_core vs vs' : Forall2 kv vs vs' -> classify_core vs = classify_core vs'.
  Proof using KL.
    intros H. apply rres_eq. unfold classify_core. destruct H as [|f f' l l' Hf H]; [reflexivity|].
    assert (HF : Forall2 kv (f :: l) (f' :: l')) by auto. rewrite !(py_get_last _ f), !(py_get_last _ f') by discriminate. cbn [bind].
    pose proof (F2_last kv _ _ HF f f' Hf) as Hl. set (vl := last (f :: l) f) in *. set (vl' := last (f' :: l') f') in *.
    eapply rres_bind; [apply F2_get; eauto|]. intros v2 v2' Hv2. cbv zeta.
    pose proof (k_vsub _ _ _ _ Hl Hv2) as Hd. rewrite (k_dir_of _ _ Hd). unfold edge_vectors. fold vl vl'.
    rewrite (k_classify_loop _ _ HF _ _ _ _ _ Hl Hv2 Hl).
    destruct (classify_loop _ _ _ _ _ _) as [[[? ?] ?] ?]. reflexivity.
  Qed.

  (** ** Polylines *)
  Definition kext (e : @extrema T1) (e' : @extrema R) : Prop :=
    (kc (x_min_x e) (x_min_x e') /\ kc (x_max_x e) (x_max_x e') /\ kc (x_min_y e) (x_min_y e') /\ kc (x_max_y e) (x_max_y e')) /\
    x_min_i e = x_min_i e' /\ x_max_i e = x_max_i e' /\ x_left_i e = x_left_i e' /\ x_right_i e = x_right_i e'.
  Lemma k_ext_step e e' iv iv' : kext e e' -> fst iv = fst iv' /\ kv (snd iv) (snd iv') -> kext (ext_step e iv) (ext_step e' iv').
  Proof using KL.
    destruct e as [a1 a2 a3 a4 i1 i2 i3 i4], e' as [b1 b2 b3 b4 j1 j2 j3 j4], iv as [i v], iv' as [i' v'].
    unfold kext; cbn [x_min_x x_max_x x_min_y x_max_y x_min_i x_max_i x_left_i x_right_i fst snd].
    intros ((H1 & H2 & H3 & H4) & -> & -> & -> & ->) (-> & Hv). destruct (kv_c _ _ Hv) as [Hx Hy].
    unfold ext_step; cbn [x_min_x x_max_x x_min_y x_max_y x_min_i x_max_i x_left_i x_right_i].
    rewrite (kc_lt _ _ _ _ Hy H3), (kc_lt _ _ _ _ H4 Hy), (kc_lt _ _ _ _ Hx H1), (kc_lt _ _ _ _ H2 Hx).
    destruct (vy v' <? b3), (b4 <? vy v'), (vx v' <? b1), (b2 <? vx v'); cbn; auto 10.
  Qed.
  Lemma k_enumerate vs vs' : Forall2 kv vs vs' -> forall i,
    Forall2 (fun a b => fst a = fst b /\ kv (snd a) (snd b)) (enumerate_from i vs) (enumerate_from i vs').
  Proof using. induction 1; intros; cbn; constructor; auto. Qed.
  Lemma k_find_extrema vs vs' : Forall2 kv vs vs' -> rres kext (find_extrema vs) (find_extrema vs').
  Proof using KL.
    intros H. unfold find_extrema. destruct H as [|a b l l' H H0]; cbn [rres]; auto.
    eapply F2_fold with (R := fun a b => fst a = fst b /\ kv (snd a) (snd b)) (Q := kext); [intros; apply k_ext_step; auto| |].
    - apply (k_enumerate (a :: l) (b :: l')). auto.
    - apply kv_c in H. destruct H; unfold kext; cbn; auto 10.
  Qed.
  Lemma k_orient pl pl' : Forall2 kyx pl pl' -> Forall2 kyx (orient_pl pl) (orient_pl pl').
  Proof using KL.
    intros H. unfold orient_pl. destruct H as [|a b l l' H H0]; auto.
    assert (HL : kyx (last (a :: l) a) (last (b :: l') b)) by (apply F2_last; auto).
    destruct (kyx_c _ _ H) as [H1 H2], (kyx_c _ _ HL) as [H3 H4]. rewrite (kc_lt _ _ _ _ H3 H1).
    destruct (fst (last (b :: l') b) <? fst b); [apply F2_rev|]; constructor; auto; split; auto.
  Qed.
  Definition kpl (a : list (T1 * T1) * list (T1 * T1)) (b : list (R * R) * list (R * R)) : Prop :=
    Forall2 kyx (fst a) (fst b) /\ Forall2 kyx (snd a) (snd b).
  Lemma k_split vs vs' : Forall2 kv vs vs' -> rres kpl (split_y_polylines vs) (split_y_polylines vs').
  Proof using KL.
    intros H. unfold split_y_polylines. eapply rres_bind; [apply k_find_extrema; eauto|].
    intros e e' (_ & -> & -> & -> & ->). cbv zeta.
    assert (HM : Forall2 kyx (map (fun v => (vy v, vx v)) vs) (map (fun v => (vy v, vx v)) vs')).
    { eapply F2_map; [|exact H]. intros [x y] [x' y'] K. exact K. }
    assert (Hseg : forall n m, Forall2 kyx (orient_pl (firstn n (skipn m (map (fun v => (vy v, vx v)) vs))))
                                           (orient_pl (firstn n (skipn m (map (fun v => (vy v, vx v)) vs')))))
      by (intros; apply k_orient, F2_firstn, F2_skipn; auto).
    assert (Hwrap : forall n m, Forall2 kyx (orient_pl (skipn n (map (fun v => (vy v, vx v)) vs) ++ firstn m (map (fun v => (vy v, vx v)) vs)))
                                            (orient_pl (skipn n (map (fun v => (vy v, vx v)) vs') ++ firstn m (map (fun v => (vy v, vx v)) vs'))))
      by (intros; apply k_orient, F2_app; [apply F2_skipn|apply F2_firstn]; auto).
    destruct (Nat.ltb _ _);
      match goal with |- rres _ (if ?c then _ else _) _ => destruct c end; split; cbn [fst snd]; auto.
  Qed.
  Lemma k_key py py' q q' : kc py py' -> kyx q q' -> key_before py q = key_before py' q'.
  Proof using KL.
    intros H K. destruct (kyx_c _ _ K) as [H1 H2]. unfold key_before. rewrite (kc_eq _ _ _ _ H H1), (kc_lt _ _ _ _ H H1). reflexivity.
  Qed.
  Lemma k_bisect_loop pl pl' py py' : Forall2 kyx pl pl' -> kc py py' ->
    forall fuel lo hi, bisect_loop fuel pl py lo hi = bisect_loop fuel pl' py' lo hi.
  Proof using KL.
    intros H Hp. induction fuel; intros; cbn [bisect_loop]; auto.
    destruct (Nat.ltb lo hi); auto. pose proof (F2_nth _ _ _ H (Nat.div2 (lo + hi))) as Hn.
    destruct (nth_error pl _), (nth_error pl' _); cbn in Hn; try tauto; auto.
    rewrite (k_key _ _ _ _ Hp Hn). destruct (key_before py' p0); auto.
  Qed.
  Lemma k_y_monotone pl pl' p p' : kpl pl pl' -> kv p p' -> y_monotone_test pl p = y_monotone_test pl' p'.
  Proof using KL.
    destruct pl as [lp rp], pl' as [lp' rp']. intros [HL HR] Hp. cbn [fst snd] in *. apply rres_eq.
    assert (HB : forall l l', Forall2 kyx l l' -> rres eq (bisect_right l (vy p)) (bisect_right l' (vy p'))).
    { intros l l' Hl. apply rres_eq. unfold bisect_right. rewrite (F2_length _ _ _ Hl).
      apply k_bisect_loop; auto. apply kv_c; auto. }
    unfold y_monotone_test. eapply rres_bind; [apply HB; eauto|]. intros i ? <-. rewrite <- (F2_length _ _ _ HL).
    destruct (_ || _); [reflexivity|].
    eapply rres_bind; [apply F2_get; eauto|]. intros q0 q0' H0. eapply rres_bind; [apply F2_get; eauto|]. intros q1 q1' H1.
    rewrite (k_gt0 _ _ (k_side_yx _ _ _ _ _ _ H0 H1 Hp)). destruct (n0 <? _); [reflexivity|].
    eapply rres_bind; [apply HB; eauto|]. intros j ? <-.
    eapply rres_bind; [apply F2_get; eauto|]. intros q2 q2' H2. eapply rres_bind; [apply F2_get; eauto|]. intros q3 q3' H3.
    cbn. apply (k_gt0 _ _ (k_side_yx _ _ _ _ _ _ H2 H3 Hp)).
  Qed.

  (** ** Simplicity *)
  Definition ken (x : vec T1 * vec T1 * nat) (y : vec R * vec R * nat) : Prop :=
    kv (fst (fst x)) (fst (fst y)) /\ kv (snd (fst x)) (snd (fst y)) /\ snd x = snd y.
  Lemma k_segments a b c d a' b' c' d' : kv a a' -> kv b b' -> kv c c' -> kv d d' ->
    segments_intersect a b c d = segments_intersect a' b' c' d'.
  Proof using KL.
    intros Ha Hb Hc Hd. unfold segments_intersect, nfalsy.
    rewrite (k_gt0 _ _ (k_seg_dir _ _ _ _ _ _ Ha Hb Hc)), (k_gt0 _ _ (k_seg_dir _ _ _ _ _ _ Ha Hb Hd)),
      (k_gt0 _ _ (k_seg_dir _ _ _ _ _ _ Hc Hd Ha)), (k_gt0 _ _ (k_seg_dir _ _ _ _ _ _ Hc Hd Hb)),
      (k_eq0 _ _ (k_seg_dir _ _ _ _ _ _ Ha Hb Hc)), (k_eq0 _ _ (k_seg_dir _ _ _ _ _ _ Ha Hb Hd)),
      (k_eq0 _ _ (k_seg_dir _ _ _ _ _ _ Hc Hd Ha)), (k_eq0 _ _ (k_seg_dir _ _ _ _ _ _ Hc Hd Hb)).
    reflexivity.
  Qed.
  Lemma k_pt_ltb a b a' b' : kv a a' -> kv b b' -> pt_ltb a b = pt_ltb a' b'.
  Proof using KL.
    intros A B. destruct (kv_c _ _ A) as [H1 H2], (kv_c _ _ B) as [H3 H4]. unfold pt_ltb.
    now rewrite (kc_eq _ _ _ _ H1 H3), (kc_eq _ _ _ _ H2 H4), (kc_lt _ _ _ _ H1 H3), (kc_lt _ _ _ _ H2 H4).
  Qed.
  Lemma k_entry_ltb x y x' y' : ken x x' -> ken y y' -> entry_ltb x y = entry_ltb x' y'.
  Proof using KL.
    destruct x as [[s e] i], x' as [[s' e'] i'], y as [[t f] j], y' as [[t' f'] j'].
    intros (H1 & H2 & H3) (H4 & H5 & H6); cbn [fst snd] in *; subst. unfold entry_ltb.
    now rewrite (k_vec_eqb _ _ _ _ H1 H4), (k_vec_eqb _ _ _ _ H2 H5), (k_pt_ltb _ _ _ _ H1 H4), (k_pt_ltb _ _ _ _ H2 H5).
  Qed.
  Lemma k_pairs_from vs vs' : Forall2 kv vs vs' -> forall i v v', kv v v' -> Forall2 ken (pairs_from i v vs) (pairs_from i v' vs').
  Proof using. induction 1; intros; cbn; constructor; auto. unfold ken; cbn [fst snd]; auto. Qed.
  Lemma k_sweep_points vs vs' : Forall2 kv vs vs' -> Forall2 ken (sweep_points vs) (sweep_points vs').
  Proof using KL.
    intros H. unfold sweep_points. apply F2_sort; [intros; apply k_entry_ltb; auto|].
    assert (HE : Forall2 ken (indexed_edges vs) (indexed_edges vs')).
    { unfold indexed_edges. destruct H as [|a b l l' H H0]; auto. apply k_pairs_from; auto. apply F2_last; auto. }
    apply F2_app; auto. eapply F2_map; [|exact HE]. intros [[s e] i] [[s' e'] i'] (H1 & H2 & H3); cbn [fst snd] in *.
    repeat split; cbn [fst snd]; auto; try apply H1; apply H2.
  Qed.
  Lemma k_hits n x x' o o' : ken x x' -> Forall2 ken o o' -> hits_open n x o = hits_open n x' o'.
  Proof using KL.
    destruct x as [[s e] i], x' as [[s' e'] i']. intros (H1 & H2 & H3) H; cbn [fst snd] in *; subst. unfold hits_open.
    eapply F2_existsb; [|exact H]. intros [[t f] j] [[t' f'] j'] (H4 & H5 & H6); cbn [fst snd] in *; subst.
    f_equal. apply k_segments; auto.
  Qed.
  Lemma k_sweep n pts pts' : Forall2 ken pts pts' -> forall o o', Forall2 ken o o' -> sweep n o pts = sweep n o' pts'.
  Proof using KL.
    induction 1 as [|x x' pts pts' Hx H IH]; intros o o' Ho; cbn [sweep]; auto.
    destruct x as [[s e] i], x' as [[s' e'] i']. destruct (Hx) as (H1 & H2 & H3); cbn [fst snd] in *; subst.
    rewrite (F2_existsb ken _ (fun y => Nat.eqb (snd y) i') o o') by (auto; intros a a' (_ & _ & ->); auto).
    destruct (existsb _ _).
    - apply IH. eapply F2_filter; eauto. intros a a' (_ & _ & ->); auto.
    - rewrite (k_hits n _ _ _ _ Hx Ho). destruct (hits_open _ _ _); auto. apply IH. apply F2_app; auto.
  Qed.
  Lemma k_check_is_simple vs vs' : Forall2 kv vs vs' -> check_is_simple vs = check_is_simple vs'.
  Proof using KL.
    intros H. unfold check_is_simple. rewrite (F2_length _ _ _ H). apply k_sweep; auto. apply k_sweep_points; auto.
  Qed.

  (** ** Boxes and winding *)
  Definition kbox (b : bbox T1) (b' : bbox R) : Prop := kcv (bmin b) (bmin b') /\ kcv (bmax b) (bmax b').
  Definition kst (s : T1 * T1 * T1 * T1) (s' : R * R * R * R) : Prop :=
    let '(a, b, c, d) := s in let '(a', b', c', d') := s' in kc a a' /\ kc b b' /\ kc c c' /\ kc d d'.
  Lemma k_minmax s s' v v' : kst s s' -> kv v v' -> kst (minmax_step s v) (minmax_step s' v').
  Proof using KL.
    destruct s as [[[a b] c] d], s' as [[[a' b'] c'] d']. intros (H1 & H2 & H3 & H4) Hv. destruct (kv_c _ _ Hv) as [Hx Hy]. unfold minmax_step.
    rewrite (kc_lt _ _ _ _ Hx H1), (kc_lt _ _ _ _ H3 Hx), (kc_lt _ _ _ _ Hy H2), (kc_lt _ _ _ _ H4 Hy).
    destruct (vx v' <? a'), (c' <? vx v'), (vy v' <? b'), (d' <? vy v'); cbn; auto using k_one.
  Qed.
  Lemma k_box_from_points vs vs' : Forall2 kv vs vs' -> rres kbox (box_from_points vs) (box_from_points vs').
  Proof using KL.
    intros H. unfold box_from_points. destruct H as [|a b l l' H H0]; cbn [rres]; auto.
    assert (HS : kst (fold_left minmax_step l (vx a, vy a, vx a, vy a)) (fold_left minmax_step l' (vx b, vy b, vx b, vy b))).
    { eapply F2_fold with (Q := kst); [intros; eapply k_minmax; eauto|exact H0|]. apply kv_c in H. destruct H; cbn; auto. }
    destruct (fold_left minmax_step l _) as [[[x y] z] t], (fold_left minmax_step l' _) as [[[x' y'] z'] t'].
    destruct HS as (H1 & H2 & H3 & H4). split; cbn [bmin bmax]; apply k_vec2; auto.
  Qed.
  Lemma k_box_contains b b' p p' : kbox b b' -> kv p p' -> box_contains b p = box_contains b' p'.
  Proof using KL.
    intros [[H1 H2] [H3 H4]] Hp. destruct (kv_c _ _ Hp) as [Hx Hy]. unfold box_contains.
    now rewrite (kc_le _ _ _ _ H1 Hx), (kc_lt _ _ _ _ Hx H3), (kc_lt _ _ _ _ H2 Hy), (kc_le _ _ _ _ Hy H4).
  Qed.
  Lemma k_wind_contrib p a b p' a' b' : kv p p' -> kv a a' -> kv b b' -> wind_contrib p a b = wind_contrib p' a' b'.
  Proof using KL.
    intros Hp Ha Hb. unfold wind_contrib. pose proof (k_side _ _ _ _ _ _ Ha Hb Hp) as Hs.
    rewrite (k_le0 _ _ Hs), (k_ge0 _ _ Hs). apply kv_c in Hp, Ha, Hb. destruct Hp as [_ Hp], Ha as [_ Ha], Hb as [_ Hb].
    now rewrite (kc_le _ _ _ _ Hp Ha), (kc_le _ _ _ _ Hp Hb).
  Qed.
  Lemma k_wind_loop p p' vs vs' : kv p p' -> Forall2 kv vs vs' -> forall v v' w, kv v v' -> wind_loop p v w vs = wind_loop p' v' w vs'.
  Proof using KL.
    intros Hp. induction 1 as [|a b l l' H H0 IH]; intros v v' w Hv; cbn [wind_loop]; auto.
    rewrite (k_wind_contrib _ _ _ _ _ _ Hp Hv H). auto.
  Qed.
  Lemma k_winding vs vs' p p' : Forall2 kv vs vs' -> kv p p' -> winding_test vs p = winding_test vs' p'.
  Proof using KL.
    intros H Hp. apply rres_eq. unfold winding_test. eapply rres_bind; [apply F2_get; eauto|].
    intros v v' Hv. cbn. now rewrite (k_wind_loop _ _ _ _ Hp H _ _ 0%Z Hv).
  Qed.

  (** ** Tangents *)
  Definition ktst (s : vec T1 * T1 * vec T1 * vec T1) (s' : vec R * R * vec R * vec R) : Prop :=
    let '(a, b, c, d) := s in let '(a', b', c', d') := s' in kv a a' /\ ksg b b' /\ kv c c' /\ kv d d'.
  Lemma k_pt_cross p a b p' a' b' : kv p p' -> kv a a' -> kv b b' -> ksg (pt_cross p a b) (pt_cross p' a' b').
  Proof using KL. intros. apply (kl_side _ _ _ KL); auto. Qed.
  Lemma k_tan_step p p' s s' v v' : kv p p' -> ktst s s' -> kv v v' -> ktst (tan_step p s v) (tan_step p' s' v').
  Proof using KL.
    destruct s as [[[a b] c] d], s' as [[[a' b'] c'] d']. intros Hp (H1 & H2 & H3 & H4) Hv. unfold tan_step.
    pose proof (k_side _ _ _ _ _ _ H1 Hv Hp) as Hs.
    pose proof (k_pt_cross _ _ _ _ _ _ Hp H1 H4) as HR. pose proof (k_pt_cross _ _ _ _ _ _ Hp H1 H3) as HL.
    unfold pt_cross in HR, HL.
    rewrite (k_gt0 _ _ Hs), (k_le0 _ _ Hs), (k_le0 _ _ H2), (k_gt0 _ _ H2), (k_ge0 _ _ HR), (k_le0 _ _ HL).
    assert (kv (vec2 (vx a) (vy a)) (vec2 (vx a') (vy a'))) by (apply (kl_vec2 _ _ _ KL); auto).
    destruct ((b' <=? n0) && (n0 <? side a' v' p')); [destruct (_ >=? _); cbn; auto|].
    destruct ((n0 <? b') && (side a' v' p' <=? n0)); [destruct (_ <=? _); cbn; auto|]. cbn; auto.
  Qed.
  Definition kvv (a : vec T1 * vec T1) (b : vec R * vec R) : Prop := kv (fst a) (fst b) /\ kv (snd a) (snd b).
  Lemma k_pt_tangents vs vs' p p' : Forall2 kv vs vs' -> kv p p' -> rres kvv (pt_tangents vs p) (pt_tangents vs' p').
  Proof using KL.
    intros H Hp. unfold pt_tangents. eapply rres_bind; [apply F2_get; eauto|]. intros f f' Hf.
    eapply rres_bind; [apply F2_get; eauto|]. intros v v' Hv. eapply rres_bind; [apply F2_get; eauto|]. intros w w' Hw. cbv zeta.
    assert (HS : ktst (fold_left (tan_step p) vs (w, side v w p, f, f)) (fold_left (tan_step p') vs' (w', side v' w' p', f', f'))).
    { eapply F2_fold with (Q := ktst); [intros; eapply k_tan_step; eauto|exact H|]. cbn. repeat (split; [first [exact Hw|exact Hf|apply k_side; auto]|]). exact Hf. }
    destruct (fold_left (tan_step p) _ _) as [[[x y] z] t], (fold_left (tan_step p') _ _) as [[[x' y'] z'] t'].
    destruct HS as (_ & _ & H3 & H4). split; auto.
  Qed.
  Lemma k_pt_above p a b p' a' b' : kv p p' -> kv a a' -> kv b b' -> pt_above p a b = pt_above p' a' b'.
  Proof using KL. intros. eapply k_gt0, k_pt_cross; auto. Qed.
  Lemma k_pt_below p a b p' a' b' : kv p p' -> kv a a' -> kv b b' -> pt_below p a b = pt_below p' a' b'.
  Proof using KL. intros. eapply k_lt0, k_pt_cross; auto. Qed.
  Lemma k_left_loop vs vs' p p' : Forall2 kv vs vs' -> kv p p' -> forall n a b,
    left_tan_loop vs p n a b = left_tan_loop vs' p' n a b.
  Proof using KL.
    intros H Hp. induction n; intros; cbn [left_tan_loop]; auto. apply rres_eq.
    eapply rres_bind; [apply F2_get; eauto|]. intros c1 c1' H1. eapply rres_bind; [apply F2_get; eauto|]. intros c c' Hc.
    rewrite (k_pt_below _ _ _ _ _ _ Hp H1 Hc). 
    eapply (rres_bind eq).
    { destruct (negb _); [|reflexivity]. eapply rres_bind; [apply F2_get; eauto|]. intros m m' Hm. cbn. apply k_pt_above; auto. }
    intros x ? <-. destruct x; [reflexivity|].
    eapply rres_bind; [apply F2_get; eauto|]. intros a1 a1' Ha1. eapply rres_bind; [apply F2_get; eauto|]. intros a0 a0' Ha.
    rewrite (k_pt_below _ _ _ _ _ _ Hp Ha1 Ha), (k_pt_below _ _ _ _ _ _ Hp Ha Hc), (k_pt_above _ _ _ _ _ _ Hp Ha Hc).
    destruct (pt_below p' a1' a0'); destruct (_ || _); apply rres_eq; auto.
  Qed.
  Lemma k_right_loop vs vs' p p' : Forall2 kv vs vs' -> kv p p' -> forall n a b,
    right_tan_loop vs p n a b = right_tan_loop vs' p' n a b.
  Proof using KL.
    intros H Hp. induction n; intros; cbn [right_tan_loop]; auto. apply rres_eq.
    eapply rres_bind; [apply F2_get; eauto|]. intros c1 c1' H1. eapply rres_bind; [apply F2_get; eauto|]. intros c c' Hc.
    rewrite (k_pt_below _ _ _ _ _ _ Hp H1 Hc). 
    eapply (rres_bind eq).
    { destruct (pt_below p' c1' c'); [|reflexivity]. eapply rres_bind; [apply F2_get; eauto|]. intros m m' Hm. cbn. f_equal. apply k_pt_above; auto. }
    intros x ? <-. destruct x; [reflexivity|].
    eapply rres_bind; [apply F2_get; eauto|]. intros a1 a1' Ha1. eapply rres_bind; [apply F2_get; eauto|]. intros a0 a0' Ha.
    rewrite (k_pt_above _ _ _ _ _ _ Hp Ha1 Ha), (k_pt_below _ _ _ _ _ _ Hp Ha Hc), (k_pt_above _ _ _ _ _ _ Hp Ha Hc).
    destruct (pt_above p' a1' a0'); destruct (_ || _); apply rres_eq; auto.
  Qed.
  Lemma k_left_i vs vs' p p' : Forall2 kv vs vs' -> kv p p' -> left_tan_i_convex vs p = left_tan_i_convex vs' p'.
  Proof using KL.
    intros H Hp. apply rres_eq. unfold left_tan_i_convex.
    eapply rres_bind; [apply F2_get; eauto|]. intros a a' Ha. eapply rres_bind; [apply F2_get; eauto|]. intros b b' Hb.
    eapply rres_bind; [apply F2_get; eauto|]. intros c c' Hc.
    rewrite (k_pt_below _ _ _ _ _ _ Hp Ha Hb), (k_pt_above _ _ _ _ _ _ Hp Hc Hb).
    destruct (_ && _); [reflexivity|]. rewrite (F2_length _ _ _ H). apply rres_eq, k_left_loop; auto.
  Qed.
  Lemma k_right_i vs vs' p p' : Forall2 kv vs vs' -> kv p p' -> right_tan_i_convex vs p = right_tan_i_convex vs' p'.
  Proof using KL.
    intros H Hp. apply rres_eq. unfold right_tan_i_convex.
    eapply rres_bind; [apply F2_get; eauto|]. intros a a' Ha. eapply rres_bind; [apply F2_get; eauto|]. intros b b' Hb.
    eapply rres_bind; [apply F2_get; eauto|]. intros c c' Hc.
    rewrite (k_pt_below _ _ _ _ _ _ Hp Ha Hb), (k_pt_above _ _ _ _ _ _ Hp Hc Hb).
    destruct (_ && _); [reflexivity|]. rewrite (F2_length _ _ _ H). apply rres_eq, k_right_loop; auto.
  Qed.

  (** ** Objects and histories *)
  Definition kpoly (p : poly T1) (q : poly R) : Prop :=
    Forall2 kv (pverts p) (pverts q) /\ (4 <= length (pverts p))%nat /\
    pconvex p = pconvex q /\ psimple p = psimple q /\ pdupe p = pdupe q /\ pdegen p = pdegen q /\
    ropt kpl (pypl p) (pypl q) /\ ropt kbox (pbbox p) (pbbox q) /\
    (pcentroid p = None /\ pcentroid q = None) /\ (pmaxr2 p = None /\ pmaxr2 q = None) /\
    (pminr2 p = None /\ pminr2 q = None) /\ (ptri p = None /\ ptri q = None).
  Definition kcall {X Y} (Q : X -> Y -> Prop) (x : res X * poly T1) (y : res Y * poly R) : Prop :=
    rres Q (fst x) (fst y) /\ kpoly (snd x) (snd y).
  Lemma k_classify p q : kpoly p q -> rres kpoly (classify p) (classify q).
  Proof using KL.
    intros (H1 & H2 & H3 & H4 & H5 & H6 & H7 & H8 & (C1 & C2) & (M1 & M2) & (m1 & m2) & (t1 & t2)).
    unfold classify. rewrite (k_classify_core _ _ H1). apply (rres_bind eq); [apply rres_eq; auto|].
    intros [[c d] ct] ? <-. destruct (c && negb d).
    - eapply rres_bind; [apply k_split; eauto|]. intros pl pl' Hpl. cbn. unfold kpoly; cbn.
      rewrite (F2_length _ _ _ H1) in H2 |- *. repeat split; auto; try apply Hpl.
    - unfold kpoly; cbn. repeat split; auto.
  Qed.
  Lemma k_get_convex p q : kpoly p q -> kcall eq (get_is_convex p) (get_is_convex q).
  Proof using KL.
    intros H. unfold get_is_convex. pose proof H as (_ & _ & HC & _). rewrite HC. destruct (pconvex q) as [b|]; [split; cbn; auto|].
    pose proof (k_classify _ _ H) as HK. destruct (classify p) as [p'|e], (classify q) as [q'|e']; cbn in HK; try tauto.
    - pose proof HK as (_ & _ & K3 & _). rewrite K3. destruct (pconvex q'); split; cbn; auto.
    - split; cbn; auto.
  Qed.
  Lemma k_get_simple p q : kpoly p q -> kcall eq (get_is_simple p) (get_is_simple q).
  Proof using KL.
    intros H. unfold get_is_simple. pose proof H as (_ & _ & HC & HS & _). rewrite HC, HS.
    destruct (psimple q) as [b|]; [split; cbn; auto|].
    assert (HK : rres kpoly (match pconvex q with None => classify p | Some _ => Ok p end) (match pconvex q with None => classify q | Some _ => Ok q end))
      by (destruct (pconvex q); [exact H|apply k_classify; auto]).
    destruct (match pconvex q with None => classify p | Some _ => Ok p end) as [p'|e],
      (match pconvex q with None => classify q | Some _ => Ok q end) as [q'|e']; cbn in HK; try tauto; [|split; cbn; auto].
    pose proof HK as (K1 & K2 & K3 & K4 & K5). rewrite K4. destruct (psimple q'); [split; cbn; auto|].
    rewrite (k_check_is_simple _ _ K1). split; cbn; auto. unfold kpoly, set_simple; cbn; auto 10.
  Qed.
  Lemma k_get_bbox p q : kpoly p q -> kcall kbox (get_bbox p) (get_bbox q).
  Proof using KL.
    intros H. unfold get_bbox. pose proof H as (H1 & H2 & H3 & H4 & H5 & H6 & H7 & H8 & H9).
    destruct (pbbox p) as [b|], (pbbox q) as [b'|]; cbn in H8; try tauto; [split; cbn; auto|].
    pose proof (k_box_from_points _ _ H1) as HB.
    destruct (box_from_points (pverts p)), (box_from_points (pverts q)); cbn in HB; try tauto; split; cbn; auto.
    unfold kpoly; cbn. repeat (split; auto); try apply HB; tauto.
  Qed.
  Lemma k_contains E E' pt pt' p q : kpoly p q -> kv pt pt' -> kcall eq (contains_point E pt p) (contains_point E' pt' q).
  Proof using KL.
    intros H Hp. unfold contains_point. pose proof H as (H1 & H2 & H3 & H4 & H5 & H6 & H7 & H8 & (C1 & C2) & H10).
    pose proof (F2_length _ _ _ H1) as HL. rewrite <- HL.
    destruct (Nat.eqb_spec (length (pverts p)) 3) as [E3|_]; [exfalso; rewrite E3 in H2; lia|].
    assert (HR : radial_shortcut p pt = Ok None /\ radial_shortcut q pt' = Ok None).
    { unfold radial_shortcut. rewrite C1, C2. destruct (Nat.ltb _ _), (Nat.ltb _ _); auto. }
    destruct HR as [-> ->]. destruct (pypl p) as [pl|], (pypl q) as [pl'|]; cbn in H7; try tauto.
    - split; cbn [fst snd]; auto. apply rres_eq, k_y_monotone; auto.
    - destruct (Nat.eqb _ _).
      + split; cbn [fst snd]; auto. apply rres_eq, k_winding; auto.
      + pose proof (k_get_bbox _ _ H) as [HB HP]. destruct (get_bbox p) as [[b|e] p1], (get_bbox q) as [[b'|e'] q1]; cbn [fst snd rres] in HB, HP; try tauto.
        * rewrite (k_box_contains _ _ _ _ HB Hp). destruct (box_contains b' pt'); split; cbn [fst snd]; auto; [|reflexivity].
          apply rres_eq, k_winding; auto. apply HP.
        * split; auto.
  Qed.
  Lemma k_tangents pt pt' p q : kpoly p q -> kv pt pt' -> kcall kvv (tangents_to_point pt p) (tangents_to_point pt' q).
  Proof using KL.
    intros H Hp. unfold tangents_to_point. pose proof H as (H1 & _). rewrite <- (F2_length _ _ _ H1).
    destruct (Nat.ltb _ _); [|split; cbn [fst snd]; auto; apply k_pt_tangents; auto].
    pose proof (k_get_convex _ _ H) as [HC HP].
    destruct (get_is_convex p) as [[b|e] p1], (get_is_convex q) as [[b'|e'] q1]; cbn [fst snd rres] in HC, HP; try tauto; [subst b'|split; auto].
    pose proof HP as (K1 & _ & _ & _ & K5 & _). destruct b.
    - rewrite K5. destruct (pdupe q1) as [[|]|]; split; cbn [fst snd]; auto; try (apply k_pt_tangents; auto; fail).
      rewrite (k_left_i _ _ _ _ K1 Hp), (k_right_i _ _ _ _ K1 Hp).
      apply (rres_bind eq); [apply rres_eq; auto|]. intros i ? <-.
      eapply rres_bind; [apply F2_get; eauto|]. intros l l' Hl.
      apply (rres_bind eq); [apply rres_eq; auto|]. intros j ? <-.
      eapply rres_bind; [apply F2_get; eauto|]. intros m m' Hm. split; auto.
    - split; cbn [fst snd]; auto. apply k_pt_tangents; auto.
  Qed.
  Lemma k_cleared vs vs' : Forall2 kv vs vs' -> (4 <= length vs)%nat -> kpoly (cleared vs None) (cleared vs' None).
  Proof using.
    intros H Hn. unfold cleared, kpoly. rewrite <- (F2_length _ _ _ H). destruct (Nat.ltb_spec 3 (length vs)); [|lia].
    cbn. repeat split; auto.
  Qed.
  Lemma k_poly_new vs vs' c s : Forall2 kv vs vs' -> (4 <= length vs)%nat -> rres kpoly (poly_new vs c s) (poly_new vs' c s).
  Proof using KL.
    intros H Hn. unfold poly_new.
    assert (H0 : Forall2 kv (seq_new vs) (seq_new vs')).
    { unfold seq_new. eapply F2_map; [|exact H]. intros; apply k_vec2_of; auto. }
    assert (Hn0 : (4 <= length (seq_new vs))%nat) by (unfold seq_new; rewrite map_length; auto).
    rewrite <- (F2_length _ _ _ H0). destruct (Nat.ltb_spec (length (seq_new vs)) 3); [lia|].
    pose proof (k_cleared _ _ H0 Hn0) as HP. cbv zeta.
    assert (HB : pconvex (cleared (seq_new vs) None) = None /\ psimple (cleared (seq_new vs) None) = None).
    { unfold cleared. destruct (Nat.ltb_spec 3 (length (seq_new vs))); [cbn; auto|lia]. }
    destruct HB as [B1 B2]. pose proof HP as (_ & _ & Q1 & Q2 & Q3). rewrite <- Q1, B1.
    eapply (rres_bind kpoly).
    - destruct c as [c|]; [|exact HP]. destruct (_ && _) eqn:Ec.
      + eapply rres_bind; [apply k_split; eauto|]. intros pl pl' Hpl. destruct Q3 as (? & ? & ? & ? & ? & ? & ? & ?).
        unfold kpoly; cbn -[cleared]. repeat split; auto; try apply Hpl; tauto.
      + destruct Q3 as (? & ? & ? & ? & ? & ? & ? & ?). unfold kpoly; cbn -[cleared]. repeat split; auto; tauto.
    - intros p q Hpq. pose proof Hpq as (K1 & K2 & K3 & K4 & K5). rewrite <- K4. destruct s as [s|], (psimple p); auto; try exact Hpq.
      destruct K5 as (? & ? & ? & ? & ? & ? & ? & ?). unfold kpoly; cbn. repeat split; auto; tauto.
  Qed.

  (** Related calls: everything except [centroid] and products with a transform. *)
  Definition kread (a : pread T1) (b : pread R) : Prop :=
    match a, b with
    | QConvex, QConvex | QSimple, QSimple | QBbox, QBbox => True
    | QContains _ p, QContains _ q => kv p q
    | QTangents p, QTangents q => kv p q
    | _, _ => False
    end.
  Definition kop (a : pop T1) (b : pop R) : Prop :=
    match a, b with
    | PRead x, PRead y => kread x y
    | PSet i v, PSet j w => i = j /\ kv v w
    | PCopy, PCopy | PDeepcopy, PDeepcopy => True
    | _, _ => False
    end.
  Lemma k_read_state a b p q : kread a b -> kpoly p q -> kpoly (read_state a p) (read_state b q).
  Proof using KL.
    destruct a, b; cbn [kread read_state]; try tauto; intros.
    - apply k_get_convex; auto. - apply k_get_simple; auto. - apply k_get_bbox; auto.
    - apply k_contains; auto. - apply k_tangents; auto.
  Qed.
  Lemma k_op_state a b p q : kop a b -> kpoly p q -> kpoly (op_state a p) (op_state b q).
  Proof using KL.
    destruct a, b; cbn [kop op_state]; try tauto; intros.
    - apply k_read_state; auto.
    - destruct H as [-> Hv]. unfold poly_setitem. pose proof H0 as (H1 & H2 & HX). 
      pose proof (F2_set kv _ _ i0 _ _ H1 (k_vec2_of _ _ Hv)) as HS.
      destruct (py_set (pverts p) i0 (vec2_of v)) as [vs|] eqn:ES, (py_set (pverts q) i0 (vec2_of v0)) as [vs'|]; cbn in HS; try tauto; auto.
      destruct HX as (_ & _ & _ & _ & _ & _ & _ & _ & _ & T1' & R'). cbn [snd]. rewrite T1', R'.
      apply k_cleared; auto. apply F2_length in H1. 
      unfold py_set in ES. destruct (py_index (length (pverts p)) i0) as [k|] eqn:EI; [|discriminate]. injection ES as <-.
      unfold py_index in EI. destruct (_ && _) eqn:EB in EI; [|discriminate]. injection EI as <-.
      apply andb_prop in EB. unfold list_set. rewrite app_length, firstn_length. cbn [length]. rewrite skipn_length. lia.
    - destruct H0 as (? & ? & ? & ? & ? & ? & ? & ? & ? & ? & ? & ?). unfold poly_copy, kpoly; cbn. repeat split; auto; tauto.
    - destruct H0 as (? & ? & ? & ? & ? & ? & ? & ? & ? & ? & ? & ?). unfold poly_deepcopy, kpoly; cbn. repeat split; auto; tauto.
  Qed.
  Lemma k_prun os os' : Forall2 kop os os' -> forall p q, kpoly p q -> kpoly (prun p os) (prun q os').
  Proof using KL.
    intros H p q HP. unfold prun. eapply F2_fold with (Q := kpoly); [|exact H|exact HP].
    intros; apply k_op_state; auto.
  Qed.
End Clear.
