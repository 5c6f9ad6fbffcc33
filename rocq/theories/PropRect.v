(** * C36, further: what is_rectilinear says about the images of axis-parallel segments *)
From Coq Require Import List Bool Reals Lra Lia.
From Verif Require Import Num Vec Affine SpecGeom SpecAffine RBase VecFacts VecFacts2 AffineFacts.
Local Open Scope R_scope.

Definition level (p q : pt) : Prop := vy p = vy q.
Definition upright (p q : pt) : Prop := vx p = vx q.
(** The segment leaves the horizontal (the vertical) by less than k times the
    given length. *)
Definition nearly_level (k len : R) (p q : pt) : Prop := Rabs (vy q - vy p) < k * len.
Definition nearly_upright (k len : R) (p q : pt) : Prop := Rabs (vx q - vx p) < k * len.

Lemma img_diff (m : affine R) p q : vx (img m q) - vx (img m p) = (vx q - vx p) * aa m + (vy q - vy p) * ad m /\ vy (img m q) - vy (img m p) = (vx q - vx p) * ab m + (vy q - vy p) * ae m.
Proof. unfold img. cbn [vx vy]. split; ring. Qed.
Lemma rect_R E m : is_rectilinear E m = true <-> (Rabs (aa m) < E /\ Rabs (ae m) < E) \/ (Rabs (ad m) < E /\ Rabs (ab m) < E).
Proof. unfold is_rectilinear. rnum. rewrite orb_true_iff, !andb_true_iff, !Rltb_true. tauto. Qed.

(** A transform reported rectilinear sends all level segments to nearly level
    and all upright segments to nearly upright ones, or exchanges the two, with
    EPSILON as the bound on the slant. *)
Theorem C36_reported : forall (E : R) (m : affine R), is_rectilinear E m = true ->
  (forall p q, p <> q -> (level p q -> nearly_level E (dist p q) (img m p) (img m q)) /\ (upright p q -> nearly_upright E (dist p q) (img m p) (img m q))) \/
  (forall p q, p <> q -> (level p q -> nearly_upright E (dist p q) (img m p) (img m q)) /\ (upright p q -> nearly_level E (dist p q) (img m p) (img m q))).
Proof.
  intros E m H. apply rect_R in H.
  assert (DX : forall p q, level p q -> dist p q = Rabs (vx q - vx p)). { intros p q K. unfold level in K. unfold dist, norm. ug. rewrite K. replace ((vx p - vx q) * (vx p - vx q) + (vy q - vy q) * (vy q - vy q)) with (Rsqr (vx q - vx p)) by (unfold Rsqr; ring). apply sqrt_Rsqr_abs. }
  assert (DY : forall p q, upright p q -> dist p q = Rabs (vy q - vy p)). { intros p q K. unfold upright in K. unfold dist, norm. ug. rewrite K. replace ((vx q - vx q) * (vx q - vx q) + (vy p - vy q) * (vy p - vy q)) with (Rsqr (vy q - vy p)) by (unfold Rsqr; ring). apply sqrt_Rsqr_abs. }
  assert (NX : forall p q, level p q -> p <> q -> 0 < Rabs (vx q - vx p)). { intros p q K N. apply Rabs_pos_lt. intro Z. apply N. unfold level in K. vext; lra. }
  assert (NY : forall p q, upright p q -> p <> q -> 0 < Rabs (vy q - vy p)). { intros p q K N. apply Rabs_pos_lt. intro Z. apply N. unfold upright in K. vext; lra. }
  assert (M : forall u v, 0 < Rabs u -> Rabs v < E -> Rabs (u * v) < E * Rabs u). { intros u v U V. rewrite Rabs_mult, Rmult_comm. apply Rmult_lt_compat_r; auto. }
  destruct H as [[Ha He]|[Hd Hb]]; [right|left]; intros p q N; destruct (img_diff m p q) as [X Y]; (split; intro K; unfold nearly_level, nearly_upright; [rewrite (DX _ _ K)|rewrite (DY _ _ K)]); rewrite ?X, ?Y.
  - replace (vy q - vy p) with 0 by (unfold level in K; lra). rewrite Rmult_0_l, Rplus_0_r. auto.
  - replace (vx q - vx p) with 0 by (unfold upright in K; lra). rewrite Rmult_0_l, Rplus_0_l. auto.
  - replace (vy q - vy p) with 0 by (unfold level in K; lra). rewrite Rmult_0_l, Rplus_0_r. auto.
  - replace (vx q - vx p) with 0 by (unfold upright in K; lra). rewrite Rmult_0_l, Rplus_0_l. auto.
Qed.
Print Assumptions C36_reported.
(** An invertible transform that keeps axis-parallel segments axis-parallel is
    reported rectilinear for every positive EPSILON. *)
Theorem C36_recognised : forall (E : R) (m : affine R), 0 < E -> det m <> 0 ->
  (forall p q, level p q \/ upright p q -> level (img m p) (img m q) \/ upright (img m p) (img m q)) -> is_rectilinear E m = true.
Proof.
  intros E m HE D H. apply rect_R.
  assert (H1 := H (mkV 0 0) (mkV 1 0) (or_introl eq_refl)). assert (H2 := H (mkV 0 0) (mkV 0 1) (or_intror eq_refl)). unfold level, upright, img in H1, H2. cbn [vx vy] in H1, H2.
  unfold det in D. rewrite <- (Rabs_R0) in HE.
  destruct H1 as [H1|H1], H2 as [H2|H2].
  - exfalso. apply D. assert (Z1 : ab m = 0) by lra. assert (Z2 : ae m = 0) by lra. rewrite Z1, Z2. ring.
  - right. replace (ad m) with 0 by lra. replace (ab m) with 0 by lra. auto.
  - left. replace (aa m) with 0 by lra. replace (ae m) with 0 by lra. auto.
  - exfalso. apply D. assert (Z1 : aa m = 0) by lra. assert (Z2 : ad m = 0) by lra. rewrite Z1, Z2. ring.
Qed.
Print Assumptions C36_recognised.
(** A quarter turn with a slight slant, and an exact flip with scaling. *)
Example C36_reported_ex : is_rectilinear (/ 100) (mkA (/ 1000) 2 0 (-2) 0 5) = true /\ det (mkA 3 0 1 0 (-2) 7) <> 0 /\
  (forall p q, level p q \/ upright p q -> level (img (mkA 3 0 1 0 (-2) 7) p) (img (mkA 3 0 1 0 (-2) 7) q) \/ upright (img (mkA 3 0 1 0 (-2) 7) p) (img (mkA 3 0 1 0 (-2) 7) q)).
Proof.
  split; [|split].
  - apply rect_R. left. cbn. rewrite Rabs_R0, Rabs_pos_eq; lra.
  - unfold det. cbn. lra.
  - unfold level, upright, img. cbn [vx vy aa ab ac ad ae af]. intros p q [H|H]; [left|right]; rewrite H; ring.
Qed.
