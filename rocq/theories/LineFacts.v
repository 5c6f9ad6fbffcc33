(** * Lemmas about lines, rays and segments over the reals *)
From Coq Require Import ZArith List Bool Reals Lra Lia Psatz.
From Verif Require Import Num Vec Affine Line LineOps RBase VecFacts VecFacts2 AffineFacts SpecGeom SpecAffine SpecLine.
Import ListNotations.
Local Open Scope R_scope.

Definition cw (v : pt) : pt := mkV (vy v) (- vx v).
Lemma prot_m90 (v : pt) : prot (-90) v = cw v.
Proof.
  unfold prot, cw, deg. replace (-90 * PI / 180) with (- (PI / 2)) by field.
  rewrite cos_neg, sin_neg, cos_PI2, sin_PI2. vext; ring.
Qed.
Lemma norm_cw (v : pt) : norm (cw v) = norm v.
Proof. apply norm_eq. unfold cw; cbn [vx vy]. ring. Qed.
Lemma frame_iff (d : dirn R) : frame d <-> norm (ddir d) = 1 /\ dnormal d = cw (ddir d).
Proof.
  unfold frame. rewrite prot_m90. split; [tauto|]. intros [H1 H2]. rewrite H2, norm_cw. auto.
Qed.
Lemma norm1_sq (v : pt) : norm v = 1 -> vx v * vx v + vy v * vy v = 1.
Proof. intro H. rewrite <- norm_sq, H. ring. Qed.
Lemma frame_sq (d : dirn R) : frame d -> vx (ddir d) * vx (ddir d) + vy (ddir d) * vy (ddir d) = 1.
Proof. intros [H _]. apply norm1_sq; auto. Qed.

Definition unit (v : pt) : pt := mkV (vx v / norm v) (vy v / norm v).
Lemma unit_norm (v : pt) : 0 < norm v -> norm (unit v) = 1.
Proof. apply unit_length. Qed.
Lemma unit_scale (v : pt) : 0 < norm v -> pscale (norm v) (unit v) = v.
Proof. intro H. unfold pscale, unit; cbn [vx vy]. vext; field; lra. Qed.
Lemma unit_of_scale (k : R) (d : pt) : 0 < k -> norm d = 1 -> unit (pscale k d) = d.
Proof.
  intros Hk Hd. unfold unit. rewrite norm_scale, Hd, Rabs_right by lra. unfold pscale; cbn [vx vy].
  vext; field; lra.
Qed.

(** ** The direction and normal setters *)
Lemma norm_origin : norm (mkV 0 0) = 0. Proof. apply norm_zero. reflexivity. Qed.
Lemma set_direction_ok (E : R) (v : pt) : 0 <= E <= 1 -> E < norm v ->
  set_direction E v = Ok (mkD (unit v) (cw (unit v))).
Proof.
  intros HE H. unfold set_direction. rewrite vec2_of_R, normalized_big by (lra || exact H). cbn [bind].
  change (mkV (vx v / vlength v) (vy v / vlength v)) with (unit v).
  destruct (is_null E (unit v)) eqn:Hn.
  - apply is_null_R in Hn; [|lra]. rewrite unit_norm in Hn by lra. lra.
  - f_equal. f_equal. unfold vneg, perpendicular, cw. rnum. vext; ring.
Qed.
Lemma set_normal_ok (E : R) (v : pt) : 0 <= E <= 1 -> E < norm v ->
  set_normal E v = Ok (mkD (mkV (- vy (unit v)) (vx (unit v))) (unit v)).
Proof.
  intros HE H. unfold set_normal. rewrite vec2_of_R, normalized_big by (lra || exact H). cbn [bind].
  change (mkV (vx v / vlength v) (vy v / vlength v)) with (unit v).
  destruct (is_null E (unit v)) eqn:Hn.
  - apply is_null_R in Hn; [|lra]. rewrite unit_norm in Hn by lra. lra.
  - reflexivity.
Qed.
Lemma setter_small (E : R) (v : pt) : 0 < E -> norm v <= E \/ 1 < E ->
  set_direction E v = Err ValueError /\ set_normal E v = Err ValueError.
Proof.
  intros HE H. unfold set_direction, set_normal. rewrite vec2_of_R.
  destruct (Rlt_le_dec E (norm v)) as [Hv|Hv].
  - destruct H as [H|H]; [lra|]. rewrite normalized_big by (lra || exact Hv). cbn [bind].
    change (mkV (vx v / vlength v) (vy v / vlength v)) with (unit v).
    assert (Hn : is_null E (unit v) = true) by (apply is_null_R; [lra|]; rewrite unit_norm; lra).
    rewrite Hn. auto.
  - rewrite normalized_small by exact Hv. cbn [bind].
    assert (Hn : is_null E (mkV 0 0) = true) by (apply is_null_R; [lra|]; rewrite norm_origin; lra).
    rewrite Hn. auto.
Qed.
Lemma set_direction_cases (E : R) (v : pt) : 0 < E ->
  (E < norm v /\ E <= 1 /\ set_direction E v = Ok (mkD (unit v) (cw (unit v)))) \/
  ((norm v <= E \/ 1 < E) /\ set_direction E v = Err ValueError).
Proof.
  intro HE. destruct (Rlt_le_dec E (norm v)) as [H|H].
  - destruct (Rle_lt_dec E 1) as [H1|H1].
    + left. split; auto. split; auto. apply set_direction_ok; auto; lra.
    + right. split; auto. apply setter_small; auto.
  - right. split; auto. apply setter_small; auto.
Qed.
Lemma set_normal_cases (E : R) (v : pt) : 0 < E ->
  (E < norm v /\ E <= 1 /\ set_normal E v = Ok (mkD (mkV (- vy (unit v)) (vx (unit v))) (unit v))) \/
  ((norm v <= E \/ 1 < E) /\ set_normal E v = Err ValueError).
Proof.
  intro HE. destruct (Rlt_le_dec E (norm v)) as [H|H].
  - destruct (Rle_lt_dec E 1) as [H1|H1].
    + left. split; auto. split; auto. apply set_normal_ok; auto; lra.
    + right. split; auto. apply setter_small; auto.
  - right. split; auto. apply setter_small; auto.
Qed.
Lemma frame_unit (v : pt) : 0 < norm v -> frame (mkD (unit v) (cw (unit v))).
Proof. intro H. apply frame_iff. cbn [ddir dnormal]. rewrite unit_norm; auto. Qed.
Lemma set_direction_frame (E : R) (v : pt) d : 0 < E -> set_direction E v = Ok d -> frame d.
Proof.
  intros HE H. destruct (set_direction_cases E v HE) as [(H1 & _ & H2)|[_ H2]]; rewrite H2 in H; [|discriminate].
  injection H as <-. apply frame_unit. lra.
Qed.
Lemma set_normal_frame (E : R) (v : pt) d : 0 < E -> set_normal E v = Ok d -> frame d.
Proof.
  intros HE H. destruct (set_normal_cases E v HE) as [(H1 & _ & H2)|[_ H2]]; rewrite H2 in H; [|discriminate].
  injection H as <-. apply frame_iff. cbn [ddir dnormal]. split.
  - transitivity (norm (unit v)); [|apply unit_norm; lra]. apply norm_eq. unfold unit; cbn [vx vy]. ring.
  - unfold cw, unit; cbn [vx vy]. vext; ring.
Qed.
Lemma set_direction_err (E : R) (v : pt) e : 0 < E -> set_direction E v = Err e ->
  e = ValueError /\ (norm v <= E \/ 1 < E).
Proof.
  intros HE H. destruct (set_direction_cases E v HE) as [(H1 & _ & H2)|[H1 H2]]; rewrite H2 in H; [discriminate|].
  injection H as <-. auto.
Qed.
Lemma set_normal_err (E : R) (v : pt) e : 0 < E -> set_normal E v = Err e ->
  e = ValueError /\ (norm v <= E \/ 1 < E).
Proof.
  intros HE H. destruct (set_normal_cases E v HE) as [(H1 & _ & H2)|[H1 H2]]; rewrite H2 in H; [discriminate|].
  injection H as <-. auto.
Qed.

(** ** C39 *)
Ltac invbind H :=
  repeat match type of H with
  | bind ?r _ = Ok _ => let E := fresh "B" in destruct r as [?|?] eqn:E; cbn [bind] in H; [|discriminate H]
  end.
Lemma line_try_frame (E : R) (l l' : line R) o : 0 < E -> frame (ldn l) -> line_try E l o = Ok l' -> frame (ldn l').
Proof.
  intros HE Hf H. destruct o; cbn [line_try] in H.
  - unfold line_set_direction in H. invbind H. injection H as <-. eapply set_direction_frame; eauto.
  - unfold line_set_normal in H. invbind H. injection H as <-. eapply set_normal_frame; eauto.
  - injection H as <-. auto.
  - unfold line_imul in H. destruct (line_points l). invbind H. injection H as <-. eapply set_direction_frame; eauto.
Qed.
Lemma ray_try_frame (E : R) (l l' : ray R) o : 0 < E -> frame (rdn l) -> ray_try E l o = Ok l' -> frame (rdn l').
Proof.
  intros HE Hf H. destruct o; cbn [ray_try] in H.
  - unfold ray_set_direction in H. invbind H. injection H as <-. eapply set_direction_frame; eauto.
  - unfold ray_set_normal in H. invbind H. injection H as <-. eapply set_normal_frame; eauto.
  - injection H as <-. auto.
  - unfold ray_imul in H. destruct (ray_points l). invbind H. injection H as <-. eapply set_direction_frame; eauto.
Qed.
Lemma vector_setter_frame (E : R) (v : pt) d len : 0 < E -> seg_vector_setter E v = Ok (d, len) ->
  frame d /\ len = norm v.
Proof.
  intros HE H. unfold seg_vector_setter in H. rewrite vec2_of_R in H.
  destruct (negb (nfalsy (vlength v))); invbind H; injection H as <- <-; split; auto;
    eapply set_direction_frame; eauto.
Qed.
Lemma seg_try_frame (E : R) (l l' : segment R) o : 0 < E -> frame (sdn l) -> seg_try E l o = Ok l' -> frame (sdn l').
Proof.
  intros HE Hf H. destruct o; cbn [seg_try] in H.
  - unfold seg_set_direction in H. invbind H. injection H as <-. eapply set_direction_frame; eauto.
  - unfold seg_set_normal in H. invbind H. injection H as <-. eapply set_normal_frame; eauto.
  - injection H as <-. auto.
  - unfold seg_set_vector in H. invbind H. destruct a as [d len]. injection H as <-.
    eapply vector_setter_frame; eauto.
  - unfold seg_set_end, seg_set_vector in H. invbind H. destruct a as [d len]. injection H as <-.
    eapply vector_setter_frame; eauto.
  - injection H as <-. auto.
  - unfold seg_imul in H. destruct (seg_points l). invbind H. destruct a as [d len]. injection H as <-.
    eapply vector_setter_frame; eauto.
Qed.
Lemma line_run_frame (E : R) os : 0 < E -> forall l, frame (ldn l) -> frame (ldn (line_run E l os)).
Proof.
  intro HE. induction os as [|o os IH]; intros l Hf; cbn; auto.
  apply IH. rewrite line_act_atomic. destruct (line_try E l o) eqn:H; cbn [atomically snd]; auto. eapply line_try_frame; eauto.
Qed.
Lemma ray_run_frame (E : R) os : 0 < E -> forall l, frame (rdn l) -> frame (rdn (ray_run E l os)).
Proof.
  intro HE. induction os as [|o os IH]; intros l Hf; cbn; auto.
  apply IH. rewrite ray_act_atomic. destruct (ray_try E l o) eqn:H; cbn [atomically snd]; auto. eapply ray_try_frame; eauto.
Qed.
Lemma seg_run_frame (E : R) os : 0 < E -> forall l, frame (sdn l) -> frame (sdn (seg_run E l os)).
Proof.
  intro HE. induction os as [|o os IH]; intros l Hf; cbn; auto.
  apply IH. rewrite seg_act_atomic. destruct (seg_try E l o) eqn:H; cbn [atomically snd]; auto. eapply seg_try_frame; eauto.
Qed.

(** Constructors. *)
Lemma line_new_frame (E : R) p d l : 0 < E -> line_new E p d = Ok l -> frame (ldn l).
Proof. intros HE H. unfold line_new in H. invbind H. injection H as <-. eapply set_direction_frame; eauto. Qed.
Lemma line_from_normal_frame (E : R) n o l : 0 < E -> line_from_normal E n o = Ok l -> frame (ldn l).
Proof. intros HE H. unfold line_from_normal in H. invbind H. injection H as <-. eapply set_normal_frame; eauto. Qed.
Lemma line_from_points_frame (E : R) ps l : 0 < E -> line_from_points E ps = Ok l -> frame (ldn l).
Proof.
  intros HE H. unfold line_from_points in H. invbind H. destruct a as [[s e] rest]. invbind H.
  match type of H with (if ?c then _ else _) = _ => destruct c end; [|discriminate].
  injection H as <-. eapply set_direction_frame; eauto.
Qed.
Lemma ray_new_frame (E : R) p d l : 0 < E -> ray_new E p d = Ok l -> frame (rdn l).
Proof. intros HE H. unfold ray_new in H. invbind H. injection H as <-. eapply set_direction_frame; eauto. Qed.
Lemma ray_from_points_frame (E : R) ps l : 0 < E -> ray_from_points E ps = Ok l -> frame (rdn l).
Proof.
  intros HE H. unfold ray_from_points in H. invbind H. destruct a as [[s e] rest]. invbind H.
  match type of H with (if ?c then _ else _) = _ => destruct c end; [|discriminate].
  injection H as <-. eapply set_direction_frame; eauto.
Qed.
Lemma seg_new_frame (E : R) p d l : 0 < E -> seg_new E p d = Ok l -> frame (sdn l).
Proof.
  intros HE H. unfold seg_new in H. invbind H. destruct a as [d' len]. injection H as <-.
  eapply vector_setter_frame; eauto.
Qed.
Lemma seg_from_normal_frame (E : R) n o x y l : 0 < E -> seg_from_normal E n o x y = Ok l -> frame (sdn l).
Proof. intros HE H. unfold seg_from_normal in H. invbind H. injection H as <-. eapply set_normal_frame; eauto. Qed.
Lemma seg_from_points_frame (E : R) ps l : 0 < E -> seg_from_points E ps = Ok l -> frame (sdn l).
Proof.
  intros HE H. unfold seg_from_points in H. destruct ps as [|p rest]; [discriminate|].
  destruct (fold_left _ _ _) as [z e].
  assert (HH : forall d len, (if vec_neb e (vec2_of p) then seg_vector_setter E (vsub e (vec2_of p))
     else bind (set_direction E (mkV n1 n0)) (fun d => Ok (d, n0))) = Ok (d, len) -> frame d).
  { intros d len Hd. destruct (vec_neb e (vec2_of p)).
    - eapply vector_setter_frame; eauto.
    - invbind Hd. injection Hd as <- <-. eapply set_direction_frame; eauto. }
  invbind H. destruct a as [d len].
  match type of H with (if ?c then _ else _) = _ => destruct c end; [|discriminate].
  injection H as <-. eapply HH; eauto.
Qed.

(** ** Coordinates in the frame *)
Lemma dot_pdot (p q : pt) : dot p q = pdot p q. Proof. reflexivity. Qed.
Lemma vsub_psub (p q : pt) : vsub p q = psub p q. Proof. reflexivity. Qed.
Lemma vadd_padd (p q : pt) : vadd p q = padd p q. Proof. reflexivity. Qed.
Lemma vscale_pscale (p : pt) k : vscale p k = pscale k p.
Proof. unfold vscale, pscale. rnum. vext; ring. Qed.

(** Squared distance from p to a + t d, in terms of the coordinates of p. *)
Lemma dist_frame_sq (d : dirn R) (p a : pt) (t : R) : frame d ->
  let q := padd a (pscale t (ddir d)) in
  let x := pdot (ddir d) (psub p a) in let y := pdot (dnormal d) (psub p a) in
  dist p q * dist p q = (x - t) * (x - t) + y * y.
Proof.
  intros Hf. cbv zeta. apply frame_iff in Hf. destruct Hf as [H1 H2]. apply norm1_sq in H1. rewrite H2.
  destruct d as [[u v] n]. cbn [ddir dnormal vx vy] in *. destruct p as [p1 p2], a as [a1 a2].
  unfold dist. rewrite norm_sq. unfold psub, padd, pscale, pdot, cw; cbn [vx vy].
  match goal with |- ?l = ?r => assert (l - r = (1 - (u * u + v * v)) * ((p1 - a1) * (p1 - a1) + (p2 - a2) * (p2 - a2) - t * t)) by ring end.
  rewrite H1 in H. lra.
Qed.
