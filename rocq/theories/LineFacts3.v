(** * Construction from points and transformation of linear shapes *)
From Coq Require Import ZArith List Bool Reals Lra Lia Psatz.
From Verif Require Import Num Vec Affine Line LineOps RBase VecFacts VecFacts2 AffineFacts SpecGeom SpecAffine SpecLine LineFacts LineFacts2.
Import ListNotations.
Local Open Scope R_scope.

Lemma dist_norm_sub (p q : pt) : norm (psub q p) = dist p q.
Proof. rewrite dist_sym. reflexivity. Qed.
Lemma two_distinct_spec (ps : list pt) :
  match two_distinct ps with
  | Ok (s, e, rest) => exists k, ps = s :: repeat s k ++ e :: rest /\ e <> s
  | Err x => x = ValueError /\ forall p q, In p ps -> In q ps -> p = q
  end.
Proof.
  unfold two_distinct. destruct ps as [|s ps]; [split; [auto|intros p q []]|]. rewrite vec2_of_R.
  assert (H : match first_distinct s ps with
    | Some (e, rest) => exists k, ps = repeat s k ++ e :: rest /\ e <> s
    | None => forall p, In p ps -> p = s end).
  { induction ps as [|p ps IH]; cbn [first_distinct]; [intros p []|]. rewrite vec2_of_R.
    destruct (vec_eqb p s) eqn:Hp.
    - apply vec_eqb_R in Hp. subst p. destruct (first_distinct s ps) as [[e rest]|].
      + destruct IH as (k & -> & H). exists (S k). auto.
      + intros q [<-|Hq]; auto.
    - apply vec_eqb_R_false in Hp. exists 0%nat. auto. }
  destruct (first_distinct s ps) as [[e rest]|].
  - destruct H as (k & -> & H). exists k. auto.
  - split; auto. intros p q [<-|Hp] [<-|Hq]; auto. + symmetry; auto. + rewrite (H p Hp), (H q Hq). auto.
Qed.
Lemma two_distinct_pair (s e : pt) : e <> s -> two_distinct [s; e] = Ok (s, e, []).
Proof. intro H. unfold two_distinct. cbn [first_distinct]. rewrite !vec2_of_R. apply vec_eqb_R_false in H. rewrite H. auto. Qed.
Lemma two_distinct_same (s : pt) : two_distinct [s; s] = Err ValueError.
Proof.
  unfold two_distinct. cbn [first_distinct]. rewrite !vec2_of_R.
  assert (H : vec_eqb s s = true) by (apply vec_eqb_R; auto). rewrite H. auto.
Qed.

(** The line through p with direction d. *)
Definition line_at (d : dirn R) (p : pt) : line R := mkLine d (pdot p (dnormal d)).
Lemma line_at_through (d : dirn R) (p : pt) (t : R) : frame d -> line_set (line_at d p) (padd p (pscale t (ddir d))).
Proof.
  intro Hf. destruct (dot_frame _ Hf) as (_ & _ & H & _). unfold line_set, line_at; cbn [ldn loffset].
  rewrite pdot_add_l, pdot_scale_l, H. ring.
Qed.
Lemma line_new_cases (E : R) (p v : pt) : 0 < E ->
  (E < norm v /\ E <= 1 /\ exists d, line_new E p v = Ok (line_at d p) /\ frame d /\ v = pscale (norm v) (ddir d)) \/
  ((norm v <= E \/ 1 < E) /\ line_new E p v = Err ValueError).
Proof.
  intro HE. unfold line_new. destruct (set_direction_cases E v HE) as [(H1 & H2 & ->)|[H1 ->]].
  - left. split; auto. split; auto. eexists. cbn [bind]. rewrite vec2_of_R. split; [reflexivity|].
    split; [apply frame_unit; lra|]. cbn [ddir]. symmetry. apply unit_scale. lra.
  - right. auto.
Qed.
Lemma line_set_shift (d : dirn R) (p : pt) (k t : R) : frame d ->
  line_set (line_at d p) (padd p (pscale t (pscale k (ddir d)))).
Proof.
  intro Hf. replace (pscale t (pscale k (ddir d))) with (pscale (t * k) (ddir d)).
  - apply line_at_through; auto.
  - unfold pscale; cbn [vx vy]. vext; ring.
Qed.
Lemma padd_psub (p q : pt) : padd p (pscale 1 (psub q p)) = q.
Proof. unfold padd, pscale, psub; cbn [vx vy]. destruct q as [q1 q2]; cbn [vx vy]. vext; ring. Qed.
Lemma line_contains_set (E : R) (l : line R) (p : pt) : 0 < E -> line_set l p -> line_contains E l p = true.
Proof.
  intros HE H. unfold line_contains. rewrite line_distance_R. unfold line_set in H. rewrite H. rnum. rewrite Rltb_true.
  rewrite Rminus_diag_eq, Rabs_R0 by reflexivity. auto.
Qed.
Lemma line_near_of_contains (E : R) (l : line R) (p : pt) : frame (ldn l) -> line_contains E l p = true ->
  exists q, line_set l q /\ dist p q < E.
Proof.
  intros Hf H. destruct (line_project_spec 0 l p) as (q & _ & Hn & Hd); [lra|auto|].
  unfold line_contains in H. rnum. apply Rltb_true in H. exists q. split; [apply Hn|]. lra.
Qed.
Lemma Forall_repeat {A} (P : A -> Prop) x n : P x -> Forall P (repeat x n).
Proof. intro H. induction n; cbn; auto. Qed.

Lemma line_from_points_ok (E : R) (ps : list pt) (l : line R) : 0 < E -> line_from_points E ps = Ok l ->
  frame (ldn l) /\
  (exists s e k rest, ps = s :: repeat s k ++ e :: rest /\ E < dist s e /\ line_set l s /\ line_set l e /\
     psub e s = pscale (dist s e) (ddir (ldn l))) /\
  Forall (fun p => exists q, line_set l q /\ dist p q < E) ps.
Proof.
  intros HE H. split; [eapply line_from_points_frame; eauto|]. unfold line_from_points in H.
  pose proof (two_distinct_spec ps) as H2.
  destruct (two_distinct ps) as [[[s e] rest]|x]; cbn [bind] in H; [|discriminate].
  destruct H2 as (k & Hps & Hne). rewrite vsub_psub in H.
  destruct (set_direction_cases E (psub e s) HE) as [(H1 & H1' & H3)|[H1 H3]]; rewrite H3 in H; cbn [bind] in H; [|discriminate].
  assert (Hf : frame (mkD (unit (psub e s)) (cw (unit (psub e s))))) by (apply frame_unit; lra).
  set (d := mkD (unit (psub e s)) (cw (unit (psub e s)))) in *. change (mkLine d _) with (line_at d s) in H.
  destruct (forallb (line_contains E (line_at d s)) rest) eqn:Ha; [|discriminate]. injection H as <-.
  rewrite dist_norm_sub in H1. change (ldn (line_at d s)) with d.
  assert (Hv : psub e s = pscale (dist s e) (ddir d)).
  { unfold d; cbn [ddir]. rewrite <- dist_norm_sub. symmetry. apply unit_scale. rewrite dist_norm_sub. lra. }
  assert (Hs : line_set (line_at d s) s) by (rewrite <- (padd_0 s (ddir d)) at 2; apply line_at_through; auto).
  assert (He : line_set (line_at d s) e).
  { rewrite <- (padd_psub s e) at 1. rewrite Hv. apply line_set_shift; auto. }
  split; [exists s, e, k, rest; auto|]. subst ps.
  assert (Hz : forall p, line_set (line_at d s) p -> exists q, line_set (line_at d s) q /\ dist p q < E)
    by (intros p Hp; exists p; rewrite dist_self; auto).
  constructor; [auto|]. apply Forall_app. split; [apply Forall_repeat; auto|]. constructor; auto.
  apply Forall_forall. intros p Hp. apply line_near_of_contains; auto.
  rewrite forallb_forall in Ha. auto.
Qed.
Lemma line_from_points_err (E : R) (ps : list pt) x : 0 < E -> line_from_points E ps = Err x -> x = ValueError.
Proof.
  intros HE H. unfold line_from_points in H. pose proof (two_distinct_spec ps) as H2.
  destruct (two_distinct ps) as [[[s e] rest]|y]; cbn [bind] in H.
  - destruct (set_direction E (vsub e s)) eqn:H3; cbn [bind] in H.
    + destruct (forallb _ _); congruence.
    + apply set_direction_err in H3; auto. destruct H3; congruence.
  - destruct H2; congruence.
Qed.
Lemma line_from_points_few (E : R) (ps : list pt) : (forall p q, In p ps -> In q ps -> p = q) ->
  line_from_points E ps = Err ValueError.
Proof.
  intro H. unfold line_from_points. pose proof (two_distinct_spec ps) as H2.
  destruct (two_distinct ps) as [[[s e] rest]|y].
  - destruct H2 as (k & -> & Hne). destruct Hne. apply H.
    + right. apply in_or_app. right. left. auto.
    + left. auto.
  - destruct H2 as [-> _]. reflexivity.
Qed.
(** Points of one line, the first distinct one not too close: accepted. *)
Lemma line_from_points_complete (E : R) (ps : list pt) (a u : pt) : 0 < E <= 1 ->
  (forall p, In p ps -> exists t, p = padd a (pscale t u)) ->
  (exists p q, In p ps /\ In q ps /\ p <> q) ->
  (forall p q, In p ps -> In q ps -> p = q \/ E < dist p q) ->
  exists l, line_from_points E ps = Ok l /\ forall p, In p ps -> line_set l p.
Proof.
  intros HE Hall (p0 & q0 & Hp0 & Hq0 & Hpq) Hfar. unfold line_from_points. pose proof (two_distinct_spec ps) as H2.
  destruct (two_distinct ps) as [[[s e] rest]|y]; [|destruct H2 as [_ H2]; elim Hpq; auto].
  destruct H2 as (k & Hps & Hne). cbn [bind]. rewrite vsub_psub.
  assert (Is : In s ps) by (rewrite Hps; left; auto).
  assert (Ie : In e ps) by (rewrite Hps; right; apply in_or_app; right; left; auto).
  assert (Hse : E < dist s e) by (destruct (Hfar s e Is Ie) as [->|]; [congruence|auto]).
  rewrite set_direction_ok by (try rewrite dist_norm_sub; lra). cbn [bind].
  assert (Hf : frame (mkD (unit (psub e s)) (cw (unit (psub e s))))) by (apply frame_unit; rewrite dist_norm_sub; lra).
  assert (Hv : psub e s = pscale (norm (psub e s)) (unit (psub e s))) by (symmetry; apply unit_scale; rewrite dist_norm_sub; lra).
  set (d := mkD (unit (psub e s)) (cw (unit (psub e s)))) in *. change (mkLine d _) with (line_at d s).
  assert (Hin : forall p, In p ps -> line_set (line_at d s) p).
  { intros p Hp. destruct (Hall p Hp) as [t ->]. destruct (Hall s Is) as [ts Hs]. destruct (Hall e Ie) as [te He].
    assert (Hts : te <> ts) by (intros ->; congruence).
    assert (Heq : padd a (pscale t u) = padd s (pscale ((t - ts) / (te - ts)) (psub e s))).
    { rewrite Hs, He. unfold padd, psub, pscale; cbn [vx vy]. vext; field; lra. }
    rewrite Heq, Hv. apply line_set_shift; auto. }
  assert (Ha : forallb (line_contains E (line_at d s)) rest = true).
  { apply forallb_forall. intros p Hp. apply line_contains_set; [lra|]. apply Hin. rewrite Hps.
    right. apply in_or_app. right. right. auto. }
  rewrite Ha. eexists. split; [reflexivity|]. auto.
Qed.
Lemma line_eta (l : line R) : frame (ldn l) -> line_at (ldn l) (foot l) = l.
Proof.
  intro Hf. unfold line_at, foot. destruct (dot_frame _ Hf) as (_ & H & _). rewrite pdot_scale_l, H.
  destruct l as [d o]; cbn [ldn loffset]. f_equal. ring.
Qed.
Lemma line_points_R (l : line R) : line_points l = (foot l, padd (foot l) (ddir (ldn l))).
Proof. unfold line_points. rewrite vadd_padd, !vscale_pscale. reflexivity. Qed.
Lemma psub_padd (p v : pt) : psub (padd p v) p = v.
Proof. unfold psub, padd; cbn [vx vy]. destruct v as [v1 v2]; cbn [vx vy]. vext; ring. Qed.
Lemma padd_ne (p v : pt) : norm v <> 0 -> padd p v <> p.
Proof.
  intros H K. apply H. apply norm_zero. rewrite <- (psub_padd p v), K. unfold psub, porigin. vext; ring.
Qed.
Lemma line_roundtrip (E : R) (l : line R) : 0 < E < 1 -> frame (ldn l) ->
  line_from_points E [fst (line_points l); snd (line_points l)] = Ok l.
Proof.
  intros HE Hf. rewrite line_points_R. cbn [fst snd]. unfold line_from_points.
  pose proof (proj1 Hf) as H1.
  rewrite two_distinct_pair by (apply padd_ne; lra). cbn [bind forallb]. rewrite vsub_psub, psub_padd.
  rewrite set_direction_same by auto. cbn [bind]. f_equal. apply (line_eta l Hf).
Qed.

(** ** Rays from points *)
Lemma ray_set_anchor_in (r : ray R) : ray_set r (ranchor r).
Proof. exists 0. split; [lra|]. rewrite padd_0. auto. Qed.
Lemma ray_from_points_ok (E : R) (ps : list pt) (r : ray R) : 0 < E -> ray_from_points E ps = Ok r ->
  frame (rdn r) /\
  (exists s e k rest, ps = s :: repeat s k ++ e :: rest /\ E < dist s e /\ ranchor r = s /\
     psub e s = pscale (dist s e) (ddir (rdn r))) /\
  Forall (fun p => exists q, ray_set r q /\ dist p q < E) ps.
Proof.
  intros HE H. split; [eapply ray_from_points_frame; eauto|]. unfold ray_from_points in H.
  pose proof (two_distinct_spec ps) as H2.
  destruct (two_distinct ps) as [[[s e] rest]|x]; cbn [bind] in H; [|discriminate].
  destruct H2 as (k & Hps & Hne). rewrite vsub_psub in H.
  destruct (set_direction_cases E (psub e s) HE) as [(H1 & H1' & H3)|[H1 H3]]; rewrite H3 in H; cbn [bind] in H; [|discriminate].
  assert (Hf : frame (mkD (unit (psub e s)) (cw (unit (psub e s))))) by (apply frame_unit; lra).
  set (d := mkD (unit (psub e s)) (cw (unit (psub e s)))) in *. rewrite vec2_of_R in H.
  destruct (forallb (ray_contains E (mkRay d s)) rest) eqn:Ha; [|discriminate]. injection H as <-.
  rewrite dist_norm_sub in H1. cbn [rdn ranchor].
  assert (Hv : psub e s = pscale (dist s e) (ddir d)).
  { unfold d; cbn [ddir]. rewrite <- dist_norm_sub. symmetry. apply unit_scale. rewrite dist_norm_sub. lra. }
  assert (Hs : ray_set (mkRay d s) s) by apply (ray_set_anchor_in (mkRay d s)).
  assert (He : ray_set (mkRay d s) e).
  { exists (dist s e). split; [apply dist_nonneg|]. cbn [rdn ranchor]. rewrite <- Hv, <- (pscale_1 (psub e s)), padd_psub. auto. }
  split; [exists s, e, k, rest; auto|]. subst ps.
  assert (Hz : forall p, ray_set (mkRay d s) p -> exists q, ray_set (mkRay d s) q /\ dist p q < E)
    by (intros p Hp; exists p; rewrite dist_self; auto).
  constructor; [auto|]. apply Forall_app. split; [apply Forall_repeat; auto|]. constructor; auto.
  apply Forall_forall. intros p Hp. apply ray_contains_iff; auto.
  rewrite forallb_forall in Ha. auto.
Qed.
Lemma ray_from_points_err (E : R) (ps : list pt) x : 0 < E -> ray_from_points E ps = Err x -> x = ValueError.
Proof.
  intros HE H. unfold ray_from_points in H. pose proof (two_distinct_spec ps) as H2.
  destruct (two_distinct ps) as [[[s e] rest]|y]; cbn [bind] in H.
  - destruct (set_direction E (vsub e s)) eqn:H3; cbn [bind] in H.
    + destruct (forallb _ _); congruence.
    + apply set_direction_err in H3; auto. destruct H3; congruence.
  - destruct H2; congruence.
Qed.
Lemma ray_roundtrip (E : R) (r : ray R) : 0 < E < 1 -> frame (rdn r) ->
  ray_from_points E [fst (ray_points r); snd (ray_points r)] = Ok r.
Proof.
  intros HE Hf. unfold ray_points. cbn [fst snd]. unfold ray_from_points.
  pose proof (proj1 Hf) as H1. rewrite vadd_padd.
  rewrite two_distinct_pair by (apply padd_ne; lra). cbn [bind forallb]. rewrite vsub_psub, psub_padd.
  rewrite set_direction_same by auto. cbn [bind]. rewrite vec2_of_R. destruct r; reflexivity.
Qed.

(** ** Segments *)
Lemma nfalsy_len (v : pt) : negb (nfalsy (vlength v)) = true <-> v <> porigin.
Proof.
  rewrite negb_true_iff. unfold nfalsy. rnum. rewrite <- not_true_iff_false, Reqb_true. change (vlength v) with (norm v).
  rewrite norm_zero. tauto.
Qed.
Lemma seg_vector_setter_cases (E : R) (v : pt) : 0 < E ->
  (v = porigin /\ E < 1 /\ seg_vector_setter E v = Ok (mkD (mkV 1 0) (mkV 0 (-1)), 0)) \/
  (E < norm v /\ E <= 1 /\ seg_vector_setter E v = Ok (mkD (unit v) (cw (unit v)), norm v)) \/
  (((v <> porigin /\ norm v <= E) \/ 1 <= E) /\ seg_vector_setter E v = Err ValueError).
Proof.
  intro HE. unfold seg_vector_setter. rewrite vec2_of_R. change (vlength v) with (norm v).
  destruct (negb (nfalsy (norm v))) eqn:Hv.
  - apply nfalsy_len in Hv. right.
    destruct (set_direction_cases E v HE) as [(H1 & H2 & ->)|[H1 ->]]; cbn [bind]; [left; auto|right].
    split; [destruct H1; [left; auto|right; lra]|auto].
  - assert (Hv' : v = porigin).
    { destruct (vec_eqb v porigin) eqn:Hq; [apply vec_eqb_R; auto|]. apply vec_eqb_R_false in Hq. apply nfalsy_len in Hq.
      change (vlength v) with (norm v) in Hq. congruence. }
    assert (H10 : norm (mkV 1 0) = 1) by (apply norm_unique; cbn [vx vy]; lra).
    assert (H0 : norm v = 0) by (apply norm_zero; auto).
    destruct (set_direction_cases E (mkV 1 0) HE) as [(H1 & H2 & H3)|[H1 H3]]; change (mkV n1 n0) with (mkV 1 0); rewrite H3; cbn [bind].
    + left. rewrite H10 in H1. split; auto. split; auto. rewrite unit_id by auto. rewrite H0.
      replace (cw (mkV 1 0)) with (mkV 0 (-1)) by (unfold cw; cbn [vx vy]; vext; ring). reflexivity.
    + right. right. rewrite H10 in H1. split; [right; lra|auto].
Qed.
Lemma frame_10 : frame (mkD (mkV 1 0) (mkV 0 (-1))).
Proof. apply frame_iff. cbn [ddir dnormal]. split; [apply norm_unique; cbn [vx vy]; lra|]. unfold cw; cbn [vx vy]. vext; ring. Qed.
(** The new direction pair carries the vector exactly. *)
Lemma seg_vector_setter_ok (E : R) (v : pt) d len : 0 < E -> seg_vector_setter E v = Ok (d, len) ->
  frame d /\ len = norm v /\ pscale len (ddir d) = v /\ (v = porigin \/ E < norm v).
Proof.
  intros HE H. destruct (seg_vector_setter_cases E v HE) as [(Hv & _ & H1)|[(Hv & _ & H1)|[_ H1]]]; rewrite H1 in H;
    [| |discriminate]; injection H as <- <-; cbn [ddir].
  - split; [apply frame_10|]. split; [symmetry; apply norm_zero; auto|]. split; auto. subst v. unfold pscale, porigin; cbn [vx vy]. vext; ring.
  - split; [apply frame_unit; lra|]. split; auto. split; auto. apply unit_scale; lra.
Qed.
Lemma padd_sub (a b : pt) : padd a (psub b a) = b.
Proof. unfold padd, psub; cbn [vx vy]. destruct b as [b1 b2]; cbn [vx vy]. vext; ring. Qed.
Lemma seg_vector_setter_err (E : R) (v : pt) x : 0 < E -> seg_vector_setter E v = Err x ->
  x = ValueError /\ ((v <> porigin /\ norm v <= E) \/ 1 <= E).
Proof.
  intros HE H. destruct (seg_vector_setter_cases E v HE) as [(Hv & _ & H1)|[(Hv & _ & H1)|[Hv H1]]]; rewrite H1 in H;
    [discriminate|discriminate|]. injection H as <-. auto.
Qed.

Lemma seg_new_ok (E : R) (a v : pt) s : 0 < E -> seg_new E a v = Ok s ->
  frame (sdn s) /\ sanchor s = a /\ slength s = norm v /\ seg_end s = padd a v.
Proof.
  intros HE H. unfold seg_new in H. destruct (seg_vector_setter E v) as [[d len]|] eqn:Hv; cbn [bind] in H; [|discriminate].
  injection H as <-. apply seg_vector_setter_ok in Hv; auto. destruct Hv as (Hf & Hl & Hp & _).
  rewrite seg_end_R. cbn [sdn sanchor slength]. rewrite vec2_of_R, Hp. auto.
Qed.

(** Well-formed segments: the invariant of C46. *)
Lemma seg_contains_ends (E : R) (s : segment R) : 0 < E -> frame (sdn s) -> 0 <= slength s ->
  slength s = dist (sanchor s) (seg_end s) /\
  seg_contains E s (sanchor s) = true /\ seg_contains E s (seg_end s) = true /\ seg_contains E s (seg_mid s) = true /\
  seg_mid s = between (sanchor s) (seg_end s) (1/2).
Proof.
  intros HE Hf HL. assert (H : forall t, 0 <= t <= slength s -> seg_contains E s (padd (sanchor s) (pscale t (ddir (sdn s)))) = true).
  { intros t Ht. apply seg_contains_iff; auto. eexists. split; [exists t; split; [exact Ht|reflexivity]|]. rewrite dist_self. auto. }
  split; [|split; [|split; [|split]]].
  - rewrite seg_end_R. rewrite <- (padd_0 (sanchor s) (ddir (sdn s))) at 1. rewrite dist_same_axis by apply Hf.
    rewrite Rabs_left1; lra.
  - rewrite <- (padd_0 (sanchor s) (ddir (sdn s))). apply H; lra.
  - rewrite seg_end_R. apply H; lra.
  - rewrite seg_mid_R. apply H; lra.
  - rewrite seg_mid_R, seg_end_R. unfold between, padd, psub, pscale; cbn [vx vy]. vext; field.
Qed.
Definition length_ok (o : seg_op R) : Prop := match o with SLength x => 0 <= x | _ => True end.
Lemma seg_try_nonneg (E : R) (s s' : segment R) o : 0 < E -> 0 <= slength s -> length_ok o -> seg_try E s o = Ok s' -> 0 <= slength s'.
Proof.
  intros HE HL Ho H. destruct o; cbn [seg_try length_ok] in *.
  - unfold seg_set_direction in H. invbind H. injection H as <-. auto.
  - unfold seg_set_normal in H. invbind H. injection H as <-. auto.
  - injection H as <-. auto.
  - unfold seg_set_vector in H. destruct (seg_vector_setter E v) as [[d len]|] eqn:Hv; cbn [bind] in H; [|discriminate].
    injection H as <-. apply seg_vector_setter_ok in Hv; auto. cbn [slength]. destruct Hv as (_ & -> & _). apply norm_nonneg.
  - unfold seg_set_end, seg_set_vector in H. destruct (seg_vector_setter E (vsub (vec2_of v) (sanchor s))) as [[d len]|] eqn:Hv; cbn [bind] in H; [|discriminate].
    injection H as <-. apply seg_vector_setter_ok in Hv; auto. cbn [slength]. destruct Hv as (_ & -> & _). apply norm_nonneg.
  - injection H as <-. auto.
  - unfold seg_imul in H. destruct (seg_points s) as [p1 p2]. destruct (seg_vector_setter E _) as [[d len]|] eqn:Hv; cbn [bind] in H; [|discriminate].
    injection H as <-. apply seg_vector_setter_ok in Hv; auto. cbn [slength]. destruct Hv as (_ & -> & _). apply norm_nonneg.
Qed.
Lemma seg_run_nonneg (E : R) os : 0 < E -> Forall length_ok os -> forall s, 0 <= slength s -> 0 <= slength (seg_run E s os).
Proof.
  intros HE Hos. induction Hos as [|o os Ho Hos IH]; intros s Hs; cbn; auto.
  apply IH. rewrite seg_act_atomic. destruct (seg_try E s o) eqn:H; cbn [atomically snd]; auto. eapply seg_try_nonneg; eauto.
Qed.
(** The state after setting the end point. *)
Lemma seg_set_end_ok (E : R) (s s' : segment R) v : 0 < E -> seg_set_end E s v = Ok s' -> seg_end s' = v /\ sanchor s' = sanchor s.
Proof.
  intros HE H. unfold seg_set_end, seg_set_vector in H. rewrite vec2_of_R in H.
  destruct (seg_vector_setter E (vsub v (sanchor s))) as [[d len]|] eqn:Hv; cbn [bind] in H; [|discriminate].
  injection H as <-. apply seg_vector_setter_ok in Hv; auto. destruct Hv as (_ & _ & Hp & _). rewrite seg_end_R. cbn [sanchor slength sdn].
  split; auto. rewrite Hp, vsub_psub, padd_sub. auto.
Qed.

(** from_points *)
Lemma furthest_spec (start : pt) (rest : list pt) : forall far e, far = dist start e * dist start e ->
  forall z e', fold_left (furthest_step start) rest (far, e) = (z, e') ->
  (e' = e \/ In e' rest) /\ dist start e <= dist start e' /\ forall q, In q rest -> dist start q <= dist start e'.
Proof.
  induction rest as [|p rest IH]; intros far e Hfar z e' H; cbn [fold_left] in H.
  - injection H as <- <-. split; [auto|]. split; [lra|]. intros q [].
  - unfold furthest_step in H at 2. rewrite vec2_of_R, length2_norm, vsub_psub, dist_norm_sub in H. cbn [fst] in H. rnum.
    destruct (Rltb_spec far (dist start p * dist start p)) as [Hlt|Hge].
    + apply IH in H; [|reflexivity]. destruct H as (H1 & H2 & H3).
      assert (dist start e < dist start p) by (apply sq_lt_inv; [lra|apply dist_nonneg]).
      split; [|split; [lra|]].
      * destruct H1; [right; left; auto|right; right; auto].
      * intros q [<-|Hq]; auto.
    + apply IH in H; [|exact Hfar]. destruct H as (H1 & H2 & H3).
      assert (dist start p <= dist start e) by (apply sq_le_inv; [lra|apply dist_nonneg]).
      split; [|split; [lra|]].
      * destruct H1; [left; auto|right; right; auto].
      * intros q [<-|Hq]; [lra|auto].
Qed.
Lemma seg_from_points_ok (E : R) (p : pt) (rest : list pt) s : 0 < E -> seg_from_points E (p :: rest) = Ok s ->
  frame (sdn s) /\ sanchor s = p /\ slength s = dist p (seg_end s) /\ In (seg_end s) (p :: rest) /\
  (forall q, In q (p :: rest) -> dist p q <= dist p (seg_end s)) /\
  Forall (fun q => exists r, seg_set s r /\ dist q r < E) (p :: rest).
Proof.
  intros HE H. unfold seg_from_points in H. rewrite vec2_of_R in H.
  destruct (fold_left (furthest_step p) rest (n0, p)) as [z e] eqn:Hfold.
  apply furthest_spec in Hfold; [|rewrite dist_self; rnum; ring]. destruct Hfold as (He & _ & Hmax).
  match type of H with bind ?r _ = _ => destruct r as [[d len]|] eqn:Hd; cbn [bind] in H; [|discriminate] end.
  assert (HH : frame d /\ len = dist p e /\ padd p (pscale len (ddir d)) = e).
  { rewrite vec_neb_R in Hd. destruct (vec_eqb e p) eqn:Hep; cbn [negb] in Hd.
    - apply vec_eqb_R in Hep. subst e. destruct (set_direction E (mkV n1 n0)) eqn:H10; cbn [bind] in Hd; [|discriminate].
      injection Hd as <- <-. split; [eapply set_direction_frame; eauto|]. rewrite dist_self. rnum. rewrite padd_0. auto.
    - apply seg_vector_setter_ok in Hd; auto. destruct Hd as (Hf & Hl & Hv & _). rewrite vsub_psub in *.
      rewrite dist_norm_sub in Hl. split; auto. split; auto. rewrite Hv, padd_sub. auto. }
  destruct HH as (Hf & Hl & Hend).
  destruct (forallb (fun q => seg_contains E (mkSeg d p len) (vec2_of q)) rest) eqn:Ha; [|discriminate]. injection H as <-.
  rewrite seg_end_R. cbn [sdn sanchor slength]. rewrite Hend.
  assert (HL : 0 <= len) by (rewrite Hl; apply dist_nonneg).
  assert (Hmax' : forall q, In q (p :: rest) -> dist p q <= dist p e).
  { intros q [<-|Hq]; auto. rewrite dist_self. apply dist_nonneg. }
  split; auto. split; auto. split; auto. split; [destruct He; [left; auto|right; auto]|]. split; auto.
  constructor.
  - exists p. rewrite dist_self. split; auto. exists 0. cbn [sanchor slength sdn]. rewrite padd_0. split; auto. lra.
  - apply Forall_forall. intros q Hq. apply seg_contains_iff; auto. rewrite forallb_forall in Ha. specialize (Ha q Hq).
    rewrite vec2_of_R in Ha. auto.
Qed.
Lemma seg_from_points_err (E : R) (ps : list pt) x : 0 < E -> seg_from_points E ps = Err x -> x = ValueError.
Proof.
  intros HE H. unfold seg_from_points in H. destruct ps as [|p rest]; [congruence|].
  destruct (fold_left _ _ _) as [z e].
  match type of H with bind ?r _ = _ => destruct r as [[d len]|y] eqn:Hd; cbn [bind] in H end.
  - destruct (forallb _ _); congruence.
  - injection H as <-. destruct (vec_neb e (vec2_of p)).
    + apply seg_vector_setter_err in Hd; tauto.
    + destruct (set_direction E (mkV n1 n0)) eqn:H10; cbn [bind] in Hd; [discriminate|]. injection Hd as <-.
      apply set_direction_err in H10; tauto.
Qed.
Lemma seg_two_points (E : R) (p q : pt) : 0 < E ->
  seg_from_points E [p; q] = bind (seg_vector_setter E (psub q p)) (fun dl => Ok (mkSeg (fst dl) p (snd dl))).
Proof.
  intro HE. unfold seg_from_points. cbn [fold_left forallb]. unfold furthest_step. rewrite !vec2_of_R, length2_norm, vsub_psub, dist_norm_sub. cbn [fst].
  rnum. destruct (Rltb_spec 0 (dist p q * dist p q)) as [Hlt|Hge].
  - assert (Hne : q <> p) by (intros ->; rewrite dist_self in Hlt; lra).
    rewrite vec_neb_R. apply vec_eqb_R_false in Hne. rewrite Hne. cbn [negb]. rewrite vsub_psub.
    destruct (seg_vector_setter E (psub q p)) as [[d len]|] eqn:Hd; cbn [bind fst snd]; auto.
    apply seg_vector_setter_ok in Hd; auto. destruct Hd as (Hf & Hl & Hv & _).
    assert (Hc : seg_contains E (mkSeg d p len) q = true).
    { assert (HL : 0 <= len) by (rewrite Hl; apply norm_nonneg). apply seg_contains_iff; auto. exists q. rewrite dist_self. split; auto.
      exists len. cbn [sanchor slength sdn]. split; [lra|]. rewrite Hv, padd_sub. auto. }
    rewrite Hc. reflexivity.
  - assert (Hpq : p = q).
    { apply dist_zero. pose proof (dist_nonneg p q). nra. }
    subst q. rewrite vec_neb_R. assert (Hr : vec_eqb p p = true) by (apply vec_eqb_R; auto). rewrite Hr. cbn [negb].
    assert (Hz : psub p p = porigin) by (unfold psub, porigin; vext; ring). rewrite Hz.
    change (mkV 1 0) with (mkV 1 0). unfold seg_vector_setter. rewrite vec2_of_R.
    assert (H0 : vlength porigin = 0) by (apply (norm_zero porigin); auto). rewrite H0. unfold nfalsy; rnum.
    destruct (Reqb_spec 0 0); [|lra]. cbn [negb]. destruct (set_direction E (mkV 1 0)) as [d|] eqn:Hd; cbn [bind fst snd]; auto.
    assert (Hc : seg_contains E (mkSeg d p 0) p = true).
    { apply set_direction_frame in Hd; auto. apply seg_contains_iff; auto; [cbn [slength]; lra|]. exists p. rewrite dist_self. split; auto.
      exists 0. cbn [sanchor slength sdn]. split; [lra|]. rewrite padd_0. auto. }
    rewrite Hc. reflexivity.
Qed.
Lemma seg_roundtrip (E : R) (s : segment R) : 0 < E < 1 -> frame (sdn s) -> E < slength s ->
  seg_from_points E [fst (seg_points s); snd (seg_points s)] = Ok s.
Proof.
  intros HE Hf HL. unfold seg_points. cbn [fst snd]. rewrite seg_two_points by lra. rewrite seg_end_R, psub_padd.
  pose proof (proj1 Hf) as H1. assert (Hn : norm (pscale (slength s) (ddir (sdn s))) = slength s).
  { rewrite norm_scale, H1, Rabs_right; lra. }
  destruct (seg_vector_setter_cases E (pscale (slength s) (ddir (sdn s)))) as [(Hv & _ & H)|[(Hv & _ & H)|[Hv H]]]; [lra| | |].
  - apply norm_zero in Hv. lra.
  - rewrite H. cbn [bind fst snd]. rewrite Hn, unit_of_scale by (auto; lra). rewrite dirn_eta by auto. destruct s; reflexivity.
  - lra.
Qed.

(** ** Transforms *)
Lemma limg_scale (m : affine R) k v : limg m (pscale k v) = pscale k (limg m v).
Proof. unfold limg, pscale; cbn [vx vy]. vext; ring. Qed.
Lemma img_add (m : affine R) p v : img m (padd p v) = padd (img m p) (limg m v).
Proof. unfold img, limg, padd; cbn [vx vy]. vext; ring. Qed.
Lemma line_imul_cases (E : R) (l : line R) (m : affine R) : 0 < E -> frame (ldn l) ->
  (E < norm (limg m (ddir (ldn l))) /\ E <= 1 /\
   exists d, frame d /\ line_imul E l m = Ok (line_at d (img m (foot l))) /\
     limg m (ddir (ldn l)) = pscale (norm (limg m (ddir (ldn l)))) (ddir d)) \/
  ((norm (limg m (ddir (ldn l))) <= E \/ 1 < E) /\ line_imul E l m = Err ValueError).
Proof.
  intros HE Hf. unfold line_imul. rewrite line_points_R, !aapply_R, vsub_psub, img_add, psub_padd.
  destruct (set_direction_cases E (limg m (ddir (ldn l))) HE) as [(H1 & H2 & ->)|[H1 ->]]; cbn [bind].
  - left. split; auto. split; auto. eexists. split; [apply (frame_unit (limg m (ddir (ldn l)))); lra|]. split; [reflexivity|]. cbn [ddir].
    symmetry. apply unit_scale; lra.
  - right; auto.
Qed.
Lemma line_mul_imul (E : R) (l : line R) (m : affine R) : 0 < E -> line_mul E l m = line_imul E l m.
Proof.
  intro HE. unfold line_mul, line_imul. destruct (line_points l) as [p1 p2]. unfold line_from_points.
  destruct (vec_eqb (aapply m p2) (aapply m p1)) eqn:H.
  - apply vec_eqb_R in H. rewrite H, two_distinct_same. cbn [bind]. rewrite vsub_psub.
    destruct (setter_small E (psub (aapply m p1) (aapply m p1)) HE) as [-> _]; [|reflexivity].
    left. rewrite dist_norm_sub, dist_self. lra.
  - apply vec_eqb_R_false in H. rewrite two_distinct_pair by auto. cbn [bind forallb]. destruct (set_direction _ _); reflexivity.
Qed.
Lemma line_imul_image (E : R) (l l' : line R) (m : affine R) : 0 < E -> frame (ldn l) -> line_imul E l m = Ok l' ->
  forall q', line_set l' q' <-> exists q, line_set l q /\ q' = img m q.
Proof.
  intros HE Hf H. destruct (line_imul_cases E l m HE Hf) as [(H1 & _ & d & Hd & H2 & Hv)|[_ H2]]; rewrite H2 in H; [|discriminate].
  injection H as <-. set (k := norm (limg m (ddir (ldn l)))) in *. intro q'. split.
  - intro Hq. rewrite <- (line_eta l Hf).
    assert (Hq' : exists t, q' = padd (img m (foot l)) (pscale t (ddir d))).
    { exists (pdot (ddir d) (psub q' (img m (foot l)))). rewrite (frame_decomp d q' (img m (foot l)) Hd) at 1.
      replace (pdot (dnormal d) (psub q' (img m (foot l)))) with 0; [rewrite padd_0; auto|].
      unfold line_set, line_at in Hq; cbn [ldn loffset] in Hq. rewrite pdot_sub_r, !(pdot_sym (dnormal d)), Hq. ring. }
    destruct Hq' as [t Ht]. exists (padd (foot l) (pscale (t / k) (ddir (ldn l)))). split.
    + apply line_at_through; auto.
    + rewrite img_add, limg_scale, Hv, Ht. f_equal. unfold pscale; cbn [vx vy]. vext; field; lra.
  - intros (q & Hq & ->). apply line_set_along in Hq; auto. destruct Hq as [t ->]. rewrite img_add, limg_scale, Hv.
    apply line_set_shift; auto.
Qed.
Lemma ray_imul_cases (E : R) (r : ray R) (m : affine R) : 0 < E ->
  (E < norm (limg m (ddir (rdn r))) /\ E <= 1 /\
   exists d, frame d /\ ray_imul E r m = Ok (mkRay d (img m (ranchor r))) /\
     limg m (ddir (rdn r)) = pscale (norm (limg m (ddir (rdn r)))) (ddir d)) \/
  ((norm (limg m (ddir (rdn r))) <= E \/ 1 < E) /\ ray_imul E r m = Err ValueError).
Proof.
  intros HE. unfold ray_imul, ray_points. rewrite !aapply_R, vsub_psub, vadd_padd, img_add, psub_padd, vec2_of_R.
  destruct (set_direction_cases E (limg m (ddir (rdn r))) HE) as [(H1 & H2 & ->)|[H1 ->]]; cbn [bind].
  - left. split; auto. split; auto. eexists. split; [apply (frame_unit (limg m (ddir (rdn r)))); lra|]. split; [reflexivity|]. cbn [ddir].
    symmetry. apply unit_scale; lra.
  - right; auto.
Qed.
Lemma ray_mul_imul (E : R) (r : ray R) (m : affine R) : 0 < E -> ray_mul E r m = ray_imul E r m.
Proof.
  intro HE. unfold ray_mul, ray_imul. destruct (ray_points r) as [p1 p2]. unfold ray_from_points.
  destruct (vec_eqb (aapply m p2) (aapply m p1)) eqn:H.
  - apply vec_eqb_R in H. rewrite H, two_distinct_same. cbn [bind]. rewrite vsub_psub.
    destruct (setter_small E (psub (aapply m p1) (aapply m p1)) HE) as [-> _]; [|reflexivity].
    left. rewrite dist_norm_sub, dist_self. lra.
  - apply vec_eqb_R_false in H. rewrite two_distinct_pair by auto. cbn [bind forallb]. destruct (set_direction _ _); reflexivity.
Qed.
Lemma ray_imul_image (E : R) (r r' : ray R) (m : affine R) : 0 < E -> ray_imul E r m = Ok r' ->
  ranchor r' = img m (ranchor r) /\ forall q', ray_set r' q' <-> exists q, ray_set r q /\ q' = img m q.
Proof.
  intros HE H. destruct (ray_imul_cases E r m HE) as [(H1 & _ & d & Hd & H2 & Hv)|[_ H2]]; rewrite H2 in H; [|discriminate].
  injection H as <-. set (k := norm (limg m (ddir (rdn r)))) in *. split; [reflexivity|]. intro q'. split.
  - intros (t & Ht & ->). cbn [rdn ranchor]. exists (padd (ranchor r) (pscale (t / k) (ddir (rdn r)))). split.
    + exists (t / k). split; auto. apply Rmult_le_reg_r with k; [lra|]. unfold Rdiv. rewrite Rmult_assoc, Rinv_l; lra.
    + rewrite img_add, limg_scale, Hv. f_equal. unfold pscale; cbn [vx vy]. vext; field; lra.
  - intros (q & (t & Ht & ->) & ->). exists (t * k). cbn [rdn ranchor]. split; [apply Rmult_le_pos; lra|].
    rewrite img_add, limg_scale, Hv. f_equal. unfold pscale; cbn [vx vy]. vext; ring.
Qed.
Lemma seg_mul_imul (E : R) (s : segment R) (m : affine R) : 0 < E -> seg_mul E s m = seg_imul E s m.
Proof.
  intro HE. unfold seg_mul, seg_imul. destruct (seg_points s) as [p1 p2]. rewrite seg_two_points by auto. change (vsub (aapply m p2) (aapply m p1)) with (psub (aapply m p2) (aapply m p1)).
  destruct (seg_vector_setter E _) as [[d len]|]; reflexivity.
Qed.
Lemma seg_imul_cases (E : R) (s : segment R) (m : affine R) : 0 < E ->
  let v := limg m (pscale (slength s) (ddir (sdn s))) in
  (exists s', seg_imul E s m = Ok s' /\ sanchor s' = img m (sanchor s) /\ seg_end s' = img m (seg_end s) /\
     frame (sdn s') /\ slength s' = norm v /\ pscale (slength s') (ddir (sdn s')) = v /\ (v = porigin \/ E < norm v)) \/
  (((v <> porigin /\ norm v <= E) \/ 1 <= E) /\ seg_imul E s m = Err ValueError).
Proof.
  intros HE v. unfold seg_imul, seg_points. rewrite seg_end_R, !aapply_R, vsub_psub, img_add, psub_padd. fold v.
  destruct (seg_vector_setter E v) as [[d len]|x] eqn:Hv; cbn [bind].
  - left. apply seg_vector_setter_ok in Hv; auto. destruct Hv as (Hf & Hl & Hp & Hc). eexists. split; [reflexivity|].
    rewrite seg_end_R. cbn [sdn sanchor slength]. rewrite Hp. auto 10.
  - right. apply seg_vector_setter_err in Hv; auto. destruct Hv as [-> Hv]. auto.
Qed.
Lemma seg_imul_image (E : R) (s s' : segment R) (m : affine R) : 0 < E -> frame (sdn s) -> 0 <= slength s ->
  seg_imul E s m = Ok s' -> forall q', seg_set s' q' <-> exists q, seg_set s q /\ q' = img m q.
Proof.
  intros HE Hf HL H. destruct (seg_imul_cases E s m HE) as [(s1 & H1 & Ha & He & Hf' & Hl & Hp & Hc)|[_ H1]]; rewrite H1 in H; [|discriminate].
  injection H as <-. rewrite limg_scale in *. remember (limg m (ddir (sdn s))) as u eqn:Hu.
  assert (HL' : 0 <= slength s1) by (rewrite Hl; apply norm_nonneg).
  assert (Hpar : forall t, padd (sanchor s1) (pscale (t * slength s1) (ddir (sdn s1))) = padd (img m (sanchor s)) (pscale (t * slength s) u)).
  { intro t. rewrite Ha. f_equal. transitivity (pscale t (pscale (slength s1) (ddir (sdn s1)))).
    - unfold pscale; cbn [vx vy]; vext; ring.
    - rewrite Hp. unfold pscale; cbn [vx vy]; vext; ring. }
  intro q'. unfold seg_set, along_seg. split.
  - intros (t & Ht & ->). destruct (Req_dec (slength s1) 0) as [Hz|Hz].
    + exists (sanchor s). split; [exists 0; split; [lra|rewrite padd_0; auto]|].
      replace t with 0 by lra. rewrite padd_0. auto.
    + exists (padd (sanchor s) (pscale (t / slength s1 * slength s) (ddir (sdn s)))). split.
      * exists (t / slength s1 * slength s). split; auto.
        assert (0 <= t / slength s1 <= 1).
        { split; [apply Rmult_le_pos; [lra|apply Rlt_le, Rinv_0_lt_compat; lra]|].
          apply Rmult_le_reg_r with (slength s1); [lra|]. unfold Rdiv. rewrite Rmult_assoc, Rinv_l; lra. }
        nra.
      * rewrite img_add, limg_scale, <- Hu, <- Hpar. f_equal. f_equal. field. auto.
  - intros (q & (t & Ht & ->) & ->). destruct (Req_dec (slength s) 0) as [Hz|Hz].
    + exists 0. split; [lra|]. rewrite padd_0. replace t with 0 by lra. rewrite padd_0. auto.
    + exists (t / slength s * slength s1). split.
      * assert (0 <= t / slength s <= 1).
        { split; [apply Rmult_le_pos; [lra|apply Rlt_le, Rinv_0_lt_compat; lra]|].
          apply Rmult_le_reg_r with (slength s); [lra|]. unfold Rdiv. rewrite Rmult_assoc, Rinv_l; lra. }
        nra.
      * rewrite Hpar, img_add, limg_scale, <- Hu. replace (t / slength s * slength s) with t by (field; auto).
        reflexivity.
Qed.
