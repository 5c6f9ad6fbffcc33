(** * Constructors of lines, rays and segments on doubles *)
From Coq Require Import ZArith List Bool Reals Lra Lia Psatz Floats.
From Flocq Require Import Core IEEE754.PrimFloat IEEE754.BinarySingleNaN.
From Verif Require Import Num NumFloat Vec Affine Line OrdLaws SpecGeom RBase SpecLine SpecErr LineFacts LineFacts2 FloatFacts FloatFacts2 FloatFacts3 FloatVec SpecExact FloatExact FloatErr FloatErr2 FloatErr3 FloatErr4 FloatErr5 FloatErr6.
Import ListNotations.
Local Open Scope R_scope.

Lemma near_weak w p d d' : near_vec w p d -> d <= d' -> near_vec w p d'.
Proof. intros [A B] H. split; eapply apx_weak; eauto. Qed.
Lemma good_pos E r : good_length E r -> 0 < r.
Proof. intros [[H _] _]. pose proof (bpow_gt_0 radix2 (-399)). lra. Qed.

Section Construct.
  Variable L : FloatLib.
  Hypothesis HS : sqrt_ok L.
  Let NL : Num PrimFloat.float := FNum L.
  Local Existing Instance NL.
  Variable M : R.
  Hypothesis HM : room M.
  Variable E : PrimFloat.float.
  Hypothesis HE : eps_ok L E.
  Let m := runit * M.

  Lemma good_bounds r : good_length E r -> bpow radix2 (-400) <= r <= bpow radix2 400 /\ toR E < r * (1 - 7 * runit).
  Proof using.
    intro G. pose proof (good_pos _ _ G). destruct G as [[H1 H2] H3]. pose proof runit_pos.
    assert (B1 : bpow radix2 (-400) <= bpow radix2 (-399)) by (apply bpow_le; lia).
    assert (B2 : bpow radix2 399 <= bpow radix2 400) by (apply bpow_le; lia).
    split; [lra|]. eapply Rlt_le_trans; [exact H3|]. apply Rmult_le_compat_l; lra.
  Qed.
  Lemma new_dirn v : finite_vec v -> good_length E (norm (vecR v)) -> exists d, set_direction E v = Ok d /\ near_dirn d (vecR v).
  Proof using HS HE.
    intros Fv G. destruct (good_bounds _ G) as [B1 B2]. destruct (set_direction_err L HS E HE v Fv B1 B2) as (d & H1 & H2 & H3).
    pose proof runit_pos. exists d. split; [exact H1|]. split; (eapply near_weak; [eassumption|lra]).
  Qed.
  Definition delta (a b : vec PrimFloat.float) : pt := psub (vecR b) (vecR a).
  Lemma diff_dirn a b : within M a -> within M b -> good_length E (norm (delta a b)) ->
    exists d, set_direction E (vsub b a) = Ok d /\ near_dirn d (delta a b).
  Proof using HS HE HM.
    intros Ha Hb G. destruct (diff_direction_err L HS E HE M a b (within_room M HM) Ha Hb G) as (d & H1 & H2 & H3 & _).
    pose proof runit_pos. exists d. split; [exact H1|]. split; (eapply near_weak; [eassumption|lra]).
  Qed.
  Lemma fin_eqb_refl a : finite_vec a -> vec_eqb a a = true.
  Proof using.
    intros [F1 F2]. unfold vec_eqb. cbn [neqb NL FNum]. rewrite !toR_eq by auto. unfold Reqb. destruct (Req_EM_T (toR (vx a)) (toR (vx a))), (Req_EM_T (toR (vy a)) (toR (vy a))); auto; contradiction.
  Qed.
  Lemma fin_eqb_ne a b : finite_vec a -> finite_vec b -> 0 < norm (delta a b) -> vec_eqb b a = false.
  Proof using.
    intros [F1 F2] [F3 F4] H. destruct (vec_eqb b a) eqn:K; auto. exfalso. unfold vec_eqb in K. cbn [neqb NL FNum] in K. rewrite !toR_eq in K by auto.
    unfold Reqb in K. destruct (Req_EM_T (toR (vx b)) (toR (vx a))) as [e1|]; [|discriminate]. destruct (Req_EM_T (toR (vy b)) (toR (vy a))) as [e2|]; [|discriminate].
    assert (norm (delta a b) = 0); [|lra]. unfold norm, delta, psub, vecR. cbn [vx vy]. rewrite e1, e2.
    replace ((toR (vx a) - toR (vx a)) * (toR (vx a) - toR (vx a)) + (toR (vy a) - toR (vy a)) * (toR (vy a) - toR (vy a))) with 0 by ring. apply sqrt_0.
  Qed.
  Lemma first_distinct_skip a b k rest : finite_vec a -> finite_vec b -> 0 < norm (delta a b) ->
    first_distinct a (repeat a k ++ b :: rest) = Some (b, rest).
  Proof using.
    intros Fa Fb H. induction k as [|k IH]; cbn [repeat app first_distinct]; rewrite (vid L).
    - rewrite fin_eqb_ne by auto. reflexivity.
    - rewrite fin_eqb_refl by auto. exact IH.
  Qed.
  Lemma two_distinct_skip a b k rest : finite_vec a -> finite_vec b -> 0 < norm (delta a b) ->
    two_distinct (a :: repeat a k ++ b :: rest) = Ok (a, b, rest).
  Proof using. intros. unfold two_distinct. rewrite (vid L), first_distinct_skip by auto. reflexivity. Qed.

  Lemma line_new_built p v : within M p -> finite_vec v -> good_length E (norm (vecR v)) ->
    exists l, line_new E p v = Ok l /\ near_dirn (ldn l) (vecR v) /\ loffset l = dot p (dnormal (ldn l)).
  Proof using HS HE.
    intros Hp Fv G. destruct (new_dirn v Fv G) as (d & Hd & Nd). unfold line_new. rewrite Hd. cbn [bind]. rewrite (vid L).
    eexists. split; [reflexivity|]. auto.
  Qed.
  Lemma line_points_built a b k rest : within M a -> within M b -> good_length E (norm (delta a b)) ->
    exists l, near_dirn (ldn l) (delta a b) /\ loffset l = dot a (dnormal (ldn l)) /\
      line_from_points E (a :: repeat a k ++ b :: rest) = if forallb (line_contains E l) rest then Ok l else Err ValueError.
  Proof using HS HE HM.
    intros Ha Hb G. destruct (diff_dirn a b Ha Hb G) as (d & Hd & Nd). exists (mkLine d (dot a (dnormal d))). split; [exact Nd|]. split; [reflexivity|].
    unfold line_from_points. rewrite two_distinct_skip by (first [apply Ha|apply Hb|apply (good_pos _ _ G)]). cbn [bind]. rewrite Hd. cbn [bind]. reflexivity.
  Qed.
  Lemma ray_new_built p v : finite_vec v -> good_length E (norm (vecR v)) ->
    exists r, ray_new E p v = Ok r /\ near_dirn (rdn r) (vecR v) /\ ranchor r = p.
  Proof using HS HE.
    intros Fv G. destruct (new_dirn v Fv G) as (d & Hd & Nd). unfold ray_new. rewrite Hd. cbn [bind]. rewrite !(vid L).
    eexists. split; [reflexivity|]. auto.
  Qed.
  Lemma ray_points_built a b k rest : within M a -> within M b -> good_length E (norm (delta a b)) ->
    exists r, near_dirn (rdn r) (delta a b) /\ ranchor r = a /\
      ray_from_points E (a :: repeat a k ++ b :: rest) = if forallb (ray_contains E r) rest then Ok r else Err ValueError.
  Proof using HS HE HM.
    intros Ha Hb G. destruct (diff_dirn a b Ha Hb G) as (d & Hd & Nd). exists (mkRay d a). split; [exact Nd|]. split; [reflexivity|].
    unfold ray_from_points. rewrite two_distinct_skip by (first [apply Ha|apply Hb|apply (good_pos _ _ G)]). cbn [bind]. rewrite Hd. cbn [bind].
    rewrite (vid L). reflexivity.
  Qed.
  (** A length clearly positive is not falsy. *)
  Lemma length_truthy v : finite_vec v -> bpow radix2 (-400) <= norm (vecR v) <= bpow radix2 400 -> nfalsy (vlength v) = false.
  Proof using HS.
    intros Fv G. destruct (length_rel L HS v Fv G) as [F K]. fold NL in F, K. pose proof (bpow_gt_0 radix2 (-400)). pose proof runit_small as U1. pose proof runit_pos.
    assert (RN : runit * norm (vecR v) <= / 1048576 * norm (vecR v)) by (apply Rmult_le_compat_r; lra). apply abs_le2 in K.
    unfold nfalsy. cbn [neqb NL FNum]. fold NL. change n0 with 0%float. rewrite toR_eq by (auto; reflexivity). rewrite toR_0. unfold Reqb.
    destruct (Req_EM_T (toR (vlength v)) 0) as [e|]; auto. lra.
  Qed.
  Lemma delta_bound a b : within M a -> within M b -> norm (delta a b) <= 4 * M.
  Proof using.
    intros (_ & A1 & A2) (_ & B1 & B2). eapply Rle_trans; [apply norm_sum|]. unfold delta, psub, vecR. cbn [vx vy].
    assert (Rabs (toR (vx b) - toR (vx a)) <= 2 * M) by (eapply Rle_trans; [apply Rabs_triang|]; rewrite Rabs_Ropp; lra).
    assert (Rabs (toR (vy b) - toR (vy a)) <= 2 * M) by (eapply Rle_trans; [apply Rabs_triang|]; rewrite Rabs_Ropp; lra). lra.
  Qed.
  Lemma seg_new_built p v : within M p -> finite_vec v -> good_length E (norm (vecR v)) -> norm (vecR v) <= 4 * M ->
    exists s, seg_new E p v = Ok s /\ near_dirn (sdn s) (vecR v) /\ sanchor s = p /\ apx (slength s) (norm (vecR v)) (40 * m).
  Proof using HS HE HM.
    intros Hp Fv G H4. destruct (new_dirn v Fv G) as (d & Hd & Nd). destruct (good_bounds _ G) as [B1 B2].
    unfold seg_new, seg_vector_setter. rewrite !(vid L), length_truthy by auto. cbn [negb]. rewrite Hd. cbn [bind]. eexists. split; [reflexivity|].
    cbn [sdn sanchor slength]. split; [exact Nd|]. split; [reflexivity|]. eapply apx_weak; [apply (length_rel L HS v Fv B1)|].
    pose proof runit_pos. pose proof (m_pos M HM). assert (runit * norm (vecR v) <= runit * (4 * M)) by (apply Rmult_le_compat_l; lra). unfold m. lra.
  Qed.
  Lemma seg_points_built a b : within M a -> within M b -> good_length E (norm (delta a b)) ->
    exists s, near_dirn (sdn s) (delta a b) /\ sanchor s = a /\ apx (slength s) (norm (delta a b)) (40 * m) /\
      seg_from_points E [a; b] = if seg_contains E s b then Ok s else Err ValueError.
  Proof using HS HE HM.
    intros Ha Hb G. destruct (diff_direction_err L HS E HE M a b (within_room M HM) Ha Hb G) as (d & Hd & N1 & N2 & Fv & Nv).
    fold NL in Hd, Fv, Nv. change (psub (vecR b) (vecR a)) with (delta a b) in *. pose proof (good_pos _ _ G) as P.
    pose proof runit_small as U1. pose proof runit_pos as U0. pose proof (delta_bound a b Ha Hb) as D4. pose proof (m_pos M HM) as MP.
    assert (RN : runit * norm (delta a b) <= / 1048576 * norm (delta a b)) by (apply Rmult_le_compat_r; lra).
    assert (NB : bpow radix2 (-400) <= norm (vecR (vsub b a)) <= bpow radix2 400).
    { destruct G as [[G1 G2] _].
      assert (X1 : 2 * bpow radix2 (-400) = bpow radix2 (-399)) by (change (-399)%Z with (1 + -400)%Z; rewrite bpow_plus; reflexivity).
      assert (X2 : 2 * bpow radix2 399 = bpow radix2 400) by (change 400%Z with (1 + 399)%Z; rewrite bpow_plus; reflexivity). lra. }
    exists (mkSeg d a (vlength (vsub b a))). cbn [sdn sanchor slength].
    split; [split; (eapply near_weak; [eassumption|lra])|]. split; [reflexivity|]. split.
    - destruct (length_rel L HS (vsub b a) Fv NB) as [F K]. fold NL in F, K. split; [exact F|]. apply abs_le2 in K.
      assert (runit * norm (vecR (vsub b a)) <= runit * (1.01 * norm (delta a b))) by (apply Rmult_le_compat_l; lra).
      assert (runit * norm (delta a b) <= runit * (4 * M)) by (apply Rmult_le_compat_l; lra). apply Rabs_le. unfold m in *. nra.
    - unfold seg_from_points. rewrite (vid L). cbn [fold_left]. unfold furthest_step. cbn [fst]. rewrite (vid L).
      replace (nltb n0 (length2 (vsub b a))) with true.
      + unfold vec_neb. rewrite <- negb_andb. replace ((vx b =? vx a) && (vy b =? vy a))%num with false by (symmetry; apply fin_eqb_ne; first [apply Ha|apply Hb|exact P]).
        cbn [negb]. unfold seg_vector_setter. rewrite !(vid L), length_truthy by auto. cbn [negb]. rewrite Hd. cbn [bind forallb]. rewrite (vid L), andb_true_r. reflexivity.
      + destruct (length2_err L (vsub b a) Fv (proj2 NB)) as [[F K] _]. fold NL in F, K. apply abs_le2 in K. symmetry. cbn [nltb NL FNum]. fold NL. change n0 with 0%float.
        rewrite toR_lt by (auto; reflexivity). rewrite toR_0. unfold Rltb. destruct (Rlt_dec 0 (toR (length2 (vsub b a)))) as [|H]; auto. exfalso. apply H.
        set (n := norm (vecR (vsub b a))) in *.
        assert (T : 12 * tiny <= n * n).
        { apply Rle_trans with (bpow radix2 (-400) * bpow radix2 (-400)); [|apply Rmult_le_compat; try apply bpow_ge_0; lra].
          rewrite <- bpow_plus. apply Rle_trans with (16 * tiny); [pose proof tiny_pos; lra|]. unfold tiny. change 16 with (bpow radix2 4). rewrite <- bpow_plus. apply bpow_le. lia. }
        pose proof tiny_pos. assert (runit * (n * n) <= / 1048576 * (n * n)) by (apply Rmult_le_compat_r; nra). lra.
  Qed.
End Construct.
