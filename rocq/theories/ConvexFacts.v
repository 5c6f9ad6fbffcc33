(** * Closed sequences of edge vectors that turn one way *)
From Coq Require Import ZArith List Bool Reals Lra Lia Psatz Permutation Sorting.
From Verif Require Import Num Vec Affine Box Seq Polygon SpecGeom RBase VecFacts VecFacts2 SpecCycle PolyEq CentroidFacts WindFacts.
Import ListNotations.
Local Open Scope R_scope.

(** ** Lexicographic half-planes *)
Definition fwd (v : pt) : Prop := 0 < vx v \/ (vx v = 0 /\ 0 < vy v).
Definition vneg (v : pt) : pt := pscale (-1) v.
Lemma fwd_cases (v : pt) : v <> porigin -> fwd v \/ fwd (vneg v).
Proof.
  destruct v as [x y]. unfold fwd, vneg, pscale, porigin. cbn [vx vy]. intro H.
  destruct (Rtotal_order x 0) as [X|[X|X]]; [right; left; lra| |left; left; lra].
  destruct (Rtotal_order y 0) as [Y|[Y|Y]]; [right; right; lra| |left; right; lra]. subst. contradiction.
Qed.
Lemma fwd_not (v : pt) : fwd v -> fwd (vneg v) -> False.
Proof. unfold fwd, vneg, pscale. cbn [vx vy]. lra. Qed.
Lemma fwd_null (v : pt) : fwd v -> v <> porigin.
Proof. intros H ->. unfold fwd, porigin in H. cbn [vx vy] in H. lra. Qed.
Lemma vneg_vneg (v : pt) : vneg (vneg v) = v.
Proof. destruct v as [x y]. unfold vneg, pscale. cbn [vx vy]. vext; ring. Qed.
Lemma dir_fwd (v : pt) : dir_of v = (-1)%Z <-> fwd v.
Proof.
  unfold dir_of, fwd. rnum. destruct (Rltb_spec 0 (vx v)); [split; auto|]. destruct (Rltb_spec (vx v) 0); [split; [discriminate|lra]|].
  destruct (Rltb_spec 0 (vy v)); [split; auto; lra|]. destruct (Rltb_spec (vy v) 0); (split; [discriminate|lra]).
Qed.
Lemma dir_bwd (v : pt) : dir_of v = 1%Z <-> fwd (vneg v).
Proof.
  unfold dir_of, fwd, vneg, pscale. rnum. destruct (Rltb_spec 0 (vx v)); [split; [discriminate|lra]|]. destruct (Rltb_spec (vx v) 0); [split; auto; lra|].
  destruct (Rltb_spec 0 (vy v)); [split; [discriminate|lra]|]. destruct (Rltb_spec (vy v) 0); (split; [lra||discriminate|auto; lra]).
Qed.
Lemma dir_nn (v : pt) : v <> porigin -> dir_of v = (-1)%Z \/ dir_of v = 1%Z.
Proof. intro H. rewrite dir_fwd, dir_bwd. apply fwd_cases; auto. Qed.
(** Angular order inside a half-plane is transitive. *)
Lemma half_trans (u v w : pt) : fwd u -> fwd v -> fwd w -> 0 <= pcross u v -> 0 <= pcross v w -> 0 <= pcross u w.
Proof.
  destruct u as [u1 u2], v as [v1 v2], w as [w1 w2]. unfold fwd. ug. cbn [vx vy]. intros Hu Hv Hw H1 H2.
  assert (I : v1 * (u1 * w2 - u2 * w1) = u1 * (v1 * w2 - v2 * w1) + w1 * (u1 * v2 - u2 * v1)) by ring.
  destruct Hv as [Hv|[-> Hv]].
  - assert (0 <= u1 * (v1 * w2 - v2 * w1)) by (apply Rmult_le_pos; lra). assert (0 <= w1 * (u1 * v2 - u2 * v1)) by (apply Rmult_le_pos; lra).
    apply (Rmult_le_reg_l v1); lra.
  - assert (w1 = 0) as -> by nra. destruct Hw as [Hw|[_ Hw]]; [lra|]. assert (0 <= u1) by lra. nra.
Qed.
Definition tsign (s : R) : Prop := s = 1 \/ s = -1.
Lemma half_trans_s (s : R) (u v w : pt) : tsign s -> fwd u -> fwd v -> fwd w -> 0 <= s * pcross u v -> 0 <= s * pcross v w -> 0 <= s * pcross u w.
Proof.
  assert (A : forall a b : pt, pcross a b = - pcross b a) by (intros; ug; ring).
  intros [-> | ->] Hu Hv Hw H1 H2.
  - rewrite Rmult_1_l in *. apply (half_trans u v w); auto.
  - rewrite (A u w). replace (-1 * - pcross w u) with (pcross w u) by ring. apply (half_trans w v u); auto.
    + rewrite (A v w) in H2. lra.
    + rewrite (A u v) in H1. lra.
Qed.
Lemma pcross_neg (u v : pt) : pcross (vneg u) (vneg v) = pcross u v.
Proof. unfold vneg. ug. ring. Qed.

(** ** Direction changes along a sequence *)
Definition chg (e : pt * pt) : bool := Z.eqb (dir_of (snd e)) (- dir_of (fst e)).
Definition nch (l : list (pt * pt)) : nat := length (filter chg l).
Definition nn (v : pt) : Prop := v <> porigin.
Definition samed (a b : pt) : Prop := dir_of b = dir_of a.
Definition oppd (a b : pt) : Prop := dir_of b = (- dir_of a)%Z.
Lemma nch_cons e l : nch (e :: l) = ((if chg e then 1 else 0) + nch l)%nat.
Proof. unfold nch. cbn [filter]. destruct (chg e); auto. Qed.
Lemma nch_perm l m : Permutation l m -> nch l = nch m.
Proof. unfold nch. induction 1; cbn; auto; try destruct (chg x); try destruct (chg y); cbn; congruence. Qed.
Lemma chg_cases (a b : pt) : nn a -> nn b -> if chg (a, b) then oppd a b else samed a b.
Proof.
  intros Ha Hb. unfold chg, oppd, samed. cbn [fst snd]. destruct (Z.eqb_spec (dir_of b) (- dir_of a)); auto.
  destruct (dir_nn a Ha), (dir_nn b Hb); lia.
Qed.
Lemma blocks1 l : forall a, nn a -> Forall nn l -> nch (adj a l) = 0%nat -> Forall (samed a) l.
Proof.
  induction l as [|b l IH]; intros a Ha Hl H; constructor; inversion Hl; subst; cbn [adj] in H; rewrite nch_cons in H; pose proof (chg_cases a b Ha H2) as C.
  - destruct (chg (a, b)); [discriminate|auto].
  - destruct (chg (a, b)); [discriminate|]. eapply Forall_impl; [|apply (IH b); auto]. unfold samed in *. intros; congruence.
Qed.
Lemma blocks2 l : forall a, nn a -> Forall nn l -> (nch (adj a l) <= 1)%nat -> exists l1 l2, l = l1 ++ l2 /\ Forall (samed a) l1 /\ Forall (oppd a) l2.
Proof.
  induction l as [|b l IH]; intros a Ha Hl H; [exists [], []; repeat split; constructor|].
  inversion Hl; subst. cbn [adj] in H. rewrite nch_cons in H. pose proof (chg_cases a b Ha H2) as C. destruct (chg (a, b)).
  - exists [], (b :: l). split; auto. split; [constructor|]. constructor; auto. eapply Forall_impl; [|apply (blocks1 l b); auto; lia]. unfold samed, oppd in *. intros; congruence.
  - destruct (IH b) as (l1 & l2 & -> & F1 & F2); auto. exists (b :: l1), l2. split; auto. split; [constructor; auto|]; eapply Forall_impl; try eassumption; unfold samed, oppd in *; intros; congruence.
Qed.
Lemma blocks3 l : forall a, nn a -> Forall nn l -> (nch (adj a l) <= 2)%nat -> exists l1 l2 l3, l = l1 ++ l2 ++ l3 /\ Forall (samed a) l1 /\ Forall (oppd a) l2 /\ Forall (samed a) l3.
Proof.
  induction l as [|b l IH]; intros a Ha Hl H; [exists [], [], []; repeat split; constructor|].
  inversion Hl; subst. cbn [adj] in H. rewrite nch_cons in H. pose proof (chg_cases a b Ha H2) as C. destruct (chg (a, b)).
  - destruct (blocks2 l b) as (l2 & l3 & -> & F1 & F2); auto; [lia|]. exists [], (b :: l2), l3. split; auto. split; [constructor|]. split; [constructor; auto|];
      eapply Forall_impl; try eassumption; unfold samed, oppd in *; intros v Hv; rewrite Hv, C; auto. lia.
  - destruct (IH b) as (l1 & l2 & l3 & -> & F1 & F2 & F3); auto. exists (b :: l1), l2, l3. split; auto.
    split; [constructor; auto|split]; eapply Forall_impl; try eassumption; unfold samed, oppd in *; intros; congruence.
Qed.

(** ** Prefix sums *)
Definition vsum (l : list pt) : pt := fold_right padd porigin l.
Lemma vsum_app l m : vsum (l ++ m) = padd (vsum l) (vsum m).
Proof. unfold vsum. induction l as [|a l IH]; cbn [app fold_right]; [|rewrite IH]; ug; vext; cbn; ring. Qed.
Lemma cross_vsum (e : pt) l : pcross e (vsum l) = rsum (map (pcross e) l).
Proof. unfold vsum, rsum. induction l as [|a l IH]; cbn [map fold_right]; [|rewrite <- IH]; ug; cbn; ring. Qed.
Lemma rsum_nonneg l : Forall (Rle 0) l -> 0 <= rsum l.
Proof. unfold rsum. induction 1; cbn [fold_right]; lra. Qed.
Lemma rsum_nonpos l : Forall (fun x => x <= 0) l -> rsum l <= 0.
Proof. unfold rsum. induction 1; cbn [fold_right]; lra. Qed.
Lemma app_split {X} (a b p q : list X) : a ++ b = p ++ q -> (exists r, a = p ++ r /\ q = r ++ b) \/ (exists r, p = a ++ r /\ b = r ++ q).
Proof.
  revert p. induction a as [|x a IH]; intros [|y p] H; cbn in H.
  - right. exists []. auto.
  - right. exists (y :: p). auto.
  - left. exists (x :: a). auto.
  - injection H as <- H. destruct (IH p H) as [(r & -> & ->)|(r & -> & ->)]; [left|right]; exists r; auto.
Qed.
Lemma unimodal (a b p q : list R) : Forall (Rle 0) a -> Forall (fun x => x <= 0) b -> 0 <= rsum (a ++ b) -> a ++ b = p ++ q -> 0 <= rsum p.
Proof.
  intros Ha Hb Hs E. destruct (app_split _ _ _ _ E) as [(r & -> & ->)|(r & -> & ->)].
  - apply Forall_app in Ha as [Hp _]. apply rsum_nonneg; auto.
  - apply Forall_app in Hb as [_ Hq]. rewrite app_assoc, rsum_app in Hs. pose proof (rsum_nonpos q Hq). lra.
Qed.

(** ** Chains *)
Definition turn (s : R) (u v : pt) : Prop := 0 <= s * pcross u v.
Lemma adj_sorted (Q : pt -> pt -> Prop) l : forall a, Forall (fun e => Q (fst e) (snd e)) (adj a l) -> Sorted Q (a :: l).
Proof.
  induction l as [|b l IH]; intros a H; constructor; auto; cbn [adj] in H; inversion H; subst; auto.
Qed.
Lemma sorted_app {X} (Q : X -> X -> Prop) l m : Sorted Q (l ++ m) -> Sorted Q l /\ Sorted Q m.
Proof.
  induction l as [|a l IH]; intro H; [split; auto|]. cbn in H. inversion H; subst. destruct (IH H2). split; auto. constructor; auto.
  destruct l; auto. cbn in H3. inversion H3; subst. auto.
Qed.
Definition hturn (s : R) (h : pt -> Prop) (u v : pt) : Prop := h u /\ h v /\ turn s u v.
Lemma sorted_half (s : R) (h : pt -> Prop) l : Forall h l -> Sorted (turn s) l -> Sorted (hturn s h) l.
Proof.
  induction l as [|a l IH]; intros F S; constructor; inversion F; inversion S; subst; auto. destruct l; constructor. inversion H6; inversion H2; subst. repeat split; auto.
Qed.
Lemma strong_half (s : R) l (h : pt -> Prop) : tsign s -> (h = fwd \/ h = (fun v => fwd (vneg v))) -> Forall h l -> Sorted (turn s) l -> StronglySorted (hturn s h) l.
Proof.
  intros Hs Hh F S. apply Sorted_StronglySorted; [|apply sorted_half; auto].
  intros u v w (U & V & T1) (_ & W & T2). split; [auto|split; [auto|]]. unfold turn in *. destruct Hh as [-> | ->].
  - apply (half_trans_s s u v w); auto.
  - rewrite <- pcross_neg in *. apply (half_trans_s s (vneg u) (vneg v) (vneg w)); auto.
Qed.
Lemma strong_app {X} (Q : X -> X -> Prop) l a m : StronglySorted Q (l ++ a :: m) -> Forall (fun x => Q x a) l /\ Forall (Q a) m.
Proof.
  induction l as [|x l IH]; cbn [app]; intro H; inversion H; subst; [split; auto|]. destruct (IH H2) as [F1 F2]. split; auto. constructor; auto.
  apply Forall_app in H3 as [_ H3]. inversion H3; auto.
Qed.

(** The sign of the cross product with a fixed vector of the other half-plane
    changes at most once along a chain. *)
Lemma chain_split (s : R) (e : pt) l : tsign s -> fwd e -> Forall (fun v => fwd (vneg v)) l -> Sorted (turn s) l ->
  exists l1 l2, l = l1 ++ l2 /\ Forall (turn s e) l1 /\ Forall (fun v => s * pcross e v <= 0) l2.
Proof.
  intros Hs He F S. pose proof (strong_half s l _ Hs (or_intror eq_refl) F S) as SS. clear S.
  induction l as [|b l IH]; [exists [], []; repeat split; constructor|].
  inversion F; inversion SS; subst. destruct (Rle_lt_dec 0 (s * pcross e b)) as [P|P].
  - destruct IH as (l1 & l2 & -> & F1 & F2); auto. exists (b :: l1), l2. repeat split; auto.
  - exists [], (b :: l). split; auto. split; [constructor|]. constructor; [lra|].
    rewrite Forall_forall in *. intros v Hv. destruct (H6 v Hv) as (B1 & B2 & T).
    assert (K : 0 <= s * pcross (vneg (vneg e)) (vneg v)).
    { apply (half_trans_s s _ (vneg b)); auto; [rewrite vneg_vneg; auto| |].
      - rewrite vneg_vneg. replace (pcross e (vneg b)) with (- pcross e b) by (unfold vneg; ug; ring). lra.
      - rewrite pcross_neg. auto. }
    rewrite vneg_vneg in K. replace (pcross e (vneg v)) with (- pcross e v) in K by (unfold vneg; ug; ring). lra.
Qed.
(** A closed sequence of edges that turns one way and changes direction at
    most twice stays on one side of its first edge. *)
Lemma one_side_fwd (s : R) (e : pt) rest : tsign s -> fwd e -> Forall nn rest -> vsum (e :: rest) = porigin ->
  Forall (fun d => turn s (fst d) (snd d)) (cyc_pairs (e :: rest)) -> (nch (cyc_pairs (e :: rest)) <= 2)%nat ->
  forall p q, rest = p ++ q -> 0 <= s * pcross e (vsum p).
Proof.
  intros Hs He Hn Hz Ht Hc p q Epq. rewrite cyc_cons in Ht, Hc.
  destruct (blocks3 (rest ++ [e]) e) as (l1 & l2 & l3 & El & F1 & F2 & F3); auto using fwd_null.
  { apply fwd_null; auto. }
  { apply Forall_app. split; auto. constructor; [apply fwd_null; auto|constructor]. }
  apply (adj_sorted (turn s)) in Ht.
  assert (De : dir_of e = (-1)%Z) by (apply dir_fwd; auto).
  assert (Sm : forall l, Forall (samed e) l -> Forall fwd l).
  { intros l. apply Forall_impl. unfold samed. intros v Hv. apply dir_fwd. congruence. }
  assert (Op : forall l, Forall (oppd e) l -> Forall (fun v => fwd (vneg v)) l).
  { intros l. apply Forall_impl. unfold oppd. intros v Hv. apply dir_bwd. rewrite Hv, De. auto. }
  assert (W : exists l1 l2 l3, rest = l1 ++ l2 ++ l3 /\ Forall fwd l1 /\ Forall (fun v => fwd (vneg v)) l2 /\ Forall fwd l3).
  { destruct (exists_last_or l3) as [->|(k & z & ->)].
    - rewrite app_nil_r in El. destruct (exists_last_or l2) as [->|(k & z & ->)].
      + rewrite app_nil_r in El. exists rest, [], []. rewrite app_nil_r. split; auto. split; [|split; constructor]. rewrite <- El in F1. apply Sm in F1. apply Forall_app in F1. tauto.
      + exfalso. rewrite app_assoc in El. apply app_inj_tail in El as [_ <-]. apply Op, Forall_app in F2 as [_ F2]. inversion F2; subst. apply (fwd_not e); auto.
    - rewrite !app_assoc in El. apply app_inj_tail in El as [-> _]. exists l1, l2, k. rewrite app_assoc. split; auto. apply Sm in F1, F3. apply Op in F2. apply Forall_app in F3. tauto. }
  clear l1 l2 l3 El F1 F2 F3. destruct W as (l1 & l2 & l3 & -> & F1 & F2 & F3).
  rewrite <- !app_assoc in Ht. change (e :: l1 ++ l2 ++ l3 ++ [e]) with ((e :: l1) ++ l2 ++ l3 ++ [e]) in Ht.
  apply sorted_app in Ht as [S1 Ht]. apply sorted_app in Ht as [S2 S3].
  assert (G1 : Forall (turn s e) l1).
  { pose proof (strong_half s (e :: l1) fwd Hs (or_introl eq_refl) (Forall_cons _ He F1) S1) as SS. apply (strong_app _ []) in SS as [_ SS]. eapply Forall_impl; [|exact SS]. unfold hturn. tauto. }
  assert (G3 : Forall (fun v => s * pcross e v <= 0) l3).
  { assert (F3' : Forall fwd (l3 ++ [e])) by (apply Forall_app; auto).
    pose proof (strong_half s (l3 ++ [e]) fwd Hs (or_introl eq_refl) F3' S3) as SS. apply strong_app in SS as [SS _].
    eapply Forall_impl; [|exact SS]. unfold hturn, turn. intros v (_ & _ & T). replace (pcross e v) with (- pcross v e) by (ug; ring). lra. }
  destruct (chain_split s e l2 Hs He F2 S2) as (m1 & m2 & -> & M1 & M2).
  set (f := fun v => s * pcross e v).
  assert (SF : forall l, s * pcross e (vsum l) = rsum (map f l)). { intro l. rewrite cross_vsum, <- rsum_scale. reflexivity. }
  rewrite SF. apply (unimodal (map f (l1 ++ m1)) (map f (m2 ++ l3)) _ (map f q)).
  - apply Forall_map, Forall_app. split; auto.
  - apply Forall_map, Forall_app. split; auto.
  - rewrite <- map_app, <- SF. replace (pcross e (vsum ((l1 ++ m1) ++ m2 ++ l3))) with 0; [lra|].
    replace ((l1 ++ m1) ++ m2 ++ l3) with (l1 ++ (m1 ++ m2) ++ l3) by (rewrite <- !app_assoc; auto).
    assert (vsum (l1 ++ (m1 ++ m2) ++ l3) = vneg e) as ->; [|unfold vneg; ug; ring].
    set (r := vsum (l1 ++ (m1 ++ m2) ++ l3)) in *. unfold vsum in Hz. cbn [fold_right] in Hz. fold (vsum (l1 ++ (m1 ++ m2) ++ l3)) in Hz. fold r in Hz.
    destruct r as [r1 r2], e as [e1 e2]. unfold padd, porigin in Hz. cbn [vx vy] in Hz. apply mkV_inj in Hz. unfold vneg, pscale. cbn [vx vy]. vext; lra.
  - rewrite <- !map_app. f_equal. rewrite <- Epq. rewrite <- !app_assoc. reflexivity.
Qed.
