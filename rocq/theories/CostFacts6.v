(** * Strictly convex polygons: classification and logarithmic tangents; a family of them *)
From Coq Require Import ZArith List Bool Reals Lra Lia Psatz.
From Verif Require Import Num Vec Affine Box Seq Polygon Tangent Hull PolyOps SpecGeom SpecAffine SpecMass SpecConvex SpecTangent SpecExtreme RBase VecFacts VecFacts2 Cost CostFacts CostFacts2 CostFacts4 CostFacts5
  PolyCache PolyCache2 PolyCache3 PolyCache5 PolyEq CentroidFacts WindFacts ConvexFacts ConvexFacts2 ConvexFacts3 ConvexFacts4 AffineFacts PropBox TangentFacts TangentFacts2 TangentFacts3 TangentFacts4 RComp PropTangent PropRegular.
Import ListNotations.
Local Open Scope R_scope.

Lemma nodup_pairs {X} (l : list X) : NoDup l -> (2 <= length l)%nat -> forall a b, In (a, b) (cyc_pairs l) -> a <> b.
Proof.
  intros ND HL a b H <-. destruct l as [|x [|y l]]; cbn in HL; try lia. rewrite cyc_cons in H. change ((y :: l) ++ [x]) with (y :: l ++ [x]) in H. cbn [adj] in H.
  inversion ND as [|? ? N1 ND1]; subst. destruct H as [H|H]; [injection H as <- E; apply N1; left; auto|].
  revert y N1 ND1 H HL ND. induction l as [|z l IH]; intros y N1 ND1 H HL ND.
  - cbn in H. destruct H as [H|[]]. injection H as <- E. apply N1. left. auto.
  - cbn [app adj] in H. destruct H as [H|H]; [injection H as <- E; inversion ND1 as [|? ? N2 _]; apply N2; left; auto|]. inversion ND1; subst.
    apply (IH z); auto; [intro; apply N1; right; auto|cbn; lia|]. constructor; auto. intro; apply N1; right; auto.
Qed.
Lemma cyc_pairs_length {X} (l : list X) : length (cyc_pairs l) = length l.
Proof. destruct l as [|a l]; auto. unfold cyc_pairs. rewrite <- (map_length fst), cyc_fst. reflexivity. Qed.
Lemma strict_class s (vs : list pt) : strictly_convex s vs -> classify_core vs = Ok (true, false, length vs).
Proof.
  intro SC. pose proof (strict_sided s vs SC) as SD. pose proof (strict_spread s vs SC) as SP. destruct SC as (Ts & HL & ND & SC).
  destruct (complete_nodup s vs Ts ND SD SP) as (W & C). destruct (classify_core_complete s vs Ts ltac:(lia) W C) as (d & k & E). rewrite E.
  destruct (exists_last_or vs) as [->|(k1 & y & ->)]; [cbn in HL; lia|]. rewrite app_length in HL. cbn in HL.
  destruct (exists_last_or k1) as [->|(k2 & x & ->)]; [cbn in HL; lia|]. rewrite app_length in HL. cbn in HL. destruct k2 as [|a k2]; [cbn in HL; lia|].
  assert (NE : forall u v, In (u, v) (cyc_pairs (y :: (a :: k2) ++ [x])) -> u <> v).
  { apply nodup_pairs; [|cbn; rewrite app_length; cbn; lia]. apply (NoDup_Add (Add_app y ((a :: k2) ++ [x]) [])) in ND. rewrite app_nil_r in ND. constructor; apply ND. }
  assert (O : orient x y a <> 0).
  { intro Z. assert (K : 0 < s * orient x y a); [|rewrite Z in K; lra]. rewrite <- app_assoc in ND, SC. cbn [app] in ND, SC. inversion ND as [|? ? N1 _]; subst. apply SC.
    - rewrite cyc_cons. change (In (x, y) (adj a ((k2 ++ [x; y]) ++ [a]))). replace ((k2 ++ [x; y]) ++ [a]) with ((k2 ++ [x]) ++ [y; a]) by (rewrite <- !app_assoc; reflexivity). rewrite adj_last. apply in_or_app. left.
      rewrite <- app_assoc. cbn [app]. rewrite adj_last. apply in_or_app. right. left. reflexivity.
    - left. reflexivity.
    - intros ->. apply N1. apply in_or_app. right. left. reflexivity.
    - intros ->. apply N1. apply in_or_app. right. right. left. reflexivity. }
  revert E. unfold classify_core. replace (((a :: k2) ++ [x]) ++ [y]) with ((a :: k2) ++ [x; y]) by (rewrite <- app_assoc; reflexivity). destruct (py_get_tail (a :: k2) x y) as [-> ->]. cbn [bind].
  replace ((a :: k2) ++ [x; y]) with (((a :: k2) ++ [x]) ++ [y]) by (rewrite <- app_assoc; reflexivity). rewrite edge_vectors_snoc, edgev_distinct by exact NE.
  destruct (classify_loop _ _ _ _ _ _) as [[[c ch] sg] cnt] eqn:EL. cbn zeta. intro E.
  assert (c = true) as -> by (destruct (Nat.leb ch 2); congruence). pose proof (loop_count _ _ _ _ _ _ _ _ _ EL) as CN. rewrite map_length in CN. rewrite (cyc_pairs_length _) in CN.
  assert (SG : sg <> 0%Z).
  { rewrite cyc_cons in EL. cbn [app adj map] in EL. apply loop_sign_first in EL; auto. unfold diff. cbn [fst snd].
    assert (CE : cross (vsub y x) (psub a y) = orient x y a) by (unfold cross, vsub; rnum; ug; ring). rewrite CE. rnum.
    destruct (Rtotal_order 0 (orient x y a)) as [|[|]]; [left; apply Rltb_true; auto|congruence|right; apply Rltb_true; auto]. }
  injection E as _ E2 E3. rewrite <- E2, <- E3. replace (sg =? 0)%Z with false by (symmetry; apply Z.eqb_neq; auto). rewrite CN. cbn [length app plus Nat.eqb orb]. rewrite !app_length. cbn [length]. do 3 f_equal. lia.
Qed.

(** ** What the reads keep once convexity is known *)
Section Keep.
  Context {T : Type} {N : Num T}.
  Notation P := (poly T).
  Definition kept (p p' : P) : Prop := pverts p' = pverts p /\ pconvex p' = pconvex p /\ pypl p' = pypl p /\ pdupe p' = pdupe p.
  Lemma kept_refl p : kept p p. Proof. repeat split. Qed.
  Lemma kept_trans p q r : kept p q -> kept q r -> kept p r.
  Proof. intros (A & B & C & D) (A' & B' & C' & D'). repeat split; congruence. Qed.
  Lemma kept_simple (p : P) : pconvex p <> None -> kept p (snd (get_is_simple p)).
  Proof. intro H. unfold get_is_simple. destruct (psimple p) eqn:E; [apply kept_refl|]. destruct (pconvex p) eqn:EC; [|congruence]. rewrite E. repeat split; auto. Qed.
  Lemma kept_convex (p : P) : pconvex p <> None -> kept p (snd (get_is_convex p)).
  Proof. intro H. unfold get_is_convex. destruct (pconvex p) eqn:E; [apply kept_refl|congruence]. Qed.
  Lemma kept_bbox (p : P) : kept p (snd (get_bbox p)).
  Proof. unfold get_bbox. destruct (pbbox p); [apply kept_refl|]. destruct (box_from_points _); repeat split. Qed.
  Lemma kept_read q (p : P) : pconvex p <> None -> kept p (read_state q p).
  Proof.
    intro H. destruct q; cbn [read_state].
    - apply kept_convex; auto.
    - apply kept_simple; auto.
    - unfold get_centroid. destruct (pcentroid p); [apply kept_refl|]. pose proof (kept_simple p H) as K. destruct (get_is_simple p) as [[[|]|] p1]; cbn [snd] in *; auto.
      destruct (centroid_value (pverts p1)); auto.
    - apply kept_bbox.
    - unfold contains_point. cbv zeta. destruct (Nat.eqb _ 3).
      + unfold triangle_test. destruct (ptri p); [apply kept_refl|]. destruct (tri_build E (pverts p)) as [[|]|]; repeat split.
      + destruct (radial_shortcut p pt) as [[|]|]; try apply kept_refl. destruct (pypl p) eqn:EY; [apply kept_refl|]. destruct (Nat.eqb _ 4); [apply kept_refl|]. pose proof (kept_bbox p) as K.
        destruct (get_bbox p) as [[b|] p1]; cbn [snd] in *; auto. destruct (box_contains b pt); auto.
    - unfold tangents_to_point. destruct (Nat.ltb _ _); [|apply kept_refl]. pose proof (kept_convex p H) as K. destruct (get_is_convex p) as [[[|]|] p1]; cbn [snd] in *; auto. destruct (pdupe p1) as [[|]|]; auto.
  Qed.
  Lemma kept_reads qs : forall p : P, pconvex p <> None -> kept p (preads p qs).
  Proof.
    induction qs as [|q qs IH]; intros p H; [apply kept_refl|]. cbn [preads fold_left]. pose proof (kept_read q p H) as K. eapply kept_trans; [exact K|]. apply IH. destruct K as (_ & -> & _). exact H.
  Qed.
End Keep.

Lemma strict_log s (vs : list pt) (q : pt) (p : poly R) : strictly_convex s vs -> beyond_edge s vs q -> off_edge_lines vs q -> (20 < length vs)%nat ->
  pverts p = vs -> pconvex p = Some true -> pdupe p = Some false -> (snd (tangents_to_point_c q p) <= 2 * S (Nat.log2 (length vs)))%nat.
Proof.
  intros SC BE OFF HL EV EC ED. destruct (beyond_outside s vs q SC BE) as (d & FR). unfold tangents_to_point_c. rewrite EV. apply Nat.ltb_lt in HL. rewrite HL. unfold get_is_convex_c. rewrite EC. steps. rewrite ED. steps. rewrite EV.
  pose proof (left_i_log s vs q d SC FR) as A. pose proof (right_i_log s vs q d SC FR) as B. 
  assert (B' : (snd (right_tan_i_convex_c vs q) <= S (Nat.log2 (length vs)))%nat).
  { apply B. intros k E. apply (t_zero s _ q d SC FR) in E. apply (OFF (vat vs k) (vat vs (k + 1))); [apply vat_edge; apply Nat.ltb_lt in HL; lia|]. rewrite <- E. unfold orient, pcross, psub. cbn [vx vy]. ring. }
  destruct (fst (left_tan_i_convex_c vs q)); [|lia]. steps. destruct (py_get vs _); [|lia]. steps. destruct (fst (right_tan_i_convex_c vs q)); [|lia]. steps. destruct (py_get vs _); steps; lia.
Qed.

(** ** Points on a parabola *)
Definition bowl_at (i : nat) : pt := mkV (INR i) (INR i * INR i).
Definition bowl (n : nat) : list pt := map bowl_at (seq 0 n).
Lemma bowl_length n : length (bowl n) = n. Proof. unfold bowl. rewrite map_length. apply seq_length. Qed.
Lemma adj_seq m : forall s z i j, In (i, j) (adj s (seq (S s) m ++ [z])) -> (j = S i /\ s <= i < s + m)%nat \/ (i = (s + m)%nat /\ j = z).
Proof.
  induction m as [|m IH]; intros s z i j H; cbn in H.
  - destruct H as [H|[]]. injection H as <- <-. right. auto.
  - destruct H as [H|H]; [injection H as <- <-; left; lia|]. apply IH in H. destruct H as [H|H]; [left; lia|right; lia].
Qed.
Lemma bowl_edge n a b : In (a, b) (cyc_pairs (bowl n)) -> (exists i, (S i < n)%nat /\ a = bowl_at i /\ b = bowl_at (S i)) \/ (a = bowl_at (n - 1) /\ b = bowl_at 0).
Proof.
  unfold bowl. rewrite cyc_pairs_map. intro H. apply in_map_iff in H as ((i & j) & E & H). cbn [fst snd] in E. injection E as <- <-. destruct n as [|n]; [destruct H|].
  cbn [seq] in H. rewrite cyc_cons in H. apply adj_seq in H. destruct H as [(-> & H)|(-> & ->)]; [left; exists i; split; [lia|auto]|right]. replace (S n - 1)%nat with n by lia. auto.
Qed.
Lemma bowl_in n v : In v (bowl n) -> exists i, (i < n)%nat /\ v = bowl_at i.
Proof. intro H. apply in_map_iff in H as (i & <- & H). apply in_seq in H. exists i. split; [lia|auto]. Qed.
Lemma bowl_inj i j : bowl_at i = bowl_at j -> i = j.
Proof. intro H. injection H as H _. apply INR_eq; auto. Qed.
Lemma bowl_strict n : (3 <= n)%nat -> strictly_convex 1 (bowl n).
Proof.
  intro Hn. split; [auto|]. split; [rewrite bowl_length; auto|]. split.
  { unfold bowl. apply FinFun.Injective_map_NoDup; [intros x y; apply bowl_inj|apply seq_NoDup]. }
  intros a b v He Hv Na Nb. apply bowl_in in Hv as (j & Hj & ->). apply bowl_edge in He as [(i & Hi & -> & ->)|(-> & ->)].
  - replace (1 * orient (bowl_at i) (bowl_at (S i)) (bowl_at j)) with ((INR j - INR i) * (INR j - INR i - 1)) by (unfold bowl_at; ug; rewrite S_INR; ring).
    assert (i <> j) by (intros ->; auto). assert (S i <> j) by (intros <-; auto). destruct (le_lt_dec (S (S i)) j) as [L|L].
    + apply le_INR in L. rewrite !S_INR in L. nra.
    + assert (L' : (S j <= i)%nat) by lia. apply le_INR in L'. rewrite S_INR in L'. nra.
  - set (m := (n - 1)%nat) in *. replace (1 * orient (bowl_at m) (bowl_at 0) (bowl_at j)) with (INR m * INR j * (INR m - INR j)) by (unfold bowl_at; ug; cbn [INR]; ring).
    assert (m <> j) by (intros ->; auto). assert (0%nat <> j) by (intros <-; auto). assert (0 < INR j) by (apply lt_0_INR; lia). assert (INR j < INR m) by (apply lt_INR; unfold m in *; lia).
    apply Rmult_lt_0_compat; [|lra]. apply Rmult_lt_0_compat; lra.
Qed.
Definition bowl_q : pt := mkV 1 2.
Lemma bowl_inside n : (4 <= n)%nat -> strictly_inside 1 (bowl n) bowl_q.
Proof.
  intros Hn a b He _. apply bowl_edge in He as [(i & Hi & -> & ->)|(-> & ->)].
  - replace (1 * orient (bowl_at i) (bowl_at (S i)) bowl_q) with (INR i * INR i - INR i + 1) by (unfold bowl_at, bowl_q; ug; rewrite S_INR; ring). nra.
  - set (m := (n - 1)%nat). assert (3 <= INR m) by (change 3 with (IZR (Z.of_nat 3)); rewrite <- INR_IZR_INZ; apply le_INR; unfold m; lia).
    replace (1 * orient (bowl_at m) (bowl_at 0) bowl_q) with (INR m * (INR m - 2)) by (unfold bowl_at, bowl_q; ug; cbn [INR]; ring). nra.
Qed.
Lemma bowl_boxed n : (3 <= n)%nat -> exists b, box_from_points (bowl n) = Ok b /\ box_contains b bowl_q = true.
Proof.
  intro Hn. assert (NE : bowl n <> []) by (intro E; pose proof (bowl_length n) as L; rewrite E in L; cbn in L; lia).
  destruct (C29_tight_real (bowl n) NE) as (b & E & _ & _ & IN & _). exists b. split; [exact E|].
  assert (I : forall i, (i < n)%nat -> SpecBox.in_closed b (bowl_at i)) by (intros i Hi; apply IN; apply in_map; apply in_seq; lia).
  destruct (I 0%nat ltac:(lia)) as (A1 & A2). destruct (I 2%nat ltac:(lia)) as (B1 & B2). unfold bowl_at in *. cbn in A1, A2, B1, B2. unfold box_contains, bowl_q. rnum. cbn [vx vy].
  rewrite !andb_true_iff, !Rltb_true, !Rleb_true. lra.
Qed.
