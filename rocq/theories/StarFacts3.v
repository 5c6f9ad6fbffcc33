(** * Stars with any radii *)
From Coq Require Import ZArith List Bool Reals Lra Lia Psatz.
From Verif Require Import Num Vec Affine Box Seq Polygon SpecGeom SpecMass SpecSimple SpecRegular RBase RegularFacts StarFacts StarFacts2 SimpleFacts VecFacts2.
Import ListNotations.
Local Open Scope R_scope.

Lemma polar_flip c r d : polar_at c (- r) d = polar_at c r (d + 180).
Proof.
  rewrite !polar_xy. replace (deg (d + 180)) with (deg d + PI) by (unfold deg; field). rewrite cos_plus, sin_plus, cos_PI, sin_PI. vext; ring.
Qed.
Lemma star_flip n r1 r2 c a : star_points n (- r1) (- r2) c a = star_points n r1 r2 c (a + 180).
Proof.
  unfold star_points. apply map_ext. intro k. replace (a + 180 + INR k * (180 / INR n)) with (a + INR k * (180 / INR n) + 180) by ring. rewrite <- polar_flip. destruct (Nat.even k); reflexivity.
Qed.

Section Any.
  Variables (n : nat) (r1 r2 : R) (c : pt) (a : R).
  Hypothesis Hn : (2 <= n)%nat.
  Notation x := (sx n). Notation s := (sv n r1 r2 c a). Notation rd := (rad r1 r2). Notation pts := (star_points n r1 r2 c a).

  Lemma star_nth j : (j < 2 * n)%nat -> nth_error pts j = Some (s j).
  Proof. intros Hj. rewrite star_def, nth_error_map, (nth_error_nth' _ 0%nat) by (rewrite seq_length; exact Hj). rewrite seq_nth by exact Hj. reflexivity. Qed.
  Lemma edge_at k : (S k < 2 * n)%nat -> edge_into pts (S k) (s k) (s (S k)).
  Proof. intro H. split; apply star_nth; lia. Qed.
  Lemma pair_at k : (k < 2 * n)%nat -> In (s k, s (S k)) (cyc_pairs pts).
  Proof. intro. rewrite star_def. apply cyc_index_in; auto. apply s_wrap; auto. Qed.
  Lemma o1 k : orient (s k) (s (S k)) (s (S (S k))) = 2 * rd k * sin x * (rd (S k) - rd k * cos x).
  Proof. apply star_corner; auto. Qed.
  Lemma cos2 : cos (2 * x) = 2 * cos x * cos x - 1. Proof. apply cos_2a_cos. Qed.
  Lemma o2 k : orient (s k) (s (S k)) (s (S (S (S k)))) = 2 * rd (S k) * sin x * (rd (S k) * cos x - rd k * cos (2 * x)).
  Proof.
    replace (S (S (S k))) with (S k + 2)%nat by lia. rewrite s_ahead by auto. rewrite rd_plus. cbn [Nat.even]. replace (INR 2 * x) with (2 * x) by (cbn; ring).
    rewrite (sin_plus x (2 * x)), sin_2a. rewrite cos2. assert (S2 : sin x * sin x = 1 - cos x * cos x) by (pose proof (sin2_cos2 x) as K; unfold Rsqr in K; lra).
    replace (sin x * (2 * cos x * cos x - 1) + cos x * (2 * sin x * cos x)) with (sin x * (4 * cos x * cos x - 1)) by ring. ring.
  Qed.
  Lemma o3 k : orient (s (S (S k))) (s (S (S (S k)))) (s k) = 2 * rd k * sin x * (rd k * cos x - rd (S k) * cos (2 * x)).
  Proof.
    rewrite s_three by auto. rewrite rd_add2. change (rd (S (S (S k)))) with (rd (S k)). rewrite !S_INR. replace ((INR k + 1 + 1 + 1 - (INR k + 1 + 1)) * x) with x by ring. replace ((INR k - (INR k + 1 + 1 + 1)) * x) with (- (x + 2 * x)) by ring.
    replace ((INR k - (INR k + 1 + 1)) * x) with (- (2 * x)) by ring. rewrite !sin_neg, sin_plus, sin_2a, cos2. assert (S2 : sin x * sin x = 1 - cos x * cos x) by (pose proof (sin2_cos2 x) as K; unfold Rsqr in K; lra). ring.
  Qed.
  Lemma o4 k : orient (s (S (S k))) (s (S (S (S k)))) (s (S k)) = 2 * rd (S k) * sin x * (rd k - rd (S k) * cos x).
  Proof. replace (orient (s (S (S k))) (s (S (S (S k)))) (s (S k))) with (orient (s (S k)) (s (S (S k))) (s (S (S (S k))))) by (ug; ring). rewrite o1. reflexivity. Qed.
  Lemma rd_S k : rd k * rd (S k) = r1 * r2. Proof. apply rad_flip. Qed.
  Lemma cos_pos : (3 <= n)%nat -> 0 < cos x.
  Proof.
    intro H3. pose proof PI_RGT_0. pose proof (sx_bound n Hn). assert (3 <= INR n) by (replace 3 with (INR 3) by (cbn; ring); apply le_INR; exact H3). apply cos_gt_0; [lra|]. pose proof (sx_full n Hn). nra.
  Qed.
  Lemma cos2_nonneg : (4 <= n)%nat -> 0 <= cos (2 * x).
  Proof.
    intro H4. pose proof PI_RGT_0. pose proof (sx_bound n Hn). assert (4 <= INR n) by (replace 4 with (INR 4) by (cbn; ring); apply le_INR; exact H4). pose proof (sx_full n Hn). apply cos_ge_0; nra.
  Qed.
  Lemma three_x : n = 3%nat -> cos x = 1 / 2 /\ cos (2 * x) = - (1 / 2).
  Proof. intros ->. assert (E : cos (sx 3) = 1 / 2) by (unfold sx; cbn [INR]; replace (1 + 1 + 1) with 3 by ring; apply cos_PI3). split; auto. rewrite cos_2a_cos, E. lra. Qed.
  Lemma two_x : n = 2%nat -> x = PI / 2. Proof. intros ->. unfold sx. cbn [INR]. reflexivity. Qed.

  (** ** Radii of opposite signs *)
  Lemma turn_cw k : r1 * r2 < 0 -> orient (s k) (s (S k)) (s (S (S k))) < 0.
  Proof.
    intro O. pose proof (sin_sx n Hn). pose proof (cos_sx n Hn). pose proof (rd_S k) as K. rewrite o1. set (p := rd k) in *. set (q := rd (S k)) in *. clearbody p q.
    replace (2 * p * sin x * (q - p * cos x)) with (2 * sin x * (p * q - p * p * cos x)) by ring. assert (0 <= p * p * cos x) by (apply Rmult_le_pos; nra). assert (0 < sin x * (p * p * cos x - p * q)) by (apply Rmult_lt_0_compat; lra). lra.
  Qed.
  Lemma opp_crossing4 : (4 <= n)%nat -> r1 * r2 < 0 -> forall k, cross_properly (s k) (s (S k)) (s (S (S k))) (s (S (S (S k)))).
  Proof.
    intros H4 O k. pose proof (sin_sx n Hn) as SS. pose proof (cos_pos ltac:(lia)) as CC. pose proof (cos2_nonneg H4) as C2. pose proof (rd_S k) as K. pose proof (turn_cw k O) as T1. pose proof (turn_cw (S k) O) as T2.
    assert (P2 : 0 < orient (s k) (s (S k)) (s (S (S (S k))))).
    { rewrite o2. set (p := rd k) in *. set (q := rd (S k)) in *. clearbody p q. replace (2 * q * sin x * (q * cos x - p * cos (2 * x))) with (2 * sin x * (q * q * cos x - p * q * cos (2 * x))) by ring.
      assert (Q0 : q <> 0) by (intros ->; lra). assert (0 < q * q * cos x) by (apply Rmult_lt_0_compat; auto; nra). assert (0 <= - (p * q) * cos (2 * x)) by (apply Rmult_le_pos; lra). apply Rmult_lt_0_compat; lra. }
    assert (P3 : 0 < orient (s (S (S k))) (s (S (S (S k)))) (s k)).
    { rewrite o3. set (p := rd k) in *. set (q := rd (S k)) in *. clearbody p q. replace (2 * p * sin x * (p * cos x - q * cos (2 * x))) with (2 * sin x * (p * p * cos x - p * q * cos (2 * x))) by ring.
      assert (Q0 : p <> 0) by (intros ->; lra). assert (0 < p * p * cos x) by (apply Rmult_lt_0_compat; auto; nra). assert (0 <= - (p * q) * cos (2 * x)) by (apply Rmult_le_pos; lra). apply Rmult_lt_0_compat; lra. }
    replace (orient (s (S k)) (s (S (S k))) (s (S (S (S k))))) with (orient (s (S (S k))) (s (S (S (S k)))) (s (S k))) in T2 by (ug; ring). split; nra.
  Qed.
  Lemma wrap3 k : n = 3%nat -> r1 = - r2 -> s (S (S (S k))) = s k.
  Proof.
    intros E3 ER. unfold sv. rewrite !polar_xy, !s_deg by auto. assert (X3 : 3 * x = PI) by (rewrite <- (sx_full n Hn), E3; cbn [INR]; ring). rewrite !S_INR.
    replace (deg a + (INR k + 1 + 1 + 1) * x) with (deg a + INR k * x + PI) by (rewrite <- X3; ring). rewrite (cos_plus _ PI), (sin_plus _ PI), cos_PI, sin_PI.
    assert (RR : rd (S (S (S k))) = - rd k) by (change (rd (S (S (S k)))) with (rd (S k)); unfold rad; rewrite Nat.even_succ, <- Nat.negb_even; destruct (Nat.even k); cbn [negb]; lra). rewrite RR. vext; ring.
  Qed.
  Lemma opp_crossing3 : n = 3%nat -> r1 * r2 < 0 -> r1 <> - r2 -> cross_properly (s 0) (s 1) (s 3) (s 4).
  Proof.
    intros E3 O NE. destruct (three_x E3) as [C1 C2]. pose proof (sin_sx n Hn) as SS.
    assert (X3 : 3 * x = PI) by (rewrite <- (sx_full n Hn), E3; cbn [INR]; ring).
    assert (S3 : sin (3 * x) = 0) by (rewrite X3; apply sin_PI). assert (S4 : sin (4 * x) = - sin x) by (replace (4 * x) with (x + PI) by (rewrite <- X3; ring); apply neg_sin).
    assert (S2 : sin (2 * x) = sin x) by (rewrite sin_2a, C1; field).
    assert (A : orient (s 0) (s 1) (s 3) = r2 * sin x * (r1 + r2) /\ orient (s 0) (s 1) (s 4) = r1 * sin x * (r1 + r2) /\ orient (s 3) (s 4) (s 0) = r1 * sin x * (r1 + r2) /\ orient (s 3) (s 4) (s 1) = r2 * sin x * (r1 + r2)).
    { rewrite !s_three by auto. unfold rad. cbn [Nat.even INR].
      repeat match goal with |- context [sin (?u * x)] => first
        [ replace (u * x) with x by ring | replace (u * x) with (2 * x) by ring | replace (u * x) with (3 * x) by ring | replace (u * x) with (4 * x) by ring | replace (u * x) with (- (2 * x)) by ring | replace (u * x) with (- (3 * x)) by ring | replace (u * x) with (- (4 * x)) by ring]; rewrite ?sin_neg, ?S2, ?S3, ?S4 end.
      repeat split; ring. }
    unfold cross_properly. destruct A as (-> & -> & -> & ->). assert (Q : 0 < (r1 + r2) * (r1 + r2)) by nra. assert (W : 0 < sin x * sin x) by nra.
    assert (Z : r1 * r2 * ((sin x * sin x) * ((r1 + r2) * (r1 + r2))) < 0). { assert (0 < (sin x * sin x) * ((r1 + r2) * (r1 + r2))) by (apply Rmult_lt_0_compat; auto). nra. }
    split; lra.
  Qed.

  Lemma far_at j j' : (j < j')%nat -> (j' < n)%nat -> far (length pts) (S (2 * j)) (S (2 * j')).
  Proof. intros H1 H2. rewrite star_length. left. lia. Qed.
  Lemma overlap_of u v u' v' : cross_properly u v u' v' -> meet u v u' v' /\ overlap_xy u v u' v'.
  Proof. intro H. apply proper_meet in H as [M N]. split; auto. apply share_overlap; auto. apply M. Qed.
  Lemma xy_total (u v : pt) : u <> v -> xy_lt u v \/ xy_lt v u.
  Proof.
    intro N. unfold xy_lt. destruct (Rtotal_order (vx u) (vx v)) as [H|[H|H]]; [auto| |auto]. destruct (Rtotal_order (vy u) (vy v)) as [K|[K|K]]; [auto| |auto].
    exfalso. apply N. destruct u as [q0 q1], v as [q2 q3]. cbn in *. congruence.
  Qed.
  Lemma xy_trans (u v w : pt) : xy_lt u v -> xy_lt v w -> xy_lt u w.
  Proof. unfold xy_lt. lra. Qed.
  Lemma opp_contact : (3 <= n)%nat -> r1 * r2 < 0 -> some_far_edges pts (fun u v u' v' => meet u v u' v' /\ overlap_xy u v u' v').
  Proof.
    intros H3 O. destruct (le_lt_dec 4 n) as [H4|H4].
    { exists 1%nat, 3%nat, (s 0), (s 1), (s 2), (s 3). split; [apply (far_at 0 1); lia|]. split; [apply edge_at; lia|]. split; [apply edge_at; lia|]. apply overlap_of, (opp_crossing4 H4 O 0). }
    assert (E3 : n = 3%nat) by lia. destruct (Req_dec r1 (- r2)) as [ER|NE].
    2:{ exists 1%nat, 4%nat, (s 0), (s 1), (s 3), (s 4). split; [rewrite star_length; left; lia|]. split; [apply edge_at; lia|]. split; [apply edge_at; lia|]. apply overlap_of, opp_crossing3; auto. }
    (* a triangle run through twice *)
    assert (MAIN : forall i, (i <= 2)%nat -> xy_lt (s i) (s (S i)) -> xy_lt (s i) (s (S (S i))) -> some_far_edges pts (fun u v u' v' => meet u v u' v' /\ overlap_xy u v u' v')).
    { intros i Hi A B. exists (S i), (S (S (S i))), (s i), (s (S i)), (s (S (S i))), (s (S (S (S i)))). split; [rewrite star_length; left; lia|]. split; [apply edge_at; lia|]. split; [apply edge_at; lia|].
      pose proof (turn_cw i O) as T. rewrite (wrap3 i E3 ER). split; [split|].
      - exists (s i). split; [exists 0|exists 1]; (split; [lra|]); unfold between; ug; destruct (s i) as [q0 q1], (s (S i)) as [q2 q3], (s (S (S i))) as [q4 q5]; cbn [vx vy]; vext; ring.
      - replace (pcross (psub (s (S i)) (s i)) (psub (s i) (s (S (S i))))) with (- orient (s i) (s (S i)) (s (S (S i)))) by (ug; ring). lra.
      - split; unfold begins_before_end; auto. }
    assert (NE : forall i, s i <> s (S i)). { intros i K. pose proof (turn_cw i O) as T. rewrite <- K in T. replace (orient (s i) (s i) (s (S (S i)))) with 0 in T by (ug; ring). lra. }
    assert (N02 : s 2%nat <> s 0%nat). { rewrite <- (wrap3 0 E3 ER). apply NE. }
    pose proof (wrap3 0 E3 ER) as W0. pose proof (wrap3 1 E3 ER) as W1.
    destruct (xy_total _ _ (NE 0%nat)) as [A|A]; destruct (xy_total _ _ (NE 1%nat)) as [B|B]; destruct (xy_total _ _ N02) as [C|C].
    - apply (MAIN 2%nat); [lia|rewrite W0; auto|rewrite W1]. eapply xy_trans; eauto.
    - apply (MAIN 0%nat); [lia|auto|auto].
    - apply (MAIN 2%nat); [lia|rewrite W0; auto|rewrite W1; auto].
    - apply (MAIN 0%nat); [lia|auto|auto].
    - apply (MAIN 1%nat); [lia|auto|rewrite W0; auto].
    - apply (MAIN 1%nat); [lia|auto|rewrite W0; auto].
    - apply (MAIN 2%nat); [lia|rewrite W0; auto|rewrite W1; auto].
    - exfalso. pose proof (xy_trans _ _ _ C B) as K. unfold xy_lt in *. lra.
  Qed.

  (** ** Four points *)
  Lemma rhombus_apart : n = 2%nat -> r1 * r2 <> 0 -> ~ some_far_edges pts share.
  Proof.
    intros E2 O. assert (X2 : 2 * x = PI) by (rewrite (two_x E2); field).
    assert (OPP : forall k, s (S (S k)) = mkV (2 * vx c - vx (s k)) (2 * vy c - vy (s k))).
    { intro k. unfold sv. rewrite !polar_xy, !s_deg by auto. cbn [vx vy]. rewrite rd_add2, !S_INR. replace (deg a + (INR k + 1 + 1) * x) with (deg a + INR k * x + PI) by (rewrite <- X2; ring).
      rewrite (cos_plus _ PI), (sin_plus _ PI), cos_PI, sin_PI. vext; ring. }
    assert (AP : forall k, ~ share (s k) (s (S k)) (s (S (S k))) (s (S (S (S k))))).
    { intros k (p & (t & Ht & E1) & (u & Hu & E2')). pose proof (s_edge_c n r1 r2 c a Hn k) as K. pose proof (sin_sx n Hn) as SS. rewrite (OPP k), (OPP (S k)) in E2'.
      set (A := s k) in *. set (B := s (S k)) in *. clearbody A B. assert (K0 : orient c A B <> 0) by (rewrite K; apply Rmult_integral_contrapositive_currified; lra). apply K0. clear K K0 OPP.
      assert (V1 : pcross (psub B A) (psub p c) = - orient c A B) by (rewrite E1; unfold between; ug; cbn [vx vy]; ring).
      assert (V2 : pcross (psub B A) (psub p c) = orient c A B) by (rewrite E2'; unfold between; ug; cbn [vx vy]; ring). lra. }
    intros (i & j & u & v & u1 & v1 & F & E1 & E2' & SH). apply star_edge_into in E1 as (Hi & -> & ->); auto. apply star_edge_into in E2' as (Hj & -> & ->); auto. rewrite star_length in F. destruct F as [(F1 & F2)|(F1 & F2)].
    - replace (j + 2 * n - 1)%nat with (S (S (i + 2 * n - 1))) in SH by lia. apply AP in SH; auto.
    - apply share_sym in SH. replace (i + 2 * n - 1)%nat with (S (S (j + 2 * n - 1))) in SH by lia. apply AP in SH; auto.
  Qed.
  Lemma flat_four : n = 2%nat -> r1 * r2 = 0 -> forall i j k, orient (s i) (s j) (s k) = 0.
  Proof.
    intros E2 O. assert (X2 : 2 * x = PI) by (rewrite (two_x E2); field).
    assert (Z : forall i j, rd i * rd j * sin ((INR j - INR i) * x) = 0).
    { intros i j. destruct (Bool.bool_dec (Nat.even i) (Nat.even j)) as [E|E].
      - assert (exists z : Z, INR j - INR i = 2 * IZR z) as (z & ->).
        { exists ((Z.of_nat j - Z.of_nat i) / 2)%Z. rewrite !INR_IZR_INZ, <- minus_IZR, <- mult_IZR. f_equal. rewrite <- Z_div_exact_full_2; [lia|lia|]. apply Zmod_divides; [lia|].
          destruct (Nat.even i) eqn:Ei; [apply Nat.even_spec in Ei; symmetry in E; apply Nat.even_spec in E; destruct Ei as [p ->], E as [q ->]; exists (Z.of_nat q - Z.of_nat p)%Z; lia|].
          apply Bool.negb_true_iff in Ei. symmetry in E. apply Bool.negb_true_iff in E. rewrite Nat.negb_even in Ei, E. apply Nat.odd_spec in Ei, E. destruct Ei as [p ->], E as [q ->]. exists (Z.of_nat q - Z.of_nat p)%Z. lia. }
        replace (2 * IZR z * x) with (IZR z * PI) by (rewrite <- X2; ring). rewrite (sin_eq_0_1 (IZR z * PI)) by eauto. ring.
      - assert (P : rd i * rd j = 0); [|rewrite P; ring]. unfold rad. destruct (Nat.even i), (Nat.even j); try congruence; lra. }
    intros i j k. rewrite s_three by auto. rewrite !Z. ring.
  Qed.
  Lemma flat_check : n = 2%nat -> r1 * r2 = 0 -> check_is_simple pts = true.
  Proof.
    intros E2 O. destruct (check_is_simple pts) eqn:E; auto. exfalso. apply check_R in E. destruct E as (i & j & u & v & u1 & v1 & F & E1 & E2' & [_ NP] & _). apply star_edge_into in E1 as (Hi & -> & ->); auto. apply star_edge_into in E2' as (Hj & -> & ->); auto.
    apply NP. pose proof (flat_four E2 O) as Z. match goal with |- pcross (psub ?b ?a) (psub ?d ?c) = 0 => replace (pcross (psub b a) (psub d c)) with (orient a b d - orient a b c) by (ug; ring) end. rewrite !Z. ring.
  Qed.

  (** ** One radius zero: every other vertex is the centre *)
  Lemma at_centre k : rd k = 0 -> s k = c.
  Proof. intro H. unfold sv. rewrite H, polar_xy. destruct c as [cx cy]. cbn [vx vy]. vext; ring. Qed.
  Lemma zero_share : r1 * r2 = 0 -> some_far_edges pts share.
  Proof.
    intro O. exists 1%nat, 3%nat, (s 0), (s 1), (s 2), (s 3). split; [apply (far_at 0 1); lia|]. split; [apply edge_at; lia|]. split; [apply edge_at; lia|].
    assert (B0 : forall u v, between u v 0 = u) by (intros [q0 q1] [q2 q3]; unfold between; ug; vext; ring). assert (B1 : forall u v, between u v 1 = v) by (intros [q0 q1] [q2 q3]; unfold between; ug; vext; ring).
    exists c. apply Rmult_integral in O as [O|O].
    - rewrite (at_centre 0), (at_centre 2) by exact O. split; exists 0; rewrite B0; split; auto; lra.
    - rewrite (at_centre 1), (at_centre 3) by exact O. split; exists 1; rewrite B1; split; auto; lra.
  Qed.
  (** The tips t 0, t 1, t 2. *)
  Definition tip (j : nat) : nat := if Req_EM_T r1 0 then S (2 * j) else (2 * j)%nat.
  Lemma tip_rad j : r1 * r2 = 0 -> ~ (r1 = 0 /\ r2 = 0) -> rd (tip j) <> 0 /\ rd (tip j) = rd (tip 0) /\ ((s (2 * j) = c /\ s (S (2 * j)) = s (tip j)) \/ (s (S (2 * j)) = c /\ s (2 * j) = s (tip j))).
  Proof.
    intros O N. assert (EV : Nat.even (2 * j) = true) by (rewrite Nat.even_mul; reflexivity). assert (OD : Nat.even (S (2 * j)) = false) by (rewrite Nat.even_succ, <- Nat.negb_even, EV; reflexivity).
    assert (R1 : rd (2 * j) = r1) by (unfold rad; rewrite EV; reflexivity). assert (R2 : rd (S (2 * j)) = r2) by (unfold rad; rewrite OD; reflexivity).
    assert (Q1 : rd (2 * 0) = r1) by reflexivity. assert (Q2 : rd (S (2 * 0)) = r2) by reflexivity. clear EV OD. apply Rmult_integral in O.
    unfold tip. destruct (Req_EM_T r1 0) as [Z|Z].
    - rewrite R2, Q2. split; [tauto|]. split; auto. left. split; auto. apply at_centre. rewrite R1. auto.
    - rewrite R1, Q1. split; [tauto|]. split; auto. right. split; auto. apply at_centre. rewrite R2. tauto.
  Qed.
  Lemma spokes_meet j j' : (j < j')%nat -> (j' < n)%nat -> r1 * r2 = 0 -> ~ (r1 = 0 /\ r2 = 0) -> orient c (s (tip j)) (s (tip j')) <> 0 ->
    (xy_lt c (s (tip j)) /\ xy_lt c (s (tip j')) \/ xy_lt (s (tip j)) c /\ xy_lt (s (tip j')) c) -> some_far_edges pts (fun u v u' v' => meet u v u' v' /\ overlap_xy u v u' v').
  Proof.
    intros J1 J2 O N NP SD. exists (S (2 * j)), (S (2 * j')), (s (2 * j)), (s (S (2 * j))), (s (2 * j')), (s (S (2 * j'))). split; [apply far_at; auto|]. split; [apply edge_at; lia|]. split; [apply edge_at; lia|].
    assert (B0 : forall u v, between u v 0 = u) by (intros [q0 q1] [q2 q3]; unfold between; ug; vext; ring). assert (B1 : forall u v, between u v 1 = v) by (intros [q0 q1] [q2 q3]; unfold between; ug; vext; ring).
    assert (C0 : forall u, on_segment c u c) by (intro u; exists 0; rewrite B0; split; auto; lra). assert (C1 : forall u, on_segment u c c) by (intro u; exists 1; rewrite B1; split; auto; lra).
    destruct (tip_rad j O N) as (_ & _ & [[-> ->]|[-> ->]]); destruct (tip_rad j' O N) as (_ & _ & [[-> ->]|[-> ->]]); set (T := s (tip j)) in *; set (T' := s (tip j')) in *; clearbody T T';
      (split; [split; [exists c; split; auto|]|split; unfold begins_before_end; tauto]);
      match goal with |- pcross ?y ?z <> 0 => assert (E : pcross y z = orient c T T' \/ pcross y z = - orient c T T') by (first [left; ug; ring|right; ug; ring]); lra end.
  Qed.
  Lemma zero_contact : (3 <= n)%nat -> r1 * r2 = 0 -> ~ (r1 = 0 /\ r2 = 0) -> some_far_edges pts (fun u v u' v' => meet u v u' v' /\ overlap_xy u v u' v').
  Proof.
    intros H3 O N. pose proof PI_RGT_0 as PP. pose proof (sx_full n Hn) as XF. pose proof (sx_bound n Hn) as XB. assert (N3 : 3 <= INR n) by (replace 3 with (INR 3) by (cbn; ring); apply le_INR; exact H3).
    set (r := rd (tip 0)). assert (R : forall j, rd (tip j) = r) by (intro j; apply (tip_rad j O N)). assert (R0 : r <> 0) by (apply (tip_rad 0 O N)).
    assert (TI : forall j j', INR (tip j') - INR (tip j) = 2 * (INR j' - INR j)). { intros j j'. unfold tip. destruct (Req_EM_T r1 0); rewrite ?S_INR, !mult_INR; cbn [INR]; ring. }
    assert (OR : forall j j', orient c (s (tip j)) (s (tip j')) = r * r * sin (2 * (INR j' - INR j) * x)). { intros. rewrite s_from, !R, TI by auto. reflexivity. }
    assert (S1 : 0 < sin (2 * x)) by (apply sin_gt_0; nra).
    assert (RR : 0 < r * r) by nra.
    assert (O01 : orient c (s (tip 0)) (s (tip 1)) <> 0). { rewrite OR. cbn [INR]. replace (2 * (1 - 0) * x) with (2 * x) by ring. assert (0 < r * r * sin (2 * x)) by (apply Rmult_lt_0_compat; auto). lra. }
    assert (O12 : orient c (s (tip 1)) (s (tip 2)) <> 0). { rewrite OR. cbn [INR]. replace (2 * (1 + 1 - 1) * x) with (2 * x) by ring. assert (0 < r * r * sin (2 * x)) by (apply Rmult_lt_0_compat; auto). lra. }
    assert (CC : forall u, orient c c u = 0 /\ orient c u c = 0) by (intro u; clear; split; ug; ring).
    assert (TC : forall j, s (tip j) <> c). { intros j K. assert (T1 : orient c (s (tip j)) (s (tip (S j))) = r * r * sin (2 * x)). { rewrite OR, S_INR. f_equal. f_equal. ring. } rewrite K in T1. destruct (CC (s (tip (S j)))) as [C0 _]. rewrite C0 in T1. assert (0 < r * r * sin (2 * x)) by (apply Rmult_lt_0_compat; auto). lra. }
    assert (O02 : orient c (s (tip 0)) (s (tip 2)) <> 0 \/ forall u, u = s (tip 0) -> s (tip 2) = mkV (2 * vx c - vx u) (2 * vy c - vy u)).
    { destruct (Req_dec (sin (4 * x)) 0) as [Z|Z].
      - right. intros u ->. assert (X4 : 4 * x = PI). { destruct (Rtotal_order (4 * x) PI) as [L|[L|L]]; auto. - assert (0 < sin (4 * x)) by (apply sin_gt_0; lra). lra. - assert (sin (4 * x) < 0) by (apply sin_lt_0; nra). lra. }
        assert (E : INR (tip 2) = INR (tip 0) + 4) by (pose proof (TI 0%nat 2%nat) as K; cbn [INR] in K; lra). unfold sv. rewrite !R, !polar_xy, !s_deg, E by auto. cbn [vx vy]. replace (deg a + (INR (tip 0) + 4) * x) with (deg a + INR (tip 0) * x + PI) by (rewrite <- X4; ring).
        rewrite (cos_plus _ PI), (sin_plus _ PI), cos_PI, sin_PI. vext; ring.
      - left. rewrite OR. cbn [INR]. replace (2 * (1 + 1 - 0) * x) with (4 * x) by ring. apply Rmult_integral_contrapositive_currified; lra. }
    destruct (xy_total _ _ (TC 0%nat)) as [A|A]; destruct (xy_total _ _ (TC 1%nat)) as [B|B]; try (apply (spokes_meet 0 1); auto; lia);
      destruct (xy_total _ _ (TC 2%nat)) as [C|C]; try (apply (spokes_meet 1 2); auto; lia).
    - destruct O02 as [O02|O02]; [apply (spokes_meet 0 2); auto; lia|]. exfalso. rewrite (O02 _ eq_refl) in C. unfold xy_lt in *. cbn [vx vy] in C. lra.
    - destruct O02 as [O02|O02]; [apply (spokes_meet 0 2); auto; lia|]. exfalso. rewrite (O02 _ eq_refl) in C. unfold xy_lt in *. cbn [vx vy] in C. lra.
  Qed.

  (** ** Convexity *)
  Lemma index_ahead k j : (k < 2 * n)%nat -> (j < 2 * n)%nat -> exists m, (m < 2 * n)%nat /\ s j = s (k + m).
  Proof.
    intros Hk Hj. destruct (le_lt_dec k j) as [L|L]; [exists (j - k)%nat|exists (j + 2 * n - k)%nat]; (split; [lia|]).
    - f_equal. lia.
    - rewrite <- (s_period n r1 r2 c a Hn j). f_equal. lia.
  Qed.
  Lemma sided (f : R -> Prop) : (forall k m, (m < 2 * n)%nat -> f (orient (s k) (s (S k)) (s (k + m)))) -> forall u v w, In (u, v) (cyc_pairs pts) -> In w pts -> f (orient u v w).
  Proof.
    intros H u v w He Hw. rewrite star_def in He, Hw. apply cyc_index in He as (k & Hk & -> & ->); [|apply s_wrap; auto]. apply in_map_iff in Hw as (j & <- & Hj). apply in_seq in Hj.
    destruct (index_ahead k j Hk ltac:(lia)) as (m & Hm & ->). auto.
  Qed.
  Lemma opp_two_cw : n = 2%nat -> r1 * r2 < 0 -> convex_cw pts.
  Proof.
    intros E2 O. unfold convex_cw. apply (sided (fun v => v <= 0)). intros k m Hm. pose proof (two_x E2) as X2. pose proof (sin_sx n Hn) as SS.
    assert (Z : forall u v : pt, orient u v u = 0 /\ orient u v v = 0) by (intros; split; ug; ring). assert (m = 0 \/ m = 1 \/ m = 2 \/ m = 3)%nat as [->|[->|[->| ->]]] by lia.
    - rewrite Nat.add_0_r, (proj1 (Z _ _)). lra.
    - rewrite Nat.add_1_r, (proj2 (Z _ _)). lra.
    - replace (k + 2)%nat with (S (S k)) by lia. pose proof (turn_cw k O). lra.
    - replace (k + 3)%nat with (S (S (S k))) by lia. rewrite o2, cos2. pose proof (rd_S k) as K. assert (CX : cos x = 0) by (rewrite X2; apply cos_PI2). rewrite CX. replace (2 * rd (S k) * sin x * (rd (S k) * 0 - rd k * (2 * 0 * 0 - 1))) with (2 * sin x * (rd k * rd (S k))) by ring. rewrite K. nra.
  Qed.
  Lemma opp_three_cw : n = 3%nat -> r1 = - r2 -> r1 <> 0 -> convex_cw pts.
  Proof.
    intros E3 ER N0. assert (O : r1 * r2 < 0) by nra. unfold convex_cw. apply (sided (fun v => v <= 0)). intros k m Hm. assert (Z : forall u v : pt, orient u v u = 0 /\ orient u v v = 0) by (intros; split; ug; ring).
    assert (M : forall m, (m < 3)%nat -> orient (s k) (s (S k)) (s (k + m)) <= 0).
    { intros m' H'. assert (m' = 0 \/ m' = 1 \/ m' = 2)%nat as [->|[->| ->]] by lia.
      - rewrite Nat.add_0_r, (proj1 (Z _ _)). lra.
      - rewrite Nat.add_1_r, (proj2 (Z _ _)). lra.
      - replace (k + 2)%nat with (S (S k)) by lia. pose proof (turn_cw k O). lra. }
    destruct (le_lt_dec 3 m) as [L|L]; [|auto]. replace (k + m)%nat with (S (S (S (k + (m - 3))))) by lia. rewrite (wrap3 _ E3 ER). apply M. lia.
  Qed.
  Lemma corner_in k m : (k < 2 * n)%nat -> (m < 2 * n)%nat -> In (s k, s (S k)) (cyc_pairs pts) /\ In (s m) pts.
  Proof. intros Hk Hm. split; [apply pair_at; auto|apply star_in; auto]. Qed.
  Lemma opp_not_convex : (3 <= n)%nat -> ~ (n = 3%nat /\ r1 = - r2) -> r1 * r2 < 0 -> ~ convex_ccw pts /\ ~ convex_cw pts.
  Proof.
    intros H3 NS O. pose proof (sin_sx n Hn) as SS. split; intro C.
    - destruct (corner_in 0 2) as [I1 I2]; [lia|lia|]. specialize (C _ _ _ I1 I2). pose proof (turn_cw 0 O). lra.
    - assert (exists k, (k < 2)%nat /\ 0 < orient (s k) (s (S k)) (s (S (S (S k))))) as (k & Hk & K).
      { destruct (le_lt_dec 4 n) as [H4|H4].
        - exists 0%nat. split; [lia|]. rewrite o2. pose proof (cos_pos H3) as CC. pose proof (cos2_nonneg H4) as C2. pose proof (rd_S 0) as K. set (p := rd 0) in *. set (q := rd 1) in *. clearbody p q. replace (2 * q * sin x * (q * cos x - p * cos (2 * x))) with (2 * sin x * (q * q * cos x - p * q * cos (2 * x))) by ring.
          assert (Q0 : q <> 0) by (intros ->; lra). assert (0 < q * q * cos x) by (apply Rmult_lt_0_compat; auto; nra). assert (0 <= - (p * q) * cos (2 * x)) by (apply Rmult_le_pos; lra). apply Rmult_lt_0_compat; lra.
        - destruct three_x as [X1 X2]; [lia|]. assert (r1 <> - r2) by (intro; apply NS; split; auto; lia). assert (Q : 0 < r2 * (r1 + r2) \/ 0 < r1 * (r1 + r2)) by (destruct (Rtotal_order 0 r1) as [L|[L|L]], (Rtotal_order 0 (r1 + r2)) as [M|[M|M]]; nra).
          destruct Q as [Q|Q]; [exists 0%nat|exists 1%nat]; (split; [lia|]); rewrite o2, X1, X2; unfold rad; cbn [Nat.even].
          + replace (2 * r2 * sin x * (r2 * (1 / 2) - r1 * - (1 / 2))) with (sin x * (r2 * (r1 + r2))) by field. apply Rmult_lt_0_compat; auto.
          + replace (2 * r1 * sin x * (r1 * (1 / 2) - r2 * - (1 / 2))) with (sin x * (r1 * (r1 + r2))) by field. apply Rmult_lt_0_compat; auto. }
      destruct (corner_in k (S (S (S k)))) as [I1 I2]; [lia|lia|]. specialize (C _ _ _ I1 I2). lra.
  Qed.
  Lemma zero_not_convex : (3 <= n)%nat -> r1 * r2 = 0 -> r1 <> r2 -> ~ convex_ccw pts /\ ~ convex_cw pts.
  Proof.
    intros H3 O NE. pose proof (sin_sx n Hn) as SS. pose proof (cos_pos H3) as CC. assert (SC : 0 < sin x * cos x) by (apply Rmult_lt_0_compat; auto).
    assert (A : forall k, rd k = 0 -> rd (S k) <> 0 -> 0 < orient (s k) (s (S k)) (s (S (S (S k)))) /\ orient (s (S k)) (s (S (S k))) (s (S (S (S k)))) < 0).
    { intros k E0 E1. rewrite o2, o1, rd_add2, E0. set (q := rd (S k)) in *. clearbody q. assert (0 < q * q) by nra. assert (0 < q * q * (sin x * cos x)) by (apply Rmult_lt_0_compat; auto). split; nra. }
    assert (exists k, (k < 2)%nat /\ rd k = 0 /\ rd (S k) <> 0) as (k & Hk & E0 & E1). { apply Rmult_integral in O as [O|O]; [exists 0%nat|exists 1%nat]; (split; [lia|]); unfold rad; cbn [Nat.even]; split; auto; lra. }
    destruct (A k E0 E1) as [A1 A2]. split; intro C.
    - destruct (corner_in (S k) (S (S (S k)))) as [I1 I2]; [lia|lia|]. specialize (C _ _ _ I1 I2). lra.
    - destruct (corner_in k (S (S (S k)))) as [I1 I2]; [lia|lia|]. specialize (C _ _ _ I1 I2). lra.
  Qed.
End Any.

(** ** Radii of the same sign *)
Lemma same_sign_flip n r1 r2 c a : r1 < 0 -> r2 < 0 -> exists a', star_points n r1 r2 c a = star_points n (Rabs r1) (Rabs r2) c a'.
Proof. intros H1 H2. exists (a + 180). rewrite <- star_flip. f_equal; rewrite Rabs_left by auto; ring. Qed.
Lemma same_sign n r1 r2 c a : 0 < r1 * r2 -> 0 < Rabs r1 /\ 0 < Rabs r2 /\ exists a', star_points n r1 r2 c a = star_points n (Rabs r1) (Rabs r2) c a'.
Proof.
  intro H. assert (r1 <> 0 /\ r2 <> 0) as [N1 N2] by (split; intros ->; lra). split; [apply Rabs_pos_lt; auto|]. split; [apply Rabs_pos_lt; auto|]. destruct (Rtotal_order 0 r1) as [L|[L|L]]; [|lra|].
  - assert (0 < r2) by nra. exists a. rewrite !Rabs_pos_eq by lra. reflexivity.
  - apply same_sign_flip; [lra|nra].
Qed.
Lemma star_convex_iff n r1 r2 c a : (2 <= n)%nat ->
  (convex_ccw (star_points n r1 r2 c a) \/ convex_cw (star_points n r1 r2 c a)) <->
  (r1 = r2 \/ n = 2%nat \/ (0 < r1 * r2 /\ Rmax (Rabs r1) (Rabs r2) * cos (PI / INR n) <= Rmin (Rabs r1) (Rabs r2)) \/ (n = 3%nat /\ r1 = - r2)).
Proof.
  intro Hn. assert (Z0 : r1 * r2 = 0 -> n = 2%nat \/ r1 = r2 -> convex_ccw (star_points n r1 r2 c a)).
  { intros O H u v w I1 I2. apply (sided n r1 r2 c a Hn (fun v => 0 <= v)); auto. intros k m _. right. symmetry. destruct H as [H|H]; [apply flat_four; auto|].
    rewrite s_three by auto. assert (RZ : forall i, rad r1 r2 i = 0) by (intro i; unfold rad; destruct (Nat.even i); nra). rewrite !RZ. ring. }
  destruct (Rtotal_order 0 (r1 * r2)) as [O|[O|O]].
  - destruct (same_sign n r1 r2 c a O) as (P1 & P2 & a' & EV). rewrite EV. split.
    + intro H. destruct (Rle_lt_dec (Rmax (Rabs r1) (Rabs r2) * cos (PI / INR n)) (Rmin (Rabs r1) (Rabs r2))) as [|K]; auto. exfalso. destruct (star_not_convex n (Rabs r1) (Rabs r2) c a' Hn P1 P2 K). tauto.
    + intros [H|[H|[[_ H]|[_ H]]]]; left; apply star_convex; auto; unfold hi, lo, sx.
      * subst r2. unfold Rmax, Rmin. destruct (Rle_dec _ _); pose proof (COS_bound (PI / INR n)); nra.
      * subst n. cbn [INR]. replace (PI / (1 + 1)) with (PI / 2) by reflexivity. rewrite cos_PI2, Rmult_0_r. apply Rmin_glb; lra.
      * exfalso. nra.
  - split.
    + intro C. destruct (Req_dec r1 r2) as [|NE]; auto. destruct (Nat.eq_dec n 2) as [|N2]; auto. exfalso. destruct (zero_not_convex n r1 r2 c a Hn ltac:(lia) (eq_sym O) NE). tauto.
    + intros [H|[H|[[H _]|[H ER]]]]; [| |lra|]; left; apply Z0; auto. right. nra.
  - split.
    + intro C. destruct (Nat.eq_dec n 2) as [|N2]; auto. destruct (Nat.eq_dec n 3) as [N3|N3]; [destruct (Req_dec r1 (- r2)); auto|]; exfalso; destruct (opp_not_convex n r1 r2 c a Hn ltac:(lia)); tauto.
    + intros [H|[H|[[H _]|[H ER]]]]; [nra| |lra|]; right; [apply opp_two_cw; auto|apply opp_three_cw; auto; nra].
Qed.

(** ** Simplicity *)
Lemma star_apart_iff n r1 r2 c a : (2 <= n)%nat -> (~ some_far_edges (star_points n r1 r2 c a) share) <-> (0 < r1 * r2 \/ (n = 2%nat /\ r1 * r2 < 0)).
Proof.
  intro Hn. destruct (Rtotal_order 0 (r1 * r2)) as [O|[O|O]].
  - destruct (same_sign n r1 r2 c a O) as (P1 & P2 & a' & EV). rewrite EV. split; [auto|intros _]. apply star_simple; auto.
  - split; [|lra]. intro H. exfalso. apply H, zero_share; auto.
  - destruct (Nat.eq_dec n 2) as [E2|N2]; [split; [auto|intros _]; apply rhombus_apart; auto; lra|]. split; [|intros [|[? _]]; [lra|congruence]].
    intro H. exfalso. apply H. destruct (opp_contact n r1 r2 c a Hn ltac:(lia) O) as (i & j & u & v & u1 & v1 & F & E1 & E2 & [M _] & _). exists i, j, u, v, u1, v1. auto.
Qed.
(** What the sweep finds. *)
Lemma star_check n r1 r2 c a : (2 <= n)%nat -> check_is_simple (star_points n r1 r2 c a) = false <-> ((3 <= n)%nat /\ r1 * r2 <= 0 /\ r1 <> r2).
Proof.
  intro Hn. assert (AP : ~ some_far_edges (star_points n r1 r2 c a) share -> check_is_simple (star_points n r1 r2 c a) <> false).
  { intros H E. apply check_R in E as (i & j & u & v & u1 & v1 & F & E1 & E2 & [M _] & _). apply H. exists i, j, u, v, u1, v1. auto. }
  rewrite star_apart_iff in AP by auto. split.
  - intro E. assert (A : ~ (0 < r1 * r2 \/ n = 2%nat /\ r1 * r2 < 0)) by tauto. assert (r1 * r2 <= 0) by (apply Rnot_lt_le; tauto).
    assert (r1 <> r2).
    { intros <-. assert (r1 = 0) by nra. subst r1. apply check_R in E as (i & j & u & v & u1 & v1 & F & E1 & E2 & [_ NP] & _). apply star_edge_into in E1 as (Hi & -> & ->); auto. apply star_edge_into in E2 as (Hj & -> & ->); auto. apply NP.
      assert (Z : forall k, sv n 0 0 c a k = c) by (intro k; apply at_centre; unfold rad; destruct (Nat.even k); reflexivity). rewrite !Z. clear. ug. ring. }
    split; [|auto]. destruct (Nat.eq_dec n 2) as [E2|]; [|lia]. exfalso. destruct (Req_dec (r1 * r2) 0) as [Z|Z]; [rewrite flat_check in E by auto; discriminate|]. apply A. right. split; auto. lra.
  - intros (H3 & O & NE). apply check_R. destruct (Req_dec (r1 * r2) 0) as [Z|Z]; [apply zero_contact; auto; intros [-> ->]; auto|apply opp_contact; auto; lra].
Qed.
