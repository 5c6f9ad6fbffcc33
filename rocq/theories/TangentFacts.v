(** * The tangent searches *)
From Coq Require Import ZArith List Bool Reals Lra Lia Psatz.
From Verif Require Import Num Vec Seq Polygon Tangent SpecGeom SpecTangent RBase VecFacts2 PolyCache2 ConvexFacts4.
Import ListNotations.
Local Open Scope R_scope.

(** ** The order of directions from an outside point *)
Section Seen.
  Variables (d p : pt).
  Definition slope (v : pt) : R := pcross d (psub v p) / pdot d (psub v p).
  Definition front (v : pt) : Prop := 0 < pdot d (psub v p).
  Lemma orient_slope u w : front u -> front w -> exists k, 0 < k /\ orient p u w = k * (slope w - slope u).
  Proof.
    unfold front, slope, orient. intros Hu Hw.
    assert (Hd : 0 < pdot d d).
    { destruct d as [d1 d2], u as [u1 u2], p as [p1 p2]. unfold pdot, psub in *. cbn [vx vy] in *.
      destruct (Req_dec d1 0) as [->|D1]; [|nra]. destruct (Req_dec d2 0) as [->|D2]; [|nra]. lra. }
    exists (pdot d (psub u p) * pdot d (psub w p) / pdot d d). split.
    - apply Rdiv_lt_0_compat; auto. apply Rmult_lt_0_compat; auto.
    - set (A := psub u p) in *. set (B := psub w p) in *. clearbody A B.
      assert (E : pcross A B * pdot d d = pdot d A * pcross d B - pcross d A * pdot d B).
      { destruct d as [d1 d2], A as [a1 a2], B as [b1 b2]. unfold pdot, pcross. cbn [vx vy]. ring. }
      apply (Rmult_eq_reg_r (pdot d d)); [|lra]. rewrite E. field. lra.
  Qed.
  Lemma orient_pos u w : front u -> front w -> (0 < orient p u w <-> slope u < slope w).
  Proof. intros Hu Hw. destruct (orient_slope u w Hu Hw) as (k & Hk & ->). split; intro; nra. Qed.
  Lemma orient_neg u w : front u -> front w -> (orient p u w < 0 <-> slope w < slope u).
  Proof. intros Hu Hw. destruct (orient_slope u w Hu Hw) as (k & Hk & ->). split; intro; nra. Qed.
  Lemma cross_orient a b : pt_cross p a b = orient p a b.
  Proof. unfold pt_cross, orient, pcross, psub. rnum. cbn [vx vy]. ring. Qed.
  Lemma side_orient a b : side a b p = orient p a b.
  Proof. unfold side, orient, pcross, psub. rnum. cbn [vx vy]. ring. Qed.
End Seen.

(** ** The scan over all vertices *)
Section Scan.
  Variables (d p : pt).
  Notation f := (slope d p).
  Notation front := (front d p).
  Lemma step_spec u v0 v1 L R : front u -> front v0 -> front v1 -> front L -> front R ->
    exists L' R', tan_step p (v0, orient p u v0, L, R) v1 = (v1, orient p v0 v1, L', R') /\
      (L' = L \/ L' = v0) /\ (R' = R \/ R' = v0) /\ f R' <= f R /\ f L <= f L' /\
      (f v0 <= f u -> f v0 < f v1 -> f R' <= f v0) /\ (f u < f v0 -> f v1 <= f v0 -> f v0 <= f L').
  Proof.
    intros Hu H0 H1 HL HR. unfold tan_step. rewrite side_orient.
    change ((vx v0 - vx p) * (vy R - vy p) - (vx R - vx p) * (vy v0 - vy p))%num with (pt_cross p v0 R).
    change ((vx v0 - vx p) * (vy L - vy p) - (vx L - vx p) * (vy v0 - vy p))%num with (pt_cross p v0 L).
    rewrite !cross_orient, !vec2_R. rnum.
    destruct (orient_slope d p u v0 Hu H0) as (k1 & K1 & ->). destruct (orient_slope d p v0 v1 H0 H1) as (k2 & K2 & E2).
    destruct (orient_slope d p v0 R H0 HR) as (k3 & K3 & ->). destruct (orient_slope d p v0 L H0 HL) as (k4 & K4 & ->). rewrite E2.
    assert (EV : mkV (vx v0) (vy v0) = v0) by (destruct v0; reflexivity). rewrite ?EV.
    destruct (Rleb_spec (k1 * (f v0 - f u)) 0) as [A|A]; destruct (Rltb_spec 0 (k2 * (f v1 - f v0))) as [B|B];
      destruct (Rleb_spec 0 (k3 * (f R - f v0))) as [C|C]; destruct (Rleb_spec (k4 * (f L - f v0)) 0) as [F|F];
      cbn [andb]; try (destruct (Rltb_spec 0 (k1 * (f v0 - f u))) as [G|G]); try (destruct (Rleb_spec (k2 * (f v1 - f v0)) 0) as [H|H]);
      cbn [andb]; try (exfalso; lra);
      eexists _, _; (split; [reflexivity|]); repeat split; auto; try lra; intros; nra.
  Qed.
  Lemma scan_fold : forall l u v0 L R, front u -> front v0 -> front L -> front R -> Forall front l ->
    exists v' t' L' R', fold_left (tan_step p) l (v0, orient p u v0, L, R) = (v', t', L', R') /\
      (L' = L \/ In L' (v0 :: l)) /\ (R' = R \/ In R' (v0 :: l)) /\ f R' <= f R /\ f L <= f L' /\
      (forall m, (forall x, In x (u :: v0 :: l) -> m <= f x) -> (exists A x y B, v0 :: l = A ++ x :: y :: B /\ f x = m /\ m < f y) -> f R' <= m) /\
      (forall m, (forall x, In x (v0 :: l) -> f x <= m) -> (exists A w x y B, u :: v0 :: l = A ++ w :: x :: y :: B /\ f w < m /\ f x = m) -> m <= f L').
  Proof.
    induction l as [|v1 l IH]; intros u v0 L R Hu H0 HL HR Hl.
    - exists v0, (orient p u v0), L, R. cbn [fold_left]. split; [reflexivity|]. split; [auto|]. split; [auto|]. split; [lra|]. split; [lra|]. split.
      + intros m _ (A & x & y & B & E & _). exfalso. apply (f_equal (@length _)) in E. rewrite app_length in E. cbn in E. lia.
      + intros m _ (A & w & x & y & B & E & _). exfalso. apply (f_equal (@length _)) in E. rewrite app_length in E. cbn in E. lia.
    - inversion Hl as [|a b H1 Hl' E1]; subst a b. destruct (step_spec u v0 v1 L R Hu H0 H1 HL HR) as (L1 & R1 & ES & IL & IR & MR & ML & CR & CL).
      cbn [fold_left]. rewrite ES. assert (HL1 : front L1) by (destruct IL as [->| ->]; auto). assert (HR1 : front R1) by (destruct IR as [->| ->]; auto).
      destruct (IH v0 v1 L1 R1 H0 H1 HL1 HR1 Hl') as (v' & t' & L' & R' & EF & JL & JR & NR & NL & DR & DL). exists v', t', L', R'. split; [exact EF|].
      split; [|split; [|split; [lra|split; [lra|split]]]].
      + destruct JL as [->|JL]; [|right; right; exact JL]. destruct IL as [->| ->]; [auto|right; left; auto].
      + destruct JR as [->|JR]; [|right; right; exact JR]. destruct IR as [->| ->]; [auto|right; left; auto].
      + intros m Hm (A & x & y & B & E & Ex & Ey). destruct A as [|a0 A].
        * cbn [app] in E. assert (x = v0) by congruence. assert (y = v1) by congruence. subst x y.
          assert (m <= f u) by (apply Hm; left; auto). assert (f R1 <= f v0) by (apply CR; lra). lra.
        * apply DR; [intros z Hz; apply Hm; right; exact Hz|]. exists A, x, y, B. split; [|auto]. cbn [app] in E. congruence.
      + intros m Hm (A & w & x & y & B & E & Ew & Ex). destruct A as [|a0 A].
        * cbn [app] in E. assert (w = u) by congruence. assert (x = v0) by congruence. assert (y = v1) by congruence. subst w x y.
          assert (f v1 <= m) by (apply Hm; right; left; auto). assert (f v0 <= f L1) by (apply CL; lra). lra.
        * apply DL; [intros z Hz; apply Hm; right; exact Hz|]. exists A, w, x, y, B. split; [|auto]. cbn [app] in E. congruence.
  Qed.
End Scan.

Lemma fmax {X} (f : X -> R) (l : list X) : l <> [] -> exists x, In x l /\ forall y, In y l -> f y <= f x.
Proof.
  induction l as [|a l IH]; [congruence|]. intros _. destruct l as [|b l].
  - exists a. split; [left; auto|]. intros y [->|[]]. lra.
  - destruct IH as (x & Hx & Hm); [congruence|]. destruct (Rle_dec (f a) (f x)) as [L|L].
    + exists x. split; [right; exact Hx|]. intros y [->|Hy]; [lra|auto].
    + exists a. split; [left; auto|]. intros y [->|Hy]; [lra|]. specialize (Hm y Hy). lra.
Qed.
Lemma fmin {X} (f : X -> R) (l : list X) : l <> [] -> exists x, In x l /\ forall y, In y l -> f x <= f y.
Proof. intro H. destruct (fmax (fun x => - f x) l H) as (x & Hx & Hm). exists x. split; auto. intros y Hy. specialize (Hm y Hy). cbn beta in Hm. lra. Qed.
Lemma leaves {X} (f : X -> R) m dflt : forall l, (exists x, In x l /\ f x = m) -> m < f (last l dflt) -> (forall x, In x l -> m <= f x) ->
  exists A x y B, l = A ++ x :: y :: B /\ f x = m /\ m < f y.
Proof.
  induction l as [|a l IH]; intros (x & Hx & Ex) HL Hm; [destruct Hx|]. destruct l as [|b l].
  - destruct Hx as [->|[]]. cbn in HL. lra.
  - destruct (Rlt_dec m (f b)) as [Lb|Lb].
    + destruct (Rlt_dec m (f a)) as [La|La].
      * destruct IH as (A & x' & y & B & E & H1 & H2); [|exact HL|intros; apply Hm; right; auto|].
        { exists x. split; [|exact Ex]. destruct Hx as [->|Hx]; [lra|exact Hx]. }
        exists (a :: A), x', y, B. rewrite E. auto.
      * exists [], a, b, l. split; [reflexivity|]. split; [|exact Lb]. assert (m <= f a) by (apply Hm; left; auto). lra.
    + destruct IH as (A & x' & y & B & E & H1 & H2); [|exact HL|intros; apply Hm; right; auto|].
      { exists b. split; [left; auto|]. assert (m <= f b) by (apply Hm; right; left; auto). lra. }
      exists (a :: A), x', y, B. rewrite E. auto.
Qed.
Lemma reaches {X} (f : X -> R) m : forall l a, (exists x, In x l /\ f x = m) -> f a < m -> (forall x, In x l -> f x <= m) ->
  exists A x y B, a :: l = A ++ x :: y :: B /\ f x < m /\ f y = m.
Proof.
  induction l as [|b l IH]; intros a (x & Hx & Ex) Ha Hm; [destruct Hx|]. destruct (Rlt_dec (f b) m) as [Lb|Lb].
  - destruct (IH b) as (A & x' & y & B & E & H1 & H2); [|exact Lb|intros; apply Hm; right; auto|].
    { exists x. split; [|exact Ex]. destruct Hx as [->|Hx]; [lra|exact Hx]. }
    exists (a :: A), x', y, B. rewrite E. auto.
  - exists [], a, b, l. split; [reflexivity|]. split; [exact Ha|]. assert (f b <= m) by (apply Hm; left; auto). lra.
Qed.
Lemma tail2 {X} (l : list X) : (2 <= length l)%nat -> exists k x y, l = k ++ [x; y].
Proof.
  intro H. destruct (exists_last (l:=l)) as (l1 & y & ->); [destruct l; cbn in H; [lia|congruence]|]. rewrite app_length in H. cbn in H.
  destruct (exists_last (l:=l1)) as (k & x & ->); [destruct l1; cbn in H; [lia|congruence]|]. exists k, x, y. rewrite <- app_assoc. reflexivity.
Qed.
Lemma scan_supports (vs : list pt) p : (2 <= length vs)%nat -> outside_hull vs p ->
  exists l r, pt_tangents vs p = Ok (l, r) /\ left_support vs p l /\ right_support vs p r.
Proof.
  intros Hn (d & Hd). destruct (tail2 vs Hn) as (k & u & v0 & EV).
  assert (exists first rest, vs = first :: rest) as (first & rest & E0) by (destruct vs; [cbn in Hn; lia|eauto]).
  assert (Fr : forall v, In v vs -> front d p v) by exact Hd.
  assert (Iu : In u vs) by (rewrite EV; apply in_or_app; right; left; auto). assert (I0 : In v0 vs) by (rewrite EV; apply in_or_app; right; right; left; auto).
  assert (If : In first vs) by (rewrite E0; left; auto).
  destruct (scan_fold d p vs u v0 first first) as (v' & t' & L & R & EF & JL & JR & NR & NL & DR & DL); auto; [apply Forall_forall; auto|].
  assert (IL : In L vs) by (destruct JL as [->|[<-|JL]]; auto). assert (IR : In R vs) by (destruct JR as [->|[<-|JR]]; auto).
  exists L, R. split.
  - unfold pt_tangents. destruct (py_get_tail k u v0) as (G1 & G2). rewrite EV in *. rewrite G1, G2. clear G1 G2. rewrite E0. unfold py_get at 1. cbn [bind length].
    change (py_index (S (length rest)) 0) with (Some 0%nat). cbn [nth_error bind]. rewrite side_orient. rewrite <- E0, EF. reflexivity.
  - assert (NE : vs <> []) by (rewrite E0; congruence). set (f := slope d p) in *. split; (split; [assumption|]); intros v Hv.
    + destruct (fmax f vs NE) as (x & Hx & Hm). assert (ML : f x <= f L).
      { destruct (Rlt_dec (f first) (f x)) as [LF|LF]; [|lra]. apply DL; [intros y [<-|Hy]; auto|].
        destruct (reaches f (f x) rest first) as (A & w & y & B & E & Hw & Hy).
        - exists x. split; auto. rewrite E0 in Hx. destruct Hx as [<-|Hx]; [lra|exact Hx].
        - exact LF.
        - intros z Hz. apply Hm. rewrite E0. right. exact Hz.
        - rewrite <- E0 in E. destruct B as [|b B].
          + rewrite EV in E. change (w :: [y]) with ([w] ++ [y]) in E. change ([u; v0]) with ([u] ++ [v0]) in E. rewrite !app_assoc in E.
            apply app_inj_tail in E. destruct E as (E & ->). apply app_inj_tail in E. destruct E as (_ & ->).
            exists [], w, y, first, rest. rewrite E0. auto.
          + exists (u :: v0 :: A), w, y, b, B. rewrite E. auto. }
      destruct (orient_slope d p L v (Fr L IL) (Fr v Hv)) as (q & Hq & ->). fold f. specialize (Hm v Hv). nra.
    + destruct (fmin f vs NE) as (x & Hx & Hm). assert (MR : f R <= f x).
      { destruct (Rlt_dec (f x) (f first)) as [LF|LF]; [|lra]. apply DR; [intros y [<-|[<-|Hy]]; auto|].
        destruct (Rlt_dec (f x) (f v0)) as [L0|L0].
        - destruct (leaves f (f x) first vs) as (A & w & y & B & E & Hw & Hy); [exists x; auto| |auto|].
          + rewrite EV. change ([u; v0]) with ([u] ++ [v0]). rewrite app_assoc, last_last. exact L0.
          + exists (v0 :: A), w, y, B. rewrite E. auto.
        - exists [], v0, first, rest. rewrite E0. split; [reflexivity|]. split; [|exact LF]. specialize (Hm v0 I0). lra. }
      destruct (orient_slope d p R v (Fr R IR) (Fr v Hv)) as (q & Hq & ->). fold f. specialize (Hm v Hv). nra.
Qed.
