(** * Convex polygons and the regions they bound *)
From Coq Require Import ZArith List Bool Lia Permutation Reals Lra Psatz.
From Verif Require Import Num Vec Affine Box Seq Polygon Hull SpecGeom SpecMass SpecConvex SpecExtreme SpecCycle SpecHull SpecRegion RBase VecFacts2 PolyEq CentroidFacts ConvexFacts3.
Import ListNotations.
Local Open Scope R_scope.

(** ** Hulls of lists *)
Lemma in_hull_in (l : list pt) v : In v l -> in_hull l v.
Proof. intros H P _ HP. auto. Qed.
Lemma in_hull_convex (l : list pt) : convex_set (in_hull l).
Proof. intros a b t Ha Hb Ht P HC HP. apply HC; [apply (Ha P HC HP)|apply (Hb P HC HP)|exact Ht]. Qed.
Lemma in_hull_mono (l m : list pt) q : (forall v, In v l -> in_hull m v) -> in_hull l q -> in_hull m q.
Proof. intros H Hq. apply (Hq (in_hull m)); auto. apply in_hull_convex. Qed.
Lemma half_plane a b : convex_set (fun q => orient a b q <= 0).
Proof.
  intros x y t Hx Hy [T1 T2]. replace (orient a b (between x y t)) with ((1 - t) * orient a b x + t * orient a b y) by (ug; ring).
  assert (0 <= (1 - t) * - orient a b x) by (apply Rmult_le_pos; lra). assert (0 <= t * - orient a b y) by (apply Rmult_le_pos; lra). lra.
Qed.
Lemma segment_hull (l : list pt) a b q t : In a l -> In b l -> 0 <= t <= 1 -> q = between a b t -> in_hull l q.
Proof. intros Ha Hb Ht ->. apply in_hull_convex; auto using in_hull_in. Qed.
Lemma hull_encloses (vs l : list pt) q : (forall v, In v l -> encloses vs v) -> in_hull l q -> encloses vs q.
Proof. intros H Hq a b Hab. apply (Hq (fun q => orient a b q <= 0)); [apply half_plane|]. intros v Hv. apply (H v Hv a b Hab). Qed.

(** A point on the right of all edges of a clockwise triangle. *)
Lemma triangle_hull (l : list pt) a b c q : In a l -> In b l -> In c l -> orient a b c < 0 -> orient a b q <= 0 -> orient b c q <= 0 -> orient c a q <= 0 -> in_hull l q.
Proof.
  intros Ha Hb Hc O H1 H2 H3. assert (ES : orient a b c = orient a b q + orient b c q + orient c a q) by (ug; ring).
  set (s := orient a b q) in *. set (u := orient b c q) in *. set (w := orient c a q) in *. set (o := orient a b c) in *.
  destruct (Req_dec (s + w) 0) as [Z|Z].
  - assert (s = 0) by lra. assert (w = 0) by lra. replace q with a; [apply in_hull_in; auto|].
    assert (D : (vx q - vx a) * o = 0) by (replace ((vx q - vx a) * o) with ((vx b - vx a) * w + (vx c - vx a) * s) by (unfold s, w, o; ug; ring); nra).
    assert (D' : (vy q - vy a) * o = 0) by (replace ((vy q - vy a) * o) with ((vy b - vy a) * w + (vy c - vy a) * s) by (unfold s, w, o; ug; ring); nra).
    apply Rmult_integral in D. apply Rmult_integral in D'. apply vec_ext; destruct D, D'; lra.
  - (* the point of b c on the ray from a through q *)
    set (t := s / (s + w)). assert (Ht : 0 <= t <= 1).
    { assert (s + w < 0) by lra. assert (t * (- (s + w)) = - s) by (unfold t; field; lra). split; apply Rmult_le_reg_r with (- (s + w)); lra. }
    set (k := (s + w) / o). assert (Hk : 0 <= k <= 1) by (assert (k * (- o) = - (s + w)) by (unfold k; field; lra); split; apply Rmult_le_reg_r with (- o); lra).
    assert (Hm : in_hull l (between b c t)) by (apply in_hull_convex; auto using in_hull_in).
    assert (EQ : q = between a (between b c t) k).
    { assert (Hkt : k * t = s / o) by (unfold k, t; field; split; lra). assert (K1 : o * (k * t) = s) by (rewrite Hkt; field; lra). assert (K2 : o * k = s + w) by (unfold k; field; lra).
      clearbody t k. clear Hm Ht Hk Hkt. unfold s, w, u, o in *. clear s w u o. ug. destruct a as [ax ay], b as [bx by_], c as [cx cy], q as [qx qy]. cbn [vx vy] in *.
      set (o := (bx - ax) * (cy - ay) - (by_ - ay) * (cx - ax)) in *. assert (O' : o <> 0) by lra.
      f_equal; apply Rmult_eq_reg_l with o; auto.
      - replace (o * (ax + k * (bx + t * (cx - bx) - ax))) with (o * ax + (o * k) * (bx - ax) + (o * (k * t)) * (cx - bx)) by ring. rewrite K1, K2. unfold o. ring.
      - replace (o * (ay + k * (by_ + t * (cy - by_) - ay))) with (o * ay + (o * k) * (by_ - ay) + (o * (k * t)) * (cy - by_)) by ring. rewrite K1, K2. unfold o. ring. }
    rewrite EQ. apply in_hull_convex; auto using in_hull_in.
Qed.

(** ** Farthest vertices *)
Definition lex_le (d e : pt) (v w : pt) : Prop := pdot d v < pdot d w \/ pdot d v = pdot d w /\ pdot e v <= pdot e w.
Lemma lex_max (d e : pt) (l : list pt) : l <> [] -> exists w, In w l /\ forall v, In v l -> lex_le d e v w.
Proof.
  induction l as [|a l IH]; [contradiction|]. intros _. destruct l as [|b l].
  - exists a. split; [left; auto|]. intros v [<-|[]]. right. lra.
  - destruct IH as (w & Hw & H); [discriminate|]. unfold lex_le in *.
    destruct (Rlt_le_dec (pdot d w) (pdot d a)) as [C|C].
    + exists a. split; [left; auto|]. intros v [<-|Hv]; [right; lra|]. specialize (H v Hv). left. lra.
    + destruct (Rlt_le_dec (pdot d a) (pdot d w)) as [C'|C'].
      * exists w. split; [right; auto|]. intros v [<-|Hv]; auto.
      * destruct (Rle_lt_dec (pdot e a) (pdot e w)) as [C2|C2].
        -- exists w. split; [right; auto|]. intros v [<-|Hv]; auto. right. lra.
        -- exists a. split; [left; auto|]. intros v [<-|Hv]; [right; lra|]. specialize (H v Hv). lra.
Qed.

Section Polygon.
  Context (vs : list pt) (ND : NoDup vs) (CW : convex_cw vs) (SP : spread vs).
  Lemma three : (3 <= length vs)%nat.
  Proof using SP.
    clear ND CW. destruct SP as (a & b & c & Ha & Hb & Hc & O). destruct vs as [|x [|y [|z l]]]; cbn [length]; try lia; exfalso; apply O; cbn in Ha, Hb, Hc.
    - contradiction.
    - destruct Ha as [<-|[]], Hb as [<-|[]]. ug. ring.
    - destruct Ha as [<-|[<-|[]]], Hb as [<-|[<-|[]]], Hc as [<-|[<-|[]]]; ug; ring.
  Qed.
  Lemma edge_apart a b : In (a, b) (cyc_pairs vs) -> a <> b.
  Proof using ND SP. apply nodup_distinct; auto. pose proof three. lia. Qed.
  Lemma neighbours w : In w vs -> exists a b, In (a, w) (cyc_pairs vs) /\ In (w, b) (cyc_pairs vs) /\ a <> w /\ b <> w.
  Proof using ND SP.
    intro H. apply in_split in H. destruct H as (l1 & l2 & E).
    assert (R1 : rotated vs (w :: l2 ++ l1)) by (exists l1, (w :: l2); split; auto).
    assert (L : length (l2 ++ l1) <> 0%nat) by (pose proof three as L; rewrite E, app_length in L; rewrite app_length; cbn in L; lia).
    remember (l2 ++ l1) as m eqn:Em. clear Em.
    destruct m as [|b m] using rev_ind; [contradiction|]. clear IHm.
    assert (I1 : In (b, w) (cyc_pairs vs)). { apply (cyc_rot_in _ _ _ R1). rewrite cyc_cons, <- app_assoc. cbn [app]. rewrite adj_last. apply in_or_app. right. left. reflexivity. }
    assert (I2 : exists c, In (w, c) (cyc_pairs vs)). { destruct (m ++ [b]) as [|c m'] eqn:EM; [destruct m; discriminate|]. exists c. apply (cyc_rot_in _ _ _ R1). left. reflexivity. }
    destruct I2 as [c I2]. exists b, c. split; auto. split; auto. split; [apply edge_apart; auto|]. intro K. apply edge_apart in I2. congruence.
  Qed.

  (** No enclosed point is farther than the farthest vertex. *)
  Lemma support d e w q : pcross d e <> 0 -> In w vs -> (forall v, In v vs -> lex_le d e v w) -> encloses vs q -> lex_le d e q w.
  Proof using ND CW SP.
    intros De Hw M Hq. destruct (neighbours w Hw) as (a & b & Ia & Ib & Na & Nb).
    assert (Ia' : In a vs) by (apply cyc_in_l in Ia; apply Ia). assert (Ib' : In b vs) by (apply cyc_in_l in Ib; apply Ib).
    pose proof (CW a w b Ia Ib') as O. pose proof (Hq a w Ia) as Q1. pose proof (Hq w b Ib) as Q2. pose proof (M a Ia') as Ma. pose proof (M b Ib') as Mb.
    assert (O' : orient a w b <> 0).
    { intro Z. destruct SP as (x & y & z & Hx & Hy & Hz & T).
      assert (F : forall v, In v vs -> orient a w v <= 0 /\ orient w b v <= 0) by (intros v Hv; split; apply CW; auto).
      (* a - w and b - w are parallel *)
      assert (K : exists k, k <> 0 /\ psub b w = pscale k (psub a w)).
      { destruct (Req_dec (vx a) (vx w)) as [X|X].
        - assert (Y : vy a <> vy w) by (intro Y; apply Na, vec_ext; auto). exists ((vy b - vy w) / (vy a - vy w)).
          assert (XB : vx b = vx w). { assert ((vx b - vx w) * (vy a - vy w) = 0) by (revert Z; ug; rewrite X; intro Z; lra). apply Rmult_integral in H. lra. }
          split. { intro Z0. assert (vy b - vy w = 0) by (replace (vy b - vy w) with ((vy b - vy w) / (vy a - vy w) * (vy a - vy w)) by (field; lra); rewrite Z0; ring). apply Nb, vec_ext; lra. }
          apply vec_ext; ug; [rewrite X, XB; ring|field; lra].
        - exists ((vx b - vx w) / (vx a - vx w)).
          assert (YB : vy b - vy w = (vx b - vx w) / (vx a - vx w) * (vy a - vy w)). { apply Rmult_eq_reg_l with (vx a - vx w); [|lra]. replace ((vx a - vx w) * ((vx b - vx w) / (vx a - vx w) * (vy a - vy w))) with ((vx b - vx w) * (vy a - vy w)) by (field; lra). revert Z. ug. intro Z. lra. }
          split. { intro Z0. assert (vx b - vx w = 0) by (replace (vx b - vx w) with ((vx b - vx w) / (vx a - vx w) * (vx a - vx w)) by (field; lra); rewrite Z0; ring). rewrite Z0 in YB. apply Nb, vec_ext; lra. }
          apply vec_ext; ug; [field; lra|exact YB]. }
      destruct K as (k & K0 & K). assert (KX : vx b = vx w + k * (vx a - vx w)) by (apply (f_equal vx) in K; revert K; ug; lra). assert (KY : vy b = vy w + k * (vy a - vy w)) by (apply (f_equal vy) in K; revert K; ug; lra).
      destruct (Rlt_le_dec k 0) as [Kn|Kp].
      - (* opposite directions: w would not be farthest *)
        assert (D1 : pdot d b - pdot d w = k * (pdot d a - pdot d w)) by (unfold pdot; rewrite KX, KY; ring). assert (D2 : pdot e b - pdot e w = k * (pdot e a - pdot e w)) by (unfold pdot; rewrite KX, KY; ring).
        unfold lex_le in Ma, Mb. assert (Z1 : pdot d a = pdot d w) by nra. assert (Z2 : pdot e a = pdot e w) by nra.
        assert (U : (vx a - vx w) * pcross d e = 0) by (replace ((vx a - vx w) * pcross d e) with (vy e * (pdot d a - pdot d w) - vy d * (pdot e a - pdot e w)) by (ug; ring); rewrite Z1, Z2; ring).
        assert (U' : (vy a - vy w) * pcross d e = 0) by (replace ((vy a - vy w) * pcross d e) with (vx d * (pdot e a - pdot e w) - vx e * (pdot d a - pdot d w)) by (ug; ring); rewrite Z1, Z2; ring).
        apply Rmult_integral in U. apply Rmult_integral in U'. apply Na, vec_ext; destruct U, U'; lra.
      - (* same direction: all vertices on one line *)
        assert (Z0 : forall v, In v vs -> orient a w v = 0).
        { intros v Hv. destruct (F v Hv) as [F1 F2]. assert (F3 : orient w b v = - k * orient a w v) by (ug; rewrite KX, KY; ring). nra. }
        pose proof (Z0 x Hx) as ZX. pose proof (Z0 y Hy) as ZY. pose proof (Z0 z Hz) as ZZ.
        assert (T0 : orient x y z * (vx w - vx a) = 0). { replace (orient x y z * (vx w - vx a)) with ((vx y - vx x) * (orient a w z - orient a w x) - (vx z - vx x) * (orient a w y - orient a w x)) by (ug; ring). rewrite ZX, ZY, ZZ. ring. }
        assert (T1 : orient x y z * (vy w - vy a) = 0). { replace (orient x y z * (vy w - vy a)) with ((vy y - vy x) * (orient a w z - orient a w x) - (vy z - vy x) * (orient a w y - orient a w x)) by (ug; ring). rewrite ZX, ZY, ZZ. ring. }
        apply Rmult_integral in T0. apply Rmult_integral in T1. apply Na, vec_ext; destruct T0, T1; lra. }
    assert (ID : forall f, (pdot f q - pdot f w) * - orient a w b = - orient w b q * (pdot f a - pdot f w) + - orient a w q * (pdot f b - pdot f w)) by (intro f; ug; ring).
    pose proof (ID d) as I1. pose proof (ID e) as I2. unfold lex_le in *. set (o := - orient a w b) in *. set (x := - orient w b q) in *. set (y := - orient a w q) in *.
    assert (0 < o) by (unfold o; lra). assert (0 <= x) by (unfold x; lra). assert (0 <= y) by (unfold y; lra). clearbody o x y. clear Q1 Q2 O O' ID M.
    set (dq := pdot d q) in *. set (dw := pdot d w) in *. set (da := pdot d a) in *. set (db := pdot d b) in *. set (eq := pdot e q) in *. set (ew := pdot e w) in *. set (ea := pdot e a) in *. set (eb := pdot e b) in *. clearbody dq dw da db eq ew ea eb.
    assert (A1 : x * (da - dw) <= 0) by nra. assert (A2 : y * (db - dw) <= 0) by nra. assert (A3 : dq - dw <= 0) by nra. destruct (Rlt_le_dec dq dw) as [|B]; [left; auto|right]. split; [lra|].
    assert (Z : dq - dw = 0) by lra. rewrite Z in I1. assert (A4 : x * (da - dw) = 0) by lra. assert (A5 : y * (db - dw) = 0) by lra.
    assert (B1 : x * (ea - ew) <= 0). { apply Rmult_integral in A4. destruct A4 as [A4|A4]; [rewrite A4; lra|]. assert (ea <= ew) by lra. nra. }
    assert (B2 : y * (eb - ew) <= 0). { apply Rmult_integral in A5. destruct A5 as [A5|A5]; [rewrite A5; lra|]. assert (eb <= ew) by lra. nra. }
    nra.
  Qed.

  (** An enclosed point on the line of an edge. *)
  Lemma on_line x y q : In (x, y) (cyc_pairs vs) -> encloses vs q -> orient x y q = 0 -> in_hull vs q.
  Proof using ND CW SP.
    intros Hxy Hq Z. pose proof (edge_apart x y Hxy) as N. assert (Hx : In x vs) by (apply cyc_in_l in Hxy; apply Hxy).
    set (u := psub y x). set (d := mkV (- vy u) (vx u)). set (u' := pscale (-1) u).
    assert (NE : vs <> []) by (intro K; rewrite K in Hx; contradiction).
    assert (U0 : 0 < vx u * vx u + vy u * vy u).
    { assert (P : forall r, 0 <= r * r) by (intro r; nra). destruct (Rlt_le_dec 0 (vx u * vx u + vy u * vy u)) as [|K]; auto. exfalso.
      pose proof (P (vx u)). pose proof (P (vy u)). assert (A : vx u * vx u = 0) by lra. assert (B : vy u * vy u = 0) by lra. apply Rmult_integral in A. apply Rmult_integral in B. unfold u in A, B. cbn [psub vx vy] in A, B. apply N, vec_ext; destruct A, B; lra. }
    assert (DV : forall v, pdot d v = pdot d x + orient x y v) by (intro v; unfold d, u; ug; ring).
    destruct (lex_max d u vs NE) as (w1 & H1 & M1). destruct (lex_max d u' vs NE) as (w2 & H2 & M2).
    assert (S1 : lex_le d u q w1) by (apply support; auto; unfold d; ug; nra). assert (S2 : lex_le d u' q w2) by (apply support; auto; unfold d, u'; ug; nra).
    pose proof (M1 x Hx) as X1. pose proof (M2 x Hx) as X2. pose proof (CW x y w1 Hxy H1) as C1. pose proof (CW x y w2 Hxy H2) as C2. unfold lex_le in *. rewrite (DV q), (DV w1) in S1. rewrite (DV q), (DV w2) in S2. rewrite (DV w1) in X1. rewrite (DV w2) in X2.
    assert (Z1 : orient x y w1 = 0) by lra. assert (Z2 : orient x y w2 = 0) by lra. assert (B1 : pdot u q <= pdot u w1) by lra.
    assert (B2 : pdot u w2 <= pdot u q) by (assert (E : forall v, pdot u' v = - pdot u v) by (intro v; unfold u'; ug; ring); rewrite !E in S2; lra).
    (* coordinates along u *)
    assert (CO : forall v, orient x y v = 0 -> v = padd x (pscale ((pdot u v - pdot u x) / (vx u * vx u + vy u * vy u)) u)).
    { intros v Hv. assert (Hv' : vx u * (vy v - vy x) - vy u * (vx v - vx x) = 0) by exact Hv. apply vec_ext; cbn [padd pscale vx vy]; apply Rmult_eq_reg_r with (vx u * vx u + vy u * vy u); try lra.
      - replace ((vx x + (pdot u v - pdot u x) / (vx u * vx u + vy u * vy u) * vx u) * (vx u * vx u + vy u * vy u)) with (vx x * (vx u * vx u + vy u * vy u) + (pdot u v - pdot u x) * vx u) by (field; lra). apply Rminus_diag_uniq. match goal with |- ?z = 0 => replace z with (- vy u * (vx u * (vy v - vy x) - vy u * (vx v - vx x))) by (unfold pdot; ring) end. rewrite Hv'. ring.
      - replace ((vy x + (pdot u v - pdot u x) / (vx u * vx u + vy u * vy u) * vy u) * (vx u * vx u + vy u * vy u)) with (vy x * (vx u * vx u + vy u * vy u) + (pdot u v - pdot u x) * vy u) by (field; lra). apply Rminus_diag_uniq. match goal with |- ?z = 0 => replace z with (vx u * (vx u * (vy v - vy x) - vy u * (vx v - vx x))) by (unfold pdot; ring) end. rewrite Hv'. ring. }
    destruct (Req_dec (pdot u w2) (pdot u w1)) as [E|E].
    - replace q with w1; [apply in_hull_in; auto|]. rewrite (CO q Z), (CO w1 Z1). replace (pdot u q) with (pdot u w1) by lra. reflexivity.
    - apply (segment_hull vs w2 w1 q ((pdot u q - pdot u w2) / (pdot u w1 - pdot u w2))); auto.
      + assert (K : (pdot u q - pdot u w2) / (pdot u w1 - pdot u w2) * (pdot u w1 - pdot u w2) = pdot u q - pdot u w2) by (field; lra). split; apply Rmult_le_reg_r with (pdot u w1 - pdot u w2); lra.
      + pose proof (CO q Z) as G1. pose proof (CO w1 Z1) as G2. pose proof (CO w2 Z2) as G3. set (b1 := pdot u w1) in *. set (b2 := pdot u w2) in *. set (bq := pdot u q) in *. set (bx := pdot u x) in *. set (n := vx u * vx u + vy u * vy u) in *.
        clearbody b1 b2 bq bx n. rewrite G1, G2, G3. unfold between. apply vec_ext; cbn [padd pscale psub vx vy]; field; lra.
  Qed.

  (** What a clockwise convex polygon encloses is the hull of its vertices. *)
  Lemma last_any {X} (c : X) t : forall a b, last (c :: t) a = last (c :: t) b.
  Proof using. revert c. induction t as [|e t IH]; intros c a b; [reflexivity|]. apply (IH e a b). Qed.
  Lemma ivt (f : pt -> R) : forall t a, f a <= 0 -> t <> [] -> 0 <= f (last t a) -> exists x y, In (x, y) (adj a t) /\ f x <= 0 <= f y.
  Proof using.
    induction t as [|b t IH]; intros a Ha Ht Hl; [contradiction|]. cbn [adj]. destruct (Rle_lt_dec 0 (f b)) as [B|B]; [exists a, b; split; [left; auto|lra]|].
    destruct t as [|c t]; [cbn in Hl; lra|]. destruct (IH b) as (x & y & I & H); [lra|discriminate| |exists x, y; split; [right; auto|auto]].
    rewrite (last_any c t b a). exact Hl.
  Qed.
  Lemma enclosed_hull q : encloses vs q -> in_hull vs q.
  Proof using ND CW SP.
    intro Hq. pose proof three as L3. destruct vs as [|v0 [|v1 [|v2 t]]] eqn:EV; cbn in L3; try lia. rewrite <- EV in *.
    assert (E1 : In (v0, v1) (cyc_pairs vs)) by (rewrite EV; left; reflexivity).
    assert (E2 : In (last (v2 :: t) v1, v0) (cyc_pairs vs)).
    { destruct (exists_last (l := v2 :: t)) as (m & z & EM); [discriminate|]. assert (EL : last (v2 :: t) v1 = z) by (rewrite EM; apply last_last). rewrite EL, EV, cyc_cons.
      change ((v1 :: v2 :: t) ++ [v0]) with (v1 :: (v2 :: t) ++ [v0]). rewrite EM, <- app_assoc. cbn [app adj]. right. rewrite adj_last. apply in_or_app. right. left. reflexivity. }
    destruct (ivt (fun v => orient v0 v q) (v2 :: t) v1) as (x & y & I & F1 & F2).
    { apply (Hq v0 v1 E1). } { discriminate. }
    { pose proof (Hq _ _ E2) as K. revert K. ug. lra. }
    assert (I' : In (x, y) (cyc_pairs vs)) by (rewrite EV; apply adj_in_cyc; exact I).
    assert (H0 : In v0 vs) by (rewrite EV; left; auto). destruct (cyc_in_l x y vs I') as [Hx Hy].
    pose proof (CW x y v0 I' H0) as G. pose proof (Hq x y I') as Q.
    destruct (Rlt_le_dec (orient x y v0) 0) as [G'|G'].
    - apply (triangle_hull vs v0 x y); auto; revert F1 F2 G' Q; ug; lra.
    - assert (Z : orient x y v0 = 0) by lra. apply (on_line x y); auto.
      destruct (Rlt_le_dec (orient x y q) 0) as [K|K]; [|lra]. exfalso.
      assert (ID : orient v0 y q - orient v0 x q = orient x y q - orient x y v0) by (ug; ring). lra.
  Qed.
End Polygon.

(** ** Room around a point *)
Lemma room (es : list (pt * pt)) q : (forall a b, In (a, b) es -> orient a b q < 0) -> exists r, 0 < r /\ forall x y, Rabs x < r -> Rabs y < r -> forall a b, In (a, b) es -> orient a b (mkV (vx q + x) (vy q + y)) <= 0.
Proof.
  induction es as [|[a b] es IH]; intro H.
  - exists 1. split; [lra|]. intros x y _ _ a b [].
  - destruct IH as (r & R0 & HR); [intros; apply H; right; auto|]. specialize (H a b (or_introl eq_refl)).
    set (n := 1 + Rabs (vx b - vx a) + Rabs (vy b - vy a)). assert (N1 : 1 <= n) by (unfold n; pose proof (Rabs_pos (vx b - vx a)); pose proof (Rabs_pos (vy b - vy a)); lra).
    set (d := - orient a b q / n). assert (D0 : 0 < d) by (unfold d; apply Rdiv_lt_0_compat; lra). assert (DN : d * n = - orient a b q) by (unfold d; field; lra).
    exists (Rmin r d). split; [apply Rmin_glb_lt; auto|]. intros x y Hx Hy a' b' [E|I].
    + injection E as <- <-. assert (Hx' : Rabs x < d) by (eapply Rlt_le_trans; [exact Hx|apply Rmin_r]). assert (Hy' : Rabs y < d) by (eapply Rlt_le_trans; [exact Hy|apply Rmin_r]).
      replace (orient a b (mkV (vx q + x) (vy q + y))) with (orient a b q + ((vx b - vx a) * y - (vy b - vy a) * x)) by (ug; ring).
      pose proof (Rle_abs ((vx b - vx a) * y)) as A1. rewrite Rabs_mult in A1. pose proof (Rle_abs (- ((vy b - vy a) * x))) as A2. rewrite Rabs_Ropp, Rabs_mult in A2.
      pose proof (Rabs_pos (vx b - vx a)) as P1. pose proof (Rabs_pos (vy b - vy a)) as P2.
      assert (B1 : Rabs (vx b - vx a) * Rabs y <= Rabs (vx b - vx a) * d) by (apply Rmult_le_compat_l; lra). assert (B2 : Rabs (vy b - vy a) * Rabs x <= Rabs (vy b - vy a) * d) by (apply Rmult_le_compat_l; lra).
      unfold n in DN. lra.
    + apply HR; auto; (eapply Rlt_le_trans; [eassumption|apply Rmin_l]).
Qed.
(** A set that encloses nothing outside an edge has no room on the edge. *)
Lemma no_room (a b q : pt) (S0 : pt -> Prop) : a <> b -> (forall v, S0 v -> orient a b v <= 0) -> deep S0 q -> orient a b q < 0.
Proof.
  intros N H (r & R0 & HR). set (ux := vx b - vx a). set (uy := vy b - vy a). set (n := 1 + Rabs ux + Rabs uy). pose proof (Rabs_pos ux) as P1. pose proof (Rabs_pos uy) as P2. assert (N1 : 1 <= n) by (unfold n; lra).
  set (d := r / n). assert (D0 : 0 < d) by (unfold d; apply Rdiv_lt_0_compat; lra). assert (DN : d * n = r) by (unfold d; field; lra).
  specialize (HR (- (d * uy)) (d * ux)). assert (K : S0 (mkV (vx q + - (d * uy)) (vy q + d * ux))).
  { apply HR; [rewrite Rabs_Ropp|]; rewrite Rabs_mult, (Rabs_pos_eq d) by lra; rewrite <- DN; apply Rmult_lt_compat_l; auto; unfold n; lra. }
  apply H in K. replace (orient a b (mkV (vx q + - (d * uy)) (vy q + d * ux))) with (orient a b q + d * (ux * ux + uy * uy)) in K by (unfold ux, uy; ug; ring).
  assert (0 < ux * ux + uy * uy).
  { assert (P : forall z, 0 <= z * z) by (intro z; nra). destruct (Rlt_le_dec 0 (ux * ux + uy * uy)) as [|G]; auto. exfalso. pose proof (P ux). pose proof (P uy).
    assert (A : ux * ux = 0) by lra. assert (B : uy * uy = 0) by lra. apply Rmult_integral in A. apply Rmult_integral in B. unfold ux, uy in A, B. apply N, vec_ext; destruct A, B; lra. }
  assert (0 < d * (ux * ux + uy * uy)) by (apply Rmult_lt_0_compat; auto). lra.
Qed.

(** ** Polygons without three vertices on a line *)
Definition no_three (l : list pt) : Prop := forall a b c, In a l -> In b l -> In c l -> a <> b -> b <> c -> a <> c -> orient a b c <> 0.
Lemma neighbours_apart (vs : list pt) w : NoDup vs -> spread vs -> In w vs -> exists a b, In (a, w) (cyc_pairs vs) /\ In (w, b) (cyc_pairs vs) /\ a <> w /\ b <> w /\ a <> b.
Proof.
  intros ND SP H. pose proof (three vs SP) as L3. apply in_split in H. destruct H as (l1 & l2 & E).
  assert (R1 : rotated vs (w :: l2 ++ l1)) by (exists l1, (w :: l2); split; auto).
  assert (ND' : NoDup (w :: l2 ++ l1)). { eapply Permutation_NoDup; [|exact ND]. rewrite E. apply (Permutation_app_comm l1 (w :: l2)). }
  assert (L : (2 <= length (l2 ++ l1))%nat) by (rewrite E, app_length in L3; rewrite app_length; cbn in L3; lia).
  remember (l2 ++ l1) as m eqn:Em. clear Em. destruct m as [|c m]; [cbn in L; lia|].
  destruct m as [|b m] using rev_ind; [cbn in L; lia|]. clear IHm. exists b, c.
  assert (I1 : In (b, w) (cyc_pairs vs)). { apply (cyc_rot_in _ _ _ R1). rewrite cyc_cons. change ((c :: m ++ [b]) ++ [w]) with (c :: (m ++ [b]) ++ [w]). rewrite <- app_assoc. change (c :: m ++ [b] ++ [w]) with ((c :: m) ++ [b; w]). rewrite adj_last. apply in_or_app. right. left. reflexivity. }
  assert (I2 : In (w, c) (cyc_pairs vs)) by (apply (cyc_rot_in _ _ _ R1); left; reflexivity).
  inversion ND' as [|? ? W1 W2]; subst. inversion W2 as [|? ? W3 W4]; subst.
  split; auto. split; auto. split; [intros ->; apply W1; right; apply in_or_app; right; left; auto|]. split; [intros ->; apply W1; left; auto|]. intros ->. apply W3. apply in_or_app. right. left. auto.
Qed.
Lemma vertex_extreme (vs : list pt) v : NoDup vs -> convex_cw vs -> spread vs -> no_three vs -> In v vs -> extreme (encloses vs) v.
Proof.
  intros ND CW SP NT Hv. split; [intros a b Hab; apply CW; auto|]. intros a b Ha Hb (t & Ht & E).
  destruct (Req_dec t 0) as [T0|T0]; [left; rewrite E, T0; apply vec_ext; ug; ring|]. destruct (Req_dec t 1) as [T1|T1]; [right; rewrite E, T1; apply vec_ext; ug; ring|]. left.
  destruct (neighbours_apart vs v ND SP Hv) as (x & y & Ix & Iy & Nx & Ny & Nxy). destruct (cyc_in_l _ _ _ Ix) as [Hx _]. destruct (cyc_in_l _ _ _ Iy) as [_ Hy].
  assert (O : orient x v y <> 0) by (apply NT; auto).
  pose proof (Ha x v Ix) as A1. pose proof (Hb x v Ix) as B1. pose proof (Ha v y Iy) as A2. pose proof (Hb v y Iy) as B2.
  assert (C1 : (1 - t) * orient x v a + t * orient x v b = 0) by (replace ((1 - t) * orient x v a + t * orient x v b) with (orient x v (between a b t)) by (ug; ring); rewrite <- E; ug; ring).
  assert (C2 : (1 - t) * orient v y a + t * orient v y b = 0) by (replace ((1 - t) * orient v y a + t * orient v y b) with (orient v y (between a b t)) by (ug; ring); rewrite <- E; ug; ring).
  assert (Z1 : orient x v a = 0) by nra. assert (Z2 : orient v y a = 0) by nra.
  assert (U : (vx a - vx v) * orient x v y = 0) by (replace ((vx a - vx v) * orient x v y) with ((vx y - vx v) * orient x v a - (vx v - vx x) * orient v y a) by (ug; ring); rewrite Z1, Z2; ring).
  assert (U' : (vy a - vy v) * orient x v y = 0) by (replace ((vy a - vy v) * orient x v y) with ((vy y - vy v) * orient x v a - (vy v - vy x) * orient v y a) by (ug; ring); rewrite Z1, Z2; ring).
  apply Rmult_integral in U. apply Rmult_integral in U'. apply vec_ext; destruct U, U'; lra.
Qed.
(** Two lists with the same first element and the same successors. *)
Lemma same_successors {X} (v : X) : forall s s' a, ~ In v s -> ~ In v s' -> (forall x y z, In (x, y) (adj a (s ++ [v])) -> In (x, z) (adj a (s' ++ [v])) -> y = z) -> s = s'.
Proof.
  induction s as [|b s IH]; intros [|b' s'] a H H' F; auto.
  - exfalso. apply H'. left. symmetry. apply (F a v b'); left; auto.
  - exfalso. apply H. left. apply (F a b v); left; auto.
  - assert (b = b') as <- by (apply (F a b b'); left; auto). f_equal. apply (IH s' b); [intro; apply H; right; auto|intro; apply H'; right; auto|]. intros x y z I1 I2. apply (F x y z); right; auto.
Qed.
Lemma same_list (v : pt) s s' : NoDup (v :: s) -> NoDup (v :: s') -> convex_cw (v :: s) -> convex_cw (v :: s') -> spread (v :: s) -> no_three (v :: s) -> (forall w, In w (v :: s) <-> In w (v :: s')) -> s = s'.
Proof.
  intros N N' C C' SP NT HI. apply (same_successors v s s' v); [inversion N; auto|inversion N'; auto|]. intros x y z. rewrite <- !cyc_cons. intros I1 I2.
  destruct (cyc_in_l _ _ _ I1) as [Hx Hy]. destruct (cyc_in_l _ _ _ I2) as [_ Hz]. assert (Hz' : In z (v :: s)) by (apply HI; auto).
  assert (SP' : spread (v :: s')) by (destruct SP as (a & b & c & Ha & Hb & Hc & O); exists a, b, c; rewrite <- !HI; auto).
  pose proof (edge_apart _ N SP x y I1) as N1. pose proof (edge_apart _ N' SP' x z I2) as N2.
  pose proof (C x y z I1 Hz') as O1. pose proof (C' x z y I2 ltac:(apply HI; auto)) as O2. destruct (Req_dec (vx y) (vx z)) as [X|X]; [destruct (Req_dec (vy y) (vy z)) as [Y|Y]; [apply vec_ext; auto|]|].
  all: exfalso; apply (NT x y z); auto; [intros ->; auto|]; revert O1 O2; ug; lra.
Qed.

(** ** Where a hull starts *)
Section Start.
  Context {T : Type} {N : Num T} (p0 : vec T).
  Definition grounded (s : list (vec T)) : Prop := exists r, s = r ++ [p0].
  Lemma pop_grounded p s : grounded s -> grounded (scan_pop p s).
  Proof using.
    intros (r & ->). induction r as [|a r IH]; [exists []; reflexivity|]. destruct r as [|b r]; cbn [app scan_pop] in *.
    - destruct (nleb _ _); [exists []; reflexivity|exists [a]; reflexivity].
    - destruct (nleb _ _); [exact IH|exists (a :: b :: r); reflexivity].
  Qed.
  Lemma step_grounded p s : grounded s -> grounded (scan_step s p).
  Proof using. intro H. destruct (pop_grounded p s H) as (r & E). exists (p :: r). unfold scan_step. rewrite E. reflexivity. Qed.
  Lemma fold_grounded l : forall s, grounded s -> grounded (fold_left scan_step l s).
  Proof using. induction l; intros s H; cbn [fold_left]; auto. apply IHl, step_grounded; auto. Qed.
  Lemma sort_start pts p1 : exists t, ahull_sort pts p0 p1 = p0 :: t.
  Proof using.
    unfold ahull_sort. rewrite fold_left_app. cbn [fold_left]. unfold scan_step at 1. cbn [tl].
    destruct (pop_grounded p1 (fold_left scan_step (sort_by (fun a b => line_order p0 (vx (vsub p1 p0)) (vy (vsub p1 p0)) a <? line_order p0 (vx (vsub p1 p0)) (vy (vsub p1 p0)) b)%num pts) [p0])) as (r & E).
    { apply fold_grounded. exists []. reflexivity. }
    rewrite E, rev_app_distr. exists (rev r). reflexivity.
  Qed.
  Lemma part_start : forall fuel pts p1 h, ahull_partition fuel pts p0 p1 = Ok h -> exists t, h = p0 :: t.
  Proof using.
    induction fuel as [|f IH]; intros pts p1 h E; [discriminate|]. cbn [ahull_partition] in E. destruct (find_furthest pts p0 p1) as [pp0|]; [|discriminate].
    cbv zeta in E. destruct (partition_pts pts p0 p1 (vec2_of pp0)) as [[lft rgt]|]; [|discriminate]. cbn [bind] in E.
    match type of E with bind ?x _ = _ => destruct x as [h1|] eqn:E1; [|discriminate] end. cbn [bind] in E.
    match type of E with bind ?x _ = _ => destruct x as [h2|] eqn:E2; [|discriminate] end. cbn [bind] in E. injection E as <-.
    assert (X : exists t, h1 = p0 :: t).
    { destruct (Nat.leb (length lft) 1); [injection E1 as <-; eauto|]. destruct (Nat.leb _ _) in E1; [eapply IH; eauto|]. injection E1 as <-. apply sort_start. }
    destruct X as (t & ->). exists (t ++ h2). reflexivity.
  Qed.
End Start.
Lemma lr_stays (v : pt) : forall l r, (forall w, In w l -> vx v <= vx w) -> fst (fold_left lr_step l (v, r)) = v.
Proof.
  induction l as [|a l IH]; intros r H; [reflexivity|]. cbn [fold_left lr_step]. pose proof (H a (or_introl eq_refl)) as K.
  destruct (vx a <? vx v)%num eqn:E; [rnum; rbool; lra|]. destruct (vx a >? vx r)%num; apply IH; intros; apply H; right; auto.
Qed.
Lemma quick_start (so : list pt -> list pt) (v : pt) t h : (forall w, In w t -> vx v <= vx w) -> quick_hull so (v :: t) = Ok h -> exists t', h = v :: t'.
Proof.
  intros H E. unfold quick_hull in E. pose proof (lr_stays v (v :: t) v) as L. destruct (fold_left lr_step (v :: t) (v, v)) as [l r]. cbn [fst] in L. rewrite L in E by (intros w [<-|Hw]; [lra|auto]).
  destruct (upper_lower (v :: t) v r) as [up lo]. cbv zeta in E. match type of E with bind ?x _ = _ => destruct x as [h1|] eqn:E1; [|discriminate] end. cbn [bind] in E.
  match type of E with bind ?x _ = _ => destruct x as [h2|] eqn:E2; [|discriminate] end. cbn [bind] in E. injection E as <-.
  assert (X : exists t, h1 = v :: t). { destruct (set_discard _ _) in E1; [injection E1 as <-; eauto|eapply part_start; eauto]. }
  destruct X as (t1 & ->). exists (t1 ++ h2). reflexivity.
Qed.
