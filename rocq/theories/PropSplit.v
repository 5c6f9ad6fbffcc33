(** * Properties C55, C58: exactly when the search in convex polygons is right *)
From Coq Require Import ZArith QArith List Bool Reals Lra Lia Psatz Permutation Sorted.
From Verif Require Import Num Vec Affine Box Seq Polygon BoxPoly Tangent PolyOps SpecPoly SpecGeom SpecAffine SpecBox SpecMass SpecWind SpecConvex SpecExtreme SpecSplit RBase OrdLaws VecFacts VecFacts2 AffineFacts BoxFacts BoxFacts2
  PolyCache PolyCache2 PolyCache3 PolyCache4 PolyCache5 NumHom RComp SpecCycle PolyEq CentroidFacts WindFacts ConvexFacts ConvexFacts2 ConvexFacts3 ConvexFacts4
  MonoFacts MonoFacts2 MonoFacts3 MonoFacts4 MonoFacts5 PropPoly PropConvex PropPnp PropSimple.
Import ListNotations.
Local Open Scope R_scope.

(** A convex polygon with three vertices not on a line has a point inside. *)
Lemma inside_point (s : R) (l : list pt) : spread l -> sided s l -> tsign s -> exists q, strictly_inside s l q.
Proof.
  intros (u & v & w & Hu & Hv & Hw & O) Sd Ts. exists (mkV ((vx u + vx v + vx w) / 3) ((vy u + vy v + vy w) / 3)). intros a b He Hab.
  pose proof (Sd a b u He Hu) as A. pose proof (Sd a b v He Hv) as B. pose proof (Sd a b w He Hw) as C.
  assert (Q : s * orient a b (mkV ((vx u + vx v + vx w) / 3) ((vy u + vy v + vy w) / 3)) = (s * orient a b u + s * orient a b v + s * orient a b w) / 3) by (ug; field).
  rewrite Q. assert (K : s * orient a b u = 0 -> s * orient a b v = 0 -> s * orient a b w = 0 -> False); [|destruct (Rle_lt_or_eq_dec _ _ A), (Rle_lt_or_eq_dec _ _ B), (Rle_lt_or_eq_dec _ _ C); try lra; exfalso; apply K; auto].
  intros A0 B0 C0. assert (S0 : s <> 0) by (destruct Ts as [-> | ->]; lra). apply Rmult_integral in A0, B0, C0. destruct A0 as [|A0], B0 as [|B0], C0 as [|C0]; try contradiction. apply O.
  assert (X : (vx b - vx a) * orient u v w = (vx v - vx u) * (orient a b w - orient a b u) - (vx w - vx u) * (orient a b v - orient a b u)) by (ug; ring).
  assert (Y : (vy b - vy a) * orient u v w = (vy v - vy u) * (orient a b w - orient a b u) - (vy w - vy u) * (orient a b v - orient a b u)) by (ug; ring).
  rewrite A0, B0, C0 in X, Y. destruct (Req_dec (orient u v w) 0) as [Z|Z]; auto. exfalso. apply Hab. apply vec_ext; [apply (Rmult_eq_reg_r (orient u v w))|apply (Rmult_eq_reg_r (orient u v w))]; lra.
Qed.
(** Without turns, distinct vertices are all on one line. *)
Lemma par_trans (u v w : pt) : nn v -> pcross u v = 0 -> pcross v w = 0 -> pcross u w = 0.
Proof.
  intros N A B. assert (I : (vx v * vx v + vy v * vy v) * pcross u w = (vx u * vx v + vy u * vy v) * pcross v w + (vx w * vx v + vy w * vy v) * pcross u v) by (ug; ring).
  rewrite A, B in I. assert (K : 0 < vx v * vx v + vy v * vy v). { destruct (Req_dec (vx v) 0) as [X|X]; [|nra]. destruct (Req_dec (vy v) 0) as [Y|Y]; [|nra]. exfalso. apply N. destruct v as [v1 v2]. cbn in X, Y. subst. reflexivity. }
  apply (Rmult_eq_reg_l (vx v * vx v + vy v * vy v)); lra.
Qed.
Lemma diff_nn (a b : pt) : a <> b -> nn (diff (a, b)).
Proof. intros H K. apply H. unfold diff, psub, porigin in K. cbn [fst snd] in K. apply mkV_inj in K. destruct a as [a1 a2], b as [b1 b2]. cbn [vx vy] in K. vext; lra. Qed.
Lemma straight_path (d0 x0 : pt) : forall l x d, nn d0 -> nn d -> pcross d0 d = 0 -> pcross d0 (psub x x0) = 0 -> (forall a b, In (a, b) (adj x l) -> a <> b) -> Forall (fun e => tn e = 0) (adj d (map diff (adj x l))) ->
  forall v, In v l -> pcross d0 (psub v x0) = 0.
Proof.
  induction l as [|y l IH]; intros x d N0 N P X HN HT v; [intros []|]. cbn [adj map] in HT, HN. inversion HT as [|? ? T1 T2]; subst. unfold tn in T1. cbn [fst snd] in T1.
  assert (Nxy : nn (diff (x, y))) by (apply diff_nn, HN; left; auto).
  assert (P' : pcross d0 (diff (x, y)) = 0) by (eapply par_trans; [exact N|exact P|exact T1]).
  assert (Y : pcross d0 (psub y x0) = 0). { revert P' X. unfold diff. cbn [fst snd]. ug. lra. }
  intros [<-|Hv]; auto. apply (IH y (diff (x, y))); auto. intros a b Hab. apply HN. right; auto.
Qed.
Lemma turns_spread (l : list pt) : NoDup l -> spread l -> ~ Forall (fun e => tn e = 0) (cyc_pairs (edgev l)).
Proof.
  intros N (a & b & c & Ha & Hb & Hc & O) HT. destruct l as [|x [|y t]]; [destruct Ha|apply O; destruct Ha as [<-|[]], Hb as [<-|[]], Hc as [<-|[]]; ug; ring|].
  assert (D : forall u v, In (u, v) (cyc_pairs (x :: y :: t)) -> u <> v).
  { intros u v He. rewrite cyc_cons in He. apply adj_split in He as (c1 & c2 & Ec). destruct c2 as [|z c2].
    - change (x :: (y :: t) ++ [x]) with ((x :: y :: t) ++ [x]) in Ec. replace (c1 ++ [u; v]) with ((c1 ++ [u]) ++ [v]) in Ec by (rewrite <- app_assoc; auto). apply app_inj_tail in Ec as [E1 <-].
      destruct c1 as [|z c1]; cbn [app] in E1; [discriminate|]. injection E1 as <- E1. intros ->. inversion N as [|? ? N1 _]; subst. apply N1. rewrite E1. apply in_app_iff. right. left. auto.
    - destruct (@exists_last _ (z :: c2)) as (c3 & w & E3); [discriminate|]. rewrite E3 in Ec. change (x :: (y :: t) ++ [x]) with ((x :: y :: t) ++ [x]) in Ec. 
      replace (c1 ++ u :: v :: c3 ++ [w]) with ((c1 ++ u :: v :: c3) ++ [w]) in Ec by (rewrite <- app_assoc; auto). apply app_inj_tail in Ec as [E1 _]. rewrite E1 in N. intros ->. apply NoDup_remove_2 in N. apply N. apply in_app_iff. right. left. auto. }
  assert (EV : edgev (x :: y :: t) = map diff (cyc_pairs (x :: y :: t))).
  { unfold edgev. assert (G : forall es, (forall u v, In (u, v) es -> u <> v) -> filter vec_bool (map diff es) = map diff es); [|apply G; auto].
    induction es as [|[u v] es IH]; intro K; auto. cbn [map filter]. rewrite (proj2 (vec_bool_nn (diff (u, v)))) by (apply diff_nn, K; left; auto). f_equal. apply IH. intros u' v' Hu. apply K. right; auto. }
  rewrite EV in HT. assert (EC : cyc_pairs (x :: y :: t) = (x, y) :: adj y (t ++ [x])) by (rewrite cyc_cons; auto). rewrite EC in HT, D. cbn [map] in HT. rewrite cyc_cons in HT.
  set (d0 := diff (x, y)) in *. assert (N0 : nn d0) by (apply diff_nn, D; left; auto).
  assert (S0 : forall v, In v (x :: y :: t) -> pcross d0 (psub v x) = 0).
  { assert (Y : pcross d0 (psub y x) = 0) by (unfold d0, diff; cbn [fst snd]; ug; ring). assert (X : pcross d0 (psub x x) = 0) by (ug; ring).
    assert (Z0 : pcross d0 d0 = 0) by (ug; ring).
    intros v [<-|[<-|Hv]]; auto. apply (straight_path d0 x (t ++ [x]) y d0); auto.
    - intros u w Hu. apply D. right; auto.
    - rewrite adj_app in HT. apply Forall_app in HT. apply HT.
    - apply in_app_iff; auto. }
  apply O. assert (Q : forall u v, In u (x :: y :: t) -> In v (x :: y :: t) -> pcross d0 (psub v u) = 0). { intros u v Hu Hv. pose proof (S0 u Hu) as A. pose proof (S0 v Hv) as B. revert A B. ug. lra. }
  change (pcross (psub b a) (psub c a) = 0). apply (par_trans _ d0); auto. pose proof (Q a b Ha Hb) as Z. revert Z. ug. lra.
Qed.
(** What it means for a polygon to be convex, walked with s. *)
Lemma sided_conv (s : R) (l : list pt) : tsign s -> sided s l -> convex_ccw l \/ convex_cw l.
Proof. intros [-> | ->] H; [left|right]; apply sided_ccw; auto. Qed.

(** In every state a polygon can reach without new vertices, the answer is the
    winding test's unless the chains are misread. *)
Theorem C58_not_misread_partial : forall (s : R) (vs : list pt) (os : list (pop R)) (E : R) (q : pt), let p := prun (poly_from_points vs) os in
  s = 1 \/ s = -1 -> (3 < length (pverts p))%nat -> NoDup (pverts p) -> (forall a b v, In (a, b) (cyc_pairs (pverts p)) -> In v (pverts p) -> 0 <= s * orient a b v) -> spread (pverts p) ->
  ~ misread s (pverts p) -> fst (contains_point E q p) = winding_test (pverts p) q.
Proof.
  intros s vs os E q p Ts L N Sd Sp M. destruct (history_inv vs os) as (H1 & H2 & H3). fold p in H1, H2, H3.
  destruct (convex_routes E q p H1 H2 H3 L) as [R0|(pl & E1 & R0)]; auto. { apply fresh_convex; auto; [apply (sided_conv s); auto|apply nodup_visits; auto]. } rewrite R0.
  destruct (split_exact s _ Ts N Sd Sp) as (pl' & E' & D & _). rewrite E1 in E'. injection E' as <-. auto.
Qed.
Print Assumptions C58_not_misread_partial.
(** Once convexity is known, read from is_convex or declared, the search is used:
    its answers are all those of the winding test if and only if the chains are
    not misread, and all no otherwise. *)
Theorem C58_exact : forall (s : R) (vs : list pt) (E : R),
  s = 1 \/ s = -1 -> (3 < length vs)%nat -> NoDup vs -> (forall a b v, In (a, b) (cyc_pairs vs) -> In v vs -> 0 <= s * orient a b v) -> spread vs ->
  let p := snd (get_is_convex (poly_from_points vs)) in
  exists p0, poly_new vs (Some true) None = Ok p0 /\
  ((forall q, fst (contains_point E q p) = winding_test vs q) <-> ~ misread s vs) /\ ((forall q, fst (contains_point E q p0) = winding_test vs q) <-> ~ misread s vs) /\
  (misread s vs -> (forall q, fst (contains_point E q p) = Ok false /\ fst (contains_point E q p0) = Ok false) /\ exists q, strictly_inside s vs q /\ winding_test vs q = Ok true).
Proof.
  intros s vs E Ts L N Sd Sp p. pose proof (nodup_visits vs N) as V. pose proof (sided_conv s vs Ts Sd) as Cv.
  destruct (split_exact s vs Ts N Sd Sp) as (pl & Epl & G & B). destruct (inside_point s vs Sp Sd Ts) as (qi & Qi).
  assert (Wi : winding_test vs qi = Ok true) by (apply (winding_exact s vs qi Ts Sp Sd); auto).
  assert (PC : forall q, fst (contains_point E q p) = y_monotone_test pl q).
  { intro q. pose proof (fresh_convex vs Cv V Sp) as FC. destruct (history_inv vs [PRead QConvex]) as (H1 & H2 & H3).
    change (prun (poly_from_points vs) [PRead QConvex]) with p in H1, H2, H3.
    assert (VP : pverts p = vs). { change (pverts (prun (poly_from_points vs) [PRead QConvex]) = vs). rewrite prun_verts. reflexivity. }
    assert (YP : exists pl', pypl p = Some pl').
    { destruct (convex_answer vs L) as (c & d & k & EC & FC'). rewrite FC in FC'. injection FC' as <-. assert (DD : last_two_differ vs).
      { destruct (@exists_last _ vs) as (m & y & Em); [destruct vs; [cbn in L; lia|discriminate]|]. destruct (@exists_last _ m) as (m2 & x & Em2); [intros ->; rewrite Em in L; cbn in L; lia|].
        exists m2, x, y. rewrite Em, Em2, <- app_assoc. split; auto. intros ->. rewrite Em, Em2, <- app_assoc in N. cbn [app] in N. apply NoDup_remove_2 in N. apply N. apply in_app_iff. right. left. auto. }
      destruct (classify_core_R vs DD) as (c' & d' & k' & EC' & _ & HD). rewrite EC in EC'. injection EC' as <- <- <-. destruct (HD eq_refl) as [_ HD'].
      destruct d; [exfalso; apply (turns_spread vs N Sp), HD'; auto|]. exists pl. unfold p. change (poly_from_points vs) with (pfresh vs). rewrite (convex_detected vs k pl L EC Epl). reflexivity. }
    destruct YP as [pl' YP]. pose proof (H3 pl' YP) as Z. rewrite VP, Epl in Z. injection Z as <-. rewrite (chains_contains E q p pl); auto; [rewrite VP; auto|].
    apply simple_centroid; auto. rewrite VP. apply convex_simple; auto. }
  destruct (declared_inv vs [] L Cv V Sp) as (p0 & E0 & V0 & H1 & H2 & H3). exists p0. split; auto. cbn [prun fold_left] in H1, H2, H3.
  assert (PD : forall q, fst (contains_point E q p0) = y_monotone_test pl q).
  { intro q. assert (YP : pypl p0 = Some pl). { unfold poly_new, seq_new in E0. rewrite map_vec2_of_R in E0. destruct (Nat.ltb_spec (length vs) 3); [lia|]. unfold cleared in E0. destruct (Nat.ltb_spec 3 (length vs)); [|lia].
      cbn [pconvex bind andb] in E0. rewrite Epl in E0. cbn [bind] in E0. injection E0 as <-. reflexivity. }
    rewrite (chains_contains E q p0 pl); auto; [rewrite V0; auto|]. apply simple_centroid; auto. rewrite V0. apply convex_simple; auto. apply fresh_convex; auto. }
  assert (I : forall r : poly R, (forall q, fst (contains_point E q r) = y_monotone_test pl q) -> (forall q, fst (contains_point E q r) = winding_test vs q) <-> ~ misread s vs).
  { intros r Hr. split; intro H.
    - intro M. specialize (H qi). rewrite Hr, (B M), Wi in H. discriminate.
    - intro q. rewrite Hr. auto. }
  split; [auto|]. split; [auto|]. intro M. split; [intro q; rewrite PC, PD; split; auto|]. exists qi. auto.
Qed.
Print Assumptions C58_exact.
(** The containment answers themselves. *)
Theorem C55_not_misread_partial : forall (s : R) (vs : list pt) (os : list (pop R)) (E : R) (q : pt), let p := prun (poly_from_points vs) os in
  s = 1 \/ s = -1 -> (3 < length (pverts p))%nat -> NoDup (pverts p) -> (forall a b v, In (a, b) (cyc_pairs (pverts p)) -> In v (pverts p) -> 0 <= s * orient a b v) -> spread (pverts p) ->
  ~ misread s (pverts p) -> exact_for s (pverts p) (fun r => fst (contains_point E r p) = Ok true) q.
Proof.
  intros s vs os E q p Ts L N Sd Sp M. assert (W : forall r, fst (contains_point E r p) = winding_test (pverts p) r) by (intro r; apply (C58_not_misread_partial s); auto).
  destruct (winding_exact s (pverts p) q Ts Sp Sd) as (A & B & C). split; [intro H; rewrite W; auto|]. split; [intro H; rewrite W; auto|].
  eapply jrb_impl; [|exact C]. cbn beta. intros r Hr. rewrite W. exact Hr.
Qed.
Print Assumptions C55_not_misread_partial.

(** Clockwise polygons that start at a leftmost vertex are never misread. *)
Lemma left_first (v : pt) (t : list pt) : NoDup (v :: t) -> leftmost (v :: t) v -> ~ misread (-1) (v :: t).
Proof.
  intros N Hl (le & ri & lo & hi & F1 & F2 & F3 & F4 & H).
  assert (le = v) as -> by (apply (first_unique vx (v :: t)); auto; exists [], t; split; auto; split; [intros w []|intros w Hw; apply Hl; right; auto]).
  assert (P : forall w, ~ precedes (v :: t) w v).
  { intros w (a & b & c & E). destruct a as [|x a]; cbn [app] in E; injection E as E1 E2; inversion N as [|? ? N1 _]; subst; apply N1; rewrite in_app_iff; [right; left; auto|right; right; apply in_app_iff; right; left; auto]. }
  destruct H as [[[[_ H]|[H _]] [-> _]]|[[[_ H]|[H _]] ->]]; try lra; apply (P _ H).
Qed.
Theorem C55_left_first_partial : forall (v : pt) (t : list pt) (os : list (pop R)) (E : R) (q : pt), let vs := v :: t in
  (3 < length vs)%nat -> NoDup vs -> convex_cw vs -> spread vs -> leftmost vs v ->
  exists p0, poly_new vs (Some true) None = Ok p0 /\ pverts p0 = vs /\
  (writes vs os = vs -> exact_for (-1) vs (fun r => fst (contains_point E r (prun p0 os)) = Ok true) q /\ exact_for (-1) vs (fun r => fst (contains_point E r (prun (poly_from_points vs) os)) = Ok true) q).
Proof.
  intros v t os E q vs L N Cw Sp Hl. assert (Sd : sided (-1) vs) by (apply sided_ccw; auto). assert (Ts : tsign (-1)) by (right; auto).
  pose proof (left_first v t N Hl) as M. fold vs in M. destruct (declared_inv vs os L (or_intror Cw) (nodup_visits vs N) Sp) as (p0 & E0 & V0 & H1 & H2 & H3).
  exists p0. split; auto. split; auto. intro W. assert (VV : pverts (prun p0 os) = vs) by (rewrite prun_verts, V0; auto).
  split.
  - assert (WT : forall r, fst (contains_point E r (prun p0 os)) = winding_test vs r).
    { intro r. destruct (convex_routes E r (prun p0 os) H1 H2 H3) as [R0|(pl & E1 & R0)]; rewrite ?VV in *; auto; [apply fresh_convex; auto; apply nodup_visits; auto|]. rewrite R0.
      destruct (split_exact (-1) vs Ts N Sd Sp) as (pl' & E' & D & _). rewrite E1 in E'. injection E' as <-. auto. }
    destruct (winding_exact (-1) vs q Ts Sp Sd) as (A & B & C). split; [intro H; rewrite WT; auto|]. split; [intro H; rewrite WT; auto|]. eapply jrb_impl; [|exact C]. cbn beta. intros r Hr. rewrite WT. exact Hr.
  - assert (VF : pverts (prun (poly_from_points vs) os) = vs) by (rewrite prun_verts; auto).
    pose proof (C55_not_misread_partial (-1) vs os E q) as K. cbn zeta in K. rewrite VF in K. apply K; auto.
Qed.
Print Assumptions C55_left_first_partial.

(** The square of C58_refuted is misread; the same square from its second corner is not. *)
Example C58_misread_ex : misread 1 (map zv ccw_square) /\ ~ misread 1 (map zv [(10, 0); (10, 10); (0, 10); (0, 0)]%Z) /\ ~ misread (-1) (map zv [(0, 0); (0, 10); (10, 10); (10, 0)]%Z).
Proof.
  split; [|split].
  - exists (zv (0, 0)%Z), (zv (10, 0)%Z), (zv (0, 0)%Z), (zv (10, 10)%Z). unfold ccw_square. cbn [map].
    split; [|split; [|split; [|split]]].
    + exists [], (map zv [(10, 0); (10, 10); (0, 10)]%Z). split; [reflexivity|]. split; [intros w []|]. intros w Hw. cbn in Hw. pick Hw; subst w; cbn; lra.
    + exists [zv (0, 0)%Z], (map zv [(10, 10); (0, 10)]%Z). split; [reflexivity|]. split; intros w Hw; cbn in Hw; pick Hw; subst w; cbn; lra.
    + exists [], (map zv [(10, 0); (10, 10); (0, 10)]%Z). split; [reflexivity|]. split; [intros w []|]. intros w Hw. cbn in Hw. pick Hw; subst w; cbn; lra.
    + exists (map zv [(0, 0); (10, 0)]%Z), [zv (0, 10)%Z]. split; [reflexivity|]. split; intros w Hw; cbn in Hw; pick Hw; subst w; cbn; lra.
    + right. split; [|reflexivity]. right. split; [lra|]. exists [], [zv (10, 0)%Z], [zv (0, 10)%Z]. reflexivity.
  - intros (le & ri & lo & hi & F1 & F2 & F3 & F4 & H).
    assert (le = zv (0, 10)%Z) as ->. { apply (first_unique vx (map zv [(10, 0); (10, 10); (0, 10); (0, 0)]%Z)); auto. exists (map zv [(10, 0); (10, 10)]%Z), [zv (0, 0)%Z]. split; [reflexivity|]. split; intros w Hw; cbn in Hw; pick Hw; subst w; cbn; lra. }
    assert (lo = zv (10, 0)%Z) as ->. { apply (first_unique vy (map zv [(10, 0); (10, 10); (0, 10); (0, 0)]%Z)); auto. exists [], (map zv [(10, 10); (0, 10); (0, 0)]%Z). split; [reflexivity|]. split; [intros w []|]; intros w Hw; cbn in Hw; pick Hw; subst w; cbn; lra. }
    assert (hi = zv (10, 10)%Z) as ->. { apply (first_unique (fun v => - vy v) (map zv [(10, 0); (10, 10); (0, 10); (0, 0)]%Z)); auto. exists [zv (10, 0)%Z], (map zv [(0, 10); (0, 0)]%Z). split; [reflexivity|]. split; intros w Hw; cbn in Hw; pick Hw; subst w; cbn; lra. }
    destruct H as [[_ [H _]]|[_ H]]; apply zv_inj in H; discriminate.
  - apply (left_first (zv (0, 0)%Z) (map zv [(0, 10); (10, 10); (10, 0)]%Z)); [change (NoDup (map zv [(0, 0); (0, 10); (10, 10); (10, 0)]%Z)); znd|]. split; [left; auto|]. intros w Hw. cbn in Hw. pick Hw; subst w; cbn; lra.
Qed.

(** So reads and copies never change an answer of a convex polygon with distinct
    vertices if and only if it is not misread. *)
Theorem C50_convex_exact : forall (s : R) (vs : list pt), s = 1 \/ s = -1 -> (3 < length vs)%nat -> NoDup vs -> (forall a b v, In (a, b) (cyc_pairs vs) -> In v vs -> 0 <= s * orient a b v) -> spread vs ->
  (forall (os : list (pop R)) (E : R) (q : pt), writes vs os = vs -> fst (contains_point E q (prun (poly_from_points vs) os)) = fst (contains_point E q (poly_from_points vs))) <-> ~ misread s vs.
Proof.
  intros s vs Ts L N Sd Sp. pose proof (nodup_visits vs N) as V. pose proof (sided_conv s vs Ts Sd) as Cv.
  assert (F : forall E q, fst (contains_point E q (poly_from_points vs)) = winding_test vs q).
  { intros E q. destruct (history_inv vs []) as (H1 & H2 & H3). cbn [prun fold_left] in H1, H2, H3. apply (filter_winding E q (poly_from_points vs)); auto; try (intro; discriminate). }
  split; intro H.
  - destruct (C58_exact s vs 0 Ts L N Sd Sp) as (p0 & _ & X & _). apply X. intro q. rewrite <- (F 0 q). apply (H [PRead QConvex] 0 q). reflexivity.
  - intros os E q W. rewrite F. assert (VV : pverts (prun (poly_from_points vs) os) = vs) by (rewrite prun_verts; auto).
    pose proof (C58_not_misread_partial s vs os E q) as K. cbn zeta in K. rewrite VV in K. apply K; auto.
Qed.
Print Assumptions C50_convex_exact.
