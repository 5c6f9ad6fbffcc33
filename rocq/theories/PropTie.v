(** * Properties C68 and C93: points on the line of an edge *)
From Coq Require Import ZArith List Bool Reals Lra Lia Psatz.
From Verif Require Import Num Vec Affine Box Seq Polygon Tangent Hull PolyOps SpecGeom SpecAffine SpecMass SpecConvex SpecTangent SpecTie RBase VecFacts VecFacts2 Cost CostFacts CostFacts2 CostFacts4 CostFacts5 CostFacts6
  PolyCache PolyCache2 PolyCache3 PolyCache5 ConvexFacts4 TangentFacts TangentFacts2 TangentFacts3 TangentFacts4 TieFacts BoxFacts2 PropTangent.
Import ListNotations.
Local Open Scope R_scope.

(** ** What the reads of a strictly convex polygon leave *)
Definition known (vs : list pt) (p : poly R) : Prop := pverts p = vs /\ (pconvex p = None \/ pconvex p = Some true /\ pdupe p = Some false).
Section Known.
  Variables (s : R) (vs : list pt).
  Hypothesis SC : strictly_convex s vs.
  Lemma known_classify p : known vs p -> pconvex p = None -> exists p', classify p = Ok p' /\ pverts p' = vs /\ pconvex p' = Some true /\ pdupe p' = Some false /\ psimple p' = Some true.
  Proof.
    intros (EV & _) EC. unfold classify. rewrite EV, (strict_class s vs SC). cbn [bind andb negb]. destruct (split_ok vs) as [pl ->]; [destruct SC as (_ & H & _); destruct vs; [cbn in H; lia|discriminate]|]. cbn [bind].
    eexists. split; [reflexivity|]. cbn [pverts pconvex pdupe psimple]. rewrite Nat.ltb_irrefl. auto.
  Qed.
  Lemma known_convex p : known vs p -> fst (get_is_convex p) = Ok true /\ let p1 := snd (get_is_convex p) in pverts p1 = vs /\ pconvex p1 = Some true /\ pdupe p1 = Some false.
  Proof.
    intro K. unfold get_is_convex. destruct K as (EV & [EC|(EC & ED)]); rewrite EC; [|cbn [fst snd]; auto].
    destruct (known_classify p) as (p' & -> & A & B & C & _); [split; auto|auto|]. rewrite B. cbn [fst snd]. auto.
  Qed.
  Lemma known_after p : pverts p = vs /\ pconvex p = Some true /\ pdupe p = Some false -> known vs p.
  Proof. intros (A & B & C). split; auto. Qed.
  Lemma known_simple p : known vs p -> known vs (snd (get_is_simple p)).
  Proof.
    intro K. destruct (pconvex p) eqn:EC.
    - destruct (kept_simple p) as (A & B & _ & D); [congruence|]. destruct K as (EV & [E|(E1 & E2)]); [congruence|]. split; [congruence|]. right. split; congruence.
    - unfold get_is_simple. destruct (psimple p); [exact K|]. rewrite EC. destruct (known_classify p K EC) as (p' & -> & A & B & C & D). rewrite D. apply known_after. auto.
  Qed.
  Lemma known_bbox p : known vs p -> known vs (snd (get_bbox p)).
  Proof. intro K. destruct (kept_bbox p) as (A & B & _ & D). destruct K as (EV & K). split; [congruence|]. rewrite B, D. exact K. Qed.
  Lemma known_set_centroid p c : known vs p -> known vs (set_centroid p c).
  Proof. intro K. exact K. Qed.
  Lemma known_read r p : known vs p -> known vs (read_state r p).
  Proof.
    intro K. destruct r; cbn [read_state].
    - destruct (known_convex p K) as (_ & H). apply known_after. exact H.
    - apply known_simple; auto.
    - unfold get_centroid. destruct (pcentroid p); [exact K|]. pose proof (known_simple p K) as K1. destruct (get_is_simple p) as [[[|]|] p1]; cbn [snd] in *; auto; try (apply known_set_centroid; auto).
      destruct (centroid_value (pverts p1)); auto; apply known_set_centroid; auto.
    - apply known_bbox; auto.
    - unfold contains_point. cbv zeta. destruct (Nat.eqb _ 3).
      + unfold triangle_test. destruct (ptri p); [exact K|]. destruct (tri_build E (pverts p)) as [[|]|]; exact K.
      + destruct (radial_shortcut p pt) as [[|]|]; try exact K. destruct (pypl p) eqn:EY; [exact K|]. destruct (Nat.eqb _ 4); [exact K|]. pose proof (known_bbox p K) as K1.
        destruct (get_bbox p) as [[b|] p1]; cbn [snd] in *; auto. destruct (box_contains b pt); auto.
    - unfold tangents_to_point. destruct (Nat.ltb _ _); [|exact K]. destruct (known_convex p K) as (_ & H). apply known_after in H. destruct (get_is_convex p) as [[[|]|] p1]; cbn [snd] in *; auto. destruct (pdupe p1) as [[|]|]; auto.
  Qed.
  Lemma known_reads qs : forall p, known vs p -> known vs (preads p qs).
  Proof. induction qs as [|r qs IH]; intros p K; [exact K|]. apply (IH (read_state r p)). apply known_read. exact K. Qed.
  Lemma known_tangents q p : known vs p -> (20 < length vs)%nat -> fst (tangents_to_point q p) =
    (let* i := left_tan_i_convex vs q in let* l := py_get vs i in let* j := right_tan_i_convex vs q in let* r := py_get vs j in Ok (l, r)).
  Proof.
    intros K HL. destruct (known_convex p K) as (A & B & C & D). unfold tangents_to_point. destruct K as (EV & _). rewrite EV. apply Nat.ltb_lt in HL. rewrite HL. destruct (get_is_convex p) as [r p1]. cbn [fst snd] in *. subst r. rewrite D. cbn [fst]. rewrite B. reflexivity.
  Qed.
  Lemma known_tangents_c q p : pverts p = vs /\ pconvex p = Some true /\ pdupe p = Some false -> (20 < length vs)%nat ->
    (snd (tangents_to_point_c q p) <= snd (left_tan_i_convex_c vs q) + snd (right_tan_i_convex_c vs q))%nat /\
    (forall i j l, fst (left_tan_i_convex_c vs q) = Ok i -> py_get vs i = Ok l -> fst (right_tan_i_convex_c vs q) = Ok j -> snd (right_tan_i_convex_c vs q) <= snd (tangents_to_point_c q p))%nat.
  Proof.
    intros (EV & EC & ED) HL. unfold tangents_to_point_c. rewrite EV. apply Nat.ltb_lt in HL. rewrite HL. unfold get_is_convex_c. rewrite EC. steps. rewrite ED. steps. rewrite EV. split.
    - destruct (fst (left_tan_i_convex_c vs q)); [|lia]. steps. destruct (py_get vs _); [|lia]. steps. destruct (fst (right_tan_i_convex_c vs q)); [|lia]. steps. destruct (py_get vs _); steps; lia.
    - intros i j l E1 E2 E3. rewrite E1. steps. rewrite E2. steps. rewrite E3. steps. destruct (py_get vs j); steps; lia.
  Qed.
End Known.
Lemma known_fresh vs : (3 < length vs)%nat -> known vs (poly_from_points vs).
Proof. intro H. unfold poly_from_points, pfresh, cleared. apply Nat.ltb_lt in H. rewrite ?H. split; [reflexivity|left; reflexivity]. Qed.
Lemma known_after_read s vs qs : strictly_convex s vs -> (3 < length vs)%nat -> let p := preads (snd (get_is_convex (poly_from_points vs))) qs in pverts p = vs /\ pconvex p = Some true /\ pdupe p = Some false.
Proof.
  intros SC HL p. destruct (known_convex s vs SC (poly_from_points vs) (known_fresh vs HL)) as (_ & A & B & C). set (p0 := snd (get_is_convex (poly_from_points vs))) in *.
  destruct (kept_reads qs p0) as (A' & B' & _ & D'); [congruence|]. unfold p. split; [congruence|]. split; congruence.
Qed.

(** ** C68 *)
(** Both tangents are right whenever the right tangent touches the polygon in
    one vertex; nothing is asked of the other edges. *)
Theorem C68_right_alone_partial : forall (s : R) (q : pt) (p : poly R), strictly_convex s (pverts p) -> beyond_edge s (pverts p) q -> right_alone (pverts p) q ->
  exists l r, fst (tangents_to_point q p) = Ok (l, r) /\ left_support (pverts p) q l /\ right_support (pverts p) q r.
Proof.
  intros s q p SC BE AL. pose proof (beyond_outside s _ q SC BE) as HO. assert (Hn : (3 <= length (pverts p))%nat) by apply SC.
  destruct (tangent_routes q p) as [->|(_ & ->)]; [lia|apply scan_supports; [lia|exact HO]|].
  destruct HO as (d & FR). destruct (left_finds s (pverts p) q d SC FR) as (i & -> & Hi & Mi). destruct (right_i_alone s (pverts p) q d SC FR AL) as (j & EJ & Hj & Mj & _). rewrite right_i_erase in EJ. rewrite EJ.
  cbn [bind]. rewrite !vat_get by lia. cbn [bind]. exists (vat (pverts p) i), (vat (pverts p) j). split; [reflexivity|]. split.
  - split; [apply vat_in; lia|]. intros v Hv. destruct (vat_onto (pverts p) ltac:(lia) v Hv) as (k & Hk & ->). apply (t_le s _ q d SC FR), Mi.
  - apply (support_min s _ q d SC FR). exact Mj.
Qed.
Print Assumptions C68_right_alone_partial.
(** The earlier hypothesis is a special case. *)
Theorem C68_off_lines_alone : forall (s : R) (vs : list pt) (q : pt), strictly_convex s vs -> beyond_edge s vs q -> off_edge_lines vs q -> right_alone vs q.
Proof.
  intros s vs q SC BE OFF. destruct (beyond_outside s _ q SC BE) as (d & FR). assert (Hn : (3 <= length vs)%nat) by apply SC. destruct (norm_arcs s vs q d SC FR) as (i & m & A & Hm). pose proof (a_im _ _ _ _ A) as IM.
  assert (U : forall r, right_support vs q r -> r = vat vs m).
  { intros r HR. destruct (vat_onto vs ltac:(lia) r (proj1 HR)) as (k & Hk & ->). destruct (proj1 (support_min s vs q d SC FR k) HR m) as [C|E]; [pose proof (arc_min _ _ _ _ A k); lra|].
    destruct (norm_into _ _ _ _ A k (i + 1)) as (z & Hz). rewrite <- (per_mul _ _ _ _ A k z) in E. set (k' := (k + z * Z.of_nat (length vs))%Z) in *.
    assert (NT : forall j, tat vs q d j <> tat vs q d (j + 1)).
    { intros j Ej. apply (t_zero s _ q d SC FR) in Ej. apply (OFF (vat vs j) (vat vs (j + 1))); [apply vat_edge; lia|]. rewrite <- Ej. unfold orient, pcross, psub. cbn [vx vy]. ring. }
    assert (k' = m).
    { destruct (Z.lt_trichotomy k' m) as [L|[L|L]]; auto; exfalso.
      - assert (tat vs q d m <= tat vs q d (k' + 1)) by (apply (arc_min _ _ _ _ A)). pose proof (a_down _ _ _ _ A k' ltac:(lia)). pose proof (NT k'). lra.
      - pose proof (arc_up _ _ _ _ A m k' ltac:(lia) ltac:(lia)). lra. }
    rewrite <- H. unfold k'. unfold vat. rewrite Z.mod_add by lia. reflexivity. }
  intros r r' H H'. rewrite (U r H), (U r' H'). reflexivity.
Qed.
Print Assumptions C68_off_lines_alone.

Lemma index_vat (vs : list pt) (m : nat) : (3 <= length vs)%nat -> (m < length vs)%nat -> vat vs (Z.of_nat m) = nth m vs porigin /\ vat vs (Z.of_nat m - 1) = nth ((m + length vs - 1) mod length vs) vs porigin.
Proof.
  intros H3 Hm. split; unfold vat.
  - rewrite Z.mod_small, Nat2Z.id by lia. reflexivity.
  - f_equal. destruct m as [|m].
    + replace (0 + length vs - 1)%nat with (length vs - 1)%nat by lia. rewrite Nat.mod_small by lia. rewrite <- (Z.mod_add _ 1) by lia. rewrite Z.mod_small by lia. lia.
    + replace (S m + length vs - 1)%nat with (m + 1 * length vs)%nat by lia. rewrite Nat.mod_add, Nat.mod_small by lia. rewrite Z.mod_small by lia. lia.
Qed.
Lemma tie_run (s : R) (vs : list pt) (q : pt) (m : nat) : strictly_convex s vs -> (20 < length vs)%nat -> beyond_edge s vs q -> (m < length vs)%nat ->
  right_support vs q (nth m vs porigin) -> right_support vs q (nth ((m + length vs - 1) mod length vs) vs porigin) ->
  exists i j, left_tan_i_convex vs q = Ok i /\ py_get vs i = Ok (vat vs i) /\ left_support vs q (vat vs i) /\
    fst (right_tan_i_convex_c vs q) = Ok j /\ py_get vs j = Ok (vat vs j) /\ (snd (left_tan_i_convex_c vs q) <= S (Nat.log2 (length vs)))%nat /\
    ((S m = length vs \/ (0 < m)%nat /\ halving_meets (length vs) (-1) (Z.of_nat (length vs) - 1) (Z.of_nat m) = true) /\ right_support vs q (vat vs j) /\ (snd (right_tan_i_convex_c vs q) <= S (Nat.log2 (length vs)))%nat \/
     ~ (S m = length vs \/ (0 < m)%nat /\ halving_meets (length vs) (-1) (Z.of_nat (length vs) - 1) (Z.of_nat m) = true) /\ ~ right_support vs q (vat vs j) /\ snd (right_tan_i_convex_c vs q) = length vs).
Proof.
  intros SC HL BE Hm S1 S2. assert (H3 : (3 <= length vs)%nat) by lia. destruct (index_vat vs m H3 Hm) as (I1 & I2). rewrite <- I1 in S1. rewrite <- I2 in S2. destruct (beyond_outside s _ q SC BE) as (d & FR).
  destruct (left_finds s vs q d SC FR) as (i & EI & Hi & Mi). set (n := Z.of_nat (length vs)) in *.
  assert (LS : left_support vs q (vat vs i)). { split; [apply vat_in; lia|]. intros v Hv. destruct (vat_onto vs ltac:(lia) v Hv) as (k & Hk & ->). apply (t_le s _ q d SC FR), Mi. }
  pose proof (proj1 (support_min s vs q d SC FR _) S1) as M1. pose proof (proj1 (support_min s vs q d SC FR _) S2) as M2.
  set (mm := if Nat.eqb (S m) (length vs) then (-1)%Z else Z.of_nat m).
  assert (PM : forall k, tat vs q d (mm + k) = tat vs q d (Z.of_nat m + k)).
  { intro k. unfold mm. destruct (Nat.eqb_spec (S m) (length vs)) as [E|NE]; [|reflexivity]. rewrite <- (t_per s vs q d SC (-1 + k)). f_equal. lia. }
  assert (P0 : tat vs q d mm = tat vs q d (Z.of_nat m)) by (pose proof (PM 0%Z) as K; rewrite !Z.add_0_r in K; exact K).
  assert (P1 : tat vs q d (mm - 1) = tat vs q d (Z.of_nat m - 1)) by (exact (PM (-1)%Z)).
  assert (R0 : (-1 <= mm <= n - 2)%Z) by (unfold mm; destruct (Nat.eqb_spec (S m) (length vs)); lia).
  pose proof (right_i_tie s vs q d SC FR mm R0) as K. fold n in K. rewrite P0, P1 in K. specialize (K M1 ltac:(pose proof (M1 (Z.of_nat m - 1)%Z); pose proof (M2 (Z.of_nat m)); lra) ltac:(lia)). cbv zeta in K.
  assert (COND : ((mm =? -1) || negb (mm =? 0) && halving_meets (length vs) (-1) (n - 1) mm)%Z = true <-> (S m = length vs \/ (0 < m)%nat /\ halving_meets (length vs) (-1) (n - 1) (Z.of_nat m) = true)).
  { unfold mm. destruct (Nat.eqb_spec (S m) (length vs)) as [E|NE]; [cbn; tauto|]. rewrite orb_true_iff, andb_true_iff, negb_true_iff, Z.eqb_eq, Z.eqb_neq. intuition lia. }
  pose proof (left_i_log s vs q d SC FR) as LL.
  destruct ((mm =? -1) || negb (mm =? 0) && halving_meets (length vs) (-1) (n - 1) mm)%Z eqn:EC.
  - destruct K as (K1 & K2). exists i, mm. split; [exact EI|]. split; [apply vat_get; lia|]. split; [exact LS|]. split; [exact K1|]. split; [apply vat_get; lia|]. split; [exact LL|]. left. split; [apply COND; reflexivity|]. split; [|exact K2].
    apply (support_min s vs q d SC FR). rewrite P0. exact M1.
  - destruct K as (K1 & x & K2 & K3 & K4). exists i, x. split; [exact EI|]. split; [apply vat_get; lia|]. split; [exact LS|]. split; [exact K2|]. split; [apply vat_get; lia|]. split; [exact LL|]. right. split; [intro C; apply COND in C; discriminate|]. split; [|exact K1].
    intro C. pose proof (proj1 (support_min s vs q d SC FR _) C (Z.of_nat m)). lra.
Qed.
(** When the right tangent runs along the edge that ends in vertex m, the
    answer is right exactly if m is the last vertex, or not the first and met
    in time by halving the positions; whatever was read before. *)
Theorem C68_tie_exact : forall (s : R) (vs : list pt) (q : pt) (qs : list (pread R)) (m : nat), strictly_convex s vs -> (20 < length vs)%nat -> beyond_edge s vs q -> (m < length vs)%nat ->
  right_support vs q (nth m vs porigin) -> right_support vs q (nth ((m + length vs - 1) mod length vs) vs porigin) ->
  exists l r, fst (tangents_to_point q (preads (poly_from_points vs) qs)) = Ok (l, r) /\ left_support vs q l /\
    (right_support vs q r <-> S m = length vs \/ (0 < m)%nat /\ halving_meets (length vs) (-1) (Z.of_nat (length vs) - 1) (Z.of_nat m) = true).
Proof.
  intros s vs q qs m SC HL BE Hm S1 S2. destruct (tie_run s vs q m SC HL BE Hm S1 S2) as (i & j & E1 & E2 & LS & E3 & E4 & _ & K). exists (vat vs i), (vat vs j).
  rewrite (known_tangents s vs SC q _ (known_reads s vs SC qs _ (known_fresh vs ltac:(lia))) HL), E1. cbn [bind]. rewrite E2. cbn [bind]. rewrite right_i_erase in E3. rewrite E3. cbn [bind]. rewrite E4. split; [reflexivity|]. split; [exact LS|]. tauto.
Qed.
Print Assumptions C68_tie_exact.
(** So it is wrong for the closing edge and for the edge into the middle
    vertex of every strictly convex polygon with more than 20 vertices. *)
Theorem C68_two_edges_refuted : forall (s : R) (vs : list pt) (q : pt) (qs : list (pread R)) (m : nat), strictly_convex s vs -> (20 < length vs)%nat -> beyond_edge s vs q -> m = 0%nat \/ m = Nat.div2 (length vs) ->
  right_support vs q (nth m vs porigin) -> right_support vs q (nth ((m + length vs - 1) mod length vs) vs porigin) ->
  exists l r, fst (tangents_to_point q (preads (poly_from_points vs) qs)) = Ok (l, r) /\ In r vs /\ ~ right_support vs q r.
Proof.
  intros s vs q qs m SC HL BE Hm S1 S2. assert (D2 : (2 * Nat.div2 (length vs) <= length vs <= 2 * Nat.div2 (length vs) + 1)%nat) by (pose proof (Nat.div2_odd (length vs)) as E; destruct (Nat.odd (length vs)); cbn [Nat.b2n] in E; lia).
  assert (Hm' : (m < length vs)%nat) by (destruct Hm as [-> | ->]; lia).
  destruct (C68_tie_exact s vs q qs m SC HL BE Hm' S1 S2) as (l & r & E & _ & K). exists l, r. split; [exact E|].
  destruct (C68_vertices q (preads (poly_from_points vs) qs)) as (l' & r' & E' & _ & I'). { rewrite (proj1 (known_reads s vs SC qs _ (known_fresh vs ltac:(lia)))). lia. }
  rewrite E in E'. injection E' as <- <-. rewrite (proj1 (known_reads s vs SC qs _ (known_fresh vs ltac:(lia)))) in I'. split; [exact I'|]. rewrite K. intros [C|(C1 & C2)]; [destruct Hm as [-> | ->]; lia|]. destruct Hm as [->|Hm]; [lia|].
  revert C2. destruct (length vs) as [|n'] eqn:EL; [lia|]. cbn [halving_meets]. set (n := S n') in *. clearbody n. assert (EC : ((-1 + (Z.of_nat n - 1)) / 2 = Z.of_nat m - 1)%Z). { replace (-1 + (Z.of_nat n - 1))%Z with (Z.of_nat n - 2)%Z by lia. symmetry. apply Z.div_unique with (r := (Z.of_nat n - 2 * Z.of_nat m)%Z); lia. }
  rewrite EC. destruct (Z.eqb_spec (Z.of_nat m - 1) (Z.of_nat m)); [lia|]. rewrite Z.eqb_refl. intro C2. apply Z.leb_le in C2. lia.
Qed.
Print Assumptions C68_two_edges_refuted.

(** ** C93 *)
(** Logarithmic once is_convex was read, if the right tangent touches in one
    vertex. *)
Theorem C93_tangents_alone_partial : forall (s : R) (vs : list pt) (qs : list (pread R)) (q : pt), strictly_convex s vs -> (20 < length vs)%nat -> beyond_edge s vs q -> right_alone vs q ->
  (snd (tangents_to_point_c q (preads (snd (get_is_convex (poly_from_points vs))) qs)) <= 2 * S (Nat.log2 (length vs)))%nat.
Proof.
  intros s vs qs q SC HL BE AL. destruct (known_tangents_c vs q _ (known_after_read s vs qs SC ltac:(lia)) HL) as (K & _). destruct (beyond_outside s _ q SC BE) as (d & FR).
  pose proof (left_i_log s vs q d SC FR) as A. destruct (right_i_alone s vs q d SC FR AL) as (_ & _ & _ & _ & B). lia.
Qed.
Print Assumptions C93_tangents_alone_partial.
(** With two vertices on the right tangent: logarithmic if the answer is
    right, and n steps or more if it is wrong. *)
Theorem C93_tangents_tie : forall (s : R) (vs : list pt) (qs : list (pread R)) (q : pt) (m : nat), strictly_convex s vs -> (20 < length vs)%nat -> beyond_edge s vs q -> (m < length vs)%nat ->
  right_support vs q (nth m vs porigin) -> right_support vs q (nth ((m + length vs - 1) mod length vs) vs porigin) ->
  let c := snd (tangents_to_point_c q (preads (snd (get_is_convex (poly_from_points vs))) qs)) in
  exists l r, fst (tangents_to_point q (preads (snd (get_is_convex (poly_from_points vs))) qs)) = Ok (l, r) /\
    (right_support vs q r -> (c <= 2 * S (Nat.log2 (length vs)))%nat) /\ (~ right_support vs q r -> (length vs <= c <= length vs + S (Nat.log2 (length vs)))%nat).
Proof.
  intros s vs qs q m SC HL BE Hm S1 S2 c. destruct (tie_run s vs q m SC HL BE Hm S1 S2) as (i & j & E1 & E2 & LS & E3 & E4 & LL & K). exists (vat vs i), (vat vs j).
  pose proof (known_after_read s vs qs SC ltac:(lia)) as KA. cbv zeta in KA. destruct (known_tangents_c vs q _ KA HL) as (U & W). fold c in U, W. split.
  - rewrite (known_tangents s vs SC q _ (known_after vs _ KA) HL), E1. cbn [bind]. rewrite E2. cbn [bind]. rewrite right_i_erase in E3. rewrite E3. cbn [bind]. rewrite E4. reflexivity.
  - rewrite <- left_i_erase in E1. pose proof (W i j _ E1 E2 E3) as W'. split; intro HR; destruct K as [(_ & K1 & K2)|(_ & K1 & K2)]; try contradiction; lia.
Qed.
Print Assumptions C93_tangents_tie.
(** For every n above 20 there is a strictly convex polygon and a point for
    which n steps are taken however often its convexity was read. *)
Definition bowl_far (n : nat) : pt := mkV (INR n) (INR n * INR (n - 1)).
Lemma bowl_far_tie n : (3 <= n)%nat -> beyond_edge 1 (bowl n) (bowl_far n) /\ right_support (bowl n) (bowl_far n) (nth 0 (bowl n) porigin) /\ right_support (bowl n) (bowl_far n) (nth ((0 + length (bowl n) - 1) mod length (bowl n)) (bowl n) porigin).
Proof.
  intro Hn. set (k := (n - 1)%nat). assert (EN : n = S k) by (unfold k; lia). assert (K1 : 1 < INR k) by (change 1 with (INR 1); apply lt_INR; lia).
  assert (NT : forall i, (i < n)%nat -> nth i (bowl n) porigin = bowl_at i) by (intros i Hi; unfold bowl; rewrite nth_indep with (d' := bowl_at 0) by (rewrite map_length, seq_length; lia); rewrite map_nth, seq_nth by lia; reflexivity).
  assert (FN : bowl_far n = mkV (INR k + 1) ((INR k + 1) * INR k)) by (unfold bowl_far; fold k; rewrite EN, S_INR; reflexivity).
  split; [|split].
  - exists (bowl_at (k - 1)), (bowl_at k). split.
    + pose proof (bowl_length n) as BL. pose proof (vat_edge (bowl n) ltac:(lia) (Z.of_nat (k - 1))) as K. replace (Z.of_nat (k - 1) + 1)%Z with (Z.of_nat k) in K by lia.
      rewrite (proj1 (index_vat (bowl n) (k - 1) ltac:(lia) ltac:(lia))), (proj1 (index_vat (bowl n) k ltac:(lia) ltac:(lia))), !NT in K by lia. exact K.
    + rewrite FN. unfold bowl_at. rewrite minus_INR by lia. ug. cbn [INR]. nra.
  - rewrite NT by lia. split; [apply in_map, in_seq; lia|]. intros v Hv. apply bowl_in in Hv as (j & Hj & ->). assert (J1 : 0 <= INR j <= INR k) by (split; [apply pos_INR|apply le_INR; lia]). rewrite FN. unfold bowl_at. ug. cbn [INR].
    match goal with |- 0 <= ?x => replace x with ((INR k + 1) * (INR j * (INR k - INR j))) by ring end. apply Rmult_le_pos; [lra|apply Rmult_le_pos; lra].
  - rewrite bowl_length. replace (0 + n - 1)%nat with k by (unfold k; lia). rewrite Nat.mod_small by lia. rewrite NT by lia. split; [apply in_map, in_seq; lia|]. intros v Hv. apply bowl_in in Hv as (j & Hj & ->). assert (J1 : 0 <= INR j <= INR k) by (split; [apply pos_INR|apply le_INR; lia]). rewrite FN. unfold bowl_at. ug.
    match goal with |- 0 <= ?x => replace x with (INR j * (INR k - INR j)) by ring end. apply Rmult_le_pos; lra.
Qed.
Theorem C93_tangents_edge_refuted : forall n, (20 < n)%nat -> exists (vs : list pt) (q : pt), length vs = n /\ strictly_convex 1 vs /\ beyond_edge 1 vs q /\
  forall qs : list (pread R), (n <= snd (tangents_to_point_c q (preads (snd (get_is_convex (poly_from_points vs))) qs)))%nat.
Proof.
  intros n Hn. exists (bowl n), (bowl_far n). pose proof (bowl_length n) as BL. assert (HL : (20 < length (bowl n))%nat) by (rewrite bowl_length; lia). assert (HL3 : (3 < length (bowl n))%nat) by (rewrite bowl_length; lia). assert (HL0 : (0 < length (bowl n))%nat) by (rewrite bowl_length; lia). pose proof (bowl_strict n ltac:(lia)) as SC. destruct (bowl_far_tie n ltac:(lia)) as (BE & S1 & S2). split; [exact BL|]. split; [exact SC|]. split; [exact BE|].
  intro qs. destruct (C93_tangents_tie 1 (bowl n) qs (bowl_far n) 0%nat SC HL BE HL0 S1 S2) as (l & r & E & _ & W).
  assert (KA := known_after_read 1 (bowl n) qs SC HL3). cbv zeta in KA. rewrite (known_tangents 1 (bowl n) SC _ _ (known_after _ _ KA) HL) in E.
  destruct (C68_two_edges_refuted 1 (bowl n) (bowl_far n) [] 0%nat SC HL BE ltac:(auto) S1 S2) as (l' & r' & E' & _ & NR).
  rewrite (known_tangents 1 (bowl n) SC _ _ (known_reads 1 _ SC [] _ (known_fresh _ HL3)) HL) in E'. rewrite E in E'. injection E' as <- <-. specialize (W NR). lia.
Qed.
Print Assumptions C93_tangents_edge_refuted.

(** ** Cases *)
Example C68_ex_tie : strictly_convex 1 (bowl 25) /\ (20 < length (bowl 25))%nat /\ beyond_edge 1 (bowl 25) (bowl_far 25) /\ right_support (bowl 25) (bowl_far 25) (nth 0 (bowl 25) porigin) /\
  right_support (bowl 25) (bowl_far 25) (nth ((0 + length (bowl 25) - 1) mod length (bowl 25)) (bowl 25) porigin).
Proof. split; [apply bowl_strict; lia|]. split; [rewrite bowl_length; lia|]. apply bowl_far_tie. lia. Qed.
(** A point on the line of an edge whose right tangent touches one vertex. *)
Example C68_ex_alone : right_alone (bowl 25) (mkV (5/4) (5/4)) /\ beyond_edge 1 (bowl 25) (mkV (5/4) (5/4)) /\ ~ off_edge_lines (bowl 25) (mkV (5/4) (5/4)).
Proof.
  split; [|split].
  - assert (U : forall r, right_support (bowl 25) (mkV (5/4) (5/4)) r -> r = bowl_at 2).
    { intros r (I & H). apply bowl_in in I as (j & Hj & ->). specialize (H (bowl_at 2) ltac:(apply in_map, in_seq; lia)). f_equal.
      replace (orient (mkV (5/4) (5/4)) (bowl_at j) (bowl_at 2)) with (- ((INR j - 2) * (3 * INR j - 5) / 4)) in H by (unfold bowl_at; ug; cbn [INR]; field).
      destruct (Nat.eq_dec j 2) as [|NJ]; auto. exfalso. destruct (le_lt_dec 3 j) as [L|L]; [apply le_INR in L; cbn [INR] in L; nra|]. assert (L' : (j <= 1)%nat) by lia. apply le_INR in L'. cbn [INR] in L'. nra. }
    intros r r' H H'. rewrite (U r H), (U r' H'). reflexivity.
  - exists (bowl_at 1), (bowl_at 2). split; [unfold bowl; right; left; reflexivity|]. unfold bowl_at. ug. cbn [INR]. lra.
  - intro C. apply (C (bowl_at 0) (bowl_at 1)); [unfold bowl; left; reflexivity|]. unfold bowl_at. ug. cbn [INR]. lra.
Qed.
