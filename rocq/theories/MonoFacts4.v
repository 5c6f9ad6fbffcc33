(** * The split into chains *)
From Coq Require Import ZArith List Bool Arith Lia Permutation Reals Lra Psatz Sorted.
From Verif Require Import Num Vec Affine Box Seq Polygon SpecGeom SpecAffine SpecBox SpecMass SpecWind SpecConvex SpecExtreme RBase VecFacts VecFacts2 AffineFacts PolyCache2 SpecCycle PolyEq CentroidFacts WindFacts
  ConvexFacts ConvexFacts2 ConvexFacts3 ConvexFacts4 MonoFacts MonoFacts2 MonoFacts3.
Import ListNotations.
Local Open Scope R_scope.

(** What the extrema loop finds. *)
Definition ext_ok (vs pre : list pt) (e : @extrema R) : Prop :=
  (exists v, nth_error vs (x_min_i e) = Some v /\ vy v = x_min_y e /\ forall w, In w pre -> x_min_y e <= vy w) /\
  (exists v, nth_error vs (x_max_i e) = Some v /\ vy v = x_max_y e /\ forall w, In w pre -> vy w <= x_max_y e) /\
  (exists v, nth_error vs (x_left_i e) = Some v /\ vx v = x_min_x e /\ forall w, In w pre -> x_min_x e <= vx w) /\
  (exists v, nth_error vs (x_right_i e) = Some v /\ vx v = x_max_x e /\ forall w, In w pre -> vx w <= x_max_x e).
Lemma ext_step_ok vs pre v suf e : vs = pre ++ v :: suf -> ext_ok vs pre e -> ext_ok vs (pre ++ [v]) (ext_step e (length pre, v)).
Proof.
  intros E (H1 & H2 & H3 & H4). assert (N : nth_error vs (length pre) = Some v) by (rewrite E, nth_error_app2, Nat.sub_diag; auto).
  unfold ext_step. rnum.
  assert (Y1 : forall y i, (if Rltb (vy v) (x_min_y e) then (vy v, length pre) else (x_min_y e, x_min_i e)) = (y, i) ->
    exists w, nth_error vs i = Some w /\ vy w = y /\ forall z, In z (pre ++ [v]) -> y <= vy z).
  { intros y i Hyi. destruct (Rltb_spec (vy v) (x_min_y e)); injection Hyi as <- <-; destruct H1 as (w & Hw & Ew & Hm).
    - exists v. split; auto. split; auto. intros z Hz. apply in_app_iff in Hz as [Hz|[<-|[]]]; [|lra]. specialize (Hm z Hz). lra.
    - exists w. split; auto. split; auto. intros z Hz. apply in_app_iff in Hz as [Hz|[<-|[]]]; [|lra]. auto. }
  assert (Y2 : forall y i, (if Rltb (x_max_y e) (vy v) then (vy v, length pre) else (x_max_y e, x_max_i e)) = (y, i) ->
    exists w, nth_error vs i = Some w /\ vy w = y /\ forall z, In z (pre ++ [v]) -> vy z <= y).
  { intros y i Hyi. destruct (Rltb_spec (x_max_y e) (vy v)); injection Hyi as <- <-; destruct H2 as (w & Hw & Ew & Hm).
    - exists v. split; auto. split; auto. intros z Hz. apply in_app_iff in Hz as [Hz|[<-|[]]]; [|lra]. specialize (Hm z Hz). lra.
    - exists w. split; auto. split; auto. intros z Hz. apply in_app_iff in Hz as [Hz|[<-|[]]]; [|lra]. auto. }
  assert (X1 : forall x i, (if Rltb (vx v) (x_min_x e) then (vx v, length pre) else (x_min_x e, x_left_i e)) = (x, i) ->
    exists w, nth_error vs i = Some w /\ vx w = x /\ forall z, In z (pre ++ [v]) -> x <= vx z).
  { intros x i Hxi. destruct (Rltb_spec (vx v) (x_min_x e)); injection Hxi as <- <-; destruct H3 as (w & Hw & Ew & Hm).
    - exists v. split; auto. split; auto. intros z Hz. apply in_app_iff in Hz as [Hz|[<-|[]]]; [|lra]. specialize (Hm z Hz). lra.
    - exists w. split; auto. split; auto. intros z Hz. apply in_app_iff in Hz as [Hz|[<-|[]]]; [|lra]. auto. }
  assert (X2 : forall x i, (if Rltb (x_max_x e) (vx v) then (vx v, length pre) else (x_max_x e, x_right_i e)) = (x, i) ->
    exists w, nth_error vs i = Some w /\ vx w = x /\ forall z, In z (pre ++ [v]) -> vx z <= x).
  { intros x i Hxi. destruct (Rltb_spec (x_max_x e) (vx v)); injection Hxi as <- <-; destruct H4 as (w & Hw & Ew & Hm).
    - exists v. split; auto. split; auto. intros z Hz. apply in_app_iff in Hz as [Hz|[<-|[]]]; [|lra]. specialize (Hm z Hz). lra.
    - exists w. split; auto. split; auto. intros z Hz. apply in_app_iff in Hz as [Hz|[<-|[]]]; [|lra]. auto. }
  destruct (if Rltb (vy v) (x_min_y e) then _ else _) as [y1 i1]. destruct (if Rltb (x_max_y e) (vy v) then _ else _) as [y2 i2].
  destruct (if Rltb (vx v) (x_min_x e) then _ else _) as [x1 j1]. destruct (if Rltb (x_max_x e) (vx v) then _ else _) as [x2 j2].
  unfold ext_ok. cbn [x_min_i x_min_y x_max_i x_max_y x_left_i x_min_x x_right_i x_max_x]. auto.
Qed.
Lemma ext_loop_ok vs suf : forall pre e, vs = pre ++ suf -> ext_ok vs pre e -> ext_ok vs vs (fold_left ext_step (enumerate_from (length pre) suf) e).
Proof.
  induction suf as [|v suf IH]; intros pre e E H; cbn [enumerate_from fold_left].
  - rewrite app_nil_r in E. subst. auto.
  - replace (S (length pre)) with (length (pre ++ [v])) by (rewrite app_length; cbn; lia). apply IH; [rewrite <- app_assoc; auto|]. apply (ext_step_ok vs pre v suf); auto.
Qed.
Lemma find_extrema_ok (vs : list pt) : vs <> [] -> exists e, find_extrema vs = Ok e /\
  (exists v, nth_error vs (x_min_i e) = Some v /\ lowest vs v) /\ (exists v, nth_error vs (x_max_i e) = Some v /\ highest vs v) /\
  (exists v, nth_error vs (x_left_i e) = Some v /\ leftmost vs v) /\ (exists v, nth_error vs (x_right_i e) = Some v /\ rightmost vs v).
Proof.
  intro H. destruct vs as [|v vs]; [contradiction|]. eexists. split; [reflexivity|].
  assert (B : ext_ok (v :: vs) [] (mkExt (vx v) (vx v) (vy v) (vy v) 0 0 0 0)) by (repeat split; exists v; cbn; auto; tauto).
  apply (ext_loop_ok (v :: vs) (v :: vs) []) in B; auto. cbn [length] in B. destruct B as ((a & A1 & A2 & A3) & (b & B1 & B2 & B3) & (c & C1 & C2 & C3) & (d & D1 & D2 & D3)).
  repeat split; [exists a|exists b|exists c|exists d]; (split; [assumption|]); split; try (eapply nth_error_In; eassumption); intros w Hw.
  - rewrite A2. auto.
  - rewrite B2. auto.
  - rewrite C2. auto.
  - rewrite D2. auto.
Qed.

Lemma nth_split2 {X} (l : list X) i j a b : (i < j)%nat -> nth_error l i = Some a -> nth_error l j = Some b -> exists A P B, l = A ++ a :: P ++ b :: B /\ length A = i /\ (length A + 1 + length P = j)%nat.
Proof.
  intros H Ha Hb. apply nth_error_split in Ha as (A & B & -> & LA). rewrite nth_error_app2 in Hb by lia.
  destruct (j - length A)%nat as [|k] eqn:E; [lia|]. cbn in Hb. apply nth_error_split in Hb as (P & C & -> & LP). exists A, P, C. split; auto. split; auto. lia.
Qed.
Lemma firstn_mid {X} (A C : list X) n : n = length A -> firstn n (A ++ C) = A.
Proof. intros ->. rewrite firstn_app, Nat.sub_diag, firstn_all. cbn. apply app_nil_r. Qed.
Lemma skipn_mid {X} (A C : list X) n : n = length A -> skipn n (A ++ C) = C.
Proof. intros ->. rewrite skipn_app, Nat.sub_diag, skipn_all. auto. Qed.
Lemma slice_up {X} (A P B : list X) a b i j : i = length A -> (j = length A + 1 + length P)%nat ->
  firstn (j + 1 - i) (skipn i (A ++ a :: P ++ b :: B)) = a :: P ++ [b] /\ skipn j (A ++ a :: P ++ b :: B) ++ firstn (i + 1) (A ++ a :: P ++ b :: B) = b :: B ++ A ++ [a].
Proof.
  intros -> ->. split.
  - rewrite skipn_mid by auto. replace (a :: P ++ b :: B) with ((a :: P ++ [b]) ++ B) by (cbn [app]; rewrite <- app_assoc; auto). apply firstn_mid. cbn [length]. rewrite app_length. cbn. lia.
  - change (b :: B ++ A ++ [a]) with ((b :: B) ++ (A ++ [a])). f_equal.
    + replace (A ++ a :: P ++ b :: B) with ((A ++ a :: P) ++ b :: B) by (rewrite <- app_assoc; auto). rewrite skipn_mid; [reflexivity|]. rewrite app_length. cbn. lia.
    + replace (A ++ a :: P ++ b :: B) with ((A ++ [a]) ++ P ++ b :: B) by (rewrite <- app_assoc; auto). rewrite firstn_mid; [|rewrite app_length; cbn; lia]. auto.
Qed.
Lemma orient_pl_up (a b : pt) l : vy a <= vy b -> orient_pl (map yx (a :: l ++ [b])) = map yx (a :: l ++ [b]).
Proof.
  intro H. cbn [map orient_pl]. replace (last (yx a :: map yx (l ++ [b])) (yx a)) with (yx b); [unfold yx at 1 2; cbn [fst]; rnum; destruct (Rltb_spec (vy b) (vy a)); auto; lra|].
  rewrite map_app. cbn [map]. rewrite app_comm_cons, last_last. auto.
Qed.
Lemma orient_pl_down (a b : pt) l : vy b < vy a -> orient_pl (map yx (a :: l ++ [b])) = map yx (rev (a :: l ++ [b])).
Proof.
  intro H. rewrite map_rev. cbn [map orient_pl]. replace (last (yx a :: map yx (l ++ [b])) (yx a)) with (yx b); [unfold yx at 1 2; cbn [fst]; rnum; destruct (Rltb_spec (vy b) (vy a)); auto; lra|].
  rewrite map_app. cbn [map]. rewrite app_comm_cons, last_last. auto.
Qed.

(** The chains found by the split. *)
Lemma adj_split {X} (l : list X) : forall x a b, In (a, b) (adj x l) <-> exists c1 c2, x :: l = c1 ++ a :: b :: c2.
Proof.
  induction l as [|y l IH]; intros x a b; cbn [adj].
  - split; [intros []|]. intros (c1 & c2 & E). destruct c1 as [|? [|? ?]]; discriminate.
  - cbn [In]. rewrite IH. split.
    + intros [E|(c1 & c2 & E)]; [injection E as <- <-; exists [], l; auto|exists (x :: c1), c2; rewrite E; auto].
    + intros ([|c c1] & c2 & E); [injection E as <- <- <-; auto|]. right. injection E as -> E. eauto.
Qed.
Lemma rev_pairs {X} (l c1 c2 : list X) a b : rev l = c1 ++ a :: b :: c2 -> l = rev c2 ++ b :: a :: rev c1.
Proof. intro H. rewrite <- (rev_involutive l), H, rev_app_distr. cbn [rev]. rewrite <- !app_assoc. auto. Qed.
Section Split.
  Variables (s : R) (vs : list pt) (lo hi : pt) (p q : list pt).
  Hypothesis Ts : tsign s.
  Hypothesis V : visits_once vs.
  Hypothesis Sd : sided s vs.
  Hypothesis Sp : spread vs.
  Hypothesis Rt : rotated vs (lo :: p ++ hi :: q).
  Hypothesis Lo : lowest vs lo.
  Hypothesis Hi : highest vs hi.
  Let up := lo :: p ++ [hi].
  Let down := rev (hi :: q ++ [lo]).
  Lemma lo_hi : vy lo < vy hi.
  Proof.
    destruct Lo as [_ L], Hi as [_ H]. apply Rnot_le_lt. intro K. destruct Sp as (a & b & c & Ha & Hb & Hc & O). apply O.
    assert (E : forall v, In v vs -> vy v = vy lo) by (intros v Hv; specialize (L v Hv); specialize (H v Hv); lra). ug. rewrite (E a Ha), (E b Hb), (E c Hc). ring.
  Qed.
  Lemma split_asc : asc up /\ asc down.
  Proof.
    apply (climb_cycle s); auto.
    - destruct V as (runs & N & RR). exists runs. split; auto. eapply rotated_trans; [|exact RR]. destruct Rt as (x & y & -> & E). rewrite E. exists y, x. auto.
    - exact (sided_rot s _ _ Rt Sd).
    - exact (spread_rot _ _ Rt Sp).
    - intros v Hv. apply (rot_in _ _ _ Rt) in Hv. destruct Lo as [_ L], Hi as [_ H]. split; auto.
  Qed.
  Lemma split_cyc : forall e, In e (cyc_pairs vs) <-> In e (adj lo (p ++ [hi])) \/ In e (adj hi (q ++ [lo])).
  Proof.
    intro e. rewrite (cyc_rot_in _ _ e Rt). replace (p ++ hi :: q) with ((p ++ [hi]) ++ q) by (rewrite <- app_assoc; auto).
    rewrite cyc_cons, <- app_assoc, adj_app, last_last. apply in_app_iff.
  Qed.
  Lemma split_wnum x : wnum vs x = (csum x up - csum x down)%Z.
  Proof.
    rewrite (wnum_rot vs _ x Rt). unfold wnum. replace (p ++ hi :: q) with ((p ++ [hi]) ++ q) by (rewrite <- app_assoc; auto).
    rewrite cyc_cons, <- app_assoc, adj_app, last_last, map_app, zsum_app. unfold down. rewrite csum_rev. unfold up. cbn [csum]. lia.
  Qed.
  Lemma split_in v : In v vs <-> In v up \/ In v down.
  Proof.
    rewrite (rot_in _ _ v Rt). unfold up, down. rewrite <- in_rev. cbn [In]. rewrite !in_app_iff. cbn [In]. tauto.
  Qed.
  Lemma split_shape : (exists l, up = lo :: l ++ [hi]) /\ (exists l, down = lo :: l ++ [hi]).
  Proof. split; [exists p; auto|]. exists (rev q). unfold down. cbn [rev]. rewrite rev_app_distr. cbn [rev app]. auto. Qed.
  Lemma split_up c1 a b c2 v : up = c1 ++ a :: b :: c2 -> In v vs -> 0 <= s * orient a b v.
  Proof. intros E Hv. apply Sd; auto. apply split_cyc. left. apply adj_split. eauto. Qed.
  Lemma split_down c1 a b c2 v : down = c1 ++ a :: b :: c2 -> In v vs -> s * orient a b v <= 0.
  Proof.
    intros E Hv. apply rev_pairs in E. assert (He : In (b, a) (cyc_pairs vs)). { apply split_cyc. right. apply adj_split. eauto. }
    specialize (Sd b a v He Hv). replace (orient a b v) with (- orient b a v) by (ug; ring). lra.
  Qed.
  Definition lchain : list pt := if Rltb 0 s then down else up.
  Definition rchain : list pt := if Rltb 0 s then up else down.
  Lemma split_chains :
    (forall x, y_monotone_test (map yx lchain, map yx rchain) x = Ok (negb (Z.eqb (wnum vs x) 0)) /\ y_monotone_test (map yx rchain, map yx lchain) x = Ok false) /\
    (forall v, leftmost vs v -> vy lo < vy v < vy hi -> ~ In v rchain) /\ (forall v, rightmost vs v -> vy lo < vy v < vy hi -> ~ In v lchain).
  Proof.
    destruct split_asc as [A1 A2]. destruct split_shape as [S1 S2]. pose proof lo_hi as LH. unfold lchain, rchain. destruct Ts as [Es|Es].
    - destruct (Rltb_spec 0 s); [|lra].
      assert (EL : forall c1 a b c2 v, down = c1 ++ a :: b :: c2 -> In v vs -> orient a b v <= 0). { intros c1 a b c2 v E Hv. pose proof (split_down c1 a b c2 v E Hv) as Q. rewrite Es in Q. lra. }
      assert (ER : forall c1 a b c2 v, up = c1 ++ a :: b :: c2 -> In v vs -> 0 <= orient a b v). { intros c1 a b c2 v E Hv. pose proof (split_up c1 a b c2 v E Hv) as Q. rewrite Es in Q. lra. }
      assert (IN : forall v, In v vs <-> In v down \/ In v up) by (intro v; rewrite split_in; tauto).
      assert (W : forall x, wnum vs x = 0%Z <-> csum x down = csum x up) by (intro x; rewrite split_wnum; lia).
      split; [|split].
      + apply (chains_test vs down up lo hi); auto.
      + apply (leftmost_not_right vs down up lo hi); auto.
      + apply (rightmost_not_left vs down up lo hi); auto.
    - destruct (Rltb_spec 0 s); [lra|].
      assert (EL : forall c1 a b c2 v, up = c1 ++ a :: b :: c2 -> In v vs -> orient a b v <= 0). { intros c1 a b c2 v E Hv. pose proof (split_up c1 a b c2 v E Hv) as Q. rewrite Es in Q. lra. }
      assert (ER : forall c1 a b c2 v, down = c1 ++ a :: b :: c2 -> In v vs -> 0 <= orient a b v). { intros c1 a b c2 v E Hv. pose proof (split_down c1 a b c2 v E Hv) as Q. rewrite Es in Q. lra. }
      pose proof split_in as IN.
      assert (W : forall x, wnum vs x = 0%Z <-> csum x up = csum x down) by (intro x; rewrite split_wnum; lia).
      split; [|split].
      + apply (chains_test vs up down lo hi); auto.
      + apply (leftmost_not_right vs up down lo hi); auto.
      + apply (rightmost_not_left vs up down lo hi); auto.
  Qed.
End Split.
Lemma nth_inner {X} (A P B : list X) a b k v : nth_error (A ++ a :: P ++ b :: B) k = Some v ->
  ((length A <= k <= length A + 1 + length P)%nat -> In v (a :: P ++ [b])) /\ ((k < length A \/ length A + 1 + length P < k)%nat -> In v (B ++ A)).
Proof.
  intro H. split; intro K.
  - rewrite nth_error_app2 in H by lia. replace (a :: P ++ b :: B) with ((a :: P ++ [b]) ++ B) in H by (cbn [app]; rewrite <- app_assoc; auto).
    rewrite nth_error_app1 in H by (cbn [length]; rewrite app_length; cbn; lia). eapply nth_error_In; eauto.
  - apply in_app_iff. destruct K as [K|K].
    + right. rewrite nth_error_app1 in H by lia. eapply nth_error_In; eauto.
    + left. replace (A ++ a :: P ++ b :: B) with ((A ++ a :: P ++ [b]) ++ B) in H by (rewrite <- app_assoc; cbn [app]; rewrite <- app_assoc; auto).
      rewrite nth_error_app2 in H by (rewrite app_length; cbn [length]; rewrite app_length; cbn; lia). eapply nth_error_In; eauto.
Qed.
Lemma corner_level vs lo hi v : corner_free vs -> lowest vs lo -> highest vs hi -> leftmost vs v \/ rightmost vs v -> vy lo < vy v < vy hi.
Proof.
  intros C (L1 & L2) (H1 & H2) Hv. destruct (C v Hv) as [N1 N2]. assert (Iv : In v vs) by (destruct Hv as [[? _]|[? _]]; auto). split; apply Rnot_le_lt; intro K.
  - apply N1. split; auto. intros w Hw. specialize (L2 w Hw). lra.
  - apply N2. split; auto. intros w Hw. specialize (H2 w Hw). lra.
Qed.
Theorem split_agrees (s : R) (vs : list pt) : tsign s -> visits_once vs -> sided s vs -> spread vs ->
  exists pl, split_y_polylines vs = Ok pl /\
    ((forall x, y_monotone_test pl x = winding_test vs x) \/ (forall x, y_monotone_test pl x = Ok false)) /\
    (corner_free vs -> forall x, y_monotone_test pl x = winding_test vs x).
Proof.
  intros Ts V Sd Sp. assert (Ne : vs <> []) by (intros ->; destruct Sp as (? & ? & ? & [] & _)).
  destruct (find_extrema_ok vs Ne) as (e & E & (lo & Elo & Lo) & (hi & Ehi & Hi) & (le & Ele & Le) & (ri & Eri & Ri)).
  unfold split_y_polylines. rewrite E. cbn [bind].
  assert (LH : vy lo < vy hi) by (eapply lo_hi; eauto).
  assert (LA : corner_free vs -> vy lo < vy le < vy hi) by (intro C; apply (corner_level vs); auto).
  assert (RA : corner_free vs -> vy lo < vy ri < vy hi) by (intro C; apply (corner_level vs); auto).
  assert (WT : forall x, Ok (negb (Z.eqb (wnum vs x) 0)) = winding_test vs x) by (intro x; rewrite winding_test_num; auto).
  destruct (Nat.ltb_spec (x_min_i e) (x_max_i e)) as [K|K].
  - destruct (nth_split2 _ _ _ _ _ K Elo Ehi) as (A & P & B & EV & LA0 & LP). symmetry in LA0, LP.
    assert (Rt : rotated vs (lo :: P ++ hi :: (B ++ A))). { exists A, (lo :: P ++ hi :: B). split; auto. cbn [app]. rewrite <- app_assoc. auto. }
    destruct (split_chains s vs lo hi P (B ++ A) Ts V Sd Sp Rt Lo Hi) as (T & NL & NR). unfold lchain, rchain in *.
    assert (S12 := slice_up (map yx A) (map yx P) (map yx B) (yx lo) (yx hi) (x_min_i e) (x_max_i e) ltac:(rewrite map_length; auto) ltac:(rewrite !map_length; auto)).
    rewrite EV in Ele, Eri. apply nth_inner in Ele as [Le1 Le2]. apply nth_inner in Eri as [Ri1 Ri2]. rewrite <- LP, <- LA0 in *.
    assert (EM : map (fun v : pt => (vy v, vx v)) vs = map yx A ++ yx lo :: map yx P ++ yx hi :: map yx B).
    { rewrite EV, map_app. cbn [map]. rewrite map_app. reflexivity. }
    rewrite EM. destruct S12 as [-> S2]. rewrite S2. clear S2 EM.
    replace (yx lo :: map yx P ++ [yx hi]) with (map yx (lo :: P ++ [hi])) by (cbn [map]; rewrite map_app; auto).
    replace (yx hi :: map yx B ++ map yx A ++ [yx lo]) with (map yx (hi :: (B ++ A) ++ [lo])) by (cbn [map]; rewrite !map_app, <- app_assoc; auto).
    rewrite orient_pl_up by lra. rewrite orient_pl_down by lra.
    set (up := lo :: P ++ [hi]) in *. set (down := rev (hi :: (B ++ A) ++ [lo])) in *.
    assert (Dn : forall v, In v (B ++ A) -> In v down). { intros v Hv. unfold down. rewrite <- in_rev. right. apply in_app_iff; auto. }
    set (cond := (_ || _)). exists (if cond then (map yx up, map yx down) else (map yx down, map yx up)). split; [destruct cond; auto|].
    destruct (Rltb_spec 0 s) as [Hs|Hs].
    + split.
      * destruct cond; [right|left]; intro x; destruct (T x) as [T1 T2]; [auto|rewrite <- WT; auto].
      * intro C. assert (cond = false) as ->.
        { subst cond. apply orb_false_iff. split; [apply orb_false_iff; split|].
          - destruct (Nat.leb_spec (x_min_i e) (x_left_i e)); auto. destruct (Nat.ltb_spec (x_left_i e) (x_max_i e)); auto. exfalso. apply (NL le); auto. apply Le1. lia.
          - apply Nat.ltb_ge. apply Nat.le_ngt. intro Z. apply (NR ri); auto.
          - apply Nat.ltb_ge. apply Nat.le_ngt. intro Z. apply (NR ri); auto. }
        intro x. destruct (T x) as [T1 T2]. rewrite <- WT. auto.
    + split.
      * destruct cond; [left|right]; intro x; destruct (T x) as [T1 T2]; [rewrite <- WT; auto|auto].
      * intro C. assert (cond = true) as ->.
        { destruct cond eqn:EC; auto. subst cond. apply orb_false_iff in EC as [EC E3]. apply orb_false_iff in EC as [E1 E2]. exfalso.
          apply Nat.ltb_ge in E2, E3. apply (NR ri); auto. }
        intro x. destruct (T x) as [T1 T2]. rewrite <- WT. auto.
  - assert (K' : (x_max_i e < x_min_i e)%nat). { destruct (Nat.eq_dec (x_max_i e) (x_min_i e)) as [Z|Z]; [|lia]. rewrite Z, Elo in Ehi. injection Ehi as <-. lra. } clear K.
    destruct (nth_split2 _ _ _ _ _ K' Ehi Elo) as (A & P & B & EV & LA0 & LP). symmetry in LA0, LP.
    assert (Rt : rotated vs (lo :: (B ++ A) ++ hi :: P)). { exists (A ++ hi :: P), (lo :: B). split; [rewrite EV, <- app_assoc; auto|]. cbn [app]. rewrite <- app_assoc. auto. }
    destruct (split_chains s vs lo hi (B ++ A) P Ts V Sd Sp Rt Lo Hi) as (T & NL & NR). unfold lchain, rchain in *.
    assert (S12 := slice_up (map yx A) (map yx P) (map yx B) (yx hi) (yx lo) (x_max_i e) (x_min_i e) ltac:(rewrite map_length; auto) ltac:(rewrite !map_length; auto)).
    rewrite EV in Ele, Eri. apply nth_inner in Ele as [Le1 Le2]. apply nth_inner in Eri as [Ri1 Ri2]. rewrite <- LP, <- LA0 in *.
    assert (EM : map (fun v : pt => (vy v, vx v)) vs = map yx A ++ yx hi :: map yx P ++ yx lo :: map yx B).
    { rewrite EV, map_app. cbn [map]. rewrite map_app. reflexivity. }
    rewrite EM. destruct S12 as [-> S2]. rewrite S2. clear S2 EM.
    replace (yx hi :: map yx P ++ [yx lo]) with (map yx (hi :: P ++ [lo])) by (cbn [map]; rewrite map_app; auto).
    replace (yx lo :: map yx B ++ map yx A ++ [yx hi]) with (map yx (lo :: (B ++ A) ++ [hi])) by (cbn [map]; rewrite !map_app, <- app_assoc; auto).
    rewrite (orient_pl_up lo hi) by lra. rewrite orient_pl_down by lra.
    set (up := lo :: (B ++ A) ++ [hi]) in *. set (down := rev (hi :: P ++ [lo])) in *.
    assert (Dn : forall v, In v (hi :: P ++ [lo]) -> In v down). { intros v Hv. unfold down. rewrite <- in_rev. auto. }
    assert (Up : forall v, In v (B ++ A) -> In v up). { intros v Hv. right. apply in_app_iff; auto. }
    set (cond := (_ || _)). exists (if cond then (map yx down, map yx up) else (map yx up, map yx down)). split; [destruct cond; auto|].
    destruct (Rltb_spec 0 s) as [Hs|Hs].
    + split.
      * destruct cond; [left|right]; intro x; destruct (T x) as [T1 T2]; [rewrite <- WT; auto|auto].
      * intro C. assert (cond = true) as ->.
        { destruct cond eqn:EC; auto. subst cond. apply orb_false_iff in EC as [EC E3]. apply orb_false_iff in EC as [E1 E2]. exfalso.
          apply Nat.ltb_ge in E2, E3. apply (NR ri); auto. }
        intro x. destruct (T x) as [T1 T2]. rewrite <- WT. auto.
    + split.
      * destruct cond; [right|left]; intro x; destruct (T x) as [T1 T2]; [auto|rewrite <- WT; auto].
      * intro C. assert (cond = false) as ->.
        { subst cond. apply orb_false_iff. split; [apply orb_false_iff; split|].
          - destruct (Nat.leb_spec (x_left_i e) (x_min_i e)); auto. destruct (Nat.ltb_spec (x_max_i e) (x_left_i e)); auto. exfalso. apply (NL le); auto. apply Dn, Le1. lia.
          - apply Nat.ltb_ge. apply Nat.le_ngt. intro Z. apply (NR ri); auto.
          - apply Nat.ltb_ge. apply Nat.le_ngt. intro Z. apply (NR ri); auto. }
        intro x. destruct (T x) as [T1 T2]. rewrite <- WT. auto.
Qed.
