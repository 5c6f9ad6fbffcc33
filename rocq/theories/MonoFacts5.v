(** * When the chains are told apart correctly *)
From Coq Require Import ZArith List Bool Arith Lia Permutation Reals Lra Psatz Sorted.
From Verif Require Import Num Vec Affine Box Seq Polygon SpecGeom SpecAffine SpecBox SpecMass SpecWind SpecConvex SpecExtreme SpecSplit RBase VecFacts VecFacts2 AffineFacts PolyCache2 SpecCycle PolyEq CentroidFacts WindFacts
  ConvexFacts ConvexFacts2 ConvexFacts3 ConvexFacts4 MonoFacts MonoFacts2 MonoFacts3 MonoFacts4.
Import ListNotations.
Local Open Scope R_scope.

(** The extrema loop finds the first of several extreme vertices. *)
Definition ext_first (vs : list pt) (e : @extrema R) : Prop :=
  (forall k w, (k < x_min_i e)%nat -> nth_error vs k = Some w -> x_min_y e < vy w) /\ (forall k w, (k < x_max_i e)%nat -> nth_error vs k = Some w -> vy w < x_max_y e) /\
  (forall k w, (k < x_left_i e)%nat -> nth_error vs k = Some w -> x_min_x e < vx w) /\ (forall k w, (k < x_right_i e)%nat -> nth_error vs k = Some w -> vx w < x_max_x e).
Lemma ext_step_first vs pre v suf e : vs = pre ++ v :: suf -> ext_ok vs pre e -> ext_first vs e -> ext_first vs (ext_step e (length pre, v)).
Proof.
  intros E ((u1 & _ & _ & O1) & (u2 & _ & _ & O2) & (u3 & _ & _ & O3) & (u4 & _ & _ & O4)) (H1 & H2 & H3 & H4).
  assert (P : forall k w, (k < length pre)%nat -> nth_error vs k = Some w -> In w pre). { intros k w K N. rewrite E, nth_error_app1 in N by auto. eapply nth_error_In; eauto. }
  unfold ext_step. rnum.
  assert (Y1 : forall y i, (if Rltb (vy v) (x_min_y e) then (vy v, length pre) else (x_min_y e, x_min_i e)) = (y, i) -> forall k w, (k < i)%nat -> nth_error vs k = Some w -> y < vy w).
  { intros y i Hyi. destruct (Rltb_spec (vy v) (x_min_y e)); injection Hyi as <- <-; auto. intros k w K N. specialize (O1 w (P k w K N)). lra. }
  assert (Y2 : forall y i, (if Rltb (x_max_y e) (vy v) then (vy v, length pre) else (x_max_y e, x_max_i e)) = (y, i) -> forall k w, (k < i)%nat -> nth_error vs k = Some w -> vy w < y).
  { intros y i Hyi. destruct (Rltb_spec (x_max_y e) (vy v)); injection Hyi as <- <-; auto. intros k w K N. specialize (O2 w (P k w K N)). lra. }
  assert (X1 : forall y i, (if Rltb (vx v) (x_min_x e) then (vx v, length pre) else (x_min_x e, x_left_i e)) = (y, i) -> forall k w, (k < i)%nat -> nth_error vs k = Some w -> y < vx w).
  { intros y i Hyi. destruct (Rltb_spec (vx v) (x_min_x e)); injection Hyi as <- <-; auto. intros k w K N. specialize (O3 w (P k w K N)). lra. }
  assert (X2 : forall y i, (if Rltb (x_max_x e) (vx v) then (vx v, length pre) else (x_max_x e, x_right_i e)) = (y, i) -> forall k w, (k < i)%nat -> nth_error vs k = Some w -> vx w < y).
  { intros y i Hyi. destruct (Rltb_spec (x_max_x e) (vx v)); injection Hyi as <- <-; auto. intros k w K N. specialize (O4 w (P k w K N)). lra. }
  destruct (if Rltb (vy v) (x_min_y e) then _ else _) as [y1 i1]. destruct (if Rltb (x_max_y e) (vy v) then _ else _) as [y2 i2].
  destruct (if Rltb (vx v) (x_min_x e) then _ else _) as [x1 j1]. destruct (if Rltb (x_max_x e) (vx v) then _ else _) as [x2 j2].
  unfold ext_first. cbn [x_min_i x_min_y x_max_i x_max_y x_left_i x_min_x x_right_i x_max_x].
  exact (conj (Y1 _ _ eq_refl) (conj (Y2 _ _ eq_refl) (conj (X1 _ _ eq_refl) (X2 _ _ eq_refl)))).
Qed.
Lemma ext_loop_first vs suf : forall pre e, vs = pre ++ suf -> ext_ok vs pre e -> ext_first vs e ->
  let e' := fold_left ext_step (enumerate_from (length pre) suf) e in ext_ok vs vs e' /\ ext_first vs e'.
Proof.
  induction suf as [|v suf IH]; intros pre e E H F; cbn [enumerate_from fold_left].
  - rewrite app_nil_r in E. subst. auto.
  - replace (S (length pre)) with (length (pre ++ [v])) by (rewrite app_length; cbn; lia). apply IH; [rewrite <- app_assoc; auto| |].
    + apply (ext_step_ok vs pre v suf); auto.
    + apply (ext_step_first vs pre v suf); auto.
Qed.
Lemma first_at (key : pt -> R) (vs : list pt) i v : nth_error vs i = Some v -> (forall w, In w vs -> key v <= key w) -> (forall k w, (k < i)%nat -> nth_error vs k = Some w -> key v < key w) -> first_least key vs v.
Proof.
  intros N L F. destruct (nth_error_split vs i N) as (a & b & E & La). exists a, b. split; auto. split.
  - intros w Hw. apply In_nth_error in Hw as [k Hk]. assert (K : (k < length a)%nat) by (apply nth_error_Some; congruence). apply (F k); [lia|]. rewrite E, nth_error_app1 by auto. auto.
  - intros w Hw. apply L. rewrite E. apply in_app_iff. right. right. auto.
Qed.
Lemma find_extrema_first (vs : list pt) : vs <> [] -> exists e, find_extrema vs = Ok e /\
  (exists v, nth_error vs (x_min_i e) = Some v /\ lowest vs v /\ first_least vy vs v) /\ (exists v, nth_error vs (x_max_i e) = Some v /\ highest vs v /\ first_least (fun w => - vy w) vs v) /\
  (exists v, nth_error vs (x_left_i e) = Some v /\ leftmost vs v /\ first_least vx vs v) /\ (exists v, nth_error vs (x_right_i e) = Some v /\ rightmost vs v /\ first_least (fun w => - vx w) vs v).
Proof.
  intro H. destruct vs as [|v vs]; [contradiction|]. eexists. split; [reflexivity|].
  assert (B : ext_ok (v :: vs) [] (mkExt (vx v) (vx v) (vy v) (vy v) 0 0 0 0)) by (repeat split; exists v; cbn; auto; tauto).
  apply (ext_loop_first (v :: vs) (v :: vs) []) in B; auto; [|repeat split; cbn; intros; lia].
  cbn [length] in B. destruct B as (((a & A1 & A2 & A3) & (b & B1 & B2 & B3) & (c & C1 & C2 & C3) & (d & D1 & D2 & D3)) & F1 & F2 & F3 & F4).
  match type of A1 with nth_error _ (x_min_i ?x) = _ => set (e := x) in * end. clearbody e.
  rewrite <- A2 in *. rewrite <- B2 in *. rewrite <- C2 in *. rewrite <- D2 in *.
  split; [exists a|split; [exists b|split; [exists c|exists d]]]; (split; [assumption|]).
  - split; [split; [eapply nth_error_In; eassumption|auto]|]. eapply first_at; eauto.
  - split; [split; [eapply nth_error_In; eassumption|auto]|]. eapply first_at; eauto; cbn beta. { intros w Hw. specialize (B3 w Hw). lra. } intros k w K N. specialize (F2 k w K N). lra.
  - split; [split; [eapply nth_error_In; eassumption|auto]|]. eapply first_at; eauto.
  - split; [split; [eapply nth_error_In; eassumption|auto]|]. eapply first_at; eauto; cbn beta. { intros w Hw. specialize (D3 w Hw). lra. } intros k w K N. specialize (F4 k w K N). lra.
Qed.
(** The first is one vertex. *)
Lemma first_unique (key : pt -> R) (l : list pt) v w : first_least key l v -> first_least key l w -> v = w.
Proof.
  intros (a & b & E1 & A1 & B1) (c & d & E2 & A2 & B2). rewrite E1 in E2. clear E1 l. revert c E2 A2. induction a as [|x a IH]; intros c E2 A2.
  - destruct c as [|y c]; cbn [app] in E2; injection E2 as E2 E3; auto. subst y. exfalso. specialize (A2 v (or_introl eq_refl)). assert (In w b) by (rewrite E3; apply in_app_iff; right; left; auto). specialize (B1 w H). lra.
  - destruct c as [|y c]; cbn [app] in E2; injection E2 as E2 E3.
    + subst x. exfalso. specialize (A1 w (or_introl eq_refl)). assert (In v d) by (rewrite <- E3; apply in_app_iff; right; left; auto). specialize (B2 v H). lra.
    + eapply IH; eauto. { intros z Hz. apply A1. right; auto. } { intros z Hz. apply A2. right; auto. }
Qed.

(** A chain that leaves a level has an edge that leaves it. *)
Lemma leave_edge (h : R) : forall l x, vy x = h -> vy (last l x) <> h -> exists a b, In (a, b) (adj x l) /\ vy a = h /\ vy b <> h.
Proof.
  induction l as [|y l IH]; intros x H L; [contradiction|]. cbn [adj]. destruct (Req_dec (vy y) h) as [K|K].
  - destruct (IH y K) as (a & b & Hab & Ha & Hb). { rewrite last_cons in L. auto. } exists a, b. split; auto. right; auto.
  - exists x, y. split; auto. left; auto.
Qed.
Lemma enter_edge (h : R) : forall l x, vy x <> h -> vy (last l x) = h -> exists a b, In (a, b) (adj x l) /\ vy a <> h /\ vy b = h.
Proof.
  induction l as [|y l IH]; intros x H L; [contradiction|]. cbn [adj]. destruct (Req_dec (vy y) h) as [K|K].
  - exists x, y. split; auto. left; auto.
  - destruct (IH y K) as (a & b & Hab & Ha & Hb). { rewrite last_cons in L. auto. } exists a, b. split; auto. right; auto.
Qed.
Lemma adj_ends {X} (l : list X) : forall x a b, In (a, b) (adj x l) -> In a (x :: l) /\ In b (x :: l).
Proof. induction l as [|y l IH]; intros x a b; [intros []|]. cbn [adj]. intros [H|H]; [injection H as <- <-; split; [left; auto|right; left; auto]|]. apply IH in H as [H1 H2]. split; right; auto. Qed.
(** A vertex extreme to one side, at the top or bottom level of a chain that
    turns its outside to that side, is on the chain. *)
Lemma level_on (g : R) (hi : pt) (l : list pt) (v : pt) : tsign g -> let lo := last l hi in vy lo < vy hi ->
  (forall a b, In (a, b) (adj hi l) -> 0 <= g * orient a b v) -> (forall w, In w (hi :: l) -> g * vx v <= g * vx w /\ vy lo <= vy w <= vy hi) -> vy v = vy hi \/ vy v = vy lo -> In v (hi :: l).
Proof.
  intros Tg lo H HE HW [K|K].
  - destruct (leave_edge (vy hi) l hi eq_refl) as (a & b & Hab & Ha & Hb); [unfold lo in H; lra|]. destruct (adj_ends _ _ _ _ Hab) as [Ia Ib]. pose proof (HE a b Hab) as O.
    destruct (HW a Ia) as [Wa _]. destruct (HW b Ib) as [_ Wb].
    assert (Q : orient a b v = (vy a - vy b) * (vx v - vx a)) by (ug; rewrite K, Ha; ring). rewrite Q in O.
    assert (X : vx v = vx a) by (destruct Tg as [-> | ->]; nra). assert (v = a) as -> by (apply vec_ext; [auto|congruence]). auto.
  - destruct (enter_edge (vy lo) l hi) as (a & b & Hab & Ha & Hb); [lra|auto|]. destruct (adj_ends _ _ _ _ Hab) as [Ia Ib]. pose proof (HE a b Hab) as O.
    destruct (HW a Ia) as [_ Wa]. destruct (HW b Ib) as [Wb _].
    assert (Q : orient a b v = (vy b - vy a) * (vx b - vx v)) by (ug; rewrite K, Hb; ring). rewrite Q in O.
    assert (X : vx v = vx b) by (destruct Tg as [-> | ->]; nra). assert (v = b) as -> by (apply vec_ext; [auto|congruence]). auto.
Qed.
Lemma nodup_visits (l : list pt) : NoDup l -> visits_once l.
Proof.
  intro H. exists (map (fun v => (v, 0%nat)) l). split.
  - rewrite map_map. cbn [fst]. rewrite map_id. exact H.
  - exists [], l. split; [reflexivity|]. rewrite app_nil_r. clear H. induction l as [|v l IH]; [reflexivity|]. cbn [map flat_map fst snd repeat app]. f_equal. exact IH.
Qed.

Lemma chain_sides (s : R) (vs : list pt) (lo hi : pt) (p q : list pt) : tsign s -> NoDup vs -> sided s vs -> spread vs -> rotated vs (lo :: p ++ hi :: q) -> lowest vs lo -> highest vs hi ->
  (forall v, leftmost vs v -> ~ In v (if Rltb 0 s then p else q)) /\ (forall v, rightmost vs v -> ~ In v (if Rltb 0 s then q else p)).
Proof.
  intros Ts N Sd Sp Rt Lo Hi. pose proof (nodup_visits vs N) as V. destruct (split_chains s vs lo hi p q Ts V Sd Sp Rt Lo Hi) as (_ & NL & NR). unfold lchain, rchain in *.
  pose proof (lo_hi vs lo hi Sp Lo Hi) as LH.
  assert (N' : NoDup (lo :: p ++ hi :: q)). { destruct Rt as (x & y & -> & ->). apply (Permutation_NoDup (l := x ++ y)); auto. apply Permutation_app_comm. }
  assert (I' : forall v, In v (lo :: p ++ hi :: q) -> In v vs) by (intros v; apply (rot_in _ _ v Rt)).
  inversion N' as [|? ? N1 N2]; subst. rewrite in_app_iff in N1. cbn [In] in N1.
  assert (D : forall v, In v p -> In v (hi :: q ++ [lo]) -> False).
  { intros v Hp Hq. apply in_split in Hp as (p1 & p2 & ->). rewrite <- app_assoc in N2. cbn [app] in N2. apply NoDup_remove_2 in N2. rewrite !in_app_iff in N2. cbn [In] in Hq, N2. rewrite in_app_iff in Hq.
    destruct Hq as [<-|[Hq|[<-|[]]]]; [tauto|tauto|]. apply N1. left. apply in_app_iff. right. left. auto. }
  assert (D' : forall v, In v q -> In v (hi :: rev p ++ [lo]) -> False).
  { intros v Hq Hp. cbn [In] in Hp. rewrite in_app_iff in Hp. destruct Hp as [<-|[Hp|[<-|[]]]].
    - apply NoDup_remove_2 in N2. apply N2. apply in_app_iff. auto.
    - apply in_rev in Hp. apply (D v Hp). right. apply in_app_iff. auto.
    - apply N1. right. right. auto. }
  assert (Lv : forall v, In v vs -> (vy lo < vy v < vy hi) \/ vy v = vy hi \/ vy v = vy lo). { intros v Hv. destruct Lo as [_ L], Hi as [_ H]. specialize (L v Hv). specialize (H v Hv). lra. }
  assert (E1 : forall a b v, In (a, b) (adj hi (q ++ [lo])) -> In v vs -> 0 <= s * orient a b v). { intros a b v He Hv. apply Sd; auto. apply (split_cyc vs lo hi p q Rt). auto. }
  assert (E2 : forall a b v, In (a, b) (adj hi (rev p ++ [lo])) -> In v vs -> 0 <= - s * orient a b v).
  { intros a b v He Hv. assert (He' : In (b, a) (cyc_pairs vs)).
    { apply (split_cyc vs lo hi p q Rt). left. apply adj_split in He as (c1 & c2 & Ec). apply adj_split. exists (rev c2), (rev c1). apply rev_pairs. cbn [rev]. rewrite rev_app_distr. cbn [rev app]. auto. }
    specialize (Sd b a v He' Hv). replace (orient a b v) with (- orient b a v) by (ug; ring). lra. }
  assert (W1 : forall w, In w (hi :: q ++ [lo]) -> In w vs). { intros w Hw. apply I'. cbn [In] in Hw |- *. rewrite in_app_iff in *. cbn [In] in *. tauto. }
  assert (W2 : forall w, In w (hi :: rev p ++ [lo]) -> In w vs). { intros w Hw. apply I'. cbn [In] in Hw |- *. rewrite in_app_iff in *. rewrite <- in_rev in Hw. cbn [In] in *. tauto. }
  assert (G1 : forall v, In v vs -> (forall w, In w vs -> s * vx v <= s * vx w) -> vy v = vy hi \/ vy v = vy lo -> In v (hi :: q ++ [lo])).
  { intros v Hv Hm Hl. apply (level_on s); auto; rewrite ?last_last; auto. intros w Hw. apply W1 in Hw. split; auto. split; [apply Lo|apply Hi]; auto. }
  assert (G2 : forall v, In v vs -> (forall w, In w vs -> - s * vx v <= - s * vx w) -> vy v = vy hi \/ vy v = vy lo -> In v (hi :: rev p ++ [lo])).
  { intros v Hv Hm Hl. apply (level_on (- s)); auto; rewrite ?last_last; auto. { destruct Ts as [-> | ->]; [right|left]; lra. } intros w Hw. apply W2 in Hw. split; auto. split; [apply Lo|apply Hi]; auto. }
  assert (Up : forall v, In v p -> In v (lo :: p ++ [hi])) by (intros v Hv; right; apply in_app_iff; auto).
  assert (Dn : forall v, In v q -> In v (rev (hi :: q ++ [lo]))) by (intros v Hv; rewrite <- in_rev; right; apply in_app_iff; auto).
  destruct (Rltb_spec 0 s) as [Hs|Hs]; (assert (Es : s = 1 \/ s = -1) by (destruct Ts as [-> | ->]; auto)).
  - assert (s = 1) as -> by lra. split; intros v [Hv Hm] K.
    + destruct (Lv v Hv) as [L|L]; [apply (NL v); auto; split; auto|]. apply (D v K). apply G1; auto. intros w Hw. specialize (Hm w Hw). lra.
    + destruct (Lv v Hv) as [L|L]; [apply (NR v); auto; split; auto|]. apply (D' v K). apply G2; auto. intros w Hw. specialize (Hm w Hw). lra.
  - assert (s = -1) as -> by lra. split; intros v [Hv Hm] K.
    + destruct (Lv v Hv) as [L|L]; [apply (NL v); auto; split; auto|]. apply (D' v K). apply G2; auto. intros w Hw. specialize (Hm w Hw). lra.
    + destruct (Lv v Hv) as [L|L]; [apply (NR v); auto; split; auto|]. apply (D v K). apply G1; auto. intros w Hw. specialize (Hm w Hw). lra.
Qed.

(** Positions of the ends in a list split at two positions. *)
Lemma nth_inner3 {X} (A P B : list X) a b k v : nth_error (A ++ a :: P ++ b :: B) k = Some v ->
  ((length A < k < length A + 1 + length P)%nat -> In v P) /\ ((k < length A \/ length A + 1 + length P < k)%nat -> In v (B ++ A)).
Proof.
  intro H. split; [|apply (nth_inner A P B a b k v H)]. intro K. rewrite nth_error_app2 in H by lia. replace (k - length A)%nat with (S (k - length A - 1)) in H by lia. cbn [nth_error] in H.
  rewrite nth_error_app1 in H by lia. eapply nth_error_In; eauto.
Qed.
Lemma precedes_nth (vs : list pt) i j a b : NoDup vs -> nth_error vs i = Some a -> nth_error vs j = Some b -> (precedes vs a b <-> (i < j)%nat).
Proof.
  intros N Ha Hb. split.
  - intros (x & y & z & E). assert (U : forall k l v, nth_error vs k = Some v -> nth_error vs l = Some v -> k = l).
    { intros k l v K L. rewrite NoDup_nth_error in N. apply N; [apply nth_error_Some; congruence|congruence]. }
    assert (i = length x) as -> by (apply (U _ _ a); auto; rewrite E, nth_error_app2, Nat.sub_diag; auto).
    assert (j = length x + S (length y))%nat as ->; [|lia]. apply (U _ _ b); auto. rewrite E, nth_error_app2 by lia. replace (length x + S (length y) - length x)%nat with (S (length y)) by lia. cbn [nth_error]. rewrite nth_error_app2, Nat.sub_diag by lia. auto.
  - intro K. destruct (nth_split2 _ _ _ _ _ K Ha Hb) as (A & P & B & E & _). exists A, P, B. auto.
Qed.
Lemma misread_at (s : R) (vs : list pt) (e : @extrema R) lo hi le ri : NoDup vs ->
  nth_error vs (x_min_i e) = Some lo -> nth_error vs (x_max_i e) = Some hi -> nth_error vs (x_left_i e) = Some le -> nth_error vs (x_right_i e) = Some ri ->
  first_least vy vs lo -> first_least (fun v => - vy v) vs hi -> first_least vx vs le -> first_least (fun v => - vx v) vs ri ->
  (misread s vs <->
    ((s < 0 /\ (x_min_i e < x_max_i e)%nat \/ 0 < s /\ (x_max_i e < x_min_i e)%nat) /\ x_left_i e = x_max_i e /\ x_right_i e = x_min_i e) \/
    ((s < 0 /\ (x_max_i e < x_min_i e)%nat \/ 0 < s /\ (x_min_i e < x_max_i e)%nat) /\ x_left_i e = x_min_i e)).
Proof.
  intros N N1 N2 N3 N4 F1 F2 F3 F4. pose proof (precedes_nth vs _ _ lo hi N N1 N2) as P1. pose proof (precedes_nth vs _ _ hi lo N N2 N1) as P2.
  assert (U : forall k l v w, nth_error vs k = Some v -> nth_error vs l = Some w -> (k = l <-> v = w)).
  { intros k l v w K L. split; [intros ->; congruence|intros ->]. rewrite NoDup_nth_error in N. apply N; [apply nth_error_Some; congruence|congruence]. }
  rewrite (U _ _ _ _ N3 N2), (U _ _ _ _ N4 N1), (U _ _ _ _ N3 N1), <- P1, <- P2. split.
  - intros (le' & ri' & lo' & hi' & G3 & G4 & G1 & G2 & H). rewrite (first_unique _ _ _ _ G1 F1), (first_unique _ _ _ _ G2 F2), (first_unique _ _ _ _ G3 F3), (first_unique _ _ _ _ G4 F4) in H. exact H.
  - intro H. exists le, ri, lo, hi. auto.
Qed.
Theorem split_exact (s : R) (vs : list pt) : tsign s -> NoDup vs -> sided s vs -> spread vs ->
  exists pl, split_y_polylines vs = Ok pl /\ (~ misread s vs -> forall x, y_monotone_test pl x = winding_test vs x) /\ (misread s vs -> forall x, y_monotone_test pl x = Ok false).
Proof.
  intros Ts N Sd Sp. pose proof (nodup_visits vs N) as V. assert (Ne : vs <> []) by (intros ->; destruct Sp as (? & ? & ? & [] & _)).
  destruct (find_extrema_first vs Ne) as (e & E & (lo & Elo & Lo & Flo) & (hi & Ehi & Hi & Fhi) & (le & Ele & Le & Fle) & (ri & Eri & Ri & Fri)).
  pose proof (misread_at s vs e lo hi le ri N Elo Ehi Ele Eri Flo Fhi Fle Fri) as MA. unfold split_y_polylines. rewrite E. cbn [bind].
  assert (LH : vy lo < vy hi) by (eapply lo_hi; eauto).
  assert (LR : x_left_i e <> x_right_i e).
  { intro Z. rewrite Z, Eri in Ele. injection Ele as <-. destruct Sp as (a & b & c & Ha & Hb & Hc & O). apply O. destruct Le as [_ L], Ri as [_ H].
    assert (X : forall v, In v vs -> vx v = vx ri) by (intros v Hv; specialize (L v Hv); specialize (H v Hv); lra). ug. rewrite (X a Ha), (X b Hb), (X c Hc). ring. }
  assert (WT : forall x, Ok (negb (Z.eqb (wnum vs x) 0)) = winding_test vs x) by (intro x; rewrite winding_test_num; auto).
  assert (SS : (0 < s \/ s < 0) /\ ~ (0 < s /\ s < 0)) by (destruct Ts as [-> | ->]; lra).
  destruct (Nat.ltb_spec (x_min_i e) (x_max_i e)) as [K|K].
  - destruct (nth_split2 _ _ _ _ _ K Elo Ehi) as (A & P & B & EV & LA0 & LP). symmetry in LA0, LP.
    assert (Rt : rotated vs (lo :: P ++ hi :: (B ++ A))). { exists A, (lo :: P ++ hi :: B). split; auto. cbn [app]. rewrite <- app_assoc. auto. }
    destruct (split_chains s vs lo hi P (B ++ A) Ts V Sd Sp Rt Lo Hi) as (T & _ & _). unfold lchain, rchain in *.
    destruct (chain_sides s vs lo hi P (B ++ A) Ts N Sd Sp Rt Lo Hi) as (NL & NR). specialize (NL le Le). specialize (NR ri Ri).
    assert (S12 := slice_up (map yx A) (map yx P) (map yx B) (yx lo) (yx hi) (x_min_i e) (x_max_i e) ltac:(rewrite map_length; auto) ltac:(rewrite !map_length; auto)).
    rewrite EV in Ele, Eri. apply nth_inner3 in Ele as [Le1 Le2]. apply nth_inner3 in Eri as [Ri1 Ri2]. rewrite <- LP, <- LA0 in *.
    assert (EM : map (fun v : pt => (vy v, vx v)) vs = map yx A ++ yx lo :: map yx P ++ yx hi :: map yx B).
    { rewrite EV, map_app. cbn [map]. rewrite map_app. reflexivity. }
    rewrite EM. destruct S12 as [-> S2]. rewrite S2. clear S2 EM.
    replace (yx lo :: map yx P ++ [yx hi]) with (map yx (lo :: P ++ [hi])) by (cbn [map]; rewrite map_app; auto).
    replace (yx hi :: map yx B ++ map yx A ++ [yx lo]) with (map yx (hi :: (B ++ A) ++ [lo])) by (cbn [map]; rewrite !map_app, <- app_assoc; auto).
    rewrite orient_pl_up by lra. rewrite orient_pl_down by lra.
    set (up := lo :: P ++ [hi]) in *. set (down := rev (hi :: (B ++ A) ++ [lo])) in *.
    set (cond := (_ || _)). exists (if cond then (map yx up, map yx down) else (map yx down, map yx up)). split; [destruct cond; auto|]. rewrite MA.
    assert (C : cond = true <-> (x_min_i e <= x_left_i e < x_max_i e \/ x_right_i e < x_min_i e \/ x_max_i e < x_right_i e)%nat).
    { subst cond. rewrite !orb_true_iff, andb_true_iff, !Nat.ltb_lt, Nat.leb_le. lia. } clearbody cond.
    assert (Fin : forall (M : Prop) (g b : bool) plg plb, (M <-> cond = b) -> g = negb b -> (forall x, y_monotone_test plg x = winding_test vs x) -> (forall x, y_monotone_test plb x = Ok false) ->
      (if cond then (map yx up, map yx down) else (map yx down, map yx up)) = (if Bool.eqb cond g then plg else plb) ->
      (~ M -> forall x, y_monotone_test (if cond then (map yx up, map yx down) else (map yx down, map yx up)) x = winding_test vs x) /\
      (M -> forall x, y_monotone_test (if cond then (map yx up, map yx down) else (map yx down, map yx up)) x = Ok false)).
    { intros M g b plg plb HM -> Hg Hb ->. split; intros X x; destruct cond, b; cbn [Bool.eqb negb]; auto; exfalso; first [apply X, HM; reflexivity | apply HM in X; discriminate]. }
    destruct (Rltb_spec 0 s) as [Hs|Hs].
    + apply (Fin _ false true (map yx down, map yx up) (map yx up, map yx down)); auto; [|intro x; rewrite <- WT; apply T|intro x; apply T|destruct cond; auto].
      assert (Z1 : ~ (x_min_i e < x_left_i e < x_max_i e)%nat) by (intro Z; apply NL, Le1, Z).
      assert (Z2 : ~ (x_right_i e < x_min_i e \/ x_max_i e < x_right_i e)%nat) by (intro Z; apply NR, Ri2, Z).
      rewrite C. split; [intros [[[[Q1 Q2]|[Q1 Q2]] [Q3 Q4]]|[[[Q1 Q2]|[Q1 Q2]] Q3]]; try lra; lia|]. intro Z. right. split; [right; auto|lia].
    + assert (Hs' : s < 0) by lra. apply (Fin _ true false (map yx up, map yx down) (map yx down, map yx up)); auto; [|intro x; rewrite <- WT; apply T|intro x; apply T|destruct cond; auto].
      assert (Z1 : ~ (x_left_i e < x_min_i e \/ x_max_i e < x_left_i e)%nat) by (intro Z; apply NL, Le2, Z).
      assert (Z2 : ~ (x_min_i e < x_right_i e < x_max_i e)%nat) by (intro Z; apply NR, Ri1, Z).
      rewrite <- not_true_iff_false, C. split; [intros [[[[Q1 Q2]|[Q1 Q2]] [Q3 Q4]]|[[[Q1 Q2]|[Q1 Q2]] Q3]]; try lra; lia|]. intro Z. left. split; [left; auto|lia].
  - assert (K' : (x_max_i e < x_min_i e)%nat). { destruct (Nat.eq_dec (x_max_i e) (x_min_i e)) as [Z|Z]; [|lia]. rewrite Z, Elo in Ehi. injection Ehi as <-. lra. } clear K.
    destruct (nth_split2 _ _ _ _ _ K' Ehi Elo) as (A & P & B & EV & LA0 & LP). symmetry in LA0, LP.
    assert (Rt : rotated vs (lo :: (B ++ A) ++ hi :: P)). { exists (A ++ hi :: P), (lo :: B). split; [rewrite EV, <- app_assoc; auto|]. cbn [app]. rewrite <- app_assoc. auto. }
    destruct (split_chains s vs lo hi (B ++ A) P Ts V Sd Sp Rt Lo Hi) as (T & _ & _). unfold lchain, rchain in *.
    destruct (chain_sides s vs lo hi (B ++ A) P Ts N Sd Sp Rt Lo Hi) as (NL & NR). specialize (NL le Le). specialize (NR ri Ri).
    assert (S12 := slice_up (map yx A) (map yx P) (map yx B) (yx hi) (yx lo) (x_max_i e) (x_min_i e) ltac:(rewrite map_length; auto) ltac:(rewrite !map_length; auto)).
    rewrite EV in Ele, Eri. apply nth_inner3 in Ele as [Le1 Le2]. apply nth_inner3 in Eri as [Ri1 Ri2]. rewrite <- LP, <- LA0 in *.
    assert (EM : map (fun v : pt => (vy v, vx v)) vs = map yx A ++ yx hi :: map yx P ++ yx lo :: map yx B).
    { rewrite EV, map_app. cbn [map]. rewrite map_app. reflexivity. }
    rewrite EM. destruct S12 as [-> S2]. rewrite S2. clear S2 EM.
    replace (yx hi :: map yx P ++ [yx lo]) with (map yx (hi :: P ++ [lo])) by (cbn [map]; rewrite map_app; auto).
    replace (yx lo :: map yx B ++ map yx A ++ [yx hi]) with (map yx (lo :: (B ++ A) ++ [hi])) by (cbn [map]; rewrite !map_app, <- app_assoc; auto).
    rewrite (orient_pl_up lo hi) by lra. rewrite orient_pl_down by lra.
    set (up := lo :: (B ++ A) ++ [hi]) in *. set (down := rev (hi :: P ++ [lo])) in *.
    set (cond := (_ || _)). exists (if cond then (map yx down, map yx up) else (map yx up, map yx down)). split; [destruct cond; auto|]. rewrite MA.
    assert (C : cond = true <-> (x_max_i e < x_left_i e <= x_min_i e \/ x_min_i e < x_right_i e \/ x_right_i e < x_max_i e)%nat).
    { subst cond. rewrite !orb_true_iff, andb_true_iff, !Nat.ltb_lt, Nat.leb_le. lia. } clearbody cond.
    assert (Fin : forall (M : Prop) (g b : bool) plg plb, (M <-> cond = b) -> g = negb b -> (forall x, y_monotone_test plg x = winding_test vs x) -> (forall x, y_monotone_test plb x = Ok false) ->
      (if cond then (map yx down, map yx up) else (map yx up, map yx down)) = (if Bool.eqb cond g then plg else plb) ->
      (~ M -> forall x, y_monotone_test (if cond then (map yx down, map yx up) else (map yx up, map yx down)) x = winding_test vs x) /\
      (M -> forall x, y_monotone_test (if cond then (map yx down, map yx up) else (map yx up, map yx down)) x = Ok false)).
    { intros M g b plg plb HM -> Hg Hb ->. split; intros X x; destruct cond, b; cbn [Bool.eqb negb]; auto; exfalso; first [apply X, HM; reflexivity | apply HM in X; discriminate]. }
    destruct (Rltb_spec 0 s) as [Hs|Hs].
    + apply (Fin _ true false (map yx down, map yx up) (map yx up, map yx down)); auto; [|intro x; rewrite <- WT; apply T|intro x; apply T|destruct cond; auto].
      assert (Z1 : ~ (x_left_i e < x_max_i e \/ x_min_i e < x_left_i e)%nat) by (intro Z; apply NL, Le2, Z).
      assert (Z2 : ~ (x_max_i e < x_right_i e < x_min_i e)%nat) by (intro Z; apply NR, Ri1, Z).
      rewrite <- not_true_iff_false, C. split; [intros [[[[Q1 Q2]|[Q1 Q2]] [Q3 Q4]]|[[[Q1 Q2]|[Q1 Q2]] Q3]]; try lra; lia|]. intro Z. left. split; [right; auto|lia].
    + assert (Hs' : s < 0) by lra. apply (Fin _ false true (map yx up, map yx down) (map yx down, map yx up)); auto; [|intro x; rewrite <- WT; apply T|intro x; apply T|destruct cond; auto].
      assert (Z1 : ~ (x_max_i e < x_left_i e < x_min_i e)%nat) by (intro Z; apply NL, Le1, Z).
      assert (Z2 : ~ (x_right_i e < x_max_i e \/ x_min_i e < x_right_i e)%nat) by (intro Z; apply NR, Ri2, Z).
      rewrite C. split; [intros [[[[Q1 Q2]|[Q1 Q2]] [Q3 Q4]]|[[[Q1 Q2]|[Q1 Q2]] Q3]]; try lra; lia|]. intro Z. right. split; [left; auto|lia].
Qed.
