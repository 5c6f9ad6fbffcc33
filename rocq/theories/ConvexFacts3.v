(** * Geometric convexity and going around once *)
From Coq Require Import ZArith List Bool Reals Lra Lia Psatz Permutation Sorting ListDec.
From Verif Require Import Num Vec Affine Box Seq Polygon SpecGeom SpecMass SpecConvex RBase VecFacts VecFacts2 SpecCycle PolyEq CentroidFacts WindFacts ConvexFacts ConvexFacts2.
Import ListNotations.
Local Open Scope R_scope.

Definition sided (s : R) (l : list pt) : Prop := forall a b v, In (a, b) (cyc_pairs l) -> In v l -> 0 <= s * orient a b v.
Lemma sided_ccw l : (sided 1 l <-> convex_ccw l) /\ (sided (-1) l <-> convex_cw l).
Proof. unfold sided, convex_ccw, convex_cw. split; split; intros H a b v He Hv; specialize (H a b v He Hv); lra. Qed.
Lemma rot_in {X} (l m : list X) v : rotated l m -> In v l <-> In v m.
Proof. intros (a & b & -> & ->). rewrite !in_app_iff. tauto. Qed.
Lemma cyc_rot_in {X} (l m : list X) e : rotated l m -> In e (cyc_pairs l) <-> In e (cyc_pairs m).
Proof. intro H. apply rot_in, cyc_rot'; auto. Qed.
Lemma sided_rot s l m : rotated l m -> sided s l -> sided s m.
Proof. intros H K a b v He Hv. apply K; [apply (cyc_rot_in _ _ _ H); auto|apply (rot_in _ _ _ H); auto]. Qed.
Lemma spread_rot l m : rotated l m -> spread l -> spread m.
Proof. intros H (p & q & r & Hp & Hq & Hr & K). exists p, q, r. rewrite <- !(rot_in _ _ _ H). auto. Qed.

(** ** Runs *)
Definition flat (runs : list (pt * nat)) : list pt := flat_map (fun r => repeat (fst r) (S (snd r))) runs.
Lemma flat_cons a k runs : flat ((a, k) :: runs) = a :: repeat a k ++ flat runs.
Proof. reflexivity. Qed.
Lemma diff_self (a : pt) : vec_bool (diff (a, a)) = false.
Proof. destruct (vec_bool (diff (a, a))) eqn:E; auto. apply vec_bool_nn in E. exfalso. apply E. unfold diff. cbn [fst snd]. ug. vext; ring. Qed.
Lemma nnd_repeat a k r : filter vec_bool (map diff (adj a (repeat a k ++ r))) = filter vec_bool (map diff (adj a r)).
Proof. induction k as [|k IH]; auto. cbn [repeat app adj map filter]. rewrite diff_self. auto. Qed.
Lemma nnd_flat r runs : forall x, filter vec_bool (map diff (adj x (flat runs ++ r))) = filter vec_bool (map diff (adj x (map fst runs ++ r))).
Proof.
  induction runs as [|[b k] runs IH]; intro x; auto. rewrite flat_cons. cbn [app map fst adj filter]. rewrite <- app_assoc, nnd_repeat, IH. auto.
Qed.
Lemma edgev_flat runs : edgev (flat runs) = edgev (map fst runs).
Proof.
  destruct runs as [|[a k] runs]; auto. unfold edgev. rewrite flat_cons. cbn [map fst]. rewrite !cyc_cons, <- app_assoc, nnd_repeat. apply nnd_flat.
Qed.
Lemma flat_in v runs : In v (flat runs) <-> In v (map fst runs).
Proof.
  induction runs as [|[a k] runs IH]; [reflexivity|]. rewrite flat_cons. cbn [map fst In]. rewrite in_app_iff, IH. split; [|tauto].
  intros [H|[H|H]]; auto. left. symmetry. eapply repeat_spec; eauto.
Qed.
Lemma cyc_flat_sub runs e : In e (cyc_pairs (map fst runs)) -> In e (cyc_pairs (flat runs)) \/ (length runs = 1)%nat.
Proof.
  destruct runs as [|[a k] runs]; [destruct 1|]. rewrite flat_cons. cbn [map fst]. rewrite !cyc_cons.
  destruct runs as [|[b j] runs]; [right; auto|]. intro H. left.
  assert (R : forall k x r, In e (adj x (repeat x k ++ r)) <-> In e (adj x r) \/ (exists n, k = S n /\ e = (x, x))).
  { clear. induction k as [|k IH]; intros x r; cbn [repeat app adj In]; [split; [auto|intros [H|(n & H & _)]; [auto|discriminate]]|].
    rewrite IH. split; [intros [<-|[H|(n & -> & ->)]]; eauto|]. intros [H|(n & _ & ->)]; auto. }
  assert (G : forall runs x r, In e (adj x (map fst runs ++ r)) -> In e (adj x (flat runs ++ r))).
  { clear - R. induction runs as [|[b k] runs IH]; intros x r H; auto. rewrite flat_cons. cbn [map fst app adj In] in *. destruct H as [H|H]; auto. right.
    rewrite <- app_assoc. apply R. left. apply IH; auto. }
  rewrite <- app_assoc. apply R. left. apply (G ((b, j) :: runs)). auto.
Qed.
(** Every list splits into runs of equal vertices. *)
Fixpoint distinct_adj (l : list pt) : Prop := match l with a :: ((b :: _) as t) => a <> b /\ distinct_adj t | _ => True end.
Lemma runs_exist l : exists runs, l = flat runs /\ distinct_adj (map fst runs) /\ (l <> [] -> map fst runs <> []) /\
  (forall d, hd d (map fst runs) = hd d l) /\ (forall d, last (map fst runs) d = last l d).
Proof.
  induction l as [|a l (runs & E & D & N & H & L)]; [exists []; repeat split; auto|].
  destruct runs as [|[b k] runs].
  - assert (l = []) as -> by auto. exists [(a, O)]. repeat split; auto.
  - assert (Nl : l <> []) by (rewrite E, flat_cons; discriminate).
    destruct (veq_dec_R a b) as [<-|Ne].
    + exists ((a, S k) :: runs). cbn [map fst] in *. split; [rewrite E, !flat_cons; auto|]. split; auto. split; [discriminate|]. split; [auto|].
      intro d. rewrite L. destruct l; [congruence|reflexivity].
    + exists ((a, O) :: (b, k) :: runs). cbn [map fst] in *. split; [rewrite flat_cons; cbn [repeat app]; rewrite <- E; auto|].
      split; [split; auto|]. split; [discriminate|]. split; [auto|]. intro d. rewrite last_cons, L, last_cons; auto. 
Qed.

(** ** Completeness *)
Lemma cyc_cyc_in {X} (m : list X) x y : In (x, y) (cyc_pairs (cyc_pairs m)) -> snd x = fst y /\ In x (cyc_pairs m) /\ In y (cyc_pairs m).
Proof.
  intro H. split; [|apply cyc_in_l in H; auto].
  destruct m as [|a m]; [destruct H|]. rewrite cyc_cons in H.
  assert (K : forall l a, fst x = fst x -> forall f, In (x, y) (adj f (adj a l)) -> snd f = a -> snd x = fst y).
  { clear. induction l as [|b l IH]; intros a _ f H Hf; [destruct H|]. cbn [adj In] in H. destruct H as [H|H]; [injection H as <- <-; auto|]. eapply (IH b); eauto. }
  destruct (m ++ [a]) as [|b t] eqn:E; [destruct m; discriminate|]. cbn [adj] in H. rewrite cyc_cons in H.
  assert (A : adj (a, b) (adj b t ++ [(a, b)]) = adj (a, b) (adj b (t ++ [b]))).
  { assert (L : last t b = a). { rewrite <- (last_cons b t b), <- E. apply last_last. }
    f_equal. clear - L. revert b L. 
    assert (G : forall (t : list X) b c, adj b (t ++ [c]) = adj b t ++ [(last t b, c)]).
    { clear. induction t as [|d t IH]; intros b c; auto. cbn [app adj]. rewrite IH. rewrite last_cons. auto. }
    intros b L. rewrite G, L. auto. }
  rewrite A in H. eapply (K (t ++ [b]) b); eauto.
Qed.
Lemma cross_null (u x y : pt) : nn u -> pcross u x = 0 -> pcross u y = 0 -> pcross x y = 0.
Proof.
  intros N H1 H2. assert (D : pdot u u <> 0). { intro Z. apply N. destruct u as [a b]. unfold porigin. unfold pdot in Z. cbn [vx vy] in Z. destruct (sumsq0 a b); [lra|]. vext; auto. }
  apply (Rmult_eq_reg_l (pdot u u)); auto. replace (pdot u u * pcross x y) with (pdot u x * pcross u y - pcross u x * pdot u y) by (ug; ring). rewrite H1, H2. ring.
Qed.
Lemma not_spread (u b : pt) l : nn u -> (forall w, In w l -> pcross u (psub w b) = 0) -> ~ spread l.
Proof.
  intros N H (p & q & r & Hp & Hq & Hr & K). apply K. 
  replace (orient p q r) with (pcross (psub q p) (psub r p)) by (ug; ring). apply (cross_null u); auto.
  - replace (pcross u (psub q p)) with (pcross u (psub q b) - pcross u (psub p b)) by (ug; ring). rewrite !H by auto. ring.
  - replace (pcross u (psub r p)) with (pcross u (psub r b) - pcross u (psub p b)) by (ug; ring). rewrite !H by auto. ring.
Qed.
(** A vertex where a forward edge is followed by a backward edge is the last
    one in lexicographic order. *)
Lemma turn_extreme (s : R) (u v b : pt) l : tsign s -> spread l -> fwd u -> fwd (vneg v) ->
  (forall w, In w l -> 0 <= s * pcross u (psub w b)) -> (forall w, In w l -> 0 <= s * pcross v (psub w b)) -> 0 <= s * pcross u v ->
  forall w, In w l -> ~ fwd (psub w b).
Proof.
  intros Hs Sp Hu Hv H1 H2 Hc w Hw Hf.
  assert (Z : 0 <= s * pcross u (vneg v)).
  { apply (half_trans_s s u (psub w b) (vneg v)); auto. replace (pcross (psub w b) (vneg v)) with (pcross v (psub w b)) by (unfold vneg; ug; ring). auto. }
  replace (pcross u (vneg v)) with (- pcross u v) in Z by (unfold vneg; ug; ring).
  assert (Z0 : pcross u v = 0) by (destruct Hs as [-> | ->]; lra).
  apply (not_spread u b l); auto; [apply fwd_null; auto|]. intros q Hq.
  (* v is a negative multiple of u *)
  assert (T : pdot u v < 0).
  { destruct u as [u1 u2], v as [v1 v2]. unfold fwd, vneg, pscale in *. revert Z0. ug. cbn [vx vy] in *. intro Z0.
    destruct Hu as [Hu|[-> Hu]], Hv as [Hv|[Hv0 Hv]]; try nra.
    - assert (E : u1 * (u1 * v1 + u2 * v2) = v1 * (u1 * u1 + u2 * u2)). { replace (u1 * (u1 * v1 + u2 * v2)) with (v1 * (u1 * u1 + u2 * u2) + u2 * (u1 * v2 - u2 * v1)) by ring. rewrite Z0. ring. }
      assert (0 < u1 * u1 + u2 * u2) by nra. assert (v1 * (u1 * u1 + u2 * u2) < 0) by nra. nra. }
  specialize (H1 q Hq). specialize (H2 q Hq).
  assert (E : pdot u u * pcross v (psub q b) = pdot u v * pcross u (psub q b)).
  { replace (pdot u u * pcross v (psub q b)) with (pdot u v * pcross u (psub q b) - pcross u v * pdot u (psub q b)) by (ug; ring). rewrite Z0. ring. }
  assert (P : 0 < pdot u u). { assert (N : nn u) by (apply fwd_null; auto). destruct (Rle_lt_dec (pdot u u) 0); auto. exfalso. apply N. destruct u as [a c]. unfold pdot in *. cbn [vx vy] in *. destruct (sumsq0 a c); [lra|]. unfold porigin. vext; auto. }
  set (x := pcross u (psub q b)) in *. set (y := pcross v (psub q b)) in *. set (d := pdot u u) in *. set (t := pdot u v) in *. clearbody x y d t.
  destruct Hs as [-> | ->]; nra.
Qed.
Lemma fwd_total (a b : pt) : ~ fwd (psub a b) -> ~ fwd (psub b a) -> a = b.
Proof. unfold fwd. destruct a as [a1 a2], b as [b1 b2]. unfold psub. cbn [vx vy]. intros H1 H2. vext; lra. Qed.

Lemma edgev_distinct m : (forall a b, In (a, b) (cyc_pairs m) -> a <> b) -> edgev m = map diff (cyc_pairs m).
Proof.
  intro H. unfold edgev. assert (K : forall l, (forall a b, In (a, b) l -> a <> b) -> filter vec_bool (map diff l) = map diff l); [|auto].
  clear. induction l as [|[a b] l IH]; intro H; auto. cbn [map filter]. rewrite IH by (intros; apply H; right; auto).
  replace (vec_bool (diff (a, b))) with true; auto. symmetry. apply vec_bool_nn. intro Z. apply (H a b (or_introl eq_refl)).
  unfold diff in Z. cbn [fst snd] in Z. destruct a as [a1 a2], b as [b1 b2]. unfold psub, porigin in Z. cbn [vx vy] in Z. apply mkV_inj in Z. vext; lra.
Qed.
Lemma nodup_distinct (m : list pt) : NoDup m -> (2 <= length m)%nat -> forall a b, In (a, b) (cyc_pairs m) -> a <> b.
Proof.
  intros N L a b H ->. destruct (cyc_in_rot b b m H) as [_|(t & R)].
  - destruct m as [|x m]; [destruct H|]. rewrite cyc_cons in H.
    assert (K : forall m x y, In (b, b) (adj x (m ++ [y])) -> (exists p q, x :: m = p ++ b :: b :: q) \/ (b = y /\ last m x = b)).
    { clear. induction m as [|c m IH]; intros x y H; cbn [app adj In] in H.
      - destruct H as [H|[]]. injection H as -> ->. right. auto.
      - destruct H as [H|H]; [injection H as -> ->; left; exists [], m; auto|]. destruct (IH _ _ H) as [(p & q & E)|[E1 E2]].
        + left. exists (x :: p), q. cbn. rewrite E. auto.
        + right. split; auto. rewrite last_cons. auto. }
    destruct (K _ _ _ H) as [(p & q & E)|[E1 E2]].
    + rewrite E in N. apply NoDup_remove_2 in N. apply N, in_or_app. right. left. auto.
    + subst x. destruct (exists_last_or m) as [->|(m' & z & ->)]; [cbn in L; lia|]. rewrite last_last in E2. subst z. inversion N; subst. apply H2, in_or_app. right. left. auto.
  - assert (N' : NoDup (b :: b :: t)). { destruct R as (x & y & -> & E). rewrite E. eapply Permutation_NoDup; [apply Permutation_app_comm|]. auto. }
    inversion N'; subst. apply H2. left. auto.
Qed.
Lemma complete_nodup (s : R) (m : list pt) : tsign s -> NoDup m -> sided s m -> spread m -> one_way s m /\ (changes m <= 2)%nat.
Proof.
  intros Hs N Sd Sp.
  assert (L : (2 <= length m)%nat). { destruct m as [|a [|b m]]; cbn; try lia; exfalso; destruct Sp as (p & q & r & Hp & Hq & Hr & K); cbn in *; [tauto|]. destruct Hp as [<-|[]], Hq as [<-|[]]. apply K. ug. ring. }
  pose proof (edgev_distinct m (nodup_distinct m N L)) as E. unfold one_way, changes. rewrite E, cyc_map. split.
  - apply Forall_map, Forall_forall. intros [[a b] [b' c]] H. cbn [fst snd]. destruct (cyc_cyc_in m _ _ H) as (Eb & H1 & H2). cbn [fst snd] in Eb. subst b'.
    unfold turn, diff. cbn [fst snd]. replace (pcross (psub b a) (psub c b)) with (orient a b c) by (ug; ring). apply Sd; auto. apply cyc_in_l in H2. tauto.
  - set (C := cyc_pairs (cyc_pairs m)). set (g := fun e : (pt * pt) * (pt * pt) => chg (diff (fst e), diff (snd e))).
    assert (Len : nch (map (fun e => (diff (fst e), diff (snd e))) C) = length (filter g C)).
    { unfold nch. clear. induction C as [|e C IH]; auto. cbn [map filter]. unfold g at 1. destruct (chg _); cbn [length]; auto. }
    rewrite Len. set (mid := fun e : (pt * pt) * (pt * pt) => snd (fst e)).
    rewrite <- (map_length mid).
    assert (ND : NoDup (map mid (filter g C))).
    { assert (ND0 : NoDup (map mid C)).
      { subst C. unfold mid. rewrite <- (map_map fst snd). destruct (cyc_pairs m) as [|e t] eqn:Ec; [constructor|]. unfold cyc_pairs at 1. rewrite cyc_fst. rewrite <- Ec.
        assert (Permutation (map snd (cyc_pairs m)) m).
        { destruct m as [|a m']; auto. rewrite cyc_cons. assert (K : forall l a, map snd (adj (X := pt) a l) = l) by (clear; induction l as [|b l IH]; intro a; cbn [adj map snd]; [auto|rewrite IH; auto]).
          rewrite K. apply Permutation_sym, Permutation_cons_append. }
        eapply Permutation_NoDup; [apply Permutation_sym; eassumption|auto]. }
      clear - ND0. induction C as [|e C IH]; [constructor|]. cbn [filter]. inversion ND0; subst. destruct (g e); auto. cbn [map]. constructor; auto.
      intro K. apply H1. apply in_map_iff in K as (x & Hx & K). apply filter_In in K as [K _]. apply in_map_iff. eauto. }
    assert (PR : forall b, In b (map mid (filter g C)) -> (forall w, In w m -> ~ fwd (psub w b)) \/ (forall w, In w m -> ~ fwd (psub b w))).
    { intros b Hb. apply in_map_iff in Hb as ([[a b0] [b' c]] & Eb & Hb). unfold mid in Eb. cbn [fst snd] in Eb. subst b0. apply filter_In in Hb as [HC Hg].
      destruct (cyc_cyc_in m _ _ HC) as (Eb & H1 & H2). cbn [fst snd] in Eb. subst b'.
      unfold g in Hg. cbn [fst snd] in Hg.
      set (u := psub b a). set (v := psub c b). change (diff (a, b)) with u in Hg. change (diff (b, c)) with v in Hg.
      assert (Nu : nn u /\ nn v).
      { pose proof (edgev_nn m) as F. rewrite E in F. rewrite Forall_forall in F. split; [apply (F u), in_map_iff; exists (a, b); auto|apply (F v), in_map_iff; exists (b, c); auto]. }
      assert (A1 : forall w, In w m -> 0 <= s * pcross u (psub w b)). { intros w Hw. replace (pcross u (psub w b)) with (orient a b w) by (subst u; ug; ring). apply Sd; auto. }
      assert (A2 : forall w, In w m -> 0 <= s * pcross v (psub w b)). { intros w Hw. replace (pcross v (psub w b)) with (orient b c w) by (subst v; ug; ring). apply Sd; auto. }
      assert (A3 : 0 <= s * pcross u v). { apply A1. apply cyc_in_l in H2. tauto. }
      unfold chg in Hg. cbn [fst snd] in Hg. apply Z.eqb_eq in Hg. destruct (fwd_cases u (proj1 Nu)) as [F|F].
      - left. apply (turn_extreme s u v b m); auto. apply dir_bwd. apply dir_fwd in F. rewrite Hg, F. auto.
      - right. intros w Hw Hf.
        set (b1 := vneg b).
        assert (Fv : fwd v). { apply dir_fwd. apply dir_bwd in F. rewrite Hg, F. auto. }
        apply (turn_extreme s (vneg u) (vneg v) b1 (map vneg m)) with (w := vneg w); auto.
        + destruct Sp as (p & q & r & Hp & Hq & Hr & K). exists (vneg p), (vneg q), (vneg r). split; [apply in_map; auto|split; [apply in_map; auto|split; [apply in_map; auto|]]].
          intro Z. apply K. rewrite <- Z. unfold vneg. ug. ring.
        + rewrite vneg_vneg. auto.
        + intros x Hx. apply in_map_iff in Hx as (y & <- & Hy). replace (pcross (vneg u) (psub (vneg y) b1)) with (pcross u (psub y b)) by (subst b1; unfold vneg; ug; ring). auto.
        + intros x Hx. apply in_map_iff in Hx as (y & <- & Hy). replace (pcross (vneg v) (psub (vneg y) b1)) with (pcross v (psub y b)) by (subst b1; unfold vneg; ug; ring). auto.
        + rewrite pcross_neg. auto.
        + apply in_map; auto.
        + replace (psub (vneg w) b1) with (psub b w) by (subst b1; unfold vneg; ug; vext; ring). auto. }
    assert (IN : forall b, In b (map mid (filter g C)) -> In b m).
    { intros b Hb. apply in_map_iff in Hb as ([[a b0] [b' c]] & Eb & Hb). unfold mid in Eb. cbn [fst snd] in Eb. subst b0. apply filter_In in Hb as [HC _].
      destruct (cyc_cyc_in m _ _ HC) as (_ & H1 & _). apply cyc_in_l in H1. tauto. }
    destruct (map mid (filter g C)) as [|x [|y [|z t]]]; cbn [length]; try lia. exfalso.
    inversion ND as [|? ? N1 ND1]; subst. inversion ND1 as [|? ? N2 ND2]; subst.
    assert (D : x <> y /\ x <> z /\ y <> z). { repeat split; intro K; subst; [apply N1|apply N1|apply N2]; cbn; auto. }
    assert (Hx := PR x (or_introl eq_refl)). assert (Hy := PR y (or_intror (or_introl eq_refl))). assert (Hz := PR z (or_intror (or_intror (or_introl eq_refl)))).
    assert (Ix := IN x (or_introl eq_refl)). assert (Iy := IN y (or_intror (or_introl eq_refl))). assert (Iz := IN z (or_intror (or_intror (or_introl eq_refl)))).
    destruct Hx as [Hx|Hx], Hy as [Hy|Hy], Hz as [Hz|Hz];
      first [ exfalso; apply (proj1 D); apply fwd_total; solve [auto] | exfalso; apply (proj1 (proj2 D)); apply fwd_total; solve [auto] | exfalso; apply (proj2 (proj2 D)); apply fwd_total; solve [auto] ].
Qed.
Lemma complete_once (s : R) (l : list pt) : tsign s -> visits_once l -> sided s l -> spread l -> one_way s l /\ (changes l <= 2)%nat.
Proof.
  intros Hs (runs & N & Rt) Sd Sp. fold (flat runs) in Rt. apply (sided_rot s _ _ Rt) in Sd. apply (spread_rot _ _ Rt) in Sp.
  assert (Sp' : spread (map fst runs)). { destruct Sp as (p & q & r & Hp & Hq & Hr & K). exists p, q, r. rewrite <- !flat_in. auto. }
  assert (L : length runs <> 1%nat). { intro L. destruct runs as [|[a k] [|]]; try discriminate. destruct Sp' as (p & q & r & [<-|[]] & [<-|[]] & _ & K). apply K. cbn [fst]. ug. ring. }
  assert (Sd' : sided s (map fst runs)). { intros a b v He Hv. apply Sd; [|apply flat_in; auto]. destruct (cyc_flat_sub runs (a, b) He); [auto|contradiction]. }
  destruct (complete_nodup s (map fst runs) Hs N Sd' Sp') as [W C]. rewrite (changes_rot _ _ Rt).
  assert (E : edgev (flat runs) = edgev (map fst runs)) by apply edgev_flat.
  split; [|unfold changes in *; rewrite E; auto]. apply (one_way_rot s (flat runs)); [apply rotated_sym; auto|]. unfold one_way in *. rewrite E. auto.
Qed.

(** ** A path with two direction changes goes around once *)
Lemma all_fwd_sum l : Forall fwd l -> l <> [] -> fwd (vsum l).
Proof.
  induction l as [|a l IH]; intros F N; [congruence|]. inversion F; subst. destruct l as [|b l].
  - unfold vsum. cbn [fold_right]. replace (padd a porigin) with a; auto. ug. vext; ring.
  - assert (K : fwd (vsum (b :: l))) by (apply IH; [auto|discriminate]). change (vsum (a :: b :: l)) with (padd a (vsum (b :: l))).
    unfold fwd, padd in *. cbn [vx vy]. lra.
Qed.
Lemma all_bwd_sum l : Forall (fun v => fwd (vneg v)) l -> l <> [] -> fwd (vneg (vsum l)).
Proof. intros F N. rewrite <- vsum_neg. apply all_fwd_sum; [apply Forall_map; auto|destruct l; [congruence|discriminate]]. Qed.
Lemma loop_changes e l : nn e -> Forall nn l -> vsum (e :: l) = porigin -> (1 <= nch (adj e l))%nat.
Proof.
  intros He Hl Hz. destruct (nch (adj e l)) eqn:E; [|lia]. exfalso. pose proof (blocks1 l e He Hl E) as F.
  destruct (fwd_cases e He) as [D|D].
  - apply (fwd_null (vsum (e :: l))); auto. apply all_fwd_sum; [constructor; auto|discriminate]. eapply Forall_impl; [|exact F]. unfold samed. intros v Hv. apply dir_fwd. apply dir_fwd in D. congruence.
  - apply (fwd_null (vneg (vsum (e :: l)))); [|rewrite Hz; unfold vneg, pscale, porigin; cbn [vx vy]; vext; ring].
    apply all_bwd_sum; [constructor; auto|discriminate]. eapply Forall_impl; [|exact F]. unfold samed. intros v Hv. apply dir_bwd. apply dir_bwd in D. congruence.
Qed.
Lemma adj_app {X} (l m : list X) : forall a, adj a (l ++ m) = adj a l ++ adj (last l a) m.
Proof. induction l as [|b l IH]; intro a; auto. cbn [app adj]. rewrite IH, last_cons. auto. Qed.
Lemma nch_app l m : nch (l ++ m) = (nch l + nch m)%nat.
Proof. unfold nch. rewrite filter_app, app_length. auto. Qed.

(** The point p is visited twice: first loop e :: l1, second loop d :: l2. *)
Lemma twice_fwd (s : R) (p e d : pt) (l1 l2 m : list pt) : tsign s -> sided s m -> spread m ->
  fwd e -> Forall nn (l1 ++ d :: l2) -> vsum (e :: l1) = porigin -> vsum (d :: l2) = porigin ->
  (nch (adj e (l1 ++ d :: l2 ++ [e])) <= 2)%nat ->
  In (p, padd p d) (cyc_pairs m) -> In (psub p (last l2 d), p) (cyc_pairs m) ->
  (forall a b, l1 = a ++ b -> In (padd p (padd e (vsum a))) m) -> (forall a b, d :: l2 = a ++ b -> In (padd p (vsum a)) m) -> False.
Proof.
  intros Hs Sd Sp He Hn Z1 Z2 Hc E1 E2 V1 V2.
  apply Forall_app in Hn as [N1 N2]. inversion N2 as [|? ? Nd N3]; subst.
  rewrite adj_app in Hc. cbn [adj] in Hc. rewrite adj_app, nch_app, nch_cons, nch_app in Hc. cbn [adj] in Hc.
  rewrite (nch_cons (last l2 d, e) []) in Hc.
  pose proof (loop_changes e l1 (fwd_null _ He) N1 Z1) as C1. pose proof (loop_changes d l2 Nd N3 Z2) as C2.
  destruct (chg (last l1 e, d)) eqn:J1; [lia|]. 
  assert (J2 : chg (last l2 d, e) = false). { destruct (chg (last l2 d, e)); auto. lia. }
  (* first loop: forward then backward *)
  destruct (blocks2 l1 e (fwd_null _ He) N1 ltac:(lia)) as (f1 & b1 & -> & F1 & B1).
  assert (De := proj2 (dir_fwd e) He).
  assert (Hb1 : b1 <> []).
  { intros ->. rewrite app_nil_r in *. apply (fwd_null (vsum (e :: f1))); auto. apply all_fwd_sum; [constructor; auto|discriminate]. eapply Forall_impl; [|exact F1]. unfold samed. intros v Hv. apply dir_fwd. congruence. }
  assert (Dd : fwd (vneg d)).
  { destruct (exists_last_or b1) as [->|(b1' & z & ->)]; [congruence|]. rewrite app_assoc, last_last in J1.
    apply Forall_app in N1 as [_ N1]. apply Forall_app in N1 as [_ N1]. inversion N1; subst. pose proof (chg_cases z d H1 Nd) as K. rewrite J1 in K. apply Forall_app in B1 as [_ B1]. inversion B1; subst.
    apply dir_bwd. unfold samed, oppd in *. lia. }
  assert (Fl : fwd (last l2 d)).
  { assert (Nl : nn (last l2 d)). { destruct (exists_last_or l2) as [->|(k & z & ->)]; auto. rewrite last_last. apply Forall_app in N3 as [_ N3]. inversion N3; auto. }
    pose proof (chg_cases (last l2 d) e Nl (fwd_null _ He)) as K. rewrite J2 in K. apply dir_fwd. unfold samed in K. lia. }
  destruct (blocks2 l2 d Nd N3 ltac:(lia)) as (b2 & f2 & -> & B2 & F2).
  set (u := last (b2 ++ f2) d) in *.
  set (z := padd e (vsum f1)). assert (Hz : fwd z).
  { apply (all_fwd_sum (e :: f1)); [|discriminate]. constructor; auto. eapply Forall_impl; [|exact F1]. unfold samed. intros v Hv. apply dir_fwd. congruence. }
  set (y := vsum (d :: b2)). assert (Hy : fwd (vneg y)).
  { apply (all_bwd_sum (d :: b2)); [|discriminate]. constructor; auto. eapply Forall_impl; [|exact B2]. unfold samed. intros v Hv. apply dir_bwd. apply dir_bwd in Dd. congruence. }
  assert (Iz : In (padd p z) m) by (apply (V1 f1 b1); auto). assert (Iy : In (padd p y) m) by (apply (V2 (d :: b2) f2); auto).
  assert (U : forall w, In w m -> 0 <= s * pcross u (psub w p)). { intros w Hw. replace (pcross u (psub w p)) with (orient (psub p u) p w) by (clearbody u; ug; ring). apply Sd; auto. }
  assert (W : forall w, In w m -> 0 <= s * pcross d (psub w p)). { intros w Hw. replace (pcross d (psub w p)) with (orient p (padd p d) w) by (ug; ring). apply Sd; auto. }
  assert (K1 : 0 <= s * pcross u (vneg d)).
  { apply (half_trans_s s u z (vneg d)); auto.
    - replace z with (psub (padd p z) p) by (clearbody z; ug; vext; ring). auto.
    - replace (pcross z (vneg d)) with (pcross d (psub (padd p z) p)) by (clearbody z; unfold vneg; ug; ring). auto. }
  assert (K2 : 0 <= s * pcross (vneg d) u).
  { apply (half_trans_s s (vneg d) (vneg y) u); auto.
    - replace (pcross (vneg d) (vneg y)) with (pcross d (psub (padd p y) p)) by (clearbody y; unfold vneg; ug; ring). auto.
    - replace (pcross (vneg y) u) with (pcross u (psub (padd p y) p)) by (clearbody y u; unfold vneg; ug; ring). auto. }
  apply (turn_extreme s u d p m) with (w := padd p z); auto.
  - replace (pcross u d) with (pcross (vneg d) u) by (clearbody u; unfold vneg; ug; ring). auto.
  - replace (psub (padd p z) p) with z by (clearbody z; ug; vext; ring). auto.
Qed.
Lemma vneg_add (a b : pt) : vneg (padd a b) = padd (vneg a) (vneg b). Proof. unfold vneg; ug; vext; ring. Qed.
Lemma vneg_sub (a b : pt) : vneg (psub a b) = psub (vneg a) (vneg b). Proof. unfold vneg; ug; vext; ring. Qed.
Lemma vneg_0 : vneg porigin = porigin. Proof. unfold vneg, porigin, pscale; cbn [vx vy]; vext; ring. Qed.
Lemma nn_neg v : nn v -> nn (vneg v). Proof. intros H K. apply H. rewrite <- (vneg_vneg v), K. apply vneg_0. Qed.
Lemma sided_neg s m : sided s m -> sided s (map vneg m).
Proof.
  intros H a b v He Hv. rewrite cyc_map in He. apply in_map_iff in He as ([a' b'] & E & He). cbn [fst snd] in E. injection E as <- <-. apply in_map_iff in Hv as (v' & <- & Hv).
  replace (orient (vneg a') (vneg b') (vneg v')) with (orient a' b' v') by (unfold vneg; ug; ring). auto.
Qed.
Lemma spread_neg m : spread m -> spread (map vneg m).
Proof.
  intros (p & q & r & Hp & Hq & Hr & K). exists (vneg p), (vneg q), (vneg r). split; [apply in_map; auto|split; [apply in_map; auto|split; [apply in_map; auto|]]].
  intro Z. apply K. rewrite <- Z. unfold vneg. ug. ring.
Qed.
Lemma adj_map {X Y} (f : X -> Y) l : forall a, adj (f a) (map f l) = map (fun e => (f (fst e), f (snd e))) (adj a l).
Proof. induction l as [|b l IH]; intro a; auto. cbn [map adj fst snd]. rewrite IH. auto. Qed.
Lemma last_map {X Y} (f : X -> Y) l d : last (map f l) (f d) = f (last l d).
Proof. revert d. induction l as [|a l IH]; intro d; auto. cbn [map]. rewrite !last_cons. auto. Qed.
Lemma map_app_inv_neg l a b : map vneg l = a ++ b -> l = map vneg a ++ map vneg b.
Proof. intro H. rewrite <- map_app, <- H, map_map. rewrite <- (map_id l) at 1. apply map_ext. intro. symmetry. apply vneg_vneg. Qed.
Lemma in_neg v m : In (vneg v) m -> In v (map vneg m).
Proof. intro H. rewrite <- (vneg_vneg v). apply in_map. auto. Qed.
Lemma twice (s : R) (p e d : pt) (l1 l2 m : list pt) : tsign s -> sided s m -> spread m ->
  nn e -> Forall nn (l1 ++ d :: l2) -> vsum (e :: l1) = porigin -> vsum (d :: l2) = porigin ->
  (nch (adj e (l1 ++ d :: l2 ++ [e])) <= 2)%nat ->
  In (p, padd p d) (cyc_pairs m) -> In (psub p (last l2 d), p) (cyc_pairs m) ->
  (forall a b, l1 = a ++ b -> In (padd p (padd e (vsum a))) m) -> (forall a b, d :: l2 = a ++ b -> In (padd p (vsum a)) m) -> False.
Proof.
  intros Hs Sd Sp He Hn Z1 Z2 Hc E1 E2 V1 V2. destruct (fwd_cases e He) as [F|F]; [eapply (twice_fwd s p e d l1 l2 m); eauto|].
  apply (twice_fwd s (vneg p) (vneg e) (vneg d) (map vneg l1) (map vneg l2) (map vneg m)); auto using sided_neg, spread_neg.
  - change (vneg d :: map vneg l2) with (map vneg (d :: l2)). rewrite <- map_app. apply Forall_map. eapply Forall_impl; [|exact Hn]. intro. apply nn_neg.
  - change (vneg e :: map vneg l1) with (map vneg (e :: l1)). rewrite vsum_neg, Z1. apply vneg_0.
  - change (vneg d :: map vneg l2) with (map vneg (d :: l2)). rewrite vsum_neg, Z2. apply vneg_0.
  - replace (map vneg l1 ++ vneg d :: map vneg l2 ++ [vneg e]) with (map vneg (l1 ++ d :: l2 ++ [e])) by (rewrite map_app; cbn [map]; rewrite map_app; auto).
    rewrite adj_map, nch_neg. auto.
  - rewrite cyc_map, <- vneg_add. apply in_map_iff. exists (p, padd p d). auto.
  - rewrite cyc_map, last_map, <- vneg_sub. apply in_map_iff. exists (psub p (last l2 d), p). auto.
  - intros a b E. apply map_app_inv_neg in E. apply V1 in E. rewrite vsum_neg in E. apply in_neg. rewrite vneg_add, vneg_vneg, vneg_add, vneg_vneg. auto.
  - intros a b E. apply (map_app_inv_neg (d :: l2)) in E. apply V2 in E. rewrite vsum_neg in E. apply in_neg. rewrite vneg_add, vneg_vneg. auto.
Qed.
Lemma path_vertices l : forall x pre suf, map diff (adj x l) = pre ++ suf -> In (padd x (vsum pre)) (x :: l).
Proof.
  induction l as [|b l IH]; intros x pre suf H.
  - destruct pre; [left; unfold vsum; cbn; ug; vext; ring|discriminate].
  - destruct pre as [|c pre]; [left; unfold vsum; cbn; ug; vext; ring|]. cbn [adj map app] in H. injection H as <- H. right.
    apply IH in H. replace (padd x (vsum (diff (x, b) :: pre))) with (padd b (vsum pre)); auto. unfold vsum, diff. cbn [fold_right fst snd]. fold (vsum pre). ug. vext; ring.
Qed.
Lemma not_nodup_split {X} (dec : forall a b : X, {a = b} + {a <> b}) (l : list X) : ~ NoDup l -> exists a x A B, l = x ++ a :: A ++ a :: B.
Proof.
  induction l as [|b l IH]; intro H; [exfalso; apply H; constructor|]. destruct (in_dec dec b l) as [K|K].
  - apply in_split in K as (A & B & ->). exists b, [], A, B. auto.
  - destruct IH as (a & x & A & B & ->); [intro N; apply H; constructor; auto|]. exists a, (b :: x), A, B. auto.
Qed.
Lemma nodup_once (s : R) (m : list pt) : tsign s -> (forall a b, In (a, b) (cyc_pairs m) -> a <> b) -> one_way s m -> (changes m <= 2)%nat -> spread m -> NoDup m.
Proof.
  intros Hs D W C Sp. assert (DEC : forall a b : pt, {a = b} + {a <> b}).
  { intros [a1 a2] [b1 b2]. destruct (Req_EM_T a1 b1) as [->|H]; [|right; intro K; apply mkV_inj in K; tauto]. destruct (Req_EM_T a2 b2) as [->|H]; [left; auto|right; intro K; apply mkV_inj in K; tauto]. }
  destruct (NoDup_dec DEC m) as [|K]; auto. exfalso.
  apply (not_nodup_split DEC) in K as (p & x & A & B & E).
  assert (Rt : rotated m (p :: A ++ p :: (B ++ x))). { exists x, (p :: A ++ p :: B). split; auto. cbn. rewrite <- app_assoc. auto. }
  clear E. set (c := B ++ x) in *. clearbody c. set (m2 := p :: A ++ p :: c) in *.
  apply (one_way_rot s _ _ Rt) in W. rewrite (changes_rot _ _ Rt) in C. apply (spread_rot _ _ Rt) in Sp.
  assert (D2 : forall a b, In (a, b) (cyc_pairs m2) -> a <> b). { intros a b H. apply D. apply (cyc_rot_in _ _ _ Rt). auto. }
  clear D Rt m. pose proof (one_way_side s m2 Hs W C) as Sd. fold (sided s m2) in Sd.
  assert (Cy : cyc_pairs m2 = adj p (A ++ [p]) ++ adj p (c ++ [p])).
  { unfold m2. rewrite cyc_cons. replace ((A ++ p :: c) ++ [p]) with ((A ++ [p]) ++ c ++ [p]) by (rewrite <- !app_assoc; auto). rewrite adj_app, last_last. auto. }
  destruct A as [|a0 A]; [exfalso; apply (D2 p p); auto; rewrite Cy; left; auto|].
  destruct c as [|c0 c]; [exfalso; apply (D2 p p); auto; rewrite Cy; apply in_or_app; right; left; auto|].
  pose proof (edgev_distinct m2 D2) as Ee. rewrite Cy, map_app in Ee. cbn [app adj map] in Ee.
  set (e := diff (p, a0)) in *. set (l1 := map diff (adj a0 (A ++ [p]))) in *. set (d := diff (p, c0)) in *. set (l2 := map diff (adj c0 (c ++ [p]))) in *.
  pose proof (edgev_nn m2) as N. rewrite Ee in N. inversion N; subst.
  unfold changes in C. rewrite Ee in C. cbn [app] in C. rewrite cyc_cons in C.
  apply (twice s p e d l1 l2 m2); auto.
  - change (e :: l1) with (map diff (adj p ((a0 :: A) ++ [p]))). rewrite vsum_adj, last_last. ug. vext; ring.
  - change (d :: l2) with (map diff (adj p ((c0 :: c) ++ [p]))). rewrite vsum_adj, last_last. ug. vext; ring.
  - rewrite <- app_assoc in C. exact C.
  - rewrite Cy. apply in_or_app. right. left. subst d. unfold diff. cbn [fst snd]. f_equal. ug. vext; ring.
  - rewrite Cy. apply in_or_app. right.
    assert (L : forall l y, In (psub p (last (map diff (adj y (l ++ [p]))) d), p) (adj y (l ++ [p]))).
    { clear. induction l as [|b l IH]; intro y.
      - left. cbn [app adj map last]. unfold diff. cbn [fst snd]. f_equal. ug. vext; ring.
      - cbn [app adj map]. right. rewrite last_cons. destruct (map diff (adj b (l ++ [p]))) as [|z t] eqn:Em; [destruct l; discriminate|].
        specialize (IH b). rewrite Em in IH. rewrite last_cons in *. auto. }
    cbn [app adj]. right. apply L.
  - intros a b El. change (padd e (vsum a)) with (vsum (e :: a)).
    assert (K : In (padd p (vsum (e :: a))) (p :: (a0 :: A) ++ [p])). { apply (path_vertices _ p (e :: a) b). cbn [app adj map]. fold e. fold l1. rewrite El. auto. }
    unfold m2. destruct K as [K|K]; [left; auto|right]. apply in_app_or in K as [K|[K|[]]]; apply in_or_app; [left; auto|right; left; auto].
  - intros a b El.
    assert (K : In (padd p (vsum a)) (p :: (c0 :: c) ++ [p])). { apply (path_vertices _ p a b). cbn [app adj map]. fold d. fold l2. rewrite El. auto. }
    unfold m2. destruct K as [K|K]; [left; auto|right]. apply in_or_app. right. apply in_app_or in K as [K|[K|[]]]; [right; auto|left; auto].
Qed.
Lemma adj_const_or {X} (l : list X) : (forall a b : X, a = b \/ a <> b) -> forall a, (forall x, In x l -> x = a) \/ exists u v, In (u, v) (adj a l) /\ u <> v.
Proof.
  intro dec. induction l as [|b l IH]; intro a; [left; intros x []|]. destruct (dec a b) as [<-|N]; [|right; exists a, b; split; [left|]; auto].
  destruct (IH a) as [H|(u & v & H & K)]; [left; intros x [<-|Hx]; auto|right; exists u, v; split; [right|]; auto].
Qed.
Lemma once_of_two (s : R) (l : list pt) : tsign s -> one_way s l -> (changes l <= 2)%nat -> spread l -> visits_once l.
Proof.
  intros Hs W C Sp.
  assert (X : exists a b m, rotated l (b :: m ++ [a]) /\ a <> b).
  { destruct l as [|x t]; [destruct Sp as (? & ? & ? & [] & _)|].
    destruct (adj_const_or (t ++ [x]) veq_dec_R x) as [H|(u & v & H & K)].
    - exfalso. destruct Sp as (p & q & r & Hp & Hq & Hr & K). apply K. assert (A : forall y, In y (x :: t) -> y = x) by (intros y [<-|Hy]; auto; apply H, in_or_app; auto).
      rewrite (A p Hp), (A q Hq), (A r Hr). ug. ring.
    - rewrite <- cyc_cons in H. destruct (cyc_in_rot u v _ H) as [|(m & Rt)]; [contradiction|]. exists u, v, m. split; auto.
      eapply rotated_trans; [exact Rt|]. exists [u], (v :: m). auto. }
  destruct X as (a & b & m & Rt & Ne). apply (one_way_rot s _ _ Rt) in W. rewrite (changes_rot _ _ Rt) in C. apply (spread_rot _ _ Rt) in Sp.
  destruct (runs_exist (b :: m ++ [a])) as (runs & E & D & _ & H1 & H2). exists runs. fold (flat runs). rewrite <- E. split; auto.
  rewrite E in W, C, Sp. unfold one_way, changes in W, C. rewrite edgev_flat in W, C.
  apply (nodup_once s); auto; [|destruct Sp as (p & q & r & Hp & Hq & Hr & K); exists p, q, r; rewrite <- !flat_in; auto].
  specialize (H1 a). specialize (H2 b). cbn [hd] in H1. rewrite last_cons, last_last in H2. clear - D H1 H2 Ne.
  destruct (map fst runs) as [|x t]; [cbn in H1; congruence|]. cbn [hd] in H1. subst x. rewrite cyc_cons. rewrite last_cons in H2.
  assert (G : forall t x, distinct_adj (x :: t) -> last t x = a -> forall u v, In (u, v) (adj x (t ++ [b])) -> u <> v); [|apply G; auto].
  clear D H2 t. induction t as [|y t IH]; intros x D L u v H.
  - cbn [app adj In last] in H, L. destruct H as [H|[]]. injection H as <- <-. subst. auto.
  - cbn [app adj In] in H. destruct D as [D1 D2]. destruct H as [H|H]; [injection H as <- <-; auto|]. rewrite last_cons in L. eapply (IH y); eauto.
Qed.
