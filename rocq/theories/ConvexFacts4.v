(** * What is_convex answers *)
From Coq Require Import ZArith List Bool Reals Lra Lia Psatz Permutation.
From Verif Require Import Num Vec Affine Box Seq Polygon SpecGeom SpecAffine SpecMass SpecConvex RBase VecFacts VecFacts2 BoxFacts BoxFacts2 PolyCache PolyCache2 PolyCache3
  SpecCycle PolyEq CentroidFacts WindFacts ConvexFacts ConvexFacts2 ConvexFacts3.
Import ListNotations.
Local Open Scope R_scope.

Lemma two_last (l : list pt) : (2 <= length l)%nat -> last_two_differ l \/ exists k x, l = k ++ [x; x].
Proof.
  intro H. destruct (exists_last_or l) as [->|(k & y & ->)]; [cbn in H; lia|]. rewrite app_length in H. cbn in H.
  destruct (exists_last_or k) as [->|(k' & x & ->)]; [cbn in H; lia|]. rewrite <- app_assoc. cbn [app].
  destruct (veq_dec_R x y) as [->|N]; [right; eauto|left; exists k', x, y; auto].
Qed.
Lemma py_get_tail {X} k (x y : X) : py_get (k ++ [x; y]) (-1) = Ok y /\ py_get (k ++ [x; y]) (-2) = Ok x.
Proof.
  split; [rewrite (py_get_last _ y) by (destruct k; discriminate); f_equal; change [x; y] with ([x] ++ [y]); rewrite app_assoc; apply last_last|].
  destruct (py_get_neg (k ++ [x; y]) 2) as (w & Hw & Hn); [rewrite app_length; cbn; lia|]. change (- Z.of_nat 2)%Z with (-2)%Z in Hw. rewrite Hw. f_equal.
  revert Hn. rewrite app_length. cbn [length]. replace (length k + 2 - 2)%nat with (length k) by lia. rewrite nth_error_app2, Nat.sub_diag by lia. cbn. congruence.
Qed.
(** Convex and going around once is enough, whatever the last two vertices. *)
Lemma classify_core_complete s (l : list pt) : tsign s -> (2 <= length l)%nat -> one_way s l -> (changes l <= 2)%nat -> exists d k, classify_core l = Ok (true, d, k).
Proof.
  intros Hs HL W C. assert (W' : one_way 1 l \/ one_way (-1) l) by (destruct Hs as [-> | ->]; auto).
  destruct (two_last l HL) as [D|(k & x & ->)].
  - destruct (classify_core_R l D) as (c & d & k & E & H & _). exists d, k. rewrite E. replace c with true; auto. symmetry. apply H. auto.
  - unfold classify_core. destruct (py_get_tail k x x) as [-> ->]. cbn [bind].
    replace (k ++ [x; x]) with ((k ++ [x]) ++ [x]) in * by (rewrite <- app_assoc; auto). rewrite edge_vectors_snoc.
    assert (R0 : rotated ((k ++ [x]) ++ [x]) (x :: k ++ [x])) by (exists (k ++ [x]), [x]; auto).
    assert (W2 : one_way 1 (x :: k ++ [x]) \/ one_way (-1) (x :: k ++ [x])) by (destruct W'; [left|right]; eapply one_way_rot; eauto).
    rewrite (changes_rot _ _ R0) in C.
    set (e := vsub x x). pose proof (classify_loop_R (edgev (x :: k ++ [x])) e 0%nat 0%Z 0%nat (or_introl eq_refl)) as CL.
    destruct (classify_loop _ _ _ _ _ _) as [[[c dc] sg] cnt]. destruct CL as [C1 C2].
    assert (E0 : e = porigin) by (unfold e, vsub, porigin; rnum; vext; ring).
    assert (SUB : (forall Q : pt * pt -> Prop, Q (e, hd e (edgev (x :: k ++ [x]))) -> Forall Q (cyc_pairs (edgev (x :: k ++ [x]))) -> Forall Q (adj e (edgev (x :: k ++ [x])))) /\ (nch (adj e (edgev (x :: k ++ [x]))) <= changes (x :: k ++ [x]))%nat).
    { unfold changes. pose proof (edgev_nn (x :: k ++ [x])) as N. destruct (edgev (x :: k ++ [x])) as [|d t]; [split; [intros; constructor|cbn; lia]|].
      inversion N; subst. cbn [hd]. rewrite cyc_cons, adj_app. cbn [adj]. split.
      - intros Q HQ F. constructor; auto. apply Forall_app in F. tauto.
      - rewrite nch_cons, nch_app. replace (chg (e, d)) with false; [lia|]. symmetry. unfold chg. cbn [fst snd]. replace (dir_of e) with 0%Z by (rewrite E0; unfold dir_of, porigin; rnum; destruct (Rltb_spec 0 0); [lra|auto]).
        apply Z.eqb_neq. destruct (dir_nn d H1); lia. }
    destruct SUB as [S1 S2].
    assert (T0 : tn (e, hd e (edgev (x :: k ++ [x]))) = 0) by (unfold tn; cbn [fst snd]; generalize (hd e (edgev (x :: k ++ [x]))); intro w; rewrite E0; unfold porigin; ug; cbn [vx vy]; ring).
    destruct (tn_one_way (x :: k ++ [x])) as [I1 I2].
    assert (Hc : c = true). { apply C1. destruct W2 as [W2|W2]; [left|right]; (split; [lia|]); apply S1; try lra; [apply I1|apply I2]; auto. }
    destruct (C2 Hc) as (J1 & _). do 2 eexists. rewrite Hc. destruct (Nat.leb_spec dc 2) as [L|L]; [reflexivity|lia].
Qed.

(** The answer read from a polygon with more than three vertices. *)
Lemma convex_answer (vs : list pt) : (3 < length vs)%nat -> exists c d k, classify_core vs = Ok (c, d, k) /\ fst (get_is_convex (pfresh vs)) = Ok c.
Proof.
  intro H. destruct (classify_core_total vs ltac:(lia)) as [[[c d] k] E]. exists c, d, k. split; auto.
  unfold get_is_convex. destruct (pfresh_big vs H) as (-> & _). unfold classify. rewrite pverts_fresh, E. cbn [bind].
  destruct (c && negb d); [|reflexivity]. destruct (split_ok vs) as [pl Hpl]; [destruct vs; [cbn in H; lia|discriminate]|]. rewrite Hpl. reflexivity.
Qed.
Lemma convex_small (vs : list pt) : (length vs <= 3)%nat -> fst (get_is_convex (pfresh vs)) = Ok true.
Proof. destruct vs as [|? [|? [|? [|]]]]; cbn [length]; intro; try lia; reflexivity. Qed.
Lemma triangle_sided (a b c : pt) : sided 1 [a; b; c] \/ sided (-1) [a; b; c].
Proof.
  assert (E : forall x y v, In (x, y) (cyc_pairs [a; b; c]) -> In v [a; b; c] -> orient x y v = 0 \/ orient x y v = orient a b c).
  { intros x y v He Hv. cbn in He, Hv. destruct He as [He|[He|[He|[]]]]; injection He as <- <-; destruct Hv as [<-|[<-|[<-|[]]]];
      first [left; ug; ring|right; ug; ring]. }
  destruct (Rle_lt_dec 0 (orient a b c)); [left|right]; intros x y v He Hv; destruct (E x y v He Hv); lra.
Qed.

(** ** Reversal *)
Lemma edgev_rev l : rotated (edgev (rev l)) (rev (map vneg (edgev l))).
Proof.
  destruct l as [|a l]; [exists [], []; auto|]. cbn [rev].
  assert (R0 : rotated (rev l ++ [a]) (a :: rev l)) by (exists (rev l), [a]; auto).
  eapply rotated_trans; [apply (edgev_rot _ _ R0)|].
  assert (C : cyc_pairs (a :: rev l) = rev (map swap (cyc_pairs (a :: l)))).
  { rewrite !cyc_cons. change (adj a (rev l ++ [a])) with (path (a :: rev l ++ [a])). change (adj a (l ++ [a])) with (path (a :: l ++ [a])).
    rewrite <- path_rev. f_equal. cbn [rev]. rewrite rev_app_distr. reflexivity. }
  unfold edgev. rewrite C. replace (filter vec_bool (map diff (rev (map swap (cyc_pairs (a :: l)))))) with (rev (map vneg (filter vec_bool (map diff (cyc_pairs (a :: l)))))); [apply rot_refl|].
  rewrite map_rev. generalize (cyc_pairs (a :: l)). clear. induction l as [|[x y] l IH]; auto. cbn [map rev]. rewrite filter_app, <- IH. cbn [filter map]. unfold swap. cbn [fst snd].
  assert (V : diff (y, x) = vneg (diff (x, y))) by (unfold diff, vneg; cbn [fst snd]; ug; vext; ring). rewrite V.
  destruct (vec_bool (diff (x, y))) eqn:B.
  - assert (B' : vec_bool (vneg (diff (x, y))) = true) by (apply vec_bool_nn, nn_neg, vec_bool_nn; auto). rewrite B'. reflexivity.
  - assert (B' : vec_bool (vneg (diff (x, y))) = false).
    { destruct (vec_bool (vneg (diff (x, y)))) eqn:B2; auto. apply vec_bool_nn, nn_neg in B2. rewrite vneg_vneg in B2. apply vec_bool_nn in B2. congruence. }
    rewrite B'. rewrite app_nil_r. reflexivity.
Qed.
Lemma rev_one_way s l : one_way s l -> one_way (- s) (rev l).
Proof.
  unfold one_way. intro H. rewrite (cyc_rotated _ _ (edgev_rev l)), (cyc_rev (map vneg (edgev l))). apply Forall_map. rewrite cyc_map. apply Forall_map.
  eapply Forall_impl; [|exact H]. intros [x y]. unfold turn, swap. cbn [fst snd]. rewrite pcross_neg. replace (pcross y x) with (- pcross x y) by (ug; ring). lra.
Qed.
Lemma rev_changes l : changes (rev l) = changes l.
Proof.
  unfold changes. rewrite (nch_perm _ _ (cyc_rotated _ _ (edgev_rev l))), (nch_perm _ _ (cyc_rev (map vneg (edgev l)))), cyc_map.
  generalize (cyc_pairs (edgev l)). clear. induction l as [|[x y] l IH]; auto. cbn [map]. rewrite !nch_cons, IH. unfold chg, swap. cbn [fst snd]. rewrite !dir_neg.
  destruct (Z.eqb_spec (- dir_of x) (- - dir_of y)), (Z.eqb_spec (dir_of y) (- dir_of x)); auto; lia.
Qed.

(** ** Affine images *)
Definition inv_mat (m : affine R) : affine R :=
  let d := det m in mkA (ae m / d) (- ab m / d) ((ad m * af m - ae m * ac m) / d) (- ad m / d) (aa m / d) ((ab m * ac m - aa m * af m) / d).
Lemma inv_img m p : det m <> 0 -> img (inv_mat m) (img m p) = p.
Proof. intro D. destruct p as [x y]. unfold img, inv_mat. cbn. unfold det in *. vext; field; auto. Qed.
Lemma inv_det m : det m <> 0 -> det (inv_mat m) <> 0.
Proof.
  intro D. assert (E : det (inv_mat m) = 1 / det m). { unfold det at 1, inv_mat. cbn. unfold det in *. field; auto. }
  rewrite E. apply Rmult_integral_contrapositive. split; [lra|]. apply Rinv_neq_0_compat; auto.
Qed.
Lemma once_map (f : pt -> pt) l : (forall a b, f a = f b -> a = b) -> visits_once l -> visits_once (map f l).
Proof.
  intros I (runs & N & Rt). exists (map (fun r => (f (fst r), snd r)) runs). split.
  - rewrite map_map. cbn [fst]. rewrite <- (map_map fst f). clear - I N. induction (map fst runs) as [|a l IH]; [constructor|]. inversion N; subst. cbn [map]. constructor; auto.
    intro K. apply in_map_iff in K as (b & E & K). apply I in E. subst. auto.
  - apply (rot_map f) in Rt. fold (flat runs) in Rt. match goal with |- rotated _ ?x => replace x with (map f (flat runs)); auto end.
    clear. induction runs as [|[a k] runs IH]; auto. rewrite flat_cons. cbn [map flat_map fst snd]. rewrite map_app, IH. cbn [repeat app]. f_equal. f_equal. clear. induction k; cbn; congruence.
Qed.
Lemma spread_img m l : det m <> 0 -> spread l -> spread (map (img m) l).
Proof.
  intros D (p & q & r & Hp & Hq & Hr & K). exists (img m p), (img m q), (img m r). split; [apply in_map; auto|split; [apply in_map; auto|split; [apply in_map; auto|]]].
  rewrite orient_img. apply Rmult_integral_contrapositive; auto.
Qed.
Lemma sided_img m l : det m <> 0 -> sided 1 l \/ sided (-1) l -> sided 1 (map (img m) l) \/ sided (-1) (map (img m) l).
Proof.
  intros D H. assert (K : forall s, sided s l -> sided (if Rlt_dec 0 (det m) then s else - s) (map (img m) l)).
  { intros s Hs a b v He Hv. rewrite cyc_map in He. apply in_map_iff in He as ([a' b'] & E & He). cbn [fst snd] in E. injection E as <- <-. apply in_map_iff in Hv as (v' & <- & Hv).
    rewrite orient_img. specialize (Hs a' b' v' He Hv). destruct (Rlt_dec 0 (det m)); nra. }
  destruct H as [H|H]; apply K in H; destruct (Rlt_dec 0 (det m)); auto.
  left. replace 1 with (- (-1)) by ring. exact H.
Qed.
Lemma reported_img m l c c' d d' k k' : det m <> 0 -> spread l -> last_two_differ l -> (2 <= length l)%nat ->
  classify_core l = Ok (c, d, k) -> classify_core (map (img m) l) = Ok (c', d', k') -> c = true -> c' = true.
Proof.
  intros D Sp LD HL E E' ->. destruct (classify_core_R l LD) as (c0 & d0 & k0 & E0 & H & _). rewrite E0 in E. injection E as -> <- <-.
  destruct (proj1 H eq_refl) as [W C].
  assert (O : visits_once l) by (destruct W as [W|W]; [apply (once_of_two 1)|apply (once_of_two (-1))]; unfold tsign; auto).
  assert (S : sided 1 l \/ sided (-1) l) by (destruct W as [W|W]; [left; exact (one_way_side 1 l (or_introl eq_refl) W C)|right; exact (one_way_side (-1) l (or_intror eq_refl) W C)]).
  apply (sided_img m) in S; auto. apply (spread_img m) in Sp; auto.
  assert (I : forall a b, img m a = img m b -> a = b). { intros a b K. rewrite <- (inv_img m a), <- (inv_img m b), K; auto. }
  apply (once_map (img m) l I) in O.
  assert (L' : (2 <= length (map (img m) l))%nat) by (rewrite map_length; auto).
  destruct S as [S|S].
  - destruct (complete_once 1 _ (or_introl eq_refl) O S Sp) as [W' C']. destruct (classify_core_complete 1 _ (or_introl eq_refl) L' W' C') as (? & ? & E2). rewrite E2 in E'. congruence.
  - destruct (complete_once (-1) _ (or_intror eq_refl) O S Sp) as [W' C']. destruct (classify_core_complete (-1) _ (or_intror eq_refl) L' W' C') as (? & ? & E2). rewrite E2 in E'. congruence.
Qed.
