(** * Running the polygon code on two number systems side by side

    [r k s a b] says that [a : T1] and [b : T2] stand for the same quantity, of
    at most [k] bits, on a grid whose step is the [s]-th power of the step of
    the coordinates.  Under the laws below every comparison made by the polygon
    predicates comes out the same on both sides. *)
From Coq Require Import ZArith List Bool Lia.
From Verif Require Import Num Vec Affine Box Seq Polygon Tangent PolyOps.
Import ListNotations.
Local Open Scope num_scope.

Record RelLaws {T1 T2 : Type} (N1 : Num T1) (N2 : Num T2)
  (r : nat -> nat -> T1 -> T2 -> Prop) : Prop := {
  rl_sub : forall k s a b a' b', (k < 53)%nat -> (s <= 2)%nat -> r k s a a' -> r k s b b' ->
           r (S k) s (a - b) (a' - b');
  rl_mul : forall k s k' s' a b a' b', (k + k' <= 53)%nat -> (s + s' <= 2)%nat ->
           r k s a a' -> r k' s' b b' -> r (k + k')%nat (s + s')%nat (a * b) (a' * b');
  rl_lt : forall k s k' s' a b a' b', r k s a a' -> r k' s' b b' -> (a <? b) = (a' <? b');
  rl_le : forall k s k' s' a b a' b', r k s a a' -> r k' s' b b' -> (a <=? b) = (a' <=? b');
  rl_eq : forall k s k' s' a b a' b', r k s a a' -> r k' s' b b' -> (a =? b) = (a' =? b');
  rl_0 : r 0 0 n0 n0;
  rl_1 : r 0 0 n1 n1 }.

Definition rres {X Y : Type} (R : X -> Y -> Prop) (x : res X) (y : res Y) : Prop :=
  match x, y with
  | Ok a, Ok b => R a b
  | Err e, Err e' => e = e'
  | _, _ => False
  end.
Definition ropt {X Y : Type} (R : X -> Y -> Prop) (x : option X) (y : option Y) : Prop :=
  match x, y with
  | Some a, Some b => R a b
  | None, None => True
  | _, _ => False
  end.
Lemma rres_bind {X Y X' Y'} (R : X -> X' -> Prop) (Q : Y -> Y' -> Prop) a a' f f' :
  rres R a a' -> (forall x x', R x x' -> rres Q (f x) (f' x')) ->
  rres Q (let* x := a in f x) (let* x := a' in f' x).
Proof. destruct a, a'; cbn; try tauto; auto. Qed.
Lemma rres_eq {X} (x y : res X) : rres eq x y <-> x = y.
Proof. destruct x, y; cbn; split; congruence || (intros; congruence) || tauto || auto; intros; try congruence; try contradiction. Qed.

Section Lists.
  Context {X Y : Type} (R : X -> Y -> Prop).
  Lemma F2_length l l' : Forall2 R l l' -> length l = length l'.
  Proof. induction 1; cbn; auto. Qed.
  Lemma F2_nth l l' : Forall2 R l l' -> forall i, ropt R (nth_error l i) (nth_error l' i).
  Proof. induction 1; destruct i; cbn; auto. Qed.
  Lemma F2_last l l' : Forall2 R l l' -> forall d d', R d d' -> R (last l d) (last l' d').
  Proof. induction 1 as [|a b l l' H H0 IH]; intros; cbn; auto. inversion H0; subst; auto. Qed.
  Lemma F2_app l l' m m' : Forall2 R l l' -> Forall2 R m m' -> Forall2 R (l ++ m) (l' ++ m').
  Proof. intros; apply Forall2_app; auto. Qed.
  Lemma F2_rev l l' : Forall2 R l l' -> Forall2 R (rev l) (rev l').
  Proof. induction 1; cbn; auto. apply Forall2_app; auto. Qed.
  Lemma F2_firstn l l' : Forall2 R l l' -> forall n, Forall2 R (firstn n l) (firstn n l').
  Proof. induction 1; destruct n; cbn; auto. Qed.
  Lemma F2_skipn l l' : Forall2 R l l' -> forall n, Forall2 R (skipn n l) (skipn n l').
  Proof. induction 1; destruct n; cbn; auto. Qed.
  Lemma F2_filter f f' l l' : (forall a a', R a a' -> f a = f' a') -> Forall2 R l l' ->
    Forall2 R (filter f l) (filter f' l').
  Proof. intros Hf. induction 1 as [|a b l l' H H0 IH]; cbn; auto. rewrite (Hf _ _ H). destruct (f' b); auto. Qed.
  Lemma F2_existsb f f' l l' : (forall a a', R a a' -> f a = f' a') -> Forall2 R l l' ->
    existsb f l = existsb f' l'.
  Proof. intros Hf. induction 1 as [|a b l l' H H0 IH]; cbn; auto. rewrite (Hf _ _ H), IH; auto. Qed.
  Lemma F2_forallb f f' l l' : (forall a a', R a a' -> f a = f' a') -> Forall2 R l l' ->
    forallb f l = forallb f' l'.
  Proof. intros Hf. induction 1 as [|a b l l' H H0 IH]; cbn; auto. rewrite (Hf _ _ H), IH; auto. Qed.
  Lemma F2_get l l' i : Forall2 R l l' -> rres R (py_get l i) (py_get l' i).
  Proof.
    intros H. unfold py_get. rewrite (F2_length _ _ H). destruct (py_index (length l') i) as [k|]; cbn; auto.
    pose proof (F2_nth _ _ H k) as Hk. destruct (nth_error l k), (nth_error l' k); cbn in *; tauto || auto.
  Qed.
  Lemma F2_insert lt lt' : (forall a a' b b', R a a' -> R b b' -> lt a b = lt' a' b') ->
    forall l l', Forall2 R l l' -> forall x x', R x x' -> Forall2 R (insert_by lt x l) (insert_by lt' x' l').
  Proof.
    intros Hl. induction 1 as [|a b l l' H H0 IH]; intros x x' Hx; cbn; auto.
    rewrite (Hl _ _ _ _ Hx H). destruct (lt' x' b); auto.
  Qed.
  Lemma F2_sort lt lt' : (forall a a' b b', R a a' -> R b b' -> lt a b = lt' a' b') ->
    forall l l', Forall2 R l l' -> Forall2 R (sort_by lt l) (sort_by lt' l').
  Proof.
    intros Hl l l' H. unfold sort_by. assert (H0 : Forall2 R [] []) by auto. revert H0.
    generalize (@nil X) as acc, (@nil Y) as acc'. induction H; intros acc acc' Ha; cbn; auto.
    apply IHForall2. apply F2_insert; auto.
  Qed.
  Lemma F2_fold {Z Z'} (Q : Z -> Z' -> Prop) f f' : (forall s s' a a', Q s s' -> R a a' -> Q (f s a) (f' s' a')) ->
    forall l l', Forall2 R l l' -> forall s s', Q s s' -> Q (fold_left f l s) (fold_left f' l' s').
  Proof. intros Hf. induction 1; cbn; auto. Qed.
  Lemma F2_set l l' i x x' : Forall2 R l l' -> R x x' -> rres (Forall2 R) (py_set l i x) (py_set l' i x').
  Proof.
    intros H Hx. unfold py_set. rewrite (F2_length _ _ H). destruct (py_index (length l') i) as [k|]; cbn; auto.
    apply F2_app; [apply F2_firstn; auto|]. constructor; auto. 
    change (Forall2 R (skipn (S k) l) (skipn (S k) l')). apply F2_skipn; auto.
  Qed.
End Lists.
Lemma F2_map {X Y X' Y'} (R : X -> Y -> Prop) (Q : X' -> Y' -> Prop) f f' l l' :
  (forall a a', R a a' -> Q (f a) (f' a')) -> Forall2 R l l' -> Forall2 Q (map f l) (map f' l').
Proof. intros Hf. induction 1; cbn; auto. Qed.

Section Rel.
  Context {T1 T2 : Type} {N1 : Num T1} {N2 : Num T2} (r : nat -> nat -> T1 -> T2 -> Prop).
  Context (RL : RelLaws N1 N2 r).

  (** Coordinates, differences of coordinates, products of differences. *)
  Definition rc : T1 -> T2 -> Prop := r 25 1.
  Definition rd : T1 -> T2 -> Prop := r 26 1.
  Definition re : T1 -> T2 -> Prop := r 53 2.
  Definition rv (v : vec T1) (w : vec T2) : Prop := rc (vx v) (vx w) /\ rc (vy v) (vy w).
  Definition rdv (v : vec T1) (w : vec T2) : Prop := rd (vx v) (vx w) /\ rd (vy v) (vy w).
  Definition ryx (q : T1 * T1) (q' : T2 * T2) : Prop := rc (fst q) (fst q') /\ rc (snd q) (snd q').

  Lemma r_diff a b a' b' : rc a a' -> rc b b' -> rd (a - b) (a' - b').
  Proof using RL. intros. apply (rl_sub _ _ _ RL); auto; lia. Qed.
  Lemma r_det a b c d a' b' c' d' : rd a a' -> rd b b' -> rd c c' -> rd d d' ->
    re (a * b - c * d) (a' * b' - c' * d').
  Proof using RL.
    intros Ha Hb Hc Hd. apply (rl_sub _ _ _ RL); try lia.
    - apply (rl_mul _ _ _ RL 26 1 26 1); auto; lia.
    - apply (rl_mul _ _ _ RL 26 1 26 1); auto; lia.
  Qed.
  Lemma r_one a a' : rc a a' -> rc (a * n1) (a' * n1).
  Proof using RL. intros. apply (rl_mul _ _ _ RL 25 1 0 0); auto; try lia. apply RL. Qed.
  Lemma r_vec2 a b a' b' : rc a a' -> rc b b' -> rv (vec2 a b) (vec2 a' b').
  Proof using RL. split; cbn [vec2 vx vy]; apply r_one; auto. Qed.
  Lemma r_vec2_of v v' : rv v v' -> rv (vec2_of v) (vec2_of v').
  Proof using RL. intros [H1 H2]. apply r_vec2; auto. Qed.
  Lemma r_vsub v w v' w' : rv v v' -> rv w w' -> rdv (vsub v w) (vsub v' w').
  Proof using RL. intros [H1 H2] [H3 H4]. split; cbn [vsub vx vy]; apply r_diff; auto. Qed.
  Lemma r_cross v w v' w' : rdv v v' -> rdv w w' -> re (cross v w) (cross v' w').
  Proof using RL. intros [H1 H2] [H3 H4]. apply r_det; auto. Qed.
  Lemma r_side a b p a' b' p' : rv a a' -> rv b b' -> rv p p' -> re (side a b p) (side a' b' p').
  Proof using RL. intros [] [] []. apply r_det; apply r_diff; auto. Qed.
  Lemma r_seg_dir a b p a' b' p' : rv a a' -> rv b b' -> rv p p' -> re (seg_dir a b p) (seg_dir a' b' p').
  Proof using RL. intros [] [] []. apply r_det; apply r_diff; auto. Qed.
  Lemma r_side_yx a b p a' b' p' : ryx a a' -> ryx b b' -> rv p p' -> re (side_yx a b p) (side_yx a' b' p').
  Proof using RL. intros [] [] []. apply r_det; apply r_diff; auto. Qed.

  Lemma r_gt0 k s a a' : r k s a a' -> (a >? n0) = (a' >? n0).
  Proof using RL. intros. eapply (rl_lt _ _ _ RL); eauto. apply RL. Qed.
  Lemma r_lt0 k s a a' : r k s a a' -> (a <? n0) = (a' <? n0).
  Proof using RL. intros. eapply (rl_lt _ _ _ RL); eauto. apply RL. Qed.
  Lemma r_le0 k s a a' : r k s a a' -> (a <=? n0) = (a' <=? n0).
  Proof using RL. intros. eapply (rl_le _ _ _ RL); eauto. apply RL. Qed.
  Lemma r_ge0 k s a a' : r k s a a' -> (a >=? n0) = (a' >=? n0).
  Proof using RL. intros. eapply (rl_le _ _ _ RL); eauto. apply RL. Qed.
  Lemma r_eq0 k s a a' : r k s a a' -> (a =? n0) = (a' =? n0).
  Proof using RL. intros. eapply (rl_eq _ _ _ RL); eauto. apply RL. Qed.
  Lemma c_lt a b a' b' : rc a a' -> rc b b' -> (a <? b) = (a' <? b').
  Proof using RL. apply (rl_lt _ _ _ RL). Qed.
  Lemma c_le a b a' b' : rc a a' -> rc b b' -> (a <=? b) = (a' <=? b').
  Proof using RL. apply (rl_le _ _ _ RL). Qed.
  Lemma c_eq a b a' b' : rc a a' -> rc b b' -> (a =? b) = (a' =? b').
  Proof using RL. apply (rl_eq _ _ _ RL). Qed.
  Lemma r_vec_eqb a b a' b' : rv a a' -> rv b b' -> vec_eqb a b = vec_eqb a' b'.
  Proof using RL. intros [] []. unfold vec_eqb. f_equal; apply c_eq; auto. Qed.
  Lemma r_vec_neb a b a' b' : rv a a' -> rv b b' -> vec_neb a b = vec_neb a' b'.
  Proof using RL. intros [] []. unfold vec_neb. f_equal; f_equal; apply c_eq; auto. Qed.

  (** ** Classification *)
  Lemma r_edges_from vs vs' : Forall2 rv vs vs' -> forall v v', rv v v' ->
    Forall2 rdv (edges_from v vs) (edges_from v' vs').
  Proof using RL. induction 1; intros; cbn; constructor; auto. apply r_vsub; auto. Qed.
  Lemma r_edge_vectors vs vs' : Forall2 rv vs vs' -> Forall2 rdv (edge_vectors vs) (edge_vectors vs').
  Proof using RL.
    intros H. unfold edge_vectors. destruct H as [|a b l l' H H0]; auto. apply r_edges_from; auto.
    apply F2_last; auto.
  Qed.
  Lemma r_dir_of d d' : rdv d d' -> dir_of d = dir_of d'.
  Proof using RL.
    intros [H1 H2]. unfold dir_of. now rewrite (r_gt0 _ _ _ _ H1), (r_lt0 _ _ _ _ H1), (r_gt0 _ _ _ _ H2), (r_lt0 _ _ _ _ H2).
  Qed.
  Lemma r_vec_bool d d' : rdv d d' -> vec_bool d = vec_bool d'.
  Proof using RL. intros [H1 H2]. unfold vec_bool. now rewrite (r_eq0 _ _ _ _ H1), (r_eq0 _ _ _ _ H2). Qed.
  Lemma r_classify_loop ds ds' : Forall2 rdv ds ds' -> forall ld ld', rdv ld ld' -> forall dir dc sg ct,
    classify_loop ld dir dc sg ct ds = classify_loop ld' dir dc sg ct ds'.
  Proof using RL.
    induction 1 as [|d d' ds ds' Hd H IH]; intros ld ld' Hl dir dc sg ct; cbn [classify_loop]; auto.
    pose proof (r_cross _ _ _ _ Hl Hd) as Hc. rewrite (r_gt0 _ _ _ _ Hc), (r_lt0 _ _ _ _ Hc), (r_dir_of _ _ Hd).
    destruct (n0 <? cross ld' d'); [destruct (Z.eqb sg (-1)); auto|].
    destruct (cross ld' d' <? n0); [destruct (Z.eqb sg 1); auto|]. auto.
  Qed.
  Lemma r_classify_core vs vs' : Forall2 rv vs vs' -> classify_core vs = classify_core vs'.
  Proof using RL.
    intros H. apply rres_eq. unfold classify_core. eapply rres_bind; [apply F2_get; eauto|]. intros vl vl' Hvl.
    eapply rres_bind; [apply F2_get; eauto|]. intros v2 v2' Hv2. cbv zeta.
    pose proof (r_vsub _ _ _ _ Hvl Hv2) as Hd. rewrite (r_dir_of _ _ Hd).
    erewrite r_classify_loop; [|apply F2_filter; [apply r_vec_bool|apply r_edge_vectors; eauto]|exact Hd].
    destruct (classify_loop _ _ _ _ _ _) as [[[? ?] ?] ?]. reflexivity.
  Qed.

  (** ** Polylines *)
  Definition rext (e : @extrema T1) (e' : @extrema T2) : Prop :=
    (rc (x_min_x e) (x_min_x e') /\ rc (x_max_x e) (x_max_x e') /\ rc (x_min_y e) (x_min_y e') /\ rc (x_max_y e) (x_max_y e')) /\
    x_min_i e = x_min_i e' /\ x_max_i e = x_max_i e' /\ x_left_i e = x_left_i e' /\ x_right_i e = x_right_i e'.
  Lemma r_ext_step e e' iv iv' : rext e e' -> fst iv = fst iv' /\ rv (snd iv) (snd iv') -> rext (ext_step e iv) (ext_step e' iv').
  Proof using RL.
    destruct e as [a1 a2 a3 a4 i1 i2 i3 i4], e' as [b1 b2 b3 b4 j1 j2 j3 j4], iv as [i v], iv' as [i' v'].
    unfold rext; cbn [x_min_x x_max_x x_min_y x_max_y x_min_i x_max_i x_left_i x_right_i fst snd].
    intros ((H1 & H2 & H3 & H4) & -> & -> & -> & ->) (-> & [Hx Hy]).
    unfold ext_step; cbn [x_min_x x_max_x x_min_y x_max_y x_min_i x_max_i x_left_i x_right_i].
    rewrite (c_lt _ _ _ _ Hy H3), (c_lt _ _ _ _ H4 Hy), (c_lt _ _ _ _ Hx H1), (c_lt _ _ _ _ H2 Hx).
    destruct (vy v' <? b3), (b4 <? vy v'), (vx v' <? b1), (b2 <? vx v'); cbn; auto 10.
  Qed.
  Lemma r_enumerate vs vs' : Forall2 rv vs vs' -> forall i,
    Forall2 (fun a b => fst a = fst b /\ rv (snd a) (snd b)) (enumerate_from i vs) (enumerate_from i vs').
  Proof using. induction 1; intros; cbn; constructor; auto. Qed.
  Lemma r_find_extrema vs vs' : Forall2 rv vs vs' -> rres rext (find_extrema vs) (find_extrema vs').
  Proof using RL.
    intros H. unfold find_extrema. destruct H as [|a b l l' H H0]; cbn [rres]; auto.
    eapply F2_fold with (R := fun a b => fst a = fst b /\ rv (snd a) (snd b)) (Q := rext); [intros; apply r_ext_step; auto| |].
    - apply (r_enumerate (a :: l) (b :: l')). auto.
    - destruct H; unfold rext; cbn; auto 10.
  Qed.
  Lemma r_orient pl pl' : Forall2 ryx pl pl' -> Forall2 ryx (orient_pl pl) (orient_pl pl').
  Proof using RL.
    intros H. unfold orient_pl. destruct H as [|a b l l' H H0]; auto.
    assert (HL : ryx (last (a :: l) a) (last (b :: l') b)) by (apply F2_last; auto).
    destruct H as [H1 H2], HL as [H3 H4]. rewrite (c_lt _ _ _ _ H3 H1).
    destruct (fst (last (b :: l') b) <? fst b); [apply F2_rev|]; constructor; auto; split; auto.
  Qed.
  Definition rpl (a : list (T1 * T1) * list (T1 * T1)) (b : list (T2 * T2) * list (T2 * T2)) : Prop :=
    Forall2 ryx (fst a) (fst b) /\ Forall2 ryx (snd a) (snd b).
  Lemma r_split vs vs' : Forall2 rv vs vs' -> rres rpl (split_y_polylines vs) (split_y_polylines vs').
  Proof using RL.
    intros H. unfold split_y_polylines. eapply rres_bind; [apply r_find_extrema; eauto|].
    intros e e' (_ & -> & -> & -> & ->). cbv zeta.
    assert (HM : Forall2 ryx (map (fun v => (vy v, vx v)) vs) (map (fun v => (vy v, vx v)) vs')).
    { eapply F2_map; [|exact H]. intros a a' []. split; auto. }
    assert (Hseg : forall n m, Forall2 ryx (orient_pl (firstn n (skipn m (map (fun v => (vy v, vx v)) vs))))
                                           (orient_pl (firstn n (skipn m (map (fun v => (vy v, vx v)) vs')))))
      by (intros; apply r_orient, F2_firstn, F2_skipn; auto).
    assert (Hwrap : forall n m, Forall2 ryx (orient_pl (skipn n (map (fun v => (vy v, vx v)) vs) ++ firstn m (map (fun v => (vy v, vx v)) vs)))
                                            (orient_pl (skipn n (map (fun v => (vy v, vx v)) vs') ++ firstn m (map (fun v => (vy v, vx v)) vs'))))
      by (intros; apply r_orient, F2_app; [apply F2_skipn|apply F2_firstn]; auto).
    destruct (Nat.ltb _ _);
      match goal with |- rres _ (if ?c then _ else _) _ => destruct c end; split; cbn [fst snd]; auto.
  Qed.
  Lemma r_key py py' q q' : rc py py' -> ryx q q' -> key_before py q = key_before py' q'.
  Proof using RL.
    intros H [H1 H2]. unfold key_before. rewrite (c_eq _ _ _ _ H H1), (c_lt _ _ _ _ H H1). reflexivity.
  Qed.
  Lemma r_bisect_loop pl pl' py py' : Forall2 ryx pl pl' -> rc py py' ->
    forall fuel lo hi, bisect_loop fuel pl py lo hi = bisect_loop fuel pl' py' lo hi.
  Proof using RL.
    intros H Hp. induction fuel; intros; cbn [bisect_loop]; auto.
    destruct (Nat.ltb lo hi); auto. pose proof (F2_nth _ _ _ H (Nat.div2 (lo + hi))) as Hn.
    destruct (nth_error pl _), (nth_error pl' _); cbn in Hn; try tauto; auto.
    rewrite (r_key _ _ _ _ Hp Hn). destruct (key_before py' p0); auto.
  Qed.
  Lemma r_y_monotone pl pl' p p' : rpl pl pl' -> rv p p' -> y_monotone_test pl p = y_monotone_test pl' p'.
  Proof using RL.
    destruct pl as [lp rp], pl' as [lp' rp']. intros [HL HR] Hp. cbn [fst snd] in *. apply rres_eq.
    assert (HB : forall l l', Forall2 ryx l l' -> rres eq (bisect_right l (vy p)) (bisect_right l' (vy p'))).
    { intros l l' Hl. apply rres_eq. unfold bisect_right. rewrite (F2_length _ _ _ Hl).
      apply r_bisect_loop; auto. destruct Hp; auto. }
    unfold y_monotone_test. eapply rres_bind; [apply HB; eauto|]. intros i ? <-. rewrite <- (F2_length _ _ _ HL).
    destruct (_ || _); [reflexivity|].
    eapply rres_bind; [apply F2_get; eauto|]. intros q0 q0' H0. eapply rres_bind; [apply F2_get; eauto|]. intros q1 q1' H1.
    rewrite (r_gt0 _ _ _ _ (r_side_yx _ _ _ _ _ _ H0 H1 Hp)). destruct (n0 <? _); [reflexivity|].
    eapply rres_bind; [apply HB; eauto|]. intros j ? <-.
    eapply rres_bind; [apply F2_get; eauto|]. intros q2 q2' H2. eapply rres_bind; [apply F2_get; eauto|]. intros q3 q3' H3.
    cbn. apply (r_gt0 _ _ _ _ (r_side_yx _ _ _ _ _ _ H2 H3 Hp)).
  Qed.

  (** ** Simplicity *)
  Definition ren (x : vec T1 * vec T1 * nat) (y : vec T2 * vec T2 * nat) : Prop :=
    rv (fst (fst x)) (fst (fst y)) /\ rv (snd (fst x)) (snd (fst y)) /\ snd x = snd y.
  Lemma r_segments a b c d a' b' c' d' : rv a a' -> rv b b' -> rv c c' -> rv d d' ->
    segments_intersect a b c d = segments_intersect a' b' c' d'.
  Proof using RL.
    intros Ha Hb Hc Hd. unfold segments_intersect, nfalsy.
    rewrite (r_gt0 _ _ _ _ (r_seg_dir _ _ _ _ _ _ Ha Hb Hc)), (r_gt0 _ _ _ _ (r_seg_dir _ _ _ _ _ _ Ha Hb Hd)),
      (r_gt0 _ _ _ _ (r_seg_dir _ _ _ _ _ _ Hc Hd Ha)), (r_gt0 _ _ _ _ (r_seg_dir _ _ _ _ _ _ Hc Hd Hb)),
      (r_eq0 _ _ _ _ (r_seg_dir _ _ _ _ _ _ Ha Hb Hc)), (r_eq0 _ _ _ _ (r_seg_dir _ _ _ _ _ _ Ha Hb Hd)),
      (r_eq0 _ _ _ _ (r_seg_dir _ _ _ _ _ _ Hc Hd Ha)), (r_eq0 _ _ _ _ (r_seg_dir _ _ _ _ _ _ Hc Hd Hb)).
    reflexivity.
  Qed.
  Lemma r_pt_ltb a b a' b' : rv a a' -> rv b b' -> pt_ltb a b = pt_ltb a' b'.
  Proof using RL.
    intros [H1 H2] [H3 H4]. unfold pt_ltb.
    now rewrite (c_eq _ _ _ _ H1 H3), (c_eq _ _ _ _ H2 H4), (c_lt _ _ _ _ H1 H3), (c_lt _ _ _ _ H2 H4).
  Qed.
  Lemma r_entry_ltb x y x' y' : ren x x' -> ren y y' -> entry_ltb x y = entry_ltb x' y'.
  Proof using RL.
    destruct x as [[s e] i], x' as [[s' e'] i'], y as [[t f] j], y' as [[t' f'] j'].
    intros (H1 & H2 & H3) (H4 & H5 & H6); cbn [fst snd] in *; subst. unfold entry_ltb.
    now rewrite (r_vec_eqb _ _ _ _ H1 H4), (r_vec_eqb _ _ _ _ H2 H5), (r_pt_ltb _ _ _ _ H1 H4), (r_pt_ltb _ _ _ _ H2 H5).
  Qed.
  Lemma r_pairs_from vs vs' : Forall2 rv vs vs' -> forall i v v', rv v v' -> Forall2 ren (pairs_from i v vs) (pairs_from i v' vs').
  Proof using. induction 1; intros; cbn; constructor; auto. unfold ren; cbn [fst snd]; auto. Qed.
  Lemma r_sweep_points vs vs' : Forall2 rv vs vs' -> Forall2 ren (sweep_points vs) (sweep_points vs').
  Proof using RL.
    intros H. unfold sweep_points. apply F2_sort; [intros; apply r_entry_ltb; auto|].
    assert (HE : Forall2 ren (indexed_edges vs) (indexed_edges vs')).
    { unfold indexed_edges. destruct H as [|a b l l' H H0]; auto. apply r_pairs_from; auto. apply F2_last; auto. }
    apply F2_app; auto. eapply F2_map; [|exact HE]. intros [[s e] i] [[s' e'] i'] (H1 & H2 & H3); cbn [fst snd] in *.
    repeat split; cbn [fst snd]; auto; try apply H1; apply H2.
  Qed.
  Lemma r_hits n x x' o o' : ren x x' -> Forall2 ren o o' -> hits_open n x o = hits_open n x' o'.
  Proof using RL.
    destruct x as [[s e] i], x' as [[s' e'] i']. intros (H1 & H2 & H3) H; cbn [fst snd] in *; subst. unfold hits_open.
    eapply F2_existsb; [|exact H]. intros [[t f] j] [[t' f'] j'] (H4 & H5 & H6); cbn [fst snd] in *; subst.
    f_equal. apply r_segments; auto.
  Qed.
  Lemma r_sweep n pts pts' : Forall2 ren pts pts' -> forall o o', Forall2 ren o o' -> sweep n o pts = sweep n o' pts'.
  Proof using RL.
    induction 1 as [|x x' pts pts' Hx H IH]; intros o o' Ho; cbn [sweep]; auto.
    destruct x as [[s e] i], x' as [[s' e'] i']. destruct (Hx) as (H1 & H2 & H3); cbn [fst snd] in *; subst.
    rewrite (F2_existsb ren _ (fun y => Nat.eqb (snd y) i') o o') by (auto; intros a a' (_ & _ & ->); auto).
    destruct (existsb _ _).
    - apply IH. eapply F2_filter; eauto. intros a a' (_ & _ & ->); auto.
    - rewrite (r_hits n _ _ _ _ Hx Ho). destruct (hits_open _ _ _); auto. apply IH. apply F2_app; auto.
  Qed.
  Lemma r_check_is_simple vs vs' : Forall2 rv vs vs' -> check_is_simple vs = check_is_simple vs'.
  Proof using RL.
    intros H. unfold check_is_simple. rewrite (F2_length _ _ _ H). apply r_sweep; auto. apply r_sweep_points; auto.
  Qed.

  (** ** Boxes and winding *)
  Definition rbox (b : bbox T1) (b' : bbox T2) : Prop := rv (bmin b) (bmin b') /\ rv (bmax b) (bmax b').
  Definition rst (s : T1 * T1 * T1 * T1) (s' : T2 * T2 * T2 * T2) : Prop :=
    let '(a, b, c, d) := s in let '(a', b', c', d') := s' in rc a a' /\ rc b b' /\ rc c c' /\ rc d d'.
  Lemma r_minmax s s' v v' : rst s s' -> rv v v' -> rst (minmax_step s v) (minmax_step s' v').
  Proof using RL.
    destruct s as [[[a b] c] d], s' as [[[a' b'] c'] d']. intros (H1 & H2 & H3 & H4) [Hx Hy]. unfold minmax_step.
    rewrite (c_lt _ _ _ _ Hx H1), (c_lt _ _ _ _ H3 Hx), (c_lt _ _ _ _ Hy H2), (c_lt _ _ _ _ H4 Hy).
    destruct (vx v' <? a'), (c' <? vx v'), (vy v' <? b'), (d' <? vy v'); cbn; auto using r_one.
  Qed.
  Lemma r_box_from_points vs vs' : Forall2 rv vs vs' -> rres rbox (box_from_points vs) (box_from_points vs').
  Proof using RL.
    intros H. unfold box_from_points. destruct H as [|a b l l' H H0]; cbn [rres]; auto.
    assert (HS : rst (fold_left minmax_step l (vx a, vy a, vx a, vy a)) (fold_left minmax_step l' (vx b, vy b, vx b, vy b))).
    { eapply F2_fold with (Q := rst); [intros; eapply r_minmax; eauto|exact H0|]. destruct H; cbn; auto. }
    destruct (fold_left minmax_step l _) as [[[x y] z] t], (fold_left minmax_step l' _) as [[[x' y'] z'] t'].
    destruct HS as (H1 & H2 & H3 & H4). split; cbn [bmin bmax]; apply r_vec2; auto.
  Qed.
  Lemma r_box_contains b b' p p' : rbox b b' -> rv p p' -> box_contains b p = box_contains b' p'.
  Proof using RL.
    intros [[H1 H2] [H3 H4]] [Hx Hy]. unfold box_contains.
    now rewrite (c_le _ _ _ _ H1 Hx), (c_lt _ _ _ _ Hx H3), (c_lt _ _ _ _ H2 Hy), (c_le _ _ _ _ Hy H4).
  Qed.
  Lemma r_wind_contrib p a b p' a' b' : rv p p' -> rv a a' -> rv b b' -> wind_contrib p a b = wind_contrib p' a' b'.
  Proof using RL.
    intros Hp Ha Hb. unfold wind_contrib. pose proof (r_side _ _ _ _ _ _ Ha Hb Hp) as Hs.
    rewrite (r_le0 _ _ _ _ Hs), (r_ge0 _ _ _ _ Hs). destruct Hp as [_ Hp], Ha as [_ Ha], Hb as [_ Hb].
    now rewrite (c_le _ _ _ _ Hp Ha), (c_le _ _ _ _ Hp Hb).
  Qed.
  Lemma r_wind_loop p p' vs vs' : rv p p' -> Forall2 rv vs vs' -> forall v v' w, rv v v' -> wind_loop p v w vs = wind_loop p' v' w vs'.
  Proof using RL.
    intros Hp. induction 1 as [|a b l l' H H0 IH]; intros v v' w Hv; cbn [wind_loop]; auto.
    rewrite (r_wind_contrib _ _ _ _ _ _ Hp Hv H). auto.
  Qed.
  Lemma r_winding vs vs' p p' : Forall2 rv vs vs' -> rv p p' -> winding_test vs p = winding_test vs' p'.
  Proof using RL.
    intros H Hp. apply rres_eq. unfold winding_test. eapply rres_bind; [apply F2_get; eauto|].
    intros v v' Hv. cbn. now rewrite (r_wind_loop _ _ _ _ Hp H _ _ 0%Z Hv).
  Qed.

  (** ** Tangents *)
  Definition rtst (s : vec T1 * T1 * vec T1 * vec T1) (s' : vec T2 * T2 * vec T2 * vec T2) : Prop :=
    let '(a, b, c, d) := s in let '(a', b', c', d') := s' in rv a a' /\ re b b' /\ rv c c' /\ rv d d'.
  Lemma r_pt_cross p a b p' a' b' : rv p p' -> rv a a' -> rv b b' -> re (pt_cross p a b) (pt_cross p' a' b').
  Proof using RL. intros [] [] []. apply r_det; apply r_diff; auto. Qed.
  Lemma r_tan_step p p' s s' v v' : rv p p' -> rtst s s' -> rv v v' -> rtst (tan_step p s v) (tan_step p' s' v').
  Proof using RL.
    destruct s as [[[a b] c] d], s' as [[[a' b'] c'] d']. intros Hp (H1 & H2 & H3 & H4) Hv. unfold tan_step.
    pose proof (r_side _ _ _ _ _ _ H1 Hv Hp) as Hs.
    pose proof (r_pt_cross _ _ _ _ _ _ Hp H1 H4) as HR. pose proof (r_pt_cross _ _ _ _ _ _ Hp H1 H3) as HL.
    unfold pt_cross in HR, HL.
    rewrite (r_gt0 _ _ _ _ Hs), (r_le0 _ _ _ _ Hs), (r_le0 _ _ _ _ H2), (r_gt0 _ _ _ _ H2), (r_ge0 _ _ _ _ HR), (r_le0 _ _ _ _ HL).
    assert (rv (vec2 (vx a) (vy a)) (vec2 (vx a') (vy a'))) by (destruct H1; apply r_vec2; auto).
    destruct ((b' <=? n0) && (n0 <? side a' v' p')); [destruct (_ >=? _); cbn; auto|].
    destruct ((n0 <? b') && (side a' v' p' <=? n0)); [destruct (_ <=? _); cbn; auto|]. cbn; auto.
  Qed.
  Definition rvv (a : vec T1 * vec T1) (b : vec T2 * vec T2) : Prop := rv (fst a) (fst b) /\ rv (snd a) (snd b).
  Lemma r_pt_tangents vs vs' p p' : Forall2 rv vs vs' -> rv p p' -> rres rvv (pt_tangents vs p) (pt_tangents vs' p').
  Proof using RL.
    intros H Hp. unfold pt_tangents. eapply rres_bind; [apply F2_get; eauto|]. intros f f' Hf.
    eapply rres_bind; [apply F2_get; eauto|]. intros v v' Hv. eapply rres_bind; [apply F2_get; eauto|]. intros w w' Hw. cbv zeta.
    assert (HS : rtst (fold_left (tan_step p) vs (w, side v w p, f, f)) (fold_left (tan_step p') vs' (w', side v' w' p', f', f'))).
    { eapply F2_fold with (Q := rtst); [intros; eapply r_tan_step; eauto|exact H|]. cbn. repeat split; try apply Hf; try apply Hw. apply r_side; auto. }
    destruct (fold_left (tan_step p) _ _) as [[[x y] z] t], (fold_left (tan_step p') _ _) as [[[x' y'] z'] t'].
    destruct HS as (_ & _ & H3 & H4). split; auto.
  Qed.
  Lemma r_pt_above p a b p' a' b' : rv p p' -> rv a a' -> rv b b' -> pt_above p a b = pt_above p' a' b'.
  Proof using RL. intros. eapply r_gt0, r_pt_cross; auto. Qed.
  Lemma r_pt_below p a b p' a' b' : rv p p' -> rv a a' -> rv b b' -> pt_below p a b = pt_below p' a' b'.
  Proof using RL. intros. eapply r_lt0, r_pt_cross; auto. Qed.
  Lemma r_left_loop vs vs' p p' : Forall2 rv vs vs' -> rv p p' -> forall n a b,
    left_tan_loop vs p n a b = left_tan_loop vs' p' n a b.
  Proof using RL.
    intros H Hp. induction n; intros; cbn [left_tan_loop]; auto. apply rres_eq.
    eapply rres_bind; [apply F2_get; eauto|]. intros c1 c1' H1. eapply rres_bind; [apply F2_get; eauto|]. intros c c' Hc.
    rewrite (r_pt_below _ _ _ _ _ _ Hp H1 Hc). 
    eapply (rres_bind eq).
    { destruct (negb _); [|reflexivity]. eapply rres_bind; [apply F2_get; eauto|]. intros m m' Hm. cbn. apply r_pt_above; auto. }
    intros x ? <-. destruct x; [reflexivity|].
    eapply rres_bind; [apply F2_get; eauto|]. intros a1 a1' Ha1. eapply rres_bind; [apply F2_get; eauto|]. intros a0 a0' Ha.
    rewrite (r_pt_below _ _ _ _ _ _ Hp Ha1 Ha), (r_pt_below _ _ _ _ _ _ Hp Ha Hc), (r_pt_above _ _ _ _ _ _ Hp Ha Hc).
    destruct (pt_below p' a1' a0'); destruct (_ || _); apply rres_eq; auto.
  Qed.
  Lemma r_right_loop vs vs' p p' : Forall2 rv vs vs' -> rv p p' -> forall n a b,
    right_tan_loop vs p n a b = right_tan_loop vs' p' n a b.
  Proof using RL.
    intros H Hp. induction n; intros; cbn [right_tan_loop]; auto. apply rres_eq.
    eapply rres_bind; [apply F2_get; eauto|]. intros c1 c1' H1. eapply rres_bind; [apply F2_get; eauto|]. intros c c' Hc.
    rewrite (r_pt_below _ _ _ _ _ _ Hp H1 Hc). 
    eapply (rres_bind eq).
    { destruct (pt_below p' c1' c'); [|reflexivity]. eapply rres_bind; [apply F2_get; eauto|]. intros m m' Hm. cbn. f_equal. apply r_pt_above; auto. }
    intros x ? <-. destruct x; [reflexivity|].
    eapply rres_bind; [apply F2_get; eauto|]. intros a1 a1' Ha1. eapply rres_bind; [apply F2_get; eauto|]. intros a0 a0' Ha.
    rewrite (r_pt_above _ _ _ _ _ _ Hp Ha1 Ha), (r_pt_below _ _ _ _ _ _ Hp Ha Hc), (r_pt_above _ _ _ _ _ _ Hp Ha Hc).
    destruct (pt_above p' a1' a0'); destruct (_ || _); apply rres_eq; auto.
  Qed.
  Lemma r_left_i vs vs' p p' : Forall2 rv vs vs' -> rv p p' -> left_tan_i_convex vs p = left_tan_i_convex vs' p'.
  Proof using RL.
    intros H Hp. apply rres_eq. unfold left_tan_i_convex.
    eapply rres_bind; [apply F2_get; eauto|]. intros a a' Ha. eapply rres_bind; [apply F2_get; eauto|]. intros b b' Hb.
    eapply rres_bind; [apply F2_get; eauto|]. intros c c' Hc.
    rewrite (r_pt_below _ _ _ _ _ _ Hp Ha Hb), (r_pt_above _ _ _ _ _ _ Hp Hc Hb).
    destruct (_ && _); [reflexivity|]. rewrite (F2_length _ _ _ H). apply rres_eq, r_left_loop; auto.
  Qed.
  Lemma r_right_i vs vs' p p' : Forall2 rv vs vs' -> rv p p' -> right_tan_i_convex vs p = right_tan_i_convex vs' p'.
  Proof using RL.
    intros H Hp. apply rres_eq. unfold right_tan_i_convex.
    eapply rres_bind; [apply F2_get; eauto|]. intros a a' Ha. eapply rres_bind; [apply F2_get; eauto|]. intros b b' Hb.
    eapply rres_bind; [apply F2_get; eauto|]. intros c c' Hc.
    rewrite (r_pt_below _ _ _ _ _ _ Hp Ha Hb), (r_pt_above _ _ _ _ _ _ Hp Hc Hb).
    destruct (_ && _); [reflexivity|]. rewrite (F2_length _ _ _ H). apply rres_eq, r_right_loop; auto.
  Qed.

  (** ** Objects and histories *)
  Definition rpoly (p : poly T1) (q : poly T2) : Prop :=
    Forall2 rv (pverts p) (pverts q) /\ (4 <= length (pverts p))%nat /\
    pconvex p = pconvex q /\ psimple p = psimple q /\ pdupe p = pdupe q /\ pdegen p = pdegen q /\
    ropt rpl (pypl p) (pypl q) /\ ropt rbox (pbbox p) (pbbox q) /\
    (pcentroid p = None /\ pcentroid q = None) /\ (pmaxr2 p = None /\ pmaxr2 q = None) /\
    (pminr2 p = None /\ pminr2 q = None) /\ (ptri p = None /\ ptri q = None).
  Definition rcall {X Y} (R : X -> Y -> Prop) (x : res X * poly T1) (y : res Y * poly T2) : Prop :=
    rres R (fst x) (fst y) /\ rpoly (snd x) (snd y).
  Lemma r_classify p q : rpoly p q -> rres rpoly (classify p) (classify q).
  Proof using RL.
    intros (H1 & H2 & H3 & H4 & H5 & H6 & H7 & H8 & (C1 & C2) & (M1 & M2) & (m1 & m2) & (t1 & t2)).
    unfold classify. rewrite (r_classify_core _ _ H1). apply (rres_bind eq); [apply rres_eq; auto|].
    intros [[c d] ct] ? <-. destruct (c && negb d).
    - eapply rres_bind; [apply r_split; eauto|]. intros pl pl' Hpl. cbn. unfold rpoly; cbn.
      rewrite (F2_length _ _ _ H1) in H2 |- *. repeat split; auto; try apply Hpl.
    - unfold rpoly; cbn. repeat split; auto.
  Qed.
  Lemma r_get_convex p q : rpoly p q -> rcall eq (get_is_convex p) (get_is_convex q).
  Proof using RL.
    intros H. unfold get_is_convex. pose proof H as (_ & _ & HC & _). rewrite HC. destruct (pconvex q) as [b|]; [split; cbn; auto|].
    pose proof (r_classify _ _ H) as HK. destruct (classify p) as [p'|e], (classify q) as [q'|e']; cbn in HK; try tauto.
    - pose proof HK as (_ & _ & K3 & _). rewrite K3. destruct (pconvex q'); split; cbn; auto.
    - split; cbn; auto.
  Qed.
  Lemma r_get_simple p q : rpoly p q -> rcall eq (get_is_simple p) (get_is_simple q).
  Proof using RL.
    intros H. unfold get_is_simple. pose proof H as (_ & _ & HC & HS & _). rewrite HC, HS.
    destruct (psimple q) as [b|]; [split; cbn; auto|].
    assert (HK : rres rpoly (match pconvex q with None => classify p | Some _ => Ok p end) (match pconvex q with None => classify q | Some _ => Ok q end))
      by (destruct (pconvex q); [exact H|apply r_classify; auto]).
    destruct (match pconvex q with None => classify p | Some _ => Ok p end) as [p'|e],
      (match pconvex q with None => classify q | Some _ => Ok q end) as [q'|e']; cbn in HK; try tauto; [|split; cbn; auto].
    pose proof HK as (K1 & K2 & K3 & K4 & K5). rewrite K4. destruct (psimple q'); [split; cbn; auto|].
    rewrite (r_check_is_simple _ _ K1). split; cbn; auto. unfold rpoly, set_simple; cbn; auto 10.
  Qed.
  Lemma r_get_bbox p q : rpoly p q -> rcall rbox (get_bbox p) (get_bbox q).
  Proof using RL.
    intros H. unfold get_bbox. pose proof H as (H1 & H2 & H3 & H4 & H5 & H6 & H7 & H8 & H9).
    destruct (pbbox p) as [b|], (pbbox q) as [b'|]; cbn in H8; try tauto; [split; cbn; auto|].
    pose proof (r_box_from_points _ _ H1) as HB.
    destruct (box_from_points (pverts p)), (box_from_points (pverts q)); cbn in HB; try tauto; split; cbn; auto.
    unfold rpoly; cbn. repeat (split; auto); try apply HB; tauto.
  Qed.
  Lemma r_contains E E' pt pt' p q : rpoly p q -> rv pt pt' -> rcall eq (contains_point E pt p) (contains_point E' pt' q).
  Proof using RL.
    intros H Hp. unfold contains_point. pose proof H as (H1 & H2 & H3 & H4 & H5 & H6 & H7 & H8 & (C1 & C2) & H10).
    pose proof (F2_length _ _ _ H1) as HL. rewrite <- HL.
    destruct (Nat.eqb_spec (length (pverts p)) 3) as [E3|_]; [exfalso; rewrite E3 in H2; lia|].
    assert (HR : radial_shortcut p pt = Ok None /\ radial_shortcut q pt' = Ok None).
    { unfold radial_shortcut. rewrite C1, C2. destruct (Nat.ltb _ _), (Nat.ltb _ _); auto. }
    destruct HR as [-> ->]. destruct (pypl p) as [pl|], (pypl q) as [pl'|]; cbn in H7; try tauto.
    - split; cbn [fst snd]; auto. apply rres_eq, r_y_monotone; auto.
    - destruct (Nat.eqb _ _).
      + split; cbn [fst snd]; auto. apply rres_eq, r_winding; auto.
      + pose proof (r_get_bbox _ _ H) as [HB HP]. destruct (get_bbox p) as [[b|e] p1], (get_bbox q) as [[b'|e'] q1]; cbn [fst snd rres] in HB, HP; try tauto.
        * rewrite (r_box_contains _ _ _ _ HB Hp). destruct (box_contains b' pt'); split; cbn [fst snd]; auto; [|reflexivity].
          apply rres_eq, r_winding; auto. apply HP.
        * split; auto.
  Qed.
  Lemma r_tangents pt pt' p q : rpoly p q -> rv pt pt' -> rcall rvv (tangents_to_point pt p) (tangents_to_point pt' q).
  Proof using RL.
    intros H Hp. unfold tangents_to_point. pose proof H as (H1 & _). rewrite <- (F2_length _ _ _ H1).
    destruct (Nat.ltb _ _); [|split; cbn [fst snd]; auto; apply r_pt_tangents; auto].
    pose proof (r_get_convex _ _ H) as [HC HP].
    destruct (get_is_convex p) as [[b|e] p1], (get_is_convex q) as [[b'|e'] q1]; cbn [fst snd rres] in HC, HP; try tauto; [subst b'|split; auto].
    pose proof HP as (K1 & _ & _ & _ & K5 & _). destruct b.
    - rewrite K5. destruct (pdupe q1) as [[|]|]; split; cbn [fst snd]; auto; try (apply r_pt_tangents; auto; fail).
      rewrite (r_left_i _ _ _ _ K1 Hp), (r_right_i _ _ _ _ K1 Hp).
      apply (rres_bind eq); [apply rres_eq; auto|]. intros i ? <-.
      eapply rres_bind; [apply F2_get; eauto|]. intros l l' Hl.
      apply (rres_bind eq); [apply rres_eq; auto|]. intros j ? <-.
      eapply rres_bind; [apply F2_get; eauto|]. intros m m' Hm. split; auto.
    - split; cbn [fst snd]; auto. apply r_pt_tangents; auto.
  Qed.
  Lemma r_cleared vs vs' : Forall2 rv vs vs' -> (4 <= length vs)%nat -> rpoly (cleared vs None) (cleared vs' None).
  Proof using.
    intros H Hn. unfold cleared, rpoly. rewrite <- (F2_length _ _ _ H). destruct (Nat.ltb_spec 3 (length vs)); [|lia].
    cbn. repeat split; auto.
  Qed.
  Lemma r_poly_new vs vs' c s : Forall2 rv vs vs' -> (4 <= length vs)%nat -> rres rpoly (poly_new vs c s) (poly_new vs' c s).
  Proof using RL.
    intros H Hn. unfold poly_new.
    assert (H0 : Forall2 rv (seq_new vs) (seq_new vs')).
    { unfold seq_new. eapply F2_map; [|exact H]. intros; apply r_vec2_of; auto. }
    assert (Hn0 : (4 <= length (seq_new vs))%nat) by (unfold seq_new; rewrite map_length; auto).
    rewrite <- (F2_length _ _ _ H0). destruct (Nat.ltb_spec (length (seq_new vs)) 3); [lia|].
    pose proof (r_cleared _ _ H0 Hn0) as HP. cbv zeta.
    assert (HB : pconvex (cleared (seq_new vs) None) = None /\ psimple (cleared (seq_new vs) None) = None).
    { unfold cleared. destruct (Nat.ltb_spec 3 (length (seq_new vs))); [cbn; auto|lia]. }
    destruct HB as [B1 B2]. pose proof HP as (_ & _ & Q1 & Q2 & Q3). rewrite <- Q1, B1.
    eapply (rres_bind rpoly).
    - destruct c as [c|]; [|exact HP]. destruct (_ && _) eqn:Ec.
      + eapply rres_bind; [apply r_split; eauto|]. intros pl pl' Hpl. destruct Q3 as (? & ? & ? & ? & ? & ? & ? & ?).
        unfold rpoly; cbn -[cleared]. repeat split; auto; try apply Hpl; tauto.
      + destruct Q3 as (? & ? & ? & ? & ? & ? & ? & ?). unfold rpoly; cbn -[cleared]. repeat split; auto; tauto.
    - intros p q Hpq. pose proof Hpq as (K1 & K2 & K3 & K4 & K5). rewrite <- K4. destruct s as [s|], (psimple p); auto; try exact Hpq.
      destruct K5 as (? & ? & ? & ? & ? & ? & ? & ?). unfold rpoly; cbn. repeat split; auto; tauto.
  Qed.

  (** Related calls: everything except [centroid] and products with a transform. *)
  Definition rread (a : pread T1) (b : pread T2) : Prop :=
    match a, b with
    | QConvex, QConvex | QSimple, QSimple | QBbox, QBbox => True
    | QContains _ p, QContains _ q => rv p q
    | QTangents p, QTangents q => rv p q
    | _, _ => False
    end.
  Definition rop (a : pop T1) (b : pop T2) : Prop :=
    match a, b with
    | PRead x, PRead y => rread x y
    | PSet i v, PSet j w => i = j /\ rv v w
    | PCopy, PCopy | PDeepcopy, PDeepcopy => True
    | _, _ => False
    end.
  Lemma r_read_state a b p q : rread a b -> rpoly p q -> rpoly (read_state a p) (read_state b q).
  Proof using RL.
    destruct a, b; cbn [rread read_state]; try tauto; intros.
    - apply r_get_convex; auto. - apply r_get_simple; auto. - apply r_get_bbox; auto.
    - apply r_contains; auto. - apply r_tangents; auto.
  Qed.
  Lemma r_op_state a b p q : rop a b -> rpoly p q -> rpoly (op_state a p) (op_state b q).
  Proof using RL.
    destruct a, b; cbn [rop op_state]; try tauto; intros.
    - apply r_read_state; auto.
    - destruct H as [-> Hv]. unfold poly_setitem. pose proof H0 as (H1 & H2 & HX). 
      pose proof (F2_set rv _ _ i0 _ _ H1 (r_vec2_of _ _ Hv)) as HS.
      destruct (py_set (pverts p) i0 (vec2_of v)) as [vs|] eqn:ES, (py_set (pverts q) i0 (vec2_of v0)) as [vs'|]; cbn in HS; try tauto; auto.
      destruct HX as (_ & _ & _ & _ & _ & _ & _ & _ & _ & T1' & T2'). cbn [snd]. rewrite T1', T2'.
      apply r_cleared; auto. apply F2_length in H1. 
      unfold py_set in ES. destruct (py_index (length (pverts p)) i0) as [k|] eqn:EI; [|discriminate]. injection ES as <-.
      unfold py_index in EI. destruct (_ && _) eqn:EB in EI; [|discriminate]. injection EI as <-.
      apply andb_prop in EB. unfold list_set. rewrite app_length, firstn_length. cbn [length]. rewrite skipn_length. lia.
    - destruct H0 as (? & ? & ? & ? & ? & ? & ? & ? & ? & ? & ? & ?). unfold poly_copy, rpoly; cbn. repeat split; auto; tauto.
    - destruct H0 as (? & ? & ? & ? & ? & ? & ? & ? & ? & ? & ? & ?). unfold poly_deepcopy, rpoly; cbn. repeat split; auto; tauto.
  Qed.
  Lemma r_prun os os' : Forall2 rop os os' -> forall p q, rpoly p q -> rpoly (prun p os) (prun q os').
  Proof using RL.
    intros H p q HP. unfold prun. eapply F2_fold with (Q := rpoly); [|exact H|exact HP].
    intros; apply r_op_state; auto.
  Qed.
End Rel.
