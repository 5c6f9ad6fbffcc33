(** * The convex hull on two number systems side by side

    As in RelPoly.v, [r k s a b]: [a] and [b] stand for the same quantity of at
    most [k] bits on a grid whose step is the [s]-th power of that of the
    coordinates.  The hull multiplies four coordinates, so these may have 11
    bits.  The inverse of the denominator is rounded; only signs of its multiples
    are used. *)
From Coq Require Import ZArith List Bool Lia Reals Lra.
From Verif Require Import Num Vec Affine Box Seq Polygon Hull RelPoly RBase.
Import ListNotations.
Local Open Scope num_scope.

Record HullLaws {T1 : Type} (N1 : Num T1) (r : nat -> nat -> T1 -> R -> Prop) : Prop := {
  hl_sub : forall k s a b a' b', (k < 53)%nat -> (s <= 4)%nat -> r k s a a' -> r k s b b' -> r (S k) s (a - b) (a' - b');
  hl_add : forall k s a b a' b', (k < 53)%nat -> (s <= 4)%nat -> r k s a a' -> r k s b b' -> r (S k) s (a + b) (a' + b');
  hl_mul : forall k s k' s' a b a' b', (k + k' <= 53)%nat -> (s + s' <= 4)%nat ->
           r k s a a' -> r k' s' b b' -> r (k + k')%nat (s + s')%nat (a * b) (a' * b');
  hl_lt : forall k s k' s' a b a' b', r k s a a' -> r k' s' b b' -> (a <? b) = (a' <? b');
  hl_le : forall k s k' s' a b a' b', r k s a a' -> r k' s' b b' -> (a <=? b) = (a' <=? b');
  hl_eq : forall k s k' s' a b a' b', r k s a a' -> r k' s' b b' -> (a =? b) = (a' =? b');
  hl_0 : r 0 0 n0 n0;
  hl_1 : r 0 0 n1 n1;
  hl_m1 : r 0 0 (nlit (-1)) (nlit (-1));
  hl_inv : forall k z z' d d', (k <= 53)%nat -> r k 4 z z' -> r k 4 d d' -> (0 < d')%R -> (z * (ndiv n1 d) <? n0) = (z' * (ndiv n1 d') <? n0) }.

Lemma gram (v w : vec R) : nsub (nmul (length2 v) (length2 w)) (nmul (dot v w) (dot v w)) = Rsqr (vx v * vy w - vy v * vx w)%R.
Proof. unfold length2, dot, Rsqr. rnum. ring. Qed.

Section Hull.
  Context {T1 : Type} {N1 : Num T1} (r : nat -> nat -> T1 -> R -> Prop) (HL : HullLaws N1 r).
  Definition hc : T1 -> R -> Prop := r 11 1.
  Definition hd : T1 -> R -> Prop := r 12 1.
  Definition hp : T1 -> R -> Prop := r 25 2.
  Definition hv (v : vec T1) (w : vec R) : Prop := hc (vx v) (vx w) /\ hc (vy v) (vy w).
  Definition hdv (v : vec T1) (w : vec R) : Prop := hd (vx v) (vx w) /\ hd (vy v) (vy w).

  Lemma h_diff a b a' b' : hc a a' -> hc b b' -> hd (a - b) (a' - b').
  Proof using HL. intros. apply (hl_sub _ _ HL); auto; lia. Qed.
  Lemma h_det a b c d a' b' c' d' : hd a a' -> hd b b' -> hd c c' -> hd d d' -> hp (a * b - c * d) (a' * b' - c' * d').
  Proof using HL. intros. apply (hl_sub _ _ HL); try lia; apply (hl_mul _ _ HL 12 1 12 1); auto; lia. Qed.
  Lemma h_sum a b c d a' b' c' d' : hd a a' -> hd b b' -> hd c c' -> hd d d' -> hp (a * b + c * d) (a' * b' + c' * d').
  Proof using HL. intros. apply (hl_add _ _ HL); try lia; apply (hl_mul _ _ HL 12 1 12 1); auto; lia. Qed.
  Lemma h_det4 a b c d a' b' c' d' : hp a a' -> hp b b' -> hp c c' -> hp d d' -> r 51 4 (a * b - c * d) (a' * b' - c' * d').
  Proof using HL. intros. apply (hl_sub _ _ HL); try lia; apply (hl_mul _ _ HL 25 2 25 2); auto; lia. Qed.
  Lemma h_vsub v w v' w' : hv v v' -> hv w w' -> hdv (vsub v w) (vsub v' w').
  Proof using HL. intros [] []. split; cbn [vsub vx vy]; apply h_diff; auto. Qed.
  Lemma h_dot v w v' w' : hdv v v' -> hdv w w' -> hp (dot v w) (dot v' w').
  Proof using HL. intros [] []. apply h_sum; auto. Qed.
  Lemma h_vec2_of v v' : hv v v' -> hv (vec2_of v) (vec2_of v').
  Proof using HL. intros []. split; cbn [vec2_of vec2 vx vy]; apply (hl_mul _ _ HL 11 1 0 0); auto; try lia; apply HL. Qed.
  Lemma h_lt k s k' s' a b a' b' : r k s a a' -> r k' s' b b' -> (a <? b) = (a' <? b').
  Proof using HL. apply (hl_lt _ _ HL). Qed.
  Lemma h_gt0 k s a a' : r k s a a' -> (n0 <? a) = (n0 <? a').
  Proof using HL. intro. eapply h_lt; eauto. apply HL. Qed.
  Lemma h_ge0 k s a a' : r k s a a' -> (n0 <=? a) = (n0 <=? a').
  Proof using HL. intro. eapply (hl_le _ _ HL); eauto. apply HL. Qed.
  Lemma h_eq0 k s a a' : r k s a a' -> (a =? n0) = (a' =? n0).
  Proof using HL. intro. eapply (hl_eq _ _ HL); eauto. apply HL. Qed.
  Lemma h_vec_eqb a b a' b' : hv a a' -> hv b b' -> vec_eqb a b = vec_eqb a' b'.
  Proof using HL. intros [] []. unfold vec_eqb. f_equal; eapply (hl_eq _ _ HL); eauto. Qed.

  (** ** Sets *)
  Lemma h_mem p p' s s' : hv p p' -> Forall2 hv s s' -> set_mem p s = set_mem p' s'.
  Proof using HL. intros Hp H. unfold set_mem. eapply F2_existsb; [|exact H]. intros; apply h_vec_eqb; auto. Qed.
  Lemma h_add s s' p p' : Forall2 hv s s' -> hv p p' -> Forall2 hv (set_add s p) (set_add s' p').
  Proof using HL. intros H Hp. unfold set_add. rewrite (h_mem _ _ _ _ Hp H). destruct (set_mem p' s'); auto. apply F2_app; auto. Qed.
  Lemma h_discard s s' p p' : Forall2 hv s s' -> hv p p' -> Forall2 hv (set_discard s p) (set_discard s' p').
  Proof using HL. intros H Hp. unfold set_discard. eapply F2_filter; [|exact H]. intros. f_equal. apply h_vec_eqb; auto. Qed.

  Definition hvv (a : vec T1 * vec T1) (b : vec R * vec R) : Prop := hv (fst a) (fst b) /\ hv (snd a) (snd b).
  Definition hll (a : list (vec T1) * list (vec T1)) (b : list (vec R) * list (vec R)) : Prop := Forall2 hv (fst a) (fst b) /\ Forall2 hv (snd a) (snd b).
  Lemma h_lr s s' p p' : hvv s s' -> hv p p' -> hvv (lr_step s p) (lr_step s' p').
  Proof using HL.
    destruct s as [l q], s' as [l' q']. intros [H1 H2] Hp. cbn [fst snd] in *. unfold lr_step.
    destruct H1 as [L1 L2], H2 as [Q1 Q2], Hp as [P1 P2]. rewrite (h_lt _ _ _ _ _ _ _ _ P1 L1), (h_lt _ _ _ _ _ _ _ _ Q1 P1).
    destruct (vx p' <? vx l'); [|destruct (vx q' <? vx p')]; split; cbn [fst snd]; split; auto.
  Qed.
  Lemma h_upper l l' q q' pts pts' : hv l l' -> hv q q' -> Forall2 hv pts pts' -> hll (upper_lower pts l q) (upper_lower pts' l' q').
  Proof using HL.
    intros [L1 L2] [Q1 Q2] H. unfold upper_lower. eapply F2_fold with (Q := hll); [|exact H|split; constructor].
    intros [u w] [u' w'] a a' [Hu Hw] Ha. cbn [fst snd] in *. destruct Ha as [A1 A2] eqn:E. clear E.
    assert (K : hp ((vx q - vx l) * (vy a - vy l) - (vx a - vx l) * (vy q - vy l)) ((vx q' - vx l') * (vy a' - vy l') - (vx a' - vx l') * (vy q' - vy l'))).
    { apply h_det; apply h_diff; auto. }
    rewrite (h_gt0 _ _ _ _ K). destruct (n0 <? _); split; cbn [fst snd]; auto; apply h_add; auto; split; auto.
  Qed.

  (** ** Partition *)
  Lemma h_furthest pts pts' a a' b b' : Forall2 hv pts pts' -> hv a a' -> hv b b' -> ropt hv (find_furthest pts a b) (find_furthest pts' a' b').
  Proof using HL.
    intros H [A1 A2] [B1 B2]. unfold find_furthest.
    assert (K : (exists k s, r k s (fst (fold_left (far_step a (vx b - vx a) (vy b - vy a)) pts (nlit (-1), None))) (fst (fold_left (far_step a' (vx b' - vx a') (vy b' - vy a')) pts' (nlit (-1), None)))) /\
      ropt hv (snd (fold_left (far_step a (vx b - vx a) (vy b - vy a)) pts (nlit (-1), None))) (snd (fold_left (far_step a' (vx b' - vx a') (vy b' - vy a')) pts' (nlit (-1), None)))).
    { eapply F2_fold with (Q := fun x y => (exists k s, r k s (fst x) (fst y)) /\ ropt hv (snd x) (snd y)); [|exact H|].
      - intros [x o] [x' o'] p p' [(k & s & Hx) Ho] [P1 P2]. cbn [fst snd] in *. unfold far_step. cbn [fst].
        assert (K : hp ((vx b - vx a) * (vy p - vy a) - (vx p - vx a) * (vy b - vy a)) ((vx b' - vx a') * (vy p' - vy a') - (vx p' - vx a') * (vy b' - vy a'))).
        { apply h_det; apply h_diff; auto. }
        rewrite (h_lt _ _ _ _ _ _ _ _ Hx K). destruct (x' <? _); cbn [fst snd]; [split; [exists 25%nat, 2%nat; exact K|split; auto]|split; eauto].
      - cbn [fst snd]. split; [exists 0%nat, 0%nat; apply HL|exact I]. }
    apply K.
  Qed.
  Lemma h_part pts pts' a a' b b' p p' : Forall2 hv pts pts' -> hv a a' -> hv b b' -> hv p p' ->
    rres hll (partition_pts pts a b p) (partition_pts pts' a' b' p').
  Proof using HL.
    intros H Ha Hb Hp. unfold partition_pts. pose proof (h_vsub _ _ _ _ Ha Hp) as H0. pose proof (h_vsub _ _ _ _ Hb Hp) as H1.
    set (v0 := vsub a p) in *. set (v1 := vsub b p) in *. set (v0' := vsub a' p') in *. set (v1' := vsub b' p') in *. cbv zeta.
    assert (D00 : hp (length2 v0) (length2 v0')) by (destruct H0; apply h_sum; auto).
    assert (D11 : hp (length2 v1) (length2 v1')) by (destruct H1; apply h_sum; auto).
    pose proof (h_dot _ _ _ _ H0 H1) as D01. pose proof (h_det4 _ _ _ _ _ _ _ _ D00 D11 D01 D01) as DD.
    unfold nfalsy. rewrite (h_eq0 _ _ _ _ DD). destruct (_ =? n0) eqn:EZ; [split; constructor|].
    assert (EZ' : (nsub (nmul (length2 v0') (length2 v1')) (nmul (dot v0' v1') (dot v0' v1')) =? n0) = false) by exact EZ.
    unfold pydiv. rewrite (h_eq0 _ _ _ _ DD), EZ, EZ'. cbn [bind rres].
    assert (PD : Rlt 0%R (length2 v0' * length2 v1' - dot v0' v1' * dot v0' v1')).
    { apply Reqb_false in EZ. pose proof (gram v0' v1') as G. cbn [nsub nmul RNum] in G. rewrite G in EZ |- *. apply Rlt_0_sqr. intro K. apply EZ. rewrite K. apply Rsqr_0. }
    eapply F2_fold with (Q := hll); [|exact H|split; constructor].
    intros [lf rg] [lf' rg'] q q' [Hl Hr] Hq. cbn [fst snd] in *. unfold part_step. pose proof (h_vsub _ _ _ _ Hq Hp) as H2.
    pose proof (h_dot _ _ _ _ H0 H2) as D02. pose proof (h_dot _ _ _ _ H1 H2) as D12. cbv zeta.
    rewrite (hl_inv _ _ HL 51 _ _ _ _ ltac:(lia) (h_det4 _ _ _ _ _ _ _ _ D00 D12 D01 D02) DD PD).
    rewrite (hl_inv _ _ HL 51 _ _ _ _ ltac:(lia) (h_det4 _ _ _ _ _ _ _ _ D11 D02 D01 D12) DD PD).
    destruct (_ <? n0); [|destruct (_ <? n0)]; split; cbn [fst snd]; auto; apply F2_app; auto.
  Qed.
  Lemma h_pop p p' : hv p p' -> forall st st', Forall2 hv st st' -> Forall2 hv (scan_pop p st) (scan_pop p' st').
  Proof using HL.
    intros [P1 P2]. induction 1 as [|a a' st st' Ha H IH]; [constructor|]. cbn [scan_pop]. inversion H as [|b b' m m' Hb Hm]; subst; [auto|].
    destruct Ha as [A1 A2], Hb as [B1 B2].
    assert (K : hp ((vx a - vx b) * (vy p - vy b) - (vx p - vx b) * (vy a - vy b)) ((vx a' - vx b') * (vy p' - vy b') - (vx p' - vx b') * (vy a' - vy b'))).
    { apply h_det; apply h_diff; auto. }
    rewrite (h_ge0 _ _ _ _ K). destruct (n0 <=? _); [exact IH|]. constructor; [split; auto|auto].
  Qed.
  Lemma h_sort pts pts' a a' b b' : Forall2 hv pts pts' -> hv a a' -> hv b b' -> Forall2 hv (ahull_sort pts a b) (ahull_sort pts' a' b').
  Proof using HL.
    intros H Ha Hb. unfold ahull_sort. apply F2_rev.
    assert (K : Forall2 hv (sort_by (fun x y => line_order a (vx (vsub b a)) (vy (vsub b a)) x <? line_order a (vx (vsub b a)) (vy (vsub b a)) y) pts ++ [b])
                           (sort_by (fun x y => line_order a' (vx (vsub b' a')) (vy (vsub b' a')) x <? line_order a' (vx (vsub b' a')) (vy (vsub b' a')) y) pts' ++ [b'])).
    { apply F2_app; auto. apply F2_sort; auto. intros x x' y y' Hx Hy. destruct (h_vsub _ _ _ _ Hb Ha) as [D1 D2].
      eapply h_lt; apply h_sum; auto; apply h_diff; try apply Ha; try apply Hx; apply Hy. }
    assert (K2 : Forall2 hv (fold_left scan_step (sort_by (fun x y => line_order a (vx (vsub b a)) (vy (vsub b a)) x <? line_order a (vx (vsub b a)) (vy (vsub b a)) y) pts ++ [b]) [a])
       (fold_left scan_step (sort_by (fun x y => line_order a' (vx (vsub b' a')) (vy (vsub b' a')) x <? line_order a' (vx (vsub b' a')) (vy (vsub b' a')) y) pts' ++ [b']) [a'])).
    { eapply F2_fold with (Q := Forall2 hv); [|exact K|auto]. intros s s' x x' Hs Hx. unfold scan_step. constructor; auto. apply h_pop; auto. }
    cbv zeta. destruct K2; cbn [tl]; auto.
  Qed.
  Lemma h_partition : forall fuel pts pts' a a' b b', Forall2 hv pts pts' -> hv a a' -> hv b b' ->
    rres (Forall2 hv) (ahull_partition fuel pts a b) (ahull_partition fuel pts' a' b').
  Proof using HL.
    induction fuel as [|f IH]; intros pts pts' a a' b b' H Ha Hb; [reflexivity|]. cbn [ahull_partition].
    pose proof (h_furthest _ _ _ _ _ _ H Ha Hb) as HF. destruct (find_furthest pts a b) as [x|], (find_furthest pts' a' b') as [x'|]; cbn [ropt] in HF; try contradiction; [|reflexivity].
    apply h_vec2_of in HF. cbv zeta. eapply rres_bind; [apply h_part; eauto|]. intros [l g] [l' g'] [Hl Hg]. cbn [fst snd] in *.
    rewrite <- (F2_length _ _ _ H), <- (F2_length _ _ _ Hl), <- (F2_length _ _ _ Hg).
    eapply (rres_bind (Forall2 hv)).
    - destruct (Nat.leb (length l) 1); [cbn; auto|]. destruct (Nat.leb (length l) _); [apply IH; auto|]. apply h_sort; auto.
    - intros h1 h1' K1. eapply (rres_bind (Forall2 hv)).
      + destruct (Nat.leb (length g) 1); [cbn; auto|]. destruct (Nat.leb (length g) _); [apply IH; auto|]. apply h_sort; auto.
      + intros h2 h2' K2. cbn. apply F2_app; auto.
  Qed.
  (** The two sets the hull iterates over. *)
  Definition halves {T} {N : Num T} (pts : list (vec T)) : list (vec T) * list (vec T) :=
    match pts with
    | [] => ([], [])
    | p :: _ => let '(l, q) := fold_left lr_step pts (p, p) in let '(up, lo) := upper_lower pts l q in
        (set_discard (set_discard up l) q, set_discard (set_discard lo l) q)
    end.
  Lemma h_halves pts pts' : Forall2 hv pts pts' -> hll (halves pts) (halves pts').
  Proof using HL.
    intro H. unfold halves. destruct H as [|p p' t t' Hp H]; [split; constructor|]. assert (HA : Forall2 hv (p :: t) (p' :: t')) by auto.
    assert (K : hvv (fold_left lr_step (p :: t) (p, p)) (fold_left lr_step (p' :: t') (p', p'))).
    { apply (F2_fold hv hvv); [intros; apply h_lr; auto|exact HA|split; auto]. }
    destruct (fold_left lr_step (p :: t) (p, p)) as [l q], (fold_left lr_step (p' :: t') (p', p')) as [l' q']. destruct K as [Kl Kq]. cbn [fst snd] in *.
    pose proof (h_upper _ _ _ _ _ _ Kl Kq HA) as U. destruct (upper_lower (p :: t) l q) as [u w], (upper_lower (p' :: t') l' q') as [u' w']. destruct U as [U1 U2]. cbn [fst snd] in *.
    split; cbn [fst snd]; apply h_discard; auto; apply h_discard; auto.
  Qed.
  Lemma h_quick so so' pts pts' : Forall2 hv pts pts' ->
    (fst (halves pts') <> [] -> Forall2 hv (so (fst (halves pts))) (so' (fst (halves pts')))) ->
    (snd (halves pts') <> [] -> Forall2 hv (so (snd (halves pts))) (so' (snd (halves pts')))) ->
    rres (Forall2 hv) (quick_hull so pts) (quick_hull so' pts').
  Proof using HL.
    intros H S1 S2. pose proof (h_halves _ _ H) as HH. unfold quick_hull. unfold halves in S1, S2, HH. destruct H as [|p p' t t' Hp H]; [reflexivity|].
    assert (HA : Forall2 hv (p :: t) (p' :: t')) by auto.
    assert (K : hvv (fold_left lr_step (p :: t) (p, p)) (fold_left lr_step (p' :: t') (p', p'))).
    { apply (F2_fold hv hvv); [intros; apply h_lr; auto|exact HA|split; auto]. }
    destruct (fold_left lr_step (p :: t) (p, p)) as [l q], (fold_left lr_step (p' :: t') (p', p')) as [l' q']. destruct K as [Kl Kq]. cbn [fst snd] in Kl, Kq.
    destruct (upper_lower (p :: t) l q) as [u w], (upper_lower (p' :: t') l' q') as [u' w']. cbn [fst snd] in *. destruct HH as [H1 H2]. cbn [fst snd] in H1, H2.
    set (up := set_discard (set_discard u l) q) in *. set (up' := set_discard (set_discard u' l') q') in *.
    set (lo := set_discard (set_discard w l) q) in *. set (lo' := set_discard (set_discard w' l') q') in *. clearbody up up' lo lo'. cbv zeta.
    pose proof (F2_length _ _ _ H1) as N1'. pose proof (F2_length _ _ _ H2) as N2'.
    eapply (rres_bind (Forall2 hv)).
    - rewrite N1'. destruct H1 as [|x x' m m' Hx Hm]; [cbn; auto|]. apply h_partition; auto. apply S1. discriminate.
    - intros h1 h1' K1. eapply (rres_bind (Forall2 hv)).
      + rewrite N2'. destruct H2 as [|x x' m m' Hx Hm]; [cbn; auto|]. apply h_partition; auto. apply S2. discriminate.
      + intros h2 h2' K2. cbn. apply F2_app; auto.
  Qed.
End Hull.
