(** * The convex hull takes O(n log n) steps *)
From Coq Require Import ZArith List Bool Arith Lia.
From Verif Require Import Num Vec Affine Box Seq Polygon Tangent Hull Cost CostFacts CostFacts2.
Import ListNotations.
Local Open Scope nat_scope.

(** 4/5 of 4/5 of ... of n is at most 1 after this many times. *)
Definition depth (n : nat) : nat := 4 * S (Nat.log2 n).
Lemma depth_ok n : 1 <= n -> 4 ^ depth n * n <= 5 ^ depth n.
Proof.
  intro H. unfold depth. set (j := S (Nat.log2 n)). assert (L : n <= 2 ^ j) by (unfold j; pose proof (Nat.log2_spec n ltac:(lia)); lia). clearbody j.
  apply Nat.le_trans with (4 ^ (4 * j) * 2 ^ j); [apply Nat.mul_le_mono_l; exact L|]. rewrite !Nat.pow_mul_r, <- Nat.pow_mul_l. apply Nat.pow_le_mono_l. cbn. lia.
Qed.

Section HullSteps.
  Context {T : Type} {N : Num T}.
  Notation V := (vec T).
  Variable sortc : nat -> nat.

  Lemma partition_lengths pts p0 p1 pp l r : partition_pts (N:=N) pts p0 p1 pp = Ok (l, r) -> length l + length r <= length pts.
  Proof.
    unfold partition_pts. cbv zeta. destruct (nfalsy _); [intro H; injection H as <- <-; cbn; lia|]. destruct (pydiv _ _) as [inv|]; cbn [bind]; [|discriminate].
    match goal with |- context [part_step ?a ?b ?c ?d ?e ?f ?g] => set (st := part_step a b c d e f g) end. intro H. injection H as H.
    assert (G : forall pts lr, length (fst (fold_left st pts lr)) + length (snd (fold_left st pts lr)) <= length (fst lr) + length (snd lr) + length pts).
    { clear. induction pts as [|p pts IH]; intros [l r]; cbn [fold_left length]; [lia|]. eapply Nat.le_trans; [apply IH|]. unfold st, part_step. cbv zeta.
      destruct (nltb _ _); [cbn [fst snd]; rewrite app_length; cbn; lia|]. destruct (nltb _ _); cbn [fst snd]; rewrite ?app_length; cbn; lia. }
    specialize (G pts ([], [])). rewrite H in G. cbn in G. lia.
  Qed.
  Lemma partition_steps pts p0 p1 pp : snd (partition_pts_c (N:=N) pts p0 p1 pp) <= length pts.
  Proof. unfold partition_pts_c. cbv zeta. destruct (nfalsy _); [steps; lia|]. steps. destruct (pydiv _ _); steps; lia. Qed.
  (** Every turn of the inner loop but the last removes a point. *)
  Lemma pop_steps p st : snd (scan_pop_c (N:=N) p st) + length (scan_pop (N:=N) p st) <= length st + 1.
  Proof.
    induction st as [|a st IH]; [cbn; lia|]. destruct st as [|b st]; [cbn; lia|]. set (rest := b :: st) in *.
    change (scan_pop_c p (a :: rest)) with (tick 1 (if nleb n0 (nsub (nmul (nsub (vx a) (vx b)) (nsub (vy p) (vy b))) (nmul (nsub (vx p) (vx b)) (nsub (vy a) (vy b)))) then scan_pop_c p rest else cret (a :: rest))).
    change (scan_pop p (a :: rest)) with (if nleb n0 (nsub (nmul (nsub (vx a) (vx b)) (nsub (vy p) (vy b))) (nmul (nsub (vx p) (vx b)) (nsub (vy a) (vy b)))) then scan_pop p rest else a :: rest).
    rewrite snd_tick. destruct (nleb _ _); [|rewrite snd_ret]; cbn [length] in *; lia.
  Qed.
  Lemma scan_steps pts : forall st, snd (scan_c (N:=N) pts st) + length (fst (scan_c (N:=N) pts st)) <= 3 * length pts + length st.
  Proof.
    induction pts as [|p pts IH]; intro st; [cbn; lia|]. cbn [scan_c]. steps. pose proof (pop_steps p st) as H. rewrite <- pop_erase in H. specialize (IH (p :: fst (scan_pop_c p st))). cbn [length] in *. lia.
  Qed.
  Lemma scan_length pts : forall st, length (fold_left (scan_step (N:=N)) pts st) <= length pts + length st.
  Proof.
    induction pts as [|p pts IH]; intro st; cbn [fold_left length]; [lia|]. specialize (IH (scan_step st p)). assert (length (scan_pop p st) <= length st).
    { clear. induction st as [|a st IH]; [cbn; lia|]. destruct st as [|b st]; [cbn; lia|]. set (rest := b :: st) in *.
      change (scan_pop p (a :: rest)) with (if nleb n0 (nsub (nmul (nsub (vx a) (vx b)) (nsub (vy p) (vy b))) (nmul (nsub (vx p) (vx b)) (nsub (vy a) (vy b)))) then scan_pop p rest else a :: rest).
      destruct (nleb _ _); cbn [length] in *; lia. }
    unfold scan_step in *. cbn [length] in *. lia.
  Qed.
  Lemma sort_hull_length pts p0 p1 : length (ahull_sort (N:=N) pts p0 p1) <= length pts + 1.
  Proof.
    unfold ahull_sort. cbv zeta. rewrite rev_length. match goal with |- context [fold_left scan_step ?l ?s] => pose proof (scan_length l s) as H; destruct (fold_left scan_step l s) end; [cbn; lia|].
    rewrite app_length, sort_length in H. cbn [tl length] in *. lia.
  Qed.
  Lemma sort_hull_steps pts p0 p1 : snd (ahull_sort_c (N:=N) sortc pts p0 p1) <= sortc (length pts) + 3 * length pts + 5.
  Proof.
    unfold ahull_sort_c. cbv zeta. steps. match goal with |- context [scan_c ?l ?s] => pose proof (scan_steps l s) as H; set (x := scan_c l s) in * end.
    rewrite app_length, sort_length in H. rewrite rev_length. assert (length (tl (fst x)) <= length (fst x)) by (destruct (fst x); cbn; lia). cbn [length] in H. lia.
  Qed.
  (** Two halves that were not culled enough are sorted; a half that is
      partitioned again has at most 4/5 of the points. *)
  Variable S0 : nat.
  Lemma ahull_steps fuel : forall pts p0 p1 d, 1 <= length pts -> (forall q, q <= length pts -> sortc q <= q * S0) -> 4 ^ d * length pts <= 5 ^ d ->
    snd (ahull_partition_c (N:=N) sortc fuel pts p0 p1) <= length pts * (8 * d + S0 + 9).
  Proof.
    induction fuel as [|f IH]; intros pts p0 p1 d H1 HS HD; [cbn; lia|]. cbn [ahull_partition_c]. rewrite snd_tick, snd_bind, far_erase. cbn [fst snd].
    set (m := length pts) in *. set (W := 8 * d + S0 + 9).
    assert (B0 : 1 + (m + 0) <= m * W) by (unfold W; nia). destruct (find_furthest pts p0 p1) as [pp0|]; [|rewrite snd_ret; exact B0]. cbv zeta.
    steps. pose proof (partition_steps pts p0 p1 (vec2_of pp0)) as PS. fold m in PS. rewrite partition_erase.
    destruct (partition_pts pts p0 p1 (vec2_of pp0)) as [[l r]|] eqn:PE; [|unfold W; nia]. pose proof (partition_lengths _ _ _ _ _ _ PE) as PL. fold m in PL.
    set (L := length l) in *. set (R := length r) in *.
    (* one half *)
    assert (HB : forall (q : list V) (a b : V) (x : res (list V) * nat), length q <= m -> length q + (m - L - R) <= m ->
      x = (if Nat.leb (length q) 1 then let# h := copied (a :: q) in cret (Ok h)
           else if Nat.leb (length q) ((m - L - R) * 4) then ahull_partition_c sortc f q a b
           else let# h := ahull_sort_c sortc q a b in cret (Ok h)) -> snd x <= 2 \/ (2 <= length q /\ snd x <= length q * (8 * (d - 1) + S0 + 9))).
    { intros q a b x Hq Hc ->. destruct (Nat.leb_spec (length q) 1) as [L1|L1]; [left; steps; cbn [length]; lia|]. right. split; [lia|]. destruct (Nat.leb_spec (length q) ((m - L - R) * 4)) as [L2|L2].
      - destruct d as [|d]; [cbn in HD; lia|]. replace (S d - 1) with d by lia. eapply Nat.le_trans; [apply (IH q a b d)|]; [lia|intros; apply HS; lia| |lia].
        assert (5 * length q <= 4 * m) by lia. cbn [Nat.pow] in HD. assert (4 ^ d * (5 * length q) <= 4 ^ d * (4 * m)) by (apply Nat.mul_le_mono_l; lia). nia.
      - steps. pose proof (sort_hull_steps q a b) as SS. specialize (HS (length q) Hq). nia. }
    match goal with |- context [rbind (if Nat.leb L 1 then ?a else ?b) _] => set (x1 := if Nat.leb L 1 then a else b) in * end.
    match goal with |- context [rbind (if Nat.leb R 1 then ?a else ?b) _] => set (x2 := if Nat.leb R 1 then a else b) in * end.
    pose proof (HB l p0 (vec2_of pp0) x1 ltac:(lia) ltac:(lia) eq_refl) as HL. pose proof (HB r (vec2_of pp0) p1 x2 ltac:(lia) ltac:(lia) eq_refl) as HR. fold L in HL. fold R in HR.
    clearbody x1 x2. clear HB IH. steps.
    assert (FIN : 1 + (m + (snd (partition_pts_c pts p0 p1 (vec2_of pp0)) + (snd x1 + snd x2))) <= m * W).
    { destruct d as [|d].
      - assert (M1 : m = 1) by (cbn in HD; lia). unfold W. rewrite M1 in *. assert (snd x1 <= 2) by (destruct HL as [|[? _]]; lia). assert (snd x2 <= 2) by (destruct HR as [|[? _]]; lia). lia.
      - replace (S d - 1) with d in * by lia. unfold W. assert (L * (8 * d + S0 + 9) + R * (8 * d + S0 + 9) <= m * (8 * d + S0 + 9)) by (rewrite <- Nat.mul_add_distr_r; apply Nat.mul_le_mono_r; lia).
        assert (snd x1 <= L * (8 * d + S0 + 9) + 2) by (destruct HL as [|[_ ?]]; lia). assert (snd x2 <= R * (8 * d + S0 + 9) + 2) by (destruct HR as [|[_ ?]]; lia). nia. }
    destruct (fst x1); [|lia]. steps. destruct (fst x2); steps; lia.
  Qed.

  (** The hull never has more than three points for each point put in. *)
  Lemma ahull_length fuel : forall pts p0 p1 h, 1 <= length pts -> ahull_partition (N:=N) fuel pts p0 p1 = Ok h -> length h <= 3 * length pts.
  Proof.
    induction fuel as [|f IH]; intros pts p0 p1 h H1; [discriminate|]. cbn [ahull_partition]. destruct (find_furthest pts p0 p1) as [pp0|]; [|discriminate]. cbv zeta.
    destruct (partition_pts pts p0 p1 (vec2_of pp0)) as [[l r]|] eqn:PE; cbn [bind]; [|discriminate]. pose proof (partition_lengths _ _ _ _ _ _ PE) as PL.
    set (m := length pts) in *. set (L := length l) in *. set (R := length r) in *.
    assert (HB : forall (q : list V) (a b : V) (x : list V),
      (if Nat.leb (length q) 1 then Ok (a :: q)
       else if Nat.leb (length q) ((m - L - R) * 4) then ahull_partition f q a b
       else Ok (ahull_sort q a b)) = Ok x -> length x <= length q + 1 \/ (1 <= m - L - R /\ length x <= 3 * length q)).
    { intros q a b x. destruct (Nat.leb_spec (length q) 1) as [L1|L1]; [intro E; injection E as <-; cbn; lia|]. destruct (Nat.leb_spec (length q) ((m - L - R) * 4)) as [L2|L2].
      - intro E. right. split; [lia|]. apply (IH q a b); [lia|exact E].
      - intro E. injection E as <-. left. apply sort_hull_length. }
    match goal with |- bind ?a _ = _ -> _ => destruct a as [h1|] eqn:E1; cbn [bind]; [|discriminate] end.
    match goal with |- bind ?a _ = _ -> _ => destruct a as [h2|] eqn:E2; cbn [bind]; [|discriminate] end. intro E. injection E as <-.
    apply HB in E1. apply HB in E2. rewrite app_length. fold L in E1. fold R in E2. lia.
  Qed.
  (** How deep the recursion goes. *)
  Definition enough (f m : nat) : Prop := m < f \/ exists d, d < f /\ 4 ^ d * m <= 5 ^ d.
  Lemma ahull_depth f1 : forall f2 pts p0 p1, enough f1 (length pts) -> enough f2 (length pts) -> ahull_partition (N:=N) f1 pts p0 p1 = ahull_partition f2 pts p0 p1.
  Proof.
    induction f1 as [|f1 IH]; intros f2 pts p0 p1 E1 E2; [destruct E1 as [|(d & ? & _)]; lia|]. destruct f2 as [|f2]; [destruct E2 as [|(d & ? & _)]; lia|].
    cbn [ahull_partition]. destruct (find_furthest pts p0 p1) as [pp0|]; auto. cbv zeta.
    destruct (partition_pts pts p0 p1 (vec2_of pp0)) as [[l r]|] eqn:PE; cbn [bind]; auto. pose proof (partition_lengths _ _ _ _ _ _ PE) as PL.
    set (m := length pts) in *. set (L := length l) in *. set (R := length r) in *.
    assert (DOWN : forall f q, 1 < q -> q + (m - L - R) <= m -> q <= (m - L - R) * 4 -> enough (S f) m -> enough f q).
    { intros f q Q1 Q2 Q3 [E|(d & E & D)]; [left; lia|]. destruct d as [|d]; [cbn in D; lia|]. right. exists d. split; [lia|]. assert (5 * q <= 4 * m) by lia. cbn [Nat.pow] in D.
      assert (4 ^ d * (5 * q) <= 4 ^ d * (4 * m)) by (apply Nat.mul_le_mono_l; lia). nia. }
    apply bind_ext; [|intro h1; apply bind_ext; [|reflexivity]].
    - destruct (Nat.leb_spec L 1); auto. destruct (Nat.leb_spec L ((m - L - R) * 4)); auto. apply IH; apply DOWN; auto; lia.
    - destruct (Nat.leb_spec R 1); auto. destruct (Nat.leb_spec R ((m - L - R) * 4)); auto. apply IH; apply DOWN; auto; lia.
  Qed.

  Variable so : list V -> list V.
  Hypothesis SO : forall l, length (so l) = length l.
  Lemma discard_le l (p : V) : length (set_discard (N:=N) l p) <= length l. Proof. apply filter_le. Qed.
  Lemma upper_lower_length pts (l r : V) : length (fst (upper_lower (N:=N) pts l r)) + length (snd (upper_lower (N:=N) pts l r)) <= length pts.
  Proof.
    unfold upper_lower. cbv zeta. match goal with |- context [fold_left ?f pts _] => set (st := f) end.
    assert (G : forall pts lr, length (fst (fold_left st pts lr)) + length (snd (fold_left st pts lr)) <= length (fst lr) + length (snd lr) + length pts).
    { clear. induction pts as [|p pts IH]; intros [a b]; cbn [fold_left length]; [lia|]. eapply Nat.le_trans; [apply IH|]. unfold st. destruct (nltb _ _); cbn [fst snd]; unfold set_add;
      destruct (set_mem _ _); rewrite ?app_length; cbn; lia. }
    specialize (G pts ([], [])). cbn in G. exact G.
  Qed.
  Definition two_sets (pts : list V) (p : V) : list V * list V :=
    let '(l, r) := fold_left lr_step pts (p, p) in
    let '(up, lo) := upper_lower pts l r in
    (set_discard (set_discard up l) r, set_discard (set_discard lo l) r).
  Lemma two_sets_length pts p : length (fst (two_sets pts p)) + length (snd (two_sets pts p)) <= length pts.
  Proof.
    unfold two_sets. destruct (fold_left lr_step pts (p, p)) as [l r]. pose proof (upper_lower_length pts l r) as H. destruct (upper_lower pts l r) as [up lo]. cbn [fst snd] in *.
    pose proof (discard_le (set_discard up l) r). pose proof (discard_le up l). pose proof (discard_le (set_discard lo l) r). pose proof (discard_le lo l). lia.
  Qed.
  Lemma quick_hull_steps pts : (forall q, q <= length pts -> sortc q <= q * S0) ->
    snd (quick_hull_c (N:=N) sortc so pts) <= length pts * (8 * depth (length pts) + S0 + 11).
  Proof.
    intro HS. unfold quick_hull_c. destruct pts as [|p0 pts0]; [cbn; lia|]. set (pts := p0 :: pts0) in *. steps. pose proof (two_sets_length pts p0) as TL. unfold two_sets in TL.
    destruct (fold_left lr_step pts (p0, p0)) as [l r]. unfold upper_lower_c. cbv zeta. steps. unfold upper_lower in TL. cbv zeta in TL.
    destruct (fold_left _ pts ([], [])) as [up lo]. cbn [fst snd] in TL. set (u := set_discard (set_discard up l) r) in *. set (w := set_discard (set_discard lo l) r) in *. steps.
    set (n := length pts) in *. set (X := 8 * depth n + S0 + 9). assert (N1 : 1 <= n) by (unfold n, pts; cbn; lia). assert (DK := depth_ok n N1).
    assert (PART : forall (q : list V) (a b : V) (y : res (list V) * nat), length q <= n -> y = match q with [] => cret (Ok [a]) | _ => ahull_partition_c sortc (S (length q)) (so q) a b end -> snd y <= length q * X).
    { intros q a b y Hq ->. destruct q as [|q0 q]; [cbn; lia|]. set (Q := q0 :: q) in *. pose proof (SO Q) as SQ. rewrite <- SQ. apply ahull_steps.
      - rewrite SQ. unfold Q. cbn. lia.
      - intros k Hk. apply HS. lia.
      - eapply Nat.le_trans; [|apply DK]. apply Nat.mul_le_mono_l. lia. }
    set (y1 := match u with [] => cret (Ok [l]) | _ => ahull_partition_c sortc (S (length u)) (so u) l r end) in *.
    set (y2 := match w with [] => cret (Ok [r]) | _ => ahull_partition_c sortc (S (length w)) (so w) r l end) in *.
    pose proof (PART u l r y1 ltac:(lia) eq_refl) as B1. pose proof (PART w r l y2 ltac:(lia) eq_refl) as B2. clearbody y1 y2. clear PART.
    assert (length u * X + length w * X <= n * X) by (rewrite <- Nat.mul_add_distr_r; apply Nat.mul_le_mono_r; lia).
    replace (n * (8 * depth n + S0 + 11)) with (n * X + 2 * n) by (unfold X; lia). destruct (fst y1); [|lia]. steps. destruct (fst y2); steps; lia.
  Qed.
  Lemma quick_hull_length pts h : quick_hull (N:=N) so pts = Ok h -> length h <= 3 * length pts + 2.
  Proof.
    unfold quick_hull. destruct pts as [|p0 pts0]; [discriminate|]. set (pts := p0 :: pts0) in *. pose proof (two_sets_length pts p0) as TL. unfold two_sets in TL.
    destruct (fold_left lr_step pts (p0, p0)) as [l r]. destruct (upper_lower pts l r) as [up lo]. cbn [fst snd] in TL. set (u := set_discard (set_discard up l) r) in *. set (w := set_discard (set_discard lo l) r) in *.
    assert (PART : forall (q : list V) (a b : V) y, match q with [] => Ok [a] | _ => ahull_partition (S (length q)) (so q) a b end = Ok y -> length y <= 3 * length q + 1).
    { intros q a b y. destruct q as [|q0 q]; [intro E; injection E as <-; cbn; lia|]. set (Q := q0 :: q) in *. pose proof (SO Q) as SQ. intro E. apply ahull_length in E; rewrite SQ in *; [lia|unfold Q; cbn; lia]. }
    match goal with |- bind ?a _ = _ -> _ => destruct a as [h1|] eqn:E1; cbn [bind]; [|discriminate] end.
    match goal with |- bind ?a _ = _ -> _ => destruct a as [h2|] eqn:E2; cbn [bind]; [|discriminate] end. intro E. injection E as <-.
    apply PART in E1. apply PART in E2. rewrite app_length. lia.
  Qed.
  Lemma convex_hull_steps pts : (forall q, q <= length pts -> sortc q <= q * S0) ->
    snd (convex_hull_c (N:=N) sortc so pts) <= length pts * (8 * depth (length pts) + S0 + 66).
  Proof.
    intro HS. unfold convex_hull_c. steps. pose proof (quick_hull_steps pts HS) as H. rewrite quick_erase. destruct (quick_hull so pts) as [h|] eqn:E; [|lia].
    pose proof (quick_hull_length pts h E) as L. pose proof (poly_new_steps h (Some true) None). assert (1 <= length pts) by (destruct pts; [discriminate|cbn; lia]). nia.
  Qed.
End HullSteps.
