(** * Bounds on the number of steps *)
From Coq Require Import ZArith List Bool Arith Lia.
From Verif Require Import Num Vec Affine Box Seq Polygon Tangent Hull Cost CostFacts.
Import ListNotations.
Local Open Scope nat_scope.

Lemma snd_tick {A} k (m : A * nat) : snd (tick k m) = k + snd m. Proof. reflexivity. Qed.
Lemma snd_ret {A} (a : A) : snd (cret a) = 0. Proof. reflexivity. Qed.
Lemma snd_bind {A B} (m : A * nat) (f : A -> B * nat) : snd (cbind m f) = snd m + snd (f (fst m)). Proof. reflexivity. Qed.
Lemma snd_rbind {A B} (m : res A * nat) (f : A -> res B * nat) : snd (rbind m f) = snd m + match fst m with Ok a => snd (f a) | Err _ => 0 end.
Proof. unfold rbind. rewrite snd_bind. destruct (fst m); reflexivity. Qed.
Lemma snd_copied {A} (l : list A) : snd (copied l) = length l. Proof. reflexivity. Qed.
Ltac steps := repeat first [rewrite snd_tick | rewrite snd_ret | rewrite snd_rbind | rewrite snd_bind | rewrite snd_copied | rewrite fst_tick | rewrite fst_ret | rewrite fst_bind | rewrite fst_copied | rewrite fold_c_eq | rewrite map_c_eq]; cbn [fst snd].
Lemma firstn_le {A} k (l : list A) : length (firstn k l) <= length l. Proof. rewrite firstn_length. lia. Qed.
Lemma skipn_le {A} k (l : list A) : length (skipn k l) <= length l. Proof. rewrite skipn_length. lia. Qed.
Lemma filter_le {A} f (l : list A) : length (filter f l) <= length l.
Proof. induction l as [|a l IH]; cbn [filter length]; [lia|]. destruct (f a); cbn [length]; lia. Qed.

Section Bounds.
  Context {T : Type} {N : Num T}.
  Notation V := (vec T).
  Notation P := (poly T).
  Variable sortc : nat -> nat.

  Lemma classify_loop_steps ds : forall ld d ch a k, snd (classify_loop_c (N:=N) ld d ch a k ds) <= length ds.
  Proof.
    induction ds as [|x ds IH]; intros; [cbn; lia|]. cbn [classify_loop_c length]. rewrite snd_tick. cbv zeta.
    repeat match goal with |- context [if ?b then _ else _] => destruct b end; try rewrite snd_ret; try lia;
    match goal with |- 1 + snd (classify_loop_c ?a ?b ?c ?d ?e _) <= _ => specialize (IH a b c d e); lia end.
  Qed.
  Lemma edges_steps vs : forall p, snd (edges_c (N:=N) p vs) = length vs.
  Proof. induction vs as [|v vs IH]; intro; [reflexivity|]. cbn [edges_c length]. cbv zeta. steps. rewrite IH. lia. Qed.
  Lemma edges_from_length vs : forall p : V, length (edges_from p vs) = length vs.
  Proof. induction vs as [|v vs IH]; intro; [reflexivity|]. cbn [edges_from length]. rewrite IH. reflexivity. Qed.
  Lemma classify_core_steps vs : snd (classify_core_c (N:=N) vs) <= 2 * length vs.
  Proof.
    unfold classify_core_c. steps. destruct (py_get vs (-1)) as [vl|]; [|lia]. steps. destruct (py_get vs (-2)) as [vl2|]; [|lia]. cbv zeta. steps.
    set (x := classify_loop_c _ _ _ _ _ _). assert (X : snd x <= length vs).
    { eapply Nat.le_trans; [apply classify_loop_steps|]. rewrite edge_vectors_erase. eapply Nat.le_trans; [apply filter_le|]. destruct vs; [cbn; lia|].
      unfold edge_vectors. rewrite edges_from_length. lia. }
    assert (Y : snd (edge_vectors_c vs) = length vs) by (destruct vs; [reflexivity|apply edges_steps]). rewrite Y. destruct (fst x) as [[[c dc] s] k]. rewrite snd_ret. lia.
  Qed.
  Lemma orient_pl_steps pl : snd (orient_pl_c (N:=N) pl) <= length pl.
  Proof. destruct pl as [|q pl]; [cbn; lia|]. cbn [orient_pl_c]. destruct (nltb _ _); [rewrite snd_copied, rev_length|rewrite snd_ret]; lia. Qed.
  Lemma find_extrema_steps vs : snd (find_extrema_c (N:=N) vs) = length vs.
  Proof.
    unfold find_extrema_c. destruct vs as [|v vs]; [reflexivity|]. steps. rewrite Nat.add_0_r. generalize 0. induction (v :: vs) as [|w ws IH]; intro; cbn [enumerate_from length]; auto.
  Qed.
  Lemma split_steps vs : snd (split_y_polylines_c (N:=N) vs) <= 10 * length vs.
  Proof.
    unfold split_y_polylines_c. steps. rewrite find_extrema_steps. destruct (fst (find_extrema_c vs)) as [e|]; [|lia]. cbv zeta. steps.
    set (ws := map _ vs). assert (W : length ws = length vs) by apply map_length. clearbody ws.
    destruct (Nat.ltb _ _); steps; match goal with |- context [orient_pl_c (?a ++ ?b)] => set (s2 := a); set (s3 := b) end; match goal with |- context [snd (orient_pl_c ?a)] => set (s1 := a) end;
    pose proof (orient_pl_steps s1); pose proof (orient_pl_steps (s2 ++ s3)); rewrite app_length in *;
    (assert (length s1 <= length vs) by (unfold s1; eapply Nat.le_trans; [apply firstn_le|]; rewrite <- W; apply skipn_le));
    (assert (length s2 <= length vs) by (unfold s2; rewrite <- W; apply skipn_le)); (assert (length s3 <= length vs) by (unfold s3; rewrite <- W; apply firstn_le));
    destruct (_ || _); rewrite snd_ret; lia.
  Qed.
  Lemma classify_steps p : snd (classify_c (N:=N) p) <= 12 * length (pverts p).
  Proof.
    unfold classify_c. cbv zeta. steps. pose proof (classify_core_steps (pverts p)). destruct (fst (classify_core_c (pverts p))) as [[[c d] k]|]; [|lia].
    destruct (c && negb d); steps; [|lia]. pose proof (split_steps (pverts p)). destruct (fst _); steps; lia.
  Qed.
  Lemma is_convex_steps p : snd (get_is_convex_c (N:=N) p) <= 12 * length (pverts p).
  Proof.
    unfold get_is_convex_c. destruct (pconvex p); [steps; lia|]. steps. pose proof (classify_steps p). destruct (fst (classify_c p)) as [p1|]; [|steps; lia].
    destruct (pconvex p1); steps; lia.
  Qed.
  Lemma poly_new_steps vs c s : snd (poly_new_c (N:=N) vs c s) <= 11 * length vs.
  Proof.
    unfold poly_new_c. steps. cbv zeta. set (ws := map vec2_of vs). assert (W : length ws = length vs) by apply map_length. clearbody ws.
    destruct (Nat.ltb _ 3); [steps; lia|]. steps. pose proof (split_steps ws) as S1.
    assert (F : forall r : res P, match r with Ok p => snd (match s, psimple p with Some s0, None => cret (Ok (mkPoly ws (pconvex p) (Some s0) (pypl p) (pdupe p) (pdegen p) (pbbox p) (pcentroid p) (pmaxr2 p) (pminr2 p) (ptri p))) | _, _ => cret (Ok p) end) | Err _ => 0 end = 0).
    { intros [p|]; auto. destruct s; auto. destruct (psimple p); auto. }
    rewrite F. destruct c as [c|]; [|steps; lia]. destruct (pconvex _); [steps; lia|]. destruct (c && _); steps; [|lia]. destruct (fst _); steps; lia.
  Qed.
  Lemma bbox_steps p : snd (get_bbox_c (N:=N) p) <= length (pverts p).
  Proof.
    unfold get_bbox_c. destruct (pbbox p); [steps; lia|]. steps. assert (E : snd (box_from_points_c (pverts p)) <= length (pverts p)).
    { unfold box_from_points_c. destruct (pverts p) as [|v vs]; [cbn; lia|]. steps. destruct (fold_left _ _ _) as [[[a b] c] d]. steps. cbn [length]. lia. }
    destruct (fst _); steps; lia.
  Qed.
  Lemma sweep_steps li pts : forall open, snd (sweep_c (N:=N) li open pts) <= length pts * (1 + 2 * (length open + length pts)).
  Proof.
    induction pts as [|[[s e] i] pts IH]; intro open; [cbn; lia|]. cbn [sweep_c]. rewrite snd_tick. match goal with |- context [existsb ?f open] => destruct (existsb f open) end.
    - match goal with |- context [sweep_c li ?o pts] => specialize (IH o); set (o2 := o) in * end. assert (L : length o2 <= length open) by apply filter_le. apply (Nat.mul_le_mono_l _ _ (length pts)) in L. unfold sweep_entry in *. cbn [length]. set (x := snd _) in *. set (k := length o2) in *. set (k' := length open) in *. set (n := length pts) in *. clearbody x k k' n. nia.
    - steps. assert (snd (hits_open_c li (s, e, i) open) <= length open) by apply existsb_c_snd. destruct (fst (hits_open_c _ _ _)); steps; [unfold sweep_entry in *; cbn [length]; set (h := snd (hits_open_c _ _ _)) in *; set (k' := length open) in *; set (n := length pts) in *; clearbody h k' n; nia|].
      specialize (IH (open ++ [(s, e, i)])). rewrite app_length in IH. unfold sweep_entry in *. cbn [length] in *. set (x := snd (sweep_c _ _ _)) in *. set (h := snd (hits_open_c _ _ _)) in *. set (k' := length open) in *. set (n := length pts) in *. clearbody x h k' n. nia.
  Qed.
  Lemma pairs_from_length vs : forall i (p : V), length (pairs_from i p vs) = length vs.
  Proof. induction vs as [|v vs IH]; intros; [reflexivity|]. cbn [pairs_from length]. rewrite IH. reflexivity. Qed.
  Lemma insert_length {X} (lt : X -> X -> bool) x l : length (insert_by lt x l) = S (length l).
  Proof. induction l as [|y l IH]; cbn [insert_by length]; auto. destruct (lt x y); cbn [length]; auto. Qed.
  Lemma sort_length {X} (lt : X -> X -> bool) l : length (sort_by lt l) = length l.
  Proof.
    unfold sort_by. assert (G : forall acc, length (fold_left (fun acc x => insert_by lt x acc) l acc) = length acc + length l); [|rewrite G; reflexivity].
    induction l as [|x l IH]; intro; cbn [fold_left length]; [lia|]. rewrite IH, insert_length. lia.
  Qed.
  Lemma check_steps vs : snd (check_is_simple_c (N:=N) sortc vs) <= 7 * length vs + 8 * (length vs * length vs) + sortc (2 * length vs).
  Proof.
    unfold check_is_simple_c. cbv zeta. steps. rewrite seq_length, map_id.
    set (es := indexed_edges vs). assert (E : length es = length vs) by (unfold es, indexed_edges; destruct vs; [reflexivity|apply pairs_from_length]).
    rewrite !app_length, !map_length, E. match goal with |- context [sweep_c ?a [] ?b] => pose proof (sweep_steps a b []) as H; set (x := sweep_c a [] b) in *; replace (length b) with (2 * length vs) in H end.
    2:{ rewrite sort_length, app_length, map_length. unfold sweep_entry in *. rewrite !E. lia. }
    clearbody x. unfold sweep_entry in *. rewrite !E. replace (length vs + length vs) with (2 * length vs) by lia. cbn [length] in H. nia.
  Qed.
  Lemma is_simple_steps p : snd (get_is_simple_c (N:=N) sortc p) <= 19 * length (pverts p) + 8 * (length (pverts p) * length (pverts p)) + sortc (2 * length (pverts p)).
  Proof.
    unfold get_is_simple_c. destruct (psimple p) eqn:HS; [steps; lia|]. steps. destruct (pconvex p) eqn:HC.
    - steps. rewrite HS. steps. pose proof (check_steps (pverts p)). lia.
    - pose proof (classify_steps p) as H. destruct (fst (classify_c p)) as [p1|] eqn:E; [|steps; lia]. rewrite classify_erase in E. assert (pverts p1 = pverts p) as ->.
      { unfold classify in E. destruct (classify_core (pverts p)) as [[[c d] k]|]; cbn [bind] in E; [|discriminate].
        destruct (c && negb d); [destruct (split_y_polylines (pverts p)); cbn [bind] in E; [|discriminate]|]; injection E as <-; reflexivity. }
      destruct (psimple p1); steps; [lia|]. pose proof (check_steps (pverts p)). lia.
  Qed.
  Lemma centroid_value_steps vs : snd (centroid_value_c (N:=N) vs) <= length vs.
  Proof. unfold centroid_value_c. destruct vs as [|a [|b vs]]; try (cbn; lia). steps. destruct (fold_left _ _ _) as [[x y] z]. rewrite snd_ret. cbn [length]. lia. Qed.
  Lemma centroid_known_steps p b : psimple p = Some b -> snd (get_centroid_c (N:=N) sortc p) <= length (pverts p).
  Proof.
    intro H. unfold get_centroid_c. destruct (pcentroid p); [steps; lia|]. unfold get_is_simple_c. rewrite H. steps. destruct b; [|steps; lia]. steps. pose proof (centroid_value_steps (pverts p)).
    destruct (fst _); steps; lia.
  Qed.
  Lemma simple_verts p : pverts (snd (get_is_simple (N:=N) p)) = pverts p.
  Proof.
    unfold get_is_simple. destruct (psimple p) eqn:HS; auto. destruct (pconvex p); [rewrite HS; reflexivity|]. destruct (classify p) as [p1|] eqn:E; auto. assert (pverts p1 = pverts p).
    { unfold classify in E. destruct (classify_core (pverts p)) as [[[c d] k]|]; cbn [bind] in E; [|discriminate].
      destruct (c && negb d); [destruct (split_y_polylines (pverts p)); cbn [bind] in E; [|discriminate]|]; injection E as <-; reflexivity. }
    destruct (psimple p1); auto.
  Qed.
  Lemma centroid_steps p : snd (get_centroid_c (N:=N) sortc p) <= snd (get_is_simple_c (N:=N) sortc p) + length (pverts p).
  Proof.
    unfold get_centroid_c. destruct (pcentroid p); [steps; lia|]. steps. rewrite is_simple_erase. pose proof (simple_verts p) as W. destruct (get_is_simple p) as [[[|]|] p1]; cbn [snd] in W; steps; try lia.
    pose proof (centroid_value_steps (pverts p1)). rewrite W in *. destruct (fst _); steps; lia.
  Qed.
  Lemma winding_steps vs p : snd (winding_test_c (N:=N) vs p) <= length vs.
  Proof. unfold winding_test_c. steps. destruct (py_get vs (-1)); [|lia]. steps. rewrite wind_loop_eq. cbn. lia. Qed.
  Lemma winding_steps_exact vs p : vs <> [] -> snd (winding_test_c (N:=N) vs p) = length vs.
  Proof.
    intro H. unfold winding_test_c. steps. assert (E : exists v, py_get vs (-1) = Ok v).
    { unfold py_get, py_index. destruct vs as [|a vs]; [congruence|]. set (L := a :: vs) in *. assert (0 < length L) by (cbn; lia). clearbody L. change ((-1 <? 0)%Z) with true. cbv iota.
      replace (0 <=? -1 + Z.of_nat (length L))%Z with true by (symmetry; apply Z.leb_le; lia). replace (-1 + Z.of_nat (length L) <? Z.of_nat (length L))%Z with true by (symmetry; apply Z.ltb_lt; lia).
      cbn [andb]. destruct (nth_error L _) eqn:NE; [eauto|]. apply nth_error_None in NE. lia. }
    destruct E as (v & ->). steps. rewrite wind_loop_eq. cbn. lia.
  Qed.
  Lemma bisect_steps a py fuel : forall lo hi, snd (bisect_loop_c (N:=N) fuel a py lo hi) <= if Nat.ltb lo hi then S (Nat.log2 (hi - lo)) else 0.
  Proof.
    induction fuel as [|f IH]; intros lo hi; [cbn; lia|]. cbn [bisect_loop_c]. destruct (Nat.ltb_spec lo hi) as [L|L]; [|rewrite snd_ret; lia]. rewrite snd_tick. cbv zeta.
    set (mid := Nat.div2 (lo + hi)). assert (M : lo <= mid < hi /\ mid - lo <= Nat.div2 (hi - lo) /\ hi - S mid <= Nat.div2 (hi - lo)).
    { unfold mid. rewrite !Nat.div2_div. pose proof (Nat.div_mod (lo + hi) 2 ltac:(lia)). pose proof (Nat.mod_upper_bound (lo + hi) 2 ltac:(lia)).
      pose proof (Nat.div_mod (hi - lo) 2 ltac:(lia)). pose proof (Nat.mod_upper_bound (hi - lo) 2 ltac:(lia)). lia. }
    clearbody mid. destruct M as (M1 & M2 & M3). assert (D : forall k, 0 < k -> k <= Nat.div2 (hi - lo) -> S (Nat.log2 k) <= Nat.log2 (hi - lo)).
    { intros k K1 K2. assert (2 * k <= hi - lo) by (rewrite Nat.div2_div in K2; pose proof (Nat.div_mod (hi - lo) 2 ltac:(lia)); lia).
      rewrite <- Nat.log2_double by lia. apply Nat.log2_le_mono. lia. }
    destruct (nth_error a mid); [|rewrite snd_ret; lia]. destruct (key_before py p).
    - specialize (IH lo mid). destruct (Nat.ltb_spec lo mid); [|lia]. specialize (D (mid - lo)). lia.
    - specialize (IH (S mid) hi). destruct (Nat.ltb_spec (S mid) hi); [|lia]. specialize (D (hi - S mid)). lia.
  Qed.
  Lemma bisect_right_steps a py n : length a <= n -> snd (bisect_right_c (N:=N) a py) <= S (Nat.log2 n).
  Proof.
    intro H. unfold bisect_right_c. eapply Nat.le_trans; [apply bisect_steps|]. destruct (Nat.ltb_spec 0 (length a)); [|lia]. apply le_n_S, Nat.log2_le_mono. lia.
  Qed.
  Lemma y_monotone_steps lp rp p n : length lp <= n -> length rp <= n -> snd (y_monotone_test_c (N:=N) (lp, rp) p) <= 2 * S (Nat.log2 n).
  Proof.
    intros H1 H2. unfold y_monotone_test_c. steps. pose proof (bisect_right_steps lp (vy p) n H1). pose proof (bisect_right_steps rp (vy p) n H2).
    destruct (fst (bisect_right_c lp (vy p))) as [i|]; [|lia]. destruct (_ || _); [steps; lia|]. steps. destruct (py_get lp _); [|lia]. steps. destruct (py_get lp _); [|lia].
    destruct (nltb _ _); [steps; lia|]. steps. destruct (fst (bisect_right_c rp (vy p))); [|lia]. steps. destruct (py_get rp _); [|lia]. steps. destruct (py_get rp _); steps; lia.
  Qed.
  Lemma pt_tangents_steps vs p : snd (pt_tangents_c (N:=N) vs p) <= length vs.
  Proof.
    unfold pt_tangents_c. steps. destruct (py_get vs 0); [|lia]. steps. destruct (py_get vs (-2)); [|lia]. steps. destruct (py_get vs (-1)); [|lia]. cbv zeta. steps.
    destruct (fold_left _ _ _) as [[[x y] z] w]. rewrite snd_ret. lia.
  Qed.
  Lemma left_loop_steps vs p limit : forall a b, snd (left_tan_loop_c (N:=N) vs p limit a b) <= limit.
  Proof.
    induction limit as [|limit IH]; intros; [cbn; lia|]. cbn [left_tan_loop_c]. rewrite snd_tick. cbv zeta. steps. destruct (py_get vs _) as [vc1|]; [|lia]. steps. destruct (py_get vs _) as [vc|]; [|lia].
    steps. match goal with |- context [match fst ?x with _ => _ end] => assert (X : snd x = 0) by (destruct (negb _); steps; auto; destruct (py_get vs _); auto); rewrite X; clear X; destruct (fst x) as [[|]|] end; [steps; lia| |lia].
    steps. destruct (py_get vs _) as [va1|]; [|lia]. steps. destruct (py_get vs _) as [va|]; [|lia].
    repeat match goal with |- context [if ?b then _ else _] => destruct b end; match goal with |- context [left_tan_loop_c vs p limit ?x ?y] => specialize (IH x y); lia end.
  Qed.
  Lemma right_loop_steps vs p limit : forall a b, snd (right_tan_loop_c (N:=N) vs p limit a b) <= limit.
  Proof.
    induction limit as [|limit IH]; intros; [cbn; lia|]. cbn [right_tan_loop_c]. rewrite snd_tick. cbv zeta. steps. destruct (py_get vs _) as [vc1|]; [|lia]. steps. destruct (py_get vs _) as [vc|]; [|lia].
    steps. match goal with |- context [match fst ?x with _ => _ end] => assert (X : snd x = 0) by (destruct (pt_below _ _ _); steps; auto; destruct (py_get vs _); auto); rewrite X; clear X; destruct (fst x) as [[|]|] end; [steps; lia| |lia].
    steps. destruct (py_get vs _) as [va1|]; [|lia]. steps. destruct (py_get vs _) as [va|]; [|lia].
    repeat match goal with |- context [if ?b then _ else _] => destruct b end; match goal with |- context [right_tan_loop_c vs p limit ?x ?y] => specialize (IH x y); lia end.
  Qed.
End Bounds.
