(** * Steps of containment queries; classification of strictly convex polygons *)
From Coq Require Import ZArith List Bool Reals Lra Lia Psatz.
From Verif Require Import Num Vec Affine Box Seq Polygon Tangent Hull PolyOps Cost CostFacts CostFacts2 CostFacts4 PolyCache PolyCache2 PolyCache3 PolyCache5.
Import ListNotations.

Section Any.
  Context {T : Type} {N : Num T}.
  Notation V := (vec T).
  Notation P := (poly T).
  Variable sortc : nat -> nat.
  Lemma orient_pl_length (pl : list (T * T)) : length (orient_pl (N:=N) pl) = length pl.
  Proof. destruct pl as [|q pl]; auto. cbn [orient_pl]. destruct (nltb _ _); auto. apply rev_length. Qed.
  Lemma split_lengths (vs : list V) lp rp : split_y_polylines (N:=N) vs = Ok (lp, rp) -> length lp <= S (length vs) /\ length rp <= S (length vs).
  Proof.
    unfold split_y_polylines. destruct (find_extrema vs) as [e|]; cbn [bind]; [|discriminate]. cbv zeta. set (ws := map _ vs). assert (W : length ws = length vs) by apply map_length. clearbody ws.
    assert (A : forall a b, length (orient_pl (firstn a (skipn b ws))) <= S (length vs)).
    { intros. rewrite orient_pl_length, firstn_length, skipn_length. lia. }
    assert (B : forall a b, b <= a -> length (orient_pl (skipn a ws ++ firstn (b + 1) ws)) <= S (length vs)).
    { intros. rewrite orient_pl_length, app_length, firstn_length, skipn_length. lia. }
    destruct (Nat.ltb_spec (x_min_i e) (x_max_i e)); destruct (_ || _); intro H0; injection H0 as <- <-; split; auto; apply B; lia.
  Qed.
  Lemma chains_steps (p : P) q pl : yok p -> pypl p = Some pl -> snd (y_monotone_test_c (N:=N) pl q) <= 2 * S (Nat.log2 (S (length (pverts p)))).
  Proof. intros Y E. apply Y in E. destruct pl as [lp rp]. apply split_lengths in E as [? ?]. apply y_monotone_steps; auto. Qed.
  Lemma log_le n : 1 <= n -> S (Nat.log2 (S n)) <= S n.
  Proof. intro H. pose proof (Nat.log2_lt_lin (S n)). lia. Qed.

  Lemma contains_triangle_steps E q (p : P) : length (pverts p) = 3 -> snd (contains_point_c (N:=N) sortc E q p) <= 3 + sortc 3.
  Proof.
    intro H. unfold contains_point_c. cbv zeta. rewrite H, Nat.eqb_refl. unfold triangle_test_c. destruct (ptri p); [cbn; lia|]. steps. rewrite H. destruct (tri_build E (pverts p)) as [[c|]|]; rewrite snd_ret; lia.
  Qed.
  Lemma contains_chain_steps E q (p : P) pl : yok p -> length (pverts p) <> 3 -> pypl p = Some pl -> snd (contains_point_c (N:=N) sortc E q p) <= 2 * S (Nat.log2 (S (length (pverts p)))).
  Proof.
    intros Y H0 H. unfold contains_point_c. cbv zeta. destruct (Nat.eqb_spec (length (pverts p)) 3); [lia|]. destruct (radial_shortcut p q) as [[b|]|]; [rewrite snd_ret; lia| |rewrite snd_ret; lia].
    rewrite H. steps. pose proof (chains_steps p q pl Y H). lia.
  Qed.
  Lemma contains_plain_steps E q (p : P) : length (pverts p) <> 3 -> pypl p = None -> snd (contains_point_c (N:=N) sortc E q p) <= 2 * length (pverts p).
  Proof.
    intros H0 H. unfold contains_point_c. cbv zeta. destruct (Nat.eqb_spec (length (pverts p)) 3); [lia|]. destruct (radial_shortcut p q) as [[b|]|]; [rewrite snd_ret; lia| |rewrite snd_ret; lia].
    rewrite H. destruct (Nat.eqb _ 4). { steps. pose proof (winding_steps (pverts p) q). lia. }
    steps. pose proof (bbox_steps p) as B. rewrite bbox_erase. assert (W : pverts (snd (get_bbox p)) = pverts p) by (unfold get_bbox; destruct (pbbox p); auto; destruct (box_from_points (pverts p)); auto).
    destruct (get_bbox p) as [[b|] p1]; cbn [snd] in W; [|rewrite snd_ret; lia]. destruct (box_contains b q); [|rewrite snd_ret; lia]. steps. rewrite W. pose proof (winding_steps (pverts p) q). lia.
  Qed.
  Lemma tangents_any_steps q (p : P) : snd (tangents_to_point_c (N:=N) q p) <= snd (get_is_convex_c (N:=N) p) + 2 * length (pverts p).
  Proof.
    unfold tangents_to_point_c. destruct (Nat.ltb _ _); [|steps; pose proof (pt_tangents_steps (pverts p) q); lia]. steps. rewrite is_convex_erase. pose proof (convex_state_verts p) as W.
    destruct (get_is_convex p) as [[[|]|] p1]; cbn [snd] in W; [| |rewrite snd_ret; lia].
    - rewrite <- W. pose proof (pt_tangents_steps (pverts p1) q). destruct (pdupe p1) as [[|]|]; steps; try lia.
      assert (A : snd (left_tan_i_convex_c (pverts p1) q) <= length (pverts p1)).
      { unfold left_tan_i_convex_c. steps. destruct (py_get _ 0); [|lia]. steps. destruct (py_get _ (-1)); [|lia]. steps. destruct (py_get _ (-2)); [|lia]. destruct (_ && _); [rewrite snd_ret; lia|]. apply left_loop_steps. }
      assert (B : snd (right_tan_i_convex_c (pverts p1) q) <= length (pverts p1)).
      { unfold right_tan_i_convex_c. steps. destruct (py_get _ 0); [|lia]. steps. destruct (py_get _ (-1)); [|lia]. steps. destruct (py_get _ (-2)); [|lia]. destruct (_ && _); [rewrite snd_ret; lia|]. apply right_loop_steps. }
      destruct (fst (left_tan_i_convex_c (pverts p1) q)); [|lia]. steps. destruct (py_get _ _); [|lia]. steps. destruct (fst (right_tan_i_convex_c (pverts p1) q)); [|lia]. steps. destruct (py_get _ _); steps; lia.
    - steps. rewrite W. pose proof (pt_tangents_steps (pverts p) q). lia.
  Qed.
  Lemma tangents_scan_steps q (p : P) : pconvex p <> None -> (pconvex p = Some true -> pdupe p <> Some false) -> snd (tangents_to_point_c (N:=N) q p) <= length (pverts p).
  Proof.
    intros HC HD. pose proof (pt_tangents_steps (pverts p) q). unfold tangents_to_point_c. destruct (Nat.ltb _ _); [|steps; lia]. unfold get_is_convex_c. destruct (pconvex p) as [[|]|]; [| |congruence].
    - steps. destruct (pdupe p) as [[|]|]; [steps; lia| |steps; lia]. exfalso. apply HD; auto.
    - steps. lia.
  Qed.
  Lemma pt_tangents_exact vs (q : V) : 2 <= length vs -> snd (pt_tangents_c (N:=N) vs q) = length vs.
  Proof.
    intro H. assert (G : forall k, (- Z.of_nat (length vs) <= k < Z.of_nat (length vs))%Z -> exists v, py_get vs k = Ok v).
    { intros k Hk. unfold py_get, py_index. destruct (Z.ltb_spec k 0).
      - replace (0 <=? k + Z.of_nat (length vs))%Z with true by (symmetry; apply Z.leb_le; lia). replace (k + Z.of_nat (length vs) <? Z.of_nat (length vs))%Z with true by (symmetry; apply Z.ltb_lt; lia). cbn [andb bind].
        destruct (nth_error vs (Z.to_nat (k + Z.of_nat (length vs)))) eqn:E; [eauto|]. apply nth_error_None in E. lia.
      - replace (0 <=? k)%Z with true by (symmetry; apply Z.leb_le; lia). replace (k <? Z.of_nat (length vs))%Z with true by (symmetry; apply Z.ltb_lt; lia). cbn [andb bind].
        destruct (nth_error vs (Z.to_nat k)) eqn:E; [eauto|]. apply nth_error_None in E. lia. }
    unfold pt_tangents_c. steps. destruct (G 0%Z) as (? & ->); [lia|]. steps. destruct (G (-2)%Z) as (? & ->); [lia|]. steps. destruct (G (-1)%Z) as (? & ->); [lia|]. cbv zeta. steps.
    destruct (fold_left _ _ _) as [[[? ?] ?] ?]. rewrite snd_ret. lia.
  Qed.

  (** An unbroken classification looks at every edge; a turn once seen stays. *)
  Lemma loop_count ds : forall ld d ch a k ch' a' k', classify_loop (N:=N) ld d ch a k ds = (true, ch', a', k') -> k' = k + length ds.
  Proof.
    induction ds as [|x ds IH]; intros ld d ch a k ch' a' k' H; cbn [classify_loop length] in H |- *; [injection H; lia|]. cbv zeta in H.
    repeat match type of H with context [if ?b then _ else _] => destruct b end; try discriminate; apply IH in H; lia.
  Qed.
  Lemma loop_sign ds : forall ld d ch a k c' ch' a' k', a <> 0%Z -> classify_loop (N:=N) ld d ch a k ds = (c', ch', a', k') -> a' <> 0%Z.
  Proof.
    induction ds as [|x ds IH]; intros ld d ch a k c' ch' a' k' A H; cbn [classify_loop] in H; [congruence|]. cbv zeta in H.
    repeat match type of H with context [if Z.eqb ?b ?c then _ else _] => destruct (Z.eqb b c) end;
    repeat match type of H with context [if nltb ?b ?c then _ else _] => destruct (nltb b c) end; try congruence; apply IH in H; auto; discriminate.
  Qed.
  Lemma loop_sign_first x ds ld d ch k c' ch' a' k' : nltb n0 (cross ld x) = true \/ nltb (cross ld x) n0 = true -> classify_loop (N:=N) ld d ch 0 k (x :: ds) = (c', ch', a', k') -> a' <> 0%Z.
  Proof.
    intros HX H. cbn [classify_loop] in H. cbv zeta in H. change (0 =? -1)%Z with false in H. change (0 =? 1)%Z with false in H. cbv iota in H.
    destruct (nltb n0 (cross ld x)) eqn:E1; [apply loop_sign in H; [auto|discriminate]|]. destruct (nltb (cross ld x) n0) eqn:E2; [apply loop_sign in H; [auto|discriminate]|]. destruct HX; discriminate.
  Qed.
End Any.
