(** * C91: items and slices of sequences *)
From Coq Require Import ZArith List Bool Lia Reals.
From Verif Require Import Num Vec Seq SeqItems SpecSeq SpecSlice SliceFacts.
Import ListNotations.

(** ** Reading *)
(** A slice lists the elements at the selected positions, in the direction of
    the step; a step of zero is a ValueError. *)
Theorem C91_get : forall (T : Type) (l : list (vec T)) (s : pyslice), let k := step_of s in
  (k <> 0%Z -> exists ps r, arr_getitem l (ISlice s) = Ok r /\ in_step_order k ps /\
    (forall p, In p ps <-> selected (Z.of_nat (length l)) (sl_start s) (sl_stop s) k (Z.of_nat p)) /\
    map Some r = map (nth_error l) ps) /\
  (k = 0%Z -> arr_getitem l (ISlice s) = Err ValueError).
Proof.
  intros T l s k. unfold arr_getitem, py_getitems. fold k. split; intro Hk.
  - exists (slice_positions (length l) s). eexists. split; [rewrite (proj2 (Z.eqb_neq k 0) Hk); reflexivity|].
    split; [apply positions_order; auto|]. split; [intro p; apply positions_spec; auto|]. apply gather_spec. intro p. apply positions_lt; auto.
  - rewrite Hk. reflexivity.
Qed.
Print Assumptions C91_get.
(** Without a step it is the contiguous slice of C13; [::-1] reverses. *)
Theorem C91_get_plain : forall (T : Type) (l : list (vec T)) (a b : option Z),
  arr_getitem l (ISlice (mkSlice a b None)) = Ok (py_getslice l a b) /\
  (exists pre mid post, sliced l a b pre mid post /\ arr_getitem l (ISlice (mkSlice a b None)) = Ok mid) /\
  arr_getitem l (ISlice (mkSlice None None (Some (-1)%Z))) = Ok (rev l).
Proof.
  intros T l a b. cbn [arr_getitem]. rewrite (getitems_step1 l a b None) by auto. split; [reflexivity|]. split; [|apply getitems_rev].
  unfold py_getslice, slice_bounds. set (n := length l).
  set (s := match a with None => 0 | Some i => py_clamp n i end). set (e := match b with None => n | Some i => py_clamp n i end).
  assert (Hs : s <= n) by (unfold s; destruct a; [apply clamp_le|lia]). assert (He : e <= n) by (unfold e; destruct b; [apply clamp_le|lia]).
  assert (CL : forall i, cut_at n i (py_clamp n i)).
  { intro i. unfold cut_at. rewrite clamp_adjust, adjust_pos by lia. unfold from_end. destruct (Z.ltb_spec i 0); lia. }
  exists (firstn s l), (firstn (Nat.max s e - s) (skipn s l)), (skipn (Nat.max s e - s) (skipn s l)). split; [|reflexivity]. unfold sliced.
  rewrite !firstn_skipn. split; [reflexivity|]. rewrite !firstn_length, skipn_length. fold n. split.
  - rewrite Nat.min_l by lia. unfold s. destruct a; [apply CL|reflexivity].
  - exists e. split; [unfold e; destruct b; [apply CL|reflexivity]|]. lia.
Qed.
Print Assumptions C91_get_plain.

(** ** Writing to a Vec2Array *)
(** With a step other than 1: as many well-formed vectors as positions, else
    ValueError; the j-th vector goes to the j-th selected position and nothing
    else changes.  A malformed vector is a TypeError. *)
Theorem C91_array_set : forall (T : Type) (N : Num T) (l : list (vec T)) (s : pyslice) (vs : list (list T)),
  let k := step_of s in k <> 0%Z -> k <> 1%Z ->
  (forall ws, vs = map (fun w => [vx w; vy w]) ws ->
   exists ps, in_step_order k ps /\ (forall p, In p ps <-> selected (Z.of_nat (length l)) (sl_start s) (sl_stop s) k (Z.of_nat p)) /\
   if Nat.eqb (length ws) (length ps) then
     exists l', arr_setitem l (ISlice s) (AMany vs) = Ok l' /\ length l' = length l /\
       (forall j p w, nth_error ps j = Some p -> nth_error ws j = Some w -> nth_error l' p = Some (vec2_of w)) /\
       (forall p, ~ In p ps -> nth_error l' p = nth_error l p)
   else arr_setitem l (ISlice s) (AMany vs) = Err ValueError) /\
  (Exists (fun v => length v <> 2) vs -> arr_setitem l (ISlice s) (AMany vs) = Err TypeError).
Proof.
  intros T N l s vs k K0 K1. split.
  - intros ws ->. exists (slice_positions (length l) s). split; [apply positions_order; auto|]. split; [intro p; apply positions_spec; auto|].
    assert (M : mapM vec2_star (map (fun w => [vx w; vy w]) ws) = Ok (map vec2_of ws)).
    { induction ws as [|w ws IH]; [reflexivity|]. cbn [map mapM vec2_star bind]. rewrite IH. reflexivity. }
    unfold arr_setitem. rewrite M. cbn [bind]. unfold py_setitems. fold k. rewrite (proj2 (Z.eqb_neq k 0) K0), (proj2 (Z.eqb_neq k 1) K1), map_length.
    destruct (Nat.eqb_spec (length ws) (length (slice_positions (length l) s))) as [e|]; [|reflexivity].
    eexists. split; [reflexivity|]. destruct (scatter_spec (slice_positions (length l) s) l (map vec2_of ws)) as (A & B & C).
    + apply positions_NoDup; auto. + rewrite map_length; auto. + intro p. apply positions_lt; auto.
    + split; [exact A|]. split; [|exact C]. intros j p w H1 H2. eapply B; [exact H1|]. rewrite nth_error_map, H2. reflexivity.
  - intro H. assert (M : mapM vec2_star vs = Err TypeError).
    { induction H as [v vs Hv|v vs H IH]; cbn [mapM].
      - destruct v as [|x [|y [|z v]]]; try reflexivity. contradiction.
      - rewrite IH. destruct v as [|x [|y [|z v]]]; reflexivity. }
    unfold arr_setitem. rewrite M. reflexivity.
Qed.
Print Assumptions C91_array_set.
(** Deletion keeps exactly the elements that were not selected, in order. *)
Theorem C91_array_del : forall (T : Type) (l : list (vec T)) (s : pyslice), let k := step_of s in k <> 0%Z -> k <> 1%Z ->
  exists ks l', arr_delitem l (ISlice s) = Ok l' /\
    (forall p, In p ks <-> p < length l /\ ~ selected (Z.of_nat (length l)) (sl_start s) (sl_stop s) k (Z.of_nat p)) /\
    (forall i j a b, i < j -> nth_error ks i = Some a -> nth_error ks j = Some b -> a < b) /\
    map Some l' = map (nth_error l) ks.
Proof.
  intros T l s k K0 K1. destruct (without_gather l 0 (slice_positions (length l) s)) as (ks & A & B & C). exists ks. eexists. split.
  - unfold arr_delitem, py_delitems. fold k. rewrite (proj2 (Z.eqb_neq k 0) K0), (proj2 (Z.eqb_neq k 1) K1). reflexivity.
  - split; [|split; [exact B|]].
    + intro p. rewrite A, positions_spec by auto. fold k. split; intros [? ?]; split; auto; lia.
    + rewrite C. apply map_ext. intro p. rewrite Nat.sub_0_r. reflexivity.
Qed.
Print Assumptions C91_array_del.
(** [extend] with a malformed element appends the ones before it and raises. *)
Theorem C91_extend : forall (T : Type) (N : Num T) (l : list (vec T)) (ws : list (vec T)) (rest : list (list T)),
  arr_extend l (map (fun w => [vx w; vy w]) ws) = (Ok tt, l ++ map vec2_of ws) /\
  (match rest with bad :: _ => length bad <> 2 | [] => False end ->
   arr_extend l (map (fun w => [vx w; vy w]) ws ++ rest) = (Err TypeError, l ++ map vec2_of ws)).
Proof.
  intros T N l ws rest. revert l. induction ws as [|w ws IH]; intro l.
  - cbn [map app arr_extend]. rewrite app_nil_r. split; [reflexivity|]. destruct rest as [|bad rest]; [tauto|]. intro H. cbn [arr_extend].
    destruct bad as [|x [|y [|z bad]]]; try reflexivity. contradiction.
  - cbn [map app arr_extend vec2_star]. change (vec2 (vx w) (vy w)) with (vec2_of w). destruct (IH (l ++ [vec2_of w])) as [A B].
    rewrite <- app_assoc in A, B. cbn [app] in A, B. auto.
Qed.
Print Assumptions C91_extend.
Theorem C91_extend_refuted : exists (l : list (vec R)) (vs : list (list R)) (l' : list (vec R)),
  arr_extend l vs = (Err TypeError, l') /\ l' <> l.
Proof.
  exists [], [[1; 2]; [3]]%R, [vec2 1 2]%R. split; [reflexivity|discriminate].
Qed.
Print Assumptions C91_extend_refuted.

(** ** Writing to a Seq2 or Polygon: "the number of vertices is fixed at construction" *)
Definition only_vectors {T} (l : list (elem T)) : Prop := Forall (fun e => exists v, e = EVec v) l.
Lemma Forall_list_set {X} (P : X -> Prop) l k x : Forall P l -> P x -> Forall P (list_set l k x).
Proof.
  intros H Hx. unfold list_set. rewrite Forall_forall in H. apply Forall_app. split; [|constructor; auto]; apply Forall_forall; intros y Hy; apply H.
  - rewrite <- (firstn_skipn k l). apply in_or_app; auto.
  - rewrite <- (firstn_skipn (S k) l). apply in_or_app; auto.
Qed.
Lemma py_set_ok {X} (l : list X) i x l' : py_set l i x = Ok l' -> exists k, k < length l /\ l' = list_set l k x.
Proof.
  unfold py_set, py_index. set (j := if (i <? 0)%Z then (i + Z.of_nat (length l))%Z else i).
  destruct ((0 <=? j)%Z && (j <? Z.of_nat (length l))%Z) eqn:E; [|discriminate]. intro H. injection H as <-.
  apply andb_true_iff in E. destruct E as [E1 E2]. apply Z.leb_le in E1. apply Z.ltb_lt in E2. exists (Z.to_nat j). split; [lia|reflexivity].
Qed.
(** With integer indices it is, whatever is assigned and whichever calls raise. *)
Theorem C91_fixed_length_partial : forall (T : Type) (N : Num T) (ops : list (pyindex * list T)) (l : list (elem T)),
  only_vectors l -> Forall (fun iv => exists i, fst iv = IInt i) ops ->
  length (seq2_items l ops) = length l /\ only_vectors (seq2_items l ops).
Proof.
  intros T N ops. induction ops as [|[i a] ops IH]; intros l Hl Ho; [cbn; auto|]. inversion Ho as [|? ? [j Hj] Ho']; subst. cbn [fst] in Hj. subst i.
  change (seq2_items l ((IInt j, a) :: ops)) with (seq2_items (seq2_step l (IInt j, a)) ops). unfold seq2_step, seq2_setitem. cbn [fst snd].
  destruct (vec2_star a) as [v|e]; cbn [bind]; [|apply IH; auto].
  destruct (py_set l j (EVec v)) as [l'|e] eqn:E; [|apply IH; auto]. apply py_set_ok in E. destruct E as (k & Hk & ->).
  destruct (IH (list_set l k (EVec v))) as [A B]; auto.
  - apply Forall_list_set; auto. eexists; eauto.
  - rewrite length_list_set in A by auto. auto.
Qed.
Print Assumptions C91_fixed_length_partial.
(** A slice assignment that returns always leaves plain numbers in the
    sequence, unless it raises. *)
Theorem C91_slice_numbers : forall (T : Type) (N : Num T) (l l' : list (elem T)) (s : pyslice) (a : list T),
  seq2_setitem l (ISlice s) a = Ok l' -> ~ only_vectors l'.
Proof.
  intros T N l l' s a H K. unfold seq2_setitem in H. destruct a as [|x [|y [|z a]]]; try discriminate. cbn [vec2_star bind] in H.
  unfold py_setitems in H. destruct (Z.eqb_spec (step_of s) 0); [discriminate|].
  unfold only_vectors in K. rewrite Forall_forall in K.
  assert (I : exists n, In (ENum n) l').
  { destruct (Z.eqb_spec (step_of s) 1).
    - injection H as <-. unfold py_setslice. destruct (slice_bounds (length l) (sl_start s) (sl_stop s)). eexists. apply in_app_iff. right. apply in_app_iff. left. left. reflexivity.
    - cbn [length] in H. destruct (Nat.eqb_spec 2 (length (slice_positions (length l) s))) as [e|]; [|discriminate]. injection H as <-.
      destruct (scatter_spec (slice_positions (length l) s) l [ENum (vx (vec2 x y)); ENum (vy (vec2 x y))]) as (_ & B & _); auto.
      + apply positions_NoDup; auto. + intro p. apply positions_lt; auto.
      + destruct (slice_positions (length l) s) as [|p ps]; [discriminate|]. eexists. eapply nth_error_In. apply (B 0 p); reflexivity. }
  destruct I as (m & I). destruct (K _ I). discriminate.
Qed.
Print Assumptions C91_slice_numbers.
(** So the number of vertices of a triangle can be changed: [p[0:1] = (1, 2)]
    leaves four elements, two of them numbers; [p[:] = (1, 2)] leaves two. *)
Theorem C91_fixed_length_refuted : exists (l : list (elem R)) (ops : list (pyindex * list R)),
  only_vectors l /\ length l = 3 /\ length (seq2_items l ops) <> length l /\ ~ only_vectors (seq2_items l ops) /\ length (seq2_items l ops) < 3.
Proof.
  exists (map EVec [mkV 0 0; mkV 1 0; mkV 0 1]%R), [(ISlice (mkSlice None None None), [1; 2]%R)].
  assert (H : seq2_items (map EVec [mkV 0 0; mkV 1 0; mkV 0 1]%R) [(ISlice (mkSlice None None None), [1; 2]%R)] = [ENum (vx (vec2 1 2)); ENum (vy (vec2 1 2))]%R) by reflexivity.
  rewrite H. split; [repeat constructor; eexists; reflexivity|]. split; [reflexivity|]. split; [discriminate|]. split; [|cbn; lia].
  intro K. inversion K as [|? ? [v Hv] _]. discriminate.
Qed.
Print Assumptions C91_fixed_length_refuted.

(** Every second element of five from the end: positions 4, 2, 0. *)
Example C91_ex : let s := mkSlice None None (Some (-2)%Z) in step_of s <> 0%Z /\ step_of s <> 1%Z /\ slice_positions 5 s = [4; 2; 0] /\
  selected 5 None None (-2) 2.
Proof.
  cbv zeta. split; [discriminate|]. split; [discriminate|]. split; [reflexivity|]. split; [lia|]. exists 1%Z. split; [lia|]. right. lia.
Qed.
Example C91_ex2 : only_vectors (map EVec [mkV 0 0; mkV 1 0]%R) /\ Forall (fun iv => exists i, fst iv = IInt i) [(IInt (-1), [5; 6]%R); (IInt 7, [1]%R)].
Proof. split; repeat constructor; eexists; reflexivity. Qed.
