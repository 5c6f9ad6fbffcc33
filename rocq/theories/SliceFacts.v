(** * Facts about slices with a step *)
From Coq Require Import ZArith List Bool Lia.
From Verif Require Import Num Vec Seq SeqItems SpecSlice.
Import ListNotations.
Local Open Scope Z_scope.

Lemma count_lt (d k q : Z) : 0 < k -> 0 < d -> (q < (d - 1) / k + 1 <-> q * k < d).
Proof.
  intros Hk Hd. pose proof (Z.div_mod (d - 1) k ltac:(lia)). pose proof (Z.mod_pos_bound (d - 1) k Hk).
  set (e := (d - 1) / k) in *. split; intro; nia.
Qed.
Lemma adjust_pos n k i : 0 < k -> 0 <= n -> adjust n k i = Z.min n (Z.max 0 (from_end n i)).
Proof.
  intros. unfold adjust, from_end. destruct (i <? 0) eqn:E1; destruct (i + n <? 0) eqn:E2; destruct (k <? 0) eqn:E3; destruct (n <=? i) eqn:E4; lia.
Qed.
Lemma adjust_neg n k i : k < 0 -> 0 <= n -> adjust n k i = Z.min (n - 1) (Z.max (-1) (from_end n i)).
Proof.
  intros. unfold adjust, from_end. destruct (i <? 0) eqn:E1; destruct (i + n <? 0) eqn:E2; destruct (k <? 0) eqn:E3; destruct (n <=? i) eqn:E4; lia.
Qed.
Lemma slice_q n s q : 0 <= n -> step_of s <> 0 -> 0 <= q -> (q < slice_count n s <->
  (0 < step_of s /\ start_of n s + q * step_of s < stop_of n s) \/ (step_of s < 0 /\ stop_of n s < start_of n s + q * step_of s)).
Proof.
  intros Hn Hk Hq. unfold slice_count. set (k := step_of s) in *. set (i := start_of n s). set (j := stop_of n s). clearbody i j k.
  destruct (Z.ltb_spec k 0).
  - destruct (Z.ltb_spec j i); [rewrite count_lt by lia|]; nia.
  - destruct (Z.ltb_spec i j); [rewrite count_lt by lia|]; nia.
Qed.
Lemma slice_bounds_ok n s : 0 <= n -> step_of s <> 0 ->
  (0 < step_of s -> 0 <= start_of n s /\ stop_of n s <= n) /\ (step_of s < 0 -> start_of n s <= n - 1 /\ -1 <= stop_of n s).
Proof.
  intros Hn Hk. unfold start_of, stop_of. cbv zeta. set (k := step_of s) in *. clearbody k. split; intro Hs.
  - destruct (Z.ltb_spec k 0); [lia|]. destruct (sl_start s), (sl_stop s); rewrite ?adjust_pos by lia; lia.
  - destruct (Z.ltb_spec k 0); [|lia]. destruct (sl_start s), (sl_stop s); rewrite ?adjust_neg by lia; lia.
Qed.
Lemma slice_selected n s q : 0 <= n -> step_of s <> 0 -> 0 <= q -> q < slice_count n s ->
  selected n (sl_start s) (sl_stop s) (step_of s) (start_of n s + q * step_of s).
Proof.
  intros Hn Hk Hq H. apply slice_q in H; auto. destruct (slice_bounds_ok n s Hn Hk) as [B1 B2]. unfold selected.
  unfold start_of, stop_of in *. cbv zeta in *. set (k := step_of s) in *. clearbody k. destruct H as [[P H]|[P H]].
  - specialize (B1 P). clear B2. destruct (Z.ltb_spec k 0); [lia|]. split; [nia|]. exists q. split; [auto|]. left. split; [auto|].
    destruct (sl_start s), (sl_stop s); rewrite ?adjust_pos in * by lia; split; try lia; nia.
  - specialize (B2 P). clear B1. destruct (Z.ltb_spec k 0); [|lia]. split; [nia|]. exists q. split; [auto|]. right. split; [auto|].
    destruct (sl_start s), (sl_stop s); rewrite ?adjust_neg in * by lia; split; try lia; nia.
Qed.
Lemma selected_slice n s p : 0 <= n -> step_of s <> 0 -> selected n (sl_start s) (sl_stop s) (step_of s) p ->
  exists q, 0 <= q < slice_count n s /\ p = start_of n s + q * step_of s.
Proof.
  intros Hn Hk (Hp & q & Hq & H). destruct H as [(P & -> & Hj)|(P & -> & Hj)]; exists q; rewrite slice_q by auto;
    unfold start_of, stop_of; cbv zeta; set (k := step_of s) in *; clearbody k.
  - assert (QK : 0 <= q * k) by nia. set (m := q * k) in *. clearbody m. destruct (Z.ltb_spec k 0); [lia|].
    destruct (sl_start s), (sl_stop s); rewrite ?adjust_pos by lia; lia.
  - assert (QK : q * k <= 0) by nia. set (m := q * k) in *. clearbody m. destruct (Z.ltb_spec k 0); [|lia].
    destruct (sl_start s), (sl_stop s); rewrite ?adjust_neg by lia; lia.
Qed.
Lemma positions_spec (n : nat) s p : step_of s <> 0 ->
  (In p (slice_positions n s) <-> selected (Z.of_nat n) (sl_start s) (sl_stop s) (step_of s) (Z.of_nat p)).
Proof.
  intro Hk. unfold slice_positions. rewrite in_map_iff. split.
  - intros (q & <- & Hq). apply in_seq in Hq. pose proof (slice_selected (Z.of_nat n) s (Z.of_nat q) ltac:(lia) Hk ltac:(lia) ltac:(lia)) as S1.
    rewrite Z2Nat.id; [exact S1|]. destruct S1. lia.
  - intro S1. destruct (selected_slice (Z.of_nat n) s (Z.of_nat p) ltac:(lia) Hk S1) as (q & Hq & E). exists (Z.to_nat q). rewrite Z2Nat.id by lia. split; [rewrite <- E; lia|].
    apply in_seq. lia.
Qed.
Lemma positions_order_from (n : nat) s c b : step_of s <> 0 -> (forall q, Z.of_nat b <= q < Z.of_nat (b + c) -> 0 <= start_of (Z.of_nat n) s + q * step_of s) ->
  in_step_order (step_of s) (map (fun q => Z.to_nat (start_of (Z.of_nat n) s + Z.of_nat q * step_of s)) (seq b c)).
Proof.
  intro Hk. revert b. induction c as [|c IH]; intros b H; [exact I|]. cbn [seq map]. destruct c as [|c]; [exact I|].
  cbn [seq map] in *. cbn [in_step_order]. split.
  - rewrite !Z2Nat.id by (apply H; lia). lia.
  - apply (IH (Datatypes.S b)). intros q Hq. apply H. lia.
Qed.
Lemma positions_order (n : nat) s : step_of s <> 0 -> in_step_order (step_of s) (slice_positions n s).
Proof.
  intro Hk. unfold slice_positions. apply positions_order_from; auto. intros q Hq.
  pose proof (slice_selected (Z.of_nat n) s q ltac:(lia) Hk ltac:(lia) ltac:(lia)) as [H _]. lia.
Qed.
Lemma positions_lt (n : nat) s p : step_of s <> 0 -> In p (slice_positions n s) -> (p < n)%nat.
Proof. intros Hk H. apply positions_spec in H; auto. destruct H. lia. Qed.
Lemma NoDup_injmap {A B} (f : A -> B) l : NoDup l -> (forall x y, In x l -> In y l -> f x = f y -> x = y) -> NoDup (map f l).
Proof.
  induction 1 as [|x l Hx Hl IH]; intro H; cbn [map]; constructor.
  - intro K. apply in_map_iff in K. destruct K as (y & E & Hy). apply Hx. rewrite (H x y); auto; [left; auto|right; auto].
  - apply IH. intros a b Ha Hb. apply H; right; auto.
Qed.
Lemma positions_NoDup (n : nat) s : step_of s <> 0 -> NoDup (slice_positions n s).
Proof.
  intro Hk. unfold slice_positions. apply NoDup_injmap; [apply seq_NoDup|]. intros x y Hx Hy E. apply in_seq in Hx. apply in_seq in Hy.
  pose proof (slice_selected (Z.of_nat n) s (Z.of_nat x) ltac:(lia) Hk ltac:(lia) ltac:(lia)) as [X _].
  pose proof (slice_selected (Z.of_nat n) s (Z.of_nat y) ltac:(lia) Hk ltac:(lia) ltac:(lia)) as [Y _]. nia.
Qed.

Section Lists.
  Context {X : Type}.
  Lemma gather_spec (l : list X) ps : (forall p, In p ps -> (p < length l)%nat) -> map Some (gather l ps) = map (nth_error l) ps.
  Proof.
    induction ps as [|p ps IH]; intro H; [reflexivity|]. cbn [gather flat_map map]. fold (gather l ps).
    destruct (nth_error l p) eqn:E.
    - cbn [app map]. f_equal. apply IH. intros; apply H; right; auto.
    - apply nth_error_None in E. specialize (H p (or_introl eq_refl)). lia.
  Qed.
  Lemma nth_list_set (l : list X) k x j : (k < length l)%nat -> nth_error (list_set l k x) j = if Nat.eqb j k then Some x else nth_error l j.
  Proof.
    intro H. unfold list_set. destruct (Nat.eqb_spec j k) as [->|n].
    - rewrite nth_error_app2 by (rewrite firstn_length; lia). rewrite firstn_length, Nat.min_l, Nat.sub_diag by lia. reflexivity.
    - destruct (Nat.lt_ge_cases j k).
      + rewrite nth_error_app1 by (rewrite firstn_length; lia). rewrite <- (firstn_skipn k l) at 2. rewrite nth_error_app1 by (rewrite firstn_length; lia). reflexivity.
      + rewrite nth_error_app2 by (rewrite firstn_length; lia). rewrite firstn_length, Nat.min_l by lia.
        destruct (j - k)%nat as [|d] eqn:E; [lia|]. cbn [nth_error].
        rewrite <- (firstn_skipn (Datatypes.S k) l) at 2. rewrite nth_error_app2 by (rewrite firstn_length; lia). rewrite firstn_length, Nat.min_l by lia. f_equal. lia.
  Qed.
  Lemma length_list_set (l : list X) k x : (k < length l)%nat -> length (list_set l k x) = length l.
  Proof. intro H. unfold list_set. rewrite app_length. cbn [length]. rewrite firstn_length, skipn_length. lia. Qed.
  Lemma scatter_spec ps : forall (l new : list X), NoDup ps -> length new = length ps -> (forall p, In p ps -> (p < length l)%nat) ->
    length (scatter l ps new) = length l /\
    (forall j p x, nth_error ps j = Some p -> nth_error new j = Some x -> nth_error (scatter l ps new) p = Some x) /\
    (forall p, ~ In p ps -> nth_error (scatter l ps new) p = nth_error l p).
  Proof.
    induction ps as [|p ps IH]; intros l new ND HL H; destruct new as [|x new]; try discriminate.
    - cbn. split; [auto|]. split; [|auto]. intros j p x E. destruct j; discriminate.
    - inversion ND as [|? ? Hp ND']; subst. cbn [length] in HL. change (scatter l (p :: ps) (x :: new)) with (scatter (list_set l p x) ps new).
      pose proof (H p (or_introl eq_refl)) as Lp.
      destruct (IH (list_set l p x) new ND') as (A & B & C); [lia|rewrite length_list_set by auto; intros; apply H; right; auto|].
      rewrite length_list_set in A by auto. split; [exact A|]. split.
      + intros j p' x' E1 E2. destruct j as [|j]; cbn [nth_error] in *.
        * injection E1 as <-. injection E2 as <-. rewrite C by auto. rewrite nth_list_set by auto. rewrite Nat.eqb_refl. reflexivity.
        * eapply B; eauto.
      + intros p' Hp'. rewrite C by (intro; apply Hp'; right; auto). rewrite nth_list_set by auto. destruct (Nat.eqb_spec p' p); [|reflexivity].
        exfalso. apply Hp'. left. auto.
  Qed.
End Lists.

Section Lists2.
  Context {X : Type}.
  Lemma skipn_nth (l : list X) s x : nth_error l s = Some x -> skipn s l = x :: skipn (Datatypes.S s) l.
  Proof. revert l. induction s as [|s IH]; intros [|y l] H; try discriminate; cbn in *; [injection H as ->; reflexivity|apply IH; auto]. Qed.
  Lemma gather_seq (l : list X) c : forall s, (s + c <= length l)%nat -> gather l (seq s c) = firstn c (skipn s l).
  Proof.
    induction c as [|c IH]; intros s H; [reflexivity|]. cbn [seq gather flat_map]. fold (gather l (seq (Datatypes.S s) c)).
    destruct (nth_error l s) as [x|] eqn:E; [|apply nth_error_None in E; lia]. rewrite (skipn_nth l s x E). cbn [firstn app]. f_equal. apply IH. lia.
  Qed.
  Lemma clamp_adjust (n : nat) i : py_clamp n i = Z.to_nat (adjust (Z.of_nat n) 1 i).
  Proof.
    rewrite adjust_pos by lia. unfold py_clamp, from_end. destruct (Z.ltb_spec i 0); match goal with |- context [(?a <? ?b)%Z] => destruct (Z.ltb_spec a b) end;
    try match goal with |- context [(?a <? ?b)%Z] => destruct (Z.ltb_spec a b) end; lia.
  Qed.
  Lemma clamp_le (n : nat) i : (py_clamp n i <= n)%nat.
  Proof. rewrite clamp_adjust, adjust_pos by lia. lia. Qed.
  Lemma getitems_step1 (l : list X) a b k : k = None \/ k = Some 1 -> py_getitems l (mkSlice a b k) = Ok (py_getslice l a b).
  Proof.
    intro Hk. assert (K : step_of (mkSlice a b k) = 1) by (destruct Hk as [->| ->]; reflexivity).
    unfold py_getitems, py_getslice, slice_bounds, slice_positions, slice_count. cbv zeta. rewrite K. cbn [Z.eqb Z.ltb Z.compare Pos.compare].
    set (n := length l). set (s := match a with None => 0%nat | Some i => py_clamp n i end). set (e := match b with None => n | Some i => py_clamp n i end).
    assert (ES : start_of (Z.of_nat n) (mkSlice a b k) = Z.of_nat s /\ stop_of (Z.of_nat n) (mkSlice a b k) = Z.of_nat e /\ (s <= n)%nat /\ (e <= n)%nat).
    { unfold start_of, stop_of. rewrite K. cbn [sl_start sl_stop Z.ltb Z.compare]. unfold s, e. split; [|split; [|split]].
      - destruct a; [rewrite clamp_adjust, Z2Nat.id; [reflexivity|rewrite adjust_pos by lia; lia]|reflexivity].
      - destruct b; [rewrite clamp_adjust, Z2Nat.id; [reflexivity|rewrite adjust_pos by lia; lia]|reflexivity].
      - destruct a; [apply clamp_le|lia]. - destruct b; [apply clamp_le|lia]. }
    destruct ES as (-> & -> & Hs & He). clearbody s e. f_equal.
    replace (Z.to_nat (if Z.of_nat s <? Z.of_nat e then (Z.of_nat e - Z.of_nat s - 1) / 1 + 1 else 0)) with (Nat.max s e - s)%nat
      by (destruct (Z.ltb_spec (Z.of_nat s) (Z.of_nat e)); rewrite ?Z.div_1_r; lia).
    rewrite <- gather_seq by (fold n; lia). f_equal.
    assert (G : forall c t, map (fun q => Z.to_nat (Z.of_nat s + Z.of_nat q * 1)) (seq t c) = seq (s + t) c).
    { induction c as [|c IH]; intro t; [reflexivity|]. cbn [seq map]. f_equal; [lia|]. rewrite IH. f_equal. lia. }
    rewrite G. f_equal. lia.
  Qed.
  Lemma map_Some_inj (a b : list X) : map Some a = map Some b -> a = b.
  Proof. revert b. induction a as [|x a IH]; intros [|y b] H; try discriminate; auto. injection H as -> H. f_equal. auto. Qed.
  Lemma seq_snoc n : seq 0 (Datatypes.S n) = seq 0 n ++ [n].
  Proof. rewrite seq_S. reflexivity. Qed.
  Lemma map_nth_seq (l : list X) : map (nth_error l) (seq 0 (length l)) = map Some l.
  Proof.
    induction l as [|x l IH] using rev_ind; [reflexivity|]. rewrite app_length. cbn [length]. rewrite Nat.add_1_r, seq_snoc, !map_app. cbn [map].
    rewrite nth_error_app2, Nat.sub_diag by lia. cbn [nth_error]. f_equal. rewrite <- IH. apply map_ext_in. intros p Hp. apply in_seq in Hp. apply nth_error_app1. lia.
  Qed.
  Lemma getitems_rev (l : list X) : py_getitems l (mkSlice None None (Some (-1))) = Ok (rev l).
  Proof.
    unfold py_getitems. cbn [step_of sl_step Z.eqb]. f_equal. apply map_Some_inj. rewrite gather_spec by (intros p; apply positions_lt; discriminate).
    rewrite map_rev, <- map_nth_seq, <- map_rev. f_equal.
    unfold slice_positions, slice_count, start_of, stop_of. cbn [step_of sl_step sl_start sl_stop Z.ltb Z.compare Z.opp]. rewrite Z.div_1_r.
    set (n := length l).
    replace (Z.to_nat (if -1 <? Z.of_nat n - 1 then Z.of_nat n - 1 - -1 - 1 + 1 else 0)) with n by (destruct (Z.ltb_spec (-1) (Z.of_nat n - 1)); lia).
    clearbody n. assert (G : forall m, (m <= n)%nat -> map (fun q => Z.to_nat (Z.of_nat n - 1 + Z.of_nat q * -1)) (seq (n - m) m) = rev (seq 0 m)).
    { induction m as [|m IH]; intro Hm; [reflexivity|]. rewrite seq_snoc, rev_app_distr. cbn [seq map rev app]. f_equal; [lia|].
      replace (Datatypes.S (n - Datatypes.S m)) with (n - m)%nat by lia. apply IH. lia. }
    specialize (G n ltac:(lia)). rewrite Nat.sub_diag in G. exact G.
  Qed.
  Lemma without_gather (l : list X) : forall k ps, exists ks,
    (forall p, In p ks <-> (k <= p < k + length l)%nat /\ ~ In p ps) /\ (forall i j a b, (i < j)%nat -> nth_error ks i = Some a -> nth_error ks j = Some b -> (a < b)%nat) /\
    map Some (without k ps l) = map (fun p => nth_error l (p - k)) ks.
  Proof.
    induction l as [|x l IH]; intros k ps.
    - exists []. split; [|split; [|reflexivity]]; [intro p; cbn; lia|]. intros [|i] j a b _ H; discriminate.
    - destruct (IH (Datatypes.S k) ps) as (ks & A & B & C). cbn [without length].
      assert (C' : map (fun p => nth_error (x :: l) (p - k)) ks = map Some (without (Datatypes.S k) ps l)).
      { rewrite C. apply map_ext_in. intros p Hp. apply A in Hp. replace (p - k)%nat with (Datatypes.S (p - Datatypes.S k)) by lia. reflexivity. }
      destruct (existsb (Nat.eqb k) ps) eqn:E.
      + exists ks. split; [|split; [exact B|auto]]. intro p. rewrite A. split; [intros [? ?]; split; [lia|auto]|]. intros [H1 H2]. split; [|auto].
        apply existsb_exists in E. destruct E as (y & Hy & Ey). apply Nat.eqb_eq in Ey. subst y. assert (p <> k) by (intro; subst; contradiction). lia.
      + exists (k :: ks). split; [|split].
        * intro p. cbn [In]. rewrite A. split.
          -- intros [<-|[? ?]]; [split; [lia|]|split; [lia|auto]]. intro Hk. assert (T : existsb (Nat.eqb k) ps = true) by (apply existsb_exists; exists k; split; [auto|apply Nat.eqb_refl]). congruence.
          -- intros [H1 H2]. destruct (Nat.eq_dec k p); [left; auto|right; split; [lia|auto]].
        * intros i j a b Hij Ha Hb. destruct i as [|i], j as [|j]; try lia; cbn [nth_error] in *.
          -- injection Ha as <-. apply nth_error_In in Hb. apply A in Hb. lia.
          -- eapply (B i j); eauto. lia.
        * cbn [map]. rewrite Nat.sub_diag, C'. reflexivity.
  Qed.
End Lists2.
