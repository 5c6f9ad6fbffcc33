(** * is_simple over the reals *)
From Coq Require Import ZArith List Bool Arith Reals Lra Lia Psatz Permutation Sorted.
From Verif Require Import Num Vec Affine Box Seq Polygon SpecGeom SpecSimple RBase VecFacts VecFacts2 SortFacts SweepFacts.
Import ListNotations.
Local Open Scope R_scope.

(** ** Order of events *)
Lemma xy_irrefl a : ~ xy_lt a a.
Proof. unfold xy_lt. lra. Qed.
Lemma xy_trans a b c : xy_lt a b -> xy_lt b c -> xy_lt a c.
Proof. unfold xy_lt. lra. Qed.
Lemma xy_tri a b : xy_lt a b \/ a = b \/ xy_lt b a.
Proof.
  destruct a as [ax ay], b as [bx bY]. unfold xy_lt. cbn [vx vy]. destruct (Rtotal_order ax bx) as [|[->|]]; [left; left; auto| |right; right; left; auto].
  destruct (Rtotal_order ay bY) as [|[->|]]; [left; right; auto|right; left; auto|right; right; right; auto].
Qed.
Lemma pt_ltb_R (a b : pt) : pt_ltb a b = true <-> xy_lt a b.
Proof.
  unfold pt_ltb, xy_lt. rnum. destruct (Reqb_spec (vx a) (vx b)) as [E|E].
  - destruct (Reqb_spec (vy a) (vy b)) as [F|F]; [split; [discriminate|lra]|]. rewrite Rltb_true. lra.
  - rewrite Rltb_true. lra.
Qed.
Lemma veqb_R (a b : pt) : reflect (a = b) (vec_eqb a b).
Proof. apply iff_reflect. symmetry. apply vec_eqb_R. Qed.
Notation evt := (pt * pt * nat)%type.
Definition elt (x y : evt) : Prop := let '(s, e, i) := x in let '(s', e', i') := y in
  xy_lt s s' \/ (s = s' /\ (xy_lt e e' \/ (e = e' /\ (i < i')%nat))).
Lemma entry_ltb_R (x y : evt) : entry_ltb x y = true <-> elt x y.
Proof.
  destruct x as [[s e] i], y as [[s' e'] i']. unfold entry_ltb, elt. destruct (veqb_R s s') as [->|H].
  - destruct (veqb_R e e') as [->|K].
    + rewrite Nat.ltb_lt. pose proof (xy_irrefl s'). pose proof (xy_irrefl e'). tauto.
    + rewrite pt_ltb_R. pose proof (xy_irrefl s'). tauto.
  - rewrite pt_ltb_R. tauto.
Qed.
Lemma elt_trans x y z : elt x y -> elt y z -> elt x z.
Proof.
  destruct x as [[a b] i], y as [[c d] j], z as [[e f] k]. unfold elt. intros [H|(-> & [H|(-> & H)])] [K|(-> & [K|(-> & K)])]; auto.
  - left. eapply xy_trans; eauto.
  - right. split; auto. left. eapply xy_trans; eauto.
  - right. split; auto. right. split; auto. lia.
Qed.
Lemma elt_irrefl x : ~ elt x x.
Proof. destruct x as [[a b] i]. unfold elt. pose proof (xy_irrefl a). pose proof (xy_irrefl b). intros [|(_ & [|(_ & ?)])]; auto. lia. Qed.
Lemma elt_tri x y : elt x y \/ x = y \/ elt y x.
Proof.
  destruct x as [[a b] i], y as [[c d] j]. unfold elt. destruct (xy_tri a c) as [|[->|]]; try tauto. destruct (xy_tri b d) as [|[->|]]; try tauto.
  destruct (lt_eq_lt_dec i j) as [[H|H]|H]; [tauto|subst; auto|tauto].
Qed.
Lemma sweep_sorted (vs : list pt) : StronglySorted (fun x y => ~ elt y x) (sweep_points vs).
Proof.
  assert (E : forall x y : evt, nlt entry_ltb x y <-> ~ elt y x). { intros x y. unfold nlt. rewrite <- entry_ltb_R. destruct (entry_ltb y x); split; congruence. }
  assert (S : StronglySorted (nlt entry_ltb) (sweep_points vs)).
  { apply sort_sorted.
    - intros a b H. apply entry_ltb_R in H. apply E. intro K. apply (elt_irrefl a). eapply elt_trans; eauto.
    - intros a b c H K. apply E in H, K. apply E. intro C. destruct (elt_tri a b) as [A|[->|A]]; auto. apply K. eapply elt_trans; eauto. }
  clear -E S. induction S; constructor; auto. eapply Forall_impl; [|exact H]. intros y. apply E.
Qed.

(** ** The events of a cycle *)
Lemma pairs_in {T} {N : Num T} (vs : list (vec T)) : forall k p x, In x (pairs_from k p vs) <-> exists a b i, x = (a, b, (k + i)%nat) /\ nth_error vs i = Some b /\ match i with O => a = p | S j => nth_error vs j = Some a end.
Proof.
  induction vs as [|v vs IH]; intros k p x; cbn [pairs_from].
  - split; [intros []|]. intros (a & b & i & _ & H & _). destruct i; discriminate.
  - cbn [In]. rewrite IH. split.
    + intros [<-|(a & b & i & -> & H1 & H2)].
      * exists p, v, 0%nat. rewrite Nat.add_0_r. auto.
      * exists a, b, (S i). split; [f_equal; lia|]. split; auto. destruct i; cbn; congruence.
    + intros (a & b & [|i] & -> & H1 & H2).
      * left. cbn in H1. injection H1 as ->. subst a. rewrite Nat.add_0_r. auto.
      * right. exists a, b, i. split; [f_equal; lia|]. split; auto. destruct i; cbn in H2; congruence.
Qed.
Lemma last_nth {X} (l : list X) d : l <> [] -> nth_error l (length l - 1) = Some (last l d).
Proof. intro H. rewrite (app_removelast_last d H) at 2 1. rewrite app_length. cbn. rewrite nth_error_app2 by lia. replace (_ + 1 - 1 - _)%nat with 0%nat by lia. auto. Qed.
Lemma edges_in (vs : list pt) a b i : In (a, b, i) (indexed_edges vs) <-> edge_into vs i a b.
Proof.
  unfold indexed_edges, edge_into. destruct vs as [|v vs]; [split; [intros []|intros [H _]; destruct i; discriminate]|].
  etransitivity; [apply pairs_in|]. cbn [plus]. pose proof (last_nth (v :: vs) v ltac:(discriminate)) as L. split.
  - intros (a' & b' & j & E & H1 & H2). injection E as <- <- <-. split; auto. destruct i; auto. subst a. auto.
  - intros [H1 H2]. exists a, b, i. split; auto. split; auto. destruct i; auto. rewrite L in H2. congruence.
Qed.
Lemma edge_unique vs i a b c d : edge_into vs i a b -> edge_into vs i c d -> a = c /\ b = d.
Proof. unfold edge_into. intros [A B] [C D]. split; congruence. Qed.
Lemma points_in (vs : list pt) x : In x (sweep_points vs) <-> exists a b i, edge_into vs i a b /\ (x = (a, b, i) \/ x = (b, a, i)).
Proof.
  unfold sweep_points. rewrite sort_in, in_app_iff, in_map_iff. split.
  - intros [H|([[a b] i] & <- & H)].
    + destruct x as [[a b] i]. exists a, b, i. split; auto. apply edges_in; auto.
    + exists a, b, i. split; auto. apply edges_in; auto.
  - intros (a & b & i & H & [->| ->]); apply edges_in in H; [left; auto|]. right. exists (a, b, i). auto.
Qed.
Lemma pairs_occ {T} {N : Num T} (vs : list (vec T)) : forall k p i, occ i (pairs_from k p vs) = if (Nat.leb k i && Nat.ltb i (k + length vs))%bool then 1%nat else 0%nat.
Proof.
  induction vs as [|v vs IH]; intros k p i; cbn [pairs_from].
  - cbn [length]. destruct (Nat.leb_spec k i), (Nat.ltb_spec i (k + 0)); cbn; auto; lia.
  - etransitivity; [apply occ_cons|]. rewrite IH. cbn [snd length]. destruct (Nat.eqb_spec k i), (Nat.leb_spec (S k) i), (Nat.leb_spec k i), (Nat.ltb_spec i (S k + length vs)), (Nat.ltb_spec i (k + S (length vs))); cbn; auto; lia.
Qed.
Lemma points_occ (vs : list pt) a b i : edge_into vs i a b -> occ i (sweep_points vs) = 2%nat.
Proof.
  intro H. assert (L : (i < length vs)%nat) by (apply nth_error_Some; destruct H; congruence). unfold sweep_points. etransitivity; [apply (occ_perm _ _ _ (sort_perm _ _))|]. etransitivity; [apply occ_app|].
  assert (M : forall l : list evt, occ i (map (fun '(a, b, i) => (b, a, i)) l) = occ i l). { induction l as [|[[x y] j] l IH]; auto. cbn [map]. rewrite !occ_cons, IH. reflexivity. }
  etransitivity; [apply f_equal, M|]. unfold indexed_edges. destruct vs as [|v vs]; [cbn in L; lia|]. etransitivity; [apply f_equal2; apply pairs_occ|]. destruct (Nat.leb_spec 0 i), (Nat.ltb_spec i (0 + length (v :: vs))); cbn in *; auto; lia.
Qed.

(** ** Two segments *)
Definition sgn_diff (x y : R) : Prop := ~ ((0 < x /\ 0 < y) \/ (x = 0 /\ y = 0) \/ (x < 0 /\ y < 0)).
Lemma xor_sign (x y : R) : xorb (Rltb 0 x) (Rltb 0 y) || xorb (Reqb x 0) (Reqb y 0) = true <-> sgn_diff x y.
Proof.
  unfold sgn_diff. destruct (Rltb_spec 0 x), (Rltb_spec 0 y), (Reqb_spec x 0), (Reqb_spec y 0); cbn; split; intro; try discriminate; auto; try lra; exfalso; apply H; lra.
Qed.
Lemma seg_dir_R (a b c : pt) : seg_dir a b c = orient a b c.
Proof. unfold seg_dir. rnum. ug. ring. Qed.
Lemma sects_sgn (a b c d : pt) : segments_intersect a b c d = true <-> sgn_diff (orient a b c) (orient a b d) /\ sgn_diff (orient c d a) (orient c d b).
Proof.
  unfold segments_intersect. rewrite !seg_dir_R. rnum. rewrite <- !xor_sign. destruct (xorb (Rltb 0 (orient a b c)) (Rltb 0 (orient a b d)) || _); [tauto|]. split; [discriminate|intros [? _]; discriminate].
Qed.
Lemma orient_diff (a b c d : pt) : orient a b d - orient a b c = pcross (psub b a) (psub d c).
Proof. ug. ring. Qed.
Lemma orient_between (a b c d : pt) t : orient a b (between c d t) = (1 - t) * orient a b c + t * orient a b d.
Proof. unfold between. ug. ring. Qed.
Lemma share_sgn a b c d p : on_segment c d p -> orient a b p = 0 -> pcross (psub b a) (psub d c) <> 0 -> sgn_diff (orient a b c) (orient a b d).
Proof. intros (t & Ht & ->) H D. rewrite orient_between in H. rewrite <- orient_diff in D. unfold sgn_diff. set (x := orient a b c) in *. set (y := orient a b d) in *. clearbody x y. intros [[? ?]|[[? ?]|[? ?]]]; nra. Qed.
Lemma on_line_self a b p : on_segment a b p -> orient a b p = 0.
Proof. intros (t & _ & ->). unfold between. ug. ring. Qed.
Lemma sgn_ratio x y : sgn_diff x y -> x - y <> 0 /\ 0 <= x / (x - y) <= 1.
Proof.
  intro H. assert (D : x - y <> 0). { intro E. apply H. destruct (Rtotal_order x 0) as [|[|]]; lra. } split; auto.
  assert (S : x <= 0 <= y \/ y <= 0 <= x). { destruct (Rle_lt_dec x 0), (Rle_lt_dec y 0); try lra; [|exfalso; apply H; lra]. destruct (Req_dec x 0), (Req_dec y 0); try lra; exfalso; apply H; lra. }
  assert (E : x / (x - y) * (x - y) = x) by (field; auto). set (t := x / (x - y)) in *. clearbody t. split; nra.
Qed.
Lemma sects_meet (a b c d : pt) : segments_intersect a b c d = true <-> meet a b c d.
Proof.
  rewrite sects_sgn. split.
  - intros [H1 H2]. destruct (sgn_ratio _ _ H1) as [D1 T1], (sgn_ratio _ _ H2) as [D2 T2].
    assert (D : pcross (psub b a) (psub d c) <> 0) by (rewrite <- orient_diff; lra).
    split; auto. exists (between c d (orient a b c / (orient a b c - orient a b d))). split; [|exists (orient a b c / (orient a b c - orient a b d)); auto].
    exists (orient c d a / (orient c d a - orient c d b)). split; auto.
    assert (E1 : orient a b c - orient a b d = - pcross (psub b a) (psub d c)) by (rewrite <- orient_diff; ring).
    assert (E2 : orient c d a - orient c d b = pcross (psub b a) (psub d c)) by (ug; ring). rewrite E1, E2.
    destruct a as [ax ay], b as [bx bY], c as [cx cy], d as [dx dy]. revert D. unfold between. ug. intro D. vext; field; auto; lra.
  - intros [(p & Hp & Hq) D]. split.
    + apply (share_sgn a b c d p); auto. apply on_line_self; auto.
    + apply (share_sgn c d a b p); auto; [apply on_line_self; auto|]. intro E. apply D. revert E. ug. lra.
Qed.
Lemma on_segment_sym a b p : on_segment a b p -> on_segment b a p.
Proof. intros (t & Ht & ->). exists (1 - t). split; [lra|]. unfold between. ug. vext; ring. Qed.
Lemma meet_swap a b c d : meet a b c d -> meet b a c d.
Proof. intros [(p & H1 & H2) D]. split; [exists p; split; auto; apply on_segment_sym; auto|]. intro E. apply D. revert E. ug. lra. Qed.
Lemma meet_sym a b c d : meet a b c d -> meet c d a b.
Proof. intros [(p & H1 & H2) D]. split; [exists p; auto|]. intro E. apply D. revert E. ug. lra. Qed.
Lemma meet_proper a b c d : meet a b c d -> a <> b /\ c <> d.
Proof. intros [_ D]. split; intros ->; apply D; ug; ring. Qed.
Lemma far_test (vs : list pt) (s e s' e' : pt) i j : test (length vs - 1) (s, e, i) (s', e', j) = true <-> far (length vs) i j /\ meet s e s' e'.
Proof.
  unfold test, hits_open. cbn [existsb]. rewrite orb_false_r, !andb_true_iff, !Nat.ltb_lt, sects_meet. unfold index_dist, far. split; intros [H1 H2]; split; auto; try tauto; lia.
Qed.
Lemma far_sym n i j : far n i j -> far n j i.
Proof. unfold far. tauto. Qed.
Lemma far_neq n i j : far n i j -> i <> j.
Proof. unfold far. lia. Qed.
Lemma nxy a b : ~ xy_lt a b <-> a = b \/ xy_lt b a.
Proof. split; [intro H; destruct (xy_tri a b) as [|[|]]; tauto|]. intros [->|H] K; [apply (xy_irrefl b); auto|apply (xy_irrefl a); eapply xy_trans; eauto]. Qed.

(** ** The sweep finds exactly the overlapping meeting pairs. *)
Lemma check_R (vs : list pt) : check_is_simple vs = false <-> some_far_edges vs (fun a b c d => meet a b c d /\ overlap_xy a b c d).
Proof.
  unfold check_is_simple. rewrite (sweep_loop _ _ [] []).
  2:{ intros x Hx. apply points_in in Hx as (a & b & i & He & [->| ->]); cbn [app snd]; eapply points_occ; eauto. }
  2:{ intro y. split; [intros []|tauto]. }
  unfold hit, some_far_edges. cbn [app]. pose proof (sweep_sorted vs) as Ss. split.
  - intros (P1 & [[s e] i] & P2 & [[s' e'] j] & E & O1 & Hy & O2 & Ht). cbn [snd] in *. apply far_test in Ht as [Hf Hm]. destruct (meet_proper _ _ _ _ Hm) as [Nx Ny].
    rewrite E in Ss. destruct (sorted_split _ _ _ _ Ss) as [S1 S2]. rewrite Forall_forall in S1, S2.
    assert (In1 : In (s, e, i) (sweep_points vs)) by (rewrite E; apply in_or_app; right; left; auto).
    assert (In2 : In (s', e', j) (sweep_points vs)) by (rewrite E; apply in_or_app; left; auto).
    apply points_in in In1 as (a & b & i0 & He & Hx), In2 as (c & d & j0 & Hg & Hz).
    assert (i0 = i) by (destruct Hx as [Hx|Hx]; injection Hx; congruence). subst i0.
    assert (j0 = j) by (destruct Hz as [Hz|Hz]; injection Hz; congruence). subst j0.
    exists i, j, a, b, c, d. split; auto. split; auto. split; auto.
    assert (Hm' : meet a b c d). { destruct Hx as [Hx|Hx], Hz as [Hz|Hz]; injection Hx as -> ->; injection Hz as -> ->; auto; [apply meet_sym, meet_swap, meet_sym|apply meet_swap|apply meet_swap, meet_sym, meet_swap, meet_sym]; auto. }
    split; auto.
    assert (Lse : xy_lt s e).
    { assert (K : In (e, s, i) (sweep_points vs)). { apply points_in. exists a, b, i. split; auto. destruct Hx as [Hx|Hx]; injection Hx as -> ->; auto. }
      rewrite E in K. apply in_app_or in K as [K|[K|K]].
      - exfalso. assert (0 < occ i P1)%nat by (apply occ_in; exists (e, s, i); auto). lia.
      - injection K as -> _. contradiction Nx. auto.
      - apply S2 in K. destruct (xy_tri s e) as [|[|H]]; [auto|contradiction|]. exfalso. apply K. left. auto. }
    apply occ_in in O2 as ([[u v] k] & Hy' & Ek). cbn [snd] in Ek. subst k. pose proof (S1 _ Hy) as Q1. pose proof (S2 _ Hy') as Q2.
    assert (Le : ~ xy_lt s s') by (intro; apply Q1; left; auto).
    assert (Lt : xy_lt s' e). { apply nxy in Le as [->|Le]; auto. eapply xy_trans; eauto. }
    assert (Lt' : xy_lt s e').
    { assert (Hy2 : In (u, v, j) (sweep_points vs)) by (rewrite E; apply in_or_app; right; right; auto). apply points_in in Hy2 as (c' & d' & j' & Hg' & Hu).
      assert (j' = j) by (destruct Hu as [Hu|Hu]; injection Hu; congruence). subst j'. destruct (edge_unique _ _ _ _ _ _ Hg Hg') as [<- <-].
      assert (U : (u, v) = (s', e') \/ (u, v) = (e', s')). { destruct Hz as [Hz|Hz], Hu as [Hu|Hu]; injection Hz as -> ->; injection Hu as -> ->; auto. }
      destruct U as [U|U]; injection U as -> ->.
      - exfalso. destruct (elt_tri (s, e, i) (s', e', j)) as [K|[K|K]]; auto. injection K as _ _ K. apply (far_neq _ _ _ Hf); auto.
      - assert (L2 : ~ xy_lt e' s) by (intro; apply Q2; left; auto). apply nxy in L2 as [->|]; auto.
        assert (L3 : ~ xy_lt s' e) by (intro; apply Q2; right; auto). contradiction. }
    unfold overlap_xy, begins_before_end. destruct Hx as [Hx|Hx], Hz as [Hz|Hz]; injection Hx as -> ->; injection Hz as -> ->; tauto.
  - intros (i & j & a & b & c & d & Hf & He & Hg & Hm & Ho).
    assert (X : exists s e, xy_lt s e /\ ((s, e) = (a, b) \/ (s, e) = (b, a))). { destruct (meet_proper _ _ _ _ Hm) as [Nx _]. destruct (xy_tri a b) as [|[|]]; [exists a, b; auto|contradiction|exists b, a; auto]. }
    assert (Y : exists s e, xy_lt s e /\ ((s, e) = (c, d) \/ (s, e) = (d, c))). { destruct (meet_proper _ _ _ _ Hm) as [_ Nx]. destruct (xy_tri c d) as [|[|]]; [exists c, d; auto|contradiction|exists d, c; auto]. }
    destruct X as (s & e & Lx & Hx), Y as (s' & e' & Ly & Hy).
    assert (Hm' : meet s e s' e'). { destruct Hx as [Hx|Hx], Hy as [Hz|Hz]; injection Hx as -> ->; injection Hz as -> ->; auto; [apply meet_sym, meet_swap, meet_sym|apply meet_swap|apply meet_swap, meet_sym, meet_swap, meet_sym]; auto. }
    assert (O1 : xy_lt s e' /\ xy_lt s' e).
    { assert (T : forall s e s' e', xy_lt s e -> xy_lt s' e' -> begins_before_end s e s' e' -> xy_lt s e').
      { clear. intros s e s' e' L1 L2 [H|[H|[H|H]]]; auto; [eapply xy_trans; eauto|eapply xy_trans; [|exact L2]; eapply xy_trans; eauto|eapply xy_trans; eauto]. }
      destruct Ho as [Ho1 Ho2]. split; [apply (T s e s' e')|apply (T s' e' s e)]; auto; unfold begins_before_end in *; destruct Hx as [Hx|Hx], Hy as [Hz|Hz]; injection Hx as -> ->; injection Hz as -> ->; tauto. }
    assert (Mx : In (s, e, i) (sweep_points vs) /\ In (e, s, i) (sweep_points vs)). { split; apply points_in; exists a, b, i; split; auto; destruct Hx as [Hx|Hx]; injection Hx as -> ->; auto. }
    assert (My : In (s', e', j) (sweep_points vs) /\ In (e', s', j) (sweep_points vs)). { split; apply points_in; exists c, d, j; split; auto; destruct Hy as [Hy|Hy]; injection Hy as -> ->; auto. }
    pose proof (points_occ vs a b i He) as Oi. pose proof (points_occ vs c d j Hg) as Oj.
    assert (W : forall i j s e s' e', far (length vs) i j -> elt (s', e', j) (s, e, i) -> xy_lt s e -> xy_lt s e' -> meet s e s' e' -> In (s, e, i) (sweep_points vs) -> In (e, s, i) (sweep_points vs) ->
      In (s', e', j) (sweep_points vs) -> In (e', s', j) (sweep_points vs) -> occ i (sweep_points vs) = 2%nat ->
      exists B1 x B2 y, sweep_points vs = B1 ++ x :: B2 /\ occ (snd x) B1 = 0%nat /\ In y B1 /\ (0 < occ (snd y) B2)%nat /\ test (length vs - 1) x y = true).
    { clear - Ss. intros i j s e s' e' Hf Hl Lx Lo Hm I1 I2 I3 I4 Oi. apply in_split in I1 as (P1 & P2 & E). rewrite E in *. destruct (sorted_split _ _ _ _ Ss) as [S1 S2]. rewrite Forall_forall in S1, S2.
      exists P1, (s, e, i), P2, (s', e', j). split; auto. cbn [snd].
      assert (K2 : In (e, s, i) P2). { apply in_app_or in I2 as [K|[K|K]]; auto; [|injection K as -> _; contradiction (xy_irrefl e)]. exfalso. apply S1 in K. apply K. left. auto. }
      split; [|split; [|split]].
      - rewrite occ_app, occ_cons, Nat.eqb_refl in Oi. assert (0 < occ i P2)%nat by (apply occ_in; exists (e, s, i); auto). lia.
      - apply in_app_or in I3 as [K|[K|K]]; auto; [rewrite K in Hl; contradiction (elt_irrefl (s', e', j))|]. exfalso. apply S2 in K. auto.
      - apply occ_in. exists (e', s', j). split; auto. apply in_app_or in I4 as [K|[K|K]]; auto; [|injection K as _ _ K; contradiction (far_neq _ _ _ Hf)]. exfalso. apply S1 in K. apply K. left. auto.
      - apply far_test. auto. }
    destruct (elt_tri (s', e', j) (s, e, i)) as [K|[K|K]].
    + apply (W i j s e s' e'); tauto.
    + exfalso. injection K as _ _ K. apply (far_neq _ _ _ Hf); auto.
    + apply (W j i s' e' s e); try tauto; [apply far_sym; auto|apply meet_sym; auto].
Qed.

(** ** Consequences *)
Lemma mix_gt c a b t : 0 <= t <= 1 -> c < a -> c < b -> c < a + t * (b - a).
Proof. intros Ht A B. destruct (Rle_lt_dec a b). - assert (0 <= t * (b - a)) by (apply Rmult_le_pos; lra). lra. - assert (0 <= (1 - t) * (a - b)) by (apply Rmult_le_pos; lra). lra. Qed.
Lemma mix_gt0 c a b t : 0 < t -> c = a -> c < b -> c < a + t * (b - a).
Proof. intros Ht -> B. assert (0 < t * (b - a)) by (apply Rmult_lt_0_compat; lra). lra. Qed.
Lemma mix_gt1 c a b t : t < 1 -> c < a -> c = b -> c < a + t * (b - a).
Proof. intros Ht A ->. assert (0 < (1 - t) * (a - b)) by (apply Rmult_lt_0_compat; lra). lra. Qed.
Lemma between_gt c a b t : 0 <= t <= 1 -> xy_lt c a -> xy_lt c b -> xy_lt c (between a b t).
Proof.
  intros Ht Ha Hb. unfold xy_lt, between in *. ug. destruct Ha as [Ha|[Ha Ha']], Hb as [Hb|[Hb Hb']].
  - left. apply mix_gt; auto.
  - destruct (Req_dec t 1) as [->|]; [right; split; lra|]. left. apply mix_gt1; auto; lra.
  - destruct (Req_dec t 0) as [->|]; [right; split; lra|]. left. apply mix_gt0; auto; lra.
  - right. split; [rewrite <- Ha, <- Hb; ring|apply mix_gt; auto].
Qed.
Lemma between_lt c a b t : 0 <= t <= 1 -> xy_lt a c -> xy_lt b c -> xy_lt (between a b t) c.
Proof.
  intros Ht Ha Hb. set (n := fun v : pt => mkV (- vx v) (- vy v)). assert (K : xy_lt (n c) (between (n a) (n b) t)) by (apply between_gt; auto; unfold xy_lt, n in *; cbn [vx vy]; lra).
  unfold xy_lt, n, between in *. ug. lra.
Qed.
Definition disjoint_ends (a b c d : pt) : Prop := a <> c /\ a <> d /\ b <> c /\ b <> d.
Lemma xy_dec a b : {xy_lt a b} + {~ xy_lt a b}.
Proof. destruct (pt_ltb a b) eqn:E; [left|right]; rewrite <- pt_ltb_R; congruence. Qed.
Lemma share_begins a b c d : share a b c d -> disjoint_ends a b c d -> begins_before_end a b c d.
Proof.
  intros (p & (t & Ht & Ep) & (u & Hu & Eq)) (N1 & N2 & N3 & N4). unfold begins_before_end.
  destruct (xy_dec a c) as [|A1], (xy_dec a d) as [|A2], (xy_dec b c) as [|A3], (xy_dec b d) as [|A4]; auto. exfalso.
  apply nxy in A1, A2, A3, A4. destruct A1 as [|A1], A2 as [|A2], A3 as [|A3], A4 as [|A4]; try contradiction.
  assert (C : xy_lt c p) by (rewrite Ep; apply between_gt; auto). assert (D : xy_lt d p) by (rewrite Ep; apply between_gt; auto).
  apply (xy_irrefl p). rewrite Eq at 1. apply between_lt; auto.
Qed.
Lemma share_sym a b c d : share a b c d -> share c d a b.
Proof. intros (p & H). exists p. tauto. Qed.
Lemma share_overlap a b c d : share a b c d -> disjoint_ends a b c d -> overlap_xy a b c d.
Proof.
  intros H N. split; apply share_begins; auto; [apply share_sym; auto|]. unfold disjoint_ends in *. intuition congruence.
Qed.
Lemma nodup_ends vs i j a b c d : NoDup vs -> far (length vs) i j -> edge_into vs i a b -> edge_into vs j c d -> disjoint_ends a b c d.
Proof.
  intros N F [B A] [D C]. assert (Li : (i < length vs)%nat) by (apply nth_error_Some; congruence). assert (Lj : (j < length vs)%nat) by (apply nth_error_Some; congruence).
  rewrite NoDup_nth_error in N.
  assert (K : forall m n x, (m < length vs)%nat -> nth_error vs m = Some x -> nth_error vs n = Some x -> m = n) by (intros m n x Hm E1 E2; apply N; congruence).
  unfold disjoint_ends, far in *. destruct i as [|i], j as [|j]; repeat split; intros ->;
    match goal with H1 : nth_error vs ?m = Some ?x, H2 : nth_error vs ?n = Some ?x |- _ => assert (m = n) by (apply (K m n x); auto; lia); lia end.
Qed.
Lemma nodup_check vs : NoDup vs -> (check_is_simple vs = false <-> some_far_edges vs meet).
Proof.
  intro N. rewrite check_R. unfold some_far_edges. split.
  - intros (i & j & a & b & c & d & F & E1 & E2 & M & _). exists i, j, a, b, c, d. auto.
  - intros (i & j & a & b & c & d & F & E1 & E2 & M). exists i, j, a, b, c, d. split; auto. split; auto. split; auto. split; auto. destruct M as [S _]. apply share_overlap; auto. eapply nodup_ends; eauto.
Qed.
Lemma proper_meet a b c d : cross_properly a b c d -> meet a b c d /\ disjoint_ends a b c d.
Proof.
  intros [H1 H2]. split.
  - apply sects_meet, sects_sgn. unfold sgn_diff. split; intros [[? ?]|[[? ?]|[? ?]]]; nra.
  - assert (Z : forall x y z : pt, orient x y x = 0 /\ orient x y y = 0) by (intros; split; ug; ring).
    split; [|split; [|split]]; intro E; subst.
    + destruct (Z c b c). nra.
    + destruct (Z d b c). nra.
    + destruct (Z a c c). nra.
    + destruct (Z a d c). nra.
Qed.
Lemma edge_cyc vs i a b : edge_into vs i a b -> In (a, b) (cyc_pairs vs).
Proof.
  intros [B A]. destruct i as [|i].
  - destruct vs as [|v vs]; [discriminate|]. cbn in B. injection B as ->. rewrite (last_nth (b :: vs) b) in A by discriminate. injection A as <-. clear.
    assert (G : forall l f, In (last (b :: l) b, f) (cyc_pairs_from f (b :: l))). { induction l as [|x l IH] using rev_ind; intro f; [left; auto|]. clear IH.
      rewrite app_comm_cons, last_last. generalize (b :: l). clear. intro l. induction l as [|y l IH]; [left; auto|]. destruct l as [|z l]; [right; left; auto|]. right. exact IH. }
    apply G.
  - cbn in A. destruct vs as [|v vs]; [destruct i; discriminate|]. unfold cyc_pairs. generalize v at 1. intro f. revert B A. generalize (v :: vs). clear. intro l. revert i. induction l as [|x l IH]; intros i B A; [destruct i; discriminate|].
    cbn in B. destruct l as [|y l]; [destruct i; discriminate|]. destruct i as [|i].
    + cbn in A, B. injection A as ->. injection B as ->. left. auto.
    + right. apply (IH i); auto.
Qed.
Lemma same_point a b c d p q : pcross (psub b a) (psub d c) <> 0 -> orient a b p = 0 -> orient c d p = 0 -> orient a b q = 0 -> orient c d q = 0 -> p = q.
Proof.
  intros D H1 H2 H3 H4. set (e := psub p q).
  assert (E1 : pcross (psub b a) e = 0). { replace (pcross (psub b a) e) with (orient a b p - orient a b q) by (unfold e; ug; ring). lra. }
  assert (E2 : pcross (psub d c) e = 0). { replace (pcross (psub d c) e) with (orient c d p - orient c d q) by (unfold e; ug; ring). lra. }
  assert (X : vx e * pcross (psub b a) (psub d c) = vx (psub b a) * pcross e (psub d c) + vx (psub d c) * pcross (psub b a) e) by (ug; ring).
  assert (Y : vy e * pcross (psub b a) (psub d c) = vy (psub b a) * pcross e (psub d c) + vy (psub d c) * pcross (psub b a) e) by (ug; ring).
  assert (E3 : pcross e (psub d c) = 0) by (replace (pcross e (psub d c)) with (- pcross (psub d c) e) by (ug; ring); lra).
  rewrite E1, E3, !Rmult_0_r, Rplus_0_r in X, Y. apply Rmult_integral in X, Y. destruct X as [X|X]; [|contradiction]. destruct Y as [Y|Y]; [|contradiction]. clear - X Y. destruct p as [px py], q as [qx qy]. unfold e, psub in X, Y. cbn [vx vy] in X, Y. vext; lra.
Qed.
