(** * Monotone chains and the binary search *)
From Coq Require Import ZArith List Bool Arith Lia Permutation Reals Lra Psatz Sorted.
From Verif Require Import Num Vec Affine Box Seq Polygon SpecGeom SpecAffine SpecBox SpecMass SpecWind SpecConvex SpecExtreme RBase VecFacts VecFacts2 AffineFacts PolyCache2 SpecCycle PolyEq CentroidFacts WindFacts
  ConvexFacts ConvexFacts2 ConvexFacts3 ConvexFacts4 MonoFacts.
Import ListNotations.
Local Open Scope R_scope.

Definition yle (a b : pt) : Prop := vy a <= vy b.
Definition asc (l : list pt) : Prop := StronglySorted yle l.
Definition yx (v : pt) : R * R := (vy v, vx v).
Lemma asc_app l m : asc (l ++ m) -> asc l /\ asc m /\ forall a b, In a l -> In b m -> vy a <= vy b.
Proof.
  induction l as [|x l IH]; cbn [app]; intro H; [split; [constructor|]; split; auto; intros a b []|].
  inversion H; subst. destruct (IH H2) as (A & B & C). rewrite Forall_forall in H3. split; [|split; auto].
  - constructor; auto. rewrite Forall_forall. intros y Hy. apply H3. apply in_app_iff; auto.
  - intros a b [<-|Ha] Hb; [apply H3; apply in_app_iff; auto|auto].
Qed.
Lemma asc_cons a l : asc (a :: l) -> asc l /\ forall b, In b l -> vy a <= vy b.
Proof. intro H. inversion H; subst. rewrite Forall_forall in H3. split; auto. Qed.
Lemma asc_level l (y : R) : asc l -> (forall v, In v l -> y <= vy v) \/ (forall v, In v l -> vy v < y) \/
  exists c1 a b c2, l = c1 ++ a :: b :: c2 /\ vy a < y <= vy b.
Proof.
  induction l as [|x l IH]; intro H; [left; intros v []|]. apply asc_cons in H as [H Hx]. destruct (Rle_lt_dec y (vy x)) as [K|K].
  - left. intros v [<-|Hv]; auto. specialize (Hx v Hv). lra.
  - destruct (IH H) as [I|[I|(c1 & a & b & c2 & -> & I)]].
    + destruct l as [|b l]; [right; left; intros v [<-|[]]; auto|]. right. right. exists [], x, b, l. split; auto. split; auto. apply I. left. auto.
    + right. left. intros v [<-|Hv]; auto.
    + right. right. exists (x :: c1), a, b, c2. auto.
Qed.
Lemma level_sides c1 a b c2 (y : R) : asc (c1 ++ a :: b :: c2) -> vy a < y <= vy b -> (forall v, In v (c1 ++ [a]) -> vy v < y) /\ (forall v, In v (b :: c2) -> y <= vy v).
Proof.
  intros H Hy. apply asc_app in H as (_ & H & H0). apply asc_cons in H as [H Ha]. apply asc_cons in H as [H Hb]. split; intros v Hv.
  - apply in_app_iff in Hv as [Hv|[<-|[]]]; [|lra]. specialize (H0 v a Hv (or_introl eq_refl)). lra.
  - destruct Hv as [<-|Hv]; [lra|]. specialize (Hb v Hv). lra.
Qed.

(** The binary search. *)
Lemma key_yx (py : R) (v : pt) : key_before py (yx v) = Rleb py (vy v).
Proof. unfold key_before, yx. cbn [fst]. rnum. destruct (Reqb_spec py (vy v)), (Rltb_spec py (vy v)), (Rleb_spec py (vy v)); auto; lra. Qed.
Lemma bisect_pos (l1 l2 : list pt) (py : R) : (forall v, In v l1 -> vy v < py) -> (forall v, In v l2 -> py <= vy v) -> bisect_right (map yx (l1 ++ l2)) py = Ok (length l1).
Proof.
  intros H1 H2. destruct (bisect_right_spec (map yx (l1 ++ l2)) py) as (i & E & Hi & Ha & Hb). rewrite E. f_equal. rewrite map_length, app_length in *.
  assert (N : forall k q, nth_error (map yx (l1 ++ l2)) k = Some q -> (k < length l1 -> key_before py q = false)%nat /\ (length l1 <= k -> key_before py q = true)%nat).
  { intros k q Hq. rewrite nth_error_map in Hq. destruct (nth_error (l1 ++ l2) k) as [v|] eqn:V; [|discriminate]. injection Hq as <-. rewrite key_yx. split; intro L.
    - rewrite nth_error_app1 in V by auto. apply nth_error_In, H1 in V. destruct (Rleb_spec py (vy v)); auto; lra.
    - rewrite nth_error_app2 in V by auto. apply nth_error_In, H2 in V. destruct (Rleb_spec py (vy v)); auto; lra. }
  destruct (Nat.lt_trichotomy i (length l1)) as [K|[K|K]]; auto; exfalso.
  - destruct Ha as (q & Hq & Hk); [lia|]. apply N in Hq as [Hq _]. rewrite Hq in Hk by auto. discriminate.
  - destruct Hb as (q & Hq & Hk); [lia|]. apply N in Hq as [_ Hq]. rewrite Hq in Hk by lia. discriminate.
Qed.
Lemma side_yx_R (a b p : pt) : side_yx (yx a) (yx b) p = orient a b p.
Proof. unfold side_yx, yx. cbn [fst snd]. rnum. ug. ring. Qed.
Lemma y_test_edges cl1 a b cl2 cr1 c d cr2 (p : pt) : asc (cl1 ++ a :: b :: cl2) -> asc (cr1 ++ c :: d :: cr2) -> vy a < vy p <= vy b -> vy c < vy p <= vy d ->
  y_monotone_test (map yx (cl1 ++ a :: b :: cl2), map yx (cr1 ++ c :: d :: cr2)) p = Ok (Rleb (orient a b p) 0 && Rltb 0 (orient c d p)).
Proof.
  intros A1 A2 Y1 Y2. unfold y_monotone_test.
  assert (G : forall k1 u v k2, asc (k1 ++ u :: v :: k2) -> vy u < vy p <= vy v ->
    bisect_right (map yx (k1 ++ u :: v :: k2)) (vy p) = Ok (S (length k1)) /\ py_get (map yx (k1 ++ u :: v :: k2)) (Z.of_nat (S (length k1)) - 1) = Ok (yx u) /\
    py_get (map yx (k1 ++ u :: v :: k2)) (Z.of_nat (S (length k1))) = Ok (yx v)).
  { intros k1 u v k2 A Y. destruct (level_sides _ _ _ _ _ A Y) as [S1 S2]. split; [|split].
    - replace (k1 ++ u :: v :: k2) with ((k1 ++ [u]) ++ v :: k2) by (rewrite <- app_assoc; auto). rewrite bisect_pos by auto. f_equal. rewrite app_length. cbn. lia.
    - replace (Z.of_nat (S (length k1)) - 1)%Z with (Z.of_nat (length k1)) by lia. rewrite py_get_nat, nth_error_map, nth_error_app2, Nat.sub_diag by lia. reflexivity.
    - rewrite py_get_nat, nth_error_map, nth_error_app2 by lia. replace (S (length k1) - length k1)%nat with 1%nat by lia. reflexivity. }
  destruct (G _ _ _ _ A1 Y1) as (-> & E1 & E2). destruct (G _ _ _ _ A2 Y2) as (F0 & F1 & F2). cbn [bind]. rewrite map_length, app_length. cbn [length].
  replace (Nat.eqb (S (length cl1)) 0 || Nat.eqb (S (length cl1)) (length cl1 + S (S (length cl2)))) with false.
  - rewrite E1, E2. cbn [bind]. rewrite side_yx_R. rnum. destruct (Rltb_spec 0 (orient a b p)), (Rleb_spec (orient a b p) 0); try lra; auto.
    rewrite F0. cbn [bind]. rewrite F1, F2. cbn [bind andb]. rewrite side_yx_R. auto.
  - symmetry. apply orb_false_iff. split; apply Nat.eqb_neq; lia.
Qed.
Lemma y_test_below (l : list pt) rp (p : pt) : (forall v, In v l -> vy p <= vy v) -> y_monotone_test (map yx l, rp) p = Ok false.
Proof. intro H. unfold y_monotone_test. change l with ([] ++ l). rewrite (bisect_pos [] l) by (auto; intros v []). reflexivity. Qed.
Lemma y_test_above (l : list pt) rp (p : pt) : (forall v, In v l -> vy v < vy p) -> y_monotone_test (map yx l, rp) p = Ok false.
Proof.
  intro H. unfold y_monotone_test. rewrite <- (app_nil_r l). rewrite (bisect_pos l []) by (auto; intros v []). cbn [bind].
  rewrite app_nil_r, map_length, Nat.eqb_refl, orb_true_r. reflexivity.
Qed.

(** Winding contribution of a chain. *)
Definition csum (p : pt) (l : list pt) : Z := match l with [] => 0%Z | a :: t => zsum (map (contrib p) (adj a t)) end.
Lemma csum_app p l a m : csum p (l ++ a :: m) = (csum p (l ++ [a]) + csum p (a :: m))%Z.
Proof.
  destruct l as [|x l]; [cbn [app]; cbn; lia|]. cbn [app csum].
  replace (l ++ a :: m) with ((l ++ [a]) ++ m) by (rewrite <- app_assoc; auto). rewrite adj_app, map_app, zsum_app, last_last. auto.
Qed.
Lemma adj_in {X} (l : list X) : forall x a b, In (a, b) (adj x l) -> In a (x :: l) /\ In b (x :: l).
Proof. induction l as [|y l IH]; intros x a b H; [destruct H|]. cbn [adj] in H. destruct H as [H|H]; [injection H as <- <-; cbn; auto|]. apply IH in H. cbn in *. tauto. Qed.
Lemma csum_zero p l : (forall v, In v l -> vy p <= vy v) \/ (forall v, In v l -> vy v < vy p) -> csum p l = 0%Z.
Proof.
  intro H. destruct l as [|x l]; auto. apply zsum_zero. intros [a b] He. apply adj_in in He as [Ha Hb]. rewrite contrib_cases.
  destruct H as [H|H]; pose proof (H a Ha); pose proof (H b Hb); destruct (Rle_dec (vy p) (vy a)), (Rle_dec (vy p) (vy b)); auto; lra.
Qed.
Lemma csum_edge c1 a b c2 (p : pt) : asc (c1 ++ a :: b :: c2) -> vy a < vy p <= vy b -> csum p (c1 ++ a :: b :: c2) = if Rleb (orient a b p) 0 then 1%Z else 0%Z.
Proof.
  intros A Y. destruct (level_sides _ _ _ _ _ A Y) as [S1 S2]. rewrite csum_app. change (a :: b :: c2) with ([a] ++ b :: c2). rewrite (csum_app p [a]).
  rewrite (csum_zero p (c1 ++ [a])), (csum_zero p (b :: c2)) by auto. cbn [app csum adj map]. unfold zsum. cbn [fold_right]. rewrite contrib_cases.
  destruct (Rle_dec (vy p) (vy a)); [lra|]. destruct (Rle_dec (vy p) (vy b)); [|lra]. destruct (Rle_dec (orient a b p) 0), (Rleb_spec (orient a b p) 0); auto; lra.
Qed.
Lemma csum_rev p l : csum p (rev l) = (- csum p l)%Z.
Proof.
  induction l as [|a l IH]; auto. destruct l as [|b l]; auto. cbn [rev] in *. rewrite <- app_assoc. cbn [app]. rewrite csum_app, IH.
  change (a :: b :: l) with ([a] ++ b :: l). rewrite (csum_app p [a]). cbn [app csum adj map]. unfold zsum. cbn [fold_right]. rewrite (contrib_swap p a b). lia.
Qed.

(** ** A left and a right chain *)
Section Chains.
  Variables (vs L R0 : list pt) (lo hi : pt).
  Hypothesis AL : asc L.
  Hypothesis AR : asc R0.
  Hypothesis HL : exists l, L = lo :: l ++ [hi].
  Hypothesis HR : exists l, R0 = lo :: l ++ [hi].
  Hypothesis LH : vy lo < vy hi.
  Hypothesis EL : forall c1 a b c2 v, L = c1 ++ a :: b :: c2 -> In v vs -> orient a b v <= 0.
  Hypothesis ER : forall c1 a b c2 v, R0 = c1 ++ a :: b :: c2 -> In v vs -> 0 <= orient a b v.
  Hypothesis IN : forall v, In v vs <-> In v L \/ In v R0.
  Hypothesis W : forall p, wnum vs p = 0%Z <-> csum p L = csum p R0.
  Hypothesis Sp : spread vs.
  Lemma lo_in : In lo L /\ In lo R0 /\ In lo vs.
  Proof. destruct HL as [l El], HR as [r Er]. assert (In lo L) by (rewrite El; left; auto). assert (In lo R0) by (rewrite Er; left; auto). rewrite IN. auto. Qed.
  Lemma hi_in : In hi L /\ In hi R0 /\ In hi vs.
  Proof.
    destruct HL as [l El], HR as [r Er]. assert (In hi L) by (rewrite El; right; apply in_app_iff; right; left; auto).
    assert (In hi R0) by (rewrite Er; right; apply in_app_iff; right; left; auto). rewrite IN. auto.
  Qed.
  Lemma ext_in v : In v L \/ In v R0 -> vy lo <= vy v <= vy hi.
  Proof.
    assert (G : forall C l, asc C -> C = lo :: l ++ [hi] -> In v C -> vy lo <= vy v <= vy hi).
    { intros C l A -> H. pose proof A as A'. apply asc_cons in A as [_ A]. change (lo :: l ++ [hi]) with ((lo :: l) ++ [hi]) in A'. apply asc_app in A' as (_ & _ & A').
      destruct H as [<-|H]; [split; [lra|]; apply A'; [left|left]; auto|]. split; [auto|]. apply in_app_iff in H as [H|[<-|[]]]; [|lra]. apply A'; [right|left]; auto. }
    destruct HL as [l El], HR as [r Er]. intros [H|H]; [exact (G L l AL El H)|exact (G R0 r AR Er H)].
  Qed.
  Lemma level C p : C = L \/ C = R0 -> vy lo < vy p <= vy hi -> exists c1 a b c2, C = c1 ++ a :: b :: c2 /\ vy a < vy p <= vy b.
  Proof.
    intros HC Hp. assert (A : asc C) by (destruct HC; subst; auto). destruct (asc_level C (vy p) A) as [H|[H|H]]; auto; exfalso.
    - assert (In lo C) by (destruct HC; subst; apply lo_in). specialize (H lo H0). lra.
    - assert (In hi C) by (destruct HC; subst; apply hi_in). specialize (H hi H0). lra.
  Qed.
  Lemma level_pt (c d p : pt) : vy c < vy p <= vy d -> exists t, 0 < t <= 1 /\ vy (between c d t) = vy p.
  Proof.
    intro H. exists ((vy p - vy c) / (vy d - vy c)). split.
    - split; [apply Rdiv_lt_0_compat; lra|]. apply (Rmult_le_reg_r (vy d - vy c)); [lra|]. unfold Rdiv. rewrite Rmult_assoc, Rinv_l by lra. lra.
    - unfold between. ug. field. lra.
  Qed.
  (** A point left of the left chain is left of the right chain. *)
  Lemma left_left cl1 a b cl2 cr1 c d cr2 p : L = cl1 ++ a :: b :: cl2 -> R0 = cr1 ++ c :: d :: cr2 -> vy a < vy p <= vy b -> vy c < vy p <= vy d ->
    0 < orient a b p -> 0 < orient c d p.
  Proof.
    intros E1 E2 Y1 Y2 H. destruct (level_pt c d p Y2) as (t & Ht & Et).
    assert (Hc : In c vs) by (apply IN; right; rewrite E2; apply in_app_iff; right; left; auto).
    assert (Hd : In d vs) by (apply IN; right; rewrite E2; apply in_app_iff; right; right; left; auto).
    pose proof (EL _ _ _ _ c E1 Hc) as Oc. pose proof (EL _ _ _ _ d E1 Hd) as Od.
    assert (Ow : orient a b (between c d t) <= 0).
    { replace (orient a b (between c d t)) with ((1 - t) * orient a b c + t * orient a b d) by (unfold between; ug; ring).
      assert (0 <= (1 - t) * - orient a b c) by (apply Rmult_le_pos; lra). assert (0 <= t * - orient a b d) by (apply Rmult_le_pos; lra). lra. }
    assert (X : vx p < vx (between c d t)).
    { apply Rnot_le_lt. intro K. assert (Q : orient a b p - orient a b (between c d t) = (vx (between c d t) - vx p) * (vy b - vy a)).
      { transitivity ((vx (between c d t) - vx p) * (vy b - vy a) + (vx b - vx a) * (vy p - vy (between c d t))); [ug; ring|rewrite Et; ring]. }
      assert (0 <= (vx p - vx (between c d t)) * (vy b - vy a)) by (apply Rmult_le_pos; lra). lra. }
    assert (Q : orient c d p - orient c d (between c d t) = (vx (between c d t) - vx p) * (vy d - vy c)).
    { transitivity ((vx (between c d t) - vx p) * (vy d - vy c) + (vx d - vx c) * (vy p - vy (between c d t))); [ug; ring|rewrite Et; ring]. }
    replace (orient c d (between c d t)) with 0 in Q by (unfold between; ug; ring).
    assert (0 < (vx (between c d t) - vx p) * (vy d - vy c)) by (apply Rmult_lt_0_compat; lra). lra.
  Qed.
  (** With the left chain first the binary search is the winding test; with the
      right chain first it never says yes. *)
  Lemma chains_test p : y_monotone_test (map yx L, map yx R0) p = Ok (negb (Z.eqb (wnum vs p) 0)) /\ y_monotone_test (map yx R0, map yx L) p = Ok false.
  Proof.
    assert (Out : (forall v, In v L \/ In v R0 -> vy p <= vy v) \/ (forall v, In v L \/ In v R0 -> vy v < vy p) -> wnum vs p = 0%Z).
    { intro H. apply W. rewrite !csum_zero; auto; destruct H; auto. }
    destruct (Rle_lt_dec (vy p) (vy lo)) as [K|K].
    { assert (H : forall v, In v L \/ In v R0 -> vy p <= vy v). { intros v Hv. apply ext_in in Hv. lra. }
      rewrite !y_test_below by auto. rewrite Out by auto. auto. }
    destruct (Rlt_le_dec (vy hi) (vy p)) as [K'|K'].
    { assert (H : forall v, In v L \/ In v R0 -> vy v < vy p). { intros v Hv. apply ext_in in Hv. lra. }
      rewrite !y_test_above by auto. rewrite Out by auto. auto. }
    destruct (level L p) as (cl1 & a & b & cl2 & E1 & Y1); auto. destruct (level R0 p) as (cr1 & c & d & cr2 & E2 & Y2); auto.
    pose proof (left_left _ _ _ _ _ _ _ _ p E1 E2 Y1 Y2) as LL. pose proof (W p) as Wp.
    assert (A1 := AL). assert (A2 := AR). rewrite E1 in A1, Wp |- *. rewrite E2 in A2, Wp |- *. rewrite !csum_edge in Wp by auto. rewrite !y_test_edges by auto.
    destruct (Rleb_spec (orient a b p) 0) as [U|U], (Rleb_spec (orient c d p) 0) as [V|V], (Rltb_spec 0 (orient a b p)), (Rltb_spec 0 (orient c d p)); try lra; cbn [andb];
      destruct (Z.eqb_spec (wnum vs p) 0) as [Z|Z]; cbn [negb]; auto; exfalso; try (apply Wp in Z; discriminate); try (apply Z, Wp; reflexivity).
    all: specialize (LL ltac:(lra)); lra.
  Qed.
  (** At levels strictly between the ends the chains do not touch. *)
  Lemma apart cl1 a b cl2 cr1 c d cr2 w : L = cl1 ++ a :: b :: cl2 -> R0 = cr1 ++ c :: d :: cr2 -> vy a < vy b -> vy c < vy d -> vy lo < vy w < vy hi ->
    orient a b w = 0 -> orient c d w = 0 -> False.
  Proof.
    intros E1 E2 Y1 Y2 Yw O1 O2.
    set (u := psub b a). set (r := psub d c).
    assert (Cu : forall v, In v vs -> pcross u (psub v w) <= 0).
    { intros v Hv. replace (pcross u (psub v w)) with (orient a b v - orient a b w) by (subst u; ug; ring). rewrite O1. pose proof (EL _ _ _ _ v E1 Hv). lra. }
    assert (Cr : forall v, In v vs -> 0 <= pcross r (psub v w)).
    { intros v Hv. replace (pcross r (psub v w)) with (orient c d v - orient c d w) by (subst r; ug; ring). rewrite O2. pose proof (ER _ _ _ _ v E2 Hv). lra. }
    assert (U2 : 0 < vy u) by (subst u; ug; lra). assert (R2 : 0 < vy r) by (subst r; ug; lra).
    assert (Id : forall v, vy u * pcross r (psub v w) - vy r * pcross u (psub v w) = (vy u * vx r - vy r * vx u) * (vy v - vy w)) by (intro v; subst u r; ug; ring).
    clearbody u r. clear E1 E2 Y1 Y2 O1 O2. set (k := vy u * vx r - vy r * vx u) in *.
    assert (P : forall v, In v vs -> 0 <= vy u * pcross r (psub v w) /\ 0 <= vy r * - pcross u (psub v w)).
    { intros v Hv. specialize (Cu v Hv). specialize (Cr v Hv). split; apply Rmult_le_pos; lra. }
    assert (K : k = 0).
    { pose proof (Id lo) as I1. pose proof (Id hi) as I2. destruct (P lo (proj2 (proj2 lo_in))). destruct (P hi (proj2 (proj2 hi_in))).
      destruct (Rtotal_order k 0) as [Z|[Z|Z]]; auto; exfalso.
      - assert (0 < - k * (vy hi - vy w)) by (apply Rmult_lt_0_compat; lra). lra.
      - assert (0 < k * (vy w - vy lo)) by (apply Rmult_lt_0_compat; lra). lra. }
    apply (not_spread u w vs); auto.
    - intro Z. rewrite Z in U2. cbn in U2. lra.
    - intros v Hv. specialize (Id v). rewrite K in Id. destruct (P v Hv). specialize (Cu v Hv). apply (Rmult_eq_reg_l (vy r)); [|lra]. lra.
  Qed.
  Lemma no_flat C c1 e f c2 : C = L \/ C = R0 -> C = c1 ++ e :: f :: c2 -> vy e = vy f -> vy lo < vy e < vy hi -> e = f.
  Proof.
    intros HC EC Ef Y. destruct (Req_dec (vx e) (vx f)) as [X|X]; [destruct e as [e1 e2], f as [f1 f2]; cbn [vx vy] in *; vext; auto|]. exfalso.
    assert (O : forall v, orient e f v = (vx f - vx e) * (vy v - vy e)) by (intro v; ug; rewrite Ef; ring).
    destruct (Rtotal_order (vx e) (vx f)) as [K|[K|K]]; [|contradiction|].
    - assert (0 < (vx f - vx e) * (vy hi - vy e)) by (apply Rmult_lt_0_compat; lra). assert (0 < (vx f - vx e) * (vy e - vy lo)) by (apply Rmult_lt_0_compat; lra).
      destruct HC as [-> | ->]; [pose proof (EL _ _ _ _ hi EC (proj2 (proj2 hi_in))) as Q|pose proof (ER _ _ _ _ lo EC (proj2 (proj2 lo_in))) as Q]; rewrite O in Q; lra.
    - assert (0 < (vx e - vx f) * (vy hi - vy e)) by (apply Rmult_lt_0_compat; lra). assert (0 < (vx e - vx f) * (vy e - vy lo)) by (apply Rmult_lt_0_compat; lra).
      destruct HC as [-> | ->]; [pose proof (EL _ _ _ _ lo EC (proj2 (proj2 lo_in))) as Q|pose proof (ER _ _ _ _ hi EC (proj2 (proj2 hi_in))) as Q]; rewrite O in Q; lra.
  Qed.
  Lemma level_vertex C v : C = L \/ C = R0 -> In v C -> vy lo < vy v < vy hi -> exists c1 a c2, C = c1 ++ a :: v :: c2 /\ vy a < vy v.
  Proof.
    intros HC Hv Y. destruct (level C v HC) as (c1 & a & b & c2 & EC & Yab); [lra|].
    assert (A : asc C) by (destruct HC; subst; auto).
    assert (Hb : In v (b :: c2)).
    { rewrite EC in A. destruct (level_sides _ _ _ _ _ A Yab) as [S1 _]. rewrite EC in Hv. change (c1 ++ a :: b :: c2) with (c1 ++ [a] ++ b :: c2) in Hv. rewrite app_assoc in Hv.
      apply in_app_iff in Hv as [Hv|Hv]; auto. specialize (S1 v Hv). lra. }
    assert (G : forall c2 c1 b, C = c1 ++ b :: c2 -> vy v <= vy b -> In v (b :: c2) -> b = v).
    { clear c1 a b c2 EC Yab Hb. intro c2. induction c2 as [|f c2 IH]; intros c1 b EC Yb Hb; [destruct Hb as [Hb|[]]; auto|].
      destruct Hb as [Hb|Hb]; auto. assert (B : vy b <= vy f /\ vy f <= vy v /\ C = (c1 ++ [b]) ++ f :: c2).
      { split; [|split; [|rewrite <- app_assoc; auto]]; rewrite EC in A; apply asc_app in A as (_ & A & _); apply asc_cons in A as [A Ab]; [apply Ab; left; auto|].
        destruct Hb as [->|Hb]; [lra|]. apply asc_cons in A as [_ A]. auto. }
      destruct B as (B1 & B2 & B3). rewrite (no_flat C c1 b f c2 HC EC) by lra. apply (IH (c1 ++ [b])); auto. lra. }
    assert (b = v) by (apply (G c2 (c1 ++ [a])); [rewrite <- app_assoc; auto|lra|auto]). subst b. exists c1, a, c2. split; auto. lra.
  Qed.
  Lemma orient_flat (a b v : pt) : vx v <= vx a -> vx v <= vx b -> vy a < vy v <= vy b -> 0 <= orient a b v.
  Proof.
    intros. replace (orient a b v) with ((vx b - vx v) * (vy v - vy a) + (vx a - vx v) * (vy b - vy v)) by (ug; ring).
    assert (0 <= (vx b - vx v) * (vy v - vy a)) by (apply Rmult_le_pos; lra). assert (0 <= (vx a - vx v) * (vy b - vy v)) by (apply Rmult_le_pos; lra). lra.
  Qed.
  Lemma orient_flat' (a b v : pt) : vx a <= vx v -> vx b <= vx v -> vy a < vy v <= vy b -> orient a b v <= 0.
  Proof.
    intros. replace (orient a b v) with (- ((vx v - vx b) * (vy v - vy a) + (vx v - vx a) * (vy b - vy v))) by (ug; ring).
    assert (0 <= (vx v - vx b) * (vy v - vy a)) by (apply Rmult_le_pos; lra). assert (0 <= (vx v - vx a) * (vy b - vy v)) by (apply Rmult_le_pos; lra). lra.
  Qed.
  Lemma leftmost_not_right v : leftmost vs v -> vy lo < vy v < vy hi -> ~ In v R0.
  Proof.
    intros (Hv & Hm) Y HR0. destruct (level_vertex R0 v) as (cr1 & c & cr2 & E2 & Yc); auto. destruct (level L v) as (cl1 & a & b & cl2 & E1 & Y1); [auto|lra|].
    assert (Ha : In a vs) by (apply IN; left; rewrite E1; apply in_app_iff; right; left; auto).
    assert (Hb : In b vs) by (apply IN; left; rewrite E1; apply in_app_iff; right; right; left; auto).
    pose proof (orient_flat a b v (Hm a Ha) (Hm b Hb) Y1). pose proof (EL _ _ _ _ v E1 Hv).
    apply (apart _ _ _ _ _ _ _ _ v E1 E2); try lra. ug. ring.
  Qed.
  Lemma rightmost_not_left v : rightmost vs v -> vy lo < vy v < vy hi -> ~ In v L.
  Proof.
    intros (Hv & Hm) Y HL0. destruct (level_vertex L v) as (cr1 & c & cr2 & E2 & Yc); auto. destruct (level R0 v) as (cl1 & a & b & cl2 & E1 & Y1); [auto|lra|].
    assert (Ha : In a vs) by (apply IN; right; rewrite E1; apply in_app_iff; right; left; auto).
    assert (Hb : In b vs) by (apply IN; right; rewrite E1; apply in_app_iff; right; right; left; auto).
    pose proof (orient_flat' a b v (Hm a Ha) (Hm b Hb) Y1). pose proof (ER _ _ _ _ v E1 Hv).
    apply (apart _ _ _ _ _ _ _ _ v E2 E1); try lra. ug. ring.
  Qed.
End Chains.
