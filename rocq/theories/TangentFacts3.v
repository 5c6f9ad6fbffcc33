(** * Strictly convex polygons seen from outside *)
From Coq Require Import ZArith List Bool Reals Lra Lia Psatz.
From Verif Require Import Num Vec Seq Polygon Tangent SpecGeom SpecTangent RBase VecFacts2 PolyCache2 ConvexFacts4 CentroidFacts TangentFacts TangentFacts2.
Import ListNotations.
Local Open Scope R_scope.

(** ** Searching the integers *)
Lemma first_from (P : Z -> Prop) (dec : forall k, {P k} + {~ P k}) : forall j, (0 <= j)%Z -> forall a, P (a + j)%Z ->
  exists k, (a <= k <= a + j)%Z /\ P k /\ forall x, (a <= x < k)%Z -> ~ P x.
Proof.
  apply (natlike_ind (fun j => forall a, P (a + j)%Z -> exists k, (a <= k <= a + j)%Z /\ P k /\ forall x, (a <= x < k)%Z -> ~ P x)).
  - intros a H. exists a. replace (a + 0)%Z with a in H by lia. split; [lia|]. split; [exact H|]. intros; lia.
  - intros j Hj IH a H. destruct (dec a) as [Y|Nn].
    + exists a. split; [lia|]. split; [exact Y|]. intros; lia.
    + destruct (IH (a + 1)%Z) as (k & Hk & Pk & Fk). { replace (a + 1 + j)%Z with (a + Z.succ j)%Z by lia. exact H. }
      exists k. split; [lia|]. split; [exact Pk|]. intros x Hx. destruct (Z.eq_dec x a) as [->|NE]; [exact Nn|apply Fk; lia].
Qed.
Lemma rise (t : Z -> R) : forall j, (0 <= j)%Z -> forall a, t a < t (a + j)%Z -> exists k, (a <= k < a + j)%Z /\ t k < t (k + 1)%Z.
Proof.
  apply (natlike_ind (fun j => forall a, t a < t (a + j)%Z -> exists k, (a <= k < a + j)%Z /\ t k < t (k + 1)%Z)).
  - intros a H. replace (a + 0)%Z with a in H by lia. lra.
  - intros j Hj IH a H. destruct (Rlt_dec (t a) (t (a + 1)%Z)) as [L|L]; [exists a; split; [lia|exact L]|].
    destruct (IH (a + 1)%Z) as (k & Hk & Tk). { replace (a + 1 + j)%Z with (a + Z.succ j)%Z by lia. lra. }
    exists k. split; [lia|exact Tk].
Qed.
Lemma fall (t : Z -> R) j a : (0 <= j)%Z -> t (a + j)%Z < t a -> exists k, (a <= k < a + j)%Z /\ t (k + 1)%Z < t k.
Proof. intros Hj H. destruct (rise (fun k => - t k) j Hj a) as (k & Hk & T); [lra|]. exists k. split; [exact Hk|lra]. Qed.

(** ** Vertices by cyclic index *)
Section Cyclic.
  Variable vs : list pt.
  Let n := Z.of_nat (length vs).
  Definition vat (k : Z) : pt := nth (Z.to_nat (k mod n)) vs porigin.
  Hypothesis Hn : (1 <= length vs)%nat.
  Lemma vat_range k : (0 <= k mod n < n)%Z. Proof. apply Z.mod_pos_bound. unfold n. lia. Qed.
  Lemma vat_in k : In (vat k) vs.
  Proof. apply nth_In. pose proof (vat_range k). unfold n in *. lia. Qed.
  Lemma vat_per k : vat (k + n) = vat k.
  Proof. unfold vat. replace (k + n)%Z with (k + 1 * n)%Z by lia. rewrite Z.mod_add by (unfold n; lia). reflexivity. Qed.
  Lemma vat_get k : (- n <= k < n)%Z -> py_get vs k = Ok (vat k).
  Proof.
    intro H. unfold py_get, py_index, vat. fold n.
    assert (E : (if k <? 0 then k + n else k)%Z = (k mod n)%Z).
    { destruct (Z.ltb_spec k 0) as [L|L]; [|rewrite Z.mod_small; lia]. rewrite <- (Z.mod_add k 1) by lia. replace (k + 1 * n)%Z with (k + n)%Z by lia. rewrite Z.mod_small; lia. }
    rewrite E. pose proof (vat_range k) as V. replace (0 <=? k mod n)%Z with true by (symmetry; apply Z.leb_le; lia). replace (k mod n <? n)%Z with true by (symmetry; apply Z.ltb_lt; lia).
    cbn [andb]. rewrite (nth_error_nth' vs porigin) by (unfold n in *; lia). reflexivity.
  Qed.
  Lemma vat_onto v : In v vs -> exists k, (0 <= k < n)%Z /\ v = vat k.
  Proof.
    intro H. destruct (In_nth vs v porigin H) as (j & Hj & E). exists (Z.of_nat j). split; [unfold n; lia|]. unfold vat. rewrite Z.mod_small by (unfold n; lia).
    rewrite Nat2Z.id. auto.
  Qed.
  Lemma vat_inj i j : NoDup vs -> vat i = vat j -> (i mod n = j mod n)%Z.
  Proof.
    intros ND E. pose proof (vat_range i). pose proof (vat_range j). unfold vat in E. apply (proj1 (NoDup_nth vs porigin) ND) in E; try (unfold n in *; lia).
  Qed.
  Lemma cyc_from_nth {X} (f d : X) : forall l k, (S k < length l)%nat -> In (nth k l d, nth (S k) l d) (cyc_pairs_from f l).
  Proof.
    induction l as [|a l IH]; intros k Hk; [cbn in Hk; lia|]. destruct l as [|b l]; [cbn in Hk; lia|]. destruct k as [|k]; [left; reflexivity|].
    right. apply (IH k). cbn [length] in *. lia.
  Qed.
  Lemma cyc_from_end {X} (f d : X) : forall l, l <> [] -> In (nth (length l - 1) l d, f) (cyc_pairs_from f l).
  Proof.
    induction l as [|a l IH]; intros Hk; [congruence|]. destruct l as [|b l]; [left; reflexivity|]. right. cbn [length] in *.
    specialize (IH ltac:(congruence)). replace (S (S (length l)) - 1)%nat with (S (S (length l) - 1))%nat by lia. exact IH.
  Qed.
  Lemma vat_edge k : In (vat k, vat (k + 1)) (cyc_pairs vs).
  Proof.
    pose proof (vat_range k) as V. assert (exists a l, vs = a :: l) as (a & l & E0) by (destruct vs; [cbn in Hn; lia|eauto]).
    destruct (Z.eq_dec (k mod n) (n - 1)) as [E|E].
    - assert (E1 : ((k + 1) mod n = 0)%Z). { rewrite <- Z.add_mod_idemp_l by lia. rewrite E. replace (n - 1 + 1)%Z with n by lia. apply Z.mod_same. lia. }
      unfold vat. rewrite E, E1. change (Z.to_nat 0) with 0%nat. replace (Z.to_nat (n - 1)) with (length vs - 1)%nat by (unfold n; lia).
      unfold cyc_pairs. rewrite E0. change (nth 0 (a :: l) porigin) with a. apply cyc_from_end. congruence.
    - assert (E1 : ((k + 1) mod n = k mod n + 1)%Z). { rewrite <- Z.add_mod_idemp_l by lia. apply Z.mod_small. lia. }
      unfold vat. rewrite E1. replace (Z.to_nat (k mod n + 1)) with (S (Z.to_nat (k mod n))) by lia.
      unfold cyc_pairs. rewrite E0. rewrite <- E0. apply cyc_from_nth. unfold n in *. lia.
  Qed.
End Cyclic.

Lemma three_turns (p v A B w : pt) : orient p v w * orient B v A = orient p v A * orient B v w + orient p v B * orient v A w.
Proof. destruct p as [p1 p2], v as [v1 v2], A as [a1 a2], B as [b1 b2], w as [w1 w2]. unfold orient, pcross, psub. cbn [vx vy]. ring. Qed.
Lemma orient_split (p a b c : pt) : orient a b c = orient p a b + orient p b c - orient p a c.
Proof. destruct p as [p1 p2], a as [v1 v2], b as [b1 b2], c as [w1 w2]. unfold orient, pcross, psub. cbn [vx vy]. ring. Qed.

Section Convex.
  Variables (s : R) (vs : list pt) (p d : pt).
  Hypothesis SC : strictly_convex s vs.
  Hypothesis FR : forall v, In v vs -> front d p v.
  Let n := Z.of_nat (length vs).
  Notation V := (vat vs).
  Definition tat (k : Z) : R := slope d p (V k).
  Notation t := tat.
  Let Hn : (1 <= length vs)%nat. Proof. destruct SC as (_ & H & _). lia. Qed.
  Let H3 : (3 <= n)%Z. Proof. destruct SC as (_ & H & _). unfold n. lia. Qed.
  Let Hs : s = 1 \/ s = -1. Proof. apply SC. Qed.
  Let ND : NoDup vs. Proof. apply SC. Qed.
  Lemma t_per k : t (k + n) = t k. Proof. unfold tat. rewrite vat_per; auto. Qed.
  Lemma t_pos i j : 0 < orient p (V i) (V j) <-> t i < t j.
  Proof. apply orient_pos; apply FR, vat_in; auto. Qed.
  Lemma t_neg i j : orient p (V i) (V j) < 0 <-> t j < t i.
  Proof. apply orient_neg; apply FR, vat_in; auto. Qed.
  Lemma t_ge i j : t i <= t j -> 0 <= orient p (V i) (V j).
  Proof. intro L. apply Rnot_lt_le. intro C. apply t_neg in C. lra. Qed.
  Lemma t_le i j : t j <= t i -> orient p (V i) (V j) <= 0.
  Proof. intro L. apply Rnot_lt_le. intro C. apply t_pos in C. lra. Qed.
  Lemma t_zero i j : t i = t j -> orient p (V i) (V j) = 0.
  Proof. intro E. pose proof (t_ge i j). pose proof (t_le i j). lra. Qed.
  Lemma v_inj i j : V i = V j -> (i mod n = j mod n)%Z. Proof. apply vat_inj; auto. Qed.
  Lemma v_near i j : (0 < i - j < n)%Z -> V i <> V j.
  Proof.
    intros H E. apply v_inj in E. assert (D : ((i - j) mod n = 0)%Z) by (rewrite Zminus_mod, E, Z.sub_diag; reflexivity). rewrite Z.mod_small in D by lia. lia.
  Qed.
  Lemma v_side k j : V j <> V k -> V j <> V (k + 1) -> 0 < s * orient (V k) (V (k + 1)) (V j).
  Proof. intros N1 N2. destruct SC as (_ & _ & _ & S). apply S; auto; [apply vat_edge|apply vat_in]; auto. Qed.
  (** A local maximum of the slope dominates, strictly except for the vertices
      on the same ray. *)
  Lemma top_global i k : t (i - 1) < t i -> t (i + 1) <= t i -> t k <= t i /\ (t k = t i -> V k = V i \/ V k = V (i + 1)).
  Proof.
    intros Hp Hq. assert (K : t i <= t k -> V k <> V i -> V k <> V (i + 1) -> False).
    { intros L N1 N2. pose proof (three_turns p (V i) (V (i + 1)) (V (i - 1)) (V k)) as E.
      assert (NB : V k <> V (i - 1)) by (intro C; assert (t k = t (i - 1)) by (unfold tat; rewrite C; reflexivity); lra).
      pose proof (v_side i k N1 N2) as S1. pose proof (v_side (i - 1) k NB) as S2. replace (i - 1 + 1)%Z with i in S2 by lia. specialize (S2 N1).
      pose proof (v_side (i - 1) (i + 1)) as S3. replace (i - 1 + 1)%Z with i in S3 by lia. specialize (S3 (v_near (i + 1)%Z (i - 1)%Z ltac:(lia)) (v_near (i + 1)%Z i ltac:(lia))).
      assert (O1 : 0 <= orient p (V i) (V k)) by (apply t_ge; lra). assert (O2 : orient p (V i) (V (i + 1)) <= 0) by (apply t_le; lra).
      assert (O3 : orient p (V i) (V (i - 1)) < 0) by (apply t_neg; lra).
      assert (E' : orient p (V i) (V k) * (s * orient (V (i - 1)) (V i) (V (i + 1))) = orient p (V i) (V (i + 1)) * (s * orient (V (i - 1)) (V i) (V k)) + orient p (V i) (V (i - 1)) * (s * orient (V i) (V (i + 1)) (V k))).
      { transitivity (s * (orient p (V i) (V k) * orient (V (i - 1)) (V i) (V (i + 1)))); [ring|]. rewrite E. ring. }
      set (o1 := orient p (V i) (V k)) in *. set (o2 := orient p (V i) (V (i + 1))) in *. set (o3 := orient p (V i) (V (i - 1))) in *.
      set (x1 := s * orient (V i) (V (i + 1)) (V k)) in *. set (x2 := s * orient (V (i - 1)) (V i) (V k)) in *. set (x3 := s * orient (V (i - 1)) (V i) (V (i + 1))) in *. clearbody o1 o2 o3 x1 x2 x3.
      assert (0 <= o1 * x3) by (apply Rmult_le_pos; lra). assert (0 <= (- o2) * x2) by (apply Rmult_le_pos; lra). assert (0 < (- o3) * x1) by (apply Rmult_lt_0_compat; lra). lra. }
    assert (D : forall a b : pt, a = b \/ a <> b).
    { intros [a1 a2] [b1 b2]. destruct (Req_dec a1 b1) as [->|]; [|right; intro C; apply mkV_inj in C; tauto]. destruct (Req_dec a2 b2) as [->|]; [auto|right; intro C; apply mkV_inj in C; tauto]. }
    assert (TE : forall x y, V x = V y -> t x = t y) by (intros x y E; unfold tat; rewrite E; reflexivity).
    destruct (D (V k) (V i)) as [E1|N1]; [rewrite (TE _ _ E1); split; [lra|auto]|]. destruct (D (V k) (V (i + 1))) as [E2|N2]; [rewrite (TE _ _ E2); split; [lra|auto]|].
    split; [apply Rnot_lt_le; intro; apply K; auto; lra|]. intro E. exfalso. apply K; auto. lra.
  Qed.
  Lemma top_unique i j : t (i - 1) < t i -> t (i + 1) <= t i -> t (j - 1) < t j -> t (j + 1) <= t j -> (i mod n = j mod n)%Z.
  Proof.
    intros A1 A2 B1 B2. destruct (top_global i j A1 A2) as (L1 & U1). destruct (top_global j i B1 B2) as (L2 & U2).
    assert (E : t i = t j) by lra. destruct (U2 E) as [C|C]; [apply v_inj; exact C|]. destruct (U1 (eq_sym E)) as [F|F]; [symmetry; apply v_inj; exact F|].
    exfalso. apply v_inj in C. apply v_inj in F. assert (D : ((1 + 1) mod n = 0)%Z).
    { replace (1 + 1)%Z with ((j + 1) + (1 - j))%Z by lia. rewrite <- Z.add_mod_idemp_l, <- C by lia. rewrite Z.add_mod_idemp_l by lia.
      replace (i + (1 - j))%Z with ((i + 1) - j)%Z by lia. rewrite Zminus_mod, <- F, Z.sub_diag. reflexivity. }
    destruct (Z.eq_dec n 2) as [->|]; [lia|]. rewrite Z.mod_small in D; lia.
  Qed.
  Lemma flat_edge k i m : t k = t (k + 1) -> V i <> V k -> V i <> V (k + 1) -> V m <> V k -> V m <> V (k + 1) -> t k <= t i -> t m <= t k -> False.
  Proof.
    intros E I1 I2 M1 M2 HI HM. pose proof (v_side k i I1 I2) as Si. pose proof (v_side k m M1 M2) as Sm.
    pose proof (FR _ (vat_in vs Hn k)) as Fk. unfold front in Fk. pose proof (t_zero _ _ E) as Z.
    assert (ID : forall w, pdot d (psub (V k) p) * orient (V k) (V (k + 1)) w = (pdot d (psub (V (k + 1)) p) - pdot d (psub (V k) p)) * orient p (V k) w + orient p (V k) (V (k + 1)) * (pdot d (psub (V k) p) - pdot d (psub w p))).
    { intro w. destruct (V k) as [a1 a2], (V (k + 1)) as [b1 b2], p as [p1 p2], d as [d1 d2], w as [w1 w2]. unfold orient, pcross, pdot, psub. cbn [vx vy]. ring. }
    pose proof (ID (V i)) as Ei. pose proof (ID (V m)) as Em. rewrite Z in Ei, Em.
    assert (Oi : 0 <= orient p (V k) (V i)) by (apply t_ge; lra). assert (Om : orient p (V k) (V m) <= 0) by (apply t_le; lra).
    set (D0 := pdot d (psub (V k) p)) in *. set (D1 := pdot d (psub (V (k + 1)) p)) in *. set (oi := orient p (V k) (V i)) in *. set (om := orient p (V k) (V m)) in *.
    set (yi := orient (V k) (V (k + 1)) (V i)) in *. set (ym := orient (V k) (V (k + 1)) (V m)) in *. clearbody D0 D1 oi om yi ym.
    assert (Pi : 0 < (s * (D1 - D0)) * oi) by (replace ((s * (D1 - D0)) * oi) with (D0 * (s * yi)) by (transitivity (s * (D0 * yi)); [ring|rewrite Ei; ring]); apply Rmult_lt_0_compat; lra).
    assert (Pm : 0 < (s * (D1 - D0)) * om) by (replace ((s * (D1 - D0)) * om) with (D0 * (s * ym)) by (transitivity (s * (D0 * ym)); [ring|rewrite Em; ring]); apply Rmult_lt_0_compat; lra).
    set (q := s * (D1 - D0)) in *. clearbody q. destruct (Rle_dec q 0) as [Q|Q].
    - assert (0 <= (- q) * oi) by (apply Rmult_le_pos; lra). lra.
    - assert (0 <= q * (- om)) by (apply Rmult_le_pos; lra). lra.
  Qed.
  Lemma not_level : exists x y, t x < t y /\ (x < y)%Z.
  Proof.
    assert (C : t 0 <> t 1 \/ t 1 <> t 2).
    { destruct (Req_dec (t 0) (t 1)) as [E1|]; [|auto]. destruct (Req_dec (t 1) (t 2)) as [E2|]; [|auto]. exfalso.
      pose proof (v_side 0 2 (v_near 2 0 ltac:(lia)) (v_near 2 1 ltac:(lia))) as S. change (0 + 1)%Z with 1%Z in S.
      rewrite (orient_split p), (t_zero 0 1), (t_zero 1 2), (t_zero 0 2) in S by lra. lra. }
    assert (K : forall a b, (a < b)%Z -> (b <= a + n - 1)%Z -> t a <> t b -> exists x y, t x < t y /\ (x < y)%Z).
    { intros a b H1 H2 H4. destruct (Rlt_dec (t a) (t b)) as [L|L]; [exists a, b; auto|]. exists b, (a + n)%Z. rewrite t_per. split; [lra|lia]. }
    destruct C as [C|C]; [apply (K 0%Z 1%Z)|apply (K 1%Z 2%Z)]; auto; lia.
  Qed.
  Lemma convex_arcs : exists i m, arcs t n i m.
  Proof.
    destruct not_level as (x & y & T & L). destruct (rise t (y - x)%Z ltac:(lia) x) as (k0 & _ & K0); [replace (x + (y - x))%Z with y by lia; exact T|].
    assert (dn : forall k, {t (k + 1) <= t k} + {~ t (k + 1) <= t k}) by (intro; apply Rle_dec).
    assert (da : forall k, {t k < t (k + 1)} + {~ t k < t (k + 1)}) by (intro; apply Rlt_dec).
    destruct (fall t (n - 1)%Z (k0 + 1)%Z ltac:(lia)) as (k1 & Hk1 & K1). { replace (k0 + 1 + (n - 1))%Z with (k0 + n)%Z by lia. rewrite t_per. exact K0. }
    destruct (first_from _ dn (k1 - (k0 + 1))%Z ltac:(lia) (k0 + 1)%Z) as (i & Hi & Pi & Fi). { replace (k0 + 1 + (k1 - (k0 + 1)))%Z with k1 by lia. lra. }
    assert (UPi : t (i - 1) < t i).
    { destruct (Z.eq_dec i (k0 + 1)) as [->|NE]; [replace (k0 + 1 - 1)%Z with k0 by lia; exact K0|]. specialize (Fi (i - 1)%Z ltac:(lia)). replace (i - 1 + 1)%Z with i in Fi by lia. lra. }
    destruct (first_from _ da (n - 1)%Z ltac:(lia) i) as (m & Hm & Pm & Fm). { replace (i + (n - 1) + 1)%Z with (i + n)%Z by lia. replace (i + (n - 1))%Z with (i - 1 + n)%Z by lia. rewrite !t_per. exact UPi. }
    assert (IM : (i < m)%Z) by (destruct (Z.eq_dec i m) as [->|]; [lra|lia]).
    destruct (first_from _ dn (i + n - m)%Z ltac:(lia) m) as (j & Hj & Pj & Fj). { replace (m + (i + n - m) + 1)%Z with (i + 1 + n)%Z by lia. replace (m + (i + n - m))%Z with (i + n)%Z by lia. rewrite !t_per. exact Pi. }
    assert (MJ : (m < j)%Z) by (destruct (Z.eq_dec m j) as [->|]; [lra|lia]).
    assert (UPj : t (j - 1) < t j) by (specialize (Fj (j - 1)%Z ltac:(lia)); replace (j - 1 + 1)%Z with j in Fj by lia; lra).
    assert (EJ : j = (i + n)%Z).
    { pose proof (top_unique i j UPi Pi UPj Pj) as U. assert (D : ((j - i) mod n = 0)%Z) by (rewrite Zminus_mod, U, Z.sub_diag; reflexivity).
      destruct (Z.eq_dec (j - i) n) as [|NE]; [lia|]. rewrite Z.mod_small in D by lia. lia. }
    subst j. assert (DN : forall k, (i <= k < m)%Z -> t (k + 1) <= t k) by (intros k Hk; specialize (Fm k ltac:(lia)); lra).
    exists i, m. split.
    - exact t_per.
    - lia.
    - exact DN.
    - intros k Hk. specialize (Fj k ltac:(lia)). lra.
    - intros k H1 H2. destruct (Rlt_dec (t (k + 1)) (t k)) as [|NL]; [auto|]. exfalso. assert (E : t k = t (k + 1)) by (specialize (DN k ltac:(lia)); lra).
      assert (MONO : forall a b, (i <= a < b)%Z -> (b <= m)%Z -> t b <= t a) by (apply (mono_up (fun a b => t b <= t a) i m); [exact DN|intros; lra]).
      apply (flat_edge k i m E).
      + apply not_eq_sym, v_near. lia.
      + apply not_eq_sym, v_near. lia.
      + apply v_near. lia.
      + apply v_near. lia.
      + apply MONO; lia.
      + rewrite E. apply MONO; lia.
  Qed.
End Convex.
