(** * Binary search on a cyclically unimodal sequence *)
From Coq Require Import ZArith List Bool Reals Lra Lia Psatz.
From Verif Require Import Num Vec Seq Polygon Tangent SpecGeom SpecTangent RBase VecFacts2 PolyCache2 ConvexFacts4 TangentFacts.
Import ListNotations.
Local Open Scope R_scope.

(** t falls from i to m, strictly except perhaps at the two ends, and rises
    strictly from m to i + n. *)
Record arcs (t : Z -> R) (n i m : Z) : Prop := mkArcs {
  a_per : forall k, t (k + n)%Z = t k;
  a_im : (i < m < i + n)%Z;
  a_down : forall k, (i <= k < m)%Z -> t (k + 1)%Z <= t k;
  a_up : forall k, (m <= k < i + n)%Z -> t k < t (k + 1)%Z;
  a_strict : forall k, (i < k)%Z -> (k + 1 < m)%Z -> t (k + 1)%Z < t k }.

Lemma mono_up (P : Z -> Z -> Prop) (a b : Z) : (forall k, (a <= k < b)%Z -> P k (k + 1)%Z) -> (forall x y z, P x y -> P y z -> P x z) ->
  forall x y, (a <= x < y)%Z -> (y <= b)%Z -> P x y.
Proof.
  intros Hs Ht x y Hx Hy. assert (H : forall j, (0 <= j)%Z -> (x + 1 + j <= b)%Z -> P x (x + 1 + j)%Z).
  { apply (natlike_ind (fun j => (x + 1 + j <= b)%Z -> P x (x + 1 + j)%Z)).
    - intros _. replace (x + 1 + 0)%Z with (x + 1)%Z by lia. apply Hs. lia.
    - intros j Hj IH Hb. eapply Ht; [apply IH; lia|]. replace (x + 1 + Z.succ j)%Z with ((x + 1 + j) + 1)%Z by lia. apply Hs. lia. }
  replace y with (x + 1 + (y - x - 1))%Z by lia. apply H; lia.
Qed.
Section Arcs.
  Variables (t : Z -> R) (n i m : Z).
  Hypothesis A : arcs t n i m.
  Lemma arc_down x y : (i <= x <= y)%Z -> (y <= m)%Z -> t y <= t x.
  Proof.
    intros H1 H2. destruct (Z.eq_dec x y) as [->|NE]; [lra|]. apply (mono_up (fun a b => t b <= t a) i m); [apply (a_down _ _ _ _ A)|intros; lra|lia|lia].
  Qed.
  Lemma arc_strict x y : (i < x < y)%Z -> (y < m)%Z -> t y < t x.
  Proof. intros H1 H2. apply (mono_up (fun a b => t b < t a) (i + 1) (m - 1)); [intros k Hk; apply (a_strict _ _ _ _ A); lia|intros; lra|lia|lia]. Qed.
  Lemma arc_up x y : (m <= x < y)%Z -> (y <= i + n)%Z -> t x < t y.
  Proof. intros H1 H2. apply (mono_up (fun a b => t a < t b) m (i + n)); [apply (a_up _ _ _ _ A)|intros; lra|lia|lia]. Qed.
  Lemma per_mul k z : t (k + z * n)%Z = t k.
  Proof.
    assert (P1 : forall j, (0 <= j)%Z -> forall k, t (k + j * n)%Z = t k).
    { apply (natlike_ind (fun j => forall k, t (k + j * n)%Z = t k)); [intro; f_equal; lia|]. intros j _ IH k0.
      replace (k0 + Z.succ j * n)%Z with ((k0 + j * n) + n)%Z by lia. rewrite (a_per _ _ _ _ A). apply IH. }
    destruct (Z_le_dec 0 z) as [L|L]; [apply P1; auto|]. rewrite <- (P1 (- z)%Z) by lia. f_equal. lia.
  Qed.
  Lemma arcs_shift z : arcs t n (i + z * n) (m + z * n).
  Proof.
    pose proof (a_im _ _ _ _ A) as IM. split.
    - apply (a_per _ _ _ _ A).
    - lia.
    - intros k Hk. rewrite <- (per_mul k (- z)), <- (per_mul (k + 1) (- z)). replace (k + 1 + - z * n)%Z with (k + - z * n + 1)%Z by lia. apply (a_down _ _ _ _ A). lia.
    - intros k Hk. rewrite <- (per_mul k (- z)), <- (per_mul (k + 1) (- z)). replace (k + 1 + - z * n)%Z with (k + - z * n + 1)%Z by lia. apply (a_up _ _ _ _ A). lia.
    - intros k H1 H2. rewrite <- (per_mul k (- z)), <- (per_mul (k + 1) (- z)). replace (k + 1 + - z * n)%Z with (k + - z * n + 1)%Z by lia. apply (a_strict _ _ _ _ A); lia.
  Qed.
End Arcs.

Section Search.
  Variables (vs : list pt) (p : pt) (t : Z -> R) (V : Z -> pt).
  Let n := Z.of_nat (length vs).
  Hypothesis HV : forall k, (- n <= k < n)%Z -> py_get vs k = Ok (V k).
  Hypothesis Hpos : forall i j, 0 < orient p (V i) (V j) <-> t i < t j.
  Hypothesis Hneg : forall i j, orient p (V i) (V j) < 0 <-> t j < t i.
  Hypothesis Hn : (3 <= length vs)%nat.

  Lemma above_R i j : pt_above p (V i) (V j) = Rltb (t i) (t j).
  Proof.
    unfold pt_above. rewrite cross_orient. rnum. specialize (Hpos i j).
    destruct (Rltb_spec 0 (orient p (V i) (V j))), (Rltb_spec (t i) (t j)); auto; exfalso; destruct Hpos; lra.
  Qed.
  Lemma below_R i j : pt_below p (V i) (V j) = Rltb (t j) (t i).
  Proof.
    unfold pt_below. rewrite cross_orient. rnum. specialize (Hneg i j).
    destruct (Rltb_spec (orient p (V i) (V j)) 0), (Rltb_spec (t j) (t i)); auto; exfalso; destruct Hneg; lra.
  Qed.

  Lemma left_loop_finds : forall limit a b i m, arcs t n i m -> (-1 <= a)%Z -> (b <= n - 1)%Z -> (a < i < b)%Z -> (b - a <= Z.of_nat limit)%Z ->
    left_tan_loop vs p limit a b = Ok i.
  Proof.
    induction limit as [|limit IH]; intros a b i m A Ha Hb Hi Hl; [lia|]. cbn [left_tan_loop]. set (c := ((a + b) / 2)%Z).
    assert (Hc : (a < c < b)%Z) by (unfold c; split; [|]; (apply Z.div_le_lower_bound || apply Z.div_lt_upper_bound || idtac); try lia; pose proof (Z.div_le_lower_bound (a + b) 2 (a + 1)); lia).
    clearbody c. assert (N3 : (3 <= n)%Z) by (unfold n; lia).
    rewrite !HV by lia. cbn [bind]. rewrite !below_R, !above_R.
    pose proof (a_im _ _ _ _ A) as IM. pose proof (arcs_shift _ _ _ _ A (-1)) as A'. replace (i + -1 * n)%Z with (i - n)%Z in A' by lia. replace (m + -1 * n)%Z with (m - n)%Z in A' by lia.
    assert (UP1 : forall k, (m - n <= k < i)%Z -> t k < t (k + 1)%Z) by (intros k Hk; apply (a_up _ _ _ _ A'); lia).
    assert (DN1 : forall k, (i - n <= k < m - n)%Z -> t (k + 1)%Z <= t k) by (intros k Hk; apply (a_down _ _ _ _ A'); lia).
    assert (UP2 := a_up _ _ _ _ A). assert (DN2 := a_down _ _ _ _ A).
    destruct (Rltb_spec (t c) (t (c + 1)%Z)) as [DC|DC]; cbn [negb bind].
    - assert (NC : c <> i) by (intros ->; pose proof (DN2 i); lra || (specialize (DN2 i ltac:(lia)); lra)).
      destruct (Rltb_spec (t a) (t (a + 1)%Z)) as [DA|DA]; cbn [negb orb].
      + assert (RA : (m - n <= a)%Z) by (destruct (Z_lt_le_dec a (m - n)) as [L|L]; [specialize (DN1 a ltac:(lia)); lra|lia]).
        destruct (Rltb_spec (t c) (t a)) as [CA|CA].
        * apply (IH a c i m A); try lia. destruct (Z_lt_le_dec c i) as [L|L]; [|lia]. pose proof (arc_up _ _ _ _ A' a c). lra || (assert (t a < t c) by (apply (arc_up _ _ _ _ A'); lia); lra).
        * apply (IH c b i m A); try lia. destruct (Z_lt_le_dec c i) as [L|L]; [lia|]. exfalso.
          assert (m <= c)%Z by (destruct (Z_lt_le_dec c m) as [K|K]; [specialize (DN2 c ltac:(lia)); lra|lia]).
          assert (t c < t (a + n)%Z) by (apply (arc_up _ _ _ _ A); lia). rewrite (a_per _ _ _ _ A) in H0. lra.
      + apply (IH c b i m A); try lia. assert (RA : (a < m - n)%Z) by (destruct (Z_lt_le_dec a (m - n)) as [L|L]; [lia|specialize (UP1 a ltac:(lia)); lra]).
        destruct (Z_lt_le_dec c i) as [L|L]; [lia|]. specialize (DN2 c ltac:(lia)). lra.
    - destruct (Rltb_spec (t (c - 1)%Z) (t c)) as [FC|FC].
      + f_equal. destruct (Z.eq_dec c i) as [|NC]; auto. exfalso.
        destruct (Z_lt_le_dec c (m - n)) as [L1|L1]. { specialize (DN1 (c - 1)%Z ltac:(lia)). replace (c - 1 + 1)%Z with c in DN1 by lia. lra. }
        destruct (Z_lt_le_dec c i) as [L2|L2]. { specialize (UP1 c ltac:(lia)). lra. }
        destruct (Z_lt_le_dec c m) as [L3|L3]. { specialize (DN2 (c - 1)%Z ltac:(lia)). replace (c - 1 + 1)%Z with c in DN2 by lia. lra. }
        specialize (UP2 c ltac:(lia)). lra.
      + assert (NC : c <> i) by (intros ->; specialize (UP1 (i - 1)%Z ltac:(lia)); replace (i - 1 + 1)%Z with i in UP1 by lia; lra).
        destruct (Rltb_spec (t a) (t (a + 1)%Z)) as [DA|DA]; cbn [negb orb].
        * apply (IH a c i m A); try lia. assert (RA : (m - n <= a)%Z) by (destruct (Z_lt_le_dec a (m - n)) as [L|L]; [specialize (DN1 a ltac:(lia)); lra|lia]).
          destruct (Z_lt_le_dec c i) as [L|L]; [specialize (UP1 c ltac:(lia)); lra|lia].
        * assert (RA : (a < m - n)%Z) by (destruct (Z_lt_le_dec a (m - n)) as [L|L]; [lia|specialize (UP1 a ltac:(lia)); lra]).
          destruct (Rltb_spec (t a) (t c)) as [AC|AC]; cbn [negb].
          -- apply (IH a c i m A); try lia. destruct (Z_lt_le_dec c i) as [L|L]; [exfalso|lia].
             assert (c < m - n)%Z by (destruct (Z_lt_le_dec c (m - n)) as [K|K]; [lia|specialize (UP1 c ltac:(lia)); lra]).
             assert (t c <= t a) by (apply (arc_down _ _ _ _ A'); lia). lra.
          -- apply (IH c b i m A); try lia. destruct (Z_lt_le_dec c i) as [L|L]; [lia|exfalso].
             assert (t (a + n)%Z < t c) by (apply (arc_strict _ _ _ _ A); lia). rewrite (a_per _ _ _ _ A) in H. lra.
  Qed.

  Lemma right_loop_finds : forall limit a b i m, arcs t n i m -> t m < t (m - 1)%Z -> (-1 <= a)%Z -> (b <= n - 1)%Z -> (a < m < b)%Z -> (b - a <= Z.of_nat limit)%Z ->
    right_tan_loop vs p limit a b = Ok m.
  Proof.
    induction limit as [|limit IH]; intros a b i m A MP Ha Hb Hi Hl; [lia|]. cbn [right_tan_loop]. set (c := ((a + b) / 2)%Z).
    assert (N3 : (3 <= n)%Z) by (unfold n; lia).
    assert (Hc : (a < c < b)%Z) by (unfold c; split; [|]; (apply Z.div_le_lower_bound || apply Z.div_lt_upper_bound || idtac); try lia; pose proof (Z.div_le_lower_bound (a + b) 2 (a + 1)); lia).
    assert (Hc2 : (c <= a + n - 2)%Z) by (assert (c < a + n - 1)%Z by (unfold c; apply Z.div_lt_upper_bound; lia); lia).
    clearbody c.
    rewrite !HV by lia. cbn [bind]. rewrite !below_R, !above_R.
    pose proof (a_im _ _ _ _ A) as IM. pose proof (arcs_shift _ _ _ _ A (-1)) as A'. replace (i + -1 * n)%Z with (i - n)%Z in A' by lia. replace (m + -1 * n)%Z with (m - n)%Z in A' by lia.
    pose proof (arcs_shift _ _ _ _ A 1) as A2. replace (i + 1 * n)%Z with (i + n)%Z in A2 by lia. replace (m + 1 * n)%Z with (m + n)%Z in A2 by lia.
    assert (UP1 : forall k, (m - n <= k < i)%Z -> t k < t (k + 1)%Z) by (intros k Hk; apply (a_up _ _ _ _ A'); lia).
    assert (UP2 := a_up _ _ _ _ A). assert (DN2 := a_down _ _ _ _ A). assert (DN3 := a_down _ _ _ _ A2).
    assert (SD : forall k, (i < k < m)%Z -> t (k + 1)%Z < t k).
    { intros k Hk. destruct (Z.eq_dec k (m - 1)) as [->|NK]; [replace (m - 1 + 1)%Z with m by lia; lra|apply (a_strict _ _ _ _ A); lia]. }
    assert (CASES : (c < i \/ i <= c < m \/ m <= c < i + n \/ i + n <= c)%Z) by lia.
    destruct (Rltb_spec (t c) (t (c + 1)%Z)) as [DC|DC]; cbn [negb bind].
    - (* rising at c *)
      destruct (Rltb_spec (t (c - 1)%Z) (t c)) as [FC|FC]; cbn [negb].
      + assert (NC : c <> m) by (intros ->; specialize (DN2 (m - 1)%Z ltac:(lia)); replace (m - 1 + 1)%Z with m in DN2 by lia; lra).
        destruct (Rltb_spec (t (a + 1)%Z) (t a)) as [DA|DA]; cbn [negb orb].
        * (* strictly falling at a *)
          assert (RA : (i <= a)%Z) by (destruct (Z_lt_le_dec a i) as [L|L]; [specialize (UP1 a ltac:(lia)); lra|lia]).
          apply (IH a c i m A); try lia; auto. destruct (Z_lt_le_dec c m) as [L|L]; [specialize (DN2 c ltac:(lia)); lra|lia].
        * assert (RA : (a <= i)%Z) by (destruct (Z_lt_le_dec i a) as [L|L]; [specialize (SD a ltac:(lia)); lra|lia]).
          assert (RC : (c < i \/ m < c < i + n)%Z).
          { destruct CASES as [K|[K|[K|K]]]; [left; lia| |right; lia|lia]. specialize (DN2 c ltac:(lia)). lra. }
          destruct (Rltb_spec (t c) (t a)) as [CA|CA]; cbn [negb].
          -- apply (IH a c i m A); try lia; auto. destruct RC as [K|K]; [exfalso|lia]. assert (t a < t c) by (apply (arc_up _ _ _ _ A'); lia). lra.
          -- apply (IH c b i m A); try lia; auto. destruct RC as [K|K]; [lia|exfalso]. assert (t c < t (a + n)%Z) by (apply (arc_up _ _ _ _ A); lia). rewrite (a_per _ _ _ _ A) in H. lra.
      + f_equal. destruct CASES as [K|[K|[K|K]]].
        * specialize (UP1 (c - 1)%Z ltac:(lia)). replace (c - 1 + 1)%Z with c in UP1 by lia. lra.
        * specialize (DN2 c ltac:(lia)). lra.
        * destruct (Z.eq_dec c m) as [|NC]; auto. specialize (UP2 (c - 1)%Z ltac:(lia)). replace (c - 1 + 1)%Z with c in UP2 by lia. lra.
        * specialize (DN3 c ltac:(lia)). lra.
    - destruct (Rltb_spec (t (a + 1)%Z) (t a)) as [DA|DA]; cbn [negb orb].
      + assert (RA : (i <= a)%Z) by (destruct (Z_lt_le_dec a i) as [L|L]; [specialize (UP1 a ltac:(lia)); lra|lia]).
        assert (RC : (a < c < m \/ i + n <= c)%Z).
        { destruct CASES as [K|[K|[K|K]]]; [lia|left; lia| |right; lia]. specialize (UP2 c ltac:(lia)). lra. }
        destruct (Rltb_spec (t a) (t c)) as [AC|AC]; cbn [negb].
        * apply (IH a c i m A); try lia; auto. destruct RC as [K|K]; [exfalso|lia]. assert (t c <= t a) by (apply (arc_down _ _ _ _ A); lia). lra.
        * apply (IH c b i m A); try lia; auto. destruct RC as [K|K]; [lia|exfalso].
          assert (t (c + 1)%Z <= t c) by (apply DN3; lia). assert (t (a + n)%Z < t (c + 1)%Z) by (apply (arc_strict _ _ _ _ A2); lia). rewrite (a_per _ _ _ _ A) in H0. lra.
      + assert (RA : (a <= i)%Z) by (destruct (Z_lt_le_dec i a) as [L|L]; [specialize (SD a ltac:(lia)); lra|lia]).
        apply (IH c b i m A); try lia; auto. destruct CASES as [K|[K|[K|K]]]; try lia. specialize (UP2 c ltac:(lia)). lra.
  Qed.
End Search.
