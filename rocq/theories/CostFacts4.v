(** * The binary searches for tangents take O(log n) steps *)
From Coq Require Import ZArith List Bool Reals Lra Lia Psatz.
From Verif Require Import Num Vec Seq Polygon Tangent SpecGeom SpecTangent RBase VecFacts2 PolyCache PolyCache2 ConvexFacts4 CentroidFacts TangentFacts TangentFacts2 TangentFacts3 TangentFacts4 Cost CostFacts CostFacts2.
Import ListNotations.
Local Open Scope R_scope.

Lemma rbind_ok {A B} (a : A) (f : A -> res B * nat) : rbind (cret (Ok a)) f = f a.
Proof. unfold rbind, cbind, tick, cret. cbn. destruct (f a). reflexivity. Qed.

Section Search.
  Variables (vs : list pt) (p : pt) (t : Z -> R) (V : Z -> pt).
  Let n := Z.of_nat (length vs).
  Hypothesis HV : forall k, (- n <= k < n)%Z -> py_get vs k = Ok (V k).
  Hypothesis Hpos : forall i j, 0 < orient p (V i) (V j) <-> t i < t j.
  Hypothesis Hneg : forall i j, orient p (V i) (V j) < 0 <-> t j < t i.
  Hypothesis Hn : (3 <= length vs)%nat.

  Lemma left_loop_log : forall limit a b i m d, arcs t n i m -> (-1 <= a)%Z -> (b <= n - 1)%Z -> (a < i < b)%Z -> (b - a <= Z.of_nat limit)%Z -> (b - a <= 2 ^ Z.of_nat d)%Z ->
    (snd (left_tan_loop_c vs p limit a b) <= d)%nat.
  Proof.
    induction limit as [|limit IH]; intros a b i m d A Ha Hb Hi Hl Hd; [lia|]. destruct d as [|d]; [cbn in Hd; lia|]. cbn [left_tan_loop_c]. cbv zeta. set (c := ((a + b) / 2)%Z).
    assert (Hc : (a < c < b)%Z) by (unfold c; split; [|]; (apply Z.div_le_lower_bound || apply Z.div_lt_upper_bound || idtac); try lia; pose proof (Z.div_le_lower_bound (a + b) 2 (a + 1)); lia).
    assert (Hd2 : (c - a <= 2 ^ Z.of_nat d /\ b - c <= 2 ^ Z.of_nat d)%Z) by (rewrite Nat2Z.inj_succ, Z.pow_succ_r in Hd by lia; unfold c; pose proof (Z.div_mod (a + b) 2 ltac:(lia)); pose proof (Z.mod_pos_bound (a + b) 2 ltac:(lia)); lia). clearbody c. rewrite snd_tick. apply le_n_S. clear Hd. assert (N3 : (3 <= n)%Z) by (unfold n; lia).
    rewrite !HV by lia. rewrite !rbind_ok, !(below_R p t V Hneg), !(above_R p t V Hpos).
    pose proof (a_im _ _ _ _ A) as IM. pose proof (arcs_shift _ _ _ _ A (-1)) as A'. replace (i + -1 * n)%Z with (i - n)%Z in A' by lia. replace (m + -1 * n)%Z with (m - n)%Z in A' by lia.
    assert (UP1 : forall k, (m - n <= k < i)%Z -> t k < t (k + 1)%Z) by (intros k Hk; apply (a_up _ _ _ _ A'); lia).
    assert (DN1 : forall k, (i - n <= k < m - n)%Z -> t (k + 1)%Z <= t k) by (intros k Hk; apply (a_down _ _ _ _ A'); lia).
    assert (UP2 := a_up _ _ _ _ A). assert (DN2 := a_down _ _ _ _ A).
    destruct (Rltb_spec (t c) (t (c + 1)%Z)) as [DC|DC]; cbn [negb]; rewrite !rbind_ok.
    - assert (NC : c <> i) by (intros ->; pose proof (DN2 i); lra || (specialize (DN2 i ltac:(lia)); lra)).
      destruct (Rltb_spec (t a) (t (a + 1)%Z)) as [DA|DA]; cbn [negb orb].
      + assert (RA : (m - n <= a)%Z) by (destruct (Z_lt_le_dec a (m - n)) as [L|L]; [specialize (DN1 a ltac:(lia)); lra|lia]).
        destruct (Rltb_spec (t c) (t a)) as [CA|CA].
        * apply (IH a c i m d A); try lia. destruct (Z_lt_le_dec c i) as [L|L]; [|lia]. pose proof (arc_up _ _ _ _ A' a c). lra || (assert (t a < t c) by (apply (arc_up _ _ _ _ A'); lia); lra).
        * apply (IH c b i m d A); try lia. destruct (Z_lt_le_dec c i) as [L|L]; [lia|]. exfalso.
          assert (m <= c)%Z by (destruct (Z_lt_le_dec c m) as [K|K]; [specialize (DN2 c ltac:(lia)); lra|lia]).
          assert (t c < t (a + n)%Z) by (apply (arc_up _ _ _ _ A); lia). rewrite (a_per _ _ _ _ A) in H0. lra.
      + apply (IH c b i m d A); try lia. assert (RA : (a < m - n)%Z) by (destruct (Z_lt_le_dec a (m - n)) as [L|L]; [lia|specialize (UP1 a ltac:(lia)); lra]).
        destruct (Z_lt_le_dec c i) as [L|L]; [lia|]. specialize (DN2 c ltac:(lia)). lra.
    - destruct (Rltb_spec (t (c - 1)%Z) (t c)) as [FC|FC].
      + rewrite snd_ret. lia.
      + assert (NC : c <> i) by (intros ->; specialize (UP1 (i - 1)%Z ltac:(lia)); replace (i - 1 + 1)%Z with i in UP1 by lia; lra).
        destruct (Rltb_spec (t a) (t (a + 1)%Z)) as [DA|DA]; cbn [negb orb].
        * apply (IH a c i m d A); try lia. assert (RA : (m - n <= a)%Z) by (destruct (Z_lt_le_dec a (m - n)) as [L|L]; [specialize (DN1 a ltac:(lia)); lra|lia]).
          destruct (Z_lt_le_dec c i) as [L|L]; [specialize (UP1 c ltac:(lia)); lra|lia].
        * assert (RA : (a < m - n)%Z) by (destruct (Z_lt_le_dec a (m - n)) as [L|L]; [lia|specialize (UP1 a ltac:(lia)); lra]).
          destruct (Rltb_spec (t a) (t c)) as [AC|AC]; cbn [negb].
          -- apply (IH a c i m d A); try lia. destruct (Z_lt_le_dec c i) as [L|L]; [exfalso|lia].
             assert (c < m - n)%Z by (destruct (Z_lt_le_dec c (m - n)) as [K|K]; [lia|specialize (UP1 c ltac:(lia)); lra]).
             assert (t c <= t a) by (apply (arc_down _ _ _ _ A'); lia). lra.
          -- apply (IH c b i m d A); try lia. destruct (Z_lt_le_dec c i) as [L|L]; [lia|exfalso].
             assert (t (a + n)%Z < t c) by (apply (arc_strict _ _ _ _ A); lia). rewrite (a_per _ _ _ _ A) in H. lra.
  Qed.

  Lemma right_loop_log : forall limit a b i m d, arcs t n i m -> t m < t (m - 1)%Z -> (-1 <= a)%Z -> (b <= n - 1)%Z -> (a < m < b)%Z -> (b - a <= Z.of_nat limit)%Z -> (b - a <= 2 ^ Z.of_nat d)%Z ->
    (snd (right_tan_loop_c vs p limit a b) <= d)%nat.
  Proof.
    induction limit as [|limit IH]; intros a b i m d A MP Ha Hb Hi Hl Hd; [lia|]. destruct d as [|d]; [cbn in Hd; lia|]. cbn [right_tan_loop_c]. cbv zeta. set (c := ((a + b) / 2)%Z).
    assert (N3 : (3 <= n)%Z) by (unfold n; lia).
    assert (Hc : (a < c < b)%Z) by (unfold c; split; [|]; (apply Z.div_le_lower_bound || apply Z.div_lt_upper_bound || idtac); try lia; pose proof (Z.div_le_lower_bound (a + b) 2 (a + 1)); lia).
    assert (Hc2 : (c <= a + n - 2)%Z) by (assert (c < a + n - 1)%Z by (unfold c; apply Z.div_lt_upper_bound; lia); lia).
    assert (Hd2 : (c - a <= 2 ^ Z.of_nat d /\ b - c <= 2 ^ Z.of_nat d)%Z) by (rewrite Nat2Z.inj_succ, Z.pow_succ_r in Hd by lia; unfold c; pose proof (Z.div_mod (a + b) 2 ltac:(lia)); pose proof (Z.mod_pos_bound (a + b) 2 ltac:(lia)); lia). clearbody c. rewrite snd_tick. apply le_n_S. clear Hd.
    rewrite !HV by lia. rewrite !rbind_ok, !(below_R p t V Hneg), !(above_R p t V Hpos).
    pose proof (a_im _ _ _ _ A) as IM. pose proof (arcs_shift _ _ _ _ A (-1)) as A'. replace (i + -1 * n)%Z with (i - n)%Z in A' by lia. replace (m + -1 * n)%Z with (m - n)%Z in A' by lia.
    pose proof (arcs_shift _ _ _ _ A 1) as A2. replace (i + 1 * n)%Z with (i + n)%Z in A2 by lia. replace (m + 1 * n)%Z with (m + n)%Z in A2 by lia.
    assert (UP1 : forall k, (m - n <= k < i)%Z -> t k < t (k + 1)%Z) by (intros k Hk; apply (a_up _ _ _ _ A'); lia).
    assert (UP2 := a_up _ _ _ _ A). assert (DN2 := a_down _ _ _ _ A). assert (DN3 := a_down _ _ _ _ A2).
    assert (SD : forall k, (i < k < m)%Z -> t (k + 1)%Z < t k).
    { intros k Hk. destruct (Z.eq_dec k (m - 1)) as [->|NK]; [replace (m - 1 + 1)%Z with m by lia; lra|apply (a_strict _ _ _ _ A); lia]. }
    assert (CASES : (c < i \/ i <= c < m \/ m <= c < i + n \/ i + n <= c)%Z) by lia.
    destruct (Rltb_spec (t c) (t (c + 1)%Z)) as [DC|DC]; cbn [negb]; rewrite !rbind_ok.
    - (* rising at c *)
      destruct (Rltb_spec (t (c - 1)%Z) (t c)) as [FC|FC]; cbn [negb].
      + assert (NC : c <> m) by (intros ->; specialize (DN2 (m - 1)%Z ltac:(lia)); replace (m - 1 + 1)%Z with m in DN2 by lia; lra).
        destruct (Rltb_spec (t (a + 1)%Z) (t a)) as [DA|DA]; cbn [negb orb].
        * (* strictly falling at a *)
          assert (RA : (i <= a)%Z) by (destruct (Z_lt_le_dec a i) as [L|L]; [specialize (UP1 a ltac:(lia)); lra|lia]).
          apply (IH a c i m d A); try lia; auto. destruct (Z_lt_le_dec c m) as [L|L]; [specialize (DN2 c ltac:(lia)); lra|lia].
        * assert (RA : (a <= i)%Z) by (destruct (Z_lt_le_dec i a) as [L|L]; [specialize (SD a ltac:(lia)); lra|lia]).
          assert (RC : (c < i \/ m < c < i + n)%Z).
          { destruct CASES as [K|[K|[K|K]]]; [left; lia| |right; lia|lia]. specialize (DN2 c ltac:(lia)). lra. }
          destruct (Rltb_spec (t c) (t a)) as [CA|CA]; cbn [negb].
          -- apply (IH a c i m d A); try lia; auto. destruct RC as [K|K]; [exfalso|lia]. assert (t a < t c) by (apply (arc_up _ _ _ _ A'); lia). lra.
          -- apply (IH c b i m d A); try lia; auto. destruct RC as [K|K]; [lia|exfalso]. assert (t c < t (a + n)%Z) by (apply (arc_up _ _ _ _ A); lia). rewrite (a_per _ _ _ _ A) in H. lra.
      + rewrite snd_ret. lia.
    - destruct (Rltb_spec (t (a + 1)%Z) (t a)) as [DA|DA]; cbn [negb orb].
      + assert (RA : (i <= a)%Z) by (destruct (Z_lt_le_dec a i) as [L|L]; [specialize (UP1 a ltac:(lia)); lra|lia]).
        assert (RC : (a < c < m \/ i + n <= c)%Z).
        { destruct CASES as [K|[K|[K|K]]]; [lia|left; lia| |right; lia]. specialize (UP2 c ltac:(lia)). lra. }
        destruct (Rltb_spec (t a) (t c)) as [AC|AC]; cbn [negb].
        * apply (IH a c i m d A); try lia; auto. destruct RC as [K|K]; [exfalso|lia]. assert (t c <= t a) by (apply (arc_down _ _ _ _ A); lia). lra.
        * apply (IH c b i m d A); try lia; auto. destruct RC as [K|K]; [lia|exfalso].
          assert (t (c + 1)%Z <= t c) by (apply DN3; lia). assert (t (a + n)%Z < t (c + 1)%Z) by (apply (arc_strict _ _ _ _ A2); lia). rewrite (a_per _ _ _ _ A) in H0. lra.
      + assert (RA : (a <= i)%Z) by (destruct (Z_lt_le_dec i a) as [L|L]; [specialize (SD a ltac:(lia)); lra|lia]).
        apply (IH c b i m d A); try lia; auto. destruct CASES as [K|[K|[K|K]]]; try lia. specialize (UP2 c ltac:(lia)). lra.
  Qed.
End Search.

Section Methods.
  Variables (s : R) (vs : list pt) (p d : pt).
  Hypothesis SC : strictly_convex s vs.
  Hypothesis FR : forall v, In v vs -> front d p v.
  Let n := Z.of_nat (length vs).
  Notation V := (vat vs).
  Notation t := (tat vs p d).
  Let H3' : (3 <= length vs)%nat. Proof. apply SC. Qed.
  Let Hn : (1 <= length vs)%nat. Proof. lia. Qed.
  Let H3 : (3 <= n)%Z. Proof. unfold n. lia. Qed.
  Let HV : forall k, (- n <= k < n)%Z -> py_get vs k = Ok (V k). Proof. intros. apply vat_get; auto. Qed.
  Let Hpos : forall i j, 0 < orient p (V i) (V j) <-> t i < t j. Proof. intros. apply (t_pos s vs p d SC FR). Qed.
  Let Hneg : forall i j, orient p (V i) (V j) < 0 <-> t j < t i. Proof. intros. apply (t_neg s vs p d SC FR). Qed.
  Let lg := S (Nat.log2 (length vs)).
  Let LG : (n - 1 - -1 <= 2 ^ Z.of_nat lg)%Z.
  Proof. pose proof (Nat.log2_spec (length vs) ltac:(lia)) as [_ H]. fold lg in H. apply inj_lt in H. rewrite Nat2Z.inj_pow in H. fold n in H. change (Z.of_nat 2) with 2%Z in H. lia. Qed.
  Lemma left_i_log : (snd (left_tan_i_convex_c vs p) <= lg)%nat.
  Proof.
    destruct (convex_arcs s vs p d SC FR) as (i0 & m0 & A0). fold n in A0. destruct (norm_into _ _ _ _ A0 i0 (-1)) as (z & Hz). pose proof (arcs_shift _ _ _ _ A0 z) as A.
    set (i := (i0 + z * n)%Z) in *. set (m := (m0 + z * n)%Z) in *. clearbody i m.
    unfold left_tan_i_convex_c. rewrite !HV by lia. rewrite !rbind_ok, (below_R p t V Hneg), (above_R p t V Hpos).
    pose proof (a_im _ _ _ _ A) as IM.
    destruct (Rltb_spec (t (-1)%Z) (t 0%Z)) as [D|D]; cbn [negb andb].
    - apply (left_loop_log vs p t V HV Hpos Hneg H3' (length vs) (-1)%Z (n - 1)%Z i m lg A); try lia.
      destruct (Z.eq_dec i (-1)) as [E|]; [|lia]. pose proof (a_down _ _ _ _ A i ltac:(lia)) as K. rewrite E in K. replace (-1 + 1)%Z with 0%Z in K by lia. lra.
    - destruct (Rltb_spec (t (-2)%Z) (t (-1)%Z)) as [U|U].
      + rewrite snd_ret. lia.
      + apply (left_loop_log vs p t V HV Hpos Hneg H3' (length vs) (-1)%Z (n - 1)%Z i m lg A); try lia.
        destruct (Z.eq_dec i (-1)) as [E|]; [|lia]. pose proof (a_up _ _ _ _ A (i + n - 1)%Z ltac:(lia)) as K. replace (i + n - 1 + 1)%Z with (i + n)%Z in K by lia.
        replace (i + n - 1)%Z with (i - 1 + n)%Z in K by lia. rewrite !(a_per _ _ _ _ A), E in K. replace (-1 - 1)%Z with (-2)%Z in K by lia. lra.
  Qed.
  Lemma right_i_log : (forall k, t k <> t (k + 1)%Z) -> (snd (right_tan_i_convex_c vs p) <= lg)%nat.
  Proof.
    intro OFF. destruct (convex_arcs s vs p d SC FR) as (i0 & m0 & A0). fold n in A0. destruct (norm_into _ _ _ _ A0 m0 (-1)) as (z & Hz). pose proof (arcs_shift _ _ _ _ A0 z) as A.
    set (i := (i0 + z * n)%Z) in *. set (m := (m0 + z * n)%Z) in *. clearbody i m.
    pose proof (a_im _ _ _ _ A) as IM.
    assert (DM : t m < t (m - 1)%Z). { pose proof (a_down _ _ _ _ A (m - 1)%Z ltac:(lia)) as K. pose proof (OFF (m - 1)%Z). replace (m - 1 + 1)%Z with m in * by lia. lra. }
    unfold right_tan_i_convex_c. rewrite !HV by lia. rewrite !rbind_ok, (below_R p t V Hneg), (above_R p t V Hpos).
    destruct (Rltb_spec (t (-1)%Z) (t 0%Z)) as [D|D]; cbn [negb andb].
    - destruct (Rltb_spec (t (-2)%Z) (t (-1)%Z)) as [U|U]; cbn [negb].
      + apply (right_loop_log vs p t V HV Hpos Hneg H3' (length vs) (-1)%Z (n - 1)%Z i m lg A); auto; try lia.
        destruct (Z.eq_dec m (-1)) as [E|]; [|lia]. rewrite E in DM. replace (-1 - 1)%Z with (-2)%Z in DM by lia. lra.
      + rewrite snd_ret. lia.
    - apply (right_loop_log vs p t V HV Hpos Hneg H3' (length vs) (-1)%Z (n - 1)%Z i m lg A); auto; try lia.
      destruct (Z.eq_dec m (-1)) as [E|]; [|lia]. pose proof (a_up _ _ _ _ A m ltac:(lia)) as K. rewrite E in K. replace (-1 + 1)%Z with 0%Z in K by lia. lra.
  Qed.
End Methods.
