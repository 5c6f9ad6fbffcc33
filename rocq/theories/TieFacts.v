(** * The search for the right tangent when two vertices are on the tangent *)
From Coq Require Import ZArith List Bool Reals Lra Lia Psatz.
From Verif Require Import Num Vec Seq Polygon Tangent SpecGeom SpecTangent SpecTie RBase VecFacts2 PolyCache PolyCache2 ConvexFacts4 CentroidFacts TangentFacts TangentFacts2 TangentFacts3 TangentFacts4 Cost CostFacts CostFacts2 CostFacts4.
Import ListNotations.
Local Open Scope R_scope.

Section Search.
  Variables (vs : list pt) (p : pt) (t : Z -> R) (V : Z -> pt).
  Let n := Z.of_nat (length vs).
  Hypothesis HV : forall k, (- n <= k < n)%Z -> py_get vs k = Ok (V k).
  Hypothesis Hpos : forall i j, 0 < orient p (V i) (V j) <-> t i < t j.
  Hypothesis Hneg : forall i j, orient p (V i) (V j) < 0 <-> t j < t i.
  Hypothesis Hn : (3 <= length vs)%nat.

  (** Past the lowest vertex the search never turns back. *)
  Lemma right_loop_stray : forall limit a b i m, arcs t n i m -> (0 <= m < a)%Z -> (a < b <= n - 1)%Z ->
    snd (right_tan_loop_c vs p limit a b) = limit /\ exists x, fst (right_tan_loop_c vs p limit a b) = Ok x /\ (m < x < b)%Z.
  Proof.
    induction limit as [|limit IH]; intros a b i m A Ha Hb; [split; [reflexivity|]; exists a; split; [reflexivity|lia]|]. cbn [right_tan_loop_c]. cbv zeta. set (c := ((a + b) / 2)%Z).
    assert (Hc : (a <= c < b)%Z) by (unfold c; pose proof (Z.div_mod (a + b) 2 ltac:(lia)); pose proof (Z.mod_pos_bound (a + b) 2 ltac:(lia)); lia). clearbody c.
    assert (NX : snd (right_tan_loop_c vs p limit c b) = limit /\ exists x, fst (right_tan_loop_c vs p limit c b) = Ok x /\ (m < x < b)%Z) by (apply (IH c b i m A); lia).
    rewrite snd_tick, fst_tick. rewrite !HV by lia. rewrite !rbind_ok, !(below_R p t V Hneg), !(above_R p t V Hpos).
    pose proof (a_im _ _ _ _ A) as IM.
    pose proof (arcs_shift _ _ _ _ A 1) as A2. replace (i + 1 * n)%Z with (i + n)%Z in A2 by lia. replace (m + 1 * n)%Z with (m + n)%Z in A2 by lia.
    assert (UP2 := a_up _ _ _ _ A). assert (DN3 := a_down _ _ _ _ A2).
    destruct (Rltb_spec (t c) (t (c + 1)%Z)) as [DC|DC]; cbn [negb]; rewrite !rbind_ok.
    - assert (RC : (c < i + n)%Z) by (destruct (Z_lt_le_dec c (i + n)) as [L|L]; [auto|specialize (DN3 c ltac:(lia)); lra]).
      pose proof (UP2 (c - 1)%Z ltac:(lia)) as K. replace (c - 1 + 1)%Z with c in K by lia. destruct (Rltb_spec (t (c - 1)%Z) (t c)) as [FC|FC]; [|lra]. cbn [negb].
      destruct (Rltb_spec (t (a + 1)%Z) (t a)) as [DA|DA]; [specialize (UP2 a ltac:(lia)); lra|]. cbn [orb negb].
      destruct (Rltb_spec (t c) (t a)) as [CA|CA]; cbn [negb]; [|destruct NX; split; [lia|auto]].
      destruct (Z.eq_dec a c) as [->|NE]; [lra|]. assert (t a < t c) by (apply (arc_up _ _ _ _ A); lia). lra.
    - destruct (Rltb_spec (t (a + 1)%Z) (t a)) as [DA|DA]; cbn [orb negb]; [|destruct NX; split; [lia|auto]].
      assert (RA : (i + n <= a)%Z) by (destruct (Z_lt_le_dec a (i + n)) as [L|L]; [specialize (UP2 a ltac:(lia)); lra|auto]).
      destruct (Rltb_spec (t a) (t c)) as [AC|AC]; cbn [negb]; [|destruct NX; split; [lia|auto]].
      assert (t c <= t a) by (apply (arc_down _ _ _ _ A2); lia). lra.
  Qed.
  (** From the first of two lowest vertices, the search strays unless the next
      position it looks at is the second. *)
  Lemma right_loop_first : forall limit b i m, arcs t n i m -> t (m - 1)%Z = t m -> (0 <= m < b)%Z -> (b <= n - 1)%Z ->
    let r := right_tan_loop_c vs p (S limit) (m - 1) b in
    if (b <=? m + 2)%Z then fst r = Ok m /\ snd r = 1%nat else snd r = S limit /\ exists x, fst r = Ok x /\ (m < x < b)%Z.
  Proof.
    intros limit b i m A TM Hm Hb r. unfold r. clear r. cbn [right_tan_loop_c]. cbv zeta. set (c := ((m - 1 + b) / 2)%Z).
    assert (Hc : (m <= c < b)%Z /\ ((b <= m + 2)%Z -> c = m) /\ ((m + 2 < b)%Z -> (m < c)%Z)) by (unfold c; pose proof (Z.div_mod (m - 1 + b) 2 ltac:(lia)); pose proof (Z.mod_pos_bound (m - 1 + b) 2 ltac:(lia)); lia). clearbody c. destruct Hc as (Hc & C1 & C2).
    rewrite snd_tick, fst_tick. rewrite !HV by lia. rewrite !rbind_ok, !(below_R p t V Hneg), !(above_R p t V Hpos).
    pose proof (a_im _ _ _ _ A) as IM.
    pose proof (arcs_shift _ _ _ _ A 1) as A2. replace (i + 1 * n)%Z with (i + n)%Z in A2 by lia. replace (m + 1 * n)%Z with (m + n)%Z in A2 by lia.
    assert (UP2 := a_up _ _ _ _ A). assert (DN3 := a_down _ _ _ _ A2).
    destruct (Z.leb_spec b (m + 2)) as [L|L].
    - specialize (C1 L). subst c. pose proof (UP2 m ltac:(lia)). destruct (Rltb_spec (t m) (t (m + 1)%Z)) as [DC|DC]; [|lra]. rewrite !rbind_ok. rewrite TM. destruct (Rltb_spec (t m) (t m)); [lra|]. cbn [negb]. split; reflexivity.
    - specialize (C2 L). destruct (right_loop_stray limit c b i m A ltac:(lia) ltac:(lia)) as (NX1 & NX2). replace (m - 1 + 1)%Z with m by lia. rewrite TM.
      destruct (Rltb_spec (t c) (t (c + 1)%Z)) as [DC|DC]; cbn [negb]; rewrite !rbind_ok.
      + assert (RC : (c < i + n)%Z) by (destruct (Z_lt_le_dec c (i + n)) as [L'|L']; [auto|specialize (DN3 c ltac:(lia)); lra]).
        pose proof (UP2 (c - 1)%Z ltac:(lia)) as K. replace (c - 1 + 1)%Z with c in K by lia. destruct (Rltb_spec (t (c - 1)%Z) (t c)) as [FC|FC]; [|lra]. cbn [negb].
        destruct (Rltb_spec (t m) (t m)) as [DA|DA]; [lra|]. cbn [orb negb]. destruct (Rltb_spec (t c) (t m)) as [CA|CA]; cbn [negb]; [pose proof (arc_min _ _ _ _ A c); lra|]. split; [lia|auto].
      + destruct (Rltb_spec (t m) (t m)) as [DA|DA]; [lra|]. cbn [orb negb]. split; [lia|auto].
  Qed.
  Lemma right_loop_tie : forall limit a b i m d, arcs t n i m -> t (m - 1)%Z = t m -> (-1 <= a)%Z -> (b <= n - 1)%Z -> (a < m - 1)%Z -> (m < b)%Z -> (b - a <= Z.of_nat limit)%Z -> (b - a <= 2 ^ Z.of_nat d)%Z ->
    let r := right_tan_loop_c vs p limit a b in
    if halving_meets limit a b m then fst r = Ok m /\ (snd r <= d)%nat else snd r = limit /\ exists x, fst r = Ok x /\ (m < x < b)%Z.
  Proof.
    induction limit as [|limit IH]; intros a b i m d A TM Ha Hb Ham Hmb Hl Hd r; [lia|]. unfold r. clear r. destruct d as [|d]; [cbn in Hd; lia|]. cbn [right_tan_loop_c halving_meets]. cbv zeta. set (c := ((a + b) / 2)%Z).
    assert (N3 : (3 <= n)%Z) by (unfold n; lia).
    assert (Hc : (a < c < b)%Z) by (unfold c; pose proof (Z.div_mod (a + b) 2 ltac:(lia)); pose proof (Z.mod_pos_bound (a + b) 2 ltac:(lia)); lia).
    assert (Hc2 : (c <= a + n - 2)%Z) by (assert (c < a + n - 1)%Z by (unfold c; apply Z.div_lt_upper_bound; lia); lia).
    assert (Hd2 : (c - a <= 2 ^ Z.of_nat d /\ b - c <= 2 ^ Z.of_nat d)%Z) by (rewrite Nat2Z.inj_succ, Z.pow_succ_r in Hd by lia; unfold c; pose proof (Z.div_mod (a + b) 2 ltac:(lia)); pose proof (Z.mod_pos_bound (a + b) 2 ltac:(lia)); lia). clearbody c. rewrite snd_tick, fst_tick. clear Hd.
    pose proof (a_im _ _ _ _ A) as IM. pose proof (arcs_shift _ _ _ _ A (-1)) as A'. replace (i + -1 * n)%Z with (i - n)%Z in A' by lia. replace (m + -1 * n)%Z with (m - n)%Z in A' by lia.
    pose proof (arcs_shift _ _ _ _ A 1) as A2. replace (i + 1 * n)%Z with (i + n)%Z in A2 by lia. replace (m + 1 * n)%Z with (m + n)%Z in A2 by lia.
    assert (UP1 : forall k, (m - n <= k < i)%Z -> t k < t (k + 1)%Z) by (intros k Hk; apply (a_up _ _ _ _ A'); lia).
    assert (UP2 := a_up _ _ _ _ A). assert (DN2 := a_down _ _ _ _ A). assert (DN3 := a_down _ _ _ _ A2). assert (SD := a_strict _ _ _ _ A).
    (* what the next range must be *)
    assert (GO : forall x : res Z * nat, (c <> m)%Z -> x = (if (c <? m)%Z then right_tan_loop_c vs p limit c b else right_tan_loop_c vs p limit a c) ->
      if (if (c =? m)%Z then true else if (c =? m - 1)%Z then (b <=? m + 2)%Z else if (c <? m)%Z then halving_meets limit c b m else halving_meets limit a c m)
      then fst x = Ok m /\ (1 + snd x <= S d)%nat else (1 + snd x)%nat = S limit /\ exists z, fst x = Ok z /\ (m < z < b)%Z).
    { intros x NC ->. destruct (Z.eqb_spec c m); [lia|]. destruct (Z.eqb_spec c (m - 1)) as [E|NE].
      - subst c. replace (m - 1 <? m)%Z with true by (symmetry; apply Z.ltb_lt; lia). destruct limit as [|limit']; [lia|]. pose proof (right_loop_first limit' b i m A TM ltac:(lia) ltac:(lia)) as K. cbv zeta in K.
        destruct (b <=? m + 2)%Z; destruct K as (K1 & K2); (split; [|]); auto; try lia. assert (1 <= d)%nat by (destruct d; [cbn in Hd2; lia|lia]). lia.
      - destruct (Z.ltb_spec c m) as [L|L].
        + pose proof (IH c b i m d A TM ltac:(lia) ltac:(lia) ltac:(lia) ltac:(lia) ltac:(lia) ltac:(lia)) as K. cbv zeta in K. destruct (halving_meets limit c b m); destruct K as (K1 & K2); split; auto; lia.
        + pose proof (IH a c i m d A TM ltac:(lia) ltac:(lia) ltac:(lia) ltac:(lia) ltac:(lia) ltac:(lia)) as K. cbv zeta in K. destruct (halving_meets limit a c m); destruct K as (K1 & K2); split; auto; try lia.
          destruct K2 as (z & K2 & K3). exists z. split; [auto|lia]. }
    assert (CASES : (c < i \/ i <= c < m \/ m <= c < i + n \/ i + n <= c)%Z) by lia.
    rewrite !HV by lia. rewrite !rbind_ok, !(below_R p t V Hneg), !(above_R p t V Hpos).
    destruct (Rltb_spec (t c) (t (c + 1)%Z)) as [DC|DC]; cbn [negb]; rewrite !rbind_ok.
    - destruct (Rltb_spec (t (c - 1)%Z) (t c)) as [FC|FC]; cbn [negb].
      + assert (NC : c <> m) by (intros ->; lra).
        assert (RC : (c < i \/ m < c < i + n)%Z).
        { destruct CASES as [K|[K|[K|K]]]; [left; lia| |right; lia|]. { specialize (DN2 c ltac:(lia)). lra. } specialize (DN3 c ltac:(lia)). lra. }
        destruct (Rltb_spec (t (a + 1)%Z) (t a)) as [DA|DA]; cbn [negb orb]; apply GO; auto.
        * assert (RA : (i <= a)%Z) by (destruct (Z_lt_le_dec a i) as [L|L]; [specialize (UP1 a ltac:(lia)); lra|lia]).
          destruct (Z.ltb_spec c m); [lia|reflexivity].
        * assert (RA : (a <= i)%Z) by (destruct (Z_lt_le_dec i a) as [L|L]; [specialize (SD a ltac:(lia) ltac:(lia)); lra|lia]).
          destruct (Rltb_spec (t c) (t a)) as [CA|CA]; cbn [negb]; destruct (Z.ltb_spec c m); auto.
          -- assert (t a < t c) by (apply (arc_up _ _ _ _ A'); lia). lra.
          -- assert (t c < t (a + n)%Z) as L by (apply (arc_up _ _ _ _ A); lia). rewrite (a_per _ _ _ _ A) in L. lra.
      + assert (c = m) as ->.
        { destruct CASES as [K|[K|[K|K]]].
          * specialize (UP1 (c - 1)%Z ltac:(lia)). replace (c - 1 + 1)%Z with c in UP1 by lia. lra.
          * specialize (DN2 c ltac:(lia)). lra.
          * destruct (Z.eq_dec c m) as [|NC]; auto. specialize (UP2 (c - 1)%Z ltac:(lia)). replace (c - 1 + 1)%Z with c in UP2 by lia. lra.
          * specialize (DN3 c ltac:(lia)). lra. }
        rewrite Z.eqb_refl. split; [reflexivity|rewrite snd_ret; lia].
    - assert (NC : c <> m) by (intros ->; specialize (UP2 m ltac:(lia)); lra).
      assert (RC : (c < m \/ i + n <= c)%Z) by (destruct CASES as [K|[K|[K|K]]]; [lia|left; lia|specialize (UP2 c ltac:(lia)); lra|right; lia]).
      destruct (Rltb_spec (t (a + 1)%Z) (t a)) as [DA|DA]; cbn [negb orb]; apply GO; auto.
      + assert (RA : (i <= a)%Z) by (destruct (Z_lt_le_dec a i) as [L|L]; [specialize (UP1 a ltac:(lia)); lra|lia]).
        destruct (Rltb_spec (t a) (t c)) as [AC|AC]; cbn [negb]; destruct (Z.ltb_spec c m); auto.
        * assert (t c <= t a) by (apply (arc_down _ _ _ _ A); lia). lra.
        * assert (t (c + 1)%Z <= t c) by (apply DN3; lia). assert (t (a + n)%Z < t (c + 1)%Z) as L by (apply (arc_strict _ _ _ _ A2); lia). rewrite (a_per _ _ _ _ A) in L. lra.
      + assert (RA : (a <= i)%Z) by (destruct (Z_lt_le_dec i a) as [L|L]; [specialize (SD a ltac:(lia) ltac:(lia)); lra|lia]).
        destruct (Z.ltb_spec c m); auto. lia.
  Qed.
End Search.

Section Methods.
  Variables (s : R) (vs : list pt) (p d : pt).
  Hypothesis SC : strictly_convex s vs.
  Hypothesis FR : forall v, In v vs -> front d p v.
  Let n := Z.of_nat (length vs).
  Notation V := (vat vs).
  Notation t := (tat vs p d).
  Let H3' : (3 <= length vs)%nat. Proof. apply SC. Qed.
  Let Hn : (1 <= length vs)%nat. Proof. lia. Qed.
  Let H3 : (3 <= n)%Z. Proof. unfold n. lia. Qed.
  Let HV : forall k, (- n <= k < n)%Z -> py_get vs k = Ok (V k). Proof. intros. apply vat_get; auto. Qed.
  Let Hpos : forall i j, 0 < orient p (V i) (V j) <-> t i < t j. Proof. intros. apply (t_pos s vs p d SC FR). Qed.
  Let Hneg : forall i j, orient p (V i) (V j) < 0 <-> t j < t i. Proof. intros. apply (t_neg s vs p d SC FR). Qed.
  Let lg := S (Nat.log2 (length vs)).
  Let LG : (n - 1 - -1 <= 2 ^ Z.of_nat lg)%Z.
  Proof. pose proof (Nat.log2_spec (length vs) ltac:(lia)) as [_ H]. fold lg in H. apply inj_lt in H. rewrite Nat2Z.inj_pow in H. fold n in H. change (Z.of_nat 2) with 2%Z in H. lia. Qed.

  Lemma support_min m : right_support vs p (V m) <-> forall k, t m <= t k.
  Proof.
    split.
    - intros (_ & H) k. specialize (H (V k) (vat_in vs Hn k)). apply Rnot_lt_le. intro C. apply Hneg in C. lra.
    - intro H. split; [apply vat_in; auto|]. intros v Hv. destruct (vat_onto vs ltac:(lia) v Hv) as (k & _ & ->). apply (t_ge s vs p d SC FR). apply H.
  Qed.
  Lemma norm_arcs : exists i m, arcs t n i m /\ (-1 <= m <= n - 2)%Z.
  Proof.
    destruct (convex_arcs s vs p d SC FR) as (i0 & m0 & A0). fold n in A0. destruct (norm_into _ _ _ _ A0 m0 (-1)) as (z & Hz). exists (i0 + z * n)%Z, (m0 + z * n)%Z. split; [apply (arcs_shift _ _ _ _ A0 z)|lia].
  Qed.
  Lemma alone_strict i m : arcs t n i m -> right_alone vs p -> t m < t (m - 1)%Z.
  Proof.
    intros A AL. pose proof (arc_min _ _ _ _ A (m - 1)%Z) as K. destruct (Req_dec (t m) (t (m - 1)%Z)) as [E|NE]; [|lra]. exfalso.
    apply (v_near s vs SC m (m - 1)%Z); [fold n; lia|]. apply AL; apply support_min; [apply (arc_min _ _ _ _ A)|]. rewrite <- E. apply (arc_min _ _ _ _ A).
  Qed.
  Lemma right_i_alone : right_alone vs p -> exists m, fst (right_tan_i_convex_c vs p) = Ok m /\ (-1 <= m <= n - 2)%Z /\ (forall k, t m <= t k) /\ (snd (right_tan_i_convex_c vs p) <= lg)%nat.
  Proof.
    intro AL. destruct norm_arcs as (i & m & A & Hz). exists m. pose proof (alone_strict i m A AL) as DM. pose proof (a_im _ _ _ _ A) as IM. split; [|split; [lia|split; [apply (arc_min _ _ _ _ A)|]]].
    - rewrite right_i_erase. unfold right_tan_i_convex. rewrite !HV by lia. cbn [bind]. rewrite (below_R p t V Hneg), (above_R p t V Hpos).
      destruct (Rltb_spec (t (-1)%Z) (t 0%Z)) as [D|D]; cbn [negb andb].
      + destruct (Rltb_spec (t (-2)%Z) (t (-1)%Z)) as [U|U]; cbn [negb].
        * apply (right_loop_finds vs p t V HV Hpos Hneg H3' (length vs) (-1)%Z (n - 1)%Z i m A); auto; try lia.
          destruct (Z.eq_dec m (-1)) as [E|]; [|lia]. rewrite E in DM. replace (-1 - 1)%Z with (-2)%Z in DM by lia. lra.
        * f_equal. apply (only_bottom _ _ _ _ A); [lia|exact D|exact U].
      + apply (right_loop_finds vs p t V HV Hpos Hneg H3' (length vs) (-1)%Z (n - 1)%Z i m A); auto; try lia.
        destruct (Z.eq_dec m (-1)) as [E|]; [|lia]. pose proof (a_up _ _ _ _ A m ltac:(lia)) as K. rewrite E in K. replace (-1 + 1)%Z with 0%Z in K by lia. lra.
    - unfold right_tan_i_convex_c. rewrite !HV by lia. rewrite !rbind_ok, (below_R p t V Hneg), (above_R p t V Hpos).
      destruct (Rltb_spec (t (-1)%Z) (t 0%Z)) as [D|D]; cbn [negb andb].
      + destruct (Rltb_spec (t (-2)%Z) (t (-1)%Z)) as [U|U]; cbn [negb].
        * apply (right_loop_log vs p t V HV Hpos Hneg H3' (length vs) (-1)%Z (n - 1)%Z i m lg A); auto; try lia.
          destruct (Z.eq_dec m (-1)) as [E|]; [|lia]. rewrite E in DM. replace (-1 - 1)%Z with (-2)%Z in DM by lia. lra.
        * rewrite snd_ret. lia.
      + apply (right_loop_log vs p t V HV Hpos Hneg H3' (length vs) (-1)%Z (n - 1)%Z i m lg A); auto; try lia.
        destruct (Z.eq_dec m (-1)) as [E|]; [|lia]. pose proof (a_up _ _ _ _ A m ltac:(lia)) as K. rewrite E in K. replace (-1 + 1)%Z with 0%Z in K by lia. lra.
  Qed.
  (** Two vertices on the right tangent are m - 1 and m. *)
  Lemma tie_place i m k : arcs t n i m -> (forall j, t k <= t j) -> t (k - 1)%Z = t k -> exists z, k = (m + z * n)%Z.
  Proof.
    intros A MN TE. pose proof (a_im _ _ _ _ A) as IM. destruct (norm_into _ _ _ _ A (k - 1)%Z i) as (z & Hz). set (k0 := (k - 1 + z * n)%Z) in *.
    assert (E0 : t k0 = t k) by (unfold k0; rewrite (per_mul _ _ _ _ A); exact TE). assert (E1 : t (k0 + 1)%Z = t k) by (unfold k0; replace (k - 1 + z * n + 1)%Z with (k + z * n)%Z by lia; apply (per_mul _ _ _ _ A)).
    destruct (Z_lt_le_dec k0 m) as [L|L]; [|pose proof (a_up _ _ _ _ A k0 ltac:(lia)); lra].
    destruct (Z.eq_dec (k0 + 1) m) as [E|NE]; [exists (- z)%Z; unfold k0 in E; lia|].
    destruct (Z.eq_dec k0 i) as [E|NI].
    - exfalso. pose proof (arc_max _ _ _ _ A (m + 1)%Z). pose proof (a_up _ _ _ _ A m ltac:(lia)). pose proof (MN m). rewrite E in E0. lra.
    - pose proof (a_strict _ _ _ _ A k0 ltac:(lia) ltac:(lia)). lra.
  Qed.
  Lemma right_i_tie m : (-1 <= m <= n - 2)%Z -> (forall j, t m <= t j) -> t (m - 1)%Z = t m -> (4 <= n)%Z ->
    let r := right_tan_i_convex_c vs p in
    if ((m =? -1) || negb (m =? 0) && halving_meets (length vs) (-1) (n - 1) m)%Z
    then fst r = Ok m /\ (snd r <= lg)%nat else snd r = length vs /\ exists x, fst r = Ok x /\ (- n <= x < n)%Z /\ t m < t x.
  Proof.
    intros Hz MN TE H4 r. destruct norm_arcs as (i0 & m0 & A0 & Hm0). destruct (tie_place i0 m0 m A0 MN TE) as (z & Ez). assert (Z0 : z = 0%Z) by nia. rewrite Z0 in Ez.
    replace (m0 + 0 * n)%Z with m0 in Ez by lia. subst m0 z. set (i := i0) in *. clearbody i. clear i0. pose proof (a_im _ _ _ _ A0) as IM. unfold r. clear r.
    assert (BIG : forall x, (m < x < n - 1)%Z -> (0 <= m)%Z -> t m < t x).
    { intros x Hx Hm. destruct (Rlt_dec (t m) (t x)) as [L|L]; auto. exfalso. pose proof (MN x). pose proof (arcs_shift _ _ _ _ A0 1) as A2. replace (i + 1 * n)%Z with (i + n)%Z in A2 by lia. replace (m + 1 * n)%Z with (m + n)%Z in A2 by lia.
      destruct (Z_le_dec x (i + n)) as [K|K]; [pose proof (arc_up _ _ _ _ A0 m x ltac:(lia) ltac:(lia)); lra|].
      pose proof (arc_strict _ _ _ _ A2 x (m + n - 1)%Z ltac:(lia) ltac:(lia)) as Q. replace (m + n - 1)%Z with (m - 1 + n)%Z in Q by lia. rewrite (a_per _ _ _ _ A0), TE in Q. lra. }
    assert (UPm : t m < t (m + 1)%Z) by (apply (a_up _ _ _ _ A0); lia).
    unfold right_tan_i_convex_c. rewrite !HV by lia. rewrite !rbind_ok, (below_R p t V Hneg), (above_R p t V Hpos).
    destruct (Z.eqb_spec m (-1)) as [E|N1]; cbn [orb].
    - subst m. replace (-1 + 1)%Z with 0%Z in UPm by lia. replace (-1 - 1)%Z with (-2)%Z in TE by lia. destruct (Rltb_spec (t (-1)%Z) (t 0%Z)); [|lra]. destruct (Rltb_spec (t (-2)%Z) (t (-1)%Z)); [lra|]. cbn [negb andb]. split; [reflexivity|rewrite snd_ret; lia].
    - assert (EC : (Rltb (t (-1)%Z) (t 0%Z) && negb (Rltb (t (-2)%Z) (t (-1)%Z)))%bool = false).
      { destruct (Rltb_spec (t (-1)%Z) (t 0%Z)) as [D|D]; [|reflexivity]. destruct (Rltb_spec (t (-2)%Z) (t (-1)%Z)) as [U|U]; [reflexivity|]. exfalso. apply N1. symmetry. apply (only_bottom _ _ _ _ A0); [lia|exact D|exact U]. }
      rewrite EC. destruct (Z.eqb_spec m 0) as [E|N0]; cbn [negb andb].
      + subst m. assert (EL : length vs = S (length vs - 1)) by lia. fold n. pose proof (right_loop_first vs p t V HV Hpos Hneg H3' (length vs - 1)%nat (n - 1)%Z i 0%Z A0 TE ltac:(lia) ltac:(fold n; lia)) as K. replace (S (length vs - 1))%nat with (length vs) in K by lia. cbv zeta in K.
        change (0 - 1)%Z with (-1)%Z in K. destruct (Z.leb_spec (n - 1) (0 + 2)) as [Q|Q]; [exfalso|destruct K as (K1 & x & K2 & K3); split; [exact K1|]; exists x; split; [exact K2|]; split; [lia|apply BIG; lia]].
        lia.
      + pose proof (right_loop_tie vs p t V HV Hpos Hneg H3' (length vs) (-1)%Z (n - 1)%Z i m lg A0 TE) as K. fold n in K. cbv zeta in K. specialize (K ltac:(lia) ltac:(lia)).
        destruct (Z.eq_dec m 0); [lia|]. specialize (K ltac:(lia) ltac:(lia) ltac:(lia) ltac:(lia)).
        destruct (halving_meets (length vs) (-1) (n - 1) m); [exact K|]. destruct K as (K1 & x & K2 & K3). split; [exact K1|]. exists x. split; [exact K2|]. split; [lia|apply BIG; lia].
  Qed.
End Methods.
