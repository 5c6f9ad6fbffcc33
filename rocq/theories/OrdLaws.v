(** * Laws of comparison shared by the reals and the non-NaN floats *)
From Coq Require Import ZArith List Bool Reals Lra Lia Floats SpecFloat.
From Flocq Require Import IEEE754.PrimFloat IEEE754.BinarySingleNaN.
From Verif Require Import Num NumFloat.

(** [D] is the set of ordinary numbers (everything but NaN). *)
Record OrdLaws (T : Type) (N : Num T) (D : T -> Prop) : Prop := {
  ol_mul1 : forall x : T, (x * n1)%num = x;
  ol_le_not_lt : forall x y, D x -> D y -> (x <=? y)%num = negb (y <? x)%num;
  ol_irrefl : forall x, (x <? x)%num = false;
  ol_trans : forall x y z, D x -> D y -> D z -> (x <? y)%num = true -> (y <? z)%num = true -> (x <? z)%num = true;
  ol_total : forall x y z, D x -> D y -> D z -> (x <? y)%num = false -> (y <? z)%num = false -> (x <? z)%num = false;
  ol_eq : forall x y, D x -> D y -> (x =? y)%num = negb (x <? y)%num && negb (y <? x)%num
}.

Lemma R_ordlaws : OrdLaws R RNum (fun _ => True).
Proof.
  split; cbn; unfold n1; cbn; intros; rbool.
  - ring.
  - destruct (Rleb_spec x y), (Rltb_spec y x); cbn; auto; lra.
  - lra.
  - lra.
  - lra.
  - destruct (Reqb_spec x y), (Rltb_spec x y), (Rltb_spec y x); cbn; auto; try lra.
Qed.

(** ** Floats *)
Local Open Scope Z_scope.

(** Position of a number in the order, as a triple compared lexicographically. *)
Definition sf_key (x : spec_float) : Z * Z * Z :=
  match x with
  | S754_zero _ => (0, 0, 0)
  | S754_infinity false => (2, 0, 0)
  | S754_infinity true => (-2, 0, 0)
  | S754_nan => (0, 0, 0)
  | S754_finite false m e => (1, e, Zpos m)
  | S754_finite true m e => (-1, -e, Zneg m)
  end.
Definition key_lt (a b : Z * Z * Z) : Prop :=
  let '(a1, a2, a3) := a in let '(b1, b2, b3) := b in
  a1 < b1 \/ (a1 = b1 /\ (a2 < b2 \/ (a2 = b2 /\ a3 < b3))).

Lemma sf_ltb_key (x y : spec_float) : x <> S754_nan -> y <> S754_nan ->
  (SFltb x y = true <-> key_lt (sf_key x) (sf_key y)).
Proof.
  intros Hx Hy. unfold SFltb, key_lt.
  destruct x as [sx|sx| |sx mx ex], y as [sy|sy| |sy my ey]; try congruence;
    try (destruct sx); try (destruct sy); cbn; try (split; intros; [discriminate|lia]);
    try (split; intros; [lia|reflexivity]).
  - destruct (Z.compare_spec ex ey); cbn.
    + change (Pos.compare_cont Eq mx my) with (Pos.compare mx my).
      destruct (Pos.compare_spec mx my); cbn; split; intros; try discriminate; try reflexivity; lia.
    + split; intros; try discriminate; lia.
    + split; intros; try reflexivity; lia.
  - destruct (Z.compare_spec ex ey); cbn.
    + change (Pos.compare_cont Eq mx my) with (Pos.compare mx my).
      destruct (Pos.compare_spec mx my); cbn; split; intros; try discriminate; try reflexivity; lia.
    + split; intros; try reflexivity; lia.
    + split; intros; try discriminate; lia.
Qed.
Lemma sf_leb_key (x y : spec_float) : x <> S754_nan -> y <> S754_nan ->
  (SFleb x y = true <-> ~ key_lt (sf_key y) (sf_key x)).
Proof.
  intros Hx Hy. unfold SFleb, key_lt.
  destruct x as [sx|sx| |sx mx ex], y as [sy|sy| |sy my ey]; try congruence;
    try (destruct sx); try (destruct sy); cbn; try (split; intros; [discriminate|lia]);
    try (split; intros; [lia|reflexivity]).
  - destruct (Z.compare_spec ex ey); cbn.
    + change (Pos.compare_cont Eq mx my) with (Pos.compare mx my).
      destruct (Pos.compare_spec mx my); cbn; split; intros; try discriminate; try reflexivity; lia.
    + split; intros; try discriminate; lia.
    + split; intros; try reflexivity; lia.
  - destruct (Z.compare_spec ex ey); cbn.
    + change (Pos.compare_cont Eq mx my) with (Pos.compare mx my).
      destruct (Pos.compare_spec mx my); cbn; split; intros; try discriminate; try reflexivity; lia.
    + split; intros; try reflexivity; lia.
    + split; intros; try discriminate; lia.
Qed.
Lemma sf_eqb_key (x y : spec_float) : x <> S754_nan -> y <> S754_nan ->
  (SFeqb x y = true <-> ~ key_lt (sf_key x) (sf_key y) /\ ~ key_lt (sf_key y) (sf_key x)).
Proof.
  intros Hx Hy. unfold SFeqb, key_lt.
  destruct x as [sx|sx| |sx mx ex], y as [sy|sy| |sy my ey]; try congruence;
    try (destruct sx); try (destruct sy); cbn; try (split; intros; [discriminate|lia]);
    try (split; intros; [lia|reflexivity]).
  - destruct (Z.compare_spec ex ey); cbn.
    + change (Pos.compare_cont Eq mx my) with (Pos.compare mx my).
      destruct (Pos.compare_spec mx my); cbn; split; intros; try discriminate; try reflexivity; lia.
    + split; intros; try discriminate; lia.
    + split; intros; try discriminate; lia.
  - destruct (Z.compare_spec ex ey); cbn.
    + change (Pos.compare_cont Eq mx my) with (Pos.compare mx my).
      destruct (Pos.compare_spec mx my); cbn; split; intros; try discriminate; try reflexivity; lia.
    + split; intros; try discriminate; lia.
    + split; intros; try discriminate; lia.
Qed.

(** The ordinary floats: those equal to themselves. *)
Definition not_nan (x : float) : Prop := PrimFloat.eqb x x = true.
Lemma not_nan_sf (x : float) : not_nan x <-> Prim2SF x <> S754_nan.
Proof.
  unfold not_nan. rewrite FloatAxioms.eqb_spec. split.
  - intros H E. rewrite E in H. discriminate.
  - intro H. apply sf_eqb_key; auto. unfold key_lt. destruct (sf_key (Prim2SF x)) as [[a b] c]. lia.
Qed.

Definition fkey (x : float) : Z * Z * Z := sf_key (Prim2SF x).
Lemma fltb_key (x y : float) : not_nan x -> not_nan y -> (PrimFloat.ltb x y = true <-> key_lt (fkey x) (fkey y)).
Proof. rewrite !not_nan_sf, FloatAxioms.ltb_spec. apply sf_ltb_key. Qed.
Lemma fleb_key (x y : float) : not_nan x -> not_nan y -> (PrimFloat.leb x y = true <-> ~ key_lt (fkey y) (fkey x)).
Proof. rewrite !not_nan_sf, FloatAxioms.leb_spec. apply sf_leb_key. Qed.
Lemma feqb_key (x y : float) : not_nan x -> not_nan y ->
  (PrimFloat.eqb x y = true <-> ~ key_lt (fkey x) (fkey y) /\ ~ key_lt (fkey y) (fkey x)).
Proof. rewrite !not_nan_sf, FloatAxioms.eqb_spec. apply sf_eqb_key. Qed.

Lemma one_B2R : B2R (Prim2B 1%float) = 1%R /\ is_finite (Prim2B 1%float) = true /\ Bsign (Prim2B 1%float) = false.
Proof.
  change 1%float with PrimFloat.one. rewrite one_equiv, Prim2B_B2Prim.
  split; [apply Bone_correct|]. split; reflexivity.
Qed.

Lemma fmul1 (x : float) : (x * 1)%float = x.
Proof.
  apply Prim2B_inj. rewrite mul_equiv.
  set (one := Prim2B 1%float). pose proof one_B2R as (H1 & H2 & H3). fold one in H1, H2, H3.
  pose proof (Bmult_correct FloatOps.prec FloatOps.emax Hprec Hmax mode_NE (Prim2B x) one) as H.
  destruct (is_finite (Prim2B x)) eqn:Hf.
  - rewrite H1, Rmult_1_r in H.
    rewrite Generic_fmt.round_generic in H; [| apply Generic_fmt.valid_rnd_N | apply generic_format_B2R].
    rewrite Raux.Rlt_bool_true in H by apply abs_B2R_lt_emax.
    destruct H as (Ha & Hb & Hc). rewrite H2 in Hb. cbn [andb] in Hb.
    apply B2R_Bsign_inj; auto.
    rewrite Hc; [rewrite H3; apply xorb_false_r|].
    revert Hb. clear. generalize (@Bmult FloatOps.prec FloatOps.emax Hprec Hmax mode_NE (Prim2B x) one). intros b Hb.
    destruct b; auto; discriminate.
  - assert (Hone : exists s m e H, one = B754_finite s m e H).
    { destruct one; try discriminate; [cbn in H1; lra | eauto]. }
    destruct Hone as (s & m & e & Hb & Ho). rewrite Ho in *. cbn in H3. subst s.
    destruct (Prim2B x) as [| [|] | | ]; try discriminate; reflexivity.
Qed.

Lemma float_ordlaws (L : FloatLib) : OrdLaws float (FNum L) not_nan.
Proof.
  split; unfold n1; cbn.
  - exact fmul1.
  - intros x y Hx Hy. apply eq_true_iff_eq. rewrite negb_true_iff, <- not_true_iff_false.
    rewrite fleb_key, fltb_key by auto. tauto.
  - intro x. destruct (PrimFloat.ltb x x) eqn:H; auto. exfalso.
    rewrite FloatAxioms.ltb_spec in H.
    assert (Hn : not_nan x).
    { apply not_nan_sf. intro E. rewrite E in H. discriminate. }
    rewrite <- FloatAxioms.ltb_spec in H. apply fltb_key in H; auto.
    unfold key_lt in H. destruct (fkey x) as [[a b] c]. lia.
  - intros x y z Hx Hy Hz. rewrite !fltb_key by auto. unfold key_lt.
    destruct (fkey x) as [[a b] c], (fkey y) as [[a' b'] c'], (fkey z) as [[a'' b''] c'']. lia.
  - intros x y z Hx Hy Hz. rewrite <- !not_true_iff_false, !fltb_key by auto. unfold key_lt.
    destruct (fkey x) as [[a b] c], (fkey y) as [[a' b'] c'], (fkey z) as [[a'' b''] c'']. lia.
  - intros x y Hx Hy. apply eq_true_iff_eq. rewrite andb_true_iff, !negb_true_iff, <- !not_true_iff_false.
    rewrite feqb_key, !fltb_key by auto. tauto.
Qed.
