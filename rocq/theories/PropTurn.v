(** * Property C101: right angles are perfect on doubles *)
From Coq Require Import ZArith List Bool Reals Lra Lia Floats SpecFloat.
From Flocq Require Import Core IEEE754.PrimFloat IEEE754.BinarySingleNaN.
From Verif Require Import Num NumFloat Vec Affine OrdLaws FloatFacts FloatFacts2 FloatFacts3 SpecExact RelPoly FloatExact FloatVec IntExact.
Import ListNotations.

(** ** Spec *)
(** What is asked of [%], [radians], [cos] and [sin]: the remainder by 360 of
    a multiple of 90 is exact, and the angle 0 has cosine 1 and sine 0. *)
Record right_lib (L : FloatLib) : Prop := {
  rl_mod : forall (d : PrimFloat.float) (k : Z) (r : Z), finite d -> In r [0; 90; 180; 270]%Z -> toR d = IZR (360 * k + r) ->
    finite (fl_mod L d 360%float) /\ toR (fl_mod L d 360%float) = IZR r;
  rl_cos : forall z, PrimFloat.is_zero z = true -> fl_cos L (fl_radians L z) = 1%float;
  rl_sin : forall z, PrimFloat.is_zero z = true -> PrimFloat.is_zero (fl_sin L (fl_radians L z)) = true }.

(** The double [d] is a multiple of 90: [q] quarter turns besides full turns. *)
Definition right_angle (d : PrimFloat.float) (q : nat) : Prop :=
  finite d /\ (q < 4)%nat /\ exists k : Z, toR d = IZR (360 * k + 90 * Z.of_nat q).
(** [q] quarter turns, counter-clockwise: coordinates swapped and negated. *)
Definition turned (q : nat) (v : vec PrimFloat.float) : vec PrimFloat.float :=
  match q with
  | 0%nat => v
  | 1%nat => mkV (- vy v)%float (vx v)
  | 2%nat => mkV (- vx v)%float (- vy v)%float
  | _ => mkV (vy v) (- vx v)%float
  end.
Definition same_matrix (m n : affine PrimFloat.float) : Prop :=
  same_double (aa m) (aa n) /\ same_double (ab m) (ab n) /\ same_double (ac m) (ac n) /\
  same_double (ad m) (ad n) /\ same_double (ae m) (ae n) /\ same_double (af m) (af n).
(** cosine and sine of [q] quarter turns *)
Definition qcos (q : nat) : PrimFloat.float := nth q [1; 0; -1; 0]%float 0%float.
Definition qsin (q : nat) : PrimFloat.float := nth q [0; 1; 0; -1]%float 0%float.

(** ** Facts *)
Lemma cos_sin_right (L : FloatLib) d q : right_lib L -> right_angle d q ->
  exists s, cos_sin_deg (N := FNum L) d = (qcos q, s) /\ same_double s (qsin q) /\ (q <> 0%nat -> s = qsin q).
Proof.
  intros HL (Fd & Hq & k & Hk). unfold cos_sin_deg.
  set (r := (90 * Z.of_nat q)%Z) in *.
  assert (Hr : In r [0; 90; 180; 270]%Z) by (unfold r; destruct q as [|[|[|[|q]]]]; [cbn; auto.. | lia]).
  destruct (rl_mod L HL d k r Fd Hr Hk) as [Fm Vm].
  change (nmod (Num := FNum L) d (nlit 360)) with (fl_mod L d 360%float). set (m := fl_mod L d 360%float) in *. clearbody m.
  assert (Im : isint m r) by (split; auto).
  change (neqb (Num := FNum L) m (nlit 90)) with (PrimFloat.eqb m (float_of_Z 90)).
  change (neqb (Num := FNum L) m (nlit 180)) with (PrimFloat.eqb m (float_of_Z 180)).
  change (neqb (Num := FNum L) m (nlit 270)) with (PrimFloat.eqb m (float_of_Z 270)).
  assert (EQ : forall z, (Z.abs z <= 2 ^ 53)%Z -> PrimFloat.eqb m (float_of_Z z) = Z.eqb r z) by (intros z Hz; apply isint_eqb; [exact Im|apply isint_of_Z; auto]).
  rewrite !EQ by lia.
  destruct q as [|[|[|[|q]]]]; [| | | |lia]; cbn in r; subst r; cbn [Z.eqb Pos.eqb].
  - assert (Z : PrimFloat.is_zero m = true).
    { unfold PrimFloat.is_zero. change PrimFloat.zero with (float_of_Z 0). rewrite EQ by lia. reflexivity. }
    exists (fl_sin L (fl_radians L m)). change (ncos (Num := FNum L) (nradians m)) with (fl_cos L (fl_radians L m)). rewrite (rl_cos L HL m Z).
    split; [reflexivity|]. split; [right; split; [apply rl_sin; auto|reflexivity]|congruence].
  - exists 1%float. split; [reflexivity|]. split; [apply same_refl|reflexivity].
  - exists 0%float. split; [reflexivity|]. split; [apply same_refl|reflexivity].
  - exists (-1)%float. split; [reflexivity|]. split; [apply same_refl|reflexivity].
Qed.

(** sums of one product with a zero and one with plus or minus one *)
Lemma same_zero_l x z y : PrimFloat.is_zero z = true -> same_double x y -> same_double (z + x) y.
Proof. intros Hz H. eapply same_trans; [apply zero_fadd; auto|auto]. Qed.
Lemma same_zero_r x z y : PrimFloat.is_zero z = true -> same_double x y -> same_double (x + z) y.
Proof. intros Hz H. eapply same_trans; [apply fadd_zero; auto|auto]. Qed.
Lemma same_opp x y : same_double x y -> same_double (- x) (- y).
Proof. intros [-> | [H K]]; [apply same_refl|right; split; apply is_zero_opp; auto]. Qed.
Lemma same_is_zero s z : same_double s z -> PrimFloat.is_zero z = true -> PrimFloat.is_zero s = true.
Proof. intros [-> | [H K]]; auto. Qed.

(** [x * c - y * s] and [x * s + y * c] *)
Lemma turn_comb (q : nat) (x y s : PrimFloat.float) : (q < 4)%nat -> finite x -> finite y ->
  same_double s (qsin q) -> (q <> 0%nat -> s = qsin q) ->
  same_double (x * qcos q - y * s) (vx (turned q (mkV x y))) /\
  same_double (x * s + y * qcos q) (vy (turned q (mkV x y))).
Proof.
  intros Hq Fx Fy S1 S2. assert (Z0 : PrimFloat.is_zero 0 = true) by reflexivity.
  destruct q as [|[|[|[|q]]]]; [| | | |lia]; cbn [qcos qsin nth turned vx vy] in *.
  - assert (Zs : PrimFloat.is_zero s = true) by (eapply same_is_zero; eauto). rewrite !fmul1. split.
    + eapply same_trans; [apply fsub_zero, fmul_zero; auto|apply same_refl].
    + apply same_zero_l; [apply fmul_zero; auto|apply same_refl].
  - rewrite S2 by discriminate. rewrite !fmul1. split.
    + apply zero_fsub, fmul_zero; auto.
    + apply fadd_zero, fmul_zero; auto.
  - rewrite S2 by discriminate. rewrite !fmul_m1. split.
    + apply fsub_zero, fmul_zero; auto.
    + apply zero_fadd, fmul_zero; auto.
  - rewrite S2 by discriminate. rewrite !fmul_m1. split.
    + rewrite <- (fopp_opp y) at 2. apply zero_fsub, fmul_zero; auto.
    + apply fadd_zero, fmul_zero; auto.
Qed.

(** ** Vectors *)
(** [Vec2.rotated] by a multiple of 90 degrees swaps and negates coordinates,
    without rounding, for every finite vector. *)
Theorem C101_rotated : forall (L : FloatLib) (v : vec PrimFloat.float) (d : PrimFloat.float) (q : nat),
  right_lib L -> finite_vec v -> right_angle d q ->
  same_vec (rotated (N := FNum L) v d) (turned q v).
Proof.
  intros L [x y] d q HL [Fx Fy] Hd. destruct (cos_sin_right L d q HL Hd) as (s & E & S1 & S2).
  unfold rotated. rewrite E. destruct Hd as (_ & Hq & _). exact (turn_comb q x y s Hq Fx Fy S1 S2).
Qed.
Print Assumptions C101_rotated.

(** [Vec2.polar]: the axis vectors, with the length as given. *)
Theorem C101_polar : forall (L : FloatLib) (len d : PrimFloat.float) (q : nat),
  right_lib L -> finite len -> right_angle d q ->
  same_vec (vec_polar (N := FNum L) d len) (turned q (mkV len 0%float)).
Proof.
  intros L len d q HL Fl Hd. destruct (cos_sin_right L d q HL Hd) as (s & E & S1 & S2).
  unfold vec_polar. rewrite E. destruct Hd as (_ & Hq & _). unfold same_vec. cbn [vx vy].
  assert (C : forall a b : PrimFloat.float, (a * b)%float = (b * a)%float).
  { intros a b. apply Prim2SF_inj. rewrite !mul_spec. destruct (Prim2SF a) as [s1|s1| |s1 m1 e1], (Prim2SF b) as [s2|s2| |s2 m2 e2];
      unfold SF64mul, SFmul; rewrite ?(xorb_comm s1), ?(Pos.mul_comm m1), ?(Z.add_comm e1); reflexivity. }
  change (same_double (qcos q * len) (vx (turned q (mkV len 0%float))) /\ same_double (s * len) (vy (turned q (mkV len 0%float)))).
  rewrite (C (qcos q)), (C s).
  destruct q as [|[|[|[|q]]]]; [| | | |lia]; cbn [qcos qsin nth turned vx vy] in *.
  - rewrite fmul1. split; [apply same_refl|]. right. split; [apply fmul_zero; auto; eapply same_is_zero; eauto|reflexivity].
  - rewrite S2, fmul1 by discriminate. split; [right; split; [apply fmul_zero; auto|reflexivity]|apply same_refl].
  - rewrite S2, fmul_m1 by discriminate. split; [apply same_refl|right; split; [apply fmul_zero; auto|reflexivity]].
  - rewrite S2, fmul_m1 by discriminate. split; [right; split; [apply fmul_zero; auto|reflexivity]|apply same_refl].
Qed.
Print Assumptions C101_polar.

(** ** Transforms *)
Lemma zero_cases (s : PrimFloat.float) : PrimFloat.is_zero s = true -> s = 0%float \/ s = (-0)%float.
Proof.
  rewrite is_zero_B. intros [[|] H]; [right|left]; apply Prim2B_inj; rewrite H; reflexivity.
Qed.
Lemma rotation_right (L : FloatLib) d q : right_lib L -> right_angle d q ->
  exists s, arotation (N := FNum L) d None = mkA (qcos q) s 0%float (- s)%float (qcos q) 0%float /\
    (q = 0%nat /\ (s = 0%float \/ s = (-0)%float) \/ q <> 0%nat /\ s = qsin q).
Proof.
  intros HL Hd. destruct (cos_sin_right L d q HL Hd) as (s & E & S1 & S2). exists s. unfold arotation. rewrite E. split; [reflexivity|].
  destruct (Nat.eq_dec q 0) as [-> | Hq]; [left|right; auto]. split; auto. apply zero_cases. eapply same_is_zero; [exact S1|reflexivity].
Qed.
(** [s] is one of the four sines, the one of angle 0 with either sign. *)
Ltac four q Hq C :=
  destruct q as [|[|[|[|q]]]]; [| | | |lia];
  [destruct C as [[_ [-> | ->]]|[C _]]; [| |congruence] | destruct C as [[C _]|[_ ->]]; [discriminate C|]
   | destruct C as [[C _]|[_ ->]]; [discriminate C|] | destruct C as [[C _]|[_ ->]]; [discriminate C|]].

(** [Affine.rotation] by a multiple of 90 degrees is the exact matrix, of
    determinant exactly 1; it turns every finite point without rounding; all
    the predicates recognise it, whatever EPSILON; its inverse is the rotation
    by the opposite angle. *)
Theorem C101_rotation : forall (L : FloatLib) (E d : PrimFloat.float) (q : nat),
  right_lib L -> right_angle d q -> (0 <? E)%float = true -> let N := FNum L in
  let m := arotation d None in
  same_matrix m (mkA (qcos q) (qsin q) 0%float (- qsin q)%float (qcos q) 0%float) /\
  determinant m = 1%float /\
  (forall v, finite_vec v -> same_vec (aapply m v) (turned q v)) /\
  is_rectilinear E m = true /\ is_conformal E m = true /\ is_orthonormal E m = true /\
  ((E <=? 1)%float = true -> is_degenerate E m = false /\
     exists m', ainvert E m = Ok m' /\ same_matrix m' (arotation (- d)%float None)).
Proof.
  intros L E d q HL Hd HE N m. pose proof Hd as (Fd & Hq & k & Hk).
  destruct (rotation_right L d q HL Hd) as (s & Em & C). fold N in Em. fold m in Em. rewrite Em. clear Em m.
  set (q' := match q with 0%nat => 0%nat | S j => (3 - j)%nat end).
  assert (Hd' : right_angle (- d)%float q').
  { split; [|].
    - apply finite_B in Fd. apply finite_B. rewrite opp_equiv, is_finite_Bopp. exact Fd.
    - split; [unfold q'; destruct q; lia|]. unfold q', toR in *. rewrite opp_equiv, B2R_Bopp, Hk, <- opp_IZR.
      destruct q as [|[|[|[|q]]]]; [exists (-k)%Z|exists (-k-1)%Z|exists (-k-1)%Z|exists (-k-1)%Z|lia]; f_equal; cbn [Z.of_nat Nat.sub]; lia. }
  destruct (rotation_right L (- d)%float q' HL Hd') as (s' & Em' & C'). fold N in Em'.
  split.
  { unfold same_matrix. cbn [aa ab ac ad ae af]. four q Hq C; repeat split; try (left; reflexivity); right; split; reflexivity. }
  split; [four q Hq C; reflexivity|].
  split.
  { intros [x y] [Fx Fy]. cbn [vx vy] in Fx, Fy. unfold aapply, same_vec, vec2. cbn [vx vy aa ab ac ad ae af nadd nmul N FNum].
    change (@n1 _ N) with 1%float. rewrite !fmul1.
    assert (Z0 : PrimFloat.is_zero 0 = true) by reflexivity. assert (Z1 : PrimFloat.is_zero (-0) = true) by reflexivity.
    four q Hq C; cbn [qcos qsin nth turned vx vy]; try change (- -0)%float with 0%float; try change (- -1)%float with 1%float; try change (- (1))%float with (-1)%float; try change (- 0)%float with (-0)%float; rewrite ?fmul1, ?fmul_m1;
      split; apply same_zero_r; auto;
      solve [apply zero_fadd, fmul_zero; auto | apply fadd_zero, fmul_zero; auto]. }
  assert (K0 : forall f, abs f = 0%float -> (abs f <? E)%float = true) by (intros f ->; exact HE).
  split; [unfold is_rectilinear; cbn [aa ab ac ad ae af nabs nltb N FNum]; four q Hq C; apply orb_true_iff;
    (left; apply andb_true_iff; split; apply K0; reflexivity) || (right; apply andb_true_iff; split; apply K0; reflexivity)|].
  assert (HC : is_conformal E (mkA (qcos q) s 0%float (- s)%float (qcos q) 0%float) = true).
  { unfold is_conformal. cbn [aa ab ac ad ae af nabs nltb nadd nmul N FNum]. four q Hq C; apply K0; reflexivity. }
  split; [exact HC|].
  split.
  { unfold is_orthonormal. rewrite HC. cbn [aa ab ac ad ae af nabs nltb nadd nsub nmul N FNum andb]. change (@n1 _ N) with 1%float.
    four q Hq C; apply andb_true_iff; split; apply K0; reflexivity. }
  intro H1.
  assert (D : is_degenerate E (mkA (qcos q) s 0%float (- s)%float (qcos q) 0%float) = false).
  { unfold is_degenerate. assert (determinant (mkA (qcos q) s 0%float (- s)%float (qcos q) 0%float) = 1%float) as -> by (four q Hq C; reflexivity).
    change ((1 <? E)%float = false). apply not_true_is_false. intro H2.
    assert (NE : not_nan E).
    { rewrite not_nan_B. destruct (Prim2B E) eqn:B; auto. rewrite ltb_equiv, B in HE. destruct (Prim2B 0) as [[|]|[|]| |[|] ? ? ?]; discriminate HE. }
    assert (N1 : not_nan 1%float) by reflexivity.
    apply (fleb_key E 1%float NE N1) in H1. apply H1. apply (fltb_key 1%float E N1 NE). exact H2. }
  split; [exact D|]. unfold ainvert. rewrite D, Em'.
  four q Hq C; cbn in q'; subst q'; (eexists; split; [reflexivity|]);
    (destruct C' as [[C' S']|[C' S']]; [try discriminate C'|try congruence]); try (destruct S' as [S'|S']); rewrite S';
    (unfold same_matrix; cbn [aa ab ac ad ae af]; repeat split; try (left; reflexivity); right; split; reflexivity).
Qed.
Print Assumptions C101_rotation.

(** Right-angle rotations compose exactly; in particular four of 90 degrees give
    the vector back. *)
Lemma finite_same a b : same_double a b -> finite b -> finite a.
Proof.
  intros [-> | [H K]]; auto. intros _. apply is_zero_B in H. destruct H as [s H]. apply finite_B. rewrite H. reflexivity.
Qed.
Lemma finite_opp a : finite a -> finite (- a)%float.
Proof. intro H. apply finite_B in H. apply finite_B. rewrite opp_equiv, is_finite_Bopp. exact H. Qed.
Lemma finite_turned q v : finite_vec v -> finite_vec (turned q v).
Proof. intros [H K]. destruct q as [|[|[|q]]]; split; cbn [turned vx vy]; auto using finite_opp. Qed.
Lemma turned_same q v w : same_vec v w -> same_vec (turned q v) (turned q w).
Proof. intros [H K]. destruct q as [|[|[|q]]]; split; cbn [turned vx vy]; auto using same_opp. Qed.
Theorem C101_compose : forall (L : FloatLib) (v : vec PrimFloat.float) (d d' : PrimFloat.float) (q q' : nat),
  right_lib L -> finite_vec v -> right_angle d q -> right_angle d' q' ->
  same_vec (rotated (N := FNum L) (rotated (N := FNum L) v d) d') (turned ((q + q') mod 4) v).
Proof.
  intros L v d d' q q' HL Fv Hd Hd'. pose proof (C101_rotated L v d q HL Fv Hd) as H1.
  assert (F1 : finite_vec (rotated (N := FNum L) v d)).
  { destruct (finite_turned q v Fv) as [A B], H1 as [C D]. split; eapply finite_same; eauto. }
  pose proof (C101_rotated L _ d' q' HL F1 Hd') as H2. pose proof (turned_same q' _ _ H1) as H3.
  assert (H4 : turned q' (turned q v) = turned ((q + q') mod 4) v).
  { destruct Hd as (_ & Hq & _), Hd' as (_ & Hq' & _). destruct v as [x y].
    destruct q as [|[|[|[|q]]]]; [| | | |lia]; (destruct q' as [|[|[|[|q']]]]; [| | | |lia]); cbn [turned Nat.add Nat.modulo Nat.divmod snd Nat.sub vx vy];
      rewrite ?fopp_opp; reflexivity. }
  rewrite <- H4. destruct H2, H3. split; eapply same_trans; eauto.
Qed.
Print Assumptions C101_compose.

(** ** A pivot *)
(** Spec: integer points turned [q] quarter turns around an integer pivot. *)
Definition zturn (q : nat) (p v : Z * Z) : Z * Z :=
  let dx := (fst v - fst p)%Z in let dy := (snd v - snd p)%Z in
  match q with
  | 0%nat => v
  | 1%nat => (fst p - dy, snd p + dx)%Z
  | 2%nat => (fst p - dx, snd p - dy)%Z
  | _ => (fst p + dy, snd p - dx)%Z
  end.
Definition int_vec (v : vec PrimFloat.float) (z : Z * Z) : Prop := isint (vx v) (fst z) /\ isint (vy v) (snd z).
Definition small (z : Z * Z) : Prop := (Z.abs (fst z) <= 2 ^ 50 /\ Z.abs (snd z) <= 2 ^ 50)%Z.

(** Integer coordinates of at most 50 bits are turned around an integer pivot
    without rounding; the pivot is a fixed point. *)
Theorem C101_pivot_partial : forall (L : FloatLib) (d : PrimFloat.float) (q : nat) (p v : vec PrimFloat.float) (zp zv : Z * Z),
  right_lib L -> right_angle d q -> int_vec p zp -> int_vec v zv -> small zp -> small zv ->
  int_vec (aapply (N := FNum L) (arotation (N := FNum L) d (Some p)) v) (zturn q zp zv) /\
  same_vec (aapply (N := FNum L) (arotation (N := FNum L) d (Some p)) p) p.
Proof.
  intros L d q [px py] v [a b] zv HL Hd Hp Hv Sp Sv. destruct Hp as [Ia Ib]. cbn [vx vy fst snd] in Ia, Ib.
  assert (G : forall v zv, int_vec v zv -> small zv -> int_vec (aapply (N := FNum L) (arotation (N := FNum L) d (Some (mkV px py))) v) (zturn q (a, b) zv)).
  { clear v zv Hv Sv. intros [x y] [z w] [Iz Iw] [Sz Sw]. cbn [vx vy fst snd] in *. destruct Sp as [Sa Sb]. cbn [fst snd] in Sa, Sb.
    destruct (cos_sin_right L d q HL Hd) as (s & E & S1 & S2). destruct Hd as (_ & Hq & _).
    unfold arotation. rewrite E. unfold aapply, vec2, int_vec. cbn [vx vy aa ab ac ad ae af nadd nsub nmul nopp FNum].
    change (@n1 _ (FNum L)) with 1%float. rewrite !fmul1.
    set (C := nth q [1; 0; -1; 0]%Z 0%Z). set (S0 := nth q [0; 1; 0; -1]%Z 0%Z).
    assert (IC : isint (qcos q) C).
    { unfold qcos, C. destruct q as [|[|[|[|q]]]]; [| | | |lia]; cbn [nth]; [apply (isint_of_Z 1)|apply (isint_of_Z 0)|apply (isint_of_Z (-1))|apply (isint_of_Z 0)]; lia. }
    assert (IS : isint s S0).
    { destruct q as [|[|[|[|q]]]]; [| | | |lia]; cbn [nth qsin] in *; unfold S0; [|rewrite S2 by discriminate; apply (isint_of_Z 1); lia|rewrite S2 by discriminate; apply (isint_of_Z 0); lia|rewrite S2 by discriminate; apply (isint_of_Z (-1)); lia].
      destruct (zero_cases s) as [-> | ->]; [eapply same_is_zero; [exact S1|reflexivity]|apply (isint_of_Z 0); lia|].
      apply (isint_opp 0%float 0). apply (isint_of_Z 0). lia. }
    assert (V : (q = 0%nat /\ C = 1 /\ S0 = 0 \/ q = 1%nat /\ C = 0 /\ S0 = 1 \/ q = 2%nat /\ C = -1 /\ S0 = 0 \/ q = 3%nat /\ C = 0 /\ S0 = -1)%Z).
    { unfold C, S0. destruct q as [|[|[|[|q]]]]; [| | | |lia]; cbn [nth]; lia. }
    clearbody C S0. change (2 ^ 50)%Z with 1125899906842624%Z in *.
    assert (P1 : isint (x * qcos q + y * - s + (px - px * qcos q + py * s)) (z * C + w * - S0 + (a - a * C + b * S0))).
    { assert (P53 : (2 ^ 53)%Z = 9007199254740992%Z) by reflexivity.
      apply isint_add; [apply isint_add; [apply isint_mul|apply isint_mul; [|apply isint_opp|]|]|apply isint_add; [apply isint_sub; [|apply isint_mul|]|apply isint_mul|]|]; auto; rewrite P53;
      destruct V as [(_ & -> & ->)|[(_ & -> & ->)|[(_ & -> & ->)|(_ & -> & ->)]]]; lia. }
    assert (P2 : isint (x * s + y * qcos q + (py - px * s - py * qcos q)) (z * S0 + w * C + (b - a * S0 - b * C))).
    { assert (P53 : (2 ^ 53)%Z = 9007199254740992%Z) by reflexivity.
      apply isint_add; [apply isint_add; [apply isint_mul|apply isint_mul|]|apply isint_sub; [apply isint_sub; [|apply isint_mul|]|apply isint_mul|]|]; auto; rewrite P53;
      destruct V as [(_ & -> & ->)|[(_ & -> & ->)|[(_ & -> & ->)|(_ & -> & ->)]]]; lia. }
    split; [replace (fst (zturn q (a, b) (z, w))) with (z * C + w * - S0 + (a - a * C + b * S0))%Z; [exact P1|]
           |replace (snd (zturn q (a, b) (z, w))) with (z * S0 + w * C + (b - a * S0 - b * C))%Z; [exact P2|]];
      destruct V as [(-> & -> & ->)|[(-> & -> & ->)|[(-> & -> & ->)|(-> & -> & ->)]]]; cbn [zturn fst snd]; lia. }
  split; [apply G; auto|].
  destruct (G (mkV px py) (a, b)) as [H1 H2]; [split; auto|auto|].
  replace (zturn q (a, b) (a, b)) with (a, b) in H1, H2 by (destruct q as [|[|[|q]]]; cbn [zturn fst snd]; f_equal; lia).
  split; eapply isint_same; eauto.
Qed.
Print Assumptions C101_pivot_partial.

(** With other coordinates the rotation can move its pivot: (1, 2^60) goes to
    (0, 2^60). *)
Theorem C101_pivot_refuted : exists p : vec PrimFloat.float, finite_vec p /\
  forall L : FloatLib, right_lib L ->
  ~ same_vec (aapply (N := FNum L) (arotation (N := FNum L) 90%float (Some p)) p) p.
Proof.
  exists (mkV 1%float 0x1p60%float). split; [split; reflexivity|]. intros L HL.
  destruct (cos_sin_right L 90%float 1%nat HL) as (s & E & _ & S2).
  { split; [reflexivity|]. split; [lia|]. exists 0%Z. exact (proj2 (isint_of_Z 90 ltac:(lia))). }
  rewrite S2 in E by discriminate. unfold arotation. rewrite E. intros [[H|[_ H]] _]; [|discriminate H].
  apply (f_equal (fun x => PrimFloat.eqb x 1)) in H. revert H. vm_compute. discriminate.
Qed.
Print Assumptions C101_pivot_refuted.

(** ** Shearing *)
(** [math.tan] refuses infinities: [Affine.shear] raises exactly when an angle
    in radians is infinite, whatever the number system, and otherwise has the
    tangents off the diagonal. *)
Theorem C101_shear : forall (T : Type) (N : Num T) (ax ay : T),
  (nisinf (nradians ax) = true \/ nisinf (nradians ay) = true -> ashear ax ay = Err ValueError) /\
  (nisinf (nradians ax) = false -> nisinf (nradians ay) = false ->
   ashear ax ay = Ok (mkA n1 (ntan (nradians ay)) n0 (ntan (nradians ax)) n1 n0)).
Proof.
  intros T N ax ay. unfold ashear, pytan. split.
  - intros [-> | ->]; [reflexivity|]. destruct (nisinf (nradians ax)); reflexivity.
  - intros -> ->. reflexivity.
Qed.
Print Assumptions C101_shear.

(** ** Hypotheses met *)
(** A library as required: the remainder of an integer computed on integers. *)
Definition float_int (x : PrimFloat.float) : Z :=
  match Prim2SF x with
  | S754_finite s m e => let z := if s then Z.neg m else Z.pos m in if (0 <=? e)%Z then (z * 2 ^ e)%Z else (z / 2 ^ (- e))%Z
  | _ => 0%Z
  end.
Definition int_lib : FloatLib :=
  {| fl_sqrt := PrimFloat.sqrt; fl_pow2 := fun x => (x * x)%float; fl_floordiv := fun x _ => x;
     fl_mod := fun x _ => float_of_Z (float_int x mod 360);
     fl_cos := fun _ => 1%float; fl_sin := fun x => x; fl_tan := fun x => x; fl_atan2 := fun x _ => x; fl_hypot := fun x _ => x;
     fl_radians := fun x => x; fl_degrees := fun x => x |}.
Lemma float_int_spec x z : toR x = IZR z -> float_int x = z.
Proof.
  unfold toR, float_int. rewrite <- B2SF_Prim2B. destruct (Prim2B x) as [s|s| |s m e H]; cbn [B2R B2SF]; intro K; try (apply eq_IZR in K; auto).
  cbn [Z.of_nat] in K. unfold F2R in K. cbn [Fnum Fexp] in K.
  assert (S1 : cond_Zopp s (Z.pos m) = if s then Z.neg m else Z.pos m) by (destruct s; reflexivity). rewrite S1 in K. set (w := if s then Z.neg m else Z.pos m) in *. clearbody w.
  destruct (Z.leb_spec 0 e) as [He|He].
  - change 2%Z with (radix_val radix2). apply eq_IZR. rewrite mult_IZR, IZR_Zpower by lia. exact K.
  - assert (K' : w = (z * radix2 ^ (- e))%Z).
    { apply eq_IZR. rewrite mult_IZR, IZR_Zpower by lia. rewrite <- K, Rmult_assoc, <- bpow_plus. replace (e + - e)%Z with 0%Z by lia. cbn. ring. }
    rewrite K'. change 2%Z with (radix_val radix2). apply Z.div_mul. apply Z.pow_nonzero; cbn; lia.
Qed.
Lemma int_lib_right : right_lib int_lib.
Proof.
  constructor.
  - intros d k r Fd Hr Hd. cbn [fl_mod int_lib]. rewrite (float_int_spec d _ Hd).
    assert (R0 : ((360 * k + r) mod 360 = r)%Z) by (symmetry; apply (Z.mod_unique _ _ k); cbn in Hr; lia).
    rewrite R0. apply isint_of_Z. cbn in Hr. lia.
  - reflexivity.
  - intros z Hz. exact Hz.
Qed.
Example C101_ex : right_lib int_lib /\ right_angle (-450)%float 3 /\ (0 <? 0x1p-17)%float = true /\
  same_vec (rotated (N := FNum int_lib) (mkV 0.125 0x1p1000)%float (-450)%float) (mkV 0x1p1000 (-0.125))%float /\
  int_vec (mkV 3%float (-4)%float) (3, -4)%Z /\ small (3, -4)%Z.
Proof.
  assert (A : right_angle (-450)%float 3).
  { split; [reflexivity|]. split; [lia|]. exists (-2)%Z. exact (proj2 (isint_of_Z (-450) ltac:(lia))). }
  split; [exact int_lib_right|]. split; [exact A|]. split; [reflexivity|]. split.
  - exact (C101_rotated int_lib (mkV 0.125 0x1p1000)%float (-450)%float 3 int_lib_right (conj eq_refl eq_refl) A).
  - split; [split; [exact (isint_of_Z 3 ltac:(lia))|exact (isint_of_Z (-4) ltac:(lia))]|split; cbn; lia].
Qed.
