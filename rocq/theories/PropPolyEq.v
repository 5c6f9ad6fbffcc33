(** * Properties C64, C65: polygon equality *)
From Coq Require Import ZArith QArith List Bool Reals Lra Lia Floats Permutation.
From Verif Require Import Num NumFloat Vec Affine Seq Polygon SpecGeom SpecBox OrdLaws RBase VecFacts VecFacts2 AffineFacts NumHom RComp SpecCycle PolyEq.
Import ListNotations.
Local Open Scope R_scope.

(** ** C64, for the reals and for non-NaN doubles *)
(** Vertices equal up to [==] one by one (0.0 == -0.0 for doubles). *)
Definition same_points {T} {N : Num T} (l m : list (vec T)) : Prop := Forall2 (fun a b => vec_eqb a b = true) l m.

Theorem C64_same_cycle_equal : forall (T : Type) (N : Num T) (D : T -> Prop), OrdLaws T N D -> forall (p q : poly T) (m : list (vec T)),
  (3 <= length (pverts p))%nat -> Forall (ord_pt D) (pverts p) -> Forall (ord_pt D) (pverts q) ->
  same_cycle (pverts p) m -> same_points m (pverts q) ->
  poly_eqb p q = Ok true /\ poly_neb p q = Ok false.
Proof.
  intros T N D O p q m H3 Fp Fq C S. unfold poly_neb, poly_eqb.
  assert (HL : length (pverts p) = length m).
  { destruct C as [C|C]; apply rotated_length in C; rewrite ?rev_length in C; auto. }
  assert (HL' : length m = length (pverts q)) by (clear -S; induction S; cbn; auto).
  assert (Fm : Forall (ord_pt D) m).
  { assert (I : forall x, In x m -> In x (pverts p)).
    { intros x Hx. destruct C as [(a & b & E1 & E2)|(a & b & E1 & E2)]; rewrite E1; [rewrite E2 in Hx|apply in_rev in Hx; rewrite E2 in Hx]; apply in_app_iff in Hx; apply in_app_iff; tauto. }
    apply Forall_forall. intros x Hx. rewrite Forall_forall in Fp. auto. }
  destruct (poly_eqb_spec D O (pverts p) (pverts q)) as (b & Hb & Hiff); auto; try lia.
  assert (E : b = true).
  { apply Hiff. apply eqrel_trans with m; [apply eqrel_cycle; auto; lia|]. split; auto. left.
    apply (pointwise_counts D O); auto. clear -S. induction S as [|a b l l' H S IH]; auto. cbn. rewrite IH, andb_true_r.
    unfold vec_neb, vec_eqb in *. rewrite negb_orb, !negb_involutive. auto. }
  subst b. rewrite Hb. auto.
Qed.
Print Assumptions C64_same_cycle_equal.

Theorem C64_equivalence : forall (T : Type) (N : Num T) (D : T -> Prop), OrdLaws T N D -> forall (p q r : poly T),
  (3 <= length (pverts p))%nat -> (3 <= length (pverts q))%nat -> (3 <= length (pverts r))%nat ->
  Forall (ord_pt D) (pverts p) -> Forall (ord_pt D) (pverts q) -> Forall (ord_pt D) (pverts r) ->
  poly_eqb p p = Ok true /\
  poly_eqb p q = poly_eqb q p /\
  (poly_eqb p q = Ok true -> poly_eqb q r = Ok true -> poly_eqb p r = Ok true) /\
  (exists b, poly_eqb p q = Ok b /\ poly_neb p q = Ok (negb b)).
Proof.
  intros T N D O p q r Hp Hq Hr Fp Fq Fr. unfold poly_neb, poly_eqb.
  destruct (poly_eqb_spec D O (pverts p) (pverts p)) as (b1 & Hb1 & I1); auto; try lia.
  destruct (poly_eqb_spec D O (pverts p) (pverts q)) as (b2 & Hb2 & I2); auto; try lia.
  destruct (poly_eqb_spec D O (pverts q) (pverts p)) as (b3 & Hb3 & I3); auto; try lia.
  destruct (poly_eqb_spec D O (pverts q) (pverts r)) as (b4 & Hb4 & I4); auto; try lia.
  destruct (poly_eqb_spec D O (pverts p) (pverts r)) as (b5 & Hb5 & I5); auto; try lia.
  rewrite Hb1, Hb2, Hb3, Hb4, Hb5. split; [|split; [|split]].
  - f_equal. apply I1. apply eqrel_refl.
  - f_equal. destruct b2, b3; auto; exfalso.
    + assert (false = true) by (apply I3, eqrel_sym, I2; auto). discriminate.
    + assert (false = true) by (apply I2, eqrel_sym, I3; auto). discriminate.
  - intros E2 E4. injection E2 as ->. injection E4 as ->. f_equal. apply I5. apply eqrel_trans with (pverts q); [apply I2|apply I4]; auto.
  - exists b2. auto.
Qed.
Print Assumptions C64_equivalence.
(** Polygons of different sizes are never equal. *)
Theorem C64_sizes : forall (T : Type) (N : Num T) (p q : poly T), poly_eqb p q = Ok true -> length (pverts p) = length (pverts q).
Proof.
  intros T N p q. unfold poly_eqb, poly_eqb_verts. destruct (Nat.eqb_spec (length (pverts p)) (length (pverts q))); auto. cbn. discriminate.
Qed.
Print Assumptions C64_sizes.
Definition C64_R := C64_same_cycle_equal R RNum (fun _ => True) R_ordlaws.
Definition C64_float (L : FloatLib) := C64_same_cycle_equal float (FNum L) not_nan (float_ordlaws L).
Example C64_ex : let l := map zv [(0, 0); (4, 0); (4, 3); (0, 5)]%Z in
  (3 <= length l)%nat /\ Forall (ord_pt (fun _ => True)) l /\ same_cycle l (map zv [(4, 0); (0, 0); (0, 5); (4, 3)]%Z).
Proof.
  cbn zeta. split; [cbn; lia|]. split; [repeat constructor|]. right. exists [zv (0, 0)%Z; zv (4, 0)%Z], [zv (4, 3)%Z; zv (0, 5)%Z].
  split; reflexivity.
Qed.

(** ** C65 *)
Lemma zv_inj a b : zv a = zv b -> a = b.
Proof. destruct a as [a1 a2], b as [b1 b2]. unfold zv. cbn [fst snd]. intro H. apply mkV_inj in H. destruct H as [H1 H2]. apply eq_IZR in H1, H2. congruence. Qed.

Definition cyc1 : list (Z * Z) := [(0, 0); (1, 0); (2, 3); (0, 0); (1, 0); (5, 1); (0, 0); (1, 0); (7, 7)]%Z.
Definition cyc2 : list (Z * Z) := [(0, 0); (1, 0); (2, 3); (0, 0); (1, 0); (7, 7); (0, 0); (1, 0); (5, 1)]%Z.
Lemma not_rot l m : forallb (fun k => if list_eq_dec (fun a b : Z * Z => ltac:(decide equality; apply Z.eq_dec)) m (skipn k l ++ firstn k l) then false else true) (List.seq 0 (S (length l))) = true -> ~ rotated l m.
Proof.
  intros H R. destruct (rotated_dec_k _ _ R) as (k & Hk & E). rewrite forallb_forall in H. specialize (H k ltac:(apply in_seq; lia)). cbn beta in H.
  destruct (list_eq_dec _ _ _) as [_|n]; [discriminate|contradiction].
Qed.
Theorem C65_refuted : exists p q : poly R, (3 <= length (pverts p))%nat /\ poly_eqb p q = Ok true /\ ~ same_cycle (pverts p) (pverts q).
Proof.
  exists (poly_from_points (map zv cyc1)), (poly_from_points (map zv cyc2)). unfold poly_eqb, poly_from_points. 
  assert (E : forall l, pverts (@cleared R l None) = l) by reflexivity. rewrite !E. split; [rewrite map_length; cbn; lia|]. split.
  - rewrite z_poly_eqb. vm_compute. reflexivity.
  - intros [H|H]; [|rewrite <- map_rev in H]; apply rotated_map in H; try exact zv_inj; revert H; apply not_rot; vm_compute; reflexivity.
Qed.
Print Assumptions C65_refuted.
(** Equal polygons are the same cycle when the first one has no two equal
    directed edges (in particular when its vertices are distinct). *)
Theorem C65_same_cycle_partial : forall p q : poly R, (3 <= length (pverts p))%nat -> (3 <= length (pverts q))%nat ->
  NoDup (cyc_pairs (pverts p)) -> poly_eqb p q = Ok true -> same_cycle (pverts p) (pverts q).
Proof.
  intros p q Hp Hq ND E. unfold poly_eqb in E.
  assert (F : forall l : list pt, Forall (ord_pt (fun _ => True)) l) by (intro; apply Forall_forall; repeat split).
  destruct (poly_eqb_spec (fun _ => True) R_ordlaws (pverts p) (pverts q)) as (b & Hb & I); auto; try lia.
  rewrite Hb in E. injection E as ->. apply eqrel_cycle_R; auto; try lia. apply I; auto.
Qed.
Print Assumptions C65_same_cycle_partial.
Theorem C65_distinct_partial : forall p q : poly R, (3 <= length (pverts p))%nat -> (3 <= length (pverts q))%nat ->
  NoDup (pverts p) -> (poly_eqb p q = Ok true <-> same_cycle (pverts p) (pverts q)).
Proof.
  intros p q Hp Hq ND. split.
  - apply C65_same_cycle_partial; auto. apply cyc_pairs_nodup; auto.
  - intro H. assert (F : forall l : list pt, Forall (ord_pt (fun _ => True)) l) by (intro; apply Forall_forall; repeat split).
    apply (C64_R p q (pverts q)); auto. clear. unfold same_points. induction (pverts q) as [|v l IH]; constructor; [apply vec_eqb_R; auto|exact IH].
Qed.
Print Assumptions C65_distinct_partial.
Example C65_ex : NoDup (map zv [(0, 0); (4, 0); (4, 3); (0, 5)]%Z) /\ poly_eqb (poly_from_points (map zv [(0, 0); (4, 0); (4, 3); (0, 5)]%Z)) (poly_from_points (map zv [(4, 0); (0, 0); (0, 5); (4, 3)]%Z)) = Ok true.
Proof.
  split.
  - apply FinFun.Injective_map_NoDup; [exact zv_inj|]. repeat constructor; cbn; intuition discriminate.
  - unfold poly_eqb, poly_from_points. assert (E : forall l, pverts (@cleared R l None) = l) by reflexivity. rewrite !E. rewrite z_poly_eqb. vm_compute. reflexivity.
Qed.
