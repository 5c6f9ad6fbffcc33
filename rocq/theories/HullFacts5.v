(** * When every sorted scan of the hull gets points that project between its end points *)
From Coq Require Import ZArith List Bool Reals Lra Lia Psatz Permutation.
From Verif Require Import Num Vec Affine Box Seq Polygon Hull SpecGeom SpecHull SpecExtreme RBase VecFacts2 HullFacts HullFacts2 HullFacts3 HullFacts4.
Import ListNotations.
Local Open Scope R_scope.

Lemma pdot_pos (d e : pt) : pcross d e <> 0 -> 0 < pdot d d.
Proof.
  destruct d as [d1 d2], e as [e1 e2]. unfold pdot, pcross. cbn [vx vy]. intro H.
  destruct (Req_dec d1 0) as [->|A]; [destruct (Req_dec d2 0) as [->|B]|]; [exfalso; apply H; ring| |]; nra.
Qed.
(** x lies in the cone from d clockwise to e, which is at most a right angle. *)
Lemma cone_d (d e x : pt) : pcross d e < 0 -> 0 <= pdot d e -> pcross d x <= 0 -> pcross x e < 0 -> 0 < pdot d x.
Proof.
  intros H1 H2 H3 H4. assert (P : 0 < pdot d d) by (apply (pdot_pos d e); lra).
  assert (I : - pcross d e * pdot d x = - pcross x e * pdot d d + - pcross d x * pdot d e) by (ug; ring).
  assert (0 < - pcross x e * pdot d d) by (apply Rmult_lt_0_compat; lra).
  assert (0 <= - pcross d x * pdot d e) by (apply Rmult_le_pos; lra).
  apply (Rmult_lt_reg_l (- pcross d e)); lra.
Qed.
Lemma cone_e (d e x : pt) : pcross d e < 0 -> 0 <= pdot d e -> pcross d x <= 0 -> pcross x e <= 0 -> 0 <= pdot e x /\ (pcross d x < 0 -> 0 < pdot e x) /\ (0 < pdot d e -> pcross x e < 0 -> 0 < pdot e x).
Proof.
  intros H1 H2 H3 H4. assert (P : 0 < pdot e e) by (apply (pdot_pos e d); replace (pcross e d) with (- pcross d e) by (ug; ring); lra).
  assert (I : - pcross d e * pdot e x = - pcross x e * pdot d e + - pcross d x * pdot e e) by (ug; ring).
  assert (A : 0 <= - pcross x e * pdot d e) by (apply Rmult_le_pos; lra).
  assert (B : 0 <= - pcross d x * pdot e e) by (apply Rmult_le_pos; lra).
  repeat split.
  - apply (Rmult_le_reg_l (- pcross d e)); lra.
  - intro H. assert (0 < - pcross d x * pdot e e) by (apply Rmult_lt_0_compat; lra). apply (Rmult_lt_reg_l (- pcross d e)); lra.
  - intros H H'. assert (0 < - pcross x e * pdot d e) by (apply Rmult_lt_0_compat; lra). apply (Rmult_lt_reg_l (- pcross d e)); lra.
Qed.
(** The mirror images. *)
Definition flip (v : pt) : pt := mkV (vx v) (- vy v).
Lemma flip_cross a b : pcross (flip a) (flip b) = - pcross a b. Proof. unfold flip. ug. ring. Qed.
Lemma flip_dot a b : pdot (flip a) (flip b) = pdot a b. Proof. unfold flip. ug. ring. Qed.
Lemma cone_d' (d e x : pt) : 0 < pcross d e -> 0 <= pdot d e -> 0 <= pcross d x -> 0 < pcross x e -> 0 < pdot d x.
Proof. intros. rewrite <- flip_dot. apply (cone_d (flip d) (flip e)); rewrite ?flip_cross, ?flip_dot; lra. Qed.
Lemma cone_e' (d e x : pt) : 0 < pcross d e -> 0 <= pdot d e -> 0 <= pcross d x -> 0 <= pcross x e -> 0 <= pdot e x /\ (0 < pcross d x -> 0 < pdot e x).
Proof.
  intros. rewrite <- flip_dot. destruct (cone_e (flip d) (flip e) (flip x)) as (A & B & _); rewrite ?flip_cross, ?flip_dot in *; try lra.
Qed.

(** A subproblem whose points are beyond p0 p1 and right of lines through p0
    and p1 with directions d0 and d1 that make at most a right angle with
    p1 - p0. *)
Record fit (pts : list pt) (p0 p1 d0 d1 : pt) : Prop := mk_fit {
  f_above : forall q, In q pts -> 0 <= orient p0 p1 q;
  f_left : forall q, In q pts -> pcross d0 (psub q p0) <= 0;
  f_right : forall q, In q pts -> pcross d1 (psub q p1) <= 0;
  f_lstrict : pcross d0 (psub p1 p0) < 0;
  f_rstrict : pcross d1 (psub p0 p1) < 0;
  f_ldot : 0 <= pdot d0 (psub p1 p0);
  f_rdot : 0 <= pdot d1 (psub p1 p0)
}.
Definition opp (v : pt) : pt := mkV (- vx v) (- vy v).
Lemma nonempty_in {A} (l : list A) : l <> [] -> exists x, In x l.
Proof. destruct l as [|x l]; [contradiction|]. exists x. left; auto. Qed.

Lemma fit_left pts p0 p1 pp d0 d1 : fit pts p0 p1 d0 d1 -> In pp pts -> 0 < orient p0 p1 pp -> (forall q, In q pts -> orient p0 p1 q <= orient p0 p1 pp) -> lefts p0 pp pts <> [] ->
  fit (lefts p0 pp pts) p0 pp d0 (psub p1 p0) /\ 0 < pdot d0 (psub pp p0).
Proof.
  intros [F1 F2 F3 F4 F5 F6 F7] Hi HD Hf Hne.
  assert (D : 0 < pdot d0 (psub pp p0)).
  { apply (cone_d d0 (psub p1 p0)); auto. replace (pcross (psub pp p0) (psub p1 p0)) with (- orient p0 p1 pp) by (ug; ring). lra. }
  split; auto. split.
  - intros q Hq. apply lefts_in in Hq. lra.
  - intros q Hq. apply lefts_in in Hq. apply F2. tauto.
  - intros q Hq. apply lefts_in in Hq. destruct Hq as [Hq _]. specialize (Hf q Hq). replace (pcross (psub p1 p0) (psub q pp)) with (orient p0 p1 q - orient p0 p1 pp) by (ug; ring). lra.
  - apply nonempty_in in Hne. destruct Hne as (x & Hx). apply lefts_in in Hx. destruct Hx as [Hx1 Hx2]. apply (support0 p0 p1 pp x); auto.
  - replace (pcross (psub p1 p0) (psub p0 pp)) with (- orient p0 p1 pp) by (ug; ring). lra.
  - lra.
  - apply (cone_e d0 (psub p1 p0)); auto. replace (pcross (psub pp p0) (psub p1 p0)) with (- orient p0 p1 pp) by (ug; ring). lra.
Qed.
Lemma fit_right pts p0 p1 pp d0 d1 : fit pts p0 p1 d0 d1 -> In pp pts -> 0 < orient p0 p1 pp -> (forall q, In q pts -> orient p0 p1 q <= orient p0 p1 pp) -> rights p0 p1 pp pts <> [] ->
  fit (rights p0 p1 pp pts) pp p1 (psub p1 p0) d1 /\ 0 < pdot (psub p1 p0) (psub p1 pp).
Proof.
  intros [F1 F2 F3 F4 F5 F6 F7] Hi HD Hf Hne.
  apply nonempty_in in Hne. destruct Hne as (x & Hx). apply rights_in in Hx. destruct Hx as (Hx1 & _ & Hx2).
  assert (SP : pcross d1 (psub pp p1) < 0) by (apply (support1 p0 p1 pp x); auto).
  assert (A1 : 0 < pcross (opp d1) (psub p0 p1)) by (replace (pcross (opp d1) (psub p0 p1)) with (- pcross d1 (psub p0 p1)) by (unfold opp; ug; ring); lra).
  assert (A2 : 0 <= pdot (opp d1) (psub p0 p1)) by (replace (pdot (opp d1) (psub p0 p1)) with (pdot d1 (psub p1 p0)) by (unfold opp; ug; ring); lra).
  assert (A3 : 0 < pcross (opp d1) (psub pp p1)) by (replace (pcross (opp d1) (psub pp p1)) with (- pcross d1 (psub pp p1)) by (unfold opp; ug; ring); lra).
  assert (A4 : 0 < pcross (psub pp p1) (psub p0 p1)) by (replace (pcross (psub pp p1) (psub p0 p1)) with (orient p0 p1 pp) by (ug; ring); lra).
  assert (D : 0 < pdot (psub p1 p0) (psub p1 pp)).
  { replace (pdot (psub p1 p0) (psub p1 pp)) with (pdot (psub p0 p1) (psub pp p1)) by (ug; ring).
    apply (cone_e' (opp d1) (psub p0 p1) (psub pp p1)); auto; lra. }
  split; auto. split; auto.
  - intros q Hq. apply rights_in in Hq. lra.
  - intros q Hq. apply rights_in in Hq. destruct Hq as [Hq _]. specialize (Hf q Hq). replace (pcross (psub p1 p0) (psub q pp)) with (orient p0 p1 q - orient p0 p1 pp) by (ug; ring). lra.
  - intros q Hq. apply rights_in in Hq. apply F3. tauto.
  - replace (pcross (psub p1 p0) (psub p1 pp)) with (- orient p0 p1 pp) by (ug; ring). lra.
  - lra.
  - replace (pdot d1 (psub p1 pp)) with (pdot (opp d1) (psub pp p1)) by (unfold opp; ug; ring).
    apply Rlt_le, (cone_d' (opp d1) (psub p0 p1)); auto; lra.
Qed.
Lemma fit_ahead pts p0 p1 d0 d1 : fit pts p0 p1 d0 d1 -> 0 < pdot d0 (psub p1 p0) -> (forall q, In q pts -> 0 < orient p0 p1 q) -> ahead pts p0 p1.
Proof.
  intros [F1 F2 F3 F4 F5 F6 F7] HS HA q Hq. specialize (HA q Hq). specialize (F2 q Hq). specialize (F3 q Hq).
  assert (C : pcross (psub q p0) (psub p1 p0) < 0) by (replace (pcross (psub q p0) (psub p1 p0)) with (- orient p0 p1 q) by (ug; ring); lra).
  split; [apply (cone_e d0 (psub p1 p0) (psub q p0)); auto; lra|].
  assert (A1 : 0 < pcross (opp d1) (psub p0 p1)) by (replace (pcross (opp d1) (psub p0 p1)) with (- pcross d1 (psub p0 p1)) by (unfold opp; ug; ring); lra).
  assert (A2 : 0 <= pdot (opp d1) (psub p0 p1)) by (replace (pdot (opp d1) (psub p0 p1)) with (pdot d1 (psub p1 p0)) by (unfold opp; ug; ring); lra).
  assert (A3 : 0 <= pcross (opp d1) (psub q p1)) by (replace (pcross (opp d1) (psub q p1)) with (- pcross d1 (psub q p1)) by (unfold opp; ug; ring); lra).
  assert (A4 : 0 <= pcross (psub q p1) (psub p0 p1)) by (replace (pcross (psub q p1) (psub p0 p1)) with (orient p0 p1 q) by (ug; ring); lra).
  destruct (cone_e' (opp d1) (psub p0 p1) (psub q p1) A1 A2 A3 A4) as [D _].
  replace (pdot (psub p0 p1) (psub q p1)) with (pdot (psub p1 p0) (psub p1 p0) - pdot (psub p1 p0) (psub q p0)) in D by (ug; ring). lra.
Qed.
Lemma fit_scans : forall fuel pts p0 p1 d0 d1, fit pts p0 p1 d0 d1 -> forall l a b, In (l, a, b) (scans fuel pts p0 p1) -> ahead l a b.
Proof.
  induction fuel as [|f IH]; intros pts p0 p1 d0 d1 F l a b; cbn [scans]; [intros []|].
  destruct pts as [|x t]; [intros []|]. remember (x :: t) as pts eqn:EP.
  destruct (far_spec pts p0 p1) as (pp & -> & Hi & Hf); [rewrite EP; discriminate|apply (f_above _ _ _ _ _ F)|]. rewrite vec2_of_R.
  destruct (Rle_lt_or_eq_dec 0 (orient p0 p1 pp)) as [D|D]; [apply (f_above _ _ _ _ _ F); auto| |].
  2:{ rewrite part_flat by auto. cbn. intros []. }
  rewrite part_spec by auto. intro H. apply in_app_or in H. destruct H as [H|H].
  - assert (Hne : lefts p0 pp pts <> []) by (intro E; rewrite E in H; cbn in H; destruct H).
    destruct (fit_left pts p0 p1 pp d0 d1 F Hi D Hf Hne) as [F' S'].
    destruct (Nat.leb _ 1) in H; [destruct H|]. destruct (Nat.leb _ _) in H; [eapply IH; eauto|].
    destruct H as [H|[]]. injection H as <- <- <-. eapply fit_ahead; eauto. intros q Hq. apply lefts_in in Hq. tauto.
  - assert (Hne : rights p0 p1 pp pts <> []) by (intro E; rewrite E in H; cbn in H; destruct H).
    destruct (fit_right pts p0 p1 pp d0 d1 F Hi D Hf Hne) as [F' S'].
    destruct (Nat.leb _ 1) in H; [destruct H|]. destruct (Nat.leb _ _) in H; [eapply IH; eauto|].
    destruct H as [H|[]]. injection H as <- <- <-. eapply fit_ahead; eauto. intros q Hq. apply rights_in in Hq. tauto.
Qed.
