(** * Properties C66 and C67: the convex hull *)
From Coq Require Import ZArith QArith Qreals List Bool Reals Lra Lia Psatz Permutation Sorted.
From Verif Require Import Num Vec Affine Box Seq Polygon Hull SpecGeom SpecHull SpecExtreme RBase VecFacts2 BoxFacts2 NumHom RComp SortFacts HullFacts HullFacts2 HullFacts3 HullFacts4.
Import ListNotations.
Local Open Scope R_scope.

(** ** C66 *)
Lemma new_verts_any {T} {N : Num T} (h : list (vec T)) p : poly_new h (Some true) None = Ok p -> pverts p = map vec2_of h.
Proof.
  unfold poly_new, seq_new. destruct (Nat.ltb _ 3); [discriminate|]. unfold cleared. set (vs := map vec2_of h).
  destruct (Nat.ltb 3 (length vs)); cbn [pconvex andb bind].
  - destruct (split_y_polylines vs); [|discriminate]. cbn [bind psimple]. intros H. inversion H; subst. reflexivity.
  - intros H. inversion H; subst. reflexivity.
Qed.
(** For every kind of number, a hull vertex is an input point passed through
    the constructor of Vec2 once or twice. *)
Theorem C66_any_numbers : forall (T : Type) (N : Num T) (so : list (vec T) -> list (vec T)) (pts : list (vec T)) (p : poly T),
  reorders so -> convex_hull so pts = Ok p -> forall v, In v (pverts p) -> exists q, In q pts /\ (v = vec2_of q \/ v = vec2_of (vec2_of q)).
Proof.
  intros T N so pts p Hso E v Hv. unfold convex_hull in E. destruct (quick_hull so pts) as [h|] eqn:EQ; [|discriminate]. cbn [bind] in E.
  rewrite (new_verts_any _ _ E) in Hv. apply in_map_iff in Hv. destruct Hv as (w & <- & Hw). destruct (quick_src so pts h Hso EQ w Hw) as [H|(q & H & ->)]; eauto.
Qed.
Print Assumptions C66_any_numbers.

Theorem C66_from_input : forall (so : list pt -> list pt) (pts : list pt) (p : poly R), reorders so -> convex_hull so pts = Ok p ->
  (forall v, In v (pverts p) -> In v pts) /\ (exists l, In l (pverts p) /\ leftmost pts l) /\ (exists r, In r (pverts p) /\ rightmost pts r).
Proof.
  intros so pts p Hso E. split.
  { intros v Hv. destruct (C66_any_numbers R RNum so pts p Hso E v Hv) as (q & Hq & [->| ->]); rewrite ?vec2_of_R; auto. }
  unfold convex_hull in E. destruct pts as [|x t]; [discriminate|]. set (pts := x :: t) in *.
  destruct (quick_shape so pts) as (l & r & up & lo & Hl & Hr & Hup & Hlo & _ & _ & EQ & _); [discriminate|].
  destruct (half_total so up l r Hso) as (t1 & E1 & _). { intros v Hv. apply Hup in Hv. lra. }
  destruct (half_total so lo r l Hso) as (t2 & E2 & _). { intros v Hv. apply Hlo in Hv. replace (orient r l v) with (- orient l r v) by (ug; ring). lra. }
  rewrite EQ, E1, E2 in E. cbn [bind] in E. apply new_verts_any in E. rewrite map_vec2_of_R in E. rewrite E. split; [exists l|exists r]; split; auto; [left; auto|right; apply in_or_app; right; left; auto].
Qed.
Print Assumptions C66_from_input.

(** The only exceptions: IndexError for no points, ValueError when there are
    not three different points. *)
Theorem C66_raises : forall (so : list pt -> list pt) (pts : list pt), reorders so ->
  match convex_hull so pts with
  | Ok _ => pts <> []
  | Err e => pts = [] /\ e = IndexError \/ pts <> [] /\ e = ValueError /\ forall a b c, In a pts -> In b pts -> In c pts -> a = b \/ b = c \/ a = c
  end.
Proof.
  intros so pts Hso. unfold convex_hull. destruct pts as [|x t]; [left; auto|]. set (pts := x :: t) in *.
  destruct (quick_shape so pts) as (l & r & up & lo & Hl & Hr & Hup & Hlo & _ & _ & EQ & _); [discriminate|].
  destruct (half_total so up l r Hso) as (t1 & E1 & N1). { intros v Hv. apply Hup in Hv. lra. }
  destruct (half_total so lo r l Hso) as (t2 & E2 & N2). { intros v Hv. apply Hlo in Hv. replace (orient r l v) with (- orient l r v) by (ug; ring). lra. }
  rewrite EQ, E1, E2. cbn [bind]. pose proof (new_verts ((l :: t1) ++ r :: t2)) as NV. destruct (Nat.ltb_spec (length ((l :: t1) ++ r :: t2)) 3) as [C|C].
  - rewrite NV. right. split; [discriminate|]. split; auto.
    rewrite app_length in C. cbn [length] in C.
    assert (T1 : t1 = []) by (destruct t1; auto; cbn in C; lia). assert (T2 : t2 = []) by (destruct t2; auto; cbn in C; lia).
    assert (U : up = []) by (destruct up; auto; exfalso; apply N1; auto; discriminate). assert (W : lo = []) by (destruct lo; auto; exfalso; apply N2; auto; discriminate).
    assert (All : forall v, In v pts -> v = l \/ v = r).
    { intros v Hv. destruct (vec_eqb v l) eqn:Ea; [apply vec_eqb_R in Ea; auto|]. destruct (vec_eqb v r) eqn:Eb; [apply vec_eqb_R in Eb; auto|]. apply vec_eqb_R_false in Ea. apply vec_eqb_R_false in Eb.
      exfalso. destruct (Rlt_le_dec 0 (orient l r v)) as [K|K]; [assert (X : In v up) by (apply Hup; auto); rewrite U in X; destruct X|].
      assert (X : In v lo) by (apply Hlo; auto). rewrite W in X. destruct X. }
    intros a b c Ha Hb Hc. apply All in Ha, Hb, Hc. destruct Ha as [->| ->], Hb as [->| ->], Hc as [->| ->]; auto.
  - destruct NV as (p & -> & _). discriminate.
Qed.
Print Assumptions C66_raises.

(** Of a polygon: a copy when it is known to be convex. *)
Theorem C66_of_polygon : forall (so : list pt -> list pt) (p h : poly R), reorders so -> convex_hull_poly so p = Ok h ->
  (forall v, In v (pverts h) -> In v (pverts p)) /\ (pconvex p = Some true -> pverts h = pverts p /\ pconvex h = Some true).
Proof.
  intros so p h Hso. unfold convex_hull_poly. assert (C : forall q : poly R, pverts (poly_copy q) = pverts q /\ pconvex (poly_copy q) = pconvex q) by (intros q; split; reflexivity).
  destruct (pconvex p) as [[]|] eqn:Ec.
  - intros E. inversion E as [E']. destruct (C p) as [C1 C2]. rewrite C1. split; auto.
  - intros E. split; [apply (C66_from_input so _ h Hso E)|discriminate].
  - intros E. split; [apply (C66_from_input so _ h Hso E)|discriminate].
Qed.
Print Assumptions C66_of_polygon.

(** ** C67 *)
Definition hull_w : list (Z * Z) := [(0,0);(4000,-3000);(3000,-1000);(1,1000);(10,1200);(500,800);(1000,400);(2000,-300)]%Z.
Definition vecQ_dec (a b : vec Q) : {a = b} + {a <> b}.
Proof. decide equality; decide equality; try apply Z.eq_dec; decide equality. Defined.
Definition is_hull (h : list (vec Q)) (r : res (list (vec Q))) : bool :=
  match r with Ok g => if list_eq_dec vecQ_dec g h then true else false | Err _ => false end.
Definition hull_w_h : list (Z * Z) := [(0,0);(1,1000);(500,800);(3000,-1000);(4000,-3000)]%Z.
Definition hull_w_up : list (vec Q) := map qv [(3000,-1000);(1,1000);(10,1200);(500,800);(1000,400);(2000,-300)]%Z.
Lemma hull_w_perms : forallb (fun u => is_hull (map qv hull_w_h) (let* h1 := qhalf hull_w_up u (qv (0,0)%Z) (qv (4000,-3000)%Z) in let* h2 := qhalf [] [] (qv (4000,-3000)%Z) (qv (0,0)%Z) in Ok (h1 ++ h2))) (perms hull_w_up) = true.
Proof. vm_compute. reflexivity. Qed.
Lemma hull_w_run (so : list pt -> list pt) : reorders so -> quick_hull so (map zv hull_w) = Ok (map zv hull_w_h).
Proof.
  intros Hso. pose proof (h_quick_any Q2R Q2R_hom so (qv (0,0)%Z) (map qv (tl hull_w)) Hso) as X.
  cbv zeta in X. change (qv (0,0)%Z :: map qv (tl hull_w)) with (map qv hull_w) in X.
  assert (E1 : fold_left lr_step (map qv hull_w) (qv (0,0)%Z, qv (0,0)%Z) = (qv (0,0)%Z, qv (4000,-3000)%Z)) by (vm_compute; reflexivity). rewrite E1 in X.
  assert (E2 : upper_lower (map qv hull_w) (qv (0,0)%Z) (qv (4000,-3000)%Z) = (hull_w_up, map qv [(0,0);(4000,-3000)]%Z)) by (vm_compute; reflexivity). rewrite E2 in X.
  assert (E3 : set_discard (set_discard hull_w_up (qv (0,0)%Z)) (qv (4000,-3000)%Z) = hull_w_up) by (vm_compute; reflexivity). rewrite E3 in X.
  assert (E4 : set_discard (set_discard (map qv [(0,0);(4000,-3000)]%Z) (qv (0,0)%Z)) (qv (4000,-3000)%Z) = []) by (vm_compute; reflexivity). rewrite E4 in X.
  destruct X as (u & w & Pu & Pw & E). apply Permutation_nil in Pw. subst w. rewrite map_zv, E. clear E.
  pose proof hull_w_perms as F. rewrite forallb_forall in F. specialize (F u (perms_all _ _ Pu)). unfold is_hull in F.
  destruct (let* h1 := qhalf hull_w_up u _ _ in _) as [g|]; [|discriminate]. destruct (list_eq_dec vecQ_dec g (map qv hull_w_h)) as [->|]; [|discriminate]. cbn [rmap]. rewrite map_zv. reflexivity.
Qed.
(** The sorted scan assumes that the points project between its end points. *)
Theorem C67_refuted : exists pts : list pt, (exists a b, In a pts /\ In b pts /\ vx a <> vx b) /\
  forall so, reorders so -> exists p q, convex_hull so pts = Ok p /\ In q pts /\ ~ encloses (pverts p) q.
Proof.
  exists (map zv hull_w). split.
  - exists (zv (0,0)%Z), (zv (1,1000)%Z). split; [apply in_map; cbn; auto|]. split; [apply in_map; cbn; auto|]. cbn. lra.
  - intros so Hso. pose proof (new_verts (map zv hull_w_h)) as NV. cbn [map hull_w_h length Nat.ltb Nat.leb] in NV. destruct NV as (p & E & Ep).
    exists p, (zv (10,1200)%Z). unfold convex_hull. rewrite hull_w_run by auto. cbn [bind]. split; [exact E|]. split; [apply in_map; cbn; auto 10|].
    rewrite Ep. intro H. specialize (H (zv (1,1000)%Z) (zv (500,800)%Z)). cbn in H. specialize (H (or_intror (or_introl eq_refl))). unfold orient, pcross, psub, zv in H. cbn [vx vy fst snd] in H. lra.
Qed.
Print Assumptions C67_refuted.

(** Of points on a vertical line only two are kept, not the extreme ones. *)
Theorem C67_vertical_refuted : exists pts : list pt, forall so, reorders so -> exists p q, convex_hull so pts = Ok p /\ In q pts /\
  ((forall v, In v (pverts p) -> vy v < vy q) \/ (forall v, In v (pverts p) -> vy q < vy v)).
Proof.
  exists (map zv [(0,0);(0,1);(0,-1)]%Z). intros so Hso.
  pose proof (h_quick_any Q2R Q2R_hom so (qv (0,0)%Z) (map qv [(0,1);(0,-1)]%Z) Hso) as X. cbv zeta in X.
  change (qv (0,0)%Z :: map qv [(0,1);(0,-1)]%Z) with (map qv [(0,0);(0,1);(0,-1)]%Z) in X.
  assert (E1 : fold_left lr_step (map qv [(0,0);(0,1);(0,-1)]%Z) (qv (0,0)%Z, qv (0,0)%Z) = (qv (0,0)%Z, qv (0,0)%Z)) by (vm_compute; reflexivity). rewrite E1 in X.
  assert (E2 : upper_lower (map qv [(0,0);(0,1);(0,-1)]%Z) (qv (0,0)%Z) (qv (0,0)%Z) = ([], map qv [(0,0);(0,1);(0,-1)]%Z)) by (vm_compute; reflexivity). rewrite E2 in X.
  assert (E3 : set_discard (set_discard (map qv [(0,0);(0,1);(0,-1)]%Z) (qv (0,0)%Z)) (qv (0,0)%Z) = map qv [(0,1);(0,-1)]%Z) by (vm_compute; reflexivity). rewrite E3 in X.
  destruct X as (u & w & Pu & Pw & E). change (set_discard (set_discard (@nil (vec Q)) (qv (0,0)%Z)) (qv (0,0)%Z)) with (@nil (vec Q)) in Pu, E. apply Permutation_nil in Pu. subst u.
  apply perms_all in Pw. assert (Hw : w = map qv [(0,1);(0,-1)]%Z \/ w = map qv [(0,-1);(0,1)]%Z) by (cbn in Pw; destruct Pw as [<-|[<-|[]]]; auto). clear Pw.
  assert (K : forall y : Z, (let* h1 := qhalf [] [] (qv (0,0)%Z) (qv (0,0)%Z) in let* h2 := qhalf (map qv [(0,1);(0,-1)]%Z) w (qv (0,0)%Z) (qv (0,0)%Z) in Ok (h1 ++ h2)) = Ok (map qv [(0,0);(0,0);(0,y)]%Z) ->
    exists p, convex_hull so (map zv [(0,0);(0,1);(0,-1)]%Z) = Ok p /\ pverts p = map zv [(0,0);(0,0);(0,y)]%Z).
  { intros y Ey. unfold convex_hull. rewrite map_zv, E, Ey. cbn [rmap bind]. rewrite <- map_zv. exact (new_verts (map zv [(0,0);(0,0);(0,y)]%Z)). }
  destruct Hw as [->| ->].
  - destruct (K 1%Z) as (p & Hp & Hv); [vm_compute; reflexivity|]. exists p, (zv (0,-1)%Z). split; auto. split; [apply in_map; cbn; auto|]. right. rewrite Hv. intros v [<-|[<-|[<-|[]]]]; cbn; lra.
  - destruct (K (-1)%Z) as (p & Hp & Hv); [vm_compute; reflexivity|]. exists p, (zv (0,1)%Z). split; auto. split; [apply in_map; cbn; auto|]. left. rewrite Hv. intros v [<-|[<-|[<-|[]]]]; cbn; lra.
Qed.
Print Assumptions C67_vertical_refuted.

(** Partial: the points are not on one vertical line, and each sorted scan of
    the run gets points that project between its end points. *)
Theorem C67_ahead_partial : forall (so : list pt -> list pt) (pts : list pt) (p : poly R), reorders so ->
  (exists a b, In a pts /\ In b pts /\ vx a <> vx b) -> (forall l a b, In (l, a, b) (hull_scans so pts) -> ahead l a b) -> convex_hull so pts = Ok p ->
  forall q, In q pts -> encloses (pverts p) q /\ exists a b, In a (pverts p) /\ In b (pverts p) /\ vx a <= vx q <= vx b.
Proof.
  intros so pts p Hso Hx Hs E q Hq. split.
  - destruct (quick_encloses so pts Hso Hx Hs) as (h & EQ & H). unfold convex_hull in E. rewrite EQ in E. cbn [bind] in E. apply new_verts_any in E. rewrite map_vec2_of_R in E. rewrite E. auto.
  - destruct (C66_from_input so pts p Hso E) as (_ & (l & Hl & Ll) & (r & Hr & Rr)). exists l, r. repeat split; auto; [apply Ll; auto|apply Rr; auto].
Qed.
Print Assumptions C67_ahead_partial.

(** Partial: seven points at most never reach the sorted scan. *)
Theorem C67_few_partial : forall (so : list pt -> list pt) (pts : list pt) (p : poly R), reorders so ->
  (exists a b, In a pts /\ In b pts /\ vx a <> vx b) -> (length pts <= 7)%nat -> convex_hull so pts = Ok p ->
  forall q, In q pts -> encloses (pverts p) q /\ exists a b, In a (pverts p) /\ In b (pverts p) /\ vx a <= vx q <= vx b.
Proof.
  intros so pts p Hso Hx HL E. apply (C67_ahead_partial so pts p); auto. rewrite few_scans by auto. intros l a b [].
Qed.
Print Assumptions C67_few_partial.

(** ** Examples *)
Definition hull_a : list (Z * Z) := [(0,0);(100,0);(10,25);(35,45);(40,66);(30,58);(80,80);(60,76);(20,45);(50,-5)]%Z.
Definition hull_a_h : list (Z * Z) := [(0,0);(10,25);(20,45);(30,58);(40,66);(60,76);(80,80);(100,0);(50,-5)]%Z.
Example C66_ex : exists p, convex_hull (fun x => x) (map zv hull_a) = Ok p /\ pverts p = map zv hull_a_h.
Proof.
  unfold convex_hull. rewrite z_quick_hull. assert (E : quick_hull (fun x => x) (map qv hull_a) = Ok (map qv hull_a_h)) by (vm_compute; reflexivity).
  rewrite E. cbn [rmap bind]. rewrite <- map_zv. exact (new_verts (map zv hull_a_h)).
Qed.
(** One sorted scan of six points, one of which is not on the hull. *)
Example C67_ex : reorders (fun x : list pt => x) /\ (exists a b, In a (map zv hull_a) /\ In b (map zv hull_a) /\ vx a <> vx b) /\
  hull_scans (fun x => x) (map zv hull_a) = [(map zv [(10,25);(35,45);(40,66);(30,58);(60,76);(20,45)]%Z, zv (0,0)%Z, zv (80,80)%Z)] /\
  (forall l a b, In (l, a, b) (hull_scans (fun x => x) (map zv hull_a)) -> ahead l a b).
Proof.
  split; [intro; auto|]. split; [exists (zv (0,0)%Z), (zv (100,0)%Z); split; [apply in_map; cbn; auto|]; split; [apply in_map; cbn; auto|]; cbn; lra|].
  assert (E : hull_scans (fun x => x) (map zv hull_a) = [(map zv [(10,25);(35,45);(40,66);(30,58);(60,76);(20,45)]%Z, zv (0,0)%Z, zv (80,80)%Z)]).
  { rewrite map_zv, (h_hull_scans Q2R Q2R_hom). assert (E : hull_scans (fun x => x) (map qv hull_a) = [(map qv [(10,25);(35,45);(40,66);(30,58);(60,76);(20,45)]%Z, qv (0,0)%Z, qv (80,80)%Z)]) by (vm_compute; reflexivity).
    rewrite E. cbn [map]. unfold hscan. cbn [fst snd map]. rewrite <- !zv_qv. reflexivity. }
  split; auto. rewrite E. intros l a b [X|[]]. inversion X; subst. intros q Hq. cbn [In] in Hq.
  repeat (destruct Hq as [<-|Hq]; [unfold pdot, psub, zv; cbn [vx vy fst snd]; lra|]). destruct Hq.
Qed.
