(** * Property C68: tangents from a point *)
From Coq Require Import ZArith QArith Qreals List Bool Reals Lra Lia Psatz.
From Verif Require Import Num Vec Affine Box Seq Polygon Tangent SpecGeom SpecTangent RBase VecFacts2 NumHom RComp PolyCache PolyCache2 CentroidFacts TangentFacts TangentFacts2 TangentFacts3 TangentFacts4.
Import ListNotations.
Local Open Scope R_scope.

(** The three ways the method can go. *)
Lemma tangent_routes {T} {N : Num T} (q : vec T) (p : poly T) : (2 <= length (pverts p))%nat ->
  fst (tangents_to_point q p) = pt_tangents (pverts p) q \/
  (20 < length (pverts p))%nat /\
  fst (tangents_to_point q p) = (let* i := left_tan_i_convex (pverts p) q in let* l := py_get (pverts p) i in
                                 let* j := right_tan_i_convex (pverts p) q in let* r := py_get (pverts p) j in Ok (l, r)).
Proof.
  intro Hn. unfold tangents_to_point. destruct (Nat.ltb 20 (length (pverts p))) eqn:L; [|left; reflexivity]. apply Nat.ltb_lt in L.
  destruct (is_convex_total p Hn) as (b & Eb). pose proof (convex_state_verts p) as EV. destruct (get_is_convex p) as [r p1]. cbn [fst snd] in *. subst r.
  destruct b; [|left; cbn [fst]; rewrite EV; reflexivity]. destruct (pdupe p1) as [[|]|]; [left; cbn [fst]; rewrite EV; reflexivity| |left; cbn [fst]; rewrite EV; reflexivity].
  right. split; [exact L|]. cbn [fst]. rewrite EV. reflexivity.
Qed.

(** For every kind of number, every polygon in every state of its caches and
    every point, both results exist and are vertices (the scan rebuilds them
    with Vec2(x, y)). *)
Theorem C68_vertices_any : forall (T : Type) (N : Num T) (q : vec T) (p : poly T), (2 <= length (pverts p))%nat ->
  exists l r, fst (tangents_to_point q p) = Ok (l, r) /\
    (exists w, In w (pverts p) /\ (l = w \/ l = vec2 (vx w) (vy w))) /\ (exists w, In w (pverts p) /\ (r = w \/ r = vec2 (vx w) (vy w))).
Proof.
  intros T N q p Hn. assert (VL : forall v, vertexlike (pverts p) v -> exists w, In w (pverts p) /\ (v = w \/ v = vec2 (vx w) (vy w))).
  { intros v [H|(w & H & E)]; [exists v; auto|exists w; auto]. }
  destruct (tangent_routes q p Hn) as [->|(_ & ->)].
  - destruct (scan_total (pverts p) q Hn) as (l & r & -> & HL & HR). exists l, r. auto.
  - destruct (left_total (pverts p) q Hn) as (i & -> & Hi). destruct (right_total (pverts p) q Hn) as (j & -> & Hj). cbn [bind].
    destruct (get_total (pverts p) Hn i) as (l & -> & Il); [lia|]. destruct (get_total (pverts p) Hn j) as (r & -> & Ir); [lia|]. cbn [bind]. exists l, r. split; [reflexivity|]. split; [exists l; auto|exists r; auto].
Qed.
Print Assumptions C68_vertices_any.
Theorem C68_vertices : forall (q : pt) (p : poly R), (2 <= length (pverts p))%nat ->
  exists l r, fst (tangents_to_point q p) = Ok (l, r) /\ In l (pverts p) /\ In r (pverts p).
Proof.
  intros q p Hn. destruct (C68_vertices_any R RNum q p Hn) as (l & r & E & (w & Hw & Ew) & (z & Hz & Ez)). exists l, r. split; [exact E|].
  assert (K : forall w : pt, vec2 (vx w) (vy w) = w) by (intros [x y]; rewrite vec2_R; reflexivity). rewrite K in Ew, Ez. split; [destruct Ew as [->| ->]|destruct Ez as [->| ->]]; auto.
Qed.
Print Assumptions C68_vertices.

(** A point beyond an edge of a strictly convex polygon is outside its hull. *)
Lemma beyond_outside s vs q : strictly_convex s vs -> beyond_edge s vs q -> outside_hull vs q.
Proof.
  intros (Hs & Hn & ND & SC) (a & b & Hab & Hq). exists (mkV (- s * (vy b - vy a)) (s * (vx b - vx a))). intros v Hv.
  assert (E : pdot (mkV (- s * (vy b - vy a)) (s * (vx b - vx a))) (psub v q) = s * orient a b v - s * orient a b q).
  { destruct a as [a1 a2], b as [b1 b2], v as [v1 v2], q as [q1 q2]. unfold pdot, orient, pcross, psub. cbn [vx vy]. ring. }
  rewrite E. assert (0 <= s * orient a b v); [|lra].
  assert (DA : {v = a} + {v <> a}) by (destruct v as [v1 v2], a as [a1 a2]; destruct (Req_EM_T v1 a1) as [->|]; [destruct (Req_EM_T v2 a2) as [->|]; [left; auto|]|]; right; intro C; apply mkV_inj in C; tauto).
  assert (DB : {v = b} + {v <> b}) by (destruct v as [v1 v2], b as [a1 a2]; destruct (Req_EM_T v1 a1) as [->|]; [destruct (Req_EM_T v2 a2) as [->|]; [left; auto|]|]; right; intro C; apply mkV_inj in C; tauto).
  destruct DA as [->|NA]. { replace (orient a b a) with 0 by (unfold orient, pcross, psub; cbn [vx vy]; ring). lra. }
  destruct DB as [->|NB]. { replace (orient a b b) with 0 by (unfold orient, pcross, psub; cbn [vx vy]; ring). lra. }
  apply Rlt_le, SC; auto.
Qed.

(** Up to 20 vertices (where the scan is used), for every polygon, convex or
    not, in every state of its caches: both results are tangents as soon as
    the point is outside the convex hull. *)
Theorem C68_scan : forall (q : pt) (p : poly R), (2 <= length (pverts p) <= 20)%nat -> outside_hull (pverts p) q ->
  exists l r, fst (tangents_to_point q p) = Ok (l, r) /\ left_support (pverts p) q l /\ right_support (pverts p) q r.
Proof.
  intros q p Hn HO. destruct (tangent_routes q p) as [->|(L & _)]; [lia| |lia]. apply scan_supports; [lia|exact HO].
Qed.
Print Assumptions C68_scan.

(** Any number of vertices: the left tangent of a strictly convex polygon is
    right for every point beyond an edge. *)
Theorem C68_left : forall (s : R) (q : pt) (p : poly R), strictly_convex s (pverts p) -> beyond_edge s (pverts p) q ->
  exists l r, fst (tangents_to_point q p) = Ok (l, r) /\ left_support (pverts p) q l /\ In r (pverts p).
Proof.
  intros s q p SC BE. pose proof (beyond_outside s _ q SC BE) as HO. assert (Hn : (3 <= length (pverts p))%nat) by apply SC.
  destruct (tangent_routes q p) as [->|(_ & ->)]; [lia| |].
  - destruct (scan_supports (pverts p) q) as (l & r & -> & HL & HR & _); [lia|exact HO|]. exists l, r. auto.
  - destruct HO as (d & FR). destruct (left_finds s (pverts p) q d SC FR) as (i & -> & Hi & Mi). destruct (right_total (pverts p) q) as (j & -> & Hj); [lia|]. cbn [bind].
    rewrite vat_get by lia. destruct (get_total (pverts p) ltac:(lia) j) as (r & -> & Ir); [lia|]. cbn [bind]. exists (vat (pverts p) i), r. split; [reflexivity|]. split; [|exact Ir].
    split; [apply vat_in; lia|]. intros v Hv. destruct (vat_onto (pverts p) ltac:(lia) v Hv) as (k & Hk & ->). apply (t_le s _ q d SC FR). apply Mi.
Qed.
Print Assumptions C68_left.

(** Both tangents, when the point is on the line of no edge. *)
Theorem C68_tangents_partial : forall (s : R) (q : pt) (p : poly R), strictly_convex s (pverts p) -> beyond_edge s (pverts p) q -> off_edge_lines (pverts p) q ->
  exists l r, fst (tangents_to_point q p) = Ok (l, r) /\ left_support (pverts p) q l /\ right_support (pverts p) q r.
Proof.
  intros s q p SC BE OFF. pose proof (beyond_outside s _ q SC BE) as HO. assert (Hn : (3 <= length (pverts p))%nat) by apply SC.
  destruct (tangent_routes q p) as [->|(_ & ->)]; [lia|apply scan_supports; [lia|exact HO]|].
  destruct HO as (d & FR). destruct (left_finds s (pverts p) q d SC FR) as (i & -> & Hi & Mi). destruct (right_finds s (pverts p) q d SC FR) as (j & -> & Hj & Mj).
  { intros k E. apply (t_zero s _ q d SC FR) in E. apply (OFF (vat (pverts p) k) (vat (pverts p) (k + 1))); [apply vat_edge; lia|].
    rewrite <- E. unfold orient, pcross, psub. cbn [vx vy]. ring. }
  cbn [bind]. rewrite !vat_get by lia. cbn [bind]. exists (vat (pverts p) i), (vat (pverts p) j). split; [reflexivity|].
  split; (split; [apply vat_in; lia|]); intros v Hv; destruct (vat_onto (pverts p) ltac:(lia) v Hv) as (k & Hk & ->); [apply (t_le s _ q d SC FR), Mi|apply (t_ge s _ q d SC FR), Mj].
Qed.
Print Assumptions C68_tangents_partial.

(** ** Evaluation over Q *)
Section Hom.
  Context {T1 T2 : Type} {N1 : Num T1} {N2 : Num T2} {h : T1 -> T2} (H : NumHom N1 N2 h).
  Notation hv := (hv (h:=h)).
  Lemma h_above p a b : pt_above (hv p) (hv a) (hv b) = pt_above p a b.
  Proof. unfold pt_above, pt_cross. cbn [NumHom.hv vx vy]. rewrite <- !(hm_sub _ _ _ H), <- !(hm_mul _ _ _ H), <- !(hm_sub _ _ _ H). apply (h0lt H). Qed.
  Lemma h_below p a b : pt_below (hv p) (hv a) (hv b) = pt_below p a b.
  Proof. unfold pt_below, pt_cross. cbn [NumHom.hv vx vy]. rewrite <- !(hm_sub _ _ _ H), <- !(hm_mul _ _ _ H), <- !(hm_sub _ _ _ H). apply (hlt0 H). Qed.
  Ltac step := match goal with |- context [py_get ?l ?k] => destruct (py_get l k); [|reflexivity] end; cbn [hr rmap bind].
  Lemma h_left_loop vs p : forall limit a b, left_tan_loop (map hv vs) (hv p) limit a b = left_tan_loop vs p limit a b.
  Proof.
    induction limit as [|limit IH]; intros a b; [reflexivity|]. cbn [left_tan_loop]. rewrite !py_get_map.
    step. step. rewrite h_below. match goal with |- context [pt_below p ?x ?y] => destruct (pt_below p x y) end; cbn [negb bind orb].
    - step. step. rewrite ?h_below, ?h_above, !IH. reflexivity.
    - step. rewrite h_above. match goal with |- context [pt_above p ?x ?y] => destruct (pt_above p x y) end; [reflexivity|]. step. step. rewrite ?h_below, ?h_above, !IH. reflexivity.
  Qed.
  Lemma h_right_loop vs p : forall limit a b, right_tan_loop (map hv vs) (hv p) limit a b = right_tan_loop vs p limit a b.
  Proof.
    induction limit as [|limit IH]; intros a b; [reflexivity|]. cbn [right_tan_loop]. rewrite !py_get_map.
    step. step. rewrite h_below. match goal with |- context [pt_below p ?x ?y] => destruct (pt_below p x y) end; cbn [negb bind orb].
    - step. rewrite h_above. match goal with |- context [negb (pt_above p ?x ?y)] => destruct (negb (pt_above p x y)) end; [reflexivity|]. step. step. rewrite ?h_below, ?h_above, !IH. reflexivity.
    - step. step. rewrite ?h_below, ?h_above, !IH. reflexivity.
  Qed.
  Lemma h_left_tan vs p : left_tan_i_convex (map hv vs) (hv p) = left_tan_i_convex vs p.
  Proof. unfold left_tan_i_convex. rewrite !py_get_map, map_length. step. step. step. rewrite h_below, h_above, h_left_loop. reflexivity. Qed.
  Lemma h_right_tan vs p : right_tan_i_convex (map hv vs) (hv p) = right_tan_i_convex vs p.
  Proof. unfold right_tan_i_convex. rewrite !py_get_map, map_length. step. step. step. rewrite h_below, h_above, h_right_loop. reflexivity. Qed.
End Hom.
Lemma z_left_tan l p : left_tan_i_convex (map zv l) (zv p) = left_tan_i_convex (map qv l) (qv p).
Proof. rewrite map_zv, zv_qv. apply (h_left_tan Q2R_hom). Qed.
Lemma z_right_tan l p : right_tan_i_convex (map zv l) (zv p) = right_tan_i_convex (map qv l) (qv p).
Proof. rewrite map_zv, zv_qv. apply (h_right_tan Q2R_hom). Qed.

(** Strict convexity of integer points, checked by computation. *)
Definition zorient (a b c : Z * Z) : Z := ((fst b - fst a) * (snd c - snd a) - (snd b - snd a) * (fst c - fst a))%Z.
Lemma zv_orient a b c : orient (zv a) (zv b) (zv c) = IZR (zorient a b c).
Proof. unfold orient, pcross, psub, zv, zorient. cbn [vx vy]. rewrite minus_IZR, !mult_IZR, !minus_IZR. reflexivity. Qed.
Definition zeqb (a b : Z * Z) : bool := Z.eqb (fst a) (fst b) && Z.eqb (snd a) (snd b).
Fixpoint znodup (l : list (Z * Z)) : bool := match l with [] => true | a :: m => negb (existsb (zeqb a) m) && znodup m end.
Definition zstrict (s : Z) (l : list (Z * Z)) : bool :=
  (Nat.leb 3 (length l)) && znodup l && forallb (fun e => forallb (fun v => zeqb v (fst e) || zeqb v (snd e) || Z.ltb 0 (s * zorient (fst e) (snd e) v)) l) (cyc_pairs l).
Lemma zeqb_true a b : zeqb a b = true <-> a = b.
Proof. destruct a as [a1 a2], b as [b1 b2]. unfold zeqb. cbn [fst snd]. rewrite andb_true_iff, !Z.eqb_eq. split; [intros (-> & ->); auto|intro E; inversion E; auto]. Qed.
Lemma zv_inj a b : zv a = zv b -> a = b.
Proof. destruct a as [a1 a2], b as [b1 b2]. unfold zv. cbn [fst snd]. intro E. apply mkV_inj in E. destruct E as (E1 & E2). apply eq_IZR in E1, E2. congruence. Qed.
Lemma z_nodup l : znodup l = true -> NoDup (map zv l).
Proof.
  induction l as [|a l IH]; cbn [znodup map]; [constructor|]. rewrite andb_true_iff, negb_true_iff. intros (H1 & H2). constructor; [|auto].
  rewrite in_map_iff. intros (b & Eb & Ib). apply zv_inj in Eb. subst b. assert (existsb (zeqb a) l = true) by (apply existsb_exists; exists a; split; [auto|apply zeqb_true; auto]). congruence.
Qed.
Lemma z_strict (s : Z) l : (s = 1 \/ s = -1)%Z -> zstrict s l = true -> strictly_convex (IZR s) (map zv l).
Proof.
  unfold zstrict. intro Hs. rewrite !andb_true_iff. intros ((Hl & Hd) & Hf). split; [destruct Hs as [->| ->]; auto|]. split; [rewrite map_length; apply Nat.leb_le; auto|]. split; [apply z_nodup; auto|].
  intros a b v Hab Hv Na Nb. rewrite cyc_map in Hab. apply in_map_iff in Hab. destruct Hab as ((a0 & b0) & E & I0). cbn [fst snd] in E. apply in_map_iff in Hv. destruct Hv as (v0 & <- & Iv).
  assert (a = zv a0) by congruence. assert (b = zv b0) by congruence. subst a b. rewrite forallb_forall in Hf. specialize (Hf _ I0). cbn [fst snd] in Hf. rewrite forallb_forall in Hf. specialize (Hf _ Iv).
  rewrite !orb_true_iff, !zeqb_true in Hf. destruct Hf as [[->| ->]|Hf]; [congruence|congruence|]. rewrite zv_orient, <- mult_IZR. apply Z.ltb_lt in Hf. apply IZR_lt. exact Hf.
Qed.

(** Vertices of the parabola y = x^2, x = -10 .. 10, starting at (10, 100). *)
Definition tan_w : list (Z * Z) := (10, 100)%Z :: map (fun x => (x, x * x)%Z) [-10;-9;-8;-7;-6;-5;-4;-3;-2;-1;0;1;2;3;4;5;6;7;8;9]%Z.
Lemma tan_w_convex : exists st, get_is_convex (pfresh (map zv tan_w)) = (Ok true, st) /\ pverts st = map zv tan_w /\ pdupe st = Some false.
Proof.
  assert (EC : classify_core (map qv tan_w) = Ok (true, false, 21%nat)) by (vm_compute; reflexivity).
  assert (exists pl, split_y_polylines (map qv tan_w) = Ok pl) as (pl & ES) by (eexists; vm_compute; reflexivity).
  eexists. split; [apply (convex_detected (map zv tan_w) 21 (@hpl Q R Q2R pl))|].
  - rewrite map_length. cbn. lia.
  - rewrite z_classify_core. exact EC.
  - rewrite z_split, ES. reflexivity.
  - split; reflexivity.
Qed.
Lemma tan_w_run q : fst (tangents_to_point (zv q) (poly_from_points (map zv tan_w))) =
  (let* i := left_tan_i_convex (map qv tan_w) (qv q) in let* l := py_get (map zv tan_w) i in
   let* j := right_tan_i_convex (map qv tan_w) (qv q) in let* r := py_get (map zv tan_w) j in Ok (l, r)).
Proof.
  destruct tan_w_convex as (st & E & EV & ED). unfold tangents_to_point. change (poly_from_points (map zv tan_w)) with (pfresh (map zv tan_w)). rewrite pverts_fresh.
  replace (Nat.ltb 20 (length (map zv tan_w))) with true by reflexivity. rewrite E, ED. cbn [fst]. rewrite EV, z_left_tan, z_right_tan. reflexivity.
Qed.
(** The binary search for the right tangent fails when the point is on the
    line of the edge from the last to the first vertex: for the 21 points
    above and the point (-1, -109) it answers (8, 64), but (9, 81) is on the
    right of that line. *)
Theorem C68_refuted : exists (s : R) (vs : list pt) (q : pt), strictly_convex s vs /\ beyond_edge s vs q /\
  exists l r, fst (tangents_to_point q (poly_from_points vs)) = Ok (l, r) /\ In r vs /\ ~ right_support vs q r.
Proof.
  exists (IZR 1), (map zv tan_w), (zv (-1, -109)%Z). split; [apply z_strict; [auto|vm_compute; reflexivity]|]. split.
  - exists (zv (0,0)%Z), (zv (1,1)%Z). split; [rewrite cyc_map; apply in_map_iff; exists ((0,0),(1,1))%Z; split; [reflexivity|vm_compute; tauto]|]. rewrite zv_orient, <- mult_IZR. apply IZR_lt. reflexivity.
  - rewrite tan_w_run. assert (EL : exists i l, left_tan_i_convex (map qv tan_w) (qv (-1,-109)%Z) = Ok i /\ py_get (map zv tan_w) i = Ok l) by (eexists _, _; split; [vm_compute; reflexivity|reflexivity]).
    destruct EL as (i & l & -> & E1). assert (ER : right_tan_i_convex (map qv tan_w) (qv (-1,-109)%Z) = Ok 19%Z) by (vm_compute; reflexivity). rewrite ER. cbn [bind]. rewrite E1. cbn [bind].
    change (py_get (map zv tan_w) 19) with (@Ok pt (zv (8,64)%Z)). cbn [bind].
    exists l, (zv (8,64)%Z). split; [reflexivity|]. split; [apply in_map; vm_compute; tauto|]. intros (_ & H). specialize (H (zv (9,81)%Z)). rewrite zv_orient in H.
    assert (I : In (zv (9,81)%Z) (map zv tan_w)) by (apply in_map; vm_compute; tauto). specialize (H I). apply le_IZR in H. vm_compute in H. apply H. reflexivity.
Qed.
Print Assumptions C68_refuted.

(** The hypotheses of the positive theorems hold for the same polygon and the
    point (0, -5), and the binary search is what answers. *)
Example C68_ex : strictly_convex 1 (map zv tan_w) /\ beyond_edge 1 (map zv tan_w) (zv (0,-5)%Z) /\ off_edge_lines (map zv tan_w) (zv (0,-5)%Z) /\
  fst (tangents_to_point (zv (0,-5)%Z) (poly_from_points (map zv tan_w))) = Ok (zv (-2,4)%Z, zv (2,4)%Z).
Proof.
  split; [apply (z_strict 1); [auto|vm_compute; reflexivity]|]. split.
  - exists (zv (0,0)%Z), (zv (1,1)%Z). split; [rewrite cyc_map; apply in_map_iff; exists ((0,0),(1,1))%Z; split; [reflexivity|vm_compute; tauto]|]. rewrite zv_orient, <- mult_IZR. apply IZR_lt. reflexivity.
  - split.
    + intros a b H. rewrite cyc_map in H. apply in_map_iff in H. destruct H as ((a0 & b0) & E & I0). cbn [fst snd] in E. assert (a = zv a0) by congruence. assert (b = zv b0) by congruence. subst a b.
      rewrite zv_orient. assert (A : forallb (fun e => negb (Z.eqb (zorient (fst e) (snd e) (0,-5)%Z) 0)) (cyc_pairs tan_w) = true) by (vm_compute; reflexivity).
      rewrite forallb_forall in A. specialize (A _ I0). cbn [fst snd] in A. apply negb_true_iff, Z.eqb_neq in A. intro C. apply eq_IZR in C. auto.
    + rewrite tan_w_run. assert (EL : left_tan_i_convex (map qv tan_w) (qv (0,-5)%Z) = Ok 9%Z) by (vm_compute; reflexivity).
      assert (ER : right_tan_i_convex (map qv tan_w) (qv (0,-5)%Z) = Ok 13%Z) by (vm_compute; reflexivity). rewrite EL, ER. reflexivity.
Qed.
