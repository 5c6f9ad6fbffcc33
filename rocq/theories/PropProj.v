(** * C119: projections and reflections on doubles against exact geometry *)
From Coq Require Import ZArith List Bool Reals Lra Lia Psatz Floats.
From Flocq Require Import Core IEEE754.PrimFloat IEEE754.BinarySingleNaN.
From Verif Require Import Num NumFloat Vec Affine Line OrdLaws SpecGeom SpecAffine SpecLine SpecErr SpecRot RBase VecFacts2 LineFacts LineFacts2 FloatFacts FloatFacts2 FloatFacts3 FloatVec SpecExact FloatExact FloatErr FloatErr2 FloatErr3 FloatErr4 FloatErr5 FloatErr6 FloatErr7 RotFacts PropErr ProjF.
Import ListNotations.
Local Open Scope R_scope.

(** ** Facts about points along a unit direction *)
Lemma unit_dist (a U : pt) s t : norm U = 1 -> dist (padd a (pscale s U)) (padd a (pscale t U)) = Rabs (s - t).
Proof.
  intro H. unfold dist. replace (psub (padd a (pscale s U)) (padd a (pscale t U))) with (pscale (s - t) U) by (unfold psub, padd, pscale; cbn [vx vy]; f_equal; ring).
  rewrite VecFacts2.norm_scale, H. ring.
Qed.
Lemma nearest_ext (A B : pt -> Prop) p q : (forall r, A r <-> B r) -> nearest A p q -> nearest B p q.
Proof. intros H [H1 H2]. split; [apply H, H1|]. intros r Hr. apply H2, H, Hr. Qed.
Lemma pos_zero (a U : pt) : padd a (pscale 0 U) = a.
Proof. destruct a as [a1 a2]. unfold padd, pscale. cbn [vx vy]. f_equal; ring. Qed.
Section Near.
  Variables (a v q : pt).
  Hypothesis Hv : 0 < norm v.
  Let x := offset_along a v q.
  Let U := punit v.
  Lemma foot_line : nearest (along_line a v) q (padd a (pscale x U)).
  Proof using Hv.
    apply (nearest_ext (fun r => exists t, True /\ r = padd a (pscale t U))).
    - intro r. split; [intros (t & _ & ->); exists (t * / norm v)|intros (t & ->); exists (t * norm v); split; [exact I|]]; unfold U, punit, padd, pscale; cbn [vx vy]; f_equal; field; lra.
    - apply (nearest_frame (ideal_dirn v) q a (fun _ => True) x (ideal_frame v Hv) I). intros t _. unfold x. rewrite (proj1 (offsets a v q Hv)).
      cbn [ideal_dirn ddir]. rewrite Rminus_diag_eq by reflexivity. rewrite Rabs_R0. apply Rabs_pos.
  Qed.
  Lemma foot_ray : nearest (along_ray a v) q (padd a (pscale (Rmax 0 x) U)).
  Proof using Hv.
    apply (nearest_ext (fun r => exists t, 0 <= t /\ r = padd a (pscale t U))); [exact (fun r => along_ray_unit a v r Hv)|].
    apply (nearest_frame (ideal_dirn v) q a (fun t => 0 <= t) (Rmax 0 x) (ideal_frame v Hv) (Rmax_l 0 x)). intros t Ht.
    cbn [ideal_dirn ddir]. rewrite <- (proj1 (offsets a v q Hv)). fold x. unfold Rmax. destruct (Rle_dec 0 x); unfold Rabs; repeat destruct (Rcase_abs _); lra.
  Qed.
  Lemma foot_seg : nearest (along_seg a v 1) q (padd a (pscale (clampR 0 (norm v) x) U)).
  Proof using Hv.
    apply (nearest_ext (fun r => exists t, 0 <= t <= norm v /\ r = padd a (pscale t U))); [exact (fun r => along_seg_unit a v r Hv)|].
    apply (nearest_frame (ideal_dirn v) q a (fun t => 0 <= t <= norm v) (clampR 0 (norm v) x) (ideal_frame v Hv)); [rmm; lra|]. intros t Ht.
    cbn [ideal_dirn ddir]. rewrite <- (proj1 (offsets a v q Hv)). fold x. rmm; unfold Rabs; repeat destruct (Rcase_abs _); lra.
  Qed.
  Lemma mirror : psub q (pscale (2 * offset_right a v q) (right_normal v)) = psub (pscale 2 (padd a (pscale x U))) q.
  Proof using Hv.
    pose proof (frame_decomp (ideal_dirn v) q a (ideal_frame v Hv)) as D. cbn [ideal_dirn ddir dnormal] in D. destruct (offsets a v q Hv) as [O1 O2]. rewrite <- O1, <- O2 in D. fold x U in D.
    rewrite D at 1 3. set (y := offset_right a v q). unfold psub, padd, pscale. cbn [vx vy]. f_equal; ring.
  Qed.
End Near.
Lemma close_move (w : vec PrimFloat.float) (p n : pt) d e k : near_vec w p d -> dist p n <= e -> 2 * d + e <= k -> close_vec w n k.
Proof.
  intros [A B] H K. destruct (near_dist w p d A B) as [F C]. split; [exact F|]. pose proof (dist_triangle (vecR w) p n). lra.
Qed.

(** ** Lines *)
(** [Line(p, v).project(q)] is within 2^-42 of the coordinate range of the
    nearest point of the exact line, [Line(p, v).reflect(q)] within 2^-43 of
    the exact mirror image. *)
Theorem C119_line : forall (L : FloatLib) (E : PrimFloat.float) (M : R) (p v : vec PrimFloat.float),
  sqrt_ok L -> eps_ok L E -> room M -> within M p -> finite_vec v -> good_length E (norm (vecR v)) ->
  let N := FNum L in exists l, line_new E p v = Ok l /\
  forall q, within M q -> exists f, nearest (along_line (vecR p) (vecR v)) (vecR q) f /\
    (exists w, line_project E l q = Ok w /\ close_vec w f (margin (-42) M)) /\
    close_vec (line_reflect l q) (psub (pscale 2 f) (vecR q)) (margin (-43) M).
Proof.
  intros L E M p v HS HE HM Hp Fv G N. destruct (line_new_built L HS M E HE p v Hp Fv G) as (l & Hl & Nd & Ho). exists l. split; [exact Hl|].
  intros q Hq. pose proof (good_pos _ _ G) as Hv. destruct (line_proj L M HM E HE (vecR v) Hv l p q Nd Hp Hq Ho) as [(w & Hw & Kw) Kr]. fold N in Hw, Kr.
  pose proof (m_pos M HM) as MP. eexists. split; [apply foot_line; exact Hv|]. change (margin (-42) M) with (margin (11 - 53) M). change (margin (-43) M) with (margin (10 - 53) M). rewrite !margin_unit by lia. split.
  - exists w. split; [exact Hw|]. apply (close_move _ _ _ _ 0 _ Kw); [rewrite dist_self; lra|]. change (IZR (2 ^ 11)) with 2048. lra.
  - rewrite <- mirror by exact Hv. apply (close_move _ _ _ _ 0 _ Kr); [rewrite dist_self; lra|]. change (IZR (2 ^ 10)) with 1024. lra.
Qed.
Print Assumptions C119_line.

(** ** Rays *)
(** [Ray(p, v).project(q)]: within 2^-43 of the nearest point if [q] is level
    with the ray, never further from it than EPSILON and 2^-42, and the anchor
    itself, bit for bit, if [q] is clearly behind. *)
Theorem C119_ray : forall (L : FloatLib) (E : PrimFloat.float) (M : R) (p v : vec PrimFloat.float),
  sqrt_ok L -> eps_ok L E -> room M -> within M p -> finite_vec v -> good_length E (norm (vecR v)) ->
  let N := FNum L in exists r, ray_new E p v = Ok r /\
  forall q, within M q -> let x := offset_along (vecR p) (vecR v) (vecR q) in
  exists w n, ray_project E r q = Ok w /\ nearest (along_ray (vecR p) (vecR v)) (vecR q) n /\
    (0 <= x -> close_vec w n (margin (-43) M)) /\
    close_vec w n (toR E + margin (-42) M) /\
    (x < - toR E - margin (-43) M -> w = p).
Proof.
  intros L E M p v HS HE HM Hp Fv G N. destruct (ray_new_built L HS E HE p v Fv G) as (r & Hr & Nd & Ea). exists r. split; [exact Hr|].
  intros q Hq x. pose proof (good_pos _ _ G) as Hv. subst p. destruct (ray_proj L M HM E HE (vecR v) Hv r q Nd Hp Hq) as (b & w & Hw & [B1 B2] & Kw). fold N in Hw. fold x in B1, B2, Kw.
  pose proof (m_pos M HM) as MP. pose proof (norm_punit (vecR v) Hv) as NU. destruct HE as (_ & E0 & _).
  assert (Ka : near_vec (ranchor r) (padd (vecR (ranchor r)) (pscale 0 (punit (vecR v)))) 0) by (rewrite pos_zero; destruct Hp as ([F1 F2] & _); split; apply apx_exact; auto).
  eexists _, _. split; [exact Hw|]. split; [apply foot_ray; exact Hv|]. fold x. change (margin (-42) M) with (margin (11 - 53) M). change (margin (-43) M) with (margin (10 - 53) M) in *. rewrite !margin_unit in * by lia.
  change (IZR (2 ^ 11)) with 2048. change (IZR (2 ^ 10)) with 1024 in *. set (m := runit * M) in *. clearbody m. split; [|split].
  - intro X. rewrite Rmax_right by lra. destruct b.
    + apply (close_move _ _ _ _ 0 _ Kw); [rewrite dist_self; lra|lra].
    + destruct (Rlt_le_dec (1024 * m) (x + toR E)) as [K|K]; [discriminate (B1 K)|]. apply (close_move _ _ _ _ x _ Ka); [rewrite unit_dist by auto; rewrite Rabs_left1 by lra; lra|lra].
  - unfold Rmax. destruct (Rle_dec 0 x) as [X|X]; destruct b.
    + apply (close_move _ _ _ _ 0 _ Kw); [rewrite dist_self; lra|lra].
    + destruct (Rlt_le_dec (1024 * m) (x + toR E)) as [K|K]; [discriminate (B1 K)|]. apply (close_move _ _ _ _ x _ Ka); [rewrite unit_dist by auto; rewrite Rabs_left1 by lra; lra|lra].
    + destruct (Rlt_le_dec (x + toR E) (- (1024 * m))) as [K|K]; [discriminate (B2 K)|]. apply (close_move _ _ _ _ (- x) _ Kw); [rewrite unit_dist by auto; rewrite Rabs_left1 by lra; lra|lra].
    + apply (close_move _ _ _ _ 0 _ Ka); [rewrite dist_self; lra|lra].
  - intro K. destruct b; [|reflexivity]. discriminate B2. lra.
Qed.
Print Assumptions C119_ray.

(** ** Segments *)
(** [LineSegment(p, v).project(q)] likewise with both ends; clearly beyond the
    far end the result is the segment's [end] property, bit for bit. *)
Theorem C119_segment : forall (L : FloatLib) (E : PrimFloat.float) (M : R) (p v : vec PrimFloat.float),
  sqrt_ok L -> eps_ok L E -> room M -> within M p -> finite_vec v -> good_length E (norm (vecR v)) -> norm (vecR v) <= 4 * M ->
  let N := FNum L in exists s, seg_new E p v = Ok s /\
  forall q, within M q -> let x := offset_along (vecR p) (vecR v) (vecR q) in
  exists w n, seg_project E s q = Ok w /\ nearest (along_seg (vecR p) (vecR v) 1) (vecR q) n /\
    (0 <= x <= norm (vecR v) -> close_vec w n (margin (-42) M)) /\
    close_vec w n (toR E + margin (-42) M) /\
    (x < - toR E - margin (-43) M -> w = p) /\
    (norm (vecR v) + toR E + margin (-42) M < x -> w = seg_end s).
Proof.
  intros L E M p v HS HE HM Hp Fv G H4 N. destruct (seg_new_built L HS M HM E HE p v Hp Fv G H4) as (s & Hs & Nd & Ea & Kl). exists s. split; [exact Hs|].
  intros q Hq x. pose proof (good_pos _ _ G) as Hv. subst p.
  assert (HE4 : toR E <= 4 * M) by (destruct G as [_ G]; pose proof runit_pos; nra).
  destruct (seg_proj L M HM E HE (vecR v) Hv s q Nd Hp Hq H4 HE4 Kl) as (b & c & w & Hw & [B1 B2] & [C1 C2] & Kw). fold N in Hw. fold x in B1, B2, C1, C2, Kw.
  destruct (seg_end_near L M HM (vecR v) Hv s (norm (vecR v)) Nd Hp ltac:(lra) Kl) as (Ke & _). rewrite seg_end_R in Ke. unfold ideal_seg in Ke. cbn [sanchor slength sdn ideal_dirn ddir] in Ke. fold N in Ke.
  pose proof (m_pos M HM) as MP. pose proof (norm_punit (vecR v) Hv) as NU. destruct HE as (_ & E0 & _).
  assert (Ka : near_vec (sanchor s) (padd (vecR (sanchor s)) (pscale 0 (punit (vecR v)))) 0) by (rewrite pos_zero; destruct Hp as ([F1 F2] & _); split; apply apx_exact; auto).
  set (l := norm (vecR v)) in *. eexists _, _. split; [exact Hw|]. split; [apply foot_seg; exact Hv|]. fold x l. change (margin (-42) M) with (margin (11 - 53) M). change (margin (-43) M) with (margin (10 - 53) M) in *. rewrite !margin_unit in * by lia.
  change (IZR (2 ^ 11)) with 2048. change (IZR (2 ^ 10)) with 1024 in *. set (m := runit * M) in *. clearbody m l.
  assert (Z1 : b = true -> - x - toR E >= - (1024 * m)) by (intros ->; destruct (Rlt_le_dec (- x - toR E) (- (1024 * m))) as [K|K]; [discriminate (B2 K)|lra]).
  assert (Z2 : b = false -> - x - toR E <= 1024 * m) by (intros ->; destruct (Rlt_le_dec (1024 * m) (- x - toR E)) as [K|K]; [discriminate (B1 K)|lra]).
  assert (Z3 : c = true -> x - l - toR E >= - (1056 * m)) by (intros ->; destruct (Rlt_le_dec (x - l - toR E) (- (1056 * m))) as [K|K]; [discriminate (C2 K)|lra]).
  assert (Z4 : c = false -> x - l - toR E <= 1056 * m) by (intros ->; destruct (Rlt_le_dec (1056 * m) (x - l - toR E)) as [K|K]; [discriminate (C1 K)|lra]).
  split; [|split; [|split]].
  - intro X. replace (clampR 0 l x) with x by (rmm; lra). destruct b; [|destruct c].
    + specialize (Z1 eq_refl). apply (close_move _ _ _ _ x _ Ka); [rewrite unit_dist by auto; rewrite Rabs_left1 by lra; lra|lra].
    + specialize (Z3 eq_refl). apply (close_move _ _ _ _ (l - x) _ Ke); [rewrite unit_dist by auto; rewrite Rabs_pos_eq by lra; lra|lra].
    + apply (close_move _ _ _ _ 0 _ Kw); [rewrite dist_self; lra|lra].
  - assert (CL : clampR 0 l x = 0 /\ x < 0 \/ clampR 0 l x = x /\ 0 <= x <= l \/ clampR 0 l x = l /\ l < x) by (rmm; lra). set (k := clampR 0 l x) in *. clearbody k.
    destruct b; [|destruct c].
    + specialize (Z1 eq_refl). apply (close_move _ _ _ _ k _ Ka); [rewrite unit_dist by auto; rewrite Rabs_left1 by lra; lra|lra].
    + specialize (Z3 eq_refl). apply (close_move _ _ _ _ (l - k) _ Ke); [rewrite unit_dist by auto; rewrite Rabs_pos_eq by lra; lra|lra].
    + specialize (Z2 eq_refl). specialize (Z4 eq_refl). apply (close_move _ _ _ _ (Rabs (x - k)) _ Kw); [rewrite unit_dist by auto; lra|]. unfold Rabs. destruct (Rcase_abs (x - k)); lra.
  - intro K. destruct b; [reflexivity|]. specialize (Z2 eq_refl). lra.
  - intro K. destruct b; [specialize (Z1 eq_refl); lra|]. destruct c; [reflexivity|]. specialize (Z4 eq_refl). lra.
Qed.
Print Assumptions C119_segment.

(** The hypotheses hold (IEEE square root and product, EPSILON 2^-17, range
    1024, the shapes from the origin along (3, 4)), and the three cases of a
    projection on a segment are all taken. *)
Example C119_ex : sqrt_ok ieee_lib /\ eps_ok ieee_lib 0x1p-17 /\ room 1024 /\
  let p := (mkV 0 0)%float in let v := (mkV 3 4)%float in let N := FNum ieee_lib in
  within 1024 p /\ finite_vec v /\ good_length 0x1p-17 (norm (vecR v)) /\ norm (vecR v) <= 4 * 1024 /\
  within 1024 (mkV 7 1)%float /\ within 1024 (mkV (-1) 0)%float /\ within 1024 (mkV 6 9)%float /\
  match seg_new (N := N) 0x1p-17%float p v with
  | Ok s => seg_project (N := N) 0x1p-17%float s (mkV (-1) 0)%float = Ok p /\ seg_project (N := N) 0x1p-17%float s (mkV 6 9)%float = Ok (seg_end (N := N) s) /\
      exists w, seg_project (N := N) 0x1p-17%float s (mkV 3 1)%float = Ok w /\ w <> p /\ w <> seg_end (N := N) s
  | Err _ => False end.
Proof.
  destruct C88_ex as (HS & HE & HM & _ & W0 & _ & G & _). split; [exact HS|]. split; [exact HE|]. split; [exact HM|]. cbv zeta.
  assert (T3 : toR 3 = 3) by (vm_compute; lra). assert (T4 : toR 4 = 4) by (vm_compute; lra). assert (T6 : toR 6 = 6) by (vm_compute; lra).
  assert (T7 : toR 7 = 7) by (vm_compute; lra). assert (T9 : toR 9 = 9) by (vm_compute; lra). assert (T1 : toR 1 = 1) by (vm_compute; lra). assert (Tm : toR (-1) = -1) by (vm_compute; lra).
  assert (NV : norm (vecR (mkV 3 4)%float) = 5) by (apply norm_unique; [lra|]; unfold vecR; cbn [vx vy]; rewrite T3, T4; lra).
  split; [exact W0|]. split; [split; reflexivity|]. split.
  { replace (psub (vecR (mkV 3%float 4%float)) (vecR (mkV 0%float 0%float))) with (vecR (mkV 3%float 4%float)) in G; [exact G|].
    unfold psub, vecR. cbn [vx vy]. rewrite toR_0. f_equal; ring. }
  split; [rewrite NV; lra|].
  split; [split; [split; reflexivity|]; cbn [vx vy]; rewrite T7, T1, !Rabs_pos_eq by lra; lra|].
  split; [split; [split; reflexivity|]; cbn [vx vy]; rewrite Tm, toR_0, Rabs_R0, Rabs_left by lra; lra|].
  split; [split; [split; reflexivity|]; cbn [vx vy]; rewrite T6, T9, !Rabs_pos_eq by lra; lra|].
  vm_compute. split; [reflexivity|]. split; [reflexivity|]. eexists. split; [reflexivity|]. split; intro K; [apply (f_equal (fun z => PrimFloat.ltb 1 (vx z))) in K|apply (f_equal (fun z => PrimFloat.ltb (vx z) 2)) in K]; vm_compute in K; discriminate K.
Qed.
