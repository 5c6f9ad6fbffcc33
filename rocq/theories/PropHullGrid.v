(** * Property C95: the convex hull of doubles on a coarse grid *)
From Coq Require Import ZArith List Bool Reals Lra Lia Floats SpecFloat Permutation.
From Flocq Require Import Core IEEE754.PrimFloat IEEE754.BinarySingleNaN.
From Verif Require Import Num NumFloat OrdLaws FloatFacts FloatFacts2 Vec Affine Box Seq Polygon Hull RelPoly RelHull SpecGeom SpecHull SpecExtreme SpecExact SpecHullGrid FloatExact FloatErr FloatErr2 HullFacts2 HullFacts4 HullGrid PropHull NumHom RComp PropExact.
Import ListNotations.
Local Open Scope R_scope.

Lemma new_ok {T} {N : Num T} (h : list (vec T)) :
  if Nat.ltb (length h) 3 then poly_new h (Some true) None = Err ValueError
  else exists p, poly_new h (Some true) None = Ok p /\ pverts p = map vec2_of h /\ pconvex p = Some true /\ psimple p = Some true.
Proof.
  unfold poly_new, seq_new. rewrite map_length. destruct (Nat.ltb_spec (length h) 3) as [K|K]; [reflexivity|].
  cbv zeta. destruct h as [|v ws]; [cbn in K; lia|].
  assert (ES : exists pl, split_y_polylines (map vec2_of (v :: ws)) = Ok pl).
  { cbn [map]. unfold split_y_polylines, find_extrema. cbn [bind].
    destruct (Nat.ltb _ _); match goal with |- context [if ?b then Ok _ else Ok _] => destruct b end; eexists; reflexivity. }
  destruct ES as [pl ->]. unfold cleared. rewrite map_length. destruct (Nat.ltb 3 (length (v :: ws))); cbn [pconvex andb bind psimple]; (eexists; split; [reflexivity|]); auto.
Qed.

Section Grid.
  Context (L : FloatLib) (e : Z) (He : (-200 <= e <= 200)%Z).
  Local Instance NL : Num PrimFloat.float := FNum L.
  Notation hv := (RelHull.hv (grid e)).
  Lemma coarse_hc x : coarse e x -> hc (grid e) x (toR x).
  Proof using. intros (F & z & B & E). split; [exact F|]. split; [reflexivity|]. exists z. split; [exact B|]. rewrite E. do 2 f_equal. change (Z.of_nat 1) with 1%Z. lia. Qed.
  Lemma coarse_hv v : coarse_pt e v -> hv v (vecR v).
  Proof using. intros []. split; apply coarse_hc; auto. Qed.
  Lemma coarse_hvs vs : Forall (coarse_pt e) vs -> Forall2 hv vs (map vecR vs).
  Proof using. induction 1; cbn; constructor; auto. apply coarse_hv; auto. Qed.
  Lemma hv_vecR v w : hv v w -> vecR v = w.
  Proof using. destruct w as [x y]. intros [(_ & H1 & _) (_ & H2 & _)]. unfold vecR. cbn [vx vy] in *. congruence. Qed.
  Lemma hvs_vecR vs ws : Forall2 hv vs ws -> map vecR vs = ws.
  Proof using. induction 1; cbn; auto. f_equal; auto. apply hv_vecR; auto. Qed.
  Lemma hvs_all vs ws : Forall2 hv vs ws -> Forall (fun v => hv v (vecR v)) vs.
  Proof using. induction 1 as [|v w]; constructor; auto. rewrite (hv_vecR v w) by auto. auto. Qed.
  Lemma all_hvs vs : Forall (fun v => hv v (vecR v)) vs -> Forall2 hv vs (map vecR vs).
  Proof using. induction 1; cbn; constructor; auto. Qed.
  Lemma pt_eq_dec (a b : pt) : {a = b} + {a <> b}.
  Proof using. destruct a as [x y], b as [z t]. destruct (Req_EM_T x z), (Req_EM_T y t); [left; congruence|right; congruence..]. Qed.
  Definition order_R (so : list (vec PrimFloat.float) -> list (vec PrimFloat.float)) (up lo : list (vec PrimFloat.float)) (s : list pt) : list pt :=
    if list_eq_dec pt_eq_dec s (map vecR up) then map vecR (so up)
    else if list_eq_dec pt_eq_dec s (map vecR lo) then map vecR (so lo) else s.
  Lemma order_R_ok so up lo : reorders so -> reorders (order_R so up lo).
  Proof using.
    intros H s. unfold order_R. destruct (list_eq_dec pt_eq_dec s (map vecR up)) as [->|_]; [apply Permutation_map, H|].
    destruct (list_eq_dec pt_eq_dec s (map vecR lo)) as [->|_]; [apply Permutation_map, H|reflexivity].
  Qed.
  Definition the_order so (pts : list (vec PrimFloat.float)) : list pt -> list pt := order_R so (fst (halves pts)) (snd (halves pts)).
  Lemma quick_same so pts : reorders so -> Forall (coarse_pt e) pts ->
    rres (Forall2 hv) (quick_hull so pts) (quick_hull (the_order so pts) (map vecR pts)).
  Proof using He.
    intros Hso Hp. destruct He as [H1 H2]. pose proof (hull_laws L e H1 H2 : HullLaws NL (grid e)) as HL. pose proof (coarse_hvs _ Hp) as HP.
    destruct (h_halves (grid e) HL _ _ HP) as [U W]. pose proof (hvs_vecR _ _ U) as EU. pose proof (hvs_vecR _ _ W) as EW.
    assert (SO : forall s, Forall (fun v => hv v (vecR v)) s -> Forall2 hv (so s) (map vecR (so s))).
    { intros s Hs. apply all_hvs. rewrite Forall_forall in *. intros x Hx. apply Hs. eapply Permutation_in; [symmetry; apply Hso|auto]. }
    apply (h_quick (grid e) HL); auto; intros Hne; unfold the_order, order_R.
    - rewrite <- EU. destruct (list_eq_dec pt_eq_dec _ _) as [_|K]; [|contradiction]. apply SO. eapply hvs_all; eauto.
    - rewrite <- EW. destruct (list_eq_dec pt_eq_dec _ (map vecR (fst (halves pts)))) as [K|_].
      + exfalso. rewrite EU, EW in K. destruct (map vecR pts) as [|p t] eqn:EP; [apply Hne; reflexivity|].
        destruct (quick_shape (fun x => x) (p :: t)) as (l & r & up & lo & _ & _ & Hup & Hlo & _ & _ & _ & HQ); [discriminate|].
        destruct (HQ p t eq_refl) as (E1 & u & w & E2 & E3 & E4). unfold halves in K, Hne. rewrite E1, E2 in K, Hne. cbn [fst snd] in K, Hne. rewrite <- E3, <- E4 in K. rewrite <- E4 in Hne.
        destruct lo as [|q lo]; [contradiction|]. assert (Q1 : In q (q :: lo)) by (left; auto). pose proof Q1 as Q2. rewrite K in Q2. apply Hlo in Q1. apply Hup in Q2. lra.
      + destruct (list_eq_dec pt_eq_dec _ _) as [_|K]; [|contradiction]. apply SO. eapply hvs_all; eauto.
  Qed.
End Grid.

(** The hull computed on doubles is the one computed in exact arithmetic (for a
    suitable iteration order of the sets of real points). *)
Theorem C95_same_hull : forall (L : FloatLib) (e : Z) (so : list (vec PrimFloat.float) -> list (vec PrimFloat.float)) (pts : list (vec PrimFloat.float)),
  (-200 <= e <= 200)%Z -> Forall (coarse_pt e) pts -> reorders so -> let N := FNum L in
  exists so' : list pt -> list pt, reorders so' /\
    rmap (fun p => (map vecR (pverts p), pconvex p, psimple p)) (convex_hull so pts) = rmap (fun p => (pverts p, pconvex p, psimple p)) (convex_hull so' (map vecR pts)).
Proof.
  intros L e so pts He Hp Hso N. exists (the_order L so pts). split; [apply order_R_ok; auto|].
  pose proof (quick_same L e He so pts Hso Hp) as HQ. unfold convex_hull.
  destruct (quick_hull so pts) as [h|x], (quick_hull (the_order L so pts) (map vecR pts)) as [h'|x']; cbn [rres] in HQ; try contradiction; [|subst; reflexivity].
  cbn [bind]. pose proof (@new_ok _ N h) as A. pose proof (new_ok h') as B. rewrite <- (F2_length _ _ _ HQ) in B.
  destruct (Nat.ltb (length h) 3) eqn:E3; [rewrite A, B; reflexivity|]. destruct A as (p & EA & VA & CA & SA), B as (q & EB & VB & CB & SB). rewrite EA, EB. cbn [rmap]. rewrite CA, CB, SA, SB, VA, VB. do 3 f_equal.
  apply hvs_vecR with (e := e). eapply F2_map; [|exact HQ]. intros a b K. apply (RelHull.h_vec2_of (grid e) (hull_laws L e (proj1 He) (proj2 He))); exact K.
Qed.
Print Assumptions C95_same_hull.

(** What is raised, and what the vertices are. *)
Theorem C95_raises : forall (L : FloatLib) (e : Z) (so : list (vec PrimFloat.float) -> list (vec PrimFloat.float)) (pts : list (vec PrimFloat.float)),
  (-200 <= e <= 200)%Z -> Forall (coarse_pt e) pts -> reorders so -> let N := FNum L in
  match convex_hull so pts with
  | Ok p => pts <> [] /\ pconvex p = Some true /\ (forall v, In v (pverts p) -> In (vecR v) (map vecR pts)) /\
      (exists l, In l (pverts p) /\ leftmost (map vecR pts) (vecR l)) /\ (exists r, In r (pverts p) /\ rightmost (map vecR pts) (vecR r))
  | Err x => pts = [] /\ x = IndexError \/
      pts <> [] /\ x = ValueError /\ forall a b c, In a pts -> In b pts -> In c pts -> vecR a = vecR b \/ vecR b = vecR c \/ vecR a = vecR c
  end.
Proof.
  intros L e so pts He Hp Hso N. destruct (C95_same_hull L e so pts He Hp Hso) as (so' & Hso' & E). pose proof (C66_raises so' (map vecR pts) Hso') as HR.
  change (FNum L) with N in E. destruct (convex_hull so pts) as [p|x], (convex_hull so' (map vecR pts)) as [q|x'] eqn:EQ; cbn [rmap] in E; try discriminate.
  - injection E as EV EC ES. destruct (C66_from_input so' _ _ Hso' EQ) as (F1 & (l & Hl & Ll) & (r & Hr & Rr)). rewrite <- EV in F1, Hl, Hr.
    split; [intros ->; apply HR; reflexivity|]. split.
    { rewrite EC. unfold convex_hull in EQ. destruct (quick_hull so' (map vecR pts)) as [h|]; [|discriminate]. cbn [bind] in EQ. pose proof (new_ok h) as K. rewrite EQ in K.
      destruct (Nat.ltb _ 3); [discriminate|]. destruct K as (p' & K1 & _ & K2 & _). injection K1 as <-. exact K2. }
    split; [intros v Hv; apply F1, in_map; auto|]. apply in_map_iff in Hl, Hr. destruct Hl as (l' & El & Hl), Hr as (r' & Er & Hr).
    split; [exists l'; rewrite El; auto|exists r'; rewrite Er; auto].
  - injection E as ->. destruct HR as [[HR1 HR2]|(HR1 & HR2 & HR3)]; [left; split; auto; destruct pts; [auto|discriminate]|right].
    split; [intros ->; apply HR1; reflexivity|]. split; auto. intros a b c Ha Hb Hc. apply HR3; apply in_map; auto.
Qed.
Print Assumptions C95_raises.

(** Up to seven points, not all on one vertical line: every point is enclosed. *)
Theorem C95_encloses_few : forall (L : FloatLib) (e : Z) (so : list (vec PrimFloat.float) -> list (vec PrimFloat.float)) (pts : list (vec PrimFloat.float)) p,
  (-200 <= e <= 200)%Z -> Forall (coarse_pt e) pts -> reorders so -> (exists a b, In a pts /\ In b pts /\ toR (vx a) <> toR (vx b)) -> (length pts <= 7)%nat ->
  let N := FNum L in convex_hull so pts = Ok p -> forall q, In q pts -> encloses (map vecR (pverts p)) (vecR q).
Proof.
  intros L e so pts p He Hp Hso (a & b & Ha & Hb & Hab) HL N EP q Hq. destruct (C95_same_hull L e so pts He Hp Hso) as (so' & Hso' & E).
  change (FNum L) with N in E. rewrite EP in E. destruct (convex_hull so' (map vecR pts)) as [p'|] eqn:EQ; cbn [rmap] in E; [|discriminate]. injection E as EV _ _. rewrite EV.
  apply (C67_few_partial so' (map vecR pts) p' Hso'); auto; [|rewrite map_length; auto|apply in_map; auto].
  exists (vecR a), (vecR b). split; [apply in_map; auto|]. split; [apply in_map; auto|]. exact Hab.
Qed.
Print Assumptions C95_encloses_few.

(** The limit matters: of three integer points of 28 bits, the hull leaves one
    outside, whatever the iteration order. *)
Definition thin : list (Z * Z) := [(0, 0); (2 ^ 28, - (2 ^ 27 + 1)); (2 ^ 27 + 1, - (2 ^ 26 + 1))]%Z.
Theorem C95_limit_needed : forall (L : FloatLib) (so : list (vec PrimFloat.float) -> list (vec PrimFloat.float)), reorders so -> let N := FNum L in
  exists p q, convex_hull so (map fz thin) = Ok p /\ In q (map fz thin) /\ ~ encloses (map vecR (pverts p)) (vecR q).
Proof.
  intros L so Hso N. pose (h := map fz [(0, 0); (2 ^ 28, - (2 ^ 27 + 1)); (2 ^ 27 + 1, - (2 ^ 26 + 1))]%Z).
  assert (EH : quick_hull so (map fz thin) = Ok h).
  { unfold quick_hull. change (map fz thin) with (fz (0, 0)%Z :: tl (map fz thin)) at 1. cbv iota beta.
    assert (E1 : fold_left lr_step (map fz thin) (fz (0, 0)%Z, fz (0, 0)%Z) = (fz (0, 0)%Z, fz (2 ^ 28, - (2 ^ 27 + 1))%Z)) by (vm_compute; reflexivity). rewrite E1.
    assert (E2 : upper_lower (map fz thin) (fz (0, 0)%Z) (fz (2 ^ 28, - (2 ^ 27 + 1))%Z) = ([], map fz thin)) by (vm_compute; reflexivity). rewrite E2.
    assert (E3 : set_discard (set_discard (map fz thin) (fz (0, 0)%Z)) (fz (2 ^ 28, - (2 ^ 27 + 1))%Z) = [fz (2 ^ 27 + 1, - (2 ^ 26 + 1))%Z]) by (vm_compute; reflexivity). cbv zeta.
    change (set_discard (set_discard [] (fz (0, 0)%Z)) (fz (2 ^ 28, - (2 ^ 27 + 1))%Z)) with (@nil (vec PrimFloat.float)). rewrite E3.
    assert (E4 : so [fz (2 ^ 27 + 1, - (2 ^ 26 + 1))%Z] = [fz (2 ^ 27 + 1, - (2 ^ 26 + 1))%Z]) by (apply Permutation_length_1_inv, Hso). rewrite E4.
    vm_compute. reflexivity. }
  destruct (poly_new h (Some true) None) as [p|] eqn:EP; [|exfalso; pose proof (@new_ok _ N h) as K; rewrite EP in K; cbn in K; destruct K as (? & ? & _); discriminate].
  exists p, (fz (2 ^ 27 + 1, - (2 ^ 26 + 1))%Z). split; [unfold convex_hull; rewrite EH; exact EP|]. split; [cbn; auto|].
  rewrite (new_verts_any _ _ EP). assert (EV : map vec2_of h = h) by (vm_compute; reflexivity). rewrite EV.
  assert (ER : map vecR h = map zv thin). { unfold h. cbn [map thin]. rewrite !fz_R; [reflexivity|..]; cbn [fst snd]; lia. }
  rewrite ER, fz_R by (cbn [fst snd]; lia). intro K. specialize (K (zv (0, 0)%Z) (zv (2 ^ 28, - (2 ^ 27 + 1))%Z)). cbn [thin map cyc_pairs] in K.
  assert (IN : In (zv (0, 0)%Z, zv (2 ^ 28, - (2 ^ 27 + 1))%Z) (cyc_pairs (map zv thin))) by (cbn; auto). specialize (K IN).
  unfold orient, pcross, psub, zv in K. cbn [vx vy fst snd] in K.
  rewrite <- !minus_IZR, <- !mult_IZR, <- minus_IZR in K. apply le_IZR in K. cbn in K. lia.
Qed.
Print Assumptions C95_limit_needed.

Example C95_ex (L : FloatLib) : let N := FNum L in
  Forall (coarse_pt 0) (map fz hull_a) /\ rmap (fun p => map vecR (pverts p)) (convex_hull (fun x => x) (map fz hull_a)) = Ok (map zv hull_a_h).
Proof.
  intros N. assert (HC : Forall (coarse_pt 0) (map fz hull_a)).
  { apply Forall_forall. intros v Hv. apply in_map_iff in Hv. destruct Hv as (z & <- & Hz).
    assert (B : (Z.abs (fst z) <= 2 ^ 11)%Z /\ (Z.abs (snd z) <= 2 ^ 11)%Z). { revert z Hz. apply Forall_forall. repeat constructor; cbn; lia. }
    destruct B as [B1 B2]. destruct (float_of_Z_exact (fst z)) as [F1 V1]; [lia|]. destruct (float_of_Z_exact (snd z)) as [F2 V2]; [lia|].
    split; (split; [assumption|]); [exists (fst z)|exists (snd z)]; (split; [assumption|]); cbn [fz vx vy bpow]; rewrite Rmult_1_r; assumption. }
  split; auto. assert (EH : rmap pverts (convex_hull (fun x => x) (map fz hull_a)) = Ok (map fz hull_a_h)) by (vm_compute; reflexivity).
  destruct (convex_hull (fun x => x) (map fz hull_a)) as [p|]; cbn [rmap] in *; [|discriminate]. assert (EV : pverts p = map fz hull_a_h) by congruence. rewrite EV, fz_Rs; [reflexivity|]. apply small_dec. vm_compute. reflexivity.
Qed.
