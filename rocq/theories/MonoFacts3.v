(** * A convex cycle climbs once and descends once *)
From Coq Require Import ZArith List Bool Arith Lia Permutation Reals Lra Psatz Sorted.
From Verif Require Import Num Vec Affine Box Seq Polygon SpecGeom SpecAffine SpecBox SpecMass SpecWind SpecConvex SpecExtreme RBase VecFacts VecFacts2 AffineFacts PolyCache2 SpecCycle PolyEq CentroidFacts WindFacts
  ConvexFacts ConvexFacts2 ConvexFacts3 ConvexFacts4 MonoFacts MonoFacts2.
Import ListNotations.
Local Open Scope R_scope.

Definition nneg : R -> Prop := Rle 0.
Definition npos (x : R) : Prop := x <= 0.
Lemma rsum_app l m : rsum (l ++ m) = rsum l + rsum m.
Proof. unfold rsum. induction l as [|a l IH]; cbn [app fold_right]; [ring|]. rewrite IH. ring. Qed.
Lemma zeros_up l : Forall nneg l -> rsum l <= 0 -> Forall npos l.
Proof.
  induction 1 as [|a l H F IH]; intro S; constructor; change (rsum (a :: l)) with (a + rsum l) in S; pose proof (rsum_nonneg l F); unfold nneg, npos in *; [lra|apply IH; lra].
Qed.
Lemma zeros_down l : Forall npos l -> 0 <= rsum l -> Forall nneg l.
Proof.
  induction 1 as [|a l H F IH]; intro S; constructor; change (rsum (a :: l)) with (a + rsum l) in S; pose proof (rsum_nonpos l F); unfold nneg, npos in *; [lra|apply IH; lra].
Qed.
Lemma climb2 (P Q A B : list R) (H : R) : P ++ Q = A ++ B -> Forall nneg A -> Forall npos B -> rsum P = H -> rsum A <= H -> Forall nneg P /\ Forall npos Q.
Proof.
  intros E FA FB HP HA. apply app_split in E as [(r & -> & ->)|(r & -> & ->)].
  - apply Forall_app in FB as [Fr FQ]. rewrite rsum_app in HP. split; auto. apply Forall_app. split; auto. apply zeros_down; auto. lra.
  - apply Forall_app in FA as [FP Fr]. rewrite rsum_app in HA. split; auto. apply Forall_app. split; auto. apply zeros_up; auto. lra.
Qed.
Definition blocked (ds : list R) : Prop := exists A1 A2 A3, ds = A1 ++ A2 ++ A3 /\
  ((Forall nneg A1 /\ Forall npos A2 /\ Forall nneg A3) \/ (Forall npos A1 /\ Forall nneg A2 /\ Forall npos A3)).
Lemma climb (P Q : list R) (H : R) : blocked (P ++ Q) -> rsum P = H -> rsum (P ++ Q) = 0 -> (forall x y, P ++ Q = x ++ y -> 0 <= rsum x <= H) -> Forall nneg P /\ Forall npos Q.
Proof.
  intros (A1 & A2 & A3 & E & [(F1 & F2 & F3)|(F1 & F2 & F3)]) HP H0 Hx.
  - pose proof (Hx (A1 ++ A2) A3 ltac:(rewrite E, app_assoc; auto)) as S. rewrite E, !rsum_app in H0. rewrite rsum_app in S.
    apply (climb2 P Q A1 (A2 ++ A3) H); auto; [|apply (Hx A1 (A2 ++ A3)); auto]. apply Forall_app. split; auto. apply zeros_up; auto. lra.
  - pose proof (Hx A1 (A2 ++ A3) E) as S.
    apply (climb2 P Q (A1 ++ A2) A3 H); auto; [rewrite E, app_assoc; auto| |apply (Hx (A1 ++ A2) A3); rewrite E, app_assoc; auto]. apply Forall_app. split; auto. apply zeros_down; auto. lra.
Qed.
Lemma unfilter {X} (f : X -> bool) (ds : list X) : forall A B, filter f ds = A ++ B -> exists A' B', ds = A' ++ B' /\ filter f A' = A /\ filter f B' = B.
Proof.
  induction ds as [|d ds IH]; intros A B H; cbn [filter] in H.
  - symmetry in H. apply app_eq_nil in H as [-> ->]. exists [], []. auto.
  - destruct (f d) eqn:Fd.
    + destruct A as [|a A]; cbn [app] in H.
      * exists [], (d :: ds). split; auto. split; auto. cbn [filter]. rewrite Fd. auto.
      * injection H as -> H. destruct (IH A B H) as (A' & B' & -> & E1 & E2). exists (a :: A'), B'. split; auto. split; auto. cbn [filter]. rewrite Fd, E1. auto.
    + destruct (IH A B H) as (A' & B' & -> & E1 & E2). exists (d :: A'), B'. split; auto. split; auto. cbn [filter]. rewrite Fd, E1. auto.
Qed.
Lemma filter_Forall {X} (f : X -> bool) (Q : X -> Prop) l : (forall x, f x = false -> Q x) -> Forall Q (filter f l) -> Forall Q l.
Proof. intro H. induction l as [|a l IH]; cbn [filter]; intro F; constructor; destruct (f a) eqn:E; auto; inversion F; auto. Qed.

(** Swap of the coordinates. *)
Definition swp (v : pt) : pt := mkV (vy v) (vx v).
Definition swm : affine R := mkA 0 1 0 1 0 0.
Lemma swp_img v : swp v = img swm v.
Proof. unfold swp, swm. destruct v as [x y]. unfold img. cbn. vext; ring. Qed.
Lemma swp_inj a b : swp a = swp b -> a = b.
Proof. destruct a as [a1 a2], b as [b1 b2]. unfold swp. cbn [vx vy]. intro H. apply mkV_inj in H as [-> ->]. auto. Qed.
Lemma swp_changes (s : R) (l : list pt) : tsign s -> visits_once l -> sided s l -> spread l -> (changes (map swp l) <= 2)%nat.
Proof.
  intros Ts V Sd Sp. assert (E : map swp l = map (img swm) l) by (apply map_ext; apply swp_img).
  assert (D : det swm <> 0) by (unfold det, swm; cbn; lra).
  assert (V' : visits_once (map swp l)) by (apply once_map; [exact swp_inj|auto]).
  assert (S' : sided 1 (map swp l) \/ sided (-1) (map swp l)). { rewrite E. apply sided_img; auto. destruct Ts as [-> | ->]; auto. }
  assert (P' : spread (map swp l)) by (rewrite E; apply spread_img; auto).
  destruct S' as [S'|S']; [apply (complete_once 1)|apply (complete_once (-1))]; auto; [left|right]; auto.
Qed.
Lemma dirs_y (v : pt) : (dir_of v = (-1)%Z -> nneg (vx v)) /\ (dir_of v = 1%Z -> npos (vx v)).
Proof. rewrite dir_fwd, dir_bwd. unfold fwd, vneg, pscale, nneg, npos. cbn [vx vy]. split; intros [H|[H _]]; lra. Qed.
Lemma blocks_y (a : pt) l : nn a -> Forall nn l -> (nch (adj a l) <= 2)%nat -> forall ds, filter vec_bool ds = a :: l -> blocked (map vx ds).
Proof.
  intros Ha Hl Hc ds E. destruct (blocks3 l a Ha Hl Hc) as (l1 & l2 & l3 & -> & F1 & F2 & F3).
  change (a :: l1 ++ l2 ++ l3) with ((a :: l1) ++ l2 ++ l3) in E. apply unfilter in E as (A & B & -> & E1 & E2). apply unfilter in E2 as (B1 & B2 & -> & E2 & E3).
  exists (map vx A), (map vx B1), (map vx B2). rewrite !map_app. split; auto.
  assert (N : forall (Q : R -> Prop), Q 0 -> forall x : pt, vec_bool x = false -> Q (vx x)).
  { intros Q Q0 x Hx. destruct (veq_dec_R x porigin) as [->|Z]; [exact Q0|]. apply vec_bool_nn in Z. congruence. }
  assert (Up : forall l l', filter vec_bool l' = l -> Forall (fun v => dir_of v = (-1)%Z) l -> Forall nneg (map vx l')).
  { intros k k' <- F. apply Forall_map. apply (filter_Forall vec_bool); [apply (N nneg); unfold nneg; lra|]. eapply Forall_impl; [|exact F]. intros v Hv. apply dirs_y; auto. }
  assert (Dn : forall l l', filter vec_bool l' = l -> Forall (fun v => dir_of v = 1%Z) l -> Forall npos (map vx l')).
  { intros k k' <- F. apply Forall_map. apply (filter_Forall vec_bool); [apply (N npos); unfold npos; lra|]. eapply Forall_impl; [|exact F]. intros v Hv. apply dirs_y; auto. }
  unfold samed, oppd in *. destruct (dir_nn a Ha) as [D|D]; rewrite D in *; [left|right].
  - split; [eapply Up; eauto|]. split; [eapply Dn; eauto|eapply Up; eauto].
  - split; [eapply Dn; eauto|]. split; [eapply Up; eauto|eapply Dn; eauto].
Qed.
Lemma nch_prefix l m : (nch l <= nch (l ++ m))%nat.
Proof. rewrite nch_app. lia. Qed.
(** The climb and the descent of a cycle that starts at a lowest vertex. *)
Lemma climb_cycle (s : R) (lo hi : pt) (p q : list pt) : let l := lo :: p ++ hi :: q in
  tsign s -> visits_once l -> sided s l -> spread l -> (forall v, In v l -> vy lo <= vy v <= vy hi) ->
  asc (lo :: p ++ [hi]) /\ asc (rev (hi :: q ++ [lo])).
Proof.
  intros l Ts V Sd Sp HY. pose proof (swp_changes s l Ts V Sd Sp) as C. unfold changes, edgev in C.
  assert (E : map diff (cyc_pairs (map swp l)) = map swp (map diff (adj lo (p ++ [hi])) ++ map diff (adj hi (q ++ [lo])))).
  { rewrite <- map_app. subst l. replace (p ++ hi :: q) with ((p ++ [hi]) ++ q) by (rewrite <- app_assoc; auto).
    rewrite cyc_map, cyc_cons, map_map, map_map. rewrite <- app_assoc, adj_app, last_last. apply map_ext. intros [a b]. unfold diff, swp. cbn [fst snd]. ug. vext; ring. }
  rewrite E in C. set (eu := map diff (adj lo (p ++ [hi]))) in *. set (ed := map diff (adj hi (q ++ [lo]))) in *.
  assert (M : map vx (map swp (eu ++ ed)) = map vy eu ++ map vy ed) by (rewrite map_map, <- map_app; reflexivity).
  assert (B : blocked (map vy eu ++ map vy ed)).
  { rewrite <- M. destruct (filter vec_bool (map swp (eu ++ ed))) as [|a r] eqn:EF.
    - exists [], [], (map vx (map swp (eu ++ ed))). split; auto. left. split; [constructor|]. split; [constructor|]. apply Forall_map, (filter_Forall vec_bool); [|rewrite EF; constructor].
      intros x Hx. destruct (veq_dec_R x porigin) as [->|Z]; [unfold nneg; cbn; lra|]. apply vec_bool_nn in Z. congruence.
    - assert (F : Forall nn (a :: r)). { rewrite <- EF. apply Forall_forall. intros x Hx. apply filter_In in Hx as [_ Hx]. apply vec_bool_nn; auto. }
      inversion F; subst. apply (blocks_y a r); auto. rewrite cyc_cons in C. rewrite adj_app in C. eapply Nat.le_trans; [apply nch_prefix|exact C]. }
  assert (T : forall c k (f := fun e : pt * pt => vy (snd e) - vy (fst e)), map vy (map diff (adj c k)) = map f (adj c k)).
  { intros c k f. rewrite map_map. apply map_ext. intros [a b]. unfold diff, f. cbn [fst snd]. ug. auto. }
  assert (S1 : rsum (map vy eu) = vy hi - vy lo). { subst eu. rewrite T, adj_telescope, last_last. auto. }
  assert (S2 : rsum (map vy ed) = vy lo - vy hi). { subst ed. rewrite T, adj_telescope, last_last. auto. }
  destruct (climb (map vy eu) (map vy ed) (vy hi - vy lo)) as [F1 F2]; auto.
  { rewrite rsum_app. lra. }
  { intros x y Exy. rewrite <- map_app in Exy. symmetry in Exy.
    assert (X : exists x' y', eu ++ ed = x' ++ y' /\ x = map vy x'). { clear - Exy. revert x y Exy. induction (eu ++ ed) as [|z zs IH]; intros x y H; cbn [map] in H.
      - apply app_eq_nil in H as [-> ->]. exists [], []. auto.
      - destruct x as [|x0 x]; [exists [], (z :: zs); auto|]. cbn [app] in H. injection H as -> H. destruct (IH x y H) as (x' & y' & -> & ->). exists (z :: x'), y'. auto. }
    destruct X as (x' & y' & X & ->). 
    assert (EE : eu ++ ed = map diff (adj lo (p ++ hi :: q ++ [lo]))). { subst eu ed. rewrite <- map_app. f_equal. replace (p ++ hi :: q ++ [lo]) with ((p ++ [hi]) ++ q ++ [lo]) by (rewrite <- app_assoc; auto). rewrite (adj_app (p ++ [hi])), last_last. auto. }
    rewrite EE in X. apply path_vertices in X.
    assert (VX : vy (padd lo (vsum x')) = vy lo + rsum (map vy x')). { clear. unfold vsum, rsum. induction x' as [|z x' IH]; cbn [map fold_right] in *; [ug; ring|]. revert IH. ug. intro. lra. }
    assert (In (padd lo (vsum x')) l). { subst l. destruct X as [<-|X]; [left; auto|]. apply in_app_iff in X as [X|[X|X]]; [right; apply in_app_iff; auto|right; apply in_app_iff; right; left; auto|].
      apply in_app_iff in X as [X|[<-|[]]]; [right; apply in_app_iff; right; right; auto|left; auto]. }
    apply HY in H. rewrite VX in H. lra. }
  subst eu ed. rewrite T in F1, F2. split.
  - apply Sorted_StronglySorted; [intros a b c; unfold yle; lra|]. apply adj_sorted. rewrite Forall_map in F1. eapply Forall_impl; [|exact F1]. intros [a b]. unfold nneg, yle. cbn [fst snd]. lra.
  - assert (G : StronglySorted (fun a b => vy b <= vy a) (hi :: q ++ [lo])).
    { apply Sorted_StronglySorted; [intros a b c; lra|]. apply adj_sorted. rewrite Forall_map in F2. eapply Forall_impl; [|exact F2]. intros [a b]. unfold npos. cbn [fst snd]. lra. }
    clear - G. revert G. generalize (hi :: q ++ [lo]). intros k G. induction G as [|a k G IH F]; [constructor|]. cbn [rev]. unfold asc in *. clear G.
    assert (F' : Forall (fun b => vy b <= vy a) (rev k)) by (apply Forall_rev; auto). clear F. induction IH as [|x m S I2 FX]; [constructor; constructor|].
    cbn [app]. inversion F'; subst. constructor; auto. apply Forall_app. split; auto.
Qed.
