(** * Histories of polygons on doubles in general position; the winding test near edges *)
From Coq Require Import ZArith List Bool Reals Lra Lia Floats.
From Flocq Require Import Core IEEE754.PrimFloat IEEE754.BinarySingleNaN.
From Verif Require Import Num NumFloat Vec Affine Box Seq Polygon Tangent PolyOps OrdLaws SpecGeom SpecErr SpecClear SpecPoly SpecWind SpecMass RBase FloatFacts FloatFacts2 FloatFacts3 FloatVec
  SpecExact FloatExact FloatErr FloatErr2 FloatErr4 FloatErr5 FloatErr6 RelPoly RelClear ClearFacts RComp PolyCache2 ConvexFacts3.
Import ListNotations.
Local Open Scope R_scope.

Section Hist.
  Context (L : FloatLib) (M : R) (HM : room M) (pts : list (vec PrimFloat.float)) (HW : Forall (within M) pts).
  Notation kv := (fkv M pts).
  Lemma pts_kv v : In v pts -> kv v (vecR v).
  Proof using HW. intro H. split; [rewrite Forall_forall in HW; auto|]. split; auto. apply in_map; auto. Qed.
  Lemma pts_kvs vs : incl vs pts -> Forall2 kv vs (map vecR vs).
  Proof using HW. intro H. induction vs as [|v vs IH]; cbn; constructor; [apply pts_kv, H; left; auto|apply IH; intros x Hx; apply H; right; auto]. Qed.
  Lemma pts_kops os : Forall (op_on (fun v => In v pts)) os -> Forall2 (kop kv) os (map opR os).
  Proof using HW. induction 1 as [|o os H _ IH]; cbn; constructor; auto. destruct o as [[]| | | |]; cbn in *; auto using pts_kv; tauto. Qed.
  Lemma kv_vecR v w : kv v w -> vecR v = w.
  Proof using. intro H. apply H. Qed.
  Lemma kvs_vecR vs ws : Forall2 kv vs ws -> map vecR vs = ws.
  Proof using. induction 1; cbn; auto. f_equal; auto. apply kv_vecR; auto. Qed.
  Lemma kcv_vecR v w : kcv (fkc M) v w -> vecR v = w.
  Proof using. destruct w as [x y]. intros [[_ H1] [_ H2]]. unfold vecR. cbn [vx vy] in *. congruence. Qed.
End Hist.

Fixpoint pairs_of {X} (v : X) (l : list X) : list (X * X) :=
  match l with [] => [] | x :: r => (v, x) :: pairs_of x r end.
Lemma cyc_pairs_of {X} (f : X) l : forall v d, cyc_pairs_from f (v :: l) = pairs_of v l ++ [(last (v :: l) d, f)].
Proof. induction l as [|x l IH]; intros v d; [reflexivity|]. change (cyc_pairs_from f (v :: x :: l)) with ((v, x) :: cyc_pairs_from f (x :: l)). rewrite (IH x d). reflexivity. Qed.
Lemma loop_pairs {X} (v : X) l e : In e (pairs_of (last (v :: l) v) (v :: l)) -> In e (cyc_pairs (v :: l)).
Proof.
  unfold cyc_pairs. rewrite (cyc_pairs_of v l v v). cbn [pairs_of]. intros [<-|H]; apply in_or_app; [right; left; auto|left; auto].
Qed.
Lemma last_in {X} (l : list X) d : l <> [] -> In (last l d) l.
Proof. intro H. destruct (exists_last H) as (k & x & ->). rewrite last_last. apply in_or_app. right; left; auto. Qed.

Lemma no_shortcut {T} {N : Num T} (vs : list (vec T)) p : (3 < length vs)%nat -> radial_shortcut (poly_from_points vs) p = Ok None.
Proof.
  intro H. unfold radial_shortcut, poly_from_points, cleared. destruct (Nat.ltb_spec 3 (length vs)); [|lia]. cbn [pcentroid pverts].
  destruct (Nat.ltb _ _); reflexivity.
Qed.

Section Wind.
  Context (L : FloatLib) (M : R) (HM : room M).
  Local Instance NL2 : Num PrimFloat.float := FNum L.
  Definition near_free (p : vec PrimFloat.float) (e : vec PrimFloat.float * vec PrimFloat.float) : Prop :=
    crosses_height (vecR p) (vecR (fst e)) (vecR (snd e)) -> margin (-47) (M * M) < Rabs (orient (vecR (fst e)) (vecR (snd e)) (vecR p)).
  Lemma contrib_same p a b : within M p -> within M a -> within M b -> near_free p (a, b) ->
    wind_contrib p a b = wind_contrib (vecR p) (vecR a) (vecR b).
  Proof using HM.
    intros P A B C. unfold near_free in C. cbn [fst snd] in C.
    assert (F : finite (vy p) /\ finite (vy a) /\ finite (vy b)) by (destruct P as [[] _], A as [[] _], B as [[] _]; auto). destruct F as (Fp & Fa & Fb).
    assert (EA : (@nleb _ NL2 (vy p) (vy a)) = (@nleb _ RNum (vy (vecR p)) (vy (vecR a)))) by (apply toR_le; auto).
    assert (EB : (@nleb _ NL2 (vy p) (vy b)) = (@nleb _ RNum (vy (vecR p)) (vy (vecR b)))) by (apply toR_le; auto).
    unfold wind_contrib. rewrite EA, EB. destruct (xorb _ _) eqn:X; [|reflexivity].
    assert (K : ksg (side a b p) (side (vecR a) (vecR b) (vecR p))).
    { apply (sign_ksg L), (side_sign L M HM); auto. intros _ _ _. apply C. unfold crosses_height.
      cbn [nleb RNum] in X. unfold Rleb in X. destruct (Rle_dec (vy (vecR p)) (vy (vecR a))), (Rle_dec (vy (vecR p)) (vy (vecR b))); try discriminate X; [right|left]; lra. }
    rewrite (k_le0 _ _ K), (k_ge0 _ _ K). reflexivity.
  Qed.
  Lemma loop_same p : within M p -> forall vs, Forall (within M) vs -> forall v w, within M v ->
    (forall e, In e (pairs_of v vs) -> near_free p e) -> wind_loop p v w vs = wind_loop (vecR p) (vecR v) w (map vecR vs).
  Proof using HM.
    intros P. induction vs as [|x vs IH]; intros F v w V C; [reflexivity|]. inversion F; subst. cbn [map wind_loop].
    rewrite (contrib_same p v x); auto; [|apply C; cbn; auto]. apply IH; auto. intros e He. apply C. cbn. auto.
  Qed.
  Lemma winding_same p vs : within M p -> Forall (within M) vs -> (forall e, In e (cyc_pairs vs) -> near_free p e) ->
    winding_test vs p = winding_test (map vecR vs) (vecR p).
  Proof using HM.
    intros P F C. unfold winding_test. destruct vs as [|v vs]; [reflexivity|].
    rewrite (py_get_last _ v), (py_get_last _ (vecR v)) by discriminate. cbn [bind]. do 3 f_equal.
    change (vecR v :: map vecR vs) with (map vecR (v :: vs)). rewrite (last_map vecR). assert (I : In (last (v :: vs) v) (v :: vs)) by (apply last_in; discriminate). apply (loop_same p P (v :: vs) F); [rewrite Forall_forall in F; auto|]. intros e He. apply C, loop_pairs, He.
  Qed.

  (** Bounding boxes are exact. *)
  Definition st4 (s : PrimFloat.float * PrimFloat.float * PrimFloat.float * PrimFloat.float) : R * R * R * R :=
    let '(a, b, c, d) := s in (toR a, toR b, toR c, toR d).
  Definition fin4 (s : PrimFloat.float * PrimFloat.float * PrimFloat.float * PrimFloat.float) : Prop :=
    let '(a, b, c, d) := s in (finite a /\ finite b) /\ finite c /\ finite d.
  Lemma minmax_same s v : fin4 s -> finite_vec v -> fin4 (minmax_step s v) /\ st4 (minmax_step s v) = minmax_step (st4 s) (vecR v).
  Proof using.
    destruct s as [[[a b] c] d]. intros ((Fa & Fb) & Fc & Fd) [Fx Fy]. unfold minmax_step, st4. cbn [vecR vx vy].
    change (@n1 _ NL2) with 1%float. change (@n1 _ RNum) with 1. cbn [nltb nmul NL2 FNum RNum]. rewrite !fmul1, !Rmult_1_r.
    rewrite !toR_lt by auto.
    repeat match goal with |- context [if ?x then _ else _] => destruct x end; unfold fin4; auto.
  Qed.
  Lemma box_same vs : Forall (within M) vs -> rmap boxR (box_from_points vs) = box_from_points (map vecR vs) /\
    (forall b, box_from_points vs = Ok b -> finite_vec (bmin b) /\ finite_vec (bmax b)).
  Proof using.
    intro F. destruct vs as [|v vs]; [split; [reflexivity|discriminate]|]. inversion F as [|? ? [[F1 F2] _] F']; subst. unfold box_from_points. cbn [map].
    assert (G : forall l s, Forall (within M) l -> fin4 s -> fin4 (fold_left minmax_step l s) /\ st4 (fold_left minmax_step l s) = fold_left minmax_step (map vecR l) (st4 s)).
    { induction l as [|x l IH]; intros s Hl Hs; [auto|]. inversion Hl as [|? ? [Fx _] Hl']; subst. cbn [map fold_left].
      destruct (minmax_same s x Hs Fx) as [K1 K2]. rewrite <- K2. apply IH; auto. }
    destruct (G vs (vx v, vy v, vx v, vy v) F') as [G1 G2]; [cbn; auto|]. cbn [st4] in G2. cbn [vecR vx vy]. rewrite <- G2.
    destruct (fold_left minmax_step vs _) as [[[a b] c] d]. cbn [st4]. destruct G1 as ((Fa & Fb) & Fc & Fd).
    unfold vec2. change (@n1 _ NL2) with 1%float. change (@n1 _ RNum) with 1. cbn [nmul NL2 FNum RNum]. rewrite !fmul1, !Rmult_1_r.
    split; [reflexivity|]. intros bx [= <-]. cbn. unfold finite_vec; cbn; auto.
  Qed.
  Lemma fresh_contains E E' vs p : (4 <= length vs)%nat -> within M p -> Forall (within M) vs -> (forall e, In e (cyc_pairs vs) -> near_free p e) ->
    fst (contains_point E p (poly_from_points vs)) = fst (contains_point E' (vecR p) (poly_from_points (map vecR vs))).
  Proof using HM.
    intros Hn P F C. unfold contains_point. rewrite !no_shortcut by (rewrite ?map_length; lia). unfold poly_from_points, cleared. rewrite !map_length.
    destruct (Nat.ltb_spec 3 (length vs)); [|lia]. cbn [pverts pypl]. rewrite !map_length.
    destruct (Nat.eqb_spec (length vs) 3); [lia|].
    destruct (Nat.eqb (length vs) 4); [cbn [fst]; apply winding_same; auto|].
    unfold get_bbox. cbn [pbbox pverts]. destruct (box_same vs F) as [B1 B2]. rewrite <- B1.
    destruct (box_from_points vs) as [b|e]; cbn [rmap]; [|reflexivity]. destruct (B2 b eq_refl) as [[X1 X2] [Y1 Y2]].
    assert (EB : box_contains b p = box_contains (boxR b) (vecR p)).
    { destruct P as [[P1 P2] _]. unfold box_contains, boxR. cbn [bmin bmax vecR vx vy nleb nltb NL2 FNum RNum]. rewrite !toR_le, !toR_lt by auto. reflexivity. }
    cbn [fst snd]. rewrite EB. destruct (@box_contains R RNum (boxR b) (vecR p)); [|reflexivity]. cbn [fst pverts]. apply winding_same; auto.
  Qed.
End Wind.
