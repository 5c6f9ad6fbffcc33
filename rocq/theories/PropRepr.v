(** * C92: the printed form of an object evaluates to an equal object *)
From Coq Require Import ZArith List String Ascii Bool Lia Reals Lra Floats.
From Flocq Require Import Core IEEE754.PrimFloat IEEE754.BinarySingleNaN.
From Verif Require Import Num NumFloat Vec Affine Box Line LineOps Seq Polygon PolyOps OrdLaws SpecGeom SpecLine SpecCycle SpecPoly SpecBox PolyCache PolyCache2 PolyCache3 PolyEq RBase VecFacts VecFacts2 LineFacts LineFacts2 PropPoly PropPolyEq
  FloatFacts FloatFacts2 FloatFacts3 FloatVec SpecExact FloatExact FloatErr FloatErr2 FloatErr3 FloatErr4 FloatErr7 PropErr FloatRepr Repr SpecExpr ReprFacts.
Import ListNotations.
Local Open Scope R_scope.

(** ** Vectors, transforms, arrays: the same object, on reals and on doubles *)
Theorem C92_vec : forall (T : Type) (N : Num T) (D : T -> Prop), OrdLaws T N D ->
  forall (show : T -> string) (read : string -> option T) (E : T) (v : vec T),
  legible_pt show read v -> evaluate read E (repr_vec show v) = Some (Ok (VVec v)).
Proof.
  intros T N D O show read E v H. rewrite (eval_vec show read E v H). unfold vec2_of, vec2. rewrite !(ol_mul1 _ _ _ O). destruct v; reflexivity.
Qed.
Print Assumptions C92_vec.
Theorem C92_affine : forall (T : Type) (N : Num T) (D : T -> Prop), OrdLaws T N D ->
  forall (show : T -> string) (read : string -> option T) (E : T) (m : affine T),
  Forall (legible show read) [aa m; ab m; ac m; ad m; ae m; af m] -> evaluate read E (repr_affine show m) = Some (Ok (VAffine m)).
Proof.
  intros T N D O show read E m H. rewrite (eval_affine show read E m H). unfold affine_new. rewrite !(ol_mul1 _ _ _ O). destruct m; reflexivity.
Qed.
Print Assumptions C92_affine.
Lemma seq_new_id {T} {N : Num T} (D : T -> Prop) : OrdLaws T N D -> forall l : list (vec T), seq_new l = l.
Proof.
  intros O l. unfold seq_new. rewrite <- (map_id l) at 2. apply map_ext. intros [a b]. unfold vec2_of, vec2. cbn [vx vy]. rewrite !(ol_mul1 _ _ _ O). reflexivity.
Qed.
Theorem C92_array : forall (T : Type) (N : Num T) (D : T -> Prop), OrdLaws T N D ->
  forall (show : T -> string) (read : string -> option T) (E : T) (l : list (vec T)),
  Forall (legible_pt show read) l -> evaluate read E (repr_array show l) = Some (Ok (VArray l)).
Proof.
  intros T N D O show read E l H. rewrite (eval_array show read E l H). rewrite (seq_new_id D O). reflexivity.
Qed.
Print Assumptions C92_array.

(** ** Boxes: an equal box *)
Theorem C92_box : forall (T : Type) (N : Num T) (D : T -> Prop), OrdLaws T N D ->
  forall (show : T -> string) (read : string -> option T) (E : T) (b : bbox T),
  ord_pt D (bmin b) -> ord_pt D (bmax b) -> (vx (bmax b) <? vx (bmin b))%num = false -> (vy (bmax b) <? vy (bmin b))%num = false ->
  legible_pt show read (bmin b) -> legible_pt show read (bmax b) ->
  exists b', evaluate read E (repr_box show b) = Some (Ok (VBox b')) /\ box_eqb b b' = true.
Proof.
  intros T N D O show read E [[x1 y1] [x2 y2]] [D1 D2] [D3 D4] Hx Hy H1 H2. rewrite (eval_box show read E _ H1 H2). cbn [bmin bmax vx vy] in *.
  unfold box_from_points. cbn [fold_left minmax_step vx vy]. rewrite Hx, Hy. unfold vec2. 
  assert (R : forall x, D x -> (x =? x)%num = true) by (intros x d; rewrite (ol_eq _ _ _ O) by auto; rewrite (ol_irrefl _ _ _ O); reflexivity).
  assert (K : forall a b c : T, D a -> D b -> (b <? a)%num = false -> (c = a /\ (a <? b)%num = false \/ c = b) -> (b =? c)%num = true).
  { intros a b c da db Hab [[-> Hc]| ->]; auto. rewrite (ol_eq _ _ _ O) by auto. rewrite Hab, Hc. reflexivity. }
  destruct (x1 <? x2)%num eqn:Ex, (y1 <? y2)%num eqn:Ey; rewrite ?Ex, ?Ey; cbv beta iota zeta; eexists; (split; [reflexivity|]);
    unfold box_eqb, vec_eqb; cbn [bmin bmax vx vy]; rewrite !(ol_mul1 _ _ _ O), !R by auto; cbn [andb];
    rewrite ?(K x1 x2 x1), ?(K y1 y2 y1) by auto; rewrite ?R by auto; reflexivity.
Qed.
Print Assumptions C92_box.

(** ** Polygons: the same vertices and, apart from a simplicity known while the
    convexity is not (C72), the same known classification *)
Theorem C92_polygon : forall (T : Type) (N : Num T) (D : T -> Prop), OrdLaws T N D ->
  forall (show : T -> string) (read : string -> option T) (E : T) (p : poly T),
  reachable p -> (3 <= List.length (pverts p))%nat -> Forall (ord_pt D) (pverts p) -> Forall (legible_pt show read) (pverts p) ->
  exists q, evaluate read E (repr_poly show p) = Some (Ok (VPoly q)) /\ pverts q = pverts p /\ poly_eqb p q = Ok true /\
    is_convex_known q = is_convex_known p /\
    (is_convex_known p = true \/ is_simple_known p = false -> pconvex q = pconvex p /\ psimple q = psimple p).
Proof.
  intros T N D O show read E p Hr HL HD H. rewrite (eval_poly show read E p H).
  assert (EQ : forall q, pverts q = pverts p -> poly_eqb p q = Ok true).
  { intros q Hq. unfold poly_eqb. rewrite Hq. destruct (C64_equivalence T N D O p p p HL HL HL HD HD HD) as [Z _]. exact Z. }
  destruct (pconvex p) eqn:Ec; [|destruct (psimple p) eqn:Es].
  - destruct (C72_round_trip_partial T N D O p Hr HL) as (q & Hq & A & B & C); [left; unfold is_convex_known; rewrite Ec; reflexivity|].
    rewrite Hq. exists q. split; [reflexivity|]. split; [exact A|]. split; [auto|]. unfold is_convex_known. rewrite B, C, Ec. auto.
  - unfold poly_repr. rewrite Ec. unfold poly_new. rewrite (seq_new_id D O). destruct (Nat.ltb_spec (List.length (pverts p)) 3); [lia|].
    assert (Hc : pconvex (cleared (pverts p) None) = None).
    { destruct (Nat.eq_dec (List.length (pverts p)) 3) as [e|].
      - exfalso. destruct (finv_reachable p Hr) as [h1 _ _]. destruct (h1 ltac:(lia)) as [h _]. congruence.
      - unfold cleared. replace (Nat.ltb 3 (List.length (pverts p))) with true; [reflexivity|]. symmetry. apply Nat.ltb_lt. lia. }
    cbn [bind rmap]. eexists. split; [reflexivity|]. split; [reflexivity|]. split; [apply EQ; reflexivity|].
    unfold is_convex_known, is_simple_known. rewrite Hc, Ec, Es. split; [reflexivity|]. intros [K|K]; discriminate.
  - destruct (C72_round_trip_partial T N D O p Hr HL) as (q & Hq & A & B & C); [right; unfold is_simple_known; rewrite Es; reflexivity|].
    rewrite Hq. exists q. split; [reflexivity|]. split; [exact A|]. split; [auto|]. unfold is_convex_known. rewrite B, C, Ec, Es. auto.
Qed.
Print Assumptions C92_polygon.

(** ** Lines, rays and segments, in exact arithmetic: the same object *)
Lemma unit_self (d : pt) : norm d = 1 -> unit d = d.
Proof. intro H. destruct d as [x y]. unfold unit. rewrite H. cbn [vx vy]. vext; field. Qed.
Lemma set_direction_self (E : R) (d : dirn R) : 0 < E < 1 -> frame d -> set_direction E (ddir d) = Ok d.
Proof.
  intros HE Hf. apply frame_iff in Hf. destruct Hf as [H1 H2]. rewrite set_direction_ok by lra. rewrite unit_self by auto. rewrite <- H2. destruct d; reflexivity.
Qed.
Lemma vec_eqb_self (v : pt) : vec_eqb v v = true.
Proof. unfold vec_eqb. apply andb_true_iff. split; apply Reqb_true; reflexivity. Qed.
Theorem C92_line : forall (show : R -> string) (read : string -> option R) (E : R) (l : line R), 0 < E < 1 -> frame (ldn l) ->
  (forall p, line_project E l (mkV 0 0) = Ok p -> legible_pt show read p) -> legible_pt show read (ddir (ldn l)) ->
  exists t, repr_line show E l = Ok t /\ evaluate read E t = Some (Ok (VLine l)).
Proof.
  intros show read E l HE Hf Hp Hd. pose proof (line_project_R E l (mkV 0 0) ltac:(lra) Hf) as HP.
  destruct (eval_line show read E l _ HP) as (t & Ht & Hv); [apply Hp; exact HP|auto|]. exists t. split; [exact Ht|]. rewrite Hv.
  unfold line_new. rewrite set_direction_self by auto. cbn [bind rmap]. do 3 f_equal. destruct l as [d o]. cbn [ldn loffset] in *. f_equal.
  rewrite vec2_of_R, dot_pdot. unfold foot. cbn [ldn loffset]. destruct (dot_frame _ Hf) as (H1 & H2 & H3 & H4).
  rewrite pdot_add_l, !pdot_scale_l, H2, H3. ring.
Qed.
Print Assumptions C92_line.
Theorem C92_ray : forall (show : R -> string) (read : string -> option R) (E : R) (r : ray R), 0 < E < 1 -> frame (rdn r) ->
  legible_pt show read (ranchor r) -> legible_pt show read (ddir (rdn r)) -> evaluate read E (repr_ray show r) = Some (Ok (VRay r)).
Proof.
  intros show read E r HE Hf Ha Hd. rewrite eval_ray by auto. unfold ray_new. rewrite set_direction_self by auto. cbn [bind rmap]. destruct r as [d a]. cbn [ranchor rdn]. rewrite !vec2_of_R. reflexivity.
Qed.
Print Assumptions C92_ray.
(** Segments: the same points when the length is zero or its absolute value
    exceeds EPSILON (the same object when the length itself does); a ValueError
    in between. *)
Theorem C92_segment_partial : forall (show : R -> string) (read : string -> option R) (E : R) (s : segment R), 0 < E < 1 -> frame (sdn s) ->
  legible_pt show read (sanchor s) -> legible_pt show read (seg_vector s) ->
  (E < slength s -> evaluate read E (repr_seg show s) = Some (Ok (VSeg s))) /\
  (slength s = 0 \/ E < Rabs (slength s) -> exists s', evaluate read E (repr_seg show s) = Some (Ok (VSeg s')) /\ seg_eqb s s' = true /\
     seg_points s' = seg_points s) /\
  (0 < Rabs (slength s) <= E -> evaluate read E (repr_seg show s) = Some (Err ValueError)).
Proof.
  intros show read E s HE Hf Ha Hd. rewrite eval_seg by auto. pose proof (proj1 (frame_iff _) Hf) as [H1 H2].
  assert (HN : norm (seg_vector s) = Rabs (slength s)) by (unfold seg_vector; rewrite vscale_pscale, norm_scale, H1; ring).
  unfold seg_new, seg_vector_setter. rewrite vec2_of_R. change (vlength (seg_vector s)) with (norm (seg_vector s)).
  assert (BIG : E < Rabs (slength s) -> set_direction E (seg_vector s) = Ok (mkD (unit (seg_vector s)) (cw (unit (seg_vector s))))) by (intro; apply set_direction_ok; lra).
  assert (NZ : slength s <> 0 -> nfalsy (norm (seg_vector s)) = false).
  { intro H. unfold nfalsy. rnum. rbool. rewrite HN. apply Rabs_no_R0. exact H. }
  split; [|split].
  - intro HL. rewrite NZ by lra. cbn [negb]. rewrite BIG by (rewrite Rabs_pos_eq; lra). cbn [bind rmap]. do 3 f_equal.
    destruct s as [d a len]. cbn [sdn sanchor slength] in *. rewrite HN, Rabs_pos_eq by lra. rewrite vec2_of_R. f_equal.
    unfold seg_vector. cbn [sdn slength]. rewrite vscale_pscale, unit_of_scale by (auto; lra). rewrite <- H2. destruct d; reflexivity.
  - intros [HL|HL].
    + assert (HZ : norm (seg_vector s) = 0) by (rewrite HN, HL; apply Rabs_R0). assert (HF : nfalsy (norm (seg_vector s)) = true) by (unfold nfalsy; rnum; rbool; exact HZ).
      rewrite HF. cbn [negb]. rewrite (set_direction_ok E (mkV n1 n0)) by (rnum; rewrite ?(norm_unique (mkV 1 0) 1) by (cbn [vx vy]; lra); lra).
      cbn [bind rmap]. eexists. split; [reflexivity|]. rewrite HZ, vec2_of_R. destruct s as [d a len]. cbn [sdn sanchor slength] in *. subst len.
      unfold seg_eqb, seg_points, seg_vector, seg_end. cbn [sdn sanchor slength ddir]. rewrite !vscale_pscale. split.
      * unfold pscale. rewrite !Rmult_0_l, !vec_eqb_self. reflexivity.
      * unfold pscale. rewrite !Rmult_0_l. reflexivity.
    + rewrite NZ by (intro K; rewrite K, Rabs_R0 in HL; lra). cbn [negb]. rewrite BIG by auto. cbn [bind rmap]. eexists. split; [reflexivity|].
      rewrite vec2_of_R. destruct s as [d a len]. cbn [sdn sanchor slength] in *.
      assert (U : pscale (norm (seg_vector (mkSeg d a len))) (unit (seg_vector (mkSeg d a len))) = seg_vector (mkSeg d a len)) by (apply unit_scale; lra).
      split.
      * unfold seg_eqb. cbn [sanchor]. unfold seg_vector at 2. cbn [sdn slength ddir]. rewrite vscale_pscale, U. rewrite !vec_eqb_self. reflexivity.
      * unfold seg_points, seg_end. cbn [sdn slength ddir sanchor]. rewrite !vscale_pscale. rewrite U. unfold seg_vector. cbn [sdn slength]. rewrite vscale_pscale. reflexivity.
  - intros HL. rewrite NZ by (intro K; rewrite K, Rabs_R0 in HL; lra). cbn [negb]. destruct (setter_small E (seg_vector s)) as [-> _]; [lra|left; lra|]. reflexivity.
Qed.
Print Assumptions C92_segment_partial.
(** Such segments exist: from_normal((0, 1), 0, 0, 1/1000000) with the default EPSILON. *)
Theorem C92_segment_refuted : exists s : segment R, seg_from_normal (/ 100000) (mkV 0 1) 0 0 (/ 1000000) = Ok s /\
  forall show read, legible_pt show read (sanchor s) -> legible_pt show read (seg_vector s) ->
  evaluate read (/ 100000) (repr_seg show s) = Some (Err ValueError).
Proof.
  assert (H : exists s, seg_from_normal (/ 100000) (mkV 0 1) 0 0 (/ 1000000) = Ok s /\ slength s = / 1000000 - 0 * 1 /\ frame (sdn s)).
  { pose proof (set_normal_ok (/ 100000) (mkV 0 1)) as K. rewrite (norm_unique (mkV 0 1) 1) in K by (cbn [vx vy]; lra). specialize (K ltac:(lra) ltac:(lra)).
    unfold seg_from_normal. rewrite K. cbn [bind]. eexists. split; [reflexivity|]. split; [reflexivity|]. cbn [sdn]. eapply set_normal_frame; [|exact K]. lra. }
  destruct H as (s & H & HL & Hf). exists s. split; [exact H|]. intros show read Ha Hv.
  destruct (C92_segment_partial show read (/ 100000) s ltac:(lra) Hf Ha Hv) as (_ & _ & K). apply K. rewrite HL, Rabs_pos_eq; lra.
Qed.
Print Assumptions C92_segment_refuted.

(** ** Rays on doubles: normalizing a normalized direction again can change it
    by an ulp, so the ray read back is almost equal but not always equal *)
Theorem C92_ray_doubles_partial : forall (L : FloatLib) (E : PrimFloat.float) (p v : vec PrimFloat.float),
  sqrt_ok L -> eps_ok L E -> bpow radix2 (-80) <= toR (fl_pow2 L E) -> finite_vec p -> finite_vec v -> good_length E (norm (vecR v)) ->
  let N := FNum L in exists r, ray_new E p v = Ok r /\
  forall show read, legible_pt show read (ranchor r) -> legible_pt show read (ddir (rdn r)) ->
  exists r', evaluate read E (repr_ray show r) = Some (Ok (VRay r')) /\ ranchor r' = ranchor r /\ ray_almost_equals E r r' = true.
Proof.
  intros L E p v HS HE H2 Fp Fv G N.
  assert (P : 0 < norm (vecR v)) by (destruct G as [[G _] _]; pose proof (bpow_gt_0 radix2 (-399)); lra).
  destruct (set_direction_err L HS E HE v Fv) as (d & Hd & Nd & _).
  { destruct G as [[G1 G2] _]. split; [apply Rle_trans with (2 := G1)|apply Rle_trans with (1 := G2)]; apply bpow_le; lia. }
  { destruct G as [_ G]. eapply Rlt_le_trans; [exact G|]. apply Rmult_le_compat_l; [lra|]. pose proof runit_pos. lra. }
  fold N in Hd. exists (mkRay d p). unfold ray_new at 1. rewrite Hd. cbn [bind].
  assert (V : forall q : vec PrimFloat.float, vec2_of q = q) by exact (vec2_of_id L). rewrite !V.
  split; [reflexivity|]. intros show read H3 H4. rewrite (eval_ray show read E _ H3 H4). cbn [ranchor rdn ddir] in *.
  destruct (redirect L HS E HE H2 (ddir d) (punit (vecR v)) (norm_punit _ P) Nd) as (d' & Hd' & A). fold N in Hd', A.
  unfold ray_new. rewrite Hd'. cbn [bind rmap]. rewrite !V. eexists. split; [reflexivity|]. split; [reflexivity|].
  unfold ray_almost_equals. cbn [ranchor rdn]. rewrite A.
  pose proof (bpow_ge_0 radix2 (-45)). assert (B : vec_almost_equals E p p = true).
  { apply (almost_near L E HE H2 p p 0); auto; try (rewrite Rminus_diag_eq, Rabs_R0 by reflexivity); lra. }
  fold N in B. rewrite B. reflexivity.
Qed.
Print Assumptions C92_ray_doubles_partial.
Theorem C92_doubles_refuted : exists (L : FloatLib) (E : PrimFloat.float), sqrt_ok L /\ eps_ok L E /\ let N := FNum L in
  exists (r : ray PrimFloat.float) (l : line PrimFloat.float),
  ray_new E (mkV 0 0)%float (mkV 1 1)%float = Ok r /\ line_new E (mkV 0 0)%float (mkV 1 1)%float = Ok l /\
  forall show read, (forall x, finite x -> legible show read x) ->
  (exists r', evaluate read E (repr_ray show r) = Some (Ok (VRay r')) /\ ray_eqb r r' = false) /\
  (exists t l', repr_line show E l = Ok t /\ evaluate read E t = Some (Ok (VLine l')) /\ line_eqb l l' = false).
Proof.
  exists ieee_lib, 0x1p-17%float. split; [apply ieee_ok|]. split; [apply ieee_ok|]. intro N.
  set (c := (1 / PrimFloat.sqrt (1 * 1 + 1 * 1))%float). set (d := mkD (mkV c c) (mkV c (- c)%float)).
  exists (mkRay d (mkV 0 0)%float), (mkLine d 0%float).
  assert (FC : finite c) by (vm_compute; reflexivity). assert (F0 : finite 0%float) by (vm_compute; reflexivity).
  set (c2 := (c / PrimFloat.sqrt (c * c + c * c))%float). set (d2 := mkD (mkV c2 c2) (mkV c2 (- c2)%float)).
  split; [vm_compute; reflexivity|]. split; [vm_compute; reflexivity|]. intros show read H.
  split.
  - rewrite (eval_ray show read) by (split; apply H; auto).
    assert (X : exists r', ray_new 0x1p-17%float (mkV 0 0)%float (mkV c c) = Ok r' /\ ray_eqb (mkRay d (mkV 0 0)%float) r' = false) by (exists (mkRay d2 (mkV 0 0)%float); split; vm_compute; reflexivity).
    destruct X as (r' & X & Y). exists r'. cbn [ranchor rdn ddir d]. rewrite X. split; [reflexivity|exact Y].
  - assert (HP : line_project 0x1p-17%float (mkLine d 0%float) (mkV 0 0)%float = Ok (mkV 0 0)%float) by (vm_compute; reflexivity).
    destruct (eval_line show read 0x1p-17%float (mkLine d 0%float) (mkV 0 0)%float HP) as (t & Ht & Hv); [split; apply H; auto|split; apply H; auto|].
    assert (X : exists l', line_new 0x1p-17%float (mkV 0 0)%float (mkV c c) = Ok l' /\ line_eqb (mkLine d 0%float) l' = false) by (exists (mkLine d2 0%float); split; vm_compute; reflexivity).
    destruct X as (l' & X & Y). exists t, l'. split; [exact Ht|]. split; [|exact Y]. rewrite Hv. cbn [ldn ddir d]. rewrite X. reflexivity.
Qed.
Print Assumptions C92_doubles_refuted.

(** ** Examples *)
(** A concrete notation for every finite double: sign, mantissa and exponent in
    unary. *)
Local Open Scope string_scope.
Fixpoint ones (n : nat) (r : string) : string := match n with O => r | S n => String "1" (ones n r) end.
Fixpoint count (s : string) : nat * string :=
  match s with
  | String c r => if Ascii.eqb c "1" then let (n, r') := count r in (S n, r') else (O, s)
  | EmptyString => (O, s)
  end.
Definition unary_show (x : PrimFloat.float) : string :=
  let '(s, m, e) := match Prim2SF x with S754_finite s m e => (s, Pos.to_nat m, e) | S754_zero s => (s, O, 0%Z) | _ => (false, O, 0%Z) end in
  String (if s then "-" else "0")%char (ones m (String "e" (String (if (e <? 0)%Z then "-" else "+")%char (ones (Z.abs_nat e) "")))).
Definition unary_read (t : string) : option PrimFloat.float :=
  match t with
  | String c r =>
      let s := Ascii.eqb c "-" in let (m, r1) := count r in
      match r1 with
      | String _ (String c2 r2) =>
          let (k, _) := count r2 in let e := if Ascii.eqb c2 "-" then (- Z.of_nat k)%Z else Z.of_nat k in
          Some (SF2Prim (match m with O => S754_zero s | S _ => S754_finite s (Pos.of_nat m) e end))
      | _ => None
      end
  | EmptyString => None
  end.
Lemma count_ones n r : count (ones n r) = let (m, r') := count r in ((n + m)%nat, r').
Proof. induction n as [|n IH]; cbn; [destruct (count r); reflexivity|]. rewrite IH. destruct (count r). reflexivity. Qed.
Lemma ones_word n r : all_word r -> all_word (ones n r).
Proof. intro H. induction n as [|n IH]; cbn; auto. intros c [<-|Hc]; [reflexivity|auto]. Qed.
Lemma unary_legible x : finite x -> legible unary_show unary_read x.
Proof.
  intro F. unfold legible, numeric, unary_show, unary_read. pose proof (SF2Prim_Prim2SF x) as HX. pose proof (Prim2SF_valid x) as HV.
  assert (W : forall (s : bool) m e, all_word (String (if s then "-" else "0")%char (ones m (String "e" (String (if (e <? 0)%Z then "-" else "+")%char (ones (Z.abs_nat e) "")))))).
  { intros s m e c [<-|Hc]; [destruct s; reflexivity|]. revert c Hc. apply ones_word. intros c [<-|[<-|Hc]]; [reflexivity|destruct (e <? 0)%Z; reflexivity|].
    revert c Hc. apply ones_word. intros c []. }
  assert (Z1 : forall e : Z, (if ((if (e <? 0)%Z then "-" else "+")%char =? "-")%char then (- Z.of_nat (Z.abs_nat e))%Z else Z.of_nat (Z.abs_nat e)) = e).
  { intro e. rewrite Zabs2Nat.id_abs. destruct (Z.ltb_spec e 0); [change (Ascii.eqb "-" "-") with true|change (Ascii.eqb "+" "-") with false]; cbv iota; lia. }
  assert (FS : is_finite_SF (Prim2SF x) = true) by (rewrite finite_B in F; rewrite <- is_finite_SF_B2SF, B2SF_Prim2B in F; exact F).
  destruct (Prim2SF x) as [s|s| |s m e] eqn:Ex; try discriminate.
  - split; [split; [apply W|eexists; eexists; split; [reflexivity|destruct s; auto]]|]. rewrite <- HX. destruct s; reflexivity.
  - split; [split; [apply W|eexists; eexists; split; [reflexivity|destruct s; auto]]|].
    assert (S1 : ((if s then "-" else "0")%char =? "-")%char = s) by (destruct s; reflexivity). rewrite S1, count_ones. change (count (String "e" ?r)) with (O, String "e" r). cbv beta iota.
    rewrite count_ones. cbn [count]. cbv beta iota. rewrite !Nat.add_0_r, Z1.
    destruct (Pos.to_nat m) eqn:Em; [lia|]. rewrite <- Em, Pos2Nat.id, HX. reflexivity.
Qed.
Example C92_ex : forall x, finite x -> legible unary_show unary_read x.
Proof. exact unary_legible. Qed.
(** A vertical ray, a segment and a triangle with the notation "0.0", "1.0". *)
Definition show01 (x : R) : string := if Req_EM_T x 0 then "0.0" else "1.0".
Definition read01 (t : string) : option R := if String.eqb t "0.0" then Some 0%R else Some 1%R.
Lemma legible01 (x : R) : (x = 0 \/ x = 1)%R -> legible show01 read01 x.
Proof.
  unfold legible, show01. intro H. destruct (Req_EM_T x 0) as [->|n].
  - split; [|reflexivity]. split; [|exists "0"%char, ".0"; auto]. intros c [<-|[<-|[<-|[]]]]; reflexivity.
  - destruct H as [| ->]; [contradiction|]. split; [|reflexivity]. split; [|exists "1"%char, ".0"; auto]. intros c [<-|[<-|[<-|[]]]]; reflexivity.
Qed.
Example C92_ex2 : let d := mkD (mkV 0 1) (mkV 1 0) in frame d /\ legible_pt show01 read01 (ddir d) /\ legible_pt show01 read01 (seg_vector (mkSeg d (mkV 1 0) 1)) /\
  repr_ray show01 (mkRay d (mkV 1 0)) = "Ray((1.0, 0.0), (0.0, 1.0))".
Proof.
  cbv zeta. split; [apply frame_iff; cbn [ddir dnormal]; split; [apply norm_unique; cbn [vx vy]; lra|unfold cw; cbn [vx vy]; vext; ring]|].
  split; [split; apply legible01; cbn; auto|]. split; [split; apply legible01; unfold seg_vector; cbn; lra|].
  unfold repr_ray, repr_tuple, show01. cbn [ranchor rdn ddir vx vy]. destruct (Req_EM_T 1 0); [lra|]. destruct (Req_EM_T 0 0); [reflexivity|lra].
Qed.
Example C92_ex3 : let p := poly_from_points [mkV 0 0; mkV 1 0; mkV 0 1] in reachable p /\ (3 <= List.length (pverts p))%nat /\ Forall (legible_pt show01 read01) (pverts p).
Proof.
  cbv zeta. split; [eexists; exists []; split; [constructor|reflexivity]|]. split; [cbn; lia|]. repeat constructor; apply legible01; cbn; auto.
Qed.
