(** * Vectors, transforms and linear shapes on doubles *)
From Coq Require Import ZArith List Bool Reals Lra Lia Floats SpecFloat.
From Flocq Require Import Core IEEE754.PrimFloat IEEE754.BinarySingleNaN.
From Verif Require Import Num NumFloat Vec Affine Seq Line OrdLaws FloatFacts FloatFacts2 FloatFacts3 SpecSeq.
Import ListNotations.

Definition finite_vec (v : vec PrimFloat.float) : Prop := finite (vx v) /\ finite (vy v).
Definition ordinary_vec (v : vec PrimFloat.float) : Prop := not_nan (vx v) /\ not_nan (vy v).
Definition same_vec (v w : vec PrimFloat.float) : Prop := same_double (vx v) (vx w) /\ same_double (vy v) (vy w).

(** ** lerp *)
Section Lerp.
  Variable L : FloatLib.
  Let NL : Num PrimFloat.float := FNum L.
  Existing Instance NL.
  Lemma lerp_coord0 (x y : PrimFloat.float) : finite y ->
    same_double (x * (n1 - n0) + y * n0)%num x.
  Proof.
    intro Hy. cbn [nadd nmul nsub NL FNum]. replace (n1 - n0)%float with 1%float by reflexivity.
    rewrite fmul1. apply fadd_zero. apply fmul_zero; auto.
  Qed.
  Lemma lerp_coord1 (x y : PrimFloat.float) : finite x ->
    same_double (x * (n1 - n1) + y * n1)%num y.
  Proof.
    intro Hy. cbn [nadd nmul nsub NL FNum]. replace (n1 - n1)%float with 0%float by reflexivity.
    change (@n1 _ NL) with 1%float.
    rewrite fmul1. apply zero_fadd. apply fmul_zero; auto.
  Qed.
  Lemma lerp_float (a b : vec PrimFloat.float) : finite_vec a -> finite_vec b ->
    same_vec (lerp a b n0) a /\ same_vec (lerp a b n1) b.
  Proof.
    intros [A1 A2] [B1 B2]. unfold lerp, same_vec. cbn [vx vy].
    split; split; [apply lerp_coord0|apply lerp_coord0|apply lerp_coord1|apply lerp_coord1]; auto.
  Qed.

  (** ** Squares *)
  Lemma sq_pos (x : PrimFloat.float) : not_nan x ->
    is_nan (Prim2B (x * x)) = false /\ Bsign (Prim2B (x * x)) = false.
  Proof.
    rewrite not_nan_B, mul_equiv. generalize (Prim2B x) as a. intros a Ha.
    pose proof (Bmult_correct fprec femax Hprec Hmax mode_NE a a) as HC.
    destruct (Rlt_bool _ _).
    - destruct HC as (HR & HF & HS).
      destruct (is_finite a) eqn:Fa.
      + cbn [andb] in HF. split.
        * destruct (Bmult mode_NE a a); auto; discriminate.
        * rewrite HS, xorb_nilpotent; auto. destruct (Bmult mode_NE a a); auto; discriminate.
      + destruct a as [s|s| |s m e H]; try discriminate. cbn. rewrite xorb_nilpotent. auto.
    - rewrite xorb_nilpotent in HC. destruct (Bmult mode_NE a a) as [s|s| |s m e H]; cbn in HC |- *; try discriminate.
      injection HC as ->. auto.
  Qed.
  Lemma pos_add (x y : PrimFloat.float) :
    is_nan (Prim2B x) = false -> Bsign (Prim2B x) = false ->
    is_nan (Prim2B y) = false -> Bsign (Prim2B y) = false -> is_nan (Prim2B (x + y)) = false.
  Proof.
    rewrite add_equiv. generalize (Prim2B x) as a, (Prim2B y) as b. intros a b Na Sa Nb Sb.
    destruct (is_finite a) eqn:Fa, (is_finite b) eqn:Fb.
    - pose proof (Bplus_correct fprec femax Hprec Hmax mode_NE a b Fa Fb) as HC.
      destruct (Rlt_bool _ _); [destruct HC as (_ & HC & _)|destruct HC as (HC & _)];
        destruct (Bplus mode_NE a b); cbn in *; auto; discriminate.
    - destruct a, b; try discriminate; reflexivity.
    - destruct a, b; try discriminate; reflexivity.
    - destruct a as [s|s| |s m e H], b as [s'|s'| |s' m' e' H']; try discriminate. cbn in Sa, Sb. subst s s'. reflexivity.
  Qed.
  Lemma length2_nn (v : vec PrimFloat.float) : ordinary_vec v -> not_nan (length2 v).
  Proof.
    intros [Hx Hy]. unfold length2. cbn [nadd nmul NL FNum]. apply not_nan_B.
    destruct (sq_pos _ Hx), (sq_pos _ Hy). apply pos_add; auto.
  Qed.

  Lemma almost_equals_float (E : PrimFloat.float) (a b : vec PrimFloat.float) :
    vec_almost_equals E a b = vec_almost_equals E b a /\
    (finite_vec a -> PrimFloat.ltb 0 (fl_pow2 L E) = true -> vec_almost_equals E a a = true).
  Proof.
    unfold vec_almost_equals. cbn [nltb npow2 nadd nmul nsub NL FNum]. split.
    - rewrite (fsub_sq_sym (vx a)), (fsub_sq_sym (vy a)). reflexivity.
    - intros [H1 H2] H. rewrite !fsub_self by auto. exact H.
  Qed.

  (** ** Division after a guard *)
  Lemma guard_nonzero (L0 E : PrimFloat.float) :
    PrimFloat.ltb E L0 = true -> PrimFloat.ltb E 0 = false -> PrimFloat.eqb L0 0 = false.
  Proof.
    intros H1 H2. destruct (PrimFloat.eqb L0 0) eqn:H; auto. exfalso.
    assert (NE : not_nan E).
    { apply not_nan_sf. rewrite FloatAxioms.ltb_spec in H1. intro K. rewrite K in H1. discriminate. }
    assert (NL0 : not_nan L0).
    { apply not_nan_sf. rewrite FloatAxioms.ltb_spec in H1. intro K. rewrite K in H1.
      destruct (Prim2SF E) as [s|s| |s m e]; try discriminate; destruct s; discriminate. }
    apply fltb_key in H1; auto. apply feqb_key in H; auto; [|apply zero_nn].
    assert (K : ~ key_lt (fkey E) (fkey 0)) by (rewrite <- fltb_key by (auto; apply zero_nn); congruence).
    rewrite zero_key in *. unfold key_lt in *. destruct (fkey E) as [[a b] c], (fkey L0) as [[a' b'] c']. lia.
  Qed.
  Lemma pydiv_guard (x L0 E : PrimFloat.float) :
    PrimFloat.ltb E L0 = true -> PrimFloat.ltb E 0 = false -> exists q, pydiv x L0 = Ok q.
  Proof.
    intros H1 H2. unfold pydiv. cbn [neqb NL FNum]. change (@n0 _ NL) with 0%float.
    rewrite (guard_nonzero L0 E); eauto.
  Qed.
  Variable E : PrimFloat.float.
  Hypothesis HE : PrimFloat.ltb E 0 = false.
  Hypothesis HE2 : PrimFloat.ltb (fl_pow2 L E) 0 = false.
  Lemma normalized_total v : exists w, normalized E v = Ok w.
  Proof using HE.
    unfold normalized. destruct (vlength v >? E)%num eqn:H; [|eauto].
    cbn [nltb NL FNum] in H. destruct (pydiv_guard (vx v) _ _ H HE) as [q ->], (pydiv_guard (vy v) _ _ H HE) as [r ->].
    cbn. eauto.
  Qed.
  Lemma scaled_to_total v len : exists w, scaled_to E v len = Ok w.
  Proof using HE.
    unfold scaled_to. destruct (vlength v >? E)%num eqn:H; [|eauto].
    cbn [nltb NL FNum] in H. destruct (pydiv_guard len _ _ H HE) as [q ->]. cbn. eauto.
  Qed.
  Lemma project_total v o : exists w, vec_project E v o = Ok w.
  Proof using HE2.
    unfold vec_project. destruct (length2 v >? npow2 E)%num eqn:H; [|eauto].
    cbn [nltb npow2 NL FNum] in H. destruct (pydiv_guard (dot v o) _ _ H HE2) as [q ->]. cbn. eauto.
  Qed.
  Lemma reflect_total v o : exists w, vec_reflect E v o = Ok w.
  Proof using HE2.
    unfold vec_reflect. destruct (vx o * vx o + vy o * vy o >? npow2 E)%num eqn:H; [|eauto].
    cbn [nltb npow2 NL FNum] in H.
    match goal with |- context [pydiv ?x ?y] => destruct (pydiv_guard x _ _ H HE2) as [q Hq] end.
    rewrite Hq. cbn. eauto.
  Qed.
  (** the bound is a finite double whose square is out of range *)
  Definition too_big (a : PrimFloat.float) : Prop := PrimFloat.is_infinity (fl_pow2 L a) = true /\ PrimFloat.is_infinity a = false.
  Lemma pypow2_float a : pypow2 a = Ok (fl_pow2 L a) \/ (pypow2 a = Err OverflowError /\ too_big a).
  Proof using Type.
    unfold pypow2, too_big. cbn [nisinf npow2 NL FNum].
    destruct (PrimFloat.is_infinity (fl_pow2 L a)), (PrimFloat.is_infinity a); cbn; auto.
  Qed.
  Lemma clamped_total v mn mx :
    (exists w, clamped E v mn mx = Ok w) \/
    (clamped E v mn mx = Err ValueError /\ exists a b, mn = Some a /\ mx = Some b /\ PrimFloat.ltb b a = true) \/
    (clamped E v mn mx = Err OverflowError /\ exists a, (mn = Some a \/ mx = Some a) /\ too_big a).
  Proof using HE.
    unfold clamped.
    destruct (match mn with Some a => match mx with Some b => a >? b | None => false end | None => false end)%num eqn:Hbad.
    - right; left. split; auto. destruct mn as [a|], mx as [b|]; try discriminate. exists a, b. auto.
    - assert (HU : (exists w, match mx with Some b => let* b2 := pypow2 b in if length2 v >? b2 then scaled_to E v b else Ok v | None => Ok v end%num = Ok w)
        \/ (match mx with Some b => let* b2 := pypow2 b in if length2 v >? b2 then scaled_to E v b else Ok v | None => Ok v end%num = Err OverflowError /\ exists a, mx = Some a /\ too_big a)).
      { destruct mx as [b|]; [|eauto]. destruct (pypow2_float b) as [->|[-> HB]]; cbn [bind]; [|eauto].
        left. destruct (length2 v >? fl_pow2 L b)%num; [apply scaled_to_total|eauto]. }
      destruct mn as [a|].
      + destruct (pypow2_float a) as [->|[-> HA]]; cbn [bind]; [|right; right; eauto].
        destruct (length2 v <? fl_pow2 L a)%num; [left; apply scaled_to_total|].
        destruct HU as [[w ->]|[-> (b & HB)]]; [eauto|]. right; right. split; auto. exists b. tauto.
      + destruct HU as [[w ->]|[-> (b & HB)]]; [eauto|]. right; right. split; auto. exists b. tauto.
  Qed.

  (** ** Linear shapes raise nothing but ValueError *)
  Definition fine {X : Type} (r : res X) : Prop := match r with Ok _ => True | Err e => e = ValueError end.
  Lemma fine_bind {X Y} (r : res X) (f : X -> res Y) : fine r -> (forall x, fine (f x)) -> fine (let* x := r in f x).
  Proof using Type. intros H K. destruct r; cbn; auto. Qed.
  Lemma fine_ok {X} (x : X) : fine (Ok x). Proof using Type. exact I. Qed.
  Lemma fine_ex {X} (r : res X) : (exists w, r = Ok w) -> fine r.
  Proof using Type. intros [w ->]. exact I. Qed.
  Lemma set_direction_fine v : fine (set_direction E v).
  Proof using HE.
    unfold set_direction. apply fine_bind; [apply fine_ex, normalized_total|]. intro d.
    destruct (is_null E d); cbn; auto.
  Qed.
  Lemma set_normal_fine v : fine (set_normal E v).
  Proof using HE.
    unfold set_normal. apply fine_bind; [apply fine_ex, normalized_total|]. intro d.
    destruct (is_null E d); cbn; auto.
  Qed.
  Lemma two_distinct_fine ps : fine (two_distinct ps).
  Proof using Type. unfold two_distinct. destruct ps; cbn; auto. destruct (first_distinct _ _) as [[? ?]|]; cbn; auto. Qed.
  Lemma vector_setter_fine v : fine (seg_vector_setter E v).
  Proof using HE.
    unfold seg_vector_setter. apply fine_bind; [|intro; apply fine_ok]. destruct (negb _); apply set_direction_fine.
  Qed.
End Lerp.

Ltac fine := repeat first
  [ apply fine_ok | apply set_direction_fine; assumption | apply set_normal_fine; assumption
  | apply two_distinct_fine | apply vector_setter_fine; assumption
  | apply fine_ex, project_total; assumption
  | apply fine_bind; [|intro] | exact I | exact eq_refl ].

(** ** The first shortest / longest member, for any ordered numbers *)
Section Best.
  Context {T : Type} {N : Num T} {D : T -> Prop} (OL : OrdLaws T N D).
  Notation less := (fun a b : vec T => (length2 a <? length2 b)%num = true).
  Lemma shortest_fold_any (l : list (vec T)) (v : vec T) : D (length2 v) -> (forall x, In x l -> D (length2 x)) ->
    first_best less (v :: l) (fst (fold_left shortest_step l (v, length2 v))).
  Proof.
    revert v. induction l as [|a l IH]; intros v Dv Dl.
    - cbn. exists [], []. repeat split; auto; contradiction.
    - assert (Da : D (length2 a)) by (apply Dl; left; auto).
      assert (Dl' : forall x, In x l -> D (length2 x)) by (intros; apply Dl; right; auto).
      cbn [fold_left]. unfold shortest_step at 2. cbn [snd].
      destruct (length2 a <? length2 v)%num eqn:Hc.
      + destruct (IH a Da Dl') as (pre & post & He & H1 & H2).
        set (x := fst (fold_left shortest_step l (a, length2 a))) in *; clearbody x.
        assert (Dx : D (length2 x)).
        { assert (In x (a :: l)) by (rewrite He; apply in_or_app; right; left; auto). destruct H as [<-|H]; auto. }
        exists (v :: pre), post. split; [cbn; f_equal; auto|]. split; auto.
        intros y [<-|Hy]; auto.
        destruct pre as [|p pre]; cbn in He; injection He; intros.
        * rewrite <- H0; auto.
        * assert (K : (length2 x <? length2 p)%num = true) by (apply H1; left; auto). subst p.
          apply (ol_trans _ _ _ OL) with (length2 a); auto.
      + destruct (IH v Dv Dl') as (pre & post & He & H1 & H2).
        set (x := fst (fold_left shortest_step l (v, length2 v))) in *; clearbody x.
        assert (Dx : D (length2 x)).
        { assert (In x (v :: l)) by (rewrite He; apply in_or_app; right; left; auto). destruct H as [<-|H]; auto. }
        destruct pre as [|p pre]; cbn in He; injection He; intros Ht Hv.
        * exists [], (a :: l). split; [cbn; congruence|]. split; [contradiction|].
          subst post. rewrite <- Hv in *.
          intros y [<-|Hy]; [congruence|apply H2; auto].
        * exists (p :: a :: pre), post. split; [cbn; congruence|]. split; auto.
          assert (K : (length2 x <? length2 p)%num = true) by (apply H1; left; auto). rewrite <- Hv in *.
          intros y [<-|[<-|Hy]]; [auto| |apply H1; right; auto].
          destruct (length2 x <? length2 a)%num eqn:Hxa; auto.
          exfalso. assert (H := ol_total _ _ _ OL (length2 x) (length2 a) (length2 v) Dx Da Dv Hxa Hc). congruence.
  Qed.
  Lemma shortest_any (l : list (vec T)) : l <> [] -> (forall x, In x l -> D (length2 x)) ->
    exists x, arr_shortest l = Some x /\ first_best less l x.
  Proof.
    destruct l as [|v l]; [congruence|]. intros _ Hl. unfold arr_shortest.
    exists (fst (fold_left shortest_step (v :: l) (v, length2 v))). split; auto.
    cbn [fold_left]. unfold shortest_step at 2. cbn [snd]. rewrite (ol_irrefl _ _ _ OL).
    apply shortest_fold_any; intros; apply Hl; [left|right]; auto.
  Qed.
End Best.

(** ** itransform *)
Section Itransform.
  Variable L : FloatLib.
  Let NL : Num PrimFloat.float := FNum L.
  Existing Instance NL.
  Lemma vec2_of_float (v : vec PrimFloat.float) : vec2_of v = v.
  Proof.
    destruct v as [x y]. unfold vec2_of, vec2. cbn [vx vy nmul NL FNum]. change (@n1 _ NL) with 1%float.
    rewrite !fmul1. reflexivity.
  Qed.
  Lemma vec2_float (x y : PrimFloat.float) : vec2 x y = mkV x y.
  Proof. unfold vec2. cbn [nmul NL FNum]. change (@n1 _ NL) with 1%float. rewrite !fmul1. reflexivity. Qed.
  Lemma eqb_one x : PrimFloat.eqb x 1 = true -> x = 1%float.
  Proof.
    intro H. assert (Hn : not_nan x).
    { apply not_nan_sf. rewrite FloatAxioms.eqb_spec in H. intro K. rewrite K in H. discriminate. }
    apply same_eqb in H; [|auto|reflexivity]. destruct H as [H|[_ H]]; auto. discriminate.
  Qed.
  Lemma id_coord1 (x y a d c : PrimFloat.float) : finite y ->
    PrimFloat.eqb a 1 = true -> PrimFloat.eqb d 0 = true -> PrimFloat.eqb c 0 = true ->
    same_double (x * a + y * d + c) x.
  Proof.
    intros Hy Ha Hd Hc. rewrite (eqb_one a Ha), fmul1.
    apply same_trans with (x + y * d)%float; apply fadd_zero; auto. apply fmul_zero; auto.
  Qed.
  Lemma id_coord2 (x y b e f : PrimFloat.float) : finite x ->
    PrimFloat.eqb b 0 = true -> PrimFloat.eqb e 1 = true -> PrimFloat.eqb f 0 = true ->
    same_double (x * b + y * e + f) y.
  Proof.
    intros Hx Hb He Hf. rewrite (eqb_one e He), fmul1.
    apply same_trans with (x * b + y)%float; [apply fadd_zero; auto|]. apply zero_fadd, fmul_zero; auto.
  Qed.
  Lemma itransform_float (m : affine PrimFloat.float) (l : list (vec PrimFloat.float)) :
    (forall v, In v l -> finite_vec v) -> Forall2 same_vec (itransform m l) (map (aapply m) l).
  Proof.
    intro Hl. unfold itransform. destruct (affine_eqb m aidentity) eqn:Hm.
    - unfold affine_eqb, aidentity, affine_new in Hm. cbn [aa ab ac ad ae af neqb nmul NL FNum] in Hm.
      change (@n1 _ NL) with 1%float in Hm. change (@n0 _ NL) with 0%float in Hm. rewrite !fmul1 in Hm.
      rewrite !andb_true_iff in Hm. destruct Hm as (((((Ha & Hb) & Hc) & Hd) & He) & Hf).
      induction l as [|v l IH]; cbn [map]; constructor.
      + destruct (Hl v) as [Fx Fy]; [left; auto|]. unfold aapply. rewrite vec2_float.
        split; cbn [vx vy nadd nmul NL FNum]; apply same_sym; [apply id_coord1|apply id_coord2]; auto.
      + apply IH. intros; apply Hl; right; auto.
    - clear Hl Hm. induction l as [|v l IH]; cbn [map]; constructor; auto.
      rewrite vec2_of_float. split; apply same_refl.
  Qed.
  Lemma itransform_nonid (m : affine PrimFloat.float) (l : list (vec PrimFloat.float)) :
    affine_eqb m aidentity = false -> itransform m l = map (aapply m) l.
  Proof.
    intro H. unfold itransform. rewrite H. apply map_ext. intro v. apply vec2_of_float.
  Qed.

  Lemma invert_float (E : PrimFloat.float) (m : affine PrimFloat.float) : PrimFloat.ltb 0 E = true ->
    (ainvert E m = Err TransformNotInvertibleError <-> PrimFloat.ltb (PrimFloat.abs (determinant m)) E = true) /\
    (forall e, ainvert E m = Err e -> e = TransformNotInvertibleError).
  Proof.
    intro HE. unfold ainvert, is_degenerate. cbn [nltb nabs NL FNum].
    destruct (PrimFloat.ltb (PrimFloat.abs (determinant m)) E) eqn:H.
    - split; [tauto|]. intros e K. congruence.
    - assert (Hz : PrimFloat.eqb (determinant m) 0 = false).
      { destruct (PrimFloat.eqb (determinant m) 0) eqn:Hz; auto. exfalso.
        set (d := determinant m) in *. clearbody d. apply is_zero_B in Hz. destruct Hz as [s Hs].
        revert H HE. rewrite !ltb_equiv, abs_equiv, Hs, zero_B2R. cbn [Babs]. congruence. }
      unfold pydiv. cbn [neqb NL FNum]. change (@n0 _ NL) with 0%float. rewrite Hz. cbn [bind].
      split; [split; discriminate|]. discriminate.
  Qed.
End Itransform.
