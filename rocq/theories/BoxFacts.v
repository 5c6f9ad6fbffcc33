(** * Lemmas about BoundingBox *)
From Coq Require Import ZArith List Bool Reals Lra Lia Psatz Permutation.
From Verif Require Import Num NumFloat Vec Affine Box RBase VecFacts2 OrdLaws SpecGeom SpecBox.
Import ListNotations.

(** ** Comparison-only facts, for any ordered number system *)
Section Ord.
  Context {T : Type} {N : Num T} {D : T -> Prop} (O : OrdLaws T N D).
  Local Open Scope num_scope.

  Lemma ol_le_refl x : D x -> (x <=? x) = true.
  Proof. intro H. rewrite (ol_le_not_lt _ _ _ O) by auto. rewrite (ol_irrefl _ _ _ O). auto. Qed.
  Lemma ol_le_iff x y : D x -> D y -> ((x <=? y) = true <-> (y <? x) = false).
  Proof. intros. rewrite (ol_le_not_lt _ _ _ O) by auto. apply negb_true_iff. Qed.
  Lemma ol_le_trans x y z : D x -> D y -> D z -> (x <=? y) = true -> (y <=? z) = true -> (x <=? z) = true.
  Proof. intros Hx Hy Hz. rewrite !ol_le_iff by auto. intros. apply (ol_total _ _ _ O z y x); auto. Qed.
  Lemma ol_lt_le x y : D x -> D y -> (x <? y) = true -> (x <=? y) = true.
  Proof.
    intros Hx Hy H. rewrite ol_le_iff by auto. destruct (y <? x) eqn:E; auto.
    rewrite <- (ol_irrefl _ _ _ O x). symmetry. apply (ol_trans _ _ _ O x y x); auto.
  Qed.
  Lemma ol_lt_le_trans x y z : D x -> D y -> D z -> (x <? y) = true -> (y <=? z) = true -> (x <? z) = true.
  Proof.
    intros Hx Hy Hz H1 H2. rewrite ol_le_iff in H2 by auto. destruct (x <? z) eqn:E; auto.
    rewrite (ol_total _ _ _ O x z y) in H1; auto.
  Qed.
  Lemma ol_le_lt_trans x y z : D x -> D y -> D z -> (x <=? y) = true -> (y <? z) = true -> (x <? z) = true.
  Proof.
    intros Hx Hy Hz H1 H2. rewrite ol_le_iff in H1 by auto. destruct (x <? z) eqn:E; auto.
    rewrite (ol_total _ _ _ O y x z) in H2; auto.
  Qed.

  Lemma vec2_ord x y : vec2 x y = mkV x y.
  Proof. unfold vec2. rewrite !(ol_mul1 _ _ _ O). auto. Qed.

  Lemma least_snoc x l p : D x -> D p -> (forall y, In y l -> D y) -> least x l ->
    least (if p <? x then p else x) (l ++ [p]).
  Proof.
    intros Hx Hp Hl [Hi Hm]. destruct (p <? x) eqn:E; split.
    - apply in_app_iff; cbn; auto.
    - intros y Hy. apply in_app_iff in Hy. destruct Hy as [Hy|[<-|[]]].
      + apply (ol_le_trans _ x); auto. apply ol_lt_le; auto.
      + apply ol_le_refl; auto.
    - apply in_app_iff; auto.
    - intros y Hy. apply in_app_iff in Hy. destruct Hy as [Hy|[<-|[]]]; auto.
      apply ol_le_iff; auto.
  Qed.
  Lemma greatest_snoc x l p : D x -> D p -> (forall y, In y l -> D y) -> greatest x l ->
    greatest (if x <? p then p else x) (l ++ [p]).
  Proof.
    intros Hx Hp Hl [Hi Hm]. destruct (x <? p) eqn:E; split.
    - apply in_app_iff; cbn; auto.
    - intros y Hy. apply in_app_iff in Hy. destruct Hy as [Hy|[<-|[]]].
      + apply (ol_le_trans _ x); auto. apply ol_lt_le; auto.
      + apply ol_le_refl; auto.
    - apply in_app_iff; auto.
    - intros y Hy. apply in_app_iff in Hy. destruct Hy as [Hy|[<-|[]]]; auto.
      apply ol_le_iff; auto.
  Qed.
  (** The [elif] of the scan loses nothing: a new minimum is never a new maximum. *)
  Lemma elif_ok x m M l : D x -> D m -> D M -> (forall y, In y l -> D y) -> least m l -> greatest M l ->
    (if x <? m then (x, M) else if M <? x then (m, x) else (m, M)) =
    ((if x <? m then x else m), (if M <? x then x else M)).
  Proof.
    intros Hx Hm HM Hl [Him Hlm] [HiM HgM]. destruct (x <? m) eqn:E1; [|destruct (M <? x); auto].
    destruct (M <? x) eqn:E2; auto. exfalso.
    assert (H : (m <? m) = true).
    { apply (ol_le_lt_trans m M m); auto. apply (ol_trans _ _ _ O M x m); auto. }
    rewrite (ol_irrefl _ _ _ O) in H. discriminate.
  Qed.

  Definition stbox (st : T * T * T * T) : bbox T :=
    let '(a, b, c, d) := st in mkBox (mkV a b) (mkV c d).

  Lemma minmax_tight : forall rest done st, Forall (ord_pt D) (done ++ rest) -> tight (stbox st) done ->
    tight (stbox (fold_left minmax_step rest st)) (done ++ rest).
  Proof.
    induction rest as [|p rest IH]; intros done [[[a b] c] d] HD Ht.
    - rewrite app_nil_r. exact Ht.
    - replace (done ++ p :: rest) with ((done ++ [p]) ++ rest) in * by (rewrite <- app_assoc; auto).
      cbn [fold_left]. apply IH; auto.
      rewrite Forall_app in HD. destruct HD as [HD _]. rewrite Forall_app in HD. destruct HD as [HD Hp].
      inversion Hp as [|? ? [Hpx Hpy] _]; subst.
      assert (HX : forall y, In y (map vx done) -> D y).
      { intros y Hy. apply in_map_iff in Hy. destruct Hy as (q & <- & Hq).
        rewrite Forall_forall in HD. apply HD; auto. }
      assert (HY : forall y, In y (map vy done) -> D y).
      { intros y Hy. apply in_map_iff in Hy. destruct Hy as (q & <- & Hq).
        rewrite Forall_forall in HD. apply HD; auto. }
      destruct Ht as (H1 & H2 & H3 & H4). cbn [stbox bmin bmax vx vy] in *.
      unfold minmax_step. rewrite !(ol_mul1 _ _ _ O).
      rewrite (elif_ok _ _ _ (map vx done)); auto; try apply HX; try apply H1; try apply H3.
      rewrite (elif_ok _ _ _ (map vy done)); auto; try apply HY; try apply H2; try apply H4.
      unfold tight. cbn [stbox bmin bmax vx vy]. rewrite !map_app. cbn [map].
      repeat split; try apply least_snoc; try apply greatest_snoc; auto;
        try (apply HX; apply H1); try (apply HX; apply H3); try (apply HY; apply H2); try (apply HY; apply H4).
  Qed.

  Lemma box_from_points_tight (l : list (vec T)) : l <> [] -> Forall (ord_pt D) l ->
    exists b, box_from_points l = Ok b /\ tight b l.
  Proof.
    destruct l as [|p rest]; [congruence|]. intros _ HD.
    inversion HD as [|? ? [Hx Hy] Hr]; subst.
    pose proof (minmax_tight rest [p] (vx p, vy p, vx p, vy p) HD) as H.
    unfold box_from_points.
    destruct (fold_left minmax_step rest (vx p, vy p, vx p, vy p)) as [[[a b] c] d].
    rewrite !vec2_ord. eexists; split; [reflexivity|]. apply H.
    unfold tight, least, greatest. cbn [stbox bmin bmax vx vy map In].
    repeat split; auto; intros y [<-|[]]; apply ol_le_refl; auto.
  Qed.

  (** A tight box is proper and unique up to the equality of numbers. *)
  Lemma tight_ord b l : Forall (ord_pt D) l -> tight b l -> ord_box D b.
  Proof.
    intros HD (H1 & H2 & H3 & H4). rewrite Forall_forall in HD.
    assert (HX : forall y, In y (map vx l) -> D y).
    { intros y Hy. apply in_map_iff in Hy. destruct Hy as (q & <- & Hq). apply HD; auto. }
    assert (HY : forall y, In y (map vy l) -> D y).
    { intros y Hy. apply in_map_iff in Hy. destruct Hy as (q & <- & Hq). apply HD; auto. }
    repeat split; [apply HX, H1 | apply HY, H2 | apply HX, H3 | apply HY, H4].
  Qed.
  Lemma ol_eq_le x y : D x -> D y -> (x <=? y) = true -> (y <=? x) = true -> (x =? y) = true.
  Proof.
    intros Hx Hy. rewrite !ol_le_iff by auto. intros H1 H2. rewrite (ol_eq _ _ _ O) by auto.
    rewrite H1, H2. auto.
  Qed.
  Lemma tight_unique b c l l' : Forall (ord_pt D) l -> (forall p, In p l <-> In p l') -> tight b l -> tight c l' ->
    box_eqb b c = true.
  Proof.
    intros HD Hp Hb Hc.
    assert (HD' : Forall (ord_pt D) l').
    { rewrite Forall_forall in *. intros p Hq. apply HD, Hp; auto. }
    assert (Hmx : forall y, In y (map vx l) <-> In y (map vx l')).
    { intro y. rewrite !in_map_iff. split; intros (q & H & Hq); exists q; split; auto; apply Hp; auto. }
    assert (Hmy : forall y, In y (map vy l) <-> In y (map vy l')).
    { intro y. rewrite !in_map_iff. split; intros (q & H & Hq); exists q; split; auto; apply Hp; auto. }
    pose proof (tight_ord _ _ HD Hb) as [[B1 B2] [B3 B4]].
    pose proof (tight_ord _ _ HD' Hc) as [[C1 C2] [C3 C4]].
    destruct Hb as ([X1 Y1] & [X2 Y2] & [X3 Y3] & [X4 Y4]), Hc as ([Z1 W1] & [Z2 W2] & [Z3 W3] & [Z4 W4]).
    unfold box_eqb, vec_eqb.
    rewrite !ol_eq_le; auto; firstorder.
  Qed.

  (** ** from_shapes *)
  Lemma shapes_tight : forall rest done st, Forall (ord_box D) (done ++ rest) ->
    least (vx (bmin (stbox st))) (map (fun b => vx (bmin b)) done) /\
    least (vy (bmin (stbox st))) (map (fun b => vy (bmin b)) done) /\
    greatest (vx (bmax (stbox st))) (map (fun b => vx (bmax b)) done) /\
    greatest (vy (bmax (stbox st))) (map (fun b => vy (bmax b)) done) ->
    let r := stbox (fold_left shapes_step rest st) in
    least (vx (bmin r)) (map (fun b => vx (bmin b)) (done ++ rest)) /\
    least (vy (bmin r)) (map (fun b => vy (bmin b)) (done ++ rest)) /\
    greatest (vx (bmax r)) (map (fun b => vx (bmax b)) (done ++ rest)) /\
    greatest (vy (bmax r)) (map (fun b => vy (bmax b)) (done ++ rest)).
  Proof.
    induction rest as [|p rest IH]; intros done [[[a b] c] d] HD Ht.
    - rewrite app_nil_r. exact Ht.
    - replace (done ++ p :: rest) with ((done ++ [p]) ++ rest) in * by (rewrite <- app_assoc; auto).
      cbn [fold_left]. apply IH; auto.
      rewrite Forall_app in HD. destruct HD as [HD _]. rewrite Forall_app in HD. destruct HD as [HD Hp].
      inversion Hp as [|? ? [[P1 P2] [P3 P4]] _]; subst.
      assert (HX : forall f : bbox T -> T, (forall b, ord_box D b -> D (f b)) -> forall y, In y (map f done) -> D y).
      { intros f Hf y Hy. apply in_map_iff in Hy. destruct Hy as (q & <- & Hq).
        rewrite Forall_forall in HD. apply Hf, HD; auto. }
      destruct Ht as (H1 & H2 & H3 & H4). cbn [stbox bmin bmax vx vy] in *.
      unfold shapes_step. cbn [stbox bmin bmax vx vy]. rewrite !map_app. cbn [map].
      assert (F1 := HX _ (fun b (h : ord_box D b) => proj1 (proj1 h))).
      assert (F2 := HX _ (fun b (h : ord_box D b) => proj2 (proj1 h))).
      assert (F3 := HX _ (fun b (h : ord_box D b) => proj1 (proj2 h))).
      assert (F4 := HX _ (fun b (h : ord_box D b) => proj2 (proj2 h))).
      split; [|split; [|split]].
      + apply least_snoc; auto. apply F1, H1.
      + apply least_snoc; auto. apply F2, H2.
      + apply greatest_snoc; auto. apply F3, H3.
      + apply greatest_snoc; auto. apply F4, H4.
  Qed.

  Lemma least_concat (f : vec T -> T) (g : bbox T -> T) : forall (ls : list (list (vec T))) (bs : list (bbox T)) m,
    Forall (Forall (fun p => D (f p))) ls ->
    Forall2 (fun l b => least (g b) (map f l)) ls bs -> least m (map g bs) -> least m (map f (concat ls)).
  Proof.
    intros ls bs m HD HF [Hi Hm]. split.
    - clear Hm. induction HF as [|l b ls bs [Hb _] HF IH]; [destruct Hi|].
      cbn. rewrite map_app, in_app_iff. destruct Hi as [<-|Hi]; auto.
      right. apply IH; auto. inversion HD; auto.
    - intros y Hy. apply in_map_iff in Hy. destruct Hy as (p & <- & Hp).
      apply in_concat in Hp. destruct Hp as (l & Hl & Hp).
      assert (Hb : exists b, In b bs /\ least (g b) (map f l)).
      { clear -HF Hl. induction HF as [|l' b ls bs Hb HF IH]; [destruct Hl|].
        destruct Hl as [<-|Hl]; [exists b; cbn; auto|].
        destruct (IH Hl) as (b' & ? & ?). exists b'; cbn; auto. }
      destruct Hb as (b & Hb & Hg1 & Hg2).
      assert (Dp : forall q l', In q l' -> In l' ls -> D (f q)).
      { intros q l' Hq Hl'. rewrite Forall_forall in HD. apply HD in Hl'.
        rewrite Forall_forall in Hl'. auto. }
      assert (Db : D (g b)).
      { apply in_map_iff in Hg1. destruct Hg1 as (q & <- & Hq). apply (Dp q l); auto. }
      apply (ol_le_trans m (g b) (f p)); auto.
      + assert (Hi' : exists b', In b' bs /\ m = g b').
        { apply in_map_iff in Hi. destruct Hi as (b' & ? & ?). eauto. }
        destruct Hi' as (b' & Hb' & ->).
        assert (Hl' : exists l', In l' ls /\ least (g b') (map f l')).
        { clear -HF Hb'. induction HF as [|l' b ls bs Hb HF IH]; [destruct Hb'|].
          destruct Hb' as [<-|Hl]; [exists l'; cbn; auto|].
          destruct (IH Hl) as (b0 & ? & ?). exists b0; cbn; auto. }
        destruct Hl' as (l' & Hl' & [Hq _]). apply in_map_iff in Hq. destruct Hq as (q & <- & Hq).
        apply (Dp q l'); auto.
      + apply (Dp p l); auto.
      + apply Hm. apply in_map; auto.
      + apply Hg2. apply in_map; auto.
  Qed.
End Ord.

Definition flipN {T} (N : Num T) : Num T :=
  {| nlit := nlit; nhalf := nhalf; nadd := nadd; nsub := nsub; nmul := nmul; ndiv := ndiv;
     nopp := nopp; nabs := nabs; nsqrt := nsqrt; npow2 := npow2; nisinf := nisinf; nfloordiv := nfloordiv; nmod := nmod;
     nltb := fun a b => nltb b a; nleb := fun a b => nleb b a; neqb := neqb;
     ncos := ncos; nsin := nsin; ntan := ntan; natan2 := natan2; nhypot := nhypot;
     nradians := nradians; ndegrees := ndegrees |}.
Lemma flip_ordlaws {T} (N : Num T) D : OrdLaws T N D -> OrdLaws T (flipN N) D.
Proof.
  intro O. split; unfold n1; cbn.
  - apply (ol_mul1 _ _ _ O).
  - intros. apply (ol_le_not_lt _ _ _ O); auto.
  - apply (ol_irrefl _ _ _ O).
  - intros x y z Hx Hy Hz H1 H2. apply (ol_trans _ _ _ O z y x); auto.
  - intros x y z Hx Hy Hz H1 H2. apply (ol_total _ _ _ O z y x); auto.
  - intros x y Hx Hy. rewrite andb_comm. apply (ol_eq _ _ _ O); auto.
Qed.
Lemma greatest_concat {T} {N : Num T} {D} (O : OrdLaws T N D) (f : vec T -> T) (g : bbox T -> T) ls bs m :
    Forall (Forall (fun p => D (f p))) ls ->
    Forall2 (fun l b => greatest (g b) (map f l)) ls bs -> greatest m (map g bs) -> greatest m (map f (concat ls)).
Proof. apply (@least_concat T (flipN N) D (flip_ordlaws N D O)). Qed.

Section Ord2.
  Context {T : Type} {N : Num T} {D : T -> Prop} (O : OrdLaws T N D).
  Local Open Scope num_scope.

  (** Boxes of the shapes: [shapes] are the vertex lists, [bs] their boxes. *)
  Lemma from_shapes_tight (shapes : list (list (vec T))) (bs : list (bbox T)) :
    shapes <> [] -> Forall (Forall (ord_pt D)) shapes ->
    Forall2 (fun l b => box_from_points l = Ok b) shapes bs ->
    exists b, box_from_shapes bs = Ok b /\ tight b (concat shapes).
  Proof.
    intros Hne HD HF.
    assert (HT : Forall2 (fun l b => tight b l) shapes bs).
    { clear Hne. induction HF as [|l b ls bs Hb HF IH]; constructor.
      - inversion HD as [|? ? Hl _]; subst.
        assert (l <> []) by (intros ->; discriminate).
        destruct (box_from_points_tight O l) as (b' & Hb' & Ht); auto. congruence.
      - apply IH. inversion HD; auto. }
    assert (HB : Forall (ord_box D) bs).
    { clear -HT HD. induction HT; constructor.
      - inversion HD; subst. eapply tight_ord; eauto.
      - apply IHHT. inversion HD; auto. }
    destruct bs as [|b bs]; [inversion HF; subst; congruence|].
    unfold box_from_shapes.
    pose proof (shapes_tight O bs [b] (vx (bmin b), vy (bmin b), vx (bmax b), vy (bmax b)) HB) as H.
    destruct (fold_left shapes_step bs (vx (bmin b), vy (bmin b), vx (bmax b), vy (bmax b))) as [[[x y] z] w].
    rewrite !(vec2_ord O). eexists; split; [reflexivity|].
    cbn [stbox bmin bmax vx vy app] in H.
    inversion HB as [|? ? [[B1 B2] [B3 B4]] _]; subst.
    destruct H as (H1 & H2 & H3 & H4).
    { unfold least, greatest. cbn [map In].
      repeat split; auto; intros q [<-|[]]; apply (ol_le_refl O); auto. }
    assert (FX : Forall (Forall (fun p => D (vx p))) shapes).
    { eapply Forall_impl; [|apply HD]. intros l Hl. eapply Forall_impl; [|apply Hl]. intros p [? ?]; auto. }
    assert (FY : Forall (Forall (fun p => D (vy p))) shapes).
    { eapply Forall_impl; [|apply HD]. intros l Hl. eapply Forall_impl; [|apply Hl]. intros p [? ?]; auto. }
    assert (F2 : forall P : list (vec T) -> bbox T -> Prop, (forall l c, tight c l -> P l c) -> Forall2 P shapes (b :: bs)).
    { intros P HP. clear -HP HT. induction HT; constructor; auto. }
    unfold tight; cbn [bmin bmax vx vy].
    split; [|split; [|split]].
    - apply (least_concat O vx (fun b => vx (bmin b)) shapes (b :: bs)); auto. apply F2. intros l c Hc; apply Hc.
    - apply (least_concat O vy (fun b => vy (bmin b)) shapes (b :: bs)); auto. apply F2. intros l c Hc; apply Hc.
    - apply (greatest_concat O vx (fun b => vx (bmax b)) shapes (b :: bs)); auto. apply F2. intros l c Hc; apply Hc.
    - apply (greatest_concat O vy (fun b => vy (bmax b)) shapes (b :: bs)); auto. apply F2. intros l c Hc; apply Hc.
  Qed.

  (** ** Half-open containment *)
  Lemma cut_x (b : bbox T) (c : T) (p : vec T) : ord_box D b -> D c -> ord_pt D p ->
    (vx (bmin b) <=? c) = true -> (c <=? vx (bmax b)) = true ->
    box_contains b p = xorb (box_contains (left_part b c) p) (box_contains (right_part b c) p) /\
    box_contains (left_part b c) p && box_contains (right_part b c) p = false.
  Proof.
    intros [[B1 B2] [B3 B4]] Hc [Hx Hy] H1 H2.
    unfold box_contains, left_part, right_part; cbn [bmin bmax vx vy].
    destruct ((vy (bmin b) <? vy p) && (vy p <=? vy (bmax b))); [|rewrite !andb_false_r; auto].
    rewrite !andb_true_r.
    rewrite (ol_le_not_lt _ _ _ O c (vx p)) by auto.
    destruct (vx p <? c) eqn:E; cbn [negb andb].
    - rewrite (ol_lt_le_trans O (vx p) c (vx (bmax b))) by auto. rewrite !andb_true_r, xorb_false_r, andb_false_r. auto.
    - rewrite (ol_le_trans O (vx (bmin b)) c (vx p)); auto.
      + rewrite andb_false_r. cbn. destruct (vx p <? vx (bmax b)); auto.
      + apply (ol_le_iff O); auto.
  Qed.
  Lemma cut_y (b : bbox T) (c : T) (p : vec T) : ord_box D b -> D c -> ord_pt D p ->
    (vy (bmin b) <=? c) = true -> (c <=? vy (bmax b)) = true ->
    box_contains b p = xorb (box_contains (low_part b c) p) (box_contains (high_part b c) p) /\
    box_contains (low_part b c) p && box_contains (high_part b c) p = false.
  Proof.
    intros [[B1 B2] [B3 B4]] Hc [Hx Hy] H1 H2.
    unfold box_contains, low_part, high_part; cbn [bmin bmax vx vy].
    destruct ((vx (bmin b) <=? vx p) && (vx p <? vx (bmax b))); [|auto].
    cbn [andb].
    rewrite (ol_le_not_lt _ _ _ O (vy p) c) by auto.
    destruct (c <? vy p) eqn:E; cbn [negb].
    - rewrite andb_false_r. cbn [xorb andb].
      rewrite (ol_le_lt_trans O (vy (bmin b)) c (vy p)) by auto. cbn. destruct (vy p <=? vy (bmax b)); auto.
    - cbn [andb]. rewrite (ol_le_trans O (vy p) c (vy (bmax b))); auto.
      + rewrite !andb_true_r, xorb_false_r, andb_false_r. auto.
      + apply (ol_le_iff O); auto.
  Qed.
  Lemma contains_closed (b : bbox T) (p : vec T) : ord_box D b -> ord_pt D p -> box_contains b p = true ->
    ((vx (bmin b) <=? vx p) = true /\ (vx p <=? vx (bmax b)) = true /\
     (vy (bmin b) <=? vy p) = true /\ (vy p <=? vy (bmax b)) = true) /\
    (vx (bmin b) <? vx (bmax b)) = true /\ (vy (bmin b) <? vy (bmax b)) = true.
  Proof.
    intros [[B1 B2] [B3 B4]] [Hx Hy] H. unfold box_contains in H.
    apply andb_true_iff in H. destruct H as [H H']. apply andb_true_iff in H, H'.
    destruct H as [H1 H2], H' as [H3 H4]. repeat split; auto using (ol_lt_le O).
    - apply (ol_le_lt_trans O _ (vx p)); auto.
    - apply (ol_lt_le_trans O _ (vy p)); auto.
  Qed.
End Ord2.
