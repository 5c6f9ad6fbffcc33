(** * Cached point tests of polygons: totality and history *)
From Coq Require Import ZArith List Bool Lia.
From Verif Require Import Num Vec Affine Box Seq Polygon Tangent PolyOps OrdLaws SpecBox BoxFacts BoxFacts2 PolyCache.
Import ListNotations.

Section Index.
  Context {X : Type}.
  Lemma py_get_nat (l : list X) (k : nat) : py_get l (Z.of_nat k) = match nth_error l k with Some x => Ok x | None => Err IndexError end.
  Proof.
    unfold py_get, py_index. destruct (Z.ltb_spec (Z.of_nat k) 0); [lia|].
    destruct (Z.leb_spec 0 (Z.of_nat k)); [|lia]. destruct (Z.ltb_spec (Z.of_nat k) (Z.of_nat (length l))); cbn [andb].
    - rewrite Nat2Z.id. reflexivity.
    - destruct (nth_error l k) eqn:H2; auto. assert (nth_error l k <> None) by congruence. apply nth_error_Some in H3. lia.
  Qed.
  Lemma py_get_neg (l : list X) (k : nat) : 1 <= k <= length l ->
    exists x, py_get l (- Z.of_nat k) = Ok x /\ nth_error l (length l - k) = Some x.
  Proof.
    intro H. unfold py_get, py_index. destruct (Z.ltb_spec (- Z.of_nat k) 0); [|lia].
    replace (- Z.of_nat k + Z.of_nat (length l))%Z with (Z.of_nat (length l - k)) by lia.
    destruct (Z.leb_spec 0 (Z.of_nat (length l - k))); [|lia].
    destruct (Z.ltb_spec (Z.of_nat (length l - k)) (Z.of_nat (length l))); [|lia]. cbn [andb]. rewrite Nat2Z.id.
    destruct (nth_error l (length l - k)) eqn:E; eauto. apply nth_error_None in E. lia.
  Qed.
  Lemma nth_snoc (l : list X) (x : X) : nth_error (l ++ [x]) (length (l ++ [x]) - 1) = Some x.
  Proof. rewrite app_length. cbn [length]. rewrite nth_error_app2 by lia. replace (length l + 1 - 1 - length l) with 0 by lia. reflexivity. Qed.
  Lemma py_get_last (l : list X) (d : X) : l <> [] -> py_get l (-1) = Ok (last l d).
  Proof.
    intro H. destruct (py_get_neg l 1) as (x & Hx & Hn). { destruct l; [congruence|cbn; lia]. }
    change (- Z.of_nat 1)%Z with (-1)%Z in Hx. rewrite Hx. f_equal.
    destruct (@exists_last _ l H) as (l' & a & ->). rewrite last_last. rewrite app_length in Hn. cbn in Hn.
    replace (length l' + 1 - 1) with (length l') in Hn by lia. rewrite nth_error_app2, Nat.sub_diag in Hn by lia. cbn in Hn. congruence.
  Qed.
End Index.

Section Total.
  Context {T : Type} {N : Num T}.
  Notation V := (vec T).
  Notation P := (poly T).

  Lemma classify_core_total (vs : list V) : 2 <= length vs -> exists r, classify_core vs = Ok r.
  Proof.
    intro H. unfold classify_core. destruct (py_get_neg vs 1) as (x & Hx & _); [lia|]. destruct (py_get_neg vs 2) as (y & Hy & _); [lia|].
    change (-1)%Z with (- Z.of_nat 1)%Z. change (-2)%Z with (- Z.of_nat 2)%Z. rewrite Hx, Hy. cbn [bind].
    destruct (classify_loop _ _ _ _ _ _) as [[[c d] a] k]. eauto.
  Qed.
  Lemma classify_total (p : P) : 2 <= length (pverts p) -> exists p1, classify p = Ok p1.
  Proof.
    intro H. unfold classify. destruct (classify_core_total _ H) as [[[c d] k] ->]. cbn [bind].
    destruct (c && negb d); eauto. destruct (split_ok (pverts p)) as [pl ->]; cbn [bind]; eauto. destruct (pverts p); cbn in H; [lia|discriminate].
  Qed.
  Lemma is_convex_total (p : P) : 2 <= length (pverts p) -> exists b, fst (get_is_convex p) = Ok b.
  Proof.
    intro H. unfold get_is_convex. destruct (pconvex p); [cbn; eauto|]. destruct (classify_total p H) as [p1 H1]. rewrite H1.
    pose proof (classify_flags p) as HF. rewrite H1 in HF. destruct (classify (pfresh _)); [|contradiction]. destruct HF as (_ & _ & (b & Hb) & _).
    rewrite Hb. cbn. eauto.
  Qed.
  Lemma is_simple_total (p : P) : 2 <= length (pverts p) -> exists b, fst (get_is_simple p) = Ok b.
  Proof.
    intro H. unfold get_is_simple. destruct (psimple p); cbn; eauto. destruct (pconvex p); [|destruct (classify_total p H) as [p1 ->]];
      (destruct (psimple _); cbn; eauto).
  Qed.
  Lemma simple_verts (p : P) : pverts (snd (get_is_simple p)) = pverts p.
  Proof.
    unfold get_is_simple. destruct (psimple p); auto. destruct (pconvex p).
    - destruct (psimple p); auto.
    - destruct (classify p) as [p1|] eqn:H; auto. apply classify_verts in H. destruct (psimple p1); auto.
  Qed.
  Lemma centroid_value_outcome (vs : list V) : 2 <= length vs -> (exists c, centroid_value vs = Ok c) \/ centroid_value vs = Err ZeroDivisionError.
  Proof.
    destruct vs as [|a [|b rest]]; cbn [length]; try lia. intros _. unfold centroid_value.
    destruct (fold_left _ _ _) as [[u cen] total]. unfold vdivs, pydiv. destruct (_ =? _)%num; cbn [bind]; eauto.
  Qed.

  Lemma insert_by_length {X} (lt : X -> X -> bool) x l : length (insert_by lt x l) = S (length l).
  Proof. induction l as [|y l IH]; cbn; auto. destruct (lt x y); cbn; auto. Qed.
  Lemma sort_by_length {X} (lt : X -> X -> bool) l : length (sort_by lt l) = length l.
  Proof.
    unfold sort_by. assert (H : forall acc, length (fold_left (fun acc x => insert_by lt x acc) l acc) = length l + length acc).
    { induction l as [|x l IH]; intro acc; cbn; auto. rewrite IH, insert_by_length. lia. }
    rewrite H. cbn. lia.
  Qed.
  Lemma tri_build_total (E : T) vs : length vs = 3 -> exists c, tri_build E vs = Ok c.
  Proof.
    intro H. unfold tri_build. pose proof (sort_by_length yx_ltb vs) as HL. rewrite H in HL.
    destruct (sort_by yx_ltb vs) as [|a [|b [|c [|d l]]]]; cbn in HL; try lia.
    destruct (_ || _); eauto. unfold pydiv, nfalsy. destruct (_ =? _)%num; cbn [bind]; eauto.
  Qed.
  Lemma triangle_test_total (E : T) pt (p : P) : length (pverts p) = 3 -> exists b, fst (triangle_test E pt p) = Ok b.
  Proof.
    intro H. unfold triangle_test. destruct (ptri p); cbn; eauto. destruct (tri_build_total E _ H) as [[c|] ->]; cbn; eauto.
  Qed.
  Lemma winding_test_total (vs : list V) p : vs <> [] -> exists b, winding_test vs p = Ok b.
  Proof.
    intro H. unfold winding_test. destruct vs as [|v vs]; [congruence|]. rewrite (py_get_last _ v) by auto. cbn [bind]. eauto.
  Qed.
  Lemma bbox_total (p : P) : pverts p <> [] -> exists b, fst (get_bbox p) = Ok b.
  Proof.
    intro H. unfold get_bbox. destruct (pbbox p); cbn; eauto. unfold box_from_points. destruct (pverts p); [congruence|].
    destruct (fold_left _ _ _) as [[[? ?] ?] ?]. cbn. eauto.
  Qed.

  (** bisect *)
  Lemma bisect_spec (a : list (T * T)) py : forall fuel lo hi, hi < fuel + lo -> lo <= hi <= length a ->
    exists i, bisect_loop fuel a py lo hi = Ok i /\ lo <= i <= hi /\
      (i < hi -> exists q, nth_error a i = Some q /\ key_before py q = true) /\
      (lo < i -> exists q, nth_error a (i - 1) = Some q /\ key_before py q = false).
  Proof.
    induction fuel as [|f IH]; intros lo hi Hf Hb; [lia|]. cbn [bisect_loop].
    destruct (Nat.ltb_spec lo hi).
    - pose proof (Nat.div2_decr (lo + hi) (lo + hi)) as _.
      assert (Hm : lo <= Nat.div2 (lo + hi) < hi).
      { rewrite Nat.div2_div. split; [apply Nat.div_le_lower_bound; lia|apply Nat.div_lt_upper_bound; lia]. }
      set (mid := Nat.div2 (lo + hi)) in *. destruct (nth_error a mid) as [q|] eqn:Hq; [|apply nth_error_None in Hq; lia].
      destruct (key_before py q) eqn:Hk.
      + destruct (IH lo mid) as (i & H1 & H2 & H3 & H4); [lia|lia|]. exists i. split; auto. split; [lia|]. split; auto.
        intro Hi. destruct (Nat.eq_dec i mid) as [->|]; eauto. apply H3. lia.
      + destruct (IH (S mid) hi) as (i & H1 & H2 & H3 & H4); [lia|lia|]. exists i. split; auto. split; [lia|]. split; auto.
        intro Hi. destruct (Nat.eq_dec i (S mid)) as [->|]; [|apply H4; lia]. exists q. replace (S mid - 1) with mid by lia. auto.
    - exists lo. split; auto. split; [lia|]. split; lia.
  Qed.
  Lemma bisect_right_spec (a : list (T * T)) py :
    exists i, bisect_right a py = Ok i /\ i <= length a /\
      (i < length a -> exists q, nth_error a i = Some q /\ key_before py q = true) /\
      (0 < i -> exists q, nth_error a (i - 1) = Some q /\ key_before py q = false).
  Proof. unfold bisect_right. destruct (bisect_spec a py (S (length a)) 0 (length a)) as (i & H1 & H2 & H3 & H4); try lia. exists i. split; auto. split; [lia|]. auto. Qed.
End Total.

Section Mono.
  Context {T : Type} {N : Num T} {D : T -> Prop} (O : OrdLaws T N D).
  Notation V := (vec T).
  Notation P := (poly T).
  Local Open Scope num_scope.

  (** [a <= b] in the form the model tests it: not (b < a). *)
  Definition nle (a b : T) : Prop := (b <? a) = false.
  Lemma nle_trans a b c : D a -> D b -> D c -> nle a b -> nle b c -> nle a c.
  Proof. unfold nle. intros. apply (ol_total _ _ _ O c b a); auto. Qed.
  Lemma nle_refl a : nle a a.
  Proof. apply (ol_irrefl _ _ _ O). Qed.
  Lemma lt_nle a b : D a -> D b -> (a <? b) = true -> nle a b.
  Proof. intros Ha Hb H. unfold nle. destruct (b <? a) eqn:E; auto. pose proof (ol_trans _ _ _ O a b a Ha Hb Ha H E) as K. rewrite (ol_irrefl _ _ _ O) in K. discriminate. Qed.

  Definition ext_inv (vs : list V) (seen : list V) (e : extrema) : Prop :=
    (exists v, nth_error vs (x_min_i e) = Some v /\ vy v = x_min_y e) /\
    (exists v, nth_error vs (x_max_i e) = Some v /\ vy v = x_max_y e) /\
    (exists v, nth_error vs (x_left_i e) = Some v /\ vx v = x_min_x e) /\
    (exists v, nth_error vs (x_right_i e) = Some v /\ vx v = x_max_x e) /\
    (forall v, In v seen -> nle (x_min_y e) (vy v) /\ nle (vy v) (x_max_y e) /\ nle (x_min_x e) (vx v) /\ nle (vx v) (x_max_x e)).
  Lemma ord_nth (vs : list V) i v : Forall (ord_pt D) vs -> nth_error vs i = Some v -> D (vx v) /\ D (vy v).
  Proof. intros H Hi. rewrite Forall_forall in H. apply (H v). eapply nth_error_In; eauto. Qed.
  Lemma ext_step_inv (vs seen : list V) i v e : Forall (ord_pt D) vs -> (forall v, In v seen -> In v vs) -> nth_error vs i = Some v ->
    ext_inv vs seen e -> ext_inv vs (seen ++ [v]) (ext_step e (i, v)).
  Proof.
    intros HD Hs Hi ((v1 & N1 & E1) & (v2 & N2 & E2) & (v3 & N3 & E3) & (v4 & N4 & E4) & HA).
    pose proof (ord_nth vs _ _ HD Hi) as [Dx Dy].
    pose proof (ord_nth vs _ _ HD N1) as [_ D1]. pose proof (ord_nth vs _ _ HD N2) as [_ D2].
    pose proof (ord_nth vs _ _ HD N3) as [D3 _]. pose proof (ord_nth vs _ _ HD N4) as [D4 _].
    rewrite E1 in D1. rewrite E2 in D2. rewrite E3 in D3. rewrite E4 in D4.
    assert (HS : forall w, In w seen -> D (vx w) /\ D (vy w)). { intros w Hw. rewrite Forall_forall in HD. apply (HD w). auto. }
    unfold ext_step. destruct (vy v <? x_min_y e) eqn:C1, (vy v >? x_max_y e) eqn:C2, (vx v <? x_min_x e) eqn:C3, (vx v >? x_max_x e) eqn:C4;
      unfold ext_inv; cbn [x_min_x x_max_x x_min_y x_max_y x_min_i x_max_i x_left_i x_right_i];
      (repeat split; [eauto|eauto|eauto|eauto| | | |]); rename v0 into w || idtac; apply in_app_iff in H; destruct H as [H|[->|[]]];
      try (destruct (HA _ H) as (A1 & A2 & A3 & A4)); try (destruct (HS _ H) as [S1 S2]); auto using nle_refl, lt_nle;
      try (eapply nle_trans; [| | | |]; [| | |apply lt_nle; [| |eassumption]|]; eauto; fail);
      try (eapply nle_trans; [| | | |]; [| | | |apply lt_nle; [| |eassumption]]; eauto; fail).
  Qed.
  Lemma ext_fold (vs : list V) : Forall (ord_pt D) vs -> forall rest i seen e, vs = seen ++ rest -> i = length seen ->
    ext_inv vs seen e -> ext_inv vs vs (fold_left ext_step (enumerate_from i rest) e).
  Proof.
    intros HD. induction rest as [|v rest IH]; intros i seen e Hv Hi H; cbn [enumerate_from fold_left].
    - rewrite app_nil_r in Hv. subst seen. auto.
    - apply (IH (S i) (seen ++ [v])).
      + rewrite <- app_assoc. auto.
      + rewrite app_length. cbn. lia.
      + apply ext_step_inv; auto.
        * intros w Hw. rewrite Hv. apply in_app_iff. auto.
        * rewrite Hv, Hi. rewrite nth_error_app2, Nat.sub_diag by lia. reflexivity.
  Qed.
  Lemma find_extrema_spec (vs : list V) : vs <> [] -> Forall (ord_pt D) vs -> exists e, find_extrema vs = Ok e /\ ext_inv vs vs e.
  Proof.
    intros Hne HD. destruct vs as [|v vs]; [congruence|]. eexists. split; [reflexivity|].
    apply (ext_fold (v :: vs) HD (v :: vs) 0 []); auto. unfold ext_inv. cbn. repeat split; eauto; contradiction.
  Qed.

  (** Both polylines are non-empty, made of vertices, and end at the top. *)
  Definition pl_ok (vs : list V) (pl : list (T * T)) : Prop :=
    (forall q, In q pl -> exists v, In v vs /\ q = (vy v, vx v)) /\
    exists q, nth_error pl (length pl - 1) = Some q /\ forall v, In v vs -> nle (vy v) (fst q).
  Lemma orient_pl_ok (vs : list V) (q0 q1 : T * T) (mid : list (T * T)) :
    Forall (ord_pt D) vs ->
    (forall q, In q (q0 :: mid ++ [q1]) -> exists v, In v vs /\ q = (vy v, vx v)) ->
    (forall v, In v vs -> nle (vy v) (fst q1)) \/ (forall v, In v vs -> nle (vy v) (fst q0)) ->
    pl_ok vs (orient_pl (q0 :: mid ++ [q1])).
  Proof.
    intros HD Hm Ht. unfold orient_pl.
    assert (HL : last (q0 :: mid ++ [q1]) q0 = q1). { rewrite app_comm_cons, last_last. auto. } rewrite HL.
    destruct (fst q0 >? fst q1) eqn:C.
    - split.
      + intros q Hq. apply in_rev in Hq. auto.
      + exists q0. split.
        * cbn [rev]. apply nth_snoc.
        * destruct Ht as [Ht|Ht]; auto. exfalso. destruct (Hm q0) as (v & Hv & ->); [left; auto|]. specialize (Ht v Hv). unfold nle in Ht. cbn in C. congruence.
    - split; [exact Hm|]. exists q1. split.
      + rewrite app_comm_cons. apply nth_snoc.
      + destruct Ht as [Ht|Ht]; auto. intros v Hv.
        destruct (Hm q0) as (v0 & Hv0 & ->); [left; auto|]. destruct (Hm q1) as (v1 & Hv1 & ->); [right; apply in_app_iff; right; left; auto|].
        cbn [fst] in *. rewrite Forall_forall in HD. apply nle_trans with (vy v0); auto; try (apply HD; auto).
  Qed.
  Lemma slice_form {X} (l : list X) i j a b : i < j -> nth_error l i = Some a -> nth_error l j = Some b ->
    exists m, firstn (j + 1 - i) (skipn i l) = a :: m ++ [b] /\ (forall x, In x m -> In x l).
  Proof.
    intros Hij Ha Hb. destruct (nth_error_split l j Hb) as (l1 & l2 & -> & Hl).
    assert (Ha' : nth_error l1 i = Some a). { rewrite nth_error_app1 in Ha by lia. auto. }
    destruct (nth_error_split l1 i Ha') as (k1 & k2 & -> & Hk).
    exists k2. rewrite <- app_assoc. rewrite skipn_app, skipn_all2 by lia. rewrite Hk, Nat.sub_diag. cbn [skipn app].
    rewrite app_length in Hl. cbn in Hl. replace (j + 1 - i)%nat with (S (length k2 + 1)) by lia. cbn [firstn]. split.
    - f_equal. rewrite firstn_app_2. reflexivity.
    - intros x Hx. apply in_app_iff. right. right. apply in_app_iff. auto.
  Qed.
  Lemma wrap_form {X} (l : list X) i j a b : i < j \/ (i = j /\ j < length l) -> nth_error l i = Some a -> nth_error l j = Some b ->
    exists m, skipn j l ++ firstn (i + 1) l = b :: m ++ [a] /\ (forall x, In x m -> In x l).
  Proof.
    intros Hij Ha Hb. destruct (nth_error_split l j Hb) as (l1 & l2 & Hl & Hj). destruct (nth_error_split l i Ha) as (k1 & k2 & Hk & Hi).
    exists (l2 ++ k1). split.
    - rewrite Hl at 1. rewrite skipn_app, skipn_all2 by lia. rewrite Hj, Nat.sub_diag. cbn [skipn app]. f_equal. rewrite <- app_assoc. f_equal.
      rewrite Hk. rewrite firstn_app, firstn_all2 by lia. replace (i + 1 - length k1)%nat with 1 by lia. reflexivity.
    - intros x Hx. apply in_app_iff in Hx. destruct Hx; [rewrite Hl|rewrite Hk]; apply in_app_iff; [right; right; auto|left; auto].
  Qed.
  Lemma slice_same {X} (l : list X) i a : nth_error l i = Some a -> firstn (i + 1 - i) (skipn i l) = [a].
  Proof.
    intro Ha. destruct (nth_error_split l i Ha) as (k1 & k2 & Hk & Hi). rewrite Hk, skipn_app, skipn_all2 by lia. rewrite Hi, Nat.sub_diag.
    replace (i + 1 - i)%nat with 1 by lia. reflexivity.
  Qed.
  Definition yx (v : V) : T * T := (vy v, vx v).
  Lemma split_pl_ok (vs : list V) pl : vs <> [] -> Forall (ord_pt D) vs -> split_y_polylines vs = Ok pl -> pl_ok vs (fst pl) /\ pl_ok vs (snd pl).
  Proof.
    intros Hne HD. unfold split_y_polylines. destruct (find_extrema_spec vs Hne HD) as (e & -> & He). cbn [bind].
    destruct He as ((v1 & N1 & E1) & (v2 & N2 & E2) & _ & _ & HA).
    change (map (fun v : V => (vy v, vx v)) vs) with (map yx vs).
    assert (M1 : nth_error (map yx vs) (x_min_i e) = Some (yx v1)) by (rewrite nth_error_map, N1; auto).
    assert (M2 : nth_error (map yx vs) (x_max_i e) = Some (yx v2)) by (rewrite nth_error_map, N2; auto).
    assert (HM : forall q, In q (map yx vs) -> exists v, In v vs /\ q = (vy v, vx v)).
    { intros q Hq. apply in_map_iff in Hq. destruct Hq as (v & <- & Hv). eauto. }
    assert (I1 := nth_error_In _ _ M1). assert (I2 := nth_error_In _ _ M2).
    assert (HT : forall v, In v vs -> nle (vy v) (fst (yx v2))). { intros v Hv. cbn [yx fst]. rewrite E2. apply HA. auto. }
    assert (HX : forall q0 q1 m, In q0 (map yx vs) -> In q1 (map yx vs) -> (forall x, In x m -> In x (map yx vs)) ->
       q0 = yx v2 \/ q1 = yx v2 -> pl_ok vs (orient_pl (q0 :: m ++ [q1]))).
    { intros q0 q1 m H0 H1 Hm [->| ->]; apply orient_pl_ok; auto; intros q Hq; apply HM; destruct Hq as [<-|Hq]; auto;
        apply in_app_iff in Hq; destruct Hq as [Hq|[<-|[]]]; auto. }
    assert (Hlen : forall k q, nth_error (map yx vs) k = Some q -> k < length (map yx vs)).
    { intros k q Hk. apply nth_error_Some. congruence. }
    destruct (Nat.ltb_spec (x_min_i e) (x_max_i e)).
    - destruct (slice_form _ _ _ _ _ H M1 M2) as (m & -> & Hm).
      destruct (wrap_form _ _ _ _ _ (or_introl H) M1 M2) as (m' & -> & Hm').
      destruct (_ || _); intro HP; injection HP as <-; cbn [fst snd]; split; apply HX; auto.
    - destruct (Nat.eq_dec (x_min_i e) (x_max_i e)) as [Heq|Hneq].
      + rewrite Heq in M1. rewrite M2 in M1. injection M1 as M1x. assert (HM1 : yx v1 = yx v2) by (unfold yx; congruence).
        destruct (wrap_form (map yx vs) (x_max_i e) (x_min_i e) (yx v2) (yx v2)) as (m' & Hw & Hm'); auto.
        { right. split; auto. eapply Hlen. rewrite Heq. eauto. } { rewrite Heq. auto. }
        rewrite Hw. rewrite Heq, (slice_same _ _ _ M2).
        assert (HS : pl_ok vs (orient_pl [yx v2])).
        { unfold orient_pl. cbn [last]. rewrite (ol_irrefl _ _ _ O). split.
          - intros q [<-|[]]. apply HM; auto.
          - exists (yx v2). split; auto. }
        destruct (_ || _); intro HP; injection HP as <-; cbn [fst snd]; split; auto; apply HX; auto.
      + assert (H' : x_max_i e < x_min_i e) by lia.
        destruct (slice_form _ _ _ _ _ H' M2 M1) as (m & -> & Hm).
        destruct (wrap_form _ _ _ _ _ (or_introl H') M2 M1) as (m' & -> & Hm').
        destruct (_ || _); intro HP; injection HP as <-; cbn [fst snd]; split; apply HX; auto.
  Qed.

  Lemma key_before_nle py q : D py -> D (fst q) -> (key_before py q = true <-> nle py (fst q)).
  Proof.
    intros H1 H2. unfold key_before, nle. rewrite (ol_eq _ _ _ O) by auto.
    destruct (py <? fst q) eqn:A, (fst q <? py) eqn:B; cbn [negb andb]; split; auto; intro; try discriminate.
    pose proof (lt_nle _ _ H1 H2 A) as K. unfold nle in K. congruence.
  Qed.
  Lemma y_monotone_total (vs : list V) pl pt : Forall (ord_pt D) vs -> D (vy pt) -> pl_ok vs (fst pl) -> pl_ok vs (snd pl) ->
    exists b, y_monotone_test pl pt = Ok b.
  Proof.
    intros HD Hp [HI1 (q1 & Hn1 & Ht1)] [HI2 (q2 & Hn2 & Ht2)]. destruct pl as [lp rp]. cbn [fst snd] in *.
    unfold y_monotone_test. destruct (bisect_right_spec lp (vy pt)) as (i & -> & Hi & Hi1 & Hi2). cbn [bind].
    destruct (Nat.eqb_spec i 0) as [->|Hi0]; cbn [orb]; eauto. destruct (Nat.eqb_spec i (length lp)) as [->|Hil]; eauto.
    destruct Hi1 as (q & Hq & Hk); [lia|]. destruct Hi2 as (q' & Hq' & _); [lia|].
    replace (Z.of_nat i - 1)%Z with (Z.of_nat (i - 1)) by lia. rewrite !py_get_nat, Hq, Hq'. cbn [bind].
    destruct (_ >? _); eauto.
    destruct (bisect_right_spec rp (vy pt)) as (j & -> & Hj & Hj1 & Hj2). cbn [bind].
    assert (HDq : forall r, In r lp \/ In r rp -> D (fst r)).
    { intros r Hr. assert (exists v, In v vs /\ r = (vy v, vx v)) as (v & Hv & ->) by (destruct Hr; auto). rewrite Forall_forall in HD. apply (HD v Hv). }
    assert (Hq2 : In q2 rp) by (eapply nth_error_In; eauto). assert (Hql : In q lp) by (eapply nth_error_In; eauto).
    assert (Hjl : j < length rp).
    { destruct (Nat.eq_dec j (length rp)) as [->|]; [|lia]. exfalso.
      assert (0 < length rp) by (destruct rp; [contradiction|cbn; lia]).
      destruct Hj2 as (r & Hr & Hkr); [auto|]. rewrite Hn2 in Hr. injection Hr as <-.
      assert (key_before (vy pt) q2 = true); [|congruence]. apply key_before_nle; auto.
      apply nle_trans with (fst q); auto.
      - apply key_before_nle; auto.
      - destruct (HI1 q Hql) as (v & Hv & ->). cbn [fst]. apply Ht2. auto. }
    destruct Hj1 as (r & Hr & _); [auto|]. rewrite !py_get_nat, Hr.
    assert (exists s, py_get rp (Z.of_nat j - 1) = Ok s) as [s ->].
    { destruct j.
      - destruct (py_get_neg rp 1) as (s & Hs & _); [lia|]. eauto.
      - replace (Z.of_nat (S j) - 1)%Z with (Z.of_nat j) by lia. rewrite py_get_nat. destruct (nth_error rp j) eqn:Es; eauto. apply nth_error_None in Es. lia. }
    cbn [bind]. eauto.
  Qed.

  (** Stored polylines are those of the current vertices. *)
  Definition pl_inv (p : P) : Prop := forall pl, pypl p = Some pl -> split_y_polylines (pverts p) = Ok pl.
  Lemma contains_total (E : T) pt (p : P) : 3 <= length (pverts p) -> Forall (ord_pt D) (pverts p) -> D (vy pt) -> pl_inv p ->
    (exists b, fst (contains_point E pt p) = Ok b) \/
    (fst (contains_point E pt p) = Err TypeError /\ pcentroid p = Some None /\ 4 < length (pverts p)).
  Proof.
    intros HL HD Hp HI. unfold contains_point. assert (Hne : pverts p <> []) by (destruct (pverts p); cbn in HL; [lia|discriminate]).
    destruct (Nat.eqb_spec (length (pverts p)) 3). { left. apply triangle_test_total; auto. }
    assert (HR : (exists o, radial_shortcut p pt = Ok o) \/ (radial_shortcut p pt = Err TypeError /\ pcentroid p = Some None /\ 4 < length (pverts p))).
    { unfold radial_shortcut. destruct (Nat.ltb_spec 4 (length (pverts p))); [|left; eauto].
      destruct (pcentroid p) as [[c|]|]; [left; eauto| |left; eauto]. right. auto. }
    destruct HR as [[[b|] ->]|(-> & H1 & H2)]; cbn [fst]; [left; eauto| |right; auto].
    left. destruct (pypl p) as [pl|] eqn:Hpl.
    - cbn [fst]. apply HI in Hpl. destruct (split_pl_ok _ _ Hne HD Hpl) as [K1 K2]. apply (y_monotone_total (pverts p)); auto.
    - destruct (Nat.eqb (length (pverts p)) 4); cbn [fst]. { apply winding_test_total; auto. }
      destruct (bbox_total p Hne) as (b & Hb). destruct (get_bbox p) as [r p1] eqn:Hg. cbn [fst] in Hb. subst r.
      destruct (box_contains b pt); cbn [fst]; eauto.
      assert (pverts p1 = pverts p) as ->.
      { unfold get_bbox in Hg. destruct (pbbox p); [congruence|]. destruct (box_from_points _); [|discriminate]. injection Hg as _ <-. auto. }
      apply winding_test_total; auto.
  Qed.
End Mono.
