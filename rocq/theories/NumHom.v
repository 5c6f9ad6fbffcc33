(** * Exact evaluation of the model over the reals at rational points

    The model over the rationals computes; a map between number systems that
    preserves the operations preserves the outcomes of the modelled methods.
    Used to evaluate witnesses over the reals. *)
From Coq Require Import ZArith QArith Qreals Qabs Qreduction List Bool Reals Lra.
From Verif Require Import Num Vec Affine Box Seq Polygon Hull.
Import ListNotations.

Record NumHom {T1 T2 : Type} (N1 : Num T1) (N2 : Num T2) (h : T1 -> T2) : Prop := {
  hm_lit : forall z, h (nlit z) = nlit z;
  hm_half : h nhalf = nhalf;
  hm_add : forall a b, h (nadd a b) = nadd (h a) (h b);
  hm_sub : forall a b, h (nsub a b) = nsub (h a) (h b);
  hm_mul : forall a b, h (nmul a b) = nmul (h a) (h b);
  hm_div : forall a b, neqb b n0 = false -> h (ndiv a b) = ndiv (h a) (h b);
  hm_lt : forall a b, nltb (h a) (h b) = nltb a b;
  hm_le : forall a b, nleb (h a) (h b) = nleb a b;
  hm_eq : forall a b, neqb (h a) (h b) = neqb a b
}.

(** The rationals; the functions that leave the rationals are not used. *)
#[export] Instance QNum : Num Q := {
  nlit := inject_Z;
  nhalf := 1 # 2;
  nadd := fun a b => Qred (a + b); nsub := fun a b => Qred (a - b); nmul := fun a b => Qred (a * b); ndiv := fun a b => Qred (a / b);
  nopp := Qopp; nabs := Qabs; nsqrt := fun x => x;
  npow2 := fun x => Qmult x x;
  nisinf := fun _ => false;
  nfloordiv := fun a b => a; nmod := fun a b => a;
  nltb := fun a b => match Qcompare a b with Lt => true | _ => false end;
  nleb := fun a b => match Qcompare a b with Gt => false | _ => true end;
  neqb := fun a b => match Qcompare a b with Eq => true | _ => false end;
  ncos := fun x => x; nsin := fun x => x; ntan := fun x => x;
  natan2 := fun x y => x;
  nhypot := fun x y => x;
  nradians := fun d => d;
  ndegrees := fun r => r
}.
Lemma Q2R_red (q : Q) : Q2R (Qred q) = Q2R q.
Proof. apply Qeq_eqR, Qred_correct. Qed.
Lemma Q2R_lit (z : Z) : Q2R (inject_Z z) = IZR z.
Proof. unfold Q2R, inject_Z; cbn. field. Qed.
Lemma Q2R_hom : NumHom QNum RNum Q2R.
Proof.
  split; intros; cbn [nlit nhalf nadd nsub nmul ndiv nltb nleb neqb QNum RNum]; rewrite ?Q2R_red.
  - apply Q2R_lit.
  - unfold Q2R; cbn. lra.
  - apply Q2R_plus.
  - apply Q2R_minus.
  - apply Q2R_mult.
  - apply Q2R_div. cbn in H. destruct (Qcompare b (inject_Z 0)) eqn:E; try discriminate.
    + intro K. apply Qeq_alt in K. change (0%Q) with (inject_Z 0) in K. congruence.
    + intro K. apply Qeq_alt in K. change (0%Q) with (inject_Z 0) in K. congruence.
  - destruct (Qcompare a b) eqn:E.
    + apply Qeq_alt, Qeq_eqR in E. apply Rltb_false. lra.
    + apply Rltb_true. apply Qlt_Rlt. apply Qlt_alt. auto.
    + apply Rltb_false. apply Qgt_alt, Qlt_Rlt in E. lra.
  - destruct (Qcompare a b) eqn:E.
    + apply Qeq_alt, Qeq_eqR in E. apply Rleb_true. lra.
    + apply Rleb_true. apply Qlt_alt, Qlt_Rlt in E. lra.
    + apply Rleb_false. apply Qgt_alt, Qlt_Rlt in E. lra.
  - destruct (Qcompare a b) eqn:E.
    + apply Reqb_true. apply Qeq_alt, Qeq_eqR in E. auto.
    + apply Reqb_false. apply Qlt_alt, Qlt_Rlt in E. lra.
    + apply Reqb_false. apply Qgt_alt, Qlt_Rlt in E. lra.
Qed.

Section Hom.
  Context {T1 T2 : Type} {N1 : Num T1} {N2 : Num T2} {h : T1 -> T2} (H : NumHom N1 N2 h).
  Notation V1 := (vec T1).
  Notation V2 := (vec T2).
  Definition hv (v : V1) : V2 := mkV (h (vx v)) (h (vy v)).
  Definition hq (q : T1 * T1) : T2 * T2 := (h (fst q), h (snd q)).
  Definition hr {A B} (f : A -> B) (r : res A) : res B := rmap f r.

  Lemma h0 : h n0 = n0. Proof. apply (hm_lit _ _ _ H). Qed.
  Lemma h1 : h n1 = n1. Proof. apply (hm_lit _ _ _ H). Qed.
  Lemma h3 : h n3 = n3. Proof. apply (hm_lit _ _ _ H). Qed.
  Lemma hlt0 a : nltb (h a) n0 = nltb a n0. Proof. rewrite <- h0. apply (hm_lt _ _ _ H). Qed.
  Lemma h0lt a : nltb n0 (h a) = nltb n0 a. Proof. rewrite <- h0. apply (hm_lt _ _ _ H). Qed.
  Lemma hle0 a : nleb (h a) n0 = nleb a n0. Proof. rewrite <- h0. apply (hm_le _ _ _ H). Qed.
  Lemma h0le a : nleb n0 (h a) = nleb n0 a. Proof. rewrite <- h0. apply (hm_le _ _ _ H). Qed.
  Lemma heq0 a : neqb (h a) n0 = neqb a n0. Proof. rewrite <- h0. apply (hm_eq _ _ _ H). Qed.

  Ltac hh := rewrite <- ?(hm_add _ _ _ H), <- ?(hm_sub _ _ _ H), <- ?(hm_mul _ _ _ H), ?(hm_lt _ _ _ H), ?(hm_le _ _ _ H), ?(hm_eq _ _ _ H),
    ?hlt0, ?h0lt, ?hle0, ?h0le, ?heq0.
  (** Push [h] outwards over arithmetic, then drop it in comparisons. *)
  Ltac hp := cbn [hv hq vx vy fst snd]; repeat (progress hh).

  Lemma hv_x v : vx (hv v) = h (vx v). Proof. reflexivity. Qed.
  Lemma hv_y v : vy (hv v) = h (vy v). Proof. reflexivity. Qed.
  Lemma h_vec2 x y : vec2 (h x) (h y) = hv (vec2 x y).
  Proof. unfold vec2, hv. cbn [vx vy]. rewrite !(hm_mul _ _ _ H), h1. reflexivity. Qed.
  Lemma h_vec2_of v : vec2_of (hv v) = hv (vec2_of v).
  Proof. apply h_vec2. Qed.
  Lemma h_vsub a b : vsub (hv a) (hv b) = hv (vsub a b).
  Proof. unfold vsub, hv. hp. reflexivity. Qed.
  Lemma h_cross a b : cross (hv a) (hv b) = h (cross a b).
  Proof. unfold cross. hp. reflexivity. Qed.
  Lemma h_dot a b : dot (hv a) (hv b) = h (dot a b).
  Proof. unfold dot. hp. reflexivity. Qed.
  Lemma h_length2 a : length2 (hv a) = h (length2 a).
  Proof. unfold length2. hp. reflexivity. Qed.
  Lemma h_vec_bool v : vec_bool (hv v) = vec_bool v.
  Proof. unfold vec_bool. hp. reflexivity. Qed.
  Lemma h_vec_eqb a b : vec_eqb (hv a) (hv b) = vec_eqb a b.
  Proof. unfold vec_eqb. hp. reflexivity. Qed.
  Lemma h_vec_neb a b : vec_neb (hv a) (hv b) = vec_neb a b.
  Proof. unfold vec_neb. hp. reflexivity. Qed.
  Lemma last_map {A B} (f : A -> B) l d : last (map f l) (f d) = f (last l d).
  Proof. induction l as [|a l IH]; cbn; auto. destruct l; auto. Qed.
  Lemma py_get_map {A B} (f : A -> B) l i : py_get (map f l) i = hr f (py_get l i).
  Proof.
    unfold py_get. rewrite map_length. destruct (py_index _ i); auto. rewrite nth_error_map. destruct (nth_error l n); auto.
  Qed.

  (** ** Classification *)
  Lemma h_dir_of d : dir_of (hv d) = dir_of d.
  Proof. unfold dir_of. hp. reflexivity. Qed.
  Lemma h_edges_from vs : forall p, edges_from (hv p) (map hv vs) = map hv (edges_from p vs).
  Proof. induction vs as [|v vs IH]; intro p; cbn [edges_from map]; auto. rewrite h_vsub, IH. auto. Qed.
  Lemma h_edge_vectors vs : edge_vectors (map hv vs) = map hv (edge_vectors vs).
  Proof. destruct vs as [|v vs]; auto. unfold edge_vectors. cbn [map]. rewrite <- h_edges_from. f_equal. apply (last_map hv (v :: vs)). Qed.
  Lemma filter_hv (f : V2 -> bool) (g : V1 -> bool) l : (forall v, f (hv v) = g v) -> filter f (map hv l) = map hv (filter g l).
  Proof. intro Hf. induction l as [|a l IH]; cbn; auto. rewrite Hf, IH. destruct (g a); auto. Qed.
  Lemma h_classify_loop ds : forall ld d c a n, classify_loop (hv ld) d c a n (map hv ds) = classify_loop ld d c a n ds.
  Proof.
    induction ds as [|x ds IH]; intros; cbn [classify_loop map]; auto. rewrite h_dir_of, h_cross, hlt0, h0lt, !IH. reflexivity.
  Qed.
  Lemma h_classify_core vs : classify_core (map hv vs) = classify_core vs.
  Proof.
    unfold classify_core. rewrite !py_get_map. destruct (py_get vs (-1)); auto. cbn [hr rmap bind]. destruct (py_get vs (-2)); auto. cbn [hr rmap bind].
    rewrite h_edge_vectors, (filter_hv _ vec_bool) by apply h_vec_bool. rewrite h_vsub, h_dir_of, h_classify_loop. reflexivity.
  Qed.

  (** ** Polylines *)
  Definition hext (e : @extrema T1) : @extrema T2 :=
    mkExt (h (x_min_x e)) (h (x_max_x e)) (h (x_min_y e)) (h (x_max_y e)) (x_min_i e) (x_max_i e) (x_left_i e) (x_right_i e).
  Lemma h_ext_step e i v : ext_step (hext e) (i, hv v) = hext (ext_step e (i, v)).
  Proof.
    unfold ext_step. cbn [hext x_min_x x_max_x x_min_y x_max_y x_min_i x_max_i x_left_i x_right_i hv vx vy]. hp.
    destruct (nltb (vy v) (x_min_y e)), (nltb (x_max_y e) (vy v)), (nltb (vx v) (x_min_x e)), (nltb (x_max_x e) (vx v)); reflexivity.
  Qed.
  Lemma h_ext_fold vs : forall i e, fold_left ext_step (enumerate_from i (map hv vs)) (hext e) = hext (fold_left ext_step (enumerate_from i vs) e).
  Proof. induction vs as [|v vs IH]; intros; cbn [map enumerate_from fold_left]; auto. rewrite h_ext_step. apply IH. Qed.
  Lemma h_find_extrema vs : find_extrema (map hv vs) = hr hext (find_extrema vs).
  Proof.
    destruct vs as [|v vs]; auto. unfold find_extrema. cbn [map hr rmap]. f_equal.
    apply (h_ext_fold (v :: vs) 0 (mkExt (vx v) (vx v) (vy v) (vy v) 0 0 0 0)).
  Qed.
  Lemma h_orient_pl pl : orient_pl (map hq pl) = map hq (orient_pl pl).
  Proof.
    destruct pl as [|q pl]; auto. unfold orient_pl. cbn [map]. change (hq q :: map hq pl) with (map hq (q :: pl)). rewrite last_map. hp.
    destruct (nltb _ _); auto. symmetry. apply map_rev.
  Qed.
  Definition hpl (pl : list (T1 * T1) * list (T1 * T1)) : list (T2 * T2) * list (T2 * T2) := (map hq (fst pl), map hq (snd pl)).
  Lemma h_split vs : split_y_polylines (map hv vs) = hr hpl (split_y_polylines vs).
  Proof.
    unfold split_y_polylines. rewrite h_find_extrema. destruct (find_extrema vs) as [e|]; auto. cbn [hr rmap bind hext x_min_i x_max_i x_left_i x_right_i].
    rewrite map_map. assert (E : map (fun x : V1 => (vy (hv x), vx (hv x))) vs = map hq (map (fun v => (vy v, vx v)) vs)) by (rewrite map_map; reflexivity).
    rewrite E, !skipn_map, !firstn_map, <- !map_app, !h_orient_pl.
    destruct (Nat.ltb _ _); match goal with |- (if ?c then _ else _) = _ => destruct c end; reflexivity.
  Qed.
  Lemma h_key_before py q : key_before (h py) (hq q) = key_before py q.
  Proof. unfold key_before. hp. reflexivity. Qed.
  Lemma h_bisect a py : forall f lo hi, bisect_loop f (map hq a) (h py) lo hi = bisect_loop f a py lo hi.
  Proof.
    induction f as [|f IH]; intros; cbn [bisect_loop]; auto. destruct (Nat.ltb lo hi); auto. rewrite nth_error_map.
    destruct (nth_error a _); cbn [option_map]; auto. rewrite h_key_before, !IH. reflexivity.
  Qed.
  Lemma h_bisect_right a py : bisect_right (map hq a) (h py) = bisect_right a py.
  Proof. unfold bisect_right. rewrite map_length. apply h_bisect. Qed.
  Lemma h_side_yx a b p : side_yx (hq a) (hq b) (hv p) = h (side_yx a b p).
  Proof. unfold side_yx. hp. reflexivity. Qed.
  Lemma h_y_monotone pl p : y_monotone_test (hpl pl) (hv p) = y_monotone_test pl p.
  Proof.
    destruct pl as [lp rp]. unfold y_monotone_test, hpl. cbn [fst snd]. rewrite hv_y, !h_bisect_right.
    destruct (bisect_right lp (vy p)) as [i|]; auto. cbn [bind]. rewrite map_length. destruct (_ || _); auto.
    rewrite !py_get_map. destruct (py_get lp (Z.of_nat i - 1)) as [a|]; auto. cbn [hr rmap bind]. destruct (py_get lp (Z.of_nat i)) as [b|]; auto. cbn [hr rmap bind].
    rewrite h_side_yx, h0lt. destruct (nltb _ _); auto. destruct (bisect_right rp (vy p)) as [j|]; auto. cbn [bind].
    rewrite !py_get_map. destruct (py_get rp (Z.of_nat j - 1)) as [c|]; auto. cbn [hr rmap bind]. destruct (py_get rp (Z.of_nat j)) as [d|]; auto. cbn [hr rmap bind].
    rewrite h_side_yx, h0lt. reflexivity.
  Qed.

  (** ** Winding test *)
  Lemma h_side a b p : side (hv a) (hv b) (hv p) = h (side a b p).
  Proof. unfold side. hp. reflexivity. Qed.
  Lemma h_wind p vs : forall v0 w, wind_loop (hv p) (hv v0) w (map hv vs) = wind_loop p v0 w vs.
  Proof.
    induction vs as [|v vs IH]; intros; cbn [wind_loop map]; auto. rewrite IH. f_equal. f_equal. unfold wind_contrib.
    rewrite h_side, hle0, h0le. hp. reflexivity.
  Qed.
  Lemma h_winding vs p : winding_test (map hv vs) (hv p) = winding_test vs p.
  Proof. unfold winding_test. rewrite py_get_map. destruct (py_get vs (-1)); auto. cbn [hr rmap bind]. rewrite h_wind. reflexivity. Qed.

  (** ** Simplicity *)
  Lemma h_seg_dir a b c : seg_dir (hv a) (hv b) (hv c) = h (seg_dir a b c).
  Proof. unfold seg_dir. hp. reflexivity. Qed.
  Lemma h_segments_intersect a b c d : segments_intersect (hv a) (hv b) (hv c) (hv d) = segments_intersect a b c d.
  Proof. unfold segments_intersect, nfalsy. rewrite !h_seg_dir. hp. reflexivity. Qed.
  Definition hse (x : @sweep_entry T1) : @sweep_entry T2 := let '(a, b, i) := x in (hv a, hv b, i).
  Lemma h_pt_ltb a b : pt_ltb (hv a) (hv b) = pt_ltb a b.
  Proof. unfold pt_ltb. hp. reflexivity. Qed.
  Lemma h_entry_ltb a b : entry_ltb (hse a) (hse b) = entry_ltb a b.
  Proof. destruct a as [[a1 a2] i], b as [[b1 b2] j]. cbn [hse entry_ltb]. rewrite !h_vec_eqb, !h_pt_ltb. reflexivity. Qed.
  Lemma insert_map {A B} (f : A -> B) (l1 : A -> A -> bool) (l2 : B -> B -> bool) : (forall a b, l2 (f a) (f b) = l1 a b) ->
    forall x l, insert_by l2 (f x) (map f l) = map f (insert_by l1 x l).
  Proof. intros Hf x. induction l as [|y l IH]; cbn; auto. rewrite Hf. destruct (l1 x y); cbn; auto. rewrite IH. auto. Qed.
  Lemma sort_map {A B} (f : A -> B) (l1 : A -> A -> bool) (l2 : B -> B -> bool) : (forall a b, l2 (f a) (f b) = l1 a b) ->
    forall l, sort_by l2 (map f l) = map f (sort_by l1 l).
  Proof.
    intros Hf l. unfold sort_by. change (@nil B) with (map f []). generalize (@nil A). induction l as [|x l IH]; intro acc; cbn; auto.
    rewrite (insert_map f l1 l2 Hf). apply IH.
  Qed.
  Lemma h_pairs_from vs : forall i p, pairs_from i (hv p) (map hv vs) = map hse (pairs_from i p vs).
  Proof. induction vs as [|v vs IH]; intros; cbn [pairs_from map]; auto. rewrite IH. auto. Qed.
  Lemma h_sweep_points vs : sweep_points (map hv vs) = map hse (sweep_points vs).
  Proof.
    unfold sweep_points, indexed_edges. destruct vs as [|v vs]; auto.
    assert (E : pairs_from 0 (last (map hv (v :: vs)) (hv v)) (map hv (v :: vs)) = map hse (pairs_from 0 (last (v :: vs) v) (v :: vs))).
    { rewrite last_map, h_pairs_from. auto. }
    cbn [map] in E |- *. rewrite E. rewrite <- (sort_map hse entry_ltb entry_ltb h_entry_ltb). f_equal. rewrite map_app, !map_map. f_equal.
    apply map_ext. intros [[a b] i]. reflexivity.
  Qed.
  Lemma h_sweep k pts : forall open, sweep k (map hse open) (map hse pts) = sweep k open pts.
  Proof.
    induction pts as [|x pts IH]; intro open; cbn [sweep map]; auto. destruct x as [[a b] i] eqn:Hx. cbn [hse].
    assert (E1 : existsb (fun y : sweep_entry => Nat.eqb (snd y) i) (map hse open) = existsb (fun y : sweep_entry => Nat.eqb (snd y) i) open).
    { clear IH. induction open as [|[[c d] j] open IHo]; cbn; auto. rewrite IHo. auto. }
    assert (E2 : filter (fun y : sweep_entry => negb (Nat.eqb (snd y) i)) (map hse open) = map hse (filter (fun y : sweep_entry => negb (Nat.eqb (snd y) i)) open)).
    { clear IH E1. induction open as [|[[c d] j] open IHo]; cbn [filter map hse snd]; auto. rewrite IHo. destruct (negb (Nat.eqb j i)); auto. }
    assert (E3 : hits_open k (hv a, hv b, i) (map hse open) = hits_open k (a, b, i) open).
    { clear IH E1 E2. unfold hits_open. induction open as [|[[c d] j] open IHo]; cbn [existsb map hse]; auto. rewrite h_segments_intersect, IHo. auto. }
    unfold sweep_entry in *. rewrite E1, E2, E3, IH. rewrite <- (IH (open ++ [(a, b, i)])), map_app. reflexivity.
  Qed.
  Lemma h_check_is_simple vs : check_is_simple (map hv vs) = check_is_simple vs.
  Proof. unfold check_is_simple. rewrite map_length, h_sweep_points. apply (h_sweep _ _ []). Qed.

  (** ** Equality *)
  Definition htg (t : @tgram T1) : @tgram T2 := let '(a, b, c, i) := t in (hv a, hv b, hv c, i).
  Definition h3v (t : V1 * V1 * V1) : V2 * V2 * V2 := let '(a, b, c) := t in (hv a, hv b, hv c).
  Lemma h_tg_mem t s : tg_mem (htg t) (map htg s) = tg_mem t s.
  Proof.
    unfold tg_mem. induction s as [|u s IH]; cbn [existsb map]; auto. rewrite IH. f_equal. destruct t as [[[a b] c] i], u as [[[a' b'] c'] i'].
    cbn [htg tgram_eqb]. rewrite !h_vec_eqb. reflexivity.
  Qed.
  Lemma h_tg_fresh f : forall t s, tg_fresh f (htg t) (map htg s) = htg (tg_fresh f t s).
  Proof.
    induction f as [|f IH]; intros t s; cbn [tg_fresh]; auto. rewrite h_tg_mem. destruct (tg_mem t s); auto. destruct t as [[[a b] c] i]. cbn [htg].
    apply (IH (a, b, c, S i)).
  Qed.
  Lemma h_tg_add ts : forall s, fold_left tg_add (map h3v ts) (map htg s) = map htg (fold_left tg_add ts s).
  Proof.
    induction ts as [|[[a b] c] ts IH]; intro s; cbn [fold_left map h3v]; auto. rewrite <- IH. f_equal. unfold tg_add. rewrite map_length.
    cbn [map]. f_equal. apply (h_tg_fresh _ (a, b, c, 0%nat)).
  Qed.
  Lemma h_trigrams_from vs : forall a b, trigrams_from (hv a) (hv b) (map hv vs) = map h3v (trigrams_from a b vs).
  Proof. induction vs as [|v vs IH]; intros; cbn [trigrams_from map]; auto. rewrite IH. auto. Qed.
  Lemma h_trigrams vs : trigrams (map hv vs) = hr (map h3v) (trigrams vs).
  Proof.
    unfold trigrams. destruct vs as [|v vs]; auto. cbn [map]. change (hv v :: map hv vs) with (map hv (v :: vs)). rewrite !py_get_map.
    destruct (py_get (v :: vs) (-1)); auto. cbn [hr rmap bind]. destruct (py_get (v :: vs) (-2)); auto. cbn [hr rmap bind]. rewrite h_trigrams_from. auto.
  Qed.
  Lemma h_match_edges se ts : forall oe, match_edges (map htg se) (map htg oe) (map h3v ts) = option_map (map htg) (match_edges se oe ts).
  Proof.
    induction ts as [|[[a b] c] ts IH]; intro oe; cbn [match_edges map h3v]; auto. rewrite map_length.
    change (hv a, hv b, hv c, 0%nat) with (htg (a, b, c, 0%nat)). rewrite h_tg_fresh, h_tg_mem. destruct (tg_mem _ se); auto. apply (IH (_ :: oe)).
  Qed.
  Lemma h_set_eqb s t : set_eqb (map htg s) (map htg t) = set_eqb s t.
  Proof.
    unfold set_eqb. rewrite !map_length. f_equal. induction s as [|x s IH]; cbn; auto. rewrite h_tg_mem, IH. auto.
  Qed.
  Lemma h_poly_eqb vs ws : poly_eqb_verts (map hv vs) (map hv ws) = poly_eqb_verts vs ws.
  Proof.
    unfold poly_eqb_verts. rewrite !map_length. destruct (negb _); auto.
    assert (E : forallb (fun ab : V2 * V2 => negb (vec_neb (fst ab) (snd ab))) (combine (map hv vs) (map hv ws)) = forallb (fun ab : V1 * V1 => negb (vec_neb (fst ab) (snd ab))) (combine vs ws)).
    { revert ws. induction vs as [|v vs IH]; intros [|w ws]; cbn [combine forallb map]; auto. cbn [fst snd]. rewrite h_vec_neb, IH. auto. }
    rewrite E. clear E. destruct (forallb _ _); auto. rewrite !h_trigrams. destruct (trigrams vs) as [st|]; auto. cbn [hr rmap bind].
    destruct (trigrams ws) as [ot|]; auto. cbn [hr rmap bind]. change (@nil (@tgram T2)) with (map htg []). rewrite !h_tg_add, h_match_edges.
    assert (E2 : map (fun '(a, b, c) => (c, b, a)) (map h3v ot) = map h3v (map (fun '(a, b, c) => (c, b, a)) ot)).
    { rewrite !map_map. apply map_ext. intros [[a b] c]. auto. }
    rewrite E2, h_match_edges. destruct (match_edges (fold_left tg_add st []) [] ot); cbn [option_map]; rewrite ?h_set_eqb;
      destruct (match_edges (fold_left tg_add st []) [] (map _ ot)); cbn [option_map]; rewrite ?h_set_eqb; reflexivity.
  Qed.

  (** ** Boxes *)
  Definition hbox (b : bbox T1) : bbox T2 := mkBox (hv (bmin b)) (hv (bmax b)).
  Definition h4 (s : T1 * T1 * T1 * T1) : T2 * T2 * T2 * T2 := let '(a, b, c, d) := s in (h a, h b, h c, h d).
  Lemma hn1 x : nmul (h x) n1 = h (nmul x n1).
  Proof. rewrite (hm_mul _ _ _ H), h1. reflexivity. Qed.
  Lemma h_minmax s v : minmax_step (h4 s) (hv v) = h4 (minmax_step s v).
  Proof.
    destruct s as [[[a b] c] d]. unfold minmax_step, h4. hp. rewrite !hn1.
    destruct (nltb (vx v) a), (nltb c (vx v)), (nltb (vy v) b), (nltb d (vy v)); reflexivity.
  Qed.
  Lemma h_box_contains b p : box_contains (hbox b) (hv p) = box_contains b p.
  Proof. unfold box_contains, hbox. cbn [bmin bmax]. hp. reflexivity. Qed.
  Lemma h_minmax_fold vs : forall s, fold_left minmax_step (map hv vs) (h4 s) = h4 (fold_left minmax_step vs s).
  Proof. induction vs as [|v vs IH]; intro s; cbn [map fold_left]; auto. rewrite h_minmax. apply IH. Qed.
  Lemma h_box_from_points vs : box_from_points (map hv vs) = hr hbox (box_from_points vs).
  Proof.
    destruct vs as [|v vs]; auto. unfold box_from_points. cbn [map].
    change (vx (hv v), vy (hv v), vx (hv v), vy (hv v)) with (h4 (vx v, vy v, vx v, vy v)). rewrite h_minmax_fold.
    destruct (fold_left minmax_step vs _) as [[[a b] c] d]. cbn [h4 hr rmap hbox bmin bmax]. rewrite !h_vec2. reflexivity.
  Qed.

  (** ** Convex hull (iteration in insertion order) *)
  Definition h2v (s : V1 * V1) : V2 * V2 := (hv (fst s), hv (snd s)).
  Definition h2l (s : list V1 * list V1) : list V2 * list V2 := (map hv (fst s), map hv (snd s)).
  Lemma fold_hom {A1 A2 B1 B2} (fa : A1 -> A2) (fb : B1 -> B2) (f1 : A1 -> B1 -> A1) (f2 : A2 -> B2 -> A2) :
    (forall a b, f2 (fa a) (fb b) = fa (f1 a b)) -> forall l a, fold_left f2 (map fb l) (fa a) = fa (fold_left f1 l a).
  Proof. intros Hf. induction l as [|b l IH]; intro a; cbn; auto. rewrite Hf. apply IH. Qed.
  Lemma h_set_mem p s : set_mem (hv p) (map hv s) = set_mem p s.
  Proof. unfold set_mem. induction s as [|q s IH]; cbn [existsb map]; auto. rewrite h_vec_eqb, IH. auto. Qed.
  Lemma h_set_add p s : set_add (map hv s) (hv p) = map hv (set_add s p).
  Proof. unfold set_add. rewrite h_set_mem. destruct (set_mem p s); auto. rewrite map_app. auto. Qed.
  Lemma h_set_discard p s : set_discard (map hv s) (hv p) = map hv (set_discard s p).
  Proof. unfold set_discard. apply filter_hv. intro v. rewrite h_vec_eqb. auto. Qed.
  Lemma h_lr s p : lr_step (h2v s) (hv p) = h2v (lr_step s p).
  Proof. destruct s as [l r]. unfold lr_step, h2v. hp. destruct (nltb (vx p) (vx l)); auto. destruct (nltb (vx r) (vx p)); auto. Qed.
  Definition hfar (s : T1 * option V1) : T2 * option V2 := (h (fst s), option_map hv (snd s)).
  Lemma h_far p0 dx dy s p : far_step (hv p0) (h dx) (h dy) (hfar s) (hv p) = hfar (far_step p0 dx dy s p).
  Proof. unfold far_step, hfar. hp. destruct (nltb (fst s) _); auto. Qed.
  Lemma h_find_furthest pts p0 p1 : find_furthest (map hv pts) (hv p0) (hv p1) = option_map hv (find_furthest pts p0 p1).
  Proof.
    unfold find_furthest. hp. rewrite <- (hm_lit _ _ _ H). change (h (nlit (-1)), @None V2) with (hfar (nlit (-1), None)).
    rewrite (fold_hom hfar hv (far_step p0 (nsub (vx p1) (vx p0)) (nsub (vy p1) (vy p0)))); auto. intros; apply h_far.
  Qed.
  Lemma h_part pp v0 v1 a b c d s p : part_step (hv pp) (hv v0) (hv v1) (h a) (h b) (h c) (h d) (h2l s) (hv p) = h2l (part_step pp v0 v1 a b c d s p).
  Proof.
    destruct s as [l r]. unfold part_step, h2l. rewrite !h_vsub, !h_dot. hp. destruct (nltb _ n0); [cbn [fst snd]; rewrite map_app; reflexivity|].
    destruct (nltb _ n0); auto. cbn [fst snd]. rewrite map_app. reflexivity.
  Qed.
  Lemma h_partition pts p0 p1 pp : partition_pts (map hv pts) (hv p0) (hv p1) (hv pp) = hr h2l (partition_pts pts p0 p1 pp).
  Proof.
    unfold partition_pts, nfalsy, pydiv. rewrite !h_vsub, !h_length2, !h_dot. hp.
    destruct (neqb _ n0) eqn:E; auto. cbn [bind hr rmap]. f_equal. rewrite <- h1, <- (hm_div _ _ _ H) by exact E.
    change (@nil V2, @nil V2) with (h2l ([], [])).
    erewrite (fold_hom h2l hv); [reflexivity|]. intros; apply h_part.
  Qed.
  Lemma h_scan_pop p s : scan_pop (hv p) (map hv s) = map hv (scan_pop p s).
  Proof.
    induction s as [|v1 s IH]; auto. destruct s as [|v0 s]; auto. cbn [map] in *. cbn [scan_pop]. hp.
    destruct (nleb n0 _); auto.
  Qed.
  Lemma h_ahull_sort pts p0 p1 : ahull_sort (map hv pts) (hv p0) (hv p1) = map hv (ahull_sort pts p0 p1).
  Proof.
    unfold ahull_sort. rewrite h_vsub. change [hv p1] with (map hv [p1]).
    rewrite (sort_map hv (fun a b : V1 => nltb (line_order p0 (vx (vsub p1 p0)) (vy (vsub p1 p0)) a) (line_order p0 (vx (vsub p1 p0)) (vy (vsub p1 p0)) b))).
    - rewrite <- map_app. change [hv p0] with (map hv [p0]).
      rewrite (fold_hom (map hv) hv scan_step); [|intros; unfold scan_step; rewrite h_scan_pop; auto].
      destruct (fold_left scan_step _ [p0]); cbn [tl map]; rewrite ?map_rev; auto.
    - intros a b. unfold line_order. hp. reflexivity.
  Qed.
  Lemma h_ahull_partition f : forall pts p0 p1, ahull_partition f (map hv pts) (hv p0) (hv p1) = hr (map hv) (ahull_partition f pts p0 p1).
  Proof.
    induction f as [|f IH]; intros; cbn [ahull_partition]; auto. rewrite h_find_furthest. destruct (find_furthest pts p0 p1) as [pp|]; cbn [option_map]; auto.
    rewrite h_vec2_of, h_partition. destruct (partition_pts pts p0 p1 (vec2_of pp)) as [[l r]|]; auto. cbn [hr rmap bind h2l fst snd]. rewrite !map_length, !IH, !h_ahull_sort.
    assert (E1 : forall (c d : bool) (x : V1) (xs : list V1) (a : res (list V1)) (b : list V1),
      (if c then Ok (hv x :: map hv xs) else if d then hr (map hv) a else Ok (map hv b)) = hr (map hv) (if c then Ok (x :: xs) else if d then a else Ok b)).
    { intros [] [] *; auto. }
    rewrite !E1. match goal with |- bind (hr _ ?x) _ = _ => destruct x; auto end. cbn [hr rmap bind].
    match goal with |- bind (hr _ ?x) _ = _ => destruct x; auto end. cbn [hr rmap bind]. rewrite map_app. auto.
  Qed.
  Lemma h_upper_lower pts l r : upper_lower (map hv pts) (hv l) (hv r) = h2l (upper_lower pts l r).
  Proof.
    unfold upper_lower. change (@nil V2, @nil V2) with (h2l ([], [])). apply fold_hom. intros [u w] p. unfold h2l. hp.
    destruct (nltb n0 _); cbn [fst snd]; rewrite h_set_add; auto.
  Qed.
  Lemma h_quick_hull pts : quick_hull (fun l => l) (map hv pts) = hr (map hv) (quick_hull (fun l => l) pts).
  Proof.
    unfold quick_hull. destruct pts as [|p pts]; auto. cbn [map]. change (hv p :: map hv pts) with (map hv (p :: pts)).
    change (hv p, hv p) with (h2v (p, p)). rewrite (fold_hom h2v hv lr_step) by (intros; apply h_lr).
    destruct (fold_left lr_step (p :: pts) (p, p)) as [l r]. cbn [h2v fst snd]. rewrite h_upper_lower.
    destruct (upper_lower (p :: pts) l r) as [u w]. cbn [h2l fst snd]. rewrite !h_set_discard.
    assert (E : forall s a b, match map hv s with [] => Ok [hv a] | _ => ahull_partition (S (length (map hv s))) (map hv s) (hv a) (hv b) end
      = hr (map hv) match s with [] => Ok [a] | _ => ahull_partition (S (length s)) s a b end).
    { intros s a b. rewrite map_length. destruct s as [|q s]; auto. cbn [map]. change (hv q :: map hv s) with (map hv (q :: s)). apply h_ahull_partition. }
    rewrite !E. match goal with |- bind (hr _ ?x) _ = _ => destruct x; auto end. cbn [hr rmap bind].
    match goal with |- bind (hr _ ?x) _ = _ => destruct x; auto end. cbn [hr rmap bind]. rewrite map_app. auto.
  Qed.
End Hom.
