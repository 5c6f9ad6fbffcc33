(** * Invariants of every reachable polygon object *)
From Coq Require Import ZArith List Bool Lia.
From Verif Require Import Num Vec Affine Box Seq Polygon Tangent PolyOps SpecPoly OrdLaws SpecBox BoxFacts BoxFacts2 PolyCache PolyCache2.
Import ListNotations.

Section Reach.
  Context {T : Type} {N : Num T}.
  Notation V := (vec T).
  Notation P := (poly T).

  Record finv (p : P) : Prop := {
    fi_small : length (pverts p) <= 3 -> pconvex p = Some true /\ psimple p = Some true;
    fi_cs : pconvex p = Some true -> psimple p = Some true;
    fi_pl : pl_inv p
  }.
  Lemma finv_cleared vs tri : finv (cleared vs tri).
  Proof.
    unfold cleared. split; cbn [pverts pconvex psimple]; destruct (big_small vs) as [[H H']|[H H']]; rewrite H; auto; try discriminate; try (intro; lia);
      intros pl Hpl; discriminate.
  Qed.
  Lemma finv_new vs c s p : poly_new vs c s = Ok p -> finv p.
  Proof.
    unfold poly_new. destruct (Nat.ltb_spec (length (seq_new vs)) 3); [discriminate|]. unfold cleared.
    destruct (big_small (seq_new vs)) as [[H1 H2]|[H1 H2]]; rewrite H1; cbn [pconvex psimple pverts pypl pdupe pdegen pbbox pcentroid pmaxr2 pminr2 ptri].
    - destruct c as [[|]|]; cbn [andb bind].
      + destruct (split_y_polylines (seq_new vs)) as [pl|] eqn:Hpl; cbn [bind]; [|discriminate]. cbn [psimple]. intro HP.
        assert (p = mkPoly (seq_new vs) (Some true) (Some true) (Some pl) None None None None None None None) by (destruct s; congruence). subst p.
        split; cbn [pverts pconvex psimple]; auto. intros pl' Hpl'. cbn in Hpl' |- *. congruence.
      + destruct s as [s|]; cbn [psimple]; intro HP; injection HP as <-; split; cbn [pverts pconvex psimple]; try discriminate; try (intro; lia); intros pl' Hpl'; discriminate.
      + destruct s as [s|]; cbn [psimple]; intro HP; injection HP as <-; split; cbn [pverts pconvex psimple]; try discriminate; try (intro; lia); intros pl' Hpl'; discriminate.
    - destruct c as [c|], s as [s|]; cbn [bind psimple]; intro HP; injection HP as <-; split; cbn [pverts pconvex psimple]; auto; intros pl' Hpl'; discriminate.
  Qed.
  Lemma finv_ext (p q : P) : finv p -> pverts q = pverts p -> pconvex q = pconvex p -> psimple q = psimple p -> pypl q = pypl p \/ pypl q = None -> finv q.
  Proof.
    intros [h1 h2 h3] E1 E2 E3 E4. split; rewrite ?E1, ?E2, ?E3; auto. intros pl Hpl. rewrite E1. destruct E4 as [E4|E4]; [|congruence]. apply h3. congruence.
  Qed.
  Lemma finv_classify (p p1 : P) : finv p -> pconvex p = None -> classify p = Ok p1 -> finv p1.
  Proof.
    intros [h1 h2 h3] Hc HP. assert (HL : ~ length (pverts p) <= 3) by (intro K; apply h1 in K; destruct K; congruence).
    unfold classify in HP. destruct (classify_core (pverts p)) as [[[c d] k]|]; cbn [bind] in HP; [|discriminate]. destruct (c && negb d) eqn:Hcd.
    - apply andb_true_iff in Hcd. destruct Hcd as [-> _]. destruct (split_y_polylines (pverts p)) as [pl|] eqn:Hpl; cbn [bind] in HP; [|discriminate].
      injection HP as <-. split; cbn [pverts pconvex psimple]; auto; try tauto. intros pl' Hpl'. cbn in Hpl' |- *. congruence.
    - injection HP as <-. split; cbn [pverts pconvex psimple]; try tauto.
      + destruct c; auto; discriminate.
  Qed.
  Lemma finv_convex (p : P) : finv p -> finv (snd (get_is_convex p)).
  Proof.
    intro H. unfold get_is_convex. destruct (pconvex p) eqn:Hc; auto. destruct (classify p) as [p1|] eqn:H1; auto.
    pose proof (finv_classify p p1 H Hc H1). destruct (pconvex p1); auto.
  Qed.
  Lemma finv_simple (p : P) : finv p -> finv (snd (get_is_simple p)).
  Proof.
    intro H. unfold get_is_simple. destruct (psimple p) eqn:Hs; auto.
    assert (HS : forall q b, finv q -> psimple q = None -> finv (set_simple q b)).
    { intros q b [h1 h2 h3] Hq. split; cbn [set_simple pverts pconvex psimple].
      - intro K. apply h1 in K. destruct K; congruence.
      - intro K. apply h2 in K. congruence.
      - intros pl Hpl. apply h3. auto. }
    destruct (pconvex p) eqn:Hc.
    - rewrite Hs. apply HS; auto.
    - destruct (classify p) as [p1|] eqn:H1; auto. pose proof (finv_classify p p1 H Hc H1). destruct (psimple p1) eqn:Hs1; auto. cbn [snd]. auto.
  Qed.
  Lemma finv_centroid (p : P) : finv p -> finv (snd (get_centroid p)).
  Proof.
    intro H. unfold get_centroid. destruct (pcentroid p); auto. pose proof (finv_simple p H) as H1.
    destruct (get_is_simple p) as [[[|]|] p1]; cbn [snd] in *; auto.
    - destruct (centroid_value (pverts p1)); cbn [snd]; auto. eapply finv_ext; eauto.
    - eapply finv_ext; eauto.
  Qed.
  Lemma finv_bbox (p : P) : finv p -> finv (snd (get_bbox p)).
  Proof.
    intro H. unfold get_bbox. destruct (pbbox p); auto. destruct (box_from_points (pverts p)); cbn [snd]; auto. eapply finv_ext; eauto.
  Qed.
  Lemma finv_contains E pt (p : P) : finv p -> finv (snd (contains_point E pt p)).
  Proof.
    intro H. unfold contains_point. destruct (Nat.eqb _ 3).
    - unfold triangle_test. destruct (ptri p); auto. destruct (tri_build E (pverts p)) as [[c|]|]; auto. eapply finv_ext; eauto.
    - destruct (radial_shortcut p pt) as [[b|]|]; auto. destruct (pypl p); auto. destruct (Nat.eqb _ 4); auto.
      pose proof (finv_bbox p H) as H1. destruct (get_bbox p) as [[b|] p1]; cbn [snd] in *; auto. destruct (box_contains b pt); auto.
  Qed.
  Lemma finv_read q (p : P) : finv p -> finv (read_state q p).
  Proof.
    intro H. destruct q; cbn [read_state]; auto using finv_convex, finv_simple, finv_centroid, finv_bbox, finv_contains.
    unfold tangents_to_point. destruct (Nat.ltb _ _); auto. pose proof (finv_convex p H) as H1.
    destruct (get_is_convex p) as [[[|]|] p1]; cbn [snd] in *; auto. destruct (pdupe p1) as [[|]|]; auto.
  Qed.
  Lemma finv_op o (p : P) : finv p -> finv (op_state o p).
  Proof.
    intro H. destruct o; cbn [op_state].
    - apply finv_read; auto.
    - unfold poly_setitem. destruct (py_set _ _ _); auto. apply finv_cleared.
    - apply finv_cleared.
    - eapply finv_ext; eauto.
    - eapply finv_ext; eauto.
  Qed.
  Lemma finv_born (p : P) : poly_born p -> finv p.
  Proof.
    intros [vs c s p' H|vs|n r c a p' H|n r1 r2 c a p' H|p' m].
    - eapply finv_new; eauto.
    - apply finv_cleared.
    - unfold poly_regular in H. destruct (pydiv _ _); cbn [bind] in H; [|discriminate].
      destruct (poly_new _ _ _) as [q|] eqn:Hq; cbn [bind] in H; [|discriminate]. apply finv_new in Hq.
      destruct (py_get (pverts q) 0); cbn [bind] in H; [|discriminate]. destruct (py_get (pverts q) 1); cbn [bind] in H; [|discriminate].
      injection H as <-. eapply finv_ext; eauto.
    - unfold poly_star in H. destruct (Nat.ltb n 2); [discriminate|]. destruct (pydiv _ _); cbn [bind] in H; [|discriminate].
      destruct (poly_new _ _ _) as [q|] eqn:Hq; cbn [bind] in H; [|discriminate]. apply finv_new in Hq.
      match type of H with (bind ?x _ = _) => destruct x as [[m q']|] eqn:Hm; cbn [bind] in H; [|discriminate] end.
      assert (HX : finv q').
      { clear H. revert Hm. destruct (Bool.eqb _ _); [|congruence]. pose proof (finv_convex q Hq) as Hc.
        destruct (get_is_convex q) as [[[|]|] p1]; cbn [snd] in Hc.
        - destruct (py_get (pverts p1) 0); cbn [bind]; [|discriminate]. destruct (py_get (pverts p1) 1); cbn [bind]; [|discriminate]. congruence.
        - cbn zeta. congruence.
        - discriminate. }
      injection H as <-. eapply finv_ext; eauto.
    - apply finv_cleared.
  Qed.
  Lemma finv_reachable (p : P) : reachable p -> finv p.
  Proof.
    intros (p0 & os & Hb & ->). apply finv_born in Hb. revert p0 Hb. induction os as [|o os IH]; intros p0 Hb; cbn; auto.
    apply IH. apply finv_op; auto.
  Qed.

  (** ** Vertices *)
  Lemma bbox_verts (p : P) : pverts (snd (get_bbox p)) = pverts p.
  Proof. unfold get_bbox. destruct (pbbox p); auto. destruct (box_from_points (pverts p)); auto. Qed.
  Lemma centroid_verts (p : P) : pverts (snd (get_centroid p)) = pverts p.
  Proof.
    unfold get_centroid. destruct (pcentroid p); auto. pose proof (simple_verts p) as H. destruct (get_is_simple p) as [[[|]|] p1]; cbn [snd] in *; auto.
    destruct (centroid_value (pverts p1)); auto.
  Qed.
  Lemma read_verts q (p : P) : pverts (read_state q p) = pverts p.
  Proof.
    destruct q; cbn [read_state]; auto using convex_state_verts, simple_verts, centroid_verts, bbox_verts.
    - unfold contains_point. destruct (Nat.eqb _ 3).
      + unfold triangle_test. destruct (ptri p); auto. destruct (tri_build E (pverts p)) as [[c|]|]; auto.
      + destruct (radial_shortcut p pt) as [[b|]|]; auto. destruct (pypl p); auto. destruct (Nat.eqb _ 4); auto.
        pose proof (bbox_verts p) as H1. destruct (get_bbox p) as [[b|] p1]; cbn [snd] in *; auto. destruct (box_contains b pt); auto.
    - unfold tangents_to_point. destruct (Nat.ltb _ _); auto. pose proof (convex_state_verts p) as H1.
      destruct (get_is_convex p) as [[[|]|] p1]; cbn [snd] in *; auto. destruct (pdupe p1) as [[|]|]; auto.
  Qed.
  Lemma pverts_cleared (vs : list V) tri : pverts (cleared vs tri) = vs.
  Proof. reflexivity. Qed.
  Lemma op_verts o (p : P) : pverts (op_state o p) = write (pverts p) o.
  Proof.
    destruct o; cbn [op_state write]; auto using read_verts. unfold poly_setitem. destruct (py_set _ _ _); auto.
  Qed.
  Lemma prun_verts os : forall p : P, pverts (prun p os) = writes (pverts p) os.
  Proof. induction os as [|o os IH]; intro p; cbn; auto. rewrite <- op_verts. apply IH. Qed.

  (** ** Centroid slot *)
  Lemma convex_centroid (p : P) : pcentroid (snd (get_is_convex p)) = pcentroid p.
  Proof.
    unfold get_is_convex. destruct (pconvex p); auto. pose proof (classify_flags p) as H. destruct (classify p) as [p1|] eqn:H1; auto.
    destruct (classify (pfresh _)); [|contradiction]. destruct H as (_ & _ & _ & _ & _ & _ & H & _). destruct (pconvex p1); auto.
  Qed.
  Lemma simple_centroid (p : P) : pcentroid (snd (get_is_simple p)) = pcentroid p.
  Proof.
    unfold get_is_simple. destruct (psimple p) eqn:Hs; auto. destruct (pconvex p); [rewrite Hs; auto|].
    pose proof (classify_flags p) as H. destruct (classify p) as [p1|] eqn:H1; auto.
    destruct (classify (pfresh _)); [|contradiction]. destruct H as (_ & _ & _ & _ & _ & _ & H & _). destruct (psimple p1); auto.
  Qed.
  Lemma other_centroid o (p : P) : not_centroid o -> pcentroid p <> Some None -> pcentroid (op_state o p) <> Some None.
  Proof.
    intros Ho Hc. destruct o as [q|i v|m| |]; cbn [op_state]; auto.
    - destruct q; cbn [read_state]; rewrite ?convex_centroid, ?simple_centroid; auto.
      + unfold get_bbox. destruct (pbbox p); auto. destruct (box_from_points (pverts p)); auto.
      + unfold contains_point. destruct (Nat.eqb _ 3).
        * unfold triangle_test. destruct (ptri p); auto. destruct (tri_build E (pverts p)) as [[c|]|]; auto.
        * destruct (radial_shortcut p pt) as [[b|]|]; auto. destruct (pypl p); auto. destruct (Nat.eqb _ 4); auto.
          assert (H1 : pcentroid (snd (get_bbox p)) = pcentroid p).
          { unfold get_bbox. destruct (pbbox p); auto. destruct (box_from_points (pverts p)); auto. }
          destruct (get_bbox p) as [[b|] p1]; cbn [snd] in *; try congruence. destruct (box_contains b pt); cbn [snd]; congruence.
      + unfold tangents_to_point. destruct (Nat.ltb _ _); auto. pose proof (convex_centroid p) as H1.
        destruct (get_is_convex p) as [[[|]|] p1]; cbn [snd] in *; try congruence. destruct (pdupe p1) as [[|]|]; cbn [snd]; congruence.
    - unfold poly_setitem. destruct (py_set _ _ _); auto. cbn. discriminate.
    - cbn. discriminate.
  Qed.
  Lemma new_centroid vs c s (p : P) : poly_new vs c s = Ok p -> pcentroid p = None.
  Proof.
    unfold poly_new. destruct (Nat.ltb _ 3); [discriminate|].
    assert (HS : forall r : res P, (forall q, r = Ok q -> pcentroid q = None) -> forall q, (let* p := r in
      match s with Some s0 => match psimple p with
        | None => Ok (mkPoly (seq_new vs) (pconvex p) (Some s0) (pypl p) (pdupe p) (pdegen p) (pbbox p) (pcentroid p) (pmaxr2 p) (pminr2 p) (ptri p))
        | Some _ => Ok p end | None => Ok p end) = Ok q -> pcentroid q = None).
    { intros r Hr q. destruct r as [q'|]; cbn [bind]; [|discriminate]. specialize (Hr q' eq_refl).
      destruct s; [destruct (psimple q')|]; intro HP; injection HP as <-; auto. }
    apply HS. intros q. unfold cleared. cbn [pconvex]. destruct c as [c|]; [|intro HP; injection HP as <-; auto].
    destruct (Nat.ltb 3 _); [|intro HP; injection HP as <-; auto].
    destruct c; cbn [andb]; [|intro HP; injection HP as <-; auto]. destruct (split_y_polylines _); cbn [bind]; [|discriminate]. intro HP; injection HP as <-; auto.
  Qed.
  Lemma star_centroid n r1 r2 c a (p : P) : poly_star n r1 r2 c a = Ok p -> pcentroid p <> Some None.
  Proof.
    intro H. unfold poly_star in H. destruct (Nat.ltb n 2); [discriminate|]. destruct (pydiv _ _); cbn [bind] in H; [|discriminate].
    destruct (poly_new _ _ _) as [q|] eqn:Hq; cbn [bind] in H; [|discriminate]. apply new_centroid in Hq.
    match type of H with (bind ?x _ = _) => destruct x as [[m q']|] eqn:Hm; cbn [bind] in H; [|discriminate] end.
    injection H as <-. cbn [pcentroid]. rewrite Hq. match goal with |- (if ?b then _ else _) <> _ => destruct b; discriminate end.
  Qed.
  Lemma born_centroid (p : P) : poly_born p -> pcentroid p <> Some None.
  Proof.
    intros [vs c s p' H|vs|n r c a p' H|n r1 r2 c a p' H|p' m].
    - rewrite (new_centroid _ _ _ _ H). discriminate.
    - cbn. discriminate.
    - unfold poly_regular in H. destruct (pydiv _ _); cbn [bind] in H; [|discriminate].
      destruct (poly_new _ _ _) as [q|] eqn:Hq; cbn [bind] in H; [|discriminate].
      destruct (py_get (pverts q) 0); cbn [bind] in H; [|discriminate]. destruct (py_get (pverts q) 1); cbn [bind] in H; [|discriminate].
      injection H as <-. cbn. discriminate.
    - eapply star_centroid; eauto.
    - cbn. discriminate.
  Qed.
  Lemma prun_centroid os : Forall not_centroid os -> forall p : P, pcentroid p <> Some None -> pcentroid (prun p os) <> Some None.
  Proof. induction 1 as [|o os Ho Hos IH]; intros p Hp; cbn; auto. apply IH. apply other_centroid; auto. Qed.

  (** ** Point queries while only reading *)
  Record qinv (E : T) (vs : list V) (p : P) : Prop := {
    qi_verts : pverts p = vs;
    qi_coh : coh p;
    qi_ypl : pypl p = None;
    qi_r : pmaxr2 p = None /\ pminr2 p = None;
    qi_tri : forall c, ptri p = Some c -> length vs = 3 -> tri_build E vs = Ok (Some c)
  }.
  Lemma qinv_fresh E vs : qinv E vs (pfresh vs).
  Proof. split; auto. - apply coh_cleared. - intros c Hc. unfold pfresh, poly_from_points, cleared in Hc. cbn [ptri] in Hc. destruct (Nat.ltb 3 _); discriminate. Qed.
  (** Neither detected convex with an area (which would switch to the binary
      search test). *)
  Definition stays_general (vs : list V) : Prop := pypl (snd (get_is_convex (pfresh vs))) = None.
  Lemma classify_general (vs : list V) (p p1 : P) : stays_general vs -> pverts p = vs -> 3 < length vs -> pypl p = None -> classify p = Ok p1 ->
    pypl p1 = None /\ pmaxr2 p1 = pmaxr2 p /\ pminr2 p1 = pminr2 p /\ ptri p1 = ptri p /\ pverts p1 = vs.
  Proof.
    intros HG Hv HL Hy HP. unfold stays_general in HG.
    pose proof (classify_flags p) as HF. rewrite HP in HF. rewrite Hv in HF. unfold get_is_convex in HG.
    unfold classify in HP, HG. rewrite pverts_fresh in HG. rewrite Hv in HP.
    destruct (classify_core vs) as [[[c d] k]|]; cbn [bind] in HP, HG; [|discriminate].
    destruct (pfresh_big vs HL) as (K & _). rewrite K in HG.
    destruct (c && negb d).
    - destruct (split_y_polylines vs); cbn [bind] in HP, HG; [|discriminate]. cbn in HG. discriminate.
    - injection HP as <-. cbn. auto.
  Qed.
  Lemma coh_len (p : P) : coh p -> pconvex p = None \/ psimple p = None -> 3 < length (pverts p).
  Proof. intros H K. destruct (Nat.le_gt_cases (length (pverts p)) 3) as [L|]; auto. apply (co_small p H) in L. destruct L, K; congruence. Qed.
  Lemma qinv_ext E vs (p q : P) : qinv E vs p -> coh q -> pverts q = vs -> pypl q = pypl p -> pmaxr2 q = pmaxr2 p -> pminr2 q = pminr2 p -> ptri q = ptri p -> qinv E vs q.
  Proof. intros [h1 h2 h3 [h4 h4'] h5] Hc E1 E2 E3 E4 E5. split; auto; try congruence. - split; congruence. - rewrite E5. auto. Qed.
  Lemma qinv_convex E vs (p : P) : stays_general vs -> qinv E vs p -> qinv E vs (snd (get_is_convex p)).
  Proof.
    intros HG H. pose proof (convex_state_coh p (qi_coh _ _ _ H)) as Hc. revert Hc. unfold get_is_convex.
    destruct (pconvex p) eqn:E1; auto. pose proof (coh_len p (qi_coh _ _ _ H) (or_introl E1)) as HL. rewrite (qi_verts _ _ _ H) in HL.
    destruct (classify p) as [p1|] eqn:E2; auto.
    destruct (classify_general vs p p1 HG (qi_verts _ _ _ H) HL (qi_ypl _ _ _ H) E2) as (A1 & A2 & A3 & A4 & A5).
    pose proof (qi_ypl _ _ _ H). destruct (pconvex p1); cbn [snd]; intro Hc; apply (qinv_ext E vs p); auto; congruence.
  Qed.
  Lemma qinv_simple E vs (p : P) : stays_general vs -> qinv E vs p -> qinv E vs (snd (get_is_simple p)).
  Proof.
    intros HG H. destruct (read_simple p (qi_coh _ _ _ H)) as (_ & Hc & _). revert Hc. unfold get_is_simple.
    destruct (psimple p) eqn:E1; auto. pose proof (coh_len p (qi_coh _ _ _ H) (or_intror E1)) as HL. rewrite (qi_verts _ _ _ H) in HL.
    destruct (pconvex p) eqn:E0.
    - rewrite E1. cbn [snd]. intro Hc. apply (qinv_ext E vs p); auto. apply (qi_verts _ _ _ H).
    - destruct (classify p) as [p1|] eqn:E2; auto.
      destruct (classify_general vs p p1 HG (qi_verts _ _ _ H) HL (qi_ypl _ _ _ H) E2) as (A1 & A2 & A3 & A4 & A5).
      pose proof (qi_ypl _ _ _ H). destruct (psimple p1); cbn [snd]; intro Hc; apply (qinv_ext E vs p); auto; cbn; congruence.
  Qed.
  Lemma qinv_centroid E vs (p : P) : stays_general vs -> qinv E vs p -> qinv E vs (snd (get_centroid p)).
  Proof.
    intros HG H. destruct (read_centroid p (qi_coh _ _ _ H)) as (_ & Hc & _). revert Hc. unfold get_centroid.
    destruct (pcentroid p) eqn:E1; auto. pose proof (qinv_simple E vs p HG H) as H1. destruct (get_is_simple p) as [[[|]|] p1]; cbn [snd] in *; auto.
    - destruct (centroid_value (pverts p1)); cbn [snd]; auto. intro Hc. apply (qinv_ext E vs p1); auto. apply (qi_verts _ _ _ H1).
    - intro Hc. apply (qinv_ext E vs p1); auto. apply (qi_verts _ _ _ H1).
  Qed.
  Lemma qinv_bbox E vs (p : P) : qinv E vs p -> qinv E vs (snd (get_bbox p)).
  Proof.
    intros H. destruct (read_bbox p (qi_coh _ _ _ H)) as (_ & Hc & _). revert Hc. unfold get_bbox.
    destruct (pbbox p) eqn:E1; auto. destruct (box_from_points (pverts p)); cbn [snd]; auto. intro Hc. apply (qinv_ext E vs p); auto. apply (qi_verts _ _ _ H).
  Qed.
  Lemma qinv_contains E vs pt (p : P) : qinv E vs p -> qinv E vs (snd (contains_point E pt p)).
  Proof.
    intros H. destruct (contains_state E pt p (qi_coh _ _ _ H)) as (Hc & _). revert Hc. unfold contains_point.
    destruct (Nat.eqb _ 3).
    - unfold triangle_test. destruct (ptri p) eqn:E1; auto. destruct (tri_build E (pverts p)) as [[c|]|] eqn:E2; auto. cbn [snd]. intro Hc.
      rewrite (qi_verts _ _ _ H) in E2. destruct H as [h1 h2 h3 h4 h5]. split; auto. cbn. intros c' Hc' _. congruence.
    - destruct (radial_shortcut p pt) as [[b|]|]; auto. destruct (pypl p); auto. destruct (Nat.eqb _ 4); auto.
      pose proof (qinv_bbox E vs p H) as H1. destruct (get_bbox p) as [[b|] p1]; cbn [snd] in *; auto. destruct (box_contains b pt); auto.
  Qed.
  Lemma qinv_read E vs q (p : P) : stays_general vs -> same_eps E q -> qinv E vs p -> qinv E vs (read_state q p).
  Proof.
    intros HG HE H. destruct q; cbn [read_state]; cbn [same_eps] in HE; subst; auto using qinv_convex, qinv_simple, qinv_centroid, qinv_bbox, qinv_contains.
    unfold tangents_to_point. destruct (Nat.ltb _ _); auto. pose proof (qinv_convex E vs p HG H) as H1.
    destruct (get_is_convex p) as [[[|]|] p1]; cbn [snd] in *; auto. destruct (pdupe p1) as [[|]|]; auto.
  Qed.
  Lemma qinv_reads E vs qs : stays_general vs -> Forall (same_eps E) qs -> forall p : P, qinv E vs p -> qinv E vs (preads p qs).
  Proof. intro HG. induction 1 as [|q qs Hq Hqs IH]; intros p H; cbn; auto. apply IH. apply qinv_read; auto. Qed.

  (** The answer of a point query in such a state. *)
  Lemma qinv_answer E vs pt (p : P) : qinv E vs p -> length vs <= 4 \/ pcentroid p <> Some None ->
    fst (contains_point E pt p) = fst (contains_point E pt (pfresh vs)).
  Proof.
    intros H Hc. unfold contains_point. rewrite (qi_verts _ _ _ H), pverts_fresh.
    destruct (Nat.eqb_spec (length vs) 3) as [H3|H3].
    - unfold triangle_test. rewrite pverts_fresh. assert (ptri (pfresh vs) = None) as -> by (cbn; rewrite H3; reflexivity).
      destruct (ptri p) as [c|] eqn:E1; [|rewrite (qi_verts _ _ _ H); destruct (tri_build E vs) as [[c|]|]; reflexivity].
      rewrite (qi_tri _ _ _ H c E1 H3). reflexivity.
    - assert (HR : radial_shortcut p pt = Ok None).
      { unfold radial_shortcut. rewrite (qi_verts _ _ _ H). destruct (qi_r _ _ _ H) as [-> ->].
        destruct (Nat.ltb_spec 4 (length vs)); auto. destruct (pcentroid p) as [[c|]|]; auto. destruct Hc; [lia|congruence]. }
      assert (HR' : radial_shortcut (pfresh vs) pt = Ok None).
      { unfold radial_shortcut. rewrite pfresh_centroid. destruct (Nat.ltb 4 _); auto. }
      rewrite HR, HR', (qi_ypl _ _ _ H). assert (pypl (pfresh vs) = None) as -> by reflexivity.
      destruct (Nat.eqb (length vs) 4); auto. pose proof (read_bbox p (qi_coh _ _ _ H)) as (B1 & _ & B3). rewrite (qi_verts _ _ _ H) in B1, B3.
      pose proof (bbox_verts (pfresh vs)) as B4. rewrite pverts_fresh in B4.
      destruct (get_bbox p) as [[b|e] p1], (get_bbox (pfresh vs)) as [[b'|e'] p2]; cbn [fst snd] in *; try discriminate; try congruence.
      injection B1 as <-. rewrite B3, B4. destruct (box_contains b pt); reflexivity.
  Qed.
  (** A simple polygon never caches "no centroid". *)
  Lemma simple_reads_centroid (p : P) qs : coh p -> fst (get_is_simple (pfresh (pverts p))) = Ok true ->
    pcentroid p <> Some None -> pcentroid (preads p qs) <> Some None.
  Proof.
    revert p. induction qs as [|q qs IH]; intros p H Hs Hc; cbn; auto.
    destruct (read_state_coh q p H) as [H1 H2]. apply IH; auto; [rewrite H2; auto|].
    intro K. pose proof (co_centroid _ H1 None K) as K1. rewrite H2 in K1. unfold get_centroid in K1. rewrite pfresh_centroid in K1.
    destruct (get_is_simple (pfresh (pverts p))) as [r p1]. cbn [fst] in Hs. subst r. destruct (centroid_value (pverts p1)); cbn in K1; discriminate.
  Qed.
End Reach.
