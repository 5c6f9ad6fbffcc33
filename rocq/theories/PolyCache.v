(** * Cached properties of polygons: lemmas over any number system *)
From Coq Require Import ZArith List Bool Lia.
From Verif Require Import Num Vec Affine Box Seq Polygon Tangent PolyOps.
Import ListNotations.

Section PolyCache.
  Context {T : Type} {N : Num T}.
  Notation V := (vec T).
  Notation P := (poly T).

  Definition pfresh (vs : list V) : P := poly_from_points vs.

  Record coh (p : P) : Prop := {
    co_small : length (pverts p) <= 3 -> pconvex p = Some true /\ psimple p = Some true;
    co_convex : forall b, pconvex p = Some b -> fst (get_is_convex (pfresh (pverts p))) = Ok b;
    co_simple : forall b, psimple p = Some b -> fst (get_is_simple (pfresh (pverts p))) = Ok b;
    co_bbox : forall b, pbbox p = Some b -> fst (get_bbox (pfresh (pverts p))) = Ok b;
    co_centroid : forall c, pcentroid p = Some c -> fst (get_centroid (pfresh (pverts p))) = Ok c;
    co_cs : pconvex p = Some true -> psimple p = Some true
  }.

  Lemma big_small (vs : list V) : (Nat.ltb 3 (length vs) = true /\ 3 < length vs) \/ (Nat.ltb 3 (length vs) = false /\ length vs <= 3).
  Proof. destruct (Nat.ltb_spec 3 (length vs)); auto. Qed.
  Lemma coh_cleared vs tri : coh (cleared vs tri).
  Proof.
    unfold cleared. destruct (big_small vs) as [[H H']|[H H']].
    - rewrite H. split; cbn [pverts pconvex psimple pbbox pcentroid]; try congruence. intro; lia.
    - rewrite H. split; cbn [pverts pconvex psimple pbbox pcentroid]; intros; try discriminate; auto.
      + injection H0 as <-. unfold get_is_convex, pfresh, poly_from_points, cleared. rewrite H. reflexivity.
      + injection H0 as <-. unfold get_is_simple, pfresh, poly_from_points, cleared. rewrite H. reflexivity.
  Qed.

  Definition core_of (vs : list V) := classify_core vs.
  (** What [classify] does to the flags, whatever the caches. *)
  Lemma classify_verts (p p' : P) : classify p = Ok p' -> pverts p' = pverts p.
  Proof.
    unfold classify. intro H. destruct (classify_core (pverts p)) as [[[c d] k]|]; cbn [bind] in H; [|discriminate].
    destruct (c && negb d).
    - destruct (split_y_polylines (pverts p)); cbn [bind] in H; [|discriminate]. injection H as <-. reflexivity.
    - injection H as <-. reflexivity.
  Qed.
  Lemma classify_flags (p : P) :
    match classify p, classify (pfresh (pverts p)) with
    | Ok p1, Ok p2 => pconvex p1 = pconvex p2 /\ psimple p1 = psimple p2 /\ (exists b, pconvex p1 = Some b) /\
        (pconvex p1 = Some true -> psimple p1 = Some true) /\ (pconvex p1 = Some false -> psimple p1 = None) /\
        pbbox p1 = pbbox p /\ pcentroid p1 = pcentroid p /\ pmaxr2 p1 = pmaxr2 p /\ pminr2 p1 = pminr2 p /\ ptri p1 = ptri p
    | Err e1, Err e2 => e1 = e2
    | _, _ => False
    end.
  Proof.
    unfold classify. replace (pverts (pfresh (pverts p))) with (pverts p)
      by (unfold pfresh, poly_from_points, cleared; destruct (Nat.ltb 3 _); reflexivity).
    destruct (classify_core (pverts p)) as [[[c d] k]|]; cbn [bind]; auto.
    destruct (c && negb d) eqn:Hc.
    - apply andb_true_iff in Hc. destruct Hc as [-> _].
      destruct (split_y_polylines (pverts p)); cbn [bind]; auto. cbn. repeat split; eauto; discriminate.
    - cbn. destruct c; repeat split; eauto; discriminate.
  Qed.
  Lemma pfresh_big vs : 3 < length vs -> pconvex (pfresh vs) = None /\ psimple (pfresh vs) = None /\ pcentroid (pfresh vs) = None /\ pbbox (pfresh vs) = None.
  Proof. intro H. unfold pfresh, poly_from_points, cleared. apply Nat.ltb_lt in H. rewrite H. auto. Qed.
  Lemma pfresh_small vs : length vs <= 3 -> pconvex (pfresh vs) = Some true /\ psimple (pfresh vs) = Some true.
  Proof. intro H. unfold pfresh, poly_from_points, cleared. destruct (Nat.ltb_spec 3 (length vs)); [lia|]. auto. Qed.
  Lemma pverts_fresh vs : pverts (pfresh vs) = vs.
  Proof. unfold pfresh, poly_from_points, cleared. destruct (Nat.ltb 3 _); reflexivity. Qed.

  (** is_convex *)
  Lemma read_convex (p : P) : coh p -> fst (get_is_convex p) = fst (get_is_convex (pfresh (pverts p))).
  Proof.
    intro H. unfold get_is_convex at 1. destruct (pconvex p) as [b|] eqn:Hc.
    - symmetry. apply (co_convex p H); auto.
    - assert (HL : 3 < length (pverts p)).
      { destruct (Nat.le_gt_cases (length (pverts p)) 3) as [Hl|]; auto. apply (co_small p H) in Hl. destruct Hl; congruence. }
      unfold get_is_convex. destruct (pfresh_big _ HL) as [-> _].
      pose proof (classify_flags p) as HF. destruct (classify p) as [p1|], (classify (pfresh (pverts p))) as [p2|]; try contradiction.
      + destruct HF as (H1 & H2 & (b & Hb) & _). rewrite <- H1, Hb. reflexivity.
      + subst. reflexivity.
  Qed.
  Lemma convex_state_verts (p : P) : pverts (snd (get_is_convex p)) = pverts p.
  Proof.
    unfold get_is_convex. destruct (pconvex p); auto. destruct (classify p) as [p1|] eqn:H; auto.
    apply classify_verts in H. destruct (pconvex p1); auto.
  Qed.
  Lemma classify_coh (p p1 : P) : coh p -> pconvex p = None -> classify p = Ok p1 -> coh p1 /\ (exists b, pconvex p1 = Some b) /\ (psimple p1 = None -> pconvex p1 = Some false).
  Proof.
    intros H Hc H1. pose proof (classify_flags p) as HF. rewrite H1 in HF.
    destruct (classify (pfresh (pverts p))) as [p2|] eqn:H2; [|contradiction].
    destruct HF as (F1 & F2 & (b & Fb) & F3 & F4 & F5 & F6 & _). pose proof (classify_verts p p1 H1) as Hv.
    assert (HL : 3 < length (pverts p)).
    { destruct (Nat.le_gt_cases (length (pverts p)) 3) as [Hl|]; auto. apply (co_small p H) in Hl. destruct Hl; congruence. }
    destruct (pfresh_big _ HL) as (G1 & G2 & G3 & G4).
    assert (E1 : get_is_convex (pfresh (pverts p)) = (Ok b, p2)).
    { unfold get_is_convex. rewrite G1, H2, <- F1, Fb. reflexivity. }
    split; [split|]; rewrite ?Hv.
    - intro; lia.
    - intros b' Hb'. rewrite E1. cbn. congruence.
    - intros b' Hb'. unfold get_is_simple. rewrite G2, G1, H2, <- F2, Hb'. reflexivity.
    - intros x Hx. apply (co_bbox p H). congruence.
    - intros x Hx. apply (co_centroid p H). congruence.
    - auto.
    - split; eauto. intro Hs. destruct b; [|auto]. apply F3 in Fb. congruence.
  Qed.
  Lemma convex_state_coh (p : P) : coh p -> coh (snd (get_is_convex p)).
  Proof.
    intro H. unfold get_is_convex. destruct (pconvex p) eqn:Hc; auto. destruct (classify p) as [p1|] eqn:H1; auto.
    destruct (classify_coh p p1 H Hc H1) as (H2 & (b & Hb) & _). rewrite Hb. auto.
  Qed.

  (** is_simple *)
  Lemma simple_value_big vs : 3 < length vs -> fst (get_is_simple (pfresh vs)) =
    match get_is_convex (pfresh vs) with
    | (Ok true, _) => Ok true
    | (Ok false, _) => Ok (check_is_simple vs)
    | (Err e, _) => Err e
    end.
  Proof.
    intro H. unfold get_is_simple, get_is_convex. destruct (pfresh_big _ H) as (-> & -> & _).
    pose proof (classify_flags (pfresh vs)) as HF. rewrite pverts_fresh in HF.
    destruct (classify (pfresh vs)) as [p1|] eqn:H1; auto.
    destruct HF as (_ & _ & (b & Hb) & H3 & H4 & _). rewrite Hb. destruct b.
    - rewrite (H3 Hb). reflexivity.
    - rewrite (H4 Hb). apply classify_verts in H1. rewrite H1, pverts_fresh. reflexivity.
  Qed.
  Lemma set_simple_coh (p : P) b : coh p -> psimple p = None -> fst (get_is_simple (pfresh (pverts p))) = Ok b -> coh (set_simple p b).
  Proof.
    intros H Hs Hb. split; cbn [set_simple pverts pconvex psimple pbbox pcentroid].
    - intro HL. apply (co_small p H) in HL. destruct HL; congruence.
    - apply (co_convex p H).
    - intros b' Hb'. congruence.
    - apply (co_bbox p H).
    - apply (co_centroid p H).
    - intro Hc. apply (co_cs p H) in Hc. congruence.
  Qed.
  Lemma read_simple (p : P) : coh p ->
    fst (get_is_simple p) = fst (get_is_simple (pfresh (pverts p))) /\ coh (snd (get_is_simple p)) /\
    pverts (snd (get_is_simple p)) = pverts p.
  Proof.
    intro H. unfold get_is_simple at 1 3 4. destruct (psimple p) as [b|] eqn:Hs.
    - split; [symmetry; apply (co_simple p H); auto|]. auto.
    - assert (HL : 3 < length (pverts p)).
      { destruct (Nat.le_gt_cases (length (pverts p)) 3) as [Hl|]; auto. apply (co_small p H) in Hl. destruct Hl; congruence. }
      rewrite (simple_value_big _ HL). pose proof (read_convex p H) as HR. unfold get_is_convex in HR at 1.
      destruct (pconvex p) as [b|] eqn:Hc.
      + rewrite Hs. destruct b; [apply (co_cs p H) in Hc; congruence|]. cbn [fst] in HR.
        destruct (get_is_convex (pfresh (pverts p))) as [[b|e] q] eqn:Hq; cbn [fst] in HR; [|discriminate].
        injection HR as <-. split; [reflexivity|]. split; [|reflexivity]. apply set_simple_coh; auto.
        rewrite (simple_value_big _ HL), Hq. reflexivity.
      + destruct (classify p) as [p1|e] eqn:H1.
        * destruct (classify_coh p p1 H Hc H1) as (H2 & (b & Hb) & H3). pose proof (classify_verts p p1 H1) as Hv.
          rewrite Hb in HR. cbn [fst] in HR.
          destruct (get_is_convex (pfresh (pverts p))) as [[b'|e] q] eqn:Hq; cbn [fst] in HR; [|discriminate]. injection HR as <-.
          destruct (psimple p1) as [s|] eqn:Hs1.
          -- split; [|auto]. cbn [fst]. pose proof (co_simple p1 H2 s Hs1) as K. rewrite Hv in K.
             rewrite (simple_value_big _ HL), Hq in K. congruence.
          -- specialize (H3 eq_refl). assert (b = false) by congruence. subst b. cbn [fst snd]. rewrite Hv. split; auto. split; auto.
             apply set_simple_coh; auto. rewrite Hv, (simple_value_big _ HL), Hq. reflexivity.
        * cbn [fst] in HR. destruct (get_is_convex (pfresh (pverts p))) as [[b'|e'] q]; cbn [fst] in HR; [discriminate|].
          injection HR as <-. auto.
  Qed.

  (** bounding_box *)
  Lemma pfresh_bbox vs : pbbox (pfresh vs) = None.
  Proof. unfold pfresh, poly_from_points, cleared. destruct (Nat.ltb 3 _); reflexivity. Qed.
  Lemma pfresh_centroid vs : pcentroid (pfresh vs) = None.
  Proof. unfold pfresh, poly_from_points, cleared. destruct (Nat.ltb 3 _); reflexivity. Qed.
  Lemma read_bbox (p : P) : coh p ->
    fst (get_bbox p) = fst (get_bbox (pfresh (pverts p))) /\ coh (snd (get_bbox p)) /\ pverts (snd (get_bbox p)) = pverts p.
  Proof.
    intro H. unfold get_bbox at 1 3 4. destruct (pbbox p) as [b|] eqn:Hb.
    - split; [symmetry; apply (co_bbox p H); auto|]. auto.
    - unfold get_bbox. rewrite pfresh_bbox, pverts_fresh. destruct (box_from_points (pverts p)) as [b|] eqn:Hx; cbn [fst snd]; [|auto].
      split; auto. split; auto. destruct H as [h1 h2 h3 h4 h5 h6]. split; cbn [pverts pconvex psimple pbbox pcentroid]; auto.
      intros b' Hb'. unfold get_bbox. rewrite pfresh_bbox, pverts_fresh, Hx. cbn. congruence.
  Qed.
  (** centroid *)
  Lemma read_centroid (p : P) : coh p ->
    fst (get_centroid p) = fst (get_centroid (pfresh (pverts p))) /\ coh (snd (get_centroid p)) /\ pverts (snd (get_centroid p)) = pverts p.
  Proof.
    intro H. unfold get_centroid at 1 3 4. destruct (pcentroid p) as [c|] eqn:Hc.
    - split; [symmetry; apply (co_centroid p H); auto|]. auto.
    - assert (Hset : forall q c, coh q -> pverts q = pverts p -> fst (get_centroid (pfresh (pverts p))) = Ok c -> coh (set_centroid q c)).
      { intros q c [h1 h2 h3 h4 h5 h6] Hq Hv. split; cbn [set_centroid pverts pconvex psimple pbbox pcentroid]; auto.
        intros c' Hc'. rewrite Hq, Hv. congruence. }
      destruct (read_simple p H) as (H1 & H2 & H3).
      destruct (read_simple (pfresh (pverts p)) (coh_cleared _ _)) as (_ & _ & G3). rewrite pverts_fresh in G3.
      unfold get_centroid in Hset |- *. rewrite pfresh_centroid in *.
      destruct (get_is_simple p) as [[b|e] p1]; destruct (get_is_simple (pfresh (pverts p))) as [[b'|e'] p2]; cbn [fst snd] in *; try discriminate.
      + injection H1 as <-. rewrite H3. rewrite G3 in *. destruct b.
        * destruct (centroid_value (pverts p)) as [c|] eqn:Hv; cbn [fst snd] in *; [|auto].
          split; [reflexivity|]. split; [|exact H3]. apply Hset; auto.
        * cbn [fst snd] in *. split; [reflexivity|]. split; [|exact H3]. apply Hset; auto.
      + injection H1 as <-. auto.
  Qed.

  (** Containment and tangent queries. *)
  Lemma contains_state (E : T) pt (p : P) : coh p -> coh (snd (contains_point E pt p)) /\ pverts (snd (contains_point E pt p)) = pverts p.
  Proof.
    intro H. unfold contains_point. destruct (Nat.eqb (length (pverts p)) 3).
    - unfold triangle_test. destruct (ptri p); cbn [snd]; auto. destruct (tri_build E (pverts p)) as [[c|]|]; cbn [snd]; auto.
      split; auto. destruct H as [h1 h2 h3 h4 h5 h6]. split; auto.
    - destruct (radial_shortcut p pt) as [[b|]|]; cbn [snd]; auto.
      destruct (pypl p); cbn [snd]; auto. destruct (Nat.eqb (length (pverts p)) 4); cbn [snd]; auto.
      destruct (read_bbox p H) as (_ & H2 & H3). destruct (get_bbox p) as [[b|] p1]; cbn [snd] in *; auto.
      destruct (box_contains b pt); cbn [snd]; auto.
  Qed.
  Lemma tangents_state pt (p : P) : coh p -> coh (snd (tangents_to_point pt p)) /\ pverts (snd (tangents_to_point pt p)) = pverts p.
  Proof.
    intro H. unfold tangents_to_point. destruct (Nat.ltb 20 (length (pverts p))); cbn [snd]; auto.
    pose proof (convex_state_coh p H) as H1. pose proof (convex_state_verts p) as H2.
    destruct (get_is_convex p) as [[[|]|] p1]; cbn [snd] in *; auto. destruct (pdupe p1) as [[|]|]; cbn [snd]; auto.
  Qed.
  Lemma read_state_coh q (p : P) : coh p -> coh (read_state q p) /\ pverts (read_state q p) = pverts p.
  Proof.
    intro H. destruct q; cbn [read_state].
    - split; [apply convex_state_coh; auto|apply convex_state_verts].
    - apply read_simple; auto.
    - apply read_centroid; auto.
    - apply read_bbox; auto.
    - apply contains_state; auto.
    - apply tangents_state; auto.
  Qed.
  Lemma op_state_coh o (p : P) : coh p -> coh (op_state o p).
  Proof.
    intro H. destruct o; cbn [op_state].
    - apply read_state_coh; auto.
    - unfold poly_setitem. destruct (py_set (pverts p) i (vec2_of v)); cbn [snd]; auto. apply coh_cleared.
    - apply coh_cleared.
    - destruct H as [h1 h2 h3 h4 h5 h6]. split; auto.
    - destruct H as [h1 h2 h3 h4 h5 h6]. split; auto. intros b Hb. discriminate.
  Qed.
  Lemma prun_coh os : forall p, coh p -> coh (prun p os).
  Proof. induction os as [|o os IH]; intros p H; cbn; auto. apply IH. apply op_state_coh; auto. Qed.
  Lemma poly_new_undeclared vs p : poly_new vs None None = Ok p -> p = pfresh (seq_new vs).
  Proof. unfold poly_new. destruct (Nat.ltb _ 3); [discriminate|]. cbn [bind]. intro H. injection H as <-. reflexivity. Qed.
End PolyCache.
