(** * Property C105: is_convex_known, is_simple_known, is_centroid_known *)
From Coq Require Import ZArith List Bool Reals Lra Lia.
From Verif Require Import Num Vec Affine Box Seq Polygon Tangent PolyOps PolyCache PolyCache2 PolyCache3 BoxFacts2 RBase SpecGeom VecFacts2 RComp HeapFacts PropItems PropPoly.
Import ListNotations.
Local Open Scope R_scope.

(** A flag that is up means that the value is read without computing it (the
    object does not change); a read that succeeds raises the flag, and later
    reads return the same value. *)
Definition tells {T} {X} (known : poly T -> bool) (get : poly T -> res X * poly T) : Prop :=
  (forall p, known p = true -> exists x, get p = (Ok x, p)) /\
  (forall p x p', get p = (Ok x, p') -> known p' = true /\ get p' = (Ok x, p')).

Section Known.
  Context {T : Type} {N : Num T}.
  Notation P := (poly T).
  Lemma tells_convex : tells is_convex_known get_is_convex.
  Proof.
    split.
    - intros p H. unfold is_convex_known in H. unfold get_is_convex. destruct (pconvex p) as [b|]; [|discriminate]. eauto.
    - intros p x p'. unfold get_is_convex at 1. destruct (pconvex p) as [b|] eqn:E.
      + intro H. injection H as <- <-. unfold is_convex_known, get_is_convex. rewrite E. auto.
      + destruct (classify p) as [p1|]; [|discriminate]. destruct (pconvex p1) as [b|] eqn:E1; [|discriminate].
        intro H. injection H as <- <-. unfold is_convex_known, get_is_convex. rewrite E1. auto.
  Qed.
  Lemma tells_simple : tells is_simple_known get_is_simple.
  Proof.
    split.
    - intros p H. unfold is_simple_known in H. unfold get_is_simple. destruct (psimple p) as [b|]; [|discriminate]. eauto.
    - intros p x p' H.
      assert (E : psimple p' = Some x).
      { revert H. unfold get_is_simple. destruct (psimple p) as [b|] eqn:E; [intro H; injection H as <- <-; auto|].
        destruct (match pconvex p with None => classify p | Some _ => Ok p end) as [p1|]; [|discriminate].
        destruct (psimple p1) eqn:E1; intro H; injection H as <- <-; auto. }
      unfold is_simple_known, get_is_simple. rewrite E. auto.
  Qed.
  Lemma tells_centroid : tells is_centroid_known get_centroid.
  Proof.
    split.
    - intros p H. unfold is_centroid_known in H. unfold get_centroid. destruct (pcentroid p) as [b|]; [|discriminate]. eauto.
    - intros p x p' H.
      assert (E : pcentroid p' = Some x).
      { revert H. unfold get_centroid. destruct (pcentroid p) as [b|] eqn:E; [intro H; injection H as <- <-; auto|].
        destruct (get_is_simple p) as [[[|]|e] p1]; [destruct (centroid_value (pverts p1))| |]; intro H; try discriminate; injection H as <- <-; auto. }
      unfold is_centroid_known, get_centroid. rewrite E. auto.
  Qed.
End Known.

Theorem C105_cached : forall (T : Type) (N : Num T),
  tells is_convex_known get_is_convex /\ tells is_simple_known get_is_simple /\ tells is_centroid_known get_centroid.
Proof. intros. split; [apply tells_convex|]. split; [apply tells_simple|apply tells_centroid]. Qed.
Print Assumptions C105_cached.

(** ** What changes the flags *)
Definition flags {T} (p : poly T) : bool * bool * bool := (is_convex_known p, is_simple_known p, is_centroid_known p).
(** Unknown, except that a triangle is always known to be convex and simple. *)
Definition reset_flags {T} (vs : list (vec T)) : bool * bool * bool :=
  if Nat.leb (length vs) 3 then (true, true, false) else (false, false, false).
Lemma flags_cleared {T} (vs : list (vec T)) tri : flags (cleared vs tri) = reset_flags vs.
Proof.
  unfold flags, cleared, reset_flags, is_convex_known, is_simple_known, is_centroid_known. cbn [pconvex psimple pcentroid].
  rewrite Nat.leb_antisym. destruct (Nat.ltb 3 (length vs)); reflexivity.
Qed.

(** Assignments, transforms and copies. *)
Theorem C105_writes : forall (T : Type) (N : Num T) (p : poly T),
  (forall i v, fst (poly_setitem i v p) = Ok tt -> flags (snd (poly_setitem i v p)) = reset_flags (pverts p)) /\
  (forall i v e, fst (poly_setitem i v p) = Err e -> snd (poly_setitem i v p) = p) /\
  (forall m, flags (poly_imul p m) = reset_flags (pverts p) /\ flags (poly_mul p m) = reset_flags (pverts p)) /\
  flags (poly_copy p) = flags p /\ flags (poly_deepcopy p) = flags p.
Proof.
  intros T N p. split; [|split; [|split]].
  - intros i v. unfold poly_setitem. destruct (py_set (pverts p) i (vec2_of v)) as [vs|] eqn:E; [|discriminate]. intros _. cbn [snd].
    rewrite flags_cleared. unfold reset_flags. apply py_set_ok in E. destruct E as (k & Hk & ->). rewrite length_list_set by auto. auto.
  - intros i v e. unfold poly_setitem. destruct (py_set (pverts p) i (vec2_of v)) as [vs|] eqn:E; [discriminate|auto].
  - intro m. unfold poly_imul, poly_mul, poly_from_points. rewrite !flags_cleared. unfold reset_flags. rewrite map_length. replace (length (itransform m (pverts p))) with (length (pverts p)); auto.
    unfold itransform. destruct (affine_eqb m aidentity); rewrite ?map_length; auto.
  - split; reflexivity.
Qed.
Print Assumptions C105_writes.

(** Construction. *)
Theorem C105_new : forall (T : Type) (N : Num T) (vs : list (vec T)) (c s : option bool) (p : poly T), poly_new vs c s = Ok p ->
  (is_convex_known p = true <-> length vs = 3%nat \/ c <> None) /\
  (is_simple_known p = true <-> length vs = 3%nat \/ c = Some true \/ s <> None) /\
  is_centroid_known p = false /\ flags (poly_from_points vs) = reset_flags vs.
Proof.
  intros T N vs c s p. unfold poly_new. assert (L : length (seq_new vs) = length vs) by (unfold seq_new; apply map_length).
  destruct (Nat.ltb_spec (length (seq_new vs)) 3); [discriminate|]. unfold cleared.
  destruct (big_small (seq_new vs)) as [[H1 H2]|[H1 H2]]; rewrite H1; cbn [pconvex psimple pverts pypl pdupe pdegen pbbox pcentroid pmaxr2 pminr2 ptri].
  - assert (N3 : length vs <> 3%nat) by lia. intro HP.
    assert (HF : pconvex p = c /\ psimple p = (match c with Some true => Some true | _ => s end) /\ pcentroid p = None).
    { revert HP. destruct c as [[|]|]; cbn [andb bind].
      - destruct (split_y_polylines (seq_new vs)) as [pl|]; cbn [bind]; [|discriminate]. cbn [psimple]. destruct s; intro HP; injection HP as <-; auto.
      - cbn [psimple]. destruct s; intro HP; injection HP as <-; auto.
      - cbn [psimple]. destruct s; intro HP; injection HP as <-; auto. }
    destruct HF as (F1 & F2 & F3). unfold is_convex_known, is_simple_known, is_centroid_known. rewrite F1, F2, F3.
    split; [destruct c; intuition congruence|]. split; [destruct c as [[|]|], s; intuition congruence|]. split; auto. apply flags_cleared.
  - assert (N3 : length vs = 3%nat) by lia. intro HP.
    assert (HF : pconvex p = Some true /\ psimple p = Some true /\ pcentroid p = None).
    { revert HP. destruct c as [c|], s as [s|]; cbn [bind psimple]; intro HP; injection HP as <-; auto. }
    destruct HF as (F1 & F2 & F3). unfold is_convex_known, is_simple_known, is_centroid_known. rewrite F1, F2, F3.
    split; [tauto|]. split; [tauto|]. split; auto. apply flags_cleared.
Qed.
Print Assumptions C105_new.

(** ** Queries do not lower flags *)
Section Reads.
  Context {T : Type} {N : Num T}.
  Notation P := (poly T).
  (** [p'] knows what [p] knew, with the same values; simplicity only if the
      convexity of [p] was known. *)
  Definition keeps (p p' : P) : Prop :=
    (pconvex p <> None -> pconvex p' = pconvex p) /\ (pcentroid p <> None -> pcentroid p' = pcentroid p) /\
    (pconvex p <> None -> psimple p <> None -> psimple p' = psimple p).
  Lemma keeps_refl p : keeps p p. Proof. repeat split; auto. Qed.
  Lemma keeps_trans p q r : keeps p q -> keeps q r -> keeps p r.
  Proof.
    intros (A & B & C) (A' & B' & C'). split; [|split].
    - intro H. specialize (A H). rewrite <- A in H. rewrite A' by auto. auto.
    - intro H. specialize (B H). rewrite <- B in H. rewrite B' by auto. auto.
    - intros H K. specialize (A H). specialize (C H K). rewrite <- A in H. rewrite <- C in K. rewrite C' by auto. auto.
  Qed.
  Lemma keeps_classify p p' : pconvex p = None -> classify p = Ok p' -> keeps p p'.
  Proof.
    intros E. unfold classify. destruct (classify_core (pverts p)) as [[[c d] k]|]; cbn [bind]; [|discriminate].
    destruct (c && negb d); [destruct (split_y_polylines _); cbn [bind]; [|discriminate]|]; intro H; injection H as <-; unfold keeps; cbn; rewrite E; intuition congruence.
  Qed.
  Lemma keeps_convex p : keeps p (snd (get_is_convex p)).
  Proof.
    unfold get_is_convex. destruct (pconvex p) as [b|] eqn:E; [apply keeps_refl|]. destruct (classify p) as [p1|] eqn:E1; [|apply keeps_refl].
    destruct (pconvex p1); apply keeps_classify; auto.
  Qed.
  Lemma keeps_set_simple p b : psimple p = None -> keeps p (set_simple p b).
  Proof. intro E. unfold keeps, set_simple. cbn. rewrite E. intuition congruence. Qed.
  Lemma keeps_simple p : keeps p (snd (get_is_simple p)).
  Proof.
    unfold get_is_simple. destruct (psimple p) as [b|] eqn:E; [apply keeps_refl|].
    assert (K : forall p1, match pconvex p with Some _ => Ok p | None => classify p end = Ok p1 -> keeps p p1).
    { intros p1. destruct (pconvex p) eqn:E1; intro H; [injection H as <-; apply keeps_refl|apply keeps_classify; auto]. }
    destruct (match pconvex p with Some _ => Ok p | None => classify p end) as [p1|]; [|apply keeps_refl].
    specialize (K p1 eq_refl). destruct (psimple p1) eqn:E1; cbn [snd]; auto. apply (keeps_trans _ _ _ K), keeps_set_simple; auto.
  Qed.
  Lemma keeps_centroid p : keeps p (snd (get_centroid p)).
  Proof.
    unfold get_centroid. destruct (pcentroid p) as [b|] eqn:E; [apply keeps_refl|]. pose proof (keeps_simple p) as K.
    destruct (get_is_simple p) as [[[|]|e] p1]; cbn [snd] in *; auto.
    - destruct (centroid_value (pverts p1)); cbn [snd]; auto. destruct K as (K1 & K2 & K3). unfold keeps, set_centroid. cbn. rewrite E. intuition congruence.
    - destruct K as (K1 & K2 & K3). unfold keeps, set_centroid. cbn. rewrite E. intuition congruence.
  Qed.
  Lemma keeps_bbox p : keeps p (snd (get_bbox p)).
  Proof. unfold get_bbox. destruct (pbbox p); [apply keeps_refl|]. destruct (box_from_points (pverts p)); cbn [snd]; repeat split; auto. Qed.
  Lemma keeps_contains E pt p : keeps p (snd (contains_point E pt p)).
  Proof.
    unfold contains_point. destruct (Nat.eqb (length (pverts p)) 3).
    - unfold triangle_test. destruct (ptri p) as [t|]; [|destruct (tri_build E (pverts p)) as [[c|]|]]; cbn [snd]; repeat split; auto.
    - destruct (radial_shortcut p pt) as [[b|]|]; try apply keeps_refl. destruct (pypl p); try apply keeps_refl.
      destruct (Nat.eqb (length (pverts p)) 4); try apply keeps_refl. pose proof (keeps_bbox p) as K.
      destruct (get_bbox p) as [[b|e] p1]; cbn [snd] in *; auto. destruct (box_contains b pt); auto.
  Qed.
  Lemma keeps_tangents pt p : keeps p (snd (tangents_to_point pt p)).
  Proof.
    unfold tangents_to_point. destruct (Nat.ltb 20 (length (pverts p))); [|apply keeps_refl]. pose proof (keeps_convex p) as K.
    destruct (get_is_convex p) as [[[|]|e] p1]; cbn [snd] in *; auto. destruct (pdupe p1) as [[|]|]; auto.
  Qed.
  Lemma keeps_read q p : keeps p (read_state q p).
  Proof.
    destruct q; cbn [read_state]; [apply keeps_convex|apply keeps_simple|apply keeps_centroid|apply keeps_bbox|apply keeps_contains|apply keeps_tangents].
  Qed.
  Lemma keeps_reads qs : forall p, keeps p (preads p qs).
  Proof. induction qs as [|q qs IH]; intro p; [apply keeps_refl|]. apply (keeps_trans _ (read_state q p)); [apply keeps_read|apply IH]. Qed.
End Reads.

Theorem C105_reads_partial : forall (T : Type) (N : Num T) (p : poly T) (qs : list (pread T)),
  (is_convex_known p = true -> is_convex_known (preads p qs) = true /\ fst (get_is_convex (preads p qs)) = fst (get_is_convex p)) /\
  (is_centroid_known p = true -> is_centroid_known (preads p qs) = true /\ fst (get_centroid (preads p qs)) = fst (get_centroid p)) /\
  (is_convex_known p = true -> is_simple_known p = true ->
     is_simple_known (preads p qs) = true /\ fst (get_is_simple (preads p qs)) = fst (get_is_simple p)).
Proof.
  intros T N p qs. destruct (keeps_reads qs p) as (A & B & C). unfold is_convex_known, is_centroid_known, is_simple_known, get_is_convex, get_centroid, get_is_simple.
  split; [|split].
  - destruct (pconvex p); [|discriminate]. rewrite A by discriminate. auto.
  - destruct (pcentroid p); [|discriminate]. rewrite B by discriminate. auto.
  - destruct (pconvex p); [|discriminate]. destruct (psimple p); [|discriminate]. rewrite C by discriminate. auto.
Qed.
Print Assumptions C105_reads_partial.

(** Unless simplicity was declared without convexity, a polygon known to be
    simple or not is also known to be convex or not; so no query forgets. *)
Definition backed {T} (p : poly T) : Prop := is_simple_known p = true -> is_convex_known p = true.
Section Backed.
  Context {T : Type} {N : Num T}.
  Notation P := (poly T).
  Definition bk (p : P) : Prop := psimple p <> None -> pconvex p <> None.
  Lemma bk_iff (p : P) : bk p <-> backed p.
  Proof. unfold bk, backed, is_simple_known, is_convex_known. destruct (psimple p), (pconvex p); intuition congruence. Qed.
  Lemma bk_ext (p q : P) : pconvex q = pconvex p -> psimple q = psimple p -> bk p -> bk q.
  Proof. unfold bk. intros -> ->. auto. Qed.
  Lemma bk_cleared vs (tri : option _) : bk (cleared (T := T) vs tri).
  Proof. unfold bk, cleared. cbn. destruct (Nat.ltb 3 (length vs)); congruence. Qed.
  Lemma classify_known (p p1 : P) : classify p = Ok p1 -> pconvex p1 <> None.
  Proof.
    unfold classify. destruct (classify_core (pverts p)) as [[[c d] k]|]; cbn [bind]; [|discriminate].
    destruct (c && negb d); [destruct (split_y_polylines _); cbn [bind]; [|discriminate]|]; intro H; injection H as <-; discriminate.
  Qed.
  Lemma bk_convex p : bk p -> bk (snd (get_is_convex p)).
  Proof.
    intro H. unfold get_is_convex. destruct (pconvex p); auto. destruct (classify p) as [p1|] eqn:E; auto.
    destruct (pconvex p1) eqn:E1; cbn [snd]; intros _; [congruence|apply (classify_known _ _ E)].
  Qed.
  Lemma bk_simple p : bk p -> bk (snd (get_is_simple p)).
  Proof.
    intro H. unfold get_is_simple. destruct (psimple p) eqn:E; auto.
    assert (K : forall p1, match pconvex p with Some _ => Ok p | None => classify p end = Ok p1 -> pconvex p1 <> None).
    { intros p1. destruct (pconvex p) eqn:E1; intro K; [injection K as <-; congruence|apply (classify_known _ _ K)]. }
    destruct (match pconvex p with Some _ => Ok p | None => classify p end) as [p1|]; auto. specialize (K p1 eq_refl).
    destruct (psimple p1); intros _; auto.
  Qed.
  Lemma bk_centroid p : bk p -> bk (snd (get_centroid p)).
  Proof.
    intro H. unfold get_centroid. destruct (pcentroid p); auto. pose proof (bk_simple p H) as K.
    destruct (get_is_simple p) as [[[|]|e] p1]; cbn [snd] in *; auto. destruct (centroid_value (pverts p1)); auto.
  Qed.
  Lemma bk_bbox p : bk p -> bk (snd (get_bbox p)).
  Proof. intro H. unfold get_bbox. destruct (pbbox p); auto. destruct (box_from_points (pverts p)); auto. Qed.
  Lemma bk_read q p : bk p -> bk (read_state q p).
  Proof.
    intro H. destruct q as [| | | |E pt|pt]; cbn [read_state]; [apply bk_convex|apply bk_simple|apply bk_centroid|apply bk_bbox| |]; auto.
    - unfold contains_point. destruct (Nat.eqb (length (pverts p)) 3).
      + unfold triangle_test. destruct (ptri p) as [t|]; [|destruct (tri_build E (pverts p)) as [[c|]|]]; auto.
      + destruct (radial_shortcut p pt) as [[b|]|]; auto. destruct (pypl p); auto.
        destruct (Nat.eqb (length (pverts p)) 4); auto. pose proof (bk_bbox p H) as K.
        destruct (get_bbox p) as [[b|e] p1]; cbn [snd] in *; auto. destruct (box_contains b pt); auto.
    - unfold tangents_to_point. destruct (Nat.ltb 20 (length (pverts p))); auto. pose proof (bk_convex p H) as K.
      destruct (get_is_convex p) as [[[|]|e] p1]; cbn [snd] in *; auto. destruct (pdupe p1) as [[|]|]; auto.
  Qed.
  Lemma bk_op o p : bk p -> bk (op_state o p).
  Proof.
    intro H. destruct o as [q|i v|m| |]; cbn [op_state]; [apply bk_read; auto| | | |]; auto.
    - unfold poly_setitem. destruct (py_set (pverts p) i (vec2_of v)); auto. apply bk_cleared.
    - apply bk_cleared.
  Qed.
  Lemma bk_run os : forall p, bk p -> bk (prun p os).
  Proof. induction os as [|o os IH]; intros p H; auto. apply IH, bk_op, H. Qed.
End Backed.
Theorem C105_simple_kept_partial : forall (T : Type) (N : Num T) (vs : list (vec T)) (c s : option bool) (p0 : poly T) (os : list (pop T)) (qs : list (pread T)),
  (p0 = poly_from_points vs \/ (poly_new vs c s = Ok p0 /\ (s = None \/ c <> None))) ->
  let p := prun p0 os in
  is_simple_known p = true ->
  is_simple_known (preads p qs) = true /\ fst (get_is_simple (preads p qs)) = fst (get_is_simple p).
Proof.
  intros T N vs c s p0 os qs H0 p Hs.
  assert (B : backed p).
  { apply bk_iff, bk_run. destruct H0 as [->|[H0 K]]; [apply bk_cleared|]. apply bk_iff. unfold backed.
    destruct (C105_new T N vs c s p0 H0) as (A1 & A2 & _). rewrite A1, A2. intuition congruence. }
  apply (C105_reads_partial T N p qs); auto.
Qed.
Print Assumptions C105_simple_kept_partial.

(** A polygon declared simple, but not declared convex or not: reading
    is_convex forgets the declaration. *)
Theorem C105_simple_kept_refuted : exists (vs : list pt) (p : poly R),
  poly_new vs None (Some true) = Ok p /\ is_simple_known p = true /\ is_simple_known (preads p [QConvex]) = false.
Proof.
  set (l := [(0, 0); (10, 0); (2, 2); (0, 10)]%Z).
  exists (map zv l), (mkPoly (map zv l) None (Some true) None None None None None None None None). split; [|split; [reflexivity|]].
  - unfold poly_new, seq_new. rewrite map_vec2_of_R. reflexivity.
  - assert (E : exists d k, classify_core (map zv l) = Ok (false, d, k)) by (rewrite z_classify_core; vm_compute; do 2 eexists; reflexivity).
    destruct E as (d & k & E). clearbody l. cbn [preads fold_left read_state]. unfold get_is_convex, classify. cbn [pconvex pverts]. rewrite E. reflexivity.
Qed.
Print Assumptions C105_simple_kept_refuted.
Example C105_ex : exists p q : poly R, poly_new sq None None = Ok p /\ flags p = (false, false, false) /\
  get_is_convex p = (Ok true, q) /\ flags q = (true, true, false) /\ flags (poly_imul q (mkA 2 0 0 0 2 0)) = (false, false, false) /\
  flags (poly_from_points [mkV 0 0; mkV 1 0; mkV 0 1]) = (true, true, false).
Proof.
  exists (pfresh sq). rewrite sq_zv.
  assert (E : classify_core (map zv sq_z) = Ok (true, false, 4%nat)) by (rewrite z_classify_core; vm_compute; reflexivity).
  destruct (split_ok (map zv sq_z)) as [pl Hpl]; [discriminate|].
  eexists. split; [unfold poly_new, seq_new; rewrite map_vec2_of_R; reflexivity|]. split; [reflexivity|]. split.
  - unfold get_is_convex, classify. change (pconvex (pfresh (map zv sq_z))) with (@None bool). cbv iota. rewrite pverts_fresh, E. cbn [bind andb negb]. rewrite Hpl. cbn [bind pconvex]. reflexivity.
  - split; [reflexivity|]. split; [|reflexivity]. unfold poly_imul. rewrite flags_cleared. cbn [pverts]. unfold reset_flags, itransform.
    destruct (affine_eqb _ _); rewrite ?map_length; reflexivity.
Qed.
