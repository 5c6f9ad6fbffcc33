(** * Lemmas about the hull algorithm over the reals: enclosing the points *)
From Coq Require Import ZArith List Bool Reals Lra Lia Psatz Permutation Sorted.
From Verif Require Import Num Vec Affine Box Seq Polygon Hull SpecGeom SpecHull SpecExtreme RBase VecFacts2 NumHom SortFacts HullFacts HullFacts2.
Import ListNotations.
Local Open Scope R_scope.

(** ** The run ends without an exception *)
Lemma hull_total : forall fuel (pts : list pt) p0 p1, (length pts < fuel)%nat -> pts <> [] -> (forall q, In q pts -> 0 <= orient p0 p1 q) ->
  exists x r, ahull_partition fuel pts p0 p1 = Ok (p0 :: x :: r).
Proof.
  induction fuel as [|f IH]; intros pts p0 p1 HL Hne H0; [lia|]. cbn [ahull_partition].
  destruct (far_spec pts p0 p1) as (pp & -> & Hi & Hf); auto. rewrite vec2_of_R.
  assert (Hlr : exists l r, partition_pts pts p0 p1 pp = Ok (l, r) /\ (length l < length pts)%nat /\ (length r < length pts)%nat /\ (forall q, In q l -> 0 <= orient p0 pp q) /\ (forall q, In q r -> 0 <= orient pp p1 q)).
  { destruct (Rle_lt_or_eq_dec 0 (orient p0 p1 pp)) as [D|D]; auto.
    - pose proof (part_len p0 p1 pp pts Hi). exists (lefts p0 pp pts), (rights p0 p1 pp pts). split; [apply part_spec; auto|]. split; [lia|]. split; [lia|].
      split; intros q Hq; [apply lefts_in in Hq|apply rights_in in Hq]; lra.
    - exists [], []. split; [apply part_flat; auto|]. assert (0 < length pts)%nat by (destruct pts; [contradiction|cbn; lia]). cbn [length]. split; auto. split; auto. split; intros q []. }
  destruct Hlr as (l & r & -> & L1 & L2 & P1 & P2). cbn [bind]. set (m := (_ * 4)%nat).
  assert (G : forall s a b, (length s < length pts)%nat -> (forall q, In q s -> 0 <= orient a b q) ->
    exists t, (if Nat.leb (length s) 1 then Ok (a :: s) else if Nat.leb (length s) m then ahull_partition f s a b else Ok (ahull_sort s a b)) = Ok (a :: t)).
  { intros s a b Hs Ho. destruct (Nat.leb_spec (length s) 1); [eauto|]. destruct (Nat.leb (length s) m).
    - destruct (IH s a b) as (x & t & E); auto; [lia|intros ->; cbn in *; lia|eauto].
    - destruct (sort_head s a b) as (t & ->). eauto. }
  destruct (G l p0 pp L1 P1) as (t1 & ->). destruct (G r pp p1 L2 P2) as (t2 & ->). cbn [bind]. destruct t1 as [|y t1]; cbn [app]; eauto.
Qed.

(** ** Supporting lines *)
Lemma plucker a b c d : pcross a b * pcross c d - pcross a c * pcross b d + pcross a d * pcross b c = 0.
Proof. ug. ring. Qed.
Lemma beyond0 p0 p1 pp q d0 : 0 < orient p0 p1 pp -> pcross d0 (psub p1 p0) < 0 -> pcross d0 (psub pp p0) <= 0 -> pcross d0 (psub q p0) <= 0 -> orient p0 p1 q <= 0 -> orient p0 pp q <= 0.
Proof.
  intros HD H1 H2 H3 H4. apply Rnot_lt_le. intro C.
  assert (E : orient p0 p1 pp * pcross d0 (psub q p0) = orient p0 pp q * - pcross d0 (psub p1 p0) + orient p0 p1 q * pcross d0 (psub pp p0)) by (ug; ring).
  assert (0 < orient p0 pp q * - pcross d0 (psub p1 p0)) by (apply Rmult_lt_0_compat; lra).
  assert (0 <= - orient p0 p1 q * - pcross d0 (psub pp p0)) by (apply Rmult_le_pos; lra).
  assert (0 <= orient p0 p1 pp * - pcross d0 (psub q p0)) by (apply Rmult_le_pos; lra). lra.
Qed.
Lemma beyond1 p0 p1 pp q d1 : 0 < orient p0 p1 pp -> pcross d1 (psub p0 p1) < 0 -> pcross d1 (psub pp p1) <= 0 -> pcross d1 (psub q p1) <= 0 -> orient p0 p1 q <= 0 -> orient pp p1 q <= 0.
Proof.
  intros HD H1 H2 H3 H4. apply Rnot_lt_le. intro C.
  assert (E : orient p0 p1 pp * pcross d1 (psub q p1) = orient pp p1 q * - pcross d1 (psub p0 p1) + orient p0 p1 q * pcross d1 (psub pp p1)) by (ug; ring).
  assert (0 < orient pp p1 q * - pcross d1 (psub p0 p1)) by (apply Rmult_lt_0_compat; lra).
  assert (0 <= - orient p0 p1 q * - pcross d1 (psub pp p1)) by (apply Rmult_le_pos; lra).
  assert (0 <= orient p0 p1 pp * - pcross d1 (psub q p1)) by (apply Rmult_le_pos; lra). lra.
Qed.
Lemma support0 p0 p1 pp x d0 : 0 < orient p0 p1 pp -> pcross d0 (psub p1 p0) < 0 -> pcross d0 (psub pp p0) <= 0 -> pcross d0 (psub x p0) <= 0 -> 0 < orient p0 pp x -> pcross d0 (psub pp p0) < 0.
Proof.
  intros HD H1 H2 H3 H4. apply Rnot_le_lt. intro C.
  assert (Z : pcross d0 (psub pp p0) = 0) by lra.
  assert (E : orient p0 p1 pp * pcross d0 (psub x p0) = orient p0 pp x * - pcross d0 (psub p1 p0) + orient p0 p1 x * pcross d0 (psub pp p0)) by (ug; ring). rewrite Z in E.
  assert (0 < orient p0 pp x * - pcross d0 (psub p1 p0)) by (apply Rmult_lt_0_compat; lra).
  assert (0 <= orient p0 p1 pp * - pcross d0 (psub x p0)) by (apply Rmult_le_pos; lra). lra.
Qed.
Lemma support1 p0 p1 pp x d1 : 0 < orient p0 p1 pp -> pcross d1 (psub p0 p1) < 0 -> pcross d1 (psub pp p1) <= 0 -> pcross d1 (psub x p1) <= 0 -> 0 < orient pp p1 x -> pcross d1 (psub pp p1) < 0.
Proof.
  intros HD H1 H2 H3 H4. apply Rnot_le_lt. intro C.
  assert (Z : pcross d1 (psub pp p1) = 0) by lra.
  assert (E : orient p0 p1 pp * pcross d1 (psub x p1) = orient pp p1 x * - pcross d1 (psub p0 p1) + orient p0 p1 x * pcross d1 (psub pp p1)) by (ug; ring). rewrite Z in E.
  assert (0 < orient pp p1 x * - pcross d1 (psub p0 p1)) by (apply Rmult_lt_0_compat; lra).
  assert (0 <= orient p0 p1 pp * - pcross d1 (psub x p1)) by (apply Rmult_le_pos; lra). lra.
Qed.

Section Enclose.
  Variable G : list pt.
  (** A subproblem: the points beyond the line p0 p1, with lines through p0 and
      p1 that have every point on their right. *)
  Record sub (pts : list pt) (p0 p1 d0 d1 : pt) : Prop := mk_sub {
    s_cover : forall q, In q G -> In q pts \/ orient p0 p1 q <= 0;
    s_in : forall q, In q pts -> In q G;
    s_in0 : In p0 G;
    s_in1 : In p1 G;
    s_above : forall q, In q pts -> 0 <= orient p0 p1 q;
    s_left : forall q, In q G -> pcross d0 (psub q p0) <= 0;
    s_right : forall q, In q G -> pcross d1 (psub q p1) <= 0;
    s_left_strict : pts <> [] -> pcross d0 (psub p1 p0) < 0;
    s_right_strict : pts <> [] -> pcross d1 (psub p0 p1) < 0
  }.
  Lemma sub_lefts pts p0 p1 pp d0 d1 : sub pts p0 p1 d0 d1 -> In pp pts -> 0 < orient p0 p1 pp -> (forall q, In q pts -> orient p0 p1 q <= orient p0 p1 pp) -> sub (lefts p0 pp pts) p0 pp d0 (psub p1 p0).
  Proof.
    intros S Hi HD Hf. assert (Hne : pts <> []) by (intros ->; destruct Hi). destruct S as [S1 S2 S3 S4 S5 S6 S7 S8 S9]. specialize (S8 Hne). specialize (S9 Hne). split; auto.
    - intros q Hq. destruct (Rlt_le_dec 0 (orient p0 pp q)) as [C|C]; auto. left. apply lefts_in. split; auto. destruct (S1 q Hq) as [H|H]; auto.
      exfalso. pose proof (beyond0 p0 p1 pp q d0 HD S8 (S6 _ (S2 _ Hi)) (S6 _ Hq) H). lra.
    - intros q Hq. apply S2. apply lefts_in in Hq. tauto.
    - intros q Hq. apply lefts_in in Hq. lra.
    - intros q Hq. replace (pcross (psub p1 p0) (psub q pp)) with (orient p0 p1 q - orient p0 p1 pp) by (ug; ring).
      destruct (S1 q Hq) as [H|H]; [specialize (Hf q H); lra|lra].
    - intros Hx. destruct (lefts p0 pp pts) as [|x l] eqn:E; [contradiction|]. assert (Hxi : In x (lefts p0 pp pts)) by (rewrite E; left; auto). apply lefts_in in Hxi.
      destruct Hxi as [Hx1 Hx2]. apply (support0 p0 p1 pp x); auto.
    - intros _. replace (pcross (psub p1 p0) (psub p0 pp)) with (- orient p0 p1 pp) by (ug; ring). lra.
  Qed.
  Lemma sub_rights pts p0 p1 pp d0 d1 : sub pts p0 p1 d0 d1 -> In pp pts -> 0 < orient p0 p1 pp -> (forall q, In q pts -> orient p0 p1 q <= orient p0 p1 pp) -> sub (rights p0 p1 pp pts) pp p1 (psub p1 p0) d1.
  Proof.
    intros S Hi HD Hf. assert (Hne : pts <> []) by (intros ->; destruct Hi). destruct S as [S1 S2 S3 S4 S5 S6 S7 S8 S9]. specialize (S8 Hne). specialize (S9 Hne). split; auto.
    - intros q Hq. destruct (Rlt_le_dec 0 (orient pp p1 q)) as [C|C]; auto. left. apply rights_in. destruct (S1 q Hq) as [H|H].
      + split; auto. split; auto. specialize (Hf q H).
        apply Rnot_lt_le. intro K.
        assert (I : orient p0 p1 q = orient p0 pp q + orient pp p1 q + orient p0 p1 pp) by (ug; ring). lra.
      + exfalso. pose proof (beyond1 p0 p1 pp q d1 HD S9 (S7 _ (S2 _ Hi)) (S7 _ Hq) H). lra.
    - intros q Hq. apply S2. apply rights_in in Hq. tauto.
    - intros q Hq. apply rights_in in Hq. lra.
    - intros q Hq. replace (pcross (psub p1 p0) (psub q pp)) with (orient p0 p1 q - orient p0 p1 pp) by (ug; ring).
      destruct (S1 q Hq) as [H|H]; [specialize (Hf q H); lra|lra].
    - intros _. replace (pcross (psub p1 p0) (psub p1 pp)) with (- orient p0 p1 pp) by (ug; ring). lra.
    - intros Hx. destruct (rights p0 p1 pp pts) as [|x l] eqn:E; [contradiction|]. assert (Hxi : In x (rights p0 p1 pp pts)) by (rewrite E; left; auto). apply rights_in in Hxi.
      destruct Hxi as (Hx1 & _ & Hx2). apply (support1 p0 p1 pp x); auto.
  Qed.
  (** No point, or one. *)
  Lemma sub_none p0 p1 d0 d1 : sub [] p0 p1 d0 d1 -> path (edge_ok G) ([p0] ++ [p1]).
  Proof. intros S. cbn. split; auto. intros q Hq. destruct (s_cover _ _ _ _ _ S q Hq) as [[]|]; auto. Qed.
  Lemma sub_one x p0 p1 d0 d1 : 0 < orient p0 p1 x -> sub [x] p0 p1 d0 d1 -> path (edge_ok G) ([p0; x] ++ [p1]).
  Proof.
    intros HD S. assert (Hne : [x] <> []) by discriminate. destruct S as [S1 S2 S3 S4 S5 S6 S7 S8 S9]. specialize (S8 Hne). specialize (S9 Hne).
    assert (Hx : In x G) by (apply S2; left; auto). cbn. split; [|split; auto]; intros q Hq; (destruct (S1 q Hq) as [[<-|[]]|H]; [rewrite ?orient_self, ?orient_self1; lra|]).
    - eapply (beyond0 p0 p1 x q d0); eauto.
    - eapply (beyond1 p0 p1 x q d1); eauto.
  Qed.
  (** The sorted scan. *)
  Lemma scan_beyond L ka ha kb hb kq hq : 0 < L -> 0 < ka -> ka <= kb -> kb <= L -> 0 < ha -> 0 < hb -> hq <= 0 ->
    (kb - ka) * (0 - ha) - (hb - ha) * (0 - ka) <= 0 -> (kb - ka) * (0 - ha) - (hb - ha) * (L - ka) <= 0 ->
    ka * hq - ha * kq <= 0 -> (L - kb) * (hq - hb) - (0 - hb) * (kq - kb) <= 0 ->
    (kb - ka) * (hq - ha) - (hb - ha) * (kq - ka) <= 0.
  Proof.
    intros HL Hka Hab HbL Hha Hhb Hq P0 P1 Qa Qb. destruct (Rle_lt_dec kq 0) as [C|C]; [|destruct (Rle_lt_dec kq L) as [C2|C2]].
    - apply Rnot_lt_le. intro X.
      assert (E : ka * ((kb - ka) * (hq - ha) - (hb - ha) * (kq - ka)) = (kb - ka) * (ka * hq - ha * kq) + (ka - kq) * ((kb - ka) * (0 - ha) - (hb - ha) * (0 - ka))) by ring.
      assert (0 < ka * ((kb - ka) * (hq - ha) - (hb - ha) * (kq - ka))) by (apply Rmult_lt_0_compat; lra).
      assert (0 <= (kb - ka) * - (ka * hq - ha * kq)) by (apply Rmult_le_pos; lra).
      assert (0 <= (ka - kq) * - ((kb - ka) * (0 - ha) - (hb - ha) * (0 - ka))) by (apply Rmult_le_pos; lra). lra.
    - apply Rnot_lt_le. intro X.
      assert (E : L * ((kb - ka) * (hq - ha) - (hb - ha) * (kq - ka)) = L * ((kb - ka) * hq) + (L - kq) * ((kb - ka) * (0 - ha) - (hb - ha) * (0 - ka)) + kq * ((kb - ka) * (0 - ha) - (hb - ha) * (L - ka))) by ring.
      assert (0 < L * ((kb - ka) * (hq - ha) - (hb - ha) * (kq - ka))) by (apply Rmult_lt_0_compat; lra).
      assert (0 <= L * ((kb - ka) * - hq)) by (apply Rmult_le_pos; [lra|apply Rmult_le_pos; lra]).
      assert (0 <= (L - kq) * - ((kb - ka) * (0 - ha) - (hb - ha) * (0 - ka))) by (apply Rmult_le_pos; lra).
      assert (0 <= kq * - ((kb - ka) * (0 - ha) - (hb - ha) * (L - ka))) by (apply Rmult_le_pos; lra). lra.
    - assert (KL : kb < L).
      { apply Rnot_le_lt. intro Y. assert (kb = L) by lra. subst kb. assert (0 < hb * (kq - L)) by (apply Rmult_lt_0_compat; lra). lra. }
      apply Rnot_lt_le. intro X.
      assert (E : (L - kb) * ((kb - ka) * (hq - ha) - (hb - ha) * (kq - ka)) = (kb - ka) * ((L - kb) * (hq - hb) - (0 - hb) * (kq - kb)) + (kq - kb) * ((kb - ka) * (0 - ha) - (hb - ha) * (L - ka))) by ring.
      assert (0 < (L - kb) * ((kb - ka) * (hq - ha) - (hb - ha) * (kq - ka))) by (apply Rmult_lt_0_compat; lra).
      assert (0 <= (kb - ka) * - ((L - kb) * (hq - hb) - (0 - hb) * (kq - kb))) by (apply Rmult_le_pos; lra).
      assert (0 <= (kq - kb) * - ((kb - ka) * (0 - ha) - (hb - ha) * (L - ka))) by (apply Rmult_le_pos; lra). lra.
  Qed.
  Lemma sub_sort pts p0 p1 d0 d1 : pts <> [] -> (forall q, In q pts -> 0 < orient p0 p1 q) -> sub pts p0 p1 d0 d1 -> ahead pts p0 p1 ->
    exists r, ahull_sort pts p0 p1 = p0 :: r /\ path (edge_ok G) ((p0 :: r) ++ [p1]).
  Proof.
    intros Hne HD S Hah. destruct S as [S1 S2 S3 S4 S5 S6 S7 S8 S9]. specialize (S8 Hne). specialize (S9 Hne).
    assert (Hd : 0 < pdot (psub p1 p0) (psub p1 p0)).
    { destruct pts as [|q pts]; [contradiction|]. specialize (Hah q (or_introl eq_refl)). lra. }
    destruct (ahull_sort_path p0 p1 Hd pts Hah) as (r & E & Hr & P). exists r. split; auto.
    eapply path_impl; [|exact P]. intros a b Ha Hb [He Hk] q Hq.
    assert (Hm : forall v, In v ((p0 :: r) ++ [p1]) -> In v pts \/ v = p0 \/ v = p1).
    { intros v Hv. apply in_app_or in Hv. destruct Hv as [[<-|Hv]|[<-|[]]]; auto. }
    destruct (S1 q Hq) as [Hqp|Hqo]. { apply He. right. right. auto. }
    pose proof (He p0 (or_introl eq_refl)) as E0. pose proof (He p1 (or_intror (or_introl eq_refl))) as E1.
    apply Hm in Ha. apply Hm in Hb.
    destruct Ha as [Ha|[->| ->]].
    - destruct Hb as [Hb|[->| ->]].
      + assert (B0 : orient p0 a q <= 0) by (eapply (beyond0 p0 p1 a q d0); eauto).
        assert (B1 : orient b p1 q <= 0) by (eapply (beyond1 p0 p1 b q d1); eauto).
        pose proof (Hah a Ha) as Aa. pose proof (Hah b Hb) as Ab. pose proof (HD a Ha) as Da. pose proof (HD b Hb) as Db.
        apply (phi_le p0 p1 Hd).
        assert (Q : forall x y z, orient x y z <= 0 -> orient (phi p0 p1 x) (phi p0 p1 y) (phi p0 p1 z) <= 0).
        { intros x y z Hz. rewrite phi_orient. assert (0 <= pdot (psub p1 p0) (psub p1 p0) * - orient x y z) by (apply Rmult_le_pos; lra). lra. }
        apply Q in E0, E1, B0, B1.
        assert (Z0 : phi p0 p1 p0 = mkV 0 0) by (unfold phi; destruct p0 as [u1 u2], p1 as [w1 w2]; ug; f_equal; ring).
        assert (Z1 : phi p0 p1 p1 = mkV (pdot (psub p1 p0) (psub p1 p0)) 0) by (unfold phi; destruct p0 as [u1 u2], p1 as [w1 w2]; ug; f_equal; ring).
        rewrite Z0, Z1 in *. clear - E0 E1 B0 B1 Aa Ab Da Db Hd Hk Hqo.
        change (pdot (psub p1 p0) (psub a p0)) with (vx (phi p0 p1 a)) in Aa. change (pdot (psub p1 p0) (psub b p0)) with (vx (phi p0 p1 b)) in Ab.
        change (orient p0 p1 a) with (vy (phi p0 p1 a)) in Da. change (orient p0 p1 b) with (vy (phi p0 p1 b)) in Db. change (orient p0 p1 q) with (vy (phi p0 p1 q)) in Hqo.
        set (L := pdot (psub p1 p0) (psub p1 p0)) in *. clearbody L. destruct (phi p0 p1 a) as [ka ha], (phi p0 p1 b) as [kb hb], (phi p0 p1 q) as [kq hq]. ug.
        apply (scan_beyond L ka ha kb hb kq hq); try lra.
      + (* an edge back to p0 does not leave a point after p0 *)
        exfalso. unfold phi in Hk. cbn [vx] in Hk. pose proof (Hah a Ha) as Aa. assert (pdot (psub p1 p0) (psub p0 p0) = 0) by (ug; ring). lra.
      + eapply (beyond1 p0 p1 a q d1); eauto.
    - destruct Hb as [Hb|[->| ->]]; [eapply (beyond0 p0 p1 b q d0); eauto|ug; lra|auto].
    - (* an edge that starts at p1 ends at p1 *)
      destruct Hb as [Hb|[->| ->]].
      + exfalso. pose proof (HD b Hb) as Db. pose proof (Hah b Hb) as Ab. assert (Z : orient p1 b p0 = orient p0 p1 b) by (ug; ring). lra.
      + exfalso. unfold phi in Hk. cbn [vx] in Hk. assert (pdot (psub p1 p0) (psub p0 p0) = 0) by (ug; ring). lra.
      + ug; lra.
  Qed.
  Lemma sub_hull : forall fuel pts p0 p1 d0 d1, (length pts < fuel)%nat -> pts <> [] -> sub pts p0 p1 d0 d1 ->
    (forall l a b, In (l, a, b) (scans fuel pts p0 p1) -> ahead l a b) ->
    exists r, ahull_partition fuel pts p0 p1 = Ok (p0 :: r) /\ path (edge_ok G) ((p0 :: r) ++ [p1]).
  Proof.
    induction fuel as [|f IH]; intros pts p0 p1 d0 d1 HL Hne S Hsc; [lia|]. cbn [ahull_partition scans] in *. pose proof (s_above _ _ _ _ _ S) as H0.
    destruct (far_spec pts p0 p1) as (pp & EF & Hi & Hf); auto. rewrite EF in *. rewrite vec2_of_R in *.
    destruct (Rle_lt_or_eq_dec 0 (orient p0 p1 pp)) as [D|D]; auto.
    - rewrite part_spec in * by auto. cbn [bind]. pose proof (part_len p0 p1 pp pts Hi) as HLen.
      set (l := lefts p0 pp pts) in *. set (r := rights p0 p1 pp pts) in *. set (m := (_ * 4)%nat) in *.
      assert (K : forall s a b e0 e1, (length s < length pts)%nat -> sub s a b e0 e1 -> (forall q, In q s -> 0 < orient a b q) ->
        (forall l' a' b', In (l', a', b') (if Nat.leb (length s) 1 then [] else if Nat.leb (length s) m then scans f s a b else [(s, a, b)]) -> ahead l' a' b') ->
        exists t, (if Nat.leb (length s) 1 then Ok (a :: s) else if Nat.leb (length s) m then ahull_partition f s a b else Ok (ahull_sort s a b)) = Ok (a :: t) /\ path (edge_ok G) ((a :: t) ++ [b])).
      { intros s a b e0 e1 Hs Ss Ho Hc. destruct (Nat.leb_spec (length s) 1) as [C|C].
        - exists s. split; auto. destruct s as [|x [|y s]]; cbn in C; try lia; [eapply sub_none; eauto|]. eapply (sub_one x a b); eauto. apply Ho. left; auto.
        - assert (Hs0 : s <> []) by (intros ->; cbn in C; lia). destruct (Nat.leb (length s) m).
          + eapply IH; eauto. lia.
          + destruct (sub_sort s a b e0 e1) as (t & E & P); auto; [apply Hc; left; auto|]. exists t. rewrite E. auto. }
      destruct (K l p0 pp d0 (psub p1 p0)) as (t1 & -> & P1).
      { lia. } { apply (sub_lefts pts p0 p1 pp d0 d1); auto. } { intros q Hq. apply lefts_in in Hq. tauto. } { intros l' a' b' X. apply Hsc. apply in_or_app. left. exact X. }
      destruct (K r pp p1 (psub p1 p0) d1) as (t2 & -> & P2).
      { lia. } { apply (sub_rights pts p0 p1 pp d0 d1); auto. } { intros q Hq. apply rights_in in Hq. tauto. } { intros l' a' b' X. apply Hsc. apply in_or_app. right. exact X. }
      cbn [bind]. exists (t1 ++ pp :: t2). split; auto. change ((p0 :: t1 ++ pp :: t2) ++ [p1]) with (((p0 :: t1) ++ pp :: t2) ++ [p1]). rewrite <- app_assoc. cbn [app] in *. apply (path_app (edge_ok G) pp (t2 ++ [p1]) (p0 :: t1)); auto.
    - rewrite part_flat by auto. cbn [bind length Nat.leb app]. exists [pp]. split; auto. cbn [app path].
      assert (Hpp : In pp G) by (apply (s_in _ _ _ _ _ S); auto). pose proof (s_left_strict _ _ _ _ _ S Hne) as L0. pose proof (s_right_strict _ _ _ _ _ S Hne) as L1.
      pose proof (s_left _ _ _ _ _ S pp Hpp) as K0. pose proof (s_right _ _ _ _ _ S pp Hpp) as K1.
      assert (Hall : forall q, In q G -> orient p0 p1 q <= 0). { intros q Hq. destruct (s_cover _ _ _ _ _ S q Hq) as [H|H]; auto. specialize (Hf q H). lra. }
      split; [|split; auto]; intros q Hq; specialize (Hall q Hq).
      + apply Rnot_lt_le. intro X.
        assert (E : orient p0 pp q * pcross d0 (psub p1 p0) = pcross d0 (psub pp p0) * orient p0 p1 q - orient p0 p1 pp * pcross d0 (psub q p0)) by (ug; ring).
        assert (0 < orient p0 pp q * - pcross d0 (psub p1 p0)) by (apply Rmult_lt_0_compat; lra).
        assert (0 <= - pcross d0 (psub pp p0) * - orient p0 p1 q) by (apply Rmult_le_pos; lra). rewrite <- D in E. lra.
      + apply Rnot_lt_le. intro X.
        assert (E : orient pp p1 q * pcross d1 (psub p0 p1) = pcross d1 (psub pp p1) * orient p0 p1 q - orient p0 p1 pp * pcross d1 (psub q p1)) by (ug; ring).
        assert (0 < orient pp p1 q * - pcross d1 (psub p0 p1)) by (apply Rmult_lt_0_compat; lra).
        assert (0 <= - pcross d1 (psub pp p1) * - orient p0 p1 q) by (apply Rmult_le_pos; lra). rewrite <- D in E. lra.
  Qed.
End Enclose.
