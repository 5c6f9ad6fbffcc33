(** * Lemmas about the hull algorithm over the reals: the sorted scan *)
From Coq Require Import ZArith List Bool Reals Lra Lia Psatz Permutation Sorted.
From Verif Require Import Num Vec Affine Box Seq Polygon Hull SpecGeom SpecHull RBase NumHom SortFacts.
Import ListNotations.
Local Open Scope R_scope.

Ltac ug := unfold orient, pcross, pdot, psub in *; cbn [vx vy] in *.

(** Consecutive elements are related. *)
Fixpoint path {A} (E : A -> A -> Prop) (l : list A) : Prop :=
  match l with
  | a :: ((b :: _) as l') => E a b /\ path E l'
  | _ => True
  end.
Lemma path_app {A} (E : A -> A -> Prop) m l2 : forall l1, path E (l1 ++ [m]) -> path E (m :: l2) -> path E (l1 ++ m :: l2).
Proof.
  induction l1 as [|a l1 IH]; auto. intros H1 H2. destruct l1 as [|b l1].
  - cbn [app] in *. destruct H1 as [H1 _]. split; auto.
  - cbn [app] in *. destruct H1 as [H1 H3]. split; auto.
Qed.
Lemma path_impl {A} (E F : A -> A -> Prop) l : (forall a b, In a l -> In b l -> E a b -> F a b) -> path E l -> path F l.
Proof.
  induction l as [|a l IH]; auto. intros H. destruct l as [|b l]; auto. intros [H1 H2]. split.
  - apply H; cbn; auto.
  - apply IH; auto. intros; apply H; auto; right; auto.
Qed.
Lemma path_map {A B} (f : A -> B) (E : B -> B -> Prop) l : path E (map f l) <-> path (fun a b => E (f a) (f b)) l.
Proof. induction l as [|a l IH]; cbn; [tauto|]. destruct l as [|b l]; cbn in *; tauto. Qed.
Lemma path_rev {A} (E : A -> A -> Prop) l : path E l -> path (fun a b => E b a) (rev l).
Proof.
  induction l as [|a l IH]; auto. intros H. destruct l as [|b l]; auto. destruct H as [H1 H2]. specialize (IH H2).
  change (rev (a :: b :: l)) with (rev (b :: l) ++ [a]). cbn [rev] in *. rewrite <- app_assoc. cbn [app]. apply path_app; auto. split; cbn; auto.
Qed.
Lemma path_cyc_from {A} (E : A -> A -> Prop) f : forall l a, path E ((a :: l) ++ [f]) -> forall x y, In (x, y) (cyc_pairs_from f (a :: l)) -> E x y.
Proof.
  induction l as [|b l IH]; intros a H x y Hi.
  - cbn in *. destruct Hi as [Hi|[]]. inversion Hi; subst. tauto.
  - change (cyc_pairs_from f (a :: b :: l)) with ((a, b) :: cyc_pairs_from f (b :: l)) in Hi. destruct H as [H1 H2].
    destruct Hi as [Hi|Hi]; [inversion Hi; subst; auto|]. eapply IH; eauto.
Qed.
Lemma path_cyc {A} (E : A -> A -> Prop) a l : path E ((a :: l) ++ [a]) -> forall x y, In (x, y) (cyc_pairs (a :: l)) -> E x y.
Proof. apply path_cyc_from. Qed.

(** ** The scan in coordinates whose first axis is the sorting key *)
Definition edge_ok (M : list pt) (a b : pt) : Prop := forall q, In q M -> orient a b q <= 0.
Lemma scan_test (v0 v1 p : pt) : nleb n0 (nsub (nmul (nsub (vx v1) (vx v0)) (nsub (vy p) (vy v0))) (nmul (nsub (vx p) (vx v0)) (nsub (vy v1) (vy v0)))) = Rleb 0 (orient v0 v1 p).
Proof. rnum. f_equal. ug. ring. Qed.

Section Scan.
  Variable o : pt.
  Fixpoint good (M s : list pt) : Prop :=
    match s with
    | b :: ((a :: _) as r) => edge_ok M a b /\ vx a < vx b /\ good M r
    | _ => s = [o]
    end.
  Definition topped (M s : list pt) : Prop :=
    match s with
    | b :: ((a :: _) as r) => edge_ok M a b /\ (vx a < vx b \/ vx a = vx b /\ vy b <= vy a) /\ good M r
    | _ => s = [o]
    end.
  Lemma good_topped M s : good M s -> topped M s.
  Proof. destruct s as [|b [|a r]]; auto. cbn. tauto. Qed.
  Lemma good_add (M : list pt) p : forall r a b, (forall v, In v (b :: a :: r) -> In v M) -> vx b <= vx p -> orient a b p <= 0 -> good M (b :: a :: r) -> good (p :: M) (b :: a :: r).
  Proof.
    induction r as [|z r IH]; intros a b HM Hp Ho (H1 & H2 & H3).
    - split; [|split; auto]. intros q [<-|Hq]; auto.
    - split; [intros q [<-|Hq]; auto|]. split; auto. apply IH.
      + intros; apply HM; right; auto.
      + lra.
      + destruct H3 as (H3 & H4 & _). assert (H5 : orient z a b <= 0) by (apply H3, HM; cbn; auto).
        clear - H2 H4 H5 Ho Hp. destruct z as [z1 z2], a as [a1 a2], b as [b1 b2], p as [p1 p2]. ug.
        assert (E : (b1 - a1) * ((a1 - z1) * (p2 - z2) - (a2 - z2) * (p1 - z1)) = (a1 - z1) * ((b1 - a1) * (p2 - a2) - (b2 - a2) * (p1 - a1)) + (p1 - a1) * ((a1 - z1) * (b2 - z2) - (a2 - z2) * (b1 - z1))) by ring.
        assert (0 <= (a1 - z1) * - ((b1 - a1) * (p2 - a2) - (b2 - a2) * (p1 - a1))) by (apply Rmult_le_pos; lra).
        assert (0 <= (p1 - a1) * - ((a1 - z1) * (b2 - z2) - (a2 - z2) * (b1 - z1))) by (apply Rmult_le_pos; lra).
        apply Rnot_lt_le. intro C. assert (0 < (b1 - a1) * ((a1 - z1) * (p2 - z2) - (a2 - z2) * (p1 - z1))) by (apply Rmult_lt_0_compat; lra). lra.
      + exact H3.
  Qed.
  Lemma pop_step (M : list pt) p : In o M -> (forall q, In q M -> q = o \/ vx o < vx q) -> (forall q, In q M -> vx q <= vx p) -> vx o < vx p ->
    forall s, topped M s -> (forall v, In v s -> In v M) -> (forall q, In q M -> match s with v1 :: _ => orient v1 p q <= 0 \/ vx q <= vx v1 | [] => True end) ->
    topped (p :: M) (p :: scan_pop p s).
  Proof.
    intros Ho Hpos Hmax Hop. induction s as [|b s IH]; intros Ht Hin HB; [discriminate|]. destruct s as [|a r].
    - cbn in Ht. inversion Ht; subst b. cbn. split; [|split; auto]. intros q [<-|Hq].
      + ug. lra.
      + destruct (HB q Hq) as [H|H]; auto. destruct (Hpos q Hq) as [->|H2]; [ug; lra|lra].
    - change (scan_pop p (b :: a :: r)) with (if nleb n0 (nsub (nmul (nsub (vx b) (vx a)) (nsub (vy p) (vy a))) (nmul (nsub (vx p) (vx a)) (nsub (vy b) (vy a)))) then scan_pop p (a :: r) else b :: a :: r).
      rewrite scan_test. destruct Ht as (H1 & H2 & H3).
      assert (Hb : In b M) by (apply Hin; cbn; auto). assert (Ha : In a M) by (apply Hin; cbn; auto).
      pose proof (Hmax b Hb) as Mb. pose proof (Hmax a Ha) as Ma.
      destruct (Rleb_spec 0 (orient a b p)) as [C|C].
      + apply IH.
        * apply good_topped; auto.
        * intros; apply Hin; right; auto.
        * intros q Hq. destruct (Rle_lt_dec (vx q) (vx a)) as [K|K]; auto. left. pose proof (H1 q Hq) as Q. pose proof (Hmax q Hq) as Mq.
          destruct (Rle_lt_dec (vx q) (vx b)) as [L|L].
          -- destruct H2 as [H2|[H2 _]]; [|lra]. clear - Q C K L H2 Mb Mq. destruct a as [a1 a2], b as [b1 b2], p as [p1 p2], q as [q1 q2]. ug.
             assert (E : (b1 - a1) * ((p1 - a1) * (q2 - a2) - (p2 - a2) * (q1 - a1)) = (p1 - a1) * ((b1 - a1) * (q2 - a2) - (b2 - a2) * (q1 - a1)) - (q1 - a1) * ((b1 - a1) * (p2 - a2) - (b2 - a2) * (p1 - a1))) by ring.
             assert (0 <= (p1 - a1) * - ((b1 - a1) * (q2 - a2) - (b2 - a2) * (q1 - a1))) by (apply Rmult_le_pos; lra).
             assert (0 <= (q1 - a1) * ((b1 - a1) * (p2 - a2) - (b2 - a2) * (p1 - a1))) by (apply Rmult_le_pos; lra).
             apply Rnot_lt_le. intro X. assert (0 < (b1 - a1) * ((p1 - a1) * (q2 - a2) - (p2 - a2) * (q1 - a1))) by (apply Rmult_lt_0_compat; lra). lra.
          -- destruct (HB q Hq) as [B|B]; [|lra]. assert (Hab : vx a <= vx b) by (destruct H2 as [H2|[H2 _]]; lra). clear - B C K L Hab Mq.
             destruct a as [a1 a2], b as [b1 b2], p as [p1 p2], q as [q1 q2]. ug.
             assert (E : (p1 - b1) * ((p1 - a1) * (q2 - a2) - (p2 - a2) * (q1 - a1)) = (p1 - a1) * ((p1 - b1) * (q2 - b2) - (p2 - b2) * (q1 - b1)) - (p1 - q1) * ((b1 - a1) * (p2 - a2) - (b2 - a2) * (p1 - a1))) by ring.
             assert (0 <= (p1 - a1) * - ((p1 - b1) * (q2 - b2) - (p2 - b2) * (q1 - b1))) by (apply Rmult_le_pos; lra).
             assert (0 <= (p1 - q1) * ((b1 - a1) * (p2 - a2) - (b2 - a2) * (p1 - a1))) by (apply Rmult_le_pos; lra).
             apply Rnot_lt_le. intro X. assert (0 < (p1 - b1) * ((p1 - a1) * (q2 - a2) - (p2 - a2) * (q1 - a1))) by (apply Rmult_lt_0_compat; lra). lra.
      + assert (Hab : vx a < vx b).
        { destruct H2 as [H2|[H2 H4]]; auto. exfalso. clear - H2 H4 C Ma. destruct a as [a1 a2], b as [b1 b2], p as [p1 p2]. ug. subst b1.
          assert (0 <= (a2 - b2) * (p1 - a1)) by (apply Rmult_le_pos; lra). lra. }
        split; [|split].
        * intros q [<-|Hq]; [ug; lra|]. destruct (HB q Hq) as [B|B]; auto. pose proof (H1 q Hq) as Q. clear - B C Q Hab Mb.
          destruct a as [a1 a2], b as [b1 b2], p as [p1 p2], q as [q1 q2]. ug.
          assert (E : (b1 - a1) * ((p1 - b1) * (q2 - b2) - (p2 - b2) * (q1 - b1)) = (p1 - b1) * ((b1 - a1) * (q2 - a2) - (b2 - a2) * (q1 - a1)) + (b1 - q1) * ((b1 - a1) * (p2 - a2) - (b2 - a2) * (p1 - a1))) by ring.
          assert (0 <= (p1 - b1) * - ((b1 - a1) * (q2 - a2) - (b2 - a2) * (q1 - a1))) by (apply Rmult_le_pos; lra).
          assert (0 <= (b1 - q1) * - ((b1 - a1) * (p2 - a2) - (b2 - a2) * (p1 - a1))) by (apply Rmult_le_pos; lra).
          apply Rnot_lt_le. intro X. assert (0 < (b1 - a1) * ((p1 - b1) * (q2 - b2) - (p2 - b2) * (q1 - b1))) by (apply Rmult_lt_0_compat; lra). lra.
        * destruct (Rle_lt_or_eq_dec _ _ Mb) as [L|L]; auto. right. split; auto. clear - L C Hab. destruct a as [a1 a2], b as [b1 b2], p as [p1 p2]. ug. subst p1.
          assert ((b1 - a1) * (p2 - b2) < 0) by lra. apply Rnot_lt_le. intro X. assert (0 < (b1 - a1) * (p2 - b2)) by (apply Rmult_lt_0_compat; lra). lra.
        * apply good_add; auto; [lra|]. repeat split; auto.
  Qed.
  Lemma scan_pop_in (p : pt) : forall s v, In v (scan_pop p s) -> In v s.
  Proof.
    induction s as [|b s IH]; auto. destruct s as [|a r]; auto. intros v. cbn [scan_pop]. destruct (nleb _ _); auto. intro H. right. auto.
  Qed.
  Lemma scan_run : forall pts M s, In o M -> (forall q, In q M -> q = o \/ vx o < vx q) -> (forall v, In v s -> In v M) -> topped M s -> match s with b :: _ => forall q, In q M -> vx q <= vx b | [] => True end ->
    StronglySorted (fun a b => vx a <= vx b) pts -> (forall q, In q pts -> vx o < vx q) -> (forall q p, In q M -> In p pts -> vx q <= vx p) ->
    exists M', (forall v, In v M' <-> In v M \/ In v pts) /\ topped M' (fold_left scan_step pts s) /\ (forall v, In v (fold_left scan_step pts s) -> In v M').
  Proof.
    induction pts as [|p pts IH]; intros M s Ho Hpos Hin Ht Htop Hs Hp Hm.
    - exists M. split; [intro; cbn; tauto|]. split; auto.
    - inversion Hs as [|? ? S1 S2]; subst. rewrite Forall_forall in S2. cbn [fold_left]. change (scan_step s p) with (p :: scan_pop p s).
      destruct (IH (p :: M) (p :: scan_pop p s)) as (M' & A & B & C).
      + right; auto.
      + intros q [<-|Hq]; auto. right. apply Hp. left; auto.
      + intros v [<-|Hv]; [left; auto|]. right. apply Hin. eapply scan_pop_in; eauto.
      + apply pop_step; auto.
        * intros q Hq. apply Hm; cbn; auto.
        * apply Hp; cbn; auto.
        * intros q Hq. destruct s as [|b s]; [trivial|]. right. apply Htop. exact Hq.
      + intros q [<-|Hq]; [lra|]. apply Hm; cbn; auto.
      + auto.
      + intros q Hq. apply Hp. right; auto.
      + intros q p' [<-|Hq] Hp'; auto. apply Hm; auto. right; auto.
      + exists M'. split; auto. intro v. rewrite A. cbn. tauto.
  Qed.
  Lemma topped_path M : forall s, topped M s -> path (fun b a => edge_ok M a b /\ vx a <= vx b) s /\ exists r, s = r ++ [o].
  Proof.
    assert (G : forall s, good M s -> path (fun b a => edge_ok M a b /\ vx a <= vx b) s /\ exists r, s = r ++ [o]).
    { induction s as [|b s IH]; [discriminate|]. destruct s as [|a r].
      - cbn. intros H. inversion H; subst. split; auto. exists []; auto.
      - intros (H1 & H2 & H3). destruct (IH H3) as [A (r' & B)]. split; [split; auto; split; auto; lra|]. exists (b :: r'). rewrite B. auto. }
    intros [|b [|a r]]; [discriminate|..].
    - cbn. intros H. inversion H; subst. split; auto. exists []; auto.
    - intros (H1 & H2 & H3). destruct (G _ H3) as [A (r' & B)]. split; [split; auto; split; auto; lra|]. exists (b :: r'). rewrite B. auto.
  Qed.
End Scan.

(** ** The sorted scan of the algorithm *)
Section Sorted.
  Variables p0 p1 : pt.
  Let d := psub p1 p0.
  Definition phi (q : pt) : pt := mkV (pdot (psub p1 p0) (psub q p0)) (pcross (psub p1 p0) (psub q p0)).
  Lemma phi_orient a b c : orient (phi a) (phi b) (phi c) = pdot d d * orient a b c.
  Proof. unfold d, phi. destruct p0 as [u1 u2], p1 as [w1 w2], a as [a1 a2], b as [b1 b2], c as [c1 c2]. ug. ring. Qed.
  Hypothesis Hd : 0 < pdot d d.
  Lemma phi_pos a b c : Rleb 0 (orient (phi a) (phi b) (phi c)) = Rleb 0 (orient a b c).
  Proof.
    rewrite phi_orient. destruct (Rleb_spec 0 (orient a b c)) as [C|C].
    - apply Rleb_true. apply Rmult_le_pos; lra.
    - destruct (Rleb_spec 0 (pdot d d * orient a b c)) as [X|X]; auto. exfalso. assert (0 < pdot d d * - orient a b c) by (apply Rmult_lt_0_compat; lra). lra.
  Qed.
  Lemma phi_pop p s : scan_pop (phi p) (map phi s) = map phi (scan_pop p s).
  Proof.
    induction s as [|b s IH]; auto. destruct s as [|a r]; auto. cbn [map] in *. cbn [scan_pop]. rewrite !scan_test, phi_pos. destruct (Rleb 0 _); auto.
  Qed.
  Lemma phi_step p s : scan_step (map phi s) (phi p) = map phi (scan_step s p).
  Proof. unfold scan_step. rewrite phi_pop. auto. Qed.
  Lemma phi_le a b c : orient (phi a) (phi b) (phi c) <= 0 -> orient a b c <= 0.
  Proof. rewrite phi_orient. intros H. apply Rnot_lt_le. intro C. assert (0 < pdot d d * orient a b c) by (apply Rmult_lt_0_compat; lra). lra. Qed.
  Lemma phi_inj a b : phi a = phi b -> a = b.
  Proof.
    intros H. unfold phi in H. apply mkV_inj in H. destruct H as [H1 H2]. unfold d in Hd. destruct p0 as [u1 u2], p1 as [w1 w2], a as [a1 a2], b as [b1 b2]. ug.
    apply Rminus_diag_eq in H1, H2.
    assert (E1 : ((w1 - u1) * (w1 - u1) + (w2 - u2) * (w2 - u2)) * (a1 - b1) = 0).
    { match type of H1 with ?K1 = 0 => match type of H2 with ?K2 = 0 => transitivity ((w1 - u1) * K1 - (w2 - u2) * K2); [ring|rewrite H1, H2; ring] end end. }
    assert (E2 : ((w1 - u1) * (w1 - u1) + (w2 - u2) * (w2 - u2)) * (a2 - b2) = 0).
    { match type of H1 with ?K1 = 0 => match type of H2 with ?K2 = 0 => transitivity ((w2 - u2) * K1 + (w1 - u1) * K2); [ring|rewrite H1, H2; ring] end end. }
    apply Rmult_integral in E1. apply Rmult_integral in E2. apply vec_ext; cbn [vx vy]; lra.
  Qed.

  Variable pts : list pt.
  Hypothesis Hah : ahead pts p0 p1.
  Lemma ahull_sort_path : exists r, ahull_sort pts p0 p1 = p0 :: r /\ (forall v, In v r -> In v pts \/ v = p0 \/ v = p1) /\
    path (fun a b => edge_ok (p0 :: p1 :: pts) a b /\ vx (phi a) <= vx (phi b)) ((p0 :: r) ++ [p1]).
  Proof.
    unfold ahull_sort. set (lt := fun a b : vec R => nltb _ _).
    assert (Hlt : forall a b, lt a b = true <-> vx (phi a) < vx (phi b)).
    { intros a b. unfold lt, line_order, phi, vsub. rnum. rewrite Rltb_true. ug. rewrite ?Rmult_1_r. tauto. }
    set (srt := sort_by lt pts).
    assert (Hsi : forall q, In q srt <-> In q pts) by (intro; apply sort_in).
    assert (Hss : StronglySorted (nlt lt) srt).
    { apply sort_sorted.
      - intros a b H. destruct (lt b a) eqn:E; auto. apply Hlt in H. apply Hlt in E. lra.
      - unfold nlt. intros a b c H1 H2. destruct (lt c a) eqn:E; auto. apply Hlt in E.
        destruct (Rlt_dec (vx (phi b)) (vx (phi a))) as [X|X]; [apply Hlt in X; congruence|].
        destruct (Rlt_dec (vx (phi c)) (vx (phi b))) as [Y|Y]; [apply Hlt in Y; congruence|]. lra. }
    assert (H0 : phi p0 = mkV 0 0) by (unfold phi; destruct p0 as [u1 u2], p1 as [w1 w2]; ug; f_equal; ring).
    assert (Hq : forall q, In q (srt ++ [p1]) -> 0 < vx (phi q) <= vx (phi p1)).
    { intros q Hq. apply in_app_or in Hq. destruct Hq as [Hq|[<-|[]]].
      - apply Hsi in Hq. specialize (Hah q Hq). exact Hah.
      - unfold phi. cbn [vx]. fold d. lra. }
    assert (Hs2 : StronglySorted (fun a b => vx a <= vx b) (map phi (srt ++ [p1]))).
    { assert (X : forall l, StronglySorted (nlt lt) l -> (forall q, In q (l ++ [p1]) -> 0 < vx (phi q) <= vx (phi p1)) -> StronglySorted (fun a b => vx a <= vx b) (map phi (l ++ [p1]))).
      { induction l as [|a l IH]; intros Hl Hb; cbn [app map].
        - constructor; constructor.
        - inversion Hl as [|? ? L1 L2]; subst. constructor; [apply IH; auto; intros; apply Hb; right; auto|].
          rewrite Forall_forall in *. intros y Hy. apply in_map_iff in Hy. destruct Hy as (x & <- & Hx). apply in_app_or in Hx. destruct Hx as [Hx|[<-|[]]].
          + specialize (L2 x Hx). unfold nlt in L2. destruct (Rlt_dec (vx (phi x)) (vx (phi a))) as [Z|Z]; [apply Hlt in Z; congruence|lra].
          + apply Hb. left; auto. }
      apply X; auto. }
    destruct (scan_run (phi p0) (map phi (srt ++ [p1])) [phi p0] [phi p0]) as (M' & A & B & C).
    - left; auto.
    - intros q [<-|[]]; auto.
    - auto.
    - reflexivity.
    - intros q [<-|[]]; lra.
    - auto.
    - intros q Hi. apply in_map_iff in Hi. destruct Hi as (x & <- & Hx). rewrite H0. cbn [vx]. apply Hq; auto.
    - intros q p [<-|[]] Hi. apply in_map_iff in Hi. destruct Hi as (x & <- & Hx). rewrite H0. cbn [vx]. apply Rlt_le, Hq; auto.
    - change [phi p0] with (map phi [p0]) in B, C. rewrite (fold_hom (map phi) phi scan_step) in B, C by (intros; apply phi_step).
      set (st := fold_left scan_step (srt ++ [p1]) [p0]) in *.
      assert (Htop : exists t, st = p1 :: t). { unfold st. rewrite fold_left_app. cbn [fold_left]. unfold scan_step at 1. eexists. reflexivity. }
      destruct Htop as (t & Et). destruct (topped_path _ _ _ B) as [P (r & Er)].
      assert (Hl : exists r', t = r' ++ [p0]).
      { rewrite Et in Er. cbn [map] in Er. destruct r as [|x r]; cbn [app] in Er.
        - exfalso. assert (E1 : phi p1 = phi p0) by congruence. specialize (Hq p1). rewrite E1, H0 in Hq. cbn [vx] in Hq. assert (In p1 (srt ++ [p1])) by (apply in_or_app; right; left; auto). specialize (Hq H). lra.
        - assert (E2 : map phi t = r ++ [phi p0]) by congruence. assert (Ht : t <> []) by (intros ->; destruct r; discriminate).
          destruct (exists_last Ht) as (r' & z & ->). exists r'. rewrite map_app in E2. cbn [map] in E2. apply app_inj_tail in E2. destruct E2 as [_ E2]. apply phi_inj in E2. subst z. auto. }
      destruct Hl as (r' & Ht). rewrite Et in *. cbn [tl]. rewrite Ht in *. rewrite rev_app_distr. cbn [rev app]. exists (rev r'). split; auto. split.
      + intros v Hv. apply in_rev in Hv. assert (X : In (phi v) M'). { apply C. apply in_map. right. apply in_or_app. left; auto. }
        apply A in X. destruct X as [[X|[]]|X]; [apply phi_inj in X; auto|]. apply in_map_iff in X. destruct X as (y & Ey & Hy). apply phi_inj in Ey. subst y.
        apply in_app_or in Hy. destruct Hy as [Hy|[<-|[]]]; auto. left. apply Hsi; auto.
      + apply path_rev in P. rewrite <- map_rev in P. apply path_map in P. cbn [rev] in P. rewrite rev_app_distr in P. cbn [rev app] in P.
        eapply path_impl; [|exact P]. intros a b _ _ [H1 H2]. split; auto. intros q Hiq. apply phi_le. apply H1. apply A.
        destruct Hiq as [<-|[<-|Hiq]]; [left; left; auto|right; apply in_map, in_or_app; right; left; auto|].
        right. apply in_map, in_or_app. left. apply Hsi. auto.
  Qed.
End Sorted.
