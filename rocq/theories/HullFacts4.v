(** * Lemmas about the hull algorithm over the reals: the whole run *)
From Coq Require Import ZArith QArith List Bool Reals Lra Lia Psatz Permutation Sorted.
From Verif Require Import Num Vec Affine Box Seq Polygon Hull SpecGeom SpecHull SpecExtreme RBase VecFacts2 BoxFacts2 NumHom RComp SortFacts HullFacts HullFacts2 HullFacts3.
Import ListNotations.
Local Open Scope R_scope.

Lemma lr_spec : forall (pts : list pt) st, vx (fst st) <= vx (snd st) ->
  let st' := fold_left lr_step pts st in vx (fst st') <= vx (fst st) /\ vx (snd st) <= vx (snd st') /\ forall q, In q pts -> vx (fst st') <= vx q <= vx (snd st').
Proof.
  induction pts as [|a pts IH]; intros [l r] H; cbn [fold_left fst snd] in *.
  - split; [lra|]. split; [lra|]. intros q [].
  - assert (X : lr_step (l, r) a = if Rltb (vx a) (vx l) then (a, r) else if Rltb (vx r) (vx a) then (l, a) else (l, r)) by reflexivity. rewrite X.
    destruct (Rltb_spec (vx a) (vx l)) as [L|L]; [|destruct (Rltb_spec (vx r) (vx a)) as [L2|L2]]; match goal with |- context [fold_left lr_step pts ?s] => destruct (IH s) as (A & B & C) end; cbn [fst snd] in *; try lra;
      (split; [lra|]; split; [lra|]; intros q [<-|Hq]; [lra|auto]).
Qed.
Lemma set_mem_R (p : pt) s : set_mem p s = true <-> In p s.
Proof. unfold set_mem. rewrite existsb_exists. split; [intros (x & H & E); apply vec_eqb_R in E; subst; auto|intros H; exists p; split; auto; apply vec_eqb_R; auto]. Qed.
Lemma set_add_R (p v : pt) s : In v (set_add s p) <-> v = p \/ In v s.
Proof.
  split; [apply set_add_in|]. unfold set_add. destruct (set_mem p s) eqn:E; [apply set_mem_R in E; intros [->|H]; auto|]. intros [->|H]; apply in_or_app; [right; left; auto|left; auto].
Qed.
Lemma set_add_nodup (p : pt) s : NoDup s -> NoDup (set_add s p).
Proof.
  intros H. unfold set_add. destruct (set_mem p s) eqn:E; auto. apply (Permutation_NoDup (l := p :: s)); [apply Permutation_cons_append|]. constructor; auto.
  intro X. apply set_mem_R in X. congruence.
Qed.
Lemma set_discard_R (p v : pt) s : In v (set_discard s p) <-> In v s /\ v <> p.
Proof.
  unfold set_discard. rewrite filter_In. destruct (vec_eqb p v) eqn:E; cbn [negb].
  - apply vec_eqb_R in E. subst. intuition discriminate.
  - apply vec_eqb_R_false in E. intuition congruence.
Qed.
Lemma ul_spec (l r : pt) : forall pts st, let st' := fold_left (fun st p => let '(up, lo) := st in
      if nltb n0 (nsub (nmul (nsub (vx r) (vx l)) (nsub (vy p) (vy l))) (nmul (nsub (vx p) (vx l)) (nsub (vy r) (vy l)))) then (set_add up p, lo) else (up, set_add lo p)) pts st in
    (forall v, In v (fst st') <-> In v (fst st) \/ In v pts /\ 0 < orient l r v) /\ (forall v, In v (snd st') <-> In v (snd st) \/ In v pts /\ orient l r v <= 0) /\
    (NoDup (fst st) -> NoDup (fst st')) /\ (NoDup (snd st) -> NoDup (snd st')).
Proof.
  induction pts as [|a pts IH]; intros [up lo]; cbn [fold_left].
  - cbn [fst snd]. repeat split; auto; try (intros [H|[[] _]]; auto; fail).
  - cbv zeta. assert (E : nltb n0 (nsub (nmul (nsub (vx r) (vx l)) (nsub (vy a) (vy l))) (nmul (nsub (vx a) (vx l)) (nsub (vy r) (vy l)))) = Rltb 0 (orient l r a)) by (rnum; f_equal; ug; ring).
    rewrite E. destruct (Rltb_spec 0 (orient l r a)) as [C|C]; match goal with |- context [fold_left _ pts ?s] => destruct (IH s) as (A & B & D & F) end; cbv zeta in *; cbn [fst snd] in *.
    + split; [|split; [|split; auto; intros H; apply D, set_add_nodup; auto]]; intro v; [rewrite A, set_add_R|rewrite B]; cbn [In]; intuition (subst; auto; lra).
    + split; [|split; [|split; auto; intros H; apply F, set_add_nodup; auto]]; intro v; [rewrite A|rewrite B, set_add_R]; cbn [In]; intuition (subst; auto; lra).
Qed.

(** The two halves of a run. *)
Definition half (so : list pt -> list pt) (s : list pt) (a b : pt) : res (list pt) :=
  match s with [] => Ok [a] | _ => ahull_partition (S (length s)) (so s) a b end.
Lemma quick_shape (so : list pt -> list pt) (pts : list pt) : pts <> [] ->
  exists l r up lo, leftmost pts l /\ rightmost pts r /\
    (forall v, In v up <-> In v pts /\ 0 < orient l r v) /\ (forall v, In v lo <-> In v pts /\ orient l r v <= 0 /\ v <> l /\ v <> r) /\
    NoDup up /\ NoDup lo /\
    quick_hull so pts = (let* h1 := half so up l r in let* h2 := half so lo r l in Ok (h1 ++ h2)) /\
    (forall p t, pts = p :: t -> fold_left lr_step pts (p, p) = (l, r) /\ exists u w, upper_lower pts l r = (u, w) /\ up = set_discard (set_discard u l) r /\ lo = set_discard (set_discard w l) r).
Proof.
  intros Hne. destruct pts as [|p t]; [contradiction|]. set (pts := p :: t) in *.
  destruct (fold_left lr_step pts (p, p)) as [l r] eqn:ELR.
  destruct (lr_in pts pts (p, p)) as [Hl Hr]; try (left; reflexivity); auto. rewrite ELR in Hl, Hr. cbn [fst snd] in Hl, Hr.
  destruct (lr_spec pts (p, p)) as (_ & _ & HB); [cbn; lra|]. cbv zeta in HB. rewrite ELR in HB. cbn [fst snd] in HB.
  destruct (upper_lower pts l r) as [u w] eqn:EU. pose proof (ul_spec l r pts ([], [])) as U. cbv zeta in U. pose proof EU as EU0. unfold upper_lower in EU. cbv zeta in EU. rewrite EU in U. cbn [fst snd] in U. destruct U as (U1 & U2 & U3 & U4).
  exists l, r, (set_discard (set_discard u l) r), (set_discard (set_discard w l) r).
  split; [split; auto; intros; apply HB; auto|]. split; [split; auto; intros; apply HB; auto|].
  split; [|split; [|split; [|split]]].
  - intro v. rewrite !set_discard_R, U1. split; [cbn; tauto|]. intros [H1 H2]. repeat split; auto; intros ->; revert H2; [rewrite orient_self1|rewrite orient_self]; lra.
  - intro v. rewrite !set_discard_R, U2. cbn; tauto.
  - unfold set_discard. apply NoDup_filter, NoDup_filter, U3. constructor.
  - unfold set_discard. apply NoDup_filter, NoDup_filter, U4. constructor.
  - split; [change (quick_hull so pts) with (let '(l, r) := fold_left lr_step pts (p, p) in let '(u, w) := upper_lower pts l r in let* h1 := half so (set_discard (set_discard u l) r) l r in let* h2 := half so (set_discard (set_discard w l) r) r l in Ok (h1 ++ h2)); rewrite ELR, EU0; reflexivity|]. intros p' t' E. assert (p' = p) by (unfold pts in E; congruence). subst p'. split; auto. exists u, w. split; auto.
Qed.
Lemma perm_nonempty (so : list pt -> list pt) s : reorders so -> s <> [] -> so s <> [].
Proof. intros H Hs E. specialize (H s). rewrite E in H. symmetry in H. apply Permutation_nil in H. contradiction. Qed.
Lemma half_total (so : list pt -> list pt) s a b : reorders so -> (forall v, In v s -> 0 <= orient a b v) -> exists t, half so s a b = Ok (a :: t) /\ (s <> [] -> t <> []).
Proof.
  intros Hso Ho. unfold half. destruct s as [|x s]; [exists []; split; auto|]. assert (Hl : length (so (x :: s)) = length (x :: s)) by (symmetry; apply Permutation_length, Hso).
  destruct (hull_total (S (length (x :: s))) (so (x :: s)) a b) as (y & t & E); [lia|apply perm_nonempty; auto; discriminate| |].
  - intros q Hq. apply Ho. eapply Permutation_in; [symmetry; apply Hso|auto].
  - exists (y :: t). split; auto. discriminate.
Qed.

(** The sorted scans made by a run. *)
Definition hull_scans {T} {N : Num T} (so : list (vec T) -> list (vec T)) (pts : list (vec T)) : list (list (vec T) * vec T * vec T) :=
  match pts with
  | [] => []
  | p :: _ =>
      let '(l, r) := fold_left lr_step pts (p, p) in
      let '(u, w) := upper_lower pts l r in
      let up := set_discard (set_discard u l) r in
      let lo := set_discard (set_discard w l) r in
      scans (S (length up)) (so up) l r ++ scans (S (length lo)) (so lo) r l
  end.
Lemma half_encloses (so : list pt -> list pt) G s a b d0 d1 : reorders so -> sub G s a b d0 d1 -> (forall l x y, In (l, x, y) (scans (S (length s)) (so s) a b) -> ahead l x y) ->
  exists t, half so s a b = Ok (a :: t) /\ path (edge_ok G) ((a :: t) ++ [b]).
Proof.
  intros Hso S Hsc. unfold half. destruct s as [|x s]; [exists []; split; auto; eapply sub_none; eauto|].
  assert (Hl : length (so (x :: s)) = length (x :: s)) by (symmetry; apply Permutation_length, Hso).
  assert (Hin : forall q, In q (so (x :: s)) <-> In q (x :: s)) by (intro q; split; apply Permutation_in; [symmetry|]; apply Hso).
  apply (sub_hull G _ _ a b d0 d1); auto.
  - lia.
  - apply perm_nonempty; auto; discriminate.
  - assert (Hx : x :: s <> []) by discriminate. destruct S as [S1 S2 S3 S4 S5 S6 S7 S8 S9]. split; auto; [intros q Hq; rewrite Hin; auto|intros q Hq; apply S2, Hin; auto|intros q Hq; apply S5, Hin; auto].
Qed.
Lemma quick_encloses (so : list pt -> list pt) pts : reorders so -> (exists a b, In a pts /\ In b pts /\ vx a <> vx b) -> (forall l a b, In (l, a, b) (hull_scans so pts) -> ahead l a b) ->
  exists h, quick_hull so pts = Ok h /\ forall q, In q pts -> encloses h q.
Proof.
  intros Hso (a & b & Ha & Hb & Hab) Hsc. assert (Hne : pts <> []) by (intros ->; destruct Ha).
  destruct (quick_shape so pts Hne) as (l & r & up & lo & [Hl HL] & [Hr HR] & Hup & Hlo & _ & _ & -> & HQ).
  assert (Hw : vx l < vx r). { pose proof (HL a Ha). pose proof (HL b Hb). pose proof (HR a Ha). pose proof (HR b Hb). lra. }
  assert (Hsc' : (forall s x y, In (s, x, y) (scans (S (length up)) (so up) l r) -> ahead s x y) /\ (forall s x y, In (s, x, y) (scans (S (length lo)) (so lo) r l) -> ahead s x y)).
  { destruct pts as [|p t]; [contradiction|]. destruct (HQ p t eq_refl) as (E1 & u & w & E2 & -> & ->). unfold hull_scans in Hsc. rewrite E1, E2 in Hsc. split; intros; apply Hsc, in_or_app; auto. }
  destruct Hsc' as [Sc1 Sc2].
  destruct (half_encloses so pts up l r (mkV 0 1) (mkV 0 (-1)) Hso) as (t1 & -> & P1); auto.
  { split; auto.
    - intros q Hq. destruct (Rlt_le_dec 0 (orient l r q)); auto. left. apply Hup. auto.
    - intros q Hq. apply Hup in Hq. tauto.
    - intros q Hq. apply Hup in Hq. lra.
    - intros q Hq. specialize (HL q Hq). unfold pcross, psub. cbn [vx vy]. lra.
    - intros q Hq. specialize (HR q Hq). unfold pcross, psub. cbn [vx vy]. lra.
    - intros _. unfold pcross, psub. cbn [vx vy]. lra.
    - intros _. unfold pcross, psub. cbn [vx vy]. lra. }
  assert (Hrl : forall q, orient r l q = - orient l r q) by (intro q; ug; ring).
  destruct (half_encloses so pts lo r l (mkV 0 (-1)) (mkV 0 1) Hso) as (t2 & -> & P2); auto.
  { split; auto.
    - intros q Hq. rewrite Hrl. destruct (Rlt_le_dec (orient l r q) 0) as [C|C]; [|right; lra]. left. apply Hlo. repeat split; auto; try lra; intros ->; revert C; [rewrite orient_self1|rewrite orient_self]; lra.
    - intros q Hq. apply Hlo in Hq. tauto.
    - intros q Hq. apply Hlo in Hq. rewrite Hrl. lra.
    - intros q Hq. specialize (HR q Hq). unfold pcross, psub. cbn [vx vy]. lra.
    - intros q Hq. specialize (HL q Hq). unfold pcross, psub. cbn [vx vy]. lra.
    - intros _. unfold pcross, psub. cbn [vx vy]. lra.
    - intros _. unfold pcross, psub. cbn [vx vy]. lra. }
  cbn [bind]. exists ((l :: t1) ++ r :: t2). split; auto. intros q Hq x y Hxy.
  assert (P : path (edge_ok pts) ((l :: t1 ++ r :: t2) ++ [l])).
  { change ((l :: t1 ++ r :: t2) ++ [l]) with (((l :: t1) ++ r :: t2) ++ [l]). rewrite <- app_assoc. apply (path_app (edge_ok pts) r (t2 ++ [l]) (l :: t1)); auto. }
  exact (path_cyc (edge_ok pts) l (t1 ++ r :: t2) P x y Hxy q Hq).
Qed.
Lemma few_scans (so : list pt -> list pt) pts : reorders so -> (exists a b, In a pts /\ In b pts /\ vx a <> vx b) -> (length pts <= 7)%nat -> hull_scans so pts = [].
Proof.
  intros Hso (a & b & Ha & Hb & Hab) HL7. assert (Hne : pts <> []) by (intros ->; destruct Ha).
  destruct (quick_shape so pts Hne) as (l & r & up & lo & [Hl HL] & [Hr HR] & Hup & Hlo & N1 & N2 & _ & HQ).
  assert (Hw : vx l < vx r). { pose proof (HL a Ha). pose proof (HL b Hb). pose proof (HR a Ha). pose proof (HR b Hb). lra. }
  assert (Hlr : l <> r) by (intros ->; lra). assert (Hrl : forall q, orient r l q = - orient l r q) by (intro q; ug; ring).
  assert (Lu : (length up <= 5)%nat).
  { assert (N : NoDup (l :: r :: up)).
    { constructor; [intros [X|X]; [auto|apply Hup in X; destruct X as [_ X]; rewrite orient_self1 in X; lra]|]. constructor; auto. intros X. apply Hup in X. destruct X as [_ X]. rewrite orient_self in X. lra. }
    pose proof (NoDup_incl_length N (l' := pts)) as X; cbn [length] in X; assert (S (S (length up)) <= length pts)%nat; [apply X; intros v [<-|[<-|Hv]]; auto; apply Hup in Hv; tauto|lia]. }
  assert (Ll : (length lo <= 5)%nat).
  { assert (N : NoDup (l :: r :: lo)).
    { constructor; [intros [X|X]; [auto|apply Hlo in X; tauto]|]. constructor; auto. intros X. apply Hlo in X. tauto. }
    pose proof (NoDup_incl_length N (l' := pts)) as X; cbn [length] in X; assert (S (S (length lo)) <= length pts)%nat; [apply X; intros v [<-|[<-|Hv]]; auto; apply Hlo in Hv; tauto|lia]. }
  destruct pts as [|p t]; [contradiction|]. destruct (HQ p t eq_refl) as (E1 & u & w & E2 & Eu & Ew). unfold hull_scans. rewrite E1, E2. rewrite <- Eu, <- Ew.
  rewrite !scans_few; auto.
  - rewrite <- (Permutation_length (Hso lo)). auto.
  - intros q Hq. rewrite Hrl. apply (Permutation_in q (Permutation_sym (Hso lo))) in Hq. apply Hlo in Hq. lra.
  - rewrite <- (Permutation_length (Hso up)). auto.
  - intros q Hq. apply (Permutation_in q (Permutation_sym (Hso up))) in Hq. apply Hup in Hq. lra.
Qed.

(** ** From the hull list to the polygon *)
Lemma new_verts (h : list pt) : if Nat.ltb (length h) 3 then poly_new h (Some true) None = Err ValueError else exists p, poly_new h (Some true) None = Ok p /\ pverts p = h.
Proof.
  unfold poly_new. assert (E : seq_new h = h) by apply map_vec2_of_R. rewrite E. destruct (Nat.ltb_spec (length h) 3) as [C|C]; auto.
  unfold cleared. destruct (Nat.ltb_spec 3 (length h)) as [D|D]; cbn [pconvex bind andb].
  - destruct (split_ok h) as (pl & ->); [intros ->; cbn in C; lia|]. cbn [bind]. eexists. split; [reflexivity|]. reflexivity.
  - eexists. split; [reflexivity|]. reflexivity.
Qed.

(** ** Evaluation at integer points *)
Section Hom.
  Context {T1 T2 : Type} {N1 : Num T1} {N2 : Num T2} (h : T1 -> T2) (H : NumHom N1 N2 h).
  Notation hv := (@hv T1 T2 h).
  Definition hscan (x : list (vec T1) * vec T1 * vec T1) : list (vec T2) * vec T2 * vec T2 := (map hv (fst (fst x)), hv (snd (fst x)), hv (snd x)).
  Lemma h_scans f : forall pts p0 p1, scans f (map hv pts) (hv p0) (hv p1) = map hscan (scans f pts p0 p1).
  Proof.
    induction f as [|f IH]; intros; cbn [scans]; auto. rewrite (h_find_furthest H). destruct (find_furthest pts p0 p1) as [pp|]; cbn [option_map]; auto.
    rewrite (h_vec2_of H), (h_partition H). destruct (partition_pts pts p0 p1 (vec2_of pp)) as [[l r]|]; auto. cbn [hr rmap h2l fst snd]. rewrite !map_length, !IH, map_app.
    f_equal; repeat match goal with |- context [if ?c then _ else _] => destruct c end; reflexivity.
  Qed.
  Lemma h_hull_scans pts : hull_scans (fun x => x) (map hv pts) = map hscan (hull_scans (fun x => x) pts).
  Proof.
    unfold hull_scans. destruct pts as [|p pts]; auto. cbn [map]. change (hv p :: map hv pts) with (map hv (p :: pts)).
    change (hv p, hv p) with (h2v (h:=h) (p, p)). rewrite (fold_hom (h2v (h:=h)) hv lr_step) by (intros; apply (h_lr H)).
    destruct (fold_left lr_step (p :: pts) (p, p)) as [l r]. cbn [h2v fst snd]. rewrite (h_upper_lower H).
    destruct (upper_lower (p :: pts) l r) as [u w]. cbn [h2l fst snd]. rewrite !(h_set_discard H), !map_length, !h_scans, map_app. reflexivity.
  Qed.
  (** For every order of the sets the run is the image of a run with some order. *)
  Definition qhalf (s s' : list (vec T1)) (a b : vec T1) : res (list (vec T1)) :=
    match s with [] => Ok [a] | _ => ahull_partition (S (length s)) s' a b end.
  Lemma h_quick_any (so : list (vec T2) -> list (vec T2)) (p : vec T1) (pts : list (vec T1)) : reorders so ->
    let all := p :: pts in
    let '(l, r) := fold_left lr_step all (p, p) in let '(u, w) := upper_lower all l r in
    let up := set_discard (set_discard u l) r in let lo := set_discard (set_discard w l) r in
    exists up' lo', Permutation up up' /\ Permutation lo lo' /\ quick_hull so (map hv all) = rmap (map hv) (let* h1 := qhalf up up' l r in let* h2 := qhalf lo lo' r l in Ok (h1 ++ h2)).
  Proof.
    intros Hso all. destruct (fold_left lr_step all (p, p)) as [l r] eqn:E1. destruct (upper_lower all l r) as [u w] eqn:E2. cbv zeta.
    set (up := set_discard (set_discard u l) r). set (lo := set_discard (set_discard w l) r).
    assert (X : forall s, exists s', Permutation s s' /\ so (map hv s) = map hv s').
    { intros s. destruct (Permutation_map_inv hv s (Permutation_sym (Hso (map hv s)))) as (s' & E & P). exists s'. split; auto. }
    destruct (X up) as (up' & P1 & Eu). destruct (X lo) as (lo' & P2 & El). exists up', lo'. split; auto. split; auto.
    unfold quick_hull. unfold all. cbn [map]. change (hv p :: map hv pts) with (map hv all).
    change (hv p, hv p) with (h2v (h:=h) (p, p)). rewrite (fold_hom (h2v (h:=h)) hv lr_step) by (intros; apply (h_lr H)). rewrite E1. cbn [h2v fst snd]. rewrite (h_upper_lower H), E2.
    cbn [h2l fst snd]. rewrite !(h_set_discard H). fold up lo.
    assert (E : forall s s' a b, so (map hv s) = map hv s' -> match map hv s with [] => Ok [hv a] | _ => ahull_partition (S (length (map hv s))) (so (map hv s)) (hv a) (hv b) end = rmap (map hv) (qhalf s s' a b)).
    { intros s s' a b Es. unfold qhalf. rewrite Es, map_length. destruct s as [|q s]; auto. cbn [map]. apply (h_ahull_partition H). }
    rewrite (E up up'), (E lo lo') by auto. destruct (qhalf up up' l r); auto. cbn [rmap bind]. destruct (qhalf lo lo' r l); auto. cbn [rmap bind]. rewrite map_app. auto.
  Qed.
End Hom.

(** All orders of a list. *)
Fixpoint inserts {A} (x : A) (l : list A) : list (list A) :=
  match l with [] => [[x]] | y :: m => (x :: l) :: map (cons y) (inserts x m) end.
Fixpoint perms {A} (l : list A) : list (list A) :=
  match l with [] => [[]] | x :: m => flat_map (inserts x) (perms m) end.
Lemma inserts_mid {A} (x : A) : forall l1 l2, In (l1 ++ x :: l2) (inserts x (l1 ++ l2)).
Proof. induction l1 as [|y l1 IH]; intros l2; cbn [app inserts]; [destruct l2; left; auto|]. right. apply in_map, IH. Qed.
Lemma perms_all {A} : forall l m : list A, Permutation l m -> In m (perms l).
Proof.
  induction l as [|x l IH]; intros m P; cbn [perms].
  - apply Permutation_nil in P. subst. left; auto.
  - assert (Hx : In x m) by (eapply Permutation_in; [exact P|left; auto]). apply in_split in Hx. destruct Hx as (l1 & l2 & ->).
    apply in_flat_map. exists (l1 ++ l2). split; [apply IH; eapply Permutation_cons_app_inv; eauto|]. apply inserts_mid.
Qed.
