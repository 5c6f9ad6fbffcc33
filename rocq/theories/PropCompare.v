(** * Property C104: comparison, hashing and truth value of objects of any classes *)
From Coq Require Import ZArith List Bool Reals Lra Lia Floats.
From Verif Require Import Num NumFloat Vec Affine Box Line Seq Polygon BoxPoly Dispatch Compare RBase VecFacts2 OrdLaws SpecGeom SpecBox EqFacts RComp ConvexFacts4 PropPolyEq.
Import ListNotations.
Local Open Scope R_scope.

(** The numbers of a tuple, Vec2 or Affine. *)
Definition numbers {T} {N : Num T} (x : @val T) : option (list T) :=
  match x with
  | VTup l => Some l
  | VVec v => Some [vx v; vy v]
  | VAff m => Some [aa m; ab m; ac m; ad m; ae m; af m; n0; n0; n1]
  | _ => None
  end.
Definition plain {T} (x : @val T) : Prop := match x with VTup _ => True | _ => False end.

(** What [a == b] should mean.  Inside one class see C64, C65 (polygons) and
    C80 (boxes, lines, rays, segments). *)
Inductive same_value {T} {N : Num T} : @val T -> @val T -> Prop :=
| SVNum x y : neqb x y = true -> same_value (VNum x) (VNum y)
| SVTuple a b l m : numbers a = Some l -> numbers b = Some m -> Forall2 (fun x y => neqb x y = true) l m -> same_value a b
| SVSeq l m : Forall2 (fun v w => neqb (vx v) (vx w) = true /\ neqb (vy v) (vy w) = true) l m -> same_value (VSeq l) (VSeq m)
| SVArr l m : Forall2 (fun v w => neqb (vx v) (vx w) = true /\ neqb (vy v) (vy w) = true) l m -> same_value (VArr l) (VArr m)
| SVPoly p q : poly_eqb p q = Ok true -> same_value (VPoly p) (VPoly q)
| SVBox b c : box_eqb b c = true -> same_value (VBox b) (VBox c)
| SVLine b c : line_eqb b c = true -> same_value (VLine b) (VLine c)
| SVRay b c : ray_eqb b c = true -> same_value (VRay b) (VRay c)
| SVSeg b c : seg_eqb b c = true -> same_value (VSeg b) (VSeg c).

Section Generic.
  Context {T : Type} {N : Num T}.
  Notation val := (@val T).
  Lemma tup_eqb_iff (l m : list T) : tup_eqb l m = true <-> Forall2 (fun x y => neqb x y = true) l m.
  Proof.
    revert m. induction l as [|x l IH]; intros [|y m]; cbn [tup_eqb].
    - split; auto. - split; [discriminate|inversion 1]. - split; [discriminate|inversion 1].
    - rewrite andb_true_iff, IH. split; [intros [? ?]; auto|inversion 1; auto].
  Qed.
  Lemma seq_eqb_Forall2 (l m : list (vec T)) :
    seq_eqb l m = true <-> Forall2 (fun v w => neqb (vx v) (vx w) = true /\ neqb (vy v) (vy w) = true) l m.
  Proof.
    revert m. induction l as [|x l IH]; intros [|y m]; cbn [seq_eqb].
    - split; auto. - split; [discriminate|inversion 1]. - split; [discriminate|inversion 1].
    - rewrite andb_true_iff, IH. unfold vec_eqb. rewrite andb_true_iff. split; [intros [? ?]; auto|inversion 1; auto].
  Qed.
  Lemma vec_eq_tup (v : vec T) (b : val) : vec_eq_method v b = match numbers b with Some m => tup_eqb [vx v; vy v] m | None => false end.
  Proof.
    unfold vec_eq_method. destruct b as [x|l|w|l|l|p|m|c|c|c|c|u w|l]; try reflexivity.
    - destruct l as [|x [|y [|z l]]]; cbn [as_tuple numbers tup_eqb]; rewrite ?andb_true_r, ?andb_false_r; auto.
    - cbn [as_tuple numbers tup_eqb]. rewrite !andb_true_r. auto.
    - cbn [as_tuple numbers tup_eqb]. rewrite !andb_false_r. auto.
  Qed.
  Lemma vec_ne_eq (v : vec T) (b : val) : vec_ne_method v b = negb (vec_eq_method v b).
  Proof.
    unfold vec_ne_method, vec_eq_method. destruct (as_tuple b) as [[|x [|y r]]|]; auto.
    rewrite !negb_andb. destruct r; auto.
  Qed.
  Definition eq_symmetric : Prop := forall x y : T, neqb x y = neqb y x.
  Lemma tup_eqb_sym l m : eq_symmetric -> tup_eqb l m = tup_eqb m l.
  Proof. intro sym. revert m. induction l as [|x l IH]; intros [|y m]; cbn; auto. rewrite sym, IH. auto. Qed.
  (** [a == b] by classes *)
  Lemma py_eq_cases (a b : val) : eq_symmetric -> well_formed a -> well_formed b -> py_eq a b =
    match a, b with
    | VNum x, VNum y => Ok (neqb x y)
    | VSeq l, VSeq m | VArr l, VArr m => Ok (seq_eqb l m)
    | VPoly p, VPoly q => poly_eqb p q
    | VBox x, VBox y => Ok (box_eqb x y)
    | VLine x, VLine y => Ok (line_eqb x y)
    | VRay x, VRay y => Ok (ray_eqb x y)
    | VSeg x, VSeg y => Ok (seg_eqb x y)
    | _, _ => match numbers a, numbers b with Some l, Some m => Ok (tup_eqb l m) | _, _ => Ok false end
    end.
  Proof.
    intros sym Wa Wb. destruct a; try contradiction; destruct b; try contradiction; try reflexivity;
      unfold py_eq, protocol; cbn [subclass eq_method]; rewrite ?vec_eq_tup; try reflexivity;
      unfold numbers; cbn [as_tuple numbers]; f_equal; apply tup_eqb_sym; auto.
  Qed.
  Lemma py_ne_eq (a b : val) : well_formed a -> well_formed b -> py_ne a b = rmap negb (py_eq a b).
  Proof.
    intros Wa Wb. destruct a; try contradiction; destruct b; try contradiction;
      unfold py_ne, py_eq, protocol; cbn [subclass eq_method ne_method option_map rmap]; rewrite ?vec_ne_eq; try reflexivity.
  Qed.
End Generic.

Lemma eq_symmetric_R : eq_symmetric (T := R).
Proof.
  intros x y. change (neqb (Num := RNum) x y) with (Reqb x y). change (neqb (Num := RNum) y x) with (Reqb y x).
  unfold Reqb. destruct (Req_EM_T x y), (Req_EM_T y x); auto; congruence.
Qed.
Lemma eq_symmetric_float (L : FloatLib) : eq_symmetric (N := FNum L).
Proof.
  intros x y. change ((x =? y)%float = (y =? x)%float). rewrite !FloatAxioms.eqb_spec. unfold SFeqb.
  assert (Sw : SFcompare (Prim2SF y) (Prim2SF x) = option_map CompOpp (SFcompare (Prim2SF x) (Prim2SF y))).
  { destruct (Prim2SF x) as [[]|[]| |[] mx ex], (Prim2SF y) as [[]|[]| |[] my ey]; try reflexivity; cbn;
      rewrite (Z.compare_antisym ex ey); destruct (ex ?= ey)%Z; cbn; auto;
      change (Pos.compare_cont Eq my mx) with (my ?= mx)%positive; change (Pos.compare_cont Eq mx my) with (mx ?= my)%positive;
      rewrite (Pos.compare_antisym mx my); destruct (mx ?= my)%positive; auto. }
  rewrite Sw. destruct (SFcompare (Prim2SF x) (Prim2SF y)) as [[]|]; auto.
Qed.

Lemma trigrams_ok {T} (l : list (vec T)) : (2 <= length l)%nat -> exists ts, trigrams l = Ok ts.
Proof.
  intro H. destruct (exists_last (l := l)) as (l1 & y & E); [destruct l; cbn in H; [lia|discriminate]|]. subst l. rewrite app_length in H. cbn in H.
  destruct (exists_last (l := l1)) as (k & x & E); [destruct l1; cbn in H; [lia|discriminate]|]. subst l1.
  rewrite <- app_assoc. cbn [app]. unfold trigrams. destruct (py_get_tail k x y) as [-> ->]. cbn [bind].
  destruct (k ++ [x; y]); eauto.
Qed.
Lemma poly_eqb_total {T} {N : Num T} (p q : poly T) : (3 <= length (pverts p))%nat -> exists r, poly_eqb p q = Ok r.
Proof.
  intro H. unfold poly_eqb, poly_eqb_verts. destruct (Nat.eqb_spec (length (pverts p)) (length (pverts q))) as [E|E]; cbn [negb]; eauto.
  destruct (forallb _ _); eauto. destruct (trigrams_ok (pverts p)) as [st ->]; [lia|]. destruct (trigrams_ok (pverts q)) as [ot ->]; [lia|].
  cbn [bind]. destruct (match match_edges _ _ ot with Some oe => _ | None => false end); eauto. destruct (match_edges _ _ (map _ _)); eauto.
Qed.

(** ** C104 *)
Theorem C104_equal : forall (T : Type) (N : Num T), eq_symmetric -> forall a b : @val T, well_formed a -> well_formed b ->
  (py_eq a b = Ok true <-> same_value a b) /\
  ((forall p, a = VPoly p -> (3 <= length (pverts p))%nat) -> exists r, py_eq a b = Ok r) /\
  py_ne a b = rmap negb (py_eq a b).
Proof.
  intros T N sym a b Wa Wb. split; [|split; [|apply py_ne_eq; auto]].
  - rewrite py_eq_cases by auto. split.
    + destruct a; try contradiction; destruct b; try contradiction; cbn [numbers];
        try (intro H; exfalso; discriminate H); intro H;
        try (constructor; first [exact H | apply (f_equal (fun r => match r with Ok x => x | _ => false end)) in H; first [exact H | apply seq_eqb_Forall2; exact H]]);
        eapply SVTuple; try reflexivity; apply (f_equal (fun r => match r with Ok x => x | _ => false end)) in H; apply tup_eqb_iff; exact H.
    + intro H. destruct H as [x y H|a b l m Ha Hb H|l m H|l m H|p q H|x y H|x y H|x y H|x y H]; try (rewrite H; reflexivity); auto;
        try (apply seq_eqb_Forall2 in H; rewrite H; reflexivity).
      apply tup_eqb_iff in H. destruct a; try discriminate Ha; destruct b; try discriminate Hb; rewrite Ha, Hb, H; reflexivity.
  - intro H3. rewrite py_eq_cases by auto.
    destruct a; try contradiction; destruct b; try contradiction; cbn [numbers]; eauto.
    destruct (poly_eqb_total p p0) as [r Hr]; eauto.
Qed.
Print Assumptions C104_equal.

(** Objects whose numbers are ordinary (no NaN); polygons as the constructors make them. *)
Definition ordinary {T} {N : Num T} (D : T -> Prop) (x : @val T) : Prop :=
  match x with
  | VNum n => D n
  | VSeq l | VArr l => Forall (vD (D := D)) l
  | VPoly p => (3 <= length (pverts p))%nat /\ Forall (ord_pt D) (pverts p)
  | VBox b => vD (D := D) (bmin b) /\ vD (D := D) (bmax b)
  | VLine l => D (loffset l) /\ vD (D := D) (ddir (ldn l))
  | VRay r => vD (D := D) (ranchor r) /\ vD (D := D) (ddir (rdn r))
  | VSeg s => vD (D := D) (sanchor s) /\ vD (D := D) (vscale (ddir (sdn s)) (slength s))
  | _ => exists l, numbers x = Some l /\ Forall D l
  end.
Lemma ordinary_wf {T} {N : Num T} D (x : @val T) : ordinary D x -> well_formed x.
Proof. destruct x; cbn; auto; intros (l' & H & _); discriminate. Qed.
Lemma ordinary_numbers {T} {N : Num T} D (x : @val T) l : ordinary D x -> numbers x = Some l -> Forall D l.
Proof. destruct x; cbn [ordinary]; try discriminate; intros (l' & H & F) E; congruence. Qed.
Section TupEquiv.
  Context {T : Type} {N : Num T} {D : T -> Prop} (O : OrdLaws T N D).
  Lemma tup_equiv : equivalence_on (Forall D) tup_eqb.
  Proof using O.
    split; [|split].
    - intros l H. induction H; cbn; auto. rewrite (oeq_refl O), IHForall by auto. auto.
    - intros l o H. revert o. induction H as [|a l Ha Hl IH]; intros [|b o] Ho; auto. inversion Ho; subst. cbn.
      rewrite (oeq_sym O a b), IH by auto. auto.
    - intros l o q H. revert o q. induction H as [|a l Ha Hl IH]; intros [|b o] [|c q] Ho Hq; cbn; auto; try discriminate.
      inversion Ho; inversion Hq; subst. rewrite !andb_true_iff. intros [? ?] [? ?].
      split; [apply (oeq_trans O _ b)|apply (IH o)]; auto.
  Qed.
End TupEquiv.
Lemma py_eq_tup {T} {N : Num T} (a b : @val T) l m : eq_symmetric -> numbers a = Some l -> numbers b = Some m -> py_eq a b = Ok (tup_eqb l m).
Proof.
  intros sym Ha Hb. rewrite py_eq_cases; auto; destruct a; try discriminate Ha; destruct b; try discriminate Hb; try rewrite Ha, Hb; auto; exact I.
Qed.

Theorem C104_equivalence : forall (T : Type) (N : Num T) (D : T -> Prop), OrdLaws T N D -> eq_symmetric -> forall a b c : @val T,
  ordinary D a -> ordinary D b -> ordinary D c ->
  py_eq a a = Ok true /\ py_eq a b = py_eq b a /\
  (py_eq a b = Ok true -> py_eq b c = Ok true -> py_eq a c = Ok true).
Proof.
  intros T N D O sym a b c Ha Hb Hc.
  pose proof (ordinary_wf _ _ Ha) as Wa. pose proof (ordinary_wf _ _ Hb) as Wb. pose proof (ordinary_wf _ _ Hc) as Wc.
  assert (K : forall X (P : X -> Prop) (r : X -> X -> bool), equivalence_on P r -> forall x, P x -> Ok (r x x) = Ok true)
    by (intros X P r (E & _) x Hx; rewrite E; auto).
  assert (KS : forall X (P : X -> Prop) (r : X -> X -> bool), equivalence_on P r -> forall x y, P x -> P y -> Ok (r x y) = Ok (r y x))
    by (intros X P r (_ & E & _) x y Hx Hy; rewrite E; auto).
  assert (KT : forall X (P : X -> Prop) (r : X -> X -> bool), equivalence_on P r -> forall x y z, P x -> P y -> P z ->
    Ok (r x y) = Ok true -> Ok (r y z) = Ok true -> Ok (r x z) = Ok true)
    by (intros X P r (_ & _ & E) x y z Hx Hy Hz A B; f_equal; apply (E x y z); auto; congruence).
  split; [|split].
  - destruct (numbers a) as [l|] eqn:Ea.
    + rewrite (py_eq_tup _ _ l l) by auto. apply (K _ _ _ (tup_equiv O)). exact (ordinary_numbers D a l Ha Ea).
    + rewrite py_eq_cases by auto. destruct a; try discriminate Ea; try contradiction; cbn [ordinary] in Ha.
      * apply (K _ _ _ (num_equiv O)); auto.
      * apply (K _ _ _ (seq_equiv O)); auto. * apply (K _ _ _ (seq_equiv O)); auto.
      * destruct Ha as [A1 A2]. exact (proj1 (C64_equivalence T N D O p p p A1 A1 A1 A2 A2 A2)).
      * apply (K _ _ _ (box_equiv O)); auto. * apply (K _ _ _ (line_equiv O)); auto.
      * apply (K _ _ _ (ray_equiv O)); auto. * apply (K _ _ _ (seg_equiv O)); auto.
  - destruct (numbers a) as [l|] eqn:Ea, (numbers b) as [m|] eqn:Eb.
    + rewrite (py_eq_tup a b l m), (py_eq_tup b a m l) by auto. apply (KS _ _ _ (tup_equiv O)); [exact (ordinary_numbers D a l Ha Ea)|exact (ordinary_numbers D b m Hb Eb)].
    + rewrite !py_eq_cases by auto. rewrite Ea, Eb. destruct a; try discriminate Ea; try contradiction; destruct b; try discriminate Eb; try contradiction; auto.
    + rewrite !py_eq_cases by auto. rewrite Ea, Eb. destruct a; try discriminate Ea; destruct b; try discriminate Eb; auto.
    + rewrite !py_eq_cases by auto. rewrite Ea, Eb. destruct a; try discriminate Ea; try contradiction; destruct b; try discriminate Eb; try contradiction; auto; cbn [ordinary] in Ha, Hb.
      * apply (KS _ _ _ (num_equiv O)); auto.
      * apply (KS _ _ _ (seq_equiv O)); auto. * apply (KS _ _ _ (seq_equiv O)); auto.
      * destruct Ha as [A1 A2], Hb as [B1 B2]. exact (proj1 (proj2 (C64_equivalence T N D O p p0 p A1 B1 A1 A2 B2 A2))).
      * apply (KS _ _ _ (box_equiv O)); auto. * apply (KS _ _ _ (line_equiv O)); auto.
      * apply (KS _ _ _ (ray_equiv O)); auto. * apply (KS _ _ _ (seg_equiv O)); auto.
  - destruct (numbers a) as [l|] eqn:Ea.
    + destruct (numbers b) as [m|] eqn:Eb.
      * destruct (numbers c) as [n|] eqn:Ec.
        -- rewrite (py_eq_tup a b l m), (py_eq_tup b c m n), (py_eq_tup a c l n) by auto. apply (KT _ _ _ (tup_equiv O)); [exact (ordinary_numbers D a l Ha Ea)|exact (ordinary_numbers D b m Hb Eb)|exact (ordinary_numbers D c n Hc Ec)].
        -- intros _. rewrite (py_eq_cases b c) by auto. rewrite Eb, Ec. destruct b; try discriminate Eb; destruct c; try discriminate Ec; intro H; discriminate H.
      * rewrite (py_eq_cases a b) by auto. rewrite Ea, Eb. destruct a; try discriminate Ea; destruct b; try discriminate Eb; intro H; discriminate H.
    + rewrite !py_eq_cases by auto. rewrite Ea. destruct a; try discriminate Ea; try contradiction; destruct b; try contradiction; try (intro H; discriminate H);
        destruct c; try contradiction; try (intros _ H; discriminate H); cbn [ordinary] in Ha, Hb, Hc.
      * apply (KT _ _ _ (num_equiv O)); auto.
      * apply (KT _ _ _ (seq_equiv O)); auto. * apply (KT _ _ _ (seq_equiv O)); auto.
      * destruct Ha as [A1 A2], Hb as [B1 B2], Hc as [C1 C2]. exact (proj1 (proj2 (proj2 (C64_equivalence T N D O p p0 p1 A1 B1 C1 A2 B2 C2)))).
      * apply (KT _ _ _ (box_equiv O)); auto. * apply (KT _ _ _ (line_equiv O)); auto.
      * apply (KT _ _ _ (ray_equiv O)); auto. * apply (KT _ _ _ (seg_equiv O)); auto.
Qed.
Print Assumptions C104_equivalence.

(** ** Orderings *)
(** Two numbers, two vectors, or a plain tuple with a tuple, Vec2 or Affine. *)
Definition orderable {T} {N : Num T} (a b : @val T) : Prop :=
  (exists x y, a = VNum x /\ b = VNum y) \/ (exists v w, a = VVec v /\ b = VVec w) \/
  ((plain a \/ plain b) /\ exists l m, numbers a = Some l /\ numbers b = Some m).
Theorem C104_unorderable : forall (T : Type) (N : Num T) (c : cmp) (a b : @val T), well_formed a -> well_formed b ->
  (orderable a b -> exists r, py_cmp c a b = Ok r) /\ (~ orderable a b -> py_cmp c a b = Err TypeError).
Proof.
  intros T N c a b Wa Wb. split.
  - intros [(x & y & -> & ->)|[(v & w & -> & ->)|(P & l & m & Ha & Hb)]]; try (eexists; reflexivity).
    destruct a; try discriminate Ha; destruct b; try discriminate Hb; try (cbn in P; tauto); eexists; reflexivity.
  - intro U. destruct a; try contradiction; destruct b; try contradiction; try reflexivity; exfalso; apply U; unfold orderable;
      first [left; do 2 eexists; split; reflexivity | right; left; do 2 eexists; split; reflexivity
            | right; right; split; [cbn; tauto|do 2 eexists; split; reflexivity]].
Qed.
Print Assumptions C104_unorderable.
(** Without plain tuples, only numbers and vectors can be ordered, as the
    docstrings of Vec2's comparisons and Affine's overrides intend ... *)
Theorem C104_unorderable_partial : forall (T : Type) (N : Num T) (c : cmp) (a b : @val T), well_formed a -> well_formed b ->
  ~ plain a -> ~ plain b ->
  ((exists x y, a = VNum x /\ b = VNum y) \/ (exists v w, a = VVec v /\ b = VVec w)) \/ py_cmp c a b = Err TypeError.
Proof.
  intros T N c a b Wa Wb Pa Pb. destruct a; try contradiction; try (exfalso; apply Pa; exact I);
    destruct b; try contradiction; try (exfalso; apply Pb; exact I); try (right; reflexivity); left; [left|right]; do 2 eexists; split; reflexivity.
Qed.
Print Assumptions C104_unorderable_partial.

(** First difference decides; a proper prefix is smaller. *)
Definition lex (l m : list R) : Prop :=
  (exists k x y l' m', l = k ++ x :: l' /\ m = k ++ y :: m' /\ x < y) \/ (exists y m', m = l ++ y :: m').
Lemma lex_cons_eq x l m : lex (x :: l) (x :: m) <-> lex l m.
Proof.
  split.
  - intros [(k & a & b & l' & m' & E1 & E2 & H)|(y & m' & E)].
    + destruct k as [|z k]; cbn in E1, E2; injection E1 as -> ->; injection E2; intros; subst; [lra|]. left. exists k, a, b, l', m'. auto.
    + injection E as E. right. eauto.
  - intros [(k & a & b & l' & m' & -> & -> & H)|(y & m' & ->)]; [left; exists (x :: k), a, b, l', m'; auto|right; exists y, m'; auto].
Qed.
Lemma lex_cons_ne x y l m : x <> y -> (lex (x :: l) (y :: m) <-> x < y).
Proof.
  intro N. split.
  - intros [(k & a & b & l' & m' & E1 & E2 & H)|(z & m' & E)].
    + destruct k as [|z k]; cbn in E1, E2; injection E1; injection E2; intros; subst; [auto|congruence].
    + injection E; intros; congruence.
  - intro H. left. exists [], x, y, l, m. auto.
Qed.
Lemma lex_nil_l m : lex [] m <-> m <> [].
Proof.
  split.
  - intros [(k & a & b & l' & m' & E1 & _)|(y & m' & ->)]; [destruct k; discriminate|discriminate].
  - intro H. destruct m as [|y m]; [congruence|]. right. exists y, m. auto.
Qed.
Lemma lex_nil_r l : ~ lex l [].
Proof. intros [(k & a & b & l' & m' & _ & E & _)|(y & m' & E)]; [destruct k|destruct l]; discriminate. Qed.
Definition ordered (c : cmp) (x y : R) : Prop :=
  match c with CLt => x < y | CLe => x <= y | CGt => x > y | CGe => x >= y end.
Definition lex_ordered (c : cmp) (l m : list R) : Prop :=
  match c with CLt => lex l m | CLe => lex l m \/ l = m | CGt => lex m l | CGe => lex m l \/ l = m end.
Lemma num_cmp_R c x y : num_cmp c x y = true <-> ordered c x y.
Proof.
  destruct c; cbn [num_cmp ordered].
  - apply Rltb_true. - apply Rleb_true. - rewrite Rltb_true. split; lra. - rewrite Rleb_true. split; lra.
Qed.
Lemma tup_cmp_lex c l : forall m, tup_cmp c l m = true <-> lex_ordered c l m.
Proof.
  induction l as [|x l IH]; intros [|y m]; cbn [tup_cmp].
  - assert (L := lex_nil_r []). destruct c; cbn; intuition discriminate.
  - assert (L := lex_nil_r (y :: m)). assert (L' : lex [] (y :: m)) by (apply lex_nil_l; discriminate). destruct c; cbn; intuition discriminate.
  - assert (L := lex_nil_r (x :: l)). assert (L' : lex [] (x :: l)) by (apply lex_nil_l; discriminate). destruct c; cbn; intuition discriminate.
  - change (neqb (Num := RNum) x y) with (Reqb x y). unfold Reqb. destruct (Req_EM_T x y) as [->|Ne].
    + rewrite IH. destruct c; cbn [lex_ordered]; rewrite ?lex_cons_eq; try tauto; (split; intros [H|H]; [auto|right; congruence|auto|right; congruence]).
    + rewrite num_cmp_R. destruct c; cbn [ordered lex_ordered]; rewrite ?lex_cons_ne by auto; try reflexivity; (split; [intro; left; lra|]); intros [H|H]; try lra; congruence.
Qed.
Lemma norm_ordered (v w : pt) c : vec_cmp c v w = true <-> ordered c (norm v) (norm w).
Proof.
  assert (Hv := norm_sq v). assert (Hw := norm_sq w). assert (Pv := norm_nonneg v). assert (Pw := norm_nonneg w).
  assert (Sv : length2 v = norm v * norm v) by (unfold length2; rnum; lra).
  assert (Sw : length2 w = norm w * norm w) by (unfold length2; rnum; lra).
  destruct c; cbn [vec_cmp ordered]; unfold vec_lt, vec_le, vec_gt, vec_ge; rewrite Sv, Sw.
  - change (Rltb (norm v * norm v) (norm w * norm w) = true <-> norm v < norm w). rewrite Rltb_true. split; intro; nra.
  - change (Rleb (norm v * norm v) (norm w * norm w) = true <-> norm v <= norm w). rewrite Rleb_true. split; intro; nra.
  - change (Rltb (norm w * norm w) (norm v * norm v) = true <-> norm v > norm w). rewrite Rltb_true. split; intro; nra.
  - change (Rleb (norm w * norm w) (norm v * norm v) = true <-> norm v >= norm w). rewrite Rleb_true. split; intro; nra.
Qed.
Lemma tup_cmp_reflected c l m : tup_cmp (reflected c) m l = tup_cmp (N := RNum) c l m.
Proof.
  destruct (tup_cmp c l m) eqn:E.
  - apply tup_cmp_lex in E. apply tup_cmp_lex. destruct c; cbn in *; auto; destruct E; auto.
  - apply not_true_iff_false. intro H. apply tup_cmp_lex in H. apply not_true_iff_false in E. apply E. apply tup_cmp_lex.
    destruct c; cbn in *; auto; destruct H; auto.
Qed.
Theorem C104_order : forall (c : cmp),
  (forall x y : R, py_cmp c (VNum x) (VNum y) = Ok true <-> ordered c x y) /\
  (forall v w : pt, py_cmp c (VVec v) (VVec w) = Ok true <-> ordered c (norm v) (norm w)) /\
  (forall (a b : @val R) l m, plain a \/ plain b -> numbers a = Some l -> numbers b = Some m ->
     (py_cmp c a b = Ok true <-> lex_ordered c l m)).
Proof.
  intro c. split; [|split].
  - intros x y. change (py_cmp c (VNum x) (VNum y)) with (@Ok bool (num_cmp c x y)). rewrite <- num_cmp_R. split; congruence.
  - intros v w. change (py_cmp c (VVec v) (VVec w)) with (@Ok bool (vec_cmp c v w)). rewrite <- norm_ordered. split; congruence.
  - intros a b l m P Ha Hb. rewrite <- tup_cmp_lex.
    assert (E : py_cmp c a b = Ok (tup_cmp c l m)).
    { destruct a; try discriminate Ha; destruct b; try discriminate Hb; try (cbn in P; tauto); injection Ha as <-; injection Hb as <-; try reflexivity;
        rewrite <- tup_cmp_reflected; reflexivity. }
    rewrite E. split; congruence.
Qed.
Print Assumptions C104_order.
(** ... but a Vec2 or an Affine compared with a plain tuple is compared entry
    by entry, silently: (1,0) is then greater than (0,5), although it is
    shorter. *)
Theorem C104_unorderable_refuted :
  (exists (v w : pt), py_cmp CGt (VVec v) (VTup [vx w; vy w]) = Ok true /\ py_cmp CGt (VVec v) (VVec w) = Ok false /\ norm v < norm w) /\
  (exists (m : affine R) l, py_cmp CLt (VAff m) (VTup l) = Ok true).
Proof.
  split.
  - exists (mkV 1 0), (mkV 0 5). assert (H : norm (mkV 1 0) < norm (mkV 0 5)).
    { assert (A := norm_sq (mkV 1 0)). assert (B := norm_sq (mkV 0 5)). cbn [vx vy] in A, B.
      assert (P := norm_nonneg (mkV 0 5)). assert (Q := norm_nonneg (mkV 1 0)). nra. }
    split; [|split; auto].
    + apply (C104_order CGt) with (l := [1; 0]) (m := [0; 5]); [right; exact I|reflexivity|reflexivity|]. left. exists [], 0, 1, [5], [0]. split; [auto|split; [auto|lra]].
    + change (py_cmp CGt (VVec (mkV 1 0)) (VVec (mkV 0 5))) with (@Ok bool (vec_cmp CGt (mkV 1 0) (mkV 0 5))). f_equal. apply not_true_iff_false. rewrite norm_ordered. cbn [ordered]. lra.
  - exists (mkA 1 0 0 0 1 0), [2]. apply (C104_order CLt) with (l := [1; 0; 0; 0; 1; 0; 0; 0; 1]) (m := [2]); [right; exact I|reflexivity|reflexivity|].
    left. exists [], 1, 2, [0; 0; 0; 1; 0; 0; 0; 1], []. split; [auto|split; [auto|lra]].
Qed.
Print Assumptions C104_unorderable_refuted.

(** ** Hashes and truth values *)
Theorem C104_hash : forall (T : Type) (N : Num T) (H : Type) (num_hash : T -> H) (combine : list H -> H), eq_symmetric ->
  (forall x y, neqb x y = true -> num_hash x = num_hash y) -> forall a b : @val T, well_formed a -> well_formed b ->
  (py_eq a b = Ok true -> py_hash num_hash combine a = py_hash num_hash combine b) /\
  (match a with VNum _ | VTup _ | VVec _ | VAff _ => exists h, py_hash num_hash combine a = Ok h | _ => py_hash num_hash combine a = Err TypeError end).
Proof.
  intros T N H nh cb sym HH a b Wa Wb. split; [|destruct a; try contradiction; try reflexivity; eexists; reflexivity].
  intro E. apply (proj1 (C104_equal T N sym a b Wa Wb)) in E.
  destruct E as [x y E|a b l m Ha Hb E|l m E|l m E|p q E|x y E|x y E|x y E|x y E]; try reflexivity.
  - cbn [py_hash]. f_equal. auto.
  - assert (M : map nh l = map nh m) by (clear - E HH; induction E; cbn; auto; rewrite IHE; f_equal; auto).
    assert (K : forall (x : @val T) k, numbers x = Some k -> py_hash nh cb x = Ok (cb (map nh k)))
      by (intros x k Hx; destruct x; try discriminate Hx; injection Hx as <-; reflexivity).
    rewrite (K a l Ha), (K b m Hb), M. auto.
Qed.
Print Assumptions C104_hash.

Theorem C104_truth : forall x : @val R,
  py_bool x = false <->
  x = VNum 0 \/ x = VTup [] \/ x = VVec (mkV 0 0) \/ x = VSeq [] \/ x = VArr [] \/ exists p, x = VPoly p /\ pverts p = [].
Proof.
  intro x. destruct x as [x|l|v|l|l|p|m|b|l|r|s|a b|l]; cbn [py_bool];
    try (split; [discriminate|]; intros [H|[H|[H|[H|[H|(p & H & _)]]]]]; discriminate).
  - unfold nfalsy. rewrite negb_false_iff. change (neqb (Num := RNum) x n0) with (Reqb x 0). rewrite Reqb_true. split; [intros ->; auto|].
    intros [H|[H|[H|[H|[H|(p & H & _)]]]]]; try discriminate. injection H; auto.
  - rewrite negb_false_iff. split; [destruct l; [auto|discriminate]|]. intros [H|[H|[H|[H|[H|(p & H & _)]]]]]; try discriminate. injection H as ->. auto.
  - rewrite orb_false_iff, !negb_false_iff. change (neqb (Num := RNum) (vx v) n0) with (Reqb (vx v) 0). change (neqb (Num := RNum) (vy v) n0) with (Reqb (vy v) 0).
    rewrite !Reqb_true. split.
    + intros [H1 H2]. right; right; left. destruct v as [a b]; cbn [vx vy] in *; subst; auto.
    + intros [H|[H|[H|[H|[H|(p & H & _)]]]]]; try discriminate. injection H as ->. auto.
  - rewrite negb_false_iff. split; [destruct l; [auto|discriminate]|]. intros [H|[H|[H|[H|[H|(p & H & _)]]]]]; try discriminate. injection H as ->. auto.
  - rewrite negb_false_iff. split; [destruct l; [auto 6|discriminate]|]. intros [H|[H|[H|[H|[H|(p & H & _)]]]]]; try discriminate. injection H as ->. auto.
  - rewrite negb_false_iff. split.
    + destruct (pverts p) eqn:E; [|discriminate]. intros _. do 5 right. eauto.
    + intros [H|[H|[H|[H|[H|(q & H & E)]]]]]; try discriminate. injection H as ->. rewrite E. auto.
Qed.
Print Assumptions C104_truth.

Definition C104_R := C104_equivalence R RNum (fun _ => True) R_ordlaws eq_symmetric_R.
Definition C104_float (L : FloatLib) := C104_equivalence float (FNum L) not_nan (float_ordlaws L) (eq_symmetric_float L).
(** A Vec2 equals a tuple of its coordinates and hashes alike; a Seq2 never
    equals a Vec2Array of the same points; a ray cannot be ordered. *)
Example C104_ex : forall (num_hash : R -> Z) (combine : list Z -> Z),
  ordinary (fun _ => True) (VVec (mkV 1 2)) /\ ordinary (fun _ => True) (VTup [1; 2]) /\
  py_eq (VVec (mkV 1 2)) (VTup [1; 2]) = Ok true /\ py_eq (VTup [1; 2]) (VVec (mkV 1 2)) = Ok true /\
  py_hash num_hash combine (VVec (mkV 1 2)) = py_hash num_hash combine (VTup [1; 2]) /\
  py_eq (VSeq [mkV 1 2]) (VArr [mkV 1 2]) = Ok false /\ py_ne (VSeq [mkV 1 2]) (VArr [mkV 1 2]) = Ok true /\
  py_cmp CLt (VSeq [mkV 1 2]) (VSeq [mkV 1 2]) = Err TypeError /\ orderable (VTup [1]) (VTup [2]) /\ ~ orderable (VNum 1) (VTup [2]).
Proof.
  intros nh cb.
  assert (Sv : same_value (VVec (mkV 1 2)) (VTup [1; 2])).
  { eapply SVTuple; try reflexivity. repeat constructor; apply Reqb_true; auto. }
  assert (Sv' : same_value (VTup [1; 2]) (VVec (mkV 1 2))).
  { eapply SVTuple; try reflexivity. repeat constructor; apply Reqb_true; auto. }
  split; [exists [1; 2]; split; auto|]. split; [exists [1; 2]; split; auto|].
  split; [apply (proj1 (C104_equal R RNum eq_symmetric_R (VVec (mkV 1 2)) (VTup [1; 2]) I I)); auto|].
  split; [apply (proj1 (C104_equal R RNum eq_symmetric_R (VTup [1; 2]) (VVec (mkV 1 2)) I I)); auto|].
  split; [reflexivity|]. split; [reflexivity|]. split; [reflexivity|]. split; [reflexivity|]. split.
  - right; right. split; [left; exact I|]. do 2 eexists. split; reflexivity.
  - intros [(x & y & _ & H)|[(x & y & H & _)|(_ & l & m & H & _)]]; discriminate.
Qed.
