(** * Properties C81, C82: operators between objects of different classes *)
From Coq Require Import ZArith List Bool Reals Lra Lia.
From Verif Require Import Num Vec Affine Box Line Seq Polygon BoxPoly Dispatch RBase SpecGeom SpecAffine AffineFacts SeqFacts LineFacts3.
Import ListNotations.

Section Laws.
  Context {T : Type} {N : Num T}.
  Variable E : T.
  Notation V := (vec T).
  Notation "a '[' o ']' b" := (binop E o a b) (at level 50).

  (** sum and product of two vectors, written out *)
  Definition comp (o : op) (a b : V) : V :=
    match o with
    | OAdd => mkV (nadd (vx a) (vx b)) (nadd (vy a) (vy b))
    | _ => mkV (nmul (vx a) (vx b)) (nmul (vy a) (vy b))
    end.
  Definition commuting (o : op) : Prop := o = OAdd \/ o = OMul.

  Lemma mapM_ok {X Y} (f : X -> Y) l : mapM (fun x => Ok (f x)) l = Ok (map f l).
  Proof using Type. induction l as [|a l IH]; cbn; auto. rewrite IH. auto. Qed.
  Lemma vec_vec_comp o a b : commuting o -> vec_vec o a b = Ok (comp o a b).
  Proof using Type. intros [-> | ->]; reflexivity. Qed.
  Lemma mapM_ext {X Y} (f g : X -> res Y) l : (forall x, f x = g x) -> mapM f l = mapM g l.
  Proof using Type. intro H. induction l as [|a l IH]; cbn; auto. rewrite H, IH. auto. Qed.
  Lemma zip_comp o l m : commuting o -> length l = length m ->
    zip_with (vec_vec o) l m = Ok (map (fun ab => comp o (fst ab) (snd ab)) (combine l m)).
  Proof using Type.
    intros Ho H. unfold zip_with. rewrite H, Nat.eqb_refl.
    rewrite <- (mapM_ok (fun ab => comp o (fst ab) (snd ab))). apply mapM_ext. intros [a b]. apply vec_vec_comp; auto.
  Qed.
  Lemma arr_vec o l b : commuting o -> arr_fwd o l (VVec b) = Some (Ok (VArr (map (fun a => comp o a (vec2_of b)) l))).
  Proof using Type.
    intro Ho. unfold arr_fwd. destruct Ho as [-> | ->]; cbn [as_operand as_seq vec2_star unpack2].
    - rewrite <- (mapM_ok (fun a => comp OAdd a (vec2_of b)) l) || idtac. cbn. f_equal.
      rewrite (mapM_ok (fun a => vadd a (vec2_of b))). reflexivity.
    - f_equal. cbn. rewrite (mapM_ok (fun a => vmul a (vec2_of b))). reflexivity.
  Qed.
  Lemma unpack_len (l : list V) : length l <> 2%nat -> unpack2 (VArr l) = UFail.
  Proof using Type. destruct l as [|a [|b [|c l]]]; cbn; auto. intro H. congruence. Qed.
End Laws.

(** ** C81 *)
(** One vector or pair with every element of an array, from either side, for
    arrays that do not have exactly two elements. *)
Theorem C81_vector_array_partial : forall (T : Type) (N : Num T) (E : T) (o : op) (l : list (vec T)) (v : vec T),
  commuting o -> length l <> 2%nat ->
  let r := Ok (VArr (map (fun a => comp o a (mkV (nmul (vx v) n1) (nmul (vy v) n1))) l)) in
  binop E o (VArr l) (VVec v) = r /\ binop E o (VVec v) (VArr l) = r.
Proof.
  intros T N E o l v Ho Hl r. subst r.
  assert (H1 : binop E o (VArr l) (VVec v) = Ok (VArr (map (fun a => comp o a (mkV (nmul (vx v) n1) (nmul (vy v) n1))) l))).
  { unfold binop. cbn [fwd]. rewrite arr_vec by auto. reflexivity. }
  split; auto. unfold binop. cbn [fwd].
  assert (H2 : vec_fwd o v (VArr l) = None).
  { unfold vec_fwd. rewrite unpack_len by auto. destruct Ho as [-> | ->]; reflexivity. }
  rewrite H2. cbn [same_class rev].
  assert (H3 : arr_rev o l (VVec v) = arr_fwd o l (VVec v)) by (destruct Ho as [-> | ->]; reflexivity).
  rewrite H3, arr_vec by auto. reflexivity.
Qed.
Print Assumptions C81_vector_array_partial.

(** Array first, plain pairs and scalars work for every length. *)
Theorem C81_array_pair_scalar : forall (T : Type) (N : Num T) (E : T) (o : op) (l : list (vec T)) (x y s : T),
  commuting o ->
  (let r := Ok (VArr (map (fun a => comp o a (mkV (nmul x n1) (nmul y n1))) l)) in
   binop E o (VArr l) (VVec (mkV x y)) = r /\ binop E o (VArr l) (VTup [x; y]) = r /\ binop E o (VTup [x; y]) (VArr l) = r) /\
  (let r := Ok (VArr (map (fun a => mkV (nmul (vx a) s) (nmul (vy a) s)) l)) in
   binop E OMul (VArr l) (VNum s) = r /\ binop E OMul (VNum s) (VArr l) = r).
Proof.
  intros T N E o l x y s Ho. split.
  - assert (K : arr_fwd o l (VTup [x; y]) = arr_fwd o l (VVec (mkV x y))) by (destruct Ho as [-> | ->]; reflexivity).
    intro r. unfold binop. cbn [fwd same_class rev]. rewrite K, !arr_vec by auto.
    split; [reflexivity|]. split; [reflexivity|].
    assert (H3 : arr_rev o l (VTup [x; y]) = arr_fwd o l (VTup [x; y])) by (destruct Ho as [-> | ->]; reflexivity).
    rewrite H3, K, arr_vec by auto. reflexivity.
  - intro r. unfold binop. cbn [fwd num_fwd same_class rev arr_rev].
    assert (H : arr_fwd OMul l (VNum s) = Some r).
    { unfold arr_fwd. cbn. rewrite (mapM_ok (fun a => vscale a s)). reflexivity. }
    rewrite H. auto.
Qed.
Print Assumptions C81_array_pair_scalar.

(** The full statement fails for every array of two elements: the vector
    unpacks the array as if it were a pair of numbers. *)
Theorem C81_vector_array_refuted : forall (T : Type) (N : Num T) (E : T) (v a b : vec T),
  binop E OAdd (VVec v) (VArr [a; b]) = Err TypeError /\
  (exists x y, binop E OMul (VVec v) (VArr [a; b]) = Ok (VBad x y)) /\
  (exists l, binop E OAdd (VArr [a; b]) (VVec v) = Ok (VArr l)) /\
  (exists l, binop E OMul (VArr [a; b]) (VVec v) = Ok (VArr l)).
Proof.
  intros. split; [reflexivity|]. split; [cbn; eauto|]. split; cbn; eauto.
Qed.
Print Assumptions C81_vector_array_refuted.

(** Two sequences: elementwise, the result has the class of the operand that
    is not a Vec2Array; unequal lengths are a ValueError. *)
Theorem C81_two_sequences : forall (T : Type) (N : Num T) (E : T) (o : op) (l : list (vec T)) (x : val T)
    (m : list (vec T)) (build : list (vec T) -> val T),
  commuting o -> as_seq x = Some (m, build) ->
  (length l = length m ->
     binop E o (VArr l) x = Ok (build (map (fun ab => comp o (fst ab) (snd ab)) (combine l m))) /\
     ((forall l', x <> VArr l') -> binop E o x (VArr l) = binop E o (VArr l) x)) /\
  (length l <> length m -> binop E o (VArr l) x = Err ValueError /\ binop E o x (VArr l) = Err ValueError).
Proof.
  intros T N E o l x m build Ho Hx.
  assert (Hf : arr_fwd o l x = Some (rmap build (zip_with (vec_vec o) l m))).
  { unfold arr_fwd. assert (as_operand o x = Some (m, build)) as -> by (destruct Ho as [-> | ->]; auto). reflexivity. }
  assert (Hr : arr_rev o l x = arr_fwd o l x) by (destruct Ho as [-> | ->]; reflexivity).
  assert (Hrev : (forall l', x <> VArr l') -> binop E o x (VArr l) = rmap build (zip_with (vec_vec o) l m)).
  { intro Hn. unfold binop. assert (fwd E o x (VArr l) = None) as -> by (destruct x; try discriminate; try reflexivity; exfalso; eapply Hn; reflexivity).
    assert (same_class x (VArr l) = false) as -> by (destruct x; try discriminate; try reflexivity; exfalso; eapply Hn; reflexivity).
    cbn [rev]. rewrite Hr, Hf. reflexivity. }
  assert (Hfw : binop E o (VArr l) x = rmap build (zip_with (vec_vec o) l m)) by (unfold binop; cbn [fwd]; rewrite Hf; reflexivity).
  split.
  - intro H. split; [rewrite Hfw, zip_comp by auto; reflexivity|]. intro Hn. rewrite Hrev, Hfw by auto. auto.
  - intro H. apply Nat.eqb_neq in H. split.
    + rewrite Hfw. unfold zip_with. rewrite H. reflexivity.
    + destruct x; try discriminate Hx.
      * rewrite Hrev by discriminate. unfold zip_with. rewrite H. reflexivity.
      * cbn in Hx. injection Hx as <- <-. unfold binop. cbn [fwd]. unfold arr_fwd.
        assert (as_operand o (VArr l) = Some (l, VArr)) as -> by (destruct Ho as [-> | ->]; auto).
        unfold zip_with. rewrite Nat.eqb_sym, H. reflexivity.
      * rewrite Hrev by discriminate. unfold zip_with. rewrite H. reflexivity.
Qed.
Print Assumptions C81_two_sequences.

(** No operator builds a malformed vector, unless a sequence of exactly two
    vectors is an operand. *)
Definition not_two {T} (x : val T) : Prop :=
  match x with
  | VSeq l | VArr l => length l <> 2%nat
  | VPoly p => length (pverts p) <> 2%nat
  | _ => True
  end.
Definition unpacks_numbers {T} (x : val T) : Prop := forall a b, unpack2 x <> UVecs a b.
Lemma not_two_unpack {T} (x : val T) : well_formed x -> not_two x -> unpacks_numbers x.
Proof.
  intros W H a b. destruct x as [x|l|v|l|l|p|m|c|l|r|s|a' b'|l]; cbn in *; try discriminate; try contradiction.
  - destruct l as [|? [|? [|? l]]]; discriminate.
  - destruct l as [|? [|? [|? l]]]; try discriminate. cbn in H; congruence.
  - destruct l as [|? [|? [|? l]]]; try discriminate. cbn in H; congruence.
  - destruct (pverts p) as [|? [|? [|? l]]]; try discriminate. cbn in H; congruence.
Qed.
Definition good {T} (r : res (val T)) : Prop := forall x, r = Ok x -> well_formed x.
Definition good_reply {T} (r : option (res (val T))) : Prop := forall x, r = Some x -> good x.
Section Good.
  Context {T : Type} {N : Num T}.
  Variable E : T.
  Lemma good_rmap {X} (f : X -> val T) r : (forall x, well_formed (f x)) -> good (rmap f r).
  Proof using Type. intros H y Hy. destruct r; cbn in Hy; [|discriminate]. injection Hy as <-. auto. Qed.
  Lemma good_err e : good (@Err (val T) e). Proof using Type. intros x H; discriminate. Qed.
  Lemma good_ok x : well_formed x -> good (@Ok (val T) x).
  Proof using Type. intros H y Hy. injection Hy as <-. auto. Qed.
  Lemma some_good (r : res (val T)) : good r -> good_reply (T := T) (Some r).
  Proof using Type. intros H x Hx. injection Hx as <-. auto. Qed.
  Lemma none_good : good_reply (T := T) None. Proof using Type. intros x H; discriminate. Qed.
  Ltac gd := repeat match goal with
    | |- good_reply (Some _) => apply some_good
    | |- good_reply None => apply none_good
    | |- good (Err _) => apply good_err
    | |- good (Ok _) => apply good_ok; exact I
    | |- good (rmap _ _) => apply good_rmap; intro; exact I
    end.
  Lemma vec_fwd_good o v x : unpacks_numbers x -> good_reply (vec_fwd o v x).
  Proof using Type.
    intro H. unfold vec_fwd.
    assert (G : good_reply (match unpack2 x with
      | UNums w => Some (rmap VVec (vec_vec o v w))
      | UVecs a b => Some (rmap (fun p => VBad (fst p) (snd p)) (vec_bad o v a b))
      | UFail => None end)).
    { destruct (unpack2 x) eqn:U; gd. exfalso; eapply H; eauto. }
    destruct o; auto; destruct x; auto; gd.
  Qed.
  Lemma vec_rev_good o v x : unpacks_numbers x -> good_reply (vec_rev o v x).
  Proof using Type.
    intro H. assert (G : forall o', good_reply (match x with
        | VNum s => Some (rmap VVec (num_vec o' s v))
        | _ => match unpack2 x with
            | UNums w => Some (rmap VVec (vec_vec o' w v))
            | UVecs a b => Some (let* x := vec_num o' a (vx v) in let* y := vec_num o' b (vy v) in Ok (VBad x y))
            | UFail => None end end)).
    { intro o'. assert (good_reply (match unpack2 x with
            | UNums w => Some (rmap VVec (vec_vec o' w v))
            | UVecs a b => Some (let* x := vec_num o' a (vx v) in let* y := vec_num o' b (vy v) in Ok (VBad x y))
            | UFail => None end)).
      { destruct (unpack2 x) eqn:U; gd. exfalso; eapply H; eauto. }
      destruct x; auto; gd. }
    destruct o; cbn [vec_rev]; gd; try apply vec_fwd_good; auto; apply G.
  Qed.
  Lemma as_seq_build x m build : as_seq x = Some (m, build) -> forall l, well_formed (T := T) (build l).
  Proof using Type. destruct x; cbn; try discriminate; intros H l'; injection H as <- <-; exact I. Qed.
  Lemma as_operand_build o x m build : as_operand o x = Some (m, build) -> forall l, well_formed (T := T) (build l).
  Proof using Type.
    destruct o; cbn; try apply as_seq_build; destruct x; try discriminate; intros H l'; injection H as <- <-; exact I.
  Qed.
  Lemma arr_fwd_good o l x : unpacks_numbers x -> good_reply (arr_fwd o l x).
  Proof using Type.
    intro H. unfold arr_fwd. destruct (as_operand o x) as [[m build]|] eqn:A.
    - apply some_good, good_rmap. eapply as_operand_build; eauto.
    - assert (G : good_reply (match vec2_star x with
          | UNums b => Some (rmap VArr (mapM (fun a => vec_vec o a b) l))
          | UVecs a b => Some (each_bad o l a b)
          | UFail => None end)).
      { unfold vec2_star. destruct (unpack2 x) eqn:U; gd. exfalso; eapply H; eauto. }
      destruct o; auto; destruct x; auto; gd.
  Qed.
  Lemma arr_rev_good o l x : unpacks_numbers x -> good_reply (arr_rev o l x).
  Proof using Type.
    intro H. unfold arr_rev. destruct o; try (apply arr_fwd_good; auto);
      (destruct (as_seq x) as [[m build]|] eqn:A; gd; apply good_rmap; eapply as_seq_build; eauto).
  Qed.
  Lemma aff_fwd_good o m x : good_reply (aff_fwd E o m x).
  Proof using Type.
    destruct o; cbn [aff_fwd]; gd. destruct x as [x|l|v|l|l|p|n|c|l|r|s|a' b'|l]; gd.
    destruct l as [|? [|? [|? l]]]; gd.
  Qed.
  Lemma box_reply_good o b x : good_reply (box_reply E o b x).
  Proof using Type.
    destruct o; cbn [box_reply]; gd. destruct x; gd. apply good_rmap. intros [c|p]; exact I.
  Qed.
  Lemma binop_good o a b : well_formed a -> well_formed b -> not_two a -> not_two b -> good (binop E o a b).
  Proof using Type.
    intros Wa Wb Na Nb. pose proof (not_two_unpack _ Wa Na) as Ua. pose proof (not_two_unpack _ Wb Nb) as Ub.
    assert (F : good_reply (fwd E o a b)).
    { destruct a; cbn [fwd]; gd.
      - unfold num_fwd. destruct b; gd. destruct o; gd.
      - apply vec_fwd_good; auto.
      - apply arr_fwd_good; auto.
      - apply aff_fwd_good.
      - apply box_reply_good. }
    assert (R : good_reply (rev E o b a)).
    { destruct b; cbn [rev]; gd.
      - apply vec_rev_good; auto.
      - apply arr_rev_good; auto.
      - unfold aff_rev. destruct o; gd. apply aff_fwd_good.
      - apply box_reply_good. }
    unfold binop. destruct (fwd E o a b) as [r|]; [apply F; auto|].
    assert (R' : good_reply (if same_class a b then None else rev E o b a)) by (destruct (same_class a b); gd; auto).
    destruct (if same_class a b then None else rev E o b a) as [r|]; [apply R'; auto|].
    destruct o; gd. destruct a; gd. destruct (as_tuple b); gd.
  Qed.
End Good.
Theorem C81_no_malformed_partial : forall (T : Type) (N : Num T) (E : T) (o : op) (a b r : val T),
  well_formed a -> well_formed b -> not_two a -> not_two b -> binop E o a b = Ok r -> well_formed r.
Proof. intros T N E o a b r Wa Wb Na Nb H. exact (binop_good E o a b Wa Wb Na Nb r H). Qed.
Print Assumptions C81_no_malformed_partial.
Theorem C81_no_malformed_refuted : forall (T : Type) (N : Num T) (E : T) (v a b : vec T),
  (exists r, binop E OMul (VVec v) (VArr [a; b]) = Ok r /\ ~ well_formed r) /\
  (exists r, binop E OMul (VVec v) (VSeq [a; b]) = Ok r /\ ~ well_formed r) /\
  (exists r, binop E OMul (VSeq [a; b]) (VVec v) = Ok r /\ ~ well_formed r).
Proof. intros. repeat split; cbn; eexists; split; eauto. Qed.
Print Assumptions C81_no_malformed_refuted.
Example C81_ex : exists l, binop (N := RNum) 0%R OAdd (VVec (mkV 1 2))%R (VArr [mkV 1 1; mkV 2 2; mkV 3 3])%R = Ok (VArr l) /\ length l = 3%nat.
Proof.
  destruct (C81_vector_array_partial R RNum 0%R OAdd [mkV 1 1; mkV 2 2; mkV 3 3]%R (mkV 1 2)%R) as [_ H]; [left; auto|discriminate|].
  rewrite H. eexists; split; eauto.
Qed.

(** ** C82 *)
Theorem C82_either_side : forall (T : Type) (N : Num T) (E : T) (m : affine T) (x : val T),
  (forall n, x <> VAff n) -> well_formed x ->
  binop E OMul (VAff m) x = binop E OMul x (VAff m).
Proof.
  intros T N E m x Hx W. destruct x as [x|l|v|l|l|p|n|c|l|r|s|a b|l]; try reflexivity; try contradiction.
  - exfalso; eapply Hx; reflexivity.
Qed.
Print Assumptions C82_either_side.

(** The kind of the result is that of the operand; only a box under a transform
    that is not rectilinear becomes a polygon, and a pair becomes a Vec2. *)
Inductive kind := KVec | KSeq | KArr | KPoly | KAff | KBox | KLine | KRay | KSeg | KOther.
Definition kind_of {T} (x : val T) : kind :=
  match x with
  | VVec _ => KVec | VTup [_; _] => KVec | VSeq _ => KSeq | VArr _ => KArr | VPoly _ => KPoly | VAff _ => KAff
  | VBox _ => KBox | VLine _ => KLine | VRay _ => KRay | VSeg _ => KSeg | _ => KOther
  end.
Theorem C82_kind : forall (T : Type) (N : Num T) (E : T) (m : affine T) (x y : val T), well_formed x ->
  (kind_of x = KOther -> binop E OMul (VAff m) x = Err TypeError) /\
  (binop E OMul (VAff m) x = Ok y ->
     kind_of y = kind_of x \/ (kind_of x = KBox /\ kind_of y = KPoly /\ is_rectilinear E m = false)).
Proof.
  intros T N E m x y W. destruct x as [x|l|v|l|l|p|n|c|l|r|s|a b|l]; try contradiction; unfold binop; cbn [fwd aff_fwd rev same_class box_reply as_tuple kind_of].
  - split; [auto|discriminate].
  - destruct l as [|x [|z [|w l]]]; cbn; split; auto; try discriminate. intro H; injection H as <-. auto.
  - split; [discriminate|]. intro H; injection H as <-. auto.
  - split; [discriminate|]. intro H; injection H as <-. auto.
  - split; [discriminate|]. intro H; injection H as <-. auto.
  - split; [discriminate|]. intro H; injection H as <-. auto.
  - split; [discriminate|]. intro H; injection H as <-. auto.
  - split; [discriminate|]. unfold box_mul. destruct (is_rectilinear E m) eqn:Hr.
    + destruct (box_from_points _); cbn; [|discriminate]. intro H; injection H as <-. auto.
    + destruct (box_to_polygon c); cbn; [|discriminate]. intro H; injection H as <-. auto.
  - split; [discriminate|]. destruct (line_mul E l m); cbn; [|discriminate]. intro H; injection H as <-. auto.
  - split; [discriminate|]. destruct (ray_mul E r m); cbn; [|discriminate]. intro H; injection H as <-. auto.
  - split; [discriminate|]. destruct (seg_mul E s m); cbn; [|discriminate]. intro H; injection H as <-. auto.
Qed.
Print Assumptions C82_kind.

(** The points of the operand are mapped one by one. *)
Theorem C82_points : forall (E : R) (m : affine R) (l : list pt) (v : pt) (p : poly R),
  binop E OMul (VAff m) (VVec v) = Ok (VVec (img m v)) /\
  binop E OMul (VAff m) (VTup [vx v; vy v]) = Ok (VVec (img m v)) /\
  binop E OMul (VAff m) (VSeq l) = Ok (VSeq (map (img m) l)) /\
  binop E OMul (VAff m) (VArr l) = Ok (VArr (map (img m) l)) /\
  binop E OMul (VAff m) (VPoly p) = Ok (VPoly (poly_from_points (map (img m) (pverts p)))).
Proof.
  intros E m l v p.
  assert (H : forall l, map (aapply m) l = map (img m) l) by (intro; apply map_ext; intro; apply aapply_R).
  unfold binop; cbn [fwd aff_fwd]. rewrite <- !H, <- aapply_R. destruct v as [a b]. cbn [vx vy].
  repeat split; auto.
Qed.
Print Assumptions C82_points.

(** [x *= m] leaves [x] equal to what [x * m] returns, or raises the same
    exception; for polygons the vertices are compared. *)
Definition same_object (x y : val R) : Prop :=
  match x, y with
  | VPoly p, VPoly q => pverts p = pverts q
  | _, _ => x = y
  end.
Theorem C82_inplace : forall (E : R) (m : affine R) (x : val R), (0 < E)%R -> well_formed x ->
  match imul_affine E x m, binop E OMul x (VAff m) with
  | Ok y, Ok z => same_object y z
  | Err e, Err e' => e = e'
  | _, _ => False
  end.
Proof.
  intros E m x HE W.
  assert (H : forall l, map (aapply m) l = map (img m) l) by (intro; apply map_ext; intro; apply aapply_R).
  assert (G : forall r r' : res (val R), r = r' -> match r, r' with Ok y, Ok z => same_object y z | Err e, Err e' => e = e' | _, _ => False end).
  { intros [y|e] r' <-; auto. destruct y; cbn; auto. }
  destruct x as [x|l|v|l|l|p|n|c|l|r|s|a b|l]; try contradiction; cbn [imul_affine]; try (apply G; reflexivity).
  - unfold binop; cbn [fwd rev same_class aff_rev aff_fwd poly_imul poly_mul same_object cleared poly_from_points pverts]; rewrite ?itransform_R, ?H; auto.
  - change (same_object (VArr (itransform m l)) (VArr (map (aapply m) l))). cbn [same_object]. rewrite itransform_R, H. auto.
  - change (pverts (poly_imul p m) = map (aapply m) (pverts p)). cbn [poly_imul cleared pverts]. rewrite itransform_R, H. auto.
  - rewrite <- line_mul_imul by auto. apply G; reflexivity.
  - rewrite <- ray_mul_imul by auto. apply G; reflexivity.
  - rewrite <- seg_mul_imul by auto. apply G; reflexivity.
Qed.
Print Assumptions C82_inplace.
Example C82_ex : exists q, binop (N := RNum) 1%R OMul (VSeq [mkV 1 2; mkV 3 4])%R (VAff (mkA 1 0 5 0 1 6)%R) = Ok (VSeq q) /\ length q = 2%nat.
Proof. cbn. eexists; split; eauto. Qed.
