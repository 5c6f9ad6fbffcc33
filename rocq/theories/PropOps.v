(** * Property C100: which operator expressions have a value, and which value *)
From Coq Require Import ZArith List Bool Reals Lra Lia.
From Verif Require Import Num Vec Affine Box Line Seq Polygon BoxPoly Dispatch RBase PropDispatch.
Import ListNotations.

(** Spec: [x op y] of two numbers, of two pairs (first components first, so that
    the first zero divisor decides) and of two lists of pairs, in the order in
    which they are written. *)
Section Spec.
  Context {T : Type} {N : Num T}.
  Definition num_op (o : op) (x y : T) : res T :=
    match o with
    | OAdd => Ok (nadd x y)
    | OSub => Ok (nsub x y)
    | OMul => Ok (nmul x y)
    | ODiv => if neqb y n0 then Err ZeroDivisionError else Ok (ndiv x y)
    | OFloorDiv => if neqb y n0 then Err ZeroDivisionError else Ok (nfloordiv x y)
    end.
  Definition pair_op (o : op) (v w : vec T) : res (vec T) :=
    match num_op o (vx v) (vx w), num_op o (vy v) (vy w) with
    | Ok x, Ok y => Ok (mkV x y)
    | Err e, _ => Err e
    | _, Err e => Err e
    end.
  (** [r] is the list of the results, or the first failure *)
  Fixpoint list_op_is (o : op) (vs ws : list (vec T)) (r : res (list (vec T))) : Prop :=
    match vs, ws with
    | [], [] => r = Ok []
    | v :: vs, w :: ws =>
        match pair_op o v w with
        | Err e => r = Err e
        | Ok x => exists r', list_op_is o vs ws r' /\ r = match r' with Ok l => Ok (x :: l) | Err e => Err e end
        end
    | _, _ => False
    end.
  (** The expression builds an object with the results, or raises. *)
  Definition yields (o : op) (vs ws : list (vec T)) (build : list (vec T) -> val T) (r : res (val T)) : Prop :=
    exists q, list_op_is o vs ws q /\ r = match q with Ok l => Ok (build l) | Err e => Err e end.
  Definition one (build : vec T -> val T) (r : res (vec T)) : res (val T) :=
    match r with Ok v => Ok (build v) | Err e => Err e end.
  Definition both (s : T) : vec T := mkV s s.
  Definition times_one (v : vec T) : vec T := mkV (nmul (vx v) n1) (nmul (vy v) n1).
End Spec.

Section Facts.
  Context {T : Type} {N : Num T}.
  Variable E : T.
  Lemma vec_vec_pair o (v w : vec T) : vec_vec o v w = pair_op o v w.
  Proof using Type.
    destruct o; try reflexivity; unfold vec_vec, vdiv, vfdiv, pydiv, pyfloordiv, pair_op, num_op;
      destruct (neqb (vx w) n0); cbn [bind]; auto; destruct (neqb (vy w) n0); auto.
  Qed.
  Lemma vec_num_pair o (v : vec T) s : o <> OAdd -> o <> OSub -> vec_num o v s = pair_op o v (both s).
  Proof using Type.
    intros H1 H2. destruct o; try congruence; try reflexivity; unfold vec_num, vdivs, vfdivs, pydiv, pyfloordiv, pair_op, num_op;
      cbn [both vx vy]; destruct (neqb s n0); auto.
  Qed.
  Lemma num_vec_pair o (v : vec T) s : o = ODiv \/ o = OFloorDiv -> num_vec o s v = pair_op o (both s) v.
  Proof using Type.
    intros [-> | ->]; unfold num_vec, vrdivs, vrfdivs, pydiv, pyfloordiv, pair_op, num_op; cbn [both vx vy];
      destruct (neqb (vx v) n0); cbn [bind]; auto; destruct (neqb (vy v) n0); auto.
  Qed.
  Lemma mapM_yields {X} o (f : X -> res (vec T)) (a b : X -> vec T) build (l : list X) :
    (forall x, f x = pair_op o (a x) (b x)) -> yields o (map a l) (map b l) build (rmap build (mapM f l)).
  Proof using Type.
    intro H. exists (mapM f l). split; [|destruct (mapM f l); auto].
    induction l as [|x l IH]; cbn [map list_op_is mapM]; auto.
    rewrite H. destruct (pair_op o (a x) (b x)) as [y|e]; cbn [bind]; auto.
    exists (mapM f l). split; [exact IH|]. destruct (mapM f l); reflexivity.
  Qed.
  Lemma map_fst_combine {X Y} (l : list X) (m : list Y) : length l = length m -> map fst (combine l m) = l.
  Proof using Type. revert m. induction l as [|x l IH]; intros [|y m] H; cbn in *; try discriminate; auto. f_equal. auto. Qed.
  Lemma map_snd_combine {X Y} (l : list X) (m : list Y) : length l = length m -> map snd (combine l m) = m.
  Proof using Type. revert m. induction l as [|x l IH]; intros [|y m] H; cbn in *; try discriminate; auto. f_equal. auto. Qed.
  Lemma zip_yields o (l m : list (vec T)) build : length l = length m ->
    yields o l m build (rmap build (zip_with (vec_vec o) l m)) /\
    yields o m l build (rmap build (zip_with (fun a b => vec_vec o b a) l m)).
  Proof using Type.
    intro H. unfold zip_with. rewrite H, Nat.eqb_refl.
    pose proof (map_fst_combine l m H) as H1. pose proof (map_snd_combine l m H) as H2. split.
    - rewrite <- H1 at 1. rewrite <- H2 at 2.
      apply (mapM_yields o (fun ab => vec_vec o (fst ab) (snd ab)) fst snd). intros [a b]. apply vec_vec_pair.
    - rewrite <- H2 at 1. rewrite <- H1 at 2.
      apply (mapM_yields o (fun ab => vec_vec o (snd ab) (fst ab)) snd fst). intros [a b]. apply vec_vec_pair.
  Qed.
  Lemma rmap_one (build : vec T -> val T) r : rmap build r = one build r.
  Proof using Type. destruct r; auto. Qed.
  Lemma map_repeat (w : vec T) (l : list (vec T)) : map (fun _ => w) l = repeat w (length l).
  Proof using Type. induction l; cbn; congruence. Qed.
End Facts.

(** ** Vectors, pairs and numbers *)
Theorem C100_vectors : forall (T : Type) (N : Num T) (E : T) (o : op) (v w : vec T) (s : T),
  let additive := o = OAdd \/ o = OSub in
  let t := VTup [vx w; vy w] in
  binop E o (VVec v) (VVec w) = one VVec (pair_op o v w) /\
  binop E o (VVec v) t = one VVec (pair_op o v w) /\
  (o = ODiv \/ o = OFloorDiv -> binop E o t (VVec v) = one VVec (pair_op o w v)) /\
  (o = OMul -> binop E o t (VVec v) = one VVec (pair_op o v w)) /\
  (o = OSub -> binop E o t (VVec v) = Err TypeError) /\
  (o = OAdd -> binop E o t (VVec v) = Ok (VTup [vx w; vy w; vx v; vy v])) /\
  (~ additive -> binop E o (VVec v) (VNum s) = one VVec (pair_op o v (both s))) /\
  (o = OMul -> binop E o (VNum s) (VVec v) = one VVec (pair_op o v (both s))) /\
  (o = ODiv \/ o = OFloorDiv -> binop E o (VNum s) (VVec v) = one VVec (pair_op o (both s) v)) /\
  (additive -> binop E o (VVec v) (VNum s) = Err TypeError /\ binop E o (VNum s) (VVec v) = Err TypeError).
Proof.
  intros T N E o v w s additive t.
  assert (HT : unpack2 t = UNums (mkV (vx w) (vy w))) by reflexivity.
  assert (Hw : mkV (vx w) (vy w) = w) by (destruct w; auto).
  split; [destruct o; cbn -[pair_op]; rewrite ?rmap_one, <- ?vec_vec_pair; reflexivity|].
  split; [destruct o; cbn -[pair_op]; rewrite <- ?vec_vec_pair, <- rmap_one; reflexivity|].
  split.
  { intros [-> | ->]; rewrite <- vec_vec_pair, <- rmap_one; reflexivity. }
  split; [intros -> ; reflexivity|].
  split; [intros -> ; reflexivity|].
  split; [intros -> ; reflexivity|].
  split.
  { intro H. rewrite <- vec_num_pair, <- rmap_one by (intro; apply H; subst; unfold additive; auto).
    destruct o; try reflexivity; exfalso; apply H; unfold additive; auto. }
  split; [intros -> ; reflexivity|].
  split.
  { intros H. rewrite <- num_vec_pair, <- rmap_one by auto. destruct H as [-> | ->]; reflexivity. }
  intros [-> | ->]; split; reflexivity.
Qed.
Print Assumptions C100_vectors.

(** ** Arrays *)
(** An array with a number, a vector or a pair on its right. *)
Theorem C100_array_left : forall (T : Type) (N : Num T) (E : T) (o : op) (l : list (vec T)) (w : vec T) (s : T),
  yields o l (repeat (times_one w) (length l)) VArr (binop E o (VArr l) (VVec w)) /\
  yields o l (repeat (times_one w) (length l)) VArr (binop E o (VArr l) (VTup [vx w; vy w])) /\
  (o = OMul \/ o = ODiv \/ o = OFloorDiv -> yields o l (repeat (both s) (length l)) VArr (binop E o (VArr l) (VNum s))) /\
  (o = OAdd \/ o = OSub -> binop E o (VArr l) (VNum s) = Err TypeError).
Proof.
  intros T N E o l w s.
  assert (H1 : binop E o (VArr l) (VVec w) = rmap VArr (mapM (fun a => vec_vec o a (vec2_of w)) l)) by (destruct o; reflexivity).
  assert (H2 : binop E o (VArr l) (VTup [vx w; vy w]) = rmap VArr (mapM (fun a => vec_vec o a (vec2_of w)) l)) by (destruct o; reflexivity).
  assert (K : yields o l (repeat (times_one w) (length l)) VArr (rmap VArr (mapM (fun a => vec_vec o a (vec2_of w)) l))).
  { rewrite <- map_repeat, <- (map_id l) at 1. apply mapM_yields. intro x. apply vec_vec_pair. }
  rewrite H1, H2. split; [exact K|]. split; [exact K|]. split.
  - intro H. assert (binop E o (VArr l) (VNum s) = rmap VArr (mapM (fun a => vec_num o a s) l)) as -> by (destruct H as [-> | [-> | ->]]; reflexivity).
    rewrite <- map_repeat, <- (map_id l) at 1. apply mapM_yields. intro x. apply vec_num_pair; destruct H as [-> | [-> | ->]]; discriminate.
  - intros [-> | ->]; reflexivity.
Qed.
Print Assumptions C100_array_left.

(** An array with an array. *)
Theorem C100_two_arrays : forall (T : Type) (N : Num T) (E : T) (o : op) (l m : list (vec T)),
  (length l = length m -> yields o l m VArr (binop E o (VArr l) (VArr m))) /\
  (length l <> length m -> binop E o (VArr l) (VArr m) = Err ValueError).
Proof.
  intros T N E o l m.
  assert (binop E o (VArr l) (VArr m) = rmap VArr (zip_with (vec_vec o) l m)) as -> by (destruct o; reflexivity).
  split; intro H; [apply zip_yields; auto|]. unfold zip_with. apply Nat.eqb_neq in H. rewrite H. auto.
Qed.
Print Assumptions C100_two_arrays.

(** A Seq2 or a polygon on the left of -, / and //: the order is that of the
    expression and the result has the class of the left operand. *)
Theorem C100_reflected : forall (T : Type) (N : Num T) (E : T) (o : op) (l m : list (vec T)) (p : poly T),
  o = OSub \/ o = ODiv \/ o = OFloorDiv ->
  (length m = length l -> yields o m l VSeq (binop E o (VSeq m) (VArr l))) /\
  (length m <> length l -> binop E o (VSeq m) (VArr l) = Err ValueError) /\
  (length (pverts p) = length l -> yields o (pverts p) l (fun q => VPoly (poly_from_points q)) (binop E o (VPoly p) (VArr l))) /\
  (length (pverts p) <> length l -> binop E o (VPoly p) (VArr l) = Err ValueError).
Proof.
  intros T N E o l m p Ho.
  assert (binop E o (VSeq m) (VArr l) = rmap VSeq (zip_with (fun a b => vec_vec o b a) l m)) as -> by (destruct Ho as [-> | [-> | ->]]; reflexivity).
  assert (binop E o (VPoly p) (VArr l) = rmap (fun q => VPoly (poly_from_points q)) (zip_with (fun a b => vec_vec o b a) l (pverts p))) as -> by (destruct Ho as [-> | [-> | ->]]; reflexivity).
  split; [intro H; apply (zip_yields o l m); auto|].
  split; [intro H; unfold zip_with; assert (Nat.eqb (length l) (length m) = false) as -> by (apply Nat.eqb_neq; auto); auto|].
  split; [intro H; apply (zip_yields o l (pverts p)); auto|].
  intro H; unfold zip_with; assert (Nat.eqb (length l) (length (pverts p)) = false) as -> by (apply Nat.eqb_neq; auto); auto.
Qed.
Print Assumptions C100_reflected.

(** The combinations that do not exist, whatever the values: -, / and // with an
    array on the right of anything that is not a sequence, or with a plain
    sequence on the right of an array; and any operator between two plain
    sequences.  A sequence of exactly two vectors is taken for a pair by the
    operand on the other side (C81) and is excluded. *)
Theorem C100_type_errors : forall (T : Type) (N : Num T) (E : T) (o : op) (l m : list (vec T)) (v : vec T) (s : T) (t : list T) (p : poly T),
  length l <> 2%nat -> length m <> 2%nat -> length (pverts p) <> 2%nat ->
  (o = OSub \/ o = ODiv \/ o = OFloorDiv ->
     binop E o (VNum s) (VArr l) = Err TypeError /\ binop E o (VTup t) (VArr l) = Err TypeError /\
     binop E o (VVec v) (VArr l) = Err TypeError /\
     binop E o (VArr l) (VSeq m) = Err TypeError /\ binop E o (VArr l) (VPoly p) = Err TypeError) /\
  binop E o (VSeq l) (VSeq m) = Err TypeError /\ binop E o (VSeq l) (VPoly p) = Err TypeError /\
  binop E o (VPoly p) (VSeq m) = Err TypeError /\ binop E o (VPoly p) (VPoly p) = Err TypeError /\
  binop E o (VSeq m) (VVec v) = Err TypeError /\ binop E o (VVec v) (VSeq m) = Err TypeError /\
  binop E o (VNum s) (VSeq m) = Err TypeError /\ binop E o (VSeq m) (VNum s) = Err TypeError.
Proof.
  intros T N E o l m v s t p Hl Hm Hp.
  assert (U1 : unpack2 (VArr l) = UFail) by (apply unpack_len; auto).
  assert (U2 : unpack2 (VSeq m) = UFail) by (destruct m as [|a [|b [|c m]]]; cbn in *; auto; congruence).
  assert (U3 : unpack2 (VPoly p) = UFail) by (cbn; destruct (pverts p) as [|a [|b [|c q]]]; cbn in *; auto; congruence).
  split.
  - intro Ho. split; [destruct Ho as [-> | [-> | ->]]; reflexivity|].
    split; [destruct Ho as [-> | [-> | ->]]; reflexivity|].
    split; [|split].
    + unfold binop. cbn [fwd]. unfold vec_fwd. rewrite U1. destruct Ho as [-> | [-> | ->]]; reflexivity.
    + unfold binop. cbn [fwd]. unfold arr_fwd, vec2_star. rewrite U2. destruct Ho as [-> | [-> | ->]]; reflexivity.
    + unfold binop. cbn [fwd]. unfold arr_fwd, vec2_star. rewrite U3. destruct Ho as [-> | [-> | ->]]; reflexivity.
  - split; [destruct o; reflexivity|]. split; [destruct o; reflexivity|]. split; [destruct o; reflexivity|]. split; [destruct o; reflexivity|].
    split; [|split; [|split; destruct o; reflexivity]].
    + unfold binop. cbn [fwd same_class rev]. unfold vec_rev, vec_fwd. rewrite U2. destruct o; reflexivity.
    + unfold binop. cbn [fwd]. unfold vec_fwd. rewrite U2. destruct o; reflexivity.
Qed.
Print Assumptions C100_type_errors.

(** Hypotheses met; a quotient of a Seq2 by an array, and a zero divisor. *)
Local Open Scope R_scope.
Example C100_ex :
  binop (N := RNum) 1 OSub (VSeq [mkV 5 7; mkV 1 2; mkV 0 0]) (VArr [mkV 1 2; mkV 3 4; mkV 5 6]) =
    Ok (VSeq [mkV (5 - 1) (7 - 2); mkV (1 - 3) (2 - 4); mkV (0 - 5) (0 - 6)]) /\
  yields (N := RNum) ODiv [mkV 5 7; mkV 1 2; mkV 0 0] [mkV 1 2; mkV 3 0; mkV 5 6] VSeq
    (binop (N := RNum) 1 ODiv (VSeq [mkV 5 7; mkV 1 2; mkV 0 0]) (VArr [mkV 1 2; mkV 3 0; mkV 5 6])) /\
  ~ yields (N := RNum) ODiv [mkV 1 1] [mkV 1 2] VSeq (Ok (VSeq [mkV (1 / 1) (2 / 1)])).
Proof.
  split; [reflexivity|]. split.
  - apply (C100_reflected R RNum 1 ODiv [mkV 1 2; mkV 3 0; mkV 5 6] [mkV 5 7; mkV 1 2; mkV 0 0] (poly_from_points [])); auto.
  - intros (q & H1 & H2). cbn [list_op_is] in H1. unfold pair_op, num_op in H1. cbn [vx vy] in H1.
    change (neqb (Num := RNum) 1 n0) with (Reqb 1 0) in H1. change (neqb (Num := RNum) 2 n0) with (Reqb 2 0) in H1.
    rewrite (proj2 (Reqb_false 1 0)), (proj2 (Reqb_false 2 0)) in H1 by lra.
    destruct H1 as (r' & -> & ->). injection H2. cbn. intros. lra.
Qed.
