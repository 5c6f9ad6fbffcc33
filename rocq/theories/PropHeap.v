(** * Properties C16, C83: sequences as objects in a store *)
From Coq Require Import ZArith List Bool Reals Lra Lia.
From Verif Require Import Num Vec Affine Seq Heap HeapFacts RBase.
Import ListNotations.

Section Spec.
  Context {T : Type} {N : Num T}.
  (** The vectors a source yields, in order. *)
  Definition holds (h : heap T) (s : src T) (vs : list (vec T)) : Prop :=
    match s with SObj o => contents h o = Some vs | SIter xs => xs = map Ok vs end.
  Definition unit_scaled (v : vec T) : vec T := mkV (nmul (vx v) n1) (nmul (vy v) n1).

  (** The list operation a statement performs on object [o], the operands being
      read in the store before the statement. *)
  Inductive means (h : heap T) (o : nat) : stmt T -> arr_op T -> Prop :=
  | M_set i v : means h o (SSet o i v) (OpSet i v)
  | M_setslice a b s vs : holds h s vs -> means h o (SSetSlice o a b s) (OpSetSlice a b vs)
  | M_append v : means h o (SAppend o v) (OpAppend v)
  | M_extend s vs : s <> SObj o -> holds h s vs -> means h o (SExtend o s) (OpExtend vs)
  | M_insert i v : means h o (SInsert o i v) (OpInsert i v)
  | M_del i : means h o (SDel o i) (OpDel i)
  | M_delslice a b : means h o (SDelSlice o a b) (OpDelSlice a b)
  | M_normalize E : means h o (SNormalize o E) (OpNormalize E)
  | M_clamp E mn mx : means h o (SClamp o E mn mx) (OpClamp E mn mx)
  | M_iadd o' m : contents h o' = Some m -> means h o (SInplace IAdd o (AObj o')) (OpIAdd (OSeq m))
  | M_isub o' m : contents h o' = Some m -> class_of h o' = Some CArray -> means h o (SInplace ISub o (AObj o')) (OpISub (OSeq m))
  | M_imul o' m : contents h o' = Some m -> class_of h o' = Some CArray -> means h o (SInplace IMul o (AObj o')) (OpIMul (OSeq m))
  | M_idiv o' m : contents h o' = Some m -> class_of h o' = Some CArray -> means h o (SInplace IDiv o (AObj o')) (OpIDiv (OSeq m))
  | M_ifdiv o' m : contents h o' = Some m -> class_of h o' = Some CArray ->
      means h o (SInplace IFloorDiv o (AObj o')) (OpIFloorDiv (OSeq m))
  | M_iaddv v : means h o (SInplace IAdd o (AVec v)) (OpIAdd (OVec v))
  | M_isubv v : means h o (SInplace ISub o (AVec v)) (OpISub (OVec v))
  | M_imulv v : means h o (SInplace IMul o (AVec v)) (OpIMul (OVec v))
  | M_imuls x : means h o (SInplace IMul o (AScalar x)) (OpIMul (OScalar x))
  | M_idivv v : means h o (SInplace IDiv o (AVec v)) (OpIDiv (OVec v))
  | M_idivs x : means h o (SInplace IDiv o (AScalar x)) (OpIDiv (OScalar x))
  | M_imulm m : means h o (SIMulAffine o m) (OpIMulAffine m).

  Definition src_size (h : heap T) (s : stmt T) : nat :=
    match s with
    | SExtend _ (SObj o) => match contents h o with Some l => length l | None => 0 end
    | SExtend _ (SIter l) => length l
    | _ => 0
    end.
  Definition reachable (h : heap T) : Prop := exists fuel ss, h = run fuel empty_heap ss.
  Lemma reachable_wf h : reachable h -> wf h.
  Proof using Type. intros (f & ss & ->). apply run_wf, wf_empty. Qed.
  Lemma holds_items h s vs : holds h s vs -> src_items h s = map Ok vs.
  Proof using Type. destruct s; cbn; intro H; [rewrite H|]; auto. Qed.
  Lemma read_holds h s vs : holds h s vs -> read_src h s = Ok (map vec2_of vs).
  Proof using Type.
    destruct s as [o|l]; cbn; intro H; [rewrite H; auto|]. subst l.
    induction vs as [|v vs IH]; cbn; auto. rewrite IH. auto.
  Qed.
  Lemma holds_valid h s vs o : holds h s vs -> s = SObj o -> (o < length (objs h))%nat.
  Proof using Type. intros H ->. cbn in H. apply contents_inv in H. destruct H as (c & p & H & _). eapply nth_obj_lt; eauto. Qed.
End Spec.

(** ** C16: full statement: extend(src) terminates, appends exactly the vectors
    of src, also for src = the array itself. *)
Theorem C16_extend_other_partial : forall (T : Type) (N : Num T) (h : heap T) (o : nat) (s : src T) (l vs : list (vec T)) (fuel : nat),
  reachable h -> class_of h o = Some CArray -> contents h o = Some l -> s <> SObj o -> holds h s vs -> (length vs < fuel)%nat ->
  exists h', exec fuel h (SExtend o s) = (Ok tt, h') /\
    contents h' o = Some (l ++ map unit_scaled vs) /\
    forall o', (o' < length (objs h))%nat -> o' <> o -> contents h' o' = contents h o'.
Proof.
  intros T N h o s l vs fuel HR Hc Hl Hs Hh Hf. apply reachable_wf in HR.
  destruct (contents_inv _ _ _ Hl) as (c & p & Ho & Hp & Hc'). rewrite Hc in Hc'. injection Hc' as <-.
  destruct (extend_loop_spec vs fuel h o CArray p s 0 l None [] HR Ho Hp Hs) as (h' & E1 & E2).
  - intros o' Ho'. eapply holds_valid; eauto.
  - cbn [skipn]. rewrite app_nil_r. apply holds_items; auto.
  - auto.
  - assert (E : exec fuel h (SExtend o s) = (Ok tt, h')) by (cbn [exec]; unfold with_obj; rewrite Ho, Hp; cbn [array_only]; auto).
    exists h'. split; auto. split; auto. intros o' Ho' Hne.
    pose proof (exec_keeps fuel h (SExtend o s) HR) as (_ & _ & K). rewrite E in K. destruct (K o' Ho') as [_ B]. apply B.
    cbn. congruence.
Qed.
Print Assumptions C16_extend_other_partial.

(** Items before one that cannot be converted have been appended when the
    exception is raised. *)
Theorem C16_extend_bad_item : forall (T : Type) (N : Num T) (h : heap T) (o : nat) (l vs : list (vec T)) (e : exn) (tail : list (res (vec T))) (fuel : nat),
  reachable h -> class_of h o = Some CArray -> contents h o = Some l -> (length vs < fuel)%nat ->
  exists h', exec fuel h (SExtend o (SIter (map Ok vs ++ Err e :: tail))) = (Err e, h') /\
    contents h' o = Some (l ++ map unit_scaled vs).
Proof.
  intros T N h o l vs e tail fuel HR Hc Hl Hf. apply reachable_wf in HR.
  destruct (contents_inv _ _ _ Hl) as (c & p & Ho & Hp & Hc'). rewrite Hc in Hc'. injection Hc' as <-.
  destruct (extend_loop_spec vs fuel h o CArray p (SIter (map Ok vs ++ Err e :: tail)) 0 l (Some e) tail HR Ho Hp) as (h' & E1 & E2);
    [discriminate|intros; discriminate|reflexivity|auto|].
  exists h'. cbn [exec]. unfold with_obj. rewrite Ho, Hp. cbn [array_only]. auto.
Qed.
Print Assumptions C16_extend_bad_item.

(** With the array itself as source the loop never ends: however long it runs,
    it has appended one vector per step and is not finished. *)
Theorem C16_self_extend_refuted : forall (T : Type) (N : Num T) (h : heap T) (o : nat) (l : list (vec T)) (fuel : nat),
  reachable h -> class_of h o = Some CArray -> contents h o = Some l -> l <> [] ->
  exists h' l', exec fuel h (SExtend o (SObj o)) = (Err OutOfFuel, h') /\
    contents h' o = Some l' /\ length l' = (length l + fuel)%nat.
Proof.
  intros T N h o l fuel HR Hc Hl Hne. apply reachable_wf in HR.
  destruct (contents_inv _ _ _ Hl) as (c & p & Ho & Hp & Hc'). rewrite Hc in Hc'. injection Hc' as <-.
  cbn [exec]. unfold with_obj. rewrite Ho, Hp. cbn [array_only]. apply (self_extend fuel h o CArray p 0 l); auto.
  destruct l; [congruence|cbn; lia].
Qed.
Print Assumptions C16_self_extend_refuted.
Example C16_ex : exists h, reachable (T := R) h /\ class_of h 0 = Some CArray /\ contents h 0 = Some [unit_scaled (mkV 1 2)%R] /\
  contents h 1 = Some [unit_scaled (mkV 3 4)%R].
Proof.
  exists (run 5 empty_heap [SNew CArray (SIter [Ok (mkV 1 2)%R]); SNew CSeq2 (SIter [Ok (mkV 3 4)%R])]).
  split; [eexists _, _; reflexivity|]. auto.
Qed.

(** ** C83 *)
(** One statement, whether or not it raises: every existing object keeps its
    class; every object other than the target keeps its contents. *)
Theorem C83_only_target_changes : forall (T : Type) (N : Num T) (fuel : nat) (h : heap T) (s : stmt T) (o : nat) (l : list (vec T)),
  reachable h -> contents h o = Some l ->
  class_of (snd (exec fuel h s)) o = class_of h o /\
  (target s <> Some o -> contents (snd (exec fuel h s)) o = Some l).
Proof.
  intros T N fuel h s o l HR Hl. apply reachable_wf in HR.
  destruct (contents_inv _ _ _ Hl) as (c & p & Ho & Hp & _).
  destruct (exec_keeps fuel h s HR) as (_ & _ & K). destruct (K o (nth_obj_lt _ _ _ Ho)) as [A B].
  split; auto. intro H. rewrite B; auto.
Qed.
Print Assumptions C83_only_target_changes.

(** Whole programs. *)
Theorem C83_untouched : forall (T : Type) (N : Num T) (fuel : nat) (h : heap T) (ss : list (stmt T)) (o : nat) (l : list (vec T)),
  reachable h -> contents h o = Some l -> (forall s, In s ss -> target s <> Some o) ->
  contents (run fuel h ss) o = Some l /\ class_of (run fuel h ss) o = class_of h o.
Proof.
  intros T N fuel h ss o l HR Hl H. apply reachable_wf in HR.
  destruct (contents_inv _ _ _ Hl) as (c & p & Ho & Hp & _).
  destruct (run_keeps fuel ss h HR) as (_ & _ & K). destruct (K o (nth_obj_lt _ _ _ Ho)) as [A B].
  split; auto. rewrite B; auto. intros (s & Hs & Ht). eapply H; eauto.
Qed.
Print Assumptions C83_untouched.

(** A statement on an array has the effect of the list operation on the values
    its operands have before the statement, also when an operand is the array
    itself. *)
Theorem C83_effect : forall (T : Type) (N : Num T) (fuel : nat) (h : heap T) (s : stmt T) (p : arr_op T) (o : nat) (l : list (vec T)),
  reachable h -> class_of h o = Some CArray -> contents h o = Some l -> means h o s p -> (src_size h s < fuel)%nat ->
  exists r h', exec fuel h s = (r, h') /\
    match arr_exec l p with
    | Ok l' => r = Ok tt /\ contents h' o = Some l'
    | Err e => r = Err e /\ contents h' o = Some l
    end.
Proof.
  intros T N fuel h s q o l HR Hc Hl Hm Hf.
  pose proof HR as W. apply reachable_wf in W.
  destruct (contents_inv _ _ _ Hl) as (c & p & Ho & Hp & Hc'). rewrite Hc in Hc'. injection Hc' as <-.
  assert (WO : forall k, with_obj h o k = k CArray p l) by (intro; unfold with_obj; rewrite Ho, Hp; auto).
  assert (MU : forall r : res (list (vec T)), exists r' h', mutate h p r = (r', h') /\
    match r with Ok l' => r' = Ok tt /\ contents h' o = Some l' | Err e => r' = Err e /\ contents h' o = Some l end).
  { intros [l'|e]; cbn [mutate]; eexists _, _; (split; [reflexivity|]); split; auto. eapply write_spec; eauto. }
  assert (AS : forall r : res (list (vec T)), exists r' h', assign h o r = (r', h') /\
    match r with Ok l' => r' = Ok tt /\ contents h' o = Some l' | Err e => r' = Err e /\ contents h' o = Some l end).
  { intros [l'|e]; cbn [assign]; eexists _, _; (split; [reflexivity|]); split; auto. eapply rebind_spec; eauto. }
  assert (OP : forall o' m c, contents h o' = Some m -> class_of h o' = Some c -> operand_val h (AObj o') = Some (c, OSeq m)).
  { intros o' m c' E1 E2. cbn. rewrite E1, E2. auto. }
  destruct Hm; cbn [exec]; try rewrite WO; cbn [array_only arr_exec];
    try (apply MU); try (apply AS);
    try (rewrite (OP _ _ _ H H0); cbn [accepts]; apply AS);
    try (cbn [operand_val accepts]; apply AS); try exact (MU (Ok _)).
  - rewrite (read_holds _ _ _ H). cbn [rmap]. exact (MU (Ok _)).
  - destruct (extend_loop_spec vs fuel h o CArray p s 0 l None [] W Ho Hp H) as (h' & E1 & E2).
    + intros o' Ho'. eapply holds_valid; eauto.
    + cbn [skipn]. rewrite app_nil_r. apply holds_items; auto.
    + cbn [src_size] in Hf. destruct s as [o'|xs]; cbn [holds] in H0; [rewrite H0 in Hf; auto|]. subst xs. rewrite map_length in Hf. auto.
    + exists (Ok tt), h'. auto.
  - destruct (contents_inv _ _ _ H) as (c' & p' & Ho' & _ & Hc').
    rewrite (OP _ _ _ H Hc'). destruct c'; cbn [accepts]; apply AS.
  - eexists _, _. split; [reflexivity|]. split; auto. unfold itransform. destruct (affine_eqb m aidentity); auto.
    apply (itransform_loop_spec m [] l h o CArray p); auto.
Qed.
Print Assumptions C83_effect.

(** What the statements that build an object build. *)
Theorem C83_results : forall (T : Type) (N : Num T) (fuel : nat) (h : heap T) (o : nat) (c : cls) (l : list (vec T)),
  reachable h -> class_of h o = Some c -> contents h o = Some l ->
  let new := length (objs h) in
  let builds s c' r := exec fuel h s = (Ok tt, snd (exec fuel h s)) /\
    contents (snd (exec fuel h s)) new = Some r /\ class_of (snd (exec fuel h s)) new = Some c' /\ contents h new = None in
  builds (SCopy o) c l /\
  (forall c', builds (SFromPoints c' o) c' l) /\
  (forall c' s vs, holds h s vs -> builds (SNew c' s) c' (map unit_scaled vs)) /\
  (forall m, builds (SMulAffine o m) c (map (aapply m) l)) /\
  (c = CArray -> (forall a b, builds (SSlice o a b) CArray (py_getslice l a b)) /\
     builds (SNeg o) CArray (map vneg l) /\
     (forall k o' m r, class_of h o' = Some CArray -> contents h o' = Some m -> binary_val k l (OSeq m) = Ok r ->
        builds (SBinary k o (AObj o')) CArray r) /\
     (forall o' m r, class_of h o' = Some CSeq2 -> contents h o' = Some m -> arr_add l (OSeq m) = Ok r ->
        builds (SBinary IAdd o (AObj o')) CSeq2 r /\ builds (SBinary IAdd o' (AObj o)) CSeq2 r) /\
     (forall o' m r, class_of h o' = Some CSeq2 -> contents h o' = Some m -> arr_rsub l (OSeq m) = Ok r ->
        builds (SBinary ISub o' (AObj o)) CSeq2 r)).
Proof.
  intros T N fuel h o c l HR Hc Hl new builds. pose proof HR as W. apply reachable_wf in W.
  destruct (contents_inv _ _ _ Hl) as (c1 & p & Ho & Hp & Hc'). rewrite Hc in Hc'. injection Hc' as <-.
  assert (WO : forall k, with_obj h o k = k c p l) by (intro; unfold with_obj; rewrite Ho, Hp; auto).
  assert (B : forall s c' r, exec fuel h s = result h c' (Ok r) -> builds s c' r).
  { intros s c' r E. unfold builds. rewrite E. cbn [result snd]. destruct (new_obj_spec h c' r W) as (_ & A1 & A2).
    split; auto. split; auto. split; auto. unfold contents, lref, new.
    assert (nth_error (objs h) (length (objs h)) = None) as -> by (apply nth_error_None; lia). auto. }
  assert (OP : forall o' m c, contents h o' = Some m -> class_of h o' = Some c -> operand_val h (AObj o') = Some (c, OSeq m)).
  { intros o' m c' E1 E2. cbn. rewrite E1, E2. auto. }
  split; [apply B; cbn [exec]; rewrite WO; auto|].
  split; [intro; apply B; cbn [exec]; rewrite WO; auto|].
  split; [intros c' s vs H; apply B; cbn [exec]; rewrite (read_holds _ _ _ H); auto|].
  split; [intro; apply B; cbn [exec]; rewrite WO; auto|]. intros ->.
  split; [intros; apply B; cbn [exec]; rewrite WO; auto|].
  split; [intros; apply B; cbn [exec]; rewrite WO; auto|].
  assert (WO' : forall o' c' m k, class_of h o' = Some c' -> contents h o' = Some m -> exists p', with_obj h o' k = k c' p' m).
  { intros o' c' m k E1 E2. destruct (contents_inv _ _ _ E2) as (c2 & p' & Ho' & Hp' & Hc2). rewrite E1 in Hc2. injection Hc2 as <-.
    exists p'. unfold with_obj. rewrite Ho', Hp'. auto. }
  split; [|split].
  - intros k o' m r E1 E2 E3. apply B. cbn [exec]. rewrite WO, (OP _ _ _ E2 E1). cbn [accepts]. rewrite E3. destruct k; auto.
  - intros o' m r E1 E2 E3. split; apply B; cbn [exec].
    + rewrite WO, (OP _ _ _ E2 E1). cbn [accepts binary_val]. rewrite E3. auto.
    + edestruct (WO' o') as [p' ->]; eauto. rewrite (OP _ _ _ Hl Hc). unfold binary_seq. rewrite (OP _ _ _ Hl Hc). cbn [reflected_val]. rewrite E3. auto.
  - intros o' m r E1 E2 E3. apply B. cbn [exec].
    edestruct (WO' o') as [p' ->]; eauto. rewrite (OP _ _ _ Hl Hc). unfold binary_seq. rewrite (OP _ _ _ Hl Hc). cbn [reflected_val]. rewrite E3. auto.
Qed.
Print Assumptions C83_results.

(** A plain Seq2 is no operand of -, /, //, nor of -=, *=, /=, //=: TypeError,
    and no object of the store changes, is rebound or is created. *)
Theorem C83_rejected : forall (T : Type) (N : Num T) (fuel : nat) (h : heap T) (o o' : nat) (l m : list (vec T)) (k : inplace),
  reachable h -> class_of h o = Some CArray -> contents h o = Some l -> class_of h o' = Some CSeq2 -> contents h o' = Some m ->
  (k <> IAdd -> exec fuel h (SInplace k o (AObj o')) = (Err TypeError, h)) /\
  (k <> IAdd -> k <> IMul -> exec fuel h (SBinary k o (AObj o')) = (Err TypeError, h)) /\
  exec fuel h (SBinary k o' (AObj o')) = (Err TypeError, h) /\ exec fuel h (SInplace k o' (AObj o')) = (Err TypeError, h).
Proof.
  intros T N fuel h o o' l m k HR Hc Hl Hc' Hm.
  destruct (contents_inv _ _ _ Hl) as (c1 & p & Ho & Hp & Hc1). rewrite Hc in Hc1. injection Hc1 as <-.
  destruct (contents_inv _ _ _ Hm) as (c2 & p' & Ho' & Hp' & Hc2). rewrite Hc' in Hc2. injection Hc2 as <-.
  assert (OP : operand_val h (AObj o') = Some (CSeq2, OSeq m)) by (cbn; rewrite Hc', Hm; auto).
  cbn [exec]. unfold with_obj, binary_seq. rewrite Ho, Hp, Ho', Hp', OP.
  split; [intro H; destruct k; try reflexivity; congruence|].
  split; [intros H H'; destruct k; try reflexivity; congruence|]. auto.
Qed.
Print Assumptions C83_rejected.
Example C83_rejected_ex :
  let h := run 5 empty_heap [SNew CArray (SIter [Ok (mkV 1 2)%R]); SNew CSeq2 (SObj 0)] in
  reachable h /\ class_of h 0 = Some CArray /\ class_of h 1 = Some CSeq2 /\ exec 5 h (SInplace IMul 0 (AObj 1)) = (Err TypeError, h).
Proof. split; [eexists _, _; reflexivity|]. repeat split. Qed.

(** Arithmetic of an array with itself in place. *)
Example C83_ex : let h := run 5 empty_heap [SNew CArray (SIter [Ok (mkV 1 2)%R; Ok (mkV 3 4)%R]); SCopy 0] in
  contents (run 5 h [SInplace IAdd 0 (AObj 0); SAppend 1 (mkV 5 6)%R]) 0 =
    Some [vadd (unit_scaled (mkV 1 2)%R) (unit_scaled (mkV 1 2)%R); vadd (unit_scaled (mkV 3 4)%R) (unit_scaled (mkV 3 4)%R)] /\
  contents (run 5 h [SInplace IAdd 0 (AObj 0); SAppend 1 (mkV 5 6)%R]) 1 =
    Some [unit_scaled (mkV 1 2)%R; unit_scaled (mkV 3 4)%R; unit_scaled (mkV 5 6)%R].
Proof. split; reflexivity. Qed.
