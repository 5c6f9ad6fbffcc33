(** * Lemmas about printing and reading back *)
From Coq Require Import List String Ascii Bool Arith Lia.
From Verif Require Import Num Vec Affine Box Line Seq Polygon Repr SpecExpr.
Import ListNotations.
Local Open Scope string_scope.

Lemma app_assoc_s (a b c : string) : (a ++ b) ++ c = a ++ b ++ c.
Proof. induction a as [|x a IH]; cbn; [reflexivity|]. now rewrite IH. Qed.
Lemma app_nil_s (a : string) : a ++ "" = a.
Proof. induction a as [|x a IH]; cbn; [reflexivity|]. now rewrite IH. Qed.
Lemma lex_word w : all_word w -> forall acc s, lex acc (w ++ s) = lex (acc ++ w) s.
Proof.
  induction w as [|c w IH]; intros H acc s; [now rewrite app_nil_s|]. cbn [append lex]. rewrite (H c) by (left; reflexivity).
  rewrite IH by (intros d Hd; apply H; right; exact Hd). rewrite app_assoc_s. reflexivity.
Qed.
Lemma lex_num w c s : numeric w -> word_char c = false -> lex "" (w ++ String c s) = TNum w :: lex "" (String c s).
Proof.
  intros (A & d & r & Hw & Hd) Hc. rewrite lex_word by auto. cbn [append lex]. rewrite Hc. subst w. cbn [word_token].
  replace (digit d || (d =? "-")%char) with true; [reflexivity|]. destruct Hd as [->| ->]; reflexivity.
Qed.

Section S.
  Context {T : Type} {N : Num T}.
  Variables (show : T -> string) (read : string -> option T) (E : T).
  Notation num x := (TNum (show x)).
  Notation P c := (TPunct c%char).
  Definition tok_pt (v : vec T) : list token := [P "("; num (vx v); P ","; num (vy v); P ")"].
  Definition e_pt (v : vec T) : pexpr := ETuple [ENumber (show (vx v)); ENumber (show (vy v))].
  Fixpoint tok_pts (l : list (vec T)) : list token :=
    match l with [] => [] | [v] => tok_pt v | v :: r => (tok_pt v ++ P "," :: tok_pts r)%list end.

  Lemma lex_pt v s : legible_pt show read v -> lex "" (repr_tuple show v ++ s) = (tok_pt v ++ lex "" s)%list.
  Proof.
    intros [[A _] [B _]]. unfold repr_tuple. cbn [append lex]. change (word_char "(") with false. cbn [word_token blank app].
    change (blank "(") with false. cbn [app]. rewrite !app_assoc_s. cbn [append]. rewrite lex_num by auto. cbn [lex].
    change (word_char ",") with false. change (blank ",") with false. change (word_char " ") with false. change (blank " ") with true.
    cbn [word_token app]. rewrite !app_assoc_s. cbn [append]. rewrite lex_num by auto. reflexivity.
  Qed.
  Lemma lex_pts l s : Forall (legible_pt show read) l -> lex "" (concat ", " (map (repr_tuple show) l) ++ s) = (tok_pts l ++ lex "" s)%list.
  Proof.
    induction 1 as [|v l Hv Hl IH]; [reflexivity|]. destruct l as [|w l].
    - cbn [map concat tok_pts]. apply lex_pt; auto.
    - change (concat ", " (map (repr_tuple show) (v :: w :: l))) with (repr_tuple show v ++ ", " ++ concat ", " (map (repr_tuple show) (w :: l))).
      rewrite !app_assoc_s. rewrite lex_pt by auto. change (tok_pts (v :: w :: l)) with (tok_pt v ++ P "," :: tok_pts (w :: l))%list.
      rewrite <- app_assoc. f_equal. cbn [append lex]. change (word_char ",") with false. change (blank ",") with false. change (word_char " ") with false. change (blank " ") with true.
      cbn [word_token app]. rewrite IH. reflexivity.
  Qed.

  Lemma parse_pt n v r : 5 <= n -> parse_expr n (tok_pt v ++ r)%list = Some (e_pt v, r).
  Proof. intro H. do 5 (destruct n as [|n]; [lia|]). reflexivity. Qed.
  Definition items (l : list (vec T)) : list (option string * pexpr) := map (fun v => (None, e_pt v)) l.
  Lemma parse_pts l : forall n r, List.length l + 6 <= n -> parse_items n "]" (tok_pts l ++ P "]" :: r)%list = Some (items l, r).
  Proof.
    induction l as [|v l IH]; intros n r H.
    - destruct n; [cbn in H; lia|]. reflexivity.
    - destruct n; [cbn in H; lia|]. cbn [List.length] in H. destruct l as [|w l].
      + cbn [tok_pts items map]. cbn [parse_items]. change (keyword (tok_pt v ++ P "]" :: r)%list) with (@None string, (tok_pt v ++ P "]" :: r)%list). cbv beta iota zeta.
        rewrite (parse_pt n v (P "]" :: r)) by lia. reflexivity.
      + change (tok_pts (v :: w :: l)) with (tok_pt v ++ P "," :: tok_pts (w :: l))%list. rewrite <- app_assoc. cbn [app].
        cbn [parse_items]. change (keyword (tok_pt v ++ P "," :: tok_pts (w :: l) ++ P "]" :: r)%list) with (@None string, (tok_pt v ++ P "," :: tok_pts (w :: l) ++ P "]" :: r)%list). cbv beta iota zeta.
        rewrite (parse_pt n v) by lia. change (("," =? "]")%char) with false. cbv beta iota. rewrite (IH n r) by (cbn [List.length] in *; lia). reflexivity.
  Qed.
  Lemma positional_items l : positional (items l) = Some (map e_pt l).
  Proof.
    unfold positional, items. replace (forallb _ _) with true; [rewrite map_map; reflexivity|]. induction l; cbn in *; auto.
  Qed.
  Lemma point_e v : legible_pt show read v -> point read (e_pt v) = Some v.
  Proof. intros [[_ A] [_ B]]. cbn [point e_pt number]. rewrite A, B. destruct v; reflexivity. Qed.
  Lemma points_e l : Forall (legible_pt show read) l -> points read (EList (map e_pt l)) = Some l.
  Proof. cbn [points]. induction 1 as [|v l Hv Hl IH]; [reflexivity|]. cbn [map sequence]. rewrite (point_e v Hv), IH. reflexivity. Qed.
  Lemma tok_pts_length l : List.length l * 5 <= List.length (tok_pts l).
  Proof. induction l as [|v l IH]; [cbn; lia|]. destruct l as [|w l]; [cbn; lia|]. change (tok_pts (v :: w :: l)) with (tok_pt v ++ P "," :: tok_pts (w :: l))%list. rewrite app_length. cbn [List.length] in *. cbn [tok_pt List.length]. lia. Qed.

  (** the list of points inside a call *)
  Lemma parse_list n l r : List.length l + 7 <= n -> parse_expr n (P "[" :: tok_pts l ++ P "]" :: r)%list = Some (EList (map e_pt l), r).
  Proof.
    intro H. destruct n; [lia|]. cbn [parse_expr]. change (("[" =? "(")%char) with false. change (("[" =? "[")%char) with true. cbv beta iota.
    rewrite parse_pts by lia. unfold list_of. rewrite positional_items. reflexivity.
  Qed.

  Lemma text_pair f p q : legible_pt show read p -> legible_pt show read q ->
    (forall s, lex "" (f ++ String "(" s) = TName f :: P "(" :: lex "" s) ->
    parse (f ++ "(" ++ repr_tuple show p ++ ", " ++ repr_tuple show q ++ ")") = Some (ECall f [(None, e_pt p); (None, e_pt q)]).
  Proof.
    intros Hp Hq Hf. unfold parse. cbn [append]. rewrite Hf, lex_pt by auto. cbn [lex append]. change (word_char ",") with false. change (blank ",") with false. change (word_char " ") with false. change (blank " ") with true.
    cbn [word_token app]. rewrite lex_pt by auto. reflexivity.
  Qed.
  Definition opens (f : string) : Prop := forall s, lex "" (f ++ String "(" (String "[" s)) = TName f :: P "(" :: P "[" :: lex "" s.
  Lemma text_list0 f l : Forall (legible_pt show read) l -> opens f ->
    parse (f ++ "([" ++ concat ", " (map (repr_tuple show) l) ++ "])") = Some (ECall f [(None, EList (map e_pt l))]).
  Proof.
    intros Hl Hf. unfold parse. cbn [append]. rewrite Hf, lex_pts by auto. change (lex "" "])") with [P "]"; P ")"].
    set (ts := (TName f :: P "(" :: P "[" :: tok_pts l ++ [P "]"; P ")"])%list).
    assert (HL : List.length l * 5 + 5 <= List.length ts) by (unfold ts; cbn [List.length]; rewrite app_length; cbn [List.length]; pose proof (tok_pts_length l); lia).
    assert (X : exists n, 2 * List.length ts + 2 = S (S n) /\ List.length l + 7 <= n) by (exists (2 * List.length ts); split; lia). destruct X as (n & -> & Hn).
    unfold ts. cbn [parse_expr]. change (("(" =? "(")%char) with true. cbv beta iota. cbn [parse_items]. change (("[" =? ")")%char) with false. cbv beta iota.
    change (keyword (P "[" :: tok_pts l ++ [P "]"; P ")"])%list) with (@None string, (P "[" :: tok_pts l ++ [P "]"; P ")"])%list). cbv beta iota zeta.
    rewrite (parse_list n l [P ")"]) by lia. reflexivity.
  Qed.
  Lemma text_list1 f l k ks es : Forall (legible_pt show read) l -> opens f -> lex "" (k ++ ")") = P "," :: ks ->
    (forall n, 6 <= n -> parse_items n ")" ks = Some (es, [])) ->
    parse (f ++ "([" ++ concat ", " (map (repr_tuple show) l) ++ "]" ++ k ++ ")") = Some (ECall f ((None, EList (map e_pt l)) :: es)).
  Proof.
    intros Hl Hf Hk Hks. unfold parse. cbn [append]. rewrite Hf, lex_pts by auto. cbn [append lex]. change (word_char "]") with false. change (blank "]") with false. cbn [word_token app].
    rewrite Hk. set (ts := (TName f :: P "(" :: P "[" :: tok_pts l ++ P "]" :: P "," :: ks)%list).
    assert (HL : List.length l * 5 + 5 <= List.length ts) by (unfold ts; cbn [List.length]; rewrite app_length; cbn [List.length]; pose proof (tok_pts_length l); lia).
    assert (X : exists n, 2 * List.length ts + 2 = S (S n) /\ List.length l + 7 <= n) by (exists (2 * List.length ts); split; lia). destruct X as (n & -> & Hn).
    unfold ts. cbn [parse_expr]. change (("(" =? "(")%char) with true. cbv beta iota. cbn [parse_items]. change (("[" =? ")")%char) with false. cbv beta iota.
    change (keyword (P "[" :: tok_pts l ++ P "]" :: P "," :: ks)%list) with (@None string, (P "[" :: tok_pts l ++ P "]" :: P "," :: ks)%list). cbv beta iota zeta.
    rewrite (parse_list n l (P "," :: ks)) by lia. change (("," =? ")")%char) with false. change (("," =? ",")%char) with true. cbv beta iota. rewrite (Hks n) by lia. reflexivity.
  Qed.
  (** the keyword arguments of a polygon *)
  Definition kw (k : string) (b : bool) : option string * pexpr := (Some k, EName (repr_bool b)).
  Definition kw_of (c s : option bool) : list (option string * pexpr) :=
    match c with
    | None => []
    | Some true => [kw "is_convex" true]
    | Some false => kw "is_convex" false :: match s with Some s => [kw "is_simple" s] | None => [] end
    end.
  Lemma parse_poly p : Forall (legible_pt show read) (pverts p) ->
    parse (repr_poly show p) = Some (ECall "Polygon" ((None, EList (map e_pt (pverts p))) :: kw_of (pconvex p) (psimple p))).
  Proof.
    intro H. assert (HO : opens "Polygon") by (intro s; reflexivity). unfold repr_poly.
    assert (D : forall n, 6 <= n -> exists m, n = S (S (S (S (S (S m)))))) by (intros n Hn; exists (n - 6); lia).
    destruct (pconvex p) as [[|]|].
    - apply (text_list1 "Polygon" (pverts p) ", is_convex=True" [TName "is_convex"; P "="; TName "True"; P ")"]); auto. intros n Hn. destruct (D n Hn) as (m & ->). reflexivity.
    - destruct (psimple p) as [[|]|].
      + apply (text_list1 "Polygon" (pverts p) ", is_convex=False, is_simple=True" [TName "is_convex"; P "="; TName "False"; P ","; TName "is_simple"; P "="; TName "True"; P ")"]); auto. intros n Hn. destruct (D n Hn) as (m & ->). reflexivity.
      + apply (text_list1 "Polygon" (pverts p) ", is_convex=False, is_simple=False" [TName "is_convex"; P "="; TName "False"; P ","; TName "is_simple"; P "="; TName "False"; P ")"]); auto. intros n Hn. destruct (D n Hn) as (m & ->). reflexivity.
      + apply (text_list1 "Polygon" (pverts p) ", is_convex=False" [TName "is_convex"; P "="; TName "False"; P ")"]); auto. intros n Hn. destruct (D n Hn) as (m & ->). reflexivity.
    - apply (text_list0 "Polygon" (pverts p)); auto.
  Qed.
  Lemma eval_poly p : Forall (legible_pt show read) (pverts p) ->
    evaluate read E (repr_poly show p) = Some (rmap (@VPoly T) (let '(vs, c, s) := poly_repr p in poly_new vs c s)).
  Proof.
    intro H. unfold evaluate. rewrite parse_poly by auto. unfold poly_repr.
    destruct (pconvex p) as [[|]|]; [| destruct (psimple p) as [[|]|] |]; cbn [kw_of kw repr_bool eval]; rewrite (points_e _ H); reflexivity.
  Qed.
  Lemma eval_array l : Forall (legible_pt show read) l -> evaluate read E (repr_array show l) = Some (Ok (VArray (seq_new l))).
  Proof. intro H. unfold evaluate. change (repr_array show l) with ("Vec2Array" ++ "([" ++ concat ", " (map (repr_tuple show) l) ++ "])"). rewrite (text_list0 "Vec2Array" l) by (auto; intro s; reflexivity). cbn [eval]. rewrite (points_e _ H). reflexivity. Qed.
  Lemma eval_box b : legible_pt show read (bmin b) -> legible_pt show read (bmax b) ->
    evaluate read E (repr_box show b) = Some (rmap (@VBox T) (box_from_points [bmin b; bmax b])).
  Proof.
    intros H1 H2. assert (H : Forall (legible_pt show read) [bmin b; bmax b]) by auto. unfold evaluate.
    replace (repr_box show b) with ("BoundingBox" ++ "([" ++ concat ", " (map (repr_tuple show) [bmin b; bmax b]) ++ "])").
    - rewrite (text_list0 "BoundingBox" [bmin b; bmax b]) by (auto; intro s; reflexivity). cbn [eval]. rewrite (points_e _ H). reflexivity.
    - unfold repr_box, repr_tuple. repeat (cbn [map concat append]; rewrite ?app_assoc_s). reflexivity.
  Qed.
  Lemma eval_pair f p q : legible_pt show read p -> legible_pt show read q -> (forall s, lex "" (f ++ String "(" s) = TName f :: P "(" :: lex "" s) ->
    evaluate read E (f ++ "(" ++ repr_tuple show p ++ ", " ++ repr_tuple show q ++ ")") = eval read E (ECall f [(None, e_pt p); (None, e_pt q)]).
  Proof. intros. unfold evaluate. rewrite text_pair by auto. reflexivity. Qed.
  Lemma eval_ray r : legible_pt show read (ranchor r) -> legible_pt show read (ddir (rdn r)) ->
    evaluate read E (repr_ray show r) = Some (rmap (@VRay T) (ray_new E (ranchor r) (ddir (rdn r)))).
  Proof. intros A B. change (repr_ray show r) with ("Ray" ++ "(" ++ repr_tuple show (ranchor r) ++ ", " ++ repr_tuple show (ddir (rdn r)) ++ ")"). rewrite (eval_pair "Ray") by (auto; intro s; reflexivity). cbn [eval]. rewrite !point_e by auto. reflexivity. Qed.
  Lemma eval_seg s : legible_pt show read (sanchor s) -> legible_pt show read (seg_vector s) ->
    evaluate read E (repr_seg show s) = Some (rmap (@VSeg T) (seg_new E (sanchor s) (seg_vector s))).
  Proof. intros A B. change (repr_seg show s) with ("LineSegment" ++ "(" ++ repr_tuple show (sanchor s) ++ ", " ++ repr_tuple show (seg_vector s) ++ ")"). rewrite (eval_pair "LineSegment") by (auto; intro x; reflexivity). cbn [eval]. rewrite !point_e by auto. reflexivity. Qed.
  Lemma eval_line l p : line_project E l (mkV n0 n0) = Ok p -> legible_pt show read p -> legible_pt show read (ddir (ldn l)) ->
    exists t, repr_line show E l = Ok t /\ evaluate read E t = Some (rmap (@VLine T) (line_new E p (ddir (ldn l)))).
  Proof. intros H A B. unfold repr_line. rewrite H. cbn [bind]. eexists. split; [reflexivity|]. change ("Line(" ++ repr_tuple show p ++ ", " ++ repr_tuple show (ddir (ldn l)) ++ ")") with ("Line" ++ "(" ++ repr_tuple show p ++ ", " ++ repr_tuple show (ddir (ldn l)) ++ ")"). rewrite (eval_pair "Line") by (auto; intro x; reflexivity). cbn [eval]. rewrite !point_e by auto. reflexivity. Qed.
  Lemma lex_sep w s : numeric w -> lex "" (w ++ ", " ++ s) = TNum w :: P "," :: lex "" s.
  Proof. intro H. cbn [append]. rewrite lex_num by auto. reflexivity. Qed.
  Lemma lex_end w : numeric w -> lex "" (w ++ ")") = [TNum w; P ")"].
  Proof. intro H. rewrite lex_num by auto. reflexivity. Qed.
  Lemma eval_vec v : legible_pt show read v -> evaluate read E (repr_vec show v) = Some (Ok (VVec (vec2_of v))).
  Proof.
    intros [[A A'] [B B']]. unfold evaluate, parse, repr_vec.
    change (lex "" ("Vec2(" ++ ?s)) with (TName "Vec2" :: P "(" :: lex "" s). rewrite lex_sep, lex_end by auto.
    cbn. rewrite A', B'. reflexivity.
  Qed.
  Lemma eval_affine m : Forall (legible show read) [aa m; ab m; ac m; ad m; ae m; af m] ->
    evaluate read E (repr_affine show m) = Some (Ok (VAffine (affine_new (aa m) (ab m) (ac m) (ad m) (ae m) (af m)))).
  Proof.
    intro H. repeat match goal with H : Forall _ (_ :: _) |- _ => inversion H; clear H; subst end.
    repeat match goal with H : legible _ _ _ |- _ => destruct H end. unfold evaluate, parse, repr_affine.
    change (lex "" ("Affine(" ++ ?s)) with (TName "Affine" :: P "(" :: lex "" s). rewrite !lex_sep by auto.
    assert (K : forall w s, numeric w -> lex "" (w ++ "," ++ String newline ("       " ++ s)) = TNum w :: P "," :: lex "" s).
    { intros w s Hw. cbn [append]. rewrite lex_num by auto. reflexivity. }
    rewrite K, !lex_sep, lex_end by auto. cbn [List.length Nat.mul Nat.add]. cbn [parse_expr parse_items keyword].
    repeat match goal with H : read _ = _ |- _ => revert H end. cbn. intros. 
    repeat match goal with H : read _ = _ |- _ => rewrite H end. reflexivity.
  Qed.
End S.
