(** * Specification: reading Python expressions

    The part of Python's expression syntax needed to read back printed
    objects: numbers, names, tuples, lists and calls with positional and
    keyword arguments; and the evaluation of calls of planar's constructors. *)
From Coq Require Import List String Ascii Bool Arith.
From Verif Require Import Num Vec Affine Box Line Seq Polygon.
Import ListNotations.
Local Open Scope string_scope.

(** ** Tokens *)
Definition code_in (lo hi : nat) (c : ascii) : bool := (lo <=? nat_of_ascii c)%nat && (nat_of_ascii c <=? hi)%nat.
Definition digit (c : ascii) : bool := code_in 48 57 c.
(** letters, digits, '_', and the signs and dots that occur in numbers *)
Definition word_char (c : ascii) : bool :=
  digit c || code_in 65 90 c || code_in 97 122 c || Ascii.eqb c "_" || Ascii.eqb c "." || Ascii.eqb c "+" || Ascii.eqb c "-".
Definition blank (c : ascii) : bool := Ascii.eqb c " " || Ascii.eqb c "010".
Inductive token : Type := TName (s : string) | TNum (s : string) | TPunct (c : ascii).
(** A word is a number when it starts with a digit or a minus sign. *)
Definition word_token (w : string) : list token :=
  match w with
  | EmptyString => []
  | String c _ => if digit c || Ascii.eqb c "-" then [TNum w] else [TName w]
  end.
Fixpoint lex (w : string) (s : string) : list token :=
  match s with
  | EmptyString => word_token w
  | String c s' =>
      if word_char c then lex (w ++ String c EmptyString) s'
      else word_token w ++ (if blank c then [] else [TPunct c]) ++ lex EmptyString s'
  end%list.
(** Texts that are one number. *)
Definition all_word (s : string) : Prop := forall c, In c (list_ascii_of_string s) -> word_char c = true.
Definition numeric (s : string) : Prop := all_word s /\ exists c r, s = String c r /\ (digit c = true \/ c = "-"%char).

(** ** Expressions *)
Inductive pexpr : Type :=
| ENumber (s : string) | EName (s : string) | ETuple (l : list pexpr) | EList (l : list pexpr)
| ECall (f : string) (args : list (option string * pexpr)).

Definition positional (l : list (option string * pexpr)) : option (list pexpr) :=
  if forallb (fun x => match fst x with None => true | Some _ => false end) l then Some (map snd l) else None.
Definition tuple_of (l : list (option string * pexpr)) : option pexpr :=
  match positional l with
  | Some [_] => None      (* a parenthesised expression: not needed *)
  | Some es => Some (ETuple es)
  | None => None
  end.
Definition list_of (l : list (option string * pexpr)) : option pexpr :=
  match positional l with Some es => Some (EList es) | None => None end.

Definition keyword (ts : list token) : option string * list token :=
  match ts with
  | TName k :: TPunct c :: r => if Ascii.eqb c "=" then (Some k, r) else (None, ts)
  | _ => (None, ts)
  end.

Fixpoint parse_expr (n : nat) (ts : list token) {struct n} : option (pexpr * list token) :=
  match n with
  | O => None
  | S n =>
      match ts with
      | TNum s :: r => Some (ENumber s, r)
      | TName f :: r =>
          match r with
          | TPunct c :: r' =>
              if Ascii.eqb c "(" then
                match parse_items n ")" r' with
                | Some (es, r'') => Some (ECall f es, r'')
                | None => None
                end
              else Some (EName f, r)
          | _ => Some (EName f, r)
          end
      | TPunct c :: r =>
          if Ascii.eqb c "(" then
            match parse_items n ")" r with
            | Some (es, r') => match tuple_of es with Some e => Some (e, r') | None => None end
            | None => None
            end
          else if Ascii.eqb c "[" then
            match parse_items n "]" r with
            | Some (es, r') => match list_of es with Some e => Some (e, r') | None => None end
            | None => None
            end
          else None
      | [] => None
      end
  end
(** items separated by commas up to the closing bracket *)
with parse_items (n : nat) (close : ascii) (ts : list token) {struct n} : option (list (option string * pexpr) * list token) :=
  match n with
  | O => None
  | S n =>
      let item :=
        let '(k, ts') := keyword ts in
        match parse_expr n ts' with
        | Some (e, TPunct c :: r) =>
            if Ascii.eqb c close then Some ([(k, e)], r)
            else if Ascii.eqb c "," then
              match parse_items n close r with Some (es, r') => Some ((k, e) :: es, r') | None => None end
            else None
        | _ => None
        end in
      match ts with
      | TPunct c :: r => if Ascii.eqb c close then Some ([], r) else item
      | _ => item
      end
  end.

Definition parse (s : string) : option pexpr :=
  let ts := lex EmptyString s in
  match parse_expr (2 * List.length ts + 2) ts with
  | Some (e, []) => Some e
  | _ => None
  end.

(** ** Evaluation *)
Section Eval.
  Context {T : Type} {N : Num T}.
  Variable read : string -> option T.   (* the value of a number literal *)
  Variable E : T.

  Inductive pvalue : Type :=
  | VVec (v : vec T) | VAffine (m : affine T) | VBox (b : bbox T) | VArray (l : list (vec T))
  | VLine (l : line T) | VRay (r : ray T) | VSeg (s : segment T) | VPoly (p : poly T).

  Definition number (e : pexpr) : option T := match e with ENumber s => read s | _ => None end.
  Definition point (e : pexpr) : option (vec T) :=
    match e with
    | ETuple [a; b] => match number a, number b with Some x, Some y => Some (mkV x y) | _, _ => None end
    | _ => None
    end.
  Fixpoint sequence {X Y : Type} (f : X -> option Y) (l : list X) : option (list Y) :=
    match l with
    | [] => Some []
    | x :: r => match f x, sequence f r with Some y, Some ys => Some (y :: ys) | _, _ => None end
    end.
  Definition points (e : pexpr) : option (list (vec T)) := match e with EList l => sequence point l | _ => None end.
  Definition truth (e : pexpr) : option bool :=
    match e with
    | EName s => if String.eqb s "True" then Some true else if String.eqb s "False" then Some false else None
    | _ => None
    end.
  (** value of a keyword argument, [None] when absent *)
  Fixpoint kwarg (k : string) (l : list (option string * pexpr)) : option (option bool) :=
    match l with
    | [] => Some None
    | (Some k', e) :: r => if String.eqb k k' then match truth e with Some b => Some (Some b) | None => None end else kwarg k r
    | (None, _) :: _ => None
    end.

  (** [None]: not an expression of this form. *)
  Definition eval (e : pexpr) : option (res pvalue) :=
    match e with
    | ECall f args =>
        match args with
        | [(None, a); (None, b)] =>
            if String.eqb f "Vec2" then
              match number a, number b with Some x, Some y => Some (Ok (VVec (vec2 x y))) | _, _ => None end
            else match point a, point b with
            | Some p, Some d =>
                if String.eqb f "Line" then Some (rmap VLine (line_new E p d))
                else if String.eqb f "Ray" then Some (rmap VRay (ray_new E p d))
                else if String.eqb f "LineSegment" then Some (rmap VSeg (seg_new E p d))
                else None
            | _, _ => None
            end
        | [(None, a); (None, b); (None, c); (None, d); (None, e); (None, g)] =>
            if String.eqb f "Affine" then
              match sequence number [a; b; c; d; e; g] with
              | Some [a; b; c; d; e; g] => Some (Ok (VAffine (affine_new a b c d e g)))
              | _ => None
              end
            else None
        | (None, ps) :: kw =>
            match points ps, kwarg "is_convex" kw, kwarg "is_simple" kw with
            | Some l, Some c, Some s =>
                if String.eqb f "Polygon" then Some (rmap VPoly (poly_new l c s))
                else match kw with
                | [] => if String.eqb f "BoundingBox" then Some (rmap VBox (box_from_points l))
                        else if String.eqb f "Vec2Array" then Some (Ok (VArray (seq_new l)))
                        else None
                | _ => None
                end
            | _, _, _ => None
            end
        | _ => None
        end
    | _ => None
    end.

  (** The value of a printed text. *)
  Definition evaluate (s : string) : option (res pvalue) := match parse s with Some e => eval e | None => None end.
End Eval.
Arguments pvalue T : clear implicits.

(** Printing of the number [x] can be read back. *)
Definition legible {T} (show : T -> string) (read : string -> option T) (x : T) : Prop :=
  numeric (show x) /\ read (show x) = Some x.
Definition legible_pt {T} (show : T -> string) (read : string -> option T) (v : vec T) : Prop :=
  legible show read (vx v) /\ legible show read (vy v).
