(** Specification vocabulary for the parser: the operator grammar with its trees, the binding rule, the
    roles of tokens. Nothing here mentions stacks. *)
From Coq Require Import List Ascii String NArith ZArith Bool Lia Arith.
From Verif Require Import M_Base M_StringUtil M_Tree M_Context M_Tokenizer M_Parser S_Engine.
Import ListNotations.
Open Scope nat_scope.

(** A token with its position in the token list *)
Definition tk := (nat * cstr)%type.
Definition opening (t : tk) : Prop := is_opening_parenthesis (snd t) = true.
Definition closing (t : tk) : Prop := is_closing_parenthesis (snd t) = true.
Definition delimiter (t : tk) : Prop := is_delimiter (snd t) = true.
Definition blank (t : tk) : bool := is_space (hd NUL (snd t)).
Definition plain (t : tk) : Prop := blank t = false /\ ~ opening t /\ ~ closing t /\ ~ delimiter t.

(** Expressions of the operator grammar, with all their tokens. *)
Inductive sterm :=
| SConst (t : tk) (v : double)                       (** a number *)
| SVar (t : tk)                                      (** a variable *)
| SNull (op : operator) (t : tk)                     (** a function of no arguments: pi *)
| SParen (o : tk) (s : sterm) (c : tk)               (** ( s ) *)
| SFun (op : operator) (t o : tk) (args : sargs)     (** f ( s , ... , s ) *)
| SEmpty (op : operator) (t o c : tk)                (** f ( ) *)
| SPre (op : operator) (t : tk) (s : sterm)          (** - s *)
| SPost (op : operator) (s : sterm) (t : tk)         (** s ! *)
| SInf (op : operator) (l : sterm) (t : tk) (r : sterm)  (** l + r *)
| SGlue (g : operator) (l r : sterm)                 (** l r: implicit multiplication *)
with sargs :=
| ALast (s : sterm) (c : tk)                         (** s ) *)
| AMore (s : sterm) (d : tk) (more : sargs).         (** s , ... *)

Fixpoint flatten (s : sterm) : list tk :=
  match s with
  | SConst t _ | SVar t | SNull _ t => [t]
  | SParen o s c => o :: flatten s ++ [c]
  | SFun _ t o args => t :: o :: flatten_args args
  | SEmpty _ t o c => [t; o; c]
  | SPre _ t s => t :: flatten s
  | SPost _ s t => flatten s ++ [t]
  | SInf _ l t r => flatten l ++ t :: flatten r
  | SGlue _ l r => flatten l ++ flatten r
  end
with flatten_args (a : sargs) : list tk :=
  match a with
  | ALast s c => flatten s ++ [c]
  | AMore s d more => flatten s ++ d :: flatten_args more
  end.

Fixpoint first (s : sterm) : tk :=
  match s with
  | SConst t _ | SVar t | SNull _ t => t
  | SParen o _ _ => o
  | SFun _ t _ _ | SEmpty _ t _ _ => t
  | SPre _ t _ => t
  | SPost _ s _ => first s
  | SInf _ l _ _ => first l
  | SGlue _ l _ => first l
  end.

(** The tree an expression stands for. Every node knows the position of its token; an implicit
    multiplication has the position of the first token of its right operand. *)
Fixpoint erase (s : sterm) : node :=
  match s with
  | SConst t v => NConst v (fst t)
  | SVar t => NVar (snd t) 0 (fst t)
  | SNull op t => NOp op [] (fst t)
  | SParen _ s _ => erase s
  | SFun op t _ args => NOp op (erase_args args) (fst t)
  | SEmpty op t _ _ => NOp op [] (fst t)
  | SPre op t s => NOp op [erase s] (fst t)
  | SPost op s t => NOp op [erase s] (fst t)
  | SInf op l t r => NOp op [erase l; erase r] (fst t)
  | SGlue g l r => NOp g [erase l; erase r] (fst (first r))
  end
with erase_args (a : sargs) : list node :=
  match a with
  | ALast s _ => [erase s]
  | AMore s _ more => erase s :: erase_args more
  end.
Fixpoint nargs (a : sargs) : nat := match a with ALast _ _ => 1 | AMore _ _ more => S (nargs more) end.

(** The operators that reach out to the left edge / the right edge of an expression, that is, the ones
    that could compete for an operand standing there. *)
Fixpoint left_edge (s : sterm) : list operator :=
  match s with
  | SPost op s _ => op :: left_edge s
  | SInf op l _ _ => op :: left_edge l
  | SGlue g l _ => g :: left_edge l
  | _ => []
  end.
Fixpoint right_edge (s : sterm) : list operator :=
  match s with
  | SPre op _ s => op :: right_edge s
  | SInf op _ _ r => op :: right_edge r
  | SGlue g _ r => g :: right_edge r
  | _ => []
  end.

(** In "... a x b ..." the operand x goes to a if a binds stronger, or equally strong and b is
    left-associative; otherwise it goes to b. *)
Definition goes_left (a b : operator) : Prop :=
  o_prec b < o_prec a \/ (o_prec b = o_prec a /\ o_assoc b = ALeft).

(** Every operand belongs to the operator that precedence and associativity assign it to. *)
Fixpoint correct (s : sterm) : Prop :=
  match s with
  | SConst _ _ | SVar _ | SNull _ _ | SEmpty _ _ _ _ => True
  | SParen _ s _ => correct s
  | SFun _ _ _ args => correct_args args
  | SPre op _ s => correct s /\ (forall o, In o (left_edge s) -> ~ goes_left op o)
  | SPost op s _ => correct s /\ (forall o, In o (right_edge s) -> goes_left o op)
  | SInf op l _ r | SGlue op l r =>
    correct l /\ correct r
    /\ (forall o, In o (right_edge l) -> goes_left o op)
    /\ (forall o, In o (left_edge r) -> ~ goes_left op o)
  end
with correct_args (a : sargs) : Prop :=
  match a with
  | ALast s _ => correct s
  | AMore s _ more => correct s /\ correct_args more
  end.

Section Grammar.
Variable strtod : cstr -> option double.
Variable pc : pctx.
Definition named (p : placement) (t : tk) (op : operator) : Prop := pc_lookup pc p (snd t) = Some op.
Definition no_name (p : placement) (t : tk) : Prop := pc_lookup pc p (snd t) = None.

(** Which tokens may stand where. Where a name has two readings the grammar prefers function over prefix
    and infix over postfix; an implicit multiplication is only read if the token cannot be an infix or
    postfix operator. *)
Fixpoint wfs (s : sterm) : Prop :=
  match s with
  | SConst t v => plain t /\ no_name PFunction t /\ no_name PPrefix t /\ strtod (snd t) = Some v
  | SVar t => plain t /\ (forall p, no_name p t) /\ strtod (snd t) = None /\ is_letter (hd NUL (snd t)) = true
  | SNull op t => plain t /\ named PFunction t op /\ o_arity op = Some 0
  | SParen o s c => opening o /\ wfs s /\ closing c
  | SFun op t o args => plain t /\ named PFunction t op /\ o_arity op <> Some 0
      /\ (o_arity op = None \/ o_arity op = Some (nargs args)) /\ opening o /\ wfa args
  | SEmpty op t o c => plain t /\ named PFunction t op /\ o_arity op = None /\ opening o /\ closing c
  | SPre op t s => plain t /\ no_name PFunction t /\ named PPrefix t op /\ wfs s
  | SPost op s t => wfs s /\ plain t /\ no_name PInfix t /\ named PPostfix t op
  | SInf op l t r => wfs l /\ plain t /\ named PInfix t op /\ wfs r
  | SGlue g l r => pc_glue pc = Some g /\ wfs l /\ wfs r /\ no_name PInfix (first r) /\ no_name PPostfix (first r)
  end
with wfa (a : sargs) : Prop :=
  match a with
  | ALast s c => wfs s /\ closing c
  | AMore s d more => wfs s /\ delimiter d /\ wfa more
  end.
End Grammar.

(** Contexts whose operators were made by op_get_prefix, op_get_infix, op_get_postfix, op_get_function
    (operator.c), and whose glue operator is none or infix. Infix operators of the highest precedence
    (the one of functions) must be left-associative. *)
Definition made (op : operator) : Prop :=
  match o_place op with
  | PPrefix => o_arity op = Some 1
  | PInfix => o_arity op = Some 2 /\ (o_prec op < 255 \/ (o_prec op = 255 /\ o_assoc op = ALeft))
  | PPostfix => o_arity op = Some 1 /\ o_prec op <= 255 /\ o_assoc op = ALeft
  | PFunction => o_prec op = 255
  end.
Definition usual (pc : pctx) : Prop :=
  (forall p n op, pc_lookup pc p n = Some op -> o_place op = p /\ made op)
  /\ (forall g, pc_glue pc = Some g -> o_place g = PInfix /\ made g).

(** The tokens with their positions, without blanks *)
Definition indexed (i : nat) (ts : list cstr) : list tk := combine (seq i (List.length ts)) ts.
Definition unblanked (ts : list cstr) : list tk := filter (fun t => negb (blank t)) (indexed 0 ts).

(** The role every token plays, decided from left to right by whether it stands behind an operand (C18).
    A token behind an operand that is neither infix nor postfix operator gets an implicit multiplication
    in front. *)
Inductive role := ROperand (n : node) | ROperator (op : operator) (pos : nat).
Section Roles.
Variable strtod : cstr -> option double.
Variable pc : pctx.
Definition glue_role (t : tk) : list role :=
  match pc_glue pc with Some g => [ROperator g (fst t)] | None => [] end.
(** a token in operand position: its role, and whether it completes an operand *)
Definition operand_role (t : tk) : role * bool :=
  match pc_lookup pc PFunction (snd t) with
  | Some f => if arity_eqb (o_arity f) (Some 0) then (ROperand (NOp f [] (fst t)), true) else (ROperator f (fst t), false)
  | None =>
    match pc_lookup pc PPrefix (snd t) with
    | Some op => (ROperator op (fst t), false)
    | None => (ROperand (match strtod (snd t) with Some v => NConst v (fst t) | None => NVar (snd t) 0 (fst t) end), true)
    end
  end.
Fixpoint roles (behind : bool) (ts : list tk) : list role :=
  match ts with
  | [] => []
  | t :: ts' =>
    if is_opening_parenthesis (snd t) then (if behind then glue_role t else []) ++ roles false ts'
    else if is_closing_parenthesis (snd t) then roles true ts'
    else if is_delimiter (snd t) then roles false ts'
    else if behind then
      match pc_lookup pc PInfix (snd t) with
      | Some op => ROperator op (fst t) :: roles false ts'
      | None =>
        match pc_lookup pc PPostfix (snd t) with
        | Some op => ROperator op (fst t) :: roles true ts'
        | None => glue_role t ++ fst (operand_role t) :: roles (snd (operand_role t)) ts'
        end
      end
    else fst (operand_role t) :: roles (snd (operand_role t)) ts'
  end.
End Roles.
Definition operands (rs : list role) : list node := flat_map (fun r => match r with ROperand n => [n] | _ => [] end) rs.
Definition operators (rs : list role) : list (operator * nat) :=
  flat_map (fun r => match r with ROperator op i => [(op, i)] | _ => [] end) rs.

(** Constants, variables and nullary functions of a tree from left to right; the other operators *)
Fixpoint leaves (n : node) : list node :=
  match n with
  | NConst _ _ | NVar _ _ _ => [n]
  | NOp op cs i => if arity_eqb (o_arity op) (Some 0) then [n] else flat_map leaves cs
  end.
Fixpoint tree_ops (n : node) : list (operator * nat) :=
  match n with
  | NConst _ _ | NVar _ _ _ => []
  | NOp op cs i => if arity_eqb (o_arity op) (Some 0) then [] else (op, i) :: flat_map tree_ops cs
  end.

(** Every operator node has the number of operands its operator demands (C17). *)
Fixpoint arities_ok (n : node) : Prop :=
  match n with
  | NConst _ _ | NVar _ _ _ => True
  | NOp op cs _ =>
    (o_arity op = None \/ o_arity op = Some (List.length cs))
    /\ (fix all (l : list node) : Prop := match l with [] => True | x :: l' => arities_ok x /\ all l' end) cs
  end.

(** No delimiter stands in a parenthesis that directly follows an opening parenthesis or a delimiter
    (C16). [opened]: for every open parenthesis, innermost first, whether it does; [prev]: whether the
    previous token was an opening parenthesis or a delimiter. *)
Fixpoint safe_delimiters (opened : list bool) (prev : bool) (ts : list tk) : Prop :=
  match ts with
  | [] => True
  | t :: ts' =>
    if is_opening_parenthesis (snd t) then safe_delimiters (prev :: opened) true ts'
    else if is_closing_parenthesis (snd t) then safe_delimiters (tl opened) false ts'
    else if is_delimiter (snd t) then hd false opened = false /\ safe_delimiters opened true ts'
    else safe_delimiters opened false ts'
  end.

(** A tree without token positions; outcomes that agree up to token positions (C21) *)
Fixpoint unplaced (n : node) : node :=
  match n with
  | NConst v _ => NConst v 0
  | NVar x id _ => NVar x id 0
  | NOp op cs _ => NOp op (map unplaced cs) 0
  end.
Definition same_outcome (a b : pout) : Prop :=
  match a, b with
  | PTree t, PTree t' => unplaced t = unplaced t'
  | PErr e _, PErr e' _ => e = e'
  | PNoTree, PNoTree => True
  | _, _ => False
  end.
(** The same token, or two opening parentheses, or two closing parentheses *)
Definition alike (a b : tk) : Prop :=
  snd a = snd b \/ (opening a /\ opening b) \/ (closing a /\ closing b).

(** No closing parenthesis stands where an operand is expected, except directly behind an opening
    parenthesis or a delimiter (C20). [behind]: an operand was just completed; [prev]: the previous
    token was an opening parenthesis or a delimiter. *)
Section Dangling.
Variable strtod : cstr -> option double.
Variable pc : pctx.
Fixpoint no_dangling (behind prev : bool) (ts : list tk) : Prop :=
  match ts with
  | [] => True
  | t :: ts' =>
    if is_opening_parenthesis (snd t) then no_dangling false true ts'
    else if is_closing_parenthesis (snd t) then (behind = true \/ prev = true) /\ no_dangling true false ts'
    else if is_delimiter (snd t) then no_dangling false true ts'
    else if behind then
      match pc_lookup pc PInfix (snd t) with
      | Some _ => no_dangling false false ts'
      | None =>
        match pc_lookup pc PPostfix (snd t) with
        | Some _ => no_dangling true false ts'
        | None => no_dangling (snd (operand_role strtod pc t)) false ts'
        end
      end
    else no_dangling (snd (operand_role strtod pc t)) false ts'
  end.
End Dangling.

(** A context as a client sets one up: operators built by the four constructors are added and deleted, then
    the glue operator is chosen: none or a registered infix operator. Names consist of characters the
    tries can hold, registered names do not begin with a digit or point. *)
Definition built (op : operator) : Prop :=
  (exists n p, op = op_get_prefix n p)
  \/ (exists n p a, op = op_get_infix n p a /\ (p < 255 \/ (p = 255 /\ a = ALeft)))
  \/ (exists n p, op = op_get_postfix n p /\ p <= 255)
  \/ (exists n a, op = op_get_function n a).
Definition built_call (o : cop) : Prop := match o with CAdd op => built op | _ => True end.
Definition set_up (c : ctx) : Prop :=
  exists ops c0 outs r g b,
    Forall cop_storable ops /\ Forall built_call ops /\ ctx_run ctx_create ops = Ok (c0, outs)
    /\ reg_run [] ops r outs /\ (forall o, In o r -> ~ starts_in digit_char (o_name o))
    /\ (g = None \/ exists n o, ctx_lookup_op c0 n PInfix = Ok (Some o) /\ g = Some (o_addr o))
    /\ ctx_set_glue_op c0 g = Ok (c, b).

(** Two characters that are equal or two brackets that open (close) both *)
Definition opens (c : ascii) : Prop := nat_of_ascii c = 40 \/ nat_of_ascii c = 123.   (** ( and { *)
Definition closes (c : ascii) : Prop := nat_of_ascii c = 41 \/ nat_of_ascii c = 125.  (** ) and } *)
Definition alike_char (a b : ascii) : Prop := a = b \/ (opens a /\ opens b) \/ (closes a /\ closes b).
(** No operator's name contains a bracket. *)
Definition no_bracket_names (c : ctx) : Prop :=
  forall n p o, ctx_lookup_op c n p = Ok (Some o) -> Forall (fun ch => ~ opens ch /\ ~ closes ch) n.
