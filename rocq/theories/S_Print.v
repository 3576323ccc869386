(** Specification vocabulary for printing: C22, C23. *)
From Coq Require Import List Ascii String NArith ZArith Bool Lia Arith.
From Verif Require Import M_Base M_StringUtil M_Tree M_Trie M_Context M_Tokenizer M_Parser S_Engine S_Parse.
Import ListNotations.
Open Scope nat_scope.

(** A tree without token positions and variable numbers *)
Fixpoint bare_tree (n : node) : node :=
  match n with
  | NConst v _ => NConst v 0
  | NVar x _ _ => NVar x 0 0
  | NOp op cs _ => NOp op (map bare_tree cs) 0
  end.

(** The operator [op] is registered in [c]. *)
Definition registered (c : ctx) (op : operator) : Prop := ctx_lookup_op c (o_name op) (o_place op) = Ok (Some op).
Definition unused (c : ctx) (n : cstr) (p : placement) : Prop := ctx_lookup_op c n p = Ok None.

Section Trees.
Variable strtod : cstr -> option double.
Variable fmt : double -> cstr.
Variable c : ctx.

(** The tree is built from operators of the context with the right number of operands; its constants print
    as tokens that denote them, its variables have names that cannot be taken for anything else. *)
Fixpoint printable_tree (n : node) : Prop :=
  match n with
  | NConst v _ => plain (0, fmt v) /\ unused c (fmt v) PFunction /\ unused c (fmt v) PPrefix /\ strtod (fmt v) = Some v
  | NVar x _ _ => plain (0, x) /\ (forall p, unused c x p) /\ strtod x = None /\ is_letter (hd NUL x) = true
  | NOp op cs _ =>
    registered c op /\ (o_arity op = None \/ o_arity op = Some (List.length cs))
    /\ (fix all (l : list node) : Prop := match l with [] => True | x :: l' => printable_tree x /\ all l' end) cs
  end.

(** Constants print as digits and points, variables are runs of letters. *)
Fixpoint plain_leaves (n : node) : Prop :=
  match n with
  | NConst v _ => fmt v <> [] /\ Forall digit_char (fmt v)
  | NVar x _ _ => x <> [] /\ Forall letter_char x
  | NOp _ cs _ => (fix all (l : list node) : Prop := match l with [] => True | x :: l' => plain_leaves x /\ all l' end) cs
  end.
End Trees.

(** The number prints as digits and points, and what is printed reads as the same number. *)
Definition reads_back (strtod : cstr -> option double) (fmt : double -> cstr) (v : double) : Prop :=
  fmt v <> [] /\ Forall digit_char (fmt v) /\ strtod (fmt v) = Some v.

(** Contexts in which a name does not have two readings at the same place, no postfix operator binds as strong
    as a right-associative infix operator, and names are tokens the printer can print *)
Definition printable_ctx (c : ctx) : Prop :=
  no_bracket_names c
  /\ (forall o, registered c o -> o_name o <> str ",")
  /\ (forall n o, ctx_lookup_op c n PPrefix = Ok (Some o) -> unused c n PFunction /\ ~ In "%"%char n)
  /\ (forall n o, ctx_lookup_op c n PPostfix = Ok (Some o) -> unused c n PInfix)
  /\ (forall a b, registered c a -> registered c b -> o_place a = PInfix -> o_place b = PPostfix ->
      o_assoc a = ARight -> o_prec a <> o_prec b).

(** Characters of operator names that are no words *)
Definition symbol_char (ch : ascii) : Prop :=
  ~ letter_char ch /\ ~ digit_char ch /\ ~ opens ch /\ ~ closes ch /\ ch <> ","%char /\ ch <> " "%char.
Definition word (n : cstr) : Prop := n <> [] /\ Forall letter_char n.
Definition symbol (n : cstr) : Prop := n <> [] /\ Forall symbol_char n.
(** Functions are words, prefix and postfix operators symbols, infix operators words or symbols, and the tokenizer
    knows the symbols. *)
Definition readable_ctx (c : ctx) : Prop :=
  forall o, registered c o ->
    (word (o_name o) /\ (o_place o = PFunction \/ o_place o = PInfix))
    \/ (symbol (o_name o) /\ o_place o <> PFunction /\ tokenize (fun s => fst (trie_longest_prefix (c_kw c) s)) (o_name o) = Ok [o_name o]).
