(** Specification vocabulary for sessions: C38-C41, C47, C52, C55, C56, C65, C66. *)
From Coq Require Import List Ascii String NArith ZArith Bool Lia Arith.
From Verif Require Import M_Base M_StringUtil M_Trie M_Tree M_Context M_Tokenizer M_Parser M_TreeUtil M_Match M_RuleParsing M_ArithCtx M_Double M_Eval M_Simplify M_Session
  S_Util S_Engine S_Tree S_Parse S_Match.
Import ListNotations.
Open Scope list_scope.
Open Scope nat_scope.

(** ** User-defined functions (C38, C55) *)
(** A function: the operator that names it, the names of its parameters, its body *)
Record fundef := mkFun { f_op : operator; f_params : list cstr; f_body : node }.

(** The argument given for the parameter [x] *)
Fixpoint arg_of (xs : list cstr) (args : list node) (x : cstr) : option node :=
  match xs, args with
  | y :: xs', a :: args' => if name_dec y x then Some a else arg_of xs' args' x
  | _, _ => None
  end.
(** The body with the arguments in place of the parameters; the other nodes of the body get the position
    [k] of the call in the input. *)
Fixpoint fill (k : nat) (xs : list cstr) (args : list node) (b : node) : node :=
  match b with
  | NConst v _ => NConst v k
  | NVar x i _ => match arg_of xs args x with Some a => a | None => NVar x i k end
  | NOp op cs _ => NOp op (map (fill k xs args) cs) k
  end.
(** The operator is the one with this name. *)
Definition names (f : fundef) (op : operator) : bool := same_slot (o_name (f_op f)) (o_place (f_op f)) op.
(** An expression with every call replaced by the body of the function it names *)
Fixpoint expand (fs : list fundef) (t : node) : node :=
  match t with
  | NOp op args k =>
    let args' := map (expand fs) args in
    match find (fun f => names f op) fs with
    | Some f => fill k (f_params f) args' (f_body f)
    | None => NOp op args' k
    end
  | _ => t
  end.
(** No function is called. *)
Definition calls (fs : list fundef) (op : operator) : Prop := exists f, In f fs /\ names f op = true.
Definition call_free (fs : list fundef) (t : node) : Prop := forall op, In op (operators_of t) -> ~ calls fs op.

(** ** Kinds of commands (C52) *)
Inductive kind := KHelp | KTable | KDefinition | KClear | KLoad | KEvaluation.
Definition is_help (l : cstr) : Prop := l = str "help" \/ l = str "help operators" \/ l = str "license".
Definition is_table (l : cstr) : Prop := starts_with (str "table ") l.
Definition is_definition (l : cstr) : Prop := In "="%char l.
Definition is_clear (l : cstr) : Prop := starts_with (str "clear") l.
Definition is_load (l : cstr) : Prop := starts_with (str "load ") l.
(** The first of them in this order *)
Inductive handles : kind -> cstr -> Prop :=
| h_help : forall l, is_help l -> handles KHelp l
| h_table : forall l, ~ is_help l -> is_table l -> handles KTable l
| h_definition : forall l, ~ is_help l -> ~ is_table l -> is_definition l -> handles KDefinition l
| h_clear : forall l, ~ is_help l -> ~ is_table l -> ~ is_definition l -> is_clear l -> handles KClear l
| h_load : forall l, ~ is_help l -> ~ is_table l -> ~ is_definition l -> ~ is_clear l -> is_load l -> handles KLoad l
| h_evaluation : forall l, ~ is_help l -> ~ is_table l -> ~ is_definition l -> ~ is_clear l -> ~ is_load l -> handles KEvaluation l.

(** ** Sessions (C38-C41, C55) *)
(** An operator of the calculator: name, place and number are those of the table of operators. *)
Definition calculator_operator (op : operator) : Prop :=
  exists b, nth_error arith_ops (o_id op) = Some b /\ o_name b = o_name op /\ o_place b = o_place op.
(** The right sides of the simplification rules use only such operators. *)
Definition own_operators (sm : simp) : Prop :=
  (forall rs r op, In rs (s_rulesets sm) -> In r rs -> In op (operators_of (r_after r)) -> calculator_operator op) /\
  (forall a op, s_after sm = Some a -> In op (operators_of a) -> calculator_operator op).

(** The tokens that are neither blank nor a parenthesis nor a delimiter *)
Definition words (ts : list cstr) : list cstr :=
  filter (fun t => negb (is_opening_parenthesis t || is_closing_parenthesis t || is_delimiter t)) (map snd (unblanked ts)).

Section Sessions.
Variable L : libm.
Variable fuel : nat.
Variable strtod : cstr -> option double.
Variable files : cstr -> option (list ascii).

(** In session [s], the line [l] defines [f]; [s'] is the session afterwards. The line is cut at its first "=". On its
    left stand the name and the parameters; the body is what the right side simplifies to. *)
Definition defines (s : session) (l : cstr) (s' : session) (f : fundef) : Prop :=
  exists left right tsl tsr t s1,
    cut_at_first (str "=") l left right /\
    parse_input strtod (ss_ctx s') right = Ok (tsr, PTree t) /\
    arith_simplify L fuel (with_ctx s (ss_ctx s')) tsr t = Done (Ok (s1, Some (f_body f))) /\
    tokenize (fun x => fst (trie_longest_prefix (c_kw (ss_ctx s)) x)) left = Ok tsl /\
    words tsl = o_name (f_op f) :: f_params f /\
    ctx_lookup_op (ss_ctx s') (o_name (f_op f)) PFunction = Ok (Some (f_op f)).

(** The sessions that can be reached, with the functions defined in them. The lines that define functions do not
    contain square brackets, and their right sides simplify to expressions of operators of the calculator. (Rules can
    introduce operators of the language of constraints.) *)
Variable may_clear : list fundef -> cstr -> Prop.
Inductive session_of : session -> list fundef -> Prop :=
| so_start : forall files0 path rand s, init_commands strtod files0 path rand = Ok s -> session_of s []
| so_define : forall s defs d l s' o f, session_of s defs -> handles KDefinition l -> ~ In "["%char l ->
    exec_command L fuel strtod files (S d) s l = Done (Ok (Did s' o true)) -> defines s l s' f ->
    Forall calculator_operator (operators_of (f_body f)) -> session_of s' (defs ++ [f])
| so_rejected : forall s defs d l s' o, session_of s defs -> handles KDefinition l -> ~ In "["%char l ->
    exec_command L fuel strtod files (S d) s l = Done (Ok (Did s' o false)) -> session_of s' defs
| so_clear_all : forall s defs d s' o b, session_of s defs ->
    exec_command L fuel strtod files (S d) s (str "clear") = Done (Ok (Did s' o b)) -> session_of s' []
| so_clear : forall s d1 f d2 d l s' o, session_of s (d1 ++ f :: d2) -> handles KClear l -> l <> str "clear" -> skipn 6 l = o_name (f_op f) ->
    may_clear (d1 ++ f :: d2) (o_name (f_op f)) ->
    exec_command L fuel strtod files (S d) s l = Done (Ok (Did s' o true)) -> session_of s' (d1 ++ d2)
| so_clear_nothing : forall s defs d l s' o, session_of s defs -> handles KClear l -> l <> str "clear" ->
    exec_command L fuel strtod files (S d) s l = Done (Ok (Did s' o false)) -> session_of s' defs
| so_other : forall s defs k d l s' o b, session_of s defs -> handles k l -> In k [KHelp; KTable; KEvaluation] ->
    exec_command L fuel strtod files (S d) s l = Done (Ok (Did s' o b)) -> session_of s' defs
| so_rules : forall s defs path s' o b, session_of s defs -> load_simplification strtod files s path = Done (Ok (Did s' o b)) -> session_of s' defs.

(** What a simplification yields: the tree, the history and the random numbers left *)
Definition answer (r : step (session * option node)) : step (world * option node) :=
  sbind r (fun '(s, o) => sret (ss_world s, o)).
(** Calls are replaced by the bodies of the functions they name: simplifying an expression gives the same as
    simplifying the expanded expression where no function is known. *)
Definition calls_expanded (s : session) (defs : list fundef) : Prop :=
  forall input ts t, parse_input strtod (ss_ctx s) input = Ok (ts, PTree t) ->
  exists m, forall fuel', m <= fuel' -> answer (arith_simplify L fuel' s ts t) = answer (arith_simplify L fuel' (with_funs s []) ts (expand defs t)).
End Sessions.
Definition any_function (defs : list fundef) (name : cstr) : Prop := True.
(** Only the function defined last may be cleared by its name. *)
Definition youngest (defs : list fundef) (name : cstr) : Prop := exists d f, defs = d ++ [f] /\ o_name (f_op f) = name.

(** The contexts know the same operators. *)
Definition same_operators (c c' : ctx) : Prop := forall name place, ctx_lookup_op c' name place = ctx_lookup_op c name place.
(** The context [c'] knows [op] and the operators of [c]. *)
Definition extends (c : ctx) (op : operator) (c' : ctx) : Prop :=
  forall name place, ctx_lookup_op c' name place =
    match ctx_lookup_op c name place with Ok None => Ok (if same_slot name place op then Some op else None) | r => r end.

(** ** Lines typed one after the other (C52, C56, C65) *)
Definition skipped (l : cstr) : Prop := l = [] \/ exists r, l = "#"%char :: r.
Section Typed.
Variable exec : session -> cstr -> step cmdres.
(** From session [s], the lines lead to session [s'] and print [o]; [b]: no command reported an error. *)
Inductive typed : session -> list cstr -> session -> list shown -> bool -> Prop :=
| ty_end : forall s, typed s [] s [] true
| ty_skip : forall s l ls s' o b, skipped l -> typed s ls s' o b -> typed s (l :: ls) s' o b
| ty_exec : forall s l ls s1 o1 b1 s' o b, l <> str "quit" -> ~ skipped l -> exec s l = Done (Ok (Did s1 o1 b1)) ->
    typed s1 ls s' o b -> typed s (l :: ls) s' (o1 ++ o) (b1 && b).
End Typed.
(** A text: lines without newline and NUL, each followed by a newline *)
Definition text_line (l : cstr) : Prop := ~ In LF l /\ ~ In NUL l.
Definition text (ls : list cstr) : list ascii := List.concat (map (fun l => l ++ [LF]) ls).
