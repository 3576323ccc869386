(** Model of src/engine/parsing/parser.c: the shunting-yard parser. *)
From Coq Require Import List Ascii String NArith ZArith Bool Lia Arith.
From Verif Require Import M_Base M_StringUtil M_Tree M_Context M_Tokenizer M_Trie.
Import ListNotations.
Open Scope nat_scope.
Open Scope res_scope.

(** parser.h:6-19 *)
Inductive perr :=
| PERR_NULL | PERR_SUCCESS | PERR_ARGS_MALFORMED | PERR_EXPECTED_INFIX | PERR_UNEXPECTED_INFIX
| PERR_EXCESS_OPENING_PAREN | PERR_UNEXPECTED_CLOSING_PAREN | PERR_UNEXPECTED_DELIMITER
| PERR_FUNCTION_WRONG_ARITY | PERR_UNEXPECTED_END_OF_EXPR | PERR_EXPECTED_PARAM_LIST
| PERR_UNEXPECTED_CHARACTER.
Definition perr_is_success (e : perr) : bool := match e with PERR_SUCCESS => true | _ => false end.

(** What the parser uses of a context: operator lookup and the glue operator. *)
Record pctx := mkPctx {
  pc_lookup : placement -> cstr -> option operator;
  pc_glue : option operator }.

(** The view a context gives to the parser. A lookup that would be undefined behaviour is mapped to
    "not found" here; Ctx theorems show that no reachable context has such lookups. *)
Definition view (c : ctx) : pctx :=
  mkPctx (fun p n => match ctx_lookup_op c n p with Ok o => o | _ => None end)
         (match ctx_glue c with Ok o => o | _ => None end).

(** parser.c:18-23; [None] as operator is an opening parenthesis *)
Record opdata := mkOd { od_op : option operator; od_arity : option nat; od_tok : nat }.

(** parser.c:26-33. Both stacks have their top first. [p_ai], [p_ap] are the locals await_infix and
    await_params (159-160). *)
Record pstate := mkSt {
  p_nodes : list node;
  p_ops : list opdata;
  p_res : perr;
  p_tok : nat;
  p_ai : bool;
  p_ap : bool }.

Definition arity_eqb (a b : option nat) : bool :=
  match a, b with
  | None, None => true
  | Some x, Some y => x =? y
  | _, _ => false
  end.
(** number of operands to pop; SIZE_MAX children (dynamic arity as count) never occur for operators on
    the stack except with a non-function operator of dynamic arity, where malloc would be asked for
    more than the address space: malloc_wrapper stops the program. *)
Definition count_of (a : option nat) : res nat := match a with Some k => Ok k | None => Halt end.

(** parser.c:62-95. Result: [true] as returned; false with the state it leaves behind. The nodes popped
    before the stack ran empty are freed (86). Called on an empty stack it would dereference NULL
    (line 65). *)
Definition op_pop_and_insert (s : pstate) : res (pstate * bool) :=
  match p_ops s with
  | [] => Ub
  | od :: ops =>
    match od_op od with
    | None => Ok (mkSt (p_nodes s) ops (p_res s) (p_tok s) (p_ai s) (p_ap s), true)
    | Some op =>
      if negb (arity_eqb (o_arity op) None) && negb (arity_eqb (o_arity op) (od_arity od)) then
        Ok (mkSt (p_nodes s) ops PERR_FUNCTION_WRONG_ARITY (od_tok od) (p_ai s) (p_ap s), false)
      else
        k <- count_of (od_arity od) ;;
        if List.length (p_nodes s) <? k then
          Ok (mkSt [] ops (p_res s) (od_tok od) (p_ai s) (p_ap s), false)
        else
          Ok (mkSt (NOp op (rev (firstn k (p_nodes s))) (od_tok od) :: skipn k (p_nodes s))
                ops (p_res s) (p_tok s) (p_ai s) (p_ap s), true)
    end
  end.

(** The four loops "while (op_peek(state) != NULL && op_peek(state)->op != NULL && cond) if
    (!op_pop_and_insert(state)) ..." (106-112, 213-220, 268-274, 400-410 without the condition).
    Every round pops one element, so [fuel] = stack height is enough. *)
Fixpoint pop_while (fuel : nat) (cond : operator -> bool) (s : pstate) : res (pstate * bool) :=
  match p_ops s with
  | [] => Ok (s, true)
  | od :: _ =>
    match od_op od with
    | None => Ok (s, true)
    | Some op =>
      if cond op then
        match fuel with
        | 0 => Halt
        | S f =>
          '(s', ok) <- op_pop_and_insert s ;;
          if ok : bool then pop_while f cond s' else Ok (s', false)
        end
      else Ok (s, true)
    end
  end.
Definition pop_all_while (cond : operator -> bool) (s : pstate) : res (pstate * bool) :=
  pop_while (List.length (p_ops s)) cond s.

(** parser.c:108-109 *)
Definition yields (op top : operator) : bool :=
  (o_prec op <? o_prec top) || ((o_prec op =? o_prec top) && assoc_eqb (o_assoc op) ALeft).

Definition push_od (s : pstate) (od : opdata) : pstate :=
  mkSt (p_nodes s) (od :: p_ops s) (p_res s) (p_tok s) (p_ai s) (p_ap s).

(** parser.c:97-118 *)
Definition op_push (s : pstate) (od : opdata) : res (pstate * bool) :=
  match od_op od with
  | Some op =>
    match o_place op with
    | PInfix | PPostfix =>
      '(s', ok) <- pop_all_while (yields op) s ;;
      if ok : bool then Ok (push_od s' od, true) else Ok (s', false)
    | _ => Ok (push_od s od, true)
    end
  | None => Ok (push_od s od, true)
  end.

(** parser.c:121-136 *)
Definition push_operator (s : pstate) (op : operator) : res (pstate * bool) :=
  match o_place op with
  | PFunction => op_push s (mkOd (Some op) (Some 0) (p_tok s))
  | _ => op_push s (mkOd (Some op) (o_arity op) (p_tok s))
  end.

(** parser.c:139-142 *)
Definition push_opening_parenthesis (s : pstate) : res (pstate * bool) :=
  op_push s (mkOd None None (p_tok s)).

Definition set_ai (s : pstate) (b : bool) : pstate :=
  mkSt (p_nodes s) (p_ops s) (p_res s) (p_tok s) b (p_ap s).
Definition set_ap (s : pstate) (b : bool) : pstate :=
  mkSt (p_nodes s) (p_ops s) (p_res s) (p_tok s) (p_ai s) b.
Definition set_tok (s : pstate) (i : nat) : pstate :=
  mkSt (p_nodes s) (p_ops s) (p_res s) i (p_ai s) (p_ap s).
Definition set_res (s : pstate) (e : perr) : pstate :=
  mkSt (p_nodes s) (p_ops s) e (p_tok s) (p_ai s) (p_ap s).
Definition push_node (s : pstate) (n : node) : pstate :=
  mkSt (n :: p_nodes s) (p_ops s) (p_res s) (p_tok s) (p_ai s) (p_ap s).
Definition set_top_arity (s : pstate) (a : option nat) : pstate :=
  match p_ops s with
  | [] => s
  | od :: ops => mkSt (p_nodes s) (mkOd (od_op od) a (od_tok od) :: ops) (p_res s) (p_tok s) (p_ai s) (p_ap s)
  end.
(** arity++ in size_t; the counters of functions start at 0 and never reach SIZE_MAX *)
Definition inc (a : option nat) : option nat := match a with Some k => Some (S k) | None => Some 0 end.

(** Either go on with the next token or "goto exit" *)
Inductive ctl := Next (s : pstate) | Exit (s : pstate).
(** parser.c:12-15 *)
Definition ERROR (s : pstate) (e : perr) : res ctl := Ok (Exit (set_res s e)).

Section Parse.
(** try_parse_constant (36-41): strtod on the whole token; [None] if it does not consume all of it. *)
Variable strtod : cstr -> option double.
Variable pc : pctx.

Definition has (p : placement) (t : cstr) : bool :=
  match pc_lookup pc p t with Some _ => true | None => false end.

(** parser.c:172-185 *)
Definition step_glue (s : pstate) (t : cstr) : res ctl :=
  match pc_glue pc with
  | Some g =>
    if p_ai s && negb (is_closing_parenthesis t) && negb (is_delimiter t)
       && negb (has PInfix t) && negb (has PPostfix t)
    then
      '(s', ok) <- push_operator s g ;;
      if ok : bool then Ok (Next (set_ai (set_top_arity s' (Some 2)) false)) else Ok (Exit s')
    else Ok (Next s)
  | None => Ok (Next s)
  end.

(** parser.c:210-258 *)
Definition step_closing (s : pstate) (i : nat) : res ctl :=
  '(s1, ok) <- pop_all_while (fun _ => true) s ;;
  if negb ok then ERROR (set_tok s1 i) PERR_UNEXPECTED_CLOSING_PAREN
  else
    match p_ops s1 with
    | [] => ERROR (set_tok s1 i) PERR_UNEXPECTED_CLOSING_PAREN
    | _ :: _ =>
      '(s2, _) <- op_pop_and_insert s1 ;;
      if p_ai s2 then
        match p_ops s2 with
        | od :: _ =>
          match od_op od with
          | Some op => if placement_eqb (o_place op) PFunction
                       then Ok (Next (set_ai (set_top_arity s2 (inc (od_arity od))) true))
                       else Ok (Next (set_ai s2 true))
          | None => Ok (Next (set_ai s2 true))
          end
        | [] => Ok (Next (set_ai s2 true))
        end
      else
        match p_ops s2 with
        | [] => ERROR s2 PERR_UNEXPECTED_CLOSING_PAREN
        | od :: _ =>
          match od_op od with
          | None => ERROR s2 PERR_UNEXPECTED_CLOSING_PAREN
          | Some op => if placement_eqb (o_place op) PFunction && arity_eqb (od_arity od) (Some 0)
                       then Ok (Next (set_ai s2 true))
                       else ERROR s2 PERR_UNEXPECTED_CLOSING_PAREN
          end
        end
    end.

(** parser.c:260-296. Line 280 reads op_data->op->placement: a null operator (opening parenthesis)
    is undefined behaviour. *)
Definition step_delimiter (s : pstate) : res ctl :=
  if negb (p_ai s) then ERROR s PERR_UNEXPECTED_DELIMITER
  else
    '(s1, ok) <- pop_all_while (fun _ => true) s ;;
    if negb ok then Ok (Exit s1)
    else
      match p_ops s1 with
      | top :: od :: ops =>
        match od_op od with
        | None => Ub
        | Some op =>
          if placement_eqb (o_place op) PFunction then
            Ok (Next (mkSt (p_nodes s1) (top :: mkOd (od_op od) (inc (od_arity od)) (od_tok od) :: ops)
                        (p_res s1) (p_tok s1) false (p_ap s1)))
          else ERROR s1 PERR_UNEXPECTED_DELIMITER
        end
      | _ => ERROR s1 PERR_UNEXPECTED_DELIMITER
      end.

(** parser.c:357-385. token[0] of an empty token is the terminating NUL. *)
Definition step_leaf (s : pstate) (i : nat) (t : cstr) : res ctl :=
  match strtod t with
  | Some v => Ok (Next (push_node (set_ai s true) (NConst v i)))
  | None =>
    if has PInfix t || has PPostfix t then ERROR s PERR_UNEXPECTED_INFIX
    else if negb (is_letter (hd NUL t)) then ERROR s PERR_UNEXPECTED_CHARACTER
    else Ok (Next (push_node (set_ai s true) (NVar t 0 i)))
  end.

(** parser.c:299-355 and V *)
Definition step_operator (s : pstate) (i : nat) (t : cstr) : res ctl :=
  if negb (p_ai s) then
    match pc_lookup pc PFunction t with
    | Some op =>
      '(s1, ok) <- push_operator s op ;;
      if negb ok then Ok (Exit s1)
      else if arity_eqb (o_arity op) (Some 0) then
        '(s2, ok2) <- op_pop_and_insert s1 ;;
        if ok2 : bool then Ok (Next (set_ai s2 true)) else Ok (Exit s2)
      else Ok (Next (set_ap (set_ai s1 false) true))
    | None =>
      match pc_lookup pc PPrefix t with
      | Some op =>
        '(s1, ok) <- push_operator s op ;;
        if ok : bool then Ok (Next (set_ai s1 false)) else Ok (Exit s1)
      | None => step_leaf s i t
      end
    end
  else
    match pc_lookup pc PInfix t with
    | Some op =>
      '(s1, ok) <- push_operator s op ;;
      if ok : bool then Ok (Next (set_ai s1 false)) else Ok (Exit s1)
    | None =>
      match pc_lookup pc PPostfix t with
      | Some op =>
        '(s1, ok) <- push_operator s op ;;
        if negb ok then Ok (Exit s1)
        else '(s2, _) <- op_pop_and_insert s1 ;; Ok (Next (set_ai s2 true))
      | None => ERROR s PERR_EXPECTED_INFIX
      end
    end.

(** parser.c:187-385, behind the glue check *)
Definition step_main (s : pstate) (i : nat) (t : cstr) : res ctl :=
  if is_opening_parenthesis t then
    if negb (p_ai s) then
      '(s1, ok) <- push_opening_parenthesis (set_ap s false) ;;
      if ok : bool then Ok (Next s1) else Ok (Exit s1)
    else ERROR s PERR_EXPECTED_INFIX
  else if p_ap s then ERROR s PERR_EXPECTED_PARAM_LIST
  else if is_closing_parenthesis t then step_closing s i
  else if is_delimiter t then step_delimiter s
  else step_operator s i t.

(** parser.c:163-385: one token *)
Definition step (s : pstate) (i : nat) (t : cstr) : res ctl :=
  let s0 := set_tok s i in
  if is_space (hd NUL t) then Ok (Next s0)
  else
    r <- step_glue s0 t ;;
    match r with
    | Next s1 => step_main s1 i t
    | Exit s1 => Ok (Exit s1)
    end.

(** parser.c:161-386 *)
Fixpoint tokens_loop (s : pstate) (i : nat) (ts : list cstr) : res ctl :=
  match ts with
  | [] => Ok (Next s)
  | t :: ts' =>
    r <- step s i t ;;
    match r with
    | Next s' => tokens_loop s' (S i) ts'
    | Exit s' => Ok (Exit s')
    end
  end.

(** What the caller gets: result code, *out_res (if written) and *error_token (if written) *)
Inductive pout :=
| PTree (t : node)                 (** PERR_SUCCESS, *out_res written *)
| PErr (e : perr) (tok : nat)      (** an error code, *error_token written *)
| PNoTree.                         (** PERR_SUCCESS, but *out_res not written *)

(** parser.c:399-410: pop the remaining operators *)
Definition pop_rest (s : pstate) : res ctl :=
  '(s1, ok) <- pop_all_while (fun _ => true) s ;;
  if negb ok then Ok (Exit s1)
  else match p_ops s1 with
       | [] => Ok (Next s1)
       | _ :: _ => ERROR s1 PERR_EXCESS_OPENING_PAREN
       end.

(** parser.c:388-410 *)
Definition finish (s : pstate) (n : nat) : res ctl :=
  let s0 := set_tok s n in
  if p_ap s0 then ERROR s0 PERR_EXPECTED_PARAM_LIST
  else if negb (p_ai s0) then ERROR s0 PERR_UNEXPECTED_END_OF_EXPR
  else pop_rest s0.

(** parser.c:421-439 when reached by goto exit *)
Definition at_exit (s : pstate) : pout :=
  if perr_is_success (p_res s) then PNoTree else PErr (p_res s) (p_tok s).

Definition init_pstate : pstate := mkSt [] [] PERR_SUCCESS 0 false false.

(** parser.c:145-440 with out_res not NULL. Line 418 dereferences vec_pop's result: undefined on an
    empty node stack. The remaining nodes of the stack (if any) are leaked, not returned. *)
Definition parse_tokens (ts : list cstr) : res pout :=
  r <- tokens_loop init_pstate 0 ts ;;
  match r with
  | Exit s => Ok (at_exit s)
  | Next s =>
    r2 <- finish s (List.length ts) ;;
    match r2 with
    | Exit s2 => Ok (at_exit s2)
    | Next s2 =>
      match p_nodes s2 with
      | [] => Ub
      | n :: _ => if perr_is_success (p_res s2) then Ok (PTree n) else Ok (PErr (p_res s2) (p_tok s2))
      end
    end
  end.
End Parse.

(** parser.c:448-453 *)
Definition parse_input (strtod : cstr -> option double) (c : ctx) (input : cstr) : res (list cstr * pout) :=
  ts <- tokenize (fun s => fst (trie_longest_prefix (c_kw c) s)) input ;;
  o <- parse_tokens strtod (view c) ts ;;
  Ok (ts, o).

(** parser.c:455-468: the tree or NULL. Success without a tree returns an uninitialised pointer. *)
Definition parse_easy (strtod : cstr -> option double) (c : ctx) (input : cstr) : res (option node) :=
  '(_, o) <- parse_input strtod c input ;;
  match o with
  | PTree t => Ok (Some t)
  | PErr _ _ => Ok None
  | PNoTree => Ub
  end.
