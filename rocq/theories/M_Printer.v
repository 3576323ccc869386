(** Model of src/engine/tree/tree_to_string.c: printing a tree as text. *)
From Coq Require Import List Ascii String NArith ZArith Bool Lia Arith.
From Verif Require Import M_Base M_StringUtil M_Tree.
Import ListNotations.
Open Scope nat_scope.
Open Scope res_scope.

(** The text appended by strbuilder_append(builder, s) where [s] itself is the printf format and no
    arguments follow (tree_to_string.c:26): "%%" prints "%", any other conversion reads a missing
    argument, which is undefined behaviour. *)
Fixpoint printf_no_args (s : cstr) : res cstr :=
  match s with
  | [] => Ok []
  | c :: s' =>
    if ceqb c "%"%char then
      match s' with
      | d :: s'' => if ceqb d "%"%char then r <- printf_no_args s'' ;; Ok ("%"%char :: r) else Ub
      | [] => Ub
      end
    else r <- printf_no_args s' ;; Ok (c :: r)
  end.

Definition arity_zero (a : option nat) : bool := match a with Some 0 => true | _ => false end.

Section Print.
(** printf("%-.10g", v) *)
Variable fmt : double -> cstr.
Variable color : bool.

Definition ESC : ascii := ascii_of_nat 27.
(** tree_to_string.h:6-8 *)
Definition CONST_COLOR : cstr := ESC :: str "[1;33m".
Definition VAR_COLOR : cstr := ESC :: str "[1;36m".
Definition COL_RESET : cstr := ESC :: str "[0m".
Definition colored (c t : cstr) : list cstr := if color then [c; t; COL_RESET] else [t].

Definition OPENING_P : cstr := str "(".
Definition CLOSING_P : cstr := str ")".
Definition wrap_if (b : bool) (ps : list cstr) : list cstr :=
  if b then [OPENING_P] ++ ps ++ [CLOSING_P] else ps.

(** 28-29, 50-51, 95-98, 111-114: does the child need parentheses? *)
Definition child_wrapped (cond : operator -> bool) (n : node) : bool :=
  match n with NOp op _ _ => cond op | _ => false end.

(** tree_to_string.c:133-162 and the four functions above it. The result is the list of pieces handed to
    the string builder in order (literal parentheses, commas and blanks inside a format string as
    pieces of their own); the printed text is their concatenation. A missing operand is read out of
    bounds. *)
Fixpoint to_str (n : node) (l r : bool) {struct n} : res (list cstr) :=
  match n with
  | NConst v _ => Ok (colored CONST_COLOR (fmt v))
  | NVar x _ _ => Ok (colored VAR_COLOR x)
  | NOp op cs _ =>
    match o_place op with
    | PPrefix =>                                                     (* 23-43 *)
      match cs with
      | c0 :: _ =>
        nm <- printf_no_args (o_name op) ;;
        body <- (if child_wrapped (fun o => o_prec o <=? o_prec op) c0
                 then b <- to_str c0 false false ;; Ok (wrap_if true b)
                 else to_str c0 true (negb l && r)) ;;
        Ok (wrap_if l (nm :: body))
      | [] => Ub
      end
    | PPostfix =>                                                    (* 45-65 *)
      match cs with
      | c0 :: _ =>
        body <- (if child_wrapped (fun o => o_prec o <? o_prec op) c0
                 then b <- to_str c0 false false ;; Ok (wrap_if true b)
                 else to_str c0 (l && negb r) true) ;;
        Ok (wrap_if r (body ++ [o_name op]))
      | [] => Ub
      end
    | PFunction =>                                                   (* 67-83 *)
      if arity_zero (o_arity op) then Ok [o_name op]
      else
        args <- (fix args (l : list node) : res (list cstr) :=
                   match l with
                   | [] => Ok []
                   | [c] => to_str c false false
                   | c :: l' => a <- to_str c false false ;; b <- args l' ;; Ok (a ++ [str ","] ++ b)
                   end) cs ;;
        Ok ([o_name op; OPENING_P] ++ args ++ [CLOSING_P])
    | PInfix =>                                                      (* 85-125 *)
      match cs with
      | c0 :: c1 :: _ =>
        left <- (if child_wrapped (fun o => (o_prec o <? o_prec op)
                       || ((o_prec o =? o_prec op) && assoc_eqb (o_assoc op) ARight)) c0
                 then b <- to_str c0 false false ;; Ok (wrap_if true b)
                 else to_str c0 l true) ;;
        right <- (if child_wrapped (fun o => (o_prec o <? o_prec op)
                       || ((o_prec o =? o_prec op) && assoc_eqb (o_assoc op) ALeft)) c1
                  then b <- to_str c1 false false ;; Ok (wrap_if true b)
                  else to_str c1 true r) ;;
        let name := if is_letter (hd NUL (o_name op)) then [str " "; o_name op; str " "] else [o_name op] in
        Ok (left ++ name ++ right)
      | _ => Ub
      end
    end
  end.

(** tree_to_string.c:164-175 *)
Definition tree_pieces (n : node) : res (list cstr) := to_str n false false.
Definition tree_to_str (n : node) : res cstr := ps <- tree_pieces n ;; Ok (List.concat ps).
End Print.
