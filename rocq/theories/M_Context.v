(** Model of src/engine/parsing/context.c: the operator registry. *)
From Coq Require Import List Ascii String NArith ZArith Bool Lia Arith.
From Verif Require Import M_Base M_LinkedList M_Trie M_Tree.
Import ListNotations.
Open Scope res_scope.

(** context.h:7-13. The list nodes live in a heap of their own; the tries hold addresses of list
    nodes; glue_op points at the payload of a list node (context.h:9), represented by its
    address. *)
Record ctx := mkCtx {
  c_glue : option nat;
  c_heap : heap operator;
  c_list : llist;
  c_tries : placement -> trie nat;
  c_kw : trie unit }.

(** context.c:11-26 *)
Definition ctx_create : ctx :=
  mkCtx None (mkHeap (fun _ => None) 0) list_create (fun _ => trie_create) trie_create.

Definition set_trie (f : placement -> trie nat) (p : placement) (t : trie nat) : placement -> trie nat :=
  fun q => if placement_eqb q p then t else f q.

(** context.c:145-160 (the NULL checks of line 147 are outside the model). A stored payload that was
    never written is a null pointer, which line 154 would dereference. *)
Definition ctx_lookup_op (c : ctx) (name : cstr) (p : placement) : res (option operator) :=
  match trie_contains (c_tries c p) name with
  | (true, Some a) => n <- load (c_heap c) (Some a) ;; Ok (Some (n_data n))
  | (true, None) => Ub
  | (false, _) => Ok None
  end.

(** context.c:85-88, negated: same precedence entails same associativity *)
Definition inconsistent (op opB : operator) : bool :=
  placement_eqb (o_place opB) PInfix && (o_prec opB =? o_prec op)
  && negb (assoc_eqb (o_assoc opB) (o_assoc op)).

(** context.c:69-102. The loop 79-93 stops at the first inconsistent operator; the model walks the whole
    list first, the outcome is the same. [None] is the null result. *)
Definition ctx_add_op (c : ctx) (op : operator) : res (ctx * option operator) :=
  clash <- ctx_lookup_op c (o_name op) (o_place op) ;;
  match clash with
  | Some _ => Ok (c, None)
  | None =>
    bad <- (if placement_eqb (o_place op) PInfix then
              ops <- list_iterate (S (l_count (c_list c))) (c_heap c) (c_list c) None ;;
              Ok (existsb (inconsistent op) ops)
            else Ok false) ;;
    if bad then Ok (c, None)
    else
      let op' := mkOp (o_name op) (list_count (c_list c)) (o_arity op) (o_prec op) (o_assoc op)
                   (o_place op) (h_fresh (c_heap c)) in
      '(h, l, p) <- list_append (c_heap c) (c_list c) op' ;;
      match p with
      | None => Ub
      | Some a =>
        '(t, _) <- trie_add_str (c_tries c (o_place op)) (o_name op) a ;;
        '(k, _) <- trie_add_str (c_kw c) (o_name op) tt ;;
        Ok (mkCtx (c_glue c) h l (set_trie (c_tries c) (o_place op) t) k, Some op')
      end
  end.

(** context.c:43-57 *)
Fixpoint ctx_add_ops (c : ctx) (ops : list operator) : res (ctx * bool) :=
  match ops with
  | [] => Ok (c, true)
  | op :: ops' =>
    '(c', r) <- ctx_add_op c op ;;
    match r with
    | None => Ok (c', false)
    | Some _ => ctx_add_ops c' ops'
    end
  end.

(** context.c:108-122 *)
Definition ctx_delete_op (c : ctx) (name : cstr) (p : placement) : res (ctx * bool) :=
  match trie_contains (c_tries c p) name with
  | (true, Some a) =>
    '(h, l) <- list_delete_node (c_heap c) (c_list c) (Some a) ;;
    Ok (mkCtx (c_glue c) h l (set_trie (c_tries c) p (trie_remove_str (c_tries c p) name))
          (trie_remove_str (c_kw c) name), true)
  | (true, None) => Ub
  | (false, _) => Ok (c, false)
  end.

(** context.c:128-139; [a] is the address of the operator, [None] is NULL *)
Definition ctx_set_glue_op (c : ctx) (a : option nat) : res (ctx * bool) :=
  let set := mkCtx a (c_heap c) (c_list c) (c_tries c) (c_kw c) in
  match a with
  | None => Ok (set, true)
  | Some _ =>
    n <- load (c_heap c) a ;;
    match o_arity (n_data n) with
    | None | Some 2 => Ok (set, true)
    | Some _ => Ok (c, false)
    end
  end.

(** ctx->glue_op, dereferenced *)
Definition ctx_glue (c : ctx) : res (option operator) :=
  match c_glue c with
  | None => Ok None
  | Some a => n <- load (c_heap c) (Some a) ;; Ok (Some (n_data n))
  end.

(** One call of the interface, as data *)
Inductive cop :=
| CAdd (op : operator)
| CDelete (name : cstr) (p : placement)
| CLookup (name : cstr) (p : placement).
Inductive cout := COp (o : option operator) | CBool (b : bool).

Definition ctx_step (c : ctx) (o : cop) : res (ctx * cout) :=
  match o with
  | CAdd op => '(c', r) <- ctx_add_op c op ;; Ok (c', COp r)
  | CDelete n p => '(c', b) <- ctx_delete_op c n p ;; Ok (c', CBool b)
  | CLookup n p => r <- ctx_lookup_op c n p ;; Ok (c, COp r)
  end.
Fixpoint ctx_run (c : ctx) (ops : list cop) : res (ctx * list cout) :=
  match ops with
  | [] => Ok (c, [])
  | o :: ops' =>
    '(c', x) <- ctx_step c o ;;
    '(c'', xs) <- ctx_run c' ops' ;;
    Ok (c'', x :: xs)
  end.
