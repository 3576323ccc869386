(** Model of src/util/linked_list.c with an explicit heap. *)
From Coq Require Import List Ascii String NArith ZArith Bool Lia Arith.
From Verif Require Import M_Base.
Import ListNotations.
Open Scope res_scope.

Section LL.
Context {A : Type}.

(** A pointer to a list node; NULL is [None]. *)
Definition ptr := option nat.

(** linked_list.c:10-15 *)
Record lnode := mkNode { n_next : ptr; n_prev : ptr; n_data : A }.

(** The heap: address -> node, [None] where nothing is allocated (never allocated or freed).
    malloc hands out addresses in increasing order and never reuses one: an access through a
    dangling pointer is therefore always visible as undefined behaviour. *)
Record heap := mkHeap { h_map : nat -> option lnode; h_fresh : nat }.

(** linked_list.h:13-19 (elem_size abstracted, nodes hold whole elements) *)
Record llist := mkList { l_first : ptr; l_last : ptr; l_count : nat }.

Definition upd (m : nat -> option lnode) (a : nat) (v : option lnode) : nat -> option lnode :=
  fun b => if (b =? a)%nat then v else m b.

(** dereference for reading *)
Definition load (h : heap) (p : ptr) : res lnode :=
  match p with
  | None => Ub
  | Some a => match h_map h a with Some n => Ok n | None => Ub end
  end.
(** dereference for writing one field (given as a function on the node) *)
Definition store (h : heap) (p : ptr) (f : lnode -> lnode) : res heap :=
  match p with
  | None => Ub
  | Some a => match h_map h a with
              | Some n => Ok (mkHeap (upd (h_map h) a (Some (f n))) (h_fresh h))
              | None => Ub
              end
  end.
(** free: freeing something not allocated is undefined behaviour *)
Definition free (h : heap) (p : ptr) : res heap :=
  match p with
  | None => Ok h
  | Some a => match h_map h a with
              | Some _ => Ok (mkHeap (upd (h_map h) a None) (h_fresh h))
              | None => Ub
              end
  end.

Definition set_next (p : ptr) (n : lnode) := mkNode p (n_prev n) (n_data n).
Definition set_prev (p : ptr) (n : lnode) := mkNode (n_next n) p (n_data n).

(** linked_list.c:28-36 *)
Definition list_create : llist := mkList None None 0.

(** linked_list.c:59-88: the two search loops [while (curr != NULL && index > 0)] *)
Fixpoint search (step : lnode -> ptr) (h : heap) (curr : ptr) (index : nat) : res ptr :=
  match index with
  | 0 => Ok curr
  | S i => match curr with
           | None => Ok None
           | Some _ => n <- load h curr ;; search step h (step n) i
           end
  end.
(** linked_list.c:59-88; the assert at line 62 stops the program *)
Definition list_get_node (h : heap) (l : llist) (index : nat) : res ptr :=
  if (index <? l_count l)%nat then
    if (index <? l_count l / 2)%nat then search n_next h (l_first l) index
    else search n_prev h (l_last l) (l_count l - index - 1)
  else Halt.

(** linked_list.c:93-101, read through the returned pointer *)
Definition list_get_at (h : heap) (l : llist) (index : nat) : res (option A) :=
  p <- list_get_node h l index ;;
  match p with
  | None => Ok None
  | Some _ => n <- load h p ;; Ok (Some (n_data n))
  end.

(** linked_list.c:128-166 and malloc_node 17-23 *)
Definition list_insert_after (h : heap) (l : llist) (before : ptr) (x : A)
  : res (heap * llist * ptr) :=
  after <- match before with
           | None => Ok (l_first l)
           | Some _ => n <- load h before ;; Ok (n_next n)
           end ;;
  let a := h_fresh h in
  let h1 := mkHeap (upd (h_map h) a (Some (mkNode after before x))) (S a) in
  let new := Some a in
  '(h2, l2) <- match before with
               | None => Ok (h1, mkList new (l_last l) (l_count l))
               | Some _ => h' <- store h1 before (set_next new) ;; Ok (h', l)
               end ;;
  '(h3, l3) <- match after with
               | None => Ok (h2, mkList (l_first l2) new (l_count l2))
               | Some _ => h' <- store h2 after (set_prev new) ;; Ok (h', l2)
               end ;;
  Ok (h3, mkList (l_first l3) (l_last l3) (l_count l3 + 1), new).

(** linked_list.c:117-120 *)
Definition list_append (h : heap) (l : llist) (x : A) := list_insert_after h l (l_last l) x.

(** linked_list.c:174-184 *)
Definition list_insert_at (h : heap) (l : llist) (index : nat) (x : A) :=
  match index with
  | 0 => list_insert_after h l None x
  | S i => p <- list_get_node h l i ;; list_insert_after h l p x
  end.

(** linked_list.c:186-214; the assert at line 189 stops the program. *)
Definition list_delete_node (h : heap) (l : llist) (node : ptr) : res (heap * llist) :=
  match node with
  | None => Halt
  | Some _ =>
    n <- load h node ;;
    let after := n_next n in
    let before := n_prev n in
    h1 <- free h node ;;
    '(h2, l2) <- match before with
                 | None => Ok (h1, mkList after (l_last l) (l_count l))
                 | Some _ => h' <- store h1 before (set_next after) ;; Ok (h', l)
                 end ;;
    '(h3, l3) <- match after with
                 | None => Ok (h2, mkList (l_first l2) before (l_count l2))
                 | Some _ => h' <- store h2 after (set_prev before) ;; Ok (h', l2)
                 end ;;
    Ok (h3, mkList (l_first l3) (l_last l3) (l_count l3 - 1))
  end.

(** linked_list.c:216-219 *)
Definition list_delete_at (h : heap) (l : llist) (index : nat) :=
  p <- list_get_node h l index ;; list_delete_node h l p.

(** linked_list.c:221-225 *)
Definition list_count (l : llist) : nat := l_count l.

(** linked_list.c:41-53: the loop reads next before freeing. Fuel: number of nodes + 1. *)
Fixpoint destroy_loop (fuel : nat) (h : heap) (curr : ptr) : res heap :=
  match curr with
  | None => Ok h
  | Some _ =>
    match fuel with
    | 0 => Halt
    | S f => n <- load h curr ;; h' <- free h curr ;; destroy_loop f h' (n_next n)
    end
  end.
Definition list_destroy (h : heap) (l : llist) : res heap :=
  destroy_loop (S (l_count l)) h (l_first l).

(** linked_list.c:229-249; the iterator state is curr_node *)
Definition list_iter_next (h : heap) (l : llist) (curr : ptr) : res (ptr * option A) :=
  curr' <- match curr with
           | None => Ok (l_first l)
           | Some _ => n <- load h curr ;; Ok (n_next n)
           end ;;
  match curr' with
  | None => Ok (None, None)
  | Some _ => n <- load h curr' ;; Ok (curr', Some (n_data n))
  end.

(** Calls get_next until it returns NULL (at most [fuel] times). *)
Fixpoint list_iterate (fuel : nat) (h : heap) (l : llist) (curr : ptr) : res (list A) :=
  match fuel with
  | 0 => Halt
  | S f =>
    '(curr', o) <- list_iter_next h l curr ;;
    match o with
    | None => Ok []
    | Some x => r <- list_iterate f h l curr' ;; Ok (x :: r)
    end
  end.

(** Walks backwards over the previous pointers, as list_get_node does. *)
Fixpoint list_backward (fuel : nat) (h : heap) (curr : ptr) : res (list A) :=
  match curr with
  | None => Ok []
  | Some _ =>
    match fuel with
    | 0 => Halt
    | S f => n <- load h curr ;; r <- list_backward f h (n_prev n) ;; Ok (n_data n :: r)
    end
  end.

(** One call of the interface, as data. Node handles are the addresses handed out by earlier
    calls; the k-th inserted node (counting from 0) has handle k. *)
Inductive lop :=
| LInsertAfter (before : ptr) (x : A)
| LAppend (x : A)
| LInsertAt (i : nat) (x : A)
| LDeleteNode (h : nat)
| LDeleteAt (i : nat)
| LGetNode (i : nat)
| LGetAt (i : nat)
| LCount
| LIterate
| LBackward.
Inductive lout := LOHandle (h : nat) | LONone | LOElem (x : A) | LONum (n : nat) | LOSeq (xs : list A).

Definition state := (heap * llist)%type.
Definition init_state : state := (mkHeap (fun _ => None) 0, list_create).

Definition handle_out (r : res (heap * llist * ptr)) : res (state * lout) :=
  '(h, l, p) <- r ;;
  match p with Some a => Ok ((h, l), LOHandle a) | None => Ub end.

Definition ll_step (s : state) (o : lop) : res (state * lout) :=
  let '(h, l) := s in
  match o with
  | LInsertAfter b x => handle_out (list_insert_after h l b x)
  | LAppend x => handle_out (list_append h l x)
  | LInsertAt i x => handle_out (list_insert_at h l i x)
  | LDeleteNode a => s' <- list_delete_node h l (Some a) ;; Ok (s', LONone)
  | LDeleteAt i => s' <- list_delete_at h l i ;; Ok (s', LONone)
  | LGetNode i => p <- list_get_node h l i ;;
                  match p with Some a => Ok (s, LOHandle a) | None => Ub end
  | LGetAt i => x <- list_get_at h l i ;;
                match x with Some a => Ok (s, LOElem a) | None => Ub end
  | LCount => Ok (s, LONum (list_count l))
  | LIterate => xs <- list_iterate (S (l_count l)) h l None ;; Ok (s, LOSeq xs)
  | LBackward => xs <- list_backward (S (l_count l)) h (l_last l) ;; Ok (s, LOSeq xs)
  end.

Fixpoint ll_run (s : state) (ops : list lop) : res (state * list lout) :=
  match ops with
  | [] => Ok (s, [])
  | o :: ops' =>
    '(s', x) <- ll_step s o ;;
    '(s'', xs) <- ll_run s' ops' ;;
    Ok (s'', x :: xs)
  end.
End LL.
Arguments lnode : clear implicits.
Arguments heap : clear implicits.
Arguments lop : clear implicits.
Arguments lout : clear implicits.
Arguments state : clear implicits.
