(** Base of the model: outcomes of C code, characters, strings. *)
From Coq Require Import List Ascii String NArith ZArith Bool Lia.
Import ListNotations.

(** Outcome of running a piece of C code.
    [Ub]   : undefined behaviour (null dereference, out-of-bounds or freed memory access, use of
             an uninitialised result, overflow, ...);
    [Halt] : the program is stopped on purpose by software_defect (src/util/console_util.c) or by a failing assert. *)
Inductive res (A : Type) : Type :=
| Ok (a : A)
| Ub
| Halt.
Arguments Ok {A} a.
Arguments Ub {A}.
Arguments Halt {A}.

Definition rbind {A B} (x : res A) (f : A -> res B) : res B :=
  match x with
  | Ok a => f a
  | Ub => Ub
  | Halt => Halt
  end.

Declare Scope res_scope.
Notation "x <- e ;; f" := (rbind e (fun x => f))
  (at level 61, e at next level, right associativity) : res_scope.
Notation "' p <- e ;; f" := (rbind e (fun p => f))
  (at level 61, p pattern, e at next level, right associativity) : res_scope.

(** C strings: the characters before the terminating NUL. A buffer that may hold NULs is also a
    [list ascii]. *)
Definition cstr := list ascii.
Definition str (s : string) : cstr := list_ascii_of_string s.
Coercion str : string >-> cstr.

Definition NUL : ascii := Ascii.zero.
Definition code (c : ascii) : N := N_of_ascii c.

Definition ceqb (a b : ascii) : bool := Ascii.eqb a b.

(** strcmp(a, b) == 0 *)
Fixpoint streqb (a b : cstr) : bool :=
  match a, b with
  | [], [] => true
  | x :: a', y :: b' => ceqb x y && streqb a' b'
  | _, _ => false
  end.
