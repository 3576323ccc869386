(** Specification vocabulary for sessions: input that does not concern user-defined functions (C78), loading rules (C79). *)
From Coq Require Import List Ascii String NArith ZArith Bool Lia Arith.
From Verif Require Import M_Base M_Tree M_Context M_Trie M_Tokenizer M_ArithCtx M_Eval M_Match M_Simplify M_Session S_Tree S_Session L_ArithCtx.
Import ListNotations.
Open Scope list_scope.
Open Scope nat_scope.

(** The words of an input, as the calculator without user-defined functions cuts it *)
Definition words_of (input : cstr) (ts : list cstr) : Prop :=
  tokenize (fun x => fst (trie_longest_prefix (c_kw the_arith_ctx) x)) input = Ok ts.
(** One of the words is the name of a user-defined function. *)
Definition mentions (defs : list fundef) (ts : list cstr) : Prop := exists f, In f defs /\ In (o_name (f_op f)) ts.
(** The same session without its functions: same rules, history and random numbers *)
Definition without_functions (s : session) : session := mkSession the_arith_ctx (ss_pc s) [] (ss_simp s) (ss_world s).
(** What a command does apart from changing the functions: what is shown, success, and history and random numbers
    afterwards ([None]: the program has quit) *)
Definition cmd_outcome (r : step cmdres) : step (list shown * bool * option world) :=
  match r with
  | Done (Ok (Did s o b)) => Done (Ok (o, b, Some (ss_world s)))
  | Done (Ok (Quit o b)) => Done (Ok (o, b, None))
  | Done Ub => Done Ub
  | Done Halt => Done Halt
  | Forever => Forever
  end.
(** The sessions differ in their simplification rules only. *)
Definition only_rules (s s' : session) : Prop :=
  ss_ctx s' = ss_ctx s /\ ss_pc s' = ss_pc s /\ ss_funs s' = ss_funs s /\ ss_world s' = ss_world s.
