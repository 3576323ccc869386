(** Specification vocabulary for trees: C25-C29, C57. *)
From Coq Require Import List Ascii String NArith ZArith Bool Lia Arith.
From Coq.Floats Require Import SpecFloat.
From Verif Require Import M_Base M_Tree M_TreeUtil.
Import ListNotations.
Open Scope nat_scope.

Definition name_dec : forall a b : cstr, {a = b} + {a <> b} := list_eq_dec ascii_dec.

(** The names at the variable nodes from left to right *)
Fixpoint var_names (n : node) : list cstr :=
  match n with
  | NConst _ _ => []
  | NVar x _ _ => [x]
  | NOp _ cs _ => flat_map var_names cs
  end.
(** The first occurrence of every element *)
Fixpoint firsts (l : list cstr) : list cstr :=
  match l with
  | [] => []
  | x :: l' => x :: filter (fun y => if name_dec x y then false else true) (firsts l')
  end.
(** All variable nodes get the id [pos] says. *)
Fixpoint with_ids (pos : cstr -> nat) (n : node) : node :=
  match n with
  | NConst v t => NConst v t
  | NVar x _ t => NVar x (pos x) t
  | NOp op cs t => NOp op (map (with_ids pos) cs) t
  end.
(** Substitution of [r] for the variable [x] *)
Fixpoint substitute (x : cstr) (r n : node) : node :=
  match n with
  | NConst v t => NConst v t
  | NVar y i t => if name_dec x y then r else NVar y i t
  | NOp op cs t => NOp op (map (substitute x r) cs) t
  end.
(** Values for the variables *)
Fixpoint assign (env : cstr -> double) (n : node) : node :=
  match n with
  | NConst v t => NConst v t
  | NVar x _ t => NConst (env x) t
  | NOp op cs t => NOp op (map (assign env) cs) t
  end.

(** Constants of a tree, and whether a constant occurs in it *)
Fixpoint constants (n : node) : list double :=
  match n with
  | NConst v _ => [v]
  | NVar _ _ _ => []
  | NOp _ cs _ => flat_map constants cs
  end.
Fixpoint operators_of (n : node) : list operator :=
  match n with
  | NConst _ _ | NVar _ _ _ => []
  | NOp op cs _ => op :: flat_map operators_of cs
  end.

(** Where the variable stands, from left to right *)
Definition under (i : nat) (ps : list path) : list path := map (cons i) ps.
Fixpoint places (x : cstr) (n : node) : list path :=
  match n with
  | NConst _ _ => []
  | NVar y _ _ => if name_dec x y then [[]] else []
  | NOp _ cs _ =>
    (fix go (l : list node) (i : nat) : list path :=
       match l with [] => [] | c :: l' => under i (places x c) ++ go l' (S i) end) cs 0
  end.
Fixpoint subtree (n : node) (p : path) : option node :=
  match p with
  | [] => Some n
  | i :: p' => match n with
               | NOp _ cs _ => match nth_error cs i with Some c => subtree c p' | None => None end
               | _ => None
               end
  end.

(** ** Evaluation: operands from left to right, then the operator; the first failure ends it. *)
Section Eval.
Context {S : Type}.
Variable lis : @listener S.
Inductive evals : S -> node -> S -> rres -> Prop :=
| ev_const : forall s v t, evals s (NConst v t) s (RVal v)
| ev_var : forall s x i t, evals s (NVar x i t) s (RFail LISTENERERR_VARIABLE_ENCOUNTERED [])
| ev_apply : forall s op cs t s1 vs s2 v,
    evals_all s cs s1 vs -> lis s1 op vs = (s2, (0%Z, v)) -> evals s (NOp op cs t) s2 (RVal v)
| ev_fail : forall s op cs t s1 vs s2 e v,
    evals_all s cs s1 vs -> lis s1 op vs = (s2, (e, v)) -> e <> 0%Z -> evals s (NOp op cs t) s2 (RFail e [])
| ev_operand : forall s op l c r t s1 vs s2 e p,
    evals_all s l s1 vs -> evals s1 c s2 (RFail e p) ->
    evals s (NOp op (l ++ c :: r) t) s2 (RFail e (List.length l :: p))
with evals_all : S -> list node -> S -> list double -> Prop :=
| ea_nil : forall s, evals_all s [] s []
| ea_cons : forall s c l s1 v s2 vs, evals s c s1 (RVal v) -> evals_all s1 l s2 vs -> evals_all s (c :: l) s2 (v :: vs).
End Eval.

(** A listener without side effects *)
Definition pure (f : operator -> list double -> Z * double) : @listener unit := fun s op args => (s, f op args).
Definition result (f : operator -> list double -> Z * double) (n : node) : rres := snd (tree_reduce (pure f) tt n).

(** Operators of a tree in the order in which evaluation reaches them *)
Fixpoint postorder (n : node) : list operator :=
  match n with
  | NConst _ _ | NVar _ _ _ => []
  | NOp op cs _ => flat_map postorder cs ++ [op]
  end.
(** A listener that notes its calls *)
Definition noting (f : operator -> list double -> Z * double) : @listener (list operator) :=
  fun s op args => (s ++ [op], f op args).
(** Every operator application contains a variable (C29). *)
Fixpoint folded (n : node) : Prop :=
  match n with
  | NConst _ _ | NVar _ _ _ => True
  | NOp op cs _ => var_names n <> [] /\ (fix all (l : list node) : Prop := match l with [] => True | c :: l' => folded c /\ all l' end) cs
  end.
