(** Model of src/engine/tree/tree_util.c. *)
From Coq Require Import List Ascii String NArith ZArith Bool Lia Arith.
From Verif Require Import M_Base M_Tree.
Import ListNotations.
Open Scope nat_scope.

(** tree_util.c:12-37 *)
Fixpoint tree_copy (n : node) : node :=
  match n with
  | NConst v t => NConst v t
  | NVar x i t => NVar x i t
  | NOp op cs t => NOp op (map tree_copy cs) t
  end.

(** tree_util.c:43-72 *)
Fixpoint tree_equals (a b : node) {struct a} : bool :=
  match a, b with
  | NConst v _, NConst w _ => deqb v w
  | NVar x i _, NVar y j _ => streqb x y && (i =? j)
  | NOp p cs _, NOp q ds _ =>
    (o_id p =? o_id q) && (List.length cs =? List.length ds)
    && (fix all (l m : list node) : bool :=
          match l, m with
          | x :: l', y :: m' => tree_equals x y && all l' m'
          | _, _ => true
          end) cs ds
  | _, _ => false
  end.

(** tree_util.c:86-118: child number [i] of the operator node is replaced by copies of the list *)
Definition replace_child_by_list (cs : list node) (i : nat) (l : list node) : list node :=
  firstn i cs ++ map tree_copy l ++ skipn (S i) cs.
Definition tree_replace_by_list (parent : node) (i : nat) (l : list node) : res node :=
  match parent with
  | NOp op cs t =>
    if i <? List.length cs then Ok (NOp op (replace_child_by_list cs i l) t) else Ub
  | _ => Ub
  end.

(** tree_util.c:124-147 *)
Fixpoint count_all_variable_nodes (n : node) : nat :=
  match n with
  | NConst _ _ => 0
  | NVar _ _ _ => 1
  | NOp _ cs _ => fold_left (fun sum c => sum + count_all_variable_nodes c) cs 0
  end.

(** A pointer into a tree is a path: the child numbers from the root. *)
Definition path := list nat.

(** tree_util.c:155-202. Result: the number found and the writes to out_instances as (index, path);
    [off] is the offset of out_instances in the caller's buffer. *)
Fixpoint get_variable_nodes (n : node) (name : cstr) (buf off : nat) : nat * list (nat * path) :=
  match n with
  | NConst _ _ => (0, [])
  | NVar x _ _ => if streqb x name then (1, if 0 <? buf then [(off, [])] else []) else (0, [])
  | NOp _ cs _ =>
    (fix go (l : list node) (i buf res : nat) : nat * list (nat * path) :=
       match l with
       | [] => (res, [])
       | c :: l' =>
         let '(k, ws) := get_variable_nodes c name buf (off + res) in
         let '(k', ws') := go l' (S i) (if k <=? buf then buf - k else 0) (res + k) in
         (k', map (fun w => (fst w, i :: snd w)) ws ++ ws')
       end) cs 0 buf 0
  end.

(** index of [x] in [l] *)
Fixpoint index_of (x : cstr) (l : list cstr) : option nat :=
  match l with
  | [] => None
  | y :: l' => if streqb x y then Some 0 else option_map S (index_of x l')
  end.

(** tree_util.c:204-245. [found] is the filled part of out_vars, num_found its length; [None] is the
    result -1. The tree comes back with the ids that were set. *)
Fixpoint list_variables_rec (n : node) (buf : nat) (found : option (list cstr)) : node * option (list cstr) :=
  match found with
  | None => (n, None)
  | Some vs =>
    match n with
    | NConst v t => (n, Some vs)
    | NVar x i t =>
      match index_of x vs with
      | Some k => (NVar x k t, Some vs)
      | None => if List.length vs <? buf then (NVar x (List.length vs) t, Some (vs ++ [x])) else (n, None)
      end
    | NOp op cs t =>
      let '(cs', r) :=
        (fix go (l : list node) (found : option (list cstr)) : list node * option (list cstr) :=
           match l with
           | [] => ([], found)
           | c :: l' =>
             let '(c', f1) := list_variables_rec c buf found in
             let '(l'', f2) := go l' f1 in
             (c' :: l'', f2)
           end) cs found in
      (NOp op cs' t, r)
    end
  end.

(** tree_util.c:278-296: the tree with ids, the names written ([None]: not all of them fit), the number
    returned *)
Definition list_variables (n : node) (buf : nat) : node * option (list cstr) * nat :=
  let '(n', r) := list_variables_rec n buf (Some []) in
  match r with
  | None => (n', None, buf)
  | Some vs => (n', Some vs, List.length vs)
  end.

(** tree_util.c:250-268: path of the first operator node with that operator id *)
Fixpoint find_op (n : node) (op : operator) : option path :=
  match n with
  | NOp p cs _ =>
    if o_id p =? o_id op then Some []
    else (fix go (l : list node) (i : nat) : option path :=
            match l with
            | [] => None
            | c :: l' => match find_op c op with
                         | Some q => Some (i :: q)
                         | None => go l' (S i)
                         end
            end) cs 0
  | _ => None
  end.

(** tree_util.c:298-323 *)
Fixpoint tree_copy_IDs (n : node) (vars : list cstr) : node :=
  match n with
  | NConst v t => n
  | NVar x i t => match index_of x vars with Some k => NVar x k t | None => n end
  | NOp op cs t => NOp op (map (fun c => tree_copy_IDs c vars) cs) t
  end.

(** tree_util.c:333-360: the changed tree and the number of replacements *)
Fixpoint replace_variable_nodes (n repl : node) (name : cstr) : node * nat :=
  match n with
  | NConst _ _ => (n, 0)
  | NVar x _ _ => if streqb name x then (tree_copy repl, 1) else (n, 0)
  | NOp op cs t =>
    let rs := map (fun c => replace_variable_nodes c repl name) cs in
    (NOp op (map fst rs) t, fold_left (fun acc r => acc + snd r) rs 0)
  end.

(** ** Evaluation. ListenerError is an int, LISTENERERR_SUCCESS is 0 (tree_util.h:4-7). The listener is
    a C function that may have side effects (rand): it transforms a state of type [S]. *)
Section Reduce.
Context {S : Type}.
Definition LISTENERERR_VARIABLE_ENCOUNTERED : Z := (-50)%Z.
(** result code and the value stored through [out] *)
Definition listener := S -> operator -> list double -> S * (Z * double).
Variable lis : listener.

(** What the caller sees: the value, or the error code and the node *out_errnode points to. *)
Inductive rres := RVal (v : double) | RFail (err : Z) (at_node : path).

(** tree_util.c:372-414 *)
Fixpoint tree_reduce (s : S) (n : node) : S * rres :=
  match n with
  | NConst v _ => (s, RVal v)
  | NVar _ _ _ => (s, RFail LISTENERERR_VARIABLE_ENCOUNTERED [])
  | NOp op cs _ =>
    let '(s', r) :=
      (fix go (l : list node) (i : nat) (s : S) (args : list double) : S * (list double + Z * path) :=
         match l with
         | [] => (s, inl args)
         | c :: l' =>
           let '(s', r) := tree_reduce s c in
           match r with
           | RVal v => go l' (Datatypes.S i) s' (args ++ [v])
           | RFail e p => (s', inr (e, i :: p))
           end
         end) cs 0 s [] in
    match r with
    | inr (e, p) => (s', RFail e p)
    | inl args =>
      let '(s'', (e, v)) := lis s' op args in
      if (e =? 0)%Z then (s'', RVal v) else (s'', RFail e [])
    end
  end.

(** tree_util.c:422-445: the tree afterwards (also changed when an error occurs) and the error *)
Fixpoint tree_reduce_constant_subtrees (s : S) (n : node) : S * (node * option (Z * path)) :=
  if count_all_variable_nodes n =? 0 then
    match tree_reduce s n with
    | (s', RVal v) => (s', (NConst v (get_token_index n), None))
    | (s', RFail e p) => (s', (n, Some (e, p)))
    end
  else
    match n with
    | NOp op cs t =>
      let '(s', (cs', err)) :=
        (fix go (l : list node) (i : nat) (s : S) : S * (list node * option (Z * path)) :=
           match l with
           | [] => (s, ([], None))
           | c :: l' =>
             match tree_reduce_constant_subtrees s c with
             | (s', (c', Some (e, p))) => (s', (c' :: l', Some (e, i :: p)))
             | (s', (c', None)) =>
               let '(s'', (l'', err)) := go l' (Datatypes.S i) s' in (s'', (c' :: l'', err))
             end
           end) cs 0 s in
      (s', (NOp op cs' t, err))
    | _ => (s, (n, None))
    end.
End Reduce.

(** tree_util.c:450-467; comparison of operator pointers is comparison of addresses *)
Fixpoint tree_reduce_ops (n : node) (op : operator) (cb : list node -> double) : node :=
  match n with
  | NOp p cs t =>
    let cs' := map (fun c => tree_reduce_ops c op cb) cs in
    if o_addr p =? o_addr op then NConst (cb cs') t else NOp p cs' t
  | _ => n
  end.
