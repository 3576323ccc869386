(** Model of src/client/simplification: the propositional context, the checker of rule constraints, and the
    simplification of expressions. Error messages are not modelled. *)
From Coq Require Import List Ascii String NArith ZArith Bool Lia Arith.
From Coq.Floats Require Import SpecFloat.
From Verif Require Import M_Base M_StringUtil M_Tree M_Context M_Parser M_TreeUtil M_Match M_RuleParsing M_ArithCtx M_Double M_Eval.
Import ListNotations.
Open Scope nat_scope.
Open Scope res_scope.

(** arith_context.h:6 *)
Definition NUM_ARITH_OPS : nat := 58.

(** propositional_context.c:13-28 *)
Definition prop_ops : list operator :=
  [ op_get_function (str "type") (Some 1);
    op_get_function (str "equal") (Some 2);
    op_get_infix (str "==") 1 ALeft;
    op_get_infix (str "!=") 1 ALeft;
    op_get_constant (str "CONST");
    op_get_constant (str "VAR");
    op_get_constant (str "OP");
    op_get_infix (str ">") 1 ALeft;
    op_get_infix (str "<") 1 ALeft;
    op_get_infix (str ">=") 1 ALeft;
    op_get_infix (str "<=") 1 ALeft;
    op_get_infix (str "||") 0 ALeft;
    op_get_constant (str "TRUE");
    op_get_constant (str "FALSE");
    op_get_prefix (str "!") 4;
    op_get_function (str "count") None ].

(** propositional_context.c:9-34. In the model both contexts count addresses from 0, so that operators of
    different contexts may have the same address. Addresses are compared in tree_reduce_ops only, with
    those of "type" and "equal" (58 and 59); the trees it is given contain operators of this context
    and built-in operators of the arithmetic one (addresses below 58), because user-defined functions
    have been replaced before (arith_context.c:256). *)
Definition init_propositional_ctx : res ctx :=
  c <- get_arith_ctx ;;
  '(c1, ok) <- ctx_add_ops c prop_ops ;;
  if ok : bool then
    '(c2, _) <- ctx_set_glue_op c1 None ;;
    Ok c2
  else Halt.

(** ** propositional_evaluation.c *)
Definition truth (b : bool) : double := if b then d1 else d0.
(** propositional_evaluation.c:10-14 *)
Definition EVAL_TYPE_CONST : double := of_Z 2.
Definition EVAL_TYPE_VAR : double := of_Z 3.
Definition EVAL_TYPE_OP : double := of_Z 4.

Section Simplify.
Variable L : libm.
(** rounds granted to every loop *)
Variable fuel : nat.

(** propositional_evaluation.c:16-66 *)
Definition prop_op_evaluate (w : world) (op : operator) (args : list double) : outcome :=
  if o_id op <? NUM_ARITH_OPS then arith_op_evaluate L fuel w op args
  else
    let two f := with2 args (fun x y => ok w (truth (f x y))) in
    match o_id op - NUM_ARITH_OPS with
    | 2 => two deqb
    | 3 => two dneb
    | 4 => ok w EVAL_TYPE_CONST
    | 5 => ok w EVAL_TYPE_VAR
    | 6 => ok w EVAL_TYPE_OP
    | 7 => two dgtb
    | 8 => two dltb
    | 9 => two dgeb
    | 10 => two dleb
    | 11 => two (fun x y => dneb x d0 || dneb y d0)
    | 12 => ok w d1
    | 13 => ok w d0
    | 14 => with1 args (fun x => ok w (truth (negb (dneb x d0))))
    | _ => Done Halt                                   (* software_defect *)
    end.
Definition prop_listener : @listener lworld := fun s op args =>
  match s with
  | Done (Ok w) =>
    match prop_op_evaluate w op args with
    | Done (Ok (w', ev)) => (Done (Ok w'), ev)
    | Done Ub => (Done Ub, (0%Z, d0))
    | Done Halt => (Done Halt, (0%Z, d0))
    | Forever => (Forever, (0%Z, d0))
    end
  | _ => (s, (0%Z, d0))
  end.

(** propositional_evaluation.c:68-78; fewer than two children: see [short_call] *)
Definition equal_eval (cs : list node) : double :=
  match cs with a :: b :: _ => truth (tree_equals a b) | _ => d0 end.
(** propositional_evaluation.c:80-86 *)
Definition type_eval (cs : list node) : double :=
  match cs with
  | NConst _ _ :: _ => EVAL_TYPE_CONST
  | NOp _ _ _ :: _ => EVAL_TYPE_OP
  | NVar _ _ _ :: _ => EVAL_TYPE_VAR
  | [] => d0
  end.
(** The operator is somewhere applied to fewer than [k] operands (a list variable may have been replaced by
    no tree at all): the callback reads children that do not exist. *)
Fixpoint short_call (n : node) (op : operator) (k : nat) : bool :=
  match n with
  | NOp p cs _ => (o_addr p =? o_addr op) && (List.length cs <? k) || existsb (fun c => short_call c op k) cs
  | _ => false
  end.
Definition reduce_calls (n : node) (op : option operator) (k : nat) (cb : list node -> double) : res node :=
  match op with
  | None => Ok n                                       (* a null pointer equals no operator *)
  | Some op => if short_call n op k then Ub else Ok (tree_reduce_ops n op cb)
  end.

(** propositional_evaluation.c:88-103. [pc] is the propositional context. Evaluation inside a constraint
    sees the state [w] but does not change it in the model: rand() called there would advance the
    random numbers in C. A check that does not end is counted as [Halt]. *)
Definition propositional_checker (pc : ctx) (w : world) (t : node) : res bool :=
  ty <- ctx_lookup_op pc (str "type") PFunction ;;
  t1 <- reduce_calls t ty 1 type_eval ;;
  eq <- ctx_lookup_op pc (str "equal") PFunction ;;
  t2 <- reduce_calls t1 eq 2 equal_eval ;;
  match tree_reduce prop_listener (Done (Ok w)) t2 with
  | (Done (Ok _), RVal v) => Ok (dneb v d0)
  | (Done (Ok _), RFail _ _) => Ok false
  | (Done Ub, _) => Ub
  | _ => Halt
  end.

(** ** simplification.c *)
(** simplification.c:45-66; [minus] is ctx_lookup_op(g_ctx, "-", OP_PLACE_PREFIX) *)
Fixpoint replace_negative_consts (minus : operator) (n : node) : node :=
  match n with
  | NConst v t => if dltb v d0 then NOp minus [NConst (fabs v) t] t else n
  | NVar _ _ _ => n
  | NOp op cs t => NOp op (map (replace_negative_consts minus) cs) t
  end.

(** simplification.c:33-38: the module's variables once it is initialized. A null pointer in place of a
    tree is [None]. *)
Record simp := mkSimp {
  s_rulesets : list (list rule);
  s_before : option pattern;
  s_after : option node;
  s_malformed : pattern }.
Definition NUM_RULESETS : nat := 7.

(** What init_simplification returns *)
Inductive initres := IUnreadable | IMalformed | ILoaded (s : simp) (count : nat).

(** simplification.c:74-108; [file] is the content of the file ([None]: it cannot be opened), [g] the
    arithmetic context *)
Definition init_simplification (strtod : cstr -> option double) (g pc : ctx) (file : option (list ascii)) : res initres :=
  match file with
  | None => Ok IUnreadable
  | Some content =>
    r <- parse_rulesets_from_file strtod pc content (repeat [] NUM_RULESETS) ;;
    match r with
    | None => Ok IMalformed
    | Some (sets, k) =>
      if k =? NUM_RULESETS then
        x <- parse_easy strtod g (str "x'") ;;
        a <- parse_easy strtod g (str "deriv(x, z)") ;;
        m <- parse_pattern strtod pc (str "deriv(x, y) WHERE type(y) != VAR") ;;
        match m with
        | None => Ub                                   (* malformed_deriv stays uninitialised *)
        | Some m =>
          match x with
          | None => Ub                                 (* get_pattern gets a null tree *)
          | Some t =>
            Ok (ILoaded (mkSimp sets (match get_pattern t [] with PatOk p => Some p | PatErr _ => None end) a m)
                  (list_sum (map (@List.length rule) sets)))
          end
        end
      else Ok IMalformed
    end
  end.

(** The outcome of a step that may crash, stop the program or not end *)
Definition out (A : Type) := run (res (world * A)).
Definition obind {A B} (o : out A) (f : world -> A -> out B) : out B :=
  match o with
  | Done (Ok (w, a)) => f w a
  | Done Ub => Done Ub
  | Done Halt => Done Halt
  | Forever => Forever
  end.
Definition oret {A} (w : world) (a : A) : out A := Done (Ok (w, a)).
Definition lift {A B} (r : res A) (f : A -> out B) : out B :=
  match r with Ok a => f a | Ub => Done Ub | Halt => Done Halt end.

(** tree_reduce_constant_subtrees with arith_op_evaluate *)
Definition reduce_constants (w : world) (t : node) : out (node * option (Z * path)) :=
  match tree_reduce_constant_subtrees (arith_listener L fuel) (Done (Ok w)) t with
  | (Done (Ok w'), r) => oret w' r
  | (Done Ub, _) => Done Ub
  | (Done Halt, _) => Done Halt
  | (Forever, _) => Forever
  end.

Variables (g pc : ctx).

(** the call of ctx_lookup_op in simplification.c:51; a null operator would be dereferenced when the node
    is used *)
Definition minus_op : res operator :=
  o <- ctx_lookup_op g (str "-") PPrefix ;; match o with Some op => Ok op | None => Ub end.

(** simplification.c:123-132; the errors of the reduction in the loop are ignored *)
Fixpoint simplification_loop (rounds : nat) (w : world) (t : node) (rs : list rule) : out node :=
  match rounds with
  | 0 => Forever
  | S k =>
    lift (apply_ruleset 1 (propositional_checker pc w) rs 1 t) (fun r =>
    match r with
    | None => Forever
    | Some (t1, 0) => oret w t1
    | Some (t1, S _) => obind (reduce_constants w t1) (fun w' r' => simplification_loop k w' (fst r') rs)
    end)
  end.
Definition apply_simplification (w : world) (t : node) (rs : list rule) : out node :=
  obind (simplification_loop fuel w t rs) (fun w' t' =>
  lift minus_op (fun m => oret w' (replace_negative_consts m t'))).

(** The result of a step with a ListenerError: [None] is LISTENERERR_SUCCESS, otherwise the code and the
    node *errnode points at *)
Definition lres := option (Z * path).

(** simplification.c:138-160. list_variables writes the ids into the nodes of the matched tree, so the operand
    that is copied afterwards has them too: its variables are numbered alone, which is the same because it is
    the only operand. *)
Fixpoint shorthand_loop (rounds : nat) (s : simp) (w : world) (t : node) : out (node * lres) :=
  match rounds with
  | 0 => Forever
  | S k =>
    match s_before s with
    | None => Done Ub
    | Some pat =>
      lift (find_matching (fun _ => Ub) pat t) (fun f =>
      match f with
      | None => oret w (t, None)
      | Some (p, m) =>
        lift (deref t p) (fun matched =>
        let '(matched', vars, count) := list_variables matched 2 in
        if 1 <? count then oret w (replace_at t p matched', Some (LISTENERERR_MALFORMED_DERIV_A, p))
        else
          match s_after s with
          | Some (NOp op (a0 :: a1 :: rest) _) =>
            lift (mapped_list m 0) (fun l =>
            match l with
            | [] => Done Ub
            | x :: _ =>
              let a1' := match vars with Some (v :: _) => NVar v 0 0 | _ => a1 end in
              shorthand_loop k s w
                (replace_at t p (NOp op (tree_copy (fst (fst (list_variables x 2))) :: a1' :: rest) (get_token_index matched)))
            end)
          | _ => Done Ub
          end)
      end)
    end
  end.
(** simplification.c:134-181 *)
Definition apply_derivatives (s : simp) (w : world) (t : node) : out (node * lres) :=
  obind (shorthand_loop fuel s w t) (fun w1 r =>
  match r with
  | (t1, Some e) => oret w1 (t1, Some e)
  | (t1, None) =>
    lift (find_matching (propositional_checker pc w1) (s_malformed s) t1) (fun f =>
    match f with
    | Some (p, _) => oret w1 (t1, Some (LISTENERERR_MALFORMED_DERIV_B, p))
    | None =>
      obind (apply_simplification w1 t1 (nth 1 (s_rulesets s) [])) (fun w2 t2 =>
      match s_after s with
      | Some (NOp op _ _) =>
        match find_op t2 op with
        | Some p => oret w2 (t2, Some (LISTENERERR_IMPOSSIBLE_DERIV, p))
        | None => oret w2 (t2, None)
        end
      | _ => Done Ub
      end)
    end)
  end).

(** simplification.c:183-191 *)
Definition simplify_without_derivative (s : simp) (w : world) (t : node) : out node :=
  fold_left (fun o i => obind o (fun w' t' => apply_simplification w' t' (nth i (s_rulesets s) [])))
    [0; 2; 3; 4; 5; 6] (oret w t).

(** simplification.c:200-218; [None] for [s]: the module is not initialized *)
Definition simplify (s : option simp) (w : world) (t : node) : out (node * lres) :=
  obind (reduce_constants w t) (fun w1 r =>
  match s with
  | None => oret w1 r
  | Some s =>
    obind (simplify_without_derivative s w1 (fst r)) (fun w2 t2 =>
    obind (apply_derivatives s w2 t2) (fun w3 r3 =>
    match r3 with
    | (t3, Some e) => oret w3 (t3, Some e)
    | (t3, None) =>
      obind (simplify_without_derivative s w3 t3) (fun w4 t4 =>
      obind (reduce_constants w4 t4) (fun w5 r5 =>
      match r5 with
      | (t5, Some e) => oret w5 (t5, Some e)
      | (t5, None) => lift minus_op (fun m => oret w5 (replace_negative_consts m t5, None))
      end))
    end))
  end).
End Simplify.
