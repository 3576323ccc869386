(** Model of src/engine/transformation/matching.c, transformation.c and rewrite_rule.c. *)
From Coq Require Import List Ascii String NArith ZArith Bool Lia Arith.
From Verif Require Import M_Base M_Tree M_TreeUtil.
Import ListNotations.
Open Scope nat_scope.
Open Scope res_scope.

(** matching.h:5-7 *)
Definition MAX_MAPPED_VARS : nat := 10.
Definition MATCHING_MAX_CONSTRAINTS : nat := 3.
Definition MATCHING_LIST_PREFIX : ascii := "["%char.

(** Arithmetic in size_t (64 bit) *)
Definition two64 : N := 18446744073709551616%N.
Definition add64 (a b : N) : N := ((a + b) mod two64)%N.
Definition sub64 (a b : N) : N := ((a + two64 - b) mod two64)%N.

(** node.h: NodeList. [nl_nodes] is what can be read through the pointer: the children from the position
    pointed at to the end of the array they lie in. A NodeList whose pointer is NULL is [None]. *)
Record nodelist := mkNL { nl_size : N; nl_nodes : list node }.

(** matching.h: Matching, an array of MAX_MAPPED_VARS lists *)
Definition matching := list (option nodelist).
Definition empty_matching : matching := repeat None MAX_MAPPED_VARS.

(** matching.h: Pattern; the constraints per trigger index (num_constraints is the length) *)
Record pattern := mkPat { pt_tree : node; pt_constraints : list (list node) }.

(** matching->mapped_nodes[id] with bounds check *)
Definition mapped (m : matching) (id : nat) : res (option nodelist) :=
  match nth_error m id with Some o => Ok o | None => Ub end.
Fixpoint set_mapped (m : matching) (id : nat) (l : nodelist) : matching :=
  match m, id with
  | [], _ => []
  | _ :: m', 0 => Some l :: m'
  | o :: m', S i => o :: set_mapped m' i l
  end.

(** All [nl_size] nodes of a list, read one by one *)
Definition nl_read (l : nodelist) : res (list node) :=
  if (nl_size l <=? N.of_nat (List.length (nl_nodes l)))%N
  then Ok (firstn (N.to_nat (nl_size l)) (nl_nodes l)) else Ub.
Definition mapped_list (m : matching) (id : nat) : res (list node) :=
  o <- mapped m id ;; match o with None => Ok [] | Some l => nl_read l end.

(** ** transformation.c *)

(** transformation.c:7-26: what child [n] of an operator node becomes. The loop replaces a variable in
    place by the copies of its list (tree_util.c:86-118) and goes on behind them, so that every original
    child is treated once; the model concatenates the pieces. *)
Fixpoint transform_child (m : matching) (n : node) : res (list node) :=
  match n with
  | NConst _ _ => Ok [n]
  | NVar _ id _ => l <- mapped_list m id ;; Ok (map tree_copy l)
  | NOp op cs t =>
    cs' <- (fix go (l : list node) : res (list node) :=
              match l with
              | [] => Ok []
              | c :: l' => a <- transform_child m c ;; b <- go l' ;; Ok (a ++ b)
              end) cs ;;
    Ok [NOp op cs' t]
  end.
Fixpoint transform_matched_recursive (m : matching) (l : list node) : res (list node) :=
  match l with
  | [] => Ok []
  | c :: l' => a <- transform_child m c ;; b <- transform_matched_recursive m l' ;; Ok (a ++ b)
  end.

(** transformation.c:31-50 *)
Definition transform_by_matching (m : matching) (n : node) : res node :=
  match n with
  | NOp op cs t => cs' <- transform_matched_recursive m cs ;; Ok (NOp op cs' t)
  | NVar _ id _ =>
    o <- mapped m id ;;
    match o with
    | None => Halt                                 (* size is 0 *)
    | Some l => if (nl_size l =? 1)%N
                then match nl_nodes l with t :: _ => Ok (tree_copy t) | [] => Ub end
                else Halt
    end
  | NConst _ _ => Ok n
  end.

(** ** matching.c *)

(** matching.c:23-30. SIZE_MAX as first_match_index (pending) is [None]. *)
Record snode := mkSN {
  sn_first : option nat; sn_num : nat; sn_label : N; sn_sum : N; sn_dist : nat; sn_parent : nat }.

(** reading element [i] of a vector *)
Definition vget {A} (l : list A) (i : nat) : res A := match nth_error l i with Some x => Ok x | None => Ub end.
Fixpoint vset {A} (l : list A) (i : nat) (x : A) : list A :=
  match l, i with
  | [], _ => []
  | _ :: l', 0 => x :: l'
  | y :: l', S i' => y :: vset l' i' x
  end.

(** matching.c:199-207. A read past the end of one of the arrays is undefined behaviour. *)
Fixpoint equal_loop (k : N) (a b : list node) : res bool :=
  if (k =? 0)%N then Ok true
  else match a, b with
       | x :: a', y :: b' => if tree_equals x y then equal_loop (N.pred k) a' b' else Ok false
       | _, _ => Ub
       end.
Definition nodelists_equal (a b : nodelist) : res bool :=
  if (nl_size a =? nl_size b)%N then equal_loop (nl_size a) (nl_nodes a) (nl_nodes b) else Ok false.

(** matching.c:124-191: the labels of the suffix nodes pushed for a pattern child. Requesting more than
    num_tree + 1 insertions is only possible by wrap-around; the vector would then need more memory than
    there is and malloc_wrapper stops the program. *)
Definition unbound_labels (last : bool) (num_tree new_sum : N) : res (list N) :=
  if last then Ok [sub64 num_tree new_sum]
  else
    let k := add64 (sub64 num_tree new_sum) 1 in
    if (k <=? num_tree + 1)%N then Ok (map N.of_nat (seq 0 (N.to_nat k))) else Halt.
Definition next_labels (m : matching) (p : node) (last : bool) (num_tree new_sum : N) : res (list N) :=
  match p with
  | NVar x id _ =>
    if ceqb (hd NUL x) MATCHING_LIST_PREFIX then
      o <- mapped m id ;;
      match o with
      | Some l => if (add64 new_sum 1 <=? num_tree)%N then Ok [nl_size l] else unbound_labels last num_tree new_sum
      | None => unbound_labels last num_tree new_sum
      end
    else if (new_sum <? num_tree)%N then Ok [1%N] else Ok []
  | _ => if (new_sum <? num_tree)%N then Ok [1%N] else Ok []
  end.

(** The size the suffix vector will have grown to below a node; used as fuel (see mpl_enough in
    L_Match.v). *)
Fixpoint suffix_count (m : matching) (pcs : list node) (num_tree new_sum : N) : nat :=
  match pcs with
  | [] => 1
  | p :: ps =>
    S (match next_labels m p (match ps with [] => true | _ => false end) num_tree new_sum with
       | Ok ls => list_sum (map (fun l => suffix_count m ps num_tree (add64 new_sum l)) ls)
       | _ => 0
       end)
  end.

Section MPL.
(** extend_matching for every pattern child *)
Variable exts : list (matching -> nodelist -> res (list matching)).
Variable pcs : list node.
Variable tcs : list node.

(** matching.c:61-70 *)
Fixpoint fill_loop (ext : matching -> res (list matching)) (k i first : nat) (loc : list matching)
  : res (list matching) :=
  match k with
  | 0 => Ok loc
  | S k' =>
    m <- vget loc (first + i) ;;
    new <- ext m ;;
    fill_loop ext k' (S i) first (loc ++ new)
  end.

(** matching.c:38-73; the parent's index is smaller, so [fuel] = curr_index + 1 is enough *)
Fixpoint fill_suffix (fuel curr_index : nat) (sfx : list snode) (loc : list matching)
  : res (list snode * list matching) :=
  c <- vget sfx curr_index ;;
  match sn_first c with
  | Some _ => Ok (sfx, loc)
  | None =>
    match fuel with
    | 0 => Halt
    | S f =>
      '(sfx1, loc1) <- fill_suffix f (sn_parent c) sfx loc ;;
      par <- vget sfx1 (sn_parent c) ;;
      match sn_first par with
      | None => Ub
      | Some pf =>
        ext <- vget exts (sn_dist c - 1) ;;
        loc2 <- fill_loop (fun m => ext m (mkNL (sn_label c) (skipn (N.to_nat (sn_sum c)) tcs)))
                  (sn_num par) 0 pf loc1 ;;
        Ok (vset sfx1 curr_index
              (mkSN (Some (List.length loc1)) (List.length loc2 - List.length loc1)
                 (sn_label c) (sn_sum c) (sn_dist c) (sn_parent c)), loc2)
      end
    end
  end.

(** matching.c:97-193: the loop over the growing suffix vector; [out] is what was pushed to
    out_matchings so far. *)
Fixpoint mpl_loop (fuel : nat) (m : matching) (curr_index : nat) (sfx : list snode)
    (loc out : list matching) : res (list matching) :=
  match nth_error sfx curr_index with
  | None => Ok out
  | Some curr =>
    match fuel with
    | 0 => Halt
    | S f =>
      let num_tree := N.of_nat (List.length tcs) in
      let new_sum := add64 (sn_sum curr) (sn_label curr) in
      '(sfx1, loc1, out1) <-
        (if (new_sum =? num_tree)%N && (sn_dist curr =? List.length pcs) then
           '(sfx', loc') <- fill_suffix (S curr_index) curr_index sfx loc ;;
           c' <- vget sfx' curr_index ;;
           match sn_first c' with
           | Some a => Ok (sfx', loc', out ++ skipn a loc')
           | None => Ub
           end
         else Ok (sfx, loc, out)) ;;
      match nth_error pcs (sn_dist curr) with
      | Some p =>
        ls <- next_labels m p (sn_dist curr =? List.length pcs - 1) num_tree new_sum ;;
        mpl_loop f m (S curr_index)
          (sfx1 ++ map (fun l => mkSN None 0 l new_sum (S (sn_dist curr)) curr_index) ls) loc1 out1
      | None => mpl_loop f m (S curr_index) sfx1 loc1 out1
      end
    end
  end.

(** matching.c:75-197 *)
Definition match_parameter_lists (m : matching) : res (list matching) :=
  mpl_loop (suffix_count m pcs (N.of_nat (List.length tcs)) 0) m 0
    [mkSN (Some 0) 1 0 0 0 0] [m] [].
End MPL.

Section Match.
(** The constraint checker; a NULL callback is [fun _ => Ub]. It is taken to have no side effects. *)
Variable checker : node -> res bool.
Variable pat : pattern.

(** matching.c:237-244 *)
Fixpoint check_constraints (cs : list node) (m : matching) : res bool :=
  match cs with
  | [] => Ok true
  | c :: cs' =>
    t <- transform_by_matching m (tree_copy c) ;;
    b <- checker t ;;
    if b : bool then check_constraints cs' m else Ok false
  end.

(** matching.c:209-278: the matchings pushed to out_matchings *)
Fixpoint extend_matching (p : node) (m : matching) (tl : nodelist) {struct p} : res (list matching) :=
  match p with
  | NVar _ id _ =>
    o <- mapped m id ;;
    match o with
    | Some l => b <- nodelists_equal l tl ;; if b : bool then Ok [m] else Ok []
    | None =>
      let m' := set_mapped m id tl in
      b <- check_constraints (nth id (pt_constraints pat) []) m' ;;
      if b : bool then Ok [m'] else Ok []
    end
  | NConst _ _ =>
    if (nl_size tl =? 1)%N then
      t <- vget (nl_nodes tl) 0 ;; if tree_equals p t then Ok [m] else Ok []
    else Ok []
  | NOp op cs _ =>
    if (nl_size tl =? 1)%N then
      t <- vget (nl_nodes tl) 0 ;;
      match t with
      | NOp op' cs' _ =>
        if o_id op =? o_id op' then match_parameter_lists (map extend_matching cs) cs cs' m else Ok []
      | _ => Ok []
      end
    else Ok []
  end.

(** matching.c:289-318 *)
Definition get_all_matchings (t : node) : res (list matching) :=
  extend_matching (pt_tree pat) empty_matching (mkNL 1 [t]).

(** matching.c:327-349 *)
Definition get_matching (t : node) : res (option matching) :=
  ms <- get_all_matchings t ;;
  match ms with [] => Ok None | m :: _ => Ok (Some m) end.

(** matching.c:354-366; the pointer returned is the path *)
Fixpoint find_matching (t : node) : res (option (path * matching)) :=
  r <- get_matching t ;;
  match r with
  | Some m => Ok (Some ([], m))
  | None =>
    match t with
    | NOp _ cs _ =>
      (fix go (l : list node) (i : nat) : res (option (path * matching)) :=
         match l with
         | [] => Ok None
         | c :: l' =>
           r <- find_matching c ;;
           match r with
           | Some (p, m) => Ok (Some (i :: p, m))
           | None => go l' (S i)
           end
         end) cs 0
    | _ => Ok None
    end
  end.
End Match.

(** matching.c:375-416 *)
Inductive patres := PatOk (p : pattern) | PatErr (code : Z).
Definition MAX_MAPPED_VARS_EXCEEDED : Z := (-1)%Z.
Definition MATCHING_MAX_CONSTRAINTS_EXCEEDED : Z := (-2)%Z.

(** matching.c:397-404 *)
Fixpoint trigger (c : node) (vars : list cstr) (j max_id : nat) : nat :=
  match vars with
  | [] => max_id
  | x :: vars' => trigger c vars' (S j) (if fst (get_variable_nodes c x 0 0) =? 0 then max_id else j)
  end.
(** matching.c:393-414 *)
Fixpoint add_constraints (vars : list cstr) (cs : list node) (acc : list (list node)) : option (list (list node)) :=
  match cs with
  | [] => Some acc
  | c :: cs' =>
    let c' := tree_copy_IDs c vars in
    let id := trigger c' vars 0 0 in
    if List.length (nth id acc []) =? MATCHING_MAX_CONSTRAINTS then None
    else add_constraints vars cs' (vset acc id (nth id acc [] ++ [c']))
  end.
Definition get_pattern (tree : node) (constrs : list node) : patres :=
  match list_variables tree MAX_MAPPED_VARS with
  | (_, None, _) => PatErr MAX_MAPPED_VARS_EXCEEDED
  | (tree', Some vars, _) =>
    match add_constraints vars constrs (repeat [] MAX_MAPPED_VARS) with
    | None => PatErr MATCHING_MAX_CONSTRAINTS_EXCEEDED
    | Some acc => PatOk (mkPat tree' acc)
    end
  end.

(** ** rewrite_rule.c *)

(** rewrite_rule.h: RewriteRule *)
Record rule := mkRule { r_pat : pattern; r_after : node }.

(** rewrite_rule.c:16-50; the null result is [None]. list_variables sets ids in the trees it is given;
    those in [after] are overwritten at line 43 because every variable occurs in the pattern. *)
Definition get_rule (p : pattern) (after : node) : option rule :=
  let '(ok, after1) :=
    (if 0 <? count_all_variable_nodes after then
       match list_variables after MAX_MAPPED_VARS with
       | (after', None, _) => (false, after')
       | (after', Some vars, _) =>
         (forallb (fun x => negb (fst (get_variable_nodes (pt_tree p) x 0 0) =? 0)) vars, after')
       end
     else (true, after)) in
  if ok : bool then
    match list_variables (pt_tree p) MAX_MAPPED_VARS with
    | (tree', vars, _) =>
      Some (mkRule (mkPat tree' (pt_constraints p))
              (tree_copy_IDs after1 (match vars with Some vs => vs | None => [] end)))
    end
  else None.

(** rewrite_rule.c:62-72 *)
Fixpoint set_tok_index_for_all (n : node) (i : nat) : node :=
  match n with
  | NConst v _ => NConst v i
  | NVar x id _ => NVar x id i
  | NOp op cs _ => NOp op (map (fun c => set_tok_index_for_all c i) cs) i
  end.

(** tree_util.c:78-84 (tree_replace) through the pointer to the subtree *)
Fixpoint replace_at (n : node) (p : path) (r : node) : node :=
  match p with
  | [] => r
  | i :: p' =>
    match n with
    | NOp op cs t =>
      match nth_error cs i with
      | Some c => NOp op (vset cs i (replace_at c p' r)) t
      | None => n
      end
    | _ => n
    end
  end.
(** the node a pointer points at *)
Fixpoint deref (n : node) (p : path) : res node :=
  match p with
  | [] => Ok n
  | i :: p' =>
    match n with
    | NOp _ cs _ => c <- vget cs i ;; deref c p'
    | _ => Ub
    end
  end.

(** rewrite_rule.c:80-94; [None]: false was returned and the tree is as before *)
Definition apply_rule (checker : node -> res bool) (t : node) (r : rule) : res (option node) :=
  f <- find_matching checker (r_pat r) t ;;
  match f with
  | None => Ok None
  | Some (p, m) =>
    sub <- deref t p ;;
    new <- transform_by_matching m (set_tok_index_for_all (tree_copy (r_after r)) (get_token_index sub)) ;;
    Ok (Some (replace_at t p new))
  end.

(** rewrite_rule.c:136-153: the first rule that can be applied *)
Fixpoint apply_first (checker : node -> res bool) (t : node) (rs : list rule) : res (option node) :=
  match rs with
  | [] => Ok None
  | r :: rs' =>
    a <- apply_rule checker t r ;;
    match a with
    | Some t' => Ok (Some t')
    | None => apply_first checker t rs'
    end
  end.

(** rewrite_rule.c:115-168: the final tree and the number returned; [None] if [fuel] rounds were not
    enough. The C loop has no bound of its own: it ends if no rule applies or the counter meets the
    cap. *)
Fixpoint apply_ruleset_loop (fuel : nat) (checker : node -> res bool) (rs : list rule) (cap : nat)
    (t : node) (counter : nat) : res (option (node * nat)) :=
  match fuel with
  | 0 => Ok None
  | S f =>
    a <- apply_first checker t rs ;;
    match a with
    | None => Ok (Some (t, counter))
    | Some t' => if S counter =? cap then Ok (Some (t', S counter))
                 else apply_ruleset_loop f checker rs cap t' (S counter)
    end
  end.
Definition apply_ruleset (fuel : nat) (checker : node -> res bool) (rs : list rule) (cap : nat) (t : node) :=
  apply_ruleset_loop fuel checker rs cap t 0.
