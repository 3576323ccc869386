(** Model of src/util/trie.c. *)
From Coq Require Import List Ascii String NArith ZArith Bool Lia Arith.
From Verif Require Import M_Base.
Import ListNotations.
Open Scope res_scope.

Section Trie.
Context {D : Type}.

(** trie.h:10-12: START is '!' (33), END is '|' + 1 (125), exclusive *)
Definition TRIE_START : nat := 33.
Definition TRIE_END : nat := 125.
Definition SLOTS : nat := TRIE_END - TRIE_START.
Definition TRIE_MAX_ITERATOR_DEPTH : nat := 30.

(** trie.c:15-21. [tn_next] is the array of successor pointers (NULL is [None]); a child is owned by
    exactly one slot, so nodes are values. num_successors is an unsigned char. The payload is
    [None] while it is still the zeroed memory of calloc. *)
Inductive tnode : Type :=
| TN (tn_term : bool) (tn_succ : nat) (tn_next : list (option tnode)) (tn_data : option D).

Definition tn_term (n : tnode) := let '(TN b _ _ _) := n in b.
Definition tn_succ (n : tnode) := let '(TN _ k _ _) := n in k.
Definition tn_next (n : tnode) := let '(TN _ _ l _) := n in l.
Definition tn_data (n : tnode) := let '(TN _ _ _ d) := n in d.

Record trie := mkTrie { t_root : tnode; t_count : nat }.

Definition uchar (n : nat) : nat := n mod 256.

(** trie.c:23-26 *)
Definition malloc_trienode : tnode := TN false 0 (repeat None SLOTS) None.

Definition ccode (c : ascii) : nat := nat_of_ascii c.

(** trie.c:28-31. As plain [char] is signed on the target, bytes above 127 are negative and
    not legal; in the unsigned reading they are above 125 and not legal either. *)
Definition is_legal_char (c : ascii) : bool :=
  (TRIE_START <=? ccode c)%nat && (ccode c <? TRIE_END)%nat.

(** trie.c:33-36, only called for legal characters *)
Definition char_to_index (c : ascii) : nat := ccode c - TRIE_START.

Definition get_slot (l : list (option tnode)) (i : nat) : option tnode :=
  match nth_error l i with Some o => o | None => None end.
Fixpoint set_slot (l : list (option tnode)) (i : nat) (v : option tnode) : list (option tnode) :=
  match l, i with
  | [], _ => []
  | _ :: l', 0 => v :: l'
  | x :: l', S i' => x :: set_slot l' i' v
  end.

(** trie.c:41-48 *)
Definition trie_create : trie := mkTrie malloc_trienode 0.

(** trie.c:75-100: the walk from [n] along [s], creating missing nodes. The boolean tells whether the
    string is new (a non-NULL pointer is returned). The payload written by the caller through
    that pointer (TRIE_ADD_ELEM, trie.h:15) is stored in the same step. *)
Fixpoint add_walk (n : tnode) (s : cstr) (d : D) : res (tnode * bool) :=
  let '(TN term succ next data) := n in
  match s with
  | [] => if term then Ok (n, false) else Ok (TN true succ next (Some d), true)
  | c :: s' =>
    if is_legal_char c then
      let i := char_to_index c in
      match get_slot next i with
      | None =>
        '(ch, new) <- add_walk malloc_trienode s' d ;;
        Ok (TN term (uchar (succ + 1)) (set_slot next i (Some ch)) data, new)
      | Some ch =>
        '(ch', new) <- add_walk ch s' d ;;
        Ok (TN term succ (set_slot next i (Some ch')) data, new)
      end
    else Halt
  end.

(** trie.c:70-101 *)
Definition trie_add_str (t : trie) (s : cstr) (d : D) : res (trie * bool) :=
  '(r, new) <- add_walk (t_root t) s d ;;
  Ok (mkTrie r (if new then t_count t + 1 else t_count t), new).

(** trie.c:104-137. Result: the node afterwards, whether trie->count was decremented, and whether
    the node was freed. [depth0] says that depth is 0. *)
Fixpoint remove_rec (n : tnode) (depth0 : bool) (s : cstr) : tnode * bool * bool :=
  let '(TN term succ next data) := n in
  let finish (term : bool) (succ : nat) (next : list (option tnode)) (dec : bool) :=
    (TN term succ next data, dec, (succ =? 0)%nat && negb depth0 && negb term) in
  match s with
  | [] => finish false succ next term
  | c :: s' =>
    if is_legal_char c then
      let i := char_to_index c in
      match get_slot next i with
      | None => finish term succ next false
      | Some ch =>
        let '(ch', dec, freed) := remove_rec ch false s' in
        if freed then finish term (uchar (succ + 255)) (set_slot next i None) dec
        else finish term succ (set_slot next i (Some ch')) dec
      end
    else (n, false, false)
  end.

(** trie.c:139-144 *)
Definition trie_remove_str (t : trie) (s : cstr) : trie :=
  let '(r, dec, _) := remove_rec (t_root t) true s in
  mkTrie r (if dec then t_count t - 1 else t_count t).

(** trie.c:166-197. [i] is the loop counter, [best] the current result and payload. *)
Fixpoint lp_walk (n : tnode) (s : cstr) (i : nat) (best : nat * option D) : nat * option D :=
  match s with
  | [] => best
  | c :: s' =>
    if is_legal_char c then
      match get_slot (tn_next n) (char_to_index c) with
      | Some ch =>
        lp_walk ch s' (S i) (if tn_term ch then (S i, tn_data ch) else best)
      | None => best
      end
    else best
  end.
Definition trie_longest_prefix (t : trie) (s : cstr) : nat * option D :=
  lp_walk (t_root t) s 0 (0, tn_data (t_root t)).

(** trie.c:148-159: the answer and what *out_data points at *)
Definition trie_contains (t : trie) (s : cstr) : bool * option D :=
  match s with
  | [] => (tn_term (t_root t), tn_data (t_root t))
  | _ => let '(k, d) := trie_longest_prefix t s in ((k =? List.length s)%nat, d)
  end.

(** trie.c:199-202 *)
Definition trie_count (t : trie) : nat := t_count t.

(** ** Iterator, trie.c:204-307. The arrays have TRIE_MAX_ITERATOR_DEPTH entries (trie.h:26-32). *)
Record titer := mkIter { ti_str : list ascii; ti_nodes : list (option tnode) }.

(** trie.c:288-296 *)
Definition trie_get_iterator : titer :=
  mkIter (repeat NUL TRIE_MAX_ITERATOR_DEPTH) (repeat None TRIE_MAX_ITERATOR_DEPTH).

Fixpoint set_nth_c {B} (l : list B) (i : nat) (v : B) : list B :=
  match l, i with
  | [], _ => []
  | _ :: l', 0 => v :: l'
  | x :: l', S i' => x :: set_nth_c l' i' v
  end.
(** array writes with bounds check *)
Definition it_set (it : titer) (i : nat) (c : ascii) (n : option tnode) : res titer :=
  if (i <? List.length (ti_nodes it))%nat && (i <? List.length (ti_str it))%nat
  then Ok (mkIter (set_nth_c (ti_str it) i c) (set_nth_c (ti_nodes it) i n))
  else Ub.
Definition it_node (it : titer) (i : nat) : res (option tnode) :=
  match nth_error (ti_nodes it) i with Some o => Ok o | None => Ub end.

(** trie.c:216-224: the loop over the slots i, i+1, ... ([k] of them left); [rec] is the recursive
    call find_terminal(ti, depth + 1, 0, true). *)
Fixpoint slots_loop (rec : titer -> res (titer * option tnode)) (node : tnode) (depth : nat)
    (k i : nat) (it : titer) : res (titer * option tnode) :=
  match k with
  | 0 => Ok (it, None)
  | S k' =>
    match get_slot (tn_next node) i with
    | None => slots_loop rec node depth k' (S i) it
    | Some ch =>
      it' <- it_set it depth (ascii_of_nat (i + TRIE_START)) (Some ch) ;;
      '(it'', r) <- rec it' ;;
      match r with
      | Some n => Ok (it'', Some n)
      | None => slots_loop rec node depth k' (S i) it''
      end
    end
  end.

(** trie.c:206-227. The recursion depth is bounded by TRIE_MAX_ITERATOR_DEPTH - depth, so the
    fuel ft_fuel is never used up before the check depth == TRIE_MAX_ITERATOR_DEPTH. *)
Fixpoint find_terminal (fuel : nat) (it : titer) (depth begin_from : nat) (allow_self : bool)
  : res (titer * option tnode) :=
  if (depth =? TRIE_MAX_ITERATOR_DEPTH)%nat then Halt
  else
    match fuel with
    | 0 => Halt
    | S f =>
      o <- it_node it (depth - 1) ;;
      match o with
      | None => Ub
      | Some node =>
        if allow_self && tn_term node then Ok (it, Some node)
        else slots_loop (fun it' => find_terminal f it' (depth + 1) 0 true)
               node depth (SLOTS - begin_from) begin_from it
      end
    end.

Definition ft_fuel : nat := S TRIE_MAX_ITERATOR_DEPTH.

(** trie.c:234-235 *)
Fixpoint count_depth (l : list (option tnode)) : nat :=
  match l with
  | Some _ :: l' => S (count_depth l')
  | _ => 0
  end.

(** trie.c:262-270: "switch character" loop, one round per level *)
Fixpoint switch_loop (it : titer) (depth : nat) : res (titer * option tnode) :=
  match depth with
  | 0 | 1 => Ok (it, None)
  | S d =>                                   (* depth-- *)
    match nth_error (ti_str it) d with
    | None => Ub
    | Some c =>
      it1 <- it_set it d NUL None ;;
      '(it2, r) <- find_terminal ft_fuel it1 d (ccode c - TRIE_START + 1) false ;;
      match r with
      | Some n => Ok (it2, Some n)
      | None => switch_loop it2 d
      end
    end
  end.

(** trie.c:229-280; the payload pointer is represented by the payload of the node found *)
Definition trie_iter_next (t : trie) (it : titer) : res (titer * option (option D)) :=
  let depth := count_depth (ti_nodes it) in
  if (depth =? 0)%nat then
    it1 <- it_set it 0 (nth 0 (ti_str it) NUL) (Some (t_root t)) ;;
    '(it2, r) <- find_terminal ft_fuel it1 1 0 true ;;
    match r with
    | Some n => Ok (it2, Some (tn_data n))
    | None => it3 <- it_set it2 0 (nth 0 (ti_str it2) NUL) None ;; Ok (it3, None)
    end
  else
    '(it1, r) <- find_terminal ft_fuel it depth 0 false ;;
    match r with
    | Some n => Ok (it1, Some (tn_data n))
    | None =>
      '(it2, r2) <- switch_loop it1 depth ;;
      match r2 with
      | Some n => Ok (it2, Some (tn_data n))
      | None => Ok (trie_get_iterator, None)
      end
    end.

(** trie.c:301-307: the string starting at curr_str + 1 *)
Definition trie_get_current_string (it : titer) : option cstr :=
  match ti_nodes it with
  | Some _ :: _ =>
    Some ((fix until (l : list ascii) : cstr :=
             match l with
             | [] => []
             | c :: l' => if ceqb c NUL then [] else c :: until l'
             end) (tl (ti_str it)))
  | _ => None
  end.

(** Runs the iterator until it reports the end; collects (current string, payload). *)
Fixpoint trie_iterate (fuel : nat) (t : trie) (it : titer)
  : res (titer * list (option cstr * option D)) :=
  match fuel with
  | 0 => Halt
  | S f =>
    '(it', o) <- trie_iter_next t it ;;
    match o with
    | None => Ok (it', [])
    | Some d =>
      '(it'', r) <- trie_iterate f t it' ;;
      Ok (it'', (trie_get_current_string it', d) :: r)
    end
  end.

(** One modifying call, as data *)
Inductive trop := TAdd (s : cstr) (d : D) | TRemove (s : cstr).
(** The boolean is the answer of trie_add_str (true for removals). *)
Definition trie_step (t : trie) (o : trop) : res (trie * bool) :=
  match o with
  | TAdd s d => trie_add_str t s d
  | TRemove s => Ok (trie_remove_str t s, true)
  end.
Fixpoint trie_run (t : trie) (ops : list trop) : res (trie * list bool) :=
  match ops with
  | [] => Ok (t, [])
  | o :: ops' =>
    '(t', b) <- trie_step t o ;;
    '(t'', bs) <- trie_run t' ops' ;;
    Ok (t'', b :: bs)
  end.
End Trie.
Arguments tnode : clear implicits.
Arguments trie : clear implicits.
Arguments titer : clear implicits.
Arguments trop : clear implicits.
