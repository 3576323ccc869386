(** Specification vocabulary for matching and rewriting: C30-C37. *)
From Coq Require Import List Ascii String NArith ZArith Bool Lia Arith.
From Verif Require Import M_Base M_Tree M_TreeUtil M_Match S_Tree.
Import ListNotations.
Open Scope nat_scope.

(** Variables whose name starts with '[' stand for lists of trees, all others for one tree. *)
Definition list_name (x : cstr) : Prop := exists y, x = "["%char :: y.

(** An assignment gives every variable a list of trees. *)
Definition assignment := cstr -> list node.

(** The pattern with every variable replaced by what the assignment gives it *)
Fixpoint inst (s : assignment) (p : node) : list node :=
  match p with
  | NConst v t => [NConst v t]
  | NVar x _ _ => s x
  | NOp op cs t => [NOp op (flat_map (inst s) cs) t]
  end.

(** One tree for every variable that is not a list variable *)
Definition fits (s : assignment) (p : node) : Prop :=
  forall x, In x (var_names p) -> ~ list_name x -> List.length (s x) = 1.

(** Equality of trees as the program offers it (tree_equals, see C25): never true of a NaN *)
Definition teq (a b : node) : Prop := tree_equals a b = true.
(** The same tree up to positions in the input; equal constants, or the very same one (which may be NaN) *)
Inductive alike : node -> node -> Prop :=
| al_const : forall v w t u, v = w \/ deqb v w = true -> alike (NConst v t) (NConst w u)
| al_var : forall x i t u, alike (NVar x i t) (NVar x i u)
| al_op : forall op op' cs ds t u, o_id op = o_id op' -> Forall2 alike cs ds -> alike (NOp op cs t) (NOp op' ds u).

(** A constraint holds under an assignment: with the variables replaced it is a tree which the checker
    accepts. *)
Definition holds (ck : node -> res bool) (s : assignment) (c : node) : Prop :=
  exists t, inst s c = [t] /\ ck t = Ok true.

(** What a matching says about the variables of pattern [p]: its entry number k belongs to the k-th
    variable of the pattern in order of first occurrence. *)
Definition delivers (p : node) (m : matching) (s : assignment) : Prop :=
  forall x k, nth_error (firsts (var_names p)) k = Some x ->
    exists l, nth_error m k = Some (Some l) /\ nl_read l = Ok (s x).

(** Every operand list of the tree fits into the address space. *)
Fixpoint machine_sized (n : node) : Prop :=
  match n with
  | NOp _ cs _ => (N.of_nat (List.length cs) < 2 ^ 63)%N /\
      (fix all (l : list node) : Prop := match l with [] => True | c :: l' => machine_sized c /\ all l' end) cs
  | _ => True
  end.

(** All variables of the constraints occur in the pattern. *)
Definition covered (p : node) (cs : list node) : Prop :=
  forall c x, In c cs -> In x (var_names c) -> In x (var_names p).

(** In no operand list is a list variable that has occurred before (left of that operand list) directly
    followed by another list variable. [pre] are the names that have occurred so far. *)
Definition list_var (n : node) : Prop := match n with NVar x _ _ => list_name x | _ => False end.
Fixpoint no_reuse (pre : list cstr) (cs : list node) : Prop :=
  match cs with
  | a :: (b :: _) as rest =>
    (match a with NVar x _ _ => list_name x -> In x pre -> ~ list_var b | _ => True end) /\ no_reuse pre rest
  | _ => True
  end.
Fixpoint no_overrun (pre : list cstr) (p : node) : Prop :=
  match p with
  | NOp _ cs _ =>
    no_reuse pre cs /\
    (fix go (pre : list cstr) (l : list node) : Prop :=
       match l with [] => True | c :: l' => no_overrun pre c /\ go (pre ++ var_names c) l' end) pre cs
  | _ => True
  end.

(** Checking the constraints is not the part that goes wrong: for every way of filling the pattern they
    are trees on which the checker answers. *)
Definition answered (ck : node -> res bool) (p : node) (cs : list node) : Prop :=
  forall s c, fits s p -> In c cs -> exists t b, inst s c = [t] /\ ck t = Ok b.

(** Positions of a tree in pre-order *)
Fixpoint positions (n : node) : list path :=
  [] :: match n with
        | NOp _ cs _ =>
          (fix go (l : list node) (i : nat) : list path :=
             match l with [] => [] | c :: l' => under i (positions c) ++ go l' (S i) end) cs 0
        | _ => []
        end.

(** [p] matches [t] with the constraints [cs] satisfied. *)
Definition instance (ck : node -> res bool) (p : node) (cs : list node) (t : node) (s : assignment) : Prop :=
  fits s p /\ Forall2 teq (inst s p) [t] /\ Forall (holds ck s) cs.

(** Two assignments that agree on the variables of [p] up to equality of trees *)
Definition agree (p : node) (s s' : assignment) : Prop :=
  forall x, In x (var_names p) -> Forall2 teq (s x) (s' x).
(** An instance whose constraints do not tell apart equal trees *)
Definition stable_instance (ck : node -> res bool) (p : node) (cs : list node) (t : node) (s : assignment) : Prop :=
  fits s p /\ Forall2 teq (inst s p) [t] /\ (forall s', agree p s s' -> Forall (holds ck s') cs).

(** [replaced q a b t u]: the tree t has subtree a at position q; u is t with b there instead. *)
Inductive replaced : path -> node -> node -> node -> node -> Prop :=
| re_here : forall a b, replaced [] a b a b
| re_below : forall i q a b op l c r t d, List.length l = i -> replaced q a b c d ->
    replaced (i :: q) a b (NOp op (l ++ c :: r) t) (NOp op (l ++ d :: r) t).

(** All nodes get position [k] in the input. *)
Fixpoint located (k : nat) (n : node) : node :=
  match n with
  | NConst v _ => NConst v k
  | NVar x i _ => NVar x i k
  | NOp op cs _ => NOp op (map (located k) cs) k
  end.
Definition location (n : node) : nat := match n with NConst _ t => t | NVar _ _ t => t | NOp _ _ t => t end.

(** One round with a list of rules: the first rule that can be applied is applied. *)
Definition first_applies (ck : node -> res bool) (rs : list rule) (t t' : node) : Prop :=
  exists rs1 r rs2, rs = rs1 ++ r :: rs2 /\ (forall r', In r' rs1 -> apply_rule ck t r' = Ok None) /\
    apply_rule ck t r = Ok (Some t').
Inductive rounds (ck : node -> res bool) (rs : list rule) : nat -> node -> node -> Prop :=
| ro_zero : forall t, rounds ck rs 0 t t
| ro_next : forall k t t1 t2, first_applies ck rs t t1 -> rounds ck rs k t1 t2 -> rounds ck rs (S k) t t2.
