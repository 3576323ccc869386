(** Specification vocabulary for the simplification: the mathematical meaning of expressions. C48, C49, C62 ff. *)
From Coq Require Import Reals.
From Coquelicot Require Import Coquelicot.
From Flocq Require Import Core.
From Coq Require Import List Ascii String NArith ZArith Bool.
From Verif Require Import M_Base M_Tree M_Context M_TreeUtil M_Match M_RuleParsing M_Strtod M_Double M_Eval M_Simplify M_ShippedRules S_Util S_Tree S_Rules S_Eval.
Import ListNotations.
Open Scope R_scope.

(** The power x^y as a partial function: x positive; or x zero and y positive; or x negative and y an
    integer. *)
Definition power_ok (x y : R) : Prop := 0 < x \/ (x = 0 /\ 0 < y) \/ (x < 0 /\ exists k, y = IZR k).
Definition power (x y : R) : R :=
  if Rlt_dec 0 x then Rpower x y else if Rlt_dec x 0 then powerRZ x (Zfloor y) else 0.

Definition Rsum (vs : list R) : R := fold_right Rplus 0 vs.
Definition Rprod (vs : list R) : R := fold_right Rmult 1 vs.

(** The meaning of the operators that are not interpreted below is left open: any partial function will
    do. *)
Record others := mkOthers { f_val : nat -> list R -> R; f_dom : nat -> list R -> Prop }.

Definition on0 {A} (vs : list R) (f d : A) : A := match vs with [] => f | _ => d end.
Definition on1 {A} (vs : list R) (f : R -> A) (d : A) : A := match vs with [x] => f x | _ => d end.
Definition on2 {A} (vs : list R) (f : R -> R -> A) (d : A) : A := match vs with [x; y] => f x y | _ => d end.

Section Meaning.
Variable F : others.

(** Value of operator number [id] (see C48_numbers in P_Simplify.v for the names), for operands where it is
    defined *)
Definition opval (id : nat) (vs : list R) : R :=
  let d := f_val F id vs in
  match id with
  | 0 => on1 vs (fun x => x) d                      (* $x *)
  | 4 => on2 vs Rplus d
  | 5 => on2 vs Rminus d
  | 6 => on2 vs Rmult d
  | 7 => on2 vs Rdiv d
  | 8 => on2 vs power d
  | 11 => on1 vs (fun x => x) d                     (* +x *)
  | 12 => on1 vs Ropp d
  | 14 => on1 vs (fun x => (x / 100)%R) d               (* x% *)
  | 15 => on1 vs exp d
  | 16 => on2 vs (fun x y => (power x (1 / y))%R) d     (* root *)
  | 17 => on1 vs sqrt d
  | 18 => on2 vs (fun x y => (ln x / ln y)%R) d         (* log *)
  | 19 => on1 vs ln d
  | 22 => on1 vs sin d
  | 23 => on1 vs cos d
  | 24 => on1 vs tan d
  | 25 => on1 vs asin d
  | 26 => on1 vs acos d
  | 27 => on1 vs atan d
  | 34 => match vs with v :: vs' => fold_left Rmax vs' v | [] => d end
  | 35 => match vs with v :: vs' => fold_left Rmin vs' v | [] => d end
  | 43 => Rsum vs
  | 44 => Rprod vs
  | 45 => (Rsum vs / INR (List.length vs))%R            (* avg *)
  | 53 => on0 vs (exp 1)%R d                          (* e *)
  | 73 => INR (List.length vs)                      (* count *)
  | _ => d
  end%nat.
Definition opdom (id : nat) (vs : list R) : Prop :=
  let d := f_dom F id vs in
  match id with
  | 0 | 11 | 12 | 14 | 15 | 22 | 23 | 27 => on1 vs (fun _ => True) d
  | 4 | 5 | 6 => on2 vs (fun _ _ => True) d
  | 7 => on2 vs (fun _ y => (y <> 0)%R) d
  | 8 => on2 vs power_ok d
  | 16 => on2 vs (fun x y => (y <> 0 /\ 0 <= x /\ power_ok x (1 / y))%R) d
  | 17 => on1 vs (fun x => (0 <= x)%R) d
  | 18 => on2 vs (fun x y => (0 < x /\ 0 < y /\ y <> 1)%R) d
  | 19 => on1 vs (fun x => (0 < x)%R) d
  | 24 => on1 vs (fun x => (cos x <> 0)%R) d
  | 25 | 26 => on1 vs (fun x => (-1 <= x <= 1)%R) d
  | 34 | 35 | 45 => vs <> []
  | 43 | 44 | 73 => True
  | 53 => on0 vs True d
  | _ => d
  end%nat.

Definition upd (env : cstr -> R) (x : cstr) (t : R) : cstr -> R := fun y => if name_dec y x then t else env y.

(** The value of an expression under an assignment of numbers to variables, where it is defined.
    deriv(e, x) (number 3) is the derivative of e with respect to the variable x; e' (number 2) is the
    derivative of e with respect to its only variable, zero if it has none. *)
Fixpoint value (n : node) (env : cstr -> R) {struct n} : R :=
  match n with
  | NConst v _ => val v
  | NVar x _ _ => env x
  | NOp op cs _ =>
    match o_id op, cs with
    | 2%nat, [e] => match var_names e with
                    | [] => 0
                    | x :: _ => Derive (fun t => value e (upd env x t)) (env x)
                    end
    | 3%nat, [e; NVar x _ _] => Derive (fun t => value e (upd env x t)) (env x)
    | id, _ => opval id (map (fun c => value c env) cs)
    end
  end.
Fixpoint defined (n : node) (env : cstr -> R) {struct n} : Prop :=
  match n with
  | NConst v _ => finite v
  | NVar _ _ _ => True
  | NOp op cs _ =>
    match o_id op, cs with
    | 2%nat, [e] => match var_names e with
                    | [] => defined e env
                    | x :: xs => Forall (eq x) xs /\ locally (env x) (fun t => defined e (upd env x t))
                                 /\ ex_derive (fun t => value e (upd env x t)) (env x)
                    end
    | 3%nat, [e; NVar x _ _] =>
      locally (env x) (fun t => defined e (upd env x t)) /\ ex_derive (fun t => value e (upd env x t)) (env x)
    | 2%nat, _ | 3%nat, _ => False
    | id, _ =>
      (fix all (l : list node) : Prop := match l with [] => True | c :: l' => defined c env /\ all l' end) cs
      /\ opdom id (map (fun c => value c env) cs)
    end
  end.
Definition means (env : cstr -> R) (n : node) (v : R) : Prop := defined n env /\ value n env = v.

(** Wherever [t] has a value, [t'] has the same. *)
Definition keeps_value (t t' : node) : Prop := forall env v, means env t v -> means env t' v.
(** Wherever both have a value, it is the same. *)
Definition agrees (t t' : node) : Prop := forall env v v', means env t v -> means env t' v' -> v = v'.
End Meaning.

(** Without the two operators of constraints that look at trees, type and equal (addresses 58 and 59, see
    C48_numbers). Nothing the user can enter contains them: they do not exist in the calculator's context. *)
Fixpoint checkless (n : node) : bool :=
  match n with
  | NOp op cs _ => negb (o_addr op =? 58)%nat && negb (o_addr op =? 59)%nat && forallb checkless cs
  | _ => true
  end.

(** ** The rules that come with the program *)
Fixpoint lines (s : cstr) : list cstr :=
  match s with
  | [] => []
  | x :: s' =>
    if Ascii.eqb x (ascii_of_nat 10) then [] :: lines s'
    else match lines s' with l :: ls => (x :: l) :: ls | [] => [[x]] end
  end.
(** Blanks at the end of a line removed *)
Definition trimmed (s : cstr) : cstr := rev (drop_blanks (rev s)).
(** The rules of the sections of a file, in order *)
Fixpoint rules_of (ls : list cstr) : list cstr * list (list cstr) :=
  match ls with
  | [] => ([], [])
  | l :: ls' =>
    let (open, secs) := rules_of ls' in
    if list_eq_dec ascii_dec (firstn 7 (meat l)) (str "RULESET") then ([], open :: secs)
    else match meat l with [] => (open, secs) | x => (x :: open, secs) end
  end.
Definition shipped_sections : list (list cstr) := snd (rules_of (lines (str shipped_ruleset))).
Definition shipped_rules : list cstr := List.concat shipped_sections.

(** The context in which rules are read: the calculator's operators and those of the constraints *)
Definition the_prop_ctx : ctx := match init_propositional_ctx with Ok c => c | _ => ctx_create end.

(** Some of the rules by their text. Two whose constraints are needed: *)
Definition opposite_rule : cstr := str "sum([xs], x, [ys], y, [zs]) -> sum([xs], [ys], [zs])  WHERE equal(y,-x) || equal(x,-y)".
Definition even_rule : cstr := str "(-x)^y -> x^y WHERE (y mod 2) == 0".
(** Wrong ones: *)
Definition wrong_rules : list cstr :=
  [ str "(x^y)^z                          -> x^prod(y, z)";
    str "prod([xs], sum([xxs], x^y, [yys]), [ys], x^z, [zs]) -> sum(prod([xs], sum([xxs], [yys]), [ys], x^z, [zs]), x^sum(y,z))";
    str "-(x+y)        -> x-y" ].
(** Those whose right side may have no value where the left side has one: *)
Definition lossy_rules : list cstr :=
  [ str "prod(x, y)^z                     -> prod(x^z, y^z)";
    str "prod([xs], sin(x)^y, [ys], cos(x)^-y, [zs]) -> prod([xs], tan(x)^y, [ys], [zs])";
    str "x^(-y)        -> 1/(x^y)";
    str "x^(1/y)       -> root(x, y)" ].
(** The first two about derivatives; the second is right only after the first. *)
Definition same_rule : cstr := str "deriv(x, x)         -> 1".
Definition zero_rule : cstr := str "deriv(x, z)         -> 0               WHERE type(x) != OP".
(** A remainder that says 0 only of even numbers *)
Definition fmod_exact (L : libm) : Prop := forall y, finite y -> deqb (m_fmod L y (of_Z 2)) d0 = true -> exists k, val y = 2 * IZR k.
(** The text mentions derivatives. *)
Definition about_deriv (s : cstr) : Prop := exists a b, (s = a ++ str "deriv" ++ b)%list.

(** The rule with the text [s] changes [t] to [t'], with the constraints checked as the program does. *)
Definition applies (L : libm) (fuel : nat) (w : world) (s : cstr) (t t' : node) : Prop :=
  exists r, parse_rule strtod the_prop_ctx s = Ok (Some r) /\
    apply_rule (propositional_checker L fuel the_prop_ctx w) t r = Ok (Some t').

(** ** Evaluation by the calculator *)
(** Every variable replaced by the number that [e] gives it *)
Fixpoint assigned (e : cstr -> double) (n : node) : node :=
  match n with
  | NConst v t => NConst v t
  | NVar x _ t => NConst (e x) t
  | NOp op cs t => NOp op (map (assigned e) cs) t
  end.
(** The same result; the place of an error may differ *)
Definition same_result (r r' : rres) : Prop :=
  match r, r' with RVal v, RVal v' => v = v' | RFail e _, RFail e' _ => e = e' | _, _ => False end.
