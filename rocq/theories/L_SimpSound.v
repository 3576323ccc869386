(** All shipped rules at once, but for those that are wrong and those about derivatives *)
From Coq Require Import Reals Lra.
From Coquelicot Require Import Coquelicot.
From Flocq Require Import Core.
From Coq Require Import List Ascii String NArith ZArith Bool Lia Arith.
From Coq.Floats Require Import SpecFloat.
From Verif Require Import M_Base M_Tree M_Context M_Parser M_StringUtil M_TreeUtil M_Match M_RuleParsing M_Strtod M_Simplify S_Tree S_Match S_Eval S_Simplify L_Simplify L_SimpPattern L_SimpRules.
Import ListNotations.
Open Scope list_scope.
Open Scope R_scope.

Lemma power_m : forall x y, power_ok x y -> power_ok x (- y) -> power x (- y) = 1 / power x y.
Proof.
  intros x y A B. destruct (power_add x (- y) y B A) as [C D]. replace (- y + y) with 0 in * by ring.
  rewrite power_0 in D by (apply ok_0; auto). assert (power x y <> 0) by (intros Z; rewrite Z in D; lra). field_simplify_eq; auto.
Qed.

Lemma ok_neg : forall x y, x <> 0 -> power_ok x (- y) -> power_ok x y.
Proof.
  intros x y N [H|[[H _]|[H [k K]]]]; [left; auto|contradiction|]. right; right. split; auto. exists (- k)%Z. rewrite opp_IZR. lra.
Qed.

Section T.
Variable F : others.
Lemma g84 : agreeing_rule F (str "prod(x, y)^z                     -> prod(x^z, y^z)").
Proof. sem_open F; side; sem_intro; intros; ands. match goal with A : power_ok r0 r, B : power_ok r1 r |- _ => destruct (power_base r0 r1 r A B) as [_ ->] end. reflexivity. Qed.
Lemma g91 : agreeing_rule F (str "prod([xs], sin(x)^y, [ys], cos(x)^-y, [zs]) -> prod([xs], tan(x)^y, [ys], [zs])").
Proof.
  sem_open F; side; sem_intro; intros; ands. f_equal.
  match goal with A : power_ok (cos ?a) (- ?b), B : power_ok (tan ?a) ?b, N : cos ?a <> 0 |- _ => rename A into A1; rename B into B1; rename N into N1 end.
  assert (C1 : power_ok (cos r) r0) by (apply ok_neg; auto).
  destruct (power_base _ _ _ B1 C1) as [_ E]. replace (tan r * cos r) with (sin r) in E by (unfold tan; field; auto). rewrite E.
  destruct (power_add _ _ _ C1 A1) as [_ E']. replace (r0 + - r0) with 0 in E' by ring. rewrite power_0 in E' by auto.
  transitivity (Rprod l * (power (tan r) r0 * (Rprod l0 * Rprod l1)) * (power (cos r) r0 * power (cos r) (- r0))); [rewrite <- E'; ring|ring].
Qed.
Lemma g114 : agreeing_rule F (str "x^(-y)        -> 1/(x^y)").
Proof. sem_open F; side; sem_intro; intros; ands. f_equal. symmetry. apply power_m; auto. Qed.
Lemma g129 : agreeing_rule F (str "x^(1/y)       -> root(x, y)").
Proof. sem_open F; side; sem_intro; intros; ands. reflexivity. Qed.
End T.

Definition names_deriv (s : cstr) : bool := match strstr s (str "deriv") with Some _ => true | None => false end.
Definition left_out (s : cstr) : bool :=
  names_deriv s || (if in_dec (list_eq_dec ascii_dec) s (wrong_rules ++ lossy_rules ++ [opposite_rule; even_rule]) then true else false).

(** The others *)
Definition sound_texts : list cstr :=
  [ str "count()       -> 0";
    str "count(x,[xs]) -> 1 + count([xs])  ";
    str "+x            -> x";
    str "$x            -> x";
    str "--x           -> x";
    str "x%            -> x/100";
    str "(x/y)/z       -> x/(y*z)";
    str "x/y           -> x*y^(-1)";
    str "log(x, e)     -> ln(x)";
    str "tan(x)        -> sin(x)/cos(x)";
    str "sqrt(x)       -> x^0.5";
    str "exp(x)        -> e^x";
    str "root(x, y)    -> x^(1/y)";
    str "avg([xs])     -> sum([xs])/count([xs])   ";
    str "x*0                 -> 0";
    str "0*x                 -> 0";
    str "x+0                 -> x";
    str "0+x                 -> x";
    str "1*x                 -> x";
    str "x*1                 -> x";
    str "x-y    -> x+(-y)";
    str "-(x+y) -> -x+(-y)";
    str "-(x*y) -> (-x)*y";
    str "x*y                          -> prod(x,y)";
    str "prod([xs], prod([ys]), [zs]) -> prod([xs], [ys], [zs])";
    str "prod([xs])*prod([ys])        -> prod([xs], [ys])";
    str "x*prod([xs])                 -> prod(x, [xs])";
    str "prod([xs])*x                 -> prod([xs], x)";
    str "x+y                        -> sum(x,y)";
    str "sum([xs], sum([ys]), [zs]) -> sum([xs], [ys], [zs])";
    str "sum([xs])+sum([ys])        -> sum([xs], [ys])";
    str "x+sum([xs])                -> sum(x, [xs])";
    str "sum([xs])+x                -> sum([xs], x)";
    str "prod()                       -> 1";
    str "prod(x)                      -> x";
    str "sum()                        -> 0";
    str "sum(x)                       -> x";
    str "prod([xs], 0, [ys])          -> 0";
    str "prod([xs], 1, [ys])          -> prod([xs], [ys])";
    str "sum([xs], 0, [ys])           -> sum([xs], [ys])";
    str "sum([xs], sum([ys]), [zs])   -> sum([xs], [ys], [zs])";
    str "prod([xs], prod([ys]), [zs]) -> prod([xs], [ys], [zs])";
    str "--x -> x";
    str "x/0 -> 0/0 WHERE x != 0";
    str "sum([xs], x^y, [ys], prod([yys]), [zs]) -> sum([xs], prod([yys]), [ys], x^y, [zs])";
    str "prod([xs], x^y, [ys], sum([yys]), [zs]) -> prod([xs], sum([yys]), [ys], x^y, [zs])";
    str "prod(cx, [xs], sum(cy, [xxs]), [zs])    -> prod([xs], sum(cx*cy, prod(cx, sum([xxs]))), [zs]) WHERE type(cx)==CONST ; type(cy)==CONST";
    str "-sum(x,[xs])                 -> sum(-x,-sum([xs]))";
    str "-prod(x, [xs])               -> prod(-x, [xs])";
    str "prod(y, [xs], -x, [zs])      -> prod(-y, [xs], x, [zs])";
    str "sum([xs], prod(cx, y), [ys], y, [zs]) -> sum([xs], prod(cx + 1, y), [ys], [zs])  WHERE type(cx)==CONST";
    str "sum([xs], prod(cx, y), [ys], -y, [zs]) -> sum([xs], prod(cx - 1, y), [ys], [zs])  WHERE type(cx)==CONST";
    str "sum([xs], x, [ys], x, [zs]) -> sum([xs], prod(2,x), [ys], [zs])";
    str "sum([xs], prod([xxs], x, [yys]), [ys], prod([xxxs], x, [yyys]), [zs]) -> sum([xs], prod(sum(prod([xxs], [yys]), prod([xxxs], [yyys])), x), [ys], [zs])";
    str "sum(x, y)^2 -> sum(prod(2,x,y), x^2, y^2)     WHERE type(x) == CONST";
    str "sum(prod(2, x, y), x^2, y^2) -> sum(x, y)^2   WHERE type(x) != CONST";
    str "sum(prod(2, y, x), x^2, y^2) -> sum(x, y)^2   WHERE type(x) != CONST";
    str "sum(x^2, prod(2, x, y), y^2) -> sum(x, y)^2   WHERE type(x) != CONST";
    str "sum(x^2, y^2, prod(2, y, x)) -> sum(x, y)^2   WHERE type(x) != CONST";
    str "x^0                              -> 1";
    str "x^1                              -> x";
    str "prod([xs], x^cy, [ys], x^cz, [zs]) -> prod([xs], x^sum(cy,cz), [ys], [zs]) WHERE type(cy)==CONST ; type(cz)==CONST";
    str "prod([xs], cy^x, [ys], cz^x, [zs]) -> prod([xs], (cy*cz)^x, [ys], [zs]) WHERE type(cy)==CONST ; type(cz)==CONST";
    str "prod([xs], x, [ys], x, [zs])     -> prod([xs], x^2, [ys], [zs])";
    str "prod([xs], x, [ys], x^y, [zs])   -> prod([xs], x^sum(y,1), [ys], [zs])";
    str "prod([xs], x^y, [ys], x, [zs])   -> prod([xs], x^sum(y,1), [ys], [zs])";
    str "prod([xs], x^z, [ys], x^y, [zs]) -> prod([xs], x^sum(y,z), [ys], [zs])";
    str "sum([xs], cos(x)^2, [ys], sin(x)^2, [zs])   -> sum(1, [xs], [ys], [zs])";
    str "sum([xs], sin(x)^2, [ys], cos(x)^2, [zs])   -> sum(1, [xs], [ys], [zs])";
    str "prod([xs], sin(x), [ys], cos(x)^-1, [zs])   -> prod([xs], tan(x), [ys], [zs])";
    str "min([xs], x, [ys], x, [zs]) -> min([xs], x, [ys], [zs])";
    str "max([xs], x, [ys], x, [zs]) -> max([xs], x, [ys], [zs])";
    str "sum([xs],cX,[ys],cY,[zs])  -> sum(cX+cY,[xs],[ys],[zs])   WHERE type(cX) == CONST ; type(cY) == CONST";
    str "sum(x+y,[xs],cX,[ys])      -> sum(x+y+cX,[xs],[ys])       WHERE type(cX) == CONST";
    str "sum(x,[xs],cX,[ys])        -> sum(cX,x,[xs],[ys])         WHERE type(cX) == CONST";
    str "prod([xs],cX,[ys],cY,[zs]) -> prod(cX*cY,[xs],[ys],[zs])  WHERE type(cX) == CONST ; type(cY) == CONST";
    str "prod(x*y,[xs],cX,[ys])     -> prod(x*y*cX,[xs],[ys])      WHERE type(cX) == CONST";
    str "prod(x,[xs],cX,[ys])       -> prod(cX,x,[xs],[ys])        WHERE type(cX) == CONST";
    str "sum(x)                                  -> x";
    str "prod(x)                                 -> x";
    str "prod(-x, [xs])                          -> -prod(x, [xs])";
    str "sum([xs],-prod([xxs]),[ys])             -> sum([xs],[ys])-prod([xxs])";
    str "-sum([xs], x)                           -> -sum([xs])-x";
    str "sum([xs], x)                            -> sum([xs])+x";
    str "prod([xs], x)                           -> prod([xs])*x";
    str "sum([xs], prod([xxs], -x, [yys]), [ys]) -> sum([xs], [ys]) - prod([xxs],x,[yys])";
    str "prod()                                  -> 1";
    str "sum()                                   -> 0";
    str "0*x           -> 0";
    str "1*x           -> x";
    str "0+x           -> x";
    str "x^0.5         -> sqrt(x)";
    str "x^1           -> x";
    str "(-1)*x        -> -x";
    str "x*(y/z)       -> (y*x)/z       WHERE type(y) == CONST";
    str "x+((-y)/z)    -> x-(y/z)";
    str "x+(-y*z)      -> x-y*z";
    str "z*(x+y)       -> z*x + z*y     WHERE type(z) == CONST";
    str "--x           -> x";
    str "(-1)*x        -> -x";
    str "x+(-y)        -> x-y";
    str "(-x)+y        -> y-x";
    str "-(x*y)        -> (-x)*y";
    str "root(x, 2)    -> sqrt(x)";
    str "x+(y+z)       -> x+y+z";
    str "x*(y*z)       -> x*y*z";
    str "sin(x)/cos(x) -> tan(x)";
    str "x/0           -> 1/0    WHERE !equal(x,1)";
    str "x*(-y)   -> -y*x  WHERE type(x) != CONST ; type(y) == CONST" ].
Lemma sound_texts_all : filter (fun s => negb (left_out s)) shipped_rules = sound_texts.
Proof. vm_compute. reflexivity. Qed.

Section Bulk.
Variable F : others.
Lemma bulk : Forall (sound_rule F) sound_texts.
Proof.
  unfold sound_texts.
  constructor. { sem_open F; side; easy_rule. }
  constructor. { exact (s1 F). }
  constructor. { sem_open F; side; easy_rule. }
  constructor. { sem_open F; side; easy_rule. }
  constructor. { sem_open F; side; easy_rule. }
  constructor. { sem_open F; side; easy_rule. }
  constructor. { sem_open F; side; easy_rule. }
  constructor. { exact (s7 F). }
  constructor. { exact (s8 F). }
  constructor. { sem_open F; side; easy_rule. }
  constructor. { exact (s10 F). }
  constructor. { exact (s11 F). }
  constructor. { sem_open F; side; easy_rule. }
  constructor. { exact (s13 F). }
  constructor. { sem_open F; side; easy_rule. }
  constructor. { sem_open F; side; easy_rule. }
  constructor. { sem_open F; side; easy_rule. }
  constructor. { sem_open F; side; easy_rule. }
  constructor. { sem_open F; side; easy_rule. }
  constructor. { sem_open F; side; easy_rule. }
  constructor. { sem_open F; side; easy_rule. }
  constructor. { sem_open F; side; easy_rule. }
  constructor. { sem_open F; side; easy_rule. }
  constructor. { sem_open F; side; easy_rule. }
  constructor. { sem_open F; side; easy_rule. }
  constructor. { sem_open F; side; easy_rule. }
  constructor. { sem_open F; side; easy_rule. }
  constructor. { sem_open F; side; easy_rule. }
  constructor. { sem_open F; side; easy_rule. }
  constructor. { sem_open F; side; easy_rule. }
  constructor. { sem_open F; side; easy_rule. }
  constructor. { sem_open F; side; easy_rule. }
  constructor. { sem_open F; side; easy_rule. }
  constructor. { sem_open F; side; easy_rule. }
  constructor. { sem_open F; side; easy_rule. }
  constructor. { sem_open F; side; easy_rule. }
  constructor. { sem_open F; side; easy_rule. }
  constructor. { sem_open F; side; easy_rule. }
  constructor. { sem_open F; side; easy_rule. }
  constructor. { sem_open F; side; easy_rule. }
  constructor. { sem_open F; side; easy_rule. }
  constructor. { sem_open F; side; easy_rule. }
  constructor. { sem_open F; side; easy_rule. }
  constructor. { sem_open F; side; easy_rule. }
  constructor. { sem_open F; side; easy_rule. }
  constructor. { sem_open F; side; easy_rule. }
  constructor. { sem_open F; side; easy_rule. }
  constructor. { sem_open F; side; easy_rule. }
  constructor. { sem_open F; side; easy_rule. }
  constructor. { sem_open F; side; easy_rule. }
  constructor. { sem_open F; side; easy_rule. }
  constructor. { sem_open F; side; easy_rule. }
  constructor. { sem_open F; side; easy_rule. }
  constructor. { sem_open F; side; easy_rule. }
  constructor. { exact (s72 F). }
  constructor. { exact (s73 F). }
  constructor. { exact (s74 F). }
  constructor. { exact (s75 F). }
  constructor. { exact (s76 F). }
  constructor. { exact (s77 F). }
  constructor. { exact (s78 F). }
  constructor. { exact (s80 F). }
  constructor. { exact (s81 F). }
  constructor. { exact (s82 F). }
  constructor. { exact (s83 F). }
  constructor. { exact (s85 F). }
  constructor. { exact (s86 F). }
  constructor. { exact (s88 F). }
  constructor. { exact (s89 F). }
  constructor. { exact (s90 F). }
  constructor. { exact (s92 F). }
  constructor. { exact (s93 F). }
  constructor. { sem_open F; side; easy_rule. }
  constructor. { sem_open F; side; easy_rule. }
  constructor. { sem_open F; side; easy_rule. }
  constructor. { sem_open F; side; easy_rule. }
  constructor. { sem_open F; side; easy_rule. }
  constructor. { sem_open F; side; easy_rule. }
  constructor. { sem_open F; side; easy_rule. }
  constructor. { sem_open F; side; easy_rule. }
  constructor. { sem_open F; side; easy_rule. }
  constructor. { sem_open F; side; easy_rule. }
  constructor. { sem_open F; side; easy_rule. }
  constructor. { sem_open F; side; easy_rule. }
  constructor. { sem_open F; side; easy_rule. }
  constructor. { sem_open F; side; easy_rule. }
  constructor. { sem_open F; side; easy_rule. }
  constructor. { sem_open F; side; easy_rule. }
  constructor. { sem_open F; side; easy_rule. }
  constructor. { sem_open F; side; easy_rule. }
  constructor. { sem_open F; side; easy_rule. }
  constructor. { exact (s115 F). }
  constructor. { exact (s116 F). }
  constructor. { sem_open F; side; easy_rule. }
  constructor. { sem_open F; side; easy_rule. }
  constructor. { sem_open F; side; easy_rule. }
  constructor. { sem_open F; side; easy_rule. }
  constructor. { sem_open F; side; easy_rule. }
  constructor. { sem_open F; side; easy_rule. }
  constructor. { sem_open F; side; easy_rule. }
  constructor. { sem_open F; side; easy_rule. }
  constructor. { sem_open F; side; easy_rule. }
  constructor. { sem_open F; side; easy_rule. }
  constructor. { exact (s128 F). }
  constructor. { sem_open F; side; easy_rule. }
  constructor. { sem_open F; side; easy_rule. }
  constructor. { sem_open F; side; easy_rule. }
  constructor. { sem_open F; side; easy_rule. }
  constructor. { sem_open F; side; easy_rule. }
  constructor.
Qed.
Lemma sound_all : forall s, In s shipped_rules -> left_out s = false -> sound_rule F s.
Proof.
  intros s Hs N. pose proof bulk as B. rewrite Forall_forall in B. apply B. rewrite <- sound_texts_all. apply filter_In. rewrite N. auto.
Qed.
Lemma lossy_all : forall s, In s lossy_rules -> agreeing_rule F s.
Proof.
  intros s [<-|[<-|[<-|[<-|[]]]]]; [exact (g84 F)|exact (g91 F)|exact (g114 F)|exact (g129 F)].
Qed.
End Bulk.
