(** (-3)*4/0: the simplification does not end. *)
From Coq Require Import List Ascii String NArith ZArith Bool Lia Arith.
From Coq.Floats Require Import SpecFloat.
From Verif Require Import M_Base M_Tree M_Context M_Parser M_TreeUtil M_Match M_RuleParsing M_ArithCtx M_Strtod M_Double M_Eval M_Simplify M_ShippedRules L_ArithCtx S_Simplify.
Import ListNotations.
Open Scope list_scope.
Open Scope nat_scope.

Definition parsed (s : string) : node := match parse_easy strtod the_arith_ctx (str s) with Ok (Some t) => t | _ => NConst S754_nan 0 end.
Definition simp_of (r : res initres) : option simp := match r with Ok (ILoaded s _) => Some s | _ => None end.
Definition loaded : option simp := simp_of (init_simplification strtod the_arith_ctx the_prop_ctx (Some (str shipped_ruleset))).
Definition dummy : node := NConst S754_nan 7.
Definition get_simp (o : option simp) : simp := match o with Some s => s | None => mkSimp [] None None (mkPat dummy []) end.
Definition the_s : simp := Eval vm_compute in get_simp loaded.
Lemma the_s_loaded : loaded = Some the_s.
Proof. vm_compute. reflexivity. Qed.
Notation sets := (s_rulesets the_s).
Section Loop.
Variables (L : libm) (fuel : nat) (w : world).
Notation ck := (propositional_checker L fuel the_prop_ctx w).
Definition folded1 (t : node) : node := match reduce_constants L fuel w t with Done (Ok (_, (u, _))) => u | _ => dummy end.
Definition next (t : node) : node :=
  match apply_ruleset 1 ck (nth 3 sets []) 1 t with Ok (Some (t1, S _)) => folded1 t1 | _ => dummy end.
Definition applied (k : nat) (t : node) : node :=
  match apply_simplification L 20 the_arith_ctx the_prop_ctx w t (nth k sets []) with Done (Ok (_, u)) => u | _ => dummy end.
Definition u0 : node := Eval vm_compute in parsed "(-3)*4/0".
Definition u1 : node := Eval vm_compute in folded1 u0.
Definition u2 : node := Eval vm_compute in applied 0 u1.
Definition u3 : node := Eval vm_compute in applied 2 u2.
Definition a1 : node := Eval vm_compute in next u3.
Definition a2 : node := Eval vm_compute in next a1.
Definition a3 : node := Eval vm_compute in next a2.
Definition a4 : node := Eval vm_compute in next a3.
Definition a5 : node := Eval vm_compute in next a4.
Definition a6 : node := Eval vm_compute in next a5.
Definition a7 : node := Eval vm_compute in next a6.
Definition a8 : node := Eval vm_compute in next a7.
End Loop.

Lemma loop_next : forall L fuel w k t t1 n u e, apply_ruleset 1 (propositional_checker L fuel the_prop_ctx w) (nth 3 sets []) 1 t = Ok (Some (t1, S n)) ->
  reduce_constants L fuel w t1 = oret w (u, e) ->
  simplification_loop L fuel the_prop_ctx (S k) w t (nth 3 sets []) = simplification_loop L fuel the_prop_ctx k w u (nth 3 sets []).
Proof. intros L fuel w k t t1 n u e A B. cbn [simplification_loop]. rewrite A. cbn [lift]. rewrite B. reflexivity. Qed.
Ltac go := intros L fuel w k; eapply loop_next; [vm_compute; reflexivity|vm_compute; reflexivity].
Notation loop L fuel k w t := (simplification_loop L fuel the_prop_ctx k w t (nth 3 sets [])).
Lemma s0 : forall L fuel w k, loop L fuel (S k) w u3 = loop L fuel k w a1. Proof. go. Qed.
Lemma s1 : forall L fuel w k, loop L fuel (S k) w a1 = loop L fuel k w a2. Proof. go. Qed.
Lemma s2 : forall L fuel w k, loop L fuel (S k) w a2 = loop L fuel k w a3. Proof. go. Qed.
Lemma s3 : forall L fuel w k, loop L fuel (S k) w a3 = loop L fuel k w a4. Proof. go. Qed.
Lemma s4 : forall L fuel w k, loop L fuel (S k) w a4 = loop L fuel k w a5. Proof. go. Qed.
Lemma s5 : forall L fuel w k, loop L fuel (S k) w a5 = loop L fuel k w a6. Proof. go. Qed.
Lemma s6 : forall L fuel w k, loop L fuel (S k) w a6 = loop L fuel k w a3. Proof. go. Qed.
Lemma cycle : forall L fuel w k, loop L fuel k w a3 = Forever /\ loop L fuel k w a4 = Forever /\ loop L fuel k w a5 = Forever /\ loop L fuel k w a6 = Forever.
Proof.
  intros L fuel w. induction k as [|k (A & B & C & D)]; [repeat split|]. rewrite s3, s4, s5, s6. repeat split; assumption.
Qed.
Lemma never : forall L fuel w k, loop L fuel k w u3 = Forever.
Proof.
  intros L fuel w [|[|[|k]]]; [reflexivity|rewrite s0; reflexivity|rewrite s0, s1; reflexivity|rewrite s0, s1, s2; apply cycle].
Qed.

(** More fuel does not change what is computed, as far as the rules and the evaluation do not use it. *)
Definition enough : nat := 12.
Lemma first : forall L fuel w, reduce_constants L fuel w u0 = oret w (u1, snd (match reduce_constants L fuel w u0 with Done (Ok (_, r)) => r | _ => (u1, None) end)).
Proof. intros L fuel w. vm_compute. reflexivity. Qed.
Lemma second : forall L k w, apply_simplification L (enough + k) the_arith_ctx the_prop_ctx w u1 (nth 0 sets []) = oret w u2.
Proof. intros L k w. vm_compute. reflexivity. Qed.
Lemma third : forall L k w, apply_simplification L (enough + k) the_arith_ctx the_prop_ctx w u2 (nth 2 sets []) = oret w u3.
Proof. intros L k w. vm_compute. reflexivity. Qed.
Lemma little : forall L w, simplify_without_derivative L 0 the_arith_ctx the_prop_ctx the_s w u1 = Forever
  /\ simplify_without_derivative L 1 the_arith_ctx the_prop_ctx the_s w u1 = Forever
  /\ simplify_without_derivative L 2 the_arith_ctx the_prop_ctx the_s w u1 = Forever
  /\ simplify_without_derivative L 3 the_arith_ctx the_prop_ctx the_s w u1 = Forever
  /\ simplify_without_derivative L 4 the_arith_ctx the_prop_ctx the_s w u1 = Forever
  /\ simplify_without_derivative L 5 the_arith_ctx the_prop_ctx the_s w u1 = Forever
  /\ simplify_without_derivative L 6 the_arith_ctx the_prop_ctx the_s w u1 = Forever
  /\ simplify_without_derivative L 7 the_arith_ctx the_prop_ctx the_s w u1 = Forever
  /\ simplify_without_derivative L 8 the_arith_ctx the_prop_ctx the_s w u1 = Forever
  /\ simplify_without_derivative L 9 the_arith_ctx the_prop_ctx the_s w u1 = Forever
  /\ simplify_without_derivative L 10 the_arith_ctx the_prop_ctx the_s w u1 = Forever
  /\ simplify_without_derivative L 11 the_arith_ctx the_prop_ctx the_s w u1 = Forever.
Proof. intros L w. repeat apply conj; vm_compute; reflexivity. Qed.
Lemma without : forall L fuel w, simplify_without_derivative L fuel the_arith_ctx the_prop_ctx the_s w u1 = Forever.
Proof.
  intros L fuel w. destruct (le_lt_dec enough fuel) as [H|H].
  - replace fuel with (enough + (fuel - enough)) by lia. generalize (fuel - enough). intros k. unfold simplify_without_derivative.
    cbn [fold_left]. unfold oret at 1. cbn [obind]. rewrite second. unfold oret at 1. cbn [obind]. rewrite third. unfold oret at 1. cbn [obind].
    assert (X : apply_simplification L (enough + k) the_arith_ctx the_prop_ctx w u3 (nth 3 sets []) = Forever).
    { unfold apply_simplification. rewrite never. reflexivity. }
    rewrite X. reflexivity.
  - pose proof (little L w) as X. decompose [and] X. clear X. unfold enough in H. do 12 (destruct fuel as [|fuel]; [assumption|]). exfalso. lia.
Qed.
Theorem no_end : forall L fuel w, simplify L fuel the_arith_ctx the_prop_ctx (Some the_s) w u0 = Forever.
Proof.
  intros L fuel w. unfold simplify. rewrite first. unfold oret at 1. cbn [obind fst]. rewrite without. reflexivity.
Qed.
