(** Applying a shipped rule to an expression of the user gives an expression of the same kind: no operator of
    constraints comes in, and no numbered variable. *)
From Coq Require Import List Ascii String NArith ZArith Bool Lia Arith.
From Verif Require Import M_Base M_Tree M_Context M_Parser M_StringUtil M_TreeUtil M_Match M_RuleParsing M_ArithCtx L_ArithCtx M_Strtod M_Simplify S_Util S_Tree L_Tree S_Match L_Match L_MatchSub S_Simplify L_Simplify L_SimpPattern L_SimpRules.
Import ListNotations.
Open Scope list_scope.
Open Scope nat_scope.

Section Kind.
Variables (f : cstr -> nat -> bool) (h : operator -> bool).
Fixpoint kind (n : node) : bool :=
  match n with
  | NConst _ _ => true
  | NVar x i _ => f x i
  | NOp op cs _ => h op && forallb kind cs
  end.
(** of the operators alone *)
Fixpoint ops (n : node) : bool := match n with NOp op cs _ => h op && forallb ops cs | _ => true end.

Lemma kind_down : forall op cs t, kind (NOp op cs t) = true -> Forall (fun c => kind c = true) cs.
Proof. intros op cs t H. simpl in H. apply andb_prop in H. apply Forall_forall, forallb_forall. tauto. Qed.
Lemma inst_kind : forall s k n, ops n = true -> (forall x, In x (var_names n) -> Forall (fun c => kind c = true) (s x)) ->
  Forall (fun c => kind c = true) (inst s (located k n)).
Proof.
  intros s k n. induction n as [v t|x i t|op cs t IH] using node_ind'; intros O V; simpl.
  - constructor; auto.
  - apply V. simpl. auto.
  - constructor; [|constructor]. simpl in O |- *. apply andb_prop in O. destruct O as [O1 O2]. rewrite O1. simpl. rewrite forallb_forall in O2 |- *.
    intros y Iy. apply in_flat_map in Iy. destruct Iy as (c & Ic & Iy). apply in_map_iff in Ic. destruct Ic as (c0 & <- & Ic).
    rewrite Forall_forall in IH. assert (G : Forall (fun c => kind c = true) (inst s (located k c0))).
    { apply IH; auto. intros x Ix. apply V. simpl. apply in_flat_map. eauto. }
    rewrite Forall_forall in G. auto.
Qed.
Lemma replaced_kind : forall q a b t u, replaced q a b t u -> kind t = true -> kind b = true -> kind u = true.
Proof.
  intros q a b t u R. induction R as [|i q a b op l c r t d L R IH]; intros T B; auto.
  simpl in T |- *. rewrite !forallb_app in *. simpl in *. destruct (h op), (forallb kind l), (kind c), (forallb kind r); try discriminate T.
  rewrite IH; auto.
Qed.
Lemma rule_kind : forall ck p cs pat a r t t', get_pattern p cs = PatOk pat -> get_rule pat a = Some r -> covered p cs -> ops a = true ->
  machine_sized t -> kind t = true -> apply_rule ck t r = Ok (Some t') -> kind t' = true.
Proof.
  intros ck p cs pat a r t t' HP HR Cov O MS K A.
  destruct (apply_rule_from (fun c => kind c = true) kind_down ck p cs pat a r HP HR t t' K MS Cov A) as (q & sub & s & new & _ & _ & _ & I & R & _ & V).
  eapply replaced_kind; eauto. assert (G : Forall (fun c => kind c = true) [new]). { rewrite <- I. apply inst_kind; auto.
    intros x Ix. apply V. eapply (after_vars p cs pat a r HP HR); eauto. }
  inversion G; auto.
Qed.
End Kind.

Definition no_check (op : operator) : bool := negb (o_addr op =? 58)%nat && negb (o_addr op =? 59)%nat.
Lemma kind_checkless : forall n, kind (fun _ _ => true) no_check n = checkless n.
Proof.
  reflexivity.
Qed.
Definition shape_ok (s : cstr) : bool :=
  match rule_parts strtod the_prop_ctx s with
  | Ok (Some (p, cs, a)) => acovered (strip p) (map strip cs) && ops no_check a
  | _ => false
  end.
Lemma shapes : forallb shape_ok shipped_rules = true.
Proof. vm_compute. reflexivity. Qed.

Lemma step_kind : forall f ck s r t t', In s shipped_rules -> parse_rule strtod the_prop_ctx s = Ok (Some r) -> machine_sized t ->
  kind f no_check t = true -> apply_rule ck t r = Ok (Some t') -> kind f no_check t' = true.
Proof.
  intros f ck s r t t' Hs Pa MS K A. pose proof (proj1 (forallb_forall _ _) shapes s Hs) as Sh. unfold shape_ok in Sh.
  destruct (rule_parts_spec _ _ _ _ Pa) as (p & cs & a & pat & E & HP & HR). rewrite E in Sh. apply andb_prop in Sh. destruct Sh as [C O].
  exact (rule_kind f no_check ck p cs pat a r t t' HP HR (acovered_spec _ _ C) O MS K A).
Qed.
Lemma step_checkless : forall ck s r t t', In s shipped_rules -> parse_rule strtod the_prop_ctx s = Ok (Some r) -> machine_sized t ->
  checkless t = true -> apply_rule ck t r = Ok (Some t') -> checkless t' = true.
Proof.
  intros ck s r t t' Hs Pa MS K A. rewrite <- kind_checkless in K |- *. exact (step_kind _ ck s r t t' Hs Pa MS K A).
Qed.
