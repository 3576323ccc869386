(** Patterns, their instances and the meaning of both; rules whose soundness is a statement about real numbers *)
From Coq Require Import Reals Lra.
From Coquelicot Require Import Coquelicot.
From Flocq Require Import Core.
From Coq Require Import List Ascii String NArith ZArith Bool Lia Arith.
From Coq.Floats Require Import SpecFloat.
From Verif Require Import M_Base M_Tree M_Context M_Parser M_TreeUtil M_Match M_RuleParsing S_Tree S_Match L_MatchRule P_Match S_Eval S_Simplify L_Simplify.
Import ListNotations.
Open Scope list_scope.
Open Scope R_scope.

(** What matters of a pattern *)
Inductive apat := AConst (c : double) | AVar (x : cstr) | AOp (id : nat) (cs : list apat).
Fixpoint strip (n : node) : apat :=
  match n with NConst v _ => AConst v | NVar x _ _ => AVar x | NOp op cs _ => AOp (o_id op) (map strip cs) end.
Fixpoint plain (p : apat) : bool :=
  match p with AOp id cs => negb (id =? 2)%nat && negb (id =? 3)%nat && forallb plain cs | _ => true end.
Fixpoint avars (p : apat) : list cstr :=
  match p with AConst _ => [] | AVar x => [x] | AOp _ cs => flat_map avars cs end.
Definition is_list (x : cstr) : bool := match x with c :: _ => Ascii.eqb c "[" | [] => false end.

Section P.
Variable F : others.
Notation value := (value F).
Notation defined := (defined F).

Fixpoint pvals (E : cstr -> list R) (p : apat) : list R :=
  match p with
  | AConst c => [val c]
  | AVar x => E x
  | AOp id cs => [opval F id (flat_map (pvals E) cs)]
  end.
Fixpoint pdefs (E : cstr -> list R) (p : apat) : Prop :=
  match p with
  | AConst c => finite c
  | AVar x => True
  | AOp id cs => (fix all (l : list apat) : Prop := match l with [] => True | c :: l' => pdefs E c /\ all l' end) cs
                 /\ opdom F id (flat_map (pvals E) cs)
  end.
Definition singles (E : cstr -> list R) (p : apat) : Prop := forall x, In x (avars p) -> is_list x = false -> exists r, E x = [r].
Definition psound (p a : apat) : Prop := forall E, singles E p -> pdefs E p -> pdefs E a /\ pvals E a = pvals E p.
Definition pagree (p a : apat) : Prop := forall E, singles E p -> pdefs E p -> pdefs E a -> pvals E a = pvals E p.

Definition image (env : cstr -> R) (s : assignment) : cstr -> list R := fun x => map (fun t => value t env) (s x).

Lemma strip_located : forall k n, strip (located k n) = strip n.
Proof.
  intros k n. induction n as [v t|x i t|op cs t IH] using node_ind'; auto. cbn [located strip]. f_equal. rewrite map_map.
  induction IH; auto. simpl. f_equal; auto.
Qed.
Lemma avars_strip : forall n, avars (strip n) = var_names n.
Proof.
  intros n. induction n as [v t|x i t|op cs t IH] using node_ind'; auto. cbn [avars strip var_names]. rewrite flat_map_concat_map, map_map, <- flat_map_concat_map.
  induction IH; auto. simpl. f_equal; auto.
Qed.
Lemma flat_map_strip : forall (E : cstr -> list R) cs, flat_map (pvals E) (map strip cs) = flat_map (fun c => pvals E (strip c)) cs.
Proof. intros E cs. rewrite !flat_map_concat_map, map_map. reflexivity. Qed.

Lemma link : forall s env p, plain (strip p) = true ->
  map (fun t => value t env) (inst s p) = pvals (image env s) (strip p) /\
  (Forall (fun t => defined t env) (inst s p) <->
   pdefs (image env s) (strip p) /\ forall x, In x (var_names p) -> Forall (fun t => defined t env) (s x)).
Proof.
  intros s env p. induction p as [v t|x i t|op cs t IH] using node_ind'; intros Pl.
  - split; [reflexivity|]. cbn [inst strip pdefs var_names]. split.
    + intros H. inversion H; subst. split; auto. intros x [].
    + intros [H _]. constructor; auto.
  - split; [reflexivity|]. cbn [inst strip pdefs var_names]. split.
    + intros H. split; auto. intros y [<-|[]]. auto.
    + intros [_ H]. apply H. left. auto.
  - cbn [strip plain] in Pl. apply andb_prop in Pl. destruct Pl as [Pl Pc]. apply andb_prop in Pl. destruct Pl as [N2 N3].
    apply negb_true_iff, Nat.eqb_neq in N2. apply negb_true_iff, Nat.eqb_neq in N3.
    assert (X : map (fun t0 => value t0 env) (flat_map (inst s) cs) = flat_map (pvals (image env s)) (map strip cs) /\
      (Forall (fun t0 => defined t0 env) (flat_map (inst s) cs) <-> Forall (fun c => pdefs (image env s) (strip c)) cs /\ forall x, In x (flat_map var_names cs) -> Forall (fun t => defined t env) (s x))).
    { clear N2 N3. revert Pc. induction IH as [|c cs Hc _ IHc]; intros Pc.
      - split; [reflexivity|]. simpl. split; auto. intros _. split; auto. intros x [].
      - cbn [map forallb] in Pc. apply andb_prop in Pc. destruct Pc as [P1 P2]. destruct (Hc P1) as [V1 D1]. destruct (IHc P2) as [V2 D2].
        cbn [flat_map map]. rewrite map_app, V1, V2. split; auto. rewrite Forall_app, D1, D2, Forall_cons_iff. split.
        + intros [[A B] [C D]]. split; auto. intros x Ix. rewrite in_app_iff in Ix. destruct Ix; auto.
        + intros [[A B] C]. split; split; auto; intros x Ix; apply C; rewrite in_app_iff; auto. }
    destruct X as [V D]. cbn [inst map strip pvals pdefs var_names]. rewrite value_other by auto. rewrite V. split; auto.
    rewrite Forall_cons_iff, defined_other by auto. rewrite V, D.
    assert (Y : (fix all (l : list apat) : Prop := match l with [] => True | c :: l' => pdefs (image env s) c /\ all l' end) (map strip cs)
      <-> Forall (fun c => pdefs (image env s) (strip c)) cs).
    { clear. induction cs as [|c cs IH]; simpl; [split; auto|]. rewrite Forall_cons_iff, IH. tauto. }
    rewrite Y. split; [intros [[[A B] C] _]|intros [[A B] C]]; auto.
Qed.

Lemma fits_singles : forall s env p, fits s p -> singles (image env s) (strip p).
Proof.
  intros s env p Fi x Ix Nl. rewrite avars_strip in Ix. unfold image.
  assert (L : List.length (s x) = 1%nat). { apply Fi; auto. intros [y ->]. discriminate Nl. }
  destruct (s x) as [|a [|]]; try discriminate L. simpl. eauto.
Qed.

(** From one instance to the whole tree *)
Section Rule.
Variables (ck : node -> res bool) (p : node) (cs : list node) (pat : pattern) (after : node) (r : rule).
Hypothesis (HP : get_pattern p cs = PatOk pat) (HR : get_rule pat after = Some r) (Cov : covered p cs).
Hypothesis Nv : is_var p = false.

Lemma after_vars : incl (var_names after) (var_names p).
Proof.
  destruct (get_rule_spec p cs pat after HP) as [_ B].
  intros x Ix. destruct (in_dec name_dec x (var_names p)) as [I|N]; auto.
  assert (Q : ~ incl (var_names after) (var_names p)) by (intros I; apply N, I, Ix). rewrite (B Q) in HR. discriminate HR.
Qed.
Lemma inst_names : forall s q y, In y (flat_map var_names (inst s q)) <-> exists x, In x (var_names q) /\ In y (flat_map var_names (s x)).
Proof.
  clear. intros s q y. induction q as [v t|x i t|op qs t IH] using node_ind'.
  - simpl. split; [tauto|]. intros (x & [] & _).
  - cbn [inst var_names]. split; [intros H; exists x; split; auto; left; auto|]. intros (x' & [<-|[]] & H). auto.
  - cbn [inst flat_map var_names]. rewrite app_nil_r.
    assert (X : In y (flat_map var_names (flat_map (inst s) qs)) <-> exists c, In c qs /\ In y (flat_map var_names (inst s c))).
    { rewrite in_flat_map. split.
      - intros (n & In1 & In2). apply in_flat_map in In1. destruct In1 as (c & Ic & In1). exists c. split; auto. apply in_flat_map. eauto.
      - intros (c & Ic & H). apply in_flat_map in H. destruct H as (n & In1 & In2). exists n. split; auto. apply in_flat_map. eauto. }
    rewrite X. rewrite Forall_forall in IH. split.
    + intros (c & Ic & H). apply IH in H; auto. destruct H as (x & Ix & H). exists x. split; auto. apply in_flat_map. eauto.
    + intros (x & Ix & H). apply in_flat_map in Ix. destruct Ix as (c & Ic & Ix). exists c. split; auto. apply IH; eauto.
Qed.
Lemma located_names : forall k n, var_names (located k n) = var_names n.
Proof. clear. intros k n. rewrite <- !avars_strip, strip_located. reflexivity. Qed.

Definition rel (b : bool) (t u : node) : Prop := if b then keep F t u else agre F t u.
Lemma rule_rel : forall b,
  (forall s sub new, fits s p -> (var_names p <> [] -> Forall (holds ck s) cs) -> Forall2 alike (inst s p) [sub] ->
     (exists k, inst s (located k after) = [new]) -> rel b sub new) ->
  forall t t', machine_sized t -> apply_rule ck t r = Ok (Some t') -> rel b t t'.
Proof.
  intros b H t t' MS A. pose proof (C34_apply_rule ck p cs pat after r t (Some t') HP HR MS Cov A) as X. cbv beta iota in X.
  destruct X as (l1 & q & l2 & sub & s & new & _ & Fi & Al & Cs & Hin & Re & _).
  assert (K : rel b sub new) by (apply (H s sub new Fi Cs Al); eauto).
  assert (V : is_var sub = false).
  { destruct p as [v t0|x i t0|op ps t0]; try discriminate Nv; inversion Al as [|? ? ? ? A1]; subst; inversion A1; subst; reflexivity. }
  assert (I : incl (var_names new) (var_names sub)).
  { intros y Iy. assert (Iy' : In y (flat_map var_names (inst s (located (location sub) after)))).
    { rewrite Hin. simpl. rewrite app_nil_r. exact Iy. }
    apply inst_names in Iy'. destruct Iy' as (x & Ix & Iy'). rewrite located_names in Ix. apply after_vars in Ix.
    assert (Z : In y (flat_map var_names (inst s p))) by (apply inst_names; eauto).
    rewrite (alikes_names _ _ Al) in Z. simpl in Z. rewrite app_nil_r in Z. exact Z. }
  destruct b; simpl in *.
  - eapply keep_cong; eauto.
  - eapply agre_cong; eauto.
Qed.

(** With a condition that the constraints give *)
Lemma psound_rule : forall (C : assignment -> Prop) t t', plain (strip p) = true -> plain (strip after) = true ->
  (forall s, fits s p -> (var_names p <> [] -> Forall (holds ck s) cs) -> C s) ->
  (forall s env, C s -> singles (image env s) (strip p) -> pdefs (image env s) (strip p) ->
     (forall x, In x (var_names p) -> Forall (fun t => defined t env) (s x)) ->
     pdefs (image env s) (strip after) /\ pvals (image env s) (strip after) = pvals (image env s) (strip p)) ->
  machine_sized t -> apply_rule ck t r = Ok (Some t') -> keep F t t'.
Proof.
  intros C t t' Pp Pa HC H. apply (rule_rel true). intros s sub new Fi Cs Al [k Hin] env D.
  destruct (link s env p Pp) as [Vp Dp]. destruct (link s env (located k after)) as [Va Da]. { rewrite strip_located. auto. }
  rewrite Hin in *. rewrite strip_located in *. inversion Al as [|u ? ? ? A1 A2]; subst. inversion A2; subst.
  destruct (alike_sem F _ _ A1 env) as [Ev Ed]. match goal with E : _ = inst s p |- _ => rewrite <- E in * end.
  cbn [map] in *. rewrite Forall_cons_iff in Dp.
  assert (Q : pdefs (image env s) (strip p) /\ (forall x, List.In x (var_names p) -> Forall (fun t => defined t env) (s x))).
  { apply Dp. split; auto. apply Ed. auto. }
  destruct Q as [Q1 Q2]. destruct (H s env (HC s Fi Cs) (fits_singles s env p Fi) Q1 Q2) as [R1 R2].
  assert (W : Forall (fun t => defined t env) [new]).
  { apply Da. split; auto. intros x Ix. rewrite located_names in Ix. apply Q2. apply after_vars. auto. }
  split; [inversion W; auto|]. rewrite <- Ev. rewrite <- Vp in R2. rewrite <- Va in R2. congruence.
Qed.
Lemma pagree_rule : forall (C : assignment -> Prop) t t', plain (strip p) = true -> plain (strip after) = true ->
  (forall s, fits s p -> (var_names p <> [] -> Forall (holds ck s) cs) -> C s) ->
  (forall s env, C s -> singles (image env s) (strip p) -> pdefs (image env s) (strip p) -> pdefs (image env s) (strip after) ->
     pvals (image env s) (strip after) = pvals (image env s) (strip p)) ->
  machine_sized t -> apply_rule ck t r = Ok (Some t') -> agre F t t'.
Proof.
  intros C t t' Pp Pa HC H. apply (rule_rel false). intros s sub new Fi Cs Al [k Hin] env D D'.
  destruct (link s env p Pp) as [Vp Dp]. destruct (link s env (located k after)) as [Va Da]. { rewrite strip_located. auto. }
  rewrite Hin in *. rewrite strip_located in *. inversion Al as [|u ? ? ? A1 A2]; subst. inversion A2; subst.
  destruct (alike_sem F _ _ A1 env) as [Ev Ed]. match goal with E : _ = inst s p |- _ => rewrite <- E in * end.
  cbn [map] in *. rewrite Forall_cons_iff in Dp, Da.
  assert (Q : pdefs (image env s) (strip p) /\ (forall x, List.In x (var_names p) -> Forall (fun t => defined t env) (s x))).
  { apply Dp. split; auto. apply Ed. auto. }
  assert (W : pdefs (image env s) (strip after)). { apply Da. split; auto. }
  pose proof (H s env (HC s Fi Cs) (fits_singles s env p Fi) (proj1 Q) W) as R2.
  rewrite <- Ev. rewrite <- Vp in R2. rewrite <- Va in R2. congruence.
Qed.
End Rule.
End P.
