(** The table command (C47). *)
From Coq Require Import Reals.
From Flocq Require Import Core.
From Coq Require Import List Ascii String NArith ZArith Bool Lia Arith.
From Coq.Floats Require Import SpecFloat.
From Verif Require Import M_Base M_StringUtil M_LinkedList M_Trie M_Tree M_Context M_Tokenizer M_Parser M_TreeUtil M_Match M_RuleParsing M_ArithCtx
  M_Double M_Eval M_Simplify M_Session
  S_Util S_Engine S_Parse S_Tree S_Match S_Session S_TableCmd L_StringUtil L_Tree P_Tree S_Eval L_Float L_TableNum L_SessionCmd L_Reach L_SessionEx P_Session P_Simplify M_Strtod.
Import ListNotations.
Open Scope string_scope.
Open Scope list_scope.
Open Scope nat_scope.

(** ** Trees that differ in token numbers only *)
Fixpoint erase (n : node) : node :=
  match n with
  | NConst v _ => NConst v 0
  | NVar x _ _ => NVar x 0 0
  | NOp op cs _ => NOp op (map erase cs) 0
  end.
Lemma reduce_erase : forall S (lis : @listener S) n s, tree_reduce lis s (erase n) = tree_reduce lis s n.
Proof.
  intros S lis. induction n as [v t|x i t|op cs t IH] using node_ind'; intros s; try reflexivity. cbn [erase tree_reduce].
  match goal with |- (let '(_, _) := ?f (map erase cs) 0 s [] in _) = (let '(_, _) := ?g cs 0 s [] in _) => assert (E : forall i s args, f (map erase cs) i s args = g cs i s args) end.
  { induction cs as [|c cs IHc]; intros i s0 args; cbn [map]; [reflexivity|]. inversion IH as [|a b H F]; subst. rewrite H. destruct (tree_reduce lis s0 c) as [s1 [v|e p]]; auto. }
  rewrite E. reflexivity.
Qed.
Lemma erase_map : forall (f g : node -> node) cs, Forall (fun c => erase (f c) = erase (g c)) cs -> map erase (map f cs) = map erase (map g cs).
Proof. intros f g cs F. rewrite !map_map. apply map_ext_in. rewrite Forall_forall in F. exact F. Qed.
Lemma incl_child : forall cs xs, incl (flat_map var_names cs) xs -> Forall (fun c => incl (var_names c) xs) cs.
Proof. intros cs xs H. apply Forall_forall. intros c Ic x Ix. apply H. apply in_flat_map. eauto. Qed.
Lemma both : forall A (P Q : A -> Prop) l, Forall (fun c => Q c -> P c) l -> Forall Q l -> Forall P l.
Proof. intros A P Q l F G. rewrite Forall_forall in *. auto. Qed.
Lemma erase_one : forall pos x v e, incl (var_names e) [x] -> erase (substitute x (NConst v 0) (with_ids pos e)) = erase (assign (fun _ => v) e).
Proof.
  intros pos x v. induction e as [c t|y i t|op cs t IH] using node_ind'; intros H; cbn [with_ids substitute assign erase] in *; auto.
  - destruct (name_dec x y) as [<-|N]; auto. destruct N. specialize (H y (or_introl eq_refl)). destruct H as [H|[]]; auto.
  - f_equal. rewrite !map_map. apply map_ext_in. apply Forall_forall. apply (both _ _ _ _ IH). apply incl_child. exact H.
Qed.
Lemma erase_two : forall x y a b e, incl (var_names e) [x; y] ->
  erase (substitute y (NConst b 0) (substitute x (NConst a 0) e)) = erase (assign (fun n => if name_dec n x then a else b) e).
Proof.
  intros x y a b. induction e as [c t|z i t|op cs t IH] using node_ind'; intros H; cbn [substitute assign erase] in *; auto.
  - destruct (name_dec x z) as [<-|N]; [cbn; destruct (name_dec x x); [auto|contradiction]|]. destruct (name_dec z x); [congruence|]. cbn.
    destruct (name_dec y z) as [<-|N']; auto. specialize (H z (or_introl eq_refl)). destruct H as [H|[H|[]]]; congruence.
  - f_equal. rewrite !map_map. apply map_ext_in. apply Forall_forall. apply (both _ _ _ _ IH). apply incl_child. exact H.
Qed.
Lemma assign_none : forall env e, var_names e = [] -> assign env e = e.
Proof.
  intros env. induction e as [c t|z i t|op cs t IH] using node_ind'; intros H; cbn [assign var_names] in *; auto; [discriminate|]. f_equal.
  rewrite <- (map_id cs) at 2. apply map_ext_in. intros c Ic. rewrite Forall_forall in IH. apply IH; auto. destruct (var_names c) eqn:E; auto.
  exfalso. assert (X : In c0 (flat_map var_names cs)) by (apply in_flat_map; exists c; rewrite E; split; [auto|left; auto]). rewrite H in X. destruct X.
Qed.

(** ** Rows *)
Section Rows.
Variable L : libm.
Variable fuel : nat.
Variable strtod : cstr -> option double.
Lemma reduce_value_at : forall env s e t, erase t = erase (assign env e) -> forall s' v,
  reduce_value L fuel s t = Done (Ok (s', v)) <-> exists w', s' = with_world s w' /\ value_at L fuel env (ss_world s) e w' v.
Proof.
  intros env s e t H s' v. unfold reduce_value. rewrite <- reduce_erase, H, reduce_erase.
  destruct (tree_reduce (arith_listener L fuel) (Done (Ok (ss_world s))) (assign env e)) as [w r] eqn:E. split.
  - intros X. pose proof (proj1 (C28_reduce_is_evaluation _ _ _ _ _ _) E) as Ev. destruct w as [[w| |]|]; try discriminate X; destruct r as [a|er p]; try discriminate X;
      injection X as <- <-; exists w; (split; [reflexivity|]); eexists; (split; [exact Ev|]); reflexivity.
  - intros (w' & -> & r' & Ev & M). apply C28_reduce_is_evaluation in Ev. rewrite E in Ev. injection Ev as -> ->. destruct r' as [a|er p]; subst v; reflexivity.
Qed.
Lemma constant_evaluate : forall s t, var_names t = [] -> forall s' v, evaluate L fuel s t = Done (Ok (s', v)) <-> constant L fuel s t s' v.
Proof.
  intros s t H s' v. unfold evaluate, constant. assert (X : erase t = erase (assign (fun _ => d0) t)) by (rewrite assign_none; auto). split.
  - intros E. destruct (reduce_value L fuel s t) as [[(s1 & u)| |]|] eqn:R; cbn [sbind] in E; try discriminate E. injection E as <- <-.
    apply (reduce_value_at _ _ _ _ X) in R. destruct R as (w' & -> & V). split; auto. exists w', u. auto.
  - intros (_ & w' & u & V & -> & ->). assert (R : reduce_value L fuel s t = Done (Ok (with_world s w', u))) by (apply (reduce_value_at _ _ _ _ X); eauto). rewrite R. reflexivity.
Qed.
Lemma fold_evaluate : forall s f a b, incl (var_names f) [str "x"; str "y"] -> forall s' v,
  evaluate L fuel s (fold_tree f a b) = Done (Ok (s', v)) <-> exists w', s' = with_world s w' /\ fold_step L fuel (Some f) (ss_world s) a (Some b) w' v.
Proof.
  intros s f a b H s' v. unfold evaluate, fold_step.
  assert (X : erase (fold_tree f a b) = erase (assign (fun n => if name_dec n (str "x") then a else b) f)).
  { unfold fold_tree. rewrite tree_copy_id, !C27_replace_is_substitution. cbn [fst]. apply erase_two. exact H. }
  split.
  - intros E. destruct (reduce_value L fuel s (fold_tree f a b)) as [[(s1 & u)| |]|] eqn:R; cbn [sbind] in E; try discriminate E. injection E as <- <-.
    apply (reduce_value_at _ _ _ _ X) in R. destruct R as (w' & -> & V). exists w'. split; auto. exists u. auto.
  - intros (w' & -> & u & V & ->). assert (R : reduce_value L fuel s (fold_tree f a b) = Done (Ok (with_world s w', u))) by (apply (reduce_value_at _ _ _ _ X); eauto). rewrite R. reflexivity.
Qed.
Variables (e : node) (fold : option node) (stop step : double).
Hypothesis fold_ok : match fold with Some f => incl (var_names f) [str "x"; str "y"] | None => True end.
Inductive rows : nat -> double -> double -> world -> world -> nat -> list shown -> double -> Prop :=
| rows_end : forall i x acc w, within stop step x = false -> rows i x acc w w 0 [] acc
| rows_next : forall i x acc w w1 w2 v acc' w' n o r, within stop step x = true -> value_at L fuel (fun _ => x) w e w1 v -> fold_step L fuel fold w1 acc v w2 acc' ->
    rows (S i) (dadd x step) acc' w2 w' n o r -> rows i x acc w w' (S n) (SRow i x v :: o) r.
Lemma world_id : forall s, with_world s (ss_world s) = s. Proof. intros []. reflexivity. Qed.
Lemma world_twice : forall s w w', with_world (with_world s w) w' = with_world s w'. Proof. intros []. reflexivity. Qed.
Lemma world_of : forall s w, ss_world (with_world s w) = w. Proof. intros []. reflexivity. Qed.
Lemma loop_rows : forall pos var, incl (var_names e) [var] -> forall n s i x acc s' o r,
  table_loop L fuel n s (with_ids pos e) var fold i x stop step acc = Done (Ok (s', o, r)) <->
  exists w' k, s' = with_world s w' /\ k < n /\ rows i x acc (ss_world s) w' k o r.
Proof.
  intros pos var H. induction n as [|n IH]; intros s i x acc s' o r; cbn [table_loop].
  - split; [discriminate|]. intros (w' & k & _ & K & _). lia.
  - change (if dgtb step d0 then dleb x stop else dgeb x stop) with (within stop step x). destruct (within stop step x) eqn:W.
    2:{ split.
        - intros E. injection E as <- <- <-. exists (ss_world s), 0. rewrite world_id. split; auto. split; [lia|]. constructor. auto.
        - intros (w' & k & -> & _ & R). inversion R; subst; [rewrite world_id; reflexivity|congruence]. }
    assert (X : erase (fst (replace_variable_nodes (tree_copy (with_ids pos e)) (NConst x 0) var)) = erase (assign (fun _ => x) e)).
    { rewrite tree_copy_id, C27_replace_is_substitution. cbn [fst]. apply erase_one. exact H. }
    split.
    + intros E. destruct (reduce_value L fuel s _) as [[(s1 & v)| |]|] eqn:R in E; cbn [sbind] in E; try discriminate E.
      apply (reduce_value_at _ _ _ _ X) in R. destruct R as (w1 & -> & V).
      assert (F : exists w2 acc', fold_step L fuel fold w1 acc v w2 acc' /\
        sbind (table_loop L fuel n (with_world s w2) (with_ids pos e) var fold (S i) (dadd x step) stop step acc')
          (fun '(s3, rows, f) => sret (s3, SRow i x v :: rows, f)) = Done (Ok (s', o, r))).
      { destruct v as [b|]; [|destruct fold; exists w1, acc; (split; [split; reflexivity|exact E])]. destruct fold as [f|]; [|exists w1, acc; (split; [split; reflexivity|exact E])].
        destruct (evaluate L fuel (with_world s w1) (fold_tree f acc b)) as [[(s2 & a2)| |]|] eqn:Ev; cbn [sbind] in E; try discriminate E.
        apply fold_evaluate in Ev; auto. destruct Ev as (w2 & -> & Fs). rewrite world_of in Fs. exists w2, a2. split; [exact Fs|exact E]. }
      destruct F as (w2 & acc' & Fs & E2). clear E.
      destruct (table_loop L fuel n (with_world s w2) _ _ _ _ _ _ _ _) as [[[[s3 o3] r3]| |]|] eqn:Tl in E2; cbn [sbind] in E2; try discriminate E2. injection E2 as <- <- <-.
      apply IH in Tl. destruct Tl as (w' & k & -> & K & R). rewrite world_twice. rewrite world_of in R. exists w', (S k). split; auto. split; [lia|]. econstructor; eauto.
    + intros (w' & k & -> & K & R). inversion R as [|? ? ? ? w1 w2 v acc' ? k' o' ? W' V Fs R']; subst; [congruence|].
      assert (Rv : reduce_value L fuel s (fst (replace_variable_nodes (tree_copy (with_ids pos e)) (NConst x 0) var)) = Done (Ok (with_world s w1, v))) by (apply (reduce_value_at _ _ _ _ X); eauto).
      rewrite Rv. cbn [sbind].
      assert (F : (match v, fold with Some result, Some fe => evaluate L fuel (with_world s w1) (fold_tree fe acc result) | _, _ => sret (with_world s w1, acc) end) = Done (Ok (with_world s w2, acc'))).
      { destruct v as [b|]; [|destruct fold; destruct Fs as [-> ->]; reflexivity]. destruct fold as [f|]; [|destruct Fs as [-> ->]; reflexivity].
        apply fold_evaluate; auto. exists w2. rewrite world_twice, world_of. auto. }
      rewrite F. cbn [sbind].
      assert (T : table_loop L fuel n (with_world s w2) (with_ids pos e) var fold (S i) (dadd x step) stop step acc' = Done (Ok (with_world (with_world s w2) w', o', r))).
      { apply IH. exists w', k'. rewrite world_of. split; auto. split; [lia|auto]. }
      rewrite T, world_twice. reflexivity.
Qed.
(** The rows as sequences *)
Lemma rows_table : forall i x acc w w' n o r, rows i x acc w w' n o r <->
  exists (xs : nat -> double) (v : nat -> option double) (ac : nat -> double) (before mid : nat -> world),
    xs 0 = x /\ (forall k, xs (S k) = dadd (xs k) step) /\ (forall k, k < n -> within stop step (xs k) = true) /\ within stop step (xs n) = false /\
    before 0 = w /\ before n = w' /\ ac 0 = acc /\ ac n = r /\
    (forall k, k < n -> value_at L fuel (fun _ => xs k) (before k) e (mid k) (v k) /\ fold_step L fuel fold (mid k) (ac k) (v k) (before (S k)) (ac (S k))) /\
    o = map (fun k => SRow (i + k) (xs k) (v k)) (List.seq 0 n).
Proof.
  assert (Shift : forall i xs (v : nat -> option double) n, map (fun k => SRow (i + k) (xs k) (v k)) (List.seq 1 n) = map (fun k => SRow (S i + k) (xs (S k)) (v (S k))) (List.seq 0 n)).
  { intros i xs v n. rewrite <- seq_shift, map_map. apply map_ext. intros k. f_equal. lia. }
  intros i x acc w w' n o r. split.
  - intros R. induction R as [i x acc w W|i x acc w w1 w2 v acc' w' n o r W V Fs R IH].
    + exists (fun k => Nat.iter k (fun x => dadd x step) x), (fun _ => None), (fun _ => acc), (fun _ => w), (fun _ => w). split; auto. split; auto. split; [intros; lia|]. split; auto.
      split; auto. split; auto. split; auto. split; auto. split; [intros; lia|reflexivity].
    + destruct IH as (xs & vs & ac & bf & md & X0 & Xs & Wi & Wn & B0 & Bn & A0 & An & V' & ->).
      exists (fun k => match k with 0 => x | S k => xs k end), (fun k => match k with 0 => v | S k => vs k end), (fun k => match k with 0 => acc | S k => ac k end),
        (fun k => match k with 0 => w | S k => bf k end), (fun k => match k with 0 => w1 | S k => md k end).
      split; auto. split. { intros [|k]; auto. } split. { intros [|k] K; auto. apply Wi. lia. } split; auto. split; auto. split; auto. split; auto. split; auto. split.
      { intros [|k] K; [rewrite B0, A0; auto|]. apply V'. lia. }
      cbn [List.seq map]. rewrite Shift, Nat.add_0_r. reflexivity.
  - revert i x acc w w' o r. induction n as [|n IH]; intros i x acc w w' o r (xs & vs & ac & bf & md & X0 & Xs & Wi & Wn & B0 & Bn & A0 & An & V' & ->).
    + rewrite <- B0 in *. rewrite <- Bn, <- A0, <- An, <- X0. constructor. auto.
    + cbn [List.seq map]. rewrite Nat.add_0_r, Shift. destruct (V' 0) as [V0 F0]; [lia|]. rewrite <- X0, <- B0, <- A0. econstructor; eauto; [apply Wi; lia|].
      apply IH. exists (fun k => xs (S k)), (fun k => vs (S k)), (fun k => ac (S k)), (fun k => bf (S k)), (fun k => md (S k)).
      split; auto. split; auto. split. { intros k K. apply Wi. lia. } split; auto. split; auto. split; auto. split; auto. split; auto. split; auto. intros k K. apply V'. lia.
Qed.
End Rows.

(** ** The texts of the command *)
Lemma blanks_cancel : forall a b u v, blanks a ++ u = blanks b ++ v -> (forall r, u <> " "%char :: r) -> (forall r, v <> " "%char :: r) -> u = v.
Proof.
  induction a as [|a IH]; intros [|b] u v E Hu Hv; cbn [blanks repeat app] in E; auto.
  - exfalso. exact (Hu _ E).
  - exfalso. exact (Hv _ (eq_sym E)).
  - injection E as E. eapply IH; eauto.
Qed.
Lemma blank_all : forall a b r, blanks a = blanks b ++ r -> (forall r', r <> " "%char :: r') -> r = [].
Proof. intros a b r E H. apply (blanks_cancel b a); [rewrite app_nil_r; auto|auto|discriminate]. Qed.
Lemma stripped_unique : forall s r r', is_stripped s r -> is_stripped s r' -> r = r'.
Proof.
  assert (Empty : forall a b r, blanks a = blanks b ++ r -> (forall r', r <> " "%char :: r') -> r = []) by exact blank_all.
  intros s r r' (a & b & E & H1 & H2) (a' & b' & E' & H1' & H2'). rewrite E in E'. clear E s.
  assert (N : forall u c k r0, u <> [] -> (forall r, u <> " "%char :: r) -> c = blanks k -> u ++ c <> " "%char :: r0).
  { intros [|x u] c k r0 Nu Hu -> X; [congruence|]. injection X as -> _. exact (Hu u eq_refl). }
  assert (Z : forall u c d a0, blanks c ++ u ++ blanks d = blanks a0 -> (forall r, u <> " "%char :: r) -> u = []).
  { intros [|x u] c d a0 X Hu; auto. exfalso. assert (I : In x (blanks a0)) by (rewrite <- X; apply in_or_app; right; left; auto). apply repeat_spec in I. subst x. exact (Hu u eq_refl). }
  destruct r as [|c r]. { cbn [app] in E'. rewrite blanks_app in E'. symmetry. eapply Z; [symmetry; exact E'|auto]. }
  destruct r' as [|c' r']. { cbn [app] in E'. rewrite (blanks_app a' b') in E'. eapply Z; [exact E'|auto]. }
  assert (X : (c :: r) ++ blanks b = (c' :: r') ++ blanks b').
  { apply (blanks_cancel a a'); auto; intros r0; eapply N; eauto; discriminate. }
  apply (f_equal (@rev _)) in X. rewrite !rev_app_distr, !blanks_rev in X.
  assert (Y : rev (c :: r) = rev (c' :: r')).
  { apply (blanks_cancel b b'); auto; intros r0 W; apply (f_equal (@rev _)) in W; rewrite rev_involutive in W; cbn [rev] in W; [exact (H2 _ W)|exact (H2' _ W)]. }
  apply (f_equal (@rev _)) in Y. rewrite !rev_involutive in Y. exact Y.
Qed.
Lemma strip_stops : forall j c r s, c <> " "%char -> no_nul s -> exists t, strip (blanks j ++ c :: r) s = Ok t /\ is_stripped s t.
Proof.
  intros j c r s Hc Hn. destruct (lead_decomp s) as (m & Em & Hm). destruct m as [|x m].
  2:{ apply strip_ok; auto. right. exists x. split; [rewrite Em; apply in_or_app; right; left; auto|]. intros ->. exact (Hm m eq_refl). }
  rewrite app_nil_r in Em. set (k := lead_blanks s) in *. clearbody k. subst s. exists []. split.
  - destruct k as [|k]; [reflexivity|]. unfold strip. cbn [blanks repeat]. fold (blanks k). change (" "%char :: blanks k) with (blanks (S k)).
    rewrite blanks_rev, app_assoc, blanks_app, strip_back_spec by auto. cbn [rbind].
    assert (F : firstn (List.length (blanks (S k))) (repeat NUL (S k + j) ++ c :: r) = repeat NUL (S k)).
    { rewrite repeat_app, <- app_assoc. assert (Le : List.length (blanks (S k)) = List.length (repeat NUL (S k))) by (unfold blanks; rewrite !repeat_length; auto).
      rewrite Le, firstn_app, firstn_all, Nat.sub_diag. cbn [firstn]. apply app_nil_r. }
    rewrite F. assert (Lb : forall n, lead_blanks (blanks n) = n). { induction n as [|n IH]; cbn; auto. }
    rewrite Lb. rewrite skipn_all2; [reflexivity|]. rewrite rev_length, repeat_length. lia.
  - exists k, 0. rewrite app_nil_r. split; auto. split; [discriminate|]. intros r'. destruct r'; discriminate.
Qed.
Lemma strip_all_spec : forall parts j c r, c <> " "%char -> Forall no_nul parts -> exists args, strip_all (blanks j ++ c :: r) parts = Ok args /\ Forall2 is_stripped parts args.
Proof.
  induction parts as [|p parts IH]; intros j c r Hc F; cbn [strip_all]; [eauto|]. inversion F; subst. destruct (strip_stops j c r p Hc) as (t & -> & T); auto.
  destruct (IH 0 NUL []) as (args & E & G); auto; [discriminate|]. cbn [blanks repeat app] in E. cbn [rbind]. rewrite E. cbn [rbind]. eauto.
Qed.
Lemma split_unique : forall s ds ps, split_into s ds ps -> forall ps', split_into s ds ps' -> ps = ps'.
Proof.
  intros s ds ps H. induction H as [s|s d ds a b ps C H IH|s d ds N]; intros ps' H'; inversion H' as [|? ? ? a' b' ps1 C' H1|? ? ? N']; subst; auto.
  - destruct (cut_fixed _ _ _ _ _ _ C C') as [-> ->]. f_equal. auto.
  - exfalso. destruct C as [E _]. exact (N' _ _ E).
  - exfalso. destruct C' as [E _]. exact (N _ _ E).
Qed.
Lemma F2_stripped_unique : forall ps a b, Forall2 is_stripped ps a -> Forall2 is_stripped ps b -> a = b.
Proof. intros ps a b H. revert b. induction H; intros b' H'; inversion H'; subst; auto. f_equal; auto. eapply stripped_unique; eauto. Qed.
Lemma split_nul : forall s ds ps, split_into s ds ps -> no_nul s -> Forall no_nul ps.
Proof.
  intros s ds ps H. induction H as [s|s d ds a b ps [E _] H IH|s d ds N]; intros Hn; try (constructor; auto).
  - intro X. apply Hn. rewrite E. apply in_or_app. auto.
  - apply IH. intro X. apply Hn. rewrite E. apply in_or_app. right. apply in_or_app. auto.
Qed.

(** ** The command *)
Section Command.
Variable L : libm.
Variable fuel : nat.
Variable strtod : cstr -> option double.
Definition good (r : step cmdres) (s' : session) (o : list shown) : Prop := r = Done (Ok (Did s' o true)).
Lemma bind_good : forall A (x : step A) f s' o, good (sbind x f) s' o <-> exists a, x = Done (Ok a) /\ good (f a) s' o.
Proof.
  intros A x f s' o. unfold good. split.
  - destruct x as [[a| |]|]; cbn [sbind]; intros E; try discriminate E. eauto.
  - intros (a & -> & E). exact E.
Qed.
Lemma failed_good : forall s s' o, ~ good (failed s) s' o.
Proof. intros s s' o E. discriminate E. Qed.
Lemma option_good : forall A (x : option A) (f : A -> step cmdres) s s' o, good (match x with None => failed s | Some a => f a end) s' o <-> exists a, x = Some a /\ good (f a) s' o.
Proof. intros A [a|] f s s' o; split; [eauto|intros (b & E & G); congruence|discriminate|intros (b & E & G); discriminate E]. Qed.
Lemma if_good : forall (b : bool) r s s' o, good (if b then r else failed s) s' o <-> b = true /\ good r s' o.
Proof. intros [] r s s' o; split; [auto|intros []; auto|discriminate|intros []; discriminate]. Qed.
Lemma parse_good : forall s a (f : session -> node -> step cmdres) s' o,
  good (sbind (arith_parse L fuel strtod s a) (fun '(s1, o) => match o with None => failed s1 | Some t => f s1 t end)) s' o <-> exists s1 t, understood L fuel strtod s a s1 t /\ good (f s1 t) s' o.
Proof.
  intros s a f s' o. rewrite bind_good. unfold understood. split.
  - intros ((s1 & [t|]) & E & G); [eauto|discriminate G].
  - intros (s1 & t & E & G). exists (s1, Some t). auto.
Qed.
Lemma no_variables_spec : forall t, no_variables t = true <-> var_names t = [].
Proof. intros t. unfold no_variables. rewrite C26_count, Nat.eqb_eq. destruct (var_names t); cbn; split; intros; auto; discriminate. Qed.
Lemma occ_two : forall x y (l : list cstr), x <> y -> List.length l = count_occ name_dec l x + count_occ name_dec l y <-> incl l [x; y].
Proof.
  intros x y l N. assert (Le : forall l, count_occ name_dec l x + count_occ name_dec l y <= List.length l).
  { clear l. induction l as [|a l IH]; cbn; auto. destruct (name_dec a x), (name_dec a y); subst; try congruence; lia. }
  induction l as [|a l IH]; cbn [List.length count_occ]. { split; [intros _ a []|auto]. }
  specialize (Le l). destruct (name_dec a x) as [Ex|Nx]; destruct (name_dec a y) as [Ey|Ny]; [congruence| | |].
  - split; [intros E b [<-|I]; [left; auto|apply (proj1 IH); [lia|auto]]|]. intros E. cbn. f_equal. apply IH. intros b I. apply E. right. auto.
  - split; [intros E b [<-|I]; [right; left; auto|apply (proj1 IH); [lia|auto]]|]. intros E. rewrite <- plus_n_Sm. f_equal. apply IH. intros b I. apply E. right. auto.
  - split; [intros; lia|]. intros E. destruct (E a (or_introl eq_refl)) as [X|[X|[]]]; congruence.
Qed.
Lemma one_variable : forall l : list cstr, List.length (firsts l) <= 1 <-> exists x, incl l [x].
Proof.
  intros l. destruct (C26_firsts l) as [Nd In_]. split.
  - intros H. destruct (firsts l) as [|x [|y r]] eqn:E; [exists []|exists x|cbn in H; lia]; intros a Ia; apply In_ in Ia; auto. destruct Ia.
  - intros (x & H). assert (I : incl (firsts l) [x]) by (intros a Ia; apply H, In_; auto). pose proof (NoDup_incl_length Nd I) as X. cbn in X. exact X.
Qed.

Lemma places_occ : forall x c, List.length (places x c) = count_occ name_dec (var_names c) x.
Proof.
  intros x. induction c as [v t|y i t|op cs t IH] using node_ind'; simpl; auto.
  - destruct (name_dec x y), (name_dec y x); simpl; congruence.
  - fold (places_list x cs 0). generalize 0. induction IH as [|c cs Hc IH IHl]; intros k; auto. cbn [places_list flat_map]. fold (places_list x cs (S k)).
    rewrite app_length, count_occ_app, IHl. f_equal. unfold under. rewrite map_length. exact Hc.
Qed.
Lemma fold_variables : forall f, (count_all_variable_nodes f =? fst (get_variable_nodes f (str "x") 0 0) + fst (get_variable_nodes f (str "y") 0 0)) = true <-> incl (var_names f) [str "x"; str "y"].
Proof. intros f. rewrite Nat.eqb_eq, C26_count, !gv_spec. cbn [fst]. rewrite !places_occ. apply occ_two. discriminate. Qed.
(** What the command leaves and prints *)
Definition table_out (s1 : session) (w' : world) (fold : option node) (rows : list shown) (folded : double) (s' : session) (o : list shown) : Prop :=
  match fold with
  | None => s' = with_world s1 w' /\ o = rows
  | Some _ => s' = with_history (with_world s1 w') (history_add (w_history w') folded) /\ o = rows ++ [SFold folded]
  end.
Lemma run_good : forall s pos e vars fold start stop step init s' o, incl (var_names e) [match vars with v :: _ => v | [] => [] end] ->
  match fold with Some f => incl (var_names f) [str "x"; str "y"] | None => True end ->
  good (table_run L fuel s (with_ids pos e) vars fold start stop step init) s' o <->
  exists w' n rows folded, table L fuel e fold start stop (turned start stop step) init (ss_world s) w' n rows folded /\ n < fuel /\ table_out s w' fold rows folded s' o.
Proof.
  intros s pos e vars fold start stop step init s' o H Hf. unfold table_run. rewrite bind_good. change (adjust_step start stop step) with (turned start stop step).
  assert (G : forall s1 (rows : list shown) f, good (match fold with None => sret (Did s1 rows true) | Some _ => sret (Did (with_history s1 (history_add (w_history (ss_world s1)) f)) (rows ++ [SFold f]) true) end) s' o
    <-> match fold with None => s' = s1 /\ o = rows | Some _ => s' = with_history s1 (history_add (w_history (ss_world s1)) f) /\ o = rows ++ [SFold f] end).
  { intros s1 rows f. unfold good, sret. destruct fold; split; intros E; try (injection E as <- <-; auto); destruct E as [-> ->]; auto. }
  split.
  - intros ([[s1 rows] f] & E & Go). apply G in Go. apply loop_rows in E; auto. destruct E as (w' & k & -> & K & R). apply rows_table in R. exists w', k, rows, f. split; [exact R|]. split; [exact K|]. unfold table_out. destruct fold; exact Go.
  - intros (w' & n & rows & f & T & K & O). exists (with_world s w', rows, f). split.
    + apply loop_rows; auto. exists w', n. split; auto. split; auto. apply rows_table. exact T.
    + apply G. unfold table_out in O. destruct fold; rewrite ?world_of; exact O.
Qed.
Lemma evaluate_good : forall s t (f : session -> double -> step cmdres) s' o, var_names t = [] ->
  good (sbind (evaluate L fuel s t) (fun '(s1, v) => f s1 v)) s' o <-> exists s1 v, constant L fuel s t s1 v /\ good (f s1 v) s' o.
Proof.
  intros s t f s' o H. rewrite bind_good. split.
  - intros ((s1 & v) & E & G). apply constant_evaluate in E; auto. eauto.
  - intros (s1 & v & E & G). apply constant_evaluate in E; auto. exists (s1, v). auto.
Qed.
Lemma fold_good : forall s pos e vars more start stop step s' o, incl (var_names e) [match vars with v :: _ => v | [] => [] end] -> List.length more = 0 \/ List.length more = 2 ->
  good (table_fold L fuel strtod s (with_ids pos e) vars more start stop step) s' o <->
  exists s1 fold init, match more with
    | [a4; a5] => exists s8 f s9 t5, understood L fuel strtod s a4 s8 f /\ understood L fuel strtod s8 a5 s9 t5 /\ incl (var_names f) [str "x"; str "y"] /\ constant L fuel s9 t5 s1 init /\ fold = Some f
    | _ => s1 = s /\ fold = None /\ init = d0 end /\
    exists w' n rows folded, table L fuel e fold start stop (turned start stop step) init (ss_world s1) w' n rows folded /\ n < fuel /\ table_out s1 w' fold rows folded s' o.
Proof.
  intros s pos e vars more start stop step s' o H [M|M].
  - destruct more as [|a [|b m]]; try discriminate M. cbn [table_fold]. rewrite run_good; [|exact H|exact Logic.I]. split.
    + intros X. exists s, None, d0. auto.
    + intros (s1 & fold & init & (-> & -> & ->) & X). exact X.
  - destruct more as [|a4 [|a5 [|b m]]]; try discriminate M. cbn [table_fold]. rewrite parse_good. split.
    + intros (s8 & f & U & G). rewrite parse_good in G. destruct G as (s9 & t5 & U5 & G). rewrite if_good in G. destruct G as [C G]. apply fold_variables in C. rewrite if_good in G. destruct G as [N G].
      apply no_variables_spec in N. rewrite evaluate_good in G by auto. destruct G as (s10 & v & K & G). rewrite run_good in G; auto. exists s10, (Some f), v. split; [exists s8, f, s9, t5; auto|exact G].
    + intros (s1 & fold & init & (s8 & f & s9 & t5 & U & U5 & I & K & ->) & X). exists s8, f. split; auto. rewrite parse_good. exists s9, t5. split; auto. rewrite if_good. split; [apply fold_variables; auto|].
      rewrite if_good. split; [apply no_variables_spec; exact (proj1 K)|]. rewrite evaluate_good by (exact (proj1 K)). exists s1, init. split; auto. rewrite run_good; auto.
Qed.
Lemma params_good : forall s pos e vars a1 a2 a3 more s' o, incl (var_names e) [match vars with v :: _ => v | [] => [] end] -> List.length more = 0 \/ List.length more = 2 ->
  good (table_params L fuel strtod s (with_ids pos e) vars a1 a2 a3 more) s' o <->
  exists s2 t1 s3 t2 s4 t3 s5 start s6 stop s7 step, understood L fuel strtod s a1 s2 t1 /\ understood L fuel strtod s2 a2 s3 t2 /\ understood L fuel strtod s3 a3 s4 t3 /\
    constant L fuel s4 t1 s5 start /\ constant L fuel s5 t2 s6 stop /\ constant L fuel s6 t3 s7 step /\ deqb step d0 = false /\
    good (table_fold L fuel strtod s7 (with_ids pos e) vars more start stop step) s' o.
Proof.
  intros s pos e vars a1 a2 a3 more s' o H M. unfold table_params. rewrite parse_good. split.
  - intros (s2 & t1 & U1 & G). rewrite parse_good in G. destruct G as (s3 & t2 & U2 & G). rewrite parse_good in G. destruct G as (s4 & t3 & U3 & G). rewrite if_good in G. destruct G as [N G].
    rewrite !andb_true_iff in N. destruct N as [[N1 N2] N3]. apply no_variables_spec in N1, N2, N3. rewrite evaluate_good in G by auto. destruct G as (s5 & v1 & K1 & G).
    rewrite evaluate_good in G by auto. destruct G as (s6 & v2 & K2 & G). rewrite evaluate_good in G by auto. destruct G as (s7 & v3 & K3 & G).
    destruct (deqb v3 d0) eqn:Z. { exfalso. exact (failed_good _ _ _ G). }
    exists s2, t1, s3, t2, s4, t3, s5, v1, s6, v2, s7, v3. auto 10.
  - intros (s2 & t1 & s3 & t2 & s4 & t3 & s5 & v1 & s6 & v2 & s7 & v3 & U1 & U2 & U3 & K1 & K2 & K3 & Z & G). exists s2, t1. split; auto. rewrite parse_good. exists s3, t2. split; auto.
    rewrite parse_good. exists s4, t3. split; auto. rewrite if_good. split. { rewrite !andb_true_iff, !no_variables_spec. split; [split|]; [exact (proj1 K1)|exact (proj1 K2)|exact (proj1 K3)]. }
    rewrite evaluate_good by (exact (proj1 K1)). exists s5, v1. split; auto. rewrite evaluate_good by (exact (proj1 K2)). exists s6, v2. split; auto.
    rewrite evaluate_good by (exact (proj1 K3)). exists s7, v3. split; auto. rewrite Z. exact G.
Qed.
Lemma first_good : forall s a (f : session -> node -> step cmdres) s' o,
  good (sbind (of_res (arith_parse_raw strtod s a)) (fun '(tokens, o) => match o with None => failed s | Some raw =>
    sbind (arith_simplify L fuel s tokens raw) (fun '(s1, o) => match o with None => failed s1 | Some t => f s1 t end) end)) s' o <->
  exists s1 t, understood L fuel strtod s a s1 t /\ good (f s1 t) s' o.
Proof.
  intros s a f s' o. rewrite <- parse_good. unfold arith_parse. destruct (arith_parse_raw strtod s a) as [(ts & [t|])| |]; cbn [of_res sbind]; try reflexivity.
Qed.
Lemma listed_good : forall s e (f : node -> list cstr -> step cmdres) s' o,
  good (match list_variables e 1 with (_, None, _) => failed s | (e', Some vars, _) => f e' vars end) s' o <->
  (exists x, incl (var_names e) [x]) /\ exists pos, good (f (with_ids pos e) (firsts (var_names e))) s' o /\ list_variables e 1 = (with_ids pos e, Some (firsts (var_names e)), List.length (firsts (var_names e))).
Proof.
  intros s e f s' o. pose proof (C26_list_variables e 1) as H. destruct (list_variables e 1) as [[e' vs] k]. destruct H as [H1 H2]. rewrite <- one_variable.
  destruct (Nat.le_gt_cases (List.length (firsts (var_names e))) 1) as [A|A].
  - destruct (H1 A) as (-> & -> & pos & -> & _). split; [intros G; split; auto; exists pos; auto|]. intros (_ & pos' & G & E). injection E as E. rewrite E. exact G.
  - destruct (H2 A) as [-> _]. split; [intros G; exfalso; exact (failed_good _ _ _ G)|]. intros (X & _). lia.
Qed.
Lemma sbind_ok : forall A B (a : A) (f : A -> step B), sbind (of_res (Ok a)) f = f a. Proof. reflexivity. Qed.
Lemma command_good : forall s l texts s' o, no_nul l -> table_texts l texts ->
  good (cmd_table_exec L fuel strtod s l) s' o <->
  exists s1 e fold start stop step init w' n rows folded, reads_table L fuel strtod s texts s1 e fold start stop step init /\
    table L fuel e fold start stop (turned start stop step) init (ss_world s1) w' n rows folded /\ n < fuel /\ table_out s1 w' fold rows folded s' o.
Proof.
  intros s l texts s' o Hn (rest & parts & -> & Sp & St). unfold cmd_table_exec. change (skipn (List.length TABLE_COMMAND) (str "table " ++ rest)) with rest.
  change FOLD_KEYWORD with (str " fold "). rewrite <- (split_unique _ _ _ Sp _ (str_split_spec _ _)).
  assert (Nr : no_nul rest) by (intro X; apply Hn; apply in_or_app; auto). pose proof (split_nul _ _ _ Sp Nr) as Np.
  destruct (strip_all_spec parts 1 "e"%char (map (fun c => c) (str "lbat")) ltac:(discriminate) Np) as (args & Sa & F). change (blanks 1 ++ "e"%char :: map (fun c => c) (str "lbat")) with (rev TABLE_COMMAND) in Sa.
  rewrite <- (F2_stripped_unique _ _ _ St F) in *. clear args F. assert (Len : List.length parts = List.length texts) by (eapply F2_length; eauto).
  rewrite if_good, Sa, sbind_ok.
  assert (Plain : forall a0 a1 a2 a3 more, List.length more = 0 \/ List.length more = 2 ->
    good (sbind (of_res (arith_parse_raw strtod s a0)) (fun '(tokens, o) => match o with None => failed s | Some raw =>
      sbind (arith_simplify L fuel s tokens raw) (fun '(s1, o) => match o with None => failed s1 | Some expr0 =>
        match list_variables expr0 1 with (_, None, _) => failed s1 | (expr, Some vars, _) => table_params L fuel strtod s1 expr vars a1 a2 a3 more end end) end)) s' o <->
    exists s7 e start stop step, reads_table L fuel strtod s [a0; a1; a2; a3] s7 e None start stop step d0 /\
      exists s1 fold init, match more with
      | [a4; a5] => exists s8 f s9 t5, understood L fuel strtod s7 a4 s8 f /\ understood L fuel strtod s8 a5 s9 t5 /\ incl (var_names f) [str "x"; str "y"] /\ constant L fuel s9 t5 s1 init /\ fold = Some f
      | _ => s1 = s7 /\ fold = None /\ init = d0 end /\
      exists w' n rows folded, table L fuel e fold start stop (turned start stop step) init (ss_world s1) w' n rows folded /\ n < fuel /\ table_out s1 w' fold rows folded s' o).
  { intros a0 a1 a2 a3 more M. pose proof (first_good s a0 (fun s1 expr0 => match list_variables expr0 1 with (_, None, _) => failed s1 | (expr, Some vars, _) => table_params L fuel strtod s1 expr vars a1 a2 a3 more end) s' o) as X.
    rewrite X. clear X.
    assert (V : forall e, (exists x, incl (var_names e) [x]) -> incl (var_names e) [match firsts (var_names e) with v :: _ => v | [] => [] end]).
    { intros e H. apply one_variable in H. destruct (C26_firsts (var_names e)) as [_ I]. intros y Iy. apply I in Iy. destruct (firsts (var_names e)) as [|v [|v' r]]; [destruct Iy| |cbn in H; lia]. auto. }
    split.
    - intros (s1 & e & U & G). rewrite listed_good in G. destruct G as (One & pos & G & _). rewrite params_good in G by auto.
      destruct G as (s2 & t1 & s3 & t2 & s4 & t3 & s5 & v1 & s6 & v2 & s7 & v3 & U1 & U2 & U3 & K1 & K2 & K3 & Z & G). rewrite fold_good in G by auto.
      exists s7, e, v1, v2, v3. split; [econstructor; eauto|exact G].
    - intros (s7 & e & start & stop & step & R & G). inversion R as [? ? ? ? s1 ? s2 t1 s3 t2 s4 t3 s5 ? s6 ? ? ? U One U1 U2 U3 K1 K2 K3 Z|]; subst.
      exists s1, e. split; auto. rewrite listed_good. split; auto. pose proof (C26_list_variables e 1) as Lv. destruct (list_variables e 1) as [[e' vs] k]. destruct Lv as [Lv _].
      destruct Lv as (-> & -> & pos & -> & _); [apply one_variable; auto|]. exists pos. split; auto. rewrite params_good by auto.
      exists s2, t1, s3, t2, s4, t3, s5, start, s6, stop, s7, step. repeat (split; [assumption|]). rewrite fold_good by auto. exact G. }
  rewrite Len. split.
  - intros (C & G). rewrite orb_true_iff, !Nat.eqb_eq in C. destruct C as [C|C].
    + destruct texts as [|a0 [|a1 [|a2 [|a3 [|? ?]]]]]; try discriminate C. rewrite Plain in G by auto. destruct G as (s7 & e & start & stop & step & R & s1 & fold & init & (-> & -> & ->) & G).
      exists s7, e, None, start, stop, step, d0. destruct G as (w' & n & rows & folded & T). exists w', n, rows, folded. auto.
    + destruct texts as [|a0 [|a1 [|a2 [|a3 [|a4 [|a5 [|? ?]]]]]]]; try discriminate C. rewrite Plain in G by auto.
      destruct G as (s7 & e & start & stop & step & R & s1 & fold & init & (s8 & f & s9 & t5 & U4 & U5 & I & K & ->) & w' & n & rows & folded & T).
      exists s1, e, (Some f), start, stop, step, init, w', n, rows, folded. split; auto. eapply reads_fold; eauto.
  - intros (s1 & e & fold & start & stop & step & init & w' & n & rows & folded & R & T).
    inversion R as [a0 a1 a2 a3|a0 a1 a2 a3 a4 a5 s7 ? ? ? ? s8 f s9 t5 ? ? R' U4 U5 I K]; subst; (split; [reflexivity|]); rewrite Plain by auto.
    + exists s1, e, start, stop, step. split; auto. exists s1, None, d0. split; auto. exists w', n, rows, folded. exact T.
    + exists s7, e, start, stop, step. split; auto. exists s1, (Some f), init. split; [exists s8, f, s9, t5; auto|]. exists w', n, rows, folded. exact T.
Qed.
End Command.

(** ** C47 *)
(** The command, for every session and line: it succeeds iff the texts are understood and the table ends, and then it prints the rows of the table. *)
Theorem C47_table_rows : forall L fuel strtod files d s l texts s' o, handles KTable l -> no_nul l -> table_texts l texts ->
  exec_command L fuel strtod files (S d) s l = Done (Ok (Did s' o true)) <->
  exists s1 e fold start stop step init w' n rows folded, reads_table L fuel strtod s texts s1 e fold start stop step init /\
    table L fuel e fold start stop (turned start stop step) init (ss_world s1) w' n rows folded /\ n < fuel /\ table_out s1 w' fold rows folded s' o.
Proof. intros L fuel sd files d s l texts s' o H Hn T. rewrite (C52_dispatch _ _ _ _ _ _ _ _ H). exact (command_good L fuel sd s l texts s' o Hn T). Qed.
(** Evaluation always ends. *)
Definition evaluation_ends L fuel (e : node) : Prop := forall env w, exists w' v, value_at L fuel env w e w' v.
Definition folding_ends L fuel (fold : option node) : Prop := match fold with Some f => evaluation_ends L fuel f | None => True end.
Lemma rows_exist : forall L fuel e fold stop step, evaluation_ends L fuel e -> folding_ends L fuel fold -> forall n i acc w (xs : nat -> double), (forall k, xs (S k) = dadd (xs k) step) ->
  (forall k, k < n -> within stop step (xs k) = true) -> within stop step (xs n) = false -> exists w' o r, rows L fuel e fold stop step i (xs 0) acc w w' n o r.
Proof.
  intros L fuel e fold stop step He Hf. induction n as [|n IH]; intros i acc w xs Xs W F.
  - exists w, [], acc. constructor. auto.
  - destruct (He (fun _ => xs 0) w) as (w1 & v & V).
    assert (Fs : exists w2 acc', fold_step L fuel fold w1 acc v w2 acc').
    { unfold fold_step. destruct fold as [f|]; [|eauto]. destruct v as [r|]; [|eauto]. destruct (Hf (fun n => if name_dec n (str "x") then acc else r) w1) as (w2 & u & U). eauto. }
    destruct Fs as (w2 & acc' & Fs). destruct (IH (S i) acc' w2 (fun k => xs (S k))) as (w' & o & r & R); auto. { intros k K. apply W. lia. }
    exists w', (SRow i (xs 0) v :: o), r. econstructor; eauto; [apply W; lia|]. rewrite <- Xs. exact R.
Qed.
Definition steps (start step : double) (k : nat) : double := nat_rect (fun _ => double) start (fun _ x => dadd x step) k.
Lemma table_exists : forall L fuel e fold start stop step init w n, evaluation_ends L fuel e -> folding_ends L fuel fold ->
  (forall k, k < n -> within stop step (steps start step k) = true) -> within stop step (steps start step n) = false ->
  exists w' rows folded, table L fuel e fold start stop step init w w' n rows folded.
Proof.
  intros L fuel e fold start stop step init w n He Hf W F. destruct (rows_exist L fuel e fold stop step He Hf n 1 init w (steps start step)) as (w' & o & r & R); auto.
  exists w', o, r. apply rows_table in R. exact R.
Qed.
Lemma table_steps : forall L fuel e fold start stop step init w w' n o r, table L fuel e fold start stop step init w w' n o r ->
  (forall k, k < n -> within stop step (steps start step k) = true) /\ within stop step (steps start step n) = false /\
  forall k, k < n -> exists v, nth_error o k = Some (SRow (S k) (steps start step k) v).
Proof.
  intros L fuel e fold start stop step init w w' n o r (xs & v & ac & bf & md & X0 & Xs & Wi & Wn & _ & _ & _ & _ & _ & ->).
  assert (E : forall k, xs k = steps start step k). { induction k as [|k IH]; cbn; auto. rewrite Xs, IH. reflexivity. }
  split. { intros k K. rewrite <- E. auto. } split. { rewrite <- E. auto. } intros k K. exists (v k). rewrite <- E, nth_error_map.
  rewrite (nth_error_nth' _ 0) by (rewrite seq_length; auto). rewrite seq_nth by auto. reflexivity.
Qed.
(** Whatever the step, the table ends unless the step is lost in rounding: start and end are at most 2^52 steps away from 0. *)
Theorem C47_ends_partial : forall L fuel e fold start stop step init w a b c,
  number start a -> number stop b -> number step c -> (c <> 0)%R -> evaluation_ends L fuel e -> folding_ends L fuel fold ->
  (Rabs a <= bpow radix2 52 * Rabs c)%R -> (Rabs b <= bpow radix2 52 * Rabs c)%R -> (Rabs c <= bpow radix2 900)%R ->
  exists w' n rows folded, table L fuel e fold start stop (turned start stop step) init w w' n rows folded /\ 0 < n /\ (INR n <= 3 * (Rabs (b - a) / Rabs c) + 1)%R.
Proof.
  intros L fuel e fold start stop step init w a b c Na Nb Nc Z He Hf Ha Hb Hc. destruct (turned_number _ _ _ _ _ _ Na Nb Nc Z Hc) as (c' & Nc' & Ac & Up & Down & Cc).
  assert (Z' : (c' <> 0)%R) by (destruct Cc as [->| ->]; [auto|apply Ropp_neq_0_compat; auto]).
  assert (D : (a <= b /\ 0 < c' \/ b <= a /\ c' < 0)%R).
  { destruct (Rtotal_order a b) as [O|[O|O]]; [left; split; [apply Rlt_le|]; auto| |right; split; [apply Rlt_le|]; auto].
    destruct (Rtotal_order c' 0) as [P|[P|P]]; [right; split; [apply Req_le; auto|auto]|contradiction|left; split; [apply Req_le; auto|auto]]. }
  destruct (steps_end start stop (turned start stop step) a b c' (steps start (turned start stop step)) Na Nb Nc' Z' D) as (n & W & F & N0 & B); try (rewrite Ac; assumption); auto.
  destruct (table_exists L fuel e fold start stop (turned start stop step) init w n He Hf W F) as (w' & o & r & T). exists w', n, o, r. split; auto. split; auto. rewrite <- Ac. exact B.
Qed.
(** Integers: the rows are start, start+step, ... up to the end, without rounding. *)
Theorem C47_integers : forall L fuel e fold start stop step init w w' n rows folded a b c, isZ start a -> isZ stop b -> isZ step c -> (c <> 0)%Z ->
  small a -> (Z.abs b + Z.abs c <= 2 ^ 53)%Z -> table L fuel e fold start stop (turned start stop step) init w w' n rows folded ->
  Z.of_nat n = (Z.abs (b - a) / Z.abs c + 1)%Z /\
  forall k, k < n -> exists x v, nth_error rows k = Some (SRow (S k) x v) /\ isZ x (a + Z.of_nat k * (if (a <=? b)%Z then Z.abs c else - Z.abs c))%Z.
Proof.
  intros L fuel e fold start stop step init w w' n rows folded a b c Na Nb Nc Z Ha Hb T. unfold small in Ha.
  assert (Zr : (IZR c <> 0)%R) by (intro X; apply Z; apply eq_IZR; auto).
  assert (Cb : (Rabs (IZR c) <= bpow radix2 900)%R).
  { rewrite <- abs_IZR. apply Rle_trans with (IZR (2 ^ 53)); [apply IZR_le; lia|]. change (IZR (2 ^ 53)) with (bpow radix2 53). apply bpow_le. lia. }
  destruct (turned_number _ _ _ _ _ _ Na Nb Nc Zr Cb) as (c' & Nc' & Ac & Up & Down & Cc).
  assert (I : exists z, (z = c \/ z = - c)%Z /\ IZR z = c'). { destruct Cc as [->| ->]; [exists c; auto|exists (- c)%Z; rewrite opp_IZR; auto]. }
  destruct I as (z & Hz & <-). assert (Up' : (a < b -> 0 < z)%Z) by (intros X; apply lt_IZR, Up, IZR_lt, X). assert (Down' : (b < a -> z < 0)%Z) by (intros X; apply lt_IZR, Down, IZR_lt, X).
  destruct (steps_Z start stop (turned start stop step) a b z (steps start (turned start stop step)) Na Nb Nc') as (m & W & F & M & K); auto; try lia.
  destruct (table_steps _ _ _ _ _ _ _ _ _ _ _ _ _ T) as (W' & F' & R).
  assert (n = m) as ->. { destruct (Nat.lt_trichotomy n m) as [X|[X|X]]; auto; [rewrite (W n X) in F'; discriminate|rewrite (W' m X) in F; discriminate]. }
  split; [rewrite M; f_equal; f_equal; lia|]. intros k Hk. destruct (R k Hk) as (v & E). exists (steps start (turned start stop step) k), v. split; auto.
  destruct (Z.eq_dec a b) as [->|Nab].
  - assert (m = 1). { rewrite Z.sub_diag in M. cbn in M. lia. } assert (k = 0) by lia. subst k. specialize (K 0 ltac:(lia)). cbn [Z.of_nat] in K |- *. rewrite Z.mul_0_l in *. exact K.
  - replace (if (a <=? b)%Z then Z.abs c else (- Z.abs c)%Z) with z; [apply K; lia|]. destruct (Z.leb_spec a b); lia.
Qed.
(** 10^16 + 1 is 10^16 *)
Theorem C47_never_ends : forall L fuel e fold init w w' n rows folded,
  ~ table L fuel e fold (of_Z (10 ^ 16)) (of_Z (10 ^ 16 + 10)) (turned (of_Z (10 ^ 16)) (of_Z (10 ^ 16 + 10)) (of_Z 1)) init w w' n rows folded.
Proof.
  intros L fuel e fold init w w' n rows folded T. apply table_steps in T. destruct T as (_ & F & _).
  assert (E : turned (of_Z (10 ^ 16)) (of_Z (10 ^ 16 + 10)) (of_Z 1) = of_Z 1) by (vm_compute; reflexivity). rewrite E in F.
  assert (A : dadd (of_Z (10 ^ 16)) (of_Z 1) = of_Z (10 ^ 16)) by (vm_compute; reflexivity).
  assert (X : steps (of_Z (10 ^ 16)) (of_Z 1) n = of_Z (10 ^ 16)). { clear F. induction n as [|n IH]; [reflexivity|]. cbn [steps nat_rect]. fold (steps (of_Z (10 ^ 16)) (of_Z 1) n). rewrite IH. exact A. }
  rewrite X in F. assert (W : within (of_Z (10 ^ 16 + 10)) (of_Z 1) (of_Z (10 ^ 16)) = true) by (vm_compute; reflexivity). congruence.
Qed.
Lemma variable_ends : forall L fuel x i t, evaluation_ends L fuel (NVar x i t).
Proof. intros L fuel x i t env w. exists w, (Some (env x)), (RVal (env x)). split; [constructor|reflexivity]. Qed.
Lemma big_Z : forall z, In z [10 ^ 16; 10 ^ 16 + 10; 1]%Z -> isZ (of_Z z) z.
Proof. intros z [<-|[<-|[<-|[]]]]; (apply isZ_test; [vm_compute; reflexivity|vm_compute; reflexivity|vm_compute; reflexivity]). Qed.
Theorem C47_ends_refuted :
  ~ (forall L fuel e fold start stop step init w a b c, number start a -> number stop b -> number step c -> (c <> 0)%R -> evaluation_ends L fuel e -> folding_ends L fuel fold ->
     exists w' n rows folded, table L fuel e fold start stop (turned start stop step) init w w' n rows folded).
Proof.
  intros H. destruct (H no_libm 20 (NVar (str "x") 0 0) None (of_Z (10 ^ 16)) (of_Z (10 ^ 16 + 10)) (of_Z 1) d0 (mkWorld [] []) (IZR (10 ^ 16)) (IZR (10 ^ 16 + 10)) (IZR 1)) as (w' & n & o & r & T).
  - apply big_Z. left. reflexivity.
  - apply big_Z. right. left. reflexivity.
  - apply big_Z. right. right. left. reflexivity.
  - apply R1_neq_R0.
  - apply variable_ends.
  - exact Logic.I.
  - exact (C47_never_ends _ _ _ _ _ _ _ _ _ _ T).
Qed.
(** table x*x ; 1 ; 4 ; 1 fold x+y ; 0 *)
Definition C47_rows (r : step cmdres) : list shown := match r with Done (Ok (Did _ o true)) => o | _ => [] end.
Definition C47_table : list shown := C47_rows (run_in C38_session "table x*x ; 1 ; 4 ; 2 fold x+y ; 0").
Fixpoint show_like (a : list shown) (b : list (nat * Z * Z) * Z) : bool :=
  match a, b with
  | SRow i x (Some v) :: a', ((j, p, q) :: b', f) => (i =? j) && same_double x (of_Z p) && same_double v (of_Z q) && show_like a' (b', f)
  | [SFold v], ([], f) => same_double v (of_Z f)
  | _, _ => false
  end.
Example C47_case : lives C38_session = true /\ show_like C47_table ([(1, 1%Z, 1%Z); (2, 3%Z, 9%Z)], 10%Z) = true /\
  handles KTable (str "table x*x ; 1 ; 4 ; 2 fold x+y ; 0") /\ no_nul (str "table x*x ; 1 ; 4 ; 2 fold x+y ; 0") /\
  table_texts (str "table x*x ; 1 ; 4 ; 2 fold x+y ; 0") (map str ["x*x"; "1"; "4"; "2"; "x+y"; "0"]).
Proof.
  split; [vm_compute; reflexivity|]. split; [vm_compute; reflexivity|]. split; [exact (kind_of_ok (str "table x*x ; 1 ; 4 ; 2 fold x+y ; 0"))|].
  split; [vm_compute; intuition discriminate|]. exists (str "x*x ; 1 ; 4 ; 2 fold x+y ; 0"), (map str ["x*x "; " 1 "; " 4 "; " 2"; "x+y "; " 0"]). split; [reflexivity|].
  split. { exact (str_split_spec [str ";"; str ";"; str ";"; str " fold "; str ";"] (str "x*x ; 1 ; 4 ; 2 fold x+y ; 0")). }
  assert (X : forall a b r, (forall r', r <> " "%char :: r') -> (forall r', rev r <> " "%char :: r') -> is_stripped (blanks a ++ r ++ blanks b) r).
  { intros a b r H1 H2. exists a, b. split; auto. split; auto. intros r' E. apply (H2 (rev r')). rewrite E, rev_app_distr. reflexivity. }
  constructor; [refine (X 0 1 (str "x*x") _ _); discriminate|]. constructor; [refine (X 1 1 (str "1") _ _); discriminate|]. constructor; [refine (X 1 1 (str "4") _ _); discriminate|].
  constructor; [refine (X 1 0 (str "2") _ _); discriminate|]. constructor; [refine (X 0 1 (str "x+y") _ _); discriminate|]. constructor; [refine (X 1 0 (str "0") _ _); discriminate|]. constructor.
Qed.
Example C47_case_ends : (exists start stop step a b c, number start a /\ number stop b /\ number step c /\ (c <> 0)%R /\
  (Rabs a <= bpow radix2 52 * Rabs c)%R /\ (Rabs b <= bpow radix2 52 * Rabs c)%R /\ (Rabs c <= bpow radix2 900)%R /\ (a <> b)%R) /\ evaluation_ends no_libm 20 (NVar (str "x") 0 0).
Proof.
  split; [|apply variable_ends]. exists (of_Z 1), (of_Z 4), (of_Z 2), (IZR 1), (IZR 4), (IZR 2).
  split; [apply of_Z_Z; unfold small; lia|]. split; [apply of_Z_Z; unfold small; lia|]. split; [apply of_Z_Z; unfold small; lia|].
  rewrite <- !abs_IZR. change (bpow radix2 52) with (IZR (2 ^ 52)). rewrite <- !mult_IZR.
  split; [intro X; apply eq_IZR in X; discriminate|]. split; [apply IZR_le; lia|]. split; [apply IZR_le; lia|].
  split; [|intro X; apply eq_IZR in X; discriminate]. change (IZR (Z.abs 2)) with (bpow radix2 1). apply bpow_le. lia.
Qed.
Print Assumptions C47_table_rows.
Print Assumptions C47_ends_partial.
Print Assumptions C47_integers.
Print Assumptions C47_ends_refuted.
