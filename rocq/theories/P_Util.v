(** Theorems for the utility layer: C01-C10. *)
From Coq Require Import List Ascii String NArith ZArith Bool Lia Arith Permutation Sorted.
From Verif Require Import M_Base M_StringUtil M_Vector M_LinkedList M_Trie S_Util
  L_Vector L_LinkedList L_Trie L_TrieIter L_StringUtil.
Import ListNotations.
Open Scope string_scope.
Open Scope list_scope.

(** ** C01: whatever calls an ideal list allows, the vector makes them without undefined behaviour
    and with the same answers; afterwards iterating it yields the list. *)
Theorem C01_vector_refines_list : forall (A : Type) (start_size : nat) (ops : list (vop A)) l outs,
  list_run [] ops = Some (l, outs) ->
  exists v, vec_run (vec_create start_size) ops = Ok (v, outs)
    /\ vec_count v = List.length l
    /\ vec_iterate v (S (List.length l)) 0 = Ok l.
Proof.
  intros A n ops l outs H.
  destruct (vec_run_sim ops (vec_create n) [] l outs (create_rep n) H) as (v & E & R).
  exists v. split; [exact E|]. split.
  - destruct R as (j & _ & Hc & _). exact Hc.
  - apply (L_Vector.iterate_rep v l R (List.length l) 0); lia.
Qed.
Example C01_case : list_run [] [VPush 1; VPushMany [2;3;4]; VPop; VSet 0 9; VGet 2; VTrim; VPushElem 5; VPeek; VCount]
  = Some ([9;2;3;5], [ONone; ONone; OElem (Some 4); ONone; OElem (Some 3); ONone; ONone; OElem (Some 5); OCount 4]).
Proof. reflexivity. Qed.
Print Assumptions C01_vector_refines_list.

(** ** C02 *)
Theorem C02_string_builder_concatenates : forall (start_size : nat) (ops : list sbop),
  Forall op_no_nul ops ->
  exists b0 b, strbuilder_create start_size = Ok b0 /\ sb_run b0 ops = Ok b
    /\ strbuilder_to_str b = Ok (fold_left text_step ops []).
Proof.
  intros n ops H. destruct (create_sbrep n) as (b0 & E0 & R0).
  destruct (sb_run_sim ops b0 [] R0) as (b & E & (junk & Hb & _)).
  exists b0, b. split; [exact E0|]. split; [exact E|]. unfold strbuilder_to_str. rewrite Hb.
  apply read_cstr_app. apply text_no_nul; auto. intros [].
Qed.
Example C02_case : Forall op_no_nul [SAppend (str "2 + "); SChar "x"%char; SAppend (str " * sin(y)")]
  /\ fold_left text_step [SAppend (str "2 + "); SChar "x"%char; SAppend (str " * sin(y)")] [] = str "2 + x * sin(y)".
Proof.
  split; [|reflexivity].
  repeat constructor; cbn; try (intros H; repeat (destruct H as [H|H]; [discriminate|]); exact H); discriminate.
Qed.
Print Assumptions C02_string_builder_concatenates.

(** ** C03: in any sequence of allowed calls the list answers like the abstract sequence (forward and backward
    walks are among the calls) and never touches freed memory; destroying it frees every node. *)
Theorem C03_linked_list_refines_sequence : forall (A : Type) (ops : list (lop A)) q outs,
  seq_run ([], 0) ops = Some (q, outs) ->
  exists h l, ll_run init_state ops = Ok ((h, l), outs)
    /\ exists h', list_destroy h l = Ok h' /\ forall a, h_map h' a = None.
Proof.
  intros A ops q outs H.
  destruct (ll_run_sim ops init_state ([], 0) q outs init_rep H) as ([h l] & E & R).
  exists h, l. split; [exact E|]. exact (destroy_rep h l q R).
Qed.
Example C03_case : seq_run ([], 0)
   [LAppend 10; LInsertAfter None 20; LInsertAt 1 30; LDeleteNode 0; LAppend 40; LGetAt 2; LIterate; LBackward]
  = Some (([(1, 20); (2, 30); (3, 40)], 4),
          [LOHandle 0; LOHandle 1; LOHandle 2; LONone; LOHandle 3; LOElem 40; LOSeq [20;30;40]; LOSeq [40;30;20]]).
Proof. reflexivity. Qed.
Print Assumptions C03_linked_list_refines_sequence.

(** ** C04 *)
Theorem C04_trie_refines_map : forall (D : Type) (ops : list (trop D)),
  Forall op_admissible ops ->
  exists t, trie_run trie_create ops = Ok (t, snd (map_run [] ops))
    /\ trie_count t = List.length (fst (map_run [] ops))
    /\ forall s, match find_key s (fst (map_run [] ops)) with
                 | Some d => trie_contains t s = (true, Some d)
                 | None => fst (trie_contains t s) = false
                 end.
Proof.
  intros D ops H. destruct (trie_run_sim ops trie_create [] create_trep H) as (t & E & R).
  exists t. split; [exact E|]. split; [apply R|].
  intros s. destruct (contains_spec t _ s R) as [H1 H2].
  destruct (find_key s (fst (map_run [] ops))) as [d|]; auto.
  destruct (trie_contains t s) as [b o]. simpl in *. subst b. rewrite H2; auto.
Qed.
(** Strings with other characters stop the program when they are added. *)
Theorem C04_trie_add_inadmissible : forall (D : Type) (t : trie D) s d,
  ~ Forall admissible_char s -> trie_add_str t s d = Halt.
Proof. intros D t s d H. unfold trie_add_str. rewrite add_walk_illegal; auto. Qed.
Definition C04_ops : list (trop nat) :=
  [TAdd (str "sin") 1; TAdd (str "sinh") 2; TAdd (str "sin") 3; TRemove (str "sinh"); TAdd (str "+") 4; TRemove (str "xyz")].
(** The trie a sequence of calls leads to (for the concrete cases only) *)
Definition trie_after {D} (ops : list (trop D)) : trie D :=
  match trie_run trie_create ops with Ok (t, _) => t | _ => trie_create end.
Lemma C04_ops_admissible : Forall op_admissible C04_ops.
Proof.
  repeat constructor; simpl;
    repeat match goal with |- Forall _ _ => constructor end; unfold admissible_char; cbn; lia.
Qed.
Example C04_case : Forall op_admissible C04_ops
  /\ map_run [] C04_ops = ([(str "+", 4); (str "sin", 1)], [true; true; false; true; true; true]).
Proof. split; [exact C04_ops_admissible|reflexivity]. Qed.
Print Assumptions C04_trie_refines_map.
Print Assumptions C04_trie_add_inadmissible.

(** ** C05 *)
Theorem C05_longest_prefix : forall (D : Type) (ops : list (trop D)) t bs s,
  Forall op_admissible ops ->
  trie_run trie_create ops = Ok (t, bs) ->
  let m := fst (map_run [] ops) in
  let '(k, d) := trie_longest_prefix t s in
  longest_key_prefix m s k /\ (0 < k -> d = find_key (firstn k s) m).
Proof.
  intros D ops t bs s H E. destruct (trie_run_sim ops trie_create [] create_trep H) as (t' & E' & R).
  rewrite E in E'. inversion E'; subst. exact (longest_prefix_spec t' _ s R).
Qed.
Example C05_case : trie_longest_prefix (trie_after C04_ops) (str "sinh2") = (3, Some 1).
Proof. vm_compute. reflexivity. Qed.
Print Assumptions C05_longest_prefix.

(** ** C06 *)
Lemma find_reach : forall D p (n m : tnode D), reach n p m -> find n p = Some m.
Proof.
  intros D p n m H. induction H; simpl; auto.
  rewrite (proj2 (legal_spec c) H). unfold get_slot, char_to_index, ccode, TRIE_START.
  rewrite H0. auto.
Qed.
Lemma live_count : forall D (l : list (option (tnode D))), live_links l = count_some l.
Proof. induction l as [|[|] l IH]; simpl; auto. Qed.

Theorem C06_no_garbage : forall (D : Type) (ops : list (trop D)) t bs,
  Forall op_admissible ops ->
  trie_run trie_create ops = Ok (t, bs) ->
  let m := fst (map_run [] ops) in
  (* every allocated node other than the root lies on the path of a stored string *)
  (forall p n, reach (t_root t) p n -> p <> [] -> exists s, find_key (p ++ s) m <> None)
  (* the counters are exact, hence never wrap *)
  /\ (forall p n, reach (t_root t) p n -> tn_succ n = live_links (tn_next n) /\ tn_succ n <= 92)
  (* with nothing stored only the root is left *)
  /\ (m = [] -> forall p n, reach (t_root t) p n -> p = []).
Proof.
  intros D ops t bs H E m. destruct (trie_run_sim ops trie_create [] create_trep H) as (t' & E' & R).
  rewrite E in E'. inversion E'; subst t' bs. fold m in R. split; [|split].
  - intros p n Hr Hp. apply find_reach in Hr. eapply branch_stored; eauto.
  - intros p n Hr. apply find_reach in Hr. rewrite live_count. exact (succ_exact t m p n R Hr).
  - intros Hm p n Hr. destruct p as [|c p]; auto. apply find_reach in Hr.
    destruct (branch_stored t m (c :: p) n R Hr) as [s Hs]; [discriminate|].
    rewrite Hm in Hs. simpl in Hs. congruence.
Qed.
Example C06_case : fst (map_run [] [TAdd (str "ab") 1; TAdd (str "a") 2; TRemove (str "a"); TRemove (str "ab")]) = []
  /\ trie_after [TAdd (str "ab") 1; TAdd (str "a") 2; TRemove (str "a"); TRemove (str "ab")] = trie_create.
Proof. split; vm_compute; reflexivity. Qed.
Print Assumptions C06_no_garbage.

(** ** C07 *)
Theorem C07_iteration_enumerates : forall (D : Type) (ops : list (trop D)) t bs,
  Forall op_admissible ops ->
  trie_run trie_create ops = Ok (t, bs) ->
  let m := fst (map_run [] ops) in
  (forall k d, In (k, d) m -> List.length k <= 28) ->
  exists l, trie_iterate (S (List.length m)) t trie_get_iterator
            = Ok (trie_get_iterator, map (fun kd => (Some (fst kd), Some (snd kd))) l)
    /\ Permutation l m /\ StronglySorted lex_lt (map fst l).
Proof.
  intros D ops t bs H E m Hl. destruct (trie_run_sim ops trie_create [] create_trep H) as (t' & E' & R).
  rewrite E in E'. inversion E'; subst t' bs. exact (iterate_spec t m R Hl).
Qed.
(** A stored string of 29 characters makes the iteration stop the program. *)
Example C07_too_long : trie_iterate 2 (trie_after [TAdd (repeat "a"%char 29) 1]) trie_get_iterator = Halt.
Proof. vm_compute. reflexivity. Qed.
Example C07_case : trie_iterate 3 (trie_after C04_ops) trie_get_iterator
     = Ok (trie_get_iterator, [(Some (str "+"), Some 4); (Some (str "sin"), Some 1)]).
Proof. vm_compute. reflexivity. Qed.
Print Assumptions C07_iteration_enumerates.

(** ** C08 *)
Theorem C08_str_split : forall s delims,
  split_into s delims (str_split s delims) /\ rejoin (str_split s delims) delims = s.
Proof. intros. split; [apply str_split_spec|]. eapply split_rejoin. apply str_split_spec. Qed.
Theorem C08_begins_with : forall p s, begins_with p s = true <-> starts_with p s.
Proof. exact begins_with_spec. Qed.
Example C08_case : str_split (str "abc x def ghi") [str " x "; str " g"] = [str "abc"; str "def"; str "hi"].
Proof. reflexivity. Qed.
Print Assumptions C08_str_split.
Print Assumptions C08_begins_with.

(** ** C09. The full claim is that every existing line index delivers that line; it fails for a text that
    starts with a newline. *)
Definition C09_claim : Prop := forall s k l, nth_error (text_lines s) k = Some l ->
  exists r, get_line_of_string s k = Some (r, List.length l) /\ firstn (List.length l) r = l.
Theorem C09_get_line_refuted : ~ C09_claim.
Proof.
  intros H. destruct (H (str (String "010"%char "ab")) 1 (str "ab") eq_refl) as (r & E & _).
  vm_compute in E. discriminate.
Qed.
Theorem C09_get_line_partial : forall s k l,
  (forall s', s <> ascii_of_nat 10 :: s') \/ k = 0 ->
  nth_error (text_lines s) k = Some l ->
  exists r, get_line_of_string s k = Some (r, List.length l) /\ firstn (List.length l) r = l.
Proof. exact get_line_ok. Qed.
(** An index beyond the last line is answered without writing the start pointer. *)
Theorem C09_get_line_absent : forall s k,
  (forall s', s <> ascii_of_nat 10 :: s') ->
  nth_error (text_lines s) k = None -> get_line_of_string s k = None.
Proof. exact get_line_none. Qed.
(** What happens instead for a leading newline: all indices but 0 are one line too far. *)
Theorem C09_get_line_leading_newline : forall s k l, 1 <= k ->
  nth_error (text_lines (ascii_of_nat 10 :: s)) (S k) = Some l ->
  exists r, get_line_of_string (ascii_of_nat 10 :: s) k = Some (r, List.length l) /\ firstn (List.length l) r = l.
Proof. exact get_line_lf. Qed.
Example C09_case : (forall s', str (append "ab" (String "010"%char (String "010"%char "cde"))) <> ascii_of_nat 10 :: s')
  /\ nth_error (text_lines (str (append "ab" (String "010"%char (String "010"%char "cde"))))) 2 = Some (str "cde").
Proof. split; [discriminate|reflexivity]. Qed.
Print Assumptions C09_get_line_refuted.
Print Assumptions C09_get_line_partial.
Print Assumptions C09_get_line_absent.
Print Assumptions C09_get_line_leading_newline.

(** ** C10. [pre] is whatever lies in front of the string in its allocation. *)
Definition C10_claim : Prop := forall pre s, no_nul s -> exists r, strip pre s = Ok r /\ is_stripped s r.
Theorem C10_strip_refuted : ~ C10_claim.
Proof.
  intros H. destruct (H [] (str "  ")) as (r & E & _).
  - intros [H0|[H0|[]]]; discriminate.
  - vm_compute in E. discriminate.
Qed.
Theorem C10_strip_partial : forall pre s, no_nul s ->
  s = [] \/ (exists c, In c s /\ c <> " "%char) ->
  exists r, strip pre s = Ok r /\ is_stripped s r.
Proof. exact strip_ok. Qed.
(** A text of blanks at the start of its buffer is always read out of bounds. *)
Theorem C10_strip_blank_text : forall a b, 1 <= a -> strip (blanks b) (blanks a) = Ub.
Proof. exact strip_blank_ub. Qed.
Example C10_case : no_nul (str "  1 + 2 ") /\ (exists c, In c (str "  1 + 2 ") /\ c <> " "%char)
  /\ strip [] (str "  1 + 2 ") = Ok (str "1 + 2").
Proof.
  split; [|split; [|reflexivity]].
  - intros H. cbn in H. repeat (destruct H as [H|H]; [discriminate|]). exact H.
  - exists "1"%char. split; [cbn; tauto|discriminate].
Qed.
Print Assumptions C10_strip_refuted.
Print Assumptions C10_strip_partial.
Print Assumptions C10_strip_blank_text.
