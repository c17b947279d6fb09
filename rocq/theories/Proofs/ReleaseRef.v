(** A release build does what the debug build does as long as no assertion fails. *)
From Verif.Model Require Import Base Num OMap Containers AssembledConnections Tarjan
  TracerTofSolver Solution Toolbox Release.
From Verif.Proofs Require Import Util.
Open Scope Z_scope.

Definition ref {A} (r r' : res A) : Prop := r ≠ AssertFail → r' = r.

Lemma ref_refl {A} (r : res A) : ref r r.
Proof. done. Qed.
Lemma ref_bind {A B} (m m' : res A) (f f' : A → res B) :
  ref m m' → (∀ a, m = Ok a → ref (f a) (f' a)) → ref (m ≫= f) (m' ≫= f').
Proof.
  intros Hm Hf H. destruct m as [a|e| | |]; cbn [mbind res_bind] in *; try done.
  1: rewrite Hm by done; by apply Hf.
  all: by rewrite Hm by done.
Qed.
Lemma ref_bind_l {A B} (m : res A) (f f' : A → res B) :
  (∀ a, m = Ok a → ref (f a) (f' a)) → ref (m ≫= f) (m ≫= f').
Proof. intros. by apply ref_bind. Qed.
Lemma ref_assert {B} b (f : unit → res B) (m' : res B) :
  (b = true → ref (f tt) m') → ref (assert_ b ≫= f) m'.
Proof. unfold assert_. destruct b; cbn [mbind res_bind]; [auto|]. intros _ H. done. Qed.
Lemma ref_foldM {A S} (f f' : S → A → res S) l s :
  (∀ s a, ref (f s a) (f' s a)) → ref (foldM f s l) (foldM f' s l).
Proof.
  intros H. revert s. induction l as [|a l IH]; intros s; cbn [foldM]; [done|].
  apply ref_bind; [apply H|]. intros s' _. apply IH.
Qed.
Lemma ref_forZ {S} (f f' : S → Z → res S) lo hi s :
  (∀ s a, ref (f s a) (f' s a)) → ref (forZ lo hi f s) (forZ lo hi f' s).
Proof. apply ref_foldM. Qed.

Create HintDb refdb.
Ltac ref_step :=
  first
    [ apply ref_refl
    | solve [eauto with refdb nocore]
    | apply ref_assert; intros ?
    | apply ref_bind_l; intros ? ?
    | apply ref_bind; [|intros ? ?]
    | match goal with
      | |- ref (match ?x with _ => _ end) (match ?x with _ => _ end) => destruct x eqn:?
      | |- ref (let '_ := ?x in _) (let '_ := ?x in _) => destruct x eqn:?
      end ].
Ltac ref_go := repeat ref_step.

(** ** tarjan.c *)
Lemma zset_len {A} (l l' : list A) i x : zset l i x = Ok l' → length l' = length l.
Proof.
  unfold zset. destruct (i <? 0); [done|]. destruct (l !! Z.to_nat i); [|done].
  intros [= <-]. apply insert_length.
Qed.

Lemma ref_capture_loop k k' c w s : (length (s_vert s) < Z.to_nat (s_cstack s + 1) + k')%nat →
  (0 < k')%nat → ref (capture_loop k c w s) (capture_loop_r k' c w s).
Proof.
  revert k' w s. induction k as [|k IH]; intros k' w s Hk Hp; [by intros []|].
  destruct k' as [|k']; [lia|]. cbn [capture_loop capture_loop_r].
  apply ref_assert. intros Hb. apply ref_bind_l. intros v Hv. apply ref_bind_l. intros w' _.
  apply ref_bind_l. intros p _. apply ref_bind_l. intros vert' Hvert. apply ref_bind_l. intros start' _.
  destruct (v =? c); [done|].
  assert (0 ≤ s_cstack s + 1 ∧ (Z.to_nat (s_cstack s + 1) < length (s_vert s))%nat) as [H0 H1].
  { unfold zget in Hv. destruct (Z.ltb_spec (s_cstack s + 1) 0); [done|]. split; [done|].
    destruct (s_vert s !! Z.to_nat (s_cstack s + 1)) eqn:E; [|done]. by eapply lookup_lt_Some. }
  apply IH; cbn [s_cstack s_vert]; rewrite ?(zset_len _ _ _ _ Hvert); lia.
Qed.
Lemma ref_capture_scc c w s : ref (capture_scc c w s) (capture_scc_r c w s).
Proof.
  unfold capture_scc, capture_scc_r. ref_step. ref_step. apply ref_bind; [|intros [] ?; done].
  apply ref_capture_loop; cbn [s_cstack s_vert]; lia.
Qed.
Global Hint Resolve ref_capture_scc : refdb.
Lemma ref_complete c w s : ref (complete_dfs_from_vertex c w s) (complete_dfs_from_vertex_r c w s).
Proof. unfold complete_dfs_from_vertex, complete_dfs_from_vertex_r. ref_go. Qed.
Global Hint Resolve ref_complete : refdb.
Lemma ref_dfs c ia ja w s : ref (dfs_from_descendant c ia ja w s) (dfs_from_descendant_r c ia ja w s).
Proof. unfold dfs_from_descendant, dfs_from_descendant_r. ref_go. Qed.
Global Hint Resolve ref_dfs : refdb.
Lemma ref_iter ia ja t : ref (tarjan_iter ia ja t) (tarjan_iter_r ia ja t).
Proof. unfold tarjan_iter, tarjan_iter_r. ref_go. Qed.
Global Hint Resolve ref_iter : refdb.
Lemma ref_loop fuel ia ja t : ref (tarjan_loop fuel ia ja t) (tarjan_loop_r fuel ia ja t).
Proof. revert t. induction fuel as [|fuel IH]; intros t; cbn [tarjan_loop tarjan_loop_r]; ref_go. Qed.
Global Hint Resolve ref_loop : refdb.
Lemma ref_local fuel start ia ja w s k :
  ref (tarjan_local fuel start ia ja w s k) (tarjan_local_r fuel start ia ja w s k).
Proof.
  unfold tarjan_local, tarjan_local_r. apply ref_bind_l. intros s1 _ H.
  rewrite (ref_loop fuel ia ja (mkT w s1 0 k)).
  - destruct (tarjan_loop fuel ia ja (mkT w s1 0 k)) as [t| | | |]; try done. cbn [mbind res_bind] in *.
    destruct (s_cstack (t_scc t) =? s_cstart (t_scc t)); [done|]. by destruct H.
  - intros E. rewrite E in H. done.
Qed.
Global Hint Resolve ref_local : refdb.
Lemma ref_global_loop k fuel start ia ja t :
  ref (global_loop k fuel start ia ja t) (global_loop_r k fuel start ia ja t).
Proof. revert start t. induction k as [|k IH]; intros start t; cbn [global_loop global_loop_r]; ref_go. Qed.
Global Hint Resolve ref_global_loop : refdb.
Lemma ref_global fuel ia ja w s : ref (tarjan_global fuel ia ja w s) (tarjan_global_r fuel ia ja w s).
Proof. unfold tarjan_global, tarjan_global_r. ref_go. Qed.
Global Hint Resolve ref_global : refdb.
Lemma ref_tarjan h nv ia ja : ref (tarjan h nv ia ja) (tarjan_r h nv ia ja).
Proof. unfold tarjan, tarjan_r. ref_go. Qed.
Global Hint Resolve ref_tarjan : refdb.
Lemma ref_reachable_step fuel ia ja t v : ref (reachable_step fuel ia ja t v) (reachable_step_r fuel ia ja t v).
Proof. unfold reachable_step, reachable_step_r. ref_go. Qed.
Global Hint Resolve ref_reachable_step : refdb.
Lemma ref_reachable_run fuel ia ja l w s : ref (reachable_run fuel ia ja l w s) (reachable_run_r fuel ia ja l w s).
Proof. unfold reachable_run, reachable_run_r. ref_step. ref_step. apply ref_foldM. auto with refdb. Qed.
Global Hint Resolve ref_reachable_run : refdb.
Lemma ref_reachable h nv ia ja l w : ref (tarjan_reachable_sccs h nv ia ja l w) (tarjan_reachable_sccs_r h nv ia ja l w).
Proof. unfold tarjan_reachable_sccs, tarjan_reachable_sccs_r. ref_go. Qed.
Global Hint Resolve ref_reachable : refdb.
Lemma ref_get s k : ref (tarjan_get_strongcomponent s k) (tarjan_get_strongcomponent_r s k).
Proof. unfold tarjan_get_strongcomponent, tarjan_get_strongcomponent_r. ref_go. Qed.
Global Hint Resolve ref_get : refdb.

Section num.
Context {N : Num}.

(** ** AssembledConnections.cpp *)
Lemma ref_accumulate n l : ref (accumulate_row_entries n l) (accumulate_row_entries_r n l).
Proof.
  unfold accumulate_row_entries, accumulate_row_entries_r. apply ref_assert. intros H%Z.leb_le.
  rewrite (proj2 (Z.ltb_ge n (-1))), (proj2 (Z.ltb_ge n 0)) by lia. ref_go.
Qed.
Lemma ref_create_graph a j r c : ref (create_graph a j r c) (create_graph_r a j r c).
Proof.
  unfold create_graph, create_graph_r. destruct a as [|a0 a].
  - intros _. cbn [zget]. change (zget [] 0) with (@UB Z). cbn [mbind res_bind].
    destruct r as [|x r]; [done|]. unfold forZ, zlen. cbn [length]. rewrite Z.sub_0_r, seqZ_cons by lia. cbn [foldM].
    assert (create_graph_step c (x :: r) ([], resize_ (S (length r)) 0 j, []) 0 = UB) as ->; [|done].
    unfold create_graph_step. change (zget (x :: r) 0) with (Ok x). cbn [mbind res_bind].
    assert (zget (@nil Z) (vec_idx1 x) = UB) as ->; [|done].
    unfold zget. rewrite lookup_nil. by destruct (vec_idx1 x <? 0).
  - change (zget (a0 :: a) 0) with (Ok a0). cbn [mbind res_bind]. ref_go.
Qed.
Hint Resolve ref_accumulate ref_create_graph : refdb.
Lemma ref_assemble c m : ref (assemble c m) (assemble_r c m).
Proof. unfold assemble, assemble_r. ref_go. Qed.
Lemma ref_transpose m : ref (transpose m) (transpose_r m).
Proof. unfold transpose, transpose_r. ref_go. Qed.
Hint Resolve ref_assemble ref_transpose : refdb.
Lemma ref_sort m : ref (AssembledConnections.sort m) (sort_r m).
Proof. unfold AssembledConnections.sort, sort_r. ref_go. Qed.
Hint Resolve ref_sort : refdb.
Lemma ref_csr_create c n m : ref (csr_create c n m) (csr_create_r c n m).
Proof. unfold csr_create, csr_create_r. ref_go. Qed.
Hint Resolve ref_csr_create : refdb.
Lemma ref_compress g n : ref (ac_compress g n) (ac_compress_r g n).
Proof. unfold ac_compress, ac_compress_r. ref_go. Qed.
Hint Resolve ref_compress : refdb.
Lemma ref_ac_run g h : ref (ac_run g h) (ac_run_r g h).
Proof. apply ref_foldM. intros g' []; cbn [ac_step ac_step_r]; ref_go. Qed.
Lemma ref_neighbourhood g v : ref (ac_cell_neighbourhood g v) (ac_cell_neighbourhood_r g v).
Proof. unfold ac_cell_neighbourhood, ac_cell_neighbourhood_r. ref_go. Qed.
Hint Resolve ref_neighbourhood : refdb.
Lemma ref_print sci st g : ref (ac_print sci st g) (ac_print_r sci st g).
Proof.
  unfold ac_print, ac_print_r. apply ref_bind; [|intros; done]. apply ref_forZ. intros acc cell. ref_go.
Qed.

(** ** TracerTofSolver.cpp *)
Lemma ref_inout g : ref (inout_flux g) (inout_flux_r g).
Proof.
  unfold inout_flux, inout_flux_r. destruct (to_int (ac_numrows g) <? 0); [done|].
  apply ref_forZ. intros st v. ref_go.
Qed.
Hint Resolve ref_inout : refdb.
Lemma ref_make g r pv src : ref (tts_make g r pv src) (tts_make_r g r pv src).
Proof. unfold tts_make, tts_make_r. ref_go. Qed.
Hint Resolve ref_make : refdb.
Lemma ref_extract n r a b : ref (extract_components n r a b) (extract_components_r n r a b).
Proof.
  unfold extract_components, extract_components_r. ref_step. apply ref_forZ. intros [sq cs] k. ref_go.
Qed.
Lemma extract_back n r a b st : extract_components n r a b = Ok st → ∃ x, zback st.2 = Ok x.
Proof.
  unfold extract_components. intros (s0 & E0 & E)%bind_Ok.
  assert (s0 ≠ []) as H0.
  { intros ->. pose proof (zset_len _ _ _ _ E0) as HL. cbn in HL. symmetry in HL. apply nil_length_inv in HL.
    rewrite HL in E0. done. }
  assert (∀ l p, foldM (λ st comp, let '(sq, cs) := st in
      tc ← tarjan_get_strongcomponent r comp;
      b ← zget cs comp;
      sq' ← copy_into tc sq b;
      cs' ← zset cs (comp + 1) (to_int (b + zlen tc));
      Ok (sq', cs')) p l = Ok st → p.2 ≠ [] → st.2 ≠ []) as H.
  { induction l as [|k l IH]; intros [sq cs]; cbn [foldM]; [by intros [= <-]|].
    intros ([sq' cs'] & Ek & El)%bind_Ok Hne. apply IH in El; [done|].
    apply bind_Ok in Ek as (tc & _ & Ek). apply bind_Ok in Ek as (b0 & _ & Ek). apply bind_Ok in Ek as (q & _ & Ek).
    apply bind_Ok in Ek as (c2 & Ec & [= <- <-]). cbn [snd] in *. intros ->.
    pose proof (zset_len _ _ _ _ Ec) as HL. cbn in HL. destruct cs; done. }
  apply H in E; [|done]. unfold zback, zget, zlen. destruct st as [sq [|x cs]]; [done|]. cbn [snd].
  rewrite (proj2 (Z.ltb_ge _ 0)) by (cbn [length]; lia).
  destruct (lookup_lt_is_Some_2 (x :: cs) (Z.to_nat (Z.of_nat (length (x :: cs)) - 1))) as [y ->]; [cbn [length]; lia|].
  eauto.
Qed.
Hint Resolve ref_extract : refdb.
Lemma ref_ordering h s d : ref (compute_ordering h s d) (compute_ordering_r h s d).
Proof.
  unfold compute_ordering, compute_ordering_r. apply ref_assert. intros _. apply ref_bind; [auto with refdb|].
  intros [r|] _; [|done]. apply ref_bind_l. intros rr _. destruct (negb rr.1); [done|].
  apply ref_bind; [auto with refdb|]. intros st Hst. destruct (extract_back _ _ _ _ _ Hst) as [x ->].
  cbn [mbind res_bind]. ref_go.
Qed.
Lemma ref_local_ordering h s d ss : ref (compute_local_ordering h s d ss) (compute_local_ordering_r h s d ss).
Proof.
  unfold compute_local_ordering, compute_local_ordering_r. apply ref_assert. intros _. apply ref_assert. intros ->.
  cbn [negb]. ref_go.
Qed.
Hint Resolve ref_ordering ref_local_ordering : refdb.
Lemma ref_single s d v : ref (solve_single_cell s d v) (solve_single_cell_r s d v).
Proof.
  unfold solve_single_cell, solve_single_cell_r. do 3 ref_step. apply ref_bind; [auto with refdb|]. intros nb _.
  apply ref_bind_l. intros [ut uc0] _. apply ref_bind_l. intros ls _. apply ref_assert. intros _. apply ref_assert. intros _.
  match goal with |- ref (mbind ?k (if ?b then mbind ?f (assert_ ?q) else ?z)) _ => destruct b; [destruct q|] end;
    [done|by intros []|done].
Qed.
Hint Resolve ref_single : refdb.
Lemma ref_gs_cell s st v : ref (gs_cell s st v) (gs_cell_r s st v).
Proof. unfold gs_cell, gs_cell_r. ref_go. Qed.
Hint Resolve ref_gs_cell : refdb.
Lemma ref_gs_loop fuel s cells d dt dc : ref (gs_loop fuel s cells d dt dc) (gs_loop_r fuel s cells d dt dc).
Proof.
  revert d dt dc. induction fuel as [|fuel IH]; intros d dt dc; cbn [gs_loop gs_loop_r];
    (destruct (nltb gs_tof_tol dt || nltb gs_tracer_tol dc); [|done]); [done|].
  apply ref_bind; [apply ref_foldM; auto with refdb|]. intros [[d' dt'] dc'] _. apply IH.
Qed.
Lemma ref_comp fuel s d k : ref (solve_comp fuel s d k) (solve_comp_r fuel s d k).
Proof.
  unfold solve_comp, solve_comp_r. do 2 ref_step.
  match goal with |- context [if ?b then _ else _] => destruct b end; ref_step; [auto with refdb|]. apply ref_gs_loop.
Qed.
Lemma ref_solve fuel s d : ref (solve fuel s d) (solve_r fuel s d).
Proof. unfold solve, solve_r. apply ref_bind; [|done]. apply ref_forZ. intros. apply ref_comp. Qed.
Hint Resolve ref_solve : refdb.
Lemma ref_solve_global h fuel s d : ref (solve_global h fuel s d) (solve_global_r h fuel s d).
Proof. unfold solve_global, solve_global_r. ref_go. Qed.
Lemma ref_solve_local h fuel s d ss : ref (solve_local h fuel s d ss) (solve_local_r h fuel s d ss).
Proof. unfold solve_local, solve_local_r. ref_go. Qed.
Hint Resolve ref_solve_global ref_solve_local : refdb.

(** ** ConnectivityGraph.cpp, Toolbox.cpp *)
Lemma ref_connection g k : ref (cg_connection g k) (cg_connection_r g k).
Proof. unfold cg_connection, cg_connection_r. ref_go. Qed.
Hint Resolve ref_connection : refdb.
Lemma ref_build_step g f st k : ref (build_step g f st k) (build_step_r g f st k).
Proof. unfold build_step, build_step_r. ref_go. Qed.
Lemma ref_build t : ref (tb_build t) (tb_build_r t).
Proof.
  unfold tb_build, tb_build_r. apply ref_bind; [apply ref_forZ; intros; apply ref_build_step|]. intros st _. ref_go.
Qed.
Hint Resolve ref_build : refdb.
Lemma ref_diag_loop ev k s d m sol sets : ref (diag_loop ev k s d m sol sets) (diag_loop_r ev k s d m sol sets).
Proof.
  revert k d m sol. induction sets as [|st sets IH]; intros k d m sol; cbn [diag_loop diag_loop_r]; [done|].
  apply ref_bind; [auto with refdb|]. intros [d' [[tof conc]|e]] _; [|done]. apply IH.
Qed.
Hint Resolve ref_diag_loop : refdb.
Lemma ref_run_diag ev g r pv only m sets : ref (run_diag ev g r pv only m sets) (run_diag_r ev g r pv only m sets).
Proof. unfold run_diag, run_diag_r. ref_go. Qed.
Hint Resolve ref_run_diag : refdb.
Lemma ref_inj_diag ev t sets : ref (tb_inj_diag ev t sets) (tb_inj_diag_r ev t sets).
Proof. unfold tb_inj_diag, tb_inj_diag_r. ref_go. Qed.
Lemma ref_prod_diag ev t sets : ref (tb_prod_diag ev t sets) (tb_prod_diag_r ev t sets).
Proof. unfold tb_prod_diag, tb_prod_diag_r. ref_go. Qed.
Hint Resolve ref_inj_diag ref_prod_diag : refdb.
Lemma ref_tb_step t c : ref (tb_step t c) (tb_step_r t c).
Proof. destruct c; cbn [tb_step tb_step_r]; ref_go. Qed.
Hint Resolve ref_tb_step : refdb.
Lemma ref_tb_run t cs : ref (tb_run t cs) (tb_run_r t cs).
Proof. revert t. induction cs as [|c cs IH]; intros t; cbn [tb_run tb_run_r]; ref_go. Qed.
End num.
