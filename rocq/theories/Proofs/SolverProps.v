(** Properties C24 and C32. *)
From Coq Require Import QArith Qcanon.
From Verif.Model Require Import Base Num OMap Containers AssembledConnections Tarjan TracerTofSolver.
From Verif.Spec Require Import GraphSpec SccSpec TarjanSpec FlowSpec SolverSpec.
From Verif.Proofs Require Import Util OMapFacts AConn GraphProps ExactNum SolverBase SolverRun SolverTop.
Open Scope Z_scope.

Section props.
Context {N : Num}.

Lemma assembled_graph n A g : 0 ≤ n < 2 ^ 31 → arcs_ok n A → assembled n A g → graph_of n A g.
Proof.
  intros Hn HA. unfold assembled. destruct (compress_graph n A Hn HA) as (g' & E & H).
  assert (foldl (λ g (x : arc), ac_add_w g x.1.1 x.1.2 x.2) ac_new A = add_all ac_new (down_conns A)) as ->.
  { unfold add_all, down_conns. generalize (@ac_new N). clear. induction A as [|a A IH]; intros g; [done|]. cbn. apply IH. }
  rewrite E. intros [= <-]. done.
Qed.
Lemma assembled_ex n A : 0 ≤ n < 2 ^ 31 → arcs_ok n A → ∃ g, assembled n A g.
Proof.
  intros Hn HA. destruct (compress_graph n A Hn HA) as (g' & E & H). exists g'. unfold assembled. rewrite <-E. do 2 f_equal.
  clear. unfold add_all, down_conns. generalize (@ac_new N). induction A as [|a A IH]; intros g; [done|]. cbn. apply IH.
Qed.

Lemma new_solver_of n A pv src s d : new_solver n A pv src s d →
  solver_of n A pv src s ∧ zlen (td_local d) = n.
Proof.
  intros [Hn HA Hpv [Hs1 Hs2] (g & rev & Hg & Hr & E)].
  destruct (tts_make_ok n A pv src g rev) as (s' & d' & E' & H1 & H2); try done.
  - by apply assembled_graph.
  - apply assembled_graph; [done|by apply turn_ok|done].
  - rewrite E in E'. injection E' as <- <-. split; [done|]. rewrite H2. apply tab_zlen; lia.
Qed.
Lemma new_solver_ex n A pv src : 0 ≤ n < 2 ^ 31 → arcs_ok n A → zlen pv = n → map_ok src →
  (∀ c, c ∈ map fst src → 0 ≤ c < n) → ∃ s d, new_solver n A pv src s d.
Proof.
  intros Hn HA Hpv Hs1 Hs2. destruct (assembled_ex n A Hn HA) as [g Hg].
  destruct (assembled_ex n (turn A) Hn (turn_ok n A HA)) as [rev Hr].
  destruct (tts_make_ok n A pv src g rev) as (s' & d' & E' & H1 & H2); try done.
  - by apply assembled_graph.
  - apply assembled_graph; [done|by apply turn_ok|done].
  - exists s', d'. split; try done. eauto 10.
Qed.

(** ** C24 *)
Section history.
Context (n : Z) (A : list arc) (pv : list num) (src : cellset_values) (s : tts) (HS : solver_of n A pv src s).

Lemma do_solve_eq c : call_ok n c → ∃ a : res answer, ∀ d, zlen (td_local d) = n →
  ∃ d', zlen (td_local d') = n ∧ do_solve s d c = (r ← a; Ok (d', r)).
Proof.
  destruct c as [h fuel|h fuel ss]; cbn [call_ok do_solve].
  - intros _. exists (r ← global_val n A pv src s h fuel; Ok (match r with inl t => inl (inl t) | inr e => inr e end)).
    intros d _. destruct (solve_global_eq n A pv src s HS h fuel d) as (d' & Hd' & ->). exists d'. split; [done|].
    by destruct (global_val n A pv src s h fuel) as [[]| | | |].
  - intros [Hw Hr]. exists (r ← local_val n A pv src s h fuel ss; Ok (match r with inl t => inl (inr t) | inr e => inr e end)).
    intros d Hd. destruct (solve_local_eq n A pv src s HS h fuel d ss Hd Hw Hr) as (d' & Hd' & ->). exists d'. split; [done|].
    by destruct (local_val n A pv src s h fuel ss) as [[]| | | |].
Qed.

Lemma after_len cs : Forall (call_ok n) cs → ∀ d d', zlen (td_local d) = n → after s d cs = Ok d' → zlen (td_local d') = n.
Proof.
  induction 1 as [|c cs Hc _ IH]; intros d d' Hd; unfold after; cbn [foldM].
  - by intros [= <-].
  - destruct (do_solve_eq c Hc) as (a & Ha). destruct (Ha d Hd) as (d1 & Hd1 & ->).
    destruct a as [x| | | |]; try done. cbn [mbind res_bind fst]. intros H. by eapply IH.
Qed.

Lemma answers_after cs c d d' : Forall (call_ok n) cs → call_ok n c → zlen (td_local d) = n →
  after s d cs = Ok d' → answers s d' c = answers s d c.
Proof.
  intros Hcs Hc Hd H. pose proof (after_len cs Hcs d d' Hd H) as Hd'. unfold answers.
  destruct (do_solve_eq c Hc) as (a & Ha). destruct (Ha d Hd) as (d1 & _ & ->). destruct (Ha d' Hd') as (d2 & _ & ->).
  by destruct a.
Qed.
End history.

Lemma solve_history n A pv src s d cs c d' : new_solver n A pv src s d →
  Forall (call_ok n) cs → call_ok n c → after s d cs = Ok d' → answers s d' c = answers s d c.
Proof. intros [HS Hd]%new_solver_of. intros; by eapply answers_after. Qed.

(** ** C32 *)
Lemma solver_fluxes n A pv src s d v : new_solver n A pv src s d → 0 ≤ v < n →
  ts_influx s !! Z.to_nat v = Some (influx n A v) ∧ ts_outflux s !! Z.to_nat v = Some (outflux n A v).
Proof. intros [HS _]%new_solver_of Hv. rewrite (so_in _ _ _ _ _ HS), (so_out _ _ _ _ _ HS), !tab_lookup_Z by done. done. Qed.
End props.

(** Sums of sums in exact arithmetic. *)
Lemma sum_left_bind {X} (f : X → list (@num exact)) (l : list X) :
  @sum_left exact (map (λ x, sum_left (f x)) l) = sum_left (l ≫= f).
Proof.
  unfold sum_left. rewrite exact_n0. cbn [num nadd exact].
  assert (∀ a : xq, foldl xadd a (map (λ x, foldl xadd (Fin 0%Qc) (f x)) l) = foldl xadd a (l ≫= f)) as H; [|apply H].
  induction l as [|x l IH]; intros a; [done|]. cbn [map foldl mbind list_bind]. rewrite foldl_app, <-IH. f_equal.
  rewrite <-foldl_xadd. by rewrite xadd_0_r.
Qed.

Lemma bind_nodup {X Y} (f : X → list Y) (l : list X) : NoDup l → (∀ x, x ∈ l → NoDup (f x)) →
  (∀ x y z, x ∈ l → y ∈ l → z ∈ f x → z ∈ f y → x = y) → NoDup (l ≫= f).
Proof.
  induction 1 as [|x l Hx Hl IH]; intros Hf Hd; cbn; [constructor|]. apply NoDup_app. split_and!.
  - apply Hf; left.
  - intros z Hz (y & Hz' & Hy)%elem_of_list_bind. assert (x = y); [|congruence].
    eapply Hd; [left|right; done|done|done].
  - apply IH; [intros; apply Hf; by right|]. intros; eapply Hd; eauto; by right.
Qed.

Lemma total_influx_outflux n (A : list (@arc exact)) :
  @sum_left exact (map (influx n A) (seqZ 0 n)) = sum_left (map (outflux n A) (seqZ 0 n)).
Proof.
  unfold influx, outflux.
  rewrite (sum_left_bind (λ v, map (λ u, arc_flux A u v) (upstream n A v)) (seqZ 0 n)).
  rewrite (sum_left_bind (λ u, map (λ v, arc_flux A u v) (downstream n A u)) (seqZ 0 n)).
  apply sum_left_perm.
  set (P1 := seqZ 0 n ≫= λ v, map (λ u, (u, v)) (upstream n A v)).
  set (P2 := seqZ 0 n ≫= λ u, map (λ v, (u, v)) (downstream n A u)).
  assert ((seqZ 0 n ≫= λ v, map (λ u, arc_flux A u v) (upstream n A v)) = map (λ e : Z * Z, arc_flux A e.1 e.2) P1) as ->.
  { unfold P1. induction (seqZ 0 n) as [|x l IH]; [done|]. cbn [mbind list_bind]. rewrite map_app, map_map. by rewrite <-IH. }
  assert ((seqZ 0 n ≫= λ u, map (λ v, arc_flux A u v) (downstream n A u)) = map (λ e : Z * Z, arc_flux A e.1 e.2) P2) as ->.
  { unfold P2. induction (seqZ 0 n) as [|x l IH]; [done|]. cbn [mbind list_bind]. rewrite map_app, map_map. by rewrite <-IH. }
  apply Permutation_map. apply NoDup_Permutation.
  - apply bind_nodup.
    + apply NoDup_seqZ.
    + intros v _. apply NoDup_fmap_2; [intros a b [= ->]; done|]. apply NoDup_filter, NoDup_seqZ.
    + intros a b [c e] _ _ (u & [= -> ->] & _)%elem_of_list_fmap (u' & [= -> ->] & _)%elem_of_list_fmap. done.
  - apply bind_nodup.
    + apply NoDup_seqZ.
    + intros v _. apply NoDup_fmap_2; [intros a b [= ->]; done|]. apply NoDup_filter, NoDup_seqZ.
    + intros a b [c e] _ _ (u & [= -> ->] & _)%elem_of_list_fmap (u' & [= -> ->] & _)%elem_of_list_fmap. done.
  - intros [u v]. unfold P1, P2. rewrite !elem_of_list_bind. split.
    + intros (x & (y & [= -> ->] & Hy%upstream_elem)%elem_of_list_fmap & Hx). exists y.
      rewrite elem_of_seqZ. split; [|lia]. apply elem_of_list_fmap. exists x. split; [done|]. apply downstream_elem.
      rewrite elem_of_seqZ in Hx. split; [tauto|lia].
    + intros (x & (y & [= -> ->] & Hy%downstream_elem)%elem_of_list_fmap & Hx). exists y.
      rewrite elem_of_seqZ. split; [|lia]. apply elem_of_list_fmap. exists x. split; [done|]. apply upstream_elem.
      rewrite elem_of_seqZ in Hx. split; [tauto|lia].
Qed.
