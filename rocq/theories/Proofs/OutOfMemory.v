(** Running out of memory in the toolbox and in graphs under assembly. *)
From Verif.Model Require Import Base Num OMap Containers Solution AssembledConnections TracerTofSolver Toolbox OutOfMemory.
From Verif.Spec Require Import GraphSpec ToolboxSpec DefinedSpec OutOfMemorySpec.
From Verif.Proofs Require Import Util OMapFacts AConn ToolboxState ToolboxRates ToolboxFlow Defined.
Open Scope Z_scope.

Section oom.
Context {N : Num}.

Lemma last_omap_snoc {X Y} (h : X → option Y) cs c :
  last (omap h (cs ++ [c])) = upd (last (omap h cs)) (h c).
Proof.
  rewrite omap_app'. cbn. destruct (h c) as [y|]; cbn.
  - by rewrite last_snoc.
  - by rewrite app_nil_r.
Qed.

Lemma m_run_snoc t cs c : m_run t (cs ++ [c]) = (r ← m_run t cs; r' ← m_step r.1 c; Ok (r'.1, r.2 ++ [r'.2])).
Proof.
  revert t. induction cs as [|c0 cs IH]; intros t; cbn [app m_run].
  - cbn. destruct (m_step t c) as [[]| | | |]; done.
  - destruct (m_step t c0) as [[t1 o]| | | |]; try done. cbn [mbind res_bind fst snd]. rewrite IH.
    destruct (m_run t1 cs) as [[]| | | |]; try done. cbn [mbind res_bind fst snd].
    destruct (m_step t0 c) as [[]| | | |]; done.
Qed.

Lemma m_run_length t cs t' os : m_run t cs = Ok (t', os) → length os = length cs.
Proof.
  revert t os. induction cs as [|c cs IH]; intros t os H; cbn [m_run] in H.
  - by injection H as <- <-.
  - apply bind_Ok in H as ([t1 o] & _ & H). apply bind_Ok in H as ([t2 os2] & E2 & H). injection H as <- <-.
    cbn. f_equal. by eapply IH.
Qed.

Lemma enough_snoc cs c : enough (cs ++ [c]) = enough cs ++ enough [c].
Proof. apply omap_app'. Qed.
Lemma enough_obs_snoc cs c os o : length os = length cs →
  enough_obs (cs ++ [c]) (os ++ [o]) = enough_obs cs os ++ enough_obs [c] [o].
Proof.
  intros H. unfold enough_obs. rewrite zip_with_app by done. apply omap_app'.
Qed.

(** ** Computations that run out of memory *)
Definition dir_of (inj : bool) : direction := if inj then Injection else Production.

Lemma built_same t t' gr : same_inputs t t' → built_of (tb_g t) (tb_flux t) = Ok (inl gr) →
  tb_down t' = gr.1 → tb_up t' = gr.2 → consistent t'.
Proof. intros (Eg & _ & Ef & _) Hb Hd Hu _. rewrite <-Eg, <-Ef, Hb, Hd, Hu. by destruct gr. Qed.

Lemma diag_fail_step inj w t sets t' o : consistent t → tb_diag_fail inj w t sets = Ok (t', o) →
  consistent t' ∧ same_inputs t t'.
Proof.
  intros Hc. unfold tb_diag_fail. fold (unset (tb_pvol t) (tb_flux t)).
  destruct (unset _ _); [by intros [= <- <-]|]. destruct (negb _); [by intros [= <- <-]|].
  destruct w as [k dn up|ev].
  - destruct (tb_built t) eqn:Hb; [by intros [= <- <-]|]. unfold tb_build_fail. intros H.
    apply bind_Ok in H as (t1 & H1 & [= <- <-]). apply bind_Ok in H1 as (st & _ & [= <-]).
    split; [intros Hb'; cbn in Hb'; congruence|done].
  - intros H. apply bind_Ok in H as ([t1 [e|]] & H1 & H).
    + injection H as <- <-. destruct (tb_built t) eqn:Hb; [done|].
      destruct (built_of (tb_g t) (tb_flux t)) as [[gr|e']| | | |] eqn:Eb.
      * destruct (proj1 (tb_build_eq t) _ Eb) as (t2 & E2 & _). by rewrite E2 in H1.
      * destruct (proj1 (proj2 (tb_build_eq t)) _ Eb) as (t2 & E2 & Hs & Hb2). rewrite E2 in H1. injection H1 as -> ->.
        split; [intros Hb'; congruence|done].
      * exfalso. assert (∀ x, built_of (tb_g t) (tb_flux t) ≠ Ok x) as Hne by (by rewrite Eb).
        pose proof (proj2 (proj2 (tb_build_eq t)) Hne _ (λ b, Ok b) (λ _, UB)) as H. rewrite H1, Eb in H. done.
      * exfalso. assert (∀ x, built_of (tb_g t) (tb_flux t) ≠ Ok x) as Hne by (by rewrite Eb).
        pose proof (proj2 (proj2 (tb_build_eq t)) Hne _ (λ b, Ok b) (λ _, UB)) as H. rewrite H1, Eb in H. done.
      * exfalso. assert (∀ x, built_of (tb_g t) (tb_flux t) ≠ Ok x) as Hne by (by rewrite Eb).
        pose proof (proj2 (proj2 (tb_build_eq t)) Hne _ (λ b, Ok b) (λ _, UB)) as H. rewrite H1, Eb in H. done.
      * exfalso. assert (∀ x, built_of (tb_g t) (tb_flux t) ≠ Ok x) as Hne by (by rewrite Eb).
        pose proof (proj2 (proj2 (tb_build_eq t)) Hne _ (λ b, Ok b) (λ _, UB)) as H. rewrite H1, Eb in H. done.
    + apply bind_Ok in H as (u & _ & H). injection H as <- <-.
      destruct (tb_built t) eqn:Hb; [by injection H1 as <-|].
      destruct (built_of (tb_g t) (tb_flux t)) as [[gr|e']| | | |] eqn:Eb.
      * destruct (proj1 (tb_build_eq t) _ Eb) as (t2 & E2 & Hs & Hd & Hu & _). rewrite E2 in H1. injection H1 as ->.
        split; [|done]. by eapply built_same.
      * destruct (proj1 (proj2 (tb_build_eq t)) _ Eb) as (t2 & E2 & _). by rewrite E2 in H1.
      * exfalso. assert (∀ x, built_of (tb_g t) (tb_flux t) ≠ Ok x) as Hne by (by rewrite Eb).
        pose proof (proj2 (proj2 (tb_build_eq t)) Hne _ (λ b, Ok b) (λ _, UB)) as H. rewrite H1, Eb in H. done.
      * exfalso. assert (∀ x, built_of (tb_g t) (tb_flux t) ≠ Ok x) as Hne by (by rewrite Eb).
        pose proof (proj2 (proj2 (tb_build_eq t)) Hne _ (λ b, Ok b) (λ _, UB)) as H. rewrite H1, Eb in H. done.
      * exfalso. assert (∀ x, built_of (tb_g t) (tb_flux t) ≠ Ok x) as Hne by (by rewrite Eb).
        pose proof (proj2 (proj2 (tb_build_eq t)) Hne _ (λ b, Ok b) (λ _, UB)) as H. rewrite H1, Eb in H. done.
      * exfalso. assert (∀ x, built_of (tb_g t) (tb_flux t) ≠ Ok x) as Hne by (by rewrite Eb).
        pose proof (proj2 (proj2 (tb_build_eq t)) Hne _ (λ b, Ok b) (λ _, UB)) as H. rewrite H1, Eb in H. done.
Qed.

(** ** Programs *)
Record sim (g : cgraph) (cs : list mcall) (t t' : toolbox) : Prop := {
  si_track : tracks g (last (omap (accepted_pv g) (enough cs))) (last (omap (accepted_flux g) (enough cs)))
               (last (omap accepted_rates (enough cs))) t';
  si_g : tb_g t = g;
  si_pv : last (omap (tried_pv g) cs) ≠ Some false → tb_pvol t = tb_pvol t';
  si_flux : last (omap (tried_flux g) cs) ≠ Some false → tb_flux t = tb_flux t' ∧ consistent t;
  si_rates : last (omap tried_rates cs) ≠ Some false → rates_of t = rates_of t'
}.

Lemma sim_new g : sim g [] (tb_new g) (tb_new g).
Proof. by split. Qed.

Lemma track_snoc g cs c t' t1' o : tracks g (last (omap (accepted_pv g) (enough cs))) (last (omap (accepted_flux g) (enough cs)))
    (last (omap accepted_rates (enough cs))) t' → tb_step t' c = Ok (t1', o) →
  tracks g (last (omap (accepted_pv g) (enough (cs ++ [Enough c])))) (last (omap (accepted_flux g) (enough (cs ++ [Enough c]))))
    (last (omap accepted_rates (enough (cs ++ [Enough c])))) t1'.
Proof.
  intros Ht Hs. rewrite enough_snoc. change (enough [Enough c]) with [c]. rewrite !last_omap_snoc. by eapply step_tracks.
Qed.

Lemma sim_step g cs t t' c t1 o : sim g cs t t' → (∀ d, computes d c → intact g cs) → m_step t c = Ok (t1, o) →
  ∃ t1', tb_run t' (enough [c]) = Ok (t1', enough_obs [c] [o]) ∧ sim g (cs ++ [c]) t1 t1'.
Proof.
  intros [Ht Hg Hpv Hfl Hr] Hin Hs. pose proof (tr_cons _ _ _ _ _ Ht) as Hc'. pose proof (tr_g _ _ _ _ _ Ht) as Hg'. subst g.
  destruct c as [c|pv b|f b|m k|w sets|w sets].
  - cbn [m_step] in Hs. apply bind_Ok in Hs as ([t2 o2] & E & [= <- <-]).
    enough (∃ t1', tb_step t' c = Ok (t1', o2) ∧ sim (tb_g t) (cs ++ [Enough c]) t2 t1') as (t1' & E' & Hsim).
    { exists t1'. split; [|done]. cbn. by rewrite E'. }
    assert (∀ d ev sets, c = compute d ev sets → ∃ t1', tb_step t' c = Ok (t1', o2) ∧ sim (tb_g t) (cs ++ [Enough c]) t2 t1') as Hcomp.
    { intros d ev sets ->. destruct (Hin d) as (I1 & I2 & I3); [by destruct d|].
      specialize (Hpv I1). specialize (Hr I3). destruct (Hfl I2) as [Hf Hcons].
      destruct (compute_step t d ev sets Hcons) as [Ho Hst]. destruct (compute_step t' d ev sets Hc') as [Ho' Hst'].
      rewrite E in Ho. rewrite Hpv, Hf, Hr, <-Hg' in Ho. rewrite <-Ho in Ho'.
      destruct (tb_step t' (compute d ev sets)) as [[t1' o1']| | | |] eqn:E'; try done. cbn in Ho'. injection Ho' as ->.
      exists t1'. split; [done|]. destruct (Hst _ _ E) as (C1 & S1 & S2 & S3 & S4). destruct (Hst' _ _ eq_refl) as (C2 & S1' & S2' & S3' & S4').
      split; [by eapply track_snoc|congruence|intros _; congruence|intros _; split; [congruence|done]|intros _; congruence]. }
    destruct c as [pv|f|m|ev sets|ev sets].
    + cbn in E. unfold tb_assign_pv in E. cbn [tb_step]. unfold tb_assign_pv. rewrite Hg'. 
      destruct (Z.eqb_spec (zlen pv) (cg_num_cells (tb_g t))) as [Ez|Ez]; cbn in E; injection E as <- <-; cbn; eexists; (split; [done|]).
      * split; [eapply (track_snoc (tb_g t) cs (CPoreVolume pv) t'); [done|]; cbn; unfold tb_assign_pv; by rewrite Hg', (proj2 (Z.eqb_eq _ _) Ez)|done|done|..].
        { rewrite last_omap_snoc. exact Hfl. }
        { rewrite last_omap_snoc. exact Hr. }
      * split; [eapply (track_snoc (tb_g t) cs (CPoreVolume pv) t'); [done|]; cbn; unfold tb_assign_pv; by rewrite Hg', (proj2 (Z.eqb_neq _ _) Ez)|done|..];
          rewrite last_omap_snoc; [|done..]. cbn. by rewrite decide_False.
    + cbn in E. unfold tb_assign_flux in E. cbn [tb_step]. unfold tb_assign_flux. rewrite Hg'. 
      destruct (Z.eqb_spec (cv_num_connections f) (cg_num_connections (tb_g t))) as [Ez|Ez]; cbn in E; injection E as <- <-; cbn; eexists; (split; [done|]).
      * split; [eapply (track_snoc (tb_g t) cs (CFlux f) t'); [done|]; cbn; unfold tb_assign_flux; by rewrite Hg', (proj2 (Z.eqb_eq _ _) Ez)|done|..].
        { rewrite last_omap_snoc. exact Hpv. }
        { intros _. by split. }
        { rewrite last_omap_snoc. exact Hr. }
      * split; [eapply (track_snoc (tb_g t) cs (CFlux f) t'); [done|]; cbn; unfold tb_assign_flux; by rewrite Hg', (proj2 (Z.eqb_neq _ _) Ez)|done|..];
          rewrite last_omap_snoc; [done| |done]. cbn. by rewrite decide_False.
    + cbn in E. injection E as <- <-. eexists; (split; [done|]).
      split; [by eapply (track_snoc (tb_g t) cs (CInflow m) t')|done|..].
      { rewrite last_omap_snoc. exact Hpv. }
      { rewrite last_omap_snoc. exact Hfl. }
      { done. }
    + by apply (Hcomp Injection ev sets).
    + by apply (Hcomp Production ev sets).
  - exists t'. split; [done|]. cbn in Hs. unfold tb_assign_pv_fail in Hs.
    assert (enough (cs ++ [FailPoreVolume pv b]) = enough cs) as He by (rewrite enough_snoc; apply app_nil_r).
    destruct (Z.eqb_spec (zlen pv) (cg_num_cells (tb_g t))) as [Ez|Ez]; cbn in Hs; injection Hs as <- <-;
      (split; [by rewrite He|done|..]); rewrite last_omap_snoc; cbn; try done.
    + by rewrite decide_True.
    + by rewrite decide_False.
  - exists t'. split; [done|]. cbn in Hs. unfold tb_assign_flux_fail in Hs.
    assert (enough (cs ++ [FailFlux f b]) = enough cs) as He by (rewrite enough_snoc; apply app_nil_r).
    destruct (Z.eqb_spec (cv_num_connections f) (cg_num_connections (tb_g t))) as [Ez|Ez]; cbn in Hs; injection Hs as <- <-;
      (split; [by rewrite He|done|..]); rewrite last_omap_snoc; cbn; try done.
    + by rewrite decide_True.
    + by rewrite decide_False.
  - exists t'. split; [by cbn; destruct o|]. cbn in Hs. injection Hs as <- <-.
    assert (enough (cs ++ [FailInflow m k]) = enough cs) as He by (rewrite enough_snoc; apply app_nil_r).
    split; [by rewrite He|done|..]; rewrite last_omap_snoc; cbn; done.
  - exists t'. split; [done|]. cbn [m_step] in Hs. apply bind_Ok in Hs as ([t2 o2] & E & [= <- <-]).
    destruct (Hin Injection) as (I1 & I2 & I3); [done|]. specialize (Hpv I1). specialize (Hr I3). destruct (Hfl I2) as [Hf Hcons].
    assert (enough (cs ++ [FailInject w sets]) = enough cs) as He by (rewrite enough_snoc; apply app_nil_r).
    destruct (diag_fail_step _ _ _ _ _ _ Hcons E) as (C1 & S1 & S2 & S3 & S4).
    split; [by rewrite He|cbn; congruence|intros _; cbn; congruence|intros _; cbn; split; [congruence|done]|intros _; cbn; congruence].
  - exists t'. split; [done|]. cbn [m_step] in Hs. apply bind_Ok in Hs as ([t2 o2] & E & [= <- <-]).
    destruct (Hin Production) as (I1 & I2 & I3); [done|]. specialize (Hpv I1). specialize (Hr I3). destruct (Hfl I2) as [Hf Hcons].
    assert (enough (cs ++ [FailProduce w sets]) = enough cs) as He by (rewrite enough_snoc; apply app_nil_r).
    destruct (diag_fail_step _ _ _ _ _ _ Hcons E) as (C1 & S1 & S2 & S3 & S4).
    split; [by rewrite He|cbn; congruence|intros _; cbn; congruence|intros _; cbn; split; [congruence|done]|intros _; cbn; congruence].
Qed.

Lemma repaired_snoc g cs c : repaired g (cs ++ [c]) → repaired g cs ∧ ∀ d, computes d c → intact g cs.
Proof.
  intros H. split.
  - intros cs1 d c1 cs2 -> Hc. apply (H cs1 d c1 (cs2 ++ [c])); [by rewrite <-app_assoc|done].
  - intros d Hc. by apply (H cs d c []).
Qed.

Lemma sim_run g cs t os : repaired g cs → m_run (tb_new g) cs = Ok (t, os) →
  ∃ t', tb_run (tb_new g) (enough cs) = Ok (t', enough_obs cs os) ∧ sim g cs t t'.
Proof.
  revert t os. induction cs as [|c cs IH] using rev_ind; intros t os Hrep H.
  - injection H as <- <-. exists (tb_new g). split; [done|apply sim_new].
  - apply repaired_snoc in Hrep as [Hrep Hc]. rewrite m_run_snoc in H.
    apply bind_Ok in H as ([t1 os1] & E1 & H). apply bind_Ok in H as ([t2 o] & E2 & H). injection H as <- <-. cbn [fst snd] in *.
    destruct (IH _ _ Hrep E1) as (t1' & R1 & S1). destruct (sim_step _ _ _ _ _ _ _ S1 Hc E2) as (t2' & R2 & S2).
    exists t2'. split; [|done]. rewrite enough_snoc, run_app, R1. cbn [mbind res_bind fst snd]. rewrite R2.
    cbn [mbind res_bind fst snd]. rewrite enough_obs_snoc; [done|]. by eapply m_run_length.
Qed.

(** As if the calls without enough memory had not been made. *)
Lemma repaired_run g cs t os : repaired g cs → m_run (tb_new g) cs = Ok (t, os) →
  (∃ t', tb_run (tb_new g) (enough cs) = Ok (t', enough_obs cs os)) ∧
  (intact g cs → ∀ d ev sets, m_returns g cs (compute d ev sets) = returns g (enough cs) (compute d ev sets)).
Proof.
  intros Hrep H. destruct (sim_run _ _ _ _ Hrep H) as (t' & R & [Ht Hg Hpv Hfl Hr]). split; [eauto|].
  intros (I1 & I2 & I3) d ev sets. specialize (Hpv I1). specialize (Hr I3). destruct (Hfl I2) as [Hf Hcons].
  unfold m_returns, returns. rewrite H, R. cbn [mbind res_bind fst].
  rewrite (proj1 (compute_step t d ev sets Hcons)), (proj1 (compute_step t' d ev sets (tr_cons _ _ _ _ _ Ht))).
  by rewrite Hg, Hpv, Hf, Hr, (tr_g _ _ _ _ _ Ht).
Qed.

(** ** Defined behaviour *)
Lemma forZ_prefix {S} (f : S → Z → res S) a b s x : a ≤ b → forZ 0 b f s = Ok x → ∃ y, forZ 0 a f s = Ok y.
Proof.
  intros Hab. unfold forZ. destruct (decide (0 ≤ a)) as [Ha|Ha].
  - replace (b - 0) with (a + (b - a)) by lia. rewrite seqZ_app by lia. rewrite foldM_app.
    replace (a - 0) with a by lia. intros (y & E & _)%bind_Ok. eauto.
  - intros _. exists s. rewrite seqZ_nil by lia. done.
Qed.

Lemma enough_ok cs : Forall mcall_ok cs → Forall call_ok (enough cs).
Proof.
  induction 1 as [|c cs Hc _ IH]; [constructor|]. unfold enough. cbn. destruct c; try done. constructor; done.
Qed.

Lemma diag_fail_defined inj w t sets m : consistent t → graph_ok (tb_g t) → (tb_pvol t = [] ∨ zlen (tb_pvol t) = cg_num_cells (tb_g t)) →
  (cv_num_connections (tb_flux t) = 0 ∨ flux_ok (tb_flux t) ∧ cv_num_connections (tb_flux t) = cg_num_connections (tb_g t)) →
  rates_of t = split_rates m → rates_ok m → wells_within (dir_of inj) (tb_g t) m →
  match w with AtSolve ev => alloc_ok ev | _ => True end →
  defined (tb_diag_fail inj w t sets).
Proof.
  intros Hc Hg Hpv Hf Hr Hm Hw Ha.
  pose proof (λ ev Hev, obs_defined (dir_of inj) ev (tb_g t) (tb_pvol t) (tb_flux t) m sets Hg Hpv Hf Hm Hev Hw) as Hobs.
  unfold tb_diag_fail. unfold diag_obs in Hobs. fold (unset (tb_pvol t) (tb_flux t)). rewrite <-Hr in Hobs.
  destruct (unset _ _) eqn:Hu; [done|]. apply unset_false in Hu as [Hu1 Hu2].
  destruct Hpv as [|Hpv]; [done|]. destruct Hf as [|[Hf Hcn]]; [done|].
  assert ((if inj then start_sets_ok (tb_inj t) (tb_in t) sets else start_sets_ok (tb_prod t) (tb_out t) sets) =
    start_sets_ok (by_id (dir_of inj) (rates_of t)) (only (dir_of inj) (rates_of t)) sets) as -> by (by destruct inj).
  destruct (start_sets_ok _ _ sets) eqn:Hs; [cbn [negb] in *|done].
  pose proof (held_poses (tb_g t) (tb_flux t) Hg Hf Hcn (tb_pvol t) (side (dir_of inj) m)) as HP.
  assert (valid (held (tb_g t) (tb_flux t) (tb_pvol t) (side (dir_of inj) m))) as Hp.
  { apply held_valid; try done; [by apply side_ok|]. by apply side_wells. }
  destruct (built_ok _ _ _ Hp HP) as (dn0 & up0 & Eb & _).
  destruct w as [k dn up|ev].
  - destruct (tb_built t); [done|]. unfold tb_build_fail. unfold built_of in Eb. apply bind_Ok in Eb as (st & Est & _).
    destruct (forZ_prefix _ (Z.min (Z.of_nat k) (cg_num_connections (tb_g t))) _ _ _ (Z.le_min_r _ _) Est) as [y Ey].
    rewrite Ey. done.
  - specialize (Hobs ev Ha). rewrite Eb in Hobs. cbn [mbind res_bind] in Hobs.
    destruct (get_built t _ Hc Eb) as (t1 & E1 & Hsame & Hd & Hup & Hb1). rewrite E1. cbn [mbind res_bind].
    destruct Hsame as (_ & S2 & _ & S4). rewrite <-S2, Hd, Hup.
    assert (∀ r : res (flux_map * (solution + exn)), defined (x ← r; Ok (obs_of_sum x.2)) → defined (_ ← solve_fail r; Ok (t1, @None exn))) as Hfin.
    { intros r. by destruct r. }
    destruct inj; apply Hfin; [pose proof (f_equal r_in S4) as E2; pose proof (f_equal r_inj S4) as E3|pose proof (f_equal r_out S4) as E2; pose proof (f_equal r_prod S4) as E3];
      cbn in E2, E3; rewrite <-E2, <-E3; exact Hobs.
Qed.

Lemma sim_defined g cs t t' c : graph_ok g → Forall mcall_ok cs → mcall_ok c → sim g cs t t' →
  (∀ d, computes d c → intact g cs ∧ wells_within d g (rates_after (enough cs))) → defined (m_step t c).
Proof.
  intros Hg HF Hok [[Hc' Hg' Hpv' Hf' Hr'] Hgt Hpv Hfl Hr] Hcw. apply enough_ok in HF.
  pose proof (last_pv g (enough cs)) as Lpv. pose proof (last_flux g (enough cs) HF) as Lfl. cbn zeta in Lfl.
  pose proof (last_rates (enough cs) HF) as Lr.
  rewrite <-Hpv' in Lpv. rewrite <-Hf' in Lfl. fold (rates_after (enough cs)) in Hr'.
  subst g. destruct c as [c|pv b|f b|m k|w sets|w sets].
  - cbn [m_step]. apply bind_defined; [|done]. eapply step_defined; [done|]. intros d ev sets ->.
    destruct (Hcw d) as [(I1 & I2 & I3) Hw]; [by destruct d|]. specialize (Hpv I1). specialize (Hr I3). destruct (Hfl I2) as [Hf Hcons].
    rewrite (proj1 (compute_step t d ev sets Hcons)), Hgt, Hpv, Hf, Hr, Hr'.
    apply obs_defined; try done. by destruct d.
  - cbn. by destruct (tb_assign_pv_fail t pv b).
  - cbn. by destruct (tb_assign_flux_fail t f b).
  - done.
  - cbn [m_step]. apply bind_defined; [|done].
    destruct (Hcw Injection) as [(I1 & I2 & I3) Hw]; [done|]. specialize (Hpv I1). specialize (Hr I3). destruct (Hfl I2) as [Hf Hcons].
    apply (diag_fail_defined true w t sets (rates_after (enough cs))); rewrite ?Hgt, ?Hpv, ?Hf; try done; by rewrite Hr.
  - cbn [m_step]. apply bind_defined; [|done].
    destruct (Hcw Production) as [(I1 & I2 & I3) Hw]; [done|]. specialize (Hpv I1). specialize (Hr I3). destruct (Hfl I2) as [Hf Hcons].
    apply (diag_fail_defined false w t sets (rates_after (enough cs))); rewrite ?Hgt, ?Hpv, ?Hf; try done; by rewrite Hr.
Qed.

Lemma m_program_defined g cs : graph_ok g → Forall mcall_ok cs → repaired g cs → wells_within_enough g cs →
  defined (m_run (tb_new g) cs).
Proof.
  intros Hg. induction cs as [|c cs IH] using rev_ind; intros HF Hrep Hw; [done|].
  apply Forall_app in HF as [HF Hc]. apply Forall_cons in Hc as [Hc _].
  pose proof Hrep as Hrep'. apply repaired_snoc in Hrep as [Hrep Hin].
  assert (wells_within_enough g cs) as Hw'.
  { intros cs1 d c1 cs2 -> H. apply (Hw cs1 d c1 (cs2 ++ [c])); [by rewrite <-app_assoc|done]. }
  specialize (IH HF Hrep Hw'). rewrite m_run_snoc.
  destruct (m_run (tb_new g) cs) as [[t os]| | | |] eqn:E; try done. cbn [mbind res_bind fst snd].
  apply bind_defined; [|done]. destruct (sim_run _ _ _ _ Hrep E) as (t' & _ & Hs).
  eapply sim_defined; try done. intros d Hd. split; [by eapply Hin|]. by apply (Hw cs d c []).
Qed.

(** ** Fluxes *)
(** Nothing is built before fluxes have been accepted. *)
Lemma step_unbuilt g t c t' o : tb_g t = g → cv_num_connections (tb_flux t) = 0 → tb_built t = false → accepted_flux g c = None →
  tb_step t c = Ok (t', o) → tb_g t' = g ∧ tb_flux t' = tb_flux t ∧ tb_built t' = false.
Proof.
  intros Hg Hz Hb Hacc. destruct c as [pv|f|m|ev sets|ev sets]; cbn [tb_step].
  - unfold tb_assign_pv. destruct (negb _); cbn; by intros [= <- <-].
  - cbn in Hacc. case_decide as Hd; [done|]. unfold tb_assign_flux. rewrite Hg, (proj2 (Z.eqb_neq _ _) Hd). cbn. by intros [= <- <-].
  - by intros [= <- <-].
  - unfold tb_inj_diag. rewrite Hz, orb_true_r. cbn. by intros [= <- <-].
  - unfold tb_prod_diag. rewrite Hz, orb_true_r. cbn. by intros [= <- <-].
Qed.
Lemma run_unbuilt g t cs t' os : tb_g t = g → cv_num_connections (tb_flux t) = 0 → tb_built t = false →
  last (omap (accepted_flux g) cs) = None → tb_run t cs = Ok (t', os) →
  tb_g t' = g ∧ tb_flux t' = tb_flux t ∧ tb_built t' = false.
Proof.
  revert t os. induction cs as [|c cs IH]; intros t os Hg Hz Hb Hn H.
  - by injection H as <- <-.
  - cbn [tb_run] in H. apply bind_Ok in H as ([t1 o] & E1 & H). apply bind_Ok in H as ([t2 os2] & E2 & H). injection H as <- <-.
    cbn [fst snd] in *. assert (accepted_flux g c = None ∧ last (omap (accepted_flux g) cs) = None) as [Ha Hl].
    { cbn in Hn. destruct (accepted_flux g c) as [y|]; [|done]. rewrite last_cons in Hn. by destruct (last (omap (accepted_flux g) cs)). }
    destruct (step_unbuilt _ _ _ _ _ Hg Hz Hb Ha E1) as (G1 & F1 & B1).
    destruct (IH t1 os2) as (G2 & F2 & B2); try done; [by rewrite F1|]. by rewrite F2.
Qed.

Lemma m_run_enough t cs : m_run t (map Enough cs) = (r ← tb_run t cs; Ok (r.1, map Seen r.2)).
Proof.
  revert t. induction cs as [|c cs IH]; intros t; [done|]. cbn [map m_run m_step tb_run].
  destruct (tb_step t c) as [[t1 o]| | | |]; try done. cbn [mbind res_bind fst snd]. rewrite IH.
  by destruct (tb_run t1 cs) as [[]| | | |].
Qed.

(** The first fluxes cannot be stored: the next computation reads them out of bounds. *)
Lemma flux_fail_UB g cs t os f b d ev sets pv : graph_ok g → Forall call_ok cs → tb_run (tb_new g) cs = Ok (t, os) →
  last (omap (accepted_flux g) cs) = None → last (omap (accepted_pv g) cs) = Some pv → pv ≠ [] →
  cv_num_connections f = cg_num_connections g → 0 < cv_num_connections f → 0 < cv_num_phases f →
  (∀ st, st ∈ sets → is_well d (rates_after cs) (cs_id st) ∧ ∀ c, c ∈ cs_cells st → ∃ id x, well_rate d (rates_after cs) id c = Some x) →
  m_returns g (map Enough cs ++ [FailFlux f b]) (compute d ev sets) = UB.
Proof.
  intros Hg HF Hrun Hnf Hpv Hne Hsz Hc Hp Hsets.
  pose proof (run_tracks _ _ _ _ _ _ _ _ (new_tracks g) Hrun) as Ht. rewrite !upd_none in Ht.
  destruct (run_unbuilt g (tb_new g) cs t os eq_refl eq_refl eq_refl Hnf Hrun) as (Eg & Ef & Eb).
  unfold m_returns. rewrite m_run_snoc, m_run_enough, Hrun. cbn [mbind res_bind fst snd m_step].
  unfold tb_assign_flux_fail. rewrite Eg, (proj2 (Z.eqb_eq _ _) Hsz). cbn [negb fst snd obs_fail mbind res_bind].
  rewrite Eb, Ef.
  match goal with |- (_ ← tb_step ?x _; _) = _ => set (t1 := x) end.
  assert (consistent t1) as Hc1 by done.
  rewrite (proj1 (compute_step t1 d ev sets Hc1)). unfold diag_obs.
  assert (rates_of t1 = split_rates (rates_after cs)) as -> by exact (tr_rates _ _ _ _ _ Ht).
  assert (tb_pvol t1 = pv) as ->. { change (tb_pvol t = pv). rewrite (tr_pv _ _ _ _ _ Ht), Hpv. done. }
  assert (unset pv (tb_flux t1) = false) as ->.
  { unfold unset. apply orb_false_iff. split; [by destruct pv|]. apply Z.eqb_neq. unfold cv_num_connections in *. cbn. lia. }
  rewrite (proj2 (start_sets_iff d _ sets (last_rates cs HF)) Hsets). cbn [negb].
  unfold built_of.
  enough (forZ 0 (cg_num_connections (tb_g t1)) (build_step (tb_g t1) (tb_flux t1)) (ac_new, ac_new) = UB) as -> by done.
  change (tb_g t1) with g. unfold forZ. rewrite seqZ_cons by lia. cbn [foldM].
  enough (build_step g (tb_flux t1) (ac_new, ac_new) 0 = UB) as -> by done.
  destruct (gr_ends _ Hg 0) as (x & y & Exy & _); [lia|]. unfold build_step. rewrite Exy. cbn [mbind res_bind].
  enough (conn_flux (tb_flux t1) 0 = UB) as -> by done.
  unfold conn_flux, forZ. change (cv_num_phases (tb_flux t1)) with (cv_num_phases f). rewrite seqZ_cons by lia. cbn [foldM].
  enough (cv_get (tb_flux t1) 0 0 = UB) as -> by done.
  unfold cv_get. subst t1. cbn. destruct b; cbn; unfold cv_num_connections, cv_num_phases in *.
  all: rewrite (proj2 (Z.leb_gt _ _)) by lia; rewrite (proj2 (Z.leb_gt _ _)) by lia; done.
Qed.

(** Once the graphs are built, fluxes that could not be stored go unnoticed. *)
Record unnoticed (t t' : toolbox) : Prop := {
  un_g : tb_g t = tb_g t';
  un_pv : tb_pvol t = tb_pvol t';
  un_nc : cv_num_connections (tb_flux t) = cv_num_connections (tb_flux t');
  un_rates : rates_of t = rates_of t';
  un_dn : tb_down t = tb_down t';
  un_up : tb_up t = tb_up t';
  un_b : tb_built t = true;
  un_b' : tb_built t' = true
}.
Lemma unnoticed_step t t' c : t = t' ∨ unnoticed t t' →
  match tb_step t c, tb_step t' c with
  | Ok (t1, o), Ok (t1', o') => o = o' ∧ (t1 = t1' ∨ unnoticed t1 t1')
  | UB, UB | AssertFail, AssertFail | NoFuel, NoFuel => True
  | Throw e, Throw e' => e = e'
  | _, _ => False
  end.
Proof.
  intros [->|[Hg Hpv Hnc Hr Hdn Hup Hb Hb']]. { destruct (tb_step t' c) as [[]| | | |]; auto. }
  destruct t as [g pv f ij pr i o dn up b], t' as [g' pv' f' ij' pr' i' o' dn' up' b']. cbn in *.
  injection Hr as <- <- <- <-. subst g' pv' dn' up' b b'. destruct c as [x|x|x|ev sets|ev sets]; cbn [tb_step].
  - unfold tb_assign_pv. cbn. destruct (negb _); cbn; (split; [done|]); right; by split.
  - unfold tb_assign_flux. cbn. destruct (negb _); cbn; (split; [done|]); [right; by split|by left].
  - cbn. split; [done|]. right; by split.
  - unfold tb_inj_diag. cbn. rewrite Hnc. destruct (_ || _); cbn; [split; [done|right; by split]|].
    destruct (negb _); cbn; [split; [done|right; by split]|].
    destruct (run_diag _ _ _ _ _ _ _) as [[]| | | |]; cbn; try done. split; [done|right; by split].
  - unfold tb_prod_diag. cbn. rewrite Hnc. destruct (_ || _); cbn; [split; [done|right; by split]|].
    destruct (negb _); cbn; [split; [done|right; by split]|].
    destruct (run_diag _ _ _ _ _ _ _) as [[]| | | |]; cbn; try done. split; [done|right; by split].
Qed.
Lemma unnoticed_run t t' cs : t = t' ∨ unnoticed t t' → (r ← tb_run t cs; Ok r.2) = (r ← tb_run t' cs; Ok r.2).
Proof.
  revert t t'. induction cs as [|c cs IH]; intros t t' H; [done|]. cbn [tb_run]. pose proof (unnoticed_step t t' c H) as Hs.
  destruct (tb_step t c) as [[t1 o]|e| | |], (tb_step t' c) as [[t1' o']|e'| | |]; try done; cbn [mbind res_bind fst snd]; [|by subst].
  destruct Hs as [<- Hs]. specialize (IH _ _ Hs).
  destruct (tb_run t1 cs) as [[]| | | |], (tb_run t1' cs) as [[]| | | |]; cbn in *; try done. by injection IH as ->.
Qed.

Lemma sol_built t c t' s : consistent t → tb_step t c = Ok (t', OSol s) → tb_built t' = true.
Proof.
  intros Hc. destruct c as [x|x|x|ev sets|ev sets]; cbn [tb_step].
  - unfold tb_assign_pv. by destruct (negb _).
  - unfold tb_assign_flux. by destruct (negb _).
  - done.
  - intros H. apply bind_Ok in H as ([t2 [s2|e]] & E & H); [|done]. injection H as <- <-. unfold tb_inj_diag in E.
    destruct (_ || _); [done|]. destruct (negb _); [done|]. apply bind_Ok in E as ([t1 [e|]] & E1 & E); [done|].
    apply bind_Ok in E as (r & _ & [= <- _]). cbn. destruct (tb_built t) eqn:Hb; [by injection E1 as <-|].
    unfold tb_build in E1. apply bind_Ok in E1 as (st & _ & E1). apply bind_Ok in E1 as ([dn [e|]] & _ & E1); [done|].
    apply bind_Ok in E1 as ([up [e|]] & _ & E1); [done|]. by injection E1 as <-.
  - intros H. apply bind_Ok in H as ([t2 [s2|e]] & E & H); [|done]. injection H as <- <-. unfold tb_prod_diag in E.
    destruct (_ || _); [done|]. destruct (negb _); [done|]. apply bind_Ok in E as ([t1 [e|]] & E1 & E); [done|].
    apply bind_Ok in E as (r & _ & [= <- _]). cbn. destruct (tb_built t) eqn:Hb; [by injection E1 as <-|].
    unfold tb_build in E1. apply bind_Ok in E1 as (st & _ & E1). apply bind_Ok in E1 as ([dn [e|]] & _ & E1); [done|].
    apply bind_Ok in E1 as ([up [e|]] & _ & E1); [done|]. by injection E1 as <-.
Qed.

Lemma run_last_sol g cs t os s : tb_run (tb_new g) cs = Ok (t, os) → last os = Some (OSol s) →
  tb_g t = g ∧ tb_built t = true ∧ cv_num_connections (tb_flux t) = cg_num_connections g.
Proof.
  intros H Hl. destruct cs as [|c cs _] using rev_ind; [by injection H as <- <-|].
  rewrite run_app in H. apply bind_Ok in H as ([t1 os1] & E1 & H). apply bind_Ok in H as ([t2 os2] & E2 & H). injection H as <- <-.
  cbn [fst snd] in *. pose proof (run_tracks _ _ _ _ _ _ _ _ (new_tracks g) E1) as Ht. rewrite !upd_none in Ht.
  cbn [tb_run] in E2. apply bind_Ok in E2 as ([t3 o] & E3 & E2). injection E2 as <- <-. cbn [fst snd] in *.
  rewrite last_snoc in Hl. injection Hl as ->.
  pose proof (step_tracks _ _ _ _ _ _ _ _ Ht E3) as Ht'. split; [apply Ht'|]. split; [eapply sol_built; [apply Ht|done]|].
  assert (∀ f', upd (last (omap (accepted_flux g) cs)) (accepted_flux g c) = Some f' → cv_num_connections f' = cg_num_connections g) as Hacc.
  { intros f' Hf'. rewrite <-last_omap_snoc in Hf'. apply last_omap_acc in Hf' as (c' & _ & Hc'). destruct c'; try done. cbn in Hc'.
    case_decide; by simplify_eq. }
  rewrite (tr_flux _ _ _ _ _ Ht'). destruct (upd (last (omap (accepted_flux g) cs)) (accepted_flux g c)) as [f'|] eqn:Ef'; [by apply Hacc|]. exfalso.
  assert (accepted_flux g c = None ∧ last (omap (accepted_flux g) cs) = None) as [Ea El] by (by destruct (accepted_flux g c)).
  destruct (run_unbuilt g (tb_new g) cs t1 os1 eq_refl eq_refl eq_refl El E1) as (G & F & B).
  destruct (step_unbuilt g t1 c t3 (OSol s) G ltac:(by rewrite F) B Ea E3) as (_ & _ & B').
  rewrite (sol_built _ _ _ _ (tr_cons _ _ _ _ _ Ht) E3) in B'. done.
Qed.

Lemma flux_fail_cached g cs t os s f b cs2 : tb_run (tb_new g) cs = Ok (t, os) → last os = Some (OSol s) →
  cv_num_connections f = cg_num_connections g →
  (r ← m_run t (FailFlux f b :: map Enough cs2); Ok r.2) = (r ← tb_run t cs2; Ok (BadAlloc :: map Seen r.2)).
Proof.
  intros H Hl Hf. destruct (run_last_sol _ _ _ _ _ H Hl) as (Hg & Hb & Hn). cbn [m_run m_step]. unfold tb_assign_flux_fail.
  rewrite Hg, (proj2 (Z.eqb_eq _ _) Hf). cbn [negb obs_fail mbind res_bind fst snd]. rewrite m_run_enough.
  match goal with |- context [tb_run ?x cs2] => set (t1 := x) end.
  assert (unnoticed t1 t) as Hun.
  { split; try done. unfold cv_num_connections in *. cbn. congruence. }
  pose proof (unnoticed_run t1 t cs2 (or_intror Hun)) as E.
  destruct (tb_run t1 cs2) as [[]| | | |], (tb_run t cs2) as [[]| | | |]; cbn in *; try done; injection E as ->; done.
Qed.

(** ** Pore volumes *)
Lemma pv_fail g cs t os pv b d ev sets : tb_run (tb_new g) cs = Ok (t, os) → zlen pv = cg_num_cells g →
  m_returns g (map Enough cs ++ [FailPoreVolume pv b]) (compute d ev sets) =
  (if b then Ok (OExn LogicError) else returns g cs (compute d ev sets)).
Proof.
  intros H Hpv. pose proof (run_tracks _ _ _ _ _ _ _ _ (new_tracks g) H) as Ht.
  unfold m_returns, returns. rewrite m_run_snoc, m_run_enough, H. cbn [mbind res_bind fst snd m_step].
  unfold tb_assign_pv_fail. rewrite (tr_g _ _ _ _ _ Ht), (proj2 (Z.eqb_eq _ _) Hpv). cbn [negb mbind res_bind fst snd].
  rewrite <-(tr_g _ _ _ _ _ Ht). destruct b; cbn [left_over].
  - by destruct d.
  - by destruct t.
Qed.

(** ** Rates *)
Lemma rate_ops_all id r x : foldl (λ r op, op r) r (rate_ops id x) = add_rate id r x.
Proof.
  destruct x as [c v]. unfold rate_ops, add_rate. destruct (nltb n0 v); [|destruct (nltb v n0); [|done]]; cbn.
  all: f_equal; unfold om_insert_in, om_insert.
  all: match goal with |- om_alter _ _ (om_alter _ _ ?x) = _ => generalize x; intros m; induction m as [|[k y] m IH]; cbn end.
  all: try (by rewrite kcmp_refl).
  all: destruct (kcmp id k) eqn:E; cbn; rewrite ?kcmp_refl, ?E; try done; by rewrite IH.
Qed.
Lemma inflow_ops_all m k : (length (inflow_ops m) ≤ k)%nat → partial_rates m k = split_rates m.
Proof.
  intros Hk. unfold partial_rates, split_rates. rewrite take_ge by done. unfold inflow_ops. clear Hk.
  generalize (mkRates [] [] [] []). induction m as [|[id vals] m IH]; intros r; [done|]. cbn [map concat foldl fst snd].
  rewrite foldl_app, IH. f_equal. clear IH. revert r. induction vals as [|x vals IH]; intros r; [done|].
  cbn [map concat foldl]. by rewrite foldl_app, rate_ops_all, IH.
Qed.

(** ** Graphs under assembly *)
Lemma attempts_sizes l g : let g' := attempts g l in
  zlen (c_j (ac_conns g')) ≤ zlen (c_i (ac_conns g')) - zlen (c_i (ac_conns g)) + zlen (c_j (ac_conns g)) ∧
  (Exists torn l → zlen (c_j (ac_conns g')) < zlen (c_i (ac_conns g')) - zlen (c_i (ac_conns g)) + zlen (c_j (ac_conns g))) ∧
  zlen (c_v (ac_conns g)) ≤ zlen (c_v (ac_conns g')) ≤ zlen (c_i (ac_conns g')) - zlen (c_i (ac_conns g)) + zlen (c_v (ac_conns g)) ∧
  (Exists has_weight l → zlen (c_v (ac_conns g)) < zlen (c_v (ac_conns g'))) ∧
  (Exists has_none l → zlen (c_v (ac_conns g')) < zlen (c_i (ac_conns g')) - zlen (c_i (ac_conns g)) + zlen (c_v (ac_conns g))).
Proof.
  cbn zeta. revert g. induction l as [|a l IH]; intros g.
  { cbn. split_and!; try lia; by intros ?%Exists_nil. }
  change (attempts g (a :: l)) with (attempts (attempt_add g a) l). specialize (IH (attempt_add g a)).
  rewrite !Exists_cons. revert IH. generalize (attempts (attempt_add g a) l). intros g'.
  destruct a as [[[i j] [w|]]|i j [| |]]; cbn; unfold zlen; rewrite ?app_length; cbn [length]; intros (I1 & I2 & I3 & I4 & I5);
    split_and!; try lia; intros [?|?]; try done; try lia;
    match goal with
    | H : Exists torn l |- _ => specialize (I2 H); lia
    | H : Exists has_weight l |- _ => specialize (I4 H); lia
    | H : Exists has_none l |- _ => specialize (I5 H); lia
    end.
Qed.

(** Connections without a second end, or some with and some without a weight, are noticed. *)
Lemma attempts_rejected l n : Exists torn l ∨ Exists has_weight l ∧ Exists has_none l →
  ac_compress (attempts ac_new l) n = Ok (attempts ac_new l, Some LogicError).
Proof.
  intros H. pose proof (attempts_sizes l ac_new) as (I1 & I2 & I3 & I4 & I5). cbn in *.
  unfold ac_compress. enough (conns_valid (ac_conns (attempts ac_new l)) = false) as -> by done.
  assert (zlen (@nil num) = 0) as Z1 by done. assert (zlen (@nil Z) = 0) as Z2 by done.
  unfold conns_valid. apply andb_false_iff. destruct H as [H|[H1 H2]].
  - left. apply Z.eqb_neq. specialize (I2 H). cbn in I2. lia.
  - right. specialize (I4 H1). specialize (I5 H2). cbn in *. destruct (c_v _) eqn:E; [lia|].
    apply Z.eqb_neq. lia.
Qed.

(** compress() can be repeated. *)
Lemma compress_again l n m : weighted l → l ≠ [] → indices_ok l → Forall (λ x : connection, x.1.1 < n) l →
  ∃ g1 g2, ac_compress (add_all ac_new l) n = Ok (g1, None) ∧
    ac_compress (ac_compress_fail (add_all ac_new l) m).1 n = Ok (g2, None) ∧
    ac_start g1 = ac_start g2 ∧ ac_neigh g1 = ac_neigh g2 ∧ ac_weight g1 = ac_weight g2.
Proof.
  intros Hw Hne Hi Hn.
  destruct (pending_add_all [] (-1) (-1) ac_new l pending_new ltac:(lia) ltac:(lia)) as [Hp _]. cbn [app] in Hp.
  rewrite !Z.max_r in Hp by apply zmax_lo.
  set (M1 := zmax (map (λ x : connection, x.1.1) l)) in *. set (M2 := zmax (map (λ x : connection, x.1.2) l)) in *.
  assert (Forall (λ x : connection, x.1.1 ≤ M1 ∧ x.1.2 ≤ M2) l) as HM.
  { apply Forall_forall. intros x Hx. split; [apply (zmax_ge (map (λ x : connection, x.1.1) l))|apply (zmax_ge (map (λ x : connection, x.1.2) l))];
      apply elem_of_list_fmap; eauto. }
  assert (0 < n) as Hn0. { destruct l as [|x l]; [done|]. apply Forall_cons in Hn as [Hn _]. unfold indices_ok in Hi. apply Forall_cons in Hi as [[[? _] _] _]. lia. }
  assert (-1 ≤ M1 < 2 ^ 31 - 1) as H1.
  { split; [apply zmax_lo|]. apply zmax_lt; [lia|]. apply Forall_forall. intros ? (x & -> & Hx)%elem_of_list_fmap. unfold indices_ok in Hi.
    rewrite Forall_forall in Hi. apply Hi in Hx as [[_ ?] _]. done. }
  assert (-1 ≤ M2 < 2 ^ 31 - 1) as H2.
  { split; [apply zmax_lo|]. apply zmax_lt; [lia|]. apply Forall_forall. intros ? (x & -> & Hx)%elem_of_list_fmap. unfold indices_ok in Hi.
    rewrite Forall_forall in Hi. apply Hi in Hx as [_ [_ ?]]. done. }
  assert (M1 < n) as H3.
  { apply zmax_lt; [lia|]. apply Forall_forall. intros ? (x & -> & Hx)%elem_of_list_fmap. rewrite Forall_forall in Hn. by apply Hn. }
  unfold ac_compress_fail. rewrite (proj2 (pending_valid _ _ _ _ Hp) (or_intror Hw)). cbn [negb fst].
  destruct (compress_ok l M1 M2 (add_all ac_new l) n Hp (or_intror Hw) Hi HM H1 H2 H3) as (g1 & E1 & _ & C1 & W1 & _).
  destruct (compress_ok l M1 M2 (mkAconn (ac_conns (add_all ac_new l)) m) n Hp (or_intror Hw) Hi HM H1 H2 H3) as (g2 & E2 & _ & C2 & W2 & _).
  exists g1, g2. split; [done|]. split; [done|]. destruct (is_csr_unique _ _ _ _ _ _ C1 C2) as [Es Ej]. split; [done|]. split; [done|].
  specialize (W1 Hw Hne). specialize (W2 Hw Hne). rewrite <-Es, <-Ej in W2.
  eapply (is_weights_unique _ _ _ _ _ _ _ _ C1); [|exact W1|exact W2]. done.
Qed.
End oom.
