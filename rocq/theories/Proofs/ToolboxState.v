(** The toolbox as a state machine: caching, rejection, validation. *)
From Verif.Model Require Import Base Num OMap Containers Solution AssembledConnections TracerTofSolver Toolbox.
From Verif.Spec Require Import ToolboxSpec.
From Verif.Proofs Require Import Util OMapFacts.
Open Scope Z_scope.

Section state.
Context {N : Num}.

Definition built_of (g : cgraph) (f : cvalues) : res ((aconn * aconn) + exn) :=
  st ← forZ 0 (cg_num_connections g) (build_step g f) (ac_new, ac_new);
  let nc := to_size (to_int (cg_num_cells g)) in
  d ← ac_compress (fst st) nc;
  match d with
  | (_, Some e) => Ok (inr e)
  | (dn, None) =>
      u ← ac_compress (snd st) nc;
      match u with (_, Some e) => Ok (inr e) | (up, None) => Ok (inl (dn, up)) end
  end.

Definition rates_of (t : toolbox) : rates := mkRates (tb_in t) (tb_out t) (tb_inj t) (tb_prod t).
Definition only (d : direction) (r : rates) : cellset_values :=
  match d with Injection => r_in r | Production => r_out r end.
Definition by_id (d : direction) (r : rates) : flux_map :=
  match d with Injection => r_inj r | Production => r_prod r end.
Definition along (d : direction) (gr : aconn * aconn) : aconn :=
  match d with Injection => gr.1 | Production => gr.2 end.
Definition against (d : direction) (gr : aconn * aconn) : aconn :=
  match d with Injection => gr.2 | Production => gr.1 end.

Definition unset (pv : list num) (f : cvalues) : bool :=
  (match pv with [] => true | _ => false end) || (cv_num_connections f =? 0).

(** What a computation shows, as a function of the inputs alone. *)
Definition diag_obs (d : direction) (ev : env) (g : cgraph) (pv : list num) (f : cvalues) (r : rates)
    (sets : list cellset) : res tb_obs :=
  if unset pv f then Ok (OExn LogicError)
  else if negb (start_sets_ok (by_id d r) (only d r) sets) then Ok (OExn RuntimeError)
  else
    b ← built_of g f;
    match b with
    | inr e => Ok (OExn e)
    | inl gr =>
        x ← run_diag ev (along d gr) (against d gr) pv (only d r) (by_id d r) sets;
        Ok (obs_of_sum x.2)
    end.

Definition consistent (t : toolbox) : Prop :=
  tb_built t = true → built_of (tb_g t) (tb_flux t) = Ok (inl (tb_down t, tb_up t)).
Definition same_inputs (t t' : toolbox) : Prop :=
  tb_g t = tb_g t' ∧ tb_pvol t = tb_pvol t' ∧ tb_flux t = tb_flux t' ∧ rates_of t = rates_of t'.

Lemma tb_build_eq t :
  (∀ gr, built_of (tb_g t) (tb_flux t) = Ok (inl gr) →
     ∃ t', tb_build t = Ok (t', None) ∧ same_inputs t t' ∧ tb_down t' = gr.1 ∧ tb_up t' = gr.2 ∧ tb_built t' = true) ∧
  (∀ e, built_of (tb_g t) (tb_flux t) = Ok (inr e) →
     ∃ t', tb_build t = Ok (t', Some e) ∧ same_inputs t t' ∧ tb_built t' = tb_built t) ∧
  ((∀ x, built_of (tb_g t) (tb_flux t) ≠ Ok x) →
     ∀ {X} (k : toolbox * option exn → res X) (k' : (aconn * aconn) + exn → res X),
     (b ← tb_build t; k b) = (b ← built_of (tb_g t) (tb_flux t); k' b)).
Proof.
  unfold tb_build, built_of.
  destruct (forZ 0 (cg_num_connections (tb_g t)) (build_step (tb_g t) (tb_flux t)) (ac_new, ac_new)) as [[dn up]| | | |];
    cbn [mbind res_bind fst snd]; try (split_and!; done).
  destruct (ac_compress dn _) as [[dn' [e|]]| | | |]; cbn [mbind res_bind]; try (split_and!; done).
  { split_and!; [done| |intros H; by destruct (H (inr e))]. intros e' [= <-]. eexists. split; [done|]. done. }
  destruct (ac_compress up _) as [[up' [e|]]| | | |]; cbn [mbind res_bind]; try (split_and!; done).
  { split_and!; [done| |intros H; by destruct (H (inr e))]. intros e' [= <-]. eexists. split; [done|]. done. }
  split_and!; [|done|intros H; by destruct (H (inl (dn', up')))]. intros gr [= <-]. eexists. split; [done|]. done.
Qed.

Lemma insert_found (id : cellset_id) (y x : cellset_values) (m : flux_map) : om_find id m = Some x → om_insert id y m = m.
Proof.
  unfold om_insert. induction m as [|[k v] m IH]; cbn; [done|]. destruct (kcmp id k); [done|done|].
  intros H. by rewrite IH.
Qed.

Lemma diag_loop_ids ev k s d m sol sets r :
  (∀ st, st ∈ sets → is_Some (om_find (cs_id st) m)) → diag_loop ev k s d m sol sets = Ok r → r.1 = m.
Proof.
  revert k d sol. induction sets as [|st sets IH]; intros k d sol Hs; cbn [diag_loop].
  - intros [= <-]. done.
  - destruct (Hs st) as [x Hx]; [left|]. rewrite (insert_found _ [] x) by done.
    intros H. apply bind_Ok in H as ([d' [[tof conc]|e]] & _ & H); [|by injection H as <-].
    eapply IH; [|done]. intros; apply Hs; by right.
Qed.

Lemma start_sets_found m o sets : start_sets_ok m o sets = true →
  ∀ st, st ∈ sets → is_Some (om_find (cs_id st) m).
Proof.
  unfold start_sets_ok. rewrite forallb_forall. intros H st Hst. apply elem_of_list_In in Hst.
  apply H in Hst. apply andb_true_iff in Hst as [Hst _]. by destruct (om_find _ _).
Qed.

Lemma run_diag_ids ev g rev pv o m sets r : start_sets_ok m o sets = true →
  run_diag ev g rev pv o m sets = Ok r → r.1 = m.
Proof.
  intros Hs H. unfold run_diag in H. apply bind_Ok in H as ([s d] & _ & H).
  apply bind_Ok in H as ([d' [tof|e]] & _ & H); [|by injection H as <-].
  eapply diag_loop_ids; [|done]. by eapply start_sets_found.
Qed.

(** One computation. *)
Lemma get_built t gr : consistent t → built_of (tb_g t) (tb_flux t) = Ok (inl gr) →
  ∃ t1, (if tb_built t then Ok (t, None) else tb_build t) = Ok (t1, None) ∧ same_inputs t t1 ∧
    tb_down t1 = gr.1 ∧ tb_up t1 = gr.2 ∧ tb_built t1 = true.
Proof.
  intros Hc Eb. destruct (tb_built t) eqn:Hbt; [|by apply (proj1 (tb_build_eq t))].
  exists t. specialize (Hc Hbt). rewrite Hc in Eb. injection Eb as <-. done.
Qed.

Lemma compute_step t d ev sets : consistent t →
  (r ← tb_step t (compute d ev sets); Ok r.2) = diag_obs d ev (tb_g t) (tb_pvol t) (tb_flux t) (rates_of t) sets ∧
  ∀ t' o, tb_step t (compute d ev sets) = Ok (t', o) → consistent t' ∧ same_inputs t t'.
Proof.
  intros Hc. unfold diag_obs.
  destruct d; cbn [compute tb_step]; unfold tb_inj_diag, tb_prod_diag; fold (unset (tb_pvol t) (tb_flux t));
    cbn [by_id only rates_of r_inj r_in r_prod r_out along against];
    (destruct (unset (tb_pvol t) (tb_flux t)) eqn:Hu; [split; [done|by intros t' o [= <- <-]]|]);
    match goal with |- context [start_sets_ok ?a ?b sets] =>
      destruct (start_sets_ok a b sets) eqn:Hs; cbn [negb]; [|split; [done|by intros t' o [= <- <-]]] end;
    (destruct (built_of (tb_g t) (tb_flux t)) as [[gr|e]| | | |] eqn:Eb;
     [ destruct (get_built t gr Hc Eb) as (t1 & -> & Hsame & Hdn & Hup & Hb1)
     | destruct (tb_built t) eqn:Hbt; [by rewrite (Hc Hbt) in Eb|];
       destruct (proj1 (proj2 (tb_build_eq t)) _ Eb) as (t1 & -> & Hsame & Hb1); cbn [mbind res_bind fst snd]; split; [done|];
       intros t' o [= <- <-]; split; [|done]; intros Hb2; congruence
     | | | |]).
  all: try (destruct (tb_built t) eqn:Hbt; [by rewrite (Hc Hbt) in Eb|];
    assert (∀ x, built_of (tb_g t) (tb_flux t) ≠ Ok x) as Hne by (rewrite Eb; done);
    rewrite (proj2 (proj2 (tb_build_eq t)) Hne _ _ (λ _, Ok (t, inr LogicError))), Eb; done).
  all: pose proof Hsame as (Eg & Epv & Efl & Er); pose proof (f_equal r_in Er) as Ei; pose proof (f_equal r_out Er) as Eo;
      pose proof (f_equal r_inj Er) as Einj; pose proof (f_equal r_prod Er) as Eprod; cbn in Ei, Eo, Einj, Eprod;
      cbn [mbind res_bind]; rewrite Hdn, Hup, <-Epv, <-?Ei, <-?Eo, <-?Einj, <-?Eprod.
  all: match goal with |- context [run_diag ?a ?b ?c ?d0 ?e ?f ?g] => destruct (run_diag a b c d0 e f g) as [r| | | |] eqn:Er1 end;
      cbn [mbind res_bind fst snd]; (split; [done|]); try done.
  all: intros t' o [= <- <-]; apply run_diag_ids in Er1; [|done]; rewrite Er1.
  all: split; [intros _; cbn; rewrite <-Eg, <-Efl; rewrite Eb; by destruct gr
             |split_and!; cbn; try done; unfold rates_of; cbn; congruence].
Qed.

(** ** Histories *)
Record tracks (g : cgraph) (pv : option (list num)) (f : option cvalues) (m : option flux_map) (t : toolbox) : Prop := {
  tr_cons : consistent t;
  tr_g : tb_g t = g;
  tr_pv : tb_pvol t = default [] pv;
  tr_flux : tb_flux t = default (cv_make 0 0) f;
  tr_rates : rates_of t = split_rates (default [] m)
}.

Definition upd {X} (o new : option X) : option X := match new with Some x => Some x | None => o end.

Lemma step_tracks g pv f m t c t' o : tracks g pv f m t → tb_step t c = Ok (t', o) →
  tracks g (upd pv (accepted_pv g c)) (upd f (accepted_flux g c)) (upd m (accepted_rates c)) t'.
Proof.
  intros [Hc <- Hpv Hf Hr]. destruct c as [x|x|x|ev sets|ev sets].
  - cbn. unfold tb_assign_pv. destruct (Z.eqb_spec (zlen x) (cg_num_cells (tb_g t))) as [E|E]; cbn [negb].
    + rewrite decide_True by done. intros [= <- <-]. by split.
    + rewrite decide_False by done. intros [= <- <-]. by split.
  - cbn. unfold tb_assign_flux. destruct (Z.eqb_spec (cv_num_connections x) (cg_num_connections (tb_g t))) as [E|E]; cbn [negb].
    + rewrite decide_True by done. intros [= <- <-]. by split.
    + rewrite decide_False by done. intros [= <- <-]. by split.
  - intros [= <- <-]. split; [exact Hc|done|done|done|].
    change (mkRates (r_in (split_rates x)) (r_out (split_rates x)) (r_inj (split_rates x)) (r_prod (split_rates x)) = split_rates x).
    by destruct (split_rates x).
  - intros H. destruct (compute_step t Injection ev sets Hc) as [_ Hs]. destruct (Hs _ _ H) as (H1 & E1 & E2 & E3 & E4).
    split; [done|done|by rewrite <-E2|by rewrite <-E3|by rewrite <-E4].
  - intros H. destruct (compute_step t Production ev sets Hc) as [_ Hs]. destruct (Hs _ _ H) as (H1 & E1 & E2 & E3 & E4).
    split; [done|done|by rewrite <-E2|by rewrite <-E3|by rewrite <-E4].
Qed.

Lemma last_upd {X Y} (h : X → option Y) c cs (o : option Y) :
  upd o (last (omap h (c :: cs))) = upd (upd o (h c)) (last (omap h cs)).
Proof.
  cbn. destruct (h c) as [y|]; [|done]. cbn. rewrite last_cons. by destruct (last (omap h cs)).
Qed.

Lemma run_tracks g pv f m t cs t' os : tracks g pv f m t → tb_run t cs = Ok (t', os) →
  tracks g (upd pv (last (omap (accepted_pv g) cs))) (upd f (last (omap (accepted_flux g) cs)))
           (upd m (last (omap accepted_rates cs))) t'.
Proof.
  revert pv f m t os. induction cs as [|c cs IH]; intros pv f m t os Ht H.
  - by injection H as <- <-.
  - cbn [tb_run] in H. apply bind_Ok in H as ([t1 o] & E1 & H). apply bind_Ok in H as ([t2 os2] & E2 & H). cbn in H.
    injection H as <- <-. cbn in E2. rewrite !last_upd. eapply IH; [|done]. by eapply step_tracks.
Qed.

Lemma new_tracks g : tracks g None None None (tb_new g).
Proof. by split. Qed.

Lemma upd_none {X} (o : option X) : upd None o = o.
Proof. by destruct o. Qed.

Lemma tracks_returns g pv f m t d ev sets : tracks g pv f m t →
  (r ← tb_step t (compute d ev sets); Ok r.2) =
  diag_obs d ev g (default [] pv) (default (cv_make 0 0) f) (split_rates (default [] m)) sets.
Proof. intros [Hc Hg Hpv Hf Hr]. rewrite (proj1 (compute_step t d ev sets Hc)). by rewrite Hg, Hpv, Hf, Hr. Qed.

Lemma returns_eq g cs t os d ev sets : tb_run (tb_new g) cs = Ok (t, os) →
  returns g cs (compute d ev sets) =
  diag_obs d ev g (default [] (last (omap (accepted_pv g) cs))) (default (cv_make 0 0) (last (omap (accepted_flux g) cs)))
    (split_rates (default [] (last (omap accepted_rates cs)))) sets.
Proof.
  intros H. unfold returns. rewrite H. cbn [mbind res_bind fst].
  pose proof (run_tracks _ _ _ _ _ _ _ _ (new_tracks g) H) as Ht. rewrite !upd_none in Ht. by apply tracks_returns.
Qed.

Lemma last_omap_acc {X Y} (h : X → option Y) cs y : last (omap h cs) = Some y → ∃ c, c ∈ cs ∧ h c = Some y.
Proof.
  intros H. assert (y ∈ omap h cs) as Hin. { apply last_Some in H as [l' ->]. apply elem_of_app. right. left. }
  apply elem_of_list_omap in Hin. naive_solver.
Qed.

Lemma essential_run g cs : ∃ t os, tb_run (tb_new g) (essential g cs) = Ok (t, os) ∧
  tracks g (last (omap (accepted_pv g) cs)) (last (omap (accepted_flux g) cs)) (last (omap accepted_rates cs)) t.
Proof.
  unfold essential.
  assert (∀ pv, last (omap (accepted_pv g) cs) = Some pv → zlen pv = cg_num_cells g) as Hpv.
  { intros pv (c & _ & Hc)%last_omap_acc. destruct c; try done. cbn in Hc. by destruct (decide _); [injection Hc as <-|]. }
  assert (∀ f, last (omap (accepted_flux g) cs) = Some f → cv_num_connections f = cg_num_connections g) as Hf.
  { intros f (c & _ & Hc)%last_omap_acc. destruct c; try done. cbn in Hc. by destruct (decide _); [injection Hc as <-|]. }
  pose proof (new_tracks g) as Ht0.
  destruct (last (omap (accepted_pv g) cs)) as [pv|], (last (omap (accepted_flux g) cs)) as [f|],
    (last (omap accepted_rates cs)) as [m|]; cbn [app].
  all: match goal with |- ∃ t os, tb_run ?t0 ?l = _ ∧ _ =>
    assert (∃ t os, tb_run t0 l = Ok (t, os)) as (t & os & E);
    [ cbn [tb_run tb_step]; unfold tb_assign_pv, tb_assign_flux; cbn [tb_new tb_g];
      rewrite ?(proj2 (Z.eqb_eq _ _) (Hpv _ eq_refl)), ?(proj2 (Z.eqb_eq _ _) (Hf _ eq_refl));
      cbn; rewrite ?(proj2 (Z.eqb_eq _ _) (Hpv _ eq_refl)), ?(proj2 (Z.eqb_eq _ _) (Hf _ eq_refl)); cbn; eauto
    | exists t, os; split; [done|]; pose proof (run_tracks _ _ _ _ _ _ _ _ Ht0 E) as Ht;
      cbn in Ht; rewrite ?decide_True in Ht by eauto; cbn in Ht; exact Ht ] end.
Qed.

(** Computations see only the last accepted inputs. *)
Lemma returns_essential g cs t os d ev sets : tb_run (tb_new g) cs = Ok (t, os) →
  returns g cs (compute d ev sets) = returns g (essential g cs) (compute d ev sets).
Proof.
  intros H. rewrite (returns_eq g cs t os) by done. unfold returns.
  destruct (essential_run g cs) as (t' & os' & -> & Ht). cbn [mbind res_bind fst]. symmetry. by apply tracks_returns.
Qed.
End state.
