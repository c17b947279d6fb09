(** Facts about solver runs that hold for every arithmetic. *)
From Verif.Model Require Import Base Num OMap Containers AssembledConnections Tarjan TracerTofSolver.
From Verif.Spec Require Import GraphSpec SccSpec TarjanSpec FlowSpec.
From Verif.Proofs Require Import Util OMapFacts AConn GraphProps SolverBase SolverRun SolverTop.
Open Scope Z_scope.

Section gen.
Context {N : Num} (n : Z) (A : list arc) (pv : list num) (src : cellset_values) (inj : Z → option num).
Notation cellc := (cellc n A src inj).
Notation cellt := (cellt n A pv src inj).
Notation cell_ok := (cell_ok n A src inj).
Notation run_cell := (run_cell n A pv src inj).
Notation run_gs_cell := (run_gs_cell n A pv src inj).
Notation run_sweep := (run_sweep n A pv src inj).
Notation run_loop := (run_loop n A pv src inj).
Notation run_comp := (run_comp n A pv src inj).
Notation run := (run n A pv src inj).

(** Equal outside [C]. *)
Definition same_off (C : list Z) (st st' : fstate) : Prop :=
  ∀ u, u ∉ C → st'.1 u = st.1 u ∧ st'.2 u = st.2 u.

Lemma same_off_refl C st : same_off C st st.
Proof. done. Qed.
Lemma same_off_trans C a b c : same_off C a b → same_off C b c → same_off C a c.
Proof. intros H1 H2 u Hu. destruct (H1 u Hu), (H2 u Hu). split; congruence. Qed.
Lemma same_off_mono C D a b : (∀ u, u ∈ C → u ∈ D) → same_off C a b → same_off D a b.
Proof. intros H1 H2 u Hu. apply H2. auto. Qed.

Lemma run_cell_inv st v st' : run_cell st v = Ok st' → cell_ok st.2 v = true ∧ st' = upd_cell n A pv src inj st v.
Proof. unfold SolverRun.run_cell. destruct (SolverRun.cell_ok _ _ _ _ _ _); [|done]. by intros [= <-]. Qed.
Lemma upd_cell_off st v : same_off [v] st (upd_cell n A pv src inj st v).
Proof. intros u Hu. rewrite elem_of_list_singleton in Hu. cbn. by rewrite !fupd_ne. Qed.
Lemma run_cell_off st v st' : run_cell st v = Ok st' → same_off [v] st st'.
Proof. intros [_ ->]%run_cell_inv. apply upd_cell_off. Qed.

Lemma run_gs_cell_ok st dt dc v st' : run_cell st v = Ok st' →
  run_gs_cell (st, dt, dc) v =
  Ok (st', nmax dt (nabs (nsub (st'.1 v) (st.1 v))), nmax dc (tracer_change (st.2 v) (st'.2 v))).
Proof. intros E. unfold SolverRun.run_gs_cell. cbn [fst snd]. by rewrite E. Qed.

Lemma sweep_off C D st dt dc r : (∀ v, v ∈ C → v ∈ D) → foldM run_gs_cell (st, dt, dc) C = Ok r → same_off D st r.1.1.
Proof.
  revert st dt dc. induction C as [|v C IH]; intros st dt dc HD; cbn [foldM].
  - intros [= <-]. apply same_off_refl.
  - intros ([[st1 dt1] dc1] & E & H)%bind_Ok. unfold SolverRun.run_gs_cell in E.
    apply bind_Ok in E as (st2 & E & [= <- _ _]). cbn [fst snd] in *.
    apply same_off_trans with st2.
    + eapply same_off_mono; [|by eapply run_cell_off]. intros u ->%elem_of_list_singleton. apply HD. left.
    + apply (IH _ _ _ ltac:(intros; apply HD; by right) H).
Qed.
Lemma loop_off C fuel st dt dc st' : run_loop fuel C st dt dc = Ok st' → same_off C st st'.
Proof.
  revert st dt dc. induction fuel as [|fuel IH]; intros st dt dc; cbn [SolverRun.run_loop];
    (destruct (nltb gs_tof_tol dt || nltb gs_tracer_tol dc); [|by intros [= <-]]); [done|].
  intros (r & E & H)%bind_Ok. eapply same_off_trans; [by eapply sweep_off|]. by eapply IH.
Qed.
Lemma comp_off fuel C st st' : run_comp fuel st C = Ok st' → same_off C st st'.
Proof.
  unfold SolverRun.run_comp. destruct C as [|v [|w C]].
  - apply loop_off.
  - apply run_cell_off.
  - apply loop_off.
Qed.
Lemma comps_off fuel comps st st' : foldM (run_comp fuel) st comps = Ok st' → same_off (concat comps) st st'.
Proof.
  revert st. induction comps as [|C comps IH]; intros st; cbn [foldM concat]; [by intros [= <-]|].
  intros (st1 & E & H)%bind_Ok. apply same_off_trans with st1.
  - eapply same_off_mono; [|by eapply comp_off]. intros u Hu. apply elem_of_app. by left.
  - eapply same_off_mono; [|by eapply IH]. intros u Hu. apply elem_of_app. by right.
Qed.

Lemma mix_ext f g v : (∀ u, flows A u v → f u = g u) → mix n A f v = mix n A g v.
Proof.
  intros H. unfold mix. f_equal. apply map_ext_in. intros u Hu%elem_of_list_In%upstream_elem.
  by rewrite H by tauto.
Qed.
Lemma cellc_ext c c' v : (∀ u, flows A u v → c u = c' u) → cellc c v = cellc c' v.
Proof. intros H. unfold SolverRun.cellc, uc. by rewrite (mix_ext c c' v H). Qed.
Lemma cell_ok_ext c c' v : (∀ u, flows A u v → c u = c' u) → cell_ok c v = cell_ok c' v.
Proof. intros H. unfold SolverRun.cell_ok, uc. by rewrite (mix_ext c c' v H). Qed.
Lemma cellt_ext t t' c c' v cv : (∀ u, flows A u v → t u = t' u ∧ c u = c' u) → cellt t c v cv = cellt t' c' v cv.
Proof.
  intros H. unfold SolverRun.cellt.
  rewrite (mix_ext (λ u, nmul (t u) (c u)) (λ u, nmul (t' u) (c' u)) v); [done|].
  intros u Hu. by destruct (H u Hu) as [-> ->].
Qed.

(** The place of a component in the order. *)
Lemma ordered_split P comps C v : ordered A P comps → C ∈ comps → v ∈ C →
  ∃ l1 l2, comps = l1 ++ C :: l2 ∧ v ∉ concat l1 ∧ v ∉ concat l2 ∧
    (∀ u w, w ∈ C → flows A u w → u ∉ concat l2) ∧ (∀ u, u ∈ C → u ∉ concat l1 ∧ u ∉ concat l2).
Proof.
  intros [H1 H2 H3 H4 H5] HC Hv. apply elem_of_list_lookup in HC as [j Hj].
  apply elem_of_list_split_length in Hj as (l1 & l2 & -> & ->).
  rewrite concat_app in H1. cbn [concat] in H1. apply NoDup_app in H1 as (N1 & N2 & N3).
  apply NoDup_app in N3 as (N3 & N4 & N5).
  assert (∀ u, u ∈ C → u ∉ concat l1 ∧ u ∉ concat l2) as HC'.
  { intros u Hu. split.
    - intros Hu1. apply (N2 u Hu1). apply elem_of_app. by left.
    - by apply N4. }
  exists l1, l2. split_and!; [done|by apply HC'|by apply HC'| |done].
  intros u w Hw Hf Hu2.
  destruct (H5 (length l1) C u w) as (i & D & HD & HuD & Hi).
  - by rewrite list_lookup_middle.
  - done.
  - done.
  - rewrite concat_app. cbn. rewrite !elem_of_app. by right; right.
  - apply Nat.lt_eq_cases in Hi as [Hi| ->].
    + rewrite lookup_app_l in HD by done. apply (N2 u).
      * apply elem_concat. exists D. split; [done|]. by eapply elem_of_list_lookup_2.
      * apply elem_of_app. by right.
    + rewrite list_lookup_middle in HD by done. injection HD as <-. by apply (N4 u).
Qed.

Lemma rtc_tc_ne (R : Z → Z → Prop) u v : rtc R u v → u ≠ v → tc R u v.
Proof. intros H Hne. apply rtc_tc in H as [|]; [done|done]. Qed.

Lemma acyclic_comps P comps C : ordered A P comps → acyclic A → C ∈ comps → ∃ v, C = [v].
Proof.
  intros Ho Hac HC. pose proof (oc_ne _ _ _ Ho) as Hne. pose proof (proj1 (Forall_forall _ _) Hne C HC) as HCne.
  destruct C as [|v [|w C]]; [done|eauto|]. exfalso.
  assert (v ≠ w) as Hvw.
  { pose proof (oc_nodup _ _ _ Ho) as Hnd. apply elem_of_list_split in HC as (l1 & l2 & ->).
    rewrite concat_app in Hnd. cbn in Hnd. apply NoDup_app in Hnd as (_ & _ & Hnd). inv Hnd.
    intros ->. apply H1. left. }
  destruct (proj1 (oc_strong _ _ _ Ho _ v w HC ltac:(left))) as [Ha Hb]; [right; left|].
  apply (Hac v). eapply tc_rtc_r; [by apply rtc_tc_ne|done].
Qed.

(** On an acyclic network the final values satisfy every cell's equations. *)
Lemma run_acyclic P fuel comps st : ordered A P comps → acyclic A → run fuel comps = Ok st →
  (∀ v, v ∈ concat comps →
     st.2 v = cellc st.2 v ∧ st.1 v = cellt st.1 st.2 v (st.2 v) ∧ cell_ok st.2 v = true) ∧
  (∀ v, v ∉ concat comps → st.1 v = n0 ∧ st.2 v = n0).
Proof.
  intros Ho Hac Hrun. split.
  - intros v (C & HvC & HC)%elem_concat.
    destruct (acyclic_comps P comps C Ho Hac HC) as [v' ->]. apply elem_of_list_singleton in HvC as <-.
    destruct (ordered_split P comps [v] v Ho HC ltac:(left)) as (l1 & l2 & -> & Hv1 & Hv2 & Hup & _).
    unfold SolverRun.run in Hrun. rewrite foldM_app in Hrun. apply bind_Ok in Hrun as (st1 & E1 & Hrun).
    cbn [foldM] in Hrun. apply bind_Ok in Hrun as (st2 & E2 & Hrun). cbn [SolverRun.run_comp] in E2.
    apply run_cell_inv in E2 as [Hok E2]. pose proof (comps_off _ _ _ _ Hrun) as Hoff.
    destruct (Hoff v Hv2) as [Ht Hc].
    assert (∀ u, flows A u v → st.1 u = st1.1 u ∧ st.2 u = st1.2 u) as Hsame.
    { intros u Hf. assert (u ≠ v) as Hne. { intros ->. apply (Hac v). by apply tc_once. }
      destruct (Hoff u) as [-> ->]; [by eapply Hup; [left|]|]. rewrite E2. cbn. by rewrite !fupd_ne. }
    assert (st.2 v = cellc st.2 v) as Hcv.
    { rewrite Hc, E2. cbn. rewrite fupd_eq. apply cellc_ext. intros u Hu. by destruct (Hsame u Hu). }
    split_and!; [done| |].
    + rewrite Ht, E2. cbn. rewrite fupd_eq. rewrite Hcv.
      rewrite (cellc_ext st1.2 st.2 v) by (intros u Hu; by destruct (Hsame u Hu)).
      apply cellt_ext. intros u Hu. by destruct (Hsame u Hu) as [-> ->].
    + rewrite <-Hok. apply cell_ok_ext. intros u Hu. by destruct (Hsame u Hu).
  - intros v Hv. pose proof (comps_off _ _ _ _ Hrun v Hv) as [H1 H2]. by rewrite H1, H2.
Qed.

(** ** The sweep budget *)
Lemma loop_fuel C fuel fuel' st dt dc : (fuel ≤ fuel')%nat →
  run_loop fuel C st dt dc ≠ NoFuel → run_loop fuel' C st dt dc = run_loop fuel C st dt dc.
Proof.
  revert fuel' st dt dc. induction fuel as [|fuel IH]; intros fuel' st dt dc Hle.
  - cbn [SolverRun.run_loop]. destruct (nltb gs_tof_tol dt || nltb gs_tracer_tol dc) eqn:E; [done|].
    intros _. destruct fuel'; cbn [SolverRun.run_loop]; by rewrite E.
  - destruct fuel' as [|fuel']; [lia|]. cbn [SolverRun.run_loop].
    destruct (nltb gs_tof_tol dt || nltb gs_tracer_tol dc); [|done].
    destruct (run_sweep C st) as [r| | | |]; try done. cbn [mbind res_bind]. apply IH. lia.
Qed.
Lemma comp_fuel C fuel fuel' st : (fuel ≤ fuel')%nat →
  run_comp fuel st C ≠ NoFuel → run_comp fuel' st C = run_comp fuel st C.
Proof. intros Hle. unfold SolverRun.run_comp. destruct C as [|v [|w C]]; [by apply loop_fuel|done|by apply loop_fuel]. Qed.
Lemma comps_fuel comps fuel fuel' st : (fuel ≤ fuel')%nat →
  foldM (run_comp fuel) st comps ≠ NoFuel → foldM (run_comp fuel') st comps = foldM (run_comp fuel) st comps.
Proof.
  intros Hle. revert st. induction comps as [|C comps IH]; intros st; cbn [foldM]; [done|].
  intros H. rewrite (comp_fuel C fuel fuel') ; [|done|intros E; rewrite E in H; done].
  destruct (run_comp fuel st C); try done. cbn [mbind res_bind] in *. by apply IH.
Qed.
Lemma run_fuel comps fuel fuel' : (fuel ≤ fuel')%nat →
  run fuel comps ≠ NoFuel → run fuel' comps = run fuel comps.
Proof. apply comps_fuel. Qed.

Lemma acyclic_nofuel P comps fuel : ordered A P comps → acyclic A → run fuel comps ≠ NoFuel.
Proof.
  intros Ho Hac. unfold SolverRun.run.
  assert (∀ comps', (∀ C, C ∈ comps' → C ∈ comps) → ∀ st, foldM (run_comp fuel) st comps' ≠ NoFuel) as H; [|by apply H].
  induction comps' as [|C comps' IH]; intros Hin st; cbn [foldM]; [done|].
  destruct (acyclic_comps P comps C Ho Hac) as [v ->]; [apply Hin; left|].
  cbn [SolverRun.run_comp]. unfold SolverRun.run_cell at 1. destruct (SolverRun.cell_ok _ _ _ _ _ _); [|done].
  cbn [mbind res_bind]. apply IH. intros. apply Hin. by right.
Qed.

(** ** Invariants *)
(** A property of states preserved by every cell update that the assertions allow. *)
Section inv.
Context (comps : list (list Z)) (I : fstate → Prop).
Context (Hcell : ∀ st v, v ∈ concat comps → I st → cell_ok st.2 v = true ∧ I (upd_cell n A pv src inj st v)).

Lemma inv_run_cell st v : v ∈ concat comps → I st → ∃ st', run_cell st v = Ok st' ∧ I st'.
Proof. intros Hv Hst. destruct (Hcell st v Hv Hst) as [H1 H2]. unfold SolverRun.run_cell. rewrite H1. eauto. Qed.
Lemma inv_sweep C st dt dc : (∀ v, v ∈ C → v ∈ concat comps) → I st →
  ∃ r, foldM run_gs_cell (st, dt, dc) C = Ok r ∧ I r.1.1.
Proof.
  revert st dt dc. induction C as [|v C IH]; intros st dt dc HC Hst; [eexists; by split|].
  cbn [foldM].
  destruct (inv_run_cell st v) as (st' & E & Hst'); [apply HC; left|done|].
  rewrite (run_gs_cell_ok _ _ _ _ _ E). cbn [mbind res_bind].
  apply IH; [|done]. intros. apply HC. by right.
Qed.
Lemma inv_loop C fuel st dt dc : (∀ v, v ∈ C → v ∈ concat comps) → I st →
  run_loop fuel C st dt dc = NoFuel ∨ ∃ st', run_loop fuel C st dt dc = Ok st' ∧ I st'.
Proof.
  intros HC. revert st dt dc. induction fuel as [|fuel IH]; intros st dt dc Hst; cbn [SolverRun.run_loop];
    (destruct (nltb gs_tof_tol dt || nltb gs_tracer_tol dc); [|eauto]); [eauto|].
  unfold SolverRun.run_sweep. destruct (inv_sweep C st n0 n0 HC Hst) as (r & -> & Hr). cbn [mbind res_bind]. by apply IH.
Qed.
Lemma inv_comp C fuel st : (∀ v, v ∈ C → v ∈ concat comps) → I st →
  run_comp fuel st C = NoFuel ∨ ∃ st', run_comp fuel st C = Ok st' ∧ I st'.
Proof.
  intros HC Hst. unfold SolverRun.run_comp. destruct C as [|v [|w C]]; [by apply inv_loop| |by apply inv_loop].
  right. apply inv_run_cell; [apply HC; left|done].
Qed.
Lemma inv_run fuel : I zero_state → run fuel comps = NoFuel ∨ ∃ st, run fuel comps = Ok st ∧ I st.
Proof.
  intros H0. unfold SolverRun.run.
  assert (∀ comps', (∀ C, C ∈ comps' → C ∈ comps) → ∀ st, I st →
    foldM (run_comp fuel) st comps' = NoFuel ∨ ∃ st', foldM (run_comp fuel) st comps' = Ok st' ∧ I st') as H; [|by apply H].
  induction comps' as [|C comps' IH]; intros Hin st Hst; cbn [foldM]; [eauto|].
  destruct (inv_comp C fuel st) as [->|(st' & -> & Hst')]; [|done|by left|].
  - intros v Hv. apply elem_concat. exists C. split; [done|]. apply Hin. left.
  - cbn [mbind res_bind]. apply IH; [|done]. intros. apply Hin. by right.
Qed.
End inv.
End gen.
