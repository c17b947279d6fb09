(** Computed times-of-flight are never NaN, in any arithmetic whose product
    [t * (u / t)] does not underflow to zero when [u / t] does not. *)
From Verif.Model Require Import Base Num OMap Containers AssembledConnections Tarjan TracerTofSolver.
From Verif.Spec Require Import GraphSpec SccSpec TarjanSpec FlowSpec.
From Verif.Proofs Require Import Util OMapFacts AConn GraphProps OrdLaws DerivedOrd SolverBase SolverRun SolverTop SolverGen SolverOrd.
Open Scope Z_scope.

Record tof_laws {N : Num} (L : ord_laws N) := {
  q_max : nltb n0 max_tof = true ∧ nltb max_tof ninf = true;
  q_mulr1 a : o_ok N L a → nleb n0 a = true → neqb (nmul a n1) a = true;
  q_mulr0 a : o_ok N L a → nleb n0 a = true → nltb a ninf = true → neqb (nmul a n0) n0 = true;
  (* an infinite value times a positive one *)
  q_mulinf a b : o_ok N L a → o_ok N L b → nleb n0 a = true → nltb a ninf = false → nltb n0 b = true →
    nleb n0 (nmul a b) = true ∧ nltb (nmul a b) ninf = false;
  (* an infinite value divided by a finite one *)
  q_divinf a b : o_ok N L a → o_ok N L b → nleb n0 a = true → nltb a ninf = false → nltb n0 b = true → nltb b ninf = true →
    nltb (ndiv a b) ninf = false;
  q_under u t : o_ok N L u → o_ok N L t → nleb n0 u = true → nleb u t = true → nltb n0 t = true → nltb t ninf = true →
    nltb n0 (ndiv u t) = true → nltb n0 (nmul t (ndiv u t)) = true;
  q_top a : o_ok N L a → nleb n0 a = true → nleb a ninf = true
}.

Section range.
Context {N : Num} (L : ord_laws N) (LT : tof_laws L).
Notation ok := (o_ok N L).
Notation nn x := (ok x ∧ nleb n0 x = true).
Notation unit_num := (unit_num L).

(** A finite value times one between 0 and 1. *)
Lemma unit_mul w c : unit_num c → nn w → nltb w ninf = true → nn (nmul w c) ∧ nltb (nmul w c) ninf = true.
Proof.
  intros Hc [Ow Lw] Fw. pose proof (unit_fin L c Hc) as Fc. destruct Hc as [[Oc Lc] Uc].
  pose proof (ol_ok0 L) as O0. pose proof (ol_ok1 L) as O1. pose proof (ol_00 L) as L00.
  pose proof (nn_refl L w (conj Ow Lw)) as Rw.
  assert (ok (nmul w c)) as Ocw by by apply o_ok_mul.
  assert (ok (nmul w n1)) as O1w by by apply o_ok_mul.
  assert (ok (nmul w n0)) as O0w by by apply o_ok_mul.
  split; [split; [done|]|].
  - destruct (ol_eq_le L (nmul w n0) n0 O0w O0 (q_mulr0 L LT w Ow Lw Fw)) as [_ H0].
    eapply (o_trans N L _ (nmul w n0)); [done|done|done|done|].
    apply (o_mul N L); done.
  - destruct (ol_eq_le L (nmul w n1) w O1w Ow (q_mulr1 L LT w Ow Lw)) as [H1 _].
    eapply (le_lt_inf L _ w); [done|done| |done].
    eapply (o_trans N L _ (nmul w n1)); [done|done|done| |done].
    apply (o_mul N L); try done. by apply (o_1inf N L).
Qed.
Lemma fin_mul a b : nn a → nn b → nltb a ninf = true → nltb b ninf = true → nn (nmul a b).
Proof.
  intros [Oa La] [Ob Lb] Fa Fb. pose proof (ol_ok0 L) as O0. split; [by apply o_ok_mul|].
  pose proof (o_ok_mul N L a n0 Oa O0) as O1. destruct (ol_eq_le L (nmul a n0) n0 O1 O0 (q_mulr0 L LT a Oa La Fa)) as [_ H0].
  eapply (o_trans N L _ (nmul a n0)); [done|done|by apply o_ok_mul|done|].
  apply (o_mul N L); try done; [by apply (nn_refl L)|apply (ol_00 L)].
Qed.

Context (n : Z) (A : list arc) (pv : list num) (src : cellset_values) (inj : Z → option num).
Notation tot := (tot n A src inj).
Notation cellc := (cellc n A src inj).
Notation cellt := (cellt n A pv src inj).
Context (S : Z → Prop) (HP : sane L n A src inj S) (Hpv : ∀ v, nn (pvf pv v)).

Lemma flux_pos u v : u ∈ upstream n A v → nltb n0 (arc_flux A u v) = true.
Proof.
  intros [Hu _]%elem_of_list_filter. unfold flows in Hu. apply elem_of_list_fmap in Hu as (a & E & Ha).
  destruct (sn_arc _ _ _ _ _ _ HP a Ha) as [Oa Pa]. destruct (flux_nn L _ _ _ _ _ HP u v) as [Of Lf].
  assert (nleb a.2 (arc_flux A u v) = true) as Hle.
  { apply (elem_sum_left L).
    - apply Forall_forall. intros x (b & Hb & Eb)%elem_of_list_omap.
      destruct (decide (b.1 = (u, v))); [|done]. injection Eb as <-. destruct (sn_arc _ _ _ _ _ _ HP b Hb) as [H1 H2].
      split; [done|]. apply (o_lt_le N L); [apply ol_ok0|done|done].
    - apply elem_of_list_omap. exists a. split; [done|]. by rewrite decide_True by done. }
  pose proof (ol_ok0 L) as O0. destruct (nltb n0 (arc_flux A u v)) eqn:E0; [done|]. exfalso.
  pose proof (o_total N L _ _ O0 Of (ol_00 L) (nn_refl L _ (conj Of Lf)) E0) as H0.
  pose proof (o_trans N L _ _ _ Oa Of O0 Hle H0) as H1. rewrite (o_nlt N L _ _ Oa O0 H1) in Pa. done.
Qed.

(** Times-of-flight are numbers; infinite ones only occur with a positive concentration. *)
Definition sound (t c : num) : Prop := nn t ∧ (nltb t ninf = true ∨ nltb n0 c = true).

Lemma max_sound c : sound max_tof c.
Proof.
  destruct (q_max L LT) as [H1 H2]. split; [|by left]. split; [apply o_ok_ofZ|].
  apply (o_lt_le N L); [apply ol_ok0|apply o_ok_ofZ|done].
Qed.

Lemma term_nn t c w : unit_num c → sound t c → nn w → nltb n0 w = true → nltb w ninf = true → nn (nmul (nmul t c) w).
Proof.
  intros Hc [Ht Hi] Hw Pw Fw. destruct (nltb t ninf) eqn:E.
  - destruct (unit_mul t c Hc Ht E) as [H1 H2]. by apply fin_mul.
  - destruct Hi as [|Hi]; [done|]. destruct Ht as [Ot Lt]. destruct Hc as [[Oc Lc] _]. destruct Hw as [Ow Lw].
    destruct (q_mulinf L LT t c Ot Oc Lt E Hi) as [H1 H2]. pose proof (o_ok_mul N L t c Ot Oc) as O1.
    split; [by apply o_ok_mul|]. by apply (q_mulinf L LT).
Qed.

Lemma cellt_sound t c v : S v → (∀ u, unit_num (c u)) → (∀ u, sound (t u) (c u)) →
  sound (cellt t c v (cellc c v)) (cellc c v).
Proof.
  intros Hv Hc Ht. unfold SolverRun.cellt.
  pose proof (tot_nn L _ _ _ _ _ HP v) as [Ot Lt]. pose proof (ol_ok0 L) as O0.
  pose proof (sn_fin _ _ _ _ _ _ HP v Hv) as Ft. rewrite <-(tot_eq L _ _ _ _ _ HP) in Ft.
  destruct (q_max L LT) as [Pm Fm]. pose proof (Hpv v) as [Op Lp].
  destruct (nltb (tot v) (ndiv (pvf pv v) max_tof)) eqn:Eb; [apply max_sound|].
  destruct (nltb n0 (cellc c v)) eqn:Ec; [|apply max_sound]. split; [|by right].
  destruct (cell_unit L _ _ _ _ _ HP c v Hv Hc) as [_ Hu].
  assert (nltb n0 (tot v) = true) as Pt.
  { apply (tot_pos L _ _ _ _ _ HP). unfold SolverRun.cellc in Ec. destruct (neqb (tot v) n0); [|done].
    by rewrite (o_nlt N L n0 n0 O0 O0 (ol_00 L)) in Ec. }
  (* the pore volume is finite *)
  assert (nltb (pvf pv v) ninf = true) as Fp.
  { destruct (nltb (pvf pv v) ninf) eqn:E; [done|]. exfalso.
    assert (ok (max_tof)) as Om by apply o_ok_ofZ.
    pose proof (q_divinf L LT _ _ Op Om Lp E Pm Fm) as H.
    pose proof (o_ok_div N L _ _ Op Om) as Od.
    assert (nleb n0 (ndiv (pvf pv v) max_tof) = true) as Ld.
    { pose proof (o_ok_div N L _ _ O0 Om) as Od0. destruct (ol_eq_le L _ _ Od0 O0 (o_div0 N L max_tof Om Pm)) as [_ H0].
      eapply (o_trans N L _ (ndiv n0 max_tof)); [done|done|done|done|]. apply (o_div N L); try done. apply (ol_00 L). }
    pose proof (o_total N L _ _ Ot Od (nn_refl L _ (conj Ot Lt)) (nn_refl L _ (conj Od Ld)) Eb) as H1.
    by rewrite (le_lt_inf L _ _ Od Ot H1 Ft) in H. }
  assert (nn (nadd (nmul (pvf pv v) (cellc c v)) (mix n A (λ u, nmul (t u) (c u)) v))) as [On Ln].
  { apply (nn_add L).
    - apply unit_mul; done.
    - apply (sum_left_nn L), Forall_map, Forall_forall. intros u Hu'.
      apply term_nn; [done|done|by apply (flux_nn L _ _ _ _ _ HP)|by apply flux_pos|by apply (flux_fin L _ _ _ _ _ HP)]. }
  destruct (unit_mul (tot v) (cellc c v) Hu (conj Ot Lt) Ft) as [[Od Ld] Fd].
  assert (nltb n0 (nmul (tot v) (cellc c v)) = true) as Pd.
  { unfold SolverRun.cellc in Ec |- *. destruct (neqb (tot v) n0) eqn:E0.
    { by rewrite (o_nlt N L n0 n0 O0 O0 (ol_00 L)) in Ec. }
    destruct (uc_le L _ _ _ _ _ HP c v Hv Hc) as [[Ou Lu] Hle]. by apply (q_under L LT). }
  split; [by apply o_ok_div|].
  pose proof (o_ok_div N L _ _ O0 Od) as Od0. destruct (ol_eq_le L _ _ Od0 O0 (o_div0 N L _ Od Pd)) as [_ H0].
  eapply (o_trans N L _ _ _ O0 Od0); [by apply o_ok_div|done|]. apply (o_div N L); try done. apply (ol_00 L).
Qed.

Definition numbers (st : fstate) : Prop := (∀ u, unit_num (st.2 u)) ∧ (∀ u, sound (st.1 u) (st.2 u)).

Lemma run_numbers fuel comps : (∀ v, v ∈ concat comps → S v) →
  run n A pv src inj fuel comps = NoFuel ∨ ∃ st, run n A pv src inj fuel comps = Ok st ∧ numbers st.
Proof.
  intros HC. apply inv_run.
  - intros st v Hv%HC [Hc Ht]. destruct (cell_unit L _ _ _ _ _ HP st.2 v Hv Hc) as [H1 H2]. split; [done|]. split; intros u; cbn.
    + unfold fupd. by destruct (decide (u = v)) as [->|].
    + unfold fupd. destruct (decide (u = v)) as [->|]; [|done]. by apply cellt_sound.
  - split; intros u; cbn.
    + split; [apply (nn0 L)|apply (ol_01 L)].
    + split; [apply (nn0 L)|]. left. apply (le_lt_inf L _ n1); [apply ol_ok0|apply ol_ok1|apply (ol_01 L)|apply (o_1inf N L)].
Qed.

Lemma cap_number t : nn t → nleb n0 (nmin t max_tof) = true ∧ nleb (nmin t max_tof) max_tof = true.
Proof.
  intros [Ot Ht]. unfold nmin. destruct (max_sound n0) as [[Om Lm] _]. pose proof (nn_refl L _ (conj Om Lm)) as Rm.
  destruct (nltb max_tof t) eqn:E; [done|]. split; [done|]. apply (o_total N L); try done. by apply (nn_refl L).
Qed.
End range.
