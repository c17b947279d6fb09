(** Ranges of the computed values, from the order laws of the arithmetic. *)
From Verif.Model Require Import Base Num OMap Containers AssembledConnections Tarjan TracerTofSolver.
From Verif.Spec Require Import GraphSpec SccSpec TarjanSpec FlowSpec.
From Verif.Proofs Require Import Util OMapFacts AConn GraphProps OrdLaws DerivedOrd SolverBase SolverRun SolverTop SolverGen.
Open Scope Z_scope.

Section ord.
Context {N : Num} (L : ord_laws N).
Notation ok := (o_ok N L).
Notation nn x := (ok x ∧ nleb n0 x = true).

Lemma elem_sum_left (l : list num) x : Forall (λ x, nn x) l → x ∈ l → nleb x (sum_left l) = true.
Proof. intros Hl. by apply (foldl_ge L l n0 (nn0 L) Hl). Qed.
Lemma sum_left_nn (l : list num) : Forall (λ x, nn x) l → nn (sum_left l).
Proof. intros Hl. by apply (foldl_ge L l n0 (nn0 L) Hl). Qed.

Lemma sum_left_mono {X} (f g : X → num) (l : list X) :
  (∀ x, x ∈ l → nn (f x) ∧ nn (g x) ∧ nleb (f x) (g x) = true) →
  nleb (sum_left (map f l)) (sum_left (map g l)) = true.
Proof.
  unfold sum_left. assert (∀ a b, nn a → nn b → nleb a b = true →
    (∀ x, x ∈ l → nn (f x) ∧ nn (g x) ∧ nleb (f x) (g x) = true) →
    nleb (foldl nadd a (map f l)) (foldl nadd b (map g l)) = true) as H.
  { induction l as [|x l IH]; intros a b Ha Hb Hab H; [done|]. cbn [map foldl].
    destruct (H x) as (H1 & H2 & H3); [left|]. apply IH; [by apply nn_add|by apply nn_add| |intros; apply H; by right].
    apply (o_add N L); tauto. }
  intros Hl. apply H; [apply nn0|apply nn0|apply (ol_00 L)|done].
Qed.

Lemma le_lt_inf a b : ok a → ok b → nleb a b = true → nltb b ninf = true → nltb a ninf = true.
Proof.
  intros Ha Hb Hab Hb2. destruct (nltb a ninf) eqn:E; [done|]. exfalso.
  pose proof (o_ok_inf N L) as Oi. pose proof (o_refl_l N L a b Ha Hb Hab) as Ra.
  pose proof (o_refl_r N L b ninf Hb Oi (o_lt_le N L _ _ Hb Oi Hb2)) as Ri.
  pose proof (o_total N L a ninf Ha Oi Ra Ri E) as H1.
  pose proof (o_trans N L ninf a b Oi Ha Hb H1 Hab) as H2.
  pose proof (o_nlt N L ninf b Oi Hb H2). congruence.
Qed.

Context (n : Z) (A : list arc) (pv : list num) (src : cellset_values) (inj : Z → option num).
Notation tot := (tot n A src inj).
Notation cellc := (cellc n A src inj).
Notation cellt := (cellt n A pv src inj).
Notation cell_ok := (cell_ok n A src inj).

(** A flow problem with non-negative data and finite totals at the cells [S]. *)
Record sane (S : Z → Prop) : Prop := {
  sn_arc : ∀ a, a ∈ A → ok a.2 ∧ nltb n0 a.2 = true;
  sn_src : ∀ v, nn (value_at src v);
  sn_inj : ∀ v r, inj v = Some r → nn r ∧ nleb r (value_at src v) = true ∧ neqb (value_at src v) n0 = false;
  sn_fin : ∀ v, S v → nltb (nadd (influx n A v) (value_at src v)) ninf = true
}.

Context (S : Z → Prop) (HP : sane S).

Lemma src_eff_eq v : src_eff src inj v = value_at src v.
Proof.
  unfold src_eff, is_start. destruct (inj v) as [r|] eqn:E; [|by rewrite andb_false_r].
  destruct (sn_inj _ HP v r E) as (_ & _ & ->). done.
Qed.
Lemma tot_eq v : tot v = nadd (influx n A v) (value_at src v).
Proof. unfold SolverRun.tot. by rewrite src_eff_eq. Qed.

Lemma flux_nn u v : nn (arc_flux A u v).
Proof.
  unfold arc_flux. apply sum_left_nn. apply Forall_forall. intros x (a & Ha & E)%elem_of_list_omap.
  destruct (decide (a.1 = (u, v))); [|done]. injection E as <-. destruct (sn_arc _ HP a Ha) as [H1 H2].
  split; [done|]. apply (o_lt_le N L); [apply ol_ok0|done|done].
Qed.
Lemma influx_nn v : nn (influx n A v).
Proof. apply sum_left_nn, Forall_map, Forall_forall. intros u _. apply flux_nn. Qed.
Lemma tot_nn v : nn (tot v).
Proof. rewrite tot_eq. apply nn_add; [apply influx_nn|apply HP]. Qed.
Lemma influx_fin v : S v → nltb (influx n A v) ninf = true.
Proof.
  intros Hv. pose proof (sn_fin _ HP v Hv) as H. rewrite <-tot_eq in H. destruct (tot_nn v).
  destruct (influx_nn v). destruct (sn_src _ HP v).
  eapply le_lt_inf; [done| | |exact H]; [done|]. rewrite tot_eq. by apply (ol_add_le L).
Qed.
Lemma flux_fin u v : S v → u ∈ upstream n A v → nltb (arc_flux A u v) ninf = true.
Proof.
  intros Hv Hu. destruct (flux_nn u v). destruct (influx_nn v).
  eapply le_lt_inf; [done| | |by apply influx_fin]; [done|].
  apply elem_sum_left.
  - apply Forall_map, Forall_forall. intros ? _. apply flux_nn.
  - apply elem_of_list_fmap. eauto.
Qed.

(** Values between 0 and 1. *)
Definition unit_num (x : num) : Prop := nn x ∧ nleb x n1 = true.

Lemma unit_fin x : unit_num x → nltb x ninf = true.
Proof.
  intros [[Hx _] H1]. eapply le_lt_inf; [done|apply (ol_ok1 L)|done|]. apply (o_1inf N L).
Qed.

Lemma mul_unit c w : unit_num c → nn w → nltb w ninf = true → nn (nmul c w) ∧ nleb (nmul c w) w = true.
Proof.
  intros Hc [Ow Lw] Fw. pose proof (unit_fin c Hc) as Fc. destruct Hc as [[Oc Lc] Uc].
  pose proof (ol_ok0 L) as O0. pose proof (ol_ok1 L) as O1. pose proof (ol_00 L) as L00.
  pose proof (nn_refl L w (conj Ow Lw)) as Rw.
  assert (ok (nmul c w)) as Ocw by by apply o_ok_mul.
  assert (ok (nmul n1 w)) as O1w by by apply o_ok_mul.
  assert (ok (nmul n0 w)) as O0w by by apply o_ok_mul.
  split; [split; [done|]|].
  - destruct (ol_eq_le L (nmul n0 w) n0 O0w O0 (o_mul0 N L w Ow Lw Fw)) as [_ H0].
    eapply (o_trans N L _ (nmul n0 w)); [done|done|done|done|].
    apply (o_mul N L); done.
  - destruct (ol_eq_le L (nmul n1 w) w O1w Ow (o_mul1 N L w Ow Lw)) as [H1 _].
    eapply (o_trans N L _ (nmul n1 w)); [done|done|done| |done].
    apply (o_mul N L); try done. by apply (o_1inf N L).
Qed.

Lemma mix_le c v : S v → (∀ u, unit_num (c u)) → nn (mix n A c v) ∧ nleb (mix n A c v) (influx n A v) = true.
Proof.
  intros Hv Hc. split.
  - apply sum_left_nn, Forall_map, Forall_forall. intros u Hu. apply mul_unit; [done|apply flux_nn|by apply flux_fin].
  - apply sum_left_mono. intros u Hu. destruct (mul_unit (c u) (arc_flux A u v) (Hc u) (flux_nn u v)); [by apply flux_fin|].
    split_and!; try done; try apply flux_nn. all: tauto.
Qed.

Lemma uc_le c v : S v → (∀ u, unit_num (c u)) →
  nn (uc n A inj c v) ∧ nleb (uc n A inj c v) (tot v) = true.
Proof.
  intros Hv Hc. destruct (mix_le c v Hv Hc) as [[Om Lm] Hle]. destruct (influx_nn v) as [Oi Li].
  destruct (sn_src _ HP v) as [Os Ls].
  unfold uc. rewrite tot_eq. destruct (inj v) as [r|] eqn:E.
  - destruct (sn_inj _ HP v r E) as ([Or Lr] & Hr & _). split; [by apply nn_add|]. by apply (o_add N L).
  - split; [done|]. eapply (o_trans N L _ (influx n A v)); [done|done|by apply o_ok_add|done|].
    by apply (ol_add_le L).
Qed.

Lemma tot_pos v : neqb (tot v) n0 = false → nltb n0 (tot v) = true.
Proof.
  destruct (tot_nn v) as [Ot Lt]. pose proof (ol_ok0 L) as O0. rewrite (o_eq N L) by done. rewrite Lt, andb_true_r.
  intros H. destruct (nltb n0 (tot v)) eqn:E; [done|]. exfalso.
  rewrite (o_total N L n0 (tot v)) in H; [done|done|done|apply (ol_00 L)|by apply (nn_refl L)|done].
Qed.

Lemma cell_unit c v : S v → (∀ u, unit_num (c u)) → cell_ok c v = true ∧ unit_num (cellc c v).
Proof.
  intros Hv Hc. destruct (uc_le c v Hv Hc) as [[Ou Lu] Hle]. destruct (tot_nn v) as [Ot Lt].
  pose proof (ol_ok0 L) as O0. pose proof (ol_ok1 L) as O1. pose proof (ol_00 L) as L00.
  assert (cell_ok c v = true) as Hok.
  { unfold SolverRun.cell_ok. rewrite Lt, Lu. cbn [andb]. destruct (neqb (tot v) n0) eqn:E; [|done]. cbn.
    apply (ol_eq_le L) in E as [E1 E2]; [|done|done]. rewrite (o_eq N L) by done. rewrite Lu, andb_true_r.
    by eapply (o_trans N L _ (tot v)). }
  split; [done|]. unfold SolverRun.cellc. destruct (neqb (tot v) n0) eqn:E.
  { split; [by split|]. apply (ol_01 L). }
  pose proof (tot_pos v E) as Pt. pose proof (sn_fin _ HP v Hv) as Ft. rewrite <-tot_eq in Ft.
  assert (ok (ndiv (uc n A inj c v) (tot v))) as Od by by apply o_ok_div.
  assert (ok (ndiv n0 (tot v))) as Od0 by by apply o_ok_div.
  assert (ok (ndiv (tot v) (tot v))) as Od1 by by apply o_ok_div.
  split; [split; [done|]|].
  - destruct (ol_eq_le L _ _ Od0 O0 (o_div0 N L (tot v) Ot Pt)) as [_ H0].
    eapply (o_trans N L _ (ndiv n0 (tot v))); [done|done|done|done|]. by apply (o_div N L).
  - destruct (ol_eq_le L _ _ Od1 O1 (o_div_self N L (tot v) Ot Pt Ft)) as [H1 _].
    eapply (o_trans N L _ (ndiv (tot v) (tot v))); [done|done|done| |done].
    by apply (o_div N L).
Qed.
End ord.
