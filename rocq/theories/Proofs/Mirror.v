(** Production diagnostics are injection diagnostics of the negated inputs. *)
From Coq Require Import QArith Qcanon.
From Coq.Floats Require Import SpecFloat.
From Verif.Model Require Import Base Num OMap Containers Solution AssembledConnections TracerTofSolver Toolbox.
From Verif.Spec Require Import MirrorSpec.
From Verif.Proofs Require Import Util OMapFacts ExactNum QcLra OrdLaws AConn ToolboxState SolverBase.
Open Scope Z_scope.

(** Negation: exact up to the sign of zero in sums. *)
Record neg_laws (N : Num) := {
  ng_rel : num → num → Prop;
  ng_inv x : nopp (nopp x) = x;
  ng_lt x : nltb n0 (nopp x) = nltb x n0;
  ng_asym x : nltb n0 x = true → nltb x n0 = false;
  ng_rel0 : ng_rel n0 n0;
  ng_add a a' w : ng_rel a a' → ng_rel (nadd a w) (nadd a' (nopp w));
  ng_sign a a' : ng_rel a a' → a' = nopp a ∨
    (nltb n0 a = false ∧ nltb a n0 = false ∧ nltb n0 a' = false ∧ nltb a' n0 = false)
}.

Definition exact_neg_laws : neg_laws exact.
Proof.
  refine {| ng_rel := λ a a' : @num exact, a' = nopp a |}; cbn [num nopp nadd nltb exact]; rewrite ?exact_n0.
  - intros [x| | |]; cbn; try done. f_equal. ring.
  - intros [x| | |]; cbn; try done. apply eq_bool_prop_intro. unfold Is_true.
    destruct (Qc_ltb 0 (- x)) eqn:E1, (Qc_ltb x 0) eqn:E2; try done; exfalso.
    + apply Qc_ltb_true in E1. assert (¬ (x < 0)%Qc) as H by (rewrite <-Qc_ltb_true; congruence). apply H. qclra.
    + apply Qc_ltb_true in E2. assert (¬ (0 < - x)%Qc) as H by (rewrite <-Qc_ltb_true; congruence). apply H. qclra.
  - intros [x| | |]; cbn; try done. intros E1. destruct (Qc_ltb x 0) eqn:E2; [|done]. exfalso.
    apply Qc_ltb_true in E1. apply Qc_ltb_true in E2. qclra.
  - cbn. f_equal.
  - intros [x| | |] a' [y| | |] ->; cbn; try done. f_equal. ring.
  - intros a a' ->. by left.
Defined.

Lemma binary_round_opp prec emax s m e : SFopp (binary_round prec emax s m e) = binary_round prec emax (negb s) m e.
Proof.
  unfold binary_round. destruct (shl_align _ _ _) as [mz ez]. unfold binary_round_aux.
  destruct (shr_fexp _ _ _ _ _) as [mrs' e']. destruct (shr_fexp _ _ _ _ _) as [mrs'' e''].
  destruct (shr_m mrs''); cbn; try done. by destruct (_ <=? _).
Qed.
Lemma binary_normalize_opp prec emax z e s s' :
  binary_normalize prec emax (- z) e s' = SFopp (binary_normalize prec emax z e s) ∨
  (∃ b b', binary_normalize prec emax z e s = S754_zero b ∧ binary_normalize prec emax (- z) e s' = S754_zero b').
Proof.
  destruct z as [|m|m]; cbn; [right; eauto|left|left]; by rewrite binary_round_opp.
Qed.
Definition up_to_zero (a a' : spec_float) : Prop := a' = SFopp a ∨ ∃ b b', a = S754_zero b ∧ a' = S754_zero b'.
Lemma SFadd_opp prec emax a a' w : up_to_zero a a' → up_to_zero (SFadd prec emax a w) (SFadd prec emax a' (SFopp w)).
Proof.
  intros [->|(b & b' & -> & ->)].
  - destruct a as [[]|[]| |[] ma ea], w as [[]|[]| |[] mw ew]; cbn -[binary_normalize];
      try (left; reflexivity); try (right; do 2 eexists; split; reflexivity).
    all: match goal with |- up_to_zero (binary_normalize _ _ ?x ?e _) (binary_normalize _ _ ?y _ _) =>
      replace y with (- x) by lia; unfold up_to_zero; apply binary_normalize_opp end.
  - destruct w as [[]|[]| |[] mw ew], b, b'; cbn; try (left; reflexivity); right; do 2 eexists; split; reflexivity.
Qed.
Definition b64_neg_laws : neg_laws b64.
Proof.
  refine {| ng_rel := up_to_zero : @num b64 → @num b64 → Prop |}; cbn [num nopp nadd nltb b64];
    change (@n0 b64) with (S754_zero false).
  - by intros [[]|[]| |[]].
  - by intros [[]|[]| |[]].
  - by intros [[]|[]| |[]].
  - right. by do 2 eexists.
  - apply SFadd_opp.
  - intros a a' [->|(b & b' & -> & ->)]; [by left|right]. by destruct b, b'.
Defined.

Section mirror.
Context {N : Num} (L : neg_laws N).

Definition swap_rates (r : rates) : rates := mkRates (r_out r) (r_in r) (r_prod r) (r_inj r).

Lemma ng_lt' x : nltb (nopp x) n0 = nltb n0 x.
Proof. rewrite <-(ng_inv N L x) at 2. by rewrite (ng_lt N L). Qed.

Lemma add_rate_mirror id r c v : add_rate id (swap_rates r) (c, nopp v) = swap_rates (add_rate id r (c, v)).
Proof.
  unfold add_rate. rewrite (ng_lt N L), ng_lt', (ng_inv N L).
  destruct (nltb n0 v) eqn:E; [by rewrite (ng_asym N L) by done|]. by destruct (nltb v n0).
Qed.
Lemma split_mirror m : split_rates (neg_rates m) = swap_rates (split_rates m).
Proof.
  unfold split_rates, neg_rates. change (mkRates [] [] [] []) with (swap_rates (mkRates [] [] [] [])) at 1.
  generalize (mkRates [] [] [] []). induction m as [|[id vals] m IH]; intros r; cbn [map foldl fst snd]; [done|].
  rewrite <-IH. f_equal. revert r. induction vals as [|[c v] vals IHv]; intros r; cbn [map foldl fst snd]; [done|].
  by rewrite add_rate_mirror, IHv.
Qed.

(** ** The graphs *)
Lemma cv_get_mirror f i j : cv_get (neg_values f) i j = (x ← cv_get f i j; Ok (nopp x)).
Proof.
  unfold cv_get, neg_values, cv_offset. cbn [cv_nconn cv_nphase cv_data]. destruct (_ || _); [done|].
  unfold zget. destruct (_ <? 0); [done|]. rewrite list_lookup_fmap. by destruct (cv_data f !! _).
Qed.

Lemma foldM_rel {S S' X} (R : S → S' → Prop) (F : S → X → res S) (F' : S' → X → res S') l s s' :
  R s s' → (∀ x s s', x ∈ l → R s s' →
     match F s x with Ok t => ∃ t', F' s' x = Ok t' ∧ R t t' | Throw e => F' s' x = Throw e | UB => F' s' x = UB
       | AssertFail => F' s' x = AssertFail | NoFuel => F' s' x = NoFuel end) →
  match foldM F s l with Ok t => ∃ t', foldM F' s' l = Ok t' ∧ R t t' | Throw e => foldM F' s' l = Throw e | UB => foldM F' s' l = UB
    | AssertFail => foldM F' s' l = AssertFail | NoFuel => foldM F' s' l = NoFuel end.
Proof.
  revert s s'. induction l as [|x l IH]; intros s s' Hs H; cbn; [by eexists|].
  pose proof (H x s s' ltac:(left) Hs) as Hx. destruct (F s x) as [t| | | |]; cbn [mbind res_bind].
  - destruct Hx as (t' & -> & Ht). cbn [mbind res_bind]. apply IH; [done|]. intros. apply H; [by right|done].
  - by rewrite Hx. - by rewrite Hx. - by rewrite Hx. - by rewrite Hx.
Qed.

Lemma conn_flux_mirror f k :
  match conn_flux f k with Ok w => ∃ w', conn_flux (neg_values f) k = Ok w' ∧ ng_rel N L w w'
    | Throw e => conn_flux (neg_values f) k = Throw e | UB => conn_flux (neg_values f) k = UB
    | AssertFail => conn_flux (neg_values f) k = AssertFail | NoFuel => conn_flux (neg_values f) k = NoFuel end.
Proof.
  unfold conn_flux, forZ. change (cv_num_phases (neg_values f)) with (cv_num_phases f). apply foldM_rel; [apply (ng_rel0 N L)|].
  intros j a a' _ Ha. rewrite cv_get_mirror. destruct (cv_get f k j) as [x| | | |]; cbn [mbind res_bind]; try done.
  eexists. split; [done|]. by apply (ng_add N L).
Qed.

(** The graphs are those of some arcs, and turned around after negation. *)
Definition graphs_of (n : Z) (st : aconn * aconn) (A : list arc) : Prop :=
  arcs_ok n A ∧ st = (add_all ac_new (down_conns A), add_all ac_new (up_conns A)).
Lemma built_mirror g f : grid_ok g →
  built_of g (neg_values f) = (b ← built_of g f; Ok (match b with inl gr => inl (gr.2, gr.1) | inr e => inr e end)).
Proof.
  intros [Hn Hg]. unfold built_of. set (n := cg_num_cells g) in *.
  assert (∀ A (a : arc), arcs_ok n A → 0 ≤ a.1.1 < n → 0 ≤ a.1.2 < n → arcs_ok n (A ++ [a])) as Hsnoc.
  { intros A a HA H1 H2. apply Forall_app. split; [done|]. by apply Forall_singleton. }
  pose proof (foldM_rel (λ st st' : aconn * aconn, ∃ A, graphs_of n st A ∧ st' = (st.2, st.1))
    (build_step g f) (build_step g (neg_values f)) (seqZ 0 (cg_num_connections g - 0)) (ac_new, ac_new) (ac_new, ac_new)) as H.
  unfold forZ. match type of H with ?A → _ → _ => assert A as H0 end.
  { exists []. split; [|done]. split; [apply Forall_nil_2|done]. }
  specialize (H H0). clear H0. match type of H with ?A → _ => assert A as H0 end.
  { intros k st st' Hk (A & [HA ->] & ->). cbn [fst snd]. apply elem_of_seqZ in Hk.
    destruct (Hg k) as (a & b & E & Ha & Hb); [lia|]. unfold build_step. rewrite E. cbn [mbind res_bind fst snd].
    pose proof (conn_flux_mirror f k) as Hw. destruct (conn_flux f k) as [w| | | |]; cbn [mbind res_bind]; try (by rewrite Hw).
    destruct Hw as (w' & -> & Hw). cbn [mbind res_bind].
    assert (∀ x y z (A : list arc), add_all ac_new (down_conns (A ++ [(x, y, z)])) = ac_add_w (add_all ac_new (down_conns A)) x y z) as Ed.
    { intros. unfold down_conns, add_all. by rewrite map_app, foldl_app. }
    assert (∀ x y z (A : list arc), add_all ac_new (up_conns (A ++ [(x, y, z)])) = ac_add_w (add_all ac_new (up_conns A)) y x z) as Eu.
    { intros. unfold up_conns, add_all. by rewrite map_app, foldl_app. }
    destruct (ng_sign N L _ _ Hw) as [->|(E1 & E2 & E3 & E4)].
    - rewrite (ng_lt N L), ng_lt', (ng_inv N L). destruct (nltb n0 w) eqn:Ew.
      + rewrite (ng_asym N L) by done. eexists. split; [done|]. exists (A ++ [(a, b, w)]). split; [|done]. split; [by apply Hsnoc|].
        by rewrite Ed, Eu.
      + destruct (nltb w n0).
        * eexists. split; [done|]. exists (A ++ [(b, a, nopp w)]). split; [|done]. split; [by apply Hsnoc|]. by rewrite Ed, Eu.
        * eexists. split; [done|]. by exists A.
    - rewrite E1, E2, E3, E4. eexists. split; [done|]. by exists A. }
  specialize (H H0). clear H0.
  destruct (foldM (build_step g f) _ _) as [st| | | |]; cbn [mbind res_bind]; try (by rewrite H).
  destruct H as (st' & -> & A & [HA ->] & ->). cbn [mbind res_bind fst snd]. rewrite to_int_small, to_size_small by lia.
  destruct (compress_graph n A) as (dn & E1 & _); [done|done|]. destruct (compress_graph_up n A) as (up & E2 & _); [done|done|].
  rewrite E2. cbn [mbind res_bind]. by rewrite E1.
Qed.

(** ** Computations and histories *)
Lemma diag_mirror d ev g pv f r sets : grid_ok g →
  diag_obs (opposite d) ev g pv (neg_values f) (swap_rates r) sets = diag_obs d ev g pv f r sets.
Proof.
  intros Hg. unfold diag_obs. change (unset pv (neg_values f)) with (unset pv f). destruct (unset pv f); [done|].
  assert (by_id (opposite d) (swap_rates r) = by_id d r ∧ only (opposite d) (swap_rates r) = only d r) as [-> ->] by (by destruct d).
  destruct (start_sets_ok _ _ _); [|done]. cbn [negb]. rewrite built_mirror by done.
  destruct (built_of g f) as [[gr|e]| | | |]; cbn [mbind res_bind]; try done. by destruct d.
Qed.

Definition mirrored (t t' : toolbox) : Prop :=
  consistent t ∧ consistent t' ∧ tb_g t' = tb_g t ∧ tb_pvol t' = tb_pvol t ∧ tb_flux t' = neg_values (tb_flux t) ∧
  rates_of t' = swap_rates (rates_of t).

Lemma step_mirror t t' c : grid_ok (tb_g t) → mirrored t t' →
  match tb_step t c with
  | Ok (u, o) => ∃ u', tb_step t' (mirror c) = Ok (u', o) ∧ mirrored u u' ∧ tb_g u = tb_g t
  | Throw e => tb_step t' (mirror c) = Throw e | UB => tb_step t' (mirror c) = UB
  | AssertFail => tb_step t' (mirror c) = AssertFail | NoFuel => tb_step t' (mirror c) = NoFuel
  end.
Proof.
  intros Hg (C1 & C2 & E1 & E2 & E3 & E4).
  assert (∀ d ev sets, match tb_step t (compute d ev sets) with
    | Ok (u, o) => ∃ u', tb_step t' (compute (opposite d) ev sets) = Ok (u', o) ∧ mirrored u u' ∧ tb_g u = tb_g t
    | Throw e => tb_step t' (compute (opposite d) ev sets) = Throw e | UB => tb_step t' (compute (opposite d) ev sets) = UB
    | AssertFail => tb_step t' (compute (opposite d) ev sets) = AssertFail | NoFuel => tb_step t' (compute (opposite d) ev sets) = NoFuel
    end) as Hc.
  { intros d ev sets. destruct (compute_step t d ev sets C1) as [H1 H1']. destruct (compute_step t' (opposite d) ev sets C2) as [H2 H2'].
    rewrite E1, E2, E3, E4, diag_mirror, <-H1 in H2 by done.
    destruct (tb_step t (compute d ev sets)) as [[u o]| | | |]; cbn [mbind res_bind snd] in H2;
      (destruct (tb_step t' (compute (opposite d) ev sets)) as [[u' o']| | | |]; cbn [mbind res_bind snd] in H2); try (by injection H2 as ->); try done.
    injection H2 as ->. destruct (H1' _ _ eq_refl) as [D1 (F1 & F2 & F3 & F4)]. destruct (H2' _ _ eq_refl) as [D2 (G1 & G2 & G3 & G4)].
    eexists. split; [done|]. split; [|done]. split_and!; try done; rewrite <-?F1, <-?F2, <-?F3, <-?F4, <-?G1, <-?G2, <-?G3, <-?G4; done. }
  destruct c as [pv|f|m|ev sets|ev sets]; cbn [mirror].
  - cbn [tb_step]. unfold tb_assign_pv. rewrite E1. destruct (negb _); eexists; (split; [done|]); (split; [|done]); [done|].
    split_and!; try done; try (cbn; congruence).
    intros Hb. cbn in *. rewrite <-E1. by apply C2.
  - cbn [tb_step]. unfold tb_assign_flux. rewrite E1. change (cv_num_connections (neg_values f)) with (cv_num_connections f).
    destruct (negb _); eexists; (split; [done|]); (split; [|done]); [done|]. split_and!; try done.
  - cbn [tb_step]. eexists. split; [done|]. split; [|done]. unfold tb_assign_inflow. rewrite split_mirror. split_and!; try done.
  - exact (Hc Injection ev sets).
  - exact (Hc Production ev sets).
Qed.

Lemma run_mirror cs : ∀ t t', grid_ok (tb_g t) → mirrored t t' →
  match tb_run t cs with
  | Ok (u, os) => ∃ u', tb_run t' (map mirror cs) = Ok (u', os) ∧ mirrored u u' ∧ tb_g u = tb_g t
  | Throw e => tb_run t' (map mirror cs) = Throw e | UB => tb_run t' (map mirror cs) = UB
  | AssertFail => tb_run t' (map mirror cs) = AssertFail | NoFuel => tb_run t' (map mirror cs) = NoFuel
  end.
Proof.
  induction cs as [|c cs IH]; intros t t' Hg Hm; cbn [map tb_run]; [by exists t'|].
  pose proof (step_mirror t t' c Hg Hm) as Hs.
  destruct (tb_step t c) as [[u o]| | | |]; cbn [mbind res_bind]; try (by rewrite Hs).
  destruct Hs as (u' & -> & Hu & Eg). cbn [mbind res_bind fst snd]. specialize (IH u u' ltac:(by rewrite Eg) Hu).
  destruct (tb_run u cs) as [[w os]| | | |]; cbn [mbind res_bind fst snd]; try (by rewrite IH).
  destruct IH as (w' & -> & Hw & Ew). cbn [mbind res_bind fst snd]. exists w'. split_and!; try done. congruence.
Qed.
Lemma new_mirror g : mirrored (tb_new g) (tb_new g).
Proof. split_and!; done. Qed.

Lemma observed_mirror g cs : grid_ok g → observed g (map mirror cs) = observed g cs.
Proof.
  intros Hg. unfold observed. pose proof (run_mirror cs (tb_new g) (tb_new g) Hg (new_mirror g)) as H.
  destruct (tb_run (tb_new g) cs) as [[u os]| | | |]; cbn [mbind res_bind]; try (by rewrite H).
  by destruct H as (u' & -> & _).
Qed.
Lemma returns_mirror g cs c : grid_ok g → returns g (map mirror cs) (mirror c) = returns g cs c.
Proof.
  intros Hg. unfold returns. pose proof (run_mirror cs (tb_new g) (tb_new g) Hg (new_mirror g)) as H.
  destruct (tb_run (tb_new g) cs) as [[u os]| | | |]; cbn [mbind res_bind]; try (by rewrite H).
  destruct H as (u' & -> & Hu & Eg). cbn [mbind res_bind fst]. pose proof (step_mirror u u' c ltac:(by rewrite Eg) Hu) as H.
  destruct (tb_step u c) as [[w o]| | | |]; cbn [mbind res_bind]; try (by rewrite H). by destruct H as (w' & -> & _).
Qed.

(** ** Problems *)
Lemma rate_part_mirror d x : rate_part (opposite d) (nopp x) = rate_part d x.
Proof.
  unfold rate_part. destruct d; cbn [opposite]; rewrite ?(ng_lt N L), ?ng_lt', ?(ng_inv N L).
  - destruct (nltb n0 x) eqn:E; [by rewrite (ng_asym N L)|]. by destruct (nltb x n0).
  - destruct (nltb n0 x) eqn:E; [by rewrite (ng_asym N L)|]. done.
Qed.
Lemma find_map {K V V'} `{OrdKey K} (h : V → V') k (m : smap K V) :
  om_find k (map (λ e : K * V, (e.1, h e.2)) m) = h <$> om_find k m.
Proof. induction m as [|[k' v] m IH]; cbn; [done|]. by destruct (kcmp k k'). Qed.
Lemma well_rate_mirror d m id c : well_rate (opposite d) (neg_rates m) id c = well_rate d m id c.
Proof.
  unfold well_rate. assert (om_find id (neg_rates m) = (λ vals : cellset_values, map (λ k : Z * num, (k.1, nopp k.2)) vals) <$> om_find id m) as ->.
  { apply (find_map (λ vals : cellset_values, map (λ k : Z * num, (k.1, nopp k.2)) vals : cellset_values)). }
  destruct (om_find id m) as [vals|]; cbn; [|done].
  assert (om_find c (map (λ k : Z * num, (k.1, nopp k.2)) vals) = nopp <$> om_find c vals) as -> by apply (find_map nopp). destruct (om_find c vals) as [x|]; cbn; [|done]. apply rate_part_mirror.
Qed.
Lemma valid_mirror p : valid p → valid (neg_problem p).
Proof.
  intros [H1 H2 H3 [np H4] [H5 H5'] H6 H7]. split; cbn [neg_problem pb_cells pb_conns pb_pv pb_rates]; try done.
  - by destruct (pb_conns p).
  - by apply Forall_map.
  - exists np. apply Forall_map. eapply Forall_impl; [exact H4|]. intros x Hx. cbn. unfold zlen in *. by rewrite map_length.
  - split.
    + unfold map_ok, neg_rates. rewrite map_map. exact H5.
    + apply Forall_map. eapply Forall_impl; [exact H5'|]. intros e He. unfold map_ok. cbn. rewrite map_map. exact He.
  - intros d id c x Hx. apply (H7 (opposite d) id c x). rewrite <-well_rate_mirror. by destruct d.
Qed.
Lemma poses_mirror p g f : poses p g f → poses (neg_problem p) g (neg_values f).
Proof.
  intros [H1 H2 H3 H4 H5 H6]. split; cbn [neg_problem pb_cells pb_conns]; try done.
  - rewrite H2. unfold zlen. by rewrite map_length.
  - unfold zlen. rewrite map_length. exact H3.
  - intros k x Hk. rewrite list_lookup_fmap in Hk. destruct (pb_conns p !! k) as [y|] eqn:E; [|done]. injection Hk as <-. exact (H4 k y E).
  - intros k x Hk. rewrite list_lookup_fmap in Hk. destruct (pb_conns p !! k) as [y|] eqn:E; [|done]. injection Hk as <-. cbn.
    unfold zlen. rewrite map_length. exact (H5 k y E).
  - intros k x j w Hk Hw. rewrite list_lookup_fmap in Hk. destruct (pb_conns p !! k) as [y|] eqn:E; [|done]. injection Hk as <-.
    cbn in Hw. rewrite list_lookup_fmap in Hw. destruct (y.2 !! j) as [z|] eqn:E'; [|done]. injection Hw as <-.
    rewrite cv_get_mirror, (H6 k y j z E E'). done.
Qed.
Lemma poses_grid p g f : valid p → poses p g f → grid_ok g.
Proof.
  intros Hp HP. split; [rewrite (po_cells _ _ _ HP); pose proof (va_cells _ Hp); lia|].
  intros k Hk. rewrite (po_conns _ _ _ HP) in Hk. rewrite (po_cells _ _ _ HP).
  destruct (lookup_lt_is_Some_2 (pb_conns p) (Z.to_nat k)) as [x Hx]; [unfold zlen in Hk; lia|].
  pose proof (po_ends _ _ _ HP _ _ Hx) as E. rewrite Z2Nat.id in E by lia. exists x.1.1, x.1.2. split; [by destruct x as [[] ?]|].
  apply (proj1 (Forall_forall _ _) (va_ends _ Hp) x). by eapply elem_of_list_lookup_2.
Qed.
Lemma diagnose_mirror d ev p g f sets : valid p → poses p g f →
  diagnose (opposite d) ev g (neg_problem p) (neg_values f) sets = diagnose d ev g p f sets.
Proof.
  intros Hp HP. unfold diagnose.
  pose proof (returns_mirror g [CPoreVolume (pb_pv p); CFlux f; CInflow (pb_rates p)] (compute d ev sets) (poses_grid p g f Hp HP)) as H.
  by destruct d.
Qed.
End mirror.
