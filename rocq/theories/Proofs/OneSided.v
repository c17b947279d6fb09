(** Rates of the opposite sign have no influence on a diagnosis. *)
From Verif.Model Require Import Base Num OMap Containers Solution AssembledConnections Tarjan TracerTofSolver Toolbox.
From Verif.Spec Require Import GraphSpec SccSpec OneSidedSpec.
From Verif.Proofs Require Import Util OMapFacts OrdLaws ToolboxState ToolboxRates SolverRun SolverTop SolverGen ToolboxFlow ToolboxVal SameFlow.
Open Scope Z_scope.

(** ** Sorted lists with the same keys that matter *)
Section sorted.
Context {K : Type} `{OrdLaws K} {B : Type}.
Notation sorted := (StronglySorted (λ a b : K, kcmp a b = Lt)).
Lemma omap_none (h : K → option B) l : (∀ k, k ∈ l → h k = None) → omap h l = [].
Proof.
  induction l as [|k l IH]; intros Hl; [done|]. cbn. rewrite (Hl k) by left. apply IH. intros k' Hk'. apply Hl. by right.
Qed.
Lemma omap_sorted (h : K → option B) l l' : sorted l → sorted l' →
  (∀ k x, h k = Some x → k ∈ l ∧ k ∈ l') → omap h l = omap h l'.
Proof.
  intros Hs Hs' Hin.
  assert (∀ k x, h k = Some x → k ∈ l ↔ k ∈ l') as Hiff by (intros k x Hk; destruct (Hin k x Hk); done). clear Hin.
  revert l' Hs' Hiff. induction Hs as [|a l Hl IH Ha]; intros l' Hs' Hiff.
  - symmetry. apply omap_none. intros k Hk. destruct (h k) as [x|] eqn:E; [|done]. apply (Hiff k x E) in Hk. by apply elem_of_nil in Hk.
  - induction Hs' as [|b l' Hl' IH' Hb].
    + apply omap_none. intros k Hk. destruct (h k) as [x|] eqn:E; [|done]. apply (Hiff k x E) in Hk. by apply elem_of_nil in Hk.
    + rewrite Forall_forall in Ha, Hb.
      destruct (h a) as [x|] eqn:Ea.
      * destruct (kcmp a b) eqn:Eab.
        -- apply kcmp_eq in Eab as <-. cbn. rewrite Ea. f_equal. apply IH; [done|]. intros k y Hk. specialize (Hiff k y Hk).
           rewrite !elem_of_cons in Hiff. split; intros Hkl.
           ++ destruct (proj1 Hiff (or_intror Hkl)) as [->|]; [|done]. exfalso. by apply Ha, klt_irrefl in Hkl.
           ++ destruct (proj2 Hiff (or_intror Hkl)) as [->|]; [|done]. exfalso. by apply Hb, klt_irrefl in Hkl.
        -- exfalso. assert (a ∈ b :: l') as [->|Hal]%elem_of_cons by (apply (Hiff a x Ea); left); [by apply klt_irrefl in Eab|].
           apply Hb in Hal. by apply (klt_irrefl a), (kcmp_trans a b a).
        -- assert (h b = None) as Eb.
           { destruct (h b) as [y|] eqn:Eb; [|done]. exfalso.
             assert (b ∈ a :: l) as [->|Hbl]%elem_of_cons by (apply (Hiff b y Eb); left).
             - by rewrite kcmp_refl in Eab.
             - apply Ha in Hbl. congruence. }
           change (omap h (b :: l')) with (match h b with Some y => y :: omap h l' | None => omap h l' end). rewrite Eb. apply IH'.
           intros k y Hk. rewrite (Hiff k y Hk), elem_of_cons. split; [|by right]. intros [->|]; [congruence|done].
      * change (omap h (a :: l)) with (match h a with Some y => y :: omap h l | None => omap h l end). rewrite Ea. apply IH; [by constructor; [|apply Forall_forall]|].
        intros k y Hk. rewrite <-(Hiff k y Hk), elem_of_cons. split; [by right|]. intros [->|]; [congruence|done].
Qed.
End sorted.

Section sides.
Context {N : Num}.
Lemma well_key d m id c x : rates_ok m → well_rate d m id c = Some x → id ∈ map fst m.
Proof.
  intros [Hm _]. unfold well_rate. destruct (om_find id m) as [vals|] eqn:E; [|done]. intros _.
  apply om_find_elem in E; [|done]. by apply (elem_of_list_fmap_1 fst) in E.
Qed.
Lemma side_cell d m m' c : rates_ok m → rates_ok m' → (∀ id c, well_rate d m' id c = well_rate d m id c) →
  cell_rates d m' c = cell_rates d m c.
Proof.
  intros Hm Hm' E. unfold cell_rates.
  transitivity (omap (λ id, well_rate d m id c) (map fst m')).
  { apply list_omap_ext, Forall2_same_length_lookup. split; [done|]. intros i a b. intros -> [= ->]. apply E. }
  apply omap_sorted; [apply Hm'|apply Hm|]. intros id x Hx. split; [|by eapply well_key]. apply (well_key d m' id c x); [done|]. by rewrite E.
Qed.
Lemma side_only d m m' : rates_ok m → rates_ok m' → (∀ id c, well_rate d m' id c = well_rate d m id c) →
  only d (split_rates m') = only d (split_rates m).
Proof.
  intros Hm Hm' E. destruct (only_find d m Hm) as [W F]. destruct (only_find d m' Hm') as [W' F'].
  apply om_ext; [done..|]. intros c. by rewrite F, F', (side_cell d m m').
Qed.

Lemma diagnose_side p p' g g' f f' d ev sets : valid p → poses p g f → valid p' → poses p' g' f' → same_side d p p' →
  diagnose d ev g p f sets = diagnose d ev g' p' f' sets.
Proof.
  intros Hp HP Hp' HP' [En Epv HF Em]. destruct (flow_same p p' d HF) as [H1 H2].
  assert (∀ v, upstream (pb_cells p) (flow d p) v = upstream (pb_cells p) (flow d p') v) as Hup.
  { intros v. unfold upstream. apply list_filter_iff. intros u. apply H1. }
  assert (∀ h v, mix (pb_cells p) (flow d p) h v = mix (pb_cells p) (flow d p') h v) as Hmix.
  { intros h v. unfold mix. rewrite Hup. f_equal. apply map_ext. intros u. by rewrite H2. }
  assert (∀ v, influx (pb_cells p) (flow d p) v = influx (pb_cells p) (flow d p') v) as Hin.
  { intros v. unfold influx. rewrite Hup. f_equal. apply map_ext. intros u. by rewrite H2. }
  pose proof (side_only d _ _ (va_rates _ Hp) (va_rates _ Hp') Em) as Eo.
  apply diagnose_congr; try done.
  - intros u _. unfold downstream. apply list_filter_iff. intros v. apply H1.
  - intros id c. by rewrite Em.
  - intros id c x x'. rewrite Em. congruence.
  - rewrite Eo, Epv. intros id. split_and!; intros; unfold cell_ok, cellc, cellt, tot, uc, src_eff, is_start; by rewrite ?Hmix, ?Hin, ?Em.
  - rewrite Eo, Epv. split_and!; intros; unfold cell_ok, cellc, cellt, tot, uc; by rewrite ?Hmix, ?Hin.
Qed.

(** ** Leaving out the rates of the opposite sign *)
Lemma filtered_ok (P : num → Prop) `{∀ x, Decision (P x)} (vals : cellset_values) : map_ok vals → map_ok (filter (λ k : Z * num, P k.2) vals).
Proof.
  unfold map_ok. induction vals as [|[k x] vals IH]; intros Hv; [constructor|]. inv Hv. destruct (decide (P x)) as [Hx|Hx]; [rewrite (filter_cons_True (λ k0 : Z * num, P k0.2) (k, x) vals Hx)|rewrite (filter_cons_False (λ k0 : Z * num, P k0.2) (k, x) vals Hx); by apply IH].
  constructor; [by apply IH|]. rewrite Forall_forall in *. intros k' (e & -> & He)%elem_of_list_fmap. apply elem_of_list_filter in He as [_ He].
  match goal with H : ∀ _, _ ∈ map fst vals → _ |- _ => apply H end. by apply elem_of_list_fmap_1.
Qed.
Lemma find_filtered (P : num → Prop) `{∀ x, Decision (P x)} (vals : cellset_values) c : map_ok vals →
  om_find c (filter (λ k : Z * num, P k.2) vals) = match om_find c vals with Some x => if decide (P x) then Some x else None | None => None end.
Proof.
  intros Hv. pose proof (filtered_ok P vals Hv) as Hw.
  destruct (om_find c vals) as [x|] eqn:E.
  - apply om_find_elem in E; [|done]. destruct (decide (P x)) as [Hx|Hx].
    + apply om_find_elem; [done|]. by apply elem_of_list_filter.
    + apply om_find_none; [done|]. intros ([k y] & -> & [Hy Hin]%elem_of_list_filter)%elem_of_list_fmap. cbn in *.
      apply om_find_elem in E; [|done]. apply om_find_elem in Hin; [|done]. congruence.
  - apply om_find_none; [done|]. apply om_find_none in E; [|done]. intros (e & -> & [_ Hin]%elem_of_list_filter)%elem_of_list_fmap.
    apply E. by apply elem_of_list_fmap_1.
Qed.
Lemma stripped_find d p id : om_find id (pb_rates (stripped d p)) =
  match om_find id (pb_rates p) with Some vals => Some (filter (λ k : Z * num, is_Some (rate_part d k.2)) vals) | None => None end.
Proof. cbn [stripped pb_rates]. induction (pb_rates p) as [|[k v] m IH]; [done|]. cbn. by destruct (kcmp id k). Qed.
Lemma stripped_rate d p id c : valid p → well_rate d (pb_rates (stripped d p)) id c = well_rate d (pb_rates p) id c.
Proof.
  intros Hp. destruct (va_rates _ Hp) as [Hm Hv]. unfold well_rate. rewrite stripped_find.
  destruct (om_find id (pb_rates p)) as [vals|] eqn:E; [|done]. apply om_find_elem in E; [|done].
  pose proof (find_filtered (λ x, is_Some (rate_part d x)) vals c (proj1 (Forall_forall _ _) Hv _ E)) as F; cbv beta in F; rewrite F; clear F.
  destruct (om_find c vals) as [x|]; [|done]. destruct (decide _) as [Hx|Hx]; [done|]. by apply eq_None_not_Some in Hx.
Qed.
Lemma stripped_sub d d' p id c x : valid p → well_rate d' (pb_rates (stripped d p)) id c = Some x → well_rate d' (pb_rates p) id c = Some x.
Proof.
  intros Hp. destruct (va_rates _ Hp) as [Hm Hv]. unfold well_rate. rewrite stripped_find.
  destruct (om_find id (pb_rates p)) as [vals|] eqn:E; [|done]. apply om_find_elem in E; [|done].
  pose proof (find_filtered (λ x, is_Some (rate_part d x)) vals c (proj1 (Forall_forall _ _) Hv _ E)) as F; cbv beta in F; rewrite F; clear F.
  destruct (om_find c vals) as [y|]; [|done]. by destruct (decide _).
Qed.
Lemma stripped_valid d p : valid p → valid (stripped d p).
Proof.
  intros Hp. pose proof Hp as [H1 H2 H3 H4 [H5 H6] H7 H8]. split; try done.
  - split.
    + unfold map_ok, stripped. cbn [pb_rates]. rewrite map_map. exact H5.
    + apply Forall_forall. intros e' (e & -> & He)%elem_of_list_fmap. cbn [snd]. exact (filtered_ok (λ x, is_Some (rate_part d x)) e.2 (proj1 (Forall_forall _ _) H6 _ He)).
  - intros d' id c x Hx. apply (H8 d' id c x). by apply (stripped_sub d).
Qed.
Lemma stripped_poses d p g f : poses p g f → poses (stripped d p) g f.
Proof. by intros []. Qed.
Lemma stripped_side d p : valid p → same_side d p (stripped d p).
Proof. intros Hp. split; [done|done|by apply same_arcs|]. intros id c. by apply stripped_rate. Qed.
(** No well is left in the other direction. *)
Lemma stripped_none d d' p id : valid p → d ≠ d' → ¬ is_well d' (pb_rates (stripped d p)) id.
Proof.
  intros Hp Hd (c & x & Hx). destruct (va_rates _ Hp) as [Hm Hv]. revert Hx. unfold well_rate. rewrite stripped_find.
  destruct (om_find id (pb_rates p)) as [vals|] eqn:E; [|done]. apply om_find_elem in E; [|done].
  pose proof (find_filtered (λ x, is_Some (rate_part d x)) vals c (proj1 (Forall_forall _ _) Hv _ E)) as F; cbv beta in F; rewrite F; clear F.
  destruct (om_find c vals) as [y|]; [|done]. destruct (decide _) as [[z Hz]|]; [|done]. revert Hz.
  destruct d, d'; try done; cbn; destruct (nltb n0 y); try done; by destruct (nltb y n0).
Qed.
End sides.
