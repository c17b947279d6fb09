(** The four maps built from the well rates. *)
From Coq Require String.
From Verif.Model Require Import Base Num OMap Containers Solution AssembledConnections TracerTofSolver Toolbox.
From Verif.Spec Require Import ToolboxSpec.
From Verif.Proofs Require Import Util OMapFacts ToolboxState.
Open Scope Z_scope.

#[global] Instance cellset_id_eq_dec : EqDecision cellset_id := String.string_dec.

Section rates.
Context {N : Num}.
Notation entry := (cellset_id * (Z * num))%type.

(** All rates, in the order of the loops. *)
Definition entries (m : flux_map) : list entry := m ≫= λ iv, map (pair iv.1) iv.2.
Definition at_cell (d : direction) (c : Z) (e : entry) : option num :=
  if decide (e.2.1 = c) then rate_part d e.2.2 else None.
Definition at_both (d : direction) (id : cellset_id) (c : Z) (e : entry) : option num :=
  if decide (e.1 = id) then at_cell d c e else None.

Lemma split_entries m : split_rates m = foldl (λ r (e : entry), add_rate e.1 r e.2) (mkRates [] [] [] []) (entries m).
Proof.
  unfold split_rates, entries. generalize (mkRates [] [] [] []). induction m as [|[id vals] m IH]; intros r; [done|].
  cbn. rewrite foldl_app, <-IH. f_equal. clear. revert r. induction vals as [|x vals IH]; intros r; [done|]. cbn. apply IH.
Qed.

Definition total_of (l : list num) : option num := match l with [] => None | _ => Some (sum_left l) end.

Lemma total_snoc l x : total_of (l ++ [x]) = Some (nadd (match total_of l with Some y => y | None => n0 end) x).
Proof.
  unfold total_of, sum_left. destruct l as [|y l]; [done|]. cbn [app foldl]. by rewrite foldl_app.
Qed.

Record rates_inv (L : list entry) (r : rates) : Prop := {
  ri_only d : om_wf (only d r) ∧ ∀ c, om_find c (only d r) = total_of (omap (at_cell d c) L);
  ri_wf d : om_wf (by_id d r);
  ri_none d id : om_find id (by_id d r) = None → ∀ c, omap (at_both d id c) L = [];
  ri_some d id vals : om_find id (by_id d r) = Some vals →
    om_wf vals ∧ (∃ c, omap (at_both d id c) L ≠ []) ∧ ∀ c, om_find c vals = head (omap (at_both d id c) L)
}.

Lemma plus_find c c' x (m : cellset_values) : om_wf m →
  om_find c' (om_plus c x m) = if decide (c = c') then Some (nadd (match om_find c m with Some y => y | None => n0 end) x) else om_find c' m.
Proof.
  intros Hm. unfold om_plus. destruct (decide (c = c')) as [<-|Hne]; [by rewrite om_find_alter|by rewrite om_find_alter_ne].
Qed.

Lemma head_snoc {X} (l : list X) x : head (l ++ [x]) = Some (default x (head l)).
Proof. by destruct l. Qed.

(** Adding one rate in direction [d] changes only the maps of [d]. *)
Lemma rate_step d (L : list entry) (m1 : cellset_values) (m2 : flux_map) id c v x :
  rate_part d v = Some x →
  (om_wf m1 ∧ ∀ c', om_find c' m1 = total_of (omap (at_cell d c') L)) →
  om_wf m2 →
  (∀ id', om_find id' m2 = None → ∀ c', omap (at_both d id' c') L = []) →
  (∀ id' vals, om_find id' m2 = Some vals →
    om_wf vals ∧ (∃ c', omap (at_both d id' c') L ≠ []) ∧ ∀ c', om_find c' vals = head (omap (at_both d id' c') L)) →
  let L' := L ++ [(id, (c, v))] in
  let m1' := om_plus c x m1 in let m2' := om_insert_in id c x m2 in
  (om_wf m1' ∧ ∀ c', om_find c' m1' = total_of (omap (at_cell d c') L')) ∧
  om_wf m2' ∧
  (∀ id', om_find id' m2' = None → ∀ c', omap (at_both d id' c') L' = []) ∧
  (∀ id' vals, om_find id' m2' = Some vals →
    om_wf vals ∧ (∃ c', omap (at_both d id' c') L' ≠ []) ∧ ∀ c', om_find c' vals = head (omap (at_both d id' c') L')).
Proof.
  intros Hx [Hw1 Hf1] Hw2 Hn Hs L' m1' m2'.
  assert (∀ id' c', omap (at_both d id' c') L' = omap (at_both d id' c') L ++ (if decide (id = id' ∧ c = c') then [x] else [])) as Hb.
  { intros id' c'. unfold L'. rewrite omap_app. f_equal. cbn. unfold at_both, at_cell. cbn.
    destruct (decide (id = id')) as [->|]; [|by rewrite decide_False by tauto].
    destruct (decide (c = c')) as [->|]; [|by rewrite decide_False by tauto]. by rewrite decide_True, Hx by done. }
  assert (∀ c', omap (at_cell d c') L' = omap (at_cell d c') L ++ (if decide (c = c') then [x] else [])) as Hcl.
  { intros c'. unfold L'. rewrite omap_app. f_equal. cbn. unfold at_cell. cbn.
    destruct (decide (c = c')) as [->|]; [|done]. by rewrite Hx. }
  split_and!.
  - by apply om_alter_wf.
  - intros c'. unfold m1'. rewrite plus_find, Hcl by done.
    destruct (decide (c = c')) as [<-|].
    + rewrite total_snoc. by rewrite Hf1.
    + by rewrite app_nil_r.
  - by apply om_alter_wf.
  - intros id' Hid c'. rewrite Hb. unfold m2', om_insert_in in Hid.
    destruct (decide (id = id')) as [<-|Hne]; [by rewrite om_find_alter in Hid|].
    rewrite om_find_alter_ne in Hid by done. rewrite (Hn id' Hid). by rewrite decide_False by tauto.
  - intros id' vals Hid. unfold m2', om_insert_in in Hid. destruct (decide (id = id')) as [<-|Hne].
    + rewrite om_find_alter in Hid by done. injection Hid as <-.
      set (old := match om_find id m2 with Some y => y | None => [] end).
      assert (om_wf old ∧ ∀ c', om_find c' old = head (omap (at_both d id c') L)) as [Hwo Hfo].
      { unfold old. destruct (om_find id m2) as [y|] eqn:E; [by destruct (Hs id y E) as (? & _ & ?)|].
        split; [apply om_nil_wf|]. intros c'. by rewrite (Hn id E c'). }
      split_and!; [by apply om_insert_wf| |].
      * exists c. rewrite Hb, decide_True by done. by destruct (omap _ _).
      * intros c'. rewrite Hb. destruct (decide (c = c')) as [<-|Hne].
        -- rewrite om_find_insert_eq by done. rewrite decide_True by done. rewrite head_snoc, Hfo. by destruct (head _).
        -- rewrite om_find_insert_ne by done. rewrite decide_False by tauto. by rewrite app_nil_r.
    + rewrite om_find_alter_ne in Hid by done. destruct (Hs id' vals Hid) as (H1 & (c0 & H2) & H3).
      split_and!; [done| |].
      * exists c0. rewrite Hb. by destruct (omap _ _).
      * intros c'. rewrite Hb, decide_False by tauto. by rewrite app_nil_r.
Qed.

Lemma rate_skip d (L : list entry) id c v : rate_part d v = None →
  (∀ c', omap (at_cell d c') (L ++ [(id, (c, v))]) = omap (at_cell d c') L) ∧
  (∀ id' c', omap (at_both d id' c') (L ++ [(id, (c, v))]) = omap (at_both d id' c') L).
Proof.
  intros H. split.
  - intros c'. rewrite omap_app. assert (omap (at_cell d c') [(id, (c, v))] = []) as ->; [|apply app_nil_r].
    cbn. unfold at_cell. cbn. rewrite H. by destruct (decide _).
  - intros id' c'. rewrite omap_app. assert (omap (at_both d id' c') [(id, (c, v))] = []) as ->; [|apply app_nil_r].
    cbn. unfold at_both, at_cell. cbn. rewrite H. by destruct (decide (id = id')), (decide (c = c')).
Qed.

Lemma add_rate_inv L r e : rates_inv L r → rates_inv (L ++ [e]) (add_rate e.1 r e.2).
Proof.
  intros [Ho Hw Hn Hs]. destruct e as [id [c v]]. cbn [fst snd].
  assert (∀ d m1 m2, only d r = m1 → by_id d r = m2 → rate_part d v = None →
    (om_wf m1 ∧ ∀ c', om_find c' m1 = total_of (omap (at_cell d c') (L ++ [(id, (c, v))]))) ∧
    om_wf m2 ∧
    (∀ id', om_find id' m2 = None → ∀ c', omap (at_both d id' c') (L ++ [(id, (c, v))]) = []) ∧
    (∀ id' vals, om_find id' m2 = Some vals →
      om_wf vals ∧ (∃ c', omap (at_both d id' c') (L ++ [(id, (c, v))]) ≠ []) ∧
      ∀ c', om_find c' vals = head (omap (at_both d id' c') (L ++ [(id, (c, v))])))) as Hskip.
  { intros d m1 m2 <- <- Hv. destruct (rate_skip d L id c v Hv) as [E1 E2].
    destruct (Ho d) as [Ho1 Ho2]. split_and!; try done.
    - intros c'. by rewrite E1.
    - intros id' Hid c'. rewrite E2. by apply Hn.
    - intros id' vals Hid. destruct (Hs d id' vals Hid) as (H1 & (c0 & H2) & H3). split_and!; [done|exists c0; by rewrite E2|].
      intros c'. by rewrite E2. }
  unfold add_rate. destruct (nltb n0 v) eqn:E1; [|destruct (nltb v n0) eqn:E2].
  - destruct (rate_step Injection L (r_in r) (r_inj r) id c v v) as (A1 & A2 & A3 & A4); cbn [rate_part]; rewrite ?E1; try done.
    { apply (Ho Injection). } { apply (Hw Injection). } { apply (Hn Injection). } { apply (Hs Injection). }
    destruct (Hskip Production _ _ eq_refl eq_refl) as (B1 & B2 & B3 & B4). { cbn. by rewrite E1. }
    split; intros []; done.
  - destruct (rate_step Production L (r_out r) (r_prod r) id c v (nopp v)) as (A1 & A2 & A3 & A4); cbn [rate_part]; rewrite ?E1, ?E2; try done.
    { apply (Ho Production). } { apply (Hw Production). } { apply (Hn Production). } { apply (Hs Production). }
    destruct (Hskip Injection _ _ eq_refl eq_refl) as (B1 & B2 & B3 & B4). { cbn. by rewrite E1. }
    split; intros []; done.
  - destruct (Hskip Injection _ _ eq_refl eq_refl) as (A1 & A2 & A3 & A4). { cbn. by rewrite E1. }
    destruct (Hskip Production _ _ eq_refl eq_refl) as (B1 & B2 & B3 & B4). { cbn. by rewrite E1, E2. }
    split; intros []; done.
Qed.

Lemma split_inv m : rates_inv (entries m) (split_rates m).
Proof.
  rewrite split_entries. generalize (entries m). intros L. induction L as [|e L IH] using rev_ind.
  - split; intros []; cbn; try done; (split; [apply om_nil_wf|done]) || apply om_nil_wf.
  - rewrite foldl_app. cbn [foldl]. by apply add_rate_inv.
Qed.

(** ** In terms of the input *)
Definition olist {X} (o : option X) : list X := match o with Some x => [x] | None => [] end.

Lemma vals_at d c id (vals : cellset_values) : om_wf vals →
  omap (at_cell d c) (map (pair id) vals) = olist (match om_find c vals with Some x => rate_part d x | None => None end).
Proof.
  induction vals as [|[k v] vals IH]; intros Hwf; [done|].
  pose proof Hwf as Hwf0. apply StronglySorted_inv in Hwf as [Hwf Hlt]. specialize (IH Hwf). cbn [map omap list_omap].
  unfold at_cell at 1. cbn [fst snd]. destruct (decide (k = c)) as [->|Hne].
  - assert (om_find c ((c, v) :: vals) = Some v) as -> by (apply om_find_elem; [done|left]).
    assert (om_find c vals = None) as E.
    { apply om_find_none; [done|]. intros Hin. pose proof (proj1 (Forall_forall _ _) Hlt _ Hin) as HH. by apply klt_irrefl in HH. }
    rewrite E in IH. cbn in IH. fold (omap (at_cell d c) (map (pair id) vals)). rewrite IH. by destruct (rate_part d v).
  - assert (om_find c ((k, v) :: vals) = om_find c vals) as ->; [|done].
    destruct (om_find c vals) as [y|] eqn:E.
    + apply om_find_elem; [done|]. right. by apply om_find_elem.
    + apply om_find_none; [done|]. apply om_find_none in E; [|done]. cbn. rewrite elem_of_cons. naive_solver.
Qed.

Lemma entries_cell d c m : rates_ok m → omap (at_cell d c) (entries m) = cell_rates d m c.
Proof.
  intros [Hm Hv]. unfold cell_rates.
  assert (∀ l, (∀ iv, iv ∈ l → iv ∈ m) → omap (at_cell d c) (entries l) = omap (λ id, well_rate d m id c) (map fst l)) as H.
  { induction l as [|[id vals] l IH]; intros Hl; [done|]. unfold entries. rewrite bind_cons, omap_app. cbn [fst snd]. fold (entries l).
    assert ((id, vals) ∈ m) as Hin by (apply Hl; left).
    rewrite vals_at by (exact (proj1 (Forall_forall _ _) Hv _ Hin)).
    cbn [map fst omap list_omap]. fold (omap (λ id, well_rate d m id c) (map fst l)).
    unfold well_rate at 1. rewrite (proj2 (om_find_elem m id vals Hm) Hin).
    rewrite IH by (intros; apply Hl; by right).
    destruct (om_find c vals) as [x|]; [|done]. by destruct (rate_part d x). }
  by apply H.
Qed.

Lemma entries_both d id c m : rates_ok m → omap (at_both d id c) (entries m) = olist (well_rate d m id c).
Proof.
  intros [Hm Hv]. revert Hm Hv. induction m as [|[k vals] m IH]; intros Hm Hv; [done|].
  inversion Hv as [|? ? Hvals Hv' E]. cbn in Hvals. pose proof Hm as Hm0. apply StronglySorted_inv in Hm as [Hm Hlt].
  specialize (IH Hm Hv'). unfold entries. rewrite bind_cons. rewrite omap_app. cbn [fst snd]. fold (entries m).
  destruct (decide (k = id)) as [->|Hne].
  - assert (omap (at_both d id c) (map (pair id) vals) = omap (at_cell d c) (map (pair id) vals)) as ->.
    { clear. induction vals as [|x vals IH]; [done|]. cbn. unfold at_both at 1. cbn. rewrite decide_True by done.
      destruct (at_cell d c (id, x)); by rewrite IH. }
    rewrite vals_at by done. unfold well_rate at 1.
    assert (om_find id ((id, vals) :: m) = Some vals) as -> by (apply om_find_elem; [done|left]).
    assert (om_find id m = None) as E2.
    { apply om_find_none; [done|]. intros Hin. pose proof (proj1 (Forall_forall _ _) Hlt _ Hin) as HH. by apply klt_irrefl in HH. }
    rewrite IH. unfold well_rate. rewrite E2. apply app_nil_r.
  - assert (omap (at_both d id c) (map (pair k) vals) = []) as ->.
    { clear -Hne. induction vals as [|x vals IH]; [done|]. cbn. unfold at_both at 1. cbn. by rewrite decide_False. }
    cbn [app]. rewrite IH. unfold well_rate.
    assert (om_find id ((k, vals) :: m) = om_find id m) as ->; [|done].
    destruct (om_find id m) as [y|] eqn:E2.
    + apply om_find_elem; [done|]. right. by apply om_find_elem.
    + apply om_find_none; [done|]. apply om_find_none in E2; [|done]. cbn. rewrite elem_of_cons. naive_solver.
Qed.

Lemma only_find d m : rates_ok m →
  om_wf (only d (split_rates m)) ∧ ∀ c, om_find c (only d (split_rates m)) = total_of (cell_rates d m c).
Proof.
  intros Hm. destruct (ri_only _ _ (split_inv m) d) as [H1 H2]. split; [done|]. intros c. by rewrite H2, entries_cell.
Qed.
Lemma only_value d m c : rates_ok m → value_at (only d (split_rates m)) c = cell_total d m c.
Proof.
  intros Hm. unfold value_at. rewrite (proj2 (only_find d m Hm)). unfold total_of, cell_total. by destruct (cell_rates d m c).
Qed.

Lemma by_id_find d m id : rates_ok m →
  match om_find id (by_id d (split_rates m)) with
  | Some vals => om_wf vals ∧ is_well d m id ∧ ∀ c, om_find c vals = well_rate d m id c
  | None => ¬ is_well d m id
  end.
Proof.
  intros Hm. pose proof (split_inv m) as [_ _ Hn Hs]. destruct (om_find id (by_id d (split_rates m))) as [vals|] eqn:E.
  - destruct (Hs d id vals E) as (H1 & (c & H2) & H3). split_and!; [done| |].
    + rewrite entries_both in H2 by done. exists c. destruct (well_rate d m id c) as [x|]; [by exists x|done].
    + intros c'. rewrite H3, entries_both by done. by destruct (well_rate d m id c').
  - intros (c & x & Hx). specialize (Hn d id E c). rewrite entries_both, Hx in Hn by done. done.
Qed.

Lemma cell_rates_elem d m c x : x ∈ cell_rates d m c ↔ ∃ id, well_rate d m id c = Some x.
Proof.
  unfold cell_rates. rewrite elem_of_list_omap. split.
  - intros (id & _ & H). by exists id.
  - intros (id & H). exists id. split; [|done]. unfold well_rate in H. destruct (om_find id m) as [vals|] eqn:E; [|done].
    clear H. induction m as [|[k v] m IH]; [done|]. cbn in E |- *. apply elem_of_cons. destruct (kcmp id k) eqn:Ek; [|done|].
    + left. by apply kcmp_eq in Ek.
    + right. by apply IH.
Qed.

Lemma only_range d m n : rates_ok m → (∀ id c x, well_rate d m id c = Some x → 0 ≤ c < n) →
  ∀ c, c ∈ map fst (only d (split_rates m)) → 0 ≤ c < n.
Proof.
  intros Hm Hr c Hc. destruct (only_find d m Hm) as [H1 H2]. destruct (om_find c (only d (split_rates m))) as [y|] eqn:E.
  - rewrite H2 in E. unfold total_of in E. destruct (cell_rates d m c) as [|x l] eqn:El; [done|].
    destruct (proj1 (cell_rates_elem d m c x)) as [id Hid]; [rewrite El; left|]. by eapply Hr.
  - by apply om_find_none in E.
Qed.

(** ** Acceptance of start sets *)
Lemma start_sets_iff d m sets : rates_ok m →
  start_sets_ok (by_id d (split_rates m)) (only d (split_rates m)) sets = true ↔
  ∀ st, st ∈ sets → is_well d m (cs_id st) ∧ ∀ c, c ∈ cs_cells st → ∃ id x, well_rate d m id c = Some x.
Proof.
  intros Hm. unfold start_sets_ok. rewrite forallb_forall. setoid_rewrite <-elem_of_list_In.
  apply forall_proper. intros st. apply forall_proper. intros _.
  rewrite andb_true_iff, forallb_forall. setoid_rewrite <-elem_of_list_In. f_equiv.
  - pose proof (by_id_find d m (cs_id st) Hm) as H. destruct (om_find _ _); [|done]. tauto.
  - apply forall_proper. intros c. apply forall_proper. intros _. unfold om_count. rewrite (proj2 (only_find d m Hm)).
    pose proof (cell_rates_elem d m c) as Hc. unfold total_of. destruct (cell_rates d m c) as [|x l].
    + split; [done|]. intros (id & x & H). assert (x ∈ []) as Hx by (apply Hc; by exists id). by apply elem_of_nil in Hx.
    + split; [|done]. intros _. destruct (proj1 (Hc x)) as [id H]; [left|]. by exists id, x.
Qed.
End rates.
