(** tarjan.c with the rule of C for pointers. *)
From Verif.Model Require Import Base Tarjan TarjanStrict.
From Verif.Spec Require Import SccSpec TarjanSpec StrictSpec.
From Verif.Proofs Require Import Util TarjanAbs TarjanSim TarjanProps.
Open Scope Z_scope.

(** ** The stricter run goes wrong or does the same *)
Definition stricter {A} (r r' : res A) : Prop := r = UB ∨ r = r'.
Lemma stricter_refl {A} (r : res A) : stricter r r. Proof. by right. Qed.
Lemma stricter_bind {A B} (r r' : res A) (k k' : A → res B) : stricter r r' → (∀ x, stricter (k x) (k' x)) →
  stricter (r ≫= k) (r' ≫= k').
Proof. intros [->| ->] H; [by left|]. destruct r' as [x| | | |]; [apply H|by right..]. Qed.
Lemma stricter_check {A} (r : res A) (b : A → res unit) : (∀ x, b x = Ok tt ∨ b x = UB) →
  stricter (r ≫= λ x, b x ≫= λ _, Ok x) r.
Proof. intros H. destruct r as [x| | | |]; [|by right..]. cbn. destruct (H x) as [->| ->]; [by right|by left]. Qed.
Lemma form_cases {A} (a : list A) i : form a i = Ok tt ∨ form a i = UB.
Proof. unfold form. destruct (_ && _); auto. Qed.
Lemma form_of {A} (a : list A) i : 0 ≤ i ≤ zlen a → form a i = Ok tt.
Proof. intros H. unfold form. destruct (Z.leb_spec 0 i), (Z.leb_spec i (zlen a)); try lia. done. Qed.
Lemma form_not {A} (a : list A) i : i < 0 → form a i = UB.
Proof. intros H. unfold form. destruct (Z.leb_spec 0 i); [lia|done]. Qed.

Ltac stricter_tac := repeat first
  [ apply stricter_refl
  | match goal with |- stricter (_ ≫= _) (_ ≫= _) => apply stricter_bind; [|intros] end
  | match goal with |- stricter (if ?b then _ else _) _ => destruct b end
  | match goal with |- context [let '(_, _) := ?x in _] => destruct x end ].

Lemma push_v_strict s x : stricter (push_v_c s x) (push_v s x).
Proof. apply (stricter_check (push_v s x) (λ s', form (s_start s') (s_vstack s'))). intros. apply form_cases. Qed.
Lemma push_c_strict s x : stricter (push_c_c s x) (push_c s x).
Proof. apply (stricter_check (push_c s x) (λ s', form (s_vert s') (s_cstack s'))). intros. apply form_cases. Qed.
Lemma descend_strict c ia ja w s : stricter (dfs_from_descendant_c c ia ja w s) (dfs_from_descendant c ia ja w s).
Proof. unfold dfs_from_descendant_c, dfs_from_descendant. stricter_tac. apply push_v_strict. Qed.
Lemma discover_strict c ia tm w s : stricter (discover_vertex_c c ia tm w s) (discover_vertex c ia tm w s).
Proof. unfold discover_vertex_c, discover_vertex. stricter_tac. apply push_c_strict. Qed.
Lemma init_strict w s : stricter (tarjan_initialise_c w s) (tarjan_initialise w s).
Proof.
  unfold tarjan_initialise_c, tarjan_initialise, initialise_stacks_c.
  destruct (form_cases (s_start s) (w_nvert w)) as [->| ->]; [|by left].
  destruct (form_cases (s_vert s) (w_nvert w - 1)) as [->| ->]; [|by left]. cbn. stricter_tac.
Qed.
Lemma iter_strict ia ja t : stricter (tarjan_iter_c ia ja t) (tarjan_iter ia ja t).
Proof.
  unfold tarjan_iter_c, tarjan_iter. stricter_tac; first [apply discover_strict|apply descend_strict].
Qed.
Lemma loop_strict fuel ia ja : ∀ t, stricter (tarjan_loop_c fuel ia ja t) (tarjan_loop fuel ia ja t).
Proof.
  induction fuel as [|f IH]; intros t; cbn [tarjan_loop_c tarjan_loop]; destruct (_ =? _); try apply stricter_refl.
  apply stricter_bind; [apply iter_strict|apply IH].
Qed.
Lemma local_strict fuel start ia ja w s k : stricter (tarjan_local_c fuel start ia ja w s k) (tarjan_local fuel start ia ja w s k).
Proof. unfold tarjan_local_c, tarjan_local. stricter_tac; [apply push_v_strict|apply loop_strict]. Qed.
Lemma global_loop_strict k fuel ia ja : ∀ start t, stricter (global_loop_c k fuel start ia ja t) (global_loop k fuel start ia ja t).
Proof.
  induction k as [|k IH]; intros start t; cbn [global_loop_c global_loop]; destruct (_ <? _); try apply stricter_refl.
  stricter_tac; [apply local_strict|apply IH].
Qed.
Lemma tarjan_strict h nv ia ja : stricter (tarjan_c h nv ia ja) (tarjan h nv ia ja).
Proof.
  unfold tarjan_c, tarjan. destruct (_ && _); [|apply stricter_refl]. apply stricter_bind; [|intros; apply stricter_refl].
  unfold tarjan_global_c, tarjan_global. apply stricter_bind; [apply init_strict|]. intros [w1 s1].
  apply stricter_bind; [apply stricter_refl|]. intros. apply global_loop_strict.
Qed.
Lemma foldM_strict {A S} (f f' : S → A → res S) l : (∀ s x, stricter (f s x) (f' s x)) → ∀ s, stricter (foldM f s l) (foldM f' s l).
Proof. intros H. induction l as [|x l IH]; intros s; [apply stricter_refl|]. cbn [foldM]. apply stricter_bind; [apply H|apply IH]. Qed.
Lemma reachable_strict h nv ia ja starts w : stricter (tarjan_reachable_sccs_c h nv ia ja starts w) (tarjan_reachable_sccs h nv ia ja starts w).
Proof.
  unfold tarjan_reachable_sccs_c, tarjan_reachable_sccs. apply stricter_bind; [apply stricter_refl|]. intros _. destruct (scc_ok h 5); [|apply stricter_refl].
  apply stricter_bind; [|intros; apply stricter_refl]. unfold reachable_run_c, reachable_run. apply stricter_bind; [apply init_strict|]. intros [w1 s1].
  apply foldM_strict. intros t x. unfold reachable_step_c, reachable_step. apply stricter_bind; [apply stricter_refl|]. intros st.
  destruct (_ =? _); [apply stricter_refl|apply local_strict].
Qed.

(** The check at the end of a function. *)
Lemma bind_assoc {A B C} (r : res A) (k : A → res B) (k' : B → res C) : (r ≫= k) ≫= k' = r ≫= (λ x, k x ≫= k').
Proof. by destruct r. Qed.
Lemma discover_c_eq c ia tm w s : discover_vertex_c c ia tm w s =
  discover_vertex c ia tm w s ≫= λ r, form (s_vert r.1.2) (s_cstack r.1.2) ≫= λ _, Ok r.
Proof.
  unfold discover_vertex_c, discover_vertex, push_c_c. rewrite !bind_assoc.
  destruct (zget ia (c + 1)); cbn; [|done..]. destruct (zget ia c); cbn; [|done..].
  destruct (set_status _ _ _) as [w1| | | |]; cbn; [|done..]. destruct (set_link _ _ _) as [w2| | | |]; cbn; [|done..].
  destruct (set_time _ _ _) as [w3| | | |]; cbn; [|done..]. destruct (int_add tm 1); cbn; [|done..].
  destruct (push_c s (to_int c)) as [s1| | | |]; cbn; [|done..]. by destruct (form_cases (s_vert s1) (s_cstack s1)) as [->| ->].
Qed.
Lemma push_v_c_ok s x s' : push_v s x = Ok s' → form (s_start s') (s_vstack s') = Ok tt → push_v_c s x = Ok s'.
Proof. intros E F. unfold push_v_c. rewrite E. cbn. by rewrite F. Qed.
Lemma descend_c_ok c ia ja w s w' s' : dfs_from_descendant c ia ja w s = Ok (w', s') → form (s_start s') (s_vstack s') = Ok tt →
  dfs_from_descendant_c c ia ja w s = Ok (w', s').
Proof.
  unfold dfs_from_descendant, dfs_from_descendant_c. intros E F. revert E.
  destruct (zget (w_status w) c); cbn; [|done..]. destruct (assert_ _); cbn; [|done..]. destruct (zget ia c); cbn; [|done..].
  destruct (zget ja _) as [ch| | | |]; cbn; [|done..]. destruct (set_status _ _ _) as [w1| | | |]; cbn; [|done..].
  destruct (zget (w_status w1) _) as [sc| | | |]; cbn; [|done..]. destruct (sc =? REMAINING); [|done].
  destruct (push_v s (to_size ch)) as [s1| | | |] eqn:E1; cbn; [|done..]. intros [= <- <-]. by rewrite (push_v_c_ok _ _ _ E1 F).
Qed.

Section sim.
Context (nv nw : Z) (ia ja : list Z) (WF : wf_graph nv ia ja) (Hnw : nv ≤ nw).
Notation E := (csr_row ia ja).
Notation n := (Z.to_nat nw).
Notation rep := (rep nw).
Notation Inv := (Inv E nv).

Lemma vstack_form w s a : rep w s a → (length (a_V a) ≤ n)%nat → form (s_start s) (s_vstack s) = Ok tt.
Proof.
  intros R Hb. pose proof (wf_nv _ _ _ WF). apply form_of. unfold zlen. rewrite (r_ls _ _ _ _ R). destruct (r_V _ _ _ _ R) as [-> _]. unfold zlen. lia.
Qed.
Lemma cstack_form w s a : rep w s a → 0 ≤ nw → form (s_vert s) (s_cstack s) = if decide (length (a_S a) < n)%nat then Ok tt else UB.
Proof.
  intros R H0. destruct (r_S _ _ _ _ R) as [-> _]. unfold zlen. case_decide.
  - apply form_of. unfold zlen. rewrite (r_lv _ _ _ _ R). lia.
  - apply form_not. lia.
Qed.

(** One iteration differs only when the last free place of the component stack is
    taken. *)
Lemma iter_c w s a steps segs pend R c V' : rep w s a → Inv a segs pend R → a_V a = c :: V' →
  tarjan_iter_c ia ja (mkT w s (a_clk a) steps) =
    if decide (a_st a c = -1 ∧ (n ≤ S (length (a_S a)))%nat) then UB else tarjan_iter ia ja (mkT w s (a_clk a) steps).
Proof.
  intros Rp I HV.
  destruct (iter_ok nv nw ia ja WF Hnw w s a steps segs pend R Rp I ltac:(by rewrite HV)) as (w' & s' & Eit & Rp').
  destruct (inv_iter E nv (E_range nv ia ja WF) a segs pend R I ltac:(by rewrite HV)) as (sg' & pd' & I').
  destruct (inv_bnd nv nw ia ja WF Hnw _ _ _ _ I') as (_ & _ & _ & B' & _).
  destruct (inv_bnd nv nw ia ja WF Hnw _ _ _ _ I) as (B1 & B2 & B3). pose proof (wf_nv _ _ _ WF) as Hnv.
  assert (0 ≤ c < nv) as Hc by (apply B3; rewrite HV; clear; set_solver).
  pose proof (r_V _ _ _ _ Rp) as HlV. rewrite HV in HlV. rewrite HV in B2. cbn [length] in B2.
  destruct (inv_top E nv a segs pend R c V' I HV) as (fs & segs' & I1 & HV1). cbn zeta in I1, HV1.
  rewrite Eit. revert Eit. unfold tarjan_iter_c, tarjan_iter. cbn [t_scc t_ws t_time t_steps].
  unfold peek_v. rewrite (layV_peek nw _ _ _ _ HlV) by lia. cbn [mbind res_bind].
  rewrite (get_status nw _ _ _ _ c (r_w _ _ _ _ Rp)) by lia. cbn [mbind res_bind].
  destruct (assert_ (negb _)) as [[]| | | |]; cbn [mbind res_bind]; [|done..].
  destruct (assert_ (-2 <=? _)) as [[]| | | |]; cbn [mbind res_bind]; [|done..].
  unfold REMAINING. destruct (Z.eqb_spec (a_st a c) (-1)) as [Hm|Hm].
  - rewrite decide_True in I1 by done. pose proof (inv_bnd nv nw ia ja WF Hnw _ _ _ _ I1) as (B1' & _).
    cbn [a_comps a_S a_discover length] in B1'.
    destruct (discover_ok nv nw ia ja WF Hnw _ _ _ c Rp Hc) as (w1 & s1 & E1 & R1).
    { pose proof (i_cnt _ _ _ _ _ _ I). lia. }
    { lia. }
    rewrite discover_c_eq, E1. cbn [mbind res_bind fst snd]. rewrite (cstack_form _ _ _ R1) by lia.
    cbn [a_S a_discover length]. destruct (decide (S (length (a_S a)) < n)%nat) as [Hlt|Hge].
    2:{ rewrite decide_True by (split; [done|lia]). done. }
    rewrite decide_False by lia. cbn [mbind res_bind].
    destruct (zget (w_status w1) c) as [st1| | | |]; cbn [mbind res_bind]; [|done..]. destruct (st1 =? 0); [done|].
    destruct (dfs_from_descendant c ia ja w1 s1) as [[w2 s2]| | | |] eqn:Ed; cbn [mbind res_bind]; [|done..].
    intros [= -> -> Eclk]. rewrite (descend_c_ok _ _ _ _ _ _ _ Ed (vstack_form _ _ _ Rp' ltac:(lia))). cbn [mbind res_bind]. by rewrite Eclk.
  - rewrite decide_False by (intros []; done). cbn [mbind res_bind].
    destruct (zget (w_status w) c) as [st1| | | |]; cbn [mbind res_bind]; [|done..]. destruct (st1 =? 0); [done|].
    destruct (dfs_from_descendant c ia ja w s) as [[w2 s2]| | | |] eqn:Ed; cbn [mbind res_bind]; [|done..].
    intros [= -> -> Eclk]. rewrite (descend_c_ok _ _ _ _ _ _ _ Ed (vstack_form _ _ _ Rp' ltac:(lia))). cbn [mbind res_bind]. by rewrite Eclk.
Qed.

(** ** Some vertex stays off the stack *)
Definition safe (a : am) (R : list Z) : Prop :=
  ∃ y, 0 ≤ y < nw ∧ (y ∈ concat (a_comps a) ∨ ∀ r, r ∈ R → ¬ reach ia ja r y).

Lemma safe_bound a segs pend R : Inv a segs pend R → safe a R → (length (a_S a) < n)%nat.
Proof.
  intros I (y & Hy & Hs). pose proof (wf_nv _ _ _ WF) as Hnv.
  assert (y ∉ a_S a) as Hn.
  { intros HyS. destruct Hs as [Hc|Hr].
    - pose proof (i_nd _ _ _ _ _ _ I) as Hnd. apply NoDup_app in Hnd as (_ & Hd & _). by apply (Hd y).
    - destruct (i_root2 _ _ _ _ _ _ I y) as (r & H1 & H2); [set_solver|]. by apply (Hr r). }
  pose proof (i_nd _ _ _ _ _ _ I) as Hnd. apply NoDup_app in Hnd as (_ & _ & Hnd).
  assert (Z.of_nat (length (y :: a_S a)) ≤ nw) as Hb; [|cbn [length] in Hb; lia].
  apply NoDup_bound; [lia|by constructor|]. intros v [->|Hv]%elem_of_cons; [done|].
  assert (0 ≤ v < nv); [|lia]. apply (i_rng _ _ _ _ _ _ I). set_solver.
Qed.

Lemma iter_comps a v : v ∈ concat (a_comps a) → v ∈ concat (a_comps (a_iter E a)).
Proof.
  intros Hv. unfold a_iter. destruct (a_V a) as [|c V']; [done|].
  set (a1 := if decide (a_st a c = -1) then a_discover E a c else a).
  assert (v ∈ concat (a_comps a1)) as H1 by (unfold a1; by case_decide).
  clearbody a1. cbv zeta. case_decide.
  - unfold a_complete, a_pop. cbn [a_comps]. case_decide; [|done]. unfold a_capture. cbn [a_comps]. rewrite concat_app. set_solver.
  - unfold a_descend. cbv zeta. repeat case_decide; done.
Qed.

Lemma loop_c_ok fuel : ∀ w s a steps segs pend R, rep w s a → Inv a segs pend R → safe a R →
  tarjan_loop_c fuel ia ja (mkT w s (a_clk a) steps) = tarjan_loop fuel ia ja (mkT w s (a_clk a) steps).
Proof.
  induction fuel as [|f IH]; intros w s a steps segs pend R Rp I Hs; [done|].
  cbn [tarjan_loop_c tarjan_loop t_scc]. destruct (inv_bnd nv nw ia ja WF Hnw _ _ _ _ I) as (_ & _ & _ & B2 & _).
  rewrite (rep_vstack nw _ _ _ Rp) by lia. destruct (a_V a) as [|c V'] eqn:HV; [done|].
  assert (a_V a ≠ []) as Hne by (by rewrite HV).
  rewrite (iter_c w s a steps segs pend R c V' Rp I HV).
  destruct (iter_ok nv nw ia ja WF Hnw w s a steps _ _ _ Rp I Hne) as (w1 & s1 & E1 & R1).
  rewrite decide_False.
  2:{ intros [Hm Hl]. destruct (inv_top E nv a segs pend R c V' I HV) as (fs & segs' & I1 & _). cbn zeta in I1.
    rewrite decide_True in I1 by done. assert (safe (a_discover E a c) R) as Hs' by exact Hs.
    pose proof (safe_bound _ _ _ _ I1 Hs') as Hb. cbn [a_S a_discover length] in Hb. lia. }
  rewrite E1. cbn [mbind res_bind]. destruct (inv_iter E nv (E_range nv ia ja WF) a segs pend R I Hne) as (sg' & pd' & I').
  apply (IH _ _ _ _ sg' pd' R R1 I'). destruct Hs as (y & Hy & [Hc|Hr]); exists y; split; [done| |done|by right].
  left. by apply iter_comps.
Qed.

Lemma push_c_eq w s a r : rep w s a → (length (a_comps a) + length (a_V a) < n)%nat → push_v_c s r = push_v s r.
Proof.
  intros Rp Hb. destruct (push_v_ok nw w s a r Rp) as (s1 & E1 & R1); [lia|].
  rewrite E1. apply push_v_c_ok; [done|]. apply (vstack_form _ _ _ R1). cbn. lia.
Qed.

Lemma local_c_ok fuel w s a R r steps : rep w s a → Inv a [] None R → 0 ≤ r < nv → a_st a r ≠ -2 → safe a (r :: R) →
  tarjan_local_c fuel r ia ja w s steps = tarjan_local fuel r ia ja w s steps.
Proof.
  intros Rp I Hr Hd Hs. pose proof (rest_status nv nw ia ja WF Hnw _ _ _ I Hd) as Hm.
  pose proof (inv_push _ _ _ _ _ I Hm Hr) as I2.
  destruct (inv_bnd nv nw ia ja WF Hnw _ _ _ _ I2) as (_ & _ & _ & B2 & _). cbn [a_comps a_V a_push length] in B2.
  unfold tarjan_local_c, tarjan_local. rewrite (push_c_eq w s a r Rp) by lia.
  destruct (push_v_ok nw w s a r Rp) as (s1 & E1 & R1); [lia|]. rewrite E1. cbn [mbind res_bind].
  assert (rep w s1 (a_push a r)) as R2 by (destruct R1; constructor; done).
  pose proof (loop_c_ok fuel w s1 (a_push a r) steps _ _ _ R2 I2 Hs) as El. change (a_clk (a_push a r)) with 0 in El. by rewrite El.
Qed.

(** ** Everything gets onto the stack *)
Context (Heq : nw = nv) (Hway : ∀ v, 0 ≤ v < nv → single_way ia ja v ∨ recurrent ia ja v).

Definition turned (a : am) : Prop := ∀ x, x ∈ tl (a_V a) → a_st a x < deg E x.

Lemma below_reach (segs : list (list Z * Z)) : ∀ (fs : list Z) (c x : Z), (∀ l1 s1 s2 l2, (fs, c) :: segs = l1 ++ s1 :: s2 :: l2 → rtc (edg E) s2.2 s1.2) →
  x ∈ map snd segs → rtc (edg E) x c.
Proof.
  induction segs as [|[fs' g] segs IH]; intros fs c x Hp Hx; [by apply elem_of_nil in Hx|].
  assert (rtc (edg E) g c) as Hgc by (apply (Hp [] (fs, c) (fs', g) segs); done).
  cbn in Hx. apply elem_of_cons in Hx as [->|Hx]; [done|].
  transitivity g; [|done]. apply (IH fs' g x); [|done]. intros l1 s1 s2 l2 Hl. apply (Hp ((fs, c) :: l1) s1 s2 l2). by rewrite Hl.
Qed.

Lemma all_on_stack a fs c segs r : Inv a ((fs, c) :: segs) None [r] → a_comps a = [] → turned a → a_st a c = 0 → a_lk a c = a_tm a c →
  (∀ v, 0 ≤ v < nv → reach ia ja r v) → n = length (a_S a).
Proof.
  intros I HC HT H0 Hroot Hr. pose proof (wf_nv _ _ _ WF) as Hnv.
  pose proof (i_nd _ _ _ _ _ _ I) as Hnd. rewrite HC in Hnd. cbn in Hnd.
  assert (∀ v, v ∈ a_S a → 0 ≤ v < nv) as Hrng by (intros v Hv; apply (i_rng _ _ _ _ _ _ I); set_solver).
  assert (a_S a = (fs ++ [c]) ++ seg_S segs) as HS by (rewrite (i_S _ _ _ _ _ _ I), seg_S_cons, <-app_assoc; done).
  assert (upto c (a_S a) = (fs ++ [c], seg_S segs)) as Hup.
  { rewrite HS, <-app_assoc. apply upto_spec. rewrite HS, <-app_assoc in Hnd. apply NoDup_app in Hnd as (_ & Hd & _).
    intros Hin. apply (Hd c Hin). set_solver. }
  (* the component is closed *)
  pose proof (inv_capture E nv a fs c segs [r] I H0 Hroot) as I2.
  assert (∀ u w, u ∈ fs ++ [c] → rtc (edg E) u w → w ∈ fs ++ [c]) as Hcl.
  { destruct (i_comps _ _ _ _ _ _ I2 [] (fs ++ [c]) []) as (_ & _ & H).
    { cbn. by rewrite HC, Hup. }
    intros u w Hu Huw. induction Huw as [|u v w He _ IH]; [done|]. apply IH. by apply (H u v Hu). }
  (* whatever is on the stack has its successors there *)
  assert (∀ x w, x ∈ a_S a → w ∈ drop (Z.to_nat (a_st a x)) (E x) → w ∈ a_S a) as Hdr.
  { intros x w Hx Hw. destruct (i_edges _ _ _ _ _ _ I x w Hx Hw) as [Hd|[[? _]|]]; [|done|done].
    apply (i_done _ _ _ _ _ _ I) in Hd. rewrite HC in Hd. by apply elem_of_nil in Hd. }
  assert (∀ x w, x ∈ a_S a → w ∈ E x → w ∈ a_S a) as Hstep.
  { intros x w Hx Hw. destruct (decide (a_st a x = 0)) as [Hz|Hz].
    { apply (Hdr x w Hx). rewrite Hz. done. }
    assert (0 < a_st a x) as Hpos by (pose proof (proj1 (i_act _ _ _ _ _ _ I x) Hx); lia).
    assert (x ∈ map snd segs) as Hxs.
    { rewrite (i_S _ _ _ _ _ _ I) in Hx. apply seg_S_elem in Hx as (fs' & g & Hg & [Hf| ->]).
      - destruct (i_fs _ _ _ _ _ _ I fs' g x Hg Hf) as (? & _). lia.
      - apply elem_of_cons in Hg as [[= -> ->]|Hg]; [lia|]. apply elem_of_list_fmap. by exists (fs', g). }
    assert (x ∈ tl (a_V a)) as HxV by (rewrite (i_V _ _ _ _ _ _ I); done).
    specialize (HT x HxV). destruct (Hway x (Hrng x Hx)) as [H1|H1].
    - destruct (drop (Z.to_nat (a_st a x)) (E x)) as [|w' l] eqn:Hd.
      + apply (f_equal length) in Hd. rewrite drop_length in Hd. unfold deg in HT. cbn in Hd. lia.
      + assert (w' ∈ drop (Z.to_nat (a_st a x)) (E x)) as Hw' by (rewrite Hd; set_solver).
        assert (w = w') as ->; [|by apply (Hdr x w' Hx)]. apply H1; [exact Hw|].
        unfold edge. rewrite <-(take_drop (Z.to_nat (a_st a x)) (E x)). set_solver.
    - exfalso. assert (rtc (edg E) c x) as Hcx.
      { apply H1. apply (below_reach segs fs c x); [|done]. apply (i_path _ _ _ _ _ _ I). }
      assert (x ∈ fs ++ [c]) as Hin by (apply (Hcl c x); [set_solver|done]).
      apply elem_of_app in Hin as [Hin|Hin%elem_of_list_singleton]; [|by subst].
      destruct (i_fs _ _ _ _ _ _ I fs c x ltac:(set_solver) Hin) as (? & _). lia. }
  assert (r ∈ a_S a) as HrS.
  { pose proof (i_root1 _ _ _ _ _ _ I r ltac:(set_solver)) as Hin. rewrite HC in Hin. cbn in Hin.
    apply elem_of_app in Hin as [|Hin]; [done|]. rewrite (i_V _ _ _ _ _ _ I) in Hin. rewrite (i_S _ _ _ _ _ _ I). by apply seg_snd_elem. }
  assert (∀ v, 0 ≤ v < nv → v ∈ a_S a) as Hall.
  { intros v Hv. specialize (Hr v Hv). clear -Hr HrS Hstep. induction Hr as [|u v w He _ IH]; [done|]. apply IH. by apply (Hstep u v). }
  assert (a_S a ≡ₚ seqZ 0 nv) as Hp.
  { apply NoDup_Permutation; [done|apply NoDup_seqZ|]. intros v. rewrite elem_of_seqZ. split; [intros H; specialize (Hrng v H); lia|].
    intros. apply Hall. lia. }
  rewrite (Permutation_length Hp), seqZ_length. by rewrite Heq.
Qed.

Lemma loop_c_ub fuel : ∀ w s a steps segs pend r, rep w s a → Inv a segs pend [r] → a_comps a = [] → turned a →
  (length (a_S a) < n)%nat → (∀ v, 0 ≤ v < nv → reach ia ja r v) → todo E nv a ≤ Z.of_nat fuel →
  tarjan_loop_c fuel ia ja (mkT w s (a_clk a) steps) = UB.
Proof.
  induction fuel as [|f IH]; intros w s a steps segs pend r Rp I HC HT Hl Hr Hf.
  all: destruct (inv_bnd nv nw ia ja WF Hnw _ _ _ _ I) as (_ & _ & _ & B2 & _).
  all: assert (a_V a ≠ []) as Hne by
    (intros HV; pose proof (i_V _ _ _ _ _ _ I) as HV'; rewrite HV in HV'; destruct pend, segs; try done;
     pose proof (i_root1 _ _ _ _ _ _ I r ltac:(set_solver)) as Hin; rewrite HC, HV, (i_S _ _ _ _ _ _ I) in Hin; by apply elem_of_nil in Hin).
  all: destruct (inv_iter E nv (E_range nv ia ja WF) a segs pend [r] I Hne) as (sg' & pd' & I').
  all: pose proof (todo_iter _ _ _ _ _ _ I Hne) as Htd; pose proof (todo_nonneg _ _ _ _ _ _ I').
  { lia. }
  cbn [tarjan_loop_c t_scc]. rewrite (rep_vstack nw _ _ _ Rp) by lia. destruct (a_V a) as [|c V'] eqn:HV; [done|].
  rewrite (iter_c w s a steps segs pend [r] c V' Rp I HV). case_decide as Hc; [done|].
  destruct (iter_ok nv nw ia ja WF Hnw w s a steps _ _ _ Rp I ltac:(by rewrite HV)) as (w1 & s1 & E1 & R1).
  rewrite E1. cbn [mbind res_bind]. 
  destruct (inv_top E nv a segs pend [r] c V' I HV) as (fs & segs' & I1 & HV1). cbn zeta in I1, HV1.
  pose proof (inv_NoDup_V _ _ _ _ _ _ I) as HndV. rewrite HV in HndV. apply NoDup_cons in HndV as [HcV _].
  assert (a_comps (a_iter E a) = [] ∧ turned (a_iter E a) ∧ (length (a_S (a_iter E a)) < n)%nat) as (K1 & K2 & K3).
  { unfold a_iter. rewrite HV. cbv zeta.
    set (a1 := if decide (a_st a c = -1) then a_discover E a c else a) in *.
    assert (a_comps a1 = []) as HC1 by (unfold a1; by case_decide).
    assert (length (a_S a1) < n)%nat as Hl1.
    { unfold a1. destruct (decide (a_st a c = -1)) as [Hm|]; [|done]. cbn. lia. }
    assert (turned a1) as HT1.
    { unfold turned. rewrite HV1. cbn [tl]. intros x Hx. unfold a1. assert (a_st a x < deg E x) as Hxx by (apply HT; by rewrite HV).
      case_decide; [|done]. cbn. rewrite upd_ne; [done|]. by intros ->. }
    clearbody a1. destruct (decide (a_st a1 c = 0)) as [Hz|Hz].
    - unfold a_complete. destruct (decide (a_lk a1 c = a_tm a1 c)) as [Hroot|Hroot].
      + exfalso. pose proof (all_on_stack _ _ _ _ _ I1 HC1 HT1 Hz Hroot Hr). lia.
      + split_and!; [done| |done]. unfold turned. cbn. rewrite HV1. cbn. intros x Hx. apply HT1. rewrite HV1. cbn.
        destruct V'; [done|]. cbn in Hx. set_solver.
    - assert (a_st a1 c ≤ deg E c) as Hdg.
      { apply (i_deg _ _ _ _ _ _ I1). rewrite (i_S _ _ _ _ _ _ I1), seg_S_cons. set_solver. }
      assert (∀ x, x ∈ c :: V' → upd (a_st a1) c (a_st a1 c - 1) x < deg E x) as HT2.
      { intros x Hx. destruct (decide (x = c)) as [->|Hxc]; [rewrite upd_eq; lia|]. rewrite upd_ne by done.
        apply HT1. rewrite HV1. cbn. set_solver. }
      unfold a_descend. cbv zeta. repeat case_decide; (split_and!; [done| |done]); unfold turned; cbn; rewrite HV1; cbn; intros x Hx; apply HT2; set_solver. }
  apply (IH _ _ _ _ sg' pd' r R1 I' K1 K2 K3 Hr). lia.
Qed.

Lemma local_c_ub fuel w s r steps : rep w s a_init → 0 ≤ r < nv → (∀ v, 0 ≤ v < nv → reach ia ja r v) →
  todo E nv a_init ≤ Z.of_nat fuel → tarjan_local_c fuel r ia ja w s steps = UB.
Proof.
  intros Rp Hr Hall Hf. pose proof (inv_push _ _ _ _ _ (inv_init E nv) (eq_refl : a_st a_init r = -1) Hr) as I2.
  destruct (inv_bnd nv nw ia ja WF Hnw _ _ _ _ I2) as (_ & _ & _ & B2 & _). cbn [a_comps a_V a_push length] in B2.
  unfold tarjan_local_c. rewrite (push_c_eq w s a_init r Rp) by (cbn; lia).
  destruct (push_v_ok nw w s a_init r Rp) as (s1 & E1 & R1); [cbn in *; lia|]. rewrite E1. cbn [mbind res_bind].
  assert (rep w s1 (a_push a_init r)) as R2 by (destruct R1; constructor; done).
  change (mkT w s1 0 steps) with (mkT w s1 (a_clk (a_push a_init r)) steps).
  rewrite (loop_c_ub fuel w s1 (a_push a_init r) steps _ _ r R2 I2); try done.
  cbn. intros x Hx. by apply elem_of_nil in Hx.
Qed.
End sim.

(** ** Whole runs *)
Lemma init_c_eq nw w s : 0 < nw → w_nvert w = nw → length (s_start s) = S (Z.to_nat nw) → length (s_vert s) = Z.to_nat nw →
  tarjan_initialise_c w s = tarjan_initialise w s.
Proof.
  intros H0 Hn Hs Hv. unfold tarjan_initialise_c, tarjan_initialise, initialise_stacks_c. rewrite Hn.
  rewrite !form_of by (unfold zlen; lia). done.
Qed.
Lemma init_c_ub w s : w_nvert w = 0 → tarjan_initialise_c w s = UB.
Proof.
  intros Hn. unfold tarjan_initialise_c, initialise_stacks_c. rewrite Hn. destruct (form_cases (s_start s) 0) as [->| ->]; [|done].
  cbn [mbind res_bind]. by rewrite form_not by lia.
Qed.

Lemma rest_done nv ia ja a R r : Inv (csr_row ia ja) nv a [] None R → r ∈ R → r ∈ concat (a_comps a).
Proof.
  intros I Hr. pose proof (i_root1 _ _ _ _ _ _ I r Hr) as Hin.
  rewrite (i_S _ _ _ _ _ _ I), (i_V _ _ _ _ _ _ I) in Hin. cbn in Hin. by rewrite app_nil_r in Hin.
Qed.

Section runs.
Context (nv : Z) (ia ja : list Z) (WF : wf_graph nv ia ja).
Notation E := (csr_row ia ja).

Lemma step_eq nw fuel w s tm a steps r : rep nw w s a → nv ≤ nw → 0 ≤ r < nv →
  reachable_step fuel ia ja (mkT w s tm steps) r =
    (if a_st a r =? -2 then Ok (mkT w s tm steps) else tarjan_local fuel r ia ja w s steps) ∧
  reachable_step_c fuel ia ja (mkT w s tm steps) r =
    (if a_st a r =? -2 then Ok (mkT w s tm steps) else tarjan_local_c fuel r ia ja w s steps).
Proof.
  intros Rp Hnw Hr. pose proof (wf_nv _ _ _ WF). unfold reachable_step, reachable_step_c. cbn [t_ws t_scc t_steps].
  rewrite (to_size_small r) by lia. rewrite (get_status _ _ _ _ _ r (r_w _ _ _ _ Rp)) by lia. done.
Qed.

Lemma visits_c_ok nw fuel starts : nv ≤ nw → ∀ w s tm a R steps, rep nw w s a → Inv E nv a [] None R →
  (∀ r, r ∈ starts → 0 ≤ r < nv) → todo E nv a ≤ Z.of_nat fuel →
  (∀ r starts', starts = r :: starts' → safe nw ia ja a (r :: R)) →
  foldM (reachable_step_c fuel ia ja) (mkT w s tm steps) starts = foldM (reachable_step fuel ia ja) (mkT w s tm steps) starts.
Proof.
  intros Hnw. induction starts as [|r starts IH]; intros w s tm a R steps Rp I Hr Hf Hs; [done|]. cbn [foldM].
  assert (0 ≤ r < nv) as Hrr by (apply Hr; set_solver). destruct (step_eq nw fuel w s tm a steps r Rp Hnw Hrr) as [-> ->].
  pose proof (inv_visit nv nw ia ja WF Hnw fuel a R r I Hrr Hf) as I1.
  assert (safe nw ia ja (a_visit ia ja fuel a r) (r :: R) ∧ ∀ R', safe nw ia ja (a_visit ia ja fuel a r) R') as [_ Hs'].
  { assert (r ∈ concat (a_comps (a_visit ia ja fuel a r))) as Hin by (apply (rest_done nv ia ja _ _ _ I1); set_solver).
    split; [|intros R']; exists r; (split; [lia|by left]). }
  destruct (Z.eqb_spec (a_st a r) (-2)) as [Hd|Hd].
  - cbn [mbind res_bind]. unfold a_visit in I1, Hs'. rewrite decide_True in I1, Hs' by done.
    apply (IH _ _ _ a (r :: R)); [done|done|set_solver|done|]. intros. apply Hs'.
  - rewrite (local_c_ok nv nw ia ja WF Hnw fuel w s a R r steps Rp I Hrr Hd (Hs r starts eq_refl)).
    destruct (local_ok nv nw ia ja WF Hnw fuel w s a R r steps Rp I Hrr Hd Hf) as (t1 & E1 & R1 & H1).
    rewrite E1. cbn [mbind res_bind]. destruct t1 as [w1 s1 tm1 st1]. cbn [t_ws t_scc t_steps] in *.
    pose proof (todo_visit nv nw ia ja WF Hnw fuel a R r I Hrr).
    apply (IH _ _ _ _ (r :: R) _ R1 I1); [set_solver|lia|]. intros. apply Hs'.
Qed.

Lemma global_loop_c_ok fuel k : ∀ start t a R, rep nv (t_ws t) (t_scc t) a → Inv E nv a [] None R →
  0 ≤ start ≤ nv → (start < nv → a_st a start ≠ -2) → todo E nv a ≤ Z.of_nat fuel → safe nv ia ja a (start :: R) →
  global_loop_c k fuel start ia ja t = global_loop k fuel start ia ja t.
Proof.
  induction k as [|k IH]; intros start t a R Rp I Hs Hd Hf Hsafe; [done|]. cbn [global_loop_c global_loop].
  pose proof (r_w _ _ _ _ Rp) as RW. rewrite (proj1 RW). destruct (Z.ltb_spec start nv) as [Hlt|Hge]; [|done].
  rewrite (local_c_ok nv nv ia ja WF ltac:(lia) fuel _ _ a R start _ Rp I ltac:(lia) (Hd Hlt) Hsafe).
  destruct (local_ok nv nv ia ja WF ltac:(lia) fuel (t_ws t) (t_scc t) a R start (t_steps t))
    as (t1 & E1 & R1 & H1); [done|done|lia|by apply Hd|done|].
  rewrite E1. cbn [mbind res_bind].
  pose proof (inv_visit nv nv ia ja WF ltac:(lia) fuel a R start I ltac:(lia) Hf) as I1.
  pose proof (todo_visit nv nv ia ja WF ltac:(lia) fuel a R start I ltac:(lia)) as Htv.
  unfold tarjan_find_start. rewrite (proj1 (r_w _ _ _ _ R1)).
  destruct (find_start_ok nv ia ja (t_ws t1) _ (start :: R) (Z.to_nat nv) start (r_w _ _ _ _ R1) I1) as (r & E2 & H2 & H3 & H4); [lia|lia|].
  rewrite E2. cbn [mbind res_bind]. apply (IH _ _ _ (start :: R) R1 I1); [lia|done|lia|].
  exists start. split; [lia|]. left. apply (rest_done nv ia ja _ _ _ I1). set_solver.
Qed.

Lemma tarjan_c_ok h : 0 < nv → (∃ y, 0 ≤ y < nv ∧ ¬ reach ia ja 0 y) → tarjan_c h nv ia ja = tarjan h nv ia ja.
Proof.
  intros H0 (y & Hy & Hn). unfold tarjan_c, tarjan. destruct (_ && _); [|done]. f_equal.
  unfold tarjan_global_c, tarjan_global.
  set (w := new_ws h 0 nv). set (s := new_scc h 3 nv).
  assert (length (s_start s) = S (Z.to_nat nv)) as Hls by (unfold s, new_scc; cbn [s_start]; rewrite fresh_length; lia).
  assert (length (s_vert s) = Z.to_nat nv) as Hlv by (unfold s, new_scc; cbn [s_vert]; by rewrite fresh_length).
  rewrite (init_c_eq nv) by done.
  destruct (init_ok nv nv ia ja WF ltac:(lia) w s (new_ws_sized h 0 nv) Hls Hlv) as (w1 & s1 & E1 & R1). rewrite E1. cbn [mbind res_bind].
  unfold tarjan_find_start. rewrite (proj1 (r_w _ _ _ _ R1)).
  destruct (find_start_ok nv ia ja w1 a_init [] (Z.to_nat nv) 0 (r_w _ _ _ _ R1) (inv_init _ _)) as (r & E2 & H2 & H3 & H4); [lia|lia|].
  rewrite E2. cbn [mbind res_bind].
  assert (r = 0) as ->.
  { destruct (decide (r = 0)); [done|]. exfalso. assert (a_st a_init 0 = -2); [apply H3; lia|done]. }
  apply (global_loop_c_ok _ _ 0 (mkT w1 s1 0 0) a_init [] R1 (inv_init _ _)); [lia|done|by apply todo_fuel|].
  exists y. split; [done|]. right. intros r Hr%elem_of_list_singleton. by subst.
Qed.

Lemma tarjan_c_ub h : ws_ok h 0 && scc_ok h 2 = true →
  (∀ v, 0 ≤ v < nv → reach ia ja 0 v) → (∀ v, 0 ≤ v < nv → single_way ia ja v ∨ recurrent ia ja v) → tarjan_c h nv ia ja = UB.
Proof.
  intros Hh Hall Hway. unfold tarjan_c. rewrite Hh. unfold tarjan_global_c. pose proof (wf_nv _ _ _ WF) as Hnv.
  set (w := new_ws h 0 nv). set (s := new_scc h 3 nv).
  destruct (decide (nv = 0)) as [Hz|Hz]; [by rewrite init_c_ub|].
  assert (length (s_start s) = S (Z.to_nat nv)) as Hls by (unfold s, new_scc; cbn [s_start]; rewrite fresh_length; lia).
  assert (length (s_vert s) = Z.to_nat nv) as Hlv by (unfold s, new_scc; cbn [s_vert]; by rewrite fresh_length).
  rewrite (init_c_eq nv) by (done || lia).
  destruct (init_ok nv nv ia ja WF ltac:(lia) w s (new_ws_sized h 0 nv) Hls Hlv) as (w1 & s1 & E1 & R1). rewrite E1. cbn [mbind res_bind].
  unfold tarjan_find_start. rewrite (proj1 (r_w _ _ _ _ R1)).
  destruct (find_start_ok nv ia ja w1 a_init [] (Z.to_nat nv) 0 (r_w _ _ _ _ R1) (inv_init _ _)) as (r & E2 & H2 & H3 & H4); [lia|lia|].
  rewrite E2. cbn [mbind res_bind].
  assert (r = 0) as ->.
  { destruct (decide (r = 0)); [done|]. exfalso. assert (a_st a_init 0 = -2); [apply H3; lia|done]. }
  destruct (Z.to_nat nv) as [|k] eqn:Ek; [lia|]. cbn [global_loop_c t_ws t_scc t_steps]. rewrite (proj1 (r_w _ _ _ _ R1)).
  rewrite (proj2 (Z.ltb_lt 0 nv)) by lia.
  by rewrite (local_c_ub nv nv ia ja WF ltac:(lia) eq_refl Hway _ w1 s1 0 0 R1 ltac:(lia) Hall (todo_fuel nv ia ja WF nv ltac:(lia))).
Qed.

Lemma reachable_c_ok h nw starts w : ws_sized nw w → nv ≤ nw → 0 < nw → (∀ r, r ∈ starts → 0 ≤ r < nv) →
  (∀ r starts', starts = r :: starts' → ∃ y, 0 ≤ y < nw ∧ ¬ reach ia ja r y) →
  tarjan_reachable_sccs_c h nv ia ja starts w = tarjan_reachable_sccs h nv ia ja starts w.
Proof.
  intros Hw Hnw H0 Hr Hfirst. unfold tarjan_reachable_sccs_c, tarjan_reachable_sccs. destruct (assert_ _); cbn [mbind res_bind]; [|done..].
  destruct (scc_ok h 5); [|done]. pose proof (proj1 Hw) as Hn. rewrite Hn.
  assert (reachable_run_c (tarjan_fuel nw ja) ia ja starts w (new_scc h 6 nw) = reachable_run (tarjan_fuel nw ja) ia ja starts w (new_scc h 6 nw)) as ->; [|done].
  unfold reachable_run_c, reachable_run. set (s := new_scc h 6 nw).
  assert (length (s_start s) = S (Z.to_nat nw)) as Hls by (unfold s, new_scc; cbn [s_start]; rewrite fresh_length; lia).
  assert (length (s_vert s) = Z.to_nat nw) as Hlv by (unfold s, new_scc; cbn [s_vert]; by rewrite fresh_length).
  rewrite (init_c_eq nw) by done.
  destruct (init_ok nv nw ia ja WF Hnw w s Hw Hls Hlv) as (w1 & s1 & E1 & R1). rewrite E1. cbn [mbind res_bind].
  apply (visits_c_ok nw _ starts Hnw _ _ _ a_init [] _ R1 (inv_init _ _)); [done|by apply todo_fuel|].
  intros r starts' Hst. destruct (Hfirst r starts' Hst) as (y & Hy & Hn'). exists y. split; [done|]. right.
  intros r' ->%elem_of_list_singleton. done.
Qed.

Lemma reachable_c_ub h starts r starts' w : ws_sized nv w → scc_ok h 5 = true → starts = r :: starts' → 0 ≤ r < nv →
  (∀ v, 0 ≤ v < nv → reach ia ja r v) → (∀ v, 0 ≤ v < nv → single_way ia ja v ∨ recurrent ia ja v) →
  tarjan_reachable_sccs_c h nv ia ja starts w = UB.
Proof.
  intros Hw Hh -> Hr Hall Hway. unfold tarjan_reachable_sccs_c. pose proof (proj1 Hw) as Hn. rewrite Hn, Z.leb_refl, Hh. cbn [assert_ mbind res_bind].
  unfold reachable_run_c. set (s := new_scc h 6 nv).
  assert (length (s_start s) = S (Z.to_nat nv)) as Hls by (unfold s, new_scc; cbn [s_start]; rewrite fresh_length; lia).
  assert (length (s_vert s) = Z.to_nat nv) as Hlv by (unfold s, new_scc; cbn [s_vert]; by rewrite fresh_length).
  rewrite (init_c_eq nv) by (done || lia).
  destruct (init_ok nv nv ia ja WF ltac:(lia) w s Hw Hls Hlv) as (w1 & s1 & E1 & R1). rewrite E1. cbn [mbind res_bind foldM].
  rewrite (proj2 (step_eq nv _ w1 s1 0 a_init 0 r R1 ltac:(lia) Hr)). cbn [a_st a_init Z.eqb].
  by rewrite (local_c_ub nv nv ia ja WF ltac:(lia) eq_refl Hway _ w1 s1 r 0 R1 Hr Hall (todo_fuel nv ia ja WF nv ltac:(lia))).
Qed.
End runs.
