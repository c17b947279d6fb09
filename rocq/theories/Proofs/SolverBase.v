(** Arrays indexed by cells, and the solver's constructor. *)
From Verif.Model Require Import Base Num OMap Containers AssembledConnections Tarjan TracerTofSolver.
From Verif.Spec Require Import GraphSpec SccSpec TarjanSpec FlowSpec.
From Verif.Proofs Require Import Util OMapFacts AConn GraphProps.
Open Scope Z_scope.

(** The array of the values of [f] at 0..n-1. *)
Definition tab {A} (n : Z) (f : Z → A) : list A := map f (seqZ 0 n).
Definition fupd {A} (f : Z → A) (v : Z) (x : A) : Z → A := λ u, if decide (u = v) then x else f u.

Lemma fupd_eq {A} (f : Z → A) v x : fupd f v x v = x.
Proof. unfold fupd. by rewrite decide_True. Qed.
Lemma fupd_ne {A} (f : Z → A) u v x : u ≠ v → fupd f v x u = f u.
Proof. intros. unfold fupd. by rewrite decide_False. Qed.

Lemma tab_len {A} n (f : Z → A) : length (tab n f) = Z.to_nat n.
Proof. unfold tab. by rewrite map_length, seqZ_length. Qed.
Lemma tab_zlen {A} n (f : Z → A) : 0 ≤ n → zlen (tab n f) = n.
Proof. intros. unfold zlen. rewrite tab_len. lia. Qed.
Lemma tab_lookup {A} n (f : Z → A) (i : nat) : Z.of_nat i < n → tab n f !! i = Some (f (Z.of_nat i)).
Proof.
  intros. unfold tab. rewrite list_lookup_fmap, lookup_seqZ_lt by lia. done.
Qed.
Lemma tab_lookup_Z {A} n (f : Z → A) v : 0 ≤ v < n → tab n f !! Z.to_nat v = Some (f v).
Proof. intros. rewrite tab_lookup by lia. by rewrite Z2Nat.id by lia. Qed.
Lemma tab_get {A} n (f : Z → A) v : 0 ≤ v < n → zget (tab n f) v = Ok (f v).
Proof. intros. apply zget_of; [lia|]. by apply tab_lookup_Z. Qed.
Lemma tab_ext {A} n (f g : Z → A) : (∀ v, 0 ≤ v < n → f v = g v) → tab n f = tab n g.
Proof. intros H. apply map_ext_in. intros v Hv%elem_of_list_In%elem_of_seqZ. apply H. lia. Qed.
Lemma tab_inj {A} n (f g : Z → A) v : tab n f = tab n g → 0 ≤ v < n → f v = g v.
Proof. intros H Hv. pose proof (tab_lookup_Z n f v Hv) as E. rewrite H, tab_lookup_Z in E by done. congruence. Qed.
Lemma tab_insert {A} n (f : Z → A) v x : 0 ≤ v < n → <[Z.to_nat v := x]> (tab n f) = tab n (fupd f v x).
Proof.
  intros Hv. apply list_eq. intros i. destruct (decide (Z.of_nat i < n)) as [Hi|Hi].
  - rewrite (tab_lookup n (fupd f v x)) by done. destruct (decide (i = Z.to_nat v)) as [->|Hne].
    + rewrite list_lookup_insert by (rewrite tab_len; lia). rewrite Z2Nat.id, fupd_eq by lia. done.
    + rewrite list_lookup_insert_ne by done. rewrite tab_lookup, fupd_ne by lia. done.
  - rewrite !lookup_ge_None_2; [done|..]; rewrite ?insert_length, tab_len; lia.
Qed.
Lemma tab_set {A} n (f : Z → A) v x : 0 ≤ v < n → zset (tab n f) v x = Ok (tab n (fupd f v x)).
Proof. intros Hv. rewrite zset_of by (rewrite tab_zlen; lia). by rewrite tab_insert. Qed.
Lemma tab_const {A} n (x : A) : replicate (Z.to_nat n) x = tab n (λ _, x).
Proof.
  unfold tab. apply list_eq. intros i. rewrite list_lookup_fmap.
  destruct (decide (Z.of_nat i < n)).
  - rewrite lookup_replicate_2, lookup_seqZ_lt by lia. done.
  - rewrite lookup_seqZ_ge by lia. apply lookup_ge_None_2. rewrite replicate_length. lia.
Qed.
Lemma tab_of {A} (d : A) (l : list A) : l = tab (zlen l) (λ v, default d (l !! Z.to_nat v)).
Proof.
  apply list_eq. intros i. destruct (decide (i < length l)%nat).
  - rewrite tab_lookup by (unfold zlen; lia). rewrite Nat2Z.id.
    by destruct (lookup_lt_is_Some_2 l i) as [x ->].
  - rewrite !lookup_ge_None_2; [done|rewrite tab_len; unfold zlen; lia|lia].
Qed.
Lemma tab_map {A B} n (f : Z → A) (h : A → B) : map h (tab n f) = tab n (λ v, h (f v)).
Proof. unfold tab. by rewrite map_map. Qed.

Lemma foldM_cong {A S T} (R : S → T → Prop) (f : S → A → res S) (g : T → A → res T) l : ∀ s t,
  R s t →
  (∀ s t x, x ∈ l → R s t → (∃ s' t', f s x = Ok s' ∧ g t x = Ok t' ∧ R s' t')) →
  ∃ s' t', foldM f s l = Ok s' ∧ foldM g t l = Ok t' ∧ R s' t'.
Proof.
  induction l as [|x l IH]; intros s t HR H; cbn; [eauto|].
  destruct (H s t x) as (s1 & t1 & -> & -> & H1); [left|done|]. cbn. apply IH; [done|].
  intros. apply H; [by right|done].
Qed.

Section base.
Context {N : Num}.

Lemma sum_left_snoc (l : list num) x : sum_left (l ++ [x]) = nadd (sum_left l) x.
Proof. unfold sum_left. by rewrite foldl_app. Qed.
Lemma foldl_sum_map {A} (f : A → num) (l : list A) a :
  foldl (λ acc x, nadd acc (f x)) a l = foldl nadd a (map f l).
Proof. revert a. induction l as [|x l IH]; intros a; cbn; [done|apply IH]. Qed.

(** ** Neighbours *)
Lemma seqZ_sorted m n : StronglySorted Z.lt (seqZ m n).
Proof.
  destruct (Z_le_dec 0 n) as [H|H]; [|rewrite seqZ_nil by lia; constructor].
  revert m. pattern n. apply natlike_ind; [| |done].
  - intros m. rewrite seqZ_nil by lia. constructor.
  - intros k Hk IH m. rewrite seqZ_cons by lia. constructor.
    + replace (Z.pred (Z.succ k)) with k by lia. apply IH.
    + apply Forall_forall. intros x Hx%elem_of_seqZ. lia.
Qed.
Lemma filter_sorted (P : Z → Prop) `{∀ x, Decision (P x)} l :
  StronglySorted Z.lt l → StronglySorted Z.lt (filter P l).
Proof.
  induction 1 as [|x l Hl IH Hx]; [constructor|]. rewrite filter_cons. destruct (decide (P x)); [|done].
  constructor; [done|]. apply Forall_forall. intros y [_ Hy]%elem_of_list_filter.
  by apply (proj1 (Forall_forall _ _) Hx).
Qed.
Lemma sorted_nodup (l : list Z) : StronglySorted Z.lt l → NoDup l.
Proof.
  induction 1 as [|x l Hl IH Hx]; constructor; [|done]. intros Hin.
  pose proof (proj1 (Forall_forall _ _) Hx x Hin). lia.
Qed.
Lemma upstream_elem n A u v : u ∈ upstream n A v ↔ flows A u v ∧ 0 ≤ u < n.
Proof. unfold upstream. rewrite elem_of_list_filter, elem_of_seqZ. naive_solver lia. Qed.
Lemma downstream_elem n A u v : v ∈ downstream n A u ↔ flows A u v ∧ 0 ≤ v < n.
Proof. unfold downstream. rewrite elem_of_list_filter, elem_of_seqZ. naive_solver lia. Qed.
Lemma upstream_nodup n A v : NoDup (upstream n A v).
Proof. apply sorted_nodup, filter_sorted, seqZ_sorted. Qed.
Lemma downstream_nodup n A v : NoDup (downstream n A v).
Proof. apply sorted_nodup, filter_sorted, seqZ_sorted. Qed.

Lemma flows_range n A u v : arcs_ok n A → flows A u v → 0 ≤ u < n ∧ 0 ≤ v < n.
Proof.
  intros HA ([[x y] w] & [= -> ->] & Ha)%elem_of_list_fmap.
  exact (proj1 (Forall_forall _ _) HA _ Ha).
Qed.
Lemma leads_range n A u v : arcs_ok n A → leads A u v → 0 ≤ u < n → 0 ≤ v < n.
Proof. intros HA. induction 1 as [|u w v Hf _ IH]; [done|]. intros _. apply IH. by apply (flows_range n A u w). Qed.

Lemma up_fst (A : list arc) r c : (r, c) ∈ map fst (up_conns A) ↔ flows A c r.
Proof.
  unfold flows, up_conns. rewrite map_map. rewrite !elem_of_list_fmap. split.
  - intros (a & [= -> ->] & ?). exists a. split; [|done]. by destruct a as [[] ?].
  - intros ([[] w] & [= -> ->] & ?). eexists. split; [|done]. done.
Qed.
Lemma down_fst (A : list arc) r c : (r, c) ∈ map fst (down_conns A) ↔ flows A r c.
Proof.
  unfold flows, down_conns. rewrite map_map. rewrite !elem_of_list_fmap. split.
  - intros (a & [= -> ->] & ?). exists a. split; [|done]. by destruct a as [[] ?].
  - intros ([[] w] & [= -> ->] & ?). eexists. split; [|done]. done.
Qed.
Lemma up_weights (A : list arc) r c : sum_left (weights_at (up_conns A) r c) = arc_flux A c r.
Proof.
  unfold arc_flux. f_equal. unfold weights_at, up_conns. induction A as [|[[u v] w] A IH]; [done|].
  cbn. destruct (decide ((v, u) = (r, c))) as [[= -> ->]|Hne].
  - rewrite decide_True by done. by f_equal.
  - rewrite decide_False; [done|]. congruence.
Qed.
Lemma down_weights (A : list arc) r c : sum_left (weights_at (down_conns A) r c) = arc_flux A r c.
Proof.
  unfold arc_flux. f_equal. unfold weights_at, down_conns. induction A as [|[[u v] w] A IH]; [done|].
  cbn. destruct (decide ((u, v) = (r, c))) as [[= -> ->]|Hne]; by rewrite IH.
Qed.

Lemma turn_turn (A : list arc) : turn (turn A) = A.
Proof. unfold turn. rewrite map_map. rewrite <-(map_id A) at 2. apply map_ext. by intros [[] ?]. Qed.
Lemma turn_flows (A : list arc) u v : flows (turn A) u v ↔ flows A v u.
Proof.
  unfold flows, turn. rewrite map_map, !elem_of_list_fmap. split.
  - intros (a & [= -> ->] & ?). exists a. split; [|done]. by destruct a as [[] ?].
  - intros ([[] w] & [= -> ->] & ?). eexists. split; [|done]. done.
Qed.
Lemma turn_flux (A : list arc) u v : arc_flux (turn A) u v = arc_flux A v u.
Proof.
  unfold arc_flux. f_equal. unfold turn. induction A as [|[[x y] w] A IH]; [done|].
  cbn. destruct (decide ((y, x) = (u, v))) as [[= -> ->]|Hne].
  - rewrite decide_True by done. by f_equal.
  - rewrite decide_False; [done|]. congruence.
Qed.
Lemma turn_ok n (A : list arc) : arcs_ok n A → arcs_ok n (turn A).
Proof. intros H. unfold turn, arcs_ok. apply Forall_map. eapply Forall_impl; [exact H|]. cbn. tauto. Qed.
Lemma turn_up n A v : upstream n (turn A) v = downstream n A v.
Proof. unfold upstream, downstream. apply list_filter_iff. intros u. apply turn_flows. Qed.
Lemma turn_down n A v : downstream n (turn A) v = upstream n A v.
Proof. unfold upstream, downstream. apply list_filter_iff. intros u. apply turn_flows. Qed.
Lemma turn_conns (A : list arc) : down_conns (turn A) = up_conns A ∧ up_conns (turn A) = down_conns A.
Proof. unfold down_conns, up_conns, turn. by rewrite !map_map. Qed.

Lemma down_weighted (A : list arc) : weighted (down_conns A).
Proof. unfold weighted, down_conns. apply Forall_map, Forall_forall. intros; cbn. eauto. Qed.
Lemma up_weighted (A : list arc) : weighted (up_conns A).
Proof. unfold weighted, up_conns. apply Forall_map, Forall_forall. intros; cbn. eauto. Qed.
Lemma down_indices n (A : list arc) : n < 2 ^ 31 → arcs_ok n A → indices_ok (down_conns A) ∧
  Forall (λ x : connection, x.1.1 < n) (down_conns A).
Proof.
  intros Hn H. unfold indices_ok, down_conns, int_index. split; apply Forall_map; (eapply Forall_impl; [exact H|]);
    intros a; cbn; lia.
Qed.
Lemma up_indices n (A : list arc) : n < 2 ^ 31 → arcs_ok n A → indices_ok (up_conns A) ∧
  Forall (λ x : connection, x.1.1 < n) (up_conns A).
Proof.
  intros Hn H. unfold indices_ok, up_conns, int_index. split; apply Forall_map; (eapply Forall_impl; [exact H|]);
    intros a; cbn; lia.
Qed.

(** A graph object holding the flows [A]. *)
Record graph_of (n : Z) (A : list arc) (g : aconn) : Prop := {
  go_wf : wf_graph n (ac_start g) (ac_neigh g);
  go_row : ∀ u, 0 ≤ u < n → SccSpec.csr_row (ac_start g) (ac_neigh g) u = downstream n A u;
  go_nb : ∀ u, 0 ≤ u < n → ac_cell_neighbourhood g u = Ok (map (λ v, (v, arc_flux A u v)) (downstream n A u));
  go_rows : ac_numrows g = n;
  go_first : ac_start g !! O = Some 0;
  go_last : last (ac_start g) = Some (Z.of_nat (length (ac_neigh g)))
}.

Lemma compress_graph n A : 0 ≤ n < 2 ^ 31 → arcs_ok n A →
  ∃ g, ac_compress (add_all ac_new (down_conns A)) n = Ok (g, None) ∧ graph_of n A g.
Proof.
  intros Hn HA. destruct (down_indices n A) as [Hidx Hr]; [lia|done|].
  destruct (compress_new N (down_conns A) n) as (g & Hg & Hcsr & Hwt & _); [right; apply down_weighted|done|lia|done|].
  exists g. split; [done|]. specialize (Hwt (down_weighted A)).
  assert (∀ u, 0 ≤ u < n → ∃ b e, ac_start g !! Z.to_nat u = Some b ∧ ac_start g !! Z.to_nat (u + 1) = Some e ∧
      0 ≤ b ≤ e ∧ e ≤ Z.of_nat (length (ac_neigh g)) ∧ slice (ac_neigh g) b e = downstream n A u) as Hrow.
  { intros u Hu. destruct (GraphSpec.csr_row _ _ _ _ Hcsr u Hu) as (b & e & Hb & He & Hbe & Hel & Hs & Hm).
    exists b, e. split_and!; try done; try lia. apply (sorted_lt_ext _ _ Hs); [apply filter_sorted, seqZ_sorted|].
    intros v. rewrite Hm, down_fst, downstream_elem. split; [|tauto].
    intros Hf. split; [done|]. by apply (flows_range n A u v). }
  assert (∀ u, 0 ≤ u < n → SccSpec.csr_row (ac_start g) (ac_neigh g) u = downstream n A u) as Hrow2.
  { intros u Hu. destruct (Hrow u Hu) as (b & e & Hb & He & ? & ? & <-). unfold SccSpec.csr_row.
    rewrite Hb. replace (S (Z.to_nat u)) with (Z.to_nat (u + 1)) by lia. by rewrite He. }
  split.
  - split; [lia| | |].
    + pose proof (csr_len _ _ _ _ Hcsr). lia.
    + intros u b' e' Hu Hb' He'. destruct (Hrow u Hu) as (b & e & Hb & He & ? & ? & Hs).
      replace (Z.to_nat (u + 1)) with (S (Z.to_nat u)) in He by lia.
      assert (b' = b) as -> by congruence. assert (e' = e) as -> by congruence. split_and!; [lia|lia|lia|].
      assert (length (slice (ac_neigh g) b e) = length (downstream n A u)) as HL by (by rewrite Hs).
      pose proof (slice_length (ac_neigh g) b e ltac:(lia) ltac:(lia)) as HL2.
      assert (length (downstream n A u) ≤ length (seqZ 0 n))%nat as HL3.
      { unfold downstream. apply submseteq_length, sublist_submseteq. clear.
        induction (seqZ 0 n) as [|x l IH]; [constructor|]. rewrite filter_cons. destruct (decide _); by constructor. }
      rewrite seqZ_length in HL3. lia.
    + intros u w Hu Hw. rewrite Hrow2 in Hw by done. by apply downstream_elem in Hw as [_ Hw].
  - done.
  - intros u Hu. destruct (cell_neighbourhood_spec n _ _ g u Hcsr Hwt Hu) as (nb & -> & _ & _ & b & e & Hb & He & ->).
    destruct (Hrow u Hu) as (b' & e' & Hb' & He' & _ & _ & Hs).
    assert (b' = b) as -> by congruence. assert (e' = e) as -> by congruence. rewrite Hs. f_equal.
    apply map_ext. intros c. by rewrite down_weights.
  - pose proof (csr_len _ _ _ _ Hcsr) as HL. unfold ac_numrows. fold (zlen (ac_start g)) in HL.
    rewrite HL, to_size_small; lia.
  - exact (csr_first _ _ _ _ Hcsr).
  - exact (csr_last _ _ _ _ Hcsr).
Qed.

Lemma compress_graph_up n A : 0 ≤ n < 2 ^ 31 → arcs_ok n A →
  ∃ g, ac_compress (add_all ac_new (up_conns A)) n = Ok (g, None) ∧ graph_of n (turn A) g.
Proof.
  intros Hn HA. destruct (compress_graph n (turn A)) as (g & Hg & H); [done|by apply turn_ok|].
  rewrite (proj1 (turn_conns A)) in Hg. eauto.
Qed.

(** ** Influx and outflux *)
Lemma inout_cell_fold n cell nb : 0 ≤ cell < n → ∀ f g, Forall (λ p : Z * num, 0 ≤ p.1 < n) nb →
  foldM (inout_cell cell) (tab n f, tab n g) nb =
  Ok (tab n (λ v, foldl nadd (f v) (map snd (filter (λ p, p.1 = v) nb))),
      tab n (λ v, if decide (v = cell) then foldl nadd (g v) (map snd nb) else g v)).
Proof.
  intros Hc. induction nb as [|[c w] nb IH]; intros f g Hnb.
  - cbn. do 2 f_equal. apply tab_ext. intros v _. by destruct (decide _).
  - inv Hnb. cbn [foldM inout_cell fst snd]. cbn in H1.
    rewrite (tab_get n f c), (tab_get n g cell) by done. cbn [mbind res_bind].
    rewrite !tab_set by done. cbn [mbind res_bind]. rewrite IH by done. f_equal. f_equal.
    + apply tab_ext. intros v _. rewrite filter_cons. cbn [fst]. unfold fupd.
      destruct (decide (v = c)) as [->|Hne].
      * by rewrite decide_True.
      * by rewrite decide_False.
    + apply tab_ext. intros v _. unfold fupd. destruct (decide (v = cell)) as [->|Hne]; done.
Qed.

Lemma filter_eq_nodup (f : Z → num) l v : NoDup l →
  map snd (filter (λ p, p.1 = v) (map (λ u, (u, f u)) l)) = if decide (v ∈ l) then [f v] else [].
Proof.
  induction 1 as [|x l Hx _ IH]; [done|]. cbn [map]. rewrite filter_cons. cbn [fst].
  destruct (decide (x = v)) as [->|Hne].
  - rewrite (decide_True (P := v ∈ v :: l)) by left. cbn [map snd]. rewrite IH. by rewrite decide_False.
  - rewrite IH. apply decide_ext. rewrite elem_of_cons. naive_solver.
Qed.

Lemma inout_ok n A g : 0 ≤ n < 2 ^ 31 → graph_of n A g →
  inout_flux g = Ok (tab n (influx n A), tab n (outflux n A)).
Proof.
  intros Hn Hg. unfold inout_flux. rewrite (go_rows _ _ _ Hg), to_int_small by lia.
  destruct (Z.ltb_spec n 0); [lia|]. rewrite tab_const.
  destruct (forZ_ind_Z n (λ st cell, nb ← ac_cell_neighbourhood g cell; foldM (inout_cell cell) st nb)
    (λ i st, st = (tab n (λ v, sum_left (map (λ u, arc_flux A u v) (filter (λ u, flows A u v) (seqZ 0 i)))),
                   tab n (λ u, if decide (u < i) then outflux n A u else n0)))
    (tab n (λ _, n0), tab n (λ _, n0))) as (st & E & Hst); [lia| | |].
  - f_equal. apply tab_ext. intros v Hv. rewrite decide_False by lia. done.
  - intros i st Hi ->. rewrite (go_nb _ _ _ Hg i) by lia. cbn [mbind res_bind].
    rewrite inout_cell_fold; [|lia|].
    + eexists. split; [done|]. f_equal.
      * apply tab_ext. intros v Hv. rewrite filter_eq_nodup by apply downstream_nodup.
        rewrite seqZ_S, filter_app, map_app by lia. rewrite filter_cons. replace (0 + i) with i by lia.
        destruct (decide (v ∈ downstream n A i)) as [Hd|Hd].
        -- rewrite decide_True by (by apply downstream_elem in Hd as []). cbn.
           by rewrite sum_left_snoc.
        -- rewrite decide_False; [cbn; by rewrite app_nil_r|]. intros Hf. apply Hd, downstream_elem. done.
      * apply tab_ext. intros v Hv. destruct (decide (v = i)) as [->|Hne].
        -- rewrite decide_False, decide_True by lia. unfold outflux, sum_left. rewrite map_map. done.
        -- apply decide_ext. lia.
    + apply Forall_map, Forall_forall. intros v Hv%downstream_elem. cbn. tauto.
  - rewrite E, Hst. do 2 f_equal. apply tab_ext. intros v Hv. by rewrite decide_True by lia.
Qed.

(** ** Sparse source terms *)
Lemma value_at_cons c x m v : om_wf ((c, x) :: m) →
  value_at ((c, x) :: m) v = if decide (v = c) then x else value_at m v.
Proof.
  intros Hwf. unfold value_at. destruct (decide (v = c)) as [->|Hne].
  - assert (om_find c ((c, x) :: m) = Some x) as ->; [|done]. apply om_find_elem; [done|left].
  - assert (om_find v ((c, x) :: m) = om_find v m) as ->; [|done].
    assert (om_wf m) as Hwf' by (by apply StronglySorted_inv in Hwf as []).
    destruct (om_find v m) as [y|] eqn:E.
    + apply om_find_elem; [done|]. right. by apply om_find_elem.
    + apply om_find_none; [done|]. apply om_find_none in E; [|done]. cbn. rewrite elem_of_cons. naive_solver.
Qed.

Lemma expand_ok n m : 0 ≤ n → om_wf m → (∀ c, c ∈ map fst m → 0 ≤ c < n) →
  expand_sparse n m = Ok (tab n (value_at m)).
Proof.
  intros Hn Hwf Hr. unfold expand_sparse. destruct (Z.ltb_spec n 0); [lia|]. rewrite tab_const.
  assert (∀ f, foldM (λ r kv, zset r (fst kv) (snd kv)) (tab n f) m =
    Ok (tab n (λ v, match om_find v m with Some x => x | None => f v end))) as H'; [|by rewrite H'].
  clear H. induction m as [|[c x] m IH]; intros f; [done|]. cbn [foldM fst snd].
  assert (om_wf m) as Hwf' by (by apply StronglySorted_inv in Hwf as []).
  rewrite tab_set by (apply Hr; left). cbn [mbind res_bind]. rewrite IH; [|done|intros; apply Hr; by right].
  f_equal. apply tab_ext. intros v Hv. unfold fupd.
  destruct (decide (v = c)) as [->|Hne].
  - assert (om_find c m = None) as ->.
    { apply om_find_none; [done|]. intros Hin.
      apply StronglySorted_inv in Hwf as [_ Hlt]. pose proof (proj1 (Forall_forall _ _) Hlt _ Hin) as HH.
      by apply klt_irrefl in HH. }
    assert (om_find c ((c, x) :: m) = Some x) as ->; [|done]. apply om_find_elem; [done|left].
  - assert (om_find v ((c, x) :: m) = om_find v m) as ->; [|done].
    destruct (om_find v m) as [y|] eqn:E.
    + apply om_find_elem; [done|]. right. by apply om_find_elem.
    + apply om_find_none; [done|]. apply om_find_none in E; [|done]. cbn. rewrite elem_of_cons. naive_solver.
Qed.

(** ** The constructor *)
(** A solver object for the flows [A], pore volumes [pv] and sources [src]. *)
Record solver_of (n : Z) (A : list arc) (pv : list num) (src : cellset_values) (s : tts) : Prop := {
  so_n : 0 ≤ n < 2 ^ 31;
  so_arcs : arcs_ok n A;
  so_g : graph_of n A (ts_g s);
  so_rev : graph_of n (turn A) (ts_rev s);
  so_pv : ts_pv s = pv;
  so_pvlen : zlen pv = n;
  so_in : ts_influx s = tab n (influx n A);
  so_out : ts_outflux s = tab n (outflux n A);
  so_src : ts_source s = tab n (value_at src)
}.

Lemma tts_make_ok n A pv src g rev : 0 ≤ n < 2 ^ 31 → arcs_ok n A → graph_of n A g → graph_of n (turn A) rev →
  zlen pv = n → om_wf src → (∀ c, c ∈ map fst src → 0 ≤ c < n) →
  ∃ s d, tts_make g rev pv src = Ok (s, d) ∧ solver_of n A pv src s ∧ td_local d = tab n (λ _, n0).
Proof.
  intros Hn HA Hg Hrev Hpv Hwf Hr. unfold tts_make. rewrite (inout_ok n A g Hn Hg). cbn [mbind res_bind].
  rewrite Hpv, to_int_small by lia. rewrite expand_ok by (done || lia). cbn [mbind res_bind fst snd].
  do 2 eexists. split; [done|]. split; [by split|]. cbn. rewrite <-tab_const. f_equal. unfold zlen in Hpv. lia.
Qed.
End base.
