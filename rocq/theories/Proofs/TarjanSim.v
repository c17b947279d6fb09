(** The array code of tarjan.c simulates the abstract machine of TarjanAbs.v. *)
From Verif.Model Require Import Tarjan.
From Verif.Spec Require Import SccSpec.
From Verif.Proofs Require Import Util TarjanAbs.
Open Scope Z_scope.

Lemma NoDup_bound (m : Z) l : 0 ≤ m → NoDup l → (∀ v, v ∈ l → 0 ≤ v < m) → Z.of_nat (length l) ≤ m.
Proof.
  intros Hm Hnd Hr.
  assert (l ⊆+ seqZ 0 m) as Hsub.
  { apply NoDup_submseteq; [done|]. intros v Hv. apply elem_of_seqZ. specialize (Hr v Hv). lia. }
  apply submseteq_length in Hsub. rewrite seqZ_length in Hsub. lia.
Qed.

Section sim.
Context (nv nw : Z) (ia ja : list Z) (WF : wf_graph nv ia ja) (Hnw : nv ≤ nw).
Notation E := (csr_row ia ja).
Notation n := (Z.to_nat nw).

Lemma E_range v w : 0 ≤ v < nv → w ∈ E v → 0 ≤ w < nv.
Proof. apply (wf_ja _ _ _ WF). Qed.

Lemma row_bounds v : 0 ≤ v < nv → ∃ b e, ia !! Z.to_nat v = Some b ∧ ia !! S (Z.to_nat v) = Some e ∧
  0 ≤ b ≤ e ∧ e - b < 2 ^ 31 ∧ deg E v = e - b ∧ ∀ k, (k < length (E v))%nat → ja !! Z.to_nat (b + Z.of_nat k) = E v !! k.
Proof.
  intros Hv. pose proof (wf_len _ _ _ WF) as Hl.
  destruct (lookup_lt_is_Some_2 ia (Z.to_nat v)) as [b Hb]; [lia|].
  destruct (lookup_lt_is_Some_2 ia (S (Z.to_nat v))) as [e He]; [lia|].
  destruct (wf_row _ _ _ WF v b e Hv Hb He) as (H1 & H2 & H3).
  assert (length (E v) = Z.to_nat (e - b)) as Hlen.
  { unfold csr_row. rewrite Hb, He, take_length, drop_length. lia. }
  exists b, e. split_and!; try done; try lia.
  - unfold deg. rewrite Hlen. lia.
  - intros k Hk. unfold csr_row. rewrite Hb, He. rewrite lookup_take by lia. rewrite lookup_drop.
    f_equal. lia.
Qed.

Definition repW (w : ws) (st lk tm : Z → Z) : Prop :=
  w_nvert w = nw ∧ length (w_status w) = n ∧ length (w_link w) = n ∧ length (w_time w) = n ∧
  (∀ v, 0 ≤ v < nw → w_status w !! Z.to_nat v = Some (st v)) ∧
  (∀ v, 0 ≤ v < nw → st v ≠ -1 → w_link w !! Z.to_nat v = Some (lk v) ∧ w_time w !! Z.to_nat v = Some (tm v)).
Definition layC (nc : Z) (start vert : list Z) (comps : list (list Z)) : Prop :=
  nc = zlen comps ∧
  (∀ i, (i ≤ length comps)%nat → start !! i = Some (zlen (concat (take i comps)))) ∧
  (∀ i x, concat comps !! i = Some x → vert !! i = Some x).
Definition layV (start : list Z) (vstack : Z) (V : list Z) : Prop :=
  vstack = nw - zlen V ∧ (∀ i x, V !! i = Some x → start !! (n - length V + 1 + i)%nat = Some x).
Definition layS (vert : list Z) (cstack : Z) (S : list Z) : Prop :=
  cstack = nw - 1 - zlen S ∧ (∀ i x, S !! i = Some x → vert !! (n - length S + i)%nat = Some x).
Definition bnd (a : am) : Prop :=
  (length (concat (a_comps a)) + length (a_S a) ≤ n)%nat ∧
  (length (a_comps a) + length (a_V a) ≤ n)%nat ∧
  (∀ v, v ∈ a_S a ++ a_V a → 0 ≤ v < nv).
Record rep (w : ws) (s : scc) (a : am) : Prop := {
  r_w : repW w (a_st a) (a_lk a) (a_tm a);
  r_ls : length (s_start s) = S n;
  r_lv : length (s_vert s) = n;
  r_C : layC (s_ncomp s) (s_start s) (s_vert s) (a_comps a);
  r_V : layV (s_start s) (s_vstack s) (a_V a);
  r_S : layS (s_vert s) (s_cstack s) (a_S a);
  r_v0 : s_vstart s = nw;
  r_c0 : s_cstart s = nw - 1
}.

Lemma nw_pos : 0 ≤ nw.
Proof. pose proof (wf_nv _ _ _ WF). lia. Qed.

Lemma set_status_ok w st lk tm v x : repW w st lk tm → 0 ≤ v < nw → st v ≠ -1 →
  ∃ w', set_status w v x = Ok w' ∧ repW w' (upd st v x) lk tm.
Proof.
  intros (H1 & H2 & H3 & H4 & H5 & H6) Hv Hst. pose proof nw_pos.
  unfold set_status. rewrite zset_of by (unfold zlen; lia). cbn [mbind res_bind].
  eexists. split; [done|]. unfold repW. cbn. rewrite insert_length. split_and!; try done.
  - intros u Hu. destruct (decide (u = v)) as [->|Hne].
    + rewrite upd_eq. apply list_lookup_insert. lia.
    + rewrite upd_ne by done. rewrite list_lookup_insert_ne by lia. auto.
  - intros u Hu Hx. destruct (decide (u = v)) as [->|Hne]; [by apply H6|].
    rewrite upd_ne in Hx by done. auto.
Qed.
Lemma set_link_ok w st lk tm v x : repW w st lk tm → 0 ≤ v < nw →
  ∃ w', set_link w v x = Ok w' ∧ repW w' st (upd lk v x) tm.
Proof.
  intros (H1 & H2 & H3 & H4 & H5 & H6) Hv. pose proof nw_pos.
  unfold set_link. rewrite zset_of by (unfold zlen; lia). cbn [mbind res_bind].
  eexists. split; [done|]. unfold repW. cbn. rewrite insert_length. split_and!; try done.
  intros u Hu Hx. split; [|by apply H6]. destruct (decide (u = v)) as [->|Hne].
  - rewrite upd_eq. apply list_lookup_insert. lia.
  - rewrite upd_ne by done. rewrite list_lookup_insert_ne by lia. by apply H6.
Qed.

Lemma get_status w st lk tm v : repW w st lk tm → 0 ≤ v < nw → zget (w_status w) v = Ok (st v).
Proof. intros (H1 & H2 & H3 & H4 & H5 & H6) Hv. apply zget_of; [lia|auto]. Qed.
Lemma get_link w st lk tm v : repW w st lk tm → 0 ≤ v < nw → st v ≠ -1 → zget (w_link w) v = Ok (lk v).
Proof. intros (H1 & H2 & H3 & H4 & H5 & H6) Hv Hs. apply zget_of; [lia|]. by apply H6. Qed.
Lemma get_time w st lk tm v : repW w st lk tm → 0 ≤ v < nw → st v ≠ -1 → zget (w_time w) v = Ok (tm v).
Proof. intros (H1 & H2 & H3 & H4 & H5 & H6) Hv Hs. apply zget_of; [lia|]. by apply H6. Qed.

Lemma layV_peek start vs c V : layV start vs (c :: V) → (S (length V) ≤ n)%nat → zget start (vs + 1) = Ok c.
Proof.
  intros [-> H] Hb. apply zget_of; unfold zlen; cbn [length]; [lia|].
  rewrite <-(H 0%nat c) by done. f_equal. cbn [length]. lia.
Qed.

Lemma layV_push start vs V x : layV start vs V → (length V < n)%nat → length start = S n →
  ∃ start', zset start vs x = Ok start' ∧ layV start' (vs - 1) (x :: V) ∧ length start' = S n ∧
    ∀ i, (i < n - length V)%nat → start' !! i = start !! i.
Proof.
  intros [-> H] Hb Hl. rewrite zset_of by (unfold zlen; lia). eexists. split; [done|].
  split_and!.
  - split; [unfold zlen; cbn; lia|]. intros [|i] y Hy; cbn [length].
    + injection Hy as <-.
      replace (n - S (length V) + 1 + 0)%nat with (Z.to_nat (nw - zlen V)) by (unfold zlen; lia).
      apply list_lookup_insert. unfold zlen. lia.
    + rewrite list_lookup_insert_ne by (unfold zlen; lia). rewrite <-(H i y Hy). f_equal. cbn in Hy. lia.
  - by rewrite insert_length.
  - intros i Hi. apply list_lookup_insert_ne. unfold zlen. lia.
Qed.

Lemma layS_push vert cs S x : layS vert cs S → (length S < n)%nat → length vert = n →
  ∃ vert', zset vert cs x = Ok vert' ∧ layS vert' (cs - 1) (x :: S) ∧ length vert' = n ∧
    ∀ i, (i < n - 1 - length S)%nat → vert' !! i = vert !! i.
Proof.
  intros [-> H] Hb Hl. rewrite zset_of by (unfold zlen; lia). eexists. split; [done|].
  split_and!.
  - split; [unfold zlen; cbn; lia|]. intros [|i] y Hy; cbn [length].
    + injection Hy as <-.
      replace (n - Datatypes.S (length S) + 0)%nat with (Z.to_nat (nw - 1 - zlen S)) by (unfold zlen; lia).
      apply list_lookup_insert. unfold zlen. lia.
    + rewrite list_lookup_insert_ne by (unfold zlen; lia). rewrite <-(H i y Hy). f_equal. cbn in Hy. lia.
  - by rewrite insert_length.
  - intros i Hi. apply list_lookup_insert_ne. unfold zlen. lia.
Qed.

Lemma layC_ext nc start vert start' vert' comps : layC nc start vert comps →
  (∀ i, (i ≤ length comps)%nat → start' !! i = start !! i) →
  (∀ i, (i < length (concat comps))%nat → vert' !! i = vert !! i) →
  layC nc start' vert' comps.
Proof.
  intros (H1 & H2 & H3) Hs Hv. split_and!; [done| |].
  - intros i Hi. rewrite Hs by done. auto.
  - intros i x Hx. rewrite Hv by by eapply lookup_lt_Some. auto.
Qed.

(** ** push on the vertex stack *)
Lemma push_v_ok w s a x : rep w s a → (length (a_comps a) + length (a_V a) < n)%nat →
  ∃ s', push_v s x = Ok s' ∧
    rep w s' (mkAm (a_comps a) (x :: a_V a) (a_S a) (a_st a) (a_lk a) (a_tm a) (a_clk a)).
Proof.
  intros R Hb. destruct (layV_push _ _ _ x (r_V _ _ _ R)) as (start' & E1 & H1 & H2 & H3); [lia|apply R|].
  unfold push_v. rewrite E1. cbn [mbind res_bind]. eexists. split; [done|].
  constructor; cbn; try apply R; try done.
  eapply layC_ext; [apply R| |done]. intros i Hi. apply H3. lia.
Qed.

(** ** discover_vertex *)
Lemma discover_ok w s a c : rep w s a → 0 ≤ c < nv → 0 ≤ a_clk a < 2 ^ 31 - 1 →
  (length (concat (a_comps a)) + length (a_S a) < n)%nat →
  ∃ w' s', discover_vertex c ia (a_clk a) w s = Ok (w', s', a_clk a + 1) ∧
    rep w' s' (a_discover E a c).
Proof.
  intros R Hc Hclk Hb. pose proof (wf_nv _ _ _ WF) as Hnv.
  destruct (row_bounds c Hc) as (b & e & Hb' & He & Hbe & Hdeg & Hd & _).
  unfold discover_vertex.
  rewrite (zget_of ia (c + 1) e) by (try lia; rewrite <-He; f_equal; lia).
  rewrite (zget_of ia c b) by (lia || done). cbn [mbind res_bind].
  assert (to_int (to_size (e - b)) = deg E c) as ->.
  { rewrite to_size_small by lia. rewrite to_int_small by lia. done. }
  destruct (r_w _ _ _ R) as (W1 & W2 & W3 & W4 & W5 & W6).
  unfold set_status, set_link, set_time.
  rewrite zset_of by (unfold zlen; lia). cbn [mbind res_bind w_link w_status w_time w_nvert].
  rewrite zset_of by (unfold zlen; lia). cbn [mbind res_bind w_link w_status w_time w_nvert].
  rewrite zset_of by (unfold zlen; lia). cbn [mbind res_bind w_link w_status w_time w_nvert].
  rewrite (int_add_of (a_clk a) 1) by (unfold int_max; lia). cbn [mbind res_bind].
  destruct (layS_push _ _ _ (to_int c) (r_S _ _ _ R)) as (vert' & E1 & H1 & H2 & H3); [lia|apply R|].
  unfold push_c. rewrite E1. cbn [mbind res_bind].
  rewrite (to_int_small c) in * by lia.
  eexists _, _. split; [done|]. constructor; cbn; try apply R; try done.
  - unfold repW. cbn. rewrite !insert_length. split_and!; try done.
    + intros v Hv. destruct (decide (v = c)) as [->|Hne].
      * rewrite upd_eq. apply list_lookup_insert. lia.
      * rewrite upd_ne by done. rewrite list_lookup_insert_ne by lia. auto.
    + intros v Hv Hst. destruct (decide (v = c)) as [->|Hne].
      * rewrite !upd_eq. split; apply list_lookup_insert; lia.
      * rewrite upd_ne in Hst by done. rewrite !upd_ne by done. rewrite !list_lookup_insert_ne by lia. auto.
  - eapply layC_ext; [apply R|done|]. intros i Hi. apply H3. lia.
Qed.

(** ** dfs_from_descendant *)
Lemma descend_ok w s a c : rep w s a → 0 ≤ c < nv → 0 < a_st a c ≤ deg E c →
  (∀ v, -2 ≤ a_st a v) →
  (a_st a (a_child E a c) = -1 → (length (a_comps a) + length (a_V a) < n)%nat) →
  ∃ w' s', dfs_from_descendant c ia ja w s = Ok (w', s') ∧ rep w' s' (a_descend E a c).
Proof.
  intros R Hc Hst Hlow Hb. pose proof (wf_nv _ _ _ WF) as Hnv.
  destruct (row_bounds c Hc) as (b & e & Hb' & He & Hbe & Hdeg & Hd & Hja).
  unfold dfs_from_descendant. rewrite (get_status _ _ _ _ c (r_w _ _ _ R)) by lia. cbn [mbind res_bind].
  destruct (Z.ltb_spec 0 (a_st a c)); [|lia]. cbn [assert_ mbind res_bind].
  rewrite (zget_of ia c b) by (lia || done). cbn [mbind res_bind].
  unfold deg in Hst.
  destruct (lookup_lt_is_Some_2 (E c) (Z.to_nat (a_st a c - 1))) as [ch Hch]; [lia|].
  assert (a_child E a c = ch) as Hchild by (unfold a_child; by rewrite Hch).
  assert (0 ≤ ch < nv) as Hchr.
  { apply (E_range c); [done|]. by eapply elem_of_list_lookup_2. }
  rewrite (zget_of ja (b + (a_st a c - 1)) ch); [|lia|].
  2:{ rewrite <-Hch, <-Hja by lia. f_equal. lia. }
  cbn [mbind res_bind]. rewrite (to_size_small ch) by lia.
  destruct (set_status_ok _ _ _ _ c (a_st a c - 1) (r_w _ _ _ R)) as (w1 & E1 & R1); [lia|lia|].
  rewrite E1. cbn [mbind res_bind].
  rewrite (get_status _ _ _ _ ch R1) by lia. cbn [mbind res_bind].
  unfold a_descend. rewrite Hchild. cbn zeta. rewrite Hchild in Hb.
  set (st' := upd (a_st a) c (a_st a c - 1)) in *.
  assert (rep w1 s (mkAm (a_comps a) (a_V a) (a_S a) st' (a_lk a) (a_tm a) (a_clk a))) as R2.
  { constructor; cbn; try apply R. done. }
  unfold REMAINING, DONE. destruct (Z.eqb_spec (st' ch) (-1)) as [Hm|Hm].
  - rewrite decide_True by done.
    destruct (push_v_ok _ _ _ ch R2) as (s' & E2 & R3).
    { cbn. apply Hb. rewrite <-Hm. unfold st'. destruct (decide (ch = c)) as [->|]; [|by rewrite upd_ne].
      unfold st' in Hm. rewrite upd_eq in Hm. lia. }
    rewrite E2. cbn [mbind res_bind]. cbn in R3. eauto.
  - rewrite decide_False by done. destruct (Z.leb_spec 0 (st' ch)) as [Hp|Hp].
    + rewrite decide_True by done.
      rewrite (get_link _ _ _ _ c R1) by (try lia; unfold st'; rewrite upd_eq; lia). cbn [mbind res_bind].
      rewrite (get_time _ _ _ _ ch R1) by lia. cbn [mbind res_bind].
      destruct (set_link_ok _ _ _ _ c (Z.min (a_lk a c) (a_tm a ch)) R1) as (w2 & E2 & R3); [lia|].
      rewrite E2. cbn [mbind res_bind]. eexists _, _. split; [done|].
      constructor; cbn; try apply R. done.
    + rewrite decide_False by lia.
      assert (-2 ≤ st' ch).
      { unfold st', upd. case_decide; [lia|]. apply Hlow. }
      destruct (Z.eqb_spec (st' ch) (-2)); [|lia]. cbn [assert_ mbind res_bind]. eauto.
Qed.

(** ** capture_scc *)
Record cap (w : ws) (s : scc) (comps : list (list Z)) (pre rest : list Z) (st lk tm : Z → Z) : Prop := {
  c_w : repW w st lk tm;
  c_ls : length (s_start s) = S n;
  c_lv : length (s_vert s) = n;
  c_c0 : s_cstart s = nw - 1;
  c_nc : s_ncomp s = zlen comps;
  c_lc : (length comps < n)%nat;
  c_end : s_start s !! S (length comps) = Some (zlen (concat comps ++ pre));
  c_pre : ∀ i x, (concat comps ++ pre) !! i = Some x → s_vert s !! i = Some x;
  c_S : layS (s_vert s) (s_cstack s) rest;
  c_b : (length (concat comps ++ pre) + length rest ≤ n)%nat
}.

Lemma capture_step c fuel w s comps pre v rest st lk tm :
  cap w s comps pre (v :: rest) st lk tm → 0 ≤ v < nv → st v ≠ -1 →
  ∃ w' s', capture_loop (S fuel) c w s = (if v =? c then Ok (w', s') else capture_loop fuel c w' s') ∧
    cap w' s' comps (pre ++ [v]) rest (upd st v (-2)) lk tm ∧
    s_start s' = <[S (length comps) := zlen (concat comps ++ pre ++ [v])]> (s_start s) ∧
    s_vstack s' = s_vstack s ∧ s_vstart s' = s_vstart s.
Proof.
  intros K Hv Hst. pose proof (c_S _ _ _ _ _ _ _ _ K) as [Hcs HSl].
  pose proof (c_b _ _ _ _ _ _ _ _ K) as Hb. cbn [length] in Hb. pose proof (c_ls _ _ _ _ _ _ _ _ K).
  pose proof (c_lv _ _ _ _ _ _ _ _ K). pose proof (c_lc _ _ _ _ _ _ _ _ K).
  cbn [capture_loop]. rewrite Hcs, (c_c0 _ _ _ _ _ _ _ _ K).
  assert (nw - 1 - zlen (v :: rest) =? nw - 1 = false) as ->.
  { apply Z.eqb_neq. unfold zlen. cbn. lia. }
  cbn [negb assert_ mbind res_bind].
  rewrite (zget_of (s_vert s) (nw - 1 - zlen (v :: rest) + 1) v).
  2:{ unfold zlen. cbn [length]. lia. }
  2:{ rewrite <-(HSl 0%nat v) by done. f_equal. unfold zlen. cbn [length]. lia. }
  cbn [mbind res_bind].
  destruct (set_status_ok _ _ _ _ v DONE (c_w _ _ _ _ _ _ _ _ K)) as (w1 & E1 & R1); [lia|done|].
  rewrite E1. cbn [mbind res_bind]. rewrite (c_nc _ _ _ _ _ _ _ _ K).
  set (q := zlen (concat comps ++ pre)) in *.
  assert (q = Z.of_nat (length (concat comps ++ pre))) as Hq by done.
  rewrite (zget_of (s_start s) (zlen comps + 1) q).
  2:{ unfold zlen. lia. }
  2:{ unfold q. rewrite <-(c_end _ _ _ _ _ _ _ _ K). f_equal. unfold zlen. lia. }
  cbn [mbind res_bind]. rewrite zset_of by (unfold zlen; lia). cbn [mbind res_bind].
  rewrite zset_of by (unfold zlen; lia). cbn [mbind res_bind].
  assert (zlen (concat comps ++ pre ++ [v]) = q + 1) as Hq1.
  { rewrite Hq. unfold zlen. rewrite !app_length. cbn. lia. }
  assert (Z.to_nat (zlen comps + 1) = S (length comps)) as Hi by (unfold zlen; lia).
  eexists _, _. split; [destruct (v =? c); reflexivity|]. cbn.
  split_and!; [|by rewrite Hi, Hq1|done|done].
  constructor; cbn.
  - done.
  - by rewrite insert_length.
  - by rewrite insert_length.
  - done.
  - done.
  - done.
  - rewrite Hi, Hq1. apply list_lookup_insert. lia.
  - intros i x Hx. rewrite (assoc_L (++)) in Hx. apply lookup_snoc_Some in Hx as [[Hi' Hx]|[-> ->]].
    + rewrite list_lookup_insert_ne by lia. by apply (c_pre _ _ _ _ _ _ _ _ K).
    + rewrite Hq, Nat2Z.id. apply list_lookup_insert. lia.
  - split; [unfold zlen; cbn; lia|]. intros i x Hx. pose proof (lookup_lt_Some _ _ _ Hx).
    rewrite list_lookup_insert_ne by lia. rewrite <-(HSl (S i) x Hx). f_equal. cbn [length]. lia.
  - rewrite (assoc_L (++)), app_length. cbn. lia.
Qed.

Lemma repW_ext w st st' lk tm : repW w st lk tm → (∀ v, st v = st' v) → repW w st' lk tm.
Proof.
  intros (H1 & H2 & H3 & H4 & H5 & H6) H. unfold repW. split_and!; try done.
  - intros v Hv. rewrite <-H. auto.
  - intros v Hv. rewrite <-H. auto.
Qed.

Lemma capture_loop_ok c r comps lk tm : 0 ≤ c < nv →
  ∀ p fuel w s pre st,
  (length p < fuel)%nat → c ∉ p → (∀ v, v ∈ p ++ [c] → 0 ≤ v < nv) → (∀ v, v ∈ p ++ [c] → st v ≠ -1) →
  cap w s comps pre (p ++ c :: r) st lk tm →
  ∃ w' s', capture_loop fuel c w s = Ok (w', s') ∧
    cap w' s' comps (pre ++ p ++ [c]) r (λ u, if decide (u ∈ p ++ [c]) then -2 else st u) lk tm ∧
    (∀ i, i ≠ S (length comps) → s_start s' !! i = s_start s !! i) ∧
    s_vstack s' = s_vstack s ∧ s_vstart s' = s_vstart s.
Proof.
  intros Hc. induction p as [|x p IH]; intros fuel w s pre st Hf Hcp Hrng Hst K.
  all: destruct fuel as [|fuel]; [cbn in Hf; lia|].
  - destruct (capture_step c fuel w s comps pre c r st lk tm K) as (w' & s' & E1 & K1 & E2 & E3 & E4); [done|apply Hst; set_solver|].
    rewrite Z.eqb_refl in E1. exists w', s'. split_and!; [done| | |done|done].
    + cbn. constructor; try apply K1. eapply repW_ext; [apply K1|]. intros v. unfold upd.
      apply decide_ext. set_solver.
    + intros i Hi. rewrite E2. by apply list_lookup_insert_ne.
  - destruct (capture_step c fuel w s comps pre x (p ++ c :: r) st lk tm K) as (w1 & s1 & E1 & K1 & E2 & E3 & E4);
      [apply Hrng; set_solver|apply Hst; set_solver|].
    assert (x ≠ c) by set_solver. destruct (Z.eqb_spec x c); [done|].
    destruct (IH fuel w1 s1 (pre ++ [x]) (upd st x (-2))) as (w' & s' & E5 & K5 & E6 & E7 & E8); try done.
    + cbn in Hf. lia.
    + set_solver.
    + intros v Hv. apply Hrng. set_solver.
    + intros v Hv. unfold upd. case_decide; [done|]. apply Hst. set_solver.
    + exists w', s'. rewrite E1, E5. split_and!; [done| | |congruence|congruence].
      * rewrite <-(assoc_L (++)) in K5. cbn in K5 |- *. constructor; try apply K5. eapply repW_ext; [apply K5|].
        intros v. cbn. unfold upd. repeat case_decide; try done; set_solver.
      * intros i Hi. rewrite E6, E2 by done. by apply list_lookup_insert_ne.
Qed.

(** ** complete_dfs_from_vertex *)
Lemma complete_ok w s a c V' : rep w s a → a_V a = c :: V' → bnd a →
  (∀ v, v ∈ c :: V' → a_st a v ≠ -1) → (∀ v, v ∈ a_S a → a_st a v ≠ -1) → c ∈ a_S a →
  ∃ w' s', complete_dfs_from_vertex c w s = Ok (w', s') ∧ rep w' s' (a_complete a c).
Proof.
  intros R HV (B1 & B2 & B3) HstV HstS HcS. pose proof nw_pos.
  assert (∀ v, v ∈ c :: V' → 0 ≤ v < nv) as HVr by (intros v Hv; apply B3; rewrite HV; set_solver).
  assert (0 ≤ c < nv) as Hc by (apply HVr; set_solver).
  assert (a_st a c ≠ -1) as Hcst by (apply HstV; set_solver).
  unfold complete_dfs_from_vertex. rewrite (get_link _ _ _ _ c (r_w _ _ _ R)) by (done || lia). cbn [mbind res_bind].
  rewrite (get_time _ _ _ _ c (r_w _ _ _ R)) by (done || lia). cbn [mbind res_bind].
  unfold a_complete.
  set (a1 := if decide (a_lk a c = a_tm a c) then a_capture a c else a).
  assert (∃ w1 s1, (if a_lk a c =? a_tm a c then capture_scc c w s else Ok (w, s)) = Ok (w1, s1) ∧
    repW w1 (a_st a1) (a_lk a1) (a_tm a1) ∧ length (s_start s1) = S n ∧ length (s_vert s1) = n ∧
    layC (s_ncomp s1) (s_start s1) (s_vert s1) (a_comps a1) ∧
    layV (s_start s1) (s_vstack s1 + 1) V' ∧ layS (s_vert s1) (s_cstack s1) (a_S a1) ∧
    s_vstart s1 = nw ∧ s_cstart s1 = nw - 1 ∧ (∀ v, a_st a v ≠ -1 → a_st a1 v ≠ -1)) as H1.
  { assert (layV (s_start s) (s_vstack s + 1) V') as HlV.
    { destruct (r_V _ _ _ R) as [H1 H2]. rewrite HV in *. split; [rewrite H1; unfold zlen; cbn; lia|].
      intros i x Hx. rewrite <-(H2 (S i) x Hx). f_equal. cbn [length] in *. lia. }
    unfold a1. destruct (Z.eqb_spec (a_lk a c) (a_tm a c)) as [Hr|Hr].
    2:{ rewrite decide_False by done. exists w, s. split_and!; try apply R; done. }
    rewrite decide_True by done.
    apply elem_of_list_split_l in HcS as (p & r & HS & Hcp).
    unfold capture_scc. destruct (r_C _ _ _ R) as (C1 & C2 & C3).
    pose proof (C2 (length (a_comps a)) ltac:(lia)) as Hst0. rewrite take_ge in Hst0 by lia.
    rewrite (zget_of (s_start s) (s_ncomp s) _ ltac:(unfold zlen in *; lia) ltac:(rewrite C1; unfold zlen at 1; rewrite Nat2Z.id; exact Hst0)).
    cbn [mbind res_bind]. pose proof (r_ls _ _ _ R). rewrite HV in B2. cbn [length] in B2.
    assert (Z.to_nat (s_ncomp s + 1) = S (length (a_comps a))) as Hi by (rewrite C1; unfold zlen; lia).
    rewrite zset_of by (rewrite C1; unfold zlen; lia). cbn [mbind res_bind]. rewrite Hi.
    destruct (r_S _ _ _ R) as [S1 S2].
    set (start1 := <[S (length (a_comps a)):=zlen (concat (a_comps a))]> (s_start s)).
    destruct (capture_loop_ok c r (a_comps a) (a_lk a) (a_tm a) Hc p
      (S (Z.to_nat (s_cstart s - s_cstack s))) w
      (mkScc (s_ncomp s) start1 (s_vert s) (s_vstack s) (s_vstart s) (s_cstack s) (s_cstart s)) [] (a_st a))
      as (w1 & s1 & E1 & K & E2 & E3 & E4).
    - rewrite S1, (r_c0 _ _ _ R). unfold zlen. rewrite HS, app_length. lia.
    - done.
    - intros v Hv. apply B3. rewrite HS. set_solver.
    - intros v Hv. apply HstS. rewrite HS. set_solver.
    - constructor; cbn.
      + apply R.
      + unfold start1. by rewrite insert_length.
      + apply R.
      + apply R.
      + done.
      + lia.
      + rewrite app_nil_r. unfold start1. apply list_lookup_insert. lia.
      + rewrite app_nil_r. done.
      + rewrite <-HS. apply R.
      + rewrite app_nil_r, <-HS. lia.
    - rewrite E1. cbn [mbind res_bind]. eexists _, _. split; [done|].
      assert (length (a_comps a ++ [p ++ [c]]) = S (length (a_comps a))) as Hlc by (rewrite app_length; cbn; lia).
      cbn in E3, E4, E2. unfold a_capture. rewrite HS, upto_spec by done. cbn [fst snd].
      cbn [s_start s_vert s_vstack s_vstart s_cstack s_cstart s_ncomp a_st a_lk a_tm a_comps a_S].
      split_and!; try apply K.
      + split_and!.
        * rewrite (c_nc _ _ _ _ _ _ _ _ K). unfold zlen. rewrite Hlc. lia.
        * intros i Hi'. rewrite Hlc in Hi'.
          destruct (decide (i = S (length (a_comps a)))) as [->|Hne].
          -- rewrite (c_end _ _ _ _ _ _ _ _ K). rewrite take_ge by lia.
             rewrite concat_app. cbn. by rewrite app_nil_r.
          -- rewrite E2 by done. unfold start1. rewrite list_lookup_insert_ne by done.
             rewrite take_app_le by lia. apply C2. lia.
        * rewrite concat_app. cbn. rewrite app_nil_r. apply (c_pre _ _ _ _ _ _ _ _ K).
      + destruct HlV as [H1 H2]. rewrite E3. split; [done|]. intros i x Hx. pose proof (lookup_lt_Some _ _ _ Hx).
        rewrite E2 by lia. unfold start1. rewrite list_lookup_insert_ne by lia. auto.
      + rewrite E4. apply R.
      + intros v Hv. case_decide; [done|]. done. }
  destruct H1 as (w1 & s1 & E1 & RW & L1 & L2 & HlC & HlV & HlS & Hv0 & Hc0 & Hst1).
  rewrite E1. cbn [mbind res_bind].
  cbn [s_start s_vert s_vstack s_vstart s_cstack s_cstart s_ncomp].
  assert (a_V a1 = c :: V') as HV1 by (unfold a1; by case_decide).
  unfold a_pop. rewrite HV1. cbn [tl].
  pose proof HlV as [Hvs _]. rewrite HV in B2. cbn [length] in B2.
  destruct V' as [|v V'].
  - assert (s_vstack s1 + 1 =? s_vstart s1 = true) as ->.
    { apply Z.eqb_eq. rewrite Hvs, Hv0. unfold zlen. cbn. lia. }
    eexists _, _. split; [done|]. constructor; cbn; done.
  - cbn [length] in *. assert (s_vstack s1 + 1 =? s_vstart s1 = false) as ->.
    { apply Z.eqb_neq. rewrite Hvs, Hv0. unfold zlen. cbn. lia. }
    unfold peek_v. cbn [s_start s_vstack]. rewrite (layV_peek _ _ _ _ HlV) by lia. cbn [mbind res_bind].
    assert (0 ≤ v < nv) as Hv by (apply HVr; set_solver).
    rewrite (get_link _ _ _ _ v RW) by (try lia; apply Hst1, HstV; set_solver). cbn [mbind res_bind].
    rewrite (get_link _ _ _ _ c RW) by (try lia; by apply Hst1). cbn [mbind res_bind].
    destruct (set_link_ok _ _ _ _ v (Z.min (a_lk a1 v) (a_lk a1 c)) RW) as (w2 & E2 & RW2); [lia|].
    rewrite E2. cbn [mbind res_bind]. eexists _, _. split; [done|].
    constructor; cbn; try done.
Qed.

(** ** One iteration *)
Lemma nonempty_concat (l : list (list Z)) : Forall (λ C, C ≠ []) l → (length l ≤ length (concat l))%nat.
Proof.
  induction 1 as [|C l HC Hl IH]; cbn; [lia|]. rewrite app_length. destruct C; [done|]. cbn. lia.
Qed.

Lemma inv_nonempty a segs pend R : Inv E nv a segs pend R → Forall (λ C, C ≠ []) (a_comps a).
Proof.
  intros I. apply Forall_forall. intros C HC. apply elem_of_list_split in HC as (l1 & l2 & Heq).
  by destruct (i_comps _ _ _ _ _ _ I _ _ _ Heq).
Qed.

Lemma inv_bnd a segs pend R : Inv E nv a segs pend R →
  (length (concat (a_comps a)) + length (a_S a) ≤ Z.to_nat nv)%nat ∧
  (length (a_comps a) + length (a_V a) ≤ Z.to_nat nv)%nat ∧ bnd a.
Proof.
  intros I. pose proof (wf_nv _ _ _ WF).
  assert (length (concat (a_comps a)) + length (a_S a) ≤ Z.to_nat nv)%nat as H1.
  { pose proof (NoDup_bound nv _ ltac:(lia) (i_nd _ _ _ _ _ _ I)) as Hb. rewrite app_length in Hb.
    assert (∀ v, v ∈ concat (a_comps a) ++ a_S a → 0 ≤ v < nv) as Hr; [|specialize (Hb Hr); lia].
    intros v Hv. apply (i_rng _ _ _ _ _ _ I). set_solver. }
  assert (length (a_comps a) + length (a_V a) ≤ Z.to_nat nv)%nat as H2.
  { assert (NoDup (concat (a_comps a) ++ a_V a)) as Hnd.
    { pose proof (i_nd _ _ _ _ _ _ I) as Hnd. apply NoDup_app in Hnd as (H2 & H3 & H4).
      apply NoDup_app. split_and!; [done| |by apply (inv_NoDup_V _ _ _ _ _ _ I)].
      intros v Hv HvV. rewrite (i_V _ _ _ _ _ _ I) in HvV. apply elem_of_app in HvV as [HvV|HvV].
      - destruct pend as [w|]; cbn in HvV; [|set_solver]. apply elem_of_list_singleton in HvV as ->.
        apply (i_done _ _ _ _ _ _ I) in Hv. rewrite (i_pend _ _ _ _ _ _ I w) in Hv; done.
      - apply seg_snd_elem in HvV. rewrite <-(i_S _ _ _ _ _ _ I) in HvV. by apply (H3 v). }
    pose proof (NoDup_bound nv _ ltac:(lia) Hnd) as Hb. rewrite app_length in Hb.
    assert (∀ v, v ∈ concat (a_comps a) ++ a_V a → 0 ≤ v < nv) as Hr.
    { intros v Hv. apply (i_rng _ _ _ _ _ _ I). set_solver. }
    specialize (Hb Hr). pose proof (nonempty_concat _ (inv_nonempty _ _ _ _ I)). lia. }
  split_and!; [done|done|]. split_and!; [lia|lia|].
  intros v Hv. apply (i_rng _ _ _ _ _ _ I). set_solver.
Qed.

Lemma iter_ok w s a steps segs pend R : rep w s a → Inv E nv a segs pend R → a_V a ≠ [] →
  ∃ w' s', tarjan_iter ia ja (mkT w s (a_clk a) steps) = Ok (mkT w' s' (a_clk (a_iter E a)) (steps + 1)) ∧
    rep w' s' (a_iter E a).
Proof.
  intros Rp I Hne. destruct (a_V a) as [|c V'] eqn:HV; [done|]. clear Hne.
  destruct (inv_bnd _ _ _ _ I) as (B1 & B2 & B3). pose proof (wf_nv _ _ _ WF).
  assert (0 ≤ c < nv) as Hc by (apply B3; rewrite HV; clear; set_solver).
  destruct (inv_top E nv a segs pend R c V' I HV) as (fs & segs' & I1 & HV1). cbn zeta in I1, HV1.
  unfold tarjan_iter. cbn [t_scc t_ws t_time t_steps].
  pose proof (r_V _ _ _ Rp) as HlV. rewrite HV in HlV. rewrite HV in B2. cbn [length] in B2.
  unfold peek_v. rewrite (layV_peek _ _ _ _ HlV) by lia. cbn [mbind res_bind].
  rewrite (get_status _ _ _ _ c (r_w _ _ _ Rp)) by lia. cbn [mbind res_bind].
  assert (a_st a c ≠ -2) as Hnd.
  { intros Hd. pose proof (i_V _ _ _ _ _ _ I) as HV2. rewrite HV in HV2. destruct pend as [x|]; cbn in HV2.
    - injection HV2 as <- _. rewrite (i_pend _ _ _ _ _ _ I c) in Hd; done.
    - assert (c ∈ seg_S segs) as Hcs by (apply seg_snd_elem; rewrite <-HV2; clear; set_solver).
      rewrite <-(i_S _ _ _ _ _ _ I), (i_act _ _ _ _ _ _ I) in Hcs. lia. }
  pose proof (i_low _ _ _ _ _ _ I c) as Hlow.
  unfold DONE, REMAINING. destruct (Z.eqb_spec (a_st a c) (-2)); [done|].
  destruct (Z.leb_spec (-2) (a_st a c)); [|lia]. cbn [negb assert_ mbind res_bind].
  unfold a_iter. rewrite HV. cbn zeta.
  set (a1 := if decide (a_st a c = -1) then a_discover E a c else a) in *.
  assert (∃ w1 s1, (if a_st a c =? -1 then discover_vertex c ia (a_clk a) w s else Ok (w, s, a_clk a))
     = Ok (w1, s1, a_clk a1) ∧ rep w1 s1 a1) as (w1 & s1 & E1 & R1).
  { unfold a1. destruct (Z.eqb_spec (a_st a c) (-1)) as [Hm|Hm].
    - rewrite decide_True by done.
      pose proof (inv_bnd _ _ _ _ I1) as (B1' & _). unfold a1 in B1'. rewrite decide_True in B1' by done.
      cbn [a_comps a_S a_discover length] in B1'.
      destruct (discover_ok _ _ _ c Rp Hc) as (w1 & s1 & E1 & R1).
      + pose proof (i_cnt _ _ _ _ _ _ I). lia.
      + lia.
      + exists w1, s1. by split.
    - rewrite decide_False by done. eauto. }
  rewrite E1. cbn [mbind res_bind].
  rewrite (get_status _ _ _ _ c (r_w _ _ _ R1)) by lia. cbn [mbind res_bind].
  clearbody a1. destruct (inv_bnd _ _ _ _ I1) as (B1' & B2' & B3').
  assert (c ∈ a_S a1) as HcS by (rewrite (i_S _ _ _ _ _ _ I1), seg_S_cons; clear; set_solver).
  pose proof (proj1 (i_act _ _ _ _ _ _ I1 c) HcS) as Hge.
  destruct (Z.eqb_spec (a_st a1 c) 0) as [Hz|Hz].
  - rewrite decide_True by done.
    destruct (complete_ok w1 s1 a1 c V' R1 HV1 B3') as (w2 & s2 & E2 & R2); [| |done|].
    + intros v Hv. rewrite <-HV1, (i_V _ _ _ _ _ _ I1) in Hv. cbn [option_list app] in Hv.
      apply seg_snd_elem in Hv. rewrite <-(i_S _ _ _ _ _ _ I1), (i_act _ _ _ _ _ _ I1) in Hv. lia.
    + intros v Hv. rewrite (i_act _ _ _ _ _ _ I1) in Hv. lia.
    + rewrite E2. cbn [mbind res_bind]. exists w2, s2. split; [|done]. do 2 f_equal.
      unfold a_complete. by case_decide.
  - rewrite decide_False by done.
    destruct (descend_ok w1 s1 a1 c R1 Hc) as (w2 & s2 & E2 & R2).
    + split; [lia|]. by apply (i_deg _ _ _ _ _ _ I1).
    + apply (i_low _ _ _ _ _ _ I1).
    + intros Hm.
      destruct (inv_descend E nv E_range a1 fs c segs' R I1 ltac:(lia)) as (pend' & I2).
      destruct (inv_bnd _ _ _ _ I2) as (_ & B2'' & _). unfold a_descend in B2''. cbn zeta in B2''.
      rewrite decide_True in B2''.
      * cbn [a_comps a_V length] in B2''. lia.
      * rewrite upd_ne; [done|]. intros Heq. rewrite Heq in Hm. lia.
    + rewrite E2. cbn [mbind res_bind]. exists w2, s2. split; [|done]. do 2 f_equal.
      unfold a_descend. cbn zeta. repeat case_decide; done.
Qed.

(** ** Loops *)
Lemma rep_vstack w s a : rep w s a → (length (a_V a) ≤ n)%nat →
  (s_vstack s =? s_vstart s) = match a_V a with [] => true | _ => false end.
Proof.
  intros R Hb. destruct (r_V _ _ _ R) as [-> _]. rewrite (r_v0 _ _ _ R).
  destruct (a_V a) as [|x V]; unfold zlen; cbn [length].
  - apply Z.eqb_eq. lia.
  - apply Z.eqb_neq. lia.
Qed.

Lemma loop_ok fuel : ∀ w s a steps segs pend R, rep w s a → Inv E nv a segs pend R →
  todo E nv a ≤ Z.of_nat fuel →
  ∃ t', tarjan_loop fuel ia ja (mkT w s (a_clk a) steps) = Ok t' ∧
    rep (t_ws t') (t_scc t') (a_loop E fuel a) ∧
    t_steps t' + todo E nv (a_loop E fuel a) = steps + todo E nv a.
Proof.
  induction fuel as [|f IH]; intros w s a steps segs pend R Rp I Hf.
  all: destruct (inv_bnd _ _ _ _ I) as (_ & _ & _ & B2 & _).
  all: cbn [tarjan_loop t_scc]; rewrite (rep_vstack _ _ _ Rp) by lia.
  all: destruct (a_V a) as [|c V'] eqn:HV.
  - eexists. split; [done|]. cbn. split; [done|lia].
  - exfalso. pose proof (todo_iter _ _ _ _ _ _ I ltac:(by rewrite HV)).
    destruct (inv_iter _ _ E_range _ _ _ _ I ltac:(by rewrite HV)) as (? & ? & I').
    pose proof (todo_nonneg _ _ _ _ _ _ I'). lia.
  - eexists. split; [done|]. cbn. rewrite HV. split; [done|lia].
  - assert (a_V a ≠ []) as Hne by (by rewrite HV).
    destruct (iter_ok w s a steps _ _ _ Rp I Hne) as (w1 & s1 & E1 & R1). rewrite E1. cbn [mbind res_bind].
    destruct (inv_iter _ _ E_range _ _ _ _ I Hne) as (segs' & pend' & I').
    pose proof (todo_iter _ _ _ _ _ _ I Hne).
    destruct (IH w1 s1 _ (steps + 1) _ _ _ R1 I') as (t' & E2 & R2 & H2); [lia|].
    exists t'. rewrite E2. cbn. rewrite HV. split_and!; [done|done|lia].
Qed.

Definition a_visit (fuel : nat) (a : am) (r : Z) : am :=
  if decide (a_st a r = -2) then a else a_loop E fuel (a_push a r).

Lemma rest_status a R r : Inv E nv a [] None R → a_st a r ≠ -2 → a_st a r = -1.
Proof.
  intros I H. pose proof (i_low _ _ _ _ _ _ I r).
  destruct (decide (0 ≤ a_st a r)) as [Hp|]; [|lia].
  apply (i_act _ _ _ _ _ _ I) in Hp. rewrite (i_S _ _ _ _ _ _ I) in Hp. set_solver.
Qed.

Lemma inv_more a segs pend R r : Inv E nv a segs pend R → r ∈ concat (a_comps a) → Inv E nv a segs pend (r :: R).
Proof.
  intros I Hr. constructor; try apply I.
  - intros r' [->|Hr']%elem_of_cons; [set_solver|]. by apply I.
  - intros v Hv. destruct (i_root2 _ _ _ _ _ _ I v Hv) as (r' & H1 & H2). exists r'. split; [set_solver|done].
Qed.

Lemma todo_push a R r : Inv E nv a [] None R → a_st a r = -1 → todo E nv (a_push a r) = todo E nv a.
Proof.
  intros I Hr. unfold todo. apply sumZ_ext. intros v _. unfold pot. cbn.
  destruct (decide (a_st a v = -1)); [done|]. assert (v ≠ r) by congruence.
  rewrite (i_V _ _ _ _ _ _ I). cbn. rewrite !decide_False; [done|set_solver|set_solver].
Qed.

Lemma todo_loop fuel : ∀ a segs pend R, Inv E nv a segs pend R → todo E nv (a_loop E fuel a) ≤ todo E nv a.
Proof.
  induction fuel as [|f IH]; intros a segs pend R I; cbn; [lia|].
  destruct (a_V a) as [|c V'] eqn:HV; [lia|].
  assert (a_V a ≠ []) as Hne by (by rewrite HV).
  destruct (inv_iter _ _ E_range _ _ _ _ I Hne) as (segs' & pend' & I').
  pose proof (todo_iter _ _ _ _ _ _ I Hne). specialize (IH _ _ _ _ I'). lia.
Qed.

Lemma todo_visit fuel a R r : Inv E nv a [] None R → 0 ≤ r < nv → todo E nv (a_visit fuel a r) ≤ todo E nv a.
Proof.
  intros I Hr. unfold a_visit. case_decide as Hd; [lia|].
  pose proof (rest_status _ _ _ I Hd) as Hm. rewrite <-(todo_push _ _ _ I Hm).
  eapply todo_loop. by apply inv_push.
Qed.

Lemma inv_visit fuel a R r : Inv E nv a [] None R → 0 ≤ r < nv → todo E nv a ≤ Z.of_nat fuel →
  Inv E nv (a_visit fuel a r) [] None (r :: R).
Proof.
  intros I Hr Hf. unfold a_visit. case_decide as Hd.
  - apply inv_more; [done|]. by apply (i_done _ _ _ _ _ _ I).
  - pose proof (rest_status _ _ _ I Hd) as Hm.
    pose proof (inv_push _ _ _ _ _ I Hm Hr) as I2.
    apply (inv_loop E nv E_range fuel _ _ _ _ I2). by rewrite (todo_push _ _ _ I Hm).
Qed.

Lemma local_ok fuel w s a R r steps : rep w s a → Inv E nv a [] None R → 0 ≤ r < nv → a_st a r ≠ -2 →
  todo E nv a ≤ Z.of_nat fuel →
  ∃ t', tarjan_local fuel r ia ja w s steps = Ok t' ∧
    rep (t_ws t') (t_scc t') (a_visit fuel a r) ∧
    t_steps t' + todo E nv (a_visit fuel a r) = steps + todo E nv a.
Proof.
  intros Rp I Hr Hd Hf. pose proof (rest_status _ _ _ I Hd) as Hm.
  pose proof (inv_push _ _ _ _ _ I Hm Hr) as I2. pose proof (todo_push _ _ _ I Hm) as Htodo.
  destruct (inv_bnd _ _ _ _ I2) as (_ & _ & _ & B2 & _). cbn [a_comps a_V a_push length] in B2.
  unfold tarjan_local. destruct (push_v_ok w s a r Rp) as (s1 & E1 & R1); [lia|].
  rewrite E1. cbn [mbind res_bind].
  assert (rep w s1 (a_push a r)) as R2 by (destruct R1; constructor; done).
  destruct (loop_ok fuel w s1 (a_push a r) steps _ _ _ R2 I2) as (t' & E2 & R3 & H3); [lia|].
  change (a_clk (a_push a r)) with 0 in E2. rewrite E2. cbn [mbind res_bind].
  destruct (inv_loop E nv E_range fuel _ _ _ _ I2) as [I3 HV3]; [lia|].
  destruct (r_S _ _ _ R3) as [Hcs _].
  assert (s_cstack (t_scc t') =? s_cstart (t_scc t') = true) as ->.
  { apply Z.eqb_eq. rewrite Hcs, (r_c0 _ _ _ R3), (i_S _ _ _ _ _ _ I3). unfold zlen. cbn. lia. }
  cbn [assert_ mbind res_bind]. exists t'. unfold a_visit. rewrite decide_False by done.
  split_and!; [done|done|lia].
Qed.

(** ** The loop over the start points *)
Lemma visits_ok fuel starts : ∀ w s tm a R steps, rep w s a → Inv E nv a [] None R →
  (∀ r, r ∈ starts → 0 ≤ r < nv) → todo E nv a ≤ Z.of_nat fuel →
  ∃ t', foldM (reachable_step fuel ia ja) (mkT w s tm steps) starts = Ok t' ∧
    rep (t_ws t') (t_scc t') (foldl (a_visit fuel) a starts) ∧
    Inv E nv (foldl (a_visit fuel) a starts) [] None (reverse starts ++ R) ∧
    t_steps t' + todo E nv (foldl (a_visit fuel) a starts) = steps + todo E nv a.
Proof.
  induction starts as [|r starts IH]; intros w s tm a R steps Rp I Hr Hf.
  - eexists. split; [done|]. cbn. split_and!; [done|done|done].
  - cbn [foldM foldl].
    assert (0 ≤ r < nv) as Hrr by (apply Hr; set_solver). pose proof (wf_nv _ _ _ WF).
    assert (reachable_step fuel ia ja (mkT w s tm steps) r =
      if a_st a r =? -2 then Ok (mkT w s tm steps) else tarjan_local fuel r ia ja w s steps) as ->.
    { unfold reachable_step. cbn [t_ws t_scc t_steps]. rewrite (to_size_small r) by lia.
      rewrite (get_status _ _ _ _ r (r_w _ _ _ Rp)) by lia. done. }
    pose proof (inv_visit fuel a R r I Hrr Hf) as I1.
    rewrite reverse_cons, <-app_assoc. cbn [app].
    destruct (Z.eqb_spec (a_st a r) (-2)) as [Hd|Hd].
    + unfold a_visit in I1. rewrite decide_True in I1 by done. cbn [mbind res_bind].
      destruct (IH w s tm a (r :: R) steps Rp I1) as (t' & H1 & H2 & H3 & H4); [set_solver|done|].
      assert (a_visit fuel a r = a) as -> by (unfold a_visit; by rewrite decide_True). eauto.
    + destruct (local_ok fuel w s a R r steps Rp I Hrr Hd Hf) as (t1 & E1 & R1 & H1).
      rewrite E1. cbn [mbind res_bind].
      pose proof (todo_nonneg _ _ _ _ _ _ I1).
      pose proof (todo_visit fuel a R r I Hrr).
      destruct t1 as [w1 s1 tm1 st1]. cbn [t_ws t_scc t_steps] in *.
      destruct (IH w1 s1 tm1 _ (r :: R) st1 R1 I1) as (t' & K2 & K3 & K4 & K5); [set_solver|lia|].
      exists t'. split_and!; [done|done|done|lia].
Qed.

(** ** tarjan_initialise *)
Lemma assign_ok n' val l : length l = Z.to_nat n' → 0 ≤ n' →
  assign_int_vector n' val l = Ok (replicate (Z.to_nat n') val).
Proof.
  intros Hl Hn. unfold assign_int_vector.
  destruct (forZ_ind_Z n' (λ l i, zset l i val)
    (λ k l', length l' = Z.to_nat n' ∧ ∀ i, (i < Z.to_nat k)%nat → l' !! i = Some val) l) as (l' & E1 & H1 & H2).
  - done.
  - split; [done|]. intros i Hi. cbn in Hi. lia.
  - intros i l0 Hi (H1 & H2). rewrite zset_of by (unfold zlen; lia). eexists. split; [done|].
    rewrite insert_length. split; [done|]. intros j Hj. destruct (decide (j = Z.to_nat i)) as [->|Hne].
    + apply list_lookup_insert. lia.
    + rewrite list_lookup_insert_ne by done. apply H2. lia.
  - rewrite E1. f_equal. apply list_eq_same_length with (Z.to_nat n'); [|done|].
    + by rewrite replicate_length.
    + intros i x y Hi Hx Hy. rewrite H2 in Hx by done. rewrite lookup_replicate_2 in Hy by done. congruence.
Qed.

Definition ws_ok_size (w : ws) : Prop :=
  w_nvert w = nw ∧ length (w_status w) = n ∧ length (w_link w) = n ∧ length (w_time w) = n.

Lemma init_ok w s : ws_ok_size w → length (s_start s) = S n → length (s_vert s) = n →
  ∃ w' s', tarjan_initialise w s = Ok (w', s') ∧ rep w' s' a_init.
Proof.
  intros (H1 & H2 & H3 & H4) Hs Hv. pose proof nw_pos. unfold tarjan_initialise. rewrite H1.
  rewrite assign_ok by done. cbn [mbind res_bind]. unfold tarjan_initialise_csr, initialise_stacks.
  cbn [s_start s_vert s_vstack s_vstart s_cstack s_cstart s_ncomp].
  rewrite zset_of by (unfold zlen; lia). cbn [mbind res_bind]. eexists _, _. split; [done|].
  constructor; cbn; try done.
  - unfold repW. cbn. rewrite replicate_length. split_and!; try done.
    intros v Hv'. apply lookup_replicate_2. lia.
  - by rewrite insert_length.
  - split_and!; [done| |set_solver]. intros i Hi. cbn in Hi. assert (i = 0%nat) as -> by lia.
    apply list_lookup_insert. lia.
  - split; [unfold zlen; cbn; lia|]. intros i x Hx. by rewrite lookup_nil in Hx.
  - split; [unfold zlen; cbn; lia|]. intros i x Hx. by rewrite lookup_nil in Hx.
Qed.

(** ** tarjan_reachable_sccs *)
Lemma reachable_ok fuel starts w s : ws_ok_size w → length (s_start s) = S n → length (s_vert s) = n →
  (∀ r, r ∈ starts → 0 ≤ r < nv) → todo E nv a_init ≤ Z.of_nat fuel →
  ∃ t, reachable_run fuel ia ja starts w s = Ok t ∧
    rep (t_ws t) (t_scc t) (foldl (a_visit fuel) a_init starts) ∧
    Inv E nv (foldl (a_visit fuel) a_init starts) [] None (reverse starts) ∧
    t_steps t + todo E nv (foldl (a_visit fuel) a_init starts) = todo E nv a_init.
Proof.
  intros Hw Hs Hv Hr Hf. unfold reachable_run.
  destruct (init_ok w s Hw Hs Hv) as (w1 & s1 & E1 & R1). rewrite E1. cbn [mbind res_bind].
  destruct (visits_ok fuel starts w1 s1 0 a_init [] 0 R1 (inv_init E nv) Hr Hf) as (t & H1 & H2 & H3 & H4).
  rewrite app_nil_r in H3. eauto.
Qed.
End sim.

(** ** tarjan: the work-space has exactly the size of the graph *)
Section global.
Context (nv : Z) (ia ja : list Z) (WF : wf_graph nv ia ja).
Notation E := (csr_row ia ja).

Lemma find_start_ok w a R k : ∀ seed, repW nv w (a_st a) (a_lk a) (a_tm a) → Inv E nv a [] None R →
  0 ≤ seed ≤ nv → (Z.to_nat (nv - seed) ≤ k)%nat →
  ∃ r, find_start_from k seed w = Ok r ∧ seed ≤ r ≤ nv ∧ (∀ v, seed ≤ v < r → a_st a v = -2) ∧
    (r < nv → a_st a r ≠ -2).
Proof.
  induction k as [|k IH]; intros seed RW I Hs Hk; cbn [find_start_from].
  all: rewrite (proj1 RW).
  - assert (seed = nv) as -> by lia. rewrite Z.ltb_irrefl. exists nv. split_and!; try done; lia.
  - destruct (Z.ltb_spec seed nv) as [Hlt|Hge].
    + rewrite (get_status nv _ _ _ _ seed RW) by lia. cbn [mbind res_bind].
      unfold DONE. destruct (Z.eqb_spec (a_st a seed) (-2)) as [Hd|Hd].
      * destruct (IH (seed + 1)) as (r & H1 & H2 & H3 & H4); try done; [lia|lia|].
        exists r. split_and!; [done|lia|lia| |done]. intros v Hv. destruct (decide (v = seed)) as [->|]; [done|].
        apply H3. lia.
      * exists seed. split_and!; try done; lia.
    + assert (seed = nv) as -> by lia. exists nv. split_and!; try done; lia.
Qed.

Lemma skip_visits fuel a l : (∀ v, v ∈ l → a_st a v = -2) → foldl (a_visit ia ja fuel) a l = a.
Proof.
  induction l as [|x l IH]; intros H; [done|]. cbn.
  assert (a_visit ia ja fuel a x = a) as ->; [|apply IH; set_solver].
  unfold a_visit. rewrite decide_True; [done|]. apply H. set_solver.
Qed.

Lemma inv_skip a R l : Inv E nv a [] None R → (∀ v, v ∈ l → a_st a v = -2) →
  Inv E nv a [] None (reverse l ++ R).
Proof.
  revert R. induction l as [|x l IH]; intros R I H; [done|].
  rewrite reverse_cons, <-app_assoc. apply IH; [|set_solver].
  apply (inv_more nv nv ia ja WF ltac:(lia)); [done|]. apply (i_done _ _ _ _ _ _ I). apply H. set_solver.
Qed.

Lemma seqZ_split a b c : a ≤ b ≤ c → seqZ a (c - a) = seqZ a (b - a) ++ seqZ b (c - b).
Proof.
  intros. replace (c - a) with ((b - a) + (c - b)) by lia. rewrite seqZ_app by lia.
  do 2 f_equal; lia.
Qed.

Lemma global_loop_ok fuel k : ∀ start t a R, rep nv (t_ws t) (t_scc t) a → Inv E nv a [] None R →
  0 ≤ start ≤ nv → (Z.to_nat (nv - start) ≤ k)%nat → (start < nv → a_st a start ≠ -2) →
  todo E nv a ≤ Z.of_nat fuel →
  ∃ t', global_loop k fuel start ia ja t = Ok t' ∧
    rep nv (t_ws t') (t_scc t') (foldl (a_visit ia ja fuel) a (seqZ start (nv - start))) ∧
    Inv E nv (foldl (a_visit ia ja fuel) a (seqZ start (nv - start))) [] None (reverse (seqZ start (nv - start)) ++ R) ∧
    t_steps t' + todo E nv (foldl (a_visit ia ja fuel) a (seqZ start (nv - start))) = t_steps t + todo E nv a.
Proof.
  induction k as [|k IH]; intros start t a R Rp I Hs Hk Hd Hf; cbn [global_loop].
  all: pose proof (r_w _ _ _ _ Rp) as RW; rewrite (proj1 RW).
  - assert (start = nv) as -> by lia. rewrite Z.ltb_irrefl. rewrite Z.sub_diag. cbn. eauto.
  - destruct (Z.ltb_spec start nv) as [Hlt|Hge].
    2:{ assert (start = nv) as -> by lia. rewrite Z.sub_diag. cbn. eauto. }
    destruct (local_ok nv nv ia ja WF ltac:(lia) fuel (t_ws t) (t_scc t) a R start (t_steps t))
      as (t1 & E1 & R1 & H1); [done|done|lia|by apply Hd|done|].
    rewrite E1. cbn [mbind res_bind].
    pose proof (inv_visit nv nv ia ja WF ltac:(lia) fuel a R start I ltac:(lia) Hf) as I1.
    pose proof (todo_visit nv nv ia ja WF ltac:(lia) fuel a R start I ltac:(lia)) as Htv.
    set (a1 := a_visit ia ja fuel a start) in *.
    unfold tarjan_find_start. rewrite (proj1 (r_w _ _ _ _ R1)).
    destruct (find_start_ok (t_ws t1) a1 (start :: R) (Z.to_nat nv) start) as (r & E2 & H2 & H3 & H4);
      [apply R1|done|lia|lia|].
    rewrite E2. cbn [mbind res_bind].
    assert (start < r) as Hlt'.
    { destruct (decide (start = r)) as [<-|]; [|lia]. exfalso. apply H4; [done|].
      assert (start ∈ concat (a_comps a1)) as Hin; [|by apply (i_done _ _ _ _ _ _ I1)].
      pose proof (i_root1 _ _ _ _ _ _ I1 start ltac:(set_solver)) as Hin.
      rewrite (i_S _ _ _ _ _ _ I1), (i_V _ _ _ _ _ _ I1) in Hin. cbn in Hin. by rewrite app_nil_r in Hin. }
    destruct (IH r t1 a1 (reverse (seqZ (start + 1) (r - (start + 1))) ++ start :: R)) as (t' & E3 & R3 & I3 & H5).
    + done.
    + apply inv_skip; [done|]. intros v Hv%elem_of_seqZ. apply H3. lia.
    + lia.
    + lia.
    + done.
    + lia.
    + assert (seqZ start (nv - start) = start :: seqZ (start + 1) (r - (start + 1)) ++ seqZ r (nv - r)) as Hsplit.
      { rewrite (seqZ_split start (start + 1) nv) by lia. rewrite (seqZ_split (start + 1) r nv) by lia.
        replace (start + 1 - start) with 1 by lia. done. }
      assert (foldl (a_visit ia ja fuel) a (seqZ start (nv - start)) =
              foldl (a_visit ia ja fuel) a1 (seqZ r (nv - r))) as ->.
      { rewrite Hsplit. cbn [foldl]. fold a1. rewrite foldl_app, (skip_visits fuel a1 (seqZ (start + 1) (r - (start + 1)))); [done|].
        intros v Hv%elem_of_seqZ. apply H3. lia. }
      exists t'. split_and!; [done|done| |lia].
      rewrite Hsplit, reverse_cons, reverse_app. rewrite <-!app_assoc. cbn [app]. done.
Qed.

Lemma global_ok fuel w s : ws_ok_size nv w → length (s_start s) = S (Z.to_nat nv) → length (s_vert s) = Z.to_nat nv →
  todo E nv a_init ≤ Z.of_nat fuel →
  ∃ t, tarjan_global fuel ia ja w s = Ok t ∧
    rep nv (t_ws t) (t_scc t) (foldl (a_visit ia ja fuel) a_init (seqZ 0 nv)) ∧
    Inv E nv (foldl (a_visit ia ja fuel) a_init (seqZ 0 nv)) [] None (reverse (seqZ 0 nv)) ∧
    t_steps t + todo E nv (foldl (a_visit ia ja fuel) a_init (seqZ 0 nv)) = todo E nv a_init.
Proof.
  intros Hw Hs Hv Hf. unfold tarjan_global. pose proof (wf_nv _ _ _ WF).
  destruct (init_ok nv nv ia ja WF ltac:(lia) w s Hw Hs Hv) as (w1 & s1 & E1 & R1). rewrite E1. cbn [mbind res_bind].
  unfold tarjan_find_start. rewrite (proj1 (r_w _ _ _ _ R1)).
  destruct (find_start_ok w1 a_init [] (Z.to_nat nv) 0) as (r & E2 & H2 & H3 & H4);
    [apply R1|apply inv_init|lia|lia|].
  rewrite E2. cbn [mbind res_bind].
  assert (r = 0) as ->.
  { destruct (decide (r = 0)); [done|]. exfalso. assert (a_st a_init 0 = -2); [apply H3; lia|done]. }
  destruct (global_loop_ok fuel (Z.to_nat nv) 0 (mkT w1 s1 0 0) a_init []) as (t & H5 & H6 & H7 & H8);
    [done|apply inv_init|lia|lia|done|done|].
  rewrite Z.sub_0_r in *. rewrite app_nil_r in H7. eauto.
Qed.
End global.
