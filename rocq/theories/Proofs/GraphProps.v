(** Proofs of the statements in Props/Graph.v. *)
From Coq Require Import QArith Qcanon.
From Verif.Model Require Import AssembledConnections.
From Verif.Spec Require Import GraphSpec.
From Verif.Proofs Require Import Util BucketSort Csr CsrCreate AConn ExactNum.

(** No connection has been added since the last successful compress. *)
Definition is_compressed {N : Num} (g : aconn) : Prop := conns_isempty (ac_conns g) = true.

Section gp.
Context (N : Num).

Lemma new_pending l : indices_ok l →
  pending l (zmax (map (λ x, x.1.1) l)) (zmax (map (λ x, x.1.2) l)) (ac_conns (add_all ac_new l)) ∧
  ac_csr (add_all ac_new l) = csr_empty.
Proof.
  intros Hidx. destruct (pending_add_all [] (-1) (-1) ac_new l pending_new) as [Hp E]; [lia|lia|].
  rewrite !Z.max_r in Hp by apply zmax_lo. done.
Qed.

Lemma zmax_rows (l : list connection) :
  indices_ok l → -1 ≤ zmax (map (λ x, x.1.1) l) < 2 ^ 31 - 1 ∧ -1 ≤ zmax (map (λ x, x.1.2) l) < 2 ^ 31 - 1.
Proof.
  intros H. split; (split; [apply zmax_lo|]); (apply zmax_lt; [lia|]); rewrite Forall_map;
    apply (Forall_impl _ _ _ H); unfold int_index; intros ?; lia.
Qed.

Lemma zmax_bounds (l : list connection) :
  Forall (λ x : connection, x.1.1 ≤ zmax (map (λ x, x.1.1) l) ∧ x.1.2 ≤ zmax (map (λ x, x.1.2) l)) l.
Proof.
  apply Forall_forall. intros x Hx. split; apply zmax_ge; apply elem_of_list_fmap; exists x; auto.
Qed.

Lemma compress_new l n : unweighted l ∨ weighted l → indices_ok l →
  0 ≤ n → Forall (λ x : connection, x.1.1 < n) l →
  ∃ g, ac_compress (add_all ac_new l) n = Ok (g, None) ∧
       is_csr n (λ r c, (r, c) ∈ map fst l) (ac_start g) (ac_neigh g) ∧
       (weighted l → is_weights n (λ r c, sum_left (weights_at l r c)) (ac_start g) (ac_neigh g) (ac_weight g)) ∧
       (unweighted l → ac_weight g = []).
Proof.
  intros Hu Hidx Hn Hr. destruct (new_pending l Hidx) as [Hp E]. destruct (zmax_rows l Hidx).
  destruct (compress_ok l _ _ (add_all ac_new l) n Hp Hu Hidx (zmax_bounds l)) as (g & Hc & _ & Hcsr & Hw & Hs);
    [lia|lia| |].
  { apply zmax_lt; [lia|]. by rewrite Forall_map. }
  exists g. unfold ac_weight in Hs. rewrite E in Hs. cbn in Hs. split_and!; try done.
  intros Hwl. destruct (decide (l = [])) as [->|Hne]; [|by apply Hw].
  unfold ac_weight at 1. rewrite Hs by constructor.
  assert (ac_neigh g = []) as Hnil.
  { destruct (ac_neigh g) as [|c j] eqn:Ej; [done|].
    destruct (is_csr_locate n _ _ _ O Hcsr) as (r & b & e & Hr' & Hb & He & Hk); [cbn; lia|].
    destruct (csr_row _ _ _ _ Hcsr r Hr') as (b' & e' & Hb' & He' & Hbe & Hle & _ & Hm).
    rewrite Hb in Hb'. rewrite He in He'. injection Hb' as <-. injection He' as <-.
    pose proof (slice_length (c :: j) b e ltac:(lia) ltac:(lia)) as Hlen.
    destruct (slice (c :: j) b e) as [|y s]; [cbn in Hlen; lia|].
    exfalso. apply (not_elem_of_nil (r, y)). apply (proj1 (Hm y)). left. }
  rewrite Hnil. split; [done|]. intros; done.
Qed.

Lemma compress_exact_csr l n : unweighted l ∨ weighted l → indices_ok l →
  0 ≤ n → Forall (λ x : connection, x.1.1 < n) l →
  ∃ g, ac_compress (add_all ac_new l) n = Ok (g, None) ∧
       is_csr n (λ r c, (r, c) ∈ map fst l) (ac_start g) (ac_neigh g).
Proof. intros. destruct (compress_new l n) as (g & ? & ? & _); eauto. Qed.

Lemma compress_weights l n : weighted l → indices_ok l → 0 ≤ n → Forall (λ x : connection, x.1.1 < n) l →
  ∃ g, ac_compress (add_all ac_new l) n = Ok (g, None) ∧
       is_weights n (λ r c, sum_left (weights_at l r c)) (ac_start g) (ac_neigh g) (ac_weight g).
Proof. intros. destruct (compress_new l n) as (g & ? & ? & ? & _); eauto. Qed.

Lemma is_csr_ext n (E E' : Z → Z → Prop) s j :
  (∀ r c, E r c ↔ E' r c) → is_csr n E s j → is_csr n E' s j.
Proof.
  intros HE [? ? ? ? Hr]. split; try done. intros r Hr'.
  destruct (Hr r Hr') as (b & e & ? & ? & ? & ? & ? & Hm). exists b, e. split_and!; try done.
  all: try lia. intros c. by rewrite Hm.
Qed.

Lemma compress_perm l l' n : unweighted l ∨ weighted l → indices_ok l → l ≡ₚ l' →
  0 ≤ n → Forall (λ x : connection, x.1.1 < n) l →
  ∃ g g', ac_compress (add_all ac_new l) n = Ok (g, None) ∧
          ac_compress (add_all ac_new l') n = Ok (g', None) ∧
          ac_start g = ac_start g' ∧ ac_neigh g = ac_neigh g'.
Proof.
  intros Hu Hidx Hp Hn Hr.
  destruct (compress_new l n) as (g & Hg & Hcsr & _); try done.
  destruct (compress_new l' n) as (g' & Hg' & Hcsr' & _).
  - destruct Hu as [Hu|Hu]; [left|right]; unfold unweighted, weighted in *; by rewrite <-Hp.
  - unfold indices_ok in *. by rewrite <-Hp.
  - done.
  - by rewrite <-Hp.
  - apply (is_csr_ext n _ (λ r c, (r, c) ∈ map fst l)) in Hcsr'; [|intros r c; cbn; by rewrite Hp].
    destruct (is_csr_unique _ _ _ _ _ _ Hcsr Hcsr') as [Es Ej]. exists g, g'. by split_and!.
Qed.

Lemma compress_outcome l n : indices_ok l → 0 ≤ n →
  let g := add_all ac_new l in
  (¬ unweighted l ∧ ¬ weighted l ∧ ac_compress g n = Ok (g, Some LogicError)) ∨
  ((unweighted l ∨ weighted l) ∧ Exists (λ x : connection, n ≤ x.1.1) l ∧
     ac_compress g n = Ok (g, Some InvalidArgument)) ∨
  ((unweighted l ∨ weighted l) ∧ Forall (λ x : connection, x.1.1 < n) l ∧
     ∃ g', ac_compress g n = Ok (g', None)).
Proof.
  intros Hidx Hn g. subst g. destruct (new_pending l Hidx) as [Hp E]. destruct (zmax_rows l Hidx).
  destruct (conns_valid (ac_conns (add_all ac_new l))) eqn:Ev.
  - pose proof (proj1 (pending_valid _ _ _ _ Hp) Ev) as Hu.
    destruct (decide (zmax (map (λ x, x.1.1) l) < n)) as [Hlt|Hge].
    + right; right. split_and!; [done| |].
      * apply Forall_forall. intros x Hx. pose proof (zmax_bounds l) as HB.
        rewrite Forall_forall in HB. destruct (HB x Hx). lia.
      * destruct (compress_ok l _ _ (add_all ac_new l) n Hp Hu Hidx (zmax_bounds l)) as (g & Hc & _);
          [lia|lia|done|eauto].
    + right; left. assert (Exists (λ x : connection, n ≤ x.1.1) l) as Hex.
      { pose proof (zmax_ge_iff (map (λ x, x.1.1) l) n Hn ltac:(lia)) as Hex.
        by rewrite Exists_fmap in Hex. }
      split_and!; [done|done|]. eapply compress_range; [done|done| |done|].
      * intros ->. inv Hex.
      * lia.
  - left. assert (¬ (unweighted l ∨ weighted l)) as Hn'.
    { intros Hu. apply (pending_valid _ _ _ _ Hp) in Hu. congruence. }
    split_and!; [tauto|tauto|]. eapply compress_mixed; [done|tauto|tauto].
Qed.

Lemma rejection_changes_nothing h : indices_ok (hist_conns h) → Forall op_ok h →
  ∃ g, ac_run ac_new h = Ok g ∧
    (∀ l n, ¬ unweighted l → ¬ weighted l → is_compressed g →
       ac_compress (add_all g l) n = Ok (add_all g l, Some LogicError)) ∧
    (∀ n, 0 ≤ n → ∃ g' e, ac_compress g n = Ok (g', e) ∧ (e ≠ None → g' = g)).
Proof.
  intros Hidx Hok. destruct (hist_inv h Hidx Hok) as (g & l0 & Hrun & Hp & Hl0).
  exists g. split_and!; [done| |].
  - intros l n H1 H2 Hc. unfold is_compressed, conns_isempty in Hc.
    assert (l0 = []) as ->.
    { destruct l0; [done|]. by rewrite (pd_i _ _ _ _ Hp) in Hc. }
    destruct (pending_add_all [] _ _ g l Hp) as [Hp' _]; [apply zmax_lo|apply zmax_lo|].
    by eapply compress_mixed.
  - intros n Hn.
    destruct (hist_inv (h ++ [AcCompress n])) as (g1 & _ & Hrun1 & _).
    { unfold hist_conns in *. rewrite bind_app. cbn. by rewrite app_nil_r. }
    { apply Forall_app. split; [done|]. by repeat constructor. }
    unfold ac_run in Hrun1. rewrite foldM_app in Hrun1. unfold ac_run in Hrun. rewrite Hrun in Hrun1.
    cbn [mbind res_bind foldM] in Hrun1. apply bind_Ok in Hrun1 as (g2 & Hrun1 & _).
    apply bind_Ok in Hrun1 as ([g3 e] & Hc & _). cbn in Hc. exists g3, e. split; [done|].
    destruct e as [e|]; [|done]. intros _. by eapply compress_exn_same.
Qed.

Lemma reuse_partial h l n : indices_ok (hist_conns h) → Forall op_ok h →
  unweighted l ∨ weighted l → indices_ok l → 0 ≤ n →
  Forall (λ x : connection, x.1.1 < n) l → Forall (λ x : connection, x.1.1 < n) (hist_conns h) →
  ∃ g, ac_run ac_new h = Ok g ∧
    (is_compressed g →
     ∃ g1 g2, ac_compress (add_all g l) n = Ok (g1, None) ∧
            ac_compress (add_all ac_new l) n = Ok (g2, None) ∧
            ac_start g1 = ac_start g2 ∧ ac_neigh g1 = ac_neigh g2 ∧
            (weighted l → l ≠ [] → ac_weight g1 = ac_weight g2)).
Proof.
  intros Hidx Hok Hu Hil Hn Hr Hrh. destruct (hist_inv h Hidx Hok) as (g & l0 & Hrun & Hp & Hl0).
  exists g. split; [done|]. intros Hc. unfold is_compressed, conns_isempty in Hc.
  assert (l0 = []) as ->.
  { destruct l0; [done|]. by rewrite (pd_i _ _ _ _ Hp) in Hc. }
  destruct (pending_add_all [] _ _ g l Hp) as [Hp' _]; [apply zmax_lo|apply zmax_lo|].
  destruct (zmax_rows l Hil). destruct (zmax_rows _ Hidx).
  destruct (compress_ok _ _ _ (add_all g l) n Hp') as (g1 & Hg1 & _ & Hcsr1 & Hw1 & _); cbn [app];
    try done; try lia.
  { apply (Forall_impl _ _ _ (zmax_bounds l)). intros ?; lia. }
  { assert (zmax (map (λ x, x.1.1) l) < n) by (apply zmax_lt; [lia|by rewrite Forall_map]).
    assert (zmax (map (λ x, x.1.1) (hist_conns h)) < n) by (apply zmax_lt; [lia|by rewrite Forall_map]).
    lia. }
  destruct (compress_new l n) as (g2 & Hg2 & Hcsr2 & Hw2 & _); try done.
  destruct (is_csr_unique _ _ _ _ _ _ Hcsr1 Hcsr2) as [Es Ej].
  exists g1, g2. split_and!; try done. intros Hwl Hne.
  specialize (Hw1 Hwl Hne). specialize (Hw2 Hwl). cbn [app] in *. rewrite Es, Ej in Hw1.
  eapply is_weights_unique; [exact Hcsr2| |exact Hw1|exact Hw2]. done.
Qed.

Lemma rows_needed_zmax n l m : indices_ok l → 0 ≤ n → rows_needed n l m →
  m = Z.max n (zmax (map (λ x, x.1.1) l) + 1).
Proof.
  intros Hidx Hn (H1 & H2 & H3). pose proof (zmax_bounds l) as HB. rewrite Forall_forall in HB.
  assert (zmax (map (λ x, x.1.1) l) < m) by (apply zmax_lt; [lia|by rewrite Forall_map]).
  destruct H3 as [->|H3]; [lia|]. apply Exists_exists in H3 as (x & Hx & <-).
  destruct (HB x Hx). lia.
Qed.

Lemma reuse_exactly h l n : indices_ok (hist_conns h) → Forall op_ok h → indices_ok l → 0 ≤ n →
  ∃ g, ac_run ac_new h = Ok g ∧ (is_compressed g →
    (¬ unweighted l ∧ ¬ weighted l ∧
       ac_compress (add_all g l) n = Ok (add_all g l, Some LogicError)) ∨
    ((unweighted l ∨ weighted l) ∧ l ≠ [] ∧ Exists (λ x : connection, n ≤ x.1.1) (hist_conns h ++ l) ∧
       ac_compress (add_all g l) n = Ok (add_all g l, Some InvalidArgument)) ∨
    ((unweighted l ∨ weighted l) ∧ (l = [] ∨ Forall (λ x : connection, x.1.1 < n) (hist_conns h ++ l)) ∧
       ∀ m, rows_needed n (hist_conns h) m →
       ∃ g1 g2, ac_compress (add_all g l) n = Ok (g1, None) ∧
         ac_compress (add_all ac_new l) m = Ok (g2, None) ∧
         ac_start g1 = ac_start g2 ∧ ac_neigh g1 = ac_neigh g2 ∧
         ac_weight g1 = if decide (omap snd l = []) then ac_weight g else ac_weight g2)).
Proof.
  intros Hidx Hok Hil Hn. destruct (hist_inv h Hidx Hok) as (g & l0 & Hrun & Hp & Hl0).
  exists g. split; [done|]. intros Hc. unfold is_compressed, conns_isempty in Hc.
  assert (l0 = []) as ->.
  { destruct l0; [done|]. by rewrite (pd_i _ _ _ _ Hp) in Hc. }
  destruct (pending_add_all [] _ _ g l Hp) as [Hp' Ecsr]; [apply zmax_lo|apply zmax_lo|]. cbn [app] in Hp'.
  destruct (zmax_rows l Hil) as [Hl1 Hl2]. destruct (zmax_rows _ Hidx) as [Hh1 Hh2].
  destruct (conns_valid (ac_conns (add_all g l))) eqn:Ev.
  2: { left. assert (¬ (unweighted l ∨ weighted l)) as Hn'.
    { intros Hu. apply (pending_valid _ _ _ _ Hp') in Hu. congruence. }
    split_and!; [tauto|tauto|]. eapply compress_mixed; [done|tauto|tauto]. }
  right. pose proof (proj1 (pending_valid _ _ _ _ Hp') Ev) as Hu.
  set (M1 := zmax (map (λ x, x.1.1) (hist_conns h))) in *.
  assert (Exists (λ x : connection, n ≤ x.1.1) (hist_conns h ++ l) ↔
    n ≤ Z.max M1 (zmax (map (λ x, x.1.1) l))) as Hex.
  { split.
    - intros (x & Hx & Hnx)%Exists_exists. pose proof (zmax_bounds l) as B1.
      pose proof (zmax_bounds (hist_conns h)) as B2. rewrite Forall_forall in B1, B2.
      apply elem_of_app in Hx as [Hx|Hx]; [destruct (B2 x Hx)|destruct (B1 x Hx)]; unfold M1; lia.
    - intros HM. rewrite Exists_app. destruct (decide (n ≤ M1)) as [H1|H1].
      + left. pose proof (zmax_ge_iff (map (λ x, x.1.1) (hist_conns h)) n Hn H1) as HE.
        by rewrite Exists_fmap in HE.
      + right. pose proof (zmax_ge_iff (map (λ x, x.1.1) l) n Hn ltac:(lia)) as HE.
        by rewrite Exists_fmap in HE. }
  assert (Forall (λ x : connection, x.1.1 ≤ Z.max M1 (zmax (map (λ x, x.1.1) l)) ∧
    x.1.2 ≤ Z.max (zmax (map (λ x, x.1.2) (hist_conns h))) (zmax (map (λ x, x.1.2) l))) l) as HB.
  { apply (Forall_impl _ _ _ (zmax_bounds l)). intros ?; lia. }
  assert (∀ m, Z.max M1 (zmax (map (λ x, x.1.1) l)) < m →
    ∃ g1 g2, ac_compress (add_all g l) m = Ok (g1, None) ∧
         ac_compress (add_all ac_new l) m = Ok (g2, None) ∧
         ac_start g1 = ac_start g2 ∧ ac_neigh g1 = ac_neigh g2 ∧
         ac_weight g1 = if decide (omap snd l = []) then ac_weight g else ac_weight g2) as Hsucc.
  { intros m Hm.
    destruct (compress_ok _ _ _ (add_all g l) m Hp' Hu Hil HB) as (g1 & Hg1 & _ & Hcsr1 & Hw1 & Hs1); try lia.
    destruct (compress_new l m) as (g2 & Hg2 & Hcsr2 & Hw2 & _); try done; [lia| |].
    { apply (Forall_impl _ _ _ HB). intros ?; lia. }
    destruct (is_csr_unique _ _ _ _ _ _ Hcsr1 Hcsr2) as [Es Ej].
    exists g1, g2. split_and!; try done. case_decide as Ho.
    - assert (unweighted l) as Hul.
      { destruct Hu as [|Hw]; [done|]. pose proof (omap_len_some l Hw) as Hlen. rewrite Ho in Hlen.
        destruct l; [constructor|done]. }
      rewrite (Hs1 Hul). unfold ac_weight. by rewrite Ecsr.
    - destruct Hu as [Hul|Hwl].
      { exfalso. apply Ho. clear -Hul. induction Hul as [|[p w] l Hw _ IH]; [done|]. cbn in Hw. by subst. }
      assert (l ≠ []) as Hne by (by intros ->).
      specialize (Hw1 Hwl Hne). specialize (Hw2 Hwl). rewrite Es, Ej in Hw1.
      eapply is_weights_unique; [exact Hcsr2| |exact Hw1|exact Hw2]. done. }
  destruct (decide (l = [])) as [El|Hne].
  - right. split_and!; [done|by left|]. intros m ->%rows_needed_zmax; [|done|done].
    fold M1. destruct (Hsucc (Z.max n (M1 + 1))) as (g1 & g2 & Hg1 & Hrest).
    { subst l. cbn. lia. }
    exists g1, g2. split; [|done]. subst l. cbn [map] in Hp'. rewrite !Z.max_l in Hp' by (apply zmax_lo || done).
    destruct (decide (n ≤ M1)).
    + rewrite (compress_empty _ _ _ n Hp') by (done || lia). by rewrite Z.max_r in Hg1 by lia.
    + by rewrite Z.max_l in Hg1 by lia.
  - destruct (decide (Z.max M1 (zmax (map (λ x, x.1.1) l)) < n)) as [Hlt|Hge].
    + right. split_and!; [done| |].
      * right. apply Forall_forall. intros x Hx. destruct (decide (x.1.1 < n)); [done|]. exfalso.
        assert (Exists (λ x : connection, n ≤ x.1.1) (hist_conns h ++ l)) as HE; [|apply Hex in HE; lia].
        apply Exists_exists. exists x. split; [done|lia].
      * intros m Hm%rows_needed_zmax; [|done|done]. fold M1 in Hm. replace m with n by lia. by apply Hsucc.
    + left. split_and!; [done|done|apply Hex; lia|].
      eapply compress_range; [done|done|done|done|lia].
Qed.

Lemma cell_neighbourhood_exact l n r : weighted l → indices_ok l →
  Forall (λ x : connection, x.1.1 < n) l → 0 ≤ r < n →
  ∃ g nb, ac_compress (add_all ac_new l) n = Ok (g, None) ∧
    ac_cell_neighbourhood g r = Ok (map (λ c, (c, sum_left (weights_at l r c))) nb) ∧
    StronglySorted Z.lt nb ∧ (∀ c, c ∈ nb ↔ (r, c) ∈ map fst l).
Proof.
  intros Hw Hidx Hr Hn. destruct (compress_new l n) as (g & Hg & Hcsr & Hwt & _); try done; [by right|lia|].
  destruct (cell_neighbourhood_spec n _ _ g r Hcsr (Hwt Hw) Hn) as (nb & ? & ? & ? & _).
  exists g, nb. by split_and!.
Qed.

Lemma cell_neighbourhood_unweighted l n r : unweighted l → l ≠ [] → indices_ok l →
  Forall (λ x : connection, x.1.1 < n) l → 0 ≤ r < n →
  ∃ g, ac_compress (add_all ac_new l) n = Ok (g, None) ∧ ac_cell_neighbourhood g r = AssertFail.
Proof.
  intros Hw Hne Hidx Hr Hn. destruct (compress_new l n) as (g & Hg & Hcsr & _ & Hs); try done; [by left|lia|].
  exists g. split; [done|]. unfold ac_cell_neighbourhood.
  destruct (csr_row _ _ _ _ Hcsr r Hn) as (b & e & Hb & He & _).
  rewrite (zget_of (ac_start g) r b ltac:(lia) Hb). cbn [mbind res_bind].
  rewrite (zget_of (ac_start g) (r + 1) e ltac:(lia) He). cbn [mbind res_bind].
  rewrite (Hs Hw). destruct (ac_neigh g) as [|c j] eqn:Ej; [|done].
  exfalso. destruct l as [|[[i j] w] l]; [done|].
  assert (0 ≤ i < n) as Hi.
  { inv Hr. inv Hidx. unfold int_index in *. cbn in *. lia. }
  destruct (csr_row _ _ _ _ Hcsr i Hi) as (b' & e' & _ & _ & _ & _ & _ & Hm).
  assert (j ∈ slice ([] : list Z) b' e') as Hj by (apply Hm; cbn; left).
  unfold slice in Hj. rewrite drop_nil, take_nil in Hj. by apply not_elem_of_nil in Hj.
Qed.

Lemma print_exact l n sci st : weighted l → indices_ok l → 0 ≤ n < 2 ^ 31 →
  Forall (λ x : connection, x.1.1 < n) l →
  ∃ g cols st', ac_compress (add_all ac_new l) n = Ok (g, None) ∧
    ac_print sci st g =
      Ok (seqZ 0 n ≫= (λ r, map (λ c, (r, c, sum_left (weights_at l r c))) (cols r)), st') ∧
    (∀ r, 0 ≤ r < n → StronglySorted Z.lt (cols r) ∧ ∀ c, c ∈ cols r ↔ (r, c) ∈ map fst l) ∧
    f_prec st' = f_prec st ∧ f_flags st' = Z.lor (f_flags st) sci.
Proof.
  intros Hw Hidx Hn Hr. destruct (compress_new l n) as (g & Hg & Hcsr & Hwt & _); try done; [by right|lia|].
  set (cols := λ r, slice (ac_neigh g) (default 0 (ac_start g !! Z.to_nat r))
                          (default 0 (ac_start g !! Z.to_nat (r + 1)))).
  exists g, cols. eexists. split; [done|].
  assert (∀ r, 0 ≤ r < n → ac_cell_neighbourhood g r = Ok (map (λ c, (c, sum_left (weights_at l r c))) (cols r)) ∧
    StronglySorted Z.lt (cols r) ∧ ∀ c, c ∈ cols r ↔ (r, c) ∈ map fst l) as Hcols.
  { intros r Hr'. destruct (cell_neighbourhood_spec n _ _ g r Hcsr (Hwt Hw) Hr') as (nb & HE & Hs & Hm & b & e & Hb & He & ->).
    unfold cols. rewrite Hb, He. cbn. by split_and!. }
  split_and!.
  - unfold ac_print. assert (to_int (ac_numrows g) = n) as ->.
    { unfold ac_numrows. pose proof (csr_len _ _ _ _ Hcsr). unfold zlen.
      replace (Z.of_nat (length (ac_start g)) - 1) with n by lia.
      rewrite to_size_small by lia. apply to_int_small. lia. }
    match goal with |- (_ ← forZ 0 n ?F []; _) = _ =>
      destruct (forZ_ind_Z n F (λ i acc, acc = seqZ 0 i ≫=
        (λ r, map (λ c, (r, c, sum_left (weights_at l r c))) (cols r))) []) as (out & -> & ->) end.
    + lia.
    + by rewrite seqZ_nil.
    + intros i acc Hi ->. destruct (Hcols i Hi) as [-> _]. cbn. eexists. split; [done|].
      rewrite seqZ_S, bind_app by lia. cbn. rewrite app_nil_r. f_equal. by rewrite map_map.
    + cbn [mbind res_bind]. reflexivity.
  - intros r Hr'. destruct (Hcols r Hr') as (_ & ? & ?). done.
  - done.
  - cbn. rewrite <-Z.lor_assoc, (Z.lor_comm sci), Z.lor_assoc, Z.lor_diag. done.
Qed.

Lemma reuse_refuted :
  ∃ (l1 l2 : list connection) (n1 n2 : Z) g1,
    ac_compress (add_all ac_new l1) n1 = Ok (g1, None) ∧
    ac_compress (add_all g1 l2) n2 = Ok (add_all g1 l2, Some InvalidArgument) ∧
    ∃ g2, ac_compress (add_all ac_new l2) n2 = Ok (g2, None).
Proof.
  exists [(5, 0, None)], [(0, 1, None)], 6, 2. eexists. split; [|split].
  - vm_compute. reflexivity.
  - vm_compute. reflexivity.
  - eexists. vm_compute. reflexivity.
Qed.

Lemma flags_refuted :
  ∃ (g : aconn) (sci : Z) (st : fmt) out st',
    ac_print sci st g = Ok (out, st') ∧ f_flags st' ≠ f_flags st.
Proof.
  exists (mkAconn conns_empty (mkCsr [0; 1] [0] [n0] [0] 1 1)), 256, (mkFmt 6 2).
  do 2 eexists. split; [vm_compute; reflexivity|]. vm_compute. discriminate.
Qed.
End gp.

Lemma omap_perm {A B} (f : A → option B) l l' : l ≡ₚ l' → omap f l ≡ₚ omap f l'.
Proof.
  induction 1 as [|x l l' H IH|x y l|l1 l2 l3 H1 IH1 H2 IH2]; [done| | |].
  - cbn. destruct (f x); [by constructor|done].
  - cbn. destruct (f x), (f y); try done. apply perm_swap.
  - by etransitivity.
Qed.

Lemma compress_perm_weights (l l' : list (@connection exact)) n :
  weighted l → indices_ok l → l ≡ₚ l' → 0 ≤ n → Forall (λ x : connection, x.1.1 < n) l →
  ∃ g g', ac_compress (add_all ac_new l) n = Ok (g, None) ∧
          ac_compress (add_all ac_new l') n = Ok (g', None) ∧
          ac_weight g = ac_weight g'.
Proof.
  intros Hw Hidx Hp Hn Hr.
  destruct (compress_new exact l n) as (g & Hg & Hcsr & Hwt & _); try done; [by right|].
  assert (weighted l') as Hw' by (unfold weighted in *; by rewrite <-Hp).
  destruct (compress_new exact l' n) as (g' & Hg' & Hcsr' & Hwt' & _).
  - by right.
  - unfold indices_ok in *. by rewrite <-Hp.
  - done.
  - by rewrite <-Hp.
  - exists g, g'. split_and!; try done. specialize (Hwt Hw). specialize (Hwt' Hw').
    apply (is_csr_ext n _ (λ r c, (r, c) ∈ map fst l)) in Hcsr'; [|intros r c; cbn; by rewrite Hp].
    destruct (is_csr_unique _ _ _ _ _ _ Hcsr Hcsr') as [Es Ej]. rewrite Es, Ej in Hwt.
    eapply is_weights_unique; [exact Hcsr'| |exact Hwt|exact Hwt'].
    intros r c _. apply sum_left_perm. by apply omap_perm.
Qed.

Lemma reuse_weights_refuted :
  ∃ (l1 l2 : list (@connection exact)) (n : Z) g1 g2 g2',
    ac_compress (add_all ac_new l1) n = Ok (g1, None) ∧
    ac_compress (add_all g1 l2) n = Ok (g2, None) ∧
    ac_compress (add_all ac_new l2) n = Ok (g2', None) ∧
    ac_weight g2 ≠ ac_weight g2' ∧ ac_neigh g2 = ac_neigh g2'.
Proof.
  exists [(0, 1, Some n0)], [(0, 1, None)], 1. do 3 eexists. split_and!.
  - vm_compute. reflexivity.
  - vm_compute. reflexivity.
  - vm_compute. reflexivity.
  - vm_compute. discriminate.
  - reflexivity.
Qed.
