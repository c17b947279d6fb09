(** CSR::create and AssembledConnections::compress as a whole. *)
From Verif.Model Require Import AssembledConnections.
From Verif.Spec Require Import GraphSpec.
From Verif.Proofs Require Import Util BucketSort Csr.

Notation row := (@fst Z Z).
Notation col := (@snd Z Z).

Lemma bsort_idem {A} (f : A → Z) R L : bsort f R (bsort f R L) = bsort f R L.
Proof.
  unfold bsort at 1. unfold bsort at 2. apply bind_ext_in. intros r Hr%elem_of_seqZ.
  apply bucket_bsort. lia.
Qed.

Lemma StronglySorted_map {A B} (h : A → B) (Rl : relation B) L :
  StronglySorted Rl (map h L) ↔ StronglySorted (λ x y, Rl (h x) (h y)) L.
Proof.
  induction L as [|x L IH]; cbn; split; intros H; try constructor; inv H.
  - by apply IH.
  - by rewrite Forall_map in H3.
  - by apply IH.
  - by rewrite Forall_map.
Qed.

Lemma StronglySorted_top {A} (L : list A) : StronglySorted (λ _ _, True) L.
Proof. induction L; constructor; [done|]. by apply Forall_true. Qed.

Lemma nbrs_sorted R C P L r :
  L = bsort row R (bsort col C P) → StronglySorted Z.lt (nbrs L r).
Proof.
  intros ->. apply dd_sorted. rewrite StronglySorted_map.
  pose proof (bsort_sorted row _ R _ (bsort_sorted col _ C P (StronglySorted_top P))) as HS.
  apply (bucket_sorted row _ _ r) in HS. revert HS; apply StronglySorted_weaken.
  intros x y [Hx _]%elem_of_list_filter [Hy _]%elem_of_list_filter [?|[_ [?|[? _]]]]; cbn in *; lia.
Qed.

Lemma nbrs_elem L r c : c ∈ nbrs L r ↔ (r, c) ∈ L.
Proof.
  unfold nbrs. rewrite dd_elem. unfold bucket. rewrite elem_of_list_fmap. split.
  - intros ([r' c'] & -> & [Hr ?]%elem_of_list_filter). cbn in *. by subst.
  - intros. exists (r, c). split; [done|]. by apply elem_of_list_filter.
Qed.

Lemma nbrs_out R L r : Forall (λ x : Z * Z, x.1 < R) L → R ≤ r → nbrs L r = [].
Proof.
  intros HL Hr. unfold nbrs, bucket. rewrite filter_none; [done|].
  apply (Forall_impl _ _ _ HL). lia.
Qed.

Lemma rows_upto_out R L r : Forall (λ x : Z * Z, x.1 < R) L → 0 ≤ R ≤ r →
  rows_upto L r = rows_upto L R.
Proof.
  intros HL Hr. unfold rows_upto. replace r with (R + (r - R)) by lia.
  rewrite seqZ_app, bind_app by lia.
  replace (seqZ (0 + R) (r - R) ≫= nbrs L) with (@nil Z); [by rewrite app_nil_r|].
  rewrite (bind_ext_in _ (λ _, [])).
  - by induction (seqZ (0 + R) (r - R)).
  - intros y Hy%elem_of_seqZ. apply (nbrs_out R); [done|lia].
Qed.

Section create.
Context {N : Num}.

Lemma assemble_spec c P m :
  c_i c = map row P → c_j c = map col P →
  Forall (λ x : Z * Z, 0 ≤ x.1 ≤ c_maxi c ∧ 0 ≤ x.2 ≤ c_maxj c) P →
  -1 ≤ c_maxi c < int_max → -1 ≤ c_maxj c < int_max →
  ∃ m', assemble c m = Ok m' ∧
    rep row col (c_maxi c + 1) (c_maxj c + 1) P (bsort row (c_maxi c + 1) P) m' ∧ sa m' = sa m.
Proof.
  intros Hi Hj Hran Hmi Hmj. unfold assemble, int_max in *.
  rewrite (int_add_of (c_maxi c) 1) by (unfold int_max; lia). cbn [mbind res_bind]. rewrite Hi, Hj.
  set (R := c_maxi c + 1) in *.
  assert (Forall (λ x : Z * Z, 0 ≤ x.1 < R) P) as HP.
  { apply (Forall_impl _ _ _ Hran). unfold R. cbn. lia. }
  destruct (accumulate_row_entries_spec R (map row P)) as (a & -> & Hla & Ha0 & Ha);
    [unfold R; lia|by rewrite Forall_map|]. cbn [mbind res_bind].
  destruct (create_graph_spec row col P R a (ja m)) as (a' & e & -> & Hla' & Ha' & Hle & He');
    try done; [unfold R; lia| |].
  { rewrite Ha0. unfold zlen. by rewrite map_length. }
  cbn [mbind res_bind]. rewrite int_add_of by (unfold int_max; lia). cbn [mbind res_bind].
  eexists. split; [done|]. split; [|done]. split; cbn; try done; try (unfold R; lia).
  - apply bsort_ran. apply (Forall_impl _ _ _ Hran). unfold R. cbn. lia.
  - intros r Hr. rewrite startK_bsort; [by apply Ha'|done|].
    apply (Forall_impl _ _ _ HP). cbn. lia.
  - apply grouped_bsort.
Qed.

Lemma sort_spec R C P L m : rep row col R C P L m → L ≡ₚ P →
  ∃ m', AssembledConnections.sort m = Ok m' ∧ rep row col R C P (bsort row R (bsort col C L)) m' ∧ sa m' = sa m.
Proof.
  intros Hrep Hp. unfold AssembledConnections.sort.
  assert (Forall (λ x : Z * Z, 0 ≤ x.2 < C) L).
  { apply (Forall_impl _ _ _ (rep_ran _ _ _ _ _ _ _ Hrep)). cbn. tauto. }
  destruct (transpose_spec row col R C P L m) as (m1 & -> & H1 & Hs1); [done|by symmetry|].
  cbn [mbind res_bind].
  destruct (transpose_spec col row C R P (bsort col C L) m1) as (m2 & -> & H2 & Hs2); [done| |].
  { rewrite bsort_perm by done. by symmetry. }
  exists m2. split; [done|]. split; [done|congruence].
Qed.

Lemma weights_spec v (m : csr) : length v = length (elm m) →
  Forall (λ k, 0 ≤ k < zlen (ja m)) (elm m) →
  ∃ s, accumulate_conn_weights v m = Ok (mkCsr (ia m) (ja m) s (elm m) (nrows m) (ncols m)) ∧
    length s = length (ja m) ∧
    ∀ k : nat, (k < length (ja m))%nat →
      s !! k = Some (sum_left (map snd (filter (λ p, p.1 = Z.of_nat k) (zip (elm m) v)))).
Proof.
  intros Hlen Hr. unfold accumulate_conn_weights.
  replace (zlen v =? zlen (elm m)) with true by (symmetry; apply Z.eqb_eq; unfold zlen; lia).
  cbn [negb]. unfold zlen at 1.
  match goal with |- context [forZ 0 _ ?F ?s0] =>
    destruct (forZ_ind (length v) F (λ n s, length s = length (ja m) ∧ ∀ k : nat, (k < length (ja m))%nat →
      s !! k = Some (sum_left (map snd (filter (λ p, p.1 = Z.of_nat k) (take n (zip (elm m) v))))))
      s0) as (s & -> & Hls & Hs) end.
  - rewrite replicate_length. split; [done|]. intros k Hk. cbn.
    rewrite take_0. cbn. by apply lookup_replicate.
  - intros n s Hn [Hls Hs].
    destruct (lookup_lt_is_Some_2 v n Hn) as [w Hw].
    destruct (lookup_lt_is_Some_2 (elm m) n ltac:(lia)) as [k Hk].
    rewrite (zget_nat _ n k) by done. cbn [mbind res_bind].
    rewrite (zget_nat _ n w) by done. cbn [mbind res_bind].
    assert (0 ≤ k < zlen (ja m)) as Hkr.
    { rewrite Forall_forall in Hr. apply Hr. by eapply elem_of_list_lookup_2. }
    unfold zlen in Hkr.
    rewrite (zget_of s k _ ltac:(lia) (Hs (Z.to_nat k) ltac:(lia))). cbn [mbind res_bind].
    rewrite zset_of by (unfold zlen; lia). eexists. split; [done|].
    rewrite insert_length. split; [done|]. intros k' Hk'.
    assert (zip (elm m) v !! n = Some (k, w)) as Hz.
    { rewrite lookup_zip_with, Hk. cbn. by rewrite Hw. }
    rewrite Nat.add_1_r, (take_S_r _ _ _ Hz), filter_app, map_app.
    unfold sum_left. rewrite foldl_app. rewrite filter_cons, filter_nil. cbn [fst].
    case_decide as Hd.
    + assert (Z.to_nat k = k') as -> by lia. rewrite list_lookup_insert by lia. cbn.
      by replace k with (Z.of_nat k') by lia.
    + rewrite list_lookup_insert_ne by lia. by rewrite Hs.
  - cbn [mbind res_bind]. exists s. split_and!; try done. intros k Hk. rewrite Hs by done.
    rewrite take_ge; [done|]. rewrite zip_with_length. lia.
Qed.

(** The documented result of [create]. *)
Definition weight_of (P : list (Z * Z)) (v : list num) (r c : Z) : num :=
  sum_left (map snd (filter (λ x, x.1 = (r, c)) (zip P v))).

Lemma sorted_lt_NoDup_idx (l : list Z) i j x :
  StronglySorted Z.lt l → l !! i = Some x → l !! j = Some x → i = j.
Proof.
  intros H. revert i j. induction H as [|y l Hl IH Hy]; intros i j Hi Hj; [done|].
  rewrite Forall_forall in Hy.
  destruct i, j; cbn in *; try done.
  - apply elem_of_list_lookup_2 in Hj. injection Hi as ->. specialize (Hy _ Hj). lia.
  - apply elem_of_list_lookup_2 in Hi. injection Hj as ->. specialize (Hy _ Hi). lia.
  - f_equal. eauto.
Qed.

(** Position in row [r] is determined by row and column. *)
Lemma slot_unique L r r' (i i' : nat) c c' : 0 ≤ r → 0 ≤ r' →
  nbrs L r !! i = Some c → nbrs L r' !! i' = Some c' →
  StronglySorted Z.lt (nbrs L r) →
  (length (rows_upto L r) + i = length (rows_upto L r') + i')%nat ↔ r = r' ∧ c = c'.
Proof.
  intros Hr Hr' Hi Hi' Hs. split.
  - intros E. pose proof (lookup_lt_Some _ _ _ Hi). pose proof (lookup_lt_Some _ _ _ Hi').
    destruct (Z.lt_total r r') as [Hlt|[->|Hlt]].
    + pose proof (rows_upto_mono L (r + 1) r' ltac:(lia)) as Hm.
      rewrite rows_upto_S, app_length in Hm by done. lia.
    + split; [done|]. assert (i = i') by lia. subst. congruence.
    + pose proof (rows_upto_mono L (r' + 1) r ltac:(lia)) as Hm.
      rewrite rows_upto_S, app_length in Hm by done. lia.
  - intros [-> ->]. f_equal. by eapply sorted_lt_NoDup_idx.
Qed.

Lemma filter_zip_ext {A B V} (P : A → Prop) (Q : B → Prop) `{∀ x, Decision (P x), ∀ x, Decision (Q x)}
    (l1 : list A) (l2 : list B) (v : list V) :
  Forall2 (λ x y, P x ↔ Q y) l1 l2 →
  map snd (filter (λ p : A * V, P p.1) (zip l1 v)) = map snd (filter (λ p : B * V, Q p.1) (zip l2 v)).
Proof.
  intros HF. revert v. induction HF as [|x y l1 l2 Hxy HF IH]; intros v; [done|].
  destruct v as [|w v]; [done|]. cbn [zip zip_with]. rewrite !filter_cons. cbn [fst].
  repeat case_decide; cbn [map]; [by rewrite IH|tauto|tauto|apply IH].
Qed.

Lemma csr_create_spec c P n m :
  c_i c = map row P → c_j c = map col P → (c_v c ≠ [] → length (c_v c) = length P) →
  Forall (λ x : Z * Z, 0 ≤ x.1 ≤ c_maxi c ∧ 0 ≤ x.2 ≤ c_maxj c) P →
  -1 ≤ c_maxi c < int_max → -1 ≤ c_maxj c < int_max →
  c_maxi c < n →
  ∃ m', csr_create c n m = Ok m' ∧
    is_csr n (λ r c, (r, c) ∈ P) (ia m') (ja m') ∧
    (c_v c ≠ [] → is_weights n (weight_of P (c_v c)) (ia m') (ja m') (sa m')) ∧
    (c_v c = [] → sa m' = sa m).
Proof.
  intros Hi Hj Hv Hran Hmi Hmj Hn. unfold csr_create.
  assert (negb (conns_isempty c) && (n <=? to_size (c_maxi c)) = false) as ->.
  { unfold conns_isempty. rewrite Hi. destruct P as [|p P]; [done|]. cbn [map negb andb].
    inv Hran. unfold int_max in *. rewrite to_size_small by lia. apply Z.leb_gt. lia. }
  destruct (assemble_spec c P m) as (m1 & -> & H1 & Hs1); try done. cbn [mbind res_bind].
  set (R := c_maxi c + 1) in *. set (C := c_maxj c + 1) in *.
  assert (HP1 : Forall (λ x : Z * Z, 0 ≤ x.1 < R) P).
  { apply (Forall_impl _ _ _ Hran). unfold R. cbn. lia. }
  assert (HP2 : Forall (λ x : Z * Z, 0 ≤ x.2 < C) P).
  { apply (Forall_impl _ _ _ Hran). unfold C. cbn. lia. }
  destruct (sort_spec R C P (bsort row R P) m1) as (m2 & -> & H2 & Hs2); [done|by apply bsort_perm|].
  cbn [mbind res_bind]. set (L := bsort row R (bsort col C (bsort row R P))) in *.
  assert (HLP : L ≡ₚ P).
  { unfold L. rewrite bsort_perm; [rewrite bsort_perm; [by apply bsort_perm|]|].
    - by apply bsort_ran.
    - by do 2 apply bsort_ran. }
  assert (Hsort : ∀ r, StronglySorted Z.lt (nbrs L r)) by (intros r; by eapply nbrs_sorted).
  destruct (condense_spec R C P L m2) as (m3 & -> & H3 & Hs3); [done|by unfold L; rewrite bsort_idem|].
  cbn [mbind res_bind].
  destruct H3 as [Hial Hia Hja Hel He].
  assert (HR : 0 ≤ R) by (unfold R; lia).
  assert (∃ s, (if conns_weighted c then accumulate_conn_weights (c_v c) m3 else Ok m3) =
      Ok (mkCsr (ia m3) (ja m3) s (elm m3) (nrows m3) (ncols m3)) ∧
      (c_v c = [] → s = sa m) ∧
      (c_v c ≠ [] → length s = length (ja m3) ∧ ∀ k : nat, (k < length (ja m3))%nat →
        s !! k = Some (sum_left (map snd (filter (λ p, p.1 = Z.of_nat k) (zip (elm m3) (c_v c)))))))
    as (s & -> & Hsu & Hsw).
  { unfold conns_weighted. destruct (c_v c) as [|w v] eqn:Ev.
    - exists (sa m3). split_and!; [by destruct m3|congruence|done].
    - rewrite <-Ev in *. destruct (weights_spec (c_v c) m3) as (s & -> & Hls & Hs).
      + rewrite Hel. apply Hv. by rewrite Ev.
      + apply Forall_forall. intros k (i & Hk)%elem_of_list_lookup.
        destruct (lookup_lt_is_Some_2 P i) as [x Hx].
        { rewrite <-Hel. by eapply lookup_lt_Some. }
        destruct (He i x Hx) as (idx & Hidx & Hnb). rewrite Hk in Hidx. injection Hidx as ->.
        rewrite Hja. unfold zlen. apply lookup_lt_Some in Hnb.
        assert (0 ≤ x.1 < R) as Hxr.
        { rewrite Forall_forall in HP1. apply HP1. by eapply elem_of_list_lookup_2. }
        pose proof (rows_upto_mono L (x.1 + 1) R ltac:(lia)) as Hm.
        rewrite rows_upto_S, app_length in Hm by lia. lia.
      + exists s. split_and!; [done|by rewrite Ev|done]. }
  cbn [mbind res_bind ia ja sa elm nrows ncols].
  replace (zlen (ia m3) - 1) with R by (unfold zlen; lia).
  (* all that remains is padding with empty rows *)
  assert (∃ a, (if R <? n then b ← zback (ia m3);
      Ok (mkCsr (ia m3 ++ replicate (Z.to_nat (n - R)) b) (ja m3) s (elm m3) (nrows m3) (ncols m3))
     else Ok (mkCsr (ia m3) (ja m3) s (elm m3) (nrows m3) (ncols m3))) =
     Ok (mkCsr a (ja m3) s (elm m3) (nrows m3) (ncols m3)) ∧
     length a = (Z.to_nat n + 1)%nat ∧
     ∀ r, 0 ≤ r ≤ n → a !! Z.to_nat r = Some (Z.of_nat (length (rows_upto L r)))) as (a & -> & Hla & Ha).
  { destruct (Z.ltb_spec R n).
    - unfold zback. replace (zlen (ia m3) - 1) with R by (unfold zlen; lia).
      rewrite (zget_of (ia m3) R _ HR (Hia R ltac:(lia))). cbn [mbind res_bind].
      eexists. split; [done|]. rewrite app_length, replicate_length. split; [lia|].
      intros r Hr. destruct (decide (r ≤ R)).
      + rewrite lookup_app_l by lia. apply Hia; lia.
      + rewrite lookup_app_r by lia. rewrite (rows_upto_out R L r); [|by rewrite HLP; apply (Forall_impl _ _ _ HP1); cbn; lia|lia].
        apply lookup_replicate. split; [done|lia].
    - assert (n = R) as -> by (unfold R in *; lia). eexists. split; [done|]. split; [done|].
      intros. apply Hia. done. }
  eexists. split; [done|]. cbn [ia ja sa].
  assert (HRn : R ≤ n) by (unfold R in *; lia).
  assert (HL1 : Forall (λ x : Z * Z, x.1 < R) L).
  { rewrite HLP. apply (Forall_impl _ _ _ HP1). cbn. lia. }
  assert (Hja' : ja m3 = rows_upto L n) by (by rewrite Hja, (rows_upto_out R L n)).
  split_and!.
  - split.
    + lia.
    + lia.
    + apply (Ha 0). lia.
    + rewrite last_lookup, Hla. replace (pred (Z.to_nat n + 1)) with (Z.to_nat n) by lia.
      rewrite Ha by lia. by rewrite Hja'.
    + intros r Hr. do 2 eexists. split_and!; [apply Ha; lia|apply Ha; lia| | | | |].
      * lia.
      * pose proof (rows_upto_mono L r (r + 1) ltac:(lia)). lia.
      * rewrite Hja'. pose proof (rows_upto_mono L (r + 1) n ltac:(lia)). lia.
      * rewrite Hja', rows_upto_slice by lia. apply Hsort.
      * intros c0. rewrite Hja', rows_upto_slice by lia. rewrite nbrs_elem. by rewrite HLP.
  - intros Hw. destruct (Hsw Hw) as [Hls Hs]. split; [done|].
    intros r b e k c0 Hr Hb He0 Hk Hc0.
    rewrite Ha in Hb by lia. rewrite Ha in He0 by lia. injection Hb as <-. injection He0 as <-.
    rewrite Hs by (by eapply lookup_lt_Some). f_equal. unfold weight_of. f_equal.
    assert (nbrs L r !! (k - length (rows_upto L r))%nat = Some c0) as Hslot.
    { rewrite <-(rows_upto_slice L r n) by lia. unfold slice.
      rewrite lookup_take by lia. rewrite lookup_drop, <-Hja', <-Hc0. f_equal. lia. }
    symmetry. refine (filter_zip_ext (λ x : Z * Z, x = (r, c0)) (λ y : Z, y = Z.of_nat k) P (elm m3) (c_v c) _). apply Forall2_same_length_lookup_2; [by rewrite Hel|].
    intros i x y Hx Hy. destruct (He i x Hx) as (idx & Hidx & Hnb). rewrite Hy in Hidx. injection Hidx as ->.
    assert (0 ≤ x.1) as Hx0.
    { rewrite Forall_forall in HP1. apply (HP1 x). by eapply elem_of_list_lookup_2. }
    pose proof (slot_unique L x.1 r idx (k - length (rows_upto L r))%nat x.2 c0 Hx0 ltac:(lia) Hnb Hslot (Hsort _)) as HU.
    destruct x as [xr xc]. cbn in *. rewrite Nat2Z.inj_iff.
    replace (length (rows_upto L r) + (k - length (rows_upto L r)))%nat with k in HU by lia.
    rewrite HU. split; [by intros [= -> ->]|by intros [-> ->]].
  - done.
Qed.
(** Without pending connections the number of rows asked for matters only if it
    exceeds the largest row index on record. *)
Lemma csr_create_empty c n m : c_i c = [] → c_j c = [] → c_v c = [] →
  -1 ≤ c_maxi c < int_max → -1 ≤ c_maxj c < int_max → n ≤ c_maxi c + 1 →
  csr_create c n m = csr_create c (c_maxi c + 1) m.
Proof.
  intros Hi Hj Hv Hmi Hmj Hn. unfold csr_create, conns_isempty, conns_weighted. rewrite Hi, Hv. cbn [negb andb].
  destruct (assemble_spec c [] m) as (m1 & -> & H1 & Hs1); try done. cbn [mbind res_bind].
  set (R := c_maxi c + 1) in *. set (C := c_maxj c + 1) in *.
  destruct (sort_spec R C [] (bsort row R []) m1) as (m2 & -> & H2 & Hs2); [done|by apply bsort_perm|].
  cbn [mbind res_bind]. set (L := bsort row R (bsort col C (bsort row R []))) in *.
  destruct (condense_spec R C [] L m2) as (m3 & -> & H3 & Hs3); [done|by unfold L; rewrite bsort_idem|].
  cbn [mbind res_bind]. destruct H3 as [Hial _ _ _ _].
  assert (HR : 0 ≤ R) by (unfold R; lia).
  replace (zlen (ia m3) - 1) with R by (unfold zlen; lia).
  destruct (Z.ltb_spec R n); [lia|]. by rewrite Z.ltb_irrefl.
Qed.
End create.
