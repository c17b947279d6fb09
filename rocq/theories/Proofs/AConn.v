(** Histories of calls on an AssembledConnections object. *)
From Verif.Model Require Import AssembledConnections.
From Verif.Spec Require Import GraphSpec.
From Verif.Proofs Require Import Util BucketSort Csr CsrCreate.

Section aconn.
Context {N : Num}.

Definition add_op (x : connection) : ac_op :=
  match x.2 with None => AcAdd x.1.1 x.1.2 | Some w => AcAddW x.1.1 x.1.2 w end.
Definition add_conn (g : aconn) (x : connection) : aconn :=
  match x.2 with None => ac_add g x.1.1 x.1.2 | Some w => ac_add_w g x.1.1 x.1.2 w end.
(** Successive addConnection calls. *)
Definition add_all (g : aconn) (l : list connection) : aconn := foldl add_conn g l.

Lemma ac_run_adds g l : ac_run g (map add_op l) = Ok (add_all g l).
Proof.
  unfold ac_run. revert g. induction l as [|[[i j] [w|]] l IH]; intros g; [done| |]; cbn; apply IH.
Qed.

Definition zmax (l : list Z) : Z := foldr Z.max (-1) l.

Lemma zmax_app l1 l2 : zmax (l1 ++ l2) = Z.max (zmax l1) (zmax l2).
Proof.
  unfold zmax. induction l1 as [|x l1 IH]; cbn.
  - induction l2 as [|y l2 IH2]; cbn; lia.
  - rewrite IH. lia.
Qed.
Lemma zmax_ge l x : x ∈ l → x ≤ zmax l.
Proof. unfold zmax. induction 1; cbn in *; lia. Qed.
Lemma zmax_lo l : -1 ≤ zmax l.
Proof. unfold zmax. induction l; cbn; lia. Qed.
Lemma zmax_lt l n : -1 < n → Forall (λ x, x < n) l → zmax l < n.
Proof. intros ?. unfold zmax. induction 1; cbn; lia. Qed.
Lemma zmax_ge_iff l n : 0 ≤ n → n ≤ zmax l → Exists (λ x, n ≤ x) l.
Proof.
  intros ?. unfold zmax. induction l as [|x l IH]; cbn; intros H1; [lia|].
  destruct (decide (n ≤ x)); [by left|]. right. apply IH. lia.
Qed.

(** Pending connections [l]; [M1], [M2] are the recorded maximal indices. *)
Record pending (l : list connection) (M1 M2 : Z) (c : conns) : Prop := {
  pd_i : c_i c = map (λ x, x.1.1) l;
  pd_j : c_j c = map (λ x, x.1.2) l;
  pd_v : c_v c = omap snd l;
  pd_mi : c_maxi c = M1;
  pd_mj : c_maxj c = M2
}.

Lemma pending_new : pending [] (-1) (-1) (@conns_empty N).
Proof. by split. Qed.

Lemma omap_app' {A B} (f : A → option B) l1 l2 : omap f (l1 ++ l2) = omap f l1 ++ omap f l2.
Proof. induction l1 as [|x l1 IH]; [done|]. cbn. destruct (f x); cbn; by rewrite IH. Qed.

Lemma pending_add l M1 M2 g x : pending l M1 M2 (ac_conns g) →
  pending (l ++ [x]) (Z.max M1 x.1.1) (Z.max M2 x.1.2) (ac_conns (add_conn g x)) ∧
  ac_csr (add_conn g x) = ac_csr g.
Proof.
  intros [Hi Hj Hv Hmi Hmj]. destruct x as [[i j] [w|]]; cbn; (split; [split; cbn|done]);
    rewrite ?Hi, ?Hj, ?Hv, ?Hmi, ?Hmj, ?map_app, ?omap_app'; cbn; try done.
  by rewrite app_nil_r.
Qed.

Lemma pending_add_all l M1 M2 g xs : pending l M1 M2 (ac_conns g) →
  -1 ≤ M1 → -1 ≤ M2 →
  pending (l ++ xs) (Z.max M1 (zmax (map (λ x, x.1.1) xs))) (Z.max M2 (zmax (map (λ x, x.1.2) xs)))
    (ac_conns (add_all g xs)) ∧
  ac_csr (add_all g xs) = ac_csr g.
Proof.
  revert l M1 M2 g. induction xs as [|x xs IH]; intros l M1 M2 g Hp H1 H2.
  - cbn. rewrite app_nil_r, !Z.max_l by done. done.
  - destruct (pending_add l M1 M2 g x Hp) as [Hp' E].
    destruct (IH _ _ _ _ Hp') as [Hp'' E'']; [lia|lia|]. cbn [add_all foldl] in *.
    fold (add_all (add_conn g x) xs). split; [|congruence].
    rewrite <-app_assoc in Hp''. cbn in *.
    rewrite !Z.max_assoc. done.
Qed.

Lemma omap_len_some (l : list connection) : weighted l → length (omap snd l) = length l.
Proof.
  unfold weighted. induction 1 as [|[p [w|]] l [? ?] _ IH]; [done| |done]. cbn. by rewrite IH.
Qed.
Lemma omap_none (l : list connection) : unweighted l → omap snd l = [].
Proof.
  unfold unweighted. induction 1 as [|[p [w|]] l ? _ IH]; [done|done|]. cbn. by rewrite IH.
Qed.
Lemma omap_len_le (l : list connection) : (length (omap snd l) ≤ length l)%nat.
Proof. induction l as [|[p [w|]] l IH]; cbn; lia. Qed.
Lemma omap_full (l : list connection) : length (omap snd l) = length l → weighted l.
Proof.
  unfold weighted. induction l as [|[p [w|]] l IH]; cbn; intros H; [constructor|..].
  - constructor; [done|]. apply IH. lia.
  - pose proof (omap_len_le l). lia.
Qed.
Lemma omap_nil (l : list connection) : omap snd l = [] → unweighted l.
Proof.
  unfold unweighted. induction l as [|[p [w|]] l IH]; cbn; intros H; [constructor|done|].
  constructor; [done|]. by apply IH.
Qed.

Lemma pending_valid l M1 M2 c : pending l M1 M2 c →
  conns_valid c = true ↔ unweighted l ∨ weighted l.
Proof.
  intros [Hi Hj Hv _ _]. unfold conns_valid. rewrite Hi, Hj, Hv. unfold zlen. rewrite !map_length.
  rewrite Z.eqb_refl. cbn [andb]. split.
  - destruct (omap snd l) eqn:E.
    + intros _. left. by apply omap_nil.
    + rewrite Z.eqb_eq. intros H. right. apply omap_full. rewrite E. by apply Nat2Z.inj.
  - intros [H|H].
    + by rewrite omap_none.
    + destruct (omap snd l) eqn:E; [done|]. apply Z.eqb_eq. rewrite <-E, omap_len_some by done. done.
Qed.

Lemma weight_of_at (l : list connection) r c : weighted l →
  weight_of (map fst l) (omap snd l) r c = sum_left (weights_at l r c).
Proof.
  intros H. unfold weight_of. f_equal. unfold weights_at.
  induction H as [|[p [w|]] l [? ?] _ IH]; [done| |done].
  cbn [map omap list_omap zip zip_with fst snd]. rewrite filter_cons. cbn [fst].
  case_decide; cbn [map]; by rewrite IH.
Qed.

Lemma map_pairs (l : list connection) : map (λ x, x.1.1) l = map fst (map fst l) ∧
  map (λ x, x.1.2) l = map snd (map fst l).
Proof. by rewrite !map_map. Qed.

(** compress on pending connections. *)
Lemma compress_ok l M1 M2 g n : pending l M1 M2 (ac_conns g) →
  unweighted l ∨ weighted l → indices_ok l →
  Forall (λ x : connection, x.1.1 ≤ M1 ∧ x.1.2 ≤ M2) l →
  -1 ≤ M1 < 2 ^ 31 - 1 → -1 ≤ M2 < 2 ^ 31 - 1 → M1 < n →
  ∃ g', ac_compress g n = Ok (g', None) ∧ pending [] M1 M2 (ac_conns g') ∧
    is_csr n (λ r c, (r, c) ∈ map fst l) (ac_start g') (ac_neigh g') ∧
    (weighted l → l ≠ [] →
      is_weights n (λ r c, sum_left (weights_at l r c)) (ac_start g') (ac_neigh g') (ac_weight g')) ∧
    (unweighted l → ac_weight g' = ac_weight g).
Proof.
  intros Hp Hu Hidx HM HM1 HM2 Hn. unfold ac_compress.
  rewrite (proj2 (pending_valid _ _ _ _ Hp) Hu). cbn [negb].
  destruct Hp as [Hi Hj Hv Hmi Hmj].
  assert (negb (conns_isempty (ac_conns g)) && (n <=? to_size (c_maxi (ac_conns g))) = false) as ->.
  { unfold conns_isempty. rewrite Hi. destruct l as [|p l]; [done|]. cbn [map negb andb].
    inv Hidx. inv HM. unfold int_index in *. destruct_and!. rewrite to_size_small by lia. apply Z.leb_gt. lia. }
  destruct (map_pairs l) as [Hmp1 Hmp2].
  destruct (csr_create_spec (ac_conns g) (map fst l) n (ac_csr g)) as (m' & -> & Hc & Hw & Hs);
    try (by rewrite Hmi || by rewrite Hmj); try congruence.
  - rewrite Hv, map_length. intros Hne. apply omap_len_some. destruct Hu as [Hu|]; [|done].
    by rewrite (omap_none _ Hu) in Hne.
  - rewrite Forall_map, Hmi, Hmj. unfold indices_ok, int_index in *.
    eapply Forall_impl; [apply Forall_and; split; [exact Hidx|exact HM]|]. cbn. lia.
  - cbn [mbind res_bind]. eexists. split; [done|]. split_and!.
    + by split.
    + done.
    + intros Hwl Hne. cbn in *.
      assert (omap snd l ≠ []) as Hvne.
      { intros E. apply (f_equal length) in E. rewrite omap_len_some in E by done. by destruct l. }
      rewrite Hv in Hw. destruct (Hw Hvne) as [Hl Hval]. split; [done|].
      intros. unfold ac_weight. cbn. rewrite <-weight_of_at by done. by eapply Hval.
    + intros Hun. cbn. apply Hs. by rewrite Hv, omap_none.
Qed.

Lemma compress_mixed l M1 M2 g n : pending l M1 M2 (ac_conns g) →
  ¬ unweighted l → ¬ weighted l → ac_compress g n = Ok (g, Some LogicError).
Proof.
  intros Hp H1 H2. unfold ac_compress. destruct (conns_valid (ac_conns g)) eqn:E; [|done].
  apply (pending_valid _ _ _ _ Hp) in E. tauto.
Qed.

Lemma compress_range l M1 M2 g n : pending l M1 M2 (ac_conns g) →
  unweighted l ∨ weighted l → l ≠ [] → 0 ≤ n → n ≤ M1 < 2 ^ 31 - 1 →
  ac_compress g n = Ok (g, Some InvalidArgument).
Proof.
  intros Hp Hu Hne Hn HM. unfold ac_compress.
  rewrite (proj2 (pending_valid _ _ _ _ Hp) Hu). cbn [negb].
  destruct Hp as [Hi _ _ Hmi _]. unfold conns_isempty. rewrite Hi, Hmi.
  destruct l; [done|]. cbn [map negb andb]. rewrite to_size_small by lia.
  by destruct (Z.leb_spec n M1); [|lia].
Qed.

Lemma compress_empty M1 M2 g n : pending [] M1 M2 (ac_conns g) →
  -1 ≤ M1 < 2 ^ 31 - 1 → -1 ≤ M2 < 2 ^ 31 - 1 → n ≤ M1 + 1 →
  ac_compress g n = ac_compress g (M1 + 1).
Proof.
  intros [Hi Hj Hv Hmi Hmj] H1 H2 Hn. unfold ac_compress. rewrite <-Hmi.
  rewrite (csr_create_empty (ac_conns g) n (ac_csr g)); try done; unfold int_max; try lia.
  unfold conns_isempty. rewrite Hi. done.
Qed.

Lemma compress_exn_same g n g' e : ac_compress g n = Ok (g', Some e) → g' = g.
Proof.
  unfold ac_compress. destruct (negb _); [by intros [= <- _]|]. destruct (_ && _); [by intros [= <- _]|].
  by intros (m & _ & [=])%bind_Ok.
Qed.

(** Uniqueness of the CSR form. *)
Lemma sorted_lt_ext (l1 l2 : list Z) : StronglySorted Z.lt l1 → StronglySorted Z.lt l2 →
  (∀ x, x ∈ l1 ↔ x ∈ l2) → l1 = l2.
Proof.
  intros H1. revert l2. induction H1 as [|x l1 Hl1 IH Hx]; intros l2 H2 He.
  - destruct l2 as [|y l2]; [done|]. exfalso. apply (not_elem_of_nil y). apply He. left.
  - inv H2.
    + exfalso. apply (not_elem_of_nil x). apply He. left.
    + rewrite Forall_forall in Hx. match goal with H : Forall (Z.lt a) l |- _ => rename H into Ha end.
      rewrite Forall_forall in Ha.
      assert (x = a) as ->.
      { assert (x ∈ a :: l) as Hxa by (apply He; left).
        assert (a ∈ x :: l1) as Hax by (apply He; left).
        apply elem_of_cons in Hxa as [->|Hxa]; [done|]. apply elem_of_cons in Hax as [->|Hax]; [done|].
        specialize (Hx _ Hax). specialize (Ha _ Hxa). lia. }
      f_equal. apply IH; [done|]. intros y. split; intros Hy.
      * assert (y ∈ a :: l) as [->|?]%elem_of_cons by (apply He; by right); [|done].
        specialize (Hx _ Hy). lia.
      * assert (y ∈ a :: l1) as [->|?]%elem_of_cons by (apply He; by right); [|done].
        specialize (Ha _ Hy). lia.
Qed.

Lemma slice_length {A} (l : list A) b e : 0 ≤ b ≤ e → e ≤ Z.of_nat (length l) →
  Z.of_nat (length (slice l b e)) = e - b.
Proof. intros. unfold slice. rewrite take_length, drop_length. lia. Qed.

Lemma slice_app {A} (l : list A) a b c : 0 ≤ a ≤ b → b ≤ c →
  slice l a b ++ slice l b c = slice l a c.
Proof.
  intros. unfold slice. replace (Z.to_nat (c - a)) with (Z.to_nat (b - a) + Z.to_nat (c - b))%nat by lia.
  rewrite <-take_take_drop. f_equal. rewrite drop_drop. f_equal. f_equal. lia.
Qed.

Lemma is_csr_unique n E s1 s2 j1 j2 : is_csr n E s1 j1 → is_csr n E s2 j2 → s1 = s2 ∧ j1 = j2.
Proof.
  intros [Hn Hl1 Hf1 Hla1 Hr1] [_ Hl2 Hf2 Hla2 Hr2].
  assert (∀ k : nat, Z.of_nat k ≤ n → ∃ b, s1 !! k = Some b ∧ s2 !! k = Some b ∧
     0 ≤ b ∧ slice j1 0 b = slice j2 0 b) as H.
  { induction k as [|k IH]; intros Hk.
    - exists 0. rewrite Hf1, Hf2. split_and!; done.
    - destruct IH as (b & Hb1 & Hb2 & Hb0 & Hs); [lia|].
      destruct (Hr1 (Z.of_nat k)) as (b1 & e1 & Hb1' & He1 & Hbe1 & Hle1 & Hs1 & Hm1); [lia|].
      destruct (Hr2 (Z.of_nat k)) as (b2 & e2 & Hb2' & He2 & Hbe2 & Hle2 & Hs2 & Hm2); [lia|].
      rewrite Nat2Z.id in *. rewrite Hb1 in Hb1'. rewrite Hb2 in Hb2'. injection Hb1' as <-. injection Hb2' as <-.
      replace (Z.to_nat (Z.of_nat k + 1)) with (S k) in * by lia.
      assert (slice j1 b e1 = slice j2 b e2) as Heq.
      { apply sorted_lt_ext; try done. intros c. by rewrite Hm1, Hm2. }
      assert (e1 = e2) as ->.
      { pose proof (slice_length j1 b e1 ltac:(lia) ltac:(lia)).
        pose proof (slice_length j2 b e2 ltac:(lia) ltac:(lia)). rewrite Heq in *. lia. }
      exists e2. split_and!; try done; [lia|].
      rewrite <-(slice_app j1 0 b e2), <-(slice_app j2 0 b e2) by lia. congruence. }
  assert (s1 = s2) as ->.
  { apply list_eq. intros k. destruct (decide (Z.of_nat k ≤ n)) as [Hk|Hk].
    - destruct (H k Hk) as (b & -> & -> & _). done.
    - rewrite !lookup_ge_None_2 by lia. done. }
  split; [done|]. rewrite Hla1 in Hla2. inv Hla2.
  destruct (H (Z.to_nat n) ltac:(lia)) as (b & Hb & _ & _ & Hs).
  rewrite last_lookup in Hla1. replace (pred (length s2)) with (Z.to_nat n) in Hla1 by lia.
  rewrite Hb in Hla1. inv Hla1. unfold slice in Hs. cbn in Hs.
  rewrite Z.sub_0_r in Hs. rewrite !drop_0 in Hs. rewrite Nat2Z.id in Hs.
  rewrite firstn_all in Hs. rewrite take_ge in Hs by lia. done.
Qed.

Lemma is_csr_locate n E s j (k : nat) : is_csr n E s j → (k < length j)%nat →
  ∃ r b e, 0 ≤ r < n ∧ s !! Z.to_nat r = Some b ∧ s !! Z.to_nat (r + 1) = Some e ∧ b ≤ Z.of_nat k < e.
Proof.
  intros [Hn Hl Hf Hla Hr] Hk.
  assert (∀ m : nat, Z.of_nat m ≤ n → ∀ e, s !! m = Some e → Z.of_nat k < e →
    ∃ r b e, 0 ≤ r < n ∧ s !! Z.to_nat r = Some b ∧ s !! Z.to_nat (r + 1) = Some e ∧ b ≤ Z.of_nat k < e) as H.
  { induction m as [|m IH]; intros Hm e He Hke.
    - rewrite Hf in He. inv He. lia.
    - destruct (Hr (Z.of_nat m)) as (b & e' & Hb & He' & ?); [lia|]. rewrite Nat2Z.id in Hb.
      replace (Z.to_nat (Z.of_nat m + 1)) with (S m) in He' by lia. rewrite He in He'. inv He'.
      destruct (decide (Z.of_nat k < b)); [eapply IH; eauto; lia|].
      exists (Z.of_nat m), b, e'. rewrite Nat2Z.id. replace (Z.to_nat (Z.of_nat m + 1)) with (S m) by lia.
      split_and!; try done; lia. }
  rewrite last_lookup in Hla. replace (pred (length s)) with (Z.to_nat n) in Hla by lia.
  eapply (H (Z.to_nat n)); [lia|exact Hla|lia].
Qed.

Lemma is_weights_unique {V} n E (W1 W2 : Z → Z → V) s j w1 w2 : is_csr n E s j →
  (∀ r c, E r c → W1 r c = W2 r c) →
  is_weights n W1 s j w1 → is_weights n W2 s j w2 → w1 = w2.
Proof.
  intros Hc HW [Hl1 H1] [Hl2 H2]. apply list_eq_same_length with (n := length j); try done.
  intros k x y Hk Hx Hy. destruct (is_csr_locate n E s j k Hc Hk) as (r & b & e & Hr & Hb & He & Hke).
  destruct (lookup_lt_is_Some_2 j k Hk) as [c Hcol].
  rewrite (H1 r b e k c) in Hx by done. rewrite (H2 r b e k c) in Hy by done.
  inv Hx. inv Hy. apply HW.
  destruct (csr_row _ _ _ _ Hc r Hr) as (b' & e' & Hb' & He' & _ & _ & _ & Hm).
  rewrite Hb in Hb'. rewrite He in He'. inv Hb'. inv He'. apply Hm.
  apply elem_of_list_lookup. exists (k - Z.to_nat b')%nat. unfold slice.
  assert (0 ≤ b'). { destruct (csr_row _ _ _ _ Hc r Hr) as (b2 & e2 & Hb2 & _ & ? & _). rewrite Hb in Hb2. inv Hb2. lia. }
  rewrite lookup_take by lia. rewrite lookup_drop. rewrite <-Hcol. f_equal. lia.
Qed.

(** ** Histories *)
Definition op_conn (o : ac_op) : list connection :=
  match o with AcAdd i j => [(i, j, None)] | AcAddW i j w => [(i, j, Some w)] | AcCompress _ => [] end.
(** Every connection ever added in a history. *)
Definition hist_conns (h : list ac_op) : list connection := h ≫= op_conn.
Definition op_ok (o : ac_op) : Prop := match o with AcCompress n => 0 ≤ n | _ => True end.

Lemma hist_inv h : indices_ok (hist_conns h) → Forall op_ok h →
  ∃ g l, ac_run ac_new h = Ok g ∧
    pending l (zmax (map (λ x, x.1.1) (hist_conns h))) (zmax (map (λ x, x.1.2) (hist_conns h)))
      (ac_conns g) ∧ (∀ x, x ∈ l → x ∈ hist_conns h).
Proof.
  intros Hidx Hok. unfold ac_run.
  destruct (foldM_inv (λ g o, r ← ac_step g o; Ok r.1)
    (λ h g, ∃ l, pending l (zmax (map (λ x, x.1.1) (hist_conns h))) (zmax (map (λ x, x.1.2) (hist_conns h)))
      (ac_conns g) ∧ (∀ x, x ∈ l → x ∈ hist_conns h)) h ac_new) as (g & E & l & Hp & Hl); [| |eauto].
  - exists []. split; [apply pending_new|set_solver].
  - intros h1 o h2 g -> (l & Hp & Hl).
    assert (hist_conns (h1 ++ o :: h2) = hist_conns h1 ++ op_conn o ++ hist_conns h2) as Hh.
    { unfold hist_conns. by rewrite bind_app. }
    assert (hist_conns (h1 ++ [o]) = hist_conns h1 ++ op_conn o) as Hh1.
    { unfold hist_conns. rewrite bind_app. cbn. by rewrite app_nil_r. }
    rewrite Hh in Hidx. rewrite Hh1, !map_app, !zmax_app.
    assert (∀ x : connection, op_conn o = [x] → ac_step g o = Ok (add_conn g x, None) →
      ∃ s', (r ← ac_step g o; Ok r.1) = Ok s' ∧ ∃ l0, pending l0
        (Z.max (zmax (map (λ x, x.1.1) (hist_conns h1))) (zmax (map (λ x, x.1.1) (op_conn o))))
        (Z.max (zmax (map (λ x, x.1.2) (hist_conns h1))) (zmax (map (λ x, x.1.2) (op_conn o)))) (ac_conns s') ∧
        (∀ x0, x0 ∈ l0 → x0 ∈ hist_conns h1 ++ op_conn o)) as Hadd.
    { intros x Eo ->. cbn. eexists. split; [done|]. exists (l ++ [x]). rewrite Eo in *. split; [|set_solver].
      destruct (pending_add _ _ _ _ x Hp) as [Hp' _].
      unfold indices_ok, int_index in Hidx. rewrite !Forall_app, Forall_cons in Hidx. destruct_and!.
      unfold zmax at 2 4. cbn. rewrite (Z.max_l x.1.1 (-1)), (Z.max_l x.1.2 (-1)) by lia. done. }
    destruct o as [i j|i j w|n].
    + by apply (Hadd (i, j, None)).
    + by apply (Hadd (i, j, Some w)).
    + cbn [op_conn map] in *. rewrite !app_nil_r. unfold zmax at 2 4. cbn [foldr].
      rewrite !Z.max_l by apply zmax_lo. cbn [ac_step].
      set (M1 := zmax (map (λ x, x.1.1) (hist_conns h1))) in *.
      set (M2 := zmax (map (λ x, x.1.2) (hist_conns h1))) in *.
      apply Forall_app in Hidx as [Hidx _].
      assert (indices_ok l) as Hil.
      { apply Forall_forall. intros x Hx. unfold indices_ok in Hidx.
        rewrite Forall_forall in Hidx. by apply Hidx, Hl. }
      assert (M1 < 2 ^ 31 - 1).
      { apply zmax_lt; [lia|]. rewrite Forall_map. apply (Forall_impl _ _ _ Hidx). unfold int_index. intros ?; lia. }
      assert (M2 < 2 ^ 31 - 1).
      { apply zmax_lt; [lia|]. rewrite Forall_map. apply (Forall_impl _ _ _ Hidx). unfold int_index. intros ?; lia. }
      assert (Forall (λ x : connection, x.1.1 ≤ M1 ∧ x.1.2 ≤ M2) l) as HM.
      { apply Forall_forall. intros x Hx. split; apply zmax_ge; apply elem_of_list_fmap; exists x; auto. }
      assert (0 ≤ n) as Hn. { rewrite Forall_app, Forall_cons in Hok. by destruct_and!. }
      assert (-1 ≤ M1) as HM1 by apply zmax_lo.
      assert (-1 ≤ M2) as HM2 by apply zmax_lo.
      assert (int_max = 2 ^ 31 - 1) as Himax by done.
      destruct (conns_valid (ac_conns g)) eqn:Ev.
      2:{ unfold ac_compress. rewrite Ev. cbn. eauto. }
      pose proof (proj1 (pending_valid _ _ _ _ Hp) Ev) as Hu.
      destruct (decide (l = [])) as [->|Hne].
      * (* no pending connections: never rejected, but the old maximum still counts *)
        unfold ac_compress. rewrite Ev. cbn [negb].
        destruct Hp as [Hi Hj Hv Hmi Hmj]. unfold conns_isempty. rewrite Hi. cbn [map negb andb].
        destruct (csr_create_spec (ac_conns g) [] (Z.max n (M1 + 1)) (ac_csr g)) as (m' & E & _);
          try done; try (rewrite ?Hmi, ?Hmj; lia).
        assert (∃ m'', csr_create (ac_conns g) n (ac_csr g) = Ok m'') as (m'' & ->).
        { revert E. unfold csr_create, conns_isempty. rewrite Hi. cbn [map negb andb].
          intros E. apply bind_Ok in E as (m1 & -> & E). cbn.
          apply bind_Ok in E as (m2 & -> & E). cbn.
          apply bind_Ok in E as (m3 & -> & E). cbn.
          apply bind_Ok in E as (m4 & -> & E). cbn.
          case_match eqn:E1; case_match eqn:E2; try eauto.
          - apply bind_Ok in E as (b & -> & E). cbn. eauto.
          - rewrite ?Z.ltb_lt, ?Z.ltb_ge in *. lia. }
        cbn. eexists. split; [done|]. exists []. split; [by split|set_solver].
      * destruct (decide (n ≤ M1)) as [Hle|Hgt].
        -- rewrite (compress_range l M1 M2 g n) by (done || lia). cbn. eauto.
        -- destruct (compress_ok l M1 M2 g n) as (g' & -> & Hp' & _); try done; try lia.
           cbn. eexists. split; [done|]. exists []. split; [done|set_solver].
Qed.

(** Weighted neighbourhoods. *)
Lemma cell_neighbourhood_spec n E (W : Z → Z → num) g r : is_csr n E (ac_start g) (ac_neigh g) →
  is_weights n W (ac_start g) (ac_neigh g) (ac_weight g) → 0 ≤ r < n →
  ∃ nb, ac_cell_neighbourhood g r = Ok (map (λ c, (c, W r c)) nb) ∧
    StronglySorted Z.lt nb ∧ (∀ c, c ∈ nb ↔ E r c) ∧
    ∃ b e, ac_start g !! Z.to_nat r = Some b ∧ ac_start g !! Z.to_nat (r + 1) = Some e ∧
           nb = slice (ac_neigh g) b e.
Proof.
  intros Hc Hw Hr. destruct (csr_row _ _ _ _ Hc r Hr) as (b & e & Hb & He & Hbe & Hle & Hs & Hm).
  exists (slice (ac_neigh g) b e). split_and!; [|done|done|eauto].
  unfold ac_cell_neighbourhood. rewrite (zget_of (ac_start g) r b ltac:(lia) Hb). cbn [mbind res_bind].
  rewrite (zget_of (ac_start g) (r + 1) e ltac:(lia) He). cbn [mbind res_bind].
  destruct Hw as [Hl Hv].
  assert (zlen (ac_weight g) =? zlen (ac_neigh g) = true) as -> by (apply Z.eqb_eq; unfold zlen; lia).
  cbn [assert_ mbind res_bind].
  rewrite (proj2 (zslice_Ok (ac_neigh g) b e _)) by (unfold zlen; split_and!; [lia|lia|lia|reflexivity]).
  cbn [mbind res_bind].
  rewrite (proj2 (zslice_Ok (ac_weight g) b e _)) by (unfold zlen; split_and!; [lia|lia|lia|reflexivity]).
  cbn [mbind res_bind]. f_equal. fold (slice (ac_neigh g) b e). fold (slice (ac_weight g) b e).
  pose proof (slice_length (ac_neigh g) b e ltac:(lia) ltac:(lia)).
  pose proof (slice_length (ac_weight g) b e ltac:(lia) ltac:(lia)).
  apply list_eq. intros k. rewrite lookup_zip_with, list_lookup_fmap.
  destruct (slice (ac_neigh g) b e !! k) as [c|] eqn:Ek; [|done]. cbn.
  pose proof (lookup_lt_Some _ _ _ Ek) as Hk. unfold slice in Ek |- *.
  rewrite lookup_take in Ek by lia. rewrite lookup_drop in Ek.
  rewrite lookup_take by lia. rewrite lookup_drop.
  rewrite (Hv r b e (Z.to_nat b + k)%nat c) by (done || lia). done.
Qed.
End aconn.
