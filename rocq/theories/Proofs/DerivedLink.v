(** The code of flowCapacityStorageCapacityCurve in exact arithmetic. *)
From Coq Require Import QArith Qcanon Lqa.
From Verif.Model Require Import Num DerivedQuantities.
From Verif.Spec Require Import GraphSpec DerivedSpec.
From Verif.Proofs Require Import Util ExactNum QcLra OrdLaws DerivedOrd DerivedExact DerivedLorenz.
Open Scope Z_scope.

Lemma sorted_unique {A} (R : A → A → Prop) l1 l2 :
  StronglySorted R l1 → StronglySorted R l2 → l1 ≡ₚ l2 →
  (∀ x y, x ∈ l1 → y ∈ l1 → R x y → R y x → x = y) → l1 = l2.
Proof.
  intros H1. revert l2. induction H1 as [|x l1 H1 IH Hx]; intros l2 H2 Hp Ha.
  { by apply Permutation_nil_l in Hp. }
  destruct l2 as [|y l2]; [by apply Permutation_nil_r in Hp|].
  apply StronglySorted_inv in H2 as [H2 Hy].
  assert (x = y) as ->.
  { assert (y ∈ x :: l1) as Iy by (rewrite Hp; left).
    assert (x ∈ y :: l2) as Ix by (rewrite <-Hp; left).
    apply elem_of_cons in Ix as [->|Ix]; [done|]. pose proof Iy as Iy'.
    apply elem_of_cons in Iy as [->|Iy]; [done|].
    rewrite Forall_forall in Hx, Hy. apply Ha; [left|done|by apply Hx|by apply Hy]. }
  f_equal. apply IH; [done|by eapply Permutation_cons_inv|]. intros u w Hu Hw. apply Ha; by right.
Qed.

Lemma xnan a : @nisnan exact a = false ↔ a ≠ NaN.
Proof.
  unfold nisnan. destruct a; cbn; try done; try (split; congruence).
  rewrite (proj2 (Qc_eqb_true q q) eq_refl). done.
Qed.

Lemma lex_antisym (a b : @num exact * @num exact) : no_nan a → no_nan b →
  lex_lt a b = false → lex_lt b a = false → a = b.
Proof.
  destruct a as [a1 a2], b as [b1 b2]. intros [N1 N2] [N3 N4]. cbn in N1, N2, N3, N4.
  apply xnan in N1, N2, N3, N4. unfold lex_lt. cbn [fst snd nltb exact].
  assert (∀ x y, x ≠ NaN → y ≠ NaN → xltb x y = false → xltb y x = false → x = y) as Hx.
  { clear. intros x y Nx Ny. destruct x as [x| | |], y as [y| | |]; try done. rewrite !xltb_Fin_false. intros. f_equal. qclra. }
  intros H1 H2. apply orb_false_iff in H1 as [H1 H1'], H2 as [H2 H2'].
  rewrite H2 in H1'. rewrite H1 in H2'. cbn in H1', H2'. f_equal; by apply Hx.
Qed.

(** Two sorts agree on lists that are permutations of each other. *)
Lemma sorting_unique srt srt' (l l' : list (@num exact * @num exact)) : sorting srt → sorting srt' →
  Forall no_nan l → l ≡ₚ l' → srt l = srt' l'.
Proof.
  intros Hs Hs' Hn Hp. destruct (Hs l Hn) as [P1 S1]. assert (Forall no_nan l') as Hn' by (by rewrite <-Hp).
  destruct (Hs' l' Hn') as [P2 S2]. eapply sorted_unique; [exact S1|exact S2|by rewrite P1, P2|].
  intros x y Hx Hy H1 H2. rewrite P1 in Hx, Hy. rewrite Forall_forall in Hn. apply lex_antisym; auto.
Qed.

Lemma existsb_perm {A} (f : A → bool) l l' : l ≡ₚ l' → existsb f l = existsb f l'.
Proof. induction 1; cbn; try congruence. by rewrite !orb_assoc, (orb_comm (f y)). Qed.

Lemma no_nan_of {N : Num} (tp : list (num * num)) : existsb (fun p => nisnan (fst p) || nisnan (snd p)) tp = false → Forall no_nan tp.
Proof.
  intros En. apply Forall_forall. intros p Hp.
  destruct (nisnan p.1) eqn:Ea; [|destruct (nisnan p.2) eqn:Eb; [|done]];
    (assert (existsb (λ p, nisnan p.1 || nisnan p.2) tp = true); [|congruence]);
    apply existsb_exists; exists p; (split; [by apply elem_of_list_In|]); by rewrite ?Ea, ?Eb, ?orb_true_r.
Qed.

(** ** C49 *)
Theorem curve_permutation srt srt' (itof ptof pv itof' ptof' pv' : list (@num exact)) f :
  sorting srt → sorting srt' →
  length itof = length pv → length ptof = length pv → length itof' = length pv' → length ptof' = length pv' →
  Z.of_nat (length pv) < 2 ^ 31 →
  zip (zip itof ptof) pv ≡ₚ zip (zip itof' ptof') pv' →
  fphi_curve srt itof ptof pv f = fphi_curve srt' itof' ptof' pv' f.
Proof.
  intros Hs Hs' E1 E2 E3 E4 Hn Hp.
  assert (pv ≡ₚ pv') as Hpv.
  { apply (fmap_Permutation snd) in Hp. rewrite !snd_zip in Hp by (rewrite zip_with_length; lia). done. }
  assert (length pv = length pv') as El by by apply Permutation_length.
  rewrite !fphi_unfold by (done || lia). cbv zeta.
  assert (accumulate pv = accumulate pv') as -> by apply (sum_left_perm pv pv' Hpv).
  set (mx := nmul f (accumulate pv')).
  assert (time_and_pv itof ptof pv mx ≡ₚ time_and_pv itof' ptof' pv' mx) as Ht by (apply (fmap_Permutation _ _ _ Hp)).
  rewrite (existsb_perm _ _ _ Ht). destruct (existsb _ (time_and_pv itof' ptof' pv' mx)) eqn:En; [done|].
  rewrite (sorting_unique srt srt' _ _ Hs Hs' (no_nan_of _ (eq_trans (existsb_perm _ _ _ Ht) En)) Ht). done.
Qed.

(** ** The curve of rationals *)
Definition fin2 (p : Qc * Qc) : @num exact * @num exact := (Fin p.1, Fin p.2).
Definition big100 : Qc := Q2Qc (inject_Z (10 ^ 100)).
Definition qcell (mx : Qc) (x : Qc * Qc * Qc) : Qc * Qc :=
  let '(a, b, v) := x in if Qc_ltb mx v then (big100, 0%Qc) else ((a + b)%Qc, v).
Definition qcells (itof ptof pv : list Qc) (f : Qc) : list (Qc * Qc) :=
  qcell (f * qsum pv)%Qc <$> zip (zip itof ptof) pv.

#[global] Instance fin2_inj : Inj (=) (=) fin2.
Proof. intros [] [] [= -> ->]. done. Qed.

Lemma time_and_pv_fin itof ptof pv mx :
  @time_and_pv exact (fins itof) (fins ptof) (fins pv) (Fin mx) = fin2 <$> (qcell mx <$> zip (zip itof ptof) pv).
Proof.
  unfold time_and_pv, fins. revert ptof pv. induction itof as [|a itof IH]; intros [|b ptof] [|v pv]; try done.
  cbn [zip zip_with fmap list_fmap map]. f_equal; [|apply IH]. unfold qcell, fin2. cbn [nltb exact xltb].
  rewrite exact_n0. by destruct (Qc_ltb mx v).
Qed.

Lemma fin2_no_nan l : Forall no_nan (fin2 <$> l).
Proof. apply Forall_fmap, Forall_true. intros p. split; by apply xnan. Qed.
Lemma fin2_no_nanb l : existsb (fun p : @num exact * @num exact => nisnan (fst p) || nisnan (snd p)) (fin2 <$> l) = false.
Proof.
  destruct (existsb _ _) eqn:E; [|done]. apply existsb_exists in E as (p & Hp & E). apply elem_of_list_In in Hp.
  pose proof (proj1 (Forall_forall _ _) (fin2_no_nan l) p Hp) as [H1 H2]. rewrite H1, H2 in E. done.
Qed.

Lemma lex_lt_fin2 p q : lex_lt (fin2 p) (fin2 q) = false → (q.1 <= p.1)%Qc.
Proof. unfold lex_lt. cbn [fin2 fst snd nltb exact]. intros H. apply orb_false_iff in H as [H _]. by apply xltb_Fin_false in H. Qed.

Lemma fins_snd (l : list (Qc * Qc)) : map snd (fin2 <$> l) = fins (vols l).
Proof. unfold fins, vols. change (map ?f ?x) with (f <$> x). by rewrite <-!list_fmap_compose. Qed.
Lemma fins_rate (l : list (Qc * Qc)) : Forall (λ p, (0 < p.1)%Qc) l →
  map (fun p : @num exact * @num exact => ndiv (snd p) (fst p)) (fin2 <$> l) = fins (rates l).
Proof.
  intros H. unfold fins, rates. change (map ?f ?x) with (f <$> x). rewrite <-!list_fmap_compose.
  apply list_fmap_ext. intros i p Hp. cbn. rewrite Forall_lookup in H. specialize (H i p Hp).
  rewrite (proj2 (Qc_eqb_false p.1 0%Qc)); [done|]. intros E. cbn in H. rewrite E in H. by apply Qclt_not_eq in H.
Qed.

Lemma sort_fin2 srt l : sorting (N:=exact) srt →
  ∃ l', srt (fin2 <$> l) = fin2 <$> l' ∧ l' ≡ₚ l ∧ ∀ i j p q, (i ≤ j)%nat → l' !! i = Some p → l' !! j = Some q → (p.1 <= q.1)%Qc.
Proof.
  intros Hs. destruct (Hs (fin2 <$> l) (fin2_no_nan l)) as [Hp Hsort].
  destruct (Permutation_map_inv fin2 l Hp) as (l' & E & Hl'). exists l'. split; [exact E|]. split; [by symmetry|].
  intros i j p q Hij Hi Hj. destruct (decide (i = j)) as [->|Hne]; [rewrite Hi in Hj; injection Hj as ->; apply Qcle_refl|].
  change (map fin2 l') with (fin2 <$> l') in E. rewrite E in Hsort.
  apply lex_lt_fin2.
  eapply (elem_of_StronglySorted_app (λ a b, lex_lt b a = false) (take j (fin2 <$> l')) (drop j (fin2 <$> l'))).
  - by rewrite take_drop.
  - apply elem_of_list_lookup. exists i. rewrite lookup_take by lia. by rewrite list_lookup_fmap, Hi.
  - apply elem_of_list_lookup. exists 0%nat. rewrite lookup_drop, Nat.add_0_r. by rewrite list_lookup_fmap, Hj.
Qed.

Lemma qcells_lookup itof ptof pv f i p : qcells itof ptof pv f !! i = Some p →
  ∃ a b v, itof !! i = Some a ∧ ptof !! i = Some b ∧ pv !! i = Some v ∧ p = qcell (f * qsum pv) (a, b, v).
Proof.
  unfold qcells. rewrite list_lookup_fmap. intros H.
  apply fmap_Some in H as ([[a b] v] & H & ->). apply lookup_zip_with_Some in H as ([a' b'] & v' & [= -> -> ->] & H & Hv).
  apply lookup_zip_with_Some in H as (? & ? & [= -> ->] & Ha & Hb). eauto 10.
Qed.
Lemma qcells_lookup_of itof ptof pv f i a b v : itof !! i = Some a → ptof !! i = Some b → pv !! i = Some v →
  qcells itof ptof pv f !! i = Some (qcell (f * qsum pv) (a, b, v)).
Proof.
  intros Ha Hb Hv. unfold qcells. rewrite list_lookup_fmap.
  assert (zip (zip itof ptof) pv !! i = Some (a, b, v)) as ->; [|done].
  apply lookup_zip_with_Some. exists (a, b), v. split; [done|]. split; [|done].
  apply lookup_zip_with_Some. eauto.
Qed.
Lemma big100_pos : (0 < big100)%Qc. Proof. done. Qed.

Lemma qcells_ok_time itof ptof pv f : fphi_input itof ptof pv f →
  Forall (λ p, (0 < p.1)%Qc) (qcells itof ptof pv f) ∧ Forall (λ p, (0 <= p.2)%Qc) (qcells itof ptof pv f) ∧
  ∃ p, p ∈ qcells itof ptof pv f ∧ (0 < p.2)%Qc.
Proof.
  intros []. split; [|split].
  - apply Forall_lookup. intros i p Hp. apply qcells_lookup in Hp as (a & b & v & Ha & Hb & Hv & ->). unfold qcell.
    destruct (Qc_ltb _ v) eqn:E; cbn [fst]; [apply big100_pos|]. apply Qc_ltb_false in E. eapply fi_time; eauto.
  - apply Forall_lookup. intros i p Hp. apply qcells_lookup in Hp as (a & b & v & Ha & Hb & Hv & ->). unfold qcell.
    destruct (Qc_ltb _ v) eqn:E; cbn [snd]; [apply Qcle_refl|]. rewrite Forall_lookup in fi_pv. by eapply fi_pv.
  - destruct fi_some as (v & Hv & Hp & Hk). apply elem_of_list_lookup in Hv as [i Hv].
    destruct (lookup_lt_is_Some_2 itof i) as [a Ha]; [apply lookup_lt_Some in Hv; lia|].
    destruct (lookup_lt_is_Some_2 ptof i) as [b Hb]; [apply lookup_lt_Some in Hv; lia|].
    pose proof (qcells_lookup_of itof ptof pv f i a b v Ha Hb Hv) as E. unfold qcell in E.
    rewrite (proj2 (Qc_ltb_false _ _) Hk) in E. exists ((a + b)%Qc, v). split; [by eapply elem_of_list_lookup_2|done].
Qed.

Theorem curve_exact srt itof ptof pv f : sorting (N:=exact) srt → fphi_input itof ptof pv f →
  ∃ l, l ≡ₚ qcells itof ptof pv f ∧ cells_ok l ∧ length l = length pv ∧
    srt (fin2 <$> qcells itof ptof pv f) = fin2 <$> l ∧
    @fphi_curve exact srt (fins itof) (fins ptof) (fins pv) (Fin f) = Ok (fins (qcum (vols l)), fins (qcum (rates l))).
Proof.
  intros Hs Hi. destruct (qcells_ok_time _ _ _ _ Hi) as (H1 & H2 & H3).
  destruct (sort_fin2 srt (qcells itof ptof pv f) Hs) as (l & El & Hp & Hsort). exists l. split; [done|].
  assert (cells_ok l) as Hok.
  { split; [by rewrite Hp|by rewrite Hp|done|]. destruct H3 as (p & Hpe & Hp'). exists p. by rewrite Hp. }
  split; [done|]. destruct Hi. split.
  { rewrite Hp. unfold qcells. rewrite fmap_length, !zip_with_length. lia. }
  split; [done|]. rewrite fphi_unfold by (unfold fins; rewrite ?fmap_length; lia). cbv zeta.
  rewrite (accumulate_Fin pv : accumulate (fins pv) = _). change (@nmul exact (Fin f) (Fin (qsum pv))) with (Fin (f * qsum pv)%Qc).
  rewrite time_and_pv_fin. fold (qcells itof ptof pv f). rewrite fin2_no_nanb, El.
  rewrite fins_snd, fins_rate by apply Hok.
  f_equal. f_equal; apply cumulative_Fin; intros E; [pose proof (vols_pos l Hok) as Hq|pose proof (rates_pos l Hok) as Hq];
    rewrite E in Hq; by apply Qclt_not_eq in Hq.
Qed.

(** Same travel time in all cells that count, in terms of the input. *)
Lemma same_time_input itof ptof pv f l : length itof = length pv → length ptof = length pv →
  Forall (λ v, (0 <= v)%Qc) pv →
  l ≡ₚ qcells itof ptof pv f →
  same_time l ↔ ∃ t, ∀ i a b v, itof !! i = Some a → ptof !! i = Some b → pv !! i = Some v → (0 < v)%Qc → kept pv f v → (a + b)%Qc = t.
Proof.
  intros E1 E2 Hpv Hp. split.
  - intros Hs. destruct (decide (Exists (λ p : Qc * Qc, Qc_ltb 0 p.2 = true) l)) as [Hex|Hno].
    + apply Exists_exists in Hex as (p & Hpl & Hpp). apply Qc_ltb_true in Hpp. exists p.1.
      intros i a b v Ha Hb Hv Hv0 Hk. apply elem_of_list_lookup in Hpl as [m Hm].
      assert (((a + b)%Qc, v) ∈ l) as Hq.
      { rewrite Hp. eapply elem_of_list_lookup_2. erewrite (qcells_lookup_of itof ptof pv f i a b v) by done.
        unfold qcell. by rewrite (proj2 (Qc_ltb_false _ _) Hk). }
      apply elem_of_list_lookup in Hq as [m' Hm']. symmetry. by apply (Hs m m' p _ Hm Hm').
    + exists 0%Qc. intros i a b v Ha Hb Hv Hv0 Hk. exfalso. apply Hno. apply Exists_exists. exists ((a + b)%Qc, v). split.
      { rewrite Hp. eapply elem_of_list_lookup_2. erewrite (qcells_lookup_of itof ptof pv f i a b v) by done.
        unfold qcell. by rewrite (proj2 (Qc_ltb_false _ _) Hk). }
      by apply Qc_ltb_true.
  - intros [t Ht] m m' p q Hm Hm' Hp0 Hq0.
    assert (∀ p, p ∈ l → (0 < p.2)%Qc → p.1 = t) as Hall.
    { intros r Hr Hr0. rewrite Hp in Hr. apply elem_of_list_lookup in Hr as [i Hi].
      apply qcells_lookup in Hi as (a & b & v & Ha & Hb & Hv & ->). unfold qcell in *.
      destruct (Qc_ltb _ v) eqn:E; cbn [fst snd] in *; [done|]. apply Qc_ltb_false in E. by apply (Ht i a b v). }
    rewrite !Hall; [done|by eapply elem_of_list_lookup_2|done|by eapply elem_of_list_lookup_2|done].
Qed.

(** ** C50 *)
Lemma Qc_leb_true a b : Qc_leb a b = true ↔ (a <= b)%Qc.
Proof. unfold Qc_leb. rewrite negb_true_iff. apply Qc_ltb_false. Qed.

Lemma qcells_split mx (z : list (Qc * Qc * Qc)) :
  qcell mx <$> z ≡ₚ ((λ x, ((x.1.1 + x.1.2)%Qc, x.2)) <$> filter (λ x, Qc_leb x.2 mx = true) z)
    ++ replicate (length (filter (λ x, Qc_leb x.2 mx = false) z)) (big100, 0%Qc).
Proof.
  induction z as [|[[a b] v] z IH]; [done|]. rewrite fmap_cons, !filter_cons. cbn [snd]. unfold qcell at 1.
  destruct (Qc_leb v mx) eqn:E.
  - assert (Qc_ltb mx v = false) as -> by (by apply negb_true_iff).
    rewrite decide_True, decide_False by done. rewrite fmap_cons. cbn [app fst snd]. by rewrite IH.
  - assert (Qc_ltb mx v = true) as -> by (by apply negb_false_iff).
    rewrite decide_False, decide_True by done. cbn [length replicate]. rewrite <-Permutation_middle. by rewrite IH.
Qed.

Lemma qsum_zeros k : qsum (replicate k 0%Qc) = 0%Qc.
Proof. induction k as [|k IH]; [done|]. cbn. unfold qsum in IH. rewrite IH. qclra. Qed.
Lemma qcum_zeros l k : qsum l ≠ 0%Qc → qcum (l ++ replicate k 0%Qc) = qcum l ++ replicate k 1%Qc.
Proof.
  intros Hl. assert (qsum (l ++ replicate k 0%Qc) = qsum l) as Es by (rewrite qsum_app, qsum_zeros; qclra).
  eapply list_eq_same_length; [done|rewrite qcum_length, !app_length, !replicate_length, qcum_length; lia|].
  intros i x y Hi Hx Hy. apply qcum_lookup in Hx as [Hi' ->]. rewrite Es.
  destruct (decide (i ≤ length l)%nat) as [Hle|Hgt].
  - rewrite lookup_app_l in Hy by (rewrite qcum_length; lia). apply qcum_lookup in Hy as [_ ->]. by rewrite take_app_le by lia.
  - rewrite lookup_app_r in Hy by (rewrite qcum_length; lia). apply lookup_replicate in Hy as [-> _].
    rewrite take_app_ge by lia. rewrite take_replicate, qsum_app, qsum_zeros. rewrite Qcplus_0_r. by apply Qcmult_inv_r.
Qed.

Lemma survivors_eq itof ptof pv f : survivors itof ptof pv f = filter (λ x, Qc_leb x.2 (f * qsum pv)%Qc = true) (zip (zip itof ptof) pv).
Proof. unfold survivors. apply list_filter_iff. intros x. unfold kept. by rewrite Qc_leb_true. Qed.

Lemma qsum_ge l x : Forall (λ x, (0 <= x)%Qc) l → x ∈ l → (x <= qsum l)%Qc.
Proof.
  intros Hl Hx. apply elem_of_list_split in Hx as (l1 & l2 & ->). rewrite qsum_app.
  apply Forall_app in Hl as [H1 H2]. apply Forall_cons in H2 as [_ H2].
  apply qsum_nonneg in H1, H2. cbn. fold (qsum l2). qclra.
Qed.

Lemma zip_unzip3 {A B C} (z : list (A * B * C)) : zip (zip z.*1.*1 z.*1.*2) z.*2 = z.
Proof. induction z as [|[[a b] c] z IH]; cbn; [done|]. by f_equal. Qed.

Lemma survivors_input itof ptof pv f : fphi_input itof ptof pv f →
  let z := survivors itof ptof pv f in fphi_input z.*1.*1 z.*1.*2 z.*2 1%Qc.
Proof.
  intros [E1 E2 Hn Hpv Ht Hs] z.
  assert (∀ a b v, (a, b, v) ∈ z → ∃ i, itof !! i = Some a ∧ ptof !! i = Some b ∧ pv !! i = Some v ∧ kept pv f v) as Hz.
  { intros a b v Hz. apply elem_of_list_filter in Hz as [Hk Hz]. apply elem_of_list_lookup in Hz as [i Hz]. exists i.
    apply lookup_zip_with_Some in Hz as ([a' b'] & v' & [= -> -> ->] & H & Hv).
    apply lookup_zip_with_Some in H as (? & ? & [= -> ->] & Ha & Hb). done. }
  assert (Forall (λ v, (0 <= v)%Qc) z.*2) as Hpos.
  { apply Forall_fmap, Forall_forall. intros [[a b] v] Hx. destruct (Hz a b v Hx) as (i & _ & _ & Hv & _). rewrite Forall_lookup in Hpv. by eapply Hpv. }
  split.
  - by rewrite !fmap_length.
  - by rewrite !fmap_length.
  - rewrite fmap_length. assert (length z ≤ length pv)%nat; [|lia]. etransitivity; [apply filter_length|]. rewrite !zip_with_length. lia.
  - done.
  - intros i a b v Ha Hb Hv _. rewrite !list_lookup_fmap in Ha. rewrite !list_lookup_fmap in Hb. rewrite list_lookup_fmap in Hv. destruct (z !! i) as [[[a' b'] v']|] eqn:E; [|done].
    cbn in Ha, Hb, Hv. injection Ha as ->. injection Hb as ->. injection Hv as ->.
    destruct (Hz a b v) as (k & Ha & Hb & Hv & Hk); [by eapply elem_of_list_lookup_2|]. by eapply Ht.
  - destruct Hs as (v & Hv & Hp & Hk). exists v. apply elem_of_list_lookup in Hv as [i Hv].
    destruct (lookup_lt_is_Some_2 itof i) as [a Ha]; [apply lookup_lt_Some in Hv; lia|].
    destruct (lookup_lt_is_Some_2 ptof i) as [b Hb]; [apply lookup_lt_Some in Hv; lia|].
    assert (v ∈ z.*2) as Hvz.
    { apply elem_of_list_fmap. exists (a, b, v). split; [done|]. apply elem_of_list_filter. split; [done|].
      apply elem_of_list_lookup. exists i. apply lookup_zip_with_Some. exists (a, b), v. split; [done|]. split; [|done].
      apply lookup_zip_with_Some. eauto. }
    split; [done|]. split; [done|]. unfold kept. rewrite Qcmult_1_l. by apply qsum_ge.
Qed.

Lemma sorted_app_replicate {A} (R : A → A → Prop) l k x : StronglySorted R l → Forall (λ y, R y x) l → R x x →
  StronglySorted R (l ++ replicate k x).
Proof.
  intros Hl Hf Hx. induction Hl as [|y l Hl IH Hy]; cbn.
  - induction k as [|k IHk]; cbn; constructor; [done|]. by apply Forall_replicate.
  - apply Forall_cons in Hf as [H1 H2]. constructor; [by apply IH|]. apply Forall_app. split; [done|]. by apply Forall_replicate.
Qed.

Theorem curve_cutoff srt itof ptof pv f : sorting (N:=exact) srt → fphi_input itof ptof pv f →
  (∀ i a b v, itof !! i = Some a → ptof !! i = Some b → pv !! i = Some v → kept pv f v → (a + b < big100)%Qc) →
  let z := survivors itof ptof pv f in let m := (length pv - length z)%nat in
  ∃ Phi F, @fphi_curve exact srt (fins z.*1.*1) (fins z.*1.*2) (fins z.*2) (Fin 1) = Ok (fins Phi, fins F) ∧
    @fphi_curve exact srt (fins itof) (fins ptof) (fins pv) (Fin f) =
      Ok (fins (Phi ++ replicate m 1%Qc), fins (F ++ replicate m 1%Qc)).
Proof.
  intros Hs Hi Hbig z m. pose proof (survivors_input _ _ _ _ Hi) as Hz. cbv zeta in Hz. fold z in Hz.
  destruct (curve_exact srt _ _ _ _ Hs Hi) as (l & Pl & Ol & Ll & Sl & ->).
  destruct (curve_exact srt _ _ _ _ Hs Hz) as (k & Pk & Ok_ & Lk & Sk & ->).
  exists (qcum (vols k)), (qcum (rates k)). split; [done|].
  assert (qcells z.*1.*1 z.*1.*2 z.*2 1 = (λ x, ((x.1.1 + x.1.2)%Qc, x.2)) <$> z) as Ez.
  { unfold qcells. rewrite zip_unzip3. apply list_fmap_ext. intros i [[a b] v] Hv. unfold qcell. rewrite (proj2 (Qc_ltb_false _ _)); [done|].
    rewrite Qcmult_1_l. apply qsum_ge; [apply Hz|]. apply elem_of_list_fmap. exists (a, b, v). split; [done|]. by eapply elem_of_list_lookup_2. }
  assert (l = k ++ replicate m (big100, 0%Qc)) as ->.
  { apply (inj (fmap fin2 : list _ → list _)). rewrite fmap_app, fmap_replicate. rewrite <-Sl, <-Sk.
    destruct (Hs _ (fin2_no_nan (qcells itof ptof pv f))) as [P1 S1].
    destruct (Hs _ (fin2_no_nan (qcells z.*1.*1 z.*1.*2 z.*2 1))) as [P2 S2].
    eapply (sorted_unique (λ a b, lex_lt b a = false)); [done| | |].
    - apply sorted_app_replicate; [done| |].
      + rewrite P2. apply Forall_fmap, Forall_forall. rewrite Ez. intros p Hp. apply elem_of_list_fmap in Hp as ([[a b] v] & -> & Hp).
        apply elem_of_list_filter in Hp as [Hk Hp]. apply elem_of_list_lookup in Hp as [i Hp].
        apply lookup_zip_with_Some in Hp as ([a' b'] & v' & [= -> -> ->] & H & Hv).
        apply lookup_zip_with_Some in H as (? & ? & [= -> ->] & Ha & Hb).
        pose proof (Hbig i _ _ _ Ha Hb Hv Hk) as Hlt. cbn [fst snd]. unfold lex_lt. cbn [compose fin2 fst snd nltb exact].
        rewrite (proj2 (xltb_Fin _ _) Hlt). rewrite (proj2 (xltb_Fin_false _ _)); [done|]. by apply Qclt_le_weak.
      + unfold lex_lt. cbn [fin2 fst snd nltb exact]. by rewrite !(proj2 (xltb_Fin_false _ _) (Qcle_refl _)).
    - rewrite P1, P2, Ez. rewrite <-(fmap_replicate fin2), <-fmap_app. apply fmap_Permutation.
      unfold qcells. rewrite qcells_split. rewrite <-survivors_eq. fold z. apply Permutation_app_head. apply reflexive_eq. f_equal.
      unfold m. pose proof (Permutation_length (qcells_split (f * qsum pv)%Qc (zip (zip itof ptof) pv))) as El.
      rewrite app_length, <-survivors_eq, !fmap_length, replicate_length in El. fold z in El. destruct Hi. rewrite !zip_with_length in El. lia.
    - intros x y Hx Hy. rewrite P1 in Hx, Hy. pose proof (proj1 (Forall_forall _ _) (fin2_no_nan (qcells itof ptof pv f))) as Hn.
      intros H1 H2. apply lex_antisym; auto. }
  unfold vols, rates. rewrite !fmap_app, !fmap_replicate. cbn [fst snd].
  fold (vols k). fold (rates k). replace (0 / big100)%Qc with 0%Qc by (unfold Qcdiv; by rewrite Qcmult_0_l).
  rewrite !qcum_zeros; [done|..]; intros E; [pose proof (rates_pos k Ok_) as Hq|pose proof (vols_pos k Ok_) as Hq]; rewrite E in Hq; by apply Qclt_not_eq in Hq.
Qed.

(** *** Without a bound on the travel times *)
Lemma qcum_mid l1 l2 k :
  qcum (l1 ++ replicate k 0%Qc ++ l2) = stutter (length l1) k (qcum (l1 ++ l2)).
Proof.
  assert (qsum (l1 ++ replicate k 0%Qc ++ l2) = qsum (l1 ++ l2)) as Es.
  { rewrite !qsum_app, qsum_zeros. qclra. }
  unfold stutter. eapply list_eq_same_length; [done| |].
  { rewrite !app_length, take_length, drop_length, !replicate_length, !qcum_length, !app_length, !replicate_length. lia. }
  intros i x y Hi Hx Hy. apply qcum_lookup in Hx as [Hi' ->]. rewrite Es.
  rewrite !app_length, replicate_length in Hi'.
  destruct (decide (i ≤ length l1)%nat) as [Hle|Hgt].
  { rewrite lookup_app_l in Hy by (rewrite take_length, qcum_length, app_length; lia).
    rewrite lookup_take in Hy by lia. apply qcum_lookup in Hy as [_ ->]. by rewrite !take_app_le by lia. }
  rewrite lookup_app_r in Hy by (rewrite take_length, qcum_length, app_length; lia).
  rewrite take_length, qcum_length, app_length in Hy.
  replace (S (length l1) `min` S (length l1 + length l2))%nat with (S (length l1)) in Hy by lia.
  destruct (decide (i ≤ length l1 + k)%nat) as [Hle|Hgt'].
  - rewrite lookup_app_l in Hy by (rewrite replicate_length; lia). apply lookup_replicate in Hy as [-> _].
    assert (qcum (l1 ++ l2) !! length l1 = Some (qsum (take (length l1) (l1 ++ l2)) / qsum (l1 ++ l2))%Qc) as E.
    { destruct (lookup_lt_is_Some_2 (qcum (l1 ++ l2)) (length l1)) as [w Hw];
        [rewrite qcum_length, app_length; lia|]. rewrite Hw. by apply qcum_lookup in Hw as [_ ->]. }
    rewrite (nth_lookup_Some _ _ _ _ E). f_equal.
    rewrite (take_app_ge l1) by lia. rewrite take_app_le by (rewrite replicate_length; lia).
    rewrite take_replicate, qsum_app, qsum_zeros, take_app. qclra.
  - rewrite lookup_app_r in Hy by (rewrite replicate_length; lia). rewrite replicate_length in Hy.
    rewrite lookup_drop in Hy. apply qcum_lookup in Hy as [Hy' ->]. f_equal.
    replace (S (length l1) + (i - S (length l1) - k))%nat with (length l1 + (i - length l1 - k))%nat by lia.
    rewrite take_add_app by done.
    replace i with (length l1 + (length (replicate k 0%Qc) + (i - length l1 - k)))%nat at 1
      by (rewrite replicate_length; lia).
    rewrite take_add_app by done. rewrite take_add_app by done. rewrite !qsum_app, qsum_zeros. qclra.
Qed.

Lemma sorted_partition {A} (R : A → A → Prop) (P : A → Prop) `{∀ x, Decision (P x)} l :
  StronglySorted R l → (∀ x y, x ∈ l → y ∈ l → R x y → P y → P x) →
  l = filter P l ++ filter (λ x, ¬ P x) l.
Proof.
  induction 1 as [|x l Hl IH Hx]; intros HP; [done|]. rewrite !filter_cons.
  destruct (decide (P x)) as [Hp|Hp].
  - rewrite (decide_False (P := ¬ P x)) by tauto. cbn [app]. f_equal. apply IH. intros u w Hu Hw. apply HP; by right.
  - rewrite (decide_True (P := ¬ P x)) by done.
    assert (filter P l = []) as E.
    { apply filter_none. apply Forall_forall. intros y Hy Py. apply Hp. rewrite Forall_forall in Hx.
      apply (HP x y); [left|by right|by apply Hx|done]. }
    rewrite E. cbn [app]. f_equal. rewrite E in IH. apply IH. intros u w Hu Hw. apply HP; by right.
Qed.

Lemma sorted_insert_mid {A} (R : A → A → Prop) l1 l2 k x : StronglySorted R (l1 ++ l2) →
  Forall (λ y, R y x) l1 → Forall (λ y, R x y) l2 → R x x →
  StronglySorted R (l1 ++ replicate k x ++ l2).
Proof.
  intros Hs H1 H2 Hx. induction l1 as [|y l1 IH].
  - cbn in *. induction k as [|k IHk]; [done|]. cbn. constructor; [done|]. apply Forall_app.
    split; [by apply Forall_replicate|done].
  - cbn in *. apply StronglySorted_inv in Hs as [Hs Hy]. apply Forall_cons in H1 as [Hyx H1].
    constructor; [by apply IH|]. apply Forall_app in Hy as [Hy1 Hy2].
    rewrite !Forall_app. split_and!; [done|by apply Forall_replicate|done].
Qed.

Lemma filter_fmap_length {A B} (g : A → B) (P : B → Prop) `{∀ x, Decision (P x)} l :
  length (filter P (g <$> l)) = length (filter (λ x, P (g x)) l).
Proof. induction l as [|x l IH]; [done|]. rewrite fmap_cons, !filter_cons. case_decide; cbn; by rewrite IH. Qed.

Theorem curve_cutoff_exactly srt itof ptof pv f : sorting (N:=exact) srt → fphi_input itof ptof pv f →
  let z := survivors itof ptof pv f in let m := (length pv - length z)%nat in
  let e := length (filter (λ x : Qc * Qc * Qc, (x.1.1 + x.1.2 < big100)%Qc) z) in
  ∃ Phi F, @fphi_curve exact srt (fins z.*1.*1) (fins z.*1.*2) (fins z.*2) (Fin 1) = Ok (fins Phi, fins F) ∧
    @fphi_curve exact srt (fins itof) (fins ptof) (fins pv) (Fin f) =
      Ok (fins (stutter e m Phi), fins (stutter e m F)).
Proof.
  intros Hs Hi z m e. pose proof (survivors_input _ _ _ _ Hi) as Hz. cbv zeta in Hz. fold z in Hz.
  destruct (curve_exact srt _ _ _ _ Hs Hi) as (l & Pl & Ol & Ll & Sl & ->).
  destruct (curve_exact srt _ _ _ _ Hs Hz) as (k & Pk & Ok_ & Lk & Sk & ->).
  exists (qcum (vols k)), (qcum (rates k)). split; [done|].
  assert (Hnn : ∀ p, p ∈ z → (0 <= p.2)%Qc).
  { intros p Hp. pose proof (fi_pv _ _ _ _ Hz) as HF. rewrite Forall_forall in HF. apply HF.
    apply elem_of_list_fmap. eauto. }
  assert (qcells z.*1.*1 z.*1.*2 z.*2 1 = (λ x, ((x.1.1 + x.1.2)%Qc, x.2)) <$> z) as Ez.
  { unfold qcells. rewrite zip_unzip3. apply list_fmap_ext. intros i [[a b] v] Hv. unfold qcell. rewrite (proj2 (Qc_ltb_false _ _)); [done|].
    rewrite Qcmult_1_l. apply qsum_ge; [apply Hz|]. apply elem_of_list_fmap. exists (a, b, v). split; [done|]. by eapply elem_of_list_lookup_2. }
  set (P := λ p : Qc * Qc, (p.1 < big100)%Qc).
  set (k1 := filter P k). set (k2 := filter (λ p, ¬ P p) k).
  assert (Hks : StronglySorted (λ a b, lex_lt (fin2 b) (fin2 a) = false) k).
  { destruct (Hs _ (fin2_no_nan (qcells z.*1.*1 z.*1.*2 z.*2 1))) as [_ S2]. rewrite Sk in S2.
    clear -S2. remember (fin2 <$> k) as k' eqn:Ek. revert k Ek.
    induction S2 as [|x k' S2 IH Hx]; intros [|y k] Ek; try done; [constructor|].
    cbn in Ek. injection Ek as -> ->. constructor; [by apply IH|]. by rewrite Forall_fmap in Hx. }
  assert (Hkp : k = k1 ++ k2).
  { apply (sorted_partition _ P _ Hks). intros x y _ _ Hxy Hy. unfold P in *. unfold lex_lt in Hxy.
    apply orb_false_iff in Hxy as [Hxy _]. cbn [fin2 fst nltb exact] in Hxy. apply xltb_Fin_false in Hxy. qclra. }
  assert (He : length k1 = e).
  { unfold k1. rewrite Pk, Ez. unfold e. by rewrite filter_fmap_length. }
  assert (∀ q, q ∈ k → (0 <= q.2)%Qc) as Hk0.
  { intros q Hq. rewrite Pk, Ez in Hq. apply elem_of_list_fmap in Hq as (p & -> & Hp). by apply Hnn. }
  assert (l = k1 ++ replicate m (big100, 0%Qc) ++ k2) as ->.
  { apply (inj (fmap fin2 : list _ → list _)).
    destruct (Hs _ (fin2_no_nan (qcells itof ptof pv f))) as [P1 S1]. rewrite Sl in P1, S1.
    eapply (sorted_unique (λ a b, lex_lt b a = false)); [done| | |].
    - rewrite !fmap_app, fmap_replicate. apply sorted_insert_mid.
      + rewrite <-fmap_app, <-Hkp, <-Sk. apply Hs. apply fin2_no_nan.
      + apply Forall_fmap, Forall_forall. intros p [Hp _]%elem_of_list_filter. cbn. unfold lex_lt.
        cbn [fin2 fst snd nltb exact]. unfold P in Hp.
        rewrite (proj2 (xltb_Fin _ _) Hp). rewrite (proj2 (xltb_Fin_false _ _)); [done|]. by apply Qclt_le_weak.
      + apply Forall_fmap, Forall_forall. intros p [Hp Hpk]%elem_of_list_filter. cbn. unfold lex_lt.
        cbn [fin2 fst snd nltb exact]. unfold P in Hp. apply Qcnot_lt_le in Hp.
        rewrite (proj2 (xltb_Fin_false _ _) Hp). cbn [orb]. rewrite (proj2 (xltb_Fin_false p.2 0) (Hk0 p Hpk)).
        by rewrite andb_false_r.
      + unfold lex_lt. cbn [fin2 fst snd nltb exact]. by rewrite !(proj2 (xltb_Fin_false _ _) (Qcle_refl _)).
    - rewrite P1. apply fmap_Permutation.
      rewrite (Permutation_app_comm (replicate m _)), app_assoc, <-Hkp, Pk, Ez.
      unfold qcells. rewrite qcells_split. rewrite <-survivors_eq. fold z. apply Permutation_app_head. apply reflexive_eq. f_equal.
      unfold m. pose proof (Permutation_length (qcells_split (f * qsum pv)%Qc (zip (zip itof ptof) pv))) as El.
      rewrite app_length, <-survivors_eq, !fmap_length, replicate_length in El. fold z in El. destruct Hi. rewrite !zip_with_length in El. lia.
    - intros x y Hx Hy. rewrite P1 in Hx, Hy. pose proof (proj1 (Forall_forall _ _) (fin2_no_nan (qcells itof ptof pv f))) as Hn.
      intros H1 H2. apply lex_antisym; auto. }
  unfold vols, rates. rewrite Hkp, !fmap_app, !fmap_replicate. cbn [fst snd].
  replace (0 / big100)%Qc with 0%Qc by (unfold Qcdiv; by rewrite Qcmult_0_l).
  rewrite !qcum_mid, !fmap_length, He. done.
Qed.
