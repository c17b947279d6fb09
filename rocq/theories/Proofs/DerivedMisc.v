(** Size checks, pair volumes and pair fluxes; insertion sort is a sort. *)
From Coq Require Import QArith Qcanon.
From Coq.Floats Require Import SpecFloat.
From Verif.Model Require Import Num DerivedQuantities.
From Verif.Spec Require Import DerivedSpec PairSpec.
From Verif.Proofs Require Import Util ExactNum OMapFacts QcLra OrdLaws DerivedExact DerivedLorenz.
Open Scope Z_scope.

(** ** Size checks *)
Lemma foldM_not_throw {A S} (body : S → A → res S) l s e :
  (∀ s i, body s i ≠ Throw e) → foldM body s l ≠ Throw e.
Proof.
  intros Hb. revert s. induction l as [|x l IH]; intros s; cbn; [done|].
  pose proof (Hb s x). destruct (body s x); cbn; first [apply IH | congruence].
Qed.
Lemma forZ_not_throw {S} (body : S → Z → res S) lo hi s e :
  (∀ s i, body s i ≠ Throw e) → forZ lo hi body s ≠ Throw e.
Proof. apply foldM_not_throw. Qed.

Section sizes.
Context {N : Num}.

Lemma zget_not_throw {A} (l : list A) i e : zget l i ≠ Throw e.
Proof. unfold zget. repeat (case_match; try done). Qed.

Lemma fphi_sizes srt itof ptof pv f :
  fphi_curve srt itof ptof pv f = Throw RuntimeError ↔
  (length itof ≠ length pv ∨ length ptof ≠ length pv).
Proof.
  unfold fphi_curve, zlen.
  destruct (Z.eqb_spec (Z.of_nat (length pv)) (Z.of_nat (length itof))) as [E1|E1];
  destruct (Z.eqb_spec (Z.of_nat (length pv)) (Z.of_nat (length ptof))) as [E2|E2]; cbn.
  all: try (split; [intros _; lia | done]).
  split; [|lia]. repeat case_match; done.
Qed.

Lemma lorenz_sizes (g : graph) :
  lorenz_coefficient g = Throw RuntimeError ↔ length g.2 ≠ length g.1.
Proof.
  destruct g as [s f]. unfold lorenz_coefficient, zlen. cbn [fst snd].
  destruct (Z.eqb_spec (Z.of_nat (length f)) (Z.of_nat (length s))) as [E|E]; cbn [negb].
  - split; [|lia]. intros H.
    match type of H with mbind _ ?X = _ => destruct X eqn:E1; cbn in H; try done end.
    injection H as ->. exfalso. revert E1. apply forZ_not_throw. intros acc i.
    pose proof (zget_not_throw s (i + 1) RuntimeError) as Z1.
    pose proof (zget_not_throw s i RuntimeError) as Z2.
    pose proof (zget_not_throw f i RuntimeError) as Z3.
    pose proof (zget_not_throw f (i + 1) RuntimeError) as Z4.
    destruct (zget s (i + 1)); cbn; try done; try congruence.
    destruct (zget s i); cbn; try done; try congruence.
    destruct (zget f i); cbn; try done; try congruence.
    destruct (zget f (i + 1)); cbn; try done; congruence.
  - split; [intros _; lia|done].
Qed.

Lemma sweep_sizes (g : graph) :
  sweep_efficiency g = Throw RuntimeError ↔ length g.2 ≠ length g.1.
Proof.
  destruct g as [s f]. unfold sweep_efficiency, zlen. cbn [fst snd].
  destruct (Z.eqb_spec (Z.of_nat (length f)) (Z.of_nat (length s))) as [E|E]; cbn [negb].
  - split; [|lia]. intros H. exfalso. revert H. destruct (to_int _ <? 0); [done|].
    apply forZ_not_throw. intros [td ev] i. unfold sweep_step.
    pose proof (zget_not_throw s i RuntimeError) as Z1.
    pose proof (zget_not_throw s (i - 1) RuntimeError) as Z2.
    pose proof (zget_not_throw f i RuntimeError) as Z3.
    pose proof (zget_not_throw f (i - 1) RuntimeError) as Z4.
    destruct (zget f i); cbn; try done; try congruence.
    destruct (zget f (i - 1)); cbn; try done; try congruence.
    destruct (zget s i); cbn; try done; try congruence.
    destruct (zget s (i - 1)); cbn; try done; try congruence.
    by case_match.
  - split; [intros _; lia|done].
Qed.
End sizes.

(** ** Insertion sort *)
Section isort.
Context {N : Num}.
(** A strict weak order on the values that are not NaN. *)
Hypothesis asym : ∀ a b : num, nisnan a = false → nisnan b = false → nltb a b = true → nltb b a = false.
Hypothesis negtrans : ∀ a b c : num, nisnan a = false → nisnan b = false → nisnan c = false →
  nltb a b = false → nltb b c = false → nltb a c = false.

Lemma lex_asym a b : no_nan a → no_nan b → lex_lt a b = true → lex_lt b a = false.
Proof.
  intros [A1 A2] [B1 B2]. unfold lex_lt.
  destruct (nltb a.1 b.1) eqn:E1; cbn.
  - intros _. rewrite (asym _ _ A1 B1 E1). done.
  - destruct (nltb b.1 a.1) eqn:E2; cbn; [done|]. intros E3. by apply asym.
Qed.

Lemma lex_negtrans a b c : no_nan a → no_nan b → no_nan c →
  lex_lt a b = false → lex_lt b c = false → lex_lt a c = false.
Proof.
  intros [A1 A2] [B1 B2] [C1 C2]. unfold lex_lt. intros H1 H2.
  apply orb_false_iff in H1 as [H1 H1']. apply orb_false_iff in H2 as [H2 H2'].
  apply orb_false_iff. split; [by apply (negtrans _ b.1)|].
  destruct (nltb c.1 a.1) eqn:E; cbn; [done|].
  assert (nltb b.1 a.1 = false) as E1 by (by apply (negtrans _ c.1)).
  assert (nltb c.1 b.1 = false) as E2 by (by apply (negtrans _ a.1)).
  rewrite E1 in H1'. rewrite E2 in H2'. cbn in *. by apply (negtrans _ b.2).
Qed.

Lemma insert_pair_spec x l : no_nan x → Forall no_nan l →
  StronglySorted (λ a b, lex_lt b a = false) l →
  insert_pair x l ≡ₚ x :: l ∧ StronglySorted (λ a b, lex_lt b a = false) (insert_pair x l).
Proof.
  intros Hx. induction l as [|y l IH]; cbn; intros Hl Hs.
  { split; [done|]. repeat constructor. }
  apply Forall_cons in Hl as [Hy Hl]. apply StronglySorted_inv in Hs as [Hs Hys].
  destruct (IH Hl Hs) as [P S]. change (pair_ltb y x) with (lex_lt y x).
  destruct (lex_lt y x) eqn:E.
  - split; [rewrite P; apply perm_swap|]. constructor; [done|].
    rewrite P. constructor; [|done]. by apply lex_asym.
  - split; [done|]. constructor; [by constructor|]. constructor; [done|].
    rewrite Forall_forall in Hys, Hl. apply Forall_forall. intros z Hz.
    apply (lex_negtrans _ y); auto.
Qed.

Lemma insertion_sorting : sorting insertion_sort.
Proof.
  intros l. induction l as [|x l IH]; intros Hl; cbn.
  { split; [done|constructor]. }
  apply Forall_cons in Hl as [Hx Hl]. destruct (IH Hl) as [P S]. unfold insertion_sort in *.
  destruct (insert_pair_spec x (foldr insert_pair [] l)) as [P' S']; auto.
  { by rewrite P. }
  split; [by rewrite P', P|done].
Qed.
End isort.

Lemma exact_insertion : @sorting exact (@insertion_sort exact).
Proof.
  apply insertion_sorting.
  - intros [] []; cbn; try done. intros _ _. rewrite Qc_ltb_true, Qc_ltb_false. qclra.
  - intros [] [] []; cbn; try done. intros _ _ _. rewrite !Qc_ltb_false. qclra.
Qed.

(** Binary64: order of a value as a triple of integers. *)
Definition sf_key (x : spec_float) : Z * Z * Z :=
  match x with
  | S754_infinity false => (2, 0, 0)
  | S754_infinity true => (-2, 0, 0)
  | S754_finite false m e => (1, e, Z.pos m)
  | S754_finite true m e => (-1, - e, Z.neg m)
  | _ => (0, 0, 0)
  end.
Definition key_lt (a b : Z * Z * Z) : Prop :=
  a.1.1 < b.1.1 ∨ a.1.1 = b.1.1 ∧ (a.1.2 < b.1.2 ∨ a.1.2 = b.1.2 ∧ a.2 < b.2).

Lemma sf_key_lt x y : x ≠ S754_nan → y ≠ S754_nan →
  SFltb x y = true ↔ key_lt (sf_key x) (sf_key y).
Proof.
  intros Hx Hy. unfold SFltb, SFcompare, key_lt.
  destruct x as [[]|[]| |[] m e]; try done; destruct y as [[]|[]| |[] m' e']; try done; cbn.
  all: try (split; [done|lia]); try (split; [lia|done]).
  - destruct (Z.compare_spec e e') as [->|H|H]; [|split; [done|lia]|split; [lia|done]].
    change (Pos.compare_cont Eq m m') with (Pos.compare m m').
    destruct (Pos.compare_spec m m') as [->|H|H]; cbn; split; try done; lia.
  - destruct (Z.compare_spec e e') as [->|H|H]; [|split; [lia|done]|split; [done|lia]].
    change (Pos.compare_cont Eq m m') with (Pos.compare m m').
    destruct (Pos.compare_spec m m') as [->|H|H]; cbn; split; try done; lia.
Qed.

Lemma sf_not_nan x : @nisnan b64 x = false → x ≠ S754_nan.
Proof. intros H ->. done. Qed.

Lemma sf_ltb_false x y : x ≠ S754_nan → y ≠ S754_nan →
  SFltb x y = false ↔ ¬ key_lt (sf_key x) (sf_key y).
Proof. intros Hx Hy. rewrite <-sf_key_lt by done. by rewrite not_true_iff_false. Qed.

Lemma b64_insertion : @sorting b64 (@insertion_sort b64).
Proof.
  apply insertion_sorting.
  - intros a b Ha%sf_not_nan Hb%sf_not_nan. cbn.
    rewrite sf_key_lt, sf_ltb_false by done. unfold key_lt. lia.
  - intros a b c Ha%sf_not_nan Hb%sf_not_nan Hc%sf_not_nan. cbn.
    rewrite !sf_ltb_false by done. unfold key_lt. lia.
Qed.

(** ** Pair volumes *)
Lemma stores_wf m f : stores m f → om_wf m.
Proof.
  intros [Hs _]. unfold om_wf. change (map fst m) with (m.*1).
  revert Hs. generalize m.*1. intros l. induction 1 as [|x l Hs IH Hx]; constructor; [done|].
  eapply Forall_impl; [exact Hx|]. intros y Hy. by apply Z.compare_lt_iff.
Qed.

Lemma stores_find m f c : stores m f → om_find c m = Fin <$> f c.
Proof.
  intros H. pose proof (stores_wf _ _ H) as Hwf.
  destruct (f c) as [q|] eqn:E; cbn.
  - apply om_find_elem; [done|]. apply (st_value _ _ H). eauto.
  - apply om_find_none; [done|]. intros ([k x] & -> & Hin)%elem_of_list_fmap. cbn in E.
    apply (st_value _ _ H) in Hin as (q & Hq & _). congruence.
Qed.

Lemma stores_nodup m f : stores m f → NoDup m.*1.
Proof.
  intros [Hs _]. revert Hs. generalize m.*1. intros l.
  induction 1 as [|x l Hs IH Hx]; constructor; [|done].
  rewrite Forall_forall in Hx. intros Hin%Hx. lia.
Qed.

Lemma qsum_cons x l : qsum (x :: l) = (x + qsum l)%Qc.
Proof. done. Qed.

(** Terms outside a predicate vanish. *)
Lemma qsum_filter {A} (P : A → Prop) `{∀ x, Decision (P x)} (g : A → Qc) l :
  (∀ x, x ∈ l → ¬ P x → g x = 0%Qc) → qsum (g <$> filter P l) = qsum (g <$> l).
Proof.
  induction l as [|x l IH]; intros Hz; [done|]. rewrite filter_cons, fmap_cons, qsum_cons.
  rewrite <-IH by (intros; apply Hz; [by right|done]).
  destruct (decide (P x)) as [Hp|Hp]; [done|].
  rewrite (Hz x); [|by left|done]. qclra.
Qed.

Lemma cell_sum_seq pv w :
  cell_sum pv w = qsum ((λ c, (default 0 (pv !! Z.to_nat c) * w c)%Qc) <$> seqZ 0 (zlen pv)).
Proof.
  unfold cell_sum, zlen. induction pv as [|v pv IH] using rev_ind; [done|].
  rewrite app_length. cbn [length]. rewrite Nat2Z.inj_add, seqZ_app by lia.
  rewrite imap_app, fmap_app, !qsum_app. cbn [imap]. 
  replace (Z.of_nat (length pv) + 0) with (Z.of_nat (length pv)) by lia.
  replace (0 + Z.of_nat (length pv)) with (Z.of_nat (length pv)) by lia.
  change (Z.of_nat 1) with 1.
  f_equal.
  - rewrite IH. f_equal. apply list_fmap_ext. intros i c Hc. apply lookup_seqZ in Hc as [-> Hc].
    rewrite lookup_app_l by lia. done.
  - rewrite (seqZ_cons _ 1) by lia. change (Z.pred 1) with 0. cbn.
    rewrite Nat.add_0_r, Nat2Z.id, list_lookup_middle by done. done.
Qed.

Section volume.
Variables (mi mp : list (Z * @num exact)) (f g : Z → option Qc) (pv : list Qc).
Hypothesis Hi : stores mi f.
Hypothesis Hp : stores mp g.

Definition vol_step (volume : @num exact) (kv : Z * @num exact) : res (@num exact) :=
  match om_find (fst kv) mp with
  | Some p => x ← zget (fins pv) (fst kv); Ok (nadd volume (nmul (nmul x (snd kv)) p))
  | None => Ok volume
  end.

Definition vterm (c : Z) : Qc := (default 0 (pv !! Z.to_nat c) * (at_cell f c * at_cell g c))%Qc.

Lemma vol_step_value acc c q : f c = Some q → (is_Some (g c) → 0 <= c < zlen pv) →
  vol_step (Fin acc) (c, Fin q) = Ok (Fin (acc + vterm c)%Qc).
Proof.
  intros Hq Hc. unfold vol_step. cbn [fst snd]. rewrite (stores_find _ _ _ Hp).
  unfold vterm, at_cell. rewrite Hq.
  destruct (g c) as [p|] eqn:Eg; cbn [fmap option_fmap option_map].
  - assert (0 <= c < zlen pv) as Hc' by (apply Hc; by eexists).
    destruct (lookup_lt_is_Some_2 pv (Z.to_nat c)) as [v Hv]; [unfold zlen in Hc'; lia|].
    assert (zget (fins pv) c = Ok (Fin v)) as ->.
    { apply zget_of; [lia|]. unfold fins. by rewrite list_lookup_fmap, Hv. }
    rewrite Hv. cbn. f_equal. f_equal. ring.
  - cbn. f_equal. f_equal. ring.
Qed.

Lemma vol_fold l acc : (∀ c x, (c, x) ∈ l → ∃ q, f c = Some q ∧ x = Fin q) →
  (∀ c, c ∈ l.*1 → is_Some (g c) → 0 <= c < zlen pv) →
  foldM vol_step (Fin acc) l = Ok (Fin (acc + qsum (vterm <$> l.*1))%Qc).
Proof.
  revert acc. induction l as [|[c x] l IH]; intros acc Hl Hr.
  { cbn. f_equal. f_equal. ring. }
  rewrite !fmap_cons, qsum_cons. cbn [foldM fst].
  destruct (Hl c x) as (q & Hq & ->); [by left|].
  rewrite (vol_step_value _ _ _ Hq) by (apply Hr; by left). cbn [mbind res_bind].
  rewrite IH; [f_equal; f_equal; ring| |].
  - intros; apply Hl; by right.
  - intros; apply Hr; [by right|done].
Qed.

Lemma vol_value : (∀ c, is_Some (f c) → is_Some (g c) → 0 <= c < zlen pv) →
  foldM vol_step (@n0 exact) mi = Ok (Fin (cell_sum pv (λ c, (at_cell f c * at_cell g c)%Qc))).
Proof.
  intros Hr. rewrite exact_n0, vol_fold.
  2: { intros c x Hin. by apply (st_value _ _ Hi). }
  2: { intros c ([k x] & -> & Hin)%elem_of_list_fmap Hg. cbn in *.
       apply (st_value _ _ Hi) in Hin as (q & Hq & _). apply Hr; [by rewrite Hq|done]. }
  f_equal. f_equal. rewrite Qcplus_0_l, cell_sum_seq. fold vterm.
  pose (P := λ c, is_Some (f c) ∧ is_Some (g c)).
  assert (∀ c, ¬ P c → vterm c = 0%Qc) as Hz.
  { intros c Hn. unfold vterm, at_cell. destruct (f c) eqn:E1, (g c) eqn:E2; cbn; try ring.
    exfalso. apply Hn. split; eauto. }
  rewrite <-(qsum_filter P vterm mi.*1), <-(qsum_filter P vterm (seqZ 0 (zlen pv))) by auto.
  apply qsum_perm, fmap_Permutation, NoDup_Permutation.
  - apply NoDup_filter. by eapply stores_nodup.
  - apply NoDup_filter, NoDup_seqZ.
  - intros c. rewrite !elem_of_list_filter, elem_of_seqZ. split.
    + intros [[P1 P2] _]. split; [done|]. specialize (Hr c P1 P2). lia.
    + intros [[[q P1] P2] _]. split; [split; eauto|].
      apply elem_of_list_fmap. exists (c, Fin q). split; [done|]. apply (st_value _ _ Hi). eauto.
Qed.

(** A cell of both fields outside the pore-volume array is an invalid access. *)
Lemma vol_ub c : is_Some (f c) → is_Some (g c) → ¬ (0 <= c < zlen pv) →
  foldM vol_step (@n0 exact) mi = UB.
Proof.
  intros [q Hq] [p Hgp] Hc. rewrite exact_n0.
  assert ((c, Fin q) ∈ mi) as Hin by (apply (st_value _ _ Hi); eauto).
  assert (∀ k x, (k, x) ∈ mi → ∃ q, f k = Some q ∧ x = Fin q) as Hl
    by (intros; by apply (st_value _ _ Hi)).
  assert (∀ acc k y, f k = Some y → is_Some (g k) → ¬ (0 <= k < zlen pv) →
    vol_step (Fin acc) (k, Fin y) = UB) as Hub.
  { intros acc k y _ [z Hz] Hk. unfold vol_step. cbn [fst snd]. rewrite (stores_find _ _ _ Hp), Hz.
    cbn [fmap option_fmap option_map]. unfold zget.
    destruct (Z.ltb_spec k 0) as [H0|H0]; [done|].
    assert (fins pv !! Z.to_nat k = None) as -> by
      (apply lookup_ge_None_2; unfold fins; rewrite fmap_length; unfold zlen in Hk; lia).
    done. }
  revert Hin Hl. clear Hi. generalize 0%Qc. induction mi as [|[k x] l IH]; intros acc Hin Hl.
  { by apply elem_of_nil in Hin. }
  cbn [foldM]. destruct (Hl k x) as (y & Hy & ->); [by left|].
  destruct (decide (is_Some (g k) ∧ ¬ (0 <= k < zlen pv))) as [[H1 H2]|Hn].
  - rewrite (Hub _ _ _ Hy H1 H2). done.
  - rewrite (vol_step_value _ _ _ Hy) by (intros; destruct (decide (0 <= k < zlen pv)); [lia|naive_solver]).
    cbn [mbind res_bind]. apply IH; [|intros; apply Hl; by right].
    apply elem_of_cons in Hin as [[= -> _]|Hin]; [|done].
    exfalso. apply Hn. eauto.
Qed.
End volume.

Lemma cell_sum_range pv w : Forall (λ v, (0 <= v)%Qc) pv → (∀ c, (0 <= w c)%Qc ∧ (w c <= 1)%Qc) →
  (0 <= cell_sum pv w)%Qc ∧ (cell_sum pv w <= qsum pv)%Qc.
Proof.
  intros Hpv Hw. unfold cell_sum. revert w Hw.
  induction Hpv as [|v pv Hv _ IH]; intros w Hw; [split; apply Qcle_refl|].
  cbn [imap]. rewrite !qsum_cons.
  destruct (IH (λ c, w (c + 1))) as [I1 I2]; [auto|].
  assert (imap (λ c v, (v * w (Z.of_nat (S c)))%Qc) pv =
          imap (λ c v, (v * w (Z.of_nat c + 1)%Z)%Qc) pv) as E.
  { apply imap_ext. intros i x _. do 2 f_equal. lia. }
  unfold compose. rewrite E. destruct (Hw (Z.of_nat 0)) as [W1 W2].
  split; qcnra.
Qed.

Lemma cell_sum_add pv w1 w2 : cell_sum pv (λ c, (w1 c + w2 c)%Qc) = (cell_sum pv w1 + cell_sum pv w2)%Qc.
Proof.
  rewrite !cell_sum_seq. induction (seqZ 0 (zlen pv)) as [|c l IH]; [done|].
  rewrite !fmap_cons, !qsum_cons, IH. ring.
Qed.

Lemma cell_sum_0 pv : cell_sum pv (λ _, 0%Qc) = 0%Qc.
Proof.
  rewrite !cell_sum_seq. induction (seqZ 0 (zlen pv)) as [|c l IH]; [done|].
  rewrite !fmap_cons, !qsum_cons, IH. ring.
Qed.

Lemma cell_sum_ext pv w1 w2 : (∀ c, 0 <= c < zlen pv → w1 c = w2 c) → cell_sum pv w1 = cell_sum pv w2.
Proof.
  intros H. rewrite !cell_sum_seq. f_equal. apply list_fmap_ext. intros i c Hc.
  apply lookup_seqZ in Hc as [-> Hc]. rewrite H by lia. done.
Qed.

Lemma qsum_mul_l {A} k (f : A → Qc) l : qsum ((λ x, (k * f x)%Qc) <$> l) = (k * qsum (f <$> l))%Qc.
Proof. induction l as [|x l IH]; [cbn; ring|]. rewrite !fmap_cons, !qsum_cons, IH. ring. Qed.

(** Exchange of the sums over wells and over cells. *)
Lemma cell_sum_pairs {A B} pv (u : A → Z → Qc) (w : B → Z → Qc) Is Ps :
  qsum ((λ i, qsum ((λ p, cell_sum pv (λ c, (u i c * w p c)%Qc)) <$> Ps)) <$> Is) =
  cell_sum pv (λ c, (qsum ((λ i, u i c) <$> Is) * qsum ((λ p, w p c) <$> Ps))%Qc).
Proof.
  assert (∀ i, qsum ((λ p, cell_sum pv (λ c, (u i c * w p c)%Qc)) <$> Ps) =
               cell_sum pv (λ c, (u i c * qsum ((λ p, w p c) <$> Ps))%Qc)) as Hi.
  { intros i. induction Ps as [|p Ps IH].
    - cbn. rewrite <-(cell_sum_0 pv) at 1. apply cell_sum_ext. intros. unfold qsum. cbn. ring.
    - rewrite fmap_cons, qsum_cons, IH, <-cell_sum_add. apply cell_sum_ext. intros c _.
      rewrite fmap_cons, qsum_cons. ring. }
  induction Is as [|i Is IH].
  - cbn. rewrite <-(cell_sum_0 pv) at 1. apply cell_sum_ext. intros. unfold qsum. cbn. ring.
  - rewrite fmap_cons, qsum_cons, IH, Hi, <-cell_sum_add. apply cell_sum_ext. intros c _.
    rewrite fmap_cons, qsum_cons. ring.
Qed.

(** ** Pair fluxes *)
Section flux.
Variables (m : list (Z * @num exact)) (f : Z → option Qc).
Hypothesis Hm : stores m f.

Definition fterm (inflow : bool) (kq : Z * Qc) : Qc :=
  if Bool.eqb (Qc_ltb 0 kq.2) inflow then (kq.2 * at_cell f kq.1)%Qc else 0%Qc.

Lemma flux_value (l : list (Z * Qc)) b :
  @pair_flux_sum exact m (prod_map id Fin <$> l) b = Fin (qsum (fterm b <$> l)).
Proof.
  unfold pair_flux_sum. rewrite exact_n0.
  assert (∀ acc, foldl (λ (flux : @num exact) (kv : Z * @num exact),
     match om_find kv.1 m with
     | Some t => if Bool.eqb (@nltb exact (Fin 0%Qc) kv.2) b then nadd flux (nmul kv.2 t) else flux
     | None => flux
     end) (Fin acc) (prod_map id Fin <$> l) = Fin (acc + qsum (fterm b <$> l))%Qc) as H.
  2: { rewrite H. f_equal. ring. }
  induction l as [|[k q] l IH]; intros acc; [cbn; f_equal; ring|].
  rewrite !fmap_cons, qsum_cons. cbn [foldl prod_map id fst snd]. rewrite (stores_find _ _ _ Hm).
  assert (fterm b (k, q) = if Bool.eqb (Qc_ltb 0 q) b then (q * default 0 (f k))%Qc else 0%Qc) as ->
    by done.
  destruct (f k) as [t|] eqn:E; cbn [fmap option_fmap option_map default from_option].
  - cbn [nltb exact xltb nadd nmul xmul]. destruct (Bool.eqb (Qc_ltb 0 q) b); cbn [xadd].
    + rewrite IH. f_equal. unfold id. ring.
    + rewrite IH. f_equal. unfold id. ring.
  - rewrite IH. f_equal. destruct (Bool.eqb _ _); ring.
Qed.
End flux.

Lemma qsum_sign {A} (g : A → Qc) l : (∀ x, x ∈ l → (g x <= 0)%Qc) → (qsum (g <$> l) <= 0)%Qc.
Proof.
  induction l as [|x l IH]; intros H; [apply Qcle_refl|]. rewrite fmap_cons, qsum_cons.
  assert (g x <= 0)%Qc by (apply H; by left).
  assert (qsum (g <$> l) <= 0)%Qc by (apply IH; intros; apply H; by right). qclra.
Qed.

Lemma flux_nonneg f l : unit_field f → (0 <= qsum (fterm f true <$> l))%Qc.
Proof.
  intros Hf. apply qsum_nonneg, Forall_fmap, Forall_forall. intros [k q] _. unfold compose, fterm, at_cell.
  cbn. destruct (Qc_ltb 0 q) eqn:E; cbn; [|apply Qcle_refl]. apply Qc_ltb_true in E.
  destruct (f k) as [t|] eqn:Et; cbn; [|qclra]. destruct (Hf _ _ Et). qcnra.
Qed.

Lemma flux_nonpos f l : unit_field f → (qsum (fterm f false <$> l) <= 0)%Qc.
Proof.
  intros Hf. apply qsum_sign. intros [k q] _. unfold fterm, at_cell.
  cbn. destruct (Qc_ltb 0 q) eqn:E; cbn; [apply Qcle_refl|]. apply Qc_ltb_false in E.
  destruct (f k) as [t|] eqn:Et; cbn; [|qclra]. destruct (Hf _ _ Et). qcnra.
Qed.

Lemma flux_errors {N : Num} inj prod i p inflow : om_wf inflow →
  pair_flux inj prod i p inflow = Throw RuntimeError ↔ (i ∉ inflow.*1 ∨ p ∉ inflow.*1).
Proof.
  intros Hwf. unfold pair_flux.
  pose proof (om_find_none inflow i Hwf) as Hi. pose proof (om_find_none inflow p Hwf) as Hp.
  change (map fst inflow) with (inflow.*1) in *.
  destruct (om_find i inflow) eqn:Ei; [|naive_solver].
  destruct (om_find p inflow) eqn:Ep; [|naive_solver].
  split; [done|]. intros [H%Hi|H%Hp]; done.
Qed.
