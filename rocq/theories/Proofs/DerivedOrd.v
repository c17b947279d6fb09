(** C42: the F-Phi curve in any arithmetic with the order laws. *)
From Verif.Model Require Import Num DerivedQuantities.
From Verif.Spec Require Import GraphSpec DerivedSpec.
From Verif.Proofs Require Import Util OrdLaws.
Open Scope Z_scope.

Section laws.
Context {N : Num} (L : ord_laws N).
Notation ok := (o_ok N L).
Notation nn x := (ok x ∧ nleb n0 x = true).

Lemma nn0 : nn n0.
Proof. split; [apply ol_ok0|apply (ol_00 L)]. Qed.
Lemma nn_add a b : nn a → nn b → nn (nadd a b).
Proof. intros [] []. split; [by apply o_ok_add|by apply (ol_add_nonneg L)]. Qed.
Lemma nn_refl a : nn a → nleb a a = true.
Proof. intros []. eapply (o_refl_r N L n0 a); eauto. apply ol_ok0. Qed.
Lemma nn_le_trans a b c : ok a → ok b → ok c → nleb a b = true → nleb b c = true → nleb a c = true.
Proof. intros. by eapply (o_trans N L a b c). Qed.

Definition up (x : list num) := ∀ i j a b, (i ≤ j)%nat → x !! i = Some a → x !! j = Some b → nleb a b = true.

Lemma psum_from_spec acc l : nn acc → Forall (λ x, nn x) l →
  length (psum_from acc l) = length l ∧
  Forall (λ x, nn x ∧ nleb acc x = true) (psum_from acc l) ∧ up (psum_from acc l).
Proof.
  intros Ha Hl. revert acc Ha. induction Hl as [|x l Hx Hl IH]; intros acc Ha; cbn [psum_from].
  { split; [done|]. split; [constructor|]. by intros i j a b _ H. }
  assert (nn (nadd acc x)) as Hs by by apply nn_add.
  assert (nleb acc (nadd acc x) = true) as Hle. { destruct Ha, Hx. by apply (ol_add_le L). }
  destruct (IH _ Hs) as (IH1 & IH2 & IH3). split; [cbn; by rewrite IH1|]. split.
  - constructor; [done|]. eapply Forall_impl; [exact IH2|]. intros y [Hy Hy']. cbn beta. split; [done|].
    apply (nn_le_trans _ (nadd acc x)); try done; [by destruct Ha|by destruct Hs|by destruct Hy].
  - intros i j a b Hij Hi Hj. destruct i as [|i].
    + cbn in Hi. injection Hi as <-. destruct j as [|j]; cbn in Hj.
      * injection Hj as <-. by apply nn_refl.
      * rewrite Forall_lookup in IH2. by apply (IH2 j b).
    + destruct j as [|j]; [lia|]. cbn in Hi, Hj. eapply (IH3 i j); eauto. lia.
Qed.

Lemma partial_sum_up l : Forall (λ x, nn x) l →
  length (partial_sum (n0 :: l)) = S (length l) ∧
  Forall (λ x, nn x) (partial_sum (n0 :: l)) ∧ up (partial_sum (n0 :: l)) ∧
  partial_sum (n0 :: l) !! O = Some n0.
Proof.
  intros Hl. cbn [partial_sum]. destruct (psum_from_spec n0 l nn0 Hl) as (H1 & H2 & H3).
  split; [cbn; by rewrite H1|]. split; [|split; [|done]].
  - constructor; [apply nn0|]. eapply Forall_impl; [exact H2|]. by intros x [].
  - intros i j a b Hij Hi Hj. destruct i as [|i].
    + cbn in Hi. injection Hi as <-. destruct j as [|j]; cbn in Hj.
      * injection Hj as <-. apply nn_refl, nn0.
      * rewrite Forall_lookup in H2. by apply (H2 j b).
    + destruct j as [|j]; [lia|]. cbn in Hi, Hj. eapply (H3 i j); eauto. lia.
Qed.

Lemma last_default {A} (l : list A) d x : last l = Some x → List.last l d = x.
Proof. induction l as [|a [|b l] IH]; [done|by intros [= ->]|]. intros H. by apply IH. Qed.

(** The normalised cumulative sums of non-negative values: a ramp from 0 to 1,
    unless the total is zero or infinite, when the last value is NaN. *)
Lemma cumulative_ramp l : Forall (λ x, nn x) l →
  length (cumulative_normalized l) = S (length l) ∧
  ∃ t, last (partial_sum (n0 :: l)) = Some t ∧ nn t ∧
    last (cumulative_normalized l) = Some (ndiv t t) ∧
    (nltb n0 t = true → nltb t ninf = true → unit_ramp (cumulative_normalized l)).
Proof.
  intros Hl. destruct (partial_sum_up l Hl) as (H1 & H2 & H3 & H4).
  unfold cumulative_normalized. set (q := partial_sum (n0 :: l)) in *.
  destruct (last q) as [t|] eqn:Et; [|by apply last_None in Et; rewrite Et in H1].
  rewrite (last_default q n0 t Et). rewrite map_length. split; [done|]. exists t. split; [done|].
  assert (q !! length l = Some t) as Eq. { rewrite last_lookup, H1 in Et. exact Et. }
  assert (nn t) as Ht by (rewrite Forall_lookup in H2; by apply (H2 (length l))).
  change (map ?f q) with (f <$> q). rewrite fmap_last, Et. split; [done|]. split; [done|].
  intros Hpos Hfin. split; [|split].
  - exists (ndiv n0 t). rewrite list_lookup_fmap, H4. split; [done|]. apply (o_div0 N L); [by destruct Ht|done].
  - exists (ndiv t t). rewrite fmap_last, Et. split; [done|]. apply (o_div_self N L); [by destruct Ht|done|done].
  - intros i j a b Hij Hi Hj. rewrite list_lookup_fmap in Hi, Hj.
    apply fmap_Some in Hi as (x & Hx & ->). apply fmap_Some in Hj as (y & Hy & ->).
    pose proof (proj1 (Forall_lookup _ q) H2) as H2'.
    destruct (H2' i x Hx), (H2' j y Hy), Ht.
    apply (o_div N L); try done. by eapply (H3 i j).
Qed.

(** ** The curve *)
Lemma fphi_unfold srt itof ptof pv f :
  length itof = length pv → length ptof = length pv → Z.of_nat (length pv) < 2 ^ 31 →
  fphi_curve srt itof ptof pv f =
    let tp := time_and_pv itof ptof pv (nmul f (accumulate pv)) in
    if existsb (fun p => nisnan (fst p) || nisnan (snd p)) tp then UB
    else Ok (cumulative_normalized (map snd (srt tp)),
             cumulative_normalized (map (fun p => ndiv (snd p) (fst p)) (srt tp))).
Proof.
  intros H1 H2 H3. unfold fphi_curve.
  assert (zlen pv = zlen itof) as E1 by (unfold zlen; lia).
  assert (zlen pv = zlen ptof) as E2 by (unfold zlen; lia).
  rewrite (proj2 (Z.eqb_eq _ _) E1), (proj2 (Z.eqb_eq _ _) E2). cbn [negb orb].
  assert (to_int (zlen pv) = zlen pv) as ->. { apply to_int_small. unfold zlen. lia. }
  destruct (Z.ltb_spec (zlen pv) 0); [unfold zlen in *; lia|].
  rewrite take_ge; [done|]. unfold time_and_pv. rewrite map_length, !zip_with_length. unfold zlen. lia.
Qed.

Lemma time_and_pv_lookup itof ptof pv mx i p :
  length itof = length pv → length ptof = length pv →
  time_and_pv itof ptof pv mx !! i = Some p →
  ∃ a b v, itof !! i = Some a ∧ ptof !! i = Some b ∧ pv !! i = Some v ∧
    p = if nltb mx v then (nofZ (10 ^ 100), n0) else (nadd a b, v).
Proof.
  intros H1 H2. unfold time_and_pv. change (map ?f ?q) with (f <$> q). rewrite list_lookup_fmap. intros H.
  apply fmap_Some in H as ([[a b] v] & H & ->). apply lookup_zip_with_Some in H as ([a' b'] & v' & [= -> -> ->] & H & Hv).
  apply lookup_zip_with_Some in H as (? & ? & [= -> ->] & Ha & Hb). eauto 10.
Qed.

Theorem curve_ramp srt itof ptof pv f Phi F :
  sorting srt →
  Forall (λ x, ok x) itof → Forall (λ x, ok x) ptof →
  Forall (λ v, ok v ∧ nleb n0 v = true ∧ nltb v ninf = true) pv →
  Z.of_nat (length pv) < 2 ^ 31 →
  (∀ i a b, itof !! i = Some a → ptof !! i = Some b → nltb n0 (nadd a b) = true ∧ nltb (nadd a b) ninf = true) →
  fphi_curve srt itof ptof pv f = Ok (Phi, F) →
  ∀ X, X = Phi ∨ X = F →
    length X = S (length pv) ∧
    ((∃ t, last X = Some (ndiv t t) ∧ ok t ∧ nleb n0 t = true ∧ (nltb n0 t && nltb t ninf) = false) ∨ unit_ramp X).
Proof.
  intros Hs Hit Hpt Hpv Hn Ht Hok.
  assert (length itof = length pv ∧ length ptof = length pv) as [E1 E2].
  { unfold fphi_curve in Hok.
    destruct (zlen pv =? zlen itof) eqn:E1; [|done]. destruct (zlen pv =? zlen ptof) eqn:E2; [|done].
    apply Z.eqb_eq in E1, E2. unfold zlen in *. lia. }
  rewrite fphi_unfold in Hok by done. cbv zeta in Hok.
  set (tp := time_and_pv itof ptof pv (nmul f (accumulate pv))) in *.
  destruct (existsb _ tp) eqn:En; [done|]. injection Hok as <- <-.
  assert (Forall no_nan tp) as Hnn.
  { apply Forall_forall. intros p Hp.
    destruct (nisnan p.1) eqn:Ea; [|destruct (nisnan p.2) eqn:Eb; [|done]];
      (assert (existsb (λ p, nisnan p.1 || nisnan p.2) tp = true); [|congruence]);
      apply existsb_exists; exists p; (split; [by apply elem_of_list_In|]); by rewrite ?Ea, ?Eb, ?orb_true_r. }
  destruct (Hs tp Hnn) as [Hperm _].
  assert (length tp = length pv) as Elen. { unfold tp, time_and_pv. rewrite map_length, !zip_with_length. lia. }
  assert (∀ p, p ∈ srt tp → nn p.2 ∧ nn (ndiv p.2 p.1)) as Hall.
  { intros p Hp. rewrite Hperm in Hp. apply elem_of_list_lookup in Hp as [i Hi].
    apply time_and_pv_lookup in Hi as (a & b & v & Ha & Hb & Hv & ->); [|done..].
    pose proof (proj1 (Forall_lookup _ _) Hit _ _ Ha) as Oa. pose proof (proj1 (Forall_lookup _ _) Hpt _ _ Hb) as Ob.
    destruct (proj1 (Forall_lookup _ _) Hpv _ _ Hv) as (Ov & Pv & Fv).
    destruct (nltb _ v) eqn:Ecut; cbn [fst snd].
    - split; [apply nn0|]. pose proof (ol_ok0 L) as O0.
      assert (ok (nofZ (10 ^ 100))) as O100 by apply o_ok_ofZ.
      assert (neqb (ndiv n0 (nofZ (10 ^ 100))) n0 = true) as E.
      { apply (o_div0 N L); [done|]. apply (o_big N L). }
      apply (ol_eq_le L) in E as [_ E]; [|by apply o_ok_div|done]. split; [by apply o_ok_div|done].
    - destruct (Ht i a b Ha Hb) as [Tp Tf]. split; [done|].
      assert (ok (nadd a b)) as Oab by by apply o_ok_add. pose proof (ol_ok0 L) as O0.
      split; [by apply o_ok_div|].
      assert (neqb (ndiv n0 (nadd a b)) n0 = true) as E by by apply (o_div0 N L).
      apply (ol_eq_le L) in E as [_ E]; [|by apply o_ok_div|done].
      apply (nn_le_trans _ (ndiv n0 (nadd a b))); try done; try by apply o_ok_div.
      apply (o_div N L); try done. apply (ol_00 L). }
  assert (length (srt tp) = length pv) as Elen'. { by rewrite Hperm. }
  assert (∀ g : num * num → num, (∀ p, p ∈ srt tp → nn (g p)) →
    length (cumulative_normalized (map g (srt tp))) = S (length pv) ∧
    ((∃ t, last (cumulative_normalized (map g (srt tp))) = Some (ndiv t t) ∧ ok t ∧ nleb n0 t = true ∧ (nltb n0 t && nltb t ninf) = false)
     ∨ unit_ramp (cumulative_normalized (map g (srt tp))))) as Hg.
  { intros g Hg. destruct (cumulative_ramp (map g (srt tp))) as (H1 & t & H2 & H3 & H4 & H5).
    { apply Forall_forall. intros x Hx. apply elem_of_list_fmap in Hx as (p & -> & Hp). by apply Hg. }
    rewrite map_length, Elen' in H1. split; [done|].
    destruct (nltb n0 t && nltb t ninf) eqn:E.
    - right. apply andb_true_iff in E as []. by apply H5.
    - left. exists t. destruct H3. done. }
  intros X [->| ->]; apply Hg; intros p Hp; by apply Hall.
Qed.

(** No NaN reaches the sort, hence the function returns. *)
Lemma nn_not_nan a : ok a → nleb n0 a = true → nisnan a = false.
Proof.
  intros Ha H. unfold nisnan. rewrite (o_eq N L) by done. pose proof (ol_ok0 L).
  by rewrite (o_refl_r N L n0 a).
Qed.

Theorem curve_defined srt itof ptof pv f :
  length itof = length pv → length ptof = length pv →
  Forall (λ x, ok x) itof → Forall (λ x, ok x) ptof →
  Forall (λ v, ok v ∧ nleb n0 v = true ∧ nltb v ninf = true) pv →
  Z.of_nat (length pv) < 2 ^ 31 →
  (∀ i a b, itof !! i = Some a → ptof !! i = Some b → nltb n0 (nadd a b) = true ∧ nltb (nadd a b) ninf = true) →
  ∃ Phi F, fphi_curve srt itof ptof pv f = Ok (Phi, F).
Proof.
  intros E1 E2 Hit Hpt Hpv Hn Ht. rewrite fphi_unfold by done. cbv zeta.
  destruct (existsb _ _) eqn:E; [exfalso|eauto].
  apply existsb_exists in E as (p & Hp & E). apply elem_of_list_In, elem_of_list_lookup in Hp as [i Hi].
  apply time_and_pv_lookup in Hi as (a & b & v & Ha & Hb & Hv & ->); [|done..].
  pose proof (proj1 (Forall_lookup _ _) Hit _ _ Ha) as Oa. pose proof (proj1 (Forall_lookup _ _) Hpt _ _ Hb) as Ob.
  destruct (proj1 (Forall_lookup _ _) Hpv _ _ Hv) as (Ov & Pv & Fv).
  pose proof (ol_ok0 L) as O0. assert (ok (nofZ (10 ^ 100))) as O100 by apply o_ok_ofZ.
  destruct (nltb _ v) eqn:Ecut; cbn [fst snd] in E.
  - rewrite !nn_not_nan in E; try done; [apply (ol_00 L)|].
    apply (o_lt_le N L); [done|done|apply (o_big N L)].
  - destruct (Ht i a b Ha Hb) as [Tp _]. rewrite !nn_not_nan in E; try done; [by apply o_ok_add|].
    apply (o_lt_le N L); [done|by apply o_ok_add|done].
Qed.

(** With fraction 1 no cell is ignored. *)
Lemma foldl_ge l acc : nn acc → Forall (λ x, nn x) l →
  nn (foldl nadd acc l) ∧ nleb acc (foldl nadd acc l) = true ∧ ∀ x, x ∈ l → nleb x (foldl nadd acc l) = true.
Proof.
  intros Ha Hl. revert acc Ha. induction Hl as [|y l Hy Hl IH]; intros acc Ha; cbn [foldl].
  { split; [done|]. split; [by apply nn_refl|]. intros x Hx. by apply elem_of_nil in Hx. }
  assert (nn (nadd acc y)) as Hs by by apply nn_add. destruct (IH _ Hs) as (IH1 & IH2 & IH3). split; [done|]. split.
  - apply (nn_le_trans _ (nadd acc y)); try done; try (by destruct Ha); try (by destruct Hs); try (by destruct IH1).
    destruct Ha, Hy. by apply (ol_add_le L).
  - intros x Hx. apply elem_of_cons in Hx as [->|Hx]; [|by apply IH3].
    apply (nn_le_trans _ (nadd acc y)); try done; try (by destruct Hy); try (by destruct Hs); try (by destruct IH1).
    (* y <= acc + y *)
    pose proof nn0 as [O0 L0]. destruct Ha as [Oa La], Hy as [Oy Ly].
    apply (nn_le_trans _ (nadd n0 y)); try done; try by apply o_ok_add.
    + by apply (o_0add N L).
    + apply (o_add N L); try done. by apply nn_refl.
Qed.

Lemma cutoff_one pv v : Forall (λ v, nn v) pv → v ∈ pv → nltb (nmul n1 (accumulate pv)) v = false.
Proof.
  intros Hpv Hv. destruct (foldl_ge pv n0 nn0 Hpv) as (H1 & _ & H3). fold (accumulate pv) in *.
  rewrite Forall_forall in Hpv. pose proof (Hpv v Hv) as [Ov _]. destruct H1 as [O1 L1].
  assert (ok (nmul n1 (accumulate pv))) as Om by (apply o_ok_mul; [apply ol_ok1|done]).
  apply (o_nlt N L); [done|done|]. apply (nn_le_trans _ (accumulate pv)); try done; [by apply H3|].
  by apply (ol_eq_le L _ _ Om O1 (o_mul1 N L _ O1 L1)).
Qed.

Theorem fraction_one srt itof ptof pv f : Forall (λ v, nn v) pv →
  (∀ v, v ∈ pv → nltb (nmul f (accumulate pv)) v = false) →
  fphi_curve srt itof ptof pv n1 = fphi_curve srt itof ptof pv f.
Proof.
  intros Hpv Hf. unfold fphi_curve.
  assert (time_and_pv itof ptof pv (nmul n1 (accumulate pv)) = time_and_pv itof ptof pv (nmul f (accumulate pv))) as ->; [|done].
  unfold time_and_pv. apply map_ext_in. intros [[a b] v] Hin. apply elem_of_list_In, elem_of_zip_r in Hin.
  by rewrite cutoff_one, Hf.
Qed.

End laws.
