(** Volumes and fluxes of pairs of wells, computed with doubles, stay close to
    those of exact arithmetic. *)
From Coq Require Import ZArith Reals Lra Psatz QArith Qcanon Qreals.
From Coq.Floats Require Import SpecFloat.
From Flocq Require Import Core.Core IEEE754.BinarySingleNaN.
From Verif.Proofs Require Import B64Bridge.
From Verif.Model Require Import Base Num OMap Containers Solution Toolbox DerivedQuantities.
From Verif.Spec Require Import ToolboxSpec AcyclicSpec AccuracySpec.
From Verif.Proofs Require Import Util OMapFacts ExactNum QcLra OrdLaws B64Laws ToolboxSane ToolboxThms SolverBase Mirror Acyclic OppLaws Rounding PairTime Accuracy.
Open Scope Z_scope.

(** * Sums over the cells of a table *)
Section tables.
Context {N : Num}.
Implicit Types l t : cellset_values.
Lemma table_keys l : om_wf l → l = map (λ k, (k, value_at l k)) (map fst l).
Proof.
  intros H. rewrite map_map. rewrite <-(map_id l) at 1. apply map_ext_in. intros [k x] Hk%elem_of_list_In. cbn [fst].
  apply om_find_elem in Hk; [|done]. by rewrite (value_some _ _ _ Hk).
Qed.
Lemma table_dom l k : om_wf l → k ∈ map fst l ↔ is_Some (om_find k l).
Proof.
  intros H. pose proof (om_find_none l k H) as Hn. destruct (om_find k l) as [x|].
  - split; [by eexists|]. intros _. destruct (decide (k ∈ map fst l)) as [|Hk]; [done|]. by apply Hn in Hk.
  - split; [by intros Hk; apply Hn in Hk|by intros []].
Qed.
(** The cells of both tables whose values meet a test. *)
Definition both l t (P : num → bool) : list Z := filter (λ k, is_Some (om_find k t) ∧ P (value_at l k) = true) (map fst l).
Lemma table_sum l t (P : num → bool) h a : om_wf l →
  foldl (λ acc kv, match om_find kv.1 t with Some y => if P kv.2 then nadd acc (h kv.1 kv.2 y) else acc | None => acc end) a l =
  foldl nadd a (map (λ k, h k (value_at l k) (value_at t k)) (both l t P)).
Proof.
  intros H. unfold both. rewrite (table_keys l H) at 1. revert a. generalize (map fst l). intros ks. induction ks as [|k ks IH]; intros a; [done|].
  cbn [map foldl fst snd]. rewrite filter_cons. destruct (om_find k t) as [y|] eqn:E.
  - destruct (P (value_at l k)) eqn:EP.
    + rewrite decide_True by (split; [by eexists|done]). cbn [map foldl]. rewrite (value_some _ _ _ E). apply IH.
    + rewrite decide_False by (intros [_ [=]]). apply IH.
  - rewrite decide_False by (intros [[] _]; done). apply IH.
Qed.
Lemma volume_table inj prod p i j : om_wf (sol_concentration inj i) →
  (∀ k, is_Some (om_find k (sol_concentration inj i)) → 0 ≤ k < zlen (pb_pv p)) →
  pair_volume inj prod (pb_pv p) i j = Ok (sum_left (map (λ k, nmul (nmul (pore p k) (value_at (sol_concentration inj i) k)) (value_at (sol_concentration prod j) k))
    (both (sol_concentration inj i) (sol_concentration prod j) (λ _, true)))).
Proof.
  intros H Hr. unfold sum_left. rewrite <-(table_sum _ _ (λ _, true) (λ k x y, nmul (nmul (pore p k) x) y)) by done. unfold pair_volume.
  set (t := sol_concentration prod j). set (l := sol_concentration inj i) in *. assert (∀ kv, kv ∈ l → 0 ≤ kv.1 < zlen (pb_pv p)) as Hk.
  { intros [k x] Hk. cbn. apply Hr. exists x. by apply om_find_elem. } clearbody l t. clear Hr H. generalize (n0 : num). induction l as [|[k x] l IH]; intros a; [done|].
  cbn [foldM foldl fst snd]. destruct (om_find k t) as [y|].
  - destruct (zget_is (pb_pv p) k (Hk _ ltac:(left))) as (z & -> & Hz). cbn [mbind res_bind]. unfold pore at 2. rewrite Hz. cbn [default].
    apply IH. intros kv Hkv. apply Hk. by right.
  - apply IH. intros kv Hkv. apply Hk. by right.
Qed.
Lemma flux_table (t l : cellset_values) b : om_wf l →
  pair_flux_sum t l b = sum_left (map (λ k, nmul (value_at l k) (value_at t k)) (both l t (λ x, Bool.eqb (nltb n0 x) b))).
Proof. intros H. exact (table_sum l t (λ x, Bool.eqb (nltb n0 x) b) (λ _ x y, nmul x y) n0 H). Qed.
End tables.
(** Tables with the same cells, whose values meet the same tests. *)
Lemma both_eq (l t : @cellset_values b64) (l' t' : @cellset_values exact) P P' : map fst l' = map fst l →
  (∀ k, is_Some (om_find k t') ↔ is_Some (om_find k t)) → (∀ k, P' (value_at l' k) = P (value_at l k)) → both l' t' P' = both l t P.
Proof. intros E Hd HP. unfold both. rewrite E. apply list_filter_iff. intros k. by rewrite Hd, HP. Qed.
Lemma keys_eq (l : @cellset_values b64) (l' : @cellset_values exact) : om_wf l → om_wf l' →
  (∀ k, is_Some (om_find k l') ↔ is_Some (om_find k l)) → map fst l' = map fst l.
Proof.
  intros W W' Hd. unfold om_wf in *. assert (∀ k, k ∈ map fst l' ↔ k ∈ map fst l) as HE by (intros k; rewrite !table_dom; done).
  revert W W' HE. generalize (map fst l) as a. generalize (map fst l') as b. clear. intros b. induction b as [|x b IH]; intros [|y a] Wa Wb HE; [done|..].
  - pose proof (proj2 (HE y) ltac:(left)) as []%elem_of_nil.
  - pose proof (proj1 (HE x) ltac:(left)) as []%elem_of_nil.
  - inversion Wa as [|? ? Wa' Fa]; subst. inversion Wb as [|? ? Wb' Fb]; subst. rewrite Forall_forall in Fa, Fb.
    assert (∀ u w : Z, klt u w → u < w) as Hlt. { intros u w Huw. exact (proj1 (Z.compare_lt_iff u w) Huw). }
    assert (x = y) as ->.
    { pose proof (proj1 (HE x) ltac:(left)) as [|Hx]%elem_of_cons; [done|]. pose proof (proj2 (HE y) ltac:(left)) as [|Hy]%elem_of_cons; [done|].
      pose proof (Hlt _ _ (Fa x Hx)). pose proof (Hlt _ _ (Fb y Hy)). lia. }
    f_equal. apply IH; [done..|]. intros k. pose proof (HE k) as Hk. rewrite !elem_of_cons in Hk. split; intros Hi.
    + destruct (proj1 Hk ltac:(by right)) as [->|]; [|done]. pose proof (Hlt _ _ (Fb y Hi)). lia.
    + destruct (proj2 Hk ltac:(by right)) as [->|]; [|done]. pose proof (Hlt _ _ (Fa y Hi)). lia.
Qed.
Lemma both_length {N : Num} (l t : cellset_values) P n : om_wf l → (∀ k, is_Some (om_find k t) → 0 ≤ k < n) → (length (both l t P) ≤ Z.to_nat n)%nat.
Proof.
  intros W Hr. rewrite <-(seqZ_length 0 n). apply submseteq_length, NoDup_submseteq.
  - apply NoDup_filter, sorted_nodup. exact W.
  - intros k ([Hk _] & _)%elem_of_list_filter. apply elem_of_seqZ. specialize (Hr k Hk). lia.
Qed.

(** * Signs *)
Lemma mul_opp (x y : @num b64) : nmul (nopp x) y = nopp (nmul x y).
Proof.
  cbn [nmul nopp b64]. destruct x as [[]|[]| |[] mx ex], y as [[]|[]| |[] my ey]; try done; cbn [SFopp SFmul xorb negb]; unfold SpecFloat.binary_round_aux;
    repeat match goal with |- context [SpecFloat.shr_fexp ?a ?b ?c ?d ?e] => destruct (SpecFloat.shr_fexp a b c d e) as [??] end;
    match goal with |- context [match shr_m ?r with _ => _ end] => destruct (shr_m r) end; try done; by match goal with |- context [if ?b then _ else _] => destruct b end.
Qed.
Lemma sum_opp (l : list (@num b64)) : up_to_zero (sum_left l) (sum_left (map nopp l)).
Proof.
  unfold sum_left. assert (∀ a a' : @num b64, up_to_zero a a' → up_to_zero (foldl nadd a l) (foldl nadd a' (map nopp l))) as HH.
  { induction l as [|x l IH]; intros a a' Ha; [done|]. cbn [foldl map]. apply IH. cbn [nadd nopp b64]. by apply SFadd_opp. }
  apply HH. right. by do 2 eexists.
Qed.
Lemma zero_q a a' : up_to_zero a a' → q_of a' = nopp (q_of a).
Proof.
  intros [->|(b & b' & -> & ->)]; [exact (q_opp a)|]. cbn [q_of nopp exact xopp]. f_equal.
Qed.
Lemma exact_mul_opp (x y : @num exact) : finite x → finite y → nmul (nopp x) y = nopp (nmul x y).
Proof. intros [a ->] [b ->]. cbn. f_equal. ring. Qed.
Lemma exact_sum_opp (l : list (@num exact)) : Forall finite l → sum_left (map nopp l) = nopp (sum_left l).
Proof.
  unfold sum_left. intros H. assert (∀ a : Qc, foldl nadd (Fin (- a)%Qc : @num exact) (map nopp l) = nopp (foldl nadd (Fin a : @num exact) l)) as HH.
  { induction H as [|x l [q ->] _ IH]; intros a; [done|]. cbn [foldl map]. cbn [nadd nopp exact xadd xopp].
    rewrite <-IH. do 2 f_equal. ring. }
  specialize (HH 0%Qc). rewrite <-exact_n0 in HH. rewrite <-HH. rewrite exact_n0. do 2 f_equal.
Qed.

(** * Pairs of wells *)
Section pairs.
Context (p : @problem b64) (g : cgraph) (f : @cvalues b64) (g' : cgraph) (f' : @cvalues exact).
Context (Hp : valid p) (HP : poses p g f) (HP' : poses (exactly p) g' f') (HD : @data b64 b64_ok p) (Hac : acyclic (net_arcs p)).
Context (OR : ordinary p).
Notation p' := (exactly p).
Notation n := (pb_cells p).
Context (Ki Kp : nat) (kci kti kcp ktp : Z → nat) (BI : budget Injection p kci kti) (BP : budget Production p kcp ktp).
Context (HKi : ∀ v, (kci v ≤ Ki)%nat) (HKp : ∀ v, (kcp v ≤ Kp)%nat).
Context (HK : Z.of_nat (Ki + Kp + Z.to_nat n + 2) ≤ 2 ^ 50).
Context (i j : cellset_id) (ev ev' evp evp' : env) (sets sets' setsp setsp' : list cellset) (inj prod : @solution b64) (inj' prod' : @solution exact).
Context (RI : diagnose Injection ev g p f sets = Ok (OSol inj)) (RI' : diagnose Injection ev' g' p' f' sets' = Ok (OSol inj')).
Context (RP : diagnose Production evp g p f setsp = Ok (OSol prod)) (RP' : diagnose Production evp' g' p' f' setsp' = Ok (OSol prod')).
Context (Ii : i ∈ map cs_id sets) (Ii' : i ∈ map cs_id sets') (Jp : j ∈ map cs_id setsp) (Jp' : j ∈ map cs_id setsp').
Context (Li : ∀ v c, om_find v (sol_concentration inj' i) = Some c → nleb (Fin (pow2 (-300)) : @num exact) c = true).
Context (Lp : ∀ v c, om_find v (sol_concentration prod' j) = Some c → nleb (Fin (pow2 (-300)) : @num exact) c = true).
Notation ci := (sol_concentration inj i).
Notation ci' := (sol_concentration inj' i).
Notation cp := (sol_concentration prod j).
Notation cp' := (sol_concentration prod' j).

Lemma ci_app v : app Ki (-300) 0 (value_at ci v) (value_at ci' v) ∧ (is_Some (om_find v ci) ↔ served p Injection i v) ∧ (is_Some (om_find v ci') ↔ served p Injection i v).
Proof.
  destruct (conc_close p g f g' f' Hp HP HP' HD Hac OR Injection kci kti BI ev ev' sets sets' inj inj' i RI Ii RI' Ii' Li) as [_ H].
  destruct (H v) as [H1 H2]. split; [|exact H2]. eapply app_mono; [apply HKi|reflexivity|reflexivity|exact H1].
Qed.
Lemma cp_app v : app Kp (-300) 0 (value_at cp v) (value_at cp' v) ∧ (is_Some (om_find v cp) ↔ served p Production j v) ∧ (is_Some (om_find v cp') ↔ served p Production j v).
Proof.
  destruct (conc_close p g f g' f' Hp HP HP' HD Hac OR Production kcp ktp BP evp evp' setsp setsp' prod prod' j RP Jp RP' Jp' Lp) as [_ H].
  destruct (H v) as [H1 H2]. split; [|exact H2]. eapply app_mono; [apply HKp|reflexivity|reflexivity|exact H1].
Qed.
Lemma ci_dom v : is_Some (om_find v ci') ↔ is_Some (om_find v ci).
Proof. destruct (ci_app v) as (_ & -> & ->). done. Qed.
Lemma cp_dom v : is_Some (om_find v cp') ↔ is_Some (om_find v cp).
Proof. destruct (cp_app v) as (_ & -> & ->). done. Qed.
Lemma ci_range v : is_Some (om_find v ci) → 0 ≤ v < n.
Proof. destruct (ci_app v) as (_ & -> & _). apply served_range; done. Qed.
Lemma cp_range v : is_Some (om_find v cp) → 0 ≤ v < n.
Proof. destruct (cp_app v) as (_ & -> & _). apply served_range; done. Qed.
Lemma wf_i : om_wf ci ∧ om_wf ci'.
Proof.
  split; [apply (diagnose_wf p g f Hp HP Injection ev sets inj i RI)|].
  apply (diagnose_wf p' g' f' (ex_valid p Hp) HP' Injection ev' sets' inj' i RI').
Qed.

Lemma volume_app : ∃ x y, pair_volume inj prod (pb_pv p) i j = Ok x ∧ pair_volume inj' prod' (pb_pv p') i j = Ok y ∧
  app (Ki + Kp + Z.to_nat n + 2) (-700) 150 x y.
Proof.
  destruct wf_i as [W W'].
  rewrite volume_table; [|exact W|intros k Hk; rewrite (va_pv _ Hp); by apply ci_range].
  rewrite volume_table; [|exact W'|intros k Hk; rewrite (va_pv _ (ex_valid p Hp)); by apply ci_range, ci_dom].
  do 2 eexists. split; [done|]. split; [done|].
  rewrite (both_eq ci cp ci' cp' (λ _, true)); [|by apply keys_eq; [..|exact ci_dom]|exact cp_dom|done].
  set (ks := both ci cp (λ _, true)). assert (length ks ≤ Z.to_nat n)%nat as Hl by (apply both_length; [done|exact cp_range]).
  assert (app (Ki + Kp + 2 + length ks) (-700) (100 + 50)
    (sum_left (map (λ k, nmul (nmul (pore p k) (value_at ci k)) (value_at cp k)) ks))
    (sum_left (map (λ k, nmul (nmul (pore p' k) (value_at ci' k)) (value_at cp' k)) ks))) as H.
  { apply app_sum; try lia. intros k Hk. assert (0 ≤ k < n) as Hr.
    { unfold ks, both in Hk. apply elem_of_list_filter in Hk as [[Hk _] _]. by apply cp_range. }
    destruct (pore_app p OR HD Hp k Hr) as [HV _].
    pose proof (app_mul _ _ _ _ _ _ _ _ _ _ HV (proj1 (ci_app k)) ltac:(lia) ltac:(lia) ltac:(lia)) as H1.
    pose proof (app_mul _ _ _ _ _ _ _ _ _ _ H1 (proj1 (cp_app k)) ltac:(lia) ltac:(lia) ltac:(lia)) as H2.
    eapply app_mono; [| | |exact H2]; lia. }
  eapply app_mono; [| | |exact H]; lia.
Qed.

(** The rates of a well. *)
Context (HF : data finite p').
Lemma rates_q id : om_find id (pb_rates p') =
  (λ vals : @cellset_values b64, map (λ k : Z * @num b64, (k.1, q_of k.2)) vals : @cellset_values exact) <$> om_find id (pb_rates p).
Proof. apply (find_map (λ vals : @cellset_values b64, map (λ k : Z * @num b64, (k.1, q_of k.2)) vals : @cellset_values exact)). Qed.
Lemma q_keys (l : @cellset_values b64) : map fst (map (λ k : Z * @num b64, (k.1, q_of k.2)) l) = map fst l.
Proof. by rewrite map_map. Qed.
Lemma q_value (l : @cellset_values b64) k : value_at (map (λ k : Z * @num b64, (k.1, q_of k.2)) l : @cellset_values exact) k = q_of (value_at l k).
Proof.
  unfold value_at. assert (om_find k (map (λ k : Z * @num b64, (k.1, q_of k.2)) l) = q_of <$> om_find k l) as -> by apply (find_map q_of).
  by destruct (om_find k l).
Qed.
Lemma zero_app (x : @num b64) : b64_ok x → finite (q_of x) → nltb n0 x = false → nltb x n0 = false → app 0 (-100) 100 (nopp x) (nopp (q_of x)).
Proof.
  intros Hx Hf H1 H2. destruct x as [s|s| |s m e]; [|by destruct s|by destruct Hf|by destruct s].
  cbn [nopp b64 SFopp q_of exact xopp]. split; [by eexists| |].
  - rewrite RV_Fin, QR_opp, QR_0, Ropp_0. split; [done|]. split; [done|]. split; [lra|]. apply rel_refl. cbn. lra.
  - rewrite RV_Fin, QR_opp, QR_0, Ropp_0. apply tame_0.
Qed.
Section well.
Context (id : cellset_id) (l : @cellset_values b64) (El : om_find id (pb_rates p) = Some l).
Notation l' := (map (λ k : Z * @num b64, (k.1, q_of k.2)) l : @cellset_values exact).
Lemma l_wf : om_wf l.
Proof.
  destruct (va_rates _ Hp) as [H1 H2]. apply om_find_elem in El; [|exact H1]. rewrite Forall_forall in H2. exact (H2 _ El).
Qed.
Lemma l'_wf : om_wf l'.
Proof. unfold om_wf. rewrite q_keys. exact l_wf. Qed.
Lemma l_ok k x : om_find k l = Some x → b64_ok x ∧ finite (q_of x).
Proof.
  intros Hk. destruct (va_rates _ Hp) as [H1 _]. pose proof El as E. apply om_find_elem in E; [|exact H1]. apply om_find_elem in Hk; [|exact l_wf]. split.
  - exact (da_rates _ _ HD _ _ E Hk).
  - apply (da_rates _ _ HF (id, l') (k, q_of x)); [|].
    + cbn [exactly pb_rates]. apply elem_of_list_fmap. by exists (id, l).
    + apply elem_of_list_fmap. by exists (k, x).
Qed.
Lemma in_app k : nltb n0 (value_at l k) = true → app 0 (-100) 100 (value_at l k) (q_of (value_at l k)).
Proof.
  unfold value_at. destruct (om_find k l) as [x|] eqn:E; [|done]. intros Hx. apply (rate_app p OR HD Hp Injection id k). unfold well_rate. rewrite El, E.
  cbn [rate_part]. by rewrite Hx.
Qed.
Lemma out_app k : nltb n0 (value_at l k) = false → app 0 (-100) 100 (nopp (value_at l k)) (nopp (q_of (value_at l k))).
Proof.
  unfold value_at. destruct (om_find k l) as [x|] eqn:E.
  - intros Hx. destruct (nltb x n0) eqn:Hx'.
    + rewrite <-q_opp. apply (rate_app p OR HD Hp Production id k). unfold well_rate. rewrite El, E. cbn [rate_part]. by rewrite Hx, Hx'.
    + destruct (l_ok k x E). by apply zero_app.
  - intros _. by apply zero_app; [..|by eexists| |].
Qed.
Lemma in_flux (c : @cellset_values b64) (c' : @cellset_values exact) K : (∀ k, app K (-300) 0 (value_at c k) (value_at c' k)) →
  (∀ k, is_Some (om_find k c') ↔ is_Some (om_find k c)) → (∀ k, is_Some (om_find k c) → 0 ≤ k < n) → Z.of_nat (K + Z.to_nat n + 1) ≤ 2 ^ 50 →
  app (K + Z.to_nat n + 1) (-400) 150 (pair_flux_sum c l true) (pair_flux_sum c' l' true).
Proof.
  intros Hc Hd Hr Hk. rewrite !flux_table by (apply l_wf || apply l'_wf).
  rewrite (both_eq l c l' c' (λ x, Bool.eqb (nltb n0 x) true)); [|apply q_keys|exact Hd|intros k; by rewrite q_value, q_gt0].
  set (ks := both l c _). assert (length ks ≤ Z.to_nat n)%nat as Hl by (apply both_length; [apply l_wf|exact Hr]).
  assert (app (S (0 + K) + length ks) (-400) (100 + 50) (sum_left (map (λ k, nmul (value_at l k) (value_at c k)) ks))
    (sum_left (map (λ k, nmul (value_at l' k) (value_at c' k)) ks))) as H.
  { apply app_sum; try lia. intros k Hk'. unfold ks, both in Hk'. apply elem_of_list_filter in Hk' as [[_ HB] _]. apply eqb_prop in HB.
    rewrite q_value. apply (app_mul 0 K (-100) 100 (-300) 0); [by apply in_app|apply Hc|lia..]. }
  eapply app_mono; [| | |exact H]; lia.
Qed.
Lemma out_flux (c : @cellset_values b64) (c' : @cellset_values exact) K : (∀ k, app K (-300) 0 (value_at c k) (value_at c' k)) →
  (∀ k, is_Some (om_find k c') ↔ is_Some (om_find k c)) → (∀ k, is_Some (om_find k c) → 0 ≤ k < n) → Z.of_nat (K + Z.to_nat n + 1) ≤ 2 ^ 50 →
  ∃ z, app (K + Z.to_nat n + 1) (-400) 150 z (nopp (pair_flux_sum c' l' false)) ∧ q_of z = nopp (q_of (pair_flux_sum c l false)).
Proof.
  intros Hc Hd Hr Hk. rewrite !flux_table by (apply l_wf || apply l'_wf).
  rewrite (both_eq l c l' c' (λ x, Bool.eqb (nltb n0 x) false)); [|apply q_keys|exact Hd|intros k; by rewrite q_value, q_gt0].
  set (ks := both l c _). assert (length ks ≤ Z.to_nat n)%nat as Hl by (apply both_length; [apply l_wf|exact Hr]).
  assert (∀ k, k ∈ ks → nltb n0 (value_at l k) = false) as Hn.
  { intros k Hk'. unfold ks, both in Hk'. apply elem_of_list_filter in Hk' as [[_ HB] _]. by apply eqb_prop in HB. }
  assert (app (S (0 + K) + length ks) (-400) (100 + 50) (sum_left (map (λ k, nmul (nopp (value_at l k)) (value_at c k)) ks))
    (sum_left (map (λ k, nmul (nopp (q_of (value_at l k))) (value_at c' k)) ks))) as H.
  { apply app_sum; try lia. intros k Hk'. apply (app_mul 0 K (-100) 100 (-300) 0); [apply out_app, Hn, Hk'|apply Hc|lia..]. }
  eexists. split.
  - assert (∀ k, k ∈ ks → finite (q_of (value_at l k))) as Hf.
    { intros k Hk'. unfold value_at. destruct (om_find k l) as [x|] eqn:E; [by apply (l_ok k)|by eexists]. }
    rewrite <-exact_sum_opp.
    2:{ apply Forall_forall. intros x Hx. apply elem_of_list_fmap in Hx as (k & -> & Hk'). rewrite q_value. apply RV_mul; [by apply Hf|apply (Hc k)]. }
    rewrite map_map. eapply app_mono; [| | |]. 4:{ erewrite (map_ext_in (λ x, nopp (nmul (value_at l' x) (value_at c' x)))); [exact H|].
      intros k Hk'%elem_of_list_In. cbn beta. rewrite q_value. symmetry. apply exact_mul_opp; [by apply Hf|apply (Hc k)]. }
    all: lia.
  - rewrite <-(zero_q _ _ (sum_opp _)), map_map. do 2 f_equal. apply map_ext. intros k. apply mul_opp.
Qed.
End well.

Lemma flux_app_pair : is_Some (om_find i (pb_rates p)) → is_Some (om_find j (pb_rates p)) →
  ∃ x y x' y', pair_flux inj prod i j (pb_rates p) = Ok (x, y) ∧ pair_flux inj' prod' i j (pb_rates p') = Ok (x', y') ∧
  app (Kp + Z.to_nat n + 1) (-400) 150 x x' ∧ ∃ z, app (Ki + Z.to_nat n + 1) (-400) 150 z (nopp y') ∧ q_of z = nopp (q_of y).
Proof.
  intros [l El] [m Em]. unfold pair_flux. rewrite (rates_q i), (rates_q j), El, Em. cbn [fmap option_fmap option_map].
  do 4 eexists. split; [done|]. split; [done|]. split.
  - apply (in_flux i l El); [apply cp_app|apply cp_dom|apply cp_range|lia].
  - apply (out_flux j m Em); [apply ci_app|apply ci_dom|apply ci_range|lia].
Qed.
End pairs.
